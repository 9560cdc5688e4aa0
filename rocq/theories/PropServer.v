(** C45: the server. *)
From Coq Require Import Relation_Operators Permutation Lia.
From Verif Require Import Base Name Artifact Stored Markdown Lint Source Pool Load Disk Walk Modify PropModify Server SpecServer ServerFacts ServerCalls.

(** ** C45 Server requests are atomic *)
(** Whatever the threads do: the answers, in the order they are given, are those of a server that
    serves one request after the other, and so are disk and project; a call in progress works on
    the disk this server leaves. *)
Theorem C45_atomic : forall D P E O J begins_read begins_modify goes ended (d : D) (p : P) c,
  serving D P E O J begins_read begins_modify goes ended d p c ->
  exists d0,
    serves_all D P E O J begins_read begins_modify goes ended (d, p, false) (sv_log _ _ _ _ _ c)
      (d0, sv_project _ _ _ _ _ c, sv_poisoned _ _ _ _ _ c) /\
    match sv_locked _ _ _ _ _ c with
    | None => sv_disk _ _ _ _ _ c = d0
    | Some (q, j) => exists j0, begins_call _ _ _ begins_read begins_modify d0 q j0 /\
                       clos_refl_trans_1n _ goes (d0, j0) (sv_disk _ _ _ _ _ c, j)
    end.
Proof.
  intros D P E O J br bm g e d p c H. apply inv_serving in H. destruct H as (d0 & Hs & Hi). exists d0. split; [exact Hs|].
  unfold in_progress in Hi. destruct (sv_locked _ _ _ _ _ c) as [[q j]|]; tauto.
Qed.
Print Assumptions C45_atomic.

(** The project served is the last one answered: errors and panics do not change it. *)
Theorem C45_served : forall D P E O J begins_read begins_modify goes ended (d : D) (p : P) c,
  serving D P E O J begins_read begins_modify goes ended d p c ->
  sv_project _ _ _ _ _ c = last_project P E O p (sv_log _ _ _ _ _ c).
Proof.
  intros D P E O J br bm g e d p c H. apply inv_serving in H. destruct H as (d0 & Hs & _). apply served_last in Hs. exact Hs.
Qed.
Print Assumptions C45_served.

(** A read without reload answers it. *)
Theorem C45_read : forall D P E O J begins_read begins_modify goes ended (d : D) (p : P) c l1 f a l2,
  serving D P E O J begins_read begins_modify goes ended d p c ->
  sv_log _ _ _ _ _ c = l1 ++ (QRead f, a) :: l2 -> f = None \/ f = Some (Some false) ->
  a = AProject (last_project P E O p l1) \/ (a = ADied /\ exists q, In (q, ADied) l1).
Proof.
  intros D P E O J br bm g e d p c l1 f a l2 H El Hf. apply inv_serving in H. destruct H as (d0 & Hs & _).
  rewrite El in Hs. apply serves_all_cut in Hs. destruct Hs as (u & v & H1 & H2).
  pose proof (served_last _ _ _ _ _ _ _ _ _ _ _ _ H1) as Ep. pose proof (poisoned_last _ _ _ _ _ _ _ _ _ _ _ _ H1) as Eb.
  cbn [snd fst orb] in Ep, Eb.
  inversion H2; subst; cbn [snd fst] in *;
    try (match goal with X : _ \/ _ \/ _ |- _ => destruct X as [X|[X|X]]; inversion X; subst end);
    try (destruct Hf as [Hf|Hf]; discriminate Hf).
  2: { left. f_equal. exact Ep. }
  right. split; [reflexivity|]. symmetry in Eb. apply existsb_exists in Eb. destruct Eb as ((q & x) & Hin & Hx).
  destruct x; try discriminate Hx. eauto.
Qed.
Print Assumptions C45_read.

(** After a handler panicked while it held the lock, no request gets an answer any more. *)
Theorem C45_poisoned : forall D P E O J begins_read begins_modify goes ended (d : D) (p : P) c l1 q a l2,
  serving D P E O J begins_read begins_modify goes ended d p c ->
  sv_log _ _ _ _ _ c = l1 ++ (q, a) :: l2 -> (exists q', In (q', ADied) l1) -> q <> QBad -> a = ADied.
Proof.
  intros D P E O J br bm g e d p c l1 q a l2 H El (q' & Hq') Hq. apply inv_serving in H. destruct H as (d0 & Hs & _).
  rewrite El in Hs. apply serves_all_cut in Hs. destruct Hs as (u & v & H1 & H2).
  pose proof (poisoned_last _ _ _ _ _ _ _ _ _ _ _ _ H1) as Eb. cbn [snd orb] in Eb.
  assert (X : existsb (fun e => dies P E (snd e)) l1 = true) by (apply existsb_exists; eexists; split; [exact Hq'|reflexivity]).
  rewrite X in Eb. destruct H2; cbn in Eb; try discriminate Eb; congruence.
Qed.
Print Assumptions C45_poisoned.

(** When the process is left after an interrupt, no call is in progress. *)
Theorem C45_exit : forall D P E O J begins_read begins_modify goes ended (d : D) (p : P) c,
  serving D P E O J begins_read begins_modify goes ended d p c ->
  sv_stopped _ _ _ _ _ c = true -> sv_locked _ _ _ _ _ c = None.
Proof.
  intros D P E O J br bm g e d p c H Hx. apply inv_serving in H. destruct H as (d0 & _ & Hi). unfold in_progress in Hi.
  destruct (sv_locked _ _ _ _ _ c) as [[q j]|]; [|reflexivity]. destruct Hi as (_ & X & _). congruence.
Qed.
Print Assumptions C45_exit.

(** Every request that was sent is answered once, being handled, or waiting; nothing else is
    answered. *)
Theorem C45_once : forall D P E O J begins_read begins_modify goes ended (d : D) (p : P) c,
  serving D P E O J begins_read begins_modify goes ended d p c ->
  (exists qs, sent D P E O J begins_read begins_modify goes ended d p qs c) /\
  forall qs, sent D P E O J begins_read begins_modify goes ended d p qs c -> Permutation qs (known D P E O J c).
Proof.
  intros D P E O J br bm g e d p c H. split.
  - unfold serving in H. remember (mkServer D P E O J d p false None false [] []) as u eqn:Eu.
    assert (S : exists qs, sent D P E O J br bm g e d p qs u) by (exists []; subst u; constructor). clear Eu.
    induction H as [u|u v w St _ IH]; [exact S|]. apply IH. destruct S as (qs & S).
    assert (X : (exists q, sv_waiting _ _ _ _ _ v = q :: sv_waiting _ _ _ _ _ u) \/ length (sv_waiting _ _ _ _ _ v) <= length (sv_waiting _ _ _ _ _ u)).
    { destruct St; cbn [sv_waiting]; try (right; rewrite ?app_length; cbn [length]; lia). left. eauto. }
    destruct X as [(q & X)|X]; [exists (q :: qs); eapply st_arrive|exists qs; eapply st_other]; eassumption.
  - intros qs S. clear H. induction S as [|qs c c' q S IH St W|qs c c' S IH St W]; [constructor| |].
    + destruct St; cbn [sv_waiting] in W; try (apply (f_equal (@length _)) in W; do 2 (rewrite ?app_length in W; cbn [length] in W); lia).
      injection W as W; subst q0. unfold known in *; cbn [sv_log sv_locked sv_waiting] in *. rewrite app_assoc in *. now apply Permutation_cons_app.
    + etransitivity; [exact IH|]. clear IH S. destruct St; cbn [sv_waiting length] in W; try lia; unfold known; cbn [sv_log sv_locked sv_waiting];
        rewrite ?map_app; cbn [map fst]; rewrite <- ?app_assoc; cbn [app]; try reflexivity; apply Permutation_app_head; try (symmetry; apply Permutation_middle).
      symmetry. rewrite !app_assoc. apply Permutation_middle.
Qed.
Print Assumptions C45_once.

(** With [read_project] and [modify_project] for the calls: the disk only changes by modifications
    that succeed, or fail while backing up or saving. *)
Theorem C45_disk : forall path_str M topo H heqb (hash_im : art_im -> H) debug_im st to_toml to_json yaml_done style load d p b q a d' p' b',
  serves _ _ _ _ _ (call_read M H load) (call_modify path_str M topo H heqb hash_im debug_im st load)
    (call_goes path_str M H st to_toml to_json yaml_done style) (call_ended M H) (d, p, b) q a (d', p', b') ->
  d' = d \/ exists ops, q = QModify (Some (Ok ops)) /\
    ((exists x, a = AProject x) \/ exists k c, a = AFailed (Some k, c) /\ (k = KBackups \/ k = KSave)).
Proof.
  intros ps M topo H heqb h db st tt tj yd sy load d p b q a d' p' b' S.
  assert (R : forall r, reads _ _ _ _ (call_read M H load) (call_goes ps M H st tt tj yd sy) (call_ended M H) d d' r -> d' = d).
  { intros r (j & j' & (r0 & _ & ->) & G & _). inversion G as [|y z E0 G0]; [congruence|]. inversion E0. }
  assert (G : forall E1 E3 x t j, clos_refl_trans_1n _ (call_goes ps M H st tt tj yd sy) (disk M H x, CModify M H E1 E3 x) (t, j) ->
    exists x', j = CModify M H E1 E3 x' /\ t = disk M H x' /\ clos_refl_trans_1n _ (mstep ps M H st tt tj yd sy E3) x x').
  { intros E1 E3 x t j G. remember (disk M H x, CModify M H E1 E3 x) as u eqn:Eu. remember (t, j) as v eqn:Ev. revert x Eu.
    induction G as [u|u v w S1 G IH]; intros x ->.
    - inversion Ev; subst. exists x. split; [reflexivity|]. split; [reflexivity|]. constructor.
    - inversion S1 as [E1' E3' y y' St A B]. subst. destruct (IH eq_refl y' eq_refl) as (x' & -> & -> & C).
      exists x'. split; [reflexivity|]. split; [reflexivity|]. econstructor; eassumption. }
  assert (Q : forall ops r, modifies _ _ _ _ _ (call_modify ps M topo H heqb h db st load) (call_goes ps M H st tt tj yd sy) (call_ended M H) d ops d' r ->
    match r with Ok (inl _) => True | Ok (inr (k, _)) => k = Some KBackups \/ k = Some KSave \/ d' = d | _ => d' = d end).
  { intros ops r (j & j' & (E1 & E3 & ld & x & _ & Hb & ->) & Hg & He).
    assert (Hd : disk M H x = d).
    { unfold begins in Hb. destruct (res_bind _ _) as [[y|[c0 p0]]| |]; try (subst x; reflexivity).
      destruct Hb as (todo & _ & ->). reflexivity. }
    rewrite <- Hd in Hg. apply G in Hg. destruct Hg as (x' & -> & -> & Hs).
    destruct x' as [| | |t' r']; cbn in He; try discriminate He. inversion He; subst r. cbn [disk].
    pose proof (C38_disk_untouched ps M topo H heqb h db st tt tj yd sy E1 E3 d ld ops t' r') as C.
    assert (Rn : runs ps M topo H heqb h db st tt tj yd sy E1 E3 d ld ops (MDone M H t' r')) by (exists x; auto).
    specialize (C Rn). destruct r' as [[y|[k y]]| |]; cbn; auto. destruct C as [->|[->|C]]; auto. }
  inversion S; subst; try (left; reflexivity); try (left; eapply R; eassumption).
  - right. exists ops. split; [reflexivity|]. left. eauto.
  - match goal with X : modifies _ _ _ _ _ _ _ _ _ _ _ _ |- _ => apply Q in X; rename X into Y end.
    destruct e as [k c]. destruct Y as [->|[->|Y]]; [right|right|left; exact Y]; exists ops; (split; [reflexivity|]); right; eauto 6.
  - match goal with X : modifies _ _ _ _ _ _ _ _ _ _ _ _ |- _ => apply Q in X; rename X into Y end.
    left. destruct r as [x| |]; [|exact Y|exact Y].
    exfalso. match goal with N : forall x, _ <> _ |- _ => apply (N x); reflexivity end.
Qed.
Print Assumptions C45_disk.

(** A small instance: disk and project are numbers, a modification replaces the number on disk in
    two steps or fails, a read returns it. *)
Definition ex_read (d : nat) (j : nat * nat) : Prop := j = (0, d).
Definition ex_modify (d ops : nat) (j : nat * nat) : Prop := j = (if Nat.eqb ops 0 then 3 else 2, ops).
Inductive ex_goes : nat * (nat * nat) -> nat * (nat * nat) -> Prop :=
| ex_half d n : ex_goes (d, (2, n)) (0, (1, n))
| ex_full d n : ex_goes (d, (1, n)) (n, (0, n)).
Definition ex_ended (j : nat * nat) : option (res (nat + nat)) :=
  match j with (0, n) => Some (Ok (inl n)) | (3, n) => Some (Ok (inr n)) | _ => None end.
Example C45_example : exists c, serving nat nat nat nat (nat * nat) ex_read ex_modify ex_goes ex_ended 5 5 c /\
  sv_log _ _ _ _ _ c = [(QModify (Some (Ok 7)), AProject 7); (QModify (Some (Ok 0)), AFailed 0); (QRead None, AProject 7);
                         (QModify (Some Panic), ADied); (QBad, AInvalid); (QRead (Some (Some true)), ADied)] /\
  sv_project _ _ _ _ _ c = 7 /\ sv_disk _ _ _ _ _ c = 7.
Proof.
  eexists. split; [|shelve]. unfold serving.
  eapply Relation_Operators.rt1n_trans; [apply v_arrive with (q := QModify (Some (Ok 0)))|].
  eapply Relation_Operators.rt1n_trans; [apply v_arrive with (q := QModify (Some (Ok 7)))|].
  eapply Relation_Operators.rt1n_trans; [apply v_arrive with (q := QRead None)|].
  eapply Relation_Operators.rt1n_trans; [apply (v_begin _ _ _ _ _ _ _ _ _ _ _ [QRead None] [QModify (Some (Ok 0))]); reflexivity|]. cbn [app].
  eapply Relation_Operators.rt1n_trans; [apply v_go, ex_half|].
  eapply Relation_Operators.rt1n_trans; [apply v_arrive with (q := QModify (Some Panic))|].
  eapply Relation_Operators.rt1n_trans; [apply v_go, ex_full|].
  eapply Relation_Operators.rt1n_trans; [apply v_end; reflexivity|]. cbn.
  eapply Relation_Operators.rt1n_trans; [apply (v_begin _ _ _ _ _ _ _ _ _ _ _ [QModify (Some Panic); QRead None] []); reflexivity|]. cbn [app].
  eapply Relation_Operators.rt1n_trans; [apply v_end; reflexivity|]. cbn.
  eapply Relation_Operators.rt1n_trans; [apply (v_immediate _ _ _ _ _ _ _ _ _ _ _ [QModify (Some Panic)] []); reflexivity|]. cbn.
  eapply Relation_Operators.rt1n_trans; [apply (v_immediate _ _ _ _ _ _ _ _ _ _ _ [] []); reflexivity|]. cbn.
  eapply Relation_Operators.rt1n_trans; [apply v_arrive with (q := QRead (Some (Some true)))|].
  eapply Relation_Operators.rt1n_trans; [apply v_arrive with (q := QBad)|].
  eapply Relation_Operators.rt1n_trans; [apply (v_bad _ _ _ _ _ _ _ _ _ _ _ _ _ _ [] _)|]. cbn.
  eapply Relation_Operators.rt1n_trans; [apply (v_poisoned _ _ _ _ _ _ _ _ _ _ _ [] []); discriminate|]. cbn.
  constructor.
  Unshelve. cbn. auto.
Qed.
