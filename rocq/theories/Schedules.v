(** Some runs of the reader threads: one file at a time, and all files at once finished in any
    order. *)
From Coq Require Import Lia ZifyBool Permutation Relation_Operators.
From Verif Require Import Base Lint Pool PoolFacts Load.

Section Runs.
  Context {A : Type}.
  Variable cap : nat.
  Hypothesis cap_pos : 0 < cap.
  Notation reach := (clos_refl_trans_1n _ (@step A cap)).
  Notation item := (job A + lint)%type.

  Lemma reach_trans (a b c : pool A) : reach a b -> reach b c -> reach a c.
  Proof. induction 1 as [|x y z S R IH]; auto. intros R2. econstructor; [exact S|]. auto. Qed.

  (** One reader sends what it has and becomes free (or dies). *)
  Lemma drain u q a b r : forall m p o l, reach (mkPool u q (a ++ WBusy r m p :: b) o l) (mkPool u q (a ++ after p :: b) (o ++ r) (l ++ m)).
  Proof.
    induction r as [|x r IH]; intros m p o l.
    - revert l. induction m as [|y m IHm]; intros l.
      + rewrite !app_nil_r. econstructor; [apply s_finish|constructor].
      + econstructor; [apply s_send_lint|]. replace (l ++ y :: m) with ((l ++ [y]) ++ m) by now rewrite <- app_assoc. apply IHm.
    - econstructor; [apply s_send|]. replace (o ++ x :: r) with ((o ++ [x]) ++ r) by now rewrite <- app_assoc. apply IH.
  Qed.

  (** One at a time. *)
  Fixpoint seq_lints (w : nat) (items : list item) : list lint :=
    match items with
    | [] => []
    | inr x :: t => x :: seq_lints w t
    | inl j :: t => match w with O => [] | S w' => jb_lints j ++ seq_lints (if jb_panic j then w' else w) t end
    end.
  Definition idle_pool (d k : nat) : list (worker A) := repeat WDead d ++ repeat WIdle k.
  Lemma dead_repeat d : all_dead (repeat (@WDead A) d).
  Proof. induction d; constructor; auto. Qed.
  Lemma alive d k : ~ all_dead (idle_pool d (S k)).
  Proof. intros D. apply Forall_app in D as [_ D]. inversion D as [|? ? X _]. discriminate X. Qed.
  Lemma rest_stuck q (ws : list (worker A)) o l : (forall x, In x ws -> x = WDead \/ x = WIdle) -> (q = [] \/ ~ In WIdle ws) ->
    stuck cap (mkPool [] q ws o l).
  Proof.
    intros I Q p' S.
    assert (NB : forall a b r m pn, ws <> a ++ WBusy r m pn :: b).
    { intros a b r m pn E. destruct (I (WBusy r m pn)) as [X|X]; [rewrite E; apply in_or_app; right; now left| |]; discriminate X. }
    inversion S as [| | |u j q0 a b o0 l0 E1 E2|u q0 a b x r m pn o0 l0 E1 E2|u q0 a b r x m pn o0 l0 E1 E2|u q0 a b pn o0 l0 E1 E2]; subst.
    - destruct Q as [Q|Q]; [discriminate Q|]. apply Q. apply in_or_app. right. now left.
    - eapply NB; reflexivity.
    - eapply NB; reflexivity.
    - eapply NB; reflexivity.
  Qed.
  Lemma idle_in d k x : In x (idle_pool d k) -> x = WDead \/ x = WIdle.
  Proof. unfold idle_pool. intros Hx. apply in_app_iff in Hx as [Hx|Hx]; [left|right]; eapply repeat_spec; eauto. Qed.

  Lemma seq_reach items : forall k d o l, exists p, reach (mkPool items [] (idle_pool d k) o l) p /\ stuck cap p /\
    po_out p = o ++ flat_map jb_out (taken k (jobs_of items)) /\ po_lints p = l ++ seq_lints k items.
  Proof.
    induction items as [|[j|x] items IH]; intros k d o l.
    - eexists. split; [constructor|]. cbn [jobs_of flat_map seq_lints po_out po_lints]. rewrite taken_nil. cbn [flat_map]. rewrite !app_nil_r.
      split; auto. apply rest_stuck; [apply idle_in|now left].
    - change (jobs_of (inl j :: items)) with (j :: jobs_of items). destruct k as [|k].
      + exists (mkPool [] [] (idle_pool d 0) o l). split; [|cbn [taken flat_map seq_lints po_out po_lints]; rewrite !app_nil_r].
        * econstructor; [apply s_walk_panic|constructor]. unfold idle_pool. cbn [repeat]. rewrite app_nil_r. apply dead_repeat.
        * split; auto. apply rest_stuck; [apply idle_in|now left].
      + destruct (IH (if jb_panic j then k else S k) (if jb_panic j then S d else d) (o ++ jb_out j) (l ++ jb_lints j)) as (p & R & St & E1 & E2).
        exists p. split; [|split; [exact St|]].
        * econstructor; [apply s_feed; [exact cap_pos|apply alive]|]. cbn [app]. unfold idle_pool. cbn [repeat].
          econstructor; [apply s_take|]. eapply reach_trans; [apply drain|]. replace (repeat WDead d ++ after (jb_panic j) :: repeat WIdle k) with (idle_pool (if jb_panic j then S d else d) (if jb_panic j then k else S k)); auto.
          unfold idle_pool. destruct (jb_panic j); cbn [after repeat]; auto. clear. induction d as [|d IHd]; cbn [repeat app]; auto. now rewrite <- IHd.
        * rewrite E1, E2. cbn [taken flat_map seq_lints]. rewrite <- !app_assoc. destruct (jb_panic j); auto.
    - destruct (IH k d o (l ++ [x])) as (p & R & St & E1 & E2). exists p. split; [econstructor; [apply s_walk_lint|exact R]|]. split; auto.
      split; [exact E1|]. rewrite E2. cbn [seq_lints]. now rewrite <- app_assoc.
  Qed.

  (** All at once. *)
  Definition busy (j : job A) : worker A := WBusy (jb_out j) (jb_lints j) (jb_panic j).
  Lemma feed_all js : forall q ws, ~ all_dead ws -> length q + length js <= cap ->
    reach (mkPool (map inl js) q ws [] []) (mkPool [] (q ++ js) ws [] []).
  Proof.
    induction js as [|j js IH]; intros q ws D L; cbn [map].
    - rewrite app_nil_r. constructor.
    - cbn [length] in L. econstructor; [apply s_feed; [lia|exact D]|]. replace (q ++ j :: js) with ((q ++ [j]) ++ js) by now rewrite <- app_assoc.
      apply IH; auto. rewrite app_length. cbn [length]. lia.
  Qed.
  Lemma take_all js : forall ws k, reach (mkPool [] js (ws ++ repeat WIdle (length js + k)) [] []) (mkPool [] [] (ws ++ map busy js ++ repeat WIdle k) [] []).
  Proof.
    induction js as [|j js IH]; intros ws k; cbn [length map app Nat.add repeat].
    - constructor.
    - econstructor; [apply s_take|]. fold (busy j). replace (ws ++ busy j :: map busy js ++ repeat WIdle k) with ((ws ++ [busy j]) ++ map busy js ++ repeat WIdle k) by now rewrite <- app_assoc.
      replace (ws ++ busy j :: repeat WIdle (length js + k)) with ((ws ++ [busy j]) ++ repeat WIdle (length js + k)) by now rewrite <- app_assoc. apply IH.
  Qed.
  Lemma finish_any js : forall ws k o l, Forall (fun j => jb_panic j = false) js -> Permutation (map busy js ++ repeat WIdle k) ws ->
    exists ws', reach (mkPool [] [] ws o l) (mkPool [] [] ws' (o ++ flat_map jb_out js) (l ++ flat_map jb_lints js)) /\ Forall (fun x => x = WIdle) ws'.
  Proof.
    induction js as [|j js IH]; intros ws k o l F P; cbn [map app flat_map] in *.
    - exists ws. rewrite !app_nil_r. split; [constructor|]. eapply Permutation_Forall; [exact P|]. clear. induction k; constructor; auto.
    - assert (Hin : In (busy j) ws) by (eapply Permutation_in; [exact P|now left]). apply in_split in Hin as (a & b & ->).
      inversion F as [|? ? Fj F']; subst.
      destruct (IH (a ++ WIdle :: b) (S k) (o ++ jb_out j) (l ++ jb_lints j)) as (ws' & R & I); auto.
      { apply Permutation_cons_app_inv in P. etransitivity; [|apply Permutation_middle]. cbn [repeat]. etransitivity; [apply Permutation_sym, Permutation_middle|]. now constructor. }
      exists ws'. split; auto. eapply reach_trans; [unfold busy; apply drain|]. rewrite Fj. cbn [after]. rewrite !app_assoc in *. exact R.
  Qed.
  Lemma any_reach w (js js' : list (job A)) : 0 < w -> length js <= w -> length js <= cap -> Forall (fun j => jb_panic j = false) js -> Permutation js js' ->
    exists p, reach (start w (map inl js)) p /\ stuck cap p /\ po_out p = flat_map jb_out js' /\ po_lints p = flat_map jb_lints js'.
  Proof.
    intros W L C F P. assert (exists k, w = length js + k) as (k & ->) by (exists (w - length js); lia).
    destruct (finish_any js' (map busy js ++ repeat WIdle k) k [] []) as (ws' & R & I).
    { eapply Permutation_Forall; eauto. } { apply Permutation_app_tail, Permutation_map, Permutation_sym, P. }
    exists (mkPool [] [] ws' ([] ++ flat_map jb_out js') ([] ++ flat_map jb_lints js')). split; [|split; auto].
    - unfold start. eapply reach_trans; [apply feed_all|]; auto.
      { intros D. destruct (length js + k); [lia|]. inversion D as [|? ? X _]. discriminate X. }
      eapply reach_trans; [|exact R]. cbn [app]. apply (take_all js []).
    - apply rest_stuck; [|now left]. rewrite Forall_forall in I. auto.
  Qed.
End Runs.

(** The load where every thread does one file after the other. *)
Theorem run_seq {A} w (items : list (job A + lint)) : run_of w items (flat_map jb_out (taken w (jobs_of items))) (seq_lints w items).
Proof.
  destruct (seq_reach 128 ltac:(lia) items w 0 [] []) as (p & R & St & E1 & E2). exists p. cbn [app] in *. auto.
Qed.
(** The load where the files are finished in any order. *)
Theorem run_any {A} w (js js' : list (job A)) : length js <= w -> 0 < w -> length js <= 128 -> forallb (fun j => negb (jb_panic j)) js = true -> Permutation js js' ->
  run_of w (map inl js) (flat_map jb_out js') (flat_map jb_lints js').
Proof.
  intros L W C F P. assert (F' : Forall (fun j => jb_panic j = false) js).
  { rewrite forallb_forall in F. apply Forall_forall. intros j Hj. specialize (F j Hj). now destruct (jb_panic j). }
  destruct (any_reach 128 ltac:(lia) w js js' W L C F' P) as (p & R & St & E1 & E2). exists p. auto.
Qed.
