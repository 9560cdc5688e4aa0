(** The matcher of Regex.v is sound and complete for the language semantics. *)
From Coq Require Import Lia ZifyBool.
From Verif Require Import Base Regex BaseFacts.

(** Language semantics with captures (used only in proofs; [mat_lang] relates it to the
    plain semantics). *)
Inductive mat : re -> str -> caps -> caps -> Prop :=
| MEps cs : mat Eps [] cs cs
| MCls f c cs : f c = true -> mat (Cls f) [c] cs cs
| MSeq a b x y cs cs1 cs2 : mat a x cs cs1 -> mat b y cs1 cs2 -> mat (Seq a b) (x ++ y) cs cs2
| MAltL a b x cs cs1 : mat a x cs cs1 -> mat (Alt a b) x cs cs1
| MAltR a b x cs cs1 : mat b x cs cs1 -> mat (Alt a b) x cs cs1
| MStar0 g a cs : mat (Star g a) [] cs cs
| MStarS g a x y cs cs1 cs2 : mat a x cs cs1 -> mat (Star g a) y cs1 cs2 -> mat (Star g a) (x ++ y) cs cs2
| MCap i a x cs cs1 : mat a x cs cs1 -> mat (Cap i a) x cs ((i, x) :: cs1).

Lemma mat_lang r m cs cs' : mat r m cs cs' -> lang r m.
Proof.
  induction 1; [constructor|now constructor|now constructor|now apply LAltL|now apply LAltR
               |constructor|now apply LStarS|now constructor].
Qed.

Definition sound_at (r : re) := forall s0 cs rest cs',
  In (rest, cs') (run r s0 cs) -> exists m, s0 = m ++ rest /\ mat r m cs cs'.

Lemma iter_sound a g (Ha : sound_at a) n : forall s0 cs rest cs',
  In (rest, cs') (iter (run a) g n s0 cs) -> exists m, s0 = m ++ rest /\ mat (Star g a) m cs cs'.
Proof.
  induction n as [|n IH]; simpl; intros s0 cs rest cs' H.
  - destruct H as [H|[]]. inversion H; subst. exists []. split; auto. constructor.
  - assert (Hmore : In (rest, cs') (flat_map
       (fun st => if Nat.ltb (length (fst st)) (length s0) then iter (run a) g n (fst st) (snd st) else [])
       (run a s0 cs)) -> exists m, s0 = m ++ rest /\ mat (Star g a) m cs cs').
    { intros H'. apply in_flat_map in H' as ([r1 cs1] & H1 & H2). simpl in H2.
      destruct (Nat.ltb _ _); [|destruct H2].
      destruct (Ha _ _ _ _ H1) as (m1 & -> & M1). destruct (IH _ _ _ _ H2) as (m2 & -> & M2).
      exists (m1 ++ m2). split; [apply app_assoc|]. econstructor; eauto. }
    assert (Hnil : (s0, cs) = (rest, cs') -> exists m, s0 = m ++ rest /\ mat (Star g a) m cs cs').
    { intros E; inversion E; subst. exists []. split; auto. constructor. }
    destruct g.
    + apply in_app_iff in H as [H|[H|[]]]; auto.
    + destruct H as [H|H]; auto.
Qed.

Lemma run_sound r : sound_at r.
Proof.
  induction r; intros s0 cs rest cs' H; simpl in H.
  - destruct H as [H|[]]. inversion H; subst. exists []. split; auto. constructor.
  - destruct s0 as [|c s0]; [destruct H|]. destruct (f c) eqn:E; [|destruct H].
    destruct H as [H|[]]. inversion H; subst. exists [c]. split; auto. now constructor.
  - apply in_flat_map in H as ([r1' cs1] & H1 & H2). simpl in H2.
    destruct (IHr1 _ _ _ _ H1) as (m1 & -> & M1). destruct (IHr2 _ _ _ _ H2) as (m2 & -> & M2).
    exists (m1 ++ m2). split; [apply app_assoc|]. econstructor; eauto.
  - apply in_app_iff in H as [H|H].
    + destruct (IHr1 _ _ _ _ H) as (m & ? & ?). exists m. split; auto. now constructor.
    + destruct (IHr2 _ _ _ _ H) as (m & ? & ?). exists m. split; auto. now constructor.
  - eapply iter_sound; eauto.
  - apply in_map_iff in H as ([r1 cs1] & E & H). inversion E; subst.
    destruct (IHr _ _ _ _ H) as (m & -> & M). exists m. split; auto. simpl.
    rewrite app_length. replace (length m + length rest - length rest) with (length m) by lia.
    rewrite firstn_app, Nat.sub_diag, firstn_all. simpl. rewrite app_nil_r. now constructor.
Qed.

Definition complete_at (r : re) := forall m rest cs,
  lang r m -> exists cs', In (rest, cs') (run r (m ++ rest) cs).

(** A word of a star language splits into non-empty words. *)
Lemma star_nonempty g a m :
  lang (Star g a) m -> m = [] \/ exists x y, x <> [] /\ m = x ++ y /\ lang a x /\ lang (Star g a) y.
Proof.
  remember (Star g a) as r eqn:E. intros H. revert E.
  induction H; intros E; inversion E; subst; auto.
  destruct x as [|c x].
  - simpl. auto.
  - right. exists (c :: x), y. repeat split; auto. discriminate.
Qed.

Lemma iter_complete a g (Ha : complete_at a) n : forall m rest cs,
  length (m ++ rest) <= n -> lang (Star g a) m ->
  exists cs', In (rest, cs') (iter (run a) g n (m ++ rest) cs).
Proof.
  induction n as [|n IH]; simpl; intros m rest cs Hn L.
  - destruct m; [|simpl in Hn; lia]. destruct rest; [|simpl in Hn; lia]. exists cs. now left.
  - destruct (star_nonempty _ _ _ L) as [->|(x & y & Hx & -> & Lx & Ly)].
    + exists cs. simpl. destruct g; [apply in_or_app; right|]; now left.
    + rewrite <- app_assoc in Hn |- *.
      destruct (Ha x (y ++ rest) cs Lx) as (cs1 & H1).
      destruct x as [|c x]; [congruence|].
      destruct (IH y rest cs1) as (cs2 & H2); auto.
      { rewrite app_length in Hn. simpl in Hn. lia. }
      exists cs2.
      assert (In (rest, cs2) (flat_map
       (fun st => if Nat.ltb (length (fst st)) (length ((c :: x) ++ y ++ rest)) then iter (run a) g n (fst st) (snd st) else [])
       (run a ((c :: x) ++ y ++ rest) cs))) as H.
      { apply in_flat_map. exists (y ++ rest, cs1). split; auto. simpl fst.
        replace (Nat.ltb _ _) with true; auto. symmetry. apply Nat.ltb_lt.
        rewrite (app_length (c :: x)). simpl. lia. }
      destruct g; [apply in_or_app; left|right]; exact H.
Qed.

Lemma run_complete r : complete_at r.
Proof.
  induction r; intros m rest cs L; simpl.
  - inversion L; subst. exists cs. now left.
  - inversion L as [|? ? Hf| | | | | |]; subst. simpl. rewrite Hf. exists cs. now left.
  - inversion L as [| |? ? x y Lx Ly| | | | |]; subst. rewrite <- app_assoc.
    destruct (IHr1 x (y ++ rest) cs Lx) as (cs1 & H).
    destruct (IHr2 y rest cs1 Ly) as (cs2 & H').
    exists cs2. apply in_flat_map. exists (y ++ rest, cs1). auto.
  - inversion L as [| | |? ? ? L1|? ? ? L1| | |]; subst.
    + destruct (IHr1 m rest cs L1) as (cs1 & H). exists cs1. apply in_or_app. now left.
    + destruct (IHr2 m rest cs L1) as (cs1 & H). exists cs1. apply in_or_app. now right.
  - apply iter_complete; auto.
  - inversion L as [| | | | | | |? ? ? L1]; subst. destruct (IHr m rest cs L1) as (cs1 & H).
    eexists. apply in_map_iff. exists (rest, cs1). split; [reflexivity|auto].
Qed.

(** The two facts together: the results of [run] are exactly the prefixes in the language. *)
Theorem run_lang r s0 rest :
  (exists cs', In (rest, cs') (run r s0 [])) <-> exists m, s0 = m ++ rest /\ lang r m.
Proof.
  split.
  - intros (cs' & H). destruct (run_sound _ _ _ _ _ H) as (m & -> & M).
    exists m. split; auto. eapply mat_lang; eauto.
  - intros (m & -> & L). apply run_complete; auto.
Qed.

Theorem is_match_full_iff r s0 : is_match_full r s0 = true <-> lang r s0.
Proof.
  unfold is_match_full, match_full.
  destruct (filter _ (run r s0 [])) as [|[rest cs] l] eqn:E.
  - split; [discriminate|]. intros L.
    destruct (run_complete r s0 [] [] L) as (cs' & H). rewrite app_nil_r in H.
    assert (H' : In ([], cs') (filter (fun st : mstate => match fst st with [] => true | _ :: _ => false end)
                                (run r s0 []))) by (apply filter_In; auto).
    rewrite E in H'. destruct H'.
  - split; auto. intros _.
    assert (H' : In (rest, cs) (filter (fun st : mstate => match fst st with [] => true | _ :: _ => false end)
                                (run r s0 []))) by (rewrite E; now left).
    apply filter_In in H' as [H1 H2]. destruct rest; [|discriminate].
    destruct (run_sound _ _ _ _ _ H1) as (m & -> & M). rewrite app_nil_r.
    eapply mat_lang; eauto.
Qed.

Lemma match_full_mat r s0 cs : match_full r s0 = Some cs -> mat r s0 [] cs.
Proof.
  unfold match_full. destruct (filter _ (run r s0 [])) as [|[rest cs0] l] eqn:E; [discriminate|].
  intros H. injection H as Hc. simpl in Hc. subst cs0.
  assert (H' : In (rest, cs) (filter (fun st : mstate => match fst st with [] => true | _ :: _ => false end)
                                (run r s0 []))) by (rewrite E; now left).
  apply filter_In in H' as [H1 H2]. destruct rest; [|discriminate].
  destruct (run_sound _ _ _ _ _ H1) as (m & -> & M). now rewrite app_nil_r.
Qed.

Lemma match_full_none r s0 : match_full r s0 = None <-> ~ lang r s0.
Proof.
  rewrite <- is_match_full_iff. unfold is_match_full. destruct (match_full r s0).
  - split; [discriminate|]. intros H. exfalso. now apply H.
  - split; auto.
Qed.

Lemma match_here_sound r s0 rest cs :
  match_here r s0 = Some (rest, cs) -> exists m, s0 = m ++ rest /\ mat r m [] cs.
Proof.
  unfold match_here. destruct (run r s0 []) as [|st l] eqn:E; [discriminate|].
  intros H; inversion H; subst. apply run_sound. rewrite E. now left.
Qed.

Lemma match_here_none r s0 :
  match_here r s0 = None <-> ~ exists m rest, s0 = m ++ rest /\ lang r m.
Proof.
  unfold match_here. destruct (run r s0 []) as [|[rest cs] l] eqn:E.
  - split; auto. intros _ (m & rest & -> & L).
    destruct (run_complete r m rest [] L) as (cs' & H). rewrite E in H. destruct H.
  - split; [discriminate|]. intros H. exfalso. apply H.
    destruct (run_sound r s0 [] rest cs) as (m & -> & M); [rewrite E; now left|].
    exists m, rest. split; auto. eapply mat_lang; eauto.
Qed.

Lemma match_here_some r m rest :
  lang r m -> exists rest' cs, match_here r (m ++ rest) = Some (rest', cs).
Proof.
  intros L. destruct (match_here r (m ++ rest)) as [[rest' cs]|] eqn:E; eauto.
  apply match_here_none in E. exfalso. apply E. eauto.
Qed.

Theorem is_match_any_iff r s0 :
  is_match_any r s0 = true <-> exists p m q, s0 = p ++ m ++ q /\ lang r m.
Proof.
  induction s0 as [|c s0 IH]; simpl.
  - destruct (match_here r []) as [[rest cs]|] eqn:E.
    + split; auto. intros _. destruct (match_here_sound _ _ _ _ E) as (m & E2 & M).
      exists [], m, rest. split; auto. eapply mat_lang; eauto.
    + split; [discriminate|]. intros (p & m & q & E2 & L).
      symmetry in E2. apply app_eq_nil in E2 as [-> E2]. apply app_eq_nil in E2 as [-> ->].
      apply match_here_none in E. exfalso. apply E. exists [], []. auto.
  - destruct (match_here r (c :: s0)) as [[rest cs]|] eqn:E.
    + split; auto. intros _. destruct (match_here_sound _ _ _ _ E) as (m & E2 & M).
      exists [], m, rest. split; auto. eapply mat_lang; eauto.
    + rewrite IH. split.
      * intros (p & m & q & -> & L). exists (c :: p), m, q. auto.
      * intros (p & m & q & E2 & L). destruct p as [|d p].
        -- apply match_here_none in E. exfalso. apply E. exists m, q. auto.
        -- inversion E2; subst. exists p, m, q. auto.
Qed.

(** ** Inversion of the language of combinators *)

Lemma lang_eps m : lang Eps m <-> m = [].
Proof. split; [inversion 1; auto|intros ->; constructor]. Qed.
Lemma lang_cls f m : lang (Cls f) m <-> exists c, m = [c] /\ f c = true.
Proof. split; [inversion 1; eauto|intros (c & -> & H); now constructor]. Qed.
Lemma lang_seq a b m : lang (Seq a b) m <-> exists x y, m = x ++ y /\ lang a x /\ lang b y.
Proof. split; [inversion 1; subst; eauto|intros (x & y & -> & ? & ?); now constructor]. Qed.
Lemma lang_alt a b m : lang (Alt a b) m <-> lang a m \/ lang b m.
Proof. split; [inversion 1; auto|intros [H|H]; [now apply LAltL|now apply LAltR]]. Qed.
Lemma lang_cap i a m : lang (Cap i a) m <-> lang a m.
Proof. split; [inversion 1; auto|now constructor]. Qed.
Lemma lang_opt a m : lang (opt a) m <-> lang a m \/ m = [].
Proof. unfold opt. rewrite lang_alt, lang_eps. tauto. Qed.
Lemma lang_seqs_cons a b l m : lang (seqs (a :: b :: l)) m <->
  exists x y, m = x ++ y /\ lang a x /\ lang (seqs (b :: l)) y.
Proof. change (seqs (a :: b :: l)) with (Seq a (seqs (b :: l))). apply lang_seq. Qed.
Lemma lang_lit c m : lang (lit c) m <-> m = [c].
Proof.
  unfold lit. rewrite lang_cls. split.
  - intros (d & -> & H). apply N.eqb_eq in H. now subst.
  - intros ->. exists c. now rewrite N.eqb_refl.
Qed.
Lemma lang_lits x m : lang (lits x) m <-> m = x.
Proof.
  unfold lits. revert m. induction x as [|c x IH]; intros m.
  - simpl. apply lang_eps.
  - destruct x as [|d x].
    + simpl. apply lang_lit.
    + simpl map. rewrite lang_seqs_cons. change (lit d :: map lit x) with (map lit (d :: x)).
      split.
      * intros (a & b & -> & Ha & Hb). apply lang_lit in Ha. apply IH in Hb. now subst.
      * intros ->. exists [c], (d :: x). repeat split; [now apply lang_lit|now apply IH].
Qed.

(** Repetition of a class. *)
Lemma lang_star_cls g f m : lang (Star g (Cls f)) m <-> Forall (fun c => f c = true) m.
Proof.
  split.
  - remember (Star g (Cls f)) as r eqn:E. intros H. revert E.
    induction H; intros E; inversion E; subst; auto.
    apply lang_cls in H as (c & -> & Hc). simpl. constructor; auto.
  - induction 1 as [|c m Hc Hm IH].
    + constructor.
    + change (c :: m) with ([c] ++ m). constructor; auto. now constructor.
Qed.
Lemma lang_plus_cls f m : lang (plus (Cls f)) m <-> m <> [] /\ Forall (fun c => f c = true) m.
Proof.
  unfold plus. rewrite lang_seq. split.
  - intros (x & y & -> & Hx & Hy). apply lang_cls in Hx as (c & -> & Hc).
    apply lang_star_cls in Hy. split; [discriminate|]. simpl. now constructor.
  - intros [Hn H]. destruct m as [|c m]; [congruence|]. inversion H; subst.
    exists [c], m. repeat split; [now constructor|now apply lang_star_cls].
Qed.

(** Case-insensitive literals. *)
Definition folds (c d : char) : Prop :=
  upc d = upc c \/ (upc c = 83%N /\ d = c_longs) \/ (upc c = 75%N /\ d = c_kelvin).
Lemma lang_ci c m : lang (ci c) m <-> exists d, m = [d] /\ folds c d.
Proof.
  unfold ci, folds. rewrite lang_cls. split; intros (d & -> & H); exists d; split; auto.
  - rewrite !orb_true_iff, !andb_true_iff, !N.eqb_eq in H. tauto.
  - rewrite !orb_true_iff, !andb_true_iff, !N.eqb_eq. tauto.
Qed.
Lemma lang_cis x m : lang (cis x) m <-> Forall2 folds x m.
Proof.
  unfold cis. revert m. induction x as [|c x IH]; intros m.
  - simpl. rewrite lang_eps. split; [intros ->; constructor|now inversion 1].
  - destruct x as [|d x].
    + simpl. rewrite lang_ci. split.
      * intros (e & -> & H). constructor; [exact H|constructor].
      * inversion 1 as [|? ? ? ? H1 H2]; subst. inversion H2; subst. eauto.
    + simpl map. rewrite lang_seqs_cons. change (ci d :: map ci x) with (map ci (d :: x)).
      split.
      * intros (a & b & -> & Ha & Hb). apply lang_ci in Ha as (e & -> & He). apply IH in Hb.
        simpl. now constructor.
      * inversion 1 as [|? e ? b H1 H2]; subst. exists [e], b. repeat split.
        -- apply lang_ci. eauto.
        -- now apply IH.
Qed.
