(** Proofs about completion (C13-C17). *)
From Coq Require Import QArith Qround Lqa Relations Permutation Lia ZArith.
From Verif Require Import Base BaseFacts Regex RegexFacts Name SpecName NameFacts SubFacts Family FamilyFacts RawNamesFacts
  Artifact Stored SpecGraph GraphFacts CompletedFacts BuildFacts SpecLinks LinkFacts ProjectFacts Numbers SpecCompletion
  AverageFacts RowFacts.
Open Scope nat_scope.

(** ** Own obligations *)
Lemma linked_mem c x : linked c x = im_mem sub_eqb x (ic_secondary c).
Proof.
  unfold linked, im_mem. induction (ic_secondary c) as [|[k v] l IH]; simpl; auto.
  unfold sub_eqb at 1. destruct (str_eqb (s_key k) (s_key x)); simpl; auto.
Qed.

Lemma fold_upc c d : (c = 84 \/ c = 83 \/ c = 46 \/ c = 45)%N -> (fold_char d = c <-> folds c d).
Proof.
  unfold fold_char, folds, c_longs, c_kelvin, upc, is_lower.
  destruct (N.eqb_spec d 383); destruct (N.leb_spec 97 d); destruct (N.leb_spec d 122); simpl; intros Hc;
    destruct Hc as [->|[->|[->| ->]]]; simpl; split; intros X; try lia;
    repeat match goal with X : _ \/ _ |- _ => destruct X | X : _ /\ _ |- _ => destruct X end; try lia.
Qed.

Lemma no_nl_star (x : str) : Forall (fun c => c <> 10%N) x -> lang (Star true dot) x.
Proof.
  intros H. apply lang_star_cls. eapply Forall_impl; [|exact H]. simpl. intros c Hc. unfold c_nl.
  apply negb_true_iff, N.eqb_neq. exact Hc.
Qed.

Lemma test_sub_re x : valid_sub (s_raw x) -> is_match_full re_tst_sub (s_raw x) = test_sub x.
Proof.
  intros V. apply valid_sub_chars in V as (y & Ey & _ & Hy).
  assert (NL : Forall (fun c => c <> 10%N) (s_raw x)).
  { rewrite Ey. constructor; [discriminate|]. eapply Forall_impl; [|exact Hy]. intros c [Hc| ->]; [|discriminate].
    apply word_not in Hc as (_ & _ & _ & _ & _ & Hc). intros ->. discriminate. }
  unfold test_sub. apply Bool.eq_iff_eq_true. rewrite is_match_full_iff.
  set (w := s_raw x) in *. clearbody w. clear -NL. split.
  - intros H. unfold re_tst_sub in H. apply lang_seqs_cons in H as (a & b & -> & Ha & H). apply lang_lit in Ha. subst a.
    apply lang_seqs_cons in H as (a & b1 & -> & Ha & H). apply lang_cis in Ha.
    apply lang_seqs_cons in H as (a' & b2 & -> & Hb & H). apply lang_lit in Hb. subst a'.
    change (s "tst") with [116; 115; 116]%N in Ha.
    inversion Ha as [|? d1 ? ? F1 Ha1]; subst. inversion Ha1 as [|? d2 ? ? F2 Ha2]; subst.
    inversion Ha2 as [|? d3 ? ? F3 Ha3]; subst. inversion Ha3; subst.
    assert (G1 : fold_char d1 = 84%N) by (apply fold_upc; auto).
    assert (G2 : fold_char d2 = 83%N) by (apply fold_upc; auto).
    assert (G3 : fold_char d3 = 84%N) by (apply fold_upc; auto).
    change (s ".TST-") with [46; 84; 83; 84; 45]%N. simpl. rewrite G1, G2, G3. now destruct (map fold_char b2).
  - intros H. change (s ".TST-") with [46; 84; 83; 84; 45]%N in H.
    destruct w as [|c0 [|c1 [|c2 [|c3 [|c4 w]]]]]; cbn [map starts_with] in H; try discriminate;
      repeat (apply andb_true_iff in H as [? H]); try discriminate.
    repeat match goal with E : N.eqb _ _ = true |- _ => apply N.eqb_eq in E; symmetry in E end.
    rewrite fold_upc in * by auto.
    unfold re_tst_sub. apply lang_seqs_cons. exists [c0], (c1 :: c2 :: c3 :: c4 :: w). split; auto. split.
    { apply lang_lit. f_equal. destruct H0 as [X|[[X _]|[X _]]]; try discriminate.
      change (upc 46) with 46%N in X. unfold upc, is_lower in X. change c_dot with 46%N.
      destruct (N.leb_spec 97 c0); destruct (N.leb_spec c0 122); simpl in X; lia. }
    apply lang_seqs_cons. exists [c1; c2; c3], (c4 :: w). split; auto. split.
    { apply lang_cis. change (s "tst") with [116; 115; 116]%N.
      constructor; [exact H1|]. constructor; [exact H2|]. constructor; [exact H3|constructor]. }
    apply lang_seqs_cons. exists [c4], w. split; auto. split.
    { apply lang_lit. f_equal. destruct H4 as [X|[[X _]|[X _]]]; try discriminate.
      change (upc 45) with 45%N in X. unfold upc, is_lower in X. change c_dash with 45%N.
      destruct (N.leb_spec 97 c4); destruct (N.leb_spec c4 122); simpl in X; lia. }
    apply no_nl_star. do 5 (inversion NL as [|? ? _ NL']; subst; clear NL; rename NL' into NL). exact NL.
Qed.

Lemma parse_valid t x : In x (parse_subnames t) -> valid_sub (s_raw x).
Proof. destruct x as [r k]. intros H. apply in_parse_subnames in H as [_ (p & [[V _] _])]. exact V. Qed.

(** Counts, in every arithmetic; values, in every arithmetic on [Q] that adds small integers
    exactly. *)
Section Own.
  Variables (add : Q -> Q -> Q) (div : Q -> nat -> Q) (FF : Type) (ff : FF) (rd : Q -> FF) (B : nat).
  Definition gen_num : num := mkNum Q 0%Q 1%Q add div FF ff rd.
  Hypothesis add_int : forall x m b, (b <= 1)%nat -> (m + b <= B)%nat -> (x == q_of m)%Q ->
    (add x (nbool gen_num (Nat.eqb b 1)) == q_of (m + b))%Q.

  Lemma code_fold c subs : Forall (fun x => valid_sub (s_raw x)) subs -> forall (acc : stats gen_num) m tm,
    (st_value acc == q_of m)%Q -> (st_tvalue acc == q_of tm)%Q -> m + length subs <= B -> tm + length subs <= B ->
    let r := fold_left (code_step gen_num c) subs acc in
    st_count r = st_count acc + length subs /\
    st_tcount r = st_tcount acc + length (filter test_sub subs) /\
    (st_value r == q_of (m + length (filter (linked c) subs)))%Q /\
    (st_tvalue r == q_of (tm + length (filter (linked c) (filter test_sub subs))))%Q.
  Proof.
    induction 1 as [|x l V _ IH]; intros acc m tm Hv Ht Hm Htm; cbn [fold_left].
    - simpl. rewrite !Nat.add_0_r. auto.
    - cbv zeta in *. simpl in Hm, Htm.
      set (b := if linked c x then 1 else 0).
      assert (Eb : nbool gen_num (im_mem sub_eqb x (ic_secondary c)) = nbool gen_num (Nat.eqb b 1)).
      { unfold b. rewrite linked_mem. now destruct (im_mem sub_eqb x (ic_secondary c)). }
      assert (Hb : b <= 1) by (unfold b; destruct (linked c x); lia).
      assert (Lb : forall f, length (filter f (x :: l)) = (if f x then 1 else 0) + length (filter f l)).
      { intros f. simpl. destruct (f x); reflexivity. }
      pose proof (add_int (st_value acc) m b Hb ltac:(lia) Hv) as A1.
      pose proof (add_int (st_tvalue acc) tm b Hb ltac:(lia) Ht) as A2.
      assert (Es : code_step gen_num c acc x =
        if test_sub x
        then mkStats (S (st_count acc)) (nadd gen_num (st_value acc) (nbool gen_num (b =? 1)))
             (S (st_tcount acc)) (nadd gen_num (st_tvalue acc) (nbool gen_num (b =? 1)))
        else mkStats (S (st_count acc)) (nadd gen_num (st_value acc) (nbool gen_num (b =? 1)))
             (st_tcount acc) (st_tvalue acc)).
      { unfold code_step. rewrite Eb, (test_sub_re x V). now destruct (test_sub x). }
      rewrite Es. clear Es. rewrite (Lb (linked c)), (Lb test_sub). fold b.
      destruct (test_sub x) eqn:Ets.
      + destruct (IH (mkStats (S (st_count acc)) (nadd gen_num (st_value acc) (nbool gen_num (b =? 1)))
             (S (st_tcount acc)) (nadd gen_num (st_tvalue acc) (nbool gen_num (b =? 1)))) (m + b) (tm + b) A1 A2 ltac:(lia) ltac:(lia))
          as (I1 & I2 & I3 & I4).
        cbn [st_count st_tcount] in *. change (length (x :: l)) with (S (length l)).
        cbn [st_count st_tcount st_value st_tvalue].
        split; [lia|]. split; [lia|]. split.
        * rewrite I3. rewrite Nat.add_assoc. reflexivity.
        * assert (X : length (filter (linked c) (filter test_sub (x :: l))) = b + length (filter (linked c) (filter test_sub l))).
          { cbn [filter]. rewrite Ets. cbn [filter]. unfold b. now destruct (linked c x). }
          rewrite X, I4, Nat.add_assoc. reflexivity.
      + destruct (IH (mkStats (S (st_count acc)) (nadd gen_num (st_value acc) (nbool gen_num (b =? 1)))
             (st_tcount acc) (st_tvalue acc)) (m + b) tm A1 Ht ltac:(lia) ltac:(lia))
          as (I1 & I2 & I3 & I4).
        cbn [st_count st_tcount] in *. change (length (x :: l)) with (S (length l)).
        split; [lia|]. split; [lia|]. split.
        * rewrite I3. rewrite Nat.add_assoc. reflexivity.
        * assert (X : filter test_sub (x :: l) = filter test_sub l) by (simpl; now rewrite Ets).
          rewrite X. exact I4.
  Qed.

  Lemma stats_own i subs : Forall (fun x => valid_sub (s_raw x)) subs -> 1 + length subs <= B ->
    let st := to_statistics gen_num i subs in
    st_count st = fst (own_spc i subs) /\ st_tcount st = fst (own_tst i subs) /\
    (st_value st == q_of (snd (own_spc i subs)))%Q /\ (st_tvalue st == q_of (snd (own_tst i subs)))%Q.
  Proof.
    intros V HB. destruct i as [d|c|]; cbv zeta.
    - simpl. repeat split; auto; reflexivity.
    - cbn [to_statistics].
      destruct (code_fold c subs V (mkStats 1 (nbool gen_num (match ic_primary c with Some _ => true | None => false end)) 0 (n0 gen_num))
                 (present (ic_primary c)) 0 ltac:(cbn [st_value]; destruct (ic_primary c); reflexivity) ltac:(reflexivity)
                 ltac:(destruct (ic_primary c); simpl; lia) ltac:(lia)) as (I1 & I2 & I3 & I4).
      cbn [own_spc own_tst fst snd]. cbn [st_count st_tcount] in *. repeat split; auto.
    - cbn [to_statistics own_spc own_tst fst snd]. destruct subs; simpl; repeat split; auto; reflexivity.
  Qed.
End Own.

Lemma own_le i subs : snd (own_spc i subs) <= fst (own_spc i subs) /\ snd (own_tst i subs) <= fst (own_tst i subs).
Proof.
  assert (FL : forall {A} (f : A -> bool) l, length (filter f l) <= length l).
  { intros A f l. induction l as [|x l IH]; simpl; auto. destruct (f x); simpl; lia. }
  destruct i as [d|c|]; simpl; auto.
  - split; [|apply FL]. pose proof (FL _ (linked c) subs). destruct (ic_primary c); simpl; lia.
  - split; [lia|auto].
Qed.

Lemma forall2_map_in {A B C} (R : B -> C -> Prop) (f : A -> B) (g : A -> C) l :
  (forall x, In x l -> R (f x) (g x)) -> Forall2 R (map f l) (map g l).
Proof. induction l as [|x l IH]; simpl; intros Hl; constructor; auto. Qed.

(** ** Solutions of the averaging equations *)
Section Solutions.
  Context {M : num} {H : Type}.
  Notation project := (list (name * artifact M H)).
  Open Scope Q_scope.

  Definition ranked (out : project) (rank : str -> nat) : Prop :=
    forall n a p, In (n, a) out -> In p (a_parts a) -> (rank (n_key p) < rank (n_key n))%nat.

  Lemma counted_in n ps p : In p (counted n ps) -> In p ps.
  Proof. unfold counted. destruct (ty_eqb (n_ty n) TST); auto. intros X. now apply filter_In in X. Qed.

  (** Induction along the parts. *)
  Lemma rank_ind (out : project) rank (P : str -> Prop) : out_ok out -> ranked out rank ->
    (forall n a, In (n, a) out -> (forall p, In p (a_parts a) -> P (n_key p)) -> P (n_key n)) ->
    forall n a, In (n, a) out -> P (n_key n).
  Proof.
    intros OO R Step.
    assert (X : forall k n a, (rank (n_key n) < k)%nat -> In (n, a) out -> P (n_key n)).
    { induction k as [|k IH]; intros n a Hk Hin; [lia|]. apply (Step n a Hin). intros p Hp.
      destruct (oo_parts out OO n a p Hin Hp) as (_ & n' & a' & Hin' & E). rewrite <- E.
      apply (IH n' a'); auto. rewrite E. pose proof (R n a p Hin Hp). lia. }
    intros n a Hin. apply (X (S (rank (n_key n))) n a); auto.
  Qed.

  Lemma averages_unique (out : project) rank spc tst spc' tst' : out_ok out -> ranked out rank ->
    averages out spc tst -> averages out spc' tst' ->
    forall n a, In (n, a) out -> spc (n_key n) == spc' (n_key n) /\ tst (n_key n) == tst' (n_key n).
  Proof.
    intros OO R A A'. apply (rank_ind out rank (fun k => spc k == spc' k /\ tst k == tst' k) OO R).
    intros n a Hin IH. destruct (A n a Hin) as [E1 E2], (A' n a Hin) as [E1' E2'].
    assert (S1 : spc (n_key n) == spc' (n_key n)).
    { rewrite E1, E1'. apply average_ext; [now rewrite !map_length|]. apply qsum_eq.
      assert (Y : forall p, In p (counted n (a_parts a)) -> spc (n_key p) == spc' (n_key p))
        by (intros p Hp; apply IH; eapply counted_in; eauto).
      now apply forall2_map_in. }
    split; auto. destruct (ty_eqb (n_ty n) TST).
    - now rewrite E2, E2'.
    - rewrite E2, E2'. apply average_ext; [now rewrite !map_length|]. apply qsum_eq.
      assert (Y : forall p, In p (a_parts a) -> tst (n_key p) == tst' (n_key p)) by (intros p Hp; apply IH; auto).
      now apply forall2_map_in.
  Qed.

  Lemma averages_unit (out : project) rank spc tst : out_ok out -> ranked out rank -> averages out spc tst ->
    forall n a, In (n, a) out -> unit_q (spc (n_key n)) /\ unit_q (tst (n_key n)).
  Proof.
    intros OO R A. apply (rank_ind out rank (fun k => unit_q (spc k) /\ unit_q (tst k)) OO R).
    intros n a Hin IH. destruct (A n a Hin) as [E1 E2].
    destruct (own_le (a_impl a) (a_subnames a)) as [L1 L2].
    assert (S1 : unit_q (spc (n_key n))).
    { pose proof (average_bounds (own_spc (a_impl a) (a_subnames a)) (map (fun p => spc (n_key p)) (counted n (a_parts a))) L1) as X.
      unfold unit_q in *. rewrite E1. apply X. apply Forall_forall. intros x Hx. apply in_map_iff in Hx as (p & <- & Hp).
      apply IH. eapply counted_in; eauto. }
    split; auto. destruct (ty_eqb (n_ty n) TST).
    - unfold unit_q in *. now rewrite E2.
    - pose proof (average_bounds (own_tst (a_impl a) (a_subnames a)) (map (fun p => tst (n_key p)) (a_parts a)) L2) as X.
      unfold unit_q in *. rewrite E2. apply X. apply Forall_forall. intros x Hx. apply in_map_iff in Hx as (p & <- & Hp).
      apply IH; auto.
  Qed.

  Lemma full_iff (out : project) rank spc tst : out_ok out -> ranked out rank -> averages out spc tst ->
    forall n a, In (n, a) out ->
    (spc (n_key n) == 1 <-> spc_done out (n_key n)) /\ (tst (n_key n) == 1 <-> tst_done out (n_key n)).
  Proof.
    intros OO R A.
    apply (rank_ind out rank (fun k => (spc k == 1 <-> spc_done out k) /\ (tst k == 1 <-> tst_done out k)) OO R).
    intros n a Hin IH. destruct (A n a Hin) as [E1 E2].
    destruct (own_le (a_impl a) (a_subnames a)) as [L1 L2].
    assert (U : forall p, In p (a_parts a) -> unit_q (spc (n_key p)) /\ unit_q (tst (n_key p))).
    { intros p Hp. destruct (oo_parts out OO n a p Hin Hp) as (_ & n' & a' & Hin' & E). rewrite <- E.
      eapply averages_unit; eauto. }
    assert (S1 : spc (n_key n) == 1 <-> spc_done out (n_key n)).
    { rewrite E1. rewrite average_one; auto.
      - rewrite map_length. split.
        + intros (F1 & F2 & F3). apply (Spc_done out n a); auto. intros p Hp. apply IH; [eapply counted_in; eauto|].
          rewrite Forall_forall in F3. apply F3. apply in_map_iff. eauto.
        + intros D. inversion D as [n' a' Hin' F1 F2 F3 En].
          destruct (out_same out OO n' a' n a Hin' Hin En) as [-> ->]. split; auto. split; auto.
          apply Forall_forall. intros x Hx. apply in_map_iff in Hx as (p & <- & Hp).
          apply IH; auto. eapply counted_in; eauto.
      - apply Forall_forall. intros x Hx. apply in_map_iff in Hx as (p & <- & Hp). apply U. eapply counted_in; eauto. }
    split; auto. destruct (ty_eqb (n_ty n) TST) eqn:Ety.
    - assert (Ht : n_ty n = TST) by (destruct (n_ty n); auto; discriminate).
      rewrite E2, S1. split.
      + intros D. now apply (Tst_done_test out n a).
      + intros D. inversion D as [n' a' Hin' F1 F2 En|n' a' Hin' F1 F2 F3 F4 En].
        * assumption.
        * destruct (out_same out OO n' a' n a Hin' Hin En) as [-> ->]. contradiction.
    - assert (Ht : n_ty n <> TST) by (intros X; rewrite X in Ety; discriminate).
      rewrite E2, average_one; auto.
      + rewrite map_length. split.
        * intros (F1 & F2 & F3). apply (Tst_done out n a); auto. intros p Hp. apply IH; auto.
          rewrite Forall_forall in F3. apply F3. apply in_map_iff. eauto.
        * intros D. inversion D as [n' a' Hin' F1 F2 En|n' a' Hin' F1 F2 F3 F4 En].
          -- destruct (out_same out OO n' a' n a Hin' Hin En) as [-> ->]. contradiction.
          -- destruct (out_same out OO n' a' n a Hin' Hin En) as [-> ->]. split; auto. split; auto.
             apply Forall_forall. intros x Hx. apply in_map_iff in Hx as (p & <- & Hp). apply IH; auto.
      + apply Forall_forall. intros x Hx. apply in_map_iff in Hx as (p & <- & Hp). apply U; auto.
  Qed.
End Solutions.

(** ** Comparing two projects with the same links *)
Definition same_links {M H M' H'} (out : list (name * artifact M H)) (out' : list (name * artifact M' H'))
  (R : artifact M H -> artifact M' H' -> Prop) : Prop :=
  forall n a, In (n, a) out -> exists n' a', In (n', a') out' /\ n_key n' = n_key n /\
    (forall k, In k (map n_key (a_parts a')) <-> In k (map n_key (a_parts a))) /\ R a a'.

Section Compare.
  Context {M M' : num} {H H' : Type}.
  Variables (out : list (name * artifact M H)) (out' : list (name * artifact M' H')).
  Hypothesis OO : out_ok out.
  Hypothesis OO' : out_ok out'.
  Open Scope Q_scope.

  (** A permutation of the parts that matches the keys. *)
  Lemma match_parts (l : list name) (l' : list name) : NoDup (map n_key l) -> NoDup (map n_key l') ->
    (forall k, In k (map n_key l') <-> In k (map n_key l)) ->
    Permutation (map n_key l) (map n_key l').
  Proof. intros N N' E. apply NoDup_Permutation; auto. intros x. symmetry. apply E. Qed.

  Lemma nodup_counted n ps : NoDup (map n_key ps) -> NoDup (map n_key (counted n ps)).
  Proof.
    unfold counted. destruct (ty_eqb (n_ty n) TST); auto. induction ps as [|p l IH]; simpl; auto.
    intros N. inversion N as [|? ? Hn N']; subst. destruct (not_test p); simpl; auto. constructor; auto.
    intros X. apply Hn. apply in_map_iff in X as (y & E & Hy). apply filter_In in Hy as [Hy _].
    apply in_map_iff. eauto.
  Qed.

  Lemma counted_keys n a n' a' : In (n, a) out -> In (n', a') out' -> n_key n' = n_key n ->
    (forall k, In k (map n_key (a_parts a')) <-> In k (map n_key (a_parts a))) ->
    forall k, In k (map n_key (counted n' (a_parts a'))) <-> In k (map n_key (counted n (a_parts a))).
  Proof.
    intros Hin Hin' En Ek k.
    assert (Et : n_ty n' = n_ty n) by exact (key_eq_ty n' n (oo_wf out' OO' n' a' Hin') (oo_wf out OO n a Hin) En).
    unfold counted. rewrite Et. destruct (ty_eqb (n_ty n) TST); auto.
    assert (W : forall p, In p (a_parts a) -> name_wf p) by (intros p Hp; now destruct (oo_parts out OO n a p Hin Hp)).
    assert (W' : forall p, In p (a_parts a') -> name_wf p) by (intros p Hp; now destruct (oo_parts out' OO' n' a' p Hin' Hp)).
    split; intros Hk; apply in_map_iff in Hk as (p & <- & Hp); apply filter_In in Hp as [Hp Ht].
    - assert (X : In (n_key p) (map n_key (a_parts a))) by (apply Ek; now apply in_map).
      apply in_map_iff in X as (p' & E & Hp'). apply in_map_iff. exists p'. split; auto. apply filter_In. split; auto.
      unfold not_test in *. now rewrite (key_eq_ty p' p (W _ Hp') (W' _ Hp) E).
    - assert (X : In (n_key p) (map n_key (a_parts a'))) by (apply Ek; now apply in_map).
      apply in_map_iff in X as (p' & E & Hp'). apply in_map_iff. exists p'. split; auto. apply filter_In. split; auto.
      unfold not_test in *. now rewrite (key_eq_ty p' p (W' _ Hp') (W _ Hp) E).
  Qed.

  (** Averages over matching parts, compared by a relation on values. *)
  Lemma mono_step (rank : str -> nat) spc tst spc' tst' :
    ranked out rank -> ranked out' rank -> averages out spc tst -> averages out' spc' tst' ->
    same_links out out' (fun a a' => improves (a_impl a) (a_subnames a) (a_impl a') (a_subnames a')) ->
    forall n a, In (n, a) out -> spc (n_key n) <= spc' (n_key n) /\ tst (n_key n) <= tst' (n_key n).
  Proof.
    intros R R' A A' SL. apply (rank_ind out rank (fun k => spc k <= spc' k /\ tst k <= tst' k) OO R).
    intros n a Hin IH. destruct (SL n a Hin) as (n' & a' & Hin' & En & Ek & [I1 I2]).
    destruct (A n a Hin) as [E1 E2], (A' n' a' Hin') as [E1' E2'].
    assert (Et : n_ty n' = n_ty n) by exact (key_eq_ty n' n (oo_wf out' OO' n' a' Hin') (oo_wf out OO n a Hin) En).
    destruct (own_le (a_impl a) (a_subnames a)) as [L1 L2]. destruct (own_le (a_impl a') (a_subnames a')) as [L1' L2'].
    assert (U : forall p, In p (a_parts a) -> unit_q (spc (n_key p)) /\ unit_q (tst (n_key p))).
    { intros p Hp. destruct (oo_parts out OO n a p Hin Hp) as (_ & m & b & Hm & E). rewrite <- E.
      exact (averages_unit out rank spc tst OO R A m b Hm). }
    assert (U' : forall p, In p (a_parts a') -> unit_q (spc' (n_key p)) /\ unit_q (tst' (n_key p))).
    { intros p Hp. destruct (oo_parts out' OO' n' a' p Hin' Hp) as (_ & m & b & Hm & E). rewrite <- E.
      exact (averages_unit out' rank spc' tst' OO' R' A' m b Hm). }
    (* generic comparison *)
    assert (Cmp : forall (f f' : str -> Q) own own' l l', (snd own <= fst own)%nat -> (snd own' <= fst own')%nat -> better own own' ->
       NoDup (map n_key l) -> NoDup (map n_key l') -> (forall k, In k (map n_key l') <-> In k (map n_key l)) ->
       (forall p, In p l -> unit_q (f (n_key p)) /\ f (n_key p) <= f' (n_key p)) -> (forall p, In p l' -> unit_q (f' (n_key p))) ->
       average own (map (fun p => f (n_key p)) l) <= average own' (map (fun p => f' (n_key p)) l')).
    { intros f f' own own' l l' Lo Lo' Bt Nl Nl' Kl Fl Fl'.
      pose proof (match_parts l l' Nl Nl' Kl) as P.
      assert (Q1 : average own' (map (fun p => f' (n_key p)) l') == average own' (map (fun p => f' (n_key p)) l)).
      { apply average_ext.
        - rewrite !map_length. rewrite <- (map_length n_key l), <- (map_length n_key l'). symmetry. now apply Permutation_length.
        - apply qsum_perm. replace (map (fun p => f' (n_key p)) l') with (map f' (map n_key l')) by apply map_map.
          replace (map (fun p => f' (n_key p)) l) with (map f' (map n_key l)) by apply map_map.
          apply Permutation_map. now apply Permutation_sym. }
      rewrite Q1. apply average_mono; auto.
      - apply Forall_forall. intros x Hx. apply in_map_iff in Hx as (p & <- & Hp). now apply Fl.
      - apply Forall_forall. intros x Hx. apply in_map_iff in Hx as (p & <- & Hp).
        assert (X : In (n_key p) (map n_key l')) by (apply Kl; now apply in_map).
        apply in_map_iff in X as (p' & <- & Hp'). now apply Fl'.
      - apply forall2_map_in. intros p Hp. now apply Fl. }
    assert (S1 : spc (n_key n) <= spc' (n_key n)).
    { rewrite <- En at 2. rewrite E1, E1'. apply Cmp; auto.
      - apply nodup_counted. exact (oo_pnodup out OO n a Hin).
      - apply nodup_counted. exact (oo_pnodup out' OO' n' a' Hin').
      - now apply counted_keys.
      - intros p Hp. apply counted_in in Hp. split; [now apply U|now apply IH].
      - intros p Hp. apply counted_in in Hp. now apply U'. }
    split; auto. rewrite Et in E2'. destruct (ty_eqb (n_ty n) TST).
    - rewrite <- En at 2. rewrite E2, E2', En. exact S1.
    - rewrite <- En at 2. rewrite E2, E2'. apply Cmp; auto.
      + exact (oo_pnodup out OO n a Hin).
      + exact (oo_pnodup out' OO' n' a' Hin').
      + intros p Hp. split; [now apply U|now apply IH].
      + intros p Hp. now apply U'.
  Qed.

  Lemma same_links_below R : same_links out out' R -> forall k k', below out k k' -> below out' k k'.
  Proof.
    intros SL k k' (n & a & p & Hin & <- & Hp & <-). destruct (SL n a Hin) as (n' & a' & Hin' & En & Ek & _).
    assert (X : In (n_key p) (map n_key (a_parts a'))) by (apply Ek; now apply in_map).
    apply in_map_iff in X as (p' & E & Hp'). exists n', a', p'. auto.
  Qed.

  Lemma same_links_cyclic R : same_links out out' R -> cyclic out -> cyclic out'.
  Proof.
    intros SL (k & Hk). exists k. revert Hk. generalize k at 1 3. intros k0 Hk. induction Hk as [x y Hxy|].
    - apply t_step. eapply same_links_below; eauto.
    - eapply t_trans; eauto.
  Qed.

  Lemma same_links_ranked R rank : same_links out out' R -> (forall k, In k (map (fun e => n_key (fst e)) out') -> In k (map (fun e => n_key (fst e)) out)) ->
    ranked out rank -> ranked out' rank.
  Proof.
    intros SL Ks Rk n' a' p' Hin' Hp'.
    assert (X : In (n_key n') (map (fun e => n_key (fst e)) out)) by (apply Ks; apply in_map_iff; exists (n', a'); auto).
    apply in_map_iff in X as ([n a] & En & Hin). simpl in En. destruct (SL n a Hin) as (m & b & Hb & Em & Ek & _).
    destruct (out_same out' OO' m b n' a' Hb Hin' ltac:(congruence)) as [-> ->].
    assert (X : In (n_key p') (map n_key (a_parts a))) by (apply Ek; now apply in_map).
    apply in_map_iff in X as (p & E & Hp). rewrite <- E, <- En. eapply Rk; eauto.
  Qed.
End Compare.
