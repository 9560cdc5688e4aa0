(** Completion of loaded projects (C13-C17). *)
From Coq Require Import QArith Qround Lqa Relations Permutation Lia ZArith.
From Verif Require Import Base BaseFacts Name SpecName NameFacts SubFacts Family FamilyFacts RawNamesFacts
  Artifact Stored SpecGraph GraphFacts CompletedFacts BuildFacts SpecLinks LinkFacts ProjectFacts Numbers SpecCompletion
  AverageFacts RowFacts CompletionFacts.
Open Scope nat_scope.

Section Build.
  Variables (M : num) (topo : graph -> option (list nat)) (H : Type) (hash_im : art_im -> H).
  Hypothesis TC : topo_ok topo.
  Notation build := (build M topo H hash_im).

  Lemma out_subs arts code out : Forall im_wf arts -> build arts code = Ok out ->
    forall n a, In (n, a) out -> Forall (fun x => valid_sub (s_raw x)) (a_subnames a).
  Proof.
    intros W E n a Hin. destruct (build_ok M topo TC H hash_im arts code) as (gs & comp & G & C & E2).
    rewrite E in E2. inversion E2 as [Eo]. subst out. apply in_map_iff in Hin as (e & X & He). inversion X; subst.
    cbn [built a_subnames]. apply Forall_forall. intros x Hx. eapply parse_valid; eauto.
  Qed.

  (** What can be read off an entry. *)
  Lemma out_entries arts code out : Forall im_wf arts -> distinct arts -> build arts code = Ok out ->
    (forall n x, In (n, x) out -> exists a, In a arts /\ n = im_name a) /\
    (forall a, In a arts -> exists x, In (im_name a, x) out /\ a_impl x = impl_im code a /\ a_subnames x = subs_im a /\
       a_id x = hash_im (im_clean a) /\ a_file x = im_file a /\ a_text x = clean_text (im_text a) /\ a_name x = im_name a).
  Proof.
    intros W D E. destruct (build_entry M topo H hash_im TC arts code out W D E) as (gs & comp & G & C & ->). split.
    - intros n x Hin. apply in_map_iff in Hin as (a & X & Ha). inversion X; subst. eauto.
    - intros a Ha. eexists. split; [apply in_map_iff; exists a; split; [reflexivity|auto]|]. repeat split; auto.
  Qed.

  (** The parts, in terms of the artifacts as read. *)
  Definition linked_im (arts : list art_im) (a b : art_im) : Prop :=
    (named (im_name a) (im_partof b) /\ ~ own_link (n_key (im_name b)) (n_key (im_name a))) \/
    own_link (n_key (im_name b)) (n_key (im_name a)).

  Lemma parts_im arts code out : Forall im_wf arts -> distinct arts -> build arts code = Ok out ->
    forall a x, In a arts -> In (im_name a, x) out -> forall k,
    In k (map n_key (a_parts x)) <-> exists b, In b arts /\ n_key (im_name b) = k /\ linked_im arts a b.
  Proof.
    intros W D E a x Ha Hx k.
    pose proof (build_out M topo H hash_im TC arts code out W E) as OO.
    destruct (out_entries arts code out W D E) as [O1 O2].
    rewrite Forall_forall in W. assert (W' : Forall im_wf arts) by now apply Forall_forall. split.
    - intros Hk. apply in_map_iff in Hk as (p & <- & Hp).
      destruct (oo_parts out OO _ _ p Hx Hp) as (Wp & n2 & x2 & Hin2 & E2).
      destruct (O1 n2 x2 Hin2) as (b & Hb & ->). exists b. split; auto. split; auto.
      assert (N : named (im_name b) (a_parts x)) by (exists p; auto).
      apply (parts_inverse M topo H hash_im TC arts code out W' E _ _ _ _ Hx Hin2) in N.
      destruct (partof_exact M topo H hash_im TC arts code out W' D E b Hb) as (x3 & Hin3 & PE).
      destruct (out_same out OO _ _ _ _ Hin2 Hin3 eq_refl) as [_ ->].
      apply PE in N; [|apply W, Ha]. unfold linked_im. tauto.
    - intros (b & Hb & <- & L).
      destruct (partof_exact M topo H hash_im TC arts code out W' D E b Hb) as (x2 & Hin2 & PE).
      assert (N : named (im_name a) (a_partof x2)).
      { apply PE; [apply W, Ha|]. destruct L as [L|L]; auto. right. split; auto. exists a. auto. }
      apply (parts_inverse M topo H hash_im TC arts code out W' E _ _ _ _ Hx Hin2) in N.
      destruct N as (p & Hp & Ep). apply in_map_iff. exists p. auto.
  Qed.
End Build.

(** Two ways of reading a project with the same links. *)
Section Two.
  Variables (M M' : num) (topo topo' : graph -> option (list nat)) (H H' : Type) (hash_im : art_im -> H) (hash_im' : art_im -> H').
  Hypothesis TC : topo_ok topo.
  Hypothesis TC' : topo_ok topo'.

  Lemma build_same_links arts arts' code code' out out' (R : art_im -> art_im -> Prop) :
    Forall im_wf arts -> Forall im_wf arts' -> distinct arts -> distinct arts' ->
    build M topo H hash_im arts code = Ok out -> build M' topo' H' hash_im' arts' code' = Ok out' ->
    similar arts arts' R -> similar arts' arts (fun _ _ => True) ->
    same_links out out' (fun x x' => exists a a', In a arts /\ In a' arts' /\ R a a' /\
        a_impl x = impl_im code a /\ a_subnames x = subs_im a /\ a_id x = hash_im (im_clean a) /\
        a_impl x' = impl_im code' a' /\ a_subnames x' = subs_im a' /\ a_id x' = hash_im' (im_clean a')).
  Proof.
    intros W W' D D' E E' SR SR' n x Hx.
    destruct (out_entries M topo H hash_im TC arts code out W D E) as [O1 O2].
    destruct (out_entries M' topo' H' hash_im' TC' arts' code' out' W' D' E') as [O1' O2'].
    destruct (O1 n x Hx) as (a & Ha & ->). destruct (SR a Ha) as (a' & Ha' & Ek & Ep & HR).
    destruct (O2 a Ha) as (x0 & Hx0 & I1 & I2 & I3 & _).
    destruct (out_same out (build_out M topo H hash_im TC arts code out W E) _ _ _ _ Hx Hx0 eq_refl) as [_ <-].
    destruct (O2' a' Ha') as (x' & Hx' & I1' & I2' & I3' & _).
    exists (im_name a'), x'. split; auto. split; auto. split; [|exists a, a'; auto 10].
    intros k. rewrite (parts_im M topo H hash_im TC arts code out W D E a x Ha Hx).
    rewrite (parts_im M' topo' H' hash_im' TC' arts' code' out' W' D' E' a' x' Ha' Hx').
    rewrite Forall_forall in W, W'. unfold linked_im. rewrite Ek. split; intros (b & Hb & Kb & L).
    - destruct (SR' b Hb) as (c & Hc & Kc & Pc & _). exists c. split; auto. split; [congruence|]. rewrite Kc.
      destruct L as [[L1 L2]|L]; auto. left. split; auto. apply Pc; [apply W, Ha|].
      destruct L1 as (p & Hp & Ekp). exists p. split; auto. congruence.
    - destruct (SR b Hb) as (c & Hc & Kc & Pc & _). exists c. split; auto. split; [congruence|]. rewrite Kc.
      destruct L as [[L1 L2]|L]; auto. left. split; auto.
      assert (X : named (im_name a) (im_partof c)) by (apply Pc; [apply W, Ha|exact L1]).
      destruct X as (p & Hp & Ekp). exists p. split; auto. congruence.
  Qed.
End Two.

(** ** Exact arithmetic *)
Lemma exact_int : forall B x m b, b <= 1 -> m + b <= B -> (x == q_of m)%Q ->
  (x + nbool (gen_num Qplus (fun q n => (q / q_of n)%Q) Z 0%Z thousandths) (Nat.eqb b 1) == q_of (m + b))%Q.
Proof.
  intros B x m b Hb _ E. rewrite q_of_add, E. destruct b as [|[|b]]; [reflexivity|reflexivity|lia].
Qed.

Section Exact.
  Variables (topo : graph -> option (list nat)) (H : Type) (hash_im : art_im -> H).
  Hypothesis TC : topo_ok topo.
  Notation build := (build exact_num topo H hash_im).
  Open Scope Q_scope.

  Lemma row_average spc tst n (a : artifact exact_num H) : Forall (fun x => valid_sub (s_raw x)) (a_subnames a) ->
    row_ok exact_num H spc tst n a ->
    spc (n_key n) == average (own_spc (a_impl a) (a_subnames a)) (map (fun p => spc (n_key p)) (counted n (a_parts a))) /\
    (if ty_eqb (n_ty n) TST then tst (n_key n) == spc (n_key n)
     else tst (n_key n) == average (own_tst (a_impl a) (a_subnames a)) (map (fun p => tst (n_key p)) (a_parts a))).
  Proof.
    intros V [R1 R2].
    pose proof (stats_own Qplus (fun q n => q / q_of n) Z 0%Z thousandths (1 + length (a_subnames a)) (exact_int _)
                  (a_impl a) (a_subnames a) V (le_n _)) as S. cbv zeta in S.
    change (gen_num Qplus (fun q n => q / q_of n) Z 0%Z thousandths) with exact_num in S.
    destruct S as (S1 & S2 & S3 & S4).
    assert (RT : forall v c (own : nat * nat) (l : list Q), c = fst own -> v == q_of (snd own) ->
      ratio exact_num (fold_left (nadd exact_num) l v) (c + length l) == average own l).
    { intros v c [t m] l Hc Hv. simpl in Hc, Hv. subst c. unfold ratio, average.
      destruct (t + length l)%nat; [reflexivity|]. cbn [ndiv exact_num nadd].
      rewrite fold_qsum, Hv. reflexivity. }
    split.
    - rewrite R1. rewrite <- (map_length (fun p => spc (n_key p)) (counted n (a_parts a))). apply RT; auto.
    - destruct (ty_eqb (n_ty n) TST); [rewrite R2; reflexivity|].
      rewrite R2. rewrite <- (map_length (fun p => tst (n_key p)) (a_parts a)). apply RT; auto.
  Qed.

  Lemma exact_solution arts code out : Forall im_wf arts -> build arts code = Ok out -> ~ cyclic out ->
    exists spc tst rank, ranked out rank /\ averages out spc tst /\
      forall n a, In (n, a) out -> a_completed a = (thousandths (spc (n_key n)), thousandths (tst (n_key n))).
  Proof.
    intros W E AC. destruct (build_rows exact_num topo H hash_im TC arts code out W E) as [[C _]|(_ & spc & tst & rank & R)];
      [contradiction|].
    exists spc, tst, rank. split; [intros n a p Hin Hp; now apply (R n a Hin)|]. split.
    - intros n a Hin. destruct (R n a Hin) as (_ & Ro & _). apply row_average; auto.
      eapply out_subs; eauto.
    - intros n a Hin. now destruct (R n a Hin) as (X & _).
  Qed.

  Lemma unique_solution arts code out : Forall im_wf arts -> build arts code = Ok out -> ~ cyclic out ->
    exists spc tst, averages out spc tst /\
      (forall n a, In (n, a) out -> a_completed a = (thousandths (spc (n_key n)), thousandths (tst (n_key n)))) /\
      (forall spc' tst', averages out spc' tst' -> forall n a, In (n, a) out ->
         spc' (n_key n) == spc (n_key n) /\ tst' (n_key n) == tst (n_key n)).
  Proof.
    intros W E AC. destruct (exact_solution arts code out W E AC) as (spc & tst & rank & R & A & C).
    exists spc, tst. split; auto. split; auto. intros spc' tst' A' n a Hin.
    exact (averages_unique out rank spc' tst' spc tst (build_out exact_num topo H hash_im TC arts code out W E) R A' A n a Hin).
  Qed.

  Lemma exact_full arts code out : Forall im_wf arts -> build arts code = Ok out -> ~ cyclic out ->
    forall spc tst, averages out spc tst -> forall n a, In (n, a) out ->
    (spc (n_key n) == 1 <-> spc_done out (n_key n)) /\ (tst (n_key n) == 1 <-> tst_done out (n_key n)).
  Proof.
    intros W E AC spc tst A n a Hin. destruct (exact_solution arts code out W E AC) as (_ & _ & rank & R & _).
    exact (full_iff out rank spc tst (build_out exact_num topo H hash_im TC arts code out W E) R A n a Hin).
  Qed.

  (** What the reported figures say. *)
  Lemma reported_full arts code out : Forall im_wf arts -> build arts code = Ok out -> ~ cyclic out ->
    forall n a, In (n, a) out ->
    (0 <= fst (a_completed a) <= 1000)%Z /\ (0 <= snd (a_completed a) <= 1000)%Z /\
    (spc_done out (n_key n) -> fst (a_completed a) = 1000%Z) /\ (tst_done out (n_key n) -> snd (a_completed a) = 1000%Z).
  Proof.
    intros W E AC n a Hin. destruct (exact_solution arts code out W E AC) as (spc & tst & rank & R & A & C).
    pose proof (build_out exact_num topo H hash_im TC arts code out W E) as OO.
    destruct (averages_unit out rank spc tst OO R A n a Hin) as [U1 U2].
    destruct (full_iff out rank spc tst OO R A n a Hin) as [F1 F2]. rewrite (C n a Hin). cbn [fst snd].
    split; [now apply thousandths_unit|]. split; [now apply thousandths_unit|].
    split; intros X; [apply F1 in X|apply F2 in X]; rewrite (thousandths_comp _ 1 X); reflexivity.
  Qed.
End Exact.

(** ** Independence of order *)
Lemma similar_keys arts arts' R : similar arts arts' R -> forall k,
  In k (map (fun a => n_key (im_name a)) arts) -> In k (map (fun a => n_key (im_name a)) arts').
Proof.
  intros S k Hk. apply in_map_iff in Hk as (a & <- & Ha). destruct (S a Ha) as (a' & Ha' & E & _).
  apply in_map_iff. exists a'. auto.
Qed.

Section Compare.
  Variables (topo topo' : graph -> option (list nat)) (H H' : Type) (hash_im : art_im -> H) (hash_im' : art_im -> H').
  Hypothesis TC : topo_ok topo.
  Hypothesis TC' : topo_ok topo'.
  Open Scope Q_scope.

  Lemma out_keys (M : num) (t : graph -> option (list nat)) (HH : Type) (h : art_im -> HH) (TT : topo_ok t) arts code out :
    Forall im_wf arts -> distinct arts ->
    build M t HH h arts code = Ok out -> forall k,
    In k (map (fun e => n_key (fst e)) out) <-> In k (map (fun a => n_key (im_name a)) arts).
  Proof.
    intros W D E k. destruct (out_entries M t HH h TT arts code out W D E) as [O1 O2]. split; intros Hk.
    - apply in_map_iff in Hk as ([n x] & <- & Hin). destruct (O1 n x Hin) as (a & Ha & ->). apply in_map_iff. exists a. auto.
    - apply in_map_iff in Hk as (a & <- & Ha). destruct (O2 a Ha) as (x & Hx & _). apply in_map_iff. exists (im_name a, x). auto.
  Qed.

  (** Reported completion never drops when every artifact improves. *)
  Lemma exact_mono arts arts' code code' out out' :
    Forall im_wf arts -> Forall im_wf arts' -> distinct arts -> distinct arts' ->
    build exact_num topo H hash_im arts code = Ok out -> build exact_num topo' H' hash_im' arts' code' = Ok out' ->
    similar arts arts' (fun a a' => improves (impl_im code a) (subs_im a) (impl_im code' a') (subs_im a')) ->
    similar arts' arts (fun _ _ => True) ->
    forall n a n' a', In (n, a) out -> In (n', a') out' -> n_key n = n_key n' ->
    (fst (a_completed a) <= fst (a_completed a'))%Z /\ (snd (a_completed a) <= snd (a_completed a'))%Z.
  Proof.
    intros W W' D D' E E' S S' n a n' a' Hin Hin' En.
    pose proof (build_out exact_num topo H hash_im TC arts code out W E) as OO.
    pose proof (build_out exact_num topo' H' hash_im' TC' arts' code' out' W' E') as OO'.
    pose proof (build_same_links exact_num exact_num topo topo' H H' hash_im hash_im' TC TC' arts arts' code code' out out' _ W W' D D' E E' S S') as SL.
    assert (SL1 : same_links out out' (fun a a' => improves (a_impl a) (a_subnames a) (a_impl a') (a_subnames a'))).
    { intros m x Hm. destruct (SL m x Hm) as (m' & x' & Hm' & Em & Ek & (b & b' & _ & _ & I & I1 & I2 & _ & I3 & I4 & _)).
      exists m', x'. split; auto. split; auto. split; auto. now rewrite I1, I2, I3, I4. }
    assert (ST : similar arts arts' (fun _ _ => True)).
    { intros b Hb. destruct (S b Hb) as (b' & ? & ? & ? & _). eauto. }
    pose proof (build_same_links exact_num exact_num topo' topo H' H hash_im' hash_im TC' TC arts' arts code' code out' out _ W' W D' D E' E S' ST) as SL'.
    destruct (build_rows exact_num topo H hash_im TC arts code out W E) as [[C Z]|(AC & _)].
    - rewrite (Z n a Hin). cbn [fst snd f0 exact_num].
      assert (C' : cyclic out') by exact (same_links_cyclic out out' _ SL1 C).
      destruct (build_rows exact_num topo' H' hash_im' TC' arts' code' out' W' E') as [[_ Z']|(AC & _)]; [|contradiction].
      rewrite (Z' n' a' Hin'). cbn [fst snd f0 exact_num]. lia.
    - assert (AC' : ~ cyclic out') by (intros C'; apply AC; exact (same_links_cyclic out' out _ SL' C')).
      destruct (exact_solution topo H hash_im TC arts code out W E AC) as (spc & tst & rank & R & A & C).
      destruct (exact_solution topo' H' hash_im' TC' arts' code' out' W' E' AC') as (spc' & tst' & rank' & R' & A' & C').
      assert (R2 : ranked out' rank).
      { apply (same_links_ranked out out' OO' _ rank SL1); auto. intros k.
        rewrite (out_keys exact_num topo' H' hash_im' TC' arts' code' out' W' D' E'), (out_keys exact_num topo H hash_im TC arts code out W D E).
        apply (similar_keys _ _ _ S'). }
      destruct (mono_step out out' OO OO' rank spc tst spc' tst' R R2 A A' SL1 n a Hin) as [M1 M2].
      rewrite (C n a Hin), (C' n' a' Hin'). cbn [fst snd]. rewrite <- En. split; now apply thousandths_mono.
  Qed.
End Compare.

Lemma better_refl o : better o o.
Proof. split; auto. Qed.
Lemma improves_refl i subs : improves i subs i subs.
Proof. split; apply better_refl. Qed.

  Lemma perm_similar arts arts' (R : art_im -> art_im -> Prop) : Permutation arts arts' -> (forall a, In a arts -> R a a) -> similar arts arts' R.
  Proof.
    intros P HR a Ha. exists a. split; [eapply Permutation_in; eauto|]. split; auto. split; auto. tauto.
  Qed.


Section Order.
  Variables (topo topo' : graph -> option (list nat)) (H H' : Type) (hash_im : art_im -> H) (hash_im' : art_im -> H').
  Hypothesis TC : topo_ok topo.
  Hypothesis TC' : topo_ok topo'.

  Lemma order_independent arts arts' code code' out out' :
    Forall im_wf arts -> distinct arts -> Permutation arts arts' ->
    (forall n, im_get name_eqb n code = im_get name_eqb n code') ->
    build exact_num topo H hash_im arts code = Ok out -> build exact_num topo' H' hash_im' arts' code' = Ok out' ->
    forall n a n' a', In (n, a) out -> In (n', a') out' -> n_key n = n_key n' -> a_completed a = a_completed a'.
  Proof.
    intros W D P Hc E E' n a n' a' Hin Hin' En.
    assert (W' : Forall im_wf arts') by (rewrite Forall_forall in *; intros x Hx; apply W; eapply Permutation_in; [apply Permutation_sym; eauto|auto]).
    assert (D' : distinct arts') by (unfold distinct in *; eapply Permutation_NoDup; [apply Permutation_map; eauto|auto]).
    assert (Im : forall a, impl_im code a = impl_im code' a) by (intros b; unfold impl_im; now rewrite Hc).
    assert (S1 : similar arts arts' (fun a a' => improves (impl_im code a) (subs_im a) (impl_im code' a') (subs_im a'))).
    { apply perm_similar; auto. intros b _. rewrite Im. apply improves_refl. }
    assert (S2 : similar arts' arts (fun a a' => improves (impl_im code' a) (subs_im a) (impl_im code a') (subs_im a'))).
    { apply perm_similar; auto using Permutation_sym. intros b _. rewrite Im. apply improves_refl. }
    assert (T1 : similar arts arts' (fun _ _ => True)) by (apply perm_similar; auto).
    assert (T2 : similar arts' arts (fun _ _ => True)) by (apply perm_similar; auto using Permutation_sym).
    destruct (exact_mono topo topo' H H' hash_im hash_im' TC TC' arts arts' code code' out out' W W' D D' E E' S1 T2 n a n' a' Hin Hin' En) as [A1 A2].
    destruct (exact_mono topo' topo H' H hash_im' hash_im TC' TC arts' arts code' code out' out W' W D' D E' E S2 T1 n' a' n a Hin' Hin (eq_sym En)) as [B1 B2].
    destruct (a_completed a) as [s1 t1], (a_completed a') as [s2 t2]. cbn [fst snd] in *. f_equal; lia.
  Qed.
End Order.

(** ** Changes that improve *)
Lemma done_improves subs d : improves INot subs (IDone d) subs.
Proof. split; split; simpl; try destruct subs; simpl; lia. Qed.

Lemma primary_improves c loc subs : ic_primary c = None ->
  improves (ICode c) subs (ICode (mkCode (Some loc) (ic_secondary c))) subs.
Proof.
  intros E. unfold improves, better. cbn [own_spc own_tst fst snd ic_primary]. rewrite E.
  change (linked (mkCode (Some loc) (ic_secondary c))) with (linked c). cbn [present]. lia.
Qed.

Lemma filter_all_false {A} (f : A -> bool) l : (forall x, In x l -> f x = false) -> filter f l = [].
Proof. induction l as [|x l IH]; simpl; intros E; auto. rewrite E by auto. auto. Qed.

Lemma filter_len_le {A} (f g : A -> bool) l : (forall x, In x l -> f x = true -> g x = true) ->
  length (filter f l) <= length (filter g l).
Proof.
  induction l as [|x l IH]; simpl; intros E; auto. destruct (f x) eqn:Ef.
  - rewrite (E x) by auto. simpl. apply le_n_S. apply IH. auto.
  - specialize (IH (fun y Hy => E y (or_intror Hy))). destruct (g x); simpl; lia.
Qed.

(** First reference to an artifact, by its own name. *)
Lemma first_reference_improves loc subs : (forall x, In x subs -> test_sub x = false) ->
  improves INot subs (ICode (mkCode (Some loc) [])) subs.
Proof.
  intros Ht. split; split; cbn [own_spc own_tst fst snd ic_primary present]; rewrite ?(filter_all_false test_sub) by auto;
    rewrite ?(filter_all_false (linked (mkCode (Some loc) []))) by auto; try destruct subs; simpl; lia.
Qed.

Lemma secondary_improves c sub loc subs :
  improves (ICode c) subs (ICode (mkCode (ic_primary c) (ic_secondary c ++ [(sub, loc)]))) subs.
Proof.
  assert (L : forall l, length (filter (linked c) l) <= length (filter (linked (mkCode (ic_primary c) (ic_secondary c ++ [(sub, loc)]))) l)).
  { intros l. apply filter_len_le. intros x _ Hx. unfold linked in *. simpl. rewrite existsb_app. now rewrite Hx. }
  split; split; cbn [own_spc own_tst fst snd ic_primary].
  - pose proof (L subs). lia.
  - pose proof (L subs). lia.
  - apply L.
  - pose proof (L (filter test_sub subs)). lia.
Qed.

(** ** Rounded arithmetic *)
Section Rounded.
  Variables (rnd rnd32 : Q -> Q) (B : nat).
  Open Scope Q_scope.
  Hypothesis rnd_mono : forall x y, x <= y -> rnd x <= rnd y.
  Hypothesis rnd_int : forall m, (m <= B)%nat -> rnd (q_of m) == q_of m.
  Hypothesis rnd32_mono : forall x y, x <= y -> rnd32 x <= rnd32 y.
  Hypothesis rnd32_ends : rnd32 0 == 0 /\ rnd32 1 == 1.
  Hypothesis B1000 : (1000 <= B)%nat.

  Lemma rnd_comp x y : x == y -> rnd x == rnd y.
  Proof. intros E. apply Qle_antisym; apply rnd_mono; rewrite E; apply Qle_refl. Qed.
  Lemma rnd32_comp x y : x == y -> rnd32 x == rnd32 y.
  Proof. intros E. apply Qle_antisym; apply rnd32_mono; rewrite E; apply Qle_refl. Qed.
  Lemma rnd_0 : rnd 0 == 0.
  Proof. rewrite (rnd_comp 0 (q_of 0)) by reflexivity. rewrite rnd_int by lia. reflexivity. Qed.
  Lemma rnd_1 : rnd 1 == 1.
  Proof. rewrite (rnd_comp 1 (q_of 1)) by reflexivity. rewrite rnd_int by lia. reflexivity. Qed.

  Notation M := (rounded_num rnd rnd32).

  Lemma round_unit x : unit_q x -> unit_q (nround M x).
  Proof.
    intros [H1 H2]. cbn [nround rounded_num].
    assert (K : q_of 1000 == 1000) by reflexivity.
    assert (R0 : 0 <= rnd (1000 * x)). { apply Qle_trans with (rnd 0); [rewrite rnd_0; lra|apply rnd_mono; lra]. }
    assert (R1 : rnd (1000 * x) <= 1000). { apply Qle_trans with (rnd (q_of 1000)); [apply rnd_mono; lra|]. rewrite (rnd_int 1000 B1000). lra. }
    set (y := rnd (1000 * x)) in *. clearbody y.
    assert (F0 : (0 <= Qfloor (y + (1 # 2)))%Z).
    { change 0%Z with (Qfloor (1 # 2)). apply Qfloor_resp_le. lra. }
    assert (F1 : (Qfloor (y + (1 # 2)) <= 1000)%Z).
    { change 1000%Z with (Qfloor (1000 + (1 # 2))). apply Qfloor_resp_le. lra. }
    set (z := Qfloor (y + (1 # 2))) in *. clearbody z.
    rewrite Zle_Qle in F0, F1. change (inject_Z 0) with 0 in F0. change (inject_Z 1000) with 1000 in F1.
    assert (G0 : 0 <= rnd (inject_Z z / 1000)).
    { apply Qle_trans with (rnd 0); [rewrite rnd_0; lra|apply rnd_mono, div_nonneg; lra]. }
    assert (G1 : rnd (inject_Z z / 1000) <= 1).
    { apply Qle_trans with (rnd 1); [apply rnd_mono, div_le_1; lra|rewrite rnd_1; lra]. }
    destruct rnd32_ends as [E0 E1]. split.
    - apply Qle_trans with (rnd32 0); [rewrite E0; lra|now apply rnd32_mono].
    - apply Qle_trans with (rnd32 1); [now apply rnd32_mono|rewrite E1; lra].
  Qed.

  Lemma sum_unit l : Forall unit_q l -> forall v m, 0 <= v -> v <= q_of m -> (m + length l <= B)%nat ->
    0 <= fold_left (nadd M) l v /\ fold_left (nadd M) l v <= q_of (m + length l).
  Proof.
    induction 1 as [|x l [X1 X2] _ IH]; cbn [fold_left length]; intros v m V1 V2 Hm.
    - rewrite Nat.add_0_r. auto.
    - replace (m + S (length l))%nat with (S m + length l)%nat by lia. apply IH; [| |lia]; cbn [nadd rounded_num].
      + apply Qle_trans with (rnd 0); [rewrite rnd_0; lra|apply rnd_mono; lra].
      + apply Qle_trans with (rnd (q_of (S m))); [apply rnd_mono; rewrite q_of_S; lra|rewrite rnd_int by lia; lra].
  Qed.

  Lemma ratio_unit v t m l : Forall unit_q l -> v == q_of m -> (m <= t)%nat -> (t + length l <= B)%nat ->
    unit_q (ratio M (fold_left (nadd M) l v) (t + length l)).
  Proof.
    intros Hl Hv Hm HB. unfold ratio. destruct (t + length l)%nat as [|k] eqn:Ek; [split; cbn [n0 rounded_num]; lra|].
    pose proof (q_of_nonneg m).
    destruct (sum_unit l Hl v m) as [S1 S2]; try lra; [lia|].
    assert (Hp : 0 < q_of (S k)) by (apply q_of_pos; lia).
    assert (S3 : fold_left (nadd M) l v <= q_of (S k)).
    { eapply Qle_trans; [exact S2|]. apply q_of_le. lia. }
    cbn [ndiv rounded_num]. split.
    - apply Qle_trans with (rnd 0); [rewrite rnd_0; lra|now apply rnd_mono, div_nonneg].
    - apply Qle_trans with (rnd 1); [now apply rnd_mono, div_le_1|rewrite rnd_1; lra].
  Qed.

  Variables (topo : graph -> option (list nat)) (H : Type) (hash_im : art_im -> H).
  Hypothesis TC : topo_ok topo.

  Lemma rounded_int : forall x m b, (b <= 1)%nat -> (m + b <= B)%nat -> x == q_of m ->
    rnd (x + nbool (gen_num (fun x y => rnd (x + y)) (fun q n => rnd (q / q_of n)) Q 0 (nround M)) (Nat.eqb b 1)) == q_of (m + b).
  Proof.
    intros x m b Hb HB E. rewrite <- (rnd_int (m + b)) by auto. apply rnd_comp. rewrite q_of_add, E.
    destruct b as [|[|b]]; [reflexivity|reflexivity|lia].
  Qed.

  Lemma rounded_unit arts code out : Forall im_wf arts -> build M topo H hash_im arts code = Ok out ->
    (forall n a, In (n, a) out -> (1 + length (a_subnames a) + length (a_parts a) <= B)%nat) ->
    forall n a, In (n, a) out -> unit_q (fst (a_completed a)) /\ unit_q (snd (a_completed a)).
  Proof.
    intros W E HB n a Hin. pose proof (build_out M topo H hash_im TC arts code out W E) as OO.
    destruct (build_rows M topo H hash_im TC arts code out W E) as [[_ Z]|(_ & spc & tst & rank & R)].
    - rewrite (Z n a Hin). cbn [fst snd f0 rounded_num]. split; split; lra.
    - assert (Main : forall n a, In (n, a) out -> unit_q (spc (n_key n)) /\ unit_q (tst (n_key n))).
      { apply (rank_ind out rank (fun k => unit_q (spc k) /\ unit_q (tst k)) OO).
        - intros m b p Hm Hp. now apply (R m b Hm).
        - clear n a Hin. intros n a Hin IH. destruct (R n a Hin) as (_ & [R1 R2] & _).
          pose proof (out_subs M topo H hash_im TC arts code out W E n a Hin) as V.
          pose proof (HB n a Hin) as HBa.
          pose proof (stats_own (fun x y => rnd (x + y)) (fun q n => rnd (q / q_of n)) Q 0 (nround M) B rounded_int
                  (a_impl a) (a_subnames a) V ltac:(lia)) as S. cbv zeta in S.
          change (gen_num (fun x y => rnd (x + y)) (fun q n => rnd (q / q_of n)) Q 0 (nround M)) with M in S.
          destruct S as (S1 & S2 & S3 & S4).
          destruct (own_le (a_impl a) (a_subnames a)) as [L1 L2].
          assert (C1 : (fst (own_spc (a_impl a) (a_subnames a)) <= 1 + length (a_subnames a))%nat).
          { destruct (a_impl a); simpl; try destruct (a_subnames a); simpl; lia. }
          assert (C2 : (fst (own_tst (a_impl a) (a_subnames a)) <= 1 + length (a_subnames a))%nat).
          { destruct (a_impl a); simpl; try lia. pose proof (filter_len_le test_sub (fun _ => true) (a_subnames a)) as X.
            assert (Y : filter (fun _ : subname => true) (a_subnames a) = a_subnames a).
            { clear. induction (a_subnames a); simpl; congruence. }
            rewrite Y in X. specialize (X (fun _ _ _ => eq_refl)). lia. }
          assert (C3 : (length (counted n (a_parts a)) <= length (a_parts a))%nat).
          { unfold counted. destruct (ty_eqb (n_ty n) TST); auto. pose proof (filter_len_le not_test (fun _ => true) (a_parts a)) as X.
            assert (Y : filter (fun _ : name => true) (a_parts a) = a_parts a).
            { clear. induction (a_parts a); simpl; congruence. }
            rewrite Y in X. apply X; auto. }
          assert (U1 : unit_q (spc (n_key n))).
          { rewrite R1, S1. rewrite <- (map_length (fun p => spc (n_key p)) (counted n (a_parts a))).
            eapply ratio_unit; [|exact S3|exact L1|rewrite map_length; lia].
            apply Forall_forall. intros x Hx. apply in_map_iff in Hx as (p & <- & Hp). apply IH. eapply counted_in; eauto. }
          split; auto. destruct (ty_eqb (n_ty n) TST); [now rewrite R2|].
          rewrite R2, S2. rewrite <- (map_length (fun p => tst (n_key p)) (a_parts a)).
          eapply ratio_unit; [|exact S4|exact L2|rewrite map_length; lia].
          apply Forall_forall. intros x Hx. apply in_map_iff in Hx as (p & <- & Hp). now apply IH. }
      destruct (R n a Hin) as (-> & _). cbn [fst snd]. destruct (Main n a Hin). split; now apply round_unit.
  Qed.
End Rounded.

(** ** Cycles *)
Lemma cyclic_zero M topo H hash_im : topo_ok topo -> forall arts code out, Forall im_wf arts ->
  build M topo H hash_im arts code = Ok out -> cyclic out ->
  forall n a, In (n, a) out -> a_completed a = (f0 M, f0 M).
Proof.
  intros TC arts code out W E C n a Hin.
  destruct (build_rows M topo H hash_im TC arts code out W E) as [[_ Z]|(AC & _)]; [eauto|contradiction].
Qed.

(** ** Single changes *)
Definition only_gain (M M' : num) (H : Type) (le : F M -> F M' -> Prop) (out : list (name * artifact M H)) (out' : list (name * artifact M' H)) : Prop :=
  forall n a n' a', In (n, a) out -> In (n', a') out' -> n_key n = n_key n' ->
    le (fst (a_completed a)) (fst (a_completed a')) /\ le (snd (a_completed a)) (snd (a_completed a')).

Section Changes.
  Variables (topo : graph -> option (list nat)) (H : Type) (hash_im : art_im -> H).
  Hypothesis TC : topo_ok topo.
  Notation build := (build exact_num topo H hash_im).

  Lemma mark_done l1 x l2 d code out out' :
    Forall im_wf (l1 ++ x :: l2) -> distinct (l1 ++ x :: l2) -> impl_im code x = INot ->
    build (l1 ++ x :: l2) code = Ok out ->
    build (l1 ++ mkIm (im_name x) (im_file x) (im_partof x) (Some d) (im_text x) :: l2) code = Ok out' ->
    only_gain exact_num exact_num H Z.le out out'.
  Proof.
    intros W D Hi E E' n a n' a' Hin Hin' En.
    set (y := mkIm (im_name x) (im_file x) (im_partof x) (Some d) (im_text x)) in *.
    assert (W' : Forall im_wf (l1 ++ y :: l2)).
    { apply Forall_app in W as [W1 W2]. inversion W2 as [|? ? Wx W3]; subst. apply Forall_app. split; auto. constructor; auto.
      destruct Wx. constructor; auto. }
    assert (D' : distinct (l1 ++ y :: l2)).
    { unfold distinct in *. rewrite map_app in *. exact D. }
    assert (S : similar (l1 ++ x :: l2) (l1 ++ y :: l2) (fun a a' => improves (impl_im code a) (subs_im a) (impl_im code a') (subs_im a'))).
    { intros b Hb. apply in_app_or in Hb. destruct Hb as [Hb|[<-|Hb]].
      - exists b. rewrite in_app_iff. split; auto. split; auto. split; [tauto|apply improves_refl].
      - exists y. rewrite in_app_iff. split; [right; left; auto|]. split; auto. split; [tauto|]. rewrite Hi. apply done_improves.
      - exists b. rewrite in_app_iff. split; [right; right; auto|]. split; auto. split; [tauto|apply improves_refl]. }
    assert (S' : similar (l1 ++ y :: l2) (l1 ++ x :: l2) (fun _ _ => True)).
    { intros b Hb. apply in_app_or in Hb. destruct Hb as [Hb|[<-|Hb]].
      - exists b. rewrite in_app_iff. split; auto. split; auto. split; [tauto|auto].
      - exists x. rewrite in_app_iff. split; [right; left; auto|]. split; auto. split; [tauto|]. auto.
      - exists b. rewrite in_app_iff. split; [right; right; auto|]. split; auto. split; [tauto|auto]. }
    exact (exact_mono topo topo H H hash_im hash_im TC TC _ _ code code out out' W W' D D' E E' S S' n a n' a' Hin Hin' En).
  Qed.

  Lemma add_reference arts code code' m out out' :
    Forall im_wf arts -> distinct arts -> name_wf m ->
    (forall n, name_wf n -> n_key n <> n_key m -> im_get name_eqb n code' = im_get name_eqb n code) ->
    (exists loc,
       (exists c, im_get name_eqb m code = Some c /\ ic_primary c = None /\
          im_get name_eqb m code' = Some (mkCode (Some loc) (ic_secondary c))) \/
       (exists c sub, im_get name_eqb m code = Some c /\
          im_get name_eqb m code' = Some (mkCode (ic_primary c) (ic_secondary c ++ [(sub, loc)]))) \/
       (im_get name_eqb m code = None /\ im_get name_eqb m code' = Some (mkCode (Some loc) []) /\
        forall a, In a arts -> n_key (im_name a) = n_key m -> forall x, In x (subs_im a) -> test_sub x = false)) ->
    build arts code = Ok out -> build arts code' = Ok out' ->
    only_gain exact_num exact_num H Z.le out out'.
  Proof.
    intros W D Wm Hc Hm E E' n a n' a' Hin Hin' En.
    assert (W0 := W). rewrite Forall_forall in W0.
    assert (S : similar arts arts (fun a a' => improves (impl_im code a) (subs_im a) (impl_im code' a') (subs_im a'))).
    { apply perm_similar; [apply Permutation_refl|]. intros b Hb. unfold impl_im. destruct (im_done b); [apply improves_refl|].
      assert (Wb : name_wf (im_name b)) by (apply W0; auto).
      destruct (str_eq_dec (n_key (im_name b)) (n_key m)) as [Ek|Nk].
      - assert (G : forall c : list (name * impl_code), im_get name_eqb (im_name b) c = im_get name_eqb m c).
        { intros c. pose proof (key_eq_ty _ _ Wb Wm Ek) as Et. clear - Ek Et. induction c as [|[k v] c IH]; auto. cbn [im_get].
          rewrite IH. unfold name_eqb. now rewrite Ek, Et. }
        rewrite !G. destruct Hm as (loc & [(c & -> & P & ->)|[(c & sub & -> & ->)|(-> & -> & T)]]).
        + now apply primary_improves.
        + apply secondary_improves.
        + apply first_reference_improves. eauto.
      - rewrite Hc by auto. apply improves_refl. }
    assert (S' : similar arts arts (fun _ _ => True)) by (apply perm_similar; auto).
    exact (exact_mono topo topo H H hash_im hash_im TC TC _ _ code code' out out' W W D D E E' S S' n a n' a' Hin Hin' En).
  Qed.
End Changes.
