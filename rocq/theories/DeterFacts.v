(** Two loads of the same files: the results agree. *)
From Coq Require Import Lia ZifyBool Permutation Sorted Relation_Operators.
From Verif Require Import Base BaseFacts Regex Name SpecName NameFacts SubFacts Family FamilyFacts RawNames Artifact Stored SpecGraph SpecLinks LinkFacts GraphFacts BuildFacts ProjectFacts
  Numbers SpecCompletion RowFacts CompletionFacts CompletionThms
  Markdown SpecMarkdown Lint SpecLint LintFacts LintThms Source SpecJoin JoinFacts JoinThms Pool PoolFacts Load LoadFacts SpecLoad CheckFacts.

(** ** Sorted lists with the same keys *)
Lemma str_leb_anti a b : str_leb a b = true -> str_leb b a = true -> a = b.
Proof.
  unfold str_leb. rewrite (str_cmp_antisym a b). destruct (str_cmp a b) eqn:E; cbn [CompOpp]; try discriminate. intros _ _. now apply str_cmp_eq.
Qed.
Lemma sorted_map {A B} (f : A -> B) (R : B -> B -> Prop) l : StronglySorted (fun a b => R (f a) (f b)) l -> StronglySorted R (map f l).
Proof.
  induction 1 as [|a l S IH F]; cbn [map]; constructor; auto. rewrite Forall_forall in *. intros b Hb. apply in_map_iff in Hb as (c & <- & Hc). auto.
Qed.
Lemma str_leb_total a b : str_leb a b = true \/ str_leb b a = true.
Proof. unfold str_leb. rewrite (str_cmp_antisym a b). destruct (str_cmp a b); cbn [CompOpp]; auto. Qed.
Lemma str_leb_trans a b c : str_leb a b = true -> str_leb b c = true -> str_leb a c = true.
Proof.
  unfold str_leb. destruct (str_cmp a b) eqn:E1, (str_cmp b c) eqn:E2; try discriminate; intros _ _.
  - apply str_cmp_eq in E1, E2. subst. now rewrite (proj2 (str_cmp_eq c c) eq_refl).
  - apply str_cmp_eq in E1. subst. now rewrite E2.
  - apply str_cmp_eq in E2. subst. now rewrite E1.
  - now rewrite (str_cmp_lt_trans _ _ _ E1 E2).
Qed.

Section Keyed.
  Context {A B : Type} (ka : A -> str) (kb : B -> str).
  Notation leA := (fun x y => str_leb (ka x) (ka y)).
  Notation leB := (fun x y => str_leb (kb x) (kb y)).
  Lemma keys_sorted {C} (k : C -> str) l : StronglySorted (le str_leb) (map k (isort (fun x y => str_leb (k x) (k y)) l)).
  Proof.
    apply sorted_map. apply (isort_sorted (fun x y => str_leb (k x) (k y))).
    - intros; apply str_leb_total.
    - intros x y z. apply str_leb_trans.
  Qed.
  Lemma keys_same l l' : NoDup (map ka l) -> NoDup (map kb l') -> (forall k, In k (map ka l) <-> In k (map kb l')) ->
    map ka (isort leA l) = map kb (isort leB l').
  Proof.
    intros N N' I. apply (sorted_unique str_leb).
    - intros x y _ _. apply str_leb_anti.
    - apply keys_sorted.
    - apply keys_sorted.
    - transitivity (map ka l); [apply Permutation_map, Permutation_sym, isort_perm|]. transitivity (map kb l'); [|apply Permutation_map, isort_perm].
      apply NoDup_Permutation; auto.
  Qed.
  Lemma sorted_forall2 (R : A -> B -> Prop) l l' : NoDup (map ka l) -> NoDup (map kb l') -> (forall k, In k (map ka l) <-> In k (map kb l')) ->
    (forall a b, In a l -> In b l' -> ka a = kb b -> R a b) -> Forall2 R (isort leA l) (isort leB l').
  Proof.
    intros N N' I Hr. pose proof (keys_same l l' N N' I) as E.
    assert (Hr' : forall a b, In a (isort leA l) -> In b (isort leB l') -> ka a = kb b -> R a b) by (intros a b Ha Hb; apply isort_in in Ha; apply isort_in in Hb; auto).
    revert Hr' E. generalize (isort leA l) (isort leB l'). clear. intros l. induction l as [|a l IH]; intros [|b l'] Hr E; try discriminate E; constructor.
    - injection E as E _. apply Hr; auto; now left.
    - injection E as _ E. apply IH; auto. intros x y Hx Hy. apply Hr; now right.
  Qed.
End Keyed.

Lemma forall2_map {A B C D} (f : A -> C) (g : B -> D) (R : C -> D -> Prop) l l' : Forall2 (fun a b => R (f a) (g b)) l l' -> Forall2 R (map f l) (map g l').
Proof. induction 1; cbn [map]; constructor; auto. Qed.

(** ** The joined references *)
Definition code_same (c c' : impl_code) : Prop := ic_primary c = ic_primary c' /\ Permutation (ic_secondary c) (ic_secondary c').
Definition impl_same (i i' : impl) : Prop :=
  match i, i' with ICode c, ICode c' => code_same c c' | _, _ => i = i' end.

Lemma join_lints_nil path_str refs : Forall ref_wf refs -> (forall i j, ~ repeated refs i j) -> join_lints path_str refs = [].
Proof. intros W N. apply (join_exact refs W N path_str). Qed.
Lemma perm_repeated refs refs' : Forall ref_wf refs -> Permutation refs refs' -> (forall i j, ~ repeated refs i j) -> forall i j, ~ repeated refs' i j.
Proof.
  intros W P N. assert (W' : Forall ref_wf refs') by (eapply Permutation_Forall; eauto).
  apply (no_error_iff refs' W'). apply (perm_no_error refs refs' P). now apply (no_error_iff refs W).
Qed.
Lemma join_get refs refs' : Permutation refs refs' -> Forall ref_wf refs -> (forall i j, ~ repeated refs i j) -> forall n,
  match im_get name_eqb n (snd (join_locations refs)), im_get name_eqb n (snd (join_locations refs')) with
  | Some c, Some c' => code_same c c'
  | None, None => True
  | _, _ => False
  end.
Proof.
  intros P W N n.
  assert (W' : Forall ref_wf refs') by (eapply Permutation_Forall; eauto).
  pose proof (perm_repeated refs refs' W P N) as N'.
  destruct (join_orders refs refs' P (fun _ => [])) as [_ J]. specialize (J (join_lints_nil _ refs W N)).
  destruct (join_orders refs' refs (Permutation_sym P) (fun _ => [])) as [_ J']. specialize (J' (join_lints_nil _ refs' W' N')).
  assert (G : forall r r', (forall m c, In (m, c) (snd (join_locations r)) -> exists m' c', In (m', c') (snd (join_locations r')) /\ name_eqb m m' = true /\
       ic_primary c' = ic_primary c /\ Permutation (ic_secondary c) (ic_secondary c') /\ (ic_primary c <> None -> m' = m)) ->
     forall c, im_get name_eqb n (snd (join_locations r)) = Some c -> exists c', im_get name_eqb n (snd (join_locations r')) = Some c' /\ code_same c c').
  { intros r r' J0 c E. destruct (get_some_in name_eqb nk name_eqb_iff _ _ _ E) as (m & Em & Hm). destruct (J0 m c Hm) as (m' & c' & Hin & E1 & E2 & E3 & _).
    exists c'. split; [|split; auto]. apply name_eqb_iff in E1. rewrite <- (get_proj name_eqb nk name_eqb_iff _ m' n) by congruence.
    apply (in_get name_eqb nk name_eqb_iff); auto. apply out_nodup. }
  destruct (im_get name_eqb n (snd (join_locations refs))) as [c|] eqn:E.
  - destruct (G refs refs' J c E) as (c' & -> & S). exact S.
  - destruct (im_get name_eqb n (snd (join_locations refs'))) as [c'|] eqn:E'; auto. destruct (G refs' refs J' c' E') as (c & X & _). congruence.
Qed.

Lemma existsb_perm {A} (f : A -> bool) l l' : Permutation l l' -> existsb f l = existsb f l'.
Proof. induction 1; cbn [existsb]; try congruence. destruct (f x), (f y); reflexivity. Qed.
Lemma linked_perm c c' x : code_same c c' -> linked c x = linked c' x.
Proof. intros [_ P]. unfold linked. now apply existsb_perm. Qed.
Lemma same_improves i i' subs : impl_same i i' -> improves i subs i' subs.
Proof.
  destruct i as [d|c|], i' as [d'|c'|]; cbn [impl_same]; intros E; try discriminate E; try (injection E as ->); try apply improves_refl.
  unfold improves, better, own_spc, own_tst. rewrite (filter_ext (linked c) (linked c')) by (intros; now apply linked_perm).
  rewrite (filter_ext (linked c) (linked c')) by (intros; now apply linked_perm). destruct E as [-> _]. cbn [fst snd]. lia.
Qed.
Lemma impl_same_sym i i' : impl_same i i' -> impl_same i' i.
Proof. destruct i, i'; cbn [impl_same]; auto. intros [? ?]. split; auto using Permutation_sym. Qed.

(** ** The built artifacts *)
Section Build.
  Variables (M : num) (topo : graph -> option (list nat)) (H : Type) (hash_im : art_im -> H).
  Hypothesis TC : topo_ok topo.
  Definition entry_same (x x' : artifact M H) : Prop :=
    a_id x = a_id x' /\ a_name x = a_name x' /\ a_file x = a_file x' /\ a_partof x = a_partof x' /\
    (forall k, In k (map n_key (a_parts x)) <-> In k (map n_key (a_parts x'))) /\ a_text x = a_text x' /\
    impl_same (a_impl x) (a_impl x') /\ a_subnames x = a_subnames x'.
  Definition codes_same (code code' : list (name * impl_code)) : Prop := forall n,
    match im_get name_eqb n code, im_get name_eqb n code' with
    | Some c, Some c' => code_same c c'
    | None, None => True
    | _, _ => False
    end.
  Lemma impl_im_same code code' a : codes_same code code' -> impl_same (impl_im code a) (impl_im code' a).
  Proof.
    intros C. unfold impl_im. destruct (im_done a); [reflexivity|]. specialize (C (im_name a)).
    destruct (im_get name_eqb (im_name a) code), (im_get name_eqb (im_name a) code'); try destruct C; cbn [impl_same]; auto. split; auto.
  Qed.
  Lemma mem_known known known' n : (forall k, In k (map nk known) <-> In k (map nk known')) -> is_mem name_eqb n known = is_mem name_eqb n known'.
  Proof.
    intros I. assert (E : is_mem name_eqb n known = true <-> is_mem name_eqb n known' = true); [|destruct (is_mem name_eqb n known), (is_mem name_eqb n known'); intuition congruence].
    rewrite !(is_mem_iff name_eqb nk name_eqb_iff). apply I.
  Qed.
  Lemma partof_known ims ims' e : (forall k, In k (map nk (map fst ims)) <-> In k (map nk (map fst ims'))) -> partof_of ims e = partof_of ims' e.
  Proof.
    intros I. unfold partof_of, auto_links. f_equal.
    destruct (parent_of (fst e)) as [p|]; destruct (auto_of (fst e)) as [q|]; rewrite ?(mem_known _ _ _ I); reflexivity.
  Qed.

  Lemma build_perm arts arts' code code' out out' : Forall im_wf arts -> distinct arts -> Permutation arts arts' -> codes_same code code' ->
    build M topo H hash_im arts code = Ok out -> build M topo H hash_im arts' code' = Ok out' ->
    forall n x, In (n, x) out -> exists x', In (n, x') out' /\ entry_same x x'.
  Proof.
    intros W D P C E E' n x Hx.
    assert (W' : Forall im_wf arts') by (eapply Permutation_Forall; eauto).
    assert (D' : distinct arts') by (unfold distinct in *; eapply Permutation_NoDup; [apply Permutation_map; eauto|auto]).
    destruct (build_entry M topo H hash_im TC arts code out W D E) as (gs & comp & G & Cm & Eo).
    destruct (build_entry M topo H hash_im TC arts' code' out' W' D' E') as (gs' & comp' & G' & Cm' & Eo').
    pose proof Hx as Hx0. rewrite Eo in Hx. apply in_map_iff in Hx as (a & X & Ha). injection X as <- <-.
    pose proof (Permutation_in a P Ha) as Ha'.
    eexists. assert (Hin' : In (im_name a, built M H hash_im (map (fun a => (im_name a, im_clean a)) arts') code' gs' comp' (im_name a, im_clean a)) out')
      by (rewrite Eo'; apply in_map_iff; exists a; split; [reflexivity|auto]).
    split; [exact Hin'|].
    split; [reflexivity|]. split; [reflexivity|]. split; [reflexivity|]. split.
    { cbn [built a_partof]. apply partof_known. intros k. rewrite !map_map. cbn [fst].
      pose proof (Permutation_map (fun a => nk (im_name a)) P) as Pm.
      split; apply Permutation_in; [exact Pm|now apply Permutation_sym]. }
    split.
    { intros k. rewrite (parts_im M topo H hash_im TC arts code out W D E a _ Ha Hx0 k), (parts_im M topo H hash_im TC arts' code' out' W' D' E' a _ Ha' Hin' k).
      unfold linked_im. split; intros (b & Hb & R); exists b; (split; [|exact R]);
        [apply (Permutation_in b P Hb)|apply (Permutation_in b (Permutation_sym P) Hb)]. }
    split; [reflexivity|]. split; [|reflexivity]. cbn [built a_impl]. exact (impl_im_same code code' a C).
  Qed.
End Build.

Lemma completed_same topo H hash_im arts arts' code code' out out' : topo_ok topo -> Forall im_wf arts -> distinct arts -> Permutation arts arts' -> codes_same code code' ->
  build exact_num topo H hash_im arts code = Ok out -> build exact_num topo H hash_im arts' code' = Ok out' ->
  forall n x n' x', In (n, x) out -> In (n', x') out' -> n_key n = n_key n' -> a_completed x = a_completed x'.
Proof.
  intros TC W D P Hc E E' n a n' a' Hin Hin' En.
  assert (W' : Forall im_wf arts') by (eapply Permutation_Forall; eauto).
  assert (D' : distinct arts') by (unfold distinct in *; eapply Permutation_NoDup; [apply Permutation_map; eauto|auto]).
  assert (S1 : similar arts arts' (fun a a' => improves (impl_im code a) (subs_im a) (impl_im code' a') (subs_im a'))).
  { apply perm_similar; auto. intros b _. apply same_improves, impl_im_same, Hc. }
  assert (S2 : similar arts' arts (fun a a' => improves (impl_im code' a) (subs_im a) (impl_im code a') (subs_im a'))).
  { apply perm_similar; auto using Permutation_sym. intros b _. apply same_improves, impl_same_sym, impl_im_same, Hc. }
  assert (T1 : similar arts arts' (fun _ _ => True)) by (apply perm_similar; auto).
  assert (T2 : similar arts' arts (fun _ _ => True)) by (apply perm_similar; auto using Permutation_sym).
  destruct (exact_mono topo topo H H hash_im hash_im TC TC arts arts' code code' out out' W W' D D' E E' S1 T2 n a n' a' Hin Hin' En) as [L1 L2].
  destruct (exact_mono topo topo H H hash_im hash_im TC TC arts' arts code' code out' out W' W D' D E' E S2 T1 n' a' n a Hin' Hin (eq_sym En)) as [L3 L4].
  destruct (a_completed a) as [u v], (a_completed a') as [u' v']. cbn [fst snd] in *. f_equal; lia.
Qed.

(** ** Sorted projects *)
Section Sorted.
  Variables (M : num) (topo : graph -> option (list nat)) (H : Type) (hash_im : art_im -> H).
  Hypothesis TC : topo_ok topo.
  Variables (arts arts' : list art_im) (refs refs' : list src_ref).
  Hypothesis W : Forall im_wf arts.
  Hypothesis D : distinct arts.
  Hypothesis P : Permutation arts arts'.
  Hypothesis Wr : Forall ref_wf refs.
  Hypothesis NR : forall i j, ~ repeated refs i j.
  Hypothesis Pr : Permutation refs refs'.
  Notation code := (snd (join_locations refs)).
  Notation code' := (snd (join_locations refs')).

  Lemma perm_wf : Forall im_wf arts'.
  Proof. eapply Permutation_Forall; eauto. Qed.
  Lemma perm_distinct : distinct arts'.
  Proof. unfold distinct in *; eapply Permutation_NoDup; [apply Permutation_map; eauto|auto]. Qed.
  Lemma perm_refs_wf : Forall ref_wf refs'.
  Proof. eapply Permutation_Forall; eauto. Qed.

  Lemma sub_codes_sort c c' : NoDup (map (fun e => s_key (fst e)) (ic_secondary c)) -> code_same c c' -> code_sort c = code_sort c'.
  Proof.
    intros N [E Ps]. unfold code_sort. rewrite E. f_equal. unfold im_sort. apply isort_canonical; auto.
    - intros a b. apply str_leb_total.
    - intros a b d. apply str_leb_trans.
    - intros a b Ha Hb L1 L2. eapply (nodup_same (fun e : subname * code_loc => s_key (fst e))); eauto. apply str_leb_anti; auto.
  Qed.

  Lemma code_keys r : Forall ref_wf r -> (forall i j, ~ repeated r i j) -> NoDup (map (fun e : name * impl_code => n_key (fst e)) (snd (join_locations r))).
  Proof.
    intros Wr0 N. pose proof (out_nodup r) as ND.
    assert (Wn : Forall (fun e : name * impl_code => name_wf (fst e)) (snd (join_locations r))).
    { rewrite Forall_forall. intros [n c] Hin. eapply (code_wf (fun _ => [])); eauto. }
    unfold pkeys in ND. clear -ND Wn. induction Wn as [|[n c] l Wn Wl IH]; cbn [map fst] in *; [constructor|].
    inversion ND as [|? ? N1 N2]; subst. constructor; auto. intros Hin. apply in_map_iff in Hin as ([m d] & E & Hm). apply N1. apply in_map_iff.
    exists (m, d). split; auto. cbn [fst] in *. unfold nk. f_equal; auto. apply key_eq_ty; auto. rewrite Forall_forall in Wl. apply (Wl (m, d) Hm).
  Qed.

  Lemma code_entry r : Forall ref_wf r -> (forall i j, ~ repeated r i j) -> forall n c, In (n, c) (snd (join_locations r)) ->
    im_get name_eqb n (snd (join_locations r)) = Some c.
  Proof. intros Wr0 N n c Hin. apply (in_get name_eqb nk name_eqb_iff); auto. apply out_nodup. Qed.

  Lemma code_subs r : Forall ref_wf r -> (forall i j, ~ repeated r i j) -> forall n c, In (n, c) (snd (join_locations r)) ->
    NoDup (map (fun e => s_key (fst e)) (ic_secondary c)).
  Proof.
    intros Wr0 N n c Hin. apply (no_error_iff r Wr0) in N. apply dups_nil_iff in N. destruct (out_entry r n c N Hin) as (_ & _ & _ & X & _). exact X.
  Qed.

  Lemma codes_ok : codes_same code code'.
  Proof. exact (join_get refs refs' Pr Wr NR). Qed.

  (** The code maps, sorted. *)
  Lemma codes_sorted : Forall2 (fun e f => n_key (fst e) = n_key (fst f) /\ snd e = snd f)
    (map (fun e => (fst e, code_sort (snd e))) (im_sort name_leb code)) (map (fun e => (fst e, code_sort (snd e))) (im_sort name_leb code')).
  Proof.
    pose proof (perm_repeated refs refs' Wr Pr NR) as NR'. pose proof perm_refs_wf as Wr'.
    apply forall2_map. unfold im_sort, name_leb. apply (sorted_forall2 (fun e : name * impl_code => n_key (fst e)) (fun e : name * impl_code => n_key (fst e))).
    - now apply code_keys.
    - now apply code_keys.
    - intros k. rewrite !in_map_iff.
      assert (G : forall r r', Permutation r r' -> Forall ref_wf r -> (forall i j, ~ repeated r i j) ->
        (exists x : name * impl_code, n_key (fst x) = k /\ In x (snd (join_locations r))) -> exists x : name * impl_code, n_key (fst x) = k /\ In x (snd (join_locations r'))).
      { intros r r' Pq Wq Nq ([n c] & <- & Hin). pose proof (join_get r r' Pq Wq Nq n) as J. rewrite (code_entry r Wq Nq n c Hin) in J.
        destruct (im_get name_eqb n (snd (join_locations r'))) as [c'|] eqn:E; [|destruct J].
        destruct (get_some_in name_eqb nk name_eqb_iff _ _ _ E) as (m & Em & Hm). exists (m, c'). split; auto. unfold nk in Em. cbn [fst]. congruence. }
      split; [apply (G refs refs')|apply (G refs' refs)]; auto using Permutation_sym.
    - intros [n c] [m c'] Hn Hm E. cbn [fst snd] in *. split; auto. apply sub_codes_sort; [apply (code_subs refs Wr NR n c Hn)|].
      pose proof (join_get refs refs' Pr Wr NR n) as J. rewrite (code_entry refs Wr NR n c Hn) in J.
      assert (Wn : name_wf n) by (eapply (code_wf (fun _ => []) refs); eauto). assert (Wm : name_wf m) by (eapply (code_wf (fun _ => []) refs'); eauto).
      assert (En : nk n = nk m) by (unfold nk; f_equal; auto; apply key_eq_ty; auto).
      rewrite (get_proj name_eqb nk name_eqb_iff _ n m En) in J. rewrite (code_entry refs' Wr' NR' m c' Hm) in J. exact J.
  Qed.

  Variables out out' : list (name * artifact M H).
  Hypothesis B : build M topo H hash_im arts code = Ok out.
  Hypothesis B' : build M topo H hash_im arts' code' = Ok out'.

  Lemma impl_sorted n x (x' : artifact M H) : In (n, x) out -> impl_same (a_impl x) (a_impl x') ->
    match a_impl x with ICode c => ICode (code_sort c) | i => i end = match a_impl x' with ICode c => ICode (code_sort c) | i => i end.
  Proof.
    intros Hin S. destruct (a_impl x) as [d|c|] eqn:Ei, (a_impl x') as [d'|c'|]; cbn [impl_same] in S; try discriminate S; try congruence. f_equal.
    apply sub_codes_sort; auto.
    destruct (out_entries M topo H hash_im TC arts code out W D B) as [O1 O2]. destruct (O1 n x Hin) as (a & Ha & ->).
    destruct (O2 a Ha) as (y & Hy & Iy & _).
    assert (y = x); [|subst y].
    { eapply (nodup_same (fun e : name * artifact M H => n_key (fst e))) with (x := (im_name a, y)) (y := (im_name a, x)) in Hy; eauto.
      - injection Hy; auto. - apply (aw_nodup _ (built_wf M topo H hash_im TC arts code out W D B (mkProject out code [] [] None) eq_refl)). }
    rewrite Ei in Iy. unfold impl_im in Iy. destruct (im_done a); [discriminate Iy|].
    destruct (im_get name_eqb (im_name a) code) as [c0|] eqn:E; [|discriminate Iy]. injection Iy as ->.
    destruct (get_some_in name_eqb nk name_eqb_iff _ _ _ E) as (m & Em & Hm). eapply code_subs; eauto.
  Qed.

  Lemma arts_sorted : Forall2 (fun e f => fst e = fst f /\ art_same (snd e) (snd f))
    (map (fun e => (fst e, art_sort _ _ (snd e))) (im_sort name_leb out)) (map (fun e => (fst e, art_sort _ _ (snd e))) (im_sort name_leb out')).
  Proof.
    pose proof perm_wf as W'. pose proof perm_distinct as D'.
    pose proof (built_wf M topo H hash_im TC arts code out W D B (mkProject out code [] [] None) eq_refl) as BW.
    pose proof (built_wf M topo H hash_im TC arts' code' out' W' D' B' (mkProject out' code' [] [] None) eq_refl) as BW'.
    pose proof (build_perm M topo H hash_im TC arts arts' code code' out out' W D P codes_ok B B') as BP.
    apply forall2_map. unfold im_sort, name_leb. apply (sorted_forall2 (fun e : name * artifact M H => n_key (fst e)) (fun e : name * artifact M H => n_key (fst e))).
    - apply BW.
    - apply BW'.
    - intros k. rewrite (out_keys M topo H hash_im TC arts code out W D B k), (out_keys M topo H hash_im TC arts' code' out' W' D' B' k).
      pose proof (Permutation_map (fun a => n_key (im_name a)) P) as Pm. split; apply Permutation_in; [exact Pm|now apply Permutation_sym].
    - intros [n x] [m y] Hn Hm E. cbn [fst snd] in *. destruct (BP n x Hn) as (x' & Hx' & S).
      assert (X : (n, x') = (m, y)).
      { eapply (nodup_same (fun e : name * artifact M H => n_key (fst e))); eauto. apply BW'. }
      injection X as <- <-. split; auto. destruct S as (S1 & S2 & S3 & S4 & S5 & S6 & S7 & S8).
      unfold art_same, art_sort. cbn [a_id a_name a_file a_partof a_parts a_completed a_text a_impl a_subnames].
      split; auto. split; auto. split; auto. split; [now rewrite S4|]. split.
      { unfold name_leb. apply (keys_same n_key n_key); auto.
        - apply (oo_pnodup out (build_out M topo H hash_im TC arts code out W B) n x Hn).
        - apply (oo_pnodup out' (build_out M topo H hash_im TC arts' code' out' W' B') n x' Hm). }
      split; auto. split; [eapply impl_sorted; eauto|]. now rewrite S8.
  Qed.

  Lemma completions_sorted (Cs : forall n x x', In (n, x) out -> In (n, x') out' -> a_completed x = a_completed x') :
    Forall2 (fun e f => a_completed (snd e) = a_completed (snd f))
    (map (fun e => (fst e, art_sort _ _ (snd e))) (im_sort name_leb out)) (map (fun e => (fst e, art_sort _ _ (snd e))) (im_sort name_leb out')).
  Proof.
    pose proof perm_wf as W'. pose proof perm_distinct as D'.
    pose proof (built_wf M topo H hash_im TC arts code out W D B (mkProject out code [] [] None) eq_refl) as BW.
    pose proof (built_wf M topo H hash_im TC arts' code' out' W' D' B' (mkProject out' code' [] [] None) eq_refl) as BW'.
    pose proof (build_perm M topo H hash_im TC arts arts' code code' out out' W D P codes_ok B B') as BP.
    apply forall2_map. unfold im_sort, name_leb. apply (sorted_forall2 (fun e : name * artifact M H => n_key (fst e)) (fun e : name * artifact M H => n_key (fst e))).
    - apply BW.
    - apply BW'.
    - intros k. rewrite (out_keys M topo H hash_im TC arts code out W D B k), (out_keys M topo H hash_im TC arts' code' out' W' D' B' k).
      pose proof (Permutation_map (fun a => n_key (im_name a)) P) as Pm. split; apply Permutation_in; [exact Pm|now apply Permutation_sym].
    - intros [n x] [m y] Hn Hm E. cbn [fst snd art_sort a_completed] in *. destruct (BP n x Hn) as (x' & Hx' & S).
      assert (X : (n, x') = (m, y)).
      { eapply (nodup_same (fun e : name * artifact M H => n_key (fst e))); eauto. apply BW'. }
      injection X as <- <-. eauto.
  Qed.

  Theorem projects_same prefix sp url :
    project_same (project_sort _ _ (mkProject out code prefix sp url)) (project_sort _ _ (mkProject out' code' prefix sp url)).
  Proof. split; [apply arts_sorted|]. split; [apply codes_sorted|]. auto. Qed.
End Sorted.

(** ** Faults and lints *)
Section Transfer.
  Context {M : num} {H : Type}.
  Definition entries_same (out out' : list (name * artifact M H)) : Prop :=
    forall n x, In (n, x) out -> exists x', In (n, x') out' /\ entry_same M H x x'.
  Lemma done_same x x' d : entry_same M H x x' -> a_impl x = IDone d -> a_impl x' = IDone d.
  Proof. intros (_ & _ & _ & _ & _ & _ & S & _) E. rewrite E in S. cbn [impl_same] in S. destruct (a_impl x'); congruence. Qed.
  Lemma done_same' x x' d : entry_same M H x x' -> a_impl x' = IDone d -> a_impl x = IDone d.
  Proof. intros (_ & _ & _ & _ & _ & _ & S & _) E. rewrite E in S. destruct (a_impl x); cbn [impl_same] in S; congruence. Qed.

  Variables out out' : list (name * artifact M H).
  Hypothesis S1 : entries_same out out'.
  Hypothesis S2 : entries_same out' out.

  Lemma tr_exists q : exists_art out q -> exists_art out' q.
  Proof. intros (m & b & Hin & E). destruct (S1 m b Hin) as (b' & Hb' & _). exists m, b'. auto. Qed.
  Lemma tr_dangling x y : dangling out x y -> dangling out' x y.
  Proof.
    intros Dg m b' Hin E. destruct (S2 m b' Hin) as (b & Hb & S). destruct (Dg m b Hb E) as [Y N]. split; auto.
    destruct S as (_ & _ & _ & _ & _ & _ & _ & Es). rewrite Es. exact N.
  Qed.
  Lemma tr_sound prefix : arts_sound out prefix -> arts_sound out' prefix.
  Proof.
    intros A n x' Hin. destruct (S2 n x' Hin) as (x & Hx & S). destruct (A n x Hx) as (A1 & A2 & A3).
    pose proof S as (_ & _ & _ & Ep & _ & Et & _ & Es). rewrite Ep, Et, Es. split; [|split].
    - intros q Hq. destruct (A1 q Hq) as [X L]. split; auto. now apply tr_exists.
    - intros (d & Ed). apply A2. exists d. eapply done_same; eauto.
    - exact A3.
  Qed.
  Lemma tr_longs : longs_in_text out -> longs_in_text out'.
  Proof.
    intros (n & a & x & y & Hin & R & L). destruct (S1 n a Hin) as (a' & Ha' & S). exists n, a', x, y. split; auto. split; auto.
    destruct S as (_ & _ & _ & _ & _ & Et & _). now rewrite <- Et.
  Qed.
End Transfer.
Section Transfer2.
  Context {M : num} {H : Type}.
  Variables out out' : list (name * artifact M H).
  Hypothesis S1 : entries_same out out'.
  Hypothesis S2 : entries_same out' out.
  Lemma tr_texts : texts_resolve out -> texts_resolve out'.
  Proof.
    intros T n a' x y Hin R Dg. destruct (S2 n a' Hin) as (a & Ha & S). apply (T n a x y Ha); [|apply (tr_dangling out' out S1); auto].
    destruct S as (_ & _ & _ & _ & _ & Et & _). now rewrite <- Et.
  Qed.
  Variables code code' : list (name * impl_code).
  Hypothesis C2 : forall n sub loc, code_ref code' n sub loc -> exists m, code_ref code m sub loc /\ same_name n m.
  Lemma tr_code : code_resolves out code -> code_resolves out' code'.
  Proof.
    intros T n sub loc R. destruct (C2 n sub loc R) as (n' & R' & E1 & E2). destruct (T n' sub loc R') as (m & b & Hm & [F1 F2] & Hd & Hs).
    destruct (S1 m b Hm) as (b' & Hb' & S). exists m, b'. split; auto. split; [split; congruence|]. split.
    - intros d Ed. apply (Hd d). eapply done_same'; eauto.
    - destruct S as (_ & _ & _ & _ & _ & _ & _ & <-). exact Hs.
  Qed.

  Variable path_str : path -> str.
  Variables p p' : project M H.
  Hypothesis PA : pr_arts p = out.
  Hypothesis PA' : pr_arts p' = out'.
  Hypothesis PP : pr_prefix p = pr_prefix p'.
  Lemma tr_errors l : In l (lint_errors path_str p) -> In l (lint_errors path_str p').
  Proof.
    rewrite !lint_errors_exact, PA, PA'. intros (n & a & Hin & E). destruct (S1 n a Hin) as (a' & Ha' & S). exists n, a'. split; auto.
    pose proof S as (_ & _ & Ef & Ep & _ & Et & _ & Es). unfold error_lint in *. unfold missing_link, bad_link, header_in, end_in, done_with_subs in *. rewrite PA, PA', PP in *.
    rewrite <- Ef, <- Ep, <- Et, <- Es. destruct E as [(q & [X N] & ->)|[E|[E|[E|[[(d & Ed) N] ->]]]]].
    - left. exists q. split; auto. split; auto. intros Y. apply N. apply (tr_exists out' out S2 q Y).
    - auto.
    - auto.
    - auto.
    - do 4 right. split; auto. split; auto. exists d. eapply done_same; eauto.
  Qed.
  Hypothesis C1 : forall n sub loc, code_ref code n sub loc -> code_ref code' n sub loc.
  Lemma tr_reason n sub msg : code_reason p n sub msg -> code_reason p' n sub msg.
  Proof.
    unfold code_reason. rewrite PA, PA'. intros [[N E]|[[(m & b & d & Hm & Em & Ed) E]|[(m & b & x & -> & Hm & Em & Hd & Hz) E]]].
    - left. split; auto. intros m b' Hm. destruct (S2 m b' Hm) as (b & Hb & _). apply (N m b Hb).
    - right. left. split; auto. destruct (S1 m b Hm) as (b' & Hb' & S). exists m, b', d. split; auto. split; auto. eapply done_same; eauto.
    - right. right. split; auto. destruct (S1 m b Hm) as (b' & Hb' & S). exists m, b', x. split; auto. split; auto. split; auto. split.
      + intros d Ed. apply (Hd d). eapply done_same'; eauto.
      + destruct S as (_ & _ & _ & _ & _ & _ & _ & <-). exact Hz.
  Qed.
End Transfer2.
