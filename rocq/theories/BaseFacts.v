(** Facts about the vocabulary of Base.v. *)
From Coq Require Import Lia ZifyBool Permutation Sorted.
From Verif Require Import Base.

(** ** Strings *)

Lemma str_eqb_eq a b : str_eqb a b = true <-> a = b.
Proof.
  revert b; induction a as [|x a IH]; intros [|y b]; simpl; split; intros H; try congruence; auto.
  - apply andb_true_iff in H as [H1 H2]. apply N.eqb_eq in H1. apply IH in H2. congruence.
  - inversion H; subst. rewrite N.eqb_refl. simpl. now apply IH.
Qed.

Lemma str_eqb_refl a : str_eqb a a = true.
Proof. now apply str_eqb_eq. Qed.

Lemma str_eqb_neq a b : str_eqb a b = false <-> a <> b.
Proof.
  rewrite <- not_true_iff_false, str_eqb_eq. tauto.
Qed.

Lemma str_eq_dec (a b : str) : {a = b} + {a <> b}.
Proof. apply list_eq_dec, N.eq_dec. Defined.

Lemma str_cmp_refl a : str_cmp a a = Eq.
Proof. induction a; simpl; auto. now rewrite N.compare_refl. Qed.

Lemma str_cmp_eq a b : str_cmp a b = Eq <-> a = b.
Proof.
  split; [|intros ->; apply str_cmp_refl].
  revert b; induction a as [|x a IH]; intros [|y b]; simpl; try discriminate; auto.
  destruct (N.compare_spec x y); try discriminate. subst. intros H. f_equal. auto.
Qed.

Lemma str_cmp_antisym a b : str_cmp b a = CompOpp (str_cmp a b).
Proof.
  revert b; induction a as [|x a IH]; intros [|y b]; simpl; auto.
  rewrite (N.compare_antisym x y). destruct (N.compare x y); simpl; auto.
Qed.

Lemma str_cmp_lt_trans a b c : str_cmp a b = Lt -> str_cmp b c = Lt -> str_cmp a c = Lt.
Proof.
  revert b c; induction a as [|x a IH]; intros [|y b] [|z c]; simpl; try discriminate; auto.
  destruct (N.compare_spec x y), (N.compare_spec y z), (N.compare_spec x z);
    try discriminate; subst; try lia; eauto.
Qed.

Lemma str_leb_refl a : str_leb a a = true.
Proof. unfold str_leb. now rewrite str_cmp_refl. Qed.

Lemma str_leb_total a b : str_leb a b = true \/ str_leb b a = true.
Proof.
  unfold str_leb. rewrite (str_cmp_antisym a b). destruct (str_cmp a b); simpl; auto.
Qed.

Lemma str_leb_antisym a b : str_leb a b = true -> str_leb b a = true -> a = b.
Proof.
  unfold str_leb. rewrite (str_cmp_antisym a b).
  destruct (str_cmp a b) eqn:E; simpl; try discriminate. intros _ _. now apply str_cmp_eq.
Qed.

Lemma str_leb_trans a b c : str_leb a b = true -> str_leb b c = true -> str_leb a c = true.
Proof.
  unfold str_leb. destruct (str_cmp a b) eqn:E1, (str_cmp b c) eqn:E2; try discriminate; intros _ _.
  - apply str_cmp_eq in E1, E2. subst. now rewrite str_cmp_refl.
  - apply str_cmp_eq in E1. subst. now rewrite E2.
  - apply str_cmp_eq in E2. subst. now rewrite E1.
  - now rewrite (str_cmp_lt_trans _ _ _ E1 E2).
Qed.

Lemma starts_with_iff x p : starts_with x p = true <-> exists r, x = p ++ r.
Proof.
  revert x; induction p as [|c p IH]; intros x; simpl.
  - split; [intros _; now exists x|]. now destruct x.
  - destruct x as [|d x].
    + split; [discriminate|]. intros [r Hr]. discriminate.
    + simpl. rewrite andb_true_iff, N.eqb_eq, IH. split.
      * intros [-> [r ->]]. now exists r.
      * intros [r Hr]. inversion Hr; subst. eauto.
Qed.

Lemma mem_char_iff c x : mem_char c x = true <-> In c x.
Proof.
  unfold mem_char. rewrite existsb_exists. split.
  - intros (d & Hd & E). apply N.eqb_eq in E. now subst.
  - intros H. exists c. now rewrite N.eqb_refl.
Qed.

(** ** Upper case *)

Ltac chars := unfold upc, is_lower, is_upper, is_digit, c_nl, c_cr, c_sp, c_hash, c_comma, c_dash,
  c_dot, c_slash, c_under, c_lbr, c_rbr, c_tick, c_longs, c_kelvin in *.

Lemma upc_idem c : upc (upc c) = upc c.
Proof.
  unfold upc. destruct (is_lower c) eqn:E; [|now rewrite E].
  destruct (is_lower (c - 32)%N) eqn:E2; auto. unfold is_lower in *. lia.
Qed.

Lemma upper_idem x : upper (upper x) = upper x.
Proof. unfold upper. rewrite map_map. apply map_ext. apply upc_idem. Qed.

Lemma upper_app x y : upper (x ++ y) = upper x ++ upper y.
Proof. apply map_app. Qed.

Lemma upper_length x : length (upper x) = length x.
Proof. apply map_length. Qed.

(** ** Sorting *)
Section SortFacts.
  Context {A : Type} (leb : A -> A -> bool).
  Hypothesis leb_total : forall a b, leb a b = true \/ leb b a = true.
  Hypothesis leb_trans : forall a b c, leb a b = true -> leb b c = true -> leb a c = true.

  Definition le a b : Prop := leb a b = true.

  Lemma insert_sorted_perm x l : Permutation (x :: l) (insert_sorted leb x l).
  Proof.
    induction l as [|y l IH]; simpl; auto.
    destruct (leb x y); auto.
    transitivity (y :: x :: l); [apply perm_swap|]. now constructor.
  Qed.

  Lemma isort_perm l : Permutation l (isort leb l).
  Proof.
    induction l as [|x l IH]; simpl; auto.
    transitivity (x :: isort leb l); [now constructor|]. apply insert_sorted_perm.
  Qed.

  Lemma insert_sorted_sorted x l :
    StronglySorted le l -> StronglySorted le (insert_sorted leb x l).
  Proof.
    induction 1 as [|y l Hs IH Hf]; simpl.
    - repeat constructor.
    - destruct (leb x y) eqn:E.
      + constructor; [now constructor|]. constructor; [exact E|].
        eapply Forall_impl; [|exact Hf]. intros a Ha. eapply leb_trans; eauto.
      + constructor; [exact IH|].
        assert (Hyx : leb y x = true) by (destruct (leb_total x y); congruence).
        rewrite Forall_forall in *. intros a Ha.
        apply (Permutation_in a (Permutation_sym (insert_sorted_perm x l))) in Ha.
        destruct Ha as [->|Ha]; [exact Hyx|]. now apply Hf.
  Qed.

  Lemma isort_sorted l : StronglySorted le (isort leb l).
  Proof.
    induction l; simpl; [constructor|]. now apply insert_sorted_sorted.
  Qed.

  (** The sorted form is unique when the order is antisymmetric on the elements. *)
  Lemma sorted_unique l1 l2 :
    (forall a b, In a l1 -> In b l1 -> le a b -> le b a -> a = b) ->
    StronglySorted le l1 -> StronglySorted le l2 -> Permutation l1 l2 -> l1 = l2.
  Proof.
    intros Hanti H1. revert l2. induction H1 as [|a l1 Hs1 IH Hf1]; intros l2 H2 Hp.
    - now apply Permutation_nil in Hp.
    - destruct l2 as [|b l2]; [symmetry in Hp; now apply Permutation_nil in Hp|].
      inversion H2 as [|? ? Hs2 Hf2]; subst.
      assert (a = b).
      { assert (Hb : In b (a :: l1)).
        { eapply Permutation_in; [apply Permutation_sym, Hp|]. now left. }
        assert (Ha : In a (b :: l2)).
        { eapply Permutation_in; [apply Hp|]. now left. }
        destruct Hb as [Hb|Hb]; [congruence|]. destruct Ha as [Ha|Ha]; [congruence|].
        rewrite Forall_forall in *. apply Hanti; [now left|now right| |]; auto. }
      subst b. f_equal. apply IH; auto.
      + intros x y Hx Hy. apply Hanti; now right.
      + eapply Permutation_cons_inv; eauto.
  Qed.

  Lemma isort_canonical l1 l2 :
    (forall a b, In a l1 -> In b l1 -> le a b -> le b a -> a = b) ->
    Permutation l1 l2 -> isort leb l1 = isort leb l2.
  Proof.
    intros Hanti Hp. apply sorted_unique; try apply isort_sorted.
    - intros a b Ha Hb. apply Hanti; eapply Permutation_in; try eassumption;
        apply Permutation_sym, isort_perm.
    - rewrite <- (isort_perm l1), <- (isort_perm l2). exact Hp.
  Qed.

  Lemma isort_id l : StronglySorted le l -> isort leb l = l.
  Proof.
    induction 1 as [|x l Hs IH Hf]; simpl; auto. rewrite IH.
    destruct l as [|y l]; auto. simpl. inversion Hf; subst. unfold le in *. now rewrite H1.
  Qed.
End SortFacts.

Lemma isort_in {A} (leb : A -> A -> bool) l x : In x (isort leb l) <-> In x l.
Proof.
  split; apply Permutation_in; [apply Permutation_sym|]; apply isort_perm.
Qed.

(** ** Insertion-ordered maps *)
Section MapFacts.
  Context {K V KK : Type} (keqb : K -> K -> bool) (proj : K -> KK).
  Hypothesis keqb_spec : forall a b, keqb a b = true <-> proj a = proj b.

  Notation get := (im_get (V:=V) keqb).
  Notation insert := (im_insert (V:=V) keqb).
  Notation remove := (im_remove (V:=V) keqb).

  Definition pkeys (m : list (K * V)) : list KK := map (fun kv => proj (fst kv)) m.

  Lemma keqb_false a b : keqb a b = false <-> proj a <> proj b.
  Proof. rewrite <- not_true_iff_false, keqb_spec. tauto. Qed.

  Lemma keqb_refl a : keqb a a = true.
  Proof. now apply keqb_spec. Qed.

  Lemma get_proj m k k' : proj k = proj k' -> get k m = get k' m.
  Proof.
    intros E. induction m as [|[a v] m IH]; simpl; auto.
    destruct (keqb a k) eqn:E1, (keqb a k') eqn:E2; auto;
      rewrite ?keqb_spec, ?keqb_false in *; congruence.
  Qed.

  Lemma get_insert_same m k v : get k (insert k v m) = Some v.
  Proof.
    induction m as [|[a w] m IH]; simpl.
    - now rewrite keqb_refl.
    - destruct (keqb a k) eqn:E; simpl; rewrite E; auto.
  Qed.

  Lemma get_insert_other m k k' v : proj k <> proj k' -> get k' (insert k v m) = get k' m.
  Proof.
    intros N. induction m as [|[a w] m IH]; simpl.
    - destruct (keqb k k') eqn:E; auto. apply keqb_spec in E. congruence.
    - destruct (keqb a k) eqn:E; simpl; destruct (keqb a k') eqn:E2; auto.
      apply keqb_spec in E, E2. congruence.
  Qed.

  Lemma get_insert m k k' v :
    get k' (insert k v m) = if keqb k k' then Some v else get k' m.
  Proof.
    destruct (keqb k k') eqn:E.
    - apply keqb_spec in E. rewrite <- (get_proj _ k k' E). apply get_insert_same.
    - apply keqb_false in E. now apply get_insert_other.
  Qed.

  Lemma get_some_in m k v : get k m = Some v -> exists k', proj k' = proj k /\ In (k', v) m.
  Proof.
    induction m as [|[a w] m IH]; simpl; [discriminate|].
    destruct (keqb a k) eqn:E.
    - intros H; inversion H; subst. apply keqb_spec in E. eauto.
    - intros H. destruct (IH H) as (k' & ? & ?). eauto.
  Qed.

  Lemma get_none_iff m k : get k m = None <-> ~ In (proj k) (pkeys m).
  Proof.
    induction m as [|[a w] m IH]; simpl; [tauto|].
    destruct (keqb a k) eqn:E.
    - apply keqb_spec in E. split; [discriminate|]. intros H. exfalso. apply H. now left.
    - apply keqb_false in E. rewrite IH. simpl. tauto.
  Qed.

  Lemma get_some_iff m k : (exists v, get k m = Some v) <-> In (proj k) (pkeys m).
  Proof.
    destruct (get k m) eqn:E.
    - split; eauto. intros _. destruct (get_some_in _ _ _ E) as (k' & <- & H).
      apply in_map_iff. exists (k', v). auto.
    - apply get_none_iff in E. split; [intros [v H]; discriminate|tauto].
  Qed.

  Lemma mem_iff m k : im_mem keqb k m = true <-> In (proj k) (pkeys m).
  Proof.
    unfold im_mem. rewrite <- get_some_iff. destruct (get k m); split; eauto; try discriminate.
    intros [v H]; discriminate.
  Qed.

  Lemma in_get m k v : NoDup (pkeys m) -> In (k, v) m -> get k m = Some v.
  Proof.
    induction m as [|[a w] m IH]; simpl; [tauto|].
    intros ND [H|H]; inversion ND as [|? ? Hn ND']; subst.
    - inversion H; subst. now rewrite keqb_refl.
    - destruct (keqb a k) eqn:E; auto. apply keqb_spec in E. exfalso. apply Hn. rewrite E.
      apply in_map_iff. exists (k, v). auto.
  Qed.

  Lemma pkeys_insert_in m k v x : In x (pkeys (insert k v m)) <-> x = proj k \/ In x (pkeys m).
  Proof.
    induction m as [|[a w] m IH]; simpl; [intuition congruence|].
    destruct (keqb a k) eqn:E; simpl.
    - apply keqb_spec in E. rewrite E. intuition congruence.
    - rewrite IH. tauto.
  Qed.

  Lemma nodup_insert m k v : NoDup (pkeys m) -> NoDup (pkeys (insert k v m)).
  Proof.
    induction m as [|[a w] m IH]; simpl; intros ND.
    - repeat constructor. tauto.
    - inversion ND as [|? ? Hn ND']; subst. destruct (keqb a k) eqn:E; simpl; [now constructor|].
      constructor; auto. rewrite pkeys_insert_in. apply keqb_false in E. intuition congruence.
  Qed.

  (** A fresh key is appended. *)
  Lemma insert_fresh m k v : get k m = None -> insert k v m = m ++ [(k, v)].
  Proof.
    induction m as [|[a w] m IH]; simpl; auto.
    destruct (keqb a k); [discriminate|]. intros H. now rewrite IH.
  Qed.

  Lemma nodup_extend l m : NoDup (pkeys m) -> NoDup (pkeys (im_extend keqb m l)).
  Proof.
    unfold im_extend. revert m. induction l as [|[k v] l IH]; simpl; auto.
    intros m ND. apply IH. now apply nodup_insert.
  Qed.

  Lemma nodup_collect l : NoDup (pkeys (im_collect (V:=V) keqb l)).
  Proof. apply nodup_extend. constructor. Qed.

  Lemma pkeys_extend_in l m x :
    In x (pkeys (im_extend keqb m l)) <-> In x (pkeys m) \/ In x (pkeys l).
  Proof.
    unfold im_extend. revert m. induction l as [|[k v] l IH]; simpl; [tauto|].
    intros m. rewrite IH, pkeys_insert_in. simpl. intuition congruence.
  Qed.

  (** Collecting distinct keys keeps the list as it is. *)
  Lemma extend_distinct l m :
    NoDup (pkeys (m ++ l)) -> im_extend keqb m l = m ++ l.
  Proof.
    unfold im_extend. revert m. induction l as [|[k v] l IH]; simpl; intros m ND.
    - now rewrite app_nil_r.
    - rewrite insert_fresh.
      + rewrite IH; rewrite <- app_assoc; simpl; auto.
      + apply get_none_iff. intros Hin. unfold pkeys in ND. rewrite map_app in ND. simpl in ND.
        apply NoDup_remove_2 in ND. apply ND. apply in_or_app. now left.
  Qed.

  Lemma collect_distinct l : NoDup (pkeys l) -> im_collect keqb l = l.
  Proof. apply (extend_distinct l []). Qed.

  (** Last write wins. *)
  Lemma get_extend l m k :
    get k (im_extend keqb m l) =
    match get k (rev l) with Some v => Some v | None => get k m end.
  Proof.
    unfold im_extend. revert m. induction l as [|[a w] l IH]; simpl; auto.
    intros m. rewrite IH.
    assert (Happ : forall l1 l2, get k (l1 ++ l2) =
      match get k l1 with Some v => Some v | None => get k l2 end).
    { induction l1 as [|[x y] l1 IH1]; simpl; auto. intros. destruct (keqb x k); auto. }
    rewrite Happ. destruct (get k (rev l)); auto. simpl. rewrite get_insert.
    destruct (keqb a k); auto.
  Qed.

  Lemma get_app l1 l2 k : get k (l1 ++ l2) =
      match get k l1 with Some v => Some v | None => get k l2 end.
  Proof. induction l1 as [|[x y] l1 IH1]; simpl; auto. intros. destruct (keqb x k); auto. Qed.

  Lemma swap_last_perm (m : list (K * V)) : Permutation m (swap_last m).
  Proof.
    unfold swap_last. destruct (rev m) as [|x r] eqn:E.
    - apply (f_equal (@rev _)) in E. rewrite rev_involutive in E. subst. constructor.
    - apply (f_equal (@rev _)) in E. rewrite rev_involutive in E. subst. simpl.
      symmetry. apply Permutation_cons_append.
  Qed.

  Lemma remove_perm m k :
    NoDup (pkeys m) ->
    Permutation (remove k m) (filter (fun kv => negb (keqb (fst kv) k)) m).
  Proof.
    induction m as [|[a w] m IH]; simpl; intros ND; auto.
    inversion ND as [|? ? Hn ND']; subst. destruct (keqb a k) eqn:E; simpl.
    - rewrite <- swap_last_perm. apply keqb_spec in E.
      assert (H : filter (fun kv => negb (keqb (fst kv) k)) m = m).
      { clear -Hn E keqb_spec. induction m as [|[b u] m IH]; simpl; auto.
        destruct (keqb b k) eqn:E2; simpl.
        - apply keqb_spec in E2. exfalso. apply Hn. left. simpl. congruence.
        - f_equal. apply IH. intros H. apply Hn. now right. }
      now rewrite H.
    - constructor. auto.
  Qed.

  Lemma perm_pkeys m1 m2 : Permutation m1 m2 -> Permutation (pkeys m1) (pkeys m2).
  Proof. apply Permutation_map. Qed.

  Lemma nodup_pkeys_perm m1 m2 : Permutation m1 m2 -> NoDup (pkeys m1) -> NoDup (pkeys m2).
  Proof. intros P. apply Permutation_NoDup. now apply perm_pkeys. Qed.

  Lemma nodup_filter m f : NoDup (pkeys m) -> NoDup (pkeys (filter f m)).
  Proof.
    induction m as [|kv m IH]; simpl; auto. intros ND; inversion ND as [|? ? Hn ND']; subst.
    destruct (f kv); auto. simpl. constructor; auto. intros H. apply Hn.
    apply in_map_iff in H as (x & E & Hx). apply filter_In in Hx as [Hx _].
    apply in_map_iff. eauto.
  Qed.

  Lemma nodup_remove m k : NoDup (pkeys m) -> NoDup (pkeys (remove k m)).
  Proof.
    intros ND. eapply nodup_pkeys_perm; [apply Permutation_sym, remove_perm; auto|].
    now apply nodup_filter.
  Qed.

  (** Lookup is determined by the set of entries. *)
  Lemma get_perm m1 m2 k :
    NoDup (pkeys m1) -> Permutation m1 m2 -> get k m1 = get k m2.
  Proof.
    intros ND P. destruct (get k m1) as [v|] eqn:E1.
    - destruct (get_some_in _ _ _ E1) as (k' & Hk & Hin).
      symmetry. rewrite (get_proj _ k k'); auto. apply in_get.
      + eapply nodup_pkeys_perm; eauto.
      + eapply Permutation_in; eauto.
    - symmetry. apply get_none_iff. apply get_none_iff in E1. intros H. apply E1.
      eapply Permutation_in; [apply Permutation_sym, perm_pkeys, P|exact H].
  Qed.

  Lemma get_filter_neq m k k' :
    proj k <> proj k' -> get k' (filter (fun kv => negb (keqb (fst kv) k)) m) = get k' m.
  Proof.
    intros N. induction m as [|[a w] m IH]; simpl; auto.
    destruct (keqb a k) eqn:E; simpl.
    - rewrite IH. apply keqb_spec in E. destruct (keqb a k') eqn:E2; auto.
      apply keqb_spec in E2. congruence.
    - destruct (keqb a k'); auto.
  Qed.

  Lemma get_remove m k k' :
    NoDup (pkeys m) -> get k' (remove k m) = if keqb k k' then None else get k' m.
  Proof.
    intros ND. rewrite (get_perm (remove k m) (filter (fun kv => negb (keqb (fst kv) k)) m));
      [|now apply nodup_remove|now apply remove_perm].
    destruct (keqb k k') eqn:E.
    - apply keqb_spec in E. apply get_none_iff. intros H.
      apply in_map_iff in H as ([a w] & E1 & H). apply filter_In in H as [_ H]. simpl in *.
      apply negb_true_iff in H. apply keqb_false in H. congruence.
    - apply keqb_false in E. now apply get_filter_neq.
  Qed.
End MapFacts.

(** ** Insertion-ordered sets *)
Section SetFacts.
  Context {K KK : Type} (keqb : K -> K -> bool) (proj : K -> KK).
  Hypothesis keqb_spec : forall a b, keqb a b = true <-> proj a = proj b.

  Lemma is_mem_iff k m : is_mem keqb k m = true <-> In (proj k) (map proj m).
  Proof.
    unfold is_mem. rewrite existsb_exists, in_map_iff. split.
    - intros (x & H & E). apply keqb_spec in E. eauto.
    - intros (x & E & H). exists x. split; auto. now apply keqb_spec.
  Qed.

  Lemma is_mem_false k m : is_mem keqb k m = false <-> ~ In (proj k) (map proj m).
  Proof. rewrite <- not_true_iff_false, is_mem_iff. tauto. Qed.

  Lemma is_insert_in k m x :
    In x (map proj (is_insert keqb k m)) <-> x = proj k \/ In x (map proj m).
  Proof.
    unfold is_insert. destruct (is_mem keqb k m) eqn:E.
    - apply is_mem_iff in E. intuition congruence.
    - rewrite map_app, in_app_iff. simpl. intuition congruence.
  Qed.

  Lemma is_insert_nodup k m : NoDup (map proj m) -> NoDup (map proj (is_insert keqb k m)).
  Proof.
    unfold is_insert. intros ND. destruct (is_mem keqb k m) eqn:E; auto.
    apply is_mem_false in E. rewrite map_app. simpl.
    eapply Permutation_NoDup; [apply Permutation_cons_append|]. now constructor.
  Qed.

  Lemma is_extend_in l m x :
    In x (map proj (is_extend keqb m l)) <-> In x (map proj m) \/ In x (map proj l).
  Proof.
    unfold is_extend. revert m. induction l as [|k l IH]; simpl; [tauto|].
    intros m. rewrite IH, is_insert_in. intuition congruence.
  Qed.

  Lemma is_extend_nodup l m : NoDup (map proj m) -> NoDup (map proj (is_extend keqb m l)).
  Proof.
    unfold is_extend. revert m. induction l as [|k l IH]; simpl; auto.
    intros m ND. apply IH. now apply is_insert_nodup.
  Qed.

  Lemma is_collect_in l x : In x (map proj (is_collect keqb l)) <-> In x (map proj l).
  Proof. unfold is_collect. rewrite is_extend_in. simpl. tauto. Qed.

  Lemma is_collect_nodup l : NoDup (map proj (is_collect keqb l)).
  Proof. apply is_extend_nodup. constructor. Qed.

  Lemma is_extend_sub l m x : In x (is_extend keqb m l) -> In x m \/ In x l.
  Proof.
    unfold is_extend. revert m. induction l as [|k l IH]; simpl; [tauto|].
    intros m H. destruct (IH _ H) as [H1|H1]; auto. unfold is_insert in H1.
    destruct (is_mem keqb k m); auto. apply in_app_iff in H1. simpl in H1. tauto.
  Qed.

  Lemma is_extend_distinct l m :
    NoDup (map proj (m ++ l)) -> is_extend keqb m l = m ++ l.
  Proof.
    unfold is_extend. revert m. induction l as [|k l IH]; simpl; intros m ND.
    - now rewrite app_nil_r.
    - assert (E : is_mem keqb k m = false).
      { apply is_mem_false. intros H. rewrite map_app in ND. simpl in ND.
        apply NoDup_remove_2 in ND. apply ND, in_or_app. now left. }
      unfold is_insert at 2. rewrite E. rewrite IH; rewrite <- app_assoc; simpl; auto.
  Qed.

  Lemma is_collect_distinct l : NoDup (map proj l) -> is_collect keqb l = l.
  Proof. apply (is_extend_distinct l []). Qed.

  Lemma swap_last_set_perm (m : list K) : Permutation m (swap_last_set m).
  Proof.
    unfold swap_last_set. destruct (rev m) as [|x r] eqn:E.
    - apply (f_equal (@rev _)) in E. rewrite rev_involutive in E. subst. constructor.
    - apply (f_equal (@rev _)) in E. rewrite rev_involutive in E. subst. simpl.
      symmetry. apply Permutation_cons_append.
  Qed.

  Lemma is_remove_perm k m :
    NoDup (map proj m) -> Permutation (is_remove keqb k m) (filter (fun x => negb (keqb x k)) m).
  Proof.
    induction m as [|a m IH]; simpl; intros ND; auto.
    inversion ND as [|? ? Hn ND']; subst. destruct (keqb a k) eqn:E; simpl.
    - rewrite <- swap_last_set_perm. apply keqb_spec in E.
      assert (H : filter (fun x => negb (keqb x k)) m = m).
      { clear -Hn E keqb_spec. induction m as [|b m IH]; simpl; auto.
        destruct (keqb b k) eqn:E2; simpl.
        - apply keqb_spec in E2. exfalso. apply Hn. left. congruence.
        - f_equal. apply IH. intros H. apply Hn. now right. }
      now rewrite H.
    - constructor. auto.
  Qed.

  Lemma is_remove_in k m x :
    NoDup (map proj m) -> In x (is_remove keqb k m) <-> In x m /\ proj x <> proj k.
  Proof.
    intros ND. split.
    - intros H. apply (Permutation_in _ (is_remove_perm k m ND)) in H.
      apply filter_In in H as [H1 H2]. split; auto. intros E. apply keqb_spec in E.
      now rewrite E in H2.
    - intros [H1 H2]. apply (Permutation_in _ (Permutation_sym (is_remove_perm k m ND))).
      apply filter_In. split; auto. destruct (keqb x k) eqn:E; auto.
      apply keqb_spec in E. contradiction.
  Qed.

  Lemma is_remove_nodup k m : NoDup (map proj m) -> NoDup (map proj (is_remove keqb k m)).
  Proof.
    intros ND. eapply Permutation_NoDup;
      [apply Permutation_map, Permutation_sym, is_remove_perm; auto|].
    clear -ND. induction m as [|a m IH]; simpl; auto. inversion ND as [|? ? Hn ND']; subst.
    destruct (negb (keqb a k)); simpl; auto. constructor; auto.
    intros H. apply Hn. apply in_map_iff in H as (x & E & Hx). apply filter_In in Hx as [Hx _].
    apply in_map_iff. eauto.
  Qed.
End SetFacts.

(** ** Splitting and joining *)

Lemma split_on_nonempty c x : split_on c x <> [].
Proof.
  destruct x as [|d x]; simpl; [discriminate|]. destruct (N.eqb d c); [discriminate|].
  destruct (split_on c x); discriminate.
Qed.

Lemma split_on_nosep c x : ~ In c x -> split_on c x = [x].
Proof.
  induction x as [|d x IH]; simpl; auto. intros H.
  destruct (N.eqb_spec d c); [subst; exfalso; apply H; now left|].
  rewrite IH; auto.
Qed.

Lemma split_on_app c x y : ~ In c x -> split_on c (x ++ c :: y) = x :: split_on c y.
Proof.
  induction x as [|d x IH]; simpl; intros H.
  - now rewrite N.eqb_refl.
  - destruct (N.eqb_spec d c); [subst; exfalso; apply H; now left|]. rewrite IH; auto.
Qed.

Lemma join_cons sep x l : l <> [] -> join sep (x :: l) = x ++ sep ++ join sep l.
Proof. destruct l; [congruence|reflexivity]. Qed.

Lemma join_split c x : join [c] (split_on c x) = x.
Proof.
  induction x as [|d x IH]; simpl; auto.
  destruct (N.eqb_spec d c).
  - subst. rewrite join_cons by apply split_on_nonempty. simpl. now rewrite IH.
  - destruct (split_on c x) as [|p ps] eqn:E; [now apply split_on_nonempty in E|].
    destruct ps; simpl in *; now rewrite <- IH.
Qed.

Lemma split_join c l :
  l <> [] -> (forall p, In p l -> ~ In c p) -> split_on c (join [c] l) = l.
Proof.
  induction l as [|x l IH]; [congruence|]. intros _ H.
  destruct l as [|y l].
  - simpl. apply split_on_nosep. apply H. now left.
  - rewrite join_cons by discriminate.
    change (x ++ [c] ++ join [c] (y :: l)) with (x ++ c :: join [c] (y :: l)).
    rewrite split_on_app by (apply H; now left).
    rewrite IH; auto; [discriminate|]. intros p Hp. apply H. now right.
Qed.

Lemma split_on_pieces c x p : In p (split_on c x) -> ~ In c p.
Proof.
  revert p; induction x as [|d x IH]; simpl; intros p.
  - intros [<-|[]]. tauto.
  - destruct (N.eqb_spec d c).
    + intros [<-|H]; [tauto|auto].
    + destruct (split_on c x) as [|q ps] eqn:E; intros [<-|H]; simpl.
      * intuition.
      * destruct H.
      * intros [H|H]; [congruence|]. eapply IH; eauto. now left.
      * apply IH. now right.
Qed.

Lemma rsplit_some c x a b :
  rsplit c x = Some (a, b) <-> x = a ++ c :: b /\ ~ In c b.
Proof.
  revert a b; induction x as [|d x IH]; simpl; intros a b.
  - split; [discriminate|]. intros [H _]. destruct a; discriminate.
  - destruct (rsplit c x) as [[a' b']|] eqn:E.
    + destruct (proj1 (IH a' b') eq_refl) as [-> Hb]. split.
      * intros H; inversion H; subst. auto.
      * intros [H Hb']. destruct a as [|e a]; simpl in H; inversion H; subst.
        -- exfalso. apply Hb'. apply in_or_app. right. now left.
        -- assert (Some (a', b') = Some (a, b)) as X by (apply IH; auto).
           injection X as -> ->. reflexivity.
    + assert (Hn : ~ In c x).
      { intros Hin. clear IH. induction x as [|e x IHx]; [destruct Hin|]. simpl in E.
        destruct (rsplit c x) as [[? ?]|]; [discriminate|].
        destruct (N.eqb_spec e c); [discriminate|]. destruct Hin; auto. }
      destruct (N.eqb_spec d c).
      * subst. split.
        -- intros H; inversion H; subst. auto.
        -- intros [H Hb]. destruct a as [|e a]; simpl in H; inversion H; subst; auto.
           exfalso. apply Hn, in_or_app. right. now left.
      * split; [discriminate|]. intros [H Hb]. destruct a as [|e a]; simpl in H; inversion H; subst.
        -- congruence.
        -- exfalso. apply Hn, in_or_app. right. now left.
Qed.

Lemma rsplit_none c x : rsplit c x = None <-> ~ In c x.
Proof.
  split.
  - intros E Hin. induction x as [|e x IHx]; [destruct Hin|]. simpl in E.
    destruct (rsplit c x) as [[? ?]|]; [discriminate|].
    destruct (N.eqb_spec e c); [discriminate|]. destruct Hin; auto.
  - intros H. destruct (rsplit c x) as [[a b]|] eqn:E; auto.
    apply rsplit_some in E as [-> _]. exfalso. apply H, in_or_app. right. now left.
Qed.

(** ** Dropping and trimming *)

Lemma drop_while_spec {A} (f : A -> bool) l :
  exists p, l = p ++ drop_while f l /\ Forall (fun x => f x = true) p /\
            match drop_while f l with [] => True | x :: _ => f x = false end.
Proof.
  induction l as [|x l IH]; simpl.
  - exists []; repeat split; auto.
  - destruct (f x) eqn:E.
    + destruct IH as (p & H1 & H2 & H3). exists (x :: p). simpl. rewrite <- H1. repeat split; auto.
    + exists []. simpl. repeat split; auto.
Qed.

Lemma res_map_ok_iff {A B} (f : A -> res B) l ys :
  res_map f l = Ok ys <-> Forall2 (fun x y => f x = Ok y) l ys.
Proof.
  revert ys; induction l as [|x l IH]; simpl; intros ys.
  - split; [intros H; inversion H; constructor|]. inversion 1; auto.
  - destruct (f x) as [y| |] eqn:E; simpl.
    + destruct (res_map f l) as [r| |] eqn:E2; simpl.
      * split.
        -- intros H; inversion H; subst. constructor; auto. now apply IH.
        -- inversion 1 as [|? ? ? ? H2 H3]; subst. apply IH in H3. congruence.
      * split; [discriminate|]. inversion 1 as [|? ? ? ? H2 H3]; subst. apply IH in H3. congruence.
      * split; [discriminate|]. inversion 1 as [|? ? ? ? H2 H3]; subst. apply IH in H3. congruence.
    + split; [discriminate|]. inversion 1; congruence.
    + split; [discriminate|]. inversion 1; congruence.
Qed.

Lemma app_eq_len {A} (p q u v : list A) : p ++ u = q ++ v -> length p = length q -> p = q /\ u = v.
Proof.
  revert q; induction p as [|a p IH]; intros [|b q]; simpl; intros E L; try discriminate; auto.
  injection E as <- E. injection L as L. destruct (IH _ E L); subst; auto.
Qed.

Lemma app_stop {A} (c : A) x y u v :
  ~ In c x -> ~ In c y -> x ++ c :: u = y ++ c :: v -> x = y /\ u = v.
Proof.
  revert y; induction x as [|a x IH]; intros [|b y]; simpl; intros Hx Hy E.
  - injection E; auto.
  - injection E as -> _. exfalso. auto.
  - injection E as <- _. exfalso. auto.
  - injection E as <- E. apply IH in E; [|tauto|tauto]. destruct E; subst; auto.
Qed.

Lemma cons_inj {A} (a b : A) l m : a :: l = b :: m -> a = b /\ l = m.
Proof. intros H; injection H; auto. Qed.
