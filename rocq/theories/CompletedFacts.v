(** Proofs about [determine_completed], for every arithmetic. *)
From Verif Require Import Base BaseFacts Name NameFacts Family FamilyFacts Artifact SpecGraph GraphFacts.
From Coq Require Import Permutation Lia.

Notation nget := (im_get Nat.eqb).

Lemma nget_insert {V} k k' (v : V) m :
  nget k' (im_insert Nat.eqb k v m) = if Nat.eqb k k' then Some v else nget k' m.
Proof. apply (get_insert Nat.eqb _ nat_eqb_iff). Qed.

Lemma nget_some_iff {V} (m : list (nat * V)) k : (exists v, nget k m = Some v) <-> In k (map fst m).
Proof. exact (get_some_iff Nat.eqb (fun x => x) nat_eqb_iff m k). Qed.

Lemma nget_none_iff {V} (m : list (nat * V)) k : nget k m = None <-> ~ In k (map fst m).
Proof. exact (get_none_iff Nat.eqb (fun x => x) nat_eqb_iff m k). Qed.

Definition tval {M : num} (tbl : table M) (i : nat) : T M :=
  match nget i tbl with Some v => v | None => n0 M end.

Lemma tval_get {M : num} (tbl : table M) i : In i (map fst tbl) -> nget i tbl = Some (tval tbl i).
Proof. intros H. apply nget_some_iff in H as [v E]. unfold tval. now rewrite E. Qed.

Section Rows.
  Variable M : num.

  Lemma sum_parts_eq tbl ids : (forall i, In i ids -> In i (map fst tbl)) -> forall c v,
    sum_parts M tbl ids (c, v) = Ok (c + length ids, fold_left (nadd M) (map (tval tbl) ids) v).
  Proof.
    induction ids as [|i ids IH]; simpl; intros H c v.
    - now rewrite Nat.add_0_r.
    - rewrite tval_get by auto. rewrite IH by auto. do 2 f_equal. lia.
  Qed.

  Variable gs : graphs.
  Definition not_tst (i : nat) : bool := negb (ty_eqb (n_ty (node_name gs i)) TST).

  Lemma sum_parts2_eq impld tested ids :
    (forall i, In i ids -> In i (map fst impld) /\ In i (map fst tested) /\
                           nget i (lookup_name gs) = Some (node_name gs i)) -> forall a,
    sum_parts2 M gs impld tested ids a =
    Ok (mkStats (st_count a + length (filter not_tst ids))
                (fold_left (nadd M) (map (tval impld) (filter not_tst ids)) (st_value a))
                (st_tcount a + length ids)
                (fold_left (nadd M) (map (tval tested) ids) (st_tvalue a))).
  Proof.
    induction ids as [|i ids IH]; simpl; intros H a.
    - rewrite !Nat.add_0_r. now destruct a.
    - destruct (H i (or_introl eq_refl)) as (H1 & H2 & H3).
      rewrite (tval_get tested) by auto. unfold is_tst. rewrite H3.
      destruct (ty_eqb (n_ty (node_name gs i)) TST) eqn:Et; 
        assert (Hn : not_tst i = negb (ty_eqb (n_ty (node_name gs i)) TST)) by reflexivity;
        rewrite Hn, Et; cbn [negb].
      + rewrite IH by auto. simpl. do 2 f_equal. lia.
      + rewrite (tval_get impld) by auto. rewrite IH by auto. simpl. do 2 f_equal; lia.
  Qed.

  (** One row of the tables as a function of the values below it. *)
  Definition row (ty : ty) (st : stats M) (ids : list nat) (sv tv : nat -> T M) : T M * T M :=
    if ty_eqb ty TST
    then let r := ratio M (fold_left (nadd M) (map sv ids) (st_value st)) (st_count st + length ids) in (r, r)
    else (ratio M (fold_left (nadd M) (map sv (filter not_tst ids)) (st_value st))
                  (st_count st + length (filter not_tst ids)),
          ratio M (fold_left (nadd M) (map tv ids) (st_tvalue st)) (st_tcount st + length ids)).

  Lemma row_ext ty st ids sv tv sv' tv' :
    (forall i, In i ids -> sv i = sv' i /\ tv i = tv' i) -> row ty st ids sv tv = row ty st ids sv' tv'.
  Proof.
    intros H. unfold row.
    assert (E1 : map sv ids = map sv' ids) by (apply map_ext_in; intros i Hi; now apply H).
    assert (E2 : map sv (filter not_tst ids) = map sv' (filter not_tst ids)).
    { apply map_ext_in; intros i Hi; apply filter_In in Hi as [Hi _]; now apply H. }
    assert (E3 : map tv ids = map tv' ids) by (apply map_ext_in; intros i Hi; now apply H).
    rewrite E1, E2, E3. reflexivity.
  Qed.

  Variable impls : list (nat * impl).
  Variable subnames : list (name * list subname).
  (** nodes that are artifacts *)
  Definition is_def (i : nat) : bool := im_mem name_eqb (node_name gs i) subnames.
  Definition own (i : nat) : stats M :=
    match nget i impls, im_get name_eqb (node_name gs i) subnames with
    | Some im, Some sub => to_statistics M im sub
    | _, _ => to_statistics M INot []
    end.
  Definition kids (i : nat) := neighbors (g_full gs) i.
  Definition node_row i sv tv := row (n_ty (node_name gs i)) (own i) (kids i) sv tv.

  Record tables_ok (p : list nat) (acc : table M * table M) : Prop := {
    to_impld : map fst (fst acc) = filter is_def p;
    to_tested : map fst (snd acc) = filter is_def p;
    to_rows : forall i, In i (filter is_def p) ->
      (tval (fst acc) i, tval (snd acc) i) = node_row i (tval (fst acc)) (tval (snd acc)) }.

  Hypothesis names_ok : forall i, In i (g_nodes (g_full gs)) -> nget i (lookup_name gs) = Some (node_name gs i).
  Hypothesis kids_ok : forall a b, In b (kids a) -> In b (g_nodes (g_full gs)) /\ is_def b = true.
  Hypothesis impls_ok : forall i, In i (g_nodes (g_full gs)) -> is_def i = true -> exists im, nget i impls = Some im.

  Lemma tval_insert tbl k v i : @tval M (im_insert Nat.eqb k v tbl) i = if Nat.eqb k i then v else tval tbl i.
  Proof. unfold tval. rewrite nget_insert. destruct (Nat.eqb k i); auto. Qed.

  Lemma keys_insert_fresh {V} (tbl : list (nat * V)) k v :
    ~ In k (map fst tbl) -> map fst (im_insert Nat.eqb k v tbl) = map fst tbl ++ [k].
  Proof.
    intros H. apply nget_none_iff in H. rewrite (insert_fresh Nat.eqb) by auto.
    rewrite map_app. reflexivity.
  Qed.

  Lemma complete_one_ok p acc i :
    tables_ok p acc -> In i (g_nodes (g_full gs)) -> ~ In i p ->
    (forall b, In b (kids i) -> In b p) ->
    (forall a b, In a p -> In b (kids a) -> In b p) ->
    exists acc', complete_one M gs impls subnames i acc = Ok acc' /\ tables_ok (p ++ [i]) acc'.
  Proof.
    intros [I1 I2 R] Hi Hp Hk Hcl. unfold complete_one. rewrite (names_ok i Hi).
    destruct (im_get name_eqb (node_name gs i) subnames) as [sub|] eqn:Es.
    2: { exists acc. split; auto. assert (E : is_def i = false) by (unfold is_def, im_mem; now rewrite Es).
         assert (F : filter is_def (p ++ [i]) = filter is_def p).
         { rewrite filter_app. simpl. rewrite E. now rewrite app_nil_r. }
         split; rewrite F; auto. }
    assert (E : is_def i = true) by (unfold is_def, im_mem; now rewrite Es).
    destruct (impls_ok i Hi E) as [im Him]. rewrite Him.
    destruct acc as [impld tested]. simpl in *.
    assert (Hrow : forall j, In j (kids i) ->
      In j (map fst impld) /\ In j (map fst tested) /\ nget j (lookup_name gs) = Some (node_name gs j)).
    { intros j Hj. pose proof (kids_ok _ _ Hj) as [Hj1 Hj2]. rewrite I1, I2.
      assert (In j (filter is_def p)) by (apply filter_In; auto). auto. }
    set (r := node_row i (tval impld) (tval tested)).
    assert (Eq : res_bind
        (if ty_eqb (n_ty (node_name gs i)) TST
         then res_bind (sum_parts M impld (neighbors (g_full gs) i)
                   (st_count (to_statistics M im sub), st_value (to_statistics M im sub))) (fun cv =>
              Ok (mkStats (fst cv) (snd cv) (fst cv) (snd cv)))
         else sum_parts2 M gs impld tested (neighbors (g_full gs) i) (to_statistics M im sub))
        (fun r => Ok (im_insert Nat.eqb i (ratio M (st_value r) (st_count r)) impld,
                      im_insert Nat.eqb i (ratio M (st_tvalue r) (st_tcount r)) tested))
      = Ok (im_insert Nat.eqb i (fst r) impld, im_insert Nat.eqb i (snd r) tested)).
    { unfold r, node_row, row, own. rewrite Him, Es. fold (kids i).
      destruct (ty_eqb (n_ty (node_name gs i)) TST).
      - rewrite sum_parts_eq by (intros j Hj; now apply Hrow). reflexivity.
      - rewrite sum_parts2_eq by exact Hrow. reflexivity. }
    rewrite Eq. eexists. split; [reflexivity|].
    assert (Fr : ~ In i (filter is_def p)) by (intros H; apply filter_In in H as [H _]; auto).
    assert (F : filter is_def (p ++ [i]) = filter is_def p ++ [i]).
    { rewrite filter_app. simpl. now rewrite E. }
    split; simpl; rewrite F.
    - rewrite keys_insert_fresh, I1; auto. now rewrite I1.
    - rewrite keys_insert_fresh, I2; auto. now rewrite I2.
    - intros j Hj. rewrite !tval_insert.
      assert (Ext : forall a, In a (p ++ [i]) ->
         node_row a (tval (im_insert Nat.eqb i (fst r) impld)) (tval (im_insert Nat.eqb i (snd r) tested)) =
         node_row a (tval impld) (tval tested)).
      { intros a Ha. apply row_ext. intros b Hb. rewrite !tval_insert.
        assert (In b p) by (apply in_app_iff in Ha as [Ha|[->|[]]]; eauto).
        destruct (Nat.eqb i b) eqn:Eb; auto. apply Nat.eqb_eq in Eb. subst. contradiction. }
      apply in_app_iff in Hj as [Hj|[->|[]]].
      + assert (Nat.eqb i j = false).
        { apply Nat.eqb_neq. intros ->. contradiction. }
        rewrite H, Ext, R; auto. apply filter_In in Hj as [Hj _]. apply in_or_app; auto.
      + rewrite Nat.eqb_refl, Ext by (apply in_or_app; simpl; auto).
        fold r. destruct r; reflexivity.
  Qed.

  Lemma complete_all_ok q : forall p acc,
    tables_ok p acc -> NoDup (p ++ q) -> (forall i, In i q -> In i (g_nodes (g_full gs))) ->
    (forall q1 i q2 b, p ++ q = q1 ++ i :: q2 -> In b (kids i) -> In b q1) ->
    exists acc', complete_all M gs impls subnames q acc = Ok acc' /\ tables_ok (p ++ q) acc'.
  Proof.
    induction q as [|i q IH]; simpl; intros p acc Hok ND Hn Hord.
    - exists acc. rewrite app_nil_r. auto.
    - assert (Hcl : forall a b, In a p -> In b (kids a) -> In b p).
      { intros a b Ha Hb. apply in_split in Ha as (p1 & p2 & ->).
        specialize (Hord p1 a (p2 ++ i :: q) b). rewrite <- app_assoc in Hord. simpl in Hord.
        apply in_or_app. left. apply Hord; auto. }
      destruct (complete_one_ok p acc i) as (acc' & E & Hok'); auto.
      + intros H. apply NoDup_remove_2 in ND. apply ND, in_or_app. auto.
      + intros b Hb. apply (Hord p i q b); auto.
      + rewrite E. simpl. replace (p ++ i :: q) with ((p ++ [i]) ++ q) in * by (rewrite <- app_assoc; reflexivity).
        apply IH; auto.
  Qed.

  Lemma before_rev l a b : NoDup l -> before l a b ->
    forall q1 q2, rev l = q1 ++ a :: q2 -> In b q1.
  Proof.
    intros ND (l1 & l2 & l3 & ->) q1 q2 E.
    assert (E2 : rev (l1 ++ a :: l2 ++ b :: l3) = (rev l3 ++ b :: rev l2) ++ a :: rev l1).
    { rewrite rev_app_distr. simpl. rewrite rev_app_distr. simpl. rewrite <- !app_assoc. reflexivity. }
    rewrite E2 in E. apply NoDup_rev in ND. rewrite E2 in ND.
    assert (Hu : forall (x : nat) u v u' v', NoDup (u ++ x :: v) -> u ++ x :: v = u' ++ x :: v' -> u = u').
    { clear. intros x u v. induction u as [|y u IH]; intros [|z u'] v' ND E; simpl in *; auto.
      - inversion E; subst. inversion ND as [|? ? Hn _]; subst. exfalso. apply Hn, in_or_app. simpl; auto.
      - inversion E; subst. inversion ND as [|? ? Hn _]; subst. exfalso. apply Hn, in_or_app. simpl; auto.
      - inversion E; subst. inversion ND; subst. f_equal. eapply IH; eauto. }
    rewrite <- (Hu _ _ _ _ _ ND E). apply in_or_app. simpl. auto.
  Qed.

  Lemma complete_sorted l : topo_order (g_full gs) l ->
    exists acc, complete_all M gs impls subnames (rev l) ([], []) = Ok acc /\ tables_ok (rev l) acc.
  Proof.
    intros (ND & Hin & Hord).
    apply (complete_all_ok (rev l) [] ([], [])); simpl.
    - split; simpl; auto. tauto.
    - now apply NoDup_rev.
    - intros i Hi. apply Hin. now apply in_rev.
    - intros q1 i q2 b E Hb. apply (before_rev l i b) with (q2 := q2); auto.
      apply Hord. unfold kids, neighbors in Hb. apply in_map_iff in Hb as ([x y] & E2 & H).
      apply filter_In in H as [H1 H2]. simpl in *. apply Nat.eqb_eq in H2. congruence.
  Qed.
End Rows.

(** ** At the level of names *)
Section Names.
  Variable M : num.
  Variable topo : graph -> option (list nat).
  Hypothesis topo_contract : topo_ok topo.
  Variable ims : list (name * art_im).
  Hypothesis ND : NoDup (nkeys ims).
  Variable code : list (name * impl_code).

  Notation partofs := (map (fun e => (fst e, partof_of ims e)) ims).
  Notation subs := (determine_subnames ims).
  Notation impls := (determine_impls ims code).

  Variable gs : graphs.
  Hypothesis G : graphs_ok partofs gs.

  Definition id_of (n : name) : nat :=
    match im_get name_eqb n (lookup_id gs) with Some i => i | None => 0 end.

  Lemma partofs_keys : nkeys partofs = nkeys ims.
  Proof. rewrite pkeys_map; auto. Qed.

  Lemma in_flat_name e : In e ims -> In (fst e) (flat partofs).
  Proof.
    intros H. apply in_flat. exists (fst e), (partof_of ims e). split; auto.
    apply in_map_iff. exists e. auto.
  Qed.

  Lemma id_of_get e : In e ims -> im_get name_eqb (fst e) (lookup_id gs) = Some (id_of (fst e)).
  Proof.
    intros H. destruct (lookup_id_total _ _ G (fst e)) as [i E].
    - now apply in_map, in_flat_name.
    - unfold id_of. now rewrite E.
  Qed.

  Lemma id_of_node e : In e ims -> In (id_of (fst e)) (g_nodes (g_full gs)).
  Proof.
    intros H. apply (go_nodes _ _ G). apply id_of_get in H.
    apply (ids_get_in _ _ _ _ (go_ids _ _ G)) in H as (m & _ & H). apply in_map_iff. exists (m, id_of (fst e)). auto.
  Qed.

  Lemma id_of_name e : In e ims -> nk (node_name gs (id_of (fst e))) = nk (fst e).
  Proof.
    intros H. pose proof (id_of_get e H) as E. pose proof (id_of_node e H) as Hn.
    apply (node_name_get _ _ G), (lookup_name_id _ _ G) in Hn. eapply (lookup_id_inj _ _ G); eauto.
  Qed.

  Lemma is_def_iff i : In i (g_nodes (g_full gs)) ->
    is_def gs subs i = true <-> exists e, In e ims /\ i = id_of (fst e).
  Proof.
    intros Hi. unfold is_def. rewrite (mem_iff name_eqb nk name_eqb_iff).
    rewrite determine_subnames_ok, pkeys_map by auto. unfold pkeys. rewrite in_map_iff. split.
    - intros (e & E & He). exists e. split; auto. pose proof (id_of_get e He) as H1.
      apply (node_name_get _ _ G), (lookup_name_id _ _ G) in Hi.
      rewrite (lookup_id_cong gs _ _ E) in H1. congruence.
    - intros (e & He & ->). exists e. split; auto. symmetry. now apply id_of_name.
  Qed.

  Lemma id_of_inj e e' : In e ims -> In e' ims -> id_of (fst e) = id_of (fst e') -> nk (fst e) = nk (fst e').
  Proof. intros H H' E. rewrite <- (id_of_name e), <- (id_of_name e') by auto. now rewrite E. Qed.

  Notation byid := (map (fun e => (id_of (fst e), snd e)) impls).

  Lemma byid_ok :
    res_map (fun e : name * impl =>
               match im_get name_eqb (fst e) (lookup_id gs) with
               | Some id => Ok (id, snd e)
               | None => Panic
               end) impls = Ok byid.
  Proof.
    apply res_map_total. intros e He. rewrite determine_impls_ok in He by auto.
    apply in_map_iff in He as (e' & <- & He'). simpl. now rewrite (id_of_get e').
  Qed.

  Lemma byid_eq : byid = map (fun e => (id_of (fst e), impl_of code e)) ims.
  Proof. rewrite determine_impls_ok by auto. rewrite map_map. reflexivity. Qed.

  Lemma ids_nodup : NoDup (map (fun e => id_of (fst e)) ims).
  Proof.
    assert (H : forall l, incl l ims -> NoDup (nkeys l) -> NoDup (map (fun e => id_of (fst e)) l)).
    { induction l as [|e l IH]; simpl; intros Hl N; constructor; inversion N as [|? ? Hn N']; subst.
      - intros Hin. apply in_map_iff in Hin as (e' & E & He'). apply Hn. apply in_map_iff. exists e'.
        split; auto. apply id_of_inj; auto; apply Hl; simpl; auto.
      - apply IH; auto. intros x Hx. apply Hl; simpl; auto. }
    apply H; auto. apply incl_refl.
  Qed.

  Lemma byid_nodup : NoDup (pkeys (fun x : nat => x) byid).
  Proof. rewrite byid_eq. unfold pkeys. rewrite map_map. simpl. apply ids_nodup. Qed.

  Lemma byid_get e : In e ims -> nget (id_of (fst e)) byid = Some (impl_of code e).
  Proof.
    intros H. apply (in_get Nat.eqb (fun x => x) nat_eqb_iff); [apply byid_nodup|].
    rewrite byid_eq. apply in_map_iff. exists e. auto.
  Qed.

  Lemma kids_def a b : In b (kids gs a) -> In b (g_nodes (g_full gs)) /\ is_def gs subs b = true.
  Proof.
    intros H. pose proof (neighbors_nodes _ _ G _ _ H) as [_ Hb]. split; auto. apply is_def_iff; auto.
    apply (neighbors_iff gs) in H. apply (go_edges _ _ G) in H as (n & ps & p & H1 & _ & H3 & _).
    apply in_map_iff in H1 as (e & E & He). inversion E; subst. exists e. split; auto.
    unfold id_of. now rewrite H3.
  Qed.

  Lemma subs_get e : In e ims -> im_get name_eqb (node_name gs (id_of (fst e))) subs =
    Some (parse_subnames (im_text (snd e))).
  Proof.
    intros H. rewrite (get_proj name_eqb nk name_eqb_iff _ _ (fst e)) by (now apply id_of_name).
    apply (in_get name_eqb nk name_eqb_iff).
    - rewrite determine_subnames_ok, pkeys_map; auto.
    - rewrite determine_subnames_ok by auto. apply in_map_iff. exists e. auto.
  Qed.

  Definition stat_of (e : name * art_im) : stats M :=
    to_statistics M (impl_of code e) (parse_subnames (im_text (snd e))).

  Lemma own_eq e : In e ims -> own M gs byid subs (id_of (fst e)) = stat_of e.
  Proof. intros H. unfold own. now rewrite byid_get, subs_get. Qed.

  Definition parts_at (n : name) : list name := parts_of gs (id_of n).

  (** The averaging equations, with the parts in the order in which they are summed. *)
  Definition row_spec (spc tst : name -> T M) (e : name * art_im) : Prop :=
    let st := stat_of e in
    let ps := parts_at (fst e) in
    let qs := filter (fun p => negb (ty_eqb (n_ty p) TST)) ps in
    if ty_eqb (n_ty (fst e)) TST
    then spc (fst e) = ratio M (fold_left (nadd M) (map spc ps) (st_value st)) (st_count st + length ps) /\
         tst (fst e) = spc (fst e)
    else spc (fst e) = ratio M (fold_left (nadd M) (map spc qs) (st_value st)) (st_count st + length qs) /\
         tst (fst e) = ratio M (fold_left (nadd M) (map tst ps) (st_tvalue st)) (st_tcount st + length ps).

  Lemma filter_map_comm {A B} (f : A -> B) (p : B -> bool) l :
    filter p (map f l) = map f (filter (fun x => p (f x)) l).
  Proof. induction l as [|x l IH]; simpl; auto. destruct (p (f x)); simpl; now rewrite IH. Qed.

  Theorem completed_spec :
    match topo (g_full gs) with
    | None => determine_completed M topo gs impls subs =
                Ok (map (fun e => (fst e, (f0 M, f0 M))) ims)
    | Some _ => exists (spc tst : name -> T M) out,
        determine_completed M topo gs impls subs = Ok out /\
        NoDup (nkeys out) /\
        (forall x, In x (nkeys out) <-> In x (nkeys ims)) /\
        (forall a b, nk a = nk b -> spc a = spc b /\ tst a = tst b) /\
        (forall e, In e ims -> im_get name_eqb (fst e) out = Some (nround M (spc (fst e)), nround M (tst (fst e)))) /\
        (forall e, In e ims -> row_spec spc tst e)
    end.
  Proof.
    pose proof (topo_contract (g_full gs) (go_wf _ _ G)) as TC.
    unfold determine_completed. destruct (topo (g_full gs)) as [l|].
    2: { f_equal. rewrite determine_impls_ok by auto. rewrite map_map. simpl.
         apply (collect_distinct name_eqb nk name_eqb_iff). rewrite pkeys_map; auto. }
    rewrite byid_ok. simpl. rewrite (collect_distinct Nat.eqb (fun x => x) nat_eqb_iff) by apply byid_nodup.
    destruct (complete_sorted M gs byid subs) with (l := l) as ([impld tested] & E & [I1 I2 R]); auto.
    { intros i Hi. now apply (node_name_get _ _ G). }
    { apply kids_def. }
    { intros i Hi Hd. apply is_def_iff in Hd as (e & He & ->); auto. eauto using byid_get. }
    rewrite E. simpl in *.
    destruct TC as (NDl & Hin & _).
    set (D := filter (is_def gs subs) (rev l)) in *.
    assert (HD : forall i, In i D <-> exists e, In e ims /\ i = id_of (fst e)).
    { intros i. unfold D. rewrite filter_In, <- in_rev, Hin. split.
      - intros [H1 H2]. now apply is_def_iff.
      - intros (e & He & ->). split; [now apply id_of_node|]. apply is_def_iff; eauto using id_of_node. }
    assert (NDD : NoDup D) by (apply NoDup_filter, NoDup_rev; auto).
    assert (PD : Permutation D (map (fun e => id_of (fst e)) ims)).
    { apply NoDup_Permutation; auto using ids_nodup. intros i. rewrite HD, in_map_iff.
      split; intros (e & H1 & H2); exists e; auto. }
    assert (Len : length byid = length D).
    { rewrite byid_eq, map_length. apply Permutation_length in PD. now rewrite map_length in PD. }
    assert (L1 : length impld = length D) by (rewrite <- I1; now rewrite map_length).
    assert (L2 : length tested = length D) by (rewrite <- I2; now rewrite map_length).
    rewrite Len, L1, L2, Nat.eqb_refl. simpl.
    assert (HDn : forall i, In i D -> In i (g_nodes (g_full gs))).
    { intros i Hi. apply HD in Hi as (e & He & ->). now apply id_of_node. }
    rewrite (res_map_total _ (fun e : nat * T M => (node_name gs (fst e), (nround M (snd e), nround M (tval tested (fst e)))))).
    2: { intros [i v] Hi. simpl. assert (Hi' : In i D) by (rewrite <- I1; apply in_map_iff; exists (i, v); auto).
         rewrite tval_get by (now rewrite I2). now rewrite (node_name_get _ _ G) by auto. }
    simpl. set (out := map _ impld).
    assert (Kout : nkeys out = map (fun i => nk (node_name gs i)) D).
    { unfold out, pkeys. rewrite map_map. simpl. rewrite <- I1. now rewrite map_map. }
    assert (NDo : NoDup (nkeys out)).
    { rewrite Kout. clear -G NDD HDn. induction D as [|i D IH]; simpl; constructor; inversion NDD; subst.
      - intros H. apply in_map_iff in H as (j & E & Hj). apply (node_name_inj _ _ G) in E; simpl in *; auto. congruence.
      - apply IH; auto. intros j Hj. apply HDn; simpl; auto. }
    rewrite (collect_distinct name_eqb nk name_eqb_iff) by auto.
    assert (Lo : length out = length D) by (unfold out; rewrite map_length; auto).
    rewrite Lo, Nat.eqb_refl. simpl.
    exists (fun n => tval impld (id_of n)), (fun n => tval tested (id_of n)), out.
    split; [reflexivity|]. split; [auto|]. split; [|split; [|split]].
    - intros x. rewrite Kout, in_map_iff. unfold pkeys. rewrite in_map_iff. split.
      + intros (i & <- & Hi). apply HD in Hi as (e & He & ->). exists e. split; auto. now rewrite id_of_name.
      + intros (e & <- & He). exists (id_of (fst e)). split; [now apply id_of_name|]. apply HD. eauto.
    - intros a b Eab. unfold id_of. rewrite (lookup_id_cong gs _ _ Eab). auto.
    - intros e He. rewrite (get_proj name_eqb nk name_eqb_iff _ _ (node_name gs (id_of (fst e)))) by (symmetry; now apply id_of_name).
      apply (in_get name_eqb nk name_eqb_iff); auto. unfold out. apply in_map_iff.
      exists (id_of (fst e), tval impld (id_of (fst e))). split; auto.
      assert (Hi : In (id_of (fst e)) D) by (apply HD; eauto). rewrite <- I1 in Hi.
      pose proof (tval_get impld _ Hi) as Hg. apply (get_some_in Nat.eqb (fun x => x) nat_eqb_iff) in Hg as (k & -> & Hg). auto.
    - intros e He. assert (Hi : In (id_of (fst e)) D) by (apply HD; eauto).
      specialize (R _ Hi). unfold node_row, row in R. rewrite own_eq in R by auto.
      assert (Ety : n_ty (node_name gs (id_of (fst e))) = n_ty (fst e)).
      { pose proof (id_of_name e He) as Hk. unfold nk in Hk. congruence. }
      rewrite Ety in R. unfold row_spec, parts_at, parts_of. fold (kids gs (id_of (fst e))).
      assert (Hid : forall i, In i (kids gs (id_of (fst e))) -> id_of (node_name gs i) = i).
      { intros i Hk. apply (neighbors_nodes _ _ G) in Hk as [_ Hk].
        apply (node_name_get _ _ G), (lookup_name_id _ _ G) in Hk. unfold id_of. now rewrite Hk. }
      rewrite filter_map_comm, !map_map, !map_length.
      assert (M1 : map (fun x => tval impld (id_of (node_name gs x))) (kids gs (id_of (fst e))) =
                   map (tval impld) (kids gs (id_of (fst e)))).
      { apply map_ext_in. intros i Hk. now rewrite Hid. }
      assert (M2 : map (fun x => tval tested (id_of (node_name gs x))) (kids gs (id_of (fst e))) =
                   map (tval tested) (kids gs (id_of (fst e)))).
      { apply map_ext_in. intros i Hk. now rewrite Hid. }
      change (fun x : nat => negb (ty_eqb (n_ty (node_name gs x)) TST)) with (not_tst gs).
      assert (M3 : map (fun x => tval impld (id_of (node_name gs x))) (filter (not_tst gs) (kids gs (id_of (fst e)))) =
                   map (tval impld) (filter (not_tst gs) (kids gs (id_of (fst e))))).
      { apply map_ext_in. intros i Hk. apply filter_In in Hk as [Hk _]. now rewrite Hid. }
      rewrite M1, M2, M3.
      destruct (ty_eqb (n_ty (fst e)) TST); inversion R as [[R1 R2]]; auto.
  Qed.
End Names.
