(** Proofs about the link graph: ids, edges, [parts]. *)
From Verif Require Import Base BaseFacts Name NameFacts Family FamilyFacts Artifact SpecGraph.
From Coq Require Import Permutation Lia.

Notation nkeys := (pkeys nk).

Lemma res_map_total {A B} (f : A -> res B) (g : A -> B) l :
  (forall x, In x l -> f x = Ok (g x)) -> res_map f l = Ok (map g l).
Proof.
  induction l as [|x l IH]; simpl; intros H; auto.
  rewrite H by auto. simpl. rewrite IH by auto. reflexivity.
Qed.

Lemma pkeys_map {K V W KK} (proj : K -> KK) (f : K * V -> K * W) (l : list (K * V)) :
  (forall e, fst (f e) = fst e) -> pkeys proj (map f l) = pkeys proj l.
Proof.
  intros H. unfold pkeys. rewrite map_map. apply map_ext. intros e. now rewrite H.
Qed.

Lemma pkeys_fst {K V KK} (proj : K -> KK) (l : list (K * V)) : pkeys proj l = map proj (map fst l).
Proof. unfold pkeys. now rewrite map_map. Qed.

Lemma get_map {K V W KK} (keqb : K -> K -> bool) (proj : K -> KK)
  (H : forall a b, keqb a b = true <-> proj a = proj b) (f : K -> V -> W) (m : list (K * V)) k :
  (forall a b v, proj a = proj b -> f a v = f b v) ->
  im_get keqb k (map (fun e => (fst e, f (fst e) (snd e))) m) =
  match im_get keqb k m with Some v => Some (f k v) | None => None end.
Proof.
  intros Hf. induction m as [|[a v] m IH]; simpl; auto. destruct (keqb a k) eqn:E; auto.
  apply H in E. now rewrite (Hf a k).
Qed.

Lemma get_map_in {K V W KK} (keqb : K -> K -> bool) (proj : K -> KK)
  (H : forall a b, keqb a b = true <-> proj a = proj b) (f : K * V -> W) (m : list (K * V)) k w :
  im_get keqb k (map (fun e => (fst e, f e)) m) = Some w ->
  exists k' v, proj k' = proj k /\ In (k', v) m /\ im_get keqb k m = Some v /\ w = f (k', v).
Proof.
  induction m as [|[a v] m IH]; simpl; [discriminate|]. destruct (keqb a k) eqn:E.
  - apply H in E. intros X; inversion X; subst. exists a, v. auto.
  - intros X. destruct (IH X) as (k' & v' & ? & ? & ? & ?). exists k', v'. auto.
Qed.

(** [fold_left insert] with distinct keys *)
Lemma fold_insert_map {A V} (fk : A -> name) (fv : A -> V) (l : list A) :
  NoDup (map (fun a => nk (fk a)) l) ->
  fold_left (fun out a => im_insert name_eqb (fk a) (fv a) out) l [] = map (fun a => (fk a, fv a)) l.
Proof.
  intros ND. rewrite <- (collect_distinct name_eqb nk name_eqb_iff (map (fun a => (fk a, fv a)) l)).
  - unfold im_collect, im_extend. generalize (@nil (name * V)). clear ND.
    induction l as [|a l IH]; simpl; intros acc; auto.
  - unfold pkeys. rewrite map_map. exact ND.
Qed.

Definition partof_of (ims : list (name * art_im)) (e : name * art_im) : list name :=
  is_extend name_eqb (auto_links (map fst ims) (fst e)) (im_partof (snd e)).

Lemma determine_partofs_ok ims : NoDup (nkeys ims) ->
  determine_partofs ims = Ok (map (fun e => (fst e, partof_of ims e)) ims).
Proof.
  intros ND. unfold determine_partofs, auto_partofs.
  rewrite (fold_insert_map (fun n => n) (auto_links (map fst ims)) (map fst ims))
    by (rewrite <- pkeys_fst; exact ND).
  rewrite map_map.
  assert (Hg : forall e, In e ims -> im_get name_eqb (fst e) ims = Some (snd e)).
  { intros [n a] Hin. simpl. eapply in_get; eauto using name_eqb_iff. }
  assert (G : forall l, (forall e, In e l -> In e ims) ->
    res_map (fun e : name * list name =>
             match im_get name_eqb (fst e) ims with
             | Some im => Ok (fst e, is_extend name_eqb (snd e) (im_partof im))
             | None => Panic
             end) (map (fun e : name * art_im => (fst e, auto_links (map fst ims) (fst e))) l)
    = Ok (map (fun e => (fst e, partof_of ims e)) l)).
  { induction l as [|e l IH]; simpl; auto. intros Hl. rewrite Hg by auto. simpl.
    rewrite IH by auto. reflexivity. }
  now apply G.
Qed.

Lemma determine_subnames_ok ims : NoDup (nkeys ims) ->
  determine_subnames ims = map (fun e => (fst e, parse_subnames (im_text (snd e)))) ims.
Proof.
  intros ND. unfold determine_subnames. apply (collect_distinct name_eqb nk name_eqb_iff).
  rewrite pkeys_map; auto.
Qed.

Definition impl_of (code : list (name * impl_code)) (e : name * art_im) : impl :=
  match im_done (snd e) with
  | Some d => IDone d
  | None => match im_get name_eqb (fst e) code with
            | Some c => ICode c
            | None => INot
            end
  end.

Lemma determine_impls_ok ims code : NoDup (nkeys ims) ->
  determine_impls ims code = map (fun e => (fst e, impl_of code e)) ims.
Proof.
  intros ND. unfold determine_impls.
  exact (fold_insert_map fst (impl_of code) ims ND).
Qed.

(** ** ids *)
Definition flat (partofs : list (name * list name)) : list name :=
  concat (map (fun e => fst e :: snd e) partofs).

Definition id_step (acc : list (name * nat) * nat) (n : name) :=
  (im_insert name_eqb n (snd acc) (fst acc), S (snd acc)).

Lemma create_ids_flat partofs :
  create_ids partofs = fst (fold_left id_step (flat partofs) ([], 1)).
Proof.
  unfold create_ids, flat. f_equal. generalize (@nil (name * nat), 1).
  induction partofs as [|[n ps] l IH]; simpl; auto. intros acc. rewrite fold_left_app. now rewrite <- IH.
Qed.

Lemma snd_insert_in n v (m : list (name * nat)) x :
  In x (map snd (im_insert name_eqb n v m)) -> x = v \/ In x (map snd m).
Proof.
  induction m as [|[a w] m IH]; simpl; [intuition|]. destruct (name_eqb a n); simpl; intuition.
Qed.

Lemma ids_nodup_insert n v (m : list (name * nat)) :
  (forall i, In i (map snd m) -> i < v) -> NoDup (map snd m) ->
  NoDup (map snd (im_insert name_eqb n v m)).
Proof.
  induction m as [|[a w] m IH]; simpl; intros Hlt ND.
  - constructor; auto; constructor.
  - inversion ND as [|? ? Hn ND']; subst. destruct (name_eqb a n); simpl.
    + constructor; auto. intros Hin. specialize (Hlt v). lia || (apply Hlt in Hin || idtac).
      assert (v < v) by auto. lia.
    + constructor; auto. intros Hin. apply snd_insert_in in Hin as [->|Hin]; auto.
      assert (v < v) by auto. lia.
Qed.

Lemma insert_keys_sub {V} n (v : V) m k :
  In k (map fst (im_insert name_eqb n v m)) -> k = n \/ In k (map fst m).
Proof.
  induction m as [|[a w] m IH]; simpl; [intuition|]. destruct (name_eqb a n); simpl; intuition.
Qed.

Record ids_inv (l : list name) (acc : list (name * nat) * nat) : Prop := {
  ii_keys : NoDup (nkeys (fst acc));
  ii_in : forall x, In x (nkeys (fst acc)) <-> In x (map nk l);
  ii_lt : forall i, In i (map snd (fst acc)) -> i < snd acc;
  ii_ids : NoDup (map snd (fst acc));
  ii_sub : forall k, In k (map fst (fst acc)) -> In k l }.

Lemma ids_inv_step l acc n : ids_inv l acc -> ids_inv (l ++ [n]) (id_step acc n).
Proof.
  intros [K I L D Sb]. unfold id_step. split; simpl.
  - now apply (nodup_insert name_eqb nk name_eqb_iff).
  - intros x. rewrite (pkeys_insert_in name_eqb nk name_eqb_iff), I, map_app, in_app_iff. simpl.
    intuition.
  - intros i Hi. apply snd_insert_in in Hi as [->|Hi]; [lia|]. apply L in Hi. lia.
  - now apply ids_nodup_insert.
  - intros k Hk. apply insert_keys_sub in Hk as [->|Hk]; rewrite in_app_iff; simpl; auto.
Qed.

Lemma ids_inv_all l acc l2 : ids_inv l acc -> ids_inv (l ++ l2) (fold_left id_step l2 acc).
Proof.
  revert l acc; induction l2 as [|n l2 IH]; simpl; intros l acc H.
  - now rewrite app_nil_r.
  - replace (l ++ n :: l2) with ((l ++ [n]) ++ l2) by (rewrite <- app_assoc; reflexivity).
    apply IH. now apply ids_inv_step.
Qed.

Record ids_ok (partofs : list (name * list name)) (ids : list (name * nat)) : Prop := {
  io_keys : NoDup (nkeys ids);
  io_ids : NoDup (map snd ids);
  io_in : forall x, In x (nkeys ids) <-> In x (map nk (flat partofs));
  io_sub : forall k, In k (map fst ids) -> In k (flat partofs) }.

Lemma create_ids_ok partofs : ids_ok partofs (create_ids partofs).
Proof.
  rewrite create_ids_flat.
  assert (H : ids_inv [] (@nil (name * nat), 1)) by (split; simpl; try constructor; tauto).
  apply (ids_inv_all [] _ (flat partofs)) in H. simpl in H.
  destruct H as [K I L D Sb]. split; auto.
Qed.

Lemma in_flat partofs n :
  In n (flat partofs) <-> exists m ps, In (m, ps) partofs /\ (n = m \/ In n ps).
Proof.
  unfold flat. rewrite in_concat. split.
  - intros (l & Hl & Hn). apply in_map_iff in Hl as ([m ps] & <- & Hin). simpl in Hn. exists m, ps. intuition.
  - intros (m & ps & Hin & H). exists (m :: ps). split; [apply in_map_iff; exists (m, ps); auto|]. simpl. intuition.
Qed.

(** ** The graph *)
Lemma edge_eqb_iff a b : edge_eqb a b = true <-> a = b.
Proof.
  unfold edge_eqb. rewrite andb_true_iff, !Nat.eqb_eq. destruct a, b; simpl. split; [intros []; congruence|].
  inversion 1; auto.
Qed.
Lemma nat_eqb_iff a b : Nat.eqb a b = true <-> (fun x : nat => x) a = (fun x => x) b.
Proof. apply Nat.eqb_eq. Qed.
Lemma edge_eqb_iff' a b : edge_eqb a b = true <-> (fun x : nat * nat => x) a = (fun x => x) b.
Proof. apply edge_eqb_iff. Qed.

Lemma ninsert_in k m x : In x (is_insert Nat.eqb k m) <-> x = k \/ In x m.
Proof. pose proof (is_insert_in Nat.eqb _ nat_eqb_iff k m x) as H. now rewrite !map_id in H. Qed.
Lemma ninsert_nodup k m : NoDup m -> NoDup (is_insert Nat.eqb k m).
Proof. pose proof (is_insert_nodup Nat.eqb _ nat_eqb_iff k m) as H. now rewrite !map_id in H. Qed.
Lemma einsert_in k m x : In x (is_insert edge_eqb k m) <-> x = k \/ In x m.
Proof. pose proof (is_insert_in edge_eqb _ edge_eqb_iff' k m x) as H. now rewrite !map_id in H. Qed.
Lemma einsert_nodup k m : NoDup m -> NoDup (is_insert edge_eqb k m).
Proof. pose proof (is_insert_nodup edge_eqb _ edge_eqb_iff' k m) as H. now rewrite !map_id in H. Qed.

Lemma add_node_wf i g : graph_wf g -> graph_wf (add_node i g).
Proof.
  intros [A B C]. split; simpl; auto.
  - now apply ninsert_nodup.
  - intros a b H. rewrite !ninsert_in. destruct (C a b H); auto.
Qed.
Lemma add_edge_wf i j g : graph_wf g -> graph_wf (add_edge i j g).
Proof.
  intros [A B C]. split; simpl.
  - now apply ninsert_nodup, ninsert_nodup.
  - now apply einsert_nodup.
  - intros a b H. rewrite !ninsert_in. apply einsert_in in H as [H|H].
    + inversion H; subst; auto.
    + destruct (C a b H); auto.
Qed.

Section Graph.
  Variable ids : list (name * nat).
  Notation id_of p := (im_get name_eqb p ids).

  Lemma add_edges_ok id ps : (forall p, In p ps -> exists i, id_of p = Some i) ->
    forall g, graph_wf g -> In id (g_nodes g) ->
    exists g', add_edges ids id ps g = Ok g' /\ graph_wf g' /\
      (forall a b, In (a, b) (g_edges g') <->
         In (a, b) (g_edges g) \/ (b = id /\ exists p, In p ps /\ id_of p = Some a)) /\
      (forall x, In x (g_nodes g') <-> In x (g_nodes g) \/ exists p, In p ps /\ id_of p = Some x).
  Proof.
    induction ps as [|p ps IH]; simpl; intros Hps g Hwf Hid.
    - exists g. split; auto. split; auto. split; [intros a b|intros x]; (split; [auto|]).
      + intros [H|(_ & p & [] & _)]; auto.
      + intros [H|(p & [] & _)]; auto.
    - destruct (Hps p) as [i Hi]; auto. rewrite Hi.
      destruct (IH (fun q Hq => Hps q (or_intror Hq)) (add_edge i id g)) as (g' & E & W & Ee & En).
      + now apply add_edge_wf.
      + simpl. rewrite !ninsert_in. auto.
      + exists g'. split; auto. split; auto. split.
        * intros a b. rewrite Ee. simpl. rewrite einsert_in. split.
          -- intros [[H|H]|(-> & q & Hq & Hq2)]; auto.
             ++ inversion H; subst. right. split; auto. exists p; auto.
             ++ right. split; auto. exists q; auto.
          -- intros [H|(-> & q & [->|Hq] & Hq2)]; auto.
             ++ left. left. congruence.
             ++ right. split; auto. eauto.
        * intros x. rewrite En. simpl. rewrite !ninsert_in. split.
          -- intros [[->|[->|H]]|(q & Hq & Hq2)]; auto.
             ++ right. exists p; auto.
             ++ right. exists q; auto.
          -- intros [H|(q & [->|Hq] & Hq2)]; auto.
             ++ left. right. left. congruence.
             ++ right. eauto.
  Qed.

  Lemma build_graph_ok partofs :
    (forall n, In n (flat partofs) -> exists i, id_of n = Some i) ->
    forall g, graph_wf g ->
    exists g', build_graph ids partofs g = Ok g' /\ graph_wf g' /\
      (forall a b, In (a, b) (g_edges g') <->
         In (a, b) (g_edges g) \/
         exists n ps p, In (n, ps) partofs /\ In p ps /\ id_of n = Some b /\ id_of p = Some a) /\
      (forall x, In x (g_nodes g') <-> In x (g_nodes g) \/ exists p, In p (flat partofs) /\ id_of p = Some x).
  Proof.
    induction partofs as [|[n ps] rest IH]; simpl; intros Hin g Hwf.
    - exists g. split; auto. split; auto. split; [intros a b|intros x]; (split; [auto|]).
      + intros [H|(? & ? & ? & [] & _)]; auto.
      + intros [H|(p & [] & _)]; auto.
    - destruct (Hin n) as [i Hi]; [now left|]. rewrite Hi.
      destruct (add_edges_ok i ps) with (g := add_node i g) as (g1 & E1 & W1 & Ee1 & En1).
      + intros p Hp. apply Hin. right. apply in_or_app. now left.
      + now apply add_node_wf.
      + simpl. apply ninsert_in. auto.
      + rewrite E1. simpl. destruct IH with (g := g1) as (g2 & E2 & W2 & Ee2 & En2); auto.
        { intros m Hm. apply Hin. right. apply in_or_app. now right. }
        exists g2. split; auto. split; auto. split.
        * intros a b. rewrite Ee2, Ee1. simpl. split.
          -- intros [[H|(-> & p & Hp & Hp2)]|(m & qs & q & H1 & H2 & H3 & H4)]; auto.
             ++ right. exists n, ps, p. auto.
             ++ right. exists m, qs, q. auto.
          -- intros [H|(m & qs & q & [H1|H1] & H2 & H3 & H4)]; auto.
             ++ inversion H1; subst. left. right. split; [congruence|eauto].
             ++ right. exists m, qs, q. auto.
        * intros x. rewrite En2, En1. simpl. rewrite ninsert_in. setoid_rewrite in_app_iff. split.
          -- intros [[[->|X]|(p & Hp & Hp2)]|(p & Hp & Hp2)]; auto.
             ++ right. exists n; auto.
             ++ right. exists p; auto.
             ++ right. exists p; auto.
          -- intros [H|(p & [->|[Hp|Hp]] & Hp2)]; auto.
             ++ left. left. left. congruence.
             ++ left. right. eauto.
             ++ right. eauto.
  Qed.
End Graph.

(** Everything known about the result of [determine_graphs]. *)
Record graphs_ok (partofs : list (name * list name)) (gs : graphs) : Prop := {
  go_ids : ids_ok partofs (lookup_id gs);
  go_lookup : lookup_name gs = map (fun e => (snd e, fst e)) (lookup_id gs);
  go_wf : graph_wf (g_full gs);
  go_edges : forall a b, In (a, b) (g_edges (g_full gs)) <->
      exists n ps p, In (n, ps) partofs /\ In p ps /\
        im_get name_eqb n (lookup_id gs) = Some b /\ im_get name_eqb p (lookup_id gs) = Some a;
  go_nodes : forall x, In x (g_nodes (g_full gs)) <-> In x (map snd (lookup_id gs)) }.

Lemma ids_get_in partofs ids n i : ids_ok partofs ids -> im_get name_eqb n ids = Some i ->
  exists m, nk m = nk n /\ In (m, i) ids.
Proof. intros _ H. eapply get_some_in in H; eauto using name_eqb_iff. Qed.

Lemma determine_graphs_ok partofs : exists gs, determine_graphs partofs = Ok gs /\ graphs_ok partofs gs.
Proof.
  unfold determine_graphs. pose proof (create_ids_ok partofs) as I. set (ids := create_ids partofs) in *.
  assert (T : forall n, In n (flat partofs) -> exists i, im_get name_eqb n ids = Some i).
  { intros n Hn. apply (get_some_iff name_eqb nk name_eqb_iff). apply (io_in _ _ I). now apply in_map. }
  destruct (build_graph_ok ids partofs T (mkGraph [] [])) as (g & E & W & Ee & En).
  { split; simpl; try constructor; tauto. }
  rewrite E. simpl. eexists. split; [reflexivity|]. split; simpl; auto.
  - apply (collect_distinct Nat.eqb _ nat_eqb_iff). unfold pkeys. rewrite map_map. simpl. apply I.
  - intros a b. rewrite Ee. simpl. tauto.
  - intros x. rewrite En. simpl. split.
    + intros [[]|(p & Hp & Hx)]. apply (ids_get_in _ _ _ _ I) in Hx as (m & _ & Hm).
      apply in_map_iff. exists (m, x). auto.
    + intros Hx. right. apply in_map_iff in Hx as ([m i] & <- & Hm). simpl. exists m. split.
      * apply (io_sub _ _ I). apply in_map_iff. exists (m, i). auto.
      * apply (in_get name_eqb nk name_eqb_iff); auto. apply I.
Qed.

Section Lookups.
  Variables (partofs : list (name * list name)) (gs : graphs).
  Hypothesis G : graphs_ok partofs gs.

  Lemma lookup_name_iff i n : im_get Nat.eqb i (lookup_name gs) = Some n <-> In (n, i) (lookup_id gs).
  Proof.
    rewrite (go_lookup _ _ G). pose proof (io_ids _ _ (go_ids _ _ G)) as ND. split.
    - intros H. apply (get_some_in Nat.eqb _ nat_eqb_iff) in H as (i' & E & H). simpl in E. subst.
      apply in_map_iff in H as ([m j] & E & H). inversion E; subst; auto.
    - intros H. apply (in_get Nat.eqb _ nat_eqb_iff).
      + unfold pkeys. rewrite map_map. exact ND.
      + apply in_map_iff. exists (n, i). auto.
  Qed.

  Lemma lookup_name_total i : In i (g_nodes (g_full gs)) ->
    exists n, im_get Nat.eqb i (lookup_name gs) = Some n /\ im_get name_eqb n (lookup_id gs) = Some i /\
              In n (flat partofs).
  Proof.
    intros H. apply (go_nodes _ _ G) in H. apply in_map_iff in H as ([n j] & E & H). simpl in E; subst.
    exists n. split; [now apply lookup_name_iff|]. pose proof (go_ids _ _ G) as I. split.
    - apply (in_get name_eqb nk name_eqb_iff); auto. apply I.
    - apply (io_sub _ _ I). apply in_map_iff. exists (n, i). auto.
  Qed.

  Lemma lookup_id_name n i : im_get name_eqb n (lookup_id gs) = Some i ->
    exists m, nk m = nk n /\ im_get Nat.eqb i (lookup_name gs) = Some m.
  Proof.
    intros H. apply (ids_get_in _ _ _ _ (go_ids _ _ G)) in H as (m & E & H). exists m. split; auto.
    now apply lookup_name_iff.
  Qed.

  Lemma lookup_name_id i n : im_get Nat.eqb i (lookup_name gs) = Some n ->
    im_get name_eqb n (lookup_id gs) = Some i.
  Proof.
    intros H. apply lookup_name_iff in H. apply (in_get name_eqb nk name_eqb_iff); auto.
    apply (go_ids _ _ G).
  Qed.

  Lemma lookup_id_cong a b : nk a = nk b -> im_get name_eqb a (lookup_id gs) = im_get name_eqb b (lookup_id gs).
  Proof. apply (get_proj name_eqb nk name_eqb_iff). Qed.

  Lemma lookup_id_inj a b i :
    im_get name_eqb a (lookup_id gs) = Some i -> im_get name_eqb b (lookup_id gs) = Some i -> nk a = nk b.
  Proof.
    intros Ha Hb. apply lookup_id_name in Ha as (m & E & Ha), Hb as (m' & E' & Hb). congruence.
  Qed.

  Lemma lookup_id_total n : In (nk n) (map nk (flat partofs)) ->
    exists i, im_get name_eqb n (lookup_id gs) = Some i.
  Proof.
    intros H. apply (get_some_iff name_eqb nk name_eqb_iff). now apply (io_in _ _ (go_ids _ _ G)).
  Qed.

  Lemma neighbors_iff a b : In b (neighbors (g_full gs) a) <-> In (a, b) (g_edges (g_full gs)).
  Proof.
    unfold neighbors. rewrite in_map_iff. split.
    - intros ([x y] & E & H). apply filter_In in H as [H1 H2]. simpl in *. apply Nat.eqb_eq in H2. congruence.
    - intros H. exists (a, b). split; auto. apply filter_In. split; auto. simpl. now apply Nat.eqb_eq.
  Qed.

  Lemma neighbors_nodup a : NoDup (neighbors (g_full gs) a).
  Proof.
    unfold neighbors. pose proof (gw_edges _ (go_wf _ _ G)) as ND. revert ND.
    generalize (g_edges (g_full gs)). intros l. induction l as [|[x y] l IH]; simpl; intros ND; [constructor|].
    inversion ND as [|? ? Hn ND']; subst. destruct (Nat.eqb x a) eqn:E; auto. simpl. constructor; auto.
    intros H. apply in_map_iff in H as ([u v] & E2 & H). apply filter_In in H as [H1 H2]. simpl in *.
    apply Nat.eqb_eq in E, H2. subst. contradiction.
  Qed.

  Lemma neighbors_nodes a b : In b (neighbors (g_full gs) a) -> In a (g_nodes (g_full gs)) /\ In b (g_nodes (g_full gs)).
  Proof. rewrite neighbors_iff. apply (gw_in _ (go_wf _ _ G)). Qed.

  (** The name carried by a node. *)
  Definition node_name (i : nat) : name :=
    match im_get Nat.eqb i (lookup_name gs) with Some n => n | None => mkName REQ [] [] end.

  Lemma node_name_get i : In i (g_nodes (g_full gs)) -> im_get Nat.eqb i (lookup_name gs) = Some (node_name i).
  Proof. intros H. unfold node_name. now destruct (lookup_name_total i H) as (n & -> & _). Qed.

  Lemma node_name_inj i j : In i (g_nodes (g_full gs)) -> In j (g_nodes (g_full gs)) ->
    nk (node_name i) = nk (node_name j) -> i = j.
  Proof.
    intros Hi Hj E. apply node_name_get, lookup_name_id in Hi, Hj.
    rewrite (lookup_id_cong _ _ E) in Hi. congruence.
  Qed.

  Definition parts_of (i : nat) : list name := map node_name (neighbors (g_full gs) i).

  Lemma parts_nodup i : NoDup (map nk (parts_of i)).
  Proof.
    unfold parts_of. rewrite map_map. pose proof (neighbors_nodup i) as ND.
    assert (H : forall x, In x (neighbors (g_full gs) i) -> In x (g_nodes (g_full gs)))
      by (intros x Hx; now apply neighbors_nodes in Hx).
    revert ND H. generalize (neighbors (g_full gs) i).
    induction l as [|x l IH]; simpl; intros ND H; constructor.
    - inversion ND as [|? ? Hn ND']; subst. intros Hin. apply in_map_iff in Hin as (y & E & Hy).
      apply node_name_inj in E; auto. congruence.
    - inversion ND; subst; auto.
  Qed.

  Lemma determine_parts_ok :
    determine_parts gs = Ok (map (fun e => (snd e, parts_of (fst e))) (lookup_name gs)).
  Proof.
    unfold determine_parts.
    rewrite (res_map_total _ (fun e => (snd e, parts_of (fst e)))); simpl.
    - f_equal. apply (collect_distinct name_eqb nk name_eqb_iff). unfold pkeys. rewrite map_map. simpl.
      rewrite (go_lookup _ _ G), map_map. simpl. rewrite <- (map_map fst nk).
      rewrite <- pkeys_fst. apply (go_ids _ _ G).
    - intros [i n] _. simpl. rewrite (res_map_total _ node_name); simpl.
      + do 2 f_equal. apply (is_collect_distinct name_eqb nk name_eqb_iff). apply parts_nodup.
      + intros j Hj. apply neighbors_nodes in Hj as [_ Hj]. now rewrite node_name_get.
  Qed.

  Lemma parts_iff i n m : im_get name_eqb n (lookup_id gs) = Some i ->
    In (nk m) (map nk (parts_of i)) <->
    exists m' ps, In (m', ps) partofs /\ nk m' = nk m /\ In (nk n) (map nk ps).
  Proof.
    intros Hn. unfold parts_of. rewrite map_map, in_map_iff. split.
    - intros (b & E & Hb). pose proof (neighbors_nodes _ _ Hb) as [_ Hbn]. apply neighbors_iff in Hb.
      apply (go_edges _ _ G) in Hb as (m' & ps & p & H1 & H2 & H3 & H4). exists m', ps. split; auto. split.
      + rewrite <- E. apply node_name_get, lookup_name_id in Hbn. eapply lookup_id_inj; eauto.
      + rewrite (lookup_id_inj _ _ _ Hn H4). now apply in_map.
    - intros (m' & ps & H1 & E & H2). apply in_map_iff in H2 as (p & E2 & H2).
      destruct (lookup_id_total m') as [b Hb].
      { apply in_map. apply in_flat. exists m', ps. auto. }
      exists b. assert (Hbe : In (i, b) (g_edges (g_full gs))).
      { apply (go_edges _ _ G). exists m', ps, p. repeat split; auto. rewrite (lookup_id_cong _ _ E2). auto. }
      split; [|now apply neighbors_iff].
      apply (gw_in _ (go_wf _ _ G)) in Hbe as [_ Hbn]. apply node_name_get, lookup_name_id in Hbn.
      rewrite <- E. eapply lookup_id_inj; eauto.
  Qed.

  Lemma parts_get n i : im_get name_eqb n (lookup_id gs) = Some i ->
    im_get name_eqb n (map (fun e => (snd e, parts_of (fst e))) (lookup_name gs)) = Some (parts_of i).
  Proof.
    intros H. rewrite (go_lookup _ _ G), map_map. simpl. revert H. generalize (lookup_id gs).
    induction l as [|[m j] l IH]; simpl; [discriminate|]. destruct (name_eqb m n); auto.
    intros E; inversion E; auto.
  Qed.
End Lookups.
