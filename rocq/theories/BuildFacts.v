(** Proofs about [join_artifacts_raw] and [determine_artifacts]. *)
From Verif Require Import Base BaseFacts Name NameFacts Family FamilyFacts Artifact SpecGraph GraphFacts CompletedFacts.
From Coq Require Import Permutation Lia.

Notation mget := (im_get name_eqb).

(** ** Joining *)
Record join_ok (arts : list art_im) (j : joined) : Prop := {
  jo_keys : map fst (j_files j) = map fst (j_ims j);
  jo_nodup : NoDup (nkeys (j_ims j));
  jo_files : j_files j = map (fun e => (fst e, im_file (snd e))) (j_ims j);
  jo_in : forall x, In x (nkeys (j_ims j)) <-> In x (map (fun a => nk (im_name a)) arts);
  jo_val : forall e, In e (j_ims j) -> exists a, In a arts /\ nk (im_name a) = nk (fst e) /\ snd e = im_clean a;
  jo_key : forall e, In e (j_ims j) -> exists a, In a arts /\ fst e = im_name a }.

Lemma insert_files n f c (ims : list (name * art_im)) : im_file c = f ->
  im_insert name_eqb n f (map (fun e => (fst e, im_file (snd e))) ims) =
  map (fun e => (fst e, im_file (snd e))) (im_insert name_eqb n c ims).
Proof.
  intros Hf. induction ims as [|[a w] m IH]; simpl.
  - now rewrite Hf.
  - destruct (name_eqb a n); simpl; [now rewrite Hf|]. now rewrite IH.
Qed.

Lemma insert_in {V} n (v : V) m e : In e (im_insert name_eqb n v m) ->
  In e m \/ (snd e = v /\ nk (fst e) = nk n /\ (fst e = n \/ In (fst e) (map fst m))).
Proof.
  induction m as [|[a w] m IH]; simpl.
  - intros [<-|[]]. auto.
  - destruct (name_eqb a n) eqn:E; simpl.
    + apply name_eqb_iff in E. intros [<-|H]; simpl; auto 10.
    + intros [<-|H]; auto. destruct (IH H) as [?|(? & ? & [?|?])]; auto 10.
Qed.

Lemma join_step_ok arts j a : join_ok arts j -> join_ok (arts ++ [a]) (join_step j a).
Proof.
  intros [K N F I V Ky]. unfold join_step. split; simpl.
  - rewrite F. rewrite (insert_files _ _ (im_clean a)) by reflexivity. rewrite map_map. simpl. reflexivity.
  - now apply (nodup_insert name_eqb nk name_eqb_iff).
  - rewrite F. now rewrite (insert_files _ _ (im_clean a)) by reflexivity.
  - intros x. rewrite (pkeys_insert_in name_eqb nk name_eqb_iff), I, map_app, in_app_iff. simpl. intuition.
  - intros e He. apply insert_in in He as [He|(E1 & E2 & _)].
    + destruct (V e He) as (b & ? & ?). exists b. rewrite in_app_iff. auto.
    + exists a. rewrite in_app_iff. simpl. auto.
  - intros e He. apply insert_in in He as [He|(_ & _ & [E|E])].
    + destruct (Ky e He) as (b & ? & ?). exists b. rewrite in_app_iff. auto.
    + exists a. rewrite in_app_iff. simpl. auto.
    + apply in_map_iff in E as (e' & E & He'). destruct (Ky e' He') as (b & ? & ?). exists b.
      rewrite in_app_iff. split; auto. congruence.
Qed.

Lemma join_fold_ok arts2 : forall arts j, join_ok arts j -> join_ok (arts ++ arts2) (fold_left join_step arts2 j).
Proof.
  induction arts2 as [|a l IH]; simpl; intros arts j H.
  - now rewrite app_nil_r.
  - replace (arts ++ a :: l) with ((arts ++ [a]) ++ l) by (rewrite <- app_assoc; reflexivity).
    apply IH. now apply join_step_ok.
Qed.

Lemma join_all_ok arts : join_ok arts (join_artifacts_raw arts).
Proof.
  apply (join_fold_ok arts []). split; simpl; auto; try tauto. constructor.
Qed.

(** ** Taking the pieces *)
Lemma take_ok {V} n (m : list (name * V)) v : mget n m = Some v ->
  take n m = Ok (v, im_remove name_eqb n m).
Proof. unfold take. now intros ->. Qed.

Lemma get_remove_name {V} (m : list (name * V)) k k' : NoDup (nkeys m) ->
  mget k' (im_remove name_eqb k m) = if name_eqb k k' then None else mget k' m.
Proof. apply (get_remove name_eqb nk name_eqb_iff). Qed.

Lemma nodup_remove_name {V} (m : list (name * V)) k : NoDup (nkeys m) -> NoDup (nkeys (im_remove name_eqb k m)).
Proof. apply (nodup_remove name_eqb nk name_eqb_iff). Qed.

Lemma get_none_nil {V} (m : list (name * V)) : (forall k, mget k m = None) -> m = [].
Proof.
  destruct m as [|[a v] m]; auto. intros H. specialize (H a). simpl in H.
  assert (E : name_eqb a a = true) by (now apply name_eqb_iff). rewrite E in H. discriminate.
Qed.

Section Build.
  Variable M : num.
  Variable H : Type.
  Notation pools := (pools M H).

  Definition pools_wf (q : pools) : Prop :=
    NoDup (nkeys (q_ids _ _ q)) /\ NoDup (nkeys (q_partofs _ _ q)) /\ NoDup (nkeys (q_parts _ _ q)) /\
    NoDup (nkeys (q_completed _ _ q)) /\ NoDup (nkeys (q_ims _ _ q)) /\ NoDup (nkeys (q_impls _ _ q)) /\
    NoDup (nkeys (q_subnames _ _ q)).

  (** what an artifact is made of *)
  Record pieces := mkPieces { pc_id : H; pc_partof : list name; pc_parts : list name;
    pc_completed : F M * F M; pc_im : art_im; pc_impl : impl; pc_subnames : list subname }.
  Definition has_pieces (q : pools) (n : name) (p : pieces) : Prop :=
    mget n (q_ids _ _ q) = Some (pc_id p) /\ mget n (q_partofs _ _ q) = Some (pc_partof p) /\
    mget n (q_parts _ _ q) = Some (pc_parts p) /\ mget n (q_completed _ _ q) = Some (pc_completed p) /\
    mget n (q_ims _ _ q) = Some (pc_im p) /\ mget n (q_impls _ _ q) = Some (pc_impl p) /\
    mget n (q_subnames _ _ q) = Some (pc_subnames p).
  Definition art_of (n : name) (file : path) (p : pieces) : artifact M H :=
    mkArt (pc_id p) n file (pc_partof p) (pc_parts p) (pc_completed p) (im_text (pc_im p)) (pc_impl p) (pc_subnames p).

  (** [q'] is [q] without the names satisfying [gone] *)
  Definition without (gone : name -> bool) (q q' : pools) : Prop :=
    forall k,
    mget k (q_ids _ _ q') = (if gone k then None else mget k (q_ids _ _ q)) /\
    mget k (q_partofs _ _ q') = (if gone k then None else mget k (q_partofs _ _ q)) /\
    mget k (q_parts _ _ q') = (if gone k then None else mget k (q_parts _ _ q)) /\
    mget k (q_completed _ _ q') = (if gone k then None else mget k (q_completed _ _ q)) /\
    mget k (q_ims _ _ q') = (if gone k then None else mget k (q_ims _ _ q)) /\
    mget k (q_impls _ _ q') = (if gone k then None else mget k (q_impls _ _ q)) /\
    mget k (q_subnames _ _ q') = (if gone k then None else mget k (q_subnames _ _ q)).

  Lemma take_all_ok n file q p : pools_wf q -> has_pieces q n p ->
    exists q', take_all M H n file q = Ok (art_of n file p, q') /\ pools_wf q' /\ without (name_eqb n) q q'.
  Proof.
    intros (W1 & W2 & W3 & W4 & W5 & W6 & W7) (P1 & P2 & P3 & P4 & P5 & P6 & P7).
    unfold take_all.
    rewrite (take_ok _ _ _ P1), (take_ok _ _ _ P2), (take_ok _ _ _ P3), (take_ok _ _ _ P4), (take_ok _ _ _ P5),
      (take_ok _ _ _ P6), (take_ok _ _ _ P7). simpl. eexists. split; [reflexivity|]. split.
    - repeat split; simpl; now apply nodup_remove_name.
    - intros k. repeat split; simpl; now apply get_remove_name.
  Qed.

  Lemma build_all_ok (piece : name -> pieces) defined : forall q,
    pools_wf q -> NoDup (nkeys defined) ->
    (forall d, In d defined -> has_pieces q (fst d) (piece (fst d))) ->
    exists q', build_all M H defined q =
                 Ok (map (fun d => (fst d, art_of (fst d) (snd d) (piece (fst d)))) defined, q') /\
               pools_wf q' /\ without (fun k => im_mem name_eqb k defined) q q'.
  Proof.
    induction defined as [|[n f] rest IH]; simpl; intros q W N Hp.
    - exists q. split; auto. split; auto. intros k. repeat split.
    - inversion N as [|? ? Hn N']; subst.
      destruct (take_all_ok n f q (piece n) W (Hp (n, f) (or_introl eq_refl))) as (q1 & E1 & W1 & R1).
      rewrite E1. simpl.
      destruct (IH q1) as (q2 & E2 & W2 & R2); auto.
      + intros d Hd. destruct (R1 (fst d)) as (A1 & A2 & A3 & A4 & A5 & A6 & A7).
        assert (E : name_eqb n (fst d) = false).
        { apply not_true_iff_false. intros E. apply name_eqb_iff in E. apply Hn. simpl. rewrite E.
          unfold pkeys. apply in_map_iff. exists d. auto. }
        rewrite E in *. destruct (Hp d (or_intror Hd)) as (B1 & B2 & B3 & B4 & B5 & B6 & B7).
        unfold has_pieces. rewrite A1, A2, A3, A4, A5, A6, A7. repeat split; auto.
      + rewrite E2. simpl. exists q2. split; auto. split; auto.
        intros k. destruct (R1 k) as (A1 & A2 & A3 & A4 & A5 & A6 & A7), (R2 k) as (B1 & B2 & B3 & B4 & B5 & B6 & B7).
        unfold im_mem in *. simpl.
        destruct (name_eqb n k) eqn:E; rewrite B1, B2, B3, B4, B5, B6, B7;
          destruct (mget k rest); repeat split; auto.
  Qed.
End Build.

Lemma get_total {A V} (f : name * A -> V) (m : list (name * A)) e : NoDup (nkeys m) -> In e m ->
  mget (fst e) (map (fun e => (fst e, f e)) m) = Some (f e).
Proof.
  intros ND He. apply (in_get name_eqb nk name_eqb_iff).
  - rewrite pkeys_map; auto.
  - apply in_map_iff. exists e. auto.
Qed.

Section Project.
  Variable M : num.
  Variable topo : graph -> option (list nat).
  Hypothesis topo_contract : topo_ok topo.
  Variable H : Type.
  Variable hash_im : art_im -> H.

  Definition links (ims : list (name * art_im)) := map (fun e => (fst e, partof_of ims e)) ims.

  (** The artifact built for an entry, given the graph and the completion of each name. *)
  Definition built (ims : list (name * art_im)) code gs (comp : name -> F M * F M) (e : name * art_im) : artifact M H :=
    mkArt (hash_im (snd e)) (fst e) (im_file (snd e)) (partof_of ims e) (parts_at gs (fst e)) (comp (fst e))
          (im_text (snd e)) (impl_of code e) (parse_subnames (im_text (snd e))).

  (** completion before rounding: all zero in the cyclic case *)
  Definition comp_ok ims code gs (comp : name -> F M * F M) : Prop :=
    match topo (g_full gs) with
    | None => forall e, In e ims -> comp (fst e) = (f0 M, f0 M)
    | Some _ => exists spc tst : name -> T M,
        (forall a b, nk a = nk b -> spc a = spc b /\ tst a = tst b) /\
        (forall e, In e ims -> comp (fst e) = (nround M (spc (fst e)), nround M (tst (fst e)))) /\
        (forall e, In e ims -> row_spec M code gs spc tst e)
    end.

  Lemma finalize_ok ims : NoDup (nkeys ims) ->
    exists gs, graphs_ok (links ims) gs /\
      finalize_load ims = Ok (mkLoaded ims gs (links ims)
        (map (fun e => (snd e, parts_of gs (fst e))) (lookup_name gs)) (determine_subnames ims)).
  Proof.
    intros ND. unfold finalize_load. rewrite determine_partofs_ok by auto. simpl. fold (links ims).
    destruct (determine_graphs_ok (links ims)) as (gs & E & G). rewrite E. simpl.
    rewrite (determine_parts_ok _ _ G). simpl. eauto.
  Qed.

  Lemma determine_artifacts_ok ims code gs : NoDup (nkeys ims) -> graphs_ok (links ims) gs ->
    exists comp, comp_ok ims code gs comp /\
      determine_artifacts M topo H hash_im
        (mkLoaded ims gs (links ims) (map (fun e => (snd e, parts_of gs (fst e))) (lookup_name gs)) (determine_subnames ims))
        code (map (fun e => (fst e, im_file (snd e))) ims)
      = Ok (map (fun e => (fst e, built ims code gs comp e)) ims).
  Proof.
    intros ND G. unfold determine_artifacts. simpl.
    pose proof (completed_spec M topo topo_contract ims ND code gs G) as C.
    assert (HC : exists cm comp, determine_completed M topo gs (determine_impls ims code) (determine_subnames ims) = Ok cm /\
       comp_ok ims code gs comp /\ NoDup (nkeys cm) /\ (forall x, In x (nkeys cm) <-> In x (nkeys ims)) /\
       (forall e, In e ims -> mget (fst e) cm = Some (comp (fst e)))).
    { unfold comp_ok. destruct (topo (g_full gs)) as [l|].
      - destruct C as (spc & tst & out & E & N & I & Cg & V & R).
        exists out, (fun n => (nround M (spc n), nround M (tst n))). repeat split; auto; try apply I; auto.
        exists spc, tst. auto.
      - eexists. exists (fun _ => (f0 M, f0 M)). split; [exact C|]. split; auto.
        split; [rewrite pkeys_map; auto|]. split; [intros x; rewrite pkeys_map; tauto|].
        intros e He. now apply (get_total (fun _ => (f0 M, f0 M))). }
    destruct HC as (cm & comp & E & CO & Nc & Ic & Vc). exists comp. split; auto.
    rewrite E. simpl.
    set (piece := fun n => mkPieces M H
       (match mget n ims with Some im => hash_im im | None => hash_im (mkIm n [] [] None []) end)
       (match mget n (links ims) with Some x => x | None => [] end)
       (parts_at gs n) (comp n)
       (match mget n ims with Some im => im | None => mkIm n [] [] None [] end)
       (match mget n (determine_impls ims code) with Some x => x | None => INot end)
       (match mget n (determine_subnames ims) with Some x => x | None => [] end)).
    assert (NDp : NoDup (nkeys (map (fun e : nat * name => (snd e, parts_of gs (fst e))) (lookup_name gs)))).
    { unfold pkeys. rewrite map_map. simpl. rewrite (go_lookup _ _ G), map_map. simpl.
      rewrite <- (map_map fst nk). rewrite <- pkeys_fst. apply (go_ids _ _ G). }
    assert (NDi : NoDup (nkeys (im_collect name_eqb (map (fun e : name * art_im => (fst e, hash_im (snd e))) ims)))).
    { apply (nodup_collect name_eqb nk name_eqb_iff). }
    assert (Ei : im_collect name_eqb (map (fun e : name * art_im => (fst e, hash_im (snd e))) ims) =
                 map (fun e : name * art_im => (fst e, hash_im (snd e))) ims).
    { apply (collect_distinct name_eqb nk name_eqb_iff). rewrite pkeys_map; auto. }
    rewrite Ei in *.
    assert (Hlink : forall e, In e ims -> mget (fst e) (links ims) = Some (partof_of ims e)).
    { intros e He. now apply (get_total (partof_of ims)). }
    assert (Him : forall e, In e ims -> mget (fst e) ims = Some (snd e)).
    { intros [n a] He. now apply (in_get name_eqb nk name_eqb_iff). }
    assert (Himpl : forall e, In e ims -> mget (fst e) (determine_impls ims code) = Some (impl_of code e)).
    { intros e He. rewrite determine_impls_ok by auto. now apply (get_total (impl_of code)). }
    assert (Hsub : forall e, In e ims -> mget (fst e) (determine_subnames ims) = Some (parse_subnames (im_text (snd e)))).
    { intros e He. rewrite determine_subnames_ok by auto.
      now apply (get_total (fun e => parse_subnames (im_text (snd e)))). }
    destruct (build_all_ok M H piece (map (fun e => (fst e, im_file (snd e))) ims)
      (mkPools M H (map (fun e => (fst e, hash_im (snd e))) ims) (links ims)
         (map (fun e => (snd e, parts_of gs (fst e))) (lookup_name gs)) cm ims
         (determine_impls ims code) (determine_subnames ims))) as (q' & EB & Wq & R).
    - repeat split; simpl; auto.
      + unfold links; rewrite pkeys_map; auto.
      + rewrite determine_impls_ok, pkeys_map; auto.
      + rewrite determine_subnames_ok, pkeys_map; auto.
    - rewrite pkeys_map; auto.
    - intros d Hd. apply in_map_iff in Hd as (e & <- & He). simpl. unfold has_pieces, piece. simpl.
      rewrite Him, Hlink, Himpl, Hsub by auto. repeat split; auto.
      + now apply (get_total (fun e => hash_im (snd e))).
      + apply (parts_get _ _ G). now apply (id_of_get ims gs G).
    - rewrite EB. simpl.
      assert (Gone : forall k, In (nk k) (nkeys ims) -> im_mem name_eqb k (map (fun e : name * art_im => (fst e, im_file (snd e))) ims) = true).
      { intros k Hk. apply (mem_iff name_eqb nk name_eqb_iff). rewrite pkeys_map; auto. }
      assert (Nil : forall V (m m' : list (name * V)), (forall x, In x (nkeys m) -> In x (nkeys ims)) ->
         (forall k, mget k m' = if im_mem name_eqb k (map (fun e : name * art_im => (fst e, im_file (snd e))) ims) then None else mget k m) ->
         is_nil m' = true).
      { intros V m m' Hm Hg. rewrite (get_none_nil m'); auto. intros k. rewrite Hg.
        destruct (im_mem name_eqb k _) eqn:Eg; auto. apply (get_none_iff name_eqb nk name_eqb_iff).
        intros Hk. apply Hm in Hk. apply Gone in Hk. congruence. }
      assert (N1 : is_nil (q_partofs M H q') = true).
      { apply (Nil _ (links ims)); [unfold links; rewrite pkeys_map; auto|intros k; apply (R k)]. }
      assert (N2 : is_nil (q_completed M H q') = true).
      { apply (Nil _ cm); [intros x Hx; now apply Ic|intros k; apply (R k)]. }
      assert (N3 : is_nil (q_ims M H q') = true).
      { apply (Nil _ ims); [auto|intros k; apply (R k)]. }
      assert (N4 : is_nil (q_impls M H q') = true).
      { apply (Nil _ (determine_impls ims code)); [rewrite determine_impls_ok, pkeys_map; auto|intros k; apply (R k)]. }
      assert (N5 : is_nil (q_subnames M H q') = true).
      { apply (Nil _ (determine_subnames ims)); [rewrite determine_subnames_ok, pkeys_map; auto|intros k; apply (R k)]. }
      rewrite N1, N2, N3, N4, N5. simpl. f_equal. rewrite map_map. simpl.
      rewrite (map_ext_in _ (fun e => (fst e, built ims code gs comp e))).
      + apply (collect_distinct name_eqb nk name_eqb_iff). rewrite pkeys_map; auto.
      + intros e He. unfold art_of, built, piece. simpl. rewrite Him, Hlink, Himpl, Hsub by auto. reflexivity.
  Qed.

  Theorem build_ok arts code :
    let ims := j_ims (join_artifacts_raw arts) in
    exists gs comp, graphs_ok (links ims) gs /\ comp_ok ims code gs comp /\
      build M topo H hash_im arts code = Ok (map (fun e => (fst e, built ims code gs comp e)) ims).
  Proof.
    intros ims. pose proof (join_all_ok arts) as J. destruct J as [K N Fl I V Ky].
    destruct (finalize_ok ims N) as (gs & G & E).
    destruct (determine_artifacts_ok ims code gs N G) as (comp & CO & E2).
    exists gs, comp. split; auto. split; auto. unfold build. cbv zeta. fold ims.
    rewrite E. simpl. rewrite Fl. exact E2.
  Qed.
End Project.
