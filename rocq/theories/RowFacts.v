(** The result of [build] at the level of upper-case names: structure, order of evaluation,
    equations between the completions. *)
From Coq Require Import QArith Qround Relations Permutation Lia.
From Verif Require Import Base BaseFacts Name SpecName NameFacts Family FamilyFacts RawNamesFacts Artifact Stored
  SpecGraph GraphFacts CompletedFacts BuildFacts SpecLinks LinkFacts ProjectFacts Numbers SpecCompletion.
Open Scope nat_scope.

(** ** Structure *)
Record out_ok {M H} (out : list (name * artifact M H)) : Prop := {
  oo_nodup : NoDup (map (fun e => n_key (fst e)) out);
  oo_wf : forall n a, In (n, a) out -> name_wf n;
  oo_parts : forall n a p, In (n, a) out -> In p (a_parts a) ->
             name_wf p /\ exists n' a', In (n', a') out /\ n_key n' = n_key p;
  oo_pnodup : forall n a, In (n, a) out -> NoDup (map n_key (a_parts a)) }.

Lemma out_same {M H} (out : list (name * artifact M H)) : out_ok out ->
  forall n a n' a', In (n, a) out -> In (n', a') out -> n_key n = n_key n' -> n = n' /\ a = a'.
Proof.
  intros [N _ _ _] n a n' a' H1 H2 E. revert N H1 H2. induction out as [|x l IH]; simpl; intros N H1 H2; [contradiction|].
  inversion N as [|? ? Hn N']; subst. destruct H1 as [->|H1], H2 as [H2|H2]; auto.
  - inversion H2; auto.
  - exfalso. apply Hn. apply in_map_iff. exists (n', a'). simpl in *. auto.
  - subst x. exfalso. apply Hn. apply in_map_iff. exists (n, a). simpl in *. auto.
Qed.

Lemma nodup_keys (l : list name) : Forall name_wf l -> NoDup (map nk l) <-> NoDup (map n_key l).
Proof.
  intros W. induction W as [|x l Wx W IH]; simpl; [split; constructor|]. rewrite Forall_forall in W.
  split; intros N; inversion N as [|? ? Hn N']; subst; constructor; try tauto; intros Hin; apply Hn;
    apply in_map_iff in Hin as (y & E & Hy); apply in_map_iff; exists y; split; auto;
    apply (nk_key y x (W y Hy) Wx); auto.
Qed.

Section Rows.
  Variables (M : num) (topo : graph -> option (list nat)) (H : Type) (hash_im : art_im -> H).
  Hypothesis TC : topo_ok topo.
  Notation build := (build M topo H hash_im).
  Notation project := (list (name * artifact M H)).

  (** The equations in the arithmetic [M]. *)
  Definition row_ok (spc tst : str -> T M) (n : name) (a : artifact M H) : Prop :=
    let st := to_statistics M (a_impl a) (a_subnames a) in
    let qs := counted n (a_parts a) in
    spc (n_key n) = ratio M (fold_left (nadd M) (map (fun p => spc (n_key p)) qs) (st_value st)) (st_count st + length qs) /\
    (if ty_eqb (n_ty n) TST then tst (n_key n) = spc (n_key n)
     else tst (n_key n) = ratio M (fold_left (nadd M) (map (fun p => tst (n_key p)) (a_parts a)) (st_tvalue st))
                                (st_tcount st + length (a_parts a))).

  Lemma build_out arts code out : Forall im_wf arts -> build arts code = Ok out -> out_ok out.
  Proof.
    intros W E. pose proof (build_total M topo H hash_im TC arts code) as (o & E' & N & I & A).
    assert (o = out) by congruence; subst o.
    assert (WF : forall n a, In (n, a) out -> name_wf n).
    { intros n a Hin. destruct (build_ok M topo TC H hash_im arts code) as (gs & comp & G & C & E2).
      rewrite E in E2. inversion E2 as [Eo]. rewrite Eo in Hin. apply in_map_iff in Hin as (e & X & He).
      inversion X; subst. now destruct (entry_wf arts W e He). }
    constructor.
    - replace (map (fun e => n_key (fst e)) out) with (map n_key (map fst out)) by (rewrite map_map; reflexivity).
      apply nodup_keys.
      + apply Forall_forall. intros x Hx. apply in_map_iff in Hx as ([n a] & <- & Hin). eauto.
      + rewrite map_map. exact N.
    - exact WF.
    - intros n a p Hin Hp. destruct (build_ok M topo TC H hash_im arts code) as (gs & comp & G & C & E2).
      rewrite E in E2. inversion E2 as [Eo]. subst out.
      split.
      + apply in_map_iff in Hin as (e & X & He). inversion X; subst. clear X. cbn [built a_parts] in Hp.
        unfold parts_at, parts_of in Hp. apply in_map_iff in Hp as (i & <- & Hi).
        apply (neighbors_nodes _ _ G) in Hi as [_ Hi]. apply (lookup_name_total _ _ G) in Hi as (m & Em & _ & Hm).
        unfold node_name. rewrite Em. apply in_flat in Hm as (m' & ps & Hin & Hor).
        apply in_map_iff in Hin as (e' & Xe & He'). inversion Xe; subst.
        destruct (entry_wf arts W e' He') as (We & _ & _ & Se & _). destruct Hor as [->|Hor]; auto.
        pose proof (partof_set (j_ims (join_artifacts_raw arts)) e' We Se) as [PW _]. rewrite Forall_forall in PW. auto.
      + destruct (parts_exist M topo H hash_im TC arts code _ W E n a Hin) as [_ X]. auto.
    - intros n a Hin. now destruct (parts_exist M topo H hash_im TC arts code _ W E n a Hin).
  Qed.

  Lemma build_rows arts code out : Forall im_wf arts -> build arts code = Ok out ->
    (cyclic out /\ forall n a, In (n, a) out -> a_completed a = (f0 M, f0 M)) \/
    (~ cyclic out /\ exists (spc tst : str -> T M) (rank : str -> nat),
       forall n a, In (n, a) out ->
         a_completed a = (nround M (spc (n_key n)), nround M (tst (n_key n))) /\
         row_ok spc tst n a /\ forall p, In p (a_parts a) -> rank (n_key p) < rank (n_key n)).
  Proof.
    intros W E. pose proof (build_out arts code out W E) as OO.
    destruct (build_ok M topo TC H hash_im arts code) as (gs & comp & G & C & E2).
    assert (Eo : out = map (fun e => (fst e, built M H hash_im (j_ims (join_artifacts_raw arts)) code gs comp e))
                           (j_ims (join_artifacts_raw arts))) by congruence. clear E2.
    set (ims := j_ims (join_artifacts_raw arts)) in *.
    pose proof (jo_nodup _ _ (join_all_ok arts)) as ND. fold ims in ND.
    pose proof (TC (g_full gs) (go_wf _ _ G)) as TG.
    (* names of nodes *)
    assert (Hkid : forall e i, In e ims -> In i (neighbors (g_full gs) (id_of gs (fst e))) ->
              exists e', In e' ims /\ i = id_of gs (fst e') /\ n_key (fst e') = n_key (node_name gs i)).
    { intros e i He Hi. destruct (kids_def ims ND gs G _ _ Hi) as [Hn Hd].
      apply (is_def_iff ims ND gs G) in Hd as (e' & He' & ->); auto. exists e'. split; auto. split; auto.
      pose proof (id_of_name ims gs G e' He') as X. unfold nk in X. congruence. }
    unfold comp_ok in C. destruct (topo (g_full gs)) as [l|] eqn:Et.
    - right. destruct TG as (NDl & Inl & Bl).
      (* rank by position *)
      assert (RK : exists pos : nat -> nat, forall a b, In (a, b) (g_edges (g_full gs)) -> pos b < pos a).
      { exists (fun i => length l - (fix ix l := match l with [] => 0 | x :: l' => if Nat.eqb x i then 0 else S (ix l') end) l).
        intros a b Hab. destruct (Bl a b Hab) as (l1 & l2 & l3 & El). clear -El NDl. rewrite El in *. clear El.
        set (ix := fun i => fix ix l := match l with [] => 0 | x :: l' => if Nat.eqb x i then 0 else S (ix l') end).
        change (length (l1 ++ a :: l2 ++ b :: l3) - ix b (l1 ++ a :: l2 ++ b :: l3) <
                length (l1 ++ a :: l2 ++ b :: l3) - ix a (l1 ++ a :: l2 ++ b :: l3)).
        assert (Hix : forall i p q, ~ In i p -> ix i (p ++ i :: q) = length p).
        { intros i p. induction p as [|x p IH]; simpl; intros q Hn.
          - now rewrite Nat.eqb_refl.
          - destruct (Nat.eqb_spec x i); [exfalso; auto|]. f_equal. apply IH. tauto. }
        pose proof NDl as ND1. apply NoDup_remove_2 in ND1.
        replace (l1 ++ a :: l2 ++ b :: l3) with ((l1 ++ a :: l2) ++ b :: l3) in * by (rewrite <- app_assoc; reflexivity).
        pose proof NDl as ND2. apply NoDup_remove_2 in ND2.
        rewrite (Hix b) by (intros X; apply ND2, in_or_app; auto).
        replace ((l1 ++ a :: l2) ++ b :: l3) with (l1 ++ a :: l2 ++ b :: l3) by (rewrite <- app_assoc; reflexivity).
        rewrite (Hix a) by (intros X; apply ND1, in_or_app; auto).
        rewrite !app_length. simpl. rewrite !app_length. simpl. lia. }
      destruct RK as (pos & Hpos).
      destruct C as (spc & tst & Cg & Cv & Cr).
      set (rep := fun k : str => match find (fun e : name * art_im => str_eqb (n_key (fst e)) k) ims with
                                 | Some e => fst e | None => mkName REQ [] [] end).
      assert (Hrep : forall e, In e ims -> rep (n_key (fst e)) = fst e \/ nk (rep (n_key (fst e))) = nk (fst e)).
      { intros e He. unfold rep. destruct (find _ ims) as [e'|] eqn:Ef.
        - apply find_some in Ef as [H1 H2]. apply str_eqb_eq in H2. right.
          destruct (entry_wf arts W e He) as (W1 & _), (entry_wf arts W e' H1) as (W2 & _).
          now apply (nk_key _ _ W2 W1).
        - pose proof (find_none _ _ Ef e He) as X. simpl in X.
          assert (Y : str_eqb (n_key (fst e)) (n_key (fst e)) = true) by now apply str_eqb_eq. congruence. }
      assert (Hspc : forall e, In e ims -> forall m, nk m = nk (fst e) -> spc (rep (n_key m)) = spc (fst e) /\ tst (rep (n_key m)) = tst (fst e)).
      { intros e He m Em. assert (Ek : n_key m = n_key (fst e)) by (unfold nk in Em; congruence). rewrite Ek.
        destruct (Hrep e He) as [->|X]; auto. }
      assert (Hpart : forall e p, In e ims -> In p (parts_at gs (fst e)) -> exists e', In e' ims /\ nk p = nk (fst e')).
      { intros e p He Hp. unfold parts_at, parts_of in Hp. apply in_map_iff in Hp as (i & <- & Hi).
        destruct (Hkid e i He Hi) as (e' & He' & -> & _). exists e'. split; auto. now apply (id_of_name ims gs G). }
      assert (Main : forall n a, In (n, a) out ->
         a_completed a = (nround M (spc (rep (n_key n))), nround M (tst (rep (n_key n)))) /\
         row_ok (fun k => spc (rep k)) (fun k => tst (rep k)) n a /\
         forall p, In p (a_parts a) -> pos (id_of gs (rep (n_key p))) < pos (id_of gs (rep (n_key n)))).
      { intros n a Hin. rewrite Eo in Hin. apply in_map_iff in Hin as (e & X & He).
        assert (En : n = fst e) by congruence. assert (Ea : a = built M H hash_im ims code gs comp e) by congruence.
        subst n a. clear X. cbn [built a_completed a_parts].
        destruct (Hspc e He (fst e) eq_refl) as [S1 S2]. split; [rewrite S1, S2; now apply Cv|]. split.
        - unfold row_ok. cbn [built a_impl a_subnames a_parts]. specialize (Cr e He). unfold row_spec, stat_of in Cr.
          set (st := to_statistics M (impl_of code e) (parse_subnames (im_text (snd e)))) in *.
          assert (M1 : forall qs, incl qs (parts_at gs (fst e)) ->
             map (fun p => spc (rep (n_key p))) qs = map spc qs /\ map (fun p => tst (rep (n_key p))) qs = map tst qs).
          { intros qs Hq. split; apply map_ext_in; intros p Hp; destruct (Hpart e p He (Hq p Hp)) as (e' & He' & Ep);
              destruct (Hspc e' He' p Ep); destruct (Cg _ _ Ep); congruence. }
          destruct (M1 (counted (fst e) (parts_at gs (fst e)))) as [M2 _].
          { unfold counted. destruct (ty_eqb (n_ty (fst e)) TST); [apply incl_refl|]. intros x Hx. apply filter_In in Hx. tauto. }
          destruct (M1 (parts_at gs (fst e)) (incl_refl _)) as [_ M3].
          rewrite M2, M3. cbv beta. rewrite S1, S2. unfold counted. clear M2.
          destruct (ty_eqb (n_ty (fst e)) TST); destruct Cr as [C1 C2]; auto.
        - intros p Hp. unfold parts_at, parts_of in Hp. apply in_map_iff in Hp as (i & <- & Hi).
          assert (R : forall e', In e' ims -> forall m, nk m = nk (fst e') -> id_of gs (rep (n_key m)) = id_of gs (fst e')).
          { intros e' He' m Em. assert (Ek : n_key m = n_key (fst e')) by (unfold nk in Em; congruence). rewrite Ek.
            destruct (Hrep e' He') as [->|X]; auto. unfold id_of. now rewrite (lookup_id_cong gs _ _ X). }
          rewrite (R e He (fst e)) by auto.
          destruct (Hkid e i He Hi) as (e' & He' & Ei & _). rewrite (R e' He') by (rewrite Ei; now apply (id_of_name ims gs G)).
          rewrite <- Ei. apply Hpos. now apply (neighbors_iff gs). }
      split; [|exists (fun k => spc (rep k)), (fun k => tst (rep k)), (fun k => pos (id_of gs (rep k))); exact Main].
      (* acyclic *)
      intros (k & Hk). assert (Hlt : forall x y, clos_trans str (below out) x y -> pos (id_of gs (rep y)) < pos (id_of gs (rep x))).
      { intros x y Hc. induction Hc as [x y (n & a & p & Hin & <- & Hp & <-)|]; [|lia].
        destruct (Main n a Hin) as (_ & _ & X). auto. }
      specialize (Hlt k k Hk). lia.
    - left. split.
      + destruct TG as (x & Hx).
        (* x is the target of an edge, hence an artifact *)
        assert (Hstep : forall i j, clos_trans nat (fun a b => In (a, b) (g_edges (g_full gs))) i j ->
           (exists e, In e ims /\ j = id_of gs (fst e)) /\
           ((exists e, In e ims /\ i = id_of gs (fst e)) -> clos_trans str (below out) (n_key (node_name gs i)) (n_key (node_name gs j)))).
        { intros i j Hc. induction Hc as [i j Hij|i j k' H1 IH1 H2 IH2].
          - apply (neighbors_iff gs) in Hij. split.
            + destruct (kids_def ims ND gs G _ _ Hij) as [Hn Hd]. now apply (is_def_iff ims ND gs G).
            + intros (e & He & ->). apply t_step. exists (fst e), (built M H hash_im ims code gs comp e), (node_name gs j).
              split; [rewrite Eo; apply in_map_iff; exists e; auto|]. split.
              * pose proof (id_of_name ims gs G e He) as X. unfold nk in X. congruence.
              * split; auto. cbn [built a_parts]. unfold parts_at, parts_of. now apply in_map.
          - destruct IH1 as [D1 R1], IH2 as [D2 R2]. split; auto. intros Hi. eapply t_trans; [apply R1; auto|apply R2; auto]. }
        destruct (Hstep x x Hx) as [D R]. exists (n_key (node_name gs x)). auto.
      + intros n a Hin. rewrite Eo in Hin. apply in_map_iff in Hin as (e & X & He). inversion X; subst. cbn. auto.
  Qed.
End Rows.
