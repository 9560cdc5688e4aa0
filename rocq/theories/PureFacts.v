(** Facts about [modify_project] up to the point where the disk is changed. *)
From Coq Require Import Permutation Sorted Lia ZifyBool.
From Verif Require Import Base BaseFacts Name NameFacts Family SubFacts RawNamesFacts Artifact SpecGraph SpecLinks BuildFacts LinkFacts ProjectFacts Stored Markdown Lint SpecLint LintFacts LintThms Source SpecJoin
  Pool PoolFacts Load LoadFacts SpecLoad CheckFacts ReadThms Disk Walk WalkFacts SpecWalk Topo Modify SpecModify OpFacts.

Lemma sort_im {M H} (a : artifact M H) : name_set (a_partof a) -> to_im (art_sort M H a) = to_im a.
Proof.
  intros Sa. unfold to_im, im_clean, art_sort. cbn [a_name a_file a_partof a_text a_impl im_name im_file im_partof im_done im_text]. f_equal.
  - apply isort_canonical; try exact name_leb_total; try exact name_leb_trans.
    + apply name_set_antisym, strip_set. eapply name_set_perm; [apply isort_perm|auto].
    + assert (S2 : name_set (isort name_leb (a_partof a))) by (eapply name_set_perm; [apply isort_perm|auto]).
      apply NoDup_Permutation; [apply (NoDup_map_inv nk), strip_nodup, S2|apply (NoDup_map_inv nk), strip_nodup, Sa|].
      intros x. rewrite !strip_in by (apply S2 || apply Sa). now rewrite isort_in.
  - destruct (a_impl a); reflexivity.
Qed.

Section Loaded.
  Variable M : num.
  Variable topo : graph -> option (list nat).
  Variable TC : topo_ok topo.
  Variable H : Type.
  Variable hash_im : art_im -> H.

  Lemma built_ok arts code out prefix sp url : Forall im_wf arts -> distinct arts -> build M topo H hash_im arts code = Ok out ->
    let p := mkProject out code prefix sp url in
    loaded_ok hash_im p /\ stored_form p = map im_clean arts.
  Proof.
    intros W D B p. pose proof (map_to_im M topo H hash_im TC arts code out W D B) as MT. unfold p. split; [|exact MT]. split; unfold stored_form; cbn [pr_arts].
    - rewrite MT, Forall_map. eapply Forall_impl; [|exact W]. apply clean_im_wf.
    - rewrite MT. unfold distinct in *. rewrite map_map. exact D.
    - rewrite MT. intros a Ha. apply in_map_iff in Ha as (b & <- & Hb). apply im_clean_idem. rewrite Forall_forall in W. auto.
    - intros n a Hin. eapply id_stored; eauto.
  Qed.

  Lemma sorted_ok arts code out prefix sp url : Forall im_wf arts -> distinct arts -> build M topo H hash_im arts code = Ok out ->
    let p := project_sort M H (mkProject out code prefix sp url) in
    loaded_ok hash_im p /\ Permutation (stored_form p) (map im_clean arts).
  Proof.
    intros W D B p. destruct (built_ok arts code out prefix sp url W D B) as [L E].
    assert (SI : forall n a, In (n, a) out -> to_im (art_sort M H a) = to_im a).
    { intros n a Hin. apply sort_im. destruct (build_entry M topo H hash_im TC arts code out W D B) as (gs & comp & _ & _ & Eo). rewrite Eo in Hin.
      apply in_map_iff in Hin as (x & X & Hx). injection X as _ <-. cbn [built a_partof]. rewrite Forall_forall in W. pose proof (W x Hx) as Wx.
      apply partof_set; cbn [fst snd]; [apply Wx|apply (clean_wf x Wx)]. }
    assert (P : Permutation (stored_form p) (stored_form (mkProject out code prefix sp url))).
    { unfold stored_form, p. cbn [project_sort pr_arts]. rewrite map_map. cbn [snd].
      assert (PS : Permutation (im_sort name_leb out) out) by (apply Permutation_sym, isort_perm).
      erewrite map_ext_in; [apply Permutation_map, PS|]. intros [n a] Hin. cbn [snd]. apply (SI n). now apply (Permutation_in _ PS). }
    split; [|now rewrite <- E]. destruct L as [L1 L2 L3 L4]. split.
    - eapply Permutation_Forall; [apply Permutation_sym, P|exact L1].
    - unfold distinct in *. eapply Permutation_NoDup; [apply Permutation_map, Permutation_sym, P|exact L2].
    - intros a Ha. apply L3. now apply (Permutation_in _ P).
    - intros n a Hin. unfold p in Hin. cbn [project_sort pr_arts] in Hin. apply in_map_iff in Hin as ([m b] & X & Hb). injection X as <- <-. cbn [fst snd] in *.
      apply (Permutation_in (l' := out)) in Hb; [|apply Permutation_sym, isort_perm]. rewrite (SI m b Hb). exact (L4 m b Hb).
  Qed.

  Variable path_str : path -> str.
  Variable yaml : str -> option (option str * option RawNames.names_val).
  Variables parse_toml parse_json : str -> res (list (name * art_raw)).
  Variable PO : parser_ok parse_toml.
  Variable PJ : parser_ok parse_json.
  Variable parse_msg : path -> str -> str.
  Variable prefix : str.
  Variable settings_path : path.
  Variable url_error : option str.
  Notation finish := (finish path_str prefix M topo H hash_im settings_path url_error).
  Notation loads := (loads path_str yaml parse_toml parse_json parse_msg prefix M topo H hash_im settings_path url_error).

  Lemma finish_loaded arrived arts refs la lc c p : Forall im_wf arts -> Forall ref_wf refs ->
    Forall (fun x => is_error x = true) arrived -> Permutation arrived (lc ++ la ++ collect_lints path_str arts refs) ->
    finish arrived arts refs = Ok (inl (c, p)) ->
    read_clean la lc arts refs /\ loaded_ok hash_im p /\ Permutation (stored_form p) (map im_clean arts) /\
    exists out, build M topo H hash_im arts (snd (join_locations refs)) = Ok out /\
      p = project_sort M H (mkProject out (snd (join_locations refs)) prefix settings_path url_error).
  Proof.
    intros Wa Wr AE P E. unfold Load.finish in E.
    assert (CE : ls_error (categorize no_lints arrived) = arrived) by (rewrite categorize_ok; cbn [ls_error no_lints app]; now apply filter_all).
    rewrite CE in E. destruct arrived as [|x arrived]; [|discriminate E]. cbn [is_nil negb] in E.
    assert (RC : read_clean la lc arts refs) by (apply (arrived_nil path_str arts refs la lc []); auto).
    split; auto. destruct RC as (_ & _ & D & _). destruct (build M topo H hash_im arts (snd (join_locations refs))) as [out| |] eqn:B; [|discriminate E|discriminate E].
    cbn [res_bind] in E. destruct (lint_project path_str _) as [l| |] eqn:L; [|discriminate E|discriminate E]. cbn [res_bind] in E. injection E as _ <-.
    destruct (sorted_ok arts _ out prefix settings_path url_error Wa D B) as [X1 X2]. split; auto. split; auto. exists out. auto.
  Qed.

  (** What loading the project gives. *)
  Theorem loads_loaded n afs cfs c p : walk_lints_ok afs -> walk_lints_ok cfs -> loads n afs cfs (Ok (inl (c, p))) ->
    loaded_ok hash_im p /\ exists arts la, run_of n (art_items path_str yaml parse_toml parse_json parse_msg prefix afs) arts la /\ la = [] /\
      Permutation (stored_form p) (map im_clean arts).
  Proof.
    intros W1 W2 (arts & refs & la & lc & arrived & R1 & R2 & P & E).
    pose proof (run_arts_wf path_str yaml parse_toml parse_json parse_msg prefix PO PJ n afs arts la R1) as Wa.
    pose proof (run_refs_wf path_str 4 cfs refs lc R2) as Wr.
    assert (AE : Forall (fun x => is_error x = true) arrived).
    { eapply Permutation_Forall; [apply Permutation_sym, P|]. apply Forall_app. split; [eapply ref_lints_error; eauto|]. apply Forall_app. split; [eapply art_lints_error; eauto|apply collect_error]. }
    destruct (finish_loaded arrived arts refs la lc c p Wa Wr AE P (eq_sym E)) as ((La & _) & L & S' & _). split; auto. exists arts, la. auto.
  Qed.
End Loaded.

Section Pure.
  Variable path_str : path -> str.
  Variable M : num.
  Variable topo : graph -> option (list nat).
  Variable TC : topo_ok topo.
  Variable H : Type.
  Variable heqb : H -> H -> bool.
  Variable heqb_iff : forall a b, heqb a b = true <-> a = b.
  Variable hash_im : art_im -> H.
  Variable debug_im : art_im -> str.
  Variable st : settings.
  Notation pure := (modify_pure path_str M topo H heqb hash_im debug_im st).
  Notation perform := (perform_operations H heqb hash_im debug_im).
  Notation overlap := (check_overlap H heqb hash_im []).
  Notation ids_of := (ids_of M H heqb hash_im).
  Notation get := (im_get heqb).
  Notation pk m := (map (fun e : H * art_im => (fun x : H => x) (fst e)) m).

  Lemma ids_nodup arts : NoDup (pk (ids_of arts)).
  Proof. exact (nodup_collect heqb (fun x => x) (heqb_id heqb heqb_iff) _). Qed.
  Lemma ids_exact (p : project M H) : NoDup (map hash_im (stored_form p)) ->
    ids_of (pr_arts p) = map (fun a => (hash_im a, a)) (stored_form p).
  Proof.
    intros N. unfold Modify.ids_of, stored_form in *. rewrite !map_map in *. cbv zeta. apply (collect_distinct heqb (fun x => x) (heqb_id heqb heqb_iff)).
    unfold pkeys. rewrite map_map. exact N.
  Qed.
  Lemma ids_get (p : project M H) i a : NoDup (map hash_im (stored_form p)) ->
    (get i (ids_of (pr_arts p)) = Some a <-> In a (stored_form p) /\ hash_im a = i).
  Proof.
    intros N. rewrite (ids_exact p N). split.
    - intros G. apply (get_some_in heqb (fun x => x) (heqb_id heqb heqb_iff)) in G as (k & -> & Hin). apply in_map_iff in Hin as (b & E & Hb). injection E as <- <-. auto.
    - intros [Ha <-]. apply (in_get heqb (fun x => x) (heqb_id heqb heqb_iff)).
      + unfold pkeys. rewrite map_map. exact N.
      + apply in_map_iff. exists a. auto.
  Qed.
  (** Even if ids coincide, the map has exactly the ids of the artifacts. *)
  Lemma ids_some (p : project M H) i : get i (ids_of (pr_arts p)) <> None <-> exists a, In a (stored_form p) /\ hash_im a = i.
  Proof.
    assert (X : get i (ids_of (pr_arts p)) <> None <-> In i (pk (ids_of (pr_arts p)))).
    { pose proof (get_some_iff heqb (fun x => x) (heqb_id heqb heqb_iff) (ids_of (pr_arts p)) i) as Y. unfold pkeys in Y. cbv beta in Y. cbv beta. rewrite <- Y. destruct (get i (ids_of (pr_arts p))); split; [eauto|congruence|congruence|intros [v V]; discriminate V]. }
    rewrite X. pose proof (pkeys_extend_in heqb (fun x => x) (heqb_id heqb heqb_iff) (map (fun e => let im := to_im (snd e) in (hash_im im, im)) (pr_arts p)) [] i) as Z.
    unfold pkeys in Z. cbn [map In] in Z. etransitivity; [exact Z|]. unfold stored_form. rewrite map_map. split.
    - intros [[]|Y]. apply in_map_iff in Y as (e & <- & He). exists (to_im (snd e)). split; auto. apply in_map_iff. eauto.
    - intros (a & Ha & <-). apply in_map_iff in Ha as (e & <- & He). right. apply in_map_iff. exists e. auto.
  Qed.

  Lemma stores_clean ops o a : In o (map (op_clean H) ops) -> stores o a -> Forall op_wf ops -> im_wf a /\ im_clean a = a.
  Proof.
    intros Ho S' W. apply in_map_iff in Ho as (o' & <- & Ho). rewrite Forall_forall in W. specialize (W o' Ho).
    destruct o' as [b|b i|n i]; cbn [op_clean] in S'; apply stores_cases in S'; [|  |destruct S']; subst a; split; try (now apply clean_im_wf); now apply im_clean_idem.
  Qed.

  Lemma ids_sub (p : project M H) i a : get i (ids_of (pr_arts p)) = Some a -> In a (stored_form p).
  Proof.
    intros G. apply (get_some_in heqb (fun x => x) (heqb_id heqb heqb_iff)) in G as (k & _ & Hk).
    assert (X : forall (l m : list (H * art_im)) e, In e (im_extend heqb m l) -> (exists e', In e' m /\ snd e' = snd e) \/ exists e', In e' l /\ snd e' = snd e).
    { unfold im_extend. induction l as [|[k1 v1] l IH]; intros m e He; cbn [fold_left] in He; [left; eauto|]. cbn [fst snd] in He. destruct (IH _ e He) as [(e' & H1 & H2)|(e' & H1 & H2)]; [|right; exists e'; split; auto; now right].
      assert (Y : (snd e' = v1) \/ exists e2, In e2 m /\ snd e2 = snd e').
      { clear -H1. induction m as [|[k2 v2] m IH]; cbn [im_insert] in H1; [destruct H1 as [<-|[]]; auto|]. destruct (heqb k2 k1).
        - destruct H1 as [<-|H1]; auto. right. exists e'. split; auto. now right.
        - destruct H1 as [<-|H1]; [right; eexists; split; [now left|reflexivity]|]. destruct (IH H1) as [Y|(e2 & Y1 & Y2)]; auto. right. exists e2. split; auto. now right. }
      destruct Y as [Y|(e2 & Y1 & Y2)]; [right; exists (k1, v1); split; [now left|cbn [snd]; congruence]|left; exists e2; split; auto; congruence]. }
    unfold Modify.ids_of, im_collect in Hk. destruct (X _ _ _ Hk) as [(e' & [] & _)|(e' & H1 & H2)]. apply in_map_iff in H1 as (e & <- & He). cbn [snd] in H2. subst a. unfold stored_form. apply in_map_iff. eauto.
  Qed.

  (** Every entry is clean, well formed and under its own id. *)
  Lemma entries_ok (p : project M H) ops m : loaded_ok hash_im p -> Forall op_wf ops -> overlap (map (op_clean H) ops) = [] ->
    perform (map (op_clean H) ops) (ids_of (pr_arts p)) = ([], m) ->
    NoDup (pk m) /\ forall i a, In (i, a) m -> hash_im a = i /\ im_wf a /\ im_clean a = a.
  Proof.
    intros L W Eo Em. set (ops' := map (op_clean H) ops) in *. pose proof (ids_nodup (pr_arts p)) as N0.
    destruct (present_before heqb heqb_iff hash_im debug_im ops' (ids_of (pr_arts p)) m N0 Em) as [Nm _]. split; auto.
    intros i a Hin. assert (G : get i m = Some a) by (apply (in_get heqb (fun x => x) (heqb_id heqb heqb_iff)); auto).
      apply (perform_get heqb heqb_iff hash_im debug_im ops' _ m N0 Eo Em) in G as [_ [(l & o & r & Eop & S' & Hi & _)|[_ G]]].
      - split; auto. apply (stores_clean ops o a); auto. fold ops'. rewrite Eop. apply in_or_app. right. now left.
      - assert (Gi : exists b, In b (stored_form p) /\ hash_im b = i /\ b = a).
        { apply (get_some_in heqb (fun x => x) (heqb_id heqb heqb_iff)) in G as (k & Ek & Hk). cbv beta in Ek. subst k.
          unfold Modify.ids_of in Hk. clear -Hk heqb_iff.
          assert (X : forall (l m0 : ids_map H), (forall j b, In (j, b) m0 -> In b (stored_form p) /\ hash_im b = j) ->
                     (forall j b, In (j, b) l -> In b (stored_form p) /\ hash_im b = j) -> forall j b, In (j, b) (im_extend heqb m0 l) -> In b (stored_form p) /\ hash_im b = j).
          { induction l as [|[j0 b0] l IH]; intros m0 A B j b Hin; [now apply A|]. cbn [im_extend fold_left fst snd] in Hin. apply (IH (im_insert heqb j0 b0 m0)); auto.
            - intros j1 b1 H1. destruct (B j0 b0 (or_introl eq_refl)) as [B1 B2].
              assert (Y : (b1 = b0 /\ (j1 = j0 \/ heqb j1 j0 = true)) \/ In (j1, b1) m0).
              { clear -H1. induction m0 as [|[k v] m0 IH]; cbn [im_insert] in H1; [destruct H1 as [X|[]]; injection X as <- <-; auto|].
                destruct (heqb k j0) eqn:K; cbn [In] in H1; destruct H1 as [X|H1]; [injection X as <- <-; auto|right; now right|injection X as <- <-; right; now left|].
                destruct (IH H1) as [Y|Y]; [auto|right; now right]. }
              destruct Y as [[-> [->|Y]]|Y]; [auto| |now apply A]. apply heqb_iff in Y as ->. auto.
            - intros j1 b1 H1. apply B. now right. }
          assert (Y : In a (stored_form p) /\ hash_im a = i).
          { apply (X (map (fun e => let im := to_im (snd e) in (hash_im im, im)) (pr_arts p)) []); auto; [intros j b []|].
            intros j b Hb. apply in_map_iff in Hb as (e & Ee & He). injection Ee as <- <-. split; auto. unfold stored_form. apply in_map_iff. eauto. }
          destruct Y as [Y1 Y2].
          exists a. auto. }
        destruct Gi as (b & Hb & Hbi & ->). split; auto. split; [|now apply (lo_clean hash_im p L)].
        pose proof (lo_wf hash_im p L) as Wp. rewrite Forall_forall in Wp. auto.
  Qed.

  (** What acceptance means, and the new project. *)
  Theorem pure_accepts c p ops c' q : loaded_ok hash_im p -> Forall op_wf ops -> pure (inl (c, p)) ops = Ok (inr (c', q)) ->
    ls_error c = [] /\ ls_error c' = [] /\
    overlap (map (op_clean H) ops) = [] /\
    (forall o f, In o (map (op_clean H) ops) -> op_file H o = Some f -> check_path path_str st f = []) /\
    exists m, perform (map (op_clean H) ops) (ids_of (pr_arts p)) = ([], m) /\ NoDup (pk m) /\
      (forall i a, In (i, a) m -> hash_im a = i) /\
      loaded_ok hash_im q /\ stored_form q = map snd m /\
      build M topo H hash_im (map snd m) (pr_code p) = Ok (pr_arts q) /\
      pr_code q = pr_code p /\ pr_prefix q = pr_prefix p /\ pr_settings_path q = pr_settings_path p /\ pr_url_error q = pr_url_error p /\
      lint_errors path_str q = [].
  Proof.
    intros L W E. unfold modify_pure in E.
    destruct (ls_error c) as [|x xs] eqn:Ec; [|discriminate E]. cbn [is_nil negb] in E.
    set (ops' := map (op_clean H) ops) in *. unfold add_errors in E. cbn [ls_error ls_other] in E. rewrite Ec in E. cbn [app] in E.
    destruct (overlap ops') as [|x xs] eqn:Eo; [|discriminate E]. cbn [is_nil negb app] in E.
    destruct (check_paths path_str H st ops') as [|x xs] eqn:Ep; [|discriminate E]. cbn [is_nil negb app] in E.
    destruct (perform ops' (ids_of (pr_arts p))) as [errs m] eqn:Em. cbn [app] in E. destruct errs as [|x xs]; [|discriminate E]. cbn [is_nil negb] in E.
    destruct (build M topo H hash_im (map snd m) (pr_code p)) as [out| |] eqn:B; [|discriminate E|discriminate E]. cbn [res_bind] in E.
    set (q0 := mkProject out (pr_code p) (pr_prefix p) (pr_settings_path p) (pr_url_error p)) in *.
    rewrite categorize_ok in E. cbn [ls_error ls_other app] in E.
    destruct (filter is_error (flat_map (art_dup_lints path_str) (j_dups (join_artifacts_raw (map snd m))) ++ lint_errors path_str q0)) as [|x xs] eqn:El; [|discriminate E].
    cbn [is_nil negb] in E. injection E as <- <-.
    rewrite filter_app in El. apply app_eq_nil in El as [Ed El].
    rewrite (filter_all is_error (lint_errors path_str q0)) in El by apply lint_errors_level.
    assert (Dn : j_dups (join_artifacts_raw (map snd m)) = []).
    { destruct (j_dups (join_artifacts_raw (map snd m))) as [|[[n a] b] l]; auto. discriminate Ed. }
    pose proof (ids_nodup (pr_arts p)) as N0.
    destruct (present_before heqb heqb_iff hash_im debug_im ops' (ids_of (pr_arts p)) m N0 Em) as [Nm _].
    destruct (entries_ok p ops m L W Eo Em) as [_ Ent].
    assert (Wm : Forall im_wf (map snd m)) by (apply Forall_forall; intros a Ha; apply in_map_iff in Ha as ([i b] & <- & Hb); apply (Ent i b Hb)).
    assert (Dm : distinct (map snd m)) by (apply distinct_iff; auto; now apply dups_none_iff).
    destruct (built_ok M topo TC H hash_im (map snd m) (pr_code p) out (pr_prefix p) (pr_settings_path p) (pr_url_error p) Wm Dm B) as [Lq Sq].
    split; [reflexivity|]. split; [reflexivity|]. split; [reflexivity|]. split.
    { unfold check_paths in Ep. rewrite flat_map_nil in Ep. intros o f Ho Hf. specialize (Ep o Ho). now rewrite Hf in Ep. }
    exists m. split; auto. split; auto. split; [intros i a Hin; apply (Ent i a Hin)|]. split; [exact Lq|]. split.
    { unfold q0. rewrite Sq. rewrite map_map. apply map_ext_in. intros [i a] Hin. apply (Ent i a Hin). }
    repeat split; auto.
  Qed.

  (** The new artifacts, as a set. *)
  (** Every artifact of the new project was there or is stored by an operation. *)
  Lemma pure_from c p ops c' q : loaded_ok hash_im p -> Forall op_wf ops -> pure (inl (c, p)) ops = Ok (inr (c', q)) ->
    forall a, In a (stored_form q) -> In a (stored_form p) \/ exists o, In o (map (op_clean H) ops) /\ stores o a.
  Proof.
    intros L W E a Ha. destruct (pure_accepts c p ops c' q L W E) as (_ & _ & Ov & _ & m & Em & Nm & Hid & _ & Sq & _).
    rewrite Sq in Ha. apply in_map_iff in Ha as ([i b] & <- & Hb). cbn [snd]. apply (in_get heqb (fun x => x) (heqb_id heqb heqb_iff)) in Hb; auto.
    apply (perform_get heqb heqb_iff hash_im debug_im _ _ m (ids_nodup (pr_arts p)) Ov Em) in Hb as [_ [(l & o & r & X & S' & _)|[_ G]]].
    - right. exists o. split; auto. rewrite X. apply in_or_app. right. now left.
    - left. eapply ids_sub; eauto.
  Qed.

  Theorem pure_set c p ops c' q : loaded_ok hash_im p -> NoDup (map hash_im (stored_form p)) -> Forall op_wf ops -> pure (inl (c, p)) ops = Ok (inr (c', q)) ->
    NoDup (map hash_im (stored_form q)) /\
    forall a, In a (stored_form q) <->
      ~ taken hash_im (map (op_clean H) ops) (hash_im a) /\
      (last_stored hash_im (map (op_clean H) ops) (hash_im a) a \/
       (~ stored hash_im (map (op_clean H) ops) (hash_im a) /\ In a (stored_form p))).
  Proof.
    intros L N W E. destruct (pure_accepts c p ops c' q L W E) as (_ & _ & Ov & _ & m & Em & Nm & Hid & _ & Sq & _).
    pose proof (ids_nodup (pr_arts p)) as N0.
    assert (IN : forall a, In a (stored_form q) <-> get (hash_im a) m = Some a).
    { intros a. rewrite Sq. split.
      - intros Ha. apply in_map_iff in Ha as ([i b] & <- & Hb). cbn [snd]. rewrite (Hid i b Hb). apply (in_get heqb (fun x => x) (heqb_id heqb heqb_iff)); auto.
      - intros G. apply (get_some_in heqb (fun x => x) (heqb_id heqb heqb_iff)) in G as (k & _ & Hk). apply in_map_iff. exists (k, a). auto. }
    split.
    - rewrite Sq, map_map. erewrite map_ext_in; [exact Nm|]. intros [i b] Hb. apply (Hid i b Hb).
    - intros a. rewrite IN, (perform_get heqb heqb_iff hash_im debug_im _ _ m N0 Ov Em), (ids_get p (hash_im a) a N). tauto.
  Qed.
End Pure.

Section Refused.
  Variable path_str : path -> str.
  Variable M : num.
  Variable topo : graph -> option (list nat).
  Variable TC : topo_ok topo.
  Variable H : Type.
  Variable heqb : H -> H -> bool.
  Variable heqb_iff : forall a b, heqb a b = true <-> a = b.
  Variable hash_im : art_im -> H.
  Variable debug_im : art_im -> str.
  Variable st : settings.
  Notation pure := (modify_pure path_str M topo H heqb hash_im debug_im st).

  Lemma pure_total c p ops : exists r, pure (inl (c, p)) ops = Ok r.
  Proof.
    unfold modify_pure. destruct (negb (is_nil (ls_error c))); [eauto|]. cbv zeta.
    destruct (negb (is_nil (ls_error (add_errors c _)))); [eauto|].
    destruct (negb (is_nil (ls_error (add_errors (add_errors c _) _)))); [eauto|].
    destruct (perform_operations H heqb hash_im debug_im _ _) as [errs m]. destruct (negb (is_nil (ls_error (add_errors _ errs)))); [eauto|].
    destruct (build_total M topo H hash_im TC (map snd m) (pr_code p)) as (out & -> & _). cbn [res_bind]. destruct (negb _); eauto.
  Qed.

  (** Nothing stale: what an update or delete names is there, what is created is not. *)
  Theorem pure_stale c p ops : (exists o, In o (map (op_clean H) ops) /\ ~ current hash_im (map (op_clean H) ops) p o) ->
    exists k l, pure (inl (c, p)) ops = Ok (inl (k, l)) /\ (k = KLoad \/ k = KPaths \/ k = KHash).
  Proof.
    intros (o & Ho & St). unfold modify_pure. destruct (negb (is_nil (ls_error c))) eqn:E1; [unfold failed; eauto 6|]. cbv zeta.
    set (ops' := map (op_clean H) ops) in *.
    destruct (negb (is_nil (ls_error (add_errors c _)))) eqn:E2; [unfold failed; eauto 7|].
    destruct (negb (is_nil (ls_error (add_errors (add_errors c _) _)))) eqn:E3; [unfold failed; eauto 7|].
    destruct (perform_operations H heqb hash_im debug_im ops' _) as [errs m] eqn:Em. destruct (negb (is_nil (ls_error (add_errors _ errs)))) eqn:E4; [unfold failed; eauto 8|].
    exfalso. unfold add_errors in *. cbn [ls_error] in *.
    assert (Nil : forall (l : list lint), negb (is_nil l) = false -> l = []) by (intros [|x l]; [reflexivity|discriminate]).
    apply Nil in E2, E4. apply app_eq_nil in E2 as [_ Ov]. apply app_eq_nil in E4 as [_ ->].
    pose proof (ids_nodup M H heqb heqb_iff hash_im (pr_arts p)) as N0.
    destruct (accepted_fresh heqb heqb_iff hash_im debug_im ops' _ m N0 Ov Em o Ho) as (A1 & A2 & A3).
    assert (X : forall i, In i (map hash_im (stored_form p)) <-> im_get heqb i (ids_of M H heqb hash_im (pr_arts p)) <> None).
    { intros i. rewrite (ids_some M H heqb heqb_iff hash_im p i), in_map_iff. split; intros (a & Y1 & Y2); eauto. }
    apply St. split; [|split].
    - intros a -> Hin. apply X in Hin. now apply Hin, A1.
    - intros i T. apply X. now apply A2.
    - intros i T. rewrite X. now apply A3.
  Qed.
End Refused.
