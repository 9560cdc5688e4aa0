(** Loaded projects can be exported. *)
From Coq Require Import Permutation Sorted Lia ZifyBool.
From Verif Require Import Api Render SpecRender SpecExport ExportFacts.
From Verif Require Import Base BaseFacts Regex Name SpecName NameFacts Family SubFacts RawNamesFacts Artifact SpecGraph SpecLinks BuildFacts LinkFacts ProjectFacts CompletionThms Stored Markdown Lint SpecLint LintFacts LintThms Source SpecJoin JoinFacts JoinThms
  Pool PoolFacts Load LoadFacts SpecLoad CheckFacts ReadThms RowFacts DeterFacts Topo Modify SpecModify OpFacts PureFacts.
Open Scope nat_scope.

Section Ready.
  Variable M : num.
  Variable topo : graph -> option (list nat).
  Variable TC : topo_ok topo.
  Variable H : Type.
  Variable hash_im : art_im -> H.

  Lemma code_ready refs : Forall ref_wf refs -> (forall i j, ~ repeated refs i j) ->
    code_ok (map (fun e => (fst e, code_sort (snd e))) (im_sort name_leb (snd (join_locations refs)))).
  Proof.
    intros Wr NR. pose proof (proj2 (nodup_repeated refs Wr) NR) as ND.
    assert (E : forall n c, In (n, c) (map (fun e : name * impl_code => (fst e, code_sort (snd e))) (im_sort name_leb (snd (join_locations refs)))) -> exists c0, In (n, c0) (snd (join_locations refs)) /\ c = code_sort c0).
    { intros n c Hin. apply in_map_iff in Hin as ([m c0] & X & Hin). injection X as -> <-. exists c0. split; [|reflexivity]. now apply isort_in in Hin. }
    split.
    - intros n c Hin. destruct (E n c Hin) as (c0 & H0 & _). exact (code_wf (fun _ => []) refs Wr NR n c0 H0).
    - rewrite map_map. cbn [fst]. eapply Permutation_NoDup; [apply Permutation_map, isort_perm|]. now apply code_keys.
    - intros n c z l Hin Hz. destruct (E n c Hin) as (c0 & H0 & ->). cbn [code_sort ic_secondary] in Hz. apply isort_in in Hz. destruct (out_entry refs n c0 ND H0) as (_ & _ & S & _).
      apply S in Hz as (r & Hr & _ & Es & _). rewrite Forall_forall in Wr. destruct (Wr r Hr) as [_ Ws]. apply Ws in Es. apply sub_ok in Es as [Es _]. rewrite Es. reflexivity.
    - intros n c Hin. destruct (E n c Hin) as (c0 & H0 & ->). cbn [code_sort ic_secondary]. destruct (out_entry refs n c0 ND H0) as (_ & _ & _ & S & _).
      eapply Permutation_NoDup; [apply Permutation_map, isort_perm|exact S].
  Qed.

  Variable path_str : path -> str.
  Lemma built_ready arts refs out prefix sp url : Forall im_wf arts -> distinct arts -> Forall ref_wf refs -> (forall i j, ~ repeated refs i j) ->
    build M topo H hash_im arts (snd (join_locations refs)) = Ok out ->
    (exists l, lint_project path_str (mkProject out (snd (join_locations refs)) prefix sp url) = Ok l) ->
    ready (project_sort M H (mkProject out (snd (join_locations refs)) prefix sp url)).
  Proof.
    intros W D Wr NR B (l & L). set (code := snd (join_locations refs)) in *. set (p0 := mkProject out code prefix sp url) in *.
    pose proof (built_wf M topo H hash_im TC arts code out W D B p0 eq_refl) as [A1 A2 A3].
    assert (E : forall n a, In (n, a) (pr_arts (project_sort M H p0)) -> exists a0, In (n, a0) out /\ a = art_sort M H a0).
    { intros n a Hin. cbn [project_sort pr_arts p0] in Hin. apply in_map_iff in Hin as ([m a0] & X & Hin). injection X as -> <-. exists a0. split; [|reflexivity]. now apply isort_in in Hin. }
    split.
    - split.
      + intros m b Hin. destruct (E m b Hin) as (b0 & H0 & _). eauto.
      + cbn [project_sort pr_arts p0]. rewrite map_map. cbn [fst]. eapply Permutation_NoDup; [apply Permutation_map, isort_perm|exact A2].
      + intros m b z Hin Hz. destruct (E m b Hin) as (b0 & H0 & ->). cbn [art_sort a_subnames] in Hz. apply isort_in in Hz. eauto.
    - cbn [project_sort pr_code p0]. now apply code_ready.
    - intros n a Hin. destruct (E n a Hin) as (a0 & H0 & ->). cbn [art_sort a_name]. destruct (out_entries M topo H hash_im TC arts code out W D B) as [O1 O2]. destruct (O1 n a0 H0) as (i & Hi & ->).
      destruct (O2 i Hi) as (x & Hx & _ & _ & _ & _ & _ & Nx). assert (Q : (im_name i, x) = (im_name i, a0)) by (eapply (nodup_same (fun e : name * artifact M H => n_key (fst e))); eauto). injection Q as <-. exact Nx.
    - intros n a q Hin Hq. destruct (E n a Hin) as (a0 & H0 & ->). cbn [art_sort a_partof a_parts] in Hq. rewrite !isort_in in Hq. destruct Hq as [Hq|Hq].
      + exact (built_partof_wf M topo H hash_im TC arts code out W D B p0 eq_refl n a0 q H0 Hq).
      + pose proof (build_out M topo H hash_im TC arts code out W B) as O. apply (oo_parts _ O n a0 q H0 Hq).
    - intros n a x y Hin Rf Lx. destruct (E n a Hin) as (a0 & H0 & ->). cbn [art_sort a_text] in Rf. destruct (built_refs_panic M topo H hash_im TC arts code out W D B path_str p0 eq_refl) as [P _].
      assert (X : lint_text_refs path_str p0 = Panic) by (apply P; exists n, a0, x, y; auto). unfold lint_project, lint_other in L. rewrite X in L. discriminate L.
  Qed.

  Variable yaml : str -> option (option str * option RawNames.names_val).
  Variables parse_toml parse_json : str -> res (list (name * art_raw)).
  Variable PO : parser_ok parse_toml.
  Variable PJ : parser_ok parse_json.
  Variable parse_msg : path -> str -> str.
  Variable prefix : str.
  Variable settings_path : path.
  Variable url_error : option str.
  Theorem loads_ready n afs cfs c p : walk_lints_ok afs -> walk_lints_ok cfs ->
    loads path_str yaml parse_toml parse_json parse_msg prefix M topo H hash_im settings_path url_error n afs cfs (Ok (inl (c, p))) -> ready p.
  Proof.
    intros W1 W2 (arts & refs & la & lc & arrived & R1 & R2 & P & E).
    pose proof (run_arts_wf path_str yaml parse_toml parse_json parse_msg prefix PO PJ n afs arts la R1) as Wa.
    pose proof (run_refs_wf path_str 4 cfs refs lc R2) as Wr.
    assert (AE : Forall (fun x => is_error x = true) arrived).
    { eapply Permutation_Forall; [apply Permutation_sym, P|]. apply Forall_app. split; [eapply ref_lints_error; eauto|]. apply Forall_app. split; [eapply art_lints_error; eauto|apply collect_error]. }
    destruct (finish_loaded M topo TC H hash_im path_str prefix settings_path url_error arrived arts refs la lc c p Wa Wr AE P (eq_sym E)) as ((_ & _ & D & NR) & _ & _ & out & B & ->).
    apply (built_ready arts refs out); auto. unfold Load.finish in E. destruct (negb _); [discriminate E|]. rewrite B in E. cbn [res_bind] in E.
    destruct (lint_project path_str _) as [l| |]; [eauto|discriminate E|discriminate E].
  Qed.

  (** In the order of their names. *)
  Theorem loads_sorted n afs cfs c p : walk_lints_ok afs -> walk_lints_ok cfs ->
    loads path_str yaml parse_toml parse_json parse_msg prefix M topo H hash_im settings_path url_error n afs cfs (Ok (inl (c, p))) ->
    StronglySorted (fun x y => str_leb x y = true) (map (fun e : name * artifact M H => n_key (fst e)) (pr_arts p)).
  Proof.
    intros W1 W2 (arts & refs & la & lc & arrived & R1 & R2 & P & E).
    pose proof (run_arts_wf path_str yaml parse_toml parse_json parse_msg prefix PO PJ n afs arts la R1) as Wa.
    pose proof (run_refs_wf path_str 4 cfs refs lc R2) as Wr.
    assert (AE : Forall (fun x => is_error x = true) arrived).
    { eapply Permutation_Forall; [apply Permutation_sym, P|]. apply Forall_app. split; [eapply ref_lints_error; eauto|]. apply Forall_app. split; [eapply art_lints_error; eauto|apply collect_error]. }
    destruct (finish_loaded M topo TC H hash_im path_str prefix settings_path url_error arrived arts refs la lc c p Wa Wr AE P (eq_sym E)) as ((_ & _ & D & NR) & _ & _ & out & B & ->).
    cbn [project_sort pr_arts]. rewrite map_map. cbn [fst]. exact (keys_sorted (fun e : name * artifact M H => n_key (fst e)) out).
  Qed.

  (** ** What the check says *)
  Lemma errors_cat (p : project M H) : Forall (fun x => li_cat x = CArtifact) (lint_errors path_str p).
  Proof.
    apply Forall_forall. intros x Hx. unfold lint_errors in Hx. rewrite !in_app_iff in Hx.
    destruct Hx as [Hx|[Hx|[Hx|Hx]]]; apply in_flat_map in Hx as (e & _ & Hx); try apply in_flat_map in Hx as (q & _ & Hx).
    - destruct (defined p q); [contradiction|]. destruct Hx as [<-|[]]. reflexivity.
    - destruct (bad_types _ _); [|contradiction]. destruct Hx as [<-|[]]. reflexivity.
    - cbv zeta in Hx. destruct (is_match_full _ _); [destruct Hx as [<-|[]]; reflexivity|]. destruct (is_match_full _ _); [|contradiction]. destruct Hx as [<-|[]]. reflexivity.
    - destruct (a_impl (snd e)); [|contradiction|contradiction]. destruct (a_subnames (snd e)); [contradiction|]. destruct Hx as [<-|[]]. reflexivity.
  Qed.
  Lemma code_cat (p : project M H) : Forall (fun x => li_cat x = CImplCode) (lint_code_impls path_str p).
  Proof.
    assert (A : forall n c m, Forall (fun x => li_cat x = CImplCode) (all_code path_str n c m)).
    { intros n c m. unfold all_code. apply Forall_app. split; [destruct (ic_primary c); constructor; [reflexivity|constructor]|]. apply Forall_forall. intros x Hx. apply in_map_iff in Hx as (y & <- & _). reflexivity. }
    apply Forall_forall. intros x Hx. apply in_flat_map in Hx as (e & _ & Hx). destruct (defined p (fst e)) as [a|]; [|exact (proj1 (Forall_forall _ _) (A _ _ _) x Hx)].
    destruct (a_impl a); [exact (proj1 (Forall_forall _ _) (A _ _ _) x Hx)| |contradiction]. apply in_flat_map in Hx as (y & _ & Hx). destruct (is_mem _ _ _); [contradiction|]. destruct Hx as [<-|[]]. reflexivity.
  Qed.
  Lemma sort_dangling out px sp url code x y : dangling (pr_arts (project_sort M H (mkProject out code px sp url))) x y <-> dangling out x y.
  Proof.
    unfold dangling. cbn [project_sort pr_arts]. split.
    - intros D m b Hin E. destruct (D m (art_sort M H b)) as [N A]; [|exact E|].
      + apply in_map_iff. exists (m, b). split; [reflexivity|]. now apply isort_in.
      + split; [exact N|]. intros z Hz. apply A. cbn [art_sort a_subnames]. now apply isort_in.
    - intros D m b Hin E. apply in_map_iff in Hin as ([m' b'] & X & Hin). injection X as -> <-. apply isort_in in Hin. destruct (D m b' Hin E) as [N A]. split; [exact N|].
      intros z Hz. cbn [art_sort a_subnames] in Hz. apply isort_in in Hz. auto.
  Qed.
  Theorem loads_lints n afs cfs c p : walk_lints_ok afs -> walk_lints_ok cfs ->
    loads path_str yaml parse_toml parse_json parse_msg prefix M topo H hash_im settings_path url_error n afs cfs (Ok (inl (c, p))) ->
    ((exists x, In x (ls_error c) /\ li_cat x = CSettings) <-> url_error <> None) /\
    (forall w, In w (ls_other c) /\ li_cat w = CArtifact <-> exists m a x y, In (m, a) (pr_arts p) /\ ref_in (a_text a) x y /\ dangling (pr_arts p) x y /\ w = ref_lint path_str m a x y).
  Proof.
    intros W1 W2 (arts & refs & la & lc & arrived & R1 & R2 & P & E).
    pose proof (run_arts_wf path_str yaml parse_toml parse_json parse_msg prefix PO PJ n afs arts la R1) as Wa.
    pose proof (run_refs_wf path_str 4 cfs refs lc R2) as Wr.
    assert (AE : Forall (fun x => is_error x = true) arrived).
    { eapply Permutation_Forall; [apply Permutation_sym, P|]. apply Forall_app. split; [eapply ref_lints_error; eauto|]. apply Forall_app. split; [eapply art_lints_error; eauto|apply collect_error]. }
    destruct (finish_loaded M topo TC H hash_im path_str prefix settings_path url_error arrived arts refs la lc c p Wa Wr AE P (eq_sym E)) as ((_ & _ & D & NR) & _ & _ & out & B & ->).
    unfold Load.finish in E. assert (CE : ls_error (categorize no_lints arrived) = arrived) by (rewrite categorize_ok; cbn [ls_error no_lints app]; now apply filter_all).
    rewrite CE in E. destruct arrived as [|x0 arrived]; [|discriminate E]. cbn [is_nil negb] in E. rewrite B in E. cbn [res_bind] in E.
    set (code := snd (join_locations refs)) in *. set (p0 := mkProject out code prefix settings_path url_error) in *. unfold lint_project, lint_other in E.
    destruct (lint_text_refs path_str p0) as [l| |] eqn:L; [|discriminate E|discriminate E]. cbn [res_bind] in E.
    assert (Ec : c = sort_lints (categorize (categorize no_lints []) (lint_errors path_str p0 ++ l ++ lint_code_impls path_str p0 ++ lint_settings path_str p0))) by congruence. clear E. subst c.
    rewrite categorize_ok. cbn [categorize fold_left ls_error ls_other no_lints app]. unfold sort_lints. cbn [ls_error ls_other].
    pose proof (built_refs M topo H hash_im TC arts _ out Wa D B path_str p0 eq_refl l L) as BR.
    pose proof (proj1 (Forall_forall _ _) (errors_cat p0)) as C1. pose proof (proj1 (Forall_forall _ _) (code_cat p0)) as C2.
    pose proof (proj1 (Forall_forall _ _) (lint_errors_level path_str p0)) as L1. split.
    - split.
      + intros (x & Hx & Cx). apply sort_dedup_ok, filter_In in Hx as [Hx _]. rewrite !in_app_iff in Hx. destruct Hx as [Hx|[Hx|[Hx|Hx]]].
        * rewrite (C1 x Hx) in Cx. discriminate Cx.
        * apply BR in Hx as (m & a & u & v & _ & _ & _ & ->). discriminate Cx.
        * rewrite (C2 x Hx) in Cx. discriminate Cx.
        * unfold lint_settings in Hx. cbn [pr_url_error p0] in Hx. destruct url_error; [discriminate|contradiction].
      + intros N. destruct url_error as [m|] eqn:U; [|congruence]. exists (mkLint LError (Some (path_str settings_path)) None CSettings m). split; [|reflexivity]. apply sort_dedup_ok, filter_In. split; [|reflexivity].
        rewrite !in_app_iff. right. right. right. left. reflexivity.
    - intros w. split.
      + intros (Hx & Cx). apply sort_dedup_ok, filter_In in Hx as [Hx Lx]. rewrite !in_app_iff in Hx. destruct Hx as [Hx|[Hx|[Hx|Hx]]].
        * rewrite (L1 w Hx) in Lx. discriminate Lx.
        * apply BR in Hx as (m & a & u & v & Hin & Rf & Dg & ->). exists m, (art_sort M H a), u, v. split; [|split; [exact Rf|split; [now apply sort_dangling|reflexivity]]].
          cbn [project_sort pr_arts p0]. apply in_map_iff. exists (m, a). split; [reflexivity|]. now apply isort_in.
        * rewrite (C2 w Hx) in Cx. discriminate Cx.
        * unfold lint_settings in Hx. destruct (pr_url_error p0); [|contradiction]. destruct Hx as [<-|[]]. discriminate Cx.
      + intros (m & a & u & v & Hin & Rf & Dg & ->). split; [|reflexivity]. apply sort_dedup_ok, filter_In. split; [|reflexivity]. rewrite !in_app_iff. right. left. apply BR.
        cbn [project_sort pr_arts p0] in Hin. apply in_map_iff in Hin as ([m' a'] & X & Hin). injection X as -> <-. apply isort_in in Hin. exists m, a', u, v. split; [exact Hin|]. split; [exact Rf|]. split; [now apply sort_dangling in Dg|reflexivity].
  Qed.
End Ready.
