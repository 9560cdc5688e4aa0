(** Two loads of the same files. *)
From Coq Require Import Lia ZifyBool Permutation Sorted Relation_Operators.
From Verif Require Import Base BaseFacts Regex Name SpecName NameFacts SubFacts Family FamilyFacts RawNames Artifact Stored SpecGraph SpecLinks LinkFacts GraphFacts BuildFacts ProjectFacts
  Numbers SpecCompletion RowFacts CompletionFacts CompletionThms
  Markdown SpecMarkdown Lint SpecLint LintFacts LintThms Source SpecJoin JoinFacts JoinThms Pool PoolFacts Load LoadFacts SpecLoad CheckFacts DeterFacts.

Lemma killers_panics {A B} (job_of : A -> job B) l :
  panics (jobs_of (map (fun i => match i with inl f => inl (job_of f) | inr x => inr x end) l)) = killers job_of l.
Proof.
  unfold panics, jobs_of, killers. induction l as [|[f|x] l IH]; cbn [map flat_map app filter]; auto.
  destruct (jb_panic (job_of f)); cbn [length]; auto.
Qed.
Lemma taken_all {A} (l : list (job A)) : forall w, panics l < w -> taken w l = l.
Proof.
  unfold panics. induction l as [|j l IH]; intros w L; [destruct w; reflexivity|]. destruct w as [|w]; [lia|]. cbn [taken filter] in *. f_equal.
  destruct (jb_panic j); cbn [length] in L; apply IH; lia.
Qed.

Lemma filter_perm {A} (f : A -> bool) l l' : Permutation l l' -> Permutation (filter f l) (filter f l').
Proof.
  induction 1 as [|x l l' P IH|x y l|l l' l'' P1 IH1 P2 IH2]; cbn [filter]; auto.
  - destruct (f x); auto.
  - destruct (f x), (f y); auto. apply perm_swap.
  - now transitivity (filter f l').
Qed.

Lemma alike_refs refs code n m sub loc : Forall ref_wf refs -> (forall i j, ~ repeated refs i j) -> spelled_alike refs -> code = snd (join_locations refs) ->
  code_ref code n sub loc -> (exists r, In r refs /\ ref_name r = m) -> same_name n m -> n = m.
Proof.
  intros W NR SA -> (c & Hin & _) (r & Hr & <-) [E1 E2]. destruct (join_exact refs W NR (fun _ => [])) as (_ & _ & _ & On & _). destruct (On n c Hin) as (r' & Hr' & <-).
  rewrite Forall_forall in W. destruct (W r Hr) as [W1 _], (W r' Hr') as [W2 _].
  assert (R : n_raw (ref_name r') = n_raw (ref_name r)).
  { apply SA; auto. apply name_eqb_ci; auto. apply name_eqb_iff. unfold nk. congruence. }
  rewrite R in W2. congruence.
Qed.

Lemma refs_back refs refs' : Permutation refs refs' -> Forall ref_wf refs -> (forall i j, ~ repeated refs i j) ->
  forall n sub loc, code_ref (snd (join_locations refs')) n sub loc -> exists m, code_ref (snd (join_locations refs)) m sub loc /\ same_name n m.
Proof.
  intros P W NR n sub loc (c & Hin & R). pose proof (perm_repeated refs refs' W P NR) as NR'.
  assert (W' : Forall ref_wf refs') by (eapply Permutation_Forall; eauto).
  destruct (join_orders refs' refs (Permutation_sym P) (fun _ => [])) as [_ J]. destruct (J (join_lints_nil _ refs' W' NR') n c Hin) as (m & c' & Hm & E & E1 & E2 & _).
  exists m. apply name_eqb_iff in E. unfold nk in E. split; [|split; congruence]. exists c'. split; auto. destruct sub as [x|]; [|congruence]. eapply Permutation_in; eauto.
Qed.

Lemma status_cases {Q} (r : res (lints * Q + lints)) : exit_status r = 0 \/ exit_status r = 1 \/ exit_status r = 2 \/ exit_status r = 101.
Proof.
  destruct r as [[[c p]|c]| |]; cbn [exit_status check_status]; auto. destruct (negb (is_nil (ls_error c))); auto. destruct (negb (lints_empty c)); auto.
Qed.
Lemma arrived_nil path_str arts refs la lc arrived : Forall im_wf arts -> Forall ref_wf refs ->
  Permutation arrived (lc ++ la ++ collect_lints path_str arts refs) -> (arrived = [] <-> read_clean la lc arts refs).
Proof.
  intros Wa Wr P. unfold read_clean. rewrite <- (collect_nil path_str arts refs Wa Wr). split.
  - intros ->. apply Permutation_nil in P. apply app_eq_nil in P as [? P]. apply app_eq_nil in P as [? ?]. auto.
  - intros (-> & -> & E). rewrite E in P. now apply Permutation_sym, Permutation_nil in P.
Qed.

Section Loads.
  Variable path_str : path -> str.
  Variable yaml : str -> option (option str * option names_val).
  Variables parse_toml parse_json : str -> res (list (name * art_raw)).
  Variable parse_msg : path -> str -> str.
  Variable prefix : str.
  Hypothesis toml_ok : parser_ok parse_toml.
  Hypothesis json_ok : parser_ok parse_json.
  Variable M : num.
  Variable topo : graph -> option (list nat).
  Hypothesis TC : topo_ok topo.
  Variable H : Type.
  Variable hash_im : art_im -> H.
  Variable settings_path : path.
  Variable url_error : option str.
  Notation load_file := (load_file path_str yaml parse_toml parse_json parse_msg prefix).
  Notation art_items := (art_items path_str yaml parse_toml parse_json parse_msg prefix).
  Notation code_items := (code_items path_str).
  Notation finish := (finish path_str prefix M topo H hash_im settings_path url_error).
  Notation loads := (loads path_str yaml parse_toml parse_json parse_msg prefix M topo H hash_im settings_path url_error).
  Notation build := (build M topo H hash_im).

  Lemma run_all {A} w (items : list (job A + lint)) out ls : panics (jobs_of items) < w -> run_of w items out ls ->
    Permutation out (flat_map jb_out (jobs_of items)) /\ Permutation ls (lints_of items ++ flat_map jb_lints (jobs_of items)).
  Proof.
    intros L R. apply run_delivers in R as [P1 (s1 & S1 & _ & P2)]. rewrite (taken_all _ _ L) in *. rewrite (S1 L) in P2. auto.
  Qed.
  Lemma perm_flat {A B} (f : A -> list B) l l' : Permutation l l' -> Permutation (flat_map f l) (flat_map f l').
  Proof. apply Permutation_flat_map. Qed.
  Lemma run_same {A} w (items items' : list (job A + lint)) out ls out' ls' : Permutation items items' -> panics (jobs_of items) < w ->
    run_of w items out ls -> run_of w items' out' ls' -> Permutation out out' /\ Permutation ls ls'.
  Proof.
    intros P L R R'. assert (Pj : Permutation (jobs_of items) (jobs_of items')) by now apply perm_flat.
    assert (L' : panics (jobs_of items') < w).
    { unfold panics in *. rewrite <- (Permutation_length (filter_perm _ _ _ Pj)). exact L. }
    destruct (run_all w items out ls L R) as [A1 A2]. destruct (run_all w items' out' ls' L' R') as [B1 B2]. rewrite A1, A2, B1, B2. split.
    - now apply perm_flat.
    - apply Permutation_app; [now apply perm_flat|now apply perm_flat].
  Qed.

  Section Two.
    Variables (arts arts' : list art_im) (refs refs' : list src_ref) (la la' lc lc' arrived arrived' : list lint).
    Hypothesis W : Forall im_wf arts.
    Hypothesis Wr : Forall ref_wf refs.
    Hypothesis P : Permutation arts arts'.
    Hypothesis Pr : Permutation refs refs'.
    Hypothesis Pa : Permutation la la'.
    Hypothesis Pc : Permutation lc lc'.
    Hypothesis Ea : Forall (fun x => is_error x = true) arrived.
    Hypothesis Ea' : Forall (fun x => is_error x = true) arrived'.
    Hypothesis A : Permutation arrived (lc ++ la ++ collect_lints path_str arts refs).
    Hypothesis A' : Permutation arrived' (lc' ++ la' ++ collect_lints path_str arts' refs').

    Lemma clean_same : read_clean la lc arts refs <-> read_clean la' lc' arts' refs'.
    Proof.
      assert (Wr' : Forall ref_wf refs') by (eapply Permutation_Forall; eauto). unfold read_clean. split; intros (E1 & E2 & D & N).
      - rewrite E1 in Pa. rewrite E2 in Pc. apply Permutation_nil in Pa. apply Permutation_nil in Pc. split; auto. split; auto. split; [exact (perm_distinct arts arts' D P)|].
        apply (perm_repeated refs refs'); auto.
      - rewrite E1 in Pa. rewrite E2 in Pc. apply Permutation_sym in Pa. apply Permutation_sym in Pc. apply Permutation_nil in Pa. apply Permutation_nil in Pc.
        split; auto. split; auto. split; [exact (perm_distinct arts' arts D (Permutation_sym P))|]. apply (perm_repeated refs' refs); auto using Permutation_sym.
    Qed.

    Lemma entries_ok out out' : distinct arts -> (forall i j, ~ repeated refs i j) ->
      build arts (snd (join_locations refs)) = Ok out -> build arts' (snd (join_locations refs')) = Ok out' ->
      entries_same out out' /\ entries_same out' out.
    Proof.
      intros D N B B'. assert (Wr' : Forall ref_wf refs') by (eapply Permutation_Forall; eauto).
      assert (W' : Forall im_wf arts') by (eapply Permutation_Forall; eauto). split.
      - exact (build_perm M topo H hash_im TC arts arts' _ _ out out' W D P (join_get refs refs' Pr Wr N) B B').
      - exact (build_perm M topo H hash_im TC arts' arts _ _ out' out W' (perm_distinct arts arts' D P) (Permutation_sym P)
          (join_get refs' refs (Permutation_sym Pr) Wr' (perm_repeated refs refs' Wr Pr N)) B' B).
    Qed.

    Lemma status_same : exit_status (finish arrived arts refs) = exit_status (finish arrived' arts' refs').
    Proof.
      assert (Wr' : Forall ref_wf refs') by (eapply Permutation_Forall; eauto).
      assert (W' : Forall im_wf arts') by (eapply Permutation_Forall; eauto).
      destruct (finish_exact path_str prefix M topo TC H hash_im settings_path url_error arts refs la lc arrived W Wr Ea A) as (out & B & E0 & E2 & E1 & E3).
      destruct (finish_exact path_str prefix M topo TC H hash_im settings_path url_error arts' refs' la' lc' arrived' W' Wr' Ea' A') as (out' & B' & F0 & F2 & F1 & F3).
      pose proof clean_same as CS.
      assert (T : read_clean la lc arts refs -> (longs_in_text out <-> longs_in_text out') /\ (arts_sound out prefix <-> arts_sound out' prefix) /\ (texts_resolve out <-> texts_resolve out') /\
                  (code_resolves out (snd (join_locations refs)) <-> code_resolves out' (snd (join_locations refs')))).
      { intros (_ & _ & D & N). destruct (entries_ok out out' D N B B') as [S1 S2].
        pose proof (perm_repeated refs refs' Wr Pr N) as N'.
        split; [split; [apply (tr_longs out out' S1)|apply (tr_longs out' out S2)]|].
        split; [split; [apply (tr_sound out out' S1 S2)|apply (tr_sound out' out S2 S1)]|].
        split; [split; [apply (tr_texts out out' S1 S2)|apply (tr_texts out' out S2 S1)]|].
        split; [apply (tr_code out out' S1); apply (refs_back refs refs' Pr Wr N)|apply (tr_code out' out S2); apply (refs_back refs' refs (Permutation_sym Pr) Wr' N')]. }
      revert E0 E1 E2 E3 F0 F1 F2 F3 T CS. clear. 
      generalize (status_cases (finish arrived arts refs)).
      generalize (exit_status (finish arrived arts refs)) (exit_status (finish arrived' arts' refs')).
      generalize (read_clean la lc arts refs) (read_clean la' lc' arts' refs') (longs_in_text out) (longs_in_text out') (arts_sound out prefix) (arts_sound out' prefix)
        (texts_resolve out) (texts_resolve out') (code_resolves out (snd (join_locations refs))) (code_resolves out' (snd (join_locations refs'))) (url_error = None).
      intros P P0 P1 P2 P3 P4 P5 P6 P7 P8 P9 n n0 [C|[C|[C|C]]] E0 E1 E2 E3 F0 F1 F2 F3 T CS; subst n; symmetry.
      - apply F0. pose proof (proj1 E0 eq_refl). tauto.
      - apply F1. pose proof (proj1 E1 eq_refl). tauto.
      - apply F2. pose proof (proj1 E2 eq_refl). tauto.
      - apply F3. pose proof (proj1 E3 eq_refl). tauto.
    Qed.

    (** The outcome, with its kind. *)
    Lemma finish_kinds : match finish arrived arts refs, finish arrived' arts' refs' with
      | Ok (inl (c, p)), Ok (inl (c', p')) => project_same p p' /\ (spelled_alike refs -> c = c') /\
          ((forall out out' n x x', build arts (snd (join_locations refs)) = Ok out -> build arts' (snd (join_locations refs')) = Ok out' ->
             distinct arts -> (forall i j, ~ repeated refs i j) ->
             In (n, x) out -> In (n, x') out' -> a_completed x = a_completed x') -> completions_same p p')
      | Ok (inr c), Ok (inr c') => distinct arts -> (forall i j, ~ repeated refs i j) -> c = c'
      | Panic, Panic => True
      | _, _ => False
      end.
    Proof.
      assert (Wr' : Forall ref_wf refs') by (eapply Permutation_Forall; eauto).
      assert (W' : Forall im_wf arts') by (eapply Permutation_Forall; eauto).
      assert (CE : ls_error (categorize no_lints arrived) = arrived) by (rewrite categorize_ok; cbn [ls_error no_lints app]; now apply filter_all).
      assert (CE' : ls_error (categorize no_lints arrived') = arrived') by (rewrite categorize_ok; cbn [ls_error no_lints app]; now apply filter_all).
      pose proof clean_same as CS.
      assert (RC : arrived = [] <-> read_clean la lc arts refs) by (eapply arrived_nil; eauto).
      assert (RC' : arrived' = [] <-> read_clean la' lc' arts' refs') by (eapply arrived_nil; eauto).
      unfold Load.finish. rewrite CE, CE'. destruct (nil_dec arrived) as [E0|N0].
      2: { assert (N0' : arrived' <> []) by (rewrite RC', <- CS, <- RC; exact N0).
           replace (negb (is_nil arrived)) with true by (destruct arrived; [congruence|reflexivity]).
           replace (negb (is_nil arrived')) with true by (destruct arrived'; [congruence|reflexivity]).
           intros D N. apply sort_lints_same. intros x.
           rewrite (proj2 (collect_nil path_str arts refs W Wr) (conj D N)) in A.
           rewrite (proj2 (collect_nil path_str arts' refs' W' Wr') (conj (perm_distinct arts arts' D P) (perm_repeated refs refs' Wr Pr N))) in A'.
           assert (Q : Permutation arrived arrived') by (rewrite A, A', !app_nil_r, Pa, Pc; reflexivity).
           split; apply Permutation_in; auto using Permutation_sym. }
      pose proof (proj1 RC E0) as Cl. pose proof (proj1 CS Cl) as Cl'. rewrite E0, (proj2 RC' Cl'). cbn [is_nil negb].
      destruct Cl as (_ & _ & D & N), Cl' as (_ & _ & D' & N').
      destruct (build_total M topo H hash_im TC arts (snd (join_locations refs))) as (out & B & _).
      destruct (build_total M topo H hash_im TC arts' (snd (join_locations refs'))) as (out' & B' & _).
      rewrite B, B'. cbn [res_bind].
      set (p := mkProject out (snd (join_locations refs)) prefix settings_path url_error).
      set (p' := mkProject out' (snd (join_locations refs')) prefix settings_path url_error).
      destruct (entries_ok out out' D N B B') as [S1 S2].
      destruct (built_refs_panic M topo H hash_im TC arts _ out W D B path_str p eq_refl) as [PP NE]. fold (longs_in_text out) in PP.
      destruct (built_refs_panic M topo H hash_im TC arts' _ out' W' D' B' path_str p' eq_refl) as [PP' NE']. fold (longs_in_text out') in PP'.
      assert (TL : longs_in_text out <-> longs_in_text out') by (split; [apply (tr_longs out out' S1)|apply (tr_longs out' out S2)]).
      unfold lint_project, lint_other.
      destruct (lint_text_refs path_str p) as [l| |] eqn:ET; [|congruence|].
      2: { assert (X : lint_text_refs path_str p' = Panic) by (apply PP', TL, PP; reflexivity). rewrite X. exact I. }
      destruct (lint_text_refs path_str p') as [l'| |] eqn:ET'; [|congruence|].
      2: { assert (X : Ok l = @Panic (list lint)) by (apply PP, TL, PP'; reflexivity). discriminate X. }
      cbn [res_bind]. split; [|split].
      - exact (projects_same M topo H hash_im TC arts arts' refs refs' W D P Wr N Pr out out' B B' prefix settings_path url_error).
      - intros SA.
        assert (SA' : spelled_alike refs').
        { intros r r' Hr Hr'. apply SA; apply (Permutation_in _ (Permutation_sym Pr)); auto. }
        assert (C1 : forall n sub loc, code_ref (snd (join_locations refs)) n sub loc -> code_ref (snd (join_locations refs')) n sub loc).
        { intros n sub loc R. destruct (refs_back refs' refs (Permutation_sym Pr) Wr' N' n sub loc R) as (m & R' & E).
          replace n with m; auto. symmetry. eapply (alike_refs refs _ n m); eauto. destruct R' as (c & Hm & _).
          destruct (join_exact refs' Wr' N' (fun _ => [])) as (_ & _ & _ & On & _). destruct (On m c Hm) as (r & Hr & En). exists r. split; auto. apply (Permutation_in _ (Permutation_sym Pr)); auto. }
        assert (C2 : forall n sub loc, code_ref (snd (join_locations refs')) n sub loc -> code_ref (snd (join_locations refs)) n sub loc).
        { intros n sub loc R. destruct (refs_back refs refs' Pr Wr N n sub loc R) as (m & R' & E).
          replace n with m; auto. symmetry. eapply (alike_refs refs' _ n m); eauto. destruct R' as (c & Hm & _).
          destruct (join_exact refs Wr N (fun _ => [])) as (_ & _ & _ & On & _). destruct (On m c Hm) as (r & Hr & En). exists r. split; auto. apply (Permutation_in _ Pr); auto. }
        apply sort_lints_same. intros w. rewrite !in_app_iff.
        pose proof (built_refs M topo H hash_im TC arts _ out W D B path_str p eq_refl l ET w) as BR.
        pose proof (built_refs M topo H hash_im TC arts' _ out' W' D' B' path_str p' eq_refl l' ET' w) as BR'.
        pose proof (built_code M topo H hash_im TC arts _ out W D (code_wf path_str refs Wr N) B path_str p eq_refl eq_refl w) as BC.
        pose proof (built_code M topo H hash_im TC arts' _ out' W' D' (code_wf path_str refs' Wr' N') B' path_str p' eq_refl eq_refl w) as BC'.
        assert (X1 : In w (lint_errors path_str p) <-> In w (lint_errors path_str p')).
        { split; [apply (tr_errors out out' S1 S2 path_str p p' eq_refl eq_refl eq_refl)|apply (tr_errors out' out S2 S1 path_str p' p eq_refl eq_refl eq_refl)]. }
        assert (X2 : In w l <-> In w l').
        { rewrite BR, BR'. split; intros (n & a & x & y & Hin & R & Dg & ->).
          - destruct (S1 n a Hin) as (a' & Ha' & S). exists n, a', x, y. pose proof S as (_ & _ & Ef & _ & _ & Et & _). rewrite <- Et. split; auto. split; auto. split; [apply (tr_dangling out out' S2); auto|].
            unfold ref_lint. now rewrite Ef.
          - destruct (S2 n a Hin) as (a' & Ha' & S). exists n, a', x, y. pose proof S as (_ & _ & Ef & _ & _ & Et & _). rewrite <- Et. split; auto. split; auto. split; [apply (tr_dangling out' out S1); auto|].
            unfold ref_lint. now rewrite Ef. }
        assert (X3 : In w (lint_code_impls path_str p) <-> In w (lint_code_impls path_str p')).
        { rewrite BC, BC'. split; intros (n & sub & loc & msg & R & X & ->); exists n, sub, loc, msg; (split; [auto|split; [|auto]]).
          - apply (tr_reason out out' S1 S2 p p' eq_refl eq_refl n sub msg X).
          - apply (tr_reason out' out S2 S1 p' p eq_refl eq_refl n sub msg X). }
        change (lint_settings path_str p') with (lint_settings path_str p). tauto.
      - intros Cs. unfold completions_same, p, p'. cbn [project_sort pr_arts].
        apply (completions_sorted M topo H hash_im TC arts arts' refs refs' W D P Wr N Pr out out' B B').
        intros n x x' Hx Hx'. eapply Cs; eauto.
    Qed.
  End Two.

  Notation file_arts := (file_arts load_file).
  Lemma arts_run n afs arts la : killers load_file afs < n -> run_of n (art_items afs) arts la -> Permutation arts (file_arts afs).
  Proof.
    intros L R. rewrite <- killers_panics in L. destruct (run_all n _ arts la L R) as [P _]. rewrite P. unfold SpecLoad.file_arts, jobs_of, Load.art_items.
    clear. induction afs as [|[f|x] l IH]; cbn [map flat_map app]; auto. apply Permutation_app; auto.
  Qed.
  Lemma refs_run cfs refs lc : killers (load_locations path_str) cfs < 4 -> run_of 4 (code_items cfs) refs lc -> Permutation refs (file_refs path_str cfs).
  Proof.
    intros L R. rewrite <- killers_panics in L. destruct (run_all 4 _ refs lc L R) as [P _]. rewrite P. unfold file_refs, jobs_of, Load.code_items.
    clear. induction cfs as [|[f|x] l IH]; cbn [map flat_map app]; auto. apply Permutation_app; auto.
  Qed.

  Notation agree r r' afs cfs := (agree (file_arts afs) (file_refs path_str cfs) r r').
  Theorem loads_agree n afs afs' cfs cfs' r r' : Permutation afs afs' -> Permutation cfs cfs' -> walk_lints_ok afs -> walk_lints_ok cfs ->
    killers load_file afs < n -> killers (load_locations path_str) cfs < 4 -> loads n afs cfs r -> loads n afs' cfs' r' ->
    exit_status r = exit_status r' /\ agree r r' afs cfs /\
    ((forall arts arts' code code' out out' n x x', Forall im_wf arts -> distinct arts -> Permutation arts arts' -> codes_same code code' -> build arts code = Ok out -> build arts' code' = Ok out' ->
        In (n, x) out -> In (n, x') out' -> a_completed x = a_completed x') ->
     match r, r' with Ok (inl (_, p)), Ok (inl (_, p')) => completions_same p p' | _, _ => True end).
  Proof.
    intros Pf Pg WA WC K K' (arts & refs & la & lc & arrived & Ra & Rc & P & ->) (arts' & refs' & la' & lc' & arrived' & Ra' & Rc' & P' & ->).
    pose proof (run_arts_wf path_str yaml parse_toml parse_json parse_msg prefix toml_ok json_ok n afs arts la Ra) as Wa.
    pose proof (run_refs_wf path_str 4 cfs refs lc Rc) as Wr.
    assert (WA' : walk_lints_ok afs') by (intros x Hx; apply WA; apply (Permutation_in _ (Permutation_sym Pf)); auto).
    assert (WC' : walk_lints_ok cfs') by (intros x Hx; apply WC; apply (Permutation_in _ (Permutation_sym Pg)); auto).
    assert (AE : Forall (fun x => is_error x = true) arrived).
    { eapply Permutation_Forall; [apply Permutation_sym; exact P|]. apply Forall_app. split; [eapply (ref_lints_error _ 4 cfs refs lc WC); eauto|].
      apply Forall_app. split; [eapply (art_lints_error _ _ _ _ _ _ n afs arts la WA); eauto|apply collect_error]. }
    assert (AE' : Forall (fun x => is_error x = true) arrived').
    { eapply Permutation_Forall; [apply Permutation_sym; exact P'|]. apply Forall_app. split; [eapply (ref_lints_error _ 4 cfs' refs' lc' WC'); eauto|].
      apply Forall_app. split; [eapply (art_lints_error _ _ _ _ _ _ n afs' arts' la' WA'); eauto|apply collect_error]. }
    destruct (run_same n (art_items afs) (art_items afs') arts la arts' la') as [Q1 Q2]; auto; [now apply Permutation_map|unfold Load.art_items; now rewrite killers_panics|].
    destruct (run_same 4 (code_items cfs) (code_items cfs') refs lc refs' lc') as [Q3 Q4]; auto; [now apply Permutation_map|unfold Load.code_items; now rewrite killers_panics|].
    pose proof (arts_run n afs arts la K Ra) as F1. pose proof (refs_run cfs refs lc K' Rc) as F2.
    split; [eapply (status_same arts arts' refs refs' la la' lc lc'); eauto|].
    pose proof (finish_kinds arts arts' refs refs' la la' lc lc' arrived arrived' Wa Wr Q1 Q3 Q2 Q4 AE AE' P P') as FK.
    unfold SpecLoad.agree. destruct (finish arrived arts refs) as [[[c p]|c]| |], (finish arrived' arts' refs') as [[[c' p']|c']| |]; try contradiction.
    - destruct FK as (PS & SC & CC). split; [split; auto|].
      + intros SA. apply SC. intros r r' Hr Hr'. apply SA; apply (Permutation_in _ F2); auto.
      + intros Cs. apply CC. intros out out' m x x' B B' D N Hx Hx'. eapply (Cs arts arts' _ _ out out'); eauto. exact (join_get refs refs' Q3 Wr N).
    - split; auto. intros D N. apply FK; [exact (perm_distinct _ _ D (Permutation_sym F1))|].
      assert (Wf : Forall ref_wf (file_refs path_str cfs)) by (eapply Permutation_Forall; eauto).
      apply (perm_repeated _ refs Wf (Permutation_sym F2) N).
    - auto.
  Qed.
  (** ** What four panics hide *)
  Lemma run_cut {A} w (ks : list (job A)) k rest out ls out' ls' : panics ks + 1 = w -> jb_panic k = true ->
    run_of w (map inl (ks ++ k :: rest)) out ls -> run_of w (map inl (ks ++ [k])) out' ls' -> Permutation out out' /\ Permutation ls ls'.
  Proof.
    intros E Pk R R'.
    assert (J : forall l : list (job A), jobs_of (map inl l) = l /\ lints_of (map inl l) = []).
    { induction l as [|x l [I1 I2]]; auto. unfold jobs_of, lints_of in *. cbn [map flat_map app]. now rewrite I1, I2. }
    assert (T : taken w (ks ++ [k]) = ks ++ [k]) by (apply (taken_snoc 1 (le_n 1)); [apply taken_all|]; lia).
    assert (T' : taken w (ks ++ k :: rest) = ks ++ [k]).
    { replace (ks ++ k :: rest) with ((ks ++ [k]) ++ rest) by now rewrite <- app_assoc. rewrite taken_app by exact T. rewrite panics_app. unfold panics at 2. cbn [filter length].
      rewrite Pk. cbn [length]. replace (w - (panics ks + 1)) with 0 by lia. now rewrite taken_zero, app_nil_r. }
    assert (L : forall l seen unseen, map inl l = seen ++ unseen -> lints_of (seen : list (job A + lint)) = []).
    { intros l seen unseen Es. pose proof (proj2 (J l)) as Z. rewrite Es in Z. unfold lints_of in *. rewrite flat_map_app in Z. now apply app_eq_nil in Z as [Z _]. }
    apply run_delivers in R as [P1 (s1 & _ & (u1 & S1) & P2)]. apply run_delivers in R' as [P1' (s2 & _ & (u2 & S2) & P2')].
    rewrite (proj1 (J (ks ++ k :: rest))), T' in P1, P2. rewrite (proj1 (J (ks ++ [k]))), T in P1', P2'. rewrite (L _ _ _ S1) in P2. rewrite (L _ _ _ S2) in P2'. rewrite P1, P2, P1', P2'. auto.
  Qed.
  Lemma files_ok {B} (l : list B) : walk_lints_ok (map inl l).
  Proof. intros x Hx. apply in_map_iff in Hx as (y & E & _). discriminate E. Qed.
  Theorem loads_cut n afs ks k rest r r' : walk_lints_ok afs -> killers load_file afs < n ->
    killers (load_locations path_str) (map inl ks) = 3 -> jb_panic (load_locations path_str k) = true ->
    loads n afs (map inl (ks ++ k :: rest)) r -> loads n afs (map inl (ks ++ [k])) r' ->
    exit_status r = exit_status r' /\
    match r, r' with
    | Ok (inl (c, p)), Ok (inl (c', p')) => project_same p p'
    | Ok (inr c), Ok (inr c') => True
    | Panic, Panic => True
    | _, _ => False
    end.
  Proof.
    intros WA K Kk Pk (arts & refs & la & lc & arrived & Ra & Rc & P & ->) (arts' & refs' & la' & lc' & arrived' & Ra' & Rc' & P' & ->).
    pose proof (run_arts_wf path_str yaml parse_toml parse_json parse_msg prefix toml_ok json_ok n afs arts la Ra) as Wa.
    pose proof (run_refs_wf path_str 4 _ refs lc Rc) as Wr.
    assert (AE : Forall (fun x => is_error x = true) arrived).
    { eapply Permutation_Forall; [apply Permutation_sym; exact P|]. apply Forall_app. split; [eapply (ref_lints_error _ 4 _ refs lc (files_ok _)); eauto|].
      apply Forall_app. split; [eapply (art_lints_error _ _ _ _ _ _ n afs arts la WA); eauto|apply collect_error]. }
    assert (AE' : Forall (fun x => is_error x = true) arrived').
    { eapply Permutation_Forall; [apply Permutation_sym; exact P'|]. apply Forall_app. split; [eapply (ref_lints_error _ 4 _ refs' lc' (files_ok _)); eauto|].
      apply Forall_app. split; [eapply (art_lints_error _ _ _ _ _ _ n afs arts' la' WA); eauto|apply collect_error]. }
    destruct (run_same n (art_items afs) (art_items afs) arts la arts' la') as [Q1 Q2]; auto; [unfold Load.art_items; now rewrite killers_panics|].
    assert (CI : forall l, code_items (map inl l) = map inl (map (load_locations path_str) l)) by (intros l; unfold Load.code_items; now rewrite !map_map).
    rewrite CI, map_app in Rc, Rc'. cbn [map] in Rc, Rc'.
    destruct (run_cut 4 (map (load_locations path_str) ks) (load_locations path_str k) (map (load_locations path_str) rest) refs lc refs' lc') as [Q3 Q4]; auto.
    { rewrite <- killers_panics in Kk. rewrite map_map in Kk. unfold jobs_of in Kk. revert Kk. generalize (load_locations path_str). clear. intros f E.
      replace (flat_map (fun i => match i with inl j => [j] | inr _ => [] end) (map (fun x => inl (f x)) ks)) with (map f ks) in E; [lia|].
      clear. induction ks as [|x ks IH]; auto. cbn [map flat_map app]. now rewrite <- IH. }
    split; [eapply (status_same arts arts' refs refs' la la' lc lc'); eauto|].
    pose proof (finish_kinds arts arts' refs refs' la la' lc lc' arrived arrived' Wa Wr Q1 Q3 Q2 Q4 AE AE' P P') as FK.
    destruct (finish arrived arts refs) as [[[c p]|c]| |], (finish arrived' arts' refs') as [[[c' p']|c']| |]; try contradiction; auto. apply FK.
  Qed.
End Loads.

Theorem loads_exact path_str yaml parse_toml parse_json parse_msg prefix topo H hash_im settings_path url_error :
  parser_ok parse_toml -> parser_ok parse_json -> topo_ok topo ->
  forall n afs afs' cfs cfs' r r', Permutation afs afs' -> Permutation cfs cfs' -> walk_lints_ok afs -> walk_lints_ok cfs ->
  killers (load_file path_str yaml parse_toml parse_json parse_msg prefix) afs < n -> killers (load_locations path_str) cfs < 4 ->
  loads path_str yaml parse_toml parse_json parse_msg prefix exact_num topo H hash_im settings_path url_error n afs cfs r ->
  loads path_str yaml parse_toml parse_json parse_msg prefix exact_num topo H hash_im settings_path url_error n afs' cfs' r' ->
  match r, r' with Ok (inl (_, p)), Ok (inl (_, p')) => completions_same p p' | _, _ => True end.
Proof.
  intros TO JO TC n afs afs' cfs cfs' r r' Pf Pg WA WC K K' L L'.
  destruct (loads_agree path_str yaml parse_toml parse_json parse_msg prefix TO JO exact_num topo TC H hash_im settings_path url_error n afs afs' cfs cfs' r r' Pf Pg WA WC K K' L L') as (_ & _ & C).
  apply C. intros arts arts' code code' out out' m x x' W D P Cs B B' Hx Hx'. eapply (completed_same topo H hash_im arts arts' code code' out out'); eauto.
Qed.
