(** Facts on loading a disk on which a project was saved. *)
From Coq Require Import Lia Permutation.
From Verif Require Import Base BaseFacts Regex Name SpecName NameFacts RawNames Artifact Stored SpecGraph GraphFacts SpecLinks BuildFacts LinkFacts ProjectFacts
  Markdown SpecMarkdown MarkdownFacts Lint SpecLint LintFacts LintThms Source SpecJoin JoinFacts JoinThms Pool PoolFacts Load LoadFacts SpecLoad DeterFacts CheckFacts ReadThms
  Disk DiskFacts Walk SpecWalk WalkFacts Modify SpecModify SpecReload OpFacts PureFacts PhaseFacts RunFacts ResultFacts ReloadFacts DiskRunFacts PropFmt SpecAgain.
Open Scope nat_scope.

Section Again.
  Variable path_str : path -> str.
  Variable yaml : str -> option (option str * option names_val).
  Variables parse_toml parse_json : str -> res (list (name * art_raw)).
  Variable parse_msg : path -> str -> str.
  Variable prefix : str.
  Hypothesis TO : parser_ok parse_toml.
  Hypothesis JO : parser_ok parse_json.
  Variable M : num.
  Variable topo : graph -> option (list nat).
  Hypothesis TC : topo_ok topo.
  Variable H : Type.
  Variable hash_im : art_im -> H.
  Variable settings_path : path.
  Variable url_error : option str.
  Notation art_items := (art_items path_str yaml parse_toml parse_json parse_msg prefix).
  Notation code_items := (code_items path_str).
  Notation finish := (finish path_str prefix M topo H hash_im settings_path url_error).
  Notation loads := (loads path_str yaml parse_toml parse_json parse_msg prefix M topo H hash_im settings_path url_error).
  Notation build := (build M topo H hash_im).
  Notation load_file := (load_file path_str yaml parse_toml parse_json parse_msg prefix).

  Lemma sound_perm arts arts' code code' out out' : Forall im_wf arts -> distinct arts -> Permutation arts arts' ->
    build arts code = Ok out -> build arts' code' = Ok out' -> arts_sound out prefix -> arts_sound out' prefix.
  Proof.
    intros W D P B B' So n a' I.
    assert (W' : Forall im_wf arts') by (eapply Permutation_Forall; eauto). pose proof (perm_distinct arts arts' D P) as D'.
    destruct (build_entry M topo H hash_im TC arts code out W D B) as (gs & comp & _ & _ & Eo).
    destruct (build_entry M topo H hash_im TC arts' code' out' W' D' B') as (gs' & comp' & _ & _ & Eo').
    rewrite Eo' in I. apply in_map_iff in I as (im & E & Im). injection E as <- <-.
    pose proof (Permutation_in _ (Permutation_sym P) Im) as Im0.
    assert (I : In (im_name im, built M H hash_im (map (fun a => (im_name a, im_clean a)) arts) code gs comp (im_name im, im_clean im)) out).
    { rewrite Eo. apply in_map_iff. exists im. auto. }
    destruct (So _ _ I) as (S1 & S2 & S3). cbn [built a_partof a_impl a_subnames a_text snd fst] in *. split; [|split].
    - intros q Hq. rewrite (partof_known (map (fun a => (im_name a, im_clean a)) arts') (map (fun a => (im_name a, im_clean a)) arts)) in Hq.
      + destruct (S1 q Hq) as [(m & b & Ib & Tb & Kb) R]. split; auto. rewrite Eo in Ib. apply in_map_iff in Ib as (im2 & E2 & Im2). injection E2 as E2 _.
        exists m. eexists. split; [|split; [exact Tb|exact Kb]]. rewrite Eo'. apply in_map_iff. exists im2. split; [f_equal; exact E2|]. now apply (Permutation_in _ P).
      + intros k. rewrite !map_map. cbn [fst]. split; apply Permutation_in, Permutation_map; [now apply Permutation_sym|exact P].
    - intros (d & Ed). apply S2. unfold impl_of in *. cbn [snd fst] in *. destruct (im_done (im_clean im)) as [x|]; [eauto|]. destruct (im_get name_eqb (im_name im) code'); discriminate Ed.
    - exact S3.
  Qed.
  Lemma longs_built arts code out : Forall im_wf arts -> distinct arts -> build arts code = Ok out -> (forall a, In a arts -> im_clean a = a) ->
    longs_in_text out <-> longs_stored arts.
  Proof.
    intros W D B C. destruct (build_entry M topo H hash_im TC arts code out W D B) as (gs & comp & _ & _ & ->). split.
    - intros (n & a & x & y & I & R & L). apply in_map_iff in I as (im & E & Im). injection E as _ <-. cbn [built a_text snd] in R. rewrite (C im Im) in R. exists im, x, y. auto.
    - intros (im & x & y & Im & R & L). eexists _, _, x, y. split; [apply in_map_iff; exists im; split; [reflexivity|exact Im]|]. split; [|exact L]. cbn [built a_text snd]. now rewrite (C im Im).
  Qed.

  Lemma finish_clean arts refs : Forall im_wf arts -> distinct arts -> (forall a, In a arts -> im_clean a = a) ->
    (longs_stored arts /\ finish [] arts refs = Panic) \/
    (~ longs_stored arts /\ exists c p, finish [] arts refs = Ok (inl (c, p)) /\ Permutation (stored_form p) arts).
  Proof.
    intros W D C. destruct (build_total M topo H hash_im TC arts (snd (join_locations refs))) as (out & B & _).
    pose proof (longs_built arts _ out W D B C) as LB.
    unfold Load.finish. rewrite categorize_ok. cbn [ls_error no_lints app filter is_nil negb]. rewrite B. cbn [res_bind].
    set (p := mkProject out (snd (join_locations refs)) prefix settings_path url_error).
    destruct (built_refs_panic M topo H hash_im TC arts _ out W D B path_str p eq_refl) as [PP NE]. fold (longs_in_text out) in PP. rewrite LB in PP.
    unfold lint_project, lint_other. destruct (lint_text_refs path_str p) as [l| |] eqn:ET.
    - right. split; [intros X; apply PP in X; discriminate X|]. cbn [res_bind]. eexists _, _. split; [reflexivity|].
      destruct (sorted_ok M topo TC H hash_im arts (snd (join_locations refs)) out prefix settings_path url_error W D B) as [_ X]. fold p in X.
      rewrite (map_ext_in im_clean (fun a => a)) in X by exact C. rewrite map_id in X. exact X.
    - congruence.
    - left. split; [now apply PP|reflexivity].
  Qed.
  (** What a load of clean artifact files gives. *)
  Theorem clean_loads n fs cfs r A : Forall im_wf A -> distinct A -> (forall a, In a A -> im_clean a = a) ->
    Forall (fun f => jb_lints (load_file f) = [] /\ jb_panic (load_file f) = false) fs -> Permutation (file_arts load_file (map inl fs)) A ->
    0 < n -> walk_lints_ok cfs -> loads n (map inl fs) cfs r ->
    (* the sources cannot be read *)
    ((exists c, r = Ok (inr c)) /\ ~ sources_clean path_str cfs) \/
    (longs_stored A /\ r = Panic) \/
    (~ longs_stored A /\ exists c p, r = Ok (inl (c, p)) /\ Permutation (stored_form p) A /\
       forall out code, url_error = None -> build A code = Ok out -> arts_sound out prefix -> exit_status r = 0 \/ exit_status r = 2).
  Proof.
    intros Wf D C Fl P N0 Wc (arts & refs & la & lc & arrived & Ra & Rc & Pa & ->).
    assert (K : killers load_file (map inl fs) < n).
    { assert (X : killers load_file (map inl fs) = 0); [|lia]. clear -Fl. unfold killers. induction Fl as [|f fs [_ Hp] _ IH]; auto. cbn [map filter]. now rewrite Hp. }
    pose proof (arts_run path_str yaml parse_toml parse_json parse_msg prefix n _ arts la K Ra) as Q. rewrite P in Q. clear P.
    assert (El : la = []).
    { rewrite <- killers_panics in K. destruct (run_all n (art_items (map inl fs)) arts la K Ra) as [_ X]. apply Permutation_nil, Permutation_sym. rewrite X.
      enough (Y : lints_of (art_items (map inl fs)) ++ flat_map jb_lints (jobs_of (art_items (map inl fs))) = []) by now rewrite Y. clear -Fl. rewrite jobs_art. unfold Load.art_items.
      induction Fl as [|f fs [Hl _] _ IH]; auto. cbn [map flat_map lints_of app]. rewrite Hl. cbn [app]. exact IH. }
    subst la. cbn [app] in Pa.
    assert (Wa : Forall im_wf arts) by (eapply Permutation_Forall; [apply Permutation_sym, Q|exact Wf]).
    assert (Da : distinct arts) by (apply (perm_distinct A arts D), Permutation_sym, Q).
    assert (Ca : forall a, In a arts -> im_clean a = a) by (intros a Ha; apply C; now apply (Permutation_in _ Q)).
    pose proof (run_refs_wf path_str 4 cfs refs lc Rc) as Wr.
    assert (LA : longs_stored arts <-> longs_stored A).
    { split; intros (a & x & y & I & R); exists a, x, y; (split; [|exact R]); [apply (Permutation_in _ Q)|apply (Permutation_in _ (Permutation_sym Q))]; exact I. }
    assert (AE : Forall (fun x => is_error x = true) arrived).
    { eapply Permutation_Forall; [apply Permutation_sym; exact Pa|]. apply Forall_app. split; [eapply ref_lints_error; eauto|apply collect_error]. }
    destruct (nil_dec arrived) as [E0|Ne].
    - right. pose proof (finish_exact path_str prefix M topo TC H hash_im settings_path url_error arts refs [] lc arrived Wa Wr AE Pa) as (out & B & X0 & X2 & X1 & X101).
      subst arrived. destruct (finish_clean arts refs Wa Da Ca) as [[L F]|[L (c & p & F & Pp)]]; [left; split; [now apply LA|exact F]|].
      right. split; [now rewrite <- LA|]. exists c, p. split; [exact F|]. split; [now rewrite Pp|].
      intros out0 code Ue B0 So. assert (S1 : arts_sound out prefix) by (exact (sound_perm A arts code _ out0 out Wf D (Permutation_sym Q) B0 B So)).
      assert (RC : read_clean [] lc arts refs).
      { apply Permutation_nil in Pa. apply app_eq_nil in Pa as [-> Y]. split; auto. split; auto. apply (collect_nil path_str arts refs Wa Wr). exact Y. }
      destruct (status_cases (finish [] arts refs)) as [S|[S|[S|S]]]; auto.
      + apply X1 in S as [S|(_ & _ & S)]; [contradiction|]. exfalso. apply S. auto.
      + apply X101 in S as [_ S]. exfalso. apply L. apply (longs_built arts _ out Wa Da B Ca). exact S.
    - left. split.
      + unfold Load.finish. assert (CE : ls_error (categorize no_lints arrived) = arrived) by (rewrite categorize_ok; cbn [ls_error no_lints app]; now apply filter_all).
        rewrite CE. destruct arrived; [congruence|]. cbn [is_nil negb]. eauto.
      + intros (S1 & S2 & S3). apply Ne. apply Permutation_nil, Permutation_sym. rewrite Pa.
        assert (Kc : killers (load_locations path_str) cfs < 4).
        { assert (X : killers (load_locations path_str) cfs = 0); [|lia]. clear -S1 S2. unfold killers. induction cfs as [|[f|x] l IH]; cbn [filter length]; auto.
          - destruct (S2 f (or_introl eq_refl)) as [_ ->]. apply IH; intros; [intros Z; apply (S1 x); now right|apply S2; now right].
          - destruct (S1 x). now left. }
        pose proof (refs_run path_str cfs refs lc Kc Rc) as Qr.
        assert (El : lc = []).
        { rewrite <- killers_panics in Kc. destruct (run_all 4 (code_items cfs) refs lc Kc Rc) as [_ X]. apply Permutation_nil, Permutation_sym. rewrite X.
          enough (Y : lints_of (code_items cfs) ++ flat_map jb_lints (jobs_of (code_items cfs)) = []) by now rewrite Y. clear -S1 S2. rewrite jobs_code. unfold Load.code_items.
          induction cfs as [|[f|x] l IH]; auto; [|destruct (S1 x); now left]. cbn [map flat_map lints_of app]. rewrite (proj1 (S2 f (or_introl eq_refl))). cbn [app].
          apply IH; intros; [intros Z; apply (S1 x); now right|apply S2; now right]. }
        subst lc. cbn [app]. rewrite (proj2 (collect_nil path_str arts refs Wa Wr)); auto. split; [exact Da|].
        assert (Wf2 : Forall ref_wf (file_refs path_str cfs)) by (eapply Permutation_Forall; [exact Qr|exact Wr]).
        exact (perm_repeated _ _ Wf2 (Permutation_sym Qr) S3).
  Qed.
End Again.

(** ** Loading from a disk with failures *)
(** The same disk without failures. *)
Definition calm (E : disk_errs) : disk_errs := mkErrs (fun _ => None) (fun _ => None) (fun _ => None) (e_none E).

Section Errors.
  Variable path_str : path -> str.
  Variable st : settings.
  Variable E : disk_errs.
  Variable t : node.
  Notation walkE := (walk_node (e_stat E) (e_open E)).
  Notation walk0 := (walk_node (fun _ => None) (fun _ => None)).

  Lemma walk_sub filter n : forall p, incl (fst (walkE filter p n)) (fst (walk0 filter p n)).
  Proof.
    induction n as [y|l IH] using node_ind'; intros p.
    - cbn [walk_node]. destruct (e_stat E p); [intros x []|apply incl_refl].
    - rewrite !walk_dir. destruct (e_stat E p); [intros x []|]. destruct (filter true p); [|apply incl_refl]. destruct (e_open E p); [intros x []|].
      induction l as [|[x c] l IHl]; [apply incl_refl|]. rewrite !goes_cons. pose proof (IH x c (or_introl eq_refl) (p ++ [x])) as I1.
      assert (I2 : incl (fst (goes (e_stat E) (e_open E) filter p l)) (fst (goes (fun _ => None) (fun _ => None) filter p l))) by (apply IHl; intros z k Hz; eapply IH; right; eauto).
      assert (N0 : snd (walk0 filter (p ++ [x]) c) = None) by (apply (walk_no_error (calm E)); reflexivity).
      destruct (walkE filter (p ++ [x]) c) as [fs [m|]], (walk0 filter (p ++ [x]) c) as [fs0 [m0|]]; try discriminate N0; cbn [fst] in *.
      + destruct (goes (fun _ => None) _ filter p l) as [fs' e']. cbn [fst]. intros z Hz. apply in_or_app. left. now apply I1.
      + destruct (goes (e_stat E) _ filter p l) as [fs1 e1], (goes (fun _ => None) _ filter p l) as [fs2 e2]. cbn [fst] in *. apply incl_app; [apply incl_appl|apply incl_appr]; auto.
  Qed.
  Lemma walk_done filter n : forall p, snd (walkE filter p n) = None -> walkE filter p n = walk0 filter p n.
  Proof.
    induction n as [y|l IH] using node_ind'; intros p.
    - cbn [walk_node]. destruct (e_stat E p); [discriminate|auto].
    - rewrite !walk_dir. destruct (e_stat E p); [discriminate|]. destruct (filter true p); [|auto]. destruct (e_open E p); [discriminate|].
      induction l as [|[x c] l IHl]; [auto|]. rewrite !goes_cons. pose proof (IH x c (or_introl eq_refl) (p ++ [x])) as I1.
      assert (I2 : snd (goes (e_stat E) (e_open E) filter p l) = None -> goes (e_stat E) (e_open E) filter p l = goes (fun _ => None) (fun _ => None) filter p l) by (apply IHl; intros z k Hz; eapply IH; right; eauto).
      destruct (walkE filter (p ++ [x]) c) as [fs [m|]]; [discriminate|]. rewrite <- (I1 eq_refl). destruct (goes (e_stat E) _ filter p l) as [fs1 e1]. cbn [snd] in *. intros ->. now rewrite <- (I2 eq_refl).
  Qed.

  Lemma files_sub f : In (inl f) (art_files E t path_str st) -> exists q, f = read_art E t q /\ In (inl (read_art (calm E) t q)) (art_files (calm E) t path_str st).
  Proof.
    unfold art_files, found, walk_paths. rewrite in_map_iff. intros ([q|x] & X & I); [|discriminate X]. injection X as <-. exists q. split; auto.
    apply in_map_iff. exists (inl q). split; auto. apply in_flat_map in I as (r & Hr & I). apply in_flat_map. exists r. split; auto.
    assert (S : In q (fst (walk_path (e_stat E) (e_open E) (e_none E) (art_filter (se_xarts st)) t r))).
    { destruct (walk_path (e_stat E) _ _ _ t r) as [fs e]. apply in_app_iff in I as [I|I]; [apply in_map_iff in I as (z & Z & I); injection Z as <-; exact I|]. destruct e; [destruct I as [I|[]]; discriminate I|destruct I]. }
    assert (S0 : In q (fst (walk_path (fun _ => None) (fun _ => None) (e_none E) (art_filter (se_xarts st)) t r))).
    { unfold walk_path in *. destruct (lookup t r) as [[y|l]|]; [exact S|now apply walk_sub in S|exact S]. }
    destruct (walk_path (e_stat (calm E)) _ _ _ t r) as [fs e] eqn:W. cbn [calm e_stat e_open e_none] in W. rewrite W in S0. cbn [fst] in S0. apply in_or_app. left. now apply in_map.
  Qed.
  Lemma files_calm : (forall x, ~ In (inr x) (art_files E t path_str st)) -> (forall f m, In (inl f) (art_files E t path_str st) -> af_text f <> inr m) ->
    art_files E t path_str st = art_files (calm E) t path_str st.
  Proof.
    unfold art_files, found, walk_paths. generalize (se_arts st) as roots. induction roots as [|r roots IH]; intros N1 N2; auto. cbn [flat_map] in *. rewrite !map_app in *.
    rewrite IH; [|intros x I; apply (N1 x), in_or_app; now right|intros f m I; apply N2, in_or_app; now right]. f_equal.
    assert (W : walk_path (e_stat E) (e_open E) (e_none E) (art_filter (se_xarts st)) t r = walk_path (fun _ => None) (fun _ => None) (e_none E) (art_filter (se_xarts st)) t r).
    { destruct (walk_path (e_stat E) (e_open E) (e_none E) (art_filter (se_xarts st)) t r) as [fs [m|]] eqn:W0.
      - exfalso. eapply N1. apply in_or_app. left. rewrite map_app. apply in_or_app. right. left. reflexivity.
      - revert W0. unfold walk_path. destruct (lookup t r) as [[y|l]|]; auto. intros W0. rewrite <- W0. apply walk_done. now rewrite W0. }
    cbn [calm e_stat e_open e_none]. rewrite <- W. destruct (walk_path (e_stat E) _ _ _ t r) as [fs e]. rewrite !map_app, !map_map. f_equal; [|destruct e; reflexivity].
    apply map_ext_in. intros q Hq. f_equal. assert (T : forall m, af_text (read_art E t q) <> inr m).
    { intros m. apply N2. apply in_or_app. left. rewrite map_app. apply in_or_app. left. rewrite map_map. apply in_map_iff. eauto. }
    unfold read_art in *. cbn [af_text] in T. destruct (e_read E q) as [m|]; [now destruct (T m)|]. reflexivity.
  Qed.
  Lemma readable_calm : readable E -> art_files E t path_str st = art_files (calm E) t path_str st.
  Proof.
    intros (A1 & A2 & A3). unfold art_files, found, walk_paths. induction (se_arts st) as [|r roots IH]; auto. cbn [flat_map]. rewrite !map_app, IH. f_equal. clear IH.
    assert (W : walk_path (e_stat E) (e_open E) (e_none E) (art_filter (se_xarts st)) t r = walk_path (fun _ => None) (fun _ => None) (e_none E) (art_filter (se_xarts st)) t r).
    { unfold walk_path. destruct (lookup t r) as [d|]; auto. rewrite walk_done; [reflexivity|now apply walk_no_error]. }
    cbn [calm e_stat e_open e_none]. rewrite W. destruct (walk_path (fun _ => None) _ _ _ t r) as [fs e]. rewrite !map_app, !map_map. f_equal; [|destruct e; reflexivity].
    apply map_ext. intros q. unfold read_art. now rewrite A3.
  Qed.
End Errors.

Section Troubled.
  Variable path_str : path -> str.
  Variable yaml : str -> option (option str * option names_val).
  Variables parse_toml parse_json : str -> res (list (name * art_raw)).
  Variable parse_msg : path -> str -> str.
  Variable prefix : str.
  Variable M : num.
  Variable topo : graph -> option (list nat).
  Variable H : Type.
  Variable hash_im : art_im -> H.
  Variable settings_path : path.
  Variable url_error : option str.
  Notation loads := (loads path_str yaml parse_toml parse_json parse_msg prefix M topo H hash_im settings_path url_error).
  Notation load_file := (load_file path_str yaml parse_toml parse_json parse_msg prefix).
  Variable st : settings.

  (** Files that stop no reader stop none when they cannot be read. *)
  Lemma calm_killers E t : (forall f, In (inl f) (art_files (calm E) t path_str st) -> jb_panic (load_file f) = false) -> killers load_file (art_files E t path_str st) = 0.
  Proof.
    intros N. assert (N' : forall f, In (inl f) (art_files E t path_str st) -> jb_panic (load_file f) = false).
    { intros f I. destruct (files_sub path_str st E t f I) as (q & -> & I0). specialize (N _ I0). revert N. unfold Load.load_file, read_art. cbn [af_path af_text calm e_read].
      destruct (art_type_of q); auto. destruct (e_read E q); auto. }
    revert N'. unfold killers. generalize (art_files E t path_str st) as l. induction l as [|[f|x] l IH]; intros N'; cbn [filter]; auto; [rewrite (N' f (or_introl eq_refl))|]; apply IH; intros g Hg; apply N'; now right.
  Qed.
  (** Either nothing goes wrong, or the load fails. *)
  Lemma disk_errors n E t cfs r : (forall f, In (inl f) (art_files (calm E) t path_str st) -> jb_panic (load_file f) = false) -> 0 < n -> 
    loads n (art_files E t path_str st) cfs r ->
    art_files E t path_str st = art_files (calm E) t path_str st \/
    ((exists c, r = Ok (inr c)) /\ exists i, In i (art_files E t path_str st) /\ match i with inl f => exists m, af_text f = inr m | inr _ => True end).
  Proof.
    intros N N0 Ld. set (bad := fun i : art_file + lint => match i with inl f => match af_text f with inr _ => true | inl _ => false end | inr _ => true end).
    destruct (existsb bad (art_files E t path_str st)) eqn:B.
    - right. apply existsb_exists in B as (i & Ii & Bi). split; [|exists i; split; auto; destruct i as [f|x]; auto; cbn in Bi; destruct (af_text f); [discriminate Bi|eauto]].
      destruct Ld as (arts & refs & la & lc & arrived & Ra & Rc & Pa & ->).
      assert (K : killers load_file (art_files E t path_str st) < n) by (rewrite calm_killers; auto). rewrite <- killers_panics in K.
      destruct (run_all n (art_items path_str yaml parse_toml parse_json parse_msg prefix (art_files E t path_str st)) arts la K Ra) as [_ X].
      assert (J : exists x, In x la /\ is_error x = true).
      { assert (Y : exists x, In x (lints_of (art_items path_str yaml parse_toml parse_json parse_msg prefix (art_files E t path_str st)) ++ flat_map jb_lints (jobs_of (art_items path_str yaml parse_toml parse_json parse_msg prefix (art_files E t path_str st)))) /\ is_error x = true).
        { destruct i as [f|x].
          - cbn in Bi. destruct (af_text f) as [|m] eqn:Tf; [discriminate Bi|]. exists (load_error path_str (af_path f) m). split; [|reflexivity]. apply in_or_app. right.
            apply in_flat_map. exists (load_file f). split.
            + rewrite jobs_art. apply in_map. apply in_flat_map. exists (inl f). split; [exact Ii|now left].
            + destruct (files_sub path_str st E t f Ii) as (q & Ef & I0). specialize (N _ I0). revert N Tf. rewrite Ef. unfold Load.load_file. cbn [af_path af_text read_art]. destruct (art_type_of q); [|discriminate]. intros _ ->. now left.
          - exists x. assert (Ex : is_error x = true).
            { pose proof (found_walk_ok (read_art E t) (e_stat E) (e_open E) (e_none E) path_str (art_filter (se_xarts st)) t (se_arts st)) as W. unfold art_files in Ii. apply W in Ii. unfold is_error. now rewrite Ii. }
            split; auto. apply in_or_app. left. unfold lints_of. apply in_flat_map. exists (inr x). split; [|now left]. unfold Load.art_items. apply in_map_iff. exists (inr x). auto. }
        destruct Y as (x & Hx & Ex). exists x. split; auto. apply (Permutation_in _ (Permutation_sym X) Hx). }
      destruct J as (x & Hx & Ex). unfold Load.finish. rewrite categorize_ok. cbn [ls_error no_lints app].
      assert (Ia : In x (filter is_error arrived)).
      { apply filter_In. split; auto. apply (Permutation_in _ (Permutation_sym Pa)). apply in_or_app. right. apply in_or_app. now left. }
      destruct (filter is_error arrived) as [|z zs]; [destruct Ia|]. cbn. eauto.
    - left. assert (Nb : forall i, In i (art_files E t path_str st) -> bad i = false).
      { intros i Ii. destruct (bad i) eqn:Bi; auto. assert (Z : existsb bad (art_files E t path_str st) = true) by (apply existsb_exists; eauto). congruence. }
      apply files_calm.
      + intros x Ix. apply Nb in Ix. discriminate Ix.
      + intros f m If Tf. apply Nb in If. cbn in If. rewrite Tf in If. discriminate If.
  Qed.
End Troubled.

(** A run that goes through; the project may have been loaded from another disk, for example the same one
    earlier. *)
Section Elsewhere.
  Variable path_str : path -> str.
  Variable M : num.
  Variable topo : graph -> option (list nat).
  Hypothesis TC : topo_ok topo.
  Variable H : Type.
  Variable heqb : H -> H -> bool.
  Hypothesis HE : forall a b, heqb a b = true <-> a = b.
  Variable hash_im : art_im -> H.
  Variable debug_im : art_im -> str.
  Variable st : settings.
  Variables to_toml to_json : list (name * art_raw) -> str.
  Variable yaml_done : str -> str.
  Variable style : md_attrs.
  Variables E1 E3 : disk_errs.
  Variable yaml : str -> option (option str * option names_val).
  Variables parse_toml parse_json : str -> res (list (name * art_raw)).
  Hypothesis PO : parser_ok parse_toml.
  Hypothesis PJ : parser_ok parse_json.
  Variable parse_msg : path -> str -> str.
  Variable prefix : list char.
  Variable settings_path : path.
  Variable url_error : option str.
  Notation runs := (runs path_str M topo H heqb hash_im debug_im st to_toml to_json yaml_done style E1 E3).
  Notation loads := (loads path_str yaml parse_toml parse_json parse_msg prefix M topo H hash_im settings_path url_error).
  Notation load_file := (load_file path_str yaml parse_toml parse_json parse_msg prefix).

  Variables tb t : node.
  Hypothesis Tb : tree_ok tb.
  Hypothesis Nb : tree_names tb.
  Hypothesis Rb : forall r, In r (se_arts st) -> file_at tb r = None.
  Hypothesis Sd : safe_disk st t.
  Variables (c : lints) (p : project M H) (ops : list (op H)).
  Variables (E0 : disk_errs) (n : nat) (cfs : list (code_file + lint)).
  Hypothesis Wc : walk_lints_ok cfs.
  Hypothesis Ld : loads n (art_files E0 tb path_str st) cfs (Ok (inl (c, p))).
  Hypothesis W : Forall op_wf ops.
  Hypothesis Wo : forall o a, In o ops -> stores o a -> plain_path (im_file a) /\ forall e, In e (se_xarts st) -> ~ below (im_file a) e.
  Variables (t' : node) (c1 : lints) (p1 : project M H).
  Hypothesis Rn : runs t (Ok (inl (c, p))) ops (MDone M H t' (Ok (inl (c1, p1)))).
  Let T := sd_tree st t Sd.
  Let R := sd_roots st t Sd.
  Let U := sd_twins st t Sd.

  (** The project that was saved has none of the faults that give errors. *)
  Lemma elsewhere_sound : loaded_ok hash_im p1 /\ exists code out, build M topo H hash_im (stored_form p1) code = Ok out /\ arts_sound out prefix.
  Proof.
    pose proof (l_ok path_str M topo TC H hash_im st yaml parse_toml parse_json PO PJ parse_msg prefix settings_path url_error tb c p E0 n cfs Wc Ld) as L.
    pose proof Rn as Rn0. apply done_project in Rn0 as (l & c' & q & X & Ep & Eq). injection X as <-.
    destruct (sort_stored path_str M topo TC H heqb HE hash_im debug_im st c p ops c' q L W Ep) as (Lq & Ls & P). rewrite <- Eq in *. split; auto.
    destruct (pure_accepts path_str M topo TC H heqb HE hash_im debug_im st c p ops c' q L W Ep) as (_ & _ & _ & _ & m & _ & _ & _ & _ & Sq & Bq & _ & Pq & _ & _ & Lq0).
    destruct (build_total M topo H hash_im TC (stored_form p1) []) as (out & B & _). exists [], out. split; auto.
    pose proof (lo_wf hash_im q Lq) as Wq. pose proof (lo_distinct hash_im q Lq) as Dq. rewrite Sq in Wq, Dq, P.
    apply (sound_perm prefix M topo TC H hash_im (map snd m) (stored_form p1) (pr_code p) [] (pr_arts q) out Wq Dq (Permutation_sym P) Bq B).
    rewrite (loads_prefix path_str M topo H hash_im yaml parse_toml parse_json parse_msg prefix settings_path url_error _ _ _ _ _ Ld) in Pq. rewrite <- Pq. exact (proj1 (no_errors_iff path_str q) Lq0).
  Qed.

  Hypothesis Hy : yaml_ok yaml yaml_done.
  Hypothesis Ct : codec_ok to_toml parse_toml.
  Hypothesis Cj : codec_ok to_json parse_json.
  Variable E : disk_errs.
  Hypothesis Ra : roots_apart (se_arts st).
  Hypothesis Md : md_survive prefix style (stored_form p1).
  Theorem elsewhere_loads n' cfs' r : 0 < n' -> walk_lints_ok cfs' -> loads n' (art_files E t' path_str st) cfs' r ->
    ((exists c, r = Ok (inr c)) /\ (~ sources_clean path_str cfs' \/ ~ readable E)) \/
    (longs_stored (stored_form p1) /\ r = Panic) \/
    (~ longs_stored (stored_form p1) /\ exists c2 p2, r = Ok (inl (c2, p2)) /\ Permutation (stored_form p2) (stored_form p1) /\
       (url_error = None -> exit_status r = 0 \/ exit_status r = 2)).
  Proof.
    intros N0 Wc' L2. pose proof T as T0.
    destruct (success path_str M topo TC H heqb HE hash_im debug_im st to_toml to_json yaml_done style E1 E3 t T R (u_orig path_str st E1 t T R U) c p ops
      (l_ok path_str M topo TC H hash_im st yaml parse_toml parse_json PO PJ parse_msg prefix settings_path url_error tb c p E0 n cfs Wc Ld)
      (l_typed path_str M topo TC H hash_im st yaml parse_toml parse_json PO PJ parse_msg prefix settings_path url_error tb Tb Rb c p E0 n cfs Wc Ld) W t' c1 p1 Rn)
      as (c' & q & Ep & Eq & _ & _ & _ & _ & _ & _ & _ & Wk).
    pose proof (reload path_str M topo TC H heqb HE hash_im debug_im st to_toml to_json yaml_done style E1 E3 yaml Hy parse_toml parse_json Ct Cj parse_msg (calm E) (fun _ => eq_refl) (fun _ => eq_refl) (fun _ => eq_refl) Ra
      t T R (u_orig path_str st E1 t T R U) c p ops (l_ok path_str M topo TC H hash_im st yaml parse_toml parse_json PO PJ parse_msg prefix settings_path url_error tb c p E0 n cfs Wc Ld)
      (fun a Ha => conj (found_placed st tb _ (l_found path_str M topo TC H hash_im st yaml parse_toml parse_json PO PJ parse_msg prefix settings_path url_error tb Tb Rb c p E0 n cfs Wc Ld a Ha))
        (conj (l_plain path_str M topo TC H hash_im st yaml parse_toml parse_json PO PJ parse_msg prefix settings_path url_error tb Tb Nb Rb c p E0 n cfs Wc Ld a Ha)
              (l_typed path_str M topo TC H hash_im st yaml parse_toml parse_json PO PJ parse_msg prefix settings_path url_error tb Tb Rb c p E0 n cfs Wc Ld a Ha))) W Wo t' c1 p1 Rn) as Rl.
    rewrite (loads_prefix path_str M topo H hash_im yaml parse_toml parse_json parse_msg prefix settings_path url_error _ _ _ _ _ Ld) in Rl.
    destruct (Rl Md) as (fs & Ef & Fl & P). rewrite Ef in P.
    assert (Np : forall f, In (inl f) (art_files (calm E) t' path_str st) -> jb_panic (load_file f) = false).
    { intros f If. rewrite Ef in If. apply in_map_iff in If as (g & X & Ig). injection X as ->. rewrite Forall_forall in Fl. now apply Fl. }
    destruct (disk_errors path_str yaml parse_toml parse_json parse_msg prefix M topo H hash_im settings_path url_error st n' E t' cfs' r Np N0 L2) as [Ea|[Er (i & Ii & Bi)]].
    2: { left. split; auto. right. intros Re. rewrite (readable_calm path_str st E t' Re), Ef in Ii. apply in_map_iff in Ii as (f & <- & If). destruct Bi as [m Tf].
         rewrite Forall_forall in Fl. apply Fl in If as [Lf Nf]. revert Lf Nf. unfold Load.load_file. destruct (art_type_of (af_path f)); [rewrite Tf; discriminate|discriminate]. }
    rewrite Ea, Ef in L2. destruct elsewhere_sound as [Ls (code & out & B & So)].
    destruct (clean_loads path_str yaml parse_toml parse_json parse_msg prefix M topo TC H hash_im settings_path url_error n' fs cfs' r (stored_form p1)
      (lo_wf _ _ Ls) (lo_distinct _ _ Ls) (lo_clean _ _ Ls) Fl P N0 Wc' L2) as [[X Y]|[X|(X & c2 & p2 & E2 & P2 & S2)]]; auto.
    right. right. split; auto. exists c2, p2. split; auto. split; auto. intros Ue. exact (S2 out code Ue B So).
  Qed.
End Elsewhere.

Section Saved.
  Variable path_str : path -> str.
  Variable M : num.
  Variable topo : graph -> option (list nat).
  Hypothesis TC : topo_ok topo.
  Variable H : Type.
  Variable heqb : H -> H -> bool.
  Hypothesis HE : forall a b, heqb a b = true <-> a = b.
  Variable hash_im : art_im -> H.
  Variable debug_im : art_im -> str.
  Variable st : settings.
  Variables to_toml to_json : list (name * art_raw) -> str.
  Variable yaml_done : str -> str.
  Variable style : md_attrs.
  Variables E1 E3 : disk_errs.
  Variable yaml : str -> option (option str * option names_val).
  Variables parse_toml parse_json : str -> res (list (name * art_raw)).
  Hypothesis PO : parser_ok parse_toml.
  Hypothesis PJ : parser_ok parse_json.
  Variable parse_msg : path -> str -> str.
  Variable prefix : list char.
  Variable settings_path : path.
  Variable url_error : option str.
  Notation runs := (runs path_str M topo H heqb hash_im debug_im st to_toml to_json yaml_done style E1 E3).
  Notation loads := (loads path_str yaml parse_toml parse_json parse_msg prefix M topo H hash_im settings_path url_error).
  Notation load_file := (load_file path_str yaml parse_toml parse_json parse_msg prefix).

  Variable t : node.
  Hypothesis Sd : safe_disk st t.
  Variables (c : lints) (p : project M H) (ops : list (op H)).
  Variables (E0 : disk_errs) (n : nat) (cfs : list (code_file + lint)).
  Hypothesis Wc : walk_lints_ok cfs.
  Hypothesis Ld : loads n (art_files E0 t path_str st) cfs (Ok (inl (c, p))).
  Hypothesis W : Forall op_wf ops.
  Hypothesis Wo : forall o a, In o ops -> stores o a -> plain_path (im_file a) /\ forall e, In e (se_xarts st) -> ~ below (im_file a) e.
  Variables (t' : node) (c1 : lints) (p1 : project M H).
  Hypothesis Rn : runs t (Ok (inl (c, p))) ops (MDone M H t' (Ok (inl (c1, p1)))).
  Let T := sd_tree st t Sd.
  Let Nm := sd_names st t Sd.
  Let R := sd_roots st t Sd.
  Let U := sd_twins st t Sd.
  Let Wp := fun o a Ho Sa => proj1 (Wo o a Ho Sa).

  (** The project that was saved has none of the faults that give errors. *)
  Lemma saved_sound : loaded_ok hash_im p1 /\ exists code out, build M topo H hash_im (stored_form p1) code = Ok out /\ arts_sound out prefix.
  Proof.
    exact (elsewhere_sound path_str M topo TC H heqb HE hash_im debug_im st to_toml to_json yaml_done style E1 E3 yaml parse_toml parse_json PO PJ parse_msg prefix settings_path url_error
      t t c p ops E0 n cfs Wc Ld W t' c1 p1 Rn).
  Qed.

  (** The disk afterwards is as safe as before. *)
  Lemma saved_safe : no_twins (stored_form p1) -> safe_disk st t'.
  Proof.
    intros Nt. pose proof T as T0. pose proof Nm as Nm0.
    destruct (success_found path_str M topo TC H heqb HE hash_im debug_im st to_toml to_json yaml_done style E1 E3 yaml parse_toml parse_json PO PJ parse_msg prefix settings_path url_error t T Nm R U c p ops E0 n _ Wc Ld W Wp t' c1 p1 Rn)
      as (H1 & L1 & G1 & _ & O1 & Di1 & T1).
    pose proof (origin_found path_str M topo TC H heqb HE hash_im debug_im st to_toml to_json yaml_done style E1 E3 yaml parse_toml parse_json PO PJ parse_msg prefix settings_path url_error t T Nm R U c p ops E0 n _ Wc Ld W Wp t' c1 p1 Rn) as Or.
    destruct (success path_str M topo TC H heqb HE hash_im debug_im st to_toml to_json yaml_done style E1 E3 t T R (u_orig path_str st E1 t T R U) c p ops
      (l_ok path_str M topo TC H hash_im st yaml parse_toml parse_json PO PJ parse_msg prefix settings_path url_error t c p E0 n cfs Wc Ld)
      (l_typed path_str M topo TC H hash_im st yaml parse_toml parse_json PO PJ parse_msg prefix settings_path url_error t T R c p E0 n cfs Wc Ld) W t' c1 p1 Rn)
      as (c' & q & Ep & Eq & _ & _ & _ & _ & _ & _ & Rd & _).
    pose proof (sort_stored path_str M topo TC H heqb HE hash_im debug_im st c p ops c' q (l_ok path_str M topo TC H hash_im st yaml parse_toml parse_json PO PJ parse_msg prefix settings_path url_error t c p E0 n cfs Wc Ld) W Ep) as (_ & _ & P). rewrite <- Eq in P.
    assert (Pl : forall a, In a (stored_form p1) -> plain_path (im_file a)).
    { intros a Ha. apply (new_plain path_str M topo TC H heqb HE hash_im debug_im st yaml parse_toml parse_json PO PJ parse_msg prefix settings_path url_error t T Nm R c p ops E0 n cfs Wc Ld W Wp c' q Ep). now apply (Permutation_in _ P). }
    assert (Fp : forall o, found_file st t o -> plain_path o) by (intros o Fo; destruct (found_exists st t _ Fo) as [z Lz]; exact (Nm _ _ Lz)).
    assert (Ff : forall f, found_file st t' f -> exists a, In a (stored_form p1) /\ im_file a = f).
    { intros f Ff. destruct (in_dec (list_eq_dec (list_eq_dec N.eq_dec)) f (map im_file (stored_form p1))) as [I|I]; [apply in_map_iff in I as (a & E & Ha); eauto|]. exfalso.
      assert (Na : forall a, In a (stored_form p1) -> im_file a <> f) by (intros a Ha E; apply I; rewrite <- E; now apply in_map).
      pose proof (found_typed st t' f Ff) as Ty. destruct Ff as (r & Hr & (x & w & -> & Nx & Lk & Ex) & K).
      assert (Fw : file_at t' (r ++ x) = Some w) by (unfold file_at; now rewrite Lk).
      destruct (Or (r ++ x)) as [Y|[Y|[(o & Fo & Y)|(a & Ha & E)]]]; [congruence| | |now apply (Na a Ha)].
      - rewrite Y in Fw. assert (Fo : found_file st t (r ++ x)).
        { exists r. split; auto. split; auto. exists x, w. split; auto. split; auto. split; auto. now apply file_at_some. }
        pose proof (G1 _ Fo Na) as Z. rewrite Y in Z. congruence.
      - exact (backup_typed o (r ++ x) (found_typed st t o Fo) Ty (eq_sym Y)). }
    constructor; auto.
    - intros f m Lf. destruct m as [z|l].
      + assert (Fz : file_at t' f = Some z) by (unfold file_at; now rewrite Lf).
        destruct (Or f) as [Y|[Y|[(o & Fo & ->)|(a & Ha & <-)]]]; [congruence| | |auto].
        * rewrite Y in Fz. apply file_at_some in Fz. eapply Nm; eauto.
        * apply backup_plain; auto. eapply found_typed; eauto.
      + pose proof (Di1 f) as Df. rewrite Lf in Df. cbn [is_dir] in Df. destruct (lookup t f) as [v|] eqn:Lv; [eapply Nm; eauto|discriminate Df].
    - intros r Hr. specialize (Rd r Hr). unfold file_at. destruct (lookup t' r) as [[z|l]|]; auto. discriminate Rd.
    - intros f g Fq Fg Tw. apply Ff in Fq as (a & Ha & <-), Fg as (b & Hb & <-). now apply Nt.
  Qed.

  Hypothesis Hy : yaml_ok yaml yaml_done.
  Hypothesis Ct : codec_ok to_toml parse_toml.
  Hypothesis Cj : codec_ok to_json parse_json.
  Variable E : disk_errs.
  Hypothesis Ra : roots_apart (se_arts st).
  Hypothesis Md : md_survive prefix style (stored_form p1).
  Theorem saved_loads n' cfs' r : 0 < n' -> walk_lints_ok cfs' -> loads n' (art_files E t' path_str st) cfs' r ->
    ((exists c, r = Ok (inr c)) /\ (~ sources_clean path_str cfs' \/ ~ readable E)) \/
    (longs_stored (stored_form p1) /\ r = Panic) \/
    (~ longs_stored (stored_form p1) /\ exists c2 p2, r = Ok (inl (c2, p2)) /\ Permutation (stored_form p2) (stored_form p1) /\
       (url_error = None -> exit_status r = 0 \/ exit_status r = 2)).
  Proof.
    exact (elsewhere_loads path_str M topo TC H heqb HE hash_im debug_im st to_toml to_json yaml_done style E1 E3 yaml parse_toml parse_json PO PJ parse_msg prefix settings_path url_error
      t t T Nm R Sd c p ops E0 n cfs Wc Ld W Wo t' c1 p1 Rn Hy Ct Cj E Ra Md n' cfs' r).
  Qed.
End Saved.
