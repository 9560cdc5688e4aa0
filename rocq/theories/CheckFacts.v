(** The exit status of [art check] over the whole load. *)
From Coq Require Import Lia ZifyBool Permutation Relation_Operators.
From Verif Require Import Base BaseFacts Regex Name SpecName NameFacts RawNames Artifact Stored SpecGraph SpecLinks LinkFacts ProjectFacts
  Markdown SpecMarkdown Lint SpecLint LintFacts LintThms Source SpecJoin JoinFacts JoinThms Pool PoolFacts Load LoadFacts SpecLoad.

Lemma filter_all {A} (f : A -> bool) l : Forall (fun x => f x = true) l -> filter f l = l.
Proof. induction 1 as [|x l E F IH]; cbn [filter]; auto. now rewrite E, IH. Qed.
Lemma filter_none {A} (f : A -> bool) l : Forall (fun x => f x = false) l -> filter f l = [].
Proof. induction 1 as [|x l E F IH]; cbn [filter]; auto. now rewrite E. Qed.
Lemma sort_dedup_nil l : sort_dedup l = [] <-> l = [].
Proof.
  split; [|intros ->; reflexivity]. intros E. destruct l as [|x l]; auto. exfalso.
  destruct (sort_dedup_ok (x :: l)) as (_ & _ & I). rewrite E in I. apply (I x). now left.
Qed.
Lemma nil_dec {A} (l : list A) : l = [] \/ l <> [].
Proof. destruct l; [left|right]; congruence. Qed.

Section Levels.
  Context {M : num} {H : Type}.
  Variable path_str : path -> str.
  Variable p : project M H.
  Lemma lint_errors_level : Forall (fun x => is_error x = true) (lint_errors path_str p).
  Proof.
    rewrite Forall_forall. intros x Hx. apply lint_errors_exact in Hx as (n & a & _ & E).
    destruct E as [(q & _ & ->)|[(q & _ & ->)|[[_ ->]|[[_ ->]|[_ ->]]]]]; reflexivity.
  Qed.
  Lemma settings_level : Forall (fun x => is_error x = true) (lint_settings path_str p).
  Proof. unfold lint_settings. destruct (pr_url_error p); repeat constructor. Qed.
  Lemma code_level : Forall (fun x => is_error x = false) (lint_code_impls path_str p).
  Proof.
    assert (A : forall n c m, Forall (fun x => is_error x = false) (all_code path_str n c m)).
    { intros n c m. unfold all_code. apply Forall_app. split; [destruct (ic_primary c); repeat constructor|].
      induction (ic_secondary c); cbn [map]; constructor; auto. }
    unfold lint_code_impls. apply flat_forall. intros [n c] _. cbn [fst snd]. destruct (defined p n) as [a|]; auto.
    destruct (a_impl a); auto; try constructor. apply flat_forall. intros [x l] _. cbn [fst snd]. destruct (is_mem sub_eqb x (a_subnames a)); repeat constructor.
  Qed.
  Lemma refs_level l : lint_text_refs path_str p = Ok l -> Forall (fun x => is_error x = false) l.
  Proof.
    unfold lint_text_refs. intros E.
    destruct (res_map (fun e : name * artifact M H => res_bind (res_map (lint_ref path_str p e) (find_all re_text_ref (a_text (snd e)))) (fun l => Ok (concat l))) (pr_arts p)) as [ll| |] eqn:E1; cbn [res_bind] in E; try discriminate E.
    injection E as <-. apply res_map_ok_iff in E1. induction E1 as [|e k es ks E1 F IH]; cbn [concat]; [constructor|]. apply Forall_app. split; auto.
    destruct (res_map (lint_ref path_str p e) (find_all re_text_ref (a_text (snd e)))) as [mm| |] eqn:E2; cbn [res_bind] in E1; try discriminate E1.
    injection E1 as <-. apply res_map_ok_iff in E2. clear -E2. induction E2 as [|cs k css ks E2 F IH]; cbn [concat]; [constructor|]. apply Forall_app. split; auto.
    unfold lint_ref in E2. destruct (cap_get 0 cs) as [x|]; [|discriminate E2]. destruct (name_from_str x) as [n| |]; try discriminate E2.
    injection E2 as <-. destruct (defined p n) as [a|]; [|repeat constructor]. destruct (option_map sub_new (cap_get 1 cs)) as [z|]; [|constructor].
    destruct (is_mem sub_eqb z (a_subnames a)); repeat constructor.
  Qed.
End Levels.

Section Check.
  Variable path_str : path -> str.
  Variable yaml : str -> option (option str * option names_val).
  Variables parse_toml parse_json : str -> res (list (name * art_raw)).
  Variable parse_msg : path -> str -> str.
  Variable prefix : str.
  Hypothesis toml_ok : parser_ok parse_toml.
  Hypothesis json_ok : parser_ok parse_json.
  Variable M : num.
  Variable topo : graph -> option (list nat).
  Hypothesis TC : topo_ok topo.
  Variable H : Type.
  Variable hash_im : art_im -> H.
  Variable settings_path : path.
  Variable url_error : option str.
  Notation art_items := (art_items path_str yaml parse_toml parse_json parse_msg prefix).
  Notation code_items := (code_items path_str).
  Notation finish := (finish path_str prefix M topo H hash_im settings_path url_error).
  Notation loads := (loads path_str yaml parse_toml parse_json parse_msg prefix M topo H hash_im settings_path url_error).
  Notation build := (build M topo H hash_im).

  Lemma run_lints_error {A} w (items : list (job A + lint)) out ls : run_of w items out ls ->
    (forall x, In (inr x) items -> is_error x = true) -> (forall j, In (inl j) items -> Forall (fun x => is_error x = true) (jb_lints j)) ->
    Forall (fun x => is_error x = true) ls.
  Proof.
    intros R Hx Hj. apply run_delivers in R as [_ (seen & _ & (un & E) & P)]. eapply Permutation_Forall; [apply Permutation_sym; exact P|].
    apply Forall_app. split.
    - apply flat_forall. intros [j|x] Hi; [constructor|]. constructor; [|constructor]. apply Hx. rewrite E. apply in_or_app. now left.
    - apply flat_forall. intros j Hi. apply taken_in in Hi. unfold jobs_of in Hi. apply in_flat_map in Hi as ([j'|x] & Hi & Hi'); [|destruct Hi'].
      destruct Hi' as [<-|[]]. auto.
  Qed.
  Lemma art_lints_error w l arts ls : walk_lints_ok l -> run_of w (art_items l) arts ls -> Forall (fun x => is_error x = true) ls.
  Proof.
    intros Wl R. eapply run_lints_error; [exact R| |]; unfold Load.art_items.
    - intros x Hx. apply in_map_iff in Hx as ([f|y] & E & Hy); [discriminate E|]. injection E as <-. unfold is_error. now rewrite (Wl y Hy).
    - intros j Hj. apply in_map_iff in Hj as ([f|y] & E & Hy); [|discriminate E]. injection E as <-. apply file_lints_error.
  Qed.
  Lemma ref_lints_error w l refs ls : walk_lints_ok l -> run_of w (code_items l) refs ls -> Forall (fun x => is_error x = true) ls.
  Proof.
    intros Wl R. eapply run_lints_error; [exact R| |]; unfold Load.code_items.
    - intros x Hx. apply in_map_iff in Hx as ([f|y] & E & Hy); [discriminate E|]. injection E as <-. unfold is_error. now rewrite (Wl y Hy).
    - intros j Hj. apply in_map_iff in Hj as ([f|y] & E & Hy); [|discriminate E]. injection E as <-. apply code_lints_error.
  Qed.

  Lemma distinct_iff arts : Forall im_wf arts -> distinct arts <-> NoDup (map (fun a => nk (im_name a)) arts).
  Proof.
    intros W. split; [apply distinct_nk, W|]. intros ND. unfold distinct. induction W as [|a l Wa Wl IH]; cbn [map] in *; [constructor|].
    inversion ND as [|? ? N1 N2]; subst. constructor; auto. intros Hin. apply in_map_iff in Hin as (b & E & Hb). apply N1. apply in_map_iff. exists b. split; auto.
    unfold nk. f_equal; auto. apply key_eq_ty; auto; [|apply Wa]. rewrite Forall_forall in Wl. apply (Wl b Hb).
  Qed.

  Lemma collect_nil arts refs : Forall im_wf arts -> Forall ref_wf refs ->
    collect_lints path_str arts refs = [] <-> distinct arts /\ forall i j, ~ repeated refs i j.
  Proof.
    intros Wa Wr. rewrite (distinct_iff arts Wa), <- (dups_none_iff arts), <- (no_error_iff refs Wr). unfold collect_lints. split.
    - intros E. apply app_eq_nil in E as [E1 E2]. split.
      + destruct (j_dups (join_artifacts_raw arts)) as [|[[n a] b] l]; auto. discriminate E2.
      + destruct (fst (join_locations refs)) as [|[[a b] m] l]; auto. discriminate E1.
    - intros [-> ->]. reflexivity.
  Qed.

  Lemma code_wf refs : Forall ref_wf refs -> (forall i j, ~ repeated refs i j) ->
    forall n c, In (n, c) (snd (join_locations refs)) -> name_wf n.
  Proof.
    intros W NR n c Hin. destruct (join_exact refs W NR path_str) as (_ & _ & _ & On & _). destruct (On n c Hin) as (r & Hr & <-).
    rewrite Forall_forall in W. apply (W r Hr).
  Qed.

  Definition status_exact (r : res (lints * project M H + lints)) la lc arts refs (out : list (name * artifact M H)) : Prop :=
      (exit_status r = 0 <-> read_clean la lc arts refs /\ ~ longs_in_text out /\
         arts_sound out prefix /\ url_error = None /\ texts_resolve out /\ code_resolves out (snd (join_locations refs))) /\
      (exit_status r = 2 <-> read_clean la lc arts refs /\ ~ longs_in_text out /\
         arts_sound out prefix /\ url_error = None /\ ~ (texts_resolve out /\ code_resolves out (snd (join_locations refs)))) /\
      (exit_status r = 1 <-> ~ read_clean la lc arts refs \/
         (read_clean la lc arts refs /\ ~ longs_in_text out /\ ~ (arts_sound out prefix /\ url_error = None))) /\
      (exit_status r = 101 <-> read_clean la lc arts refs /\ longs_in_text out).

  Lemma finish_exact arts refs la lc arrived : Forall im_wf arts -> Forall ref_wf refs ->
    Forall (fun x => is_error x = true) arrived -> Permutation arrived (lc ++ la ++ collect_lints path_str arts refs) ->
    exists out, build arts (snd (join_locations refs)) = Ok out /\ status_exact (finish arrived arts refs) la lc arts refs out.
  Proof.
    intros Wa Wr AE P.
    destruct (build_total M topo H hash_im TC arts (snd (join_locations refs))) as (out & B & _).
    exists out. split; [exact B|]. unfold status_exact.
    pose proof (collect_nil arts refs Wa Wr) as CN.
    assert (RC : arrived = [] <-> read_clean la lc arts refs).
    { unfold read_clean. rewrite <- CN. split.
      - intros ->. apply Permutation_nil in P. apply app_eq_nil in P as [? P]. apply app_eq_nil in P as [? ?]. auto.
      - intros (-> & -> & E). rewrite E in P. now apply Permutation_sym, Permutation_nil in P. }
    assert (CE : ls_error (categorize no_lints arrived) = arrived) by (rewrite categorize_ok; cbn [ls_error no_lints app]; now apply filter_all).
    unfold Load.finish. rewrite CE. destruct (nil_dec arrived) as [E0|N0].
    2: { assert (NC : ~ read_clean la lc arts refs) by (rewrite <- RC; exact N0).
         replace (negb (is_nil arrived)) with true by (destruct arrived; [congruence|reflexivity]).
         cbn [exit_status check_status]. split; [split; [discriminate|intros X; destruct (NC (proj1 X))]|]. split; [split; [discriminate|intros X; destruct (NC (proj1 X))]|].
         split; [split; auto|]. split; [discriminate|intros X; destruct (NC (proj1 X))]. }
    pose proof (proj1 RC E0) as RC1. destruct RC1 as (La & Lc & D & NR).
    assert (Cl : read_clean la lc arts refs) by (repeat split; auto).
    rewrite E0. cbn [is_nil negb]. rewrite B. cbn [res_bind].
    set (p := mkProject out (snd (join_locations refs)) prefix settings_path url_error).
    destruct (built_refs_panic M topo H hash_im TC arts _ out Wa D B path_str p eq_refl) as [PP NE]. fold (longs_in_text out) in PP.
    unfold lint_project, lint_other. destruct (lint_text_refs path_str p) as [l| |] eqn:ET.
    2: congruence.
    2: { cbn [res_bind exit_status]. assert (L : longs_in_text out) by (apply PP; reflexivity).
         repeat split; try discriminate; auto; try (intros (_ & X & _); contradiction). intros [X|(_ & X & _)]; contradiction. }
    assert (NL : ~ longs_in_text out) by (rewrite <- PP; discriminate).
    cbn [res_bind exit_status check_status].
    pose proof (built_refs M topo H hash_im TC arts _ out Wa D B path_str p eq_refl l ET) as BR.
    pose proof (built_code_quiet M topo H hash_im TC arts _ out Wa D (code_wf refs Wr NR) B path_str p eq_refl eq_refl) as BC. fold (code_resolves out (snd (join_locations refs))) in BC.
    pose proof (@no_errors_iff M H path_str p) as BE. change (pr_arts p) with out in BE. change (pr_prefix p) with prefix in BE. fold (arts_sound out prefix) in BE.
    assert (BS : lint_settings path_str p = [] <-> url_error = None).
    { unfold lint_settings. cbn [pr_url_error p]. destruct url_error; split; congruence. }
    assert (BT : l = [] <-> texts_resolve out).
    { split.
      - intros -> m a x y Hin Hr Hd. apply (BR (ref_lint path_str m a x y)). exists m, a, x, y. auto.
      - intros T. destruct l as [|w l]; auto. exfalso. destruct (proj1 (BR w) (or_introl eq_refl)) as (m & a & x & y & Hin & Hr & Hd & _). now apply (T m a x y). }
    rewrite categorize_ok. rewrite categorize_ok. cbn [ls_error ls_other no_lints app filter]. unfold sort_lints. cbn [ls_error ls_other].
    assert (FE : filter is_error (lint_errors path_str p ++ l ++ lint_code_impls path_str p ++ lint_settings path_str p) = lint_errors path_str p ++ lint_settings path_str p).
    { rewrite !filter_app. rewrite (filter_all is_error (lint_errors path_str p)) by apply lint_errors_level. rewrite (filter_none is_error l) by (eapply refs_level; eauto).
      rewrite (filter_none is_error (lint_code_impls path_str p)) by apply code_level. rewrite (filter_all is_error (lint_settings path_str p)) by apply settings_level. reflexivity. }
    assert (FO : filter (fun x => negb (is_error x)) (lint_errors path_str p ++ l ++ lint_code_impls path_str p ++ lint_settings path_str p) = l ++ lint_code_impls path_str p).
    { assert (Neg : forall k b, Forall (fun x => is_error x = b) k -> Forall (fun x => negb (is_error x) = negb b) k) by (intros k b; apply Forall_impl; intros; now f_equal).
      rewrite !filter_app. rewrite (filter_none _ (lint_errors path_str p)) by (apply (Neg _ true), lint_errors_level). rewrite (filter_all _ l) by (apply (Neg _ false); eapply refs_level; eauto).
      rewrite (filter_all _ (lint_code_impls path_str p)) by (apply (Neg _ false), code_level). rewrite (filter_none _ (lint_settings path_str p)) by (apply (Neg _ true), settings_level). now rewrite app_nil_r. }
    rewrite FE, FO.
    set (E := lint_errors path_str p ++ lint_settings path_str p). set (O := l ++ lint_code_impls path_str p).
    assert (EE : E = [] <-> arts_sound out prefix /\ url_error = None).
    { unfold E. rewrite <- BE, <- BS. split; [intros X; apply app_eq_nil in X; exact X|intros [-> ->]; reflexivity]. }
    assert (EO : O = [] <-> texts_resolve out /\ code_resolves out (snd (join_locations refs))).
    { unfold O. rewrite <- BT, <- BC. split; [intros X; apply app_eq_nil in X; exact X|intros [-> ->]; reflexivity]. }
    assert (St : (if negb (is_nil (sort_dedup E)) then 1 else if negb (lints_empty (mkLints (sort_dedup E) (sort_dedup O))) then 2 else 0) =
                 match E, O with [], [] => 0 | [], _ => 2 | _, _ => 1 end).
    { clearbody E O. clear. unfold lints_empty. cbn [ls_error ls_other]. destruct E as [|e E'].
      - change (sort_dedup []) with (@nil lint). cbn [is_nil negb andb]. destruct O as [|o O']; [reflexivity|].
        destruct (sort_dedup (o :: O')) eqn:X; [apply (proj1 (sort_dedup_nil _)) in X; discriminate X|reflexivity].
      - destruct (sort_dedup (e :: E')) eqn:X; [apply (proj1 (sort_dedup_nil _)) in X; discriminate X|reflexivity]. }
    rewrite St. clear St. clearbody E O.
    clear -EE EO NL Cl. revert EE EO NL Cl.
    generalize (read_clean la lc arts refs) (longs_in_text out) (arts_sound out prefix) (texts_resolve out) (code_resolves out (snd (join_locations refs))) (url_error = None).
    intros PR PL PS PT PC PU EE EO NL Cl.
    destruct E as [|e E']; [destruct O as [|o O']|].
    - destruct (proj1 EE eq_refl) as [S1 S2], (proj1 EO eq_refl) as [S3 S4]. clear EE EO. intuition discriminate.
    - destruct (proj1 EE eq_refl) as [S1 S2]. assert (NO : ~ (PT /\ PC)) by (rewrite <- EO; discriminate). clear EE EO. intuition discriminate.
    - assert (NO : ~ (PS /\ PU)) by (rewrite <- EE; discriminate). clear EE EO. intuition discriminate.
  Qed.

  Theorem check_exact n afs cfs r : walk_lints_ok afs -> walk_lints_ok cfs -> loads n afs cfs r ->
    exists arts refs la lc out,
      run_of n (art_items afs) arts la /\ run_of 4 (code_items cfs) refs lc /\
      build arts (snd (join_locations refs)) = Ok out /\
      (exit_status r = 0 <-> read_clean la lc arts refs /\ ~ longs_in_text out /\
         arts_sound out prefix /\ url_error = None /\ texts_resolve out /\ code_resolves out (snd (join_locations refs))) /\
      (exit_status r = 2 <-> read_clean la lc arts refs /\ ~ longs_in_text out /\
         arts_sound out prefix /\ url_error = None /\ ~ (texts_resolve out /\ code_resolves out (snd (join_locations refs)))) /\
      (exit_status r = 1 <-> ~ read_clean la lc arts refs \/
         (read_clean la lc arts refs /\ ~ longs_in_text out /\ ~ (arts_sound out prefix /\ url_error = None))) /\
      (exit_status r = 101 <-> read_clean la lc arts refs /\ longs_in_text out).
  Proof.
    intros WA WC (arts & refs & la & lc & arrived & Ra & Rc & P & ->).
    pose proof (run_arts_wf path_str yaml parse_toml parse_json parse_msg prefix toml_ok json_ok n afs arts la Ra) as Wa.
    pose proof (run_refs_wf path_str 4 cfs refs lc Rc) as Wr.
    assert (AE : Forall (fun x => is_error x = true) arrived).
    { eapply Permutation_Forall; [apply Permutation_sym; exact P|]. apply Forall_app. split; [eapply ref_lints_error; eauto|].
      apply Forall_app. split; [eapply art_lints_error; eauto|apply collect_error]. }
    destruct (finish_exact arts refs la lc arrived Wa Wr AE P) as (out & B & E).
    exists arts, refs, la, lc, out. auto.
  Qed.
End Check.
