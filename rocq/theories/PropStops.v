(** C95: what stops the server, and what becomes of the requests of the pages. *)
From Coq Require Import ZArith Lia Permutation Relation_Operators.
From Verif Require Import Base BaseFacts Regex Name SpecName NameFacts RawNames RawNamesFacts Family FamilyFacts Artifact Stored SpecGraph Topo SpecLinks BuildFacts LinkFacts ProjectFacts Numbers
  Markdown SpecMarkdown MarkdownFacts YamlExample Lint SpecLint LintFacts LintThms Source SpecJoin Pool PoolFacts Load LoadFacts SpecLoad CheckFacts ReadThms Disk DiskFacts Walk SpecWalk WalkFacts Modify SpecModify SpecReload OpFacts PureFacts OrderFacts
  PhaseFacts ResultFacts CodecExample ReloadFacts DiskRunFacts PropArtifacts PropCompleted PropMarkdown PropLint PropLoad PropModify PropDisk Server SpecServer ServerFacts ServerCalls Web WebSave SpecSave WebFacts PropWeb PropEdit PropSave System SpecSystem SystemFacts PropSystem SpecFresh SinceFacts OutcomeFacts StopFacts.
Open Scope nat_scope.

Section Theorems.
  Variables (path_str : path -> str) (yaml : str -> option (option str * option RawNames.names_val)) (parse_toml parse_json : str -> res (list (name * art_raw)))
    (parse_msg : path -> str -> str) (prefix : str) (M : num) (topo : graph -> option (list nat)) (H : Type) (heqb : H -> H -> bool) (hash_im : art_im -> H)
    (settings_path : path) (url_error : option str) (enc : path -> str) (dec : str -> option path).
  Variables (debug_im : art_im -> str) (st : settings) (to_toml to_json : list (name * art_raw) -> str) (yaml_done : str -> str) (style : md_attrs).
  Variables (dig : char -> bool) (lim : N) (first : sproject H).
  Notation load_of := (load_of path_str yaml parse_toml parse_json parse_msg prefix M topo H hash_im settings_path url_error st).
  Notation may_load := (may_load path_str yaml parse_toml parse_json parse_msg prefix M topo H hash_im settings_path url_error st).
  Notation ystep := (ystep path_str M topo H heqb hash_im debug_im st to_toml to_json yaml_done style may_load enc dec dig lim first).
  Notation happened := (happened path_str M topo H heqb hash_im debug_im st to_toml to_json yaml_done style may_load enc dec dig lim first).
  Notation serves := (serves _ _ _ _ _ (call_read M H may_load) (call_modify path_str M topo H heqb hash_im debug_im st may_load)
    (call_goes path_str M H st to_toml to_json yaml_done style) (call_ended M H)).
  Notation pages := (y_pages M H).
  Notation wire := (wire M H enc).
  Notation told := (told M H enc).

  Notation load_file := (load_file path_str yaml parse_toml parse_json parse_msg prefix).
  Hypothesis TO : parser_ok parse_toml.
  Hypothesis JO : parser_ok parse_json.
  Hypothesis TC : topo_ok topo.

  (** Some artifact file defines an artifact in whose text a reference is spelled with U+017F, the
      long s, where the type of the name has an S. *)
  Definition longs_on (t : node) : Prop :=
    exists E f im x y, In (inl f) (art_files E t path_str st) /\ In im (jb_out (load_file f)) /\ ref_in (clean_text (im_text im)) x y /\ longs_name x.
  (** Loading gives a project or errors unless there is such a text. *)
  Theorem C95_load : forall t r, may_load t r -> (forall v, r <> Ok v) -> longs_on t.
  Proof.
    intros t r (E & n & lo & _ & L) N. unfold PropSave.load_of in L.
    pose proof (found_walk_ok (read_art E t) (e_stat E) (e_open E) (e_none E) path_str (art_filter (se_xarts st)) t (se_arts st)) as Wa.
    pose proof (found_walk_ok (read_code E t lo) (e_stat E) (e_open E) (e_none E) path_str (code_filter (se_xcode st)) t (se_code st)) as Wc.
    destruct (check_exact path_str yaml parse_toml parse_json parse_msg prefix TO JO M topo TC H hash_im settings_path url_error n _ _ r Wa Wc L) as (arts & refs & la & lc & out & Ra & Rc & B & _ & _ & _ & X).
    assert (X1 : exit_status r = 101) by (destruct r as [v| |]; [destruct (N v eq_refl)|reflexivity|reflexivity]).
    apply X in X1 as [(_ & _ & D & _) (m & a & x & y & I & Rf & Ls)]. clear X.
    pose proof (run_arts_wf path_str yaml parse_toml parse_json parse_msg prefix TO JO _ _ _ _ Ra) as Wf.
    destruct (build_entry M topo H hash_im TC arts _ out Wf D B) as (gs & comp & _ & _ & Eo). rewrite Eo in I. apply in_map_iff in I as (im & E1 & Im). injection E1 as _ <-. cbn [built a_text snd im_clean] in Rf.
    apply run_delivers in Ra as [P _]. apply (Permutation_in _ P) in Im. apply in_flat_map in Im as (j & Ij & Io). apply taken_in in Ij. rewrite jobs_art in Ij. apply in_map_iff in Ij as (f & <- & If).
    apply in_flat_map in If as ([f'|] & If & Ef); [|destruct Ef]. destruct Ef as [->|[]]. exists E, f, im, x, y. auto.
  Qed.

  Lemma load_errors t c : may_load t (Ok (inr c)) -> ls_error c <> [].
  Proof.
    intros (E & n & lo & _ & arts & refs & la & lc & arrived & _ & _ & _ & Er). symmetry in Er. unfold finish in Er. destruct (ls_error (categorize no_lints arrived)) as [|e l] eqn:Ec; cbn [is_nil negb] in Er.
    - destruct (build _ _ _ _ _ _) as [o| |]; cbn [res_bind] in Er; try discriminate Er. destruct (lint_project _ _) as [w| |]; discriminate Er.
    - injection Er as <-. cbn [sort_lints ls_error]. rewrite Ec. intros Z. apply (proj1 (sort_dedup_nil _)) in Z. discriminate Z.
  Qed.

  (** The server stops only when it loads such a text: the request it was handling then is the first
      whose handler panics. *)
  Theorem C95_stops : forall d0 p0 l y, happened d0 p0 l y -> y_poisoned _ _ y = true ->
    exists l1 y1 k r y2 l2, l = l1 ++ (y1, LServe k r ADied, y2) :: l2 /\ y_poisoned _ _ y1 = false /\ longs_on (y_disk _ _ y1).
  Proof.
    intros d0 p0 l y Hh. induction Hh as [|l y e y' Hh IH S]; intros Po; [discriminate Po|].
    destruct (y_poisoned _ _ y) eqn:Py.
    { destruct (IH eq_refl) as (l1 & y1 & k & r & y2 & l2 & -> & A & B). exists ((y, e, y') :: l1), y1, k, r, y2, l2. auto. }
    destruct S as [| | |g n n' b d p x k r q a d' p' x' As Sv| | |]; cbn [y_poisoned] in Po, Py; try congruence. subst x x'.
    assert (a = ADied) by (inversion Sv; congruence). subst a. eexists [], _, k, r, _, l. split; [reflexivity|]. cbn [y_poisoned y_disk]. split; [reflexivity|].
    destruct (died_load path_str M topo H heqb hash_im debug_im st to_toml to_json yaml_done style may_load dec load_errors TC _ _ _ _ _ _ _ As Sv) as (z & Lz & Nz).
    eapply C95_load; eauto.
  Qed.
  (** From then on every request is lost and nothing changes. *)
  Theorem C95_for_good : forall y k r a y', ystep y (LServe k r a) y' -> y_poisoned _ _ y = true ->
    a = ADied /\ y_poisoned _ _ y' = true /\ y_disk _ _ y' = y_disk _ _ y /\ y_project _ _ y' = y_project _ _ y /\ y_back _ _ y' = y_back _ _ y.
  Proof.
    intros y k r a y' S Po. inversion S as [| | |g n n' b d p x k0 r0 q a0 d' p' x' As Sv| | |]; subst. cbn [y_poisoned] in Po. subst x. cbn [y_disk y_project y_poisoned y_back].
    assert (a = ADied /\ (d', p', x') = (d, p, true)) as [-> E]. { inversion Sv; subst; auto. destruct r; discriminate As. }
    injection E as -> -> ->. cbn [told]. destruct r; rewrite app_nil_r; auto.
  Qed.

  (** Every request that is on its way can be answered, whatever the state of server, disk and
      pages; unless the server has stopped or loads such a text, with a project or an error. *)
  Lemma some_load t : exists r, may_load t r.
  Proof. destruct (C60_exists path_str yaml parse_toml parse_json parse_msg prefix M topo H hash_im settings_path url_error 1 (art_files no_errs t path_str st) (code_files no_errs t (fun _ => ([], None)) path_str st)) as [r L]. exists r, no_errs, 1, (fun _ => ([], None)). split; [lia|]. exact L. Qed.
  Lemma goes_along E1 E3 x x' : clos_refl_trans_1n _ (mstep path_str M H st to_toml to_json yaml_done style E3) x x' ->
    clos_refl_trans_1n _ (call_goes path_str M H st to_toml to_json yaml_done style) (disk M H x, CModify M H E1 E3 x) (disk M H x', CModify M H E1 E3 x').
  Proof. induction 1 as [x|x y z S R IH]; [constructor|]. econstructor; [constructor; exact S|exact IH]. Qed.
  Lemma can_serve d p x q : exists a s', serves (d, p, x) q a s'.
  Proof.
    destruct x; [destruct q; eexists _, _; [constructor|constructor; discriminate|constructor; discriminate]|].
    destruct q as [|[[[]|]|]|[[ops| |]|]]; try (eexists _, _; constructor; auto; fail).
    - destruct (some_load d) as [r L]. assert (R : reads node (found M H) failed (call M H) (call_read M H may_load) (call_goes path_str M H st to_toml to_json yaml_done style) (call_ended M H) d d (as_read M H r)).
      { exists (CLoaded M H (as_read M H r)), (CLoaded M H (as_read M H r)). split; [exists r; auto|]. split; [constructor|reflexivity]. }
      destruct (as_read M H r) as [[v|v]| |] eqn:Er; eexists _, _; [apply sv_reload; exact R|apply sv_reload_err; exact R|eapply sv_reload_died; [exact R|discriminate]|eapply sv_reload_died; [exact R|discriminate]].
    - destruct (some_load d) as [r L].
      assert (B : exists x0, begins path_str M topo H heqb hash_im debug_im st no_errs d r ops x0 /\ disk M H x0 = d).
      { unfold begins. destruct (res_bind _ _) as [[e|[c p0]]| |]; try (eexists; split; [reflexivity|reflexivity]). eexists. split; [eexists; split; [reflexivity|reflexivity]|reflexivity]. }
      destruct B as (x0 & B & D). destruct (ends path_str M H st to_toml to_json yaml_done style no_errs x0) as (t' & w & R). apply (goes_along no_errs) in R. rewrite D in R.
      assert (Mo : modifies node (found M H) failed (list (op H)) (call M H) (call_modify path_str M topo H heqb hash_im debug_im st may_load) (call_goes path_str M H st to_toml to_json yaml_done style) (call_ended M H) d ops t' (as_modified M H w)).
      { eexists _, _. split; [exists no_errs, no_errs, r, x0; eauto|]. split; [exact R|reflexivity]. }
      destruct (as_modified M H w) as [[v|v]| |] eqn:Ew; eexists _, _; [apply sv_modify; exact Mo|apply sv_modify_err; exact Mo|eapply sv_modify_died; [exact Mo|discriminate]|eapply sv_modify_died; [exact Mo|discriminate]].
  Qed.
  Theorem C95_answers : forall y k r, In (k, r) (y_net _ _ y) ->
    (exists e y', ystep y e y' /\ (r = RInitial /\ e = LFile k \/ exists a, e = LServe k r a)) /\
    (forall a y', ystep y (LServe k r a) y' -> y_poisoned _ _ y = false -> ~ longs_on (y_disk _ _ y) ->
       y_poisoned _ _ y' = false /\ exists m, In (k, r, m) (y_back _ _ y')).
  Proof.
    intros [g n b d p x] k r I. cbn [y_net y_poisoned y_disk] in *. apply in_split in I as (n1 & n2 & ->). split.
    - destruct (asked H dec r) as [q|] eqn:As.
      + destruct (can_serve d p x q) as (a & [[d' p'] x'] & Sv). eexists _, _. split; [eapply y_serve; eauto|]. right. eauto.
      + destruct r; try discriminate As. eexists _, _. split; [apply y_file|]. auto.
    - intros a y' S -> N. inversion S as [| | |g0 n3 n4 b0 d0 p0 x k0 r0 q a0 d' p' x' As Sv| | |]; subst. cbn [y_back y_poisoned].
      assert (Da : a = ADied \/ a <> ADied) by (destruct a; [right; discriminate|right; discriminate|right; discriminate|now left]). destruct Da as [->|Na].
      + exfalso. destruct (died_load path_str M topo H heqb hash_im debug_im st to_toml to_json yaml_done style may_load dec load_errors TC _ _ _ _ _ _ _ As Sv) as (z & Lz & Nz). apply N. eapply C95_load; eauto.
      + split; [inversion Sv; subst; try reflexivity; destruct Na; reflexivity|]. destruct (told r a) as [m|] eqn:T; [exists m; apply in_or_app; right; now left|]. exfalso. destruct a, r; try discriminate T; try discriminate As; destruct Na; reflexivity.
  Qed.
  (** No request is forgotten: one a page waits for is on its way, or its answer is, or its handler
      has panicked. *)
  Theorem C95_not_lost : forall d0 p0 l y k c r, happened d0 p0 l y -> nth_error (pages y) k = Some (c, [r]) ->
    In (k, r) (y_net _ _ y) \/ (exists m, In (k, r, m) (y_back _ _ y)) \/ exists y1 y2, In (y1, LServe k r ADied, y2) l.
  Proof. intros d0 p0 l y k c r Hh. exact (not_lost path_str M topo H heqb hash_im debug_im st to_toml to_json yaml_done style may_load enc dec dig lim first _ _ _ _ Hh k c r). Qed.
End Theorems.
Print Assumptions C95_load.
Print Assumptions C95_stops.
Print Assumptions C95_for_good.
Print Assumptions C95_answers.
Print Assumptions C95_not_lost.

(** A page saves a text with such a reference. The save is accepted and written to the disk; the next
    Sync of any page stops the server. Before the save the text is not there, after it it is. *)
Definition z_story : list cmd := [KOpen VGraph] ++ i_show 0 ++ i_type 0 1 [FText (s "see [[" ++ [383%N] ++ s "PC-a]]")] ++ [KUser 0 (USave 1); KNet 0; KBack 0].
Definition stopped_of (y : option (sys exact_num art_im)) : option (bool * nat * nat * bool) :=
  match y with Some y => Some (y_poisoned _ _ y, length (y_net _ _ y), length (y_back _ _ y), match i_load (y_disk _ _ y) with Ok _ => true | _ => false end) | None => None end.
Example C95_example :
  map stopped_of [i_run [KOpen VGraph] i_begin; i_run z_story i_begin; i_run (z_story ++ [KUser 0 USync; KNet 0]) i_begin; i_run (z_story ++ [KUser 0 USync; KNet 0; KOpen VGraph; KNet 0; KBack 0; KNet 0]) i_begin] =
    [Some (false, 1, 0, true); Some (false, 0, 0, false); Some (true, 0, 0, false); Some (true, 0, 0, false)] /\
  forms_of (i_run z_story i_begin) = [[]] /\
  match i_run (z_story ++ [KUser 0 USync; KNet 0]) i_begin with Some y => map (fun w => length (snd w)) (y_pages _ _ y) = [1] | None => False end /\
  exists l y, i_happened m_tree i_first l y /\ y_poisoned _ _ y = true.
Proof.
  split; [vm_compute; reflexivity|]. split; [vm_compute; reflexivity|]. split; [vm_compute; reflexivity|].
  assert (F : match i_run (z_story ++ [KUser 0 USync; KNet 0]) i_begin with Some y => y_poisoned _ _ y | None => false end = true) by (vm_compute; reflexivity).
  destruct (i_run (z_story ++ [KUser 0 USync; KNet 0]) i_begin) as [y|] eqn:E; [|discriminate F].
  destruct (i_run_ok m_tree i_first [] i_begin _ y (hp_start _ _ _ _ _ _ _ _ _ _ _ _ _ _ _ _ _ _ _ _) E) as [l X]. rewrite app_nil_r in X. eauto.
Qed.
