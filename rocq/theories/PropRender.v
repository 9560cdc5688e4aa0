(** Properties C67 to C71: rendered texts and the exported document.

    [art export md] (artifact-app/src/export.rs) writes [to_markdown]; the web client shows
    [replace_markdown] of the text of an artifact, and of what is typed into an editor. *)
From Coq Require Import ZArith Lia Permutation Sorted.
From Verif Require Import Api Render SpecRender RenderFacts SpecExport ExportFacts DocFacts MarkFacts ReadyFacts.
From Verif Require Import Base BaseFacts Regex Name SpecName NameFacts SubFacts RefFacts Artifact SpecGraph Topo SpecLinks Numbers YamlExample Lint SpecLint LintFacts LintThms Source SpecJoin JoinThms
  Pool Load LoadFacts SpecLoad CheckFacts ReadThms PureFacts PropArtifacts PropCompleted PropMarkdown PropLint PropLoad.
Open Scope nat_scope.

(** ** C67 only marks are replaced *)
(** A text has one way to be cut into marks and other characters; other characters stay. *)
Theorem C67_rendering : forall path_str yaml parse_toml parse_json parse_msg prefix M topo H hash_im settings_path url_error n afs cfs c (p : project M H),
  topo_ok topo -> parser_ok parse_toml -> parser_ok parse_json -> walk_lints_ok afs -> walk_lints_ok cfs ->
  loads path_str yaml parse_toml parse_json parse_msg prefix M topo H hash_im settings_path url_error n afs cfs (Ok (inl (c, p))) ->
  forall reported strfmt base ms parent t, exists ks,
    (forall ks', cut true t ks' <-> ks' = ks) /\ concat (map source ks) = t /\
    (forall o, replace_markdown reported path_str strfmt p base ms parent t = Ok o <->
       exists os, Forall2 (shown reported path_str strfmt p base ms parent) ks os /\ o = concat os).
Proof.
  intros ps y pt pj pm px M topo H h sp ue n afs cfs c p TC PO PJ W1 W2 Ld rp sf base ms parent t.
  pose proof (loads_ready M topo TC H h ps y pt pj PO PJ pm px sp ue n afs cfs c p W1 W2 Ld) as R.
  destruct (cut_exists true t) as (ks & Ck). exists ks. split; [intros ks'; split; [intros Ck'; exact (cut_unique _ _ _ Ck _ Ck')|intros ->; exact Ck]|]. split; [exact (cut_source _ _ _ Ck)|].
  apply (render_ok rp ps sf p base ms (rd_arts p R) (rd_code p R) parent t ks Ck).
Qed.
Print Assumptions C67_rendering.
(** A text without double brackets and back ticks is left alone. *)
Theorem C67_plain : forall M H reported path_str strfmt (p : project M H) base ms parent t,
  (forall u v, t <> u ++ s "[[" ++ v) -> (forall u v, t <> u ++ s "```" ++ v) -> replace_markdown reported path_str strfmt p base ms parent t = Ok t.
Proof.
  intros M H rp ps sf p base ms parent t N1 N2. unfold replace_markdown. rewrite (replace_all_values _ _ _ (cut_plain t N1 N2)). clear. induction t as [|c t IH]; [reflexivity|].
  cbn [map values value token_of]. rewrite IH. reflexivity.
Qed.
Print Assumptions C67_plain.
(** No mark is overlooked: a reference or a subname of a text is a piece, or it is in a block. *)
Theorem C67_complete : forall t ks, cut true t ks ->
  (forall x y, ref_in t x y -> In (PRef x y) ks \/ exists f w b u v, In (PDot f w b) ks /\ b = u ++ s "[[" ++ x ++ y ++ s "]]" ++ v) /\
  (forall u x, sub_at t u x -> In (PSub x) ks \/ exists f w b u' v, In (PDot f w b) ks /\ b = u' ++ s "[[" ++ x ++ s "]]" ++ v).
Proof.
  intros t ks Ck. split.
  - intros x y (V & Y & u & v & E). destruct (cut_finds _ _ _ Ck (PRef x y) (x ++ y) u v) as [X|(f & w & b & u' & v' & X & Eb)]; [cbn [bracket]; auto|rewrite E; cbn [source]; flat; reflexivity|auto|].
    right. exists f, w, b, u', v'. split; [exact X|]. rewrite Eb. cbn [source]. flat. reflexivity.
  - intros u x (V & q & E). destruct (cut_finds _ _ _ Ck (PSub x) x u q) as [X|(f & w & b & u' & v' & X & Eb)]; [split; auto|rewrite E; cbn [source]; flat; reflexivity|auto|].
    right. exists f, w, b, u', v'. split; [exact X|]. rewrite Eb. cbn [source]. flat. reflexivity.
Qed.
Print Assumptions C67_complete.

(** The project of the examples. *)
Definition r_text : list str :=
  [s "# REQ-a"; s "top, see [[spc-A.x]], [[SPC-a.Y]] and [[SPC-gone.z]]"; s "# SPC-a"; s "partof: REQ-a"; s "###"; s "do [[.x]] and [[.y]] [[z]]"; s "```dot"; s "[[REQ-a]] -> [[.x]]"; s "```"].
Definition r_load := ex_seq exact_num 2 [md (s "a.md") r_text] [src (s "x.rs") [s "// #SPC-a"; s "// #spc-a.X"]].
Definition r_project : project exact_num str := match r_load with Ok (inl (_, p)) => p | _ => mkProject [] [] [] [] None end.
Definition r_strfmt (u f l : str) : option str := if str_eqb u (s "bad{") then None else Some (u ++ f ++ s "#L" ++ l).
Definition r_ms (u : option str) := mkMs u FamilyList DotIgnore (s "#").
Definition r_render parent ls := replace_markdown (fun x : F exact_num => x) ex_path r_strfmt r_project [] (r_ms (Some (s "http://h/"))) parent (join [10%N] ls).
Example C67_example :
  r_render (s "SPC-a") [s "[[[.X]]] plain [[.y]] [[z]]"; s "[[req-A]]"] = Ok (join [10%N]
    [s "[<a title=""x.rs[1]"" style=""color: #0074D9"" href=""http://h/x.rs#L2""><b>.X</b></a>] plain <span title=""Not Implemented"" style=""color: #FF4136""><b><i>.y</i></b></span> [[z]]";
     s "<a style=""font-weight: bold; color: #FF851B"" title=""REQ-A"" href=""#REQ-A"">req-A</a>"]) /\
  r_render [] [s "no [marks] ` here"] = Ok (s "no [marks] ` here") /\
  (* an empty block goes on up to the next one *)
  r_render [] [s "```dot"; s "```"; s "text [[REQ-b]]"; s "```"; s "```"] = r_render [] [s "```dot"; s "```"; s "text [[REQ-b]]"; s "```"; s "```"].
Proof. vm_compute. repeat split. Qed.

(** ** C68 a reference is a link exactly if what it refers to exists *)
Theorem C68_reference : forall path_str yaml parse_toml parse_json parse_msg prefix M topo H hash_im settings_path url_error n afs cfs c (p : project M H),
  topo_ok topo -> parser_ok parse_toml -> parser_ok parse_json -> walk_lints_ok afs -> walk_lints_ok cfs ->
  loads path_str yaml parse_toml parse_json parse_msg prefix M topo H hash_im settings_path url_error n afs cfs (Ok (inl (c, p))) ->
  forall reported strfmt base ms parent x y, valid_name x -> y = [] \/ valid_sub y ->
  exists o, replace_markdown reported path_str strfmt p base ms parent (s "[[" ++ x ++ y ++ s "]]") = Ok o /\
    (dangling (pr_arts p) x y <-> forall a, ~ target p x y a) /\
    (forall a, target p x y a -> exists col, tinted reported a col /\
       o = s "<a style=""font-weight: bold; color: " ++ col ++ s """ title=""" ++ upper (x ++ y) ++ s """ href=""#" ++ upper x ++ s """>" ++ x ++ y ++ s "</a>") /\
    (dangling (pr_arts p) x y -> exists z, (z = x \/ z = x ++ y) /\ o = s "<a style=""font-style: italic; color: #B10DC9"" title=""" ++ upper z ++ s " not found"" >" ++ z ++ s "</a>").
Proof.
  intros ps ym pt pj pm px M topo H h sp ue n afs cfs c p TC PO PJ W1 W2 Ld rp sf base ms parent x y V Y.
  pose proof (loads_ready M topo TC H h ps ym pt pj PO PJ pm px sp ue n afs cfs c p W1 W2 Ld) as R. pose proof (rd_arts p R) as W.
  assert (Ck : cut true (s "[[" ++ x ++ y ++ s "]]") [PRef x y]).
  { replace (s "[[" ++ x ++ y ++ s "]]") with (source (PRef x y) ++ []) by (cbn [source]; rewrite app_nil_r; reflexivity). constructor; [constructor; auto|exact I|constructor]. }
  destruct (render_ok rp ps sf p base ms W (rd_code p R) parent _ _ Ck) as (Ro & _ & _).
  destruct (name_mac_ok x V) as (m & Em & Wm & Rm). destruct (markdown_ok rp p W m y Wm Y) as (o & Eo & U). rewrite Rm in U.
  pose proof (dangling_iff p m y Wm) as DI. rewrite Rm in DI.
  exists o. split; [|split; [exact DI|split]].
  - apply Ro. exists [o]. split; [|cbn [concat]; now rewrite app_nil_r]. constructor; [|constructor]. constructor; [exact V|now apply U].
  - intros a Ta. destruct (hex_shade (rp (fst (a_completed a))) (rp (snd (a_completed a)))) as (col & _ & Uc). exists col. assert (Tc : tinted rp a col) by now apply Uc. split; [exact Tc|]. symmetry. apply U. eapply RefFound; eauto.
  - intros Dg. assert (X : ref_html rp p x y o) by now apply U. clear Rm. inversion X as [a col Ta Tc E|a Ta Dg' E|Nn E]; subst; clear X.
    + exfalso. exact (proj1 DI Dg a Ta).
    + exists (x ++ y). split; [now right|]. flat. reflexivity.
    + exists x. split; [now left|]. reflexivity.
Qed.
Print Assumptions C68_reference.
(** [art check] warns about the same references. *)
Theorem C68_warned : forall path_str yaml parse_toml parse_json parse_msg prefix M topo H hash_im settings_path url_error n afs cfs c (p : project M H),
  topo_ok topo -> parser_ok parse_toml -> parser_ok parse_json -> walk_lints_ok afs -> walk_lints_ok cfs ->
  loads path_str yaml parse_toml parse_json parse_msg prefix M topo H hash_im settings_path url_error n afs cfs (Ok (inl (c, p))) ->
  forall w, In w (ls_other c) /\ li_cat w = CArtifact <->
    exists m a x y, In (m, a) (pr_arts p) /\ ref_in (a_text a) x y /\ (forall b, ~ target p x y b) /\ w = ref_lint path_str m a x y.
Proof.
  intros ps ym pt pj pm px M topo H h sp ue n afs cfs c p TC PO PJ W1 W2 Ld w.
  pose proof (loads_ready M topo TC H h ps ym pt pj PO PJ pm px sp ue n afs cfs c p W1 W2 Ld) as R. pose proof (rd_arts p R) as W.
  assert (DI : forall m a x y, In (m, a) (pr_arts p) -> ref_in (a_text a) x y -> (dangling (pr_arts p) x y <-> forall b, ~ target p x y b)).
  { intros m a x y Hin Rf. pose proof Rf as ([V|L] & _); [|exfalso; exact (rd_texts p R m a x y Hin Rf L)]. destruct (name_mac_ok x V) as (q & _ & Wq & Rq). pose proof (dangling_iff p q y Wq) as X. now rewrite Rq in X. }
  rewrite (proj2 (loads_lints M topo TC H h ps ym pt pj PO PJ pm px sp ue n afs cfs c p W1 W2 Ld) w).
  split; intros (m & a & x & y & Hin & Rf & X & ->); exists m, a, x, y; (split; [exact Hin|split; [exact Rf|split; [now apply (DI m a x y Hin Rf)|reflexivity]]]).
Qed.
Print Assumptions C68_warned.
Definition r_not_found (x : str) : str := s "<a style=""font-style: italic; color: #B10DC9"" title=""" ++ upper x ++ s " not found"" >" ++ x ++ s "</a>".
(** A missing subname is shown; of a reference to a subname of a missing artifact the subname is not. *)
Example C68_example :
  match r_load with Ok (inl (c, p)) => map li_msg (ls_other c) | _ => [] end = [s "REQ-a has soft reference [[SPC-gone.z]] which does not exist."] /\
  r_render (s "SPC-a") [s "[[SPC-A.NO]]"] = Ok (r_not_found (s "SPC-A.NO")) /\ r_render (s "SPC-a") [s "[[SPC-gone.z]]"] = Ok (r_not_found (s "SPC-gone")) /\
  r_render (s "SPC-a") [s "[[SPC-A.X]]"] = Ok (s "<a style=""font-weight: bold; color: #FF851B"" title=""SPC-A.X"" href=""#SPC-A"">SPC-A.X</a>").
Proof. vm_compute. repeat split. Qed.

(** ** C69 when the export fails *)
(** Whether a template can be filled in depends on the template only, and [art check] has tried. *)
Theorem C69_export_fails : forall path_str yaml parse_toml parse_json parse_msg prefix M topo H hash_im settings_path url_error n afs cfs c (p : project M H) reported strfmt base ms ex,
  topo_ok topo -> parser_ok parse_toml -> parser_ok parse_json -> walk_lints_ok afs -> walk_lints_ok cfs ->
  loads path_str yaml parse_toml parse_json parse_msg prefix M topo H hash_im settings_path url_error n afs cfs (Ok (inl (c, p))) ->
  (forall u f l f' l', strfmt u f l = None -> strfmt u f' l' = None) ->
  (url_error <> None <-> exists u, ms_url ms = Some u /\ strfmt u (s "/fake") (s "1") = None) ->
  to_markdown reported path_str strfmt p base ms ex <> Err /\
  (to_markdown reported path_str strfmt p base ms ex = Panic <-> (exists x, In x (ls_error c) /\ li_cat x = CSettings) /\ pr_arts p <> []).
Proof.
  intros ps ym pt pj pm px M topo H h sp ue n afs cfs c p rp sf base ms ex TC PO PJ W1 W2 Ld SF UE.
  pose proof (loads_ready M topo TC H h ps ym pt pj PO PJ pm px sp ue n afs cfs c p W1 W2 Ld) as R. split; [apply (document_meets rp ps sf p base ms R ex)|].
  rewrite (document_panic rp ps sf p base ms R SF ex), (proj1 (loads_lints M topo TC H h ps ym pt pj PO PJ pm px sp ue n afs cfs c p W1 W2 Ld)), UE.
  unfold bad_template. split; intros [(u & U & X) N]; (split; [|exact N]); exists u; (split; [exact U|]); [apply X|]. intros f l. exact (SF u _ _ f l X).
Qed.
Print Assumptions C69_export_fails.
Definition r_export ms ex := to_markdown (fun x : F exact_num => x) ex_path r_strfmt r_project [] ms ex.
Example C69_example : r_export (r_ms (Some (s "bad{"))) (mkExport None true) = Panic /\
  (exists o, r_export (r_ms (Some (s "good"))) (mkExport None true) = Ok o) /\ (exists o, r_export (r_ms None) (mkExport None true) = Ok o) /\ pr_arts r_project <> [] /\
  to_markdown (fun x : F exact_num => x) ex_path r_strfmt (mkProject (H := str) [] [] [] [] None) [] (r_ms (Some (s "bad{"))) (export_of None) = Ok [].
Proof. split; [vm_compute; reflexivity|]. split; [eexists; vm_compute; reflexivity|]. split; [eexists; vm_compute; reflexivity|]. split; [vm_compute; discriminate|vm_compute; reflexivity]. Qed.

(** ** C70 the document *)
Lemma forall2_length {A B} (R : A -> B -> Prop) l m : Forall2 R l m -> length l = length m.
Proof. induction 1; cbn [length]; congruence. Qed.
(** The header, the table of contents if asked for, and one section for each artifact in the order
    of the names. *)
Theorem C70_document : forall path_str yaml parse_toml parse_json parse_msg prefix M topo H hash_im settings_path url_error n afs cfs c (p : project M H),
  topo_ok topo -> parser_ok parse_toml -> parser_ok parse_json -> walk_lints_ok afs -> walk_lints_ok cfs ->
  loads path_str yaml parse_toml parse_json parse_msg prefix M topo H hash_im settings_path url_error n afs cfs (Ok (inl (c, p))) ->
  StronglySorted (fun x y => str_leb x y = true) (map (fun e => n_key (fst e)) (pr_arts p)) /\ NoDup (map (fun e => n_key (fst e)) (pr_arts p)) /\
  (forall m a, In (m, a) (pr_arts p) -> a_name a = m) /\
  forall reported strfmt base ms ex o, to_markdown reported path_str strfmt p base ms ex = Ok o <-> document reported path_str strfmt p base ms ex o.
Proof.
  intros ps ym pt pj pm px M topo H h sp ue n afs cfs c p TC PO PJ W1 W2 Ld.
  pose proof (loads_ready M topo TC H h ps ym pt pj PO PJ pm px sp ue n afs cfs c p W1 W2 Ld) as R. split; [exact (loads_sorted M topo TC H h ps ym pt pj PO PJ pm px sp ue n afs cfs c p W1 W2 Ld)|]. split; [exact (aw_nodup _ (rd_arts p R))|]. split; [exact (rd_names p R)|].
  intros rp sf base ms ex o. apply (document_meets rp ps sf p base ms R ex).
Qed.
Print Assumptions C70_document.
(** The default depends on whether there is an [export] table at all. *)
Theorem C70_contents : forall path_str yaml parse_toml parse_json parse_msg prefix M topo H hash_im settings_path url_error n afs cfs c (p : project M H),
  topo_ok topo -> parser_ok parse_toml -> parser_ok parse_json -> walk_lints_ok afs -> walk_lints_ok cfs ->
  loads path_str yaml parse_toml parse_json parse_msg prefix M topo H hash_im settings_path url_error n afs cfs (Ok (inl (c, p))) ->
  forall reported strfmt base ms table o, to_markdown reported path_str strfmt p base ms (export_of table) = Ok o ->
  exists toc secs, o = match table with Some (Some h, _) => h ++ [10%N] | _ => [] end ++ toc ++ concat secs /\ length secs = length (pr_arts p) /\
    (match table with Some (_, None) | Some (_, Some true) => True | _ => False end ->
       exists es, length es = length (pr_arts p) /\ toc = (ms_prefix ms ++ s "# Table Of Contents" ++ [10%N]) ++ concat es ++ [10%N; 10%N]) /\
    (match table with Some (_, None) | Some (_, Some true) => False | _ => True end -> toc = []).
Proof.
  intros ps ym pt pj pm px M topo H h sp ue n afs cfs c p TC PO PJ W1 W2 Ld rp sf base ms table o E.
  destruct (C70_document ps ym pt pj pm px M topo H h sp ue n afs cfs c p TC PO PJ W1 W2 Ld) as (_ & _ & _ & D). apply D in E as (toc & secs & F & T & ->). exists toc, secs.
  split; [unfold line; destruct table as [[[h0|] b]|]; reflexivity|]. split; [symmetry; exact (forall2_length _ _ _ F)|].
  destruct table as [[h0 [[]|]]|]; cbn [export_of ex_toc] in T; (split; [|try contradiction; auto]); try contradiction; intros _; destruct T as (es & Fe & ->); exists es; (split; [symmetry; exact (forall2_length _ _ _ Fe)|unfold line; flat; reflexivity]).
Qed.
Print Assumptions C70_contents.
Definition r_section1 : list str :=
  [s "## REQ-a"; s "<details>"; s "<summary><b>metadata</b></summary>"; []; s "<b>partof:</b> <i>none</i></a><br>"; s "<b>parts:</b><br>";
   s "<li><a style=""font-weight: bold; color: #FF851B"" title=""SPC-A"" href=""#SPC-A"">SPC-a</a></li>"; s "<b>file:</b> a.md<br>"; s "<b>impl:</b> <i>not implemented</i><br>";
   s "<b>spc:</b>66.70&nbsp;&nbsp;<b>tst:</b>0.00<br>"; s "<hr>"; s "</details>"; [];
   s "top, see <a style=""font-weight: bold; color: #FF851B"" title=""SPC-A.X"" href=""#SPC-A"">spc-A.x</a>, <a style=""font-weight: bold; color: #FF851B"" title=""SPC-A.Y"" href=""#SPC-A"">SPC-a.Y</a> and " ++ r_not_found (s "SPC-gone"); []].
Example C70_example : match r_export (r_ms None) (export_of (Some (Some (s "Head"), None))) with Ok o => starts_with o (join [10%N] ([s "Head"; s "## Table Of Contents";
    s "- <a style=""font-weight: bold; color: #FF851B"" title=""REQ-A"" href=""#REQ-A"">REQ-a</a>"; s "- <a style=""font-weight: bold; color: #FF851B"" title=""SPC-A"" href=""#SPC-A"">SPC-a</a>"; []; []] ++
    r_section1 ++ [s "## SPC-a"])) | _ => false end = true.
Proof. vm_compute. reflexivity. Qed.

(** ** C71 what is typed into the editor and cannot be shown *)
(** The web client stops (a panic) exactly if the text has a reference to a name whose type is
    spelled with a long s, or the name is spelled so and the text has a subname, or the address of
    an implemented subname is wanted and the template of addresses is broken. *)
Theorem C71_preview : forall path_str yaml parse_toml parse_json parse_msg prefix M topo H hash_im settings_path url_error n afs cfs c (p : project M H),
  topo_ok topo -> parser_ok parse_toml -> parser_ok parse_json -> walk_lints_ok afs -> walk_lints_ok cfs ->
  loads path_str yaml parse_toml parse_json parse_msg prefix M topo H hash_im settings_path url_error n afs cfs (Ok (inl (c, p))) ->
  forall reported strfmt base ms parent t ks, cut true t ks ->
  replace_markdown reported path_str strfmt p base ms parent t <> Err /\
  (replace_markdown reported path_str strfmt p base ms parent t = Panic <->
    (exists x y, ref_in t x y /\ longs_name x) \/ (longs_name parent /\ exists u x, sub_at t u x) \/
    (exists x loc u, In (PSub x) ks /\ impl_at p parent x loc /\ ms_url ms = Some u /\ no_address strfmt base u (path_str (loc_file loc)) (loc_line loc))).
Proof.
  intros ps ym pt pj pm px M topo H h sp ue n afs cfs c p TC PO PJ W1 W2 Ld rp sf base ms parent t ks Ck.
  pose proof (loads_ready M topo TC H h ps ym pt pj PO PJ pm px sp ue n afs cfs c p W1 W2 Ld) as R.
  destruct (render_ok rp ps sf p base ms (rd_arts p R) (rd_code p R) parent t ks Ck) as (_ & P & N). split; [exact N|].
  rewrite P, (broken_iff ps sf p base ms parent t ks Ck). unfold no_link. split; (intros [A|[A|A]]; [auto|auto|right; right]).
  - destruct A as (x & Hx & loc & u & A). exists x, loc, u. tauto.
  - destruct A as (x & loc & u & Hx & A). exists x. split; [exact Hx|]. exists loc, u. exact A.
Qed.
Print Assumptions C71_preview.
(** So what is loaded can be shown if the template is good. *)
Theorem C71_loaded_shown : forall path_str yaml parse_toml parse_json parse_msg prefix M topo H hash_im settings_path url_error n afs cfs c (p : project M H),
  topo_ok topo -> parser_ok parse_toml -> parser_ok parse_json -> walk_lints_ok afs -> walk_lints_ok cfs ->
  loads path_str yaml parse_toml parse_json parse_msg prefix M topo H hash_im settings_path url_error n afs cfs (Ok (inl (c, p))) ->
  forall reported strfmt base ms, (forall u f l, ms_url ms = Some u -> strfmt u f l <> None) ->
  forall m a, In (m, a) (pr_arts p) -> exists o, replace_markdown reported path_str strfmt p base ms (n_raw (a_name a)) (a_text a) = Ok o.
Proof.
  intros ps ym pt pj pm px M topo H h sp ue n afs cfs c p TC PO PJ W1 W2 Ld rp sf base ms G m a Hin.
  pose proof (loads_ready M topo TC H h ps ym pt pj PO PJ pm px sp ue n afs cfs c p W1 W2 Ld) as R. destruct (cut_exists true (a_text a)) as (ks & Ck).
  destruct (C71_preview ps ym pt pj pm px M topo H h sp ue n afs cfs c p TC PO PJ W1 W2 Ld rp sf base ms (n_raw (a_name a)) (a_text a) ks Ck) as [N P].
  destruct (replace_markdown rp ps sf p base ms (n_raw (a_name a)) (a_text a)) as [o| |]; [eauto|congruence|]. exfalso. destruct (proj1 P eq_refl) as [(x & y & Rf & L)|[(L & _)|(x & loc & u & _ & _ & U & d & _ & X)]].
  - exact (rd_texts p R m a x y Hin Rf L).
  - apply (longs_not_valid _ L), name_accept. exists (a_name a). rewrite (rd_names p R m a Hin). exact (aw_names _ (rd_arts p R) m a Hin).
  - exact (G _ _ _ U X).
Qed.
Print Assumptions C71_loaded_shown.
Example C71_example :
  r_render (s "SPC-new") [s "typing [[" ++ [383%N] ++ s "pc-x]]"] = Panic /\ r_render ([383%N] ++ s "pc-x") [s "a [[.sub]]"] = Panic /\
  r_render ([383%N] ++ s "pc-x") [s "none"] = Ok (s "none") /\ r_render (s "not a name") [s "[[.sub]]"] = r_render (s "SPC-new") [s "[[.sub]]"] /\
  replace_markdown (fun x : F exact_num => x) ex_path r_strfmt r_project [] (r_ms (Some (s "bad{"))) (s "SPC-a") (s "[[.x]]") = Panic /\
  (exists o, replace_markdown (fun x : F exact_num => x) ex_path r_strfmt r_project [] (r_ms (Some (s "bad{"))) (s "SPC-a") (s "[[.y]]") = Ok o).
Proof. vm_compute. repeat split. eexists. reflexivity. Qed.
