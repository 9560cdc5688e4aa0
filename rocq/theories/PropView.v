(** Property C78: the text of an artifact on its page, up to the markdown library. *)
From Coq Require Import ZArith Lia.
From Verif Require Import Api Render SpecRender RenderFacts SpecExport ExportFacts DocFacts ReadyFacts View SpecView ViewFacts.
From Verif Require Import Base BaseFacts Regex Name SpecName NameFacts GreedyFacts Artifact SpecGraph Topo SpecLinks Numbers YamlExample Lint SpecLint Source SpecJoin
  Pool Load LoadFacts SpecLoad PropArtifacts PropCompleted PropMarkdown PropLint PropLoad PropRender.
Open Scope nat_scope.

(** ** C78 exactly the graph blocks become pictures *)
(** For the text of any artifact, and for whatever is typed into an editor. *)
Theorem C78_page : forall path_str yaml parse_toml parse_json parse_msg prefix M topo H hash_im settings_path url_error n afs cfs c (p : project M H),
  topo_ok topo -> parser_ok parse_toml -> parser_ok parse_json -> walk_lints_ok afs -> walk_lints_ok cfs ->
  loads path_str yaml parse_toml parse_json parse_msg prefix M topo H hash_im settings_path url_error n afs cfs (Ok (inl (c, p))) ->
  forall viz reported strfmt base url parent t ks,
  (forall m z loc, code_ref (pr_code p) m z loc -> ~ In 10%N (path_str (loc_file loc))) ->
  (forall u file row o, url = Some u -> ~ In 10%N file -> ~ In 10%N row -> strfmt u file row = Some o -> ~ In 10%N o) ->
  cut true t ks -> Forall plain_block ks ->
  (forall o, view_text viz reported path_str strfmt p base url parent t = Ok o <->
     exists os, Forall2 (seen viz reported path_str strfmt p base (mkMs url FamilyDot DotIgnore []) parent) ks os /\ o = concat os) /\
  (view_text viz reported path_str strfmt p base url parent t = Panic <->
     exists k, In k ks /\ broken path_str strfmt p base (mkMs url FamilyDot DotIgnore []) parent k) /\
  view_text viz reported path_str strfmt p base url parent t <> Err.
Proof.
  intros ps y pt pj pm px M topo H h sp ue n afs cfs c p TC PO PJ W1 W2 Ld viz rp sf base url parent t ks Np Nu C P.
  pose proof (loads_ready M topo TC H h ps y pt pj PO PJ pm px sp ue n afs cfs c p W1 W2 Ld) as R.
  exact (seen_all rp ps sf p base url Np Nu (rd_arts p R) (rd_code p R) viz parent t ks C P).
Qed.
Print Assumptions C78_page.

Definition v_view (viz : str -> str) parent ls := view_text viz (fun x : F exact_num => x) ex_path r_strfmt r_project [] (Some (s "http://h/")) parent (join [10%N] ls).
Definition v_viz (x : str) : str := s "<svg>" ++ x ++ s "</svg>".

(** Without the condition on the blocks the statement is false: the node of a reference starts
    with a line break, so back ticks in front of it come to stand alone on a line, and the picture
    ends there.  The rest of the block is then text. *)
Definition v_bad : list str := [s "```dot"; s "a"; s "```[[REQ-gone]]"; s "b"; s "```"].
Definition v_gone : str := node (s "REQ-GONE") [s "label=<<b>REQ-gone</b>>;"; s "fontcolor=black; style=filled; fillcolor=pink;"; s "fontsize=12; margin=0.01; shape=invhouse;"; s "tooltip=""Name not found"";"].
Lemma seen_block {M H} viz reported path_str strfmt (p : project M H) base ms parent f w b o : seen viz reported path_str strfmt p base ms parent (PDot f w b) o ->
  exists x, o = [10%N] ++ s "<html>" ++ [10%N] ++ viz (x ++ [10%N]) ++ [10%N] ++ s "</html>" ++ [10%N].
Proof. intros S. inversion S as [f' w' b' g w1 x _ _ _ _ _|k o' Nk _]; subst; [eauto|exfalso; eapply Nk; reflexivity]. Qed.
Theorem C78_ticks_refuted :
  cut true (join [10%N] v_bad) [PDot (s "```dot") [] (join [10%N] [s "a"; s "```[[REQ-gone]]"; s "b"])] /\
  (forall viz parent, v_view viz parent v_bad = Ok ([10%N] ++ s "<html>" ++ [10%N] ++ viz (s "a" ++ [10%N]) ++ [10%N] ++ s "</html>" ++ [10%N] ++ v_gone ++ [10%N] ++ s "b" ++ [10%N; 10%N] ++ s "```")) /\
  forall parent os, Forall2 (seen v_viz (fun x : F exact_num => x) ex_path r_strfmt r_project [] (mkMs (Some (s "http://h/")) FamilyDot DotIgnore []) parent)
      [PDot (s "```dot") [] (join [10%N] [s "a"; s "```[[REQ-gone]]"; s "b"])] os -> v_view v_viz parent v_bad <> Ok (concat os).
Proof.
  split; [|split].
  - destruct (first_some pick (run re_dot (join [10%N] v_bad) [])) as [[r cs]|] eqn:E; [|vm_compute in E; discriminate E].
    assert (E' := E). apply dot_some in E as (f & w & b & Mk & Pf & Et & Ec).
    assert (X : first_some pick (run re_dot (join [10%N] v_bad) []) = Some ([], dot_caps (s "```dot") [] (join [10%N] [s "a"; s "```[[REQ-gone]]"; s "b"]))) by (vm_compute; reflexivity).
    rewrite E' in X. clear E'. subst cs.
    assert (Er : r = []) by exact (f_equal (fun o : option (str * caps) => match o with Some (a, _) => a | None => r end) X).
    assert (Ecs : dot_caps f w b = dot_caps (s "```dot") [] (join [10%N] [s "a"; s "```[[REQ-gone]]"; s "b"])) by exact (f_equal (fun o : option (str * caps) => match o with Some (_, a) => a | None => dot_caps f w b end) X).
    subst r. clear X.
    assert (Ew : f ++ w = s "```dot" ++ []) by (assert (X := f_equal (cap_get 2) Ecs); now apply some_inj in X).
    assert (Eb : b ++ [10%N] = join [10%N] [s "a"; s "```[[REQ-gone]]"; s "b"] ++ [10%N]) by (assert (X := f_equal (cap_get 3) Ecs); now apply some_inj in X).
    apply app_inv_tail in Eb. assert (Mk' := Mk). apply mark_block in Mk' as (_ & Cf & _). assert (L : length f = 6) by (apply str_ci_length in Cf; rewrite <- Cf; reflexivity).
    assert (w = []) as ->. { apply (f_equal (@length N)) in Ew. rewrite !app_length in Ew. destruct w; [reflexivity|]. rewrite L in Ew. cbn in Ew. lia. }
    rewrite !app_nil_r in Ew. subst f. rewrite <- Eb. rewrite Et. constructor; auto. constructor.
  - intros viz parent. set (A := [10%N] ++ s "<html>" ++ [10%N] ++ _). assert (X : A = ([10%N] ++ s "<html>" ++ [10%N] ++ viz (s "a" ++ [10%N]) ++ ([10%N] ++ s "</html>" ++ [10%N] ++ v_gone ++ [10%N] ++ s "b" ++ [10%N; 10%N] ++ s "```"))) by reflexivity.
    transitivity (Ok (([10%N] ++ s "<html>" ++ [10%N] ++ viz (s "a" ++ [10%N]) ++ [10%N] ++ s "</html>" ++ [10%N]) ++ v_gone ++ [10%N] ++ s "b" ++ [10%N; 10%N] ++ s "```")); [vm_compute; reflexivity|]. subst A. f_equal. flat. reflexivity.
  - intros parent os F E. inversion F as [|? o ? ? S F']; subst. inversion F'; subst. cbn [concat] in E. rewrite app_nil_r in E.
    assert (V : v_view v_viz parent v_bad = v_view v_viz [] v_bad) by (vm_compute; reflexivity). rewrite V in E. clear V F F'. apply seen_block in S as (x & ->).
    assert (Ok (rev match v_view v_viz [] v_bad with Ok y => y | _ => [] end) = Ok (rev ([10%N] ++ s "<html>" ++ [10%N] ++ v_viz (x ++ [10%N]) ++ [10%N] ++ s "</html>" ++ [10%N]))) as Y by (rewrite E; reflexivity).
    rewrite !rev_app_distr in Y. rewrite <- !app_assoc in Y. cbn [rev app] in Y. vm_compute in Y. discriminate Y.
Qed.
Print Assumptions C78_ticks_refuted.

Example C78_example :
  (exists c, ex_load exact_num 2 [md (s "a.md") r_text] [src (s "x.rs") [s "// #SPC-a"; s "// #spc-a.X"]] (Ok (inl (c, r_project)))) /\
  (forall m z loc, code_ref (pr_code r_project) m z loc -> ~ In 10%N (ex_path (loc_file loc))) /\
  (forall u file row o, Some (s "http://h/") = Some u -> ~ In 10%N file -> ~ In 10%N row -> r_strfmt u file row = Some o -> ~ In 10%N o) /\
  v_view v_viz (s "SPC-a") [s "see [[.x]]"; s "```dot"; []; s "a -> b"; s "```"; s "```"; s "end"] = Ok (join [10%N]
    [s "see <a title=""x.rs[1]"" style=""color: #0074D9"" href=""http://h/x.rs#L2""><b>.x</b></a>"; []; s "<html>"; s "<svg>a -> b"; []; s "</svg>"; s "</html>"; []; s "```"; s "end"]).
Proof.
  split; [|split; [|split]].
  - assert (L := ex_seq_loads exact_num 2 [md (s "a.md") r_text] [src (s "x.rs") [s "// #SPC-a"; s "// #spc-a.X"]]). change (ex_seq exact_num 2 _ _) with r_load in L. unfold r_project. destruct r_load as [[[c p]|]| |] eqn:E; try (vm_compute in E; discriminate E). exists c. exact L.
  - intros m z loc R. assert (E : exists cs, pr_code r_project = cs /\ Forall (fun e : name * impl_code => Forall (fun l => loc_file l = [s "x.rs"]) (match ic_primary (snd e) with Some l => [l] | None => [] end ++ map snd (ic_secondary (snd e)))) cs).
    { eexists. split; [reflexivity|]. vm_compute. repeat constructor. }
    destruct E as (cs & E & F). rewrite E in R. clear E. rewrite Forall_forall in F. destruct R as (c & I & R). specialize (F _ I). cbn [snd] in F. rewrite Forall_forall in F. rewrite (F loc).
    + apply free_lit. vm_compute. reflexivity.
    + destruct z as [z|]; [apply in_or_app; right; apply in_map_iff; exists (z, loc); auto|rewrite R; left; reflexivity].
  - intros u file row o X Nf Nr. apply some_inj in X. subst u. unfold r_strfmt. destruct (str_eqb _ _); [discriminate|]. intros X. apply some_inj in X. subst o. free.
  - vm_compute. reflexivity.
Qed.
