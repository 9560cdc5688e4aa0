(** What a rendered text and an exported document look like: links, nodes of graphs, sections. *)
From Coq Require Import ZArith Sorted.
From Verif Require Import Base Name SpecName NameFacts Artifact Lint SpecLint Api Render SpecRender.
Open Scope nat_scope.

(** Decimal digits without leading zero. *)
Definition decimal (n : nat) (x : str) : Prop :=
  x <> [] /\ Forall (fun c => (48 <= c <= 57)%N) x /\ fold_left (fun v c => v * 10 + (c - 48))%N x 0%N = N.of_nat n /\
  (forall q, x = 48%N :: q -> q = []).

(** Points for the two ratios (in thousandths), and the colour of their sum. *)
Definition shade (spc tst : Z) (col : str) : Prop :=
  exists i j,
    (((i = 3)%nat /\ 1000 <= spc) \/ ((i = 2)%nat /\ 700 <= spc < 1000) \/ ((i = 1)%nat /\ 400 <= spc < 700) \/ ((i = 0)%nat /\ spc < 400))%Z /\
    (((j = 2)%nat /\ 1000 <= tst) \/ ((j = 1)%nat /\ 500 <= tst < 1000) \/ ((j = 0)%nat /\ tst < 500))%Z /\
    nth_error [s "#FF4136"; s "#FF851B"; s "#FF851B"; s "#0074D9"; s "#0074D9"; s "#3DA03D"] (i + j) = Some col.

(** What loading delivers: references in the source under distinct names. *)
Record code_ok (code : list (name * impl_code)) : Prop := {
  co_names : forall n c, In (n, c) code -> name_wf n;
  co_nodup : NoDup (map (fun e : name * impl_code => n_key (fst e)) code);
  co_subs : forall n c z l, In (n, c) code -> In (z, l) (ic_secondary c) -> s_key z = upper (s_raw z);
  co_subdup : forall n c, In (n, c) code -> NoDup (map (fun e : subname * code_loc => s_key (fst e)) (ic_secondary c)) }.

Section Shown.
  Context {M : num} {H : Type}.
  Variable reported : F M -> Z.
  Variable path_str : path -> str.
  Variable strfmt : str -> str -> str -> option str.
  Variable p : project M H.
  Variable base : str.
  Variable ms : md_settings.
  Notation artifact := (artifact M H).

  (** The artifact called [x] (in any case), which has the subname [y] if there is one. *)
  Definition target (x y : str) (a : artifact) : Prop :=
    exists m, In (m, a) (pr_arts p) /\ str_ci (n_raw m) x /\ (y = [] \/ exists z, In z (a_subnames a) /\ str_ci (s_raw z) y).
  Definition tinted (a : artifact) (col : str) : Prop := shade (reported (fst (a_completed a))) (reported (snd (a_completed a))) col.
  (** The subname [x] of [parent] is implemented at [loc]. *)
  Definition impl_at (parent x : str) (loc : code_loc) : Prop :=
    exists n z, code_ref (pr_code p) n (Some z) loc /\ str_ci (n_raw n) parent /\ str_ci (s_raw z) x.
  (** The address of a line of a file. *)
  Definition address (u file : str) (line : nat) (h : str) : Prop :=
    exists d, decimal (line + 1) d /\ strfmt u (trim_base base file) d = Some h.
  Definition no_address (u file : str) (line : nat) : Prop :=
    exists d, decimal (line + 1) d /\ strfmt u (trim_base base file) d = None.

  (** ** In a text *)
  Inductive ref_html (x y : str) : str -> Prop :=
  | RefFound a col : target x y a -> tinted a col ->
      ref_html x y (s "<a style=""font-weight: bold; color: " ++ col ++ s """ title=""" ++ upper (x ++ y) ++ s """ href=""#" ++ upper x ++ s """>" ++ x ++ y ++ s "</a>")
  | RefNoSub a : target x [] a -> dangling (pr_arts p) x y ->
      ref_html x y (s "<a style=""font-style: italic; color: #B10DC9"" title=""" ++ upper (x ++ y) ++ s " not found"" >" ++ x ++ y ++ s "</a>")
  | RefNone : (forall a, ~ target x [] a) ->
      ref_html x y (s "<a style=""font-style: italic; color: #B10DC9"" title=""" ++ upper x ++ s " not found"" >" ++ x ++ s "</a>").
  (** The place is shown with the line counted from 0, the address has it counted from 1. *)
  Definition place (file : str) (line : nat) (x : str) : Prop := exists d, decimal line d /\ x = file ++ s "[" ++ d ++ s "]".
  Inductive sub_html (parent x : str) : str -> Prop :=
  | SubNone : (forall loc, ~ impl_at parent x loc) ->
      sub_html parent x (s "<span title=""Not Implemented"" style=""color: #FF4136""><b><i>" ++ x ++ s "</i></b></span>")
  | SubPlain loc t : impl_at parent x loc -> ms_url ms = None -> place (path_str (loc_file loc)) (loc_line loc) t ->
      sub_html parent x (s "<span title=""" ++ t ++ s """ style=""color: #0074D9""><b><i>" ++ x ++ s "</i></b></span>")
  | SubLink loc t u h : impl_at parent x loc -> ms_url ms = Some u -> place (path_str (loc_file loc)) (loc_line loc) t ->
      address u (path_str (loc_file loc)) (loc_line loc) h ->
      sub_html parent x (s "<a title=""" ++ t ++ s """ style=""color: #0074D9"" href=""" ++ h ++ s """><b>" ++ x ++ s "</b></a>").

  (** ** In a graph *)
  Definition indent (n : nat) (x : str) : str := [10%N] ++ repeat 32%N n ++ x.
  Definition node (id : str) (attrs : list str) : str :=
    indent 8 (s "{") ++ indent 12 ([34%N] ++ id ++ s """ [") ++ concat (map (indent 16) attrs) ++ indent 12 (s "]") ++ indent 8 (s "}") ++ indent 8 [].
  Inductive ref_node (focus : bool) (x y : str) : str -> Prop :=
  | NodeFound a col : target x y a -> tinted a col ->
      ref_node focus x y (node (upper (x ++ y))
        [s "label=""" ++ x ++ y ++ s """;"; s "href=""#" ++ map lowc (upper x) ++ s """;"; s "fontcolor=""" ++ col ++ s """;";
         s "fontsize=" ++ (if focus then s "12" else s "8") ++ s "; margin=0.01;"; s "shape=invhouse;";
         if focus then s "penwidth=1.5" else s "style=filled; fillcolor=""#DCDEE2"";"])
  | NodeNone : dangling (pr_arts p) x y ->
      ref_node focus x y (node (upper (x ++ y))
        [s "label=<<b>" ++ x ++ y ++ s "</b>>;"; s "fontcolor=black; style=filled; fillcolor=pink;";
         s "fontsize=12; margin=0.01; shape=invhouse;"; s "tooltip=""Name not found"";"]).
  Definition sub_node (x attrs : str) : str :=
    node (upper x) [s "label=""" ++ x ++ s """;"; s "fontsize=12; margin=0.15;"; s "shape=cds;"; attrs ++ s ";"].
  Inductive sub_graph (parent x : str) : str -> Prop :=
  | SubGNo : ~ valid_name parent -> sub_graph parent x (sub_node x (s "style=filled; fillcolor=""#DCDEE2"""))
  | SubGNone : valid_name parent -> (forall loc, ~ impl_at parent x loc) -> sub_graph parent x (sub_node x (s "penwidth=1.5; fontcolor=""#FF4136"""))
  | SubGDone loc : valid_name parent -> impl_at parent x loc -> sub_graph parent x (sub_node x (s "penwidth=1.5; fontcolor=""#0074D9""")).
  (** There are no blocks in blocks. *)
  Inductive graph_piece (parent : str) : piece -> str -> Prop :=
  | GChar c : graph_piece parent (PChar c) [c]
  | GSub x o : ~ longs_name parent -> sub_graph parent x o -> graph_piece parent (PSub x) o
  | GRef x y o : valid_name x -> ref_node true x y o -> graph_piece parent (PRef x y) o.
  Definition graph (parent b o : str) : Prop := exists ks os, cut true b ks /\ Forall2 (graph_piece parent) ks os /\ o = concat os.

  (** ** A piece of a text *)
  Inductive shown (parent : str) : piece -> str -> Prop :=
  | SChar c : shown parent (PChar c) [c]
  | SSub x o : ~ longs_name parent -> sub_html parent x o -> shown parent (PSub x) o
  | SRef x y o : valid_name x -> ref_html x y o -> shown parent (PRef x y) o
  | SIgnore f w b o : ms_dot ms = DotIgnore -> graph parent (b ++ [10%N]) o -> shown parent (PDot f w b) (f ++ w ++ [10%N] ++ o ++ [10%N] ++ s "```")
  | SRemove f w b o : ms_dot ms = DotRemove -> graph parent (b ++ [10%N]) o -> shown parent (PDot f w b) ([10%N] ++ o ++ [10%N])
  | SReplace f w b o pre post : ms_dot ms = DotReplace pre post -> graph parent (b ++ [10%N]) o -> shown parent (PDot f w b) (pre ++ [10%N] ++ o ++ [10%N] ++ post).

  (** ** What cannot be rendered *)
  Definition no_link (parent x : str) : Prop :=
    exists loc u, impl_at parent x loc /\ ms_url ms = Some u /\ no_address u (path_str (loc_file loc)) (loc_line loc).
  Inductive broken (parent : str) : piece -> Prop :=
  | BParent x : longs_name parent -> broken parent (PSub x)
  | BLink x : no_link parent x -> broken parent (PSub x)
  | BName x y : longs_name x -> broken parent (PRef x y)
  | BDotParent f w b ks x : cut true (b ++ [10%N]) ks -> In (PSub x) ks -> longs_name parent -> broken parent (PDot f w b)
  | BDotName f w b ks x y : cut true (b ++ [10%N]) ks -> In (PRef x y) ks -> longs_name x -> broken parent (PDot f w b).

  (** ** The document *)
  (** What loading delivers. *)
  Record ready : Prop := {
    rd_arts : arts_wf (pr_arts p);
    rd_code : code_ok (pr_code p);
    rd_names : forall n a, In (n, a) (pr_arts p) -> a_name a = n;
    rd_links : forall n a q, In (n, a) (pr_arts p) -> In q (a_partof a) \/ In q (a_parts a) -> name_wf q;
    rd_texts : forall n a x y, In (n, a) (pr_arts p) -> ref_in (a_text a) x y -> ~ longs_name x }.

  Definition line (x : str) : str := x ++ [10%N].
  Definition details (title x : str) : str := line (s "<details>") ++ line (s "<summary><b>" ++ title ++ s "</b></summary>") ++ line [] ++ x ++ line (s "</details>") ++ line [].
  (** A link to a file or to a line of it, if addresses are configured. *)
  Definition linked (file : str) (row : nat) (label o : str) : Prop :=
    match ms_url ms with
    | None => o = label
    | Some u => exists h, address u file row h /\ o = s "<a href=""" ++ h ++ s """>" ++ label ++ s "</a>"
    end.
  Definition impl_html (a : artifact) (o : str) : Prop :=
    match a_impl a with
    | IDone d => o = d
    | ICode c =>
        match ic_primary c with
        | Some l => exists t, place (trim_base base (path_str (loc_file l))) (loc_line l) t /\ linked (path_str (loc_file l)) (loc_line l) t o
        | None => o = s "<i>not implemented</i>"
        end
    | INot => o = s "<i>not implemented</i>"
    end.
  Definition list_html (title : str) (l : list name) (o : str) : Prop :=
    (l = [] /\ o = line (s "<b>" ++ title ++ s ":</b> <i>none</i></a><br>")) \/
    (l <> [] /\ exists os, Forall2 (fun q x => ref_html (n_raw q) [] x) l os /\
       o = line (s "<b>" ++ title ++ s ":</b><br>") ++ concat (map (fun x => line (s "<li>" ++ x ++ s "</li>")) os)).
  Definition arrow (x y : str) : str := line (s "        """ ++ x ++ s """ -> """ ++ y ++ [34%N]).
  (** The node of the artifact, those of its neighbours, and the links. *)
  Definition family_dot (a : artifact) (o : str) : Prop :=
    exists d0 d1 d2, ref_node true (n_raw (a_name a)) [] d0 /\
      Forall2 (fun q x => ref_node false (n_raw q) [] x) (a_parts a) d1 /\ Forall2 (fun q x => ref_node false (n_raw q) [] x) (a_partof a) d2 /\
      o = indent 8 (s "digraph G {") ++ indent 8 (s "graph [") ++ indent 12 (s "margin=0.001; label="""";") ++ indent 12 (s "randir=LR;") ++ indent 8 (s "];") ++
          indent 0 [] ++ indent 8 (s "////////////////////") ++ indent 8 (s "// DOT INSERTED HERE") ++ indent 0 [] ++
          indent 8 (d0 ++ concat d1 ++ concat d2 ++ concat (map (fun q => arrow (n_key (a_name a)) (n_key q)) (a_parts a)) ++
                    concat (map (fun q => arrow (n_key q) (n_key (a_name a))) (a_partof a))) ++
          indent 0 [] ++ indent 8 (s "///////////////////") ++ indent 8 (s "// END INSERTED DOT") ++ indent 0 [] ++ indent 8 (s "}") ++ indent 8 [].
  Definition family_html (a : artifact) (o : str) : Prop :=
    match ms_family ms with
    | FamilyList => exists x y, list_html (s "partof") (a_partof a) x /\ list_html (s "parts") (a_parts a) y /\ o = x ++ y
    | FamilyDot => exists d, family_dot a d /\
        o = details (s "dot-graph") (line match ms_dot ms with DotReplace x _ => x | _ => s "```dot" end ++ line d ++ line match ms_dot ms with DotReplace _ y => y | _ => s "```" end)
    end.
  (** Thousandths as a percentage with two decimals. *)
  Definition percentage (v : Z) (x : str) : Prop :=
    exists d e, decimal (Z.to_nat v / 10) d /\ decimal (Z.to_nat v mod 10) e /\ x = d ++ s "." ++ e ++ s "0".
  Definition rendered (parent t o : str) : Prop := exists ks os, cut true t ks /\ Forall2 (shown parent) ks os /\ o = concat os.
  Definition section (a : artifact) (o : str) : Prop :=
    exists family file impl spc tst text,
      family_html a family /\ linked (path_str (a_file a)) 0 (trim_base base (path_str (a_file a))) file /\ impl_html a impl /\
      percentage (reported (fst (a_completed a))) spc /\ percentage (reported (snd (a_completed a))) tst /\ rendered (n_raw (a_name a)) (a_text a) text /\
      o = line (ms_prefix ms ++ s "# " ++ n_raw (a_name a)) ++
          details (s "metadata") (family ++ line (s "<b>file:</b> " ++ file ++ s "<br>") ++ line (s "<b>impl:</b> " ++ impl ++ s "<br>") ++
            line (s "<b>spc:</b>" ++ spc ++ s "&nbsp;&nbsp;<b>tst:</b>" ++ tst ++ s "<br>") ++ line (s "<hr>")) ++
          line text ++ line [].
  (** An entry of the table of contents: a link. *)
  Definition entry (n : name) (a : artifact) (o : str) : Prop :=
    exists col, tinted a col /\
      o = line (s "- <a style=""font-weight: bold; color: " ++ col ++ s """ title=""" ++ n_key n ++ s """ href=""#" ++ n_key n ++ s """>" ++ n_raw n ++ s "</a>").
  Definition document (ex : md_export) (o : str) : Prop :=
    exists toc secs, Forall2 (fun (e : name * artifact) x => section (snd e) x) (pr_arts p) secs /\
      (if ex_toc ex then exists es, Forall2 (fun (e : name * artifact) x => entry (fst e) (snd e) x) (pr_arts p) es /\
         toc = line (ms_prefix ms ++ s "# Table Of Contents") ++ concat es ++ line [] ++ line []
       else toc = []) /\
      o = match ex_header ex with Some h => line h | None => [] end ++ toc ++ concat secs.
End Shown.
