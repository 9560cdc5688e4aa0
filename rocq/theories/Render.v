(** artifact-ser/src/markdown.rs and md_graph.rs: rendering the text of an artifact, and the
    whole project, as markdown with HTML; artifact-app/src/export.rs.

    The text written so far ([io::Write]) is the result; errors of the writer are left out. *)
From Coq Require Import ZArith.
From Verif Require Import Base Regex Name Artifact Lint Ls Api.
Open Scope nat_scope.

Definition nls (l : list str) : str := join [c_nl] l.
(** [{}] of an unsigned number *)
Definition nat_str (n : nat) : str := dec (S n) (N.of_nat n).
(** ** What is replaced *)
(** markdown.rs:23-29, [TEXT_DOT_STR] without the anchors; groups 2, 3 and 4 are "dot_pre", "dot"
    and "dot_post" *)
Definition any_char : re := Cls (fun _ => true).
Definition re_dot : re :=
  seqs [Cap 2 (Seq (cis (s "```dot")) (Star true ws)); lit c_nl;
        Cap 3 (Seq (Seq any_char (Star false any_char)) (lit c_nl)); Cap 4 (lits (s "```"))].
(** [$] in multi-line mode *)
Definition at_eol (t : str) : bool := match t with [] => true | c :: _ => N.eqb c c_nl end.

Inductive token := TSub (sub : str) | TRef (name : str) (sub : option str) | TDot (pre dot post : str) | TOther.
Definition cap_or (i : nat) (cs : caps) : str := match cap_get i cs with Some x => x | None => [] end.
(** markdown.rs:34-44, [REPLACE_TEXT_RE], at one position; [bol] says whether the position is at
    the beginning of a line ([^] in multi-line mode).  The three patterns are tried in this
    order; no match is empty.  (The pattern starts with the flags followed by a bar; regex-syntax
    0.5.6 has no expression for flags, so there is no empty first alternative.) *)
Definition token_here (bol : bool) (t : str) : option (str * token) :=
  match match_here re_text_sub t with
  | Some (rest, cs) => Some (rest, match cap_get 0 cs with Some x => TSub x | None => TOther end)
  | None =>
      match match_here re_text_ref t with
      | Some (rest, cs) => Some (rest, match cap_get 0 cs with Some x => TRef x (cap_get 1 cs) | None => TOther end)
      | None =>
          if bol
          then match filter (fun st : Regex.mstate => at_eol (fst st)) (run re_dot t []) with
               | (rest, cs) :: _ => Some (rest, TDot (cap_or 2 cs) (cap_or 3 cs) (cap_or 4 cs))
               | [] => None
               end
          else None
      end
  end.
(** [Regex::replace_all].  The matches end in "]" or "`", so what follows is not at the beginning
    of a line. *)
Fixpoint replace_from (f : token -> res str) (fuel : nat) (bol : bool) (t : str) : res str :=
  match fuel with
  | 0 => Ok t
  | S n =>
      match token_here bol t with
      | Some (rest, k) => res_bind (f k) (fun x => res_bind (replace_from f n false rest) (fun y => Ok (x ++ y)))
      | None =>
          match t with
          | [] => Ok []
          | c :: t' => res_bind (replace_from f n (N.eqb c c_nl) t') (fun y => Ok (c :: y))
          end
      end
  end.
Definition replace_all (f : token -> res str) (t : str) : res str := replace_from f (length t) true t.

(** artifact-ser/src/lib.rs:115-145 *)
Inductive md_family := FamilyList | FamilyDot.
Inductive md_dot := DotIgnore | DotRemove | DotReplace (pre post : str).
(** markdown.rs:53-61, [SerMarkdownSettings] *)
Record md_settings := mkMs { ms_url : option str; ms_family : md_family; ms_dot : md_dot; ms_prefix : str }.
(** artifact-ser/src/lib.rs:82-109, [SettingsExport] with the settings that are not in [md_settings] *)
Record md_export := mkExport { ex_header : option str; ex_toc : bool }.
(** artifact-ser/src/lib.rs:81-113: the header and the table of contents from the [export] table of the
    settings file, if there is one; [derive(Default)] for a settings file without that table. *)
Definition export_of (table : option (option str * option bool)) : md_export :=
  match table with
  | None => mkExport None false
  | Some (h, toc) => mkExport h (match toc with Some b => b | None => true end)
  end.
(** artifact-ser/src/lib.rs:147-168, [SettingsMdName::to_prefix_string] *)
Definition md_prefix (value : option str) : str := match value with Some v => v | None => [] end.

(** markdown.rs:9-14 *)
Definition gray : str := s "#DCDEE2".
Definition olive : str := s "#3DA03D".
Definition blue : str := s "#0074D9".
Definition orange : str := s "#FF851B".
Definition red : str := s "#FF4136".
Definition purple : str := s "#B10DC9".
(** markdown.rs:426-434, [completed_color] *)
Definition completed_hex (spc tst : Z) : res str :=
  match spc_points spc + tst_points tst with
  | 0 => Ok red | 1 | 2 => Ok orange | 3 | 4 => Ok blue | 5 => Ok olive | _ => Panic
  end.
(** markdown.rs:409-424, [CssFont] as used *)
Definition css_bold : str := s "font-weight: bold; ".
Definition css_italic : str := s "font-style: italic; ".
(** markdown.rs:381-407, [name_html_raw] *)
Definition name_html_raw (name : str) (sub : option str) (color font title : str) (href : option str) : str :=
  s "<a style=""" ++ font ++ s "color: " ++ color ++ s """ title=""" ++ title ++ s """ " ++
  match href with Some h => s "href=""#" ++ h ++ s """" | None => [] end ++ s ">" ++ name ++ match sub with Some x => x | None => [] end ++ s "</a>".
(** ser.rs:222-226, [Debug for CodeLocSer] *)
Definition loc_debug (file : str) (line : nat) : str := file ++ s "[" ++ nat_str line ++ s "]".

(** md_graph.rs:49-78, [wrap_dot] *)
Definition wrap_dot (dot : str) (lr : bool) : str :=
  nls [[]; s "        digraph G {"; s "        graph ["; s "            margin=0.001; label="""";";
       s "            " ++ (if lr then s "randir=LR;" else []); s "        ];"; [];
       s "        ////////////////////"; s "        // DOT INSERTED HERE"; []; s "        " ++ dot; [];
       s "        ///////////////////"; s "        // END INSERTED DOT"; []; s "        }"; s "        "].
(** md_graph.rs:35-37, [connect_names_dot] *)
Definition connect_names_dot (a b : name) : str := s "        """ ++ n_key a ++ s """ -> """ ++ n_key b ++ s """" ++ [c_nl].
(** md_graph.rs:103-120, [subname_raw] *)
Definition subname_raw (sub : subname) (attrs : option str) : str :=
  nls [[]; s "        {"; s "            """ ++ s_key sub ++ s """ ["; s "                label=""" ++ s_raw sub ++ s """;";
       s "                fontsize=12; margin=0.15;"; s "                shape=cds;";
       s "                " ++ match attrs with Some a => a | None => s "style=filled; fillcolor=""#DCDEE2""" end ++ s ";";
       s "            ]"; s "        }"; s "        "].
(** md_graph.rs:174-196, [dne_name_dot] *)
Definition opt_raw (sub : option subname) : str := match sub with Some x => s_raw x | None => [] end.
Definition opt_key (sub : option subname) : str := match sub with Some x => s_key x | None => [] end.
Definition dne_name_dot (n : name) (sub : option subname) : str :=
  nls [[]; s "        {"; s "            """ ++ n_key n ++ opt_key sub ++ s """ [";
       s "                label=<<b>" ++ n_raw n ++ opt_raw sub ++ s "</b>>;";
       s "                fontcolor=black; style=filled; fillcolor=pink;";
       s "                fontsize=12; margin=0.01; shape=invhouse;";
       s "                tooltip=""Name not found"";"; s "            ]"; s "        }"; s "        "].
(** [str::to_ascii_lowercase] *)
Definition lowc (c : char) : char := if is_upper c then (c + 32)%N else c.
Definition lower (x : str) : str := map lowc x.

Section Render.
  Context {M : num} {H : Type}.
  (** The reported ratio in thousandths. *)
  Variable reported : F M -> Z.
  (** The text of a path in the served project ([PathFile] through JSON) *)
  Variable path_str : path -> str.
  (** Crate strfmt with the variables "file" and "line": template, file, line; [None] is an error *)
  Variable strfmt : str -> str -> str -> option str.
  (** [ProjectSer] (ser.rs:66-71) is the project through JSON (artifact-lib/src/lib.rs:410-412,
      [to_ser]); [base] is [settings.base]. *)
  Variable p : project M H.
  Variable base : str.
  Variable ms : md_settings.
  Notation artifact := (artifact M H).

  (** markdown.rs:374-379, [name_color] *)
  Definition name_hex (n : name) : res str :=
    match im_get name_eqb n (pr_arts p) with
    | Some a => completed_hex (reported (fst (a_completed a))) (reported (snd (a_completed a)))
    | None => Ok gray
    end.
  (** markdown.rs:348-351 and 364-372, [format_code_url] with [strfmt_code_url] *)
  Definition format_code_url (ufmt file : str) (line : nat) : option str := strfmt ufmt (trim_base base file) (nat_str (line + 1)).
  (** markdown.rs:341-346, [format_code_url_maybe]; [expect!] *)
  Definition format_code_url_maybe (file : str) (line : nat) : res (option str) :=
    match ms_url ms with
    | Some u => match format_code_url u file line with Some x => Ok (Some x) | None => Panic end
    | None => Ok None
    end.
  (** markdown.rs:318-325, [html_file_url] *)
  Definition html_file_url (file : str) : res str :=
    res_bind (format_code_url_maybe file 0) (fun u =>
    Ok match u with Some u => s "<a href=""" ++ u ++ s """>" ++ trim_base base file ++ s "</a>" | None => trim_base base file end).
  (** markdown.rs:328-336, [html_code_url] *)
  Definition html_code_url (file : str) (line : nat) : res str :=
    let shown := trim_base base file ++ s "[" ++ nat_str line ++ s "]" in
    res_bind (format_code_url_maybe file line) (fun u =>
    Ok match u with Some u => s "<a href=""" ++ u ++ s """>" ++ shown ++ s "</a>" | None => shown end).
  (** markdown.rs:206-231, [replace_markdown_sub] *)
  Definition replace_markdown_sub (parent sub : str) : res str :=
    let finish (title color : str) (href : option str) : str :=
      match href with
      | Some h => s "<a title=""" ++ title ++ s """ style=""color: " ++ color ++ s """ href=""" ++ h ++ s """><b>" ++ sub ++ s "</b></a>"
      | None => s "<span title=""" ++ title ++ s """ style=""color: " ++ color ++ s """><b><i>" ++ sub ++ s "</i></b></span>"
      end in
    match get_impl (pr_code p) parent (Some sub) with
    | Ok c => res_bind (format_code_url_maybe (path_str (loc_file c)) (loc_line c)) (fun href =>
              Ok (finish (loc_debug (path_str (loc_file c)) (loc_line c)) blue href))
    | Err => Ok (finish (s "Not Implemented") red None)
    | Panic => Panic
    end.
  (** markdown.rs:269-293 and 295-315, [name_markdown] and [name_subname_markdown] *)
  Definition name_markdown (n : name) (sub : option subname) : res str :=
    match im_get name_eqb n (pr_arts p) with
    | Some a =>
        match sub with
        | Some x =>
            if is_mem sub_eqb x (a_subnames a)
            then res_bind (name_hex n) (fun c => Ok (name_html_raw (n_raw n) (Some (s_raw x)) c css_bold (n_key n ++ s_key x) (Some (n_key n))))
            else Ok (name_html_raw (n_raw n) (Some (s_raw x)) purple css_italic (n_key n ++ s_key x ++ s " not found") None)
        | None => res_bind (name_hex n) (fun c => Ok (name_html_raw (n_raw n) None c css_bold (n_key n) (Some (n_key n))))
        end
    | None => Ok (name_html_raw (n_raw n) None purple css_italic (n_key n ++ s " not found") None)
    end.

  (** md_graph.rs:122-172, [fullname_dot] *)
  Definition fullname_dot (n : name) (sub : option subname) (focus : bool) : res str :=
    match im_get name_eqb n (pr_arts p) with
    | None => Ok (dne_name_dot n sub)
    | Some a =>
        if match sub with Some x => negb (is_mem sub_eqb x (a_subnames a)) | None => false end then Ok (dne_name_dot n sub)
        else res_bind (name_hex n) (fun color =>
          Ok (nls [[]; s "        {"; s "            """ ++ n_key n ++ opt_key sub ++ s """ [";
                   s "                label=""" ++ n_raw n ++ opt_raw sub ++ s """;";
                   s "                href=""#" ++ lower (n_key n) ++ s """;";
                   s "                fontcolor=""" ++ color ++ s """;";
                   s "                fontsize=" ++ (if focus then s "12" else s "8") ++ s "; margin=0.01;";
                   s "                shape=invhouse;";
                   s "                " ++ (if focus then s "penwidth=1.5" else s "style=filled; fillcolor=""" ++ gray ++ s """;");
                   s "            ]"; s "        }"; s "        "]))
    end.
  (** md_graph.rs:80-82, [name_dot] *)
  Definition name_dot (n : name) (focus : bool) : res str := fullname_dot n None focus.
  (** md_graph.rs:84-101, [subname_dot] *)
  Definition subname_dot (parent : str) (sub : subname) : res str :=
    match name_from_str parent with
    | Panic => Panic
    | Err => Ok (subname_raw sub None)
    | Ok n =>
        match get_impl (pr_code p) (n_raw n) (Some (s_raw sub)) with
        | Panic => Panic
        | r => Ok (subname_raw sub (Some (s "penwidth=1.5; fontcolor=""" ++ match r with Ok _ => blue | _ => red end ++ s """")))
        end
    end.
  (** md_graph.rs:23-33 and 39-46, [artifact_part_dot] with [push_connections] *)
  Definition artifact_part_dot (a : artifact) : res str :=
    res_bind (name_dot (a_name a) true) (fun d0 =>
    res_bind (res_map (fun n => name_dot n false) (a_parts a)) (fun d1 =>
    res_bind (res_map (fun n => name_dot n false) (a_partof a)) (fun d2 =>
    Ok (wrap_dot (d0 ++ concat d1 ++ concat d2 ++ concat (map (connect_names_dot (a_name a)) (a_parts a)) ++
                  concat (map (fun n => connect_names_dot n (a_name a)) (a_partof a))) true)))).

  (** The macros [name!] and [subname!]: an invalid name panics *)
  Definition name_mac (x : str) : res name := match name_from_str x with Ok n => Ok n | _ => Panic end.
  Definition sub_mac (x : str) : res subname := match sub_from_str x with Ok n => Ok n | _ => Panic end.
  Definition opt_mac (x : option str) : res (option subname) :=
    match x with Some y => res_bind (sub_mac y) (fun n => Ok (Some n)) | None => Ok None end.
  (** markdown.rs:238-249: the replacer inside a dot block *)
  Definition dot_replacer (parent : str) (k : token) : res str :=
    match k with
    | TSub x => res_bind (sub_mac x) (subname_dot parent)
    | TRef x y => res_bind (opt_mac y) (fun sub => res_bind (name_mac x) (fun n => fullname_dot n sub true))
    | TDot _ _ _ => Ok (s "**RENDER ERROR: cannot put dot within dot**")
    | TOther => Panic
    end.
  (** markdown.rs:233-267, [replace_markdown_dot] *)
  Definition replace_markdown_dot (parent pre dot post : str) : res str :=
    res_bind (replace_all (dot_replacer parent) dot) (fun d =>
    Ok (match ms_dot ms with DotIgnore => pre | DotRemove => [] | DotReplace x _ => x end ++ [c_nl] ++ d ++ [c_nl] ++
        match ms_dot ms with DotIgnore => post | DotRemove => [] | DotReplace _ y => y end)).
  (** markdown.rs:189-203, [replace_markdown] *)
  Definition replacer (parent : str) (k : token) : res str :=
    match k with
    | TSub x => replace_markdown_sub parent x
    | TRef x y => res_bind (opt_mac y) (fun sub => res_bind (name_mac x) (fun n => name_markdown n sub))
    | TDot pre dot post => replace_markdown_dot parent pre dot post
    | TOther => Panic
    end.
  Definition replace_markdown (parent t : str) : res str := replace_all (replacer parent) t.

  (** ** The document *)
  (** markdown.rs:353-356 and 358-361, [tag_details_begin] and [tag_details_end] *)
  Definition details_begin (x : str) : str := s "<details>" ++ [c_nl] ++ s "<summary><b>" ++ x ++ s "</b></summary>" ++ [c_nl; c_nl].
  Definition details_end : str := s "</details>" ++ [c_nl; c_nl].
  (** markdown.rs:143-184, [art_to_markdown_family] *)
  Definition family_section (title : str) (l : list name) : res str :=
    match l with
    | [] => Ok (s "<b>" ++ title ++ s ":</b> <i>none</i></a><br>" ++ [c_nl])
    | _ => res_bind (res_map (fun n => res_bind (name_markdown n None) (fun x => Ok (s "<li>" ++ x ++ s "</li>" ++ [c_nl]))) l) (fun ls =>
           Ok (s "<b>" ++ title ++ s ":</b><br>" ++ [c_nl] ++ concat ls))
    end.
  Definition art_to_markdown_family (a : artifact) : res str :=
    match ms_family ms with
    | FamilyList => res_bind (family_section (s "partof") (a_partof a)) (fun x => res_bind (family_section (s "parts") (a_parts a)) (fun y => Ok (x ++ y)))
    | FamilyDot =>
        res_bind (artifact_part_dot a) (fun d =>
        Ok (details_begin (s "dot-graph") ++
            match ms_dot ms with DotReplace x _ => x | _ => s "```dot" end ++ [c_nl] ++ d ++ [c_nl] ++
            match ms_dot ms with DotReplace _ y => y | _ => s "```" end ++ [c_nl] ++ details_end))
    end.
  (** [{:.2}] of a ratio times 100: two digits, the last of them 0 *)
  Definition percent2 (x : Z) : str := percent x ++ [48%N].
  (** markdown.rs:105-141, [art_to_markdown] *)
  Definition html_line (x y : str) : str := s "<b>" ++ x ++ s ":</b> " ++ y ++ s "<br>" ++ [c_nl].
  Definition art_to_markdown (a : artifact) : res str :=
    res_bind (art_to_markdown_family a) (fun family =>
    res_bind (html_file_url (path_str (a_file a))) (fun file =>
    res_bind match a_impl a with
             | IDone d => Ok d
             | ICode (mkCode (Some c) _) => html_code_url (path_str (loc_file c)) (loc_line c)
             | _ => Ok (s "<i>not implemented</i>")
             end (fun impl =>
    res_bind (replace_markdown (n_raw (a_name a)) (a_text a)) (fun text =>
    Ok (ms_prefix ms ++ s "# " ++ n_raw (a_name a) ++ [c_nl] ++ details_begin (s "metadata") ++ family ++ html_line (s "file") file ++ html_line (s "impl") impl ++
        s "<b>spc:</b>" ++ percent2 (reported (fst (a_completed a))) ++ s "&nbsp;&nbsp;<b>tst:</b>" ++ percent2 (reported (snd (a_completed a))) ++ s "<br>" ++ [c_nl] ++
        s "<hr>" ++ [c_nl] ++ details_end ++ text ++ [c_nl; c_nl]))))).
  (** markdown.rs:96-103, [to_markdown_toc] *)
  Definition to_markdown_toc : res str :=
    res_bind (res_map (fun e : name * artifact => res_bind (name_markdown (fst e) None) (fun x => Ok (s "- " ++ x ++ [c_nl]))) (pr_arts p)) (fun l =>
    Ok (ms_prefix ms ++ s "# Table Of Contents" ++ [c_nl] ++ concat l ++ [c_nl; c_nl])).
  (** markdown.rs:79-94, [to_markdown] *)
  Definition to_markdown (ex : md_export) : res str :=
    res_bind (if ex_toc ex then to_markdown_toc else Ok []) (fun toc =>
    res_bind (res_map (fun e : name * artifact => art_to_markdown (snd e)) (pr_arts p)) (fun l =>
    Ok (match ex_header ex with Some h => h ++ [c_nl] | None => [] end ++ toc ++ concat l))).
End Render.
