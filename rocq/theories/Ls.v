(** artifact-app/src/ls.rs: the command [art ls], and the colours of completion. *)
From Coq Require Import ZArith.
From Verif Require Import Base Name Family Artifact.
Open Scope nat_scope.

(** ** Colours.  Reported ratios are whole thousandths (graph.rs [round_ratio]; Artifact.v). *)
(** artifact-ser/src/lib.rs:292-302 *)
Definition spc_points (spc : Z) : nat :=
  if Z.leb 1000 spc then 3 else if Z.leb 700 spc then 2 else if Z.leb 400 spc then 1 else 0.
(** artifact-ser/src/lib.rs:307-315 *)
Definition tst_points (tst : Z) : nat :=
  if Z.leb 1000 tst then 2 else if Z.leb 500 tst then 1 else 0.
Inductive color := Red | Yellow | Blue | Green.
(** ls.rs:577-587, 590-599 and 602-610; [unreachable!] *)
Definition spc_color (spc : Z) : res color :=
  match spc_points spc with 0 => Ok Red | 1 => Ok Yellow | 2 => Ok Blue | 3 => Ok Green | _ => Panic end.
Definition tst_color (tst : Z) : res color :=
  match tst_points tst with 0 => Ok Red | 1 => Ok Yellow | 2 => Ok Green | _ => Panic end.
Definition points_color (n : nat) : res color :=
  match n with 0 => Ok Red | 1 | 2 => Ok Yellow | 3 | 4 => Ok Blue | 5 => Ok Green | _ => Panic end.
Definition name_color (spc tst : Z) : res color := points_color (spc_points spc + tst_points tst).
(** artifact-ser/src/markdown.rs:426-434 *)
Definition completed_color (spc tst : Z) : res str :=
  match spc_points spc + tst_points tst with
  | 0 => Ok (s "red") | 1 | 2 => Ok (s "orange") | 3 | 4 => Ok (s "blue") | 5 => Ok (s "olive") | _ => Panic
  end.

(** ** Flags *)
(** ls.rs:276-285 *)
Record flags := mkFlags { fl_name : bool; fl_file : bool; fl_subnames : bool; fl_parts : bool; fl_partof : bool; fl_impl : bool; fl_text : bool }.
(** ls.rs:309-319 and 300-307 *)
Definition flags_empty : flags := mkFlags false false false false false false false.
Definition flags_default : flags := mkFlags true false false true false false false.
(** ls.rs:385-403, [len] *)
Definition b2n (b : bool) : nat := if b then 1 else 0.
Definition flags_len (f : flags) : nat :=
  b2n (fl_name f) + b2n (fl_file f) + b2n (fl_subnames f) + b2n (fl_parts f) + b2n (fl_partof f) + b2n (fl_impl f) + b2n (fl_text f).
(** ls.rs:406-418, [invert] *)
Definition flags_invert (f : flags) : flags :=
  mkFlags (negb (fl_name f)) (negb (fl_file f)) (negb (fl_subnames f)) (negb (fl_parts f)) (negb (fl_partof f)) (negb (fl_impl f)) (negb (fl_text f)).
(** ls.rs:374-382, [resolve_actual] *)
Definition resolve_actual (f : flags) (all : bool) : flags :=
  if all then flags_invert f else if Nat.eqb (flags_len f) 0 then flags_default else f.

(** ls.rs:287-297 *)
Definition valid_fields : list str :=
  [s "N"; s "F"; s "S"; s "P"; s "O"; s "I"; s "T"; s "A"; s "name"; s "file"; s "subnames"; s "parts"; s "partof"; s "impl"; s "text"; s "all"].
Definition nonempty (x : str) : bool := negb (is_nil x).
(** ls.rs:323-329: the fields of a string; [split("")] gives the characters, between two empty
    strings *)
Definition split_fields (x : str) : list str :=
  is_collect str_eqb
    (if mem_char c_comma x then filter nonempty (split_on c_comma x)
     else if negb (existsb is_upper x) then [x]
     else map (fun c => [c]) x).
(** ls.rs:321-346, [from_str] *)
Definition flags_from_str (x : str) : res flags :=
  if is_nil x then Err
  else
    let fs := split_fields x in
    if negb (forallb (fun f => is_mem str_eqb f valid_fields) fs) then Err
    else
      let fc a b := is_mem str_eqb a fs || is_mem str_eqb b fs in
      Ok (resolve_actual
            (mkFlags (fc (s "N") (s "name")) (fc (s "F") (s "file")) (fc (s "S") (s "subnames")) (fc (s "P") (s "parts"))
                     (fc (s "O") (s "partof")) (fc (s "I") (s "impl")) (fc (s "T") (s "text")))
            (fc (s "A") (s "all"))).
(** ls.rs:349-370, [from_cmd]: the flags given, [-A] and [-l] *)
Definition flags_from_cmd (given : flags) (all long : bool) : flags :=
  resolve_actual (if long && negb all && Nat.eqb (flags_len given) 0 then flags_invert flags_empty else given) all.

(** ** The command *)
(** ls.rs:33-128, without verbosity and working directory *)
Record ls_cmd := mkLs {
  ls_pattern : option str; ls_fields : str; ls_long : bool; ls_spc : str; ls_tst : str;
  ls_flags : flags; ls_all : bool; ls_type : str }.

(** Crate termstyle: a text with its style.  How tables are laid out is not modelled: they are
    rows of cells, cells are lists of texts. *)
Record text := mkText { tx : str; tx_color : option color; tx_bold : bool; tx_italic : bool }.
Definition plain (x : str) : text := mkText x None false false.
Definition colored (x : str) (c : color) : text := mkText x (Some c) false false.
Definition bold (t : text) : text := mkText (tx t) (tx_color t) true (tx_italic t).
Definition italic (x : str) : text := mkText x None false true.
Definition c_pct : char := 37%N.

(** [format!("{:.1}", x * 100.0)] for [x] thousandths, not negative *)
Fixpoint dec (fuel : nat) (n : N) : str :=
  match fuel with
  | 0 => []
  | S k => (if N.ltb n 10 then [] else dec k (n / 10)%N) ++ [(48 + n mod 10)%N]
  end.
Definition percent (x : Z) : str := dec (S (Z.to_nat x)) (Z.to_N x / 10)%N ++ [c_dot; (48 + Z.to_N x mod 10)%N].

Inductive output (A : Type) := OJson (l : list A) | OLong (t : list text) | OTable (rows : list (list (list text))).
Arguments OJson {A}.  Arguments OLong {A}.  Arguments OTable {A}.

(** Replace a character ([str::replace]) *)
Definition replace_char (c : char) (r x : str) : str := flat_map (fun d => if N.eqb d c then r else [d]) x.

Section Ls.
  Context {M : num} {H : Type}.
  (** The reported ratio in thousandths. *)
  Variable reported : F M -> Z.
  (** [Regex::new]: [None] is an error, otherwise which texts the regex matches. *)
  Variable regex : str -> option (str -> bool).
  (** [Path::to_string_lossy] and [Path::display] *)
  Variable path_str : path -> str.
  (** artifact-lib/src/lib.rs:207-217, [Display for ImplCode] *)
  Variable code_str : impl_code -> str.
  Notation artifact := (artifact M H).
  Notation artifacts := (list (name * Artifact.artifact M H)).

  (** ls.rs:182-210, the closure [filter_map] *)
  Definition keeps (m : str -> bool) (f : flags) (a : artifact) : bool :=
    let any l := existsb (fun n : name => m (n_raw n)) l in
    negb ((fl_name f && negb (m (n_raw (a_name a)))) || (fl_file f && negb (m (path_str (a_file a)))) ||
          (fl_parts f && negb (any (a_parts a))) || (fl_partof f && negb (any (a_partof a))) ||
          (fl_text f && negb (m (a_text a)))).
  (** ls.rs:166-213, [filter_artifacts] *)
  Definition filter_artifacts (cmd : ls_cmd) (arts : artifacts) : res (list name) :=
    res_bind (flags_from_str (ls_fields cmd)) (fun f =>
    if fl_impl f then Err
    else match ls_pattern cmd with
         | None => Ok (is_collect name_eqb (map fst arts))
         | Some p =>
             match regex (if starts_with p (s "(?") then p else s "(?i)" ++ p) with
             | None => Err
             | Some m => Ok (is_collect name_eqb (map fst (filter (fun e => keeps m f (snd e)) arts)))
             end
         end).

  (** ls.rs:522-524, [name_style] *)
  Definition name_style (a : artifact) : res text :=
    res_bind (name_color (reported (fst (a_completed a))) (reported (snd (a_completed a)))) (fun c =>
    Ok (colored (n_raw (a_name a)) c)).
  (** ls.rs:526-539, [subname_style] *)
  Definition subname_style (a : artifact) (sub : subname) : text :=
    colored (s_raw sub)
      (match a_impl a with
       | ICode c => if im_mem sub_eqb sub (ic_secondary c) then Green else Red
       | _ => Red
       end).
  (** ls.rs:577-599, [spc_style] and [tst_style] *)
  Definition spc_style (a : artifact) : res text :=
    res_bind (spc_color (reported (fst (a_completed a)))) (fun c => Ok (colored (percent (reported (fst (a_completed a)))) c)).
  Definition tst_style (a : artifact) : res text :=
    res_bind (tst_color (reported (snd (a_completed a)))) (fun c => Ok (colored (percent (reported (snd (a_completed a)))) c)).
  (** The texts with [", "] after each, the last one removed. *)
  Definition separated (l : list text) : list text := removelast (flat_map (fun t => [t; plain (s ", ")]) l).
  (** ls.rs:552-567, [lookup_name_styles] *)
  Definition lookup_name_styles (arts : artifacts) (names : list name) : res (list text) :=
    res_bind (res_map (fun n => match im_get name_eqb n arts with
                                | None => Ok (italic (n_raw n))
                                | Some a => name_style a
                                end) names) (fun l => Ok (separated l)).
  (** artifact-lib/src/lib.rs:197-205, [Display for Impl] *)
  Definition impl_str (i : impl) : str :=
    match i with IDone d => d | ICode c => code_str c | INot => s "not directly implemented" end.
  (** ls.rs:467-469, with [truncate] (543-549) *)
  Definition text_cell (x : str) : str := replace_char c_nl (s "\n") (firstn 30 x).

  (** ls.rs:433-474, [line_style] *)
  Definition cell (r : res (list text)) : res (list text) := res_bind r (fun c => Ok (plain (s " | ") :: c)).
  Definition cell_if (b : bool) (r : res (list text)) (out : list (list text)) : res (list (list text)) :=
    if b then res_bind (cell r) (fun c => Ok (out ++ [c])) else Ok out.
  Definition line_style (arts : artifacts) (f : flags) (a : artifact) : res (list (list text)) :=
    res_bind (spc_style a) (fun spc =>
    res_bind (tst_style a) (fun tst =>
    res_bind (cell_if (fl_name f) (res_bind (name_style a) (fun t => Ok [t])) [[spc]; [tst]]) (fun out =>
    res_bind (cell_if (fl_subnames f) (Ok (separated (map (subname_style a) (a_subnames a)))) out) (fun out =>
    res_bind (cell_if (fl_parts f) (lookup_name_styles arts (a_parts a)) out) (fun out =>
    res_bind (cell_if (fl_partof f) (lookup_name_styles arts (a_partof a)) out) (fun out =>
    res_bind (cell_if (fl_file f) (Ok [plain (path_str (a_file a))]) out) (fun out =>
    res_bind (cell_if (fl_impl f) (Ok [plain (impl_str (a_impl a))]) out) (fun out =>
    cell_if (fl_text f) (Ok [plain (text_cell (a_text a))]) out)))))))).

  (** ls.rs:216-257, [display_table] *)
  Definition head (x : str) : list text := [bold (plain x)].
  Definition head_if (b : bool) (x : str) : list (list text) := if b then [head x] else [].
  Definition header (f : flags) : list (list text) :=
    [head (s "spc%"); head (s "tst%")] ++ head_if (fl_name f) (s " | name") ++ head_if (fl_subnames f) (s " | subnames") ++
    head_if (fl_parts f) (s " | parts") ++ head_if (fl_partof f) (s " | partof") ++ head_if (fl_file f) (s " | file") ++
    head_if (fl_impl f) (s " | impl") ++ head_if (fl_text f) (s " | text").
  (** [artifacts[name]] *)
  Definition index (arts : artifacts) (n : name) : res artifact :=
    match im_get name_eqb n arts with Some a => Ok a | None => Panic end.
  Definition display_table (arts : artifacts) (f : flags) (names : list name) : res (list (list (list text))) :=
    res_bind (res_map (fun n => res_bind (index arts n) (line_style arts f)) names) (fun rows => Ok (header f :: rows)).

  (** ls.rs:476-520, [full_style] *)
  Definition line (l : list text) : list text := l ++ [plain [c_nl]].
  Definition extend_names (arts : artifacts) (title : str) (names : list name) : res (list text) :=
    res_bind (lookup_name_styles arts names) (fun l =>
    Ok (line [bold (plain (title ++ s ":"))] ++ flat_map (fun t => line [bold (plain (s "- ")); t]) l)).
  Definition full_style (arts : artifacts) (f : flags) (a : artifact) : res (list text) :=
    res_bind (name_style a) (fun nm =>
    res_bind (spc_style a) (fun spc =>
    res_bind (tst_style a) (fun tst =>
    res_bind (if fl_parts f then extend_names arts (s "Parts") (a_parts a) else Ok []) (fun parts =>
    res_bind (if fl_partof f then extend_names arts (s "Partof") (a_partof a) else Ok []) (fun partof =>
    Ok (line [bold (plain (s "# ")); bold nm] ++
        line [bold (plain (s "Completed: spc=")); spc; bold (plain (s "%  tst=")); tst; bold (plain (s "%"))] ++
        (if fl_file f then line [bold (plain (s "File: ")); plain (path_str (a_file a))] else []) ++
        (if fl_impl f then line [bold (plain (s "Implemented: ")); plain (impl_str (a_impl a))] else []) ++
        parts ++ partof ++
        (if fl_text f then line [plain (trim_end (a_text a))] else []) ++
        line [plain [c_nl; c_nl]])))))).

  (** ls.rs:131-164, [run] after loading; [sort] is that of line 140.  [Ok 0] is returned in all
      cases. *)
  Definition ls_run (cmd : ls_cmd) (arts : artifacts) : res (output artifact) :=
    let f := flags_from_cmd (ls_flags cmd) (ls_all cmd) (ls_long cmd) in
    res_bind (filter_artifacts cmd arts) (fun l =>
    let names := isort name_leb l in
    if str_eqb (ls_type cmd) (s "json") then
      res_bind (res_map (index arts) names) (fun l => Ok (OJson l))
    else if str_eqb (ls_type cmd) (s "list") then
      if ls_long cmd then
        res_bind (res_map (fun n => res_bind (index arts n) (full_style arts f)) names) (fun l => Ok (OLong (concat l)))
      else
        res_bind (display_table arts f names) (fun rows => Ok (OTable rows))
    else Err).
End Ls.

(** ** Project discovery *)
(** artifact-app/src/dev_prelude.rs:68-79, [find_repo]; [exists_] is [Path::exists].  Paths from the
    innermost component outwards. *)
Fixpoint find_up (exists_ : path -> bool) (r : list str) : res path :=
  if exists_ (rev r ++ [s ".art"]) then Ok (rev r)
  else match r with [] => Err | _ :: r' => find_up exists_ r' end.
Definition find_repo (exists_ : path -> bool) (d : path) : res path := find_up exists_ (rev d).
