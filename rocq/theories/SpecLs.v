(** What [art ls] is expected to do. *)
From Coq Require Import ZArith.
From Verif Require Import Base Name Family Artifact Ls.
Open Scope nat_scope.

(** ** Fields and how they are written *)
Inductive field := FdName | FdFile | FdSubnames | FdParts | FdPartof | FdImpl | FdText.
Definition selected (f : flags) (d : field) : bool :=
  match d with
  | FdName => fl_name f | FdFile => fl_file f | FdSubnames => fl_subnames f | FdParts => fl_parts f
  | FdPartof => fl_partof f | FdImpl => fl_impl f | FdText => fl_text f
  end.
Inductive token := TField (d : field) | TAll.
Definition letter (t : token) : char :=
  match t with
  | TField FdName => 78 | TField FdFile => 70 | TField FdSubnames => 83 | TField FdParts => 80
  | TField FdPartof => 79 | TField FdImpl => 73 | TField FdText => 84 | TAll => 65
  end%N.
Definition word (t : token) : str :=
  match t with
  | TField FdName => s "name" | TField FdFile => s "file" | TField FdSubnames => s "subnames" | TField FdParts => s "parts"
  | TField FdPartof => s "partof" | TField FdImpl => s "impl" | TField FdText => s "text" | TAll => s "all"
  end.

(** A text denotes tokens: letters in a row, one word, or letters and words between commas, where
    pieces may be empty. *)
Inductive piece : str -> list token -> Prop :=
| pc_none : piece [] []
| pc_letter t : piece [letter t] [t]
| pc_word t : piece (word t) [t].
Inductive denotes : str -> list token -> Prop :=
| dn_letters l : l <> [] -> denotes (map letter l) l
| dn_word t : denotes (word t) [t]
| dn_commas p l : 2 <= length p -> Forall2 piece p l -> denotes (join [c_comma] p) (concat l).

(** The fields that tokens select: nothing is name and parts, [A] selects those not named. *)
Definition selects (l : list token) (d : field) : Prop :=
  (l = [] /\ (d = FdName \/ d = FdParts)) \/
  (~ In TAll l /\ In (TField d) l) \/ (In TAll l /\ ~ In (TField d) l).

(** ** Filtering *)
Section Spec.
  Context {M : num} {H : Type}.
  Variable path_str : path -> str.
  Notation artifact := (artifact M H).
  Notation artifacts := (list (name * Artifact.artifact M H)).
  (** A field of an artifact has a match. *)
  Definition field_matches (m : str -> bool) (a : artifact) (d : field) : Prop :=
    match d with
    | FdName => m (n_raw (a_name a)) = true
    | FdFile => m (path_str (a_file a)) = true
    | FdText => m (a_text a) = true
    | FdParts => exists n, In n (a_parts a) /\ m (n_raw n) = true
    | FdPartof => exists n, In n (a_partof a) /\ m (n_raw n) = true
    | FdSubnames => exists x, In x (a_subnames a) /\ m (s_raw x) = true
    | FdImpl => False
    end.

  (** ** What is shown *)
  Variable code_str : impl_code -> str.
  Variable reported : F M -> Z.
  Definition texts (l : list text) : str := concat (map tx l).
  (** A name is shown as its artifact spells it. *)
  Definition shown (arts : artifacts) (n : name) : str :=
    match im_get name_eqb n arts with Some a => n_raw (a_name a) | None => n_raw n end.
  Definition columns : list field := [FdName; FdSubnames; FdParts; FdPartof; FdFile; FdImpl; FdText].
  Definition value (arts : artifacts) (a : artifact) (d : field) : str :=
    match d with
    | FdName => n_raw (a_name a)
    | FdSubnames => join (s ", ") (map s_raw (a_subnames a))
    | FdParts => join (s ", ") (map (shown arts) (a_parts a))
    | FdPartof => join (s ", ") (map (shown arts) (a_partof a))
    | FdFile => path_str (a_file a)
    | FdImpl => match a_impl a with IDone d => d | ICode c => code_str c | INot => s "not directly implemented" end
    | FdText => concat (map (fun c => if N.eqb c 10 then [92; 110]%N else [c]) (firstn 30 (a_text a)))
    end.
  Definition row (arts : artifacts) (cols : list field) (a : artifact) : list str :=
    [percent (reported (fst (a_completed a))); percent (reported (snd (a_completed a)))] ++
    map (fun d => s " | " ++ value arts a d) cols.
  Definition title (cols : list field) : list str :=
    [s "spc%"; s "tst%"] ++ map (fun d => s " | " ++ word (TField d)) cols.

  (** The lines of the long form, [items] gives the lines below a heading. *)
  Definition long (items : list str -> list str) (arts : artifacts) (f : field -> bool) (a : artifact) : list str :=
    [s "# " ++ n_raw (a_name a);
     s "Completed: spc=" ++ percent (reported (fst (a_completed a))) ++ s "%  tst=" ++ percent (reported (snd (a_completed a))) ++ s "%"] ++
    (if f FdFile then [s "File: " ++ value arts a FdFile] else []) ++
    (if f FdImpl then [s "Implemented: " ++ value arts a FdImpl] else []) ++
    (if f FdParts then s "Parts:" :: map (app (s "- ")) (items (map (shown arts) (a_parts a))) else []) ++
    (if f FdPartof then s "Partof:" :: map (app (s "- ")) (items (map (shown arts) (a_partof a))) else []) ++
    (if f FdText then [trim_end (a_text a)] else []) ++ [[c_nl; c_nl]].
End Spec.

(** Ranks of colours. *)
Definition rank (c : color) : nat := match c with Red => 0 | Yellow => 1 | Blue => 2 | Green => 3 end.
Definition html_name (c : color) : str := match c with Red => s "red" | Yellow => s "orange" | Blue => s "blue" | Green => s "olive" end.

(** ** The command as a whole *)
Section Command.
  Context {M : num} {H : Type}.
  Variable path_str : path -> str.
  Variable code_str : impl_code -> str.
  Variable reported : F M -> Z.
  Variable regex : str -> option (str -> bool).
  Notation artifact := (artifact M H).
  Notation artifacts := (list (name * Artifact.artifact M H)).

  (** Artifacts are kept under their names, once. *)
  Record arts_ok (arts : artifacts) : Prop := {
    ao_names : forall n a, In (n, a) arts -> a_name a = n;
    ao_once : NoDup (map (fun e => (n_ty (fst e), n_key (fst e))) arts) }.

  (** Case is ignored unless the pattern starts with flags of its own. *)
  Definition pattern_text (p : str) : str := if starts_with p (s "(?") then p else s "(?i)" ++ p.
  Definition searched (cmd : ls_cmd) : option (option (str -> bool)) :=
    match ls_pattern cmd with
    | None => Some None
    | Some p => match regex (pattern_text p) with Some m => Some (Some m) | None => None end
    end.

  (** The separators of a list, as items of their own. *)
  Fixpoint with_separators (l : list str) : list str :=
    match l with [] => [] | [x] => [x] | x :: l' => x :: s ", " :: with_separators l' end.

  (** What is printed for the artifacts [l]. *)
  Definition prints (cmd : ls_cmd) (arts : artifacts) (l : list artifact) (out : output artifact) : Prop :=
    let f := selected (flags_from_cmd (ls_flags cmd) (ls_all cmd) (ls_long cmd)) in
    match out with
    | OJson l' => ls_type cmd = s "json" /\ l' = l
    | OTable rows => ls_type cmd = s "list" /\ ls_long cmd = false /\
        map (map texts) rows = title (filter f columns) :: map (row path_str code_str reported arts (filter f columns)) l
    | OLong t => ls_type cmd = s "list" /\ ls_long cmd = true /\
        texts t = concat (map (fun x => x ++ [c_nl]) (flat_map (long path_str code_str reported with_separators arts f) l))
    end.
End Command.
