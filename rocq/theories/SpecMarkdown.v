(** Specification of the markdown format, line by line and without regular expressions. *)
From Verif Require Import Base Name SpecName RawNames.

Definition blanks (w : str) : Prop := Forall (fun c => is_ws c = true) w.

(** Equal up to case for ASCII letters; s also matches U+017F and k U+212A. *)
Definition char_fold (c d : char) : Prop :=
  char_ci c d \/ (char_ci c 115 /\ d = 383%N) \/ (char_ci c 107 /\ d = 8490%N).

(** "# NAME" after the prefix. *)
Definition header_line (prefix l x : str) : Prop :=
  exists p w1 w2, l = p ++ [35%N] ++ w1 ++ x ++ w2 /\ Forall2 char_fold prefix p /\ blanks w1 /\ blanks w2 /\
    (valid_name x \/ longs_name x).
(** Three or more hashes. *)
Definition end_line (l : str) : Prop :=
  exists k w, l = s "###" ++ repeat 35%N k ++ w /\ blanks w.
(** Three backticks, anything that is empty or ends in a blank, "art" (or "arttt"). *)
Definition opener_line (l : str) : Prop :=
  exists x k w, l = s "```" ++ x ++ s "art" ++ repeat 116%N k ++ w /\ blanks w /\ ~ In 10%N x /\
    (x = [] \/ exists y c, x = y ++ [c] /\ is_ws c = true).
(** Three or more backticks. *)
Definition closer_line (l : str) : Prop :=
  exists k w, l = s "```" ++ repeat 96%N k ++ w /\ blanks w.

(** A line that is only text. *)
Definition text_line (prefix l : str) : Prop :=
  (forall x, ~ header_line prefix l x) /\ ~ end_line l /\ ~ opener_line l.
(** A text whose lines are only text, and do not end in a carriage return. *)
Definition quiet_text (prefix t : str) : Prop :=
  forall l, In l (split_on 10%N t) -> text_line prefix l /\ (forall p, l <> p ++ [13%N]).

(** The lines of a partof entry. *)
Definition partof_lines (v : names_val) : list str :=
  match v with
  | VStr x => [s "partof: " ++ x]
  | VSeq l => s "partof:" :: map (fun x => s "- " ++ x) l
  end.
Definition names_of (v : names_val) : list str := match v with VStr x => [x] | VSeq l => l end.

(** What is assumed of the YAML library: a done entry is one line starting with "done:" and
    not ending in a blank, and the entries that are written are read back. *)
Record yaml_ok (yaml : str -> option (option str * option names_val)) (yaml_done : str -> str) : Prop := {
  yo_done : forall d, exists v c, yaml_done d = s "done:" ++ v ++ [c] /\ is_ws c = false /\ ~ In 10%N v;
  yo_read_done : forall d, yaml (yaml_done d) = Some (Some d, None);
  yo_read_partof : forall v, names_of v <> [] -> Forall valid_name (names_of v) ->
    yaml (join [10%N] (partof_lines v)) = Some (None, Some v);
  yo_read_both : forall d v, names_of v <> [] -> Forall valid_name (names_of v) ->
    yaml (join [10%N] (yaml_done d :: [] :: partof_lines v)) = Some (Some d, Some v) }.

(** Prefixes that cannot be confused with a line of attributes or of a list ([plain]: the
    attributes are written as plain lines, not in a code block).  The comparison of other than
    ASCII letters is not modelled. *)
Definition prefix_ok (plain : bool) (p : str) : Prop :=
  ~ In 10%N p /\ Forall (fun c => (c < 128)%N) p /\
  (plain = true -> match p with [] => True | c :: _ => ~ char_fold c 100 /\ ~ char_fold c 112 /\ c <> 45 end)%N.
