(** What rendering replaces in a text, without regular expressions. *)
From Verif Require Import Base SpecName.

(** A text is cut into plain characters, subnames, references and dot blocks. *)
Inductive piece := PChar (c : char) | PSub (x : str) | PRef (x y : str) | PDot (fence white body : str).

(** The text of a piece: a block is the fence, white space, a line break, a body, a line break and
    three back ticks. *)
Definition source (k : piece) : str :=
  match k with
  | PChar c => [c]
  | PSub x => s "[[" ++ x ++ s "]]"
  | PRef x y => s "[[" ++ x ++ y ++ s "]]"
  | PDot f w b => f ++ w ++ 10%N :: b ++ 10%N :: s "```"
  end.
Definition ends_line (rest : str) : Prop := rest = [] \/ exists q, rest = 10%N :: q.

(** [mark bol k rest]: [k] followed by [rest] may be replaced; blocks stand at the beginning of a
    line ([bol]) and end at the end of a line. *)
Inductive mark : bool -> piece -> str -> Prop :=
| MSub b x rest : valid_sub x -> mark b (PSub x) rest
| MRef b x y rest : valid_name x \/ longs_name x -> y = [] \/ valid_sub y -> mark b (PRef x y) rest
| MDot f w b rest : str_ci (s "```dot") f -> Forall (fun c => is_ws c = true) w -> b <> [] -> ends_line rest -> mark true (PDot f w b) rest.

(** Of the blocks that start at a place the one with the most white space is taken, then the one
    with the shortest body. *)
Definition preferred (bol : bool) (k : piece) (rest : str) : Prop :=
  match k with
  | PDot f w b => forall f' w' b' rest', mark bol (PDot f' w' b') rest' -> source (PDot f' w' b') ++ rest' = source k ++ rest ->
      length w' < length w \/ (length w' = length w /\ length b <= length b')
  | _ => True
  end.

(** From left to right: what can be replaced is replaced, other characters stay. *)
Inductive cut : bool -> str -> list piece -> Prop :=
| CutNil b : cut b [] []
| CutMark b k rest ks : mark b k rest -> preferred b k rest -> cut false rest ks -> cut b (source k ++ rest) (k :: ks)
| CutChar b c rest ks : (forall k rest', mark b k rest' -> source k ++ rest' <> c :: rest) ->
    cut (N.eqb c 10) rest ks -> cut b (c :: rest) (PChar c :: ks).
