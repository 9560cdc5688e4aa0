(** Specification: the artifact headers of a markdown file, in order.  Lines in an attribute block
    that was opened by three backticks are not looked at; a block that is never closed reaches to
    the end of the file. *)
From Verif Require Import Base Name SpecName SpecMarkdown.

Inductive heads (prefix : str) : bool -> list str -> list str -> Prop :=
| h_end b : heads prefix b [] []
| h_in l ls hs : ~ closer_line l -> heads prefix true ls hs -> heads prefix true (l :: ls) hs
| h_close l ls hs : closer_line l -> heads prefix false ls hs -> heads prefix true (l :: ls) hs
| h_head l x ls hs : header_line prefix l x -> heads prefix false ls hs -> heads prefix false (l :: ls) (x :: hs)
| h_open l ls hs : (forall x, ~ header_line prefix l x) -> ~ end_line l -> opener_line l ->
    heads prefix true ls hs -> heads prefix false (l :: ls) hs
| h_text l ls hs : (forall x, ~ header_line prefix l x) -> end_line l \/ ~ opener_line l ->
    heads prefix false ls hs -> heads prefix false (l :: ls) hs.
