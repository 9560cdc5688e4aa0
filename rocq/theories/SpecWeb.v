(** Specification of routing and of the histories of the web client. *)
From Verif Require Import Base SpecName SpecSource.

(** [x] is the first name in [h], as long as possible. *)
Definition first_name (h x : str) : Prop :=
  exists p q, h = p ++ x ++ q /\ name_like x /\
    (forall p' x' q', h = p' ++ x' ++ q' -> name_like x' -> length p <= length p') /\
    (forall x' q', h = p ++ x' ++ q' -> name_like x' -> length x' <= length x).
Definition without_name (h : str) : Prop := forall p x q, h = p ++ x ++ q -> ~ name_like x.

(** [q] begins with "edit/" and the digits [ds], all that follow. *)
Definition edit_here (digit : char -> Prop) (q ds : str) : Prop :=
  exists e v, q = e ++ ds ++ v /\ str_ci (s "edit/") e /\ ds <> [] /\ Forall digit ds /\
    match v with [] => True | c :: _ => ~ digit c end.
(** The digits after the first "edit/" with digits in [h]. *)
Definition first_edit (digit : char -> Prop) (h ds : str) : Prop :=
  exists p q, h = p ++ q /\ edit_here digit q ds /\
    forall p' q' ds', h = p' ++ q' -> edit_here digit q' ds' -> length p <= length p'.

(** The decimal numeral [x] denotes [n]; leading zeros are allowed. *)
Inductive numeral : str -> N -> Prop :=
| num_digit d : (d < 10)%N -> numeral [(48 + d)%N] d
| num_more x n d : numeral x n -> (d < 10)%N -> numeral (x ++ [(48 + d)%N]) (10 * n + d)%N.
