(** What a collapsed name list denotes, independently of the parser. *)
From Verif Require Import Base.

Definition blank (c : char) : Prop := (c = 32 \/ c = 10 \/ c = 13)%N.
Definition special (c : char) : Prop := (c = 91 \/ c = 93 \/ c = 44)%N.   (* [ ] , *)
Definition plain_text (x : str) : Prop := Forall (fun c => ~ blank c /\ ~ special c) x.

Definition no_blanks (raw r : str) : Prop :=
  r = filter (fun c => negb (N.eqb c 32 || N.eqb c 10 || N.eqb c 13)) raw.

Definition nonempty (x : str) : list str := match x with [] => [] | _ => [x] end.

(** Grammar of blank-free collapsed lists and the names each denotes. *)
Inductive denotes : str -> list str -> Prop :=
| D_text t : plain_text t -> denotes t (nonempty t)
| D_comma t r l : plain_text t -> denotes r l -> denotes (t ++ 44%N :: r) (nonempty t ++ l)
| D_group t r1 l1 r2 l2 : plain_text t -> t <> [] -> denotes r1 l1 -> denotes r2 l2 ->
    denotes (t ++ 91%N :: r1 ++ 93%N :: r2) (map (fun x => t ++ x) l1 ++ l2).

(** The user's view: trees of items. *)
Inductive item := Leaf (x : str) | Node (p : str) (sub : list item).

Fixpoint render (i : item) : str :=
  match i with
  | Leaf x => x
  | Node p sub => p ++ 91%N :: join [44%N] (map render sub) ++ [93%N]
  end.
Fixpoint leaves (i : item) : list str :=
  match i with
  | Leaf x => [x]
  | Node p sub => map (fun x => p ++ x) (flat_map leaves sub)
  end.
(** Non-empty plain texts at the leaves and at the groups. *)
Fixpoint item_ok (i : item) : Prop :=
  match i with
  | Leaf x => x <> [] /\ plain_text x
  | Node p sub => p <> [] /\ plain_text p /\ fold_right (fun j acc => item_ok j /\ acc) True sub
  end.

(** Bracket errors of a blank-free string. *)
Fixpoint count (c : char) (x : str) : nat :=
  match x with [] => 0 | d :: x' => (if N.eqb c d then 1 else 0) + count c x' end.
Definition unopened (r : str) : Prop :=
  exists p q, r = p ++ 93%N :: q /\ count 91%N p <= count 93%N p.
Definition unclosed (r : str) : Prop := count 93%N r < count 91%N r.
Definition no_prefix (r : str) : Prop :=
  exists p q, r = p ++ 91%N :: q /\ (p = [] \/ exists p' d, p = p' ++ [d] /\ special d).
