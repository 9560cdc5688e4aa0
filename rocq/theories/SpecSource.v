(** Specification of scanning source code for references: positions in lines, no regular
    expressions. *)
From Coq Require Import Sorted.
From Verif Require Import Base SpecName.

(** Equal to an ASCII capital (or other ASCII character) up to case folding. *)
Definition char_fold (c d : char) : Prop :=
  char_ci c d \/ (c = 83%N /\ d = 383%N) \/ (c = 75%N /\ d = 8490%N).

Inductive mark := MRef (x y : str) | MSkip | MDone.

Definition name_like (x : str) : Prop := valid_name x \/ longs_name x.

(** [m] stands at the beginning of [q]: a hash with the longest name after it and, if there is
    one, the longest subname after that; or one of the two markers. *)
Inductive mark_here (q : str) : mark -> Prop :=
| HereRef x y v :
    q = 35%N :: x ++ y ++ v -> name_like x ->
    (forall x' v', q = 35%N :: x' ++ v' -> name_like x' -> length x' <= length x) ->
    (y = [] \/ valid_sub y) ->
    (forall y' v', y ++ v = y' ++ v' -> valid_sub y' -> length y' <= length y) ->
    mark_here q (MRef x y)
| HereSkip k v : q = k ++ v -> Forall2 char_fold (s "#ART-SKIP") k -> mark_here q MSkip
| HereDone k v : q = k ++ v -> Forall2 char_fold (s "#ART-DONE") k -> mark_here q MDone.

(** The mark stands in line [i] of the file at column [j]. *)
Definition mark_at (lines : list str) (i j : nat) (m : mark) : Prop :=
  exists l p q, nth_error lines i = Some l /\ l = p ++ q /\ length p = j /\ mark_here q m.

(** Positions in reading order. *)
Definition before (a b : nat * nat) : Prop := fst a < fst b \/ (fst a = fst b /\ snd a < snd b).

(** A position is skipped when the nearest marker before it is a skip marker. *)
Definition skipped (lines : list str) (p : nat * nat) : Prop :=
  exists k, mark_at lines (fst k) (snd k) MSkip /\ before k p /\
    forall d, mark_at lines (fst d) (snd d) MDone -> before d p -> before d k.

(** A reference that counts. *)
Definition ref_at (lines : list str) (p : nat * nat) (x y : str) : Prop :=
  mark_at lines (fst p) (snd p) (MRef x y) /\ ~ skipped lines p.
