(** A small regular-expression engine with the leftmost-first (Perl-like) semantics of the
    Rust [regex] crate, and the textbook language semantics it is compared with.

    Modelled external code: the [regex] crate (0.2.11/1.1.0 in /repo/Cargo.lock) as used by
    the patterns of artifact.  Only the constructs that occur in those patterns are covered:
    classes, concatenation, alternation, greedy and lazy repetition, capture groups and
    (through the entry points below) the anchors [^] and [$]. *)
From Verif Require Import Base.

Inductive re : Type :=
| Eps                          (* empty *)
| Cls (f : char -> bool)       (* one character of a class *)
| Seq (a b : re)
| Alt (a b : re)               (* first alternative preferred *)
| Star (greedy : bool) (a : re)
| Cap (i : nat) (a : re).      (* capture group *)

(** A match state: remaining input and captures recorded so far (latest first). *)
Definition caps := list (nat * str).
Definition mstate := (str * caps)%type.

(** [run r fuel s cs]: all ways to match a prefix of [s], in order of preference. The head
    of the list is what the [regex] crate reports.  The fuel bounds the iterations of a
    star; an iteration must consume input, so [length s] is always enough (see
    RegexFacts.v). *)
Section Iter.
  Variable step : str -> caps -> list mstate.
  Variable greedy : bool.
  Fixpoint iter (fuel : nat) (s0 : str) (cs : caps) : list mstate :=
    match fuel with
    | O => [(s0, cs)]
    | S n =>
        let more := flat_map (fun st => if Nat.ltb (length (fst st)) (length s0)
                                        then iter n (fst st) (snd st) else [])
                             (step s0 cs) in
        if greedy then more ++ [(s0, cs)] else (s0, cs) :: more
    end.
End Iter.

Fixpoint run (r : re) (s0 : str) (cs : caps) : list mstate :=
  match r with
  | Eps => [(s0, cs)]
  | Cls f => match s0 with
             | c :: s' => if f c then [(s', cs)] else []
             | [] => []
             end
  | Seq a b => flat_map (fun st => run b (fst st) (snd st)) (run a s0 cs)
  | Alt a b => run a s0 cs ++ run b s0 cs
  | Star g a => iter (run a) g (length s0) s0 cs
  | Cap i a => map (fun st => (fst st, (i, firstn (length s0 - length (fst st)) s0) :: snd st))
                   (run a s0 cs)
  end.

Definition plus (a : re) : re := Seq a (Star true a).
Definition opt (a : re) : re := Alt a Eps.
Fixpoint seqs (l : list re) : re :=
  match l with [] => Eps | [a] => a | a :: l' => Seq a (seqs l') end.
Fixpoint alts (a : re) (l : list re) : re :=
  match l with [] => a | b :: l' => Alt a (alts b l') end.

(** Preferred match of an unanchored-at-end pattern at the start of [s]. *)
Definition match_here (r : re) (s0 : str) : option mstate :=
  match run r s0 [] with [] => None | st :: _ => Some st end.

(** [^r$]: preferred match that consumes everything. *)
Definition match_full (r : re) (s0 : str) : option caps :=
  match filter (fun st : mstate => match fst st with [] => true | _ => false end) (run r s0 []) with
  | [] => None
  | st :: _ => Some (snd st)
  end.
Definition is_match_full (r : re) (s0 : str) : bool :=
  match match_full r s0 with Some _ => true | None => false end.

(** Unanchored [is_match]. *)
Fixpoint is_match_any (r : re) (s0 : str) : bool :=
  match match_here r s0 with
  | Some _ => true
  | None => match s0 with [] => false | _ :: s' => is_match_any r s' end
  end.

(** [captures_iter]: leftmost non-overlapping matches.  (Patterns used with it here never
    match the empty string; the guard makes the function total without assuming that.) *)
Fixpoint captures_iter (r : re) (fuel : nat) (s0 : str) : list caps :=
  match fuel with
  | O => []
  | S n =>
      match match_here r s0 with
      | Some (rest, cs) =>
          if Nat.ltb (length rest) (length s0) then cs :: captures_iter r n rest
          else match s0 with [] => [] | _ :: s' => captures_iter r n s' end
      | None => match s0 with [] => [] | _ :: s' => captures_iter r n s' end
      end
  end.
Definition find_all (r : re) (s0 : str) : list caps := captures_iter r (length s0) s0.

(** [Captures::get(i)]: the last value recorded for the group. *)
Fixpoint cap_get (i : nat) (cs : caps) : option str :=
  match cs with
  | [] => None
  | (j, x) :: cs' => if Nat.eqb i j then Some x else cap_get i cs'
  end.

(** ** Character classes *)

(** A literal character under [(?i)] with Unicode simple case folding. *)
Definition ci (c : char) : re :=
  Cls (fun d => N.eqb (upc d) (upc c)
                || (N.eqb (upc c) 83 && N.eqb d c_longs)      (* s, S, U+017F *)
                || (N.eqb (upc c) 75 && N.eqb d c_kelvin)).    (* k, K, U+212A *)
(** A literal character, case sensitive. *)
Definition lit (c : char) : re := Cls (N.eqb c).
Definition lits (x : str) : re := seqs (map lit x).
Definition cis (x : str) : re := seqs (map ci x).

(** [\s] *)
Definition ws : re := Cls is_ws.
(** [.] *)
Definition dot : re := Cls (fun c => negb (N.eqb c c_nl)).

(** ** Language semantics (specification) *)
Inductive lang : re -> str -> Prop :=
| LEps : lang Eps []
| LCls f c : f c = true -> lang (Cls f) [c]
| LSeq a b x y : lang a x -> lang b y -> lang (Seq a b) (x ++ y)
| LAltL a b x : lang a x -> lang (Alt a b) x
| LAltR a b x : lang b x -> lang (Alt a b) x
| LStar0 g a : lang (Star g a) []
| LStarS g a x y : lang a x -> lang (Star g a) y -> lang (Star g a) (x ++ y)
| LCap i a x : lang a x -> lang (Cap i a) x.
