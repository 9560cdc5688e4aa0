(** artifact-ser/src/expand_names.rs: collapsed name lists such as [REQ-[foo, bar]]. *)
From Verif Require Import Base Name.

Definition is_blank (c : char) : bool := N.eqb c c_sp || N.eqb c c_nl || N.eqb c c_cr.

(** expand_names.rs:99-106: the final [split(',')] that drops empty pieces. *)
Definition pieces (x : str) : list str :=
  filter (fun p => match p with [] => false | _ => true end) (split_on c_comma x).

(** expand_names.rs:45-107, [parse_collapsed].  The character iterator is the remaining
    input, returned together with the result; the loop and the recursive calls consume it,
    so the fuel (the length of the input is enough, see [pc_fuel] in ExpandFacts.v) only
    makes the definition structural; running out of it is [Panic]. *)
Fixpoint pc (fuel : nat) (in_brackets : bool) (strout current : str) (raw : str)
  : res (list str * str) :=
  match raw with
  | [] => if in_brackets then Err else Ok (pieces (strout ++ current), [])
  | c :: raw' =>
      match fuel with
      | O => Panic
      | S n =>
          if is_blank c then pc n in_brackets strout current raw'
          else if N.eqb c c_lbr then
            match current with
            | [] => Err
            | _ =>
                match pc n true [] [] raw' with
                | Ok (ps, rest) =>
                    pc n in_brackets
                       (strout ++ flat_map (fun p => current ++ p ++ [c_comma]) ps) [] rest
                | Err => Err
                | Panic => Panic
                end
            end
          else if N.eqb c c_rbr then
            if in_brackets then Ok (pieces (strout ++ current), raw') else Err
          else if N.eqb c c_comma then pc n in_brackets (strout ++ current ++ [c_comma]) [] raw'
          else pc n in_brackets strout (current ++ [c]) raw'
      end
  end.

Definition parse_collapsed (raw : str) : res (list str) :=
  res_bind (pc (length raw) false [] [] raw) (fun r => Ok (fst r)).

(** expand_names.rs:35-40, [expand_names] *)
Definition expand_names (raw : str) : res (list name) :=
  res_bind (parse_collapsed raw) (fun l =>
  res_bind (res_map name_from_str l) (fun ns => Ok (is_collect name_eqb ns))).
