(** Basic vocabulary of the model: characters, strings, results, insertion-ordered
    maps and sets.  No proofs here; facts are in BaseFacts.v. *)
From Coq Require Export Ascii String.
From Coq Require Export List NArith Bool Arith.
Export ListNotations.
Open Scope list_scope.

(** A Rust [char] is modelled by its code point, a [str]/[String] by the list of its
    characters.  (Rust orders strings bytewise in UTF-8; for Unicode scalar values this
    coincides with the lexicographic order of code points used below.) *)
Notation char := N (only parsing).
Notation str := (list N) (only parsing).

(** String literals: [s "REQ"]. *)
Definition s (x : String.string) : str := map N_of_ascii (list_ascii_of_string x).

(** Outcome of a Rust call: a value, an ordinary [Err], or a panic
    ([unreachable!], [expect!], failed indexing, [unwrap]). *)
Inductive res (A : Type) : Type :=
| Ok (a : A)
| Err
| Panic.
Arguments Ok {A} a.
Arguments Err {A}.
Arguments Panic {A}.

Definition res_bind {A B} (r : res A) (f : A -> res B) : res B :=
  match r with Ok a => f a | Err => Err | Panic => Panic end.

(** [Iterator::collect] into a [Result]: stops at the first failure. *)
Fixpoint res_map {A B} (f : A -> res B) (l : list A) : res (list B) :=
  match l with
  | [] => Ok []
  | x :: l' => res_bind (f x) (fun y => res_bind (res_map f l') (fun ys => Ok (y :: ys)))
  end.

(** ** Characters *)

Definition is_upper (c : char) : bool := (N.leb 65 c && N.leb c 90)%N.
Definition is_lower (c : char) : bool := (N.leb 97 c && N.leb c 122)%N.
Definition is_digit (c : char) : bool := (N.leb 48 c && N.leb c 57)%N.

(** [char::to_ascii_uppercase] *)
Definition upc (c : char) : char := if is_lower c then (c - 32)%N else c.
(** [str::to_ascii_uppercase] *)
Definition upper (x : str) : str := map upc x.

(** [char::is_whitespace] and the regex class [\s]: the Unicode White_Space property. *)
Definition is_ws (c : char) : bool :=
  ((N.leb 9 c && N.leb c 13) || N.eqb c 32 || N.eqb c 133 || N.eqb c 160 || N.eqb c 5760
   || (N.leb 8192 c && N.leb c 8202) || N.eqb c 8232 || N.eqb c 8233 || N.eqb c 8239
   || N.eqb c 8287 || N.eqb c 12288)%N.

Definition c_nl : char := 10%N.
Definition c_cr : char := 13%N.
Definition c_sp : char := 32%N.
Definition c_hash : char := 35%N.
Definition c_comma : char := 44%N.
Definition c_dash : char := 45%N.
Definition c_dot : char := 46%N.
Definition c_slash : char := 47%N.
Definition c_under : char := 95%N.
Definition c_lbr : char := 91%N.
Definition c_rbr : char := 93%N.
Definition c_tick : char := 96%N.
(** U+017F LATIN SMALL LETTER LONG S and U+212A KELVIN SIGN: the two non-ASCII characters
    whose simple case folding is an ASCII letter. *)
Definition c_longs : char := 383%N.
Definition c_kelvin : char := 8490%N.

(** ** Strings *)

Fixpoint str_eqb (a b : str) : bool :=
  match a, b with
  | [], [] => true
  | x :: a', y :: b' => N.eqb x y && str_eqb a' b'
  | _, _ => false
  end.

(** [Ord for str] *)
Fixpoint str_cmp (a b : str) : comparison :=
  match a, b with
  | [], [] => Eq
  | [], _ :: _ => Lt
  | _ :: _, [] => Gt
  | x :: a', y :: b' =>
      match N.compare x y with
      | Eq => str_cmp a' b'
      | c => c
      end
  end.

Definition str_leb (a b : str) : bool :=
  match str_cmp a b with Gt => false | _ => true end.

(** [str::starts_with] *)
Fixpoint starts_with (x p : str) : bool :=
  match p, x with
  | [], _ => true
  | _, [] => false
  | c :: p', d :: x' => N.eqb c d && starts_with x' p'
  end.

Fixpoint drop_while {A} (f : A -> bool) (l : list A) : list A :=
  match l with
  | [] => []
  | x :: l' => if f x then drop_while f l' else l
  end.

(** [str::trim_end] *)
Definition trim_end (x : str) : str := rev (drop_while is_ws (rev x)).

Definition mem_char (c : char) (x : str) : bool := existsb (N.eqb c) x.

(** [str::split(c)]: always at least one piece. *)
Fixpoint split_on (c : char) (x : str) : list str :=
  match x with
  | [] => [[]]
  | d :: x' =>
      if N.eqb d c then [] :: split_on c x'
      else match split_on c x' with
           | [] => [[d]]
           | p :: ps => (d :: p) :: ps
           end
  end.

(** [[String]::join(sep)] *)
Fixpoint join (sep : str) (l : list str) : str :=
  match l with
  | [] => []
  | [x] => x
  | x :: l' => x ++ sep ++ join sep l'
  end.

(** Position of the last occurrence ([str::rfind] for one character), as a split:
    text before it and text after it. *)
Fixpoint rsplit (c : char) (x : str) : option (str * str) :=
  match x with
  | [] => None
  | d :: x' =>
      match rsplit c x' with
      | Some (a, b) => Some (d :: a, b)
      | None => if N.eqb d c then Some ([], x') else None
      end
  end.

(** ** Stable sort by a boolean order (models [sort], [sort_keys]) *)
Section Sort.
  Context {A : Type} (leb : A -> A -> bool).
  Fixpoint insert_sorted (x : A) (l : list A) : list A :=
    match l with
    | [] => [x]
    | y :: l' => if leb x y then x :: l else y :: insert_sorted x l'
    end.
  Fixpoint isort (l : list A) : list A :=
    match l with
    | [] => []
    | x :: l' => insert_sorted x (isort l')
    end.
End Sort.

(** [Vec::dedup]: removes consecutive repetitions, keeping the first. *)
Section Dedup.
  Context {A : Type} (eqb : A -> A -> bool).
  Fixpoint dedup (l : list A) : list A :=
    match l with
    | [] => []
    | x :: l' =>
        match dedup l' with
        | [] => [x]
        | y :: r => if eqb x y then x :: r else x :: y :: r
        end
    end.
End Dedup.

(** ** IndexMap / IndexSet (indexmap 1.0.2)

    An association list in insertion order.  [K] keys are compared by [keqb], which need
    not be Leibniz equality (names compare by key, but carry their spelling). *)
Section IndexMap.
  Context {K V : Type} (keqb : K -> K -> bool).

  Fixpoint im_get (k : K) (m : list (K * V)) : option V :=
    match m with
    | [] => None
    | (k', v) :: m' => if keqb k' k then Some v else im_get k m'
    end.

  Definition im_mem (k : K) (m : list (K * V)) : bool :=
    match im_get k m with Some _ => true | None => false end.

  (** [insert]: an existing entry keeps its position and its key object. *)
  Fixpoint im_insert (k : K) (v : V) (m : list (K * V)) : list (K * V) :=
    match m with
    | [] => [(k, v)]
    | (k', v') :: m' => if keqb k' k then (k', v) :: m' else (k', v') :: im_insert k v m'
    end.

  (** [remove] = [swap_remove]: the last entry takes the place of the removed one. *)
  Definition swap_last (m : list (K * V)) : list (K * V) :=
    match rev m with
    | [] => []
    | x :: r => x :: rev r
    end.

  Fixpoint im_remove (k : K) (m : list (K * V)) : list (K * V) :=
    match m with
    | [] => []
    | (k', v') :: m' => if keqb k' k then swap_last m' else (k', v') :: im_remove k m'
    end.

  (** [FromIterator]/[extend] *)
  Definition im_extend (m : list (K * V)) (l : list (K * V)) : list (K * V) :=
    fold_left (fun acc kv => im_insert (fst kv) (snd kv) acc) l m.
  Definition im_collect (l : list (K * V)) : list (K * V) := im_extend [] l.
End IndexMap.

(** [IndexMap::sort_keys] *)
Definition im_sort {K V : Type} (kleb : K -> K -> bool) (m : list (K * V)) : list (K * V) :=
  isort (fun a b => kleb (fst a) (fst b)) m.

Section IndexSet.
  Context {K : Type} (keqb : K -> K -> bool).

  Definition is_mem (k : K) (m : list K) : bool := existsb (fun k' => keqb k' k) m.

  (** [IndexSet::insert]: an equal element already present is kept. *)
  Definition is_insert (k : K) (m : list K) : list K :=
    if is_mem k m then m else m ++ [k].

  Definition swap_last_set (m : list K) : list K :=
    match rev m with
    | [] => []
    | x :: r => x :: rev r
    end.

  Fixpoint is_remove (k : K) (m : list K) : list K :=
    match m with
    | [] => []
    | k' :: m' => if keqb k' k then swap_last_set m' else k' :: is_remove k m'
    end.

  Definition is_extend (m l : list K) : list K := fold_left (fun acc k => is_insert k acc) l m.
  Definition is_collect (l : list K) : list K := is_extend [] l.
End IndexSet.
