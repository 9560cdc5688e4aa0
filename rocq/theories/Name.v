(** artifact-ser/src/name.rs: artifact names and subnames. *)
From Verif Require Import Base Regex.

(** name.rs:100-105 *)
Inductive ty := REQ | SPC | TST.

(** name.rs:136-143, [InternalName] ([Name] is an [Arc] of it: sharing is not modelled). *)
Record name := mkName { n_ty : ty; n_key : str; n_raw : str }.

(** name.rs:129-132, [InternalSubName] *)
Record subname := mkSub { s_raw : str; s_key : str }.

Definition ty_eqb (a b : ty) : bool :=
  match a, b with REQ, REQ | SPC, SPC | TST, TST => true | _, _ => false end.

(** name.rs:527-535, [Type::as_str] *)
Definition ty_str (t : ty) : str :=
  match t with REQ => s "REQ" | SPC => s "SPC" | TST => s "TST" end.

(** name.rs:154-159, [[A-Z0-9_]] under [(?i)] with Unicode folding: ASCII letters, digits,
    underscore, and the two characters that fold to an ASCII letter. *)
Definition name_char (c : char) : bool :=
  is_upper c || is_lower c || is_digit c || N.eqb c c_under || N.eqb c c_longs || N.eqb c c_kelvin.

Definition re_word : re := plus (Cls name_char).

(** name.rs:162-168, [NAME_VALID_STR] (always used under [(?i)]) *)
Definition re_type : re := alts (cis (s "REQ")) [cis (s "SPC"); cis (s "TST")].
Definition re_name : re :=
  seqs [re_type; lit c_dash; Star true (Seq re_word (lit c_dash)); re_word].

(** name.rs:182, body of [VALID_SUB_NAME_RE] *)
Definition re_sub : re := seqs [lit c_dot; opt (Seq (cis (s "tst")) (lit c_dash)); re_word].

(** name.rs:185-189, [TEXT_SUB_NAME_STR]; group 0 is "sub" *)
Definition re_text_sub : re :=
  seqs [lit c_lbr; lit c_lbr; Cap 0 re_sub; lit c_rbr; lit c_rbr].

(** name.rs:191-203, [TEXT_REF_STR]; group 0 is "name", group 1 is "name_sub" *)
Definition re_text_ref : re :=
  seqs [lit c_lbr; lit c_lbr; Cap 0 re_name; opt (Cap 1 re_sub); lit c_rbr; lit c_rbr].

(** name.rs:340-363, [InternalName::from_str].  [&key[0..3]] is a byte slice; a key that
    matched starts with three letters of which only an "S" can be non-ASCII (U+017F, two
    bytes): the slice then lies on character boundaries and equals none of the three
    literals, so the outcome is [unreachable!], as it is for the first three characters. *)
Definition name_from_str (raw : str) : res name :=
  if negb (is_match_full re_name raw) then Err
  else
    let key := upper raw in
    let p := firstn 3 key in
    if str_eqb p (s "REQ") then Ok (mkName REQ key raw)
    else if str_eqb p (s "SPC") then Ok (mkName SPC key raw)
    else if str_eqb p (s "TST") then Ok (mkName TST key raw)
    else Panic.

(** name.rs:231-253 *)
Definition name_as_str (n : name) : str := n_raw n.
Definition name_key_str (n : name) : str := n_key n.

(** name.rs:373-377, [PartialEq for InternalName] *)
Definition name_eqb (a b : name) : bool := ty_eqb (n_ty a) (n_ty b) && str_eqb (n_key a) (n_key b).
(** name.rs:381-385, [Ord for InternalName] *)
Definition name_cmp (a b : name) : comparison := str_cmp (n_key a) (n_key b).
Definition name_leb (a b : name) : bool := str_leb (n_key a) (n_key b).
(** name.rs:365-371, [Hash for InternalName]: the data fed to the hasher. *)
Definition name_hash_input (n : name) : ty * str := (n_ty n, n_key n).

(** name.rs:430-436, [SubName::new_unchecked] (its assertion is debug-only) *)
Definition sub_new (raw : str) : subname := mkSub raw (upper raw).
(** name.rs:481-490, [SubName::from_str] *)
Definition sub_from_str (raw : str) : res subname :=
  if is_match_full re_sub raw then Ok (sub_new raw) else Err.
(** name.rs:505-517 *)
Definition sub_eqb (a b : subname) : bool := str_eqb (s_key a) (s_key b).
Definition sub_leb (a b : subname) : bool := str_leb (s_key a) (s_key b).

(** name.rs:270-276, [Name::full] *)
Definition name_full (n : name) (sub : option subname) : str :=
  n_raw n ++ match sub with Some x => s_raw x | None => [] end.

(** name.rs:328-336, [parse_subnames]; [expect!(cap.name("sub"))] is the [None] branch *)
Definition parse_subnames (text : str) : list subname :=
  is_collect sub_eqb
    (flat_map (fun cs => match cap_get 0 cs with Some x => [sub_new x] | None => [] end)
              (find_all re_text_sub text)).
