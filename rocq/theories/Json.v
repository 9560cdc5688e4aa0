(** JSON as serde_json 1.0 writes and reads it (Cargo.lock; the library is not part of /repo), on
    the characters of a text.  Used by artifact-data/src/modify.rs:364 and raw.rs:186 (artifact
    files), artifact-lib/src/lib.rs:410-412 ([to_ser]), artifact-app/src/ls.rs:145,
    serve/handler.rs:190-204 and artifact-frontend/src/fetch.rs:25, 57, 160. *)
From Verif Require Import Base.

Definition c_quote : char := 34%N.
Definition c_colon : char := 58%N.
Definition c_lcur : char := 123%N.
Definition c_rcur : char := 125%N.

(** A JSON value.  [JNum] keeps the digits as they are written.  The flag of lists and objects is
    [false], and [JBad] is the value, where the text goes wrong: serde reads while it parses, so
    what comes before is seen before the error. *)
Inductive jval :=
| JNull
| JBool (b : bool)
| JNum (x : str)
| JStr (x : str)
| JArr (l : list jval) (ok : bool)
| JObj (l : list (str * jval)) (ok : bool)
| JBad.

(** ** Writing *)
Definition hex_digit (n : N) : char := if N.ltb n 10 then (48 + n)%N else (87 + n)%N.
(** serde_json ser.rs, [ESCAPE] and [format_escaped_str_contents] *)
Definition esc (c : char) : str :=
  if N.eqb c 34 then s "\" ++ [c_quote]
  else if N.eqb c 92 then s "\\"
  else if N.eqb c 8 then s "\b"
  else if N.eqb c 9 then s "\t"
  else if N.eqb c 10 then s "\n"
  else if N.eqb c 12 then s "\f"
  else if N.eqb c 13 then s "\r"
  else if N.ltb c 32 then s "\u00" ++ [hex_digit (c / 16); hex_digit (c mod 16)]
  else [c].
Definition w_str (x : str) : str := c_quote :: flat_map esc x ++ [c_quote].

(** serde_json [to_string]: no spaces *)
Fixpoint w_val (v : jval) : str :=
  match v with
  | JNull => s "null"
  | JBool true => s "true"
  | JBool false => s "false"
  | JNum x => x
  | JStr x => w_str x
  | JArr l _ => c_lbr :: join [c_comma] (map w_val l) ++ [c_rbr]
  | JObj l _ => c_lcur :: join [c_comma] (map (fun e => w_str (fst e) ++ c_colon :: w_val (snd e)) l) ++ [c_rcur]
  | JBad => []
  end.

(** serde_json [to_string_pretty]: [PrettyFormatter] with two spaces; [k] is the indentation *)
Definition indent (k : nat) : str := c_nl :: repeat c_sp (2 * k).
Fixpoint w_pretty (k : nat) (v : jval) : str :=
  match v with
  | JArr [] _ => [c_lbr; c_rbr]
  | JArr l _ => c_lbr :: join [c_comma] (map (fun e => indent (S k) ++ w_pretty (S k) e) l) ++ indent k ++ [c_rbr]
  | JObj [] _ => [c_lcur; c_rcur]
  | JObj l _ => c_lcur :: join [c_comma] (map (fun e => indent (S k) ++ w_str (fst e) ++ c_colon :: c_sp :: w_pretty (S k) (snd e)) l) ++ indent k ++ [c_rcur]
  | v => w_val v
  end.

(** ** Reading *)
(** serde_json de.rs, [parse_whitespace] *)
Definition is_jws (c : char) : bool := (N.eqb c 32 || N.eqb c 10 || N.eqb c 9 || N.eqb c 13)%N.
Definition skip (x : str) : str := drop_while is_jws x.

(** serde_json read.rs, [decode_hex_val] *)
Definition hex_val (c : char) : option N :=
  if (N.leb 48 c && N.leb c 57)%N then Some (c - 48)%N
  else if (N.leb 65 c && N.leb c 70)%N then Some (c - 55)%N
  else if (N.leb 97 c && N.leb c 102)%N then Some (c - 87)%N
  else None.
(** serde_json read.rs, [decode_hex_escape] *)
Definition hex4 (x : str) : option (N * str) :=
  match x with
  | a :: b :: c :: d :: r =>
      match hex_val a, hex_val b, hex_val c, hex_val d with
      | Some a, Some b, Some c, Some d => Some (((a * 16 + b) * 16 + c) * 16 + d, r)%N
      | _, _, _, _ => None
      end
  | _ => None
  end.
(** serde_json read.rs, [parse_escape]; [x] is what follows the backslash *)
Definition r_esc (x : str) : option (char * str) :=
  match x with
  | [] => None
  | c :: r =>
      if N.eqb c 34 then Some (34%N, r)
      else if N.eqb c 92 then Some (92%N, r)
      else if N.eqb c 47 then Some (47%N, r)
      else if N.eqb c 98 then Some (8%N, r)
      else if N.eqb c 102 then Some (12%N, r)
      else if N.eqb c 110 then Some (10%N, r)
      else if N.eqb c 114 then Some (13%N, r)
      else if N.eqb c 116 then Some (9%N, r)
      else if N.eqb c 117 then
        match hex4 r with
        | None => None
        | Some (n, r) =>
            if (N.leb 56320 n && N.leb n 57343)%N then None
            else if (N.leb 55296 n && N.leb n 56319)%N then
              match r with
              | b :: u :: r =>
                  if (N.eqb b 92 && N.eqb u 117)%N then
                    match hex4 r with
                    | Some (m, r) => if (N.leb 56320 m && N.leb m 57343)%N then Some (65536 + (n - 55296) * 1024 + (m - 56320), r)%N else None
                    | None => None
                    end
                  else None
              | _ => None
              end
            else Some (n, r)
        end
      else None
  end.
(** serde_json read.rs, [parse_str_bytes], after the opening quote; [fuel] is the length of the
    text *)
Fixpoint r_chars (fuel : nat) (x : str) : option (str * str) :=
  match fuel, x with
  | S f, c :: r =>
      if N.eqb c 34 then Some ([], r)
      else if N.ltb c 32 then None
      else if N.eqb c 92 then
        match r_esc r with
        | Some (d, r) => match r_chars f r with Some (y, r) => Some (d :: y, r) | None => None end
        | None => None
        end
      else match r_chars f r with Some (y, r) => Some (c :: y, r) | None => None end
  | _, _ => None
  end.
Definition r_str (x : str) : option (str * str) := r_chars (length x) x.

(** The longest prefix of digits. *)
Fixpoint digits (x : str) : str * str :=
  match x with
  | c :: r => if is_digit c then let (d, r) := digits r in (c :: d, r) else ([], x)
  | [] => ([], [])
  end.
(** serde_json de.rs, [parse_integer], [parse_decimal], [parse_exponent].  Simplified: a number
    that is too large for a double is an error there. *)
Definition r_exp (x : str) : option (str * str) :=
  match x with
  | e :: r =>
      if (N.eqb e 101 || N.eqb e 69)%N then
        let (sg, r) := match r with c :: r' => if (N.eqb c 43 || N.eqb c 45)%N then ([c], r') else ([], r) | [] => ([], []) end in
        match digits r with
        | ([], _) => None
        | (d, r) => Some (e :: sg ++ d, r)
        end
      else Some ([], x)
  | [] => Some ([], [])
  end.
Definition r_frac (x : str) : option (str * str) :=
  match x with
  | c :: r =>
      if N.eqb c 46 then match digits r with ([], _) => None | (d, r) => match r_exp r with Some (e, r) => Some (c :: d ++ e, r) | None => None end end
      else r_exp x
  | [] => Some ([], [])
  end.
Definition r_int (x : str) : option (str * str) :=
  match digits x with
  | ([], _) => None
  | (c :: d, r) =>
      if (N.eqb c 48 && match d with [] => false | _ => true end)%bool then None
      else match r_frac r with Some (e, r) => Some ((c :: d) ++ e, r) | None => None end
  end.
Definition r_num (x : str) : option (str * str) :=
  match x with
  | c :: r => if N.eqb c 45 then match r_int r with Some (y, r) => Some (c :: y, r) | None => None end else r_int x
  | [] => None
  end.

(** The elements of a list, and the entries of an object, after the first bracket; [rd] reads a
    value. *)
Section Loops.
  Variable rd : str -> jval * option str.
  Fixpoint r_items (fuel : nat) (x : str) : jval * option str :=
    match fuel with
    | 0 => (JArr [] false, None)
    | S f =>
        match rd x with
        | (v, None) => (JArr [v] false, None)
        | (v, Some r) =>
            match skip r with
            | c :: r =>
                if N.eqb c c_comma then match r_items f r with (JArr l b, r) => (JArr (v :: l) b, r) | (_, r) => (JBad, None) end
                else if N.eqb c c_rbr then (JArr [v] true, Some r)
                else (JArr [v] false, None)
            | [] => (JArr [v] false, None)
            end
        end
    end.
  Fixpoint r_fields (fuel : nat) (x : str) : jval * option str :=
    match fuel with
    | 0 => (JObj [] false, None)
    | S f =>
        match skip x with
        | c :: r =>
            if N.eqb c c_quote then
              match r_str r with
              | None => (JObj [] false, None)
              | Some (k, r) =>
                  match skip r with
                  | c :: r =>
                      if N.eqb c c_colon then
                        match rd r with
                        | (v, None) => (JObj [(k, v)] false, None)
                        | (v, Some r) =>
                            match skip r with
                            | c :: r =>
                                if N.eqb c c_comma then match r_fields f r with (JObj l b, r) => (JObj ((k, v) :: l) b, r) | (_, r) => (JBad, None) end
                                else if N.eqb c c_rcur then (JObj [(k, v)] true, Some r)
                                else (JObj [(k, v)] false, None)
                            | [] => (JObj [(k, v)] false, None)
                            end
                        end
                      else (JObj [(k, JBad)] false, None)
                  | [] => (JObj [(k, JBad)] false, None)
                  end
              end
            else (JObj [] false, None)
        | [] => (JObj [] false, None)
        end
    end.
End Loops.

(** serde_json de.rs, [deserialize_any]; [d] counts down the nesting ([remaining_depth]) *)
Fixpoint r_val (d : nat) (x : str) {struct d} : jval * option str :=
  match d with
  | 0 => (JBad, None)
  | S d' =>
      match skip x with
      | [] => (JBad, None)
      | c :: r =>
          if N.eqb c c_quote then match r_str r with Some (y, r) => (JStr y, Some r) | None => (JBad, None) end
          else if N.eqb c c_lbr then
            match d' with
            | 0 => (JBad, None)
            | _ => match skip r with
                   | e :: r' => if N.eqb e c_rbr then (JArr [] true, Some r') else r_items (r_val d') (length r) r
                   | [] => (JArr [] false, None)
                   end
            end
          else if N.eqb c c_lcur then
            match d' with
            | 0 => (JBad, None)
            | _ => match skip r with
                   | e :: r' => if N.eqb e c_rcur then (JObj [] true, Some r') else r_fields (r_val d') (length r) r
                   | [] => (JObj [] false, None)
                   end
            end
          else if starts_with (c :: r) (s "null") then (JNull, Some (skipn 4 (c :: r)))
          else if starts_with (c :: r) (s "true") then (JBool true, Some (skipn 4 (c :: r)))
          else if starts_with (c :: r) (s "false") then (JBool false, Some (skipn 5 (c :: r)))
          else match r_num (c :: r) with Some (y, r) => (JNum y, Some r) | None => (JBad, None) end
      end
  end.
(** serde_json de.rs, [remaining_depth: 128] *)
Definition max_depth : nat := 128.
(** serde_json de.rs, [from_str]: the value, and whether the whole text was read ([end]). *)
Definition r_doc (x : str) : jval * bool :=
  match r_val max_depth x with
  | (v, Some r) => (v, match skip r with [] => true | _ => false end)
  | (v, None) => (v, false)
  end.
