(** JSON texts (RFC 8259), independently of how they are read: a text, and what it says. *)
From Verif Require Import Base Json.

Definition jspace (w : str) : Prop := Forall (fun c => In c [32; 10; 9; 13]%N) w.

(** One hexadecimal digit, four of them. *)
Definition jhex (c : char) (n : N) : Prop :=
  (48 <= c <= 57 /\ n = c - 48 \/ 65 <= c <= 70 /\ n = c - 55 \/ 97 <= c <= 102 /\ n = c - 87)%N.
Definition jhex4 (h : str) (n : N) : Prop :=
  exists a b c d i j k l, h = [a; b; c; d] /\ jhex a i /\ jhex b j /\ jhex c k /\ jhex d l /\ (n = i * 4096 + j * 256 + k * 16 + l)%N.

(** One character of a string, as it may be written. *)
Inductive jchar : str -> char -> Prop :=
| jc_plain c : (32 <= c)%N -> c <> 34%N -> c <> 92%N -> jchar [c] c
| jc_short e c : In (e, c) [(34, 34); (92, 92); (47, 47); (98, 8); (102, 12); (110, 10); (114, 13); (116, 9)]%N -> jchar [92%N; e] c
| jc_hex h n : jhex4 h n -> ~ (55296 <= n <= 57343)%N -> jchar (92%N :: 117%N :: h) n
| jc_pair h1 n1 h2 n2 : jhex4 h1 n1 -> jhex4 h2 n2 -> (55296 <= n1 <= 56319)%N -> (56320 <= n2 <= 57343)%N ->
    jchar (92%N :: 117%N :: h1 ++ 92%N :: 117%N :: h2) (65536 + (n1 - 55296) * 1024 + (n2 - 56320))%N.
Inductive jstring : str -> str -> Prop :=
| jst_nil : jstring [] []
| jst_cons x c y z : jchar x c -> jstring y z -> jstring (x ++ y) (c :: z).

(** Numbers. *)
Definition jdigits (x : str) : Prop := x <> [] /\ Forall (fun c => (48 <= c <= 57)%N) x.
Definition jexp (x : str) : Prop :=
  x = [] \/ exists e sg d, x = e :: sg ++ d /\ (e = 101%N \/ e = 69%N) /\ (sg = [] \/ sg = [43%N] \/ sg = [45%N]) /\ jdigits d.
Definition jfrac (x : str) : Prop := x = [] \/ exists d, x = 46%N :: d /\ jdigits d.
Definition jnumber (x : str) : Prop :=
  exists m i f e, x = m ++ i ++ f ++ e /\ (m = [] \/ m = [45%N]) /\ jdigits i /\ (forall q, i = 48%N :: q -> q = []) /\ jfrac f /\ jexp e.

(** A value, with at most [d] lists and objects around each other. *)
Inductive json : nat -> str -> jval -> Prop :=
| js_null d : json d (s "null") JNull
| js_true d : json d (s "true") (JBool true)
| js_false d : json d (s "false") (JBool false)
| js_num d x : jnumber x -> json d x (JNum x)
| js_str d x y : jstring x y -> json d (34%N :: x ++ [34%N]) (JStr y)
| js_arr0 d w : jspace w -> json (S d) (91%N :: w ++ [93%N]) (JArr [] true)
| js_arr d x l : jitems d x l -> json (S d) (91%N :: x ++ [93%N]) (JArr l true)
| js_obj0 d w : jspace w -> json (S d) (123%N :: w ++ [125%N]) (JObj [] true)
| js_obj d x l : jfields d x l -> json (S d) (123%N :: x ++ [125%N]) (JObj l true)
with jitems : nat -> str -> list jval -> Prop :=
| ji_one d w x w' v : jspace w -> json d x v -> jspace w' -> jitems d (w ++ x ++ w') [v]
| ji_more d w x w' v y l : jspace w -> json d x v -> jspace w' -> jitems d y l -> jitems d (w ++ x ++ w' ++ 44%N :: y) (v :: l)
with jfields : nat -> str -> list (str * jval) -> Prop :=
| jf_one d w a k w1 w2 x w3 v : jspace w -> jstring a k -> jspace w1 -> jspace w2 -> json d x v -> jspace w3 ->
    jfields d (w ++ (34%N :: a ++ [34%N]) ++ w1 ++ 58%N :: w2 ++ x ++ w3) [(k, v)]
| jf_more d w a k w1 w2 x w3 v y l : jspace w -> jstring a k -> jspace w1 -> jspace w2 -> json d x v -> jspace w3 -> jfields d y l ->
    jfields d (w ++ (34%N :: a ++ [34%N]) ++ w1 ++ 58%N :: w2 ++ x ++ w3 ++ 44%N :: y) ((k, v) :: l).
Scheme json_mut := Induction for json Sort Prop
with jitems_mut := Induction for jitems Sort Prop
with jfields_mut := Induction for jfields Sort Prop.
Combined Scheme json_ind3 from json_mut, jitems_mut, jfields_mut.

(** A text that is one value, with spaces around it.  serde_json nests at most 127 deep. *)
Definition jdoc (x : str) (v : jval) : Prop := exists w y w', x = w ++ y ++ w' /\ jspace w /\ jspace w' /\ json 127 y v.

(** A value that can be written, and how deep it nests. *)
Fixpoint depth (v : jval) : nat :=
  match v with
  | JArr l _ => S (fold_right Nat.max 0 (map depth l))
  | JObj l _ => S (fold_right Nat.max 0 (map (fun e => depth (snd e)) l))
  | _ => 0
  end.
Inductive whole : jval -> Prop :=
| wh_null : whole JNull
| wh_bool b : whole (JBool b)
| wh_num x : jnumber x -> whole (JNum x)
| wh_str x : whole (JStr x)
| wh_arr l : (forall v, In v l -> whole v) -> whole (JArr l true)
| wh_obj l : (forall k v, In (k, v) l -> whole v) -> whole (JObj l true).
