(** Ids of artifacts: what is hashed (artifact-lib/src/lib.rs:243-247, 277-292) and their textual
    form (artifact-ser/src/lib.rs:249-270).  Bytes are numbers below 256. *)
From Verif Require Import Base Name Artifact.

(** The UTF-8 bytes of a character. *)
Definition utf8 (c : char) : list N :=
  (if c <? 128 then [c]
   else if c <? 2048 then [192 + c / 64; 128 + c mod 64]
   else if c <? 65536 then [224 + c / 4096; 128 + c / 64 mod 64; 128 + c mod 64]
   else [240 + c / 262144; 128 + c / 4096 mod 64; 128 + c / 64 mod 64; 128 + c mod 64])%N.
Definition bytes_of (x : str) : list N := flat_map utf8 x.
(** [k] bytes of a number, little endian *)
Fixpoint le (k : nat) (n : N) : list N :=
  match k with O => [] | S k' => (n mod 256)%N :: le k' (n / 256)%N end.
(** What [Hash] feeds to the hasher: a string is followed by the byte 255; numbers, and the
    discriminants of enums, are 64 bit (little endian). *)
Definition h_str (x : str) : list N := bytes_of x ++ [255%N].
Definition h_num (n : N) : list N := le 8 n.
(** artifact-ser/src/name.rs:100-105 derives [Hash]; name.rs:365-370: type and key *)
Definition ty_disc (t : ty) : N := match t with REQ => 0 | SPC => 1 | TST => 2 end%N.
Definition h_name (n : name) : list N := h_num (ty_disc (n_ty n)) ++ h_str (n_key n).
Definition h_opt (o : option str) : list N := match o with None => h_num 0 | Some x => h_num 1 ++ h_str x end.
(** [Path] hashes its components: [RootDir] is 1, [ParentDir] 3, [Normal] 4 with a slice of
    bytes, which is preceded by its length; "." is not a component. *)
Definition h_comp (c : str) : list N :=
  if is_nil c || str_eqb c (s ".") then []
  else if str_eqb c (s "..") then h_num 3
  else h_num 4 ++ h_num (N.of_nat (length (bytes_of c))) ++ bytes_of c.
Definition h_path (p : path) : list N := h_num 1 ++ flat_map h_comp p.
(** artifact-lib/src/lib.rs:277-292 *)
Definition h_im (a : art_im) : list N :=
  h_str (n_raw (im_name a)) ++ h_path (im_file a) ++ flat_map h_name (im_partof a) ++ h_opt (im_done a) ++ h_str (im_text a).
(** artifact-lib/src/lib.rs:243-247; [sip] is 128 bit SipHash *)
Definition sip_id {H} (sip : list N -> H) (a : art_im) : H := sip (h_im a).

(** ** Base64, URL-safe alphabet, no padding (base64 0.9.3).
    Texts with the padding character are taken to be rejected; [strict] tells whether bits of
    the last character that do not fit into a byte must be zero. *)
Definition b64_char (v : N) : char :=
  (if v <? 26 then 65 + v else if v <? 52 then 71 + v else if v <? 62 then v - 4 else if v =? 62 then 45 else 95)%N.
Definition b64_val (c : char) : option N :=
  (if (65 <=? c) && (c <=? 90) then Some (c - 65)
   else if (97 <=? c) && (c <=? 122) then Some (c - 71)
   else if (48 <=? c) && (c <=? 57) then Some (c + 4)
   else if c =? 45 then Some 62 else if c =? 95 then Some 63 else None)%N.
(** Groups of three bytes, four characters. *)
Fixpoint to_sextets (l : list N) : list N :=
  match l with
  | [] => []
  | [a] => [a / 4; a mod 4 * 16]
  | [a; b] => [a / 4; a mod 4 * 16 + b / 16; b mod 16 * 4]
  | a :: b :: c :: l' => a / 4 :: a mod 4 * 16 + b / 16 :: b mod 16 * 4 + c / 64 :: c mod 64 :: to_sextets l'
  end%N.
Definition b64_encode (l : list N) : str := map b64_char (to_sextets l).
Fixpoint of_sextets (strict : bool) (l : list N) : option (list N) :=
  match l with
  | [] => Some []
  | [_] => None
  | [p; q] => if strict && negb (q mod 16 =? 0) then None else Some [p * 4 + q / 16]
  | [p; q; r] => if strict && negb (r mod 4 =? 0) then None else Some [p * 4 + q / 16; q mod 16 * 16 + r / 4]
  | p :: q :: r :: t :: l' =>
      match of_sextets strict l' with
      | Some o => Some (p * 4 + q / 16 :: q mod 16 * 16 + r / 4 :: r mod 4 * 64 + t :: o)
      | None => None
      end
  end%N.
Fixpoint values (x : str) : option (list N) :=
  match x with
  | [] => Some []
  | c :: x' => match b64_val c, values x' with Some v, Some l => Some (v :: l) | _, _ => None end
  end.

(** artifact-ser/src/lib.rs:249-257, [Serialize for HashIm] *)
Definition id_ser (h : list N) : str := b64_encode h.
(** artifact-ser/src/lib.rs:259-270, [Deserialize for HashIm]: into a slice of 16 bytes, which is
    zero at first; writing beyond it panics.  (In a text that is both too long and invalid the
    panic may come first: then [Err] here stands for a panic.) *)
Definition id_de (strict : bool) (x : str) : res (list N) :=
  match values x with
  | None => Err
  | Some l =>
      match of_sextets strict l with
      | None => Err
      | Some o => if Nat.leb (length o) 16 then Ok (o ++ repeat 0%N (16 - length o)) else Panic
      end
  end.
