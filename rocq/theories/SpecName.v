(** Specification of names and subnames, independent of the model: no regular expressions,
    no upper-casing, only lists of characters. *)
From Verif Require Import Base.

(** Characters allowed in an element of a name: ASCII letters, digits and underscore, and
    the two characters that Unicode case folding identifies with an ASCII letter
    (U+017F long s and U+212A Kelvin sign). *)
Definition word_char (c : char) : Prop :=
  ((65 <= c <= 90) \/ (97 <= c <= 122) \/ (48 <= c <= 57) \/ c = 95 \/ c = 383 \/ c = 8490)%N.

(** Equal up to ASCII case. *)
Definition char_ci (c d : char) : Prop :=
  (c = d \/ (65 <= c <= 90 /\ d = c + 32) \/ (65 <= d <= 90 /\ c = d + 32))%N.
Definition str_ci (x y : str) : Prop := Forall2 char_ci x y.

Definition element (e : str) : Prop := e <> [] /\ Forall word_char e.

Definition type_words : list str := [s "REQ"; s "SPC"; s "TST"].
(** "SPC" and "TST" with the S replaced by U+017F. *)
Definition longs_words : list str := [[383; 80; 67]%N; [84; 383; 84]%N].

(** [x] is [p - e1 - ... - en], n >= 1 *)
Definition dashed (p : str) (es : list str) (x : str) : Prop :=
  es <> [] /\ Forall element es /\ x = join [45%N] (p :: es).

(** A valid artifact name. *)
Definition valid_name (x : str) : Prop :=
  exists t p es, In t type_words /\ str_ci t p /\ dashed p es x.

(** A name whose type is spelled with a long s. *)
Definition longs_name (x : str) : Prop :=
  exists t p es, In t longs_words /\ str_ci t p /\ dashed p es x.

(** A valid subname: a dot, optionally "tst-" in any case (or with a long s), an element. *)
Definition valid_sub (x : str) : Prop :=
  exists e, element e /\
    (x = 46%N :: e \/
     exists t, (str_ci (s "TST") t \/ str_ci [84; 383; 84]%N t) /\ x = 46%N :: t ++ 45%N :: e).

(** [x] occurs between double brackets after [p] in the text. *)
Definition sub_at (text p x : str) : Prop :=
  valid_sub x /\ exists q, text = p ++ s "[[" ++ x ++ s "]]" ++ q.

(** ... and nothing equal to it occurs earlier. *)
Definition first_sub_at (text p x : str) : Prop :=
  sub_at text p x /\
  forall p' x', sub_at text p' x' -> str_ci x x' -> length p <= length p'.
