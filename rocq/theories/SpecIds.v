(** What two artifacts have in common when their ids say so. *)
From Verif Require Import Base Name BaseFacts Artifact.

Definition link_key (n : name) : ty * str := (n_ty n, n_key n).
(** Equal content; the case of linked names does not matter, that of the own name does. *)
Definition same_content (a b : art_im) : Prop :=
  n_raw (im_name a) = n_raw (im_name b) /\ im_file a = im_file b /\
  map link_key (im_partof a) = map link_key (im_partof b) /\ im_done a = im_done b /\ im_text a = im_text b.
(** [a] has one more link, to a specification, and [b] is done, with the key of that
    specification as text; the text of [b] starts with eight more NUL characters. *)
Definition traded (a b : art_im) : Prop :=
  n_raw (im_name a) = n_raw (im_name b) /\ im_file a = im_file b /\
  exists ls k, map link_key (im_partof a) = ls ++ [(SPC, k)] /\ map link_key (im_partof b) = ls /\
    im_done a = None /\ im_done b = Some k /\ im_text b = repeat 0%N 8 ++ im_text a.

(** Unicode scalar values (the surrogates do not matter), and names of files as a file system has
    them. *)
Definition is_text (x : str) : Prop := Forall (fun c => c < 1114112)%N x.
Definition comp_ok (c : str) : Prop := is_text c /\ c <> [] /\ c <> s "." /\ (N.of_nat (length c) < 4611686018427387904)%N.
Record im_text_ok (a : art_im) : Prop := {
  it_name : is_text (n_raw (im_name a));
  it_file : Forall comp_ok (im_file a);
  it_links : Forall (fun n => is_text (n_key n)) (im_partof a);
  it_done : match im_done a with Some d => is_text d | None => True end;
  it_text : is_text (im_text a) }.

(** An id: 16 bytes. *)
Definition is_byte (b : N) : Prop := (b < 256)%N.
Definition is_id (h : list N) : Prop := Forall is_byte h /\ length h = 16.
(** Letters, digits, "-" and "_". *)
Definition url_safe (c : char) : Prop :=
  (65 <= c <= 90 \/ 97 <= c <= 122 \/ 48 <= c <= 57 \/ c = 45 \/ c = 95)%N.
