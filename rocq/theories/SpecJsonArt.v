(** What a JSON document says about artifacts. *)
From Verif Require Import Base Name SpecName Expand SpecExpand Artifact Stored Json SpecJson.

(** A text, or none. *)
Definition maybe_text (v : jval) (o : option str) : Prop := v = JNull /\ o = None \/ exists x, v = JStr x /\ o = Some x.
(** Links: none, one text, or a list of texts, each of which may be collapsed; together they name
    each artifact once. *)
Definition links (v : jval) (o : option (list name)) : Prop :=
  v = JNull /\ o = None \/
  (exists x l, v = JStr x /\ expand_names x = Ok l /\ o = Some l) \/
  (exists xs ls, v = JArr (map JStr xs) true /\ Forall2 (fun x l => expand_names x = Ok l) xs ls /\ o = Some (is_collect name_eqb (concat ls))).
(** A field of an object: missing, or there once. *)
Definition field {A} (fs : list (str * jval)) (k : str) (rel : jval -> option A -> Prop) (o : option A) : Prop :=
  (~ In k (map fst fs)) /\ o = None \/ exists a v b, fs = a ++ (k, v) :: b /\ ~ In k (map fst a) /\ ~ In k (map fst b) /\ rel v o.
Definition cleaned (v : jval) (o : option str) : Prop := exists o', maybe_text v o' /\ o = option_map clean_text o'.
(** One artifact: an object with at most these three fields and any others, or the three values
    in this order. *)
Definition says_art (v : jval) (r : art_raw) : Prop :=
  (exists fs, v = JObj fs true /\ field fs (s "done") maybe_text (raw_done r) /\ field fs (s "partof") links (raw_partof r) /\ field fs (s "text") cleaned (raw_text r)) \/
  (exists a b c, v = JArr [a; b; c] true /\ maybe_text a (raw_done r) /\ links b (raw_partof r) /\ cleaned c (raw_text r)).
(** A document: an object with a name for every artifact; a name that comes again replaces what
    the earlier one said, in its place. *)
Definition says (x : str) (l : list (name * art_raw)) : Prop :=
  exists fs es, jdoc x (JObj fs true) /\ Forall2 (fun f e => name_from_str (fst f) = Ok (fst e) /\ says_art (snd f) (snd e)) fs es /\ l = im_collect name_eqb es.

(** A string that stands in quotes somewhere in the text. *)
Definition quoted (x z : str) : Prop := exists a y b, x = a ++ 34%N :: y ++ 34%N :: b /\ jstring y z.
(** Read as a name or as a list of names, it has one whose type is spelled with a long s. *)
Definition longs_list (z : str) : Prop := longs_name z \/ exists r l n, no_blanks z r /\ denotes r l /\ In n l /\ longs_name n.
