(** What a markdown file says about artifacts: the grammar of such files. *)
From Verif Require Import Base Name SpecName Expand RawNames Artifact Stored SpecMarkdown.

(** The lines of a text.  A line ends with a line feed, or with a carriage return and a line feed;
    the last one may have no end, and is then the rest as it stands. *)
Inductive lines_of : str -> list str -> Prop :=
| lo_none : lines_of [] []
| lo_last l : l <> [] -> ~ In 10%N l -> lines_of l [l]
| lo_lf l x ls : ~ In 10%N l -> (forall p, l <> p ++ [13%N]) -> lines_of x ls -> lines_of (l ++ [10%N] ++ x) (l :: ls)
| lo_crlf l x ls : ~ In 10%N l -> lines_of x ls -> lines_of (l ++ [13%N; 10%N] ++ x) (l :: ls).

Section Grammar.
  Variable prefix : str.
  Notation text := (Forall (text_line prefix)).
  Notation inner := (Forall (fun l => ~ closer_line l)).

  (** What stands below a header: the lines of the attributes, if there are any, and those of the
      text.  Attributes are what stands above a line of hashes, or a block. *)
  Inductive below_header : list str -> option (list str) -> list str -> Prop :=
  | bh_plain t : text t -> below_header t None t
  | bh_hashes a e t : text a -> end_line e -> text t -> below_header (a ++ e :: t) (Some a) t
  | bh_block t o a c u : text t -> opener_line o -> inner a -> closer_line c -> text u ->
      below_header (t ++ o :: a ++ c :: u) (Some a) (t ++ u).
  (** The same at the end of the file.  Of a block that is not closed the first line is text and the
      others are lost. *)
  Inductive below_last : list str -> option (list str) -> list str -> Prop :=
  | bl_whole ls a t : below_header ls a t -> below_last ls a t
  | bl_open t o lost : text t -> opener_line o -> inner lost -> below_last (t ++ o :: lost) None (t ++ [o]).
  (** What stands above the first header says nothing. *)
  Inductive preamble : list str -> Prop :=
  | pa_none : preamble []
  | pa_line l ls : text_line prefix l \/ end_line l -> preamble ls -> preamble (l :: ls)
  | pa_block o a c ls : opener_line o -> inner a -> closer_line c -> preamble ls -> preamble (o :: a ++ c :: ls).
  (** A header with the lines of attributes and text. *)
  Definition md_part : Type := str * option (list str) * list str.
  Inductive md_parts : list str -> list md_part -> Prop :=
  | mp_last h x ls a t : header_line prefix h x -> below_last ls a t -> md_parts (h :: ls) [(x, a, t)]
  | mp_more h x ls a t rest es : header_line prefix h x -> below_header ls a t -> md_parts rest es ->
      md_parts (h :: ls ++ rest) ((x, a, t) :: es).
  Inductive md_doc : list str -> list md_part -> Prop :=
  | md_none ls : preamble ls -> md_doc ls []
  | md_open ls o lost : preamble ls -> opener_line o -> inner lost -> md_doc (ls ++ o :: lost) []
  | md_some ls rest es : preamble ls -> md_parts rest es -> md_doc (ls ++ rest) es.
End Grammar.

(** A link: one text or a list of texts, each of which may be collapsed. *)
Definition md_links (v : option names_val) (o : option (list name)) : Prop :=
  match v with
  | None => o = None
  | Some (VStr x) => exists l, expand_names x = Ok l /\ o = Some l
  | Some (VSeq xs) => exists ls, Forall2 (fun x l => expand_names x = Ok l) xs ls /\ o = Some (is_collect name_eqb (concat ls))
  end.
(** A text without what is blank at its end; with a line feed if there is one in it; or no text. *)
Definition md_text (x : str) (o : option str) : Prop :=
  exists b w, x = b ++ w /\ blanks w /\ (forall p c, b = p ++ [c] -> is_ws c = false) /\
    (b = [] /\ o = None \/ b <> [] /\ ~ In 10%N b /\ o = Some b \/ In 10%N b /\ o = Some (b ++ [10%N])).
(** The artifact of a part. *)
Definition md_means (yaml : str -> option (option str * option names_val)) (e : md_part) (f : name * art_raw) : Prop :=
  name_from_str (fst (fst e)) = Ok (fst f) /\
  match snd (fst e) with
  | None => raw_done (snd f) = None /\ raw_partof (snd f) = None
  | Some a => exists v, yaml (join [10%N] a) = Some (raw_done (snd f), v) /\ md_links v (raw_partof (snd f))
  end /\
  md_text (join [10%N] (snd e)) (raw_text (snd f)).
(** What a file says: its parts in order, each under another name. *)
Definition md_says (yaml : str -> option (option str * option names_val)) (prefix x : str) (l : list (name * art_raw)) : Prop :=
  exists ls es, lines_of x ls /\ md_doc prefix ls es /\ Forall2 (md_means yaml) es l /\ NoDup (map (fun f => n_key (fst f)) l).

(** Every block of attributes is closed. *)
Inductive closed : list str -> Prop :=
| cl_none : closed []
| cl_line l ls : ~ opener_line l -> closed ls -> closed (l :: ls)
| cl_block o a c ls : opener_line o -> Forall (fun l => ~ closer_line l) a -> closer_line c -> closed ls -> closed (o :: a ++ c :: ls).
(** A text that can be continued by another one that starts with a header. *)
Definition cut_at_header (prefix x y : str) : Prop :=
  (x = [] \/ exists p, x = p ++ [10%N]) /\ (exists ls, lines_of x ls /\ closed ls) /\
  exists h ls n, lines_of y (h :: ls) /\ header_line prefix h n.
(** A file that is read as markdown. *)
Definition md_path (p : list str) : Prop := exists d f, f <> [] /\ p = d ++ [f ++ s ".md"].
