(** Specification of what a load that fails must report: what can go wrong in reading files. *)
From Coq Require Import Permutation.
From Verif Require Import Base Name SpecName RawNames Artifact Stored SpecLinks Lint Source SpecJoin Pool Load.

(** What is wrong with the files found by the two walks, as the error to be reported: an error of a
    walk; a source file of which some line cannot be read (unless its reader was stopped before by a
    name, see C59); an artifact file that cannot be read; one that is not in the format its
    extension tells. *)
Inductive read_fault (path_str : path -> str) (parse : art_type -> str -> res (list (name * art_raw))) (parse_msg : path -> str -> str)
  (afs : list (art_file + lint)) (cfs : list (code_file + lint)) : lint -> Prop :=
| rf_walk_arts l : In (inr l) afs -> read_fault path_str parse parse_msg afs cfs l
| rf_walk_code l : In (inr l) cfs -> read_fault path_str parse parse_msg afs cfs l
| rf_source f m : In (inl f) cfs -> cf_err f = Some m -> snd (parse_locations (cf_path f) (cf_lines f) true) <> EPanic ->
    read_fault path_str parse parse_msg afs cfs (mkLint LError (Some (path_str (cf_path f))) None CLoadPaths (s "Error during loading: " ++ m))
| rf_unreadable f t m : In (inl f) afs -> art_type_of (af_path f) = Some t -> af_text f = inr m ->
    read_fault path_str parse parse_msg afs cfs (mkLint LError (Some (path_str (af_path f))) None CLoadPaths (s "Error during loading: " ++ m))
| rf_malformed f t x : In (inl f) afs -> art_type_of (af_path f) = Some t -> af_text f = inl x -> parse t x = Err ->
    read_fault path_str parse parse_msg afs cfs (mkLint LError (Some (path_str (af_path f))) None CLoadPaths (s "Error during loading: " ++ parse_msg (af_path f) x)).

(** Two of the things have what is asked for. *)
Definition two {A} (R : A -> A -> Prop) (l : list A) (a b : A) : Prop := R a b /\ exists rest, Permutation l (a :: b :: rest).
(** Artifacts whose names differ at most in case. *)
Definition same_spelling (a b : art_im) : Prop := str_ci (n_raw (im_name a)) (n_raw (im_name b)).
(** The error names the file. *)
Definition names_file (path_str : path -> str) (w : lint) (a : art_im) : Prop := li_level w = LError /\ li_path w = Some (path_str (im_file a)).
