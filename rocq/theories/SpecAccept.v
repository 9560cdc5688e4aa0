(** Which requests are accepted: conditions on the stored artifacts and on the operations, without
    building a project (C100). *)
From Verif Require Import Base Name SpecName Artifact SpecMarkdown SpecLinks Lint SpecLint Walk SpecWalk Modify SpecModify SpecAgain.

(** A set of stored artifacts in which nothing is wrong: no two have the same name; what is linked
    exists and is not of a lower type; what is marked done has no subnames; no line of a text is
    read as a header or as the end of attributes. *)
Record stored_sound (prefix : str) (A : list art_im) : Prop := {
  ss_distinct : distinct A;
  ss_links : forall a q, In a A -> In q (im_partof a) ->
    (exists b, In b A /\ n_key (im_name b) = n_key q) /\ ty_rank (n_ty q) <= ty_rank (n_ty (im_name a));
  ss_done : forall a u x, In a A -> im_done a <> None -> ~ sub_at (im_text a) u x;
  ss_text : forall a l, In a A -> In l (split_on 10%N (im_text a)) -> (forall x, ~ header_line prefix l x) /\ ~ end_line l }.

(** The same for one artifact among those of [P]. *)
Definition art_sound (prefix : str) (P : art_im -> Prop) (a : art_im) : Prop :=
  (forall q, In q (im_partof a) -> (exists b, P b /\ n_key (im_name b) = n_key q) /\ ty_rank (n_ty q) <= ty_rank (n_ty (im_name a))) /\
  (im_done a <> None -> forall u x, ~ sub_at (im_text a) u x) /\
  forall l, In l (split_on 10%N (im_text a)) -> (forall x, ~ header_line prefix l x) /\ ~ end_line l.

(** A file in which artifacts may be stored: of a known format, in a configured place, and in none
    that is itself inside an excluded place (this is what is checked, see C42). *)
Definition placed (st : settings) (f : path) : Prop :=
  known_extension f /\ (exists r, In r (se_arts st) /\ below f r) /\
  forall e r, In e (se_xarts st) -> In r (se_arts st) -> below f e -> below f r -> ~ below r e.

(** The operation fits what is stored: what it creates is not there, what it changes is. *)
Definition fits {H} (hash_im : art_im -> H) (A : list art_im) (o : op H) : Prop :=
  match o with
  | OCreate a => ~ In (hash_im a) (map hash_im A)
  | OUpdate _ i => In i (map hash_im A)
  | ODelete _ i => In i (map hash_im A)
  end.

(** The request can be carried out: each id occurs once; what is stored goes to a place for
    artifacts; the operations fit; and nothing is wrong with the artifacts that result. *)
Definition acceptable {H} (hash_im : art_im -> H) (st : settings) (prefix : str) (A : list art_im) (ops : list (op H)) : Prop :=
  NoDup (flat_map (ids_in hash_im) (map (op_clean H) ops)) /\
  (forall o a, In o (map (op_clean H) ops) -> stores o a -> placed st (im_file a)) /\
  Forall (fits hash_im A) (map (op_clean H) ops) /\
  exists B, applied hash_im ops A B /\ stored_sound prefix B.

(** The errors with which a request is refused before anything is written. *)
Definition early (k : mkind) : Prop := k = KLoad \/ k = KPaths \/ k = KHash \/ k = KModify.

(** [b] links to [n], in some spelling; links that follow from the names alone are not stored. *)
Definition links_name (b : art_im) (n : name) : Prop := exists q, In q (im_partof b) /\ n_key q = n_key n.
