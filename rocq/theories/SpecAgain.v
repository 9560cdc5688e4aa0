(** What a list of requests makes of the stored artifacts, and when sources can be read. *)
From Verif Require Import Base Name SpecName Artifact Lint SpecLint Source SpecJoin Pool Load SpecLoad Walk Modify SpecModify.

(** [B] is what the operations make of the artifacts [A] (see C35). *)
Definition applied {H} (hash_im : art_im -> H) (ops : list (op H)) (A B : list art_im) : Prop :=
  forall a, In a B <->
    ~ taken hash_im (map (op_clean H) ops) (hash_im a) /\
    (last_stored hash_im (map (op_clean H) ops) (hash_im a) a \/
     ~ stored hash_im (map (op_clean H) ops) (hash_im a) /\ In a A).
(** A list of requests, each with whether it was accepted: the accepted ones take effect in this order. *)
Inductive outcome {H} (hash_im : art_im -> H) : list (list (op H) * bool) -> list art_im -> list art_im -> Prop :=
| oc_none A B : (forall a, In a B <-> In a A) -> outcome hash_im [] A B
| oc_saved ops l A B C : applied hash_im ops A B -> outcome hash_im l B C -> outcome hash_im ((ops, true) :: l) A C
| oc_refused ops l A B : outcome hash_im l A B -> outcome hash_im ((ops, false) :: l) A B.

(** The sources can be read: walking them and reading them gives no error, no file stops its
    reader, and nothing is referenced twice. *)
Definition sources_clean (path_str : path -> str) (cfs : list (code_file + lint)) : Prop :=
  (forall x, ~ In (inr x) cfs) /\
  (forall f, In (inl f) cfs -> jb_lints (load_locations path_str f) = [] /\ jb_panic (load_locations path_str f) = false) /\
  forall i j, ~ repeated (file_refs path_str cfs) i j.
(** Some text has a reference in which the type is spelled with the long s, U+017F (see C95). *)
Definition longs_stored (A : list art_im) : Prop := exists a x y, In a A /\ ref_in (im_text a) x y /\ longs_name x.
(** No two files differ only in the extension. *)
Definition no_twins (A : list art_im) : Prop := forall a b, In a A -> In b A -> twins (im_file a) (im_file b) -> im_file a = im_file b.
(** Every file and directory can be read. *)
Definition readable (E : disk_errs) : Prop := (forall q, e_stat E q = None) /\ (forall q, e_open E q = None) /\ forall q, e_read E q = None.
