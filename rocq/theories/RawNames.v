(** artifact-data/src/raw_names.rs: the [partof] field in files, and the [Names] list form of
    artifact-ser/src/family.rs. *)
From Verif Require Import Base Name Expand.

(** The two shapes of serde value the field can have (any other shape is an error). *)
Inductive names_val := VStr (x : str) | VSeq (l : list str).

(** raw_names.rs:83-100, [Serialize for NamesRaw]; the empty set panics *)
Definition names_ser (l : list name) : res names_val :=
  match l with
  | [] => Panic
  | [n] => Ok (VStr (n_raw n))
  | _ => Ok (VSeq (map n_raw (isort name_leb l)))
  end.

(** raw_names.rs:125-137, [visit_seq] *)
Fixpoint names_de_seq (out : list name) (l : list str) : res (list name) :=
  match l with
  | [] => Ok out
  | x :: l' => res_bind (expand_names x) (fun ns => names_de_seq (is_extend name_eqb out ns) l')
  end.
(** raw_names.rs:118-138 *)
Definition names_de (v : names_val) : res (list name) :=
  match v with
  | VStr x => expand_names x
  | VSeq l => names_de_seq [] l
  end.

(** family.rs:117-127, [Serialize for Names] *)
Definition fnames_ser (l : list name) : list str := map n_raw (isort name_leb l).
(** family.rs:147-157, [visit_seq] of [Names]: plain names only *)
Fixpoint fnames_de (out : list name) (l : list str) : res (list name) :=
  match l with
  | [] => Ok out
  | x :: l' => res_bind (name_from_str x) (fun n => fnames_de (is_insert name_eqb n out) l')
  end.
