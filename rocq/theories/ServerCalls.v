(** The server with the calls of Load.v and Modify.v. *)
From Coq Require Import Relation_Operators.
From Verif Require Import Base Name Artifact Stored Markdown Lint Source Pool Load Disk Walk Modify Server SpecServer.

Section Calls.
  Variable path_str : path -> str.
  Variable M : num.
  Variable topo : graph -> option (list nat).
  Variable H : Type.
  Variable heqb : H -> H -> bool.
  Variable hash_im : art_im -> H.
  Variable debug_im : art_im -> str.
  Variable st : settings.
  Variables to_toml to_json : list (name * art_raw) -> str.
  Variable yaml_done : str -> str.
  Variable style : md_attrs.
  (** What loading the project on a disk may give. *)
  Variable load : node -> res (lints * project M H + lints) -> Prop.

  Definition called := res (lints * project M H + (option mkind * lints)).
  (** A load, which is over; a modification in progress, with the failures of the file system
      its two walks meet. *)
  Inductive call := CLoaded (r : called) | CModify (E1 E3 : disk_errs) (x : mstate M H).
  Definition as_read (r : res (lints * project M H + lints)) : called :=
    match r with Ok (inl x) => Ok (inl x) | Ok (inr c) => Ok (inr (None, c)) | Err => Err | Panic => Panic end.
  Definition as_modified (r : result M H) : called :=
    match r with Ok (inl x) => Ok (inl x) | Ok (inr (k, c)) => Ok (inr (Some k, c)) | Err => Err | Panic => Panic end.
  Definition call_read (t : node) (j : call) : Prop := exists r, load t r /\ j = CLoaded (as_read r).
  Definition call_modify (t : node) (ops : list (op H)) (j : call) : Prop :=
    exists E1 E3 r x, load t r /\ begins path_str M topo H heqb hash_im debug_im st E1 t r ops x /\ j = CModify E1 E3 x.
  Inductive call_goes : node * call -> node * call -> Prop :=
  | cg_step E1 E3 x x' : mstep path_str M H st to_toml to_json yaml_done style E3 x x' ->
      call_goes (disk M H x, CModify E1 E3 x) (disk M H x', CModify E1 E3 x').
  Definition call_ended (j : call) : option called :=
    match j with
    | CLoaded r => Some r
    | CModify _ _ (MDone _ _ _ r) => Some (as_modified r)
    | _ => None
    end.
End Calls.
