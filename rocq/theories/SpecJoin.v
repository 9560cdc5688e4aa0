(** Specification of joining references: references compared by spelling up to case, the joined
    map as the set of references it lists. *)
From Verif Require Import Base Name SpecName Artifact Lint Source.

Definition ref_loc (r : src_ref) : code_loc := fst (fst r).
Definition ref_name (r : src_ref) : name := snd (fst r).
Definition ref_sub (r : src_ref) : option subname := snd r.

Definition same_subname (a b : option subname) : Prop :=
  match a, b with
  | None, None => True
  | Some x, Some y => str_ci (s_raw x) (s_raw y)
  | _, _ => False
  end.
(** Two references to the same thing. *)
Definition same_ref (r r' : src_ref) : Prop :=
  str_ci (n_raw (ref_name r)) (n_raw (ref_name r')) /\ same_subname (ref_sub r) (ref_sub r').

(** A reference as scanning a file produces it. *)
Definition ref_wf (r : src_ref) : Prop :=
  name_from_str (n_raw (ref_name r)) = Ok (ref_name r) /\
  forall x, ref_sub r = Some x -> sub_from_str (s_raw x) = Ok x.

(** The references at places [i] and [j] of the list are to the same thing. *)
Definition repeated (refs : list src_ref) (i j : nat) : Prop :=
  exists r r', nth_error refs i = Some r /\ nth_error refs j = Some r' /\ i <> j /\ same_ref r r'.

(** The map lists location [l] for the (sub)name. *)
Definition listed (code : list (name * impl_code)) (n : name) (sub : option subname) (l : code_loc) : Prop :=
  exists c, In (n, c) code /\
    match sub with None => ic_primary c = Some l | Some x => In (x, l) (ic_secondary c) end.

(** The error lints sent while joining. *)
Definition join_lints (path_str : path -> str) (refs : list src_ref) : list lint :=
  flat_map (dup_lints path_str) (fst (join_locations refs)).
(** The lint is an error and points to the place of the reference. *)
Definition points_to (path_str : path -> str) (w : lint) (r : src_ref) : Prop :=
  li_level w = LError /\ li_path w = Some (path_str (loc_file (ref_loc r))) /\ li_line w = Some (loc_line (ref_loc r)).
