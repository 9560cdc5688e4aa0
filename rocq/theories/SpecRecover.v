(** What a user can do after a save was interrupted. *)
From Verif Require Import Base Artifact Stored Lint Load Disk Walk SpecWalk Modify SpecModify.

Section Recover.
  Context {M : num} {H : Type}.
  (** The run was interrupted, or gave up, before it began to remove backups. *)
  Definition unfinished (x : mstate M H) : Prop :=
    match x with MRemove _ _ _ _ _ _ _ => False | MDone _ _ _ (Ok (inl _)) => False | _ => True end.
End Recover.

(** [t2] is [t1] with every backup moved back to the artifact file of [t] it was made of. *)
Record put_back (st : settings) (t t1 t2 : node) : Prop := {
  pb_moved : forall o y, found_file st t o -> file_at t1 (backup_of o) = Some y -> file_at t2 o = Some y;
  pb_kept : forall o, found_file st t o -> file_at t1 (backup_of o) = None -> file_at t2 o = file_at t1 o;
  pb_gone : forall o, found_file st t o -> file_at t2 (backup_of o) = None;
  pb_other : forall f, ~ found_file st t f -> (forall o, found_file st t o -> f <> backup_of o) -> file_at t2 f = file_at t1 f }.
(** No file is in the place of a backup. *)
Definition no_stale (st : settings) (t : node) : Prop := forall o, found_file st t o -> file_at t (backup_of o) = None.
