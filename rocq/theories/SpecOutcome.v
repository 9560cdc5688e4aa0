(** Specification of why a modify request fails. *)
From Verif Require Import Base Name Artifact Stored Markdown Lint Load Disk Walk SpecWalk SpecSettings Modify SpecModify.

(** An error of the walk through a configured path: it says which. *)
Definition of_root (path_str : path -> str) (st : settings) (x : lint) : Prop :=
  exists r m, In r (se_arts st) /\ x = mkLint LError (Some (path_str r)) None CLoadPaths m.
(** A file that could not be backed up. *)
Definition of_file (path_str : path -> str) (st : settings) (t : node) (x : lint) : Prop :=
  exists f r m, In r (se_arts st) /\ found_from t (se_xarts st) r f /\ x = mkLint LError (Some (path_str f)) None CCreateBackups m.
(** A file of the new project that could not be written. *)
Definition of_new {M H} (path_str : path -> str) (q : project M H) (x : lint) : Prop :=
  exists a m, In a (stored_form q) /\ x = mkLint LError (Some (path_str (im_file a))) None CSaveProject m.
