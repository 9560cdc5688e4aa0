(** Specification of the settings. *)
From Verif Require Import Base Artifact Stored Load Disk Walk SpecWalk Settings.

(** Two lists of configured paths that name the same places. *)
Definition same_places (root : path) (l l' : list str) : Prop := forall q,
  (exists x, In x l /\ resolve_path root x = q) <-> (exists x, In x l' /\ resolve_path root x = q).
Definition same_settings (root : path) (a b : raw_settings) : Prop :=
  same_places root (rs_arts a) (rs_arts b) /\ same_places root (rs_xarts a) (rs_xarts b) /\
  same_places root (rs_code a) (rs_code b) /\ same_places root (rs_xcode a) (rs_xcode b) /\
  rs_url a = rs_url b /\ rs_prefix a = rs_prefix b.

(** [q] is a file found from the configured path [root]. *)
Definition found_from (t : node) (exclude : list path) (root q : path) : Prop :=
  reachable t exclude root q \/ (root = q /\ exists c, lookup t q = Some (NFile c)).
