(** Specification of walking: which files are found below a directory. *)
From Verif Require Import Base Artifact Stored Load Disk.

(** [q] is a file below the directory [root], and neither itself nor a directory from [root] down
    to it is excluded. *)
Definition reachable (t : node) (exclude : list path) (root q : path) : Prop :=
  exists r c, q = root ++ r /\ r <> [] /\ lookup t q = Some (NFile c) /\
    forall a b, r = a ++ b -> ~ In (root ++ a) exclude.
(** A known extension: the file name ends in ".toml", ".md" or ".json", with something before. *)
Definition known_extension (q : path) : Prop :=
  exists d x e, q = d ++ [x ++ [46%N] ++ e] /\ x <> [] /\ (e = s "toml" \/ e = s "md" \/ e = s "json").
Definition has_extension (e : str) (q : path) : Prop := exists d x, q = d ++ [x ++ [46%N] ++ e] /\ x <> [] /\ ~ In 46%N e.

(** Components of a configured path: how many go up, how many go down. *)
Definition goes_up (c : str) : bool := str_eqb c (s "..").
Definition goes_down (c : str) : bool := negb (is_nil c || str_eqb c (s ".") || str_eqb c (s "..")).
Definition ups (cs : list str) : nat := length (filter goes_up cs).
Definition downs (cs : list str) : nat := length (filter goes_down cs).
