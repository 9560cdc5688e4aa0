(** A walk through directories while other threads rename or remove the files it has found:
    artifact-data/src/modify.rs:233-272 ([create_backups]) and 274-315 ([remove_backups]), with the
    walking thread of settings.rs:93-145.

    [Modify.v] takes what the walk delivers from the tree at the beginning of the phase.  Here the
    walk lists a directory when it comes to it, in any order.  The disk can be read, and the
    configured paths are directories.  Simplified: a listing shows one moment (a file that goes
    away later may be left out, [ra_missed]; what is new later is a backup, which the first walk
    skips), an entry that is gone when it is looked at is no error, and the channels are not
    bounded (for that see [Pool.v]). *)
From Coq Require Import Permutation Relation_Operators.
From Verif Require Import Base Name Artifact SpecGraph Stored Markdown Lint Load Disk Walk Modify.

Section Race.
  Variable filter : bool -> path -> bool.
  (** What a working thread does with a file it takes: the tree and the lints sent so far, before
      and after. *)
  Variable does : node -> list lint -> path -> node -> list lint -> Prop.

  (** The entries that are listed and not looked at yet, with whether they are directories; the
      configured paths that are left; the files sent and not taken yet. *)
  Record race := mkRace { rc_tree : node; rc_stack : list (path * bool); rc_roots : list path; rc_found : list path; rc_got : list lint }.
  Definition listed (p : path) (e : str * node) : path * bool := (p ++ [fst e], is_dir (Some (snd e))).

  Inductive rstep : race -> race -> Prop :=
  (** settings.rs:113-122 *)
  | ra_root t r rs f g : is_dir (lookup t r) = true -> rstep (mkRace t [] (r :: rs) f g) (mkRace t [(r, true)] rs f g)
  (** settings.rs:124-142 *)
  | ra_dir t p l l' k rs f g : lookup t p = Some (NDir l) -> filter true p = true -> Permutation l l' ->
      rstep (mkRace t ((p, true) :: k) rs f g) (mkRace t (map (listed p) l' ++ k) rs f g)
  | ra_skip t p d k rs f g : filter d p = false -> rstep (mkRace t ((p, d) :: k) rs f g) (mkRace t k rs f g)
  | ra_file t p k rs f g : filter false p = true -> rstep (mkRace t ((p, false) :: k) rs f g) (mkRace t k rs (f ++ [p]) g)
  (** the rest of a listing need not show what is gone *)
  | ra_missed t p k rs f g : lookup t p = None -> rstep (mkRace t ((p, false) :: k) rs f g) (mkRace t k rs f g)
  (** modify.rs:252-265, 296-308 *)
  | ra_work t k rs f1 p f2 g t' g' : does t g p t' g' -> rstep (mkRace t k rs (f1 ++ p :: f2) g) (mkRace t' k rs (f1 ++ f2) g').
End Race.

(** modify.rs:252-265: renaming succeeds, or fails with an error. *)
Definition backs_up (path_str : path -> str) (t : node) (g : list lint) (q : path) (t' : node) (g' : list lint) : Prop :=
  (fs_rename t q (backup_of q) = Some t' /\ g' = g) \/
  ((t' = t \/ fs_rename t q (backup_of q) = Some t') /\ exists m, g' = g ++ [phase_lint path_str LError CCreateBackups q m]).
(** modify.rs:296-308 *)
Definition removes (path_str : path -> str) (t : node) (g : list lint) (q : path) (t' : node) (g' : list lint) : Prop :=
  (fs_remove t q = Some t' /\ g' = g) \/
  ((t' = t \/ fs_remove t q = Some t') /\ exists m, g' = g ++ [phase_lint path_str LWarn CRemoveBackups q m]).

Section Phases.
  Variable path_str : path -> str.
  Variable st : settings.
  (** The two phases as a whole: the tree and the lints at the end. *)
  Definition race_back (t t' : node) (g : list lint) : Prop :=
    clos_refl_trans_1n _ (rstep (art_filter (se_xarts st)) (backs_up path_str)) (mkRace t [] (se_arts st) [] []) (mkRace t' [] [] [] g).
  Definition race_remove (t t' : node) (g : list lint) : Prop :=
    clos_refl_trans_1n _ (rstep (backup_filter (se_xarts st)) (removes path_str)) (mkRace t [] (se_arts st) [] []) (mkRace t' [] [] [] g).

  Variable M : num.
  Variable H : Type.
  Variables to_toml to_json : list (name * art_raw) -> str.
  Variable yaml_done : str -> str.
  Variable style : md_attrs.
  Variable E3 : disk_errs.
  Notation mstep := (mstep path_str M H st to_toml to_json yaml_done style E3).

  (** modify.rs:72-87 with walks that race: [c] and [p] are what is known before the disk is
      touched; the files are saved as in [Modify.v]. *)
  Inductive racy (t : node) (c : lints) (p : project M H) : mstate M H -> Prop :=
  | racy_fails t1 g1 t' e : race_back t t1 g1 ->
      clos_refl_trans_1n _ mstep (MBackup M H t1 c p [] g1) (MDone M H t' (Ok (inr e))) -> racy t c p (MDone M H t' (Ok (inr e)))
  | racy_ends t1 g1 t2 c2 g2 t3 g3 : race_back t t1 g1 ->
      clos_refl_trans_1n _ mstep (MBackup M H t1 c p [] g1) (MSave M H t2 c2 p [] g2) -> ls_error (categorize c2 g2) = [] ->
      race_remove t2 t3 g3 -> racy t c p (MDone M H t3 (Ok (inl (categorize (categorize c2 g2) g3, project_sort M H p)))).
  (** The disk at any moment on the way. *)
  Inductive moment (t : node) (c : lints) (p : project M H) : node -> Prop :=
  | mo_back x : clos_refl_trans_1n _ (rstep (art_filter (se_xarts st)) (backs_up path_str)) (mkRace t [] (se_arts st) [] []) x -> moment t c p (rc_tree x)
  | mo_save t1 g1 t2 c2 todo g2 : race_back t t1 g1 ->
      clos_refl_trans_1n _ mstep (MBackup M H t1 c p [] g1) (MSave M H t2 c2 p todo g2) -> moment t c p t2
  | mo_remove t1 g1 t2 c2 g2 x : race_back t t1 g1 ->
      clos_refl_trans_1n _ mstep (MBackup M H t1 c p [] g1) (MSave M H t2 c2 p [] g2) -> ls_error (categorize c2 g2) = [] ->
      clos_refl_trans_1n _ (rstep (backup_filter (se_xarts st)) (removes path_str)) (mkRace t2 [] (se_arts st) [] []) x -> moment t c p (rc_tree x).
End Phases.
