(** artifact-app/src/init.rs:36-69, [art init].

    The disk is a tree (Disk.v).  Each operation may fail for reasons outside the tree (permissions, space):
    [io i] is [Some _] if the i-th fails; [Some (Some k)] is a write that fails after the
    file was truncated and [k] characters written.  Writing to the terminal is
    not modelled. *)
From Verif Require Import Base Artifact Disk Settings.

(** data/settings.toml and data/purpose.md *)
Definition init_settings : str := join [c_nl] [
  s "# ---- Artifact Project Settings ----"; [];
  s "# Paths containing artifact markdown/toml files"; s "artifact_paths = [""design""]"; [];
  s "# Paths to exclude when loading artifacts"; s "exclude_artifact_paths = []"; [];
  s "# Paths containing code that has artifact links"; s "code_paths = []"; [];
  s "# Paths to exclude when searching through code"; s "exclude_code_paths = []"; []].
Definition init_purpose : str := join [c_nl] [s "# REQ-purpose"; s "The goal of this project is..."; []].

Section Init.
  Variable io : nat -> option (option nat).

  (** crate path_abs, [PathDir::create]: [create_dir], where [AlreadyExists] is no error, then
      [PathDir::new], which refuses what is not a directory *)
  Definition dir_create (i : nat) (t : node) (p : path) : bool * node :=
    match io i with
    | Some _ => (false, t)
    | None =>
        match lookup t p with
        | Some n => (is_dir (Some n), t)
        | None => if is_dir (lookup t (parent p)) then (true, put t p (Some (NDir []))) else (false, t)
        end
    end.
  (** crate path_abs, [PathFile::create]: open for writing, creating the file if there is none; what
      is there is kept *)
  Definition file_create (i : nat) (t : node) (p : path) : bool * node :=
    match io i with
    | Some _ => (false, t)
    | None =>
        match lookup t p with
        | Some n => (negb (is_dir (Some n)), t)
        | None => match fs_write t p [] with Some t' => (true, t') | None => (false, t) end
        end
    end.
  (** crate path_abs, [PathFile::write_str]: truncate and write everything *)
  Definition file_write (i : nat) (t : node) (p : path) (text : str) : bool * node :=
    match io i with
    | Some None => (false, t)
    | Some (Some k) => (false, match fs_write t p (firstn k text) with Some t' => t' | None => t end)
    | None => match fs_write t p text with Some t' => (true, t') | None => (false, t) end
    end.

  Definition design_dir (wd : path) : path := wd ++ [s "design"].
  Definition purpose_file (wd : path) : path := design_dir wd ++ [s "purpose.md"].

  Definition and_then (x : bool * node) (f : node -> bool * node) : bool * node := if fst x then f (snd x) else x.

  (** init.rs:50-67 *)
  Definition init_steps (t : node) (wd : path) : bool * node :=
    and_then (dir_create 0 t (art_dir wd)) (fun t =>
    and_then (file_create 1 t (settings_file wd)) (fun t =>
    and_then (file_write 2 t (settings_file wd) init_settings) (fun t =>
    and_then (dir_create 3 t (design_dir wd)) (fun t =>
    and_then (file_create 4 t (purpose_file wd)) (fun t =>
    file_write 5 t (purpose_file wd) init_purpose))))).

  (** init.rs:41-69 with bin/art.rs: the exit status and the disk *)
  Definition init_run (t : node) (wd : path) : nat * node :=
    if is_dir (lookup t wd) then
      match lookup t (art_dir wd) with
      | Some _ => (1, t)
      | None => let (ok, t') := init_steps t wd in (if ok then 0 else 1, t')
      end
    else (1, t).
End Init.
