(** Reading the settings of a project, reading a project from the disk, and [art check]:
    artifact-data/src/settings.rs:26-77 and 147-212, artifact-data/src/project.rs:41-99,
    artifact-app/src/check.rs:36-49.

    The toml format is a parameter: it gives the fields or the text of an error.  The disk does
    not change while it is read. *)
From Verif Require Import Base Regex Name Artifact RawNames Stored Markdown Lint Source Pool Load Disk Walk Ls.

(** [Ord] of paths: by components *)
Fixpoint path_leb (p q : path) : bool :=
  match p, q with
  | [], _ => true
  | _ :: _, [] => false
  | x :: p', y :: q' => if str_eqb x y then path_leb p' q' else str_leb x y
  end.

(** settings.rs:26-40, [SettingsRaw]; of the nested tables only [parse.md_name] plays a role in
    loading, here as its prefix *)
Record raw_settings := mkRS { rs_arts : list str; rs_xarts : list str; rs_code : list str; rs_xcode : list str;
  rs_url : option str; rs_prefix : str }.

Section Settings.
  Variable E : disk_errs.
  Variable path_str : path -> str.
  Variable toml : str -> raw_settings + str.
  Variable not_dir : path -> str.

  Definition art_dir (root : path) : path := root ++ [s ".art"].
  Definition settings_file (root : path) : path := art_dir root ++ [s "settings.toml"].

  (** settings.rs:55-77, [SettingsRaw::load] *)
  Definition load_raw (t : node) (root : path) : raw_settings + str :=
    if is_dir (lookup t root) then
      match file_at t (settings_file root) with
      | None => inr (e_none E)
      | Some text => match e_read E (settings_file root) with Some m => inr m | None => toml text end
      end
    else inr (not_dir root).

  (** settings.rs:189-212, [resolve_raw_paths] *)
  Definition resolve_paths (root : path) (l : list str) : res (list path) :=
    res_bind (res_map (resolve_path root) l) (fun ps => Ok (is_collect path_eqb ps)).

  (** settings.rs:150-186, [load_settings], and the sorting of project.rs:76-79 *)
  Definition load_settings (t : node) (root : path) : res (settings * raw_settings + lint) :=
    match load_raw t root with
    | inr m => Ok (inr (load_error path_str root m))
    | inl raw =>
        res_bind (resolve_paths root (rs_code raw)) (fun code =>
        res_bind (resolve_paths root (rs_xcode raw)) (fun xcode =>
        res_bind (resolve_paths root (rs_arts raw)) (fun arts =>
        res_bind (resolve_paths root (rs_xarts raw)) (fun xarts =>
        Ok (inl (mkSettings (isort path_leb arts) (isort path_leb xarts) (isort path_leb code) (isort path_leb xcode), raw))))))
    end.

  Variable lines_of : str -> list str * option str.
  Variable yaml : str -> option (option str * option names_val).
  Variables parse_toml parse_json : str -> res (list (name * art_raw)).
  Variable parse_msg : path -> str -> str.
  Variable M : num.
  Variable topo : graph -> option (list nat).
  Variable H : Type.
  Variable hash_im : art_im -> H.
  (** [Regex::new] on the pattern with the prefix (raw.rs:152-157), and formatting [code_url] with a
      made-up place (project.rs:317-334): the text of the error, if any *)
  Variable re_error : str -> option str.
  Variable url_error : str -> option str.

  (** project.rs:41-181, [read_project], for [n] readers of artifact files *)
  Definition reads (n : nat) (t : node) (root : path) (r : res (lints * project M H + lints)) : Prop :=
    match load_settings t root with
    | Ok (inl (st, raw)) =>
        match re_error (rs_prefix raw) with
        | Some m => r = Ok (inr (sort_lints (categorize no_lints [mkLint LError (Some (path_str (settings_file root))) None CSettings m])))
        | None =>
            loads path_str yaml parse_toml parse_json parse_msg (rs_prefix raw) M topo H hash_im (settings_file root)
              (match rs_url raw with Some u => url_error u | None => None end) n
              (art_files E t path_str st) (code_files E t lines_of path_str st) r
        end
    | Ok (inr l) => r = Ok (inr (sort_lints (categorize no_lints [l])))
    | Err => r = Err
    | Panic => r = Panic
    end.

  (** check.rs:36-49 with bin/art.rs: the exit status in a working directory *)
  Definition checks (n : nat) (t : node) (wd : path) (st : nat) : Prop :=
    if is_dir (lookup t wd) then
      match find_repo (fun p => match lookup t p with Some _ => true | None => false end) wd with
      | Ok root => exists r, reads n t root r /\ st = exit_status r
      | _ => st = 1
      end
    else st = 1.
End Settings.
