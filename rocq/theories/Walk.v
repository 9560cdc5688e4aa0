(** artifact-data/src/settings.rs: walking the configured paths (79-145), and resolving them
    (189-212).

    Entries of a directory come in the order of the tree.  [stat_err] and [open_err] are the
    errors of reading an entry and of listing a directory. *)
From Verif Require Import Base Name Artifact Stored Lint Source Pool Load Disk.

Section Walk.
  Variables stat_err open_err : path -> option str.
  Variable not_found : str.

  (** settings.rs:124-142, the loop over the entries of [dir.walk()] (which yields the directory
      itself first).  [filter is_dir path]; an error ends the walk of this root. *)
  Fixpoint walk_node (filter : bool -> path -> bool) (p : path) (t : node) : list path * option str :=
    match stat_err p with
    | Some m => ([], Some m)
    | None =>
        match t with
        | NFile _ => (if filter false p then [p] else [], None)
        | NDir l =>
            if filter true p then
              match open_err p with
              | Some m => ([], Some m)
              | None =>
                  (fix go l := match l with
                               | [] => ([], None)
                               | (x, c) :: l' =>
                                   match walk_node filter (p ++ [x]) c with
                                   | (fs, Some m) => (fs, Some m)
                                   | (fs, None) => let (fs', e) := go l' in (fs ++ fs', e)
                                   end
                               end) l
              end
            else ([], None)
        end
    end.

  (** settings.rs:113-123: a root that is a file is sent without asking the filter *)
  Definition walk_path (filter : bool -> path -> bool) (t : node) (root : path) : list path * option str :=
    match lookup t root with
    | None => ([], Some not_found)
    | Some (NFile _) => ([root], None)
    | Some d => walk_node filter root d
    end.

  Variable path_str : path -> str.
  (** settings.rs:93-107 *)
  Definition walk_paths (filter : bool -> path -> bool) (t : node) (roots : list path) : list (path + lint) :=
    flat_map (fun root => let (fs, e) := walk_path filter t root in
                          map inl fs ++ match e with Some m => [inr (load_error path_str root m)] | None => [] end) roots.
End Walk.

Fixpoint path_eqb (p q : path) : bool :=
  match p, q with
  | [], [] => true
  | x :: p', y :: q' => str_eqb x y && path_eqb p' q'
  | _, _ => false
  end.
Definition path_mem (p : path) (l : list path) : bool := existsb (path_eqb p) l.

(** settings.rs:85-89 *)
Definition art_filter (exclude : list path) (dir : bool) (p : path) : bool :=
  negb (path_mem p exclude || (negb dir && match art_type_of p with None => true | Some _ => false end)).
(** project.rs:95-98 *)
Definition code_filter (exclude : list path) (dir : bool) (p : path) : bool := negb (path_mem p exclude).
(** modify.rs:282-290; [ART_BK_EXT] is "artbk" *)
Definition is_backup (p : path) : bool := match extension p with Some e => str_eqb e (s "artbk") | None => false end.
Definition backup_filter (exclude : list path) (dir : bool) (p : path) : bool :=
  if dir || is_backup p then negb (path_mem p exclude) else false.

(** [str::trim_start_matches] with a string and with a character. *)
Fixpoint trim_str (fuel : nat) (pat x : str) : str :=
  match fuel with
  | 0 => x
  | S k => if starts_with x pat then trim_str k pat (skipn (length pat) x) else x
  end.
Definition trim_char (c : char) (x : str) : str := drop_while (N.eqb c) x.
(** path_abs: [concat] goes through the components: empty ones and "." are skipped, ".." goes up
    and is an error at the root. *)
Fixpoint concat_path (base : path) (cs : list str) : option path :=
  match cs with
  | [] => Some base
  | c :: cs' => if is_nil c || str_eqb c (s ".") then concat_path base cs'
                else if str_eqb c (s "..") then match base with [] => None | _ => concat_path (removelast base) cs' end
                else concat_path (base ++ [c]) cs'
  end.
(** settings.rs:189-212 for one path; [expect!] of [concat] panics.  (With absolute components
    [PathAbs::new] only fails if the current directory is gone.) *)
Definition resolve_path (base : path) (p : str) : res path :=
  let p := trim_str (length p) (s "{repo}") p in
  let p := trim_char 47%N p in
  match concat_path base (split_on 47%N p) with Some q => Ok q | None => Panic end.

(** Reading the files found. *)
Record disk_errs := mkErrs { e_stat : path -> option str; e_open : path -> option str; e_read : path -> option str; e_none : str }.
Record settings := mkSettings { se_arts : list path; se_xarts : list path; se_code : list path; se_xcode : list path }.
Section Read.
  Variable E : disk_errs.
  Variable t : node.
  Variable lines_of : str -> list str * option str.
  (** [PathFile::read_string] *)
  Definition read_art (p : path) : art_file :=
    mkAF p (match e_read E p with Some m => inr m | None => match file_at t p with Some c => inl c | None => inr (e_none E) end end).
  (** implemented.rs:47-65: lines, up to an error *)
  Definition read_code (p : path) : code_file :=
    match e_read E p with
    | Some m => mkCF p [] (Some m)
    | None => match file_at t p with Some c => let (ls, e) := lines_of c in mkCF p ls e | None => mkCF p [] (Some (e_none E)) end
    end.
  Variable path_str : path -> str.
  Definition found {A} (f : path -> A) (l : list (path + lint)) : list (A + lint) :=
    map (fun i => match i with inl p => inl (f p) | inr x => inr x end) l.
  Definition art_files (st : settings) : list (art_file + lint) :=
    found read_art (walk_paths (e_stat E) (e_open E) (e_none E) path_str (art_filter (se_xarts st)) t (se_arts st)).
  Definition code_files (st : settings) : list (code_file + lint) :=
    found read_code (walk_paths (e_stat E) (e_open E) (e_none E) path_str (code_filter (se_xcode st)) t (se_code st)).
End Read.
