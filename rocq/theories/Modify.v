(** artifact-data/src/modify.rs, [modify_project].

    The disk is a tree (Disk.v); the workers of each phase act on it one operation at a time, in
    any order, and each operation may fail.  The bounded channels between the threads are not
    modelled here (see Saving.v for the one that can block). *)
From Coq Require Import Permutation Relation_Operators.
From Verif Require Import Base Regex Name Artifact Stored Markdown Lint Source Pool Load Disk Walk.

(** artifact-lib/src/lib.rs:300-312, [ArtifactOp]; [H] is [HashIm] *)
Inductive op {H : Type} := OCreate (a : art_im) | OUpdate (a : art_im) (orig : H) | ODelete (n : name) (orig : H).
Arguments op : clear implicits.
(** artifact-ser/src/lib.rs:340-351, [ModifyErrorKind] *)
Inductive mkind := KLoad | KPaths | KHash | KModify | KBackups | KSave.

(** [Path::starts_with], by components *)
Fixpoint path_prefix (p q : path) : bool :=
  match q, p with
  | [], _ => true
  | y :: q', x :: p' => str_eqb x y && path_prefix p' q'
  | _, [] => false
  end.
(** [Path::with_extension(ART_BK_EXT)], modify.rs:253 *)
Definition file_stem (f : str) : str := match rsplit c_dot f with Some (c :: x, _) => c :: x | _ => f end.
Definition backup_of (p : path) : path :=
  match rev p with [] => [] | f :: d => rev d ++ [file_stem f ++ s ".artbk"] end.
(** [PathAbs::new] on a path of a request: "." and ".." are resolved by text. *)
Definition locate (p : path) : option path := concat_path [] p.

Definition add_errors (c : lints) (l : list lint) : lints := mkLints (ls_error c ++ l) (ls_other c).

Section Modify.
  Variable path_str : path -> str.
  Variable M : num.
  Variable topo : graph -> option (list nat).
  Variable H : Type.
  Variable heqb : H -> H -> bool.
  Variable hash_im : art_im -> H.
  (** [{:?}] of an artifact *)
  Variable debug_im : art_im -> str.
  Variable st : settings.

  (** artifact-lib/src/lib.rs:320-330 *)
  Definition op_clean (o : op H) : op H :=
    match o with
    | OCreate a => OCreate (im_clean a)
    | OUpdate a i => OUpdate (im_clean a) i
    | ODelete n i => ODelete n i
    end.
  (** artifact-lib/src/lib.rs:332-356, [id_pieces] *)
  Definition op_name (o : op H) : name := match o with OCreate a => im_name a | OUpdate a _ => im_name a | ODelete n _ => n end.
  Definition op_orig (o : op H) : option H := match o with OCreate _ => None | OUpdate _ i => Some i | ODelete _ i => Some i end.
  Definition op_new (o : op H) : option H := match o with OCreate a => Some (hash_im a) | OUpdate a _ => Some (hash_im a) | ODelete _ _ => None end.
  Definition opt_eqb (x y : option H) : bool :=
    match x, y with Some a, Some b => heqb a b | None, None => true | _, _ => false end.

  Definition plain_lint (c : category) (m : str) : lint := mkLint LError None None c m.
  (** modify.rs:151-185, [check_overlap] (on cleaned operations) *)
  Definition take_id (ids : list H) (i : option H) (n : name) : list H * list lint :=
    match i with
    | None => (ids, [])
    | Some h => (is_insert heqb h ids,
                 if is_mem heqb h ids then [plain_lint CIdOverlap (s "Attempting to operate twice on " ++ n_raw n)] else [])
    end.
  Fixpoint check_overlap (ids : list H) (ops : list (op H)) : list lint :=
    match ops with
    | [] => []
    | o :: ops' =>
        if opt_eqb (op_new o) (op_orig o) then check_overlap ids ops'
        else
          let (ids1, l1) := take_id ids (op_new o) (op_name o) in
          let (ids2, l2) := take_id ids1 (op_orig o) (op_name o) in
          l1 ++ l2 ++ check_overlap ids2 ops'
    end.

  (** modify.rs:94-149, [check_paths]; the [continue] of the last check is that of the inner loop *)
  Definition op_file (o : op H) : option path :=
    match o with OCreate a => Some (im_file a) | OUpdate a _ => Some (im_file a) | ODelete _ _ => None end.
  Definition path_lint (p : path) (m : str) : lint := mkLint LError (Some (path_str p)) None CModifyPathInvalid m.
  Definition check_path (p : path) : list lint :=
    match art_type_of p with
    | None => [path_lint p (s "Not one of the valid extensions [.toml, .md, .json]")]
    | Some _ =>
        let valid := filter (path_prefix p) (se_arts st) in
        if is_nil valid then [path_lint p (s "Not inside artifact_paths")]
        else flat_map (fun ex => if path_prefix p ex && existsb (fun v => path_prefix v ex) valid
                                 then [path_lint p (s "Is inside exclude_artifact_paths")] else []) (se_xarts st)
    end.
  Definition check_paths (ops : list (op H)) : list lint :=
    flat_map (fun o => match op_file o with Some p => check_path p | None => [] end) ops.

  (** modify.rs:188-230, [perform_operations] *)
  Definition ids_map := list (H * art_im).
  Definition perform_one (acc : list lint * ids_map) (o : op H) : list lint * ids_map :=
    let (errs, m) := acc in
    match o with
    | OCreate a =>
        (match im_get heqb (hash_im a) m with
         | Some b => errs ++ [plain_lint CCreateExists (s "Attempting to create an artifact which already exists: " ++ debug_im b)]
         | None => errs
         end, im_insert heqb (hash_im a) a m)
    | OUpdate a i =>
        match im_get heqb i m with
        | None => (errs ++ [plain_lint CUpdateDne (s "Attempt to update '" ++ n_raw (im_name a) ++ s "' failed, hash-id does not exist")], m)
        | Some _ => (errs, im_insert heqb (hash_im a) a (im_remove heqb i m))
        end
    | ODelete n i =>
        match im_get heqb i m with
        | None => (errs ++ [plain_lint CDeleteDne (s "Attempt to delete '" ++ n_raw n ++ s "' failed, hash-id does not exist")], m)
        | Some _ => (errs, im_remove heqb i m)
        end
    end.
  Definition perform_operations (ops : list (op H)) (m : ids_map) : list lint * ids_map :=
    fold_left perform_one ops ([], m).

  (** modify.rs:50-56 *)
  Definition ids_of (arts : list (name * artifact M H)) : ids_map :=
    im_collect heqb (map (fun e => let im := to_im (snd e) in (hash_im im, im)) arts).

  Definition failed (k : mkind) (c : lints) : mkind * lints := (k, sort_lints c).

  (** modify.rs:32-76: everything before the disk is touched *)
  Definition modify_pure (loaded : lints * project M H + lints) (ops : list (op H))
    : res (mkind * lints + lints * project M H) :=
    match loaded with
    | inr c => if is_nil (ls_error c) then Panic else Ok (inl (failed KLoad c))
    | inl (c, p) =>
        if negb (is_nil (ls_error c)) then Ok (inl (failed KLoad c)) else
        let ops := map op_clean ops in
        let c := add_errors c (check_overlap [] ops) in
        if negb (is_nil (ls_error c)) then Ok (inl (failed KPaths c)) else
        let c := add_errors c (check_paths ops) in
        if negb (is_nil (ls_error c)) then Ok (inl (failed KPaths c)) else
        let (errs, m) := perform_operations ops (ids_of (pr_arts p)) in
        let c := add_errors c errs in
        if negb (is_nil (ls_error c)) then Ok (inl (failed KHash c)) else
        let arts := map snd m in
        res_bind (build M topo H hash_im arts (pr_code p)) (fun out =>
        let q := mkProject out (pr_code p) (pr_prefix p) (pr_settings_path p) (pr_url_error p) in
        let c := categorize c (flat_map (art_dup_lints path_str) (j_dups (join_artifacts_raw arts)) ++ lint_errors path_str q) in
        if negb (is_nil (ls_error c)) then Ok (inl (failed KModify c)) else Ok (inr (c, q)))
    end.

  (** The formats for writing (raw.rs:343-427, toml, json); [style] is [format.md_attrs]. *)
  Variables to_toml to_json : list (name * art_raw) -> str.
  Variable yaml_done : str -> str.
  Variable style : md_attrs.

  (** modify.rs:320-326 *)
  Definition save_entry (files : list (path * list (name * art_raw))) (e : name * artifact M H)
    : list (path * list (name * art_raw)) :=
    let '(f, n, r) := into_raw (to_im (snd e)) in
    let old := match im_get path_eqb f files with Some l => l | None => [] end in
    im_insert path_eqb f (im_insert name_eqb n r old) files.
  Definition save_files (arts : list (name * artifact M H)) : list (path * list (name * art_raw)) :=
    fold_left save_entry arts [].
  (** modify.rs:359-366 *)
  Definition file_text (prefix : str) (p : path) (l : list (name * art_raw)) : res str :=
    let l := im_sort name_leb l in
    match art_type_of p with
    | Some TToml => Ok (to_toml l)
    | Some TMd => to_markdown yaml_done prefix style l
    | Some TJson => Ok (to_json l)
    | None => Panic
    end.
  Definition save_jobs (p : project M H) : list (path * res str) :=
    map (fun e => (fst e, file_text (pr_prefix p) (fst e) (snd e))) (save_files (pr_arts p)).

  (** The state of a run once the disk is being changed: the tree, the lints so far, the project,
      what is left of the phase, the lints of the phase. *)
  Definition result := res (lints * project M H + mkind * lints).
  Inductive mstate :=
  | MBackup (t : node) (c : lints) (p : project M H) (todo : list (path + lint)) (got : list lint)
  | MSave (t : node) (c : lints) (p : project M H) (todo : list (path * res str)) (got : list lint)
  | MRemove (t : node) (c : lints) (p : project M H) (todo : list (path + lint)) (got : list lint)
  | MDone (t : node) (r : result).
  Definition disk (x : mstate) : node :=
    match x with MBackup t _ _ _ _ => t | MSave t _ _ _ _ => t | MRemove t _ _ _ _ => t | MDone t _ => t end.

  Definition phase_lint (lv : level) (cat : category) (p : path) (m : str) : lint := mkLint lv (Some (path_str p)) None cat m.
  (** The file systems's errors while walking for the first and for the last phase. *)
  Variables E1 E3 : disk_errs.
  (** What the walks deliver: settings.rs:79-91 and modify.rs:282-290. *)
  Definition to_back_up (t : node) : list (path + lint) :=
    walk_paths (e_stat E1) (e_open E1) (e_none E1) path_str (art_filter (se_xarts st)) t (se_arts st).
  Definition to_remove (t : node) : list (path + lint) :=
    walk_paths (e_stat E3) (e_open E3) (e_none E3) path_str (backup_filter (se_xarts st)) t (se_arts st).

  Inductive mstep : mstate -> mstate -> Prop :=
  (** modify.rs:233-272, [create_backups].  An error may be reported though the file was renamed. *)
  | b_lint t c p x todo got : mstep (MBackup t c p (inr x :: todo) got) (MBackup t c p todo (got ++ [x]))
  | b_ok t c p q todo got t' : fs_rename t q (backup_of q) = Some t' ->
      mstep (MBackup t c p (inl q :: todo) got) (MBackup t' c p todo got)
  | b_fail t c p q todo got t' m : t' = t \/ fs_rename t q (backup_of q) = Some t' ->
      mstep (MBackup t c p (inl q :: todo) got) (MBackup t' c p todo (got ++ [phase_lint LError CCreateBackups q m]))
  (** The walk goes on while files are renamed: what it comes by a second time, from another
      configured path, may be gone already; a configured path that is itself such a file is then
      an error. *)
  | b_gone t c p q todo got : lookup t q = None -> ~ In q (se_arts st) ->
      mstep (MBackup t c p (inl q :: todo) got) (MBackup t c p todo got)
  | b_late t c p q todo got m : lookup t q = None -> In q (se_arts st) ->
      mstep (MBackup t c p (inl q :: todo) got) (MBackup t c p todo (got ++ [load_error path_str q m]))
  | b_err t c p got : ls_error (categorize c got) <> [] ->
      mstep (MBackup t c p [] got) (MDone t (Ok (inr (failed KBackups (categorize c got)))))
  | b_end t c p got todo : ls_error (categorize c got) = [] -> Permutation (save_jobs p) todo ->
      mstep (MBackup t c p [] got) (MSave t (categorize c got) p todo [])
  (** modify.rs:318-380, [save_project].  Files still to be written may hold anything already
      ([s_partial]); a failed write leaves anything in the file; a panic while formatting leaves it
      empty and is not reported. *)
  | s_ok t c p q x l todo got t' : locate q = Some l -> fs_write t l x = Some t' ->
      mstep (MSave t c p ((q, Ok x) :: todo) got) (MSave t' c p todo got)
  | s_fail t c p q x todo got t' m : t' = t \/ (exists l y, locate q = Some l /\ fs_write t l y = Some t') ->
      mstep (MSave t c p ((q, x) :: todo) got) (MSave t' c p todo (got ++ [phase_lint LError CSaveProject q m]))
  | s_panic t c p q x l todo got t' : (forall y, x <> Ok y) -> locate q = Some l -> fs_write t l [] = Some t' ->
      mstep (MSave t c p ((q, x) :: todo) got) (MSave t' c p todo got)
  | s_partial t c p q x l todo got t' y : In (q, x) todo -> locate q = Some l -> fs_write t l y = Some t' ->
      mstep (MSave t c p todo got) (MSave t' c p todo got)
  | s_err t c p got : ls_error (categorize c got) <> [] ->
      mstep (MSave t c p [] got) (MDone t (Ok (inr (failed KSave (categorize c got)))))
  | s_end t c p got todo : ls_error (categorize c got) = [] -> Permutation (to_remove t) todo ->
      mstep (MSave t c p [] got) (MRemove t (categorize c got) p todo [])
  (** modify.rs:274-315, [remove_backups], and 85-87; errors do not matter any more. *)
  | r_lint t c p x todo got : mstep (MRemove t c p (inr x :: todo) got) (MRemove t c p todo (got ++ [x]))
  | r_ok t c p q todo got t' : fs_remove t q = Some t' -> mstep (MRemove t c p (inl q :: todo) got) (MRemove t' c p todo got)
  | r_fail t c p q todo got t' m : t' = t \/ fs_remove t q = Some t' ->
      mstep (MRemove t c p (inl q :: todo) got) (MRemove t' c p todo (got ++ [phase_lint LWarn CRemoveBackups q m]))
  | r_gone t c p q todo got : lookup t q = None -> ~ In q (se_arts st) ->
      mstep (MRemove t c p (inl q :: todo) got) (MRemove t c p todo got)
  | r_late t c p q todo got m : lookup t q = None -> In q (se_arts st) ->
      mstep (MRemove t c p (inl q :: todo) got) (MRemove t c p todo (got ++ [load_error path_str q m]))
  | r_end t c p got : mstep (MRemove t c p [] got) (MDone t (Ok (inl (categorize c got, project_sort M H p)))).

  (** modify.rs:32-78: from the result of reading the project ([Panic]: the caller panics). *)
  Definition begins (t : node) (loaded : res (lints * project M H + lints)) (ops : list (op H)) (x : mstate) : Prop :=
    match res_bind loaded (fun r => modify_pure r ops) with
    | Ok (inl e) => x = MDone t (Ok (inr e))
    | Ok (inr (c, p)) => exists todo, Permutation (to_back_up t) todo /\ x = MBackup t c p todo []
    | _ => x = MDone t Panic
    end.
  Definition runs (t : node) (loaded : res (lints * project M H + lints)) (ops : list (op H)) (x : mstate) : Prop :=
    exists x0, begins t loaded ops x0 /\ clos_refl_trans_1n _ mstep x0 x.
End Modify.
