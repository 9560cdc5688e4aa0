(** artifact-data/src/project.rs, [read_project], from the files found to the project and its
    lints.  Walking the directories is in Walk.v. *)
From Coq Require Import Permutation Relation_Operators.
From Verif Require Import Base Regex Name RawNames Artifact Stored Markdown Lint Source Pool.

(** [Path::extension]: what follows the last dot of the file name, unless that dot is the first
    character or there is none. *)
Definition extension (p : path) : option str :=
  match rev p with
  | [] => None
  | f :: _ => match rsplit c_dot f with
              | Some (_ :: _, e) => Some e
              | _ => None
              end
  end.
(** raw.rs:429-457, [ArtFileType::from_path] *)
Inductive art_type := TToml | TMd | TJson.
Definition art_type_of (p : path) : option art_type :=
  match extension p with
  | Some e => if str_eqb e (s "toml") then Some TToml
              else if str_eqb e (s "md") then Some TMd
              else if str_eqb e (s "json") then Some TJson else None
  | None => None
  end.

(** A source file: the lines read up to the first i/o error, and the error. *)
Record code_file := mkCF { cf_path : path; cf_lines : list str; cf_err : option str }.
(** An artifact file: its text or the i/o error. *)
Record art_file := mkAF { af_path : path; af_text : str + str }.

Section Load.
  Variable path_str : path -> str.

  (** artifact-ser/src/lint.rs:123-131, [Lint::load_error] *)
  Definition load_error (p : path) (msg : str) : lint := mkLint LError (Some (path_str p)) None CLoadPaths (s "Error during loading: " ++ msg).

  (** implemented.rs:47-65, [load_locations] *)
  Definition load_locations (f : code_file) : job src_ref :=
    let (refs, e) := parse_locations (cf_path f) (cf_lines f) (match cf_err f with Some _ => true | None => false end) in
    mkJob refs (match e, cf_err f with EIo, Some m => [load_error (cf_path f) m] | _, _ => [] end)
          (match e with EPanic => true | _ => false end).

  (** The formats: yaml for the attributes in markdown files, toml, json, and the text of the
      error message. *)
  Variable yaml : str -> option (option str * option names_val).
  Variables parse_toml parse_json : str -> res (list (name * art_raw)).
  Variable parse_msg : path -> str -> str.
  Variable prefix : str.

  Definition parse_artifacts (t : art_type) (text : str) : res (list (name * art_raw)) :=
    match t with
    | TToml => parse_toml text
    | TMd => from_markdown yaml prefix text
    | TJson => parse_json text
    end.

  (** raw.rs:162-200, [load_file] *)
  Definition load_file (f : art_file) : job art_im :=
    match art_type_of (af_path f) with
    | None => mkJob [] [] true
    | Some t =>
        match af_text f with
        | inr m => mkJob [] [load_error (af_path f) m] false
        | inl text =>
            match parse_artifacts t text with
            | Ok l => mkJob (map (fun e => from_raw (fst e) (af_path f) (snd e)) l) [] false
            | Err => mkJob [] [load_error (af_path f) (parse_msg (af_path f) text)] false
            | Panic => mkJob [] [] true
            end
        end
    end.

  (** raw.rs:99-121: the lints of a duplicate artifact; [Display] of a path is taken to be the
      string of the lint *)
  Definition art_dup_lints (d : name * path * path) : list lint :=
    let '(n, a, b) := d in
    map (fun f => mkLint LError (Some (path_str f)) None CParseArtifactFiles
                    (s "duplicate name detected: " ++ n_raw n ++ s " in " ++ path_str f)) [a; b].

  Variable M : num.
  Variable topo : graph -> option (list nat).
  Variable H : Type.
  Variable hash_im : art_im -> H.
  Variable settings_path : path.
  Variable url_error : option str.

  (** artifact-lib/src/lib.rs:75-84 and 399-408, [Artifact::sort] and [Project::sort] *)
  Definition code_sort (c : impl_code) : impl_code := mkCode (ic_primary c) (im_sort sub_leb (ic_secondary c)).
  Definition art_sort (a : artifact M H) : artifact M H :=
    mkArt (a_id a) (a_name a) (a_file a) (isort name_leb (a_partof a)) (isort name_leb (a_parts a)) (a_completed a) (a_text a)
          (match a_impl a with ICode c => ICode (code_sort c) | i => i end) (isort sub_leb (a_subnames a)).
  Definition project_sort (p : project M H) : project M H :=
    mkProject (map (fun e => (fst e, art_sort (snd e))) (im_sort name_leb (pr_arts p)))
              (map (fun e => (fst e, code_sort (snd e))) (im_sort name_leb (pr_code p)))
              (pr_prefix p) (pr_settings_path p) (pr_url_error p).

  (** project.rs:142-181: from what arrived at the three collecting threads, in order of arrival:
      error lints, artifacts, references. *)
  Definition finish (arrived : list lint) (arts : list art_im) (refs : list src_ref)
    : res (lints * project M H + lints) :=
    let c := categorize no_lints arrived in
    if negb (is_nil (ls_error c)) then Ok (inr (sort_lints c))
    else
      let code := snd (join_locations refs) in
      res_bind (build M topo H hash_im arts code) (fun out =>
      let p := mkProject out code prefix settings_path url_error in
      res_bind (lint_project path_str p) (fun l => Ok (inl (sort_lints (categorize c l), project_sort p)))).

  (** The lints the two collecting threads send when they join what they received. *)
  Definition collect_lints (arts : list art_im) (refs : list src_ref) : list lint :=
    flat_map (dup_lints path_str) (fst (join_locations refs)) ++ flat_map art_dup_lints (j_dups (join_artifacts_raw arts)).

  Definition art_items (l : list (art_file + lint)) : list (job art_im + lint) :=
    map (fun i => match i with inl f => inl (load_file f) | inr x => inr x end) l.
  Definition code_items (l : list (code_file + lint)) : list (job src_ref + lint) :=
    map (fun i => match i with inl f => inl (load_locations f) | inr x => inr x end) l.

  (** A run of the reader threads to its end (Pool.v); the channels hold 128 items. *)
  Definition run_of {A} (w : nat) (items : list (job A + lint)) (out : list A) (ls : list lint) : Prop :=
    exists p, clos_refl_trans_1n _ (step 128) (start w items) p /\ stuck 128 p /\ po_out p = out /\ po_lints p = ls.

  (** project.rs:76-181: what loading the files found by the two walks may result in.  The readers
      run independently; their lints and those of the collecting threads mix in any order. *)
  Definition loads (n_art : nat) (afs : list (art_file + lint)) (cfs : list (code_file + lint))
             (r : res (lints * project M H + lints)) : Prop :=
    exists arts refs la lc arrived,
      run_of n_art (art_items afs) arts la /\ run_of 4 (code_items cfs) refs lc /\
      Permutation arrived (lc ++ la ++ collect_lints arts refs) /\
      r = finish arrived arts refs.
End Load.

(** artifact-app/src/bin/art.rs and check.rs:36-49: the exit status of [art check]; a panic of the
    main thread is status 101. *)
Definition exit_status {P} (r : res (lints * P + lints)) : nat :=
  match r with Ok x => check_status x | Err => 101 | Panic => 101 end.
