(** artifact-ser/src/lint.rs and the lints of artifact-data/src/project.rs. *)
From Verif Require Import Base Regex Name Artifact Markdown.

(** lint.rs:47-52; [Error < Warn] *)
Inductive level := LError | LWarn.
(** lint.rs:54-72, in the order of the derived [Ord] *)
Inductive category :=
  CLoadPaths | CParseCodeImplementations | CParseArtifactFiles | CAutoPartof | CArtifact | CSettings | CImplCode |
  CModifyPathInvalid | CCreateExists | CUpdateDne | CDeleteDne | CIdOverlap | CCreateBackups | CSaveProject | CRemoveBackups.
(** lint.rs:28-37 *)
Record lint := mkLint { li_level : level; li_path : option str; li_line : option nat; li_cat : category; li_msg : str }.

(** The derived [Ord]: the fields one after the other; [None < Some _]. *)
Definition then_cmp (a b : comparison) : comparison := match a with Eq => b | _ => a end.
Definition opt_cmp {A} (cmp : A -> A -> comparison) (x y : option A) : comparison :=
  match x, y with None, None => Eq | None, Some _ => Lt | Some _, None => Gt | Some a, Some b => cmp a b end.
Definition level_num (l : level) : nat := match l with LError => 0 | LWarn => 1 end.
Definition cat_num (c : category) : nat :=
  match c with
  | CLoadPaths => 0 | CParseCodeImplementations => 1 | CParseArtifactFiles => 2 | CAutoPartof => 3 | CArtifact => 4
  | CSettings => 5 | CImplCode => 6 | CModifyPathInvalid => 7 | CCreateExists => 8 | CUpdateDne => 9 | CDeleteDne => 10
  | CIdOverlap => 11 | CCreateBackups => 12 | CSaveProject => 13 | CRemoveBackups => 14
  end.
Definition lint_cmp (a b : lint) : comparison :=
  then_cmp (Nat.compare (level_num (li_level a)) (level_num (li_level b)))
  (then_cmp (opt_cmp str_cmp (li_path a) (li_path b))
  (then_cmp (opt_cmp Nat.compare (li_line a) (li_line b))
  (then_cmp (Nat.compare (cat_num (li_cat a)) (cat_num (li_cat b)))
            (str_cmp (li_msg a) (li_msg b))))).
Definition lint_leb (a b : lint) : bool := match lint_cmp a b with Gt => false | _ => true end.
Definition lint_eqb (a b : lint) : bool := match lint_cmp a b with Eq => true | _ => false end.

(** lint.rs:39-44, [Categorized] *)
Record lints := mkLints { ls_error : list lint; ls_other : list lint }.
Definition no_lints : lints := mkLints [] [].
(** lint.rs:74-84 *)
Definition categorize (c : lints) (l : list lint) : lints :=
  fold_left (fun c x => match li_level x with
                        | LError => mkLints (ls_error c ++ [x]) (ls_other c)
                        | LWarn => mkLints (ls_error c) (ls_other c ++ [x])
                        end) l c.
(** lint.rs:87-93 *)
Definition sort_dedup (l : list lint) : list lint := dedup lint_eqb (isort lint_leb l).
Definition sort_lints (c : lints) : lints := mkLints (sort_dedup (ls_error c)) (sort_dedup (ls_other c)).
(** lint.rs:96-98 *)
Definition lints_empty (c : lints) : bool := is_nil (ls_error c) && is_nil (ls_other c).

(** artifact-app/src/check.rs:36-49 and artifact-app/src/bin/art.rs: the exit status from the
    result of [read_project] ([Err] is status 1). *)
Definition check_status {P} (r : lints * P + lints) : nat :=
  match r with
  | inr _ => 1
  | inl (c, _) => if negb (is_nil (ls_error c)) then 1 else if negb (lints_empty c) then 2 else 0
  end.

(** artifact-lib/src/lib.rs, [Project] with the settings the lints look at: the markdown name
    prefix, the settings file, and the outcome of formatting [code_url] with a made-up
    location ([None]: no [code_url], or no error). *)
Record project (M : num) (H : Type) := mkProject {
  pr_arts : list (name * artifact M H); pr_code : list (name * impl_code);
  pr_prefix : str; pr_settings_path : path; pr_url_error : option str }.
Arguments mkProject {M H}.  Arguments pr_arts {M H}.  Arguments pr_code {M H}.
Arguments pr_prefix {M H}.  Arguments pr_settings_path {M H}.  Arguments pr_url_error {M H}.

Section Lints.
  Context {M : num} {H : Type}.
  (** [PathSer::to_stfu8] *)
  Variable path_str : path -> str.
  Variable p : project M H.

  Definition art_lint (l : level) (file : path) (msg : str) : lint := mkLint l (Some (path_str file)) None CArtifact msg.
  Definition defined (n : name) : option (artifact M H) := im_get name_eqb n (pr_arts p).

  (** project.rs:186-201 *)
  Definition lint_partof_dne : list lint :=
    flat_map (fun e : name * artifact M H =>
      flat_map (fun q => match defined q with
                         | Some _ => []
                         | None => [art_lint LError (a_file (snd e))
                                      (n_raw (fst e) ++ s " defines partof=" ++ n_raw q ++ s " which does not exist")]
                         end) (a_partof (snd e))) (pr_arts p).

  (** project.rs:205-232 *)
  Definition bad_types (a b : ty) : bool :=
    match a, b with REQ, SPC | REQ, TST | SPC, TST => true | _, _ => false end.
  Definition lint_partof_types : list lint :=
    flat_map (fun e : name * artifact M H =>
      flat_map (fun q => if bad_types (n_ty (fst e)) (n_ty q)
                         then [art_lint LError (a_file (snd e))
                                 (n_raw (fst e) ++ s " cannot have `partof` " ++ n_raw q ++ s ": invalid types.")]
                         else []) (a_partof (snd e))) (pr_arts p).

  (** project.rs:236-252 *)
  Definition lint_done_subnames : list lint :=
    flat_map (fun e : name * artifact M H =>
      match a_impl (snd e), a_subnames (snd e) with
      | IDone _, _ :: _ => [art_lint LError (a_file (snd e))
                              (n_raw (fst e) ++ s ": subnames are defined when the `done` field is set.")]
      | _, _ => []
      end) (pr_arts p).

  (** project.rs:337-368 *)
  Definition msg_header : str :=
    s "Cannot have a line of the form ""# ART-name"" as that specifies a new artifact in the markdown format.".
  Definition msg_end : str :=
    s "Cannot have a line of the form ""###+"" as that specifies the end of the metadata in the markdown format.".
  Definition lint_text : list lint :=
    flat_map (fun e : name * artifact M H =>
      flat_map (fun l =>
        let bad m := [art_lint LError (a_file (snd e)) (n_raw (fst e) ++ s " text is invalid: " ++ m)] in
        if is_match_full (md_name_line_re (pr_prefix p)) l then bad msg_header
        else if is_match_full attrs_end_re l then bad msg_end else []) (str_lines (a_text (snd e)))) (pr_arts p).

  (** project.rs:23-28, [lint_errors] *)
  Definition lint_errors : list lint := lint_partof_dne ++ lint_partof_types ++ lint_text ++ lint_done_subnames.

  (** project.rs:372-413.  [expect!(Name::from_str(..))] fails exactly where [from_str] panics. *)
  Definition lint_ref (e : name * artifact M H) (cs : caps) : res (list lint) :=
    match cap_get 0 cs with
    | None => Panic
    | Some x =>
        match name_from_str x with
        | Ok n =>
            let sub := option_map sub_new (cap_get 1 cs) in
            let bad := [art_lint LWarn (a_file (snd e))
                          (n_raw (fst e) ++ s " has soft reference [[" ++ name_full n sub ++ s "]] which does not exist.")] in
            Ok match defined n, sub with
               | None, _ => bad
               | Some a, Some x => if is_mem sub_eqb x (a_subnames a) then [] else bad
               | Some _, None => []
               end
        | _ => Panic
        end
    end.
  Definition lint_text_refs : res (list lint) :=
    res_bind (res_map (fun e : name * artifact M H =>
                res_bind (res_map (lint_ref e) (find_all re_text_ref (a_text (snd e)))) (fun l => Ok (concat l)))
              (pr_arts p)) (fun l => Ok (concat l)).

  (** project.rs:255-316 *)
  Definition code_lint (n : name) (sub : option subname) (loc : code_loc) (msg : str) : lint :=
    mkLint LWarn (Some (path_str (loc_file loc))) (Some (loc_line loc)) CImplCode
           (s "Invalid code impl #" ++ name_full n sub ++ s ". " ++ msg).
  Definition all_code (n : name) (c : impl_code) (msg : str) : list lint :=
    match ic_primary c with Some loc => [code_lint n None loc msg] | None => [] end ++
    map (fun x => code_lint n (Some (fst x)) (snd x) msg) (ic_secondary c).
  Definition lint_code_impls : list lint :=
    flat_map (fun e : name * impl_code =>
      match defined (fst e) with
      | Some a =>
          match a_impl a with
          | IDone _ => all_code (fst e) (snd e) (s "Artifact's done field is set")
          | ICode _ =>
              flat_map (fun x : subname * code_loc =>
                if is_mem sub_eqb (fst x) (a_subnames a) then []
                else [code_lint (fst e) (Some (fst x)) (snd x)
                        (s "Subname [[" ++ s_raw (fst x) ++ s "]] does not exist in artifact's text")])
                (ic_secondary (snd e))
          | INot => []
          end
      | None => all_code (fst e) (snd e) (s "Artifact " ++ n_raw (fst e) ++ s " does not exist")
      end) (pr_code p).

  (** project.rs:318-333 *)
  Definition lint_settings : list lint :=
    match pr_url_error p with
    | Some m => [mkLint LError (Some (path_str (pr_settings_path p))) None CSettings m]
    | None => []
    end.

  (** project.rs:31-35, [lint_other]; project.rs:17-20, [lint] *)
  Definition lint_other : res (list lint) :=
    res_bind lint_text_refs (fun l => Ok (l ++ lint_code_impls ++ lint_settings)).
  Definition lint_project : res (list lint) := res_bind lint_other (fun l => Ok (lint_errors ++ l)).
End Lints.
