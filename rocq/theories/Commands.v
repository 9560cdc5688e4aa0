(** The commands of the command line that read a project, from the working directory to the exit
    status: artifact-app/src/lib.rs:55-95, bin/art.rs, ls.rs:131-164, fmt.rs:40-46, export.rs:66-91
    and 116-145, serve/mod.rs:48-63, frontend.rs.

    Parsing of arguments is left out.  A panic of the main thread is status 101. *)
From Coq Require Import ZArith Relation_Operators.
From Verif Require Import Base Regex Name Artifact RawNames Stored SpecGraph Markdown Lint Source Pool Load Disk Walk Modify Ls Settings Api Render.
Open Scope nat_scope.

(** ** Writing the document *)
Section Writes.
  Context {M : num} {H : Type}.
  Variable reported : F M -> Z.
  Variable path_str : path -> str.
  Variable strfmt : str -> str -> str -> option str.
  Variable p : project M H.
  Variable base : str.
  Variable ms : md_settings.
  Notation artifact := (artifact M H).
  Notation name_markdown := (name_markdown reported p).

  (** The calls of [write!] in order; a text that cannot be computed is a panic at that place.
      markdown.rs:143-184 *)
  Definition section_writes (title : str) (l : list name) : list (res str) :=
    match l with
    | [] => [Ok (s "<b>" ++ title ++ s ":</b> <i>none</i></a><br>" ++ [c_nl])]
    | _ => Ok (s "<b>" ++ title ++ s ":</b><br>" ++ [c_nl]) ::
           map (fun n => res_bind (name_markdown n None) (fun x => Ok (s "<li>" ++ x ++ s "</li>" ++ [c_nl]))) l
    end.
  Definition family_writes (a : artifact) : list (res str) :=
    match ms_family ms with
    | FamilyList => section_writes (s "partof") (a_partof a) ++ section_writes (s "parts") (a_parts a)
    | FamilyDot =>
        [Ok (details_begin (s "dot-graph"));
         res_bind (artifact_part_dot reported p a) (fun d =>
           Ok (match ms_dot ms with DotReplace x _ => x | _ => s "```dot" end ++ [c_nl] ++ d ++ [c_nl] ++
               match ms_dot ms with DotReplace _ y => y | _ => s "```" end ++ [c_nl]));
         Ok details_end]
    end.
  (** markdown.rs:105-141 *)
  Definition art_writes (a : artifact) : list (res str) :=
    [Ok (ms_prefix ms ++ s "# " ++ n_raw (a_name a) ++ [c_nl]); Ok (details_begin (s "metadata"))] ++ family_writes a ++
    [res_bind (html_file_url strfmt base ms (path_str (a_file a))) (fun x => Ok (html_line (s "file") x));
     res_bind match a_impl a with
              | IDone d => Ok d
              | ICode (mkCode (Some c) _) => html_code_url strfmt base ms (path_str (loc_file c)) (loc_line c)
              | _ => Ok (s "<i>not implemented</i>")
              end (fun x => Ok (html_line (s "impl") x));
     Ok (s "<b>spc:</b>" ++ percent2 (reported (fst (a_completed a))) ++ s "&nbsp;&nbsp;<b>tst:</b>" ++ percent2 (reported (snd (a_completed a))) ++ s "<br>" ++ [c_nl]);
     Ok (s "<hr>" ++ [c_nl]); Ok details_end;
     res_bind (replace_markdown reported path_str strfmt p base ms (n_raw (a_name a)) (a_text a)) (fun x => Ok (x ++ [c_nl; c_nl]))].
  (** markdown.rs:96-103 *)
  Definition toc_writes : list (res str) :=
    Ok (ms_prefix ms ++ s "# Table Of Contents" ++ [c_nl]) ::
    map (fun e : name * artifact => res_bind (name_markdown (fst e) None) (fun x => Ok (s "- " ++ x ++ [c_nl]))) (pr_arts p) ++ [Ok [c_nl; c_nl]].
  (** markdown.rs:79-94, [to_markdown] *)
  Definition md_writes (ex : md_export) : list (res str) :=
    match ex_header ex with Some h => [Ok (h ++ [c_nl])] | None => [] end ++ (if ex_toc ex then toc_writes else []) ++
    flat_map (fun e : name * artifact => art_writes (snd e)) (pr_arts p).
End Writes.

(** What becomes of a sequence of writes: the exit status and what the file holds in the end.  A
    write may fail, having written a part. *)
Inductive flow : list (res str) -> nat -> str -> Prop :=
| fl_end : flow [] 0 []
| fl_flush : flow [] 1 []
| fl_ok x l st y : flow l st y -> flow (Ok x :: l) st (x ++ y)
| fl_stop x l k : flow (Ok x :: l) 1 (firstn k x)
| fl_panic r l : (forall x, r <> Ok x) -> flow (r :: l) 101 [].

(** export.rs:76-91, [export_markdown]: the file is opened, created if there is none, and emptied
    (crate path_abs, [FileEdit::create]), then written. *)
Definition export_md (t : node) (target : path) (l : list (res str)) (st : nat) (t' : node) : Prop :=
  (st = 1 /\ t' = t) \/ exists y, flow l st y /\ fs_write t target y = Some t'.

(** ** The web client *)
(** [create_dir], no error if there is such a directory *)
Definition mkdir (t : node) (p : path) : option node :=
  match lookup t p with
  | Some (NDir _) => Some t
  | Some (NFile _) => None
  | None => if is_dir (lookup t (parent p)) then Some (put t p (Some (NDir []))) else None
  end.
Fixpoint mkdirs (t : node) (d : path) (q : path) : option node :=
  match q with
  | [] => Some t
  | x :: q' => match mkdir t (d ++ [x]) with Some t' => mkdirs t' (d ++ [x]) q' | None => None end
  end.
(** crate tar, unpacking one entry of the archive: a directory, or a file with its text *)
Definition unpack (t : node) (d : path) (e : path * option str) : option node :=
  match mkdirs t d (removelast (fst e)) with
  | Some t1 => match snd e with Some x => fs_write t1 (d ++ fst e) x | None => mkdir t1 (d ++ fst e) end
  | None => None
  end.
(** It may stop having made some directories and written a part of the file. *)
Definition unpack_part (t : node) (d : path) (e : path * option str) (t' : node) : Prop :=
  (exists k, mkdirs t d (firstn k (fst e)) = Some t') \/
  exists t1 x k, mkdirs t d (removelast (fst e)) = Some t1 /\ snd e = Some x /\ fs_write t1 (d ++ fst e) (firstn k x) = Some t'.
(** frontend.rs, [unpack_frontend]; [init] is the text of initial.json.  [PathFile::new] refuses a
    file that does not exist. *)
Definition initial_json : str := s "initial.json".
Inductive unpacks (d : path) (init : str) : node -> list (path * option str) -> nat -> node -> Prop :=
| up_next t e l st t1 t' : unpack t d e = Some t1 -> unpacks d init t1 l st t' -> unpacks d init t (e :: l) st t'
| up_stop t e l t' : unpack_part t d e t' -> unpacks d init t (e :: l) 1 t'
| up_end t t' : file_at t (d ++ [initial_json]) <> None -> fs_write t (d ++ [initial_json]) init = Some t' -> unpacks d init t [] 0 t'
| up_part t t' k : file_at t (d ++ [initial_json]) <> None -> fs_write t (d ++ [initial_json]) (firstn k init) = Some t' -> unpacks d init t [] 1 t'
| up_none t : unpacks d init t [] 1 t.
(** export.rs:66-74, [export_html]; crate path_abs, [PathDir::create] *)
Definition export_html (t : node) (target : path) (archive : list (path * option str)) (init : str) (st : nat) (t' : node) : Prop :=
  (st = 1 /\ t' = t) \/ exists t1, mkdir t target = Some t1 /\ unpacks target init t1 archive st t'.

(** ** The commands *)
Section Commands.
  Variable E : disk_errs.
  Variable path_str : path -> str.
  Variable toml : str -> raw_settings + str.
  Variable not_dir : path -> str.
  Variable lines_of : str -> list str * option str.
  Variable yaml : str -> option (option str * option names_val).
  Variables parse_toml parse_json : str -> res (list (name * art_raw)).
  Variable parse_msg : path -> str -> str.
  Variable M : num.
  Variable topo : graph -> option (list nat).
  Variable H : Type.
  Variable hash_im : art_im -> H.
  Variable re_error : str -> option str.
  Variable url_error : str -> option str.
  Notation project := (project M H).
  Notation loaded := (res (lints * project + lints)).
  Notation reads := (reads E path_str toml not_dir lines_of yaml parse_toml parse_json parse_msg M topo H hash_im re_error url_error).

  (** The beginning of every command: [work_dir!], [find_repo], [read_project]; [run r st t'] is
      what the command does with the result [r], [t] is the disk. *)
  Definition command (n : nat) (t : node) (wd : path) (run : path -> loaded -> nat -> node -> Prop) (st : nat) (t' : node) : Prop :=
    if is_dir (lookup t wd) then
      match find_repo (fun p => match lookup t p with Some _ => true | None => false end) wd with
      | Ok root => exists r, reads n t root r /\ run root r st t'
      | _ => st = 1 /\ t' = t
      end
    else st = 1 /\ t' = t.
  (** [read_project(repo)?]: with the project if there is one *)
  Definition with_project (t : node) (r : loaded) (go : project -> nat -> node -> Prop) (st : nat) (t' : node) : Prop :=
    match r with
    | Ok (inl (_, p)) => go p st t'
    | Ok (inr _) => st = 1 /\ t' = t
    | _ => st = 101 /\ t' = t
    end.

  (** check.rs:36-49 *)
  Definition art_check (n : nat) (t : node) (wd : path) : nat -> node -> Prop :=
    command n t wd (fun _ r st t' => st = exit_status r /\ t' = t).

  (** ls.rs:131-164 *)
  Variable reported : F M -> Z.
  Variable regex : str -> option (str -> bool).
  Variable code_str : impl_code -> str.
  Definition art_ls (n : nat) (t : node) (wd : path) (cmd : ls_cmd) : nat -> node -> Prop :=
    command n t wd (fun _ r => with_project t r (fun p st t' =>
      st = match ls_run reported regex path_str code_str cmd (pr_arts p) with Ok _ => 0 | Err => 1 | Panic => 101 end /\ t' = t)).

  (** fmt.rs:40-46: [modify_project] reads the project; [Modify.runs] goes on from there with the
      settings of the project *)
  Variable heqb : H -> H -> bool.
  Variable debug_im : art_im -> str.
  Variables to_toml to_json : list (name * art_raw) -> str.
  Variable yaml_done : str -> str.
  Variable style : md_attrs.
  Variables E1 E3 : disk_errs.
  Definition art_fmt (n : nat) (t : node) (wd : path) : nat -> node -> Prop :=
    command n t wd (fun root r st t' => exists stg res,
      (forall x raw, load_settings E path_str toml not_dir t root = Ok (inl (x, raw)) -> stg = x) /\
      runs path_str M topo H heqb hash_im debug_im stg to_toml to_json yaml_done style E1 E3 t r [] (MDone M H t' res) /\
      st = match res with Ok (inl _) => 0 | Ok (inr _) => 1 | _ => 101 end).

  (** export.rs:116-145.  [target] is the path given, which is resolved from the current directory. *)
  Variable strfmt : str -> str -> str -> option str.
  Variable ms : md_settings.
  Variable ex : md_export.
  Variable archive : list (path * option str).
  Variable initial : project -> str.
  Definition art_export (n : nat) (t : node) (wd : path) (ty : str) (target : path) : nat -> node -> Prop :=
    command n t wd (fun root r => with_project t r (fun p st t' =>
      if str_eqb (lower ty) (s "html") then export_html t target archive (initial p) st t'
      else if str_eqb (lower ty) (s "md") then export_md t target (md_writes reported path_str strfmt p (path_str root) ms ex) st t'
      else st = 1 /\ t' = t)).
End Commands.
