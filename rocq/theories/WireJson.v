(** The JSON of projects, operations and lints: what [art serve], [art ls --type json] and the
    printed lints write, and what the web client and the server read.  The derived [serde]
    implementations are written out; where they accept a list in place of an object the readers
    here say [Err] (nothing that is written here has that form).  The envelope of JSON-RPC (the
    crate jrpc) is left out: these are its "params" and "result". *)
From Verif Require Import Base Name Artifact Stored Markdown Lint Modify Render Json Web.

(** serde_json [to_value]: objects become maps ordered by their texts ([BTreeMap]); the keys of
    an object are distinct here.  With [leb] constantly [true] nothing changes: [to_string]. *)
Fixpoint arrange (leb : str -> str -> bool) (v : jval) : jval :=
  match v with
  | JArr l ok => JArr (map (arrange leb) l) ok
  | JObj l ok => JObj (isort (fun a b => leb (fst a) (fst b)) (map (fun e => (fst e, arrange leb (snd e))) l)) ok
  | _ => v
  end.

(** ** The settings *)
(** artifact-ser/src/lib.rs:147-159, [SettingsMdName] *)
Inductive md_name := NameDefault | NamePrefix (x : str).
(** artifact-lib/src/lib.rs:360-378, [Settings] ([P]: paths), and artifact-ser/src/ser.rs:97-113,
    [SettingsSer] ([P]: texts); artifact-ser/src/lib.rs:62-109: [SettingsParse], [SettingsFormat],
    [SettingsExport] *)
Record w_settings (P : Type) := mkWset {
  ws_base : P; ws_file : P; ws_code : list P; ws_xcode : list P; ws_arts : list P; ws_xarts : list P; ws_url : option str;
  ws_parse : md_name; ws_attrs : md_attrs;
  ws_header : option str; ws_toc : bool; ws_family : md_family; ws_dot : md_dot; ws_name : md_name }.
Arguments mkWset {P}. Arguments ws_base {P}. Arguments ws_file {P}. Arguments ws_code {P}. Arguments ws_xcode {P}. Arguments ws_arts {P}. Arguments ws_xarts {P}. Arguments ws_url {P}.
Arguments ws_parse {P}. Arguments ws_attrs {P}. Arguments ws_header {P}. Arguments ws_toc {P}. Arguments ws_family {P}. Arguments ws_dot {P}. Arguments ws_name {P}.

Definition j_text (o : option str) : jval := match o with None => JNull | Some x => JStr x end.
Definition e_md_name (n : md_name) : jval :=
  match n with
  | NameDefault => JObj [(s "type", JStr (s "default"))] true
  | NamePrefix x => JObj [(s "type", JStr (s "prefix")); (s "value", JStr x)] true
  end.
(** artifact-ser/src/lib.rs:196-217, [SettingsMdAttrs] *)
Definition e_attrs (a : md_attrs) : jval :=
  match a with
  | Hashes => JObj [(s "type", JStr (s "hashes"))] true
  | CodeBlock x => JObj [(s "type", JStr (s "code")); (s "prefix", j_text x)] true
  end.
(** artifact-ser/src/lib.rs:115-120, [SettingsMdFamily] *)
Definition e_family (f : md_family) : jval := JObj [(s "type", JStr (match f with FamilyList => s "list" | FamilyDot => s "dot" end))] true.
(** artifact-ser/src/lib.rs:128-139, [SettingsMdDot] *)
Definition e_dot (d : md_dot) : jval :=
  match d with
  | DotIgnore => JObj [(s "type", JStr (s "ignore"))] true
  | DotRemove => JObj [(s "type", JStr (s "remove_braces"))] true
  | DotReplace x y => JObj [(s "type", JStr (s "replace_braces")); (s "pre", JStr x); (s "post", JStr y)] true
  end.

Section Write.
  Context {M : num} {H : Type}.
  (** The text of a path (path_abs: [stfu8]); of an id (Ids.v, [id_ser]); of a ratio ([None]: not
      finite). *)
  Variable enc : path -> str.
  Variable id_text : H -> str.
  Variable num_text : F M -> option str.

  Definition e_paths (l : list path) : jval := JArr (map (fun p => JStr (enc p)) l) true.
  Definition e_settings (w : w_settings path) : jval :=
    JObj [(s "base", JStr (enc (ws_base w))); (s "settings_path", JStr (enc (ws_file w))); (s "code_paths", e_paths (ws_code w)); (s "exclude_code_paths", e_paths (ws_xcode w));
          (s "artifact_paths", e_paths (ws_arts w)); (s "exclude_artifact_paths", e_paths (ws_xarts w)); (s "code_url", j_text (ws_url w));
          (s "parse", JObj [(s "md_name", e_md_name (ws_parse w))] true); (s "format", JObj [(s "md_attrs", e_attrs (ws_attrs w))] true);
          (s "export", JObj [(s "md_header", j_text (ws_header w)); (s "md_toc", JBool (ws_toc w)); (s "md_family", e_family (ws_family w)); (s "md_dot", e_dot (ws_dot w)); (s "md_name", e_md_name (ws_name w))] true)] true.

  (** artifact-lib/src/lib.rs:119-124, [CodeLoc] *)
  Definition e_loc (l : code_loc) : jval := JObj [(s "file", JStr (enc (loc_file l))); (s "line", JNum (nat_str (loc_line l)))] true.
  (** artifact-lib/src/lib.rs:112-117, [ImplCode]; artifact-ser/src/name.rs:409-416, [Serialize for SubName] *)
  Definition e_code (c : impl_code) : jval :=
    JObj [(s "primary", match ic_primary c with None => JNull | Some l => e_loc l end);
          (s "secondary", JObj (map (fun e => (s_raw (fst e), e_loc (snd e))) (ic_secondary c)) true)] true.
  (** artifact-lib/src/lib.rs:100-110, [Impl] *)
  Definition e_impl (i : impl) : jval :=
    match i with
    | IDone d => JObj [(s "type", JStr (s "Done")); (s "value", JStr d)] true
    | ICode c => JObj [(s "type", JStr (s "Code")); (s "value", e_code c)] true
    | INot => JObj [(s "type", JStr (s "NotImpl"))] true
    end.
  (** artifact-ser/src/name.rs:285-292, [Serialize for Name] *)
  Definition e_names (l : list name) : jval := JArr (map (fun n => JStr (n_raw n)) l) true.
  Definition e_num (x : F M) : jval := match num_text x with Some t => JNum t | None => JNull end.
  (** artifact-lib/src/lib.rs:47-74, [Artifact]; artifact-ser/src/lib.rs:274-280, [Completed] *)
  Definition e_art (a : artifact M H) : jval :=
    JObj [(s "id", JStr (id_text (a_id a))); (s "name", JStr (n_raw (a_name a))); (s "file", JStr (enc (a_file a))); (s "partof", e_names (a_partof a)); (s "parts", e_names (a_parts a));
          (s "completed", JObj [(s "spc", e_num (fst (a_completed a))); (s "tst", e_num (snd (a_completed a)))] true); (s "text", JStr (a_text a)); (s "impl_", e_impl (a_impl a));
          (s "subnames", JArr (map (fun z => JStr (s_raw z)) (a_subnames a)) true)] true.
  (** artifact-lib/src/lib.rs:390-395, [Project] *)
  Definition e_project (w : w_settings path) (p : project M H) : jval :=
    JObj [(s "settings", e_settings w); (s "code_impls", JObj (map (fun e => (n_raw (fst e), e_code (snd e))) (pr_code p)) true);
          (s "artifacts", JObj (map (fun e => (n_raw (fst e), e_art (snd e))) (pr_arts p)) true)] true.
End Write.

(** artifact-ser/src/lint.rs:46-71, [Level] and [Category] *)
Definition level_str (l : level) : str := match l with LError => s "Error" | LWarn => s "Warn" end.
Definition cat_str (c : category) : str :=
  match c with
  | CLoadPaths => s "LoadPaths" | CParseCodeImplementations => s "ParseCodeImplementations" | CParseArtifactFiles => s "ParseArtifactFiles" | CAutoPartof => s "AutoPartof"
  | CArtifact => s "Artifact" | CSettings => s "Settings" | CImplCode => s "ImplCode" | CModifyPathInvalid => s "ModifyPathInvalid" | CCreateExists => s "CreateExists"
  | CUpdateDne => s "UpdateDne" | CDeleteDne => s "DeleteDne" | CIdOverlap => s "IdOverlap" | CCreateBackups => s "CreateBackups" | CSaveProject => s "SaveProject" | CRemoveBackups => s "RemoveBackups"
  end.
Definition all_cats : list category :=
  [CLoadPaths; CParseCodeImplementations; CParseArtifactFiles; CAutoPartof; CArtifact; CSettings; CImplCode; CModifyPathInvalid; CCreateExists; CUpdateDne; CDeleteDne; CIdOverlap; CCreateBackups; CSaveProject; CRemoveBackups].
(** artifact-ser/src/lint.rs:27-37, [Lint]: a path or line that is [None] is left out *)
Definition e_lint (x : lint) : jval :=
  JObj ([(s "level", JStr (level_str (li_level x)))] ++ match li_path x with None => [] | Some p => [(s "path", JStr p)] end ++
        match li_line x with None => [] | Some n => [(s "line", JNum (nat_str n))] end ++ [(s "category", JStr (cat_str (li_cat x))); (s "msg", JStr (li_msg x))]) true.
Definition e_lint_list (l : list lint) : jval := JArr (map e_lint l) true.
(** artifact-ser/src/lint.rs:39-44, [Categorized] *)
Definition e_lints (c : lints) : jval := JObj [(s "error", e_lint_list (ls_error c)); (s "other", e_lint_list (ls_other c))] true.
(** artifact-ser/src/lint.rs:107-120, [Display for Categorized] *)
Definition lints_text (c : lints) : str :=
  s "  ----- ERRORS -----:" ++ [c_nl] ++ w_pretty 0 (e_lint_list (ls_error c)) ++ [c_nl; c_nl] ++
  s "  ----- WARNINGS -----:" ++ [c_nl] ++ w_pretty 0 (e_lint_list (ls_other c)) ++ [c_nl].
(** artifact-app/src/ls.rs:143-147, [art ls --type json]; a listed name is in the project *)
Definition ls_text {M : num} {H : Type} (enc : path -> str) (id_text : H -> str) (num_text : F M -> option str) (l : list (artifact M H)) : str :=
  w_pretty 0 (JArr (map (e_art enc id_text num_text) l) true).
(** artifact-app/src/serve/handler.rs:77-88, 164-170: artifact-lib/src/lib.rs:382-388, [ProjectResult],
    with [to_value], then [to_string] *)
Definition e_result {M : num} {H : Type} (enc : path -> str) (id_text : H -> str) (num_text : F M -> option str) (w : w_settings path) (p : project M H) (c : lints) : jval :=
  JObj [(s "project", e_project enc id_text num_text w p); (s "lints", e_lints c)] true.
Definition answer_text {M : num} {H : Type} (enc : path -> str) (id_text : H -> str) (num_text : F M -> option str) (w : w_settings path) (p : project M H) (c : lints) : str :=
  w_val (arrange str_leb (e_result enc id_text num_text w p c)).

(** ** What the client sends: artifact-ser/src/ser.rs:50-64, 231-238 *)
Section Ops.
  Context {H : Type}.
  Variable id_text : H -> str.
  Definition e_sim (a : sim) : jval :=
    JObj [(s "name", JStr (n_raw (si_name a))); (s "file", JStr (si_file a)); (s "partof", e_names (si_partof a)); (s "done", j_text (si_done a)); (s "text", JStr (si_text a))] true.
  Definition e_sop (o : sop H) : jval :=
    match o with
    | SCreate a => JObj [(s "op", JStr (s "create")); (s "artifact", e_sim a)] true
    | SUpdate a i => JObj [(s "op", JStr (s "update")); (s "artifact", e_sim a); (s "orig_id", JStr (id_text i))] true
    end.
  (** artifact-frontend/src/fetch.rs:22-29, 113-116 *)
  Definition ops_text (l : list (sop H)) : str := w_val (JArr (map e_sop l) true).
End Ops.

(** ** Reading *)
(** A field of a derived [Deserialize]: at most once; [None] if it is missing.  (The fields are read
    in the order of the type here, not of the text: which of two faults comes first is not
    modelled.) *)
Definition get1 (fs : list (str * jval)) (k : str) : res (option jval) :=
  match filter (fun e => str_eqb (fst e) k) fs with [] => Ok None | [e] => Ok (Some (snd e)) | _ => Err end.
Definition need {A} (fs : list (str * jval)) (k : str) (d : jval -> res A) : res A :=
  res_bind (get1 fs k) (fun o => match o with Some v => d v | None => Err end).
Definition may {A} (fs : list (str * jval)) (k : str) (dflt : A) (d : jval -> res A) : res A :=
  res_bind (get1 fs k) (fun o => match o with Some v => d v | None => Ok dflt end).
Definition r_obj (v : jval) : res (list (str * jval)) := match v with JObj l true => Ok l | _ => Err end.
Definition r_arr (v : jval) : res (list jval) := match v with JArr l true => Ok l | _ => Err end.
Definition r_text (v : jval) : res str := match v with JStr x => Ok x | _ => Err end.
Definition r_opt_text (v : jval) : res (option str) := match v with JNull => Ok None | JStr x => Ok (Some x) | _ => Err end.
Definition r_bool (v : jval) : res bool := match v with JBool b => Ok b | _ => Err end.
(** [u64]: digits only (numbers beyond 64 bits are not refused here) *)
Definition r_nat (v : jval) : res nat :=
  match v with
  | JNum x => if forallb is_digit x then Ok (N.to_nat (fold_left (fun a c => a * 10 + (c - 48))%N x 0%N)) else Err
  | _ => Err
  end.
(** artifact-ser/src/name.rs:294-302 and 418-426 *)
Definition r_name (v : jval) : res name := res_bind (r_text v) name_from_str.
Definition r_sub (v : jval) : res subname := res_bind (r_text v) sub_from_str.
Definition r_set {A} (eqb : A -> A -> bool) (d : jval -> res A) (v : jval) : res (list A) :=
  res_bind (r_arr v) (fun l => res_bind (res_map d l) (fun l => Ok (is_collect eqb l))).
Definition r_map {K A} (eqb : K -> K -> bool) (key : str -> res K) (d : jval -> res A) (v : jval) : res (list (K * A)) :=
  res_bind (r_obj v) (fun l => res_bind (res_map (fun e => res_bind (key (fst e)) (fun k => res_bind (d (snd e)) (fun x => Ok (k, x)))) l) (fun l => Ok (im_collect eqb l))).

Definition r_md_name (v : jval) : res md_name :=
  res_bind (r_obj v) (fun fs => res_bind (need fs (s "type") r_text) (fun t =>
  if str_eqb t (s "default") then Ok NameDefault
  else if str_eqb t (s "prefix") then res_bind (need fs (s "value") r_text) (fun x => Ok (NamePrefix x)) else Err)).
Definition r_attrs (v : jval) : res md_attrs :=
  res_bind (r_obj v) (fun fs => res_bind (need fs (s "type") r_text) (fun t =>
  if str_eqb t (s "hashes") then Ok Hashes
  else if str_eqb t (s "code") then res_bind (may fs (s "prefix") None r_opt_text) (fun x => Ok (CodeBlock x)) else Err)).
Definition r_family (v : jval) : res md_family :=
  res_bind (r_obj v) (fun fs => res_bind (need fs (s "type") r_text) (fun t =>
  if str_eqb t (s "list") then Ok FamilyList else if str_eqb t (s "dot") then Ok FamilyDot else Err)).
Definition r_dot (v : jval) : res md_dot :=
  res_bind (r_obj v) (fun fs => res_bind (need fs (s "type") r_text) (fun t =>
  if str_eqb t (s "ignore") then Ok DotIgnore
  else if str_eqb t (s "remove_braces") then Ok DotRemove
  else if str_eqb t (s "replace_braces") then res_bind (need fs (s "pre") r_text) (fun x => res_bind (need fs (s "post") r_text) (fun y => Ok (DotReplace x y))) else Err)).
Definition r_texts (v : jval) : res (list str) := r_set str_eqb r_text v.
(** artifact-ser/src/lib.rs:62-109: the tables inside the settings have defaults *)
Definition r_settings (v : jval) : res (w_settings str) :=
  res_bind (r_obj v) (fun fs =>
  res_bind (need fs (s "base") r_text) (fun b => res_bind (need fs (s "settings_path") r_text) (fun f =>
  res_bind (need fs (s "code_paths") r_texts) (fun c => res_bind (need fs (s "exclude_code_paths") r_texts) (fun xc =>
  res_bind (need fs (s "artifact_paths") r_texts) (fun a => res_bind (need fs (s "exclude_artifact_paths") r_texts) (fun xa =>
  res_bind (may fs (s "code_url") None r_opt_text) (fun u =>
  res_bind (may fs (s "parse") NameDefault (fun v => res_bind (r_obj v) (fun fs => may fs (s "md_name") NameDefault r_md_name))) (fun pn =>
  res_bind (may fs (s "format") Hashes (fun v => res_bind (r_obj v) (fun fs => may fs (s "md_attrs") Hashes r_attrs))) (fun at_ =>
  res_bind (may fs (s "export") (None, false, FamilyList, DotIgnore, NameDefault) (fun v => res_bind (r_obj v) (fun fs =>
    res_bind (may fs (s "md_header") None r_opt_text) (fun h => res_bind (may fs (s "md_toc") true r_bool) (fun t => res_bind (may fs (s "md_family") FamilyList r_family) (fun fa =>
    res_bind (may fs (s "md_dot") DotIgnore r_dot) (fun d => res_bind (may fs (s "md_name") NameDefault r_md_name) (fun n => Ok (h, t, fa, d, n))))))))) (fun e =>
  let '(h, t, fa, d, n) := e in Ok (mkWset b f c xc a xa u pn at_ h t fa d n)))))))))))).

(** ** What the client has: artifact-ser/src/ser.rs:66-71, 133-207 *)
Record w_loc := mkWloc { wl_file : str; wl_line : nat }.
Record w_code := mkWcode { wc_primary : option w_loc; wc_secondary : list (subname * w_loc) }.
Inductive w_impl := WDone (d : str) | WCode (c : w_code) | WNot.
Record w_art (M : num) (H : Type) := mkWart {
  wa_id : H; wa_name : name; wa_file : str; wa_partof : list name; wa_parts : list name; wa_completed : F M * F M; wa_text : str; wa_impl : w_impl; wa_subnames : list subname }.
Arguments mkWart {M H}. Arguments wa_id {M H}. Arguments wa_name {M H}. Arguments wa_file {M H}. Arguments wa_partof {M H}. Arguments wa_parts {M H}. Arguments wa_completed {M H}. Arguments wa_text {M H}. Arguments wa_impl {M H}. Arguments wa_subnames {M H}.
Record w_project (M : num) (H : Type) := mkWproject { wp_settings : w_settings str; wp_code : list (name * w_code); wp_arts : list (name * w_art M H) }.
Arguments mkWproject {M H}. Arguments wp_settings {M H}. Arguments wp_code {M H}. Arguments wp_arts {M H}.

Section Read.
  Context {M : num} {H : Type}.
  (** Ids.v, [id_de]; [num_read]: an [f32] from a number *)
  Variable id_read : str -> res H.
  Variable num_read : str -> option (F M).
  Definition r_loc (v : jval) : res w_loc := res_bind (r_obj v) (fun fs => res_bind (need fs (s "file") r_text) (fun f => res_bind (need fs (s "line") r_nat) (fun l => Ok (mkWloc f l)))).
  Definition r_code (v : jval) : res w_code :=
    res_bind (r_obj v) (fun fs => res_bind (may fs (s "primary") None (fun v => match v with JNull => Ok None | _ => res_bind (r_loc v) (fun l => Ok (Some l)) end)) (fun pl =>
    res_bind (need fs (s "secondary") (r_map sub_eqb sub_from_str r_loc)) (fun l => Ok (mkWcode pl l)))).
  Definition r_impl (v : jval) : res w_impl :=
    res_bind (r_obj v) (fun fs => res_bind (need fs (s "type") r_text) (fun t =>
    if str_eqb t (s "Done") then res_bind (need fs (s "value") r_text) (fun d => Ok (WDone d))
    else if str_eqb t (s "Code") then res_bind (need fs (s "value") r_code) (fun c => Ok (WCode c))
    else if str_eqb t (s "NotImpl") then Ok WNot else Err)).
  Definition r_num (v : jval) : res (F M) := match v with JNum x => match num_read x with Some y => Ok y | None => Err end | _ => Err end.
  Definition r_art (v : jval) : res (w_art M H) :=
    res_bind (r_obj v) (fun fs =>
    res_bind (need fs (s "id") (fun v => res_bind (r_text v) id_read)) (fun i => res_bind (need fs (s "name") r_name) (fun n => res_bind (need fs (s "file") r_text) (fun f =>
    res_bind (need fs (s "partof") (r_set name_eqb r_name)) (fun po => res_bind (need fs (s "parts") (r_set name_eqb r_name)) (fun pa =>
    res_bind (need fs (s "completed") (fun v => res_bind (r_obj v) (fun gs => res_bind (need gs (s "spc") r_num) (fun x => res_bind (need gs (s "tst") r_num) (fun y => Ok (x, y)))))) (fun c =>
    res_bind (need fs (s "text") r_text) (fun t => res_bind (need fs (s "impl_") r_impl) (fun im => res_bind (need fs (s "subnames") (r_set sub_eqb r_sub)) (fun sn =>
    Ok (mkWart i n f po pa c t im sn))))))))))).
  Definition r_project (v : jval) : res (w_project M H) :=
    res_bind (r_obj v) (fun fs => res_bind (need fs (s "settings") r_settings) (fun st => res_bind (need fs (s "code_impls") (r_map name_eqb name_from_str r_code)) (fun c =>
    res_bind (need fs (s "artifacts") (r_map name_eqb name_from_str r_art)) (fun a => Ok (mkWproject st c a))))).
  Definition r_level (v : jval) : res level := res_bind (r_text v) (fun x => if str_eqb x (s "Error") then Ok LError else if str_eqb x (s "Warn") then Ok LWarn else Err).
  Definition r_cat (v : jval) : res category := res_bind (r_text v) (fun x => match find (fun c => str_eqb (cat_str c) x) all_cats with Some c => Ok c | None => Err end).
  Definition r_lint (v : jval) : res lint :=
    res_bind (r_obj v) (fun fs => res_bind (need fs (s "level") r_level) (fun l => res_bind (may fs (s "path") None r_opt_text) (fun p =>
    res_bind (may fs (s "line") None (fun v => match v with JNull => Ok None | _ => res_bind (r_nat v) (fun n => Ok (Some n)) end)) (fun n =>
    res_bind (need fs (s "category") r_cat) (fun c => res_bind (need fs (s "msg") r_text) (fun m => Ok (mkLint l p n c m))))))).
  Definition r_lint_list (v : jval) : res (list lint) := res_bind (r_arr v) (res_map r_lint).
  Definition r_lints (v : jval) : res lints :=
    res_bind (r_obj v) (fun fs => res_bind (need fs (s "error") r_lint_list) (fun e => res_bind (need fs (s "other") r_lint_list) (fun o => Ok (mkLints e o)))).
  (** artifact-ser/src/ser.rs:44-48, [ProjectResultSer] *)
  Definition r_result (v : jval) : res (w_project M H * lints) :=
    res_bind (r_obj v) (fun fs => res_bind (need fs (s "project") r_project) (fun p => res_bind (need fs (s "lints") r_lints) (fun c => Ok (p, c)))).
End Read.

(** serde_json [from_str] *)
Definition from_text {A} (d : jval -> res A) (x : str) : res A := match r_doc x with (v, true) => d v | _ => Err end.

(** artifact-lib/src/lib.rs:410-412, [to_ser]; both [unwrap]s panic *)
Definition to_ser {M : num} {H : Type} (enc : path -> str) (id_text : H -> str) (id_read : str -> res H) (num_text : F M -> option str) (num_read : str -> option (F M)) (w : w_settings path) (p : project M H) : res (w_project M H) :=
  match from_text (r_project id_read num_read) (w_val (e_project enc id_text num_text w p)) with Ok x => Ok x | _ => Panic end.

(** ** What the server makes of operations: artifact-lib/src/lib.rs:227-235, 296-312;
    artifact-app/src/serve/handler.rs:144-151, [from_value] *)
Section Serve.
  Context {H : Type}.
  Variable dec : str -> option path.
  Variable id_read : str -> res H.
  Definition r_im (v : jval) : res art_im :=
    res_bind (r_obj v) (fun fs => res_bind (need fs (s "name") r_name) (fun n =>
    res_bind (need fs (s "file") (fun v => res_bind (r_text v) (fun x => match dec x with Some p => Ok p | None => Err end))) (fun f =>
    res_bind (need fs (s "partof") (r_set name_eqb r_name)) (fun po => res_bind (may fs (s "done") None r_opt_text) (fun d => res_bind (need fs (s "text") r_text) (fun t =>
    Ok (mkIm n f po d t))))))).
  Definition r_id (v : jval) : res H := res_bind (r_text v) id_read.
  Definition r_op (v : jval) : res (op H) :=
    res_bind (r_obj v) (fun fs => res_bind (need fs (s "op") r_text) (fun t =>
    if str_eqb t (s "create") then res_bind (need fs (s "artifact") r_im) (fun a => Ok (OCreate a))
    else if str_eqb t (s "update") then res_bind (need fs (s "artifact") r_im) (fun a => res_bind (need fs (s "orig_id") r_id) (fun i => Ok (OUpdate a i)))
    else if str_eqb t (s "delete") then res_bind (need fs (s "name") r_name) (fun n => res_bind (need fs (s "orig_id") r_id) (fun i => Ok (ODelete n i))) else Err)).
  (** jrpc reads the parameters as a value: [arrange] (of a field that comes twice the last one
      stays; not modelled). *)
  Definition read_ops (x : str) : res (list (op H)) := from_text (fun v => res_bind (r_arr (arrange str_leb v)) (res_map r_op)) x.
End Serve.
