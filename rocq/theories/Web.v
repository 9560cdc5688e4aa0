(** artifact-frontend/src: the web client.  Modelled: routing (view.rs), the form for editing and
    its conversions (dev_prelude.rs), the messages and their effect on the project, the view, the
    edits and the request (main.rs, fetch.rs, edit.rs).  Left out: rendering, the search fields,
    the contents of log entries. *)
From Verif Require Import Base Regex Name Artifact.

(** ** Routing *)
(** dev_prelude.rs:171-176, [View] *)
Inductive view := VGraph | VArtifact (n : name) | VEdit (id : N) | VNotFound.

(** [Regex::captures]: the leftmost match *)
Fixpoint captures (r : re) (x : str) : option caps :=
  match match_here r x with
  | Some (_, cs) => Some cs
  | None => match x with [] => None | _ :: x' => captures r x' end
  end.
(** [str::to_ascii_lowercase] *)
Definition lowc (c : char) : char := if is_upper c then (c + 32)%N else c.
Definition lower (x : str) : str := map lowc x.

(** [usize::from_str] on decimal digits, which is what it is given; [lim] is 2^32 (wasm32) *)
Definition digits_value (x : str) : N := fold_left (fun v c => (10 * v + (c - 48))%N) x 0%N.
Definition parse_usize (lim : N) (x : str) : option N :=
  if is_nil x then None
  else if forallb is_digit x then (if N.ltb (digits_value x) lim then Some (digits_value x) else None) else None.
(** [format!("{}", n)] *)
Fixpoint decimal (fuel : nat) (n : N) : str :=
  match fuel with
  | 0 => []
  | S k => (if N.ltb n 10 then [] else decimal k (n / 10)%N) ++ [(48 + n mod 10)%N]
  end.

(** view.rs:23-27, [NAME_URL]; group 1 of the pattern is group 0 here *)
Definition name_url : re := seqs [opt (cis (s "artifacts/")); Cap 0 re_name].

(** dev_prelude.rs:166-168, [hash_edit] *)
Definition hash_edit (id : N) : str := s "edit/" ++ decimal (S (N.to_nat (N.log2 id))) id.

Section Route.
  (** [\d]: the decimal digits of Unicode *)
  Variable dig : char -> bool.
  Variable lim : N.
  (** view.rs:27, [EDIT_URL] *)
  Definition edit_url : re := seqs [cis (s "edit/"); Cap 0 (plus (Cls dig))].
  Definition group (cs : caps) : str := match cap_get 0 cs with Some x => x | None => [] end.
  (** the macro [name!]: [expect!(Name::from_str(..))] *)
  Definition expect_name (x : str) : res name := match name_from_str x with Ok n => Ok n | _ => Panic end.
  (** view.rs:44-61, [View::from_hash] *)
  Definition from_hash (h : str) : res view :=
    if str_eqb (lower h) (s "graph") || is_nil h then Ok VGraph
    else match captures name_url h with
         | Some cs => res_bind (expect_name (group cs)) (fun n => Ok (VArtifact n))
         | None =>
             match captures edit_url h with
             | Some cs => Ok (match parse_usize lim (group cs) with Some id => VEdit id | None => VNotFound end)
             | None => Ok VNotFound
             end
         end.
End Route.

(** ** Editing *)
Section Client.
  Variable H : Type.
  Variable heqb : H -> H -> bool.

  (** artifact-ser/src/ser.rs:134-144, [ArtifactSer], the fields used here; [sa_done] is [as_done] of
      its implementation *)
  Record sart := mkSart { sa_id : H; sa_name : name; sa_file : str; sa_partof : list name; sa_done : option str; sa_text : str }.
  Definition sproject := list (name * sart).
  (** artifact-ser/src/ser.rs:232-238, [ArtifactImSer] *)
  Record sim := mkSim { si_name : name; si_file : str; si_partof : list name; si_done : option str; si_text : str }.
  (** artifact-ser/src/ser.rs:52-64, [ArtifactOpSer]; the client deletes nothing *)
  Inductive sop := SCreate (a : sim) | SUpdate (a : sim) (orig : H).
  (** dev_prelude.rs:402-409, [ArtifactEdit] *)
  Record edit := mkEdit { e_orig : option H; e_name : str; e_file : str; e_partof : list str; e_done : str; e_text : str }.
  Definition new_edit : edit := mkEdit None [] [] [] [] [].
  (** dev_prelude.rs:412-427, [from_artifact] *)
  Definition from_artifact (a : sart) : edit :=
    mkEdit (Some (sa_id a)) (n_raw (sa_name a)) (sa_file a) (map n_raw (sa_partof a))
           (match sa_done a with Some d => d | None => [] end) (sa_text a).
  (** dev_prelude.rs:433-447, [to_im] *)
  Definition edit_im (e : edit) : res sim :=
    res_bind (res_map expect_name (e_partof e)) (fun ps =>
    res_bind (expect_name (e_name e)) (fun n =>
    Ok (mkSim n (e_file e) (is_collect name_eqb ps) (if is_nil (e_done e) then None else Some (e_done e)) (e_text e)))).
  (** fetch.rs:98-114 *)
  Definition edit_op (e : edit) : res sop :=
    res_bind (edit_im e) (fun a => Ok (match e_orig e with Some i => SUpdate a i | None => SCreate a end)).

  (** dev_prelude.rs:459-474, [Field], [FieldOp] *)
  Inductive field := FName (x : str) | FFile (x : str) | FDone (x : str) | FText (x : str)
                   | FPartAdd | FPartSet (i : nat) (x : str) | FPartDel (i : nat).
  Fixpoint list_set {A} (i : nat) (x : A) (l : list A) : option (list A) :=
    match i, l with
    | _, [] => None
    | 0, _ :: l' => Some (x :: l')
    | S i', y :: l' => match list_set i' x l' with Some m => Some (y :: m) | None => None end
    end.
  Fixpoint list_del {A} (i : nat) (l : list A) : option (list A) :=
    match i, l with
    | _, [] => None
    | 0, _ :: l' => Some l'
    | S i', y :: l' => match list_del i' l' with Some m => Some (y :: m) | None => None end
    end.
  Definition set_partof (e : edit) (l : option (list str)) : res edit :=
    match l with Some l => Ok (mkEdit (e_orig e) (e_name e) (e_file e) l (e_done e) (e_text e)) | None => Panic end.
  (** edit.rs:32-44 *)
  Definition set_field (e : edit) (f : field) : res edit :=
    match f with
    | FName x => Ok (mkEdit (e_orig e) x (e_file e) (e_partof e) (e_done e) (e_text e))
    | FFile x => Ok (mkEdit (e_orig e) (e_name e) x (e_partof e) (e_done e) (e_text e))
    | FDone x => Ok (mkEdit (e_orig e) (e_name e) (e_file e) (e_partof e) x (e_text e))
    | FText x => Ok (mkEdit (e_orig e) (e_name e) (e_file e) (e_partof e) (e_done e) x)
    | FPartAdd => set_partof e (Some (e_partof e ++ [[]]))
    | FPartSet i x => set_partof e (list_set i x (e_partof e))
    | FPartDel i => set_partof e (list_del i (e_partof e))
    end.

  (** ** The state *)
  (** A request: the initial page; a read and a modification with their ids. *)
  Inductive req := RInitial | RRead (jid : N) (reload : bool) | RModify (jid : N) (ops : list sop).
  (** dev_prelude.rs:178-216, [Model]; [c_static]: the web type is [Static]; [c_next]: the counter of
      [new_id] (dev_prelude.rs:29-35) *)
  Record client := mkClient {
    c_static : bool; c_project : sproject; c_view : view; c_task : option req;
    c_logs : list N; c_edits : list (N * edit); c_updating : list (N * list N); c_next : N }.

  (** dev_prelude.rs:302-345, [Msg].  [MOther]: search fields and [Ignore]; log entries as their number. *)
  Inductive msg :=
  | MView (v : view) | MOther
  | MInitial (static : bool) (p : option sproject) | MFetch (reload : bool) | MSend (ids : list N)
  | MProject (jid : N) (p : sproject) | MError (logs : nat)
  | MPushLogs (logs : nat) | MClearLogs (ids : option (list N))
  | MEdit (id : N) (f : field) | MStart (id : N) (current : bool) | MStop (id : N)
  | MBatch (l : list msg).

  Variable dig : char -> bool.
  Variable lim : N.

  Definition set_view (c : client) (v : view) : client :=
    mkClient (c_static c) (c_project c) v (c_task c) (c_logs c) (c_edits c) (c_updating c) (c_next c).
  Definition set_task (c : client) (t : option req) : client :=
    mkClient (c_static c) (c_project c) (c_view c) t (c_logs c) (c_edits c) (c_updating c) (c_next c).
  Definition set_edits (c : client) (e : list (N * edit)) : client :=
    mkClient (c_static c) (c_project c) (c_view c) (c_task c) (c_logs c) e (c_updating c) (c_next c).
  Definition set_project (c : client) (p : sproject) : client :=
    mkClient (c_static c) p (c_view c) (c_task c) (c_logs c) (c_edits c) (c_updating c) (c_next c).
  Definition set_logs (c : client) (l : list N) : client :=
    mkClient (c_static c) (c_project c) (c_view c) (c_task c) l (c_edits c) (c_updating c) (c_next c).
  (** dev_prelude.rs:33-35, [new_id] *)
  Definition take_next (c : client) : client :=
    mkClient (c_static c) (c_project c) (c_view c) (c_task c) (c_logs c) (c_edits c) (c_updating c) (c_next c + 1)%N.
  (** dev_prelude.rs:220-233, [push_logs]: information is inserted among the errors too *)
  Fixpoint push_logs (k : nat) (c : client) : client :=
    match k with
    | 0 => c
    | S k' => push_logs k' (set_logs (take_next c) (is_insert N.eqb (c_next c) (c_logs c)))
    end.
  (** main.rs:131-142, [clear_logs] *)
  Definition clear_logs (ids : option (list N)) (c : client) : client :=
    set_logs c (match ids with None => [] | Some l => fold_left (fun m i => is_remove N.eqb i m) l (c_logs c) end).

  (** fetch.rs:63-85, [start_fetch_project]; the requests sent are returned *)
  Definition start_fetch_project (reload : bool) (c : client) : client * list req :=
    if c_static c then (push_logs 1 c, [])
    else match c_task c with
         | Some _ => (push_logs 1 c, [])
         | None => let r := RRead (c_next c) reload in (set_task (take_next c) (Some r), [r])
         end.
  (** fetch.rs:88-120, [start_send_update] *)
  Definition start_send_update (ids : list N) (c : client) : res (client * list req) :=
    match c_task c with
    | Some _ => Ok (push_logs 1 c, [])
    | None =>
        res_bind (res_map (fun id => match im_get N.eqb id (c_edits c) with Some e => edit_op e | None => Panic end) ids) (fun ops =>
        let r := RModify (c_next c) ops in
        Ok (mkClient (c_static c) (c_project c) (c_view c) (Some r) (c_logs c) (c_edits c)
              (im_insert N.eqb (c_next c) ids (c_updating c)) (c_next c + 1)%N, [r]))
    end.

  (** dev_prelude.rs:266-280, [get_route_because_editing_removed] *)
  Definition route_after (p : sproject) (e : edit) : res str :=
    match match e_orig e with
          | Some i => find (fun x : name * sart => heqb (sa_id (snd x)) i) p
          | None => None
          end with
    | Some x => Ok (n_raw (sa_name (snd x)))
    | None =>
        match name_from_str (e_name e) with
        | Ok n => Ok (if im_mem name_eqb n p then e_name e else s "graph")
        | Err => Ok (s "graph")
        | Panic => Panic
        end
    end.
  Definition at_edit (v : view) (id : N) : bool := match v with VEdit i => N.eqb i id | _ => false end.
  (** dev_prelude.rs:251-262, [complete_editing]; [push_hash] gives the view of the new fragment
      (238-244; the percent encoding of fragments is left out) *)
  Definition complete_editing (id : N) (c : client) : res client :=
    match im_get N.eqb id (c_edits c) with
    | None => Ok c
    | Some e =>
        let c' := set_edits c (im_remove N.eqb id (c_edits c)) in
        if at_edit (c_view c) id
        then res_bind (route_after (c_project c) e) (fun h => res_bind (from_hash dig lim h) (fun v => Ok (set_view c' v)))
        else Ok c'
    end.
  Fixpoint complete_all (ids : list N) (c : client) : res client :=
    match ids with [] => Ok c | i :: l => res_bind (complete_editing i c) (complete_all l) end.
  (** fetch.rs:123-131, [handle_recv_project] *)
  Definition handle_recv_project (jid : N) (p : sproject) (c : client) : res client :=
    let c1 := set_task (set_project c p) None in
    match im_get N.eqb jid (c_updating c1) with
    | None => Ok c1
    | Some ids =>
        complete_all ids (mkClient (c_static c1) (c_project c1) (c_view c1) (c_task c1) (c_logs c1) (c_edits c1)
                            (im_remove N.eqb jid (c_updating c1)) (c_next c1))
    end.
  (** edit.rs:27-45, [handle_edit_artifact] *)
  Definition handle_edit (id : N) (f : field) (c : client) : res client :=
    match im_get N.eqb id (c_edits c) with
    | None => Panic
    | Some e => res_bind (set_field e f) (fun e' => Ok (set_edits c (im_insert N.eqb id e' (c_edits c))))
    end.
  (** edit.rs:47-64, [handle_start_edit] *)
  Definition handle_start (id : N) (current : bool) (c : client) : res client :=
    if current
    then match c_view c with
         | VArtifact n => match im_get name_eqb n (c_project c) with
                          | Some a => Ok (set_edits c (im_insert N.eqb id (from_artifact a) (c_edits c)))
                          | None => Panic
                          end
         | _ => Panic
         end
    else Ok (set_edits c (im_insert N.eqb id new_edit (c_edits c))).

  Definition quiet (r : res client) : res (client * list req) := res_bind r (fun c => Ok (c, [])).
  (** main.rs:85-129, [update_model] *)
  Definition update_model (m : msg) (c : client) : res (client * list req) :=
    match m with
    | MView v => Ok (set_view c v, [])
    | MOther => Ok (c, [])
    | MInitial static p =>
        let c1 := mkClient static (match p with Some p => p | None => c_project c end) (c_view c) None (c_logs c) (c_edits c) (c_updating c) (c_next c) in
        Ok (if static then (c1, []) else start_fetch_project false c1)
    | MFetch reload => Ok (start_fetch_project reload c)
    | MSend ids => start_send_update ids c
    | MProject jid p => quiet (handle_recv_project jid p c)
    | MError k => Ok (set_task (push_logs k c) None, [])
    | MPushLogs k => Ok (push_logs k c, [])
    | MClearLogs ids => Ok (clear_logs ids c, [])
    | MEdit id f => quiet (handle_edit id f c)
    | MStart id cur => quiet (handle_start id cur c)
    | MStop id => quiet (complete_editing id c)
    | MBatch _ => Panic
    end.
  (** main.rs:62-74, [update] *)
  Fixpoint update_batch (l : list msg) (c : client) : res (client * list req) :=
    match l with
    | [] => Ok (c, [])
    | m :: l' => res_bind (update_model m c) (fun a => res_bind (update_batch l' (fst a)) (fun b => Ok (fst b, snd a ++ snd b)))
    end.
  Definition update (m : msg) (c : client) : res (client * list req) :=
    match m with MBatch l => update_batch l c | _ => update_model m c end.

  (** ** The user *)
  (** The buttons and fields: create (nav.rs:48-60), edit (artifact.rs:41-52), save, cancel and the
      fields of the form (edit.rs:76-210), sync (nav.rs:62), a change of the fragment (links, the
      address bar; view.rs:37-41), removing errors (nav.rs:118-142), searching. *)
  Inductive action := UCreate | UEdit | USave (id : N) | UCancel (id : N) | UType (id : N) (f : field) | USync
                    | UHash (h : str) | UClear (ids : option (list N)) | USearch.
  Definition open_edit (current : bool) (c : client) : res (client * list req) :=
    res_bind (from_hash dig lim (hash_edit (c_next c))) (fun v =>
    update (MBatch [MStart (c_next c) current; MView v]) (take_next c)).
  Definition act (u : action) (c : client) : res (client * list req) :=
    match u with
    | UCreate => open_edit false c
    | UEdit => open_edit true c
    | USave id => update (MSend [id]) c
    | UCancel id => update (MStop id) c
    | UType id f => update (MEdit id f) c
    | USync => update (MFetch true) c
    | UHash h => res_bind (from_hash dig lim h) (fun v => update (MView v) c)
    | UClear ids => update (MClearLogs ids) c
    | USearch => update MOther c
    end.

  (** ** The server *)
  (** What a request can be answered with (fetch.rs:50-60 and 152-175): the id of a request is that
      of its answer. An answer that is not a response makes the client panic. *)
  Definition answers (r : req) (m : msg) : Prop :=
    match r, m with
    | RInitial, MInitial _ _ => True
    | RRead j _, MProject j' _ => j' = j
    | RModify j _, MProject j' _ => j' = j
    | _, MError k => k = 1
    | _, _ => False
    end.

  (** The client and the requests that are not answered. *)
  Definition world := (client * list req)%type.
  Inductive event := EUser (u : action) | EAnswer (r : req) (m : msg).
  Inductive wstep : world -> event -> world -> Prop :=
  | w_user c q u c' sent : act u c = Ok (c', sent) -> wstep (c, q) (EUser u) (c', q ++ sent)
  | w_answer c q q' r m c' sent : answers r m -> update m c = Ok (c', sent) ->
      wstep (c, q ++ r :: q') (EAnswer r m) (c', q ++ q' ++ sent).
  (** main.rs:45-68, [create]; [p] is the example project *)
  Definition start (p : sproject) (v : view) : world := (mkClient true p v (Some RInitial) [] [] [] 0%N, [RInitial]).
  (** The worlds of a history, latest first. *)
  Inductive history (p : sproject) (v : view) : list (event * world) -> world -> Prop :=
  | h_start : history p v [] (start p v)
  | h_step h w e w' : history p v h w -> wstep w e w' -> history p v ((e, w) :: h) w'.
End Client.
Arguments sa_id {H}. Arguments sa_name {H}. Arguments sa_file {H}. Arguments sa_partof {H}. Arguments sa_done {H}. Arguments sa_text {H}. Arguments mkSart {H}.
Arguments SCreate {H}. Arguments SUpdate {H}.
Arguments mkEdit {H}. Arguments e_orig {H}. Arguments e_name {H}. Arguments e_file {H}. Arguments e_partof {H}. Arguments e_done {H}. Arguments e_text {H}.
Arguments new_edit {H}. Arguments from_artifact {H}. Arguments edit_im {H}. Arguments edit_op {H}. Arguments set_partof {H}. Arguments set_field {H}.
Arguments RInitial {H}. Arguments RRead {H}. Arguments RModify {H}.
Arguments mkClient {H}. Arguments c_static {H}. Arguments c_project {H}. Arguments c_view {H}. Arguments c_task {H}. Arguments c_logs {H}. Arguments c_edits {H}. Arguments c_updating {H}. Arguments c_next {H}.
Arguments MView {H}. Arguments MOther {H}. Arguments MInitial {H}. Arguments MFetch {H}. Arguments MSend {H}. Arguments MProject {H}. Arguments MError {H}. Arguments MPushLogs {H}.
Arguments MClearLogs {H}. Arguments MEdit {H}. Arguments MStart {H}. Arguments MStop {H}. Arguments MBatch {H}.
Arguments set_view {H}. Arguments set_task {H}. Arguments set_edits {H}. Arguments set_project {H}. Arguments set_logs {H}. Arguments take_next {H}. Arguments push_logs {H}. Arguments clear_logs {H}.
Arguments start_fetch_project {H}. Arguments start_send_update {H}. Arguments route_after {H}. Arguments complete_editing {H}. Arguments complete_all {H}. Arguments handle_recv_project {H}.
Arguments handle_edit {H}. Arguments handle_start {H}. Arguments quiet {H}. Arguments update_model {H}. Arguments update_batch {H}. Arguments update {H}.
Arguments open_edit {H}. Arguments act {H}. Arguments answers {H}. Arguments EUser {H}. Arguments EAnswer {H}. Arguments wstep {H}. Arguments start {H}. Arguments history {H}.
