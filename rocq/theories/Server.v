(** artifact-app/src/serve: the handlers of [art serve] and the lock around the project
    (serve/mod.rs:42-63, serve/handler.rs).  The HTTP library runs handlers on several threads. *)
From Coq Require Import Relation_Operators.
From Verif Require Import Base.

Section Server.
  (** Disk, project with its lints, errors, operations; the states of a call of [read_project] or
      [modify_project] that is in progress. *)
  Variables D P E O J : Type.

  (** A request body: not UTF-8 or not a request (handler.rs:179-196); a read, without parameters,
      with parameters that do not parse, or with the flag [reload] (handler.rs:77-104); a
      modification, without parameters or with what parsing them gives (handler.rs:134-151), which
      can be a panic (artifact-ser/src/lib.rs:259-270). *)
  Inductive request := QBad | QRead (params : option (option bool)) | QModify (params : option (res O)).
  (** A project; an error of the underlying call; an error of the request; no answer (the handler
      panicked). *)
  Inductive answer := AProject (p : P) | AFailed (e : E) | AInvalid | ADied.

  (** The calls: how they begin on a disk, go on, and end ([Err] does not occur). *)
  Variable begins_read : D -> J -> Prop.
  Variable begins_modify : D -> O -> J -> Prop.
  Variable goes : D * J -> D * J -> Prop.
  Variable ended : J -> option (res (P + E)).

  (** [locked]: the request that holds the lock, with its call; [stopped]: the main thread holds
      it for good (handler.rs:68-72). *)
  Record server := mkServer {
    sv_disk : D; sv_project : P; sv_poisoned : bool; sv_locked : option (request * J); sv_stopped : bool;
    sv_waiting : list request; sv_log : list (request * answer) }.

  (** What is answered at once, holding the lock. *)
  Definition immediate (p : P) (q : request) : option answer :=
    match q with
    | QRead None => Some (AProject p)
    | QRead (Some None) => Some AInvalid
    | QRead (Some (Some false)) => Some (AProject p)
    | QModify None => Some AInvalid
    | QModify (Some Err) => Some AInvalid
    | QModify (Some Panic) => Some ADied
    | _ => None
    end.
  Definition dies (a : answer) : bool := match a with ADied => true | _ => false end.
  (** The call of the request *)
  Definition begins_call (d : D) (q : request) (j : J) : Prop :=
    match q with
    | QRead (Some (Some true)) => begins_read d j
    | QModify (Some (Ok ops)) => begins_modify d ops j
    | _ => False
    end.
  (** handler.rs:106-124 and 153-169: the project is replaced by the one read or modified *)
  Definition after_call (p : P) (r : res (P + E)) : P * answer :=
    match r with
    | Ok (inl q) => (q, AProject q)
    | Ok (inr e) => (p, AFailed e)
    | _ => (p, ADied)
    end.

  Inductive sstep : server -> server -> Prop :=
  | v_arrive d p b k x w l q : sstep (mkServer d p b k x w l) (mkServer d p b k x (q :: w) l)
  | v_bad d p b k x w w' l :
      sstep (mkServer d p b k x (w ++ QBad :: w') l) (mkServer d p b k x (w ++ w') (l ++ [(QBad, AInvalid)]))
  (** [LOCKED.lock().unwrap()] on a poisoned lock *)
  | v_poisoned d p w w' l q : q <> QBad ->
      sstep (mkServer d p true None false (w ++ q :: w') l) (mkServer d p true None false (w ++ w') (l ++ [(q, ADied)]))
  | v_immediate d p w w' l q a : immediate p q = Some a ->
      sstep (mkServer d p false None false (w ++ q :: w') l) (mkServer d p (dies a) None false (w ++ w') (l ++ [(q, a)]))
  | v_begin d p w w' l q j : begins_call d q j ->
      sstep (mkServer d p false None false (w ++ q :: w') l) (mkServer d p false (Some (q, j)) false (w ++ w') l)
  | v_go d j d' j' p b q x w l : goes (d, j) (d', j') ->
      sstep (mkServer d p b (Some (q, j)) x w l) (mkServer d' p b (Some (q, j')) x w l)
  | v_end d p b q j x w l r : ended j = Some r ->
      sstep (mkServer d p b (Some (q, j)) x w l)
            (mkServer d (fst (after_call p r)) (b || dies (snd (after_call p r))) None x w (l ++ [(q, snd (after_call p r))]))
  | v_stop d p b w l : sstep (mkServer d p b None false w l) (mkServer d p b None true w l).

  Definition serving (d : D) (p : P) (c : server) : Prop :=
    clos_refl_trans_1n _ sstep (mkServer d p false None false [] []) c.
End Server.
Arguments QBad {O}.  Arguments QRead {O}.  Arguments QModify {O}.
Arguments AProject {P E}.  Arguments AFailed {P E}.  Arguments AInvalid {P E}.  Arguments ADied {P E}.
