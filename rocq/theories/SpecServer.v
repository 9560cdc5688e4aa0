(** The server, one request at a time. *)
From Coq Require Import Relation_Operators.
From Verif Require Import Base Server.

Section Spec.
  Variables D P E O J : Type.
  Variable begins_read : D -> J -> Prop.
  Variable begins_modify : D -> O -> J -> Prop.
  Variable goes : D * J -> D * J -> Prop.
  Variable ended : J -> option (res (P + E)).

  (** What a call may do as a whole. *)
  Definition reads (d d' : D) (r : res (P + E)) : Prop :=
    exists j j', begins_read d j /\ clos_refl_trans_1n _ goes (d, j) (d', j') /\ ended j' = Some r.
  Definition modifies (d : D) (ops : O) (d' : D) (r : res (P + E)) : Prop :=
    exists j j', begins_modify d ops j /\ clos_refl_trans_1n _ goes (d, j) (d', j') /\ ended j' = Some r.

  (** One request: disk, project and whether a handler has panicked, before and after. *)
  Inductive serves : D * P * bool -> request O -> answer P E -> D * P * bool -> Prop :=
  | sv_bad d p b : serves (d, p, b) QBad AInvalid (d, p, b)
  | sv_dead d p q : q <> QBad -> serves (d, p, true) q ADied (d, p, true)
  | sv_read d p f : f = None \/ f = Some (Some false) -> serves (d, p, false) (QRead f) (AProject p) (d, p, false)
  | sv_invalid d p q : q = QRead (Some None) \/ q = QModify None \/ q = QModify (Some Err) -> serves (d, p, false) q AInvalid (d, p, false)
  | sv_unparsed d p : serves (d, p, false) (QModify (Some Panic)) ADied (d, p, true)
  | sv_reload d p d' q : reads d d' (Ok (inl q)) -> serves (d, p, false) (QRead (Some (Some true))) (AProject q) (d', q, false)
  | sv_reload_err d p d' e : reads d d' (Ok (inr e)) -> serves (d, p, false) (QRead (Some (Some true))) (AFailed e) (d', p, false)
  | sv_reload_died d p d' r : reads d d' r -> (forall x, r <> Ok x) -> serves (d, p, false) (QRead (Some (Some true))) ADied (d', p, true)
  | sv_modify d p ops d' q : modifies d ops d' (Ok (inl q)) -> serves (d, p, false) (QModify (Some (Ok ops))) (AProject q) (d', q, false)
  | sv_modify_err d p ops d' e : modifies d ops d' (Ok (inr e)) -> serves (d, p, false) (QModify (Some (Ok ops))) (AFailed e) (d', p, false)
  | sv_modify_died d p ops d' r : modifies d ops d' r -> (forall x, r <> Ok x) -> serves (d, p, false) (QModify (Some (Ok ops))) ADied (d', p, true).

  Inductive serves_all : D * P * bool -> list (request O * answer P E) -> D * P * bool -> Prop :=
  | sa_nil x : serves_all x [] x
  | sa_snoc x l y q a z : serves_all x l y -> serves y q a z -> serves_all x (l ++ [(q, a)]) z.

  (** The last project that was answered. *)
  Definition last_project (p : P) (l : list (request O * answer P E)) : P :=
    fold_left (fun p x => match snd x with AProject q => q | _ => p end) l p.

  (** A run of the server and the requests it was sent.  A request arrives when one more is
      waiting. *)
  Inductive sent (d : D) (p : P) : list (request O) -> server D P E O J -> Prop :=
  | st_start : sent d p [] (mkServer D P E O J d p false None false [] [])
  | st_arrive qs c c' q : sent d p qs c -> sstep D P E O J begins_read begins_modify goes ended c c' ->
      sv_waiting _ _ _ _ _ c' = q :: sv_waiting _ _ _ _ _ c -> sent d p (q :: qs) c'
  | st_other qs c c' : sent d p qs c -> sstep D P E O J begins_read begins_modify goes ended c c' ->
      length (sv_waiting _ _ _ _ _ c') <= length (sv_waiting _ _ _ _ _ c) -> sent d p qs c'.
  (** The requests that are answered, being handled, or waiting. *)
  Definition known (c : server D P E O J) : list (request O) :=
    map fst (sv_log _ _ _ _ _ c) ++ match sv_locked _ _ _ _ _ c with Some (q, _) => [q] | None => [] end ++ sv_waiting _ _ _ _ _ c.
End Spec.
