(** The threads of artifact-data/src/project.rs:87-139, [read_project]: a walking thread feeds a
    bounded channel with the files it finds, [w] reader threads take files from it and send what
    they find; errors go to a third channel.  The collecting threads at the other ends always
    receive, so sending to them is one step here.

    A panic in a reader ends that thread only: the threads are never joined.  When all readers
    are gone the channel is disconnected and the next send of the walking thread panics. *)
From Coq Require Import Lia Permutation Relation_Operators.
From Verif Require Import Base Lint.

(** What reading one file sends: items, error lints, and whether the thread panicked. *)
Record job (A : Type) := mkJob { jb_out : list A; jb_lints : list lint; jb_panic : bool }.
Arguments mkJob {A}.  Arguments jb_out {A}.  Arguments jb_lints {A}.  Arguments jb_panic {A}.

(** The files that [w] reader threads get to read: they take them in order from a channel, and a
    thread that panics takes no further one (project.rs:102-110, 131-139; the threads are not
    joined).  PoolFacts.v derives this from the interleavings of the threads. *)
Fixpoint taken {A} (w : nat) (jobs : list (job A)) : list (job A) :=
  match w, jobs with
  | S w', j :: js => j :: taken (if jb_panic j then w' else w) js
  | _, _ => []
  end.

Section Pool.
  Context {A : Type}.
  Variable cap : nat.

  (** What the walk yields: files (with what reading them does) and lints. *)
  Notation item := (job A + lint)%type.
  Inductive worker := WIdle | WBusy (rest : list A) (ls : list lint) (panics : bool) | WDead.
  Record pool := mkPool { po_walk : list item; po_queue : list (job A); po_workers : list worker;
                          po_out : list A; po_lints : list lint }.

  Definition all_dead (ws : list worker) : Prop := Forall (fun x => x = WDead) ws.
  Definition after (panics : bool) : worker := if panics then WDead else WIdle.

  Inductive step : pool -> pool -> Prop :=
  | s_feed j u q ws o l : length q < cap -> ~ all_dead ws ->
      step (mkPool (inl j :: u) q ws o l) (mkPool u (q ++ [j]) ws o l)
  | s_walk_lint x u q ws o l : step (mkPool (inr x :: u) q ws o l) (mkPool u q ws o (l ++ [x]))
  | s_walk_panic j u q ws o l : all_dead ws -> step (mkPool (inl j :: u) q ws o l) (mkPool [] q ws o l)
  | s_take u j q a b o l :
      step (mkPool u (j :: q) (a ++ WIdle :: b) o l) (mkPool u q (a ++ WBusy (jb_out j) (jb_lints j) (jb_panic j) :: b) o l)
  | s_send u q a b x r m p o l :
      step (mkPool u q (a ++ WBusy (x :: r) m p :: b) o l) (mkPool u q (a ++ WBusy r m p :: b) (o ++ [x]) l)
  | s_send_lint u q a b r x m p o l :
      step (mkPool u q (a ++ WBusy r (x :: m) p :: b) o l) (mkPool u q (a ++ WBusy r m p :: b) o (l ++ [x]))
  | s_finish u q a b p o l :
      step (mkPool u q (a ++ WBusy [] [] p :: b) o l) (mkPool u q (a ++ after p :: b) o l).

  Definition start (w : nat) (items : list item) : pool := mkPool items [] (repeat WIdle w) [] [].
  Definition stuck (p : pool) : Prop := forall p', ~ step p p'.
End Pool.
Arguments pool : clear implicits.
Arguments worker : clear implicits.
