(** What a page is told, and when. *)
From Verif Require Import Base Name Artifact Stored Markdown Lint Source Pool Load Disk Walk Modify Server SpecServer ServerCalls Web WebSave System.

Section Spec.
  Context {M : num} {H : Type}.
  (** A request of page [k] is over: it was answered, or the browser gave up on it. *)
  Definition told_to (k : nat) (e : label M H) : Prop :=
    match e with LArrive i _ _ => i = k | LGiveUp i _ => i = k | _ => False end.
  (** Something may have changed the disk. *)
  Definition touches_disk (e : label M H) : Prop :=
    match e with LDisk => True | LServe _ (RModify _ _) _ => True | _ => False end.
  Definition in_no (P : label M H -> Prop) (l : list (sys M H * label M H * sys M H)) : Prop :=
    forall y e y', In (y, e, y') l -> ~ P e.
End Spec.
