(** artifact-data/src/modify.rs:330-379, the threads of [save_project]: the main thread sends all
    files into a channel, and only then receives the lints that [w] workers send.  Both channels
    hold [c] items (128 in the source).

    A file is represented by whether writing it fails.  Panics of the workers (formatting; see
    C25 and C28 for the values that are formatted) are not modelled here. *)
From Coq Require Import Relation_Operators.
From Verif Require Import Base.

Section Saving.
  Variable c : nat.

  Inductive saver := SFree | SHas (fails : bool) | SSend.
  (** Files not yet sent, files in the channel, workers, lints in the channel, lints received. *)
  Record saving := mkSaving { sg_todo : list bool; sg_queue : list bool; sg_workers : list saver; sg_lints : nat; sg_got : nat }.

  Inductive gstep : saving -> saving -> Prop :=
  | g_feed j u q ws l n : length q < c -> gstep (mkSaving (j :: u) q ws l n) (mkSaving u (q ++ [j]) ws l n)
  | g_take u j q a b l n : gstep (mkSaving u (j :: q) (a ++ SFree :: b) l n) (mkSaving u q (a ++ SHas j :: b) l n)
  | g_ok u q a b l n : gstep (mkSaving u q (a ++ SHas false :: b) l n) (mkSaving u q (a ++ SFree :: b) l n)
  | g_fail u q a b l n : gstep (mkSaving u q (a ++ SHas true :: b) l n) (mkSaving u q (a ++ SSend :: b) l n)
  | g_lint u q a b l n : l < c -> gstep (mkSaving u q (a ++ SSend :: b) l n) (mkSaving u q (a ++ SFree :: b) (S l) n)
  (** [recv_lint.iter()]: once all files are sent *)
  | g_recv q ws l n : gstep (mkSaving [] q ws (S l) n) (mkSaving [] q ws l (S n)).

  Definition g_start (w : nat) (files : list bool) : saving := mkSaving files [] (repeat SFree w) 0 0.
  Definition g_runs (w : nat) (files : list bool) (x : saving) : Prop := clos_refl_trans_1n _ gstep (g_start w files) x.
  (** The channel of files is closed and empty, so the workers end; then the channel of lints is
      closed, and [save_project] returns. *)
  Definition g_finished (x : saving) : Prop :=
    sg_todo x = [] /\ sg_queue x = [] /\ Forall (fun s => s = SFree) (sg_workers x) /\ sg_lints x = 0.
  Definition g_stuck (x : saving) : Prop := forall y, ~ gstep x y.
End Saving.
