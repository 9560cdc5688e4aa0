(** What the pages open on a server have asked it to save, and histories that C97 is about. *)
From Verif Require Import Base Name Artifact Stored Markdown SpecMarkdown Lint Source Pool Load Disk Walk SpecWalk Modify SpecModify SpecReload Server SpecServer ServerCalls Web WebSave System SpecAgain.

Section Spec.
  Context {M : num} {H : Type}.
  Variable dec : str -> option path.
  (** A save the server has answered, as it read it, with whether it was accepted. *)
  Definition save_of (e : label M H) : list (list (op H) * bool) :=
    match e with
    | LServe _ (RModify _ ops) a =>
        match received H dec ops with Ok bs => [(bs, match a with AProject _ => true | _ => false end)] | _ => [] end
    | _ => []
    end.
  (** All of them, first to last, whichever page they came from. *)
  Definition saves (l : list (sys M H * label M H * sys M H)) : list (list (op H) * bool) :=
    flat_map (fun x => save_of (snd (fst x))) (rev l).

  Variables (st : settings) (prefix : str) (style : md_attrs).
  (** Nothing but the server changes the disk; no save stopped halfway for a failure of the disk; what
      was saved has plain file names, markdown texts that can be written (C28), and files that do not
      differ only in the extension. *)
  Definition orderly_step (e : label M H) : Prop :=
    match e with
    | LDisk => False
    | LServe _ (RModify _ ops) (AProject x) =>
        (forall bs o a, received H dec ops = Ok bs -> In o bs -> stores o a -> plain_path (im_file a) /\ forall z, In z (se_xarts st) -> ~ below (im_file a) z) /\
        md_survive prefix style (stored_form (snd x)) /\ no_twins (stored_form (snd x))
    | LServe _ _ (AFailed (Some k, _)) => k <> KBackups /\ k <> KSave
    | _ => True
    end.
  Definition orderly (l : list (sys M H * label M H * sys M H)) : Prop := forall y e y', In (y, e, y') l -> orderly_step e.
End Spec.
