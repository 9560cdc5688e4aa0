(** What a save should do to the project, as the user of the form sees it. *)
From Verif Require Import Base Name Artifact Stored Lint Modify SpecModify Web SpecSave.

(** [p1] is [p] with the artifact the form was opened on, or none, replaced by what the form says. *)
Definition replaced {M H} (dec : str -> option path) (e : edit H) (p p1 : project M H) : Prop :=
  exists w, described dec e w /\
    match e_orig e with
    | Some i => exists m a, In (m, a) (pr_arts p) /\ a_id a = i /\
        forall x, In x (stored_form p1) <-> x = im_clean w \/ (In x (stored_form p) /\ x <> to_im a)
    | None => ~ In (im_clean w) (stored_form p) /\ forall x, In x (stored_form p1) <-> x = im_clean w \/ In x (stored_form p)
    end.
