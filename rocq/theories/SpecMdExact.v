(** The texts that survive being written and read as markdown although they are not quiet. *)
From Verif Require Import Base Name SpecName RawNames Artifact SpecMarkdown.

(** The last line that is not empty opens a code block of attributes; the lines before it are
    only text. *)
Definition open_end (prefix t : str) : Prop :=
  exists ls o e, split_on 10%N t = ls ++ o :: e /\ (e = [] \/ e = [[]]) /\ opener_line o /\
    (forall l, In l ls -> text_line prefix l /\ (forall p, l <> p ++ [13%N])).

(** Every text is quiet, or is the text of the last artifact, which has no attributes, and ends
    in such a line. *)
Definition survives (prefix : str) (arts : list art_im) : Prop :=
  forall l1 a l2, arts = l1 ++ a :: l2 ->
    quiet_text prefix (im_text a) \/
    (l2 = [] /\ im_done a = None /\ im_partof a = [] /\ open_end prefix (im_text a)).

(** The same for texts of which the lints complain about no line: a line may still open a
    code block of attributes, or end in a carriage return. *)
Definition no_trap (l : str) : Prop := ~ opener_line l /\ (forall p, l <> p ++ [13%N]).
Definition accepted_survives (arts : list art_im) : Prop :=
  forall l1 a l2, arts = l1 ++ a :: l2 ->
    (forall l, In l (split_on 10%N (im_text a)) -> no_trap l) \/
    (l2 = [] /\ im_done a = None /\ im_partof a = [] /\
     exists ls o e, split_on 10%N (im_text a) = ls ++ o :: e /\ (e = [] \/ e = [[]]) /\ opener_line o /\
       (forall l, In l ls -> no_trap l)).
