(** Specification of links, by upper-case spelling only. *)
From Verif Require Import Base Name NameFacts Artifact.

(** The parent: the text before the last dash, if it is still a name. *)
Definition own_parent (n q : str) : Prop :=
  In 45%N q /\ exists e, ~ In 45%N e /\ n = q ++ 45%N :: e.
(** The automatic link: SPC-x to REQ-x, TST-x to SPC-x. *)
Definition own_auto (n q : str) : Prop :=
  exists r, (n = s "SPC" ++ r /\ q = s "REQ" ++ r) \/ (n = s "TST" ++ r /\ q = s "SPC" ++ r).
Definition own_link (n q : str) : Prop := own_parent n q \/ own_auto n q.

(** [q] is in the list, in some spelling. *)
Definition named (q : name) (l : list name) : Prop := exists p, In p l /\ n_key p = n_key q.

(** What the readers deliver: parsed names, links as a set. *)
Record im_wf (a : art_im) : Prop := {
  iw_name : name_wf (im_name a);
  iw_links : Forall name_wf (im_partof a);
  iw_set : NoDup (map n_key (im_partof a)) }.

Definition distinct (arts : list art_im) : Prop := NoDup (map (fun a => n_key (im_name a)) arts).
