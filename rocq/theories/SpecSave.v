(** What a form of the web client describes, and histories of requests. *)
From Verif Require Import Base Name NameFacts Artifact SpecLinks SpecModify Modify Web.

(** The artifact [w] is what stands in the fields of the form. *)
Record described {H} (dec : str -> option path) (e : edit H) (w : art_im) : Prop := {
  de_name : n_raw (im_name w) = e_name e;
  de_file : dec (e_file e) = Some (im_file w);
  de_partof : forall k, In k (map n_key (im_partof w)) <-> exists x n, In x (e_partof e) /\ name_from_str x = Ok n /\ n_key n = k;
  de_raw : forall x, In x (im_partof w) -> In (n_raw x) (e_partof e);
  de_done : im_done w = match e_done e with [] => None | d => Some d end;
  de_text : im_text w = e_text e;
  de_wf : im_wf w }.

(** Some operation of the requests stores an artifact with the id [i]. *)
Definition brings {H} (hash_im : art_im -> H) (l : list (list (op H))) (i : H) : Prop :=
  exists ops, In ops l /\ stored hash_im (map (op_clean H) ops) i.
