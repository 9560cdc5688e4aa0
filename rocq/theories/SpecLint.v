(** Specification of the lints: what is wrong with a project, without scanning or maps. *)
From Verif Require Import Base Name SpecName NameFacts Artifact SpecMarkdown Lint.

Section Faults.
  Context {M : num} {H : Type}.
  Variable arts : list (name * artifact M H).

  (** Some artifact has this name (in any spelling). *)
  Definition exists_art (q : name) : Prop := exists m b, In (m, b) arts /\ n_ty m = n_ty q /\ n_key m = n_key q.

  Definition ty_rank (t : ty) : nat := match t with REQ => 0 | SPC => 1 | TST => 2 end.

  Definition missing_link (a : artifact M H) (q : name) : Prop := In q (a_partof a) /\ ~ exists_art q.
  Definition bad_link (n : name) (a : artifact M H) (q : name) : Prop :=
    In q (a_partof a) /\ ty_rank (n_ty n) < ty_rank (n_ty q).
  Definition done_with_subs (a : artifact M H) : Prop := (exists d, a_impl a = IDone d) /\ a_subnames a <> [].
  (** A line of the text reads as a new artifact or as the end of attributes. *)
  Definition header_in (prefix : str) (a : artifact M H) : Prop :=
    exists l x, In l (split_on 10%N (a_text a)) /\ header_line prefix l x.
  Definition end_in (a : artifact M H) : Prop := exists l, In l (split_on 10%N (a_text a)) /\ end_line l.

  (** The text contains [[x]] or [[xy]]: a name (or almost a name) and maybe a subname. *)
  Definition ref_in (text x y : str) : Prop :=
    (valid_name x \/ longs_name x) /\ (y = [] \/ valid_sub y) /\
    exists u v, text = u ++ s "[[" ++ x ++ y ++ s "]]" ++ v.
  (** What it refers to does not exist. *)
  Definition dangling (x y : str) : Prop :=
    forall m b, In (m, b) arts -> str_ci (n_raw m) x -> y <> [] /\ forall z, In z (a_subnames b) -> ~ str_ci (s_raw z) y.

  (** A reference in the source: a name, maybe a subname, a place. *)
  Definition code_ref (code : list (name * impl_code)) (n : name) (sub : option subname) (loc : code_loc) : Prop :=
    exists c, In (n, c) code /\
      match sub with None => ic_primary c = Some loc | Some x => In (x, loc) (ic_secondary c) end.
  Definition same_name (n m : name) : Prop := n_ty m = n_ty n /\ n_key m = n_key n.
  (** Why it is invalid. *)
  Definition no_artifact (n : name) : Prop := forall m b, In (m, b) arts -> ~ same_name n m.
  Definition ref_done (n : name) : Prop := exists m b d, In (m, b) arts /\ same_name n m /\ a_impl b = IDone d.
  Definition ref_no_sub (n : name) (sub : option subname) : Prop :=
    exists m b x, sub = Some x /\ In (m, b) arts /\ same_name n m /\ (forall d, a_impl b <> IDone d) /\
      forall z, In z (a_subnames b) -> s_key z <> s_key x.

  (** What loading delivers. *)
  Record arts_wf : Prop := {
    aw_names : forall m b, In (m, b) arts -> name_wf m;
    aw_nodup : NoDup (map (fun e : name * artifact M H => n_key (fst e)) arts);
    aw_subs : forall m b z, In (m, b) arts -> In z (a_subnames b) -> valid_sub (s_raw z) /\ s_key z = upper (s_raw z) }.

  (** [n] is part of [q], which is defined. *)
  Definition links_to (n q : name) : Prop := exists a q', In (n, a) arts /\ In q' (a_partof a) /\ n_key q' = n_key q.
End Faults.
