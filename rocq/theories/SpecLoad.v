(** Specification of a load: what can be wrong with a loaded project. *)
From Verif Require Import Base Name SpecName Artifact SpecLinks SpecMarkdown Lint SpecLint Source SpecJoin Pool Load.

Section Faults.
  Context {M : num} {H : Type}.
  Variable out : list (name * artifact M H).

  (** None of the faults that give errors. *)
  Definition arts_sound (prefix : str) : Prop := forall n a, In (n, a) out ->
    (forall q, In q (a_partof a) -> exists_art out q /\ ty_rank (n_ty q) <= ty_rank (n_ty n)) /\
    ((exists d, a_impl a = IDone d) -> a_subnames a = []) /\
    (forall l, In l (split_on 10%N (a_text a)) -> (forall x, ~ header_line prefix l x) /\ ~ end_line l).
  (** Every reference in a text leads to something that exists. *)
  Definition texts_resolve : Prop := forall n a x y, In (n, a) out -> ref_in (a_text a) x y -> ~ dangling out x y.
  (** Every reference in the source leads to an artifact that is not marked done, and to one of
      its subnames. *)
  Definition code_resolves (code : list (name * impl_code)) : Prop := forall n sub loc, code_ref code n sub loc ->
    exists m b, In (m, b) out /\ same_name n m /\ (forall d, a_impl b <> IDone d) /\
      forall x, sub = Some x -> exists z, In z (a_subnames b) /\ s_key z = s_key x.
  (** Some text refers to a name whose type is spelled with a long s. *)
  Definition longs_in_text : Prop := exists n a x y, In (n, a) out /\ ref_in (a_text a) x y /\ longs_name x.
End Faults.

(** Nothing went wrong while reading: no lint, no name defined twice, no reference repeated. *)
Definition read_clean (la lc : list lint) (arts : list art_im) (refs : list src_ref) : Prop :=
  la = [] /\ lc = [] /\ distinct arts /\ forall i j, ~ repeated refs i j.

(** The lints of walking are errors (settings.rs:103-105). *)
Definition walk_lints_ok {A} (l : list (A + lint)) : Prop := forall x, In (inr x) l -> li_level x = LError.

(** Two loaded projects that cannot be told apart but for completion, up to the spelling of names
    of parts and of names in the code map. *)
Section Same.
  Context {M : num} {H : Type}.
  Definition art_same (a b : artifact M H) : Prop :=
    a_id a = a_id b /\ a_name a = a_name b /\ a_file a = a_file b /\ a_partof a = a_partof b /\
    map n_key (a_parts a) = map n_key (a_parts b) /\ a_text a = a_text b /\
    a_impl a = a_impl b /\ a_subnames a = a_subnames b.
  Definition project_same (p q : project M H) : Prop :=
    Forall2 (fun e f => fst e = fst f /\ art_same (snd e) (snd f)) (pr_arts p) (pr_arts q) /\
    Forall2 (fun e f => n_key (fst e) = n_key (fst f) /\ snd e = snd f) (pr_code p) (pr_code q) /\
    pr_prefix p = pr_prefix q /\ pr_settings_path p = pr_settings_path q /\ pr_url_error p = pr_url_error q.
  Definition completions_same (p q : project M H) : Prop :=
    Forall2 (fun e f => a_completed (snd e) = a_completed (snd f)) (pr_arts p) (pr_arts q).
End Same.

(** References to one name are spelled alike. *)
Definition spelled_alike (refs : list src_ref) : Prop := forall r r', In r refs -> In r' refs ->
  str_ci (n_raw (ref_name r)) (n_raw (ref_name r')) -> n_raw (ref_name r) = n_raw (ref_name r').

(** Everything that scanning the files finds. *)
Definition file_refs (path_str : path -> str) (cfs : list (code_file + lint)) : list src_ref :=
  flat_map (fun i => match i with inl f => jb_out (load_locations path_str f) | inr _ => [] end) cfs.
(** The number of files that kill their reader. *)
Definition killers {A B} (job_of : A -> job B) (l : list (A + lint)) : nat :=
  length (filter (fun i => match i with inl f => jb_panic (job_of f) | inr _ => false end) l).
Definition file_arts {A B} (job_of : A -> job B) (afs : list (A + lint)) : list B :=
  flat_map (fun i => match i with inl f => jb_out (job_of f) | inr _ => [] end) afs.

(** Two results of loading that cannot be told apart: the projects are the same (but for
    completion), the lints are equal when references to one name are spelled alike; a load that
    failed has the same errors unless some name or reference is defined twice. *)
Definition agree {M H} (arts : list art_im) (refs : list src_ref) (r r' : res (lints * project M H + lints)) : Prop :=
  match r, r' with
  | Ok (inl (c, p)), Ok (inl (c', p')) => project_same p p' /\ (spelled_alike refs -> c = c')
  | Ok (inr c), Ok (inr c') => distinct arts -> (forall i j, ~ repeated refs i j) -> c = c'
  | Panic, Panic => True
  | _, _ => False
  end.
