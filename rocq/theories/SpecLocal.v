(** Specification of C90 and C91: what a change of a project reaches, and when two projects say the same. *)
From Coq Require Import Relations Permutation.
From Verif Require Import Base Name SpecName NameFacts Artifact Stored SpecLinks SpecCompletion Lint Source SpecJoin Pool.

Section Local.
  Context {M M' : num} {H H' : Type}.
  (** [k'] is [k], or directly or indirectly part of it. *)
  Definition reaches {M : num} {H : Type} (out : list (name * artifact M H)) : str -> str -> Prop := clos_refl_trans str (below out).
  (** Part of the same ones of the names [K], and the same own obligations, met alike. *)
  Definition says_same (K : str -> Prop) (a : artifact M H) (a' : artifact M' H') : Prop :=
    (forall k, K k -> (In k (map n_key (a_partof a)) <-> In k (map n_key (a_partof a')))) /\
    own_spc (a_impl a) (a_subnames a) = own_spc (a_impl a') (a_subnames a') /\
    own_tst (a_impl a) (a_subnames a) = own_tst (a_impl a') (a_subnames a').
  (** All that was added, removed or changed are the artifacts [X]. *)
  Definition changed_only (X : str -> Prop) (out : list (name * artifact M H)) (out' : list (name * artifact M' H')) : Prop :=
    (forall n a, In (n, a) out -> ~ X (n_key n) -> exists n' a', In (n', a') out' /\ n_key n' = n_key n /\ says_same (fun k => ~ X k) a a') /\
    (forall n' a', In (n', a') out' -> ~ X (n_key n') -> exists n a, In (n, a) out /\ n_key n = n_key n').
  (** Neither now nor before is any of [X] below [k]. *)
  Definition untouched (X : str -> Prop) (out : list (name * artifact M H)) (out' : list (name * artifact M' H')) (k : str) : Prop :=
    forall j, reaches out k j \/ reaches out' k j -> ~ X j.
End Local.

(** The same artifact as it is written down, maybe in another file, maybe spelled in another case;
    links to names other than [K] may differ. *)
Definition restated_but (K : str -> Prop) (a a' : art_im) : Prop :=
  n_key (im_name a') = n_key (im_name a) /\ im_done a' = im_done a /\ clean_text (im_text a') = clean_text (im_text a) /\
  (forall q, name_wf q -> K (n_key q) -> (named q (im_partof a') <-> named q (im_partof a))).
Definition restated := restated_but (fun _ => True).
(** Only artifacts [X], links to them and references to them in the source were changed. *)
Definition edits_only (X : str -> Prop) (arts arts' : list art_im) (refs refs' : list src_ref) : Prop :=
  (forall a, In a arts -> ~ X (n_key (im_name a)) -> exists a', In a' arts' /\ restated_but (fun k => ~ X k) a a') /\
  (forall a', In a' arts' -> ~ X (n_key (im_name a')) -> exists a, In a arts /\ n_key (im_name a) = n_key (im_name a')) /\
  (forall r, In r refs -> ~ X (n_key (ref_name r)) -> exists r', In r' refs' /\ same_ref r r') /\
  (forall r', In r' refs' -> ~ X (n_key (ref_name r')) -> exists r, In r refs /\ same_ref r r').
(** The same artifacts and references, in any order. *)
Definition arts_restated (arts arts' : list art_im) : Prop := exists l, Permutation arts' l /\ Forall2 restated arts l.
Definition refs_restated (refs refs' : list src_ref) : Prop := exists l, Permutation refs' l /\ Forall2 same_ref refs l.

(** Loaded projects that say the same, wherever it is written. *)
Definition impl_alike (i i' : impl) : Prop :=
  match i, i' with
  | IDone d, IDone d' => d = d'
  | ICode c, ICode c' => (ic_primary c = None <-> ic_primary c' = None) /\ forall x, linked c x = linked c' x
  | INot, INot => True
  | _, _ => False
  end.
Section Alike.
  Context {M M' : num} {H H' : Type}.
  Definition art_alike (a : artifact M H) (a' : artifact M' H') : Prop :=
    n_key (a_name a) = n_key (a_name a') /\ a_text a = a_text a' /\ a_subnames a = a_subnames a' /\ impl_alike (a_impl a) (a_impl a') /\
    (forall k, In k (map n_key (a_partof a)) <-> In k (map n_key (a_partof a'))) /\
    (forall k, In k (map n_key (a_parts a)) <-> In k (map n_key (a_parts a'))).
End Alike.

(** Reading the files gives no complaint. *)
Definition quiet {A B} (job_of : A -> job B) (l : list (A + lint)) : Prop :=
  (forall f, In (inl f) l -> jb_lints (job_of f) = []) /\ (forall x, ~ In (inr x) l).
