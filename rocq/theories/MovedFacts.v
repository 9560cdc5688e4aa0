(** A project in another order is as good. *)
From Coq Require Import Permutation Sorted.
From Verif Require Import Base BaseFacts Name SpecName NameFacts RawNamesFacts Artifact Stored Lint SpecLint Render SpecRender SpecExport WireJson SpecWire.
Open Scope nat_scope.

Lemma moved_in {K A} (R : A -> A -> Prop) (l l' : list (K * A)) k b : moved R l l' -> In (k, b) l' -> exists a, In (k, a) l /\ R a b.
Proof.
  intros (m & P & F) Hin. assert (X : exists a, In (k, a) m /\ R a b).
  { clear P. induction F as [|[k1 a1] [k2 b2] m l' [E1 E2] F IH]; [contradiction|]. cbn [fst snd] in *. destruct Hin as [E|Hin]; [injection E as -> ->; subst k1; exists a1; split; [now left|exact E2]|].
    destruct (IH Hin) as (a & Ha & Ra). exists a. split; [now right|exact Ra]. }
  destruct X as (a & Ha & Ra). exists a. split; [|exact Ra]. eapply Permutation_in; [apply Permutation_sym, P|exact Ha].
Qed.
Lemma moved_keys {K A B} (R : A -> A -> Prop) (f : K -> B) (l l' : list (K * A)) : moved R l l' -> Permutation (map (fun e => f (fst e)) l) (map (fun e => f (fst e)) l').
Proof.
  intros (m & P & F). eapply perm_trans; [apply Permutation_map, P|]. replace (map (fun e => f (fst e)) l') with (map (fun e => f (fst e)) m); [apply Permutation_refl|].
  clear P. induction F as [|a b m l' [E _] F IH]; [reflexivity|]. cbn [map]. now rewrite IH, E.
Qed.

Lemma moved_refl {K A} (R : A -> A -> Prop) (l : list (K * A)) : (forall a, R a a) -> moved R l l.
Proof. intros Rf. exists l. split; [apply Permutation_refl|]. induction l; constructor; auto. Qed.
Lemma project_moved_refl {M : num} {H : Type} (p : project M H) : project_moved p p.
Proof.
  assert (C : forall c, code_moved c c) by (intros c; split; [reflexivity|apply Permutation_refl]). split; apply moved_refl; auto. intros a. repeat split. destruct (a_impl a); cbn [impl_moved]; auto.
Qed.

Lemma ready_moved {M : num} {H : Type} (p q : project M H) : ready p -> project_moved p q -> ready q.
Proof.
  intros [Wa Wc Nm Lk Tx] [Mc Ma].
  assert (A : forall n b, In (n, b) (pr_arts q) -> exists a, In (n, a) (pr_arts p) /\ art_moved a b) by (intros n b; apply moved_in, Ma).
  split.
  - destruct Wa as [A1 A2 A3]. split.
    + intros m b Hb. destruct (A m b Hb) as (a & Ha & _). eauto.
    + eapply Permutation_NoDup; [apply (moved_keys art_moved n_key _ _ Ma)|exact A2].
    + intros m b z Hb Hz. destruct (A m b Hb) as (a & Ha & _ & _ & _ & _ & _ & _ & _ & _ & E). rewrite E in Hz. eauto.
  - destruct Wc as [C1 C2 C3 C4]. split.
    + intros n c Hc. destruct (moved_in _ _ _ _ _ Mc Hc) as (c0 & H0 & _). eauto.
    + eapply Permutation_NoDup; [apply (moved_keys code_moved n_key _ _ Mc)|exact C2].
    + intros n c z l Hc Hz. destruct (moved_in _ _ _ _ _ Mc Hc) as (c0 & H0 & _ & P). apply (C3 n c0 z l H0). eapply Permutation_in; [apply Permutation_sym, P|exact Hz].
    + intros n c Hc. destruct (moved_in _ _ _ _ _ Mc Hc) as (c0 & H0 & _ & P). eapply Permutation_NoDup; [apply Permutation_map, P|exact (C4 n c0 H0)].
  - intros n b Hb. destruct (A n b Hb) as (a & Ha & _ & E & _). rewrite E. eauto.
  - intros n b x Hb Hx. destruct (A n b Hb) as (a & Ha & _ & _ & _ & E1 & E2 & _). rewrite E1, E2 in Hx. eauto.
  - intros n b x y Hb Hx. destruct (A n b Hb) as (a & Ha & _ & _ & _ & _ & _ & _ & E & _). rewrite E in Hx. eauto.
Qed.
