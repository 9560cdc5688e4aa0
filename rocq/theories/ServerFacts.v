From Coq Require Import Relation_Operators.
From Verif Require Import Base Server SpecServer.

Section Facts.
  Variables D P E O J : Type.
  Variable begins_read : D -> J -> Prop.
  Variable begins_modify : D -> O -> J -> Prop.
  Variable goes : D * J -> D * J -> Prop.
  Variable ended : J -> option (res (P + E)).
  Notation server := (server D P E O J).
  Notation sstep := (sstep D P E O J begins_read begins_modify goes ended).
  Notation serves_all := (serves_all D P E O J begins_read begins_modify goes ended).
  Notation serves := (serves D P E O J begins_read begins_modify goes ended).
  Notation serving := (serving D P E O J begins_read begins_modify goes ended).
  Notation mkServer := (mkServer D P E O J).

  (** the call in progress began on the disk [d0] *)
  Definition in_progress (d0 : D) (c : server) : Prop :=
    match sv_locked _ _ _ _ _ c with
    | None => sv_disk _ _ _ _ _ c = d0
    | Some (q, j) => sv_poisoned _ _ _ _ _ c = false /\ sv_stopped _ _ _ _ _ c = false /\
                     exists j0, begins_call _ _ _ begins_read begins_modify d0 q j0 /\ clos_refl_trans_1n _ goes (d0, j0) (sv_disk _ _ _ _ _ c, j)
    end.
  Definition inv (d : D) (p : P) (c : server) : Prop :=
    exists d0, serves_all (d, p, false) (sv_log _ _ _ _ _ c) (d0, sv_project _ _ _ _ _ c, sv_poisoned _ _ _ _ _ c) /\ in_progress d0 c.

  Lemma trans_1n {A} (R : A -> A -> Prop) x y z : clos_refl_trans_1n _ R x y -> R y z -> clos_refl_trans_1n _ R x z.
  Proof. intros H. induction H; intros Hz; econstructor; eauto. constructor. Qed.

  Lemma immediate_serves d p q a : immediate P E O p q = Some a -> serves (d, p, false) q a (d, p, dies P E a).
  Proof.
    destruct q as [|[[[|]|]|]|[[ops| |]|]]; cbn; intros X; inversion X; subst; cbn; constructor; auto.
  Qed.

  Lemma call_serves d0 p q j0 d j r : begins_call D O J begins_read begins_modify d0 q j0 ->
    clos_refl_trans_1n _ goes (d0, j0) (d, j) -> ended j = Some r ->
    serves (d0, p, false) q (snd (after_call P E p r)) (d, fst (after_call P E p r), dies P E (snd (after_call P E p r))).
  Proof.
    intros Hb Hg He. destruct q as [|[[[|]|]|]|[[ops| |]|]]; cbn in Hb; try contradiction.
    - assert (R : reads D P E J begins_read goes ended d0 d r) by (exists j0, j; auto).
      destruct r as [[x|e]| |]; cbn; [constructor; exact R|eapply sv_reload_err; exact R| |];
        (apply sv_reload_died with (r := Err) + apply sv_reload_died with (r := Panic)); try exact R; discriminate.
    - assert (R : modifies D P E O J begins_modify goes ended d0 ops d r) by (exists j0, j; auto).
      destruct r as [[x|e]| |]; cbn; [constructor; exact R|eapply sv_modify_err; exact R| |];
        (apply sv_modify_died with (r := Err) + apply sv_modify_died with (r := Panic)); try exact R; discriminate.
  Qed.

  Lemma inv_step d p c c' : inv d p c -> sstep c c' -> inv d p c'.
  Proof.
    intros (d0 & Hs & Hi) Hst. destruct Hst; unfold inv, in_progress in *; cbn in *.
    - exists d0. auto.
    - exists d0. split; [|assumption]. apply sa_snoc with (1 := Hs). constructor.
    - subst d1. exists d0. split; [|reflexivity]. apply sa_snoc with (1 := Hs). constructor. assumption.
    - subst d1. exists d0. split; [|reflexivity]. apply sa_snoc with (1 := Hs). apply immediate_serves. assumption.
    - subst d1. exists d0. split; [assumption|]. split; [reflexivity|]. split; [reflexivity|]. exists j. split; [assumption|constructor].
    - destruct Hi as (Hb & Hx & j0 & Hj & Hr). exists d0. split; [assumption|]. split; [assumption|]. split; [assumption|].
      exists j0. split; [assumption|]. apply trans_1n with (1 := Hr). assumption.
    - destruct Hi as (-> & Hx & j0 & Hj & Hr). exists d1. split; [|reflexivity]. apply sa_snoc with (1 := Hs). cbn [orb].
      apply call_serves with (j0 := j0) (j := j); assumption.
    - exists d0. auto.
  Qed.
  Lemma inv_serving d p c : serving d p c -> inv d p c.
  Proof.
    unfold Server.serving. intros H.
    assert (G : forall a b, clos_refl_trans_1n _ sstep a b -> inv d p a -> inv d p b).
    { clear. intros a b H. induction H; eauto using inv_step. }
    apply (G _ _ H). exists d. split; [constructor|reflexivity].
  Qed.

  Lemma snoc_inj {A} (l l' : list A) x x' : l ++ [x] = l' ++ [x'] -> l = l' /\ x = x'.
  Proof. apply app_inj_tail. Qed.
  Lemma served_last x l y : serves_all x l y -> snd (fst y) = last_project P E O (snd (fst x)) l.
  Proof.
    intros H. induction H as [x|x l y q a z H IH S]; [reflexivity|].
    unfold last_project in *. rewrite fold_left_app. cbn [fold_left snd]. rewrite <- IH.
    destruct S; reflexivity.
  Qed.
  Lemma poisoned_last x l y : serves_all x l y -> snd y = snd x || existsb (fun e => dies P E (snd e)) l.
  Proof.
    intros H. induction H as [x|x l y q a z H IH S]; [rewrite orb_false_r; reflexivity|].
    rewrite existsb_app. cbn [existsb snd]. rewrite orb_false_r, orb_assoc, <- IH.
    destruct S; cbn; rewrite ?orb_false_r; reflexivity.
  Qed.
  Lemma serves_all_cut x l1 q a l2 y : serves_all x (l1 ++ (q, a) :: l2) y ->
    exists u v, serves_all x l1 u /\ serves u q a v.
  Proof.
    intros H. remember (l1 ++ (q, a) :: l2) as l eqn:El. revert l1 l2 El.
    induction H as [x|x l y q' a' z H IH S]; intros l1 l2 El; [destruct l1; discriminate|].
    destruct (rev l2) as [|e r] eqn:Er.
    - apply (f_equal (@rev _)) in Er. rewrite rev_involutive in Er. cbn in Er. subst l2.
      apply snoc_inj in El. destruct El as (-> & El). inversion El; subst. exists y, z. auto.
    - apply (f_equal (@rev _)) in Er. rewrite rev_involutive in Er. cbn in Er. subst l2.
      rewrite app_comm_cons, app_assoc in El. apply snoc_inj in El. destruct El as (-> & _).
      apply (IH l1 (rev r)). reflexivity.
  Qed.

  Lemma log_grows c c' : clos_refl_trans_1n _ sstep c c' -> exists l, sv_log _ _ _ _ _ c' = sv_log _ _ _ _ _ c ++ l.
  Proof.
    intros H. induction H as [c|a b c S _ IH]; [exists []; rewrite app_nil_r; reflexivity|].
    destruct IH as (l & ->).
    assert (G : exists l', sv_log _ _ _ _ _ b = sv_log _ _ _ _ _ a ++ l').
    { destruct S; cbn; try (exists []; rewrite app_nil_r; reflexivity); eexists; reflexivity. }
    destruct G as (l' & ->). exists (l' ++ l). rewrite app_assoc. reflexivity.
  Qed.
End Facts.
