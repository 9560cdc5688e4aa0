(** Arithmetic of averages. *)
From Coq Require Import QArith Qround Lqa Lia ZArith Permutation.
From Verif Require Import Base BaseFacts Name Artifact Numbers SpecCompletion.
Open Scope Q_scope.

Lemma q_of_0 : q_of 0 == 0. Proof. reflexivity. Qed.
Lemma q_of_1 : q_of 1 == 1. Proof. reflexivity. Qed.
Lemma q_of_add a b : q_of (a + b) == q_of a + q_of b.
Proof. unfold q_of. rewrite Nat2Z.inj_add. now rewrite inject_Z_plus. Qed.
Lemma q_of_S a : q_of (S a) == q_of a + 1.
Proof. unfold q_of. rewrite Nat2Z.inj_succ. unfold Z.succ. rewrite inject_Z_plus. reflexivity. Qed.
Lemma q_of_le a b : (a <= b)%nat <-> q_of a <= q_of b.
Proof. unfold q_of. rewrite <- Zle_Qle. lia. Qed.
Lemma q_of_lt a b : (a < b)%nat <-> q_of a < q_of b.
Proof. unfold q_of. rewrite <- Zlt_Qlt. lia. Qed.
Lemma q_of_eq a b : q_of a == q_of b <-> a = b.
Proof. unfold q_of. rewrite inject_Z_injective. lia. Qed.
Lemma q_of_nonneg a : 0 <= q_of a.
Proof. change 0 with (q_of 0). apply q_of_le. lia. Qed.
Lemma q_of_pos a : (0 < a)%nat -> 0 < q_of a.
Proof. intros H. change 0 with (q_of 0). now apply q_of_lt. Qed.

Definition unit_q (x : Q) : Prop := 0 <= x /\ x <= 1.

Lemma qsum_bounds l : Forall unit_q l -> 0 <= qsum l /\ qsum l <= q_of (length l).
Proof.
  induction 1 as [|x l [H1 H2] _ [I1 I2]]; cbn [qsum length].
  - rewrite q_of_0. lra.
  - rewrite q_of_S. lra.
Qed.

Lemma qsum_full l : Forall unit_q l -> (qsum l == q_of (length l) <-> Forall (fun x => x == 1) l).
Proof.
  induction 1 as [|x l [H1 H2] Hl IH]; cbn [qsum length].
  - rewrite q_of_0. split; [constructor|reflexivity].
  - rewrite q_of_S. pose proof (qsum_bounds l Hl) as [B1 B2]. split.
    + intros E. assert (x == 1) by lra. assert (qsum l == q_of (length l)) by lra. constructor; auto. now apply IH.
    + intros F. inversion F as [|? ? F1 F2]; subst. apply IH in F2. lra.
Qed.

Lemma qsum_le l l' : Forall2 Qle l l' -> qsum l <= qsum l'.
Proof. induction 1; cbn [qsum]; [lra|lra]. Qed.
Lemma qsum_eq l l' : Forall2 Qeq l l' -> qsum l == qsum l'.
Proof. induction 1; cbn [qsum]; [lra|lra]. Qed.
Lemma qsum_perm l l' : Permutation l l' -> qsum l == qsum l'.
Proof. induction 1; cbn [qsum]; lra. Qed.

Lemma fold_qsum l : forall v, fold_left Qplus l v == v + qsum l.
Proof. induction l as [|x l IH]; cbn [fold_left qsum]; intros v; [lra|]. rewrite IH. lra. Qed.

Lemma div_le_1 a b : 0 < b -> a <= b -> a / b <= 1.
Proof. intros Hb H. apply Qle_shift_div_r; auto. lra. Qed.
Lemma div_nonneg a b : 0 < b -> 0 <= a -> 0 <= a / b.
Proof. intros Hb H. apply Qle_shift_div_l; auto. lra. Qed.

Lemma div_mult a b : 0 < b -> a / b * b == a.
Proof. intros Hb. field. lra. Qed.

Lemma average_bounds own l : (snd own <= fst own)%nat -> Forall unit_q l -> unit_q (average own l).
Proof.
  destruct own as [t m]. simpl. intros Hm Hl. pose proof (qsum_bounds l Hl) as [B1 B2].
  apply q_of_le in Hm. pose proof (q_of_nonneg m). pose proof (q_of_add t (length l)) as E.
  unfold unit_q, average. destruct (t + length l)%nat as [|k] eqn:Ek; [lra|].
  assert (0 < q_of (S k)) by (apply q_of_pos; lia). split.
  - apply div_nonneg; auto. lra.
  - apply div_le_1; auto. lra.
Qed.

Lemma average_one own l : (snd own <= fst own)%nat -> Forall unit_q l ->
  (average own l == 1 <-> fst own = snd own /\ (0 < fst own + length l)%nat /\ Forall (fun x => x == 1) l).
Proof.
  destruct own as [t m]. simpl. intros Hm Hl. pose proof (qsum_bounds l Hl) as [B1 B2].
  pose proof (proj1 (q_of_le m t) Hm) as Hq. pose proof (q_of_add t (length l)) as E.
  unfold average. destruct (t + length l)%nat as [|k] eqn:Ek.
  - split; [intros X; exfalso; lra|]. intros (_ & X & _). lia.
  - assert (Hp : 0 < q_of (S k)) by (apply q_of_pos; lia). split.
    + intros X. assert (Y : q_of m + qsum l == q_of (S k)).
      { rewrite <- (div_mult (q_of m + qsum l) (q_of (S k)) Hp), X. lra. }
      assert (q_of t == q_of m) by lra. apply q_of_eq in H. split; auto. split; [lia|].
      apply qsum_full; auto. lra.
    + intros (-> & _ & F). apply qsum_full in F; auto. rewrite F.
      assert (Y : q_of m + q_of (length l) == q_of (S k)) by (rewrite E; lra).
      rewrite Y. field. lra.
Qed.

Lemma average_mono own own' l l' : (snd own <= fst own)%nat -> (snd own' <= fst own')%nat -> better own own' ->
  Forall unit_q l -> Forall unit_q l' -> Forall2 Qle l l' -> average own l <= average own' l'.
Proof.
  destruct own as [t m], own' as [t' m']. unfold better. simpl. intros H1 H2 [Hm Hu] Hl Hl' HL.
  pose proof (qsum_bounds l Hl) as [B1 B2]. pose proof (qsum_bounds l' Hl') as [B1' B2'].
  pose proof (qsum_le _ _ HL) as HS. assert (El : length l = length l') by (clear -HL; induction HL; simpl; auto).
  unfold average. rewrite <- El in *. set (n := length l) in *.
  pose proof (q_of_nonneg m) as Pm.
  destruct (t + n)%nat as [|k] eqn:Ek.
  - pose proof (average_bounds (t', m') l' H2 Hl') as [X _]. unfold average in X. rewrite <- El in X. exact X.
  - assert (Hp : 0 < q_of (S k)) by (apply q_of_pos; lia).
    destruct (t' + n)%nat as [|k'] eqn:Ek'.
    + assert (Em : m = 0%nat) by lia. assert (En : n = 0%nat) by lia. subst m.
      rewrite En in *. rewrite q_of_0 in *.
      apply Qle_shift_div_r; auto. lra.
    + assert (Hp' : 0 < q_of (S k')) by (apply q_of_pos; lia).
      assert (Et : q_of (S k) == q_of t + q_of n) by (rewrite <- Ek; apply q_of_add).
      assert (Et' : q_of (S k') == q_of t' + q_of n) by (rewrite <- Ek'; apply q_of_add).
      assert (Um : q_of t' + q_of m <= q_of t + q_of m').
      { rewrite <- !q_of_add. apply q_of_le. lia. }
      apply q_of_le in H1, H2, Hm.
      apply Qle_shift_div_r; auto.
      assert (Y : (q_of m' + qsum l') / q_of (S k') * q_of (S k) ==
                  (q_of m' + qsum l') * q_of (S k) / q_of (S k')) by (field; lra).
      rewrite Y. apply Qle_shift_div_l; auto.
      rewrite Et, Et'.
      set (X := q_of m + qsum l) in *. set (X' := q_of m' + qsum l') in *.
      assert (XX : X <= X') by (unfold X, X'; lra).
      assert (UU : (q_of t' + q_of n) - X' <= (q_of t + q_of n) - X) by (unfold X, X'; lra).
      assert (X0 : 0 <= X) by (unfold X; lra).
      assert (U0 : 0 <= (q_of t' + q_of n) - X') by (unfold X'; lra).
      set (D := q_of t + q_of n) in *. set (D' := q_of t' + q_of n) in *.
      (* X (X' + U') <= X' (X + U) *)
      assert (Z1 : X * (D' - X') <= X' * (D - X)) by nra. nra.
Qed.

Lemma average_ext own l l' : length l = length l' -> qsum l == qsum l' -> average own l == average own l'.
Proof.
  destruct own as [t m]. unfold average. intros -> E. destruct (t + length l')%nat; [reflexivity|]. now rewrite E.
Qed.

(** ** Thousandths (C18) *)
Lemma thousandths_comp x y : x == y -> thousandths x = thousandths y.
Proof. intros E. unfold thousandths. apply Qfloor_comp. now rewrite E. Qed.

Lemma thousandths_mono x y : x <= y -> (thousandths x <= thousandths y)%Z.
Proof. intros E. unfold thousandths. apply Qfloor_resp_le. lra. Qed.

Lemma thousandths_near x : inject_Z (thousandths x) / 1000 - x <= 1 # 2000 /\ x - inject_Z (thousandths x) / 1000 <= 1 # 2000.
Proof.
  unfold thousandths. pose proof (Qfloor_le (1000 * x + (1 # 2))) as H1. pose proof (Qlt_floor (1000 * x + (1 # 2))) as H2.
  rewrite inject_Z_plus in H2. change (inject_Z 1) with 1 in H2.
  set (z := inject_Z (Qfloor (1000 * x + (1 # 2)))) in *.
  assert (E : z / 1000 == z * (1 # 1000)) by (field). rewrite E. lra.
Qed.

Lemma thousandths_ends : thousandths 0 = 0%Z /\ thousandths 1 = 1000%Z.
Proof. split; reflexivity. Qed.

Lemma thousandths_full x : x <= 1 -> (thousandths x = 1000%Z <-> 1999 # 2000 <= x).
Proof.
  intros Hx. unfold thousandths. pose proof (Qfloor_le (1000 * x + (1 # 2))) as H1. pose proof (Qlt_floor (1000 * x + (1 # 2))) as H2.
  rewrite inject_Z_plus in H2. change (inject_Z 1) with 1 in H2. split.
  - intros E. rewrite E in *. change (inject_Z 1000) with 1000 in *. lra.
  - intros E. set (f := Qfloor (1000 * x + (1 # 2))) in *.
    assert (U : (f < 1001)%Z). { rewrite Zlt_Qlt. change (inject_Z 1001) with 1001. lra. }
    assert (L : (999 < f)%Z). { rewrite Zlt_Qlt. change (inject_Z 999) with 999. lra. }
    lia.
Qed.

Lemma thousandths_unit x : unit_q x -> (0 <= thousandths x <= 1000)%Z.
Proof.
  intros [H1 H2]. apply thousandths_mono in H1, H2. destruct thousandths_ends as [E0 E1]. rewrite E0, E1 in *. lia.
Qed.
