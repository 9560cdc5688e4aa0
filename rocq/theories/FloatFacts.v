(** The floats of [FloatNum.v] hold integers exactly. *)
From Coq Require Import ZArith SpecFloat Lia.
From Verif Require Import FloatNum.

Lemma digits_shift d m : Zpos (digits2_pos (shift_pos d m)) = (Zpos (digits2_pos m) + Zpos d)%Z.
Proof.
  unfold shift_pos. induction d as [|d IH] using Pos.peano_ind; [cbn; lia|]. rewrite Pos.iter_succ. cbn [digits2_pos]. lia.
Qed.
Lemma shift_value d m : Zpos (shift_pos d m) = (Zpos m * 2 ^ Zpos d)%Z.
Proof. unfold shift_pos. induction d as [|d IH] using Pos.peano_ind; [cbn [Pos.iter]; lia|]. rewrite Pos.iter_succ, Pos2Z.inj_succ, Z.pow_succ_r by lia. lia. Qed.
(** A number of 53 digits is not rounded. *)
Lemma aux_exact m e : Zpos (digits2_pos m) = 53%Z -> (-1074 <= e <= 971)%Z -> binary_round_aux 53 1024 false (Zpos m) e loc_Exact = S754_finite false m e.
Proof.
  intros D B.
  assert (F : fexp 53 1024 (Zpos (digits2_pos m) + e) = e) by (unfold fexp, emin; lia).
  assert (Sh : shr_fexp 53 1024 (Zpos m) e loc_Exact = (Build_shr_record (Zpos m) false false, e)).
  { unfold shr_fexp. cbn [Zdigits2]. rewrite F, Z.sub_diag. reflexivity. }
  unfold binary_round_aux. rewrite Sh. cbn [loc_of_shr_record round_nearest_even shr_m]. rewrite Sh. cbn [shr_m]. destruct (Z.leb_spec e (1024 - 53)); [reflexivity|lia].
Qed.
Lemma digits_value m : (2 ^ (Zpos (digits2_pos m) - 1) <= Zpos m < 2 ^ Zpos (digits2_pos m))%Z.
Proof.
  induction m as [m IH|m IH|]; cbn [digits2_pos]; try (cbn; lia); rewrite Pos2Z.inj_succ;
    replace (Z.succ (Zpos (digits2_pos m)) - 1)%Z with (Z.succ (Zpos (digits2_pos m) - 1)) by lia; rewrite !Z.pow_succ_r by lia; lia.
Qed.
Theorem f64_of_exact z : (0 < z < 2 ^ 53)%Z -> exists m e, f64_of z = S754_finite false m e /\ (e <= 0)%Z /\ (Zpos m = z * 2 ^ (- e))%Z.
Proof.
  intros [P L]. destruct z as [|z|z]; try lia. unfold f64_of. cbn [binary_normalize]. unfold binary_round.
  pose proof (digits_value z) as [D1 D2].
  assert (Dz : (Zpos (digits2_pos z) <= 53)%Z). { destruct (Z.le_gt_cases (Zpos (digits2_pos z)) 53) as [?|G]; auto. pose proof (Z.pow_le_mono_r 2 53 (Zpos (digits2_pos z) - 1)). lia. }
  assert (F : fexp 53 1024 (Zpos (digits2_pos z) + 0) = (Zpos (digits2_pos z) - 53)%Z) by (unfold fexp, emin; lia). rewrite F. unfold shl_align. rewrite Z.sub_0_r.
  destruct (Zpos (digits2_pos z) - 53)%Z as [|d|d] eqn:E; [|lia|].
  - exists z, 0%Z. split; [apply aux_exact; lia|]. split; [lia|]. cbn [Z.opp]. rewrite Z.pow_0_r. lia.
  - exists (shift_pos d z), (Zneg d). split; [apply aux_exact; [rewrite digits_shift|]; lia|]. split; [lia|]. cbn [Z.opp]. apply shift_value.
Qed.
