(** Property C18 with the arithmetic that is used: what is divided and rounded to get a completion. *)
From Coq Require Import ZArith SpecFloat Lia.
From Verif Require Import FloatNum FloatFacts.

(** [x] is the number [z]. *)
Definition is_int (x : spec_float) (z : Z) : Prop :=
  match x with
  | S754_zero _ => z = 0%Z
  | S754_finite false m e => (e <= 0)%Z /\ (Zpos m = z * 2 ^ (- e))%Z
  | _ => False
  end.

(** Counts are exact, *)
Theorem C18_float_counts : forall z, (0 <= z < 2 ^ 53)%Z -> is_int (f64_of z) z.
Proof.
  intros z B. destruct (Z.eq_dec z 0) as [->|N]; [reflexivity|]. destruct (f64_of_exact z) as (m & e & E & Le & V); [lia|]. rewrite E. cbn [is_int]. auto.
Qed.
Print Assumptions C18_float_counts.
(** and a number [m / 2 ^ d] is rounded to a nearest integer, halves up. *)
Theorem C18_float_rounds : forall m d, (Zpos m < 2 ^ 53)%Z ->
  exists z, is_int (f64_round (S754_finite false m (Zneg d))) z /\ (2 ^ Zpos d * (2 * z - 1) <= 2 * Zpos m < 2 ^ Zpos d * (2 * z + 1))%Z.
Proof.
  intros m d L. cbn [f64_round]. set (p := (2 ^ (Zpos d - 1))%Z). assert (Pp : (0 < p)%Z) by (apply Z.pow_pos_nonneg; lia).
  assert (P2 : (2 ^ Zpos d = 2 * p)%Z) by (unfold p; rewrite <- Z.pow_succ_r by lia; f_equal; lia). rewrite P2.
  set (z := ((Zpos m + p) / (2 * p))%Z). pose proof (Z.div_mod (Zpos m + p) (2 * p)) as D. pose proof (Z.mod_pos_bound (Zpos m + p) (2 * p)) as Md. fold z in D.
  assert (Z0 : (0 <= z)%Z) by (apply Z.div_pos; lia).
  assert (Z1 : (z < 2 ^ 53)%Z) by (apply Z.div_lt_upper_bound; nia).
  exists z. split; [apply C18_float_counts; lia|]. nia.
Qed.
Print Assumptions C18_float_rounds.
(** 62.5 goes to 63. *)
Example C18_float_rounds_example : is_int (f64_round (S754_finite false 125 (-1))) 63 /\ is_int (f64_of 1000) 1000.
Proof. vm_compute. intuition discriminate. Qed.
