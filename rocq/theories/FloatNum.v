(** The arithmetic of artifact-data/src/graph.rs:74-163 as it is: IEEE binary64 with
    round-to-nearest-even, reported as binary32 (the floats of the standard library's
    SpecFloat). *)
From Coq Require Import ZArith SpecFloat.
From Verif Require Import Base Name Artifact.

Definition f64_add := SFadd 53 1024.
Definition f64_mul := SFmul 53 1024.
Definition f64_div := SFdiv 53 1024.
Definition f64_of (z : Z) : spec_float := binary_normalize 53 1024 z 0 false.
(** [f64::round]: to the nearest integer, halves away from zero.  (Values are not negative.) *)
Definition f64_round (x : spec_float) : spec_float :=
  match x with
  | S754_finite false m e =>
      match e with
      | Zneg d => f64_of ((Zpos m + 2 ^ (Zpos d - 1)) / 2 ^ Zpos d)%Z
      | _ => x
      end
  | _ => x
  end.
(** [as f32] *)
Definition f32_of (x : spec_float) : spec_float :=
  match x with
  | S754_finite sg m e => binary_normalize 24 128 (cond_Zopp sg (Zpos m)) e sg
  | _ => x
  end.
Definition float_num : num :=
  mkNum spec_float (S754_zero false) (f64_of 1) f64_add (fun x n => f64_div x (f64_of (Z.of_nat n)))
        spec_float (S754_zero false)
        (fun x => f32_of (f64_div (f64_round (f64_mul x (f64_of 1000))) (f64_of 1000))).
