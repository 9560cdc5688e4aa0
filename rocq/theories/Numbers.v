(** The arithmetic of completion ratios.

    artifact-data/src/graph.rs:74-163 computes with f64 and reports f32. [num] (Artifact.v)
    abstracts it; here are the two instances the properties are about. *)
From Coq Require Import QArith Qround.
From Verif Require Import Base Name Artifact.

(** graph.rs:161-163 round_ratio, exactly: the reported number of thousandths. Rust's [round]
    rounds halves away from zero; ratios are not negative, so that is upwards. *)
Definition thousandths (q : Q) : Z := Qfloor (1000 * q + (1 # 2)).
Definition q_of (n : nat) : Q := inject_Z (Z.of_nat n).

(** Exact arithmetic: no rounding but the final one. *)
Definition exact_num : num :=
  mkNum Q 0 1 Qplus (fun q n => q / q_of n) Z 0%Z thousandths.

(** The operations of graph.rs in their order, with a rounding after each of them: [rnd] for
    f64 operations, [rnd32] for the final [as f32]. (1000 and the integral value of [round]
    are exact.) *)
Definition rounded_num (rnd rnd32 : Q -> Q) : num :=
  mkNum Q 0 1 (fun x y => rnd (x + y)) (fun q n => rnd (q / q_of n)) Q 0
    (fun x => rnd32 (rnd (inject_Z (Qfloor (rnd (1000 * x) + (1 # 2))) / 1000))).
