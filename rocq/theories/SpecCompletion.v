(** Specification of completion, on the artifacts of a loaded project only. *)
From Coq Require Import QArith Qround Relations.
From Verif Require Import Base Name SpecName NameFacts Artifact Stored SpecLinks Numbers.

(** Test subnames: ".tst-" in any case (U+017F counts as s). *)
Definition fold_char (c : char) : char := if N.eqb c 383 then 83%N else upc c.
Definition test_sub (x : subname) : bool := starts_with (map fold_char (s_raw x)) (s ".TST-").

Section Out.
  Context {M : num} {H : Type}.
  Notation project := (list (name * artifact M H)).

  (** [k'] is a part of [k]. *)
  Definition below (out : project) (k k' : str) : Prop :=
    exists n a p, In (n, a) out /\ n_key n = k /\ In p (a_parts a) /\ n_key p = k'.
  Definition cyclic (out : project) : Prop := exists k, clos_trans str (below out) k k.

  Definition linked (c : impl_code) (x : subname) : bool :=
    existsb (fun e : subname * code_loc => str_eqb (s_key (fst e)) (s_key x)) (ic_secondary c).
  Definition present {A} (o : option A) : nat := match o with Some _ => 1 | None => 0 end.

  (** Own obligations: (total, met). *)
  Definition own_spc (i : impl) (subs : list subname) : nat * nat :=
    match i with
    | IDone _ => (1, 1)
    | ICode c => (1 + length subs, present (ic_primary c) + length (filter (linked c) subs))
    | INot => (if Nat.eqb (length subs) 0 then 0 else 1 + length subs, 0)
    end%nat.
  Definition own_tst (i : impl) (subs : list subname) : nat * nat :=
    match i with
    | IDone _ => (1, 1)
    | ICode c => (length (filter test_sub subs), length (filter (linked c) (filter test_sub subs)))
    | INot => (0, 0)
    end%nat.

  Definition not_test (n : name) : bool := negb (ty_eqb (n_ty n) TST).
  (** The parts that count for spc. *)
  Definition counted (n : name) (ps : list name) : list name :=
    if ty_eqb (n_ty n) TST then ps else filter not_test ps.

  Fixpoint qsum (l : list Q) : Q := match l with [] => 0 | x :: l' => x + qsum l' end.
  (** Average of [met] ones, [total - met] zeros and the values in [l]; 0 if there is nothing. *)
  Definition average (own : nat * nat) (l : list Q) : Q :=
    let (total, met) := own in
    match (total + length l)%nat with
    | O => 0
    | S _ => (q_of met + qsum l) / q_of (total + length l)
    end.

  Definition averages (out : project) (spc tst : str -> Q) : Prop :=
    forall n a, In (n, a) out ->
      spc (n_key n) == average (own_spc (a_impl a) (a_subnames a))
                               (map (fun p => spc (n_key p)) (counted n (a_parts a))) /\
      (if ty_eqb (n_ty n) TST
       then tst (n_key n) == spc (n_key n)
       else tst (n_key n) == average (own_tst (a_impl a) (a_subnames a))
                                     (map (fun p => tst (n_key p)) (a_parts a))).

  (** Complete: something is counted, all of the own obligations are met, and every part
      that counts is complete. *)
  Inductive spc_done (out : project) : str -> Prop :=
  | Spc_done n a :
      In (n, a) out ->
      fst (own_spc (a_impl a) (a_subnames a)) = snd (own_spc (a_impl a) (a_subnames a)) ->
      (0 < fst (own_spc (a_impl a) (a_subnames a)) + length (counted n (a_parts a)))%nat ->
      (forall p, In p (counted n (a_parts a)) -> spc_done out (n_key p)) ->
      spc_done out (n_key n).
  Inductive tst_done (out : project) : str -> Prop :=
  | Tst_done_test n a : In (n, a) out -> n_ty n = TST -> spc_done out (n_key n) -> tst_done out (n_key n)
  | Tst_done n a :
      In (n, a) out -> n_ty n <> TST ->
      fst (own_tst (a_impl a) (a_subnames a)) = snd (own_tst (a_impl a) (a_subnames a)) ->
      (0 < fst (own_tst (a_impl a) (a_subnames a)) + length (a_parts a))%nat ->
      (forall p, In p (a_parts a) -> tst_done out (n_key p)) ->
      tst_done out (n_key n).
End Out.

(** An artifact improves when no met obligation is lost and no unmet one is added. *)
Definition better (old new : nat * nat) : Prop :=
  (snd old <= snd new /\ fst new - snd new <= fst old - snd old)%nat.
Definition improves (i : impl) (subs : list subname) (i' : impl) (subs' : list subname) : Prop :=
  better (own_spc i subs) (own_spc i' subs') /\ better (own_tst i subs) (own_tst i' subs').

(** Implementation and subnames of an artifact as read. *)
Definition impl_im (code : list (name * impl_code)) (a : art_im) : impl :=
  match im_done a with
  | Some d => IDone d
  | None => match im_get name_eqb (im_name a) code with Some c => ICode c | None => INot end
  end.
Definition subs_im (a : art_im) : list subname := parse_subnames (clean_text (im_text a)).

(** Every artifact of [arts] has a counterpart in [arts'] with the same name and links, related by [R]. *)
Definition similar (arts arts' : list art_im) (R : art_im -> art_im -> Prop) : Prop :=
  forall a, In a arts -> exists a', In a' arts' /\ n_key (im_name a') = n_key (im_name a) /\
    (forall q, name_wf q -> (named q (im_partof a') <-> named q (im_partof a))) /\ R a a'.
