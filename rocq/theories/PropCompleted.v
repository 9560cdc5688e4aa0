(** Properties C13-C18: completion ratios.

    [exact_num] computes with rationals and reports thousandths; [rounded_num] rounds after
    every operation (Numbers.v). The specification is SpecCompletion.v. *)
From Coq Require Import QArith Qround Lqa Permutation ZArith Lia.
From Verif Require Import Base BaseFacts Name SpecName NameFacts Family Artifact Stored SpecGraph Topo
  SpecLinks Numbers SpecCompletion AverageFacts BuildFacts ProjectFacts RowFacts CompletionFacts CompletionThms PropArtifacts.

(** ** C13 Ratios lie between 0 and 1 *)
Theorem C13_ratios_bounded : forall (rnd rnd32 : Q -> Q) (B : nat),
  (forall x y, x <= y -> rnd x <= rnd y)%Q ->
  (forall m, (m <= B)%nat -> rnd (q_of m) == q_of m)%Q ->
  (forall x y, x <= y -> rnd32 x <= rnd32 y)%Q ->
  (rnd32 0 == 0 /\ rnd32 1 == 1)%Q ->
  (1000 <= B)%nat ->
  forall topo H hash_im, topo_ok topo ->
  forall arts code out, Forall im_wf arts -> build (rounded_num rnd rnd32) topo H hash_im arts code = Ok out ->
  (forall n a, In (n, a) out -> (1 + length (a_subnames a) + length (a_parts a) <= B)%nat) ->
  forall n a, In (n, a) out ->
  (0 <= fst (a_completed a) <= 1)%Q /\ (0 <= snd (a_completed a) <= 1)%Q.
Proof. exact rounded_unit. Qed.
Print Assumptions C13_ratios_bounded.

(** Truncation to 1/64: a rounding that is not the identity. *)
Definition ex_rnd (x : Q) : Q := (inject_Z (Qfloor (64 * x)) / 64)%Q.
Lemma ex_rnd_mono x y : (x <= y -> ex_rnd x <= ex_rnd y)%Q.
Proof.
  intros L. unfold ex_rnd. apply Qmult_le_compat_r; [|discriminate]. rewrite <- Zle_Qle. apply Qfloor_resp_le. lra.
Qed.
Lemma ex_rnd_int m : (ex_rnd (q_of m) == q_of m)%Q.
Proof.
  unfold ex_rnd, q_of. change 64%Q with (inject_Z 64). rewrite <- inject_Z_mult, Qfloor_Z, inject_Z_mult. field.
Qed.
(** Arrows of a project with fractions: REQ-t over three specs, one of them with three subnames. *)
Definition ex_frac : list art_im :=
  [ex_im (s "REQ-t") [] None (s "top");
   ex_im (s "SPC-a") [s "REQ-t"] None (s "[[.x]] [[.tst-y]] [[.z]]");
   ex_im (s "SPC-b") [s "REQ-t"] None [];
   ex_im (s "SPC-c") [s "REQ-t"] (Some (s "yes")) [];
   ex_im (s "TST-a") [] (Some (s "yes")) []].
Definition ex_frac_code : list (name * impl_code) :=
  [(nm (s "spc-A"), mkCode None [(sub_new (s ".X"), mkLoc [s "x.rs"] 3)])].
Lemma ex_frac_wf : Forall im_wf ex_frac.
Proof.
  repeat (apply Forall_cons || apply Forall_nil); constructor;
    repeat (apply Forall_cons || apply Forall_nil || (vm_compute; reflexivity));
    vm_compute; repeat constructor; simpl; intuition discriminate.
Qed.
Lemma ex_frac_distinct : distinct ex_frac.
Proof. vm_compute. repeat constructor; simpl; intuition discriminate. Qed.
Definition ex_ratios {M H} (x : res (list (name * artifact M H))) :=
  match x with Ok l => map (fun e => (n_raw (fst e), a_completed (snd e))) l | _ => [] end.

Example C13_example :
  (forall x y, x <= y -> ex_rnd x <= ex_rnd y)%Q /\ (forall m, ex_rnd (q_of m) == q_of m)%Q /\
  map (fun e => (fst e, Qred (fst (snd e)), Qred (snd (snd e))))
    (ex_ratios (build (rounded_num ex_rnd ex_rnd) topo_sort str ex_hash ex_frac ex_frac_code)) =
  [(s "REQ-t", 25 # 64, 1 # 2); (s "SPC-a", 1 # 4, 1 # 2); (s "SPC-b", 0 # 1, 0 # 1);
   (s "SPC-c", 1 # 1, 1 # 1); (s "TST-a", 1 # 1, 1 # 1)]%Q.
Proof.
  split; [exact ex_rnd_mono|]. split; [exact ex_rnd_int|]. vm_compute. reflexivity.
Qed.

(** ** C14 Completion does not depend on orders *)
Theorem C14_unique_solution : forall topo H hash_im, topo_ok topo ->
  forall arts code out, Forall im_wf arts -> build exact_num topo H hash_im arts code = Ok out -> ~ cyclic out ->
  exists spc tst, averages out spc tst /\
    (forall n a, In (n, a) out -> a_completed a = (thousandths (spc (n_key n)), thousandths (tst (n_key n)))) /\
    (forall spc' tst', averages out spc' tst' -> forall n a, In (n, a) out ->
       (spc' (n_key n) == spc (n_key n) /\ tst' (n_key n) == tst (n_key n))%Q).
Proof. exact unique_solution. Qed.
Print Assumptions C14_unique_solution.

Theorem C14_order_independent : forall topo topo' H H' hash_im hash_im', topo_ok topo -> topo_ok topo' ->
  forall arts arts' code code' out out', Forall im_wf arts -> distinct arts -> Permutation arts arts' ->
  (forall n, im_get name_eqb n code = im_get name_eqb n code') ->
  build exact_num topo H hash_im arts code = Ok out -> build exact_num topo' H' hash_im' arts' code' = Ok out' ->
  forall n a n' a', In (n, a) out -> In (n', a') out' -> n_key n = n_key n' -> a_completed a = a_completed a'.
Proof. exact order_independent. Qed.
Print Assumptions C14_order_independent.

Definition ex_exact := build exact_num topo_sort str ex_hash.
Example C14_example : Permutation ex_frac (rev ex_frac) /\
  ex_ratios (ex_exact ex_frac ex_frac_code) =
  [(s "REQ-t", (417, 500)); (s "SPC-a", (250, 500)); (s "SPC-b", (0, 0)); (s "SPC-c", (1000, 1000)); (s "TST-a", (1000, 1000))]%Z /\
  ex_ratios (ex_exact (rev ex_frac) ex_frac_code) =
  [(s "TST-a", (1000, 1000)); (s "SPC-c", (1000, 1000)); (s "SPC-b", (0, 0)); (s "SPC-a", (250, 500)); (s "REQ-t", (417, 500))]%Z.
Proof. split; [apply Permutation_rev|]. split; vm_compute; reflexivity. Qed.

(** Reading single entries of an output. *)
Definition ex_out {M H} (x : res (list (name * artifact M H))) := match x with Ok l => l | _ => [] end.
Definition entry {M H} (k : str) (out : list (name * artifact M H)) := find (fun e => str_eqb (n_key (fst e)) k) out.
Lemma entry_in {M H} k (out : list (name * artifact M H)) e : entry k out = Some e -> In e out /\ n_key (fst e) = k.
Proof. intros E. apply find_some in E as [E1 E2]. apply str_eqb_eq in E2. auto. Qed.
Definition spc_at {H} (k : str) (out : list (name * artifact exact_num H)) : option Z :=
  option_map (fun e => fst (a_completed (snd e))) (entry k out).
Lemma nonzero_acyclic arts code out k v : Forall im_wf arts -> ex_exact arts code = Ok out ->
  spc_at k out = Some v -> v <> 0%Z -> ~ cyclic out.
Proof.
  intros W E Hs Hz C. unfold spc_at in Hs. destruct (entry k out) as [[n a]|] eqn:Ee; [|discriminate].
  apply entry_in in Ee as [Hin _]. cbn [option_map snd] in Hs.
  rewrite (cyclic_zero exact_num topo_sort str ex_hash topo_sort_ok arts code out W E C n a Hin) in Hs.
  apply Hz. cbn [fst f0 exact_num] in Hs. congruence.
Qed.
Lemma build_ex_out arts code : ex_exact arts code = Ok (ex_out (ex_exact arts code)).
Proof.
  destruct (build_total exact_num topo_sort str ex_hash topo_sort_ok arts code) as (out & E & _).
  unfold ex_exact. rewrite E. reflexivity.
Qed.

Definition ex_frac_out := ex_out (ex_exact ex_frac ex_frac_code).
Example C14_acyclic_example : ex_exact ex_frac ex_frac_code = Ok ex_frac_out /\ ~ cyclic ex_frac_out.
Proof.
  split; [apply build_ex_out|].
  apply (nonzero_acyclic ex_frac ex_frac_code _ (s "REQ-T") 417 ex_frac_wf (build_ex_out _ _)); [vm_compute; reflexivity|discriminate].
Qed.

(** ** C15 100 percent means everything below is implemented *)
Theorem C15_full_iff_done : forall topo H hash_im, topo_ok topo ->
  forall arts code out, Forall im_wf arts -> build exact_num topo H hash_im arts code = Ok out -> ~ cyclic out ->
  forall spc tst, averages out spc tst -> forall n a, In (n, a) out ->
  (spc (n_key n) == 1 <-> spc_done out (n_key n))%Q /\ (tst (n_key n) == 1 <-> tst_done out (n_key n))%Q.
Proof. exact exact_full. Qed.
Print Assumptions C15_full_iff_done.

Theorem C15_done_reported : forall topo H hash_im, topo_ok topo ->
  forall arts code out, Forall im_wf arts -> build exact_num topo H hash_im arts code = Ok out -> ~ cyclic out ->
  forall n a, In (n, a) out ->
  (0 <= fst (a_completed a) <= 1000)%Z /\ (0 <= snd (a_completed a) <= 1000)%Z /\
  (spc_done out (n_key n) -> fst (a_completed a) = 1000%Z) /\ (tst_done out (n_key n) -> snd (a_completed a) = 1000%Z).
Proof. exact reported_full. Qed.
Print Assumptions C15_done_reported.

Lemma not_done arts code out k v : Forall im_wf arts -> ex_exact arts code = Ok out -> ~ cyclic out ->
  spc_at k out = Some v -> v <> 1000%Z -> ~ spc_done out k.
Proof.
  intros W E AC Hv Hn D. unfold spc_at in Hv. destruct (entry k out) as [[n a]|] eqn:Ee; [|discriminate].
  apply entry_in in Ee as [Hin Hk]. cbn [fst] in Hk. subst k. cbn [option_map snd] in Hv.
  destruct (reported_full topo_sort str ex_hash topo_sort_ok arts code out W E AC n a Hin) as (_ & _ & R & _).
  specialize (R D). congruence.
Qed.
(** An artifact without parts that is done is complete. *)
Definition leaf {M H} (k : str) (out : list (name * artifact M H)) : bool :=
  match entry k out with
  | Some (n, a) => match own_spc (a_impl a) (a_subnames a), a_parts a with (1%nat, 1%nat), [] => true | _, _ => false end
  | None => false
  end.
Lemma leaf_done {M H} (out : list (name * artifact M H)) k : leaf k out = true -> spc_done out k.
Proof.
  unfold leaf. intros Hv. destruct (entry k out) as [[n a]|] eqn:Ee; [|discriminate].
  apply entry_in in Ee as [Hin Hk]. cbn [fst] in Hk. subst k.
  destruct (own_spc (a_impl a) (a_subnames a)) as [[|[|?]] [|[|?]]] eqn:H1; try discriminate.
  destruct (a_parts a) as [|] eqn:H2; try discriminate.
  assert (H3 : counted n (a_parts a) = []) by (rewrite H2; unfold counted; now destruct (ty_eqb (n_ty n) TST)).
  apply (Spc_done out n a Hin); rewrite ?H1, ?H3; [reflexivity|simpl; lia|intros p []].
Qed.

(** The averages of the project above exist and are unique (C14); SPC-c is complete, SPC-a is
    not, and REQ-t, whose part it is, is not either. *)
Example C15_example : spc_done ex_frac_out (s "SPC-C") /\ spc_done ex_frac_out (s "TST-A") /\
  ~ spc_done ex_frac_out (s "SPC-A") /\ ~ spc_done ex_frac_out (s "REQ-T").
Proof.
  destruct C14_acyclic_example as [E AC].
  split; [apply leaf_done; vm_compute; reflexivity|]. split; [apply leaf_done; vm_compute; reflexivity|].
  split.
  - apply (not_done ex_frac ex_frac_code ex_frac_out _ 250 ex_frac_wf E AC); [vm_compute; reflexivity|discriminate].
  - apply (not_done ex_frac ex_frac_code ex_frac_out _ 417 ex_frac_wf E AC); [vm_compute; reflexivity|discriminate].
Qed.

(** ** C16 Completion is monotone *)
Theorem C16_monotone : forall topo topo' H H' hash_im hash_im', topo_ok topo -> topo_ok topo' ->
  forall arts arts' code code' out out',
  Forall im_wf arts -> Forall im_wf arts' -> distinct arts -> distinct arts' ->
  build exact_num topo H hash_im arts code = Ok out -> build exact_num topo' H' hash_im' arts' code' = Ok out' ->
  similar arts arts' (fun a a' => improves (impl_im code a) (subs_im a) (impl_im code' a') (subs_im a')) ->
  similar arts' arts (fun _ _ => True) ->
  forall n a n' a', In (n, a) out -> In (n', a') out' -> n_key n = n_key n' ->
  (fst (a_completed a) <= fst (a_completed a'))%Z /\ (snd (a_completed a) <= snd (a_completed a'))%Z.
Proof. exact exact_mono. Qed.
Print Assumptions C16_monotone.

Theorem C16_mark_done : forall topo H hash_im, topo_ok topo ->
  forall l1 x l2 d code out out',
  Forall im_wf (l1 ++ x :: l2) -> distinct (l1 ++ x :: l2) -> impl_im code x = INot ->
  build exact_num topo H hash_im (l1 ++ x :: l2) code = Ok out ->
  build exact_num topo H hash_im (l1 ++ mkIm (im_name x) (im_file x) (im_partof x) (Some d) (im_text x) :: l2) code = Ok out' ->
  forall n a n' a', In (n, a) out -> In (n', a') out' -> n_key n = n_key n' ->
  (fst (a_completed a) <= fst (a_completed a'))%Z /\ (snd (a_completed a) <= snd (a_completed a'))%Z.
Proof. exact mark_done. Qed.
Print Assumptions C16_mark_done.

(** A first reference to an artifact without test subnames, a missing primary reference, or
    one more subname reference. *)
Theorem C16_add_reference : forall topo H hash_im, topo_ok topo ->
  forall arts code code' m out out',
  Forall im_wf arts -> distinct arts -> name_wf m ->
  (forall n, name_wf n -> n_key n <> n_key m -> im_get name_eqb n code' = im_get name_eqb n code) ->
  (exists loc,
     (exists c, im_get name_eqb m code = Some c /\ ic_primary c = None /\
        im_get name_eqb m code' = Some (mkCode (Some loc) (ic_secondary c))) \/
     (exists c sub, im_get name_eqb m code = Some c /\
        im_get name_eqb m code' = Some (mkCode (ic_primary c) (ic_secondary c ++ [(sub, loc)]))) \/
     (im_get name_eqb m code = None /\ im_get name_eqb m code' = Some (mkCode (Some loc) []) /\
      forall a, In a arts -> n_key (im_name a) = n_key m -> forall x, In x (subs_im a) -> test_sub x = false)) ->
  build exact_num topo H hash_im arts code = Ok out -> build exact_num topo H hash_im arts code' = Ok out' ->
  forall n a n' a', In (n, a) out -> In (n', a') out' -> n_key n = n_key n' ->
  (fst (a_completed a) <= fst (a_completed a'))%Z /\ (snd (a_completed a) <= snd (a_completed a'))%Z.
Proof. exact add_reference. Qed.
Print Assumptions C16_add_reference.

(** The changes are real: SPC-b marked done; SPC-a referenced by its own name. *)
Example C16_example :
  impl_im ex_frac_code (ex_im (s "SPC-b") [s "REQ-t"] None []) = INot /\
  ex_ratios (ex_exact (map (fun a => if str_eqb (n_raw (im_name a)) (s "SPC-b")
                            then ex_im (s "SPC-b") [s "REQ-t"] (Some (s "now")) [] else a) ex_frac) ex_frac_code) =
  [(s "REQ-t", (750, 833)); (s "SPC-a", (250, 500)); (s "SPC-b", (1000, 1000)); (s "SPC-c", (1000, 1000)); (s "TST-a", (1000, 1000))]%Z /\
  ex_ratios (ex_exact ex_frac [(nm (s "spc-A"), mkCode (Some (mkLoc [s "x.rs"] 1)) [(sub_new (s ".X"), mkLoc [s "x.rs"] 3)])]) =
  [(s "REQ-t", (500, 500)); (s "SPC-a", (500, 500)); (s "SPC-b", (0, 0)); (s "SPC-c", (1000, 1000)); (s "TST-a", (1000, 1000))]%Z.
Proof. repeat split; vm_compute; reflexivity. Qed.

(** Changes that look like progress and lower a ratio. *)
Definition ex_x := mkLoc [s "x.rs"] 1.
Definition ex_full_a := mkCode (Some ex_x) [(sub_new (s ".x"), ex_x); (sub_new (s ".y"), ex_x); (sub_new (s ".z"), ex_x)].
Theorem C16_mark_done_refuted : forall code, code = [(nm (s "SPC-a"), ex_full_a)] ->
  ex_ratios (ex_exact [ex_im (s "SPC-a") [] None (s "[[.x]] [[.y]] [[.z]]"); ex_im (s "SPC-a-b") [] None []] code) =
    [(s "SPC-a", (800, 0)); (s "SPC-a-b", (0, 0))]%Z /\
  ex_ratios (ex_exact [ex_im (s "SPC-a") [] (Some (s "yes")) (s "[[.x]] [[.y]] [[.z]]"); ex_im (s "SPC-a-b") [] None []] code) =
    [(s "SPC-a", (500, 500)); (s "SPC-a-b", (0, 0))]%Z.
Proof. intros code ->. split; vm_compute; reflexivity. Qed.
Print Assumptions C16_mark_done_refuted.

Definition ex_two := [ex_im (s "SPC-a") [] None []; ex_im (s "SPC-a-b") [] (Some (s "yes")) []].
Definition ex_two_t := [ex_im (s "SPC-a") [] None (s "[[.tst-x]]"); ex_im (s "SPC-a-b") [] (Some (s "yes")) []].
Theorem C16_add_reference_refuted :
  (ex_ratios (ex_exact ex_two []) = [(s "SPC-a", (1000, 1000)); (s "SPC-a-b", (1000, 1000))]%Z /\
   ex_ratios (ex_exact ex_two [(nm (s "SPC-a"), mkCode None [(sub_new (s ".bogus"), ex_x)])]) =
     [(s "SPC-a", (500, 1000)); (s "SPC-a-b", (1000, 1000))]%Z) /\
  (ex_ratios (ex_exact ex_two_t []) = [(s "SPC-a", (333, 1000)); (s "SPC-a-b", (1000, 1000))]%Z /\
   ex_ratios (ex_exact ex_two_t [(nm (s "SPC-a"), mkCode (Some ex_x) [])]) =
     [(s "SPC-a", (667, 500)); (s "SPC-a-b", (1000, 1000))]%Z).
Proof. repeat split; vm_compute; reflexivity. Qed.
Print Assumptions C16_add_reference_refuted.

(** ** C17 A cycle zeroes everything *)
Theorem C17_cycle_zero : forall M topo H hash_im, topo_ok topo ->
  forall arts code out, Forall im_wf arts -> build M topo H hash_im arts code = Ok out -> cyclic out ->
  forall n a, In (n, a) out -> a_completed a = (f0 M, f0 M).
Proof. exact cyclic_zero. Qed.
Print Assumptions C17_cycle_zero.

Definition ex_cycle := [ex_im (s "SPC-a") [s "SPC-b"] None []; ex_im (s "SPC-b") [s "spc-A"] None []; ex_im (s "TST-z") [] (Some (s "d")) []].
Definition has_below {M H} (k k' : str) (out : list (name * artifact M H)) : bool :=
  match entry k out with Some (n, a) => existsb (fun p => str_eqb (n_key p) k') (a_parts a) | None => false end.
Lemma has_below_ok {M H} k k' (out : list (name * artifact M H)) : has_below k k' out = true -> below out k k'.
Proof.
  unfold has_below. intros Hp. destruct (entry k out) as [[n a]|] eqn:Ee; [|discriminate]. apply entry_in in Ee as [Hin Hk].
  apply existsb_exists in Hp as (p & Hp & E). apply str_eqb_eq in E. exists n, a, p. auto.
Qed.
Example C17_example : let out := ex_out (ex_exact ex_cycle []) in
  ex_exact ex_cycle [] = Ok out /\ cyclic out /\ map (fun e => n_raw (fst e)) out = [s "SPC-a"; s "SPC-b"; s "TST-z"].
Proof.
  intros out. split; [apply build_ex_out|]. split; [|vm_compute; reflexivity].
  exists (s "SPC-A"). apply Relation_Operators.t_trans with (y := s "SPC-B"); apply Relation_Operators.t_step;
    apply has_below_ok; vm_compute; reflexivity.
Qed.

(** ** C18 Rounding of reported ratios *)
Theorem C18_rounding :
  (forall x, (inject_Z (nround exact_num x) / 1000 - x <= 1 # 2000 /\ x - inject_Z (nround exact_num x) / 1000 <= 1 # 2000)%Q) /\
  (forall x y, (x <= y)%Q -> (nround exact_num x <= nround exact_num y)%Z) /\
  (nround exact_num 0%Q = 0%Z /\ nround exact_num 1%Q = 1000%Z) /\
  (forall x, (x <= 1)%Q -> (nround exact_num x = 1000%Z <-> (1999 # 2000 <= x)%Q)).
Proof. exact (conj thousandths_near (conj thousandths_mono (conj thousandths_ends thousandths_full))). Qed.
Print Assumptions C18_rounding.


(** An unimplemented leaf under a chain of eleven done artifacts: the top shows 100 percent. *)
Definition ex_chain : list art_im :=
  map (fun p => ex_im (s "SPC-" ++ [fst p]) (match snd p with Some q => [s "SPC-" ++ [q]] | None => [] end) (Some (s "d")) [])
    [(97, None); (98, Some 97); (99, Some 98); (100, Some 99); (101, Some 100); (102, Some 101); (103, Some 102);
     (104, Some 103); (105, Some 104); (106, Some 105); (107, Some 106)]%N ++
  [ex_im (s "SPC-leaf") [s "SPC-k"] None []].
Lemma ex_chain_wf : Forall im_wf ex_chain.
Proof.
  repeat (apply Forall_cons || apply Forall_nil); constructor;
    repeat (apply Forall_cons || apply Forall_nil || (vm_compute; reflexivity));
    vm_compute; repeat constructor; simpl; intuition discriminate.
Qed.
Definition has_part {M H} (k k' : str) (out : list (name * artifact M H)) : bool :=
  match entry k out with
  | Some (n, a) => existsb (fun p => str_eqb (n_key p) k') (counted n (a_parts a))
  | None => false
  end.
Lemma not_done_up {M H} (out : list (name * artifact M H)) k k' : NoDup (map (fun e => n_key (fst e)) out) ->
  has_part k k' out = true -> ~ spc_done out k' -> ~ spc_done out k.
Proof.
  intros ND Hp Hn D. apply Hn. inversion D as [m b Hb _ _ All Em]. unfold has_part in Hp.
  destruct (entry k out) as [[n a]|] eqn:Ee; [|discriminate]. apply entry_in in Ee as [Hin Hk]. cbn [fst] in Hk.
  assert (X : (m, b) = (n, a)).
  { rewrite <- Em in Hk. clear - ND Hin Hb Hk. induction out as [|e out IH]; [easy|]. simpl in *. inversion ND as [|? ? N1 N2]; subst.
    destruct Hin as [->|Hin], Hb as [Eb|Hb]; auto.
    - exfalso. apply N1. apply in_map_iff. exists (m, b). auto.
    - subst e. exfalso. apply N1. apply in_map_iff. exists (n, a). auto. }
  inversion X; subst. apply existsb_exists in Hp as (p & Hp & E2). apply str_eqb_eq in E2. subst k'. auto.
Qed.

Lemma ex_nodup arts code out : Forall im_wf arts -> ex_exact arts code = Ok out -> NoDup (map (fun e => n_key (fst e)) out).
Proof. intros W E. exact (oo_nodup _ (build_out exact_num topo_sort str ex_hash topo_sort_ok arts code out W E)). Qed.

Definition ex_chain_out := ex_out (ex_exact ex_chain []).
Theorem C18_incomplete_shown_full :
  ex_exact ex_chain [] = Ok ex_chain_out /\ ~ cyclic ex_chain_out /\
  spc_at (s "SPC-A") ex_chain_out = Some 1000%Z /\ ~ spc_done ex_chain_out (s "SPC-A").
Proof.
  assert (E : ex_exact ex_chain [] = Ok ex_chain_out) by exact (build_ex_out ex_chain []). split; [exact E|].
  assert (T : spc_at (s "SPC-A") ex_chain_out = Some 1000%Z) by (vm_compute; reflexivity).
  assert (AC : ~ cyclic ex_chain_out) by (apply (nonzero_acyclic ex_chain [] _ (s "SPC-A") 1000 ex_chain_wf E T); discriminate).
  split; [exact AC|]. split; [exact T|].
  assert (ND : NoDup (map (fun e => n_key (fst e)) ex_chain_out)).
  { exact (ex_nodup ex_chain [] _ ex_chain_wf E). }
  assert (L : ~ spc_done ex_chain_out (s "SPC-LEAF")).
  { apply (not_done ex_chain [] _ _ 0 ex_chain_wf E AC); [vm_compute; reflexivity|discriminate]. }
  assert (Step : forallb (fun p => has_part (fst p) (snd p) ex_chain_out)
    (map (fun c => (s "SPC-" ++ [c], s "SPC-" ++ [N.succ c])) [65; 66; 67; 68; 69; 70; 71; 72; 73; 74]%N) = true) by (vm_compute; reflexivity).
  rewrite forallb_forall in Step.
  assert (K : has_part (s "SPC-K") (s "SPC-LEAF") ex_chain_out = true) by (vm_compute; reflexivity).
  pose proof (not_done_up _ _ _ ND K L) as D.
  assert (Up : forall c, In c [65; 66; 67; 68; 69; 70; 71; 72; 73; 74]%N ->
    ~ spc_done ex_chain_out (s "SPC-" ++ [N.succ c]) -> ~ spc_done ex_chain_out (s "SPC-" ++ [c])).
  { intros c Hc. apply (not_done_up _ _ _ ND). apply (Step (s "SPC-" ++ [c], s "SPC-" ++ [N.succ c])).
    apply in_map_iff. exists c. auto. }
  apply (Up 65%N); [simpl; tauto|]. apply (Up 66%N); [simpl; tauto|]. apply (Up 67%N); [simpl; tauto|].
  apply (Up 68%N); [simpl; tauto|]. apply (Up 69%N); [simpl; tauto|]. apply (Up 70%N); [simpl; tauto|].
  apply (Up 71%N); [simpl; tauto|]. apply (Up 72%N); [simpl; tauto|]. apply (Up 73%N); [simpl; tauto|].
  apply (Up 74%N); [simpl; tauto|]. exact D.
Qed.
Print Assumptions C18_incomplete_shown_full.
