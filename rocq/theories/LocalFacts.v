(** Completion depends on what is below an artifact only (C90). *)
From Coq Require Import QArith Relations Permutation Lia ZArith.
From Verif Require Import Base BaseFacts Name SpecName NameFacts Artifact Stored SpecGraph SpecLinks LinkFacts ProjectFacts Numbers SpecCompletion
  AverageFacts RowFacts CompletionFacts CompletionThms SpecLocal.
Open Scope nat_scope.

Section Local.
  Variables (topo topo' : graph -> option (list nat)) (H H' : Type) (hash_im : art_im -> H) (hash_im' : art_im -> H').
  Hypothesis TC : topo_ok topo.
  Hypothesis TC' : topo_ok topo'.
  Variables (arts arts' : list art_im) (code code' : list (name * impl_code)) (out : list (name * artifact exact_num H)) (out' : list (name * artifact exact_num H')).
  Hypothesis W : Forall im_wf arts.
  Hypothesis W' : Forall im_wf arts'.
  Hypothesis E : build exact_num topo H hash_im arts code = Ok out.
  Hypothesis E' : build exact_num topo' H' hash_im' arts' code' = Ok out'.
  Let OO := build_out exact_num topo H hash_im TC arts code out W E.
  Let OO' := build_out exact_num topo' H' hash_im' TC' arts' code' out' W' E'.
  Variable X : str -> Prop.
  Hypothesis C : changed_only X out out'.

  Notation untouched := (untouched X out out').

  Lemma parts_local n a n' a' : In (n, a) out -> In (n', a') out' -> n_key n' = n_key n -> untouched (n_key n) ->
    forall k, In k (map n_key (a_parts a')) <-> In k (map n_key (a_parts a)).
  Proof.
    intros Hn Hn' En U k. destruct C as [C1 C2].
    assert (Xn : ~ X (n_key n)) by (apply U; left; apply rt_refl).
    split; intros Hk; apply in_map_iff in Hk as (p & <- & Hp).
    - destruct (oo_parts out' OO' n' a' p Hn' Hp) as (_ & m' & b' & Hm' & Em').
      assert (Xp : ~ X (n_key m')).
      { apply U. right. apply rt_step. exists n', a', p. auto. }
      destruct (C2 m' b' Hm' Xp) as (m & b & Hm & Em). destruct (C1 m b Hm) as (m2 & b2 & Hm2 & Em2 & S); [congruence|].
      destruct (out_same out' OO' m2 b2 m' b' Hm2 Hm' ltac:(congruence)) as [-> ->].
      assert (N : named m' (a_parts a')) by (exists p; auto).
      apply (parts_inverse exact_num topo' H' hash_im' TC' arts' code' out' W' E' _ _ _ _ Hn' Hm') in N.
      assert (I : In (n_key n) (map n_key (a_partof b))).
      { apply S; [exact Xn|]. destruct N as (q & Hq & Eq). apply in_map_iff. exists q. split; [congruence|auto]. }
      apply in_map_iff in I as (q & Eq & Hq).
      assert (N' : named n (a_partof b)) by (exists q; auto).
      apply (parts_inverse exact_num topo H hash_im TC arts code out W E _ _ _ _ Hn Hm) in N' as (r & Hr & Er).
      apply in_map_iff. exists r. split; [congruence|auto].
    - destruct (oo_parts out OO n a p Hn Hp) as (_ & m & b & Hm & Em).
      assert (Xp : ~ X (n_key m)).
      { apply U. left. apply rt_step. exists n, a, p. auto. }
      destruct (C1 m b Hm Xp) as (m' & b' & Hm' & Em' & S).
      assert (N : named m (a_parts a)) by (exists p; auto).
      apply (parts_inverse exact_num topo H hash_im TC arts code out W E _ _ _ _ Hn Hm) in N.
      assert (I : In (n_key n) (map n_key (a_partof b'))).
      { apply S; [exact Xn|]. destruct N as (q & Hq & Eq). apply in_map_iff. exists q. split; [congruence|auto]. }
      apply in_map_iff in I as (q & Eq & Hq).
      assert (N' : named n' (a_partof b')) by (exists q; split; [auto|congruence]).
      apply (parts_inverse exact_num topo' H' hash_im' TC' arts' code' out' W' E' _ _ _ _ Hn' Hm') in N' as (r & Hr & Er).
      apply in_map_iff. exists r. split; [congruence|auto].
  Qed.

  Lemma local : ~ cyclic out -> ~ cyclic out' ->
    forall n a n' a', In (n, a) out -> In (n', a') out' -> n_key n' = n_key n -> untouched (n_key n) -> a_completed a = a_completed a'.
  Proof.
    intros AC AC' n a n' a' Hn Hn' En U.
    destruct (exact_solution topo H hash_im TC arts code out W E AC) as (spc & tst & rank & R & A & Z).
    destruct (exact_solution topo' H' hash_im' TC' arts' code' out' W' E' AC') as (spc' & tst' & _ & _ & A' & Z').
    assert (G : forall k, (fun k => untouched k -> (exists m' b', In (m', b') out' /\ n_key m' = k) -> (spc k == spc' k /\ tst k == tst' k)%Q) k -> untouched k -> (exists m' b', In (m', b') out' /\ n_key m' = k) -> (spc k == spc' k /\ tst k == tst' k)%Q) by auto.
    assert (S : (spc (n_key n) == spc' (n_key n) /\ tst (n_key n) == tst' (n_key n))%Q).
    { apply (G (n_key n)); [|exact U|exists n', a'; auto].
      apply (rank_ind out rank (fun k => untouched k -> (exists m' b', In (m', b') out' /\ n_key m' = k) -> (spc k == spc' k /\ tst k == tst' k)%Q) OO R) with (a := a); [|exact Hn].
      clear n a n' a' Hn Hn' En U. intros n a Hn IH U (n' & a' & Hn' & En).
      pose proof (parts_local n a n' a' Hn Hn' En U) as Ek.
      destruct C as [C1 _]. destruct (C1 n a Hn) as (m & b & Hm & Em & _ & O1 & O2); [apply U; left; apply rt_refl|].
      destruct (out_same out' OO' m b n' a' Hm Hn' ltac:(congruence)) as [-> ->].
      destruct (A n a Hn) as [E1 E2], (A' n' a' Hn') as [E1' E2'].
      assert (Et : n_ty n' = n_ty n) by exact (key_eq_ty n' n (oo_wf out' OO' n' a' Hn') (oo_wf out OO n a Hn) En).
      assert (V : forall p, In p (a_parts a) -> (spc (n_key p) == spc' (n_key p) /\ tst (n_key p) == tst' (n_key p))%Q).
      { intros p Hp. apply (IH p Hp).
        - intros j [Hj|Hj]; apply U.
          + left. eapply rt_trans; [apply rt_step; exists n, a, p; eauto|exact Hj].
          + right. eapply rt_trans; [|exact Hj]. apply rt_step. assert (I : In (n_key p) (map n_key (a_parts a'))) by (apply Ek; now apply in_map).
            apply in_map_iff in I as (p' & Ep & Hp'). exists n', a', p'. auto.
        - assert (I : In (n_key p) (map n_key (a_parts a'))) by (apply Ek; now apply in_map).
          apply in_map_iff in I as (p' & Ep & Hp'). destruct (oo_parts out' OO' n' a' p' Hn' Hp') as (_ & m2 & b2 & Hm2 & Em2). exists m2, b2. split; [auto|congruence]. }
      assert (Cmp : forall (f f' : str -> Q) own l l', NoDup (map n_key l) -> NoDup (map n_key l') -> (forall k, In k (map n_key l') <-> In k (map n_key l)) ->
        (forall p, In p l -> (f (n_key p) == f' (n_key p))%Q) -> (average own (map (fun p => f (n_key p)) l) == average own (map (fun p => f' (n_key p)) l'))%Q).
      { intros f f' own l l' N N' K F. pose proof (match_parts l l' N N' K) as P. apply average_ext.
        - rewrite !map_length. rewrite <- (map_length n_key l), <- (map_length n_key l'). now apply Permutation_length.
        - rewrite (qsum_eq (map (fun p => f (n_key p)) l) (map (fun p => f' (n_key p)) l)) by (now apply forall2_map_in).
          apply qsum_perm. replace (map (fun p => f' (n_key p)) l') with (map f' (map n_key l')) by apply map_map.
          replace (map (fun p => f' (n_key p)) l) with (map f' (map n_key l)) by apply map_map. now apply Permutation_map. }
      assert (S1 : (spc (n_key n) == spc' (n_key n))%Q).
      { rewrite <- En at 2. rewrite E1, E1', <- O1. apply Cmp.
        - apply nodup_counted. exact (oo_pnodup out OO n a Hn).
        - apply nodup_counted. exact (oo_pnodup out' OO' n' a' Hn').
        - now apply (counted_keys out out' OO OO').
        - intros p Hp. apply counted_in in Hp. now apply V. }
      split; auto. rewrite Et in E2'. destruct (ty_eqb (n_ty n) TST).
      - rewrite <- En at 2. rewrite E2, E2', En. exact S1.
      - rewrite <- En at 2. rewrite E2, E2', <- O2. apply Cmp.
        + exact (oo_pnodup out OO n a Hn).
        + exact (oo_pnodup out' OO' n' a' Hn').
        + exact Ek.
        + intros p Hp. now apply V. }
    rewrite (Z n a Hn), (Z' n' a' Hn'), En. destruct S as [S1 S2]. now rewrite (thousandths_comp _ _ S1), (thousandths_comp _ _ S2).
  Qed.
End Local.
