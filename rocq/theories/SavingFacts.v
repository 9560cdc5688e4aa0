From Coq Require Import Lia Relation_Operators Wellfounded.
From Verif Require Import Base Saving.

Definition fails (l : list bool) : nat := length (filter (fun b => b) l).
(** Failures the workers still have to report. *)
Definition owed (x : saver) : nat := match x with SFree => 0 | SHas b => if b then 1 else 0 | SSend => 1 end.
Definition owed_all (ws : list saver) : nat := list_sum (map owed ws).

Lemma fails_app l m : fails (l ++ m) = fails l + fails m.
Proof. unfold fails. rewrite filter_app, app_length. reflexivity. Qed.
Lemma fails_le l : fails l <= length l.
Proof. unfold fails. induction l as [|b l IH]; cbn; [lia|]. destruct b; cbn; lia. Qed.
Lemma owed_app a x b : owed_all (a ++ x :: b) = owed_all a + owed x + owed_all b.
Proof. unfold owed_all. rewrite map_app, list_sum_app. change (list_sum (map owed (x :: b))) with (owed x + list_sum (map owed b)). lia. Qed.
Lemma owed_le ws : owed_all ws <= length ws.
Proof. unfold owed_all. induction ws as [|x ws IH]; [cbn; lia|].
  change (list_sum (map owed (x :: ws))) with (owed x + list_sum (map owed ws)). cbn [length]. destruct x as [|[]|]; cbn [owed]; lia. Qed.

Section Facts.
  Variables (c w : nat) (files : list bool).

  Record ginv (x : saving) : Prop := {
    gi_files : exists taken, files = taken ++ sg_queue x ++ sg_todo x /\
                             fails taken = sg_lints x + sg_got x + owed_all (sg_workers x);
    gi_queue : length (sg_queue x) <= c;
    gi_lints : sg_lints x <= c;
    gi_workers : length (sg_workers x) = w;
    gi_got : sg_todo x <> [] -> sg_got x = 0 }.

  Lemma ginv_start : ginv (g_start w files).
  Proof.
    split; cbn; try lia.
    - exists []. split; [reflexivity|]. unfold owed_all. clear. induction w as [|k IH]; cbn; [reflexivity|exact IH].
    - apply repeat_length.
  Qed.
  Ltac gs := cbn [sg_todo sg_queue sg_workers sg_lints sg_got] in *.
  Lemma ginv_step x y : ginv x -> gstep c x y -> ginv y.
  Proof.
    intros [(t & Hf & Ho) Hq Hl Hw Hg] St.
    destruct St; gs; rewrite ?owed_app in *; rewrite ?app_length in *; cbn [length owed] in *.
    - split; gs; auto; try lia.
      + exists t. rewrite <- !app_assoc. cbn [app]. rewrite Hf. auto.
      + rewrite ?app_length; cbn [length] in *; lia.
      + intros _. apply Hg. discriminate.
    - split; gs; auto; try lia.
      + exists (t ++ [j]). rewrite <- app_assoc. cbn [app]. rewrite owed_app, fails_app. split; [exact Hf|].
        unfold fails at 2. cbn [filter]. destruct j; cbn [length owed]; lia.
      + rewrite ?app_length; cbn [length] in *; lia.
    - split; gs; auto; try lia.
      + exists t. rewrite owed_app. cbn [owed]. split; [exact Hf|lia].
      + rewrite ?app_length; cbn [length] in *; lia.
    - split; gs; auto; try lia.
      + exists t. rewrite owed_app. cbn [owed]. split; [exact Hf|lia].
      + rewrite ?app_length; cbn [length] in *; lia.
    - split; gs; auto; try lia.
      + exists t. rewrite owed_app. cbn [owed]. split; [exact Hf|lia].
      + rewrite ?app_length; cbn [length] in *; lia.
    - split; gs; auto; try lia.
      + exists t. split; [exact Hf|lia].
      + congruence.
  Qed.
  Lemma ginv_steps x y : ginv x -> clos_refl_trans_1n _ (gstep c) x y -> ginv y.
  Proof. intros Hi Hs. induction Hs; eauto using ginv_step. Qed.
  Lemma ginv_runs x : g_runs c w files x -> ginv x.
  Proof. apply ginv_steps, ginv_start. Qed.

  (** After enough failures for the lints channel and all workers there are more files than the
      files channel holds. *)
  Definition clogs : Prop := exists a b, files = a ++ b /\ fails a = c + w /\ c < length b.

  (** With such files the main thread never gets to receive. *)
  Lemma clogged x : clogs -> g_runs c w files x -> sg_todo x <> [].
  Proof.
    intros (a & b & Ef & Fa & Lb) Hr.
    assert (G : forall x y, clos_refl_trans_1n _ (gstep c) x y -> ginv x ->
      (exists t, files = t ++ sg_queue x ++ sg_todo x /\ length t <= length a) ->
      (exists t, files = t ++ sg_queue y ++ sg_todo y /\ length t <= length a)).
    { clear x Hr. intros x y Hs. induction Hs as [x|x y z St _ IH]; intros Hi Ht; [exact Ht|].
      apply IH; [apply (ginv_step x); assumption|]. destruct Ht as (t & Ht & Lt). destruct St; gs.
      - exists t. rewrite <- app_assoc. auto.
      - exists (t ++ [j]). split; [rewrite <- app_assoc; exact Ht|]. rewrite app_length. cbn.
        destruct (Nat.eq_dec (length t) (length a)) as [E|E]; [exfalso|lia].
        assert (Et : t = a).
        { rewrite Ef in Ht. clear -Ht E. revert t E Ht. induction a as [|x a IH]; intros [|y t] E Ht; try discriminate; [reflexivity|].
          cbn in *. injection Ht as -> Ht. f_equal. apply IH; [lia|exact Ht]. }
        subst t. destruct Hi as [(t & Hf & Ho) Hq Hl Hw Hg]. gs.
        assert (t = a). { rewrite Hf in Ht. apply (f_equal (@rev _)) in Ht. rewrite !rev_app_distr in Ht. apply app_inv_head in Ht.
          rewrite <- (rev_involutive t), Ht. apply rev_involutive. }
        subst t. rewrite Fa in Ho.
        assert (Nu : u <> []). { intros ->. apply (f_equal (@length _)) in Hf. rewrite Ef in Hf. rewrite !app_length in Hf. cbn in *. lia. }
        rewrite (Hg Nu), owed_app in Ho. cbn [owed] in Ho. rewrite app_length in Hw. cbn in Hw.
        pose proof (owed_le a0). pose proof (owed_le b0). lia.
      - exists t. auto.
      - exists t. auto.
      - exists t. auto.
      - exists t. auto. }
    pose proof (ginv_runs _ Hr) as Hi. apply G in Hr; [|apply ginv_start|exists []; cbn; split; [reflexivity|lia]].
    destruct Hr as (t & Ht & Lt). destruct Hi as [_ Hq _ _ _]. intros E. rewrite E in Ht.
    rewrite Ef in Ht. apply (f_equal (@length _)) in Ht. rewrite !app_length in Ht. cbn in Ht. lia.
  Qed.

  Lemma bound_clogs : length files <= 2 * c + w -> ~ clogs.
  Proof.
    intros Hn (a & b & E & Fa & Lb). rewrite E, app_length in Hn. pose proof (fails_le a). lia.
  Qed.
  Hypothesis c_pos : 0 < c.
  Hypothesis w_pos : 0 < w.

  (** no worker can go on *)
  Lemma free_or_sends ws : Forall (fun s => s <> SFree) ws -> (forall a x b, ws = a ++ x :: b -> forall f, x <> SHas f) ->
    owed_all ws = length ws.
  Proof.
    intros Hf. induction Hf as [|x ws Hx Hf IH]; intros Hs; [reflexivity|].
    unfold owed_all in *. change (list_sum (map owed (x :: ws))) with (owed x + list_sum (map owed ws)). cbn [length]. rewrite IH.
    - destruct x as [|f|]; [congruence|exfalso; apply (Hs [] (SHas f) ws eq_refl f eq_refl)|reflexivity].
    - intros a y b E. apply (Hs (x :: a) y b). cbn. congruence.
  Qed.
  Lemma stuck_cases x : ginv x -> g_stuck c x -> g_finished x \/ clogs.
  Proof.
    intros [(t & Hf & Ho) Hq Hl Hw Hg] Hs. destruct x as [u q ws l n]. gs.
    assert (no_has : forall a x b, ws = a ++ x :: b -> forall f, x <> SHas f).
    { intros a x b -> f ->. destruct f; [apply (Hs _ (g_fail c u q a b l n))|apply (Hs _ (g_ok c u q a b l n))]. }
    assert (no_send : l < c -> forall a x b, ws = a ++ x :: b -> x <> SSend).
    { intros Hlc a x b -> ->. apply (Hs _ (g_lint c u q a b l n Hlc)). }
    destruct u as [|j u].
    - left. unfold g_finished. cbn. assert (l = 0). { destruct l; [reflexivity|]. exfalso. apply (Hs _ (g_recv c q ws l n)). }
      subst l. assert (free : Forall (fun s => s = SFree) ws).
      { apply Forall_forall. intros x Hx. apply in_split in Hx. destruct Hx as (a & b & E).
        destruct x as [|f|]; [reflexivity|exfalso; apply (no_has a _ b E f eq_refl)|exfalso; apply (no_send c_pos a _ b E eq_refl)]. }
      split; [reflexivity|]. split; [|auto]. destruct q as [|j q]; [reflexivity|exfalso].
      destruct ws as [|x ws]; [cbn in Hw; lia|]. inversion free; subst.
      apply (Hs _ (g_take c [] j q [] ws 0 n)).
    - right. rewrite Hg in Ho by discriminate. rewrite Nat.add_0_r in Ho.
      assert (Ec : length q = c).
      { destruct (Nat.lt_ge_cases (length q) c) as [X|X]; [exfalso; apply (Hs _ (g_feed c j u q ws l n X))|lia]. }
      destruct q as [|i q]; [cbn in Ec; lia|].
      assert (none : Forall (fun s => s <> SFree) ws).
      { apply Forall_forall. intros x Hx ->. apply in_split in Hx. destruct Hx as (a & b & ->).
        apply (Hs _ (g_take c (j :: u) i q a b l n)). }
      assert (Lc : l = c).
      { destruct (Nat.lt_ge_cases l c) as [X|X]; [|lia]. exfalso.
        destruct ws as [|x ws]; [cbn in Hw; lia|]. inversion none; subst.
        destruct x as [|f|]; [congruence|apply (no_has [] _ ws eq_refl f eq_refl)|apply (no_send X [] _ ws eq_refl eq_refl)]. }
      exists t, ((i :: q) ++ j :: u). split; [exact Hf|]. split.
      + rewrite Ho, Lc, free_or_sends by assumption. lia.
      + rewrite app_length. cbn in *. lia.
  Qed.

End Facts.

(** Every schedule ends. *)
Definition effort (x : saver) : nat := match x with SFree => 0 | SHas _ => 4 | SSend => 3 end.
Definition left (x : saving) : nat :=
  6 * length (sg_todo x) + 5 * length (sg_queue x) + list_sum (map effort (sg_workers x)) + sg_lints x.
Lemma left_step c x y : gstep c x y -> left y < left x.
Proof.
  intros St. destruct St; unfold left; cbn [sg_todo sg_queue sg_workers sg_lints length];
    rewrite ?app_length, ?map_app, ?list_sum_app; cbn [map list_sum fold_right length effort]; unfold list_sum; cbn [fold_right]; lia.
Qed.
Lemma terminates c x : Acc (fun y x => gstep c x y) x.
Proof.
  assert (G : forall k x, left x < k -> Acc (fun y x => gstep c x y) x).
  { intros k. induction k as [|k IH]; intros z Hz; [lia|]. constructor. intros y St. apply IH. apply left_step in St. lia. }
  apply (G (S (left x))). lia.
Qed.
Lemma clogs_all c w n : 2 * c + w < n -> clogs c w (repeat true n).
Proof.
  intros Hn. exists (repeat true (c + w)), (repeat true (n - (c + w))). rewrite <- repeat_app. split; [f_equal; lia|].
  assert (F : forall k, fails (repeat true k) = k). { unfold fails. induction k as [|k IH]; cbn; [reflexivity|congruence]. }
  rewrite F, repeat_length. split; [reflexivity|lia].
Qed.
