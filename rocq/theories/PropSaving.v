(** C47: the threads of saving. *)
From Coq Require Import Lia Relation_Operators.
From Verif Require Import Base Saving SavingFacts.

(** ** C47 Saving cannot deadlock for small requests and can for large ones *)
(** Every schedule comes to an end. *)
Theorem C47_ends : forall c x, Acc (fun y x => gstep c x y) x.
Proof. exact terminates. Qed.
Print Assumptions C47_ends.

(** Up to [2c + w] files the end is that saving returns, with a lint for each failure. *)
Theorem C47_small : forall c w files x, 0 < c -> 0 < w -> length files <= 2 * c + w ->
  g_runs c w files x -> g_stuck c x -> g_finished x /\ sg_got x = length (filter (fun f => f) files).
Proof.
  intros c w files x Hc Hw Hn Hr Hs. pose proof (ginv_runs _ _ _ _ Hr) as Hi.
  destruct (stuck_cases _ _ _ Hc Hw _ Hi Hs) as [Hf|Hf]; [|exfalso; apply (bound_clogs _ _ _ Hn Hf)].
  split; [exact Hf|]. destruct Hi as [(t & Ef & Ho) _ _ _ _]. destruct Hf as (Eu & Eq & Fw & El).
  rewrite Eu, Eq in Ef. cbn [app] in Ef. rewrite app_nil_r in Ef. subst t.
  assert (owed_all (sg_workers x) = 0).
  { unfold owed_all. clear -Fw. induction Fw as [|y l E _ IH]; [reflexivity|]. subst y. cbn. exact IH. }
  unfold fails in Ho. lia.
Qed.
Print Assumptions C47_small.

(** Whether saving returns does not depend on the schedule: it blocks forever exactly if, after as
    many failing files as the lints channel and the workers can hold, more files follow than the
    files channel holds. *)
Theorem C47_exactly : forall c w files, 0 < c -> 0 < w ->
  let blocks := exists a b, files = a ++ b /\ length (filter (fun f => f) a) = c + w /\ c < length b in
  (blocks -> forall x, g_runs c w files x -> ~ g_finished x) /\
  (~ blocks -> forall x, g_runs c w files x -> g_stuck c x -> g_finished x).
Proof.
  intros c w files Hc Hw blocks. split.
  - intros Hb x Hr (E & _). exact (clogged c w files x Hb Hr E).
  - intros Hb x Hr Hs. destruct (stuck_cases _ _ _ Hc Hw _ (ginv_runs _ _ _ _ Hr) Hs) as [Hf|Hf]; [exact Hf|contradiction].
Qed.
Print Assumptions C47_exactly.

(** If no file can be written, more files than [2c + w] always block. *)
Theorem C47_large : forall c w n x, 2 * c + w < n -> g_runs c w (repeat true n) x -> ~ g_finished x.
Proof. intros c w n x Hn Hr (E & _). exact (clogged c w _ x (clogs_all _ _ _ Hn) Hr E). Qed.
Print Assumptions C47_large.

(** Four files and one worker on channels of one item: all threads blocked; three files are
    saved. *)
Example C47_example : (exists x, g_runs 1 1 (repeat true 4) x /\ g_stuck 1 x /\ ~ g_finished x) /\
  (exists x, g_runs 1 1 (repeat true 3) x /\ g_stuck 1 x /\ g_finished x).
Proof.
  split.
  - exists (mkSaving [true] [true] [SSend] 1 0). split; [|split].
    + unfold g_runs, g_start. cbn [repeat].
      eapply rt1n_trans; [apply g_feed; cbn; lia|]. cbn [app].
      eapply rt1n_trans; [apply (g_take 1 _ _ _ [] [])|]. cbn [app].
      eapply rt1n_trans; [apply (g_fail 1 _ _ [] [])|]. cbn [app].
      eapply rt1n_trans; [apply (g_lint 1 _ _ [] []); lia|]. cbn [app].
      eapply rt1n_trans; [apply g_feed; cbn; lia|]. cbn [app].
      eapply rt1n_trans; [apply (g_take 1 _ _ _ [] [])|]. cbn [app].
      eapply rt1n_trans; [apply (g_fail 1 _ _ [] [])|]. cbn [app].
      eapply rt1n_trans; [apply g_feed; cbn; lia|]. cbn [app]. constructor.
    + intros y St. inversion St; subst; cbn in *; try lia;
        match goal with H : ?a ++ _ :: ?b = [SSend] |- _ => destruct a as [|z [|z' a']]; cbn in H; inversion H; subst; try lia end.
    + intros (E & _). discriminate E.
  - exists (mkSaving [] [] [SFree] 0 3). split; [|split].
    + unfold g_runs, g_start. cbn [repeat].
      do 2 (eapply rt1n_trans; [apply g_feed; cbn; lia|]; cbn [app];
            eapply rt1n_trans; [apply (g_take 1 _ _ _ [] [])|]; cbn [app];
            eapply rt1n_trans; [apply (g_fail 1 _ _ [] [])|]; cbn [app];
            try (eapply rt1n_trans; [apply (g_lint 1 _ _ [] []); lia|]; cbn [app])).
      eapply rt1n_trans; [apply g_feed; cbn; lia|]. cbn [app].
      eapply rt1n_trans; [apply g_recv|].
      eapply rt1n_trans; [apply (g_lint 1 _ _ [] []); lia|]. cbn [app].
      eapply rt1n_trans; [apply (g_take 1 _ _ _ [] [])|]. cbn [app].
      eapply rt1n_trans; [apply (g_fail 1 _ _ [] [])|]. cbn [app].
      eapply rt1n_trans; [apply g_recv|].
      eapply rt1n_trans; [apply (g_lint 1 _ _ [] []); lia|]. cbn [app].
      eapply rt1n_trans; [apply g_recv|]. constructor.
    + intros y St. inversion St; subst; cbn in *; try lia;
        match goal with H : ?a ++ _ :: ?b = [SFree] |- _ => destruct a as [|z [|z' a']]; cbn in H; inversion H; subst; try lia end.
    + repeat split; try constructor; auto.
Qed.
