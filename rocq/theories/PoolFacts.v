(** The reader threads deliver what [taken] says, whatever the interleaving, and always end. *)
From Coq Require Import Lia ZifyBool Permutation Relation_Operators.
From Verif Require Import Base Lint Pool.

Section PoolFacts.
  Context {A : Type}.
  Variable cap : nat.
  Hypothesis cap_pos : 0 < cap.
  Notation item := (job A + lint)%type.

  Definition panics (t : list (job A)) : nat := length (filter jb_panic t).
  Definition jobs_of (l : list item) : list (job A) := flat_map (fun i => match i with inl j => [j] | inr _ => [] end) l.
  Definition lints_of (l : list item) : list lint := flat_map (fun i => match i with inl _ => [] | inr x => [x] end) l.

  Lemma panics_app a b : panics (a ++ b) = panics a + panics b.
  Proof. unfold panics. now rewrite filter_app, app_length. Qed.

  Lemma taken_app (t : list (job A)) : forall w r, taken w t = t -> taken w (t ++ r) = t ++ taken (w - panics t) r.
  Proof.
    induction t as [|j t IH]; intros w r E.
    - cbn. now rewrite Nat.sub_0_r.
    - destruct w as [|w]; [discriminate E|]. cbn [taken app] in E |- *. injection E as E. unfold panics. cbn [filter].
      destruct (jb_panic j) eqn:P; cbn [length]; rewrite IH by auto; unfold panics; reflexivity.
  Qed.
  Lemma taken_nil w : taken w ([] : list (job A)) = [].
  Proof. now destruct w. Qed.
  Lemma taken_snoc (t : list (job A)) w j : taken w t = t -> panics t < w -> taken w (t ++ [j]) = t ++ [j].
  Proof.
    intros E L. rewrite taken_app by auto. destruct (w - panics t) as [|k] eqn:Ek; [lia|]. cbn [taken]. destruct (jb_panic j); [destruct k|]; reflexivity.
  Qed.
  Lemma taken_zero (r : list (job A)) : taken 0 r = [].
  Proof. now destruct r. Qed.

  (** Workers that are dead or about to be. *)
  Definition doomed (x : worker A) : bool := match x with WDead => true | WBusy _ _ p => p | WIdle => false end.
  Definition rest_of (x : worker A) : list A := match x with WBusy r _ _ => r | _ => [] end.
  Definition rest_lints (x : worker A) : list lint := match x with WBusy _ m _ => m | _ => [] end.
  Definition n_doomed (ws : list (worker A)) : nat := length (filter doomed ws).

  Record inv (w : nat) (items : list item) (p : pool A) : Prop := {
    v_run : exists t done rest, items = done ++ rest /\
      (po_walk p = rest \/ po_walk p = [] /\ panics t = w /\ all_dead (po_workers p)) /\
      t ++ po_queue p = jobs_of done /\ taken w t = t /\
      length (po_workers p) = w /\ n_doomed (po_workers p) = panics t /\
      Permutation (po_out p ++ flat_map rest_of (po_workers p)) (flat_map jb_out t) /\
      Permutation (po_lints p ++ flat_map rest_lints (po_workers p)) (lints_of done ++ flat_map jb_lints t) }.

  Lemma n_doomed_mid (a b : list (worker A)) x : n_doomed (a ++ x :: b) = n_doomed a + (if doomed x then 1 else 0) + n_doomed b.
  Proof. unfold n_doomed. rewrite filter_app, app_length. cbn [filter]. destruct (doomed x); cbn [length]; lia. Qed.
  Lemma n_doomed_le ws : n_doomed ws <= length ws.
  Proof. unfold n_doomed. induction ws as [|x ws IH]; cbn [filter length]; [lia|]. destruct (doomed x); cbn [length]; lia. Qed.
  Lemma n_doomed_dead (ws : list (worker A)) : all_dead ws -> n_doomed ws = length ws.
  Proof. unfold n_doomed. induction 1 as [|x ws -> F IH]; cbn [filter doomed length]; lia. Qed.
  Lemma flat_mid {B} (f : worker A -> list B) a x b : flat_map f (a ++ x :: b) = flat_map f a ++ f x ++ flat_map f b.
  Proof. now rewrite flat_map_app. Qed.

  Lemma inv_start w items : inv w items (start w items).
  Proof.
    constructor. exists [], [], items. unfold start. cbn [po_walk po_queue po_workers po_out po_lints]. split; [reflexivity|]. split; [now left|].
    split; [reflexivity|]. split; [apply taken_nil|]. split; [apply repeat_length|].
    assert (R : n_doomed (repeat WIdle w) = 0 /\ flat_map rest_of (repeat WIdle w) = [] /\ flat_map rest_lints (repeat WIdle w) = []).
    { unfold n_doomed. clear. induction w as [|w (I1 & I2 & I3)]; cbn [repeat filter doomed flat_map rest_of rest_lints app length]; auto. }
    destruct R as (-> & -> & ->). repeat split; constructor.
  Qed.

  Lemma dead_mid (a b : list (worker A)) x : all_dead (a ++ x :: b) -> x = WDead.
  Proof. intros H. apply Forall_app in H as [_ H]. now inversion H. Qed.

  Lemma inv_step w items p p' : step cap p p' -> inv w items p -> inv w items p'.
  Proof.
    intros St [(t & done & rest & E & Wk & Q & T & L & D & O & Li)]. constructor.
    destruct St; cbn [po_walk po_queue po_workers po_out po_lints] in *.
    - destruct Wk as [<-|(X & _)]; [|discriminate X]. exists t, (done ++ [inl j]), u. rewrite <- app_assoc. split; auto. split; [now left|].
      unfold jobs_of, lints_of in *. rewrite !flat_map_app. cbn [flat_map app]. rewrite <- Q, <- app_assoc, app_nil_r. auto 10.
    - destruct Wk as [<-|(X & _)]; [|discriminate X]. exists t, (done ++ [inr x]), u. rewrite <- app_assoc. split; auto. split; [now left|].
      unfold jobs_of, lints_of in *. rewrite !flat_map_app. cbn [flat_map app]. rewrite app_nil_r.
      repeat (split; [assumption|]). rewrite <- !app_assoc. cbn [app].
      etransitivity; [apply Permutation_sym, Permutation_middle|]. etransitivity; [|apply Permutation_middle]. now constructor.
    - exists t, done, rest. split; auto. split; [|auto 10]. right. split; auto. split; [|auto].
      rewrite <- D, <- L. now apply n_doomed_dead.
    - exists (t ++ [j]), done, rest. split; auto. rewrite n_doomed_mid in *. cbn [doomed] in *.
      rewrite flat_mid in *. cbn [rest_of rest_lints app] in *. rewrite flat_mid in *. cbn [rest_of rest_lints app] in *.
      assert (Lt : panics t < w).
      { rewrite <- D, <- L, app_length. cbn [length]. pose proof (n_doomed_le a). pose proof (n_doomed_le b). lia. }
      split. { destruct Wk as [Wk|(X & Y & _)]; [now left|lia]. }
      split; [now rewrite <- app_assoc|]. split; [now apply taken_snoc|].
      split; [rewrite <- L, !app_length; reflexivity|].
      split. { rewrite panics_app, <- D. unfold panics. cbn [filter]. destruct (jb_panic j); cbn [length]; lia. }
      rewrite !flat_map_app. cbn [flat_map]. rewrite !app_nil_r. split.
      + etransitivity; [|apply Permutation_app_tail; exact O]. rewrite <- !app_assoc. apply Permutation_app_head, Permutation_app_head. apply Permutation_app_comm.
      + rewrite (app_assoc (lints_of done)). etransitivity; [|apply Permutation_app_tail; exact Li]. rewrite <- !app_assoc. apply Permutation_app_head, Permutation_app_head. apply Permutation_app_comm.
    - exists t, done, rest. split; auto. rewrite n_doomed_mid in *. cbn [doomed] in *. rewrite flat_mid in *. cbn [rest_of rest_lints app] in *. rewrite flat_mid in *. cbn [rest_of rest_lints app] in *.
      split. { destruct Wk as [Wk|(X & Y & Z)]; [now left|]. apply dead_mid in Z. discriminate Z. }
      split; auto. split; auto. split; [rewrite <- L, !app_length; reflexivity|]. split; auto. split; auto.
      etransitivity; [|exact O]. rewrite <- !app_assoc. cbn [app]. apply Permutation_app_head. apply Permutation_middle.
    - exists t, done, rest. split; auto. rewrite n_doomed_mid in *. cbn [doomed] in *. rewrite flat_mid in *. cbn [rest_of rest_lints app] in *. rewrite flat_mid in *. cbn [rest_of rest_lints app] in *.
      split. { destruct Wk as [Wk|(X & Y & Z)]; [now left|]. apply dead_mid in Z. discriminate Z. }
      split; auto. split; auto. split; [rewrite <- L, !app_length; reflexivity|]. split; auto. split; auto.
      etransitivity; [|exact Li]. rewrite <- !app_assoc. cbn [app]. apply Permutation_app_head. apply Permutation_middle.
    - exists t, done, rest. split; auto. rewrite n_doomed_mid in *. cbn [doomed] in *. rewrite flat_mid in *. cbn [rest_of rest_lints app] in *. rewrite flat_mid in *. cbn [rest_of rest_lints app] in *.
      split. { destruct Wk as [Wk|(X & Y & Z)]; [now left|]. apply dead_mid in Z. discriminate Z. }
      split; auto. split; auto. split; [rewrite <- L, !app_length; reflexivity|].
      assert (Ea : doomed (@after A p) = p /\ rest_of (@after A p) = [] /\ rest_lints (@after A p) = []) by (destruct p; auto).
      destruct Ea as (-> & -> & ->). auto.
  Qed.

  Lemma inv_reach w items p : clos_refl_trans_1n _ (step cap) (start w items) p -> inv w items p.
  Proof.
    assert (G : forall q, clos_refl_trans_1n _ (step cap) q p -> inv w items q -> inv w items p).
    { intros q R. induction R; auto. intros I. apply IHR. eapply inv_step; eauto. }
    intros R. apply (G _ R), inv_start.
  Qed.

  (** A pool that cannot move: no reader is busy, and there is nothing left to take or nobody to
      take it. *)
  Lemma dead_dec (ws : list (worker A)) : all_dead ws \/ exists a x b, ws = a ++ x :: b /\ x <> WDead.
  Proof.
    induction ws as [|x ws IH]; [left; constructor|]. destruct x as [| |].
    - right. exists [], WIdle, ws. split; [reflexivity|discriminate].
    - right. exists [], (WBusy rest ls panics0), ws. split; [reflexivity|discriminate].
    - destruct IH as [D|(a & x & b & -> & N)]; [left; now constructor|right]. exists (WDead :: a), x, b. auto.
  Qed.

  Lemma stuck_shape (p : pool A) : stuck cap p -> po_walk p = [] /\ (forall x, In x (po_workers p) -> x = WIdle \/ x = WDead) /\
    (all_dead (po_workers p) \/ po_queue p = []).
  Proof.
    intros S. destruct p as [u q ws o l]. cbn [po_walk po_queue po_workers].
    assert (B : forall x, In x ws -> x = WIdle \/ x = WDead).
    { intros x Hx. apply in_split in Hx as (a & b & ->). destruct x as [|r m pn|]; auto. exfalso.
      destruct r as [|y r]; [destruct m as [|y m]|]; eapply S; [apply s_finish|apply s_send_lint|apply s_send]. }
    assert (Q : all_dead ws \/ q = []).
    { destruct (dead_dec ws) as [D|(a & x & b & -> & N)]; auto. destruct q as [|j q]; auto. exfalso.
      destruct (B x) as [->| ->]; [apply in_or_app; right; now left| |contradiction]. eapply S. apply s_take. }
    split; auto. destruct u as [|[j|x] u]; auto; exfalso.
    - destruct (dead_dec ws) as [D|(a & x & b & Ew & N)]; [eapply S; now apply s_walk_panic|]. destruct Q as [D| ->].
      + subst ws. apply dead_mid in D. contradiction.
      + eapply S. apply s_feed; [cbn; lia|]. intros D. subst ws. apply dead_mid in D. contradiction.
    - eapply S. apply s_walk_lint.
  Qed.

  Theorem pool_delivers w items (p : pool A) : clos_refl_trans_1n _ (step cap) (start w items) p -> stuck cap p ->
    Permutation (po_out p) (flat_map jb_out (taken w (jobs_of items))) /\
    exists seen, (panics (jobs_of items) < w -> seen = items) /\ (exists unseen, items = seen ++ unseen) /\
      Permutation (po_lints p) (lints_of seen ++ flat_map jb_lints (taken w (jobs_of items))).
  Proof.
    intros R S. destruct (inv_reach w items p R) as [(t & done & rest & E & Wk & Q & T & L & D & O & Li)].
    destruct (stuck_shape p S) as (U & B & X).
    assert (Z : flat_map rest_of (po_workers p) = [] /\ flat_map rest_lints (po_workers p) = []).
    { clear -B. induction (po_workers p) as [|x ws IH]; auto. destruct IH as [I1 I2]; [intros y Hy; apply B; now right|].
      cbn [flat_map]. rewrite I1, I2. destruct (B x (or_introl eq_refl)) as [->| ->]; auto. }
    destruct Z as [Z1 Z2]. rewrite Z1, app_nil_r in O. rewrite Z2, app_nil_r in Li.
    assert (Tk : taken w (jobs_of items) = t).
    { rewrite E. unfold jobs_of. rewrite flat_map_app. fold (jobs_of done). rewrite <- Q, <- app_assoc, taken_app by auto.
      destruct X as [X|X].
      - rewrite <- D, (n_doomed_dead _ X), L, Nat.sub_diag, taken_zero. now rewrite app_nil_r.
      - destruct Wk as [Wk|(_ & Wp & _)].
        + rewrite U in Wk. rewrite X, <- Wk. cbn [app flat_map]. now rewrite taken_nil, app_nil_r.
        + rewrite Wp, Nat.sub_diag, taken_zero. now rewrite app_nil_r. }
    rewrite Tk. split; auto. exists done. split; [|split; eauto].
    intros Lt. destruct Wk as [Wk|(_ & Wp & _)].
    - rewrite U in Wk. now rewrite E, <- Wk, app_nil_r.
    - exfalso. assert (panics t <= panics (jobs_of items)); [|lia].
      rewrite E. unfold jobs_of. rewrite flat_map_app. fold (jobs_of done). rewrite <- Q, !panics_app. lia.
  Qed.

  (** Every step makes something smaller. *)
  Definition job_size (j : job A) : nat := 3 + length (jb_out j) + length (jb_lints j).
  Definition sum (l : list nat) : nat := fold_right Nat.add 0 l.
  Definition work_size (x : worker A) : nat := match x with WBusy r m _ => 1 + length r + length m | _ => 0 end.
  Definition size (p : pool A) : nat :=
    sum (map (fun i => match i with inl j => 1 + job_size j | inr _ => 1 end) (po_walk p)) +
    sum (map job_size (po_queue p)) + sum (map work_size (po_workers p)).
  Lemma sum_app a b : sum (a ++ b) = sum a + sum b.
  Proof. unfold sum. induction a as [|x a IH]; cbn [app fold_right]; lia. Qed.
  Lemma step_smaller p p' : step cap p p' -> size p' < size p.
  Proof.
    intros S. destruct S; unfold size; cbn [po_walk po_queue po_workers]; rewrite ?map_app, ?sum_app; cbn [map]; unfold sum at 1; cbn [fold_right];
      unfold sum; cbn [fold_right]; unfold work_size, job_size; cbn [length]; try lia.
    destruct p; cbn; lia.
  Qed.
  (** So every run ends: from each state the pool comes to rest, whatever steps are taken. *)
  Theorem pool_ends (p : pool A) : Acc (fun a b => step cap b a) p.
  Proof.
    remember (size p) as n. revert p Heqn. induction n as [n IH] using (well_founded_induction Wf_nat.lt_wf). intros p ->.
    constructor. intros q Hq. eapply IH; [|reflexivity]. now apply step_smaller.
  Qed.
End PoolFacts.
