(** A JSON artifact file stops its reader only for a name spelled with a long s. *)
From Coq Require Import Lia.
From Verif Require Import Base BaseFacts Name SpecName NameFacts Expand SpecExpand ExpandFacts RawNames Artifact Stored Json SpecJson JsonFacts JsonArt SpecJsonArt JsonArtFacts.
Open Scope nat_scope.

(** The strings in a value. *)
Inductive jsaid : jval -> str -> Prop :=
| sd_str x : jsaid (JStr x) x
| sd_arr l b v z : In v l -> jsaid v z -> jsaid (JArr l b) z
| sd_key l b k v : In (k, v) l -> jsaid (JObj l b) k
| sd_val l b k v z : In (k, v) l -> jsaid v z -> jsaid (JObj l b) z.

Lemma quoted_app p x z : quoted x z -> quoted (p ++ x) z.
Proof. intros (a & y & b & -> & J). exists (p ++ a), y, b. split; auto. now rewrite <- app_assoc. Qed.
Lemma quoted_skip x z : quoted (skip x) z -> quoted x z.
Proof. intros Q. destruct (skip_split x) as (w & _ & E). rewrite E. now apply quoted_app. Qed.
Lemma quoted_cons c x z : quoted x z -> quoted (c :: x) z.
Proof. intros Q. exact (quoted_app [c] x z Q). Qed.
Lemma quoted_str x y r : r_str x = Some (y, r) -> quoted (34%N :: x) y /\ exists p, x = p ++ r.
Proof. intros E. apply str_iff in E as (a & -> & J). split; [exists [], a, r; auto|]. exists (a ++ [34%N]). now rewrite <- app_assoc. Qed.
Lemma skip_tail x c r : skip x = c :: r -> exists p, x = p ++ r.
Proof. intros E. destruct (skip_split x) as (w & _ & X). rewrite E in X. exists (w ++ [c]). now rewrite <- app_assoc. Qed.

Ltac nosaid S := inversion S; subst; try match goal with H : In _ [] |- _ => destruct H end.
Section Loops.
  Variable rd : str -> jval * option str.
  Hypothesis Q : forall x v r z, rd x = (v, r) -> jsaid v z -> quoted x z.
  Hypothesis T : forall x v r, rd x = (v, Some r) -> exists p, x = p ++ r.
  Lemma items_said f : forall x v r z, r_items rd f x = (v, r) -> jsaid v z -> quoted x z.
  Proof.
    induction f as [|f IH]; intros x v r z; cbn [r_items]; [intros E S; injection E as <- _; nosaid S|].
    assert (One : forall u b o, rd x = (u, o) -> jsaid (JArr [u] b) z -> quoted x z).
    { intros u b o E S. inversion S as [|? ? w ? I J| |]; subst. destruct I as [<-|[]]. eapply Q; eauto. }
    destruct (rd x) as [u [r1|]] eqn:E1; [|intros E S; injection E as <- _; eapply One; eauto].
    destruct (skip r1) as [|c r2] eqn:Es; [intros E S; injection E as <- _; eapply One; eauto|].
    destruct (N.eqb c c_comma).
    - destruct (r_items rd f r2) as [w r3] eqn:E2.
      destruct w as [| | | |l b|l b|]; intros E S; injection E as <- _; try (inversion S; fail).
      inversion S as [|? ? w ? I J| |]; subst. destruct I as [<-|I]; [eapply Q; eauto|].
      assert (Y : quoted r2 z) by (eapply IH; [exact E2|]; econstructor; eauto).
      destruct (T _ _ _ E1) as (p & ->). destruct (skip_tail _ _ _ Es) as (p' & ->). apply quoted_app, quoted_app, Y.
    - destruct (N.eqb c c_rbr); intros E S; injection E as <- _; eapply One; eauto.
  Qed.
  Lemma fields_said f : forall x v r z, r_fields rd f x = (v, r) -> jsaid v z -> quoted x z.
  Proof.
    assert (Nil : forall b z, ~ jsaid (JObj [] b) z) by (intros b z S; nosaid S).
    assert (Nb : forall z, ~ jsaid JBad z) by (intros z S; inversion S).
    induction f as [|f IH]; intros x v r z; cbn [r_fields]; [intros E S; injection E as <- _; now apply Nil in S|].
    destruct (skip x) as [|c r0] eqn:E0; [intros E S; injection E as <- _; now apply Nil in S|].
    destruct (N.eqb c c_quote) eqn:Ec; [|intros E S; injection E as <- _; now apply Nil in S]. apply N.eqb_eq in Ec as ->.
    destruct (r_str r0) as [[k r1]|] eqn:E1; [|intros E S; injection E as <- _; now apply Nil in S].
    apply quoted_str in E1 as [Qk [p1 ->]]. assert (Qk' : quoted x k) by (apply quoted_skip; now rewrite E0).
    assert (X0 : exists p, x = p ++ r1) by (destruct (skip_tail _ _ _ E0) as (p & ->); exists (p ++ p1); now rewrite <- app_assoc).
    clear E0 Qk. destruct X0 as (p0 & ->).
    assert (One : forall u b, (jsaid u z -> quoted r1 z) -> jsaid (JObj [(k, u)] b) z -> quoted (p0 ++ r1) z).
    { intros u b Hu S. inversion S as [| |? ? ? w I|? ? ? w ? I J]; subst; destruct I as [I|[]]; injection I as E1 E2; subst; auto. apply quoted_app; auto. }
    destruct (skip r1) as [|c1 r2] eqn:Es; [intros E S; injection E as <- _; eapply One; [|exact S]; intros Y; now apply Nb in Y|].
    destruct (N.eqb c1 c_colon); [|intros E S; injection E as <- _; eapply One; [|exact S]; intros Y; now apply Nb in Y].
    destruct (skip_tail _ _ _ Es) as (p2 & E2). destruct (rd r2) as [u o] eqn:Er.
    assert (Qu : jsaid u z -> quoted r1 z) by (intros Y; rewrite E2; apply quoted_app; eapply Q; eauto).
    destruct o as [r3|]; [|intros E S; injection E as <- _; eapply One; eauto].
    destruct (skip r3) as [|c2 r4] eqn:E3; [intros E S; injection E as <- _; eapply One; eauto|].
    destruct (N.eqb c2 c_comma).
    - destruct (r_fields rd f r4) as [w r5] eqn:E4.
      destruct w as [| | | |l b|l b|]; intros E S; injection E as <- _; try (now apply Nb in S).
      destruct (T _ _ _ Er) as (p3 & E5). destruct (skip_tail _ _ _ E3) as (p4 & E6).
      assert (Y : jsaid (JObj l b) z -> quoted r1 z) by (intros Y; rewrite E2, E5, E6; apply quoted_app, quoted_app, quoted_app; eapply IH; eauto).
      inversion S as [| |? ? ? w I|? ? ? w ? I J]; subst; (destruct I as [I|I]; [injection I as E1 E7; subst; auto; apply quoted_app; auto|]); apply quoted_app, Y; [eapply sd_key; eauto|eapply sd_val; eauto].
    - destruct (N.eqb c2 c_rcur); intros E S; injection E as <- _; eapply One; eauto.
  Qed.
End Loops.
Lemma val_tail d x v r : r_val d x = (v, Some r) -> exists p, x = p ++ r.
Proof. destruct d as [|d]; [discriminate|]. intros E. apply val_sound in E as (w & y & -> & _). exists (w ++ y). now rewrite <- app_assoc. Qed.
Lemma val_said d : forall x v r z, r_val d x = (v, r) -> jsaid v z -> quoted x z.
Proof.
  assert (Nb : forall z, ~ jsaid JBad z) by (intros z S; inversion S).
  assert (Na : forall b z, ~ jsaid (JArr [] b) z) by (intros b z S; nosaid S).
  assert (No : forall b z, ~ jsaid (JObj [] b) z) by (intros b z S; nosaid S).
  induction d as [|d IH]; intros x v r z; cbn [r_val]; [intros E S; injection E as <- _; now apply Nb in S|].
  intros E S. apply quoted_skip. revert E. destruct (skip x) as [|c q]; [intros E; injection E as <- _; now apply Nb in S|].
  destruct (N.eqb c c_quote) eqn:Ec.
  { apply N.eqb_eq in Ec as ->. destruct (r_str q) as [[y q']|] eqn:Eq; intros E; injection E as <- _; [|now apply Nb in S]. inversion S; subst. now apply quoted_str in Eq as [Eq _]. }
  destruct (N.eqb c c_lbr).
  { destruct d as [|d]; [intros E; injection E as <- _; now apply Nb in S|]. destruct (skip q) as [|e q'] eqn:Es; [intros E; injection E as <- _; now apply Na in S|].
    destruct (N.eqb e c_rbr); [intros E; injection E as <- _; now apply Na in S|]. intros E. apply quoted_cons. eapply items_said; [| |exact E|exact S]; [exact IH|apply val_tail]. }
  destruct (N.eqb c c_lcur).
  { destruct d as [|d]; [intros E; injection E as <- _; now apply Nb in S|]. destruct (skip q) as [|e q'] eqn:Es; [intros E; injection E as <- _; now apply No in S|].
    destruct (N.eqb e c_rcur); [intros E; injection E as <- _; now apply No in S|]. intros E. apply quoted_cons. eapply fields_said; [| |exact E|exact S]; [exact IH|apply val_tail]. }
  repeat (match goal with |- context [if ?b then _ else _] => destruct b end; [intros E; injection E as <- _; inversion S|]).
  destruct (r_num (c :: q)) as [[y q']|]; intros E; injection E as <- _; inversion S.
Qed.

Lemma expand_panic z : expand_names z = Panic -> longs_list z.
Proof.
  unfold expand_names. destruct (parse_collapsed z) as [l| |] eqn:E; cbn [res_bind]; [|discriminate|now apply parse_collapsed_no_panic in E].
  destruct (res_map name_from_str l) as [ns| |] eqn:Er; cbn [res_bind]; try discriminate. intros _.
  apply parse_collapsed_ok in E. right. exists (nb z), l.
  assert (X : exists n, In n l /\ longs_name n).
  { clear E. revert Er. induction l as [|n l IH]; cbn [res_map]; [discriminate|]. destruct (name_from_str n) eqn:En; cbn [res_bind]; try discriminate.
    - destruct (res_map name_from_str l); cbn [res_bind]; try discriminate. intros _. destruct (IH eq_refl) as (m & I & L). exists m. split; auto. now right.
    - intros _. exists n. split; [now left|]. now apply name_panic. }
  destruct X as (n & I & L). exists n. split; [reflexivity|auto].
Qed.
Lemma bind_panic {A B} (r : res A) (f : A -> res B) : res_bind r f = Panic -> r = Panic \/ exists a, r = Ok a /\ f a = Panic.
Proof. destruct r; cbn; eauto; discriminate. Qed.
Lemma opt_panic v : opt_de v <> Panic.
Proof. now destruct v. Qed.
Lemma text_panic v : text_de v <> Panic.
Proof. intros E. unfold text_de in E. apply bind_panic in E as [E|(a & _ & E)]; [now apply opt_panic in E|discriminate E]. Qed.
Lemma seq_panic l : forall out ok, seq_de out l ok = Panic -> exists v z, In v l /\ jsaid v z /\ longs_list z.
Proof.
  induction l as [|v l IH]; intros out ok; cbn [seq_de]; [destruct ok; discriminate|]. destruct v; try discriminate. intros E. apply bind_panic in E as [E|(a & _ & E)].
  - exists (JStr x), x. split; [now left|]. split; [constructor|now apply expand_panic].
  - destruct (IH _ _ E) as (v & z & I & S & L). exists v, z. split; [now right|auto].
Qed.
Lemma partof_panic v : partof_de v = Panic -> exists z, jsaid v z /\ longs_list z.
Proof.
  destruct v; cbn [partof_de]; try discriminate; intros E; apply bind_panic in E as [E|(a & _ & E)]; try discriminate E.
  - exists x. split; [constructor|now apply expand_panic].
  - destruct (seq_panic _ _ _ E) as (v & z & I & S & L). exists z. split; [econstructor; eauto|auto].
Qed.
Lemma fields_panic l : forall d p t ok, fields_de d p t l ok = Panic -> exists k v z, In (k, v) l /\ jsaid v z /\ longs_list z.
Proof.
  induction l as [|[k v] l IH]; intros d p t ok; cbn [fields_de]; [destruct ok; discriminate|].
  assert (N : forall d p t, fields_de d p t l ok = Panic -> exists k0 v0 z, In (k0, v0) ((k, v) :: l) /\ jsaid v0 z /\ longs_list z).
  { intros d' p' t' E. destruct (IH _ _ _ _ E) as (k0 & v0 & z & I & X). exists k0, v0, z. split; [now right|auto]. }
  destruct (str_eqb k (s "done")); [destruct d; [discriminate|]; intros E; apply bind_panic in E as [E|(a & _ & E)]; [now apply opt_panic in E|eauto]|].
  destruct (str_eqb k (s "partof")).
  { destruct p; [discriminate|]. intros E; apply bind_panic in E as [E|(a & _ & E)]; [|eauto]. destruct (partof_panic _ E) as (z & S & L). exists k, v, z. split; [now left|auto]. }
  destruct (str_eqb k (s "text")); [destruct t; [discriminate|]; intros E; apply bind_panic in E as [E|(a & _ & E)]; [now apply text_panic in E|eauto]|]. apply N.
Qed.
Lemma raw_panic v : raw_de v = Panic -> exists z, jsaid v z /\ longs_list z.
Proof.
  destruct v as [| | | |l ok|l ok|]; cbn [raw_de]; try discriminate.
  - destruct l as [|a l]; [discriminate|]. intros E. apply bind_panic in E as [E|(d & _ & E)]; [now apply opt_panic in E|].
    destruct l as [|b l]; [discriminate|]. apply bind_panic in E as [E|(p & _ & E)].
    + destruct (partof_panic _ E) as (z & S & L). exists z. split; auto. eapply sd_arr; [|exact S]. right. now left.
    + destruct l as [|c l]; [discriminate|]. apply bind_panic in E as [E|(t & _ & E)]; [now apply text_panic in E|]. destruct l; [destruct ok|]; discriminate E.
  - intros E. destruct (fields_panic _ _ _ _ _ E) as (k & v & z & I & S & L). exists z. split; auto. eapply sd_val; eauto.
Qed.
Lemma arts_panic l : forall out ok, arts_de out l ok = Panic -> forall b, exists z, jsaid (JObj l b) z /\ longs_list z.
Proof.
  induction l as [|[k v] l IH]; intros out ok; cbn [arts_de]; [destruct ok; discriminate|]. intros E b. apply bind_panic in E as [E|(n & _ & E)].
  - exists k. split; [eapply sd_key; now left|]. left. now apply name_panic.
  - apply bind_panic in E as [E|(r & _ & E)].
    + destruct (raw_panic _ E) as (z & S & L). exists z. split; auto. eapply sd_val; [now left|exact S].
    + destruct (IH _ _ E b) as (z & S & L). exists z. split; auto. inversion S; subst; [eapply sd_key; right; eauto|eapply sd_val; [right; eauto|auto]].
Qed.
Theorem parse_panic x : json_parse x = Panic -> exists z, quoted x z /\ longs_list z.
Proof.
  unfold json_parse, r_doc. destruct (r_val max_depth x) as [v o] eqn:E.
  assert (X : exists full, (match o with Some r => (v, match skip r with [] => true | _ => false end) | None => (v, false) end) = (v, full)) by (destruct o; eauto).
  destruct X as (full & ->). destruct v as [| | | | |l ok|]; try discriminate. intros P. apply bind_panic in P as [P|(a & _ & P)]; [|destruct full; discriminate P].
  destruct (arts_panic _ _ _ P ok) as (z & S & L). exists z. split; auto. eapply val_said; eauto.
Qed.
