(** What is read is what the text says. *)
From Coq Require Import Lia ZifyBool.
From Verif Require Import Base BaseFacts Json SpecJson.
Open Scope nat_scope.

Lemma jws_iff c : is_jws c = true <-> In c [32; 10; 9; 13]%N.
Proof. unfold is_jws. cbn [In]. lia. Qed.
Lemma skip_split x : exists w, jspace w /\ x = w ++ skip x.
Proof.
  induction x as [|c x IH]; [exists []; split; [constructor|reflexivity]|]. unfold skip in *. cbn [drop_while]. destruct (is_jws c) eqn:E.
  - destruct IH as (w & W & Ex). exists (c :: w). split; [constructor; auto; now apply jws_iff|]. cbn [app]. now f_equal.
  - exists []. split; [constructor|reflexivity].
Qed.
Lemma skip_space w x : jspace w -> skip (w ++ x) = skip x.
Proof. induction 1 as [|c w C _ IH]; [reflexivity|]. unfold skip in *. cbn [app drop_while]. apply jws_iff in C. now rewrite C. Qed.
Lemma skip_stop c x : is_jws c = false -> skip (c :: x) = c :: x.
Proof. intros E. unfold skip. cbn [drop_while]. now rewrite E. Qed.
Lemma skip_nil w : jspace w -> skip w = [].
Proof. intros W. rewrite <- (app_nil_r w), skip_space by auto. reflexivity. Qed.
Lemma skip_head x c r : skip x = c :: r -> is_jws c = false.
Proof.
  unfold skip. induction x as [|d x IH]; [discriminate|]. cbn [drop_while]. destruct (is_jws d) eqn:E; auto. intros X. now injection X as -> _.
Qed.

(** ** Strings *)
Lemma hex_iff c n : hex_val c = Some n <-> jhex c n.
Proof.
  unfold hex_val, jhex. destruct (N.leb 48 c && N.leb c 57)%bool eqn:E1; [split; [intros X; injection X as <-; lia|intros X; f_equal; lia]|].
  destruct (N.leb 65 c && N.leb c 70)%bool eqn:E2; [split; [intros X; injection X as <-; lia|intros X; f_equal; lia]|].
  destruct (N.leb 97 c && N.leb c 102)%bool eqn:E3; [split; [intros X; injection X as <-; lia|intros X; f_equal; lia]|].
  split; [discriminate|lia].
Qed.
Lemma hex4_iff x n r : hex4 x = Some (n, r) <-> exists h, x = h ++ r /\ jhex4 h n.
Proof.
  split.
  - intros X. destruct x as [|a [|b [|c [|d x]]]]; try discriminate X. cbn [hex4] in X.
    destruct (hex_val a) as [i|] eqn:A; [|discriminate X]. destruct (hex_val b) as [j|] eqn:B; [|discriminate X]. destruct (hex_val c) as [k|] eqn:C; [|discriminate X]. destruct (hex_val d) as [l|] eqn:D; [|discriminate X].
    injection X as <- <-. exists [a; b; c; d]. split; auto. exists a, b, c, d, i, j, k, l. rewrite hex_iff in *. repeat split; auto. lia.
  - intros (h & -> & a & b & c & d & i & j & k & l & -> & A & B & C & D & ->). rewrite <- hex_iff in *. cbn [app hex4]. rewrite A, B, C, D. do 2 f_equal. lia.
Qed.
Lemma esc_sound x c r : r_esc x = Some (c, r) -> exists e, x = e ++ r /\ jchar (92%N :: e) c.
Proof.
  destruct x as [|a x]; [discriminate|]. unfold r_esc.
  destruct (N.eqb_spec a 34) as [->|_]; [intros X; injection X as <- <-; exists [34%N]; split; auto; apply jc_short; cbn; auto 12|].
  destruct (N.eqb_spec a 92) as [->|_]; [intros X; injection X as <- <-; exists [92%N]; split; auto; apply jc_short; cbn; auto 12|].
  destruct (N.eqb_spec a 47) as [->|_]; [intros X; injection X as <- <-; exists [47%N]; split; auto; apply jc_short; cbn; auto 12|].
  destruct (N.eqb_spec a 98) as [->|_]; [intros X; injection X as <- <-; exists [98%N]; split; auto; apply jc_short; cbn; auto 12|].
  destruct (N.eqb_spec a 102) as [->|_]; [intros X; injection X as <- <-; exists [102%N]; split; auto; apply jc_short; cbn; auto 12|].
  destruct (N.eqb_spec a 110) as [->|_]; [intros X; injection X as <- <-; exists [110%N]; split; auto; apply jc_short; cbn; auto 12|].
  destruct (N.eqb_spec a 114) as [->|_]; [intros X; injection X as <- <-; exists [114%N]; split; auto; apply jc_short; cbn; auto 12|].
  destruct (N.eqb_spec a 116) as [->|_]; [intros X; injection X as <- <-; exists [116%N]; split; auto; apply jc_short; cbn; auto 12|].
  destruct (N.eqb_spec a 117) as [->|_]; [|discriminate].
  destruct (hex4 x) as [[n r1]|] eqn:H; [|discriminate]. apply hex4_iff in H as (h & -> & H).
  destruct (N.leb 56320 n && N.leb n 57343)%bool eqn:E1; [discriminate|]. destruct (N.leb 55296 n && N.leb n 56319)%bool eqn:E2.
  - destruct r1 as [|b [|u r1]]; try discriminate. destruct (N.eqb b 92 && N.eqb u 117)%bool eqn:Eb; [|discriminate].
    destruct (hex4 r1) as [[m r2]|] eqn:H2; [|discriminate]. apply hex4_iff in H2 as (h2 & -> & H2).
    destruct (N.leb 56320 m && N.leb m 57343)%bool eqn:E3; [|discriminate]. intros X.
    assert (b = 92%N) by lia. assert (u = 117%N) by lia. subst b u.
    exists (117%N :: h ++ 92%N :: 117%N :: h2). split.
    + pose proof (f_equal (fun o => match o with Some (_, z) => z | None => [] end) X) as Y. cbn in Y. subst r. cbn [app]. rewrite <- app_assoc. reflexivity.
    + pose proof (f_equal (fun o => match o with Some (z, _) => z | None => 0%N end) X) as Y. cbv beta iota in Y. rewrite <- Y. apply jc_pair; auto; lia.
  - intros X. injection X as <- <-. exists (117%N :: h). split; auto. apply jc_hex; auto. lia.
Qed.
Lemma jhex4_len h n : jhex4 h n -> length h = 4.
Proof. intros (a & b & c & d & _ & _ & _ & _ & -> & _). reflexivity. Qed.
Lemma chars_sound f : forall x y r, r_chars f x = Some (y, r) -> exists a, x = a ++ 34%N :: r /\ jstring a y.
Proof.
  induction f as [|f IH]; intros x y r E; [discriminate E|]. destruct x as [|c x]; [discriminate E|]. cbn [r_chars] in E.
  destruct (N.eqb_spec c 34) as [->|N1]; [injection E as <- <-; exists []; split; [reflexivity|constructor]|]. destruct (N.ltb_spec c 32) as [L|L]; [discriminate E|].
  destruct (N.eqb_spec c 92) as [->|N2].
  - destruct (r_esc x) as [[d r1]|] eqn:Es; [|discriminate E]. destruct (r_chars f r1) as [[y1 r2]|] eqn:Ec; [|discriminate E]. injection E as <- <-.
    apply IH in Ec as (a & -> & J). apply esc_sound in Es as (e & -> & Je). exists ((92%N :: e) ++ a). split; [now rewrite <- app_assoc|]. now constructor.
  - destruct (r_chars f x) as [[y1 r2]|] eqn:Ec; [|discriminate E]. injection E as <- <-. apply IH in Ec as (a & -> & J). exists ([c] ++ a). split; [reflexivity|]. constructor; auto. now constructor.
Qed.
Lemma esc_complete e c r : jchar (92%N :: e) c -> r_esc (e ++ r) = Some (c, r).
Proof.
  intros J. inversion J as [c1 L N1 N2|e1 c1 I|h n H Nn|h1 n1 h2 n2 H1 H2 L1 L2]; subst; try congruence.
  - cbn [In] in I. repeat destruct I as [I|I]; try contradiction; injection I as <- <-; reflexivity.
  - cbn [app r_esc]. cbn -[hex4 N.leb]. replace (hex4 (h ++ r)) with (Some (c, r)) by (symmetry; apply hex4_iff; eauto).
    destruct (N.leb 56320 c && N.leb c 57343)%bool eqn:E1; [lia|]. destruct (N.leb 55296 c && N.leb c 56319)%bool eqn:E2; [lia|]. reflexivity.
  - cbn [app]. rewrite <- app_assoc. cbn -[hex4 N.leb N.mul N.add N.sub]. replace (hex4 (h1 ++ 92%N :: 117%N :: h2 ++ r)) with (Some (n1, 92%N :: 117%N :: h2 ++ r)) by (symmetry; apply hex4_iff; eauto).
    destruct (N.leb 56320 n1 && N.leb n1 57343)%bool eqn:E1; [lia|]. destruct (N.leb 55296 n1 && N.leb n1 56319)%bool eqn:E2; [|lia].
    cbn -[hex4 N.leb N.mul N.add N.sub]. replace (hex4 (h2 ++ r)) with (Some (n2, r)) by (symmetry; apply hex4_iff; eauto).
    destruct (N.leb 56320 n2 && N.leb n2 57343)%bool eqn:E3; [|lia]. reflexivity.
Qed.
Lemma jchar_nonempty x c : jchar x c -> x <> [].
Proof. intros J. inversion J; discriminate. Qed.
Lemma chars_complete a y : jstring a y -> forall f r, length a < f -> r_chars f (a ++ 34%N :: r) = Some (y, r).
Proof.
  induction 1 as [|x c y z J Js IH]; intros f r L.
  - destruct f as [|f]; [lia|]. reflexivity.
  - destruct f as [|f]; [lia|]. pose proof (jchar_nonempty x c J) as Nx. rewrite app_length in L. rewrite <- app_assoc.
    destruct x as [|h e]; [congruence|]. cbn [length] in L. pose proof J as J0. inversion J0; subst.
    + cbn [app r_chars]. destruct (N.eqb_spec c 34) as [E|_]; [congruence|]. destruct (N.ltb_spec c 32) as [E|_]; [lia|]. destruct (N.eqb_spec c 92) as [E|_]; [congruence|]. rewrite IH by lia. reflexivity.
    + cbn [app]. cbn [r_chars]. cbn [N.eqb N.ltb]. change (92 =? 34)%N with false. change (92 <? 32)%N with false. change (92 =? 92)%N with true. cbv iota.
      pose proof (esc_complete _ _ (y ++ 34%N :: r) J) as X. cbn [app] in X. rewrite X. rewrite IH by (cbn [length] in L; lia). reflexivity.
    + cbn [app]. cbn [r_chars]. change (92 =? 34)%N with false. change (92 <? 32)%N with false. change (92 =? 92)%N with true. cbv iota.
      pose proof (esc_complete _ _ (y ++ 34%N :: r) J) as X. cbn [app] in X. rewrite X. rewrite IH by (cbn [length] in L; lia). reflexivity.
    + cbn [app]. cbn [r_chars]. change (92 =? 34)%N with false. change (92 <? 32)%N with false. change (92 =? 92)%N with true. cbv iota.
      pose proof (esc_complete _ _ (y ++ 34%N :: r) J) as X. cbn [app] in X. rewrite X. rewrite IH by (cbn [length] in L; lia). reflexivity.
Qed.
Lemma str_iff x y r : r_str x = Some (y, r) <-> exists a, x = a ++ 34%N :: r /\ jstring a y.
Proof.
  split; [apply chars_sound|]. intros (a & -> & J). apply chars_complete; auto. rewrite app_length. cbn [length]. lia.
Qed.

(** ** Numbers *)
Definition stop (r : str) : Prop := match r with [] => True | c :: _ => is_jws c = true \/ c = 44%N \/ c = 93%N \/ c = 125%N end.
Lemma digits_spec x : exists d r, digits x = (d, r) /\ x = d ++ r /\ Forall (fun c => (48 <= c <= 57)%N) d /\ match r with [] => True | c :: _ => is_digit c = false end.
Proof.
  induction x as [|c x IH]; [exists [], []; repeat split; constructor|]. cbn [digits]. destruct (is_digit c) eqn:E.
  - destruct IH as (d & r & -> & -> & F & St). exists (c :: d), r. repeat split; auto. constructor; auto. unfold is_digit in E. lia.
  - exists [], (c :: x). repeat split; auto.
Qed.
Lemma digits_app d r : Forall (fun c => (48 <= c <= 57)%N) d -> match r with [] => True | c :: _ => is_digit c = false end -> digits (d ++ r) = (d, r).
Proof.
  induction 1 as [|c d C _ IH]; intros St.
  - cbn [app]. destruct r as [|c r]; [reflexivity|]. cbn [digits]. now rewrite St.
  - cbn [app digits]. replace (is_digit c) with true by (unfold is_digit; lia). now rewrite IH.
Qed.
Lemma stop_digit r : stop r -> match r with [] => True | c :: _ => is_digit c = false end.
Proof. destruct r as [|c r]; auto. cbn [stop]. unfold is_jws, is_digit. lia. Qed.
Lemma exp_sound x e r : r_exp x = Some (e, r) -> x = e ++ r /\ jexp e.
Proof.
  destruct x as [|c x]; [intros X; injection X as <- <-; split; [reflexivity|now left]|]. cbn [r_exp].
  destruct (N.eqb c 101 || N.eqb c 69)%bool eqn:E; [|intros X; injection X as <- <-; split; [reflexivity|now left]].
  set (q := match x with c' :: r' => if (N.eqb c' 43 || N.eqb c' 45)%N then ([c'], r') else ([], x) | [] => ([], []) end).
  assert (Q : exists sg r1, q = (sg, r1) /\ x = sg ++ r1 /\ (sg = [] \/ sg = [43%N] \/ sg = [45%N])).
  { unfold q. destruct x as [|b x]; [exists [], []; auto|]. destruct (N.eqb b 43 || N.eqb b 45)%bool eqn:Eb; [|exists [], (b :: x); auto].
    exists [b], x. split; auto. split; auto. right. assert (b = 43%N \/ b = 45%N) as [->| ->] by lia; auto. }
  destruct Q as (sg & r1 & -> & -> & Sg). destruct (digits_spec r1) as (d & r2 & -> & -> & F & _). destruct d as [|d0 d]; [discriminate|]. intros X. injection X as <- <-.
  split; [cbn [app]; now rewrite <- app_assoc|]. right. exists c, sg, (d0 :: d). split; auto. split; [lia|]. split; auto. split; [discriminate|auto].
Qed.
Lemma exp_complete e r : jexp e -> stop r -> r_exp (e ++ r) = Some (e, r).
Proof.
  intros [->|(c & sg & d & -> & C & Sg & Nd & F)] St.
  - cbn [app]. destruct r as [|c r]; [reflexivity|]. cbn [r_exp]. replace (N.eqb c 101 || N.eqb c 69)%bool with false; [reflexivity|]. cbn [stop] in St. unfold is_jws in St. lia.
  - cbn [app r_exp]. replace (N.eqb c 101 || N.eqb c 69)%bool with true by lia. rewrite <- app_assoc.
    assert (Q : (match sg ++ d ++ r with c' :: r' => if (N.eqb c' 43 || N.eqb c' 45)%N then ([c'], r') else ([], sg ++ d ++ r) | [] => ([], []) end) = (sg, d ++ r)).
    { destruct Sg as [->|[->| ->]]; [|reflexivity|reflexivity]. destruct d as [|d0 d]; [congruence|]. cbn [app]. inversion F; subst. replace (N.eqb d0 43 || N.eqb d0 45)%bool with false by lia. reflexivity. }
    rewrite Q. rewrite digits_app; auto; [|now apply stop_digit]. destruct d as [|d0 d]; [congruence|]. reflexivity.
Qed.
Lemma frac_sound x f r : r_frac x = Some (f, r) -> exists a b, f = a ++ b /\ x = a ++ b ++ r /\ jfrac a /\ jexp b.
Proof.
  destruct x as [|c x]; [intros X; injection X as <- <-; exists [], []; repeat split; now left|]. cbn [r_frac]. destruct (N.eqb_spec c 46) as [->|N].
  - destruct (digits_spec x) as (d & r1 & -> & -> & F & _). destruct d as [|d0 d]; [discriminate|]. destruct (r_exp r1) as [[e r2]|] eqn:E; [|discriminate]. intros X. injection X as <- <-.
    apply exp_sound in E as [-> J]. exists (46%N :: d0 :: d), e. repeat split; auto. right. exists (d0 :: d). split; auto. split; [discriminate|auto].
  - intros X. apply exp_sound in X as [X J]. exists [], f. repeat split; auto. now left.
Qed.
Lemma frac_complete a b r : jfrac a -> jexp b -> stop r -> r_frac (a ++ b ++ r) = Some (a ++ b, r).
Proof.
  intros [->|(d & -> & Nd & F)] B St.
  - cbn [app]. destruct b as [|c b].
    + cbn [app]. destruct r as [|c r]; [reflexivity|]. pose proof (exp_complete [] (c :: r) (or_introl eq_refl) St) as X. cbn [app] in X. cbn [r_frac]. destruct (N.eqb_spec c 46) as [->|_]; auto. exfalso. cbn [stop] in St. unfold is_jws in St. lia.
    + pose proof (exp_complete (c :: b) r B St) as X. cbn [app] in *. cbn [r_frac]. destruct (N.eqb_spec c 46) as [->|_]; auto. exfalso. destruct B as [B|(e & sg & d & B & C & _)]; [discriminate B|]. injection B as B _. lia.
  - cbn [app r_frac]. change (46 =? 46)%N with true. cbv iota. rewrite digits_app; auto.
    + destruct d as [|d0 d]; [congruence|]. rewrite exp_complete by auto. reflexivity.
    + destruct b as [|c b]; [now apply stop_digit|]. cbn [app]. destruct B as [B|(e & sg & q & B & C & _)]; [discriminate B|]. injection B as -> _. unfold is_digit. lia.
Qed.
Lemma int_sound x y r : r_int x = Some (y, r) -> exists i f e, y = i ++ f ++ e /\ x = y ++ r /\ jdigits i /\ (forall q, i = 48%N :: q -> q = []) /\ jfrac f /\ jexp e.
Proof.
  unfold r_int. destruct (digits_spec x) as (d & r1 & -> & -> & F & _). destruct d as [|c d]; [discriminate|]. destruct (N.eqb c 48 && match d with [] => false | _ => true end)%bool eqn:E; [discriminate|].
  destruct (r_frac r1) as [[f r2]|] eqn:Ef; [|discriminate]. intros X. injection X as <- <-. apply frac_sound in Ef as (a & b & -> & -> & A & B). exists (c :: d), a, b. repeat split; auto; [cbn [app]; f_equal; now rewrite <- !app_assoc|discriminate|].
  intros q Q. injection Q as -> <-. destruct d; auto. discriminate E.
Qed.
Lemma int_complete i f e r : jdigits i -> (forall q, i = 48%N :: q -> q = []) -> jfrac f -> jexp e -> stop r -> r_int ((i ++ f ++ e) ++ r) = Some (i ++ f ++ e, r).
Proof.
  intros [Ni F] Z Jf Je St. rewrite <- !app_assoc. unfold r_int. rewrite digits_app; auto.
  - destruct i as [|c i]; [congruence|]. replace (N.eqb c 48 && match i with [] => false | _ => true end)%bool with false; [rewrite frac_complete by auto; reflexivity|].
    symmetry. destruct (N.eqb_spec c 48) as [->|_]; auto. rewrite (Z i eq_refl). reflexivity.
  - destruct f as [|c f].
    + cbn [app]. destruct e as [|c e]; [now apply stop_digit|]. cbn [app]. destruct Je as [B|(q & sg & d & B & C & _)]; [discriminate B|]. injection B as -> _. unfold is_digit. lia.
    + cbn [app]. destruct Jf as [B|(d & B & _)]; [discriminate B|]. now injection B as -> _.
Qed.
Lemma num_sound x y r : r_num x = Some (y, r) -> x = y ++ r /\ jnumber y.
Proof.
  destruct x as [|c x]; [discriminate|]. cbn [r_num]. destruct (N.eqb_spec c 45) as [->|N].
  - destruct (r_int x) as [[y1 r1]|] eqn:E; [|discriminate]. intros X. injection X as <- <-. apply int_sound in E as (i & f & e & -> & -> & I & Z & F & Je). split; auto. exists [45%N], i, f, e. repeat split; auto; apply I.
  - intros E. apply int_sound in E as (i & f & e & -> & Ex & I & Z & F & Je). split; auto. exists [], i, f, e. repeat split; auto; apply I.
Qed.
Lemma num_complete y r : jnumber y -> stop r -> r_num (y ++ r) = Some (y, r).
Proof.
  intros (m & i & f & e & -> & [->| ->] & I & Z & F & Je) St.
  - cbn [app]. pose proof (int_complete i f e r I Z F Je St) as X. destruct i as [|c i]; [now destruct I as [I _]|]. cbn [app] in *. cbn [r_num]. destruct (N.eqb_spec c 45) as [->|_]; auto. destruct I as [_ I]. inversion I; subst. lia.
  - cbn [app r_num]. change (45 =? 45)%N with true. cbv iota. now rewrite (int_complete i f e r I Z F Je St).
Qed.
Lemma num_head y : jnumber y -> exists c q, y = c :: q /\ (c = 45%N \/ 48 <= c <= 57)%N.
Proof.
  intros (m & i & f & e & -> & [->| ->] & [Ni I] & _).
  - destruct i as [|c i]; [congruence|]. inversion I; subst. cbn [app]. eexists _, _. split; [reflexivity|auto].
  - cbn [app]. eexists _, _. split; [reflexivity|auto].
Qed.

(** ** Values *)
Lemma space_app a b : jspace a -> jspace b -> jspace (a ++ b).
Proof. intros A B. apply Forall_app. now split. Qed.
Lemma starts_split x p : starts_with x p = true -> x = p ++ skipn (length p) x.
Proof.
  revert x. induction p as [|c p IH]; intros x E; [reflexivity|]. destruct x as [|d x]; [discriminate E|]. cbn [starts_with] in E. apply Bool.andb_true_iff in E as [E1 E2]. apply N.eqb_eq in E1 as ->. cbn [length skipn app]. f_equal. now apply IH.
Qed.

Section Sound.
  Variables (rd : str -> jval * option str) (d : nat).
  Hypothesis Rd : forall x v r, rd x = (v, Some r) -> exists w y, x = w ++ y ++ r /\ jspace w /\ json d y v.
  Lemma items_sound f : forall x v r, r_items rd f x = (v, Some r) -> exists y l, v = JArr l true /\ x = y ++ 93%N :: r /\ jitems d y l.
  Proof.
    induction f as [|f IH]; intros x v r E; [discriminate E|]. cbn [r_items] in E. destruct (rd x) as [u [r1|]] eqn:R; [|discriminate E]. apply Rd in R as (w & y & -> & W & J).
    destruct (skip_split r1) as (w' & W' & Er). destruct (skip r1) as [|c r2]; [discriminate E|]. destruct (N.eqb_spec c c_comma) as [->|_].
    - destruct (r_items rd f r2) as [v2 o] eqn:R2. destruct v2 as [| | | |l b| |]; try discriminate E. injection E as <- ->. apply IH in R2 as (y2 & l2 & E2 & -> & J2). injection E2 as -> ->.
      exists (w ++ y ++ w' ++ 44%N :: y2), (u :: l2). split; auto. split; [|now constructor]. rewrite Er. now rewrite <- !app_assoc.
    - destruct (N.eqb_spec c c_rbr) as [->|_]; [|discriminate E]. injection E as <- <-. exists (w ++ y ++ w'), [u]. split; auto. split; [|now constructor]. rewrite Er. now rewrite <- !app_assoc.
  Qed.
  Lemma fields_sound f : forall x v r, r_fields rd f x = (v, Some r) -> exists y l, v = JObj l true /\ x = y ++ 125%N :: r /\ jfields d y l.
  Proof.
    induction f as [|f IH]; intros x v r E; [discriminate E|]. cbn [r_fields] in E. destruct (skip_split x) as (w & W & Ex). destruct (skip x) as [|c0 x1]; [discriminate E|]. destruct (N.eqb_spec c0 c_quote) as [->|_]; [|discriminate E].
    destruct (r_str x1) as [[k r0]|] eqn:Es; [|discriminate E]. apply str_iff in Es as (a & -> & Ja).
    destruct (skip_split r0) as (w1 & W1 & Er0). destruct (skip r0) as [|c1 r1]; [discriminate E|]. destruct (N.eqb_spec c1 c_colon) as [->|_]; [|discriminate E].
    destruct (rd r1) as [u [r2|]] eqn:R; [|discriminate E]. apply Rd in R as (w2 & y & -> & W2 & J). destruct (skip_split r2) as (w3 & W3 & Er2). destruct (skip r2) as [|c r3]; [discriminate E|]. destruct (N.eqb_spec c c_comma) as [->|_].
    - destruct (r_fields rd f r3) as [v2 o] eqn:R2. destruct v2 as [| | | | |l b|]; try discriminate E. injection E as <- ->. apply IH in R2 as (y2 & l2 & E2 & -> & J2). injection E2 as -> ->.
      exists (w ++ (34%N :: a ++ [34%N]) ++ w1 ++ 58%N :: w2 ++ y ++ w3 ++ 44%N :: y2), ((k, u) :: l2). split; auto. split; [|now constructor]. rewrite Ex, Er0, Er2. repeat (cbn [app]; rewrite <- ?app_assoc). reflexivity.
    - destruct (N.eqb_spec c c_rcur) as [->|_]; [|discriminate E]. injection E as <- <-. exists (w ++ (34%N :: a ++ [34%N]) ++ w1 ++ 58%N :: w2 ++ y ++ w3), [(k, u)]. split; auto. split; [|now constructor]. rewrite Ex, Er0, Er2. repeat (cbn [app]; rewrite <- ?app_assoc). reflexivity.
  Qed.
End Sound.

Lemma val_sound d : forall x v r, r_val (S d) x = (v, Some r) -> exists w y, x = w ++ y ++ r /\ jspace w /\ json d y v.
Proof.
  induction d as [d IH] using lt_wf_ind. intros x v r E. destruct (skip_split x) as (w & W & Ex). cbn [r_val] in E. destruct (skip x) as [|c q]; [discriminate E|]. subst x. exists w. cut (exists y, c :: q = y ++ r /\ json d y v); [intros (y & -> & J); eauto|]. clear w W.
  destruct (N.eqb_spec c c_quote) as [->|N1].
  { destruct (r_str q) as [[y r1]|] eqn:Es; [|discriminate E]. injection E as <- <-. apply str_iff in Es as (a & -> & J). exists (34%N :: a ++ [34%N]). split; [cbn [app]; now rewrite <- app_assoc|now constructor]. }
  destruct (N.eqb_spec c c_lbr) as [->|N2].
  { destruct d as [|d]; [discriminate E|]. destruct (skip_split q) as (w & W & Eq). destruct (skip q) as [|e q']; [discriminate E|]. destruct (N.eqb_spec e c_rbr) as [->|_].
    - injection E as <- <-. exists (91%N :: w ++ [93%N]). split; [subst q; cbn [app]; now rewrite <- app_assoc|now constructor].
    - eapply items_sound in E as (y & l & -> & -> & J); [|apply (IH d); lia]. exists (91%N :: y ++ [93%N]). split; [cbn [app]; now rewrite <- app_assoc|now constructor]. }
  destruct (N.eqb_spec c c_lcur) as [->|N3].
  { destruct d as [|d]; [discriminate E|]. destruct (skip_split q) as (w & W & Eq). destruct (skip q) as [|e q']; [discriminate E|]. destruct (N.eqb_spec e c_rcur) as [->|_].
    - injection E as <- <-. exists (123%N :: w ++ [125%N]). split; [subst q; cbn [app]; now rewrite <- app_assoc|now constructor].
    - eapply fields_sound in E as (y & l & -> & -> & J); [|apply (IH d); lia]. exists (123%N :: y ++ [125%N]). split; [cbn [app]; now rewrite <- app_assoc|now constructor]. }
  destruct (starts_with (c :: q) (s "null")) eqn:E1; [injection E as <- <-; exists (s "null"); split; [exact (starts_split _ _ E1)|constructor]|].
  destruct (starts_with (c :: q) (s "true")) eqn:E2; [injection E as <- <-; exists (s "true"); split; [exact (starts_split _ _ E2)|constructor]|].
  destruct (starts_with (c :: q) (s "false")) eqn:E3; [injection E as <- <-; exists (s "false"); split; [exact (starts_split _ _ E3)|constructor]|].
  destruct (r_num (c :: q)) as [[y r1]|] eqn:En; [|discriminate E]. injection E as <- <-. apply num_sound in En as [En J]. exists y. split; auto. now constructor.
Qed.

Lemma json_head d x v : json d x v -> exists c q, x = c :: q /\ is_jws c = false /\ c <> 93%N /\ c <> 125%N.
Proof.
  intros J. inversion J; subst; try (eexists _, _; split; [reflexivity|repeat split; discriminate]).
  destruct (num_head x H) as (c & q & -> & C). exists c, q. split; auto. unfold is_jws. lia.
Qed.
Lemma items_head d x l z : jitems d x l -> exists c q, skip (x ++ z) = c :: q /\ c <> 93%N.
Proof.
  intros J. inversion J; subst.
  - rewrite <- app_assoc, skip_space by auto. destruct (json_head _ _ _ H0) as (c & q & -> & C & N1 & N2). rewrite <- app_assoc. cbn [app]. rewrite skip_stop by auto. eauto.
  - rewrite <- app_assoc, skip_space by auto. destruct (json_head _ _ _ H0) as (c & q & -> & C & N1 & N2). rewrite <- app_assoc. cbn [app]. rewrite skip_stop by auto. eauto.
Qed.
Lemma fields_head d x l z : jfields d x l -> exists q, skip (x ++ z) = 34%N :: q.
Proof.
  intros J. inversion J; subst; rewrite <- app_assoc, skip_space by auto; cbn [app]; rewrite skip_stop by reflexivity; eauto.
Qed.
Lemma stop_space w c r : jspace w -> stop (c :: r) -> stop (w ++ c :: r).
Proof. intros W St. destruct W as [|a w A W]; auto. cbn [app stop]. left. now apply jws_iff. Qed.
Lemma skip_end w c r : jspace w -> is_jws c = false -> skip (w ++ c :: r) = c :: r.
Proof. intros W C. rewrite skip_space by auto. now apply skip_stop. Qed.

Lemma read_lit d lit v r : is_jws (hd 0%N lit) = false -> r_val (S d) (lit ++ r) = (v, Some r) -> forall w, jspace w -> r_val (S d) (w ++ lit ++ r) = (v, Some r).
Proof. intros C E w W. rewrite <- E. cbn [r_val]. now rewrite skip_space. Qed.
Lemma val_space d w x : jspace w -> r_val (S d) (w ++ x) = r_val (S d) x.
Proof. intros W. cbn [r_val]. now rewrite skip_space. Qed.

Lemma complete3 :
  (forall d x v, json d x v -> forall r, stop r -> r_val (S d) (x ++ r) = (v, Some r)) /\
  (forall d x l, jitems d x l -> forall f r, length x < f -> r_items (r_val (S d)) f (x ++ 93%N :: r) = (JArr l true, Some r)) /\
  (forall d x l, jfields d x l -> forall f r, length x < f -> r_fields (r_val (S d)) f (x ++ 125%N :: r) = (JObj l true, Some r)).
Proof.
  apply json_ind3.
  - intros d r _. destruct d, r; reflexivity.
  - intros d r _. destruct d, r; reflexivity.
  - intros d r _. destruct d, r; reflexivity.
  - intros d x J r St. pose proof (num_complete x r J St) as X. destruct (num_head x J) as (c & q & -> & C). cbn [app] in *. cbn [r_val]. rewrite skip_stop by (unfold is_jws; lia).
    destruct (N.eqb_spec c c_quote) as [E|_]; [unfold c_quote in E; lia|]. destruct (N.eqb_spec c c_lbr) as [E|_]; [unfold c_lbr in E; lia|]. destruct (N.eqb_spec c c_lcur) as [E|_]; [unfold c_lcur in E; lia|].
    replace (starts_with (c :: q ++ r) (s "null")) with false; [|symmetry; apply Bool.andb_false_iff; left; apply N.eqb_neq; intros <-; destruct C as [C|[_ C]]; [discriminate C|now apply C]].
    replace (starts_with (c :: q ++ r) (s "true")) with false; [|symmetry; apply Bool.andb_false_iff; left; apply N.eqb_neq; intros <-; destruct C as [C|[_ C]]; [discriminate C|now apply C]].
    replace (starts_with (c :: q ++ r) (s "false")) with false; [|symmetry; apply Bool.andb_false_iff; left; apply N.eqb_neq; intros <-; destruct C as [C|[_ C]]; [discriminate C|now apply C]].
    now rewrite X.
  - intros d x y J r St. cbn [app r_val]. rewrite skip_stop by reflexivity. change (34 =? c_quote)%N with true. cbv iota. rewrite <- app_assoc.
    replace (r_str (x ++ [34%N] ++ r)) with (Some (y, r)); [reflexivity|]. symmetry. apply str_iff. exists x. auto.
  - intros d w W r St. cbn [app]. cbn [r_val]. rewrite skip_stop by reflexivity. change (91 =? c_quote)%N with false. change (91 =? c_lbr)%N with true. cbv iota. rewrite <- app_assoc. cbn [app]. rewrite skip_end by auto. reflexivity.
  - intros d x l J IH r St. cbn [app]. remember (S d) as d1 eqn:Ed. cbn [r_val]. rewrite skip_stop by reflexivity. change (91 =? c_quote)%N with false. change (91 =? c_lbr)%N with true. cbv iota. rewrite <- app_assoc. cbn [app]. subst d1. 
    destruct (items_head d x l (93%N :: r) J) as (c & q & -> & N). destruct (N.eqb_spec c c_rbr) as [E|_]; [now destruct (N E)|]. apply IH. rewrite app_length. cbn [length]. lia.
  - intros d w W r St. cbn [app]. cbn [r_val]. rewrite skip_stop by reflexivity. change (123 =? c_quote)%N with false. change (123 =? c_lbr)%N with false. change (123 =? c_lcur)%N with true. cbv iota. rewrite <- app_assoc. cbn [app]. rewrite skip_end by auto. reflexivity.
  - intros d x l J IH r St. cbn [app]. remember (S d) as d1 eqn:Ed. cbn [r_val]. rewrite skip_stop by reflexivity. change (123 =? c_quote)%N with false. change (123 =? c_lbr)%N with false. change (123 =? c_lcur)%N with true. cbv iota. rewrite <- app_assoc. cbn [app]. subst d1.
    destruct (fields_head d x l (125%N :: r) J) as (q & ->). change (34 =? c_rcur)%N with false. cbv iota. apply IH. rewrite app_length. cbn [length]. lia.
  - intros d w x w' v W J IH W' f r L. destruct f as [|f]; [lia|]. cbn [r_items]. rewrite <- !app_assoc. rewrite val_space by auto. rewrite IH by (apply stop_space; cbn; auto). rewrite skip_end by auto. reflexivity.
  - intros d w x w' v y l W J IH W' J2 IH2 f r L. destruct f as [|f]; [lia|]. cbn [r_items]. rewrite <- !app_assoc. rewrite val_space by auto. rewrite IH by (apply stop_space; cbn; auto). cbn [app]. rewrite skip_end by auto. change (44 =? c_comma)%N with true. cbv iota.
    rewrite IH2; [reflexivity|]. rewrite !app_length in L. cbn [length] in L. lia.
  - intros d w a k w1 w2 x w3 v W Ja W1 W2 J IH W3 f r L. destruct f as [|f]; [lia|]. cbn [r_fields]. rewrite <- app_assoc. rewrite skip_space by auto. cbn [app]. rewrite skip_stop by reflexivity. change (34 =? c_quote)%N with true. cbv iota. repeat (cbn [app]; rewrite <- ?app_assoc).
    match goal with |- context [r_str ?z] => replace (r_str z) with (Some (k, w1 ++ 58%N :: w2 ++ x ++ w3 ++ 125%N :: r)) by (symmetry; apply str_iff; exists a; auto) end.
    rewrite skip_end by auto. change (58 =? c_colon)%N with true. cbv iota. rewrite val_space by auto. rewrite IH by (apply stop_space; cbn; auto). rewrite skip_end by auto. reflexivity.
  - intros d w a k w1 w2 x w3 v y l W Ja W1 W2 J IH W3 J2 IH2 f r L. destruct f as [|f]; [lia|]. cbn [r_fields]. rewrite <- app_assoc. rewrite skip_space by auto. cbn [app]. rewrite skip_stop by reflexivity. change (34 =? c_quote)%N with true. cbv iota. repeat (cbn [app]; rewrite <- ?app_assoc).
    match goal with |- context [r_str ?z] => replace (r_str z) with (Some (k, w1 ++ 58%N :: w2 ++ x ++ w3 ++ 44%N :: y ++ 125%N :: r)) by (symmetry; apply str_iff; exists a; auto) end.
    rewrite skip_end by auto. change (58 =? c_colon)%N with true. cbv iota. rewrite val_space by auto. rewrite IH by (apply stop_space; cbn; auto). rewrite skip_end by auto. change (44 =? c_comma)%N with true. cbv iota.
    rewrite IH2; [reflexivity|]. repeat (rewrite app_length in L || cbn [length app] in L). lia.
Qed.
(** A text is read as a value exactly if it says so. *)
Theorem doc_iff x v : r_doc x = (v, true) <-> jdoc x v.
Proof.
  unfold r_doc, jdoc. change max_depth with (S 127). split.
  - destruct (r_val (S 127) x) as [u [r|]] eqn:E; [|discriminate]. intros X. destruct (skip_split r) as (w' & W' & Er). destruct (skip r) as [|c q] eqn:Sr; [|discriminate X]. injection X as <-. rewrite app_nil_r in Er. subst r.
    apply val_sound in E as (w & y & -> & W & J). exists w, y, w'. auto.
  - intros (w & y & w' & -> & W & W' & J). rewrite val_space by auto. assert (St : stop w') by (destruct W' as [|c w' C _]; [exact I|left; now apply jws_iff]).
    rewrite (proj1 complete3 127 y v J w' St). now rewrite skip_nil.
Qed.
Lemma doc_fun x v v' : jdoc x v -> jdoc x v' -> v = v'.
Proof. rewrite <- !doc_iff. congruence. Qed.

(** ** What is written says what it was written from *)
Lemma hex_digit_ok n : (n < 16)%N -> jhex (hex_digit n) n.
Proof. intros L. unfold hex_digit, jhex. destruct (N.ltb_spec n 10); lia. Qed.
Lemma esc_jchar c : jchar (esc c) c.
Proof.
  unfold esc.
  destruct (N.eqb_spec c 34) as [->|N1]; [apply jc_short; cbn; auto|]. destruct (N.eqb_spec c 92) as [->|N2]; [apply jc_short; cbn; auto|].
  destruct (N.eqb_spec c 8) as [->|_]; [apply jc_short; cbn; auto 12|]. destruct (N.eqb_spec c 9) as [->|_]; [apply jc_short; cbn; auto 12|]. destruct (N.eqb_spec c 10) as [->|_]; [apply jc_short; cbn; auto 12|].
  destruct (N.eqb_spec c 12) as [->|_]; [apply jc_short; cbn; auto 12|]. destruct (N.eqb_spec c 13) as [->|_]; [apply jc_short; cbn; auto 12|].
  destruct (N.ltb_spec c 32) as [L|L]; [|now constructor]. change (s "\u00" ++ [hex_digit (c / 16); hex_digit (c mod 16)]) with (92%N :: 117%N :: [48%N; 48%N; hex_digit (c / 16); hex_digit (c mod 16)]).
  apply jc_hex; [|lia]. exists 48%N, 48%N, (hex_digit (c / 16)), (hex_digit (c mod 16)), 0%N, 0%N, (c / 16)%N, (c mod 16)%N. split; auto. split; [unfold jhex; lia|]. split; [unfold jhex; lia|].
  split; [apply hex_digit_ok, N.div_lt_upper_bound; lia|]. split; [apply hex_digit_ok, N.mod_lt; lia|]. pose proof (N.div_mod c 16). lia.
Qed.
Lemma w_str_json x : jstring (flat_map esc x) x.
Proof. induction x as [|c x IH]; [constructor|]. cbn [flat_map]. constructor; auto. apply esc_jchar. Qed.
Lemma jspace_nil : jspace []. Proof. constructor. Qed.

Section Join.
  Variables (d : nat) (w w' w2 : str).
  Hypothesis W : jspace w.
  Hypothesis W' : jspace w'.
  Hypothesis W2 : jspace w2.
  Lemma items_join (txt : jval -> str) l : l <> [] -> (forall v, In v l -> json d (txt v) v) -> jitems d (join [c_comma] (map (fun v => w ++ txt v) l) ++ w') l.
  Proof.
    induction l as [|v l IH]; [congruence|]. intros _ A. destruct l as [|v2 l].
    - cbn [map join]. rewrite <- app_assoc. constructor; auto. apply A. now left.
    - assert (J : jitems d (join [c_comma] (map (fun v => w ++ txt v) (v2 :: l)) ++ w') (v2 :: l)) by (apply IH; [discriminate|]; intros u Hu; apply A; now right).
      pose proof (ji_more d w (txt v) [] v _ _ W (A v (or_introl eq_refl)) jspace_nil J) as X. cbn [map join] in *. repeat (cbn [app] in X; rewrite <- ?app_assoc in X). repeat (cbn [app]; rewrite <- ?app_assoc). exact X.
  Qed.
  Lemma fields_join (txt : jval -> str) l : l <> [] -> (forall k v, In (k, v) l -> json d (txt v) v) -> jfields d (join [c_comma] (map (fun e => w ++ w_str (fst e) ++ c_colon :: w2 ++ txt (snd e)) l) ++ w') l.
  Proof.
    induction l as [|[k v] l IH]; [congruence|]. intros _ A. destruct l as [|e2 l].
    - cbn [map join fst snd]. unfold w_str. repeat (cbn [app]; rewrite <- ?app_assoc).
      pose proof (jf_one d w (flat_map esc k) k [] w2 (txt v) w' v W (w_str_json k) jspace_nil W2 (A k v (or_introl eq_refl)) W') as X. repeat (cbn [app] in X; rewrite <- ?app_assoc in X). exact X.
    - assert (J : jfields d (join [c_comma] (map (fun e => w ++ w_str (fst e) ++ c_colon :: w2 ++ txt (snd e)) (e2 :: l)) ++ w') (e2 :: l)).
      { apply IH; [discriminate|]. intros a b H. apply (A a). now right. }
      pose proof (jf_more d w (flat_map esc k) k [] w2 (txt v) [] v _ _ W (w_str_json k) jspace_nil W2 (A k v (or_introl eq_refl)) jspace_nil J) as X.
      cbn [map join fst snd] in *. unfold w_str in *. repeat (cbn [app] in X; rewrite <- ?app_assoc in X). repeat (cbn [app]; rewrite <- ?app_assoc). exact X.
  Qed.
End Join.

Section Ind.
  Variable P : jval -> Prop.
  Hypothesis P1 : P JNull.
  Hypothesis P2 : forall b, P (JBool b).
  Hypothesis P3 : forall x, P (JNum x).
  Hypothesis P4 : forall x, P (JStr x).
  Hypothesis P5 : forall l b, (forall v, In v l -> P v) -> P (JArr l b).
  Hypothesis P6 : forall l b, (forall k v, In (k, v) l -> P v) -> P (JObj l b).
  Hypothesis P7 : P JBad.
  Fixpoint jval_ind' (v : jval) : P v.
  Proof.
    destruct v as [|b|x|x|l b|l b|]; [exact P1|apply P2|apply P3|apply P4| | |exact P7].
    - apply P5. induction l as [|a l IH]; [intros v []|]. intros v [<-|H]; [apply jval_ind'|now apply IH].
    - apply P6. induction l as [|[k a] l IH]; [intros k v []|]. intros k' v [E|H]; [injection E as _ <-; apply jval_ind'|now apply (IH k')].
  Defined.
End Ind.

Lemma max_le l n : fold_right Nat.max 0 l <= n -> forall x, In x l -> x <= n.
Proof. induction l as [|y l IH]; [intros _ x []|]. cbn [fold_right]. intros L x [<-|H]; [lia|apply IH; auto; lia]. Qed.
Lemma indent_space k : jspace (indent k).
Proof. unfold indent. constructor; [cbn; auto|]. apply Forall_forall. intros c Hc. apply repeat_spec in Hc as ->. now left. Qed.
Lemma w_val_json v : whole v -> forall d, depth v <= d -> json d (w_val v) v.
Proof.
  induction v as [|b|x|x|l b IH|l b IH|] using jval_ind'; intros Wv d L; inversion Wv; subst; try (constructor; auto; fail).
  - destruct b; constructor.
  - cbn [w_val]. unfold w_str. change (c_quote :: ?a ++ [c_quote]) with (34%N :: a ++ [34%N]). constructor. apply w_str_json.
  - cbn [depth] in L. destruct d as [|d]; [lia|]. cbn [w_val]. destruct l as [|a l]; [apply (js_arr0 d []); constructor|].
    change (c_lbr :: ?a ++ [c_rbr]) with (91%N :: a ++ [93%N]). constructor. pose proof (items_join d [] [] jspace_nil jspace_nil w_val (a :: l)) as X. rewrite app_nil_r in X. apply X; [discriminate|].
    intros v Hv. apply IH; auto. apply (max_le (map depth (a :: l))); [lia|]. now apply in_map.
  - cbn [depth] in L. destruct d as [|d]; [lia|]. cbn [w_val]. destruct l as [|a l]; [apply (js_obj0 d []); constructor|].
    change (c_lcur :: ?a ++ [c_rcur]) with (123%N :: a ++ [125%N]). constructor. pose proof (fields_join d [] [] [] jspace_nil jspace_nil jspace_nil w_val (a :: l)) as X. rewrite app_nil_r in X. apply X; [discriminate|].
    intros k v Hv. apply (IH k); eauto. apply (max_le (map (fun e => depth (snd e)) (a :: l))); [lia|]. apply in_map_iff. now exists (k, v).
Qed.
Lemma w_pretty_json v : whole v -> forall d k, depth v <= d -> json d (w_pretty k v) v.
Proof.
  induction v as [|b|x|x|l b IH|l b IH|] using jval_ind'; intros Wv d k L; try (apply w_val_json; auto; fail).
  - inversion Wv; subst. cbn [depth] in L. destruct d as [|d]; [lia|]. destruct l as [|a l]; [apply (js_arr0 d []); constructor|].
    change (w_pretty k (JArr (a :: l) true)) with (91%N :: join [c_comma] (map (fun e => indent (S k) ++ w_pretty (S k) e) (a :: l)) ++ indent k ++ [93%N]). rewrite app_assoc. constructor.
    apply items_join; try apply indent_space; [discriminate|]. intros v Hv. apply IH; auto. apply (max_le (map depth (a :: l))); [lia|]. now apply in_map.
  - inversion Wv; subst. cbn [depth] in L. destruct d as [|d]; [lia|]. destruct l as [|a l]; [apply (js_obj0 d []); constructor|].
    change (w_pretty k (JObj (a :: l) true)) with (123%N :: join [c_comma] (map (fun e => indent (S k) ++ w_str (fst e) ++ c_colon :: [c_sp] ++ w_pretty (S k) (snd e)) (a :: l)) ++ indent k ++ [125%N]). rewrite app_assoc. constructor.
    apply fields_join; try apply indent_space; [constructor; [cbn; auto|constructor]|discriminate|]. intros q v Hv. apply (IH q); eauto. apply (max_le (map (fun e => depth (snd e)) (a :: l))); [lia|]. apply in_map_iff. now exists (q, v).
Qed.
Theorem read_written v : whole v -> depth v <= 127 -> r_doc (w_val v) = (v, true) /\ r_doc (w_pretty 0 v) = (v, true).
Proof.
  intros Wv L. split; apply doc_iff; [exists [], (w_val v), []|exists [], (w_pretty 0 v), []]; rewrite app_nil_r; repeat split; try constructor; [now apply w_val_json|now apply w_pretty_json].
Qed.
