(** Rendering a text: the model meets the specification. *)
From Coq Require Import ZArith Lia.
From Verif Require Import Base BaseFacts Regex RegexFacts GreedyFacts Name SpecName NameFacts RefFacts SubFacts LineFacts Artifact Lint SpecLint LintFacts Ls Api Render SpecRender RenderFacts SpecExport.
Open Scope nat_scope.

(** ** Decimals *)
Lemma dec_value fuel : forall n, N.to_nat n < fuel -> fold_left (fun v c => v * 10 + (c - 48))%N (dec fuel n) 0%N = n.
Proof.
  induction fuel as [|k IH]; intros n L; [lia|]. cbn [dec]. rewrite fold_left_app. cbn [fold_left].
  assert (B : (n mod 10 < 10)%N) by (apply N.mod_lt; discriminate). pose proof (N.div_mod n 10 ltac:(discriminate)) as D.
  destruct (N.ltb_spec n 10) as [Ln|Ln].
  - cbn [fold_left]. rewrite N.mod_small in * by auto. lia.
  - rewrite IH.
    + set (d := (n / 10)%N) in *. set (m := (n mod 10)%N) in *. clearbody d m. lia.
    + set (d := (n / 10)%N) in *. set (m := (n mod 10)%N) in *. clearbody d m. lia.
Qed.
Lemma dec_digits fuel : forall n, Forall (fun c => (48 <= c <= 57)%N) (dec fuel n).
Proof.
  induction fuel as [|k IH]; intros n; [constructor|]. cbn [dec]. apply Forall_app. split; [destruct (N.ltb n 10); [constructor|apply IH]|]. constructor; [|constructor].
  assert (B : (n mod 10 < 10)%N) by (apply N.mod_lt; discriminate). set (m := (n mod 10)%N) in *. clearbody m. lia.
Qed.
Lemma dec_zero fuel : forall n q, N.to_nat n < fuel -> dec fuel n = 48%N :: q -> n = 0%N /\ q = [].
Proof.
  induction fuel as [|k IH]; intros n q L E; [lia|]. cbn [dec] in E. destruct (N.ltb_spec n 10) as [Ln|Ln].
  - cbn [app] in E. pose proof (f_equal (hd 0%N) E) as E1. pose proof (f_equal (@tl N) E) as E2. cbn [hd tl] in E1, E2. rewrite N.mod_small in E1 by auto. split; [lia|auto].
  - exfalso. pose proof (N.div_mod n 10 ltac:(discriminate)) as D. assert (B : (n mod 10 < 10)%N) by (apply N.mod_lt; discriminate).
    assert (L' : N.to_nat (n / 10) < k) by (set (d := (n / 10)%N) in *; set (m := (n mod 10)%N) in *; clearbody d m; lia).
    destruct (dec k (n / 10)%N) as [|c r] eqn:Ed.
    + pose proof (dec_value k _ L') as V. rewrite Ed in V. cbn [fold_left] in V. set (d := (n / 10)%N) in *. set (m := (n mod 10)%N) in *. clearbody d m. lia.
    + cbn [app] in E. injection E as -> _. destruct (IH _ _ L' Ed) as [Z _]. set (d := (n / 10)%N) in *. set (m := (n mod 10)%N) in *. clearbody d m. lia.
Qed.
Lemma nat_str_decimal n : decimal n (nat_str n).
Proof.
  unfold nat_str. split; [cbn [dec]; intros E; apply app_eq_nil in E as [_ E]; discriminate|]. split; [apply dec_digits|]. split; [apply dec_value; lia|].
  intros q E. apply dec_zero in E; [tauto|lia].
Qed.
Definition val (x : str) : N := fold_left (fun v c => v * 10 + (c - 48))%N x 0%N.
Lemma val_snoc x c : val (x ++ [c]) = (val x * 10 + (c - 48))%N.
Proof. unfold val. now rewrite fold_left_app. Qed.
Lemma decimal_unique x : forall y, Forall (fun c => (48 <= c <= 57)%N) x -> Forall (fun c => (48 <= c <= 57)%N) y ->
  (forall q, x = 48%N :: q -> q = []) -> (forall q, y = 48%N :: q -> q = []) -> x <> [] -> y <> [] -> val x = val y -> x = y.
Proof.
  assert (Z : forall x, Forall (fun c => (48 <= c <= 57)%N) x -> (forall q, x = 48%N :: q -> q = []) -> x <> [] -> val x = 0%N -> x = [48%N]).
  { clear. intros x. induction x as [|c x IH] using rev_ind; intros F Z N V; [congruence|]. rewrite val_snoc in V. apply Forall_app in F as [F Fc]. inversion Fc as [|? ? Bc _]; subst.
    assert (c = 48%N) as -> by lia. destruct x as [|d x]; [reflexivity|]. exfalso. assert (X : d :: x = [48%N]).
    { apply IH; auto; [|discriminate|lia]. intros q Eq. injection Eq as -> ->. specialize (Z (q ++ [48%N]) eq_refl). destruct q; discriminate Z. }
    injection X as -> ->. specialize (Z [48%N] eq_refl). discriminate Z. }
  induction x as [|c x IH] using rev_ind; intros y Fx Fy Zx Zy Nx Ny V; [congruence|].
  destruct y as [|e y _] using rev_ind; [congruence|]. clear Nx Ny. rewrite !val_snoc in V. apply Forall_app in Fx as [Fx Fc], Fy as [Fy Fe].
  inversion Fc as [|? ? Bc _]; inversion Fe as [|? ? Be _]; subst. assert (c = e /\ val x = val y) as [-> V'] by lia. f_equal.
  assert (Sx : x <> [] -> forall q, x = 48%N :: q -> False).
  { intros _ q ->. specialize (Zx (q ++ [e]) eq_refl). destruct q; discriminate Zx. }
  assert (Sy : y <> [] -> forall q, y = 48%N :: q -> False).
  { intros _ q ->. specialize (Zy (q ++ [e]) eq_refl). destruct q; discriminate Zy. }
  destruct x as [|d x], y as [|d' y]; auto.
  - exfalso. assert (X : d' :: y = [48%N]) by (apply Z; auto; [intros q Eq; exfalso; eapply Sy; eauto; discriminate|discriminate]). apply (Sy ltac:(discriminate) [] X).
  - exfalso. assert (X : d :: x = [48%N]) by (apply Z; auto; [intros q Eq; exfalso; eapply Sx; eauto; discriminate|discriminate]). apply (Sx ltac:(discriminate) [] X).
  - apply IH; auto; try discriminate; intros q Eq; exfalso; [eapply Sx|eapply Sy]; eauto; discriminate.
Qed.
Lemma decimal_iff n x : decimal n x <-> x = nat_str n.
Proof.
  split; [|intros ->; apply nat_str_decimal]. intros (N1 & F1 & V1 & Z1). destruct (nat_str_decimal n) as (N2 & F2 & V2 & Z2).
  apply decimal_unique; auto. unfold val. congruence.
Qed.
(** ** Colours *)
Lemma hex_shade spc tst : exists col, completed_hex spc tst = Ok col /\ forall c, shade spc tst c <-> c = col.
Proof.
  assert (B1 : exists i, spc_points spc = i /\ ((i = 3%nat /\ 1000 <= spc) \/ (i = 2%nat /\ 700 <= spc < 1000) \/ (i = 1%nat /\ 400 <= spc < 700) \/ (i = 0%nat /\ spc < 400))%Z).
  { unfold spc_points. destruct (Z.leb_spec 1000 spc); [exists 3; split; auto; lia|]. destruct (Z.leb_spec 700 spc); [exists 2; split; auto; lia|].
    destruct (Z.leb_spec 400 spc); [exists 1; split; auto; lia|]. exists 0; split; auto; lia. }
  assert (B2 : exists j, tst_points tst = j /\ ((j = 2%nat /\ 1000 <= tst) \/ (j = 1%nat /\ 500 <= tst < 1000) \/ (j = 0%nat /\ tst < 500))%Z).
  { unfold tst_points. destruct (Z.leb_spec 1000 tst); [exists 2; split; auto; lia|]. destruct (Z.leb_spec 500 tst); [exists 1; split; auto; lia|]. exists 0; split; auto; lia. }
  destruct B1 as (i & E1 & B1), B2 as (j & E2 & B2). unfold completed_hex. rewrite E1, E2.
  assert (U : forall c, shade spc tst c <-> nth_error [s "#FF4136"; s "#FF851B"; s "#FF851B"; s "#0074D9"; s "#0074D9"; s "#3DA03D"] (i + j) = Some c).
  { intros c. split; [|intros E; exists i, j; auto]. intros (i' & j' & B1' & B2' & E). assert (i' = i) as -> by lia. assert (j' = j) as -> by lia. exact E. }
  assert (Hi : i <= 3) by lia. assert (Hj : j <= 2) by lia. clear B1 B2 E1 E2.
  destruct i as [|[|[|[|i]]]]; [| | | |lia]; destruct j as [|[|[|j]]]; try lia; cbn [Nat.add];
    (eexists; split; [reflexivity|]; intros c; rewrite U; split; [intros E; apply some_inj in E; symmetry; exact E|intros ->; reflexivity]).
Qed.
(** ** Values *)
Lemma values_ok f ks : forall out, values f ks = Ok out <-> exists os, Forall2 (fun k o => value f k = Ok o) ks os /\ out = concat os.
Proof.
  induction ks as [|k ks IH]; intros out; cbn [values].
  - split; [intros E; injection E as <-; exists []; split; [constructor|reflexivity]|]. intros (os & F & ->). inversion F. reflexivity.
  - split.
    + intros E. destruct (value f k) as [x| |] eqn:Ev; try discriminate E. cbn [res_bind] in E. destruct (values f ks) as [y| |] eqn:Ey; try discriminate E. injection E as <-.
      destruct (proj1 (IH y) eq_refl) as (os & F & ->). exists (x :: os). split; [now constructor|reflexivity].
    + intros (os & F & ->). inversion F as [|? x ? os' Ev F']; subst. rewrite Ev. cbn [res_bind]. assert (E : values f ks = Ok (concat os')) by (apply IH; eauto). rewrite E. reflexivity.
Qed.
Lemma values_panic f ks : Forall (fun k => value f k <> Err) ks -> values f ks <> Err /\ (values f ks = Panic <-> exists k, In k ks /\ value f k = Panic).
Proof.
  induction 1 as [|k ks N F [IN IH]]; cbn [values]; [split; [discriminate|]; split; [discriminate|intros (k & [] & _)]|].
  destruct (value f k) as [x| |] eqn:Ev; cbn [res_bind].
  - destruct (values f ks) as [y| |] eqn:Ey; cbn [res_bind]; split; try discriminate; try congruence.
    + split; [discriminate|]. intros (k' & [->|Hin] & E); [congruence|]. destruct IH as [_ IH]. assert (X : Ok y = Panic) by (apply IH; eauto). discriminate X.
    + split; auto. intros _. destruct IH as [IH _]. destruct (IH eq_refl) as (k' & Hin & E). exists k'. split; auto. now right.
  - congruence.
  - split; [discriminate|]. split; auto. intros _. exists k. split; auto. now left.
Qed.
(** The pieces of a text can all be replaced. *)
Definition fit (k : piece) : Prop :=
  match k with
  | PChar _ => True
  | PSub x => valid_sub x
  | PRef x y => (valid_name x \/ longs_name x) /\ (y = [] \/ valid_sub y)
  | PDot f w b => exists r, mark true k r /\ preferred true k r
  end.
Lemma cut_fit b t ks : cut b t ks -> Forall fit ks.
Proof. induction 1 as [|b k rest ks Mk Pf C IH|b c rest ks N C IH]; [constructor| |constructor; [exact I|auto]]. constructor; auto. inversion Mk; subst; cbn [fit]; auto. exists rest. auto. Qed.

(** ** Spelling *)
Lemma word_char_ci c d : char_ci c d -> word_char c -> word_char d.
Proof. unfold char_ci, word_char. lia. Qed.
Lemma element_ci x y : str_ci x y -> element x -> element y.
Proof.
  intros E [N F]. split; [intros ->; apply str_ci_length in E; destruct x; [congruence|discriminate E]|].
  induction E as [|c d x y Ec E IH]; [constructor|]. inversion F; subst. constructor; [eapply word_char_ci; eauto|]. destruct x; [inversion E; constructor|]. apply IH; auto. discriminate.
Qed.
Lemma elements_ci es : Forall element es -> forall z y, str_ci (join [45%N] (z :: es)) y -> exists z' es', y = join [45%N] (z' :: es') /\ str_ci z z' /\ Forall element es' /\ (es' = [] <-> es = []).
Proof.
  induction 1 as [|e es He Hes IH]; intros z y E.
  - exists y, []. cbn [join] in *. split; auto. split; auto. split; [constructor|tauto].
  - change (join [45%N] (z :: e :: es)) with (z ++ [45%N] ++ join [45%N] (e :: es)) in E. apply Forall2_app_inv_l in E as (z' & y1 & E1 & E2 & ->).
    inversion E2 as [|c d q y2 Ec E3]; subst. assert (d = 45%N) as -> by (unfold char_ci in Ec; lia). cbn [app] in E3. destruct (IH e y2 E3) as (e' & es' & -> & Ee & F' & _).
    exists z', (e' :: es'). split; [reflexivity|]. split; auto. split; [constructor; auto; eapply element_ci; eauto|]. split; discriminate.
Qed.
Lemma valid_name_ci x y : str_ci x y -> valid_name x -> valid_name y.
Proof.
  intros E (t & q & es & Ht & Eq & Ne & F & ->). destruct (elements_ci es F q y E) as (q' & es' & -> & E' & F' & Ne').
  exists t, q', es'. split; auto. split; [|split; [tauto|auto]]. apply str_ci_upper in Eq, E'. apply str_ci_upper. congruence.
Qed.
Ltac flat := repeat (progress (cbn [app]; rewrite <- ?app_assoc)).
Section Pieces.
  Context {M : num} {H : Type}.
  Variable reported : F M -> Z.
  Variable path_str : path -> str.
  Variable strfmt : str -> str -> str -> option str.
  Variable p : project M H.
  Variable base : str.
  Variable ms : md_settings.
  Hypothesis W : arts_wf (pr_arts p).
  Hypothesis C : code_ok (pr_code p).
  Notation artifact := (artifact M H).

  Lemma get_target n : name_wf n -> forall a, im_get name_eqb n (pr_arts p) = Some a <-> target p (n_raw n) [] a.
  Proof.
    intros Wn a. change (im_get name_eqb n (pr_arts p)) with (defined p n). rewrite (defined_some p n a W Wn). unfold target. split.
    - intros (m & Hin & Ec). exists m. auto.
    - intros (m & Hin & Ec & _). eauto.
  Qed.
  Lemma get_no_target n : name_wf n -> im_get name_eqb n (pr_arts p) = None <-> forall a, ~ target p (n_raw n) [] a.
  Proof.
    intros Wn. split.
    - intros E a T. apply get_target in T; auto. congruence.
    - intros N. destruct (im_get name_eqb n (pr_arts p)) as [a|] eqn:E; auto. apply get_target in E; auto. exfalso. eapply N; eauto.
  Qed.
  Lemma target_sub n a y : name_wf n -> im_get name_eqb n (pr_arts p) = Some a -> y <> [] ->
    is_mem sub_eqb (sub_new y) (a_subnames a) = true <-> target p (n_raw n) y a.
  Proof.
    intros Wn E Ny. apply get_target in E as (m & Hin & Ec & _); auto. rewrite (sub_mem p a m y W Hin). unfold target. split.
    - intros X. exists m. auto.
    - intros (m' & _ & _ & [->|X]); [congruence|exact X].
  Qed.
  Lemma target_get n a y : name_wf n -> target p (n_raw n) y a -> im_get name_eqb n (pr_arts p) = Some a.
  Proof. intros Wn (m & Hin & Ec & _). apply get_target; auto. exists m. auto. Qed.
  Lemma dangling_iff n y : name_wf n -> dangling (pr_arts p) (n_raw n) y <-> forall a, ~ target p (n_raw n) y a.
  Proof.
    intros Wn. split.
    - intros D a (m & Hin & Ec & T). destruct (D m a Hin Ec) as [Ny Nz]. destruct T as [->|(z & Hz & Ez)]; [congruence|]. eapply Nz; eauto.
    - intros N m b Hin Ec. split.
      + intros ->. apply (N b). exists m. auto.
      + intros z Hz Ez. apply (N b). exists m. eauto 6.
  Qed.
  Lemma name_hex_ok n a : im_get name_eqb n (pr_arts p) = Some a -> exists col, name_hex reported p n = Ok col /\ forall c, tinted reported a c <-> c = col.
  Proof. intros E. unfold name_hex. rewrite E. apply hex_shade. Qed.
  Definition subs (y : str) : option subname := match y with [] => None | _ => Some (sub_new y) end.
  Lemma subs_raw y : opt_raw (subs y) = y. Proof. now destruct y. Qed.
  Lemma subs_key y : opt_key (subs y) = upper y. Proof. now destruct y. Qed.

  Lemma markdown_ok n y : name_wf n -> y = [] \/ valid_sub y -> exists o, name_markdown reported p n (subs y) = Ok o /\ forall o', ref_html reported p (n_raw n) y o' <-> o' = o.
  Proof.
    intros Wn Vy. unfold name_markdown. pose proof (wf_key n Wn) as K.
    destruct (im_get name_eqb n (pr_arts p)) as [a|] eqn:E.
    - destruct (name_hex_ok n a E) as (col & Hc & Uc).
      assert (T0 : target p (n_raw n) [] a) by now apply get_target.
      destruct y as [|c y].
      + cbn [subs]. rewrite Hc. cbn [res_bind]. eexists. split; [reflexivity|]. intros o'. unfold name_html_raw, css_bold. rewrite K. split.
        * intros R. inversion R as [a' col' T Tc|a' T D|N]; subst.
          -- assert (a' = a) as -> by (apply target_get in T; auto; congruence). apply Uc in Tc as ->. rewrite !app_nil_r. rewrite <- !app_assoc. reflexivity.
          -- exfalso. apply (proj1 (dangling_iff n [] Wn) D a T0).
          -- exfalso. eapply N; eauto.
        * intros ->. pose proof (RefFound reported p (n_raw n) [] a col T0 (proj2 (Uc col) eq_refl)) as X. rewrite !app_nil_r in X. rewrite <- !app_assoc. exact X.
      + cbn [subs]. assert (Ny : c :: y <> []) by discriminate. set (z := c :: y) in *. pose proof (target_sub n a z Wn E Ny) as Ts.
        destruct (is_mem sub_eqb (sub_new z) (a_subnames a)) eqn:Em.
        * rewrite Hc. cbn [res_bind]. eexists. split; [reflexivity|]. intros o'. unfold name_html_raw, css_bold. rewrite K. cbn [sub_new s_raw s_key]. rewrite <- upper_app.
          assert (T : target p (n_raw n) z a) by now apply Ts. split.
          -- intros R. inversion R as [a' col' T' Tc|a' T' D|N]; subst.
             ++ assert (a' = a) as -> by (apply target_get in T'; auto; congruence). apply Uc in Tc as ->. rewrite <- !app_assoc. reflexivity.
             ++ exfalso. apply (proj1 (dangling_iff n z Wn) D a T).
             ++ exfalso. eapply N; eauto.
          -- intros ->. pose proof (RefFound reported p (n_raw n) z a col T (proj2 (Uc col) eq_refl)) as X. rewrite <- !app_assoc. exact X.
        * eexists. split; [reflexivity|]. intros o'. unfold name_html_raw, css_italic, purple. rewrite K. cbn [sub_new s_raw s_key].
          assert (T : ~ target p (n_raw n) z a) by (intros T; apply Ts in T; discriminate T).
          assert (D : dangling (pr_arts p) (n_raw n) z) by (apply dangling_iff; auto; intros a' T'; pose proof (target_get _ _ _ Wn T'); assert (a' = a) as -> by congruence; contradiction). split.
          -- intros R. inversion R as [a' col' T' Tc|a' T' D'|N]; subst.
             ++ exfalso. apply (proj1 (dangling_iff n z Wn) D a' T').
             ++ rewrite upper_app. rewrite <- !app_assoc. reflexivity.
             ++ exfalso. eapply N; eauto.
          -- intros ->. pose proof (RefNoSub reported p (n_raw n) z a T0 D) as X. rewrite upper_app in X. rewrite <- !app_assoc in X. rewrite <- !app_assoc. exact X.
    - eexists. split; [reflexivity|]. intros o'. unfold name_html_raw, css_italic, purple. rewrite K. pose proof (proj1 (get_no_target n Wn) E) as N. split.
      + intros R. inversion R as [a' col' T' Tc|a' T' D'|N']; subst.
        * apply target_get in T'; auto. congruence.
        * apply target_get in T'; auto. congruence.
        * rewrite <- !app_assoc. reflexivity.
      + intros ->. pose proof (RefNone reported p (n_raw n) y N) as X. rewrite <- !app_assoc. exact X.
  Qed.
  Lemma nls_cons x l : l <> [] -> nls (x :: l) = x ++ c_nl :: nls l.
  Proof. intros N. destruct l; [congruence|reflexivity]. Qed.
  Lemma nls_one x : nls [x] = x. Proof. reflexivity. Qed.

  Lemma fullname_ok focus n y : name_wf n -> y = [] \/ valid_sub y -> exists o, fullname_dot reported p n (subs y) focus = Ok o /\ forall o', ref_node reported p focus (n_raw n) y o' <-> o' = o.
  Proof.
    intros Wn Vy. unfold fullname_dot. pose proof (wf_key n Wn) as K.
    assert (ND : dangling (pr_arts p) (n_raw n) y -> forall o', ref_node reported p focus (n_raw n) y o' <-> o' = dne_name_dot n (subs y)).
    { intros D o'. unfold dne_name_dot. rewrite subs_raw, subs_key, K. split.
      - intros R. inversion R as [a' col' T' Tc|D']; subst; [exfalso; apply (proj1 (dangling_iff n y Wn) D a' T')|].
        unfold node, indent. cbn [map concat repeat]. rewrite !nls_cons by discriminate. rewrite nls_one, upper_app. rewrite ?app_nil_r. flat. reflexivity.
      - intros ->. pose proof (NodeNone reported p focus (n_raw n) y D) as X. revert X.
        unfold node, indent. cbn [map concat repeat]. rewrite !nls_cons by discriminate. rewrite nls_one, upper_app. rewrite ?app_nil_r. flat. intros X; exact X. }
    destruct (im_get name_eqb n (pr_arts p)) as [a|] eqn:E.
    - assert (T0 : target p (n_raw n) [] a) by now apply get_target.
      destruct (match subs y with Some x => negb (is_mem sub_eqb x (a_subnames a)) | None => false end) eqn:Eb.
      + eexists. split; [reflexivity|]. apply ND. apply dangling_iff; auto. intros a' T'. pose proof (target_get _ _ _ Wn T'). assert (a' = a) as -> by congruence.
        destruct y as [|c y]; [discriminate Eb|]. cbn [subs] in Eb. apply negb_true_iff in Eb. apply (target_sub n a (c :: y)) in T'; auto; [|discriminate]. congruence.
      + assert (T : target p (n_raw n) y a).
        { destruct y as [|c y]; [exact T0|]. cbn [subs] in Eb. apply negb_false_iff in Eb. apply (target_sub n a (c :: y)); auto. discriminate. }
        destruct (name_hex_ok n a E) as (col & Hc & Uc). rewrite Hc. cbn [res_bind]. eexists. split; [reflexivity|]. rewrite subs_raw, subs_key, K. intros o'. split.
        * intros R. inversion R as [a' col' T' Tc|D']; subst; [|exfalso; apply (proj1 (dangling_iff n y Wn) D' a T)].
          assert (a' = a) as -> by (apply target_get in T'; auto; congruence). apply Uc in Tc as ->.
          unfold node, indent, lower, gray. destruct focus; cbn [map concat repeat]; rewrite !nls_cons by discriminate; rewrite nls_one, upper_app; rewrite ?app_nil_r; flat; reflexivity.
        * intros ->. pose proof (NodeFound reported p focus (n_raw n) y a col T (proj2 (Uc col) eq_refl)) as X. revert X.
          unfold node, indent, lower, gray. destruct focus; cbn [map concat repeat]; rewrite !nls_cons by discriminate; rewrite nls_one, upper_app; rewrite ?app_nil_r; flat; intros X; exact X.
    - eexists. split; [reflexivity|]. apply ND. apply dangling_iff; auto. intros a' T'. apply target_get in T'; auto. congruence.
  Qed.

  (** ** Subnames *)
  Lemma get_impl_ok parent x : valid_sub x -> ~ longs_name parent ->
    (exists loc, get_impl (pr_code p) parent (Some x) = Ok loc /\ forall loc', impl_at p parent x loc' <-> loc' = loc) \/
    (get_impl (pr_code p) parent (Some x) = Err /\ forall loc, ~ impl_at p parent x loc).
  Proof.
    intros Vx Nl. unfold get_impl.
    assert (Es : sub_from_str x = Ok (sub_new x)). { destruct (proj2 (sub_accept x) Vx) as [z Ez]. rewrite Ez. f_equal. now apply sub_ok in Ez as [-> _]. }
    destruct (name_from_str parent) as [n| |] eqn:En.
    - cbn [res_bind]. destruct (from_str_wf _ _ En) as [Wn Rn].
      assert (Key : forall m z loc, code_ref (pr_code p) m (Some z) loc -> str_ci (n_raw m) parent -> str_ci (s_raw z) x ->
                    exists c, In (m, c) (pr_code p) /\ im_get name_eqb n (pr_code p) = Some c /\ im_get sub_eqb (sub_new x) (ic_secondary c) = Some loc).
      { intros m z loc (c & Hin & Hz) E1 E2. exists c. split; auto. pose proof (co_names _ C m c Hin) as Wm. split.
        - destruct (im_get name_eqb n (pr_code p)) as [c'|] eqn:Ec.
          + destruct (get_some_in name_eqb nk name_eqb_iff _ _ _ Ec) as (m' & Em & Hm'). f_equal.
            assert (X : (m', c') = (m, c)); [|congruence]. eapply (nodup_same (fun e : name * impl_code => n_key (fst e))); [apply (co_nodup _ C)|exact Hm'|exact Hin|]. cbn [fst].
            assert (Y : name_eqb m' m = true); [|apply name_eqb_iff in Y; unfold nk in Y; congruence]. apply name_eqb_ci; auto; [eapply (co_names _ C); eauto|].
            apply str_ci_upper. apply str_ci_upper in E1. apply name_eqb_iff in Em as En'. unfold nk in Em. injection Em as _ Ek.
            rewrite <- (wf_key m') by (eapply (co_names _ C); eauto). rewrite E1, <- Rn, <- (wf_key n) by auto. congruence.
          + exfalso. apply (get_none_iff name_eqb nk name_eqb_iff) in Ec. apply Ec. apply in_map_iff. exists (m, c). split; auto. cbn [fst].
            assert (Y : name_eqb m n = true); [|now apply name_eqb_iff in Y]. apply name_eqb_ci; auto. now rewrite Rn.
        - pose proof (co_subs _ C m c z loc Hin Hz) as Kz. destruct (im_get sub_eqb (sub_new x) (ic_secondary c)) as [l'|] eqn:El.
          + destruct (get_some_in sub_eqb s_key sub_eqb_iff _ _ _ El) as (z' & Ez' & Hz'). f_equal.
            assert (X : (z', l') = (z, loc)); [|congruence]. eapply (nodup_same (fun e : subname * code_loc => s_key (fst e))); [apply (co_subdup _ C m c Hin)|exact Hz'|exact Hz|]. cbn [fst].
            rewrite Ez', Kz. cbn [sub_new s_key]. apply str_ci_upper in E2. congruence.
          + exfalso. apply (get_none_iff sub_eqb s_key sub_eqb_iff) in El. apply El. apply in_map_iff. exists (z, loc). split; auto. cbn [fst sub_new s_key]. rewrite Kz. now apply str_ci_upper. }
      destruct (im_get name_eqb n (pr_code p)) as [c|] eqn:Ec.
      + rewrite Es. cbn [res_bind]. destruct (im_get sub_eqb (sub_new x) (ic_secondary c)) as [loc|] eqn:El.
        * left. exists loc. split; auto. intros loc'. split.
          -- intros (m & z & R & E1 & E2). destruct (Key m z loc' R E1 E2) as (c' & _ & X & Y). assert (c' = c) as -> by congruence. congruence.
          -- intros ->. destruct (get_some_in name_eqb nk name_eqb_iff _ _ _ Ec) as (m & Em & Hm). destruct (get_some_in sub_eqb s_key sub_eqb_iff _ _ _ El) as (z & Ez & Hz).
             exists m, z. split; [exists c; auto|]. split.
             ++ rewrite <- Rn. apply name_eqb_ci; auto; [eapply (co_names _ C); eauto|]. now apply name_eqb_iff.
             ++ apply str_ci_upper. rewrite <- (co_subs _ C m c z loc Hm Hz). rewrite Ez. reflexivity.
        * right. split; auto. intros loc (m & z & R & E1 & E2). destruct (Key m z loc R E1 E2) as (c' & _ & X & Y). assert (c' = c) as -> by congruence. congruence.
      + right. split; auto. intros loc (m & z & R & E1 & E2). destruct (Key m z loc R E1 E2) as (c' & _ & X & Y). congruence.
    - right. split; auto. intros loc (m & z & (c & Hin & _) & E1 & _). apply name_err in En as [Nv _]. apply Nv.
      pose proof (co_names _ C m c Hin) as Wm. eapply valid_name_ci; [exact E1|]. apply name_accept. exists m. exact Wm.
    - exfalso. apply Nl. now apply name_panic.
  Qed.

  Lemma longs_impl parent x loc : longs_name parent -> ~ impl_at p parent x loc.
  Proof.
    intros Lp (m & z & (c & Hin & _) & E1 & _). pose proof (co_names _ C m c Hin) as Wm.
    assert (V : valid_name parent) by (eapply valid_name_ci; [exact E1|]; apply name_accept; exists m; exact Wm).
    apply name_accept in V as [q Eq]. apply name_panic in Lp. congruence.
  Qed.
  Lemma place_iff file line x : place file line x <-> x = loc_debug file line.
  Proof.
    unfold place, loc_debug. split.
    - intros (d & Hd & ->). apply decimal_iff in Hd as ->. reflexivity.
    - intros ->. exists (nat_str line). split; [apply nat_str_decimal|reflexivity].
  Qed.
  Lemma address_iff u file line h : address strfmt base u file line h <-> format_code_url strfmt base u file line = Some h.
  Proof.
    unfold address, format_code_url. split.
    - intros (d & Hd & E). apply decimal_iff in Hd as ->. exact E.
    - intros E. exists (nat_str (line + 1)). split; [apply nat_str_decimal|exact E].
  Qed.
  Lemma no_address_iff u file line : no_address strfmt base u file line <-> format_code_url strfmt base u file line = None.
  Proof.
    unfold no_address, format_code_url. split.
    - intros (d & Hd & E). apply decimal_iff in Hd as ->. exact E.
    - intros E. exists (nat_str (line + 1)). split; [apply nat_str_decimal|exact E].
  Qed.
  Lemma sub_piece parent x : valid_sub x ->
    (exists o, replace_markdown_sub path_str strfmt p base ms parent x = Ok o /\ ~ longs_name parent /\ ~ no_link path_str strfmt p base ms parent x /\ forall o', sub_html path_str strfmt p base ms parent x o' <-> o' = o) \/
    (replace_markdown_sub path_str strfmt p base ms parent x = Panic /\ (longs_name parent \/ (no_link path_str strfmt p base ms parent x /\ forall o, ~ sub_html path_str strfmt p base ms parent x o))).
  Proof.
    intros Vx. destruct (name_from_str parent) as [n| |] eqn:En.
    1, 2: assert (Nl : ~ longs_name parent) by (intros L; apply name_panic in L; congruence).
    3: { right. split; [|left; now apply name_panic]. unfold replace_markdown_sub, get_impl. rewrite En. reflexivity. }
    all: unfold replace_markdown_sub; destruct (get_impl_ok parent x Vx Nl) as [(loc & -> & U)|(-> & N)].
    all: try (left; eexists; split; [reflexivity|]; split; auto; split;
      [intros (loc & u & I & _); eapply N; eauto|]; intros o'; split;
      [intros S; inversion S; subst; [reflexivity|exfalso; eapply N; eauto|exfalso; eapply N; eauto]|intros ->; exact (SubNone path_str strfmt p base ms parent x N)]).
    all: assert (I0 : impl_at p parent x loc) by now apply U.
    all: unfold format_code_url_maybe; destruct (ms_url ms) as [u|] eqn:Eu;
      [destruct (format_code_url strfmt base u (path_str (loc_file loc)) (loc_line loc)) as [h|] eqn:Ef|]; cbn [res_bind].
    all: try (left; eexists; split; [reflexivity|]; split; auto; split;
      [intros (loc' & u' & I & Eu' & Na); apply U in I as ->; rewrite Eu in Eu'; try discriminate Eu'; try (injection Eu' as <-; apply no_address_iff in Na; congruence)|];
      intros o'; split; [intros S; inversion S as [N|loc' t I E' P|loc' t u' h' I E' P A]; subst; [exfalso; eapply N; eauto| |];
        apply U in I as ->; apply place_iff in P as ->; rewrite Eu in E'; try discriminate E'; try (injection E' as <-; apply address_iff in A; rewrite Ef in A; apply some_inj in A as <-); reflexivity
      |intros ->; try (apply (SubLink path_str strfmt p base ms parent x loc _ u h); auto; [now apply place_iff|now apply address_iff]);
        try (apply (SubPlain path_str strfmt p base ms parent x loc); auto; now apply place_iff)]).
    all: right; split; auto; right; split; [exists loc, u; split; auto; split; auto; now apply no_address_iff|];
      intros o S; inversion S as [N|loc' t I E' P|loc' t u' h' I E' P A]; subst; [eapply N; eauto| |]; apply U in I as ->; rewrite Eu in E'; try discriminate E'; injection E' as <-; apply address_iff in A; congruence.
  Qed.
  Lemma subname_raw_node x attrs : subname_raw (sub_new x) attrs = sub_node x match attrs with Some a => a | None => s "style=filled; fillcolor=""#DCDEE2""" end.
  Proof.
    unfold subname_raw, sub_node, node, indent. cbn [map concat repeat sub_new s_key s_raw]. rewrite !nls_cons by discriminate. rewrite nls_one. rewrite ?app_nil_r. destruct attrs; flat; reflexivity.
  Qed.
  Lemma subname_dot_ok parent x : valid_sub x -> ~ longs_name parent ->
    exists o, subname_dot p parent (sub_new x) = Ok o /\ forall o', sub_graph p parent x o' <-> o' = o.
  Proof.
    intros Vx Nl. unfold subname_dot. destruct (name_from_str parent) as [n| |] eqn:En.
    - destruct (from_str_wf _ _ En) as [Wn Rn]. assert (Vp : valid_name parent) by (apply name_accept; eauto). rewrite Rn. cbn [sub_new s_raw].
      destruct (get_impl_ok parent x Vx Nl) as [(loc & -> & U)|(-> & N)]; (eexists; split; [reflexivity|]); intros o'; rewrite (subname_raw_node x); split.
      + intros S. inversion S; subst; [contradiction|exfalso; match goal with Hn : forall loc, ~ _ |- _ => apply (Hn loc); now apply U end|flat; reflexivity].
      + intros ->. apply (SubGDone p parent x loc); auto. now apply U.
      + intros S. inversion S; subst; [contradiction|flat; reflexivity|exfalso; eapply N; eauto].
      + intros ->. apply (SubGNone p parent x); auto.
    - assert (Vp : ~ valid_name parent) by (intros V; apply name_accept in V as [q Eq]; congruence). eexists. split; [reflexivity|]. intros o'. rewrite (subname_raw_node x). split.
      + intros S. inversion S; subst; [reflexivity|contradiction|contradiction].
      + intros ->. now apply SubGNo.
    - exfalso. apply Nl. now apply name_panic.
  Qed.
  Lemma sub_mac_ok x : valid_sub x -> sub_mac x = Ok (sub_new x).
  Proof. intros V. unfold sub_mac. destruct (proj2 (sub_accept x) V) as [z Ez]. rewrite Ez. apply sub_ok in Ez as [-> _]. reflexivity. Qed.
  Lemma opt_mac_ok y : y = [] \/ valid_sub y -> opt_mac (ref_sub y) = Ok (subs y).
  Proof. intros [->|V]; [reflexivity|]. destruct y as [|c y]; [reflexivity|]. cbn [ref_sub opt_mac subs]. rewrite sub_mac_ok by auto. reflexivity. Qed.
  Lemma name_mac_ok x : valid_name x -> exists n, name_mac x = Ok n /\ name_wf n /\ n_raw n = x.
  Proof. intros V. apply name_accept in V as [n En]. exists n. unfold name_mac. rewrite En. split; auto. eapply from_str_wf; eauto. Qed.
  Lemma name_mac_longs x : longs_name x -> name_mac x = Panic.
  Proof. intros L. unfold name_mac. apply name_panic in L. now rewrite L. Qed.
  Lemma longs_not_valid x : longs_name x -> ~ valid_name x.
  Proof. intros L V. apply name_panic in L. apply name_accept in V as [n En]. congruence. Qed.

  (** ** Graphs *)
  Inductive broken_dot (parent : str) : piece -> Prop :=
  | BdParent x : longs_name parent -> broken_dot parent (PSub x)
  | BdName x y : longs_name x -> broken_dot parent (PRef x y).
  Lemma dot_piece parent k : fit k -> (forall f w b, k <> PDot f w b) ->
    (exists o, value (dot_replacer reported p parent) k = Ok o /\ ~ broken_dot parent k /\ forall o', graph_piece reported p parent k o' <-> o' = o) \/
    (value (dot_replacer reported p parent) k = Panic /\ broken_dot parent k /\ forall o, ~ graph_piece reported p parent k o).
  Proof.
    intros Fk Nd. destruct k as [c|x|x y|f w b]; cbn [value token_of dot_replacer fit] in *.
    - left. exists [c]. split; auto. split; [intros B; inversion B|]. intros o'. split; [intros G; now inversion G|intros ->; constructor].
    - rewrite (sub_mac_ok x Fk). cbn [res_bind]. destruct (name_from_str parent) as [n| |] eqn:En.
      3: { apply name_panic in En as L. right. split; [unfold subname_dot; now rewrite En|]. split; [now constructor|]. intros o G. inversion G. contradiction. }
      all: left; assert (Nl : ~ longs_name parent) by (intros L; apply name_panic in L; congruence); destruct (subname_dot_ok parent x Fk Nl) as (o & Eo & U);
        exists o; split; auto; split; [intros B; inversion B; contradiction|]; intros o'; rewrite <- U; split; [intros G; inversion G; auto|now constructor].
    - destruct Fk as [[V|L] Vy].
      + left. rewrite (opt_mac_ok y Vy). destruct (name_mac_ok x V) as (n & En & Wn & Rn). rewrite En. cbn [res_bind]. destruct (fullname_ok true n y Wn Vy) as (o & Eo & U).
        exists o. split; auto. split; [intros B; inversion B; eapply longs_not_valid; eauto|]. rewrite Rn in U. intros o'. rewrite <- U. split; [intros G; inversion G; auto|now constructor].
      + right. rewrite (opt_mac_ok y Vy), (name_mac_longs x L). split; auto. split; [now constructor|]. intros o G. inversion G. eapply longs_not_valid; eauto.
    - exfalso. eapply Nd; eauto.
  Qed.
  (** A block does not contain a block: it would have ended there. *)
  Lemma cut_split b t ks : cut b t ks -> forall k, In k ks -> match k with PChar _ => True | _ => exists u b' r, t = u ++ source k ++ r /\ mark b' k r end.
  Proof.
    induction 1 as [b|b k rest ks Mk Pf Cr IH|b c rest ks N Cr IH]; intros k' [].
    - subst k'. destruct k; [exact I| | |]; (exists [], b, rest; split; [reflexivity|auto]).
    - specialize (IH k' H0). destruct k'; auto; destruct IH as (u & b' & r & -> & Mk'); (exists (source k ++ u), b', r; split; [rewrite <- app_assoc; reflexivity|auto]).
    - subst k'. exact I.
    - specialize (IH k' H0). destruct k'; auto; destruct IH as (u & b' & r & -> & Mk'); (exists (c :: u), b', r; split; [reflexivity|auto]).
  Qed.
  Lemma no_nested f w b r : mark true (PDot f w b) r -> preferred true (PDot f w b) r -> forall ks, cut true (b ++ [10%N]) ks -> forall f' w' b', ~ In (PDot f' w' b') ks.
  Proof.
    intros Mk Pf ks Ck f' w' b' Hin. pose proof (cut_split _ _ _ Ck _ Hin) as X. cbn beta iota in X. destruct X as (u & bb & q & E & Mk').
    apply mark_block in Mk as (_ & Cf & Fw & Nb & El). apply mark_block in Mk' as (-> & Cf' & Fw' & Nb' & El').
    rewrite source_dot in E. destruct El' as [->|[q' ->]].
    - rewrite app_nil_r in E. assert (X : last (b ++ [10%N]) 0%N = 96%N).
      { rewrite E. replace (u ++ f' ++ w' ++ c_nl :: b' ++ c_nl :: s "```") with ((u ++ f' ++ w' ++ c_nl :: b' ++ c_nl :: [96%N; 96%N]) ++ [96%N]) by (flat; reflexivity).
        now rewrite last_last. }
      rewrite last_last in X. discriminate X.
    - assert (Eb : exists z, b = (u ++ f' ++ w' ++ c_nl :: b') ++ c_nl :: s "```" ++ z /\ (z = [] \/ exists z', z = 10%N :: z')).
      { destruct (exists_last_dec q') as [->|(q2 & d & ->)].
        - exists []. split; [|now left]. rewrite app_nil_r. assert (X : b ++ [10%N] = ((u ++ f' ++ w' ++ c_nl :: b') ++ c_nl :: s "```") ++ [10%N]) by (rewrite E; flat; reflexivity).
          apply app_inj_tail in X as [X _]. exact X.
        - exists (10%N :: q2). split; [|right; eauto]. assert (X : b ++ [10%N] = ((u ++ f' ++ w' ++ c_nl :: b') ++ c_nl :: s "```" ++ 10%N :: q2) ++ [d]) by (rewrite E; flat; reflexivity).
          apply app_inj_tail in X as [X _]. exact X. }
      destruct Eb as (z & Eb & Hz). set (b1 := u ++ f' ++ w' ++ c_nl :: b') in *.
      destruct (Pf f w b1 (z ++ 10%N :: s "```" ++ r)) as [L|[_ L]]; [| |lia|].
      + apply mark_block. split; auto. split; auto. split; auto. split.
        * unfold b1. intros X. apply app_eq_nil in X as [_ X]. apply app_eq_nil in X as [_ X]. apply app_eq_nil in X as [_ X]. discriminate X.
        * right. destruct Hz as [->|[z' ->]]; [|eexists; reflexivity]. eexists. reflexivity.
      + rewrite !source_dot. rewrite Eb. flat. reflexivity.
      + rewrite Eb in L. rewrite app_length in L. cbn [length] in L. lia.
  Qed.

  Lemma Forall2_unique {A B} (R : A -> B -> Prop) l : (forall k, In k l -> forall o o', R k o -> R k o' -> o = o') -> forall os os', Forall2 R l os -> Forall2 R l os' -> os = os'.
  Proof.
    induction l as [|k l IH]; intros U os os' F F'; inversion F; inversion F'; subst; auto. f_equal; [eapply U; eauto; now left|]. apply IH; auto. intros k' Hk'. apply U. now right.
  Qed.
  Lemma Forall2_iff_in {A B} (R S : A -> B -> Prop) l : (forall k o, In k l -> R k o <-> S k o) -> forall os, Forall2 R l os <-> Forall2 S l os.
  Proof.
    induction l as [|k l IH]; intros E os; split; intros F; inversion F; subst; constructor; try (apply E; auto; now left); apply IH; auto; intros k' o Hk; apply E; now right.
  Qed.
  Lemma graph_ok parent f w b r : mark true (PDot f w b) r -> preferred true (PDot f w b) r -> exists ks, cut true (b ++ [10%N]) ks /\
    ((exists o, replace_all (dot_replacer reported p parent) (b ++ [c_nl]) = Ok o /\ (forall k, In k ks -> ~ broken_dot parent k) /\ forall o', graph reported p parent (b ++ [10%N]) o' <-> o' = o) \/
     (replace_all (dot_replacer reported p parent) (b ++ [c_nl]) = Panic /\ (forall o, ~ graph reported p parent (b ++ [10%N]) o) /\ exists k, In k ks /\ broken_dot parent k)).
  Proof.
    intros Mk Pf. destruct (cut_exists true (b ++ [10%N])) as (ks & Ck). exists ks. split; auto.
    change (b ++ [c_nl]) with (b ++ [10%N]). rewrite (replace_all_values _ _ _ Ck). pose proof (cut_fit _ _ _ Ck) as Fk. rewrite Forall_forall in Fk.
    pose proof (no_nested _ _ _ _ Mk Pf ks Ck) as Nn.
    assert (P : forall k, In k ks -> (exists o, value (dot_replacer reported p parent) k = Ok o /\ ~ broken_dot parent k /\ forall o', graph_piece reported p parent k o' <-> o' = o) \/
      (value (dot_replacer reported p parent) k = Panic /\ broken_dot parent k /\ forall o, ~ graph_piece reported p parent k o)).
    { intros k Hk. apply dot_piece; auto. intros f' w' b' ->. eapply Nn; eauto. }
    assert (Ne : Forall (fun k => value (dot_replacer reported p parent) k <> Err) ks).
    { rewrite Forall_forall. intros k Hk. destruct (P k Hk) as [(o & -> & _)|(-> & _)]; discriminate. }
    destruct (values_panic _ _ Ne) as [NE VP]. destruct (values (dot_replacer reported p parent) ks) as [o| |] eqn:Ev; [|congruence|].
    - left. exists o. split; auto.
      assert (Q : forall k, In k ks -> exists o, value (dot_replacer reported p parent) k = Ok o /\ ~ broken_dot parent k /\ forall o', graph_piece reported p parent k o' <-> o' = o).
      { intros k Hk. destruct (P k Hk) as [X|(X & _)]; auto. exfalso. assert (Y : Ok o = Panic) by (apply VP; eauto). discriminate Y. }
      split; [intros k Hk; destruct (Q k Hk) as (o' & _ & B & _); auto|]. apply values_ok in Ev as (os & F & ->).
      assert (I : forall k o, In k ks -> value (dot_replacer reported p parent) k = Ok o <-> graph_piece reported p parent k o).
      { intros k o Hk. destruct (Q k Hk) as (o1 & E1 & _ & U). rewrite U, E1. split; [intros E; injection E as <-; auto|intros ->; auto]. }
      pose proof (proj1 (Forall2_iff_in _ _ ks I os) F) as G. intros o'. split.
      + intros (ks' & os' & Ck' & F' & ->). rewrite (cut_unique _ _ _ Ck ks' Ck') in F'. f_equal. eapply (Forall2_unique _ ks); eauto.
        intros k Hk o1 o2 G1 G2. destruct (Q k Hk) as (o3 & _ & _ & U). apply U in G1, G2. congruence.
      + intros ->. exists ks, os. auto.
    - right. split; auto. destruct (proj1 VP eq_refl) as (k & Hk & Ek). destruct (P k Hk) as [(o & E & _)|(_ & X & Ng)]; [congruence|]. split; [|eauto].
      intros o (ks' & os & Ck' & F & _). rewrite (cut_unique _ _ _ Ck ks' Ck') in F. clear -F Hk Ng. induction F; [destruct Hk|]. destruct Hk as [->|Hk]; [eapply Ng; eauto|auto].
  Qed.
  Lemma text_piece parent k : fit k ->
    (exists o, value (replacer reported path_str strfmt p base ms parent) k = Ok o /\ ~ broken path_str strfmt p base ms parent k /\ forall o', shown reported path_str strfmt p base ms parent k o' <-> o' = o) \/
    (value (replacer reported path_str strfmt p base ms parent) k = Panic /\ broken path_str strfmt p base ms parent k /\ forall o, ~ shown reported path_str strfmt p base ms parent k o).
  Proof.
    intros Fk. destruct k as [c|x|x y|f w b]; cbn [value token_of replacer fit] in *.
    - left. exists [c]. split; auto. split; [intros B; inversion B|]. intros o'. split; [intros G; now inversion G|intros ->; constructor].
    - destruct (sub_piece parent x Fk) as [(o & Eo & Nl & Nk & U)|[E B]].
      + left. exists o. split; auto. split; [intros B; inversion B; contradiction|]. intros o'. rewrite <- U. split; [intros G; inversion G; auto|now constructor].
      + right. split; auto. destruct B as [L|[L Ns]]; (split; [constructor; assumption|]); intros o S; inversion S; subst; [contradiction|eapply Ns; eauto].
    - destruct Fk as [[V|L] Vy].
      + left. rewrite (opt_mac_ok y Vy). destruct (name_mac_ok x V) as (n & En & Wn & Rn). rewrite En. cbn [res_bind]. destruct (markdown_ok n y Wn Vy) as (o & Eo & U).
        exists o. split; auto. split; [intros B; inversion B; eapply longs_not_valid; eauto|]. rewrite Rn in U. intros o'. rewrite <- U. split; [intros G; inversion G; auto|now constructor].
      + right. rewrite (opt_mac_ok y Vy), (name_mac_longs x L). split; auto. split; [now constructor|]. intros o G. inversion G. eapply longs_not_valid; eauto.
    - destruct Fk as (r & Mk & Pf). unfold replace_markdown_dot. destruct (graph_ok parent f w b r Mk Pf) as (ks & Ck & [(o & -> & Nb & U)|(-> & Ng & k & Hk & B)]); cbn [res_bind].
      + left. eexists. split; [reflexivity|]. split.
        * intros B. inversion B as [| | |f0 w0 b0 ks' x Ck' Hx L|f0 w0 b0 ks' x y Ck' Hx L]; subst; rewrite (cut_unique _ _ _ Ck ks' Ck') in Hx; apply (Nb _ Hx); now constructor.
        * assert (G : graph reported p parent (b ++ [10%N]) o) by now apply U. intros o'. split.
          -- intros S. inversion S as [| | |f0 w0 b0 o0 E G0|f0 w0 b0 o0 E G0|f0 w0 b0 o0 pre post E G0]; subst; apply U in G0 as ->; rewrite E; rewrite ?app_nil_r, <- ?app_assoc; reflexivity.
          -- intros ->. destruct (ms_dot ms) as [| |pre post] eqn:Ed.
             ++ rewrite <- app_assoc. exact (SIgnore reported path_str strfmt p base ms parent f w b o Ed G).
             ++ rewrite app_nil_r. exact (SRemove reported path_str strfmt p base ms parent f w b o Ed G).
             ++ exact (SReplace reported path_str strfmt p base ms parent f w b o pre post Ed G).
      + right. split; auto. split; [inversion B; subst; [eapply BDotParent; eauto|eapply BDotName; eauto]|]. intros o S. inversion S; subst; eapply Ng; eauto.
  Qed.
  Lemma render_ok parent t ks : cut true t ks ->
    (forall o, replace_markdown reported path_str strfmt p base ms parent t = Ok o <-> exists os, Forall2 (shown reported path_str strfmt p base ms parent) ks os /\ o = concat os) /\
    (replace_markdown reported path_str strfmt p base ms parent t = Panic <-> exists k, In k ks /\ broken path_str strfmt p base ms parent k) /\
    replace_markdown reported path_str strfmt p base ms parent t <> Err.
  Proof.
    intros Ck. unfold replace_markdown. rewrite (replace_all_values _ _ _ Ck). pose proof (cut_fit _ _ _ Ck) as Fk. rewrite Forall_forall in Fk.
    pose proof (fun k Hk => text_piece parent k (Fk k Hk)) as P.
    assert (Ne : Forall (fun k => value (replacer reported path_str strfmt p base ms parent) k <> Err) ks).
    { rewrite Forall_forall. intros k Hk. destruct (P k Hk) as [(o & -> & _)|(-> & _)]; discriminate. }
    assert (I : forall k o, In k ks -> value (replacer reported path_str strfmt p base ms parent) k = Ok o <-> shown reported path_str strfmt p base ms parent k o).
    { intros k o Hk. destruct (P k Hk) as [(o1 & E1 & _ & U)|(E & _ & Ns)].
      - rewrite U, E1. split; [intros X; injection X as <-; auto|intros ->; auto].
      - rewrite E. split; [discriminate|]. intros S. exfalso. eapply Ns; eauto. }
    destruct (values_panic _ _ Ne) as [NE VP]. split; [|split; auto].
    - intros o. rewrite values_ok. split; intros (os & F & ->); exists os; (split; [|reflexivity]); [exact (proj1 (Forall2_iff_in _ _ ks I os) F)|exact (proj2 (Forall2_iff_in _ _ ks I os) F)].
    - rewrite VP. split; intros (k & Hk & X); exists k; split; auto; destruct (P k Hk) as [(o & E & Nb & _)|(E & B & _)]; try congruence; auto; contradiction.
  Qed.
End Pieces.
