(** Facts about routing. *)
From Coq Require Import Lia ZifyBool.
From Verif Require Import Base BaseFacts Regex RegexFacts Name SpecName NameFacts LineFacts GreedyFacts SpecSource SourceFacts Artifact Web SpecWeb.

Lemma Forall2_length {A B} (R : A -> B -> Prop) l m : Forall2 R l m -> length l = length m.
Proof. induction 1; cbn [length]; congruence. Qed.

(** ** Numerals *)
Lemma numeral_ne x n : numeral x n -> x <> [].
Proof. destruct 1; [discriminate|]. now destruct x. Qed.

Lemma digits_snoc x c : digits_value (x ++ [c]) = (10 * digits_value x + (c - 48))%N.
Proof. unfold digits_value. now rewrite fold_left_app. Qed.

Lemma numeral_iff x n : numeral x n <-> x <> [] /\ forallb is_digit x = true /\ digits_value x = n.
Proof.
  split.
  - induction 1 as [d Hd|x n d Hx (Ne & F & V) Hd].
    + repeat split; [discriminate|cbn [forallb]; unfold is_digit; lia|]. change (digits_value [(48 + d)%N]) with (10 * 0 + (48 + d - 48))%N. lia.
    + repeat split; [now destruct x| |].
      * rewrite forallb_app, F. cbn [forallb]. unfold is_digit. lia.
      * rewrite digits_snoc, V. lia.
  - intros (Ne & F & <-). induction x as [|c x IH] using rev_ind; [congruence|]. clear Ne.
    rewrite forallb_app in F. cbn [forallb] in F. apply andb_true_iff in F as [F Fc]. unfold is_digit in Fc.
    assert (Ec : c = (48 + (c - 48))%N) by lia. rewrite digits_snoc. destruct x as [|a x].
    + rewrite Ec at 1. cbn [app]. change (digits_value []) with 0%N. replace (10 * 0 + (c - 48))%N with (c - 48)%N by lia. apply num_digit. lia.
    + rewrite Ec at 1. apply num_more; [|lia]. apply IH; [discriminate|exact F].
Qed.

Lemma parse_usize_iff lim x n : parse_usize lim x = Some n <-> numeral x n /\ (n < lim)%N.
Proof.
  rewrite numeral_iff. unfold parse_usize. destruct x as [|c x]; cbn [is_nil]; [split; [discriminate|tauto]|].
  destruct (forallb is_digit (c :: x)) eqn:F; [|split; [discriminate|intros ((_ & X & _) & _); congruence]].
  destruct (N.ltb_spec (digits_value (c :: x)) lim).
  - split; [intros [= <-]; repeat split; auto; discriminate|intros ((_ & _ & <-) & _); auto].
  - split; [discriminate|]. intros ((_ & _ & <-) & L). lia.
Qed.

Lemma decimal_numeral k : forall n, N.to_nat (N.log2 n) < k -> numeral (decimal k n) n.
Proof.
  induction k as [|k IH]; intros n L; [lia|]. cbn [decimal].
  pose proof (N.div_mod n 10) as D. pose proof (N.mod_lt n 10) as Mo.
  destruct (N.ltb_spec n 10) as [S|S].
  - cbn [app]. rewrite N.mod_small by lia. now apply num_digit.
  - assert (L' : (N.log2 (n / 10) < N.log2 n)%N).
    { assert (N.log2 (n / 10) <= N.log2 (n / 2))%N by (apply N.log2_le_mono, N.div_le_compat_l; lia).
      assert (N.log2 (n / 2) = N.log2 n - 1)%N by (rewrite <- N.div2_div, N.div2_spec; apply N.log2_shiftr).
      assert (1 <= N.log2 n)%N by (change 1%N with (N.log2 2); apply N.log2_le_mono; lia). lia. }
    assert (G : numeral (decimal k (n / 10)%N ++ [(48 + n mod 10)%N]) (10 * (n / 10) + n mod 10)%N); [|rewrite <- D in G by lia; exact G].
    apply num_more; [|apply Mo; lia]. apply IH.
    set (a := N.log2 (n / 10)) in *. set (b := N.log2 n) in *. clearbody a b. lia.
Qed.

Lemma numeral_chars x n : numeral x n -> Forall (fun c => (48 <= c <= 57)%N) x.
Proof.
  induction 1 as [d Hd|x n d Hx IH Hd]; [constructor; [lia|constructor]|]. apply Forall_app. split; auto. constructor; [lia|constructor].
Qed.

(** ** The first match *)
Lemma captures_none r h : captures r h = None <-> forall p q, h = p ++ q -> match_here r q = None.
Proof.
  induction h as [|c h IH].
  - cbn [captures]. destruct (match_here r []) as [[v cs]|] eqn:E.
    + split; [discriminate|]. intros X. specialize (X [] [] eq_refl). congruence.
    + split; auto. intros _ p q Eq. symmetry in Eq. apply app_eq_nil in Eq as [-> ->]. exact E.
  - cbn [captures]. destruct (match_here r (c :: h)) as [[v cs]|] eqn:E.
    + split; [discriminate|]. intros X. specialize (X [] (c :: h) eq_refl). congruence.
    + rewrite IH. split; intros X p q Eq.
      * destruct p as [|d p]; [cbn [app] in Eq; subst q; exact E|]. injection Eq as <- ->. now apply (X p q).
      * apply (X (c :: p) q). cbn [app]. now rewrite Eq.
Qed.
Lemma captures_some r h cs : captures r h = Some cs <-> exists p q v, h = p ++ q /\ match_here r q = Some (v, cs) /\
  forall p' q', h = p' ++ q' -> match_here r q' <> None -> length p <= length p'.
Proof.
  revert cs. induction h as [|c h IH]; intros cs.
  - cbn [captures]. split.
    + destruct (match_here r []) as [[v cs']|] eqn:E; [|discriminate]. intros [= ->]. exists [], [], v. repeat split; auto. intros; cbn; lia.
    + intros (p & q & v & Eq & M & _). symmetry in Eq. apply app_eq_nil in Eq as [-> ->]. now rewrite M.
  - cbn [captures]. destruct (match_here r (c :: h)) as [[v cs']|] eqn:E.
    + split.
      * intros [= ->]. exists [], (c :: h), v. repeat split; auto. intros; cbn; lia.
      * intros (p & q & v' & Eq & M & Min). specialize (Min [] (c :: h) eq_refl). rewrite E in Min. assert (length p <= 0) by (apply Min; discriminate).
        destruct p as [|d p]; [|cbn in *; lia]. cbn [app] in Eq. subst q. rewrite E in M. congruence.
    + rewrite IH. split; intros (p & q & v & Eq & M & Min).
      * exists (c :: p), q, v. repeat split; auto; [cbn [app]; now rewrite Eq|]. intros p' q' Eq' M'. destruct p' as [|d p'].
        -- cbn [app] in Eq'. subst q'. congruence.
        -- injection Eq' as <- Eq'. specialize (Min p' q' Eq' M'). cbn [length]. lia.
      * destruct p as [|d p]; [cbn [app] in Eq; subst q; congruence|]. injection Eq as <- Eq. exists p, q, v. repeat split; auto.
        intros p' q' Eq' M'. specialize (Min (c :: p') q'). cbn [length app] in Min. rewrite Eq' in Min. specialize (Min eq_refl M'). lia.
Qed.

(** ** Names *)
Definition longest_name (q x : str) : Prop :=
  exists v, q = x ++ v /\ name_like x /\ forall x' v', q = x' ++ v' -> name_like x' -> length x' <= length x.

Lemma run_cap i r q cs : run (Cap i r) q cs = map (fun st => (fst st, (i, firstn (length q - length (fst st)) q) :: snd st)) (run r q cs).
Proof. reflexivity. Qed.

Lemma cap_name q : (exists x, longest_name q x /\ exists v, hd_error (run (Cap 0 re_name) q []) = Some (v, [(0, x)])) \/
  ((forall x v, q = x ++ v -> ~ name_like x) /\ run (Cap 0 re_name) q [] = []).
Proof.
  rewrite run_cap. destruct (run re_name q []) as [|[r0 c0] l] eqn:E.
  - right. split; [|reflexivity]. intros x v -> L. destruct (name_longest x v [] L) as (r & Hr & _). rewrite E in Hr. discriminate.
  - left. assert (Hin : In (r0, c0) (run re_name q [])) by (rewrite E; now left). apply run_sound in Hin as (m & -> & Hm).
    apply mat_lang in Hm. assert (L : name_like m) by (unfold name_like; now apply lang_name_words).
    destruct (name_longest m r0 [] L) as (r & Hr & Lr). rewrite E in Hr. cbn [hd_error] in Hr. injection Hr as <- ->.
    exists m. split.
    + exists r0. repeat split; auto. intros x' v' Eq L'. destruct (name_longest x' v' [] L') as (r & Hr & Lr'). rewrite <- Eq, E in Hr. cbn [hd_error] in Hr. injection Hr as <-.
      apply (f_equal (@length N)) in Eq. rewrite !app_length in Eq. lia.
    + exists r0. cbn [map hd_error fst snd]. rewrite app_length. replace (length m + length r0 - length r0) with (length m) by lia.
      rewrite firstn_app, firstn_all, Nat.sub_diag, app_nil_r. reflexivity.
Qed.

Lemma run_url q : run name_url q [] = flat_map (fun st : mstate => run (Cap 0 re_name) (fst st) (snd st)) (run (cis (s "artifacts/")) q []) ++ run (Cap 0 re_name) q [].
Proof.
  change (run name_url q []) with (flat_map (fun st : mstate => run (Cap 0 re_name) (fst st) (snd st)) (run (cis (s "artifacts/")) q [] ++ [(q, [])])).
  rewrite flat_map_app. cbn [flat_map fst snd]. now rewrite app_nil_r.
Qed.

Lemma match_hd r q : match_here r q = hd_error (run r q []).
Proof. unfold match_here. now destruct (run r q []) as [|st l]. Qed.

Lemma name_four x : name_like x -> exists a b c t, x = a :: b :: c :: 45%N :: t /\ word_char a /\ word_char b /\ word_char c.
Proof.
  assert (X : forall t p es, In t (type_words ++ longs_words) -> str_ci t p -> dashed p es x -> exists a b c t, x = a :: b :: c :: 45%N :: t /\ word_char a /\ word_char b /\ word_char c).
  { intros t p es It C (Ne & _ & ->). rewrite join_cons by exact Ne. cbn [type_words longs_words app In] in It.
    assert (Wt : Forall word_char t /\ length t = 3).
    { destruct It as [<-|[<-|[<-|[<-|[<-|[]]]]]]; (split; [|reflexivity]); apply Forall_forall; intros c Hc; vm_compute in Hc; unfold word_char; lia. }
    destruct Wt as [Wt Lt]. pose proof (Forall2_length _ _ _ C) as L. rewrite Lt in L.
    assert (Wp : Forall word_char p).
    { clear -C Wt. induction C as [|a b l l' Hab F IH]; constructor; inversion Wt; subst; auto. unfold char_ci, word_char in *. lia. }
    destruct p as [|a [|b [|c [|]]]]; try discriminate. inversion Wp as [|? ? Wa W1]; subst. inversion W1 as [|? ? Wb W2]; subst. inversion W2 as [|? ? Wc W3]; subst.
    exists a, b, c, (join [45%N] es). repeat split; auto. }
  intros [(t & p & es & It & C & D)|(t & p & es & It & C & D)]; apply (X t p es); auto; apply in_or_app; auto.
Qed.

(** No name begins inside "artifacts/". *)
Lemma folds_not_dash c d : (97 <= c <= 122)%N -> folds c d -> d <> 45%N.
Proof. intros Hc F ->. unfold folds, upc, is_lower, c_longs, c_kelvin in F. repeat match goal with H : context [if ?b then _ else _] |- _ => destruct b eqn:? end; lia. Qed.
Lemma folds_slash d : folds 47 d -> ~ word_char d.
Proof. unfold folds, upc, is_lower, c_longs, c_kelvin, word_char. repeat match goal with |- context [if ?b then _ else _] => destruct b eqn:? end; lia. Qed.
Lemma four_eq (d0 d1 d2 d3 c1 c2 c3 : N) (w z : str) : d0 :: d1 :: d2 :: d3 :: w = c1 :: c2 :: c3 :: 45%N :: z -> d0 = c1 /\ d1 = c2 /\ d2 = c3 /\ d3 = 45%N.
Proof. intros; repeat split; congruence. Qed.
Lemma no_name_inside a q p x v : Forall2 folds (s "artifacts/") a -> a ++ q = p ++ x ++ v -> name_like x -> 10 <= length p.
Proof.
  intros F E L. apply name_four in L as (c1 & c2 & c3 & t & -> & W1 & W2 & W3).
  assert (exists d0 d1 d2 d3 d4 d5 d6 d7 d8 d9, a = [d0; d1; d2; d3; d4; d5; d6; d7; d8; d9] /\ ~ word_char d9 /\
    Forall (fun d => d <> 45%N) [d0; d1; d2; d3; d4; d5; d6; d7; d8; d9]) as (d0 & d1 & d2 & d3 & d4 & d5 & d6 & d7 & d8 & d9 & -> & W & N).
  { let y := eval vm_compute in (s "artifacts/") in change (s "artifacts/") with y in F.
    do 10 (inversion F as [|? ?d ? ?l ?Hd ?F']; clear F; subst; rename F' into F). inversion F; subst.
    do 10 eexists. split; [reflexivity|]. split; [now apply folds_slash|].
    repeat constructor; try (eapply folds_not_dash; [|eassumption]; lia). intros ->. match goal with H : folds 47 45 |- _ => vm_compute in H end. intuition discriminate. }
  repeat match goal with N : Forall _ (_ :: _) |- _ => inversion N as [|? ? ?Nd ?N']; clear N; subst; rename N' into N end. clear N.
  destruct (Nat.le_gt_cases 10 (length p)) as [|G]; auto. exfalso. cbn [app] in E.
  do 7 (destruct p as [|? p]; [cbn [app] in E; apply four_eq in E as (? & ? & ? & ?); congruence|cbn [app] in E; injection E as ? E]).
  destruct p as [|? p]; [cbn [app] in E; injection E as ? ? ? ?; congruence|cbn [app] in E; injection E as ? E].
  destruct p as [|? p]; [cbn [app] in E; injection E as ? ? ?; congruence|cbn [app] in E; injection E as ? E].
  destruct p as [|? p]; [cbn [app] in E; injection E as ? ?; congruence|]. cbn [length] in G. lia.
Qed.

Lemma url_here q :
  (exists x v, match_here name_url q = Some (v, [(0, x)]) /\
     (longest_name q x \/ exists a q', q = a ++ q' /\ Forall2 folds (s "artifacts/") a /\ length a = 10 /\ longest_name q' x)) \/
  (match_here name_url q = None /\ forall x v, q = x ++ v -> ~ name_like x).
Proof.
  rewrite match_hd, run_url, hd_error_app.
  destruct (run_cis (s "artifacts/") ltac:(discriminate) q []) as [E|E].
  - rewrite E. cbn [flat_map hd_error]. destruct (cap_name q) as [(x & L & v & ->)|[N ->]]; [left; exists x, v; auto|right; auto].
  - 
    assert (Hin : In (skipn (length (s "artifacts/")) q, []) (run (cis (s "artifacts/")) q [])) by (rewrite E; now left).
    apply run_sound in Hin as (a & Eq & Hm). apply mat_lang in Hm. apply lang_cis in Hm.
    rewrite E. set (q1 := skipn (length (s "artifacts/")) q) in *. clearbody q1. cbn [flat_map fst snd]. rewrite app_nil_r.
    destruct (cap_name q1) as [(x & L & v & ->)|[N ->]].
    + left. exists x, v. split; auto. right. exists a, q1. repeat split; auto. apply Forall2_length in Hm. rewrite <- Hm. reflexivity.
    + cbn [hd_error]. destruct (cap_name q) as [(x & L & v & ->)|[N' ->]]; [left; exists x, v; auto|right; auto].
Qed.

Lemma url_exact h :
  (exists x, captures name_url h = Some [(0, x)] /\ first_name h x) \/ (captures name_url h = None /\ without_name h).
Proof.
  destruct (captures name_url h) as [cs|] eqn:E.
  - left. apply captures_some in E as (p & q & v & -> & M & Min).
    assert (Hm : forall p' q' x' v', p ++ q = p' ++ q' -> q' = x' ++ v' -> name_like x' -> length p <= length p').
    { intros p' q' x' v' Eq Eq' L. apply (Min p' q' Eq). destruct (url_here q') as [(x & v1 & -> & _)|[_ N]]; [discriminate|]. exfalso. now apply (N x' v'). }
    destruct (url_here q) as [(x & v' & M' & H)|[M' _]]; [|congruence]. rewrite M in M'. injection M' as <- ->. exists x. split; auto.
    destruct H as [(w & -> & L & Lo)|(a & q' & -> & Fa & La & w & -> & L & Lo)].
    + exists p, w. repeat split; auto.
      * intros p' x' q' Eq L'. now apply (Hm p' (x' ++ q') x' q').
      * intros x' q' Eq L'. apply app_inv_head in Eq. now apply (Lo x' q').
    + exists (p ++ a), w. rewrite <- app_assoc. repeat split; auto.
      * intros p' x' q' Eq L'. pose proof (Hm p' (x' ++ q') x' q' Eq eq_refl L') as Lp.
        assert (exists p2, p' = p ++ p2) as [p2 ->].
        { clear -Eq Lp. revert p' Eq Lp. induction p as [|c p IH]; intros p' Eq Lp; [now exists p'|]. destruct p' as [|d p']; [cbn in Lp; lia|].
          injection Eq as <- Eq. destruct (IH p' Eq) as [p2 ->]; [cbn in Lp; lia|]. now exists p2. }
        rewrite <- app_assoc in Eq. apply app_inv_head in Eq. rewrite !app_length, La.
        pose proof (no_name_inside a (x ++ w) p2 x' q' Fa Eq L'). lia.
      * intros x' q' Eq L'. rewrite <- app_assoc in Eq. do 2 apply app_inv_head in Eq. now apply (Lo x' q').
  - right. split; auto. intros p x q -> L. rewrite captures_none in E. specialize (E p (x ++ q) eq_refl).
    destruct (url_here (x ++ q)) as [(x' & v' & M' & _)|[_ N]]; [congruence|]. now apply (N x q).
Qed.

Lemma first_name_unique h x y : first_name h x -> first_name h y -> x = y.
Proof.
  intros (p & q & E & L & F & Lo) (p' & q' & E' & L' & F' & Lo').
  assert (length p = length p') by (pose proof (F p' y q' E' L'); pose proof (F' p x q E L); lia).
  rewrite E in E'. apply app_eq_app in E' as (w & [[-> Ew]|[-> Ew]]); rewrite app_length in *; assert (w = []) as -> by (destruct w; [auto|cbn in *; lia]);
    rewrite ?app_nil_r in *; cbn [app] in *.
  - assert (length x = length y). { pose proof (Lo y q'). pose proof (Lo' x q). rewrite E in *. rewrite Ew in *. intuition lia. }
    clear -Ew H0. revert y Ew H0. induction x as [|c x IH]; intros [|d y] Ew H0; try discriminate; auto. injection Ew as -> Ew. f_equal. apply IH; auto.
  - assert (length x = length y). { pose proof (Lo y q'). pose proof (Lo' x q). rewrite E in *. rewrite <- Ew in *. intuition lia. }
    clear -Ew H0. revert y Ew H0. induction x as [|c x IH]; intros [|d y] Ew H0; try discriminate; auto. injection Ew as -> Ew. f_equal. apply IH; auto.
Qed.

(** ** Edits *)
Lemma firstn_part (c : N) ds v t : t = ds ++ v -> firstn (length (c :: t) - length v) (c :: t) = c :: ds.
Proof.
  intros ->. cbn [length]. rewrite app_length. replace (S (length ds + length v) - length v) with (S (length ds)) by lia.
  cbn [firstn]. now rewrite firstn_app, firstn_all, Nat.sub_diag, app_nil_r.
Qed.
Section Edit.
  Variable dig : char -> bool.
  Notation digit := (fun c => dig c = true).
  Lemma edit_ci m : lang (cis (s "edit/")) m <-> str_ci (s "edit/") m.
  Proof.
    rewrite lang_cis. unfold str_ci. assert (F : forall a b, In a (s "edit/") -> folds a b <-> char_ci a b).
    { intros a b Ha. unfold folds, char_ci, upc, is_lower, c_longs, c_kelvin.
      let y := eval vm_compute in (s "edit/") in change (s "edit/") with y in Ha.
      cbn [In] in Ha. repeat match goal with |- context [if ?b then _ else _] => destruct b eqn:? end; lia. }
    now apply forall2_iff.
  Qed.
  Lemma edit_run q : (exists x v, match_here (edit_url dig) q = Some (v, [(0, x)]) /\ edit_here digit q x) \/
    (match_here (edit_url dig) q = None /\ forall x, ~ edit_here digit q x).
  Proof.
    rewrite match_hd. change (run (edit_url dig) q []) with (flat_map (fun st : mstate => run (Cap 0 (plus (Cls dig))) (fst st) (snd st)) (run (cis (s "edit/")) q [])).
    assert (P : forall t, hd_error (run (Cap 0 (plus (Cls dig))) t []) =
      match t with c :: t' => if dig c then Some (drop_while dig t', [(0, firstn (length t - length (drop_while dig t')) t)]) else None | [] => None end).
    { intros t. rewrite run_cap. destruct t as [|c t]; [reflexivity|]. unfold plus.
      change (run (Seq (Cls dig) (Star true (Cls dig))) (c :: t) []) with (flat_map (fun st : mstate => run (Star true (Cls dig)) (fst st) (snd st)) (run (Cls dig) (c :: t) [])).
      rewrite run_cls_cons. destruct (dig c); [|reflexivity]. cbn [flat_map fst snd]. rewrite app_nil_r.
      change (run (Star true (Cls dig)) t []) with (iter (run (Cls dig)) true (length t) t []).
      pose proof (star_cls_hd dig (length t) t [] (le_n _)) as E. destruct (iter (run (Cls dig)) true (length t) t []) as [|st l]; [discriminate|].
      cbn [hd_error] in E. injection E as ->. reflexivity. }
    destruct (run_cis (s "edit/") ltac:(discriminate) q []) as [E|E].
    - right. rewrite E. split; [reflexivity|]. intros x (e & v & -> & Ce & _). apply edit_ci in Ce. destruct (run_complete_in _ e (x ++ v) [] Ce) as (cs' & Hin). rewrite E in Hin. destruct Hin.
    - assert (Hin : In (skipn (length (s "edit/")) q, []) (run (cis (s "edit/")) q [])) by (rewrite E; now left).
      apply run_sound in Hin as (e & Eq & Hm). apply mat_lang in Hm. apply edit_ci in Hm. rewrite E. set (t := skipn (length (s "edit/")) q) in *.
      cbn [flat_map fst snd]. rewrite app_nil_r, P.
      assert (Le : length e = 5) by (apply Forall2_length in Hm; now rewrite <- Hm).
      assert (Same : forall e' w, q = e' ++ w -> str_ci (s "edit/") e' -> w = t).
      { intros e' w Eq' C. apply Forall2_length in C. unfold t. rewrite Eq', C, skipn_app, Nat.sub_diag, skipn_all. reflexivity. }
      destruct t as [|c t'] eqn:Et.
      + right. split; auto. intros x (e' & v & Eq' & C & Nx & _). apply Same in Eq'; auto. destruct x; [congruence|discriminate].
      + destruct (dig c) eqn:Dc.
        * left. destruct (drop_while_spec dig t') as (ds & Ed & Fd & Hv). exists (c :: ds), (drop_while dig t'). split.
          -- now rewrite (firstn_part c ds _ t' Ed).
          -- exists e, (drop_while dig t'). split; [rewrite Eq; apply f_equal; cbn [app]; apply f_equal; exact Ed|]. split; auto. split; [discriminate|]. split; [constructor; auto|].
             destruct (drop_while dig t'); auto. congruence.
        * right. split; auto. intros x (e' & v & Eq' & C & Nx & Fx & _). apply Same in Eq'; auto. destruct x as [|d x]; [congruence|]. injection Eq' as -> _. inversion Fx. congruence.
  Qed.
  Lemma edit_exact h : (exists x, captures (edit_url dig) h = Some [(0, x)] /\ first_edit digit h x) \/
    (captures (edit_url dig) h = None /\ forall x, ~ first_edit digit h x).
  Proof.
    destruct (captures (edit_url dig) h) as [cs|] eqn:E.
    - left. apply captures_some in E as (p & q & v & -> & M & Min). destruct (edit_run q) as [(x & v' & M' & H)|[M' _]]; [|congruence].
      rewrite M in M'. injection M' as <- ->. exists x. split; auto. exists p, q. repeat split; auto. intros p' q' ds' Eq H'. apply (Min p' q' Eq).
      destruct (edit_run q') as [(? & ? & -> & _)|[_ N]]; [discriminate|]. now apply N in H'.
    - right. split; auto. intros x (p & q & -> & H & _). rewrite captures_none in E. specialize (E p q eq_refl). destruct (edit_run q) as [(? & ? & M & _)|[_ N]]; [congruence|]. now apply N in H.
  Qed.
End Edit.

Lemma lower_graph h : lower h = s "graph" <-> str_ci (s "graph") h.
Proof.
  assert (X : forall g, Forall (fun c => 97 <= c <= 122)%N g -> forall h, lower h = g <-> str_ci g h).
  { intros g F. induction F as [|c g Hc F IH]; intros h0.
    - destruct h0; split; intros X; try discriminate; try constructor. inversion X.
    - destruct h0 as [|d h0]; [split; [discriminate|intros X; inversion X]|]. cbn [lower map]. fold (lower h0). split.
      + intros X. constructor; [|apply IH; congruence]. assert (E : lowc d = c) by congruence. unfold lowc, is_upper in E. unfold char_ci. destruct ((65 <=? d)%N && (d <=? 90)%N) eqn:B; lia.
      + intros X. inversion X as [|? ? ? ? Hd X']; subst. apply IH in X'. rewrite X'. f_equal. unfold lowc, is_upper, char_ci in *. destruct ((65 <=? d)%N && (d <=? 90)%N) eqn:B; lia. }
  apply X. apply Forall_forall. intros c Hc. vm_compute in Hc. lia.
Qed.
