(** Every reference and every subname of a text is found by rendering, if need be in a block. *)
From Coq Require Import Lia ZifyBool.
From Verif Require Import Base BaseFacts Regex RegexFacts ScanFacts Name SpecName NameFacts SubFacts LineFacts SpecMarkdown MarkdownFacts RefFacts Artifact Lint SpecLint LintFacts Api Render SpecRender RenderFacts SpecExport ExportFacts.
Open Scope nat_scope.

(** A piece between brackets. *)
Definition bracket (m : piece) (z : str) : Prop :=
  match m with
  | PSub x => valid_sub x /\ z = x
  | PRef x y => (valid_name x \/ longs_name x) /\ (y = [] \/ valid_sub y) /\ z = x ++ y
  | _ => False
  end.
Lemma bracket_mark m z b rest : bracket m z -> mark b m rest.
Proof. destruct m; cbn [bracket]; try contradiction; [intros [V _]; now constructor|intros (V & Y & _); now constructor]. Qed.
Lemma bracket_source m z : bracket m z -> source m = s "[[" ++ z ++ s "]]".
Proof. destruct m; cbn [bracket source]; try contradiction; [intros [_ ->]; reflexivity|intros (_ & _ & ->); flat; reflexivity]. Qed.
Lemma name_plain c : name_ch c -> c <> 91%N /\ c <> 93%N /\ c <> 10%N.
Proof. unfold name_ch, word_char. lia. Qed.
Lemma sub_plain x : valid_sub x -> forall c, In c x -> c <> 91%N /\ c <> 93%N /\ c <> 10%N.
Proof.
  intros V. apply valid_sub_chars in V as (q & -> & _ & F). rewrite Forall_forall in F. intros c [<-|Hc]; [unfold c_dot; lia|]. apply name_plain. exact (F c Hc).
Qed.
Lemma bracket_chars m z : bracket m z -> z <> [] /\ forall c, In c z -> c <> 91%N /\ c <> 93%N /\ c <> 10%N.
Proof.
  destruct m as [|x|x y|]; cbn [bracket]; try contradiction.
  - intros [V ->]. split; [now apply sub_not_nil|now apply sub_plain].
  - intros (V & Y & ->). apply name_long in V as [L F]. rewrite Forall_forall in F. split; [destruct x; [simpl in L; lia|discriminate]|].
    intros c Hc. apply in_app_iff in Hc as [Hc|Hc]; [apply name_plain; auto|]. destruct Y as [->|Y]; [contradiction|]. eapply sub_plain; eauto.
Qed.
Lemma bracket_inj m m' z : bracket m z -> bracket m' z -> m = m'.
Proof.
  assert (X : forall x y z, (valid_name x \/ longs_name x) -> valid_sub z -> z = x ++ y -> False).
  { intros x y q V S E. apply valid_sub_chars in S as (r & -> & _ & _). apply name_long in V as [L F]. destruct x as [|c x]; [simpl in L; lia|]. injection E as <- _. inversion F as [|? ? A _]. unfold name_ch, word_char, c_dot in A. lia. }
  destruct m as [|x|x y|], m' as [|x'|x' y'|]; cbn [bracket]; try contradiction.
  - intros [_ ->] [_ ->]. reflexivity.
  - intros [V ->] (V' & _ & E). exfalso. eapply X; eauto.
  - intros (V' & _ & E) [V ->]. exfalso. eapply X; eauto.
  - intros (V & Y & ->) (V' & Y' & E). destruct (ref_unique x y x' y' V V' Y Y' E) as [-> ->]. reflexivity.
Qed.
Lemma app_cases {A} (a b c d : list A) : a ++ b = c ++ d -> (exists l, c = a ++ l /\ b = l ++ d) \/ (exists e l, a = c ++ e :: l /\ e :: l ++ b = d).
Proof.
  revert c. induction a as [|e a IH]; intros c E; [left; exists c; auto|]. destruct c as [|e' c]; [right; exists e, a; auto|].
  injection E as <- E. destruct (IH c E) as [(l & -> & ->)|(e1 & l & -> & <-)]; [left; exists l; auto|right; exists e1, l; auto].
Qed.
Lemma in_first (c : char) a b u q : a ++ b = u ++ c :: q -> ~ In c a -> exists l, u = a ++ l /\ b = l ++ c :: q.
Proof. intros E N. apply app_cases in E as [(l & -> & ->)|(e & l & -> & X)]; [eauto|]. injection X as -> _. exfalso. apply N, in_or_app. right. now left. Qed.

Lemma ci_in c x y : str_ci x y -> In c y -> exists d, In d x /\ char_ci d c.
Proof. induction 1 as [|a b x y A F IH]; [intros []|]. intros [<-|Hc]; [exists a; split; [now left|auto]|]. destruct (IH Hc) as (d & Hd & C). exists d. split; [now right|auto]. Qed.

Theorem cut_finds b t ks : cut b t ks -> forall m z u v, bracket m z -> t = u ++ source m ++ v ->
  In m ks \/ exists f w body u' v', In (PDot f w body) ks /\ body = u' ++ source m ++ v'.
Proof.
  induction 1 as [b|b k rest ks Mk Pf Ck IH|b c rest ks Nk Ck IH]; intros m z u v B E.
  - exfalso. apply (f_equal (@length char)) in E. rewrite (bracket_source m z B), !app_length in E. simpl in E. lia.
  - apply app_cases in E as [(l & -> & E)|(e & l & E & X)].
    { destruct (IH m z l v B E) as [Hin|(f & w & body & u' & v' & Hin & Eb)]; [left; now right|right]. exists f, w, body, u', v'. split; [now right|auto]. }
    rewrite (bracket_source m z B) in X. destruct (bracket_chars m z B) as [Nz Fz]. assert (e = 91%N) as -> by (apply (f_equal (hd 0%N)) in X; exact X).
    assert (Br : (exists z', bracket k z') \/ exists f w body, k = PDot f w body).
    { inversion Mk; subst; [left; exists x; split; auto|left; exists (x ++ y); cbn [bracket]; auto|right; eauto]. }
    destruct Br as [(z' & Bk)|(f & w & body & ->)].
    + rewrite (bracket_source k z' Bk) in E. destruct (bracket_chars k z' Bk) as [Nz' Fz']. destruct u as [|c u].
      * left. left. cbn [app] in E. assert (z' = z); [|subst; eapply bracket_inj; eauto]. cbn [app] in X. assert (E' : l = tl (s "[[" ++ z' ++ s "]]")) by (rewrite E; reflexivity). subst l. clear E.
        assert (X' : z' ++ 93%N :: 93%N :: rest = z ++ 93%N :: 93%N :: v).
        { apply (f_equal (@tl char)), (f_equal (@tl char)) in X. change ((z' ++ s "]]") ++ rest = (z ++ s "]]") ++ v) in X. rewrite <- !app_assoc in X. exact X. }
        apply app_stop in X' as [X' _]; auto; intros Hc; [apply Fz' in Hc|apply Fz in Hc]; lia.
      * exfalso. assert (E1 : 91%N :: z' ++ s "]]" = u ++ 91%N :: l) by (apply (f_equal (@tl char)) in E; exact E). destruct u as [|c1 u].
        -- cbn [app] in E1. assert (E2 : l = z' ++ s "]]") by (apply (f_equal (@tl char)) in E1; symmetry; exact E1). subst l. destruct z' as [|d z']; [congruence|].
           apply (f_equal (@tl char)), (f_equal (hd 0%N)) in X. cbn [app tl hd] in X. change (d = 91%N) in X. destruct (Fz' d (or_introl eq_refl)) as [A _]. contradiction.
        -- assert (E2 : z' ++ s "]]" = u ++ 91%N :: l) by (apply (f_equal (@tl char)) in E1; exact E1).
           assert (Hc : In 91%N (z' ++ s "]]")) by (rewrite E2; apply in_or_app; right; now left). apply in_app_iff in Hc as [Hc|Hc]; [apply Fz' in Hc; tauto|]. destruct Hc as [Hc|[Hc|[]]]; discriminate Hc.
    + right. exists f, w, body. apply mark_block in Mk as (_ & Cf & Fw & _ & _).
      assert (E1 : (f ++ w ++ [10%N]) ++ body ++ 10%N :: s "```" = u ++ 91%N :: l) by (rewrite <- E; cbn [source]; flat; reflexivity).
      apply in_first in E1 as (l1 & -> & E1).
      2:{ intros Hc. rewrite !in_app_iff in Hc. destruct Hc as [Hc|[Hc|[Hc|[]]]]; [|rewrite Forall_forall in Fw; specialize (Fw _ Hc); discriminate Fw|discriminate Hc].
          apply (ci_in 91%N) in Cf; [|exact Hc]. destruct Cf as (d & Hd & C). cbn in Hd. unfold char_ci in C. repeat destruct Hd as [<-|Hd]; try contradiction; lia. }
      apply app_cases in E1 as [(l2 & -> & E1)|(e & l2 & -> & E1)].
      { exfalso. assert (Hc : In 91%N (10%N :: s "```")) by (rewrite E1; apply in_or_app; right; now left). cbn in Hc. repeat destruct Hc as [Hc|Hc]; try discriminate Hc; contradiction. }
      assert (e = 91%N) as -> by (apply (f_equal (hd 0%N)) in E1; exact E1). apply (f_equal (@tl char)) in E1. cbn [tl] in E1. subst l.
      assert (X' : (91%N :: l2) ++ 10%N :: s "```" ++ rest = (s "[[" ++ z ++ s "]]") ++ v) by (rewrite <- X; flat; reflexivity). apply app_cases in X' as [(l3 & E3 & E4)|(e & l3 & E3 & E4)].
      * destruct l3 as [|c l3].
        -- exists l1, []. split; [now left|]. rewrite (bracket_source m z B), app_nil_r. rewrite app_nil_r in E3. rewrite E3. reflexivity.
        -- exfalso. assert (c = 10%N) as -> by (apply (f_equal (hd 0%N)) in E4; symmetry; exact E4). assert (Hc : In 10%N (s "[[" ++ z ++ s "]]")) by (rewrite E3; apply in_or_app; right; now left).
           rewrite !in_app_iff in Hc. destruct Hc as [Hc|[Hc|Hc]]; [cbn in Hc; repeat destruct Hc as [Hc|Hc]; try discriminate Hc; contradiction|apply Fz in Hc; tauto|cbn in Hc; repeat destruct Hc as [Hc|Hc]; try discriminate Hc; contradiction].
      * exists l1, (e :: l3). split; [now left|]. rewrite (bracket_source m z B), E3. reflexivity.
  - destruct u as [|c' u].
    + exfalso. apply (Nk m v (bracket_mark m z b v B)). cbn [app] in E. symmetry. exact E.
    + cbn [app] in E. assert (E' : rest = u ++ source m ++ v) by (apply (f_equal (@tl char)) in E; exact E).
      destruct (IH m z u v B E') as [Hin|(f & w & body & u' & v' & Hin & Eb)]; [left; now right|right]. exists f, w, body, u', v'. split; [now right|auto].
Qed.

(** ** What cannot be rendered, in terms of the text *)
Lemma piece_sub t k : (exists u r, t = u ++ source k ++ r) -> forall x, k = PSub x -> valid_sub x -> exists u, sub_at t u x.
Proof. intros (u & r & ->) x -> V. exists u. split; [exact V|]. exists r. cbn [source]. flat. reflexivity. Qed.
Section Broken.
  Context {M : num} {H : Type}.
  Variable path_str : path -> str.
  Variable strfmt : str -> str -> str -> option str.
  Variable p : project M H.
  Variable base : str.
  Variable ms : md_settings.
  Lemma broken_iff parent t ks : cut true t ks ->
    (exists k, In k ks /\ broken path_str strfmt p base ms parent k) <->
    (exists x y, ref_in t x y /\ longs_name x) \/ (longs_name parent /\ exists u x, sub_at t u x) \/
    (exists x, In (PSub x) ks /\ no_link path_str strfmt p base ms parent x).
  Proof.
    intros Ck. pose proof (cut_fit _ _ _ Ck) as Fk. rewrite Forall_forall in Fk.
    assert (D : forall f w b ks' m z, In (PDot f w b) ks -> cut true (b ++ [10%N]) ks' -> bracket m z -> In m ks' -> exists u r, t = u ++ source m ++ r).
    { intros f w b ks' m z Hk Ck' B Hm. pose proof (cut_split _ _ _ Ck _ Hk) as (u & b' & r & Et & _). pose proof (cut_split _ _ _ Ck' _ Hm) as S.
      assert (S' : exists u' r', b ++ [10%N] = u' ++ source m ++ r') by (destruct m; [contradiction| | |contradiction]; destruct S as (u' & b'' & r' & X & _); eauto).
      destruct S' as (u' & r' & E). exists (u ++ f ++ w ++ 10%N :: u'), (r' ++ s "```" ++ r). rewrite Et. cbn [source].
      transitivity (u ++ f ++ w ++ 10%N :: (b ++ [10%N]) ++ s "```" ++ r); [flat; reflexivity|]. rewrite E. flat. reflexivity. }
    assert (T : forall k, In k ks -> match k with PChar _ => True | _ => exists u r, t = u ++ source k ++ r end).
    { intros k Hk. pose proof (cut_split _ _ _ Ck k Hk) as S. destruct k; [exact I| | |]; destruct S as (u & b' & r & E & _); eauto. }
    assert (Inner : forall m z f w b u v, bracket m z -> In (PDot f w b) ks -> b = u ++ source m ++ v -> exists ks', cut true (b ++ [10%N]) ks' /\ In m ks').
    { intros m z f w b u v B Hk Eb. destruct (cut_exists true (b ++ [10%N])) as (ks' & Ck'). exists ks'. split; [exact Ck'|].
      destruct (cut_finds _ _ _ Ck' m z u (v ++ [10%N]) B) as [Hin|(f' & w' & b' & _ & _ & Hin & _)]; [rewrite Eb; flat; reflexivity|exact Hin|].
      destruct (Fk _ Hk) as (r & Mk & Pf). exfalso. eapply no_nested; eauto. }
    split.
    - intros (k & Hk & B). pose proof (T k Hk) as S. destruct B as [x L|x N|x y L|f w b ks' x Ck' Hx L|f w b ks' x y Ck' Hx L].
      + right. left. split; [exact L|]. destruct (piece_sub t (PSub x) S x eq_refl (Fk _ Hk)) as (u & A). eauto.
      + right. right. eauto.
      + left. destruct (Fk _ Hk) as [V Y]. destruct S as (u & r & E). exists x, y. split; [|exact L]. split; [exact V|]. split; [exact Y|]. exists u, r. rewrite E. cbn [source]. flat. reflexivity.
      + right. left. split; [exact L|]. pose proof (cut_fit _ _ _ Ck') as Fk'. rewrite Forall_forall in Fk'. pose proof (Fk' _ Hx) as V. cbn [fit] in V.
        assert (S' : exists u r, t = u ++ source (PSub x) ++ r) by (apply (D f w b ks' (PSub x) x Hk Ck'); [split; auto|exact Hx]). destruct (piece_sub t _ S' x eq_refl V) as (u & A). eauto.
      + left. pose proof (cut_fit _ _ _ Ck') as Fk'. rewrite Forall_forall in Fk'. destruct (Fk' _ Hx) as [V Y]. exists x, y. split; [|exact L].
        assert (S' : exists u r, t = u ++ source (PRef x y) ++ r) by (apply (D f w b ks' (PRef x y) (x ++ y) Hk Ck'); [cbn [bracket]; auto|exact Hx]). destruct S' as (u & r & E). split; [exact V|]. split; [exact Y|]. exists u, r. rewrite E. cbn [source]. flat. reflexivity.
    - intros [(x & y & (V & Y & u & v & E) & L)|[(L & u & x & V & q & E)|(x & Hx & N)]].
      + assert (B : bracket (PRef x y) (x ++ y)) by (cbn [bracket]; auto). destruct (cut_finds _ _ _ Ck (PRef x y) (x ++ y) u v B) as [Hin|(f & w & b & u' & v' & Hin & Eb)].
        * rewrite E. cbn [source]. flat. reflexivity.
        * exists (PRef x y). split; [exact Hin|now constructor].
        * destruct (Inner _ _ _ _ _ _ _ B Hin Eb) as (ks' & Ck' & Hm). exists (PDot f w b). split; [exact Hin|]. eapply BDotName; eauto.
      + assert (B : bracket (PSub x) x) by (split; auto). destruct (cut_finds _ _ _ Ck (PSub x) x u q B) as [Hin|(f & w & b & u' & v' & Hin & Eb)].
        * rewrite E. cbn [source]. flat. reflexivity.
        * exists (PSub x). split; [exact Hin|now constructor].
        * destruct (Inner _ _ _ _ _ _ _ B Hin Eb) as (ks' & Ck' & Hm). exists (PDot f w b). split; [exact Hin|]. eapply BDotParent; eauto.
      + exists (PSub x). split; [exact Hx|now constructor].
  Qed.
End Broken.
(** A text without double brackets and without three back ticks has no pieces but characters. *)
Lemma cut_plain t : (forall u v, t <> u ++ s "[[" ++ v) -> (forall u v, t <> u ++ s "```" ++ v) -> cut true t (map PChar t).
Proof.
  intros N1 N2. destruct (cut_exists true t) as (ks & Ck). assert (A : forall k, In k ks -> exists c, k = PChar c).
  { intros k Hk. pose proof (cut_split _ _ _ Ck k Hk) as S. destruct k as [c|x|x y|f w b]; [eauto| | |]; exfalso; destruct S as (u & b' & r & E & Mk).
    - apply (N1 u (x ++ s "]]" ++ r)). rewrite E. cbn [source]. flat. reflexivity.
    - apply (N1 u (x ++ y ++ s "]]" ++ r)). rewrite E. cbn [source]. flat. reflexivity.
    - apply mark_block in Mk as (_ & Cf & _). assert (X : exists q, f = s "```" ++ q).
      { destruct f as [|c0 [|c1 [|c2 q]]]; [inversion Cf|inversion Cf as [|? ? ? ? _ C1]; inversion C1|inversion Cf as [|? ? ? ? _ C1]; inversion C1 as [|? ? ? ? _ C2]; inversion C2|].
        inversion Cf as [|? ? ? ? A0 C1]; subst. inversion C1 as [|? ? ? ? A1 C2]; subst. inversion C2 as [|? ? ? ? A2 C3]; subst. exists q. unfold char_ci in A0, A1, A2.
        assert (c0 = 96%N) by lia. assert (c1 = 96%N) by lia. assert (c2 = 96%N) by lia. subst. reflexivity. }
      destruct X as (q & ->). apply (N2 u (q ++ w ++ 10%N :: b ++ 10%N :: s "```" ++ r)). rewrite E. cbn [source]. flat. reflexivity. }
  pose proof (cut_source _ _ _ Ck) as Es. assert (Em : ks = map PChar t); [|rewrite <- Em; exact Ck].
  rewrite <- Es. clear -A. induction ks as [|k ks IH]; [reflexivity|]. destruct (A k (or_introl eq_refl)) as (c & ->). cbn [map concat source app]. f_equal. apply IH. intros k Hk. apply A. now right.
Qed.
