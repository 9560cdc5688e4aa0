(** Scanning texts for references. *)
From Coq Require Import Lia ZifyBool Sorted.
From Verif Require Import Base BaseFacts Regex RegexFacts ScanFacts Name SpecName NameFacts SubFacts LineFacts SpecMarkdown MarkdownFacts SpecLint.

Definition ref_caps (x y : str) : caps := match y with [] => [(0, x)] | _ => [(1, y); (0, x)] end.

Lemma sub_not_nil y : valid_sub y -> y <> [].
Proof. intros H. apply valid_sub_chars in H as (z & -> & _). discriminate. Qed.

Lemma mat_text_ref m cs : mat re_text_ref m [] cs ->
  exists x y, (valid_name x \/ longs_name x) /\ (y = [] \/ valid_sub y) /\ m = s "[[" ++ x ++ y ++ s "]]" /\ cs = ref_caps x y.
Proof.
  unfold re_text_ref. simpl. intros H.
  inversion H as [| |? ? a1 b1 ? k1 ? H1 H2| | | | |]; subst. apply mat_lit in H1 as [-> ->].
  inversion H2 as [| |? ? a2 b2 ? k2 ? H3 H4| | | | |]; subst. apply mat_lit in H3 as [-> ->].
  inversion H4 as [| |? ? a3 b3 ? k3 ? H5 H6| | | | |]; subst.
  inversion H5 as [| | | | | | |? ? ? ? k4 H7]; subst.
  pose proof (no_cap_mat _ _ _ _ H7 eq_refl) as ->.
  inversion H6 as [| |? ? a5 b5 ? k5 ? H8 H9| | | | |]; subst.
  inversion H9 as [| |? ? a6 b6 ? k6 ? H10 H11| | | | |]; subst. apply mat_lit in H10 as [-> ->].
  apply mat_lit in H11 as [-> ->].
  assert (Hx : valid_name a3 \/ longs_name a3) by (apply lang_name_words; eapply mat_lang; eauto).
  unfold opt in H8. exists a3, a5. split; auto.
  inversion H8 as [| | |? ? ? ? ? HA|? ? ? ? ? HA| | |]; subst.
  - inversion HA as [| | | | | | |? ? ? ? k7 HB]; subst. pose proof (no_cap_mat _ _ _ _ HB eq_refl) as ->.
    assert (V : valid_sub a5) by (apply lang_sub; eapply mat_lang; eauto).
    split; auto. split; [reflexivity|]. pose proof (sub_not_nil _ V). unfold ref_caps. now destruct a5.
  - inversion HA; subst. split; auto.
Qed.

Lemma lang_text_ref m : lang re_text_ref m <->
  exists x y, (valid_name x \/ longs_name x) /\ (y = [] \/ valid_sub y) /\ m = s "[[" ++ x ++ y ++ s "]]".
Proof.
  unfold re_text_ref. split.
  - intros H. apply lang_seqs_cons in H as (a & b & -> & Ha & H). apply lang_lit in Ha. subst a.
    apply lang_seqs_cons in H as (a & b1 & -> & Ha & H). apply lang_lit in Ha. subst a.
    apply lang_seqs_cons in H as (x & b2 & -> & Ha & H). apply lang_cap, lang_name_words in Ha.
    apply lang_seqs_cons in H as (y & b3 & -> & Hy & H).
    apply lang_seqs_cons in H as (a & b4 & -> & Hb & H). apply lang_lit in Hb. subst a.
    simpl in H. apply lang_lit in H. subst. exists x, y. split; auto. split; [|reflexivity].
    unfold opt in Hy. apply lang_alt in Hy as [Hy|Hy].
    + right. now apply lang_cap, lang_sub in Hy.
    + left. now apply lang_eps in Hy.
  - intros (x & y & Hx & Hy & ->).
    apply lang_seqs_cons. exists [c_lbr], (c_lbr :: x ++ y ++ s "]]"). repeat split; [now apply lang_lit|].
    apply lang_seqs_cons. exists [c_lbr], (x ++ y ++ s "]]"). repeat split; [now apply lang_lit|].
    apply lang_seqs_cons. exists x, (y ++ s "]]"). repeat split; [now apply lang_cap, lang_name_words|].
    apply lang_seqs_cons. exists y, (s "]]"). repeat split.
    { unfold opt. apply lang_alt. destruct Hy as [->|Hy]; [right; now apply lang_eps|left; now apply lang_cap, lang_sub]. }
    apply lang_seqs_cons. exists [c_rbr], [c_rbr]. repeat split; now apply lang_lit.
Qed.

Lemma name_no_special x : valid_name x \/ longs_name x -> forall c, In c x -> word_char c \/ c = 45%N.
Proof. intros H. apply name_long in H as [_ F]. now rewrite Forall_forall in F. Qed.

Lemma ref_no_br x y : (valid_name x \/ longs_name x) -> (y = [] \/ valid_sub y) -> ~ In c_rbr (x ++ y) /\ ~ In c_lbr (x ++ y).
Proof.
  intros Hx Hy.
  assert (B : ~ In c_rbr y /\ ~ In c_lbr y) by (destruct Hy as [->|Hy]; [split; intros []|now apply valid_sub_no_br]).
  split; intros Hin; apply in_app_iff in Hin as [Hin|Hin]; try tauto;
    apply (name_no_special x Hx) in Hin; unfold word_char, c_rbr, c_lbr in Hin; lia.
Qed.

(** A name and a subname next to each other are told apart by the dot. *)
Lemma ref_unique x y x' y' : (valid_name x \/ longs_name x) -> (valid_name x' \/ longs_name x') ->
  (y = [] \/ valid_sub y) -> (y' = [] \/ valid_sub y') -> x ++ y = x' ++ y' -> x = x' /\ y = y'.
Proof.
  intros Hx Hx' Hy Hy' E.
  assert (D : forall z, valid_name z \/ longs_name z -> ~ In 46%N z).
  { intros z Hz Hin. apply (name_no_special z Hz) in Hin. unfold word_char in Hin. lia. }
  destruct Hy as [->|Hy], Hy' as [->|Hy'].
  - rewrite !app_nil_r in E. auto.
  - apply valid_sub_chars in Hy' as (z & -> & _). rewrite app_nil_r in E. exfalso. apply (D x Hx). rewrite E.
    apply in_or_app. right. now left.
  - apply valid_sub_chars in Hy as (z & -> & _). rewrite app_nil_r in E. exfalso. apply (D x' Hx'). rewrite <- E.
    apply in_or_app. right. now left.
  - apply valid_sub_chars in Hy as (z & -> & _), Hy' as (z' & -> & _).
    apply app_stop in E as [-> E]; auto. split; congruence.
Qed.

Lemma match_here_text_ref q rest cs :
  match_here re_text_ref q = Some (rest, cs) <->
  exists x y, (valid_name x \/ longs_name x) /\ (y = [] \/ valid_sub y) /\
    q = s "[[" ++ x ++ y ++ s "]]" ++ rest /\ cs = ref_caps x y.
Proof.
  split.
  - intros H. apply match_here_sound in H as (m & -> & M).
    apply mat_text_ref in M as (x & y & Hx & Hy & -> & ->). exists x, y. repeat split; auto. now rewrite <- !app_assoc.
  - intros (x & y & Hx & Hy & -> & ->).
    destruct (match_here_some re_text_ref (s "[[" ++ x ++ y ++ s "]]") rest) as (rest' & cs' & E).
    { apply lang_text_ref. eauto 6. }
    rewrite <- !app_assoc in E. rewrite E.
    apply match_here_sound in E as (m & Em & M). apply mat_text_ref in M as (x' & y' & Hx' & Hy' & -> & ->).
    rewrite <- !app_assoc in Em. apply app_inv_head in Em. rewrite !app_assoc in Em.
    rewrite <- !(app_assoc _ (s "]]")) in Em.
    change (s "]]" ++ rest) with (c_rbr :: c_rbr :: rest) in Em.
    change (s "]]" ++ rest') with (c_rbr :: c_rbr :: rest') in Em.
    apply app_stop in Em as [E1 E2].
    + apply ref_unique in E1 as [-> ->]; auto. now injection E2 as ->.
    + now apply ref_no_br.
    + now apply ref_no_br.
Qed.

Lemma consuming_text_ref : consuming re_text_ref.
Proof. intros H. apply lang_text_ref in H as (x & y & _ & _ & E). discriminate. Qed.

Lemma isolated_text_ref : isolated re_text_ref.
Proof.
  intros c m rest cs H a b -> Hb.
  apply match_here_text_ref in H as (x & y & Hx & Hy & E & _).
  destruct (match_here re_text_ref (b ++ rest)) as [[rest' cs']|] eqn:E2; auto. exfalso.
  apply match_here_text_ref in E2 as (x2 & y2 & Hx2 & _ & E2 & _).
  assert (Em : c :: a ++ b = s "[[" ++ (x ++ y) ++ s "]]").
  { apply app_inv_tail with rest.
    change ((c :: a ++ b) ++ rest) with (c :: (a ++ b) ++ rest). rewrite E. now rewrite <- !app_assoc. }
  simpl in Em. injection Em as -> Em.
  destruct (ref_no_br x y Hx Hy) as [_ Nl].
  assert (N0 : x <> []) by (apply name_long in Hx as [L _]; destruct x; [simpl in L; lia|discriminate]).
  destruct a as [|a0 a].
  - simpl in Em. subst b. simpl in E2. injection E2 as E2. destruct x as [|x0 x]; [congruence|]. simpl in E2.
    injection E2 as E2 _. apply Nl. subst. left. reflexivity.
  - simpl in Em. injection Em as -> Em.
    destruct b as [|b0 b]; [congruence|]. simpl in E2. injection E2 as -> E2.
    assert (Hin : In 91%N ((x ++ y) ++ s "]]")).
    { rewrite <- Em. apply in_or_app. right. now left. }
    apply in_app_iff in Hin as [Hin|[Hin|[Hin|[]]]]; try discriminate. contradiction.
Qed.

Lemma text_refs_in t cs : In cs (find_all re_text_ref t) <-> exists x y, ref_in t x y /\ cs = ref_caps x y.
Proof.
  unfold find_all. rewrite (find_all_all _ _ consuming_text_ref isolated_text_ref (length t) 0 (le_n _)).
  rewrite in_map_iff. split.
  - intros ([i cs'] & E & Hin). simpl in E. subst cs'. apply all_matches_in in Hin as (p & q & rest & -> & _ & Hm).
    apply match_here_text_ref in Hm as (x & y & Hx & Hy & -> & ->). exists x, y. split; auto. split; auto. split; auto.
    exists p, rest. reflexivity.
  - intros (x & y & (Hx & Hy & u & v & ->) & ->). exists (length u + 0, ref_caps x y). split; auto.
    apply all_matches_in. exists u, (s "[[" ++ x ++ y ++ s "]]" ++ v), v. split; auto. split; auto.
    apply match_here_text_ref. exists x, y. auto.
Qed.

Lemma ref_caps_get x y : (y = [] \/ valid_sub y) ->
  cap_get 0 (ref_caps x y) = Some x /\ cap_get 1 (ref_caps x y) = match y with [] => None | _ => Some y end.
Proof. intros Hy. destruct y; split; reflexivity. Qed.
