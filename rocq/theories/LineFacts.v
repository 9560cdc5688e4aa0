(** The patterns of Markdown.v recognise the lines of SpecMarkdown.v. *)
From Coq Require Import Lia ZifyBool.
From Verif Require Import Base BaseFacts Regex RegexFacts Name SpecName NameFacts SubFacts RawNames Artifact Stored LinkFacts
  Markdown SpecMarkdown.

Lemma fold_folds c d : char_fold c d <-> folds c d.
Proof.
  unfold char_fold, folds. rewrite !char_ci_upc. change (upc 115) with 83%N. change (upc 107) with 75%N.
  unfold c_longs, c_kelvin. intuition.
Qed.

Lemma lang_ws w : lang (Star true ws) w <-> blanks w.
Proof. apply lang_star_cls. Qed.

Lemma exists_last_dec {A} (l : list A) : l = [] \/ exists p c, l = p ++ [c].
Proof. destruct l as [|x l]; auto. right. destruct (exists_last (l := x :: l)) as (p & c & E); [discriminate|]. eauto. Qed.

Lemma lang_lit_star c w : lang (Star true (lit c)) w <-> exists k, w = repeat c k.
Proof.
  unfold lit. rewrite lang_star_cls. split.
  - induction 1 as [|d w Hd _ (k & ->)]; [exists 0; auto|]. apply N.eqb_eq in Hd. subst. exists (S k). auto.
  - intros (k & ->). apply Forall_forall. intros x Hx. apply repeat_spec in Hx. subst. apply N.eqb_refl.
Qed.

Lemma lang_plus_lit c w : lang (plus (lit c)) w <-> exists k, w = c :: repeat c k.
Proof.
  unfold plus. rewrite lang_seq. split.
  - intros (x & y & -> & Hx & Hy). apply lang_lit in Hx. apply lang_lit_star in Hy as (k & ->). subst. exists k. auto.
  - intros (k & ->). exists [c], (repeat c k). split; auto. split; [now apply lang_lit|]. apply lang_lit_star. eauto.
Qed.

Lemma end_line_iff l : is_match_full attrs_end_re l = true <-> end_line l.
Proof.
  rewrite is_match_full_iff. unfold attrs_end_re, end_line. split.
  - intros H. apply lang_seqs_cons in H as (a & b & -> & Ha & H). apply lang_lit in Ha. subst a.
    apply lang_seqs_cons in H as (a & b1 & -> & Ha & H). apply lang_lit in Ha. subst a.
    apply lang_seqs_cons in H as (a & b2 & -> & Ha & H). apply lang_plus_lit in Ha as (k & ->).
    cbn [seqs] in H. apply lang_ws in H. exists k, b2. auto.
  - intros (k & w & -> & Hw).
    apply lang_seqs_cons. exists [c_hash], (c_hash :: c_hash :: repeat c_hash k ++ w). split; auto. split; [now apply lang_lit|].
    apply lang_seqs_cons. exists [c_hash], (c_hash :: repeat c_hash k ++ w). split; auto. split; [now apply lang_lit|].
    apply lang_seqs_cons. exists (c_hash :: repeat c_hash k), w. split; auto. split; [apply lang_plus_lit; eauto|].
    now apply lang_ws.
Qed.

Lemma closer_line_iff l : is_match_full code_end_re l = true <-> closer_line l.
Proof.
  rewrite is_match_full_iff. unfold code_end_re, closer_line. split.
  - intros H. apply lang_seqs_cons in H as (a & b & -> & Ha & H). apply lang_lits in Ha. subst a.
    apply lang_seqs_cons in H as (a & b2 & -> & Ha & H). apply lang_plus_lit in Ha as (k & ->).
    cbn [seqs] in H. apply lang_ws in H. exists k, b2. auto.
  - intros (k & w & -> & Hw).
    apply lang_seqs_cons. exists (s "``"), (c_tick :: repeat c_tick k ++ w). split; auto. split; [now apply lang_lits|].
    apply lang_seqs_cons. exists (c_tick :: repeat c_tick k), w. split; auto. split; [apply lang_plus_lit; eauto|].
    now apply lang_ws.
Qed.

Lemma lang_dots w : lang (Star false dot) w <-> ~ In 10%N w.
Proof.
  unfold dot. rewrite lang_star_cls. split.
  - intros F Hin. rewrite Forall_forall in F. specialize (F _ Hin). discriminate.
  - intros Hn. apply Forall_forall. intros x Hx. unfold c_nl. destruct (N.eqb_spec x 10); auto. subst. contradiction.
Qed.

(** A line has no newline in it. *)
Lemma opener_line_iff l : ~ In 10%N l -> is_match_full attrs_code_re l = true <-> opener_line l.
Proof.
  intros Hl. rewrite is_match_full_iff. unfold attrs_code_re, opener_line. split.
  - intros H. apply lang_seqs_cons in H as (a & b & -> & Ha & H). apply lang_lits in Ha. subst a.
    apply lang_seqs_cons in H as (x & b1 & -> & Hx & H).
    apply lang_seqs_cons in H as (a & b2 & -> & Ha & H). apply lang_lits in Ha. subst a.
    apply lang_seqs_cons in H as (a & w & -> & Ha & H). apply lang_plus_lit in Ha as (k & ->).
    cbn [seqs] in H. apply lang_ws in H. exists x, k, w. split; [reflexivity|]. split; auto.
    split; [intros Hin; apply Hl; rewrite !in_app_iff; auto|].
    apply lang_alt in Hx as [Hx|Hx].
    + apply lang_ws in Hx. destruct (exists_last_dec x) as [->|(y & c & ->)]; auto. right. exists y, c. split; auto.
      apply Forall_app in Hx as [_ Hc]. now inversion Hc.
    + apply lang_seq in Hx as (y & z & -> & _ & Hz). right. unfold ws in Hz. apply lang_plus_cls in Hz as [Hn Hz].
      destruct (exists_last_dec z) as [->|(z' & c & ->)]; [congruence|]. exists (y ++ z'), c. rewrite app_assoc. split; auto.
      apply Forall_app in Hz as [_ Hc]. now inversion Hc.
  - intros (x & k & w & -> & Hw & Hnl & Hx).
    apply lang_seqs_cons. exists (s "```"), (x ++ s "ar" ++ 116%N :: repeat 116%N k ++ w). split; auto. split; [now apply lang_lits|].
    apply lang_seqs_cons. exists x, (s "ar" ++ 116%N :: repeat 116%N k ++ w). split; auto. split.
    + destruct Hx as [->|(y & c & -> & Hc)]; apply lang_alt.
      * left. apply lang_ws. constructor.
      * right. apply lang_seq. exists y, [c]. split; auto. split.
        -- apply lang_dots. intros Hin. apply Hnl. apply in_app_iff. auto.
        -- unfold ws. apply lang_plus_cls. split; [discriminate|]. constructor; auto.
    + apply lang_seqs_cons. exists (s "ar"), (116%N :: repeat 116%N k ++ w). split; auto. split; [now apply lang_lits|].
      apply lang_seqs_cons. exists (116%N :: repeat 116%N k), w. split; auto. split; [apply lang_plus_lit; eauto|]. now apply lang_ws.
Qed.

(** ** Header lines *)
Lemma lang_name_words x : lang re_name x <-> valid_name x \/ longs_name x.
Proof.
  rewrite lang_name. unfold valid_name, longs_name. split.
  - intros (p & es & Hp & Hd). apply lang_type in Hp as [(t & Ht & Hc)|(t & Ht & Hc)]; [left|right]; exists t, p, es; auto.
  - intros [(t & p & es & Ht & Hc & Hd)|(t & p & es & Ht & Hc & Hd)]; exists p, es; split; auto; apply lang_type; [left|right]; exists t; auto.
Qed.

Definition name_ch (c : char) : Prop := word_char c \/ c = 45%N.
Lemma name_ch_ws c : name_ch c -> is_ws c = false.
Proof. intros [H| ->]; [now apply word_not|reflexivity]. Qed.

Lemma ci_word_all t p : Forall word_char t -> str_ci t p -> Forall word_char p.
Proof. intros Ht H. induction H as [|c d t p Hc H IH]; constructor; inversion Ht; subst; auto. eapply ci_word; eauto. Qed.

Lemma join_chars es : Forall element es -> forall p, Forall word_char p -> Forall name_ch (join [45%N] (p :: es)).
Proof.
  intros He. induction He as [|e es [_ He] _ IH]; intros p Hp.
  - simpl. eapply Forall_impl; [|exact Hp]. intros c; now left.
  - rewrite join_cons by discriminate. apply Forall_app. split; [eapply Forall_impl; [|exact Hp]; intros c; now left|].
    constructor; [now right|]. now apply IH.
Qed.

Lemma name_re_chars x : lang re_name x -> x <> [] /\ Forall name_ch x.
Proof.
  intros L. apply lang_name in L as (p & es & Hp & Hne & He & ->).
  assert (W : Forall word_char p).
  { apply lang_type in Hp as [(t & Ht & Hc)|(t & Ht & Hc)]; eapply ci_word_all; try exact Hc;
      [destruct Ht as [<-|[<-|[<-|[]]]]; rewrite ?sREQ, ?sSPC, ?sTST|destruct Ht as [<-|[<-|[]]]];
      (apply Forall_cons; [|apply Forall_cons; [|apply Forall_cons; [|apply Forall_nil]]]); unfold word_char; lia. }
  split; [|now apply join_chars].
  destruct es as [|e es]; [congruence|]. rewrite join_cons by discriminate. destruct p; discriminate.
Qed.

(** The text between blanks is determined. *)
Lemma blanks_split w x v w' x' v' : blanks w -> blanks w' -> blanks v -> blanks v' ->
  Forall name_ch x -> Forall name_ch x' -> x <> [] -> x' <> [] -> w ++ x ++ v = w' ++ x' ++ v' -> x = x'.
Proof.
  revert w'. induction w as [|c w IH]; intros [|d w'] Hw Hw' Hv Hv' Hx Hx' Nx Nx' E; simpl in E.
  - clear Hw Hw' Nx Nx'. revert x' Hx' E. induction Hx as [|c x Hc Hx IH]; intros [|d x'] Hx' E; auto; simpl in E.
    + subst v. inversion Hv as [|? ? B ?]; subst. inversion Hx' as [|? ? C ?]; subst. apply name_ch_ws in C. congruence.
    + subst v'. inversion Hv' as [|? ? B ?]; subst. apply name_ch_ws in Hc. congruence.
    + injection E as -> E. inversion Hx'; subst. f_equal. now apply IH.
  - destruct x as [|c x]; [congruence|]. injection E as -> _. inversion Hw'; inversion Hx; subst.
    exfalso. apply name_ch_ws in H5. congruence.
  - destruct x' as [|d x']; [congruence|]. injection E as -> _. inversion Hw; inversion Hx'; subst.
    exfalso. apply name_ch_ws in H5. congruence.
  - injection E as -> E. inversion Hw; inversion Hw'; subst. eapply (IH w'); eauto.
Qed.

Lemma mat_header prefix l cs : mat (md_name_line_re prefix) l [] cs ->
  exists x, cap_get 0 cs = Some x /\ header_line prefix l x.
Proof.
  unfold md_name_line_re, seqs. intros H.
  inversion H as [| |? ? a1 b1 ? k1 ? H1 H2| | | | |]; subst.
  inversion H2 as [| |? ? a2 b2 ? k2 ? H3 H4| | | | |]; subst. apply mat_lit in H3 as [-> ->].
  inversion H4 as [| |? ? a3 b3 ? k3 ? H5 H6| | | | |]; subst.
  inversion H6 as [| |? ? a4 b4 ? k4 ? H7 H8| | | | |]; subst.
  inversion H7 as [| | | | | | |? ? ? ? k5 H9]; subst.
  pose proof (no_cap_mat _ _ _ _ H8 eq_refl) as ->.
  exists a4. split; [reflexivity|]. exists a1, a3, b4. split; [reflexivity|].
  apply mat_lang in H1, H5, H8, H9. split.
  - apply lang_cis in H1. clear -H1. induction H1; constructor; auto. now apply fold_folds.
  - split; [now apply lang_ws|]. split; [now apply lang_ws|]. now apply lang_name_words.
Qed.

Lemma header_lang prefix l x : header_line prefix l x -> lang (md_name_line_re prefix) l.
Proof.
  intros (p & w1 & w2 & -> & Hp & H1 & H2 & Hx). unfold md_name_line_re.
  apply lang_seqs_cons. exists p, ([35%N] ++ w1 ++ x ++ w2). split; auto. split.
  { apply lang_cis. clear -Hp. induction Hp; constructor; auto. now apply fold_folds. }
  apply lang_seqs_cons. exists [35%N], (w1 ++ x ++ w2). split; auto. split; [now apply lang_lit|].
  apply lang_seqs_cons. exists w1, (x ++ w2). split; auto. split; [now apply lang_ws|].
  apply lang_seqs_cons. exists x, w2. split; auto. split; [now apply lang_cap, lang_name_words|]. now apply lang_ws.
Qed.

Lemma forall2_len {A B} (R : A -> B -> Prop) l m : Forall2 R l m -> length l = length m.
Proof. induction 1; simpl; congruence. Qed.

Lemma header_fun prefix l x x' : header_line prefix l x -> header_line prefix l x' -> x = x'.
Proof.
  intros (p & w1 & w2 & -> & Hp & H1 & H2 & Hx) (p' & w1' & w2' & E & Hp' & H1' & H2' & Hx').
  apply app_eq_len in E as [_ E].
  - injection E as E. apply lang_name_words in Hx, Hx'. apply name_re_chars in Hx as [N X], Hx' as [N' X'].
    eapply (blanks_split w1 x w2 w1' x' w2'); eauto.
  - apply forall2_len in Hp, Hp'. congruence.
Qed.

Lemma header_iff prefix l x : header prefix l = Some x <-> header_line prefix l x.
Proof.
  unfold header. destruct (match_full (md_name_line_re prefix) l) as [cs|] eqn:E.
  - apply match_full_mat in E. apply mat_header in E as (y & Ey & Hy). rewrite Ey. split.
    + intros X. inversion X; subst. auto.
    + intros X. f_equal. eapply header_fun; eauto.
  - apply match_full_none in E. split; [discriminate|]. intros X. exfalso. apply E. eapply header_lang; eauto.
Qed.

Lemma header_none prefix l : header prefix l = None <-> forall x, ~ header_line prefix l x.
Proof.
  destruct (header prefix l) as [x|] eqn:E.
  - split; [discriminate|]. intros H. exfalso. apply (H x). now apply header_iff.
  - split; auto. intros _ x H. apply header_iff in H. congruence.
Qed.

Lemma header_match prefix l : is_match_full (md_name_line_re prefix) l = true <-> exists x, header_line prefix l x.
Proof.
  rewrite is_match_full_iff. split.
  - intros L. destruct (match_full (md_name_line_re prefix) l) as [cs|] eqn:E.
    + apply match_full_mat, mat_header in E as (x & _ & H). eauto.
    + apply match_full_none in E. contradiction.
  - intros (x & H). eapply header_lang; eauto.
Qed.
