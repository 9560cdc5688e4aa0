(** Proofs about the subnames found in a text (C04). *)
From Coq Require Import Lia ZifyBool Sorted.
From Verif Require Import Base BaseFacts Regex RegexFacts ScanFacts Name SpecName NameFacts.

Ltac inv_mat := repeat match goal with
  | H : mat Eps _ _ _ |- _ => inversion H; subst; clear H
  | H : mat (Cls _) _ _ _ |- _ => inversion H; subst; clear H
  | H : mat (Seq _ _) _ _ _ |- _ => inversion H; subst; clear H
  | H : mat (Alt _ _) _ _ _ |- _ => inversion H; subst; clear H
  | H : mat (Cap _ _) _ _ _ |- _ => inversion H; subst; clear H
  end.

(** Patterns without capture groups leave the captures alone. *)
Fixpoint no_cap (r : re) : bool :=
  match r with
  | Eps | Cls _ => true
  | Seq a b | Alt a b => no_cap a && no_cap b
  | Star _ a => no_cap a
  | Cap _ _ => false
  end.

Lemma no_cap_mat r m cs cs' : mat r m cs cs' -> no_cap r = true -> cs' = cs.
Proof.
  induction 1; simpl; intros N; try discriminate; auto;
    try (apply andb_true_iff in N as [N1 N2]); auto.
  - rewrite IHmat2, IHmat1; auto.
  - rewrite IHmat2, IHmat1; auto.
Qed.

Lemma mat_lit c m cs cs' : mat (lit c) m cs cs' -> m = [c] /\ cs' = cs.
Proof.
  intros H. split; [apply lang_lit; eapply mat_lang; eauto|]. now inversion H.
Qed.

Lemma mat_text_sub m cs :
  mat re_text_sub m [] cs -> exists x, valid_sub x /\ m = s "[[" ++ x ++ s "]]" /\ cs = [(0, x)].
Proof.
  unfold re_text_sub. simpl. intros H.
  inversion H as [| |? ? a1 b1 ? k1 ? H1 H2| | | | |]; subst. apply mat_lit in H1 as [-> ->].
  inversion H2 as [| |? ? a2 b2 ? k2 ? H3 H4| | | | |]; subst. apply mat_lit in H3 as [-> ->].
  inversion H4 as [| |? ? a3 b3 ? k3 ? H5 H6| | | | |]; subst.
  inversion H5 as [| | | | | | |? ? ? ? k4 H7]; subst.
  inversion H6 as [| |? ? a5 b5 ? k5 ? H8 H9| | | | |]; subst. apply mat_lit in H8 as [-> ->].
  apply mat_lit in H9 as [-> ->].
  pose proof (no_cap_mat _ _ _ _ H7 eq_refl) as ->.
  exists a3. split; [apply lang_sub; eapply mat_lang; eauto|]. split; auto.
Qed.

Lemma lang_text_sub m : lang re_text_sub m <-> exists x, valid_sub x /\ m = s "[[" ++ x ++ s "]]".
Proof.
  unfold re_text_sub. split.
  - intros H. apply lang_seqs_cons in H as (a & b & -> & Ha & H). apply lang_lit in Ha. subst a.
    apply lang_seqs_cons in H as (a & b1 & -> & Ha & H). apply lang_lit in Ha. subst a.
    apply lang_seqs_cons in H as (x & b2 & -> & Ha & H).
    apply lang_seqs_cons in H as (a & b3 & -> & Hb & H). apply lang_lit in Hb. subst a.
    simpl in H. apply lang_lit in H. subst. exists x. split; auto.
    apply lang_cap, lang_sub in Ha. auto.
  - intros (x & Hx & ->). apply lang_seqs_cons.
    exists [c_lbr], (c_lbr :: x ++ s "]]"). repeat split; [now apply lang_lit|].
    apply lang_seqs_cons. exists [c_lbr], (x ++ s "]]"). repeat split; [now apply lang_lit|].
    apply lang_seqs_cons. exists x, (s "]]"). repeat split; [now apply lang_cap, lang_sub|].
    apply lang_seqs_cons. exists [c_rbr], [c_rbr]. repeat split; now apply lang_lit.
Qed.

Lemma word_not c : word_char c -> c <> c_lbr /\ c <> c_rbr /\ c <> c_dot /\ c <> c_dash /\ c <> c_comma /\ is_ws c = false.
Proof. unfold word_char, is_ws. chars. lia. Qed.

Lemma ci_word c d : char_ci c d -> word_char c -> word_char d.
Proof. unfold char_ci, word_char. chars. lia. Qed.

Lemma tst_word t : str_ci (s "TST") t \/ str_ci [84; 383; 84]%N t -> Forall word_char t.
Proof.
  intros [H|H]; unfold str_ci in H; [rewrite sTST in H|];
    apply f3 in H as (d & e & f & -> & H1 & H2 & H3);
    (apply Forall_cons; [|apply Forall_cons; [|apply Forall_cons; [|apply Forall_nil]]]);
    (eapply ci_word; [eassumption|unfold word_char; lia]).
Qed.

(** Characters of a subname. *)
Lemma valid_sub_chars x : valid_sub x ->
  exists y, x = c_dot :: y /\ y <> [] /\ Forall (fun c => word_char c \/ c = c_dash) y.
Proof.
  intros (e & (Hn & He) & [->|(t & Ht & ->)]).
  - exists e. repeat split; auto. eapply Forall_impl; [|exact He]. auto.
  - exists (t ++ 45%N :: e). repeat split.
    + destruct t; discriminate.
    + apply Forall_app. split.
      * eapply Forall_impl; [|apply tst_word, Ht]. auto.
      * constructor; [now right|]. eapply Forall_impl; [|exact He]. auto.
Qed.

Lemma valid_sub_no_br x : valid_sub x -> ~ In c_rbr x /\ ~ In c_lbr x.
Proof.
  intros H. apply valid_sub_chars in H as (y & -> & _ & H). rewrite Forall_forall in H.
  split; intros [E|Hin]; try discriminate; destruct (H _ Hin) as [W|W]; try discriminate;
    apply word_not in W; intuition congruence.
Qed.

Lemma match_here_text_sub q rest cs :
  match_here re_text_sub q = Some (rest, cs) <->
  exists x, valid_sub x /\ q = s "[[" ++ x ++ s "]]" ++ rest /\ cs = [(0, x)].
Proof.
  split.
  - intros H. apply match_here_sound in H as (m & -> & M).
    apply mat_text_sub in M as (x & Hx & -> & ->). exists x. repeat split; auto.
    now rewrite <- !app_assoc.
  - intros (x & Hx & -> & ->).
    destruct (match_here_some re_text_sub (s "[[" ++ x ++ s "]]") rest) as (rest' & cs' & E).
    { apply lang_text_sub. eauto. }
    rewrite <- !app_assoc in E. rewrite E.
    apply match_here_sound in E as (m & Em & M). apply mat_text_sub in M as (y & Hy & -> & ->).
    rewrite <- !app_assoc in Em. apply app_inv_head in Em.
    change (s "]]" ++ rest) with (c_rbr :: c_rbr :: rest) in Em.
    change (s "]]" ++ rest') with (c_rbr :: c_rbr :: rest') in Em.
    apply app_stop in Em as [-> Em].
    + now injection Em as ->.
    + now apply valid_sub_no_br.
    + now apply valid_sub_no_br.
Qed.

Lemma consuming_text_sub : consuming re_text_sub.
Proof. intros H. apply lang_text_sub in H as (x & _ & E). discriminate. Qed.

Lemma isolated_text_sub : isolated re_text_sub.
Proof.
  intros c m rest cs H a b -> Hb.
  apply match_here_text_sub in H as (x & Hx & E & _).
  destruct (match_here re_text_sub (b ++ rest)) as [[rest' cs']|] eqn:E2; auto. exfalso.
  apply match_here_text_sub in E2 as (y & Hy & E2 & _).
  (* remove [rest] from the first equation *)
  assert (Em : c :: a ++ b = s "[[" ++ x ++ s "]]").
  { apply app_inv_tail with rest.
    change ((c :: a ++ b) ++ rest) with (c :: (a ++ b) ++ rest). rewrite E. now rewrite <- !app_assoc. }
  simpl in Em. injection Em as -> Em.
  destruct a as [|a0 a].
  - (* second match starts at the second bracket *)
    simpl in Em. subst b. simpl in E2. injection E2 as E2.
    apply valid_sub_chars in Hx as (z & -> & _ & _). simpl in E2. discriminate.
  - simpl in Em. injection Em as -> Em.
    destruct b as [|b0 b]; [congruence|]. simpl in E2. injection E2 as -> E2.
    apply valid_sub_no_br in Hx as [_ Hx].
    assert (Hin : In 91%N (x ++ s "]]")).
    { rewrite <- Em. apply in_or_app. right. now left. }
    apply in_app_iff in Hin as [Hin|[Hin|[Hin|[]]]]; try discriminate. contradiction.
Qed.

Definition sub_of_caps (cs : caps) : list subname :=
  match cap_get 0 cs with Some x => [sub_new x] | None => [] end.

Lemma parse_subnames_eq t :
  parse_subnames t =
  is_collect sub_eqb (flat_map sub_of_caps (map snd (all_matches re_text_sub 0 t))).
Proof.
  unfold parse_subnames, find_all.
  now rewrite (find_all_all _ _ consuming_text_sub isolated_text_sub (length t) 0 (le_n _)).
Qed.

Lemma matches_sub t i cs : In (i, cs) (all_matches re_text_sub 0 t) <->
  exists p x, sub_at t p x /\ i = length p /\ cs = [(0, x)].
Proof.
  rewrite all_matches_in. split.
  - intros (p & q & rest & -> & -> & H). apply match_here_text_sub in H as (x & Hx & -> & ->).
    exists p, x. repeat split; auto; try lia. now exists rest.
  - intros (p & x & (Hx & q & ->) & -> & ->). exists p, (s "[[" ++ x ++ s "]]" ++ q), q.
    repeat split; auto. apply match_here_text_sub. exists x. auto.
Qed.

Lemma sub_at_fun t p p' x x' : sub_at t p x -> sub_at t p' x' -> length p = length p' -> p = p' /\ x = x'.
Proof.
  intros (Hx & q & ->) (Hx' & q' & E) L.
  destruct (app_eq_len _ _ _ _ E L) as [-> E']. clear E. rename E' into E.
  split; auto. apply app_inv_head in E.
  change (s "]]" ++ q) with (c_rbr :: c_rbr :: q) in E.
  change (s "]]" ++ q') with (c_rbr :: c_rbr :: q') in E.
  apply app_stop in E as [-> _]; auto; now apply valid_sub_no_br.
Qed.

Lemma in_parse_subnames t x k :
  In (mkSub x k) (parse_subnames t) <-> k = upper x /\ exists p, first_sub_at t p x.
Proof.
  rewrite parse_subnames_eq, (is_collect_first sub_eqb s_key sub_eqb_iff).
  pose proof (all_matches_sorted re_text_sub t 0) as Hsort.
  pose proof (matches_sub t) as HM.
  set (L := all_matches re_text_sub 0 t) in *.
  split.
  - intros (l1 & l2 & E & Hfirst).
    (* locate the match that produced the element *)
    assert (HL : exists M1 i cs M2, L = M1 ++ (i, cs) :: M2 /\
       flat_map sub_of_caps (map snd M1) = l1 /\ sub_of_caps cs = [mkSub x k]).
    { clear Hsort Hfirst. assert (HM' : forall i cs, In (i, cs) L -> exists y, cs = [(0, y)]).
      { intros i cs H. apply HM in H as (p & y & _ & _ & ->). eauto. }
      clear HM. revert l1 E HM'. generalize L. clear L.
      induction L as [|[i cs] L IH]; intros l1 E HM'; simpl in E.
      - destruct l1; discriminate.
      - destruct (HM' i cs) as (y & ->); [now left|]. simpl in E.
        destruct l1 as [|b l1].
        + apply cons_inj in E as [E1 E2]. exists [], i, [(0, y)], L. repeat split. exact (f_equal (fun z => [z]) E1).
        + apply cons_inj in E as [E1 E2]. destruct (IH l1 E2) as (M1 & j & cs & M2 & -> & H1 & H2).
          { intros i' cs' H. apply (HM' i' cs'). now right. }
          exists ((i, [(0, y)]) :: M1), j, cs, M2. repeat split; auto. simpl. rewrite H1. exact (f_equal (fun z => z :: l1) E1). }
    destruct HL as (M1 & i & cs & M2 & HL & H1 & H2).
    assert (Hin : In (i, cs) L) by (rewrite HL; apply in_or_app; right; now left).
    apply HM in Hin as (p & y & Hat & -> & ->). simpl in H2. unfold sub_of_caps in H2. simpl in H2.
    injection H2 as <- <-. split; auto. exists p. split; auto.
    intros p' x' Hat' Hci. destruct (le_lt_dec (length p) (length p')) as [|Hlt]; auto. exfalso.
    assert (Hin' : In (length p', [(0, x')]) L) by (apply HM; eauto).
    rewrite HL in Hin'. apply in_app_iff in Hin' as [Hin'|[Hin'|Hin']].
    + apply (Hfirst (sub_new x')).
      * rewrite <- H1. apply in_flat_map. exists [(0, x')]. split; [|now left].
        apply in_map_iff. exists (length p', [(0, x')]). auto.
      * simpl. symmetry. now apply str_ci_upper.
    + injection Hin' as Hl _. lia.
    + rewrite HL in Hsort. clear -Hsort Hin' Hlt.
      induction M1 as [|a M1 IH]; simpl in Hsort; inversion Hsort as [|? ? S1 S2]; subst.
      * rewrite Forall_forall in S2. apply S2 in Hin'. simpl in Hin'. lia.
      * auto.
  - intros (-> & p & Hat & Hfirst).
    assert (Hin : In (length p, [(0, x)]) L) by (apply HM; eauto).
    apply in_split in Hin as (M1 & M2 & HL).
    exists (flat_map sub_of_caps (map snd M1)), (flat_map sub_of_caps (map snd M2)).
    split.
    + rewrite HL, map_app, flat_map_app. reflexivity.
    + intros z Hz Ez. apply in_flat_map in Hz as (cs & Hcs & Hz).
      apply in_map_iff in Hcs as ([i cs'] & Ecs & Hcs). simpl in Ecs. subst cs'.
      assert (Hin : In (i, cs) L) by (rewrite HL; apply in_or_app; now left).
      apply HM in Hin as (p' & x' & Hat' & -> & ->). destruct Hz as [<-|[]]. simpl in Ez.
      assert (Hle : length p <= length p').
      { apply (Hfirst p' x'); auto. apply str_ci_upper. auto. }
      rewrite HL in Hsort. clear -Hsort Hcs Hle.
      induction M1 as [|a M1 IH]; [destruct Hcs|]. simpl in Hsort.
      inversion Hsort as [|? ? S1 S2]; subst. destruct Hcs as [->|Hcs]; auto.
      rewrite Forall_forall in S2. specialize (S2 (length p, [(0, x)])).
      simpl in S2. assert (length p' < length p); [|lia]. apply S2. apply in_or_app. right. now left.
Qed.

Lemma parse_subnames_nodup t : NoDup (map s_key (parse_subnames t)).
Proof. apply (is_collect_nodup sub_eqb s_key sub_eqb_iff). Qed.

(** Membership up to case. *)
Lemma parse_subnames_key t k :
  In k (map s_key (parse_subnames t)) <-> exists p x, sub_at t p x /\ k = upper x.
Proof.
  rewrite parse_subnames_eq, (is_collect_in sub_eqb s_key sub_eqb_iff), in_map_iff. split.
  - intros (z & <- & Hz). apply in_flat_map in Hz as (cs & Hcs & Hz).
    apply in_map_iff in Hcs as ([i cs'] & Ecs & Hcs). simpl in Ecs. subst cs'.
    apply matches_sub in Hcs as (p & x & Hat & _ & ->). destruct Hz as [<-|[]]. exists p, x. auto.
  - intros (p & x & Hat & ->). exists (sub_new x). split; auto. apply in_flat_map.
    exists [(0, x)]. split; [|now left]. apply in_map_iff. exists (length p, [(0, x)]).
    split; auto. apply matches_sub. eauto.
Qed.

(** Elements of the result are well formed. *)
Lemma parse_subnames_wf t z : In z (parse_subnames t) -> valid_sub (s_raw z) /\ s_key z = upper (s_raw z).
Proof.
  destruct z as [x k]. intros H. apply in_parse_subnames in H as (-> & p & ((Hx & _) & _)). auto.
Qed.
