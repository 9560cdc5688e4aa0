(** Proofs about names and subnames (C01-C04). *)
From Coq Require Import Lia ZifyBool.
From Verif Require Import Base BaseFacts Regex RegexFacts Name SpecName.

Lemma name_char_iff c : name_char c = true <-> word_char c.
Proof. unfold name_char, word_char. chars. lia. Qed.

Lemma char_ci_upc c d : char_ci c d <-> upc c = upc d.
Proof.
  unfold char_ci, upc, is_lower in *.
  destruct ((97 <=? c)%N && (c <=? 122)%N) eqn:E1, ((97 <=? d)%N && (d <=? 122)%N) eqn:E2; lia.
Qed.

Lemma str_ci_upper x y : str_ci x y <-> upper x = upper y.
Proof.
  unfold str_ci, upper. split.
  - induction 1 as [|c d x y H _ IH]; simpl; auto. apply char_ci_upc in H. congruence.
  - revert y; induction x as [|c x IH]; intros [|d y]; simpl; intros E; try discriminate; auto.
    injection E as E1 E2. constructor; auto. now apply char_ci_upc.
Qed.

Lemma str_ci_length x y : str_ci x y -> length x = length y.
Proof. induction 1; simpl; auto. Qed.

Lemma lang_word m : lang re_word m <-> element m.
Proof.
  unfold re_word, element. rewrite lang_plus_cls. split; intros [H1 H2]; split; auto;
    eapply Forall_impl; try eassumption; intros; now apply name_char_iff.
Qed.

(** ** The language of the name pattern *)

Lemma lang_dashes g m : lang (Star g (Seq re_word (lit c_dash))) m <->
  exists es, Forall element es /\ m = flat_map (fun e => e ++ [c_dash]) es.
Proof.
  split.
  - remember (Star g (Seq re_word (lit c_dash))) as r eqn:E. intros H. revert E.
    induction H; intros E; inversion E; subst.
    + exists []. auto.
    + destruct (IHlang2 eq_refl) as (es & He & ->).
      apply lang_seq in H as (e & d & -> & H1 & H2). apply lang_word in H1. apply lang_lit in H2.
      subst. exists (e :: es). simpl. auto.
  - intros (es & He & ->). induction He as [|e es He _ IH]; simpl; [constructor|].
    apply LStarS; auto. apply lang_seq. exists e, [c_dash]. repeat split.
    + now apply lang_word.
    + now apply lang_lit.
Qed.

Lemma join_dash_flat es e :
  flat_map (fun e => e ++ [c_dash]) es ++ e = join [c_dash] (es ++ [e]).
Proof.
  induction es as [|x es IH]; simpl; auto.
  destruct (es ++ [e]) eqn:E; [destruct es; discriminate|].
  rewrite <- IH. now rewrite <- !app_assoc.
Qed.

Lemma join_cons2 (d : char) p es : es <> [] -> join [d] (p :: es) = p ++ d :: join [d] es.
Proof. intros H. now rewrite join_cons. Qed.

Lemma lang_name m : lang re_name m <-> exists p es, lang re_type p /\ dashed p es m.
Proof.
  unfold re_name, dashed. rewrite lang_seqs_cons. split.
  - intros (p & y & -> & Hp & H). apply lang_seqs_cons in H as (d & y' & -> & Hd & H).
    apply lang_lit in Hd. subst d. apply lang_seqs_cons in H as (a & e & -> & Ha & He).
    apply lang_dashes in Ha as (es & Hes & ->). apply lang_word in He.
    exists p, (es ++ [e]). split; auto. split; [destruct es; discriminate|]. split.
    + apply Forall_app. auto.
    + rewrite join_cons by (destruct es; discriminate). now rewrite <- join_dash_flat.
  - intros (p & es & Hp & Hne & Hes & ->).
    destruct (exists_last Hne) as (es' & e & ->).
    apply Forall_app in Hes as [Hes He]. inversion He; subst.
    exists p, (c_dash :: join [c_dash] (es' ++ [e])). split.
    { now rewrite join_cons by auto. }
    split; auto. apply lang_seqs_cons. exists [c_dash], (join [c_dash] (es' ++ [e])).
    repeat split; [now apply lang_lit|]. apply lang_seqs_cons.
    exists (flat_map (fun e => e ++ [c_dash]) es'), e. split; [symmetry; apply join_dash_flat|].
    split; [|simpl; now apply lang_word]. apply lang_dashes. eauto.
Qed.

(** The type prefix: either an ASCII spelling of a type, or one with long s. *)
Lemma folds_ci c d : (65 <= c <= 90)%N -> folds c d ->
  char_ci c d \/ (c = 83%N /\ d = 383%N) \/ (c = 75%N /\ d = 8490%N).
Proof.
  unfold folds. rewrite char_ci_upc. intros Hc.
  assert (E : upc c = c) by (unfold upc, is_lower in *; destruct (_ && _) eqn:E; lia).
  rewrite E. unfold c_longs, c_kelvin. intuition congruence.
Qed.

Lemma ci_folds c d : char_ci c d -> folds c d.
Proof. rewrite char_ci_upc. unfold folds. auto. Qed.

Ltac inv_f2 := repeat match goal with
  | H : Forall2 _ (_ :: _) _ |- _ => inversion H; subst; clear H
  | H : Forall2 _ [] _ |- _ => inversion H; subst; clear H end.

Lemma sREQ : s "REQ" = [82; 69; 81]%N. Proof. reflexivity. Qed.
Lemma sSPC : s "SPC" = [83; 80; 67]%N. Proof. reflexivity. Qed.
Lemma sTST : s "TST" = [84; 83; 84]%N. Proof. reflexivity. Qed.

Lemma f3 {A} (R : A -> A -> Prop) a b c x :
  Forall2 R [a; b; c] x <-> exists d e f, x = [d; e; f] /\ R a d /\ R b e /\ R c f.
Proof.
  split.
  - intros H; inv_f2. eauto 10.
  - intros (d & e & f & -> & ? & ? & ?). auto.
Qed.

Lemma folds_no_fold c d : (65 <= c <= 90 -> c <> 83 -> c <> 75 -> folds c d <-> char_ci c d)%N.
Proof.
  intros. split; [|apply ci_folds]. intros F. apply folds_ci in F; auto. intuition congruence.
Qed.

Lemma folds_S d : folds 83%N d <-> char_ci 83%N d \/ char_ci 383%N d.
Proof.
  split.
  - intros F. apply folds_ci in F; [|lia]. destruct F as [F|[[_ ->]|[F _]]]; auto; [|discriminate].
    right. now left.
  - intros [H|H]; [now apply ci_folds|]. unfold char_ci in *. unfold folds.
    right. left. split; auto. unfold c_longs. lia.
Qed.

Lemma lang_type p : lang re_type p <->
  (exists t, In t type_words /\ str_ci t p) \/ (exists t, In t longs_words /\ str_ci t p).
Proof.
  unfold re_type, alts. rewrite !lang_alt, !lang_cis. unfold type_words, longs_words, str_ci.
  rewrite sREQ, sSPC, sTST, !f3.
  split.
  - intros [(d & e & f & -> & H1 & H2 & H3)|[(d & e & f & -> & H1 & H2 & H3)|(d & e & f & -> & H1 & H2 & H3)]];
      rewrite ?folds_S, ?folds_no_fold in * by lia.
    + left. eexists. split; [now left|]. auto.
    + destruct H1 as [H1|H1].
      * left. eexists. split; [right; now left|]. auto.
      * right. eexists. split; [now left|]. auto.
    + destruct H2 as [H2|H2].
      * left. eexists. split; [do 2 right; now left|]. auto.
      * right. eexists. split; [right; now left|]. auto.
  - intros [(t & Ht & H)|(t & Ht & H)]; simpl in Ht.
    + destruct Ht as [<-|[<-|[<-|[]]]]; apply f3 in H as (d & e & f & -> & H1 & H2 & H3);
        [left|right; left|right; right]; exists d, e, f;
        rewrite ?folds_S, ?folds_no_fold by lia; auto.
    + destruct Ht as [<-|[<-|[]]]; apply f3 in H as (d & e & f & -> & H1 & H2 & H3);
        [right; left|right; right]; exists d, e, f;
        rewrite ?folds_S, ?folds_no_fold by lia; auto.
Qed.

Lemma type_len t p : In t type_words \/ In t longs_words -> str_ci t p -> length p = 3.
Proof.
  intros Ht H. rewrite <- (str_ci_length _ _ H).
  destruct Ht as [[<-|[<-|[<-|[]]]]|[<-|[<-|[]]]]; reflexivity.
Qed.

Lemma dashed_firstn p es x : length p = 3 -> dashed p es x -> firstn 3 x = p.
Proof.
  intros Hl (Hne & _ & ->). rewrite join_cons by auto. rewrite firstn_app.
  replace (firstn 3 p) with p by (rewrite <- Hl; now rewrite firstn_all).
  replace (3 - length p) with 0 by lia. simpl. apply app_nil_r.
Qed.

Lemma firstn_upper n x : firstn n (upper x) = upper (firstn n x).
Proof. unfold upper. apply firstn_map. Qed.

(** The type that a valid prefix selects. *)
Definition ty_of (p : str) : option ty :=
  if str_eqb (upper p) (s "REQ") then Some REQ
  else if str_eqb (upper p) (s "SPC") then Some SPC
  else if str_eqb (upper p) (s "TST") then Some TST else None.

Lemma ty_of_spec p t : ty_of p = Some t <-> str_ci (ty_str t) p.
Proof.
  unfold ty_of. rewrite str_ci_upper.
  assert (U : upper (ty_str t) = ty_str t) by (destruct t; reflexivity). rewrite U. clear U.
  destruct (str_eqb (upper p) (s "REQ")) eqn:E1; [apply str_eqb_eq in E1; rewrite E1|].
  { split; [intros H; injection H as <-; auto|]. destruct t; vm_compute; congruence. }
  destruct (str_eqb (upper p) (s "SPC")) eqn:E2; [apply str_eqb_eq in E2; rewrite E2|].
  { split; [intros H; injection H as <-; auto|]. destruct t; vm_compute; congruence. }
  destruct (str_eqb (upper p) (s "TST")) eqn:E3; [apply str_eqb_eq in E3; rewrite E3|].
  { split; [intros H; injection H as <-; auto|]. destruct t; vm_compute; congruence. }
  split; [discriminate|]. apply str_eqb_neq in E1, E2, E3. destruct t; simpl; congruence.
Qed.

Lemma name_from_str_eq x : name_from_str x =
  if is_match_full re_name x then
    match ty_of (firstn 3 x) with Some t => Ok (mkName t (upper x) x) | None => Panic end
  else Err.
Proof.
  unfold name_from_str, ty_of. rewrite firstn_upper.
  destruct (is_match_full re_name x); auto. simpl.
  repeat (destruct (str_eqb _ _)); auto.
Qed.

Lemma ty_word t : In (ty_str t) type_words.
Proof. destruct t; simpl; auto. Qed.
Lemma word_ty w : In w type_words -> exists t, w = ty_str t.
Proof. intros [<-|[<-|[<-|[]]]]; [exists REQ|exists SPC|exists TST]; reflexivity. Qed.

Lemma name_ok_iff x n : name_from_str x = Ok n <->
  exists p es, dashed p es x /\ str_ci (ty_str (n_ty n)) p /\ n_key n = upper x /\ n_raw n = x.
Proof.
  rewrite name_from_str_eq. destruct (is_match_full re_name x) eqn:E.
  - apply is_match_full_iff, lang_name in E as (p & es & Hp & Hd).
    assert (Hl : length p = 3).
    { apply lang_type in Hp as [(t & Ht & H)|(t & Ht & H)]; eapply type_len; eauto. }
    rewrite (dashed_firstn _ _ _ Hl Hd). split.
    + destruct (ty_of p) as [t|] eqn:Et; [|discriminate]. intros H; injection H as <-. simpl.
      exists p, es. repeat split; try apply Hd; auto. now apply ty_of_spec.
    + intros (p' & es' & Hd' & Ht & Hk & Hr).
      assert (Hl' : length p' = 3) by (eapply type_len; eauto using ty_word).
      pose proof (dashed_firstn _ _ _ Hl Hd). pose proof (dashed_firstn _ _ _ Hl' Hd').
      assert (Ep : p' = p) by congruence. rewrite Ep in Ht. apply ty_of_spec in Ht. rewrite Ht.
      destruct n; simpl in *; now subst.
  - split; [discriminate|]. intros (p & es & Hd & Ht & _).
    assert (H : is_match_full re_name x = true); [|congruence].
    apply is_match_full_iff, lang_name. exists p, es. split; auto.
    apply lang_type. left. eauto using ty_word.
Qed.

Lemma name_accept x : (exists n, name_from_str x = Ok n) <-> valid_name x.
Proof.
  split.
  - intros (n & H). apply name_ok_iff in H as (p & es & Hd & Ht & _).
    exists (ty_str (n_ty n)), p, es. auto using ty_word.
  - intros (w & p & es & Hw & Hc & Hd). apply word_ty in Hw as (t & ->).
    exists (mkName t (upper x) x). apply name_ok_iff. exists p, es. auto.
Qed.

Lemma longs_not_type t p w : In w longs_words -> str_ci w p -> ty_of p = Some t -> False.
Proof.
  intros Hw H1 H2. apply ty_of_spec in H2. apply str_ci_upper in H1, H2. rewrite <- H1 in H2.
  destruct Hw as [<-|[<-|[]]]; destruct t; vm_compute in H2; discriminate.
Qed.

Lemma name_panic x : name_from_str x = Panic <-> longs_name x.
Proof.
  rewrite name_from_str_eq. split.
  - destruct (is_match_full re_name x) eqn:E; [|discriminate].
    apply is_match_full_iff, lang_name in E as (p & es & Hp & Hd).
    assert (Hl : length p = 3).
    { apply lang_type in Hp as [(t & Ht & H)|(t & Ht & H)]; eapply type_len; eauto. }
    rewrite (dashed_firstn _ _ _ Hl Hd).
    apply lang_type in Hp as [(w & Hw & H)|(w & Hw & H)].
    + apply word_ty in Hw as (t & ->). apply ty_of_spec in H. rewrite H. discriminate.
    + intros _. exists w, p, es. auto.
  - intros (w & p & es & Hw & Hc & Hd).
    assert (E : is_match_full re_name x = true).
    { apply is_match_full_iff, lang_name. exists p, es. split; auto. apply lang_type. right. eauto. }
    rewrite E. assert (Hl : length p = 3) by (eapply type_len; eauto).
    rewrite (dashed_firstn _ _ _ Hl Hd). destruct (ty_of p) eqn:Et; auto.
    exfalso. eapply longs_not_type; eauto.
Qed.

Lemma name_err x : name_from_str x = Err <-> ~ valid_name x /\ ~ longs_name x.
Proof.
  rewrite <- name_accept, <- name_panic. destruct (name_from_str x) as [n| |].
  - split; [discriminate|]. intros [H _]. exfalso. eauto.
  - split; auto. intros _. split; [intros (n & H)|]; discriminate.
  - split; [discriminate|]. intros [_ H]. congruence.
Qed.

(** ** Well-formed names *)
Definition name_wf (n : name) : Prop := name_from_str (n_raw n) = Ok n.

Lemma from_str_wf x n : name_from_str x = Ok n -> name_wf n /\ n_raw n = x.
Proof.
  intros H. pose proof H as H'. apply name_ok_iff in H' as (p & es & _ & _ & _ & Hr).
  unfold name_wf. now rewrite Hr.
Qed.

Lemma wf_key n : name_wf n -> n_key n = upper (n_raw n).
Proof. intros H. now apply name_ok_iff in H as (p & es & _ & _ & Hk & _). Qed.

Lemma wf_ty n : name_wf n -> ty_of (firstn 3 (n_raw n)) = Some (n_ty n).
Proof.
  intros H. apply name_ok_iff in H as (p & es & Hd & Ht & _).
  rewrite (dashed_firstn p es); auto; [now apply ty_of_spec|].
  eapply type_len; eauto using ty_word.
Qed.

Lemma ty_of_upper p q : upper p = upper q -> ty_of p = ty_of q.
Proof. unfold ty_of. now intros ->. Qed.

Lemma key_eq_ty a b : name_wf a -> name_wf b -> n_key a = n_key b -> n_ty a = n_ty b.
Proof.
  intros Ha Hb E. rewrite (wf_key _ Ha), (wf_key _ Hb) in E.
  pose proof (wf_ty _ Ha) as T1. pose proof (wf_ty _ Hb) as T2.
  rewrite (ty_of_upper (firstn 3 (n_raw a)) (firstn 3 (n_raw b))) in T1; [congruence|].
  now rewrite <- !firstn_upper, E.
Qed.

Lemma ty_eqb_eq a b : ty_eqb a b = true <-> a = b.
Proof. destruct a, b; simpl; split; congruence. Qed.

(** Projection under which [name_eqb] is equality, without well-formedness. *)
Definition nk (n : name) : ty * str := (n_ty n, n_key n).
Lemma name_eqb_iff a b : name_eqb a b = true <-> nk a = nk b.
Proof.
  unfold name_eqb, nk. rewrite andb_true_iff, ty_eqb_eq, str_eqb_eq. split.
  - intros [-> ->]; auto.
  - intros H; injection H; auto.
Qed.

Lemma name_eqb_key a b : name_wf a -> name_wf b -> name_eqb a b = true <-> n_key a = n_key b.
Proof.
  intros Ha Hb. rewrite name_eqb_iff. unfold nk. split; [congruence|].
  intros E. rewrite E. now rewrite (key_eq_ty a b).
Qed.

Lemma name_eqb_ci a b : name_wf a -> name_wf b -> name_eqb a b = true <-> str_ci (n_raw a) (n_raw b).
Proof.
  intros Ha Hb. rewrite name_eqb_key, str_ci_upper, (wf_key a), (wf_key b) by auto. tauto.
Qed.

(** ** Subnames *)
Lemma lang_tst m : lang (cis (s "tst")) m <-> str_ci (s "TST") m \/ str_ci [84; 383; 84]%N m.
Proof.
  rewrite lang_cis. change (s "tst") with [116; 115; 116]%N. rewrite sTST. unfold str_ci.
  rewrite !f3.
  assert (F : forall c d, upc c = upc d -> forall x, folds c x <-> folds d x).
  { intros c d E x. unfold folds. now rewrite E. }
  assert (FT : forall x, folds 116%N x <-> char_ci 84%N x).
  { intros x. rewrite (F _ 84%N) by reflexivity. apply folds_no_fold; lia. }
  assert (FS : forall x, folds 115%N x <-> char_ci 83%N x \/ char_ci 383%N x).
  { intros x. rewrite (F _ 83%N) by reflexivity. apply folds_S. }
  split.
  - intros (d & e & f & -> & H1 & H2 & H3). apply FT in H1, H3. apply FS in H2 as [H2|H2].
    + left. exists d, e, f. auto.
    + right. exists d, e, f. auto.
  - intros [(d & e & f & -> & H1 & H2 & H3)|(d & e & f & -> & H1 & H2 & H3)]; exists d, e, f;
      rewrite !FT, FS; auto.
Qed.

Lemma lang_sub m : lang re_sub m <-> valid_sub m.
Proof.
  unfold re_sub, valid_sub. rewrite lang_seqs_cons. split.
  - intros (d & y & -> & Hd & H). apply lang_lit in Hd. subst d.
    apply lang_seqs_cons in H as (o & e & -> & Ho & He). simpl in He. apply lang_word in He.
    exists e. split; auto. apply lang_opt in Ho as [Ho| -> ]; [|now left].
    right. apply lang_seq in Ho as (t & d & -> & Ht & Hd). apply lang_lit in Hd. subst d.
    exists t. split; [now apply lang_tst|]. simpl. now rewrite <- app_assoc.
  - intros (e & He & [->|(t & Ht & ->)]).
    + exists [c_dot], e. repeat split; [now apply lang_lit|]. apply lang_seqs_cons.
      exists [], e. repeat split; [apply lang_opt; auto|simpl; now apply lang_word].
    + exists [c_dot], (t ++ c_dash :: e). repeat split; [now apply lang_lit|]. apply lang_seqs_cons.
      exists (t ++ [c_dash]), e. split; [now rewrite <- app_assoc|]. split.
      * apply lang_opt. left. apply lang_seq. exists t, [c_dash]. repeat split; [|now apply lang_lit].
        now apply lang_tst.
      * simpl. now apply lang_word.
Qed.

Lemma sub_accept x : (exists n, sub_from_str x = Ok n) <-> valid_sub x.
Proof.
  unfold sub_from_str. rewrite <- lang_sub, <- is_match_full_iff.
  destruct (is_match_full re_sub x); split; eauto; try discriminate. intros (n & H); discriminate.
Qed.

Lemma sub_ok x n : sub_from_str x = Ok n -> n = sub_new x /\ valid_sub x.
Proof.
  intros H. split; [|apply sub_accept; eauto]. unfold sub_from_str in H.
  destruct (is_match_full re_sub x); congruence.
Qed.

Lemma sub_no_panic x : sub_from_str x <> Panic.
Proof. unfold sub_from_str. destruct (is_match_full re_sub x); discriminate. Qed.

Lemma sub_eqb_iff a b : sub_eqb a b = true <-> s_key a = s_key b.
Proof. apply str_eqb_eq. Qed.

(** ** Statements for the property file *)
Lemma name_identity x y a b : name_from_str x = Ok a -> name_from_str y = Ok b ->
  (name_eqb a b = true <-> str_ci x y) /\
  (name_eqb a b = true <-> name_hash_input a = name_hash_input b) /\
  (name_eqb a b = true <-> name_cmp a b = Eq) /\
  name_cmp b a = CompOpp (name_cmp a b).
Proof.
  intros Ha Hb. destruct (from_str_wf _ _ Ha) as [Wa <-]. destruct (from_str_wf _ _ Hb) as [Wb <-].
  repeat split.
  - now apply name_eqb_ci.
  - now apply name_eqb_ci.
  - now apply name_eqb_iff.
  - now apply name_eqb_iff.
  - intros H. apply name_eqb_key in H; auto. now apply str_cmp_eq.
  - intros H. apply name_eqb_key; auto. now apply str_cmp_eq.
  - apply str_cmp_antisym.
Qed.

Lemma name_cmp_trans a b c : name_cmp a b = Lt -> name_cmp b c = Lt -> name_cmp a c = Lt.
Proof. apply str_cmp_lt_trans. Qed.

Lemma name_spelling x n : name_from_str x = Ok n ->
  name_as_str n = x /\ name_from_str (name_as_str n) = Ok n /\
  (forall t, n_ty n = t <-> str_ci (ty_str t) (firstn 3 x)).
Proof.
  intros H. destruct (from_str_wf _ _ H) as [W R]. unfold name_as_str. rewrite R.
  split; auto. split; auto. intros t. rewrite <- ty_of_spec.
  pose proof (wf_ty n W) as T. rewrite R in T. rewrite T. split; congruence.
Qed.

Lemma sub_identity x y a b : sub_from_str x = Ok a -> sub_from_str y = Ok b ->
  (sub_eqb a b = true <-> str_ci x y) /\ s_raw a = x.
Proof.
  intros Ha Hb. apply sub_ok in Ha as [-> _], Hb as [-> _]. split; auto.
  rewrite sub_eqb_iff. simpl. now rewrite str_ci_upper.
Qed.

Lemma element_check e : e <> [] -> forallb name_char e = true -> element e.
Proof.
  intros Hn H. split; auto. apply Forall_forall. intros c Hc.
  rewrite forallb_forall in H. now apply name_char_iff, H.
Qed.
