(** The preferred match of a name or a subname is the longest one. *)
From Coq Require Import Lia ZifyBool Sorted.
From Verif Require Import Base BaseFacts Regex RegexFacts ScanFacts Name SpecName NameFacts SubFacts LineFacts.

Lemma some_inj {A} (a b : A) : Some a = Some b -> a = b.
Proof. congruence. Qed.

Lemma flat_map_hd {A B} (f : A -> list B) l a b : hd_error l = Some a -> hd_error (f a) = Some b -> hd_error (flat_map f l) = Some b.
Proof. destruct l as [|x l]; simpl; [discriminate|]. intros [= ->] H. destruct (f a); [discriminate|exact H]. Qed.

Lemma run_cls_cons f c t cs : run (Cls f) (c :: t) cs = if f c then [(t, cs)] else [].
Proof. reflexivity. Qed.

Section Cls.
  Variable f : char -> bool.

  Lemma star_cls_hd n t cs : length t <= n -> hd_error (iter (run (Cls f)) true n t cs) = Some (drop_while f t, cs).
  Proof.
    revert t. induction n as [|n IH]; intros t Hn.
    - destruct t; [reflexivity|simpl in Hn; lia].
    - destruct t as [|c t]; [reflexivity|]. cbn [iter drop_while]. rewrite run_cls_cons. destruct (f c) eqn:Ec.
      + cbn [flat_map fst snd]. assert (Nat.ltb (length t) (length (c :: t)) = true) as -> by (apply Nat.ltb_lt; simpl; lia).
        rewrite app_nil_r. simpl in Hn. specialize (IH t ltac:(lia)).
        destruct (iter (run (Cls f)) true n t cs); [discriminate|]. exact IH.
      + reflexivity.
  Qed.

  Lemma star_cls_lit d n t cs : f d = false -> length t <= n ->
    flat_map (fun st : mstate => run (lit d) (fst st) (snd st)) (iter (run (Cls f)) true n t cs) =
    match drop_while f t with c :: t' => if N.eqb d c then [(t', cs)] else [] | [] => [] end.
  Proof.
    intros Hd. revert t. induction n as [|n IH]; intros t Hn.
    - destruct t; [reflexivity|simpl in Hn; lia].
    - destruct t as [|c t]; [reflexivity|]. cbn [iter drop_while]. rewrite run_cls_cons. destruct (f c) eqn:Ec.
      + cbn [flat_map fst snd]. assert (Nat.ltb (length t) (length (c :: t)) = true) as -> by (apply Nat.ltb_lt; simpl; lia).
        rewrite app_nil_r, flat_map_app. simpl in Hn. rewrite (IH t) by lia. cbn [flat_map fst snd]. unfold lit. cbn [run].
        destruct (N.eqb_spec d c) as [->|_]; [congruence|]. now rewrite app_nil_r.
      + cbn [flat_map app fst snd]. unfold lit. cbn [run]. destruct (N.eqb d c); reflexivity.
  Qed.
End Cls.

Lemma dash_no_name : name_char c_dash = false. Proof. reflexivity. Qed.

(** One element and a dash. *)
Lemma run_group t cs : run (Seq re_word (lit c_dash)) t cs =
  match t with
  | c :: t' => if name_char c
               then match drop_while name_char t' with d :: t2 => if N.eqb c_dash d then [(t2, cs)] else [] | [] => [] end
               else []
  | [] => []
  end.
Proof.
  destruct t as [|c t]; [reflexivity|].
  change (run (Seq re_word (lit c_dash)) (c :: t) cs) with
    (flat_map (fun st : mstate => run (lit c_dash) (fst st) (snd st))
       (flat_map (fun st : mstate => run (Star true (Cls name_char)) (fst st) (snd st)) (run (Cls name_char) (c :: t) cs))).
  rewrite run_cls_cons. destruct (name_char c); [|reflexivity].
  cbn [flat_map fst snd]. rewrite app_nil_r. apply star_cls_lit; auto using dash_no_name.
Qed.

Lemma run_word_hd t cs : hd_error (run re_word t cs) =
  match t with c :: t' => if name_char c then Some (drop_while name_char t', cs) else None | [] => None end.
Proof.
  destruct t as [|c t]; [reflexivity|].
  change (run re_word (c :: t) cs) with (flat_map (fun st : mstate => run (Star true (Cls name_char)) (fst st) (snd st)) (run (Cls name_char) (c :: t) cs)).
  rewrite run_cls_cons. destruct (name_char c); [|reflexivity]. cbn [flat_map fst snd]. rewrite app_nil_r. now apply star_cls_hd.
Qed.

(** The part of a name after the type. *)
Fixpoint body (n : nat) (t : str) : option str :=
  match n, t with
  | S n', c :: t' =>
      if name_char c
      then let u := drop_while name_char t' in
           Some (match u with
                 | d :: u' => if N.eqb c_dash d then match body n' u' with Some r => r | None => u end else u
                 | [] => u
                 end)
      else None
  | _, _ => None
  end.

Lemma drop_while_len {A} (f : A -> bool) l : length (drop_while f l) <= length l.
Proof. destruct (drop_while_spec f l) as (p & E & _). apply (f_equal (@length A)) in E. rewrite app_length in E. lia. Qed.

Lemma hd_error_app {A} (l m : list A) : hd_error (l ++ m) = match hd_error l with Some a => Some a | None => hd_error m end.
Proof. now destruct l. Qed.

Lemma body_hd n t cs : length t <= n ->
  hd_error (flat_map (fun st : mstate => run re_word (fst st) (snd st)) (iter (run (Seq re_word (lit c_dash))) true n t cs)) =
  match body n t with Some r => Some (r, cs) | None => None end.
Proof.
  revert t. induction n as [|n IH]; intros t Hn.
  - destruct t; [reflexivity|simpl in Hn; lia].
  - cbn [iter body]. rewrite run_group. destruct t as [|c t]; [reflexivity|]. simpl in Hn.
    rewrite flat_map_app. rewrite hd_error_app. cbn [flat_map fst snd]. rewrite app_nil_r, run_word_hd.
    destruct (name_char c); [|reflexivity].
    pose proof (drop_while_len name_char t) as L.
    destruct (drop_while name_char t) as [|d u]; [reflexivity|]. simpl in L.
    destruct (N.eqb c_dash d); [|reflexivity].
    cbn [flat_map fst snd]. assert (Nat.ltb (length u) (length (c :: t)) = true) as -> by (apply Nat.ltb_lt; simpl; lia).
    rewrite app_nil_r, IH by lia. destruct (body n u); reflexivity.
Qed.

(** Words at the beginning of a text. *)
Lemma word_prefix e v c t : Forall word_char e -> e ++ v = c :: t -> e <> [] ->
  name_char c = true /\ exists w, e = c :: w /\ w ++ v = t /\
    (length (drop_while name_char t) <= length v) /\
    (forall d v', v = d :: v' -> ~ word_char d -> drop_while name_char t = v).
Proof.
  intros F E Ne. destruct e as [|c' w]; [congruence|]. injection E as -> <-. inversion F as [|? ? Fc Fw]; subst.
  split; [now apply name_char_iff|]. exists w. split; auto. split; auto.
  assert (D : drop_while name_char (w ++ v) = drop_while name_char v).
  { clear Ne F. induction w as [|a w IH]; auto. inversion Fw; subst. cbn [app drop_while].
    assert (name_char a = true) as -> by now apply name_char_iff. auto. }
  rewrite D. split; [apply drop_while_len|].
  intros d v' -> Hd. cbn [drop_while]. destruct (name_char d) eqn:Ed; auto. exfalso. apply Hd. now apply name_char_iff.
Qed.

Lemma dash_not_word : ~ word_char 45%N. Proof. unfold word_char. lia. Qed.

Lemma body_longest n : forall t es v, length t <= n -> es <> [] -> Forall element es -> t = join [45%N] es ++ v ->
  exists r, body n t = Some r /\ length r <= length v.
Proof.
  induction n as [|n IH]; intros t es v Hn Ne F E; destruct es as [|e es]; try congruence; clear Ne;
    inversion F as [|? ? [Ee Fe] Fs]; subst t.
  - destruct es; simpl in Hn; rewrite ?app_length in Hn; destruct e; simpl in Hn; try lia; congruence.
  - destruct es as [|e2 es].
    + cbn [join] in Hn |- *. destruct e as [|c w] eqn:E0; [congruence|]. rewrite <- E0 in Fe, Ee. cbn [app].
      destruct (word_prefix e v c (w ++ v) Fe) as (Hc & w' & Ew & Et & L & _); auto; [now subst|].
      rewrite E0 in Ew. injection Ew as ->.
      cbn [body]. rewrite Hc. eexists. split; [reflexivity|].
      destruct (drop_while name_char (w' ++ v)) as [|d u] eqn:Ed; [simpl in *; lia|].
      destruct (N.eqb c_dash d); [|exact L].
      destruct (body n u) as [b|] eqn:Eb; [|exact L].
      assert (length b <= length u).
      { clear -Eb. revert u b Eb. induction n as [|n IH]; intros u b Eb; [discriminate|].
        destruct u as [|c u]; [discriminate|]. cbn [body] in Eb. destruct (name_char c); [|discriminate].
        apply some_inj in Eb. subst b. pose proof (drop_while_len name_char u) as L.
        destruct (drop_while name_char u) as [|d u'] eqn:E; [simpl; lia|].
        destruct (N.eqb c_dash d); [|simpl in *; lia].
        destruct (body n u') as [b|] eqn:Eb; [|simpl in *; lia]. apply IH in Eb. simpl in *. lia. }
      simpl in L. lia.
    + rewrite join_cons in Hn |- * by discriminate.
      rewrite <- !app_assoc in Hn |- *. cbn [app] in Hn |- *.
      set (z := join [45%N] (e2 :: es) ++ v) in *.
      destruct e as [|c w] eqn:E0; [congruence|]. rewrite <- E0 in Fe, Ee. cbn [app].
      destruct (word_prefix e (45%N :: z) c (w ++ 45%N :: z) Fe) as (Hc & w' & Ew & Et & L & D); auto; [now subst|].
      rewrite E0 in Ew. injection Ew as ->.
      cbn [body]. rewrite Hc, (D _ _ eq_refl dash_not_word).
      change (N.eqb c_dash 45%N) with true. cbv iota.
      destruct (IH z (e2 :: es) v) as (r & Er & Lr); auto; [|discriminate|].
      { clear -Hn. simpl in Hn. rewrite app_length in Hn. simpl in Hn. lia. }
      rewrite Er. exists r. auto.
Qed.

(** Literals. *)
Definition ci_test (c d : char) : bool :=
  N.eqb (upc d) (upc c) || (N.eqb (upc c) 83 && N.eqb d c_longs) || (N.eqb (upc c) 75 && N.eqb d c_kelvin).

Lemma run_ci c d q cs : run (ci c) (d :: q) cs = if ci_test c d then [(q, cs)] else [].
Proof. reflexivity. Qed.

Lemma run_cis_cons c c2 x q cs :
  run (cis (c :: c2 :: x)) q cs = flat_map (fun st : mstate => run (cis (c2 :: x)) (fst st) (snd st)) (run (ci c) q cs).
Proof. reflexivity. Qed.

Lemma run_cis x : x <> [] -> forall q cs, run (cis x) q cs = [] \/ run (cis x) q cs = [(skipn (length x) q, cs)].
Proof.
  induction x as [|c x IH]; intros Nx q cs; [congruence|]. destruct x as [|c2 x].
  - change (cis [c]) with (ci c). destruct q as [|d q]; [now left|]. rewrite run_ci. destruct (ci_test c d); [right|left]; reflexivity.
  - rewrite run_cis_cons. destruct q as [|d q]; [now left|]. rewrite run_ci. destruct (ci_test c d); [|now left].
    cbn [flat_map fst snd]. rewrite app_nil_r. change (skipn (length (c :: c2 :: x)) (d :: q)) with (skipn (length (c2 :: x)) q).
    apply IH. discriminate.
Qed.

Lemma run_cis_first c x d q cs : ci_test c d = false -> x <> [] -> run (cis (c :: x)) (d :: q) cs = [].
Proof. intros H Nx. destruct x as [|c2 x]; [congruence|]. now rewrite run_cis_cons, run_ci, H. Qed.

Lemma run_type q cs : run re_type q cs = [] \/ run re_type q cs = [(skipn 3 q, cs)].
Proof.
  change (run re_type q cs) with (run (cis (s "REQ")) q cs ++ run (cis (s "SPC")) q cs ++ run (cis (s "TST")) q cs).
  destruct q as [|d q]; [left; reflexivity|].
  assert (X : forall a b, ci_test a d = true -> ci_test b d = true -> In a [82; 83; 84]%N -> In b [82; 83; 84]%N -> a = b).
  { intros a b Ha Hb Ia Ib. unfold ci_test in *. unfold upc, is_lower, c_longs, c_kelvin in *.
    repeat (destruct Ia as [<-|Ia]; [|]); try destruct Ia; repeat (destruct Ib as [<-|Ib]; [|]); try destruct Ib; try reflexivity; exfalso;
    cbn in Ha, Hb;
    repeat match goal with H : context [if ?b then _ else _] |- _ => destruct b eqn:? end;
    repeat match goal with H : (_ || _)%bool = true |- _ => apply Bool.orb_true_iff in H end;
    lia. }
  destruct (ci_test 82 d) eqn:H1; [|destruct (ci_test 83 d) eqn:H2; [|destruct (ci_test 84 d) eqn:H3]].
  - assert (ci_test 83 d = false) as H2 by (destruct (ci_test 83 d) eqn:H2; auto; now specialize (X _ _ H1 H2 ltac:(simpl; auto) ltac:(simpl; auto))).
    assert (ci_test 84 d = false) as H3 by (destruct (ci_test 84 d) eqn:H3; auto; now specialize (X _ _ H1 H3 ltac:(simpl; auto) ltac:(simpl; auto))).
    change (s "SPC") with (83%N :: s "PC"). change (s "TST") with (84%N :: s "ST").
    rewrite (run_cis_first 83%N) by (auto; discriminate). rewrite (run_cis_first 84%N) by (auto; discriminate).
    rewrite !app_nil_r. apply run_cis. discriminate.
  - assert (ci_test 84 d = false) as H3 by (destruct (ci_test 84 d) eqn:H3; auto; now specialize (X _ _ H2 H3 ltac:(simpl; auto) ltac:(simpl; auto))).
    change (s "REQ") with (82%N :: s "EQ"). change (s "TST") with (84%N :: s "ST").
    rewrite (run_cis_first 82%N) by (auto; discriminate). rewrite (run_cis_first 84%N) by (auto; discriminate).
    rewrite !app_nil_r. cbn [app]. apply run_cis. discriminate.
  - change (s "REQ") with (82%N :: s "EQ"). change (s "SPC") with (83%N :: s "PC").
    rewrite (run_cis_first 82%N) by (auto; discriminate). rewrite (run_cis_first 83%N) by (auto; discriminate).
    cbn [app]. apply run_cis. discriminate.
  - change (s "REQ") with (82%N :: s "EQ"). change (s "SPC") with (83%N :: s "PC"). change (s "TST") with (84%N :: s "ST").
    rewrite (run_cis_first 82%N) by (auto; discriminate). rewrite (run_cis_first 83%N) by (auto; discriminate).
    rewrite (run_cis_first 84%N) by (auto; discriminate). now left.
Qed.

Lemma run_complete_in r m rest cs : lang r m -> exists cs', In (rest, cs') (run r (m ++ rest) cs).
Proof. intros H. apply run_complete; auto. Qed.

Lemma name_longest x v cs : valid_name x \/ longs_name x -> exists r, hd_error (run re_name (x ++ v) cs) = Some (r, cs) /\ length r <= length v.
Proof.
  intros H. apply lang_name_words in H. apply lang_name in H as (p & es & Lp & Ne & Fe & ->).
  assert (L3 : length p = 3).
  { apply lang_type in Lp as [(t & It & C)|(t & It & C)]; eapply type_len; eauto. }
  rewrite join_cons by exact Ne. rewrite <- !app_assoc. cbn [app].
  destruct (run_complete_in re_type p (45%N :: join [45%N] es ++ v) cs Lp) as (cs' & Hin).
  destruct (run_type (p ++ 45%N :: join [45%N] es ++ v) cs) as [E|E]; rewrite E in Hin; [destruct Hin|].
  unfold re_name. cbn [seqs].
  change (run (Seq re_type ?b) ?q cs) with (flat_map (fun st : mstate => run b (fst st) (snd st)) (run re_type q cs)).
  rewrite E. cbn [flat_map]. rewrite app_nil_r.
  rewrite skipn_app, L3. replace (3 - 3) with 0 by lia. rewrite skipn_all2 by lia. cbn [skipn app fst snd].
  change (run (Seq (lit c_dash) ?b) ?q ?c) with (flat_map (fun st : mstate => run b (fst st) (snd st)) (run (lit c_dash) q c)).
  change (run (lit c_dash) (45%N :: join [45%N] es ++ v) cs) with [(join [45%N] es ++ v, cs)].
  cbn [flat_map fst snd]. rewrite app_nil_r.
  change (run (Seq (Star true ?a) ?b) ?q ?c) with (flat_map (fun st : mstate => run b (fst st) (snd st)) (iter (run a) true (length q) q c)).
  rewrite body_hd by auto.
  destruct (body_longest (length (join [45%N] es ++ v)) (join [45%N] es ++ v) es v) as (r & Er & Lr); auto.
  rewrite Er. exists r. auto.
Qed.

Lemma run_tst_dash q cs : run (Seq (cis (s "tst")) (lit c_dash)) q cs = [] \/
  exists t r, q = t ++ 45%N :: r /\ length t = 3 /\ run (Seq (cis (s "tst")) (lit c_dash)) q cs = [(r, cs)].
Proof.
  change (run (Seq (cis (s "tst")) (lit c_dash)) q cs) with
    (flat_map (fun st : mstate => run (lit c_dash) (fst st) (snd st)) (run (cis (s "tst")) q cs)).
  destruct (run_cis (s "tst") ltac:(discriminate) q cs) as [E|E]; rewrite E; [now left|].
  cbn [flat_map fst snd]. rewrite app_nil_r. change (length (s "tst")) with 3.
  assert (Hin : In (skipn 3 q, cs) (run (cis (s "tst")) q cs)) by (rewrite E; now left).
  apply run_sound in Hin as (m & Em & Hm). apply mat_lang, lang_tst in Hm.
  assert (length m = 3) as Lm by (destruct Hm as [Hm|Hm]; apply str_ci_length in Hm; auto).
  destruct (skipn 3 q) as [|d r] eqn:Es; [now left|]. unfold lit. cbn [run].
  destruct (N.eqb_spec c_dash d) as [<-|_]; [|now left]. right. exists m, r. auto.
Qed.

Lemma sub_longest y v cs : valid_sub y -> exists r, hd_error (run re_sub (y ++ v) cs) = Some (r, cs) /\ length r <= length v.
Proof.
  intros H. assert (exists q, y = 46%N :: q) as [q ->].
  { apply valid_sub_chars in H as (z & -> & _). eauto. }
  unfold re_sub. cbn [seqs].
  change (run (Seq (lit c_dot) ?b) ?q ?c) with (flat_map (fun st : mstate => run b (fst st) (snd st)) (run (lit c_dot) q c)).
  change (run (lit c_dot) ((46%N :: q) ++ v) cs) with [(q ++ v, cs)]. cbn [flat_map fst snd]. rewrite app_nil_r.
  change (run (Seq (opt ?a) ?b) ?q ?c) with (flat_map (fun st : mstate => run b (fst st) (snd st)) (run a q c ++ [(q, c)])).
  rewrite flat_map_app, hd_error_app. cbn [flat_map fst snd]. rewrite app_nil_r.
  assert (P : forall e u, element e -> hd_error (run re_word (e ++ u) cs) = Some (drop_while name_char (e ++ u), cs) /\
             length (drop_while name_char (e ++ u)) <= length u).
  { intros e u [Ne Fe]. destruct e as [|c w] eqn:E0; [congruence|].
    destruct (word_prefix (c :: w) u c (w ++ u) Fe) as (Hc & w' & Ew & Et & L & _); auto.
    cbn [app]. rewrite run_word_hd, Hc. cbn [drop_while]. rewrite Hc. auto. }
  destruct H as (e & He & [E|(t & Ht & E)]).
  - injection E as ->. destruct (P e v He) as [P1 P2].
    destruct (run_tst_dash (e ++ v) cs) as [Er|(t & r & Eq & Lt & Er)].
    + rewrite Er. cbn [flat_map hd_error]. eauto.
    + rewrite Er. cbn [flat_map fst snd]. rewrite app_nil_r.
      assert (Lv : length r < length v).
      { assert (length e <= 3).
        { destruct (Nat.le_gt_cases (length e) 3); auto. exfalso. destruct He as [_ Fe].
          assert (In 45%N e); [|now rewrite Forall_forall in Fe; apply dash_not_word, Fe].
          assert (nth_error (e ++ v) 3 = Some 45%N) as N3.
          { rewrite Eq, nth_error_app2 by lia. rewrite Lt. reflexivity. }
          rewrite nth_error_app1 in N3 by lia. now apply nth_error_In in N3. }
        apply (f_equal (@length N)) in Eq. rewrite !app_length in Eq. simpl in Eq. lia. }
      rewrite run_word_hd. destruct r as [|c r']; [eauto|]. destruct (name_char c); [|eauto].
      eexists. split; [reflexivity|]. pose proof (drop_while_len name_char r'). simpl in *. lia.
  - injection E as ->. rewrite <- app_assoc. cbn [app].
    assert (Lt : length t = 3) by (destruct Ht as [Ht|Ht]; apply str_ci_length in Ht; auto).
    destruct (run_complete_in (Seq (cis (s "tst")) (lit c_dash)) (t ++ [45%N]) (e ++ v) cs) as (cs' & Hin).
    { apply lang_seq. exists t, [45%N]. repeat split; [now apply lang_tst|now apply lang_lit]. }
    rewrite <- app_assoc in Hin. cbn [app] in Hin.
    destruct (run_tst_dash (t ++ 45%N :: e ++ v) cs) as [Er|(t' & r & Eq & Lt' & Er)]; rewrite Er in Hin; [destruct Hin|].
    rewrite Er. cbn [flat_map fst snd]. rewrite app_nil_r.
    apply app_eq_len in Eq as [_ Eq]; [|lia]. injection Eq as <-.
    destruct (P e v He) as [-> P2]. eauto.
Qed.
