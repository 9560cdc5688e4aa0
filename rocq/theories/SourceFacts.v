(** Scanning source files (C20). *)
From Coq Require Import Lia ZifyBool Sorted.
From Verif Require Import Base BaseFacts Regex RegexFacts ScanFacts Name SpecName NameFacts SubFacts LineFacts SpecMarkdown MarkdownFacts
  SpecLint RefFacts GreedyFacts Artifact Lint Source SpecSource.

(** ** One match *)

Definition denotes_mark (cs : caps) (m : mark) : Prop :=
  match m with
  | MRef x y => cs = ref_caps x y
  | MSkip => exists k, cs = [(2, k)]
  | MDone => exists k, cs = [(3, k)]
  end.

Lemma folds_fold c d : (65 <= c <= 90)%N \/ c = 35%N \/ c = 45%N -> folds c d <-> char_fold c d.
Proof.
  intros Hc. unfold folds, char_fold, char_ci. unfold ci_test, upc, is_lower, c_longs, c_kelvin.
  repeat match goal with |- context [if ?b then _ else _] => destruct b eqn:? end; lia.
Qed.

Lemma forall2_iff {A B} (P Q : A -> B -> Prop) l m : (forall a b, In a l -> P a b <-> Q a b) -> Forall2 P l m <-> Forall2 Q l m.
Proof.
  revert m. induction l as [|a l IH]; intros m H; split; intros F; inversion F; subst; constructor;
    try (apply H; [now left|assumption]); apply (IH l'); auto; intros; apply H; now right.
Qed.

Lemma lang_marker x m : (forall c, In c x -> (65 <= c <= 90)%N \/ c = 35%N \/ c = 45%N) -> lang (cis x) m <-> Forall2 char_fold x m.
Proof. intros H. rewrite lang_cis. apply forall2_iff. intros a b Ha. now apply folds_fold, H. Qed.

Lemma skip_word : s "#ART-SKIP" = [35; 65; 82; 84; 45; 83; 75; 73; 80]%N. Proof. reflexivity. Qed.
Lemma done_word : s "#ART-DONE" = [35; 65; 82; 84; 45; 68; 79; 78; 69]%N. Proof. reflexivity. Qed.

Lemma skip_chars c : In c (s "#ART-SKIP") -> (65 <= c <= 90)%N \/ c = 35%N \/ c = 45%N.
Proof. intros H. vm_compute in H. lia. Qed.
Lemma done_chars c : In c (s "#ART-DONE") -> (65 <= c <= 90)%N \/ c = 35%N \/ c = 45%N.
Proof. intros H. vm_compute in H. lia. Qed.

Definition re_ref : re := seqs [lit c_hash; Cap 0 re_name; opt (Cap 1 re_sub)].

Lemma lang_ref m : lang re_ref m <-> exists x y, name_like x /\ (y = [] \/ valid_sub y) /\ m = 35%N :: x ++ y.
Proof.
  unfold re_ref, name_like. split.
  - intros H. apply lang_seqs_cons in H as (a & b & -> & Ha & H). apply lang_lit in Ha. subst a.
    apply lang_seqs_cons in H as (x & y & -> & Hx & Hy). apply lang_cap, lang_name_words in Hx. cbn [seqs] in Hy.
    exists x, y. split; auto. split; [|reflexivity].
    apply lang_opt in Hy as [Hy| ->]; auto. right. now apply lang_cap, lang_sub in Hy.
  - intros (x & y & Hx & Hy & ->). apply lang_seqs_cons. exists [35%N], (x ++ y). repeat split; [now apply lang_lit|].
    apply lang_seqs_cons. exists x, y. repeat split; [now apply lang_cap, lang_name_words|]. cbn [seqs].
    apply lang_opt. destruct Hy as [->|Hy]; auto. left. now apply lang_cap, lang_sub.
Qed.

(** The preferred match of a reference. *)
Lemma run_ref_hd x v : name_like x ->
  exists x0 y0 v0, hd_error (run re_ref (35%N :: x ++ v) []) = Some (v0, ref_caps x0 y0) /\ x ++ v = x0 ++ y0 ++ v0 /\
    mark_here (35%N :: x ++ v) (MRef x0 y0).
Proof.
  intros Hx. unfold re_ref. cbn [seqs].
  change (run (Seq (lit c_hash) ?b) ?q ?c) with (flat_map (fun st : mstate => run b (fst st) (snd st)) (run (lit c_hash) q c)).
  change (run (lit c_hash) (35%N :: x ++ v) []) with [(x ++ v, @nil (nat * str))]. cbn [flat_map fst snd]. rewrite app_nil_r.
  set (q := x ++ v).
  change (run (Seq (Cap 0 re_name) ?b) q []) with
    (flat_map (fun st : mstate => run b (fst st) (snd st))
       (map (fun st : mstate => (fst st, (0, firstn (length q - length (fst st)) q) :: snd st)) (run re_name q []))).
  destruct (name_longest x v [] Hx) as (r & Er & Lr). fold q in Er.
  destruct (run re_name q []) as [|st l] eqn:Erun; [discriminate|]. cbn [hd_error] in Er. apply some_inj in Er. subst st.
  assert (Hin : In (r, []) (run re_name q [])) by (rewrite Erun; now left).
  apply run_sound in Hin as (x0 & Eq & Hm). apply mat_lang, lang_name_words in Hm.
  assert (F0 : firstn (length q - length r) q = x0).
  { rewrite Eq, app_length. replace (length x0 + length r - length r) with (length x0) by lia.
    rewrite firstn_app, Nat.sub_diag, firstn_all, firstn_O. apply app_nil_r. }
  cbn [map]. cbn [fst snd]. rewrite F0.
  assert (LN : forall x' v', 35%N :: q = 35%N :: x' ++ v' -> name_like x' -> length x' <= length x0).
  { intros x' v' E Hx'. apply cons_inj in E as [_ E]. destruct (name_longest x' v' [] Hx') as (r' & Er' & Lr').
    rewrite <- E, Erun in Er'. cbn [hd_error] in Er'. apply some_inj in Er'. injection Er' as <-.
    rewrite Eq in E. apply (f_equal (@length N)) in E. rewrite !app_length in E. lia. }
  assert (Eopt : run (opt (Cap 1 re_sub)) r [(0, x0)] = map (fun st : mstate => (fst st, (1, firstn (length r - length (fst st)) r) :: snd st)) (run re_sub r [(0, x0)]) ++ [(r, [(0, x0)])]) by reflexivity.
  destruct (run re_sub r [(0, x0)]) as [|st l'] eqn:Es.
  - exists x0, [], r. split.
    { eapply flat_map_hd; [reflexivity|]. cbn [fst snd]. now rewrite Eopt. } split; [exact Eq|].
    apply (HereRef _ x0 [] r); auto; [now rewrite Eq|].
    intros y' v' E Hy'. cbn [app] in E. destruct (sub_longest y' v' [(0, x0)] Hy') as (r' & Er' & _).
    rewrite <- E, Es in Er'. discriminate.
  - assert (Hin : In st (run re_sub r [(0, x0)])) by (rewrite Es; now left). destruct st as [v0 cs0].
    apply run_sound in Hin as (y0 & Er & Hy). pose proof (no_cap_mat _ _ _ _ Hy eq_refl) as ->. apply mat_lang, lang_sub in Hy.
    assert (F1 : firstn (length r - length v0) r = y0).
    { rewrite Er, app_length. replace (length y0 + length v0 - length v0) with (length y0) by lia.
      rewrite firstn_app, Nat.sub_diag, firstn_all, firstn_O. apply app_nil_r. }
    exists x0, y0, v0. split.
    { eapply flat_map_hd; [reflexivity|]. cbn [fst snd]. rewrite Eopt. cbn [map app hd_error fst snd]. rewrite F1. pose proof (sub_not_nil _ Hy). unfold ref_caps. now destruct y0. }
    split; [now rewrite Eq, Er|].
    apply (HereRef _ x0 y0 v0); auto; [now rewrite Eq, Er|].
    intros y' v' E Hy'. destruct (sub_longest y' v' [(0, x0)] Hy') as (r' & Er' & Lr').
    rewrite <- E, <- Er, Es in Er'. cbn [hd_error] in Er'. apply some_inj in Er'. injection Er' as <-.
    apply (f_equal (@length N)) in E. rewrite !app_length in E. lia.
Qed.

Lemma fold_first a x k : Forall2 char_fold (a :: x) k -> exists b k', k = b :: k' /\ char_fold a b /\ Forall2 char_fold x k'.
Proof. intros H. inversion H; subst. eauto. Qed.

(** A name does not start like a marker. *)
Lemma name_first x : name_like x -> exists c t, x = c :: t /\ ~ char_fold 65%N c.
Proof.
  assert (X : forall t p es, In t (type_words ++ longs_words) -> str_ci t p -> dashed p es x -> exists c t, x = c :: t /\ ~ char_fold 65%N c).
  { intros t p es It C (Ne & _ & ->). rewrite join_cons by exact Ne.
    assert (exists a b, t = a :: b /\ (a = 82 \/ a = 83 \/ a = 84 \/ a = 383)%N) as (a & b & -> & Ha).
    { vm_compute in It. repeat (destruct It as [<-|It]; [eexists; eexists; split; [reflexivity|lia]|]). destruct It. }
    inversion C as [|? c ? p' HC]; subst. exists c, (p' ++ [45%N] ++ join [45%N] es). split; [reflexivity|].
    unfold char_fold, char_ci in *. lia. }
  intros [(t & p & es & It & C & D)|(t & p & es & It & C & D)]; apply (X t p es); auto; apply in_app_iff; auto.
Qed.

Lemma marker_second x k v : Forall2 char_fold (35%N :: 65%N :: x) k -> exists c k', k ++ v = 35%N :: c :: k' ++ v /\ char_fold 65%N c /\ k = 35%N :: c :: k'.
Proof.
  intros H. inversion H as [|? a ? ? Ha H2]; subst. inversion H2 as [|? c ? k' Hc H3]; subst.
  assert (a = 35%N) as -> by (unfold char_fold, char_ci in Ha; lia). exists c, k'. auto.
Qed.

Lemma ref_not_marker x y v k u z : name_like x -> Forall2 char_fold (35%N :: 65%N :: z) k -> 35%N :: x ++ y ++ v = k ++ u -> False.
Proof.
  intros Hx Hk E. apply name_first in Hx as (c & t & -> & Hc). apply (marker_second _ _ u) in Hk as (d & k' & E2 & Hd & _).
  rewrite E2 in E. cbn [app] in E. injection E as E1 _. subst. contradiction.
Qed.

Lemma skip_not_done k k' v v' : Forall2 char_fold (s "#ART-SKIP") k -> Forall2 char_fold (s "#ART-DONE") k' -> k ++ v = k' ++ v' -> False.
Proof.
  intros H H' E.
  assert (L : length k = length k').
  { apply forall2_len in H, H'. rewrite <- H, <- H'. reflexivity. }
  apply app_eq_len in E as [<- _]; auto. rewrite skip_word in H. rewrite done_word in H'. clear L.
  do 5 (apply fold_first in H as (? & ? & -> & _ & H)).
  do 5 (apply fold_first in H' as (? & ? & E & _ & H'); injection E as <- <-).
  apply fold_first in H as (c & ? & -> & C & _). apply fold_first in H' as (? & ? & E & C' & _). injection E as <- <-.
  unfold char_fold, char_ci in *. lia.
Qed.

Lemma mark_fun q m m' : mark_here q m -> mark_here q m' -> m = m'.
Proof.
  intros H H'.
  destruct H as [x y v E Hx Lx Hy Ly|k v E F|k v E F]; destruct H' as [x' y' v' E' Hx' Lx' Hy' Ly'|k' v' E' F'|k' v' E' F']; auto.
  2: { rewrite skip_word in F'. exfalso. rewrite E in E'. exact (ref_not_marker x y v _ _ _ Hx F' E'). }
  2: { rewrite done_word in F'. exfalso. rewrite E in E'. exact (ref_not_marker x y v _ _ _ Hx F' E'). }
  2: { rewrite skip_word in F. exfalso. rewrite E' in E. exact (ref_not_marker x' y' v' _ _ _ Hx' F E). }
  2: { exfalso. rewrite E in E'. exact (skip_not_done _ _ _ _ F F' E'). }
  2: { rewrite done_word in F. exfalso. rewrite E' in E. exact (ref_not_marker x' y' v' _ _ _ Hx' F E). }
  2: { exfalso. rewrite E' in E. exact (skip_not_done _ _ _ _ F' F E). }
  pose proof (Lx _ _ E' Hx') as L1. pose proof (Lx' _ _ E Hx) as L2.
  subst q. injection E' as E'. apply app_eq_len in E' as [-> E']; [|lia]. f_equal.
  assert (X : forall a b z w, a ++ z = b ++ w -> (b = [] \/ valid_sub b) -> (forall y' v', a ++ z = y' ++ v' -> valid_sub y' -> length y' <= length a) -> length b <= length a).
  { intros a b z w Eab [->|Hb] Hl; [simpl; lia|]. eapply Hl; eauto. }
  pose proof (X _ _ _ _ E' Hy' Ly) as L3. symmetry in E'. pose proof (X _ _ _ _ E' Hy Ly') as L4.
  apply app_eq_len in E' as [-> _]; auto. lia.
Qed.

(** What the regular expression finds at a position is the mark there. *)
Lemma mat_cap_no i r m cs' : no_cap r = true -> mat (Cap i r) m [] cs' -> cs' = [(i, m)] /\ lang r m.
Proof.
  intros N H. inversion H as [| | | | | | |? ? ? ? k HB]; subst. pose proof (no_cap_mat _ _ _ _ HB N) as ->. split; auto. now apply mat_lang in HB.
Qed.

Lemma run_src q : run re_src q [] = run re_ref q [] ++ run (Cap 2 (cis (s "#ART-SKIP"))) q [] ++ run (Cap 3 (cis (s "#ART-DONE"))) q [].
Proof. reflexivity. Qed.

Lemma ref_hd_mark q st : hd_error (run re_ref q []) = Some st -> exists x y, mark_here q (MRef x y) /\ q = 35%N :: x ++ y ++ fst st /\ snd st = ref_caps x y.
Proof.
  intros H. destruct (run re_ref q []) as [|[r cs] l] eqn:E; [discriminate|].
  assert (Hin : In (r, cs) (run re_ref q [])) by (rewrite E; now left).
  apply run_sound in Hin as (m & -> & Hm). apply mat_lang, lang_ref in Hm as (x & y & Hx & Hy & ->). cbn [app] in *. rewrite <- !app_assoc in *.
  destruct (run_ref_hd x (y ++ r) Hx) as (x0 & y0 & v0 & E0 & Eq & M). rewrite E in E0. cbn [hd_error] in *. rewrite E0 in H.
  apply some_inj in H. subst st. exists x0, y0. cbn [fst snd]. rewrite Eq. rewrite Eq in M. auto.
Qed.

Lemma match_src_mark q rest cs : match_here re_src q = Some (rest, cs) ->
  exists m, mark_here q m /\ denotes_mark cs m /\ exists w, q = 35%N :: w ++ rest /\ ~ In 35%N w.
Proof.
  unfold match_here. rewrite run_src. intros H.
  destruct (run re_ref q []) as [|st l] eqn:E.
  - cbn [app] in H.
    assert (Hin : In (rest, cs) (run (Cap 2 (cis (s "#ART-SKIP"))) q [] ++ run (Cap 3 (cis (s "#ART-DONE"))) q [])).
    { destruct (run (Cap 2 _) q [] ++ _); [discriminate|]. injection H as ->. now left. }
    assert (W : forall z k, ~ In 35%N z -> ~ In 383%N z -> (forall c, In c z -> (65 <= c <= 90)%N \/ c = 45%N) -> Forall2 char_fold z k -> ~ In 35%N k).
    { intros z k _ _ Hz F Hin35. induction F as [|a b z' k' Hab F IH]; [destruct Hin35|]. destruct Hin35 as [->|Hin35].
      - specialize (Hz a ltac:(now left)). unfold char_fold, char_ci in Hab. lia.
      - apply IH; auto. intros c Hc. apply Hz. now right. }
    apply in_app_iff in Hin as [Hin|Hin]; apply run_sound in Hin as (m & -> & Hm); apply mat_cap_no in Hm as [-> Hm]; auto.
    + apply (lang_marker (s "#ART-SKIP") m skip_chars) in Hm. exists MSkip. split; [econstructor; eauto|]. split; [simpl; eauto|]. rewrite skip_word in Hm.
      apply fold_first in Hm as (b & k' & -> & Hb & Hm). exists k'. assert (b = 35%N) as -> by (unfold char_fold, char_ci in Hb; lia).
      split; [reflexivity|]. eapply W; [| | |exact Hm]; try (intros Hc; vm_compute in Hc; lia). intros c Hc. vm_compute in Hc. lia.
    + apply (lang_marker (s "#ART-DONE") m done_chars) in Hm. exists MDone. split; [econstructor; eauto|]. split; [simpl; eauto|]. rewrite done_word in Hm.
      apply fold_first in Hm as (b & k' & -> & Hb & Hm). exists k'. assert (b = 35%N) as -> by (unfold char_fold, char_ci in Hb; lia).
      split; [reflexivity|]. eapply W; [| | |exact Hm]; try (intros Hc; vm_compute in Hc; lia). intros c Hc. vm_compute in Hc. lia.
  - cbn [app] in H. apply some_inj in H. subst st.
    destruct (ref_hd_mark q (rest, cs)) as (x & y & M & Eq & Ec); [now rewrite E|]. cbn [fst snd] in *.
    exists (MRef x y). split; auto. split; auto. exists (x ++ y). rewrite <- app_assoc. split; auto.
    inversion M as [x' y' v' _ Hx _ Hy _| |]; subst. intros Hin. apply in_app_iff in Hin as [Hin|Hin].
    + apply (name_no_special x Hx) in Hin. unfold word_char in Hin. lia.
    + destruct Hy as [->|Hy]; [destruct Hin|]. apply valid_sub_chars in Hy as (z & -> & _ & Hz). destruct Hin as [Hin|Hin]; [discriminate|].
      rewrite Forall_forall in Hz. apply Hz in Hin. unfold word_char, c_dash in Hin. lia.
Qed.

Lemma mark_match q m : mark_here q m -> exists rest cs, match_here re_src q = Some (rest, cs) /\ denotes_mark cs m.
Proof.
  intros H.
  assert (exists x rest, lang re_src x /\ q = x ++ rest) as (x & rest & L & ->).
  { destruct H as [x y v -> Hx _ Hy _|k v -> F|k v -> F].
    - exists (35%N :: x ++ y), v. split; [|cbn [app]; now rewrite <- app_assoc]. apply lang_alt. left. apply lang_ref. eauto 6.
    - exists k, v. split; auto. apply lang_alt. right. apply lang_alt. left. apply lang_cap. now apply (lang_marker _ _ skip_chars).
    - exists k, v. split; auto. apply lang_alt. right. apply lang_alt. right. apply lang_cap. now apply (lang_marker _ _ done_chars). }
  destruct (match_here_some re_src x rest L) as (rest' & cs & E). exists rest', cs. split; auto.
  destruct (match_src_mark _ _ _ E) as (m' & M' & D & _). now rewrite (mark_fun _ _ _ H M').
Qed.

Lemma consuming_src : consuming re_src.
Proof.
  intros H. destruct (match_here_some re_src [] [] H) as (rest & cs & E).
  apply match_src_mark in E as (m & _ & _ & w & E & _). discriminate.
Qed.

Lemma isolated_src : isolated re_src.
Proof.
  intros c m rest cs H a b -> Hb.
  destruct (match_here re_src (b ++ rest)) as [[rest' cs']|] eqn:E2; auto. exfalso.
  apply match_src_mark in H as (m & _ & _ & w & E & Nw). injection E as -> E. apply app_inv_tail in E. subst w.
  apply match_src_mark in E2 as (m' & _ & _ & w' & E & _). destruct b as [|d b]; [congruence|]. injection E as -> _.
  apply Nw. apply in_or_app. right. now left.
Qed.

(** ** All marks of a line and of a file *)

Definition line_marks (l : str) : list (nat * caps) := all_matches re_src 0 l.
Lemma find_all_src l : find_all re_src l = map snd (line_marks l).
Proof. unfold find_all. apply find_all_all; auto using consuming_src, isolated_src. Qed.

Definition file_caps (i : nat) (lines : list str) : list ((nat * nat) * caps) :=
  flat_map (fun il => map (fun e => ((fst il, fst e), snd e)) (line_marks (snd il))) (combine (seq i (length lines)) lines).

Definition mark_of (cs : caps) : mark :=
  match cap_get 2 cs, cap_get 3 cs with
  | Some _, _ => MSkip
  | None, Some _ => MDone
  | None, None => MRef (match cap_get 0 cs with Some x => x | None => [] end) (match cap_get 1 cs with Some y => y | None => [] end)
  end.
Lemma denotes_of cs m : denotes_mark cs m -> mark_of cs = m.
Proof. destruct m as [x y| |]; simpl; [intros ->|intros (k & ->)|intros (k & ->)]; auto. destruct y; reflexivity. Qed.

Lemma before_trans a b c : before a b -> before b c -> before a c.
Proof. unfold before. lia. Qed.
Lemma before_irrefl a : ~ before a a.
Proof. unfold before. lia. Qed.
Lemma before_total a b : before a b \/ a = b \/ before b a.
Proof. destruct a as [a1 a2], b as [b1 b2]. unfold before. simpl. destruct (Nat.lt_trichotomy a1 b1) as [H|[H|H]]; destruct (Nat.lt_trichotomy a2 b2) as [H'|[H'|H']]; subst; auto; lia. Qed.

Lemma file_caps_cons i l ls : file_caps i (l :: ls) = map (fun e => ((i, fst e), snd e)) (line_marks l) ++ file_caps (S i) ls.
Proof. reflexivity. Qed.

Lemma file_caps_in lines : forall i p cs, In (p, cs) (file_caps i lines) <->
  i <= fst p /\ exists l a q rest, nth_error lines (fst p - i) = Some l /\ l = a ++ q /\ length a = snd p /\ match_here re_src q = Some (rest, cs).
Proof.
  induction lines as [|l ls IH]; intros i [p1 p2] cs.
  - split; [intros []|]. intros (_ & l & a & q & rest & E & _). destruct (fst (p1, p2) - i); discriminate.
  - rewrite file_caps_cons, in_app_iff, IH. cbn [fst snd]. split.
    + intros [H|(Hle & l' & a & q & rest & E & H)].
      * apply in_map_iff in H as ([j cs'] & E & Hin). cbn [fst snd] in E. injection E as <- <- <-.
        unfold line_marks in Hin. apply all_matches_in in Hin as (a & q & rest & -> & -> & Hm).
        split; [lia|]. rewrite Nat.sub_diag. exists (a ++ q), a, q, rest. repeat split; auto.
      * split; [lia|]. replace (p1 - i) with (S (p1 - S i)) by lia. exists l', a, q, rest. auto.
    + intros (Hle & l' & a & q & rest & E & -> & Hl & Hm). destruct (Nat.eq_dec p1 i) as [->|Hne].
      * left. rewrite Nat.sub_diag in E. injection E as ->. apply in_map_iff. exists (p2, cs). split; auto.
        apply all_matches_in. exists a, q, rest. repeat split; auto. lia.
      * right. split; [lia|]. replace (p1 - i) with (S (p1 - S i)) in E by lia. exists (a ++ q), a, q, rest. auto.
Qed.

Lemma file_caps_sorted lines : forall i, StronglySorted (fun a b => before (fst a) (fst b)) (file_caps i lines).
Proof.
  induction lines as [|l ls IH]; intros i; [constructor|]. rewrite file_caps_cons.
  assert (G : forall (A : Type) (R : A -> A -> Prop) l1 l2, StronglySorted R l1 -> StronglySorted R l2 -> (forall a b, In a l1 -> In b l2 -> R a b) -> StronglySorted R (l1 ++ l2)).
  { intros A R l1 l2 S1 S2 H. induction S1 as [|a l1 S1 IH1 F]; auto. cbn [app]. constructor.
    - apply IH1. intros; apply H; auto. now right.
    - apply Forall_app. split; auto. apply Forall_forall. intros b Hb. apply H; auto. now left. }
  apply G; auto.
  - pose proof (all_matches_sorted re_src l 0) as S0. unfold line_marks. induction S0 as [|[j cs] t St IHt F]; constructor; auto.
    apply Forall_map. eapply Forall_impl; [|exact F]. intros [j' cs'] Hj. cbn in *. right. auto.
  - intros [a1 c1] [b1 c2] Ha Hb. apply in_map_iff in Ha as ([j cs] & E & _). injection E as <- _. apply file_caps_in in Hb as [Hle _]. left. cbn in *. lia.
Qed.

Definition file_marks (lines : list str) : list ((nat * nat) * mark) := map (fun e => (fst e, mark_of (snd e))) (file_caps 0 lines).

Lemma file_marks_in lines p m : In (p, m) (file_marks lines) <-> mark_at lines (fst p) (snd p) m.
Proof.
  unfold file_marks, mark_at. rewrite in_map_iff. split.
  - intros ([p' cs] & E & Hin). cbn [fst snd] in E. injection E as -> <-.
    apply file_caps_in in Hin as (_ & l & a & q & rest & E & -> & El & Hm). rewrite Nat.sub_0_r in E.
    exists (a ++ q), a, q. repeat split; auto. apply match_src_mark in Hm as (m & M & D & _). now rewrite (denotes_of _ _ D).
  - intros (l & a & q & E & -> & El & M). apply mark_match in M as (rest & cs & Hm & D).
    exists (p, cs). cbn [fst snd]. rewrite (denotes_of _ _ D). split; auto. apply file_caps_in. split; [lia|]. rewrite Nat.sub_0_r. eauto 8.
Qed.

Lemma file_marks_sorted lines : StronglySorted (fun a b => before (fst a) (fst b)) (file_marks lines).
Proof.
  unfold file_marks. pose proof (file_caps_sorted lines 0) as H. induction H as [|a l S IH F]; constructor; auto.
  apply Forall_map. eapply Forall_impl; [|exact F]. auto.
Qed.

(** ** The scan *)

Definition seen := ((nat * nat) * str * str)%type.
Fixpoint visible (skipping : bool) (l : list ((nat * nat) * mark)) : list seen :=
  match l with
  | [] => []
  | (_, MSkip) :: l' => visible true l'
  | (_, MDone) :: l' => visible false l'
  | (p, MRef x y) :: l' => (if skipping then [] else [(p, x, y)]) ++ visible skipping l'
  end.

Definition skip_state (pre : list ((nat * nat) * mark)) : Prop :=
  exists k, In (k, MSkip) pre /\ forall d, In (d, MDone) pre -> before d k.

Lemma sorted_snoc {A} (R : A -> A -> Prop) pre e : StronglySorted R (pre ++ [e]) -> Forall (fun x => R x e) pre.
Proof. induction pre as [|a pre IH]; intros H; [constructor|]. inversion H as [|? ? S F]; subst. constructor; auto. apply Forall_app in F as [_ F]. now inversion F. Qed.

Lemma sorted_prefix {A} (R : A -> A -> Prop) l1 l2 : StronglySorted R (l1 ++ l2) -> StronglySorted R l1.
Proof. induction l1 as [|a l1 IH]; intros H; constructor; inversion H as [|? ? S F]; subst; auto. now apply Forall_app in F as [F _]. Qed.

Lemma sorted_suffix {A} (R : A -> A -> Prop) l1 l2 : StronglySorted R (l1 ++ l2) -> StronglySorted R l2.
Proof. induction l1 as [|a l1 IH]; intros H; auto. inversion H; subst; auto. Qed.

Lemma visible_in post : forall pre skipping, StronglySorted (fun a b => before (fst a) (fst b)) (pre ++ post) ->
  (skipping = true <-> skip_state pre) ->
  forall p x y, In (p, x, y) (visible skipping post) <->
    exists a b, post = a ++ (p, MRef x y) :: b /\ ~ skip_state (pre ++ a).
Proof.
  induction post as [|[q m] post IH]; intros pre skipping S Hs p x y.
  - split; [intros []|]. intros (a & b & E & _). destruct a; discriminate.
  - assert (S' : StronglySorted (fun a b => before (fst a) (fst b)) ((pre ++ [(q, m)]) ++ post)) by now rewrite <- app_assoc.
    assert (B : Forall (fun e => before (fst e) q) pre).
    { apply sorted_prefix in S'. apply sorted_snoc in S'. exact S'. }
    rewrite Forall_forall in B.
    assert (G : forall sk, (sk = true <-> skip_state (pre ++ [(q, m)])) ->
              (In (p, x, y) (visible sk post) <-> exists a b, (q, m) :: post = ((q, m) :: a) ++ (p, MRef x y) :: b /\ ~ skip_state (pre ++ (q, m) :: a))).
    { intros sk Hsk. rewrite (IH _ sk S' Hsk). split; intros (a & b & E & Hn); exists a, b.
      - rewrite <- app_assoc in Hn. cbn [app] in *. split; [now f_equal|auto].
      - rewrite <- app_assoc. cbn [app] in *. apply cons_inj in E as [_ E]. auto. }
    assert (SP : forall a b, (q, m) :: post = a ++ (p, MRef x y) :: b -> a = [] /\ m = MRef x y /\ p = q \/ exists a', a = (q, m) :: a').
    { intros a b E. destruct a as [|e a]; cbn [app] in E; [left; now injection E as -> ->|right]. injection E as <- _. eauto. }
    destruct m as [x0 y0| |]; cbn [visible].
    + assert (K : skipping = true <-> skip_state (pre ++ [(q, MRef x0 y0)])).
      { rewrite Hs. unfold skip_state. split; intros (k & Hk & Hd); exists k.
        - split; [apply in_or_app; auto|]. intros d Hin. apply in_app_iff in Hin as [Hin|[Hin|[]]]; [auto|discriminate].
        - apply in_app_iff in Hk as [Hk|[Hk|[]]]; [|discriminate]. split; auto. intros d Hin. apply Hd. apply in_or_app. auto. }
      rewrite in_app_iff, (G _ K). split.
      * intros [H|(a & b & E & Hn)]; [|exists ((q, MRef x0 y0) :: a), b; auto].
        destruct skipping; [destruct H|]. destruct H as [H|[]]. injection H as -> -> ->. exists [], post. split; auto.
        rewrite app_nil_r. intros Hk. apply Hs in Hk. discriminate.
      * intros (a & b & E & Hn). destruct (SP a b E) as [(-> & Em & ->)|(a' & ->)].
        -- left. injection Em as -> ->. destruct skipping; [|now left]. rewrite app_nil_r in Hn. exfalso. now apply Hn, Hs.
        -- right. eauto.
    + assert (K : true = true <-> skip_state (pre ++ [(q, MSkip)])).
      { split; auto. intros _. exists q. split; [apply in_or_app; right; now left|]. intros d Hin.
        apply in_app_iff in Hin as [Hin|[Hin|[]]]; [|discriminate]. apply (B _ Hin). }
      rewrite (G _ K). split.
      * intros (a & b & E & Hn); exists ((q, MSkip) :: a), b; auto.
      * intros (a & b & E & Hn). destruct (SP a b E) as [(_ & Em & _)|(a' & ->)]; [discriminate|eauto].
    + assert (K : false = true <-> skip_state (pre ++ [(q, MDone)])).
      { split; [discriminate|]. intros (k & Hk & Hd). exfalso. apply in_app_iff in Hk as [Hk|[Hk|[]]]; [|discriminate].
        specialize (Hd q ltac:(apply in_or_app; right; now left)). apply B in Hk. cbn [fst] in Hk. apply (before_irrefl k). eapply before_trans; eauto. }
      rewrite (G _ K). split.
      * intros (a & b & E & Hn); exists ((q, MDone) :: a), b; auto.
      * intros (a & b & E & Hn). destruct (SP a b E) as [(_ & Em & _)|(a' & ->)]; [discriminate|eauto].
Qed.

Lemma skip_state_skipped lines a p m b : file_marks lines = a ++ (p, m) :: b -> skip_state a <-> skipped lines p.
Proof.
  intros E. pose proof (file_marks_sorted lines) as S. rewrite E in S.
  assert (A : forall q m', mark_at lines (fst q) (snd q) m' -> before q p -> In (q, m') a).
  { intros q m' H Hb. apply file_marks_in in H. rewrite E in H. apply in_app_iff in H as [H|[H|H]]; auto; exfalso.
    - injection H as <- <-. now apply before_irrefl in Hb.
    - apply sorted_suffix in S. inversion S as [|? ? _ F]; subst. rewrite Forall_forall in F. apply F in H. cbn [fst] in H.
      apply (before_irrefl p). eapply before_trans; eauto. }
  assert (B : forall q m', In (q, m') a -> mark_at lines (fst q) (snd q) m' /\ before q p).
  { intros q m' H. split; [apply file_marks_in; rewrite E; apply in_or_app; auto|].
    change ((p, m) :: b) with ([(p, m)] ++ b) in S. rewrite app_assoc in S. apply sorted_prefix, sorted_snoc in S.
    rewrite Forall_forall in S. now apply S in H. }
  unfold skip_state, skipped. split.
  - intros (k & Hk & Hd). exists k. destruct (B _ _ Hk). repeat split; auto.
  - intros (k & Hk & Hb & Hd). exists k. split; auto. intros d Hin. apply B in Hin as [? ?]. auto.
Qed.

Definition refs_of (lines : list str) : list seen := visible false (file_marks lines).

Theorem refs_of_in lines p x y : In (p, x, y) (refs_of lines) <-> ref_at lines p x y.
Proof.
  unfold refs_of. rewrite (visible_in (file_marks lines) [] false).
  - unfold ref_at. split.
    + intros (a & b & E & Hn). cbn [app] in Hn. rewrite (skip_state_skipped _ _ _ _ _ E) in Hn. split; auto.
      apply file_marks_in. rewrite E. apply in_or_app. right. now left.
    + intros (H & Hn). apply file_marks_in in H. apply in_split in H as (a & b & E). exists a, b. split; auto.
      cbn [app]. now rewrite (skip_state_skipped _ _ _ _ _ E).
  - apply file_marks_sorted.
  - split; [discriminate|]. intros (k & [] & _).
Qed.

Lemma visible_sorted l sk : StronglySorted (fun a b => before (fst a) (fst b)) l -> StronglySorted before (map (fun e => fst (fst e)) (visible sk l)).
Proof.
  intros H. revert sk. assert (Sub : forall l sk e, In e (map (fun e => fst (fst e)) (visible sk l)) -> In e (map fst l)).
  { clear. induction l as [|[q m] l IH]; intros sk e Hin; [destruct Hin|]. destruct m; cbn [visible] in Hin.
    - rewrite map_app in Hin. apply in_app_iff in Hin as [Hin|Hin]; [|right; eapply IH; eauto]. destruct sk; [destruct Hin|]. destruct Hin as [<-|[]]. now left.
    - right. eapply IH; eauto.
    - right. eapply IH; eauto. }
  induction H as [|[q m] l S IH F]; intros sk; [constructor|].
  destruct m; cbn [visible]; auto. destruct sk; cbn [app]; auto. cbn [map fst]. constructor; auto.
  apply Forall_forall. intros e He. apply Sub in He. apply in_map_iff in He as (e' & <- & He'). rewrite Forall_forall in F. now apply F in He'.
Qed.

Lemma refs_of_sorted lines : StronglySorted before (map (fun e => fst (fst e)) (refs_of lines)).
Proof. apply visible_sorted, file_marks_sorted. Qed.

(** *** The model's scan *)

Definition sent (file : path) (e : seen) (r : src_ref) : Prop :=
  let '(p, x, y) := e in
  exists n sub, r = (mkLoc file (fst p), n, sub) /\ name_from_str x = Ok n /\
    match sub with Some sb => sub_from_str y = Ok sb | None => y = [] end.

(** The scan of the references [vis], up to the first name that panics. *)
Definition scan_ok (file : path) (vis : list seen) (out : list src_ref) (panicked : bool) : Prop :=
  exists v1 v2, vis = v1 ++ v2 /\ Forall2 (sent file) v1 out /\
    match v2 with [] => panicked = false | (_, x, _) :: _ => longs_name x /\ panicked = true end.

Fixpoint state_after (sk : bool) (l : list ((nat * nat) * mark)) : bool :=
  match l with [] => sk | (_, MSkip) :: l' => state_after true l' | (_, MDone) :: l' => state_after false l' | _ :: l' => state_after sk l' end.

Lemma visible_app sk l1 l2 : visible sk (l1 ++ l2) = visible sk l1 ++ visible (state_after sk l1) l2.
Proof. revert sk. induction l1 as [|[q m] l1 IH]; intros sk; auto. destruct m; cbn [app visible state_after]; rewrite IH; auto. now rewrite app_assoc. Qed.

Lemma scan_matches_ok file i lm : forall sk,
  (forall j cs, In (j, cs) lm -> exists q m, mark_here q m /\ denotes_mark cs m) ->
  let marks := map (fun e => ((i, fst e), mark_of (snd e))) lm in
  let r := scan_matches (mkLoc file i) sk (map snd lm) in
  scan_ok file (visible sk marks) (fst r) (match snd r with None => true | Some _ => false end) /\
  (forall sk', snd r = Some sk' -> sk' = state_after sk marks).
Proof.
  induction lm as [|[j cs] lm IH]; intros sk H.
  - cbn. split; [exists [], []; repeat split; constructor|congruence].
  - assert (H' : forall j cs, In (j, cs) lm -> exists q m, mark_here q m /\ denotes_mark cs m) by (intros; eapply H; right; eauto).
    destruct (H j cs ltac:(now left)) as (q & m & M & D). cbn [map fst snd]. rewrite (denotes_of _ _ D).
    destruct m as [x y| |].
    + cbn in D. subst cs. inversion M as [x' y' v _ Hx _ Hy _| |]; subst.
      destruct (ref_caps_get x y Hy) as [G0 G1].
      assert (G2 : cap_get 2 (ref_caps x y) = None) by (destruct y; reflexivity).
      assert (G3 : cap_get 3 (ref_caps x y) = None) by (destruct y; reflexivity).
      cbn [scan_matches visible state_after]. rewrite G2, G3, G0, G1.
      destruct sk; cbn [app]; [exact (IH true H')|].
      destruct (name_from_str x) as [n| |] eqn:En.
      * specialize (IH false H'). cbv zeta in IH. destruct (scan_matches (mkLoc file i) false (map snd lm)) as [out r]. cbn [fst snd] in *.
        destruct IH as [(v1 & v2 & E & F & P) S]. split; auto. exists ((i, j, x, y) :: v1), v2. rewrite E. split; auto. split; auto.
        constructor; auto. exists n, (option_map sub_new match y with [] => None | _ => Some y end). split; auto. split; auto.
        destruct Hy as [->|Hy]; [reflexivity|]. pose proof (sub_not_nil _ Hy). destruct y as [|y0 y1]; [congruence|]. cbn [option_map].
        apply sub_accept in Hy as (z & Hz). rewrite Hz. now apply sub_ok in Hz as [-> _].
      * exfalso. apply name_err in En as [A B]. destruct Hx; auto.
      * cbn. split; [|discriminate]. exists [], ((i, j, x, y) :: visible false (map (fun e => ((i, fst e), mark_of (snd e))) lm)).
        split; auto. split; [constructor|]. split; auto. now apply name_panic.
    + destruct D as (k & ->). cbn [scan_matches visible state_after]. exact (IH true H').
    + destruct D as (k & ->). cbn [scan_matches visible state_after]. exact (IH false H').
Qed.

Lemma scan_lines_ok file io lines : forall i sk,
  let marks := map (fun e => (fst e, mark_of (snd e))) (file_caps i lines) in
  let r := scan_lines file io i sk lines in
  exists panicked, scan_ok file (visible sk marks) (fst r) panicked /\
    snd r = if panicked then EPanic else if io then EIo else EDone.
Proof.
  induction lines as [|l ls IH]; intros i sk.
  - exists false. split; [exists [], []; repeat split; constructor|reflexivity].
  - cbn zeta. rewrite file_caps_cons, map_app, visible_app, map_map. cbn [fst snd scan_lines]. rewrite find_all_src.
    pose proof (scan_matches_ok file i (line_marks l) sk) as Hm. cbv zeta in Hm.
    destruct (scan_matches (mkLoc file i) sk (map snd (line_marks l))) as [out r]. cbn [fst snd] in Hm.
    destruct Hm as [(v1 & v2 & E & F & P) St].
    { intros j cs Hin. apply all_matches_in in Hin as (a & q & rest & _ & _ & Hq). apply match_src_mark in Hq as (m & M & D & _). eauto. }
    destruct r as [sk'|].
    + specialize (St sk' eq_refl). specialize (IH (S i) sk'). cbv zeta in IH. destruct (scan_lines file io (S i) sk' ls) as [out' e].
      cbn [fst snd] in *. destruct IH as (pk & (w1 & w2 & E' & F' & P') & He). exists pk. split; auto.
      destruct v2 as [|[[p x] y] v2]; [|destruct P; discriminate]. rewrite app_nil_r in E.
      exists (v1 ++ w1), w2. rewrite E, <- St, E', app_assoc. split; auto. split; auto. now apply Forall2_app.
    + exists true. split; auto. cbn [fst snd]. destruct v2 as [|[[p x] y] v2]; [discriminate|].
      eexists v1, (((p, x, y) :: v2) ++ _). rewrite E, <- app_assoc. split; [reflexivity|]. split; auto.
Qed.

Theorem scan_file file lines io : exists panicked,
  scan_ok file (refs_of lines) (fst (parse_locations file lines io)) panicked /\
  snd (parse_locations file lines io) = if panicked then EPanic else if io then EIo else EDone.
Proof. exact (scan_lines_ok file io lines 0 false). Qed.
