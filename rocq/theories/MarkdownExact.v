(** Exactly which artifacts survive being written and read as markdown (C25, C26). *)
From Coq Require Import Lia ZifyBool Permutation Sorted.
From Verif Require Import Base BaseFacts Regex RegexFacts Name SpecName NameFacts SubFacts FamilyFacts RawNames RawNamesFacts
  Artifact Stored SpecLinks LinkFacts Markdown SpecMarkdown LineFacts MarkdownFacts SpecMdExact.

(** ** Lines and blanks *)
Lemma blanks_app w v : blanks w -> blanks v -> blanks (w ++ v).
Proof. intros H1 H2. apply Forall_app. auto. Qed.

Lemma text_shrink prefix l w : blanks w -> text_line prefix (l ++ w) -> text_line prefix l.
Proof.
  intros Hw (H1 & H2 & H3). split; [|split].
  - intros x (p & w1 & w2 & -> & Hp & B1 & B2 & Hx). apply (H1 x). exists p, w1, (w2 ++ w).
    split; [now rewrite <- !app_assoc|]. auto using blanks_app.
  - intros (k & v & -> & Hv). apply H2. exists k, (v ++ w). split; [now rewrite <- !app_assoc|]. auto using blanks_app.
  - intros (x & k & v & -> & Hv & Hx). apply H3. exists x, k, (v ++ w). split; [now rewrite <- !app_assoc|].
    split; auto using blanks_app.
Qed.

Lemma text_nil prefix : text_line prefix [].
Proof.
  split; [|split].
  - intros x X. apply header_infix in X as (_ & _ & _ & _ & [] & _).
  - intros (k & w & E & _). discriminate.
  - intros (x & k & w & E & _). discriminate.
Qed.

Lemma strip_grow l : exists w, blanks w /\ l = strip_cr l ++ w /\ (w = [] \/ w = [13%N]).
Proof.
  unfold strip_cr. destruct (rev l) as [|c r] eqn:E.
  - exists []. split; [constructor|]. rewrite app_nil_r. auto.
  - destruct (N.eqb_spec c c_cr) as [->|].
    + exists [13%N]. split; [repeat constructor|]. split; auto. rewrite <- (rev_involutive l), E. reflexivity.
    + exists []. split; [constructor|]. rewrite app_nil_r. auto.
Qed.
Lemma strip_no_nl l : ~ In nl l -> ~ In nl (strip_cr l).
Proof. intros H X. destruct (strip_grow l) as (w & _ & E & _). apply H. rewrite E. apply in_or_app. auto. Qed.
Lemma strip_fix l : strip_cr l = l -> forall p, l <> p ++ [13%N].
Proof.
  intros H p ->. unfold strip_cr in H. rewrite rev_app_distr in H. cbn [rev app] in H. change (N.eqb 13 c_cr) with true in H.
  cbn iota in H. rewrite rev_involutive in H. apply (f_equal (@length _)) in H. rewrite app_length in H. cbn in H. lia.
Qed.
Lemma strip_text prefix l : text_line prefix l -> text_line prefix (strip_cr l).
Proof. destruct (strip_grow l) as (w & Hw & E & _). intros H. rewrite E in H. now apply text_shrink in H. Qed.

Lemma split_snoc c x : exists ps p, split_on nl x = ps ++ [p] /\
  split_on nl (x ++ [c]) = if N.eqb c nl then ps ++ [p; []] else ps ++ [p ++ [c]].
Proof.
  destruct (exists_last (split_on_nonempty nl x)) as (ps & p & E). exists ps, p. split; auto.
  assert (P : forall q, In q (ps ++ [p]) -> ~ In nl q) by (intros q Hq; rewrite <- E in Hq; now apply split_on_pieces in Hq).
  rewrite <- (join_split nl x) at 1. rewrite E. destruct (N.eqb_spec c nl) as [->|N].
  - change (join [nl] (ps ++ [p]) ++ [nl]) with (join [nl] (ps ++ [p]) ++ nl :: join [nl] [[]]).
    rewrite <- join_app by (discriminate || destruct ps; discriminate). rewrite <- app_assoc. cbn [app].
    apply split_join; [destruct ps; discriminate|]. apply Forall_forall. intros q Hq. apply in_app_iff in Hq as [Hq|[<-|[<-|[]]]].
    + apply P, in_or_app. auto.
    + apply P, in_or_app. right. now left.
    + intros [].
  - assert (J : join [nl] (ps ++ [p]) ++ [c] = join [nl] (ps ++ [p ++ [c]])).
    { destruct ps as [|q ps]; [reflexivity|]. rewrite !join_app by discriminate. rewrite <- app_assoc. reflexivity. }
    rewrite J. apply split_join; [destruct ps; discriminate|]. apply Forall_forall. intros q Hq.
    apply in_app_iff in Hq as [Hq|[<-|[]]]; [apply P, in_or_app; auto|]. rewrite in_app_iff. intros [X|[X|[]]]; [|congruence].
    revert X. apply P, in_or_app. right. now left.
Qed.

Lemma split_grow w : forall a l, blanks w -> In l (split_on nl a) -> exists v, blanks v /\ In (l ++ v) (split_on nl (a ++ w)).
Proof.
  induction w as [|c w IH]; intros a l Hw Hl.
  - exists []. rewrite !app_nil_r. split; [constructor|auto].
  - inversion Hw as [|? ? Hc Hw']; subst. replace (a ++ c :: w) with ((a ++ [c]) ++ w) by (now rewrite <- app_assoc).
    destruct (split_snoc c a) as (ps & p & E1 & E2). rewrite E1 in Hl.
    assert (G : exists v, blanks v /\ In (l ++ v) (split_on nl (a ++ [c]))).
    { rewrite E2. destruct (N.eqb c nl).
      - exists []. split; [constructor|]. rewrite app_nil_r. apply in_app_iff in Hl as [Hl|[<-|[]]]; apply in_or_app; simpl; auto.
      - apply in_app_iff in Hl as [Hl|[<-|[]]].
        + exists []. split; [constructor|]. rewrite app_nil_r. apply in_or_app. auto.
        + exists [c]. split; [repeat constructor; auto|]. apply in_or_app. simpl. auto. }
    destruct G as (v & Hv & Hin). destruct (IH (a ++ [c]) (l ++ v) Hw' Hin) as (v' & Hv' & Hin').
    exists (v ++ v'). split; [auto using blanks_app|]. now rewrite app_assoc.
Qed.

Lemma clean_lines prefix ls : ls <> [] -> Forall (text_line prefix) ls -> Forall (fun l => ~ In nl l) ls ->
  Forall (text_line prefix) (split_on nl (clean_text (join [nl] ls))).
Proof.
  intros Hne H Hn. apply Forall_forall. intros l Hl.
  assert (G : In l (split_on nl (trim_end (join [nl] ls))) \/ l = []).
  { unfold clean_text in Hl. destruct (mem_char c_nl (trim_end (join [nl] ls))); [|auto].
    destruct (split_snoc nl (trim_end (join [nl] ls))) as (ps & p & E1 & E2). rewrite N.eqb_refl in E2.
    change [c_nl] with [nl] in Hl. rewrite E2 in Hl. rewrite E1. apply in_app_iff in Hl as [Hl|[<-|[<-|[]]]]; auto.
    - left. apply in_or_app. auto.
    - left. apply in_or_app. right. now left. }
  destruct G as [G| ->]; [|apply text_nil].
  destruct (trim_end_spec (join [nl] ls)) as (w & E & Hw & _).
  assert (Hb : blanks w) by exact Hw.
  destruct (split_grow w _ l Hb G) as (v & Hv & Hin). rewrite <- E, split_join in Hin by auto.
  rewrite Forall_forall in H. apply text_shrink with (w := v); auto.
Qed.

(** An opening line is never a header. *)
Lemma opener_not_header prefix l x : opener_line l -> ~ header_line prefix l x.
Proof.
  intros (y & k & v & E & Hv & _ & Hy) Hh.
  destruct Hy as [->|(z & c & -> & Hc)].
  { apply header_infix in Hh as (_ & _ & _ & _ & H & _). rewrite E in H. rewrite !in_app_iff in H.
    destruct H as [H|[H|[H|[H|H]]]]; simpl in H; try (intuition discriminate).
    - apply repeat_spec in H. discriminate.
    - unfold blanks in Hv. rewrite Forall_forall in Hv. specialize (Hv _ H). discriminate. }
  destruct Hh as (p & w1 & w2 & E' & _ & _ & H2 & Hx).
  destruct (name_long x Hx) as [_ Fx].
  assert (Dx : In 45%N x).
  { pose proof Hx as Hx'. apply lang_name_words, lang_name in Hx' as (q & es & _ & Hne & _ & ->).
    destruct es as [|e es]; [congruence|]. rewrite join_cons by discriminate. rewrite !in_app_iff. simpl. auto 6. }
  rewrite E in E'. 
  set (A := s "```" ++ z ++ [c]) in *. set (T := s "art" ++ repeat 116%N k).
  assert (F1 : (A ++ T) ++ v = (p ++ [35%N] ++ w1 ++ x) ++ w2).
  { unfold A, T. rewrite <- !app_assoc. rewrite <- !app_assoc in E'. exact E'. }
  assert (NW : forall a b : str, ends_ok a -> ends_ok b -> forall u1 u2, blanks u1 -> blanks u2 -> a ++ u1 = b ++ u2 -> a = b).
  { intros a b Ha Hb u1 u2 U1 U2 Eq. rewrite <- (trim_tail a u1), <- (trim_tail b u2) by auto. now rewrite Eq. }
  assert (ET : ends_ok T).
  { unfold T. destruct k as [|k]; [exists (s "ar"), 116%N; auto|].
    exists (s "art" ++ repeat 116%N k), 116%N. split; auto. rewrite <- app_assoc. f_equal. clear. induction k; simpl in *; congruence. }
  assert (EX : ends_ok x).
  { destruct (exists_last_dec x) as [->|(q & d & ->)]; [destruct Dx|]. exists q, d. split; auto.
    apply Forall_app in Fx as [_ Fx]. inversion Fx; subst. now apply name_ch_ws. }
  assert (F2 : A ++ T = p ++ [35%N] ++ w1 ++ x).
  { eapply NW; [apply ends_app, ET| |exact Hv|exact H2|exact F1]. rewrite !app_assoc. apply ends_app, EX. }
  (* compare the two tails *)
  assert (F3 : A ++ T = (p ++ [35%N] ++ w1) ++ x) by (rewrite F2; now rewrite <- !app_assoc).
  apply app_eq_app in F3 as (m & [[EA EX']|[EA ET']]).
  - (* x = m ++ T, the blank is in it unless m is empty *)
    destruct (exists_last_dec m) as [->|(m' & d & ->)].
    + simpl in EX'. subst x. unfold T in Dx. apply in_app_iff in Dx as [Dx|Dx]; [simpl in Dx; intuition discriminate|].
      apply repeat_spec in Dx. discriminate.
    + unfold A in EA. rewrite !app_assoc in EA. apply app_inj_tail in EA as [_ <-].
      rewrite EX' in Fx. apply Forall_app in Fx as [Fx _]. apply Forall_app in Fx as [_ Fx]. inversion Fx as [|? ? Fc _]; subst.
      apply name_ch_ws in Fc. congruence.
  - assert (D : In 45%N T) by (rewrite ET'; apply in_or_app; auto).
    unfold T in D. apply in_app_iff in D as [D|D]; [simpl in D; intuition discriminate|]. apply repeat_spec in D. discriminate.
Qed.

Definition text_of (r : art_raw) : str := match raw_text r with Some t => t | None => [] end.
Definition view (e : name * art_raw) : name * str := (fst e, text_of (snd e)).

Section Exact.
  Variable yaml : str -> option (option str * option names_val).
  Variable yaml_done : str -> str.
  Hypothesis Hy : yaml_ok yaml yaml_done.
  Variable prefix : str.
  Variable style : md_attrs.
  Hypothesis Hprefix : prefix_ok (plain_style style) prefix.
  Hypothesis Hstyle : forall p, style = CodeBlock (Some p) -> ~ In nl p.
  Notation attr_lines := (attr_lines yaml_done).
  Notation meta_lines := (meta_lines yaml_done style).
  Notation block := (block yaml_done prefix style).
  Notation doc := (doc yaml_done prefix style).
  Notation md_loop := (md_loop yaml prefix).
  Notation insert := (insert_from_parts yaml).
  Notation flush := (flush yaml).
  Notation at_of := (at_of yaml_done).
  Notation text := (text_line prefix).
  Notation no_nl := (fun l : str => ~ In nl l).

  (** ** What reading any lines does to the artifacts read so far *)
  Lemma insert_ok out n at_ other out' : insert out n at_ other = Ok out' ->
    exists raw, out' = out ++ [(n, raw)] /\ text_of raw = clean_text (join [nl] other).
  Proof.
    unfold insert_from_parts. destruct (match at_ with None => _ | Some x => _ end) as [dp| |]; cbn [res_bind]; try discriminate.
    unfold im_mem. destruct (im_get name_eqb n out) eqn:G; [discriminate|].
    intros E. injection E as <-. rewrite (insert_fresh name_eqb) by auto. eexists. split; [reflexivity|]. unfold text_of. cbn [raw_text].
    change c_nl with nl. destruct (clean_text (join [nl] other)); reflexivity.
  Qed.

  Lemma grow ls : forall code st res, res_bind (md_loop ls code st) flush = Ok res -> exists more, res = md_out st ++ more.
  Proof.
    assert (F : forall st res, flush st = Ok res -> exists more, res = md_out st ++ more).
    { intros st res. unfold MarkdownFacts.flush. destruct (md_name st) as [n|].
      - intros E. apply insert_ok in E as (raw & -> & _). eauto.
      - intros E. injection E as <-. exists []. now rewrite app_nil_r. }
    induction ls as [|l ls IH]; intros code st res.
    - cbn [Markdown.md_loop]. destruct code as [[o acc]|]; cbn [res_bind]; intros E; apply F in E; exact E.
    - cbn [Markdown.md_loop]. destruct code as [[o acc]|].
      + destruct (is_match_full code_end_re l); intros E; apply IH in E; exact E.
      + destruct (header prefix l) as [x|].
        * fold (flush st). destruct (flush st) as [out| |] eqn:Ef; cbn [res_bind]; try discriminate.
          destruct (name_from_str x) as [n| |]; cbn [res_bind]; try discriminate. intros E. apply IH in E as (more & ->).
          cbn [md_out]. apply F in Ef as (m1 & ->). exists (m1 ++ more). now rewrite app_assoc.
        * destruct (is_match_full attrs_end_re l).
          { destruct (match md_name st with Some _ => _ | None => _ end); [discriminate|]. intros E. apply IH in E. exact E. }
          destruct (is_match_full attrs_code_re l).
          { destruct (match md_name st with Some _ => _ | None => _ end); [discriminate|]. intros E. apply IH in E. exact E. }
          intros E. apply IH in E. exact E.
  Qed.

  Lemma tail ls : Forall no_nl ls -> forall st n res, md_name st = Some n -> Forall text (md_other st) -> Forall no_nl (md_other st) ->
    (res_bind (md_loop ls None st) flush = Ok res ->
     exists raw more, res = md_out st ++ (n, raw) :: more /\
       (Forall text (split_on nl (text_of raw)) \/
        (md_at st = None /\ more = [] /\ exists ls0 o ls1, ls = ls0 ++ o :: ls1 /\ Forall text ls0 /\ opener_line o /\
           text_of raw = clean_text (join [nl] (md_other st ++ ls0 ++ [o]))))) /\
    (forall o acc, md_at st = None -> res_bind (md_loop ls (Some (o, acc)) st) flush = Ok res ->
     exists raw more, res = md_out st ++ (n, raw) :: more /\
       (Forall text (split_on nl (text_of raw)) \/ (more = [] /\ text_of raw = clean_text (join [nl] (md_other st ++ [o]))))).
  Proof.
    assert (C : forall ls, Forall text ls -> Forall no_nl ls -> Forall text (split_on nl (clean_text (join [nl] ls)))).
    { intros [|l0 l1] H1 H2; [cbn; constructor; [apply text_nil|constructor]|]. apply clean_lines; auto. discriminate. }
    induction 1 as [|l ls Hl Hls IH]; intros st n res Hn Ht Hnn; cbn [Markdown.md_loop].
    - split.
      + cbn [res_bind]. unfold MarkdownFacts.flush. rewrite Hn. intros E. apply insert_ok in E as (raw & -> & E).
        exists raw, []. split; auto. left. rewrite E. auto.
      + intros o acc Ha. cbn [res_bind]. unfold MarkdownFacts.flush. cbn [md_name md_out md_at md_other]. rewrite Hn. intros E.
        apply insert_ok in E as (raw & -> & E). exists raw, []. split; auto.
    - split.
      + destruct (header prefix l) as [x|] eqn:Eh.
        * fold (flush st). destruct (flush st) as [out| |] eqn:Ef; cbn [res_bind]; try discriminate.
          destruct (name_from_str x) as [n'| |]; cbn [res_bind]; try discriminate. intros E. apply grow in E as (more & ->).
          cbn [md_out]. unfold MarkdownFacts.flush in Ef. rewrite Hn in Ef. apply insert_ok in Ef as (raw & -> & E).
          exists raw, more. rewrite <- app_assoc. split; auto. left. rewrite E. auto.
        * rewrite Hn. destruct (is_match_full attrs_end_re l) eqn:Ee.
          { destruct (md_at st) as [a|] eqn:Ea; [discriminate|]. intros E.
            apply (proj1 (IH (mkMd (md_out st) (Some n) (Some (join [c_nl] (md_other st))) []) n res eq_refl (Forall_nil _) (Forall_nil _))) in E.
            destruct E as (raw & more & E & [L|(X & _)]); [|discriminate]. exists raw, more. auto. }
          destruct (is_match_full attrs_code_re l) eqn:Ec.
          { destruct (md_at st) as [a|] eqn:Ea; [discriminate|]. intros E.
            apply (proj2 (IH st n res Hn Ht Hnn) l [] Ea) in E. destruct E as (raw & more & E & [L|(X & T)]); exists raw, more; auto.
            split; auto. right. split; auto. split; auto. exists [], l, ls. split; auto. split; [constructor|]. split; auto.
            now apply opener_line_iff. }
          assert (Tl : text l).
          { split; [now apply header_none|]. split; intros X.
            - apply end_line_iff in X. congruence.
            - apply opener_line_iff in X; auto. congruence. }
          assert (Ht2 : Forall text (md_other st ++ [l])) by (apply Forall_app; auto).
          assert (Hn2 : Forall no_nl (md_other st ++ [l])) by (apply Forall_app; auto).
          intros E. apply (proj1 (IH (mkMd (md_out st) (Some n) (md_at st) (md_other st ++ [l])) n res eq_refl Ht2 Hn2)) in E.
          cbn [md_out md_at md_other] in E. destruct E as (raw & more & E & [L|(X & M & ls0 & o & ls1 & E1 & F & O & T)]); exists raw, more; auto.
          split; auto. right. split; auto. split; auto. exists (l :: ls0), o, ls1. rewrite E1. split; auto. split; auto. split; auto.
          rewrite T. now rewrite <- app_assoc.
      + intros o acc Ha. destruct (is_match_full code_end_re l).
        * intros E. apply (proj1 (IH (mkMd (md_out st) (md_name st) (Some (join [c_nl] acc)) (md_other st)) n res Hn Ht Hnn)) in E.
          destruct E as (raw & more & E & [L|(X & _)]); [|discriminate]. exists raw, more. auto.
        * intros E. exact (proj2 (IH st n res Hn Ht Hnn) o (acc ++ [l]) Ha E).
  Qed.

  (** ** The lines of the file *)
  Lemma strip_read ls z : z <> [] -> strip_cr z = z -> term_lines false (ls ++ [z]) = map strip_cr (ls ++ [z]).
  Proof.
    intros Hz Hs. induction ls as [|y ls IH].
    - cbn. destruct z; [congruence|]. now rewrite Hs.
    - rewrite <- app_comm_cons. cbn [term_lines map]. destruct (ls ++ [z]) eqn:E; [destruct ls; discriminate|]. now rewrite IH.
  Qed.

  Lemma text_lines_nl r : Forall no_nl (text_lines r).
  Proof.
    unfold text_lines. destruct (raw_text r); [|constructor]. apply Forall_forall. intros q Hq. now apply split_on_pieces in Hq.
  Qed.
  Lemma block_nl e : entry_form e -> Forall no_nl (block e).
  Proof.
    intros He. unfold MarkdownFacts.block. rewrite app_comm_cons. apply Forall_app. split; [|apply text_lines_nl].
    eapply Forall_impl; [|eapply head_lines_ok; eauto]. intros l L. apply L.
  Qed.
  Lemma doc_nl l : Forall entry_form l -> Forall no_nl (doc l).
  Proof.
    intros H. induction H as [|e l He H IH]; [constructor|]. destruct l as [|f l]; [now apply block_nl|].
    change (doc (e :: f :: l)) with (block e ++ [[]; []] ++ doc (f :: l)). apply Forall_app. split; [now apply block_nl|].
    constructor; [intros []|]. constructor; [intros []|]. exact IH.
  Qed.

  Lemma ends_last ls z : ends_ok (join [nl] (ls ++ [z])) -> z <> [] /\ ends_ok z.
  Proof.
    intros (p & c & X & Hc). assert (Z : z <> []).
    { intros ->. destruct ls as [|y ls]; [destruct p; discriminate|].
      rewrite join_app in X by discriminate. simpl in X. apply app_inj_tail in X as [_ <-]. discriminate. }
    split; auto. destruct (exists_last Z) as (q & d & ->). exists q, d. split; auto.
    destruct ls as [|y ls].
    - cbn [app join] in X. apply app_inj_tail in X as [_ ->]. auto.
    - rewrite join_app in X by discriminate. cbn [join] in X. rewrite app_comm_cons, app_assoc in X.
      apply app_inj_tail in X as [_ ->]. auto.
  Qed.
  Lemma ends_strip z : ends_ok z -> strip_cr z = z.
  Proof.
    intros H. destruct (strip_grow z) as (w & _ & E & [->| ->]); [now rewrite app_nil_r in E|].
    exfalso. now apply (ends_line z H (strip_cr z)).
  Qed.

  Lemma file_lines l : l <> [] -> Forall entry_form l -> buf_lines (join [nl] (doc l)) = map strip_cr (doc l).
  Proof.
    intros Hne H. assert (Hn : doc l <> []) by now apply doc_not.
    assert (Le : ends_ok (join [nl] (doc l))) by (eapply doc_ends; eauto).
    pose proof (doc_nl l H) as L. unfold buf_lines. change c_nl with nl. rewrite split_join by auto.
    destruct (exists_last Hn) as (ls & z & E). rewrite E in *. apply ends_last in Le as [Hz Hend]. apply strip_read; auto using ends_strip.
  Qed.

  Lemma block_strip e : entry_form e ->
    map strip_cr (block e) = hdr prefix (fst e) :: meta_lines (snd e) ++ map strip_cr (text_lines (snd e)).
  Proof.
    intros He. unfold MarkdownFacts.block. rewrite (app_comm_cons (meta_lines (snd e))), map_app, app_comm_cons. f_equal.
    assert (L : Forall line_ok (hdr prefix (fst e) :: meta_lines (snd e))) by (eapply head_lines_ok; eauto).
    induction L as [|x ls Hx L IH]; [reflexivity|]. cbn [map]. now rewrite IH, strip_ok.
  Qed.

  Lemma block_read e rest st : entry_form e ->
    md_loop (map strip_cr (block e) ++ rest) None st =
    res_bind (flush st) (fun out =>
      md_loop (map strip_cr (text_lines (snd e)) ++ rest) None (mkMd out (Some (fst e)) (at_of (snd e)) [])).
  Proof.
    intros He. rewrite block_strip by auto. rewrite <- app_comm_cons. cbn [Markdown.md_loop].
    assert (Hh : header prefix (hdr prefix (fst e)) = Some (n_raw (fst e))).
    { apply header_iff. exists prefix, [32%N], []. split; [unfold hdr; now rewrite app_nil_r|]. split.
      - apply fold_refl.
      - split; [repeat constructor|]. split; [constructor|]. left. apply name_accept. exists (fst e). apply He. }
    rewrite Hh. unfold MarkdownFacts.flush. destruct (match md_name st with Some n => _ | None => _ end) as [out| |]; cbn [res_bind]; auto.
    assert (Hn : name_from_str (n_raw (fst e)) = Ok (fst e)) by apply He. rewrite Hn. cbn [res_bind].
    rewrite <- app_assoc. eapply loop_meta; eauto.
  Qed.

  Lemma loop_texts ls : forall rest st, Forall text ls -> Forall no_nl ls ->
    md_loop (ls ++ rest) None st = md_loop rest None (mkMd (md_out st) (md_name st) (md_at st) (md_other st ++ ls)).
  Proof.
    induction ls as [|l ls IH]; intros rest st H Hn; simpl app.
    - rewrite app_nil_r. now destruct st.
    - inversion H as [|? ? (H1 & H2 & H3) Hr]; inversion Hn as [|? ? Q4 Qr]; subst. cbn [Markdown.md_loop].
      apply header_none in H1. rewrite H1.
      destruct (is_match_full attrs_end_re l) eqn:E; [apply end_line_iff in E; contradiction|].
      destruct (is_match_full attrs_code_re l) eqn:E2; [apply opener_line_iff in E2; auto; contradiction|].
      rewrite IH by auto. cbn [md_out md_name md_at md_other]. now rewrite <- app_assoc.
  Qed.

  (** ** Only quiet texts, and the one exception, are read back *)
  Definition fine (e : name * art_raw) : Prop := forall t, raw_text (snd e) = Some t -> quiet_text prefix t.
  Definition final (e : name * art_raw) : Prop :=
    raw_done (snd e) = None /\ raw_partof (snd e) = None /\ exists t, raw_text (snd e) = Some t /\ open_end prefix t.
  Fixpoint good (l : list (name * art_raw)) : Prop :=
    match l with [] => True | [e] => fine e \/ final e | e :: l' => fine e /\ good l' end.

  Lemma text_split t : t <> [] -> clean_text t = t ->
    split_on nl t = split_on nl (trim_end t) \/ split_on nl t = split_on nl (trim_end t) ++ [[]].
  Proof.
    intros Hn Hc. destruct (clean_cases t Hn Hc) as (_ & w & Et & [->| ->]).
    - left. now rewrite Et, app_nil_r at 1.
    - right. rewrite Et at 1. destruct (split_snoc nl (trim_end t)) as (ps & p & E1 & E2). rewrite N.eqb_refl in E2.
      rewrite E2, E1, <- app_assoc. reflexivity.
  Qed.

  Lemma join_inj a b : a <> [] -> b <> [] -> Forall no_nl a -> Forall no_nl b -> join [nl] a = join [nl] b -> a = b.
  Proof. intros A B Ha Hb E. rewrite <- (split_join a), <- (split_join b) by auto. now rewrite E. Qed.

  Lemma strip_last ls z : ends_ok z -> map strip_cr (ls ++ [z]) = map strip_cr ls ++ [z].
  Proof. intros H. rewrite map_app. cbn [map]. now rewrite ends_strip. Qed.

  Lemma join_last_ends ls z : ends_ok z -> ends_ok (join [nl] (ls ++ [z])).
  Proof. intros H. apply join_ends; [discriminate|exact H]. Qed.

  Lemma clean_trim x t : t <> [] -> clean_text t = t -> clean_text x = t -> trim_end x = trim_end t.
  Proof.
    intros Hn Hc E. rewrite <- E. unfold clean_text. destruct (mem_char c_nl (trim_end x)).
    - rewrite trim_blanks by (repeat constructor). now rewrite trim_end_idem.
    - now rewrite trim_end_idem.
  Qed.

  (** Text lines that are read back are not changed by the reader. *)
  Lemma strip_kept e t pad : entry_form e -> raw_text (snd e) = Some t -> pad = [] \/ pad = [[]; []] ->
    clean_text (join [nl] (map strip_cr (text_lines (snd e)) ++ pad)) = t -> map strip_cr (text_lines (snd e)) = text_lines (snd e).
  Proof.
    intros He Et Hp E. destruct He as [_ _ H]. destruct (H t Et) as [Hn Hc]. destruct (clean_cases t Hn Hc) as (Hends & _).
    apply clean_trim in E; auto. unfold text_lines in *. rewrite Et in *. set (T := split_on nl (trim_end t)) in *.
    assert (HT : T <> []) by apply split_on_nonempty.
    assert (NT : Forall no_nl T) by (apply Forall_forall; intros q Hq; now apply split_on_pieces in Hq).
    assert (JT : join [nl] T = trim_end t) by apply join_split.
    destruct (exists_last HT) as (ls & z & Ez). assert (Hz : ends_ok z) by (rewrite <- JT, Ez in Hends; now apply ends_last in Hends).
    apply join_inj.
    - rewrite Ez. rewrite strip_last by auto. destruct ls; discriminate.
    - exact HT.
    - apply Forall_map. eapply Forall_impl; [|exact NT]. intros q. apply strip_no_nl.
    - exact NT.
    - rewrite JT, <- E. rewrite Ez, strip_last by auto. destruct Hp as [->| ->].
      + rewrite app_nil_r. symmetry. apply trim_ok. now apply join_last_ends.
      + rewrite (join_app (map strip_cr ls ++ [z]) [[]; []]); [|destruct (map strip_cr ls); discriminate|discriminate].
        symmetry. apply trim_tail; [now apply join_last_ends|repeat constructor].
  Qed.

  Lemma lines_of_text e t : raw_text (snd e) = Some t -> entry_form e ->
    forall l, In l (text_lines (snd e)) -> In l (split_on nl t).
  Proof.
    intros Et He l Hl. destruct He as [_ _ H]. destruct (H t Et) as [Hn Hc]. unfold text_lines in Hl. rewrite Et in Hl.
    destruct (text_split t Hn Hc) as [->| ->]; [exact Hl|]. apply in_or_app. auto.
  Qed.

  Lemma kept_fine e t : entry_form e -> raw_text (snd e) = Some t -> Forall text (split_on nl t) ->
    map strip_cr (text_lines (snd e)) = text_lines (snd e) -> quiet_text prefix t.
  Proof.
    intros He Et F S l Hl. rewrite Forall_forall in F. split; [now apply F|].
    destruct He as [_ _ H]. destruct (H t Et) as [Hn Hc]. unfold text_lines in S. rewrite Et in S.
    assert (G : In l (split_on nl (trim_end t)) \/ l = []).
    { destruct (text_split t Hn Hc) as [E|E]; rewrite E in Hl; auto. apply in_app_iff in Hl as [Hl|[<-|[]]]; auto. }
    destruct G as [G| ->]; [|intros p X; destruct p; discriminate X]. apply strip_fix.
    clear -S G. induction (split_on nl (trim_end t)) as [|q ps IH]; [destruct G|]. cbn [map] in S. injection S as S1 S2.
    destruct G as [<-|G]; auto.
  Qed.
  
  Lemma trim_opener o : opener_line o -> ends_ok (trim_end o) /\ exists w, blanks w /\ o = trim_end o ++ w.
  Proof.
    intros (x & k & v & -> & Hv & _). 
    assert (E : ends_ok (s "```" ++ x ++ s "art" ++ repeat 116%N k)).
    { apply ends_app, ends_app. destruct k as [|k]; [exists (s "ar"), 116%N; auto|].
      exists (s "art" ++ repeat 116%N k), 116%N. split; auto. rewrite <- app_assoc. f_equal. clear. induction k; simpl in *; congruence. }
    replace (s "```" ++ x ++ s "art" ++ repeat 116%N k ++ v) with ((s "```" ++ x ++ s "art" ++ repeat 116%N k) ++ v) by (now rewrite <- !app_assoc).
    rewrite trim_tail by auto. eauto.
  Qed.

  Lemma read_only l : forall out st res, l <> [] -> Forall entry_form l -> flush st = Ok out ->
    res_bind (md_loop (map strip_cr (doc l)) None st) flush = Ok res -> map view res = map view out ++ map view l -> good l.
  Proof.
    induction l as [|e l IH]; intros out st res Hne H Hf E V; [congruence|]. inversion H as [|? ? He Hl]; subst.
    set (pad := match l with [] => [] | _ => [[]; []] end : list str).
    assert (Hpad : pad = [] \/ pad = [[]; []]) by (unfold pad; destruct l; auto).
    set (rest := map strip_cr (match l with [] => [] | _ => doc l end)).
    assert (D : map strip_cr (doc (e :: l)) = map strip_cr (block e) ++ pad ++ rest).
    { unfold pad, rest. destruct l as [|f l']; [cbn [MarkdownFacts.doc map app]; now rewrite app_nil_r|].
      change (doc (e :: f :: l')) with (block e ++ [[]; []] ++ doc (f :: l')). rewrite !map_app. reflexivity. }
    rewrite D, block_read, Hf in E by auto. cbn [res_bind] in E.
    assert (Nn : Forall no_nl (map strip_cr (text_lines (snd e)) ++ pad ++ rest)).
    { apply Forall_app. split; [apply Forall_map; eapply Forall_impl; [|apply text_lines_nl]; intros q; apply strip_no_nl|].
      apply Forall_app. split; [destruct Hpad as [->| ->]; repeat constructor; intros []|].
      unfold rest. apply Forall_map. eapply Forall_impl; [intros q; apply strip_no_nl|]. destruct l; [constructor|]. now apply doc_nl. }
    pose proof E as E0.
    apply (proj1 (tail _ Nn (mkMd out (Some (fst e)) (at_of (snd e)) []) (fst e) res eq_refl (Forall_nil _) (Forall_nil _))) in E0.
    cbn [md_out md_at md_other app] in E0. destruct E0 as (raw & more & -> & Alt).
    rewrite map_app in V. apply app_inv_head in V. cbn [map] in V. injection V as V1 V2.
    destruct Alt as [F|(Ha & -> & ls0 & o & ls1 & El & Ft & Ho & Tx)].
    - (* every line of the text is a text line *)
      rewrite V1 in F. set (T := map strip_cr (text_lines (snd e))) in *.
      assert (FT : Forall text T).
      { unfold T. apply Forall_map. apply Forall_forall. intros q Hq. apply strip_text.
        destruct (raw_text (snd e)) as [t|] eqn:Et.
        - unfold text_of in F. rewrite Et in F. rewrite Forall_forall in F. apply F. eapply lines_of_text; eauto.
        - unfold text_lines in Hq. rewrite Et in Hq. destruct Hq. }
      assert (NT : Forall no_nl T) by (apply Forall_app in Nn; apply Nn).
      rewrite app_assoc, loop_texts in E.
      2: { apply Forall_app. split; auto. destruct Hpad as [->| ->]; repeat (apply Forall_cons; [apply text_nil|]); constructor. }
      2: { apply Forall_app. split; auto. destruct Hpad as [->| ->]; repeat constructor; intros []. }
      cbn [md_out md_name md_at md_other app] in E.
      set (st' := mkMd out (Some (fst e)) (at_of (snd e)) (T ++ pad)) in *.
      assert (X : exists out', flush st' = Ok out').
      { unfold rest in E. destruct l as [|f l'].
        - cbn [map Markdown.md_loop res_bind] in E. eauto.
        - inversion Hl as [|? ? Hef ?]; subst.
          assert (D' : exists r', doc (f :: l') = block f ++ r').
          { destruct l' as [|g l'']; [exists []; now rewrite app_nil_r|]. eexists. reflexivity. }
          destruct D' as (r' & D'). rewrite D', map_app, block_read in E by auto. destruct (flush st') as [out'| |]; [eauto|discriminate|discriminate]. }
      destruct X as (out' & Hout). pose proof Hout as Hout2. unfold MarkdownFacts.flush in Hout2. cbn [st' md_name md_out md_at md_other] in Hout2.
      apply insert_ok in Hout2 as (raw' & E' & Tx).
      assert (R : raw' = raw).
      { unfold rest in E. destruct l as [|f l'].
        - cbn [map Markdown.md_loop res_bind] in E. rewrite Hout, E' in E. injection E as E. apply app_inv_head in E. now injection E.
        - inversion Hl as [|? ? Hef ?]; subst.
          assert (D' : exists r', doc (f :: l') = block f ++ r').
          { destruct l' as [|g l'']; [exists []; now rewrite app_nil_r|]. eexists. reflexivity. }
          destruct D' as (r' & D'). rewrite D', map_app, block_read in E by auto. rewrite Hout in E. cbn [res_bind] in E.
          apply grow in E as (m & E). cbn [md_out] in E. rewrite <- app_assoc in E. apply app_inv_head in E. now injection E. }
      subst raw'.
      assert (FE : fine e).
      { intros t Et. rewrite V1 in Tx. unfold text_of in Tx, F. rewrite Et in Tx, F.
        eapply kept_fine; eauto. eapply strip_kept; eauto. }
      destruct l as [|f l']; [left; exact FE|]. split; [exact FE|].
      apply (IH out' st' (out ++ (fst e, raw) :: more)); auto; [discriminate|].
      rewrite E'. rewrite !map_app. cbn [map]. rewrite V2, <- app_assoc. cbn [app]. reflexivity.
    - (* the exception *)
      cbn [map] in V2. destruct l as [|f l']; [|discriminate]. clear IH V2. right.
      assert (A : raw_done (snd e) = None /\ raw_partof (snd e) = None).
      { unfold MarkdownFacts.at_of in Ha. destruct (attr_lines (snd e)) eqn:Ea; [|discriminate]. unfold MarkdownFacts.attr_lines in Ea.
        destruct (raw_done (snd e)), (raw_partof (snd e)) as [ps|]; try discriminate; auto. destruct (pval ps); discriminate. }
      destruct A as [A1 A2]. split; auto. split; auto.
      unfold pad, rest in El. cbn [map app] in El. rewrite app_nil_r in El.
      rewrite V1 in Tx. unfold text_of in Tx. destruct (raw_text (snd e)) as [t|] eqn:Et.
      2: { unfold text_lines in El. rewrite Et in El. destruct ls0; discriminate. }
      exists t. split; auto. pose proof (eo_text _ He t Et) as [Hn Hc]. 
      destruct (trim_opener o Ho) as (Oe & w & Hw & Eo). 
      assert (N0 : Forall no_nl ls0 /\ ~ In nl o).
      { unfold pad, rest in Nn. cbn [map app] in Nn. rewrite app_nil_r, El in Nn. apply Forall_app in Nn as [N1 N2]. inversion N2; auto. }
      destruct N0 as [N0 N1].
      assert (N2 : ~ In nl (trim_end o)) by (intros X; apply N1; rewrite Eo; apply in_or_app; auto).
      symmetry in Tx. apply clean_trim in Tx; auto.
      assert (J : trim_end t = join [nl] (ls0 ++ [trim_end o])).
      { rewrite <- Tx. rewrite Eo at 1.
        assert (Q : join [nl] (ls0 ++ [trim_end o ++ w]) = join [nl] (ls0 ++ [trim_end o]) ++ w).
        { destruct ls0 as [|q ps]; [reflexivity|]. rewrite !join_app by discriminate. cbn [join]. now rewrite <- app_assoc. }
        rewrite Q. apply trim_tail; auto. now apply join_last_ends. }
      assert (TL : text_lines (snd e) = ls0 ++ [trim_end o]).
      { unfold text_lines. rewrite Et, J. apply split_join; [destruct ls0; discriminate|]. apply Forall_app. auto. }
      rewrite TL, strip_last in El by auto.
      assert (LL : length (map strip_cr ls0 ++ [trim_end o]) = length (ls0 ++ o :: ls1)) by (now rewrite El).
      rewrite !app_length, map_length in LL. cbn [length] in LL. assert (ls1 = []) by (destruct ls1; [auto|cbn in LL; lia]). subst ls1.
      apply app_inj_tail in El as [Es Eo']. rewrite Eo' in *.
      exists ls0, o. unfold text_lines in TL. rewrite Et in TL.
      assert (Q : forall q, In q ls0 -> text q /\ (forall p, q <> p ++ [13%N])).
      { intros q Hq. split; [rewrite Forall_forall in Ft; auto|]. apply strip_fix. clear -Es Hq. induction ls0 as [|y ys IH]; [destruct Hq|].
        cbn [map] in Es. injection Es as E1 E2. destruct Hq as [<-|Hq]; auto. }
      destruct (text_split t Hn Hc) as [S|S]; rewrite TL in S.
      + exists []. auto.
      + exists [[]]. rewrite <- app_assoc in S. auto.
  Qed.

  (** ** They are read back *)
  Lemma fine_ok e : entry_form e -> fine e -> entry_ok prefix e.
  Proof. intros H F. split; auto. Qed.
  Lemma fine_strip e : entry_form e -> fine e -> map strip_cr (text_lines (snd e)) = text_lines (snd e).
  Proof.
    intros H F. pose proof (text_lines_ok prefix e (fine_ok e H F)) as L.
    induction L as [|q ps [_ Hq] L IH]; [reflexivity|]. cbn [map]. now rewrite IH, strip_ok.
  Qed.

  Lemma loop_good l : forall out st, l <> [] -> Forall entry_form l -> good l -> flush st = Ok out ->
    NoDup (map (fun x => nk (fst x)) (out ++ l)) ->
    res_bind (md_loop (map strip_cr (doc l)) None st) flush = Ok (out ++ map norm l).
  Proof.
    induction l as [|e l IH]; intros out st Hn H G Hf ND; [congruence|]. inversion H as [|? ? He Hl]; subst.
    assert (Hne : ~ In (nk (fst e)) (map (fun x => nk (fst x)) out)).
    { rewrite map_app in ND. simpl in ND. apply NoDup_remove_2 in ND. intros X. apply ND, in_or_app. auto. }
    destruct l as [|f l].
    - cbn [MarkdownFacts.doc]. rewrite <- (app_nil_r (map strip_cr (block e))), block_read, Hf by auto. cbn [res_bind].
      destruct G as [F|(A1 & A2 & t & Et & ls & o & z & S & Hz & Ho & Q)].
      + rewrite fine_strip by auto. pose proof (text_lines_ok prefix e (fine_ok e He F)) as L.
        rewrite loop_text by auto. cbn [md_out md_name md_at md_other app Markdown.md_loop res_bind]. unfold MarkdownFacts.flush.
        cbn [md_out md_name md_at md_other].
        rewrite <- (app_nil_r (text_lines (snd e))). rewrite (insert_entry yaml yaml_done Hy); auto.
      + pose proof (eo_text _ He t Et) as [Hnt Hc]. destruct (clean_cases t Hnt Hc) as (Hends & _).
        assert (TL : text_lines (snd e) = ls ++ [o] /\ ends_ok o).
        { unfold text_lines. rewrite Et. destruct (text_split t Hnt Hc) as [E|E]; rewrite S in E.
          - destruct Hz as [->| ->].
            + rewrite <- E. split; auto. rewrite <- (join_split nl (trim_end t)), <- E in Hends. now apply ends_last in Hends.
            + exfalso. rewrite <- (join_split nl (trim_end t)), <- E in Hends.
              change (ls ++ [o; []]) with (ls ++ [o] ++ [[]]) in Hends. rewrite app_assoc in Hends. apply ends_last in Hends as [X _]. congruence.
          - destruct Hz as [->| ->].
            + apply app_inj_tail in E as [_ ->]. exfalso. destruct Ho as (x & k & w & Eo & _). discriminate.
            + change (ls ++ [o; []]) with (ls ++ [o] ++ [[]]) in E. rewrite app_assoc in E. apply app_inj_tail in E as [E _].
              rewrite <- E. split; auto. rewrite <- (join_split nl (trim_end t)), <- E in Hends. now apply ends_last in Hends. }
        destruct TL as [TL Oe]. pose proof (text_lines_nl (snd e)) as Nl. rewrite TL in Nl. apply Forall_app in Nl as [Nl No].
        inversion No as [|? ? No1 _]; subst.
        assert (At : at_of (snd e) = None) by (unfold MarkdownFacts.at_of, MarkdownFacts.attr_lines; now rewrite A1, A2). rewrite At.
        assert (SL : map strip_cr ls = ls).
        { clear -Q Nl. induction ls as [|q ps IH]; [reflexivity|]. inversion Nl; subst. cbn [map]. rewrite IH; auto.
          - rewrite strip_ok; auto. split; auto. apply Q. now left.
          - intros y Hy. apply Q. now right. }
        rewrite TL, strip_last, SL by auto. rewrite app_nil_r.
        rewrite loop_texts; [|apply Forall_forall; intros q Hq; now apply Q|auto].
        cbn [md_out md_name md_at md_other app Markdown.md_loop].
        assert (H0 : header prefix o = None) by (apply header_none; intros y; now apply opener_not_header). rewrite H0.
        destruct (is_match_full attrs_end_re o) eqn:Ee.
        { exfalso. apply end_line_iff in Ee as (k & w & Eo & _). destruct Ho as (x' & k' & w' & Eo' & _). rewrite Eo in Eo'. discriminate. }
        apply opener_line_iff in Ho; auto. rewrite Ho. cbn [res_bind md_out md_name md_at md_other]. unfold MarkdownFacts.flush.
        cbn [md_out md_name md_at md_other].
        rewrite <- TL, <- At, <- (app_nil_r (text_lines (snd e))). rewrite (insert_entry yaml yaml_done Hy); auto.
    - destruct G as [F G]. change (doc (e :: f :: l)) with (block e ++ [[]; []] ++ doc (f :: l)). rewrite !map_app.
      rewrite block_read, Hf by auto. cbn [res_bind]. rewrite fine_strip by auto.
      pose proof (text_lines_ok prefix e (fine_ok e He F)) as L. rewrite loop_text by auto. cbn [md_out md_name md_at md_other map app].
      change (strip_cr [] :: strip_cr [] :: map strip_cr (doc (f :: l))) with ([[]; []] ++ map strip_cr (doc (f :: l))).
      rewrite loop_texts.
      2: { repeat (apply Forall_cons; [apply text_nil|]); constructor. }
      2: { repeat constructor; intros []. }
      cbn [md_out md_name md_at md_other]. rewrite (IH (out ++ [norm e])); auto.
      + rewrite <- app_assoc. reflexivity.
      + discriminate.
      + unfold MarkdownFacts.flush. cbn [md_name md_out md_at md_other]. rewrite (insert_entry yaml yaml_done Hy); auto.
      + rewrite <- app_assoc. rewrite map_app in *. exact ND.
  Qed.

  Lemma exact_raw l : Forall entry_form l -> NoDup (map (fun x => nk (fst x)) l) ->
    exists txt, to_markdown yaml_done prefix style l = Ok txt /\
      (good l -> from_markdown yaml prefix txt = Ok (map norm l)) /\
      (forall raws, from_markdown yaml prefix txt = Ok raws -> map view raws = map view l -> good l).
  Proof.
    intros F ND. exists (join [nl] (doc l)). split; [eapply to_markdown_doc; eauto|].
    unfold from_markdown. change (fun st => match md_name st with Some n => insert (md_out st) n (md_at st) (md_other st) | None => Ok (md_out st) end) with flush.
    destruct l as [|e l]; [split; [reflexivity|intros; exact I]|].
    rewrite file_lines by (auto; discriminate). split.
    - intros G. apply (loop_good (e :: l) [] _); auto. discriminate.
    - intros raws E V. apply (read_only (e :: l) [] (mkMd [] None None []) raws); auto. discriminate.
  Qed.
End Exact.

(** ** Artifacts *)
Section Arts.
  Variable yaml : str -> option (option str * option names_val).
  Variable yaml_done : str -> str.
  Hypothesis Hy : yaml_ok yaml yaml_done.

  Lemma fine_entry prefix a : fine prefix (raw_entry a) <-> quiet_text prefix (im_text a).
  Proof.
    unfold fine. cbn. destruct (im_text a) as [|c t].
    - split; [|discriminate]. intros _ l [<-|[]]. split; [apply text_nil|]. intros p X. destruct p; discriminate X.
    - split; [auto|]. intros Q t' E. injection E as <-. exact Q.
  Qed.
  Lemma final_entry prefix a : final prefix (raw_entry a) <-> im_done a = None /\ im_partof a = [] /\ open_end prefix (im_text a).
  Proof.
    unfold final. cbn. split.
    - intros (H1 & H2 & t & E & H3). split; auto. split; [destruct (im_partof a); [auto|discriminate]|].
      destruct (im_text a) as [|c t0]; [discriminate|]. injection E as <-. exact H3.
    - intros (H1 & -> & H3). split; auto. split; auto. destruct (im_text a) as [|c t].
      + exfalso. destruct H3 as (ls & o & e & E & _ & (x & k & w & Eo & _) & _). subst o.
        destruct ls as [|q [|q' ls]]; discriminate.
      + eauto.
  Qed.

  Lemma good_survives prefix arts : good prefix (map raw_entry arts) <-> survives prefix arts.
  Proof.
    induction arts as [|a arts IH].
    - split; [|intros; exact I]. intros _ [|? ?] b l2 E; discriminate.
    - destruct arts as [|b arts].
      + cbn [map good]. rewrite fine_entry, final_entry. split.
        * intros H l1 c l2 E. destruct l1 as [|? [|? ?]]; try discriminate. injection E as <- <-. intuition.
        * intros S. destruct (S [] a [] eq_refl) as [H|(_ & H)]; auto.
      + change (good prefix (map raw_entry (a :: b :: arts))) with (fine prefix (raw_entry a) /\ good prefix (map raw_entry (b :: arts))).
        rewrite fine_entry, IH. split.
        * intros [F S] l1 c l2 E. destruct l1 as [|x l1]; cbn [app] in E.
          -- injection E as <- _. now left.
          -- injection E as _ E. now apply S in E.
        * intros S. split.
          -- destruct (S [] a (b :: arts) eq_refl) as [H|(H & _)]; [auto|discriminate].
          -- intros l1 c l2 E. apply (S (a :: l1) c l2). now rewrite E.
  Qed.

  Lemma md_exact prefix style arts file :
    prefix_ok (plain_style style) prefix -> (forall p, style = CodeBlock (Some p) -> ~ In nl p) ->
    Forall im_wf arts -> distinct arts -> (forall a, In a arts -> im_clean a = a /\ im_file a = file) ->
    exists txt, to_markdown yaml_done prefix style (map raw_entry arts) = Ok txt /\
      ((exists raws, from_markdown yaml prefix txt = Ok raws /\ map (fun e => from_raw (fst e) file (snd e)) raws = arts) <->
       survives prefix arts).
  Proof.
    intros Hp Hs Hw Hd Ha.
    assert (H1 : Forall entry_form (map raw_entry arts)).
    { apply Forall_map, Forall_forall. intros a Hin. rewrite Forall_forall in Hw. apply raw_form; auto. now apply Ha. }
    assert (H2 : NoDup (map (fun x : name * art_raw => nk (fst x)) (map raw_entry arts))).
    { rewrite map_map. cbn. now apply distinct_nk. }
    destruct (exact_raw _ _ Hy prefix style Hp Hs _ H1 H2) as (txt & E1 & E2 & E3). exists txt. split; auto.
    rewrite Forall_forall in Hw. rewrite <- good_survives. split.
    - intros (raws & E & V). apply (E3 raws E).
      assert (X : map (fun a => (im_name a, im_text a)) (map (fun e => from_raw (fst e) file (snd e)) raws) = map (fun a => (im_name a, im_text a)) arts) by (now rewrite V).
      rewrite !map_map in *.
      etransitivity; [|etransitivity; [exact X|]].
      + apply map_ext. intros [n r]. reflexivity.
      + apply map_ext. intros a. unfold view, text_of, raw_entry, into_raw. cbn. now destruct (im_text a).
    - intros G. exists (map norm (map raw_entry arts)). split; auto. rewrite !map_map. rewrite <- (map_id arts) at 2.
      apply map_ext_in. intros a Hin. destruct (Ha a Hin) as [Hc Hf]. apply norm_back; auto.
  Qed.
End Arts.

(** Of texts that the lints accept, those that survive. *)
Lemma survives_accepted prefix arts :
  (forall a l, In a arts -> In l (split_on 10%N (im_text a)) -> (forall x, ~ header_line prefix l x) /\ ~ end_line l) ->
  survives prefix arts <-> accepted_survives arts.
Proof.
  intros A. split; intros S l1 a l2 E; (assert (Ha : In a arts) by (rewrite E; apply in_or_app; right; now left));
    (destruct (S l1 a l2 E) as [Q|(H1 & H2 & H3 & ls & o & e & Es & He & Ho & Q)]; [left|right]).
  - intros l Hl. destruct (Q l Hl) as [(_ & _ & T) C]. split; auto.
  - split; auto. split; auto. split; auto. exists ls, o, e. split; auto. split; auto. split; auto.
    intros l Hl. destruct (Q l Hl) as [(_ & _ & T) C]. split; auto.
  - intros l Hl. destruct (A a l Ha Hl) as [A1 A2]. destruct (Q l Hl) as [T C]. split; [split|]; auto.
  - split; auto. split; auto. split; auto. exists ls, o, e. split; auto. split; auto. split; auto.
    intros l Hl. destruct (A a l Ha) as [A1 A2]; [rewrite Es; apply in_or_app; auto|]. destruct (Q l Hl) as [T C]. split; [split|]; auto.
Qed.
