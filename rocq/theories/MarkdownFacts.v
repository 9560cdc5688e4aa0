(** Proofs about the markdown format (C25). *)
From Coq Require Import Lia ZifyBool Permutation Sorted.
From Verif Require Import Base BaseFacts Regex RegexFacts Name SpecName NameFacts SubFacts FamilyFacts RawNames RawNamesFacts
  Artifact Stored SpecLinks LinkFacts Markdown SpecMarkdown LineFacts.

(** ** Lines *)
Notation nl := 10%N.
Definition ends_ok (y : str) : Prop := exists p c, y = p ++ [c] /\ is_ws c = false.
Definition line_ok (l : str) : Prop := ~ In nl l /\ forall p, l <> p ++ [13%N].

Lemma ends_app x y : ends_ok y -> ends_ok (x ++ y).
Proof. intros (p & c & -> & H). exists (x ++ p), c. now rewrite app_assoc. Qed.

Lemma trim_ok y : ends_ok y -> trim_end y = y.
Proof.
  intros (p & c & -> & H). unfold trim_end. rewrite rev_app_distr. simpl. rewrite H. simpl. now rewrite rev_involutive.
Qed.

Lemma trim_blanks y w : blanks w -> trim_end (y ++ w) = trim_end y.
Proof.
  revert y. induction w as [|c w IH]; intros y Hw; [now rewrite app_nil_r|]. inversion Hw; subst.
  replace (y ++ c :: w) with ((y ++ [c]) ++ w) by (now rewrite <- app_assoc). rewrite IH by auto. now apply trim_end_snoc_ws.
Qed.

Lemma trim_tail y w : ends_ok y -> blanks w -> trim_end (y ++ w) = y.
Proof. intros H1 H2. rewrite trim_blanks by auto. now apply trim_ok. Qed.

Lemma join_app (a b : list str) : a <> [] -> b <> [] -> join [nl] (a ++ b) = join [nl] a ++ nl :: join [nl] b.
Proof.
  intros Ha Hb. induction a as [|x a IH]; [congruence|]. destruct a as [|y a].
  - simpl app. rewrite join_cons by auto. reflexivity.
  - rewrite <- app_comm_cons, !join_cons by discriminate. rewrite IH by discriminate. now rewrite <- !app_assoc.
Qed.

Lemma split_join ls : ls <> [] -> Forall (fun l => ~ In nl l) ls -> split_on nl (join [nl] ls) = ls.
Proof.
  intros Hne H. induction H as [|l ls Hl H IH]; [congruence|]. destruct ls as [|m ls].
  - now apply split_on_nosep.
  - rewrite join_cons by discriminate. simpl app. rewrite split_on_app by auto. f_equal. apply IH. discriminate.
Qed.

Lemma strip_ok l : line_ok l -> strip_cr l = l.
Proof.
  intros [_ H]. unfold strip_cr. destruct (rev l) as [|c r] eqn:E; auto. destruct (N.eqb_spec c c_cr); auto. subst.
  exfalso. apply (H (rev r)). rewrite <- (rev_involutive l), E. reflexivity.
Qed.

Lemma buf_join ls l : Forall line_ok ls -> line_ok l -> l <> [] -> buf_lines (join [nl] (ls ++ [l])) = ls ++ [l].
Proof.
  intros H Hl Hn. unfold buf_lines. change c_nl with nl. rewrite split_join.
  - induction H as [|m ls Hm H IH]; simpl.
    + destruct l; [congruence|reflexivity].
    + destruct (ls ++ [l]) as [|y r] eqn:E; [destruct ls; discriminate|]. rewrite IH. now rewrite strip_ok.
  - destruct ls; discriminate.
  - apply Forall_app. split; [eapply Forall_impl; [|exact H]; intros x Hx; apply Hx|]. constructor; auto. apply Hl.
Qed.

Lemma ends_line y : ends_ok y -> forall p, y <> p ++ [13%N].
Proof. intros (q & c & -> & H) p E. apply app_inj_tail in E as [_ ->]. discriminate. Qed.

Section Write.
  Variable yaml : str -> option (option str * option names_val).
  Variable yaml_done : str -> str.
  Hypothesis Hy : yaml_ok yaml yaml_done.
  Variable prefix : str.
  Variable style : md_attrs.

  (** ** What is written *)
  Definition pval (ps : list name) : names_val :=
    match ps with [n] => VStr (n_raw n) | _ => VSeq (map n_raw (isort name_leb ps)) end.
  Definition attr_lines (r : art_raw) : list str :=
    match raw_done r, raw_partof r with
    | None, None => []
    | Some d, None => [yaml_done d]
    | None, Some ps => partof_lines (pval ps)
    | Some d, Some ps => yaml_done d :: [] :: partof_lines (pval ps)
    end.
  Definition opener (p : option str) : str := s "```" ++ match p with Some x => x ++ [c_sp] | None => [] end ++ s "art".
  Definition styled (ls : list str) : list str :=
    match style with Hashes => ls ++ [s "###"] | CodeBlock p => opener p :: ls ++ [s "```"] end.
  Definition hdr (n : name) : str := prefix ++ s "# " ++ n_raw n.
  Definition text_lines (r : art_raw) : list str := match raw_text r with Some t => split_on nl (trim_end t) | None => [] end.
  Definition meta_lines (r : art_raw) : list str := match attr_lines r with [] => [] | ls => styled ls end.
  Definition block (e : name * art_raw) : list str := hdr (fst e) :: meta_lines (snd e) ++ text_lines (snd e).
  Fixpoint doc (l : list (name * art_raw)) : list str :=
    match l with
    | [] => []
    | [e] => block e
    | e :: l' => block e ++ [[]; []] ++ doc l'
    end.

  (** What the formatter is given. *)
  Record entry_form (e : name * art_raw) : Prop := {
    eo_name : name_wf (fst e);
    eo_partof : forall ps, raw_partof (snd e) = Some ps -> ps <> [] /\ name_set ps;
    eo_text : forall t, raw_text (snd e) = Some t -> t <> [] /\ clean_text t = t }.
  Record entry_ok (e : name * art_raw) : Prop := {
    eo_form : entry_form e;
    eo_quiet : forall t, raw_text (snd e) = Some t -> quiet_text prefix t }.

  Lemma raw_ends n : name_wf n -> ends_ok (n_raw n).
  Proof.
    intros H. pose proof (name_nonempty n H) as N. pose proof (name_chars n H) as C.
    destruct (exists_last N) as (p & c & E). exists p, c. split; auto. rewrite E in C. apply Forall_app in C as [_ C].
    inversion C; subst. now apply name_ch_ws.
  Qed.

  Lemma raw_line n : name_wf n -> ~ In nl (n_raw n).
  Proof.
    intros H Hin. pose proof (name_chars n H) as C. rewrite Forall_forall in C. specialize (C _ Hin).
    unfold word_char in C. lia.
  Qed.

  Lemma done_ends d : ends_ok (yaml_done d).
  Proof. destruct (yo_done _ _ Hy d) as (v & c & -> & Hc & _). exists (s "done:" ++ v), c. now rewrite <- app_assoc. Qed.

  Lemma pval_names ps : ps <> [] -> name_set ps -> names_of (pval ps) <> [] /\ Forall valid_name (names_of (pval ps)).
  Proof.
    intros Hn [Hs _]. assert (V : forall n, name_wf n -> valid_name (n_raw n)) by (intros n Hw; apply name_accept; exists n; exact Hw).
    destruct ps as [|a [|b ps]]; [congruence| |].
    - split; [discriminate|]. constructor; [|constructor]. inversion Hs; auto.
    - set (L := a :: b :: ps) in *. change (pval L) with (VSeq (map n_raw (isort name_leb L))). cbn [names_of].
      pose proof (isort_perm name_leb L) as P. split.
      + intros E. apply map_eq_nil in E. rewrite E in P. apply Permutation_sym, Permutation_nil in P. discriminate.
      + apply Forall_map. eapply Permutation_Forall; [exact P|]. eapply Forall_impl; [|exact Hs]. auto.
  Qed.

  Lemma flat_lines l : l <> [] -> flat_map (fun n => s "- " ++ n_raw n ++ [c_nl]) l =
    join [nl] (map (fun x => s "- " ++ x) (map n_raw l)) ++ [nl].
  Proof.
    intros H. induction l as [|a l IH]; [congruence|]. destruct l as [|b l].
    - simpl. now rewrite app_nil_r.
    - cbn [flat_map map]. rewrite join_cons by discriminate. cbn [flat_map map] in IH. rewrite IH by discriminate.
      now rewrite <- !app_assoc.
  Qed.

  Lemma seq_ends l : l <> [] -> Forall name_wf l -> ends_ok (join [nl] (map (fun x => s "- " ++ x) (map n_raw l))).
  Proof.
    intros Hn H. induction H as [|a l Ha H IH]; [congruence|]. destruct l as [|b l].
    - cbn [map join]. apply ends_app, raw_ends, Ha.
    - cbn [map]. rewrite join_cons by discriminate. apply ends_app, ends_app. apply IH. discriminate.
  Qed.

  Definition partof_text (ps : list name) : str :=
    match ps with
    | [n] => s "partof: " ++ n_raw n
    | l => s "partof:" ++ [c_nl] ++ flat_map (fun n => s "- " ++ n_raw n ++ [c_nl]) (isort name_leb l)
    end.
  Lemma partof_text_lines ps : ps <> [] -> name_set ps ->
    ends_ok (join [nl] (partof_lines (pval ps))) /\
    exists w, blanks w /\ partof_text ps = join [nl] (partof_lines (pval ps)) ++ w.
  Proof.
    intros Hn Hs. destruct ps as [|a [|b ps]]; [congruence| |].
    - destruct Hs as [Hw _]. inversion Hw; subst. simpl pval. cbn [partof_lines join partof_text]. split.
      + now apply ends_app, raw_ends.
      + exists []. split; [constructor|]. now rewrite app_nil_r.
    - set (L := a :: b :: ps) in *. change (pval L) with (VSeq (map n_raw (isort name_leb L))).
      change (partof_text L) with (s "partof:" ++ [c_nl] ++ flat_map (fun n => s "- " ++ n_raw n ++ [c_nl]) (isort name_leb L)).
      pose proof (isort_perm name_leb L) as P.
      assert (Hi : isort name_leb L <> []). { intros E. rewrite E in P. apply Permutation_sym, Permutation_nil in P. discriminate. }
      assert (Hw : Forall name_wf (isort name_leb L)) by (eapply Permutation_Forall; [exact P|apply Hs]).
      cbn [partof_lines]. rewrite join_cons by (destruct (isort name_leb L); [congruence|discriminate]). split.
      + apply ends_app, ends_app. now apply seq_ends.
      + exists [nl]. split; [repeat constructor|]. rewrite flat_lines by auto. now rewrite <- !app_assoc.
  Qed.

  Definition body (r : art_raw) : str :=
    match raw_done r with Some d => yaml_done d ++ [c_nl; c_nl] | None => [] end ++
    match raw_partof r with Some ps => partof_text ps | None => [] end.
  Lemma push_attrs_body out r : (forall ps, raw_partof r = Some ps -> ps <> []) ->
    push_attrs yaml_done style out r =
    Ok (trim_end (out ++ match style with CodeBlock p => opener p ++ [c_nl] | Hashes => [] end ++ body r) ++
        match style with Hashes => [c_nl] ++ s "###" ++ [c_nl] | CodeBlock _ => [c_nl] ++ s "```" ++ [c_nl] end).
  Proof.
    intros H. unfold push_attrs, body.
    assert (E : forall o d, res_bind
      (match raw_partof r with None => Ok ((out ++ o) ++ d) | Some [] => Panic
       | Some [n] => Ok (((out ++ o) ++ d) ++ s "partof: " ++ n_raw n)
       | Some l => Ok (((out ++ o) ++ d) ++ s "partof:" ++ [c_nl] ++ flat_map (fun n => s "- " ++ n_raw n ++ [c_nl]) (isort name_leb l)) end)
      (fun o3 => Ok (trim_end o3 ++ match style with Hashes => [c_nl] ++ s "###" ++ [c_nl] | CodeBlock _ => [c_nl] ++ s "```" ++ [c_nl] end))
      = Ok (trim_end (out ++ o ++ d ++ match raw_partof r with Some ps => partof_text ps | None => [] end) ++
        match style with Hashes => [c_nl] ++ s "###" ++ [c_nl] | CodeBlock _ => [c_nl] ++ s "```" ++ [c_nl] end)).
    { intros o d. destruct (raw_partof r) as [[|a [|b ps]]|].
      - exfalso. now apply (H []).
      - cbn [res_bind partof_text]. now rewrite <- !app_assoc.
      - cbn [res_bind]. unfold partof_text. now rewrite <- !app_assoc.
      - cbn [res_bind]. now rewrite app_nil_r, <- !app_assoc. }
    rewrite <- E. destruct style; [reflexivity|]. unfold opener. now rewrite <- !app_assoc.
  Qed.

  Lemma body_lines r : attr_lines r <> [] -> (forall ps, raw_partof r = Some ps -> ps <> [] /\ name_set ps) ->
    ends_ok (join [nl] (attr_lines r)) /\ exists w, blanks w /\ body r = join [nl] (attr_lines r) ++ w.
  Proof.
    intros Hn Hp. unfold body, attr_lines in *. destruct (raw_done r) as [d|], (raw_partof r) as [ps|].
    - destruct (Hp ps eq_refl) as [H1 H2]. destruct (partof_text_lines ps H1 H2) as (He & w & Hw & E).
      assert (J : join [nl] (yaml_done d :: [] :: partof_lines (pval ps)) = yaml_done d ++ [nl; nl] ++ join [nl] (partof_lines (pval ps))).
      { rewrite join_cons by discriminate. rewrite join_cons by (destruct (pval ps); discriminate). reflexivity. }
      rewrite J. split; [now apply ends_app, ends_app|]. exists w. split; auto. rewrite E. now rewrite <- !app_assoc.
    - split; [apply done_ends|]. exists [nl; nl]. split; [repeat constructor|]. now rewrite app_nil_r.
    - destruct (Hp ps eq_refl) as [H1 H2]. destruct (partof_text_lines ps H1 H2) as (He & w & Hw & E). split; auto. exists w. auto.
    - congruence.
  Qed.

  Lemma push_attrs_lines out r : attr_lines r <> [] -> (forall ps, raw_partof r = Some ps -> ps <> [] /\ name_set ps) ->
    push_attrs yaml_done style out r = Ok (out ++ join [nl] (styled (attr_lines r)) ++ [nl]).
  Proof.
    intros Hn Hp. rewrite push_attrs_body by (intros ps E; apply (Hp ps E)).
    destruct (body_lines r Hn Hp) as (He & w & Hw & E). rewrite E. f_equal. unfold styled. destruct style as [|p].
    - cbn [app]. rewrite app_assoc, trim_tail by (auto; now apply ends_app).
      rewrite join_app by (auto; discriminate). now rewrite <- !app_assoc.
    - rewrite !app_assoc, trim_tail by (auto; rewrite <- app_assoc; now apply ends_app, ends_app).
      rewrite join_cons by (destruct (attr_lines r); discriminate). rewrite join_app by (auto; discriminate).
      now rewrite <- !app_assoc.
  Qed.

  Lemma styled_not ls : styled ls <> [].
  Proof. unfold styled. destruct style; [|discriminate]. destruct ls; discriminate. Qed.

  Lemma clean_cases t : t <> [] -> clean_text t = t ->
    ends_ok (trim_end t) /\ exists w, t = trim_end t ++ w /\ (w = [] \/ w = [nl]).
  Proof.
    intros Hn Hc. destruct (trim_end_spec t) as (w & E & _ & Hl).
    assert (N : trim_end t <> []).
    { intros E0. unfold clean_text in Hc. rewrite E0 in Hc. simpl in Hc. congruence. }
    split.
    - destruct (exists_last N) as (p & c & Ep). exists p, c. split; auto. eapply Hl; eauto.
    - unfold clean_text in Hc. destruct (mem_char c_nl (trim_end t)).
      + exists [nl]. split; auto.
      + exists []. split; auto. now rewrite app_nil_r.
  Qed.

  Lemma hdr_ends n : name_wf n -> ends_ok (hdr n).
  Proof. intros H. apply ends_app, ends_app, raw_ends, H. Qed.

  Lemma join_ends (a b : list str) : b <> [] -> ends_ok (join [nl] b) -> ends_ok (join [nl] (a ++ b)).
  Proof.
    intros Hb H. destruct a as [|x a]; auto. rewrite join_app by (auto; discriminate).
    change (nl :: join [nl] b) with ([nl] ++ join [nl] b). now apply ends_app, ends_app.
  Qed.

  Lemma styled_ends ls : ends_ok (join [nl] (styled ls)).
  Proof.
    unfold styled. destruct style.
    - apply join_ends; [discriminate|]. exists (s "##"), 35%N. auto.
    - rewrite app_comm_cons. apply join_ends; [discriminate|]. exists (s "``"), 96%N. auto.
  Qed.

  Lemma block_ends e : entry_form e -> ends_ok (join [nl] (block e)).
  Proof.
    intros [H1 H2 H3]. unfold block. rewrite app_comm_cons. unfold text_lines.
    destruct (raw_text (snd e)) as [t|].
    - destruct (H3 t eq_refl) as (Hn & Hc). destruct (clean_cases t Hn Hc) as [He _].
      apply join_ends; [apply split_on_nonempty|]. now rewrite join_split.
    - rewrite app_nil_r. unfold meta_lines. destruct (attr_lines (snd e)) as [|x ls].
      + cbn [join]. now apply hdr_ends.
      + change (hdr (fst e) :: styled (x :: ls)) with ([hdr (fst e)] ++ styled (x :: ls)).
        apply join_ends; [apply styled_not|apply styled_ends].
  Qed.

  Lemma push_block out e : entry_form e ->
    push_artifact_md yaml_done prefix style out (fst e) (snd e) = Ok (out ++ join [nl] (block e) ++ [nl; nl; nl]).
  Proof.
    intros H. pose proof (block_ends e H) as B. destruct H as [H1 H2 H3]. unfold push_artifact_md.
    set (o1 := out ++ prefix ++ s "# " ++ n_raw (fst e) ++ [c_nl]).
    assert (E1 : o1 = out ++ hdr (fst e) ++ [nl]) by (unfold o1, hdr; now rewrite <- !app_assoc).
    assert (E2 : match raw_done (snd e), raw_partof (snd e) with None, None => Ok o1 | _, _ => push_attrs yaml_done style o1 (snd e) end =
                 Ok (out ++ join [nl] (hdr (fst e) :: meta_lines (snd e)) ++ [nl])).
    { rewrite E1. unfold meta_lines. destruct (attr_lines (snd e)) as [|x ls] eqn:E.
      - unfold attr_lines in E. destruct (raw_done (snd e)), (raw_partof (snd e)) as [ps|]; try discriminate.
        + destruct (pval ps); discriminate.
        + reflexivity.
      - assert (G : push_attrs yaml_done style (out ++ hdr (fst e) ++ [nl]) (snd e) =
                    Ok (out ++ join [nl] (hdr (fst e) :: styled (x :: ls)) ++ [nl])).
        { rewrite push_attrs_lines by (auto; rewrite E; discriminate). rewrite E, join_cons by apply styled_not.
          now rewrite <- !app_assoc. }
        destruct (raw_done (snd e)) eqn:Ed, (raw_partof (snd e)) eqn:Ep; auto.
        unfold attr_lines in E. rewrite Ed, Ep in E. discriminate. }
    rewrite E2. cbn [res_bind]. f_equal. clear E2.
    assert (G : exists w, blanks w /\ (out ++ join [nl] (hdr (fst e) :: meta_lines (snd e)) ++ [nl]) ++
        match raw_text (snd e) with Some t => t | None => [] end = (out ++ join [nl] (block e)) ++ w).
    { unfold block, text_lines. destruct (raw_text (snd e)) as [t|].
      - destruct (H3 t eq_refl) as (Hn & Hc). destruct (clean_cases t Hn Hc) as (_ & w & Et & Hw). exists w. split.
        + destruct Hw as [->| ->]; repeat constructor.
        + rewrite (app_comm_cons (meta_lines (snd e))), join_app by (discriminate || apply split_on_nonempty). rewrite join_split.
          rewrite Et at 1. rewrite <- !app_assoc. reflexivity.
      - exists [nl]. split; [repeat constructor|]. now rewrite !app_nil_r, app_assoc. }
    destruct G as (w & Hw & ->). rewrite trim_tail by (auto; now apply ends_app). now rewrite <- app_assoc.
  Qed.

  Lemma push_all_blocks l : forall out, Forall entry_form l ->
    push_all yaml_done prefix style out l = Ok (out ++ flat_map (fun e => join [nl] (block e) ++ [nl; nl; nl]) l).
  Proof.
    induction l as [|[n r] l IH]; intros out H; cbn [push_all flat_map]; [now rewrite app_nil_r|].
    inversion H as [|? ? H1 H2]; subst. pose proof (push_block out (n, r) H1) as E. cbn [fst snd] in E. rewrite E. cbn [res_bind].
    rewrite IH by auto. now rewrite <- !app_assoc.
  Qed.

  Lemma doc_not l : l <> [] -> doc l <> [].
  Proof. destruct l as [|e [|f l]]; [congruence| |]; discriminate. Qed.

  Lemma doc_ends l : l <> [] -> Forall entry_form l -> ends_ok (join [nl] (doc l)).
  Proof.
    intros Hn H. induction H as [|e l He H IH]; [congruence|]. destruct l as [|f l].
    - now apply block_ends.
    - change (doc (e :: f :: l)) with (block e ++ [[]; []] ++ doc (f :: l)). rewrite app_assoc.
      apply join_ends; [now apply doc_not|]. apply IH. discriminate.
  Qed.

  Lemma blocks_doc l : l <> [] ->
    flat_map (fun e => join [nl] (block e) ++ [nl; nl; nl]) l = join [nl] (doc l) ++ [nl; nl; nl].
  Proof.
    induction l as [|e l IH]; intros Hn; [congruence|]. destruct l as [|f l].
    - cbn [flat_map doc]. now rewrite app_nil_r.
    - change (doc (e :: f :: l)) with (block e ++ [[]; []] ++ doc (f :: l)). cbn [flat_map]. cbn [flat_map] in IH.
      rewrite IH by discriminate. rewrite join_app by discriminate.
      change ([[]; []] ++ doc (f :: l)) with (([[]; []] : list str) ++ doc (f :: l)). rewrite join_app by (discriminate || now apply doc_not).
      cbn [join]. now rewrite <- !app_assoc.
  Qed.

  Lemma to_markdown_doc l : Forall entry_form l -> to_markdown yaml_done prefix style l = Ok (join [nl] (doc l)).
  Proof.
    intros H. unfold to_markdown. rewrite push_all_blocks by auto. cbn [res_bind app]. f_equal.
    destruct l as [|e l]; [reflexivity|]. rewrite blocks_doc by discriminate.
    apply trim_tail; [now apply doc_ends|repeat constructor].
  Qed.
End Write.

(** ** Lines that are not headers *)
Lemma header_infix prefix l x : header_line prefix l x ->
  exists a b, l = a ++ 35%N :: b /\ In 45%N b /\ In 35%N l /\ In 45%N l.
Proof.
  intros (p & w1 & w2 & -> & _ & _ & _ & Hx). apply lang_name_words, lang_name in Hx as (q & es & _ & Hne & _ & ->).
  assert (D : In 45%N (w1 ++ join [c_dash] (q :: es) ++ w2)).
  { destruct es as [|e es]; [congruence|]. rewrite join_cons by discriminate. rewrite !in_app_iff. simpl. auto 6. }
  exists p, (w1 ++ join [45%N] (q :: es) ++ w2). split; [reflexivity|]. split; [exact D|].
  split; apply in_app_iff; right; [now left|now right].
Qed.

Lemma header_first prefix c l x : header_line prefix (c :: l) x ->
  match prefix with [] => c = 35%N | d :: _ => char_fold d c end.
Proof.
  intros (p & w1 & w2 & E & Hp & _). destruct Hp as [|d e pre p Hd _]; simpl in E; injection E as -> _; auto.
Qed.

Lemma name_long x : valid_name x \/ longs_name x -> 4 < length x /\ Forall name_ch x.
Proof.
  intros H. apply lang_name_words in H. split; [|now apply name_re_chars].
  apply lang_name in H as (p & es & Hp & Hne & He & ->).
  assert (L : length p = 3).
  { apply lang_type in Hp as [(t & Ht & Hc)|(t & Ht & Hc)]; eapply type_len; eauto. }
  destruct es as [|e es]; [congruence|]. inversion He as [|? ? [Hn _] _]; subst. destruct e as [|c e]; [congruence|].
  assert (J : 0 < length (join [c_dash] ((c :: e) :: es))).
  { destruct es; [cbn; lia|]. rewrite join_cons by discriminate. rewrite app_length. cbn [length]. lia. }
  rewrite join_cons by discriminate. rewrite !app_length, L. change (length [45%N]) with 1. change c_dash with 45%N in J. lia.
Qed.

Lemma opener_no_header prefix p x : ~ header_line prefix (opener p) x.
Proof.
  intros H. unfold opener in H. destruct p as [p|].
  - destruct H as (q & w1 & w2 & E & _ & _ & H2 & Hx). apply name_long in Hx as [L F].
    apply (f_equal (@rev _)) in E. rewrite !rev_app_distr in E.
    assert (W : w2 = []).
    { destruct (exists_last_dec w2) as [->|(w & c & ->)]; auto. rewrite rev_app_distr in E.
      change (rev (s "art")) with [116; 114; 97]%N in E. simpl in E. injection E as <- _.
      apply Forall_app in H2 as [_ H2]. inversion H2 as [|? ? X _]. cbv in X. discriminate X. }
    subst w2. change (rev (s "art")) with [116; 114; 97]%N in E. change (rev [c_sp]) with [32%N] in E. simpl in E.
    rewrite <- app_assoc in E.
    rewrite <- rev_length in L. rewrite <- (rev_involutive x) in F. apply Forall_rev in F. rewrite rev_involutive in F.
    destruct (rev x) as [|c1 [|c2 [|c3 [|c4 r]]]]; simpl in L; try lia. simpl in E. injection E as _ _ _ E4 _. subst c4.
    inversion F as [|? ? _ F1]; inversion F1 as [|? ? _ F2]; inversion F2 as [|? ? _ F3]; inversion F3 as [|? ? F4 _]; subst.
    unfold name_ch, word_char in F4. lia.
  - apply header_infix in H as (_ & _ & _ & _ & H & _). simpl in H. intuition discriminate.
Qed.

Lemma opener_is p : (forall x, p = Some x -> ~ In nl x) -> opener_line (opener p) /\ ~ In nl (opener p) /\ ends_ok (opener p).
Proof.
  intros H. split; [|split].
  - unfold opener, opener_line. destruct p as [p|].
    + exists (p ++ [c_sp]), 0, []. split; [reflexivity|]. split; [constructor|]. split.
      * rewrite in_app_iff. intros [X|[X|[]]]; [now apply (H p)|discriminate].
      * right. exists p, c_sp. auto.
    + exists [], 0, []. split; [reflexivity|]. split; [constructor|]. split; auto.
  - unfold opener. rewrite !in_app_iff. intros [X|[X|X]].
    + simpl in X. intuition discriminate.
    + destruct p as [p|]; [|destruct X]. rewrite in_app_iff in X. destruct X as [X|[X|[]]]; [now apply (H p)|discriminate].
    + simpl in X. intuition discriminate.
  - unfold opener. rewrite app_assoc. apply ends_app. exists (s "ar"), 116%N. auto.
Qed.

Lemma opener_no_end p : ~ end_line (opener p).
Proof. intros (k & w & E & _). unfold opener in E. discriminate. Qed.

Lemma hash_no_header prefix x : ~ header_line prefix (s "###") x.
Proof. intros H. apply header_infix in H as (_ & _ & _ & _ & _ & H). simpl in H. intuition discriminate. Qed.

(** First characters of attribute lines. *)
Definition attr_first (l : str) : Prop := match l with [] => True | c :: _ => In c [100; 112; 45]%N end.
Lemma attr_text prefix l : prefix_ok true prefix -> attr_first l -> text_line prefix l.
Proof.
  intros (_ & _ & Hp) Hl. specialize (Hp eq_refl). destruct l as [|c l].
  - split; [|split].
    + intros x H. apply header_infix in H as (_ & _ & _ & _ & [] & _).
    + intros (k & w & E & _). discriminate.
    + intros (x & k & w & E & _). discriminate.
  - split; [|split].
    + intros x H. apply header_first in H. simpl in Hl. destruct prefix as [|d prefix].
      * subst c. intuition discriminate.
      * destruct Hp as (H1 & H2 & H3). destruct Hl as [<-|[<-|[<-|[]]]]; try contradiction.
        apply H3. unfold char_fold, char_ci in H. lia.
    + intros (k & w & E & _). simpl in E. injection E as -> _. simpl in Hl. intuition discriminate.
    + intros (x & k & w & E & _). simpl in E. injection E as -> _. simpl in Hl. intuition discriminate.
Qed.
Lemma attr_no_closer l : attr_first l -> ~ closer_line l.
Proof. intros Hl (k & w & E & _). subst l. simpl in Hl. intuition discriminate. Qed.

Lemma fold_refl l : Forall2 char_fold l l.
Proof. induction l; constructor; auto. left. left. reflexivity. Qed.

Section Read.
  Variable yaml : str -> option (option str * option names_val).
  Variable yaml_done : str -> str.
  Hypothesis Hy : yaml_ok yaml yaml_done.
  Variable prefix : str.
  Variable style : md_attrs.
  Definition plain_style (st : md_attrs) : bool := match st with Hashes => true | CodeBlock _ => false end.
  Hypothesis Hprefix : prefix_ok (plain_style style) prefix.
  Hypothesis Hstyle : forall p, style = CodeBlock (Some p) -> ~ In nl p.
  Notation entry_ok := (entry_ok prefix).
  Notation attr_lines := (attr_lines yaml_done).
  Notation meta_lines := (meta_lines yaml_done style).
  Notation block := (block yaml_done prefix style).
  Notation doc := (doc yaml_done prefix style).
  Notation md_loop := (md_loop yaml prefix).
  Notation insert := (insert_from_parts yaml).

  Lemma partof_first v : Forall attr_first (partof_lines v).
  Proof.
    assert (H : forall l, attr_first (112%N :: l)) by (intros l; right; left; reflexivity).
    destruct v as [x|l]; cbn [partof_lines]; (apply Forall_cons; [apply H|]); [constructor|].
    apply Forall_map, Forall_forall. intros y _. simpl. auto.
  Qed.
  Lemma attr_lines_first r : Forall attr_first (attr_lines r).
  Proof.
    assert (D : forall d, attr_first (yaml_done d)).
    { intros d. destruct (yo_done _ _ Hy d) as (v & c & -> & _). simpl. auto. }
    unfold MarkdownFacts.attr_lines. destruct (raw_done r), (raw_partof r);
      repeat (apply Forall_cons; [apply D || exact I|]); try apply partof_first; constructor.
  Qed.

  Lemma attr_lines_ok e : entry_form e -> Forall line_ok (attr_lines (snd e)).
  Proof.
    intros [_ H _]. unfold MarkdownFacts.attr_lines.
    assert (D : forall d, line_ok (yaml_done d)).
    { intros d. split; [|apply ends_line; eapply done_ends; eauto].
      destruct (yo_done _ _ Hy d) as (v & c & -> & Hc & Hn). rewrite !in_app_iff. intros [X|[X|[X|[]]]]; auto.
      - simpl in X. intuition discriminate.
      - subst c. discriminate. }
    assert (P : forall ps, raw_partof (snd e) = Some ps -> Forall line_ok (partof_lines (pval ps))).
    { intros ps E. destruct (H ps E) as [Hn [Hw _]].
      assert (L : forall h a, ~ In nl h -> name_wf a -> line_ok (h ++ n_raw a)).
      { intros h a Hh Ha. split; [|now apply ends_line, ends_app, raw_ends].
        rewrite in_app_iff. intros [X|X]; [auto|]. now apply (raw_line a Ha). }
      assert (S1 : ~ In nl (s "partof: ")) by (simpl; intuition discriminate).
      assert (S2 : ~ In nl (s "- ")) by (simpl; intuition discriminate).
      destruct ps as [|a [|b ps]]; [congruence| |].
      - inversion Hw; subst. repeat constructor; now apply L.
      - set (K := a :: b :: ps) in *. change (pval K) with (VSeq (map n_raw (isort name_leb K))). cbn [partof_lines].
        constructor.
        + split; [simpl; intuition discriminate|]. apply ends_line. exists (s "partof"), 58%N. auto.
        + rewrite map_map. apply Forall_map. eapply Forall_impl; [intros c Hc; exact (L (s "- ") c S2 Hc)|].
          eapply Permutation_Forall; [apply isort_perm|exact Hw]. }
    assert (N : line_ok []) by (split; [intros []|intros p X; destruct p; discriminate]).
    destruct (raw_done (snd e)), (raw_partof (snd e)) as [ps|] eqn:E;
      repeat (apply Forall_cons; [apply D || apply N|]); try (now apply P); constructor.
  Qed.

  Lemma text_lines_ok e : entry_ok e -> Forall (fun l => text_line prefix l /\ line_ok l) (text_lines (snd e)).
  Proof.
    intros [[_ _ H] Q]. unfold text_lines. destruct (raw_text (snd e)) as [t|]; [|constructor].
    destruct (H t eq_refl) as (Hn & Hc). pose proof (Q t eq_refl) as Hq. destruct (clean_cases t Hn Hc) as (_ & w & Et & Hw).
    apply Forall_forall. intros l Hl. 
    assert (In l (split_on nl t)).
    { destruct Hw as [->| ->]; [now rewrite Et, app_nil_r|]. rewrite Et.
      rewrite <- (join_split nl (trim_end t)). change (In l (split_on nl (join [nl] (split_on nl (trim_end t)) ++ nl :: join [nl] [[]]))).
      rewrite <- join_app by (discriminate || apply split_on_nonempty). rewrite split_join.
      - apply in_or_app. now left.
      - destruct (split_on nl (trim_end t)); discriminate.
      - apply Forall_app. split; [|repeat constructor; auto].
        apply Forall_forall. intros p Hp. now apply split_on_pieces in Hp. }
    destruct (Hq l H0) as [H1 H2]. split; auto. split; auto. now apply split_on_pieces in Hl.
  Qed.

  Lemma loop_text ls : forall rest st, Forall (fun l => text_line prefix l /\ line_ok l) ls ->
    md_loop (ls ++ rest) None st = md_loop rest None (mkMd (md_out st) (md_name st) (md_at st) (md_other st ++ ls)).
  Proof.
    induction ls as [|l ls IH]; intros rest st H; simpl app.
    - rewrite app_nil_r. now destruct st.
    - inversion H as [|? ? [(H1 & H2 & H3) [H4 _]] Hr]; subst. cbn [Markdown.md_loop].
      apply header_none in H1. rewrite H1.
      destruct (is_match_full attrs_end_re l) eqn:E; [apply end_line_iff in E; contradiction|].
      destruct (is_match_full attrs_code_re l) eqn:E2; [apply opener_line_iff in E2; auto; contradiction|].
      rewrite IH by auto. cbn [md_out md_name md_at md_other]. now rewrite <- app_assoc.
  Qed.

  Lemma loop_code ls : forall rest o acc st, Forall attr_first ls ->
    md_loop (ls ++ rest) (Some (o, acc)) st = md_loop rest (Some (o, acc ++ ls)) st.
  Proof.
    induction ls as [|l ls IH]; intros rest o acc st H; simpl app.
    - now rewrite app_nil_r.
    - inversion H as [|? ? H1 Hr]; subst. cbn [Markdown.md_loop].
      destruct (is_match_full code_end_re l) eqn:E; [apply closer_line_iff in E; exfalso; now apply (attr_no_closer l)|].
      rewrite IH by auto. now rewrite <- app_assoc.
  Qed.

  Definition at_of (r : art_raw) : option str := match attr_lines r with [] => None | ls => Some (join [nl] ls) end.
  Lemma loop_meta e rest out n : entry_form e ->
    md_loop (meta_lines (snd e) ++ rest) None (mkMd out (Some n) None []) =
    md_loop rest None (mkMd out (Some n) (at_of (snd e)) []).
  Proof.
    intros He. unfold MarkdownFacts.meta_lines, at_of. pose proof (attr_lines_first (snd e)) as F. pose proof (attr_lines_ok e He) as L.
    destruct (attr_lines (snd e)) as [|x ls] eqn:Ea; [reflexivity|].
    set (A := x :: ls) in *. clearbody A. unfold styled. destruct style as [|p] eqn:Es.
    - rewrite <- app_assoc. rewrite loop_text.
      + cbn [md_out md_name md_at md_other app Markdown.md_loop].
        assert (H0 : header prefix (s "###") = None) by (apply header_none; intros y; apply hash_no_header). rewrite H0.
        assert (H1 : is_match_full attrs_end_re (s "###") = true) by reflexivity. rewrite H1. reflexivity.
      + clear -F L Hprefix. induction F; inversion L; subst; constructor; auto. split; auto. now apply attr_text.
    - rewrite <- app_comm_cons, <- app_assoc. cbn [Markdown.md_loop].
      assert (Ho : opener_line (opener p) /\ ~ In nl (opener p) /\ ends_ok (opener p)).
      { apply opener_is. intros y ->. now apply Hstyle. }
      destruct Ho as (Ho & Hn & _).
      assert (H0 : header prefix (opener p) = None) by (apply header_none; intros y; apply opener_no_header). rewrite H0.
      destruct (is_match_full attrs_end_re (opener p)) eqn:E; [apply end_line_iff, opener_no_end in E; contradiction|].
      apply opener_line_iff in Ho; auto. rewrite Ho. cbn [md_name md_at].
      rewrite loop_code by auto. cbn [app Markdown.md_loop].
      assert (H1 : is_match_full code_end_re (s "```") = true) by reflexivity. rewrite H1. reflexivity.
  Qed.

  Definition flush (st : md) : res (list (name * art_raw)) :=
    match md_name st with Some n => insert (md_out st) n (md_at st) (md_other st) | None => Ok (md_out st) end.

  Lemma loop_block e rest st : entry_ok e ->
    md_loop (block e ++ rest) None st =
    res_bind (flush st) (fun out => md_loop rest None (mkMd out (Some (fst e)) (at_of (snd e)) (text_lines (snd e)))).
  Proof.
    intros He. unfold MarkdownFacts.block. rewrite <- app_comm_cons. cbn [Markdown.md_loop].
    assert (Hh : header prefix (hdr prefix (fst e)) = Some (n_raw (fst e))).
    { apply header_iff. exists prefix, [32%N], []. split; [unfold hdr; now rewrite app_nil_r|]. split.
      - apply fold_refl.
      - split; [repeat constructor|]. split; [constructor|]. left. apply name_accept. exists (fst e). apply He. }
    rewrite Hh. unfold flush. destruct (match md_name st with Some n => _ | None => _ end) as [out| |]; cbn [res_bind]; auto.
    assert (Hn : name_from_str (n_raw (fst e)) = Ok (fst e)) by apply He. rewrite Hn. cbn [res_bind].
    rewrite <- app_assoc, loop_meta by apply He. rewrite loop_text by (now apply text_lines_ok). reflexivity.
  Qed.

  (** ** What is read back *)
  Definition norm (e : name * art_raw) : name * art_raw :=
    (fst e, mkRaw (raw_done (snd e)) (option_map (isort name_leb) (raw_partof (snd e))) (raw_text (snd e))).

  Lemma pval_read ps : ps <> [] -> name_set ps -> names_de (pval ps) = Ok (isort name_leb ps).
  Proof.
    intros Hn Hs. destruct ps as [|a [|b ps]]; [congruence| |].
    - destruct Hs as [Hw _]. inversion Hw; subst. cbn [pval names_de]. now rewrite expand_one.
    - set (L := a :: b :: ps) in *. change (pval L) with (VSeq (map n_raw (isort name_leb L))). cbn [names_de].
      assert (Hs' : name_set (isort name_leb L)) by (eapply name_set_perm; [apply isort_perm|auto]).
      rewrite (de_seq_ok (isort name_leb L) []); [reflexivity|apply Hs'|apply Hs'].
  Qed.

  Lemma text_back e pad : entry_form e -> pad = [] \/ pad = [[]; []] ->
    clean_text (join [c_nl] (text_lines (snd e) ++ pad)) = match raw_text (snd e) with Some t => t | None => [] end.
  Proof.
    intros [_ _ H] Hp. unfold text_lines. change c_nl with nl. destruct (raw_text (snd e)) as [t|].
    - destruct (H t eq_refl) as (Hn & Hc).
      assert (E : exists w, blanks w /\ join [nl] (split_on nl (trim_end t) ++ pad) = trim_end t ++ w).
      { destruct Hp as [->| ->].
        - exists []. split; [constructor|]. now rewrite !app_nil_r, join_split.
        - exists [nl; nl]. split; [repeat constructor|]. rewrite join_app by (discriminate || apply split_on_nonempty).
          now rewrite join_split. }
      destruct E as (w & Hw & ->). rewrite <- Hc at 2. unfold clean_text. now rewrite trim_blanks, trim_end_idem.
    - destruct Hp as [->| ->]; reflexivity.
  Qed.

  Lemma insert_entry out e pad : entry_form e -> pad = [] \/ pad = [[]; []] ->
    ~ In (nk (fst e)) (map (fun x => nk (fst x)) out) ->
    insert out (fst e) (at_of (snd e)) (text_lines (snd e) ++ pad) = Ok (out ++ [norm e]).
  Proof.
    intros He Hp Hn. unfold insert_from_parts.
    assert (A : match at_of (snd e) with
       | None => Ok (None, None)
       | Some x => match yaml x with
                   | None => Err
                   | Some (d, None) => Ok (d, None)
                   | Some (d, Some v) => res_bind (names_de v) (fun ns => Ok (d, Some ns))
                   end
       end = Ok (raw_done (snd e), option_map (isort name_leb) (raw_partof (snd e)))).
    { destruct He as [_ P _]. unfold at_of, MarkdownFacts.attr_lines.
      destruct (raw_done (snd e)) as [d|], (raw_partof (snd e)) as [ps|]; cbn [option_map].
      - destruct (P ps eq_refl) as [P1 P2]. destruct (pval_names ps P1 P2) as [V1 V2].
        rewrite (yo_read_both _ _ Hy d (pval ps) V1 V2). rewrite pval_read by auto. reflexivity.
      - cbn [join]. now rewrite (yo_read_done _ _ Hy d).
      - destruct (P ps eq_refl) as [P1 P2]. destruct (pval_names ps P1 P2) as [V1 V2].
        destruct (partof_lines (pval ps)) as [|l0 ls0] eqn:El; [destruct (pval ps); discriminate|]. rewrite <- El.
        rewrite (yo_read_partof _ _ Hy (pval ps) V1 V2). rewrite pval_read by auto. reflexivity.
      - reflexivity. }
    rewrite A. cbn [res_bind fst snd]. rewrite (text_back e pad He Hp).
    assert (G : im_get name_eqb (fst e) out = None).
    { apply (get_none_iff name_eqb nk name_eqb_iff). unfold pkeys. exact Hn. }
    unfold im_mem. rewrite G, (insert_fresh name_eqb) by auto. do 2 f_equal. unfold norm. do 2 f_equal.
    destruct He as [_ _ T]. f_equal. destruct (raw_text (snd e)) as [t|]; auto. destruct (T t eq_refl) as [Hne _]. now destruct t.
  Qed.

  Lemma loop_doc l : forall out st, l <> [] -> Forall entry_ok l -> flush st = Ok out ->
    NoDup (map (fun x => nk (fst x)) (out ++ l)) ->
    res_bind (md_loop (doc l) None st) flush = Ok (out ++ map norm l).
  Proof.
    induction l as [|e l IH]; intros out st Hn H Hf ND; [congruence|]. inversion H as [|? ? He Hl]; subst.
    assert (Hne : ~ In (nk (fst e)) (map (fun x => nk (fst x)) out)).
    { rewrite map_app in ND. simpl in ND. apply NoDup_remove_2 in ND. intros X. apply ND, in_or_app. auto. }
    destruct l as [|f l].
    - cbn [MarkdownFacts.doc]. rewrite <- (app_nil_r (block e)), loop_block, Hf by auto. cbn [res_bind Markdown.md_loop].
      unfold flush. cbn [md_name md_out md_at md_other].
      rewrite <- (app_nil_r (text_lines (snd e))), insert_entry by (auto; apply He). reflexivity.
    - change (doc (e :: f :: l)) with (block e ++ [[]; []] ++ doc (f :: l)). rewrite loop_block, Hf by auto. cbn [res_bind].
      rewrite loop_text.
      + cbn [md_out md_name md_at md_other]. rewrite (IH (out ++ [norm e])); auto.
        * rewrite <- app_assoc. reflexivity.
        * discriminate.
        * unfold flush. cbn [md_name md_out md_at md_other]. now rewrite insert_entry by (auto; apply He).
        * rewrite <- app_assoc. rewrite map_app in *. exact ND.
      + assert (N : line_ok []) by (split; [intros []|intros p X; destruct p; discriminate]).
        assert (T : text_line prefix []).
        { split; [|split].
          - intros x X. apply header_infix in X as (_ & _ & _ & _ & [] & _).
          - intros (k & w & E & _). discriminate.
          - intros (x & k & w & E & _). discriminate. }
        constructor; [split; auto|]. constructor; [split; auto|constructor].
  Qed.

  Lemma head_lines_ok e : entry_form e -> Forall line_ok (hdr prefix (fst e) :: meta_lines (snd e)).
  Proof.
    intros He. constructor.
    - split; [|apply ends_line, hdr_ends, He]. unfold hdr. rewrite !in_app_iff. intros [X|[X|X]].
      + now apply Hprefix.
      + simpl in X. intuition discriminate.
      + apply raw_line in X; [auto|apply He].
    - unfold MarkdownFacts.meta_lines. pose proof (attr_lines_ok e He) as L. destruct (attr_lines (snd e)) as [|x ls]; [constructor|].
      set (A := x :: ls) in *. clearbody A.
      assert (H1 : line_ok (s "###")) by (split; [simpl; intuition discriminate|apply ends_line; exists (s "##"), 35%N; auto]).
      assert (H2 : line_ok (s "```")) by (split; [simpl; intuition discriminate|apply ends_line; exists (s "``"), 96%N; auto]).
      unfold styled. destruct style as [|p] eqn:Es.
      + apply Forall_app. auto.
      + constructor; [|apply Forall_app; auto].
        assert (Ho : opener_line (opener p) /\ ~ In nl (opener p) /\ ends_ok (opener p)).
        { apply opener_is. intros y ->. now apply Hstyle. }
        split; [apply Ho|apply ends_line, Ho].
  Qed.

  Lemma block_lines_ok e : entry_ok e -> Forall line_ok (block e).
  Proof.
    intros He. unfold MarkdownFacts.block. rewrite app_comm_cons. apply Forall_app. split; [apply head_lines_ok, He|].
    eapply Forall_impl; [|apply text_lines_ok, He]. intros l [_ L]. exact L.
  Qed.

  Lemma doc_lines_ok l : Forall entry_ok l -> Forall line_ok (doc l).
  Proof.
    intros H. induction H as [|e l He H IH]; [constructor|]. destruct l as [|f l].
    - now apply block_lines_ok.
    - change (doc (e :: f :: l)) with (block e ++ [[]; []] ++ doc (f :: l)). apply Forall_app. split; [now apply block_lines_ok|].
      assert (N : line_ok []) by (split; [intros []|intros p X; destruct p; discriminate]).
      constructor; [exact N|]. constructor; [exact N|]. exact IH.
  Qed.

  Lemma raw_roundtrip l : Forall entry_ok l -> NoDup (map (fun x => nk (fst x)) l) ->
    exists txt, to_markdown yaml_done prefix style l = Ok txt /\ from_markdown yaml prefix txt = Ok (map norm l).
  Proof.
    intros H ND. assert (F : Forall entry_form l) by (eapply Forall_impl; [|exact H]; intros e He; apply He).
    exists (join [nl] (doc l)). split; [eapply to_markdown_doc; eauto|].
    unfold from_markdown. change (fun st => match md_name st with Some n => insert (md_out st) n (md_at st) (md_other st) | None => Ok (md_out st) end) with flush.
    destruct l as [|e l]; [reflexivity|].
    assert (B : buf_lines (join [nl] (doc (e :: l))) = doc (e :: l)).
    { assert (Hn : doc (e :: l) <> []) by (apply doc_not; discriminate).
      destruct (exists_last Hn) as (ls & z & E).
      assert (Le : ends_ok (join [nl] (doc (e :: l)))) by (eapply doc_ends; eauto; discriminate).
      pose proof (doc_lines_ok _ H) as L. rewrite E in *. apply Forall_app in L as [L1 L2]. inversion L2; subst.
      apply buf_join; auto. intros ->. destruct Le as (p & c & X & Hc). destruct ls as [|y ls].
      - destruct p; discriminate.
      - rewrite join_app in X by discriminate. simpl in X. apply app_inj_tail in X as [_ <-]. discriminate. }
    rewrite B. apply (loop_doc (e :: l) [] _); auto. discriminate.
  Qed.
End Read.

(** ** Artifacts *)
Section Arts.
  Variable yaml : str -> option (option str * option names_val).
  Variable yaml_done : str -> str.
  Hypothesis Hy : yaml_ok yaml yaml_done.

  Definition raw_entry (a : art_im) : name * art_raw := (snd (fst (into_raw a)), snd (into_raw a)).

  Lemma raw_form a : im_wf a -> im_clean a = a -> entry_form (raw_entry a).
  Proof.
    intros W Hc. split; cbn.
    - apply W.
    - intros ps E. destruct (im_partof a) as [|b l] eqn:Eb; [discriminate|]. injection E as <-. split; [discriminate|].
      rewrite <- Eb. now apply im_wf_set.
    - intros t E. destruct (im_text a) as [|c t'] eqn:Et; [discriminate|]. injection E as <-. split; [discriminate|].
      rewrite <- Et. apply (f_equal im_text) in Hc. exact Hc.
  Qed.

  Lemma norm_back file a : im_wf a -> im_clean a = a -> im_file a = file ->
    from_raw (fst (norm (raw_entry a))) file (snd (norm (raw_entry a))) = a.
  Proof.
    intros W Hc Hf. unfold from_raw, raw_entry, norm, into_raw. cbn [fst snd raw_done raw_partof raw_text].
    destruct a as [n f ps d t]. cbn in *. subst f.
    pose proof (f_equal im_partof Hc) as Hps. cbn in Hps.
    assert (S : name_set ps) by (apply (im_wf_set (mkIm n file ps d t)); auto).
    f_equal; [|destruct t; reflexivity].
    assert (Z : isort name_leb ps = ps).
    { rewrite <- Hps. apply isort_id. apply isort_sorted; [exact name_leb_total|exact name_leb_trans]. }
    destruct ps as [|p0 ps0]; [reflexivity|]. cbn [option_map]. rewrite Z.
    rewrite (is_collect_distinct name_eqb nk name_eqb_iff); [exact Hps|]. apply strip_nodup, S.
  Qed.

  Lemma md_roundtrip prefix style arts file :
    prefix_ok (plain_style style) prefix -> (forall p, style = CodeBlock (Some p) -> ~ In nl p) ->
    Forall im_wf arts -> distinct arts ->
    (forall a, In a arts -> im_clean a = a /\ im_file a = file /\ quiet_text prefix (im_text a)) ->
    exists txt raws, to_markdown yaml_done prefix style (map raw_entry arts) = Ok txt /\
      from_markdown yaml prefix txt = Ok raws /\ map (fun e => from_raw (fst e) file (snd e)) raws = arts.
  Proof.
    intros Hp Hs Hw Hd Ha.
    assert (H1 : Forall (entry_ok prefix) (map raw_entry arts)).
    { apply Forall_map, Forall_forall. intros a Hin. destruct (Ha a Hin) as (Hc & _ & Hq).
      rewrite Forall_forall in Hw. pose proof (Hw a Hin) as W. split; [now apply raw_form|]. cbn.
      intros t E. destruct (im_text a) as [|c t'] eqn:Et; [discriminate|]. injection E as <-. exact Hq. }
    assert (H2 : NoDup (map (fun x : name * art_raw => nk (fst x)) (map raw_entry arts))).
    { rewrite map_map. cbn. now apply distinct_nk. }
    destruct (raw_roundtrip _ _ Hy prefix style Hp Hs _ H1 H2) as (txt & E1 & E2).
    exists txt, (map norm (map raw_entry arts)). split; auto. split; auto.
    rewrite !map_map. rewrite <- (map_id arts) at 2. apply map_ext_in. intros a Hin.
    destruct (Ha a Hin) as (Hc & Hf & _). rewrite Forall_forall in Hw. now apply norm_back; auto.
  Qed.
End Arts.
