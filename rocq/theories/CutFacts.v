(** A markdown file cut in two at a header. *)
From Coq Require Import Lia Permutation.
From Verif Require Import Base BaseFacts Regex RegexFacts Name SpecName NameFacts Expand RawNames RawNamesFacts Artifact Stored LinkFacts
  JoinFacts Markdown SpecMarkdown LineFacts MarkdownFacts MarkdownExact ProjectFacts Load LoadFacts LintFacts HeadFacts SpecMdFile MdFileFacts.

Lemma lines_app x y lx : (x = [] \/ exists p, x = p ++ [10%N]) -> lines_of x lx -> buf_lines (x ++ y) = lx ++ buf_lines y.
Proof.
  intros E L. induction L as [|l Hl N|l x ls N C L IH|l x ls N L IH].
  - reflexivity.
  - exfalso. destruct E as [->|(p & ->)]; [contradiction|]. apply N. apply in_or_app. right. now left.
  - assert (X : x = [] \/ exists p, x = p ++ [10%N]).
    { destruct (exists_last_dec x) as [->|(p & c & ->)]; [now left|right]. exists p. destruct E as [E|(q & E)]; [destruct l; discriminate E|].
      rewrite !app_assoc in E. apply app_inj_tail in E as [_ ->]. reflexivity. }
    replace ((l ++ [10%N] ++ x) ++ y) with (l ++ 10%N :: (x ++ y)) by (now rewrite <- !app_assoc). rewrite buf_step by exact N. rewrite IH by exact X. cbn [app]. f_equal.
    destruct (strip_cr_cases l) as [(p & E' & _)|[E' _]]; [now apply C in E'|exact E'].
  - assert (X : x = [] \/ exists p, x = p ++ [10%N]).
    { destruct (exists_last_dec x) as [->|(p & c & ->)]; [now left|right]. exists p. destruct E as [E|(q & E)]; [destruct l; discriminate E|].
      rewrite !app_assoc in E. apply app_inj_tail in E as [_ ->]. reflexivity. }
    replace ((l ++ [13%N; 10%N] ++ x) ++ y) with ((l ++ [13%N]) ++ 10%N :: (x ++ y)) by (rewrite <- !app_assoc; reflexivity). rewrite buf_step.
    + rewrite IH by exact X. now rewrite strip_cr_snoc.
    + intros I. apply in_app_or in I as [I|[I|[]]]; [auto|discriminate I].
Qed.

Section Cut.
  Variable yaml : str -> option (option str * option names_val).
  Variable prefix : str.
  Notation loop := (md_loop yaml prefix).
  Notation flush := (flush yaml).
  Notation lines := (Forall (fun l => ~ In 10%N l)).
  Notation keys l := (map (fun e : name * art_raw => nk (fst e)) l).

  Lemma loop_app ls : closed ls -> lines ls -> forall rest st, loop (ls ++ rest) None st = res_bind (loop ls None st) (fun st' => loop rest None st').
  Proof.
    induction 1 as [|l ls O C IH|o a c ls O A Cc C IH]; intros L rest st.
    - reflexivity.
    - inversion L as [|? ? Hl Ls]; subst. cbn [app]. destruct (header prefix l) as [x|] eqn:Eh.
      + cbn [md_loop]. rewrite Eh. destruct (match md_name st with Some n => insert_from_parts yaml (md_out st) n (md_at st) (md_other st) | None => Ok (md_out st) end) as [out| |]; cbn [res_bind]; try reflexivity.
        destruct (name_from_str x) as [n| |]; cbn [res_bind]; try reflexivity. now apply IH.
      + destruct (is_match_full attrs_end_re l) eqn:Ee.
        * apply end_line_iff in Ee. rewrite !end_step by exact Ee. destruct (twice st); [reflexivity|]. now apply IH.
        * assert (T : text_line prefix l) by (split; [now apply header_none|]; split; [intros Y; apply end_line_iff in Y; congruence|exact O]).
          rewrite !text_step by assumption. now apply IH.
    - inversion L as [|? ? Ho L2]; subst. apply Forall_app in L2 as [La L2]. inversion L2 as [|? ? Hc Ls]; subst.
      replace ((o :: a ++ c :: ls) ++ rest) with (o :: a ++ c :: (ls ++ rest)) by (cbn [app]; now rewrite <- app_assoc).
      rewrite !open_step by assumption. destruct (twice st); [reflexivity|]. rewrite !inner_steps by exact A. cbn [app]. rewrite !close_step by exact Cc. now apply IH.
  Qed.

  Lemma head_doc h n ls es : header_line prefix h n -> md_doc prefix (h :: ls) es -> md_parts prefix (h :: ls) es.
  Proof.
    assert (P : forall h n ls, header_line prefix h n -> ~ preamble prefix (h :: ls)).
    { clear. intros h n ls H P. inversion P as [|l ls' [T|E] P' E0|o a c ls' O A C P' E0]; subst.
      - now apply (proj1 T n).
      - now apply (header_not_end prefix h n).
      - now apply (opener_not_header prefix h n). }
    intros H D. inversion D as [ls' P' E0|ls' o lost P' O I E0|ls' rest es' P' Q E0]; subst.
    - now apply (P h n ls) in P'.
    - destruct ls' as [|l ls']; [|injection E0 as -> _; now apply (P h n ls') in P']. injection E0 as -> ->. now apply (opener_not_header prefix h n) in O.
    - destruct ls' as [|l ls']; [exact Q|]. injection E0 as -> _. now apply (P h n ls') in P'.
  Qed.

  Theorem cut_reads x y l : cut_at_header prefix x y ->
    from_markdown yaml prefix (x ++ y) = Ok l <->
    exists l1 l2, l = l1 ++ l2 /\ from_markdown yaml prefix x = Ok l1 /\ from_markdown yaml prefix y = Ok l2 /\
      forall e f, In e l1 -> In f l2 -> n_key (fst e) <> n_key (fst f).
  Proof.
    intros (Ex & (lx & Lx & Cx) & h & ly & n & Ly & Hh).
    assert (U : forall z, from_markdown yaml prefix z = res_bind (loop (buf_lines z) None (mkMd [] None None [])) flush) by reflexivity.
    assert (Bx : lines lx) by (apply lines_buf in Lx; rewrite <- Lx; apply buf_no). assert (By : lines (h :: ly)) by (apply lines_buf in Ly; rewrite <- Ly; apply buf_no).
    rewrite U. rewrite (lines_app x y lx Ex Lx). pose proof (proj1 (lines_buf _ _) Ly) as By'. rewrite By'. rewrite loop_app by assumption.
    assert (Ux : from_markdown yaml prefix x = res_bind (loop lx None (mkMd [] None None [])) flush) by (rewrite U; apply lines_buf in Lx; now rewrite Lx).
    rewrite Ux. destruct (loop lx None (mkMd [] None None [])) as [st| |] eqn:E1; cbn [res_bind].
    2,3: split; [discriminate|intros (l1 & l2 & _ & E & _); discriminate E].
    split.
    - intros E. cbn [md_loop] in E. pose proof (proj2 (header_iff _ _ _) Hh) as Hh'. rewrite Hh' in E. change (match md_name st with Some n => insert_from_parts yaml (md_out st) n (md_at st) (md_other st) | None => Ok (md_out st) end) with (flush st) in E.
      destruct (flush st) as [l1| |] eqn:Ef; cbn [res_bind] in E; try discriminate E. destruct (name_from_str n) as [m| |] eqn:Em; cbn [res_bind] in E; try discriminate E.
      assert (N1 : NoDup (keys l1)).
      { assert (X : from_markdown yaml prefix x = Ok l1) by (rewrite Ux; exact Ef). apply reads_says in X as (ls & es & _ & _ & M & N). apply nodup_nk; auto. now apply (means_wf yaml es). }
      inversion By; subst. eapply (parts_sound yaml prefix ly H2 _ _ h n m []) in E; [|exact Hh|exact Em|reflexivity|exists None; split; [apply bh_plain; constructor|reflexivity]|exact N1].
      destruct E as (es & l2 & P & -> & M & N). cbn [md_out app] in *. exists l1, l2. split; [reflexivity|]. split; [reflexivity|].
      pose proof (means_wf yaml es l2 M) as W2.
      assert (Nd : NoDup (keys l2)) by (rewrite map_app in N; clear -N; induction (keys l1) as [|k ks IH]; [exact N|]; inversion N; auto).
      split.
      + apply reads_says. exists (h :: ly), es. split; [exact Ly|]. split; [apply (md_some prefix [] _ es); [constructor|exact P]|]. split; [exact M|]. now apply nodup_nk.
      + intros e f Ie If K. assert (X : from_markdown yaml prefix x = Ok l1) by (rewrite Ux; exact Ef). apply reads_says in X as (ls1 & es1 & _ & _ & M1 & _).
        pose proof (means_wf yaml es1 l1 M1) as W1. rewrite Forall_forall in W1, W2.
        assert (Kn : nk (fst e) = nk (fst f)) by (unfold nk; f_equal; auto; apply key_eq_ty; auto).
        apply in_split in Ie as (a & b & ->). rewrite map_app in N. rewrite map_app in N. cbn [map] in N. rewrite <- app_assoc in N. cbn [app] in N. apply NoDup_remove_2 in N. apply N.
        apply in_or_app. right. apply in_or_app. right. rewrite Kn. now apply (in_map (fun e => nk (fst e))).
    - intros (l1 & l2 & -> & F & E & D). pose proof E as E'. apply reads_says in E as (ls & es & L & Dc & M & N). apply lines_buf in L. rewrite By' in L. subst ls.
      assert (X : from_markdown yaml prefix x = Ok l1) by (rewrite Ux; exact F). apply reads_says in X as (ls1 & es1 & _ & _ & M1 & N1).
      apply (parts_from yaml prefix (h :: ly) es); auto.
      + now apply (head_doc h n).
      + apply nodup_nk; [apply Forall_app; split; [now apply (means_wf yaml es1)|now apply (means_wf yaml es)]|]. rewrite map_app. apply nodup_app_disj; auto.
        intros k I1 I2. apply in_map_iff in I1 as (e & <- & Ie). apply in_map_iff in I2 as (f & Ef & If). symmetry in Ef. exact (D e f Ie If Ef).
  Qed.
End Cut.
