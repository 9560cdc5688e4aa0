(** The artifacts of a markdown file are its headers. *)
From Coq Require Import Lia ZifyBool.
From Verif Require Import Base BaseFacts Regex RegexFacts Name SpecName NameFacts RawNames RawNamesFacts Artifact Stored LinkFacts
  JoinFacts Markdown SpecMarkdown SpecHeads LineFacts MarkdownFacts Load LoadFacts.

Lemma split_no c x : Forall (fun l => ~ In c l) (split_on c x).
Proof.
  induction x as [|d x IH]; cbn [split_on]; [repeat constructor; auto|]. destruct (N.eqb d c) eqn:E; [constructor; auto|].
  assert (D : d <> c) by (intros ->; rewrite N.eqb_refl in E; discriminate).
  destruct (split_on c x) as [|l r]; [constructor; [|constructor]; intros [X|[]]; auto|]. inversion IH; subst. constructor; auto. intros [X|Hx]; auto.
Qed.
Lemma strip_cr_in c x : In c (strip_cr x) -> In c x.
Proof.
  unfold strip_cr. destruct (rev x) as [|d r] eqn:E; auto. destruct (N.eqb d c_cr); auto. intros Hc. apply in_rev in Hc. apply in_rev. rewrite E. now right.
Qed.
Lemma term_no b ps : Forall (fun l => ~ In c_nl l) ps -> Forall (fun l => ~ In c_nl l) (term_lines b ps).
Proof.
  induction 1 as [|p ps Hp H IH]; [constructor|]. cbn [term_lines]. destruct ps as [|q ps].
  - destruct p; [constructor|]. constructor; [|constructor]. destruct b; auto. intros X. apply strip_cr_in in X. contradiction.
  - constructor; auto. intros X. apply strip_cr_in in X. contradiction.
Qed.
Lemma buf_no x : Forall (fun l => ~ In 10%N l) (buf_lines x).
Proof. apply term_no, split_no. Qed.

Section Heads.
  Variable yaml : str -> option (option str * option names_val).
  Variable prefix : str.
  Notation raws l := (map (fun e : name * art_raw => n_raw (fst e)) l).

  Definition opt_raw (o : option name) : list str := match o with Some n => [n_raw n] | None => [] end.

  Lemma insert_parts out n a o out' : NoDup (map (fun e => nk (fst e)) out) -> insert_from_parts yaml out n a o = Ok out' ->
    raws out' = raws out ++ [n_raw n] /\ NoDup (map (fun e => nk (fst e)) out').
  Proof.
    unfold insert_from_parts. intros N E.
    destruct (match a with None => Ok (None, None) | Some x => match yaml x with None => Err | Some (d, None) => Ok (d, None)
                | Some (d, Some v) => res_bind (names_de v) (fun ns => Ok (d, Some ns)) end end) as [[d p]| |]; cbn [res_bind] in E; try discriminate E.
    destruct (im_mem name_eqb n out) eqn:Em; [discriminate E|]. injection E as <-.
    unfold im_mem in Em. destruct (im_get name_eqb n out) eqn:Eg; [discriminate Em|].
    pose proof Eg as Eg'. apply (proj1 (get_none_iff name_eqb nk name_eqb_iff _ _)) in Eg'.
    rewrite insert_fresh by exact Eg. rewrite !map_app. split; [reflexivity|]. cbn [map fst].
    apply nodup_app_disj; auto; [repeat constructor; auto|]. intros x Hx [<-|[]]. apply Eg'. exact Hx.
  Qed.

  Lemma md_loop_heads ls : Forall (fun l => ~ In 10%N l) ls -> forall code st st', NoDup (map (fun e => nk (fst e)) (md_out st)) ->
    md_loop yaml prefix ls code st = Ok st' ->
    NoDup (map (fun e => nk (fst e)) (md_out st')) /\
    exists hs, heads prefix (match code with Some _ => true | None => false end) ls hs /\
      raws (md_out st') ++ opt_raw (md_name st') = raws (md_out st) ++ opt_raw (md_name st) ++ hs.
  Proof.
    induction 1 as [|l ls Hl HL IH]; intros code st st' N E; cbn [md_loop] in E.
    - destruct code as [[o acc]|]; injection E as <-; (split; [exact N|]); exists []; (split; [constructor|]); cbn [md_out md_name]; now rewrite app_nil_r.
    - destruct code as [[o acc]|].
      + destruct (is_match_full code_end_re l) eqn:Ec.
        * apply IH in E as [N' (hs & Hh & Er)]; auto. split; auto. exists hs. split; [apply h_close; auto; now apply closer_line_iff|exact Er].
        * apply IH in E as [N' (hs & Hh & Er)]; auto. split; auto. exists hs. split; [apply h_in; auto|exact Er].
          intros X. apply closer_line_iff in X. congruence.
      + destruct (header prefix l) as [x|] eqn:Eh.
        * destruct (match md_name st with Some n => insert_from_parts yaml (md_out st) n (md_at st) (md_other st) | None => Ok (md_out st) end) as [out| |] eqn:Eo; cbn [res_bind] in E; try discriminate E.
          destruct (name_from_str x) as [n| |] eqn:En; cbn [res_bind] in E; try discriminate E.
          assert (R : raws out = raws (md_out st) ++ opt_raw (md_name st) /\ NoDup (map (fun e => nk (fst e)) out)).
          { destruct (md_name st) as [m|]; [now apply insert_parts in Eo|]. injection Eo as <-. cbn [opt_raw]. now rewrite app_nil_r. }
          destruct R as [R N']. apply IH in E as [N2 (hs & Hh & Er)]; auto. split; auto. exists (x :: hs). split; [apply h_head; auto; now apply header_iff|].
          rewrite Er. cbn [md_out md_name opt_raw]. rewrite R. rewrite <- !app_assoc. cbn [app]. destruct (from_str_wf x n En) as [_ ->]. reflexivity.
        * assert (NH : forall x, ~ header_line prefix l x) by now apply header_none.
          destruct (is_match_full attrs_end_re l) eqn:Ee.
          -- destruct (match md_name st with Some _ => match md_at st with Some _ => true | None => false end | None => false end); [discriminate E|].
             apply IH in E as [N' (hs & Hh & Er)]; auto. split; auto. exists hs. split; [|exact Er]. apply h_text; auto. left. now apply end_line_iff.
          -- assert (NE : ~ end_line l) by (intros X; apply end_line_iff in X; congruence).
             destruct (is_match_full attrs_code_re l) eqn:Eo.
             ++ destruct (match md_name st with Some _ => match md_at st with Some _ => true | None => false end | None => false end); [discriminate E|].
                apply IH in E as [N' (hs & Hh & Er)]; auto. split; auto. exists hs. split; [|exact Er]. apply h_open; auto. now apply opener_line_iff.
             ++ apply IH in E as [N' (hs & Hh & Er)]; auto. split; auto. exists hs. split; [|exact Er]. apply h_text; auto. right. intros X. apply opener_line_iff in X; auto. congruence.
  Qed.

  Theorem one_per_header text l : from_markdown yaml prefix text = Ok l ->
    heads prefix false (buf_lines text) (raws l) /\ NoDup (map (fun e => n_key (fst e)) l) /\ Forall (fun e => name_wf (fst e)) l.
  Proof.
    intros E. pose proof (from_markdown_wf yaml prefix text l E) as W. revert E. unfold from_markdown.
    destruct (md_loop yaml prefix (buf_lines text) None (mkMd [] None None [])) as [st| |] eqn:E; cbn [res_bind]; try discriminate. intros X.
    apply md_loop_heads in E as [N (hs & Hh & Er)]; [|apply buf_no|constructor]. cbn [md_out md_name opt_raw map app] in Er.
    assert (R : raws l = raws (md_out st) ++ opt_raw (md_name st) /\ NoDup (map (fun e => nk (fst e)) l)).
    { destruct (md_name st) as [m|]; [now apply insert_parts in X|]. injection X as <-. cbn [opt_raw]. now rewrite app_nil_r. }
    destruct R as [R N']. rewrite R, Er. split; [exact Hh|]. assert (Wn : Forall (fun e => name_wf (fst e)) l) by (eapply Forall_impl; [|exact W]; intros e He; apply He).
    split; [|exact Wn]. revert N' Wn. clear. induction l as [|e l IH]; cbn [map]; intros N W; [constructor|]. inversion N; inversion W; subst. constructor; auto.
    intros Hin. apply in_map_iff in Hin as (f & Ef & Hf). apply H1. apply in_map_iff. exists f. split; auto. unfold nk. f_equal; auto. apply key_eq_ty; auto.
    rewrite Forall_forall in H6. auto.
  Qed.

  (** A block that is not closed: nothing that follows has any effect. *)
  Lemma swallow rest : Forall (fun l => ~ closer_line l) rest -> forall o acc acc' st, md_loop yaml prefix rest (Some (o, acc)) st = md_loop yaml prefix [] (Some (o, acc')) st.
  Proof.
    induction 1 as [|l rest Hl H IH]; intros o acc acc' st; [reflexivity|]. cbn [md_loop]. destruct (is_match_full code_end_re l) eqn:E; [apply closer_line_iff in E; contradiction|].
    rewrite (IH o _ acc'). reflexivity.
  Qed.
  Lemma loop_swallow pre o rest : ~ In 10%N o -> (forall x, ~ header_line prefix o x) -> ~ end_line o -> ~ closer_line o -> opener_line o -> Forall (fun l => ~ closer_line l) rest ->
    forall code st, md_loop yaml prefix (pre ++ o :: rest) code st = md_loop yaml prefix (pre ++ [o]) code st.
  Proof.
    intros No NH NE NC O R. induction pre as [|l pre IH]; intros code st.
    - cbn [app md_loop]. destruct code as [[o' acc]|].
      + destruct (is_match_full code_end_re o) eqn:E; [apply closer_line_iff in E; contradiction|]. rewrite (swallow rest R o' (acc ++ [o]) (acc ++ [o])). reflexivity.
      + apply header_none in NH. rewrite NH. destruct (is_match_full attrs_end_re o) eqn:E; [apply end_line_iff in E; contradiction|].
        apply opener_line_iff in O; auto. rewrite O. destruct (match md_name st with Some _ => match md_at st with Some _ => true | None => false end | None => false end); auto. rewrite (swallow rest R o [] []). reflexivity.
    - cbn [app md_loop]. destruct code as [[o' acc]|].
      + destruct (is_match_full code_end_re l); apply IH.
      + destruct (header prefix l) as [x|].
        * destruct (match md_name st with Some n => insert_from_parts yaml (md_out st) n (md_at st) (md_other st) | None => Ok (md_out st) end) as [out| |]; cbn [res_bind]; auto.
          destruct (name_from_str x) as [n| |]; cbn [res_bind]; auto.
        * destruct (is_match_full attrs_end_re l); [|destruct (is_match_full attrs_code_re l)];
            destruct (match md_name st with Some _ => match md_at st with Some _ => true | None => false end | None => false end); auto.
  Qed.
  Lemma prefix_len {A} (p q : list A) : Forall2 (fun _ _ => True) p q -> length p = length q.
  Proof. induction 1; cbn; auto. Qed.
  Lemma opener_not l : opener_line l -> ~ end_line l /\ ~ closer_line l.
  Proof.
    intros (x & k & w & -> & Bw & Nx & _). split.
    - intros (k' & w' & E & _). discriminate E.
    - intros (k' & w' & E & Bw'). apply app_inv_head in E.
      assert (Ha : In 97%N (repeat 96%N k' ++ w')) by (rewrite <- E; apply in_or_app; right; left; reflexivity).
      apply in_app_or in Ha as [Ha|Ha]; [apply repeat_spec in Ha; discriminate Ha|]. unfold blanks in Bw'. rewrite Forall_forall in Bw'. apply Bw' in Ha. discriminate Ha.
  Qed.
  Theorem unclosed text text' pre o rest : buf_lines text = pre ++ o :: rest -> buf_lines text' = pre ++ [o] ->
    opener_line o -> (forall x, ~ header_line prefix o x) -> Forall (fun l => ~ closer_line l) rest ->
    from_markdown yaml prefix text = from_markdown yaml prefix text'.
  Proof.
    intros E E' O NH R. destruct (opener_not o O) as [NE NC]. unfold from_markdown. rewrite E, E'. rewrite loop_swallow; auto.
    pose proof (buf_no text) as B. rewrite E in B. apply Forall_app in B as [_ B]. now inversion B.
  Qed.
End Heads.
