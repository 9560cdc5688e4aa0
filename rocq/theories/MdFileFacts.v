(** A markdown file is read as what it says. *)
From Coq Require Import Lia.
From Verif Require Import Base BaseFacts Regex RegexFacts Name SpecName NameFacts Expand RawNames RawNamesFacts Artifact Stored LinkFacts
  JoinFacts Markdown SpecMarkdown LineFacts MarkdownFacts MarkdownExact ProjectFacts Load LoadFacts LintFacts HeadFacts SpecMdFile.

Lemma rbind_ok {A B} (r : res A) (f : A -> res B) b : res_bind r f = Ok b <-> exists a, r = Ok a /\ f a = Ok b.
Proof. destruct r as [a| |]; cbn [res_bind]; split; try discriminate; try (intros (a' & E & _); discriminate E); [intros E; eauto|]. intros (a' & E & Ef). injection E as <-. exact Ef. Qed.

(** ** Lines *)
Lemma strip_cr_snoc l : strip_cr (l ++ [13%N]) = l.
Proof. unfold strip_cr. rewrite rev_app_distr. cbn. now rewrite rev_involutive. Qed.
Lemma strip_cr_cases l : (exists p, l = p ++ [13%N] /\ strip_cr l = p) \/ (strip_cr l = l /\ forall p, l <> p ++ [13%N]).
Proof.
  destruct (exists_last_dec l) as [->|(p & c & ->)]; [right; split; [reflexivity|intros [|] E; discriminate E]|].
  destruct (N.eq_dec c 13) as [->|N]; [left; exists p; split; [reflexivity|apply strip_cr_snoc]|]. right.
  assert (X : forall q, p ++ [c] <> q ++ [13%N]) by (intros q E; apply app_inj_tail in E as [_ E]; contradiction). split; auto.
  unfold strip_cr. rewrite rev_app_distr. cbn [rev app]. destruct (N.eqb_spec c c_cr); [contradiction|reflexivity].
Qed.
Lemma buf_step l x : ~ In 10%N l -> buf_lines (l ++ 10%N :: x) = strip_cr l :: buf_lines x.
Proof.
  intros N. unfold buf_lines. change c_nl with 10%N. rewrite split_on_app by exact N. cbn [term_lines].
  destruct (split_on 10%N x) eqn:E; [now apply split_on_nonempty in E|reflexivity].
Qed.
Lemma buf_one l : ~ In 10%N l -> l <> [] -> buf_lines l = [l].
Proof. intros N H. unfold buf_lines. change c_nl with 10%N. rewrite split_on_nosep by exact N. destruct l; [contradiction|reflexivity]. Qed.
Lemma first_nl x : ~ In 10%N x \/ exists l y, x = l ++ 10%N :: y /\ ~ In 10%N l.
Proof.
  induction x as [|c x IH]; [left; auto|]. destruct (N.eq_dec c 10) as [->|N]; [right; exists [], x; auto|].
  destruct IH as [H|(l & y & -> & H)]; [left; intros [E|E]; auto|]. right. exists (c :: l), y. split; auto. intros [E|E]; auto.
Qed.
Lemma lines_buf x ls : lines_of x ls <-> buf_lines x = ls.
Proof.
  split.
  - induction 1 as [|l Hl N|l x ls N C H IH|l x ls N H IH].
    + reflexivity.
    + now apply buf_one.
    + cbn [app]. rewrite buf_step by exact N. rewrite IH. f_equal. destruct (strip_cr_cases l) as [(p & E & _)|[E _]]; [now apply C in E|exact E].
    + change (l ++ [13%N; 10%N] ++ x) with (l ++ 13%N :: 10%N :: x). replace (l ++ 13%N :: 10%N :: x) with ((l ++ [13%N]) ++ 10%N :: x) by (now rewrite <- app_assoc).
      rewrite buf_step; [now rewrite strip_cr_snoc, IH|]. intros I. apply in_app_or in I as [I|[I|[]]]; [auto|discriminate I].
  - intros <-. remember (length x) as n eqn:En. revert x En. induction n as [n IH] using lt_wf_ind. intros x ->.
    destruct (first_nl x) as [N|(l & y & -> & N)].
    + destruct x as [|c x]; [constructor|]. rewrite buf_one by (auto; discriminate). constructor; [discriminate|exact N].
    + rewrite buf_step by exact N. assert (Y : lines_of y (buf_lines y)) by (apply (IH (length y)); auto; rewrite app_length; cbn [length]; lia).
      destruct (strip_cr_cases l) as [(p & -> & ->)|[-> C]]; [|now apply lo_lf].
      rewrite <- app_assoc. apply lo_crlf; auto. intros I. apply N. apply in_or_app. now left.
Qed.

(** ** One artifact *)
Lemma text_iff t o : md_text t o <-> o = match clean_text t with [] => None | _ => Some (clean_text t) end.
Proof.
  assert (U : forall b w b' w', b ++ w = b' ++ w' -> blanks w -> blanks w' -> (forall p c, b = p ++ [c] -> is_ws c = false) -> (forall p c, b' = p ++ [c] -> is_ws c = false) -> b = b').
  { intros b w b' w' E W W' F F'. assert (T : forall b w, blanks w -> (forall p c, b = p ++ [c] -> is_ws c = false) -> trim_end (b ++ w) = b).
    { clear. intros b w W F. rewrite trim_blanks by exact W. destruct (exists_last_dec b) as [->|(p & c & ->)]; [reflexivity|]. apply trim_ok. exists p, c. split; eauto. }
    rewrite <- (T b w), <- (T b' w') by assumption. now rewrite E. }
  destruct (clean_text_spec t) as (b & w & E & W & F & C1 & C2). split.
  - intros (b' & w' & E' & W' & F' & C). assert (b' = b) as -> by (apply (U b' w' b w); auto; congruence).
    destruct C as [[-> ->]|[(N & I & ->)|[I ->]]].
    + rewrite C2 by auto. reflexivity.
    + rewrite C2 by exact I. destruct b; [contradiction|reflexivity].
    + rewrite C1 by exact I. destruct b; reflexivity.
  - intros ->. exists b, w. split; [exact E|]. split; [exact W|]. split; [exact F|].
    destruct (in_dec N.eq_dec 10%N b) as [I|I].
    + right. right. split; auto. rewrite C1 by exact I. destruct b; reflexivity.
    + rewrite C2 by exact I. destruct b as [|c b]; [now left|]. right. left. split; [discriminate|]. auto.
Qed.
Lemma extend_cat out a b : is_extend name_eqb out (a ++ b) = is_extend name_eqb (is_extend name_eqb out a) b.
Proof. unfold is_extend. apply fold_left_app. Qed.
Lemma de_seq_iff xs : forall out o, names_de_seq out xs = Ok o <-> exists ls, Forall2 (fun x l => expand_names x = Ok l) xs ls /\ o = is_extend name_eqb out (concat ls).
Proof.
  induction xs as [|x xs IH]; intros out o; cbn [names_de_seq].
  - split; [intros E; injection E as <-; exists []; split; [constructor|reflexivity]|]. intros (ls & F & ->). inversion F. reflexivity.
  - rewrite rbind_ok. split.
    + intros (ns & En & E). apply IH in E as (ls & F & ->). exists (ns :: ls). split; [now constructor|]. cbn [concat]. now rewrite extend_cat.
    + intros (ls & F & ->). inversion F as [|x0 ns xs0 ls0 En F0]; subst. exists ns. split; auto. apply IH. exists ls0. split; auto. cbn [concat]. now rewrite extend_cat.
Qed.
Lemma links_iff v o : md_links v o <-> match v with None => Ok None | Some v => res_bind (names_de v) (fun l => Ok (Some l)) end = Ok o.
Proof.
  destruct v as [[x|xs]|]; cbn [md_links names_de].
  - rewrite rbind_ok. split; intros (l & E & X); exists l; split; auto; congruence.
  - rewrite rbind_ok. split.
    + intros (ls & F & ->). eexists. split; [apply de_seq_iff; exists ls; split; [exact F|reflexivity]|reflexivity].
    + intros (l & E & X). apply de_seq_iff in E as (ls & F & ->). exists ls. split; auto. injection X as <-. reflexivity.
  - split; [intros ->; reflexivity|intros E; now injection E].
Qed.

Section Read.
  Variable yaml : str -> option (option str * option names_val).
  Variable prefix : str.
  Notation keys l := (map (fun e : name * art_raw => nk (fst e)) l).
  Notation text := (Forall (text_line prefix)).
  Notation inner := (Forall (fun l => ~ closer_line l)).
  Notation lines := (Forall (fun l => ~ In 10%N l)).

  Lemma insert_iff out n x a t out' : name_from_str x = Ok n ->
    insert_from_parts yaml out n (option_map (join [10%N]) a) t = Ok out' <->
    exists r, md_means yaml (x, a, t) (n, r) /\ ~ In (nk n) (keys out) /\ out' = out ++ [(n, r)].
  Proof.
    intros En. unfold insert_from_parts, md_means. cbn [fst snd]. rewrite rbind_ok.
    assert (Ins : forall r, (if im_mem name_eqb n out then Err else Ok (im_insert name_eqb n r out)) = Ok out' <-> ~ In (nk n) (keys out) /\ out' = out ++ [(n, r)]).
    { intros r. unfold im_mem. destruct (im_get name_eqb n out) eqn:G.
      - split; [discriminate|]. intros [N _]. apply (get_none_iff name_eqb nk name_eqb_iff) in N. congruence.
      - rewrite insert_fresh by exact G. apply (proj1 (get_none_iff name_eqb nk name_eqb_iff _ _)) in G. split; [intros E; split; [exact G|congruence]|intros [_ ->]; reflexivity]. }
    split.
    - intros ((d & p) & E & X). cbn [fst snd] in X. apply Ins in X as [N ->]. eexists. split; [|split; [exact N|reflexivity]].
      cbn [raw_done raw_partof raw_text]. split; [exact En|]. split; [|apply (proj2 (text_iff _ _)); reflexivity].
      destruct a as [a|]; cbn [option_map] in E; [|injection E as <- <-; auto].
      destruct (yaml (join [10%N] a)) as [[d' v]|]; [|discriminate E]. destruct v as [v|].
      + apply rbind_ok in E as (ns & E1 & E2). injection E2 as <- <-. exists (Some v). split; [reflexivity|]. apply links_iff. now rewrite E1.
      + injection E as <- <-. exists None. split; reflexivity.
    - intros (r & (_ & A & T) & N & ->). exists (raw_done r, raw_partof r). split.
      + destruct a as [a|]; cbn [option_map]; [|destruct A as [-> ->]; reflexivity]. destruct A as (v & -> & L). apply links_iff in L.
        destruct v as [v|]; [|injection L as <-; reflexivity]. apply rbind_ok in L as (ns & -> & E). cbn [res_bind]. congruence.
      + cbn [fst snd]. apply Ins. split; [exact N|]. apply text_iff in T. destruct r as [d p tx]. cbn [raw_text raw_done raw_partof] in *. rewrite T. reflexivity.
  Qed.

  (** ** What the loop does with each kind of line *)
  Notation loop := (md_loop yaml prefix).
  Lemma text_step l ls st : ~ In 10%N l -> text_line prefix l ->
    loop (l :: ls) None st = loop ls None (mkMd (md_out st) (md_name st) (md_at st) (md_other st ++ [l])).
  Proof.
    intros N (H & E & O). cbn [md_loop]. apply header_none in H. rewrite H.
    destruct (is_match_full attrs_end_re l) eqn:X; [now apply end_line_iff in X|]. destruct (is_match_full attrs_code_re l) eqn:Y; [now apply opener_line_iff in Y|]. reflexivity.
  Qed.
  Lemma text_steps t : lines t -> text t -> forall ls st,
    loop (t ++ ls) None st = loop ls None (mkMd (md_out st) (md_name st) (md_at st) (md_other st ++ t)).
  Proof.
    induction 1 as [|l t Hl H IH]; intros T ls st; [cbn [app]; rewrite app_nil_r; now destruct st|]. inversion T; subst.
    cbn [app]. rewrite text_step by assumption. rewrite IH by assumption. cbn [md_out md_name md_at md_other]. now rewrite <- app_assoc.
  Qed.
  Definition twice (st : md) : bool := match md_name st, md_at st with Some _, Some _ => true | _, _ => false end.
  Lemma end_step l ls st : end_line l ->
    loop (l :: ls) None st = if twice st then Err else loop ls None (mkMd (md_out st) (md_name st) (Some (join [10%N] (md_other st))) []).
  Proof.
    intros E. cbn [md_loop]. assert (H : header prefix l = None) by (apply header_none; intros x Hx; exact (header_not_end prefix l x Hx E)). rewrite H.
    apply end_line_iff in E. rewrite E. reflexivity.
  Qed.
  Lemma open_step o ls st : ~ In 10%N o -> opener_line o ->
    loop (o :: ls) None st = if twice st then Err else loop ls (Some (o, [])) st.
  Proof.
    intros N O. cbn [md_loop]. assert (H : header prefix o = None) by (apply header_none; intros x; now apply opener_not_header). rewrite H.
    destruct (is_match_full attrs_end_re o) eqn:X; [apply end_line_iff in X; now apply opener_not in O|]. apply opener_line_iff in O; auto. rewrite O. reflexivity.
  Qed.
  Lemma inner_steps a : inner a -> forall o acc ls st, loop (a ++ ls) (Some (o, acc)) st = loop ls (Some (o, acc ++ a)) st.
  Proof.
    induction 1 as [|l a Hl H IH]; intros o acc ls st; [cbn [app]; now rewrite app_nil_r|]. cbn [app md_loop].
    destruct (is_match_full code_end_re l) eqn:X; [now apply closer_line_iff in X|]. rewrite IH. now rewrite <- app_assoc.
  Qed.
  Lemma close_step c o acc ls st : closer_line c ->
    loop (c :: ls) (Some (o, acc)) st = loop ls None (mkMd (md_out st) (md_name st) (Some (join [10%N] acc)) (md_other st)).
  Proof. intros C. cbn [md_loop]. apply closer_line_iff in C. now rewrite C. Qed.

  Lemma below_steps ls a t : below_header prefix ls a t -> lines ls -> forall out n rest,
    loop (ls ++ rest) None (mkMd out (Some n) None []) = loop rest None (mkMd out (Some n) (option_map (join [10%N]) a) t).
  Proof.
    destruct 1 as [t T|a e t A E T|t o a c u T O A C U]; intros L out n rest.
    - now rewrite text_steps.
    - apply Forall_app in L as [La L]. inversion L; subst. rewrite <- app_assoc. rewrite text_steps by assumption. cbn [app md_out md_name md_at md_other].
      rewrite end_step by exact E. cbn [twice md_name md_at md_out md_other]. now rewrite text_steps.
    - apply Forall_app in L as [Lt L]. inversion L as [|? ? Lo L2]; subst. apply Forall_app in L2 as [La L2]. inversion L2; subst. rewrite <- app_assoc. rewrite text_steps by assumption.
      cbn [app md_out md_name md_at md_other]. rewrite open_step by assumption. cbn [twice md_name md_at]. rewrite <- app_assoc. rewrite inner_steps by exact A.
      cbn [app]. rewrite close_step by exact C. now rewrite text_steps.
  Qed.
  Definition flush (st : md) : res (list (name * art_raw)) :=
    match md_name st with Some n => insert_from_parts yaml (md_out st) n (md_at st) (md_other st) | None => Ok (md_out st) end.
  Lemma last_steps ls a t : below_last prefix ls a t -> lines ls -> forall out n,
    loop ls None (mkMd out (Some n) None []) = Ok (mkMd out (Some n) (option_map (join [10%N]) a) t).
  Proof.
    destruct 1 as [ls a t B|t o lost T O A]; intros L out n.
    - rewrite <- (app_nil_r ls). rewrite (below_steps ls a t) by assumption. reflexivity.
    - apply Forall_app in L as [Lt L]. inversion L as [|? ? Lo L2]; subst. rewrite text_steps by assumption. cbn [app md_out md_name md_at md_other].
      rewrite open_step by assumption. cbn [twice md_name md_at]. rewrite <- (app_nil_r lost). rewrite inner_steps by exact A. reflexivity.
  Qed.
  Lemma preamble_steps ls : preamble prefix ls -> lines ls -> forall at0 other, exists at1 other', forall rest,
    loop (ls ++ rest) None (mkMd [] None at0 other) = loop rest None (mkMd [] None at1 other').
  Proof.
    induction 1 as [|l ls [T|E] P IH|o a c ls O A C P IH]; intros L at0 other.
    - exists at0, other. reflexivity.
    - inversion L; subst. destruct (IH H2 at0 (other ++ [l])) as (at1 & other' & X). exists at1, other'. intros rest. cbn [app]. rewrite text_step by assumption. apply X.
    - inversion L; subst. destruct (IH H2 (Some (join [10%N] other)) []) as (at1 & other' & X). exists at1, other'. intros rest. cbn [app]. rewrite end_step by assumption. apply X.
    - inversion L as [|? ? Lo L2]; subst. apply Forall_app in L2 as [La L2]. inversion L2; subst. destruct (IH H2 (Some (join [10%N] a)) other) as (at1 & other' & X). exists at1, other'. intros rest.
      cbn [app]. rewrite open_step by assumption. cbn [twice md_name md_at]. rewrite <- app_assoc, inner_steps by exact A. cbn [app]. rewrite close_step by exact C. apply X.
  Qed.

  Lemma parts_from ls es : md_parts prefix ls es -> lines ls -> forall st out l,
    flush st = Ok out -> Forall2 (md_means yaml) es l -> NoDup (keys (out ++ l)) ->
    res_bind (loop ls None st) flush = Ok (out ++ l).
  Proof.
    induction 1 as [h x ls a t H B|h x ls a t rest es H B P IH]; intros L st out l F M N.
    - inversion M as [|e f es' l' Me M']; subst. inversion M'; subst. destruct f as [n r]. inversion L as [|? ? Lh Ls]; subst. cbn [md_loop]. apply header_iff in H. rewrite H.
      unfold flush in F. rewrite F. cbn [res_bind]. pose proof (proj1 Me) as En. cbn [fst snd] in En. rewrite En. cbn [res_bind]. rewrite (last_steps ls a t) by assumption. cbn [res_bind].
      unfold flush. cbn [md_name md_out md_at md_other]. apply (insert_iff out n x a t); [exact En|]. exists r. split; [exact Me|]. split; [|reflexivity].
      rewrite map_app in N. cbn [map fst] in N. apply NoDup_remove_2 in N. intros I. apply N. apply in_or_app. now left.
    - inversion M as [|e f es' l' Me M']; subst. destruct f as [n r]. inversion L as [|? ? Lh Ls]; subst. apply Forall_app in Ls as [Ls Lr]. cbn [md_loop]. apply header_iff in H. rewrite H.
      unfold flush in F. rewrite F. cbn [res_bind]. pose proof (proj1 Me) as En. cbn [fst snd] in En. rewrite En. cbn [res_bind]. rewrite (below_steps ls a t) by assumption.
      rewrite (IH Lr _ (out ++ [(n, r)]) l').
      + now rewrite <- app_assoc.
      + unfold flush. cbn [md_name md_out md_at md_other]. apply (insert_iff out n x a t); [exact En|]. exists r. split; [exact Me|]. split; [|reflexivity].
        rewrite map_app in N. cbn [map fst] in N. apply NoDup_remove_2 in N. intros I. apply N. apply in_or_app. now left.
      + exact M'.
      + rewrite <- app_assoc. exact N.
  Qed.

  (** ** What was read stands there *)
  Lemma below_snoc ls a t l : below_header prefix ls a t -> text_line prefix l -> below_header prefix (ls ++ [l]) a (t ++ [l]).
  Proof.
    intros B T. destruct B as [t A|a e t A E B|t o a c u A O I C U].
    - apply bh_plain. apply Forall_app. auto.
    - rewrite <- app_assoc. apply bh_hashes; auto. apply Forall_app. auto.
    - replace ((t ++ o :: a ++ c :: u) ++ [l]) with (t ++ o :: a ++ c :: (u ++ [l])).
      + rewrite <- app_assoc. apply bh_block; auto. apply Forall_app. auto.
      + rewrite <- app_assoc. cbn [app]. rewrite <- app_assoc. reflexivity.
  Qed.
  Lemma below_none ls t : below_header prefix ls None t -> ls = t /\ text t.
  Proof. intros B. inversion B; subst. auto. Qed.
  Definition reading (code : option (str * list str)) (st : md) (seen : list str) : Prop :=
    match code with
    | None => exists a, below_header prefix seen a (md_other st) /\ md_at st = option_map (join [10%N]) a
    | Some (o, acc) => md_at st = None /\ text (md_other st) /\ opener_line o /\ inner acc /\ seen = md_other st ++ o :: acc
    end.
  Lemma parts_sound ls : lines ls -> forall code st h x n seen l,
    header_line prefix h x -> name_from_str x = Ok n -> md_name st = Some n -> reading code st seen -> NoDup (keys (md_out st)) ->
    res_bind (loop ls code st) flush = Ok l ->
    exists es l', md_parts prefix (h :: seen ++ ls) es /\ l = md_out st ++ l' /\ Forall2 (md_means yaml) es l' /\ NoDup (keys l).
  Proof.
    assert (Nd : forall out n (r : art_raw), NoDup (keys out) -> ~ In (nk n) (keys out) -> NoDup (keys (out ++ [(n, r)]))).
    { intros out n r N F. rewrite map_app. apply nodup_app_disj; [exact N|repeat constructor; auto|]. intros k I [<-|[]]. contradiction. }
    induction 1 as [|l ls Hl L IH]; intros code st h x n seen out Hh En Es R N E.
    - rewrite app_nil_r. cbn [md_loop] in E. destruct code as [[o acc]|].
      + destruct R as (A & T & O & I & ->). cbn [res_bind] in E. unfold flush in E. cbn [md_name md_out md_at md_other] in E. rewrite Es, A in E.
        apply (insert_iff (md_out st) n x None _ _ En) in E as (r & M & F & ->). exists [(x, None, md_other st ++ [o])], [(n, r)].
        split; [apply mp_last; auto; now apply bl_open|]. split; auto.
      + destruct R as (a & B & A). cbn [res_bind] in E. unfold flush in E. rewrite Es, A in E. apply (insert_iff (md_out st) n x a _ _ En) in E as (r & M & F & ->).
        exists [(x, a, md_other st)], [(n, r)]. split; [apply mp_last; auto; now apply bl_whole|]. split; auto.
    - replace (seen ++ l :: ls) with ((seen ++ [l]) ++ ls) by (now rewrite <- app_assoc). destruct code as [[o acc]|].
      + destruct R as (A & T & O & I & ->). cbn [md_loop] in E. destruct (is_match_full code_end_re l) eqn:X.
        * apply closer_line_iff in X. eapply IH in E; [exact E|exact Hh|exact En|exact Es| |exact N]. exists (Some acc). split; [|reflexivity]. cbn [md_other].
          rewrite <- app_assoc. cbn [app]. rewrite <- (app_nil_r (md_other st)) at 2. apply bh_block; auto.
        * eapply IH in E; [exact E|exact Hh|exact En|exact Es| |exact N]. split; [exact A|]. split; [exact T|]. split; [exact O|]. split; [|now rewrite <- app_assoc].
          apply Forall_app. split; [exact I|]. constructor; [|constructor]. intros Y. apply closer_line_iff in Y. congruence.
      + destruct R as (a & B & A). destruct (header prefix l) as [y|] eqn:Ey.
        * cbn [md_loop] in E. rewrite Ey in E. apply header_iff in Ey. rewrite Es in E.
          destruct (insert_from_parts yaml (md_out st) n (md_at st) (md_other st)) as [out'| |] eqn:Ei; cbn [res_bind] in E; try discriminate E.
          destruct (name_from_str y) as [m| |] eqn:Em; cbn [res_bind] in E; try discriminate E.
          rewrite A in Ei. apply (insert_iff (md_out st) n x a _ _ En) in Ei as (r & M & F & ->).
          eapply (IH _ _ l y m []) in E; [|exact Ey|exact Em|reflexivity|exists None; split; [apply bh_plain; constructor|reflexivity]|now apply Nd].
          destruct E as (es & l' & P & -> & Ms & N'). cbn [md_out] in *. exists ((x, a, md_other st) :: es), ((n, r) :: l').
          split; [rewrite <- app_assoc; now apply mp_more|]. split; [now rewrite <- app_assoc|]. split; [now constructor|exact N'].
        * assert (NH : forall x, ~ header_line prefix l x) by now apply header_none.
          destruct (is_match_full attrs_end_re l) eqn:Ee.
          -- apply end_line_iff in Ee. rewrite end_step in E by exact Ee. unfold twice in E. rewrite Es, A in E. destruct a as [a|]; cbn [option_map] in E; [discriminate E|].
             apply below_none in B as [-> T]. eapply IH in E; [exact E|exact Hh|exact En|reflexivity| |exact N]. exists (Some (md_other st)). split; [|reflexivity]. cbn [md_other]. apply bh_hashes; auto.
          -- destruct (is_match_full attrs_code_re l) eqn:Eo.
             ++ apply opener_line_iff in Eo; auto. rewrite open_step in E by assumption. unfold twice in E. rewrite Es, A in E. destruct a as [a|]; cbn [option_map] in E; [discriminate E|].
                apply below_none in B as [-> T]. eapply IH in E; [exact E|exact Hh|exact En|exact Es| |exact N]. repeat split; auto.
             ++ assert (T : text_line prefix l) by (split; [exact NH|]; split; intros Y; [apply end_line_iff in Y|apply opener_line_iff in Y; auto]; congruence).
                rewrite text_step in E by assumption. eapply IH in E; [exact E|exact Hh|exact En|exact Es| |exact N]. exists a. split; [|exact A]. cbn [md_other]. now apply below_snoc.
  Qed.
  Lemma preamble_app p q : preamble prefix p -> preamble prefix q -> preamble prefix (p ++ q).
  Proof.
    induction 1 as [|l ls T P IH|o a c ls O A C P IH]; intros Q; [exact Q|cbn [app]; apply pa_line; auto|].
    replace ((o :: a ++ c :: ls) ++ q) with (o :: a ++ c :: (ls ++ q)) by (cbn [app]; now rewrite <- app_assoc). apply pa_block; auto.
  Qed.
  Lemma doc_sound ls : lines ls -> forall code st seen l,
    md_name st = None -> md_out st = [] ->
    match code with
    | None => preamble prefix seen
    | Some (o, acc) => exists p, preamble prefix p /\ opener_line o /\ inner acc /\ seen = p ++ o :: acc
    end ->
    res_bind (loop ls code st) flush = Ok l ->
    exists es, md_doc prefix (seen ++ ls) es /\ Forall2 (md_means yaml) es l /\ NoDup (keys l).
  Proof.
    induction 1 as [|l ls Hl L IH]; intros code st seen out Es Eo R E.
    - rewrite app_nil_r. exists []. cbn [md_loop] in E. destruct code as [[o acc]|]; cbn [res_bind] in E; unfold flush in E; cbn [md_name md_out] in E; rewrite Es, Eo in E; injection E as <-.
      + destruct R as (p & P & O & I & ->). split; [now apply md_open|]. split; constructor.
      + split; [now apply md_none|]. split; constructor.
    - replace (seen ++ l :: ls) with ((seen ++ [l]) ++ ls) by (now rewrite <- app_assoc). destruct code as [[o acc]|].
      + destruct R as (p & P & O & I & ->). cbn [md_loop] in E. destruct (is_match_full code_end_re l) eqn:X.
        * apply closer_line_iff in X. eapply IH in E; [exact E|exact Es|exact Eo|]. rewrite <- app_assoc. apply preamble_app; auto. cbn [app]. apply pa_block; auto. constructor.
        * eapply IH in E; [exact E|exact Es|exact Eo|]. exists p. split; [exact P|]. split; [exact O|]. split; [|now rewrite <- app_assoc].
          apply Forall_app. split; [exact I|]. constructor; [|constructor]. intros Y. apply closer_line_iff in Y. congruence.
      + destruct (header prefix l) as [y|] eqn:Ey.
        * cbn [md_loop] in E. rewrite Ey in E. apply header_iff in Ey. rewrite Es in E. cbn [res_bind] in E.
          destruct (name_from_str y) as [m| |] eqn:Em; cbn [res_bind] in E; try discriminate E. rewrite Eo in E.
          eapply (parts_sound ls L _ _ l y m []) in E; [|exact Ey|exact Em|reflexivity|exists None; split; [apply bh_plain; constructor|reflexivity]|constructor].
          destruct E as (es & l' & P & -> & Ms & N'). cbn [md_out app] in *. exists es. split; [rewrite <- app_assoc; now apply md_some|]. auto.
        * assert (NH : forall x, ~ header_line prefix l x) by now apply header_none.
          destruct (is_match_full attrs_end_re l) eqn:Ee.
          -- apply end_line_iff in Ee. rewrite end_step in E by exact Ee. unfold twice in E. rewrite Es in E.
             eapply IH in E; [exact E|reflexivity|exact Eo|]. apply preamble_app; auto. apply pa_line; [now right|constructor].
          -- destruct (is_match_full attrs_code_re l) eqn:Ec.
             ++ apply opener_line_iff in Ec; auto. rewrite open_step in E by assumption. unfold twice in E. rewrite Es in E.
                eapply IH in E; [exact E|exact Es|exact Eo|]. exists seen. repeat split; auto.
             ++ assert (T : text_line prefix l) by (split; [exact NH|]; split; intros Y; [apply end_line_iff in Y|apply opener_line_iff in Y; auto]; congruence).
                rewrite text_step in E by assumption. eapply IH in E; [exact E|exact Es|exact Eo|]. apply preamble_app; auto. apply pa_line; [now left|constructor].
  Qed.

  Lemma nodup_nk (l : list (name * art_raw)) : Forall (fun e => name_wf (fst e)) l -> NoDup (keys l) <-> NoDup (map (fun e => n_key (fst e)) l).
  Proof.
    intros W. induction W as [|e l We W IH]; cbn [map]; [split; intros _; constructor|]. rewrite !NoDup_cons_iff, IH.
    assert (X : In (nk (fst e)) (keys l) <-> In (n_key (fst e)) (map (fun e => n_key (fst e)) l)).
    { rewrite !in_map_iff. rewrite Forall_forall in W. split; intros (f & Ef & If); exists f; split; auto.
      - change (snd (nk (fst f)) = snd (nk (fst e))). now rewrite Ef.
      - unfold nk. f_equal; auto. apply key_eq_ty; auto. }
    now rewrite X.
  Qed.
  Lemma means_wf es l : Forall2 (md_means yaml) es l -> Forall (fun e => name_wf (fst e)) l.
  Proof. induction 1 as [|e f es l (E & _) F IH]; constructor; auto. exact (proj1 (from_str_wf _ _ E)). Qed.
  Theorem reads_says x l : from_markdown yaml prefix x = Ok l <-> md_says yaml prefix x l.
  Proof.
    unfold md_says. assert (U : from_markdown yaml prefix x = res_bind (loop (buf_lines x) None (mkMd [] None None [])) flush) by reflexivity. rewrite U. split.
    - intros E. apply (doc_sound _ (buf_no x) None _ []) in E; try reflexivity; [|constructor]. destruct E as (es & D & M & N). exists (buf_lines x), es.
      split; [now apply lines_buf|]. split; [exact D|]. split; [exact M|]. apply nodup_nk; auto. now apply (means_wf es).
    - intros (ls & es & L & D & M & N). apply lines_buf in L. pose proof (buf_no x) as B. rewrite L in *. clear U L x. apply nodup_nk in N; [|now apply (means_wf es)].
      destruct D as [ls P|ls o lost P O I|ls rest es P Q].
      + inversion M; subst. destruct (preamble_steps ls P B None []) as (a & o & X). specialize (X []). rewrite app_nil_r in X. rewrite X. reflexivity.
      + inversion M; subst. apply Forall_app in B as [B1 B2]. inversion B2; subst. destruct (preamble_steps ls P B1 None []) as (a & o' & X). rewrite X. rewrite open_step by assumption.
        cbn [twice md_name md_at]. rewrite <- (app_nil_r lost). rewrite inner_steps by exact I. reflexivity.
      + apply Forall_app in B as [B1 B2]. destruct (preamble_steps ls P B1 None []) as (a & o' & X). rewrite X. exact (parts_from rest es Q B2 (mkMd [] None a o') [] l eq_refl M N).
  Qed.
End Read.
