(** The exported document: the model meets the specification. *)
From Coq Require Import ZArith Lia Permutation Sorted.
From Verif Require Import Base BaseFacts Regex RegexFacts GreedyFacts Name SpecName NameFacts RefFacts SubFacts LineFacts Artifact Lint SpecLint LintFacts Ls Api Render SpecRender RenderFacts SpecExport ExportFacts.
Open Scope nat_scope.

Definition meets (r : res str) (R : str -> Prop) : Prop := r <> Err /\ forall o, r = Ok o <-> R o.
Lemma meets_eq o (R : str -> Prop) : (forall o', R o' <-> o' = o) -> meets (Ok o) R.
Proof. intros U. split; [discriminate|]. intros o'. rewrite U. split; [intros E; injection E as <-; auto|intros ->; auto]. Qed.
Lemma meets_any r (R : str -> Prop) : (exists o, r = Ok o /\ forall o', R o' <-> o' = o) -> meets r R.
Proof. intros (o & -> & U). now apply meets_eq. Qed.
Lemma bind_ok {A B} (r : res A) (f : A -> res B) o : res_bind r f = Ok o <-> exists x, r = Ok x /\ f x = Ok o.
Proof. destruct r as [x| |]; cbn [res_bind]; split; try discriminate; try (intros (y & E & X); congruence). eauto. Qed.
Lemma bind_err {A B} (r : res A) (f : A -> res B) : r <> Err -> (forall x, r = Ok x -> f x <> Err) -> res_bind r f <> Err.
Proof. destruct r; cbn [res_bind]; intros N F; [now apply F|congruence|discriminate]. Qed.
Lemma map_meets {A} (f : A -> res str) (R : A -> str -> Prop) l : (forall a, In a l -> meets (f a) (R a)) ->
  res_map f l <> Err /\ forall os, res_map f l = Ok os <-> Forall2 R l os.
Proof.
  intros F. split; [apply res_map_panic; intros x Hx; apply (F x Hx)|]. intros os. rewrite res_map_ok_iff. apply Forall2_iff_in. intros k o Hk. apply (F k Hk).
Qed.
Lemma Forall2_map_l {A B} (R : A -> B -> Prop) (f : A -> res B) l os : Forall2 (fun x y => f x = Ok y) l os -> (forall x y, In x l -> f x = Ok y -> R x y) -> Forall2 R l os.
Proof. induction 1; intros X; constructor; [apply X; auto; now left|]. apply IHForall2. intros. apply X; auto. now right. Qed.

Section Document.
  Context {M : num} {H : Type}.
  Variable reported : F M -> Z.
  Variable path_str : path -> str.
  Variable strfmt : str -> str -> str -> option str.
  Variable p : project M H.
  Variable base : str.
  Variable ms : md_settings.
  Hypothesis R : ready p.
  Notation artifact := (artifact M H).
  Let W := rd_arts p R.
  Let C := rd_code p R.
  Notation ref_html := (ref_html reported p).
  Notation ref_node := (ref_node reported p).

  Lemma name_meets q : name_wf q -> meets (name_markdown reported p q None) (ref_html (n_raw q) []).
  Proof. intros Wq. apply meets_any. exact (markdown_ok reported p W q [] Wq (or_introl eq_refl)). Qed.
  Lemma node_meets focus q : name_wf q -> meets (name_dot reported p q focus) (ref_node focus (n_raw q) []).
  Proof. intros Wq. apply meets_any. exact (fullname_ok reported p W focus q [] Wq (or_introl eq_refl)). Qed.
  Lemma name_total q : name_wf q -> exists o, name_markdown reported p q None = Ok o.
  Proof. intros Wq. destruct (markdown_ok reported p W q [] Wq (or_introl eq_refl)) as (o & E & _). eauto. Qed.
  Lemma node_total focus q : name_wf q -> exists o, name_dot reported p q focus = Ok o.
  Proof. intros Wq. destruct (fullname_ok reported p W focus q [] Wq (or_introl eq_refl)) as (o & E & _). eauto. Qed.

  Lemma list_total title l : Forall name_wf l -> exists o, family_section reported p title l = Ok o /\ forall o', list_html reported p title l o' <-> o' = o.
  Proof.
    intros Wl. unfold family_section, list_html. destruct l as [|q l].
    - eexists. split; [reflexivity|]. intros o'. unfold line. split.
      + intros [[_ ->]|[X _]]; [flat; reflexivity|congruence].
      + intros ->. left. split; auto. flat; reflexivity.
    - set (ls := q :: l) in *. assert (Ne : ls <> []) by discriminate. clearbody ls. clear q l.
      rewrite Forall_forall in Wl.
      assert (T : forall x, In x ls -> exists y, name_markdown reported p x None = Ok y /\ forall o', ref_html (n_raw x) [] o' <-> o' = y) by (intros x Hx; exact (markdown_ok reported p W x [] (Wl x Hx) (or_introl eq_refl))).
      assert (E : exists os, res_map (fun n => res_bind (name_markdown reported p n None) (fun x => Ok (s "<li>" ++ x ++ s "</li>" ++ [c_nl]))) ls = Ok (map (fun x => line (s "<li>" ++ x ++ s "</li>")) os) /\
                  forall os', Forall2 (fun q x => ref_html (n_raw q) [] x) ls os' <-> os' = os).
      { clear Ne Wl. induction ls as [|q ls IH]; [exists []; split; [reflexivity|]; intros os'; split; [intros X; now inversion X|intros ->; constructor]|].
        destruct IH as (os & E & U); [intros x Hx; apply T; now right|]. destruct (T q (or_introl eq_refl)) as (y & Ey & Uy). exists (y :: os). cbn [res_map]. rewrite Ey. cbn [res_bind]. rewrite E. cbn [res_bind map]. split; [unfold line; flat; reflexivity|].
        intros os'. split; [intros X; inversion X as [|? ? ? ? A B]; subst; apply Uy in A; apply U in B; congruence|]. intros ->. constructor; [now apply Uy|now apply U]. }
      destruct E as (os & -> & U). cbn [res_bind]. eexists. split; [reflexivity|]. intros o'. split.
      + intros [[X _]|(_ & os' & F & ->)]; [congruence|]. apply U in F as ->. unfold line. flat. reflexivity.
      + intros ->. right. split; auto. exists os. split; [now apply U|]. unfold line. flat. reflexivity.
  Qed.
  Lemma nodes_total focus l : Forall name_wf l -> exists os, res_map (fun n => name_dot reported p n focus) l = Ok os /\ forall os', Forall2 (fun q x => ref_node focus (n_raw q) [] x) l os' <-> os' = os.
  Proof.
    induction 1 as [|q l Wq Wl IH]; [exists []; split; [reflexivity|]; intros os'; split; [intros X; now inversion X|intros ->; constructor]|].
    destruct IH as (os & E & U). destruct (fullname_ok reported p W focus q [] Wq (or_introl eq_refl)) as (y & Ey & Uy). exists (y :: os). cbn [res_map]. unfold name_dot at 1. change (@None subname) with (subs []). rewrite Ey. cbn [res_bind]. rewrite E. split; [reflexivity|].
    intros os'. split; [intros X; inversion X as [|? ? ? ? A B]; subst; apply Uy in A; apply U in B; congruence|]. intros ->. constructor; [now apply Uy|now apply U].
  Qed.
  Lemma arrows_eq (f g : name -> str) l : concat (map (fun q => s "        """ ++ f q ++ s """ -> """ ++ g q ++ s """" ++ [c_nl]) l) = concat (map (fun q => arrow (f q) (g q)) l).
  Proof. f_equal. apply map_ext. intros q. unfold arrow, line. flat. reflexivity. Qed.
  Lemma dot_total a : name_wf (a_name a) -> Forall name_wf (a_parts a) -> Forall name_wf (a_partof a) ->
    exists o, artifact_part_dot reported p a = Ok o /\ forall o', family_dot reported p a o' <-> o' = o.
  Proof.
    intros Wa W1 W2. unfold artifact_part_dot. destruct (fullname_ok reported p W true (a_name a) [] Wa (or_introl eq_refl)) as (d0 & E0 & U0). unfold name_dot at 1. change (@None subname) with (subs []) at 1. rewrite E0. cbn [res_bind].
    destruct (nodes_total false (a_parts a) W1) as (d1 & -> & U1). cbn [res_bind]. destruct (nodes_total false (a_partof a) W2) as (d2 & -> & U2). cbn [res_bind].
    eexists. split; [reflexivity|]. unfold connect_names_dot. rewrite (arrows_eq (fun _ => n_key (a_name a)) n_key), (arrows_eq n_key (fun _ => n_key (a_name a))).
    set (A1 := concat (map _ (a_parts a))). set (A2 := concat (map _ (a_partof a))). intros o'. unfold family_dot, wrap_dot. rewrite !nls_cons by discriminate. rewrite nls_one. unfold indent. cbn [repeat]. split.
    - intros (d0' & d1' & d2' & X0 & X1 & X2 & ->). apply U0 in X0 as ->. apply U1 in X1 as ->. apply U2 in X2 as ->. fold A1 A2. clearbody A1 A2. flat. reflexivity.
    - intros ->. exists d0, d1, d2. split; [now apply U0|]. split; [now apply U1|]. split; [now apply U2|]. fold A1 A2. clearbody A1 A2. flat. reflexivity.
  Qed.
  Lemma family_total a : name_wf (a_name a) -> Forall name_wf (a_parts a) -> Forall name_wf (a_partof a) ->
    exists o, art_to_markdown_family reported p ms a = Ok o /\ forall o', family_html reported p ms a o' <-> o' = o.
  Proof.
    intros Wa W1 W2. unfold art_to_markdown_family, family_html. destruct (ms_family ms).
    - destruct (list_total (s "partof") (a_partof a) W2) as (x & -> & Ux). cbn [res_bind]. destruct (list_total (s "parts") (a_parts a) W1) as (y & -> & Uy). cbn [res_bind].
      eexists. split; [reflexivity|]. intros o'. split.
      + intros (x' & y' & X & Y & ->). apply Ux in X as ->. apply Uy in Y as ->. reflexivity.
      + intros ->. exists x, y. split; [now apply Ux|]. split; [now apply Uy|reflexivity].
    - destruct (dot_total a Wa W1 W2) as (d & -> & U). cbn [res_bind]. eexists. split; [reflexivity|]. intros o'. unfold details, details_begin, details_end, line. split.
      + intros (d' & X & ->). apply U in X as ->. destruct (ms_dot ms); flat; reflexivity.
      + intros ->. exists d. split; [now apply U|]. destruct (ms_dot ms); flat; reflexivity.
  Qed.

  Lemma dec_decimal fuel n : N.to_nat n < fuel -> decimal (N.to_nat n) (dec fuel n).
  Proof.
    intros L. split; [destruct fuel; [lia|]; cbn [dec]; intros X; apply app_eq_nil in X as [_ X]; discriminate|]. split; [apply dec_digits|]. split; [rewrite dec_value by lia; lia|].
    intros q E. now apply dec_zero in E as [_ ->].
  Qed.
  Lemma percentage_iff v x : percentage v x <-> x = percent2 v.
  Proof.
    unfold percentage, percent2, percent.
    assert (A : decimal (Z.to_nat v / 10) (dec (S (Z.to_nat v)) (Z.to_N v / 10)%N)).
    { replace (Z.to_nat v / 10) with (N.to_nat (Z.to_N v / 10)%N).
      - apply dec_decimal. rewrite <- Z_N_nat. apply Nat.lt_succ_r. rewrite N2Nat.inj_div. apply Nat.div_le_upper_bound; lia.
      - now rewrite N2Nat.inj_div, Z_N_nat. }
    assert (B : decimal (Z.to_nat v mod 10) [(48 + Z.to_N v mod 10)%N]).
    { pose proof (N.mod_lt (Z.to_N v) 10 ltac:(lia)) as L. replace (Z.to_nat v mod 10) with (N.to_nat (Z.to_N v mod 10)%N).
      - set (k := (Z.to_N v mod 10)%N) in *. clearbody k. split; [discriminate|]. split; [constructor; [lia|constructor]|]. split; [cbn [fold_left]; lia|]. intros q E. now injection E.
      - now rewrite N2Nat.inj_mod, Z_N_nat. }
    split.
    - intros (d & e & D & E & ->). apply decimal_iff in D, E, A, B. rewrite D, E, A, B. flat. reflexivity.
    - intros ->. eexists _, _. split; [exact A|]. split; [exact B|]. flat. reflexivity.
  Qed.

  Notation html_file_url := (html_file_url strfmt base ms).
  Notation html_code_url := (html_code_url strfmt base ms).
  Definition url_fails (file : str) (row : nat) : Prop := exists u, ms_url ms = Some u /\ format_code_url strfmt base u file row = None.
  Lemma maybe_cases file row :
    (ms_url ms = None /\ format_code_url_maybe strfmt base ms file row = Ok None) \/
    (exists u h, ms_url ms = Some u /\ format_code_url strfmt base u file row = Some h /\ format_code_url_maybe strfmt base ms file row = Ok (Some h)) \/
    (url_fails file row /\ format_code_url_maybe strfmt base ms file row = Panic).
  Proof.
    unfold format_code_url_maybe, url_fails. destruct (ms_url ms) as [u|]; [|auto]. destruct (format_code_url strfmt base u file row) as [h|] eqn:E; [right; left; eauto 6|right; right; eauto].
  Qed.
  Lemma linked_meets file row label :
    meets (res_bind (format_code_url_maybe strfmt base ms file row) (fun u => Ok match u with Some u => s "<a href=""" ++ u ++ s """>" ++ label ++ s "</a>" | None => label end))
          (linked strfmt base ms file row label).
  Proof.
    unfold linked. destruct (maybe_cases file row) as [[-> ->]|[(u & h & -> & E & ->)|[(u & -> & E) ->]]]; cbn [res_bind].
    - apply meets_eq. tauto.
    - apply meets_eq. intros o'. split; [|intros ->; exists h; split; [now apply address_iff|reflexivity]].
      intros (h' & A & ->). apply address_iff in A. congruence.
    - split; [discriminate|]. intros o. split; [discriminate|]. intros (h & A & _). apply address_iff in A. congruence.
  Qed.
  Definition impl_of (a : artifact) : res str :=
    match a_impl a with
    | IDone d => Ok d
    | ICode (mkCode (Some c) _) => html_code_url (path_str (loc_file c)) (loc_line c)
    | _ => Ok (s "<i>not implemented</i>")
    end.
  Lemma impl_meets a : meets (impl_of a) (impl_html path_str strfmt base ms a).
  Proof.
    unfold impl_of, impl_html. destruct (a_impl a) as [d|[[l|] sec]|]; cbn [ic_primary]; try (apply meets_eq; tauto).
    destruct (linked_meets (path_str (loc_file l)) (loc_line l) (loc_debug (trim_base base (path_str (loc_file l))) (loc_line l))) as [N X].
    split; [exact N|]. intros o. etransitivity; [exact (X o)|]. split.
    - intros K. eexists. split; [apply place_iff; reflexivity|exact K].
    - intros (t & T & K). apply place_iff in T as ->. exact K.
  Qed.
  Lemma text_meets parent t : meets (replace_markdown reported path_str strfmt p base ms parent t) (rendered reported path_str strfmt p base ms parent t).
  Proof.
    destruct (cut_exists true t) as (ks & Ck). destruct (render_ok reported path_str strfmt p base ms W C parent t ks Ck) as (A & _ & B). split; [exact B|].
    intros o. rewrite A. unfold rendered. split; [intros (os & F & ->); eauto|]. intros (ks' & os & Ck' & F & ->). rewrite (cut_unique _ _ _ Ck _ Ck') in F. eauto.
  Qed.
  Definition art_ok (a : artifact) := name_wf (a_name a) /\ Forall name_wf (a_parts a) /\ Forall name_wf (a_partof a).
  Lemma ready_art e : In e (pr_arts p) -> art_ok (snd e).
  Proof.
    destruct e as [n a]. intros Hin. cbn [snd]. split; [rewrite (rd_names p R n a Hin); exact (aw_names _ W n a Hin)|].
    split; apply Forall_forall; intros q Hq; apply (rd_links p R n a q Hin); auto.
  Qed.
  Lemma section_meets a : art_ok a -> meets (art_to_markdown reported path_str strfmt p base ms a) (section reported path_str strfmt p base ms a).
  Proof.
    intros (Wa & W1 & W2). unfold art_to_markdown. destruct (family_total a Wa W1 W2) as (fam & -> & Uf). cbn [res_bind]. fold (impl_of a).
    destruct (linked_meets (path_str (a_file a)) 0 (trim_base base (path_str (a_file a)))) as [N1 X1]. fold (html_file_url (path_str (a_file a))) in N1, X1.
    destruct (impl_meets a) as [N2 X2]. destruct (text_meets (n_raw (a_name a)) (a_text a)) as [N3 X3]. split.
    - apply bind_err; [exact N1|]. intros f _. apply bind_err; [exact N2|]. intros i _. apply bind_err; [exact N3|]. discriminate.
    - intros o. unfold section. split.
      + intros E. apply bind_ok in E as (f & E1 & E). apply bind_ok in E as (i & E2 & E). apply bind_ok in E as (t & E3 & E). injection E as <-.
        exists fam, f, i, (percent2 (reported (fst (a_completed a)))), (percent2 (reported (snd (a_completed a)))), t.
        split; [now apply Uf|]. split; [now apply X1|]. split; [now apply X2|]. split; [now apply percentage_iff|]. split; [now apply percentage_iff|]. split; [now apply X3|].
        unfold details, line, details_begin, details_end, html_line, c_nl. flat. reflexivity.
      + intros (fam' & f & i & sp & ts & t & F & E1 & E2 & E4 & E5 & E3 & ->). apply Uf in F as ->. apply X1 in E1. apply X2 in E2. apply X3 in E3. apply percentage_iff in E4 as ->. apply percentage_iff in E5 as ->.
        apply bind_ok. exists f. split; [exact E1|]. apply bind_ok. exists i. split; [exact E2|]. apply bind_ok. exists t. split; [exact E3|]. f_equal.
        unfold details, line, details_begin, details_end, html_line, c_nl. flat. reflexivity.
  Qed.
  Lemma entry_total n a : In (n, a) (pr_arts p) -> exists x, res_bind (name_markdown reported p n None) (fun x => Ok (s "- " ++ x ++ [c_nl])) = Ok x /\ forall o, entry reported n a o <-> o = x.
  Proof.
    intros Hin. assert (G : im_get name_eqb n (pr_arts p) = Some a).
    { apply (proj2 (get_target p W n (aw_names _ W n a Hin) a)). exists n. split; [exact Hin|]. split; [apply str_ci_upper; reflexivity|now left]. }
    destruct (name_hex_ok reported p n a G) as (col & Ec & Uc). unfold name_markdown. rewrite G. rewrite Ec. cbn [res_bind]. eexists. split; [reflexivity|]. intros o. unfold entry, name_html_raw, line, css_bold. split.
    - intros (c & Tc & ->). apply Uc in Tc as ->. flat. reflexivity.
    - intros ->. exists col. split; [now apply Uc|]. flat. reflexivity.
  Qed.
  Lemma toc_total : exists x, to_markdown_toc reported p ms = Ok x /\ forall o,
    (exists es, Forall2 (fun (e : name * artifact) x => entry reported (fst e) (snd e) x) (pr_arts p) es /\ o = line (ms_prefix ms ++ s "# Table Of Contents") ++ concat es ++ line [] ++ line []) <-> o = x.
  Proof.
    unfold to_markdown_toc.
    assert (E : forall l, incl l (pr_arts p) -> exists os, res_map (fun e : name * artifact => res_bind (name_markdown reported p (fst e) None) (fun x => Ok (s "- " ++ x ++ [c_nl]))) l = Ok os /\
       forall os', Forall2 (fun (e : name * artifact) x => entry reported (fst e) (snd e) x) l os' <-> os' = os).
    { induction l as [|[n a] l IH]; intros Il; [exists []; split; [reflexivity|]; intros os'; split; [intros X; now inversion X|intros ->; constructor]|].
      destruct IH as (os & E & U); [intros x Hx; apply Il; now right|]. destruct (entry_total n a (Il _ (or_introl eq_refl))) as (y & Ey & Uy). exists (y :: os). cbn [res_map fst]. rewrite Ey. cbn [res_bind]. rewrite E. split; [reflexivity|].
      intros os'. split; [intros X; inversion X as [|? ? ? ? A B]; subst; apply Uy in A; apply U in B; congruence|]. intros ->. constructor; [now apply Uy|now apply U]. }
    destruct (E (pr_arts p) (incl_refl _)) as (os & -> & U). cbn [res_bind]. eexists. split; [reflexivity|]. intros o. unfold line, c_nl. split.
    - intros (es & F & ->). apply U in F as ->. flat. reflexivity.
    - intros ->. exists os. split; [now apply U|]. flat. reflexivity.
  Qed.
  Theorem document_meets ex : meets (to_markdown reported path_str strfmt p base ms ex) (document reported path_str strfmt p base ms ex).
  Proof.
    unfold to_markdown. destruct (map_meets (fun e : name * artifact => art_to_markdown reported path_str strfmt p base ms (snd e)) (fun e => section reported path_str strfmt p base ms (snd e)) (pr_arts p)) as [N X].
    { intros e He. apply section_meets. now apply ready_art. }
    destruct toc_total as (tc & Et & Ut). split.
    - apply bind_err; [destruct (ex_toc ex); [rewrite Et|]; discriminate|]. intros t _. apply bind_err; [exact N|]. discriminate.
    - intros o. unfold document. split.
      + intros E. apply bind_ok in E as (t & E1 & E). apply bind_ok in E as (l & E2 & E). injection E as <-. exists t, l. split; [now apply X|]. split.
        * destruct (ex_toc ex); [|congruence]. apply Ut. congruence.
        * destruct (ex_header ex); reflexivity.
      + intros (t & l & F & T & ->). apply bind_ok. exists t. split; [destruct (ex_toc ex); [apply Ut in T; congruence|congruence]|]. apply bind_ok. exists l. split; [now apply X|]. destruct (ex_header ex); reflexivity.
  Qed.

  (** ** What cannot be written *)
  (** Whether a template can be filled in depends on the template. *)
  Hypothesis SF : forall u f l f' l', strfmt u f l = None -> strfmt u f' l' = None.
  Definition bad_template : Prop := exists u, ms_url ms = Some u /\ forall f l, strfmt u f l = None.
  Lemma template_cases : bad_template \/ forall file row, exists o, format_code_url_maybe strfmt base ms file row = Ok o.
  Proof.
    unfold format_code_url_maybe, bad_template, format_code_url. destruct (ms_url ms) as [u|]; [|right; eauto]. destruct (strfmt u [] []) as [h|] eqn:E.
    - right. intros file row. destruct (strfmt u (trim_base base file) (nat_str (row + 1))) as [o|] eqn:X; [eauto|]. rewrite (SF u _ _ [] [] X) in E. discriminate.
    - left. exists u. split; [reflexivity|]. intros f l. exact (SF u _ _ f l E).
  Qed.
  Lemma piece_in t k x y : (exists u r, t = u ++ source k ++ r) -> k = PRef x y -> valid_name x \/ longs_name x -> y = [] \/ valid_sub y -> ref_in t x y.
  Proof. intros (u & r & ->) -> V Y. split; [exact V|]. split; [exact Y|]. exists u, r. cbn [source]. flat. reflexivity. Qed.
  Lemma text_total n a : In (n, a) (pr_arts p) -> ~ bad_template -> replace_markdown reported path_str strfmt p base ms (n_raw (a_name a)) (a_text a) <> Panic.
  Proof.
    intros Hin NB E. set (t := a_text a) in *. destruct (cut_exists true t) as (ks & Ck). destruct (render_ok reported path_str strfmt p base ms W C (n_raw (a_name a)) t ks Ck) as (_ & P & _).
    apply (proj1 P) in E. clear P. destruct E as (k & Hk & B). pose proof (cut_split true t ks Ck k Hk) as S. destruct (ready_art (n, a) Hin) as (Wa & _ & _). cbn [snd] in Wa.
    assert (NP : ~ longs_name (n_raw (a_name a))) by (intros L; apply (longs_not_valid _ L), name_accept; exists (a_name a); exact Wa).
    destruct B as [x L|x (loc & u & _ & U & A)|x y L|f w b ks' x Ck' Hx L|f w b ks' x y Ck' Hx L]; [contradiction| | |contradiction|].
    - apply no_address_iff in A. apply NB. exists u. split; [exact U|]. intros f l. exact (SF _ _ _ f l A).
    - destruct S as (u & b' & r & Et & Mk). inversion Mk; subst. apply (rd_texts p R n a x y Hin); [|exact L]. apply (piece_in _ (PRef x y)); auto. exists u, r. exact Et.
    - pose proof (cut_split true _ ks' Ck' _ Hx) as S'. cbn [source] in S'. destruct S as (u & b' & r & Et & Mk). destruct S' as (u' & b'' & r' & Eb & Mk'). inversion Mk'; subst.
      apply (rd_texts p R n a x y Hin); [|exact L]. fold t. split; [assumption|]. split; [assumption|]. cbn [source] in Et. exists (u ++ f ++ w ++ 10%N :: u'), (r' ++ s "```" ++ r).
      rewrite Et. transitivity (u ++ f ++ w ++ 10%N :: (b ++ [10%N]) ++ s "```" ++ r); [flat; reflexivity|]. rewrite Eb. flat. reflexivity.
  Qed.
  Lemma section_panic e : In e (pr_arts p) -> art_to_markdown reported path_str strfmt p base ms (snd e) = Panic <-> bad_template.
  Proof.
    destruct e as [n a]. intros Hin. cbn [snd]. destruct (ready_art (n, a) Hin) as (Wa & W1 & W2). cbn [snd] in Wa, W1, W2. unfold art_to_markdown. destruct (family_total a Wa W1 W2) as (fam & -> & Uf). cbn [res_bind]. fold (impl_of a). split.
    - intros E. destruct template_cases as [B|G]; [exact B|]. assert (D : bad_template \/ ~ bad_template).
      { unfold bad_template. destruct (ms_url ms) as [u|]; [|right; intros (u & X & _); discriminate]. destruct (strfmt u [] []) as [h|] eqn:Es; [right; intros (u' & X & Y); injection X as <-; rewrite Y in Es; discriminate|].
        left. exists u. split; [reflexivity|]. intros f l. exact (SF u _ _ f l Es). }
      destruct D as [B|NB]; [exact B|]. exfalso. unfold html_file_url in E. destruct (G (path_str (a_file a)) 0) as (o & X). rewrite X in E. cbn [res_bind] in E.
      assert (I : exists i, impl_of a = Ok i) by (unfold impl_of; destruct (a_impl a) as [d|[[l|] sec]|]; eauto; unfold Render.html_code_url; destruct (G (path_str (loc_file l)) (loc_line l)) as (o' & ->); cbn [res_bind]; eauto).
      destruct I as (i & Ei). rewrite Ei in E. cbn [res_bind] in E. pose proof (text_total n a Hin NB) as T. destruct (text_meets (n_raw (a_name a)) (a_text a)) as [T' _]. destruct (replace_markdown _ _ _ _ _ _ _ _); [discriminate|congruence|congruence].
    - intros (u & U & F). unfold Render.html_file_url, format_code_url_maybe, format_code_url. rewrite U, F. reflexivity.
  Qed.
  Theorem document_panic ex : to_markdown reported path_str strfmt p base ms ex = Panic <-> bad_template /\ pr_arts p <> [].
  Proof.
    destruct toc_total as (tc & Et & _). assert (T : exists x, (if ex_toc ex then to_markdown_toc reported p ms else Ok []) = Ok x) by (destruct (ex_toc ex); eauto). destruct T as (x & T). unfold to_markdown. rewrite T. cbn [res_bind].
    assert (P : res_map (fun e : name * artifact => art_to_markdown reported path_str strfmt p base ms (snd e)) (pr_arts p) = Panic <-> exists e, In e (pr_arts p) /\ art_to_markdown reported path_str strfmt p base ms (snd e) = Panic).
    { apply res_map_panic. intros e He. apply section_meets. now apply ready_art. }
    split.
    - intros E. assert (Q : res_map (fun e : name * artifact => art_to_markdown reported path_str strfmt p base ms (snd e)) (pr_arts p) = Panic) by (destruct (res_map _ _); [discriminate|discriminate|reflexivity]).
      apply P in Q as (e & He & Q). split; [now apply (section_panic e He)|]. intros N. rewrite N in He. contradiction.
    - intros [B N]. assert (X : exists e, In e (pr_arts p)) by (clear - N; destruct (pr_arts p) as [|e l]; [congruence|exists e; now left]). destruct X as (e & He). rewrite (proj2 P); [reflexivity|]. exists e. split; [exact He|]. now apply section_panic.
  Qed.
End Document.
