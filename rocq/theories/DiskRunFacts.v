(** Runs of [modify_project] on a disk that the project was read from. *)
From Coq Require Import Permutation Relation_Operators Lia ZifyBool.
From Verif Require Import Base BaseFacts Name NameFacts RawNames RawNamesFacts Artifact SpecGraph SpecLinks LinkFacts Stored Markdown SpecMarkdown MarkdownFacts Lint LintFacts LintThms Source JoinFacts
  Pool Load SpecLoad LoadFacts DeterFacts ReadThms CheckFacts Disk DiskFacts Walk SpecWalk WalkFacts Modify SpecModify SpecReload OpFacts PureFacts PhaseFacts RunFacts ReloadFacts ResultFacts.

(** Two files that differ only in their extension. *)
Lemma backup_twins q q' : typed q -> typed q' -> backup_of q = backup_of q' -> twins q q'.
Proof.
  intros T T' E. destruct (backup_spec q T) as (d & x & e & -> & _ & Ne & B). destruct (backup_spec q' T') as (d' & x' & e' & -> & _ & Ne' & B'). rewrite B, B' in E.
  apply app_inj_tail in E as [<- E]. apply app_inv_tail in E as <-. exists d, x, e, e'. auto.
Qed.
Lemma twins_backup q q' : typed q -> typed q' -> twins q q' -> backup_of q = backup_of q'.
Proof.
  intros T T' (d & x & e & e' & -> & -> & Ne & Ne'). destruct (backup_spec _ T) as (d1 & x1 & e1 & E1 & _ & N1 & ->). destruct (backup_spec _ T') as (d2 & x2 & e2 & E2 & _ & N2 & ->).
  apply app_inj_tail in E1 as [<- E1]. apply app_inj_tail in E2 as [<- E2].
  assert (U : forall a b c d : str, ~ In c_dot b -> ~ In c_dot d -> a ++ c_dot :: b = c ++ c_dot :: d -> a = c).
  { clear. induction a as [|y a IH]; intros b [|z c] d Nb Nd E; auto; cbn [app] in E; injection E as X1 X2; try rewrite <- X1 in *.
    - exfalso. apply Nb. rewrite X2. apply in_or_app. right. now left.
    - exfalso. apply Nd. rewrite <- X2. apply in_or_app. right. now left.
    - f_equal. eapply IH; [exact Nb|exact Nd|exact X2]. }
  apply (U _ _ _ _ Ne N1) in E1 as <-. apply (U _ _ _ _ Ne' N2) in E2 as <-. reflexivity.
Qed.

Section Found.
  Variable path_str : path -> str.
  Variable st : settings.
  Variable t : node.
  Hypothesis T : tree_ok t.
  Hypothesis R : forall r, In r (se_arts st) -> file_at t r = None.
  Notation orig E := (PhaseFacts.orig path_str st E t).

  Lemma found_typed f : found_file st t f -> typed f.
  Proof. intros (r & _ & _ & K). now apply art_type_iff. Qed.
  Lemma found_exists f : found_file st t f -> exists y, lookup t f = Some (NFile y).
  Proof. intros (r & _ & (x & y & -> & _ & Lk & _) & _). eauto. Qed.
  Lemma found_placed f : found_file st t f -> placed st f.
  Proof. intros (r & Hr & (x & y & E & Nx & _ & Ex) & _). exists r, x. auto. Qed.
  Lemma orig_found E f : orig E f -> found_file st t f.
  Proof.
    intros O. unfold PhaseFacts.orig, to_back_up in O. apply walk_inl in O as (r & Hr & Hq). exists r. split; auto. specialize (R r Hr). unfold file_at in R.
    destruct (lookup t r) as [[z|k]|] eqn:Lr; [discriminate R| |rewrite walk_path_none in Hq by auto; destruct Hq].
    destruct (walk_path (e_stat E) (e_open E) (e_none E) (art_filter (se_xarts st)) t r) as [fs e] eqn:Wl. cbn [fst] in Hq.
    destruct (walk_path_exact _ _ _ _ (se_xarts st) known_extension (art_filter_dir _) (art_filter_file _) t T r k Lr fs e Wl) as (_ & So & _). now apply So.
  Qed.
  Lemma found_orig E f : (forall x, ~ In (inr x) (to_back_up path_str st E t)) -> found_file st t f -> orig E f.
  Proof.
    intros Wk (r & Hr & Re & Ke). unfold PhaseFacts.orig, to_back_up. apply walk_inl. exists r. split; auto.
    assert (exists l, lookup t r = Some (NDir l)) as [l Lr].
    { destruct Re as (x & y & -> & Nx & Lk & _). specialize (R r Hr). unfold file_at in R. rewrite lookup_app in Lk. destruct (lookup t r) as [[z|k]|]; [discriminate R|eauto|discriminate Lk]. }
    destruct (walk_path (e_stat E) (e_open E) (e_none E) (art_filter (se_xarts st)) t r) as [fs e] eqn:Wl. cbn [fst].
    destruct (walk_path_exact _ _ _ _ (se_xarts st) known_extension (art_filter_dir _) (art_filter_file _) t T r l Lr fs e Wl) as (_ & _ & Co). apply Co; auto.
    destruct e as [e|]; auto. exfalso. apply (Wk (load_error path_str r e)). unfold to_back_up, walk_paths. apply in_flat_map. exists r. split; auto. rewrite Wl. apply in_or_app. right. now left.
  Qed.
End Found.

Section Runs.
  Variable path_str : path -> str.
  Variable M : num.
  Variable topo : graph -> option (list nat).
  Variable TC : topo_ok topo.
  Variable H : Type.
  Variable heqb : H -> H -> bool.
  Variable heqb_iff : forall a b, heqb a b = true <-> a = b.
  Variable hash_im : art_im -> H.
  Variable debug_im : art_im -> str.
  Variable st : settings.
  Variables to_toml to_json : list (name * art_raw) -> str.
  Variable yaml_done : str -> str.
  Variable style : md_attrs.
  Variables E1 E3 : disk_errs.
  Variable yaml : str -> option (option str * option names_val).
  Variables parse_toml parse_json : str -> res (list (name * art_raw)).
  Hypothesis PO : parser_ok parse_toml.
  Hypothesis PJ : parser_ok parse_json.
  Variable parse_msg : path -> str -> str.
  Variable prefix : list char.
  Variable settings_path : path.
  Variable url_error : option str.

  Notation runs := (runs path_str M topo H heqb hash_im debug_im st to_toml to_json yaml_done style E1 E3).
  Notation pure := (modify_pure path_str M topo H heqb hash_im debug_im st).
  Notation holds := (holds to_toml to_json yaml_done style).
  Notation text_of := (text_of to_toml to_json yaml_done style).
  Notation loads := (loads path_str yaml parse_toml parse_json parse_msg prefix M topo H hash_im settings_path url_error).
  Notation load_file := (load_file path_str yaml parse_toml parse_json parse_msg prefix).

  Lemma out_file f a : In a (jb_out (load_file f)) -> im_file a = af_path f.
  Proof.
    unfold Load.load_file. destruct (art_type_of (af_path f)) as [ty|]; [|intros []]. destruct (af_text f) as [y|m]; [|intros []].
    destruct (parse_artifacts yaml parse_toml parse_json prefix ty y) as [l| |]; try (intros []). cbn [jb_out]. intros Hin. apply in_map_iff in Hin as ([n r] & <- & _). reflexivity.
  Qed.
  Lemma loads_files E0 t n cfs c p : walk_lints_ok cfs -> loads n (art_files E0 t path_str st) cfs (Ok (inl (c, p))) ->
    forall a, In a (stored_form p) -> PhaseFacts.orig path_str st E0 t (im_file a).
  Proof.
    intros Wc Ld a Ha. destruct (loads_loaded M topo TC H hash_im path_str yaml parse_toml parse_json PO PJ parse_msg prefix settings_path url_error n _ cfs c p (found_walk_ok _ _ _ _ _ _ _ _) Wc Ld) as (_ & arts & la & Rn & _ & P).
    apply (Permutation_in _ P) in Ha. apply in_map_iff in Ha as (b & <- & Hb). apply run_delivers in Rn as [Q _]. apply (Permutation_in _ Q) in Hb. apply in_flat_map in Hb as (j & Hj & Hb).
    apply taken_in in Hj. rewrite jobs_art in Hj. apply in_map_iff in Hj as (f & <- & Hf). apply out_file in Hb. change (im_file (im_clean b)) with (im_file b). rewrite Hb.
    apply in_flat_map in Hf as ([g|x] & Hg & Hf); [destruct Hf as [->|[]]|destruct Hf]. unfold art_files, found in Hg. apply in_map_iff in Hg as ([q|x] & X & Hg); [injection X as <-|discriminate X]. exact Hg.
  Qed.
  Lemma loads_prefix n afs cfs c p : loads n afs cfs (Ok (inl (c, p))) -> pr_prefix p = prefix.
  Proof.
    intros (arts & refs & la & lc & arrived & _ & _ & _ & E). unfold finish in E. cbv zeta in E. destruct (negb _); [discriminate E|]. destruct (build _ _ _ _ _ _) as [out| |]; try discriminate E. cbn [res_bind] in E.
    destruct (lint_project _ _) as [l| |]; try discriminate E. cbn [res_bind] in E. injection E as _ ->. reflexivity.
  Qed.

  (** Sorting the project does not change what its files hold. *)
  Lemma text_perm (q q' : project M H) f : loaded_ok hash_im q -> Permutation (stored_form q') (stored_form q) -> pr_prefix q' = pr_prefix q -> text_of q' f = text_of q f.
  Proof.
    intros L P Px. unfold SpecModify.text_of, file_text. rewrite Px. cbv zeta. rewrite !sort_raws. enough (X : isort im_leb (arts_in f (stored_form q')) = isort im_leb (arts_in f (stored_form q))) by now rewrite X.
    pose proof (lo_distinct hash_im q L) as D. unfold distinct in D.
    apply (filter_perm (fun a => path_eqb (im_file a) f)) in P. unfold arts_in.
    symmetry. apply isort_canonical; [intros a b; apply name_leb_total|intros a b c0; apply name_leb_trans| |now apply Permutation_sym].
    - intros a b Ha Hb X Y. apply filter_In in Ha as [Ha _]. apply filter_In in Hb as [Hb _]. unfold le, im_leb in *.
      assert (E : n_key (im_name a) = n_key (im_name b)) by (now apply str_leb_antisym).
      clear -D Ha Hb E. induction (stored_form q) as [|z l IH]; [destruct Ha|]. cbn [map] in D. inversion D as [|? ? N D']; subst. destruct Ha as [->|Ha], Hb as [->|Hb]; auto; exfalso; apply N; apply in_map_iff; eauto.
  Qed.

  Variable t : node.
  Hypothesis T : tree_ok t.
  Hypothesis Nm : tree_names t.
  Hypothesis R : forall r, In r (se_arts st) -> file_at t r = None.
  Hypothesis U : forall q q', found_file st t q -> found_file st t q' -> twins q q' -> q = q'.
  Variables (c : lints) (p : project M H) (ops : list (op H)).
  Variables (E0 : disk_errs) (n : nat) (cfs : list (code_file + lint)).
  Hypothesis Wc : walk_lints_ok cfs.
  Hypothesis Ld : loads n (art_files E0 t path_str st) cfs (Ok (inl (c, p))).
  Hypothesis W : Forall op_wf ops.
  Hypothesis Wp : forall o a, In o ops -> stores o a -> plain_path (im_file a).

  Lemma l_ok : loaded_ok hash_im p.
  Proof. apply (loads_loaded M topo TC H hash_im path_str yaml parse_toml parse_json PO PJ parse_msg prefix settings_path url_error n _ cfs c p (found_walk_ok _ _ _ _ _ _ _ _) Wc Ld). Qed.
  Lemma l_found a : In a (stored_form p) -> found_file st t (im_file a).
  Proof. intros Ha. eapply orig_found; eauto. eapply loads_files; eauto. Qed.
  Lemma l_plain a : In a (stored_form p) -> plain_path (im_file a).
  Proof. intros Ha. destruct (found_exists st t _ (l_found a Ha)) as [y Lk]. eapply Nm; eauto. Qed.
  Lemma l_typed a : In a (stored_form p) -> typed (im_file a).
  Proof. intros Ha. eapply found_typed, l_found, Ha. Qed.
  Lemma u_orig q q' : PhaseFacts.orig path_str st E1 t q -> PhaseFacts.orig path_str st E1 t q' -> backup_of q = backup_of q' -> q = q'.
  Proof.
    intros O O' E. apply orig_found in O; auto. apply orig_found in O'; auto. apply U; auto. apply backup_twins; auto; eapply found_typed; eauto.
  Qed.
  Lemma new_plain c' q : pure (inl (c, p)) ops = Ok (inr (c', q)) -> forall a, In a (stored_form q) -> plain_path (im_file a).
  Proof.
    intros Ep a Ha. destruct (pure_from path_str M topo TC H heqb heqb_iff hash_im debug_im st c p ops c' q l_ok W Ep a Ha) as [Hp|(o & Hin & So)]; [now apply l_plain|].
    apply in_map_iff in Hin as (o' & <- & Hin). destruct o' as [b|b i|m i]; cbn [op_clean] in So; apply stores_cases in So; [| |destruct So]; subst a;
      change (im_file (im_clean b)) with (im_file b); eapply Wp; eauto; [now left|right; now exists i].
  Qed.
  Lemma new_apart c' q : pure (inl (c, p)) ops = Ok (inr (c', q)) ->
    forall a b l, In a (stored_form q) -> In b (stored_form q) -> locate (im_file a) = Some l -> locate (im_file b) = Some l -> im_file a = im_file b.
  Proof.
    intros Ep a b l Ha Hb Ea Eb. rewrite (locate_plain _ (new_plain c' q Ep a Ha)) in Ea. rewrite (locate_plain _ (new_plain c' q Ep b Hb)) in Eb. congruence.
  Qed.

  Theorem crash_found x : runs t (Ok (inl (c, p))) ops x ->
    (forall o y, found_file st t o -> file_at t o = Some y -> file_at (disk M H x) o = Some y \/ file_at (disk M H x) (backup_of o) = Some y) \/
    (exists c' q, pure (inl (c, p)) ops = Ok (inr (c', q)) /\ holds (disk M H x) q).
  Proof.
    intros Rn. destruct (crash_safe path_str M topo TC H heqb heqb_iff hash_im debug_im st to_toml to_json yaml_done style E1 E3 t T R u_orig c p ops l_ok l_typed W x Rn new_apart) as [S0|S0]; auto.
    left. intros o y Fo Fy. destruct (orig_dec path_str st E1 t o) as [O|O]; auto. left.
    destruct (run_inv path_str M topo TC H heqb heqb_iff hash_im debug_im st to_toml to_json yaml_done style E1 E3 t T R u_orig c p ops l_ok l_typed W x Rn) as [(r & -> & _)|(c' & q & Ep & I)]; [auto|].
    assert (B : forall t' todo got, inv_b path_str st E1 t t' todo got -> file_at t' o = Some y).
    { intros t' todo got Ib. rewrite (ib_other _ _ _ _ _ _ _ Ib o O); auto. intros Bk. eapply (bk_typed path_str st E1 t T R o); eauto. eapply found_typed; eauto. }
    assert (Wk : walk_ok path_str st E1 t -> file_at (disk M H x) o = Some y).
    { intros Wk. exfalso. apply O. now apply found_orig. }
    destruct x as [t' c1 p1 todo got|t' c1 p1 todo got|t' c1 p1 todo got|t' r]; cbn [PhaseFacts.inv disk] in *.
    - destruct I as [_ I]. eauto.
    - apply Wk. apply I.
    - destruct I as (_ & _ & t3 & (_ & [_ X] & _) & _). now apply Wk.
    - destruct r as [[[c1 p1]|[[] l]]| |]; try contradiction.
      + destruct I as (_ & t3 & c0 & got & (_ & [_ X] & _) & _). now apply Wk.
      + destruct I as [got I]. eauto.
      + apply Wk, I.
  Qed.

  Theorem success_found t' c1 p1 : runs t (Ok (inl (c, p))) ops (MDone M H t' (Ok (inl (c1, p1)))) ->
    holds t' p1 /\ loaded_ok hash_im p1 /\
    (forall o, found_file st t o -> (forall a, In a (stored_form p1) -> im_file a <> o) -> file_at t' o = None) /\
    (ls_error c1 = [] -> (forall x, In x (ls_other c1) -> li_cat x <> CRemoveBackups) -> forall r f, In r (se_arts st) -> reachable t' (se_xarts st) r f -> is_backup f = false) /\
    (forall f, ~ found_file st t f -> (forall a, In a (stored_form p1) -> im_file a <> f) -> (is_backup f = false \/ forall r, In r (se_arts st) -> ~ below f r) -> file_at t' f = file_at t f) /\
    (forall f, is_dir (lookup t' f) = is_dir (lookup t f)) /\ tree_ok t'.
  Proof.
    intros Rn. destruct (success path_str M topo TC H heqb heqb_iff hash_im debug_im st to_toml to_json yaml_done style E1 E3 t T R u_orig c p ops l_ok l_typed W t' c1 p1 Rn)
      as (c' & q & Ep & -> & Hh & Hg & Hb & Ho & Sd & T' & Rd & Wk).
    destruct (sort_stored path_str M topo TC H heqb heqb_iff hash_im debug_im st c p ops c' q l_ok W Ep) as (Lq & Ls & P).
    assert (Lc : forall f, (forall a, In a (stored_form (project_sort M H q)) -> im_file a <> f) -> forall a, In a (stored_form q) -> locate (im_file a) <> Some f).
    { intros f N a Ha X. rewrite (locate_plain _ (new_plain c' q Ep a Ha)) in X. apply some_eq in X. apply (N a); auto. now apply (Permutation_in _ (Permutation_sym P)). }
    split; [|split; [exact Ls|split; [|split; [|split; [|split]]]]].
    - intros a Ha. apply (Permutation_in _ P) in Ha. destruct (Hh (new_apart c' q Ep) a Ha) as (l & y & El & Ey & Fl). exists l, y. split; auto. split; auto. rewrite <- Ey. apply text_perm; auto.
    - intros o Fo N. apply Hg; [now apply found_orig|now apply Lc].
    - exact Hb.
    - intros f Nf N B. apply Ho; auto. intros O. apply Nf. now apply orig_found in O.
    - exact Sd.
    - exact T'.
  Qed.
  Theorem origin_found t' c1 p1 : runs t (Ok (inl (c, p))) ops (MDone M H t' (Ok (inl (c1, p1)))) ->
    forall f, file_at t' f = None \/ file_at t' f = file_at t f \/ (exists o, found_file st t o /\ f = backup_of o) \/ (exists a, In a (stored_form p1) /\ im_file a = f).
  Proof.
    intros Rn f. destruct (success_origin path_str M topo TC H heqb heqb_iff hash_im debug_im st to_toml to_json yaml_done style E1 E3 t T R u_orig c p ops l_ok l_typed W t' c1 p1 Rn)
      as (c' & q & Ep & -> & X).
    destruct (sort_stored path_str M topo TC H heqb heqb_iff hash_im debug_im st c p ops c' q l_ok W Ep) as (Lq & Ls & P).
    destruct (X f) as [Y|[Y|[(o & Ho & ->)|(a & Ha & El)]]]; auto.
    - right. right. left. exists o. split; auto. now apply orig_found in Ho.
    - right. right. right. rewrite (locate_plain _ (new_plain c' q Ep a Ha)) in El. apply some_eq in El. exists a. split; auto. now apply (Permutation_in _ (Permutation_sym P)).
  Qed.

  Hypothesis Hy : yaml_ok yaml yaml_done.
  Hypothesis Ct : codec_ok to_toml parse_toml.
  Hypothesis Cj : codec_ok to_json parse_json.
  Variable E : disk_errs.
  Hypothesis Es : forall q, e_stat E q = None.
  Hypothesis Eo : forall q, e_open E q = None.
  Hypothesis Er : forall q, e_read E q = None.
  Hypothesis Ra : roots_apart (se_arts st).
  Hypothesis Wx : forall o a e, In o ops -> stores o a -> In e (se_xarts st) -> ~ below (im_file a) e.

  (** Reading the project again gives the artifacts of the answer. *)
  Theorem reload_found t' c1 p1 : runs t (Ok (inl (c, p))) ops (MDone M H t' (Ok (inl (c1, p1)))) ->
    md_survive prefix style (stored_form p1) ->
    (exists fs, art_files E t' path_str st = map inl fs /\ Forall (fun f => jb_lints (load_file f) = [] /\ jb_panic (load_file f) = false) fs) /\
    forall n' cfs' c2 p2, 0 < n' -> walk_lints_ok cfs' -> loads n' (art_files E t' path_str st) cfs' (Ok (inl (c2, p2))) -> Permutation (stored_form p2) (stored_form p1).
  Proof.
    intros Rn Md. pose proof (loads_prefix _ _ _ _ _ Ld) as Px.
    destruct (success path_str M topo TC H heqb heqb_iff hash_im debug_im st to_toml to_json yaml_done style E1 E3 t T R u_orig c p ops l_ok l_typed W t' c1 p1 Rn)
      as (c' & q & Ep & Eq & _ & _ & _ & _ & _ & _ & _ & Wk).
    destruct (sort_stored path_str M topo TC H heqb heqb_iff hash_im debug_im st c p ops c' q l_ok W Ep) as (Lq & Ls & Ps). rewrite <- Eq in Ls.
    pose proof (reload path_str M topo TC H heqb heqb_iff hash_im debug_im st to_toml to_json yaml_done style E1 E3 yaml Hy parse_toml parse_json Ct Cj parse_msg E Es Eo Er Ra
      t T R u_orig c p ops l_ok (fun a Ha => conj (found_placed st t _ (l_found a Ha)) (conj (l_plain a Ha) (l_typed a Ha))) W
      (fun o a Ho Sa => conj (Wp o a Ho Sa) (fun e He => Wx o a e Ho Sa He)) t' c1 p1 Rn) as Rl.
    rewrite Px in Rl. destruct (Rl Md) as (fs & Ef & Fl & P). split; [eauto|].
    intros n' cfs' c2 p2 N0 Wc' Ld2. destruct (loads_loaded M topo TC H hash_im path_str yaml parse_toml parse_json PO PJ parse_msg prefix settings_path url_error n' _ cfs' c2 p2 (found_walk_ok _ _ _ _ _ _ _ _) Wc' Ld2) as (_ & arts & la & Rn2 & _ & P2).
    assert (K : killers load_file (art_files E t' path_str st) < n').
    { rewrite Ef. assert (X : killers load_file (map inl fs) = 0); [|lia]. clear -Fl. unfold killers. induction Fl as [|f fs [_ Hp] _ IH]; auto. cbn [map filter]. now rewrite Hp. }
    pose proof (arts_run path_str yaml parse_toml parse_json parse_msg prefix n' _ arts la K Rn2) as Q.
    rewrite P2. transitivity (map im_clean (stored_form p1)); [apply Permutation_map; now rewrite Q|]. rewrite (map_ext_in _ (fun a => a)); [now rewrite map_id|]. intros a Ha. now apply (lo_clean hash_im p1 Ls).
  Qed.
End Runs.
