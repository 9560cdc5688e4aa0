(** When a modify request can succeed. *)
From Coq Require Import Permutation Relation_Operators ListDec Lia.
From Verif Require Import Base BaseFacts Name NameFacts RawNames Artifact SpecGraph SpecLinks Stored Markdown SpecMarkdown MarkdownFacts Lint LintFacts LintThms Source JoinFacts
  Pool Load SpecLoad LoadFacts Disk DiskFacts Walk SpecWalk WalkFacts Modify SpecModify OpFacts PureFacts PhaseFacts RunFacts ReloadFacts ResultFacts DiskRunFacts SpecOutcome OutcomeFacts.

Lemma parent_backup o : typed o -> parent (backup_of o) = parent o.
Proof. intros T. destruct (backup_spec o T) as (d & x & e & -> & _ & _ & ->). unfold parent. now rewrite !removelast_last. Qed.

Section Possible.
  Variable path_str : path -> str.
  Variable M : num.
  Variable topo : graph -> option (list nat).
  Variable TC : topo_ok topo.
  Variable H : Type.
  Variable heqb : H -> H -> bool.
  Variable heqb_iff : forall a b, heqb a b = true <-> a = b.
  Variable hash_im : art_im -> H.
  Variable debug_im : art_im -> str.
  Variable st : settings.
  Variables to_toml to_json : list (name * art_raw) -> str.
  Variable yaml_done : str -> str.
  Variable style : md_attrs.
  Variables E1 E3 : disk_errs.
  Variable yaml : str -> option (option str * option names_val).
  Variables parse_toml parse_json : str -> res (list (name * art_raw)).
  Hypothesis PO : parser_ok parse_toml.
  Hypothesis PJ : parser_ok parse_json.
  Variable parse_msg : path -> str -> str.
  Variable prefix : list char.
  Variable settings_path : path.
  Variable url_error : option str.

  Notation runs := (runs path_str M topo H heqb hash_im debug_im st to_toml to_json yaml_done style E1 E3).
  Notation pure := (modify_pure path_str M topo H heqb hash_im debug_im st).
  Notation loads := (loads path_str yaml parse_toml parse_json parse_msg prefix M topo H hash_im settings_path url_error).
  Notation mstep := (mstep path_str M H st to_toml to_json yaml_done style E3).
  Notation steps := (clos_refl_trans_1n _ mstep).
  Notation save_jobs := (save_jobs M H to_toml to_json yaml_done style).

  Variable t : node.
  Hypothesis T : tree_ok t.
  Hypothesis Nm : tree_names t.
  Hypothesis R : forall r, In r (se_arts st) -> file_at t r = None.
  Hypothesis U : forall q q', found_file st t q -> found_file st t q' -> twins q q' -> q = q'.
  Notation orig := (PhaseFacts.orig path_str st E1 t).
  Notation inv_b := (inv_b path_str st E1 t).
  Notation inv_s := (inv_s path_str M H st to_toml to_json yaml_done style E1 t).

  Lemma orig_uniq q q' : orig q -> orig q' -> backup_of q = backup_of q' -> q = q'.
  Proof.
    intros O O' E. apply orig_found in O; auto. apply orig_found in O'; auto. apply U; auto. apply backup_twins; auto; eapply found_typed; eauto.
  Qed.

  Lemma backups_possible c q todo : forall t', inv_b t' (map inl todo) [] ->
    (forall o, In o todo -> is_dir (lookup t (backup_of o)) = false) ->
    exists t'', steps (MBackup M H t' c q (map inl todo) []) (MBackup M H t'' c q [] []) /\ inv_b t'' [] [].
  Proof.
    induction todo as [|o todo IH]; intros t' I Bo; [exists t'; split; [constructor|exact I]|].
    assert (O : orig o) by (apply (ib_todo _ _ _ _ _ _ _ I); now left). destruct (orig_ok path_str st E1 t T R o O) as [To [y Fy]].
    destruct (ib_each _ _ _ _ _ _ _ I o O) as [[F _]|[[F _] _]].
    { (* found a second time, after it was renamed *)
      pose proof (gone_orig path_str st E1 t T R t' o (map inl todo) [] [] I F) as I1. destruct (IH t' I1) as (t'' & S & I'); [intros o' Ho'; apply Bo; now right|].
      exists t''. split; auto. eapply rt1n_trans; [apply b_gone|exact S].
      - pose proof (ib_dirs _ _ _ _ _ _ _ I o) as D. unfold file_at in F, Fy. destruct (lookup t' o) as [[z|l]|]; [discriminate F| |reflexivity]. destruct (lookup t o) as [[z|l']|]; discriminate.
      - intros Hr. rewrite (R o Hr) in Fy. discriminate Fy. }
    rewrite Fy in F.
    assert (exists t1, fs_rename t' o (backup_of o) = Some t1) as [t1 E].
    { unfold fs_rename. pose proof (root_dir t' (ib_tree _ _ _ _ _ _ _ I) o y F (typed_nonempty o To)) as Pd. unfold file_at in F. destruct (lookup t' o) as [[z|l]|]; try discriminate F.
      rewrite (parent_backup o To), Pd, (ib_dirs _ _ _ _ _ _ _ I (backup_of o)), (Bo o (or_introl eq_refl)). cbn [orb negb]. eauto. }
    pose proof (rename_orig path_str st E1 t T R orig_uniq t' (map inl (o :: todo)) (map inl todo) [] o t1 I) as I1. cbn [map] in I1.
    specialize (I1 ltac:(intros i [<-|Hi]; auto) ltac:(intros i Hi; now right) ltac:(now left) E).
    destruct (IH t1) as (t'' & S & I'); auto.
    - intros o' Ho'. apply Bo. now right.
    - exists t''. split; auto. eapply rt1n_trans; [apply b_ok; exact E|exact S].
  Qed.

  Lemma saves_possible c q todo : (forall f x, In (f, x) (save_jobs q) -> typed f) -> forall t', inv_s q t' ->
    (forall f x, In (f, x) todo -> In (f, x) (save_jobs q) /\ (exists y, x = Ok y) /\ locate f = Some f /\ f <> [] /\ is_dir (lookup t f) = false /\ is_dir (lookup t (parent f)) = true) ->
    exists t'', steps (MSave M H t' c q todo []) (MSave M H t'' c q [] []) /\ inv_s q t''.
  Proof.
    intros Jt. induction todo as [|[f x] todo IH]; intros t' I Hj; [exists t'; split; [constructor|exact I]|].
    destruct (Hj f x (or_introl eq_refl)) as (Hin & (y & ->) & El & Nf & D1 & D2).
    assert (exists t1, fs_write t' f y = Some t1) as [t1 E].
    { unfold fs_write. destruct f as [|z f]; [contradiction|]. pose proof (is_dirs _ _ _ _ _ _ _ _ _ _ _ _ I (z :: f)) as S1. pose proof (is_dirs _ _ _ _ _ _ _ _ _ _ _ _ I (parent (z :: f))) as S2.
      rewrite S1, S2, D1, D2. cbn [orb negb]. eauto. }
    destruct (write_inv path_str M H st to_toml to_json yaml_done style E1 t T R q Jt t' f y t1 I) as (I1 & _); auto; [exists f, (Ok y); auto|].
    destruct (IH t1 I1) as (t'' & S & I'); [intros f' x' Hx; apply Hj; now right|]. exists t''. split; auto. eapply rt1n_trans; [eapply s_ok; eauto|exact S].
  Qed.
  Lemma removes_possible q todo : forall t' c got, exists t'' c1, steps (MRemove M H t' c q todo got) (MDone M H t'' (Ok (inl (c1, project_sort M H q)))).
  Proof.
    induction todo as [|[f|x] todo IH]; intros t' c got.
    - do 2 eexists. eapply rt1n_trans; [apply r_end|constructor].
    - destruct (IH t' c (got ++ [phase_lint path_str LWarn CRemoveBackups f (s "failed")])) as (t'' & c1 & S). exists t'', c1. eapply rt1n_trans; [eapply r_fail; now left|exact S].
    - destruct (IH t' c (got ++ [x])) as (t'' & c1 & S). exists t'', c1. eapply rt1n_trans; [apply r_lint|exact S].
  Qed.

  (** Walking without errors. *)
  Hypothesis Es : forall q, e_stat E1 q = None.
  Hypothesis Eo : forall q, e_open E1 q = None.
  Lemma back_up_eq : roots_dir st t -> to_back_up path_str st E1 t = map inl (files st E1 t).
  Proof.
    unfold roots_dir, to_back_up, walk_paths, files. clear R U. generalize (se_arts st) as l. induction l as [|r l IH]; intros Rd; auto. cbn [flat_map]. rewrite map_app. rewrite IH by (intros r' Hr'; apply Rd; now right). f_equal.
    assert (X : snd (walk_path (e_stat E1) (e_open E1) (e_none E1) (art_filter (se_xarts st)) t r) = None).
    { unfold walk_path. specialize (Rd r (or_introl eq_refl)). destruct (lookup t r) as [[y|k]|]; try discriminate Rd. apply walk_no_error; auto. }
    destruct (walk_path (e_stat E1) (e_open E1) (e_none E1) (art_filter (se_xarts st)) t r) as [fs [m|]]; [discriminate X|]. cbn [fst]. now rewrite app_nil_r.
  Qed.

  Variables (c : lints) (p : project M H) (ops : list (op H)).
  Variables (E0 : disk_errs) (n : nat) (cfs : list (code_file + lint)).
  Hypothesis Wc : walk_lints_ok cfs.
  Hypothesis Ld : loads n (art_files E0 t path_str st) cfs (Ok (inl (c, p))).
  Hypothesis W : Forall op_wf ops.
  Hypothesis Wp : forall o a, In o ops -> stores o a -> plain_path (im_file a).
  Variables (c' : lints) (q : project M H).
  Hypothesis Ep : pure (inl (c, p)) ops = Ok (inr (c', q)).

  Let Lk : loaded_ok hash_im p := l_ok path_str M topo TC H hash_im st yaml parse_toml parse_json PO PJ parse_msg prefix settings_path url_error t c p E0 n cfs Wc Ld.
  Let Lt : forall a, In a (stored_form p) -> typed (im_file a) := l_typed path_str M topo TC H hash_im st yaml parse_toml parse_json PO PJ parse_msg prefix settings_path url_error t T R c p E0 n cfs Wc Ld.
  Let Np : forall a, In a (stored_form q) -> plain_path (im_file a) :=
    new_plain path_str M topo TC H heqb heqb_iff hash_im debug_im st yaml parse_toml parse_json PO PJ parse_msg prefix settings_path url_error t T Nm R c p ops E0 n cfs Wc Ld W Wp c' q Ep.
  Let Nt : forall a, In a (stored_form q) -> typed (im_file a) := new_typed path_str M topo TC H heqb heqb_iff hash_im debug_im st c p ops Lk Lt W c' q Ep.
  Let Nn := proj2 (new_names path_str M topo TC H heqb heqb_iff hash_im debug_im st c p ops Lk W c' q Ep).
  Let Nj : forall f x, In (f, x) (save_jobs q) -> typed f.
  Proof. intros f x Hf. apply job_file in Hf as (a & Ha & <-). now apply Nt. Qed.

  Theorem possible_if :
    (forall r, In r (se_arts st) -> is_dir (lookup t r) = true) ->
    (forall o, found_file st t o -> is_dir (lookup t (backup_of o)) = false) ->
    (forall a, In a (stored_form q) -> is_dir (lookup t (im_file a)) = false /\ is_dir (lookup t (parent (im_file a))) = true) ->
    exists t' c1 p1, runs t (Ok (inl (c, p))) ops (MDone M H t' (Ok (inl (c1, p1)))).
  Proof.
    intros Rd Bd Fd. pose proof (back_up_eq Rd) as Eq.
    destruct (backups_possible c' q (files st E1 t) t) as (t1 & S1 & I1); auto.
    - rewrite <- Eq. apply (inv_start path_str M H st to_toml to_json yaml_done style E1 E3 t T q c' (to_back_up path_str st E1 t) (Permutation_refl _)).
    - intros o Ho. apply Bd. apply files_in in Ho; auto.
    - assert (Ec : ls_error c' = []) by (pose proof (pure_why path_str M topo H heqb hash_im debug_im st (inl (c, p)) ops) as X; rewrite Ep in X; exact X).
      assert (Ec1 : ls_error (categorize c' []) = []) by (rewrite categorize_ok; cbn [ls_error filter]; now rewrite app_nil_r).
      pose proof (b_end_inv path_str M H st to_toml to_json yaml_done style E1 t q t1 c' [] I1 Ec1) as Is1.
      destruct (saves_possible (categorize c' []) q (save_jobs q) Nj t1 Is1) as (t2 & S2 & I2).
      { intros f x Hf. split; auto. split; [eapply text_total; eauto|]. pose proof (Nj f x Hf) as Tf. apply job_file in Hf as (a & Ha & <-). split; [apply locate_plain; now apply Np|].
        split; [now apply typed_nonempty|]. now apply Fd. }
      destruct (removes_possible q (to_remove path_str st E3 t2) t2 (categorize (categorize c' []) []) []) as (t3 & c1 & S3).
      exists t3, c1, (project_sort M H q). exists (MBackup M H t c' q (map inl (files st E1 t)) []). split.
      { unfold begins. cbn [res_bind]. rewrite Ep. exists (map inl (files st E1 t)). split; [rewrite Eq; apply Permutation_refl|reflexivity]. }
      eapply steps_app; [exact S1|]. eapply rt1n_trans; [apply b_end; [exact Ec1|apply Permutation_refl]|]. eapply steps_app; [exact S2|].
      eapply rt1n_trans; [apply s_end; [|apply Permutation_refl]|exact S3]. rewrite categorize_ok. cbn [ls_error filter]. now rewrite app_nil_r.
  Qed.

  Theorem possible_only t' c1 p1 : runs t (Ok (inl (c, p))) ops (MDone M H t' (Ok (inl (c1, p1)))) ->
    (forall r, In r (se_arts st) -> is_dir (lookup t r) = true) /\
    (forall o, found_file st t o -> is_dir (lookup t (backup_of o)) = false) /\
    (forall a, In a (stored_form q) -> is_dir (lookup t (im_file a)) = false /\ is_dir (lookup t (parent (im_file a))) = true).
  Proof.
    intros Rn. destruct (run_inv path_str M topo TC H heqb heqb_iff hash_im debug_im st to_toml to_json yaml_done style E1 E3 t T R orig_uniq c p ops Lk Lt W _ Rn) as [(r & X & Y)|(c2 & q2 & Ep2 & I)].
    { exfalso. injection X as _ X. now apply (Y (c1, p1)). }
    rewrite Ep in Ep2. injection Ep2 as <- <-. cbn [PhaseFacts.inv] in I. destruct I as (_ & t3 & c0 & got & (Is & [Rd Wk] & Wr) & _ & _ & _).
    pose proof (is_dirs _ _ _ _ _ _ _ _ _ _ _ _ Is) as Sd.
    assert (Fl : forall f y, file_at t3 f = Some y -> is_dir (lookup t f) = false).
    { intros f y F. rewrite <- Sd. unfold file_at in F. destruct (lookup t3 f) as [[z|l]|]; try discriminate F. reflexivity. }
    assert (Rt : roots_dir st t) by (intros r Hr; rewrite <- Sd; now apply Rd).
    split; [exact Rt|split].
    - intros o Fo. pose proof (found_orig path_str st t T R E1 o Wk Fo) as O. destruct (orig_ok path_str st E1 t T R o O) as [_ [y Fy]]. apply (Fl _ y). rewrite (is_bks _ _ _ _ _ _ _ _ _ _ _ _ Is o O). exact Fy.
    - intros a Ha. assert (J : exists x, In (im_file a, x) (save_jobs q)) by (eexists; apply save_exact; [exact Nn|split; [eauto|reflexivity]]). destruct J as [x J].
      destruct (Wr) with (j := (im_file a, x)) as (l & El & _ & F); auto.
      { intros f1 x1 f2 x2 l H1 H2 L1 L2. apply job_file in H1 as (a1 & A1 & <-). apply job_file in H2 as (a2 & A2 & <-). rewrite locate_plain in L1 by now apply Np. rewrite locate_plain in L2 by now apply Np. congruence. }
      cbn [fst] in El. rewrite locate_plain in El by now apply Np. apply some_eq in El as <-. destruct (file_at t3 (im_file a)) as [y|] eqn:F3; [|contradiction]. split; [eapply Fl; eauto|].
      rewrite <- Sd. eapply root_dir; [apply (is_tree _ _ _ _ _ _ _ _ _ _ _ _ Is)|exact F3|]. now apply typed_nonempty, Nt.
  Qed.
End Possible.
