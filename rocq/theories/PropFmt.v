(** Property C66: formatting a project that artifact has written changes nothing.

    [art fmt] (artifact-app/src/fmt.rs:40-46) is the request without operations. *)
From Coq Require Import ZArith Lia Permutation Relation_Operators.
From Verif Require Import Base BaseFacts Regex Name SpecName NameFacts RawNames Artifact Stored SpecGraph Topo SpecLinks LinkFacts Numbers
  Markdown SpecMarkdown MarkdownFacts YamlExample Lint SpecLint Source Pool Load LoadFacts SpecLoad Disk DiskFacts Walk SpecWalk WalkFacts Modify SpecModify SpecReload OpFacts PureFacts
  PhaseFacts ResultFacts CodecExample ReloadFacts DiskRunFacts RootFacts PropArtifacts PropCompleted PropMarkdown PropLint PropLoad PropModify PropDisk.
Open Scope nat_scope.

(** Nothing in the answer says that a backup could not be removed. *)
Definition cleaned_up (c : lints) : Prop := ls_error c = [] /\ forall x, In x (ls_other c) -> li_cat x <> CRemoveBackups.

Lemma stored_nodup {M H} (h : art_im -> H) (p : project M H) : loaded_ok h p -> NoDup (stored_form p).
Proof. intros L. pose proof (lo_distinct h p L) as D. unfold distinct in D. eapply NoDup_map_inv, D. Qed.

Lemma file_dec f (l : list art_im) : (exists a, In a l /\ im_file a = f) \/ forall a, In a l -> im_file a <> f.
Proof.
  induction l as [|a l IH]; [right; intros a []|]. destruct (list_eq_dec (list_eq_dec N.eq_dec) (im_file a) f) as [E|E]; [left; exists a; split; [now left|auto]|].
  destruct IH as [(b & Hb & X)|IH]; [left; exists b; split; [now right|auto]|right]. intros b [<-|Hb]; auto.
Qed.
Lemma root_dec f (l : list path) : (exists r, In r l /\ below f r) \/ forall r, In r l -> ~ below f r.
Proof.
  induction l as [|a l IH]; [right; intros a []|]. destruct (path_prefix f a) eqn:E; [left; exists a; split; [now left|now apply path_prefix_iff]|].
  destruct IH as [(b & Hb & X)|IH]; [left; exists b; split; [now right|auto]|right]. intros b [<-|Hb]; auto. intros X. apply path_prefix_iff in X. congruence.
Qed.
Lemma run_prefix path_str M topo H heqb (hash_im : art_im -> H) debug_im st to_toml to_json yaml_done style E1 E3 t c (p : project M H) ops t1 c1 p1 :
  topo_ok topo -> (forall a b, heqb a b = true <-> a = b) -> loaded_ok hash_im p -> Forall op_wf ops ->
  runs path_str M topo H heqb hash_im debug_im st to_toml to_json yaml_done style E1 E3 t (Ok (inl (c, p))) ops (MDone M H t1 (Ok (inl (c1, p1)))) -> pr_prefix p1 = pr_prefix p.
Proof.
  intros TC HE L W Rn. apply done_project in Rn as (l & c' & q & X & Ep & ->). injection X as <-.
  destruct (pure_accepts path_str M topo TC H heqb HE hash_im debug_im st c p ops c' q L W Ep) as (_ & _ & _ & _ & m & _ & _ & _ & _ & _ & _ & _ & Pq & _). exact Pq.
Qed.

(** A disk that has just been written by a request; it is read, without errors of the file system,
    and formatted. *)
Theorem C66_settled : forall path_str M topo H heqb (hash_im : art_im -> H) debug_im st to_toml to_json yaml_done style
    yaml parse_toml parse_json parse_msg prefix settings_path url_error E0 E1 E3 n lines_of t c p ops t1 c1 p1 E E1' E3' n' lines_of' c2 p2 t2 c3 p3,
  topo_ok topo -> (forall a b, heqb a b = true <-> a = b) -> parser_ok parse_toml -> parser_ok parse_json ->
  yaml_ok yaml yaml_done -> codec_ok to_toml parse_toml -> codec_ok to_json parse_json ->
  safe_disk st t -> safe_disk st t1 -> roots_apart (se_arts st) ->
  (* the project is read *)
  loads path_str yaml parse_toml parse_json parse_msg prefix M topo H hash_im settings_path url_error n (art_files E0 t path_str st) (code_files E0 t lines_of path_str st) (Ok (inl (c, p))) ->
  NoDup (map hash_im (stored_form p)) ->
  (* a request succeeds *)
  Forall op_wf ops -> (forall o a, In o ops -> stores o a -> plain_path (im_file a) /\ forall e, In e (se_xarts st) -> ~ below (im_file a) e) ->
  runs path_str M topo H heqb hash_im debug_im st to_toml to_json yaml_done style E1 E3 t (Ok (inl (c, p))) ops (MDone M H t1 (Ok (inl (c1, p1)))) -> cleaned_up c1 ->
  md_survive prefix style (stored_form p1) ->
  (* the project is read again *)
  (forall q, e_stat E q = None) -> (forall q, e_open E q = None) -> (forall q, e_read E q = None) -> 0 < n' ->
  loads path_str yaml parse_toml parse_json parse_msg prefix M topo H hash_im settings_path url_error n' (art_files E t1 path_str st) (code_files E t1 lines_of' path_str st) (Ok (inl (c2, p2))) ->
  (* and formatted *)
  runs path_str M topo H heqb hash_im debug_im st to_toml to_json yaml_done style E1' E3' t1 (Ok (inl (c2, p2))) [] (MDone M H t2 (Ok (inl (c3, p3)))) -> cleaned_up c3 ->
  Permutation (stored_form p3) (stored_form p1) /\
  (forall f, is_dir (lookup t2 f) = is_dir (lookup t1 f)) /\
  (forall f, (has_extension (s "artbk") f -> forall e, In e (se_xarts st) -> ~ below f e) -> file_at t2 f = file_at t1 f).
Proof.
  intros ps M topo H heqb h db st tt tj yd sy y pt pj pm px sp u E0 E1 E3 n lo t c p ops t1 c1 p1 E E1' E3' n' lo' c2 p2 t2 c3 p3
    TC HE PO PJ Hy Ct Cj Sd0 Sd1 Ra Ld Nh W Wp Rn [Ce Cb] Md Es Eo Er N0 Ld2 Rn2 [Ce3 Cb3].
  assert (Wp' : forall o a, In o ops -> stores o a -> plain_path (im_file a)) by (intros o a Ho Sa; now apply (Wp o a)).
  assert (Wn : forall (o : op H) a, In o [] -> stores o a -> plain_path (im_file a)) by (intros o a []).
  assert (Wf : Forall (@op_wf H) []) by constructor.
  (* the artifacts *)
  destruct (C40_reload ps M topo H heqb h db st tt tj yd sy E1 E3 y pt pj pm px sp u E0 n lo t c p ops t1 c1 p1 E TC HE PO PJ Hy Ct Cj Sd0 Ra Ld W Wp Rn Md Es Eo Er) as [_ P21].
  specialize (P21 n' lo' c2 p2 N0 Ld2).
  pose proof (C35_loaded ps y pt pj pm px M topo H h sp u PO PJ TC _ _ _ _ _ _ _ Ld) as L.
  pose proof (C35_loaded ps y pt pj pm px M topo H h sp u PO PJ TC _ _ _ _ _ _ _ Ld2) as L2.
  destruct (C35_map ps M topo H heqb h db st tt tj yd sy E1 E3 t c p ops t1 c1 p1 TC HE L Nh W Rn) as (N1 & _ & _).
  assert (Nh2 : NoDup (map h (stored_form p2))) by (eapply Permutation_NoDup; [apply Permutation_map, Permutation_sym, P21|exact N1]).
  destruct (C35_map ps M topo H heqb h db st tt tj yd sy E1' E3' t1 c2 p2 [] t2 c3 p3 TC HE L2 Nh2 Wf Rn2) as (_ & D3 & X3).
  destruct Sd0 as [T0 Nm0 R0 U0]. pose proof Sd1 as [T1 Nm1 R1 U1].
  destruct (success_found ps M topo TC H heqb HE h db st tt tj yd sy E1 E3 y pt pj PO PJ pm px sp u t T0 Nm0 R0 U0 c p ops E0 n _ (found_walk_ok _ _ _ _ _ _ _ _) Ld W Wp' t1 c1 p1 Rn)
    as (H1 & L1 & G1 & B1 & O1 & Di1 & _).
  destruct (success_found ps M topo TC H heqb HE h db st tt tj yd sy E1' E3' y pt pj PO PJ pm px sp u t1 T1 Nm1 R1 U1 c2 p2 [] E n' _ (found_walk_ok _ _ _ _ _ _ _ _) Ld2 Wf Wn t2 c3 p3 Rn2)
    as (H3 & L3 & G3 & B3 & O3 & Di3 & _).
  assert (P32 : Permutation (stored_form p3) (stored_form p2)).
  { apply NoDup_Permutation; [eapply stored_nodup; eauto|eapply stored_nodup; eauto|]. intros a. rewrite X3. cbn [map]. split.
    - intros [_ [(l & o & r & X & _)|[_ X]]]; auto. destruct l; discriminate X.
    - intros Ha. split; [intros (o & [] & _)|]. right. split; auto. intros (o & b & [] & _). }
  assert (P31 : Permutation (stored_form p3) (stored_form p1)) by (etransitivity; eauto). split; auto. split; auto.
  (* the texts *)
  assert (Px : pr_prefix p3 = pr_prefix p1).
  { transitivity px; [|symmetry].
    - rewrite <- (loads_prefix ps M topo H h y pt pj pm px sp u _ _ _ _ _ Ld2). exact (run_prefix ps M topo H heqb h db st tt tj yd sy E1' E3' t1 c2 p2 [] t2 c3 p3 TC HE L2 Wf Rn2).
    - rewrite <- (loads_prefix ps M topo H h y pt pj pm px sp u _ _ _ _ _ Ld). exact (run_prefix ps M topo H heqb h db st tt tj yd sy E1 E3 t c p ops t1 c1 p1 TC HE L W Rn). }
  intros f Xf. destruct (file_dec f (stored_form p3)) as [(a & Ha & <-)|Na].
  - assert (Fo : found_file st t1 (im_file a)).
    { apply (l_found ps M topo TC H h st y pt pj PO PJ pm px sp u t1 T1 R1 c2 p2 E n' _ (found_walk_ok _ _ _ _ _ _ _ _) Ld2). now apply (Permutation_in _ P32). }
    destruct (found_exists st t1 _ Fo) as [z Lz]. pose proof (locate_plain _ (Nm1 _ _ Lz)) as Lc.
    apply (C41_rewritten M H h tt tj yd sy t2 t1 p3 p1 L1 P31 Px H3 H1 a (im_file a)); auto. now apply (Permutation_in _ P31).
  - assert (Na1 : forall a, In a (stored_form p1) -> im_file a <> f) by (intros a Ha; apply Na; now apply (Permutation_in _ (Permutation_sym P31))).
    assert (Nf : ~ found_file st t1 f).
    { intros Fo. destruct (found_exists st t1 _ Fo) as [z Lz]. pose proof (typed_backup f (found_typed st t1 f Fo)) as Bf.
      assert (F1 : file_at t1 f = Some z) by (unfold file_at; now rewrite Lz).
      assert (Nt : ~ found_file st t f) by (intros Ft; rewrite (G1 f Ft Na1) in F1; discriminate F1).
      apply Nt. rewrite (O1 f Nt Na1 (or_introl Bf)) in F1. destruct Fo as (r & Hr & (x & w & -> & Nx & _ & Ex) & K). exists r. split; auto. split; auto.
      exists x, z. split; auto. split; auto. split; auto. unfold file_at in F1. destruct (lookup t (r ++ x)) as [[v|l]|]; try discriminate F1. now injection F1 as ->. }
    destruct (is_backup f) eqn:Bf; [|now apply O3; auto]. pose proof (proj1 (is_backup_iff f) Bf) as Hx. specialize (Xf Hx).
    destruct (root_dec f (se_arts st)) as [(r & Hr & Br)|Nr]; [|apply O3; auto].
    assert (K : forall t', file_at t' r = None -> (forall r f, In r (se_arts st) -> reachable t' (se_xarts st) r f -> is_backup f = false) -> file_at t' f = None).
    { intros t' Rt Bt. destruct (file_at t' f) as [z|] eqn:F; auto. exfalso. destruct Br as [x ->]. assert (Nx : x <> []) by (intros ->; rewrite app_nil_r in F; congruence).
      rewrite (Bt r (r ++ x) Hr) in Bf; [discriminate Bf|]. exists x, z. split; auto. split; auto. split.
      - unfold file_at in F. destruct (lookup t' (r ++ x)) as [[v|l]|]; try discriminate F. now injection F as ->.
      - intros a b -> Hin. apply (Xf (r ++ a) Hin). exists b. now rewrite app_assoc. }
    destruct (is_dir (Some t1)) eqn:Dt.
    2: { pose proof (Di3 []) as D0. cbn [lookup] in D0. rewrite Dt in D0. assert (f <> []) by (intros ->; discriminate Bf).
         destruct t1 as [z1|l1]; [|discriminate Dt]. destruct t2 as [z2|l2]; [|discriminate D0]. destruct f; [contradiction|reflexivity]. }
    rewrite (K t1 (R1 r Hr) (B1 Ce Cb)), (K t2); [reflexivity| |exact (B3 Ce3 Cb3)].
    apply (C41_file_roots ps M topo H heqb h db st tt tj yd sy E1' E3' t1 (Ok (inl (c2, p2))) [] t2 c3 p3); auto.
Qed.
Print Assumptions C66_settled.

(** Formatting keeps the disk safe: it makes no files of artifacts, and no names. *)
Lemma long_down x : goes_down (x ++ s ".artbk") = true.
Proof.
  assert (K : forall y, length (x ++ s ".artbk") <> length y -> str_eqb (x ++ s ".artbk") y = false).
  { intros y N. destruct (str_eqb (x ++ s ".artbk") y) eqn:X; auto. apply str_eqb_eq in X. congruence. }
  unfold goes_down. rewrite (K (s ".")), (K (s "..")); try (rewrite app_length; cbn; lia). destruct x; reflexivity.
Qed.
Lemma backup_plain o : typed o -> plain_path o -> plain_path (backup_of o).
Proof.
  intros T P. destruct (backup_spec o T) as (d & x & e & -> & _ & _ & ->). unfold plain_path in *. apply Forall_app in P as [P _]. apply Forall_app. split; auto.
  constructor; auto. apply long_down.
Qed.
Lemma file_at_some t f z : file_at t f = Some z -> lookup t f = Some (NFile z).
Proof. unfold file_at. destruct (lookup t f) as [[v|l]|]; try discriminate. now intros [= ->]. Qed.
Lemma safe_fmt : forall path_str M topo H heqb (hash_im : art_im -> H) debug_im st to_toml to_json yaml_done style
    yaml parse_toml parse_json parse_msg prefix settings_path url_error E0 E1 E3 n lines_of t c p t1 c1 p1,
  topo_ok topo -> (forall a b, heqb a b = true <-> a = b) -> parser_ok parse_toml -> parser_ok parse_json -> safe_disk st t ->
  loads path_str yaml parse_toml parse_json parse_msg prefix M topo H hash_im settings_path url_error n (art_files E0 t path_str st) (code_files E0 t lines_of path_str st) (Ok (inl (c, p))) ->
  NoDup (map hash_im (stored_form p)) ->
  runs path_str M topo H heqb hash_im debug_im st to_toml to_json yaml_done style E1 E3 t (Ok (inl (c, p))) [] (MDone M H t1 (Ok (inl (c1, p1)))) -> cleaned_up c1 ->
  Permutation (stored_form p1) (stored_form p) /\ safe_disk st t1.
Proof.
  intros ps M topo H heqb h db st tt tj yd sy y pt pj pm px sp u E0 E1 E3 n lo t c p t1 c1 p1 TC HE PO PJ [T Nm R U] Ld Nh Rn [Ce Cb].
  assert (Wn : forall (o : op H) a, In o [] -> stores o a -> plain_path (im_file a)) by (intros o a []).
  assert (Wf : Forall (@op_wf H) []) by constructor.
  pose proof (C35_loaded ps y pt pj pm px M topo H h sp u PO PJ TC _ _ _ _ _ _ _ Ld) as L.
  destruct (success_found ps M topo TC H heqb HE h db st tt tj yd sy E1 E3 y pt pj PO PJ pm px sp u t T Nm R U c p [] E0 n _ (found_walk_ok _ _ _ _ _ _ _ _) Ld Wf Wn t1 c1 p1 Rn)
    as (H1 & L1 & G1 & B1 & O1 & Di1 & T1).
  pose proof (origin_found ps M topo TC H heqb HE h db st tt tj yd sy E1 E3 y pt pj PO PJ pm px sp u t T Nm R U c p [] E0 n _ (found_walk_ok _ _ _ _ _ _ _ _) Ld Wf Wn t1 c1 p1 Rn) as Or.
  destruct (C35_map ps M topo H heqb h db st tt tj yd sy E1 E3 t c p [] t1 c1 p1 TC HE L Nh Wf Rn) as (_ & D1 & X1).
  assert (P : Permutation (stored_form p1) (stored_form p)).
  { apply NoDup_Permutation; [eapply stored_nodup; eauto|eapply stored_nodup; eauto|]. intros a. rewrite X1. cbn [map]. split.
    - intros [_ [(l & o & r & X & _)|[_ X]]]; auto. destruct l; discriminate X.
    - intros Ha. split; [intros (o & [] & _)|]. right. split; auto. intros (o & b & [] & _). }
  assert (Fa : forall a, In a (stored_form p1) -> found_file st t (im_file a)).
  { intros a Ha. apply (l_found ps M topo TC H h st y pt pj PO PJ pm px sp u t T R c p E0 n _ (found_walk_ok _ _ _ _ _ _ _ _) Ld). now apply (Permutation_in _ P). }
  assert (Fp : forall o, found_file st t o -> plain_path o) by (intros o Fo; destruct (found_exists st t _ Fo) as [z Lz]; exact (Nm _ _ Lz)).
  assert (Ff : forall q, found_file st t1 q -> found_file st t q).
  { intros q Fq. pose proof (found_typed st t1 q Fq) as Ty. destruct Fq as (r & Hr & (x & w & -> & Nx & Lk & Ex) & K).
    assert (Fw : file_at t1 (r ++ x) = Some w) by (unfold file_at; now rewrite Lk).
    destruct (Or (r ++ x)) as [Y|[Y|[(o & Fo & Y)|(a & Ha & <-)]]].
    - congruence.
    - rewrite Y in Fw. exists r. split; auto. split; auto. exists x, w. split; auto. split; auto. split; auto. now apply file_at_some.
    - exfalso. exact (backup_typed o (r ++ x) (found_typed st t o Fo) Ty (eq_sym Y)).
    - now apply Fa. }
  split; auto. constructor; auto.
  - intros f m Lf. destruct m as [z|l].
    + assert (Fz : file_at t1 f = Some z) by (unfold file_at; now rewrite Lf).
      destruct (Or f) as [Y|[Y|[(o & Fo & ->)|(a & Ha & <-)]]]; [congruence| | |].
      * rewrite Y in Fz. apply file_at_some in Fz. eapply Nm; eauto.
      * apply backup_plain; auto. eapply found_typed; eauto.
      * auto.
    + pose proof (Di1 f) as Df. rewrite Lf in Df. cbn [is_dir] in Df. destruct (lookup t f) as [v|] eqn:Lv; [eapply Nm; eauto|discriminate Df].
  - destruct (is_dir (Some t)) eqn:Dt.
    + exact (C41_file_roots ps M topo H heqb h db st tt tj yd sy E1 E3 t (Ok (inl (c, p))) [] t1 c1 p1 T Dt Rn Cb).
    + intros r Hr. pose proof (R r Hr) as X. pose proof (Di1 []) as D0. cbn [lookup] in D0. rewrite Dt in D0. destruct t as [z|l]; [|discriminate Dt]. destruct t1 as [z1|l1]; [|discriminate D0].
      destruct r; [discriminate X|reflexivity].
Qed.

(** Formatting twice: the second time no file changes, and no artifact ever does. *)
Theorem C66_fmt_twice : forall path_str M topo H heqb (hash_im : art_im -> H) debug_im st to_toml to_json yaml_done style
    yaml parse_toml parse_json parse_msg prefix settings_path url_error E0 E1 E3 n lines_of t c p t1 c1 p1 E E1' E3' n' lines_of' c2 p2 t2 c3 p3,
  topo_ok topo -> (forall a b, heqb a b = true <-> a = b) -> parser_ok parse_toml -> parser_ok parse_json ->
  yaml_ok yaml yaml_done -> codec_ok to_toml parse_toml -> codec_ok to_json parse_json ->
  safe_disk st t -> roots_apart (se_arts st) ->
  loads path_str yaml parse_toml parse_json parse_msg prefix M topo H hash_im settings_path url_error n (art_files E0 t path_str st) (code_files E0 t lines_of path_str st) (Ok (inl (c, p))) ->
  NoDup (map hash_im (stored_form p)) ->
  runs path_str M topo H heqb hash_im debug_im st to_toml to_json yaml_done style E1 E3 t (Ok (inl (c, p))) [] (MDone M H t1 (Ok (inl (c1, p1)))) -> cleaned_up c1 ->
  md_survive prefix style (stored_form p) ->
  (forall q, e_stat E q = None) -> (forall q, e_open E q = None) -> (forall q, e_read E q = None) -> 0 < n' ->
  loads path_str yaml parse_toml parse_json parse_msg prefix M topo H hash_im settings_path url_error n' (art_files E t1 path_str st) (code_files E t1 lines_of' path_str st) (Ok (inl (c2, p2))) ->
  runs path_str M topo H heqb hash_im debug_im st to_toml to_json yaml_done style E1' E3' t1 (Ok (inl (c2, p2))) [] (MDone M H t2 (Ok (inl (c3, p3)))) -> cleaned_up c3 ->
  Permutation (stored_form p1) (stored_form p) /\ Permutation (stored_form p2) (stored_form p) /\ Permutation (stored_form p3) (stored_form p) /\
  (forall f, is_dir (lookup t2 f) = is_dir (lookup t1 f)) /\
  (forall f, (has_extension (s "artbk") f -> forall e, In e (se_xarts st) -> ~ below f e) -> file_at t2 f = file_at t1 f).
Proof.
  intros ps M topo H heqb h db st tt tj yd sy y pt pj pm px sp u E0 E1 E3 n lo t c p t1 c1 p1 E E1' E3' n' lo' c2 p2 t2 c3 p3
    TC HE PO PJ Hy Ct Cj Sd Ra Ld Nh Rn Cl Md Es Eo Er N0 Ld2 Rn2 Cl3.
  destruct (safe_fmt ps M topo H heqb h db st tt tj yd sy y pt pj pm px sp u E0 E1 E3 n lo t c p t1 c1 p1 TC HE PO PJ Sd Ld Nh Rn Cl) as [P1 Sd1].
  assert (Wf : Forall (@op_wf H) []) by constructor.
  assert (Wn : forall (o : op H) a, In o [] -> stores o a -> plain_path (im_file a) /\ forall e, In e (se_xarts st) -> ~ below (im_file a) e) by (intros o a []).
  assert (Md1 : md_survive px sy (stored_form p1)) by (eapply md_survive_perm; [apply Permutation_sym, P1|exact Md]).
  destruct (C66_settled ps M topo H heqb h db st tt tj yd sy y pt pj pm px sp u E0 E1 E3 n lo t c p [] t1 c1 p1 E E1' E3' n' lo' c2 p2 t2 c3 p3
    TC HE PO PJ Hy Ct Cj Sd Sd1 Ra Ld Nh Wf Wn Rn Cl Md1 Es Eo Er N0 Ld2 Rn2 Cl3) as (P3 & D & F).
  destruct (C40_reload ps M topo H heqb h db st tt tj yd sy E1 E3 y pt pj pm px sp u E0 n lo t c p [] t1 c1 p1 E TC HE PO PJ Hy Ct Cj Sd Ra Ld Wf Wn Rn Md1 Es Eo Er) as [_ P21].
  specialize (P21 n' lo' c2 p2 N0 Ld2). repeat split; auto; etransitivity; eauto.
Qed.
Print Assumptions C66_fmt_twice.

(** The notes of [m_notes] are gone after the first [art fmt]; the second changes nothing. The first
    really changes the disk. *)
Definition m_once := fst (m_mod m_st m_notes []).
Definition m_twice := fst (m_mod m_st m_once []).
Definition m_clean (r : result exact_num str) : bool := match r with Ok (inl (c, _)) => is_nil (ls_error c) && is_nil (ls_other c) | _ => false end.
Example C66_example :
  safe_disk m_st m_notes /\ m_clean (snd (m_mod m_st m_notes [])) = true /\ m_clean (snd (m_mod m_st m_once [])) = true /\
  m_out (m_mod m_st m_notes []) = (None, [req_a]) /\ m_out (m_mod m_st m_once []) = (None, [req_a]) /\
  file_at m_notes (in_file (s "a.md")) <> file_at m_once (in_file (s "a.md")) /\ map (fun f => (f, file_at m_twice f)) (all_files m_twice) = map (fun f => (f, file_at m_once f)) (all_files m_once).
Proof. split; [apply safe_b_ok; vm_compute; reflexivity|]. vm_compute. repeat split. discriminate. Qed.
