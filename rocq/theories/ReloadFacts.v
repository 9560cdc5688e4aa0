(** Reading the project again after a successful [modify_project]. *)
From Coq Require Import Permutation Sorted Relation_Operators Lia ZifyBool.
From Verif Require Import Base BaseFacts Name NameFacts RawNames RawNamesFacts Artifact SpecGraph SpecLinks LinkFacts ProjectFacts Stored Markdown SpecMarkdown MarkdownFacts Lint LintFacts LintThms Source JoinFacts
  Pool Load SpecLoad LoadFacts SpecMdExact MarkdownExact SpecReload DeterFacts ReadThms CheckFacts Disk DiskFacts Walk SpecWalk WalkFacts Modify SpecModify OpFacts PureFacts PhaseFacts RunFacts.

Lemma insert_map {A B} (g : A -> B) la lb (E : forall x y, lb (g x) (g y) = la x y) x l : insert_sorted lb (g x) (map g l) = map g (insert_sorted la x l).
Proof. induction l as [|y l IH]; cbn [map insert_sorted]; auto. rewrite E. destruct (la x y); cbn [map]; auto. now rewrite IH. Qed.
Lemma isort_map {A B} (g : A -> B) la lb (E : forall x y, lb (g x) (g y) = la x y) l : isort lb (map g l) = map g (isort la l).
Proof. induction l as [|x l IH]; cbn [map isort]; auto. rewrite IH. now apply insert_map. Qed.

Definition im_leb (a b : art_im) : bool := name_leb (im_name a) (im_name b).
Lemma sort_raws l : im_sort name_leb (map raw_entry l) = map raw_entry (isort im_leb l).
Proof. unfold im_sort. apply isort_map. reflexivity. Qed.

Lemma split_files (fs : list path) : NoDup fs -> forall l : list art_im, (forall a, In a l -> In (im_file a) fs) -> Permutation (flat_map (fun f => arts_in f l) fs) l.
Proof.
  induction fs as [|f fs IH]; intros N l Hl; cbn [flat_map].
  - destruct l as [|a l]; auto. destruct (Hl a (or_introl eq_refl)).
  - inversion N as [|? ? Nf N']; subst. set (rest := filter (fun a => negb (path_eqb (im_file a) f)) l).
    assert (P : Permutation (arts_in f l ++ rest) l).
    { unfold arts_in, rest. clear. induction l as [|a l IH]; cbn [filter]; auto. destruct (path_eqb (im_file a) f); cbn [negb app]; [now constructor|]. rewrite <- Permutation_middle. now constructor. }
    transitivity (arts_in f l ++ rest); [|exact P]. apply Permutation_app_head. transitivity (flat_map (fun f => arts_in f rest) fs); [|apply (IH N' rest)].
    + assert (E : forall f', In f' fs -> arts_in f' (arts_in f l ++ rest) = arts_in f' rest); [|].
      { intros f' Hf'. unfold arts_in. rewrite filter_app. rewrite (filter_none _ (filter (fun a => path_eqb (im_file a) f) l)); auto. apply Forall_forall. intros a Ha. apply filter_In in Ha as [_ Ha]. apply path_eqb_iff in Ha as ->.
        destruct (path_eqb f f') eqn:X; auto. apply path_eqb_iff in X as <-. contradiction. }
      assert (E2 : forall f', In f' fs -> Permutation (arts_in f' l) (arts_in f' rest)).
      { intros f' Hf'. rewrite <- (E f' Hf'). unfold arts_in. now apply filter_perm, Permutation_sym. }
      clear -E2. induction fs as [|g fs IH]; cbn [flat_map]; auto. apply Permutation_app; [apply E2; now left|apply IH; intros f' Hf'; apply E2; now right].
    + intros a Ha. apply filter_In in Ha as [Ha X]. destruct (Hl a Ha) as [Ef|Hf]; auto. subst f. rewrite (proj2 (path_eqb_iff (im_file a) (im_file a)) eq_refl) in X. discriminate X.
Qed.

Lemma md_survive_quiet prefix style l : prefix_ok (plain_style style) prefix -> (forall x, style = CodeBlock (Some x) -> ~ In 10%N x) ->
  Forall (fun a => quiet_text prefix (im_text a)) l -> md_survive prefix style l.
Proof.
  intros P S Q f _ _. split; auto. split; auto. intros k Hk _ _ l1 a l2 E. left. intros x Hx. rewrite Forall_forall in Q.
  assert (Ha : In a k) by (rewrite E; apply in_or_app; right; now left). apply Hk in Ha as [Ha _]. destruct (Q a Ha x Hx) as [(_ & _ & T) C]. now split.
Qed.
Lemma md_survive_perm prefix style l l' : Permutation l l' -> md_survive prefix style l -> md_survive prefix style l'.
Proof.
  intros P S f Tf (a & Ha & Ea). destruct (S f Tf) as (S1 & S2 & S3); [exists a; split; auto; now apply (Permutation_in _ (Permutation_sym P))|].
  split; auto. split; auto. intros k Hk. apply S3. intros b. rewrite Hk. split; intros [X Y]; (split; [|auto]); [now apply (Permutation_in _ (Permutation_sym P))|now apply (Permutation_in _ P)].
Qed.

(** Where artifact files are looked for: below a configured directory, not excluded. *)
Definition placed (st : settings) (f : path) : Prop :=
  exists r x, In r (se_arts st) /\ f = r ++ x /\ x <> [] /\ forall a b, x = a ++ b -> ~ In (r ++ a) (se_xarts st).

Section Reload.
  Variable path_str : path -> str.
  Variable M : num.
  Variable topo : graph -> option (list nat).
  Variable TC : topo_ok topo.
  Variable H : Type.
  Variable heqb : H -> H -> bool.
  Variable heqb_iff : forall a b, heqb a b = true <-> a = b.
  Variable hash_im : art_im -> H.
  Variable debug_im : art_im -> str.
  Variable st : settings.
  Variables to_toml to_json : list (name * art_raw) -> str.
  Variable yaml_done : str -> str.
  Variable style : md_attrs.
  Variables E1 E3 : disk_errs.
  Variable yaml : str -> option (option str * option names_val).
  Hypothesis Hy : yaml_ok yaml yaml_done.
  Variables parse_toml parse_json : str -> res (list (name * art_raw)).
  Hypothesis Ct : codec_ok to_toml parse_toml.
  Hypothesis Cj : codec_ok to_json parse_json.
  Variable parse_msg : path -> str -> str.
  (** reading meets no errors *)
  Variable E : disk_errs.
  Hypothesis Es : forall q, e_stat E q = None.
  Hypothesis Eo : forall q, e_open E q = None.
  Hypothesis Er : forall q, e_read E q = None.
  Hypothesis Ra : roots_apart (se_arts st).

  Notation runs := (runs path_str M topo H heqb hash_im debug_im st to_toml to_json yaml_done style E1 E3).
  Notation pure := (modify_pure path_str M topo H heqb hash_im debug_im st).
  Notation holds := (holds to_toml to_json yaml_done style).
  Notation text_of := (text_of to_toml to_json yaml_done style).
  Notation orig := (orig path_str st E1).
  Notation walk1 := (walk_path (e_stat E) (e_open E) (e_none E) (art_filter (se_xarts st))).

  (** A file of the project is read back. *)
  Lemma read_file prefix (arts : list art_im) f : Forall im_wf arts -> distinct arts -> (forall a, In a arts -> im_clean a = a /\ im_file a = f) ->
    (art_type_of f = Some TMd -> prefix_ok (plain_style style) prefix /\ (forall x, style = CodeBlock (Some x) -> ~ In 10%N x) /\ survives prefix (isort im_leb arts)) ->
    typed f -> exists y, file_text to_toml to_json yaml_done style prefix f (map raw_entry arts) = Ok y /\
      forall tt, af_path tt = f -> af_text tt = inl y -> exists l, load_file path_str yaml parse_toml parse_json parse_msg prefix tt = mkJob l [] false /\ Permutation l arts.
  Proof.
    intros Wf D Ha Md Ty. unfold file_text. cbv zeta. rewrite sort_raws. set (l := isort im_leb arts). pose proof (isort_perm im_leb arts : Permutation arts l) as P.
    assert (Wl : Forall im_wf l) by (eapply Permutation_Forall; eauto).
    assert (Dl : distinct l) by (eapply perm_distinct; eauto).
    assert (Hl : forall a, In a l -> im_clean a = a /\ im_file a = f) by (intros a X; apply Ha; now apply isort_in in X).
    unfold typed in Ty. destruct (art_type_of f) as [[]|] eqn:F; [| | |contradiction].
    - destruct (Ct l f Wl Dl Hl) as (raws & E' & Er'). eexists. split; [reflexivity|]. intros tt Ep Et. unfold load_file. rewrite Ep, F, Et. cbn [parse_artifacts]. rewrite E'. eexists. split; [reflexivity|]. rewrite Er'. now apply Permutation_sym.
    - destruct (Md eq_refl) as (Px & Sx & Q).
      destruct (md_exact yaml yaml_done Hy prefix style l f Px Sx Wl Dl Hl) as (y & E' & X). destruct (proj2 X Q) as (raws & Ep' & Er').
      exists y. split; auto. intros tt Ep Et. unfold load_file. rewrite Ep, F, Et. cbn [parse_artifacts]. rewrite Ep'. eexists. split; [reflexivity|]. rewrite Er'. now apply Permutation_sym.
    - destruct (Cj l f Wl Dl Hl) as (raws & E' & Er'). eexists. split; [reflexivity|]. intros tt Ep Et. unfold load_file. rewrite Ep, F, Et. cbn [parse_artifacts]. rewrite E'. eexists. split; [reflexivity|]. rewrite Er'. now apply Permutation_sym.
  Qed.

  (** Walking without errors. *)
  Lemma walk_no_error filter p t : snd (walk_node (e_stat E) (e_open E) filter p t) = None.
  Proof.
    revert p. induction t as [y|l IH] using node_ind'; intros p; [cbn [walk_node]; now rewrite Es|]. rewrite walk_dir, Es. destruct (filter true p); auto. rewrite Eo.
    induction l as [|[x n] l IHl]; auto. rewrite goes_cons. assert (X : snd (walk_node (e_stat E) (e_open E) filter (p ++ [x]) n) = None) by (eapply IH; now left).
    destruct (walk_node (e_stat E) (e_open E) filter (p ++ [x]) n) as [fs [m|]]; [discriminate X|]. assert (Y : snd (goes (e_stat E) (e_open E) filter p l) = None) by (apply IHl; intros z k Hz; eapply IH; right; eauto).
    destruct (goes (e_stat E) (e_open E) filter p l) as [fs' e]. exact Y.
  Qed.
  Definition files (t : node) : list path := flat_map (fun r => fst (walk1 t r)) (se_arts st).
  Lemma art_files_eq t : roots_dir st t -> art_files E t path_str st = map (fun q => inl (read_art E t q)) (files t).
  Proof.
    unfold roots_dir, art_files, found, walk_paths, files. clear Ra. generalize (se_arts st) as l. induction l as [|r l IH]; intros Rd; auto. cbn [flat_map]. rewrite !map_app. rewrite IH by (intros r' Hr'; apply Rd; now right). f_equal.
    assert (X : snd (walk1 t r) = None).
    { unfold walk_path. specialize (Rd r (or_introl eq_refl)). destruct (lookup t r) as [[y|k]|]; try discriminate Rd. apply walk_no_error. }
    destruct (walk1 t r) as [fs [m|]]; [discriminate X|]. cbn [fst]. rewrite app_nil_r, map_map. reflexivity.
  Qed.

  Lemma files_in t f : tree_ok t -> roots_dir st t -> (In f (files t) <-> exists r, In r (se_arts st) /\ reachable t (se_xarts st) r f /\ known_extension f).
  Proof.
    intros T Rd. unfold files. rewrite in_flat_map.
    assert (X : forall r, In r (se_arts st) -> (In f (fst (walk1 t r)) <-> reachable t (se_xarts st) r f /\ known_extension f)).
    { intros r Hr. specialize (Rd r Hr). destruct (lookup t r) as [[y|l]|] eqn:Lk; try discriminate Rd.
      assert (N : snd (walk1 t r) = None) by (unfold walk_path; rewrite Lk; apply walk_no_error).
      destruct (walk1 t r) as [fs e] eqn:Wk. cbn [fst snd] in *. subst e.
      destruct (walk_path_exact _ _ _ _ (se_xarts st) known_extension (art_filter_dir _) (art_filter_file _) t T r l Lk fs None Wk) as (_ & So & Co). split; auto. }
    split; intros (r & Hr & Hf); exists r; split; auto; now apply X.
  Qed.
  Lemma files_nodup t : tree_ok t -> roots_dir st t -> NoDup (files t).
  Proof.
    intros T Rd. unfold files. destruct Ra as [Nr Ba].
    assert (X : forall r, In r (se_arts st) -> NoDup (fst (walk1 t r)) /\ forall f, In f (fst (walk1 t r)) -> below f r).
    { intros r Hr. specialize (Rd r Hr). destruct (lookup t r) as [[y|l]|] eqn:Lk; try discriminate Rd. destruct (walk1 t r) as [fs e] eqn:Wk. cbn [fst].
      destruct (walk_path_exact _ _ _ _ (se_xarts st) known_extension (art_filter_dir _) (art_filter_file _) t T r l Lk fs e Wk) as (Nd & So & _). split; auto.
      intros f Hf. destruct (So f Hf) as [(x & y & -> & _) _]. now exists x. }
    clear Rd. revert Nr Ba X. generalize (se_arts st) as rs. induction rs as [|r rs IH]; intros Nr Ba X; cbn [flat_map]; [constructor|]. inversion Nr as [|? ? Nin Nr']; subst.
    apply nodup_app_disj; [apply X; now left|apply IH; auto; intros; [apply Ba|apply X]; auto; now right|].
    intros f H1 H2. apply in_flat_map in H2 as (r' & Hr' & H2). apply Nin. pose proof (proj2 (X r (or_introl eq_refl)) f H1) as [x1 E1']. pose proof (proj2 (X r' (or_intror Hr')) f H2) as [x2 E2'].
    assert (below r r' \/ below r' r) as [B|B].
    { rewrite E1' in E2'. clear -E2'. revert r' E2'. induction r as [|y r IH]; intros r' E; [right; now exists r'|]. destruct r' as [|z r']; [left; now exists (y :: r)|]. injection E as <- E.
      destruct (IH r' E) as [[w ->]|[w ->]]; [left|right]; now exists w. }
    - rewrite (Ba r r'); auto; [now left|now right].
    - rewrite <- (Ba r' r); auto; [now right|now left].
  Qed.

  Variable t : node.
  Hypothesis T : tree_ok t.
  Hypothesis R : forall r, In r (se_arts st) -> file_at t r = None.
  Hypothesis U : forall q q', orig t q -> orig t q' -> backup_of q = backup_of q' -> q = q'.
  Variables (c : lints) (p : project M H) (ops : list (op H)).
  Hypothesis L : loaded_ok hash_im p.
  (** What was loaded, from this disk or another: its files are where artifact files are looked for. *)
  Hypothesis Lo : forall a, In a (stored_form p) -> placed st (im_file a) /\ plain_path (im_file a) /\ typed (im_file a).
  Hypothesis W : Forall op_wf ops.
  Hypothesis Wo : forall o a, In o ops -> stores o a -> plain_path (im_file a) /\ forall e, In e (se_xarts st) -> ~ below (im_file a) e.

  Theorem reload t' c1 p1 : runs t (Ok (inl (c, p))) ops (MDone M H t' (Ok (inl (c1, p1)))) ->
    md_survive (pr_prefix p) style (stored_form p1) ->
    exists fs, art_files E t' path_str st = map inl fs /\
      Forall (fun f => jb_lints (load_file path_str yaml parse_toml parse_json parse_msg (pr_prefix p) f) = [] /\ jb_panic (load_file path_str yaml parse_toml parse_json parse_msg (pr_prefix p) f) = false) fs /\
      Permutation (file_arts (load_file path_str yaml parse_toml parse_json parse_msg (pr_prefix p)) (art_files E t' path_str st)) (stored_form p1).
  Proof.
    intros Rn Md. assert (Lt : forall a, In a (stored_form p) -> typed (im_file a)) by (intros a Ha; apply Lo, Ha).
    destruct (success path_str M topo TC H heqb heqb_iff hash_im debug_im st to_toml to_json yaml_done style E1 E3 t T R U c p ops L Lt W t' c1 p1 Rn)
      as (c' & q & Ep & -> & Hh & Hg & _ & Ho & Sd & T' & Rd & Wk).
    pose proof (new_typed path_str M topo TC H heqb heqb_iff hash_im debug_im st c p ops L Lt W c' q Ep) as Ty.
    destruct (new_names path_str M topo TC H heqb heqb_iff hash_im debug_im st c p ops L W c' q Ep) as [Lq _].
    destruct (pure_accepts path_str M topo TC H heqb heqb_iff hash_im debug_im st c p ops c' q L W Ep) as (_ & _ & _ & Cp & m & _ & _ & _ & _ & Sq & Bq & Cq & Pq & _ & _ & Lq0).
    pose proof (pure_from path_str M topo TC H heqb heqb_iff hash_im debug_im st c p ops c' q L W Ep) as Fr.
    assert (Ps : Permutation (stored_form (project_sort M H q)) (stored_form q)).
    { pose proof (lo_wf hash_im q Lq) as Wq. pose proof (lo_distinct hash_im q Lq) as Dq. rewrite Sq in Wq, Dq.
      destruct (sorted_ok M topo TC H hash_im (map snd m) (pr_code p) (pr_arts q) (pr_prefix q) (pr_settings_path q) (pr_url_error q) Wq Dq Bq) as [_ X].
      rewrite <- Cq in X. replace (mkProject (pr_arts q) (pr_code q) (pr_prefix q) (pr_settings_path q) (pr_url_error q)) with q in X by (destruct q; reflexivity).
      rewrite X, <- Sq. erewrite map_ext_in; [rewrite map_id; reflexivity|]. intros a Ha. now apply (lo_clean hash_im q Lq). }
    assert (Pl : forall a, In a (stored_form q) -> locate (im_file a) = Some (im_file a) /\
                  (placed st (im_file a) \/ (exists r, In r (se_arts st) /\ below (im_file a) r) /\ forall e, In e (se_xarts st) -> ~ below (im_file a) e)).
    { intros a Ha. destruct (Fr a Ha) as [Hp|(o & Hin & So)].
      - destruct (Lo a Hp) as (O & P & _). split; auto. now apply locate_plain.
      - assert (F : op_file H o = Some (im_file a)) by (destruct So as [->|[i ->]]; reflexivity). specialize (Cp o _ Hin F). apply check_path_ok in Cp as (_ & Br & _).
        apply in_map_iff in Hin as (o' & <- & Hin). assert (exists b, stores o' b /\ im_file b = im_file a) as (b & Sb & Eb).
        { destruct o' as [b|b i|n i]; cbn [op_clean] in So; apply stores_cases in So; [| |destruct So]; subst a; exists b; (split; [|reflexivity]); [now left|right; now exists i]. }
        destruct (Wo o' b Hin Sb) as [P X]. rewrite Eb in P, X. split; [now apply locate_plain|]. right. split; [exact Br|exact X]. }
    specialize (Hh ltac:(intros a b l Ha Hb X Y; destruct (Pl a Ha) as [Z1 _]; destruct (Pl b Hb) as [Z2 _]; congruence)).
    assert (Fs : forall f, In f (files t') <-> exists a, In a (stored_form q) /\ im_file a = f).
    { intros f. rewrite (files_in t' f T' Rd). split.
      - intros (r & Hr & (x & y & -> & Nx & Lk & Ex) & Ke).
        assert (Dec : (exists a, In a (stored_form q) /\ im_file a = r ++ x) \/ forall a, In a (stored_form q) -> locate (im_file a) <> Some (r ++ x)).
        { destruct (existsb (fun a => path_eqb (im_file a) (r ++ x)) (stored_form q)) eqn:Eb.
          - left. apply existsb_exists in Eb as (a & Ha & X). apply path_eqb_iff in X. eauto.
          - right. intros a Ha X. destruct (Pl a Ha) as [Y _]. rewrite Y in X. apply some_eq in X. rewrite <- Bool.not_true_iff_false in Eb. apply Eb, existsb_exists. exists a. split; auto. now apply path_eqb_iff. }
        destruct Dec as [X|N]; auto. exfalso. assert (F' : file_at t' (r ++ x) = Some y) by (unfold file_at; now rewrite Lk).
        destruct (orig_dec path_str st E1 t (r ++ x)) as [O|O]; [rewrite (Hg _ O N) in F'; discriminate F'|].
        assert (B : is_backup (r ++ x) = false) by (apply typed_backup, art_type_iff; auto).
        rewrite (Ho _ O (or_introl B) N) in F'. apply O. unfold PhaseFacts.orig, to_back_up. apply walk_inl. exists r. split; auto.
        assert (Dr : is_dir (lookup t r) = true) by (rewrite <- (Sd r); now apply Rd). destruct (lookup t r) as [[z|l]|] eqn:Lr; try discriminate Dr.
        destruct (walk_path (e_stat E1) (e_open E1) (e_none E1) (art_filter (se_xarts st)) t r) as [fs e] eqn:Wl. cbn [fst].
        destruct (walk_path_exact _ _ _ _ (se_xarts st) known_extension (art_filter_dir _) (art_filter_file _) t T r l Lr fs e Wl) as (_ & _ & Co). apply Co.
        + destruct e as [e|]; auto. exfalso. apply (Wk (load_error path_str r e)). unfold to_back_up, walk_paths. apply in_flat_map. exists r. split; auto. rewrite Wl. apply in_or_app. right. now left.
        + split; auto. exists x, y. split; auto. split; auto. split; auto. unfold file_at in F'. destruct (lookup t (r ++ x)) as [[z|k]|]; try discriminate F'. now injection F' as ->.
      - intros (a & Ha & <-). destruct (Hh a Ha) as (l & y & El & _ & Fl). destruct (Pl a Ha) as [El' K]. rewrite El' in El. apply some_eq in El as <-.
        assert (Lk : lookup t' (im_file a) = Some (NFile y)) by (unfold file_at in Fl; destruct (lookup t' (im_file a)) as [[z|k]|]; try discriminate Fl; now injection Fl as ->).
        assert (Ke : known_extension (im_file a)) by (apply art_type_iff, Ty, Ha).
        destruct K as [O|[(r & Hr & x & Er') Xe]].
        + destruct O as (r & x & Hr & E' & Nx & Ex). exists r. split; auto. split; auto. exists x, y. repeat split; auto.
        + exists r. split; auto. split; auto. exists x, y. split; auto. split; [|split; auto].
          * intros ->. rewrite app_nil_r in Er'. specialize (Rd r Hr). rewrite <- Er', Lk in Rd. discriminate Rd.
          * intros a0 b -> Hin. apply (Xe _ Hin). exists b. now rewrite Er', <- app_assoc. }
    rewrite (art_files_eq t' Rd). exists (map (read_art E t') (files t')). split; [now rewrite map_map|].
    assert (Each : forall f, In f (files t') -> exists l, load_file path_str yaml parse_toml parse_json parse_msg (pr_prefix p) (read_art E t' f) = mkJob l [] false /\ Permutation l (arts_in f (stored_form q))).
    { intros f Hf. apply Fs in Hf as (a & Ha & <-). destruct (Hh a Ha) as (l & y & El & Ey & Fl). destruct (Pl a Ha) as [El' _]. rewrite El' in El. apply some_eq in El as <-.
      assert (Sub : forall b, In b (arts_in (im_file a) (stored_form q)) -> In b (stored_form q) /\ im_file b = im_file a).
      { intros b Hb. apply filter_In in Hb as [Hb X]. apply path_eqb_iff in X. auto. }
      destruct (read_file (pr_prefix p) (arts_in (im_file a) (stored_form q)) (im_file a)) as (y' & Ey' & Rd').
      - apply Forall_forall. intros b Hb. pose proof (lo_wf hash_im q Lq) as X. rewrite Forall_forall in X. now apply X, Sub.
      - pose proof (lo_distinct hash_im q Lq) as X. unfold distinct, arts_in in *. clear -X. induction (stored_form q) as [|b l IH]; cbn [filter]; auto. cbn [map] in X. inversion X as [|? ? N X']; subst.
        destruct (path_eqb (im_file b) (im_file a)); auto. cbn [map]. constructor; auto. intros Hin. apply N. apply in_map_iff in Hin as (z & Ez & Hz). apply filter_In in Hz as [Hz _]. apply in_map_iff. eauto.
      - intros b Hb. split; [apply (lo_clean hash_im q Lq)|]; apply Sub; auto.
      - intros Emd. destruct (Md (im_file a) Emd) as (M1 & M2 & M3); [exists a; split; auto; now apply (Permutation_in _ (Permutation_sym Ps))|].
        split; auto. split; auto. set (l := arts_in (im_file a) (stored_form q)) in *. pose proof (isort_perm im_leb l : Permutation l (isort im_leb l)) as Pl'.
        apply survives_accepted.
        + intros b w Hb Hw. apply (Permutation_in _ (Permutation_sym Pl')), Sub in Hb as [Hb _]. rewrite <- Pq. pose proof (lo_wf hash_im q Lq) as Wq. pose proof (lo_distinct hash_im q Lq) as Dq. pose proof (lo_clean hash_im q Lq b Hb) as Cb. rewrite Sq in Wq, Dq, Hb.
          destruct (built_back M topo H hash_im TC (map snd m) (pr_code p) (pr_arts q) Wq Dq Bq b Hb) as (b0 & Hb0 & _ & _ & _ & Et). rewrite <- Cb in Hw. cbn [im_clean im_text] in Hw. rewrite <- Et in Hw.
          exact (proj2 (proj2 (proj1 (no_errors_iff path_str q) Lq0 _ b0 Hb0)) w Hw).
        + apply M3.
          * intros b. split.
            -- intros Hb. apply (Permutation_in _ (Permutation_sym Pl')), Sub in Hb as [Hb1 Hb2]. split; auto. now apply (Permutation_in _ (Permutation_sym Ps)).
            -- intros [Hb1 Hb2]. apply (Permutation_in _ Pl'), filter_In. split; [now apply (Permutation_in _ Ps)|now apply path_eqb_iff].
          * eapply Permutation_NoDup; [exact Pl'|]. apply NoDup_filter. eapply NoDup_map_inv. exact (lo_distinct hash_im q Lq).
          * apply isort_sorted; [intros x z; apply name_leb_total|intros x z w; apply name_leb_trans].
      - now apply Ty.
      - unfold SpecModify.text_of in Ey. rewrite Pq in Ey. rewrite Ey in Ey'. injection Ey' as <-. apply (Rd' (read_art E t' (im_file a))); [reflexivity|]. unfold read_art. cbn [af_text]. now rewrite Er, Fl. }
    split.
    - apply Forall_forall. intros g Hg'. apply in_map_iff in Hg' as (f & <- & Hf). destruct (Each f Hf) as (l & -> & _). auto.
    - transitivity (stored_form q); [|now apply Permutation_sym]. rewrite <- (split_files (files t') (files_nodup t' T' Rd) (stored_form q)) at 1; [|intros a Ha; apply Fs; eauto].
      unfold file_arts. clear -Each. induction (files t') as [|f fs IH]; cbn [map flat_map]; auto. apply Permutation_app; [|apply IH; intros g Hg; apply Each; now right].
      destruct (Each f (or_introl eq_refl)) as (l & -> & P). exact P.
  Qed.
End Reload.
