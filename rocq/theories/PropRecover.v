(** Property C86: what to do after a save was interrupted. *)
From Coq Require Import Permutation Relation_Operators Lia.
From Verif Require Import Base BaseFacts Regex Name NameFacts RawNames RawNamesFacts Artifact SpecGraph SpecLinks LinkFacts Topo Numbers Stored Markdown SpecMarkdown MarkdownFacts YamlExample Lint SpecLint LintFacts LintThms Source SpecJoin JoinFacts
  Pool PoolFacts Load SpecLoad LoadFacts DeterFacts ReadThms CheckFacts Disk DiskFacts Walk SpecWalk WalkFacts Modify SpecModify SpecReload OpFacts PureFacts PhaseFacts RunFacts ReloadFacts ResultFacts DiskRunFacts
  CodecExample PropArtifacts PropCompleted PropMarkdown PropLint PropLoad PropModify PropDisk SpecRecover.

Section Found.
  Variables (st : settings) (t : node).
  Hypothesis T : tree_ok t.
  Hypothesis R : forall r, In r (se_arts st) -> file_at t r = None.
  (** The artifact files, one by one. *)
  Local Definition from_root (r : path) : list path := match lookup t r with Some (NDir _) => fst (walk_path (fun _ => None) (fun _ => None) [] (art_filter (se_xarts st)) t r) | _ => [] end.
  Local Lemma from_root_ok r f : In r (se_arts st) -> In f (from_root r) <-> reachable t (se_xarts st) r f /\ known_extension f.
  Proof.
    intros Hr. unfold from_root. specialize (R r Hr). unfold file_at in R. destruct (lookup t r) as [[y|l]|] eqn:L; [discriminate R| |].
    - destruct (walk_path (fun _ => None) (fun _ => None) [] (art_filter (se_xarts st)) t r) as [fs e] eqn:Wl. cbn [fst].
      destruct (walk_path_exact _ _ _ _ (se_xarts st) known_extension (art_filter_dir _) (art_filter_file _) t T r l L fs e Wl) as (_ & So & Co). split; [apply So|]. apply Co.
      pose proof (walk_no_error (mkErrs (fun _ => None) (fun _ => None) (fun _ => None) []) (fun _ => eq_refl) (fun _ => eq_refl) (art_filter (se_xarts st)) r (NDir l)) as X.
      unfold walk_path in Wl. rewrite L in Wl. cbn [e_stat e_open] in X. rewrite Wl in X. exact X.
    - split; [intros []|]. intros [(x & y & -> & _ & Lk & _) _]. rewrite lookup_app, L in Lk. discriminate Lk.
  Qed.
  Definition arts_found : list path := flat_map from_root (se_arts st).
  Local Lemma arts_found_ok f : In f arts_found <-> found_file st t f.
  Proof. unfold arts_found, found_file. rewrite in_flat_map. split; intros (r & Hr & X); exists r; split; auto; [now apply from_root_ok in X|now apply from_root_ok]. Qed.
  Local Lemma path_dec (a b : path) : {a = b} + {a <> b}.
  Proof. repeat decide equality. Qed.
  Lemma found_dec f : found_file st t f \/ ~ found_file st t f.
  Proof. destruct (in_dec path_dec f arts_found) as [I|I]; rewrite arts_found_ok in I; auto. Qed.
  Lemma bk_found_dec f : (exists o, found_file st t o /\ f = backup_of o) \/ forall o, found_file st t o -> f <> backup_of o.
  Proof.
    destruct (in_dec path_dec f (map backup_of arts_found)) as [I|I].
    - left. apply in_map_iff in I as (o & <- & I). exists o. split; auto. now apply arts_found_ok.
    - right. intros o F ->. apply I, in_map, arts_found_ok, F.
  Qed.
End Found.

Section Theorems.
  Variables (path_str : path -> str) (M : num) (topo : graph -> option (list nat)) (H : Type) (heqb : H -> H -> bool) (hash_im : art_im -> H) (debug_im : art_im -> str)
    (st : settings) (to_toml to_json : list (name * art_raw) -> str) (yaml_done : str -> str) (style : md_attrs) (E1 E3 : disk_errs).
  Variables (yaml : str -> option (option str * option names_val)) (parse_toml parse_json : str -> res (list (name * art_raw))) (parse_msg : path -> str -> str) (prefix : str)
    (settings_path : path) (url_error : option str).
  Hypothesis TC : topo_ok topo.
  Hypothesis heqb_iff : forall a b, heqb a b = true <-> a = b.
  Hypothesis PO : parser_ok parse_toml.
  Hypothesis PJ : parser_ok parse_json.
  Notation loads := (loads path_str yaml parse_toml parse_json parse_msg prefix M topo H hash_im settings_path url_error).
  Notation runs := (runs path_str M topo H heqb hash_im debug_im st to_toml to_json yaml_done style).
  Notation pure := (modify_pure path_str M topo H heqb hash_im debug_im st).
  Notation holds := (holds to_toml to_json yaml_done style).
  Notation mstep := (mstep path_str M H st to_toml to_json yaml_done style).

  (** The disk before, the project read from it, and the request. *)
  Variables (t : node) (E0 : disk_errs) (n : nat) (lines_of : str -> list str * option str) (c : lints) (p : project M H) (ops : list (op H)).
  Hypothesis Sd : safe_disk st t.
  Hypothesis Ld : loads n (art_files E0 t path_str st) (code_files E0 t lines_of path_str st) (Ok (inl (c, p))).
  Hypothesis W : Forall op_wf ops.
  Hypothesis Wp : forall o a, In o ops -> stores o a -> plain_path (im_file a).

  Local Definition T := sd_tree st t Sd.
  Local Definition Nm := sd_names st t Sd.
  Local Definition R := sd_roots st t Sd.
  Local Definition U := sd_twins st t Sd.
  Local Definition L0 : loaded_ok hash_im p := l_ok path_str M topo TC H hash_im st yaml parse_toml parse_json PO PJ parse_msg prefix settings_path url_error t c p E0 n _ (found_walk_ok _ _ _ _ _ _ _ _) Ld.
  Local Definition Ty : forall a, In a (stored_form p) -> typed (im_file a) := l_typed path_str M topo TC H hash_im st yaml parse_toml parse_json PO PJ parse_msg prefix settings_path url_error t T R c p E0 n _ (found_walk_ok _ _ _ _ _ _ _ _) Ld.
  Local Definition Uo := u_orig path_str st E1 t T R U.
  Local Definition Np := new_plain path_str M topo TC H heqb heqb_iff hash_im debug_im st yaml parse_toml parse_json PO PJ parse_msg prefix settings_path url_error t T Nm R c p ops E0 n _ (found_walk_ok _ _ _ _ _ _ _ _) Ld W Wp.
  Local Definition Inv := run_inv path_str M topo TC H heqb heqb_iff hash_im debug_im st to_toml to_json yaml_done style E1 E3 t T R Uo c p ops L0 Ty W.

  Local Lemma found_has o : found_file st t o -> exists y, file_at t o = Some y.
  Proof. intros F. destruct (found_exists st t o F) as [y E]. exists y. unfold file_at. now rewrite E. Qed.
  Local Lemma not_orig_back o : found_file st t o -> ~ PhaseFacts.orig path_str st E1 t o -> ~ is_bk path_str st E1 t (backup_of o).
  Proof.
    intros F N (o' & O' & E). apply N. replace o with o'; auto. apply U; auto; [eapply orig_found; eauto; [apply T|apply R]|].
    apply backup_twins; auto; [|eapply found_typed; eauto]. eapply found_typed, orig_found; eauto; [apply T|apply R].
  Qed.
  Local Lemma back_orig o : typed o -> ~ PhaseFacts.orig path_str st E1 t (backup_of o).
  Proof. intros To O. apply (orig_ok path_str st E1 t T R) in O as [X _]. apply (backup_typed o (backup_of o)); auto. Qed.

  (** Before the backups are removed, moving them back gives the disk as it was, but for files the
      request would have created. *)
  Theorem C86_restore : forall x, runs E1 E3 t (Ok (inl (c, p))) ops x -> unfinished x -> no_stale st t ->
    forall t2, put_back st t (disk M H x) t2 ->
    forall f, file_at t2 f = file_at t f \/
      (~ found_file st t f /\ exists c' q a, pure (inl (c, p)) ops = Ok (inr (c', q)) /\ In a (stored_form q) /\ im_file a = f).
  Proof.
    intros x Rn Un Ns t2 [P1 P2 P3 P4] f.
    destruct (found_dec st t T R f) as [F|F].
    { left. destruct (found_has f F) as [y Fy]. pose proof (found_typed st t f F) as Tf.
      assert (B : forall t1 todo got, disk M H x = t1 -> inv_b path_str st E1 t t1 todo got -> file_at t2 f = file_at t f).
      { intros t1 todo got D Ib. rewrite D in *. destruct (orig_dec path_str st E1 t f) as [O|O].
        - destruct (ib_each _ _ _ _ _ _ _ Ib f O) as [[_ X]|[[X Y] _]]; [rewrite Fy in *; now apply P1|]. rewrite (Ns f F) in Y. now rewrite (P2 f F Y).
        - rewrite (P2 f F); [apply (ib_other _ _ _ _ _ _ _ Ib f O); intros Bk; eapply (bk_typed path_str st E1 t T R f); eauto|].
          rewrite (ib_other _ _ _ _ _ _ _ Ib (backup_of f)); [now apply Ns|now apply back_orig|now apply not_orig_back]. }
      assert (S : forall t1 q, disk M H x = t1 -> inv_s path_str M H st to_toml to_json yaml_done style E1 t q t1 -> walk_ok path_str st E1 t -> file_at t2 f = file_at t f).
      { intros t1 q D Is Wk. rewrite D in *. rewrite Fy. apply P1; auto. rewrite (is_bks _ _ _ _ _ _ _ _ _ _ _ _ Is f); auto. apply found_orig; auto; [apply T|apply R]. }
      destruct (Inv x Rn) as [(r & -> & _)|(c' & q & Ep & I)]; [rewrite (P2 f F); [reflexivity|now apply Ns]|].
      destruct x as [t1 c1 p1 todo got|t1 c1 p1 todo got|t1 c1 p1 todo got|t1 r]; cbn [PhaseFacts.inv disk unfinished] in *; [destruct I as [_ I]; eauto|destruct I as (-> & I & [_ Wk] & _); eauto|contradiction|].
      destruct r as [[[c1 p1]|[[] l]]| |]; try contradiction; [destruct I as [got I]; eauto|destruct I as [I Wk]; eauto]. }
    assert (Bf : (exists o, found_file st t o /\ f = backup_of o) \/ forall o, found_file st t o -> f <> backup_of o) by (apply bk_found_dec; [apply T|apply R]).
    destruct Bf as [(o & Fo & ->)|Nb]; [left; rewrite (P3 o Fo); symmetry; now apply Ns|]. rewrite (P4 f F Nb).
    assert (No : ~ PhaseFacts.orig path_str st E1 t f) by (intros O; apply F; eapply orig_found; eauto; [apply T|apply R]).
    assert (Nk : ~ is_bk path_str st E1 t f) by (intros (o & O & E); apply (Nb o); auto; eapply orig_found; eauto; [apply T|apply R]).
    destruct (Inv x Rn) as [(r & -> & _)|(c' & q & Ep & I)]; [now left|].
    assert (S : forall t1, inv_s path_str M H st to_toml to_json yaml_done style E1 t q t1 -> file_at t1 f = file_at t f \/ ~ found_file st t f /\ exists c' q a, pure (inl (c, p)) ops = Ok (inr (c', q)) /\ In a (stored_form q) /\ im_file a = f).
    { intros t1 Is. destruct (target_dec M H to_toml to_json yaml_done style q f) as [Tf|Tf]; [|left; now apply (is_other _ _ _ _ _ _ _ _ _ _ _ _ Is)].
      right. split; auto. apply (target_art M H to_toml to_json yaml_done style q f) in Tf as (a & Ha & El); [|exact (proj2 (new_names path_str M topo TC H heqb heqb_iff hash_im debug_im st c p ops L0 W c' q Ep))].
      exists c', q, a. split; auto. split; auto. rewrite (locate_plain _ (Np c' q Ep a Ha)) in El. now injection El. }
    destruct x as [t1 c1 p1 todo got|t1 c1 p1 todo got|t1 c1 p1 todo got|t1 r]; cbn [PhaseFacts.inv disk unfinished] in *; [destruct I as [_ I]; left; now apply (ib_other _ _ _ _ _ _ _ I)|destruct I as (-> & I & _); auto|contradiction|].
    destruct r as [[[c1 p1]|[[] l]]| |]; try contradiction; [destruct I as [got I]; left; now apply (ib_other _ _ _ _ _ _ _ I)|destruct I as [I Wk]; auto].
  Qed.

  (** Once backups are being removed, the disk holds the new project and the backups are all that
      is left of the old one. *)
  Theorem C86_finish : forall x, runs E1 E3 t (Ok (inl (c, p))) ops x -> ~ unfinished x ->
    exists c' q, pure (inl (c, p)) ops = Ok (inr (c', q)) /\ holds (disk M H x) q /\
      forall f, ~ has_extension (s "artbk") f -> (forall a, In a (stored_form q) -> im_file a <> f) ->
        (found_file st t f -> file_at (disk M H x) f = None) /\ (~ found_file st t f -> file_at (disk M H x) f = file_at t f).
  Proof.
    intros x Rn Un. destruct (Inv x Rn) as [(r & -> & N)|(c' & q & Ep & I)].
    { exfalso. apply Un. destruct r as [[v|e]| |]; cbn; auto. now apply (N v). }
    exists c', q. split; auto.
    destruct (new_names path_str M topo TC H heqb heqb_iff hash_im debug_im st c p ops L0 W c' q Ep) as [_ D]. pose proof (new_typed path_str M topo TC H heqb heqb_iff hash_im debug_im st c p ops L0 Ty W c' q Ep) as Tq.
    assert (Z : forall t1 t3 todo got, saved_all path_str M H st to_toml to_json yaml_done style E1 t q t3 -> inv_r path_str st E3 t3 t1 todo got ->
      holds t1 q /\ forall f, ~ has_extension (s "artbk") f -> (forall a, In a (stored_form q) -> im_file a <> f) -> (found_file st t f -> file_at t1 f = None) /\ (~ found_file st t f -> file_at t1 f = file_at t f)).
    { intros t1 t3 todo got Sa Ir. pose proof Sa as (Is & [Rd Wk] & _). pose proof (is_tree _ _ _ _ _ _ _ _ _ _ _ _ Is) as T3. split.
      - intros a Ha. assert (Ap : forall a b l, In a (stored_form q) -> In b (stored_form q) -> locate (im_file a) = Some l -> locate (im_file b) = Some l -> im_file a = im_file b).
        { intros a0 b0 l Ha0 Hb0 Ea Eb. rewrite (locate_plain _ (Np c' q Ep a0 Ha0)) in Ea. rewrite (locate_plain _ (Np c' q Ep b0 Hb0)) in Eb. congruence. }
        destruct (all_written path_str M H st to_toml to_json yaml_done style E1 t q t3 D Tq Ap Sa a Ha) as (l & y & El & Ey & Fl). exists l, y. split; auto. split; auto. rewrite <- Fl.
        eapply removed_only; eauto. apply typed_backup, (locate_typed (im_file a)); auto.
      - intros f Nx Nf. assert (Bf : is_backup f = false) by (destruct (is_backup f) eqn:B; auto; exfalso; apply Nx; now apply is_backup_iff).
        rewrite (removed_only path_str st E3 t3 t1 todo got T3 Rd Ir f Bf).
        assert (Nt : ~ target M H to_toml to_json yaml_done style q f).
        { intros Tf. apply (target_art M H to_toml to_json yaml_done style q f D) in Tf as (a & Ha & El). rewrite (locate_plain _ (Np c' q Ep a Ha)) in El. injection El as El. now apply (Nf a). }
        split; intros F.
        + apply (is_gone _ _ _ _ _ _ _ _ _ _ _ _ Is f); auto. apply found_orig; auto; [apply T|apply R].
        + apply (is_other _ _ _ _ _ _ _ _ _ _ _ _ Is); auto; [intros O; apply F; eapply orig_found; eauto; [apply T|apply R]|].
          intros (o & O & ->). apply (orig_ok path_str st E1 t T R) in O as [To _]. rewrite (backup_is o To) in Bf. discriminate Bf. }
    destruct x as [t1 c1 p1 todo got|t1 c1 p1 todo got|t1 c1 p1 todo got|t1 r]; cbn [PhaseFacts.inv disk unfinished] in *; try (exfalso; now apply Un).
    - destruct I as (_ & _ & t3 & Sa & Ir). eapply Z; eauto.
    - destruct r as [[[c1 p1]|e]| |]; try (exfalso; now apply Un). destruct I as (_ & t3 & c0 & got & Sa & _ & Ir & _). eapply Z; eauto.
  Qed.

  (** A run that ends well was, at some point, done with the backups and had written nothing. *)
  Local Lemma passes x y : clos_refl_trans_1n _ (mstep E3) x y -> forall t1 c1 q todo got t' v, x = MBackup M H t1 c1 q todo got -> y = MDone M H t' (Ok (inl v)) ->
    exists t2 got2, clos_refl_trans_1n _ (mstep E3) x (MBackup M H t2 c1 q [] got2) /\ clos_refl_trans_1n _ (mstep E3) (MBackup M H t2 c1 q [] got2) y /\ ls_error (categorize c1 got2) = [].
  Proof.
    induction 1 as [x|x z y S1 S2 IH]; intros t1 c1 q todo got t' v -> Ey; [discriminate Ey|].
    assert (K : forall t2 todo2 got2, z = MBackup M H t2 c1 q todo2 got2 -> exists t2 got2, clos_refl_trans_1n _ (mstep E3) (MBackup M H t1 c1 q todo got) (MBackup M H t2 c1 q [] got2) /\ clos_refl_trans_1n _ (mstep E3) (MBackup M H t2 c1 q [] got2) y /\ ls_error (categorize c1 got2) = []).
    { intros t2 todo2 got2 Ez. destruct (IH t2 c1 q todo2 got2 t' v Ez Ey) as (t3 & got3 & S3 & S4 & N3). exists t3, got3. split; auto. eapply rt1n_trans; eauto. }
    inversion S1; subst; try (now apply (K _ _ _ eq_refl)).
    - apply after_done in S2. discriminate S2.
    - exists t1, got. split; [apply rt1n_refl|]. split; [eapply rt1n_trans; eauto|auto].
  Qed.
  Local Lemma back_down o : plain_path o -> typed o -> plain_path (backup_of o).
  Proof.
    intros P To. destruct (backup_spec o To) as (d & x & e & -> & _ & _ & ->). unfold plain_path in *. rewrite Forall_app in *. split; [apply P|]. constructor; [|constructor].
    assert (X : forall y, length (x ++ s ".artbk") <> length y -> str_eqb (x ++ s ".artbk") y = false).
    { intros y N. destruct (str_eqb (x ++ s ".artbk") y) eqn:E; auto. apply str_eqb_eq in E. rewrite E in N. congruence. }
    unfold goes_down. rewrite !X by (rewrite app_length; cbn; lia). destruct x; reflexivity.
  Qed.
  Local Lemma back_below r x : typed (r ++ x) -> x <> [] -> exists z, x = fst z ++ [snd z] /\ backup_of (r ++ x) = r ++ fst z ++ [file_stem (snd z) ++ s ".artbk"].
  Proof.
    intros To Nx. destruct (exists_last Nx) as (d & f & ->). exists (d, f). split; auto. unfold backup_of. rewrite app_assoc, rev_app_distr. cbn [rev app fst snd]. rewrite rev_involutive. now rewrite <- app_assoc.
  Qed.

  (** Continuing without putting the backups back: interrupted at the wrong moment, the project
      is empty, and the next request that succeeds deletes everything there was. *)
  Theorem C86_forgotten : forall t' c1 p1, runs E1 E3 t (Ok (inl (c, p))) ops (MDone M H t' (Ok (inl (c1, p1)))) ->
    exists x, runs E1 E3 t (Ok (inl (c, p))) ops x /\ clos_refl_trans_1n _ (mstep E3) x (MDone M H t' (Ok (inl (c1, p1)))) /\ unfinished x /\ safe_disk st (disk M H x) /\
      (forall o, found_file st t o -> file_at (disk M H x) (backup_of o) = file_at t o) /\ (forall f, ~ found_file st (disk M H x) f) /\
      forall E0' n' lines_of' c2 p2, loads n' (art_files E0' (disk M H x) path_str st) (code_files E0' (disk M H x) lines_of' path_str st) (Ok (inl (c2, p2))) ->
        stored_form p2 = [] /\
        forall E1' E3' ops2 t2 c3 p3, Forall op_wf ops2 -> (forall o a, In o ops2 -> stores o a -> plain_path (im_file a)) ->
          runs E1' E3' (disk M H x) (Ok (inl (c2, p2))) ops2 (MDone M H t2 (Ok (inl (c3, p3)))) ->
          (forall a, In a (stored_form p3) -> exists o, In o (map (op_clean H) ops2) /\ stores o a) /\
          forall o, found_file st t o ->
            (file_at t2 o = None \/ exists a, In a (stored_form p3) /\ im_file a = o) /\
            (ls_error c3 = [] -> (forall z, In z (ls_other c3) -> li_cat z <> CRemoveBackups) -> ~ In (backup_of o) (se_xarts st) -> file_at t2 (backup_of o) = None).
  Proof.
    intros t' c1 p1 Rn. pose proof Rn as (x0 & B & S). unfold begins in B. cbn [res_bind] in B.
    destruct (pure (inl (c, p)) ops) as [[e|[c' q]]| |] eqn:Ep; try (subst x0; apply after_done in S; discriminate S).
    destruct B as (todo & P & ->). destruct (passes _ _ S _ _ _ _ _ _ _ eq_refl eq_refl) as (t1 & got & S1 & S2 & N1).
    assert (R1 : runs E1 E3 t (Ok (inl (c, p))) ops (MBackup M H t1 c' q [] got)).
    { exists (MBackup M H t c' q todo []). split; auto. unfold begins. cbn [res_bind]. rewrite Ep. eauto. }
    exists (MBackup M H t1 c' q [] got). cbn [disk]. split; auto. split; [exact S2|]. split; [exact I|].
    assert (Ib : inv_b path_str st E1 t t1 [] got).
    { destruct (Inv _ R1) as [(r & X & _)|(c'' & q'' & _ & X)]; [discriminate X|apply X]. }
    pose proof (walk_found path_str st E1 t t1 c' got Ib N1) as Wk. pose proof (roots_found path_str st E1 t R t1 c' got Ib N1) as Rd.
    assert (Mv : forall o, found_file st t o -> moved t t1 o).
    { intros o F. destruct (ib_each _ _ _ _ _ _ _ Ib o) as [X|[_ [[]|(z & Hz & Lz)]]]; auto; [apply found_orig; auto; [apply T|apply R]|]. exfalso. eapply error_stays; eauto. }
    assert (Old : forall f y, file_at t1 f = Some y -> (exists o, found_file st t o /\ f = backup_of o) \/ file_at t f = Some y).
    { intros f y F. destruct (bk_found_dec st t T R f) as [X|X]; auto. right. rewrite <- F. symmetry. apply (ib_other _ _ _ _ _ _ _ Ib).
      - intros O. apply (orig_found path_str st t T R) in O. apply Mv in O as [O _]. congruence.
      - intros (o & O & ->). apply (X o); auto. now apply (orig_found path_str st t T R) in O. }
    assert (Nf : forall f, ~ found_file st t1 f).
    { intros f (r & Hr & (x & y & E & Nx & Lk & Ex) & Ke). assert (F1 : file_at t1 f = Some y) by (unfold file_at; now rewrite Lk).
      assert (Tf : typed f) by now apply art_type_iff.
      destruct (Old f y F1) as [(o & Fo & ->)|F0]; [apply (backup_typed o (backup_of o)); auto; eapply found_typed; eauto|].
      assert (Ff : found_file st t f). { exists r. split; auto. split; auto. exists x, y. split; auto. split; auto. split; auto. unfold file_at in F0. destruct (lookup t f) as [[z|l]|]; try discriminate F0. congruence. }
      apply Mv in Ff as [Ff _]. congruence. }
    assert (T1 : tree_ok t1) by apply Ib. pose proof (ib_dirs _ _ _ _ _ _ _ Ib) as Dd.
    assert (R1' : forall r, In r (se_arts st) -> file_at t1 r = None).
    { intros r Hr. specialize (Rd r Hr). rewrite <- Dd in Rd. unfold file_at. destruct (lookup t1 r) as [[y|l]|]; auto. discriminate Rd. }
    assert (Sd1 : safe_disk st t1).
    { constructor; auto.
      - intros f m L. destruct m as [y|l].
        + destruct (Old f y) as [(o & Fo & ->)|F0]; [unfold file_at; now rewrite L| |].
          * destruct (found_exists st t o Fo) as [z Lz]. apply back_down; [eapply Nm; eauto|eapply found_typed; eauto].
          * unfold file_at in F0. destruct (lookup t f) as [z|] eqn:Lz; [eapply Nm; eauto|discriminate F0].
        + specialize (Dd f). rewrite L in Dd. cbn [is_dir] in Dd. destruct (lookup t f) as [z|] eqn:Lz; [eapply Nm; eauto|discriminate Dd].
      - intros o o' F. exfalso. now apply (Nf o). }
    split; auto. split; [intros o F; now apply Mv|]. split; auto. intros E0' n' lo' c2 p2 Ld2.
    assert (Em : stored_form p2 = []).
    { destruct (stored_form p2) as [|a l] eqn:E; auto. exfalso. apply (Nf (im_file a)). apply (orig_found path_str st t1 T1 R1' E0').
      apply (loads_files path_str M topo TC H hash_im st yaml parse_toml parse_json PO PJ parse_msg prefix settings_path url_error E0' t1 n' _ c2 p2 (found_walk_ok _ _ _ _ _ _ _ _) Ld2). rewrite E. now left. }
    split; auto. intros E1' E3' ops2 t2 c3 p3 W2 Wp2 Rn2.
    assert (L2 : loaded_ok hash_im p2) by exact (l_ok path_str M topo TC H hash_im st yaml parse_toml parse_json PO PJ parse_msg prefix settings_path url_error t1 c2 p2 E0' n' _ (found_walk_ok _ _ _ _ _ _ _ _) Ld2).
    pose proof Rn2 as Rn2'.
    destruct (success_found path_str M topo TC H heqb heqb_iff hash_im debug_im st to_toml to_json yaml_done style E1' E3' yaml parse_toml parse_json PO PJ parse_msg prefix settings_path url_error t1 T1 (sd_names _ _ Sd1) R1' (sd_twins _ _ Sd1)
      c2 p2 ops2 E0' n' _ (found_walk_ok _ _ _ _ _ _ _ _) Ld2 W2 Wp2 t2 c3 p3 Rn2) as (_ & _ & _ & _ & So & _ & _).
    split.
    - intros a Ha. destruct (success path_str M topo TC H heqb heqb_iff hash_im debug_im st to_toml to_json yaml_done style E1' E3' t1 T1 R1' (u_orig path_str st E1' t1 T1 R1' (sd_twins _ _ Sd1)) c2 p2 ops2 L2
        (fun b Hb => l_typed path_str M topo TC H hash_im st yaml parse_toml parse_json PO PJ parse_msg prefix settings_path url_error t1 T1 R1' c2 p2 E0' n' _ (found_walk_ok _ _ _ _ _ _ _ _) Ld2 b Hb) W2 t2 c3 p3 Rn2') as (c5 & q5 & Ep5 & -> & _).
      destruct (sort_stored path_str M topo TC H heqb heqb_iff hash_im debug_im st c2 p2 ops2 c5 q5 L2 W2 Ep5) as (_ & _ & P5). apply (Permutation_in _ P5) in Ha.
      destruct (pure_from path_str M topo TC H heqb heqb_iff hash_im debug_im st c2 p2 ops2 c5 q5 L2 W2 Ep5 a Ha) as [X|X]; auto. rewrite Em in X. destruct X.
    - intros o Fo. pose proof (found_typed st t o Fo) as To. split.
      + destruct (in_dec path_dec o (map im_file (stored_form p3))) as [I|I]; [right; apply in_map_iff in I as (a & <- & Ha); eauto|]. left.
        rewrite So; [now apply Mv|apply Nf| |left; now apply typed_backup]. intros a Ha <-. apply I. now apply in_map.
      + intros N3 N4 Nx. pose proof Fo as (r & Hr & (x & y & E & Nn & Lk & Ex) & _). subst o. destruct (back_below r x To Nn) as ([d f] & -> & Eb). cbn [fst snd] in *.
        eapply (proj2 (C41_no_artifacts path_str M topo H heqb hash_im debug_im st to_toml to_json yaml_done style E1' E3' yaml parse_toml parse_json parse_msg prefix settings_path url_error E0' n' lo' t1 c2 p2 ops2 t2 c3 p3 TC heqb_iff PO PJ Sd1 Ld2 W2 Wp2 Rn2') N3 N4 r _ Hr).
        * destruct (Mv _ Fo) as [_ Mb]. exists (d ++ [file_stem f ++ s ".artbk"]), y. split; [exact Eb|]. split; [now destruct d|]. split.
          -- unfold file_at in Mb at 2. rewrite Lk in Mb. unfold file_at in Mb. destruct (lookup t1 (backup_of (r ++ d ++ [f]))) as [[z|l]|]; try discriminate Mb. congruence.
          -- intros a b Eab. destruct b as [|w0 b0].
             ++ rewrite app_nil_r in Eab. subst a. rewrite <- Eb. exact Nx.
             ++ destruct (@exists_last _ (w0 :: b0)) as (b' & w & Ew); [discriminate|]. rewrite Ew in Eab. rewrite app_assoc in Eab. apply app_inj_tail in Eab as [Ed _].
                apply (Ex a (b' ++ [f])). rewrite Ed. now rewrite app_assoc.
        * apply is_backup_iff. now apply backup_is.
  Qed.
End Theorems.

(** Two disks with the same files. *)
Local Lemma same_files t1 t2 f : (forall g, In g (all_files t1 ++ all_files t2) -> g = f -> file_at t1 f = file_at t2 f) -> file_at t1 f = file_at t2 f.
Proof.
  intros X. destruct (in_dec path_dec f (all_files t1 ++ all_files t2)) as [I|I]; [now apply (X f)|].
  assert (Z : forall t, (forall g, In g (all_files t) -> g <> f) -> file_at t f = None).
  { intros t N. unfold file_at. destruct (lookup t f) as [[y|l]|] eqn:L; auto. exfalso. now apply (N f (all_files_in f t y L)). }
  rewrite in_app_iff in I. rewrite !Z; auto; intros g Hg ->; tauto.
Qed.
(** The example disk, interrupted when its files are backed up: there is nothing to load, moving
    the backups back gives it again, and formatting it then leaves only what is no artifact
    file. *)
Definition m_cut : node := fst (seq_backup ex_path m_tree [] (to_back_up ex_path m_st no_errs m_tree)).
Example C86_example :
  no_stale m_st m_tree /\ (exists x, m_run m_st m_tree [] x /\ unfinished x /\ disk _ _ x = m_cut) /\ put_back m_st m_tree m_cut m_tree /\
  all_files m_cut = [in_file (s "a.artbk"); in_file (s "b.artbk"); [s "p"; s "other.md"]] /\
  m_out (m_mod m_st m_cut []) = (None, []) /\ all_files (fst (m_mod m_st m_cut [])) = [[s "p"; s "other.md"]].
Proof.
  pose proof (fun f => arts_found_ok m_st m_tree (sd_tree _ _ m_safe) (sd_roots _ _ m_safe) f) as Fo.
  assert (Af : arts_found m_st m_tree = [in_file (s "a.md"); in_file (s "b.md")]) by (vm_compute; reflexivity). rewrite Af in Fo.
  split; [|split; [|split; [|vm_compute; auto]]].
  - intros o F. apply Fo in F as [<-|[<-|[]]]; vm_compute; reflexivity.
  - assert (B : m_pure_ok m_st m_tree [] = true) by (vm_compute; reflexivity). unfold m_pure_ok in B.
    destruct (m_load m_st m_tree) as [[[c0 p0]|]| |] eqn:E; try discriminate B.
    destruct (modify_pure ex_path exact_num topo_sort str str_eqb mid (fun _ => s "art") m_st (inl (c0, p0)) []) as [[|[c q]]| |] eqn:Ep; try discriminate B.
    eexists. split; [exact (m_backed m_st m_tree [] c0 p0 c q E Ep)|]. split; [exact I|reflexivity].
  - constructor.
    + intros o y F. apply Fo in F as [<-|[<-|[]]]; intros Ey; rewrite <- Ey; vm_compute; reflexivity.
    + intros o F. apply Fo in F as [<-|[<-|[]]]; vm_compute; discriminate.
    + intros o F. apply Fo in F as [<-|[<-|[]]]; vm_compute; reflexivity.
    + intros f Nf Nb. apply same_files. intros g Hg ->.
      assert (L : all_files m_tree ++ all_files m_cut = [in_file (s "a.md"); in_file (s "b.md"); [s "p"; s "other.md"]; in_file (s "a.artbk"); in_file (s "b.artbk"); [s "p"; s "other.md"]]) by (vm_compute; reflexivity).
      rewrite L in Hg. destruct Hg as [<-|[<-|[<-|[<-|[<-|[<-|[]]]]]]]; try (vm_compute; reflexivity); exfalso.
      * apply Nf, Fo. now left.
      * apply Nf, Fo. right. now left.
      * apply (Nb (in_file (s "a.md"))); [apply Fo; now left|vm_compute; reflexivity].
      * apply (Nb (in_file (s "b.md"))); [apply Fo; right; now left|vm_compute; reflexivity].
Qed.
Print Assumptions C86_restore.
Print Assumptions C86_finish.
Print Assumptions C86_forgotten.
