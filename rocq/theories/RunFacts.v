(** Whole runs of [modify_project]. *)
From Coq Require Import Permutation Relation_Operators Lia ZifyBool.
From Verif Require Import Base BaseFacts Name NameFacts Artifact SpecGraph SpecLinks LinkFacts Stored Markdown MarkdownFacts Lint LintFacts LintThms Source JoinFacts
  Pool Load SpecLoad LoadFacts ReadThms CheckFacts Disk DiskFacts Walk SpecWalk WalkFacts Modify SpecModify OpFacts PureFacts PhaseFacts.

Section Runs.
  Variable path_str : path -> str.
  Variable M : num.
  Variable topo : graph -> option (list nat).
  Variable TC : topo_ok topo.
  Variable H : Type.
  Variable heqb : H -> H -> bool.
  Variable heqb_iff : forall a b, heqb a b = true <-> a = b.
  Variable hash_im : art_im -> H.
  Variable debug_im : art_im -> str.
  Variable st : settings.
  Variables to_toml to_json : list (name * art_raw) -> str.
  Variable yaml_done : str -> str.
  Variable style : md_attrs.
  Variables E1 E3 : disk_errs.

  Notation mstep := (mstep path_str M H st to_toml to_json yaml_done style E3).
  Notation to_back_up := (to_back_up path_str st E1).
  Notation to_remove := (to_remove path_str st E3).
  Notation runs := (runs path_str M topo H heqb hash_im debug_im st to_toml to_json yaml_done style E1 E3).
  Notation pure := (modify_pure path_str M topo H heqb hash_im debug_im st).
  Notation holds := (holds to_toml to_json yaml_done style).
  Notation text_of := (text_of to_toml to_json yaml_done style).
  Notation inv := (inv path_str M H st to_toml to_json yaml_done style E1 E3).
  Notation saved_all := (saved_all path_str M H st to_toml to_json yaml_done style E1).
  Notation inv_s := (inv_s path_str M H st to_toml to_json yaml_done style E1).
  Notation inv_r := (inv_r path_str st E3).
  Notation target := (target M H to_toml to_json yaml_done style).
  Notation orig := (orig path_str st E1).

  Variable t : node.
  Hypothesis T : tree_ok t.
  Hypothesis R : forall r, In r (se_arts st) -> file_at t r = None.
  Hypothesis U : forall q q', orig t q -> orig t q' -> backup_of q = backup_of q' -> q = q'.
  Variables (c : lints) (p : project M H) (ops : list (op H)).
  Hypothesis L : loaded_ok hash_im p.
  Hypothesis Lt : forall a, In a (stored_form p) -> typed (im_file a).
  Hypothesis W : Forall op_wf ops.

  Lemma new_typed c' q : pure (inl (c, p)) ops = Ok (inr (c', q)) -> forall a, In a (stored_form q) -> typed (im_file a).
  Proof.
    intros E a Ha. destruct (pure_from path_str M topo TC H heqb heqb_iff hash_im debug_im st c p ops c' q L W E a Ha) as [Hp|(o & Ho & So)]; auto.
    destruct (pure_accepts path_str M topo TC H heqb heqb_iff hash_im debug_im st c p ops c' q L W E) as (_ & _ & _ & Cp & _).
    assert (F : op_file H o = Some (im_file a)) by (destruct So as [->|[i ->]]; reflexivity). apply art_type_iff. specialize (Cp o _ Ho F). now apply check_path_ok in Cp.
  Qed.
  Lemma new_names c' q : pure (inl (c, p)) ops = Ok (inr (c', q)) -> loaded_ok hash_im q /\ NoDup (map nk (map im_name (stored_form q))).
  Proof.
    intros E. destruct (pure_accepts path_str M topo TC H heqb heqb_iff hash_im debug_im st c p ops c' q L W E) as (_ & _ & _ & _ & m & _ & _ & _ & Lq & _).
    split; auto. rewrite map_map. apply distinct_nk; apply Lq.
  Qed.
  Lemma job_typed c' q f x : pure (inl (c, p)) ops = Ok (inr (c', q)) -> In (f, x) (save_jobs M H to_toml to_json yaml_done style q) -> typed f.
  Proof.
    intros E Hin. apply save_exact in Hin as [(a & Ha & <-) _]; [|now apply (new_names c' q)]. eapply new_typed; eauto.
  Qed.

  Lemma run_inv x : runs t (Ok (inl (c, p))) ops x ->
    (exists r, x = MDone M H t r /\ forall v, r <> Ok (inl v)) \/ exists c' q, pure (inl (c, p)) ops = Ok (inr (c', q)) /\ inv t q x.
  Proof.
    intros (x0 & B & S). unfold begins in B. cbn [res_bind] in B. destruct (pure (inl (c, p)) ops) as [[e|[c' q]]| |] eqn:E.
    - subst x0. apply after_done in S as ->. left. eexists. split; [reflexivity|discriminate].
    - destruct B as (todo & P & ->). right. exists c', q. split; auto.
      apply (inv_steps path_str M H st to_toml to_json yaml_done style E1 E3 t T R U q (proj2 (new_names c' q E)) (fun f y => job_typed c' q f y E) _ _ S). now apply inv_start.
    - subst x0. apply after_done in S as ->. left. eexists. split; [reflexivity|discriminate].
    - subst x0. apply after_done in S as ->. left. eexists. split; [reflexivity|discriminate].
  Qed.

  (** Removing backups takes nothing but backups. *)
  Lemma removed_only t3 t' todo got : tree_ok t3 -> roots_dir st t3 -> inv_r t3 t' todo got -> forall q, is_backup q = false -> file_at t' q = file_at t3 q.
  Proof.
    intros T3 R3 I q B. destruct (ir_other _ _ _ _ _ _ _ I q) as [X|[_ X]]; auto. apply remove_sound in X as [X _]; auto. congruence.
  Qed.
  Lemma all_written q t3 : NoDup (map nk (map im_name (stored_form q))) -> (forall a, In a (stored_form q) -> typed (im_file a)) ->
    (forall a b l, In a (stored_form q) -> In b (stored_form q) -> locate (im_file a) = Some l -> locate (im_file b) = Some l -> im_file a = im_file b) ->
    saved_all t q t3 -> holds t3 q.
  Proof.
    intros D Ty Ap (_ & _ & Wr) a Ha.
    assert (Jn : In (im_file a, text_of q (im_file a)) (save_jobs M H to_toml to_json yaml_done style q)).
    { apply save_exact; auto. split; eauto. }
    destruct (Wr) with (j := (im_file a, text_of q (im_file a))) as (l & El & Wl & _); auto.
    { intros f x f' x' l Hf Hf' E E'. apply save_exact in Hf as [(b & Hb & <-) _]; auto. apply save_exact in Hf' as [(b' & Hb' & <-) _]; auto. eapply Ap; eauto. }
    cbn [fst snd] in *. destruct (text_total M H to_toml to_json yaml_done style q D (im_file a) (text_of q (im_file a))) as [y Ey]; auto. exists l, y. auto.
  Qed.

  (** At every moment either all originals can be recovered or the new project is complete. *)
  Theorem crash_safe x : runs t (Ok (inl (c, p))) ops x ->
    (forall c' q, pure (inl (c, p)) ops = Ok (inr (c', q)) ->
       forall a b l, In a (stored_form q) -> In b (stored_form q) -> locate (im_file a) = Some l -> locate (im_file b) = Some l -> im_file a = im_file b) ->
    (forall o y, orig t o -> file_at t o = Some y -> file_at (disk M H x) o = Some y \/ file_at (disk M H x) (backup_of o) = Some y) \/
    (exists c' q, pure (inl (c, p)) ops = Ok (inr (c', q)) /\ holds (disk M H x) q).
  Proof.
    intros Rn Ap. destruct (run_inv x Rn) as [(r & -> & _)|(c' & q & E & I)]; [left; auto|]. destruct (new_names c' q E) as [Lq D].
    assert (B : forall t' todo got, inv_b path_str st E1 t t' todo got -> forall o y, orig t o -> file_at t o = Some y -> file_at t' o = Some y \/ file_at t' (backup_of o) = Some y).
    { intros t' todo got Ib o y Ho Fo. destruct (ib_each _ _ _ _ _ _ _ Ib o Ho) as [[_ X]|[[X _] _]]; rewrite X; auto. }
    assert (S : forall t', inv_s t q t' -> forall o y, orig t o -> file_at t o = Some y -> file_at t' o = Some y \/ file_at t' (backup_of o) = Some y).
    { intros t' Is o y Ho Fo. right. rewrite (is_bks _ _ _ _ _ _ _ _ _ _ _ _ Is o Ho). exact Fo. }
    assert (F : forall t3 t' todo got, saved_all t q t3 -> inv_r t3 t' todo got -> holds t' q).
    { intros t3 t' todo got Sa Ir a Ha. pose proof (new_typed c' q E) as Ty.
      destruct (all_written q t3 D Ty (Ap c' q E) Sa a Ha) as (l & y & El & Ey & Fl). exists l, y. split; auto. split; auto.
      rewrite <- Fl. destruct Sa as (Is & [Rd _] & _). eapply removed_only; eauto; [apply Is|]. apply typed_backup, (locate_typed (im_file a)); auto. }
    destruct x as [t' c1 p1 todo got|t' c1 p1 todo got|t' c1 p1 todo got|t' r]; cbn [PhaseFacts.inv disk] in *.
    - left. destruct I as [-> I]. eauto.
    - left. destruct I as (-> & I & _). eauto.
    - right. destruct I as (-> & _ & t3 & Sa & Ir). exists c', q. split; eauto.
    - destruct r as [[[c1 p1]|[[] l]]| |]; try contradiction.
      + destruct I as (_ & t3 & c0 & got & Sa & _ & Ir & _). right. exists c', q. split; eauto.
      + destruct I as [got I]. left. eauto.
      + destruct I as [I _]. left. eauto.
  Qed.

  (** A run that ends well. *)
  Lemma orig_below f : orig t f -> exists r, In r (se_arts st) /\ below f r /\ f <> r.
  Proof.
    intros O. pose proof O as O'. unfold PhaseFacts.orig, Modify.to_back_up in O. apply walk_inl in O as (r & Hr & Hq). exists r. split; auto. pose proof (R r Hr) as Fr.
    unfold file_at in Fr. destruct (lookup t r) as [[y|l]|] eqn:Lk; [discriminate Fr| |rewrite walk_path_none in Hq by auto; destruct Hq].
    destruct (walk_path (e_stat E1) (e_open E1) (e_none E1) (art_filter (se_xarts st)) t r) as [fs e] eqn:Wk. cbn [fst] in Hq.
    destruct (walk_path_exact _ _ _ _ (se_xarts st) known_extension (art_filter_dir _) (art_filter_file _) t T r l Lk fs e Wk) as (_ & So & _).
    destruct (So f Hq) as [(x & y & -> & Nx & _) _]. split; [now exists x|]. intros X. apply Nx. apply (app_inv_head r). now rewrite app_nil_r.
  Qed.
  Lemma backup_below o r : typed o -> below o r -> o <> r -> below (backup_of o) r.
  Proof.
    intros Ty [x ->] Ne. destruct (backup_spec _ Ty) as (d & f & e & E & _ & _ & ->). destruct x as [|y x _] using rev_ind; [rewrite app_nil_r in Ne; contradiction|].
    rewrite app_assoc in E. apply app_inj_tail in E as [<- _]. exists (x ++ [f ++ s ".artbk"]). now rewrite app_assoc.
  Qed.
  Lemma target_art q l : NoDup (map nk (map im_name (stored_form q))) -> target q l <-> exists a, In a (stored_form q) /\ locate (im_file a) = Some l.
  Proof.
    intros D. split.
    - intros (f & x & Hf & E). apply save_exact in Hf as [(a & Ha & <-) _]; auto. eauto.
    - intros (a & Ha & E). exists (im_file a), (text_of q (im_file a)). split; auto. apply save_exact; auto. split; eauto.
  Qed.

  Theorem success t' c1 p1 : runs t (Ok (inl (c, p))) ops (MDone M H t' (Ok (inl (c1, p1)))) ->
    exists c' q, pure (inl (c, p)) ops = Ok (inr (c', q)) /\ p1 = project_sort M H q /\
      ((forall a b l, In a (stored_form q) -> In b (stored_form q) -> locate (im_file a) = Some l -> locate (im_file b) = Some l -> im_file a = im_file b) -> holds t' q) /\
      (forall o, orig t o -> (forall a, In a (stored_form q) -> locate (im_file a) <> Some o) -> file_at t' o = None) /\
      (ls_error c1 = [] -> (forall x, In x (ls_other c1) -> li_cat x <> CRemoveBackups) -> forall r f, In r (se_arts st) -> reachable t' (se_xarts st) r f -> is_backup f = false) /\
      (forall f, ~ orig t f -> is_backup f = false \/ (forall r, In r (se_arts st) -> ~ below f r) -> (forall a, In a (stored_form q) -> locate (im_file a) <> Some f) -> file_at t' f = file_at t f) /\
      same_dirs t t' /\ tree_ok t' /\ roots_dir st t' /\ (forall x, ~ In (inr x) (to_back_up t)).
  Proof.
    intros Rn. destruct (run_inv _ Rn) as [(r & E & N)|(c' & q & E & I)]; [injection E as -> <-; exfalso; eapply N; reflexivity|].
    destruct (new_names c' q E) as [Lq D]. pose proof (new_typed c' q E) as Ty. cbn [PhaseFacts.inv] in I. destruct I as (Ep & t3 & c0 & got & Sa & Ec0 & Ir & Ec).
    pose proof Sa as (Is & [Rd Wo] & Wr). pose proof (is_tree _ _ _ _ _ _ _ _ _ _ _ _ Is) as T3.
    assert (Nt : forall f, (forall a, In a (stored_form q) -> locate (im_file a) <> Some f) -> ~ target q f).
    { intros f Nf Tf. apply (target_art q f D) in Tf as (a & Ha & X). now apply (Nf a Ha). }
    exists c', q. split; auto. split; auto. split; [|split; [|split; [|split; [|split; [|split; [|split]]]]]].
    - intros Ap a Ha. destruct (all_written q t3 D Ty Ap Sa a Ha) as (l & y & El & Ey & Fl). exists l, y. split; auto. split; auto.
      rewrite <- Fl. eapply removed_only; eauto. apply typed_backup, (locate_typed (im_file a)); auto.
    - intros o Ho No. destruct (ir_other _ _ _ _ _ _ _ Ir o) as [X|[X _]]; auto. rewrite X. apply (is_gone _ _ _ _ _ _ _ _ _ _ _ _ Is o Ho). now apply Nt.
    - intros Er Nw r f Hr (x & y & -> & Nx & Lk & Ex). destruct (is_backup (r ++ x)) eqn:B; auto. exfalso.
      assert (Ff : file_at t' (r ++ x) = Some y) by (unfold file_at; now rewrite Lk).
      assert (F3 : file_at t3 (r ++ x) = Some y) by (destruct (ir_other _ _ _ _ _ _ _ Ir (r ++ x)) as [X|[X _]]; congruence).
      assert (No : forall z, ~ In (inr z) (to_remove t3)).
      { intros z Hz. destruct (ir_walk _ _ _ _ _ _ _ Ir z Hz) as [[]|Hg]. apply (error_stays c0 got z Hg); [unfold Modify.to_remove in Hz; eapply walk_error; eauto|]. now rewrite <- Ec. }
      assert (In (inl (r ++ x)) (to_remove t3)) as Hin.
      { apply (remove_complete path_str st E3 t3 (r ++ x) r); auto. exists x, y. split; auto. split; auto. split; auto. unfold file_at in F3. destruct (lookup t3 (r ++ x)) as [[z|l]|]; try discriminate F3. now injection F3 as ->. }
      destruct (ir_each _ _ _ _ _ _ _ Ir _ Hin) as [[]|[X|(z & Hz & Cz)]]; [congruence|].
      destruct (li_level z) eqn:Lz; [apply (error_stays c0 got z Hz Lz); now rewrite <- Ec|]. apply (Nw z); auto. rewrite Ec, categorize_ok. cbn [ls_other]. apply in_or_app. right. apply filter_In. split; auto. unfold is_error. now rewrite Lz.
    - intros f No Bf Nf. assert (X : file_at t' f = file_at t3 f).
      { destruct (ir_other _ _ _ _ _ _ _ Ir f) as [X|[_ X]]; auto. apply remove_sound in X as [X (r & Hr & x & y & -> & _)]; auto. destruct Bf as [Bf|Bf]; [congruence|]. exfalso. apply (Bf r Hr). now exists x. }
      rewrite X. apply (is_other _ _ _ _ _ _ _ _ _ _ _ _ Is); auto. intros (o & Ho & ->). destruct (orig_ok path_str st E1 t T R o Ho) as [To _]. destruct Bf as [Bf|Bf]; [rewrite backup_is in Bf; [discriminate|auto]|].
      destruct (orig_below o Ho) as (r & Hr & Br & Nr). apply (Bf r Hr). now apply backup_below.
    - intros f. rewrite (ir_dirs _ _ _ _ _ _ _ Ir f). apply (is_dirs _ _ _ _ _ _ _ _ _ _ _ _ Is).
    - apply Ir.
    - intros r Hr. rewrite (ir_dirs _ _ _ _ _ _ _ Ir r). now apply Rd.
    - exact Wo.
  Qed.

  Lemma bk_dec f : (exists o, orig t o /\ f = backup_of o) \/ ~ (exists o, orig t o /\ f = backup_of o).
  Proof.
    unfold PhaseFacts.orig. destruct (existsb (fun i => match i with inl o => path_eqb f (backup_of o) | inr _ => false end) (to_back_up t)) eqn:E.
    - left. apply existsb_exists in E as ([o|x] & Hi & X); [|discriminate X]. apply path_eqb_iff in X as ->. eauto.
    - right. intros (o & Ho & ->). rewrite <- Bool.not_true_iff_false in E. apply E, existsb_exists. exists (inl o). split; auto. now apply path_eqb_iff.
  Qed.
  Lemma target_dec q f : target q f \/ ~ target q f.
  Proof.
    unfold PhaseFacts.target. destruct (existsb (fun j => match locate (fst j) with Some l => path_eqb l f | None => false end) (J M H to_toml to_json yaml_done style q)) eqn:E.
    - left. apply existsb_exists in E as ([g x] & Hi & X). cbn [fst] in X. destruct (locate g) as [l|] eqn:El; [|discriminate X]. apply path_eqb_iff in X as ->. exists g, x. auto.
    - right. intros (g & x & Hi & El). rewrite <- Bool.not_true_iff_false in E. apply E, existsb_exists. exists (g, x). split; auto. cbn [fst]. rewrite El. now apply path_eqb_iff.
  Qed.
  (** Where a file of the new disk comes from. *)
  Theorem success_origin t' c1 p1 : runs t (Ok (inl (c, p))) ops (MDone M H t' (Ok (inl (c1, p1)))) ->
    exists c' q, pure (inl (c, p)) ops = Ok (inr (c', q)) /\ p1 = project_sort M H q /\
    forall f, file_at t' f = None \/ file_at t' f = file_at t f \/ (exists o, orig t o /\ f = backup_of o) \/ (exists a, In a (stored_form q) /\ locate (im_file a) = Some f).
  Proof.
    intros Rn. destruct (run_inv _ Rn) as [(r & E & N)|(c' & q & E & I)]; [injection E as -> <-; exfalso; eapply N; reflexivity|].
    destruct (new_names c' q E) as [Lq D]. cbn [PhaseFacts.inv] in I. destruct I as (Ep & t3 & c0 & got & Sa & Ec0 & Ir & Ec).
    pose proof Sa as (Is & [Rd Wo] & Wr). exists c', q. split; auto. split; auto. intros f.
    destruct (ir_other _ _ _ _ _ _ _ Ir f) as [X|[X _]]; auto. destruct (orig_dec path_str st E1 t f) as [O|O].
    - destruct (target_dec q f) as [Tf|Tf]; [right; right; right; now apply target_art|]. left. rewrite X. now apply (is_gone _ _ _ _ _ _ _ _ _ _ _ _ Is f).
    - destruct (target_dec q f) as [Tf|Tf]; [right; right; right; now apply target_art|].
      destruct (bk_dec f) as [B|B]; [right; right; now left|]. right. left. rewrite X. now apply (is_other _ _ _ _ _ _ _ _ _ _ _ _ Is).
  Qed.
End Runs.
