(** Where the lints of a modify request come from, and that it always ends. *)
From Coq Require Import Permutation Relation_Operators.
From Verif Require Import Base BaseFacts Regex Name NameFacts Artifact SpecGraph SpecLinks Stored ProjectFacts Markdown Lint LintThms Source
  Pool Load LoadFacts SpecLoad CheckFacts Disk DiskFacts Walk SpecWalk WalkFacts Settings SpecSettings Modify SpecModify OpFacts PureFacts PhaseFacts ResultFacts.

Lemma walk_lint se oe nf ps filter t roots x : In (inr x) (walk_paths se oe nf ps filter t roots) -> exists r m, In r roots /\ x = load_error ps r m.
Proof.
  unfold walk_paths. rewrite in_flat_map. intros (r & Hr & Hx). destruct (walk_path se oe nf filter t r) as [fs e]. apply in_app_or in Hx as [Hx|Hx].
  - apply in_map_iff in Hx as (y & Y & _). discriminate Y.
  - destruct e as [m|]; [|destruct Hx]. destruct Hx as [X|[]]. injection X as <-. eauto.
Qed.
Lemma walk_from se oe nf ps t ex roots q : tree_ok t -> In (inl q) (walk_paths se oe nf ps (art_filter ex) t roots) -> exists r, In r roots /\ found_from t ex r q.
Proof.
  intros T Hq. apply walk_inl in Hq as (r & Hr & Hq). exists r. split; auto. destruct (lookup t r) as [[c|l]|] eqn:L.
  - rewrite (walk_path_file _ _ _ _ t r c L) in Hq. destruct Hq as [<-|[]]. right. eauto.
  - destruct (walk_path se oe nf (art_filter ex) t r) as [fs e] eqn:W. destruct (walk_path_exact _ _ _ _ ex known_extension (art_filter_dir _) (art_filter_file _) t T r l L fs e W) as (_ & So & _).
    left. now apply So.
  - rewrite walk_path_none in Hq by auto. destruct Hq.
Qed.
Lemma insert_keys {K V} (eqb : K -> K -> bool) k (v : V) : forall m x, In x (map fst (im_insert eqb k v m)) -> x = k \/ In x (map fst m).
Proof.
  induction m as [|[k' v'] m IH]; intros x Hx; cbn [im_insert] in Hx.
  - destruct Hx as [<-|[]]. auto.
  - match type of Hx with context [if ?b then _ else _] => destruct b end; cbn [map fst In] in *; [destruct Hx as [<-|Hx]; auto|]. destruct Hx as [<-|Hx]; auto. apply IH in Hx as [->|Hx]; auto.
Qed.
Lemma save_keys_in M H (arts : list (name * artifact M H)) q : In q (map fst (save_files M H arts)) -> exists a, In a (map (fun e => to_im (snd e)) arts) /\ im_file a = q.
Proof.
  unfold save_files. induction arts as [|e arts IH] using rev_ind; [intros []|]. rewrite fold_left_app. cbn [fold_left]. unfold save_entry at 1. cbn [into_raw]. intros Hq.
  apply insert_keys in Hq as [->|Hq].
  - exists (to_im (snd e)). split; auto. rewrite map_app. apply in_or_app. right. now left.
  - apply IH in Hq as (a & Ha & Ea). exists a. split; auto. rewrite map_app. apply in_or_app. now left.
Qed.
Lemma error_in c l x : In x (ls_error (categorize c l)) -> In x (ls_error c) \/ (In x l /\ li_level x = LError).
Proof.
  rewrite categorize_ok. cbn [ls_error]. intros Hx. apply in_app_or in Hx as [Hx|Hx]; auto. apply filter_In in Hx as [Hx Lx]. right. split; auto. unfold is_error in Lx. now destruct (li_level x).
Qed.
Lemma sorted_error c x : In x (ls_error (sort_lints c)) <-> In x (ls_error c).
Proof. unfold sort_lints. cbn [ls_error]. apply (sort_dedup_ok (ls_error c)). Qed.
Lemma sorted_nil c : ls_error (sort_lints c) = [] <-> ls_error c = [].
Proof. unfold sort_lints. cbn [ls_error]. apply sort_dedup_nil. Qed.

Section Outcomes.
  Variable path_str : path -> str.
  Variable M : num.
  Variable topo : graph -> option (list nat).
  Variable H : Type.
  Variable heqb : H -> H -> bool.
  Variable hash_im : art_im -> H.
  Variable debug_im : art_im -> str.
  Variable st : settings.
  Variables to_toml to_json : list (name * art_raw) -> str.
  Variable yaml_done : str -> str.
  Variable style : md_attrs.
  Variables E1 E3 : disk_errs.
  Notation pure := (modify_pure path_str M topo H heqb hash_im debug_im st).
  Notation runs := (runs path_str M topo H heqb hash_im debug_im st to_toml to_json yaml_done style E1 E3).
  Notation mstep := (mstep path_str M H st to_toml to_json yaml_done style E3).
  Notation steps := (clos_refl_trans_1n _ mstep).

  (** ** Before the disk is touched *)
  Lemma not_nil_ne {A} (l : list A) : negb (is_nil l) = true -> l <> [].
  Proof. now destruct l. Qed.
  Lemma nil_of {A} (l : list A) : negb (is_nil l) = false -> l = [].
  Proof. now destruct l. Qed.

  Lemma overlap_cat ops : forall ids x, In x (check_overlap H heqb hash_im ids ops) -> li_cat x = CIdOverlap.
  Proof.
    induction ops as [|o ops IH]; intros ids x Hx; cbn [check_overlap] in Hx; [destruct Hx|]. destruct (opt_eqb H heqb _ _); [eauto|].
    assert (Tk : forall ids i n x, In x (snd (take_id H heqb ids i n)) -> li_cat x = CIdOverlap).
    { intros ids' i n y. unfold take_id. destruct i as [h|]; cbn [snd]; [|intros []]. destruct (is_mem heqb h ids'); [|intros []]. intros [<-|[]]. reflexivity. }
    destruct (take_id H heqb ids (op_new H hash_im o) (op_name H o)) as [i1 l1] eqn:T1. destruct (take_id H heqb i1 (op_orig H o) (op_name H o)) as [i2 l2] eqn:T2.
    apply in_app_or in Hx as [Hx|Hx]; [apply (Tk ids (op_new H hash_im o) (op_name H o)); now rewrite T1|].
    apply in_app_or in Hx as [Hx|Hx]; [apply (Tk i1 (op_orig H o) (op_name H o)); now rewrite T2|eauto].
  Qed.
  Lemma paths_cat ops x : In x (check_paths path_str H st ops) -> li_cat x = CModifyPathInvalid.
  Proof.
    unfold check_paths. rewrite in_flat_map. intros (o & _ & Hx). destruct (op_file H o) as [p|]; [|destruct Hx]. unfold check_path in Hx.
    destruct (art_type_of p); [|destruct Hx as [<-|[]]; reflexivity]. destruct (is_nil (filter (path_prefix p) (se_arts st))); [destruct Hx as [<-|[]]; reflexivity|].
    apply in_flat_map in Hx as (ex & _ & Hx). destruct (path_prefix p ex && _); [destruct Hx as [<-|[]]; reflexivity|destruct Hx].
  Qed.
  Definition stale_cat (c : category) : Prop := c = CCreateExists \/ c = CUpdateDne \/ c = CDeleteDne.
  Lemma perform_cat ops : forall m x, In x (fst (perform_operations H heqb hash_im debug_im ops m)) -> stale_cat (li_cat x).
  Proof.
    intros m. unfold perform_operations. assert (G : forall ops errs m', (forall x, In x errs -> stale_cat (li_cat x)) ->
      forall x, In x (fst (fold_left (perform_one H heqb hash_im debug_im) ops (errs, m'))) -> stale_cat (li_cat x)); [|apply G; intros ? []].
    unfold stale_cat. clear. induction ops as [|o ops IH]; intros errs m' He x Hx; [now apply He|]. cbn [fold_left] in Hx. destruct o as [a|a i|n i]; cbn [perform_one] in Hx.
    - destruct (im_get heqb (hash_im a) m') as [b|]; (eapply IH; [|exact Hx]); auto. intros y Hy. apply in_app_or in Hy as [Hy|[<-|[]]]; auto.
    - destruct (im_get heqb i m') as [b|]; (eapply IH; [|exact Hx]); auto. intros y Hy. apply in_app_or in Hy as [Hy|[<-|[]]]; auto.
    - destruct (im_get heqb i m') as [b|]; (eapply IH; [|exact Hx]); auto. intros y Hy. apply in_app_or in Hy as [Hy|[<-|[]]]; auto.
  Qed.

  Lemma errors_cat (p : project M H) x : In x (lint_errors path_str p) -> li_cat x = CArtifact.
  Proof.
    unfold lint_errors. intros Hx. repeat (apply in_app_or in Hx as [Hx|Hx]).
    - apply in_flat_map in Hx as (e & _ & Hx). apply in_flat_map in Hx as (y & _ & Hx). destruct (defined p y); [destruct Hx|]. destruct Hx as [<-|[]]. reflexivity.
    - apply in_flat_map in Hx as (e & _ & Hx). apply in_flat_map in Hx as (y & _ & Hx). destruct (bad_types _ _); [|destruct Hx]. destruct Hx as [<-|[]]. reflexivity.
    - apply in_flat_map in Hx as (e & _ & Hx). apply in_flat_map in Hx as (y & _ & Hx). cbv zeta in Hx. destruct (is_match_full (md_name_line_re (pr_prefix p)) y); [destruct Hx as [<-|[]]; reflexivity|].
      destruct (is_match_full attrs_end_re y); [|destruct Hx]. destruct Hx as [<-|[]]; reflexivity.
    - apply in_flat_map in Hx as (e & _ & Hx). destruct (a_impl (snd e)); try destruct Hx. destruct (a_subnames (snd e)); [destruct Hx|]. destruct Hx as [<-|[]]. reflexivity.
  Qed.
  Lemma dups_cat l x : In x (flat_map (art_dup_lints path_str) l) -> li_cat x = CParseArtifactFiles.
  Proof. intros Hx. apply in_flat_map in Hx as ([[n a] b] & _ & [<-|[<-|[]]]); reflexivity. Qed.

  Lemma pure_why loaded ops :
    match pure loaded ops with
    | Ok (inl (k, l)) => ls_error l <> [] /\ match k with
        | KLoad => forall x, In x (ls_error l) <-> In x (ls_error (match loaded with inl (c, _) => c | inr c => c end))
        | KPaths => forall x, In x (ls_error l) -> li_cat x = CIdOverlap \/ li_cat x = CModifyPathInvalid
        | KHash => forall x, In x (ls_error l) -> stale_cat (li_cat x)
        | KModify => forall x, In x (ls_error l) -> li_cat x = CArtifact \/ li_cat x = CParseArtifactFiles
        | _ => False
        end
    | Ok (inr (c, q)) => ls_error c = []
    | _ => True
    end.
  Proof.
    unfold modify_pure. destruct loaded as [[c p]|c].
    - destruct (negb (is_nil (ls_error c))) eqn:N0.
      { cbn [failed]. split; [rewrite sorted_nil; now apply not_nil_ne|]. intros x. apply sorted_error. }
      apply nil_of in N0. set (ops' := map (op_clean H) ops). unfold add_errors. cbn [ls_error ls_other]. rewrite N0. cbn [app].
      destruct (negb (is_nil (check_overlap H heqb hash_im [] ops'))) eqn:N1.
      { cbn [failed]. split; [rewrite sorted_nil; cbn [ls_error]; now apply not_nil_ne|]. intros x Hx. rewrite sorted_error in Hx. cbn [ls_error] in Hx. left. eapply overlap_cat; eauto. }
      apply nil_of in N1. rewrite N1. cbn [ls_error ls_other app is_nil negb].
      destruct (negb (is_nil (check_paths path_str H st ops'))) eqn:N2.
      { cbn [failed]. split; [rewrite sorted_nil; cbn [ls_error]; now apply not_nil_ne|]. intros x Hx. rewrite sorted_error in Hx. cbn [ls_error] in Hx. right. eapply paths_cat; eauto. }
      apply nil_of in N2. rewrite N2. cbn [app is_nil negb]. destruct (perform_operations H heqb hash_im debug_im ops' (ids_of M H heqb hash_im (pr_arts p))) as [errs m] eqn:Pf.
      destruct (negb (is_nil errs)) eqn:N3.
      { cbn [failed]. split; [rewrite sorted_nil; cbn [ls_error]; now apply not_nil_ne|]. intros x Hx. rewrite sorted_error in Hx. cbn [ls_error] in Hx. eapply (perform_cat ops'). now rewrite Pf. }
      destruct (build M topo H hash_im (map snd m) (pr_code p)) as [out| |]; cbn [res_bind]; auto.
      match goal with |- context [if negb (is_nil ?l) then _ else _] => destruct (negb (is_nil l)) eqn:N4 end.
      + cbn [failed]. split; [rewrite sorted_nil; now apply not_nil_ne|]. intros x Hx. apply sorted_error, error_in in Hx as [Hx|[Hx _]].
        * cbn [ls_error] in Hx. apply nil_of in N3. rewrite N3 in Hx. destruct Hx.
        * apply in_app_or in Hx as [Hx|Hx]; [right; eapply dups_cat; eauto|left; eapply errors_cat; eauto].
      + now apply nil_of.
    - destruct (is_nil (ls_error c)) eqn:N; [exact I|]. cbn [failed]. split; [rewrite sorted_nil; intros X; now rewrite X in N|]. intros x. apply sorted_error.
  Qed.

  (** ** After that *)
  Variable t0 : node.
  Hypothesis T0 : tree_ok t0.
  Variable q : project M H.

  Definition from_backup (x : lint) : Prop :=
    (exists r m, In r (se_arts st) /\ x = load_error path_str r m) \/
    (exists f r m, In r (se_arts st) /\ found_from t0 (se_xarts st) r f /\ x = mkLint LError (Some (path_str f)) None CCreateBackups m).
  Definition from_save (x : lint) : Prop := exists a m, In a (stored_form q) /\ x = mkLint LError (Some (path_str (im_file a))) None CSaveProject m.
  Definition from_remove (x : lint) : Prop := exists r m, In r (se_arts st) /\ x = load_error path_str r m.

  Definition whence (x : mstate M H) : Prop :=
    match x with
    | MBackup _ _ _ c p todo got => p = q /\ ls_error c = [] /\ (forall i, In i todo -> In i (to_back_up path_str st E1 t0)) /\ forall x, In x got -> from_backup x
    | MSave _ _ _ c p todo got => p = q /\ ls_error c = [] /\ (forall i, In i todo -> In i (save_jobs M H to_toml to_json yaml_done style q)) /\ forall x, In x got -> from_save x
    | MRemove _ _ _ c p todo got => p = q /\ ls_error c = [] /\ (forall x, In (inr x) todo -> from_remove x) /\ forall x, In x got -> li_level x = LError -> from_remove x
    | MDone _ _ _ (Ok (inl (c, p))) => p = project_sort M H q /\ forall x, In x (ls_error c) -> from_remove x
    | MDone _ _ _ (Ok (inr (KBackups, c))) => ls_error c <> [] /\ forall x, In x (ls_error c) -> from_backup x
    | MDone _ _ _ (Ok (inr (KSave, c))) => ls_error c <> [] /\ forall x, In x (ls_error c) -> from_save x
    | MDone _ _ _ _ => False
    end.
  Lemma snoc_all {A} (P : A -> Prop) l y : (forall x, In x l -> P x) -> P y -> forall x, In x (l ++ [y]) -> P x.
  Proof. intros Hl Hy x Hx. apply in_app_or in Hx as [Hx|[<-|[]]]; auto. Qed.
  Lemma job_file f x : In (f, x) (save_jobs M H to_toml to_json yaml_done style q) -> exists a, In a (stored_form q) /\ im_file a = f.
  Proof.
    unfold save_jobs. intros Hin. apply in_map_iff in Hin as ([f' l] & X & Hin). cbn [fst snd] in X. injection X as -> _. apply (save_keys_in M H). apply in_map_iff. exists (f, l). auto.
  Qed.
  Lemma whence_step x y : mstep x y -> whence x -> whence y.
  Proof.
    intros S. destruct S; cbn [whence]; intros W.
    - destruct W as (-> & Ec & Td & Gt). split; auto. split; auto. split; [intros i Hi; apply Td; now right|]. apply snoc_all; auto.
      specialize (Td (inr x) (or_introl eq_refl)). apply walk_lint in Td as (r & m & Hr & ->). left. eauto.
    - destruct W as (-> & Ec & Td & Gt). split; auto. split; auto. split; auto. intros i Hi; apply Td; now right.
    - destruct W as (-> & Ec & Td & Gt). split; auto. split; auto. split; [intros i Hi; apply Td; now right|]. apply snoc_all; auto.
      specialize (Td (inl q0) (or_introl eq_refl)). apply walk_from in Td as (r & Hr & Fr); auto. right. exists q0, r, m. auto.
    - destruct W as (-> & Ec & Td & Gt). split; auto. split; auto. split; auto. intros i Hi; apply Td; now right.
    - destruct W as (-> & Ec & Td & Gt). split; auto. split; auto. split; [intros i Hi; apply Td; now right|]. apply snoc_all; auto. left. eauto.
    - destruct W as (-> & Ec & _ & Gt). split; [rewrite sorted_nil; auto|]. intros x Hx. apply sorted_error, error_in in Hx as [Hx|[Hx _]]; [rewrite Ec in Hx; destruct Hx|auto].
    - destruct W as (-> & Ec & _ & Gt). split; auto. split; auto. split; [intros i Hi; now apply (Permutation_in _ (Permutation_sym H1))|intros ? []].
    - destruct W as (-> & Ec & Td & Gt). split; auto. split; auto. split; auto. intros i Hi; apply Td; now right.
    - destruct W as (-> & Ec & Td & Gt). split; auto. split; auto. split; [intros i Hi; apply Td; now right|]. apply snoc_all; auto.
      specialize (Td (q0, x) (or_introl eq_refl)). apply job_file in Td as (a & Ha & <-). exists a, m. auto.
    - destruct W as (-> & Ec & Td & Gt). split; auto. split; auto. split; auto. intros i Hi; apply Td; now right.
    - exact W.
    - destruct W as (-> & Ec & _ & Gt). split; [rewrite sorted_nil; auto|]. intros x Hx. apply sorted_error, error_in in Hx as [Hx|[Hx _]]; [rewrite Ec in Hx; destruct Hx|auto].
    - destruct W as (-> & Ec & _ & Gt). split; auto. split; auto. split; [|intros ? []]. intros x Hx. apply (Permutation_in _ (Permutation_sym H1)), walk_lint in Hx. exact Hx.
    - destruct W as (-> & Ec & Td & Gt). split; auto. split; auto. split; [intros i Hi; apply Td; now right|]. apply (snoc_all (fun x => li_level x = LError -> from_remove x)); auto.
      intros _. apply Td. now left.
    - destruct W as (-> & Ec & Td & Gt). split; auto. split; auto. split; auto. intros i Hi; apply Td; now right.
    - destruct W as (-> & Ec & Td & Gt). split; auto. split; auto. split; [intros i Hi; apply Td; now right|]. apply (snoc_all (fun x => li_level x = LError -> from_remove x)); auto. discriminate.
    - destruct W as (-> & Ec & Td & Gt). split; auto. split; auto. split; auto. intros i Hi; apply Td; now right.
    - destruct W as (-> & Ec & Td & Gt). split; auto. split; auto. split; [intros i Hi; apply Td; now right|]. apply (snoc_all (fun x => li_level x = LError -> from_remove x)); auto. intros _. exists q0, m. auto.
    - destruct W as (-> & Ec & _ & Gt). split; auto. intros x Hx. apply error_in in Hx as [Hx|[Hx Lx]]; [rewrite Ec in Hx; destruct Hx|auto].
  Qed.
  Lemma whence_steps x y : steps x y -> whence x -> whence y.
  Proof. induction 1 as [|x y z S1 _ IH]; auto. intros W. apply IH. eapply whence_step; eauto. Qed.

  (** ** A run can always go on until it ends. *)
  Lemma steps_app x y z : steps x y -> steps y z -> steps x z.
  Proof. induction 1 as [|x y' z' S1 _ IH]; auto. intros S2. eapply rt1n_trans; eauto. Qed.
  Lemma remove_ends todo : forall t c p got, exists t' r, steps (MRemove M H t c p todo got) (MDone M H t' r).
  Proof.
    induction todo as [|[f|x] todo IH]; intros t c p got.
    - do 2 eexists. eapply rt1n_trans; [apply r_end|constructor].
    - destruct (IH t c p (got ++ [phase_lint path_str LWarn CRemoveBackups f (s "failed")])) as (t' & r & S). exists t', r. eapply rt1n_trans; [eapply r_fail; now left|exact S].
    - destruct (IH t c p (got ++ [x])) as (t' & r & S). exists t', r. eapply rt1n_trans; [apply r_lint|exact S].
  Qed.
  Lemma save_ends todo : forall t c p got, exists t' r, steps (MSave M H t c p todo got) (MDone M H t' r).
  Proof.
    induction todo as [|[f x] todo IH]; intros t c p got.
    - destruct (ls_error (categorize c got)) eqn:X.
      + destruct (remove_ends (to_remove path_str st E3 t) t (categorize c got) p []) as (t' & r & S). exists t', r. eapply rt1n_trans; [apply s_end; [exact X|reflexivity]|exact S].
      + do 2 eexists. eapply rt1n_trans; [apply s_err; rewrite X; discriminate|constructor].
    - destruct (IH t c p (got ++ [phase_lint path_str LError CSaveProject f (s "failed")])) as (t' & r & S). exists t', r. eapply rt1n_trans; [eapply s_fail; now left|exact S].
  Qed.
  Lemma backup_ends todo : forall t c p got, exists t' r, steps (MBackup M H t c p todo got) (MDone M H t' r).
  Proof.
    induction todo as [|[f|x] todo IH]; intros t c p got.
    - destruct (ls_error (categorize c got)) eqn:X.
      + destruct (save_ends (save_jobs M H to_toml to_json yaml_done style p) t (categorize c got) p []) as (t' & r & S). exists t', r. eapply rt1n_trans; [apply b_end; [exact X|reflexivity]|exact S].
      + do 2 eexists. eapply rt1n_trans; [apply b_err; rewrite X; discriminate|constructor].
    - destruct (IH t c p (got ++ [phase_lint path_str LError CCreateBackups f (s "failed")])) as (t' & r & S). exists t', r. eapply rt1n_trans; [eapply b_fail; now left|exact S].
    - destruct (IH t c p (got ++ [x])) as (t' & r & S). exists t', r. eapply rt1n_trans; [apply b_lint|exact S].
  Qed.
  Lemma ends x : exists t' r, steps x (MDone M H t' r).
  Proof. destruct x as [t c p todo got|t c p todo got|t c p todo got|t r]; [apply backup_ends|apply save_ends|apply remove_ends|exists t, r; constructor]. Qed.
End Outcomes.
