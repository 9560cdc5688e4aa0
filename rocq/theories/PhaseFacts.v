(** Facts about the three phases of [modify_project] that change the disk. *)
From Coq Require Import Permutation Relation_Operators Lia ZifyBool.
From Verif Require Import Base BaseFacts Name NameFacts Artifact SpecGraph SpecLinks Stored Markdown Lint LintFacts LintThms Source JoinFacts
  Pool Load SpecLoad Disk DiskFacts Walk SpecWalk WalkFacts MarkdownFacts Modify SpecModify OpFacts.

Definition typed (q : path) : Prop := art_type_of q <> None.

Lemma rev_snoc {A} (l : list A) x : rev (l ++ [x]) = x :: rev l.
Proof. now rewrite rev_app_distr. Qed.
Lemma typed_backup q : typed q -> is_backup q = false.
Proof.
  unfold typed, art_type_of, is_backup. destruct (extension q) as [e|]; auto. destruct (str_eqb e (s "artbk")) eqn:E; auto. apply str_eqb_eq in E as ->. intros X. exfalso. now apply X.
Qed.
Lemma backup_spec q : typed q -> exists d x e, q = d ++ [x ++ c_dot :: e] /\ x <> [] /\ ~ In c_dot e /\ backup_of q = d ++ [x ++ s ".artbk"].
Proof.
  intros T. assert (exists e, extension q = Some e) as [e E] by (unfold typed, art_type_of in T; destruct (extension q); [eauto|congruence]).
  pose proof E as X. unfold extension in E. unfold backup_of. destruct (rev q) as [|f d] eqn:R; [discriminate E|].
  assert (Q : q = rev d ++ [f]) by (rewrite <- (rev_involutive q), R; reflexivity).
  unfold file_stem. destruct (rsplit c_dot f) as [[[|c a] b]|] eqn:Sp; try discriminate E. apply rsplit_some in Sp as [-> Nb]. exists (rev d), (c :: a), b. repeat split; auto. discriminate.
Qed.
Lemma backup_is q : typed q -> is_backup (backup_of q) = true.
Proof.
  intros T. destruct (backup_spec q T) as (d & x & e & _ & Nx & _ & ->). apply is_backup_iff. exists d, x. repeat split; auto. vm_compute. intuition discriminate.
Qed.
Lemma backup_typed q q' : typed q -> typed q' -> backup_of q <> q'.
Proof. intros T T' <-. apply typed_backup in T'. rewrite backup_is in T'; [discriminate|auto]. Qed.
Lemma typed_nonempty q : typed q -> q <> [].
Proof. intros T ->. now apply T. Qed.
Lemma backup_nonempty q : typed q -> backup_of q <> [].
Proof. intros T. destruct (backup_spec q T) as (d & x & e & _ & _ & _ & ->). now destruct d. Qed.

(** Where a file of a request is: the name of the file stays. *)
Lemma concat_snoc cs f : is_nil f = false -> str_eqb f (s ".") = false -> str_eqb f (s "..") = false ->
  forall base, concat_path base (cs ++ [f]) = option_map (fun p => p ++ [f]) (concat_path base cs).
Proof.
  intros E1 E2 E3. induction cs as [|c cs IH]; intros base; cbn [app concat_path].
  - rewrite E1, E2, E3. reflexivity.
  - destruct (is_nil c || str_eqb c (s ".")); auto. destruct (str_eqb c (s "..")); auto. destruct base; auto.
Qed.
Lemma locate_typed q l : typed q -> locate q = Some l -> typed l.
Proof.
  intros T E. destruct (backup_spec q T) as (d & x & e & -> & Nx & Ne & _). unfold locate in E.
  assert (Ex : forall d', extension (d' ++ [x ++ c_dot :: e]) = Some e).
  { intros d'. apply extension_iff. exists d', x. repeat split; auto. }
  assert (e <> []).
  { intros ->. apply T. unfold art_type_of. rewrite Ex. reflexivity. }
  rewrite concat_snoc in E.
  - destruct (concat_path [] d) as [d'|]; [|discriminate E]. cbn [option_map] in E. apply some_eq in E as <-. unfold typed, art_type_of in *. rewrite Ex in *. exact T.
  - destruct x; [contradiction|reflexivity].
  - apply eqb_neq. intros X. destruct x as [|a [|b x]]; try discriminate X; contradiction.
  - apply eqb_neq. intros X. destruct x as [|a [|b x]]; [contradiction| |].
    + injection X as _ X. contradiction.
    + apply (f_equal (@length _)) in X. cbn in X. rewrite app_length in X. cbn in X. lia.
Qed.
(** Without "", "." and ".." a path is where it says. *)
Lemma concat_plain q : plain_path q -> forall base, concat_path base q = Some (base ++ q).
Proof.
  induction q as [|c q IH]; intros P base; cbn [concat_path]; [now rewrite app_nil_r|]. inversion P as [|? ? G P']; subst. unfold goes_down in G.
  apply Bool.negb_true_iff, Bool.orb_false_iff in G as [G1 G2]. rewrite G1, G2, IH by auto. now rewrite <- app_assoc.
Qed.
Lemma locate_plain q : plain_path q -> locate q = Some q.
Proof. intros P. apply (concat_plain q P []). Qed.

Lemma error_stays c l x : In x l -> li_level x = LError -> ls_error (categorize c l) <> [].
Proof.
  intros Hx E X. rewrite categorize_ok in X. cbn [ls_error] in X. apply app_eq_nil in X as [_ X]. assert (In x []) as []. rewrite <- X. apply filter_In. split; auto. unfold is_error. now rewrite E.
Qed.

(** ** What is saved *)
Definition pid (p : path) : path := p.
Lemma path_spec p q : path_eqb p q = true <-> pid p = pid q.
Proof. apply path_eqb_iff. Qed.

Section Saved.
  Variable M : num.
  Variable H : Type.
  Variables to_toml to_json : list (name * art_raw) -> str.
  Variable yaml_done : str -> str.
  Variable style : md_attrs.
  Notation save_jobs := (save_jobs M H to_toml to_json yaml_done style).
  Notation file_text := (file_text to_toml to_json yaml_done style).

  Notation in_file f := (fun a => path_eqb (im_file a) f).

  Lemma save_files_spec (arts : list (name * artifact M H)) : NoDup (map nk (map im_name (map (fun e => to_im (snd e)) arts))) ->
    NoDup (map pid (map fst (save_files M H arts))) /\
    forall f, im_get path_eqb f (save_files M H arts) =
      match filter (in_file f) (map (fun e => to_im (snd e)) arts) with [] => None | l => Some (map raw_entry l) end.
  Proof.
    unfold save_files. induction arts as [|e arts IH] using rev_ind; intros N; [cbn; split; [constructor|auto]|].
    rewrite !map_app in N. cbn [map] in N. destruct (nodup_app_inv _ _ N) as (N1 & _ & N3). destruct (IH N1) as [K G]. rewrite fold_left_app. cbn [fold_left].
    set (files := fold_left (save_entry M H) arts []) in *. set (im := to_im (snd e)) in *. unfold save_entry. fold im. cbn [into_raw]. split.
    - pose proof (nodup_insert path_eqb pid path_spec files (im_file im)) as X. unfold pkeys in X. rewrite map_map in K. rewrite map_map. apply X, K.
    - intros f. rewrite map_app, filter_app. cbn [map filter]. fold im. destruct (path_eqb (im_file im) f) eqn:E.
      + apply path_eqb_iff in E as <-. rewrite (get_insert_same path_eqb pid path_spec). rewrite (G (im_file im)).
        assert (Fr : forall l, (forall x, In x l -> In x (map (fun e => to_im (snd e)) arts)) -> im_insert name_eqb (im_name im) (snd (into_raw im)) (map raw_entry l) = map raw_entry (l ++ [im])).
        { intros l Hl. rewrite map_app. cbn [map]. change (raw_entry im) with (im_name im, snd (into_raw im)). apply (insert_fresh name_eqb). apply (get_none_iff name_eqb nk name_eqb_iff).
          unfold pkeys. rewrite map_map. intros Hin. apply in_map_iff in Hin as (x & X & Hx). apply (N3 (nk (im_name im))); [|now left]. rewrite map_map. apply in_map_iff. exists x. split; auto. }
        destruct (filter (in_file (im_file im)) (map (fun e => to_im (snd e)) arts)) as [|a l] eqn:F.
        * exact (f_equal Some (Fr [] (fun x X => match X with end))).
        * refine (f_equal Some (Fr (a :: l) _)). intros x Hx. rewrite <- F in Hx. apply filter_In in Hx. tauto.
      + rewrite (get_insert_other path_eqb pid path_spec); [|unfold pid; intros X; apply path_eqb_iff in X; congruence]. rewrite app_nil_r. apply G.
  Qed.

  Variable p : project M H.
  Hypothesis D : NoDup (map nk (map im_name (stored_form p))).

  Lemma save_nodup : NoDup (map fst (save_jobs p)).
  Proof. unfold Modify.save_jobs. rewrite map_map. cbn [fst]. pose proof (proj1 (save_files_spec _ D)) as X. rewrite map_map in X. exact X. Qed.
  Lemma save_keys q x x' : In (q, x) (save_jobs p) -> In (q, x') (save_jobs p) -> x = x'.
  Proof.
    intros H1 H2. unfold Modify.save_jobs in *. apply in_map_iff in H1 as ([f l] & X1 & H1). apply in_map_iff in H2 as ([f' l'] & X2 & H2). cbn [fst snd] in *. injection X1 as -> <-. injection X2 as -> <-.
    pose proof (proj1 (save_files_spec _ D)) as N. rewrite map_map in N.
    pose proof (in_get path_eqb pid path_spec _ q l N H1). pose proof (in_get path_eqb pid path_spec _ q l' N H2). congruence.
  Qed.
  (** One file for each file named by an artifact, with the artifacts that name it. *)
  Theorem save_exact q x : In (q, x) (save_jobs p) <->
    (exists a, In a (stored_form p) /\ im_file a = q) /\ x = file_text (pr_prefix p) q (map raw_entry (filter (in_file q) (stored_form p))).
  Proof.
    unfold Modify.save_jobs. destruct (save_files_spec _ D) as [N G]. rewrite map_map in N. rewrite in_map_iff. split.
    - intros ([f l] & X & Hin). cbn [fst snd] in X. injection X as -> <-. pose proof (in_get path_eqb pid path_spec _ q l N Hin) as E. rewrite G in E. fold (stored_form p) in E.
      destruct (filter (in_file q) (stored_form p)) as [|a l'] eqn:F; [discriminate E|]. injection E as <-. split; [|reflexivity]. exists a. assert (Ha : In a (a :: l')) by now left. rewrite <- F in Ha. apply filter_In in Ha as [H1 H2]. apply path_eqb_iff in H2. auto.
    - intros [(a & Ha & Fa) ->]. assert (In a (filter (in_file q) (stored_form p))) as Hf by (apply filter_In; split; auto; now apply path_eqb_iff).
      specialize (G q). fold (stored_form p) in G. destruct (filter (in_file q) (stored_form p)) as [|b l] eqn:F; [destruct Hf|].
      apply (get_some_in path_eqb pid path_spec) in G as (k & Ek & Hk). unfold pid in Ek. subst k. eexists. split; [|exact Hk]. reflexivity.
  Qed.
  (** Formatting never fails. *)
  Lemma push_all_total l : forall out, exists y, push_all yaml_done (pr_prefix p) style out (map raw_entry l) = Ok y.
  Proof.
    induction l as [|a l IH]; intros out; cbn [map push_all]; [eauto|]. unfold raw_entry at 1. cbn [into_raw fst snd]. unfold push_artifact_md, push_attrs. cbn [raw_done raw_partof raw_text].
    destruct (im_done a), (im_partof a) as [|? [|]]; cbn [res_bind]; apply IH.
  Qed.
  Lemma text_total q x : typed q -> In (q, x) (save_jobs p) -> exists y, x = Ok y.
  Proof.
    intros T Hq. apply save_exact in Hq as [_ ->]. unfold Modify.file_text, typed in *. destruct (art_type_of q) as [[]|]; [eauto| |eauto|contradiction].
    set (l := filter (in_file q) (stored_form p)). assert (exists l', im_sort name_leb (map raw_entry l) = map raw_entry l') as [l' ->].
    { assert (X : forall m : list (name * art_raw), (forall e, In e m -> exists a, e = raw_entry a) -> exists l', m = map raw_entry l').
      { induction m as [|e m IH]; intros Hm; [now exists []|]. destruct (Hm e (or_introl eq_refl)) as [a ->]. destruct IH as [l' ->]; [intros e He; apply Hm; now right|]. now exists (a :: l'). }
      apply X. intros e He. unfold im_sort in He. apply isort_in in He. apply in_map_iff in He as (a & <- & _). eauto. }
    unfold to_markdown. destruct (push_all_total l' []) as [y ->]. cbn [res_bind]. eauto.
  Qed.
End Saved.

Section Phases.
  Variable path_str : path -> str.
  Variable M : num.
  Variable topo : graph -> option (list nat).
  Variable H : Type.
  Variable heqb : H -> H -> bool.
  Variable hash_im : art_im -> H.
  Variable debug_im : art_im -> str.
  Variable st : settings.
  Variables to_toml to_json : list (name * art_raw) -> str.
  Variable yaml_done : str -> str.
  Variable style : md_attrs.
  Variables E1 E3 : disk_errs.

  Notation mstate := (mstate M H).
  Notation mstep := (mstep path_str M H st to_toml to_json yaml_done style E3).
  Notation save_jobs := (save_jobs M H to_toml to_json yaml_done style).
  Notation to_back_up := (to_back_up path_str st E1).
  Notation to_remove := (to_remove path_str st E3).
  Notation begins := (begins path_str M topo H heqb hash_im debug_im st E1).
  Notation runs := (runs path_str M topo H heqb hash_im debug_im st to_toml to_json yaml_done style E1 E3).
  Notation pure := (modify_pure path_str M topo H heqb hash_im debug_im st).

  (** ** Before the disk is touched *)
  Lemma done_stuck t r x : ~ mstep (MDone M H t r) x.
  Proof. intros S. inversion S. Qed.
  Lemma after_done t r x : clos_refl_trans_1n _ mstep (MDone M H t r) x -> x = MDone M H t r.
  Proof. intros S. inversion S as [|y z S1 S2]; subst; auto. exfalso. eapply done_stuck; eauto. Qed.

  (** A run that got so far as to change the disk ends well or with one of the two late errors. *)
  Definition late (x : mstate) : Prop :=
    match x with MDone _ _ _ (Ok (inr (k, _))) => k = KBackups \/ k = KSave | MDone _ _ _ (Ok (inl _)) => True | MDone _ _ _ _ => False | _ => True end.
  Lemma late_step x y : mstep x y -> late x -> late y.
  Proof. intros S L. inversion S; subst; cbn [late failed]; auto. Qed.
  Lemma late_steps x y : clos_refl_trans_1n _ mstep x y -> late x -> late y.
  Proof. induction 1 as [|x y z S1 _ IH]; auto. intros L. apply IH. eapply late_step; eauto. Qed.

  Theorem early_untouched t loaded ops x : runs t loaded ops x ->
    match x with
    | MDone _ _ _ (Ok (inr (k, _))) => k = KBackups \/ k = KSave \/ disk M H x = t
    | MDone _ _ _ (Ok (inl _)) => True
    | MDone _ _ _ _ => disk M H x = t
    | _ => True
    end.
  Proof.
    intros (x0 & B & S). unfold Modify.begins in B.
    assert (L : x0 = MDone M H t Panic \/ (exists e, x0 = MDone M H t (Ok (inr e))) \/ late x0).
    { destruct (res_bind loaded _) as [[e|[c p]]| |]; [right; left; eauto| |now left|now left]. destruct B as (todo & _ & ->). right; right. exact I. }
    destruct L as [->|[[e ->]|L]].
    - apply after_done in S as ->. reflexivity.
    - apply after_done in S as ->. destruct e as [k l]. auto.
    - apply (late_steps _ _ S) in L. destruct x as [| | |t' [[v|[k l]]| |]]; cbn [late] in L; auto; [tauto|destruct L|destruct L].
  Qed.

  (** ** The phases *)
  Variable t0 : node.
  Hypothesis T0 : tree_ok t0.
  (** the roots are not files *)
  Hypothesis R0 : forall r, In r (se_arts st) -> file_at t0 r = None.

  (** The files that are backed up. *)
  Definition orig (q : path) : Prop := In (inl q) (to_back_up t0).

  Lemma walk_inl se oe nf filter t roots q : In (inl q) (walk_paths se oe nf path_str filter t roots) <-> exists r, In r roots /\ In q (fst (walk_path se oe nf filter t r)).
  Proof.
    unfold walk_paths. rewrite in_flat_map. split; intros (r & Hr & Hq); exists r; split; auto; destruct (walk_path se oe nf filter t r) as [fs e]; cbn [fst] in *.
    - apply in_app_or in Hq as [Hq|Hq]; [apply in_map_iff in Hq as (x & X & Hx); injection X as <-; exact Hx|]. destruct e; [destruct Hq as [X|[]]; discriminate X|destruct Hq].
    - apply in_or_app. left. apply in_map_iff. eauto.
  Qed.
  Lemma orig_ok q : orig q -> typed q /\ exists c, file_at t0 q = Some c.
  Proof.
    unfold orig, Modify.to_back_up. rewrite walk_inl. intros (r & Hr & Hq). specialize (R0 r Hr). unfold file_at in R0.
    destruct (lookup t0 r) as [[c|l]|] eqn:L; [discriminate R0| |].
    - destruct (walk_path (e_stat E1) (e_open E1) (e_none E1) (art_filter (se_xarts st)) t0 r) as [fs e] eqn:W. cbn [fst] in Hq.
      destruct (walk_path_exact _ _ _ _ (se_xarts st) known_extension (art_filter_dir _) (art_filter_file _) t0 T0 r l L fs e W) as (_ & So & _).
      destruct (So q Hq) as [(x & c & -> & _ & Lk & _) K]. split; [now apply art_type_iff|]. exists c. unfold file_at. now rewrite Lk.
    - rewrite walk_path_none in Hq by auto. destruct Hq.
  Qed.
  Lemma orig_dec q : orig q \/ ~ orig q.
  Proof.
    unfold orig. set (P := fun i : path + lint => match i with inl p => path_eqb q p | inr _ => false end). destruct (existsb P (to_back_up t0)) eqn:E.
    - left. apply existsb_exists in E as ([p|x] & Hi & X); [|discriminate X]. apply path_eqb_iff in X as ->. exact Hi.
    - right. intros Hi. rewrite <- Bool.not_true_iff_false in E. apply E, existsb_exists. exists (inl q). split; auto. now apply path_eqb_iff.
  Qed.

  (** No two of them have the same backup. *)
  Hypothesis Uniq : forall q q', orig q -> orig q' -> backup_of q = backup_of q' -> q = q'.

  Definition is_bk (q : path) : Prop := exists o, orig o /\ q = backup_of o.

  (** *** Making backups *)
  Definition moved (t : node) (o : path) : Prop := file_at t o = None /\ file_at t (backup_of o) = file_at t0 o.
  Definition kept (t : node) (o : path) : Prop := file_at t o = file_at t0 o /\ file_at t (backup_of o) = file_at t0 (backup_of o).
  Record inv_b (t : node) (todo : list (path + lint)) (got : list lint) : Prop := {
    ib_tree : tree_ok t;
    ib_dirs : same_dirs t0 t;
    ib_todo : forall o, In (inl o) todo -> orig o;
    ib_walk : forall x, In (inr x) (to_back_up t0) -> In (inr x) todo \/ In x got;
    ib_each : forall o, orig o -> moved t o \/ (kept t o /\ (In (inl o) todo \/ exists x, In x got /\ li_level x = LError));
    ib_other : forall q, ~ orig q -> ~ is_bk q -> file_at t q = file_at t0 q }.

  Lemma bk_typed q : is_bk q -> typed q -> False.
  Proof. intros (o & Ho & ->) T. eapply (backup_typed o); eauto. now apply orig_ok. Qed.

  Lemma rename_orig t todo todo' got o t' : inv_b t todo got -> (forall i, In i todo -> i = inl o \/ In i todo') -> (forall i, In i todo' -> In i todo) -> In (inl o) todo ->
    fs_rename t o (backup_of o) = Some t' -> inv_b t' todo' got.
  Proof.
    intros [It Id Iw Il Ie Io] H1 H2 Ho E. assert (O : orig o) by auto. destruct (orig_ok o O) as [To [c Fc]].
    destruct (rename_spec t o (backup_of o) t' It (typed_nonempty o To) (backup_nonempty o To)) as (c' & F1 & F2 & F3 & F4 & Tt & Sd); auto.
    { intros X. eapply (backup_typed o o); eauto. }
    assert (K : c' = c).
    { destruct (Ie o O) as [[X _]|[[X _] _]]; [rewrite X in F1; discriminate F1|]. rewrite F1, Fc in X. now injection X. }
    subst c'. constructor; auto.
    - intros q. now rewrite Sd, Id.
    - intros x Hx. destruct (Il x Hx) as [X|X]; auto. destruct (H1 _ X) as [Y|Y]; [discriminate Y|auto].
    - intros o' O'. destruct (list_eq_dec (list_eq_dec N.eq_dec) o' o) as [->|N]; [left; split; [exact F3|now rewrite F2, Fc]|].
      destruct (orig_ok o' O') as [To' _].
      assert (Q1 : file_at t' o' = file_at t o') by (apply F4; auto; intros X; now apply (backup_typed o o')).
      assert (Q2 : file_at t' (backup_of o') = file_at t (backup_of o')).
      { apply F4; [intros X; now apply (backup_typed o' o)|]. intros X. apply N, Uniq; auto. }
      destruct (Ie o' O') as [[X1 X2]|[[X1 X2] X3]]; [left; split; congruence|right]. split; [split; congruence|]. destruct X3 as [X3|X3]; auto. left. destruct (H1 _ X3) as [Y|Y]; auto. now injection Y.
    - intros q N1 N2. rewrite F4; auto; [intros ->; auto|intros ->; apply N2; now exists o].
  Qed.

  Lemma gone_orig t o todo got more : inv_b t (inl o :: todo) got -> file_at t o = None -> inv_b t todo (got ++ more).
  Proof.
    intros [It Id Iw Il Ie Io] E. constructor; auto.
    - intros z Hz. apply Iw. now right.
    - intros z Hz. destruct (Il z Hz) as [[X|X]|X]; [discriminate X|now left|right; apply in_or_app; now left].
    - intros z Hz. destruct (Ie z Hz) as [X|[X [[Y|Y]|(y & Y1 & Y2)]]]; auto.
      + injection Y as <-. destruct X as [X _]. destruct (orig_ok o Hz) as [_ [c Fc]]. rewrite E, Fc in X. discriminate X.
      + right. split; auto. right. exists y. split; auto. apply in_or_app. now left.
  Qed.
  Lemma b_step t c p todo got x : mstep (MBackup M H t c p todo got) x -> inv_b t todo got ->
    match x with
    | MBackup _ _ t' c' p' todo' got' => c' = c /\ p' = p /\ inv_b t' todo' got'
    | MSave _ _ t' c' p' todo' got' => t' = t /\ todo = [] /\ got' = [] /\ p' = p /\ ls_error (categorize c got) = [] /\ c' = categorize c got /\ Permutation (save_jobs p) todo'
    | MRemove _ _ _ _ _ _ _ => False
    | MDone _ _ t' r => t' = t /\ exists l, r = Ok (inr (KBackups, l))
    end.
  Proof.
    intros S I. inversion S as [? ? ? y todo' ?|? ? ? q todo' ? t' E|? ? ? q todo' ? t' m E|? ? ? q todo' ? E Nr|? ? ? q todo' ? m E Hr|? ? ? ? N|? ? ? ? todo' N P| | | | | | | | | | | |]; subst; auto.
    - split; auto. split; auto. destruct I as [It Id Iw Il Ie Io]. constructor; auto.
      + intros o Ho. apply Iw. now right.
      + intros z Hz. destruct (Il z Hz) as [[X|X]|X]; [injection X as ->; right; apply in_or_app; right; now left|now left|right; apply in_or_app; now left].
      + intros o Ho. destruct (Ie o Ho) as [X|[X [[Y|Y]|(z & Z1 & Z2)]]]; auto; [discriminate Y|]. right. split; auto. right. exists z. split; auto. apply in_or_app. now left.
    - split; auto. split; auto. eapply rename_orig; eauto; [|intros i Hi; now right|now left]. intros i [<-|Hi]; auto.
    - split; auto. split; auto.
      assert (I' : inv_b t (inl q :: todo') (got ++ [phase_lint path_str LError CCreateBackups q m])).
      { destruct I as [It Id Iw Il Ie Io]. constructor; auto.
        - intros z Hz. destruct (Il z Hz) as [X|X]; auto. right. apply in_or_app. now left.
        - intros o Ho. destruct (Ie o Ho) as [X|[X [Y|(z & Z1 & Z2)]]]; auto. right. split; auto. right. exists z. split; auto. apply in_or_app. now left. }
      destruct E as [->|E].
      + destruct I' as [It Id Iw Il Ie Io]. constructor; auto.
        * intros o Ho. apply Iw. now right.
        * intros z Hz. destruct (Il z Hz) as [[X|X]|X]; auto. discriminate X.
        * intros o Ho. destruct (Ie o Ho) as [X|[X [[Y|Y]|Y]]]; auto. right. split; auto. right. eexists. split; [apply in_or_app; right; now left|reflexivity].
      + eapply rename_orig; [exact I'| | | |exact E]; [|intros i Hi; now right|now left]. intros i [<-|Hi]; auto.
    - split; auto. split; auto. rewrite <- (app_nil_r got). apply (gone_orig t q todo' got []); auto. unfold file_at. now rewrite E.
    - split; auto. split; auto. apply (gone_orig t q todo' got); auto. unfold file_at. now rewrite E.
    - split; auto. eexists. reflexivity.
    - repeat split; auto.
  Qed.

  (** *** Saving *)
  Variable p : project M H.
  Definition J := save_jobs p.
  Hypothesis Jd : NoDup (map nk (map im_name (stored_form p))).
  Hypothesis Jt : forall q x, In (q, x) J -> typed q.
  (** A path is where some job writes. *)
  Definition target (l : path) : Prop := exists q x, In (q, x) J /\ locate q = Some l.
  Lemma target_typed l : target l -> typed l.
  Proof. intros (q & x & Hq & E). eapply locate_typed; eauto. Qed.

  Record inv_s (t : node) : Prop := {
    is_tree : tree_ok t;
    is_dirs : same_dirs t0 t;
    is_bks : forall o, orig o -> file_at t (backup_of o) = file_at t0 o;
    is_gone : forall o, orig o -> ~ target o -> file_at t o = None;
    is_other : forall q, ~ orig q -> ~ is_bk q -> ~ target q -> file_at t q = file_at t0 q }.

  Lemma b_end_inv t c got : inv_b t [] got -> ls_error (categorize c got) = [] -> inv_s t.
  Proof.
    intros [It Id _ Il Ie Io] N. assert (Mv : forall o, orig o -> moved t o).
    { intros o Ho. destruct (Ie o Ho) as [X|[_ [[]|(x & Hx & Lx)]]]; auto. exfalso. eapply error_stays; eauto. }
    constructor; auto; intros o Ho; try (intros _); now apply Mv.
  Qed.
  Lemma write_inv t l y t' : inv_s t -> target l -> fs_write t l y = Some t' ->
    inv_s t' /\ file_at t' l = Some y /\ forall q, q <> l -> file_at t' q = file_at t q.
  Proof.
    intros [It Id Ib Ig Io] Tl E. destruct (write_spec t l y t' It E) as (F1 & F2 & Tt & Sd). split; [|auto]. pose proof (target_typed l Tl) as Ty. constructor; auto.
    - intros q. now rewrite Sd, Id.
    - intros o Ho. rewrite F2; auto. intros X. eapply (backup_typed o l); eauto. now apply orig_ok.
    - intros o Ho N. rewrite F2; auto. intros ->. auto.
    - intros q N1 N2 N3. rewrite F2; auto. intros ->. auto.
  Qed.

  (** What a job has done when it is no longer to do. *)
  Definition written (t : node) (j : path * res str) : Prop :=
    exists l, locate (fst j) = Some l /\ (forall y, snd j = Ok y -> file_at t l = Some y) /\ file_at t l <> None.
  (** No two jobs write to the same place. *)
  Definition apart : Prop := forall q x q' x' l, In (q, x) J -> In (q', x') J -> locate q = Some l -> locate q' = Some l -> q = q'.
  Definition progress (t : node) (todo : list (path * res str)) (got : list lint) : Prop :=
    NoDup (map fst todo) /\ (forall j, In j todo -> In j J) /\
    forall j, In j J -> In j todo \/ (exists x, In x got /\ li_level x = LError) \/ written t j.

  Lemma s_step t c todo got x : mstep (MSave M H t c p todo got) x -> inv_s t -> (forall j, In j todo -> In j J) ->
    match x with
    | MSave _ _ t' c' p' todo' got' => c' = c /\ p' = p /\ inv_s t' /\ (forall j, In j todo' -> In j J)
    | MBackup _ _ _ _ _ _ _ => False
    | MRemove _ _ t' c' p' todo' got' => t' = t /\ todo = [] /\ got' = [] /\ p' = p /\ ls_error (categorize c got) = [] /\ c' = categorize c got /\ Permutation (to_remove t) todo'
    | MDone _ _ t' r => t' = t /\ exists l, r = Ok (inr (KSave, l))
    end.
  Proof.
    intros S I Sub.
    assert (Tg : forall q z l, In (q, z) todo -> locate q = Some l -> target l) by (intros q z l Hq El; exists q, z; split; auto).
    inversion S as [ | | | | | | | ? ? ? q y l todo' ? t' El E|? ? ? q y todo' ? t' m E|? ? ? q y l todo' ? t' Ny El E|? ? ? q y l todo' ? t' z Hin El E|? ? ? ? N|? ? ? ? todo' N P| | | | | |]; subst; auto.
    - destruct (write_inv t l y t' I) as (I' & _); eauto; [eapply Tg; eauto; now left|]. split; auto. split; auto. split; auto. intros j Hj. apply Sub. now right.
    - split; auto. split; auto. split; [|intros j Hj; apply Sub; now right]. destruct E as [->|(l & z & El & E)]; auto. apply (write_inv t l z t' I); auto. eapply Tg; eauto. now left.
    - destruct (write_inv t l [] t' I) as (I' & _); eauto; [eapply Tg; eauto; now left|]. split; auto. split; auto. split; auto. intros j Hj. apply Sub. now right.
    - destruct (write_inv t l z t' I) as (I' & _); eauto.
    - split; auto. eexists. reflexivity.
    - repeat split; auto.
  Qed.

  Lemma jobs_keys q x x' : In (q, x) J -> In (q, x') J -> x = x'.
  Proof. now apply save_keys. Qed.

  Lemma s_progress t c todo got t' todo' got' : apart -> mstep (MSave M H t c p todo got) (MSave M H t' c p todo' got') -> inv_s t -> progress t todo got -> progress t' todo' got'.
  Proof.
    intros Ap S I (Nd & Sub & Pr).
    assert (Keep : forall q z l y t1, In (q, z) J -> locate q = Some l -> fs_write t l y = Some t1 -> forall j, In j J -> fst j <> q -> written t j -> written t1 j).
    { intros q z l y t1 Hq El Ew [q' z'] Hj Nq (l' & El' & W1 & W2). cbn [fst snd] in *. destruct (write_inv t l y t1 I) as (_ & _ & F); auto; [now exists q, z|].
      assert (l' <> l) by (intros ->; apply Nq; eapply Ap; eauto). exists l'. cbn [fst snd]. rewrite F by auto. auto. }
    inversion S as [ | | | | | | | ? ? ? q y l ? ? ? El E|? ? ? q y ? ? ? m E|? ? ? q y l ? ? ? Ny El E|? ? ? q y l ? ? ? z Hin El E| | | | | | | |]; subst.
    - inversion Nd as [|? ? Nq Nd']; subst. split; auto. split; [intros j Hj; apply Sub; now right|]. assert (Hq : In (q, Ok y) J) by (apply Sub; now left).
      destruct (write_inv t l y t' I) as (_ & F1 & _); auto; [now exists q, (Ok y)|].
      intros [q' z'] Hj. destruct (list_eq_dec (list_eq_dec N.eq_dec) q' q) as [->|D].
      + right; right. rewrite (jobs_keys q z' (Ok y) Hj Hq). exists l. cbn [fst snd]. split; auto. split; [intros y' X; now injection X as <-|congruence].
      + destruct (Pr _ Hj) as [[X|X]|[X|X]]; [injection X as X _; congruence|auto|auto|]. right; right. exact (Keep _ _ _ _ _ Hq El E (q', z') Hj D X).
    - inversion Nd as [|? ? Nq Nd']; subst. split; auto. split; [intros j Hj; apply Sub; now right|]. intros j Hj. right. left. eexists. split; [apply in_or_app; right; now left|reflexivity].
    - inversion Nd as [|? ? Nq Nd']; subst. split; auto. split; [intros j Hj; apply Sub; now right|]. assert (Hq : In (q, y) J) by (apply Sub; now left).
      destruct (write_inv t l [] t' I) as (_ & F1 & _); auto; [now exists q, y|].
      intros [q' z'] Hj. destruct (list_eq_dec (list_eq_dec N.eq_dec) q' q) as [->|D].
      + right; right. rewrite (jobs_keys q z' y Hj Hq). exists l. cbn [fst snd]. split; auto. split; [intros y' X; now destruct (Ny y')|congruence].
      + destruct (Pr _ Hj) as [[X|X]|[X|X]]; [injection X as X _; congruence|auto|auto|]. right; right. exact (Keep _ _ _ _ _ Hq El E (q', z') Hj D X).
    - split; auto. split; auto. assert (Hq : In (q, y) J) by (now apply Sub). intros [q' z'] Hj. destruct (list_eq_dec (list_eq_dec N.eq_dec) q' q) as [->|D].
      + left. now rewrite (jobs_keys q z' y Hj Hq).
      + destruct (Pr _ Hj) as [X|[X|X]]; auto. right; right. exact (Keep _ _ _ _ _ Hq El E (q', z') Hj D X).
  Qed.

  (** *** Removing backups *)
  (** The roots are directories, from the first phase on. *)
  Definition roots_dir (t : node) : Prop := forall r, In r (se_arts st) -> is_dir (lookup t r) = true.
  Lemma roots_found t c got : inv_b t [] got -> ls_error (categorize c got) = [] -> roots_dir t0.
  Proof.
    intros [_ _ _ Il _ _] N r Hr. pose proof (R0 r Hr) as F. unfold file_at in F. destruct (lookup t0 r) as [[y|l]|] eqn:L; [discriminate F|reflexivity|]. exfalso.
    assert (X : In (inr (load_error path_str r (e_none E1))) (to_back_up t0)).
    { unfold Modify.to_back_up, walk_paths. apply in_flat_map. exists r. split; auto. rewrite walk_path_none by auto. now left. }
    destruct (Il _ X) as [[]|Hg]. eapply error_stays; eauto.
  Qed.
  (** and the walk had no errors *)
  Definition walk_ok : Prop := forall x, ~ In (inr x) (to_back_up t0).
  Lemma walk_error se oe nf filter t roots x : In (inr x) (walk_paths se oe nf path_str filter t roots) -> li_level x = LError.
  Proof.
    unfold walk_paths. rewrite in_flat_map. intros (r & _ & Hx). destruct (walk_path se oe nf filter t r) as [fs e]. apply in_app_or in Hx as [Hx|Hx].
    - apply in_map_iff in Hx as (y & Y & _). discriminate Y.
    - destruct e; [|destruct Hx]. destruct Hx as [X|[]]. injection X as <-. reflexivity.
  Qed.
  Lemma walk_found t c got : inv_b t [] got -> ls_error (categorize c got) = [] -> walk_ok.
  Proof.
    intros [_ _ _ Il _ _] N x Hx. destruct (Il x Hx) as [[]|Hg]. apply (error_stays c got x Hg); auto. unfold Modify.to_back_up in Hx. eapply walk_error; eauto.
  Qed.
  Lemma remove_backup t : tree_ok t -> roots_dir t -> forall q, In (inl q) (to_remove t) <-> exists r, In r (se_arts st) /\ In q (fst (walk_path (e_stat E3) (e_open E3) (e_none E3) (backup_filter (se_xarts st)) t r)).
  Proof. intros T R q. apply walk_inl. Qed.
  Lemma remove_sound t q : tree_ok t -> roots_dir t -> In (inl q) (to_remove t) ->
    is_backup q = true /\ exists r, In r (se_arts st) /\ reachable t (se_xarts st) r q.
  Proof.
    intros T R Hq. apply remove_backup in Hq as (r & Hr & Hq); auto. specialize (R r Hr). destruct (lookup t r) as [[y|l]|] eqn:L; try discriminate R.
    destruct (walk_path (e_stat E3) (e_open E3) (e_none E3) (backup_filter (se_xarts st)) t r) as [fs e] eqn:W. cbn [fst] in Hq.
    destruct (walk_path_exact _ _ _ _ (se_xarts st) (has_extension (s "artbk")) (backup_filter_dir _) (backup_filter_file _) t T r l L fs e W) as (_ & So & _).
    destruct (So q Hq) as [Re K]. split; [now apply is_backup_iff|]. exists r. auto.
  Qed.
  Lemma remove_complete t q r : tree_ok t -> roots_dir t -> (forall x, ~ In (inr x) (to_remove t)) -> In r (se_arts st) -> reachable t (se_xarts st) r q -> is_backup q = true ->
    In (inl q) (to_remove t).
  Proof.
    intros T R Ne Hr Re B. apply remove_backup; auto. exists r. split; auto. specialize (R r Hr). destruct (lookup t r) as [[y|l]|] eqn:L; try discriminate R.
    destruct (walk_path (e_stat E3) (e_open E3) (e_none E3) (backup_filter (se_xarts st)) t r) as [fs e] eqn:W. cbn [fst].
    destruct (walk_path_exact _ _ _ _ (se_xarts st) (has_extension (s "artbk")) (backup_filter_dir _) (backup_filter_file _) t T r l L fs e W) as (_ & _ & Co).
    apply Co; [|split; [auto|now apply is_backup_iff]]. destruct e as [m|]; auto. exfalso. apply (Ne (load_error path_str r m)).
    unfold Modify.to_remove, walk_paths. apply in_flat_map. exists r. split; auto. rewrite W. apply in_or_app. right. now left.
  Qed.

  Record inv_r (t3 t : node) (todo : list (path + lint)) (got : list lint) : Prop := {
    ir_tree : tree_ok t;
    ir_dirs : same_dirs t3 t;
    ir_todo : forall q, In (inl q) todo -> In (inl q) (to_remove t3);
    ir_walk : forall x, In (inr x) (to_remove t3) -> In (inr x) todo \/ In x got;
    ir_each : forall q, In (inl q) (to_remove t3) -> In (inl q) todo \/ file_at t q = None \/ exists x, In x got /\ li_cat x = CRemoveBackups;
    ir_other : forall q, file_at t q = file_at t3 q \/ (file_at t q = None /\ In (inl q) (to_remove t3)) }.

  Lemma remove_one t3 t todo todo' got q t' : tree_ok t3 -> roots_dir t3 -> inv_r t3 t todo got -> (forall i, In i todo -> i = inl q \/ In i todo') -> (forall i, In i todo' -> In i todo) -> In (inl q) todo ->
    fs_remove t q = Some t' -> inv_r t3 t' todo' got.
  Proof.
    intros T3 R3 [It Id Iw Il Ie Io] H1 H2 Hq E. pose proof (Iw q Hq) as Qr. destruct (remove_sound t3 q T3 R3 Qr) as [B _].
    destruct (remove_spec t q t' It) as (_ & F1 & F2 & Tt & Sd); auto; [intros ->; discriminate B|].
    constructor; auto.
    - intros z. now rewrite Sd, Id.
    - intros x Hx. destruct (Il x Hx) as [X|X]; auto. destruct (H1 _ X) as [Y|Y]; [discriminate Y|auto].
    - intros z Hz. destruct (list_eq_dec (list_eq_dec N.eq_dec) z q) as [->|N]; auto. rewrite F2 by auto. destruct (Ie z Hz) as [X|[X|X]]; auto. destruct (H1 _ X) as [Y|Y]; auto. injection Y as Y. contradiction.
    - intros z. destruct (list_eq_dec (list_eq_dec N.eq_dec) z q) as [->|N]; auto. rewrite F2 by auto. apply Io.
  Qed.

  Lemma gone_one t3 t q todo got more : inv_r t3 t (inl q :: todo) got -> file_at t q = None -> inv_r t3 t todo (got ++ more).
  Proof.
    intros [It Id Iw Il Ie Io] E. constructor; auto.
    - intros z Hz. apply Iw. now right.
    - intros z Hz. destruct (Il z Hz) as [[X|X]|X]; [discriminate X|now left|right; apply in_or_app; now left].
    - intros z Hz. destruct (Ie z Hz) as [[X|X]|[X|(y & Y1 & Y2)]]; auto.
      + injection X as <-. auto.
      + right. right. exists y. split; auto. apply in_or_app. now left.
  Qed.
  Lemma r_step t3 t c todo got x : tree_ok t3 -> roots_dir t3 -> mstep (MRemove M H t c p todo got) x -> inv_r t3 t todo got ->
    match x with
    | MRemove _ _ t' c' p' todo' got' => c' = c /\ p' = p /\ inv_r t3 t' todo' got'
    | MDone _ _ t' r => t' = t /\ todo = [] /\ r = Ok (inl (categorize c got, project_sort M H p))
    | _ => False
    end.
  Proof.
    intros T3 R3 S I. inversion S as [ | | | | | | | | | | | | |? ? ? y todo' ?|? ? ? q todo' ? t' E|? ? ? q todo' ? t' m E|? ? ? q todo' ? E Nr|? ? ? q todo' ? m E Hr|]; subst; auto.
    - split; auto. split; auto. destruct I as [It Id Iw Il Ie Io]. constructor; auto.
      + intros o Ho. apply Iw. now right.
      + intros z Hz. destruct (Il z Hz) as [[X|X]|X]; [injection X as ->; right; apply in_or_app; right; now left|now left|right; apply in_or_app; now left].
      + intros o Ho. destruct (Ie o Ho) as [[Y|Y]|[X|(z & Z1 & Z2)]]; auto; [discriminate Y|]. right. right. exists z. split; auto. apply in_or_app. now left.
    - split; auto. split; auto. eapply remove_one; eauto; [|intros i Hi; now right|now left]. intros i [<-|Hi]; auto.
    - split; auto. split; auto.
      assert (I' : inv_r t3 t (inl q :: todo') (got ++ [phase_lint path_str LWarn CRemoveBackups q m])).
      { destruct I as [It Id Iw Il Ie Io]. constructor; auto.
        - intros z Hz. destruct (Il z Hz) as [X|X]; auto. right. apply in_or_app. now left.
        - intros o Ho. destruct (Ie o Ho) as [X|[X|(z & Z1 & Z2)]]; auto. right. right. exists z. split; auto. apply in_or_app. now left. }
      destruct E as [->|E].
      + destruct I' as [It Id Iw Il Ie Io]. constructor; auto.
        * intros o Ho. apply Iw. now right.
        * intros z Hz. destruct (Il z Hz) as [[X|X]|X]; auto. discriminate X.
        * intros o Ho. right. right. eexists. split; [apply in_or_app; right; now left|reflexivity].
      + eapply remove_one; [exact T3|exact R3|exact I'| | | |exact E]; [|intros i Hi; now right|now left]. intros i [<-|Hi]; auto.
    - split; auto. split; auto. rewrite <- (app_nil_r got). apply (gone_one t3 t q todo' got []); auto. unfold file_at. now rewrite E.
    - split; auto. split; auto. apply (gone_one t3 t q todo' got); auto. unfold file_at. now rewrite E.
  Qed.

  (** *** A whole run *)
  Definition saved_all (t3 : node) : Prop := inv_s t3 /\ (roots_dir t3 /\ walk_ok) /\ (apart -> forall j, In j J -> written t3 j).
  Definition inv (x : mstate) : Prop :=
    match x with
    | MBackup _ _ t c p' todo got => p' = p /\ inv_b t todo got
    | MSave _ _ t c p' todo got => p' = p /\ inv_s t /\ (roots_dir t /\ walk_ok) /\ (forall j, In j todo -> In j J) /\ (apart -> progress t todo got)
    | MRemove _ _ t c p' todo got => p' = p /\ ls_error c = [] /\ exists t3, saved_all t3 /\ inv_r t3 t todo got
    | MDone _ _ t (Ok (inr (KBackups, _))) => exists got, inv_b t [] got
    | MDone _ _ t (Ok (inr (KSave, _))) => inv_s t /\ walk_ok
    | MDone _ _ t (Ok (inl (c, p'))) => p' = project_sort M H p /\ exists t3 c0 got, saved_all t3 /\ ls_error c0 = [] /\ inv_r t3 t [] got /\ c = categorize c0 got
    | _ => False
    end.

  Lemma dirs_roots t : same_dirs t0 t -> roots_dir t0 -> roots_dir t.
  Proof. intros S R r Hr. rewrite S. now apply R. Qed.

  Lemma inv_step x y : mstep x y -> inv x -> inv y.
  Proof.
    intros S I. destruct x as [t c p' todo got|t c p' todo got|t c p' todo got|t r]; [| | |exfalso; eapply done_stuck; eauto].
    - destruct I as [-> I]. pose proof (b_step t c p todo got y S I) as X. destruct y as [t' c' p' todo' got'|t' c' p' todo' got'|t' c' p' todo' got'|t' r].
      + destruct X as (_ & -> & X). split; auto.
      + destruct X as (-> & -> & -> & -> & N & -> & P). split; auto. split; [eapply b_end_inv; eauto|]. split; [split; [apply dirs_roots; [apply I|eapply roots_found; eauto]|eapply walk_found; eauto]|].
        split; [intros j Hj; eapply Permutation_in; [apply Permutation_sym, P|auto]|]. intros _. split; [|split].
        * eapply Permutation_NoDup; [apply Permutation_map, P|]. now apply save_nodup.
        * intros j Hj. eapply Permutation_in; [apply Permutation_sym, P|auto].
        * intros j Hj. left. eapply Permutation_in; [exact P|exact Hj].
      + destruct X.
      + destruct X as (-> & l & ->). cbn [inv]. inversion S; subst. eauto.
    - destruct I as (-> & I & [R Wo] & Sub & Pr). pose proof (s_step t c todo got y S I Sub) as X. destruct y as [t' c' p' todo' got'|t' c' p' todo' got'|t' c' p' todo' got'|t' r].
      + destruct X.
      + destruct X as (-> & -> & I' & Sub'). split; auto. split; auto. split; [split; [|exact Wo]|split; auto; intros Ap; eapply s_progress; eauto]. intros r Hr. rewrite (is_dirs _ I' r), <- (is_dirs _ I r). now apply R.
      + destruct X as (-> & -> & -> & -> & N & -> & P). split; auto. split; auto. exists t. split.
        * split; auto. split; auto. intros Ap j Hj. destruct (Pr Ap) as (_ & _ & Q). destruct (Q j Hj) as [[]|[(x & Hx & Lx)|W]]; auto. exfalso. eapply error_stays; eauto.
        * constructor; [apply I|intros z; reflexivity| | | |auto].
          -- intros z Hz. eapply Permutation_in; [apply Permutation_sym, P|auto].
          -- intros z Hz. left. eapply Permutation_in; [exact P|auto].
          -- intros z Hz. left. eapply Permutation_in; [exact P|auto].
      + destruct X as (-> & l & ->). exact (conj I Wo).
    - destruct I as (-> & N & t3 & (I & [R Wo] & W) & Ir). pose proof (r_step t3 t c todo got y (is_tree _ I) R S Ir) as X. destruct y as [t' c' p' todo' got'|t' c' p' todo' got'|t' c' p' todo' got'|t' r]; [destruct X|destruct X| |].
      + destruct X as (-> & -> & X). split; auto. split; auto. exists t3. split; [split; [auto|split; auto]|exact X].
      + destruct X as (-> & -> & ->). split; auto. exists t3, c, got. split; [split; [auto|split; auto]|]. auto.
  Qed.
  Lemma inv_steps x y : clos_refl_trans_1n _ mstep x y -> inv x -> inv y.
  Proof. induction 1 as [|x y z S1 _ IH]; auto. intros I. apply IH. eapply inv_step; eauto. Qed.
  Lemma inv_start c todo : Permutation (to_back_up t0) todo -> inv (MBackup M H t0 c p todo []).
  Proof.
    intros P. split; auto. assert (Q : forall i, In i todo <-> In i (to_back_up t0)) by (intros i; split; [apply Permutation_in, Permutation_sym, P|apply Permutation_in, P]).
    constructor; auto; [intros q; reflexivity|intros o Ho; now apply Q|intros x Hx; left; now apply Q|]. intros o Ho. right. split; [split; auto|]. left. now apply Q.
  Qed.
End Phases.
