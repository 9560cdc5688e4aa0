(** Property C99: a load that fails reports everything that went wrong in reading, and nothing else. *)
From Coq Require Import Permutation Relation_Operators Lia.
From Verif Require Import Base BaseFacts Regex Name SpecName NameFacts RawNames Artifact Stored SpecGraph Topo SpecLinks LinkFacts Numbers FloatNum
  Markdown SpecMarkdown YamlExample Lint SpecLint LintFacts LintThms Source SpecJoin SourceFacts JoinFacts JoinThms ProjectFacts Pool PoolFacts Load LoadFacts SpecLoad CheckFacts DeterFacts
  ReadThms OutcomeFacts PropArtifacts PropCompleted PropMarkdown PropLint PropSource PropLoad SpecReport.

Section Report.
  Variable path_str : path -> str.
  Variable yaml : str -> option (option str * option names_val).
  Variables parse_toml parse_json : str -> res (list (name * art_raw)).
  Variable parse_msg : path -> str -> str.
  Variable prefix : str.
  Hypothesis toml_ok : parser_ok parse_toml.
  Hypothesis json_ok : parser_ok parse_json.
  Notation load_file := (load_file path_str yaml parse_toml parse_json parse_msg prefix).
  Notation load_locations := (load_locations path_str).
  Notation art_items := (art_items path_str yaml parse_toml parse_json parse_msg prefix).
  Notation code_items := (code_items path_str).
  Notation fault := (read_fault path_str (parse_artifacts yaml parse_toml parse_json prefix) parse_msg).

  Lemma in_lints {A} (items : list (job A + lint)) l : In l (lints_of items ++ flat_map jb_lints (jobs_of items)) <->
    In (inr l) items \/ exists j, In (inl j) items /\ In l (jb_lints j).
  Proof.
    rewrite in_app_iff. unfold lints_of, jobs_of. rewrite !in_flat_map. split.
    - intros [([j|x] & Hi & Hx)|(j & Hj & Hl)]; [destruct Hx|destruct Hx as [->|[]]; auto|].
      apply in_flat_map in Hj as ([j'|x] & Hi & Hx); [|destruct Hx]. destruct Hx as [->|[]]. right. eauto.
    - intros [Hi|(j & Hi & Hl)]; [left; exists (inr l); cbn; auto|]. right. exists j. split; auto. apply in_flat_map. exists (inl j). cbn. auto.
  Qed.
  Lemma art_lint f l : In l (jb_lints (load_file f)) <->
    exists t, art_type_of (af_path f) = Some t /\
      ((exists m, af_text f = inr m /\ l = load_error path_str (af_path f) m) \/
       exists x, af_text f = inl x /\ parse_artifacts yaml parse_toml parse_json prefix t x = Err /\ l = load_error path_str (af_path f) (parse_msg (af_path f) x)).
  Proof.
    unfold Load.load_file. destruct (art_type_of (af_path f)) as [t|]; cbn [jb_lints]; [|split; [intros []|intros (t & E & _); discriminate E]].
    split.
    - destruct (af_text f) as [x|m]; [destruct (parse_artifacts _ _ _ _ t x) eqn:E; cbn [jb_lints]; try (intros [])|cbn [jb_lints]; intros []]; subst; try contradiction; exists t; split; auto; [right; eauto|left; eauto].
    - intros (t' & Et & [(m & -> & ->)|(x & -> & E & ->)]); injection Et as <-; [|rewrite E]; cbn [jb_lints]; now left.
  Qed.
  Lemma scan_io file : forall lines i sk, (snd (scan_lines file true i sk lines) = EIo \/ snd (scan_lines file true i sk lines) = EPanic) /\
    snd (scan_lines file false i sk lines) <> EIo.
  Proof.
    induction lines as [|x lines IH]; intros i sk; cbn [scan_lines]; [split; [now left|discriminate]|].
    destruct (scan_matches (mkLoc file i) sk (find_all re_src x)) as [out [sk'|]]; cbn [snd]; [|split; [now right|discriminate]].
    destruct (IH (S i) sk') as [I1 I2]. destruct (scan_lines file true (S i) sk' lines) as [o e]. destruct (scan_lines file false (S i) sk' lines) as [o' e']. cbn [snd] in *. auto.
  Qed.
  Lemma code_lint f l : In l (jb_lints (load_locations f)) <->
    exists m, cf_err f = Some m /\ snd (parse_locations (cf_path f) (cf_lines f) true) <> EPanic /\ l = load_error path_str (cf_path f) m.
  Proof.
    unfold Load.load_locations. destruct (cf_err f) as [m|].
    - pose proof (proj1 (scan_io (cf_path f) (cf_lines f) 0 false)) as D. fold (parse_locations (cf_path f) (cf_lines f) true) in D.
      destruct (parse_locations (cf_path f) (cf_lines f) true) as [refs e]. cbn [snd] in D. cbn [jb_lints snd]. destruct e; [destruct D; discriminate| |].
      + cbn [In]. split; [intros [<-|[]]; exists m; repeat split; discriminate|intros (m' & E & _ & ->)]. injection E as <-. now left.
      + split; [intros []|]. intros (m' & _ & N & _). now destruct N.
    - pose proof (proj2 (scan_io (cf_path f) (cf_lines f) 0 false)) as D. fold (parse_locations (cf_path f) (cf_lines f) false) in D.
      destruct (parse_locations (cf_path f) (cf_lines f) false) as [refs e]. cbn [jb_lints]. split; [destruct e; intros []|]. intros (m' & E & _). discriminate E.
  Qed.
  Lemma lints_fault afs cfs l :
    In l ((lints_of (code_items cfs) ++ flat_map jb_lints (jobs_of (code_items cfs))) ++ (lints_of (art_items afs) ++ flat_map jb_lints (jobs_of (art_items afs)))) <-> fault afs cfs l.
  Proof.
    rewrite in_app_iff, !in_lints. unfold Load.code_items, Load.art_items. split.
    - intros [[Hi|(j & Hi & Hl)]|[Hi|(j & Hi & Hl)]]; apply in_map_iff in Hi as ([f|x] & E & Hf); try discriminate E; injection E as <-.
      + now apply rf_walk_code.
      + apply code_lint in Hl as (m & Em & Ne & ->). now apply rf_source.
      + now apply rf_walk_arts.
      + apply art_lint in Hl as (t & Et & [(m & Em & ->)|(x & Ex & Ep & ->)]); [now apply rf_unreadable with t|now apply rf_malformed with t].
    - intros [x Hx|x Hx|f m Hf Em Ne|f t m Hf Et Em|f t x Hf Et Ex Ep].
      + right. left. apply in_map_iff. exists (inr x). auto.
      + left. left. apply in_map_iff. exists (inr x). auto.
      + left. right. exists (load_locations f). split; [apply in_map_iff; exists (inl f); auto|]. apply code_lint. eauto.
      + right. right. exists (load_file f). split; [apply in_map_iff; exists (inl f); auto|]. apply art_lint. exists t. split; auto. left. eauto.
      + right. right. exists (load_file f). split; [apply in_map_iff; exists (inl f); auto|]. apply art_lint. exists t. split; auto. right. eauto.
  Qed.

  Lemma split_two {A} (l l1 l2 l3 : list A) a b fa : Permutation l fa -> l = l1 ++ a :: l2 ++ b :: l3 -> exists rest, Permutation fa (a :: b :: rest).
  Proof.
    intros P ->. exists (l1 ++ l2 ++ l3). rewrite <- P. rewrite <- Permutation_middle. apply perm_skip. rewrite !app_assoc. rewrite <- Permutation_middle. reflexivity.
  Qed.
  (** Two members of a list stand in one of two orders. *)
  Lemma two_split {A} (l : list A) a b rest : Permutation l (a :: b :: rest) -> exists l1 l2 l3, l = l1 ++ a :: l2 ++ b :: l3 \/ l = l1 ++ b :: l2 ++ a :: l3.
  Proof.
    intros P. assert (Ha : In a l) by (rewrite P; now left). apply in_split in Ha as (u & v & ->).
    rewrite <- Permutation_middle in P. apply Permutation_cons_inv in P. assert (Hb : In b (u ++ v)) by (rewrite P; now left).
    apply in_app_or in Hb as [Hb|Hb]; apply in_split in Hb as (x & y & ->); [exists x, y, v|exists u, x, y]; rewrite <- ?app_assoc; cbn; auto.
  Qed.
  Lemma two_places refs x y rest : Permutation refs (x :: y :: rest) -> same_ref x y -> same_ref y x -> exists i j, repeated refs i j /\ nth_error refs i = Some x.
  Proof.
    intros P Sr Sr'. destruct (two_split refs x y rest P) as (a & b & c & [E|E]); subst.
    - exists (length a), (length a + S (length b)).
      assert (N1 : nth_error (a ++ x :: b ++ y :: c) (length a) = Some x) by (rewrite nth_error_app2, Nat.sub_diag; auto).
      assert (N2 : nth_error (a ++ x :: b ++ y :: c) (length a + S (length b)) = Some y).
      { rewrite nth_error_app2 by lia. replace (length a + S (length b) - length a) with (S (length b)) by lia. cbn [nth_error]. rewrite nth_error_app2, Nat.sub_diag; auto. }
      split; auto. exists x, y. repeat split; auto; try lia; apply Sr.
    - exists (length a + S (length b)), (length a).
      assert (N1 : nth_error (a ++ y :: b ++ x :: c) (length a) = Some y) by (rewrite nth_error_app2, Nat.sub_diag; auto).
      assert (N2 : nth_error (a ++ y :: b ++ x :: c) (length a + S (length b)) = Some x).
      { rewrite nth_error_app2 by lia. replace (length a + S (length b) - length a) with (S (length b)) by lia. cbn [nth_error]. rewrite nth_error_app2, Nat.sub_diag; auto. }
      split; auto. exists x, y. repeat split; auto; try lia; apply Sr.
  Qed.

  Variable M : num.
  Variable topo : graph -> option (list nat).
  Hypothesis TC : topo_ok topo.
  Variable H : Type.
  Variable hash_im : art_im -> H.
  Variable settings_path : path.
  Variable url_error : option str.
  Notation loads := (loads path_str yaml parse_toml parse_json parse_msg prefix M topo H hash_im settings_path url_error).
  Notation finish := (finish path_str prefix M topo H hash_im settings_path url_error).

  (** What a load is, when the readers last: what is found in all the files, in some order. *)
  Lemma loads_open n afs cfs r : walk_lints_ok afs -> walk_lints_ok cfs -> killers load_file afs < n -> killers load_locations cfs < 4 -> loads n afs cfs r ->
    exists arts refs arrived, Permutation arts (file_arts load_file afs) /\ Permutation refs (file_refs path_str cfs) /\ Forall im_wf arts /\ Forall ref_wf refs /\
      Forall (fun x => is_error x = true) arrived /\ (forall l, In l arrived <-> fault afs cfs l \/ In l (collect_lints path_str arts refs)) /\ r = finish arrived arts refs.
  Proof.
    intros Wa Wc Ka Kc (arts & refs & la & lc & arrived & Ra & Rc & P & ->). exists arts, refs, arrived.
    split; [eapply arts_run; eauto|]. split; [eapply refs_run; eauto|].
    split; [eapply (run_arts_wf path_str yaml parse_toml parse_json parse_msg prefix); [exact toml_ok|exact json_ok|exact Ra]|]. split; [eapply (run_refs_wf path_str); exact Rc|].
    split.
    { eapply Permutation_Forall; [apply Permutation_sym; exact P|]. apply Forall_app. split; [eapply ref_lints_error; eauto|]. apply Forall_app. split; [eapply art_lints_error; eauto|apply collect_error]. }
    split; auto. intros l. rewrite <- lints_fault.
    rewrite <- killers_panics in Ka. rewrite <- killers_panics in Kc. destruct (run_all n (art_items afs) arts la Ka Ra) as [_ Pa]. destruct (run_all 4 (code_items cfs) refs lc Kc Rc) as [_ Pc].
    split.
    - intros Hl. apply (Permutation_in _ P) in Hl. apply in_app_or in Hl as [Hl|Hl]; [left; apply in_or_app; left; now apply (Permutation_in _ Pc)|].
      apply in_app_or in Hl as [Hl|Hl]; [left; apply in_or_app; right; now apply (Permutation_in _ Pa)|now right].
    - intros Hl. apply (Permutation_in _ (Permutation_sym P)). destruct Hl as [Hl|Hl]; [|apply in_or_app; right; apply in_or_app; now right].
      apply in_app_or in Hl as [Hl|Hl]; [apply in_or_app; left; now apply (Permutation_in _ (Permutation_sym Pc))|].
      apply in_or_app. right. apply in_or_app. left. now apply (Permutation_in _ (Permutation_sym Pa)).
  Qed.
  Lemma finish_errors arrived arts refs : Forall (fun x => is_error x = true) arrived -> arrived <> [] ->
    exists c, finish arrived arts refs = Ok (inr c) /\ ls_other c = [] /\ ls_error c <> [] /\ forall l, In l (ls_error c) <-> In l arrived.
  Proof.
    intros F N. unfold Load.finish. rewrite categorize_ok. cbn [ls_error ls_other no_lints app]. rewrite filter_all by auto.
    destruct arrived as [|x l]; [congruence|]. cbn [is_nil negb]. eexists. split; [reflexivity|]. split.
    - cbn [sort_lints ls_other]. rewrite filter_none; [reflexivity|]. eapply Forall_impl; [|exact F]. cbn. intros y ->. reflexivity.
    - split; [|intros y; apply sorted_error]. rewrite sorted_nil. discriminate.
  Qed.
  Lemma finish_inr arrived arts refs c : Forall (fun x => is_error x = true) arrived -> finish arrived arts refs = Ok (inr c) -> arrived <> [].
  Proof.
    intros F E ->. unfold Load.finish in E. cbn [categorize fold_left no_lints ls_error is_nil negb] in E.
    destruct (build _ _ _ _ _ _); cbn [res_bind] in E; [|discriminate E|discriminate E]. destruct (lint_project _ _); cbn [res_bind] in E; discriminate E.
  Qed.

  (** Everything that went wrong is reported: each error of a walk, each file that cannot be read or
      parsed, both files in which a name is defined, both places with the same reference. *)
  Theorem C99_reported : forall n afs cfs r, walk_lints_ok afs -> walk_lints_ok cfs ->
    killers load_file afs < n -> killers load_locations cfs < 4 -> loads n afs cfs r ->
    (forall l, fault afs cfs l -> exists c, r = Ok (inr c) /\ In l (ls_error c)) /\
    (forall a b, two same_spelling (file_arts load_file afs) a b ->
       exists c l, r = Ok (inr c) /\ In l (ls_error c) /\ names_file path_str l a) /\
    (forall x y, two same_ref (file_refs path_str cfs) x y ->
       exists c l, r = Ok (inr c) /\ In l (ls_error c) /\ points_to path_str l x).
  Proof.
    intros n afs cfs r Wa Wc Ka Kc L. destruct (loads_open n afs cfs r Wa Wc Ka Kc L) as (arts & refs & arrived & Pa & Pr & Fa & Fr & Fe & In_ & ->).
    assert (G : forall l, In l arrived -> exists c, finish arrived arts refs = Ok (inr c) /\ In l (ls_error c)).
    { intros l Hl. destruct (finish_errors arrived arts refs Fe) as (c & E & _ & _ & Hc); [intros ->; destruct Hl|]. exists c. split; auto. now apply Hc. }
    split; [intros l Hl; apply G, In_; now left|]. split.
    - intros a b [Sn [rest P]]. assert (P' : Permutation arts (a :: b :: rest)) by now rewrite Pa.
      assert (X : exists m f g, In (m, f, g) (j_dups (join_artifacts_raw arts)) /\ (f = im_file a \/ g = im_file a)).
      { assert (Nw : Forall (fun a => name_wf (im_name a)) arts) by (eapply Forall_impl; [|exact Fa]; intros z [Hz _]; exact Hz).
        assert (Wa1 : name_wf (im_name a)) by (rewrite Forall_forall in Nw; apply Nw, (Permutation_in _ (Permutation_sym P')); now left).
        assert (Wb1 : name_wf (im_name b)) by (rewrite Forall_forall in Nw; apply Nw, (Permutation_in _ (Permutation_sym P')); right; now left).
        destruct (two_split arts a b rest P') as (l1 & l2 & l3 & [E|E]).
        - destruct (C27_both_files arts l1 a l2 b l3 Nw E) as [(m & g & I) _]; [|exists m, (im_file a), g; auto]. exact Sn.
        - destruct (C27_both_files arts l1 b l2 a l3 Nw E) as [_ (m & f & I)]; [|exists m, f, (im_file a); auto]. apply same_clash; auto. symmetry. apply same_clash; auto. }
      destruct X as (m & f & g & I & Ef).
      assert (Y : exists l, In l (art_dup_lints path_str (m, f, g)) /\ names_file path_str l a).
      { destruct Ef as [->| ->]; eexists; (split; [cbn [art_dup_lints map In]|]); [left; reflexivity|split; reflexivity|right; left; reflexivity|split; reflexivity]. }
      destruct Y as (l & Hl & Nl). destruct (G l) as (c & E & Hc); [|eauto]. apply In_. right. unfold collect_lints. apply in_or_app. right. apply in_flat_map. eauto.
    - intros x y [Sr [rest P]]. assert (P' : Permutation refs (x :: y :: rest)) by now rewrite Pr.
      assert (Wx : ref_wf x) by (rewrite Forall_forall in Fr; apply Fr, (Permutation_in _ (Permutation_sym P')); now left).
      assert (Wy : ref_wf y) by (rewrite Forall_forall in Fr; apply Fr, (Permutation_in _ (Permutation_sym P')); right; now left).
      assert (Sr' : same_ref y x) by (apply same_ref_key; auto; symmetry; now apply same_ref_key).
      destruct (two_places refs x y rest P' Sr Sr') as (i & j & R & Ni).
      destruct (join_reports refs Fr path_str i j x R Ni) as (w & _ & Hw & Pw & _). destruct (G w) as (c & E & Hc); [|eauto].
      apply In_. right. unfold collect_lints. apply in_or_app. left. exact Hw.
  Qed.

  (** Nothing else is reported, and a load without any of this gives a project. *)
  Theorem C99_only : forall n afs cfs c, walk_lints_ok afs -> walk_lints_ok cfs ->
    killers load_file afs < n -> killers load_locations cfs < 4 -> loads n afs cfs (Ok (inr c)) ->
    ls_error c <> [] /\ ls_other c = [] /\
    forall l, In l (ls_error c) ->
      fault afs cfs l \/
      (exists a b, two same_spelling (file_arts load_file afs) a b /\ names_file path_str l a) \/
      (exists x y, two same_ref (file_refs path_str cfs) x y /\ points_to path_str l x).
  Proof.
    intros n afs cfs c Wa Wc Ka Kc L. destruct (loads_open n afs cfs _ Wa Wc Ka Kc L) as (arts & refs & arrived & Pa & Pr & Fa & Fr & Fe & In_ & E).
    symmetry in E. destruct (finish_errors arrived arts refs Fe (finish_inr _ _ _ _ Fe E)) as (c' & E' & O & Nn & Hc). rewrite E in E'. injection E' as <-.
    split; auto. split; auto. intros l Hl. apply Hc, In_ in Hl as [Hl|Hl]; [now left|]. right. unfold collect_lints in Hl. apply in_app_or in Hl as [Hl|Hl].
    - right. destruct (join_only refs Fr path_str l Hl) as (i & j & x & (x' & y & Ni & Nj & Nij & Sr) & Ni' & Pt). rewrite Ni in Ni'. injection Ni' as ->.
      exists x, y. split; auto. split; auto.
      assert (Q : exists rest, Permutation refs (x :: y :: rest)).
      { assert (Sp : forall i j (x y : src_ref) refs, i < j -> nth_error refs i = Some x -> nth_error refs j = Some y -> exists rest, Permutation refs (x :: y :: rest)).
        { clear. intros i j x y refs L Hi Hj. destruct (nth_split_lt refs i j x y L Hi Hj) as (a & b & c & E & _). eapply (split_two refs a b c x y refs); [apply Permutation_refl|]. exact E. }
        destruct (Nat.lt_trichotomy i j) as [Lt|[->|Lt]]; [eapply Sp; eauto|congruence|]. destruct (Sp _ _ _ _ _ Lt Nj Ni) as [rest P]. exists rest. rewrite P. apply perm_swap. }
      destruct Q as [rest Q]. exists rest. now rewrite <- Pr.
    - left. apply in_flat_map in Hl as ([[m f] g] & Hd & Hl).
      destruct (dups_sound arts m f g Hd) as (l1 & a & l2 & b & l3 & Ea & Cl & Ef & Eg & En). unfold clash in Cl.
      destruct (split_two arts l1 l2 l3 a b _ Pa Ea) as [rest P].
      assert (Ha : name_wf (im_name a)) by (rewrite Forall_forall in Fa; apply (Fa a); rewrite Ea; apply in_or_app; right; now left).
      assert (Hb : name_wf (im_name b)) by (rewrite Forall_forall in Fa; apply (Fa b); rewrite Ea; apply in_or_app; right; right; apply in_or_app; right; now left).
      assert (C1 : same_spelling a b) by now apply same_clash. assert (C2 : same_spelling b a) by (apply same_clash; auto; now symmetry).
      cbn [art_dup_lints map In] in Hl. destruct Hl as [<-|[<-|[]]].
      + exists a, b. split; [split; [auto|eauto]|]. split; cbn; [reflexivity|]. now rewrite Ef.
      + exists b, a. split; [split; [auto|exists rest; rewrite P; apply perm_swap]|]. split; cbn; [reflexivity|]. now rewrite Eg.
  Qed.
End Report.
Print Assumptions C99_reported.
Print Assumptions C99_only.

(** A missing directory, a file that cannot be read, one that is malformed, a source file that breaks
    off, a name defined twice and a reference given twice: all of it is reported at once. *)
Definition ex_walk : lint := mkLint LError (Some (s "gone")) None CLoadPaths (s "no such directory").
Definition ex_bad_arts : list (art_file + lint) :=
  [ex_a; inl (mkAF [s "b.md"] (inr (s "no permission"))); inl (mkAF [s "c.toml"] (inl (s "x"))); md (s "d.md") [s "# spc-A"]; inr ex_walk].
Definition ex_bad_code : list (code_file + lint) := [src (s "x.rs") [s "#SPC-a"]; inl (mkCF [s "y.rs"] [s ""; s "#SPC-a"] (Some (s "not UTF-8")))].
Definition errors_of {P} (r : res (lints * P + lints)) : list (option str * option nat * str) :=
  match r with Ok (inr c) => map (fun l => (li_path l, li_line l, li_msg l)) (ls_error c) | _ => [] end.
Example C99_example :
  (killers (load_file ex_path ex_yaml no_parser no_parser (fun _ _ => s "bad") []) ex_bad_arts = 0) /\
  (killers (load_locations ex_path) ex_bad_code = 0) /\
  (errors_of (ex_seq exact_num 2 ex_bad_arts ex_bad_code) =
   [(Some (s "a.md"), None, s "duplicate name detected: spc-A in a.md"); (Some (s "b.md"), None, s "Error during loading: no permission");
    (Some (s "c.toml"), None, s "Error during loading: bad"); (Some (s "d.md"), None, s "duplicate name detected: spc-A in d.md");
    (Some (s "gone"), None, s "no such directory"); (Some (s "x.rs"), Some 0, s "duplicate detected: SPC-a");
    (Some (s "y.rs"), None, s "Error during loading: not UTF-8"); (Some (s "y.rs"), Some 1, s "duplicate detected: SPC-a")]).
Proof. vm_compute. split; [reflexivity|]. split; reflexivity. Qed.
