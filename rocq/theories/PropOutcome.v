(** Property C76: how a modify request ends. *)
From Coq Require Import ZArith Lia Permutation Relation_Operators.
From Verif Require Import Base BaseFacts Regex Name SpecName NameFacts RawNames Artifact Stored SpecGraph Topo SpecLinks LinkFacts Numbers
  Markdown SpecMarkdown MarkdownFacts YamlExample Lint SpecLint Source Pool Load LoadFacts SpecLoad Disk DiskFacts Walk SpecWalk WalkFacts SpecSettings Modify SpecModify OpFacts PureFacts
  PhaseFacts RunFacts ResultFacts CodecExample DiskRunFacts RootFacts SpecOutcome OutcomeFacts PossibleFacts PropArtifacts PropCompleted PropMarkdown PropLint PropLoad PropModify PropDisk.

Open Scope nat_scope.

(** ** A request that fails says why *)
Theorem C76_reported : forall path_str M topo H heqb (hash_im : art_im -> H) debug_im st to_toml to_json yaml_done style E1 E3 t loaded ops t' k l,
  tree_ok t ->
  runs path_str M topo H heqb hash_im debug_im st to_toml to_json yaml_done style E1 E3 t loaded ops (MDone M H t' (Ok (inr (k, l)))) ->
  ls_error l <> [] /\
  match k with
  | KLoad => exists r, loaded = Ok r /\ forall x, In x (ls_error l) <-> In x (ls_error (match r with inl (c, _) => c | inr c => c end))
  | KPaths => forall x, In x (ls_error l) -> li_cat x = CIdOverlap \/ li_cat x = CModifyPathInvalid
  | KHash => forall x, In x (ls_error l) -> li_cat x = CCreateExists \/ li_cat x = CUpdateDne \/ li_cat x = CDeleteDne
  | KModify => forall x, In x (ls_error l) -> li_cat x = CArtifact \/ li_cat x = CParseArtifactFiles
  | KBackups => forall x, In x (ls_error l) -> of_root path_str st x \/ of_file path_str st t x
  | KSave => exists r c q, loaded = Ok r /\ modify_pure path_str M topo H heqb hash_im debug_im st r ops = Ok (inr (c, q)) /\ forall x, In x (ls_error l) -> of_new path_str q x
  end.
Proof.
  intros ps M topo H heqb h db st tt tj yd sy E1 E3 t ld ops t' k l T (x0 & B & S). unfold begins in B. destruct ld as [r| |]; cbn [res_bind] in B.
  - pose proof (pure_why ps M topo H heqb h db st r ops) as Y. destruct (modify_pure ps M topo H heqb h db st r ops) as [[[k0 l0]|[c q]]| |] eqn:Ep.
    + subst x0. apply after_done in S. injection S as <- <- <-. destruct Y as [Y1 Y2]. split; auto. destruct k; auto; try contradiction. exists r. split; auto.
    + destruct B as (todo & P & ->). apply (whence_steps ps M H st tt tj yd sy E1 E3 t T q) in S.
      * cbn [whence] in S. destruct k; try contradiction; destruct S as [S1 S2]; (split; [exact S1|]).
        -- intros x Hx. destruct (S2 x Hx) as [(r0 & m & Hr & ->)|S3]; [left; exists r0; eexists; split; [exact Hr|reflexivity]|right; exact S3].
        -- exists r, c, q. split; auto.
      * cbn [whence]. split; auto. split; auto. split; [|intros ? []]. intros i Hi. now apply (Permutation_in _ (Permutation_sym P)).
    + subst x0. apply after_done in S. discriminate S.
    + subst x0. apply after_done in S. discriminate S.
  - subst x0. apply after_done in S. discriminate S.
  - subst x0. apply after_done in S. discriminate S.
Qed.
Print Assumptions C76_reported.
(** Each kind of failure occurs (the first four: C38_example). *)
Definition m_dir_bk := m_dir [(s "a.md", NFile m_a); (s "b.md", NFile m_b); (s "a.artbk", NDir [])].
Example C76_example :
  fst (m_out (m_mod m_st m_dir_bk [])) = Some KBackups /\ fst (m_out (m_mod m_st m_tree [OCreate in_new_dir])) = Some KSave.
Proof. vm_compute. auto. Qed.

(** ** What a success may still report: errors of the last walk. *)
Theorem C76_success_errors : forall path_str M topo H heqb (hash_im : art_im -> H) debug_im st to_toml to_json yaml_done style E1 E3 t loaded ops t' c1 p1,
  tree_ok t ->
  runs path_str M topo H heqb hash_im debug_im st to_toml to_json yaml_done style E1 E3 t loaded ops (MDone M H t' (Ok (inl (c1, p1)))) ->
  forall x, In x (ls_error c1) -> of_root path_str st x.
Proof.
  intros ps M topo H heqb h db st tt tj yd sy E1 E3 t ld ops t' c1 p1 T (x0 & B & S) x Hx. unfold begins in B. destruct ld as [r| |]; cbn [res_bind] in B.
  - pose proof (pure_why ps M topo H heqb h db st r ops) as Y. destruct (modify_pure ps M topo H heqb h db st r ops) as [[[k0 l0]|[c q]]| |] eqn:Ep; try (subst x0; apply after_done in S; discriminate S).
    destruct B as (todo & P & ->). apply (whence_steps ps M H st tt tj yd sy E1 E3 t T q) in S.
    + destruct S as [_ S2]. destruct (S2 x Hx) as (r0 & m & Hr & ->). exists r0. eexists. split; [exact Hr|reflexivity].
    + cbn [whence]. split; auto. split; auto. split; [|intros ? []]. intros i Hi. now apply (Permutation_in _ (Permutation_sym P)).
  - subst x0. apply after_done in S. discriminate S.
  - subst x0. apply after_done in S. discriminate S.
Qed.
Print Assumptions C76_success_errors.
(** A directory becomes unreadable just before the backups are removed: the request succeeds, with
    an error, and the backups stay. *)
Definition late_errs := mkErrs (fun _ => None) (fun _ => Some (s "denied")) (fun _ => None) (s "not found").
Theorem C76_error_in_success : exists t' c1 p1,
  runs ex_path exact_num topo_sort str str_eqb mid (fun _ => s "art") m_st ex_store ex_store ex_yaml_done Hashes no_errs late_errs m_tree (m_load m_st m_tree) []
    (MDone exact_num str t' (Ok (inl (c1, p1)))) /\
  ls_error c1 <> [] /\ file_at t' (in_file (s "a.artbk")) = Some m_a.
Proof.
  pose proof (seq_runs ex_path exact_num topo_sort str str_eqb mid (fun _ => s "art") m_st ex_store ex_store ex_yaml_done Hashes no_errs late_errs m_tree (m_load m_st m_tree) []) as S.
  match type of S with context [seq_modify ?a ?b ?c ?d ?e ?f ?g ?h ?i ?j ?k ?l ?m ?n ?o ?p ?q] => set (r := seq_modify a b c d e f g h i j k l m n o p q) in S end.
  assert (B : match snd r with Ok (inl (c1, _)) => negb (is_nil (ls_error c1)) | _ => false end = true) by (vm_compute; reflexivity).
  assert (F : file_at (fst r) (in_file (s "a.artbk")) = Some m_a) by (vm_compute; reflexivity).
  destruct r as [t' [[[c1 p1]|]| |]]; cbn [fst snd] in *; try discriminate B. exists t', c1, p1. split; auto. split; auto. now destruct (ls_error c1).
Qed.
Print Assumptions C76_error_in_success.

(** ** A request can always go on until it ends; nothing follows. *)
Theorem C76_ends : forall path_str M topo H heqb (hash_im : art_im -> H) debug_im st to_toml to_json yaml_done style E1 E3 t loaded ops x,
  runs path_str M topo H heqb hash_im debug_im st to_toml to_json yaml_done style E1 E3 t loaded ops x ->
  (exists t' r, clos_refl_trans_1n _ (mstep path_str M H st to_toml to_json yaml_done style E3) x (MDone M H t' r)) /\
  forall t' r y, x = MDone M H t' r -> ~ mstep path_str M H st to_toml to_json yaml_done style E3 x y.
Proof.
  intros ps M topo H heqb h db st tt tj yd sy E1 E3 t ld ops x _. split; [apply ends|]. intros t' r y ->. apply done_stuck.
Qed.
Print Assumptions C76_ends.

(** ** Writing a file never panics: whatever is still to be written has a text.  So the workers of
    [save_project] stay alive, and the step [s_panic] of the model is never taken. *)
Theorem C76_no_panic : forall path_str M topo H heqb (hash_im : art_im -> H) debug_im st to_toml to_json yaml_done style E1 E3
    yaml parse_toml parse_json parse_msg prefix settings_path url_error E0 n lines_of t c p ops,
  topo_ok topo -> (forall a b, heqb a b = true <-> a = b) -> parser_ok parse_toml -> parser_ok parse_json ->
  tree_ok t -> (forall r, In r (se_arts st) -> file_at t r = None) ->
  loads path_str yaml parse_toml parse_json parse_msg prefix M topo H hash_im settings_path url_error n (art_files E0 t path_str st) (code_files E0 t lines_of path_str st) (Ok (inl (c, p))) ->
  Forall op_wf ops ->
  (forall t1 c1 q todo got, runs path_str M topo H heqb hash_im debug_im st to_toml to_json yaml_done style E1 E3 t (Ok (inl (c, p))) ops (MSave M H t1 c1 q todo got) ->
    forall f x, In (f, x) todo -> known_extension f /\ exists y, x = Ok y) /\
  forall t', ~ runs path_str M topo H heqb hash_im debug_im st to_toml to_json yaml_done style E1 E3 t (Ok (inl (c, p))) ops (MDone M H t' Panic).
Proof.
  intros ps M topo H heqb h db st tt tj yd sy E1 E3 y pt pj pm px sp u E0 n lo t c p ops TC HE PO PJ T R Ld W.
  pose proof (l_ok ps M topo TC H h st y pt pj PO PJ pm px sp u t c p E0 n _ (found_walk_ok _ _ _ _ _ _ _ _) Ld) as Lk.
  pose proof (l_typed ps M topo TC H h st y pt pj PO PJ pm px sp u t T R c p E0 n _ (found_walk_ok _ _ _ _ _ _ _ _) Ld) as Lt.
  split.
  - intros t1 c1 q todo got (x0 & B & S) f x Hf. unfold begins in B. cbn [res_bind] in B.
    destruct (modify_pure ps M topo H heqb h db st (inl (c, p)) ops) as [[e|[c2 q2]]| |] eqn:Ep;
      [subst x0; apply after_done in S; discriminate S| |subst x0; apply after_done in S; discriminate S|subst x0; apply after_done in S; discriminate S].
    destruct B as (td & _ & ->). set (J := save_jobs M H tt tj yd sy q2).
    assert (Hj : In (f, x) J).
    { pose (Q := fun z : mstate M H => match z with MBackup _ _ _ _ p' _ _ => p' = q2 | MSave _ _ _ _ p' l _ => p' = q2 /\ forall j, In j l -> In j J | _ => True end).
      assert (X : forall z z', clos_refl_trans_1n _ (mstep ps M H st tt tj yd sy E3) z z' -> Q z -> Q z').
      { induction 1 as [|z z1 z' S1 _ IH]; auto. intros Qz. apply IH. destruct S1; cbn [Q] in *; auto; try (destruct Qz as [E Qz]; rewrite E; split; auto; intros j Hj; apply Qz; now right).
        subst. split; auto. intros j Hj. eapply Permutation_in; [apply Permutation_sym; eassumption|exact Hj]. }
      now apply (X _ _ S eq_refl). }
    pose proof (new_typed ps M topo TC H heqb HE h db st c p ops Lk Lt W c2 q2 Ep) as Nt.
    pose proof (proj2 (new_names ps M topo TC H heqb HE h db st c p ops Lk W c2 q2 Ep)) as Nn.
    assert (Tf : typed f) by (apply job_file in Hj as (a & Ha & <-); now apply Nt).
    split; [now apply art_type_iff|]. eapply text_total; eauto.
  - intros t' (x0 & B & S). unfold begins in B. cbn [res_bind] in B.
    assert (X : forall x z, clos_refl_trans_1n _ (mstep ps M H st tt tj yd sy E3) x z -> (forall t1, x <> MDone M H t1 Panic) -> forall t1, z <> MDone M H t1 Panic).
    { clear. induction 1 as [|x x1 z S1 _ IH]; auto. intros _. apply IH. intros t1. destruct S1; discriminate. }
    destruct (pure_total ps M topo TC H heqb h db st c p ops) as [[e|[c' q]] E]; rewrite E in B.
    + apply (X _ _ S) with (t1 := t'); [intros t1; subst x0; discriminate|reflexivity].
    + destruct B as (todo & _ & ->). apply (X _ _ S) with (t1 := t'); [intros t1; discriminate|reflexivity].
Qed.
Print Assumptions C76_no_panic.
(** Not so for a project that was not loaded: an artifact in a file of another kind. *)
Example C76_panic_unloaded : forall tt tj yd sy px, file_text tt tj yd sy px [s "a.txt"] [] = Panic /\ ~ known_extension [s "a.txt"].
Proof. intros. split; [reflexivity|]. rewrite <- art_type_iff. intros X. now apply X. Qed.

(** ** When a request can succeed *)
Theorem C76_possible_iff : forall path_str M topo H heqb (hash_im : art_im -> H) debug_im st to_toml to_json yaml_done style E1 E3
    yaml parse_toml parse_json parse_msg prefix settings_path url_error E0 n lines_of t c p ops,
  topo_ok topo -> (forall a b, heqb a b = true <-> a = b) -> parser_ok parse_toml -> parser_ok parse_json ->
  safe_disk st t ->
  loads path_str yaml parse_toml parse_json parse_msg prefix M topo H hash_im settings_path url_error n (art_files E0 t path_str st) (code_files E0 t lines_of path_str st) (Ok (inl (c, p))) ->
  Forall op_wf ops -> (forall o a, In o ops -> stores o a -> plain_path (im_file a)) ->
  (forall q, e_stat E1 q = None) -> (forall q, e_open E1 q = None) ->
  (exists t' c1 p1, runs path_str M topo H heqb hash_im debug_im st to_toml to_json yaml_done style E1 E3 t (Ok (inl (c, p))) ops (MDone M H t' (Ok (inl (c1, p1))))) <->
  exists c' q, modify_pure path_str M topo H heqb hash_im debug_im st (inl (c, p)) ops = Ok (inr (c', q)) /\
    (* the artifact paths are there *)
    (forall r, In r (se_arts st) -> is_dir (lookup t r) = true) /\
    (* no directory has the name of a backup *)
    (forall o, found_file st t o -> is_dir (lookup t (backup_of o)) = false) /\
    (* the files of the new project are in directories and are not directories *)
    (forall a, In a (stored_form q) -> is_dir (lookup t (im_file a)) = false /\ is_dir (lookup t (parent (im_file a))) = true).
Proof.
  intros ps M topo H heqb h db st tt tj yd sy E1 E3 y pt pj pm px sp u E0 n lo t c p ops TC HE PO PJ [T Nm R U] Ld W Wp Es Eo. split.
  - intros (t' & c1 & p1 & Rn). destruct (done_project ps M topo H heqb h db st tt tj yd sy E1 E3 t _ ops t' c1 p1 Rn) as (l1 & c' & q & X & Ep & _). injection X as <-. exists c', q. split; auto.
    exact (possible_only ps M topo TC H heqb HE h db st tt tj yd sy E1 E3 y pt pj PO PJ pm px sp u t T Nm R U c p ops E0 n _ (found_walk_ok _ _ _ _ _ _ _ _) Ld W Wp c' q Ep t' c1 p1 Rn).
  - intros (c' & q & Ep & C2 & C3 & C4).
    exact (possible_if ps M topo TC H heqb HE h db st tt tj yd sy E1 E3 y pt pj PO PJ pm px sp u t T Nm R U Es Eo c p ops E0 n _ (found_walk_ok _ _ _ _ _ _ _ _) Ld W Wp c' q Ep C2 C3 C4).
Qed.
Print Assumptions C76_possible_iff.
(** Where it can: the example disk.  Where it cannot, whatever the schedule and the errors of the
    disk: a new file in a new directory; a directory named like a backup. *)
Definition m_succeeds st t ops : Prop := exists t' c1 p1, m_run st t ops (MDone exact_num str t' (Ok (inl (c1, p1)))).
Lemma m_possible st t ops : code_files no_errs t (fun _ => ([], None)) ex_path st = [] -> safe_disk st t -> Forall op_wf ops -> (forall o a, In o ops -> stores o a -> plain_path (im_file a)) -> m_succeeds st t ops ->
  exists c p c' q, m_load st t = Ok (inl (c, p)) /\ modify_pure ex_path exact_num topo_sort str str_eqb mid (fun _ => s "art") st (inl (c, p)) ops = Ok (inr (c', q)) /\
    (forall r, In r (se_arts st) -> is_dir (lookup t r) = true) /\ (forall o, found_file st t o -> is_dir (lookup t (backup_of o)) = false) /\
    (forall a, In a (stored_form q) -> is_dir (lookup t (im_file a)) = false /\ is_dir (lookup t (parent (im_file a))) = true).
Proof.
  intros Nc Sd W Wp (t' & c1 & p1 & Rn). unfold m_run in Rn.
  destruct (done_project _ _ _ _ _ _ _ _ _ _ _ _ _ _ _ _ _ _ _ _ Rn) as ([[c p]|l] & c' & q & El & Ep & _); [|unfold modify_pure in Ep; destruct (is_nil (ls_error l)); discriminate Ep].
  pose proof (m_load_runs st t) as Ld. rewrite El in Ld, Rn. exists c, p.
  destruct (C76_possible_iff ex_path exact_num topo_sort str str_eqb mid (fun _ => s "art") st ex_store ex_store ex_yaml_done Hashes no_errs no_errs ex_yaml ex_parse ex_parse (fun _ _ => s "bad") [] [s "settings.toml"] None
    no_errs 2 (fun _ => ([], None)) t c p ops) as [X _]; auto.
  - exact topo_sort_ok.
  - exact str_eqb_eq.
  - exact ex_parser_ok.
  - exact ex_parser_ok.
  - now rewrite Nc.
  - destruct X as (c2 & q2 & X); [eauto|]. exists c2, q2. auto.
Qed.
Theorem C76_never :
  m_succeeds m_st m_tree [OCreate spc_n] /\ ~ m_succeeds m_st m_tree [OCreate in_new_dir] /\ ~ m_succeeds m_st m_dir_bk [].
Proof.
  split; [|split].
  - apply m_accepted. vm_compute. reflexivity.
  - intros X. apply m_possible in X as (c & p & c' & q & El & Ep & _ & _ & Fd).
    + assert (B : match m_load m_st m_tree with
        | Ok (inl v) => match modify_pure ex_path exact_num topo_sort str str_eqb mid (fun _ => s "art") m_st (inl v) [OCreate in_new_dir] with Ok (inr (_, q)) => existsb (fun a => path_eqb (im_file a) (im_file in_new_dir)) (stored_form q) | _ => false end
        | _ => false end = true) by (vm_compute; reflexivity).
      rewrite El, Ep in B. apply existsb_exists in B as (a & Ha & Fa). apply path_eqb_iff in Fa. destruct (Fd a Ha) as [_ D]. rewrite Fa in D. vm_compute in D. discriminate D.
    + reflexivity.
    + exact m_safe.
    + repeat constructor; try (apply names_ok; vm_compute; exact Logic.I).
    + intros o a [<-|[]] [Y|[i Y]]; [injection Y; intros <-; repeat constructor|discriminate Y].
  - intros X. apply m_possible in X as (c & p & c' & q & El & Ep & _ & Bd & _).
    + specialize (Bd (in_file (s "a.md"))). vm_compute in Bd. discriminate Bd.
      exists [s "p"; s "d"]. split; [now left|]. split; [exists [s "a.md"], m_a; split; [reflexivity|split; [discriminate|split; [vm_compute; reflexivity|]]]|exists [s "p"; s "d"], (s "a"), (s "md"); split; [reflexivity|split; [discriminate|auto]]].
      intros a b Eab. destruct a as [|z [|w a]]; [intros [Y|[]]; discriminate Y| |destruct a; discriminate Eab]. injection Eab as <- _. intros [Y|[]]; discriminate Y.
    + reflexivity.
    + apply safe_b_ok. vm_compute. reflexivity.
    + constructor.
    + intros o a [].
Qed.
Print Assumptions C76_never.

(** ** A file without artifacts that is found from two of the configured paths.  The project loads.
    If the file is renamed before the walk comes by it again, a request succeeds.  If not, the
    second attempt to rename it fails, and with it the request: nothing else went wrong. *)
Definition m_two := mkSettings [[s "p"; s "d"]; [s "p"; s "d"; s "sub"]] [] [] [].
Definition m_two_tree := m_dir [(s "a.md", NFile m_a); (s "sub", NDir [(s "note.md", NFile (s "no artifacts"))])].
Theorem C76_overlap :
  (exists c p, m_load m_two m_two_tree = Ok (inl (c, p)) /\ ls_error c = [] /\ stored_form p = [req_a; spc_a]) /\
  m_succeeds m_two m_two_tree [] /\
  exists t' c, m_run m_two m_two_tree [] (MDone exact_num str t' (Ok (inr (KBackups, c)))) /\
    map li_path (ls_error c) = [Some (ex_path [s "p"; s "d"; s "sub"; s "note.md"])].
Proof.
  assert (B : match m_load m_two m_two_tree with Ok (inl (c, p)) => (ls_error c, stored_form p) | _ => ([plain_lint CUpdateDne []], []) end = ([], [req_a; spc_a])) by (vm_compute; reflexivity).
  destruct (m_load m_two m_two_tree) as [[[c p]|]| |] eqn:E; try discriminate B. split; [|split].
  - exists c, p. split; auto. split; [exact (f_equal fst B)|exact (f_equal snd B)].
  - assert (Sd : safe_disk m_two m_two_tree) by (apply safe_b_ok; vm_compute; reflexivity).
    pose proof (m_load_runs m_two m_two_tree) as Ld. rewrite E in Ld. unfold m_succeeds, m_run. rewrite E.
    apply (C76_possible_iff ex_path exact_num topo_sort str str_eqb mid (fun _ => s "art") m_two ex_store ex_store ex_yaml_done Hashes no_errs no_errs ex_yaml ex_parse ex_parse (fun _ _ => s "bad") [] [s "settings.toml"] None
      no_errs 2 (fun _ => ([], None)) m_two_tree c p []); auto; [exact topo_sort_ok|exact str_eqb_eq|exact ex_parser_ok|exact ex_parser_ok|intros o a []|].
    assert (Q : match m_load m_two m_two_tree with
      | Ok (inl v) => match modify_pure ex_path exact_num topo_sort str str_eqb mid (fun _ => s "art") m_two (inl v) [] with Ok (inr (_, q)) => map im_file (stored_form q) | _ => [] end
      | _ => [] end = [[s "p"; s "d"; s "a.md"]; [s "p"; s "d"; s "a.md"]]) by (vm_compute; reflexivity).
    rewrite E in Q. destruct (modify_pure ex_path exact_num topo_sort str str_eqb mid (fun _ => s "art") m_two (inl (c, p)) []) as [[|[c' q]]| |]; try discriminate Q. exists c', q. split; auto. split; [|split].
    + intros r [<-|[<-|[]]]; vm_compute; reflexivity.
    + intros o Fo. destruct Sd as [T Nm R U]. apply (found_orig ex_path m_two m_two_tree T R no_errs) in Fo; [|intros x Hx; vm_compute in Hx; repeat (destruct Hx as [Hx|Hx]; [discriminate Hx|]); exact Hx].
      unfold orig in Fo. vm_compute in Fo. repeat (destruct Fo as [Fo|Fo]; [injection Fo as <-; vm_compute; reflexivity|]). destruct Fo.
    + intros a Ha. apply (in_map im_file) in Ha. rewrite Q in Ha. destruct Ha as [<-|[<-|[]]]; vm_compute; auto.
  - pose proof (m_mod_runs m_two m_two_tree []) as S.
    assert (X : match snd (m_mod m_two m_two_tree []) with Ok (inr (KBackups, c)) => map li_path (ls_error c) | _ => [] end = [Some (ex_path [s "p"; s "d"; s "sub"; s "note.md"])]) by (vm_compute; reflexivity).
    destruct (snd (m_mod m_two m_two_tree [])) as [[|[[] c1]]| |]; try discriminate X. eauto.
Qed.
Print Assumptions C76_overlap.
