(** Properties C39-C41: the disk during and after a modify request.

    The project [p] was read from the disk [t] ([loads]); [runs … t (Ok (inl (c, p))) ops x]: some
    run of the request [ops] reaches the state [x], [disk x] is what is on disk then, and a crash
    may leave any such disk.  [fmt] is the request without operations. *)
From Coq Require Import ZArith Lia Permutation Relation_Operators.
From Verif Require Import Base BaseFacts Regex Name SpecName NameFacts RawNames Artifact Stored SpecGraph Topo SpecLinks LinkFacts Numbers
  Markdown SpecMarkdown MarkdownFacts SpecMdExact YamlExample Lint SpecLint Source Pool Load LoadFacts SpecLoad Disk DiskFacts Walk SpecWalk WalkFacts Modify SpecModify SpecReload OpFacts PureFacts
  PhaseFacts ResultFacts CodecExample ReloadFacts DiskRunFacts RootFacts PropArtifacts PropCompleted PropMarkdown PropLint PropLoad PropModify.

Open Scope nat_scope.

(** ** C39 backups *)
Theorem C39_crash_safe : forall path_str M topo H heqb (hash_im : art_im -> H) debug_im st to_toml to_json yaml_done style E1 E3
    yaml parse_toml parse_json parse_msg prefix settings_path url_error E0 n lines_of t c p ops x,
  topo_ok topo -> (forall a b, heqb a b = true <-> a = b) -> parser_ok parse_toml -> parser_ok parse_json ->
  safe_disk st t ->
  loads path_str yaml parse_toml parse_json parse_msg prefix M topo H hash_im settings_path url_error n (art_files E0 t path_str st) (code_files E0 t lines_of path_str st) (Ok (inl (c, p))) ->
  Forall op_wf ops -> (forall o a, In o ops -> stores o a -> plain_path (im_file a)) ->
  runs path_str M topo H heqb hash_im debug_im st to_toml to_json yaml_done style E1 E3 t (Ok (inl (c, p))) ops x ->
  (forall o y, found_file st t o -> file_at t o = Some y -> file_at (disk M H x) o = Some y \/ file_at (disk M H x) (backup_of o) = Some y) \/
  (exists c' q, modify_pure path_str M topo H heqb hash_im debug_im st (inl (c, p)) ops = Ok (inr (c', q)) /\ holds to_toml to_json yaml_done style (disk M H x) q).
Proof.
  intros ps M topo H heqb h db st tt tj yd sy E1 E3 y pt pj pm px sp u E0 n lo t c p ops x TC HE PO PJ [T Nm R U] Ld W Wp Rn.
  exact (crash_found ps M topo TC H heqb HE h db st tt tj yd sy E1 E3 y pt pj PO PJ pm px sp u t T Nm R U c p ops E0 n _ (found_walk_ok _ _ _ _ _ _ _ _) Ld W Wp x Rn).
Qed.
Print Assumptions C39_crash_safe.

(** Deciding the conditions for the examples. *)
Fixpoint all_files (t : node) : list path :=
  match t with
  | NFile _ => [[]]
  | NDir l => (fix go l := match l with [] => [] | (x, c) :: l' => map (cons x) (all_files c) ++ go l' end) l
  end.
Lemma all_files_in f : forall t y, lookup t f = Some (NFile y) -> In f (all_files t).
Proof.
  induction f as [|x f IH]; intros t y L; cbn [lookup] in L; [injection L as ->; now left|]. destruct t as [z|l]; [discriminate L|].
  destruct (assoc x l) as [c|] eqn:A; [|discriminate L]. cbn [all_files]. apply assoc_in in A. induction l as [|[z d] l IHl]; [destruct A|]. apply in_or_app. destruct A as [A|A]; [left|right; auto].
  injection A as -> ->. apply in_map. eapply IH; eauto.
Qed.
Fixpoint names_b (t : node) : bool :=
  match t with
  | NFile _ => true
  | NDir l => (fix go l := match l with [] => true | (x, c) :: l' => goes_down x && names_b c && go l' end) l
  end.
Lemma names_b_ok t : names_b t = true -> tree_names t.
Proof.
  intros B f. revert t B. induction f as [|x f IH]; intros t B n L; [constructor|]. cbn [lookup] in L. destruct t as [z|l]; [discriminate L|]. destruct (assoc x l) as [c|] eqn:A; [|discriminate L].
  assert (X : goes_down x = true /\ names_b c = true).
  { clear -B A. cbn [names_b] in B. induction l as [|[z d] l IHl]; [discriminate A|]. apply Bool.andb_true_iff in B as [B1 B2]. apply Bool.andb_true_iff in B1 as [B0 B1].
    cbn [assoc] in A. destruct (str_eqb z x) eqn:E; [apply str_eqb_eq in E as <-; injection A as ->; auto|auto]. }
  constructor; [apply X|]. eapply IH; [apply X|exact L].
Qed.
Fixpoint nodup_b (l : list str) : bool := match l with [] => true | x :: l' => negb (existsb (str_eqb x) l') && nodup_b l' end.
Lemma nodup_b_ok l : nodup_b l = true -> NoDup l.
Proof.
  induction l as [|x l IH]; intros B; [constructor|]. apply Bool.andb_true_iff in B as [B1 B2]. constructor; auto. intros Hin. apply Bool.negb_true_iff in B1. rewrite <- Bool.not_true_iff_false in B1. apply B1.
  apply existsb_exists. exists x. split; auto. now apply str_eqb_eq.
Qed.
Fixpoint tree_b (t : node) : bool :=
  match t with
  | NFile _ => true
  | NDir l => nodup_b (map fst l) && (fix all l := match l with [] => true | (_, c) :: l' => tree_b c && all l' end) l
  end.
Lemma tree_b_ok t : tree_b t = true -> tree_ok t.
Proof.
  induction t as [z|l IH] using node_ind'; intros B; [exact I|]. cbn [tree_b] in B. apply Bool.andb_true_iff in B as [B1 B2]. apply tree_ok_dir. split; [now apply nodup_b_ok|].
  intros x c Hin. eapply IH; eauto. clear -B2 Hin. induction l as [|[z d] l IHl]; [destruct Hin|]. apply Bool.andb_true_iff in B2 as [B2 B3]. destruct Hin as [E|Hin]; [now injection E as _ <-|auto].
Qed.
Definition twins_b (t : node) : bool :=
  let l := filter (fun q => match art_type_of q with Some _ => true | None => false end) (all_files t) in
  forallb (fun q => forallb (fun q' => negb (path_eqb (backup_of q) (backup_of q')) || path_eqb q q') l) l.
Definition safe_b (st : settings) (t : node) : bool :=
  tree_b t && names_b t && forallb (fun r => match file_at t r with None => true | Some _ => false end) (se_arts st) && twins_b t.
Lemma safe_b_ok st t : safe_b st t = true -> safe_disk st t.
Proof.
  unfold safe_b. rewrite !Bool.andb_true_iff. intros [[[B1 B2] B3] B4]. constructor; [now apply tree_b_ok|now apply names_b_ok| |].
  - intros r Hr. rewrite forallb_forall in B3. specialize (B3 r Hr). now destruct (file_at t r).
  - intros q q' F F' Tw. pose proof (found_typed st t q F) as Ty. pose proof (found_typed st t q' F') as Ty'.
    assert (In1 : forall f, found_file st t f -> In f (filter (fun q => match art_type_of q with Some _ => true | None => false end) (all_files t))).
    { intros f Ff. apply filter_In. destruct (found_exists st t f Ff) as [y L]. split; [eapply all_files_in; eauto|]. pose proof (found_typed st t f Ff) as X. unfold typed in X. now destruct (art_type_of f). }
    unfold twins_b in B4. rewrite forallb_forall in B4. specialize (B4 q (In1 q F)). rewrite forallb_forall in B4. specialize (B4 q' (In1 q' F')).
    rewrite (twins_backup q q' Ty Ty' Tw) in B4. rewrite (proj2 (path_eqb_iff (backup_of q') (backup_of q')) eq_refl) in B4. cbn [negb orb] in B4. now apply path_eqb_iff.
Qed.

(** The example disk of C35-C38 is one; so every run of every request on it is safe, and the
    artifact files are what one expects. *)
Lemma m_safe : safe_disk m_st m_tree.
Proof. apply safe_b_ok. vm_compute. reflexivity. Qed.
Lemma m_loaded st t : match m_load st t with Ok (inl _) => True | _ => False end ->
  exists c p, m_load st t = Ok (inl (c, p)) /\
    loads ex_path ex_yaml ex_parse ex_parse (fun _ _ => s "bad") [] exact_num topo_sort str mid [s "settings.toml"] None 2 (art_files no_errs t ex_path st) [] (Ok (inl (c, p))).
Proof. intros X. pose proof (m_load_runs st t) as L. destruct (m_load st t) as [[[c p]|l]| |]; try destruct X. eauto. Qed.
Definition in_file (f : str) : path := [s "p"; s "d"; f].
Example C39_example : forall ops x, Forall op_wf ops -> (forall o a, In o ops -> stores o a -> plain_path (im_file a)) -> m_run m_st m_tree ops x ->
  (file_at (disk _ _ x) (in_file (s "a.md")) = Some m_a \/ file_at (disk _ _ x) (in_file (s "a.artbk")) = Some m_a) /\
  (file_at (disk _ _ x) (in_file (s "b.md")) = Some m_b \/ file_at (disk _ _ x) (in_file (s "b.artbk")) = Some m_b) \/
  exists c p c' q, m_load m_st m_tree = Ok (inl (c, p)) /\
    modify_pure ex_path exact_num topo_sort str str_eqb mid (fun _ => s "art") m_st (inl (c, p)) ops = Ok (inr (c', q)) /\ holds ex_store ex_store ex_yaml_done Hashes (disk _ _ x) q.
Proof.
  intros ops x W Wp Rn. unfold m_run in Rn. destruct (m_loaded m_st m_tree) as (c & p & E & Ld); [vm_compute; exact I|]. rewrite E in Rn.
  destruct (C39_crash_safe ex_path exact_num topo_sort str str_eqb mid (fun _ => s "art") m_st ex_store ex_store ex_yaml_done Hashes no_errs no_errs ex_yaml ex_parse ex_parse (fun _ _ => s "bad") [] [s "settings.toml"] None
    no_errs 2 (fun _ => ([], None)) m_tree c p ops x topo_sort_ok str_eqb_eq ex_parser_ok ex_parser_ok m_safe Ld W Wp Rn) as [X|(c' & q & Ep & Hq)].
  - left. split; apply X; try (vm_compute; reflexivity).
    + exists [s "p"; s "d"]. split; [now left|]. split; [exists [s "a.md"], m_a; split; [reflexivity|split; [discriminate|split; [vm_compute; reflexivity|]]]|exists [s "p"; s "d"], (s "a"), (s "md"); split; [reflexivity|split; [discriminate|auto]]].
      intros a b Eab. destruct a as [|z [|w a]]; [intros [Y|[]]; discriminate Y| |destruct a; discriminate Eab]. injection Eab as <- _. intros [Y|[]]; discriminate Y.
    + exists [s "p"; s "d"]. split; [now left|]. split; [exists [s "b.md"], m_b; split; [reflexivity|split; [discriminate|split; [vm_compute; reflexivity|]]]|exists [s "p"; s "d"], (s "b"), (s "md"); split; [reflexivity|split; [discriminate|auto]]].
      intros a b Eab. destruct a as [|z [|w a]]; [intros [Y|[]]; discriminate Y| |destruct a; discriminate Eab]. injection Eab as <- _. intros [Y|[]]; discriminate Y.
  - right. exists c, p, c', q. auto.
Qed.
(** Two files that differ only in extension: there is a run after which the content of one of the
    artifact files is nowhere on the disk, before anything new is written. *)
Definition m_twin := m_dir [(s "a.md", NFile m_a); (s "a.toml", NFile (ex_store []))].
Lemma m_backed st t ops c0 p0 c q : m_load st t = Ok (inl (c0, p0)) ->
  modify_pure ex_path exact_num topo_sort str str_eqb mid (fun _ => s "art") st (inl (c0, p0)) ops = Ok (inr (c, q)) ->
  let r := seq_backup ex_path t [] (to_back_up ex_path st no_errs t) in
  m_run st t ops (MBackup exact_num str (fst r) c q [] (snd r)).
Proof.
  intros E Ep r. unfold m_run. rewrite E. eexists. unfold begins. cbn [res_bind]. rewrite Ep. split; [eexists; split; [reflexivity|reflexivity]|].
  apply seq_backup_steps. apply surjective_pairing.
Qed.
Definition m_pure_ok st t ops : bool :=
  match m_load st t with
  | Ok (inl v) => match modify_pure ex_path exact_num topo_sort str str_eqb mid (fun _ => s "art") st (inl v) ops with Ok (inr _) => true | _ => false end
  | _ => false
  end.
Theorem C39_twins_lost : exists x, m_run m_st m_twin [] x /\ file_at m_twin (in_file (s "a.md")) = Some m_a /\
  (exists t c q got, x = MBackup exact_num str t c q [] got /\ got = []) /\ forall f, file_at (disk _ _ x) f <> Some m_a.
Proof.
  assert (B : m_pure_ok m_st m_twin [] = true) by (vm_compute; reflexivity). unfold m_pure_ok in B.
  destruct (m_load m_st m_twin) as [[[c0 p0]|]| |] eqn:E; try discriminate B.
  destruct (modify_pure ex_path exact_num topo_sort str str_eqb mid (fun _ => s "art") m_st (inl (c0, p0)) []) as [[|[c q]]| |] eqn:Ep; try discriminate B.
  eexists. split; [exact (m_backed m_st m_twin [] c0 p0 c q E Ep)|]. split; [vm_compute; reflexivity|].
  split; [do 4 eexists; split; [reflexivity|vm_compute; reflexivity]|].
  cbn [disk]. intros f F. set (t' := fst _) in F.
  assert (In f (all_files t')) as Hin.
  { unfold file_at in F. destruct (lookup t' f) as [[y|l]|] eqn:L; try discriminate F. eapply all_files_in; eauto. }
  assert (X : forallb (fun g => match file_at t' g with Some y => negb (str_eqb y m_a) | None => true end) (all_files t') = true) by (vm_compute; reflexivity).
  rewrite forallb_forall in X. specialize (X f Hin). rewrite F in X. rewrite (proj2 (str_eqb_eq m_a m_a) eq_refl) in X. discriminate X.
Qed.
Print Assumptions C39_twins_lost.

(** ** C40 what a success leaves *)
Theorem C40_disk : forall path_str M topo H heqb (hash_im : art_im -> H) debug_im st to_toml to_json yaml_done style E1 E3
    yaml parse_toml parse_json parse_msg prefix settings_path url_error E0 n lines_of t c p ops t' c1 p1,
  topo_ok topo -> (forall a b, heqb a b = true <-> a = b) -> parser_ok parse_toml -> parser_ok parse_json ->
  safe_disk st t ->
  loads path_str yaml parse_toml parse_json parse_msg prefix M topo H hash_im settings_path url_error n (art_files E0 t path_str st) (code_files E0 t lines_of path_str st) (Ok (inl (c, p))) ->
  Forall op_wf ops -> (forall o a, In o ops -> stores o a -> plain_path (im_file a)) ->
  runs path_str M topo H heqb hash_im debug_im st to_toml to_json yaml_done style E1 E3 t (Ok (inl (c, p))) ops (MDone M H t' (Ok (inl (c1, p1)))) ->
  (* every file of the new project holds its artifacts *)
  holds to_toml to_json yaml_done style t' p1 /\
  (* no backup remains, unless a lint says so *)
  (ls_error c1 = [] -> (forall x, In x (ls_other c1) -> li_cat x <> CRemoveBackups) -> forall r f, In r (se_arts st) -> reachable t' (se_xarts st) r f -> ~ has_extension (s "artbk") f) /\
  (* everything else is untouched *)
  (forall f, ~ found_file st t f -> (forall a, In a (stored_form p1) -> im_file a <> f) -> (~ has_extension (s "artbk") f \/ forall r, In r (se_arts st) -> ~ below f r) -> file_at t' f = file_at t f) /\
  (forall f, is_dir (lookup t' f) = is_dir (lookup t f)).
Proof.
  intros ps M topo H heqb h db st tt tj yd sy E1 E3 y pt pj pm px sp u E0 n lo t c p ops t' c1 p1 TC HE PO PJ [T Nm R U] Ld W Wp Rn.
  destruct (success_found ps M topo TC H heqb HE h db st tt tj yd sy E1 E3 y pt pj PO PJ pm px sp u t T Nm R U c p ops E0 n _ (found_walk_ok _ _ _ _ _ _ _ _) Ld W Wp t' c1 p1 Rn)
    as (S1 & _ & _ & S3 & S4 & S5 & _). split; auto. split; [|split; auto].
  - intros N1 N2 r f Hr Re X. apply is_backup_iff in X. rewrite (S3 N1 N2 r f Hr Re) in X. discriminate X.
  - intros f F N B. apply S4; auto. destruct B as [B|B]; auto. left. apply Bool.not_true_iff_false. intros X. now apply is_backup_iff in X.
Qed.
Print Assumptions C40_disk.
(** Reading the project again: no errors in the artifact files, and the artifacts of the answer. *)
Theorem C40_reload : forall path_str M topo H heqb (hash_im : art_im -> H) debug_im st to_toml to_json yaml_done style E1 E3
    yaml parse_toml parse_json parse_msg prefix settings_path url_error E0 n lines_of t c p ops t' c1 p1 E,
  topo_ok topo -> (forall a b, heqb a b = true <-> a = b) -> parser_ok parse_toml -> parser_ok parse_json ->
  yaml_ok yaml yaml_done -> codec_ok to_toml parse_toml -> codec_ok to_json parse_json ->
  safe_disk st t -> roots_apart (se_arts st) ->
  loads path_str yaml parse_toml parse_json parse_msg prefix M topo H hash_im settings_path url_error n (art_files E0 t path_str st) (code_files E0 t lines_of path_str st) (Ok (inl (c, p))) ->
  Forall op_wf ops -> (forall o a, In o ops -> stores o a -> plain_path (im_file a) /\ forall e, In e (se_xarts st) -> ~ below (im_file a) e) ->
  runs path_str M topo H heqb hash_im debug_im st to_toml to_json yaml_done style E1 E3 t (Ok (inl (c, p))) ops (MDone M H t' (Ok (inl (c1, p1)))) ->
  md_survive prefix style (stored_form p1) ->
  (forall q, e_stat E q = None) -> (forall q, e_open E q = None) -> (forall q, e_read E q = None) ->
  (exists fs, art_files E t' path_str st = map inl fs /\
     Forall (fun f => jb_lints (load_file path_str yaml parse_toml parse_json parse_msg prefix f) = [] /\ jb_panic (load_file path_str yaml parse_toml parse_json parse_msg prefix f) = false) fs) /\
  forall n' lines_of' c2 p2, 0 < n' ->
    loads path_str yaml parse_toml parse_json parse_msg prefix M topo H hash_im settings_path url_error n' (art_files E t' path_str st) (code_files E t' lines_of' path_str st) (Ok (inl (c2, p2))) ->
    Permutation (stored_form p2) (stored_form p1).
Proof.
  intros ps M topo H heqb h db st tt tj yd sy E1 E3 y pt pj pm px sp u E0 n lo t c p ops t' c1 p1 E TC HE PO PJ Hy Ct Cj [T Nm R U] Ra Ld W Wp Rn Md Es Eo Er.
  destruct (reload_found ps M topo TC H heqb HE h db st tt tj yd sy E1 E3 y pt pj PO PJ pm px sp u t T Nm R U c p ops E0 n _ (found_walk_ok _ _ _ _ _ _ _ _) Ld W (fun o a Ho Sa => proj1 (Wp o a Ho Sa))
    Hy Ct Cj E Es Eo Er Ra (fun o a e Ho Sa He => proj2 (Wp o a Ho Sa) e He) t' c1 p1 Rn Md) as [X1 X2].
  split; auto. intros n' lo' c2 p2 N0 Ld2. eapply X2; eauto. apply found_walk_ok.
Qed.
Print Assumptions C40_reload.
(** The example disk; an update that moves REQ-a to another file, a delete and a create. *)
Definition m_ops := [OUpdate req_z (mid req_a); ODelete (nm (s "SPC-a-b")) (mid spc_b); OCreate spc_n].
Lemma m_prefix : prefix_ok (plain_style Hashes) [].
Proof. split; [intros []|]. split; [constructor|]. intros _. exact Logic.I. Qed.
Lemma m_ops_wf : Forall op_wf m_ops.
Proof.
  repeat constructor; try (apply m_im_wf); try exact Logic.I; try (vm_compute; reflexivity); try (repeat constructor; fail); try (cbn; constructor).
Qed.
Example C40_example : let t' := fst (m_mod m_st m_tree m_ops) in
  Forall op_wf m_ops /\ (forall o a, In o m_ops -> stores o a -> plain_path (im_file a) /\ forall e, In e (se_xarts m_st) -> ~ below (im_file a) e) /\
  roots_apart (se_arts m_st) /\ fst (m_out (m_mod m_st m_tree m_ops)) = None /\
  stored_of (m_load m_st t') = [req_z; spc_a; spc_n] /\
  all_files t' = [in_file (s "b.md"); in_file (s "a.md"); in_file (s "c.md"); [s "p"; s "other.md"]] /\
  file_at t' (in_file (s "a.md")) = Some (lns [s "# SPC-a"; s "see [[REQ-a]]"]) /\
  file_at t' (in_file (s "b.md")) = Some (lns [s "# REQ-a"; s "moved"]) /\
  md_survive [] Hashes [req_z; spc_a; spc_n].
Proof.
  split; [exact m_ops_wf|]. split; [|split; [|split; [vm_compute; reflexivity|split; [vm_compute; reflexivity|split; [vm_compute; reflexivity|split; [vm_compute; reflexivity|split; [vm_compute; reflexivity|]]]]]]].
  - intros o a Ho Sa. assert (X : In a [req_z; spc_n]).
    { destruct Ho as [<-|[<-|[<-|[]]]]; destruct Sa as [Y|[i Y]]; try discriminate Y; injection Y; intros; subst; [now left|right; now left]. }
    destruct X as [<-|[<-|[]]]; (split; [repeat constructor|]); intros e [<-|[]] [x B]; discriminate B.
  - split; [repeat constructor; intros []|]. intros r r' [<-|[]] [<-|[]]; auto.
  - apply md_survive_quiet; [exact m_prefix|discriminate|]. repeat (apply Forall_cons; [apply quiet_b; vm_compute; reflexivity|]). apply Forall_nil.
Qed.
(** A text that opens a block of attributes and comes back all the same. *)
Definition spc_o := m_im (s "SPC-o") (s "c.md") [] (lns [s "An example:"; s "```art"; []]).
Example C40_open : let t' := fst (m_mod m_st m_tree [OCreate spc_o]) in
  m_out (m_mod m_st m_tree [OCreate spc_o]) = (None, [req_a; spc_a; spc_b; spc_o]) /\
  md_survive [] Hashes [req_a; spc_a; spc_b; spc_o] /\ ~ quiet_text [] (im_text spc_o) /\
  stored_of (m_load m_st t') = [req_a; spc_a; spc_b; spc_o].
Proof.
  split; [vm_compute; reflexivity|]. split; [|split; [|vm_compute; reflexivity]].
  - intros f _ _. split; [exact m_prefix|]. split; [discriminate|]. intros l Hl N _. 
    assert (Q : forall a, In a [req_a; spc_a; spc_b] -> forall x, In x (split_on 10%N (im_text a)) -> no_trap x).
    { intros a Ha x Hx. assert (Qa : quiet_text [] (im_text a)) by (destruct Ha as [<-|[<-|[<-|[]]]]; apply quiet_b; vm_compute; reflexivity). destruct (Qa x Hx) as [(_ & _ & T) C]. now split. }
    intros l1 a l2 E. assert (Ha : In a l) by (rewrite E; apply in_or_app; right; now left). apply Hl in Ha as [[<-|[<-|[<-|[<-|[]]]]] Ef]; try (left; apply Q; cbn; tauto).
    right. split.
    + destruct l2 as [|b l2]; auto. exfalso. assert (Hb : In b l) by (rewrite E; apply in_or_app; right; right; now left). apply Hl in Hb as [Hb Eb]. rewrite <- Ef in Eb.
      destruct Hb as [<-|[<-|[<-|[<-|[]]]]]; try discriminate Eb. rewrite E in N. apply NoDup_remove_2 in N. apply N, in_or_app. right. now left.
    + split; [reflexivity|]. split; [reflexivity|]. exists [s "An example:"], (s "```art"), [[]]. split; [vm_compute; reflexivity|]. split; [auto|]. split.
      * exists [], 0, []. split; [reflexivity|]. split; [constructor|]. split; [auto|]. now left.
      * intros x [<-|[]]. split; [intros (x0 & k & w & X & _); discriminate|]. apply last_cr_ok. reflexivity.
  - intros Q. destruct (Q (s "```art")) as [(_ & _ & O) _]; [right; now left|]. apply O. exists [], 0, []. split; [reflexivity|]. split; [constructor|]. split; [auto|]. now left.
Qed.
(** Why paths must be plain: two spellings of one file, and one of the two artifacts is lost after
    a success. *)
Definition alias_1 := mkIm (nm (s "SPC-x")) [s "p"; s "d"; s "x.md"] [] None (s "one").
Definition alias_2 := mkIm (nm (s "SPC-y")) [s "p"; s "d"; s "ex"; s ".."; s "x.md"] [] None (s "two").
Example C40_alias : let r := m_mod m_st m_tree [OCreate alias_1; OCreate alias_2] in
  m_out r = (None, [req_a; spc_a; spc_b; alias_1; alias_2]) /\
  file_at (fst r) [s "p"; s "d"; s "x.md"] = Some (lns [s "# SPC-y"; s "two"]).
Proof. vm_compute. auto. Qed.

(** ** C41 what a success destroys *)
(** A file without artifacts is gone (unless the request puts an artifact in it). *)
Theorem C41_no_artifacts : forall path_str M topo H heqb (hash_im : art_im -> H) debug_im st to_toml to_json yaml_done style E1 E3
    yaml parse_toml parse_json parse_msg prefix settings_path url_error E0 n lines_of t c p ops t' c1 p1,
  topo_ok topo -> (forall a b, heqb a b = true <-> a = b) -> parser_ok parse_toml -> parser_ok parse_json ->
  safe_disk st t ->
  loads path_str yaml parse_toml parse_json parse_msg prefix M topo H hash_im settings_path url_error n (art_files E0 t path_str st) (code_files E0 t lines_of path_str st) (Ok (inl (c, p))) ->
  Forall op_wf ops -> (forall o a, In o ops -> stores o a -> plain_path (im_file a)) ->
  runs path_str M topo H heqb hash_im debug_im st to_toml to_json yaml_done style E1 E3 t (Ok (inl (c, p))) ops (MDone M H t' (Ok (inl (c1, p1)))) ->
  (forall f, found_file st t f -> (forall a, In a (stored_form p1) -> im_file a <> f) -> file_at t' f = None) /\
  (ls_error c1 = [] -> (forall x, In x (ls_other c1) -> li_cat x <> CRemoveBackups) ->
   forall r f, In r (se_arts st) -> reachable t (se_xarts st) r f -> has_extension (s "artbk") f -> file_at t' f = None).
Proof.
  intros ps M topo H heqb h db st tt tj yd sy E1 E3 y pt pj pm px sp u E0 n lo t c p ops t' c1 p1 TC HE PO PJ [T Nm R U] Ld W Wp Rn.
  destruct (success_found ps M topo TC H heqb HE h db st tt tj yd sy E1 E3 y pt pj PO PJ pm px sp u t T Nm R U c p ops E0 n _ (found_walk_ok _ _ _ _ _ _ _ _) Ld W Wp t' c1 p1 Rn)
    as (_ & _ & S2 & S3 & _ & _ & _). split; auto. intros N1 N2 r f Hr (x & z & -> & Nx & Lk & Ex) X. destruct (file_at t' (r ++ x)) as [w|] eqn:F; auto. exfalso.
  apply is_backup_iff in X. rewrite (S3 N1 N2 r (r ++ x) Hr) in X; [discriminate X|]. exists x, w. split; auto. split; auto. split; auto. unfold file_at in F. destruct (lookup t' (r ++ x)) as [[v|l]|]; try discriminate F. now injection F as ->.
Qed.
Print Assumptions C41_no_artifacts.
(** What a file held beside its artifacts has no influence on what it holds afterwards: two
    projects with the same artifacts give the same files. *)
Theorem C41_rewritten : forall M H (hash_im : art_im -> H) to_toml to_json yaml_done style t1 t2 (p1 p2 : project M H),
  loaded_ok hash_im p2 -> Permutation (stored_form p1) (stored_form p2) -> pr_prefix p1 = pr_prefix p2 ->
  holds to_toml to_json yaml_done style t1 p1 -> holds to_toml to_json yaml_done style t2 p2 ->
  forall a l, In a (stored_form p2) -> locate (im_file a) = Some l -> file_at t1 l = file_at t2 l /\ file_at t1 l <> None.
Proof.
  intros M H h tt tj yd sy t1 t2 p1 p2 L P Px H1 H2 a l Ha El. destruct (H2 a Ha) as (l2 & y2 & El2 & Ey2 & F2). destruct (H1 a (Permutation_in _ (Permutation_sym P) Ha)) as (l1 & y1 & El1 & Ey1 & F1).
  rewrite (text_perm M H h tt tj yd sy p2 p1 (im_file a) L P Px) in Ey1. replace l with l1 in * by congruence. replace l2 with l1 in * by congruence. split; congruence.
Qed.
Print Assumptions C41_rewritten.
(** An artifact path that is a file does not exist after a success. *)
Theorem C41_file_roots : forall path_str M topo H heqb (hash_im : art_im -> H) debug_im st to_toml to_json yaml_done style E1 E3 t loaded ops t' c1 p1,
  tree_ok t -> is_dir (Some t) = true ->
  runs path_str M topo H heqb hash_im debug_im st to_toml to_json yaml_done style E1 E3 t loaded ops (MDone M H t' (Ok (inl (c1, p1)))) ->
  (forall x, In x (ls_other c1) -> li_cat x <> CRemoveBackups) ->
  forall r, In r (se_arts st) -> file_at t' r = None.
Proof.
  intros ps M topo H heqb h db st tt tj yd sy E1 E3 t ld ops t' c1 p1 T D Rn N r Hr.
  exact (root_files_gone ps M topo H heqb h db st tt tj yd sy E1 E3 t ld ops t' c1 p1 T D Rn N r Hr).
Qed.
Print Assumptions C41_file_roots.
(** [art fmt] on a disk with a file of notes, a preamble and a file with the backup extension; and
    with an artifact path that is a file. *)
Definition m_notes := m_dir [(s "a.md", NFile (lns [s "my notes"; []; s "# REQ-a"; s "top"])); (s "notes.md", NFile (s "nothing here")); (s "keep.artbk", NFile (s "mine"))].
Definition m_root := mkSettings [[s "p"; s "d"; s "a.md"]] [] [] [].
Example C41_example :
  safe_disk m_st m_notes /\
  (let r := m_mod m_st m_notes [] in m_out r = (None, [req_a]) /\
     all_files (fst r) = [in_file (s "a.md"); [s "p"; s "other.md"]] /\ file_at (fst r) (in_file (s "a.md")) = Some (lns [s "# REQ-a"; s "top"])) /\
  (let r := m_mod m_root m_tree [] in m_out r = (None, [req_a; spc_a]) /\
     all_files (fst r) = [in_file (s "b.md"); in_file (s "a.artbk"); [s "p"; s "other.md"]]).
Proof. split; [apply safe_b_ok; vm_compute; reflexivity|]. vm_compute. repeat split. Qed.
