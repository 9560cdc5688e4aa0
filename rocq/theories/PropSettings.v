(** Properties C74, C75: the settings of a project; and C21, C27 for whole loads. *)
From Coq Require Import Lia Permutation.
From Verif Require Import Base BaseFacts Regex Name SpecName NameFacts RawNames Artifact Stored SpecGraph Topo SpecLinks LinkFacts Numbers
  Markdown SpecMarkdown YamlExample Lint SpecLint LintFacts LintThms Source SpecJoin JoinFacts JoinThms Pool PoolFacts Load LoadFacts SpecLoad CheckFacts DeterFacts ReadThms
  Disk DiskFacts Walk SpecWalk WalkFacts ResolveFacts ResultFacts Settings SpecSettings SettingsFacts PropArtifacts PropMarkdown PropLint PropLoad.

(** ** C74 The settings *)
(** Without usable settings nothing is read: the result is one error that names the directory. *)
Theorem C74_unusable : forall E path_str toml not_dir lines_of yaml parse_toml parse_json parse_msg M topo H hash_im re_error url_error n t root,
  (is_dir (lookup t root) = false \/ file_at t (root ++ [s ".art"; s "settings.toml"]) = None \/
   e_read E (root ++ [s ".art"; s "settings.toml"]) <> None \/
   (exists text m, file_at t (root ++ [s ".art"; s "settings.toml"]) = Some text /\ toml text = inr m)) ->
  exists msg, forall r, reads E path_str toml not_dir lines_of yaml parse_toml parse_json parse_msg M topo H hash_im re_error url_error n t root r <->
    r = Ok (inr (mkLints [mkLint LError (Some (path_str root)) None CLoadPaths msg] [])).
Proof.
  intros E ps toml nd lo y pt pj pm M topo H h re ue n t root C.
  assert (F : root ++ [s ".art"; s "settings.toml"] = settings_file root) by (unfold settings_file, art_dir; now rewrite <- app_assoc). rewrite F in C.
  assert (X : exists m, load_raw E toml nd t root = inr m).
  { unfold load_raw. destruct (is_dir (lookup t root)); [|eauto]. destruct C as [C|[C|[C|(text & m & C1 & C2)]]]; [discriminate C| | |].
    - rewrite C. eauto.
    - destruct (file_at t (settings_file root)); [|eauto]. destruct (e_read E (settings_file root)); [eauto|now destruct C].
    - rewrite C1. destruct (e_read E (settings_file root)); [eauto|]. rewrite C2. eauto. }
  destruct X as (m & X). exists (s "Error during loading: " ++ m). intros r. unfold reads, load_settings. rewrite X. reflexivity.
Qed.
Print Assumptions C74_unusable.

(** The paths that are used are those configured, each once. *)
Theorem C74_paths : forall E path_str toml not_dir t root st raw, load_settings E path_str toml not_dir t root = Ok (inl (st, raw)) ->
  (exists text, file_at t (root ++ [s ".art"; s "settings.toml"]) = Some text /\ toml text = inl raw) /\
  (forall q, In q (se_arts st) <-> exists x, In x (rs_arts raw) /\ resolve_path root x = Ok q) /\
  (forall q, In q (se_xarts st) <-> exists x, In x (rs_xarts raw) /\ resolve_path root x = Ok q) /\
  (forall q, In q (se_code st) <-> exists x, In x (rs_code raw) /\ resolve_path root x = Ok q) /\
  (forall q, In q (se_xcode st) <-> exists x, In x (rs_xcode raw) /\ resolve_path root x = Ok q) /\
  NoDup (se_arts st) /\ NoDup (se_code st).
Proof.
  intros E ps toml nd t root st raw L. apply settings_inv in L as (_ & F & _ & L). split; [|exact L].
  unfold settings_file, art_dir in F. rewrite <- app_assoc in F. exact F.
Qed.
Print Assumptions C74_paths.

(** Neither the order of configured paths matters, nor how they are written, nor repetitions. *)
Theorem C74_order : forall E path_str toml toml' not_dir lines_of yaml parse_toml parse_json parse_msg M topo H hash_im re_error url_error n t root,
  (forall text, file_at t (root ++ [s ".art"; s "settings.toml"]) = Some text ->
     match toml text, toml' text with inl a, inl b => same_settings root a b | inr m, inr m' => m = m' | _, _ => False end) ->
  forall r, reads E path_str toml not_dir lines_of yaml parse_toml parse_json parse_msg M topo H hash_im re_error url_error n t root r <->
            reads E path_str toml' not_dir lines_of yaml parse_toml parse_json parse_msg M topo H hash_im re_error url_error n t root r.
Proof.
  intros E ps toml toml' nd lo y pt pj pm M topo H h re ue n t root S r.
  assert (F : root ++ [s ".art"; s "settings.toml"] = settings_file root) by (unfold settings_file, art_dir; now rewrite <- app_assoc). rewrite F in S.
  pose proof (settings_same E ps nd toml toml' t root S) as X. unfold reads.
  destruct (load_settings E ps toml nd t root) as [[[st a]|l]| |], (load_settings E ps toml' nd t root) as [[[st' b]|l']| |]; try contradiction; try reflexivity.
  - destruct X as (-> & -> & ->). reflexivity.
  - now subst.
Qed.
Print Assumptions C74_order.

(** A path that would leave the root directory ends everything. *)
Theorem C74_climbs : forall E path_str toml not_dir lines_of yaml parse_toml parse_json parse_msg M topo H hash_im re_error url_error n t root text raw x,
  is_dir (lookup t root) = true -> file_at t (root ++ [s ".art"; s "settings.toml"]) = Some text -> e_read E (root ++ [s ".art"; s "settings.toml"]) = None ->
  toml text = inl raw -> In x (rs_arts raw ++ rs_xarts raw ++ rs_code raw ++ rs_xcode raw) -> resolve_path root x = Panic ->
  forall r, reads E path_str toml not_dir lines_of yaml parse_toml parse_json parse_msg M topo H hash_im re_error url_error n t root r <-> r = Panic.
Proof.
  intros E ps toml nd lo y pt pj pm M topo H h re ue n t root text raw x D F R T Hx P r.
  assert (F' : root ++ [s ".art"; s "settings.toml"] = settings_file root) by (unfold settings_file, art_dir; now rewrite <- app_assoc). rewrite F' in F, R.
  unfold reads. assert (X : load_settings E ps toml nd t root = Panic); [|rewrite X; reflexivity].
  unfold load_settings, load_raw. rewrite D, F, R, T.
  pose proof (resolve_paths_spec root (rs_code raw)) as A1. pose proof (resolve_paths_spec root (rs_xcode raw)) as A2.
  pose proof (resolve_paths_spec root (rs_arts raw)) as A3. pose proof (resolve_paths_spec root (rs_xarts raw)) as A4.
  destruct (resolve_paths root (rs_code raw)) as [l1| |]; cbn [res_bind]; [|destruct A1|reflexivity].
  destruct (resolve_paths root (rs_xcode raw)) as [l2| |]; cbn [res_bind]; [|destruct A2|reflexivity].
  destruct (resolve_paths root (rs_arts raw)) as [l3| |]; cbn [res_bind]; [|destruct A3|reflexivity].
  destruct (resolve_paths root (rs_xarts raw)) as [l4| |]; cbn [res_bind]; [|destruct A4|reflexivity]. exfalso.
  rewrite !in_app_iff in Hx. destruct A1 as (_ & _ & A1), A2 as (_ & _ & A2), A3 as (_ & _ & A3), A4 as (_ & _ & A4).
  destruct Hx as [Hx|[Hx|[Hx|Hx]]]; [apply (A3 x Hx P)|apply (A4 x Hx P)|apply (A1 x Hx P)|apply (A2 x Hx P)].
Qed.
Print Assumptions C74_climbs.

Definition ok_disk : disk_errs := mkErrs (fun _ => None) (fun _ => None) (fun _ => None) (s "no such file").
Definition ex_lines (c : str) : list str * option str := (split_on 10%N c, None).
(** A text of settings that starts with "a", "b" or "c". *)
Definition ex_toml (text : str) : raw_settings + str :=
  match text with
  | 97%N :: _ => inl (mkRS [s "design"; s "notes"] [] [s "src"] [] None [])
  | 98%N :: _ => inl (mkRS [s "{repo}/notes/"; s "./design"; s "notes"] [] [s "/src"] [] None [])
  | 99%N :: _ => inl (mkRS [s "../../.."] [] [] [] None [])
  | 100%N :: _ => inl (mkRS [s "design"; s "."] [] [] [] None [])
  | _ => inr (s "not toml")
  end.
Definition ex_tree (settings : str) (more : list (str * node)) : node :=
  NDir [(s "home", NDir [(s "p", NDir ([(s ".art", NDir [(s "settings.toml", NFile settings)])] ++ more))])].
Definition ex_root : path := [s "home"; s "p"].
Definition ex_settings t := load_settings ok_disk ex_path ex_toml (fun _ => s "no folder") t ex_root.
Example C74_example :
  same_settings ex_root (mkRS [s "design"; s "notes"] [] [s "src"] [] None []) (mkRS [s "{repo}/notes/"; s "./design"; s "notes"] [] [s "/src"] [] None []) /\
  (exists raw, ex_settings (ex_tree (s "a") []) = Ok (inl (mkSettings [ex_root ++ [s "design"]; ex_root ++ [s "notes"]] [] [ex_root ++ [s "src"]] [], raw))) /\
  (exists raw, ex_settings (ex_tree (s "b") []) = Ok (inl (mkSettings [ex_root ++ [s "design"]; ex_root ++ [s "notes"]] [] [ex_root ++ [s "src"]] [], raw))) /\
  resolve_path ex_root (s "../../..") = Panic /\
  ex_settings (ex_tree (s "c") []) = Panic /\ (exists l, ex_settings (ex_tree (s "x") []) = Ok (inr l)) /\ (exists l, ex_settings (NDir []) = Ok (inr l)).
Proof.
  split.
  - unfold same_settings, same_places. cbn [rs_arts rs_xarts rs_code rs_xcode rs_url rs_prefix]. repeat split; intros (x & Hx & <-); cbn [In] in Hx;
      repeat (destruct Hx as [<-|Hx]); try contradiction; vm_compute; eauto 8.
    all: try (eexists; split; [left; reflexivity|vm_compute; reflexivity]).
    all: try (eexists; split; [right; left; reflexivity|vm_compute; reflexivity]).
  - repeat split; try (vm_compute; reflexivity); eexists; vm_compute; reflexivity.
Qed.

(** ** C27, C21 for a whole load *)
(** Two artifacts of one name, in whatever files and however the readers are scheduled. *)
Theorem C27_load_fails : forall path_str yaml parse_toml parse_json parse_msg prefix,
  parser_ok parse_toml -> parser_ok parse_json ->
  forall M topo, topo_ok topo -> forall H hash_im settings_path url_error n afs cfs r,
  walk_lints_ok afs -> walk_lints_ok cfs ->
  loads path_str yaml parse_toml parse_json parse_msg prefix M topo H hash_im settings_path url_error n afs cfs r ->
  killers (load_file path_str yaml parse_toml parse_json parse_msg prefix) afs < n ->
  (exists l1 a l2 b l3, file_arts (load_file path_str yaml parse_toml parse_json parse_msg prefix) afs = l1 ++ a :: l2 ++ b :: l3 /\
     n_key (im_name a) = n_key (im_name b)) ->
  exit_status r = 1.
Proof.
  intros ps y pt pj pm px TO JO M topo TC H h sp u n afs cfs r Wa Wc L K (l1 & a & l2 & b & l3 & E & N).
  apply (clash_status ps y pt pj pm px TO JO M topo TC H h sp u n afs cfs r Wa Wc L K). rewrite E. unfold distinct. rewrite !map_app. cbn [map]. rewrite !map_app. cbn [map]. intros D.
  apply NoDup_remove_2 in D. apply D. rewrite !in_app_iff. right. right. left. now symmetry.
Qed.
Print Assumptions C27_load_fails.
Theorem C21_load_fails : forall path_str yaml parse_toml parse_json parse_msg prefix,
  parser_ok parse_toml -> parser_ok parse_json ->
  forall M topo, topo_ok topo -> forall H hash_im settings_path url_error n afs cfs r,
  walk_lints_ok afs -> walk_lints_ok cfs ->
  loads path_str yaml parse_toml parse_json parse_msg prefix M topo H hash_im settings_path url_error n afs cfs r ->
  killers (load_locations path_str) cfs < 4 ->
  (exists i j, repeated (file_refs path_str cfs) i j) -> exit_status r = 1.
Proof. exact repeat_status. Qed.
Print Assumptions C21_load_fails.

(** ** C75 Overlapping paths *)
(** A file with an artifact, or with a reference, that is found from two configured paths makes
    the load fail. *)
Theorem C75_artifacts : forall E path_str toml not_dir lines_of yaml parse_toml parse_json parse_msg,
  parser_ok parse_toml -> parser_ok parse_json ->
  forall M topo, topo_ok topo -> forall H hash_im re_error url_error n t root st raw r,
  tree_ok t -> (forall p, e_stat E p = None) -> (forall p, e_open E p = None) ->
  load_settings E path_str toml not_dir t root = Ok (inl (st, raw)) ->
  reads E path_str toml not_dir lines_of yaml parse_toml parse_json parse_msg M topo H hash_im re_error url_error n t root r ->
  killers (load_file path_str yaml parse_toml parse_json parse_msg (rs_prefix raw)) (art_files E t path_str st) < n ->
  forall p q f text, In p (se_arts st) -> In q (se_arts st) -> p <> q ->
  found_from t (se_xarts st) p f -> found_from t (se_xarts st) q f -> known_extension f -> file_at t f = Some text -> e_read E f = None ->
  jb_out (load_file path_str yaml parse_toml parse_json parse_msg (rs_prefix raw) (mkAF f (inl text))) <> [] ->
  exit_status r = 1.
Proof.
  intros E ps toml nd lo y pt pj pm TO JO M topo TC H h re ue n t root st raw r T Sn On LS R K p q f text Hp Hq Npq Fp Fq Kx Ft Rf Nn.
  unfold reads in R. rewrite LS in R. destruct (re (rs_prefix raw)) as [m|]; [rewrite R; reflexivity|].
  eapply C27_load_fails; try exact R; auto; try apply found_walk_ok.
  set (lf := load_file ps y pt pj pm (rs_prefix raw)) in *.
  assert (X : exists l1 l2 l3, art_files E t ps st = l1 ++ inl (mkAF f (inl text)) :: l2 ++ inl (mkAF f (inl text)) :: l3).
  { unfold art_files, found. assert (Rd : read_art E t f = mkAF f (inl text)) by (unfold read_art; now rewrite Rf, Ft). rewrite <- Rd.
    set (g := fun z => let (fs, e) := walk_path (e_stat E) (e_open E) (e_none E) (art_filter (se_xarts st)) t z in
              map (@inl path lint) fs ++ match e with Some m => [inr (load_error ps z m)] | None => [] end).
    assert (Inw : forall z, found_from t (se_xarts st) z f -> In (inl f) (g z)).
    { intros z Fz. unfold g. destruct (found_walk (e_stat E) (e_open E) (e_none E) t (art_filter (se_xarts st)) (se_xarts st) known_extension T Sn On
        (art_filter_dir _) (art_filter_file _) z f Fz Kx) as (c & _ & I).
      destruct (walk_path (e_stat E) (e_open E) (e_none E) (art_filter (se_xarts st)) t z) as [fs e]. apply in_or_app. left. now apply in_map. }
    destruct (flat_two g (se_arts st) p q (inl f) Hp Hq Npq (Inw p Fp) (Inw q Fq)) as (l1 & l2 & l3 & X). unfold walk_paths. fold g. rewrite X.
    rewrite map_app. cbn [map]. rewrite map_app. cbn [map]. eauto. }
  destruct X as (l1 & l2 & l3 & ->). destruct (jb_out (lf (mkAF f (inl text)))) as [|a l] eqn:Ea; [contradiction|].
  exists (file_arts lf l1), a, (l ++ file_arts lf l2), a, (l ++ file_arts lf l3). split; auto.
  unfold file_arts. rewrite flat_map_app. cbn [flat_map]. rewrite flat_map_app. cbn [flat_map]. rewrite !Ea. repeat first [rewrite <- app_assoc | progress cbn [app]]. reflexivity.
Qed.
Print Assumptions C75_artifacts.

Theorem C75_source : forall E path_str toml not_dir lines_of yaml parse_toml parse_json parse_msg,
  parser_ok parse_toml -> parser_ok parse_json ->
  forall M topo, topo_ok topo -> forall H hash_im re_error url_error n t root st raw r,
  tree_ok t -> (forall p, e_stat E p = None) -> (forall p, e_open E p = None) ->
  load_settings E path_str toml not_dir t root = Ok (inl (st, raw)) ->
  reads E path_str toml not_dir lines_of yaml parse_toml parse_json parse_msg M topo H hash_im re_error url_error n t root r ->
  killers (load_locations path_str) (code_files E t lines_of path_str st) < 4 ->
  forall p q f, In p (se_code st) -> In q (se_code st) -> p <> q ->
  found_from t (se_xcode st) p f -> found_from t (se_xcode st) q f ->
  jb_out (load_locations path_str (read_code E t lines_of f)) <> [] ->
  exit_status r = 1.
Proof.
  intros E ps toml nd lo y pt pj pm TO JO M topo TC H h re ue n t root st raw r T Sn On LS R K p q f Hp Hq Npq Fp Fq Nn.
  unfold reads in R. rewrite LS in R. destruct (re (rs_prefix raw)) as [m|]; [rewrite R; reflexivity|].
  eapply C21_load_fails; try exact R; auto; try apply found_walk_ok.
  assert (X : exists l1 l2 l3, code_files E t lo ps st = l1 ++ inl (read_code E t lo f) :: l2 ++ inl (read_code E t lo f) :: l3).
  { unfold code_files, found.
    set (g := fun z => let (fs, e) := walk_path (e_stat E) (e_open E) (e_none E) (code_filter (se_xcode st)) t z in
              map (@inl path lint) fs ++ match e with Some m => [inr (load_error ps z m)] | None => [] end).
    assert (Inw : forall z, found_from t (se_xcode st) z f -> In (inl f) (g z)).
    { intros z Fz. unfold g. destruct (found_walk (e_stat E) (e_open E) (e_none E) t (code_filter (se_xcode st)) (se_xcode st) (fun _ => True) T Sn On
        (code_filter_any _ true)) with (root := z) (q := f) as (c & _ & I); auto.
      { intros z'. rewrite code_filter_any. tauto. }
      destruct (walk_path (e_stat E) (e_open E) (e_none E) (code_filter (se_xcode st)) t z) as [fs e]. apply in_or_app. left. now apply in_map. }
    destruct (flat_two g (se_code st) p q (inl f) Hp Hq Npq (Inw p Fp) (Inw q Fq)) as (l1 & l2 & l3 & X). unfold walk_paths. fold g. rewrite X.
    rewrite map_app. cbn [map]. rewrite map_app. cbn [map]. eauto. }
  destruct X as (l1 & l2 & l3 & ->). destruct (jb_out (load_locations ps (read_code E t lo f))) as [|a l] eqn:Ea; [contradiction|].
  set (A := file_refs ps l1). set (B := l ++ file_refs ps l2). set (C := l ++ file_refs ps l3).
  assert (Y : file_refs ps (l1 ++ inl (read_code E t lo f) :: l2 ++ inl (read_code E t lo f) :: l3) = A ++ a :: B ++ a :: C).
  { unfold A, B, C, file_refs. rewrite flat_map_app. cbn [flat_map]. rewrite flat_map_app. cbn [flat_map]. rewrite !Ea. repeat first [rewrite <- app_assoc | progress cbn [app]]. reflexivity. }
  rewrite Y. exists (length A), (length A + S (length B)), a, a.
  split; [rewrite nth_error_app2, Nat.sub_diag by lia; reflexivity|].
  split; [rewrite nth_error_app2 by lia; replace (length A + S (length B) - length A) with (S (length B)) by lia; cbn [nth_error]; rewrite nth_error_app2, Nat.sub_diag by lia; reflexivity|].
  split; [lia|]. pose proof (load_locations_wf ps (read_code E t lo f)) as W. rewrite Ea in W. inversion W as [|? ? Wa Wl]; subst. now apply (same_ref_key a a Wa Wa).
Qed.
Print Assumptions C75_source.

(** "design" and "." both lead to design/a.md. *)
Definition ex_over : node := ex_tree (s "d") [(s "design", NDir [(s "a.md", NFile (s "# REQ-a")); (s "b.txt", NFile (s "x"))])].
Definition ex_reads n t r := reads ok_disk ex_path ex_toml (fun _ => s "no folder") ex_lines ex_yaml no_parser no_parser (fun _ _ => s "bad") exact_num topo_sort str ex_hash
  (fun _ => None) (fun _ => None) n t ex_root r.
Example C75_example : exists st raw r,
  ex_settings ex_over = Ok (inl (st, raw)) /\ ex_reads 2 ex_over r /\
  killers (load_file ex_path ex_yaml no_parser no_parser (fun _ _ => s "bad") (rs_prefix raw)) (art_files ok_disk ex_over ex_path st) < 2 /\
  In (ex_root ++ [s "design"]) (se_arts st) /\ In ex_root (se_arts st) /\
  found_from ex_over (se_xarts st) ex_root (ex_root ++ [s "design"; s "a.md"]) /\
  found_from ex_over (se_xarts st) (ex_root ++ [s "design"]) (ex_root ++ [s "design"; s "a.md"]) /\
  jb_out (load_file ex_path ex_yaml no_parser no_parser (fun _ _ => s "bad") (rs_prefix raw) (mkAF (ex_root ++ [s "design"; s "a.md"]) (inl (s "# REQ-a")))) <> [] /\
  exit_status r = 1.
Proof.
  do 3 eexists. split; [vm_compute; reflexivity|]. split.
  { unfold ex_reads, reads. match goal with |- context [load_settings ?a ?b ?c ?d ?e ?f] => let v := eval vm_compute in (load_settings a b c d e f) in change (load_settings a b c d e f) with v end.
    cbv iota beta. cbn [rs_prefix rs_url]. apply seq_loads. }
  split; [vm_compute; lia|]. split; [vm_compute; auto|]. split; [vm_compute; auto|].
  split; [left; exists [s "design"; s "a.md"], (s "# REQ-a"); repeat split; try discriminate; intros a b _ []|].
  split; [left; exists [s "a.md"], (s "# REQ-a"); repeat split; try discriminate; intros a b _ []|].
  split; [vm_compute; discriminate|]. vm_compute. reflexivity.
Qed.
