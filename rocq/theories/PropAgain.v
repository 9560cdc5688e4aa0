(** C96: however often a project is saved, it can be loaded again and holds what was saved. *)
From Coq Require Import ZArith Lia Permutation.
From Verif Require Import Base BaseFacts Regex Name SpecName NameFacts RawNames RawNamesFacts Family FamilyFacts Artifact Stored SpecGraph Topo SpecLinks BuildFacts LinkFacts ProjectFacts Numbers
  Markdown SpecMarkdown MarkdownFacts YamlExample Lint SpecLint LintFacts LintThms Source SpecJoin Pool PoolFacts Load LoadFacts SpecLoad CheckFacts ReadThms Disk DiskFacts Walk SpecWalk WalkFacts Modify SpecModify SpecReload OpFacts PureFacts OrderFacts
  PhaseFacts ResultFacts CodecExample ReloadFacts DiskRunFacts PropArtifacts PropCompleted PropMarkdown PropLint PropLoad PropModify PropDisk SpecAgain AgainFacts.
Open Scope nat_scope.

Section Theorems.
  Variables (path_str : path -> str) (yaml : str -> option (option str * option RawNames.names_val)) (parse_toml parse_json : str -> res (list (name * art_raw)))
    (parse_msg : path -> str -> str) (prefix : str) (M : num) (topo : graph -> option (list nat)) (H : Type) (heqb : H -> H -> bool) (hash_im : art_im -> H)
    (settings_path : path) (url_error : option str).
  Variables (debug_im : art_im -> str) (st : settings) (to_toml to_json : list (name * art_raw) -> str) (yaml_done : str -> str) (style : md_attrs).
  Hypothesis TO : parser_ok parse_toml.
  Hypothesis JO : parser_ok parse_json.
  Hypothesis TC : topo_ok topo.
  Hypothesis HE : forall a b, heqb a b = true <-> a = b.
  (** Ids do not collide. *)
  Hypothesis HI : forall a b, hash_im a = hash_im b -> a = b.
  Hypothesis YO : yaml_ok yaml yaml_done.
  Hypothesis CT : codec_ok to_toml parse_toml.
  Hypothesis CJ : codec_ok to_json parse_json.
  Hypothesis RA : roots_apart (se_arts st).
  Notation load_of E t n lo r := (loads path_str yaml parse_toml parse_json parse_msg prefix M topo H hash_im settings_path url_error n (art_files E t path_str st) (code_files E t lo path_str st) r).
  Notation runs := (runs path_str M topo H heqb hash_im debug_im st to_toml to_json yaml_done style).

  (** What a request may ask for: names are names, and files have plain paths that are not excluded. *)
  Definition fine (ops : list (op H)) : Prop :=
    Forall op_wf ops /\ forall o a, In o ops -> stores o a -> plain_path (im_file a) /\ forall e, In e (se_xarts st) -> ~ below (im_file a) e.
  (** The request is answered with a project; its markdown texts can be written (C28), and no two of
      its files differ only in the extension. *)
  Definition accepted (t : node) (ops : list (op H)) (t' : node) : Prop :=
    fine ops /\ exists E n lo c p E1 E3 c1 p1, 0 < n /\ load_of E t n lo (Ok (inl (c, p))) /\
      runs E1 E3 t (Ok (inl (c, p))) ops (MDone M H t' (Ok (inl (c1, p1)))) /\ md_survive prefix style (stored_form p1) /\ no_twins (stored_form p1).
  (** It is refused, or dies, before anything is written. *)
  Definition rejected (t : node) (ops : list (op H)) (t' : node) : Prop :=
    exists E n lo r E1 E3 y, load_of E t n lo r /\ runs E1 E3 t r ops (MDone M H t' y) /\
      match y with Ok (inl _) => False | Ok (inr (k, _)) => k <> KBackups /\ k <> KSave | _ => True end.
  (** Requests one after the other, each on the disk the last one left. *)
  Inductive series : node -> list (list (op H) * bool) -> node -> Prop :=
  | se_none t : series t [] t
  | se_accepted t ops t1 l t' : accepted t ops t1 -> series t1 l t' -> series t ((ops, true) :: l) t'
  | se_rejected t ops t1 l t' : rejected t ops t1 -> series t1 l t' -> series t ((ops, false) :: l) t'.

  (** Whenever the project can be loaded, it has the artifacts [A]. *)
  Definition shows (t : node) (A : list art_im) : Prop :=
    forall E n lo c p, 0 < n -> load_of E t n lo (Ok (inl (c, p))) -> forall a, In a (stored_form p) <-> In a A.
  (** It can always be loaded, with exactly these artifacts and nothing for [art check] to call an error,
      but for what cannot be read and for references spelled with a long s. *)
  Definition can_load (t : node) (A : list art_im) : Prop :=
    forall E n lo r, 0 < n -> load_of E t n lo r ->
      ((exists c, r = Ok (inr c)) /\ (~ sources_clean path_str (code_files E t lo path_str st) \/ ~ readable E)) \/
      (longs_stored A /\ r = Panic) \/
      (~ longs_stored A /\ exists c p, r = Ok (inl (c, p)) /\ Permutation (stored_form p) A /\ (url_error = None -> exit_status r = 0 \/ exit_status r = 2)).

  Lemma can_shows t A : can_load t A -> shows t A.
  Proof.
    intros C E n lo c p N0 Ld a. destruct (C E n lo _ N0 Ld) as [[[c' X] _]|[[_ X]|(_ & c' & p' & X & P & _)]]; try discriminate X. injection X as <- <-.
    split; intros I; [exact (Permutation_in _ P I)|exact (Permutation_in _ (Permutation_sym P) I)].
  Qed.

  (** Reading without errors finds the same files, whatever else is different. *)
  Lemma walk_same E E' filter t : readable E -> readable E' -> forall p, walk_node (e_stat E) (e_open E) filter p t = walk_node (e_stat E') (e_open E') filter p t.
  Proof.
    intros (A1 & A2 & _) (B1 & B2 & _). induction t as [y|l IH] using node_ind'; intros p; [cbn [walk_node]; now rewrite A1, B1|].
    rewrite !walk_dir, A1, B1, A2, B2. destruct (filter true p); auto. induction l as [|[x n] l IHl]; auto. rewrite !goes_cons, (IH x n (or_introl eq_refl)).
    rewrite IHl by (intros z k Hz; eapply IH; right; eauto). reflexivity.
  Qed.
  Lemma found_same E E' t : readable E -> readable E' ->
    file_arts (load_file path_str yaml parse_toml parse_json parse_msg prefix) (art_files E t path_str st) = file_arts (load_file path_str yaml parse_toml parse_json parse_msg prefix) (art_files E' t path_str st) /\
    killers (load_file path_str yaml parse_toml parse_json parse_msg prefix) (art_files E t path_str st) = killers (load_file path_str yaml parse_toml parse_json parse_msg prefix) (art_files E' t path_str st).
  Proof.
    intros RE RE'. pose proof RE as (_ & _ & R1). pose proof RE' as (_ & _ & R2).
    assert (J : forall q, jb_out (load_file path_str yaml parse_toml parse_json parse_msg prefix (read_art E t q)) = jb_out (load_file path_str yaml parse_toml parse_json parse_msg prefix (read_art E' t q)) /\
      jb_panic (load_file path_str yaml parse_toml parse_json parse_msg prefix (read_art E t q)) = jb_panic (load_file path_str yaml parse_toml parse_json parse_msg prefix (read_art E' t q))).
    { intros q. unfold read_art, load_file. cbn [af_path af_text]. rewrite R1, R2. destruct (art_type_of q); auto. destruct (file_at t q); auto. }
    unfold art_files, found, file_arts, killers, walk_paths. clear RA. generalize (se_arts st) as roots. induction roots as [|r roots [IH1 IH2]]; auto. cbn [flat_map]. rewrite !map_app, !flat_map_app, !filter_app, !app_length, IH1, IH2. clear IH1 IH2.
    assert (Wk : fst (walk_path (e_stat E) (e_open E) (e_none E) (art_filter (se_xarts st)) t r) = fst (walk_path (e_stat E') (e_open E') (e_none E') (art_filter (se_xarts st)) t r)).
    { unfold walk_path. destruct (lookup t r) as [d|]; auto. now rewrite (walk_same E E'). }
    destruct (walk_path (e_stat E) _ _ _ t r) as [fs e], (walk_path (e_stat E') _ _ _ t r) as [fs' e']. cbn [fst] in Wk. subst fs'.
    rewrite !map_app, !flat_map_app, !filter_app, !app_length, !map_map.
    assert (X : forall (E : disk_errs) (e : option str) (g : str -> lint), flat_map (fun i : art_file + lint => match i with inl f => jb_out (load_file path_str yaml parse_toml parse_json parse_msg prefix f) | inr _ => [] end)
                     (map (fun i => match i with inl p => inl (read_art E t p) | inr x => inr x end) match e with Some m => [inr (g m)] | None => [] end) = []) by (intros ? [] ?; reflexivity).
    assert (Y : forall (E : disk_errs) (e : option str) (g : str -> lint), filter (fun i : art_file + lint => match i with inl f => jb_panic (load_file path_str yaml parse_toml parse_json parse_msg prefix f) | inr _ => false end)
                     (map (fun i => match i with inl p => inl (read_art E t p) | inr x => inr x end) match e with Some m => [inr (g m)] | None => [] end) = []) by (intros ? [] ?; reflexivity).
    split.
    - f_equal. f_equal.
      + clear -J. induction fs as [|q fs IH]; auto. cbn [map flat_map]. now rewrite IH, (proj1 (J q)).
      + destruct e, e'; reflexivity.
    - f_equal. f_equal.
      + clear -J. induction fs as [|q fs IH]; auto. cbn [map filter]. rewrite (proj2 (J q)). destruct (jb_panic _); cbn [length]; now rewrite IH.
      + destruct e, e'; reflexivity.
  Qed.
  (** One load tells what the disk shows, if no artifact file stops its reader. *)
  Theorem C96_shows : forall t E n lo c p, load_of E t n lo (Ok (inl (c, p))) -> 0 < n ->
    (forall f, In (inl f) (art_files (calm E) t path_str st) -> jb_panic (load_file path_str yaml parse_toml parse_json parse_msg prefix f) = false) -> shows t (stored_form p).
  Proof.
    intros t E n lo c p Ld N0 Np E' n' lo' c' p' N' Ld' a.
    destruct (found_same (calm E) (calm E') t) as [Fa Fk]; [repeat split..|].
    assert (K : killers (load_file path_str yaml parse_toml parse_json parse_msg prefix) (art_files (calm E) t path_str st) = 0) by (apply (calm_killers path_str yaml parse_toml parse_json parse_msg prefix st (calm E) t); exact Np).
    assert (Np' : forall f, In (inl f) (art_files (calm E') t path_str st) -> jb_panic (load_file path_str yaml parse_toml parse_json parse_msg prefix f) = false).
    { intros f If. rewrite Fk in K. unfold killers in K. destruct (jb_panic (load_file path_str yaml parse_toml parse_json parse_msg prefix f)) eqn:Jp; auto.
      assert (X : In (inl f) (filter (fun i => match i with inl f0 => jb_panic (load_file path_str yaml parse_toml parse_json parse_msg prefix f0) | inr _ => false end) (art_files (calm E') t path_str st))) by (apply filter_In; auto).
      destruct (filter _ _); [destruct X|discriminate K]. }
    destruct (disk_errors path_str yaml parse_toml parse_json parse_msg prefix M topo H hash_im settings_path url_error st n E t _ _ Np N0 Ld) as [Ea|[[z Z] _]]; [|discriminate Z].
    destruct (disk_errors path_str yaml parse_toml parse_json parse_msg prefix M topo H hash_im settings_path url_error st n' E' t _ _ Np' N' Ld') as [Ea'|[[z Z] _]]; [|discriminate Z].
    destruct (loads_loaded M topo TC H hash_im path_str yaml parse_toml parse_json TO JO parse_msg prefix settings_path url_error n _ _ c p (found_walk_ok _ _ _ _ _ _ _ _) (found_walk_ok _ _ _ _ _ _ _ _) Ld) as (_ & arts & la & Rn & _ & P).
    destruct (loads_loaded M topo TC H hash_im path_str yaml parse_toml parse_json TO JO parse_msg prefix settings_path url_error n' _ _ c' p' (found_walk_ok _ _ _ _ _ _ _ _) (found_walk_ok _ _ _ _ _ _ _ _) Ld') as (_ & arts' & la' & Rn' & _ & P').
    assert (K1 : killers (load_file path_str yaml parse_toml parse_json parse_msg prefix) (art_files E t path_str st) < n) by (rewrite Ea, K; exact N0).
    assert (K2 : killers (load_file path_str yaml parse_toml parse_json parse_msg prefix) (art_files E' t path_str st) < n') by (rewrite Ea', <- Fk, K; exact N').
    apply (arts_run _ _ _ _ _ _ _ _ _ _ K1) in Rn. apply (arts_run _ _ _ _ _ _ _ _ _ _ K2) in Rn'.
    assert (Q : Permutation (stored_form p') (stored_form p)) by (rewrite P, P'; apply Permutation_map; now rewrite Rn, Rn', Ea, Ea', Fa).
    split; intros I; [exact (Permutation_in _ Q I)|exact (Permutation_in _ (Permutation_sym Q) I)].
  Qed.

  (** One request that is accepted. *)
  Theorem C96_saved : forall t ops t' A, safe_disk st t -> shows t A -> accepted t ops t' ->
    safe_disk st t' /\ exists B, applied hash_im ops A B /\ can_load t' B.
  Proof.
    intros t ops t' A Sd Sh ((W & Wo) & E & n & lo & c & p & E1 & E3 & c1 & p1 & N0 & Ld & Rn & Md & Nt).
    assert (Wc : walk_lints_ok (code_files E t lo path_str st)) by apply found_walk_ok.
    split.
    - exact (saved_safe path_str M topo TC H heqb HE hash_im debug_im st to_toml to_json yaml_done style E1 E3 yaml parse_toml parse_json TO JO parse_msg prefix settings_path url_error
        t Sd c p ops E n _ Wc Ld W Wo t' c1 p1 Rn Nt).
    - exists (stored_form p1). split.
      + pose proof (C35_loaded _ _ _ _ _ _ _ _ _ _ _ _ TO JO TC _ _ _ _ _ _ _ Ld) as L.
        assert (Nh : NoDup (map hash_im (stored_form p))).
        { pose proof (lo_distinct _ _ L) as D. unfold distinct in D. apply NoDup_map_inv in D. apply FinFun.Injective_map_NoDup; [intros a b; apply HI|exact D]. }
        destruct (C35_map path_str M topo H heqb hash_im debug_im st to_toml to_json yaml_done style E1 E3 t c p ops t' c1 p1 TC HE L Nh W Rn) as (_ & _ & X).
        intros a. rewrite (X a). now rewrite (Sh E n lo c p N0 Ld a).
      + intros E' n' lo' r N' L2.
        exact (saved_loads path_str M topo TC H heqb HE hash_im debug_im st to_toml to_json yaml_done style E1 E3 yaml parse_toml parse_json TO JO parse_msg prefix settings_path url_error
          t Sd c p ops E n _ Wc Ld W Wo t' c1 p1 Rn YO CT CJ E' RA Md n' _ r N' (found_walk_ok _ _ _ _ _ _ _ _) L2).
  Qed.
  Lemma rejected_same t ops t1 : rejected t ops t1 -> t1 = t.
  Proof.
    intros (E & n & lo & r & E1 & E3 & y & _ & Rn & Hy). pose proof (C38_disk_untouched _ _ _ _ _ _ _ _ _ _ _ _ _ _ _ _ _ _ _ Rn) as X.
    destruct y as [[y|[k y]]| |]; [destruct Hy| |exact X|exact X]. destruct X as [X|[X|X]]; auto; now destruct Hy.
  Qed.
  (** Any number of requests: the accepted ones take effect, in their order, and the project can
      be loaded again afterwards. *)
  Theorem C96_history : forall t l t' A, safe_disk st t -> shows t A -> series t l t' ->
    safe_disk st t' /\ exists B, outcome hash_im l A B /\ shows t' B /\ (can_load t A \/ (exists ops, In (ops, true) l) -> can_load t' B).
  Proof.
    intros t l t' A Sd Sh Se. revert A Sd Sh. induction Se as [t|t ops t1 l t' Ac Se IH|t ops t1 l t' Rj Se IH]; intros A Sd Sh.
    - split; auto. exists A. split; [constructor; reflexivity|]. split; auto. intros [X|(ops & [])]; auto.
    - destruct (C96_saved t ops t1 A Sd Sh Ac) as (Sd1 & B & Ap & Cl). destruct (IH B Sd1 (can_shows _ _ Cl)) as (Sd' & C & Oc & Sh' & Cl').
      split; auto. exists C. split; [econstructor; eauto|]. split; auto.
    - apply rejected_same in Rj as ->. destruct (IH A Sd Sh) as (Sd' & B & Oc & Sh' & Cl). split; auto. exists B. split; [now constructor|]. split; auto.
      intros [X|(o & [X|X])]; [auto|discriminate X|eauto].
  Qed.
  (** In particular [art check] finds no error, however the sources changed, as long as they can be read. *)
  Theorem C96_check : forall t l t' A, safe_disk st t -> shows t A -> series t l t' -> (exists ops, In (ops, true) l) -> url_error = None ->
    exists B, outcome hash_im l A B /\ forall E n lo r, readable E -> 0 < n -> load_of E t' n lo r -> sources_clean path_str (code_files E t' lo path_str st) -> ~ longs_stored B ->
      (exists c p, r = Ok (inl (c, p)) /\ Permutation (stored_form p) B) /\ (exit_status r = 0 \/ exit_status r = 2).
  Proof.
    intros t l t' A Sd Sh Se Ex Ue. destruct (C96_history t l t' A Sd Sh Se) as (_ & B & Oc & _ & Cl). exists B. split; auto.
    intros E n lo r Re N0 Ld Sc Nl. destruct (Cl (or_intror Ex) E n lo r N0 Ld) as [[_ [X|X]]|[[X _]|(_ & c & p & X & P & S)]]; [contradiction|contradiction|contradiction|].
    split; eauto.
  Qed.
End Theorems.
Print Assumptions C96_shows.
Print Assumptions C96_saved.
Print Assumptions C96_history.
Print Assumptions C96_check.

(** The example disk: the request of C40, then one that was made for the version before it, then a
    third that brings back what the first deleted. *)
Definition h_stale := [OUpdate (m_im (s "REQ-a") (s "a.md") [] (s "other")) (mid req_a)].
Definition h_back := [@OCreate str spc_b].
Definition h_disk1 := fst (m_mod m_st m_tree m_ops).
Definition h_disk2 := fst (m_mod m_st h_disk1 h_back).
Notation h_load E t n lo r := (loads ex_path ex_yaml ex_parse ex_parse (fun _ _ => s "bad") [] exact_num topo_sort str mid [s "settings.toml"] None n (art_files E t ex_path m_st) (code_files E t lo ex_path m_st) r).
Notation h_series := (series ex_path ex_yaml ex_parse ex_parse (fun _ _ => s "bad") [] exact_num topo_sort str str_eqb mid [s "settings.toml"] None (fun _ => s "art") m_st ex_store ex_store ex_yaml_done Hashes).
Notation h_accepted := (accepted ex_path ex_yaml ex_parse ex_parse (fun _ _ => s "bad") [] exact_num topo_sort str str_eqb mid [s "settings.toml"] None (fun _ => s "art") m_st ex_store ex_store ex_yaml_done Hashes).
Lemma h_accept t ops A : code_files no_errs t (fun _ => ([], None)) ex_path m_st = [] ->
  (match m_load m_st t with Ok (inl _) => true | _ => false end = true) -> fine str m_st ops -> m_out (m_mod m_st t ops) = (None, A) -> A <> [] -> md_survive [] Hashes A -> no_twins A ->
  h_accepted t ops (fst (m_mod m_st t ops)).
Proof.
  intros Ec Lo Fi Mo Na Md Nt. split; auto. pose proof (m_load_runs m_st t) as Ld. pose proof (m_mod_runs m_st t ops) as Rn. unfold m_run in Rn. unfold m_out in Mo.
  destruct (m_load m_st t) as [[[c p]|]| |]; try discriminate Lo. destruct (snd (m_mod m_st t ops)) as [[[c1 p1]|[]]| |]; try discriminate Mo; try (injection Mo as <-; now destruct Na).
  injection Mo as <-. exists no_errs, 2, (fun _ => ([], None)), c, p, no_errs, no_errs, c1, p1. split; [lia|]. rewrite Ec. auto.
Qed.
Lemma h_twins A : forallb (fun a => match art_type_of (im_file a) with Some _ => true | None => false end) A = true ->
  forallb (fun a => forallb (fun b => negb (path_eqb (backup_of (im_file a)) (backup_of (im_file b))) || path_eqb (im_file a) (im_file b)) A) A = true -> no_twins A.
Proof.
  rewrite !forallb_forall. intros Ty Tw a b Ha Hb T. specialize (Tw a Ha). rewrite forallb_forall in Tw. specialize (Tw b Hb).
  rewrite (twins_backup (im_file a) (im_file b)) in Tw; auto; try (unfold typed; specialize (Ty a Ha); specialize (Ty b Hb); now destruct (art_type_of _)).
  - rewrite (proj2 (path_eqb_iff (backup_of (im_file b)) (backup_of (im_file b))) eq_refl) in Tw. now apply path_eqb_iff.
  - unfold typed. specialize (Ty a Ha). now destruct (art_type_of (im_file a)).
  - unfold typed. specialize (Ty b Hb). now destruct (art_type_of (im_file b)).
Qed.
Example C96_example :
  safe_disk m_st m_tree /\
  shows ex_path ex_yaml ex_parse ex_parse (fun _ _ => s "bad") [] exact_num topo_sort str mid [s "settings.toml"] None m_st m_tree [req_a; spc_a; spc_b] /\
  h_series m_tree [(m_ops, true); (h_stale, false); (h_back, true)] h_disk2 /\
  stored_of (m_load m_st h_disk2) = [req_z; spc_a; spc_b; spc_n].
Proof.
  split; [exact m_safe|]. split; [|split; [|vm_compute; reflexivity]].
  - destruct (m_loaded m_st m_tree) as (c & p & E & Ld); [vm_compute; exact Logic.I|].
    assert (S : stored_form p = [req_a; spc_a; spc_b]) by (pose proof (proj1 C35_example) as X; unfold stored_of in X; rewrite E in X; exact X).
    rewrite <- S. apply (C96_shows ex_path ex_yaml ex_parse ex_parse (fun _ _ => s "bad") [] exact_num topo_sort str mid [s "settings.toml"] None m_st ex_parser_ok ex_parser_ok topo_sort_ok m_tree no_errs 2 (fun _ => ([], None)) c p); auto.
    intros f Hf. assert (X : forallb (fun i => match i with inl f => negb (jb_panic (load_file ex_path ex_yaml ex_parse ex_parse (fun _ _ => s "bad") [] f)) | inr _ => true end) (art_files no_errs m_tree ex_path m_st) = true) by (vm_compute; reflexivity).
    rewrite forallb_forall in X. specialize (X _ Hf). now apply Bool.negb_true_iff in X.
  - apply se_accepted with h_disk1; [|apply se_rejected with h_disk1; [|apply se_accepted with h_disk2; [|apply se_none]]].
    + apply (h_accept m_tree m_ops [req_z; spc_a; spc_n]); try (vm_compute; reflexivity); try discriminate.
      * split; [exact m_ops_wf|exact (proj1 (proj2 C40_example))].
      * exact (proj2 (proj2 (proj2 (proj2 (proj2 (proj2 (proj2 (proj2 C40_example)))))))).
      * apply h_twins; vm_compute; reflexivity.
    + exists no_errs, 2, (fun _ => ([], None)), (m_load m_st h_disk1), no_errs, no_errs, (snd (m_mod m_st h_disk1 h_stale)). split; [exact (m_load_runs m_st h_disk1)|]. split.
      * assert (X : fst (m_mod m_st h_disk1 h_stale) = h_disk1) by (vm_compute; reflexivity). rewrite <- X at 3. exact (m_mod_runs m_st h_disk1 h_stale).
      * assert (X : match snd (m_mod m_st h_disk1 h_stale) with Ok (inr (KHash, _)) => true | _ => false end = true) by (vm_compute; reflexivity).
        destruct (snd (m_mod m_st h_disk1 h_stale)) as [[|[[] y]]| |]; try discriminate X. split; discriminate.
    + apply (h_accept h_disk1 h_back [req_z; spc_a; spc_b; spc_n]); try (vm_compute; reflexivity); try discriminate.
      * split; [apply Forall_cons; [apply m_im_wf; [exact Logic.I|repeat constructor|repeat constructor; intros []]|apply Forall_nil]|].
        intros o a [<-|[]] [X|[i X]]; try discriminate X. injection X as <-. split; [repeat constructor|]. intros e [<-|[]] [x B]; discriminate B.
      * apply md_survive_quiet; [exact m_prefix|discriminate|]. repeat (apply Forall_cons; [apply quiet_b; vm_compute; reflexivity|]). apply Forall_nil.
      * apply h_twins; vm_compute; reflexivity.
Qed.
(** Why the long s is an exception: the request is accepted, and nothing can load the result. *)
Definition h_long := m_im (s "SPC-l") (s "c.md") [] (s "see [[" ++ [383%N] ++ s "pc-x]]").
Example C96_long : longs_stored [req_a; spc_a; spc_b; h_long] /\
  h_accepted m_tree [OCreate h_long] (fst (m_mod m_st m_tree [OCreate h_long])) /\ m_load m_st (fst (m_mod m_st m_tree [OCreate h_long])) = Panic.
Proof.
  assert (L : longs_name (383%N :: s "pc-x")) by (apply name_panic; vm_compute; reflexivity).
  split; [|split; [|vm_compute; reflexivity]].
  - exists h_long, (383%N :: s "pc-x"), []. split; [right; right; right; now left|]. split; [|exact L]. split; [now right|]. split; [now left|]. exists (s "see "), []. reflexivity.
  - apply (h_accept m_tree [OCreate h_long] [req_a; spc_a; spc_b; h_long]); try (vm_compute; reflexivity); try discriminate.
    + split; [apply Forall_cons; [apply m_im_wf; [exact Logic.I|repeat constructor|repeat constructor; intros []]|apply Forall_nil]|].
      intros o a [<-|[]] [X|[i X]]; try discriminate X. injection X as <-. split; [repeat constructor|]. intros e [<-|[]] [x B]; discriminate B.
    + apply md_survive_quiet; [exact m_prefix|discriminate|]. repeat (apply Forall_cons; [apply quiet_b; vm_compute; reflexivity|]). apply Forall_nil.
    + apply h_twins; vm_compute; reflexivity.
Qed.
