(** C98: nothing keeps two programs from changing the same project at the same time; what either has
    read counts, not what is on the disk when it saves. *)
From Coq Require Import ZArith Lia Permutation Relation_Operators.
From Verif Require Import Base BaseFacts Regex Name SpecName NameFacts RawNames RawNamesFacts Family FamilyFacts Artifact Stored SpecGraph Topo SpecLinks BuildFacts LinkFacts ProjectFacts Numbers
  Markdown SpecMarkdown MarkdownFacts YamlExample Lint SpecLint LintFacts LintThms Source SpecJoin Pool PoolFacts Load LoadFacts SpecLoad CheckFacts ReadThms Disk DiskFacts Walk SpecWalk WalkFacts Modify SpecModify SpecReload OpFacts PureFacts OrderFacts
  PhaseFacts ResultFacts CodecExample ReloadFacts DiskRunFacts PropArtifacts PropCompleted PropMarkdown PropLint PropLoad PropModify PropDisk SpecAgain AgainFacts PropAgain SpecRecover PropRecover.
Open Scope nat_scope.

Section Theorems.
  Variables (path_str : path -> str) (yaml : str -> option (option str * option RawNames.names_val)) (parse_toml parse_json : str -> res (list (name * art_raw)))
    (parse_msg : path -> str -> str) (prefix : str) (M : num) (topo : graph -> option (list nat)) (H : Type) (heqb : H -> H -> bool) (hash_im : art_im -> H)
    (settings_path : path) (url_error : option str).
  Variables (debug_im : art_im -> str) (st : settings) (to_toml to_json : list (name * art_raw) -> str) (yaml_done : str -> str) (style : md_attrs).
  Hypothesis TO : parser_ok parse_toml.
  Hypothesis JO : parser_ok parse_json.
  Hypothesis TC : topo_ok topo.
  Hypothesis HE : forall a b, heqb a b = true <-> a = b.
  Hypothesis HI : forall a b, hash_im a = hash_im b -> a = b.
  Hypothesis YO : yaml_ok yaml yaml_done.
  Hypothesis CT : codec_ok to_toml parse_toml.
  Hypothesis CJ : codec_ok to_json parse_json.
  Hypothesis RA : roots_apart (se_arts st).
  Notation load_of E t n lo r := (loads path_str yaml parse_toml parse_json parse_msg prefix M topo H hash_im settings_path url_error n (art_files E t path_str st) (code_files E t lo path_str st) r).
  Notation runs := (runs path_str M topo H heqb hash_im debug_im st to_toml to_json yaml_done style).
  Notation mstep := (mstep path_str M H st to_toml to_json yaml_done style).
  Notation accepted := (accepted path_str yaml parse_toml parse_json parse_msg prefix M topo H heqb hash_im settings_path url_error debug_im st to_toml to_json yaml_done style).
  Notation shows := (shows path_str yaml parse_toml parse_json parse_msg prefix M topo H hash_im settings_path url_error st).
  Notation can_load := (can_load path_str yaml parse_toml parse_json parse_msg prefix M topo H hash_im settings_path url_error st).

  (** A program has read the project from the disk [tb]; by the time it starts to save, the disk is
      [t]; its request is accepted and leaves the disk [t']. *)
  Definition late (tb t : node) (ops : list (op H)) (t' : node) : Prop :=
    fine H st ops /\ exists E n lo c p E1 E3 c1 p1, 0 < n /\ load_of E tb n lo (Ok (inl (c, p))) /\
      runs E1 E3 t (Ok (inl (c, p))) ops (MDone M H t' (Ok (inl (c1, p1)))) /\ md_survive prefix style (stored_form p1) /\ no_twins (stored_form p1).

  (** The disk then holds what the request makes of what was read, whatever was there before. *)
  Theorem C98_last : forall tb t ops t' A, safe_disk st tb -> safe_disk st t -> shows tb A -> late tb t ops t' ->
    exists B, applied hash_im ops A B /\ can_load t' B.
  Proof.
    intros tb t ops t' A Sb Sd Sh ((W & Wo) & E & n & lo & c & p & E1 & E3 & c1 & p1 & N0 & Ld & Rn & Md & Nt).
    exists (stored_form p1). split.
    - pose proof (C35_loaded _ _ _ _ _ _ _ _ _ _ _ _ TO JO TC _ _ _ _ _ _ _ Ld) as L.
      assert (Nh : NoDup (map hash_im (stored_form p))).
      { pose proof (lo_distinct _ _ L) as D. unfold distinct in D. apply NoDup_map_inv in D. apply FinFun.Injective_map_NoDup; [intros a b; apply HI|exact D]. }
      destruct (C35_map path_str M topo H heqb hash_im debug_im st to_toml to_json yaml_done style E1 E3 t c p ops t' c1 p1 TC HE L Nh W Rn) as (_ & _ & X).
      intros a. rewrite (X a). now rewrite (Sh E n lo c p N0 Ld a).
    - intros E' n' lo' r N' L2.
      exact (elsewhere_loads path_str M topo TC H heqb HE hash_im debug_im st to_toml to_json yaml_done style E1 E3 yaml parse_toml parse_json TO JO parse_msg prefix settings_path url_error
        tb t (sd_tree _ _ Sb) (sd_names _ _ Sb) (sd_roots _ _ Sb) Sd c p ops E n _ (found_walk_ok _ _ _ _ _ _ _ _) Ld W Wo t' c1 p1 Rn YO CT CJ E' RA Md n' _ r N' (found_walk_ok _ _ _ _ _ _ _ _) L2).
  Qed.

  (** Two programs read the same disk, then the one saves, then the other; both succeed, and what the
      first did is undone: what only it stored is gone, what only it deleted is there again. *)
  Theorem C98_lost : forall t A opsa t1 opsb t2, safe_disk st t -> shows t A -> accepted t opsa t1 -> late t t1 opsb t2 ->
    exists B1 B2, applied hash_im opsa A B1 /\ can_load t1 B1 /\ applied hash_im opsb A B2 /\ can_load t2 B2 /\
      (forall a, In a B1 -> ~ In a A -> (forall o, In o (map (op_clean H) opsb) -> ~ stores o a) -> ~ In a B2) /\
      (forall a, In a A -> ~ In a B1 -> (forall o, In o (map (op_clean H) opsb) -> ~ stores o a /\ ~ takes hash_im o (hash_im a)) -> In a B2).
  Proof.
    intros t A opsa t1 opsb t2 Sd Sh Ac La.
    destruct (C96_saved path_str yaml parse_toml parse_json parse_msg prefix M topo H heqb hash_im settings_path url_error debug_im st to_toml to_json yaml_done style TO JO TC HE HI YO CT CJ RA t opsa t1 A Sd Sh Ac) as (Sd1 & B1 & Ap1 & Cl1).
    destruct (C98_last t t1 opsb t2 A Sd Sd1 Sh La) as (B2 & Ap2 & Cl2).
    exists B1, B2. split; auto. split; auto. split; auto. split; auto. split.
    - intros a _ Na No Hb. apply Ap2 in Hb as [_ [(l & o & r & E & So & _)|[_ X]]]; [|now apply Na]. apply (No o); auto. rewrite E. apply in_or_app. right. now left.
    - intros a Ha _ No. apply Ap2. split; [intros (o & Io & Ta); now apply (No o Io)|]. right. split; auto. intros (o & b & Io & Sb & Eb). apply HI in Eb as ->. exact (proj1 (No o Io) Sb).
  Qed.

  (** In every run that succeeds there is a moment at which the disk shows no artifact at all. A
      program that reads the project then, and saves after the run, leaves nothing but what its
      own request stores, though both succeed. *)
  Theorem C98_wiped : forall t E n lo c p ops E1 E3 t' c1 p1,
    safe_disk st t -> 0 < n -> load_of E t n lo (Ok (inl (c, p))) -> fine H st ops ->
    runs E1 E3 t (Ok (inl (c, p))) ops (MDone M H t' (Ok (inl (c1, p1)))) -> md_survive prefix style (stored_form p1) -> no_twins (stored_form p1) ->
    can_load t' (stored_form p1) /\
    exists x, runs E1 E3 t (Ok (inl (c, p))) ops x /\ clos_refl_trans_1n _ (mstep E3) x (MDone M H t' (Ok (inl (c1, p1)))) /\
      shows (disk M H x) [] /\
      forall opsb t2, late (disk M H x) t' opsb t2 ->
        exists B, can_load t2 B /\ forall a, In a B -> exists o, In o (map (op_clean H) opsb) /\ stores o a.
  Proof.
    intros t E n lo c p ops E1 E3 t' c1 p1 Sd N0 Ld Fi Rn Md Nt. pose proof Fi as [W Wo].
    assert (Sd' : safe_disk st t').
    { exact (saved_safe path_str M topo TC H heqb HE hash_im debug_im st to_toml to_json yaml_done style E1 E3 yaml parse_toml parse_json TO JO parse_msg prefix settings_path url_error
        t Sd c p ops E n _ (found_walk_ok _ _ _ _ _ _ _ _) Ld W Wo t' c1 p1 Rn Nt). }
    split.
    { intros E' n' lo' r N' L2.
      exact (saved_loads path_str M topo TC H heqb HE hash_im debug_im st to_toml to_json yaml_done style E1 E3 yaml parse_toml parse_json TO JO parse_msg prefix settings_path url_error
        t Sd c p ops E n _ (found_walk_ok _ _ _ _ _ _ _ _) Ld W Wo t' c1 p1 Rn YO CT CJ E' RA Md n' _ r N' (found_walk_ok _ _ _ _ _ _ _ _) L2). }
    destruct (C86_forgotten path_str M topo H heqb hash_im debug_im st to_toml to_json yaml_done style E1 E3 yaml parse_toml parse_json parse_msg prefix settings_path url_error TC HE TO JO t E n lo c p ops Sd Ld W t' c1 p1 Rn)
      as (x & Rx & Sx & _ & Dx & _ & _ & Fx).
    assert (Sh : shows (disk M H x) []).
    { intros E' n' lo' c2 p2 N' L2 a. destruct (Fx E' n' lo' c2 p2 L2) as [-> _]. reflexivity. }
    exists x. split; auto. split; auto. split; auto. intros opsb t2 La.
    destruct (C98_last (disk M H x) t' opsb t2 [] Dx Sd' Sh La) as (B & Ap & Cl). exists B. split; auto.
    intros a Ha. apply Ap in Ha as [_ [(l & o & r & E' & So & _)|[_ []]]]. exists o. split; auto. rewrite E'. apply in_or_app. right. now left.
  Qed.
  (** If its request is empty, as that of [art fmt], nothing is left. *)
  Theorem C98_fmt : forall tb t t', safe_disk st tb -> safe_disk st t -> (forall f, ~ found_file st tb f) -> late tb t [] t' -> can_load t' [].
  Proof.
    intros tb t t' Sb Sd Nf La.
    assert (Sh : shows tb []).
    { intros E n lo c p N0 Ld a. split; [|intros []]. intros Ha. apply (Nf (im_file a)).
      exact (l_found path_str M topo TC H hash_im st yaml parse_toml parse_json TO JO parse_msg prefix settings_path url_error tb (sd_tree _ _ Sb) (sd_roots _ _ Sb) c p E n _ (found_walk_ok _ _ _ _ _ _ _ _) Ld a Ha). }
    destruct (C98_last tb t [] t' [] Sb Sd Sh La) as (B & Ap & Cl). replace [] with B; auto.
    destruct B as [|a B]; auto. exfalso. destruct (proj1 (Ap a) (or_introl eq_refl)) as [_ [(l & o & r & E & _)|[_ []]]]. destruct l; discriminate E.
  Qed.
End Theorems.
Print Assumptions C98_last.
Print Assumptions C98_lost.
Print Assumptions C98_wiped.
Print Assumptions C98_fmt.

(** On the example disk: a program creates SPC-x, another deletes SPC-a-b; both have read the same
    disk. And [art fmt] that reads the project while the first is saving. *)
Definition w_mod tb t ops := seq_modify ex_path exact_num topo_sort str str_eqb mid (fun _ => s "art") m_st ex_store ex_store ex_yaml_done Hashes no_errs no_errs t (m_load m_st tb) ops.
Definition w_a := m_im (s "SPC-x") (s "c.md") [] (s "new").
Definition w_opsa := [@OCreate str w_a].
Definition w_opsb := [ODelete (nm (s "SPC-a-b")) (mid spc_b)].
Definition w_disk1 := fst (m_mod m_st m_tree w_opsa).
Definition w_disk2 := fst (w_mod m_tree w_disk1 w_opsb).
Definition w_disk3 := fst (w_mod m_cut w_disk1 []).
Notation w_late := (late ex_path ex_yaml ex_parse ex_parse (fun _ _ => s "bad") [] exact_num topo_sort str str_eqb mid [s "settings.toml"] None (fun _ => s "art") m_st ex_store ex_store ex_yaml_done Hashes).
Lemma w_lates tb t ops A : code_files no_errs tb (fun _ => ([], None)) ex_path m_st = [] ->
  (match m_load m_st tb with Ok (inl _) => true | _ => false end = true) -> fine str m_st ops ->
  (match snd (w_mod tb t ops) with Ok (inl _) => true | _ => false end = true) -> m_out (w_mod tb t ops) = (None, A) -> md_survive [] Hashes A -> no_twins A ->
  w_late tb t ops (fst (w_mod tb t ops)).
Proof.
  intros Ec Lo Fi Wm Mo Md Nt. split; auto. pose proof (m_load_runs m_st tb) as Ld.
  pose proof (seq_runs ex_path exact_num topo_sort str str_eqb mid (fun _ => s "art") m_st ex_store ex_store ex_yaml_done Hashes no_errs no_errs t (m_load m_st tb) ops) as Rn.
  change (seq_modify _ _ _ _ _ _ _ _ _ _ _ _ _ _ t (m_load m_st tb) ops) with (w_mod tb t ops) in Rn. unfold m_out in Mo.
  destruct (m_load m_st tb) as [[[c p]|]| |]; try discriminate Lo. destruct (snd (w_mod tb t ops)) as [[[c1 p1]|[]]| |]; try discriminate Wm.
  injection Mo as <-. exists no_errs, 2, (fun _ => ([], None)), c, p, no_errs, no_errs, c1, p1. split; [lia|]. rewrite Ec. auto.
Qed.
Example C98_example :
  h_accepted m_tree w_opsa w_disk1 /\ stored_of (m_load m_st w_disk1) = [req_a; spc_a; spc_b; w_a] /\
  w_late m_tree w_disk1 w_opsb w_disk2 /\ stored_of (m_load m_st w_disk2) = [req_a; spc_a] /\
  safe_disk m_st m_cut /\ (forall f, ~ found_file m_st m_cut f) /\ (exists x, m_run m_st m_tree w_opsa x /\ disk _ _ x = m_cut) /\
  w_late m_cut w_disk1 [] w_disk3 /\ all_files w_disk3 = [[s "p"; s "other.md"]].
Proof.
  assert (Fi : fine str m_st w_opsa).
  { split; [apply Forall_cons; [apply m_im_wf; [exact Logic.I|repeat constructor|repeat constructor; intros []]|apply Forall_nil]|].
    intros o a [<-|[]] [X|[i X]]; try discriminate X. injection X as <-. split; [repeat constructor|]. intros e [<-|[]] [x B]; discriminate B. }
  split; [|split; [vm_compute; reflexivity|split; [|split; [vm_compute; reflexivity|split; [|split; [|split; [|split; [|vm_compute; reflexivity]]]]]]]].
  - apply (h_accept m_tree w_opsa [req_a; spc_a; spc_b; w_a]); try (vm_compute; reflexivity); try discriminate; [exact Fi| |].
    + apply md_survive_quiet; [exact m_prefix|discriminate|]. repeat (apply Forall_cons; [apply quiet_b; vm_compute; reflexivity|]). apply Forall_nil.
    + apply h_twins; vm_compute; reflexivity.
  - apply (w_lates m_tree w_disk1 w_opsb [req_a; spc_a]); try (vm_compute; reflexivity).
    + split; [repeat constructor|]. intros o a [<-|[]] [X|[i X]]; discriminate X.
    + apply md_survive_quiet; [exact m_prefix|discriminate|]. repeat (apply Forall_cons; [apply quiet_b; vm_compute; reflexivity|]). apply Forall_nil.
    + apply h_twins; vm_compute; reflexivity.
  - apply safe_b_ok. vm_compute. reflexivity.
  - assert (S : safe_disk m_st m_cut) by (apply safe_b_ok; vm_compute; reflexivity).
    intros f Ff. apply (PropRecover.arts_found_ok m_st m_cut (sd_tree _ _ S) (sd_roots _ _ S)) in Ff.
    assert (X : PropRecover.arts_found m_st m_cut = []) by (vm_compute; reflexivity). rewrite X in Ff. destruct Ff.
  - assert (B : m_pure_ok m_st m_tree w_opsa = true) by (vm_compute; reflexivity). unfold m_pure_ok in B.
    destruct (m_load m_st m_tree) as [[[c0 p0]|]| |] eqn:E; try discriminate B.
    destruct (modify_pure ex_path exact_num topo_sort str str_eqb mid (fun _ => s "art") m_st (inl (c0, p0)) w_opsa) as [[|[c q]]| |] eqn:Ep; try discriminate B.
    eexists. split; [exact (m_backed m_st m_tree w_opsa c0 p0 c q E Ep)|]. reflexivity.
  - apply (w_lates m_cut w_disk1 [] []); try (vm_compute; reflexivity).
    + split; [constructor|]. intros o a [].
    + apply md_survive_quiet; [exact m_prefix|discriminate|]. apply Forall_nil.
    + intros a b [].
Qed.
