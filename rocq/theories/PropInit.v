(** Properties C72, C73: [art init]. *)
From Coq Require Import Lia Permutation.
From Verif Require Import Base BaseFacts Regex Name SpecName NameFacts RawNames Artifact Stored SpecGraph Topo SpecLinks Numbers
  Markdown SpecMarkdown YamlExample Lint SpecLint Source Pool Load LoadFacts SpecLoad CheckFacts ReadThms
  Disk DiskFacts Walk SpecWalk WalkFacts ResolveFacts ResultFacts Settings SpecSettings SettingsFacts Init InitFacts FreshFacts
  PropArtifacts PropMarkdown PropLint PropLoad Ls PropLs PropSettings.

(** ** C72 What art init does to the disk *)
Lemma art_at wd : wd ++ [s ".art"] = art_dir wd. Proof. reflexivity. Qed.
Lemma settings_at wd : wd ++ [s ".art"; s "settings.toml"] = settings_file wd.
Proof. unfold settings_file, art_dir. now rewrite <- app_assoc. Qed.
Lemma purpose_at wd : wd ++ [s "design"; s "purpose.md"] = purpose_file wd.
Proof. unfold purpose_file, design_dir. now rewrite <- app_assoc. Qed.

(** Where there is already something called .art, nothing happens. *)
Theorem C72_refused : forall io t wd, is_dir (lookup t wd) = false \/ lookup t (wd ++ [s ".art"]) <> None -> init_run io t wd = (1, t).
Proof.
  intros io t wd C. rewrite art_at in C. unfold init_run. destruct (is_dir (lookup t wd)); [|reflexivity].
  destruct C as [C|C]; [discriminate C|]. destruct (lookup t (art_dir wd)); [reflexivity|contradiction].
Qed.
Print Assumptions C72_refused.

(** It succeeds exactly if nothing stands in the way. *)
Theorem C72_succeeds_iff : forall io t wd, tree_ok t ->
  (fst (init_run io t wd) = 0 <->
   is_dir (lookup t wd) = true /\ lookup t (wd ++ [s ".art"]) = None /\ file_at t (wd ++ [s "design"]) = None /\
   is_dir (lookup t (wd ++ [s "design"; s "purpose.md"])) = false /\ forall i, i < 6 -> io i = None).
Proof.
  intros io t wd T. rewrite art_at, purpose_at. change (wd ++ [s "design"]) with (design_dir wd). unfold init_run.
  destruct (is_dir (lookup t wd)) eqn:D; [|cbn [fst]; intuition discriminate]. destruct (lookup t (art_dir wd)) eqn:A; [cbn [fst]; intuition discriminate|].
  destruct (steps_spec io t wd T D A) as (_ & S & _). unfold clear_design in S. destruct (init_steps io t wd) as [ok t']. cbn [fst snd] in *.
  destruct ok; cbn [fst]; [intuition|]. split; [discriminate|]. intros (_ & _ & X1 & X2 & X3). exfalso. enough (false = true) by discriminate. apply S. auto.
Qed.
Print Assumptions C72_succeeds_iff.

(** Whether it succeeds or not, it only makes two directories and writes two files; an existing
    design/purpose.md is overwritten. *)
Theorem C72_effect : forall io t wd st t', tree_ok t -> init_run io t wd = (st, t') ->
  (forall q, q <> wd ++ [s ".art"; s "settings.toml"] -> q <> wd ++ [s "design"; s "purpose.md"] -> file_at t' q = file_at t q) /\
  (forall q, q <> wd ++ [s ".art"] -> q <> wd ++ [s "design"] -> is_dir (lookup t' q) = is_dir (lookup t q)) /\
  (forall q, is_dir (lookup t q) = true -> is_dir (lookup t' q) = true) /\
  (st = 0 -> file_at t' (wd ++ [s ".art"; s "settings.toml"]) = Some init_settings /\
             file_at t' (wd ++ [s "design"; s "purpose.md"]) = Some (s "# REQ-purpose" ++ [10%N] ++ s "The goal of this project is..." ++ [10%N])) /\
  tree_ok t' /\ (st = 0 \/ st = 1).
Proof.
  intros io t wd st t' T E. rewrite settings_at, purpose_at, art_at. change (wd ++ [s "design"]) with (design_dir wd). unfold init_run in E.
  assert (Same : (1, t) = (st, t') -> (forall q, q <> settings_file wd -> q <> purpose_file wd -> file_at t' q = file_at t q) /\
     (forall q, q <> art_dir wd -> q <> design_dir wd -> is_dir (lookup t' q) = is_dir (lookup t q)) /\
     (forall q, is_dir (lookup t q) = true -> is_dir (lookup t' q) = true) /\
     (st = 0 -> file_at t' (settings_file wd) = Some init_settings /\ file_at t' (purpose_file wd) = Some (s "# REQ-purpose" ++ [10%N] ++ s "The goal of this project is..." ++ [10%N])) /\ tree_ok t' /\ (st = 0 \/ st = 1)).
  { intros X. injection X as <- <-. repeat split; auto; discriminate. }
  destruct (is_dir (lookup t wd)) eqn:D; [|now apply Same]. destruct (lookup t (art_dir wd)) eqn:A; [now apply Same|]. clear Same.
  destruct (steps_spec io t wd T D A) as ((T' & F & Dd & U) & _ & S & _). destruct (init_steps io t wd) as [ok t2]. cbn [fst snd] in *.
  injection E as <- <-. split; [|split; [|split; [|split; [|split]]]]; auto; [| | |destruct ok; auto].
  - intros q N1 N2. apply F. intros [X|[X|[]]]; auto.
  - intros q N1 N2. apply Dd. intros [X|[X|[]]]; auto.
  - destruct ok; [|discriminate]. intros _. split; apply S; auto.
Qed.
Print Assumptions C72_effect.

(** If it fails after it has begun, the directory is taken: it cannot be tried again before .art is
    removed by hand. *)
Theorem C72_no_retry : forall io t wd, tree_ok t -> snd (init_run io t wd) <> t ->
  forall io', init_run io' (snd (init_run io t wd)) wd = (1, snd (init_run io t wd)).
Proof.
  intros io t wd T N io'. apply C72_refused. right. rewrite art_at. unfold init_run in *.
  destruct (is_dir (lookup t wd)) eqn:D; [|now destruct N]. destruct (lookup t (art_dir wd)) eqn:A; [now destruct N|].
  destruct (steps_spec io t wd T D A) as (_ & _ & _ & S). destruct (init_steps io t wd) as [ok t2]. cbn [fst snd] in *. auto.
Qed.
Print Assumptions C72_no_retry.

Definition fine (i : nat) : option (option nat) := None.
Definition ex_new (more : list (str * node)) : node := NDir [(s "home", NDir [(s "p", NDir more)])].
Example C72_example :
  fst (init_run fine (ex_new []) ex_root) = 0 /\
  (let t := ex_new [(s "design", NDir [(s "purpose.md", NFile (s "# REQ-mine"))])] in
   fst (init_run fine t ex_root) = 0 /\ file_at (snd (init_run fine t ex_root)) (ex_root ++ [s "design"; s "purpose.md"]) = Some init_purpose) /\
  (let t := ex_new [(s "design", NFile (s "a file"))] in
   fst (init_run fine t ex_root) = 1 /\ snd (init_run fine t ex_root) <> t /\
   file_at (snd (init_run fine t ex_root)) (ex_root ++ [s ".art"; s "settings.toml"]) = Some init_settings) /\
  (let full := fun i => if Nat.eqb i 2 then Some (Some 5) else None in
   fst (init_run full (ex_new []) ex_root) = 1 /\ file_at (snd (init_run full (ex_new []) ex_root)) (ex_root ++ [s ".art"; s "settings.toml"]) = Some (s "# ---")).
Proof. vm_compute. repeat split; discriminate. Qed.

(** ** C73 After art init, art check passes *)
(** [toml] reads the settings that were written; no artifact files were in design before. *)
Section Fresh.
  Variable E : disk_errs.
  Variable path_str : path -> str.
  Variable toml : str -> raw_settings + str.
  Variable not_dir : path -> str.
  Variable lines_of : str -> list str * option str.
  Variable yaml : str -> option (option str * option names_val).
  Variables parse_toml parse_json : str -> res (list (name * art_raw)).
  Variable parse_msg : path -> str -> str.
  Variable M : num.
  Variable topo : graph -> option (list nat).
  Variable H : Type.
  Variable hash_im : art_im -> H.
  Variable re_error : str -> option str.
  Variable url_error : str -> option str.

  Definition reads_written : Prop :=
    (forall p, e_stat E p = None) /\ (forall p, e_open E p = None) /\ (forall p, e_read E p = None) /\
    toml init_settings = inl (mkRS [s "design"] [] [] [] None []) /\ re_error [] = None /\
    parser_ok parse_toml /\ parser_ok parse_json /\ topo_ok topo.
  Definition nothing_there (t : node) (wd : path) : Prop :=
    forall r c, file_at t (wd ++ [s "design"] ++ r) = Some c -> known_extension (wd ++ [s "design"] ++ r) -> r = [s "purpose.md"].

  Notation reads := (reads E path_str toml not_dir lines_of yaml parse_toml parse_json parse_msg M topo H hash_im re_error url_error).
  Notation checks := (checks E path_str toml not_dir lines_of yaml parse_toml parse_json parse_msg M topo H hash_im re_error url_error).
  Notation loads := (loads path_str yaml parse_toml parse_json parse_msg [] M topo H hash_im).

  Lemma purpose_known wd : known_extension (purpose_file wd).
  Proof. apply art_type_iff. rewrite purpose_type. discriminate. Qed.

  Lemma reads_fresh io t wd t' n r : reads_written -> tree_ok t -> nothing_there t wd -> init_run io t wd = (0, t') ->
    reads n t' wd r <-> loads (settings_file wd) None n [inl (mkAF (purpose_file wd) (inl init_purpose))] [] r.
  Proof.
    intros (Es & Eo & Er & Tm & Re & TO & JO & TC) T N I.
    destruct (C72_effect io t wd 0 t' T I) as (Fo & Do & Up & S & T' & _). destruct (S eq_refl) as [S1 S2]. clear S. rewrite settings_at, purpose_at in *.
    assert (Dw : is_dir (lookup t' wd) = true).
    { apply Up. assert (X : fst (init_run io t wd) = 0) by now rewrite I. apply C72_succeeds_iff in X; auto. apply X. }
    assert (LS : load_settings E path_str toml not_dir t' wd = Ok (inl (mkSettings [design_dir wd] [] [] [], mkRS [s "design"] [] [] [] None []))).
    { unfold load_settings, load_raw. rewrite Dw, S1, Er, Tm. cbn [rs_arts rs_xarts rs_code rs_xcode]. reflexivity. }
    assert (AF : art_files E t' path_str (mkSettings [design_dir wd] [] [] []) = [inl (mkAF (purpose_file wd) (inl init_purpose))]).
    { unfold art_files. cbn [se_xarts se_arts]. unfold walk_paths. cbn [flat_map]. rewrite app_nil_r.
      assert (Fp : found_from t' [] (design_dir wd) (purpose_file wd)).
      { left. exists [s "purpose.md"]. unfold file_at in S2. destruct (lookup t' (purpose_file wd)) as [[c|l]|] eqn:L; try discriminate S2. exists c. repeat split; auto; discriminate. }
      destruct (found_walk (e_stat E) (e_open E) (e_none E) t' (art_filter []) [] known_extension T' Es Eo (art_filter_dir _) (art_filter_file _) _ _ Fp (purpose_known wd)) as (c & Lc & Ic).
      assert (Dd : exists l, lookup t' (design_dir wd) = Some (NDir l)).
      { unfold purpose_file in Lc. rewrite lookup_app in Lc. destruct (lookup t' (design_dir wd)) as [[c'|l]|]; [discriminate Lc|eauto|discriminate Lc]. }
      destruct Dd as (l & Ld).
      destruct (walk_path (e_stat E) (e_open E) (e_none E) (art_filter []) t' (design_dir wd)) as [fs e] eqn:W.
      destruct (walk_path_exact (e_stat E) (e_open E) (e_none E) (art_filter []) [] known_extension (art_filter_dir _) (art_filter_file _) t' T' _ l Ld fs e W) as (Nd & Sd & _).
      assert (e = None).
      { pose proof W as W'. unfold walk_path in W'. rewrite Ld in W'. pose proof (walk_none (e_stat E) (e_open E) (art_filter []) Es Eo (NDir l) (design_dir wd)) as X. now rewrite W' in X. }
      subst e. rewrite app_nil_r. cbn [fst] in Ic.
      assert (fs = [purpose_file wd]).
      { assert (Al : forall q, In q fs -> q = purpose_file wd).
        { intros q Hq. destruct (Sd q Hq) as ((r0 & c0 & -> & Nr & Lr & _) & Kx).
          destruct (list_eq_dec (list_eq_dec N.eq_dec) (design_dir wd ++ r0) (purpose_file wd)) as [|Ne]; auto.
          unfold purpose_file. f_equal. apply (N r0 c0); [|unfold design_dir in Kx; rewrite <- app_assoc in Kx; exact Kx].
          change (file_at t (wd ++ [s "design"] ++ r0)) with (file_at t (wd ++ ([s "design"] ++ r0))). rewrite app_assoc. fold (design_dir wd). rewrite <- Fo; auto.
          - unfold file_at. now rewrite Lr.
          - unfold settings_file, art_dir, design_dir. rewrite <- !app_assoc. intros X. apply app_inv_head in X. discriminate X. }
        destruct fs as [|a [|b fs]]; [destruct Ic|now rewrite (Al a (or_introl eq_refl))|]. exfalso. inversion Nd as [|? ? Na _]; subst. apply Na. left.
        now rewrite (Al a (or_introl eq_refl)), (Al b (or_intror (or_introl eq_refl))). }
      subst fs. cbn [map found]. unfold read_art. now rewrite Er, S2. }
    unfold Settings.reads. rewrite LS. cbn [rs_prefix rs_url]. rewrite Re, AF. reflexivity.
  Qed.

  (** The project has one artifact, and no lints. *)
  Theorem C73_project : forall io t wd t' n r, reads_written -> tree_ok t -> nothing_there t wd -> init_run io t wd = (0, t') -> 0 < n ->
    reads n t' wd r ->
    exists p a, r = Ok (inl (mkLints [] [], p)) /\ map (fun e => n_raw (fst e)) (pr_arts p) = [s "REQ-purpose"] /\ map snd (pr_arts p) = [a] /\
      a_text a = s "The goal of this project is..." /\ a_file a = wd ++ [s "design"; s "purpose.md"] /\ a_partof a = [] /\ a_subnames a = [] /\ a_impl a = INot.
  Proof.
    intros io t wd t' n r RW T N I Hn R. rewrite (reads_fresh io t wd t' n r RW T N I) in R. destruct RW as (_ & _ & _ & _ & _ & TO & JO & TC).
    destruct (fresh_loads path_str yaml parse_toml parse_json parse_msg TO JO M topo TC H hash_im wd n r Hn R) as ([ce co] & p & a & -> & Ee & Eo & Ea & _ & E1 & E2 & E3 & E4 & E5).
    cbn [ls_error ls_other] in *. subst ce co. exists p, a. rewrite Ea, purpose_at. repeat split; auto.
  Qed.

  (** From every directory of the project that is not inside another one. *)
  Theorem C73_check_passes : forall io t wd t' n d, reads_written -> tree_ok t -> nothing_there t wd -> init_run io t wd = (0, t') -> 0 < n ->
    is_dir (lookup t d) = true -> within wd d ->
    (forall r, within wd r -> within r d -> r <> wd -> lookup t (r ++ [s ".art"]) = None) ->
    forall st, checks n t' d st <-> st = 0.
  Proof.
    intros io t wd t' n d RW T N I Hn Dd W Nr st. destruct (C72_effect io t wd 0 t' T I) as (Fo & Do & Up & S & T' & _).
    unfold Settings.checks. rewrite (Up d Dd). set (ex := fun p => match lookup t' p with Some _ => true | None => false end).
    assert (FR : find_repo ex d = Ok wd).
    { apply C50_nearest. split; auto. split.
      - unfold ex. destruct (S eq_refl) as [S1 _]. change [s ".art"; s "settings.toml"] with ([s ".art"] ++ [s "settings.toml"]) in S1. rewrite app_assoc in S1. unfold file_at in S1. rewrite lookup_app in S1.
        destruct (lookup t' (wd ++ [s ".art"])); [reflexivity|discriminate S1].
      - intros r' (q & Eq) Hl. assert (W' : within wd r').
        { destruct W as (q0 & E0). exists (skipn (length wd) r'). rewrite <- (firstn_skipn (length wd) r') at 1. f_equal.
          assert (X : firstn (length wd) d = wd) by (rewrite E0, firstn_app, Nat.sub_diag, firstn_all, app_nil_r; reflexivity).
          rewrite Eq, firstn_app in X. replace (length wd - length r') with 0 in X by lia. rewrite app_nil_r in X. exact X. }
        assert (Ne : r' <> wd) by (intros ->; lia). assert (L : lookup t (r' ++ [s ".art"]) = None) by (apply Nr; auto; exists q; auto).
        unfold ex. destruct W' as (q1 & ->). destruct q1 as [|x q1]; [rewrite app_nil_r in Ne; contradiction|].
        assert (K1 : (wd ++ x :: q1) ++ [s ".art"] <> wd ++ [s ".art"]).
        { rewrite <- app_assoc. intros X. apply app_inv_head in X. cbn [app] in X. injection X as _ X. destruct q1; discriminate X. }
        assert (K2 : (wd ++ x :: q1) ++ [s ".art"] <> wd ++ [s "design"]).
        { rewrite <- app_assoc. intros X. apply app_inv_head in X. cbn [app] in X. injection X as _ X. destruct q1; discriminate X. }
        assert (K3 : (wd ++ x :: q1) ++ [s ".art"] <> wd ++ [s ".art"; s "settings.toml"]).
        { rewrite <- app_assoc. intros X. apply app_inv_head in X. apply (f_equal (@rev _)) in X. cbn [app] in X. change (x :: q1 ++ [s ".art"]) with ((x :: q1) ++ [s ".art"]) in X. rewrite rev_app_distr in X. discriminate X. }
        assert (K4 : (wd ++ x :: q1) ++ [s ".art"] <> wd ++ [s "design"; s "purpose.md"]).
        { rewrite <- app_assoc. intros X. apply app_inv_head in X. apply (f_equal (@rev _)) in X. cbn [app] in X. change (x :: q1 ++ [s ".art"]) with ((x :: q1) ++ [s ".art"]) in X. rewrite rev_app_distr in X. discriminate X. }
        pose proof (Fo _ K3 K4) as F. pose proof (Do _ K1 K2) as D. unfold file_at in F. rewrite L in F, D. cbn [is_dir] in D.
        destruct (lookup t' ((wd ++ x :: q1) ++ [s ".art"])) as [[c|l]|]; [discriminate F|discriminate D|reflexivity]. }
    rewrite FR. split.
    - intros (r & R & ->). destruct (C73_project io t wd t' n r RW T N I Hn R) as (p & a & -> & _). reflexivity.
    - intros ->. set (r := seq_load path_str yaml parse_toml parse_json parse_msg [] M topo H hash_im (settings_file wd) None n [inl (mkAF (purpose_file wd) (inl init_purpose))] []).
      assert (R : reads n t' wd r) by (apply (reads_fresh io t wd t' n r RW T N I); apply seq_loads).
      exists r. split; auto. destruct (C73_project io t wd t' n r RW T N I Hn R) as (p & a & -> & _). reflexivity.
  Qed.
End Fresh.
Print Assumptions C73_project.
Print Assumptions C73_check_passes.

(** The hypotheses are met, with a file beside it that is no artifact file. *)
Definition ex_toml2 (text : str) : raw_settings + str :=
  if list_eq_dec N.eq_dec text init_settings then inl (mkRS [s "design"] [] [] [] None []) else inr (s "not toml").
Definition ex_dir : node := ex_new [(s "src", NDir []); (s "design", NDir [(s "notes.txt", NFile (s "# REQ-a"))])].
Example C73_example : exists t',
  reads_written ok_disk ex_toml2 no_parser no_parser topo_sort (fun _ => None) /\ tree_ok ex_dir /\ nothing_there ex_dir ex_root /\
  init_run fine ex_dir ex_root = (0, t') /\ is_dir (lookup ex_dir (ex_root ++ [s "src"])) = true /\
  (forall r, within ex_root r -> within r (ex_root ++ [s "src"]) -> r <> ex_root -> lookup ex_dir (r ++ [s ".art"]) = None) /\
  checks ok_disk ex_path ex_toml2 (fun _ => s "no folder") ex_lines ex_yaml no_parser no_parser (fun _ _ => s "bad") exact_num topo_sort str ex_hash
    (fun _ => None) (fun _ => None) 2 t' (ex_root ++ [s "src"]) 0.
Proof.
  eexists. assert (RW : reads_written ok_disk ex_toml2 no_parser no_parser topo_sort (fun _ => None)).
  { unfold reads_written. repeat split; auto using topo_sort_ok; intros ? ? X; discriminate X. }
  assert (T : tree_ok ex_dir).
  { cbn [tree_ok ex_dir ex_new map fst]. repeat split; auto; repeat constructor; cbn [In]; intuition discriminate. }
  assert (N : nothing_there ex_dir ex_root).
  { intros r c F K. change (file_at (NDir [(s "notes.txt", NFile (s "# REQ-a"))]) r = Some c) in F. destruct r as [|x [|y r]].
    - discriminate F.
    - unfold file_at in F. cbn [lookup assoc] in F. destruct (str_eqb (s "notes.txt") x) eqn:X.
      + apply str_eqb_eq in X. subst x. exfalso. apply art_type_iff in K. now apply K.
      + discriminate F.
    - unfold file_at in F. cbn [lookup assoc] in F. destruct (str_eqb (s "notes.txt") x); discriminate F. }
  assert (I : init_run fine ex_dir ex_root = (0, snd (init_run fine ex_dir ex_root))) by (vm_compute; reflexivity).
  assert (W : within ex_root (ex_root ++ [s "src"])) by (exists [s "src"]; reflexivity).
  assert (Nr : forall r, within ex_root r -> within r (ex_root ++ [s "src"]) -> r <> ex_root -> lookup ex_dir (r ++ [s ".art"]) = None).
  { intros r (q & ->) (q' & Eq) Ne. rewrite <- app_assoc in Eq. apply app_inv_head in Eq. destruct q as [|x [|y q]].
    - now rewrite app_nil_r in Ne.
    - injection Eq as <- _. vm_compute. reflexivity.
    - discriminate Eq. }
  split; [exact RW|]. split; [exact T|]. split; [exact N|]. split; [exact I|]. split; [reflexivity|]. split; [exact Nr|].
  refine (proj2 (C73_check_passes ok_disk ex_path ex_toml2 _ ex_lines ex_yaml no_parser no_parser _ exact_num topo_sort str ex_hash _ _ fine ex_dir ex_root _ 2 _ RW T N I _ _ W Nr 0) eq_refl); [lia|reflexivity].
Qed.
