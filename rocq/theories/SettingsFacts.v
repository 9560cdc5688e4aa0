(** Facts on the settings, and on files found twice. *)
From Coq Require Import Lia Permutation Sorted.
From Verif Require Import Base BaseFacts Regex Name SpecName NameFacts RawNames Artifact Stored SpecGraph SpecLinks LinkFacts
  Markdown SpecMarkdown Lint SpecLint LintFacts LintThms Source SpecJoin Pool PoolFacts Load LoadFacts SpecLoad CheckFacts DeterFacts ReadThms
  Disk DiskFacts Walk SpecWalk WalkFacts ResolveFacts Settings SpecSettings.

Lemma path_leb_total p : forall q, path_leb p q = true \/ path_leb q p = true.
Proof.
  induction p as [|x p IH]; intros [|y q]; cbn [path_leb]; auto. destruct (str_eqb x y) eqn:E.
  - apply str_eqb_spec' in E as ->. rewrite (proj2 (str_eqb_spec' y y) eq_refl). apply IH.
  - assert (E' : str_eqb y x = false) by (apply eqb_neq; intros ->; apply eqb_neq in E; now apply E). rewrite E'. apply str_leb_total.
Qed.
Lemma path_leb_antisym p : forall q, path_leb p q = true -> path_leb q p = true -> p = q.
Proof.
  induction p as [|x p IH]; intros [|y q]; cbn [path_leb]; try discriminate; auto. destruct (str_eqb x y) eqn:E.
  - apply str_eqb_spec' in E as ->. rewrite (proj2 (str_eqb_spec' y y) eq_refl). intros A B. f_equal. now apply IH.
  - assert (E' : str_eqb y x = false) by (apply eqb_neq; intros ->; apply eqb_neq in E; now apply E). rewrite E'. intros A B. exfalso. apply eqb_neq in E. apply E. now apply str_leb_antisym.
Qed.
Lemma path_leb_trans p : forall q r, path_leb p q = true -> path_leb q r = true -> path_leb p r = true.
Proof.
  induction p as [|x p IH]; intros [|y q] [|z r]; cbn [path_leb]; try discriminate; auto.
  destruct (str_eqb x y) eqn:E1.
  - apply str_eqb_spec' in E1 as ->. destruct (str_eqb y z) eqn:E2; auto. apply IH.
  - intros A. destruct (str_eqb y z) eqn:E2.
    + apply str_eqb_spec' in E2 as ->. rewrite E1. auto.
    + intros B. destruct (str_eqb x z) eqn:E3.
      * exfalso. apply str_eqb_spec' in E3 as ->. apply eqb_neq in E1. apply E1. now apply str_leb_antisym.
      * eapply str_leb_trans; eauto.
Qed.
Lemma path_sort_same l l' : NoDup l -> NoDup l' -> (forall q, In q l <-> In q l') -> isort path_leb l = isort path_leb l'.
Proof.
  intros N N' E. apply isort_canonical; [apply path_leb_total|intros a b c; apply path_leb_trans| |now apply NoDup_Permutation].
  intros a b _ _ A B. now apply path_leb_antisym.
Qed.

Lemma resolve_never_err root x : resolve_path root x <> Err.
Proof. unfold resolve_path. destruct (concat_path _ _); discriminate. Qed.
Lemma map_resolve root l : match res_map (resolve_path root) l with
  | Ok ps => forall q, In q ps <-> exists x, In x l /\ resolve_path root x = Ok q
  | Panic => exists x, In x l /\ resolve_path root x = Panic
  | Err => False
  end /\ (res_map (resolve_path root) l <> Panic -> forall x, In x l -> resolve_path root x <> Panic).
Proof.
  induction l as [|x l IH]; cbn [res_map].
  - split; [intros q; split; [intros []|intros (x & [] & _)]|intros _ x []].
  - pose proof (resolve_never_err root x) as N. destruct (resolve_path root x) as [q0| |] eqn:E; cbn [res_bind]; [|contradiction|].
    + destruct (res_map (resolve_path root) l) as [ps| |]; cbn [res_bind].
      * destruct IH as [IH1 IH2]. split.
        -- intros q. cbn [In]. rewrite IH1. split; [intros [<-|(y & Hy & Ey)]; eauto|]. intros (y & [<-|Hy] & Ey); [left; congruence|eauto].
        -- intros _ y [<-|Hy]; [congruence|]. apply IH2; [discriminate|auto].
      * destruct IH as [[] _].
      * destruct IH as [(y & Hy & Ey) _]. split; [exists y; split; [now right|exact Ey]|]. intros X; exfalso; now apply X.
    + split; [exists x; split; [now left|exact E]|]. intros X; exfalso; now apply X.
Qed.
Lemma collect_set (l : list path) : NoDup (is_collect path_eqb l) /\ forall q, In q (is_collect path_eqb l) <-> In q l.
Proof.
  assert (K : forall a b, path_eqb a b = true <-> (fun z : path => z) a = (fun z : path => z) b) by (intros; apply path_eqb_iff).
  split.
  - pose proof (is_collect_nodup path_eqb (fun z => z) K l) as X. now rewrite map_id in X.
  - intros q. pose proof (is_collect_in path_eqb (fun z => z) K l q) as X. now rewrite !map_id in X.
Qed.
Lemma resolve_paths_spec root l : match resolve_paths root l with
  | Ok ps => NoDup ps /\ (forall q, In q ps <-> exists x, In x l /\ resolve_path root x = Ok q) /\ (forall x, In x l -> resolve_path root x <> Panic)
  | Panic => exists x, In x l /\ resolve_path root x = Panic
  | Err => False
  end.
Proof.
  unfold resolve_paths. destruct (map_resolve root l) as [A B]. destruct (res_map (resolve_path root) l) as [ps| |]; cbn [res_bind]; auto.
  destruct (collect_set ps) as [C D]. split; auto. split; [|apply B; discriminate]. intros q. now rewrite D, A.
Qed.

Lemma places_same root l l' : same_places root l l' -> match resolve_paths root l, resolve_paths root l' with
  | Ok a, Ok b => isort path_leb a = isort path_leb b
  | Panic, Panic => True
  | _, _ => False
  end.
Proof.
  intros S. pose proof (resolve_paths_spec root l) as A. pose proof (resolve_paths_spec root l') as B.
  destruct (resolve_paths root l) as [a| |], (resolve_paths root l') as [b| |]; auto.
  - destruct A as (N & A & _), B as (N' & B & _). apply path_sort_same; auto. intros q. rewrite A, B. apply S.
  - destruct A as (_ & _ & A), (proj2 (S Panic) B) as (x & Hx & Ex). now apply (A x Hx).
  - destruct B as (_ & _ & B), (proj1 (S Panic) A) as (x & Hx & Ex). now apply (B x Hx).
Qed.

Lemma resolved root l ps : resolve_paths root l = Ok ps -> forall q, In q (isort path_leb ps) <-> exists x, In x l /\ resolve_path root x = Ok q.
Proof. intros E q. pose proof (resolve_paths_spec root l) as A. rewrite E in A. rewrite isort_in. apply A. Qed.
Lemma resolved_nodup root l ps : resolve_paths root l = Ok ps -> NoDup (isort path_leb ps).
Proof. intros E. pose proof (resolve_paths_spec root l) as A. rewrite E in A. eapply Permutation_NoDup; [apply isort_perm|]. apply A. Qed.

Section Load.
  Variable E : disk_errs.
  Variable path_str : path -> str.
  Variable not_dir : path -> str.

  Lemma settings_same toml toml' t root :
    (forall text, file_at t (settings_file root) = Some text ->
       match toml text, toml' text with inl a, inl b => same_settings root a b | inr m, inr m' => m = m' | _, _ => False end) ->
    match load_settings E path_str toml not_dir t root, load_settings E path_str toml' not_dir t root with
    | Ok (inl (st, a)), Ok (inl (st', b)) => st = st' /\ rs_url a = rs_url b /\ rs_prefix a = rs_prefix b
    | Ok (inr l), Ok (inr l') => l = l'
    | Panic, Panic => True
    | _, _ => False
    end.
  Proof.
    intros S. unfold load_settings, load_raw. destruct (is_dir (lookup t root)); [|reflexivity]. destruct (file_at t (settings_file root)) as [text|]; [|reflexivity].
    specialize (S text eq_refl). destruct (e_read E (settings_file root)); [reflexivity|].
    destruct (toml text) as [a|m], (toml' text) as [b|m']; try contradiction; [|now subst].
    destruct S as (S1 & S2 & S3 & S4 & S5 & S6). apply places_same in S1, S2, S3, S4.
    destruct (resolve_paths root (rs_code a)), (resolve_paths root (rs_code b)); cbn [res_bind]; try contradiction; auto.
    destruct (resolve_paths root (rs_xcode a)), (resolve_paths root (rs_xcode b)); cbn [res_bind]; try contradiction; auto.
    destruct (resolve_paths root (rs_arts a)), (resolve_paths root (rs_arts b)); cbn [res_bind]; try contradiction; auto.
    destruct (resolve_paths root (rs_xarts a)), (resolve_paths root (rs_xarts b)); cbn [res_bind]; try contradiction; auto.
    split; [|auto]. congruence.
  Qed.

  Lemma settings_inv toml t root st raw : load_settings E path_str toml not_dir t root = Ok (inl (st, raw)) ->
    is_dir (lookup t root) = true /\ (exists text, file_at t (settings_file root) = Some text /\ toml text = inl raw) /\ e_read E (settings_file root) = None /\
    (forall q, In q (se_arts st) <-> exists x, In x (rs_arts raw) /\ resolve_path root x = Ok q) /\
    (forall q, In q (se_xarts st) <-> exists x, In x (rs_xarts raw) /\ resolve_path root x = Ok q) /\
    (forall q, In q (se_code st) <-> exists x, In x (rs_code raw) /\ resolve_path root x = Ok q) /\
    (forall q, In q (se_xcode st) <-> exists x, In x (rs_xcode raw) /\ resolve_path root x = Ok q) /\
    NoDup (se_arts st) /\ NoDup (se_code st).
  Proof.
    unfold load_settings, load_raw. destruct (is_dir (lookup t root)); [|discriminate]. destruct (file_at t (settings_file root)) as [text|]; [|discriminate].
    destruct (e_read E (settings_file root)); [discriminate|]. destruct (toml text) as [a|m] eqn:Ea; [|discriminate].
    destruct (resolve_paths root (rs_code a)) as [l1| |] eqn:E1; cbn [res_bind]; try discriminate.
    destruct (resolve_paths root (rs_xcode a)) as [l2| |] eqn:E2; cbn [res_bind]; try discriminate.
    destruct (resolve_paths root (rs_arts a)) as [l3| |] eqn:E3; cbn [res_bind]; try discriminate.
    destruct (resolve_paths root (rs_xarts a)) as [l4| |] eqn:E4; cbn [res_bind]; try discriminate.
    intros X. injection X as <- <-. cbn [se_arts se_xarts se_code se_xcode].
    split; auto. split; [eauto|]. split; auto. split; [now apply resolved|]. split; [now apply resolved|]. split; [now apply resolved|]. split; [now apply resolved|].
    split; eapply resolved_nodup; eauto.
  Qed.
End Load.

(** ** Names or references given twice *)
Section Twice.
  Variable path_str : path -> str.
  Variable yaml : str -> option (option str * option names_val).
  Variables parse_toml parse_json : str -> res (list (name * art_raw)).
  Variable parse_msg : path -> str -> str.
  Variable prefix : str.
  Hypothesis toml_ok : parser_ok parse_toml.
  Hypothesis json_ok : parser_ok parse_json.
  Variable M : num.
  Variable topo : graph -> option (list nat).
  Hypothesis TC : topo_ok topo.
  Variable H : Type.
  Variable hash_im : art_im -> H.
  Variable settings_path : path.
  Variable url_error : option str.
  Notation load_file := (load_file path_str yaml parse_toml parse_json parse_msg prefix).
  Notation loads := (loads path_str yaml parse_toml parse_json parse_msg prefix M topo H hash_im settings_path url_error).

  Lemma clash_status n afs cfs r : walk_lints_ok afs -> walk_lints_ok cfs -> loads n afs cfs r ->
    killers load_file afs < n -> ~ distinct (file_arts load_file afs) -> exit_status r = 1.
  Proof.
    intros Wa Wc L K N. destruct (check_exact path_str yaml parse_toml parse_json parse_msg prefix toml_ok json_ok M topo TC H hash_im settings_path url_error n afs cfs r Wa Wc L)
      as (arts & refs & la & lc & out & Ra & Rc & B & _ & _ & S1 & _).
    apply S1. left. intros (_ & _ & D & _). apply N. pose proof (arts_run path_str yaml parse_toml parse_json parse_msg prefix n afs arts la K Ra) as P.
    unfold distinct in *. eapply Permutation_NoDup; [|exact D]. now apply Permutation_map.
  Qed.
  Lemma repeat_status n afs cfs r : walk_lints_ok afs -> walk_lints_ok cfs -> loads n afs cfs r ->
    killers (load_locations path_str) cfs < 4 -> (exists i j, repeated (file_refs path_str cfs) i j) -> exit_status r = 1.
  Proof.
    intros Wa Wc L K (i & j & N). destruct (check_exact path_str yaml parse_toml parse_json parse_msg prefix toml_ok json_ok M topo TC H hash_im settings_path url_error n afs cfs r Wa Wc L)
      as (arts & refs & la & lc & out & Ra & Rc & B & _ & _ & S1 & _).
    apply S1. left. intros (_ & _ & _ & D). pose proof (refs_run path_str cfs refs lc K Rc) as P.
    pose proof (run_refs_wf path_str 4 cfs refs lc Rc) as Wr. exact (perm_repeated refs _ Wr P D i j N).
  Qed.
End Twice.

(** A file found from two roots is in the list twice. *)
Lemma two_of {A} (l : list A) p q : In p l -> In q l -> p <> q -> exists l1 x l2 y l3, l = l1 ++ x :: l2 ++ y :: l3 /\ (x = p /\ y = q \/ x = q /\ y = p).
Proof.
  intros Hp Hq N. apply in_split in Hp as (a & b & ->). apply in_app_or in Hq as [Hq|[Hq|Hq]]; [|congruence|].
  - apply in_split in Hq as (c & d & ->). exists c, q, d, p, b. rewrite <- app_assoc. auto.
  - apply in_split in Hq as (c & d & ->). exists a, p, c, q, d. auto.
Qed.
Lemma flat_two {A B} (g : A -> list B) l p q b : In p l -> In q l -> p <> q -> In b (g p) -> In b (g q) ->
  exists l1 l2 l3, flat_map g l = l1 ++ b :: l2 ++ b :: l3.
Proof.
  intros Hp Hq N Bp Bq. destruct (two_of l p q Hp Hq N) as (l1 & x & l2 & y & l3 & -> & X).
  assert (Bx : In b (g x)) by (destruct X as [[-> ->]|[-> ->]]; auto). assert (By : In b (g y)) by (destruct X as [[-> ->]|[-> ->]]; auto). clear X.
  apply in_split in Bx as (a1 & a2 & Ex). apply in_split in By as (b1 & b2 & Ey).
  exists (flat_map g l1 ++ a1), (a2 ++ flat_map g l2 ++ b1), (b2 ++ flat_map g l3).
  rewrite flat_map_app. cbn [flat_map]. rewrite flat_map_app. cbn [flat_map]. rewrite Ex, Ey. repeat first [rewrite <- app_assoc | progress cbn [app]]. reflexivity.
Qed.

Lemma walk_none stat open filter : (forall p, stat p = None) -> (forall p, open p = None) -> forall d root, snd (walk_node stat open filter root d) = None.
Proof.
  intros Sn On. fix IH 1. intros [c|es] root; cbn [walk_node]; rewrite Sn; [reflexivity|]. destruct (filter true root); [|reflexivity]. rewrite On.
  induction es as [|[x d] es IHe]; [reflexivity|]. specialize (IH d (root ++ [x])). destruct (walk_node stat open filter (root ++ [x]) d) as [f1 [m|]]; [discriminate IH|].
  match goal with |- snd (let (a, b) := ?g in _) = None => destruct g as [f2 e2] end. exact IHe.
Qed.
Lemma found_walk stat open nf t (filter : bool -> path -> bool) ex (P : path -> Prop) : tree_ok t ->
  (forall p, stat p = None) -> (forall p, open p = None) ->
  (forall p, filter true p = true <-> ~ In p ex) -> (forall p, filter false p = true <-> ~ In p ex /\ P p) ->
  forall root q, found_from t ex root q -> P q -> exists c, lookup t q = Some (NFile c) /\ In q (fst (walk_path stat open nf filter t root)).
Proof.
  intros T Sn On Fd Ff root q [R|[-> (c & L)]] HP.
  - destruct (lookup t root) as [[c|l]|] eqn:L.
    + exfalso. destruct R as (r & c' & -> & Nr & Lr & _). rewrite lookup_app, L in Lr. destruct r; [contradiction|discriminate Lr].
    + pose proof R as (r & c' & _ & _ & Lr & _). exists c'. split; auto.
      destruct (walk_path stat open nf filter t root) as [fs e] eqn:W. destruct (walk_path_exact stat open nf filter ex P Fd Ff t T root l L fs e W) as (_ & _ & C).
      apply C; auto. unfold walk_path in W. rewrite L in W. clear C. pose proof (walk_none stat open filter Sn On (NDir l) root) as X.
      rewrite W in X. exact X.
    + exfalso. destruct R as (r & c' & -> & Nr & Lr & _). rewrite lookup_app, L in Lr. discriminate Lr.
  - exists c. split; auto. rewrite (walk_path_file stat open nf filter t q c L). now left.
Qed.
