(** C81: what saving a form of the web client does.  C82: two edits of the same version. *)
From Coq Require Import ZArith Lia Permutation.
From Verif Require Import Base BaseFacts Regex Name SpecName NameFacts RawNames RawNamesFacts Family FamilyFacts Artifact Stored SpecGraph Topo SpecLinks BuildFacts LinkFacts ProjectFacts Numbers
  Markdown SpecMarkdown MarkdownFacts YamlExample Lint SpecLint LintFacts LintThms Source SpecJoin Pool PoolFacts Load LoadFacts SpecLoad CheckFacts ReadThms Disk DiskFacts Walk SpecWalk WalkFacts Modify SpecModify SpecReload OpFacts PureFacts OrderFacts
  PhaseFacts ResultFacts CodecExample ReloadFacts DiskRunFacts PropArtifacts PropCompleted PropMarkdown PropLint PropLoad PropModify PropDisk Web WebSave SpecSave PropEdit.
Open Scope nat_scope.

Lemma expect_all l r : res_map expect_name l = Ok r -> Forall name_wf r /\ (forall x, In x r -> In (n_raw x) l) /\ forall k, In k (map n_key r) <-> exists x n, In x l /\ name_from_str x = Ok n /\ n_key n = k.
Proof.
  revert r. induction l as [|x l IH]; cbn [res_map]; intros r E.
  - injection E as <-. split; [constructor|]. split; [intros x []|]. intros k. split; [intros []|intros (x & n & [] & _)].
  - unfold expect_name at 1 in E. destruct (name_from_str x) as [n| |] eqn:En; cbn [res_bind] in E; try discriminate E.
    destruct (res_map expect_name l) as [r'| |]; cbn [res_bind] in E; try discriminate E. injection E as <-. destruct (IH r' eq_refl) as (F & RI & K). destruct (from_str_wf _ _ En) as [Wn Rn].
    split; [constructor; auto|]. split; [intros y [<-|Hy]; [left; congruence|right; auto]|]. intros k. cbn [map In]. rewrite K. split.
    + intros [<-|(y & m & Hy & Em & Ek)]; [exists x, n; auto|exists y, m; auto].
    + intros (y & m & [<-|Hy] & Em & Ek); [left; congruence|right; eauto].
Qed.
Lemma collect_wf l : Forall name_wf l -> NoDup (map n_key (is_collect name_eqb l)) /\ Forall name_wf (is_collect name_eqb l) /\ (forall x, In x (is_collect name_eqb l) -> In x l) /\ forall k, In k (map n_key (is_collect name_eqb l)) <-> In k (map n_key l).
Proof.
  intros F. assert (Sub : forall x, In x (is_collect name_eqb l) -> In x l).
  { assert (G : forall (m acc : list name) (x : name), In x (fold_left (fun m k => is_insert name_eqb k m) m acc) -> In x acc \/ In x m).
    { induction m as [|y m IH]; cbn [fold_left In]; auto. intros acc x Hx. apply IH in Hx as [Hx|Hx]; auto. unfold is_insert in Hx. destruct (is_mem name_eqb y acc); auto. apply in_app_or in Hx as [Hx|[<-|[]]]; auto. }
    intros x Hx. apply (G l []) in Hx as [[]|Hx]; auto. }
  assert (F' : Forall name_wf (is_collect name_eqb l)) by (rewrite Forall_forall in *; auto).
  split; [|split; [|split]]; auto.
  - pose proof (is_collect_nodup name_eqb nk name_eqb_iff l) as N. revert N F'. generalize (is_collect name_eqb l) as m. induction m as [|x m IH]; cbn [map]; intros N F'; constructor; inversion N as [|? ? Nx N']; inversion F'; subst; auto.
    intros I. apply in_map_iff in I as (y & Ey & Hy). apply Nx. apply in_map_iff. exists y. split; auto. apply nk_key; auto. rewrite Forall_forall in *; auto.
  - intros k. split; intros I; apply in_map_iff in I as (x & <- & Hx); [now apply in_map, Sub|].
    assert (Y : In (nk x) (map nk (is_collect name_eqb l))) by (apply (is_collect_in name_eqb nk name_eqb_iff); now apply in_map).
    apply in_map_iff in Y as (y & Ey & Hy). apply in_map_iff. exists y. split; auto. rewrite Forall_forall in *. apply nk_key; auto.
Qed.
(** Saving sends what the form describes. *)
Lemma form_sends {H} (dec : str -> option path) (e : edit H) o b : edit_op e = Ok o -> receive dec o = Some b ->
  exists w, described dec e w /\ b = match e_orig e with Some i => OUpdate w i | None => OCreate w end.
Proof.
  unfold edit_op, edit_im. intros Eo Er. destruct (res_map expect_name (e_partof e)) as [ps| |] eqn:Ep; cbn [res_bind] in Eo; try discriminate Eo.
  unfold expect_name in Eo. destruct (name_from_str (e_name e)) as [n| |] eqn:En; cbn [res_bind] in Eo; try discriminate Eo. injection Eo as <-.
  destruct (expect_all _ _ Ep) as (F & RI & K). destruct (collect_wf ps F) as (N & F' & SI & K').
  destruct (from_str_wf _ _ En) as [Wn Rn].
  assert (D : forall f, dec (e_file e) = Some f -> described dec e (mkIm n f (is_collect name_eqb ps) (if is_nil (e_done e) then None else Some (e_done e)) (e_text e))).
  { intros f Ef. constructor; cbn [im_name im_file im_partof im_done im_text]; auto.
    - intros k. now rewrite K', K.
    - destruct (e_done e); reflexivity.
    - constructor; cbn [im_name im_partof]; auto. }
  destruct (e_orig e) as [i|]; cbn [receive] in Er; unfold receive_im in Er; cbn [si_file si_name si_partof si_done si_text] in Er;
    destruct (dec (e_file e)) as [f|]; try discriminate Er; injection Er as <-; eexists; (split; [apply D; reflexivity|reflexivity]).
Qed.

Section Theorems.
  Variables (path_str : path -> str) (yaml : str -> option (option str * option RawNames.names_val)) (parse_toml parse_json : str -> res (list (name * art_raw)))
    (parse_msg : path -> str -> str) (prefix : str) (M : num) (topo : graph -> option (list nat)) (H : Type) (heqb : H -> H -> bool) (hash_im : art_im -> H)
    (settings_path : path) (url_error : option str) (dec : str -> option path).
  Variables (debug_im : art_im -> str) (st : settings) (to_toml to_json : list (name * art_raw) -> str) (yaml_done : str -> str) (style : md_attrs).
  Hypothesis TO : parser_ok parse_toml.
  Hypothesis JO : parser_ok parse_json.
  Hypothesis TC : topo_ok topo.
  Hypothesis HE : forall a b, heqb a b = true <-> a = b.
  (** Ids do not collide. *)
  Hypothesis HI : forall a b, hash_im a = hash_im b -> a = b.
  Definition load_of E t n lines_of r := loads path_str yaml parse_toml parse_json parse_msg prefix M topo H hash_im settings_path url_error n (art_files E t path_str st) (code_files E t lines_of path_str st) r.
  Notation runs := (runs path_str M topo H heqb hash_im debug_im st to_toml to_json yaml_done style).

  Lemma no_twice (p : project M H) : loaded_ok hash_im p -> NoDup (map hash_im (stored_form p)).
  Proof.
    intros L. pose proof (lo_distinct _ _ L) as D. unfold distinct in D. apply NoDup_map_inv in D.
    apply FinFun.Injective_map_NoDup; [intros a b; apply HI|exact D].
  Qed.

  (** ** C81 A saved form becomes the artifact, and nothing else changes *)
  Theorem C81_edited : forall E t n lines_of c p m a e o b E1 E3 t' c1 p1,
    load_of E t n lines_of (Ok (inl (c, p))) -> In (m, a) (pr_arts p) ->
    e_orig e = Some (a_id a) -> edit_op e = Ok o -> receive dec o = Some b ->
    runs E1 E3 t (Ok (inl (c, p))) [b] (MDone M H t' (Ok (inl (c1, p1)))) ->
    exists w, described dec e w /\
      (forall x, In x (stored_form p1) <-> x = im_clean w \/ (In x (stored_form p) /\ x <> to_im a)) /\
      exists m' a', In (m', a') (pr_arts p1) /\ to_im a' = im_clean w /\ a_id a' = hash_im (im_clean w).
  Proof.
    intros E t n lo c p m a e o b E1 E3 t' c1 p1 Ld Ha Eo Op Rc Rn.
    destruct (form_sends dec e o b Op Rc) as (w & De & Eb). rewrite Eo in Eb. subst b.
    pose proof (C35_loaded _ _ _ _ _ _ _ _ _ _ _ _ TO JO TC _ _ _ _ _ _ _ Ld) as L. pose proof (no_twice p L) as Nh.
    assert (Ow : op_wf (OUpdate w (a_id a))) by exact (de_wf _ _ _ De).
    destruct (C35_map path_str M topo H heqb hash_im debug_im st to_toml to_json yaml_done style E1 E3 t c p _ t' c1 p1 TC HE L Nh (Forall_cons _ Ow (Forall_nil _)) Rn) as (_ & _ & X).
    cbn [map op_clean] in X. rewrite (lo_id _ _ L m a Ha) in *.
    assert (Ia : In (to_im a) (stored_form p)) by (unfold stored_form; apply in_map_iff; exists (m, a); auto).
    assert (Y : forall x, In x (stored_form p1) <-> x = im_clean w \/ (In x (stored_form p) /\ x <> to_im a)).
    { intros x. rewrite X. clear X. split.
      - intros [Nt [(l1 & o1 & l2 & El & So & _)|[Ns I]]].
        + destruct l1 as [|z l1]; [|destruct l1; discriminate El]. injection El as <- <-. destruct So as [So|[i So]]; [discriminate So|]. injection So as <- _. now left.
        + right. split; auto. intros ->. destruct (heqb (hash_im (im_clean w)) (hash_im (to_im a))) eqn:Q.
          * apply HE in Q. apply Ns. exists (OUpdate (im_clean w) (hash_im (to_im a))), (im_clean w). split; [now left|]. split; auto. right; eauto.
          * apply Nt. exists (OUpdate (im_clean w) (hash_im (to_im a))). split; [now left|]. split; [left; eauto|]. intros [z Ez]. injection Ez as <- Ez. rewrite Ez, (proj2 (HE _ _) eq_refl) in Q. discriminate Q.
      - intros [->|[I Ne]].
        + split.
          * intros (o1 & [<-|[]] & [T NN]). destruct T as [[z Ez]|[z Ez]]; [|discriminate Ez]. injection Ez as <- Ez. apply NN. exists (im_clean w). now rewrite Ez.
          * left. exists [], (OUpdate (im_clean w) (hash_im (to_im a))), []. split; [reflexivity|]. split; [right; eauto|]. split; [reflexivity|]. intros o' z [].
        + split.
          * intros (o1 & [<-|[]] & [T NN]). destruct T as [[z Ez]|[z Ez]]; [|discriminate Ez]. injection Ez as _ Ez. apply Ne. symmetry. now apply HI.
          * destruct (heqb (hash_im (im_clean w)) (hash_im x)) eqn:Q.
            -- apply HE, HI in Q as <-. left. exists [], (OUpdate (im_clean w) (hash_im (to_im a))), []. split; [reflexivity|]. split; [right; eauto|]. split; [reflexivity|]. intros o' z [].
            -- right. split; auto. intros (o1 & z & [<-|[]] & So & Ez). destruct So as [So|[i So]]; [discriminate So|]. injection So as <- _. rewrite (proj2 (HE _ _) Ez) in Q. discriminate Q. }
    exists w. split; auto. split; auto.
    assert (I : In (im_clean w) (stored_form p1)) by (apply Y; now left). unfold stored_form in I. apply in_map_iff in I as ([m' a'] & Ea & Ha'). exists m', a'. split; auto. split; auto.
    apply done_project in Rn as (l & c' & q & Z & Ep & ->). injection Z as <-.
    destruct (sort_stored path_str M topo TC H heqb HE hash_im debug_im st c p _ c' q L (Forall_cons _ Ow (Forall_nil _)) Ep) as (_ & Ls & _).
    cbn [snd] in Ea. rewrite <- Ea. exact (lo_id _ _ Ls m' a' Ha').
  Qed.
  (** A new artifact. *)
  Theorem C81_created : forall E t n lines_of c p e o b E1 E3 t' c1 p1,
    load_of E t n lines_of (Ok (inl (c, p))) ->
    e_orig e = None -> edit_op e = Ok o -> receive dec o = Some b ->
    runs E1 E3 t (Ok (inl (c, p))) [b] (MDone M H t' (Ok (inl (c1, p1)))) ->
    exists w, described dec e w /\ ~ In (im_clean w) (stored_form p) /\
      (forall x, In x (stored_form p1) <-> x = im_clean w \/ In x (stored_form p)).
  Proof.
    intros E t n lo c p e o b E1 E3 t' c1 p1 Ld Eo Op Rc Rn.
    destruct (form_sends dec e o b Op Rc) as (w & De & Eb). rewrite Eo in Eb. subst b.
    pose proof (C35_loaded _ _ _ _ _ _ _ _ _ _ _ _ TO JO TC _ _ _ _ _ _ _ Ld) as L. pose proof (no_twice p L) as Nh.
    assert (Ow : op_wf (@OCreate H w)) by exact (de_wf _ _ _ De).
    assert (Ni : ~ In (im_clean w) (stored_form p)).
    { intros I. destruct (C36_refused path_str M topo H heqb hash_im debug_im st to_toml to_json yaml_done style E1 E3 t c p [OCreate w] (OCreate (im_clean w)) HE (or_introl eq_refl)) as (k & l & _ & X).
      - apply C36_kinds. now apply in_map.
      - apply X in Rn. discriminate Rn. }
    assert (NN : forall o', In o' (map (op_clean H) [OCreate w]) -> ~ noop hash_im o') by (intros o' [<-|[]] [z Ez]; discriminate Ez).
    pose proof (C35_new_artifacts path_str M topo H heqb hash_im debug_im st to_toml to_json yaml_done style E1 E3 t c p _ t' c1 p1 TC HE L Nh (Forall_cons _ Ow (Forall_nil _)) NN Rn) as X.
    exists w. split; auto. split; auto. intros x. rewrite X. cbn [map op_clean]. split.
    - intros [(o' & [<-|[]] & So)|[I _]]; auto. destruct So as [So|[i So]]; [|discriminate So]. injection So as ->. now left.
    - intros [->|I].
      + left. exists (OCreate (im_clean w)). split; [now left|]. now left.
      + right. split; auto. intros o' [<-|[]]. split; [intros [[z Ez]|[z Ez]]; discriminate Ez|]. intros z So Ez. destruct So as [So|[i So]]; [|discriminate So]. injection So as <-. apply HI in Ez. subst x. contradiction.
  Qed.

  (** ** C82 *)
  Definition reliable (E : disk_errs) : Prop := (forall q, e_stat E q = None) /\ (forall q, e_open E q = None) /\ forall q, e_read E q = None.
  (** A request that is answered with a project, under the conditions of C40. *)
  Definition saved (t : node) (ops : list (op H)) (t' : node) : Prop :=
    safe_disk st t /\ Forall op_wf ops /\
    (forall o a, In o ops -> stores o a -> plain_path (im_file a) /\ forall e, In e (se_xarts st) -> ~ below (im_file a) e) /\
    exists E n lo c p E1 E3 c1 p1, reliable E /\ 0 < n /\ load_of E t n lo (Ok (inl (c, p))) /\
      runs E1 E3 t (Ok (inl (c, p))) ops (MDone M H t' (Ok (inl (c1, p1)))) /\ md_survive prefix style (stored_form p1).
  (** A request that is refused, or dies, before anything is written. *)
  Definition refused (t : node) (ops : list (op H)) (t' : node) : Prop :=
    exists E n lo r E1 E3 y, load_of E t n lo r /\ runs E1 E3 t r ops (MDone M H t' y) /\
      match y with Ok (inl _) => False | Ok (inr (k, _)) => k <> KBackups /\ k <> KSave | _ => True end.
  (** Requests one after the other, each on the disk the last one left. *)
  Inductive history : node -> list (list (op H)) -> node -> Prop :=
  | h_none t : history t [] t
  | h_more t ops t1 l t' : saved t ops t1 \/ refused t ops t1 -> history t1 l t' -> history t (ops :: l) t'.
  (** No artifact on the disk has the id [i]. *)
  Definition absent (t : node) (i : H) : Prop :=
    forall E n lo c p, reliable E -> 0 < n -> load_of E t n lo (Ok (inl (c, p))) -> ~ In i (map hash_im (stored_form p)).

  Hypothesis YO : yaml_ok yaml yaml_done.
  Hypothesis CT : codec_ok to_toml parse_toml.
  Hypothesis CJ : codec_ok to_json parse_json.
  Hypothesis RA : roots_apart (se_arts st).

  Lemma saved_absent t ops t1 i : saved t ops t1 -> taken hash_im (map (op_clean H) ops) i \/ (absent t i /\ ~ stored hash_im (map (op_clean H) ops) i) -> absent t1 i.
  Proof.
    intros (Sd & W & Wp & E & n & lo & c & p & E1 & E3 & c1 & p1 & Re & N0 & Ld & Rn & Md) C E' n' lo' c2 p2 (Es & Eo & Er) N' Ld2 I.
    pose proof (C35_loaded _ _ _ _ _ _ _ _ _ _ _ _ TO JO TC _ _ _ _ _ _ _ Ld) as L. pose proof (no_twice p L) as Nh.
    destruct (C40_reload path_str M topo H heqb hash_im debug_im st to_toml to_json yaml_done style E1 E3 yaml parse_toml parse_json parse_msg prefix settings_path url_error E n lo t c p ops t1 c1 p1 E'
      TC HE TO JO YO CT CJ Sd RA Ld W Wp Rn Md Es Eo Er) as [_ P].
    specialize (P n' lo' c2 p2 N' Ld2). apply (Permutation_in _ (Permutation_map hash_im P)) in I. apply in_map_iff in I as (x & Ex & Hx).
    destruct (C35_map path_str M topo H heqb hash_im debug_im st to_toml to_json yaml_done style E1 E3 t c p ops t1 c1 p1 TC HE L Nh W Rn) as (_ & _ & X).
    apply X in Hx as [Nt Hx]. rewrite Ex in *. destruct C as [C|[Ab Ns]]; [contradiction|]. destruct Hx as [(l1 & o & l2 & El & So & Eh & _)|[_ Hx]].
    - apply Ns. exists o, x. split; [rewrite El; apply in_or_app; right; now left|auto].
    - apply (Ab E n lo c p Re N0 Ld). apply in_map_iff. eauto.
  Qed.
  Lemma refused_same t ops t1 : refused t ops t1 -> t1 = t.
  Proof.
    intros (E & n & lo & r & E1 & E3 & y & _ & Rn & Hy). pose proof (C38_disk_untouched _ _ _ _ _ _ _ _ _ _ _ _ _ _ _ _ _ _ _ Rn) as X.
    destruct y as [[y|[k y]]| |]; [destruct Hy| |exact X|exact X]. destruct X as [X|[X|X]]; auto; now destruct Hy.
  Qed.
  Lemma history_absent t l t' i : history t l t' -> absent t i -> ~ brings hash_im l i -> absent t' i.
  Proof.
    induction 1 as [t|t ops t1 l t' S Hh IH]; auto. intros Ab Nb.
    assert (N1 : ~ stored hash_im (map (op_clean H) ops) i) by (intros X; apply Nb; exists ops; split; [now left|auto]).
    assert (N2 : ~ brings hash_im l i) by (intros (o & Ho & X); apply Nb; exists o; split; [now right|auto]).
    destruct S as [S|S]; [apply IH; auto; eapply saved_absent; eauto|]. apply refused_same in S as ->. auto.
  Qed.

  (** Once an artifact has been edited or deleted, a request made for the version before is refused
      and leaves the disk alone, whatever happened in between, unless that version was restored. *)
  Theorem C82_stale : forall t ops t1 i l t2 E n lo r ops2 E1 E3 t3 y,
    saved t ops t1 -> taken hash_im (map (op_clean H) ops) i -> history t1 l t2 -> ~ brings hash_im l i ->
    reliable E -> 0 < n -> load_of E t2 n lo r -> taken hash_im (map (op_clean H) ops2) i ->
    runs E1 E3 t2 r ops2 (MDone M H t3 y) -> t3 = t2 /\ forall x, y <> Ok (inl x).
  Proof.
    intros t ops t1 i l t2 E n lo r ops2 E1 E3 t3 y Sv Tk Hh Nb Re N0 Ld (o & Ho & To) Rn.
    pose proof (history_absent _ _ _ _ Hh (saved_absent _ _ _ _ Sv (or_introl Tk)) Nb) as Ab.
    destruct r as [[[c p]|c]| |].
    - destruct (C36_refused path_str M topo H heqb hash_im debug_im st to_toml to_json yaml_done style E1 E3 t2 c p ops2 o HE Ho) as (k & z & _ & X).
      + intros (_ & C & _). exact (Ab E n lo c p Re N0 Ld (C i To)).
      + apply X in Rn. injection Rn as -> ->. split; auto. discriminate.
    - destruct Rn as (x0 & B & S0). unfold begins in B. cbn [res_bind modify_pure] in B. destruct (is_nil (ls_error c)); subst x0;
        apply (after_done path_str M H st to_toml to_json yaml_done style E3) in S0; injection S0 as -> ->; split; auto; discriminate.
    - destruct Rn as (x0 & B & S0). unfold begins in B. cbn [res_bind] in B. subst x0. apply (after_done path_str M H st to_toml to_json yaml_done style E3) in S0. injection S0 as -> ->. split; auto. discriminate.
    - destruct Rn as (x0 & B & S0). unfold begins in B. cbn [res_bind] in B. subst x0. apply (after_done path_str M H st to_toml to_json yaml_done style E3) in S0. injection S0 as -> ->. split; auto. discriminate.
  Qed.
  (** Reading the project again gives the edited artifact, too. *)
  Theorem C81_kept : forall E t n lines_of c p m a e o b E1 E3 t' c1 p1 E' n' lines_of' c2 p2,
    load_of E t n lines_of (Ok (inl (c, p))) -> In (m, a) (pr_arts p) ->
    e_orig e = Some (a_id a) -> edit_op e = Ok o -> receive dec o = Some b ->
    safe_disk st t -> (forall f, dec (e_file e) = Some f -> plain_path f /\ forall x, In x (se_xarts st) -> ~ below f x) ->
    runs E1 E3 t (Ok (inl (c, p))) [b] (MDone M H t' (Ok (inl (c1, p1)))) -> md_survive prefix style (stored_form p1) ->
    reliable E' -> 0 < n' -> load_of E' t' n' lines_of' (Ok (inl (c2, p2))) ->
    exists w, described dec e w /\
      (forall x, In x (stored_form p2) <-> x = im_clean w \/ (In x (stored_form p) /\ x <> to_im a)).
  Proof.
    intros E t n lo c p m a e o b E1 E3 t' c1 p1 E' n' lo' c2 p2 Ld Ha Eo Op Rc Sd Fp Rn Md (Es & Eop & Er) N0 Ld2.
    destruct (C81_edited E t n lo c p m a e o b E1 E3 t' c1 p1 Ld Ha Eo Op Rc Rn) as (w & De & X & _). exists w. split; auto. intros x. rewrite <- X.
    destruct (form_sends dec e o b Op Rc) as (w' & D' & Eb). rewrite Eo in Eb. subst b.
    assert (Wp : forall o' z, In o' [OUpdate w' (a_id a)] -> stores o' z -> plain_path (im_file z) /\ forall x, In x (se_xarts st) -> ~ below (im_file z) x).
    { intros o' z [<-|[]] So. destruct So as [So|[i So]]; [discriminate So|]. injection So as <- _. apply Fp, (de_file _ _ _ D'). }
    destruct (C40_reload path_str M topo H heqb hash_im debug_im st to_toml to_json yaml_done style E1 E3 yaml parse_toml parse_json parse_msg prefix settings_path url_error E n lo t c p _ t' c1 p1 E'
      TC HE TO JO YO CT CJ Sd RA Ld (Forall_cons _ (de_wf _ _ _ D' : op_wf (OUpdate w' (a_id a))) (Forall_nil _)) Wp Rn Md Es Eop Er) as [_ P].
    specialize (P n' lo' c2 p2 N0 Ld2). split; apply Permutation_in; [exact P|now apply Permutation_sym].
  Qed.
  (** So of two edits of the same version of an artifact only the first is saved. *)
  Theorem C82_edits : forall t E0 n0 lo0 c p m a e1 o1 b1 t1 l t2 E n lo r e2 o2 b2 E1 E3 t3 y,
    load_of E0 t n0 lo0 (Ok (inl (c, p))) -> In (m, a) (pr_arts p) ->
    (* both forms were opened on this version *)
    e_orig e1 = Some (a_id a) -> e_orig e2 = Some (a_id a) ->
    edit_op e1 = Ok o1 -> receive dec o1 = Some b1 -> edit_op e2 = Ok o2 -> receive dec o2 = Some b2 ->
    (* and changed *)
    (forall w, described dec e1 w -> im_clean w <> to_im a) -> (forall w, described dec e2 w -> im_clean w <> to_im a) ->
    saved t [b1] t1 -> history t1 l t2 -> ~ brings hash_im l (a_id a) ->
    reliable E -> 0 < n -> load_of E t2 n lo r -> runs E1 E3 t2 r [b2] (MDone M H t3 y) ->
    t3 = t2 /\ forall x, y <> Ok (inl x).
  Proof.
    intros t E0 n0 lo0 c p m a e1 o1 b1 t1 l t2 E n lo r e2 o2 b2 E1 E3 t3 y Ld0 Ha Eo1 Eo2 Op1 Rc1 Op2 Rc2 N1 N2 Sv Hh Nb Re N0 Ld Rn.
    pose proof (C35_loaded _ _ _ _ _ _ _ _ _ _ _ _ TO JO TC _ _ _ _ _ _ _ Ld0) as L. pose proof (lo_id _ _ L m a Ha) as Id. rewrite Id in *.
    assert (Tk : forall e o b, e_orig e = Some (hash_im (to_im a)) -> edit_op e = Ok o -> receive dec o = Some b -> (forall w, described dec e w -> im_clean w <> to_im a) ->
      taken hash_im (map (op_clean H) [b]) (hash_im (to_im a))).
    { intros e o b Eo Op Rc Ne. destruct (form_sends dec e o b Op Rc) as (w' & D' & Eb). rewrite Eo in Eb. subst b.
      exists (OUpdate (im_clean w') (hash_im (to_im a))). split; [now left|]. split; [left; eauto|]. intros [z Ez]. injection Ez as <- Ez. apply HI in Ez. exact (Ne w' D' (eq_sym Ez)). }
    eapply C82_stale with (ops := [b1]) (ops2 := [b2]); eauto.
  Qed.
End Theorems.
Print Assumptions C81_edited.
Print Assumptions C81_created.
Print Assumptions C81_kept.
Print Assumptions C82_stale.
Print Assumptions C82_edits.

(** The example disk with whole artifacts as ids, which do not collide. *)
Definition art_dec : forall a b : art_im, {a = b} + {a <> b}.
Proof. repeat decide equality. Defined.
Definition art_eqb (a b : art_im) : bool := if art_dec a b then true else false.
Lemma art_eqb_iff a b : art_eqb a b = true <-> a = b.
Proof. unfold art_eqb. destruct (art_dec a b); split; congruence. Qed.
Definition i_load t : res (lints * project exact_num art_im + lints) :=
  seq_load ex_path ex_yaml ex_parse ex_parse (fun _ _ => s "bad") [] exact_num topo_sort art_im (fun a => a) [s "settings.toml"] None 2 (art_files no_errs t ex_path m_st) [].
Definition i_mod t ops := seq_modify ex_path exact_num topo_sort art_im art_eqb (fun a => a) (fun _ => s "art") m_st ex_store ex_store ex_yaml_done Hashes no_errs no_errs t (i_load t) ops.
Definition i_out (x : node * result exact_num art_im) : option mkind * list art_im :=
  match snd x with Ok (inl (_, p)) => (None, stored_form p) | Ok (inr (k, _)) => (Some k, []) | _ => (None, []) end.
Definition i_form (a : art_im) : edit art_im := mkEdit (Some a) (n_raw (im_name a)) (w_wire (im_file a)) (map n_raw (im_partof a)) [] (im_text a).
Definition i_ops (e : edit art_im) : list (op art_im) := match edit_op e with Ok o => match receive w_back o with Some b => [b] | None => [] end | _ => [] end.
Definition typed_in (e : edit art_im) (l : list field) : edit art_im := fold_left (fun e f => match set_field e f with Ok e' => e' | _ => e end) l e.
(** Two people open the same artifact: one renames it and changes links and text, the other marks it
    as done. *)
Definition first_edit := typed_in (i_form spc_b) [FName (s "spc-C"); FPartAdd; FPartSet 1 (s "SPC-a"); FPartAdd; FPartSet 2 (s "req-A"); FText (s "low" ++ [10%N] ++ s "new ")].
Definition second_edit := typed_in (i_form spc_b) [FDone (s "by hand")].
Definition first_art := mkIm (nm (s "spc-C")) [s "p"; s "d"; s "b.md"] (map nm [s "REQ-a"; s "SPC-a"]) None (s "low" ++ [10%N] ++ s "new ").
Definition second_art := mkIm (nm (s "SPC-a-b")) [s "p"; s "d"; s "b.md"] (map nm [s "REQ-a"]) (Some (s "by hand")) (s "low").
Definition i_arts t := match i_load t with Ok (inl (_, p)) => pr_arts p | _ => [] end.
Example C81_example :
  (exists m a, In (m, a) (i_arts m_tree) /\ a_id a = spc_b /\ e_orig first_edit = Some (a_id a)) /\
  i_ops first_edit = [OUpdate first_art spc_b] /\ e_partof first_edit = [s "REQ-a"; s "SPC-a"; s "req-A"] /\
  i_out (i_mod m_tree (i_ops first_edit)) = (None, [req_a; spc_a; im_clean first_art]) /\
  map (fun e => to_im (snd e)) (i_arts (fst (i_mod m_tree (i_ops first_edit)))) = [req_a; spc_a; im_clean first_art].
Proof.
  split; [|vm_compute; auto]. destruct (i_arts m_tree) as [|x [|y [|[m a] l]]] eqn:E; try (vm_compute in E; discriminate E).
  exists m, a. split; [right; right; now left|].
  assert (X : match nth_error (i_arts m_tree) 2 with Some (_, b) => a_id b | None => req_a end = spc_b) by (vm_compute; reflexivity).
  rewrite E in X. cbn [nth_error] in X. rewrite X. split; reflexivity.
Qed.
(** The second is refused, also after another request; and accepted when the first is undone. *)
Definition i_t1 := fst (i_mod m_tree (i_ops first_edit)).
Definition i_t2 := fst (i_mod i_t1 [OCreate spc_n]).
Definition i_t3 := fst (i_mod i_t2 [OUpdate spc_b (im_clean first_art)]).
Example C82_example :
  i_ops second_edit = [OUpdate second_art spc_b] /\
  i_out (i_mod i_t1 (i_ops second_edit)) = (Some KHash, []) /\
  i_out (i_mod i_t2 (i_ops second_edit)) = (Some KHash, []) /\ snd (i_out (i_mod i_t1 [OCreate spc_n])) <> [] /\
  i_out (i_mod i_t3 (i_ops second_edit)) = (None, [req_a; spc_a; second_art; spc_n]).
Proof. vm_compute. repeat split; discriminate. Qed.
Definition i_load_of := load_of ex_path ex_yaml ex_parse ex_parse (fun _ _ => s "bad") [] exact_num topo_sort art_im (fun a => a) [s "settings.toml"] None m_st.
Lemma no_code t lo : code_files no_errs t lo ex_path m_st = [].
Proof. reflexivity. Qed.
Lemma i_loads t : i_load_of no_errs t 2 (fun _ => ([], None)) (i_load t).
Proof. unfold i_load_of, load_of. rewrite no_code. unfold i_load. apply seq_loads. Qed.
Lemma i_runs t ops : runs ex_path exact_num topo_sort art_im art_eqb (fun a => a) (fun _ => s "art") m_st ex_store ex_store ex_yaml_done Hashes no_errs no_errs t (i_load t) ops
  (MDone exact_num art_im (fst (i_mod t ops)) (snd (i_mod t ops))).
Proof. apply seq_runs. Qed.
Definition ok_b {A B} (r : res (A + B)) : bool := match r with Ok (inl _) => true | _ => false end.
(** The conditions of C82 hold here. *)
Example C82_conditions : roots_apart (se_arts m_st) /\
  saved ex_path ex_yaml ex_parse ex_parse (fun _ _ => s "bad") [] exact_num topo_sort art_im art_eqb (fun a => a) [s "settings.toml"] None (fun _ => s "art") m_st ex_store ex_store ex_yaml_done Hashes
    m_tree (i_ops first_edit) i_t1 /\
  taken (fun a => a) (map (op_clean art_im) (i_ops first_edit)) spc_b /\ taken (fun a => a) (map (op_clean art_im) (i_ops second_edit)) spc_b /\
  ~ brings (fun a => a) [[OCreate spc_n]] spc_b.
Proof.
  assert (Ef : i_ops first_edit = [OUpdate first_art spc_b]) by (vm_compute; reflexivity).
  assert (Es : i_ops second_edit = [OUpdate second_art spc_b]) by (vm_compute; reflexivity).
  split; [|split; [|split; [|split]]].
  - split; [repeat constructor; intros []|]. intros r r' [<-|[]] [<-|[]]; auto.
  - rewrite Ef. split; [apply safe_b_ok; vm_compute; reflexivity|]. split; [|split].
    + constructor; [|constructor]. split; cbn [im_name im_partof first_art map].
      * apply names_ok. vm_compute. exact Logic.I.
      * repeat (constructor; [apply names_ok; vm_compute; exact Logic.I|]). constructor.
      * vm_compute. repeat constructor; cbn; intuition discriminate.
    + intros o a [<-|[]] So. destruct So as [So|[i So]]; [discriminate So|]. injection So as <- _. split; [repeat constructor|]. intros e [<-|[]] [x B]. discriminate B.
    + assert (Bl : ok_b (i_load m_tree) = true) by (vm_compute; reflexivity).
      destruct (i_load m_tree) as [[[c p]|c]| |] eqn:El; try discriminate Bl.
      assert (Bm : ok_b (snd (i_mod m_tree [OUpdate first_art spc_b])) = true) by (vm_compute; reflexivity).
      destruct (snd (i_mod m_tree [OUpdate first_art spc_b])) as [[[c1 p1]|c1]| |] eqn:Em; try discriminate Bm.
      exists no_errs, 2, (fun _ => ([], None)), c, p, no_errs, no_errs, c1, p1. split; [repeat split|]. split; [repeat constructor|]. split; [|split].
      * rewrite <- El. exact (i_loads m_tree).
      * rewrite <- Em, <- El. unfold i_t1. rewrite Ef. exact (i_runs m_tree _).
      * assert (Sp : stored_form p1 = [req_a; spc_a; im_clean first_art]).
        { assert (X : snd (i_out (i_mod m_tree [OUpdate first_art spc_b])) = [req_a; spc_a; im_clean first_art]) by (vm_compute; reflexivity). unfold i_out in X. rewrite Em in X. exact X. }
        rewrite Sp. apply md_survive_quiet; [exact m_prefix|discriminate|]. repeat (apply Forall_cons; [apply quiet_b; vm_compute; reflexivity|]). apply Forall_nil.
  - rewrite Ef. exists (OUpdate (im_clean first_art) spc_b). split; [left; reflexivity|]. split; [left; exists (im_clean first_art); reflexivity|]. intros [z Ez]. injection Ez as <- Ez. discriminate Ez.
  - rewrite Es. exists (OUpdate (im_clean second_art) spc_b). split; [left; reflexivity|]. split; [left; exists (im_clean second_art); reflexivity|]. intros [z Ez]. injection Ez as <- Ez. discriminate Ez.
  - intros (o & [<-|[]] & o' & z & [<-|[]] & So & Ez). destruct So as [So|[i So]]; [|discriminate So]. vm_compute in So. injection So as <-. vm_compute in Ez. discriminate Ez.
Qed.
