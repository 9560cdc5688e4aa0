(** C54: opening an artifact for editing and saving it unchanged. *)
From Coq Require Import ZArith Lia Permutation.
From Verif Require Import Base BaseFacts Regex Name SpecName NameFacts RawNames RawNamesFacts Family FamilyFacts Artifact Stored SpecGraph Topo SpecLinks BuildFacts LinkFacts ProjectFacts Numbers
  Markdown SpecMarkdown YamlExample Lint SpecLint LintFacts LintThms Source SpecJoin Pool PoolFacts Load LoadFacts SpecLoad CheckFacts ReadThms Disk DiskFacts Walk SpecWalk WalkFacts Modify SpecModify OpFacts PureFacts OrderFacts
  PhaseFacts ResultFacts CodecExample PropArtifacts PropCompleted PropMarkdown PropLint PropLoad PropModify Web WebSave.
Open Scope nat_scope.

(** The names served for a loaded project. *)
Lemma served_names path_str yaml parse_toml parse_json parse_msg prefix M topo H (hash_im : art_im -> H) settings_path url_error :
  parser_ok parse_toml -> parser_ok parse_json -> topo_ok topo ->
  forall E t st lines_of k c p,
  loads path_str yaml parse_toml parse_json parse_msg prefix M topo H hash_im settings_path url_error k (art_files E t path_str st) (code_files E t lines_of path_str st) (Ok (inl (c, p))) ->
  forall n a, In (n, a) (pr_arts p) -> name_wf (a_name a) /\ name_set (a_partof a).
Proof.
  intros TO JO TC E t st lo k c p Ld n a Hin. pose proof (C35_loaded _ _ _ _ _ _ _ _ _ _ _ _ TO JO TC _ _ _ _ _ _ _ Ld) as L. split.
  - pose proof (lo_wf _ _ L) as W. rewrite Forall_forall in W. assert (I : In (to_im a) (stored_form p)) by (unfold stored_form; apply in_map_iff; exists (n, a); auto).
    apply W in I. apply (iw_name _ I).
  - destruct Ld as (arts & refs & la & lc & arrived & R1 & R2 & P & Ef).
    pose proof (run_arts_wf path_str yaml parse_toml parse_json parse_msg prefix TO JO k _ arts la R1) as Wa.
    pose proof (run_refs_wf path_str 4 _ refs lc R2) as Wr.
    assert (AE : Forall (fun x => is_error x = true) arrived).
    { eapply Permutation_Forall; [apply Permutation_sym, P|]. apply Forall_app. split; [eapply ref_lints_error; eauto; apply found_walk_ok|]. apply Forall_app. split; [eapply art_lints_error; eauto; apply found_walk_ok|apply collect_error]. }
    destruct (finish_loaded M topo TC H hash_im path_str prefix settings_path url_error arrived arts refs la lc c p Wa Wr AE P (eq_sym Ef)) as ((_ & _ & D & _) & _ & _ & out & B & ->).
    cbn [project_sort pr_arts] in Hin. apply in_map_iff in Hin as ([m b] & X & Hb). cbn [fst snd] in X. injection X as <- <-.
    cbn [art_sort a_partof]. eapply name_set_perm; [apply isort_perm|].
    assert (Hb' : In (m, b) out) by (eapply Permutation_in; [apply Permutation_sym, isort_perm|exact Hb]).
    destruct (build_entry M topo H hash_im TC arts _ out Wa D B) as (gs & comp & _ & _ & Eo). rewrite Eo in Hb'.
    apply in_map_iff in Hb' as (x & X & Hx). injection X as _ <-. cbn [built a_partof]. rewrite Forall_forall in Wa. pose proof (Wa x Hx) as Wx.
    apply partof_set; cbn [fst snd]; [apply Wx|apply (clean_wf x Wx)].
Qed.

Lemma expect_wf l : Forall name_wf l -> res_map expect_name (map n_raw l) = Ok l.
Proof.
  induction 1 as [|n l Hn F IH]; [reflexivity|]. cbn [map res_map]. unfold expect_name at 1. rewrite Hn. cbn [res_bind]. rewrite IH. reflexivity.
Qed.

Section Edit.
  Context {M : num} {H : Type} (enc : path -> str) (dec : str -> option path).
  Hypothesis wire : forall p, dec (enc p) = Some p.

  (** What arrives at the server after Edit and Save. *)
  Definition resent (a : artifact M H) : art_im :=
    mkIm (a_name a) (a_file a) (a_partof a) (match a_impl a with IDone (c :: d) => Some (c :: d) | _ => None end) (a_text a).
  Lemma resent_wf a : name_wf (a_name a) -> name_set (a_partof a) -> im_wf (resent a).
  Proof.
    intros W [F N]. split; cbn; auto. clear W. induction F as [|x l Hx F IH]; cbn [map] in *; constructor; inversion N as [|? ? Nx N']; subst; auto.
    intros I. apply in_map_iff in I as (y & Ey & Hy). apply Nx. apply in_map_iff. exists y. split; auto. rewrite Forall_forall in F. apply nk_key; auto.
  Qed.
  Lemma edit_sends a : name_wf (a_name a) -> name_set (a_partof a) ->
    exists o, edit_op (from_artifact (serve enc a)) = Ok o /\ receive dec o = Some (OUpdate (resent a) (a_id a)).
  Proof.
    intros W [Fp Np]. unfold edit_op, edit_im. cbn [from_artifact serve e_partof e_name e_file e_done e_text e_orig sa_id sa_name sa_file sa_partof sa_done sa_text].
    rewrite (expect_wf _ Fp). cbn [res_bind]. unfold expect_name. rewrite W. cbn [res_bind]. eexists. split; [reflexivity|].
    cbn [receive]. unfold receive_im. cbn [si_file si_name si_partof si_done si_text]. rewrite wire. unfold resent. rewrite (is_collect_distinct name_eqb nk name_eqb_iff) by exact Np.
    destruct (a_impl a) as [[|x d]| |]; reflexivity.
  Qed.
End Edit.

Section Theorems.
  Variables (path_str : path -> str) (yaml : str -> option (option str * option RawNames.names_val)) (parse_toml parse_json : str -> res (list (name * art_raw)))
    (parse_msg : path -> str -> str) (prefix : str) (M : num) (topo : graph -> option (list nat)) (H : Type) (heqb : H -> H -> bool) (hash_im : art_im -> H)
    (settings_path : path) (url_error : option str) (enc : path -> str) (dec : str -> option path).
  Hypothesis TO : parser_ok parse_toml.
  Hypothesis JO : parser_ok parse_json.
  Hypothesis TC : topo_ok topo.
  Hypothesis HE : forall a b, heqb a b = true <-> a = b.
  Hypothesis wire : forall p, dec (enc p) = Some p.
  Notation loads := (loads path_str yaml parse_toml parse_json parse_msg prefix M topo H hash_im settings_path url_error).

  (** The request is an update that changes nothing, unless the artifact is done with empty text. *)
  Theorem C54_noop : forall E t st lines_of k c p n a,
    loads k (art_files E t path_str st) (code_files E t lines_of path_str st) (Ok (inl (c, p))) -> In (n, a) (pr_arts p) -> a_impl a <> IDone [] ->
    exists o b, edit_op (from_artifact (serve enc a)) = Ok o /\ receive dec o = Some b /\ noop hash_im (op_clean H b) /\ op_clean H b = OUpdate (to_im a) (a_id a).
  Proof.
    intros E t st lo k c p n a Ld Hin Nd. destruct (served_names _ _ _ _ _ _ _ _ _ _ _ _ TO JO TC _ _ _ _ _ _ _ Ld n a Hin) as [W S].
    destruct (edit_sends enc dec wire a W S) as (o & E1 & E2). exists o, (OUpdate (resent a) (a_id a)).
    assert (X : op_clean H (OUpdate (resent a) (a_id a)) = OUpdate (to_im a) (a_id a)).
    { cbn [op_clean]. unfold to_im, resent. destruct (a_impl a) as [[|x d]| |]; congruence. }
    repeat split; auto. rewrite X. exists (to_im a). pose proof (C35_loaded _ _ _ _ _ _ _ _ _ _ _ _ TO JO TC _ _ _ _ _ _ _ Ld) as L. now rewrite (lo_id _ _ L n a Hin).
  Qed.

  (** So a server that accepts it has the same artifacts afterwards. *)
  Theorem C54_unchanged : forall E t st lines_of k c p n a o b debug_im to_toml to_json yaml_done style E1 E3 t' c1 p1,
    loads k (art_files E t path_str st) (code_files E t lines_of path_str st) (Ok (inl (c, p))) -> In (n, a) (pr_arts p) -> a_impl a <> IDone [] ->
    NoDup (map hash_im (stored_form p)) ->
    edit_op (from_artifact (serve enc a)) = Ok o -> receive dec o = Some b ->
    runs path_str M topo H heqb hash_im debug_im st to_toml to_json yaml_done style E1 E3 t (Ok (inl (c, p))) [b] (MDone M H t' (Ok (inl (c1, p1)))) ->
    Permutation (stored_form p1) (stored_form p).
  Proof.
    intros E t st lo k c p n a o b db tt tj yd sy E1 E3 t' c1 p1 Ld Hin Nd Nh Eo Eb R.
    pose proof (C35_loaded _ _ _ _ _ _ _ _ _ _ _ _ TO JO TC _ _ _ _ _ _ _ Ld) as L.
    destruct (served_names _ _ _ _ _ _ _ _ _ _ _ _ TO JO TC _ _ _ _ _ _ _ Ld n a Hin) as [W S].
    destruct (C54_noop E t st lo k c p n a Ld Hin Nd) as (o' & b' & Eo' & Eb' & No & Ec). rewrite Eo in Eo'. injection Eo' as <-. rewrite Eb in Eb'. injection Eb' as <-.
    assert (Ow : op_wf b).
    { destruct (edit_sends enc dec wire a W S) as (o' & X1 & X2). rewrite Eo in X1. injection X1 as <-. rewrite Eb in X2. injection X2 as ->. cbn. now apply resent_wf. }
    destruct (C35_map path_str M topo H heqb hash_im db st tt tj yd sy E1 E3 t c p [b] t' c1 p1 TC HE L Nh (Forall_cons _ Ow (Forall_nil _)) R) as (N1 & _ & X).
    assert (Ia : In (to_im a) (stored_form p)) by (unfold stored_form; apply in_map_iff; exists (n, a); auto).
    assert (Inj : forall x y, In x (stored_form p) -> In y (stored_form p) -> hash_im x = hash_im y -> x = y).
    { clear -Nh. induction (stored_form p) as [|z l IH]; [intros x y []|]. cbn [map] in Nh. inversion Nh; subst. intros x y [<-|Hx] [<-|Hy] Eh; auto.
      - exfalso. apply H2. rewrite Eh. now apply in_map.
      - exfalso. apply H2. rewrite <- Eh. now apply in_map. }
    cbn [map] in X. rewrite Ec in X.
    apply NoDup_Permutation; [now apply (NoDup_map_inv hash_im)|now apply (NoDup_map_inv hash_im)|]. intros x. rewrite X. clear X. rewrite (lo_id _ _ L n a Hin) in *.
    split.
    - intros [_ [(l1 & o1 & l2 & El & So & _)|[_ I]]]; auto.
      destruct l1 as [|z l1]; [|destruct l1; discriminate]. injection El as <- <-. destruct So as [So|[i So]]; [discriminate|]. now injection So as <- _.
    - intros Hx. split.
      + intros (o1 & [<-|[]] & _ & NN). apply NN. now exists (to_im a).
      + destruct (heqb (hash_im (to_im a)) (hash_im x)) eqn:Eh.
        * apply HE in Eh. left. rewrite <- (Inj _ _ Ia Hx Eh). exists [], (OUpdate (to_im a) (hash_im (to_im a))), []. split; [reflexivity|]. split; [right; eauto|]. split; [reflexivity|intros o' b' []].
        * right. split; auto. intros (o1 & b1 & [<-|[]] & So & Eh'). destruct So as [So|[i So]]; [discriminate|]. injection So as <- _. apply HE in Eh'. congruence.
  Qed.

  Definition without_done (b : art_im) : art_im := mkIm (im_name b) (im_file b) (im_partof b) None (im_text b).
  (** Done with empty text: the request takes the mark away; the artifact is not done afterwards. *)
  Theorem C54_empty_done : forall E t st lines_of k c p n a,
    loads k (art_files E t path_str st) (code_files E t lines_of path_str st) (Ok (inl (c, p))) -> In (n, a) (pr_arts p) -> a_impl a = IDone [] ->
    exists o b, edit_op (from_artifact (serve enc a)) = Ok o /\ receive dec o = Some b /\ op_clean H b = OUpdate (without_done (to_im a)) (a_id a) /\ op_wf b /\
    (NoDup (map hash_im (stored_form p)) -> hash_im (without_done (to_im a)) <> hash_im (to_im a) ->
     forall debug_im to_toml to_json yaml_done style E1 E3 t' c1 p1,
     runs path_str M topo H heqb hash_im debug_im st to_toml to_json yaml_done style E1 E3 t (Ok (inl (c, p))) [b] (MDone M H t' (Ok (inl (c1, p1)))) ->
     In (without_done (to_im a)) (stored_form p1) /\ ~ In (to_im a) (stored_form p1)).
  Proof.
    intros E t st lo k c p n a Ld Hin Ei. pose proof (C35_loaded _ _ _ _ _ _ _ _ _ _ _ _ TO JO TC _ _ _ _ _ _ _ Ld) as L.
    destruct (served_names _ _ _ _ _ _ _ _ _ _ _ _ TO JO TC _ _ _ _ _ _ _ Ld n a Hin) as [W S].
    destruct (edit_sends enc dec wire a W S) as (o & E1 & E2). exists o, (OUpdate (resent a) (a_id a)). split; auto. split; auto.
    assert (X : op_clean H (OUpdate (resent a) (a_id a)) = OUpdate (without_done (to_im a)) (a_id a)).
    { cbn [op_clean]. unfold to_im, resent. rewrite Ei. reflexivity. }
    assert (Ow : op_wf (OUpdate (resent a) (a_id a))) by (cbn; now apply resent_wf).
    split; auto. split; auto. intros Nh Nd db tt tj yd sy E1' E3 t' c1 p1 R. rewrite (lo_id _ _ L n a Hin) in *.
    assert (NN : ~ noop hash_im (OUpdate (without_done (to_im a)) (hash_im (to_im a)))).
    { intros [b Eb]. injection Eb as <- Eb. congruence. }
    assert (NO : forall o', In o' (map (op_clean H) [OUpdate (resent a) (hash_im (to_im a))]) -> ~ noop hash_im o') by (cbn [map]; rewrite X; intros o' [<-|[]]; exact NN).
    pose proof (C35_new_artifacts path_str M topo H heqb hash_im db st tt tj yd sy E1' E3 t c p _ t' c1 p1 TC HE L Nh (Forall_cons _ Ow (Forall_nil _)) NO R) as Y.
    cbn [map] in Y. rewrite X in Y. split.
    - apply Y. left. eexists. split; [now left|]. right. eauto.
    - intros I. apply Y in I as [(o' & [<-|[]] & So)|[_ I]].
      + destruct So as [So|[i So]]; [discriminate|]. assert (Z : without_done (to_im a) = to_im a) by congruence. apply (f_equal im_done) in Z.
        unfold to_im in Z. rewrite Ei in Z. discriminate.
      + destruct (I _ (or_introl eq_refl)) as [T _]. apply T. left. eauto.
  Qed.
End Theorems.
Print Assumptions C54_noop.
Print Assumptions C54_unchanged.
Print Assumptions C54_empty_done.

(** Two artifacts: one done with a text and one done with none. *)
Definition w_tree := m_dir [(s "a.md", NFile (lns [s "# REQ-a"; s "done: ""by hand"""; s "###"; s "top"; []; s "# REQ-b"; s "done: """""; s "###"; s "low"]))].
Definition w_wire (p : path) : str := flat_map (fun c => c ++ [0%N]) p.
Definition w_arts : list (name * artifact exact_num str) := match m_load m_st w_tree with Ok (inl (_, p)) => pr_arts p | _ => [] end.
Definition w_back (x : str) : option path := Some (removelast (split_on 0%N x)).
Definition w_ops (i : nat) : list (op str) :=
  match nth_error w_arts i with
  | Some (_, a) => match edit_op (from_artifact (serve w_wire a)) with Ok o => match receive w_back o with Some b => [b] | None => [] end | _ => [] end
  | None => []
  end.
Example C54_example :
  map im_done (stored_of (m_load m_st w_tree)) = [Some (s "by hand"); Some []] /\
  m_out (m_mod m_st w_tree (w_ops 0)) = (None, stored_of (m_load m_st w_tree)) /\
  (let (k, arts) := m_out (m_mod m_st w_tree (w_ops 1)) in (k, map im_done arts)) = (None, [Some (s "by hand"); None]).
Proof. vm_compute. auto. Qed.
