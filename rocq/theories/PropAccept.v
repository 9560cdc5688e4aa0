(** Property C100: exactly which requests to change a project are accepted. *)
From Coq Require Import Permutation Relation_Operators.
From Verif Require Import Base BaseFacts Name SpecName Artifact SpecGraph Topo SpecLinks Numbers Markdown SpecMarkdown YamlExample Lint SpecLint Load LoadFacts SpecLoad Disk Walk SpecWalk WalkFacts
  Modify SpecModify ResultFacts SpecAgain CodecExample PropArtifacts PropLint PropLoad PropModify SpecAccept AcceptFacts.

(** A project that could be loaded has no errors exactly if nothing is wrong with its stored
    artifacts and with the url of its settings. *)
Theorem C100_project : forall path_str yaml parse_toml parse_json parse_msg prefix M topo H (hash_im : art_im -> H) settings_path url_error,
  parser_ok parse_toml -> parser_ok parse_json -> topo_ok topo ->
  forall E t st lines_of n c p,
  loads path_str yaml parse_toml parse_json parse_msg prefix M topo H hash_im settings_path url_error n (art_files E t path_str st) (code_files E t lines_of path_str st) (Ok (inl (c, p))) ->
  ls_error c = [] <-> stored_sound prefix (stored_form p) /\ url_error = None.
Proof.
  intros ps y pt pj pm px M topo H h sp u TO JO TC E t st lo n c p Ld.
  apply (loads_sound M topo TC H h ps y pt pj TO JO pm px sp u n (art_files E t ps st) (code_files E t lo ps st) c p); auto; apply found_walk_ok.
Qed.
Print Assumptions C100_project.

(** A request on a project without errors that can be carried out is not refused: no run of it ends
    with one of the errors reported before writing.  Any other request is: every run of it ends at
    once with such an error and the disk is as before. *)
Theorem C100_accepted : forall path_str M topo H heqb (hash_im : art_im -> H) debug_im st to_toml to_json yaml_done style E1 E3 t c (p : project M H) ops,
  topo_ok topo -> (forall a b, heqb a b = true <-> a = b) -> loaded_ok hash_im p -> NoDup (map hash_im (stored_form p)) -> Forall op_wf ops ->
  (forall o, In o (map (op_clean H) ops) -> ~ noop hash_im o) ->
  let run := runs path_str M topo H heqb hash_im debug_im st to_toml to_json yaml_done style E1 E3 t (Ok (inl (c, p))) ops in
  (ls_error c = [] /\ acceptable hash_im st (pr_prefix p) (stored_form p) ops ->
    forall t' k l, run (MDone M H t' (Ok (inr (k, l)))) -> ~ early k) /\
  (~ (ls_error c = [] /\ acceptable hash_im st (pr_prefix p) (stored_form p) ops) ->
    exists k l, early k /\ run (MDone M H t (Ok (inr (k, l)))) /\ forall x, run x -> x = MDone M H t (Ok (inr (k, l)))).
Proof.
  intros ps M topo H heqb h db st tt tj yd sy E1 E3 t c p ops TC HE L N W Nn run.
  pose proof (pure_iff ps M topo TC H heqb HE h db st c p ops L N W Nn) as PI.
  destruct (modify_pure ps M topo H heqb h db st (inl (c, p)) ops) as [[[k l]|[c1 q]]| |] eqn:Ep; try contradiction.
  - destruct PI as [Ek Na]. split; [intros Y; contradiction|]. intros _. exists k, l. split; auto. split.
    + exists (MDone M H t (Ok (inr (k, l)))). split; [|constructor]. unfold begins. cbn [res_bind]. rewrite Ep. reflexivity.
    + intros x R. exact (refused_run ps M topo H heqb h db st tt tj yd sy E1 E3 t _ ops (k, l) x Ep R).
  - split; [|intros Na; contradiction]. intros _ t' k l R. exact (accepted_run ps M topo H heqb h db st tt tj yd sy E1 E3 t _ ops c1 q _ Ep R t' k l eq_refl).
Qed.
Print Assumptions C100_accepted.

(** Requests of one operation, on artifacts with which nothing is wrong.  Creating: the file is in
    a place for artifacts, the name is free, and nothing is wrong with the new artifact. *)
Theorem C100_create : forall H (hash_im : art_im -> H) st prefix A a, stored_sound prefix A ->
  let b := im_clean a in
  acceptable hash_im st prefix A [OCreate a] <->
  placed st (im_file b) /\ ~ In (hash_im b) (map hash_im A) /\
  (forall c, In c A -> n_key (im_name c) <> n_key (im_name b)) /\ art_sound prefix (fun c => c = b \/ In c A) b.
Proof. intros H h st px A a SA. exact (create_iff h st px A SA a). Qed.
Print Assumptions C100_create.

(** Deleting: it is there, and no other artifact links to it. *)
Theorem C100_delete : forall H (hash_im : art_im -> H) st prefix A n i, stored_sound prefix A -> NoDup (map hash_im A) ->
  acceptable hash_im st prefix A [ODelete n i] <->
  exists a, In a A /\ hash_im a = i /\ forall b, In b A -> b <> a -> ~ links_name b (im_name a).
Proof. intros H h st px A n i SA NA. exact (delete_iff h st px A SA NA n i). Qed.
Print Assumptions C100_delete.

(** Changing one into another that is not there yet: the new file is in a place for artifacts, no
    other artifact has the new name, nothing is wrong with the new form, and the name stays or no
    other artifact links to it. *)
Theorem C100_update : forall H (hash_im : art_im -> H) st prefix A a' i, stored_sound prefix A -> NoDup (map hash_im A) ->
  let b := im_clean a' in
  ~ In (hash_im b) (map hash_im A) -> hash_im b <> i ->
  acceptable hash_im st prefix A [OUpdate a' i] <->
  exists a, In a A /\ hash_im a = i /\ placed st (im_file b) /\
    (forall c, In c A -> c <> a -> n_key (im_name c) <> n_key (im_name b)) /\
    art_sound prefix (fun c => c = b \/ In c A /\ c <> a) b /\
    (n_key (im_name b) = n_key (im_name a) \/ forall c, In c A -> c <> a -> ~ links_name c (im_name a)).
Proof. intros H h st px A a' i SA NA b. exact (update_iff h st px A SA NA a' i). Qed.
Print Assumptions C100_update.

(** So deleting a parent is fine (links that follow from names are not stored), deleting what is
    linked by name is not; renaming likewise. *)
Example C100_example :
  stored_of (m_load m_st m_tree) = [req_a; spc_a; spc_b] /\
  m_out (m_mod m_st m_tree [ODelete (nm (s "SPC-a")) (mid spc_a)]) = (None, [req_a; spc_b]) /\
  m_out (m_mod m_st m_tree [ODelete (nm (s "REQ-a")) (mid req_a)]) = (Some KModify, []) /\
  m_out (m_mod m_st m_tree [OUpdate (m_im (s "REQ-q") (s "a.md") [] (s "top")) (mid req_a)]) = (Some KModify, []) /\
  m_out (m_mod m_st m_tree [OUpdate (m_im (s "REQ-A") (s "a.md") [] (s "top")) (mid req_a)]) = (None, [m_im (s "REQ-A") (s "a.md") [] (s "top"); spc_a; spc_b]) /\
  m_out (m_mod m_st m_tree [OUpdate (m_im (s "SPC-q") (s "a.md") [] (s "top")) (mid spc_a)]) = (None, [req_a; spc_b; m_im (s "SPC-q") (s "a.md") [] (s "top")]) /\
  m_out (m_mod m_st m_tree [OCreate (m_im (s "TST-q") (s "a.md") [s "spc-A"] (s "x"))]) = (None, [req_a; spc_a; spc_b; m_im (s "TST-q") (s "a.md") [s "spc-A"] (s "x")]) /\
  m_out (m_mod m_st m_tree [OCreate (m_im (s "REQ-q") (s "a.md") [s "spc-A"] (s "x"))]) = (Some KModify, []).
Proof. vm_compute. repeat split. Qed.
Example C100_sound : stored_sound [] [req_a; spc_a; spc_b] /\ NoDup (map mid [req_a; spc_a; spc_b]).
Proof.
  split; [|vm_compute; repeat constructor; cbn; intuition discriminate].
  assert (X : match m_load m_st m_tree with Ok (inl (c, p)) => ls_error c = [] /\ stored_form p = [req_a; spc_a; spc_b] | _ => False end) by (vm_compute; auto).
  pose proof (m_load_runs m_st m_tree) as Ld. destruct (m_load m_st m_tree) as [[[c p]|]| |]; try contradiction. destruct X as [X1 X2]. rewrite <- X2.
  apply (loads_sound _ topo_sort topo_sort_ok _ mid ex_path ex_yaml ex_parse ex_parse ex_parser_ok ex_parser_ok _ _ _ None _ _ _ c p) in Ld; [now apply Ld|apply found_walk_ok|intros x []].
Qed.
