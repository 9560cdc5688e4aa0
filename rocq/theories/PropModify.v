(** Properties C35-C38, C42: what a modify request does and when it is refused.

    [runs … t loaded ops x]: with the disk [t] and the result [loaded] of reading the project, some
    run of the request [ops] reaches the state [x].  [MDone t' r]: it has returned [r] and the disk
    is [t'].  Ids are arbitrary ([hash_im]), as are the walks' errors and the formats. *)
From Coq Require Import ZArith Lia Permutation Relation_Operators.
From Verif Require Import Base BaseFacts Regex Name SpecName NameFacts RawNames Artifact Stored SpecGraph Topo SpecLinks LinkFacts Numbers
  Markdown SpecMarkdown YamlExample Lint SpecLint Source Pool Load LoadFacts SpecLoad Disk DiskFacts Walk SpecWalk WalkFacts Modify SpecModify OpFacts PureFacts OrderFacts
  PhaseFacts ResultFacts CodecExample PropArtifacts PropCompleted PropMarkdown PropLint PropLoad.

Open Scope nat_scope.

(** The examples: two files in a directory; ids list the whole content. *)
Definition mid (a : art_im) : str :=
  n_raw (im_name a) ++ 0%N :: join [47%N] (im_file a) ++ 0%N :: flat_map (fun n => n_raw n ++ [0%N]) (im_partof a) ++
  match im_done a with None => [0%N] | Some d => 1%N :: d end ++ 0%N :: im_text a.
Definition no_errs := mkErrs (fun _ => None) (fun _ => None) (fun _ => None) (s "not found").
Definition m_st := mkSettings [[s "p"; s "d"]] [[s "p"; s "d"; s "ex"]] [] [].
Definition m_a := lns [s "# REQ-a"; s "top"; []; s "# SPC-a"; s "see [[REQ-a]]"].
Definition m_b := lns [s "# SPC-a-b"; s "partof: REQ-a"; s "###"; s "low"].
Definition m_dir (l : list (str * node)) : node := NDir [(s "p", NDir [(s "d", NDir l); (s "other.md", NFile (s "mine"))])].
Definition m_tree := m_dir [(s "a.md", NFile m_a); (s "b.md", NFile m_b); (s "ex", NDir [])].
Definition m_load st t : res (lints * project exact_num str + lints) :=
  seq_load ex_path ex_yaml ex_parse ex_parse (fun _ _ => s "bad") [] exact_num topo_sort str mid [s "settings.toml"] None 2 (art_files no_errs t ex_path st) [].
Definition m_run st t ops x :=
  runs ex_path exact_num topo_sort str str_eqb mid (fun _ => s "art") st ex_store ex_store ex_yaml_done Hashes no_errs no_errs t (m_load st t) ops x.
Definition m_mod st t ops := seq_modify ex_path exact_num topo_sort str str_eqb mid (fun _ => s "art") st ex_store ex_store ex_yaml_done Hashes no_errs no_errs t (m_load st t) ops.
Lemma m_mod_runs st t ops : m_run st t ops (MDone exact_num str (fst (m_mod st t ops)) (snd (m_mod st t ops))).
Proof. apply seq_runs. Qed.
Definition m_im n f ps t : art_im := mkIm (nm n) [s "p"; s "d"; f] (map nm ps) None t.
Definition req_a := m_im (s "REQ-a") (s "a.md") [] (s "top").
Definition spc_a := m_im (s "SPC-a") (s "a.md") [] (s "see [[REQ-a]]").
Definition spc_b := m_im (s "SPC-a-b") (s "b.md") [s "REQ-a"] (s "low").
Definition stored_of (r : res (lints * project exact_num str + lints)) : list art_im := match r with Ok (inl (_, p)) => stored_form p | _ => [] end.
Definition m_out (x : node * result exact_num str) : option mkind * list art_im :=
  match snd x with Ok (inl (_, p)) => (None, stored_form p) | Ok (inr (k, _)) => (Some k, []) | _ => (None, []) end.
Lemma names_ok n : match name_from_str n with Ok _ => True | _ => False end -> name_wf (nm n).
Proof. unfold nm. destruct (name_from_str n) as [m| |] eqn:E; try contradiction. intros _. apply (from_str_wf n m E). Qed.
Lemma m_im_wf n f ps t : match name_from_str n with Ok _ => True | _ => False end -> Forall (fun x => match name_from_str x with Ok _ => True | _ => False end) ps ->
  NoDup (map (fun x => n_key (nm x)) ps) -> im_wf (m_im n f ps t).
Proof.
  intros W Wp N. constructor; cbn [m_im im_name im_partof]; [now apply names_ok| |now rewrite map_map].
  clear N. induction Wp as [|x ps Hx _ IH]; cbn [map]; constructor; auto. now apply names_ok.
Qed.
Lemma m_load_runs st t : loads ex_path ex_yaml ex_parse ex_parse (fun _ _ => s "bad") [] exact_num topo_sort str mid [s "settings.toml"] None 2 (art_files no_errs t ex_path st) [] (m_load st t).
Proof. apply seq_loads. Qed.

(** Whatever is loaded is well formed ([loaded_ok]). *)
Theorem C35_loaded : forall path_str yaml parse_toml parse_json parse_msg prefix M topo H (hash_im : art_im -> H) settings_path url_error,
  parser_ok parse_toml -> parser_ok parse_json -> topo_ok topo ->
  forall E t st lines_of n c p,
  loads path_str yaml parse_toml parse_json parse_msg prefix M topo H hash_im settings_path url_error n (art_files E t path_str st) (code_files E t lines_of path_str st) (Ok (inl (c, p))) ->
  loaded_ok hash_im p.
Proof.
  intros ps y pt pj pm px M topo H h sp u TO JO TC E t st lo n c p Ld.
  apply (loads_loaded M topo TC H h ps y pt pj TO JO pm px sp u n (art_files E t ps st) (code_files E t lo ps st) c p) in Ld as [L _]; auto; apply found_walk_ok.
Qed.
Print Assumptions C35_loaded.

(** ** C35 operations act like on a map *)
(** For a list of operations in which each changes something: the artifacts afterwards are those
    stored by an operation, and those that were there and whose id no operation names. *)
Theorem C35_new_artifacts : forall path_str M topo H heqb (hash_im : art_im -> H) debug_im st to_toml to_json yaml_done style E1 E3 t c p ops t' c1 p1,
  topo_ok topo -> (forall a b, heqb a b = true <-> a = b) -> loaded_ok hash_im p -> NoDup (map hash_im (stored_form p)) -> Forall op_wf ops ->
  (forall o, In o (map (op_clean H) ops) -> ~ noop hash_im o) ->
  runs path_str M topo H heqb hash_im debug_im st to_toml to_json yaml_done style E1 E3 t (Ok (inl (c, p))) ops (MDone M H t' (Ok (inl (c1, p1)))) ->
  forall a, In a (stored_form p1) <->
    (exists o, In o (map (op_clean H) ops) /\ stores o a) \/
    (In a (stored_form p) /\ forall o, In o (map (op_clean H) ops) -> ~ targets o (hash_im a) /\ forall b, stores o b -> hash_im b <> hash_im a).
Proof.
  intros ps M topo H heqb h db st tt tj yd sy E1 E3 t c p ops t' c1 p1 TC HE L N W Nn R a.
  apply done_project in R as (l & c' & q & X & Ep & ->). injection X as <-.
  destruct (sort_stored ps M topo TC H heqb HE h db st c p ops c' q L W Ep) as (_ & _ & P).
  rewrite <- (plain_set ps M topo TC H heqb HE h db st c p ops c' q L N W Nn Ep a). split; apply Permutation_in; [exact P|now apply Permutation_sym].
Qed.
Print Assumptions C35_new_artifacts.
(** In general, no-op updates included, and what is true of ids: they stay distinct. *)
Theorem C35_map : forall path_str M topo H heqb (hash_im : art_im -> H) debug_im st to_toml to_json yaml_done style E1 E3 t c p ops t' c1 p1,
  topo_ok topo -> (forall a b, heqb a b = true <-> a = b) -> loaded_ok hash_im p -> NoDup (map hash_im (stored_form p)) -> Forall op_wf ops ->
  runs path_str M topo H heqb hash_im debug_im st to_toml to_json yaml_done style E1 E3 t (Ok (inl (c, p))) ops (MDone M H t' (Ok (inl (c1, p1)))) ->
  NoDup (map hash_im (stored_form p1)) /\ distinct (stored_form p1) /\
  forall a, In a (stored_form p1) <->
    ~ taken hash_im (map (op_clean H) ops) (hash_im a) /\
    (last_stored hash_im (map (op_clean H) ops) (hash_im a) a \/
     ~ stored hash_im (map (op_clean H) ops) (hash_im a) /\ In a (stored_form p)).
Proof.
  intros ps M topo H heqb h db st tt tj yd sy E1 E3 t c p ops t' c1 p1 TC HE L N W R.
  apply done_project in R as (l & c' & q & X & Ep & ->). injection X as <-.
  destruct (sort_stored ps M topo TC H heqb HE h db st c p ops c' q L W Ep) as (Lq & Ls & P).
  destruct (pure_set ps M topo TC H heqb HE h db st c p ops c' q L N W Ep) as [Nq Sq]. split; [|split].
  - eapply Permutation_NoDup; [apply Permutation_map, Permutation_sym, P|exact Nq].
  - apply (lo_distinct h _ Ls).
  - intros a. rewrite <- (Sq a). split; apply Permutation_in; [exact P|now apply Permutation_sym].
Qed.
Print Assumptions C35_map.
Definition spc_n := m_im (s "SPC-n") (s "c.md") [] (s "new").
Definition req_z := m_im (s "REQ-a") (s "b.md") [] (s "moved").
Example C35_example : stored_of (m_load m_st m_tree) = [req_a; spc_a; spc_b] /\
  m_out (m_mod m_st m_tree [OUpdate req_z (mid req_a); ODelete (nm (s "SPC-a-b")) (mid spc_b); OCreate spc_n]) = (None, [req_z; spc_a; spc_n]).
Proof. vm_compute. auto. Qed.
(** The exception: an update to the content of another artifact; two artifacts become one. *)
Example C35_collapse : m_out (m_mod m_st m_tree [OUpdate spc_a (mid spc_b)]) = (None, [req_a; spc_a]).
Proof. vm_compute. reflexivity. Qed.

(** ** C36 stale ids are refused *)
Theorem C36_refused : forall path_str M topo H heqb (hash_im : art_im -> H) debug_im st to_toml to_json yaml_done style E1 E3 t c (p : project M H) ops o,
  (forall a b, heqb a b = true <-> a = b) ->
  In o (map (op_clean H) ops) -> ~ current hash_im (map (op_clean H) ops) p o ->
  exists k l, (k = KLoad \/ k = KPaths \/ k = KHash) /\
    forall x, runs path_str M topo H heqb hash_im debug_im st to_toml to_json yaml_done style E1 E3 t (Ok (inl (c, p))) ops x -> x = MDone M H t (Ok (inr (k, l))).
Proof.
  intros ps M topo H heqb h db st tt tj yd sy E1 E3 t c p ops o HE Ho Nc.
  destruct (pure_stale ps M topo H heqb HE h db st c p ops (ex_intro _ o (conj Ho Nc))) as (k & l & Ep & Hk). exists k, l. split; auto. intros x R.
  exact (refused_run ps M topo H heqb h db st tt tj yd sy E1 E3 t _ ops (k, l) x Ep R).
Qed.
Print Assumptions C36_refused.
(** in particular for each kind of operation *)
Theorem C36_kinds : forall H (hash_im : art_im -> H) M (p : project M H) ops,
  (forall a, In (hash_im a) (map hash_im (stored_form p)) -> ~ current hash_im ops p (OCreate a)) /\
  (forall a i, i <> hash_im a -> ~ In i (map hash_im (stored_form p)) -> ~ current hash_im ops p (OUpdate a i)) /\
  (forall n i, ~ In i (map hash_im (stored_form p)) -> ~ current hash_im ops p (ODelete n i)).
Proof.
  intros H h M p ops. split; [|split].
  - intros a Hin (C & _). now apply (C a).
  - intros a i Ne Nin (_ & C & _). apply Nin, C. split; [left; now exists a|]. intros [b X]. injection X as -> ->. now apply Ne.
  - intros n i Nin (_ & C & _). apply Nin, C. split; [right; now exists n|]. intros [b X]. discriminate X.
Qed.
Print Assumptions C36_kinds.
Example C36_example :
  m_out (m_mod m_st m_tree [OUpdate req_z (mid spc_n)]) = (Some KHash, []) /\
  m_out (m_mod m_st m_tree [ODelete (nm (s "REQ-a")) (mid req_z)]) = (Some KHash, []) /\
  m_out (m_mod m_st m_tree [OCreate spc_a]) = (Some KHash, []) /\
  m_out (m_mod m_st m_tree [OUpdate spc_n (mid spc_n)]) = (Some KHash, []) /\
  m_out (m_mod m_st m_tree [OCreate spc_n; OUpdate spc_n (mid spc_n)]) = (None, [req_a; spc_a; spc_b; spc_n]).
Proof. vm_compute. repeat split. Qed.

(** ** C37 the order of the operations *)
(** If every operation changes something, every order gives the same outcome: refused for the same
    reason, or the same artifacts. *)
Theorem C37_same_outcome : forall path_str M topo H heqb (hash_im : art_im -> H) debug_im st c (p : project M H) ops ops',
  topo_ok topo -> (forall a b, heqb a b = true <-> a = b) -> loaded_ok hash_im p -> Forall op_wf ops ->
  Permutation ops ops' -> (forall o, In o (map (op_clean H) ops) -> ~ noop hash_im o) ->
  same_outcome (modify_pure path_str M topo H heqb hash_im debug_im st (inl (c, p)) ops) (modify_pure path_str M topo H heqb hash_im debug_im st (inl (c, p)) ops').
Proof. intros ps M topo H heqb h db st c p ops ops' TC HE L W P Nn. now apply pure_order. Qed.
Print Assumptions C37_same_outcome.
(** With such updates: both orders accepted, then the same artifacts. *)
Theorem C37_same_artifacts : forall path_str M topo H heqb (hash_im : art_im -> H) debug_im st to_toml to_json yaml_done style E1 E3 t c p ops ops' t1 t2 c1 c2 p1 p2,
  topo_ok topo -> (forall a b, heqb a b = true <-> a = b) -> loaded_ok hash_im p -> NoDup (map hash_im (stored_form p)) -> Forall op_wf ops ->
  (forall o o' a b, In o (map (op_clean H) ops) -> In o' (map (op_clean H) ops) -> stores o a -> stores o' b -> hash_im a = hash_im b -> a = b) ->
  Permutation ops ops' ->
  runs path_str M topo H heqb hash_im debug_im st to_toml to_json yaml_done style E1 E3 t (Ok (inl (c, p))) ops (MDone M H t1 (Ok (inl (c1, p1)))) ->
  runs path_str M topo H heqb hash_im debug_im st to_toml to_json yaml_done style E1 E3 t (Ok (inl (c, p))) ops' (MDone M H t2 (Ok (inl (c2, p2)))) ->
  Permutation (stored_form p1) (stored_form p2).
Proof.
  intros ps M topo H heqb h db st tt tj yd sy E1 E3 t c p ops ops' t1 t2 c1 c2 p1 p2 TC HE L N W Inj P R1 R2.
  assert (W' : Forall op_wf ops') by (eapply Permutation_Forall; eauto).
  destruct (done_project ps M topo H heqb h db st tt tj yd sy E1 E3 t _ ops t1 c1 p1 R1) as (l1 & k1 & q1 & X1 & Ep1 & ->). injection X1 as <-.
  destruct (done_project ps M topo H heqb h db st tt tj yd sy E1 E3 t _ ops' t2 c2 p2 R2) as (l2 & k2 & q2 & X2 & Ep2 & ->). injection X2 as <-.
  destruct (sort_stored ps M topo TC H heqb HE h db st c p ops k1 q1 L W Ep1) as (Lq1 & _ & P1).
  destruct (sort_stored ps M topo TC H heqb HE h db st c p ops' k2 q2 L W' Ep2) as (Lq2 & _ & P2).
  rewrite P1, P2. clear P1 P2.
  destruct (pure_set ps M topo TC H heqb HE h db st c p ops k1 q1 L N W Ep1) as [N1 _].
  destruct (pure_set ps M topo TC H heqb HE h db st c p ops' k2 q2 L N W' Ep2) as [N2 _].
  destruct (pure_accepts ps M topo TC H heqb HE h db st c p ops k1 q1 L W Ep1) as (_ & _ & O1 & _ & m1 & M1 & Nm1 & Hi1 & _ & S1 & _).
  destruct (pure_accepts ps M topo TC H heqb HE h db st c p ops' k2 q2 L W' Ep2) as (_ & _ & O2 & _ & m2 & M2 & Nm2 & Hi2 & _ & S2 & _).
  pose proof (order_irrelevant heqb HE h db _ _ _ m1 m2 (ids_nodup M H heqb HE h (pr_arts p)) (Permutation_map _ P) Inj O1 M1 O2 M2) as G.
  rewrite S1, S2. apply Permutation_map.
  assert (Y : forall (u v : ids_map H), NoDup (map fst u) -> NoDup (map fst v) -> (forall i, im_get heqb i u = im_get heqb i v) -> forall e, In e u -> In e v).
  { intros u v Nu Nv Eg [i a] Hin. apply (in_get heqb (fun x => x) (heqb_id heqb HE)) in Hin; auto. rewrite Eg in Hin.
    apply (get_some_in heqb (fun x => x) (heqb_id heqb HE)) in Hin as (k & Ek & Hk). cbv beta in Ek. now subst k. }
  apply NoDup_Permutation; [eapply NoDup_map_inv; exact Nm1|eapply NoDup_map_inv; exact Nm2|]. intros e. split; apply Y; auto.
Qed.
Print Assumptions C37_same_artifacts.
(** Acceptance does depend on the order when an update changes nothing. *)
Definition m_pure st t ops := res_bind (m_load st t) (fun r => modify_pure ex_path exact_num topo_sort str str_eqb mid (fun _ => s "art") st r ops).
Lemma m_refused st t ops k : match m_pure st t ops with Ok (inl (k', _)) => Some k' | _ => None end = Some k ->
  forall x, m_run st t ops x -> exists l, x = MDone exact_num str t (Ok (inr (k, l))).
Proof.
  unfold m_pure, m_run. destruct (m_load st t) as [l| |]; cbn [res_bind]; try discriminate.
  destruct (modify_pure ex_path exact_num topo_sort str str_eqb mid (fun _ => s "art") st l ops) as [[[k' e]|y]| |] eqn:Ep; try discriminate. intros X x R. injection X as ->. exists e.
  exact (refused_run _ _ _ _ _ _ _ _ _ _ _ _ _ _ t l ops (k, e) x Ep R).
Qed.
Lemma m_accepted st t ops : match snd (m_mod st t ops) with Ok (inl _) => true | _ => false end = true ->
  exists t' c p, m_run st t ops (MDone exact_num str t' (Ok (inl (c, p)))).
Proof.
  pose proof (m_mod_runs st t ops) as R. destruct (m_mod st t ops) as [t' r]. cbn [fst snd] in *. destruct r as [[[c p]|e]| |]; try discriminate. eauto.
Qed.
Theorem C37_order_refuted : exists ops,
  (exists t c p, m_run m_st m_tree ops (MDone exact_num str t (Ok (inl (c, p))))) /\
  (forall x, m_run m_st m_tree (rev ops) x -> exists l, x = MDone exact_num str m_tree (Ok (inr (KHash, l)))).
Proof.
  exists [OUpdate spc_b (mid spc_b); ODelete (nm (s "SPC-a-b")) (mid spc_b)]. split.
  - apply m_accepted. vm_compute. reflexivity.
  - apply m_refused. vm_compute. reflexivity.
Qed.
Print Assumptions C37_order_refuted.
Example C37_example :
  let ops := [OUpdate req_z (mid req_a); ODelete (nm (s "SPC-a-b")) (mid spc_b); OCreate spc_n] in
  m_out (m_mod m_st m_tree (rev ops)) = (None, [req_z; spc_a; spc_n]) /\
  m_out (m_mod m_st m_tree [OUpdate spc_b (mid spc_b); ODelete (nm (s "SPC-a-b")) (mid spc_b)]) = (None, [req_a; spc_a]) /\
  m_out (m_mod m_st m_tree [ODelete (nm (s "SPC-a-b")) (mid spc_b); OUpdate spc_b (mid spc_b)]) = (Some KHash, []).
Proof. vm_compute. auto. Qed.

(** ** C38 early errors leave the disk alone *)
Theorem C38_disk_untouched : forall path_str M topo H heqb (hash_im : art_im -> H) debug_im st to_toml to_json yaml_done style E1 E3 t loaded ops t' r,
  runs path_str M topo H heqb hash_im debug_im st to_toml to_json yaml_done style E1 E3 t loaded ops (MDone M H t' r) ->
  match r with
  | Ok (inl _) => True
  | Ok (inr (k, _)) => k = KBackups \/ k = KSave \/ t' = t
  | _ => t' = t
  end.
Proof. intros ps M topo H heqb h db st tt tj yd sy E1 E3 t ld ops t' r R. exact (early_untouched _ _ _ _ _ _ _ _ _ _ _ _ _ _ _ _ _ _ R). Qed.
Print Assumptions C38_disk_untouched.
Definition bad_link := m_im (s "SPC-z") (s "a.md") [s "REQ-gone"] (s "x").
Example C38_example :
  m_out (m_mod m_st (m_dir [(s "a.md", NFile (lns [s "# REQ-a"; s "# req-A"]))]) []) = (Some KLoad, []) /\
  m_out (m_mod m_st m_tree [ODelete (nm (s "SPC-a-b")) (mid spc_b); ODelete (nm (s "SPC-a-b")) (mid spc_b)]) = (Some KPaths, []) /\
  m_out (m_mod m_st m_tree [OCreate (mkIm (nm (s "SPC-z")) [s "p"; s "z.md"] [] None [])]) = (Some KPaths, []) /\
  m_out (m_mod m_st m_tree [OUpdate req_z (mid spc_n)]) = (Some KHash, []) /\
  m_out (m_mod m_st m_tree [OCreate bad_link]) = (Some KModify, []).
Proof. vm_compute. repeat split. Qed.
(** The late errors do change it: a new file in a directory that does not exist.  Here nothing is
    lost, but the backups stay. *)
Definition in_new_dir := mkIm (nm (s "SPC-z")) [s "p"; s "d"; s "new"; s "z.md"] [] None (s "x").
Example C38_late : let r := m_mod m_st m_tree [OCreate in_new_dir] in
  m_out r = (Some KSave, []) /\ file_at (fst r) [s "p"; s "d"; s "a.artbk"] = Some m_a /\ file_at (fst r) [s "p"; s "d"; s "b.artbk"] = Some m_b /\
  file_at (fst r) [s "p"; s "d"; s "a.md"] <> None.
Proof. vm_compute. repeat split. discriminate. Qed.

(** ** C42 where artifacts can be written *)
Theorem C42_confined : forall path_str M topo H heqb (hash_im : art_im -> H) debug_im st to_toml to_json yaml_done style E1 E3 t c p ops t' c1 p1,
  topo_ok topo -> (forall a b, heqb a b = true <-> a = b) -> loaded_ok hash_im p -> Forall op_wf ops ->
  runs path_str M topo H heqb hash_im debug_im st to_toml to_json yaml_done style E1 E3 t (Ok (inl (c, p))) ops (MDone M H t' (Ok (inl (c1, p1)))) ->
  (forall o a, In o ops -> stores o a -> known_extension (im_file a) /\ (exists r, In r (se_arts st) /\ below (im_file a) r) /\
     forall e r, In e (se_xarts st) -> In r (se_arts st) -> below (im_file a) e -> below (im_file a) r -> ~ below r e) /\
  (forall a, In a (stored_form p1) -> (exists b, In b (stored_form p) /\ im_file b = im_file a) \/ (known_extension (im_file a) /\ exists r, In r (se_arts st) /\ below (im_file a) r)).
Proof.
  intros ps M topo H heqb h db st tt tj yd sy E1 E3 t c p ops t' c1 p1 TC HE L W R.
  apply done_project in R as (l & c' & q & X & Ep & ->). injection X as <-.
  destruct (sort_stored ps M topo TC H heqb HE h db st c p ops c' q L W Ep) as (_ & _ & P).
  destruct (pure_accepts ps M topo TC H heqb HE h db st c p ops c' q L W Ep) as (_ & _ & _ & Cp & _). split.
  - intros o a Ho So. apply (check_path_ok ps). apply (Cp (op_clean H o)); [now apply in_map|]. destruct So as [->|[i ->]]; reflexivity.
  - intros a Ha. apply (Permutation_in _ P) in Ha. destruct (pure_from ps M topo TC H heqb HE h db st c p ops c' q L W Ep a Ha) as [Hp|(o & Ho & So)]; [left; eauto|].
    right. specialize (Cp o (im_file a) Ho). rewrite check_path_ok in Cp. destruct Cp as (C1 & C2 & _); [destruct So as [->|[i ->]]; reflexivity|auto].
Qed.
Print Assumptions C42_confined.
(** A path without "." and ".." is where it says. *)
Theorem C42_plain_location : forall f, plain_path f -> locate f = Some f.
Proof. exact locate_plain. Qed.
Print Assumptions C42_plain_location.
(** Exclusion is inverted: below the artifact paths, refused are exactly the paths below an
    artifact path that is inside an excluded path; an excluded directory inside an artifact path
    refuses nothing.  And ".." leads out (see the example). *)
Theorem C42_exclusion_inverted : forall path_str st f, known_extension f -> (exists r, In r (se_arts st) /\ below f r) ->
  (check_path path_str st f <> [] <-> exists e r, In e (se_xarts st) /\ In r (se_arts st) /\ below f r /\ below r e).
Proof.
  intros ps st f K R.
  destruct (existsb (fun e => existsb (fun r => path_prefix f r && path_prefix r e) (se_arts st)) (se_xarts st)) eqn:X.
  - apply existsb_exists in X as (e & He & X). apply existsb_exists in X as (r & Hr & X). apply Bool.andb_true_iff in X as [X1 X2]. rewrite path_prefix_iff in X1, X2.
    split; [intros _; exists e, r; auto|]. intros _ E. apply check_path_ok in E as (_ & _ & E). apply (E e r); auto. destruct X1 as [x ->], X2 as [y ->]. exists (y ++ x). now rewrite app_assoc.
  - split.
    + intros N. exfalso. apply N, check_path_ok. split; auto. split; auto. intros e r He Hr _ B1 B2.
      assert (Y : existsb (fun e => existsb (fun r => path_prefix f r && path_prefix r e) (se_arts st)) (se_xarts st) = true); [|congruence].
      apply existsb_exists. exists e. split; auto. apply existsb_exists. exists r. split; auto. apply Bool.andb_true_iff. split; now apply path_prefix_iff.
    + intros (e & r & He & Hr & B1 & B2).
      assert (Y : existsb (fun e => existsb (fun r => path_prefix f r && path_prefix r e) (se_arts st)) (se_xarts st) = true); [|congruence].
      apply existsb_exists. exists e. split; auto. apply existsb_exists. exists r. split; auto. apply Bool.andb_true_iff. split; now apply path_prefix_iff.
Qed.
Print Assumptions C42_exclusion_inverted.
Definition in_ex := mkIm (nm (s "SPC-z")) [s "p"; s "d"; s "ex"; s "z.md"] [] None (s "x").
Definition m_nested := mkSettings [[s "p"; s "d"]; [s "p"; s "d"; s "ex"; s "in"]] [[s "p"; s "d"; s "ex"]] [] [].
Definition in_in := mkIm (nm (s "SPC-z")) [s "p"; s "d"; s "ex"; s "in"; s "z.md"] [] None (s "x").
Definition outside := mkIm (nm (s "SPC-z")) [s "p"; s "d"; s ".."; s "other.md"] [] None (s "x").
Example C42_example :
  (let r := m_mod m_st m_tree [OCreate in_ex] in fst (m_out r) = None /\ file_at (fst r) [s "p"; s "d"; s "ex"; s "z.md"] <> None /\ stored_of (m_load m_st (fst r)) = [req_a; spc_a; spc_b]) /\
  m_out (m_mod m_nested (m_dir [(s "a.md", NFile m_a); (s "b.md", NFile m_b); (s "ex", NDir [(s "in", NDir [])])]) [OCreate in_in]) = (Some KPaths, []) /\
  (let r := m_mod m_st m_tree [OCreate outside] in fst (m_out r) = None /\ file_at m_tree [s "p"; s "other.md"] = Some (s "mine") /\ file_at (fst r) [s "p"; s "other.md"] <> Some (s "mine")).
Proof. vm_compute. repeat split; discriminate. Qed.
