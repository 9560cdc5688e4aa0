(** Properties C92, C93: what a markdown file says, and cutting one in two. *)
From Coq Require Import ZArith Lia Permutation.
From Verif Require Import Base BaseFacts Regex Name SpecName NameFacts RawNames Artifact Stored SpecGraph Topo SpecLinks LinkFacts Numbers SpecCompletion
  Markdown SpecMarkdown YamlExample Lint SpecLint Source SpecJoin JoinFacts Pool Load LoadFacts SpecLoad LineFacts
  PropArtifacts PropCompleted PropMarkdown PropLint PropSource PropLoad SpecLocal ElsewhereFacts PropLocal SpecMdFile MdFileFacts CutFacts SpecExpand SpecJsonArt MdPanicFacts.
Open Scope nat_scope.

(** ** C92 a markdown file is read as what it says

    The reader accepts exactly the files of the grammar in SpecMdFile.v, and what it reads are the
    artifacts they say.  [yaml] is the YAML library. *)
Theorem C92_reads : forall yaml prefix x l, from_markdown yaml prefix x = Ok l <-> md_says yaml prefix x l.
Proof. exact reads_says. Qed.
Print Assumptions C92_reads.
(** The reader is stopped only by a header, or by a link in attributes, that names an artifact with
    the type spelled with a long s. *)
Theorem C92_stops : forall yaml prefix x ls, lines_of x ls -> from_markdown yaml prefix x = Panic ->
  (exists l y, In l ls /\ header_line prefix l y /\ longs_name y) \/
  (exists a d v z, (forall l, In l a -> In l ls) /\ yaml (join [10%N] a) = Some (d, Some v) /\ (v = VStr z \/ exists zs, v = VSeq zs /\ In z zs) /\ longs_list z).
Proof. exact md_panic. Qed.
Print Assumptions C92_stops.

Notation md_of x := (from_markdown ex_yaml [] x).
Example C92_stopped : from_markdown ex_yaml [] (lns [s "# " ++ 383%N :: s "PC-a"]) = Panic /\ from_markdown ex_yaml [] (lns [s "# SPC-a"; s "partof: " ++ 383%N :: s "PC-b"; s "###"]) = Panic.
Proof. vm_compute. auto. Qed.
(** Both ways to write attributes, lines above the first header, and the end of the file within a
    block. *)
Definition ex_file : str := lns [s "About this file."; s "```art"; s "done: no"; s "```"; s "###"; s "";
  s "# REQ-a"; s "partof: REQ-b"; s "###"; s "first"; s "second  "; s "";
  s "#SPC-a  "; s "above"; s "```yaml art"; ex_yaml_done (s "by hand # REQ-c"); s "```"; s "below";
  s "# TST-a" ++ [13%N]; s "text"; s "``` art"; s "lost"; s "# SPC-lost"].
Example C92_example : exists l, md_says ex_yaml [] ex_file l /\
  map (fun e => (n_raw (fst e), raw_done (snd e), option_map (map n_raw) (raw_partof (snd e)), raw_text (snd e))) l =
    [(s "REQ-a", None, Some [s "REQ-b"], Some (lns [s "first"; s "second"; []]));
     (s "SPC-a", Some (s "by hand # REQ-c"), None, Some (lns [s "above"; s "below"; []]));
     (s "TST-a", None, None, Some (lns [s "text"; s "``` art"; []]))].
Proof.
  destruct (md_of ex_file) as [l| |] eqn:E; [|vm_compute in E; discriminate E..]. exists l. split; [now apply C92_reads|].
  vm_compute in E. injection E as <-. reflexivity.
Qed.
(** Attributes twice, a name twice, a name that is none: such a file says nothing. *)
Example C92_refused : forall l,
  ~ md_says ex_yaml [] (lns [s "# REQ-a"; s "partof: REQ-b"; s "###"; s "```art"; s "partof: REQ-c"; s "```"]) l /\
  ~ md_says ex_yaml [] (lns [s "# REQ-a"; s "text"; s "# req-A"]) l /\
  ~ md_says ex_yaml [] (lns [s "# REQ-a"; s "partof: REQ"; s "###"]) l.
Proof. intros l. split; [|split]; intros H; apply C92_reads in H; vm_compute in H; discriminate H. Qed.

(** ** C93 a markdown file can be cut in two at any header, and two files be joined *)
Theorem C93_cut : forall yaml prefix x y l, cut_at_header prefix x y ->
  from_markdown yaml prefix (x ++ y) = Ok l <->
  exists l1 l2, l = l1 ++ l2 /\ from_markdown yaml prefix x = Ok l1 /\ from_markdown yaml prefix y = Ok l2 /\
    forall e f, In e l1 -> In f l2 -> n_key (fst e) <> n_key (fst f).
Proof. exact cut_reads. Qed.
Print Assumptions C93_cut.

Lemma md_type p : md_path p -> art_type_of p = Some TMd.
Proof.
  intros (d & f & N & ->). unfold art_type_of, extension. rewrite rev_app_distr. cbn [rev app].
  assert (E : rsplit c_dot (f ++ s ".md") = Some (f, s "md")).
  { apply rsplit_some. split; [reflexivity|]. intros [E|[E|[]]]; discriminate E. }
  rewrite E. destruct f; [contradiction|reflexivity].
Qed.
Section Cut.
  Variable path_str : path -> str.
  Variable yaml : str -> option (option str * option names_val).
  Variables parse_toml parse_json : str -> res (list (name * art_raw)).
  Variable parse_msg : path -> str -> str.
  Variable prefix : str.
  Notation lf := (load_file path_str yaml parse_toml parse_json parse_msg prefix).
  Lemma read_md p x l : md_path p -> from_markdown yaml prefix x = Ok l ->
    lf (mkAF p (inl x)) = mkJob (map (fun e => from_raw (fst e) p (snd e)) l) [] false.
  Proof. intros T E. unfold load_file. cbn [af_path af_text]. rewrite (md_type p T). unfold parse_artifacts. now rewrite E. Qed.
  Lemma restated_refl a : restated a a.
  Proof. repeat split; auto. Qed.
  Lemma cut_facts A B p q r x y l : md_path p -> md_path q -> md_path r -> cut_at_header prefix x y -> from_markdown yaml prefix (x ++ y) = Ok l ->
    let afs := A ++ inl (mkAF p (inl (x ++ y))) :: B in let afs' := A ++ inl (mkAF q (inl x)) :: inl (mkAF r (inl y)) :: B in
    killers lf afs' = killers lf afs /\ (quiet lf afs <-> quiet lf afs') /\ arts_restated (file_arts lf afs) (file_arts lf afs').
  Proof.
    intros Tp Tq Tr C E afs afs'. pose proof E as E0. apply (C93_cut yaml prefix x y l C) in E0 as (l1 & l2 & -> & E1 & E2 & _).
    pose proof (read_md p _ _ Tp E) as J. pose proof (read_md q _ _ Tq E1) as J1. pose proof (read_md r _ _ Tr E2) as J2.
    split; [|split].
    - unfold killers, afs, afs'. rewrite !filter_app, !app_length. f_equal. cbn [filter]. rewrite J, J1, J2. reflexivity.
    - unfold quiet, afs, afs'. split; intros (Q & W); (split; [intros f I|intros z I]).
      + apply in_app_or in I as [I|[I|[I|I]]]; [apply Q; apply in_or_app; now left|injection I as <-; now rewrite J1|injection I as <-; now rewrite J2|apply Q; apply in_or_app; right; now right].
      + apply in_app_or in I as [I|[I|[I|I]]]; try discriminate I; (apply (W z); apply in_or_app; [now left] || (right; now right)) || (apply (W z); apply in_or_app; right; now right).
      + apply in_app_or in I as [I|[I|I]]; [apply Q; apply in_or_app; now left|injection I as <-; now rewrite J|apply Q; apply in_or_app; right; right; now right].
      + apply in_app_or in I as [I|[I|I]]; [apply (W z); apply in_or_app; now left|discriminate I|apply (W z); apply in_or_app; right; right; now right].
    - exists (file_arts lf afs'). split; [reflexivity|]. unfold file_arts, afs, afs'. rewrite !flat_map_app. apply Forall2_app.
      { induction (flat_map _ A); constructor; auto. apply restated_refl. }
      cbn [flat_map]. rewrite J, J1, J2. cbn [jb_out]. rewrite map_app, <- app_assoc.
      assert (M : forall f g (l : list (name * art_raw)), Forall2 restated (map (fun e => from_raw (fst e) f (snd e)) l) (map (fun e => from_raw (fst e) g (snd e)) l)).
      { clear. intros f g l. induction l as [|e l IH]; [constructor|]. cbn [map]. constructor; [|exact IH]. repeat split; auto. }
      apply Forall2_app; [apply M|]. apply Forall2_app; [apply M|]. induction (flat_map _ B); constructor; auto. apply restated_refl.
  Qed.
End Cut.
Lemma refs_refl l : refs_restated l l.
Proof.
  exists l. split; [reflexivity|]. induction l as [|r l IH]; constructor; auto. split; [now apply str_ci_upper|]. destruct (ref_sub r); [now apply str_ci_upper|exact I].
Qed.
(** In a project: the file [p] with [x ++ y], or [q] with [x] and [r] with [y], which may take the
    place of [p].  [art check] ends alike, and the artifacts are the same, but for the files they are in. *)
Theorem C93_project : forall path_str yaml parse_toml parse_json parse_msg prefix,
  parser_ok parse_toml -> parser_ok parse_json ->
  forall M topo, topo_ok topo -> forall H hash_im settings_path url_error n n' A B p q r x y l cfs res res',
  let afs := A ++ inl (mkAF p (inl (x ++ y))) :: B in
  let afs' := A ++ inl (mkAF q (inl x)) :: inl (mkAF r (inl y)) :: B in
  md_path p -> md_path q -> md_path r -> cut_at_header prefix x y -> from_markdown yaml prefix (x ++ y) = Ok l ->
  walk_lints_ok afs -> walk_lints_ok cfs ->
  let lf := load_file path_str yaml parse_toml parse_json parse_msg prefix in
  killers lf afs < n -> killers lf afs < n' -> killers (load_locations path_str) cfs < 4 ->
  loads path_str yaml parse_toml parse_json parse_msg prefix M topo H hash_im settings_path url_error n afs cfs res ->
  loads path_str yaml parse_toml parse_json parse_msg prefix M topo H hash_im settings_path url_error n' afs' cfs res' ->
  exit_status res = exit_status res' /\
  forall c pr, res = Ok (inl (c, pr)) -> exists c' pr', res' = Ok (inl (c', pr')) /\
    Forall2 (fun e f => n_key (fst e) = n_key (fst f) /\ art_alike (snd e) (snd f)) (pr_arts pr) (pr_arts pr').
Proof.
  intros ps y0 pt pj pm px TO JO M topo TC H h sp u n n' A B p q r x y l cfs R R' afs afs' Tp Tq Tr C E Wa Wc lf K K' Kc L L'.
  destruct (cut_facts ps y0 pt pj pm px A B p q r x y l Tp Tq Tr C E) as (Ek & Q & RS).
  assert (Wa' : walk_lints_ok afs').
  { intros z I. apply in_app_or in I as [I|[I|[I|I]]]; try discriminate I; apply Wa; apply in_or_app; [now left|right; now right]. }
  unfold lf in *. clear lf. change (A ++ inl (mkAF p (inl (x ++ y))) :: B) with afs in Ek, Q, RS. change (A ++ inl (mkAF q (inl x)) :: inl (mkAF r (inl y)) :: B) with afs' in Ek, Q, RS. eapply (C91_elsewhere ps y0 pt pj pm px TO JO M topo TC H h sp u n n' afs afs' cfs cfs); eauto.
  - now rewrite Ek.
  - tauto.
  - apply refs_refl.
Qed.
Print Assumptions C93_project.
Theorem C93_completion : forall path_str yaml parse_toml parse_json parse_msg prefix,
  parser_ok parse_toml -> parser_ok parse_json ->
  forall topo, topo_ok topo -> forall H hash_im settings_path url_error n n' A B p q r x y l cfs c pr c' pr',
  let afs := A ++ inl (mkAF p (inl (x ++ y))) :: B in
  let afs' := A ++ inl (mkAF q (inl x)) :: inl (mkAF r (inl y)) :: B in
  md_path p -> md_path q -> md_path r -> cut_at_header prefix x y -> from_markdown yaml prefix (x ++ y) = Ok l ->
  walk_lints_ok afs -> walk_lints_ok cfs ->
  let lf := load_file path_str yaml parse_toml parse_json parse_msg prefix in
  killers lf afs < n -> killers lf afs < n' -> killers (load_locations path_str) cfs < 4 ->
  loads path_str yaml parse_toml parse_json parse_msg prefix exact_num topo H hash_im settings_path url_error n afs cfs (Ok (inl (c, pr))) ->
  loads path_str yaml parse_toml parse_json parse_msg prefix exact_num topo H hash_im settings_path url_error n' afs' cfs (Ok (inl (c', pr'))) ->
  forall m a m' a', In (m, a) (pr_arts pr) -> In (m', a') (pr_arts pr') -> n_key m' = n_key m -> a_completed a = a_completed a'.
Proof.
  intros ps y0 pt pj pm px TO JO topo TC H h sp u n n' A B p q r x y l cfs c pr c' pr' afs afs' Tp Tq Tr C E Wa Wc lf K K' Kc L L'.
  destruct (cut_facts ps y0 pt pj pm px A B p q r x y l Tp Tq Tr C E) as (Ek & Q & RS).
  assert (Wa' : walk_lints_ok afs').
  { intros z I. apply in_app_or in I as [I|[I|[I|I]]]; try discriminate I; apply Wa; apply in_or_app; [now left|right; now right]. }
  unfold lf in *. clear lf. change (A ++ inl (mkAF p (inl (x ++ y))) :: B) with afs in Ek, Q, RS. change (A ++ inl (mkAF q (inl x)) :: inl (mkAF r (inl y)) :: B) with afs' in Ek, Q, RS. eapply (C91_completion ps y0 pt pj pm px topo H h sp u TO JO TC n n' afs afs' cfs cfs); eauto.
  - now rewrite Ek.
  - apply refs_refl.
Qed.
Print Assumptions C93_completion.
(** A file with two artifacts and a block in between, cut before the second. *)
Definition ex_x : str := lns [s "# REQ-a"; s "```art"; s "partof: REQ-b"; s "```"; s "first"; s ""; []].
Definition ex_y : str := lns [s "#REQ-b"; s "second"].
Example C93_example : cut_at_header [] ex_x ex_y /\
  (exists l1 l2, md_of (ex_x ++ ex_y) = Ok (l1 ++ l2) /\ md_of ex_x = Ok l1 /\ md_of ex_y = Ok l2 /\ length l1 = 1 /\ length l2 = 1) /\
  md_path [s "design"; s "a.md"] /\
  let one := [inl (mkAF [s "a.md"] (inl (ex_x ++ ex_y)))] in let two := [inl (mkAF [s "a.md"] (inl ex_x)); inl (mkAF [s "b.md"] (inl ex_y))] in
  killers ex_job2 one < 2 /\ exit_status (ex_seq2 2 one ex_src3) = exit_status (ex_seq2 2 two ex_src3) /\
  done_of (loaded (ex_seq2 2 one ex_src3)) = done_of (loaded (ex_seq2 2 two ex_src3)) /\ length (done_of (loaded (ex_seq2 2 one ex_src3))) = 2.
Proof.
  split; [|split; [|split; [|vm_compute; repeat split; lia]]].
  - split; [right; eexists (lns [s "# REQ-a"; s "```art"; s "partof: REQ-b"; s "```"; s "first"; s ""]); vm_compute; reflexivity|]. split.
    + exists [s "# REQ-a"; s "```art"; s "partof: REQ-b"; s "```"; s "first"; []]. split; [apply lines_buf; vm_compute; reflexivity|].
      assert (N : forall l, ~ In 10%N l -> is_match_full attrs_code_re l = false -> ~ opener_line l) by (intros l Nl E O; apply opener_line_iff in O; congruence).
      apply cl_line; [apply N; [|reflexivity]; vm_compute; intuition discriminate|].
      apply (cl_block (s "```art") [s "partof: REQ-b"] (s "```")).
      * apply opener_line_iff; [|reflexivity]. vm_compute; intuition discriminate.
      * constructor; [|constructor]. intros C. apply closer_line_iff in C. vm_compute in C. discriminate C.
      * apply closer_line_iff. reflexivity.
      * apply cl_line; [apply N; [|reflexivity]; vm_compute; intuition discriminate|]. apply cl_line; [apply N; [|reflexivity]; vm_compute; intuition discriminate|]. constructor.
    + exists (s "#REQ-b"), [s "second"], (s "REQ-b"). split; [apply lines_buf; vm_compute; reflexivity|]. apply header_iff. vm_compute. reflexivity.
  - destruct (md_of ex_x) as [l1| |] eqn:E1; [|vm_compute in E1; discriminate E1..]. destruct (md_of ex_y) as [l2| |] eqn:E2; [|vm_compute in E2; discriminate E2..].
    exists l1, l2. vm_compute in E1, E2. injection E1 as <-. injection E2 as <-. vm_compute. auto.
  - exists [s "design"], (s "a"). split; [discriminate|reflexivity].
Qed.
