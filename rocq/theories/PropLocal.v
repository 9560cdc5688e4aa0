(** Properties C90, C91: what a change of a project reaches; that it does not matter where something is written. *)
From Coq Require Import ZArith Lia ZifyBool Permutation Relations.
From Verif Require Import Base BaseFacts Regex Name SpecName NameFacts RawNames Artifact Stored SpecGraph Topo SpecLinks LinkFacts Numbers SpecCompletion
  Markdown SpecMarkdown YamlExample Lint SpecLint Source SpecJoin JoinFacts JoinThms Pool PoolFacts Load LoadFacts SpecLoad CheckFacts DeterFacts
  ReadThms PropArtifacts PropCompleted PropMarkdown PropLint PropSource PropLoad JsonArt JsonArtFacts SpecLocal LocalFacts RestateFacts ElsewhereFacts.
Open Scope nat_scope.

(** ** C90 a change is felt only by what it is part of

    Two loads of a project, before and after a change.  [X] are the names of the artifacts that were
    added, removed or changed: their own text, links and marks, or the references to them in the
    source.  An artifact below which, before and after, there is none of them keeps its completion. *)
Theorem C90_local : forall path_str yaml parse_toml parse_json parse_msg prefix topo H hash_im settings_path url_error,
  parser_ok parse_toml -> parser_ok parse_json -> topo_ok topo ->
  forall n n' afs afs' cfs cfs' c c' p p' X,
  walk_lints_ok afs -> walk_lints_ok cfs -> walk_lints_ok afs' -> walk_lints_ok cfs' ->
  loads path_str yaml parse_toml parse_json parse_msg prefix exact_num topo H hash_im settings_path url_error n afs cfs (Ok (inl (c, p))) ->
  loads path_str yaml parse_toml parse_json parse_msg prefix exact_num topo H hash_im settings_path url_error n' afs' cfs' (Ok (inl (c', p'))) ->
  ~ cyclic (pr_arts p) -> ~ cyclic (pr_arts p') -> changed_only X (pr_arts p) (pr_arts p') ->
  forall m a m' a', In (m, a) (pr_arts p) -> In (m', a') (pr_arts p') -> n_key m' = n_key m -> untouched X (pr_arts p) (pr_arts p') (n_key m) ->
  a_completed a = a_completed a'.
Proof. intros ps y pt pj pm px topo H h sp u TO JO TC. exact (loads_local ps y pt pj pm px TO JO topo TC H h sp u). Qed.
Print Assumptions C90_local.

(** Which changes of the files change which artifacts: whatever else is done to the files, when outside
    of [X] the artifacts say the same (in any file and case) and are referred to from the source alike, only [X] are
    changed. *)
Theorem C90_edit : forall path_str yaml parse_toml parse_json parse_msg prefix topo H hash_im settings_path url_error,
  parser_ok parse_toml -> parser_ok parse_json -> topo_ok topo ->
  forall n n' afs afs' cfs cfs' c c' p p' X,
  walk_lints_ok afs -> walk_lints_ok cfs -> walk_lints_ok afs' -> walk_lints_ok cfs' ->
  killers (load_file path_str yaml parse_toml parse_json parse_msg prefix) afs < n -> killers (load_file path_str yaml parse_toml parse_json parse_msg prefix) afs' < n' ->
  killers (load_locations path_str) cfs < 4 -> killers (load_locations path_str) cfs' < 4 ->
  loads path_str yaml parse_toml parse_json parse_msg prefix exact_num topo H hash_im settings_path url_error n afs cfs (Ok (inl (c, p))) ->
  loads path_str yaml parse_toml parse_json parse_msg prefix exact_num topo H hash_im settings_path url_error n' afs' cfs' (Ok (inl (c', p'))) ->
  edits_only X (file_arts (load_file path_str yaml parse_toml parse_json parse_msg prefix) afs) (file_arts (load_file path_str yaml parse_toml parse_json parse_msg prefix) afs')
    (file_refs path_str cfs) (file_refs path_str cfs') ->
  changed_only X (pr_arts p) (pr_arts p').
Proof. intros ps y pt pj pm px topo H h sp u TO JO TC. exact (loads_edit ps y pt pj pm px TO JO topo TC H h sp u). Qed.
Print Assumptions C90_edit.

(** *** An example, and why there must be no cycle *)
Definition mem_key (k : str) (l : list str) : bool := existsb (str_eqb k) l.
Lemma mem_key_in k l : mem_key k l = true <-> In k l.
Proof. unfold mem_key. rewrite existsb_exists. split; [intros (x & Hx & E); apply str_eqb_eq in E; now subst|intros Hk; exists k; split; auto; now apply str_eqb_eq]. Qed.
Definition closedb {M H} (out : list (name * artifact M H)) (K : list str) : bool :=
  forallb (fun e => negb (mem_key (n_key (fst e)) K) || forallb (fun p => mem_key (n_key p) K) (a_parts (snd e))) out.
Lemma closed_reach {M H} (out : list (name * artifact M H)) K k j : closedb out K = true -> In k K -> reaches out k j -> In j K.
Proof.
  intros C Hk R. induction R as [x y (n & a & p & Hn & <- & Hp & <-)| |x y z _ I1 _ I2]; auto.
  unfold closedb in C. rewrite forallb_forall in C. specialize (C (n, a) Hn). cbn [fst snd] in C. apply orb_true_iff in C as [C|C].
  - apply negb_true_iff in C. apply mem_key_in in Hk. congruence.
  - rewrite forallb_forall in C. apply mem_key_in. auto.
Qed.
Definition rankedb {M H} (out : list (name * artifact M H)) (f : str -> nat) : bool :=
  forallb (fun e => forallb (fun p => f (n_key p) <? f (n_key (fst e))) (a_parts (snd e))) out.
Lemma ranked_acyclic {M H} (out : list (name * artifact M H)) f : rankedb out f = true -> ~ cyclic out.
Proof.
  intros C (k & T). assert (G : forall x y, clos_trans str (SpecCompletion.below out) x y -> f y < f x).
  { intros x y T'. induction T' as [x y (n & a & p & Hn & <- & Hp & <-)|x y z _ I1 _ I2]; [|lia].
    unfold rankedb in C. rewrite forallb_forall in C. specialize (C (n, a) Hn). cbn [fst snd] in C. rewrite forallb_forall in C. specialize (C p Hp). apply Nat.ltb_lt. exact C. }
  pose proof (G k k T). lia.
Qed.
Definition rank_ty (k : str) : nat := match k with 82%N :: _ => 2 | 83%N :: _ => 1 | _ => 0 end.

Definition ex_before := [md (s "a.md") [s "# REQ-a"; s "top"; s "# SPC-a"; s "see [[.x]]"]; md (s "b.md") [s "# REQ-b"; s "other"; s "# SPC-b"; s "all"]].
Definition ex_after := [md (s "all.md") [s "# req-A"; s "top"; s "# SPC-b"; s "all of [[.y]] and [[.z]]"; s "# REQ-b"; s "other"; s "# SPC-a"; s "see [[.x]]"; s "# SPC-b-more"; s "new"]].
Definition ex_after_cycle := ex_before ++ [md (s "c.md") [s "# SPC-c"; s "partof: SPC-d"; s "###"; s "# SPC-d"; s "partof: SPC-c"; s "###"]].
Definition ex_src := [src (s "x.rs") [s "// #SPC-a"; s "// #SPC-b"]].
Definition ex_src2 := [src (s "x.rs") [s "// #SPC-b.y"; s "//"; s "// #spc-A"]].
Definition loaded (r : res (lints * project exact_num str + lints)) : list (name * artifact exact_num str) :=
  match r with Ok (inl (_, p)) => pr_arts p | _ => [] end.
Definition done_of (out : list (name * artifact exact_num str)) : list (str * (Z * Z)) := map (fun e => (n_key (fst e), a_completed (snd e))) out.
Definition ex_changed : str -> Prop := fun k => In k [s "SPC-B"; s "SPC-B-MORE"].

(** SPC-b gets two subnames, a part, and loses its reference in the source; everything moves to one
    file, in another order, and REQ-a is spelled otherwise.  The completion of REQ-a and SPC-a stays, that
    of REQ-b does not. *)
Definition ex_p := loaded (ex_seq exact_num 2 ex_before ex_src).
Definition ex_p' := loaded (ex_seq exact_num 2 ex_after ex_src2).
Notation ex_job := (load_file ex_path ex_yaml no_parser no_parser (fun _ _ => s "bad") []).
Example C90_example :
  done_of ex_p = [(s "REQ-A", (500, 0)); (s "REQ-B", (1000, 0)); (s "SPC-A", (500, 0)); (s "SPC-B", (1000, 0))]%Z /\
  done_of ex_p' = [(s "REQ-A", (500, 0)); (s "REQ-B", (250, 0)); (s "SPC-A", (500, 0)); (s "SPC-B", (250, 0)); (s "SPC-B-MORE", (0, 0))]%Z /\
  ~ cyclic ex_p /\ ~ cyclic ex_p' /\
  killers ex_job ex_before < 2 /\ killers ex_job ex_after < 2 /\ killers (load_locations ex_path) ex_src < 4 /\ killers (load_locations ex_path) ex_src2 < 4.
Proof.
  split; [vm_compute; reflexivity|]. split; [vm_compute; reflexivity|].
  split; [apply (ranked_acyclic _ rank_ty); vm_compute; reflexivity|]. split; [|vm_compute; repeat split; lia].
  apply (ranked_acyclic _ (fun k => 10 * rank_ty k + (10 - length k))). vm_compute. reflexivity.
Qed.
Lemma named_nil q : ~ named q [].
Proof. intros (r & [] & _). Qed.
Example C90_hypotheses :
  edits_only ex_changed (file_arts ex_job ex_before) (file_arts ex_job ex_after) (file_refs ex_path ex_src) (file_refs ex_path ex_src2) /\
  untouched ex_changed ex_p ex_p' (s "REQ-A") /\ untouched ex_changed ex_p ex_p' (s "SPC-A") /\ ~ untouched ex_changed ex_p ex_p' (s "REQ-B").
Proof.
  assert (U : forall k, In k [s "REQ-A"; s "SPC-A"] -> untouched ex_changed ex_p ex_p' k).
  { intros k Hk j [R|R].
    - apply (closed_reach ex_p [s "REQ-A"; s "SPC-A"] k j) in R; [|vm_compute; reflexivity|exact Hk]. intros Xj. destruct R as [<-|[<-|[]]]; destruct Xj as [E|[E|[]]]; discriminate E.
    - apply (closed_reach ex_p' [s "REQ-A"; s "SPC-A"] k j) in R; [|vm_compute; reflexivity|exact Hk]. intros Xj. destruct R as [<-|[<-|[]]]; destruct Xj as [E|[E|[]]]; discriminate E. }
  split; [|split; [apply U; now left|split; [apply U; right; now left|]]].
  - split; [|split; [|split]].
    + intros a Ha Nx. vm_compute in Ha. destruct Ha as [<-|[<-|[<-|[<-|[]]]]].
      * eexists. split; [vm_compute; left; reflexivity|]. split; [reflexivity|]. split; [reflexivity|]. split; [reflexivity|]. intros q _ _. split; intros N; destruct (named_nil _ N).
      * eexists. split; [vm_compute; do 3 right; left; reflexivity|]. split; [reflexivity|]. split; [reflexivity|]. split; [reflexivity|]. intros q _ _. split; intros N; destruct (named_nil _ N).
      * eexists. split; [vm_compute; do 2 right; left; reflexivity|]. split; [reflexivity|]. split; [reflexivity|]. split; [reflexivity|]. intros q _ _. split; intros N; destruct (named_nil _ N).
      * exfalso. apply Nx. left. reflexivity.
    + intros a Ha Nx. vm_compute in Ha. destruct Ha as [<-|[<-|[<-|[<-|[<-|[]]]]]].
      * eexists. split; [vm_compute; left; reflexivity|]. reflexivity.
      * exfalso. apply Nx. left. reflexivity.
      * eexists. split; [vm_compute; do 2 right; left; reflexivity|]. reflexivity.
      * eexists. split; [vm_compute; do 1 right; left; reflexivity|]. reflexivity.
      * exfalso. apply Nx. right. left. reflexivity.
    + intros r Hr Nx. vm_compute in Hr. destruct Hr as [<-|[<-|[]]].
      * eexists. split; [vm_compute; do 1 right; left; reflexivity|]. split; [apply str_ci_upper; reflexivity|exact I].
      * exfalso. apply Nx. left. reflexivity.
    + intros r Hr Nx. vm_compute in Hr. destruct Hr as [<-|[<-|[]]].
      * exfalso. apply Nx. left. reflexivity.
      * eexists. split; [vm_compute; left; reflexivity|]. split; [apply str_ci_upper; reflexivity|exact I].
  - intros Un. apply (Un (s "SPC-B")); [|left; reflexivity]. left. apply rt_step.
    destruct (nth_error ex_p 1) as [[n a]|] eqn:E; [|vm_compute in E; discriminate E]. exists n, a. vm_compute in E. injection E as <- <-.
    eexists. split; [vm_compute; right; left; reflexivity|]. split; [reflexivity|]. split; [left; reflexivity|reflexivity].
Qed.

(** With a cycle all completion is zero (C17): then a change is felt everywhere. *)
Theorem C90_cycles_refuted : ~ forall n n' afs afs' cfs cfs' c c' p p' X,
  walk_lints_ok afs -> walk_lints_ok cfs -> walk_lints_ok afs' -> walk_lints_ok cfs' ->
  ex_load exact_num n afs cfs (Ok (inl (c, p))) -> ex_load exact_num n' afs' cfs' (Ok (inl (c', p'))) ->
  ~ cyclic (pr_arts p) -> changed_only X (pr_arts p) (pr_arts p') ->
  forall m a m' a', In (m, a) (pr_arts p) -> In (m', a') (pr_arts p') -> n_key m' = n_key m -> untouched X (pr_arts p) (pr_arts p') (n_key m) ->
  a_completed a = a_completed a'.
Proof.
  intros F.
  assert (Wc : walk_lints_ok ex_src) by (intros x [E|[]]; discriminate E).
  assert (W1 : walk_lints_ok ex_before) by (intros x [E|[E|[]]]; discriminate E).
  assert (W2 : walk_lints_ok ex_after_cycle) by (intros x [E|[E|[E|[]]]]; discriminate E).
  pose proof (ex_seq_loads exact_num 2 ex_before ex_src) as L1. pose proof (ex_seq_loads exact_num 2 ex_after_cycle ex_src) as L2.
  destruct (ex_seq exact_num 2 ex_before ex_src) as [[[c p]|c]| |] eqn:E1; [|vm_compute in E1; discriminate E1..].
  destruct (ex_seq exact_num 2 ex_after_cycle ex_src) as [[[c' p']|c']| |] eqn:E2; [|vm_compute in E2; discriminate E2..].
  assert (P1 : pr_arts p = loaded (ex_seq exact_num 2 ex_before ex_src)) by now rewrite E1.
  assert (P2 : pr_arts p' = loaded (ex_seq exact_num 2 ex_after_cycle ex_src)) by now rewrite E2.
  set (X := fun k => In k [s "SPC-C"; s "SPC-D"]).
  assert (Ed : edits_only X (file_arts ex_job ex_before) (file_arts ex_job ex_after_cycle) (file_refs ex_path ex_src) (file_refs ex_path ex_src)).
  { split; [|split; [|split]].
    - intros a Ha Nx. exists a. split; [|split; [reflexivity|split; [reflexivity|split; [reflexivity|intros; reflexivity]]]].
      unfold ex_after_cycle, file_arts. rewrite flat_map_app. apply in_or_app. left. exact Ha.
    - intros a Ha Nx. unfold ex_after_cycle, file_arts in Ha. rewrite flat_map_app in Ha. apply in_app_iff in Ha as [Ha|Ha]; [exists a; auto|]. exfalso. apply Nx.
      vm_compute in Ha. destruct Ha as [<-|[<-|[]]]; [left; reflexivity|right; left; reflexivity].
    - intros r Hr _. exists r. split; auto. split; [apply str_ci_upper; reflexivity|]. destruct (ref_sub r); [apply str_ci_upper; reflexivity|exact I].
    - intros r Hr _. exists r. split; auto. split; [apply str_ci_upper; reflexivity|]. destruct (ref_sub r); [apply str_ci_upper; reflexivity|exact I]. }
  assert (C : changed_only X (pr_arts p) (pr_arts p')).
  { refine (C90_edit _ _ _ _ _ _ _ _ _ _ _ no_parser_ok no_parser_ok topo_sort_ok 2 2 ex_before ex_after_cycle ex_src ex_src c c' p p' X W1 Wc W2 Wc _ _ _ _ L1 L2 Ed); vm_compute; lia. }
  assert (G : forall e f, nth_error (pr_arts p) 2 = Some e -> nth_error (pr_arts p') 2 = Some f -> n_key (fst e) = s "SPC-A" -> n_key (fst f) = s "SPC-A" -> a_completed (snd e) = (500, 0)%Z -> a_completed (snd f) = (0, 0)%Z -> False).
  { intros [m a] [m' a'] Hm Hm' Em Em' Ca Ca'. cbn [fst snd] in *.
    assert (Q : a_completed a = a_completed a').
    { apply (F 2 2 ex_before ex_after_cycle ex_src ex_src c c' p p' X W1 Wc W2 Wc L1 L2) with (m := m) (m' := m').
      - rewrite P1. apply (ranked_acyclic _ rank_ty). vm_compute. reflexivity.
      - exact C.
      - eapply nth_error_In; eauto.
      - eapply nth_error_In; eauto.
      - congruence.
      - rewrite Em. intros j [R|R].
        + rewrite P1 in R. apply (closed_reach _ [s "SPC-A"]) in R; [|vm_compute; reflexivity|now left]. intros Xj. destruct R as [<-|[]]. destruct Xj as [E|[E|[]]]; discriminate E.
        + rewrite P2 in R. apply (closed_reach _ [s "SPC-A"]) in R; [|vm_compute; reflexivity|now left]. intros Xj. destruct R as [<-|[]]. destruct Xj as [E|[E|[]]]; discriminate E. }
    rewrite Ca, Ca' in Q. discriminate Q. }
  assert (O : forall A B (f : A -> B) o x y, option_map f o = Some y -> o = Some x -> f x = y) by (intros A B f o x y E Eo; rewrite Eo in E; cbn [option_map] in E; congruence).
  rewrite P1, P2 in G. destruct (nth_error (loaded (ex_seq exact_num 2 ex_before ex_src)) 2) as [e|] eqn:N1; [|vm_compute in N1; discriminate N1].
  destruct (nth_error (loaded (ex_seq exact_num 2 ex_after_cycle ex_src)) 2) as [f|] eqn:N2; [|vm_compute in N2; discriminate N2].
  apply (G e f eq_refl eq_refl).
  - refine (O _ _ (fun e => n_key (fst e)) _ e _ _ N1). vm_compute. reflexivity.
  - refine (O _ _ (fun e => n_key (fst e)) _ f _ _ N2). vm_compute. reflexivity.
  - refine (O _ _ (fun e : name * artifact exact_num str => a_completed (snd e)) _ e _ _ N1). vm_compute. reflexivity.
  - refine (O _ _ (fun e : name * artifact exact_num str => a_completed (snd e)) _ f _ _ N2). vm_compute. reflexivity.
Qed.
Print Assumptions C90_cycles_refuted.

(** ** C91 it does not matter where something is written

    Two sets of files that say the same: the artifacts of the one are those of the other, in any files of any
    format, in any order and case of names; the references in the source are the same, in any files, lines
    and case.  (Files that cannot be read give complaints; there are some with the one exactly when there are some
    with the other.)  Then [art check] has the same status, and loading gives projects that say the same. *)
Theorem C91_elsewhere : forall path_str yaml parse_toml parse_json parse_msg prefix,
  parser_ok parse_toml -> parser_ok parse_json ->
  forall M topo, topo_ok topo -> forall H hash_im settings_path url_error n n' afs afs' cfs cfs' r r',
  walk_lints_ok afs -> walk_lints_ok cfs -> walk_lints_ok afs' -> walk_lints_ok cfs' ->
  let lf := load_file path_str yaml parse_toml parse_json parse_msg prefix in
  let ll := load_locations path_str in
  killers lf afs < n -> killers lf afs' < n' -> killers ll cfs < 4 -> killers ll cfs' < 4 ->
  (quiet lf afs <-> quiet lf afs') -> (quiet ll cfs <-> quiet ll cfs') ->
  arts_restated (file_arts lf afs) (file_arts lf afs') -> refs_restated (file_refs path_str cfs) (file_refs path_str cfs') ->
  loads path_str yaml parse_toml parse_json parse_msg prefix M topo H hash_im settings_path url_error n afs cfs r ->
  loads path_str yaml parse_toml parse_json parse_msg prefix M topo H hash_im settings_path url_error n' afs' cfs' r' ->
  exit_status r = exit_status r' /\
  forall c p, r = Ok (inl (c, p)) -> exists c' p', r' = Ok (inl (c', p')) /\
    Forall2 (fun e f => n_key (fst e) = n_key (fst f) /\ art_alike (snd e) (snd f)) (pr_arts p) (pr_arts p').
Proof. intros ps y pt pj pm px TO JO M topo TC H h sp u. exact (loads_alike ps y pt pj pm px TO JO M topo TC H h sp u). Qed.
Print Assumptions C91_elsewhere.

(** With exact arithmetic the completions are equal as well, with cycles or without. *)
Theorem C91_completion : forall path_str yaml parse_toml parse_json parse_msg prefix topo H hash_im settings_path url_error,
  parser_ok parse_toml -> parser_ok parse_json -> topo_ok topo ->
  forall n n' afs afs' cfs cfs' c c' p p',
  walk_lints_ok afs -> walk_lints_ok cfs -> walk_lints_ok afs' -> walk_lints_ok cfs' ->
  let lf := load_file path_str yaml parse_toml parse_json parse_msg prefix in
  let ll := load_locations path_str in
  killers lf afs < n -> killers lf afs' < n' -> killers ll cfs < 4 -> killers ll cfs' < 4 ->
  arts_restated (file_arts lf afs) (file_arts lf afs') -> refs_restated (file_refs path_str cfs) (file_refs path_str cfs') ->
  loads path_str yaml parse_toml parse_json parse_msg prefix exact_num topo H hash_im settings_path url_error n afs cfs (Ok (inl (c, p))) ->
  loads path_str yaml parse_toml parse_json parse_msg prefix exact_num topo H hash_im settings_path url_error n' afs' cfs' (Ok (inl (c', p'))) ->
  forall m a m' a', In (m, a) (pr_arts p) -> In (m', a') (pr_arts p') -> n_key m' = n_key m -> a_completed a = a_completed a'.
Proof. intros ps y pt pj pm px topo H h sp u TO JO TC. exact (loads_alike_completed ps y pt pj pm px TO JO topo TC H h sp u). Qed.
Print Assumptions C91_completion.

Notation ex_job2 := (load_file ex_path ex_yaml no_parser json_parse (fun _ _ => s "bad") []).
Definition ex_seq2 := seq_load ex_path ex_yaml no_parser json_parse (fun _ _ => s "bad") [] exact_num topo_sort str ex_hash [s "settings.toml"] None.
Definition ex_here := [md (s "a.md") [s "# REQ-a"; s "top"; s "# SPC-a"; s "partof: REQ-b"; s "###"; s "see [[.x]]"]; md (s "b.md") [s "# REQ-b"; ex_yaml_done (s "by hand"); s "###"; s "other"]].
Definition qq (x : str) : str := [34%N] ++ x ++ [34%N].
Definition ex_json : str := s "{" ++ qq (s "spc-A") ++ s ": {" ++ qq (s "partof") ++ s ": " ++ qq (s "req-B") ++ s ", " ++ qq (s "text") ++ s ": " ++ qq (s "see [[.x]]") ++ s "}, " ++
  qq (s "REQ-B") ++ s ": {" ++ qq (s "done") ++ s ": " ++ qq (s "by hand") ++ s ", " ++ qq (s "text") ++ s ": " ++ qq (s "other") ++ s "}}".
Definition ex_there := [inl (mkAF [s "x"; s "all.json"] (inl ex_json)); md (s "z.md") [s "# req-a"; s "top"]].
Definition ex_src3 := [src (s "x.rs") [s "// #SPC-a"; s "// #SPC-a.x"]].
Definition ex_src4 := [src (s "y.py") [s "#spc-A.X"]; src (s "z.py") [s "  # a comment"; s "  # #SPC-A"]].
(** Three artifacts in two files of markdown, and in one of JSON and one of markdown. *)
Example C91_example :
  arts_restated (file_arts ex_job2 ex_here) (file_arts ex_job2 ex_there) /\ refs_restated (file_refs ex_path ex_src3) (file_refs ex_path ex_src4) /\
  quiet ex_job2 ex_here /\ quiet ex_job2 ex_there /\ quiet (load_locations ex_path) ex_src3 /\ quiet (load_locations ex_path) ex_src4 /\
  killers ex_job2 ex_here < 2 /\ killers ex_job2 ex_there < 2 /\ killers (load_locations ex_path) ex_src3 < 4 /\ killers (load_locations ex_path) ex_src4 < 4 /\
  exit_status (ex_seq2 2 ex_here ex_src3) = 0 /\ exit_status (ex_seq2 2 ex_there ex_src4) = 0 /\
  done_of (loaded (ex_seq2 2 ex_here ex_src3)) = [(s "REQ-A", (1000, 0)); (s "REQ-B", (1000, 500)); (s "SPC-A", (1000, 0))]%Z /\
  done_of (loaded (ex_seq2 2 ex_there ex_src4)) = [(s "REQ-A", (1000, 0)); (s "REQ-B", (1000, 500)); (s "SPC-A", (1000, 0))]%Z.
Proof.
  split; [|split; [|split; [|split; [|split; [|split; [|vm_compute; repeat split; lia]]]]]].
  - destruct (file_arts ex_job2 ex_there) as [|a [|b [|c [|]]]] eqn:E; [vm_compute in E; discriminate E..| |vm_compute in E; discriminate E].
    exists [c; a; b]. split; [apply (perm_trans (l' := [a; c; b])); [apply perm_skip, perm_swap|apply perm_swap]|]. vm_compute in E. injection E as <- <- <-.
    vm_compute. constructor; [|constructor; [|constructor; [|constructor]]]; (split; [reflexivity|split; [reflexivity|split; [reflexivity|]]]); intros q _ _.
    + tauto.
    + split; intros (r & [<-|[]] & Er); (eexists; split; [left; reflexivity|exact Er]).
    + tauto.
  - destruct (file_refs ex_path ex_src4) as [|a [|b [|]]] eqn:E; [vm_compute in E; discriminate E..| |vm_compute in E; discriminate E].
    exists [b; a]. split; [apply perm_swap|]. vm_compute in E. injection E as <- <-. unfold file_refs. vm_compute file_refs.
    constructor; [|constructor; [|constructor]]; (split; [apply str_ci_upper; reflexivity|]); [exact I|apply str_ci_upper; reflexivity].
  - split; [intros f [E|[E|[]]]; injection E as <-; vm_compute; reflexivity|intros x [E|[E|[]]]; discriminate E].
  - split; [intros f [E|[E|[]]]; injection E as <-; vm_compute; reflexivity|intros x [E|[E|[]]]; discriminate E].
  - split; [intros f [E|[]]; injection E as <-; vm_compute; reflexivity|intros x [E|[]]; discriminate E].
  - split; [intros f [E|[E|[]]]; injection E as <-; vm_compute; reflexivity|intros x [E|[E|[]]]; discriminate E].
Qed.
