(** Properties C34, C46, C59-C62: loading a project with reader threads.

    [loads n afs cfs r]: with [n] readers of artifact files and 4 readers of source files, some
    interleaving of the threads on the artifact files [afs] and source files [cfs] (in the order
    in which the walks find them, with the lints of the walks) has the result [r].  The parsers of
    toml and json are assumed to give parsed names; everything else about them is arbitrary, like
    the yaml library, the ids and the rendering of paths. *)
From Coq Require Import ZArith Lia ZifyBool Permutation Relation_Operators.
From Coq Require SpecFloat.
From Verif Require Import Base BaseFacts Regex Name SpecName NameFacts RawNames Artifact Stored SpecGraph Topo SpecLinks LinkFacts Numbers FloatNum
  Markdown SpecMarkdown SpecHeads YamlExample HeadFacts Lint SpecLint Source SpecJoin Pool PoolFacts Load LoadFacts SpecLoad CheckFacts DeterFacts
  ReadThms Schedules PropArtifacts PropCompleted PropMarkdown PropLint PropSource.

Open Scope nat_scope.

(** The load in which every file is finished before the next is taken. *)
Definition seq_load path_str yaml parse_toml parse_json parse_msg prefix M topo H hash_im settings_path url_error n afs cfs :=
  let ai := art_items path_str yaml parse_toml parse_json parse_msg prefix afs in
  let ci := code_items path_str cfs in
  let arts := flat_map jb_out (taken n (jobs_of ai)) in
  let refs := flat_map jb_out (taken 4 (jobs_of ci)) in
  finish path_str prefix M topo H hash_im settings_path url_error
    (seq_lints 4 ci ++ seq_lints n ai ++ collect_lints path_str arts refs) arts refs.
Lemma seq_loads path_str yaml parse_toml parse_json parse_msg prefix M topo H hash_im settings_path url_error n afs cfs :
  loads path_str yaml parse_toml parse_json parse_msg prefix M topo H hash_im settings_path url_error n afs cfs
    (seq_load path_str yaml parse_toml parse_json parse_msg prefix M topo H hash_im settings_path url_error n afs cfs).
Proof.
  unfold loads, seq_load. do 5 eexists. split; [apply run_seq|]. split; [apply run_seq|]. split; reflexivity.
Qed.
(** The load of files that are finished in the given orders. *)
Definition any_load path_str yaml parse_toml parse_json parse_msg prefix M topo H hash_im settings_path url_error (afs : list art_file) (cfs : list code_file) :=
  let lf := load_file path_str yaml parse_toml parse_json parse_msg prefix in
  let ll := load_locations path_str in
  let arts := flat_map (fun f => jb_out (lf f)) afs in
  let refs := flat_map (fun f => jb_out (ll f)) cfs in
  finish path_str prefix M topo H hash_im settings_path url_error
    (flat_map (fun f => jb_lints (ll f)) cfs ++ flat_map (fun f => jb_lints (lf f)) afs ++ collect_lints path_str arts refs) arts refs.
Lemma any_loads path_str yaml parse_toml parse_json parse_msg prefix M topo H hash_im settings_path url_error n afs afs' cfs cfs' :
  let lf := load_file path_str yaml parse_toml parse_json parse_msg prefix in
  let ll := load_locations path_str in
  0 < n -> length afs <= n -> length afs <= 128 -> length cfs <= 4 -> forallb (fun f => negb (jb_panic (lf f))) afs = true -> forallb (fun f => negb (jb_panic (ll f))) cfs = true ->
  Permutation afs afs' -> Permutation cfs cfs' ->
  loads path_str yaml parse_toml parse_json parse_msg prefix M topo H hash_im settings_path url_error n (map inl afs) (map inl cfs)
    (any_load path_str yaml parse_toml parse_json parse_msg prefix M topo H hash_im settings_path url_error afs' cfs').
Proof.
  intros lf ll Hn La Ca Lc Fa Fc Pa Pc.
  assert (FM : forall A B C (f : B -> list C) (g : A -> B) l, flat_map f (map g l) = flat_map (fun x => f (g x)) l).
  { intros A B C f g l. induction l as [|x l IH]; auto. cbn [map flat_map]. now rewrite IH. }
  assert (FB : forall A B (f : B -> bool) (g : A -> B) l, forallb f (map g l) = forallb (fun x => f (g x)) l).
  { intros A B f g l. induction l as [|x l IH]; auto. cbn [map forallb]. now rewrite IH. }
  do 2 eexists. exists (flat_map (fun f => jb_lints (lf f)) afs'), (flat_map (fun f => jb_lints (ll f)) cfs'). eexists.
  assert (Ai : art_items path_str yaml parse_toml parse_json parse_msg prefix (map inl afs) = map inl (map lf afs)) by (unfold art_items; now rewrite !map_map).
  assert (Ci : code_items path_str (map inl cfs) = map inl (map ll cfs)) by (unfold code_items; now rewrite !map_map).
  split; [|split; [|split; [|reflexivity]]].
  - rewrite Ai. fold lf. rewrite <- !(FM _ _ _ _ lf). apply run_any; rewrite ?map_length; try lia; [now rewrite FB|now apply Permutation_map].
  - rewrite Ci. fold ll. rewrite <- !(FM _ _ _ _ ll). apply run_any; rewrite ?map_length; try lia; [now rewrite FB|now apply Permutation_map].
  - apply Permutation_refl.
Qed.

(** ** C34 exit status of [art check]

    Status 101 is a panic of the main thread: a text refers to a name whose type is written with
    the letter U+017F. *)
Theorem C34_exit_status : forall path_str yaml parse_toml parse_json parse_msg prefix,
  parser_ok parse_toml -> parser_ok parse_json ->
  forall M topo, topo_ok topo -> forall H hash_im settings_path url_error n afs cfs r,
  walk_lints_ok afs -> walk_lints_ok cfs ->
  loads path_str yaml parse_toml parse_json parse_msg prefix M topo H hash_im settings_path url_error n afs cfs r ->
  exists arts refs la lc out,
    run_of n (art_items path_str yaml parse_toml parse_json parse_msg prefix afs) arts la /\
    run_of 4 (code_items path_str cfs) refs lc /\
    build M topo H hash_im arts (snd (join_locations refs)) = Ok out /\
    (exit_status r = 0 <-> read_clean la lc arts refs /\ ~ longs_in_text out /\
       arts_sound out prefix /\ url_error = None /\ texts_resolve out /\ code_resolves out (snd (join_locations refs))) /\
    (exit_status r = 2 <-> read_clean la lc arts refs /\ ~ longs_in_text out /\
       arts_sound out prefix /\ url_error = None /\ ~ (texts_resolve out /\ code_resolves out (snd (join_locations refs)))) /\
    (exit_status r = 1 <-> ~ read_clean la lc arts refs \/
       (read_clean la lc arts refs /\ ~ longs_in_text out /\ ~ (arts_sound out prefix /\ url_error = None))) /\
    (exit_status r = 101 <-> read_clean la lc arts refs /\ longs_in_text out).
Proof. exact check_exact. Qed.
Print Assumptions C34_exit_status.

Definition no_parser : str -> res (list (name * art_raw)) := fun _ => Err.
Lemma no_parser_ok : parser_ok no_parser.
Proof. intros t l E. discriminate E. Qed.
Definition ex_load M := loads ex_path ex_yaml no_parser no_parser (fun _ _ => s "bad") [] M topo_sort str ex_hash [s "settings.toml"] None.
Definition ex_seq M := seq_load ex_path ex_yaml no_parser no_parser (fun _ _ => s "bad") [] M topo_sort str ex_hash [s "settings.toml"] None.
Lemma ex_seq_loads M n afs cfs : ex_load M n afs cfs (ex_seq M n afs cfs).
Proof. apply seq_loads. Qed.
Definition md (f : str) (ls : list str) : art_file + lint := inl (mkAF [f] (inl (join [10%N] ls))).
Definition src (f : str) (ls : list str) : code_file + lint := inl (mkCF [f] ls None).
Definition ex_a := md (s "a.md") [s "# REQ-a"; s "top"; s "# SPC-a"; s "see [[.x]]"].
Example C34_example :
  exit_status (ex_seq exact_num 2 [ex_a] [src (s "x.rs") [s "// #SPC-a"; s "// #spc-a.X"]]) = 0 /\
  exit_status (ex_seq exact_num 2 [ex_a; md (s "b.md") [s "# SPC-b"; s "as [[SPC-a.y]]"]] []) = 2 /\
  exit_status (ex_seq exact_num 2 [ex_a] [src (s "x.rs") [s "#SPC-gone"]]) = 2 /\
  exit_status (ex_seq exact_num 2 [ex_a; md (s "b.md") [s "# SPC-b"; s "partof: REQ-gone"; s "###"]] []) = 1 /\
  exit_status (ex_seq exact_num 2 [ex_a; md (s "b.md") [s "# spc-A"]] []) = 1 /\
  exit_status (ex_seq exact_num 2 [ex_a; inl (mkAF [s "b.md"] (inr (s "no permission")))] []) = 1 /\
  exit_status (ex_seq exact_num 2 [ex_a] [src (s "x.rs") [s "#SPC-a"]; src (s "y.rs") [s "#SPC-a"]]) = 1 /\
  exit_status (ex_seq exact_num 2 [md (s "a.md") [s "# SPC-a"; s "[[" ++ [383%N] ++ s "pc-x]]"]] []) = 101.
Proof. vm_compute. repeat split. Qed.

(** ** C46 loading does not depend on the schedule *)
Theorem C46_deterministic : forall path_str yaml parse_toml parse_json parse_msg prefix,
  parser_ok parse_toml -> parser_ok parse_json ->
  forall M topo, topo_ok topo -> forall H hash_im settings_path url_error n afs afs' cfs cfs' r r',
  Permutation afs afs' -> Permutation cfs cfs' -> walk_lints_ok afs -> walk_lints_ok cfs ->
  killers (load_file path_str yaml parse_toml parse_json parse_msg prefix) afs < n -> killers (load_locations path_str) cfs < 4 ->
  loads path_str yaml parse_toml parse_json parse_msg prefix M topo H hash_im settings_path url_error n afs cfs r ->
  loads path_str yaml parse_toml parse_json parse_msg prefix M topo H hash_im settings_path url_error n afs' cfs' r' ->
  exit_status r = exit_status r' /\
  agree (file_arts (load_file path_str yaml parse_toml parse_json parse_msg prefix) afs) (file_refs path_str cfs) r r'.
Proof.
  intros ps y pt pj pm px TO JO M topo TC H h sp u n afs afs' cfs cfs' r r' Pa Pc Wa Wc Ka Kc L L'.
  destruct (loads_agree ps y pt pj pm px TO JO M topo TC H h sp u n afs afs' cfs cfs' r r' Pa Pc Wa Wc Ka Kc L L') as (E & A & _). auto.
Qed.
Print Assumptions C46_deterministic.

(** With exact arithmetic the completions agree as well. *)
Theorem C46_completion : forall path_str yaml parse_toml parse_json parse_msg prefix topo H hash_im settings_path url_error,
  parser_ok parse_toml -> parser_ok parse_json -> topo_ok topo ->
  forall n afs afs' cfs cfs' r r', Permutation afs afs' -> Permutation cfs cfs' -> walk_lints_ok afs -> walk_lints_ok cfs ->
  killers (load_file path_str yaml parse_toml parse_json parse_msg prefix) afs < n -> killers (load_locations path_str) cfs < 4 ->
  loads path_str yaml parse_toml parse_json parse_msg prefix exact_num topo H hash_im settings_path url_error n afs cfs r ->
  loads path_str yaml parse_toml parse_json parse_msg prefix exact_num topo H hash_im settings_path url_error n afs' cfs' r' ->
  match r, r' with Ok (inl (_, p)), Ok (inl (_, p')) => completions_same p p' | _, _ => True end.
Proof. exact loads_exact. Qed.
Print Assumptions C46_completion.

Example C46_example :
  let afs := [ex_a; md (s "b.md") [s "# SPC-b"; s "partof: SPC-a"; s "###"; s "as [[SPC-a.y]]"]] in
  let cfs := [src (s "x.rs") [s "#SPC-a"]; src (s "y.rs") [s "#SPC-a.x"; s "#SPC-b"]] in
  killers (load_file ex_path ex_yaml no_parser no_parser (fun _ _ => s "bad") []) afs < 2 /\ killers (load_locations ex_path) cfs < 4 /\
  match ex_seq exact_num 2 afs cfs, ex_seq exact_num 2 (rev afs) (rev cfs) with
  | Ok (inl (c, p)), Ok (inl (c', p')) => c = c' /\ length (ls_other c) = 1 /\ p = p' /\
      map (fun e => (n_raw (fst e), a_completed (snd e))) (pr_arts p) = [(s "REQ-a", (1000, 0)); (s "SPC-a", (1000, 0)); (s "SPC-b", (1000, 0))]%Z
  | _, _ => False
  end.
Proof. vm_compute. repeat split; auto. Qed.

(** Without the condition on spelling the lints differ: one of the two spellings is shown,
    depending on which file was finished first. *)
Definition ex_any M := any_load ex_path ex_yaml no_parser no_parser (fun _ _ => s "bad") [] M topo_sort str ex_hash [s "settings.toml"] None.
Definition ex_calm (f : art_file) := negb (jb_panic (load_file ex_path ex_yaml no_parser no_parser (fun _ _ => s "bad") [] f)).
Definition ex_calm_src (f : code_file) := negb (jb_panic (load_locations ex_path f)).
Lemma ex_any_loads M n afs afs' cfs cfs' : (Nat.ltb 0 n && Nat.leb (length afs) n && Nat.leb (length afs) 128 && Nat.leb (length cfs) 4 && forallb ex_calm afs && forallb ex_calm_src cfs)%bool = true ->
  Permutation afs afs' -> Permutation cfs cfs' -> ex_load M n (map inl afs) (map inl cfs) (ex_any M afs' cfs').
Proof.
  rewrite !Bool.andb_true_iff, Nat.ltb_lt, !Nat.leb_le. intros [[[[[? ?] ?] ?] ?] ?] Pa Pc. now apply any_loads.
Qed.
Definition mdf (f : str) (ls : list str) : art_file := mkAF [f] (inl (join [10%N] ls)).
Definition srcf (f : str) (ls : list str) : code_file := mkCF [f] ls None.
Definition gone_x := srcf (s "x.rs") [s "#SPC-gone.x"].
Definition gone_y := srcf (s "y.rs") [s "#spc-GONE.y"].
Definition warned {P} (r : res (lints * P + lints)) := match r with Ok (inl (c, _)) => map li_msg (ls_other c) | _ => [] end.
Theorem C46_lints_depend : exists afs cfs r r', ex_load exact_num 2 afs cfs r /\ ex_load exact_num 2 afs cfs r' /\ warned r <> warned r'.
Proof.
  exists (map inl [mdf (s "a.md") [s "# SPC-a"]]), (map inl [gone_x; gone_y]), (ex_any exact_num [mdf (s "a.md") [s "# SPC-a"]] [gone_x; gone_y]), (ex_any exact_num [mdf (s "a.md") [s "# SPC-a"]] [gone_y; gone_x]).
  split; [|split].
  - apply ex_any_loads; [vm_compute; reflexivity| |]; apply Permutation_refl.
  - apply ex_any_loads; [vm_compute; reflexivity|apply Permutation_refl|apply perm_swap].
  - vm_compute. discriminate.
Qed.
Print Assumptions C46_lints_depend.

(** Neither is the completion the same with the arithmetic that is used: of 16 parts three are
    complete to 7/10, 2/10 and 1/10, which is 1/16 = 62.5 thousandths, and the sum is 1 or a bit
    less depending on the order in which the files were finished.  What is shown is then the
    binary32 number next to 0.062, or the one next to 0.063. *)
Definition subs (ls : list str) : str := join [32%N] (map (fun x => s "[[." ++ x ++ s "]]") ls).
Definition f_seven := mdf (s "p.md") [s "# SPC-p"; s "partof: REQ-x"; s "###"; subs [s "b"; s "c"; s "d"; s "e"; s "f"; s "g"; s "h"; s "i"; s "j"]].
Definition f_two := mdf (s "q.md") [s "# SPC-q"; s "partof: REQ-x"; s "###"; subs [s "b"; s "c"; s "d"; s "e"]].
Definition f_one := mdf (s "r.md") [s "# SPC-r"; s "partof: REQ-x"; s "###"; subs [s "b"; s "c"; s "d"; s "e"; s "f"; s "g"; s "h"; s "i"; s "j"]].
Definition f_rest := mdf (s "x.md") (s "# REQ-x" :: flat_map (fun c => [s "# SPC-" ++ [c]; s "partof: REQ-x"; s "###"]) [97; 98; 99; 100; 101; 102; 103; 104; 105; 106; 107; 108; 109]%N).
Definition f_code := srcf (s "x.rs") [s "#SPC-p"; s "#SPC-p.b"; s "#SPC-p.c"; s "#SPC-p.d"; s "#SPC-p.e"; s "#SPC-p.f"; s "#SPC-p.g"; s "#SPC-q"; s "#SPC-r"].
Definition shown_spc {H} (k : str) (r : res (lints * project float_num H + lints)) : option SpecFloat.spec_float :=
  match r with Ok (inl (_, p)) => option_map (fun e => fst (a_completed (snd e))) (entry k (pr_arts p)) | _ => None end.
Theorem C46_binary64_depends : exists afs cfs r r', ex_load float_num 4 afs cfs r /\ ex_load float_num 4 afs cfs r' /\
  exit_status r = 0 /\ exit_status r' = 0 /\
  shown_spc (s "REQ-X") r = Some (SpecFloat.S754_finite false 16642998 (-28)) /\
  shown_spc (s "REQ-X") r' = Some (SpecFloat.S754_finite false 8455717 (-27)).
Proof.
  exists (map inl [f_seven; f_two; f_one; f_rest]), (map inl [f_code]), (ex_any float_num [f_seven; f_two; f_one; f_rest] [f_code]), (ex_any float_num [f_two; f_one; f_seven; f_rest] [f_code]).
  split; [|split; [|vm_compute; repeat split]].
  - apply ex_any_loads; [vm_compute; reflexivity| |]; apply Permutation_refl.
  - apply ex_any_loads; [vm_compute; reflexivity| |apply Permutation_refl]. apply (Permutation_cons_app [f_two; f_one] [f_rest] f_seven). apply Permutation_refl.
Qed.
Print Assumptions C46_binary64_depends.

(** ** C59 panics of source readers are silent and hide files *)
Theorem C59_hidden : forall path_str yaml parse_toml parse_json parse_msg prefix,
  parser_ok parse_toml -> parser_ok parse_json ->
  forall M topo, topo_ok topo -> forall H hash_im settings_path url_error n afs ks k rest r r',
  walk_lints_ok afs -> killers (load_file path_str yaml parse_toml parse_json parse_msg prefix) afs < n ->
  killers (load_locations path_str) (map inl ks) = 3 -> jb_panic (load_locations path_str k) = true ->
  loads path_str yaml parse_toml parse_json parse_msg prefix M topo H hash_im settings_path url_error n afs (map inl (ks ++ k :: rest)) r ->
  loads path_str yaml parse_toml parse_json parse_msg prefix M topo H hash_im settings_path url_error n afs (map inl (ks ++ [k])) r' ->
  exit_status r = exit_status r' /\
  match r, r' with
  | Ok (inl (c, p)), Ok (inl (c', p')) => project_same p p'
  | Ok (inr c), Ok (inr c') => True
  | Panic, Panic => True
  | _, _ => False
  end.
Proof. exact loads_cut. Qed.
Print Assumptions C59_hidden.
(** The file that panics gives no lint. *)
Theorem C59_silent : forall path_str f, jb_panic (load_locations path_str f) = true -> jb_lints (load_locations path_str f) = [].
Proof.
  intros ps f. unfold load_locations. destruct (parse_locations (cf_path f) (cf_lines f) _) as [refs e]. cbn [jb_panic jb_lints]. destruct e; auto; discriminate.
Qed.
Print Assumptions C59_silent.

(** Four files with a name that panics; a fifth file is read neither with its warning nor with its
    error, under every schedule, though alone it is. *)
Definition killer (f : str) : code_file := srcf f [s "#" ++ [383%N] ++ s "pc-x"].
Definition four := [killer (s "1"); killer (s "2"); killer (s "3"); killer (s "4")].
Theorem C59_check_passes : forall n bad r, n > 0 ->
  ex_load exact_num n [] (map inl (four ++ bad)) r -> exit_status r = 0.
Proof.
  intros n bad r Hn L. change (four ++ bad) with (firstn 3 four ++ killer (s "4") :: bad) in L.
  assert (E : exit_status r = exit_status (ex_seq exact_num n [] (map inl (firstn 3 four ++ [killer (s "4")])))).
  { eapply (C59_hidden ex_path ex_yaml no_parser no_parser (fun _ _ => s "bad") [] no_parser_ok no_parser_ok exact_num topo_sort topo_sort_ok str ex_hash [s "settings.toml"] None
      n [] (firstn 3 four) (killer (s "4")) bad r); [intros x []|cbn; lia|vm_compute; reflexivity|vm_compute; reflexivity|exact L|apply seq_loads]. }
  rewrite E. unfold ex_seq, seq_load. cbn [art_items map jobs_of flat_map]. rewrite taken_nil. vm_compute. reflexivity.
Qed.
Print Assumptions C59_check_passes.
Example C59_example : let bad := srcf (s "5") [s "#SPC-gone"] in
  exit_status (ex_seq exact_num 2 [] (map inl [bad])) = 2 /\
  exit_status (ex_seq exact_num 2 [] (map inl (four ++ [bad]))) = 0 /\
  exit_status (ex_seq exact_num 2 [] (map inl (firstn 3 four ++ [bad]))) = 2 /\
  killers (load_locations ex_path) (map inl (firstn 3 four)) = 3.
Proof. vm_compute. auto. Qed.

(** ** C60 loading ends, whatever the schedule, and misses no file *)
Theorem C60_ends : forall A cap (p : pool A), 0 < cap -> Acc (fun a b => step cap b a) p.
Proof. intros A cap p C. now apply pool_ends. Qed.
Print Assumptions C60_ends.
Theorem C60_delivers : forall A cap w (items : list (job A + lint)) p, 0 < cap ->
  clos_refl_trans_1n _ (step cap) (start w items) p -> stuck cap p ->
  length (filter (fun j => jb_panic j) (flat_map (fun i => match i with inl j => [j] | inr _ => [] end) items)) < w ->
  po_walk p = [] /\ po_queue p = [] /\
  Permutation (po_out p) (flat_map (fun i => match i with inl j => jb_out j | inr _ => [] end) items) /\
  Permutation (po_lints p) (flat_map (fun i => match i with inl j => jb_lints j | inr x => [x] end) items).
Proof.
  intros A cap w items p C R St L. destruct (pool_delivers cap C w items p R St) as [P (seen & Sn & _ & Pl)].
  change (panics (jobs_of items) < w) in L. rewrite (Sn L) in Pl. rewrite (taken_all _ _ L) in *.
  assert (Q : po_walk p = [] /\ po_queue p = []).
  { destruct (stuck_shape cap C p St) as (U & _ & [D|Q]); auto. exfalso.
    destruct (inv_reach cap C w items p R) as [(t & done & rest & E & Wk & Q & T & Lw & D' & O & Li)].
    assert (X : panics t = w).
    { rewrite <- D', <- Lw. clear -D. unfold all_dead in D. induction D as [|x ws -> D IH]; auto. unfold n_doomed in *. cbn [filter doomed length]. now rewrite IH. }
    assert (panics t <= panics (jobs_of items)); [|lia]. rewrite E. unfold jobs_of. rewrite flat_map_app. fold (jobs_of done). rewrite <- Q, !panics_app. lia. }
  destruct Q as [Q1 Q2]. split; auto. split; auto. split.
  - rewrite P. unfold jobs_of. clear. induction items as [|[j|x] l IH]; cbn [flat_map app]; auto. now apply Permutation_app_head.
  - rewrite Pl. unfold jobs_of, lints_of. clear. induction items as [|[j|x] l IH]; cbn [flat_map app]; auto.
    etransitivity; [apply Permutation_app_swap_app|]. now apply Permutation_app_head.
Qed.
Print Assumptions C60_delivers.
(** Loads exist, for every input. *)
Theorem C60_exists : forall path_str yaml parse_toml parse_json parse_msg prefix M topo H hash_im settings_path url_error n afs cfs, exists r,
  loads path_str yaml parse_toml parse_json parse_msg prefix M topo H hash_im settings_path url_error n afs cfs r.
Proof. intros. eexists. apply seq_loads. Qed.
Print Assumptions C60_exists.

(** Two readers, a queue with one place, three files and a failure of the walk: one of the readers
    dies from the second file, and everything is delivered nevertheless. *)
Example C60_example :
  let items := [inl (mkJob [1; 2] [] false); inr (mkLint LError None None CLoadPaths (s "denied")); inl (mkJob [3] [] true); inl (mkJob [4] [] false)] in
  exists p, clos_refl_trans_1n _ (step 1) (start 2 items) p /\ stuck 1 p /\
  length (filter (fun j => jb_panic j) (flat_map (fun i => match i with inl j => [j] | inr _ => [] end) items)) = 1 /\
  po_out p = [3; 1; 2; 4] /\ length (po_lints p) = 1.
Proof.
  cbv zeta. eexists. split; [|shelve].
  assert (N : forall b, ~ all_dead (@WIdle nat :: b)) by (intros b F; inversion F; discriminate).
  assert (N' : forall o l p b, ~ all_dead (@WBusy nat o l p :: b)) by (intros o l p b F; inversion F; discriminate).
  unfold start. cbn [repeat].
  eapply Relation_Operators.rt1n_trans; [apply s_feed; [cbn; auto|apply N]|]. cbn [app].
  eapply Relation_Operators.rt1n_trans; [apply (s_take 1 _ _ _ [] [WIdle])|]. cbn [app jb_out jb_lints jb_panic].
  eapply Relation_Operators.rt1n_trans; [apply s_walk_lint|].
  eapply Relation_Operators.rt1n_trans; [apply s_feed; [cbn; auto|apply N']|]. cbn [app].
  eapply Relation_Operators.rt1n_trans; [apply (s_take 1 _ _ _ [WBusy [1; 2] [] false] [])|]. cbn [app jb_out jb_lints jb_panic].
  eapply Relation_Operators.rt1n_trans; [apply (s_send 1 _ _ [WBusy [1; 2] [] false] [])|]. cbn [app].
  eapply Relation_Operators.rt1n_trans; [apply (s_finish 1 _ _ [WBusy [1; 2] [] false] [])|]. cbn [app after].
  eapply Relation_Operators.rt1n_trans; [apply (s_send 1 _ _ [] [WDead])|]. cbn [app].
  eapply Relation_Operators.rt1n_trans; [apply s_feed; [cbn; auto|apply N']|]. cbn [app].
  eapply Relation_Operators.rt1n_trans; [apply (s_send 1 _ _ [] [WDead])|]. cbn [app].
  eapply Relation_Operators.rt1n_trans; [apply (s_finish 1 _ _ [] [WDead])|]. cbn [app after].
  eapply Relation_Operators.rt1n_trans; [apply (s_take 1 _ _ _ [] [WDead])|]. cbn [app jb_out jb_lints jb_panic].
  eapply Relation_Operators.rt1n_trans; [apply (s_send 1 _ _ [] [WDead])|]. cbn [app].
  eapply Relation_Operators.rt1n_trans; [apply (s_finish 1 _ _ [] [WDead])|]. cbn [app after].
  apply Relation_Operators.rt1n_refl.
  Unshelve. split; [|cbn; auto].
  intros p' S. inversion S;
    match goal with E : ?a ++ _ = _ |- _ => destruct a as [|? [|? [|]]]; discriminate E end.
Qed.

(** ** C61 one artifact for every header *)
Theorem C61_one_per_header : forall yaml prefix text l, from_markdown yaml prefix text = Ok l ->
  heads prefix false (buf_lines text) (map (fun e => n_raw (fst e)) l) /\
  NoDup (map (fun e => n_key (fst e)) l) /\ Forall (fun e => name_wf (fst e)) l.
Proof. exact one_per_header. Qed.
Print Assumptions C61_one_per_header.
Theorem C61_links_are_names : forall yaml prefix text l, from_markdown yaml prefix text = Ok l ->
  forall n r p, In (n, r) l -> raw_partof r = Some p -> Forall name_wf p /\ NoDup (map nk p).
Proof.
  intros yaml prefix text l E n r p Hin Ep. apply from_markdown_wf in E. rewrite Forall_forall in E. exact (proj2 (E _ Hin) p Ep).
Qed.
Print Assumptions C61_links_are_names.
Definition raws_of {A} (r : res (list (name * A))) := match r with Ok l => Some (map (fun e => n_raw (fst e)) l) | _ => None end.
Example C61_example :
  raws_of (from_markdown ex_yaml [] (lns [s "intro"; s "# REQ-a"; s "```art"; s "done: ""# SPC-no"""; s "```"; s "text"; s "#SPC-b "; s "# SPC- not"])) = Some [s "REQ-a"; s "SPC-b"] /\
  from_markdown ex_yaml [] (lns [s "# REQ-a"; s "x"; s "# req-A"]) = Err.
Proof. vm_compute. auto. Qed.

(** ** C62 an attribute block that is not closed swallows the rest of the file, silently *)
Theorem C62_unclosed : forall yaml prefix text text' pre o rest,
  buf_lines text = pre ++ o :: rest -> buf_lines text' = pre ++ [o] ->
  opener_line o -> (forall x, ~ header_line prefix o x) -> Forall (fun l => ~ closer_line l) rest ->
  from_markdown yaml prefix text = from_markdown yaml prefix text'.
Proof. exact unclosed. Qed.
Print Assumptions C62_unclosed.
(** SPC-b and its link are lost, without an error. *)
Example C62_example :
  raws_of (from_markdown ex_yaml [] (lns [s "# REQ-a"; s "```art"; s "partof: REQ-b"; s "# SPC-b"; s "text"])) = Some [s "REQ-a"] /\
  opener_line (s "```art") /\ (forall x, ~ header_line [] (s "```art") x) /\ Forall (fun l => ~ closer_line l) [s "partof: REQ-b"; s "# SPC-b"; s "text"].
Proof.
  split; [vm_compute; reflexivity|]. split; [exists [], 0, []; repeat split; auto; constructor|]. split.
  - intros x (p & w1 & w2 & E & F & _). inversion F; subst. discriminate E.
  - repeat constructor; intros (k & w & E & _); discriminate E.
Qed.
