(** Property C77: the search graph of the web client. *)
From Coq Require Import ZArith Lia ZifyBool Permutation Sorted.
From Verif Require Import Api Render SpecRender RenderFacts SpecExport ExportFacts ReadyFacts WebGraph SpecWebGraph WebGraphFacts.
From Verif Require Import Base BaseFacts Regex Name SpecName NameFacts Artifact SpecGraph Topo SpecLinks Numbers Lint SpecLint Source Web
  RegexFacts LineFacts GreedyFacts SpecSource SourceFacts Pool Load LoadFacts SpecLoad PropApi PropRoute PropLoad PropRender.
Open Scope nat_scope.

(** The expressions a user types are read by the regex library ([parse]). *)
Theorem C77_graph : forall path_str yaml parse_toml parse_json parse_msg prefix M topo H hash_im settings_path url_error n afs cfs c (p : project M H),
  topo_ok topo -> parser_ok parse_toml -> parser_ok parse_json -> walk_lints_ok afs -> walk_lints_ok cfs ->
  loads path_str yaml parse_toml parse_json parse_msg prefix M topo H hash_im settings_path url_error n afs cfs (Ok (inl (c, p))) ->
  forall reported parse search r, graph_results reported p parse search r ->
  match parse search with
  | None => r = None
  | Some re => exists o nodes arrows, r = Some (Ok o) /\ drawn reported p nodes arrows o /\ nodes_ok p re nodes /\ arrows_ok p re arrows
  end.
Proof.
  intros ps ym pt pj pm px M topo H h sp ue n afs cfs c p TC PO PJ W1 W2 Ld rp parse search r G.
  pose proof (loads_ready M topo TC H h ps ym pt pj PO PJ pm px sp ue n afs cfs c p W1 W2 Ld) as R.
  pose proof (loads_two_way M topo TC H h ps ym pt pj PO PJ pm px sp ue n afs cfs c p W1 W2 Ld) as T.
  destruct G as [E|re fs cs E Pf Pc]; rewrite E; [reflexivity|].
  destruct (text_good rp p R re fs Pf cs) as (o & -> & D). exists o, (flat_map (nodes_at fs) fs), (map keys cs).
  split; [reflexivity|]. split; [exact D|]. split; [now apply nodes_good|now apply (arrows_good p R T re fs Pf)].
Qed.
Print Assumptions C77_graph.

(** Every search has a result, and whatever the order: the same nodes, the same arrows, and both
    ends of each arrow are nodes. *)
Theorem C77_consistent : forall M H (p : project M H) re nodes arrows,
  nodes_ok p re nodes -> arrows_ok p re arrows ->
  (forall k1 k2, In (k1, k2) arrows -> (exists e, In e nodes /\ n_key (fst e) = k1) /\ (exists e, In e nodes /\ n_key (fst e) = k2)) /\
  (forall nodes' arrows', nodes_ok p re nodes' -> arrows_ok p re arrows' ->
     Permutation arrows arrows' /\ forall k, (exists e, In e nodes /\ n_key (fst e) = k) <-> exists e, In e nodes' /\ n_key (fst e) = k).
Proof.
  intros M H p re nodes arrows N A. 
  assert (I : forall nodes nodes', nodes_ok p re nodes -> nodes_ok p re nodes' -> forall k, (exists e, In e nodes /\ n_key (fst e) = k) -> exists e, In e nodes' /\ n_key (fst e) = k).
  { intros ns ns' (N1 & _ & N3 & _) (M1 & _ & _ & M4) k ([q [|]] & He & <-); cbn [fst].
    - apply N1, M1 in He. exists (q, true). auto.
    - apply N3 in He as (_ & n & a & F & L). now apply (M4 _ n a). }
  split.
  - destruct N as (N1 & N2 & N3 & N4). intros k1 k2 Hk. apply A in Hk as [L [(n & a & F & <-)|(n & a & F & <-)]].
    + split; [exists (n, true); split; [apply N1; eauto|reflexivity]|]. apply (N4 _ n a); auto.
    + split; [apply (N4 _ n a); auto|exists (n, true); split; [apply N1; eauto|reflexivity]].
  - intros nodes' arrows' N' A'. split.
    + destruct A as [A1 A2], A' as [B1 B2]. apply NoDup_Permutation; auto. intros [k1 k2]. now rewrite A2, B2.
    + intros k. split; [now apply I|now apply I].
Qed.
Print Assumptions C77_consistent.
Theorem C77_total : forall M H reported (p : project M H) parse search, exists r, graph_results reported p parse search r.
Proof. intros M H rp p parse search. destruct (parse search) as [re|] eqn:E; eexists; [eapply (GDrawn _ _ _ _ re _ _ E); apply Permutation_refl|now constructor]. Qed.
Print Assumptions C77_total.

(** The address of a node leads to its artifact. *)
Lemma lowc_ci c : char_ci (lowc c) c.
Proof. unfold lowc, is_upper, char_ci. destruct (_ && _) eqn:E; lia. Qed.
Theorem C77_addresses : forall dig lim n, name_wf n -> exists m, from_hash dig lim (map lowc (n_key n)) = Ok (VArtifact m) /\ name_eqb m n = true.
Proof.
  intros dig lim n W.
  assert (C : str_ci (map lowc (n_key n)) (n_raw n)).
  { apply str_ci_upper. transitivity (upper (n_key n)); [|rewrite (wf_key n W), upper_idem; reflexivity]. apply str_ci_upper. generalize (n_key n). induction l as [|c l IH]; constructor; [apply lowc_ci|exact IH]. }
  assert (exists m, name_from_str (map lowc (n_key n)) = Ok m) as [m Em].
  { apply name_accept. apply (valid_name_ci (n_raw n)); [now apply str_ci_sym|]. apply name_accept. eauto. }
  apply from_str_wf in Em as [Wm Rm]. exists m. rewrite <- Rm. split; [apply C55_names; exact Wm|]. apply name_eqb_ci; auto. now rewrite Rm.
Qed.
Print Assumptions C77_addresses.

(** SPC-b is part of SPC-a, and of REQ-b by its name; REQ-b and SPC-b are found: three arrows. *)
Definition g_text : list str :=
  [s "# REQ-a"; s "top"; s "# REQ-b"; s "other"; s "# SPC-a"; s "partof:"; s "- REQ-a"; s "- REQ-b"; s "###"; s "# SPC-b"; s "partof: SPC-a"; s "###"].
Definition g_load := ex_seq exact_num 2 [md (s "a.md") g_text] [].
Definition g_project : project exact_num str := match g_load with Ok (inl (_, p)) => p | _ => mkProject [] [] [] [] None end.
Definition g_arts := pr_arts g_project.
Definition g_re (x : str) : bool := starts_with x (s "SPC-b") || starts_with x (s "REQ-b").
Definition g_focus := focus_of g_project g_re.
Example C77_example :
  map (fun e => n_raw (fst e)) g_focus = [s "REQ-b"; s "SPC-b"] /\
  map keys (connections g_focus) = [(s "REQ-B", s "SPC-A"); (s "REQ-B", s "SPC-B"); (s "SPC-A", s "SPC-B")] /\
  map (fun e => (n_raw (fst e), snd e)) (flat_map (nodes_at g_focus) g_focus) = [(s "REQ-b", true); (s "SPC-a", false); (s "SPC-b", true); (s "SPC-a", false)] /\
  (exists o, graph_text (fun x : F exact_num => x) g_project (rev g_focus) (connections (rev g_focus)) = Ok o) /\
  match graph_text (fun x : F exact_num => x) g_project (focus_of g_project (fun x => starts_with x (s "REQ-a"))) [] with
  | Ok o => o = join [10%N] [[]; s "        digraph G {"; s "        graph ["; s "            margin=0.001; label="""";"; s "            "; s "        ];"; [];
      s "        ////////////////////"; s "        // DOT INSERTED HERE"; []; s "        "; s "        {"; s "            ""REQ-A"" [";
      s "                label=""REQ-a"";"; s "                href=""#req-a"";"; s "                fontcolor=""#FF4136"";"; s "                fontsize=12; margin=0.01;"; s "                shape=invhouse;"; s "                penwidth=1.5"; s "            ]"; s "        }"; s "        ";
      s "        {"; s "            ""SPC-A"" ["; s "                label=""SPC-a"";"; s "                href=""#spc-a"";"; s "                fontcolor=""#FF4136"";"; s "                fontsize=8; margin=0.01;"; s "                shape=invhouse;"; s "                style=filled; fillcolor=""#DCDEE2"";"; s "            ]"; s "        }"; s "        "; [];
      s "        ///////////////////"; s "        // END INSERTED DOT"; []; s "        }"; s "        "]
  | _ => False
  end.
Proof. split; [vm_compute; reflexivity|]. split; [vm_compute; reflexivity|]. split; [vm_compute; reflexivity|]. split; [eexists; vm_compute; reflexivity|]. vm_compute. reflexivity. Qed.
