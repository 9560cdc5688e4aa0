(** Properties C25, C26: the markdown format.

    The YAML library is a parameter that meets [yaml_ok] (SpecMarkdown.v); [ex_yaml] in
    YamlExample.v is an instance. *)
From Verif Require Import Base BaseFacts Regex Name SpecName NameFacts RawNames Artifact Stored SpecGraph Topo SpecLinks LinkFacts
  Markdown SpecMarkdown LineFacts MarkdownFacts YamlExample Lint PropArtifacts.

(** ** C25 Markdown files round-trip *)
Theorem C25_markdown_roundtrip : forall yaml yaml_done, yaml_ok yaml yaml_done ->
  forall prefix style arts file,
  prefix_ok (plain_style style) prefix -> (forall p, style = CodeBlock (Some p) -> ~ In 10%N p) ->
  Forall im_wf arts -> distinct arts ->
  (forall a, In a arts -> im_clean a = a /\ im_file a = file /\ quiet_text prefix (im_text a)) ->
  exists txt raws, to_markdown yaml_done prefix style (map raw_entry arts) = Ok txt /\
    from_markdown yaml prefix txt = Ok raws /\ map (fun e => from_raw (fst e) file (snd e)) raws = arts.
Proof. exact md_roundtrip. Qed.
Print Assumptions C25_markdown_roundtrip.

Definition lns (l : list str) : str := join [10%N] l.
Definition md_arts : list art_im :=
  [ex_im (s "REQ-top") [] None [];
   ex_im (s "SPC-a") [s "REQ-b"; s "REQ-top"] (Some (s "a ""quoted"" word")) (lns [s "# not a header"; []; s "```rust"; s "[[.x]]"; s "```"; []]);
   ex_im (s "TST-q") [s "SPC-a"] None (s "one line")].
(** A line is text when the scanners say so (they are exact, LineFacts.v). *)
Definition text_b (prefix l : str) : bool :=
  match header prefix l with None => true | _ => false end && negb (is_match_full attrs_end_re l) &&
  negb (is_match_full attrs_code_re l) && negb (mem_char 10%N l).
Lemma text_b_ok prefix l : text_b prefix l = true -> text_line prefix l.
Proof.
  unfold text_b. rewrite !Bool.andb_true_iff, !Bool.negb_true_iff. intros [[[H1 H2] H3] H4].
  assert (N : ~ In 10%N l).
  { intros X. assert (Y : mem_char 10%N l = true); [|congruence]. unfold mem_char. apply existsb_exists. exists 10%N. auto. }
  split; [|split].
  - apply header_none. now destruct (header prefix l).
  - intros X. apply end_line_iff in X. congruence.
  - intros X. apply opener_line_iff in X; congruence.
Qed.
Definition last_cr (l : str) : bool := match rev l with c :: _ => N.eqb c 13 | [] => false end.
Lemma last_cr_ok l : last_cr l = false -> forall p, l <> p ++ [13%N].
Proof. intros H p ->. unfold last_cr in H. now rewrite rev_app_distr in H. Qed.
Lemma quiet_b prefix t : forallb (fun l => text_b prefix l && negb (last_cr l)) (split_on 10%N t) = true -> quiet_text prefix t.
Proof.
  rewrite forallb_forall. intros H l Hl. specialize (H l Hl). apply Bool.andb_true_iff in H as [H1 H2].
  split; [now apply text_b_ok|]. apply last_cr_ok. now apply Bool.negb_true_iff.
Qed.
Lemma md_arts_wf : Forall im_wf md_arts.
Proof.
  repeat (apply Forall_cons || apply Forall_nil); constructor;
    repeat (apply Forall_cons || apply Forall_nil || (vm_compute; reflexivity));
    vm_compute; repeat constructor; simpl; intuition discriminate.
Qed.

Definition md_prefix : str := s "## A".
Example C25_example : yaml_ok ex_yaml ex_yaml_done /\ prefix_ok true md_prefix /\ Forall im_wf md_arts /\ distinct md_arts /\
  (forall a, In a md_arts -> im_clean a = a /\ im_file a = [s "design"; s "a.md"] /\ quiet_text md_prefix (im_text a)) /\
  to_markdown ex_yaml_done md_prefix Hashes (map raw_entry md_arts) =
  Ok (lns [s "## A# REQ-top"; []; []; s "## A# SPC-a"; s "done: ""a \""quoted\"" word"""; []; s "partof:"; s "- REQ-b"; s "- REQ-top"; s "###";
           s "# not a header"; []; s "```rust"; s "[[.x]]"; s "```"; []; [];
           s "## A# TST-q"; s "partof: SPC-a"; s "###"; s "one line"]).
Proof.
  split; [exact ex_yaml_ok|]. split.
  { split; [vm_compute; intuition discriminate|]. split; [repeat constructor|]. intros _. cbn.
    unfold char_fold, char_ci. repeat split; intuition (try discriminate). }
  split; [exact md_arts_wf|]. split; [vm_compute; repeat constructor; simpl; intuition discriminate|]. split; [|vm_compute; reflexivity].
  intros a [<-|[<-|[<-|[]]]]; (split; [vm_compute; reflexivity|split; [reflexivity|apply quiet_b; vm_compute; reflexivity]]).
Qed.

(** ** C26 Texts the linter accepts but markdown corrupts

    Three projects without any lint, in any spelling of paths: text becomes attributes, lines
    are dropped, the file cannot be read any more. *)
Definition plain (arts : list art_im) : Prop :=
  Forall im_wf arts /\ distinct arts /\ Forall (fun a => im_clean a = a) arts /\
  forall path_str sp, exists out, ex_build arts [] = Ok out /\ lint_project path_str (mkProject out [] [] sp None) = Ok [].

Definition md_invents := [ex_im (s "SPC-a") [] None (lns [s "An example:"; s "```art"; s "partof: REQ-b"; s "```"; s "End."; []])].
Definition md_drops := [ex_im (s "SPC-a") [] None (lns [s "An example:"; s "```art"; s "partof: REQ-b"; s "End."; []])].
Definition md_breaks :=
  [ex_im (s "REQ-c") [] None [];
   ex_im (s "SPC-a") [s "REQ-c"] None (lns [s "An example:"; s "```art"; s "partof: REQ-b"; s "```"; s "End."; []])].
Definition read_back (raws : list (name * art_raw)) : list art_im :=
  map (fun e => from_raw (fst e) [s "design"; s "a.md"] (snd e)) raws.

Ltac plain_tac :=
  split; [repeat (apply Forall_cons || apply Forall_nil); constructor;
          repeat (apply Forall_cons || apply Forall_nil || (vm_compute; reflexivity));
          vm_compute; repeat constructor; simpl; intuition discriminate|];
  split; [vm_compute; repeat constructor; simpl; intuition discriminate|];
  split; [repeat (apply Forall_cons || apply Forall_nil); vm_compute; reflexivity|];
  intros path_str sp; eexists; split; [vm_compute; reflexivity|vm_compute; reflexivity].
Lemma md_plain : plain md_invents /\ plain md_drops /\ plain md_breaks.
Proof. repeat match goal with |- _ /\ _ => idtac end. split; [plain_tac|]. split; plain_tac. Qed.

Lemma md_corrupted : forall yaml yaml_done, yaml_ok yaml yaml_done ->
  (forall style, exists txt raws,
     to_markdown yaml_done [] style (map raw_entry md_invents) = Ok txt /\ from_markdown yaml [] txt = Ok raws /\
     read_back raws = [ex_im (s "SPC-a") [s "REQ-b"] None (lns [s "An example:"; s "End."; []])]) /\
  (forall style, exists txt raws,
     to_markdown yaml_done [] style (map raw_entry md_drops) = Ok txt /\ from_markdown yaml [] txt = Ok raws /\
     read_back raws = [ex_im (s "SPC-a") [] None (lns [s "An example:"; s "```art"; []])]) /\
  (forall style, style = Hashes \/ style = CodeBlock None -> exists txt,
     to_markdown yaml_done [] style (map raw_entry md_breaks) = Ok txt /\ from_markdown yaml [] txt = Err).
Proof.
  intros yaml yaml_done Hy. split; [|split].
  - intros style. eexists. eexists. split; [vm_compute; reflexivity|]. 
    assert (R : yaml (join [10%N] (partof_lines (VStr (s "REQ-b")))) = Some (None, Some (VStr (s "REQ-b")))).
    { apply (yo_read_partof _ _ Hy); [discriminate|]. constructor; [|constructor]. apply name_accept. eexists. vm_compute. reflexivity. }
    vm_compute in R. split; [vm_compute; rewrite R; vm_compute; reflexivity|vm_compute; reflexivity].
  - intros style. eexists. eexists. split; [vm_compute; reflexivity|]. split; vm_compute; reflexivity.
  - intros style [->| ->]; eexists; (split; [vm_compute; reflexivity|vm_compute; reflexivity]).
Qed.

Theorem C26_accepted_but_corrupted :
  (plain md_invents /\ plain md_drops /\ plain md_breaks) /\
  forall yaml yaml_done, yaml_ok yaml yaml_done ->
  (forall style, exists txt raws,
     to_markdown yaml_done [] style (map raw_entry md_invents) = Ok txt /\ from_markdown yaml [] txt = Ok raws /\
     read_back raws = [ex_im (s "SPC-a") [s "REQ-b"] None (lns [s "An example:"; s "End."; []])]) /\
  (forall style, exists txt raws,
     to_markdown yaml_done [] style (map raw_entry md_drops) = Ok txt /\ from_markdown yaml [] txt = Ok raws /\
     read_back raws = [ex_im (s "SPC-a") [] None (lns [s "An example:"; s "```art"; []])]) /\
  (forall style, style = Hashes \/ style = CodeBlock None -> exists txt,
     to_markdown yaml_done [] style (map raw_entry md_breaks) = Ok txt /\ from_markdown yaml [] txt = Err).
Proof. exact (conj md_plain md_corrupted). Qed.
Print Assumptions C26_accepted_but_corrupted.
