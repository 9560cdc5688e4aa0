(** Properties C25, C26: exactly which artifacts survive markdown. *)
From Verif Require Import Base BaseFacts Regex Name SpecName NameFacts RawNames Artifact Stored SpecGraph Topo SpecLinks LinkFacts
  Markdown SpecMarkdown LineFacts MarkdownFacts YamlExample Lint LintFacts SpecMdExact MarkdownExact PropArtifacts PropMarkdown PropLint.

(** ** C25 which artifacts come back *)
Theorem C25_markdown_exact : forall yaml yaml_done, yaml_ok yaml yaml_done ->
  forall prefix style arts file,
  prefix_ok (plain_style style) prefix -> (forall p, style = CodeBlock (Some p) -> ~ In 10%N p) ->
  Forall im_wf arts -> distinct arts -> (forall a, In a arts -> im_clean a = a /\ im_file a = file) ->
  exists txt, to_markdown yaml_done prefix style (map raw_entry arts) = Ok txt /\
    ((exists raws, from_markdown yaml prefix txt = Ok raws /\ map (fun e => from_raw (fst e) file (snd e)) raws = arts) <->
     survives prefix arts).
Proof. exact md_exact. Qed.
Print Assumptions C25_markdown_exact.

(** ** C26 which artifacts come back of those the lints accept *)
Theorem C26_exact : forall yaml yaml_done, yaml_ok yaml yaml_done ->
  forall style arts file M H path_str (p : project M H),
  prefix_ok (plain_style style) (pr_prefix p) -> (forall x, style = CodeBlock (Some x) -> ~ In 10%N x) ->
  Forall im_wf arts -> distinct arts -> (forall a, In a arts -> im_clean a = a /\ im_file a = file) ->
  lint_errors path_str p = [] -> (forall a, In a arts -> exists n b, In (n, b) (pr_arts p) /\ a_text b = im_text a) ->
  exists txt, to_markdown yaml_done (pr_prefix p) style (map raw_entry arts) = Ok txt /\
    ((exists raws, from_markdown yaml (pr_prefix p) txt = Ok raws /\ map (fun e => from_raw (fst e) file (snd e)) raws = arts) <->
     accepted_survives arts).
Proof.
  intros yaml yaml_done Hy style arts file M H path_str p Hp Hs Hw Hd Ha Hl Hin.
  destruct (md_exact yaml yaml_done Hy (pr_prefix p) style arts file Hp Hs Hw Hd Ha) as (txt & E1 & E2).
  exists txt. split; auto. rewrite E2. apply survives_accepted. intros a l Hia Hil.
  destruct (Hin a Hia) as (n & b & Hb & Et). apply (no_errors_iff path_str p) with (n := n) (a := b) in Hl; auto.
  apply Hl. now rewrite Et.
Qed.
Print Assumptions C26_exact.

(** Without errors: a text that comes back although it opens a block (it is the last), and
    texts that do not, because the block has a second line, because another artifact follows,
    because of attributes, and because of a carriage return. *)
Definition m_last := [ex_im (s "REQ-a") [] None (s "one"); ex_im (s "REQ-b") [] None (lns [s "An example:"; s "```art"; []])].
Definition m_first := [ex_im (s "REQ-a") [] None (lns [s "An example:"; s "```art"; []]); ex_im (s "REQ-b") [] None (s "one")].
Definition m_attr := [ex_im (s "REQ-a") [] None (s "one"); ex_im (s "REQ-b") [s "REQ-a"] None (lns [s "An example:"; s "```art"; []])].
Definition m_cr := [ex_im (s "REQ-b") [] None (s "An example:" ++ [13; 10]%N ++ s "two" ++ [10%N])].
Definition ex_back (arts : list art_im) : res (list art_im) :=
  res_bind (to_markdown ex_yaml_done [] Hashes (map raw_entry arts)) (fun t =>
  res_bind (from_markdown ex_yaml [] t) (fun raws => Ok (read_back raws))).
Lemma m_last_survives : accepted_survives m_last.
Proof.
  intros l1 a l2 E. destruct l1 as [|x [|y l1]].
  - injection E as <- <-. left. intros l [<-|[]]. split; [intros (x & k & w & X & _); discriminate|intros p X; now destruct p as [|? [|? [|? [|? ?]]]]].
  - injection E as _ <- <-. right. repeat (split; [reflexivity|]). exists [s "An example:"], (s "```art"), [[]].
    split; [vm_compute; reflexivity|]. split; [auto|]. split.
    + exists [], 0, []. split; [reflexivity|]. split; [constructor|]. split; [auto|]. now left.
    + intros l [<-|[]]. split; [intros (x0 & k & w & X & _); discriminate|]. apply last_cr_ok. reflexivity.
  - destruct l1; discriminate.
Qed.
Example C26_cases :
  (Forall (fun arts => lint_errors ex_path (ex_project arts []) = []) [m_last; m_first; m_attr; m_cr]) /\
  accepted_survives m_last /\ ex_back m_last = Ok m_last /\
  (ex_back m_first = Ok [ex_im (s "REQ-a") [] None (lns [s "An example:"; s "```art"; []])] /\ ~ accepted_survives m_first) /\
  ex_back m_attr = Err /\
  ex_back m_cr = Ok [ex_im (s "REQ-b") [] None (lns [s "An example:"; s "two"; []])].
Proof.
  split; [repeat (apply Forall_cons || apply Forall_nil); vm_compute; reflexivity|]. split; [exact m_last_survives|].
  split; [vm_compute; reflexivity|]. split; [|split; vm_compute; reflexivity]. split; [vm_compute; reflexivity|].
  intros S. destruct (S [] (ex_im (s "REQ-a") [] None (lns [s "An example:"; s "```art"; []])) [ex_im (s "REQ-b") [] None (s "one")] eq_refl) as [Q|(X & _)]; [|discriminate].
  assert (O : no_trap (s "```art")) by (apply Q; right; now left). destruct O as [O _]. apply O.
  exists [], 0, []. split; [reflexivity|]. split; [constructor|]. split; [auto|]. now left.
Qed.
