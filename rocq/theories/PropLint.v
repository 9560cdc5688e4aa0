(** Properties C10, C17 (the lints), C29-C33: lints.

    [path_str] is the rendering of paths. The theorems about loaded projects hold for every
    arithmetic, topological sort and id function. *)
From Coq Require Import Lia ZifyBool Permutation Sorted Relation_Operators.
From Verif Require Import Base BaseFacts Regex Name SpecName NameFacts RawNames Artifact Stored SpecGraph Topo SpecLinks LinkFacts
  Markdown SpecMarkdown MarkdownFacts Lint SpecLint RefFacts LintFacts LintThms SpecCompletion PropArtifacts PropCompleted PropMarkdown.

(** ** C10 Missing parents are not reported *)
Theorem C10_missing_links : forall M topo H hash_im, topo_ok topo ->
  forall arts code out, Forall im_wf arts -> distinct arts -> build M topo H hash_im arts code = Ok out ->
  forall path_str p, pr_arts p = out ->
  forall l, In l (lint_partof_dne path_str p) <->
    exists a q, In a arts /\ In q (im_partof a) /\ ~ own_link (n_key (im_name a)) (n_key q) /\
      (forall b, In b arts -> n_key (im_name b) <> n_key q) /\
      l = art_lint path_str LError (im_file a) (n_raw (im_name a) ++ s " defines partof=" ++ n_raw q ++ s " which does not exist").
Proof. exact missing_exact. Qed.
Print Assumptions C10_missing_links.

(** Neither the parent SPC-a nor the automatic link REQ-a-b exists, both are even asked for;
    a missing target that is neither of the two is reported. *)
Definition ex_orphan := [ex_im (s "SPC-a-b") [s "SPC-a"; s "REQ-a-b"] None (s "text")].
Definition ex_missing := [ex_im (s "SPC-a-b") [s "SPC-a"; s "REQ-a-b"; s "REQ-gone"] None (s "text")].
Definition ex_project (arts : list art_im) (code : list (name * impl_code)) : project ex_num str :=
  mkProject (ex_out (ex_build arts code)) code [] [s "settings.toml"] None.
Definition ex_path (p : path) : str := join [47%N] p.
Lemma orphan_silent : Forall im_wf ex_orphan /\ distinct ex_orphan /\
  (exists a q, In a ex_orphan /\ In q (im_partof a) /\ own_parent (n_key (im_name a)) (n_key q) /\
     forall b, In b ex_orphan -> n_key (im_name b) <> n_key q) /\
  forall path_str sp, exists out, ex_build ex_orphan [] = Ok out /\ lint_project path_str (mkProject out [] [] sp None) = Ok [].
Proof.
  split; [repeat (apply Forall_cons || apply Forall_nil); constructor;
          repeat (apply Forall_cons || apply Forall_nil || (vm_compute; reflexivity));
          vm_compute; repeat constructor; simpl; intuition discriminate|].
  split; [vm_compute; repeat constructor; simpl; intuition discriminate|]. split.
  - eexists. exists (nm (s "SPC-a")). split; [now left|]. split; [now left|]. split.
    + split; [vm_compute; auto 6|]. exists (s "B"). split; [vm_compute; intuition discriminate|reflexivity].
    + intros b [<-|[]]. vm_compute. discriminate.
  - intros path_str sp. eexists. split; [vm_compute; reflexivity|vm_compute; reflexivity].
Qed.
Theorem C10_missing_parent_silent : exists arts, Forall im_wf arts /\ distinct arts /\
  (exists a q, In a arts /\ In q (im_partof a) /\ own_parent (n_key (im_name a)) (n_key q) /\
     forall b, In b arts -> n_key (im_name b) <> n_key q) /\
  forall path_str sp, exists out, ex_build arts [] = Ok out /\ lint_project path_str (mkProject out [] [] sp None) = Ok [].
Proof. exact (ex_intro _ ex_orphan orphan_silent). Qed.
Print Assumptions C10_missing_parent_silent.

Example C10_example : Forall im_wf ex_missing /\ distinct ex_missing /\
  lint_partof_dne ex_path (ex_project ex_missing []) =
  [mkLint LError (Some (s "design/a.md")) None CArtifact (s "SPC-a-b defines partof=REQ-gone which does not exist")].
Proof.
  split; [repeat (apply Forall_cons || apply Forall_nil); constructor;
          repeat (apply Forall_cons || apply Forall_nil || (vm_compute; reflexivity));
          vm_compute; repeat constructor; simpl; intuition discriminate|].
  split; [vm_compute; repeat constructor; simpl; intuition discriminate|]. vm_compute. reflexivity.
Qed.

(** ** C17 A cycle zeroes everything: and no lint says so *)
Lemma cycle_silent : exists arts out, Forall im_wf arts /\ distinct arts /\ ex_exact arts [] = Ok out /\ cyclic out /\
  forall path_str sp, lint_project path_str (mkProject out [] [] sp None) = Ok [].
Proof.
  exists ex_cycle, (ex_out (ex_exact ex_cycle [])).
  split; [repeat (apply Forall_cons || apply Forall_nil); constructor;
          repeat (apply Forall_cons || apply Forall_nil || (vm_compute; reflexivity));
          vm_compute; repeat constructor; simpl; intuition discriminate|].
  split; [vm_compute; repeat constructor; simpl; intuition discriminate|].
  split; [apply C17_example|]. split; [apply C17_example|]. intros path_str sp. vm_compute. reflexivity.
Qed.
Theorem C17_cycle_silent : exists arts out, Forall im_wf arts /\ distinct arts /\ ex_exact arts [] = Ok out /\ cyclic out /\
  forall path_str sp, lint_project path_str (mkProject out [] [] sp None) = Ok [].
Proof. exact cycle_silent. Qed.
Print Assumptions C17_cycle_silent.

(** ** C29 Error lints cover the invariants they advertise *)
Theorem C29_no_errors_iff : forall M H path_str (p : project M H),
  lint_errors path_str p = [] <-> forall n a, In (n, a) (pr_arts p) ->
    (forall q, In q (a_partof a) -> exists_art (pr_arts p) q /\ ty_rank (n_ty q) <= ty_rank (n_ty n)) /\
    ((exists d, a_impl a = IDone d) -> a_subnames a = []) /\
    (forall l, In l (split_on 10%N (a_text a)) -> (forall x, ~ header_line (pr_prefix p) l x) /\ ~ end_line l).
Proof. exact @no_errors_iff. Qed.
Print Assumptions C29_no_errors_iff.

(** Each of the faults has its own message. *)
Theorem C29_errors_exact : forall M H path_str (p : project M H) l,
  In l (lint_errors path_str p) <-> exists n a, In (n, a) (pr_arts p) /\ error_lint path_str p n a l.
Proof. exact @lint_errors_exact. Qed.
Print Assumptions C29_errors_exact.

Definition ex_faulty : list art_im :=
  [ex_im (s "REQ-a") [s "SPC-b"; s "REQ-gone"] None (lns [s "ok"; s "# SPC-new"; s "#### "]);
   ex_im (s "SPC-b") [] (Some (s "by hand")) (s "[[.sub]]")].
Example C29_example : map li_msg (lint_errors ex_path (ex_project ex_faulty [])) =
  [s "REQ-a defines partof=REQ-gone which does not exist"; s "REQ-a cannot have `partof` SPC-b: invalid types.";
   s "REQ-a text is invalid: " ++ msg_header; s "REQ-a text is invalid: " ++ msg_end;
   s "SPC-b: subnames are defined when the `done` field is set."] /\
  lint_errors ex_path (ex_project md_arts []) = [mkLint LError (Some (s "design/a.md")) None CArtifact (s "SPC-a defines partof=REQ-b which does not exist");
    mkLint LError (Some (s "design/a.md")) None CArtifact (s "SPC-a: subnames are defined when the `done` field is set.")] /\
  lint_errors ex_path (ex_project ex_frac []) = [].
Proof. vm_compute. auto. Qed.

(** ** C30 Types never descend along links *)
Theorem C30_chain_rank : forall M topo H hash_im, topo_ok topo ->
  forall arts code out, Forall im_wf arts -> distinct arts -> build M topo H hash_im arts code = Ok out ->
  forall path_str p, pr_arts p = out -> lint_errors path_str p = [] ->
  forall n q, name_wf n -> name_wf q -> clos_refl_trans_1n _ (link_k p) (n_key n) (n_key q) ->
  ty_rank (n_ty q) <= ty_rank (n_ty n).
Proof. exact built_chain. Qed.
Print Assumptions C30_chain_rank.

Theorem C30_cycle_one_type : forall M topo H hash_im, topo_ok topo ->
  forall arts code out, Forall im_wf arts -> distinct arts -> build M topo H hash_im arts code = Ok out ->
  forall path_str p, pr_arts p = out -> lint_errors path_str p = [] ->
  forall n q, name_wf n -> name_wf q -> clos_refl_trans_1n _ (link_k p) (n_key n) (n_key q) ->
  clos_refl_trans_1n _ (link_k p) (n_key q) (n_key n) -> n_ty n = n_ty q.
Proof. exact built_cycle. Qed.
Print Assumptions C30_cycle_one_type.

Definition link_b {M H} (p : project M H) (k k' : str) : bool :=
  existsb (fun e : name * artifact M H => str_eqb (n_key (fst e)) k && existsb (fun q => str_eqb (n_key q) k') (a_partof (snd e))) (pr_arts p).
Lemma link_b_ok {M H} (p : project M H) k k' : link_b p k k' = true -> link_k p k k'.
Proof.
  unfold link_b. intros X. apply existsb_exists in X as ([n a] & Hin & X). apply Bool.andb_true_iff in X as [X1 X2].
  apply existsb_exists in X2 as (q & Hq & X2). apply str_eqb_eq in X1, X2. exists n, a, q. auto.
Qed.
(** A chain of three links and a cycle, in projects without errors. *)
Definition ex_down : list art_im :=
  [ex_im (s "TST-a") [] None []; ex_im (s "SPC-a") [s "SPC-c"] None []; ex_im (s "SPC-c") [s "REQ-z"] None []; ex_im (s "REQ-z") [] None []].
Example C30_example :
  (lint_errors ex_path (ex_project ex_down []) = [] /\
   clos_refl_trans_1n _ (link_k (ex_project ex_down [])) (s "TST-A") (s "REQ-Z")) /\
  lint_errors ex_path (ex_project ex_cycle []) = [] /\
  clos_refl_trans_1n _ (link_k (ex_project ex_cycle [])) (s "SPC-A") (s "SPC-B") /\
  clos_refl_trans_1n _ (link_k (ex_project ex_cycle [])) (s "SPC-B") (s "SPC-A").
Proof.
  split; [split; [vm_compute; reflexivity|]|split; [vm_compute; reflexivity|split]].
  - apply rt1n_trans with (y := s "SPC-A"); [apply link_b_ok; vm_compute; reflexivity|].
    apply rt1n_trans with (y := s "SPC-C"); [apply link_b_ok; vm_compute; reflexivity|].
    apply rt1n_trans with (y := s "REQ-Z"); [apply link_b_ok; vm_compute; reflexivity|apply rt1n_refl].
  - apply rt1n_trans with (y := s "SPC-B"); [apply link_b_ok; vm_compute; reflexivity|apply rt1n_refl].
  - apply rt1n_trans with (y := s "SPC-A"); [apply link_b_ok; vm_compute; reflexivity|apply rt1n_refl].
Qed.

(** ** C31 Dangling soft references are warned about *)
Theorem C31_refs_exact : forall M topo H hash_im, topo_ok topo ->
  forall arts code out, Forall im_wf arts -> distinct arts -> build M topo H hash_im arts code = Ok out ->
  forall path_str p, pr_arts p = out ->
  forall l, lint_text_refs path_str p = Ok l ->
  forall w, In w l <-> exists n a x y, In (n, a) out /\ ref_in (a_text a) x y /\ dangling out x y /\ w = ref_lint path_str n a x y.
Proof. exact built_refs. Qed.
Print Assumptions C31_refs_exact.

(** The check ends in a panic when a text refers to a name with the letter U+017F in its type
    ("[[\u017fpc-x]]"), and only then. *)
Theorem C31_refs_panic : forall M topo H hash_im, topo_ok topo ->
  forall arts code out, Forall im_wf arts -> distinct arts -> build M topo H hash_im arts code = Ok out ->
  forall path_str p, pr_arts p = out ->
  (lint_text_refs path_str p = Panic <->
   exists n a x y, In (n, a) out /\ ref_in (a_text a) x y /\ longs_name x) /\
  lint_text_refs path_str p <> Err.
Proof. exact built_refs_panic. Qed.
Print Assumptions C31_refs_panic.

Definition ex_refs : list art_im :=
  [ex_im (s "REQ-a") [] None (s "see [[spc-B]] [[SPC-b.Sub]] [[SPC-b.no]] [[SPC-c]] [[[SPC-c.x]] [[SPC-]] [[x]]");
   ex_im (s "SPC-b") [] None (s "[[.sub]]")].
Definition ex_longs : list art_im := [ex_im (s "REQ-a") [] None (s "see [[" ++ [383%N] ++ s "pc-x]]")].
Example C31_example :
  match lint_text_refs ex_path (ex_project ex_refs []) with Ok l => map li_msg l | _ => [] end =
  [s "REQ-a has soft reference [[SPC-b.no]] which does not exist."; s "REQ-a has soft reference [[SPC-c]] which does not exist.";
   s "REQ-a has soft reference [[SPC-c.x]] which does not exist."] /\
  lint_text_refs ex_path (ex_project ex_longs []) = Panic.
Proof. vm_compute. auto. Qed.

(** ** C32 Invalid code references are warned about *)
Theorem C32_code_exact : forall M topo H hash_im, topo_ok topo ->
  forall arts code out, Forall im_wf arts -> distinct arts -> (forall n c, In (n, c) code -> name_wf n) ->
  build M topo H hash_im arts code = Ok out ->
  forall path_str p, pr_arts p = out -> pr_code p = code ->
  forall w, In w (lint_code_impls path_str p) <->
    exists n sub loc msg, code_ref code n sub loc /\ code_reason p n sub msg /\ w = code_lint path_str n sub loc msg.
Proof. exact built_code. Qed.
Print Assumptions C32_code_exact.

(** A reference is left alone exactly when it has none of the three faults: each fault gives a
    warning at its place that spells the reference. *)
Theorem C32_code_quiet : forall M topo H hash_im, topo_ok topo ->
  forall arts code out, Forall im_wf arts -> distinct arts -> (forall n c, In (n, c) code -> name_wf n) ->
  build M topo H hash_im arts code = Ok out ->
  forall path_str p, pr_arts p = out -> pr_code p = code ->
  lint_code_impls path_str p = [] <->
  forall n sub loc, code_ref code n sub loc ->
    exists m b, In (m, b) out /\ same_name n m /\ (forall d, a_impl b <> IDone d) /\
      forall x, sub = Some x -> exists z, In z (a_subnames b) /\ s_key z = s_key x.
Proof. exact built_code_quiet. Qed.
Print Assumptions C32_code_quiet.

Definition ex_src : list (name * impl_code) :=
  [(nm (s "SPC-a"), mkCode (Some (mkLoc [s "a.rs"] 1)) [(sub_new (s ".X"), mkLoc [s "a.rs"] 2); (sub_new (s ".no"), mkLoc [s "a.rs"] 3)]);
   (nm (s "spc-C"), mkCode None [(sub_new (s ".q"), mkLoc [s "c.rs"] 4)]);
   (nm (s "SPC-gone"), mkCode (Some (mkLoc [s "d.rs"] 5)) [])].
Example C32_example : (forall n c, In (n, c) ex_src -> name_wf n) /\
  map (fun w => (li_path w, li_line w, li_msg w)) (lint_code_impls ex_path (ex_project ex_frac ex_src)) =
  [(Some (s "a.rs"), Some 3, s "Invalid code impl #SPC-a.no. Subname [[.no]] does not exist in artifact's text");
   (Some (s "c.rs"), Some 4, s "Invalid code impl #spc-C.q. Artifact's done field is set");
   (Some (s "d.rs"), Some 5, s "Invalid code impl #SPC-gone. Artifact SPC-gone does not exist")].
Proof.
  split; [|vm_compute; reflexivity]. intros n c [E|[E|[E|[]]]]; injection E as <- _; vm_compute; reflexivity.
Qed.

(** ** C33 Lint lists are canonical *)
Theorem C33_categorize : forall l c, categorize c l =
  mkLints (ls_error c ++ filter is_error l) (ls_other c ++ filter (fun x => negb (is_error x)) l).
Proof. exact categorize_ok. Qed.
Print Assumptions C33_categorize.

Theorem C33_sorted : forall l, StronglySorted (fun a b => lint_leb a b = true) (sort_dedup l) /\ NoDup (sort_dedup l) /\
  forall x, In x (sort_dedup l) <-> In x l.
Proof. exact sort_dedup_ok. Qed.
Print Assumptions C33_sorted.

Theorem C33_canonical : forall l l', (forall x, In x l <-> In x l') ->
  sort_lints (categorize no_lints l) = sort_lints (categorize no_lints l').
Proof. exact sort_lints_same. Qed.
Print Assumptions C33_canonical.

Theorem C33_idempotent : forall c, sort_lints (sort_lints c) = sort_lints c.
Proof. exact sort_lints_idem. Qed.
Print Assumptions C33_idempotent.

(** Lints are ordered by level, path, line, category, message. *)
Theorem C33_order : (forall a b, lint_leb a b = true \/ lint_leb b a = true) /\
  (forall a b, lint_leb a b = true -> lint_leb b a = true -> a = b) /\
  (forall a b c, lint_leb a b = true -> lint_leb b c = true -> lint_leb a c = true).
Proof. exact (conj lint_leb_total (conj lint_leb_antisym lint_leb_trans)). Qed.
Print Assumptions C33_order.

Definition ex_lint l m := mkLint l (Some (s "f")) None CArtifact m.
Example C33_example :
  sort_lints (categorize no_lints [ex_lint LWarn (s "b"); ex_lint LError (s "z"); ex_lint LWarn (s "a"); ex_lint LError (s "z"); ex_lint LWarn (s "b")]) =
  mkLints [ex_lint LError (s "z")] [ex_lint LWarn (s "a"); ex_lint LWarn (s "b")].
Proof. vm_compute. reflexivity. Qed.
