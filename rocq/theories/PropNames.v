(** Properties C01-C07: names, subnames, families, collapsed lists, stored name sets. *)
From Coq Require Import Permutation.
From Verif Require Import Base Name SpecName NameFacts SubFacts Family FamilyFacts
  Expand SpecExpand ExpandFacts RawNames RawNamesFacts.

(** ** C01 Which strings are artifact names *)
Theorem C01_name_accepted_iff : forall x, (exists n, name_from_str x = Ok n) <-> valid_name x.
Proof. exact name_accept. Qed.
Print Assumptions C01_name_accepted_iff.

Theorem C01_name_panic_iff : forall x, name_from_str x = Panic <-> longs_name x.
Proof. exact name_panic. Qed.
Print Assumptions C01_name_panic_iff.

Theorem C01_name_error_iff : forall x, name_from_str x = Err <-> ~ valid_name x /\ ~ longs_name x.
Proof. exact name_err. Qed.
Print Assumptions C01_name_error_iff.

Example C01_accepts : name_from_str (s "req-Foo-b_1") =
  Ok (mkName REQ (s "REQ-FOO-B_1") (s "req-Foo-b_1")).
Proof. vm_compute. reflexivity. Qed.
Example C01_rejects : map name_from_str [s "REQ-"; s "REQ"; s "RE-foo"; s "REQ-a--b"; s "REQ-a-"; s " REQ-a"]
  = [Err; Err; Err; Err; Err; Err].
Proof. vm_compute. reflexivity. Qed.
Example C01_panics : name_from_str (383 :: s "pc-foo")%N = Panic.
Proof. vm_compute. reflexivity. Qed.

(** ** C02 Name identity *)
Theorem C02_name_identity : forall x y a b,
  name_from_str x = Ok a -> name_from_str y = Ok b ->
  (name_eqb a b = true <-> str_ci x y) /\
  (name_eqb a b = true <-> name_hash_input a = name_hash_input b) /\
  (name_eqb a b = true <-> name_cmp a b = Eq) /\
  name_cmp b a = CompOpp (name_cmp a b).
Proof. exact name_identity. Qed.
Print Assumptions C02_name_identity.

Theorem C02_name_order_transitive : forall a b c,
  name_cmp a b = Lt -> name_cmp b c = Lt -> name_cmp a c = Lt.
Proof. exact name_cmp_trans. Qed.
Print Assumptions C02_name_order_transitive.

(** The comparison that maps and lists are sorted with is this order. *)
Theorem C02_name_order_used : forall a b, name_leb a b = true <-> name_cmp a b <> Gt.
Proof. intros a b. unfold name_leb, name_cmp, str_leb. destruct (str_cmp (n_key a) (n_key b)); split; congruence. Qed.
Print Assumptions C02_name_order_used.

Theorem C02_name_spelling : forall x n, name_from_str x = Ok n ->
  name_as_str n = x /\ name_from_str (name_as_str n) = Ok n /\
  (forall t, n_ty n = t <-> str_ci (ty_str t) (firstn 3 x)).
Proof. exact name_spelling. Qed.
Print Assumptions C02_name_spelling.

Example C02_case : exists a b, name_from_str (s "req-foo") = Ok a /\ name_from_str (s "REQ-Foo") = Ok b /\
  name_eqb a b = true /\ name_as_str a <> name_as_str b.
Proof. do 2 eexists. repeat split; try (vm_compute; reflexivity). vm_compute. discriminate. Qed.

(** ** C03 Which strings are subnames *)
Theorem C03_subname_accepted_iff : forall x, (exists n, sub_from_str x = Ok n) <-> valid_sub x.
Proof. exact sub_accept. Qed.
Print Assumptions C03_subname_accepted_iff.

Theorem C03_subname_never_panics : forall x, sub_from_str x <> Panic.
Proof. exact sub_no_panic. Qed.
Print Assumptions C03_subname_never_panics.

Theorem C03_subname_identity : forall x y a b, sub_from_str x = Ok a -> sub_from_str y = Ok b ->
  (sub_eqb a b = true <-> str_ci x y) /\ s_raw a = x.
Proof. exact sub_identity. Qed.
Print Assumptions C03_subname_identity.

Example C03_examples : exists a b, sub_from_str (s ".tst-Foo") = Ok a /\ sub_from_str (s ".TST-foo") = Ok b /\
  sub_eqb a b = true /\ sub_from_str (s ".foo-bar") = Err /\ sub_from_str (s ".tst-") = Err.
Proof. do 2 eexists. repeat split; vm_compute; reflexivity. Qed.

(** ** C04 Subnames found in text *)
(** [in_parse_subnames]: the set holds exactly the valid subnames between double brackets,
    each with the spelling of its first occurrence (and its upper-cased key). *)
Theorem C04_subnames_exact : forall text x k,
  In (mkSub x k) (parse_subnames text) <-> k = upper x /\ exists p, first_sub_at text p x.
Proof. exact in_parse_subnames. Qed.
Print Assumptions C04_subnames_exact.

(** Every valid occurrence is represented, up to case. *)
Theorem C04_subnames_complete : forall text k,
  In k (map s_key (parse_subnames text)) <-> exists p x, sub_at text p x /\ k = upper x.
Proof. exact parse_subnames_key. Qed.
Print Assumptions C04_subnames_complete.

Theorem C04_subnames_distinct : forall text, NoDup (map s_key (parse_subnames text)).
Proof. exact parse_subnames_nodup. Qed.
Print Assumptions C04_subnames_distinct.

Example C04_example : parse_subnames (s "[[[.Foo]] and [[.foo]] [[.tst-a]][[.b c]] [[.x]") =
  [sub_new (s ".Foo"); sub_new (s ".tst-a")].
Proof. vm_compute. reflexivity. Qed.

(** ** C05 Parent and auto-partof *)
Theorem C05_parent : forall x n, name_from_str x = Ok n ->
  exists p es e, Forall element (es ++ [e]) /\ str_ci (ty_str (n_ty n)) p /\
    x = join [45%N] (p :: es ++ [e]) /\
    (es = [] -> name_parent n = Ok None) /\
    (es <> [] -> exists m, name_from_str (join [45%N] (p :: es)) = Ok m /\
                           n_ty m = n_ty n /\ name_parent n = Ok (Some m)).
Proof. exact parent_explicit. Qed.
Print Assumptions C05_parent.

Theorem C05_auto_partof : forall x n, name_from_str x = Ok n ->
  (n_ty n = REQ /\ name_auto n = Ok None) \/
  exists t p es m, auto_ty (n_ty n) = Some t /\ x = join [45%N] (p :: es) /\ es <> [] /\
    str_ci (ty_str (n_ty n)) p /\
    name_from_str (join [45%N] (ty_str t :: es)) = Ok m /\ n_ty m = t /\
    name_auto n = Ok (Some m).
Proof. exact auto_explicit. Qed.
Print Assumptions C05_auto_partof.

Theorem C05_parents_reach_root : forall k n p es,
  name_wf n -> pieces_of n p es -> length es = S k ->
  exists r, chain n k r /\ name_from_str (join [45%N] [p; hd [] es]) = Ok r.
Proof. exact chain_exists. Qed.
Print Assumptions C05_parents_reach_root.

Theorem C05_parent_auto_commute : forall x n, name_from_str x = Ok n ->
  forall p a, name_parent n = Ok p -> name_auto n = Ok a ->
  exists q, (match p with Some p' => name_auto p' | None => Ok None end) = Ok q /\
            (match a with Some a' => name_parent a' | None => Ok None end) = Ok q.
Proof. exact commute_explicit. Qed.
Print Assumptions C05_parent_auto_commute.

Example C05_example : exists n, name_from_str (s "TST-a-B-c") = Ok n /\
  name_parent n = Ok (Some (mkName TST (s "TST-A-B") (s "TST-a-B"))) /\
  name_auto n = Ok (Some (mkName SPC (s "SPC-A-B-C") (s "SPC-a-B-c"))) /\
  pieces_of n (s "TST") [s "a"; s "B"; s "c"].
Proof.
  eexists. split; [vm_compute; reflexivity|]. repeat split; try (vm_compute; reflexivity); try discriminate.
  - repeat (apply Forall_cons; [apply element_check; [discriminate|reflexivity]|]). apply Forall_nil.
  - apply str_ci_upper. reflexivity.
Qed.

(** ** C06 Collapsed name lists *)
(** Any tree of non-empty texts, rendered with blanks inserted anywhere, expands to its
    root-to-leaf concatenations. *)
Theorem C06_trees_expand : forall items raw, Forall item_ok items ->
  no_blanks raw (join [44%N] (map render items)) ->
  parse_collapsed raw = Ok (flat_map leaves items).
Proof. exact expand_trees. Qed.
Print Assumptions C06_trees_expand.

(** Acceptance and result of every string, by the grammar. *)
Theorem C06_expansion_exact : forall raw l,
  parse_collapsed raw = Ok l <-> exists r, no_blanks raw r /\ denotes r l.
Proof. exact parse_collapsed_spec. Qed.
Print Assumptions C06_expansion_exact.

Theorem C06_rejection_exact : forall raw,
  parse_collapsed raw = Err <->
  exists r, no_blanks raw r /\ (unopened r \/ unclosed r \/ no_prefix r).
Proof. exact parse_collapsed_err_spec. Qed.
Print Assumptions C06_rejection_exact.

Theorem C06_never_panics : forall raw, parse_collapsed raw <> Panic.
Proof. exact parse_collapsed_no_panic. Qed.
Print Assumptions C06_never_panics.

Example C06_example :
  let items := [Node (s "REQ-") [Leaf (s "foo"); Node (s "bar-") [Leaf (s "1"); Leaf (s "2")]]; Leaf (s "SPC-x")] in
  Forall item_ok items /\
  no_blanks (s "REQ-[ foo, bar-[1,2 ]], SPC-x") (join [44%N] (map render items)) /\
  flat_map leaves items = [s "REQ-foo"; s "REQ-bar-1"; s "REQ-bar-2"; s "SPC-x"].
Proof.
  simpl. repeat split; try discriminate; repeat constructor; try discriminate;
    try (vm_compute; intuition discriminate).
Qed.
Example C06_errors : map parse_collapsed [s "a-[b"; s "a]b"; s "[a]"; s "a,[b]"; s "a-[b]]"; s "a-[b][c]"]
  = [Err; Err; Err; Err; Err; Err].
Proof. vm_compute. reflexivity. Qed.

(** ** C07 Name sets survive serialisation *)
Theorem C07_partof_roundtrip : forall l, l <> [] -> name_set l ->
  exists v l', names_ser l = Ok v /\ names_de v = Ok l' /\ Permutation l l'.
Proof. exact names_roundtrip. Qed.
Print Assumptions C07_partof_roundtrip.

Theorem C07_partof_canonical : forall l l', name_set l -> Permutation l l' -> names_ser l = names_ser l'.
Proof. exact names_ser_canon. Qed.
Print Assumptions C07_partof_canonical.

Theorem C07_names_roundtrip : forall l, name_set l ->
  exists l', fnames_de [] (fnames_ser l) = Ok l' /\ Permutation l l'.
Proof. exact fnames_roundtrip. Qed.
Print Assumptions C07_names_roundtrip.

Theorem C07_names_canonical : forall l l', name_set l -> Permutation l l' -> fnames_ser l = fnames_ser l'.
Proof. exact fnames_ser_canon. Qed.
Print Assumptions C07_names_canonical.

Example C07_example : exists a b, name_from_str (s "SPC-b") = Ok a /\ name_from_str (s "REQ-A") = Ok b /\
  name_set [a; b] /\ names_ser [a; b] = Ok (VSeq [s "REQ-A"; s "SPC-b"]) /\ names_de (VStr (s "REQ-[a, b]")) <> Err.
Proof.
  do 2 eexists. split; [vm_compute; reflexivity|]. split; [vm_compute; reflexivity|].
  split; [|split; [vm_compute; reflexivity|vm_compute; discriminate]].
  split; [repeat constructor|]. vm_compute. repeat constructor; simpl; intuition discriminate.
Qed.
