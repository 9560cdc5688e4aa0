(** Properties C08, C09, C11, C12, C23, C24, C27, C28: links, assembly, stored form.

    The theorems hold for every arithmetic [M], every topological sort [topo] that meets
    its contract (SpecGraph.v) and every id function [hash_im]. *)
From Coq Require Import Permutation.
From Verif Require Import Base BaseFacts Name SpecName NameFacts Family Artifact Stored SpecGraph Topo
  SpecLinks LinkFacts ProjectFacts.

(** A concrete setting for the examples. *)
Definition ex_num : num := mkNum nat 0 1 Nat.add Nat.div nat 0 (fun x => x).
Definition ex_hash (a : art_im) : str := im_text a.
Definition ex_build := build ex_num topo_sort str ex_hash.
Definition nm (x : str) : name := match name_from_str x with Ok n => n | _ => mkName REQ [] [] end.
Definition ex_im (n : str) (ps : list str) (d : option str) (t : str) : art_im :=
  mkIm (nm n) [s "design"; s "a.md"] (map nm ps) d t.
(** Links to a missing artifact, to a non-existing own link, to oneself, and a cycle. *)
Definition ex_arts : list art_im :=
  [ex_im (s "REQ-a") [s "req-A"] None (s "top ");
   ex_im (s "SPC-a") [s "REQ-gone"; s "SPC-a-b"] None (s "[[.x]] [[.tst-y]]");
   ex_im (s "SPC-a-B") [s "REQ-A-b"; s "spc-a"; s "REQ-a"] None (s "b");
   ex_im (s "TST-z-b") [s "SPC-a"; s "TST-z"] (Some (s "by hand")) []].
Definition ex_code : list (name * impl_code) :=
  [(nm (s "spc-A"), mkCode None [(sub_new (s ".x"), mkLoc [s "x.rs"] 3)]);
   (nm (s "SPC-other"), mkCode (Some (mkLoc [s "y.rs"] 1)) [])].

Lemma ex_wf : Forall im_wf ex_arts.
Proof.
  repeat (apply Forall_cons || apply Forall_nil); constructor;
    repeat (apply Forall_cons || apply Forall_nil || (vm_compute; reflexivity));
    vm_compute; repeat constructor; simpl; intuition discriminate.
Qed.
Lemma ex_distinct : distinct ex_arts.
Proof. vm_compute. repeat constructor; simpl; intuition discriminate. Qed.
Lemma ex_code_wf : Forall (fun c => name_wf (fst c)) ex_code /\ NoDup (map (fun c => n_key (fst c)) ex_code).
Proof.
  split; [repeat (apply Forall_cons || apply Forall_nil || (vm_compute; reflexivity))|].
  vm_compute; repeat constructor; simpl; intuition discriminate.
Qed.
Definition ex_names (x : res (list (name * artifact ex_num str))) f :=
  match x with Ok l => map (fun e => (n_raw (fst e), map n_raw (f (snd e)))) l | _ => [] end.

(** ** C08 partof is exactly user links plus existing automatic links *)
Theorem C08_partof_exact : forall M topo H hash_im, topo_ok topo ->
  forall arts code out, Forall im_wf arts -> distinct arts -> build M topo H hash_im arts code = Ok out ->
  forall a, In a arts -> exists art, In (im_name a, art) out /\
    forall q, name_wf q ->
    (named q (a_partof art) <->
     (named q (im_partof a) /\ ~ own_link (n_key (im_name a)) (n_key q)) \/
     (own_link (n_key (im_name a)) (n_key q) /\ exists b, In b arts /\ n_key (im_name b) = n_key q)).
Proof. exact partof_exact. Qed.
Print Assumptions C08_partof_exact.

Example C08_example : topo_ok topo_sort /\ Forall im_wf ex_arts /\ distinct ex_arts /\
  ex_names (ex_build ex_arts ex_code) a_partof =
  [(s "REQ-a", [s "req-A"]); (s "SPC-a", [s "REQ-a"; s "REQ-gone"; s "SPC-a-b"]);
   (s "SPC-a-B", [s "SPC-a"; s "REQ-a"]); (s "TST-z-b", [s "SPC-a"])].
Proof.
  split; [exact topo_sort_ok|]. split; [exact ex_wf|]. split; [exact ex_distinct|].
  vm_compute. reflexivity.
Qed.

(** ** C09 Automatic links are never written and never lost *)
Theorem C09_store_then_load : forall M topo H hash_im, topo_ok topo ->
  forall arts code out, Forall im_wf arts -> distinct arts -> build M topo H hash_im arts code = Ok out ->
  build M topo H hash_im (map (fun e => to_im (snd e)) out) code = Ok out.
Proof. exact store_load. Qed.
Print Assumptions C09_store_then_load.

Theorem C09_never_written : forall a, im_wf a -> forall q,
  In q (im_partof (im_clean a)) <-> In q (im_partof a) /\ ~ own_link (n_key (im_name a)) (n_key q).
Proof. exact clean_links. Qed.
Print Assumptions C09_never_written.

Example C09_example : match ex_build ex_arts ex_code with
  | Ok out => map (fun e => map n_raw (im_partof (to_im (snd e)))) out =
              [[s "req-A"]; [s "REQ-gone"; s "SPC-a-b"]; [s "REQ-a"]; [s "SPC-a"]]
  | _ => False end.
Proof. vm_compute. reflexivity. Qed.

(** ** C11 parts is the inverse of partof *)
Theorem C11_parts_inverse : forall M topo H hash_im, topo_ok topo ->
  forall arts code out, Forall im_wf arts -> build M topo H hash_im arts code = Ok out ->
  forall n1 a1 n2 a2, In (n1, a1) out -> In (n2, a2) out ->
  (named n2 (a_parts a1) <-> named n1 (a_partof a2)).
Proof. exact parts_inverse. Qed.
Print Assumptions C11_parts_inverse.

Theorem C11_parts_are_artifacts : forall M topo H hash_im, topo_ok topo ->
  forall arts code out, Forall im_wf arts -> build M topo H hash_im arts code = Ok out ->
  forall n1 a1, In (n1, a1) out ->
  NoDup (map n_key (a_parts a1)) /\
  forall q, In q (a_parts a1) -> exists n2 a2, In (n2, a2) out /\ n_key n2 = n_key q.
Proof. exact parts_exist. Qed.
Print Assumptions C11_parts_are_artifacts.

Example C11_example : ex_names (ex_build ex_arts ex_code) a_parts =
  [(s "REQ-a", [s "REQ-a"; s "SPC-a"; s "SPC-a-b"]); (s "SPC-a", [s "SPC-a-b"; s "TST-z-b"]);
   (s "SPC-a-B", [s "SPC-a"]); (s "TST-z-b", [])].
Proof. vm_compute. reflexivity. Qed.

(** ** C12 Building the artifacts never panics *)
Theorem C12_build_total : forall M topo H hash_im, topo_ok topo ->
  forall arts code, exists out, build M topo H hash_im arts code = Ok out /\
    NoDup (map (fun e => (n_ty (fst e), n_key (fst e))) out) /\
    (forall n, In (n_ty n, n_key n) (map (fun e => (n_ty (fst e), n_key (fst e))) out) <->
               exists a, In a arts /\ (n_ty (im_name a), n_key (im_name a)) = (n_ty n, n_key n)) /\
    (forall n a, In (n, a) out -> a_name a = n).
Proof. exact build_total. Qed.
Print Assumptions C12_build_total.

(** The arithmetic, the sort and the artifacts above meet the only hypothesis; a list with a
    duplicated name too. *)
Example C12_example : topo_ok topo_sort /\
  match ex_build (ex_arts ++ [ex_im (s "req-A") [s "TST-gone"] None (s "again")]) ex_code with
  | Ok out => map (fun e => n_raw (fst e)) out = [s "REQ-a"; s "SPC-a"; s "SPC-a-B"; s "TST-z-b"]
  | _ => False end.
Proof. split; [exact topo_sort_ok|]. vm_compute. reflexivity. Qed.

(** ** C23 done wins over code *)
Theorem C23_implementation_exact : forall M topo H hash_im, topo_ok topo ->
  forall arts code out, Forall im_wf arts -> distinct arts ->
  Forall (fun c => name_wf (fst c)) code -> NoDup (map (fun c => n_key (fst c)) code) ->
  build M topo H hash_im arts code = Ok out ->
  forall a, In a arts -> exists art, In (im_name a, art) out /\
    (forall d, a_impl art = IDone d <-> im_done a = Some d) /\
    (forall c, a_impl art = ICode c <->
       im_done a = None /\ exists m, In (m, c) code /\ n_key m = n_key (im_name a)) /\
    (a_impl art = INot <->
       im_done a = None /\ forall m c, In (m, c) code -> n_key m <> n_key (im_name a)).
Proof. exact impl_exact. Qed.
Print Assumptions C23_implementation_exact.

Theorem C23_unknown_reference : forall M topo H hash_im, 
  forall arts code m c, (forall a, In a arts -> (n_ty (im_name a), n_key (im_name a)) <> (n_ty m, n_key m)) ->
  build M topo H hash_im arts (code ++ [(m, c)]) = build M topo H hash_im arts code.
Proof. exact unknown_reference. Qed.
Print Assumptions C23_unknown_reference.

Example C23_example : (Forall (fun c => name_wf (fst c)) ex_code /\ NoDup (map (fun c => n_key (fst c)) ex_code)) /\
  match ex_build ex_arts ex_code with
  | Ok out => map (fun e => a_impl (snd e)) out =
      [INot; ICode (mkCode None [(sub_new (s ".x"), mkLoc [s "x.rs"] 3)]); INot; IDone (s "by hand")]
  | _ => False end.
Proof. split; [exact ex_code_wf|]. vm_compute. reflexivity. Qed.

(** ** C24 Text normalisation *)
Theorem C24_clean_text : forall x, exists t w, x = t ++ w /\ Forall (fun c => is_ws c = true) w /\
  (forall p c, t = p ++ [c] -> is_ws c = false) /\
  (In 10%N t -> clean_text x = t ++ [10%N]) /\ (~ In 10%N t -> clean_text x = t).
Proof. exact clean_text_spec. Qed.
Print Assumptions C24_clean_text.

Theorem C24_clean_idempotent : (forall x, clean_text (clean_text x) = clean_text x) /\
  (forall a, im_wf a -> im_clean (im_clean a) = im_clean a).
Proof. exact clean_idem_all. Qed.
Print Assumptions C24_clean_idempotent.

Example C24_example : clean_text (s "a b  " ++ [10; 9; 32]%N) = s "a b" /\
  clean_text (s "a" ++ [10%N] ++ s "b  ") = s "a" ++ [10%N] ++ s "b" ++ [10%N] /\
  clean_text [10; 32]%N = [].
Proof. vm_compute. auto. Qed.

(** ** C27 Duplicate artifact names are always reported *)
Theorem C27_reported_iff : forall arts, Forall (fun a => name_wf (im_name a)) arts ->
  (j_dups (join_artifacts_raw arts) <> [] <->
   exists l1 a l2 b l3, arts = l1 ++ a :: l2 ++ b :: l3 /\ same_name a b).
Proof. exact dups_iff. Qed.
Print Assumptions C27_reported_iff.

Theorem C27_both_files : forall arts l1 a l2 b l3, Forall (fun a => name_wf (im_name a)) arts ->
  arts = l1 ++ a :: l2 ++ b :: l3 -> same_name a b ->
  (exists n g, In (n, im_file a, g) (j_dups (join_artifacts_raw arts))) /\
  (exists n f, In (n, f, im_file b) (j_dups (join_artifacts_raw arts))).
Proof. exact dups_reported. Qed.
Print Assumptions C27_both_files.

Theorem C27_only_clashes : forall arts n f g, Forall (fun a => name_wf (im_name a)) arts ->
  In (n, f, g) (j_dups (join_artifacts_raw arts)) ->
  exists l1 a l2 b l3, arts = l1 ++ a :: l2 ++ b :: l3 /\ same_name a b /\
    im_file a = f /\ im_file b = g /\ im_name b = n.
Proof. exact dups_only. Qed.
Print Assumptions C27_only_clashes.

Theorem C27_any_order : forall arts arts', Permutation arts arts' ->
  (j_dups (join_artifacts_raw arts) = [] <-> j_dups (join_artifacts_raw arts') = []).
Proof. exact dups_permutation. Qed.
Print Assumptions C27_any_order.

Theorem C27_nothing_lost : forall arts, Forall (fun a => name_wf (im_name a)) arts -> distinct arts ->
  j_dups (join_artifacts_raw arts) = [] /\
  j_ims (join_artifacts_raw arts) = map (fun a => (im_name a, im_clean a)) arts /\
  j_files (join_artifacts_raw arts) = map (fun a => (im_name a, im_file a)) arts.
Proof. exact join_kept. Qed.
Print Assumptions C27_nothing_lost.

Example C27_example :
  let a := ex_im (s "REQ-a") [] None [] in
  let b := mkIm (nm (s "req-A")) [s "design"; s "b.md"] [] None [] in
  let arts := a :: ex_im (s "SPC-a") [] None [] :: b :: [] in
  Forall (fun a => name_wf (im_name a)) arts /\ same_name a b /\
  j_dups (join_artifacts_raw arts) = [(nm (s "req-A"), [s "design"; s "a.md"], [s "design"; s "b.md"])].
Proof.
  cbv zeta. split; [repeat (apply Forall_cons || apply Forall_nil || (vm_compute; reflexivity))|].
  split; [|vm_compute; reflexivity]. apply str_ci_upper. vm_compute. reflexivity.
Qed.

(** ** C28 Stored form and loaded form correspond *)
Theorem C28_raw_roundtrip : forall a, im_wf a -> im_clean a = a ->
  let '(f, n, r) := into_raw a in from_raw n f r = a.
Proof. exact raw_roundtrip. Qed.
Print Assumptions C28_raw_roundtrip.

Theorem C28_stored_form : forall M topo H hash_im, topo_ok topo ->
  forall arts code out, Forall im_wf arts -> distinct arts -> build M topo H hash_im arts code = Ok out ->
  forall a, In a arts -> exists art, In (im_name a, art) out /\ to_im art = im_clean a /\
    a_id art = hash_im (im_clean a) /\ a_file art = im_file a /\ a_text art = clean_text (im_text a).
Proof. exact built_back. Qed.
Print Assumptions C28_stored_form.

Theorem C28_id_is_hash_of_stored_form : forall M topo, topo_ok topo -> forall H hash_im,
  forall arts code out, Forall im_wf arts -> distinct arts -> build M topo H hash_im arts code = Ok out ->
  forall n a, In (n, a) out -> a_id a = hash_im (to_im a).
Proof. exact id_stored. Qed.
Print Assumptions C28_id_is_hash_of_stored_form.

Example C28_example : Forall (fun a => im_wf a) (map im_clean ex_arts) /\
  map (fun a => im_clean (im_clean a)) ex_arts = map im_clean ex_arts /\
  map (fun a => let '(f, n, r) := into_raw (im_clean a) in (n_raw n, raw_done r)) ex_arts =
  [(s "REQ-a", None); (s "SPC-a", None); (s "SPC-a-B", None); (s "TST-z-b", Some (s "by hand"))].
Proof.
  split; [|vm_compute; auto]. pose proof ex_wf as W. rewrite Forall_forall in *. intros x Hx.
  apply in_map_iff in Hx as (a & <- & Ha). apply clean_im_wf; auto.
Qed.
