(** Properties C20-C22: references in source code. *)
From Coq Require Import Lia ZifyBool Permutation Sorted.
From Verif Require Import Base BaseFacts Regex Name SpecName NameFacts Artifact Lint Source SpecSource SourceFacts SpecJoin JoinThms PropArtifacts.

(** ** C20 Source scanning honours skip markers *)

(** What is sent for a reference at line [i] spelled [x], with subname [y] (empty: none). *)
Definition sends (file : path) (e : (nat * nat) * str * str) (r : src_ref) : Prop :=
  let '(p, x, y) := e in
  exists n sub, r = (mkLoc file (fst p), n, sub) /\ name_from_str x = Ok n /\
    match sub with Some z => sub_from_str y = Ok z | None => y = [] end.

(** The references that count, in reading order, are sent one after the other, until the end of
    the file (or of its readable part), or until the first one whose type is spelled with a long
    s: that one kills the reader. *)
Theorem C20_scan_exact : forall file lines io, exists V,
  StronglySorted before (map (fun e => fst (fst e)) V) /\
  (forall p x y, In (p, x, y) V <-> ref_at lines p x y) /\
  exists V1 V2, V = V1 ++ V2 /\ Forall2 (sends file) V1 (fst (parse_locations file lines io)) /\
    match V2 with
    | [] => snd (parse_locations file lines io) = if io then EIo else EDone
    | (_, x, _) :: _ => longs_name x /\ snd (parse_locations file lines io) = EPanic
    end.
Proof.
  intros file lines io. exists (refs_of lines). split; [apply refs_of_sorted|]. split; [apply refs_of_in|].
  destruct (scan_file file lines io) as (pan & (v1 & v2 & E & F & P) & End). exists v1, v2. split; [exact E|]. split; [exact F|].
  rewrite End. destruct v2 as [|[[p x] y] v2]; [now rewrite P|]. destruct P as [L ->]. auto.
Qed.
Print Assumptions C20_scan_exact.

(** Without long-s types among the references that count, everything is sent. *)
Theorem C20_scan_complete : forall file lines io,
  (forall p x y, ref_at lines p x y -> ~ longs_name x) ->
  exists V, StronglySorted before (map (fun e => fst (fst e)) V) /\
  (forall p x y, In (p, x, y) V <-> ref_at lines p x y) /\
  Forall2 (sends file) V (fst (parse_locations file lines io)) /\
  snd (parse_locations file lines io) = if io then EIo else EDone.
Proof.
  intros file lines io N. destruct (C20_scan_exact file lines io) as (V & So & Hin & V1 & V2 & -> & F & E). exists (V1 ++ V2).
  destruct V2 as [|[[p x] y] V2]; [rewrite app_nil_r in *; auto|]. exfalso. apply (N p x y); [|apply E].
  apply Hin. apply in_or_app. right. now left.
Qed.
Print Assumptions C20_scan_complete.

(** A skip marker that is not followed by a done marker hides the rest of the file. *)
Theorem C20_skip_to_end : forall file lines io k r,
  mark_at lines (fst k) (snd k) MSkip -> (forall d, mark_at lines (fst d) (snd d) MDone -> before d k) ->
  In r (fst (parse_locations file lines io)) -> loc_line (ref_loc r) <= fst k.
Proof.
  intros file lines io k r Hk Hd Hr. destruct (C20_scan_exact file lines io) as (V & So & Hin & V1 & V2 & -> & F & _).
  assert (exists e, In e V1 /\ sends file e r) as ([[p x] y] & He & n & sub & -> & _).
  { clear -F Hr. induction F as [|a b l l' H F IH]; [destruct Hr|]. destruct Hr as [->|Hr]; [exists a; split; [now left|auto]|].
    destruct (IH Hr) as (e & ? & ?). exists e. split; [now right|auto]. }
  unfold ref_loc. cbn [fst snd loc_line]. assert (Hr' : ref_at lines p x y) by (apply Hin, in_or_app; now left).
  destruct (Nat.le_gt_cases (fst p) (fst k)) as [|G]; auto. exfalso. apply (proj2 Hr'). exists k. split; auto. split; [now left|]. intros d Hd' _. auto.
Qed.
Print Assumptions C20_skip_to_end.

Definition ex_lines : list str :=
  [s "// #SPC-a.x and #req-B"; s "#art-skip #SPC-hidden"; s "#SPC-hidden.y"; s "#ART-DONE #SPC-c- #SPC-d_1.tst-z."; s "#ART-SKIP"; s "#SPC-e"].
Example C20_example :
  map (fun r => (loc_line (ref_loc r), name_full (ref_name r) (ref_sub r))) (fst (parse_locations [s "f.rs"] ex_lines false)) =
  [(0, s "SPC-a.x"); (0, s "req-B"); (3, s "SPC-c"); (3, s "SPC-d_1.tst-z")] /\
  snd (parse_locations [s "f.rs"] ex_lines false) = EDone /\
  snd (parse_locations [s "f.rs"] [s "#SPC-a"; 35%N :: 383%N :: s "PC-b"; s "#SPC-c"] false) = EPanic /\
  length (fst (parse_locations [s "f.rs"] [s "#SPC-a"; 35%N :: 383%N :: s "PC-b"; s "#SPC-c"] false)) = 1.
Proof. vm_compute. repeat split. Qed.
Example C20_skip_example : mark_at ex_lines 4 0 MSkip.
Proof.
  exists (s "#ART-SKIP"), [], (s "#ART-SKIP"). repeat split. apply HereSkip with (k := s "#ART-SKIP") (v := []).
  - now rewrite app_nil_r.
  - assert (R : forall l, Forall2 char_fold l l); [|apply R]. intros l. induction l; constructor; auto. left. now left.
Qed.

(** ** C21 Joining source references *)

(** Nothing referenced twice: no error, and the map lists exactly the references, one entry for
    each name. *)
Theorem C21_exact : forall refs, Forall ref_wf refs -> (forall i j, ~ repeated refs i j) ->
  forall path_str, join_lints path_str refs = [] /\
  (forall r, In r refs -> exists n, str_ci (n_raw (ref_name r)) (n_raw n) /\ listed (snd (join_locations refs)) n (ref_sub r) (ref_loc r)) /\
  (forall n sub l, listed (snd (join_locations refs)) n sub l ->
     exists r, In r refs /\ str_ci (n_raw n) (n_raw (ref_name r)) /\ ref_sub r = sub /\ ref_loc r = l) /\
  (forall n c, In (n, c) (snd (join_locations refs)) -> exists r, In r refs /\ ref_name r = n) /\
  (forall n c n' c', In (n, c) (snd (join_locations refs)) -> In (n', c') (snd (join_locations refs)) ->
     str_ci (n_raw n) (n_raw n') -> (n, c) = (n', c')).
Proof. exact join_exact. Qed.
Print Assumptions C21_exact.

(** Every reference that is repeated gets an error that points to it and names it. *)
Theorem C21_duplicates_reported : forall refs, Forall ref_wf refs -> forall path_str i j r,
  repeated refs i j -> nth_error refs i = Some r ->
  exists w r', In w (join_lints path_str refs) /\ points_to path_str w r /\ In r' refs /\ same_ref r r' /\
    li_msg w = s "duplicate detected: " ++ name_full (ref_name r') (ref_sub r').
Proof. exact join_reports. Qed.
Print Assumptions C21_duplicates_reported.

(** Every error points to a repeated reference. *)
Theorem C21_only_duplicates : forall refs, Forall ref_wf refs -> forall path_str w, In w (join_lints path_str refs) ->
  exists i j r, repeated refs i j /\ nth_error refs i = Some r /\ points_to path_str w r.
Proof. exact join_only. Qed.
Print Assumptions C21_only_duplicates.

Definition rf (f : str) (l : nat) (n : str) (sub : option str) : src_ref := (mkLoc [f] l, nm n, option_map sub_new sub).
Definition ex_refs : list src_ref :=
  [rf (s "a") 1 (s "SPC-a") (Some (s ".x")); rf (s "b") 2 (s "spc-A") None; rf (s "b") 3 (s "SPC-b") None; rf (s "c") 4 (s "Spc-a") (Some (s ".tst-y"))].
Definition ex_dups : list src_ref := ex_refs ++ [rf (s "d") 5 (s "SPC-A") (Some (s ".X")); rf (s "e") 6 (s "SPC-a") (Some (s ".x"))].
Example C21_example :
  Forall ref_wf ex_dups /\
  map (fun e => (n_raw (fst e), ic_primary (snd e), map (fun x => (s_raw (fst x), snd x)) (ic_secondary (snd e)))) (snd (join_locations ex_refs)) =
  [(s "spc-A", Some (mkLoc [s "b"] 2), [(s ".x", mkLoc [s "a"] 1); (s ".tst-y", mkLoc [s "c"] 4)]); (s "SPC-b", Some (mkLoc [s "b"] 3), [])] /\
  fst (join_locations ex_refs) = [] /\ repeated ex_dups 0 5 /\
  map (fun w => (li_line w, li_msg w)) (join_lints (fun p => concat p) ex_dups) =
  [(Some 1, s "duplicate detected: SPC-A.X"); (Some 5, s "duplicate detected: SPC-A.X");
   (Some 5, s "duplicate detected: SPC-a.x"); (Some 6, s "duplicate detected: SPC-a.x")].
Proof.
  split.
  - unfold ex_dups, ex_refs, rf. cbn [app]. repeat apply Forall_cons; try apply Forall_nil;
      (split; [vm_compute; reflexivity|intros x E; cbn in E; try discriminate E; injection E as <-; vm_compute; reflexivity]).
  - split; [vm_compute; reflexivity|]. split; [vm_compute; reflexivity|]. split; [|vm_compute; reflexivity].
    exists (rf (s "a") 1 (s "SPC-a") (Some (s ".x"))), (rf (s "e") 6 (s "SPC-a") (Some (s ".x"))). split; [reflexivity|]. split; [reflexivity|]. split; [discriminate|].
    split; [apply str_ci_upper; reflexivity|]. cbn. apply str_ci_upper. reflexivity.
Qed.

(** ** C22 Source references do not depend on the thread schedule *)
Theorem C22_orders : forall refs refs', Permutation refs refs' -> forall path_str,
  (join_lints path_str refs = [] <-> join_lints path_str refs' = []) /\
  (join_lints path_str refs = [] ->
   forall n c, In (n, c) (snd (join_locations refs)) -> exists n' c', In (n', c') (snd (join_locations refs')) /\
     name_eqb n n' = true /\ ic_primary c' = ic_primary c /\ Permutation (ic_secondary c) (ic_secondary c') /\
     (ic_primary c <> None -> n' = n)).
Proof. exact join_orders. Qed.
Print Assumptions C22_orders.

(** The spelling of a name without a reference to itself does depend on the schedule. *)
Theorem C22_spelling_depends : exists refs refs', Permutation refs refs' /\ Forall ref_wf refs /\
  fst (join_locations refs) = [] /\
  map (fun e => n_raw (fst e)) (snd (join_locations refs)) <> map (fun e => n_raw (fst e)) (snd (join_locations refs')).
Proof.
  exists [rf (s "a") 1 (s "SPC-a") (Some (s ".x")); rf (s "b") 2 (s "spc-A") (Some (s ".y"))],
    [rf (s "b") 2 (s "spc-A") (Some (s ".y")); rf (s "a") 1 (s "SPC-a") (Some (s ".x"))].
  split; [apply perm_swap|]. split.
  - repeat apply Forall_cons; try apply Forall_nil;
      (split; [vm_compute; reflexivity|intros x E; cbn in E; injection E as <-; vm_compute; reflexivity]).
  - split; [vm_compute; reflexivity|vm_compute; discriminate].
Qed.
Print Assumptions C22_spelling_depends.

Example C22_example : Permutation ex_refs (rev ex_refs) /\
  map (fun e => (n_raw (fst e), length (ic_secondary (snd e)))) (snd (join_locations (rev ex_refs))) = [(s "SPC-b", 0); (s "spc-A", 2)].
Proof. split; [apply Permutation_rev|vm_compute; reflexivity]. Qed.
