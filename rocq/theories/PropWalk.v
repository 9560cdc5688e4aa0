(** Properties C51, C52: the configured paths. *)
From Coq Require Import Lia ZifyBool.
From Verif Require Import Base BaseFacts Name Artifact Stored Lint Source Pool Load Disk DiskFacts Walk SpecWalk WalkFacts ResolveFacts PropArtifacts PropMarkdown PropLint.

(** ** C51 configured paths are relative to the project directory *)
(** Any number of leading "{repo}" and then "/" is ignored. *)
Theorem C51_leading_ignored : forall base k m x, (forall y, x <> 47%N :: y) -> (m = 0 -> starts_with x (s "{repo}") = false) ->
  resolve_path base (concat (repeat (s "{repo}") k) ++ repeat 47%N m ++ x) = resolve_path base (47%N :: x).
Proof.
  intros base k m x N M. rewrite (resolve_leading base k m x N M). symmetry. apply (resolve_leading base 0 1 x N). discriminate.
Qed.
Print Assumptions C51_leading_ignored.
(** Without ".." the result is the project directory followed by the components. *)
Theorem C51_below_project : forall base k m x, (forall y, x <> 47%N :: y) -> (m = 0 -> starts_with x (s "{repo}") = false) ->
  ups (split_on 47%N x) = 0 ->
  resolve_path base (concat (repeat (s "{repo}") k) ++ repeat 47%N m ++ x) = Ok (base ++ filter goes_down (split_on 47%N x)).
Proof. intros base k m x N M U. rewrite (resolve_leading base k m x N M), (concat_down _ base U). reflexivity. Qed.
Print Assumptions C51_below_project.
(** With ".." it stays inside as long as it never goes up more than down, may leave the project
    otherwise, and panics when it would leave the root directory. *)
Theorem C51_inside : forall base k m x q, (forall y, x <> 47%N :: y) -> (m = 0 -> starts_with x (s "{repo}") = false) ->
  (forall a b, split_on 47%N x = a ++ b -> ups a <= downs a) ->
  resolve_path base (concat (repeat (s "{repo}") k) ++ repeat 47%N m ++ x) = Ok q -> exists r, q = base ++ r.
Proof.
  intros base k m x q N M U. rewrite (resolve_leading base k m x N M). destruct (concat_path base (split_on 47%N x)) as [q'|] eqn:E; [|discriminate].
  intros X. injection X as <-. exact (concat_inside _ base q' U E).
Qed.
Print Assumptions C51_inside.
Theorem C51_panics_iff : forall base k m x, (forall y, x <> 47%N :: y) -> (m = 0 -> starts_with x (s "{repo}") = false) ->
  (resolve_path base (concat (repeat (s "{repo}") k) ++ repeat 47%N m ++ x) = Panic <->
   exists a b, split_on 47%N x = a ++ b /\ ups a > length base + downs a).
Proof.
  intros base k m x N M. rewrite (resolve_leading base k m x N M), <- concat_none. destruct (concat_path base (split_on 47%N x)); split; congruence.
Qed.
Print Assumptions C51_panics_iff.
Example C51_example : let base := [s "home"; s "proj"] in
  resolve_path base (s "{repo}{repo}//design/./src/") = Ok [s "home"; s "proj"; s "design"; s "src"] /\
  resolve_path base (s "/{repo}/x") = Ok [s "home"; s "proj"; s "{repo}"; s "x"] /\
  resolve_path base (s "a/../b") = Ok [s "home"; s "proj"; s "b"] /\
  resolve_path base (s "../other") = Ok [s "home"; s "other"] /\
  resolve_path base (s "../../..") = Panic.
Proof. vm_compute. auto. Qed.

(** ** C52 walking honours exclusion *)
(** A directory: the files found are reachable without passing an excluded path and have a known
    extension; each is found once; and unless an error ended the walk (which is reported) all such
    files are found. *)
Theorem C52_artifact_files : forall stat_err open_err not_found ex t, tree_ok t ->
  forall root l, lookup t root = Some (NDir l) ->
  forall fs e, walk_path stat_err open_err not_found (art_filter ex) t root = (fs, e) ->
  NoDup fs /\
  (forall q, In q fs -> reachable t ex root q /\ known_extension q) /\
  (e = None -> forall q, reachable t ex root q /\ known_extension q -> In q fs).
Proof.
  intros se oe nf ex t T root l L fs e E. apply (walk_path_exact se oe nf (art_filter ex) ex known_extension (art_filter_dir ex) (art_filter_file ex) t T root l L fs e E).
Qed.
Print Assumptions C52_artifact_files.
Theorem C52_source_files : forall stat_err open_err not_found ex t, tree_ok t ->
  forall root l, lookup t root = Some (NDir l) ->
  forall fs e, walk_path stat_err open_err not_found (code_filter ex) t root = (fs, e) ->
  NoDup fs /\
  (forall q, In q fs -> reachable t ex root q) /\
  (e = None -> forall q, reachable t ex root q -> In q fs).
Proof.
  intros se oe nf ex t T root l L fs e E.
  destruct (walk_path_exact se oe nf (code_filter ex) ex (fun _ => True) (code_filter_any ex true)
    (fun p => conj (fun H => conj (proj1 (code_filter_any ex false p) H) I) (fun H => proj2 (code_filter_any ex false p) (proj1 H))) t T root l L fs e E) as (N & S & C).
  split; auto. split; [intros q Hq; apply (S q Hq)|]. intros He q Hq. apply C; auto.
Qed.
Print Assumptions C52_source_files.
(** A root that is a file is taken whatever the exclusions and its name; one that does not exist
    is reported. *)
Theorem C52_file_root : forall stat_err open_err not_found filter t root,
  (forall c, lookup t root = Some (NFile c) -> walk_path stat_err open_err not_found filter t root = ([root], None)) /\
  (lookup t root = None -> walk_path stat_err open_err not_found filter t root = ([], Some not_found)).
Proof. intros se oe nf f t root. split; [intros c; apply walk_path_file|apply walk_path_none]. Qed.
Print Assumptions C52_file_root.

Definition fl (x : str) : node := NFile x.
Definition ex_tree : node :=
  NDir [(s "p", NDir [(s "d", NDir [(s "a.md", fl []); (s "b.txt", fl []); (s ".md", fl []); (s "x", NDir [(s "c.md", fl [])]); (s "y", NDir [(s "d.toml", fl []); (s "e.json", fl [])])]);
                      (s "root.txt", fl [])])].
Definition no_err : path -> option str := fun _ => None.
Definition ex_excl := [[s "p"; s "d"; s "x"]; [s "p"; s "d"; s "y"; s "e.json"]; [s "p"; s "root.txt"]].
Lemma ex_tree_ok : tree_ok ex_tree.
Proof. cbn. repeat split; auto; repeat (constructor; [vm_compute; intuition discriminate|]); constructor. Qed.
Example C52_example :
  walk_path no_err no_err (s "nf") (art_filter ex_excl) ex_tree [s "p"; s "d"] = ([[s "p"; s "d"; s "a.md"]; [s "p"; s "d"; s "y"; s "d.toml"]], None) /\
  walk_path no_err no_err (s "nf") (art_filter ex_excl) ex_tree [s "p"; s "root.txt"] = ([[s "p"; s "root.txt"]], None) /\
  walk_path no_err (fun p => if path_eqb p [s "p"; s "d"; s "y"] then Some (s "denied") else None) (s "nf") (art_filter ex_excl) ex_tree [s "p"; s "d"] = ([[s "p"; s "d"; s "a.md"]], Some (s "denied")).
Proof. vm_compute. auto. Qed.
