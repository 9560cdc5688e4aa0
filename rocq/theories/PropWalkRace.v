(** Property C101: looking for files while other threads rename or remove them. *)
From Coq Require Import Permutation Relation_Operators Lia.
From Verif Require Import Base BaseFacts Name Artifact SpecGraph Stored Numbers Markdown Lint Load SpecLoad Disk DiskFacts Walk SpecWalk WalkFacts Modify SpecModify
  PhaseFacts ReloadFacts DiskRunFacts WalkRace WalkRaceFacts Topo YamlExample CodecExample PropArtifacts PropCompleted PropMarkdown PropLint PropLoad PropModify PropDisk.

Notation dirs_of st t := (forall r, In r (se_arts st) -> is_dir (lookup t r) = true).

(** ** Every such run is a run in which the walk came first, so what is said of those (C36 to C41,
    C76) holds of it. *)
Theorem C101_run : forall path_str M topo H heqb (hash_im : art_im -> H) debug_im st to_toml to_json yaml_done style E1 E3 t r ops c p x,
  (forall q, e_stat E1 q = None /\ e_open E1 q = None /\ e_stat E3 q = None /\ e_open E3 q = None) -> tree_ok t -> dirs_of st t ->
  modify_pure path_str M topo H heqb hash_im debug_im st r ops = Ok (inr (c, p)) ->
  racy path_str st M H to_toml to_json yaml_done style E3 t c p x ->
  runs path_str M topo H heqb hash_im debug_im st to_toml to_json yaml_done style E1 E3 t (Ok r) ops x.
Proof.
  intros ps M topo H heqb h db st tt tj yd sy E1 E3 t r ops c p x Q T D Ep X.
  destruct (racy_refines ps M H st tt tj yd sy E1 E3) with (t := t) (c := c) (p := p) (x := x) as (todo & P & S); auto; try (intros q; apply (Q q)).
  exists (MBackup M H t c p todo []). split; auto. unfold begins. cbn [res_bind]. rewrite Ep. exists todo. auto.
Qed.
Print Assumptions C101_run.
(** So is the disk at any moment on the way: what is said of a request that is cut off (C39)
    holds too. *)
Theorem C101_moments : forall path_str M topo H heqb (hash_im : art_im -> H) debug_im st to_toml to_json yaml_done style E1 E3 t r ops c p d,
  (forall q, e_stat E1 q = None /\ e_open E1 q = None /\ e_stat E3 q = None /\ e_open E3 q = None) -> tree_ok t -> dirs_of st t ->
  modify_pure path_str M topo H heqb hash_im debug_im st r ops = Ok (inr (c, p)) ->
  moment path_str st M H to_toml to_json yaml_done style E3 t c p d ->
  exists x, runs path_str M topo H heqb hash_im debug_im st to_toml to_json yaml_done style E1 E3 t (Ok r) ops x /\ disk M H x = d.
Proof.
  intros ps M topo H heqb h db st tt tj yd sy E1 E3 t r ops c p d Q T D Ep X.
  destruct (moment_refines ps M H st tt tj yd sy E1 E3) with (t := t) (c := c) (p := p) (d := d) as (todo & x & P & S & Ed); auto; try (intros q; apply (Q q)).
  exists x. split; auto. exists (MBackup M H t c p todo []). split; auto. unfold begins. cbn [res_bind]. rewrite Ep. exists todo. auto.
Qed.
Print Assumptions C101_moments.

(** ** What the first phase leaves: each artifact file is renamed, or it is where it was and there
    is an error; nothing else is touched. *)
Definition any_errs : disk_errs := mkErrs (fun _ => None) (fun _ => None) (fun _ => None) [].
Definition any_project : project exact_num unit := mkProject [] [] [] [] None.
Local Notation any_step ps st := (mstep ps exact_num unit st (fun _ => []) (fun _ => []) (fun x => x) Hashes any_errs).
Local Lemma back_inv ps st t t' g : safe_disk st t -> dirs_of st t -> race_back ps st t t' g -> inv_b ps st any_errs t t' [] g.
Proof.
  intros [T Nm R U] D S.
  assert (Un : forall q q', orig ps st any_errs t q -> orig ps st any_errs t q' -> backup_of q = backup_of q' -> q = q').
  { intros q q' O O' E. apply orig_found in O; auto. apply orig_found in O'; auto. apply U; auto. apply backup_twins; auto; eapply found_typed; eauto. }
  destruct (back_refines ps exact_num unit st (fun _ => []) (fun _ => []) (fun x => x) Hashes any_errs any_errs (fun _ => eq_refl) (fun _ => eq_refl) t T D no_lints any_project t' g S) as (todo & P & X).
  set (phi := fun x : mstate exact_num unit => match x with MBackup _ _ t1 _ _ todo got => inv_b ps st any_errs t t1 todo got | _ => True end).
  assert (St : forall x y, any_step ps st x y -> phi x -> phi y).
  { intros x y Sx Px. destruct x as [t1 c1 p1 td gt| | |]; [|destruct y; cbn [phi]; auto; inversion Sx..]. pose proof (b_step _ _ _ _ _ _ _ _ any_errs _ t T R Un _ _ _ _ _ _ Sx Px) as B. destruct y; cbn [phi]; auto. apply B. }
  assert (Sts : forall x y, clos_refl_trans_1n _ (any_step ps st) x y -> phi x -> phi y) by (induction 1; auto; intros; eauto).
  apply (Sts _ _ X). cbn [phi]. constructor; auto; [intros q; reflexivity|intros o Ho; now apply (Permutation_in _ (Permutation_sym P))|intros x Hx; left; now apply (Permutation_in _ P)|].
  intros o Ho. right. split; [split; auto|]. left. now apply (Permutation_in _ P).
Qed.
Theorem C101_backups : forall path_str st t t' g, safe_disk st t -> dirs_of st t -> race_back path_str st t t' g ->
  (forall f, found_file st t f ->
    (file_at t' f = None /\ file_at t' (backup_of f) = file_at t f) \/
    (file_at t' f = file_at t f /\ file_at t' (backup_of f) = file_at t (backup_of f) /\ exists x, In x g /\ li_level x = LError)) /\
  (forall q, ~ found_file st t q -> (forall f, found_file st t f -> q <> backup_of f) -> file_at t' q = file_at t q) /\ same_dirs t t'.
Proof.
  intros ps st t t' g Sd D S. pose proof (back_inv ps st t t' g Sd D S) as I. destruct Sd as [T Nm R U].
  assert (W : forall x, ~ In (inr x) (to_back_up ps st any_errs t)) by (intros x Hx; unfold to_back_up in Hx; rewrite walk_under in Hx by auto; apply in_map_iff in Hx as (z & Z & _); discriminate Z).
  destruct I as [It Id _ _ Ie Io]. split; [|split; auto].
  - intros f Hf. apply (found_orig ps st t T R any_errs f W) in Hf. destruct (Ie f Hf) as [X|[[X1 X2] [[]|X3]]]; auto.
  - intros q N1 N2. apply Io; [intros O; now apply orig_found in O|intros (o & Ho & ->); apply (N2 o); auto; now apply orig_found in Ho].
Qed.
Print Assumptions C101_backups.

(** ** What the last phase leaves: each backup is gone, or there is a warning; nothing else is
    touched. *)
Theorem C101_removed : forall path_str st t t' g, tree_ok t -> dirs_of st t -> race_remove path_str st t t' g ->
  (forall r q, In r (se_arts st) -> reachable t (se_xarts st) r q -> has_extension (s "artbk") q -> file_at t' q = None \/ exists x, In x g /\ li_cat x = CRemoveBackups) /\
  (forall q, file_at t' q = file_at t q \/
    (file_at t' q = None /\ has_extension (s "artbk") q /\ exists r, In r (se_arts st) /\ reachable t (se_xarts st) r q)) /\ same_dirs t t'.
Proof.
  intros ps st t t' g T D S.
  destruct (rem_refines ps exact_num unit st (fun _ => []) (fun _ => []) (fun x => x) Hashes any_errs (fun _ => eq_refl) (fun _ => eq_refl) t T D no_lints any_project t' g S) as (todo & P & X).
  set (phi := fun x : mstate exact_num unit => match x with MRemove _ _ t1 _ p1 todo got => p1 = any_project /\ inv_r ps st any_errs t t1 todo got | MDone _ _ _ _ => True | _ => False end).
  assert (St : forall x y, any_step ps st x y -> phi x -> phi y).
  { intros x y Sx Px. destruct x as [| |t1 c1 p1 td gt|]; try contradiction; [|destruct y; cbn [phi]; auto; inversion Sx]. destruct Px as [-> Px]. pose proof (r_step _ _ _ _ _ _ _ _ any_errs _ t t1 c1 td gt y T D Sx Px) as B. destruct y; cbn [phi]; auto. tauto. }
  assert (Sts : forall x y, clos_refl_trans_1n _ (any_step ps st) x y -> phi x -> phi y) by (induction 1; auto; intros; eauto).
  assert (I : phi (MRemove exact_num unit t' no_lints any_project [] g)).
  { apply (Sts _ _ X). split; auto. constructor; auto; [intros q; reflexivity|intros q Hq; now apply (Permutation_in _ (Permutation_sym P))|intros x Hx; left; now apply (Permutation_in _ P)|].
    intros q Hq. left. now apply (Permutation_in _ P). }
  assert (W : forall x, ~ In (inr x) (to_remove ps st any_errs t)) by (intros x Hx; unfold to_remove in Hx; rewrite walk_under in Hx by auto; apply in_map_iff in Hx as (z & Z & _); discriminate Z).
  destruct I as [_ [It Id _ _ Ie Io]]. split; [|split; auto].
  - intros r q Hr Re B. destruct (Ie q) as [[]|Y]; auto. eapply remove_complete; eauto. now apply is_backup_iff.
  - intros q. destruct (Io q) as [Y|[Y1 Y2]]; auto. right. split; auto. destruct (remove_sound ps st any_errs t q T D Y2) as [B Re]. split; auto. now apply is_backup_iff.
Qed.
Print Assumptions C101_removed.

(** ** The phases come to an end: there is no endless schedule, and whatever state is reached, there
    is a next step or the phase is over. *)
Theorem C101_ends : forall path_str st t x, tree_ok t -> dirs_of st t ->
  let first := rstep (art_filter (se_xarts st)) (backs_up path_str) in
  let last := rstep (backup_filter (se_xarts st)) (removes path_str) in
  let start := mkRace t [] (se_arts st) [] [] in
  Acc (fun y x => first x y) start /\ Acc (fun y x => last x y) start /\
  (clos_refl_trans_1n _ first start x -> (exists t' g, x = mkRace t' [] [] [] g) \/ exists y, first x y) /\
  (clos_refl_trans_1n _ last start x -> (exists t' g, x = mkRace t' [] [] [] g) \/ exists y, last x y).
Proof.
  intros ps st t x T D first last start.
  assert (G1 := fun l rest t1 g1 => back_good ps st (fun x => x) any_errs (fun _ => eq_refl) (fun _ => eq_refl) t T D l rest t1 g1).
  assert (G3 := fun l rest t1 g1 => rem_good ps st (fun x => x) any_errs (fun _ => eq_refl) (fun _ => eq_refl) t T D l rest t1 g1).
  split; [|split; [|split]].
  - eapply (sim_ends _ _ any_errs); eauto. apply sim_start.
  - eapply (sim_ends _ _ any_errs); eauto. apply sim_start.
  - apply (back_goes ps st (fun x => x) any_errs (fun _ => eq_refl) (fun _ => eq_refl) t T D).
  - apply (rem_goes ps st (fun x => x) any_errs (fun _ => eq_refl) (fun _ => eq_refl) t T D).
Qed.
Print Assumptions C101_ends.

(** ** Two configured paths, one below the other: the walk comes by the file again.  If it is
    renamed by then, all is well; if not, renaming it a second time fails. *)
Definition w_st := mkSettings [[s "p"]; [s "p"; s "q"]] [] [] [].
Definition w_tree (f : str) : node := NDir [(s "p", NDir [(s "q", NDir [(f, NFile (s "text"))])])].
Definition w_lint := phase_lint ex_path LError CCreateBackups [s "p"; s "q"; s "a.md"] (s "not found").
Example C101_example :
  safe_disk w_st (w_tree (s "a.md")) /\ dirs_of w_st (w_tree (s "a.md")) /\
  race_back ex_path w_st (w_tree (s "a.md")) (w_tree (s "a.artbk")) [] /\
  race_back ex_path w_st (w_tree (s "a.md")) (w_tree (s "a.artbk")) [w_lint] /\
  race_remove ex_path w_st (w_tree (s "a.artbk")) (NDir [(s "p", NDir [(s "q", NDir [])])]) [].
Proof.
  split; [apply safe_b_ok; vm_compute; reflexivity|]. split; [intros r [<-|[<-|[]]]; vm_compute; reflexivity|].
  assert (A : forall g, clos_refl_trans_1n _ (rstep (art_filter []) (backs_up ex_path)) (mkRace (w_tree (s "a.md")) [] [[s "p"]; [s "p"; s "q"]] [] g) (mkRace (w_tree (s "a.md")) [] [[s "p"; s "q"]] [[s "p"; s "q"; s "a.md"]] g)).
  { intros g. eapply rt1n_trans; [apply ra_root; vm_compute; reflexivity|]. eapply rt1n_trans; [eapply ra_dir; [vm_compute; reflexivity|vm_compute; reflexivity|apply Permutation_refl]|].
    cbn [map app]. eapply rt1n_trans; [eapply ra_dir; [vm_compute; reflexivity|vm_compute; reflexivity|apply Permutation_refl]|]. cbn [map app]. eapply rt1n_trans; [apply ra_file; vm_compute; reflexivity|]. apply rt1n_refl. }
  assert (Tr : forall f d x y z, clos_refl_trans_1n _ (rstep f d) x y -> clos_refl_trans_1n _ (rstep f d) y z -> clos_refl_trans_1n _ (rstep f d) x z) by (induction 1; auto; intros; econstructor; eauto).
  split; [|split].
  - eapply Tr; [apply A|]. eapply rt1n_trans; [apply (ra_work _ _ _ _ _ []); left; split; [vm_compute; reflexivity|reflexivity]|]. cbn [app].
    eapply rt1n_trans; [apply ra_root; vm_compute; reflexivity|]. eapply rt1n_trans; [eapply ra_dir; [vm_compute; reflexivity|vm_compute; reflexivity|apply Permutation_refl]|]. cbn [map app].
    eapply rt1n_trans; [apply ra_skip; vm_compute; reflexivity|]. apply rt1n_refl.
  - eapply Tr; [apply A|]. eapply rt1n_trans; [apply ra_root; vm_compute; reflexivity|]. eapply rt1n_trans; [eapply ra_dir; [vm_compute; reflexivity|vm_compute; reflexivity|apply Permutation_refl]|]. cbn [map app].
    eapply rt1n_trans; [apply ra_file; vm_compute; reflexivity|]. cbn [app]. eapply rt1n_trans; [apply (ra_work _ _ _ _ _ []); left; split; [vm_compute; reflexivity|reflexivity]|]. cbn [app].
    eapply rt1n_trans; [apply (ra_work _ _ _ _ _ []); right; split; [left; reflexivity|exists (s "not found"); reflexivity]|]. apply rt1n_refl.
  - eapply rt1n_trans; [apply ra_root; vm_compute; reflexivity|]. eapply rt1n_trans; [eapply ra_dir; [vm_compute; reflexivity|vm_compute; reflexivity|apply Permutation_refl]|].
    cbn [map app]. eapply rt1n_trans; [eapply ra_dir; [vm_compute; reflexivity|vm_compute; reflexivity|apply Permutation_refl]|]. cbn [map app]. eapply rt1n_trans; [apply ra_file; vm_compute; reflexivity|].
    eapply rt1n_trans; [apply (ra_work _ _ _ _ _ []); left; split; [vm_compute; reflexivity|reflexivity]|]. cbn [app].
    eapply rt1n_trans; [apply ra_root; vm_compute; reflexivity|]. eapply rt1n_trans; [eapply ra_dir; [vm_compute; reflexivity|vm_compute; reflexivity|apply Permutation_refl]|]. apply rt1n_refl.
Qed.
(** A whole request: the project loads, and the run succeeds (the file has no artifacts and goes). *)
Example C101_example_run : exists r c p l,
  m_load w_st (w_tree (s "a.md")) = Ok r /\
  modify_pure ex_path exact_num topo_sort str str_eqb mid (fun _ => s "art") w_st r [] = Ok (inr (c, p)) /\
  racy ex_path w_st exact_num str ex_store ex_store ex_yaml_done Hashes no_errs (w_tree (s "a.md")) c p
    (MDone exact_num str (NDir [(s "p", NDir [(s "q", NDir [])])]) (Ok (inl l))) /\
  moment ex_path w_st exact_num str ex_store ex_store ex_yaml_done Hashes no_errs (w_tree (s "a.md")) c p (w_tree (s "a.artbk")).
Proof.
  assert (B : match m_load w_st (w_tree (s "a.md")) with
    | Ok r => match modify_pure ex_path exact_num topo_sort str str_eqb mid (fun _ => s "art") w_st r [] with
              | Ok (inr (c, p)) => Some (ls_error c, save_jobs exact_num str ex_store ex_store ex_yaml_done Hashes p) | _ => None end
    | _ => None end = Some ([], [])) by (vm_compute; reflexivity).
  destruct (m_load w_st (w_tree (s "a.md"))) as [r| |]; try discriminate B. destruct (modify_pure ex_path exact_num topo_sort str str_eqb mid (fun _ => s "art") w_st r []) as [[|[c p]]| |] eqn:Ep; try discriminate B.
  assert (B1 : ls_error c = []) by congruence. assert (B2 : save_jobs exact_num str ex_store ex_store ex_yaml_done Hashes p = []) by congruence.
  exists r, c, p. eexists. split; [reflexivity|]. split; [exact Ep|]. destruct C101_example as (_ & _ & R1 & _ & R3).
  split; [|exact (mo_back _ _ _ _ _ _ _ _ _ _ _ _ _ R1)]. eapply racy_ends; [exact R1| | |exact R3].
  - eapply rt1n_trans; [eapply b_end; [cbn; exact B1|rewrite B2; apply Permutation_refl]|]. apply rt1n_refl.
  - cbn. exact B1.
Qed.
