(** Properties C79, C80: what [art export] leaves on the disk, and how the commands end. *)
From Coq Require Import ZArith Lia Permutation Relation_Operators.
From Verif Require Import Api Render SpecRender RenderFacts SpecExport ExportFacts DocFacts MarkFacts ReadyFacts.
From Verif Require Import CheckFacts PhaseFacts Base BaseFacts Regex Name SpecName NameFacts RawNames Artifact Stored SpecGraph Topo SpecLinks LinkFacts Numbers
  Markdown SpecMarkdown YamlExample Lint SpecLint LintFacts Source SpecJoin Pool Load LoadFacts SpecLoad ReadThms CheckFacts
  Disk DiskFacts Walk SpecWalk WalkFacts Modify SpecModify ResultFacts RunFacts Ls SpecLs LsFacts Settings SpecSettings SettingsFacts NextFacts Commands SpecCommands CommandFacts
  PropArtifacts PropMarkdown PropLint PropLoad PropLs PropSettings PropRender PropDisk.
Open Scope nat_scope.

Lemma ready_ls {M H} (p : project M H) : SpecExport.ready p -> arts_ok (pr_arts p).
Proof.
  intros R. constructor; [exact (rd_names p R)|]. pose proof (aw_nodup _ (rd_arts p R)) as N. revert N. generalize (pr_arts p). intros l N.
  assert (E : map (fun e : name * artifact M H => n_key (fst e)) l = map snd (map (fun e : name * artifact M H => (n_ty (fst e), n_key (fst e))) l)) by (rewrite map_map; reflexivity).
  rewrite E in N. now apply NoDup_map_inv in N.
Qed.

Lemma failed_inj {A} (a b : lints) : Ok (@inr A _ a) = Ok (inr b) -> a = b.
Proof. now injection 1. Qed.

Section Commands.
  Variable E : disk_errs.
  Variable path_str : path -> str.
  Variable toml : str -> raw_settings + str.
  Variable not_dir : path -> str.
  Variable lines_of : str -> list str * option str.
  Variable yaml : str -> option (option str * option names_val).
  Variables parse_toml parse_json : str -> res (list (name * art_raw)).
  Hypothesis PO : parser_ok parse_toml.
  Hypothesis PJ : parser_ok parse_json.
  Variable parse_msg : path -> str -> str.
  Variable M : num.
  Variable topo : graph -> option (list nat).
  Hypothesis TC : topo_ok topo.
  Variable H : Type.
  Variable hash_im : art_im -> H.
  Variable re_error : str -> option str.
  Variable url_error : str -> option str.
  Variable reported : F M -> Z.
  Variable regex : str -> option (str -> bool).
  Variable code_str : impl_code -> str.
  Variable heqb : H -> H -> bool.
  Variable debug_im : art_im -> str.
  Variables to_toml to_json : list (name * art_raw) -> str.
  Variable yaml_done : str -> str.
  Variable style : md_attrs.
  Variables E1 E3 : disk_errs.
  Variable strfmt : str -> str -> str -> option str.
  Variable ms : md_settings.
  Variable ex : md_export.
  Variable archive : list (path * option str).
  Variable initial : project M H -> str.
  Notation reads := (reads E path_str toml not_dir lines_of yaml parse_toml parse_json parse_msg M topo H hash_im re_error url_error).
  Notation command := (command E path_str toml not_dir lines_of yaml parse_toml parse_json parse_msg M topo H hash_im re_error url_error).
  Notation art_check := (art_check E path_str toml not_dir lines_of yaml parse_toml parse_json parse_msg M topo H hash_im re_error url_error).
  Notation art_ls := (art_ls E path_str toml not_dir lines_of yaml parse_toml parse_json parse_msg M topo H hash_im re_error url_error reported regex code_str).
  Notation art_fmt := (art_fmt E path_str toml not_dir lines_of yaml parse_toml parse_json parse_msg M topo H hash_im re_error url_error heqb debug_im to_toml to_json yaml_done style E1 E3).
  Notation art_export := (art_export E path_str toml not_dir lines_of yaml parse_toml parse_json parse_msg M topo H hash_im re_error url_error reported strfmt ms ex archive initial).
  Notation document := (SpecExport.document reported path_str strfmt).

  (** The directory [root] is the nearest one at or above the working directory with an entry
      ".art", and reading it as a project may result in [r]. *)
  Definition project_read (n : nat) (t : node) (wd root : path) (r : res (lints * project M H + lints)) : Prop :=
    is_dir (lookup t wd) = true /\ within root wd /\ lookup t (root ++ [s ".art"]) <> None /\
    (forall r', within r' wd -> length root < length r' -> lookup t (r' ++ [s ".art"]) = None) /\ reads n t root r.

  Lemma found_nearest t wd root : find_repo (fun p => match lookup t p with Some _ => true | None => false end) wd = Ok root <->
    within root wd /\ lookup t (root ++ [s ".art"]) <> None /\ (forall r', within r' wd -> length root < length r' -> lookup t (r' ++ [s ".art"]) = None).
  Proof.
    rewrite C50_nearest. split; intros (A & B & C).
    - split; auto. split; [destruct (lookup t (root ++ [s ".art"])); congruence|]. intros r' W L. specialize (C r' W L). destruct (lookup t (r' ++ [s ".art"])); [discriminate C|reflexivity].
    - split; auto. split; [destruct (lookup t (root ++ [s ".art"])); congruence|]. intros r' W L. rewrite (C r' W L). reflexivity.
  Qed.
  Lemma command_cases n t wd run st t' : command n t wd run st t' ->
    (st = 1 /\ t' = t /\ (is_dir (lookup t wd) = false \/ forall r, within r wd -> lookup t (r ++ [s ".art"]) = None)) \/
    exists root r, project_read n t wd root r /\ run root r st t'.
  Proof.
    unfold Commands.command. destruct (is_dir (lookup t wd)) eqn:D; [|intros [-> ->]; auto].
    destruct (find_repo _ wd) as [root| |] eqn:F; [|intros [-> ->]|intros [-> ->]].
    - intros (r & R & X). right. exists root, r. split; auto. split; auto. apply found_nearest in F as (A & B & C). repeat split; auto.
    - left. split; auto. split; auto. right. intros r W. pose proof (proj1 (C50_fails _ _) F r W) as X. cbv beta in X. destruct (lookup t (r ++ [s ".art"])); [discriminate X|reflexivity].
    - exfalso. exact (proj2 (find_up_spec _ _) F).
  Qed.
  Lemma command_runs n t wd (run : path -> res (lints * project M H + lints) -> nat -> node -> Prop) st t' root r : project_read n t wd root r -> run root r st t' -> command n t wd run st t'.
  Proof.
    intros (D & W & L & N & R) X. unfold Commands.command. rewrite D. rewrite (proj2 (found_nearest t wd root)); auto. exists r. auto.
  Qed.
  Lemma reads_ready n t root c p : reads n t root (Ok (inl (c, p))) -> SpecExport.ready p.
  Proof.
    unfold Settings.reads. destruct (load_settings E path_str toml not_dir t root) as [[[st raw]|l]| |]; try discriminate.
    destruct (re_error (rs_prefix raw)); [discriminate|]. intros R.
    exact (loads_ready M topo TC H hash_im path_str yaml parse_toml parse_json PO PJ parse_msg _ _ _ n _ _ c p (found_walk_ok _ _ _ _ _ _ _ _) (found_walk_ok _ _ _ _ _ _ _ _) R).
  Qed.

  (** ** C79 What an export leaves behind *)
  (** Whatever happens: with "md" only the file given changes, with "html" only what is inside
      the directory given, with another type nothing. *)
  Theorem C79_where : forall n t wd ty target st t', tree_ok t -> art_export n t wd ty target st t' ->
    (forall q, ~ below q target -> file_at t' q = file_at t q /\ is_dir (lookup t' q) = is_dir (lookup t q)) /\
    (lower ty <> s "html" -> forall q, (q <> target -> file_at t' q = file_at t q) /\ is_dir (lookup t' q) = is_dir (lookup t q)) /\
    (lower ty <> s "html" -> lower ty <> s "md" -> st <> 0 /\ t' = t).
  Proof.
    intros n t wd ty target st t' T X. unfold Commands.art_export in X. apply command_cases in X as [(-> & -> & _)|(root & r & _ & X)].
    { split; [auto|]. split; auto. }
    assert (Z : forall st, st <> 0 /\ t' = t -> (forall q, ~ below q target -> file_at t' q = file_at t q /\ is_dir (lookup t' q) = is_dir (lookup t q)) /\
      (lower ty <> s "html" -> forall q, (q <> target -> file_at t' q = file_at t q) /\ is_dir (lookup t' q) = is_dir (lookup t q)) /\ (lower ty <> s "html" -> lower ty <> s "md" -> st <> 0 /\ t' = t)).
    { intros st0 [N ->]. auto. }
    destruct r as [[[c p]|c]| |]; cbn [with_project] in X; try (apply Z; destruct X as [-> ->]; split; [discriminate|reflexivity]).
    destruct (str_eqb (lower ty) (s "html")) eqn:Eh; [apply str_eqb_eq in Eh|].
    - split; [|split; intros Q; contradiction]. destruct X as [[-> ->]|(t1 & X & U)]; [auto|]. intros q Nq.
      apply mkdir_spec in X as (T1 & F1 & D1 & _); auto. apply unpacks_only in U as [T2 O]; auto. destruct (O q Nq) as [-> ->]. split; auto.
      apply D1. intros ->. apply Nq. exists []. now rewrite app_nil_r.
    - destruct (str_eqb (lower ty) (s "md")) eqn:Em; [apply str_eqb_eq in Em|].
      + destruct X as [[-> ->]|(y & _ & W)]; [split; [auto|split; [auto|intros _ Q; contradiction]]|]. apply write_spec in W as (_ & F & _ & D); auto. split; [|split; [auto|intros _ Q; contradiction]].
        intros q Nq. split; auto. apply F. intros ->. apply Nq. exists []. now rewrite app_nil_r.
      + apply Z. destruct X as [-> ->]. split; auto.
  Qed.

  (** Success: the file holds the document of the project that was read. *)
  Theorem C79_success : forall n t wd ty target t', tree_ok t -> lower ty = s "md" ->
    (art_export n t wd ty target 0 t' <->
     exists root c p o, project_read n t wd root (Ok (inl (c, p))) /\ document p (path_str root) ms ex o /\ fs_write t target o = Some t').
  Proof.
    intros n t wd ty target t' T Ty. unfold Commands.art_export. rewrite Ty. cbn [str_eqb]. split.
    - intros X. apply command_cases in X as [(X & _)|(root & r & R & X)]; [discriminate X|].
      destruct r as [[[c p]|c]| |]; cbn [with_project] in X; try (destruct X as [X _]; discriminate X).
      destruct X as [[X _]|(y & F & W)]; [discriminate X|]. exists root, c, p, y. split; auto. split; auto.
      apply flow_done in F. rewrite writes_cat in F. pose proof (reads_ready n t root c p (proj2 (proj2 (proj2 (proj2 R))))) as Rd.
      now apply (proj2 (document_meets reported path_str strfmt p (path_str root) ms Rd ex)).
    - intros (root & c & p & o & R & D & W). apply (command_runs n t wd _ 0 t' root _ R). cbn [with_project]. right. exists o. split; auto.
      apply flow_done. rewrite writes_cat. pose proof (reads_ready n t root c p (proj2 (proj2 (proj2 (proj2 R))))) as Rd.
      now apply (proj2 (document_meets reported path_str strfmt p (path_str root) ms Rd ex)).
  Qed.

  (** Failure: nothing has changed, or the file holds a beginning of the document, or, if the
      template of addresses cannot be filled in, of its stump; what it held before is gone. *)
  Theorem C79_failure : forall n t wd ty target st t', tree_ok t -> lower ty = s "md" -> st <> 0 ->
    (forall u f l f' l', strfmt u f l = None -> strfmt u f' l' = None) -> art_export n t wd ty target st t' ->
    t' = t \/
    exists root c p y, project_read n t wd root (Ok (inl (c, p))) /\ file_at t' target = Some y /\
      ((st = 1 /\ exists full z, (document p (path_str root) ms ex full \/ stump reported p ms ex full) /\ full = y ++ z) \/
       (st = 101 /\ stump reported p ms ex y)).
  Proof.
    intros n t wd ty target st t' T Ty Ns SF X. unfold Commands.art_export in X. rewrite Ty in X. cbn [str_eqb] in X. apply command_cases in X as [(_ & -> & _)|(root & r & R & X)]; [now left|].
    destruct r as [[[c p]|c]| |]; cbn [with_project] in X; try (left; apply X).
    destruct X as [[_ X]|(y & F & W)]; [now left|]. right. exists root, c, p, y.
    pose proof (reads_ready n t root c p (proj2 (proj2 (proj2 (proj2 R))))) as Rd. pose proof (document_meets reported path_str strfmt p (path_str root) ms Rd ex) as [DE DM].
    apply write_spec in W as (W & _); auto. split; auto. split; auto.
    assert (B : Render.to_markdown reported path_str strfmt p (path_str root) ms ex = Panic -> stump reported p ms ex (before (md_writes reported path_str strfmt p (path_str root) ms ex))).
    { intros P. apply (document_panic reported path_str strfmt p (path_str root) ms Rd SF ex) in P as [B N]. now apply stump_before. }
    pose proof (flow_status _ _ _ F) as [S|[S|S]]; [contradiction| |]; subst st.
    - left. split; auto. destruct (flow_prefix _ _ _ F) as (z & Z). exists (y ++ z), z. split; auto. rewrite <- Z. destruct (Render.to_markdown reported path_str strfmt p (path_str root) ms ex) as [o| |] eqn:Em; [left|congruence|right; auto].
      apply DM. rewrite <- writes_cat in Em. now rewrite (before_cat _ _ Em).
    - right. split; auto. apply flow_panic in F as [N ->]. apply B. destruct (Render.to_markdown reported path_str strfmt p (path_str root) ms ex) as [o| |] eqn:Em; [|congruence|auto]. rewrite <- writes_cat in Em. now apply N in Em.
  Qed.

  (** A template of addresses that cannot be filled in: there is no document, and the export may
      always destroy a file. *)
  Theorem C79_destroyed : forall n t wd ty target root c p old, tree_ok t -> lower ty = s "md" ->
    project_read n t wd root (Ok (inl (c, p))) -> pr_arts p <> [] ->
    (exists u, ms_url ms = Some u /\ forall f l, strfmt u f l = None) ->
    target <> [] -> file_at t target = Some old ->
    (forall o, ~ document p (path_str root) ms ex o) /\
    exists t' y, art_export n t wd ty target 101 t' /\ file_at t' target = Some y /\ stump reported p ms ex y.
  Proof.
    intros n t wd ty target root c p old T Ty R Na U Nt Fo.
    pose proof (reads_ready n t root c p (proj2 (proj2 (proj2 (proj2 R))))) as Rd.
    assert (P : forall o, ~ document p (path_str root) ms ex o).
    { intros o (toc & secs & F & _). destruct (pr_arts p) as [|e l]; [contradiction|]. inversion F as [|? ? ? ? S _]; subst.
      destruct S as (fam & file & impl & spc & tst & text & _ & L & _). destruct U as (u & Eu & U). unfold linked in L. rewrite Eu in L. destruct L as (h & (d & _ & L) & _). rewrite U in L. discriminate L. }
    split; [exact P|].
    assert (F : flow (md_writes reported path_str strfmt p (path_str root) ms ex) 101 (before (md_writes reported path_str strfmt p (path_str root) ms ex))).
    { apply flow_stops. intros o X. rewrite writes_cat in X. apply (document_meets reported path_str strfmt p (path_str root) ms Rd ex) in X. now apply P in X. }
    assert (W : exists t', fs_write t target (before (md_writes reported path_str strfmt p (path_str root) ms ex)) = Some t').
    { pose proof (root_dir t T target old Fo Nt) as D. unfold fs_write. destruct target as [|z0 tg]; [contradiction|]. rewrite D. unfold file_at in Fo. destruct (lookup t _) as [[v|l]|]; try discriminate Fo. cbn. eauto. }
    destruct W as (t' & W). exists t'. eexists. split; [|split].
    - unfold Commands.art_export. rewrite Ty. cbn [str_eqb]. apply (command_runs n t wd _ 101 t' root _ R). cbn [with_project]. right. eexists. split; [exact F|exact W].
    - apply write_spec in W as (W & _); auto. exact W.
    - now apply stump_before.
  Qed.

  (** With "html": the client with the data of the project; other files in the directory stay. *)
  Theorem C79_html : forall n t wd ty target t', tree_ok t -> lower ty = s "html" -> art_export n t wd ty target 0 t' ->
    (exists root c p, project_read n t wd root (Ok (inl (c, p))) /\ file_at t' (target ++ [s "initial.json"]) = Some (initial p)) /\
    (forall q x, NoDup (map fst archive) -> In (q, Some x) archive -> q <> [s "initial.json"] -> file_at t' (target ++ q) = Some x) /\
    (forall q, (forall x, ~ In (q, Some x) archive) -> q <> [s "initial.json"] -> file_at t' (target ++ q) = file_at t (target ++ q)).
  Proof.
    intros n t wd ty target t' T Ty X. unfold Commands.art_export in X. rewrite Ty in X. cbn [str_eqb] in X. apply command_cases in X as [(X & _)|(root & r & R & X)]; [discriminate X|].
    destruct r as [[[c p]|c]| |]; cbn [with_project] in X; try (destruct X as [X _]; discriminate X).
    destruct X as [[X _]|(t1 & X & U)]; [discriminate X|]. apply mkdir_spec in X as (T1 & F1 & _); auto. apply unpacks_files in U as (I & O & A); auto.
    split; [exists root, c, p; split; auto|]. split; [intros; now apply A|]. intros q Nq Ni. rewrite O by auto. apply F1.
  Qed.

  (** The client is of no use without the file for the data, and that is not made. *)
  Theorem C79_initial : forall n t wd ty target st t', tree_ok t -> lower ty = s "html" -> art_export n t wd ty target st t' ->
    (forall x, ~ In ([s "initial.json"], Some x) archive) -> file_at t (target ++ [s "initial.json"]) = None -> st <> 0.
  Proof.
    intros n t wd ty target st t' T Ty X NA Fn ->. unfold Commands.art_export in X. rewrite Ty in X. cbn [str_eqb] in X. apply command_cases in X as [(X & _)|(root & r & R & X)]; [discriminate X|].
    destruct r as [[[c p]|c]| |]; cbn [with_project] in X; try (destruct X as [X _]; discriminate X).
    destruct X as [[X _]|(t1 & X & U)]; [discriminate X|]. apply mkdir_spec in X as (T1 & F1 & _); auto. rewrite <- F1 in Fn.
    exact (unpacks_initial _ _ _ _ _ U T1 NA Fn).
  Qed.
  (** Exporting into one of the files of the project, with a document that starts with the first
      artifact: the next reading fails, as each artifact is then found twice. *)
  Theorem C79_next : forall n t wd ty target t' root st raw q n' r, tree_ok t -> (forall p, e_stat E p = None) -> (forall p, e_open E p = None) -> (forall p, e_read E p = None) ->
    lower ty = s "md" -> art_export n t wd ty target 0 t' ->
    within root wd -> lookup t (root ++ [s ".art"]) <> None -> (forall r', within r' wd -> length root < length r' -> lookup t (r' ++ [s ".art"]) = None) ->
    load_settings E path_str toml not_dir t root = Ok (inl (st, raw)) ->
    ex_header ex = None -> ex_toc ex = false -> ms_prefix ms = rs_prefix raw -> ~ In 10%N (rs_prefix raw) ->
    In q (se_arts st) -> found_from t' (se_xarts st) q target -> has_extension (s "md") target ->
    (forall y, file_at t target = Some y -> jb_out (load_file path_str yaml parse_toml parse_json parse_msg (rs_prefix raw) (mkAF target (inl y))) = []) ->
    (forall o, file_at t' target = Some o -> from_markdown yaml (rs_prefix raw) o <> Panic) ->
    reads n' t' root r -> killers (load_file path_str yaml parse_toml parse_json parse_msg (rs_prefix raw)) (art_files E t' path_str st) < n' ->
    file_at t' target = Some [] \/ exit_status r = 1.
  Proof.
    intros n t wd ty target t' root st raw q n' r T Sn On Rn Ty X W1 W2 W3 LS Hh Ht Hp Np Hq Fq Hx Old NP R K.
    apply C79_success in X; auto. destruct X as (root' & c & p & o & (D & A1 & A2 & A3 & Rd) & Doc & Wr).
    assert (root' = root) as ->.
    { pose proof (proj2 (found_nearest t wd root') (conj A1 (conj A2 A3))) as X1. pose proof (proj2 (found_nearest t wd root) (conj W1 (conj W2 W3))) as X2. congruence. }
    apply write_spec in Wr as (Fo & Fs & T' & Ds); auto.
    assert (Tm : art_type_of target = Some TMd) by (apply extension_iff in Hx; unfold art_type_of; rewrite Hx; reflexivity).
    assert (LS' : load_settings E path_str toml not_dir t' root = Ok (inl (st, raw))).
    { rewrite <- LS. unfold load_settings, load_raw. rewrite Ds, Fs; [reflexivity|]. intros Es. rewrite <- Es in Tm. unfold art_type_of, extension, settings_file in Tm. rewrite rev_app_distr in Tm. vm_compute in Tm. discriminate Tm. }
    pose proof (reads_ready n t root c p Rd) as Re. unfold Settings.reads in R, Rd. rewrite LS in Rd. rewrite LS' in R. destruct (re_error (rs_prefix raw)) as [m|]; [right; rewrite R; reflexivity|].
    destruct Doc as (toc & secs & Sc & Tc & Eo). rewrite Ht in Tc. rewrite Hh in Eo. subst toc. cbn [app] in Eo.
    destruct (pr_arts p) as [|e rest] eqn:Ea; [inversion Sc; subst; left; exact Fo|right].
    inversion Sc as [|? sec ? secs' S1 S2 Q1 Q2]; subst. destruct S1 as (fam & file & impl & spc & tst & text & _ & _ & _ & _ & _ & _ & Es).
    set (lf := load_file path_str yaml parse_toml parse_json parse_msg (rs_prefix raw)) in *.
    assert (It : In (inl (mkAF target (inl (concat (sec :: secs'))))) (art_files E t' path_str st)).
    { apply (found_reads E path_str t' st T' Sn On q target _ Hq Fq); auto. rewrite Tm. discriminate. }
    assert (Wn : name_wf (a_name (snd e))).
    { apply (ready_art p Re e). rewrite Ea. now left. }
    destruct (loads_where E path_str yaml parse_toml parse_json PO PJ parse_msg (rs_prefix raw) M topo TC H hash_im _ _ st t n _ c p (found_walk_ok _ _ _ _ _ _ _ _) Rd e) as (y & b & Ob & Tb & Fb & Hb & Kb); [rewrite Ea; now left|].
    assert (Nf : a_file (snd e) <> target). { intros Z. rewrite Z in Fb, Hb. pose proof (Old y Fb) as X. unfold lf in X. rewrite X in Hb. destruct Hb. }
    destruct (walk_found E path_str t st T _ Ob Tb) as (q0 & Hq0 & Fq0).
    assert (I0 : In (inl (mkAF (a_file (snd e)) (inl y))) (art_files E t' path_str st)).
    { assert (Fb' : file_at t' (a_file (snd e)) = Some y) by now rewrite Fs. apply (found_reads E path_str t' st T' Sn On q0); auto. now apply (found_kept t t' _ _ _ y). }
    set (o := concat (sec :: secs')) in *.
    assert (Eo : exists x, o = (rs_prefix raw ++ s "# " ++ n_raw (a_name (snd e))) ++ 10%N :: x).
    { eexists. unfold o. cbn [concat]. rewrite Es, Hp. unfold SpecExport.line at 1. change c_nl with 10%N. rewrite <- (app_assoc _ [10%N] _), <- (app_assoc _ ([10%N] ++ _)), <- (app_assoc [10%N]). reflexivity. }
    destruct Eo as (x & Eo).
    destruct (from_markdown yaml (rs_prefix raw) o) as [l| |] eqn:Em; [| |now apply (NP o) in Em].
    - pose proof Em as Em'. rewrite Eo in Em'. apply first_head in Em' as (m & rw & l' & El & Km); auto. subst l.
      eapply (clash_status path_str yaml parse_toml parse_json parse_msg (rs_prefix raw) PO PJ M topo TC H hash_im); try exact R; auto; try apply found_walk_ok.
      eapply two_files; [exact It|exact I0|intros Z; apply Nf; now injection Z| |exact Hb|].
      + unfold Load.load_file. cbn [af_path af_text]. rewrite Tm. cbn [parse_artifacts]. rewrite Em. cbn [jb_out map]. left. reflexivity.
      + cbn [from_raw im_name fst snd]. rewrite Kb. exact Km.
    - eapply (lint_status path_str yaml parse_toml parse_json PO PJ parse_msg (rs_prefix raw) M topo TC H hash_im); try exact R; try apply found_walk_ok; try exact K; [exact It|].
      unfold Load.load_file. cbn [af_path af_text]. rewrite Tm. cbn [parse_artifacts]. rewrite Em. discriminate.
  Qed.

  (** ** C80 How the commands end *)
  (** No reader of files dies (Properties C46, C59, C60). *)
  Definition all_read (n : nat) (t : node) (root : path) : Prop := forall st raw, load_settings E path_str toml not_dir t root = Ok (inl (st, raw)) ->
    killers (load_file path_str yaml parse_toml parse_json parse_msg (rs_prefix raw)) (art_files E t path_str st) < n /\
    killers (load_locations path_str) (code_files E t lines_of path_str st) < 4.
  Lemma reads_same n t root r r' : all_read n t root -> reads n t root r -> reads n t root r' ->
    exit_status r = exit_status r' /\ match r, r' with Ok (inl _), Ok (inl _) | Ok (inr _), Ok (inr _) | Panic, Panic | Err, Err => True | _, _ => False end.
  Proof.
    intros A. unfold Settings.reads. destruct (load_settings E path_str toml not_dir t root) as [[[st raw]|l]| |] eqn:LS; try (intros -> ->; auto).
    destruct (re_error (rs_prefix raw)); [intros -> ->; auto|]. intros R R'. destruct (A st raw LS) as [K1 K2].
    destruct (C46_deterministic path_str yaml parse_toml parse_json parse_msg _ PO PJ M topo TC H hash_im _ _ n _ _ _ _ r r' (Permutation_refl _) (Permutation_refl _)
      (found_walk_ok _ _ _ _ _ _ _ _) (found_walk_ok _ _ _ _ _ _ _ _) K1 K2 R R') as [S G]. split; auto.
    unfold agree in G. destruct r as [[[c p]|c]| |], r' as [[[c' p']|c']| |]; auto.
  Qed.
  Lemma reads_failed n t root c : reads n t root (Ok (inr c)) -> ls_error c <> [].
  Proof.
    unfold Settings.reads. assert (X : forall l, li_level l = LError -> ls_error (sort_lints (categorize no_lints [l])) <> []).
    { intros l El. unfold categorize. cbn [fold_left]. rewrite El. cbn [ls_error sort_lints]. rewrite sort_dedup_nil. discriminate. }
    destruct (load_settings E path_str toml not_dir t root) as [[[st raw]|l]| |] eqn:LS; try discriminate.
    - destruct (re_error (rs_prefix raw)) as [m|]; [intros R; apply failed_inj in R as ->; now apply X|]. intros (arts & refs & la & lc & arrived & _ & _ & _ & F).
      unfold finish in F. cbv zeta in F. destruct (ls_error (categorize no_lints arrived)) as [|e el] eqn:Ee; cbn [is_nil negb] in F.
      + destruct (build _ _ _ _ _ _) as [out| |]; cbn [res_bind] in F; try discriminate F. destruct (lint_project _ _) as [l| |]; cbn [res_bind] in F; discriminate F.
      + apply failed_inj in F as ->. cbn [sort_lints ls_error]. rewrite sort_dedup_nil, Ee. discriminate.
    - intros R. apply failed_inj in R as ->. apply X. unfold load_settings in LS. destruct (load_raw E toml not_dir t root) as [raw|m]; [|injection LS as <-; reflexivity].
      destruct (resolve_paths root (rs_code raw)); cbn [res_bind] in LS; try discriminate LS. destruct (resolve_paths root (rs_xcode raw)); cbn [res_bind] in LS; try discriminate LS.
      destruct (resolve_paths root (rs_arts raw)); cbn [res_bind] in LS; try discriminate LS. destruct (resolve_paths root (rs_xarts raw)); cbn [res_bind] in LS; discriminate LS.
  Qed.
  (** The nearest project is the same for all commands. *)
  Lemma same_root n t wd root r root' r' : project_read n t wd root r -> project_read n t wd root' r' -> root' = root.
  Proof.
    intros (_ & A1 & A2 & A3 & _) (_ & B1 & B2 & B3 & _). pose proof (proj2 (found_nearest t wd root) (conj A1 (conj A2 A3))) as X1.
    pose proof (proj2 (found_nearest t wd root') (conj B1 (conj B2 B3))) as X2. congruence.
  Qed.
  Lemma not_nowhere n t wd root r : project_read n t wd root r -> ~ (is_dir (lookup t wd) = false \/ forall r', within r' wd -> lookup t (r' ++ [s ".art"]) = None).
  Proof. intros (D & W & L & _) [X|X]; [congruence|now apply L, X]. Qed.
  (** Reading again for another command. *)
  Lemma command_again n t wd root r (run : path -> res (lints * project M H + lints) -> nat -> node -> Prop) st t' : project_read n t wd root r -> all_read n t root -> command n t wd run st t' ->
    exists r', project_read n t wd root r' /\ exit_status r' = exit_status r /\ match r, r' with Ok (inl _), Ok (inl _) | Ok (inr _), Ok (inr _) | Panic, Panic | Err, Err => True | _, _ => False end /\ run root r' st t'.
  Proof.
    intros R A X. apply command_cases in X as [(_ & _ & X)|(root' & r' & R' & X)]; [now apply not_nowhere in R|]. pose proof (same_root _ _ _ _ _ _ _ R R') as ->. exists r'. split; auto.
    destruct (reads_same n t root r r' A) as [S K]; [apply R|apply R'|]. auto.
  Qed.

  (** No project: every command ends with 1. *)
  Theorem C80_nowhere : forall n t wd, is_dir (lookup t wd) = false \/ (forall r, within r wd -> lookup t (r ++ [s ".art"]) = None) ->
    (forall st t', art_check n t wd st t' <-> st = 1 /\ t' = t) /\ (forall cmd st t', art_ls n t wd cmd st t' <-> st = 1 /\ t' = t) /\
    (forall st t', art_fmt n t wd st t' <-> st = 1 /\ t' = t) /\ (forall ty target st t', art_export n t wd ty target st t' <-> st = 1 /\ t' = t).
  Proof.
    intros n t wd N.
    assert (X : forall run st t', command n t wd run st t' <-> st = 1 /\ t' = t).
    { intros run st t'. split; [intros X; apply command_cases in X as [(A & B & _)|(root & r & R & _)]; [auto|now apply not_nowhere in R]|].
      intros [-> ->]. unfold Commands.command. destruct (is_dir (lookup t wd)) eqn:D; auto. destruct N as [N|N]; [discriminate N|].
      rewrite (proj2 (C50_fails _ wd)); auto. intros r W. cbv beta. now rewrite (N r W). }
    split; [intros; apply X|]. split; [intros; apply X|]. split; intros; apply X.
  Qed.

  (** Checking and listing change nothing. *)
  Theorem C80_readonly : forall n t wd st t', (art_check n t wd st t' -> t' = t /\ (st = 0 \/ st = 1 \/ st = 2 \/ st = 101)) /\
    (forall cmd, art_ls n t wd cmd st t' -> t' = t /\ (st = 0 \/ st = 1 \/ st = 101)).
  Proof.
    intros n t wd st t'. split.
    - intros X. apply command_cases in X as [(-> & -> & _)|(root & r & R & -> & ->)]; auto. split; auto. apply status_cases.
    - intros cmd X. apply command_cases in X as [(-> & -> & _)|(root & r & R & X)]; auto. destruct r as [[[c p]|c]| |]; cbn [with_project] in X; destruct X as [-> ->]; auto.
      split; auto. destruct (ls_run _ _ _ _ _ _); auto.
  Qed.

  (** The arguments of [art ls] that are accepted. *)
  Definition ls_valid (cmd : ls_cmd) : Prop := (exists toks, denotes (ls_fields cmd) toks /\ ~ selects toks FdImpl) /\ searched regex cmd <> None /\ (ls_type cmd = s "json" \/ ls_type cmd = s "list").
  Lemma ls_status cmd (p : project M H) : SpecExport.ready p ->
    (ls_valid cmd -> match ls_run reported regex path_str code_str cmd (pr_arts p) with Ok _ => 0 | Err => 1 | Panic => 101 end = 0) /\
    (~ ls_valid cmd -> match ls_run reported regex path_str code_str cmd (pr_arts p) with Ok _ => 0 | Err => 1 | Panic => 101 end = 1).
  Proof.
    intros R. apply ready_ls in R. destruct (C48_errors M H reported regex path_str code_str cmd (pr_arts p) R) as [X Y]. split.
    - intros ((toks & D & I) & Sr & Ty). destruct (ls_run _ _ _ _ _ _) as [o| |] eqn:El; auto; [|congruence]. exfalso. destruct (proj1 X eq_refl) as [Z|[Z|[Z1 Z2]]]; [now apply I, Z|contradiction|]. destruct Ty; contradiction.
    - intros N. destruct (ls_run _ _ _ _ _ _) as [o| |] eqn:El; auto; [|congruence]. exfalso. apply N.
      split; [|split].
      + destruct (searched regex cmd) eqn:Es; [|assert (Z : Ok o = Err) by (apply X; auto); discriminate Z].
        assert (Z : ~ forall toks, denotes (ls_fields cmd) toks -> selects toks FdImpl) by (intros Z; assert (Z' : Ok o = Err) by (apply X; auto); discriminate Z').
        clear -Z. destruct (flags_from_str (ls_fields cmd)) as [f| |] eqn:Ef.
        * pose proof (proj1 (C49_accepted _ _) Ef) as (l & Dl & Hl). exists l. split; auto. intros S0. apply Z. intros toks Dt. destruct (from_str_denotes _ _ Dt) as (g & Eg & Hg).
          rewrite Ef in Eg. inversion Eg; subst g. apply (Hg FdImpl). apply (Hl FdImpl). exact S0.
        * exfalso. apply Z. intros toks Dt. exfalso. exact (proj2 (C49_rejected _) Ef toks Dt).
        * exfalso. apply Z. intros toks Dt. exfalso. destruct (from_str_denotes _ _ Dt) as (g & Eg & _). congruence.
      + intros Es. assert (Z : Ok o = Err) by (apply X; auto). discriminate Z.
      + destruct (list_eq_dec N.eq_dec (ls_type cmd) (s "json")) as [->|N1]; [now left|]. destruct (list_eq_dec N.eq_dec (ls_type cmd) (s "list")) as [->|N2]; [now right|].
        assert (Z : Ok o = Err) by (apply X; auto). discriminate Z.
  Qed.

  Lemma url_ok n t root r : reads n t root r -> exit_status r = 0 \/ exit_status r = 2 -> exists st raw, load_settings E path_str toml not_dir t root = Ok (inl (st, raw)) /\ forall u, rs_url raw = Some u -> url_error u = None.
  Proof.
    unfold Settings.reads. intros R S. destruct (load_settings E path_str toml not_dir t root) as [[[st raw]|l]| |] eqn:LS; try (subst r; destruct S; discriminate).
    exists st, raw. split; auto. intros u Eu. rewrite Eu in R. destruct (re_error (rs_prefix raw)); [subst r; destruct S; discriminate|].
    destruct (CheckFacts.check_exact path_str yaml parse_toml parse_json parse_msg _ PO PJ M topo TC H hash_im _ _ n _ _ r (found_walk_ok _ _ _ _ _ _ _ _) (found_walk_ok _ _ _ _ _ _ _ _) R)
      as (arts & refs & la & lc & out & _ & _ & _ & S0 & S2 & _). destruct S as [S|S]; [apply S0 in S|apply S2 in S]; apply S.
  Qed.

  (** A project that passes the check, with or without warnings, can be listed and exported. *)
  Theorem C80_passed : forall n t wd root r0 st, project_read n t wd root r0 -> all_read n t root -> art_check n t wd st t -> st = 0 \/ st = 2 ->
    (forall st' t', art_check n t wd st' t' -> st' = st) /\
    (forall cmd st' t', art_ls n t wd cmd st' t' -> (ls_valid cmd -> st' = 0) /\ (~ ls_valid cmd -> st' = 1)) /\
    ((forall st raw, load_settings E path_str toml not_dir t root = Ok (inl (st, raw)) -> ms_url ms = rs_url raw) ->
     (forall u f l f' l', strfmt u f l = None -> strfmt u f' l' = None) -> (forall u f l, url_error u = None -> strfmt u f l <> None) ->
     forall ty target st' t', art_export n t wd ty target st' t' -> st' = 0 \/ st' = 1).
  Proof.
    intros n t wd root r0 st R A X S. apply (command_again n t wd root r0 _ _ _ R A) in X as (r & Rr & E0 & K & -> & _).
    assert (P : exists v, r = Ok (inl v)).
    { destruct r as [[v|c]| |]; eauto; cbn [exit_status check_status] in S; destruct S; discriminate. }
    destruct P as (v & ->). split; [|split].
    - intros st' t' X. apply (command_again n t wd root _ _ _ _ Rr A) in X as (r' & _ & E' & _ & -> & _). exact E'.
    - intros cmd st' t' X. apply (command_again n t wd root _ _ _ _ Rr A) in X as (r' & R' & _ & K' & X). destruct r' as [[[c p]|c]| |]; try contradiction. cbn [with_project] in X. destruct X as [-> _].
      apply ls_status. apply (reads_ready n t root c). apply R'.
    - intros U SF UE ty target st' t' X. apply (command_again n t wd root _ _ _ _ Rr A) in X as (r' & R' & _ & K' & X). destruct r' as [[[c p]|c]| |]; try contradiction. cbn [with_project] in X.
      destruct (str_eqb (lower ty) (s "html")).
      + destruct X as [[-> _]|(t1 & _ & X)]; auto. clear -X. induction X; auto.
      + destruct (str_eqb (lower ty) (s "md")); [|destruct X; auto]. destruct X as [[-> _]|(y & F & _)]; auto. destruct (flow_status _ _ _ F) as [Z|[Z|Z]]; auto. exfalso. subst st'. apply flow_panic in F as [F _].
        rewrite writes_cat in F. pose proof (reads_ready n t root c p (proj2 (proj2 (proj2 (proj2 R'))))) as Rd. destruct (Render.to_markdown reported path_str strfmt p (path_str root) ms ex) as [o| |] eqn:Em; [now apply (F o)| |].
        * apply (document_meets reported path_str strfmt p (path_str root) ms Rd ex). exact Em.
        * apply (document_panic reported path_str strfmt p (path_str root) ms Rd SF ex) in Em as [(u & Eu & B) _].
          destruct (url_ok n t root _ (proj2 (proj2 (proj2 (proj2 Rr)))) S) as (stg & raw & LS & Ue). specialize (U stg raw LS). rewrite Eu in U. apply (UE u [] []); auto.
  Qed.

  (** If the check fails or panics then nothing can be formatted; if it panics then nothing works. *)
  Theorem C80_refused : forall n t wd root r0 st, project_read n t wd root r0 -> all_read n t root -> art_check n t wd st t ->
    (st = 1 \/ st = 101 -> forall st' t', art_fmt n t wd st' t' -> st' = st /\ t' = t) /\
    (st = 101 -> (forall cmd st' t', art_ls n t wd cmd st' t' -> st' = 101) /\ (forall ty target st' t', art_export n t wd ty target st' t' -> st' = 101 /\ t' = t)).
  Proof.
    intros n t wd root r0 st R A X. apply (command_again n t wd root r0 _ _ _ R A) in X as (r & Rr & E0 & K & -> & _). split.
    - intros S st' t' X. apply (command_again n t wd root _ _ _ _ Rr A) in X as (r' & R' & E' & K' & stg & res & _ & X & ->). rewrite <- E' in S |- *. clear r0 R E0 K r Rr E' K'.
      destruct r' as [[[c p]|c]| |]; cbn [exit_status check_status] in *.
      + destruct (ls_error c) as [|e el] eqn:Ee; cbn [is_nil negb] in *; [destruct (negb (lints_empty c)); destruct S; discriminate|].
        apply (refused_run path_str M topo H heqb hash_im debug_im stg to_toml to_json yaml_done style E1 E3 t _ _ (failed KLoad c)) in X; [injection X as -> ->; auto|].
        cbn [modify_pure]. rewrite Ee. reflexivity.
      + assert (Ec : ls_error c <> []) by (apply (reads_failed n t root c); apply R').
        apply (refused_run path_str M topo H heqb hash_im debug_im stg to_toml to_json yaml_done style E1 E3 t _ _ (failed KLoad c)) in X; [injection X as -> ->; auto|].
        cbn [modify_pure]. destruct (ls_error c); [contradiction|reflexivity].
      + destruct X as (x0 & B & S0). unfold begins in B. cbn [res_bind] in B. subst x0. apply after_done in S0. injection S0 as -> ->. auto.
      + destruct X as (x0 & B & S0). unfold begins in B. cbn [res_bind] in B. subst x0. apply after_done in S0. injection S0 as -> ->. auto.
    - intros S. assert (P : forall v, r <> Ok v). { intros v ->. destruct v as [[c p]|c]; cbn [exit_status check_status] in S; [|discriminate S]. destruct (negb _); [discriminate S|]. destruct (negb _); discriminate S. }
      split; [intros cmd st' t' X|intros ty target st' t' X]; apply (command_again n t wd root _ _ _ _ Rr A) in X as (r' & R' & E' & K' & X);
        (destruct r as [v| |]; [exfalso; now apply (P v)| |]); destruct r' as [[v'|v']| |]; try contradiction; cbn [with_project] in X; auto; apply X.
  Qed.

  (** A project with errors that are not errors of reading: the check fails, but listing and
      exporting go ahead. *)
  Theorem C80_errors : forall n t wd root c p, project_read n t wd root (Ok (inl (c, p))) -> all_read n t root -> ls_error c <> [] ->
    art_check n t wd 1 t /\ (forall st' t', art_check n t wd st' t' -> st' = 1) /\
    (forall cmd, ls_valid cmd -> art_ls n t wd cmd 0 t /\ forall st' t', art_ls n t wd cmd st' t' -> st' = 0) /\
    (forall ty target o t', tree_ok t -> lower ty = s "md" -> document p (path_str root) ms ex o -> fs_write t target o = Some t' -> art_export n t wd ty target 0 t').
  Proof.
    intros n t wd root c p R A N.
    assert (S : exit_status (Ok (inl (c, p)) : res (lints * project M H + lints)) = 1) by (cbn [exit_status check_status]; destruct (ls_error c); [contradiction|reflexivity]).
    split; [|split; [|split]].
    - apply (command_runs n t wd _ 1 t root _ R). split; auto.
    - intros st' t' X. apply (command_again n t wd root _ _ _ _ R A) in X as (r' & _ & E' & _ & -> & _). now rewrite E', S.
    - intros cmd V. split.
      + apply (command_runs n t wd _ 0 t root _ R). cbn [with_project]. split; auto. symmetry. apply ls_status; auto. apply (reads_ready n t root c). apply R.
      + intros st' t' X. apply (command_again n t wd root _ _ _ _ R A) in X as (r' & R' & _ & K' & X). destruct r' as [[[c' p']|c']| |]; try contradiction. cbn [with_project] in X. destruct X as [-> _].
        apply ls_status; auto. apply (reads_ready n t root c'). apply R'.
    - intros ty target o t' T Ty D W. apply C79_success; auto. exists root, c, p, o. auto.
  Qed.
End Commands.
Print Assumptions C79_where.
Print Assumptions C79_success.
Print Assumptions C79_failure.
Print Assumptions C79_destroyed.
Print Assumptions C79_html.
Print Assumptions C79_initial.
Print Assumptions C79_next.
Print Assumptions C80_nowhere.
Print Assumptions C80_readonly.
Print Assumptions C80_passed.
Print Assumptions C80_refused.
Print Assumptions C80_errors.

(** A project with an artifact, in which out.md is a file of somebody else. *)
Definition x_tree (text : str) : node := ex_tree (s "a")
  [(s "design", NDir [(s "a.md", NFile text)]); (s "notes", NDir []); (s "src", NDir []); (s "out.md", NFile (s "mine"));
   (s "site", NDir [(s "old.js", NFile (s "old"))])].
Definition x_result (t : node) : res (lints * project exact_num str + lints) :=
  match ex_settings t with
  | Ok (inl (st, raw)) => seq_load ex_path ex_yaml no_parser no_parser (fun _ _ => s "bad") (rs_prefix raw) exact_num topo_sort str ex_hash (settings_file ex_root) None 2 (art_files ok_disk t ex_path st) (code_files ok_disk t ex_lines ex_path st)
  | _ => Panic
  end.
Definition x_pread := project_read ok_disk ex_path ex_toml (fun _ => s "no folder") ex_lines ex_yaml no_parser no_parser (fun _ _ => s "bad") exact_num topo_sort str ex_hash (fun _ => None) (fun _ => None).
Definition x_all := all_read ok_disk ex_path ex_toml (fun _ => s "no folder") ex_lines ex_yaml no_parser no_parser (fun _ _ => s "bad").
Notation x_check := (art_check ok_disk ex_path ex_toml (fun _ => s "no folder") ex_lines ex_yaml no_parser no_parser (fun _ _ => s "bad") exact_num topo_sort str ex_hash (fun _ => None) (fun _ => None)).
Notation x_ls := (art_ls ok_disk ex_path ex_toml (fun _ => s "no folder") ex_lines ex_yaml no_parser no_parser (fun _ _ => s "bad") exact_num topo_sort str ex_hash (fun _ => None) (fun _ => None) (fun z : F exact_num => z) ex_regex ls_code).
Notation x_export ms ex := (art_export ok_disk ex_path ex_toml (fun _ => s "no folder") ex_lines ex_yaml no_parser no_parser (fun _ _ => s "bad") exact_num topo_sort str ex_hash (fun _ => None) (fun _ => None) (fun z : F exact_num => z) r_strfmt ms ex
  [([s "index.html"], Some (s "<html>")); ([s "css"; s "a.css"], Some (s "css")); ([s "initial.json"], Some (s "{}"))] (fun p => s "data")).
Notation x_export_bare := (art_export ok_disk ex_path ex_toml (fun _ => s "no folder") ex_lines ex_yaml no_parser no_parser (fun _ _ => s "bad") exact_num topo_sort str ex_hash (fun _ => None) (fun _ => None) (fun z : F exact_num => z) r_strfmt (r_ms None) (export_of None)
  [([s "index.html"], Some (s "<html>"))] (fun p => s "data")).
Lemma x_reads t wd v : ex_settings t = Ok (inl v) -> is_dir (lookup t wd) = true -> find_repo (fun p => match lookup t p with Some _ => true | None => false end) wd = Ok ex_root ->
  x_pread 2 t wd ex_root (x_result t).
Proof.
  intros S D F. apply found_nearest in F as (A & B & C). unfold x_pread, project_read. repeat (split; [assumption|]).
  unfold reads, x_result. fold (ex_settings t). rewrite S. destruct v as [st raw].
  replace (match rs_url raw with Some _ => None | None => None end) with (@None str) by (destruct (rs_url raw); reflexivity). apply seq_loads.
Qed.
Definition x_wd : path := ex_root ++ [s "src"].
Lemma x_read text : x_pread 2 (x_tree text) x_wd ex_root (x_result (x_tree text)).
Proof. eapply x_reads; vm_compute; reflexivity. Qed.
Lemma x_tree_ok text : tree_ok (x_tree text).
Proof. apply tree_b_ok. vm_compute. reflexivity. Qed.

Definition x_md : path := ex_root ++ [s "out.md"].
Definition x_design : path := ex_root ++ [s "design"; s "out.md"].
Definition x_site : path := ex_root ++ [s "site"].

Definition x_text := s "# REQ-a
hello".
(** The export writes the document, in capitals or not; with a bad template it loses the file. *)
Example C79_example :
  (exists t' o, x_export (r_ms None) (export_of None) 2 (x_tree x_text) x_wd (s "MD") x_md 0 t' /\ file_at t' x_md = Some o /\ starts_with o (s "## REQ-a") = true) /\
  (exists t' y, x_export (r_ms (Some (s "bad{"))) (export_of None) 2 (x_tree x_text) x_wd (s "md") x_md 101 t' /\ file_at t' x_md = Some y /\ starts_with y (s "## REQ-a") = true) /\
  (exists c p, x_result (x_tree x_text) = Ok (inl (c, p)) /\ pr_arts p <> [] /\ lints_empty c = true) /\
  (exists t', x_export (r_ms None) (export_of None) 2 (x_tree x_text) x_wd (s "html") x_site 0 t' /\
     file_at t' (x_site ++ [s "initial.json"]) = Some (s "data") /\ file_at t' (x_site ++ [s "css"; s "a.css"]) = Some (s "css") /\ file_at t' (x_site ++ [s "old.js"]) = Some (s "old")) /\
  (exists t', x_export_bare 2 (x_tree x_text) x_wd (s "html") x_site 1 t' /\ file_at t' (x_site ++ [s "index.html"]) = Some (s "<html>")).
Proof.
  assert (P : exists c p, x_result (x_tree x_text) = Ok (inl (c, p)) /\ pr_arts p <> [] /\ lints_empty c = true).
  { do 2 eexists. split; [vm_compute; reflexivity|]. split; [vm_compute; discriminate|vm_compute; reflexivity]. }
  pose proof (x_read x_text) as R. unfold x_pread in R.
  assert (X : exists v, x_result (x_tree x_text) = v) by eauto. destruct X as (v & V). rewrite V in R. vm_compute in V. subst v.
  split; [|split; [|split; [exact P|split]]].
  - do 2 eexists. split; [|split].
    + eapply command_runs; [exact R|]. cbn [with_project]. right. eexists. split; [apply flow_done; vm_compute; reflexivity|vm_compute; reflexivity].
    + vm_compute. reflexivity.
    + vm_compute. reflexivity.
  - do 2 eexists. split; [|split].
    + eapply command_runs; [exact R|]. cbn [with_project]. right. eexists. split; [apply flow_stops; intros o; vm_compute; discriminate|vm_compute; reflexivity].
    + vm_compute. reflexivity.
    + vm_compute. reflexivity.
  - eexists. split; [|split; [|split]].
    + eapply command_runs; [exact R|]. cbn [with_project]. right. eexists. split; [vm_compute; reflexivity|].
      eapply up_next; [vm_compute; reflexivity|]. eapply up_next; [vm_compute; reflexivity|]. eapply up_next; [vm_compute; reflexivity|]. apply up_end; [vm_compute; discriminate|vm_compute; reflexivity].
    + vm_compute. reflexivity.
    + vm_compute. reflexivity.
    + vm_compute. reflexivity.
  - eexists. split.
    + eapply command_runs; [exact R|]. cbn [with_project]. right. eexists. split; [vm_compute; reflexivity|]. eapply up_next; [vm_compute; reflexivity|]. apply up_none.
    + vm_compute. reflexivity.
Qed.

(** An export into design: the settings for exports and for reading have the same prefix, and the
    next reading fails. *)
Definition x_doc : str := match x_result (x_tree x_text) with
  | Ok (inl (_, p)) => match Render.to_markdown (fun z : F exact_num => z) ex_path r_strfmt p (ex_path ex_root) (mkMs None FamilyList DotIgnore []) (export_of None) with Ok o => o | _ => [] end
  | _ => [] end.
Definition x_next : node := match fs_write (x_tree x_text) x_design x_doc with Some t => t | None => NDir [] end.
Example C79_next_example : let t' := x_next in exists st raw r,
  x_export (mkMs None FamilyList DotIgnore []) (export_of None) 2 (x_tree x_text) x_wd (s "md") x_design 0 t' /\
  ex_settings (x_tree x_text) = Ok (inl (st, raw)) /\ rs_prefix raw = [] /\ In (ex_root ++ [s "design"]) (se_arts st) /\
  found_from t' (se_xarts st) (ex_root ++ [s "design"]) x_design /\ has_extension (s "md") x_design /\ file_at (x_tree x_text) x_design = None /\
  (forall o, file_at t' x_design = Some o -> from_markdown ex_yaml [] o <> Panic) /\ x_pread 2 t' x_wd ex_root r /\
  killers (load_file ex_path ex_yaml no_parser no_parser (fun _ _ => s "bad") (rs_prefix raw)) (art_files ok_disk t' ex_path st) < 2 /\
  file_at t' x_design <> Some [] /\ exit_status r = 1.
Proof.
  pose proof (x_read x_text) as R. unfold x_pread in R.
  assert (X : exists v, x_result (x_tree x_text) = v) by eauto. destruct X as (v & V). rewrite V in R. vm_compute in V. subst v.
  intros t'. eexists. eexists. exists (x_result x_next). split; [|split; [|split; [|split; [|split; [|split; [|split; [|split; [|split; [|split; [|split]]]]]]]]]].
  - eapply command_runs; [exact R|]. cbn [with_project]. right. exists x_doc. split; [apply flow_done; vm_compute; reflexivity|vm_compute; reflexivity].
  - vm_compute. reflexivity.
  - reflexivity.
  - vm_compute. auto.
  - left. exists [s "out.md"]. eexists. split; [reflexivity|]. split; [discriminate|]. split; [vm_compute; reflexivity|]. intros a b _ [].
  - exists (ex_root ++ [s "design"]), (s "out"). split; [reflexivity|]. split; [discriminate|]. intros I. cbn in I. decompose [or] I; try discriminate; contradiction.
  - vm_compute. reflexivity.
  - intros o Fo Q. assert (B : match file_at x_next x_design with Some o => match from_markdown ex_yaml [] o with Panic => false | _ => true end | None => false end = true) by (vm_compute; reflexivity).
    unfold t' in Fo. rewrite Fo, Q in B. discriminate B.
  - eapply x_reads; vm_compute; reflexivity.
  - vm_compute. auto.
  - vm_compute. discriminate.
  - vm_compute. reflexivity.
Qed.

(** A warning ([[SPC-gone]] is not there), an error ("partof" what is not there) and a panic (a long
    s in a reference). *)
Definition x_warn := x_text ++ s " [[SPC-gone]]".
Definition x_wrong := s "# SPC-a
partof: SPC-gone
###
hello".
Definition x_bad := x_text ++ s " [[" ++ [383%N] ++ s "pc-b]]".
Definition x_list := ls_cmd_for None (s "name") (s "list").
Example C80_example :
  map (fun x => exit_status (x_result (x_tree x))) [x_text; x_warn; x_wrong; x_bad] = [0; 2; 1; 101] /\
  (forall x, In x [x_text; x_warn; x_wrong; x_bad] -> x_all 2 (x_tree x) ex_root /\ x_pread 2 (x_tree x) x_wd ex_root (x_result (x_tree x)) /\
     x_check 2 (x_tree x) x_wd (exit_status (x_result (x_tree x))) (x_tree x)) /\
  ls_valid ex_regex x_list /\ ~ ls_valid ex_regex (ls_cmd_for None (s "name") (s "xml")) /\
  (exists c p, x_result (x_tree x_wrong) = Ok (inl (c, p)) /\ ls_error c <> []) /\
  x_ls 2 (x_tree x_warn) x_wd x_list 0 (x_tree x_warn) /\ x_ls 2 (x_tree x_wrong) x_wd x_list 0 (x_tree x_wrong) /\ x_ls 2 (x_tree x_bad) x_wd x_list 101 (x_tree x_bad) /\
  (forall r, within r ex_root -> lookup (NDir [(s "home", NDir [(s "p", NDir [])])]) (r ++ [s ".art"]) = None).
Proof.
  assert (L : ls_valid ex_regex x_list).
  { split; [|split; [discriminate|right; reflexivity]]. exists [TField FdName]. split; [|intros [(A & _)|[(_ & [A|[]])|([A|[]] & _)]]; discriminate A].
    exact (dn_word (TField FdName)). }
  split; [vm_compute; reflexivity|]. split.
  { intros x Hx. assert (R : x_pread 2 (x_tree x) x_wd ex_root (x_result (x_tree x))) by apply x_read. split; [|split; [exact R|]].
    - intros st raw E. destruct Hx as [<-|[<-|[<-|[<-|[]]]]]; vm_compute in E; inversion E; subst; split; vm_compute; repeat constructor.
    - eapply command_runs; [exact R|]. auto. }
  split; [exact L|]. split; [intros (_ & _ & [Q|Q]); discriminate Q|].
  split; [do 2 eexists; split; [vm_compute; reflexivity|vm_compute; discriminate]|].
  assert (Z : forall x st, match x_result (x_tree x) with Ok (inl (_, p)) => match ls_run (fun z : F exact_num => z) ex_regex ex_path ls_code x_list (pr_arts p) with Ok _ => 0 | Err => 1 | Panic => 101 end | Ok (inr _) => 1 | _ => 101 end = st ->
    x_ls 2 (x_tree x) x_wd x_list st (x_tree x)).
  { intros x st <-. eapply command_runs; [apply x_read|]. destruct (x_result (x_tree x)) as [[[c p]|c]| |]; cbn [with_project]; auto. }
  split; [apply Z; vm_compute; reflexivity|]. split; [apply Z; vm_compute; reflexivity|]. split; [apply Z; vm_compute; reflexivity|].
  intros r (x & E). unfold ex_root in E. destruct r as [|a r]; [reflexivity|]. injection E as <- E. destruct r as [|b r]; [reflexivity|]. injection E as <- E. destruct r; [reflexivity|discriminate E].
Qed.
