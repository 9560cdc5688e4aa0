(** Facts on reading a project again after an export into one of its own files. *)
From Coq Require Import Lia Permutation.
From Verif Require Import Api Render SpecRender SpecExport ExportFacts DocFacts.
From Verif Require Import Base BaseFacts Regex Name SpecName NameFacts RawNames Artifact Stored SpecGraph SpecLinks LinkFacts
  Markdown SpecMarkdown SpecHeads HeadFacts LineFacts MarkdownFacts Lint LintThms Source Pool PoolFacts Load LoadFacts SpecLoad CheckFacts ReadThms
  Disk DiskFacts Walk SpecWalk WalkFacts Modify SpecModify PhaseFacts ResultFacts PureFacts RunFacts ReloadFacts DiskRunFacts OpFacts Settings SpecSettings SettingsFacts.
Open Scope nat_scope.

(** The first line of a text. *)
Lemma buf_first l x : line_ok l -> exists ls, buf_lines (l ++ 10%N :: x) = l :: ls.
Proof.
  intros C. unfold buf_lines. change c_nl with nl. rewrite (split_on_app nl l x (proj1 C)).
  destruct (split_on nl x) as [|y ys] eqn:Ey; [exfalso; revert Ey; apply split_on_nonempty|]. cbn [term_lines]. rewrite (strip_ok l C). eauto.
Qed.
Lemma fold_refl l : Forall2 char_fold l l.
Proof. induction l; constructor; auto. left. now left. Qed.
Lemma wf_valid n : name_wf n -> valid_name (n_raw n).
Proof. intros W. apply name_accept. exists n. exact W. Qed.
(** A text that starts with the header of an artifact. *)
Lemma first_head yaml prefix n x l : name_wf n -> ~ In 10%N prefix ->
  from_markdown yaml prefix ((prefix ++ s "# " ++ n_raw n) ++ 10%N :: x) = Ok l -> exists m r l', l = (m, r) :: l' /\ n_key m = n_key n.
Proof.
  intros W N E. apply one_per_header in E as (Hd & _ & Wl).
  assert (V : valid_name (n_raw n)) by now apply wf_valid.
  assert (C : line_ok (prefix ++ s "# " ++ n_raw n)).
  { split.
    - intros I. apply in_app_or in I as [I|I]; [contradiction|]. apply in_app_or in I as [I|I]; [cbn in I; decompose [or] I; try discriminate; contradiction|].
      pose proof (proj2 (name_long _ (or_introl V))) as F. rewrite Forall_forall in F. specialize (F _ I). unfold name_ch, word_char in F. lia.
    - rewrite app_assoc. apply ends_line. now apply ends_app, raw_ends. }
  assert (HL : header_line prefix (prefix ++ s "# " ++ n_raw n) (n_raw n)).
  { exists prefix, [32%N], []. rewrite app_nil_r. split; [reflexivity|]. split; [apply fold_refl|]. split; [repeat constructor|]. split; [constructor|now left]. }
  destruct (buf_first _ x C) as (ls & Eb). rewrite Eb in Hd. remember (map (fun e : name * art_raw => n_raw (fst e)) l) as hs eqn:Eh.
  remember (prefix ++ s "# " ++ n_raw n) as first eqn:Ef. clear Ef Eb C.
  assert (X : exists hs', hs = n_raw n :: hs').
  { remember (first :: ls) as ll eqn:El. remember false as b eqn:Ebb. destruct Hd; try discriminate El; try discriminate Ebb; injection El as -> ->.
    - exists hs. f_equal. now apply (header_fun prefix first).
    - exfalso. now apply (H (n_raw n)).
    - exfalso. now apply (H (n_raw n)). }
  destruct X as (hs' & ->). destruct l as [|[m r] l']; [discriminate Eh|]. cbn [map fst] in Eh. injection Eh as Er _. exists m, r, l'. split; auto.
  inversion Wl as [|? ? Wm _]; subst. cbn [fst] in Wm. now rewrite (wf_key m Wm), (wf_key n W), Er.
Qed.

(** Two files with an artifact of the same name. *)
Lemma two_files {A} (lf : A -> job art_im) (afs : list (A + lint)) f g a b : In (inl f) afs -> In (inl g) afs -> f <> g -> In a (jb_out (lf f)) -> In b (jb_out (lf g)) ->
  n_key (im_name a) = n_key (im_name b) -> ~ distinct (file_arts lf afs).
Proof.
  intros Hf Hg N Ha Hb K D. destruct (two_of afs (inl f) (inl g) Hf Hg) as (l1 & x & l2 & y & l3 & -> & X); [congruence|].
  assert (Z : exists i j a b, x = inl i /\ y = inl j /\ In a (jb_out (lf i)) /\ In b (jb_out (lf j)) /\ n_key (im_name a) = n_key (im_name b)).
  { destruct X as [[-> ->]|[-> ->]]; [exists f, g, a, b|exists g, f, b, a]; auto 6. }
  clear -Z D. destruct Z as (i & j & a & b & -> & -> & Ha & Hb & K). unfold distinct, file_arts in D. rewrite flat_map_app in D. cbn [flat_map] in D. rewrite flat_map_app in D. cbn [flat_map] in D.
  rewrite !map_app in D. apply nodup_app_inv in D as (_ & D & _). apply nodup_app_inv in D as (_ & _ & D).
  apply (D (n_key (im_name a))); [apply in_map_iff; exists a; auto|]. rewrite K, !in_app_iff. right. left. apply in_map_iff. exists b. auto.
Qed.

Section Next.
  Variable E : disk_errs.
  Variable path_str : path -> str.
  Variable t : node.
  Variable st : settings.
  Hypothesis T : tree_ok t.
  Hypothesis Sn : forall p, e_stat E p = None.
  Hypothesis On : forall p, e_open E p = None.

  (** A file of the walk is found from a configured path. *)
  Lemma walk_found q : In (inl q) (to_back_up path_str st E t) -> art_type_of q <> None -> exists r, In r (se_arts st) /\ found_from t (se_xarts st) r q.
  Proof.
    intros O Ty. unfold to_back_up in O. apply walk_inl in O as (r & Hr & Hq). exists r. split; auto.
    destruct (lookup t r) as [[z|k]|] eqn:Lr.
    - rewrite (walk_path_file _ _ _ _ _ _ _ Lr) in Hq. destruct Hq as [<-|[]]. right. eauto.
    - left. destruct (walk_path (e_stat E) (e_open E) (e_none E) (art_filter (se_xarts st)) t r) as [fs e] eqn:Wl. cbn [fst] in Hq.
      destruct (walk_path_exact _ _ _ _ (se_xarts st) known_extension (art_filter_dir _) (art_filter_file _) t T r k Lr fs e Wl) as (_ & So & _). now apply So.
    - rewrite walk_path_none in Hq by auto. destruct Hq.
  Qed.
  Lemma found_reads r q y : In r (se_arts st) -> found_from t (se_xarts st) r q -> art_type_of q <> None -> file_at t q = Some y -> e_read E q = None ->
    In (inl (mkAF q (inl y))) (art_files E t path_str st).
  Proof.
    intros Hr F Ty Fq Rq. unfold art_files, found. apply in_map_iff. exists (inl q). split; [unfold read_art; now rewrite Rq, Fq|].
    apply art_type_iff in Ty. destruct (found_walk (e_stat E) (e_open E) (e_none E) t (art_filter (se_xarts st)) (se_xarts st) known_extension T Sn On
        (art_filter_dir _) (art_filter_file _) r q F Ty) as (c & _ & I). apply walk_inl. eauto.
  Qed.
End Next.
Lemma found_kept t t' ex r q y : file_at t q = Some y -> file_at t' q = Some y -> found_from t ex r q -> found_from t' ex r q.
Proof.
  unfold file_at. intros A B. destruct (lookup t' q) as [[z|k]|] eqn:L'; try discriminate B.
  intros [(rel & c & E & N & _ & X)|[-> _]]; [left; exists rel, z; auto|right; eauto].
Qed.

Section Again.
  Variable E : disk_errs.
  Variable path_str : path -> str.
  Variable yaml : str -> option (option str * option names_val).
  Variables parse_toml parse_json : str -> res (list (name * art_raw)).
  Hypothesis PO : parser_ok parse_toml.
  Hypothesis PJ : parser_ok parse_json.
  Variable parse_msg : path -> str -> str.
  Variable prefix : str.
  Variable M : num.
  Variable topo : graph -> option (list nat).
  Hypothesis TC : topo_ok topo.
  Variable H : Type.
  Variable hash_im : art_im -> H.
  Variable settings_path : path.
  Variable url_error : option str.
  Variable st : settings.
  Notation load_file := (load_file path_str yaml parse_toml parse_json parse_msg prefix).
  Notation loads := (loads path_str yaml parse_toml parse_json parse_msg prefix M topo H hash_im settings_path url_error).

  (** A file that cannot be read makes the load fail. *)
  Lemma lint_status n afs cfs r f : walk_lints_ok afs -> walk_lints_ok cfs -> loads n afs cfs r ->
    killers load_file afs < n -> In (inl f) afs -> jb_lints (load_file f) <> [] -> exit_status r = 1.
  Proof.
    intros Wa Wc L K I N. destruct (check_exact path_str yaml parse_toml parse_json parse_msg prefix PO PJ M topo TC H hash_im settings_path url_error n afs cfs r Wa Wc L)
      as (arts & refs & la & lc & out & Ra & Rc & B & _ & _ & S1 & _).
    apply S1. left. intros (El & _). rewrite <- killers_panics in K. destruct (run_all n (art_items path_str yaml parse_toml parse_json parse_msg prefix afs) arts la K Ra) as [_ P].
    rewrite El in P. apply Permutation_nil in P. apply app_eq_nil in P as [_ P]. rewrite jobs_art in P. apply N.
    destruct (jb_lints (load_file f)) as [|x l] eqn:Ej; auto. exfalso. assert (X : In x []); [rewrite <- P|destruct X]. apply in_flat_map. exists (load_file f). split; [|rewrite Ej; now left].
    apply in_map. apply in_flat_map. exists (inl f). split; auto. now left.
  Qed.
  (** Where an artifact of a project was read. *)
  Lemma loads_where t n cfs c p : walk_lints_ok cfs -> loads n (art_files E t path_str st) cfs (Ok (inl (c, p))) ->
    forall e, In e (pr_arts p) -> exists y b, In (inl (a_file (snd e))) (to_back_up path_str st E t) /\ art_type_of (a_file (snd e)) <> None /\ file_at t (a_file (snd e)) = Some y /\
      In b (jb_out (load_file (mkAF (a_file (snd e)) (inl y)))) /\ n_key (im_name b) = n_key (a_name (snd e)).
  Proof.
    intros Wc Ld e He. destruct (loads_loaded M topo TC H hash_im path_str yaml parse_toml parse_json PO PJ parse_msg prefix settings_path url_error n _ cfs c p (found_walk_ok _ _ _ _ _ _ _ _) Wc Ld) as (_ & arts & la & Rn & _ & P).
    assert (Ha : In (to_im (snd e)) (stored_form p)) by (unfold stored_form; apply in_map_iff; eauto).
    apply (Permutation_in _ P) in Ha. apply in_map_iff in Ha as (b & Eb & Hb). apply run_delivers in Rn as [Q _]. apply (Permutation_in _ Q) in Hb. apply in_flat_map in Hb as (j & Hj & Hb).
    assert (Kb : im_name b = a_name (snd e)) by (change (im_name b) with (im_name (im_clean b)); rewrite Eb; reflexivity).
    assert (Fb : im_file b = a_file (snd e)) by (change (im_file b) with (im_file (im_clean b)); rewrite Eb; reflexivity).
    apply taken_in in Hj. rewrite jobs_art in Hj. apply in_map_iff in Hj as (f & <- & Hf). pose proof (out_file _ _ _ _ _ _ _ _ Hb) as Hp. rewrite Fb in Hp.
    apply in_flat_map in Hf as ([g|x] & Hg & Hf); [destruct Hf as [->|[]]|destruct Hf]. unfold art_files, found in Hg. apply in_map_iff in Hg as ([q|x] & X & Hg); [injection X as <-|discriminate X].
    cbn [read_art af_path] in Hp. subst q. unfold read_art in Hb. rewrite <- Fb in *.
    assert (Ty : art_type_of (im_file b) <> None). { intros Z. unfold Load.load_file in Hb. cbn [af_path] in Hb. rewrite Z in Hb. destruct Hb. }
    assert (Z : forall m, ~ In b (jb_out (load_file (mkAF (im_file b) (inr m))))). { intros m. unfold Load.load_file. cbn [af_path af_text]. destruct (art_type_of (im_file b)); intros []. }
    destruct (e_read E (im_file b)); [now apply Z in Hb|]. destruct (file_at t (im_file b)) as [y|]; [|now apply Z in Hb].
    exists y, b. rewrite Kb. auto 6.
  Qed.
End Again.
