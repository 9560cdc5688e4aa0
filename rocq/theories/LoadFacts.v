(** What the readers deliver is well formed, and what a load consists of. *)
From Coq Require Import Lia ZifyBool Permutation Relation_Operators.
From Verif Require Import Base BaseFacts Regex Name SpecName NameFacts Family Expand RawNames RawNamesFacts Artifact Stored SpecLinks LinkFacts
  Markdown Lint Source SpecJoin JoinFacts JoinThms SourceFacts ProjectFacts Pool PoolFacts Load LintThms.

Lemma map_wf xs : forall ns, res_map name_from_str xs = Ok ns -> Forall name_wf ns.
Proof.
  induction xs as [|x xs IH]; intros ns E; cbn [res_map] in E.
  - injection E as <-. constructor.
  - destruct (name_from_str x) as [n| |] eqn:En; cbn [res_bind] in E; try discriminate E.
    destruct (res_map name_from_str xs) as [l| |]; cbn [res_bind] in E; try discriminate E. injection E as <-.
    constructor; [apply (from_str_wf x n En)|auto].
Qed.
Lemma extend_wf l m : Forall name_wf m -> Forall name_wf l -> Forall name_wf (is_extend name_eqb m l).
Proof. rewrite !Forall_forall. intros Hm Hl x Hx. apply is_extend_sub in Hx as [Hx|Hx]; auto. Qed.
Lemma expand_set x ns : expand_names x = Ok ns -> name_set ns.
Proof.
  unfold expand_names. destruct (parse_collapsed x) as [l| |]; cbn [res_bind]; try discriminate.
  destruct (res_map name_from_str l) as [k| |] eqn:E; cbn [res_bind]; try discriminate. intros X; injection X as <-. split.
  - apply (extend_wf k []); [constructor|]. eapply map_wf; eauto.
  - apply (is_collect_nodup name_eqb nk name_eqb_iff).
Qed.
Lemma de_seq_set l : forall out ns, name_set out -> names_de_seq out l = Ok ns -> name_set ns.
Proof.
  induction l as [|x l IH]; intros out ns S E; cbn [names_de_seq] in E.
  - injection E as <-. exact S.
  - destruct (expand_names x) as [k| |] eqn:Ek; cbn [res_bind] in E; try discriminate E. eapply IH; [|exact E]. split.
    + apply extend_wf; [apply S|]. apply (expand_set x k Ek).
    + apply (is_extend_nodup name_eqb nk name_eqb_iff), S.
Qed.
Lemma names_de_set v ns : names_de v = Ok ns -> name_set ns.
Proof.
  destruct v as [x|l]; cbn [names_de]; [apply expand_set|]. apply de_seq_set. split; constructor.
Qed.

(** Entries of a parsed file: names that were parsed, links as sets. *)
Definition raw_wf (e : name * art_raw) : Prop := name_wf (fst e) /\ forall p, raw_partof (snd e) = Some p -> name_set p.

Lemma set_im n f r : raw_wf (n, r) -> im_wf (from_raw n f r).
Proof.
  intros [Wn Wp]. cbn [fst snd] in *. unfold from_raw.
  assert (Ns : name_set (isort name_leb (match raw_partof r with Some p => is_collect name_eqb (strip_auto n p) | None => [] end))).
  { destruct (raw_partof r) as [p|]; [|split; constructor]. pose proof (strip_set n p (Wp p eq_refl)) as Ss.
    apply (name_set_perm (is_collect name_eqb (strip_auto n p))); [apply isort_perm|].
    rewrite (is_collect_distinct name_eqb nk name_eqb_iff _ (proj2 Ss)). exact Ss. }
  constructor; cbn [im_name im_partof]; [exact Wn|apply Ns|]. destruct Ns as [Nw Nn]. revert Nw Nn. generalize (isort name_leb
    match raw_partof r with Some p => is_collect name_eqb (strip_auto n p) | None => [] end).
  intros l. induction l as [|x l IH]; intros Nw Nn; [constructor|]. cbn [map] in *. inversion Nn; inversion Nw; subst. constructor; [|auto].
  intros Hin. apply in_map_iff in Hin as (y & Ey & Hy). apply H1. apply in_map_iff. exists y. split; [|exact Hy].
  unfold nk. f_equal; [|exact Ey]. apply key_eq_ty; auto. rewrite Forall_forall in H6. auto.
Qed.

Section Md.
  Variable yaml : str -> option (option str * option names_val).
  Variable prefix : str.

  Lemma insert_wf out n a o out' : Forall raw_wf out -> name_wf n -> insert_from_parts yaml out n a o = Ok out' -> Forall raw_wf out'.
  Proof.
    unfold insert_from_parts. intros Wo Wn E.
    destruct (match a with None => Ok (None, None) | Some x => match yaml x with None => Err | Some (d, None) => Ok (d, None)
                | Some (d, Some v) => res_bind (names_de v) (fun ns => Ok (d, Some ns)) end end) as [[d p]| |] eqn:Ea; cbn [res_bind] in E; try discriminate E.
    destruct (im_mem name_eqb n out) eqn:Em; [discriminate E|]. injection E as <-.
    assert (Wp : forall q, p = Some q -> name_set q).
    { intros q ->. destruct a as [x|]; [|discriminate Ea]. destruct (yaml x) as [[d' [v|]]|]; try discriminate Ea.
      destruct (names_de v) as [ns| |] eqn:En; cbn [res_bind] in Ea; try discriminate Ea. injection Ea as _ <-. eapply names_de_set; eauto. }
    rewrite Forall_forall in Wo |- *. intros [m r] Hin. apply in_insert_name in Hin as [Hin|(-> & _ & Hm)]; [now apply Wo|]. split; [|exact Wp].
    cbn [fst]. destruct Hm as [->|(w' & Hw')]; [exact Wn|]. apply (Wo _ Hw').
  Qed.

  Lemma md_loop_wf ls : forall code st st', Forall raw_wf (md_out st) -> (forall n, md_name st = Some n -> name_wf n) ->
    md_loop yaml prefix ls code st = Ok st' -> Forall raw_wf (md_out st') /\ (forall n, md_name st' = Some n -> name_wf n).
  Proof.
    induction ls as [|l ls IH]; intros code st st' Wo Wn E; cbn [md_loop] in E.
    - destruct code as [[o acc]|]; injection E as <-; auto.
    - destruct code as [[o acc]|].
      + destruct (is_match_full code_end_re l); eapply IH; try exact E; auto.
      + destruct (header prefix l) as [x|].
        * destruct (match md_name st with Some n => insert_from_parts yaml (md_out st) n (md_at st) (md_other st) | None => Ok (md_out st) end) as [out| |] eqn:Eo; cbn [res_bind] in E; try discriminate E.
          destruct (name_from_str x) as [n| |] eqn:En; cbn [res_bind] in E; try discriminate E.
          eapply IH; try exact E; cbn [md_out md_name].
          -- destruct (md_name st) as [m|] eqn:Em; [|injection Eo as <-; auto]. eapply insert_wf; try exact Eo; auto.
          -- intros m X. injection X as <-. apply (from_str_wf x n En).
        * destruct (is_match_full attrs_end_re l).
          -- destruct (match md_name st with Some _ => match md_at st with Some _ => true | None => false end | None => false end); [discriminate E|]. eapply IH; try exact E; auto.
          -- destruct (is_match_full attrs_code_re l).
             ++ destruct (match md_name st with Some _ => match md_at st with Some _ => true | None => false end | None => false end); [discriminate E|]. eapply IH; try exact E; auto.
             ++ eapply IH; try exact E; auto.
  Qed.

  Lemma from_markdown_wf text l : from_markdown yaml prefix text = Ok l -> Forall raw_wf l.
  Proof.
    unfold from_markdown. destruct (md_loop yaml prefix (buf_lines text) None (mkMd [] None None [])) as [st| |] eqn:E; cbn [res_bind]; try discriminate.
    apply md_loop_wf in E as [Wo Wn]; [|constructor|discriminate]. destruct (md_name st) as [n|]; intros X.
    - eapply insert_wf; try exact X; auto.
    - injection X as <-. exact Wo.
  Qed.
End Md.

(** What the toml and json parsers are assumed to do (serde: names and lists of names are read by
    [Name::from_str] and [NamesRaw]). *)
Definition parser_ok (f : str -> res (list (name * art_raw))) : Prop := forall t l, f t = Ok l -> Forall raw_wf l.

Lemma flat_forall {A B} (P : B -> Prop) (f : A -> list B) l : (forall a, In a l -> Forall P (f a)) -> Forall P (flat_map f l).
Proof. intros H. rewrite Forall_forall. intros b Hb. apply in_flat_map in Hb as (a & Ha & Hb). specialize (H a Ha). rewrite Forall_forall in H. auto. Qed.

Lemma taken_in {A} (l : list (job A)) : forall w j, In j (taken w l) -> In j l.
Proof.
  induction l as [|x l IH]; intros w j Hj; destruct w as [|w]; try (destruct Hj; fail). cbn [taken] in Hj.
  destruct Hj as [->|Hj]; [now left|right]. eapply IH; eauto.
Qed.

(** The reference is one that the scan of a file sends. *)
Lemma sent_wf file e r : sent file e r -> ref_wf r.
Proof.
  destruct e as [[p x] y]. intros (n & sub & -> & Hn & Hs). unfold ref_wf, ref_name, ref_sub. cbn [fst snd].
  destruct (from_str_wf x n Hn) as [Wn _]. split; [exact Wn|]. intros z ->. pose proof Hs as Hs'. apply sub_ok in Hs' as [-> _]. exact Hs.
Qed.
Lemma locations_wf file lines io : Forall ref_wf (fst (parse_locations file lines io)).
Proof.
  destruct (scan_file file lines io) as (pan & (v1 & v2 & _ & F & _) & _). induction F; constructor; auto. eapply sent_wf; eauto.
Qed.

Section Load.
  Variable path_str : path -> str.
  Variable yaml : str -> option (option str * option names_val).
  Variables parse_toml parse_json : str -> res (list (name * art_raw)).
  Variable parse_msg : path -> str -> str.
  Variable prefix : str.
  Hypothesis toml_ok : parser_ok parse_toml.
  Hypothesis json_ok : parser_ok parse_json.
  Notation load_file := (load_file path_str yaml parse_toml parse_json parse_msg prefix).
  Notation load_locations := (load_locations path_str).
  Notation art_items := (art_items path_str yaml parse_toml parse_json parse_msg prefix).
  Notation code_items := (code_items path_str).

  Lemma load_file_wf f : Forall im_wf (jb_out (load_file f)).
  Proof.
    unfold Load.load_file. destruct (art_type_of (af_path f)) as [t|]; [|constructor]. destruct (af_text f) as [text|m]; [|constructor].
    destruct (parse_artifacts yaml parse_toml parse_json prefix t text) as [l| |] eqn:E; cbn [jb_out]; try constructor.
    assert (Wl : Forall raw_wf l).
    { destruct t; cbn [parse_artifacts] in E; [eapply toml_ok|eapply from_markdown_wf|eapply json_ok]; eauto. }
    clear E. induction Wl as [|[n r] l Wr Wl IH]; cbn [map]; constructor; auto. apply set_im. exact Wr.
  Qed.
  Lemma load_locations_wf f : Forall ref_wf (jb_out (load_locations f)).
  Proof.
    unfold Load.load_locations. pose proof (locations_wf (cf_path f) (cf_lines f) (match cf_err f with Some _ => true | None => false end)) as L.
    destruct (parse_locations (cf_path f) (cf_lines f) _) as [refs e]. exact L.
  Qed.

  Lemma error_lint_error p m : is_error (load_error path_str p m) = true.
  Proof. reflexivity. Qed.
  Lemma file_lints_error f : Forall (fun x => is_error x = true) (jb_lints (load_file f)).
  Proof.
    unfold Load.load_file. destruct (art_type_of (af_path f)) as [t|]; [|constructor]. destruct (af_text f) as [text|m]; [|repeat constructor].
    destruct (parse_artifacts yaml parse_toml parse_json prefix t text); cbn [jb_lints]; repeat constructor.
  Qed.
  Lemma code_lints_error f : Forall (fun x => is_error x = true) (jb_lints (load_locations f)).
  Proof.
    unfold Load.load_locations. destruct (parse_locations (cf_path f) (cf_lines f) _) as [refs e]. cbn [jb_lints].
    destruct e, (cf_err f); repeat constructor.
  Qed.
  Lemma collect_error arts refs : Forall (fun x => is_error x = true) (collect_lints path_str arts refs).
  Proof.
    unfold collect_lints. apply Forall_app. split; apply flat_forall.
    - intros [[a b] m] _. repeat constructor.
    - intros [[n a] b] _. repeat constructor.
  Qed.

  Lemma jobs_art l : jobs_of (art_items l) = map load_file (flat_map (fun i => match i with inl f => [f] | inr _ => [] end) l).
  Proof. unfold jobs_of, Load.art_items. induction l as [|[f|x] l IH]; cbn [map flat_map app]; auto. now rewrite IH. Qed.
  Lemma jobs_code l : jobs_of (code_items l) = map load_locations (flat_map (fun i => match i with inl f => [f] | inr _ => [] end) l).
  Proof. unfold jobs_of, Load.code_items. induction l as [|[f|x] l IH]; cbn [map flat_map app]; auto. now rewrite IH. Qed.

  Lemma run_delivers {A} w (items : list (job A + lint)) out ls : run_of w items out ls ->
    Permutation out (flat_map jb_out (taken w (jobs_of items))) /\
    exists seen, (panics (jobs_of items) < w -> seen = items) /\ (exists unseen, items = seen ++ unseen) /\
      Permutation ls (lints_of seen ++ flat_map jb_lints (taken w (jobs_of items))).
  Proof.
    intros (p & R & S & <- & <-). apply (pool_delivers 128); auto. lia.
  Qed.

  Lemma run_arts_wf w l arts ls : run_of w (art_items l) arts ls -> Forall im_wf arts.
  Proof.
    intros R. apply run_delivers in R as [P _]. eapply Permutation_Forall; [apply Permutation_sym; exact P|].
    apply flat_forall. intros j Hj. apply taken_in in Hj. rewrite jobs_art in Hj. apply in_map_iff in Hj as (f & <- & _). apply load_file_wf.
  Qed.
  Lemma run_refs_wf w l refs ls : run_of w (code_items l) refs ls -> Forall ref_wf refs.
  Proof.
    intros R. apply run_delivers in R as [P _]. eapply Permutation_Forall; [apply Permutation_sym; exact P|].
    apply flat_forall. intros j Hj. apply taken_in in Hj. rewrite jobs_code in Hj. apply in_map_iff in Hj as (f & <- & _). apply load_locations_wf.
  Qed.
End Load.
