(** Lemmas for C100. *)
From Coq Require Import Permutation Lia Relation_Operators.
From Verif Require Import Base BaseFacts Name SpecName NameFacts Family SubFacts FamilyFacts RawNamesFacts Artifact GraphFacts SpecGraph SpecLinks SpecMarkdown BuildFacts LinkFacts ProjectFacts Stored Markdown Lint SpecLint LintFacts LintThms
  Source SpecJoin Pool Load LoadFacts SpecLoad CheckFacts DeterFacts Disk Walk WalkFacts SpecWalk Modify SpecModify OpFacts PureFacts OrderFacts ResultFacts SpecAgain SpecAccept.

Lemma own_rank n q : name_wf n -> name_wf q -> own_key n (nk q) -> ty_rank (n_ty q) <= ty_rank (n_ty n).
Proof.
  intros Wn Wq [(p & E & K)|(p & E & K)].
  - apply parent_of_spec in E as (_ & T & _); auto. injection K as K _. rewrite <- K, T. lia.
  - apply auto_of_spec in E as (_ & T & _); auto. injection K as K _. rewrite <- K. destruct (n_ty n); cbn in T; try discriminate T; injection T as <-; cbn; lia.
Qed.

(** A project has no error lint exactly if nothing is wrong with its stored form. *)
Lemma errors_sound M topo (TC : topo_ok topo) H hash_im path_str arts code (out : list (name * artifact M H)) prefix sp u :
  Forall im_wf arts -> distinct arts -> build M topo H hash_im arts code = Ok out ->
  lint_errors path_str (mkProject out code prefix sp u) = [] <-> stored_sound prefix (map im_clean arts).
Proof.
  intros W D B. rewrite no_errors_iff. cbn [pr_arts pr_prefix].
  pose proof (art_exists M topo H hash_im TC arts code out W D B) as AE.
  destruct (build_entry M topo H hash_im TC arts code out W D B) as (gs & comp & _ & _ & Eo).
  set (ims := map (fun a => (im_name a, im_clean a)) arts) in *. rewrite Forall_forall in W.
  assert (KI : forall q, name_wf q -> In (nk q) (nkeys ims) <-> exists b, In b arts /\ n_key (im_name b) = n_key q).
  { intros q Wq. unfold ims, pkeys. rewrite map_map, in_map_iff. cbn [fst]. split; intros (b & H1 & H2); exists b.
    - split; auto. apply (nk_key _ _ (iw_name _ (W b H2)) Wq). auto.
    - split; auto. apply (nk_key _ _ (iw_name _ (W b H1)) Wq). auto. }
  split.
  - intros G. constructor.
    + unfold distinct in *. rewrite map_map. exact D.
    + intros a0 q Ha Hq. apply in_map_iff in Ha as (a & <- & Ha). destruct (clean_wf a (W a Ha)) as [_ Sc].
      assert (Wq : name_wf q) by (destruct Sc as [Sc _]; rewrite Forall_forall in Sc; auto).
      assert (X : In (nk q) (map nk (partof_of ims (im_name a, im_clean a)))) by (apply partof_in; [apply (W a Ha)|right; now apply in_map]).
      apply in_map_iff in X as (q' & Ek & Hq'). injection Ek as Et Ek.
      destruct (G (im_name a) (built M H hash_im ims code gs comp (im_name a, im_clean a))) as (G1 & _ & _); [rewrite Eo; apply in_map_iff; eauto|].
      destruct (G1 q' Hq') as [X L]. apply AE in X as (b & Hb & _ & Kb). split; [|cbn [im_clean im_name]; rewrite <- Et; exact L].
      exists (im_clean b). split; [now apply in_map|]. cbn [im_clean im_name]. congruence.
    + intros a0 x y Ha Hd Hs. apply in_map_iff in Ha as (a & <- & Ha).
      destruct (G (im_name a) (built M H hash_im ims code gs comp (im_name a, im_clean a))) as (_ & G2 & _); [rewrite Eo; apply in_map_iff; eauto|].
      cbn [built a_impl a_subnames snd fst] in G2. assert (X : In (upper y) (map s_key (parse_subnames (im_text (im_clean a))))) by (apply parse_subnames_key; eauto).
      rewrite G2 in X; [destruct X|]. unfold impl_of. cbn [snd]. destruct (im_done (im_clean a)) as [d|] eqn:Ed; [eauto|congruence].
    + intros a0 l Ha Hl. apply in_map_iff in Ha as (a & <- & Ha).
      destruct (G (im_name a) (built M H hash_im ims code gs comp (im_name a, im_clean a))) as (_ & _ & G3); [rewrite Eo; apply in_map_iff; eauto|].
      exact (G3 l Hl).
  - intros [_ SL SD ST] n x Hin. rewrite Eo in Hin. apply in_map_iff in Hin as (a & X & Ha). injection X as <- <-.
    cbn [built a_partof a_impl a_subnames a_text fst snd]. destruct (clean_wf a (W a Ha)) as [_ Sc]. pose proof (iw_name _ (W a Ha)) as Wn. split; [|split].
    + intros q Hq. pose proof (partof_set ims (im_name a, im_clean a) Wn Sc) as [PS _]. rewrite Forall_forall in PS. pose proof (PS q Hq) as Wq.
      assert (X : In (nk q) (map nk (partof_of ims (im_name a, im_clean a)))) by now apply in_map.
      assert (FE : forall b, In b arts -> n_key (im_name b) = n_key q -> exists_art out q).
      { intros b Hb Kb. apply AE. exists b. split; auto. split; auto. apply key_eq_ty; auto. apply (W b Hb). }
      apply partof_in in X; auto. cbn [fst snd] in X. destruct X as [[Ho Hk]|Hq2].
      * apply KI in Hk as (b & Hb & Kb); auto. split; [eauto|]. now apply own_rank.
      * apply in_map_iff in Hq2 as (q' & Ek & Hq2). injection Ek as Et Ek.
        destruct (SL (im_clean a) q') as [(b0 & Hb & Kb) L]; auto; [now apply in_map|]. apply in_map_iff in Hb as (b & <- & Hb). cbn [im_clean im_name] in Kb, L.
        split; [apply (FE b); auto; congruence|]. now rewrite <- Et.
    + intros [d Hd]. unfold impl_of in Hd. cbn [snd fst] in Hd. destruct (parse_subnames (im_text (im_clean a))) as [|z l] eqn:Es; auto. exfalso.
      assert (X : In (s_key z) (map s_key (parse_subnames (im_text (im_clean a))))) by (rewrite Es; now left).
      apply parse_subnames_key in X as (u0 & y & Hs & _). apply (SD (im_clean a) u0 y); auto; [now apply in_map|].
      destruct (im_done (im_clean a)); [discriminate|]. destruct (im_get name_eqb (im_name a) code); discriminate Hd.
    + intros l Hl. apply (ST (im_clean a)); auto. now apply in_map.
Qed.

Lemma sound_same prefix A B : (forall a, In a A <-> In a B) -> distinct B -> stored_sound prefix A -> stored_sound prefix B.
Proof.
  intros E D [S1 S2 S3 S4]. constructor; auto.
  - intros a q Ha Hq. destruct (S2 a q) as [(b & Hb & K) L]; [now apply E|auto|]. split; auto. exists b. split; auto. now apply E.
  - intros a u x Ha. apply S3. now apply E.
  - intros a l Ha. apply S4. now apply E.
Qed.

Section Accept.
  Variable path_str : path -> str.
  Variable M : num.
  Variable topo : graph -> option (list nat).
  Variable TC : topo_ok topo.
  Variable H : Type.
  Variable heqb : H -> H -> bool.
  Variable heqb_iff : forall a b, heqb a b = true <-> a = b.
  Variable hash_im : art_im -> H.
  Variable debug_im : art_im -> str.
  Variable st : settings.
  Notation pure := (modify_pure path_str M topo H heqb hash_im debug_im st).
  Notation overlap := (check_overlap H heqb hash_im []).
  Notation perform := (perform_operations H heqb hash_im debug_im).
  Notation ids_of := (ids_of M H heqb hash_im).
  Notation get := (im_get heqb).
  Notation clean := (map (op_clean H)).
  Notation pk := (pkeys (fun x : H => x)).

  Lemma paths_placed ops : check_paths path_str H st ops = [] <-> forall o a, In o ops -> stores o a -> placed st (im_file a).
  Proof.
    unfold check_paths. rewrite flat_map_nil. split.
    - intros X o a Ho Sa. specialize (X o Ho). apply (check_path_ok path_str). apply stores_cases in Sa. destruct o as [b|b i|n i]; [subst b; exact X|subst b; exact X|destruct Sa].
    - intros X o Ho. destruct o as [b|b i|n i]; cbn [op_file]; auto; apply check_path_ok, (X _ b Ho); [now left|right; now exists i].
  Qed.

  Lemma alone_fits (p : project M H) o : alone heqb hash_im (ids_of (pr_arts p)) o <-> fits hash_im (stored_form p) o.
  Proof.
    pose proof (ids_some M H heqb heqb_iff hash_im p) as S0.
    assert (X : forall i, get i (ids_of (pr_arts p)) <> None <-> In i (map hash_im (stored_form p))).
    { intros i. rewrite S0, in_map_iff. split; intros (a & H1 & H2); eauto. }
    destruct o as [a|a i|n i]; cbn [alone fits]; auto. rewrite <- X. destruct (get (hash_im a) (ids_of (pr_arts p))); split; intros Y; try discriminate; auto; exfalso; apply Y; discriminate.
  Qed.

  Lemma perform_applied (p : project M H) ops m : loaded_ok hash_im p -> NoDup (map hash_im (stored_form p)) -> Forall op_wf ops -> overlap (clean ops) = [] ->
    perform (clean ops) (ids_of (pr_arts p)) = ([], m) -> applied hash_im ops (stored_form p) (map snd m).
  Proof.
    intros L N W Ov Em a. pose proof (ids_nodup M H heqb heqb_iff hash_im (pr_arts p)) as N0.
    destruct (entries_ok M H heqb heqb_iff hash_im debug_im p ops m L W Ov Em) as [Nm Ent].
    assert (G : In a (map snd m) <-> get (hash_im a) m = Some a).
    { split.
      - intros Ha. apply in_map_iff in Ha as ([i b] & <- & Hb). cbn [snd]. destruct (Ent i b Hb) as (-> & _). apply (in_get heqb (fun x => x) (heqb_id heqb heqb_iff)); auto.
      - intros G. apply (get_some_in heqb (fun x => x) (heqb_id heqb heqb_iff)) in G as (k & _ & Hk). apply in_map_iff. exists (k, a). auto. }
    rewrite G, (perform_get heqb heqb_iff hash_im debug_im (clean ops) _ m N0 Ov Em). rewrite (ids_get M H heqb heqb_iff hash_im p (hash_im a) a N). tauto.
  Qed.

  Lemma applied_same ops A B B' : applied hash_im ops A B -> applied hash_im ops A B' -> forall a, In a B <-> In a B'.
  Proof. intros X Y a. rewrite (X a), (Y a). reflexivity. Qed.

  (** The last check: the lints of the new artifacts. *)
  Lemma last_sound (p : project M H) arts out : Forall im_wf arts -> (forall a, In a arts -> im_clean a = a) -> build M topo H hash_im arts (pr_code p) = Ok out ->
    filter is_error (last_lints path_str M H p arts out) = [] <-> stored_sound (pr_prefix p) arts.
  Proof.
    intros W C B. assert (Mc : map im_clean arts = arts) by (rewrite <- (map_id arts) at 2; apply map_ext_in; exact C).
    unfold last_lints. rewrite filter_app, (filter_all is_error (lint_errors _ _)) by apply lint_errors_level. split.
    - intros E. apply app_eq_nil in E as [E1 E2].
      assert (Dn : j_dups (join_artifacts_raw arts) = []) by (destruct (j_dups (join_artifacts_raw arts)) as [|[[n a] b] l]; auto; discriminate E1).
      assert (D : distinct arts) by (apply distinct_iff; auto; now apply dups_none_iff).
      rewrite <- Mc. now apply (errors_sound M topo TC H hash_im path_str arts (pr_code p) out (pr_prefix p) (pr_settings_path p) (pr_url_error p) W D B).
    - intros S0. pose proof (ss_distinct _ _ S0) as D.
      assert (Dn : j_dups (join_artifacts_raw arts) = []) by (apply dups_none_iff; now apply distinct_iff). rewrite Dn. cbn [flat_map filter app].
      apply (errors_sound M topo TC H hash_im path_str arts (pr_code p) out (pr_prefix p) (pr_settings_path p) (pr_url_error p) W D B). now rewrite Mc.
  Qed.

  Theorem pure_iff c p ops : loaded_ok hash_im p -> NoDup (map hash_im (stored_form p)) -> Forall op_wf ops -> (forall o, In o (clean ops) -> ~ noop hash_im o) ->
    match pure (inl (c, p)) ops with
    | Ok (inl (k, _)) => early k /\ ~ (ls_error c = [] /\ acceptable hash_im st (pr_prefix p) (stored_form p) ops)
    | Ok (inr _) => ls_error c = [] /\ acceptable hash_im st (pr_prefix p) (stored_form p) ops
    | _ => False
    end.
  Proof.
    intros L N W Nn. destruct (pure_stages path_str M topo TC H heqb hash_im debug_im st c p ops) as (e & m & out & Em & B & X).
    pose proof (ids_nodup M H heqb heqb_iff hash_im (pr_arts p)) as N0.
    pose proof (accepted_iff heqb heqb_iff hash_im debug_im (clean ops) _ N0 Nn) as AI. rewrite Em in AI. cbn [fst] in AI.
    pose proof (paths_placed (clean ops)) as PP.
    assert (AF : Forall (alone heqb hash_im (ids_of (pr_arts p))) (clean ops) <-> Forall (fits hash_im (stored_form p)) (clean ops)).
    { split; apply Forall_impl; intros o; apply alone_fits. }
    rewrite AF in AI.
    assert (Last : overlap (clean ops) = [] -> e = [] -> (filter is_error (last_lints path_str M H p (map snd m) out) = [] <-> exists B, applied hash_im ops (stored_form p) B /\ stored_sound (pr_prefix p) B)).
    { intros Ov ->. destruct (entries_ok M H heqb heqb_iff hash_im debug_im p ops m L W Ov Em) as [Nm Ent].
      assert (Wm : Forall im_wf (map snd m)) by (apply Forall_forall; intros a Ha; apply in_map_iff in Ha as ([i b] & <- & Hb); apply (Ent i b Hb)).
      assert (Cm : forall a, In a (map snd m) -> im_clean a = a) by (intros a Ha; apply in_map_iff in Ha as ([i b] & <- & Hb); apply (Ent i b Hb)).
      rewrite (last_sound p (map snd m) out Wm Cm B). pose proof (perform_applied p ops m L N W Ov Em) as Ap. split.
      - intros S0. exists (map snd m). auto.
      - intros (B' & Ap' & S0). pose proof (applied_same ops _ _ _ Ap' Ap) as Eq. apply (sound_same (pr_prefix p) B'); auto.
        assert (Hm : forall i a, In (i, a) m -> i = hash_im a) by (intros i a Hin; symmetry; apply (Ent i a Hin)).
        assert (Nd : NoDup (map snd m)).
        { clear -Nm Hm. unfold pkeys in Nm. rewrite map_id in Nm || idtac. induction m as [|[i a] l IH]; cbn [map snd fst] in *; [constructor|]. inversion Nm as [|? ? N1 N2]; subst. constructor; [|apply IH; auto; intros; apply Hm; now right].
          intros Hin. apply in_map_iff in Hin as ([j b] & Eb & Hb). cbn [snd] in Eb. subst b. apply N1. rewrite (Hm i a) by now left. rewrite <- (Hm j a) by now right. apply in_map_iff. exists (j, a). auto. }
        pose proof (ss_distinct _ _ S0) as D. assert (Nb : NoDup B') by (unfold distinct in D; eapply NoDup_map_inv; exact D).
        apply (perm_distinct B' (map snd m)); auto. now apply NoDup_Permutation. }
    assert (Ac : acceptable hash_im st (pr_prefix p) (stored_form p) ops <->
      (overlap (clean ops) = [] /\ check_paths path_str H st (clean ops) = []) /\ e = [] /\ filter is_error (last_lints path_str M H p (map snd m) out) = []).
    { unfold acceptable. rewrite <- PP. split.
      - intros (A1 & A2 & A3 & A4). destruct (proj2 AI (conj A1 A3)) as [O1 O2]. split; auto. split; auto. now apply Last.
      - intros ((O1 & O2) & O3 & O4). destruct (proj1 AI (conj O1 O3)) as [A1 A3]. split; auto. split; auto. split; auto. now apply Last. }
    destruct (pure (inl (c, p)) ops) as [[[[] l]|[c1 q]]| |]; try contradiction; rewrite Ac; unfold early; try (split; [tauto|]); tauto.
  Qed.
End Accept.

(** A run that passed the first part does not end with an error of the first part. *)
Section Later.
  Variable path_str : path -> str.
  Variable M : num.
  Variable topo : graph -> option (list nat).
  Variable H : Type.
  Variable heqb : H -> H -> bool.
  Variable hash_im : art_im -> H.
  Variable debug_im : art_im -> str.
  Variable st : settings.
  Variables to_toml to_json : list (name * art_raw) -> str.
  Variable yaml_done : str -> str.
  Variable style : md_attrs.
  Variables E1 E3 : disk_errs.

  Definition passed (x : mstate M H) : Prop := forall t k l, x = MDone M H t (Ok (inr (k, l))) -> ~ early k.
  Lemma passed_step x y : mstep path_str M H st to_toml to_json yaml_done style E3 x y -> passed y.
  Proof.
    intros S0 t k l E Ek. destruct S0; try discriminate E; unfold failed in E; inversion E; subst; destruct Ek as [Ek|[Ek|[Ek|Ek]]]; discriminate Ek.
  Qed.
  Lemma passed_steps x y : clos_refl_trans_1n _ (mstep path_str M H st to_toml to_json yaml_done style E3) x y -> passed x -> passed y.
  Proof. induction 1 as [|x y z S0 _ IH]; auto. intros _. apply IH. eapply passed_step; eauto. Qed.
  Lemma accepted_run t l ops c q x : modify_pure path_str M topo H heqb hash_im debug_im st l ops = Ok (inr (c, q)) ->
    runs path_str M topo H heqb hash_im debug_im st to_toml to_json yaml_done style E1 E3 t (Ok l) ops x -> passed x.
  Proof.
    intros Ep (x0 & B & S0). unfold begins in B. cbn [res_bind] in B. rewrite Ep in B. destruct B as (todo & _ & ->).
    eapply passed_steps; [exact S0|]. intros t' k l' E. discriminate E.
  Qed.
End Later.

(** Requests of one operation. *)
Section One.
  Context {H : Type}.
  Variable hash_im : art_im -> H.
  Variable st : settings.
  Variable prefix : str.
  Variable A : list art_im.
  Hypothesis SA : stored_sound prefix A.
  Hypothesis NA : NoDup (map hash_im A).
  Notation acceptable := (acceptable hash_im st prefix A).
  Notation applied := (applied hash_im).

  Lemma hash_in a b : In a A -> In b A -> hash_im a = hash_im b -> a = b.
  Proof.
    clear SA. induction A as [|x l IH]; cbn [map] in *; [intros []|]. inversion NA as [|? ? N1 N2]; subst. intros [->|Ha] [->|Hb] E; auto.
    - exfalso. apply N1. rewrite E. now apply in_map.
    - exfalso. apply N1. rewrite <- E. now apply in_map.
  Qed.
  Lemma key_in a b : In a A -> In b A -> n_key (im_name a) = n_key (im_name b) -> a = b.
  Proof.
    pose proof (ss_distinct _ _ SA) as D. unfold distinct in D. clear SA NA. induction A as [|x l IH]; cbn [map] in *; [intros []|]. inversion D as [|? ? N1 N2]; subst. intros [->|Ha] [->|Hb] E; auto.
    - exfalso. apply N1. rewrite E. apply in_map_iff. eauto.
    - exfalso. apply N1. rewrite <- E. apply in_map_iff. eauto.
  Qed.

  Lemma last_one (o : op H) i a : last_stored hash_im [o] i a <-> stores o a /\ hash_im a = i.
  Proof.
    split.
    - intros (l & o' & r & E & So & Hi & _). destruct l as [|x [|y l]]; try discriminate E. injection E as <- _. auto.
    - intros [So Hi]. exists [], o, []. split; [reflexivity|]. split; [exact So|]. split; [exact Hi|]. intros o' b [].
  Qed.
  Lemma stored_one (o : op H) i : stored hash_im [o] i <-> exists a, stores o a /\ hash_im a = i.
  Proof. split; [intros (o' & a & [<-|[]] & X); eauto|intros (a & X); exists o, a; split; [now left|auto]]. Qed.
  Lemma taken_one (o : op H) i : taken hash_im [o] i <-> takes hash_im o i.
  Proof. split; [intros (o' & [<-|[]] & X); auto|intros X; exists o; split; [now left|auto]]. Qed.

  Lemma applied_create a B : ~ In (hash_im (im_clean a)) (map hash_im A) -> (applied [OCreate a] A B <-> forall x, In x B <-> x = im_clean a \/ In x A).
  Proof.
    intros N. unfold SpecAgain.applied. cbn [map op_clean].
    assert (E : forall x, (~ taken hash_im [OCreate (im_clean a)] (hash_im x) /\ (last_stored hash_im [OCreate (im_clean a)] (hash_im x) x \/ ~ stored hash_im [OCreate (im_clean a)] (hash_im x) /\ In x A)) <-> x = im_clean a \/ In x A).
    { intros x. rewrite taken_one, last_one, stored_one. split.
      - intros (_ & [[So _]|[_ Hx]]); auto. apply stores_cases in So. auto.
      - intros X. split; [intros [T _]; now apply targets_cases in T|]. destruct X as [->|Hx]; [left; split; auto; now left|]. right. split; auto.
        intros (b & So & Eb). apply stores_cases in So. subst b. apply N. rewrite Eb. now apply in_map. }
    split; intros X x; rewrite (X x); [apply E|symmetry; apply E].
  Qed.

  Lemma sound_add B b : (forall x, In x B <-> x = b \/ In x A) -> ~ In b A -> stored_sound prefix B ->
    (forall c, In c A -> n_key (im_name c) <> n_key (im_name b)) /\ art_sound prefix (fun c => c = b \/ In c A) b.
  Proof.
    intros EB Nb [D S2 S3 S4]. assert (Hb : In b B) by (apply EB; auto). split.
    - intros c Hc K. assert (c = b); [|congruence]. assert (Hc' : In c B) by (apply EB; auto).
      clear -D Hb Hc' K. unfold distinct in D. induction B as [|x l IH]; cbn [map] in *; [destruct Hb|]. inversion D as [|? ? N1 N2]; subst. destruct Hb as [->|Hb], Hc' as [->|Hc]; auto.
      + exfalso. apply N1. rewrite <- K. apply in_map_iff. eauto.
      + exfalso. apply N1. rewrite K. apply in_map_iff. eauto.
    - split; [|split; [intros Hd u x; now apply S3|intros l; now apply S4]]. intros q Hq. destruct (S2 b q Hb Hq) as [(c & Hc & K) R]. split; auto. exists c. split; auto. now apply EB.
  Qed.

  Theorem create_iff a : acceptable [OCreate a] <->
    let b := im_clean a in
    placed st (im_file b) /\ ~ In (hash_im b) (map hash_im A) /\
    (forall c, In c A -> n_key (im_name c) <> n_key (im_name b)) /\ art_sound prefix (fun c => c = b \/ In c A) b.
  Proof.
    cbv zeta. set (b := im_clean a). unfold SpecAccept.acceptable. cbn [map op_clean flat_map ids_in app]. fold b. split.
    - intros (_ & P & F & B & Ap & SB). inversion F as [|? ? F1 _]; subst. cbn [fits] in F1. split; [apply (P _ b (or_introl eq_refl)); now left|]. split; auto.
      pose proof (proj1 (applied_create a B F1) Ap) as Ab. apply (sound_add B); auto. intros Hb. apply F1. now apply in_map.
    - intros (P & F1 & Nk & As). split; [repeat constructor; intros []|]. split; [intros o x [<-|[]] So; apply stores_cases in So; now subst|]. split; [repeat constructor; exact F1|].
      exists (b :: A). split; [apply (proj2 (applied_create a (b :: A) F1)); intros x; cbn [In]; fold b; split; intros [X|X]; auto|]. destruct SA as [D S2 S3 S4], As as (A1 & A2 & A3). constructor.
      + unfold distinct. cbn [map]. constructor; auto. intros Hin. apply in_map_iff in Hin as (c & K & Hc). now apply (Nk c).
      + intros c q [<-|Hc] Hq; [destruct (A1 q Hq) as [(d & [->|Hd] & K) R]; (split; [|exact R]); [exists b; split; auto; now left|exists d; split; auto; now right]|]. destruct (S2 c q Hc Hq) as [(d & Hd & K) R]. split; auto. exists d. split; auto. now right.
      + intros c u x [<-|Hc]; [auto|now apply S3].
      + intros c l [<-|Hc]; [auto|now apply S4].
  Qed.

  Theorem update_iff a' i : let b := im_clean a' in ~ In (hash_im b) (map hash_im A) -> hash_im b <> i ->
    acceptable [OUpdate a' i] <->
    exists a, In a A /\ hash_im a = i /\ placed st (im_file b) /\
      (forall c, In c A -> c <> a -> n_key (im_name c) <> n_key (im_name b)) /\
      art_sound prefix (fun c => c = b \/ In c A /\ c <> a) b /\
      (n_key (im_name b) = n_key (im_name a) \/ forall c, In c A -> c <> a -> ~ links_name c (im_name a)).
  Proof.
    cbv zeta. set (b := im_clean a'). intros Nb Ni. unfold SpecAccept.acceptable. cbn [map op_clean flat_map ids_in app]. fold b.
    assert (Ap : forall B, applied [OUpdate a' i] A B <-> forall x, In x B <-> x = b \/ In x A /\ hash_im x <> i).
    { intros B. unfold SpecAgain.applied. cbn [map op_clean]. fold b.
      assert (E : forall x, (~ taken hash_im [OUpdate b i] (hash_im x) /\ (last_stored hash_im [OUpdate b i] (hash_im x) x \/ ~ stored hash_im [OUpdate b i] (hash_im x) /\ In x A)) <-> x = b \/ In x A /\ hash_im x <> i).
      { intros x. rewrite taken_one, last_one, stored_one. assert (Nn : ~ noop hash_im (OUpdate b i)) by (intros [y Y]; injection Y as -> ->; now apply Ni). split.
        - intros (T & [[So _]|[_ Hx]]); [apply stores_cases in So; auto|]. right. split; auto. intros <-. apply T. split; [left; now exists b|exact Nn].
        - intros [->|[Hx Ne]].
          + split; [intros [T _]; apply targets_cases in T; congruence|]. left. split; auto. right. now exists i.
          + split; [intros [T _]; apply targets_cases in T; congruence|]. right. split; auto. intros (y & So & Ey). apply stores_cases in So. subst y. apply Nb. rewrite Ey. now apply in_map. }
      split; intros X x; rewrite (X x); [apply E|symmetry; apply E]. }
    split.
    - intros (_ & P & F & B & X & SB). inversion F as [|? ? F1 _]; subst. cbn [fits] in F1. apply in_map_iff in F1 as (a & Ha & HaA). exists a. split; auto. split; auto.
      split; [apply (P _ b (or_introl eq_refl)); right; now exists i|]. rewrite Ap in X.
      assert (NE : forall c, In c A -> c <> a -> In c B) by (intros c Hc Ne; apply X; right; split; auto; intros E; apply Ne; apply hash_in; auto; congruence).
      assert (Hb : In b B) by (apply X; now left). destruct SB as [D S2 S3 S4].
      assert (KB : forall c d, In c B -> In d B -> n_key (im_name c) = n_key (im_name d) -> c = d).
      { clear -D. unfold distinct in D. induction B as [|x l IH]; cbn [map] in *; [intros c d []|]. inversion D as [|? ? N1 N2]; subst. intros c d [->|Hc] [->|Hd] K; auto.
        - exfalso. apply N1. rewrite K. apply in_map_iff. eauto.
        - exfalso. apply N1. rewrite <- K. apply in_map_iff. eauto. }
      split; [|split].
      + intros c Hc Ne K. assert (c = b) as -> by (apply KB; auto). apply Nb. now apply in_map.
      + split; [|split; [intros Hd u x; now apply S3|intros l; now apply S4]]. intros q Hq. destruct (S2 b q Hb Hq) as [(c & Hc & K) R]. split; auto. exists c. split; auto.
        apply X in Hc as [->|[Hc Nc]]; auto. right. split; auto. intros ->. congruence.
      + destruct (list_eq_dec N.eq_dec (n_key (im_name b)) (n_key (im_name a))) as [E|Ne]; [now left|right]. intros c Hc Nc (q & Hq & K).
        destruct (S2 c q (NE c Hc Nc) Hq) as [(d & Hd & Kd) _]. apply X in Hd as [->|[Hd Nd]]; [congruence|]. apply Nd. rewrite <- Ha. f_equal. apply key_in; auto. congruence.
    - intros (a & Ha & Hi & P & Nk & As & Ol). split; [constructor; [intros [E|[]]; congruence|repeat constructor; intros []]|].
      split; [intros o x [<-|[]] So; apply stores_cases in So; now subst|]. split; [repeat constructor; cbn [fits]; rewrite <- Hi; now apply in_map|].
      pose proof Ha as HaA. apply in_split in Ha as (l & r & El). exists (b :: l ++ r).
      assert (HB : forall x, In x (l ++ r) <-> In x A /\ x <> a).
      { pose proof NA as N. rewrite El in N. rewrite map_app in N. cbn [map] in N. apply NoDup_remove_2 in N. intros x. rewrite El, !in_app_iff. cbn [In]. split.
        - intros Hx. split; [tauto|]. intros ->. apply N. rewrite <- map_app. apply in_map, in_app_iff, Hx.
        - intros [[Hx|[Hx|Hx]] Ne]; auto. subst x. congruence. }
      split.
      { apply (proj2 (Ap (b :: l ++ r))). intros x. cbn [In]. rewrite HB. split.
        - intros [<-|[Hx Ne]]; auto. right. split; auto. intros E. apply Ne. apply hash_in; auto. congruence.
        - intros [->|[Hx Ne]]; auto. right. split; auto. intros ->. congruence. }
      destruct As as (A1 & A2 & A3). constructor.
      + pose proof (ss_distinct _ _ SA) as D. unfold distinct in *. rewrite El, map_app in D. cbn [map] in D. apply NoDup_remove_1 in D. rewrite <- map_app in D. cbn [map]. constructor; auto.
        intros Hin. apply in_map_iff in Hin as (c & K & Hc). apply HB in Hc as [Hc Nc]. now apply (Nk c).
      + intros c q [<-|Hc] Hq.
        * destruct (A1 q Hq) as [(d & Hd & K) R]. split; auto. exists d. split; auto. cbn [In]. rewrite HB. destruct Hd as [->|Hd]; auto.
        * apply HB in Hc as [Hc Nc]. destruct (ss_links _ _ SA c q Hc Hq) as [(d & Hd & Kd) R]. split; auto.
          destruct (list_eq_dec N.eq_dec (n_key (im_name d)) (n_key (im_name a))) as [E|Ne].
          -- destruct Ol as [Ol|Ol]; [exists b; split; [now left|congruence]|]. exfalso. apply (Ol c Hc Nc). exists q. split; auto. congruence.
          -- exists d. split; auto. right. apply HB. split; auto. intros ->. congruence.
      + intros c u x [<-|Hc]; [auto|]. apply HB in Hc as [Hc _]. now apply (ss_done _ _ SA).
      + intros c u [<-|Hc]; [auto|]. apply HB in Hc as [Hc _]. now apply (ss_text _ _ SA).
  Qed.

  Theorem delete_iff n i : acceptable [ODelete n i] <->
    exists a, In a A /\ hash_im a = i /\ forall b, In b A -> b <> a -> ~ links_name b (im_name a).
  Proof.
    unfold SpecAccept.acceptable. cbn [map op_clean flat_map ids_in app].
    assert (Ap : forall B, applied [ODelete n i] A B <-> forall x, In x B <-> In x A /\ hash_im x <> i).
    { intros B. unfold SpecAgain.applied. cbn [map op_clean].
      assert (E : forall x, (~ taken hash_im [ODelete n i] (hash_im x) /\ (last_stored hash_im [ODelete n i] (hash_im x) x \/ ~ stored hash_im [ODelete n i] (hash_im x) /\ In x A)) <-> In x A /\ hash_im x <> i).
      { intros x. rewrite taken_one, last_one, stored_one. split.
        - intros (T & [[So _]|[_ Hx]]); [now apply stores_cases in So|]. split; auto. intros <-. apply T. split; [right; now exists n|]. intros [y Y]. discriminate Y.
        - intros [Hx Ne]. split; [intros [T _]; apply targets_cases in T; congruence|]. right. split; auto. intros (y & So & _). now apply stores_cases in So. }
      split; intros X x; rewrite (X x); [apply E|symmetry; apply E]. }
    split.
    - intros (_ & _ & F & B & X & SB). inversion F as [|? ? F1 _]; subst. cbn [fits] in F1. apply in_map_iff in F1 as (a & Ha & HaA). exists a. split; auto. split; auto.
      rewrite Ap in X. intros b Hb Ne (q & Hq & K). assert (HB : In b B) by (apply X; split; auto; intros E; apply Ne; apply hash_in; auto; congruence).
      destruct (ss_links _ _ SB b q HB Hq) as [(d & Hd & Kd) _]. apply X in Hd as [Hd Nd]. apply Nd. rewrite <- Ha. f_equal. apply key_in; auto. congruence.
    - intros (a & Ha & Hi & Nl). split; [repeat constructor; intros []|]. split; [intros o x [<-|[]] So; now apply stores_cases in So|].
      split; [repeat constructor; cbn [fits]; rewrite <- Hi; now apply in_map|].
      apply in_split in Ha as (l & r & El). exists (l ++ r).
      assert (HB : forall x, In x (l ++ r) <-> In x A /\ hash_im x <> i).
      { pose proof NA as N. rewrite El in N. rewrite map_app in N. cbn [map] in N. apply NoDup_remove_2 in N. intros x. rewrite El, !in_app_iff. cbn [In]. split.
        - intros Hx. split; [tauto|]. intros E. apply N. rewrite Hi, <- E, <- map_app. apply in_map, in_app_iff, Hx.
        - intros [[Hx|[Hx|Hx]] Ne]; auto. subst x. congruence. }
      split; [apply (proj2 (Ap (l ++ r))); exact HB|]. assert (In a A) as HaA by (rewrite El; apply in_or_app; right; now left). constructor.
      + pose proof (ss_distinct _ _ SA) as D. unfold distinct in *. rewrite El, map_app in D. cbn [map] in D. rewrite map_app. eapply NoDup_remove_1. exact D.
      + intros b q Hb Hq. apply HB in Hb as [Hb Nb]. destruct (ss_links _ _ SA b q Hb Hq) as [(d & Hd & Kd) R]. split; auto. exists d. split; auto. apply HB. split; auto. intros E.
        assert (d = a) as -> by (apply hash_in; auto; congruence). apply (Nl b Hb); [intros ->; congruence|]. exists q. auto.
      + intros b u x Hb. apply HB in Hb as [Hb _]. now apply (ss_done _ _ SA).
      + intros b x Hb. apply HB in Hb as [Hb _]. now apply (ss_text _ _ SA).
  Qed.
End One.

(** What the errors of a loaded project say. *)
Section Loaded.
  Variable M : num.
  Variable topo : graph -> option (list nat).
  Variable TC : topo_ok topo.
  Variable H : Type.
  Variable hash_im : art_im -> H.
  Variable path_str : path -> str.
  Variable yaml : str -> option (option str * option RawNames.names_val).
  Variables parse_toml parse_json : str -> res (list (name * art_raw)).
  Variable PO : parser_ok parse_toml.
  Variable PJ : parser_ok parse_json.
  Variable parse_msg : path -> str -> str.
  Variable prefix : str.
  Variable settings_path : path.
  Variable url_error : option str.

  Theorem loads_sound n afs cfs c p : walk_lints_ok afs -> walk_lints_ok cfs ->
    loads path_str yaml parse_toml parse_json parse_msg prefix M topo H hash_im settings_path url_error n afs cfs (Ok (inl (c, p))) ->
    ls_error c = [] <-> stored_sound prefix (stored_form p) /\ url_error = None.
  Proof.
    intros W1 W2 (arts & refs & la & lc & arrived & R1 & R2 & P & E).
    pose proof (run_arts_wf path_str yaml parse_toml parse_json parse_msg prefix PO PJ n afs arts la R1) as Wa.
    pose proof (run_refs_wf path_str 4 cfs refs lc R2) as Wr.
    assert (AE : Forall (fun x => is_error x = true) arrived).
    { eapply Permutation_Forall; [apply Permutation_sym, P|]. apply Forall_app. split; [eapply ref_lints_error; eauto|]. apply Forall_app. split; [eapply art_lints_error; eauto|apply collect_error]. }
    destruct (finish_loaded M topo TC H hash_im path_str prefix settings_path url_error arrived arts refs la lc c p Wa Wr AE P (eq_sym E)) as ((_ & _ & D & NR) & Lk & Sp & out & B & Ep).
    unfold Load.finish in E. assert (CE : ls_error (categorize no_lints arrived) = arrived) by (rewrite categorize_ok; cbn [ls_error no_lints app]; now apply filter_all).
    rewrite CE in E. destruct arrived as [|x0 arrived]; [|discriminate E]. cbn [is_nil negb] in E. rewrite B in E. cbn [res_bind] in E.
    set (code := snd (join_locations refs)) in *. set (p0 := mkProject out code prefix settings_path url_error) in *. unfold lint_project, lint_other in E.
    destruct (lint_text_refs path_str p0) as [l| |] eqn:L; [|discriminate E|discriminate E]. cbn [res_bind] in E.
    assert (Ec : c = sort_lints (categorize (categorize no_lints []) (lint_errors path_str p0 ++ l ++ lint_code_impls path_str p0 ++ lint_settings path_str p0))) by congruence. subst c.
    rewrite categorize_ok. cbn [categorize fold_left ls_error ls_other no_lints app]. unfold sort_lints. cbn [ls_error]. rewrite sort_dedup_nil.
    assert (FE : filter is_error (lint_errors path_str p0 ++ l ++ lint_code_impls path_str p0 ++ lint_settings path_str p0) = lint_errors path_str p0 ++ lint_settings path_str p0).
    { rewrite !filter_app. rewrite (filter_all is_error (lint_errors path_str p0)) by apply lint_errors_level. rewrite (filter_none is_error l) by (eapply refs_level; eauto).
      rewrite (filter_none is_error (lint_code_impls path_str p0)) by apply code_level. rewrite (filter_all is_error (lint_settings path_str p0)) by apply settings_level. reflexivity. }
    rewrite FE. clear FE. pose proof (errors_sound M topo TC H hash_im path_str arts code out prefix settings_path url_error Wa D B) as ES. fold p0 in ES.
    assert (BS : lint_settings path_str p0 = [] <-> url_error = None) by (unfold lint_settings; cbn [pr_url_error p0]; destruct url_error; split; congruence).
    assert (SS : stored_sound prefix (stored_form p) <-> stored_sound prefix (map im_clean arts)).
    { assert (Dc : distinct (map im_clean arts)) by (unfold distinct in *; rewrite map_map; exact D).
      split; intros X; eapply sound_same; eauto; [intros a; split; apply Permutation_in; auto using Permutation_sym|intros a; split; apply Permutation_in; auto using Permutation_sym|apply (lo_distinct _ _ Lk)]. }
    rewrite SS, <- ES, <- BS. split; [intros X; apply app_eq_nil in X; exact X|intros [-> ->]; reflexivity].
  Qed.
End Loaded.
