(** The order of the operations of a request does not matter when none of them is an update that
    changes nothing. *)
From Coq Require Import Permutation Lia.
From Verif Require Import Base BaseFacts Name NameFacts Artifact SpecGraph SpecLinks Stored ProjectFacts Lint SpecLint LintFacts LintThms Source
  Load LoadFacts SpecLoad CheckFacts DeterFacts Disk Walk Modify SpecModify OpFacts PureFacts.

(** The same kind of result; accepted requests give the same artifacts. *)
Definition same_outcome {M H} (r r' : res (mkind * lints + lints * project M H)) : Prop :=
  match r, r' with
  | Ok (inl (k, _)), Ok (inl (k', _)) => k = k'
  | Ok (inr (_, q)), Ok (inr (_, q')) => Permutation (stored_form q) (stored_form q')
  | _, _ => False
  end.

Section Order.
  Variable path_str : path -> str.
  Variable M : num.
  Variable topo : graph -> option (list nat).
  Variable TC : topo_ok topo.
  Variable H : Type.
  Variable heqb : H -> H -> bool.
  Variable heqb_iff : forall a b, heqb a b = true <-> a = b.
  Variable hash_im : art_im -> H.
  Variable debug_im : art_im -> str.
  Variable st : settings.
  Notation pure := (modify_pure path_str M topo H heqb hash_im debug_im st).
  Notation overlap := (check_overlap H heqb hash_im []).
  Notation perform := (perform_operations H heqb hash_im debug_im).
  Notation ids_of := (ids_of M H heqb hash_im).
  Notation get := (im_get heqb).
  Notation pk := (pkeys (fun x : H => x)).
  Notation clean := (map (op_clean H)).

  Definition last_lints (p : project M H) (arts : list art_im) (out : list (name * artifact M H)) : list lint :=
    flat_map (art_dup_lints path_str) (j_dups (join_artifacts_raw arts)) ++
    lint_errors path_str (mkProject out (pr_code p) (pr_prefix p) (pr_settings_path p) (pr_url_error p)).

  (** The stages of a request. *)
  Lemma pure_stages c p ops : exists e m out, perform (clean ops) (ids_of (pr_arts p)) = (e, m) /\ build M topo H hash_im (map snd m) (pr_code p) = Ok out /\
    match pure (inl (c, p)) ops with
    | Ok (inl (KLoad, _)) => ls_error c <> []
    | Ok (inl (KPaths, _)) => ls_error c = [] /\ ~ (overlap (clean ops) = [] /\ check_paths path_str H st (clean ops) = [])
    | Ok (inl (KHash, _)) => ls_error c = [] /\ (overlap (clean ops) = [] /\ check_paths path_str H st (clean ops) = []) /\ e <> []
    | Ok (inl (KModify, _)) => ls_error c = [] /\ (overlap (clean ops) = [] /\ check_paths path_str H st (clean ops) = []) /\ e = [] /\ filter is_error (last_lints p (map snd m) out) <> []
    | Ok (inr (_, q)) => ls_error c = [] /\ (overlap (clean ops) = [] /\ check_paths path_str H st (clean ops) = []) /\ e = [] /\ filter is_error (last_lints p (map snd m) out) = [] /\
        q = mkProject out (pr_code p) (pr_prefix p) (pr_settings_path p) (pr_url_error p)
    | _ => False
    end.
  Proof.
    destruct (perform (clean ops) (ids_of (pr_arts p))) as [e m] eqn:Em. destruct (build_total M topo H hash_im TC (map snd m) (pr_code p)) as (out & B & _).
    exists e, m, out. split; auto. split; auto. unfold modify_pure. destruct (ls_error c) as [|x xs] eqn:Ec; [|cbn [is_nil negb failed]; discriminate]. cbn [is_nil negb].
    unfold add_errors. cbn [ls_error ls_other]. rewrite Ec. cbn [app].
    destruct (overlap (clean ops)) as [|x xs]; [|cbn [is_nil negb failed]; split; auto; intros [X _]; discriminate X]. cbn [is_nil negb app].
    destruct (check_paths path_str H st (clean ops)) as [|x xs]; [|cbn [is_nil negb failed]; split; auto; intros [_ X]; discriminate X]. cbn [is_nil negb app].
    rewrite Em. cbn [app]. destruct e as [|x xs]; [|cbn [is_nil negb failed]; split; auto; split; auto; discriminate]. cbn [is_nil negb]. rewrite B. cbn [res_bind].
    rewrite categorize_ok. cbn [ls_error ls_other app]. fold (last_lints p (map snd m) out).
    destruct (filter is_error (last_lints p (map snd m) out)) as [|x xs] eqn:El; cbn [is_nil negb failed]; repeat (split; auto); discriminate.
  Qed.

  Lemma codes_same_refl code : codes_same code code.
  Proof. intros n. destruct (im_get name_eqb n code); auto. split; auto. Qed.

  Lemma last_perm p arts arts' out out' : Forall im_wf arts -> Permutation arts arts' ->
    build M topo H hash_im arts (pr_code p) = Ok out -> build M topo H hash_im arts' (pr_code p) = Ok out' ->
    filter is_error (last_lints p arts out) = [] -> filter is_error (last_lints p arts' out') = [].
  Proof.
    intros W P B B' E. unfold last_lints in *. rewrite filter_app in *. apply app_eq_nil in E as [E1 E2].
    assert (W' : Forall im_wf arts') by (eapply Permutation_Forall; eauto).
    assert (Dn : j_dups (join_artifacts_raw arts) = []) by (destruct (j_dups (join_artifacts_raw arts)) as [|[[n a] b] l]; auto; discriminate E1).
    assert (D : distinct arts) by (apply distinct_iff; auto; now apply dups_none_iff).
    pose proof (perm_distinct arts arts' D P) as D'.
    assert (Dn' : j_dups (join_artifacts_raw arts') = []) by (apply dups_none_iff; now apply distinct_iff).
    rewrite Dn'. cbn [flat_map filter app].
    rewrite (filter_all is_error) in E2 by apply lint_errors_level. rewrite (filter_all is_error) by apply lint_errors_level.
    destruct (lint_errors path_str (mkProject out' _ _ _ _)) as [|x l] eqn:Ex; auto. exfalso.
    assert (S1 : entries_same out out') by (intros n a Hin; exact (build_perm M topo H hash_im TC arts arts' _ _ out out' W D P (codes_same_refl _) B B' n a Hin)).
    assert (S2 : entries_same out' out) by (intros n a Hin; exact (build_perm M topo H hash_im TC arts' arts _ _ out' out W' D' (Permutation_sym P) (codes_same_refl _) B' B n a Hin)).
    assert (X : In x (lint_errors path_str (mkProject out (pr_code p) (pr_prefix p) (pr_settings_path p) (pr_url_error p)))); [|rewrite E2 in X; destruct X].
    refine (tr_errors out' out S2 S1 path_str (mkProject out' (pr_code p) (pr_prefix p) (pr_settings_path p) (pr_url_error p)) (mkProject out (pr_code p) (pr_prefix p) (pr_settings_path p) (pr_url_error p)) eq_refl eq_refl eq_refl x _). rewrite Ex. now left.
  Qed.

  Lemma clean_perm ops ops' : Permutation ops ops' -> Permutation (clean ops) (clean ops').
  Proof. apply Permutation_map. Qed.
  Lemma paths_perm ops ops' : Permutation ops ops' -> check_paths path_str H st ops = [] -> check_paths path_str H st ops' = [].
  Proof.
    intros P E. unfold check_paths in *. rewrite flat_map_nil in *. intros o Ho. apply E. now apply (Permutation_in _ (Permutation_sym P)).
  Qed.

  (** Without no-op updates everything but the listing of the artifacts is the same. *)
  Lemma quiet_order p ops ops' : loaded_ok hash_im p -> Forall op_wf ops -> Permutation ops ops' -> (forall o, In o (clean ops) -> ~ noop hash_im o) ->
    overlap (clean ops) = [] -> fst (perform (clean ops) (ids_of (pr_arts p))) = [] ->
    overlap (clean ops') = [] /\ fst (perform (clean ops') (ids_of (pr_arts p))) = [] /\
    Permutation (map snd (snd (perform (clean ops) (ids_of (pr_arts p))))) (map snd (snd (perform (clean ops') (ids_of (pr_arts p))))) /\
    Forall im_wf (map snd (snd (perform (clean ops) (ids_of (pr_arts p))))).
  Proof.
    intros L W P Nn Ov Pe. pose proof (clean_perm ops ops' P) as Pc. pose proof (ids_nodup M H heqb heqb_iff hash_im (pr_arts p)) as N0.
    assert (W' : Forall op_wf ops') by (eapply Permutation_Forall; eauto).
    assert (Nn' : forall o, In o (clean ops') -> ~ noop hash_im o) by (intros o Ho; apply Nn; now apply (Permutation_in _ (Permutation_sym Pc))).
    pose proof (proj1 (accepted_iff heqb heqb_iff hash_im debug_im (clean ops) _ N0 Nn) (conj Ov Pe)) as [ND Al].
    assert (X : overlap (clean ops') = [] /\ fst (perform (clean ops') (ids_of (pr_arts p))) = []).
    { apply (accepted_iff heqb heqb_iff hash_im debug_im (clean ops') _ N0 Nn'). split; [|eapply Permutation_Forall; eauto].
      eapply Permutation_NoDup; [|exact ND]. now apply Permutation_flat_map. }
    destruct X as [Ov' Pe']. split; auto. split; auto.
    destruct (perform (clean ops) (ids_of (pr_arts p))) as [e m] eqn:Em. destruct (perform (clean ops') (ids_of (pr_arts p))) as [e' m'] eqn:Em'. cbn [fst snd] in *. subst e e'.
    destruct (entries_ok M H heqb heqb_iff hash_im debug_im p ops m L W Ov Em) as [Nm Ent].
    destruct (entries_ok M H heqb heqb_iff hash_im debug_im p ops' m' L W' Ov' Em') as [Nm' Ent'].
    split; [|apply Forall_forall; intros a Ha; apply in_map_iff in Ha as ([i b] & <- & Hb); apply (Ent i b Hb)].
    apply Permutation_map.
    assert (G : forall i, get i m = get i m').
    { apply (order_irrelevant heqb heqb_iff hash_im debug_im (clean ops) (clean ops') _ m m' N0 Pc); auto.
      (* two operations do not store under one id *)
      intros o o' a b Ho Ho' Sa Sb Eab. clear -ND Ho Ho' Sa Sb Eab. induction (clean ops) as [|x l IH]; [destruct Ho|]. cbn [flat_map] in ND. apply nodup_app_inv in ND as (_ & ND & Dj).
      assert (Y : forall z c, stores z c -> In z l -> In (hash_im c) (flat_map (ids_in hash_im) l)) by (intros z d Sz Hz; apply in_flat_map; exists z; split; auto; now apply stores_id).
      destruct Ho as [->|Ho], Ho' as [->|Ho'].
      - apply stores_cases in Sa, Sb. destruct o' as [d|d i|n i]; [congruence|congruence|destruct Sa].
      - exfalso. apply (Dj (hash_im a)); [now apply stores_id|]. rewrite Eab. eapply Y; eauto.
      - exfalso. apply (Dj (hash_im b)); [now apply stores_id|]. rewrite <- Eab. eapply Y; eauto.
      - auto. }
    assert (Y : forall (u v : ids_map H), NoDup (pk u) -> NoDup (pk v) -> (forall i, get i u = get i v) -> forall e, In e u -> In e v).
    { intros u v Nu Nv Eg [i a] Hin. apply (in_get heqb (fun x => x) (heqb_id heqb heqb_iff)) in Hin; auto. rewrite Eg in Hin.
      apply (get_some_in heqb (fun x => x) (heqb_id heqb heqb_iff)) in Hin as (k & Ek & Hk). cbv beta in Ek. now subst k. }
    apply NoDup_Permutation; [unfold pkeys in Nm; eapply NoDup_map_inv; exact Nm|unfold pkeys in Nm'; eapply NoDup_map_inv; exact Nm'|]. intros e. split; apply Y; auto.
  Qed.

  Theorem pure_order c p ops ops' : loaded_ok hash_im p -> Forall op_wf ops -> Permutation ops ops' -> (forall o, In o (clean ops) -> ~ noop hash_im o) ->
    same_outcome (pure (inl (c, p)) ops) (pure (inl (c, p)) ops').
  Proof.
    intros L W P Nn. pose proof (clean_perm ops ops' P) as Pc.
    assert (W' : Forall op_wf ops') by (eapply Permutation_Forall; eauto).
    assert (Nn' : forall o, In o (clean ops') -> ~ noop hash_im o) by (intros o Ho; apply Nn; now apply (Permutation_in _ (Permutation_sym Pc))).
    pose proof (ids_nodup M H heqb heqb_iff hash_im (pr_arts p)) as N0.
    assert (Bz : forall l, (forall o, In o (clean l) -> ~ noop hash_im o) -> overlap (clean l) = [] <-> NoDup (flat_map (ids_in hash_im) (clean l))).
    { intros l Nl. rewrite (overlap_iff heqb heqb_iff hash_im). unfold busy. replace (filter _ (clean l)) with (clean l); [reflexivity|]. symmetry. apply filter_all. apply Forall_forall. intros o Ho.
      apply Bool.negb_true_iff. destruct (is_noop heqb hash_im o) eqn:Eo; auto. exfalso. apply (Nl o Ho). now apply (noop_iff heqb heqb_iff hash_im). }
    assert (Ov : overlap (clean ops) = [] <-> overlap (clean ops') = []).
    { rewrite (Bz ops Nn), (Bz ops' Nn'). split; apply Permutation_NoDup; apply Permutation_flat_map; auto using Permutation_sym. }
    assert (Cp : check_paths path_str H st (clean ops) = [] <-> check_paths path_str H st (clean ops') = []) by (split; apply paths_perm; auto using Permutation_sym).
    destruct (pure_stages c p ops) as (e & m & out & Em & B & X). destruct (pure_stages c p ops') as (e' & m' & out' & Em' & B' & X').
    assert (Q : overlap (clean ops) = [] -> e = [] -> e' = [] /\ Permutation (map snd m) (map snd m') /\ Forall im_wf (map snd m)).
    { intros O ->. destruct (quiet_order p ops ops' L W P Nn O) as (_ & Q1 & Q2 & Q3); [now rewrite Em|]. rewrite Em, Em' in *. auto. }
    assert (Q' : overlap (clean ops') = [] -> e' = [] -> e = [] /\ Permutation (map snd m') (map snd m) /\ Forall im_wf (map snd m')).
    { intros O ->. destruct (quiet_order p ops' ops L W' (Permutation_sym P) Nn' O) as (_ & Q1 & Q2 & Q3); [now rewrite Em'|]. rewrite Em, Em' in *. auto. }
    assert (Ls : overlap (clean ops) = [] -> e = [] -> (filter is_error (last_lints p (map snd m) out) = [] <-> filter is_error (last_lints p (map snd m') out') = [])).
    { intros O Ee. destruct (Q O Ee) as (Ee' & Pm & Wm). destruct (Q' (proj1 Ov O) Ee') as (_ & _ & Wm'). split; eapply last_perm; eauto using Permutation_sym. }
    assert (St : forall c' q, pure (inl (c, p)) ops = Ok (inr (c', q)) -> stored_form q = map snd m).
    { intros c' q Eq. destruct (pure_accepts path_str M topo TC H heqb heqb_iff hash_im debug_im st c p ops c' q L W Eq) as (_ & _ & _ & _ & m0 & Em0 & _ & _ & _ & S0 & _). congruence. }
    assert (St' : forall c' q, pure (inl (c, p)) ops' = Ok (inr (c', q)) -> stored_form q = map snd m').
    { intros c' q Eq. destruct (pure_accepts path_str M topo TC H heqb heqb_iff hash_im debug_im st c p ops' c' q L W' Eq) as (_ & _ & _ & _ & m0 & Em0 & _ & _ & _ & S0 & _). congruence. }
    unfold same_outcome.
    destruct (pure (inl (c, p)) ops) as [[[[] l]|[c1 q]]| |]; try contradiction; destruct (pure (inl (c, p)) ops') as [[[[] l']|[c1' q']]| |]; try contradiction; try reflexivity; try (exfalso; tauto).
    rewrite (St c1 q eq_refl), (St' c1' q' eq_refl). apply Q; tauto.
  Qed.

  (** Without no-op updates the new set is easy to describe. *)
  Theorem plain_set c p ops c' q : loaded_ok hash_im p -> NoDup (map hash_im (stored_form p)) -> Forall op_wf ops -> (forall o, In o (clean ops) -> ~ noop hash_im o) ->
    pure (inl (c, p)) ops = Ok (inr (c', q)) ->
    forall a, In a (stored_form q) <->
      (exists o, In o (clean ops) /\ stores o a) \/
      (In a (stored_form p) /\ forall o, In o (clean ops) -> ~ targets o (hash_im a) /\ forall b, stores o b -> hash_im b <> hash_im a).
  Proof.
    intros L Ni W Nn Ep a. destruct (pure_accepts path_str M topo TC H heqb heqb_iff hash_im debug_im st c p ops c' q L W Ep) as (_ & _ & Ov & _ & m & Em & _).
    pose proof (ids_nodup M H heqb heqb_iff hash_im (pr_arts p)) as N0.
    assert (ND : NoDup (flat_map (ids_in hash_im) (clean ops))).
    { apply (accepted_iff heqb heqb_iff hash_im debug_im (clean ops) _ N0 Nn). rewrite Em. auto. }
    rewrite (proj2 (pure_set path_str M topo TC H heqb heqb_iff hash_im debug_im st c p ops c' q L Ni W Ep) a).
    assert (Uniq : forall o o' i, In o (clean ops) -> In o' (clean ops) -> In i (ids_in hash_im o) -> In i (ids_in hash_im o') -> o = o').
    { clear -ND. induction (clean ops) as [|x l IH]; [intros o o' i []|]. cbn [flat_map] in ND. apply nodup_app_inv in ND as (_ & ND & Dj).
      intros o o' i [->|Ho] [->|Ho'] H1 H2; auto; [| |now apply (IH ND o o' i)].
      - exfalso. apply (Dj i H1), in_flat_map. eauto.
      - exfalso. apply (Dj i H2), in_flat_map. eauto. }
    assert (Excl : forall o i, In o (clean ops) -> targets o i -> forall b, stores o b -> hash_im b <> i).
    { intros o i Ho Tg b Sb E. apply stores_cases in Sb. apply targets_cases in Tg. destruct o as [d|d j|n j]; [destruct Tg| |destruct Sb]. subst. apply (Nn _ Ho). now exists b. }
    split.
    - intros [Nt [(l & o & r & El & So & _)|[Ns Hp]]].
      + left. exists o. split; auto. rewrite El. apply in_or_app. right. now left.
      + right. split; auto. intros o Ho. split.
        * intros Tg. apply Nt. exists o. split; auto. split; auto.
        * intros b Sb Eb. apply Ns. exists o, b. auto.
    - intros [(o & Ho & So)|[Hp Nt]].
      + split.
        * intros (o' & Ho' & Tg & _). assert (o' = o) as -> by (apply (Uniq o' o (hash_im a)); auto; [now apply targets_id|now apply stores_id]). now apply (Excl o (hash_im a) Ho Tg a So).
        * left. apply in_split in Ho as (l & r & El). exists l, o, r. split; auto. split; auto. split; auto. intros o' b Ho' Sb Eb.
          rewrite El in ND. rewrite flat_map_app in ND. apply nodup_app_inv in ND as (_ & ND & _). cbn [flat_map] in ND. apply nodup_app_inv in ND as (_ & _ & Dj).
          apply (Dj (hash_im a)); [now apply stores_id|]. apply in_flat_map. exists o'. split; auto. rewrite <- Eb. now apply stores_id.
      + split.
        * intros (o & Ho & Tg & _). now apply (Nt o Ho).
        * right. split; auto. intros (o & b & Ho & Sb & Eb). now apply (proj2 (Nt o Ho) b).
  Qed.
End Order.
