(** Loaded projects can be sent. *)
From Coq Require Import Permutation Sorted Lia ZifyBool.
From Verif Require Import Api Render SpecRender SpecExport ExportFacts.
From Verif Require Import Base BaseFacts Regex Name SpecName NameFacts Family FamilyFacts SubFacts RawNamesFacts Artifact SpecGraph SpecLinks BuildFacts LinkFacts ProjectFacts CompletionThms Stored Markdown Lint SpecLint LintFacts LintThms Source SpecJoin JoinFacts JoinThms
  Pool PoolFacts Load LoadFacts SpecLoad CheckFacts ReadThms RowFacts DeterFacts Topo Modify SpecModify OpFacts PureFacts ReadyFacts Json SpecJson Web WireJson SpecWire WireFacts WebSave System.
Open Scope nat_scope.

Lemma sub_back z : valid_sub (s_raw z) -> s_key z = upper (s_raw z) -> sub_wf z.
Proof. intros V K. apply sub_accept in V as (n & E). unfold sub_wf. destruct (sub_ok _ _ E) as [-> _]. rewrite E. f_equal. destruct z as [r k]. cbn [s_raw s_key] in *. subst k. reflexivity. Qed.
Lemma code_set_sort c : code_set c -> code_set (code_sort c).
Proof.
  intros [S N]. unfold code_set, code_sort. cbn [ic_secondary]. split; [intros z l Hz; apply isort_in in Hz; eauto|]. eapply Permutation_NoDup; [apply Permutation_map, isort_perm|exact N].
Qed.
Lemma keys_nk l : Forall name_wf l -> NoDup (map n_key l) -> NoDup (map nk l).
Proof. intros _. apply nodup_inj. intros x y _ _ E. unfold nk in E. congruence. Qed.

Section Send.
  Variable M : num.
  Variable topo : graph -> option (list nat).
  Variable TC : topo_ok topo.
  Variable H : Type.
  Variable hash_im : art_im -> H.
  Lemma joined_code refs : Forall ref_wf refs -> (forall i j, ~ repeated refs i j) -> forall n c, In (n, c) (snd (join_locations refs)) -> name_wf n /\ code_set c.
  Proof.
    intros Wr NR n c Hin. pose proof (proj2 (nodup_repeated refs Wr) NR) as ND. split; [exact (code_wf (fun _ => []) refs Wr NR n c Hin)|].
    destruct (out_entry refs n c ND Hin) as (_ & _ & S & N & _). split; [|exact N]. intros z l Hz. apply S in Hz as (r & Hr & _ & Es & _). rewrite Forall_forall in Wr. destruct (Wr r Hr) as [_ Ws]. apply Ws in Es. exact Es.
  Qed.
  Lemma built_sendable arts refs out prefix sp url : Forall im_wf arts -> distinct arts -> Forall ref_wf refs -> (forall i j, ~ repeated refs i j) ->
    build M topo H hash_im arts (snd (join_locations refs)) = Ok out ->
    sendable (project_sort M H (mkProject out (snd (join_locations refs)) prefix sp url)).
  Proof.
    intros W D Wr NR B. set (code := snd (join_locations refs)) in *. set (p0 := mkProject out code prefix sp url) in *.
    pose proof (proj2 (nodup_repeated refs Wr) NR) as ND.
    pose proof (built_wf M topo H hash_im TC arts code out W D B p0 eq_refl) as [A1 A2 A3].
    assert (Jc : forall n c, In (n, c) code -> name_wf n /\ code_set c) by (apply joined_code; auto).
    assert (E : forall n a, In (n, a) (pr_arts (project_sort M H p0)) -> exists a0, In (n, a0) out /\ a = art_sort M H a0).
    { intros n a Hin. cbn [project_sort pr_arts p0] in Hin. apply in_map_iff in Hin as ([m a0] & X & Hin). injection X as -> <-. exists a0. split; [|reflexivity]. now apply isort_in in Hin. }
    split.
    - intros n a Hin. destruct (E n a Hin) as (a0 & H0 & ->). split; [eauto|].
      destruct (build_entry M topo H hash_im TC arts code out W D B) as (gs & comp & _ & _ & Eo). pose proof H0 as H1. rewrite Eo in H1. apply in_map_iff in H1 as (x & X & Hx). injection X as En Ea.
      pose proof (proj1 (Forall_forall _ _) W x Hx) as Wx.
      assert (Nm : a_name a0 = n) by (subst a0; cbn [built a_name]; exact En).
      unfold art_set. cbn [art_sort a_name a_partof a_parts a_subnames a_impl]. rewrite Nm. split; [eauto|].
      split. { eapply name_set_perm; [apply isort_perm|]. rewrite <- Ea. cbn [built a_partof]. apply partof_set; cbn [fst snd]; [apply Wx|apply (clean_wf x Wx)]. }
      split.
      { eapply name_set_perm; [apply isort_perm|]. destruct (parts_exist M topo H hash_im TC arts code out W B n a0 H0) as [Np _].
        assert (Wp : Forall name_wf (a_parts a0)) by (apply Forall_forall; intros q Hq; pose proof (build_out M topo H hash_im TC arts code out W B) as O; apply (oo_parts _ O n a0 q H0 Hq)).
        split; [exact Wp|]. now apply keys_nk. }
      split. { intros z Hz. apply isort_in in Hz. destruct (A3 n a0 z H0 Hz) as [V K]. now apply sub_back. }
      split.
      { eapply Permutation_NoDup; [apply Permutation_map, isort_perm|]. rewrite <- Ea. cbn [built a_subnames]. unfold parse_subnames. apply (is_collect_nodup sub_eqb s_key sub_eqb_iff). }
      intros c Ec. destruct (a_impl a0) as [d|c0|] eqn:Ei; try discriminate Ec. injection Ec as <-. apply code_set_sort.
      destruct (impl_exact M topo H hash_im TC arts code out W D) with (a := x) as (art & Ha & _ & Ic & _); auto.
      { apply Forall_forall. intros [m c] Hm. apply (Jc m c Hm). } { now apply code_keys. }
      assert (Q : (im_name x, art) = (n, a0)) by (eapply (nodup_same (fun e : name * artifact M H => n_key (fst e))); [exact A2|exact Ha|exact H0|now rewrite <- En]).
      injection Q as _ ->. apply Ic in Ei as (_ & m & Hm & _). apply (Jc m c0 Hm).
    - cbn [project_sort pr_arts p0]. rewrite map_map. cbn [fst]. eapply Permutation_NoDup; [apply Permutation_map, isort_perm|exact A2].
    - intros n c Hin. cbn [project_sort pr_code p0] in Hin. apply in_map_iff in Hin as ([m c0] & X & Hin). injection X as -> <-. apply isort_in in Hin. destruct (Jc n c0 Hin). split; [assumption|now apply code_set_sort].
    - cbn [project_sort pr_code p0]. rewrite map_map. cbn [fst]. eapply Permutation_NoDup; [apply Permutation_map, isort_perm|]. now apply code_keys.
  Qed.

  Variable path_str : path -> str.
  Variable yaml : str -> option (option str * option RawNames.names_val).
  Variables parse_toml parse_json : str -> res (list (name * art_raw)).
  Variable PO : parser_ok parse_toml.
  Variable PJ : parser_ok parse_json.
  Variable parse_msg : path -> str -> str.
  Variable prefix : str.
  Variable settings_path : path.
  Variable url_error : option str.
  Theorem loads_sendable n afs cfs c p : walk_lints_ok afs -> walk_lints_ok cfs ->
    loads path_str yaml parse_toml parse_json parse_msg prefix M topo H hash_im settings_path url_error n afs cfs (Ok (inl (c, p))) -> sendable p.
  Proof.
    intros W1 W2 (arts & refs & la & lc & arrived & R1 & R2 & P & E).
    pose proof (run_arts_wf path_str yaml parse_toml parse_json parse_msg prefix PO PJ n afs arts la R1) as Wa.
    pose proof (run_refs_wf path_str 4 cfs refs lc R2) as Wr.
    assert (AE : Forall (fun x => is_error x = true) arrived).
    { eapply Permutation_Forall; [apply Permutation_sym, P|]. apply Forall_app. split; [eapply ref_lints_error; eauto|]. apply Forall_app. split; [eapply art_lints_error; eauto|apply collect_error]. }
    destruct (finish_loaded M topo TC H hash_im path_str prefix settings_path url_error arrived arts refs la lc c p Wa Wr AE P (eq_sym E)) as ((_ & _ & D & NR) & _ & _ & out & B & ->).
    apply (built_sendable arts refs out); auto.
  Qed.
End Send.

(** ** What a page knows of it (Web.v) *)
Definition seen {M : num} {H : Type} (w : w_art M H) : sart H := mkSart (wa_id w) (wa_name w) (wa_file w) (wa_partof w) (match wa_impl w with WDone d => Some d | _ => None end) (wa_text w).
Lemma seen_serve {M : num} {H : Type} enc sorted (a : artifact M H) w : same_art enc sorted a w -> seen w = serve enc a.
Proof.
  intros (E1 & E2 & E3 & E4 & _ & _ & E7 & E8 & _). unfold seen, serve. rewrite E1, E2, E3, E4, E7. f_equal. destruct (a_impl a), (wa_impl w); cbn [same_impl] in E8; try contradiction; congruence.
Qed.
Lemma wire_seen {M : num} {H : Type} enc (p : project M H) l : sendable p -> entries true n_raw (same_art enc true) (pr_arts p) l -> map (fun x => (fst x, seen (snd x))) l = wire M H enc p.
Proof.
  intros S (m & [P So] & F). unfold wire.
  assert (E : isort (fun a b => str_leb (n_raw (fst a)) (n_raw (fst b))) (pr_arts p) = m).
  { symmetry. apply (sorted_unique (fun a b : name * artifact M H => str_leb (n_raw (fst a)) (n_raw (fst b)))).
    - intros [n a] [n' a'] Ha Hb L1 L2. apply (Permutation_in _ (Permutation_sym P)) in Ha, Hb. unfold BaseFacts.le in L1, L2. cbn [fst] in L1, L2. pose proof (BaseFacts.str_leb_antisym _ _ L1 L2) as En.
      destruct (sd_arts p S n a Ha) as [Wn _], (sd_arts p S n' a' Hb) as [Wn' _]. unfold name_wf in Wn, Wn'. rewrite En in Wn. assert (n = n') by congruence. subst n'.
      apply (nodup_same (fun e : name * artifact M H => n_key (fst e)) (pr_arts p)); [apply S|exact Ha|exact Hb|reflexivity].
    - exact So.
    - apply (isort_sorted (fun a b : name * artifact M H => str_leb (n_raw (fst a)) (n_raw (fst b)))); [intros a b; apply BaseFacts.str_leb_total|intros a b c; apply BaseFacts.str_leb_trans].
    - eapply perm_trans; [apply Permutation_sym, P|apply isort_perm]. }
  rewrite E. clear -F. induction F as [|a b m l [E1 E2] F IH]; [reflexivity|]. cbn [map]. rewrite IH, E1. f_equal. f_equal. eapply seen_serve; eauto.
Qed.
