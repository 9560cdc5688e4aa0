(** What a request returns, and a run in which nothing fails. *)
From Coq Require Import Permutation Relation_Operators.
From Verif Require Import Base BaseFacts Name NameFacts Artifact SpecGraph SpecLinks Stored ProjectFacts Markdown Lint Source
  Pool Load SpecLoad Disk Walk Modify SpecModify OpFacts PureFacts PhaseFacts.

Section Results.
  Variable path_str : path -> str.
  Variable M : num.
  Variable topo : graph -> option (list nat).
  Variable H : Type.
  Variable heqb : H -> H -> bool.
  Variable hash_im : art_im -> H.
  Variable debug_im : art_im -> str.
  Variable st : settings.
  Variables to_toml to_json : list (name * art_raw) -> str.
  Variable yaml_done : str -> str.
  Variable style : md_attrs.
  Variables E1 E3 : disk_errs.
  Notation pure := (modify_pure path_str M topo H heqb hash_im debug_im st).
  Notation runs := (runs path_str M topo H heqb hash_im debug_im st to_toml to_json yaml_done style E1 E3).
  Notation mstep := (mstep path_str M H st to_toml to_json yaml_done style E3).

  Definition has_project (q : project M H) (x : mstate M H) : Prop :=
    match x with
    | MBackup _ _ _ _ p _ _ | MSave _ _ _ _ p _ _ | MRemove _ _ _ _ p _ _ => p = q
    | MDone _ _ _ (Ok (inl (_, p))) => p = project_sort M H q
    | _ => True
    end.
  Lemma project_step q x y : mstep x y -> has_project q x -> has_project q y.
  Proof. intros S0 I. destruct S0; cbn [has_project] in *; auto. now subst. Qed.
  Lemma project_steps q x y : clos_refl_trans_1n _ mstep x y -> has_project q x -> has_project q y.
  Proof. induction 1 as [|x y z S0 _ IH]; auto. intros I. apply IH. eapply project_step; eauto. Qed.

  (** A success is the success of the first part. *)
  Lemma done_project t loaded ops t' c1 p1 : runs t loaded ops (MDone M H t' (Ok (inl (c1, p1)))) ->
    exists l c' q, loaded = Ok l /\ pure l ops = Ok (inr (c', q)) /\ p1 = project_sort M H q.
  Proof.
    intros (x0 & B & S0). unfold begins in B. destruct loaded as [l| |]; cbn [res_bind] in B.
    - destruct (pure l ops) as [[e|[c q]]| |] eqn:Ep.
      + subst x0. apply (after_done path_str M H st to_toml to_json yaml_done style E3) in S0. discriminate S0.
      + destruct B as (todo & _ & ->). exists l, c, q. split; auto. split; auto. apply (project_steps q) in S0; [exact S0|reflexivity].
      + subst x0. apply (after_done path_str M H st to_toml to_json yaml_done style E3) in S0. discriminate S0.
      + subst x0. apply (after_done path_str M H st to_toml to_json yaml_done style E3) in S0. discriminate S0.
    - subst x0. apply (after_done path_str M H st to_toml to_json yaml_done style E3) in S0. discriminate S0.
    - subst x0. apply (after_done path_str M H st to_toml to_json yaml_done style E3) in S0. discriminate S0.
  Qed.
  (** A request that is refused by the first part. *)
  Lemma refused_run t l ops e x : pure l ops = Ok (inl e) -> runs t (Ok l) ops x -> x = MDone M H t (Ok (inr e)).
  Proof.
    intros Ep (x0 & B & S0). unfold begins in B. cbn [res_bind] in B. rewrite Ep in B. subst x0. now apply (after_done path_str M H st to_toml to_json yaml_done style E3) in S0.
  Qed.

  (** A run in which what can be done is done, in the order of the walks. *)
  Notation plint := (phase_lint path_str).
  Fixpoint seq_backup (t : node) (got : list lint) (todo : list (path + lint)) : node * list lint :=
    match todo with
    | [] => (t, got)
    | inr x :: l => seq_backup t (got ++ [x]) l
    | inl q :: l => match fs_rename t q (backup_of q) with
                    | Some t' => seq_backup t' got l
                    | None => seq_backup t (got ++ [plint LError CCreateBackups q (s "failed")]) l
                    end
    end.
  Fixpoint seq_save (t : node) (got : list lint) (todo : list (path * res str)) : node * list lint :=
    match todo with
    | [] => (t, got)
    | (q, y) :: l =>
        match match y, locate q with Ok x, Some f => fs_write t f x | _, _ => None end with
        | Some t' => seq_save t' got l
        | None => seq_save t (got ++ [plint LError CSaveProject q (s "failed")]) l
        end
    end.
  Fixpoint seq_remove (t : node) (got : list lint) (todo : list (path + lint)) : node * list lint :=
    match todo with
    | [] => (t, got)
    | inr x :: l => seq_remove t (got ++ [x]) l
    | inl q :: l => match fs_remove t q with
                    | Some t' => seq_remove t' got l
                    | None => seq_remove t (got ++ [plint LWarn CRemoveBackups q (s "failed")]) l
                    end
    end.
  Definition seq_modify (t : node) (loaded : res (lints * project M H + lints)) (ops : list (op H)) : node * result M H :=
    match res_bind loaded (fun r => pure r ops) with
    | Ok (inl e) => (t, Ok (inr e))
    | Ok (inr (c, p)) =>
        let (t1, l1) := seq_backup t [] (to_back_up path_str st E1 t) in
        let c1 := categorize c l1 in
        if negb (is_nil (ls_error c1)) then (t1, Ok (inr (failed KBackups c1))) else
        let (t2, l2) := seq_save t1 [] (save_jobs M H to_toml to_json yaml_done style p) in
        let c2 := categorize c1 l2 in
        if negb (is_nil (ls_error c2)) then (t2, Ok (inr (failed KSave c2))) else
        let (t3, l3) := seq_remove t2 [] (to_remove path_str st E3 t2) in
        (t3, Ok (inl (categorize c2 l3, project_sort M H p)))
    | _ => (t, Panic)
    end.

  Notation steps := (clos_refl_trans_1n _ mstep).
  Lemma steps_trans x y z : steps x y -> steps y z -> steps x z.
  Proof. induction 1 as [|x y w S0 _ IH]; auto. intros X. econstructor; [exact S0|auto]. Qed.
  Lemma seq_backup_steps c p todo : forall t got t' got', seq_backup t got todo = (t', got') -> steps (MBackup M H t c p todo got) (MBackup M H t' c p [] got').
  Proof.
    induction todo as [|[q|x] todo IH]; intros t got t' got' E; cbn [seq_backup] in E.
    - injection E as <- <-. constructor.
    - destruct (fs_rename t q (backup_of q)) as [t1|] eqn:R; (econstructor; [|eapply IH; exact E]); [now constructor|]. apply b_fail. now left.
    - econstructor; [|eapply IH; exact E]. constructor.
  Qed.
  Lemma seq_save_steps c p todo : forall t got t' got', seq_save t got todo = (t', got') -> steps (MSave M H t c p todo got) (MSave M H t' c p [] got').
  Proof.
    induction todo as [|[q y] todo IH]; intros t got t' got' E; cbn [seq_save] in E.
    - injection E as <- <-. constructor.
    - destruct y as [x| |]; [|econstructor; [|eapply IH; exact E]; apply s_fail; now left|econstructor; [|eapply IH; exact E]; apply s_fail; now left].
      destruct (locate q) as [f|] eqn:Lq; [|econstructor; [|eapply IH; exact E]; apply s_fail; now left].
      destruct (fs_write t f x) as [t1|] eqn:Wr; (econstructor; [|eapply IH; exact E]); [eapply s_ok; eauto|apply s_fail; now left].
  Qed.
  Lemma seq_remove_steps c p todo : forall t got t' got', seq_remove t got todo = (t', got') -> steps (MRemove M H t c p todo got) (MRemove M H t' c p [] got').
  Proof.
    induction todo as [|[q|x] todo IH]; intros t got t' got' E; cbn [seq_remove] in E.
    - injection E as <- <-. constructor.
    - destruct (fs_remove t q) as [t1|] eqn:R; (econstructor; [|eapply IH; exact E]); [now constructor|]. apply r_fail. now left.
    - econstructor; [|eapply IH; exact E]. constructor.
  Qed.
  Lemma not_nil (l : list lint) : negb (is_nil l) = true <-> l <> [].
  Proof. destruct l; cbn [is_nil negb]; split; congruence. Qed.
  Lemma nil_not (l : list lint) : negb (is_nil l) = false <-> l = [].
  Proof. destruct l; cbn [is_nil negb]; split; congruence. Qed.
  Theorem seq_runs t loaded ops : runs t loaded ops (MDone M H (fst (seq_modify t loaded ops)) (snd (seq_modify t loaded ops))).
  Proof.
    unfold Modify.runs, begins, seq_modify. destruct (res_bind loaded (fun r => pure r ops)) as [[e|[c p]]| |]; [| |eexists; split; [reflexivity|constructor]|eexists; split; [reflexivity|constructor]].
    - eexists. split; [reflexivity|constructor].
    - exists (MBackup M H t c p (to_back_up path_str st E1 t) []). split; [eexists; split; [reflexivity|reflexivity]|].
      destruct (seq_backup t [] (to_back_up path_str st E1 t)) as [t1 l1] eqn:Q1. eapply steps_trans; [eapply seq_backup_steps; exact Q1|].
      destruct (negb (is_nil (ls_error (categorize c l1)))) eqn:X1; [apply not_nil in X1; eapply Relation_Operators.rt1n_trans; [now apply b_err|constructor]|apply nil_not in X1].
      destruct (seq_save t1 [] (save_jobs M H to_toml to_json yaml_done style p)) as [t2 l2] eqn:Q2. eapply Relation_Operators.rt1n_trans; [apply b_end; [exact X1|reflexivity]|].
      eapply steps_trans; [eapply seq_save_steps; exact Q2|].
      destruct (negb (is_nil (ls_error (categorize (categorize c l1) l2)))) eqn:X2; [apply not_nil in X2; eapply Relation_Operators.rt1n_trans; [now apply s_err|constructor]|apply nil_not in X2].
      destruct (seq_remove t2 [] (to_remove path_str st E3 t2)) as [t3 l3] eqn:Q3. eapply Relation_Operators.rt1n_trans; [apply s_end; [exact X2|reflexivity]|].
      eapply steps_trans; [eapply seq_remove_steps; exact Q3|]. eapply Relation_Operators.rt1n_trans; [apply r_end|constructor].
  Qed.
End Results.

(** Sorting the project for the answer does not change what is stored. *)
Lemma sort_stored path_str M topo (TC : topo_ok topo) H heqb (heqb_iff : forall a b, heqb a b = true <-> a = b) hash_im debug_im st c p ops c' (q : project M H) :
  loaded_ok hash_im p -> Forall op_wf ops -> modify_pure path_str M topo H heqb hash_im debug_im st (inl (c, p)) ops = Ok (inr (c', q)) ->
  loaded_ok hash_im q /\ loaded_ok hash_im (project_sort M H q) /\ Permutation (stored_form (project_sort M H q)) (stored_form q).
Proof.
  intros L W Ep. destruct (pure_accepts path_str M topo TC H heqb heqb_iff hash_im debug_im st c p ops c' q L W Ep) as (_ & _ & _ & _ & m & _ & _ & _ & Lq & Sq & Bq & Cq & _).
  pose proof (lo_wf hash_im q Lq) as Wq. pose proof (lo_distinct hash_im q Lq) as Dq. rewrite Sq in Wq, Dq.
  destruct (sorted_ok M topo TC H hash_im (map snd m) (pr_code p) (pr_arts q) (pr_prefix q) (pr_settings_path q) (pr_url_error q) Wq Dq Bq) as [Ls X].
  rewrite <- Cq in X, Ls. replace (mkProject (pr_arts q) (pr_code q) (pr_prefix q) (pr_settings_path q) (pr_url_error q)) with q in X, Ls by (destruct q; reflexivity).
  split; auto. split; auto. rewrite X, <- Sq. erewrite map_ext_in; [rewrite map_id; reflexivity|]. intros a Ha. now apply (lo_clean hash_im q Lq).
Qed.

(** The lints of the walks are errors. *)
Lemma found_walk_ok {A} (f : path -> A) se oe nf path_str filter t roots : walk_lints_ok (found f (walk_paths se oe nf path_str filter t roots)).
Proof.
  intros x Hx. unfold found in Hx. apply in_map_iff in Hx as ([q|y] & E & Hx); [discriminate E|]. injection E as ->. exact (walk_error path_str _ _ _ _ _ _ _ Hx).
Qed.
