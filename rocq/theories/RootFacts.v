(** Artifact paths that are files. *)
From Coq Require Import Permutation Relation_Operators.
From Verif Require Import Base BaseFacts Name Artifact Stored Markdown Lint LintThms Load Disk DiskFacts Walk WalkFacts Modify SpecModify PhaseFacts ResultFacts.

Lemma put_dir t p v : is_dir (Some (put t p v)) = is_dir (Some t).
Proof. destruct p as [|x [|y p]], t as [c|l]; cbn [put]; auto. destruct (assoc x l); auto. Qed.
Definition sound (t : node) : Prop := tree_ok t /\ is_dir (Some t) = true.
Lemma sound_put t p v : (forall c, v = Some c -> tree_ok c) -> sound t -> sound (put t p v).
Proof. intros V [T D]. split; [now apply put_ok|now rewrite put_dir]. Qed.
Lemma sound_rename t a b t' : fs_rename t a b = Some t' -> sound t -> sound t'.
Proof.
  unfold fs_rename. destruct (lookup t a) as [[c|l]|]; try discriminate. destruct (_ || _); [discriminate|]. intros E. apply some_eq in E as <-. intros I.
  apply sound_put; [intros d X; apply some_eq in X as <-; exact Logic.I|]. apply sound_put; auto. discriminate.
Qed.
Lemma sound_write t p y t' : fs_write t p y = Some t' -> sound t -> sound t'.
Proof.
  unfold fs_write. destruct p; [discriminate|]. destruct (_ || _); [discriminate|]. intros E. apply some_eq in E as <-. intros I.
  apply sound_put; auto. intros d X. apply some_eq in X as <-. exact Logic.I.
Qed.
Lemma remove_gone t p t' : sound t -> fs_remove t p = Some t' -> sound t' /\ file_at t' p = None /\ forall q, file_at t' q <> None -> file_at t q <> None.
Proof.
  intros [T D] E. assert (Np : p <> []).
  { intros ->. unfold fs_remove in E. cbn [lookup] in E. destruct t; [discriminate D|discriminate E]. }
  destruct (remove_spec t p t' T Np E) as (_ & F1 & F2 & T' & _). split; [split; auto|split; auto].
  - unfold fs_remove in E. destruct (lookup t p) as [[c|l]|]; try discriminate E. apply some_eq in E as <-. now rewrite put_dir.
  - intros q Hq. destruct (list_eq_dec (list_eq_dec N.eq_dec) q p) as [->|N]; [congruence|]. now rewrite <- F2.
Qed.

Section Roots.
  Variable path_str : path -> str.
  Variable M : num.
  Variable topo : graph -> option (list nat).
  Variable H : Type.
  Variable heqb : H -> H -> bool.
  Variable hash_im : art_im -> H.
  Variable debug_im : art_im -> str.
  Variable st : settings.
  Variables to_toml to_json : list (name * art_raw) -> str.
  Variable yaml_done : str -> str.
  Variable style : md_attrs.
  Variables E1 E3 : disk_errs.
  Notation runs := (runs path_str M topo H heqb hash_im debug_im st to_toml to_json yaml_done style E1 E3).
  Notation mstep := (mstep path_str M H st to_toml to_json yaml_done style E3).

  Definition reported (l : list lint) : Prop := exists x, In x l /\ li_cat x = CRemoveBackups /\ li_level x = LWarn.
  Definition inv_root (x : mstate M H) : Prop :=
    match x with
    | MBackup _ _ t _ _ _ _ | MSave _ _ t _ _ _ _ => sound t
    | MRemove _ _ t _ _ todo got => sound t /\ forall r, In r (se_arts st) -> file_at t r <> None -> In (inl r) todo \/ reported got
    | MDone _ _ t (Ok (inl (c, _))) => exists c0 got, c = categorize c0 got /\ forall r, In r (se_arts st) -> file_at t r <> None -> reported got
    | _ => True
    end.
  Lemma more_reported l x : reported l -> reported (l ++ [x]).
  Proof. intros (y & Hy & C). exists y. split; auto. apply in_or_app. now left. Qed.
  Lemma root_step x y : mstep x y -> inv_root x -> inv_root y.
  Proof.
    intros S0 I. destruct S0 as [ | | ? ? ? ? ? ? ? ? [->|X] | | | | | | ? ? ? ? ? ? ? ? ? [->|(l & y & El & X)] | | | |t c p got todo Er P|t c p x todo got|t c p q todo got t' X|t c p q todo got t' m [->|X]|t c p q todo got X Nr|t c p q todo got m X Hr0|t c p got];
      cbn [inv_root failed] in *; auto; try (now eapply sound_rename; eauto); try (now eapply sound_write; eauto).
    - split; auto. intros r Hr F. left. eapply Permutation_in; [exact P|]. unfold to_remove. apply walk_inl. exists r. split; auto.
      unfold file_at in F. destruct (lookup t r) as [[y|l]|] eqn:Lk; try congruence. erewrite walk_path_file by eauto. now left.
    - destruct I as [T I]. split; auto. intros r Hr F. destruct (I r Hr F) as [[X|X]|X]; auto; [discriminate X|right; now apply more_reported].
    - destruct I as [T I]. destruct (remove_gone t q t' T X) as (T' & G & Sub). split; auto. intros r Hr F. destruct (I r Hr (Sub r F)) as [[Y|Y]|Y]; auto. injection Y as ->. congruence.
    - destruct I as [T I]. split; auto. intros r Hr F. right. eexists. split; [apply in_or_app; right; now left|auto].
    - destruct I as [T I]. destruct (remove_gone t q t' T X) as (T' & G & Sub). split; auto. intros r Hr F. right. eexists. split; [apply in_or_app; right; now left|auto].
    - destruct I as [T I]. split; auto. intros r Hr F. destruct (I r Hr F) as [[Y|Y]|Y]; auto. injection Y as ->. contradiction.
    - destruct I as [T I]. split; auto. intros r Hr F. destruct (I r Hr F) as [[Y|Y]|Y]; auto; [|right; now apply more_reported]. injection Y as ->. unfold file_at in F. rewrite X in F. contradiction.
    - destruct I as [T I]. exists c, got. split; auto. intros r Hr F. destruct (I r Hr F) as [[]|X]; auto.
  Qed.
  Lemma root_steps x y : clos_refl_trans_1n _ mstep x y -> inv_root x -> inv_root y.
  Proof. induction 1 as [|x y z S0 _ IH]; auto. intros I. apply IH. eapply root_step; eauto. Qed.

  Theorem root_files_gone t loaded ops t' c1 p1 : tree_ok t -> is_dir (Some t) = true ->
    runs t loaded ops (MDone M H t' (Ok (inl (c1, p1)))) -> (forall x, In x (ls_other c1) -> li_cat x <> CRemoveBackups) ->
    forall r, In r (se_arts st) -> file_at t' r = None.
  Proof.
    intros T D (x0 & B & S0) N r Hr. unfold begins in B. destruct (res_bind loaded (fun l => modify_pure path_str M topo H heqb hash_im debug_im st l ops)) as [[e|[c q]]| |];
      try (subst x0; apply (after_done path_str M H st to_toml to_json yaml_done style E3) in S0; discriminate S0).
    destruct B as (todo & _ & ->). apply root_steps in S0; [|exact (conj T D)]. destruct S0 as (c0 & got & -> & I). destruct (file_at t' r) eqn:F; auto. exfalso.
    destruct (I r Hr ltac:(congruence)) as (x & Hx & Cx & Lx). apply (N x); auto. rewrite categorize_ok. cbn [ls_other]. apply in_or_app. right. apply filter_In. split; auto. unfold is_error. now rewrite Lx.
  Qed.
End Roots.
