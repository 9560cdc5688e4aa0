(** Lemmas for C95: what becomes of the requests of the pages. *)
From Coq Require Import ZArith Lia Permutation Relation_Operators.
From Verif Require Import Base BaseFacts Name SpecName Artifact Stored SpecGraph BuildFacts CompletionThms Markdown Lint SpecLint LintFacts LintThms Source SpecJoin Pool PoolFacts Load LoadFacts SpecLoad CheckFacts Disk DiskFacts Walk Modify PhaseFacts ResultFacts OutcomeFacts
  Server SpecServer ServerFacts ServerCalls Web WebSave WebFacts PropWeb System SystemFacts SpecFresh SinceFacts.
Open Scope nat_scope.

Section Facts.
  Variables (path_str : path -> str) (M : num) (topo : graph -> option (list nat)) (H : Type) (heqb : H -> H -> bool) (hash_im : art_im -> H) (debug_im : art_im -> str) (st : settings)
    (to_toml to_json : list (name * art_raw) -> str) (yaml_done : str -> str) (style : md_attrs) (load : node -> res (lints * project M H + lints) -> Prop)
    (enc : path -> str) (dec : str -> option path) (dig : char -> bool) (lim : N) (first : sproject H).
  Notation ystep := (ystep path_str M topo H heqb hash_im debug_im st to_toml to_json yaml_done style load enc dec dig lim first).
  Notation happened := (happened path_str M topo H heqb hash_im debug_im st to_toml to_json yaml_done style load enc dec dig lim first).
  Notation goes := (call_goes path_str M H st to_toml to_json yaml_done style).
  Notation serves := (serves _ _ _ _ _ (call_read M H load) (call_modify path_str M topo H heqb hash_im debug_im st load) goes (call_ended M H)).
  Notation sys := (sys M H).
  Notation told := (told M H enc).
  Notation pages := (y_pages M H).
  Notation page_one := (page_one path_str M topo H heqb hash_im debug_im st to_toml to_json yaml_done style load enc dec dig lim first).
  Notation back_inv := (back_inv path_str M topo H heqb hash_im debug_im st to_toml to_json yaml_done style load enc dec dig lim first).
  Implicit Types (l : list (sys * label M H * sys)) (y : sys).
  Ltac steps S := destruct S as [g n b d0 q x v|g n b d0 q x i u ca qs cb sent Gi A|g n n' b d0 q x i|g n n' b d0 q x i r0 qq a d' p' x' As Sv|g n b b' d0 q x i r0 m ca qs qs' cb sent Gi A|g n b d0 q x i r0 ca qs qs' cb sent Gi A|g n b d0 q x d'].

  Definition kept l y k (r : req H) : Prop :=
    In (k, r) (y_net _ _ y) \/ (exists m, In (k, r, m) (y_back _ _ y)) \/ exists y1 y2, In (y1, LServe k r ADied, y2) l.
  Lemma only_one {A} (q q' : list A) r t : q ++ r :: q' = match t with Some z => [z] | None => [] end -> q = [] /\ q' = [].
  Proof. destruct t as [z|]; [|destruct q; discriminate]. destruct q as [|a q]; cbn; intros E; [injection E as _ ->; auto|]. injection E as _ E. destruct q; discriminate E. Qed.
  (** A request a page waits for is on its way, or its answer is, or its handler panicked. *)
  Lemma not_lost d p l y : happened d p l y -> forall k c r, nth_error (pages y) k = Some (c, [r]) -> kept l y k r.
  Proof.
    induction 1 as [|l y e y' Hh IH S]; intros k c r G; [destruct k; discriminate G|].
    assert (Old : kept l y k r -> (forall z, In (k, r) (y_net _ _ y) -> z = y' -> kept ((y, e, z) :: l) z k r) -> (forall m, In (k, r, m) (y_back _ _ y) -> In (k, r, m) (y_back _ _ y')) -> kept ((y, e, y') :: l) y' k r).
    { intros [X|[[m X]|(y1 & y2 & X)]] F1 F2; [apply F1; auto|right; left; eauto|right; right; exists y1, y2; now right]. }
    assert (New : forall sent, In r sent -> (forall z, In z (sends H k sent) -> In z (y_net _ _ y')) -> kept ((y, e, y') :: l) y' k r).
    { intros sent I F. left. apply F. unfold sends. apply in_map_iff. eauto. }
    assert (One : forall c0 q0, nth_error (pages y) k = Some (c0, q0) -> q0 = tasks c0) by (intros; eapply page_one; eauto).
    steps S; cbn [y_pages y_net y_back] in *.
    - destruct (lt_dec k (length g)) as [L|L].
      + rewrite nth_error_app1 in G by exact L. apply Old; [eapply IH; eauto| |auto]. intros z I ->. left. cbn. apply in_or_app. now left.
      + rewrite nth_error_app2 in G by lia. destruct (k - length g) as [|z] eqn:Ez; [|destruct z; discriminate G]. cbn in G. injection G as _ <-. left. cbn. apply in_or_app. right. left. f_equal. lia.
    - destruct (Nat.eq_dec k i) as [->|Ne].
      + erewrite set_same in G by eauto. injection G as -> E. destruct sent as [|s0 sent].
        * rewrite app_nil_r in E. subst qs. apply Old; [eapply IH; eauto| |auto]. intros z I ->. left. cbn. apply in_or_app. now left.
        * apply (New (s0 :: sent)); [|intros z I; apply in_or_app; now right]. destruct qs as [|z qs]; [cbn in E; rewrite E; now left|]. cbn in E. injection E as _ E. destruct qs; discriminate E.
      + erewrite set_other in G by eauto. apply Old; [eapply IH; eauto| |auto]. intros z I ->. left. cbn. apply in_or_app. now left.
    - apply Old; [eapply IH; eauto| |intros m I; apply in_or_app; now left]. intros z I ->. apply in_app_or in I as [I|[I|I]].
      + left. cbn. apply in_or_app. now left.
      + injection I as <- <-. right. left. exists (MInitial false None). cbn. apply in_or_app. right. now left.
      + left. cbn. apply in_or_app. now right.
    - apply Old; [eapply IH; eauto| |intros m I; apply in_or_app; now left]. intros z I ->. apply in_app_or in I as [I|[I|I]].
      + left. cbn. apply in_or_app. now left.
      + injection I as <- <-. destruct (told r0 a) as [m|] eqn:T; [right; left; exists m; cbn; apply in_or_app; right; now left|]. right. right. eexists _, _. left. f_equal. f_equal.
        destruct a, r0; try discriminate T; try discriminate As; reflexivity.
      + left. cbn. apply in_or_app. now right.
    - destruct (Nat.eq_dec k i) as [->|Ne].
      + erewrite set_same in G by eauto. injection G as -> E. pose proof (One _ _ Gi) as O. apply only_one in O as [-> ->]. cbn in E. apply (New sent); [rewrite E; now left|intros z I; apply in_or_app; now right].
      + erewrite set_other in G by eauto. apply Old; [eapply IH; eauto| |].
        * intros z I ->. left. cbn. apply in_or_app. now left.
        * intros m0 I. apply in_app_or in I as [I|[I|I]]; apply in_or_app; [now left|congruence|now right].
    - destruct (Nat.eq_dec k i) as [->|Ne].
      + erewrite set_same in G by eauto. injection G as -> E. pose proof (One _ _ Gi) as O. apply only_one in O as [-> ->]. cbn in E. apply (New sent); [rewrite E; now left|intros z I; apply in_or_app; now right].
      + erewrite set_other in G by eauto. apply Old; [eapply IH; eauto| |auto]. intros z I ->. left. cbn. apply in_or_app. now left.
    - apply Old; [eapply IH; eauto| |auto]. intros z I ->. now left.
  Qed.

  (** Modifying panics only if loading does. *)
  Variable load_errors : forall t c, load t (Ok (inr c)) -> ls_error c <> [].
  Variable TC : topo_ok topo.
  Lemma modify_never (z : lints * project M H + lints) ops : (forall c, z = inr c -> ls_error c <> []) -> exists v, modify_pure path_str M topo H heqb hash_im debug_im st z ops = Ok v.
  Proof.
    intros Z. destruct z as [[c p]|c]; cbn [modify_pure].
    - destruct (negb (is_nil (ls_error c))); [eauto|]. cbv zeta. destruct (negb _); [eauto|]. destruct (negb _); [eauto|].
      destruct (perform_operations _ _ _ _ _ _) as [errs m]. destruct (negb _); [eauto|].
      destruct (build_ok M topo TC H hash_im (map snd m) (pr_code p)) as (gs & comp & _ & _ & ->). cbn [res_bind]. destruct (negb _); eauto.
    - specialize (Z c eq_refl). destruct (ls_error c); [congruence|cbn; eauto].
  Qed.
  Lemma died_load d p r q d' p' x' : asked H dec r = Some q -> serves (d, p, false) q ADied (d', p', x') -> exists z, load d z /\ forall v, z <> Ok v.
  Proof.
    intros As Sv. remember (@ADied (found M H) failed) as a eqn:Ea.
    inversion Sv as [| |? ? f Hf| |? ? Hu|? ? ? q0 Rd|? ? ? e0 Rd|? ? ? r0 Rd Nk|? ? ? ? q0 Rd|? ? ? ? e0 Rd|? ? ops ? r0 Rd Nk]; subst; try discriminate; try congruence.
    - exfalso. destruct r as [|j f|j ops]; cbn in As; try discriminate As. injection As as As. clear -As. revert As. induction ops as [|o ops IH]; cbn [received]; [discriminate|].
      destruct (receive dec o); [|discriminate]. destruct (received H dec ops); cbn [res_bind]; try discriminate. auto.
    - destruct Rd as (j & j' & (z & Ld & ->) & Go & En). exists z. split; [exact Ld|]. intros v ->.
      remember (d, CLoaded M H (as_read M H (Ok v))) as u eqn:Eu. remember (d', j') as w eqn:Ew. destruct Go as [|u1 u2 S1 _]; [|subst; inversion S1].
      rewrite Eu in Ew. injection Ew as <- <-. cbn in En. injection En as <-. destruct v; eapply Nk; reflexivity.
    - destruct Rd as (j & j' & (E1 & E3 & z & x & Ld & Bg & ->) & Go & En). exists z. split; [exact Ld|]. intros v ->.
      assert (D0 : d = disk M H x).
      { unfold begins in Bg. destruct (res_bind _ _) as [[?|[? ?]]| |]; try (subst x; reflexivity). destruct Bg as (? & _ & ->). reflexivity. }
      rewrite D0 in Go. apply (goes_on path_str M H st to_toml to_json yaml_done style) in Go as (xe & -> & _ & Ge). unfold begins in Bg. cbn [res_bind] in Bg.
      destruct (modify_never v ops) as [w Ew]; [intros c ->; eauto|]. rewrite Ew in Bg.
      assert (Y : forall t rr, xe = MDone M H t rr -> exists v, rr = Ok v).
      { intros t rr ->. destruct w as [e|[c1 p1]].
        - subst x. apply after_done in Ge. injection Ge as _ ->. eauto.
        - destruct Bg as (todo & _ & ->). apply late_steps in Ge; [|exact I]. cbn [late] in Ge. destruct rr as [rr| |]; [eauto|destruct Ge|destruct Ge]. }
      destruct xe as [| | |t rr]; try discriminate En. cbn in En. injection En as <-. destruct (Y _ _ eq_refl) as [w0 ->]. destruct w0 as [?|[? ?]]; eapply Nk; reflexivity.
  Qed.
End Facts.
