(** Walking finds exactly what it should. *)
From Coq Require Import Lia ZifyBool.
From Verif Require Import Base BaseFacts Name Artifact Stored Lint Source Pool Load Disk DiskFacts Walk SpecWalk JoinFacts.

Lemma path_eqb_iff p : forall q, path_eqb p q = true <-> p = q.
Proof.
  induction p as [|x p IH]; intros [|y q]; cbn [path_eqb]; try (split; [discriminate|discriminate]); [tauto|].
  rewrite Bool.andb_true_iff, str_eqb_eq, IH. split; [intros [-> ->]; auto|intros E; injection E; auto].
Qed.
Lemma path_mem_iff p l : path_mem p l = true <-> In p l.
Proof.
  unfold path_mem. rewrite existsb_exists. split.
  - intros (q & Hq & E). apply path_eqb_iff in E as ->. exact Hq.
  - intros Hp. exists p. split; auto. now apply path_eqb_iff.
Qed.

Section Walk.
  Variables stat_err open_err : path -> option str.
  Variable not_found : str.
  Variable filter : bool -> path -> bool.
  Notation walk_node := (walk_node stat_err open_err filter).

  Definition goes (p : path) (l : list (str * node)) : list path * option str :=
    (fix go l := match l with
                 | [] => ([], None)
                 | (x, c) :: l' =>
                     match walk_node (p ++ [x]) c with
                     | (fs, Some m) => (fs, Some m)
                     | (fs, None) => let (fs', e) := go l' in (fs ++ fs', e)
                     end
                 end) l.
  Lemma goes_cons p x c l : goes p ((x, c) :: l) = match walk_node (p ++ [x]) c with
                     | (fs, Some m) => (fs, Some m)
                     | (fs, None) => let (fs', e) := goes p l in (fs ++ fs', e)
                     end.
  Proof. reflexivity. Qed.
  Lemma walk_dir p l : walk_node p (NDir l) =
    match stat_err p with Some m => ([], Some m) | None => if filter true p then match open_err p with Some m => ([], Some m) | None => goes p l end else ([], None) end.
  Proof. reflexivity. Qed.

  (** What passes the filter on the way down. *)
  Definition passes (p r : path) : Prop := forall a b, r = a ++ b -> filter (match b with [] => false | _ => true end) (p ++ a) = true.

  Lemma walk_sound t : tree_ok t -> forall p q, In q (fst (walk_node p t)) -> exists r c, q = p ++ r /\ lookup t r = Some (NFile c) /\ passes p r.
  Proof.
    induction t as [c|l IH] using node_ind'; intros T p q Hq.
    - cbn [Walk.walk_node] in Hq. destruct (stat_err p); [destruct Hq|]. destruct (filter false p) eqn:E; [|destruct Hq]. destruct Hq as [<-|[]].
      exists [], c. rewrite app_nil_r. split; auto. split; auto. intros a b X. symmetry in X. apply app_eq_nil in X as [-> ->]. now rewrite app_nil_r.
    - rewrite walk_dir in Hq. destruct (stat_err p); [destruct Hq|]. destruct (filter true p) eqn:E; [|destruct Hq]. destruct (open_err p); [destruct Hq|].
      apply tree_ok_dir in T as [N A].
      assert (G : forall l', (forall x c, In (x, c) l' -> In (x, c) l) -> In q (fst (goes p l')) -> exists x c r d, In (x, c) l /\ q = (p ++ [x]) ++ r /\ lookup c r = Some (NFile d) /\ passes (p ++ [x]) r).
      { induction l' as [|[x c] l' IHl]; intros Hl H; [destruct H|]. rewrite goes_cons in H.
        assert (Hx : In (x, c) l) by (apply Hl; now left).
        destruct (walk_node (p ++ [x]) c) as [fs [m|]] eqn:Ew.
        - destruct (IH x c Hx (A x c Hx) (p ++ [x]) q) as (r & d & Er & Hd & Pr); [rewrite Ew; exact H|]. exists x, c, r, d. auto.
        - destruct (goes p l') as [fs' e]. cbn [fst] in *. apply in_app_or in H as [H|H].
          + destruct (IH x c Hx (A x c Hx) (p ++ [x]) q) as (r & d & Er & Hd & Pr); [rewrite Ew; exact H|]. exists x, c, r, d. auto.
          + apply IHl; auto. intros y d Hy. apply Hl. now right. }
      destruct (G l (fun x c H => H) Hq) as (x & c & r & d & Hx & -> & Hd & Pr). exists (x :: r), d. rewrite <- app_assoc. split; auto. split.
      { cbn [lookup]. now rewrite (in_assoc x l c N Hx). }
      intros a b X. destruct a as [|y a]; cbn [app] in X.
      + subst b. now rewrite app_nil_r.
      + injection X as -> X. specialize (Pr a b X). now rewrite <- app_assoc in Pr.
  Qed.

  Lemma walk_complete t : tree_ok t -> forall p, snd (walk_node p t) = None -> forall r c, lookup t r = Some (NFile c) -> passes p r -> In (p ++ r) (fst (walk_node p t)).
  Proof.
    induction t as [c|l IH] using node_ind'; intros T p W r d L Pr.
    - destruct r as [|x r]; [|discriminate L]. cbn [Walk.walk_node] in *. destruct (stat_err p); [discriminate W|]. specialize (Pr [] [] eq_refl). cbn in Pr. rewrite app_nil_r in *. rewrite Pr. now left.
    - rewrite walk_dir in *. destruct (stat_err p); [discriminate W|]. destruct r as [|x r]; [discriminate L|]. pose proof (Pr [] (x :: r) eq_refl) as P0. rewrite app_nil_r in P0. rewrite P0 in *.
      destruct (open_err p); [discriminate W|]. apply tree_ok_dir in T as [N A]. cbn [lookup] in L. destruct (assoc x l) as [c|] eqn:Ea; [|discriminate L]. apply assoc_in in Ea.
      assert (Q : passes (p ++ [x]) r).
      { intros a b ->. specialize (Pr (x :: a) b eq_refl). now rewrite <- app_assoc. }
      revert W Ea. assert (G : forall l', (forall y c, In (y, c) l' -> In (y, c) l) -> snd (goes p l') = None -> In (x, c) l' -> In (p ++ x :: r) (fst (goes p l'))).
      { induction l' as [|[y e] l' IHl]; intros Hl W H; [destruct H|]. rewrite goes_cons in *. destruct (walk_node (p ++ [y]) e) as [fs [m|]] eqn:Ew; [discriminate W|].
        destruct (goes p l') as [fs' e'] eqn:Eg. cbn [fst snd] in *. apply in_or_app. destruct H as [X|H].
        - injection X as -> ->. left. assert (Hx : In (x, c) l) by (apply Hl; now left). pose proof (IH x c Hx (A x c Hx) (p ++ [x])) as I. rewrite Ew in I.
          specialize (I eq_refl r d L Q). cbn [fst] in I. now rewrite <- app_assoc in I.
        - right. apply IHl; auto. intros z f Hz. apply Hl. now right. }
      intros W Ea. now apply G.
  Qed.

  Lemma walk_nodup t : tree_ok t -> forall p, NoDup (fst (walk_node p t)).
  Proof.
    induction t as [c|l IH] using node_ind'; intros T p.
    - cbn [Walk.walk_node]. destruct (stat_err p); [constructor|]. destruct (filter false p); cbn [fst]; [repeat constructor; auto|constructor].
    - rewrite walk_dir. destruct (stat_err p); [constructor|]. destruct (filter true p); [|constructor]. destruct (open_err p); [constructor|].
      apply tree_ok_dir in T as [N A].
      assert (B : forall l', (forall y c, In (y, c) l' -> tree_ok c) -> forall q, In q (fst (goes p l')) -> exists x r, In x (map fst l') /\ q = p ++ x :: r).
      { induction l' as [|[y e] l' IHl]; intros Hl q Hq; [destruct Hq|]. rewrite goes_cons in Hq. assert (Te : tree_ok e) by (eapply Hl; now left).
        destruct (walk_node (p ++ [y]) e) as [fs [m|]] eqn:Ew.
        - destruct (walk_sound e Te (p ++ [y]) q) as (r & d & -> & _); [rewrite Ew; exact Hq|]. exists y, r. rewrite <- app_assoc. split; auto. now left.
        - destruct (goes p l') as [fs' e'] eqn:Eg. cbn [fst] in *. apply in_app_or in Hq as [Hq|Hq].
          + destruct (walk_sound e Te (p ++ [y]) q) as (r & d & -> & _); [rewrite Ew; exact Hq|]. exists y, r. rewrite <- app_assoc. split; auto. now left.
          + destruct (IHl (fun z c Hz => Hl z c (or_intror Hz)) q Hq) as (x & r & Hx & ->). exists x, r. split; auto. now right. }
      revert N A IH. induction l as [|[y e] l IHl]; intros N A IH; [constructor|]. rewrite goes_cons. cbn [map fst] in N. inversion N as [|? ? Ny N']; subst.
      assert (Te : tree_ok e) by (eapply A; now left). pose proof (IH y e (or_introl eq_refl) Te (p ++ [y])) as Ne.
      destruct (walk_node (p ++ [y]) e) as [fs [m|]] eqn:Ew; [exact Ne|].
      assert (Nl : NoDup (fst (goes p l))).
      { apply IHl; auto. - intros x c Hx. eapply A. right. exact Hx. - intros x c Hx. eapply IH. right. exact Hx. }
      pose proof (B l (fun z c Hz => A z c (or_intror Hz))) as Bl. destruct (goes p l) as [fs' e'] eqn:Eg. cbn [fst] in *. apply nodup_app_disj; auto.
      intros q Hq Hq'. destruct (Bl q Hq') as (x & r & Hx & Eq). destruct (walk_sound e Te (p ++ [y]) q) as (r' & d & Eq' & _); [rewrite Ew; exact Hq|].
      rewrite Eq' in Eq. rewrite <- app_assoc in Eq. apply app_inv_head in Eq. cbn [app] in Eq. injection Eq as -> _. contradiction.
  Qed.
End Walk.

Lemma extension_iff q e : extension q = Some e <-> has_extension e q.
Proof.
  unfold extension, has_extension. destruct (rev q) as [|f d] eqn:R.
  - split; [discriminate|]. intros (d & x & -> & _). rewrite rev_app_distr in R. discriminate R.
  - assert (Q : q = rev d ++ [f]) by (rewrite <- (rev_involutive q), R; reflexivity).
    destruct (rsplit c_dot f) as [[a b]|] eqn:E.
    + pose proof E as E'. apply rsplit_some in E' as [Ef Nb]. split.
      * destruct a as [|c a]; [discriminate|]. intros X. injection X as <-. exists (rev d), (c :: a). rewrite Q, Ef. repeat split; auto. discriminate.
      * intros (d' & x & Eq & Nx & Ne). rewrite Q in Eq. apply app_inj_tail in Eq as [_ Eq].
        assert (X : rsplit c_dot f = Some (x, e)) by (apply rsplit_some; split; auto). rewrite E in X. injection X as -> ->. destruct x; [contradiction|reflexivity].
    + split; [discriminate|]. intros (d' & x & Eq & Nx & Ne). rewrite Q in Eq. apply app_inj_tail in Eq as [_ Eq]. apply rsplit_none in E. exfalso. apply E. rewrite Eq. apply in_or_app. right. now left.
Qed.
Lemma no_dot e : e = s "toml" \/ e = s "md" \/ e = s "json" -> ~ In 46%N e.
Proof. intros [->|[->| ->]]; vm_compute; intuition discriminate. Qed.
Lemma art_type_iff q : art_type_of q <> None <-> known_extension q.
Proof.
  assert (X : art_type_of q <> None <-> exists e, extension q = Some e /\ (e = s "toml" \/ e = s "md" \/ e = s "json")).
  { unfold art_type_of. destruct (extension q) as [e|]; [|split; [congruence|intros (e & E & _); discriminate E]]. split.
    - intros N. exists e. split; auto. destruct (str_eqb e (s "toml")) eqn:E1; [apply str_eqb_eq in E1; auto|]. destruct (str_eqb e (s "md")) eqn:E2; [apply str_eqb_eq in E2; auto|].
      destruct (str_eqb e (s "json")) eqn:E3; [apply str_eqb_eq in E3; auto|congruence].
    - intros (e' & E & O). injection E as <-. destruct O as [->|[->| ->]]; discriminate. }
  rewrite X. split.
  - intros (e & E & O). apply extension_iff in E as (d & x & -> & Nx & _). exists d, x, e. auto.
  - intros (d & x & e & -> & Nx & O). exists e. split; auto. apply extension_iff. exists d, x. split; auto. split; auto. now apply no_dot.
Qed.

(** Filters, in terms of the excluded paths. *)
Lemma art_filter_dir ex p : art_filter ex true p = true <-> ~ In p ex.
Proof. unfold art_filter. cbn [negb andb]. rewrite Bool.orb_false_r, Bool.negb_true_iff, <- not_true_iff_false, path_mem_iff. tauto. Qed.
Lemma art_filter_file ex p : art_filter ex false p = true <-> ~ In p ex /\ known_extension p.
Proof.
  unfold art_filter. cbn [negb andb]. rewrite Bool.negb_true_iff, Bool.orb_false_iff, <- not_true_iff_false, path_mem_iff, <- art_type_iff. destruct (art_type_of p); intuition congruence.
Qed.
Lemma code_filter_any ex d p : code_filter ex d p = true <-> ~ In p ex.
Proof. unfold code_filter. now rewrite Bool.negb_true_iff, <- not_true_iff_false, path_mem_iff. Qed.
Lemma backup_filter_dir ex p : backup_filter ex true p = true <-> ~ In p ex.
Proof. unfold backup_filter. cbn [orb]. now rewrite Bool.negb_true_iff, <- not_true_iff_false, path_mem_iff. Qed.
Lemma is_backup_iff p : is_backup p = true <-> has_extension (s "artbk") p.
Proof.
  unfold is_backup. rewrite <- extension_iff. destruct (extension p) as [e|]; [|split; discriminate]. rewrite str_eqb_eq. split; [now intros ->|congruence].
Qed.
Lemma backup_filter_file ex p : backup_filter ex false p = true <-> ~ In p ex /\ has_extension (s "artbk") p.
Proof.
  unfold backup_filter. cbn [orb]. rewrite <- is_backup_iff. destruct (is_backup p); [|intuition discriminate]. rewrite Bool.negb_true_iff, <- not_true_iff_false, path_mem_iff. tauto.
Qed.

Section Roots.
  Variables stat_err open_err : path -> option str.
  Variable not_found : str.
  Notation walk_path := (walk_path stat_err open_err not_found).

  (** What passes a filter that excludes paths, and wants [P] of files. *)
  Lemma passes_excl filter ex (P : path -> Prop) : (forall p, filter true p = true <-> ~ In p ex) -> (forall p, filter false p = true <-> ~ In p ex /\ P p) ->
    forall p r, passes filter p r <-> (forall a b, r = a ++ b -> ~ In (p ++ a) ex) /\ P (p ++ r).
  Proof.
    intros Fd Ff p r. split.
    - intros H. split; [|apply (Ff (p ++ r)), (H r []); now rewrite app_nil_r]. intros a b E. specialize (H a b E). destruct b; [now apply Ff in H|now apply Fd].
    - intros [H HP] a b E. destruct b; [|now apply Fd, (H a (l :: b))]. rewrite app_nil_r in E. subst a. apply Ff. split; auto. apply (H r []). now rewrite app_nil_r.
  Qed.

  Lemma walk_path_exact filter ex (P : path -> Prop) : (forall p, filter true p = true <-> ~ In p ex) -> (forall p, filter false p = true <-> ~ In p ex /\ P p) ->
    forall t, tree_ok t -> forall root l, lookup t root = Some (NDir l) ->
    forall fs e, walk_path filter t root = (fs, e) ->
    NoDup fs /\ (forall q, In q fs -> reachable t ex root q /\ P q) /\ (e = None -> forall q, reachable t ex root q /\ P q -> In q fs).
  Proof.
    intros Fd Ff t T root l L fs e E. unfold Walk.walk_path in E. rewrite L in E. pose proof (lookup_ok root t _ T L) as Tl.
    split; [|split].
    - pose proof (walk_nodup stat_err open_err filter (NDir l) Tl root) as N. now rewrite E in N.
    - intros q Hq. destruct (walk_sound stat_err open_err filter (NDir l) Tl root q) as (r & c & -> & Lr & Ps); [now rewrite E|].
      apply (passes_excl filter ex P Fd Ff) in Ps as [Ps HP]. split; auto. exists r, c. split; auto. split; [intros ->; discriminate Lr|]. split; auto. rewrite lookup_app, L. exact Lr.
    - intros -> q ((r & c & -> & Nr & Lr & Ps) & HP). rewrite lookup_app, L in Lr.
      pose proof (walk_complete stat_err open_err filter (NDir l) Tl root) as C. rewrite E in C. apply (C eq_refl r c Lr). apply (passes_excl filter ex P Fd Ff). auto.
  Qed.
  Lemma walk_path_file filter t root c : lookup t root = Some (NFile c) -> walk_path filter t root = ([root], None).
  Proof. unfold Walk.walk_path. now intros ->. Qed.
  Lemma walk_path_none filter t root : lookup t root = None -> walk_path filter t root = ([], Some not_found).
  Proof. unfold Walk.walk_path. now intros ->. Qed.
End Roots.
