(** Joining source references (C21, C22). *)
From Coq Require Import Lia Permutation.
From Verif Require Import Base BaseFacts Regex Name SpecName NameFacts Artifact Lint Source.

Definition r_loc (r : src_ref) : code_loc := fst (fst r).
Definition r_name (r : src_ref) : name := snd (fst r).
Definition r_sub (r : src_ref) : option subname := snd r.
Definition rkey (r : src_ref) := (nk (r_name r), option_map s_key (r_sub r)).
Definition r_full (r : src_ref) : str := name_full (r_name r) (r_sub r).

Definition sgetk (n : name) (sub : option subname) (j : joining) : option code_loc :=
  match sub with
  | None => im_get name_eqb n (jl_primary j)
  | Some sb => match im_get name_eqb n (jl_secondary j) with Some m => im_get sub_eqb sb m | None => None end
  end.

Notation pk := (pkeys nk).
Notation sk := (pkeys s_key).

Record join_inv (refs : list src_ref) (j : joining) : Prop := {
  ji_prim : NoDup (map (fun e => nk (fst e)) (jl_primary j));
  ji_sec : NoDup (map (fun e => nk (fst e)) (jl_secondary j));
  ji_subs : forall n m, In (n, m) (jl_secondary j) -> m <> [] /\ NoDup (map (fun e => s_key (fst e)) m);
  ji_get : forall n sub l, sgetk n sub j = Some l <->
    exists a r b, refs = a ++ r :: b /\ rkey r = (nk n, option_map s_key sub) /\ r_loc r = l /\
      forall r', In r' b -> rkey r' <> rkey r;
  ji_dups : forall d, In d (jl_dups j) <->
    exists a r1 b r2 c, refs = a ++ r1 :: b ++ r2 :: c /\ rkey r1 = rkey r2 /\ (forall r, In r b -> rkey r <> rkey r1) /\
      d = (r_loc r1, r_loc r2, r_full r2);
  ji_pname : forall n l, In (n, l) (jl_primary j) -> exists r, In r refs /\ r_name r = n /\ r_sub r = None;
  ji_sname : forall n m, In (n, m) (jl_secondary j) -> exists r, In r refs /\ r_name r = n /\ r_sub r <> None;
  ji_subname : forall n m sb l, In (n, m) (jl_secondary j) -> In (sb, l) m ->
    exists r, In r refs /\ nk (r_name r) = nk n /\ r_sub r = Some sb }.

Lemma nk_dec (a b : name) : {nk a = nk b} + {nk a <> nk b}.
Proof. destruct (name_eqb a b) eqn:E; [left|right]; [now apply name_eqb_iff|]. intros H. apply name_eqb_iff in H. congruence. Qed.

Lemma rkey_dec (a b : src_ref) : {rkey a = rkey b} + {rkey a <> rkey b}.
Proof.
  unfold rkey. destruct (nk_dec (r_name a) (r_name b)) as [E|E]; [|right; congruence].
  destruct (r_sub a) as [x|], (r_sub b) as [y|]; cbn [option_map]; try (right; congruence); [|left; congruence].
  destruct (str_eq_dec (s_key x) (s_key y)); [left|right]; congruence.
Qed.

Lemma sgetk_ext n n' sub sub' j : nk n = nk n' -> option_map s_key sub = option_map s_key sub' -> sgetk n sub j = sgetk n' sub' j.
Proof.
  intros En Es. destruct sub as [x|], sub' as [y|]; try discriminate; cbn [sgetk].
  - rewrite (get_proj name_eqb nk name_eqb_iff _ _ _ En). destruct (im_get name_eqb n' (jl_secondary j)); auto.
    apply (get_proj sub_eqb s_key sub_eqb_iff). now injection Es.
  - apply (get_proj name_eqb nk name_eqb_iff _ _ _ En).
Qed.

Lemma sgetk_join j r n sub : sgetk n sub (join_loc j r) = 
  (if nk_dec (r_name r) n then
     match r_sub r, sub with
     | None, None => Some (r_loc r)
     | Some x, Some y => if str_eq_dec (s_key x) (s_key y) then Some (r_loc r) else sgetk n sub j
     | _, _ => sgetk n sub j
     end
   else sgetk n sub j).
Proof.
  destruct r as [[l n0] sub0]. unfold r_name, r_sub, r_loc. cbn [fst snd join_loc].
  destruct sub0 as [x|].
  - unfold insert_secondary.
    destruct sub as [y|]; cbn [sgetk].
    2: { destruct (im_get name_eqb n0 (jl_secondary j)); cbn [jl_primary sgetk]; now destruct (nk_dec n0 n). }
    destruct (nk_dec n0 n) as [E|E].
    + rewrite <- (get_proj name_eqb nk name_eqb_iff (jl_secondary j) _ _ E).
      destruct (im_get name_eqb n0 (jl_secondary j)) as [m|] eqn:Em; cbn [jl_secondary];
        rewrite <- (get_proj name_eqb nk name_eqb_iff _ _ _ E), (get_insert_same name_eqb nk name_eqb_iff).
      * destruct (str_eq_dec (s_key x) (s_key y)) as [Es|Es].
        -- rewrite <- (get_proj sub_eqb s_key sub_eqb_iff _ _ _ Es). apply (get_insert_same sub_eqb s_key sub_eqb_iff).
        -- now apply (get_insert_other sub_eqb s_key sub_eqb_iff).
      * cbn [im_get]. destruct (sub_eqb x y) eqn:Es; destruct (str_eq_dec (s_key x) (s_key y)) as [Es'|Es']; auto.
        -- apply sub_eqb_iff in Es. contradiction.
        -- apply sub_eqb_iff in Es'. congruence.
    + destruct (im_get name_eqb n0 (jl_secondary j)) as [m|]; cbn [jl_secondary];
        now rewrite (get_insert_other name_eqb nk name_eqb_iff).
  - destruct sub as [y|]; cbn [sgetk jl_primary jl_secondary].
    + now destruct (nk_dec n0 n).
    + destruct (nk_dec n0 n) as [E|E].
      * rewrite <- (get_proj name_eqb nk name_eqb_iff _ _ _ E). apply (get_insert_same name_eqb nk name_eqb_iff).
      * now apply (get_insert_other name_eqb nk name_eqb_iff).
Qed.

Lemma dups_join j r : jl_dups (join_loc j r) =
  jl_dups j ++ match sgetk (r_name r) (r_sub r) j with Some o => [(o, r_loc r, r_full r)] | None => [] end.
Proof.
  destruct r as [[l n] [x|]]; unfold r_name, r_sub, r_loc, r_full; cbn [fst snd join_loc sgetk].
  - unfold insert_secondary. destruct (im_get name_eqb n (jl_secondary j)) as [m|]; cbn [jl_dups]; [|now rewrite app_nil_r].
    unfold r_name, r_sub. cbn [fst snd]. destruct (im_get sub_eqb x m); auto. now rewrite app_nil_r.
  - cbn [jl_dups]. unfold name_full, r_name, r_sub. cbn [fst snd]. rewrite app_nil_r. destruct (im_get name_eqb n (jl_primary j)); auto. now rewrite app_nil_r.
Qed.

Lemma in_insert_name {V} (n k : name) (v w : V) m : In (k, w) (im_insert name_eqb n v m) ->
  In (k, w) m \/ (w = v /\ nk k = nk n /\ (k = n \/ exists w', In (k, w') m)).
Proof.
  induction m as [|[k0 v0] m IH]; cbn [im_insert].
  - intros [H|[]]. injection H as <- <-. right. auto.
  - destruct (name_eqb k0 n) eqn:E; intros [H|H].
    + injection H as <- <-. right. apply name_eqb_iff in E. split; auto. split; auto. right. exists v0. now left.
    + left. now right.
    + left. now left.
    + destruct (IH H) as [H0|(? & ? & [?|(w' & ?)])]; [left; now right|right; auto|]. right. split; auto. split; auto. right. exists w'. now right.
Qed.

Lemma in_insert_sub {V} (n k : subname) (v w : V) m : In (k, w) (im_insert sub_eqb n v m) ->
  In (k, w) m \/ (w = v /\ s_key k = s_key n /\ (k = n \/ exists w', In (k, w') m)).
Proof.
  induction m as [|[k0 v0] m IH]; cbn [im_insert].
  - intros [H|[]]. injection H as <- <-. right. auto.
  - destruct (sub_eqb k0 n) eqn:E; intros [H|H].
    + injection H as <- <-. right. apply sub_eqb_iff in E. split; auto. split; auto. right. exists v0. now left.
    + left. now right.
    + left. now left.
    + destruct (IH H) as [H0|(? & ? & [?|(w' & ?)])]; [left; now right|right; auto|]. right. split; auto. split; auto. right. exists w'. now right.
Qed.

Lemma app_snoc_split {A} (l : list A) x a r b : l ++ [x] = a ++ r :: b ->
  (b = [] /\ a = l /\ r = x) \/ exists b', b = b' ++ [x] /\ l = a ++ r :: b'.
Proof.
  destruct b as [|y b] using rev_ind; intros E.
  - left. apply app_inj_tail in E as [-> ->]. auto.
  - right. exists b. split; [|]; change (a ++ r :: b ++ [y]) with (a ++ (r :: b) ++ [y]) in E; rewrite app_assoc in E; apply app_inj_tail in E as [-> ->]; auto.
Qed.

Lemma join_inv_step refs j r : join_inv refs j -> join_inv (refs ++ [r]) (join_loc j r).
Proof.
  intros I. constructor.
  - destruct r as [[l n] [x|]]; cbn [join_loc].
    + unfold insert_secondary. destruct (im_get name_eqb n (jl_secondary j)); apply (ji_prim _ _ I).
    + cbn [jl_primary]. apply (nodup_insert name_eqb nk name_eqb_iff). apply (ji_prim _ _ I).
  - destruct r as [[l n] [x|]]; cbn [join_loc].
    + unfold insert_secondary. destruct (im_get name_eqb n (jl_secondary j)); cbn [jl_secondary]; apply (nodup_insert name_eqb nk name_eqb_iff); apply (ji_sec _ _ I).
    + apply (ji_sec _ _ I).
  - intros k m Hin. destruct r as [[l n] [x|]]; cbn [join_loc] in Hin; [|exact (ji_subs _ _ I k m Hin)].
    unfold insert_secondary in Hin. destruct (im_get name_eqb n (jl_secondary j)) as [m0|] eqn:Em; cbn [jl_secondary] in Hin;
      apply in_insert_name in Hin as [Hin|(-> & _)]; try exact (ji_subs _ _ I k m Hin).
    + apply (get_some_in name_eqb nk name_eqb_iff) in Em as (k' & _ & Hk). destruct (ji_subs _ _ I _ _ Hk) as [Ne Nd]. split.
      * destruct m0 as [|[a b] m0]; [congruence|]. cbn [im_insert]. destruct (sub_eqb a x); discriminate.
      * now apply (nodup_insert sub_eqb s_key sub_eqb_iff).
    + split; [discriminate|]. repeat constructor. intros [].
  - intros n sub l. rewrite sgetk_join.
    assert (Old : sgetk n sub j = Some l -> rkey r <> (nk n, option_map s_key sub) ->
      exists a r0 b, refs ++ [r] = a ++ r0 :: b /\ rkey r0 = (nk n, option_map s_key sub) /\ r_loc r0 = l /\ forall r', In r' b -> rkey r' <> rkey r0).
    { intros H Hne. apply (ji_get _ _ I) in H as (a & r0 & b & -> & Ek & El & Hl). exists a, r0, (b ++ [r]). rewrite <- app_assoc. split; auto. split; auto. split; auto.
      intros r' Hin. apply in_app_iff in Hin as [Hin|[<-|[]]]; auto. now rewrite Ek. }
    assert (New : rkey r = (nk n, option_map s_key sub) -> r_loc r = l ->
      exists a r0 b, refs ++ [r] = a ++ r0 :: b /\ rkey r0 = (nk n, option_map s_key sub) /\ r_loc r0 = l /\ forall r', In r' b -> rkey r' <> rkey r0).
    { intros H Hl. exists refs, r, []. repeat split; auto. }
    assert (Back : (exists a r0 b, refs ++ [r] = a ++ r0 :: b /\ rkey r0 = (nk n, option_map s_key sub) /\ r_loc r0 = l /\ forall r', In r' b -> rkey r' <> rkey r0) ->
      (rkey r = (nk n, option_map s_key sub) /\ r_loc r = l) \/ (rkey r <> (nk n, option_map s_key sub) /\ sgetk n sub j = Some l)).
    { intros (a & r0 & b & E & Ek & El & Hl). apply app_snoc_split in E as [(-> & -> & ->)|(b' & -> & ->)]; [left; auto|]. right. split.
      - rewrite <- Ek. apply Hl. apply in_or_app. right. now left.
      - apply (ji_get _ _ I). exists a, r0, b'. repeat split; auto. intros r' Hin. apply Hl. apply in_or_app. auto. }
    unfold rkey in *. destruct (nk_dec (r_name r) n) as [En|En].
    + destruct (r_sub r) as [x|] eqn:Er, sub as [y|]; cbn [option_map] in *.
      * destruct (str_eq_dec (s_key x) (s_key y)) as [Es|Es].
        -- split; [intros [= <-]; apply New; congruence|]. intros H. apply Back in H as [[_ ->]|[H _]]; auto. exfalso. apply H. congruence.
        -- split; [intros H; apply Old; auto; congruence|]. intros H. apply Back in H as [[H _]|[_ H]]; auto. congruence.
      * split; [intros H; apply Old; auto; congruence|]. intros H. apply Back in H as [[H _]|[_ H]]; auto. congruence.
      * split; [intros H; apply Old; auto; congruence|]. intros H. apply Back in H as [[H _]|[_ H]]; auto. congruence.
      * split; [intros [= <-]; apply New; congruence|]. intros H. apply Back in H as [[_ ->]|[H _]]; auto. exfalso. apply H. congruence.
    + split; [intros H; apply Old; auto; congruence|]. intros H. apply Back in H as [[H _]|[_ H]]; auto. congruence.
  - intros d. rewrite dups_join, in_app_iff, (ji_dups _ _ I). split.
    + intros [(a & r1 & b & r2 & c & -> & Ek & Hb & ->)|H].
      * exists a, r1, b, r2, (c ++ [r]). split; [|auto]. rewrite <- app_assoc. cbn [app]. now rewrite <- app_assoc.
      * destruct (sgetk (r_name r) (r_sub r) j) as [o|] eqn:E; [|destruct H]. destruct H as [<-|[]].
        apply (ji_get _ _ I) in E as (a & r0 & b & -> & Ek & <- & Hl). exists a, r0, b, r, []. split; [now rewrite <- app_assoc|]. repeat split; auto.
    + intros (a & r1 & b & r2 & c & E & Ek & Hb & ->).
      change (a ++ r1 :: b ++ r2 :: c) with (a ++ (r1 :: b) ++ r2 :: c) in E. rewrite app_assoc in E.
      apply app_snoc_split in E as [(-> & Ea & ->)|(c' & -> & ->)].
      * right. subst refs. assert (sgetk (r_name r) (r_sub r) j = Some (r_loc r1)) as ->; [|now left].
        apply (ji_get _ _ I). exists a, r1, b. repeat split; auto.
      * left. exists a, r1, b, r2, c'. split; [now rewrite <- app_assoc|auto].
  - intros n l Hin. destruct r as [[l0 n0] [x|]]; cbn [join_loc] in Hin.
    + assert (H : In (n, l) (jl_primary j)) by (unfold insert_secondary in Hin; destruct (im_get name_eqb n0 (jl_secondary j)); exact Hin).
      apply (ji_pname _ _ I) in H as (r & Hr & ?). exists r. split; auto. apply in_or_app. auto.
    + cbn [jl_primary] in Hin. apply in_insert_name in Hin as [H|(-> & _ & [->|(w & H)])];
        try (apply (ji_pname _ _ I) in H as (r & Hr & ?); exists r; split; auto; apply in_or_app; auto).
      exists (l0, n0, None). split; [apply in_or_app; right; now left|auto].
  - intros n m Hin. destruct r as [[l0 n0] [x|]]; cbn [join_loc] in Hin.
    + assert (H : (exists m', In (n, m') (jl_secondary j)) \/ n = n0).
      { unfold insert_secondary in Hin. destruct (im_get name_eqb n0 (jl_secondary j)); cbn [jl_secondary] in Hin; apply in_insert_name in Hin as [H|(_ & _ & [->|H])]; eauto. }
      destruct H as [(m' & H)| ->].
      * apply (ji_sname _ _ I) in H as (r & Hr & ?). exists r. split; auto. apply in_or_app. auto.
      * exists (l0, n0, Some x). split; [apply in_or_app; right; now left|]. split; auto. discriminate.
    + apply (ji_sname _ _ I) in Hin as (r & Hr & ?). exists r. split; auto. apply in_or_app. auto.
  - intros n m sb l Hin Hsb. assert (Lift : (exists r0, In r0 refs /\ nk (r_name r0) = nk n /\ r_sub r0 = Some sb) -> exists r0, In r0 (refs ++ [r]) /\ nk (r_name r0) = nk n /\ r_sub r0 = Some sb).
    { intros (r0 & Hr & ?). exists r0. split; auto. apply in_or_app. auto. }
    destruct r as [[l0 n0] [x|]]; cbn [join_loc] in Hin.
    + unfold insert_secondary in Hin. destruct (im_get name_eqb n0 (jl_secondary j)) as [m0|] eqn:Em; cbn [jl_secondary] in Hin;
        apply in_insert_name in Hin as [H|(-> & En & _)]; try (apply Lift; eapply (ji_subname _ _ I); eauto; fail).
      * apply (get_some_in name_eqb nk name_eqb_iff) in Em as (k' & Ek & Hk).
        apply in_insert_sub in Hsb as [H|(-> & _ & [->|(w & H)])].
        -- apply Lift. destruct (ji_subname _ _ I _ _ _ _ Hk H) as (r0 & ? & ? & ?). exists r0. repeat split; auto. congruence.
        -- exists (l0, n0, Some x). split; [apply in_or_app; right; now left|]. split; auto.
        -- apply Lift. destruct (ji_subname _ _ I _ _ _ _ Hk H) as (r0 & ? & ? & ?). exists r0. repeat split; auto. congruence.
      * destruct Hsb as [Hsb|[]]. injection Hsb as <- <-. exists (l0, n0, Some x). split; [apply in_or_app; right; now left|]. split; auto.
    + apply Lift. eapply (ji_subname _ _ I); eauto.
Qed.

Lemma nodup_app_disj {A} (l1 l2 : list A) : NoDup l1 -> NoDup l2 -> (forall x, In x l1 -> In x l2 -> False) -> NoDup (l1 ++ l2).
Proof.
  intros N1 N2 H. induction N1 as [|a l1 Ha N1 IH]; auto. cbn [app]. constructor.
  - rewrite in_app_iff. intros [Hin|Hin]; auto. apply (H a); auto. now left.
  - apply IH. intros x Hx. apply H. now right.
Qed.

Lemma join_inv_all refs : join_inv refs (fold_left join_loc refs (mkJoining [] [] [])).
Proof.
  induction refs as [|r refs IH] using rev_ind.
  - constructor; try (cbn; constructor; fail); try (intros; contradiction).
    + intros n sub l. destruct sub; cbn; split; try discriminate; intros (a & r & b & E & _); destruct a; discriminate.
    + intros d. split; [intros []|]. intros (a & r1 & b & r2 & c & E & _). destruct a; discriminate.
  - rewrite fold_left_app. cbn [fold_left]. now apply join_inv_step.
Qed.

(** The second phase. *)
Notation NDn l := (NoDup (map (fun e => nk (fst e)) l)).

Lemma remove_in n sec (e : name * list (subname * code_loc)) : NDn sec -> In e (im_remove name_eqb n sec) <-> In e sec /\ nk (fst e) <> nk n.
Proof.
  intros ND. pose proof (remove_perm name_eqb nk name_eqb_iff sec n ND) as P. split.
  - intros H. apply (Permutation_in _ P) in H. apply filter_In in H as [H Hk]. split; auto. intros E. apply name_eqb_iff in E. rewrite E in Hk. discriminate.
  - intros [H Hk]. apply (Permutation_in _ (Permutation_sym P)). apply filter_In. split; auto.
    destruct (name_eqb (fst e) n) eqn:E; auto. apply name_eqb_iff in E. contradiction.
Qed.

Lemma join_primary_ok prim : forall sec out sec', NDn prim -> NDn sec -> join_primary prim sec = (out, sec') ->
  out = map (fun e => (fst e, mkCode (Some (snd e)) (match im_get name_eqb (fst e) sec with Some m => m | None => [] end))) prim /\
  NDn sec' /\ (forall e, In e sec' <-> In e sec /\ ~ In (nk (fst e)) (map (fun e => nk (fst e)) prim)).
Proof.
  induction prim as [|[n l] prim IH]; intros sec out sec' ND NS E; cbn [join_primary] in E.
  - injection E as <- <-. repeat split; auto; tauto.
  - destruct (join_primary prim (im_remove name_eqb n sec)) as [o s'] eqn:Ep. injection E as <- <-.
    inversion ND as [|? ? Hn ND']; subst.
    destruct (IH _ _ _ ND' (nodup_remove name_eqb nk name_eqb_iff _ _ NS) Ep) as (-> & NS' & Sub).
    split; [|split; auto].
    + cbn [map fst snd]. f_equal. apply map_ext_in. intros [k lk] Hk. cbn [fst snd]. f_equal. f_equal.
      rewrite (get_remove name_eqb nk name_eqb_iff sec n k NS). destruct (name_eqb n k) eqn:Ek; auto. exfalso. apply Hn. apply name_eqb_iff in Ek. cbn [fst]. rewrite Ek.
      apply (in_map (fun e => nk (fst e))) in Hk. exact Hk.
    + intros e. rewrite Sub, (remove_in n sec e NS). cbn [map fst]. firstorder.
Qed.

(** *** The outcome of joining *)
Lemma join_shape refs : let j := fold_left join_loc refs (mkJoining [] [] []) in
  exists sec, fst (join_locations refs) = jl_dups j /\
  snd (join_locations refs) =
    map (fun e => (fst e, mkCode (Some (snd e)) (match im_get name_eqb (fst e) (jl_secondary j) with Some m => m | None => [] end))) (jl_primary j)
    ++ map (fun e => (fst e, mkCode None (snd e))) sec /\
  NDn (snd (join_locations refs)) /\
  (forall e, In e sec <-> In e (jl_secondary j) /\ ~ In (nk (fst e)) (map (fun e => nk (fst e)) (jl_primary j))).
Proof.
  cbv zeta. unfold join_locations. set (j := fold_left join_loc refs (mkJoining [] [] [])).
  pose proof (join_inv_all refs) as I. fold j in I.
  destruct (join_primary (jl_primary j) (jl_secondary j)) as [out sec] eqn:E. cbn [fst snd].
  apply join_primary_ok in E as (-> & NS & Sub); try apply (ji_prim _ _ I); try apply (ji_sec _ _ I).
  exists sec. set (o := map _ (jl_primary j)).
  assert (Ko : map (fun e : name * impl_code => nk (fst e)) o = map (fun e => nk (fst e)) (jl_primary j)) by (unfold o; now rewrite map_map).
  assert (No : NDn o) by (rewrite Ko; apply (ji_prim _ _ I)).
  rewrite (collect_distinct name_eqb nk name_eqb_iff o No).
  set (q := map (fun e : name * list (subname * code_loc) => (fst e, mkCode None (snd e))) sec).
  assert (Kq : map (fun e : name * impl_code => nk (fst e)) q = map (fun e => nk (fst e)) sec) by (unfold q; now rewrite map_map).
  assert (All : NoDup (map (fun e => nk (fst e)) (o ++ q))).
  { rewrite map_app, Ko, Kq. apply nodup_app_disj; auto; [apply (ji_prim _ _ I)|]. intros x Hx Hx'.
    apply in_map_iff in Hx' as (e & <- & He). apply Sub in He as [_ He]. contradiction. }
  rewrite (extend_distinct name_eqb nk name_eqb_iff q o) by (first [exact All | (rewrite map_app in All; apply All)]).
  repeat split; auto; apply Sub; auto.
Qed.

Definition listed_k (out : list (name * impl_code)) (n : name) (sub : option subname) (l : code_loc) : Prop :=
  exists n' c, In (n', c) out /\ nk n' = nk n /\
    match sub with
    | None => ic_primary c = Some l
    | Some sb => exists sb', s_key sb' = s_key sb /\ In (sb', l) (ic_secondary c)
    end.

Lemma listed_get refs n sub l : listed_k (snd (join_locations refs)) n sub l <->
  sgetk n sub (fold_left join_loc refs (mkJoining [] [] [])) = Some l.
Proof.
  destruct (join_shape refs) as (sec & _ & Eo & ND & Sub). pose proof (join_inv_all refs) as I.
  set (j := fold_left join_loc refs (mkJoining [] [] [])) in *. rewrite Eo. unfold listed_k. split.
  - intros (n' & c & Hin & En & H). apply in_app_iff in Hin as [Hin|Hin]; apply in_map_iff in Hin as ([k v] & E & Hk); cbn [fst snd] in E; injection E as -> <-; cbn [ic_primary ic_secondary] in H.
    + destruct sub as [sb|]; cbn [sgetk].
      * rewrite (get_proj name_eqb nk name_eqb_iff _ _ _ (eq_sym En)). destruct H as (sb' & Es & Hs).
        destruct (im_get name_eqb n' (jl_secondary j)) as [m|] eqn:Em; [|destruct Hs].
        apply (get_some_in name_eqb nk name_eqb_iff) in Em as (k' & _ & Hk'). destruct (ji_subs _ _ I _ _ Hk') as [_ NDm].
        rewrite (get_proj sub_eqb s_key sub_eqb_iff _ _ _ (eq_sym Es)). now apply (in_get sub_eqb s_key sub_eqb_iff).
      * injection H as <-. rewrite (get_proj name_eqb nk name_eqb_iff _ _ _ (eq_sym En)). apply (in_get name_eqb nk name_eqb_iff); auto. apply (ji_prim _ _ I).
    + apply Sub in Hk as [Hk Hn]. destruct sub as [sb|]; [|discriminate]. cbn [sgetk].
      rewrite (get_proj name_eqb nk name_eqb_iff _ _ _ (eq_sym En)), (in_get name_eqb nk name_eqb_iff _ _ _ (ji_sec _ _ I) Hk).
      destruct H as (sb' & Es & Hs). destruct (ji_subs _ _ I _ _ Hk) as [_ NDm].
      rewrite (get_proj sub_eqb s_key sub_eqb_iff _ _ _ (eq_sym Es)). now apply (in_get sub_eqb s_key sub_eqb_iff).
  - intros H. destruct sub as [sb|]; cbn [sgetk] in H.
    + destruct (im_get name_eqb n (jl_secondary j)) as [m|] eqn:Em; [|discriminate].
      apply (get_some_in sub_eqb s_key sub_eqb_iff) in H as (sb' & Es & Hs).
      destruct (im_get name_eqb n (jl_primary j)) as [lp|] eqn:Ep.
      * apply (get_some_in name_eqb nk name_eqb_iff) in Ep as (k & Ek & Hk). exists k, (mkCode (Some lp) m). split; [|split; eauto].
        apply in_or_app. left. apply in_map_iff. exists (k, lp). cbn [fst snd]. now rewrite (get_proj name_eqb nk name_eqb_iff _ _ _ Ek), Em.
      * pose proof Em as Em'. apply (get_some_in name_eqb nk name_eqb_iff) in Em' as (k & Ek & Hk). exists k, (mkCode None m). split; [|split; eauto].
        apply in_or_app. right. apply in_map_iff. exists (k, m). split; auto. apply Sub. split; auto. cbn [fst]. rewrite Ek.
        now apply (get_none_iff name_eqb nk name_eqb_iff).
    + apply (get_some_in name_eqb nk name_eqb_iff) in H as (k & Ek & Hk).
      eexists k, (mkCode (Some l) _). split; [|split; [exact Ek|reflexivity]]. apply in_or_app. left. apply in_map_iff. exists (k, l). split; [reflexivity|auto].
Qed.

Lemma dups_nil_iff refs : fst (join_locations refs) = [] <-> NoDup (map rkey refs).
Proof.
  destruct (join_shape refs) as (sec & -> & _). pose proof (join_inv_all refs) as I.
  set (j := fold_left join_loc refs (mkJoining [] [] [])) in *. split.
  - intros E. assert (X : forall a r1 b r2 c, refs = a ++ r1 :: b ++ r2 :: c -> rkey r1 = rkey r2 -> False).
    { assert (Y : forall n a r1 b r2 c, length b <= n -> refs = a ++ r1 :: b ++ r2 :: c -> rkey r1 = rkey r2 -> False).
      { induction n as [|n IH]; intros a r1 b r2 c Hb Er Ek.
        - destruct b; [|cbn in Hb; lia]. assert (Hin : In (r_loc r1, r_loc r2, r_full r2) (jl_dups j)); [|rewrite E in Hin; destruct Hin].
          apply (ji_dups _ _ I). exists a, r1, [], r2, c. repeat split; auto.
        - destruct (existsb (fun r => if rkey_dec r r1 then true else false) b) eqn:Ex.
          + apply existsb_exists in Ex as (r & Hr & Hk). destruct (rkey_dec r r1) as [Hk'|]; [|discriminate].
            apply in_split in Hr as (b1 & b2 & ->). apply (IH a r1 b1 r (b2 ++ r2 :: c)); [|now rewrite Er, <- app_assoc|congruence].
            rewrite app_length in Hb. cbn in Hb. lia.
          + assert (Hin : In (r_loc r1, r_loc r2, r_full r2) (jl_dups j)); [|rewrite E in Hin; destruct Hin].
            apply (ji_dups _ _ I). exists a, r1, b, r2, c. repeat split; auto. intros r Hr Hk.
            assert (existsb (fun r => if rkey_dec r r1 then true else false) b = true); [|congruence].
            apply existsb_exists. exists r. split; auto. destruct (rkey_dec r r1); [reflexivity|contradiction]. }
      intros a r1 b r2 c. apply (Y (length b)). auto. }
    clear -X. induction refs as [|r refs IH]; [constructor|]. cbn [map]. constructor.
    + intros H. apply in_map_iff in H as (r2 & Ek & Hr). apply in_split in Hr as (b & c & ->). apply (X [] r b r2 c); auto.
    + apply IH. intros a r1 b r2 c -> Ek. apply (X (r :: a) r1 b r2 c); auto.
  - intros ND. destruct (jl_dups j) as [|d l] eqn:E; auto. exfalso.
    assert (Hin : In d (jl_dups j)) by (rewrite E; now left). apply (ji_dups _ _ I) in Hin as (a & r1 & b & r2 & c & -> & Ek & _ & _).
    rewrite map_app in ND. cbn [map] in ND. apply NoDup_remove_2 in ND. apply ND. apply in_or_app. right. rewrite map_app. apply in_or_app. right. cbn [map]. now left.
Qed.

(** Without duplicates: exactly the references. *)
Lemma listed_nodup refs : NoDup (map rkey refs) -> forall n sub l, listed_k (snd (join_locations refs)) n sub l <->
  exists r, In r refs /\ rkey r = (nk n, option_map s_key sub) /\ r_loc r = l.
Proof.
  intros ND n sub l. rewrite listed_get, (ji_get _ _ (join_inv_all refs)). split.
  - intros (a & r & b & -> & Ek & El & _). exists r. split; auto. apply in_or_app. right. now left.
  - intros (r & Hr & Ek & El). apply in_split in Hr as (a & b & ->). exists a, r, b. repeat split; auto. intros r' Hr' E.
    rewrite map_app in ND. cbn [map] in ND. apply NoDup_remove_2 in ND. apply ND. apply in_or_app. right. apply in_map_iff. eauto.
Qed.

(** The spelling of what is listed. *)
Lemma out_entry refs n c : NoDup (map rkey refs) -> In (n, c) (snd (join_locations refs)) ->
  (exists r, In r refs /\ r_name r = n /\ (ic_primary c <> None -> r_sub r = None)) /\
  (forall l, ic_primary c = Some l <-> exists r, In r refs /\ nk (r_name r) = nk n /\ r_sub r = None /\ r_loc r = l) /\
  (forall sb l, In (sb, l) (ic_secondary c) <-> exists r, In r refs /\ nk (r_name r) = nk n /\ r_sub r = Some sb /\ r_loc r = l) /\
  NoDup (map (fun e => s_key (fst e)) (ic_secondary c)) /\ (ic_primary c <> None \/ ic_secondary c <> []).
Proof.
  intros NDr Hin. destruct (join_shape refs) as (sec & _ & Eo & ND & Sub). pose proof (join_inv_all refs) as I.
  pose proof (listed_nodup refs NDr) as L.
  set (j := fold_left join_loc refs (mkJoining [] [] [])) in *.
  assert (NDs : NoDup (map (fun e => s_key (fst e)) (ic_secondary c)) /\ (ic_primary c <> None \/ ic_secondary c <> [])).
  { rewrite Eo in Hin. apply in_app_iff in Hin as [Hin|Hin]; apply in_map_iff in Hin as ([k v] & E & Hk); cbn [fst snd] in E; injection E as <- <-; cbn [ic_primary ic_secondary].
    - split; [|left; discriminate]. destruct (im_get name_eqb k (jl_secondary j)) as [m|] eqn:Em; [|constructor].
      apply (get_some_in name_eqb nk name_eqb_iff) in Em as (k' & _ & Hk'). now destruct (ji_subs _ _ I _ _ Hk').
    - apply Sub in Hk as [Hk _]. destruct (ji_subs _ _ I _ _ Hk). split; auto. }
  assert (Sn : forall sb l, In (sb, l) (ic_secondary c) -> exists r, In r refs /\ nk (r_name r) = nk n /\ r_sub r = Some sb).
  { intros sb l Hs. rewrite Eo in Hin. apply in_app_iff in Hin as [Hin'|Hin']; apply in_map_iff in Hin' as ([k v] & E & Hk); cbn [fst snd] in E; injection E as <- <-; cbn [ic_primary ic_secondary] in *.
    - destruct (im_get name_eqb k (jl_secondary j)) as [m|] eqn:Em; [|destruct Hs].
      apply (get_some_in name_eqb nk name_eqb_iff) in Em as (k' & Ek & Hk'). destruct (ji_subname _ _ I _ _ _ _ Hk' Hs) as (r & ? & ? & ?). exists r. repeat split; auto. congruence.
    - apply Sub in Hk as [Hk _]. eapply (ji_subname _ _ I); eauto. }
  assert (Uniq : forall c', (exists n', In (n', c') (snd (join_locations refs)) /\ nk n' = nk n) -> c' = c).
  { intros c' (n' & H' & En). pose proof (in_get name_eqb nk name_eqb_iff _ _ _ ND Hin) as G1. pose proof (in_get name_eqb nk name_eqb_iff _ _ _ ND H') as G2.
    rewrite (get_proj name_eqb nk name_eqb_iff _ _ _ En) in G2. congruence. }
  split; [|split; [|split; [|exact NDs]]].
  - rewrite Eo in Hin. apply in_app_iff in Hin as [Hin'|Hin']; apply in_map_iff in Hin' as ([k v] & E & Hk); cbn [fst snd] in E; injection E as <- <-; cbn [ic_primary].
    + apply (ji_pname _ _ I) in Hk as (r & ? & ? & ?). eauto.
    + apply Sub in Hk as [Hk _]. apply (ji_sname _ _ I) in Hk as (r & ? & ? & ?). exists r. repeat split; auto. intros H'. now destruct H'.
  - intros l. split.
    + intros H. destruct (proj1 (L n None l)) as (r & Hr & Ek & El); [exists n, c; auto|]. unfold rkey in Ek. exists r. destruct (r_sub r); [discriminate|]. injection Ek as E1 E2. repeat split; auto. unfold nk. congruence.
    + intros (r & Hr & En & Es & El). destruct (proj2 (L n None l)) as (n' & c' & H' & En' & Hp); [exists r; split; auto; split; auto; unfold rkey; now rewrite En, Es|].
      rewrite <- (Uniq c'); eauto.
  - intros sb l. split.
    + intros H. destruct (Sn _ _ H) as (r & Hr & En & Es). exists r. repeat split; auto.
      destruct (proj1 (L n (Some sb) l)) as (r' & Hr' & Ek' & El'); [exists n, c; repeat split; eauto|].
      assert (r' = r) as <-; auto.
      assert (Ek : rkey r' = rkey r) by (rewrite Ek'; unfold rkey; now rewrite En, Es).
      clear -NDr Hr Hr' Ek. induction refs as [|a refs IH]; [destruct Hr|]. inversion NDr as [|? ? Hn N']; subst. destruct Hr as [->|Hr], Hr' as [->|Hr']; auto.
      * exfalso. apply Hn. rewrite <- Ek. now apply in_map.
      * exfalso. apply Hn. rewrite Ek. now apply in_map.
    + intros (r & Hr & En & Es & El). destruct (proj2 (L n (Some sb) l)) as (n' & c' & H' & En' & sb' & Es' & Hs); [exists r; split; auto; split; auto; unfold rkey; now rewrite En, Es|].
      assert (c' = c) as -> by eauto. destruct (Sn _ _ Hs) as (r' & Hr' & En2 & Es2).
      assert (r' = r) as ->; [|congruence].
      assert (Ek : rkey r' = rkey r) by (unfold rkey; rewrite En, Es, En2, Es2; cbn [option_map]; now rewrite Es').
      clear -NDr Hr Hr' Ek. induction refs as [|a refs IH]; [destruct Hr|]. inversion NDr as [|? ? Hn N']; subst. destruct Hr as [->|Hr], Hr' as [->|Hr']; auto.
      * exfalso. apply Hn. rewrite <- Ek. now apply in_map.
      * exfalso. apply Hn. rewrite Ek. now apply in_map.
Qed.

Lemma nodup_map_inv {A B} (f : A -> B) l : NoDup (map f l) -> NoDup l.
Proof. intros H. induction l as [|a l IH]; [constructor|]. inversion H; subst. constructor; auto. intros Hin. apply H2. now apply in_map. Qed.

(** Two arrival orders. *)
Lemma join_perm refs refs' : Permutation refs refs' -> NoDup (map rkey refs) ->
  forall n c, In (n, c) (snd (join_locations refs)) -> exists n' c', In (n', c') (snd (join_locations refs')) /\ nk n' = nk n /\
    ic_primary c' = ic_primary c /\ Permutation (ic_secondary c) (ic_secondary c') /\ (ic_primary c <> None -> n' = n).
Proof.
  intros P ND n c Hin. assert (ND' : NoDup (map rkey refs')) by (eapply Permutation_NoDup; [apply Permutation_map, P|auto]).
  destruct (out_entry refs n c ND Hin) as ((r0 & Hr0 & Er0 & Ep0) & Pp & Ss & NDs & Ne).
  assert (Pin : forall r, In r refs <-> In r refs') by (intros r; split; apply Permutation_in; [|apply Permutation_sym]; auto).
  assert (exists n' c', In (n', c') (snd (join_locations refs')) /\ nk n' = nk n) as (n' & c' & Hin' & En).
  { destruct (proj2 (listed_nodup refs' ND' (r_name r0) (r_sub r0) (r_loc r0))) as (n' & c' & H' & En & _).
    - exists r0. repeat split; auto. now apply Pin.
    - exists n', c'. split; auto. congruence. }
  destruct (out_entry refs' n' c' ND' Hin') as ((r1 & Hr1 & Er1 & Ep1) & Pp' & Ss' & NDs' & Ne').
  assert (Pr : ic_primary c' = ic_primary c).
  { destruct (ic_primary c) as [l|] eqn:E.
    - apply Pp'. destruct (proj1 (Pp l) eq_refl) as (r & ? & ? & ? & ?). exists r. repeat split; auto; [now apply Pin|congruence].
    - destruct (ic_primary c') as [l|] eqn:E'; auto. destruct (proj1 (Pp' l) eq_refl) as (r & ? & ? & ? & ?).
      symmetry. apply Pp. exists r. repeat split; auto; [now apply Pin|congruence]. }
  exists n', c'. repeat split; auto.
  - apply NoDup_Permutation; try (eapply nodup_map_inv; eassumption). intros [sb l]. rewrite Ss, Ss'.
    split; intros (r & ? & ? & ? & ?); exists r; repeat split; auto; try (now apply Pin); congruence.
  - intros Hp. specialize (Ep0 Hp). rewrite <- Pr in Hp. specialize (Ep1 Hp).
    assert (r1 = r0) as E; [|congruence].
    assert (Ek : rkey r1 = rkey r0) by (unfold rkey; rewrite Ep0, Ep1, Er0, Er1, En; reflexivity).
    apply Pin in Hr1. clear -ND Hr0 Hr1 Ek. induction refs as [|a refs IH]; [destruct Hr0|]. inversion ND as [|? ? Hn N']; subst. destruct Hr0 as [->|Hr0], Hr1 as [->|Hr1]; auto.
    + exfalso. apply Hn. rewrite <- Ek. now apply in_map.
    + exfalso. apply Hn. rewrite Ek. now apply in_map.
Qed.
