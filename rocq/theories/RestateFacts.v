(** The same written elsewhere (C90, C91). *)
From Coq Require Import Lia Permutation Relations ZArith.
From Verif Require Import Base BaseFacts Name SpecName NameFacts SubFacts Artifact Stored SpecGraph SpecLinks LinkFacts BuildFacts ProjectFacts
  Numbers SpecCompletion RowFacts CompletionFacts CompletionThms Lint SpecLint LintFacts LintThms Source SpecJoin JoinFacts JoinThms SpecLocal LocalFacts.
Open Scope nat_scope.

(** ** Joined references *)
Lemma loc_ref refs n sub : NoDup (map rkey refs) ->
  (exists r, In r refs /\ rkey r = (nk n, option_map s_key sub)) <-> exists l, listed_k (snd (join_locations refs)) n sub l.
Proof.
  intros ND. split.
  - intros (r & Hr & Er). exists (r_loc r). apply (listed_nodup refs ND). eauto.
  - intros (l & L). apply (listed_nodup refs ND) in L as (r & Hr & Er & _). eauto.
Qed.
Lemma get_some refs n c : NoDup (map rkey refs) -> im_get name_eqb n (snd (join_locations refs)) = Some c ->
  (exists r, In r refs /\ nk (r_name r) = nk n) /\
  (ic_primary c <> None <-> exists r, In r refs /\ rkey r = (nk n, None)) /\
  (forall x, linked c x = true <-> exists r, In r refs /\ rkey r = (nk n, Some (s_key x))).
Proof.
  intros ND E. destruct (get_some_in name_eqb nk name_eqb_iff _ _ _ E) as (m & Em & Hm).
  destruct (out_entry refs m c ND Hm) as ((r0 & H0 & En0 & _) & P & S & _). split; [exists r0; split; [auto|congruence]|]. split.
  - destruct (ic_primary c) as [l|] eqn:Ec.
    + split; [intros _|discriminate]. destruct (proj1 (P l) eq_refl) as (r & Hr & En & Es & _). exists r. split; auto. unfold rkey. now rewrite En, Es, Em.
    + split; [congruence|]. intros (r & Hr & Er). unfold rkey in Er. assert (E1 : nk (r_name r) = nk n) by congruence. assert (E2 : option_map s_key (r_sub r) = None) by congruence. exfalso. assert (X : @None code_loc = Some (r_loc r)); [|discriminate X].
      apply P. exists r. split; auto. rewrite Em. split; [exact E1|]. split; auto. destruct (r_sub r); [discriminate|reflexivity].
  - intros x. unfold linked. rewrite existsb_exists. split.
    + intros ([z l] & Hz & Ez). apply str_eqb_eq in Ez. cbn [fst] in Ez. apply S in Hz as (r & Hr & En & Es & _). exists r. split; auto. unfold rkey. rewrite En, Es, Em. cbn [option_map]. now rewrite Ez.
    + intros (r & Hr & Er). unfold rkey in Er. destruct (r_sub r) as [z|] eqn:Es; [|discriminate]. cbn [option_map] in Er. exists (z, r_loc r). split.
      * apply S. exists r. split; auto. split; [congruence|auto].
      * cbn [fst]. apply str_eqb_eq. congruence.
Qed.
Lemma get_none refs n r : NoDup (map rkey refs) -> im_get name_eqb n (snd (join_locations refs)) = None -> In r refs -> nk (r_name r) = nk n -> False.
Proof.
  intros ND E Hr En. destruct (proj1 (loc_ref refs n (r_sub r) ND)) as (l & m & c & Hm & Em & _).
  { exists r. split; auto. unfold rkey. now rewrite En. }
  apply (get_none_iff name_eqb nk name_eqb_iff) in E. apply E. apply in_map_iff. exists (m, c). auto.
Qed.

Definition codes_alike (n : name) (code code' : list (name * impl_code)) : Prop :=
  match im_get name_eqb n code, im_get name_eqb n code' with
  | Some c, Some c' => (ic_primary c = None <-> ic_primary c' = None) /\ forall x, linked c x = linked c' x
  | None, None => True
  | _, _ => False
  end.
Lemma join_alike refs refs' n : NoDup (map rkey refs) -> NoDup (map rkey refs') ->
  (forall r, In r refs -> nk (r_name r) = nk n -> exists r', In r' refs' /\ rkey r' = rkey r) ->
  (forall r', In r' refs' -> nk (r_name r') = nk n -> exists r, In r refs /\ rkey r = rkey r') ->
  codes_alike n (snd (join_locations refs)) (snd (join_locations refs')).
Proof.
  intros ND ND' F F'. unfold codes_alike.
  assert (K : forall r r', rkey r = rkey r' -> nk (r_name r) = nk (r_name r')) by (unfold rkey; congruence).
  assert (Q : forall k, (exists r, In r refs /\ rkey r = (nk n, k)) <-> (exists r, In r refs' /\ rkey r = (nk n, k))).
  { intros k. split; intros (r & Hr & Er).
    - destruct (F r Hr) as (r' & Hr' & E); [unfold rkey in Er; congruence|]. exists r'. split; [auto|congruence].
    - destruct (F' r Hr) as (r' & Hr' & E); [unfold rkey in Er; congruence|]. exists r'. split; [auto|congruence]. }
  destruct (im_get name_eqb n (snd (join_locations refs))) as [c|] eqn:E, (im_get name_eqb n (snd (join_locations refs'))) as [c'|] eqn:E'; auto.
  - destruct (get_some refs n c ND E) as (_ & P & L), (get_some refs' n c' ND' E') as (_ & P' & L'). split.
    + assert (X : ic_primary c <> None <-> ic_primary c' <> None) by (rewrite P, P'; apply Q). destruct (ic_primary c), (ic_primary c'); split; try congruence; intros _; exfalso; [apply (proj1 X)|apply (proj2 X)]; congruence.
    + intros x. assert (X : linked c x = true <-> linked c' x = true) by (rewrite L, L'; apply Q). destruct (linked c x), (linked c' x); auto; [symmetry|]; apply X; reflexivity.
  - destruct (get_some refs n c ND E) as ((r & Hr & En) & _). destruct (F r Hr En) as (r' & Hr' & Ek). apply (get_none refs' n r' ND' E' Hr'). rewrite (K _ _ Ek). exact En.
  - destruct (get_some refs' n c' ND' E') as ((r & Hr & En) & _). destruct (F' r Hr En) as (r' & Hr' & Ek). apply (get_none refs n r' ND E Hr'). rewrite (K _ _ Ek). exact En.
Qed.

Lemma impl_im_alike code code' a a' : nk (im_name a') = nk (im_name a) -> im_done a' = im_done a -> codes_alike (im_name a) code code' -> impl_alike (impl_im code a) (impl_im code' a').
Proof.
  intros En Ed C. unfold impl_im. rewrite Ed. destruct (im_done a); [reflexivity|]. unfold codes_alike in C. rewrite (get_proj name_eqb nk name_eqb_iff code' _ _ En).
  destruct (im_get name_eqb (im_name a) code), (im_get name_eqb (im_name a) code'); try contradiction; cbn [impl_alike]; auto.
Qed.
Lemma own_alike i i' subs : impl_alike i i' -> own_spc i subs = own_spc i' subs /\ own_tst i subs = own_tst i' subs.
Proof.
  destruct i as [d|c|], i' as [d'|c'|]; cbn [impl_alike]; intros E; try contradiction; auto. destruct E as [P L]. unfold own_spc, own_tst.
  rewrite !(filter_ext (linked c) (linked c') L). split; auto. f_equal. f_equal.
  destruct (ic_primary c) as [u|], (ic_primary c') as [v|]; try reflexivity; exfalso; [enough (Y : Some u = None) by discriminate Y|enough (Y : Some v = None) by discriminate Y]; now apply P.
Qed.

(** ** Edits *)
Section Edit.
  Variables (M M' : num) (topo topo' : graph -> option (list nat)) (H H' : Type) (hash_im : art_im -> H) (hash_im' : art_im -> H').
  Hypothesis TC : topo_ok topo.
  Hypothesis TC' : topo_ok topo'.
  Variables (arts arts' : list art_im) (refs refs' : list src_ref).
  Notation code := (snd (join_locations refs)).
  Notation code' := (snd (join_locations refs')).
  Variables (out : list (name * artifact M H)) (out' : list (name * artifact M' H')).
  Hypothesis W : Forall im_wf arts.
  Hypothesis W' : Forall im_wf arts'.
  Hypothesis D : distinct arts.
  Hypothesis D' : distinct arts'.
  Hypothesis Wr : Forall ref_wf refs.
  Hypothesis Wr' : Forall ref_wf refs'.
  Hypothesis NR : forall i j, ~ repeated refs i j.
  Hypothesis NR' : forall i j, ~ repeated refs' i j.
  Hypothesis E : build M topo H hash_im arts code = Ok out.
  Hypothesis E' : build M' topo' H' hash_im' arts' code' = Ok out'.
  Variable X : str -> Prop.
  Hypothesis Ed : edits_only X arts arts' refs refs'.

  Lemma im_name_wf l a : Forall im_wf l -> In a l -> name_wf (im_name a).
  Proof. intros F Ha. rewrite Forall_forall in F. apply (F a Ha). Qed.
  Lemma key_nk a b : name_wf a -> name_wf b -> n_key a = n_key b -> nk a = nk b.
  Proof. intros Wa Wb Ek. unfold nk. now rewrite Ek, (key_eq_ty a b Wa Wb Ek). Qed.

  Lemma edit_codes n : name_wf n -> ~ X (n_key n) -> codes_alike n code code'.
  Proof.
    intros Wn Hx. destruct Ed as (_ & _ & R & R'). rewrite Forall_forall in Wr, Wr'. assert (F : Forall ref_wf refs) by now apply Forall_forall. assert (F' : Forall ref_wf refs') by now apply Forall_forall.
    apply join_alike.
    - now apply nodup_repeated.
    - now apply nodup_repeated.
    - intros r Hr En. destruct (R r Hr) as (r' & Hr' & S); [unfold nk in En; change (ref_name r) with (r_name r); congruence|].
      exists r'. split; auto. symmetry. now apply same_ref_key; auto.
    - intros r Hr En. destruct (R' r Hr) as (r' & Hr' & S); [unfold nk in En; change (ref_name r) with (r_name r); congruence|].
      exists r'. split; auto. now apply same_ref_key; auto.
  Qed.

  (** An artifact that was not changed, before and after. *)
  Lemma edit_entry n x : In (n, x) out -> ~ X (n_key n) -> exists n' x', In (n', x') out' /\ n_key n' = n_key n /\
    a_text x = a_text x' /\ a_subnames x = a_subnames x' /\ impl_alike (a_impl x) (a_impl x') /\
    (forall k, ~ X k -> (In k (map n_key (a_partof x)) <-> In k (map n_key (a_partof x')))).
  Proof.
    intros Hx Nx. destruct (out_entries M topo H hash_im TC arts code out W D E) as [O1 O2]. destruct (out_entries M' topo' H' hash_im' TC' arts' code' out' W' D' E') as [O1' O2'].
    pose proof (build_out M topo H hash_im TC arts code out W E) as OO. pose proof (build_out M' topo' H' hash_im' TC' arts' code' out' W' E') as OO'.
    destruct (O1 n x Hx) as (a & Ha & ->). pose proof Ed as (A & A' & _). destruct (A a Ha Nx) as (a' & Ha' & Ek & Edn & Et & Ep).
    destruct (O2 a Ha) as (x0 & Hx0 & I1 & I2 & _ & _ & I3 & _). destruct (out_same out OO _ _ _ _ Hx Hx0 eq_refl) as [_ <-].
    destruct (O2' a' Ha') as (x' & Hx' & I1' & I2' & _ & _ & I3' & _).
    pose proof (im_name_wf arts a W Ha) as Wn. pose proof (im_name_wf arts' a' W' Ha') as Wn'.
    exists (im_name a'), x'. split; auto. split; auto. split; [congruence|]. split; [rewrite I2, I2'; unfold subs_im; now rewrite Et|]. split.
    { rewrite I1, I1'. apply impl_im_alike; auto; [now apply key_nk|]. now apply edit_codes. }
    destruct (partof_exact M topo H hash_im TC arts code out W D E a Ha) as (y & Hy & PE). destruct (out_same out OO _ _ _ _ Hx Hy eq_refl) as [_ <-].
    destruct (partof_exact M' topo' H' hash_im' TC' arts' code' out' W' D' E' a' Ha') as (y' & Hy' & PE'). destruct (out_same out' OO' _ _ _ _ Hx' Hy' eq_refl) as [_ <-].
    assert (B1 : forall q, In q (a_partof x) -> name_wf q) by (intros q Hq; exact (built_partof_wf M topo H hash_im TC arts code out W D E (mkProject out code [] [] None) eq_refl _ _ q Hx Hq)).
    assert (B2 : forall q, In q (a_partof x') -> name_wf q) by (intros q Hq; exact (built_partof_wf M' topo' H' hash_im' TC' arts' code' out' W' D' E' (mkProject out' code' [] [] None) eq_refl _ _ q Hx' Hq)).
    intros k Hk. split; intros I; apply in_map_iff in I as (q & <- & Hq).
    - assert (Wq := B1 q Hq). assert (N : named q (a_partof x)) by (exists q; auto). apply (PE q Wq) in N.
      assert (N' : named q (a_partof x')).
      { apply (PE' q Wq). rewrite Ek. destruct N as [[N1 N2]|[N1 (b & Hb & Eb)]].
        - left. split; auto. now apply Ep.
        - right. split; auto. destruct (A b Hb) as (b' & Hb' & Eb' & _); [now rewrite Eb|]. exists b'. split; [auto|congruence]. }
      destruct N' as (r & Hr & Er). apply in_map_iff. exists r. auto.
    - assert (Wq := B2 q Hq). assert (N : named q (a_partof x')) by (exists q; auto). apply (PE' q Wq) in N.
      assert (N' : named q (a_partof x)).
      { apply (PE q Wq). rewrite Ek in N. destruct N as [[N1 N2]|[N1 (b & Hb & Eb)]].
        - left. split; auto. now apply Ep.
        - right. split; auto. destruct (A' b Hb) as (b' & Hb' & Eb'); [now rewrite Eb|]. exists b'. split; [auto|congruence]. }
      destruct N' as (r & Hr & Er). apply in_map_iff. exists r. auto.
  Qed.
  Lemma edit_changed : changed_only X out out'.
  Proof.
    split.
    - intros n x Hx Nx. destruct (edit_entry n x Hx Nx) as (n' & x' & Hx' & En & Et & Es & Ei & Ep). exists n', x'. split; auto. split; auto. split; auto.
      rewrite <- Es. now apply own_alike.
    - intros n' x' Hx' Nx. destruct (out_entries M topo H hash_im TC arts code out W D E) as [_ O2]. destruct (out_entries M' topo' H' hash_im' TC' arts' code' out' W' D' E') as [O1' _].
      destruct (O1' n' x' Hx') as (a' & Ha' & ->). pose proof Ed as (_ & A' & _). destruct (A' a' Ha' Nx) as (a & Ha & Ek). destruct (O2 a Ha) as (x & Hx & _). exists (im_name a), x. auto.
  Qed.
End Edit.
