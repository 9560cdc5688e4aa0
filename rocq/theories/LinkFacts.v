(** Proofs about links, stored forms, and what [build] says about them. *)
From Verif Require Import Base BaseFacts Name SpecName NameFacts Family FamilyFacts RawNamesFacts Artifact Stored
  SpecGraph GraphFacts CompletedFacts BuildFacts SpecLinks.
From Coq Require Import Permutation Lia Sorted.

Definition tail_of (es : list str) : str := concat (map (fun e => c_dash :: e) es).

Lemma join_tail p es : join [c_dash] (p :: es) = p ++ tail_of es.
Proof.
  revert p; induction es as [|e es IH]; intros p.
  - simpl. now rewrite app_nil_r.
  - rewrite join_cons by discriminate. rewrite IH. reflexivity.
Qed.

Lemma ty_upper t p : str_ci (ty_str t) p -> upper p = ty_str t.
Proof. intros H. apply str_ci_upper in H. rewrite <- H. destruct t; reflexivity. Qed.

Lemma key_form n p es : name_wf n -> pieces_of n p es -> n_key n = ty_str (n_ty n) ++ tail_of (map upper es).
Proof.
  intros W P. rewrite (pieces_upper n p es) by auto. rewrite join_tail.
  rewrite (ty_upper (n_ty n)); auto. apply P.
Qed.

Lemma tail_snoc es e : tail_of (es ++ [e]) = tail_of es ++ c_dash :: e.
Proof. unfold tail_of. rewrite map_app, concat_app. simpl. now rewrite app_nil_r. Qed.

Lemma last_dash (a b u v : str) : ~ In c_dash u -> ~ In c_dash v ->
  a ++ c_dash :: u = b ++ c_dash :: v -> a = b /\ u = v.
Proof.
  intros Hu Hv E. apply (f_equal (@rev _)) in E. rewrite !rev_app_distr in E. simpl in E.
  rewrite <- !app_assoc in E. simpl in E. apply app_stop in E.
  - destruct E as [E1 E2]. apply (f_equal (@rev _)) in E1, E2. rewrite !rev_involutive in *. auto.
  - now rewrite <- in_rev.
  - now rewrite <- in_rev.
Qed.

Lemma ty_no_dash t : ~ In c_dash (ty_str t).
Proof. destruct t; simpl; intros H; repeat (destruct H as [H|H]; [discriminate|]); exact H. Qed.

Lemma own_parent_iff n q : name_wf n -> name_wf q ->
  own_parent (n_key n) (n_key q) <-> exists p, parent_of n = Some p /\ nk p = nk q.
Proof.
  intros Wn Wq. split.
  - intros (Hd & e' & He' & E). destruct (wf_pieces n Wn) as (p & es & P).
    destruct (exists_last (proj1 (proj1 P))) as (es' & e & ->).
    pose proof (key_form n p _ Wn P) as K. rewrite map_app in K. simpl in K. rewrite tail_snoc, app_assoc in K.
    rewrite K in E. change 45%N with c_dash in *. apply last_dash in E; auto.
    2: { apply upper_no_dash, element_no_dash. destruct P as [(_ & He & _) _].
         rewrite Forall_forall in He. apply He, in_or_app. simpl; auto. }
    destruct E as [E _]. destruct es' as [|x es'].
    + exfalso. rewrite <- E in Hd. simpl in Hd. rewrite app_nil_r in Hd. now apply ty_no_dash in Hd.
    + destruct (parent_deep n p (x :: es') e) as (m & Em & Wm & Tm & Pm); auto; [discriminate|].
      exists m. split; [unfold parent_of; now rewrite Em|]. apply nk_key; auto.
      rewrite (key_form m _ _ Wm Pm), Tm. exact E.
  - intros (m & E & Hk). apply (nk_key m q (parent_wf n m Wn E) Wq) in Hk.
    destruct (parent_of_spec n m Wn E) as (Wm & Tm & p & es & e & Hne & P1 & P2). rewrite <- Hk.
    rewrite (key_form n _ _ Wn P1), (key_form m _ _ Wm P2), Tm. split.
    + destruct es; [congruence|]. apply in_or_app. right. left. reflexivity.
    + exists (upper e). split.
      * apply upper_no_dash, element_no_dash. destruct P1 as [(_ & He & _) _].
        rewrite Forall_forall in He. apply He, in_or_app. simpl; auto.
      * rewrite map_app. simpl. rewrite tail_snoc, app_assoc. reflexivity.
Qed.

Lemma key_ty_tail n t r : name_wf n -> n_key n = ty_str t ++ r -> n_ty n = t.
Proof.
  intros W K. destruct (wf_pieces n W) as (p & es & P). rewrite (key_form n p es W P) in K.
  apply app_eq_len in K; [|destruct t, (n_ty n); reflexivity]. destruct K as [K _].
  destruct t, (n_ty n); auto; discriminate.
Qed.

Lemma own_auto_iff n q : name_wf n -> name_wf q ->
  own_auto (n_key n) (n_key q) <-> exists p, auto_of n = Some p /\ nk p = nk q.
Proof.
  intros Wn Wq. split.
  - intros (r & H). destruct (wf_pieces n Wn) as (p & es & P).
    assert (H' : exists t u, n_key n = ty_str t ++ r /\ n_key q = ty_str u ++ r /\ auto_ty t = Some u).
    { destruct H as [[H1 H2]|[H1 H2]]; [exists SPC, REQ|exists TST, SPC]; auto. }
    clear H. destruct H' as (t & u & H1 & H2 & H3). pose proof (key_ty_tail n t r Wn H1) as Tn. subst t.
    destruct (auto_some n p es u P H3) as (m & Em & Wm & Tm & Pm). exists m.
    split; [unfold auto_of; now rewrite Em|]. apply nk_key; auto.
    rewrite (key_form m _ _ Wm Pm), H2, Tm. f_equal.
    rewrite (key_form n _ _ Wn P) in H1. now apply app_inv_head in H1.
  - intros (m & E & Hk). apply (nk_key m q (auto_wf n m Wn E) Wq) in Hk.
    destruct (auto_of_spec n m Wn E) as (Wm & Tm & p & es & P1 & P2). rewrite <- Hk.
    rewrite (key_form n _ _ Wn P1), (key_form m _ _ Wm P2). exists (tail_of (map upper es)).
    destruct (n_ty n), (n_ty m); try discriminate; auto.
Qed.

(** ** Sets of names *)
Lemma im_wf_set a : im_wf a -> name_set (im_partof a).
Proof.
  intros [W L Nd]. split; auto. clear W. induction (im_partof a) as [|x l IH]; simpl; constructor.
  - inversion Nd as [|? ? Hn Nd']; subst. inversion L as [|? ? Wx Wl]; subst. intros H.
    apply in_map_iff in H as (y & E & Hy). apply Hn. apply in_map_iff. exists y. split; auto.
    rewrite Forall_forall in Wl. apply nk_key; auto.
  - inversion Nd; subst. inversion L; subst. auto.
Qed.

Lemma named_iff q l : name_wf q -> Forall name_wf l -> named q l <-> In (nk q) (map nk l).
Proof.
  intros Wq Wl. rewrite Forall_forall in Wl. unfold named. rewrite in_map_iff. split.
  - intros (p & H & E). exists p. split; auto. apply nk_key; auto.
  - intros (p & E & H). exists p. split; auto. apply nk_key; auto.
Qed.

Definition own_key (n : name) (k : ty * str) : Prop :=
  (exists p, parent_of n = Some p /\ nk p = k) \/ (exists p, auto_of n = Some p /\ nk p = k).

Lemma own_link_iff n q : name_wf n -> name_wf q -> own_link (n_key n) (n_key q) <-> own_key n (nk q).
Proof. intros Wn Wq. unfold own_link, own_key. now rewrite own_parent_iff, own_auto_iff. Qed.

Lemma strip_in n l x : NoDup (map nk l) -> In x (strip_auto n l) <-> In x l /\ ~ own_key n (nk x).
Proof.
  intros ND. unfold strip_auto, own_key.
  set (l1 := match parent_of n with Some a => is_remove name_eqb a l | None => l end).
  assert (N1 : NoDup (map nk l1)).
  { unfold l1. destruct (parent_of n); auto. now apply (is_remove_nodup name_eqb nk name_eqb_iff). }
  assert (I1 : In x l1 <-> In x l /\ ~ (exists p, parent_of n = Some p /\ nk p = nk x)).
  { unfold l1. destruct (parent_of n) as [a|].
    - rewrite (is_remove_in name_eqb nk name_eqb_iff) by auto. split; intros [H1 H2]; split; auto.
      + intros (p & E & Hk). inversion E; subst. congruence.
      + intros E. apply H2. eauto.
    - split; [intros H; split; auto; intros (p & E & _); discriminate|tauto]. }
  destruct (auto_of n) as [a|].
  - rewrite (is_remove_in name_eqb nk name_eqb_iff) by auto. rewrite I1. split.
    + intros [[H1 H2] H3]. split; auto. intros [H|(p & E & Hk)]; [auto|]. inversion E; subst. congruence.
    + intros [H1 H2]. split; [split; auto|]. intros E. apply H2. right. eauto.
  - rewrite I1. split; intros [H1 H2]; split; auto; intros H; apply H2; auto.
    destruct H as [H|(p & E & _)]; [auto|discriminate].
Qed.

Lemma strip_nodup n l : NoDup (map nk l) -> NoDup (map nk (strip_auto n l)).
Proof.
  intros ND. unfold strip_auto.
  assert (N1 : NoDup (map nk (match parent_of n with Some a => is_remove name_eqb a l | None => l end))).
  { destruct (parent_of n); auto. now apply (is_remove_nodup name_eqb nk name_eqb_iff). }
  destruct (auto_of n); auto. now apply (is_remove_nodup name_eqb nk name_eqb_iff).
Qed.

Lemma strip_set n l : name_set l -> name_set (strip_auto n l).
Proof.
  intros [W N]. split; [|now apply strip_nodup]. rewrite Forall_forall in *. intros x Hx.
  apply strip_in in Hx as [Hx _]; auto.
Qed.

Lemma clean_wf a : im_wf a -> name_wf (im_name (im_clean a)) /\ name_set (im_partof (im_clean a)).
Proof.
  intros W. split; [apply W|]. simpl. apply (name_set_perm (strip_auto (im_name a) (im_partof a))).
  - apply isort_perm.
  - apply strip_set, im_wf_set, W.
Qed.

Lemma own_key_cong n m k : name_wf n -> name_wf m -> nk n = nk m -> own_key n k -> own_key m k.
Proof.
  intros Wn Wm E [(p & H & Hk)|(p & H & Hk)].
  - pose proof (parent_cong n m Wn Wm E) as C. rewrite H in C. destruct (parent_of m) as [q|] eqn:Em; simpl in C;
      [|contradiction || discriminate]. left. exists q. split; auto. congruence.
  - pose proof (auto_cong n m Wn Wm E) as C. rewrite H in C. destruct (auto_of m) as [q|] eqn:Em; simpl in C;
      [|contradiction || discriminate]. right. exists q. split; auto. congruence.
Qed.

Lemma auto_links_in known n x : name_wf n ->
  In x (map nk (auto_links known n)) <-> own_key n x /\ In x (map nk known).
Proof.
  intros W. unfold auto_links, own_key.
  set (l1 := match parent_of n with Some p => if is_mem name_eqb p known then is_insert name_eqb p [] else [] | None => [] end).
  assert (I1 : In x (map nk l1) <-> (exists p, parent_of n = Some p /\ nk p = x) /\ In x (map nk known)).
  { unfold l1. destruct (parent_of n) as [p|].
    - destruct (is_mem name_eqb p known) eqn:E.
      + apply (is_mem_iff name_eqb nk name_eqb_iff) in E. simpl. split.
        * intros [<-|[]]. eauto.
        * intros [(q & Eq & <-) _]. inversion Eq; auto.
      + apply (is_mem_false name_eqb nk name_eqb_iff) in E. simpl. split; [tauto|].
        intros [(q & Eq & <-) H]. inversion Eq; subst; auto.
    - simpl. split; [tauto|]. intros [(q & Eq & _) _]. discriminate. }
  destruct (auto_of n) as [p|].
  - destruct (is_mem name_eqb p known) eqn:E.
    + apply (is_mem_iff name_eqb nk name_eqb_iff) in E. rewrite (is_insert_in name_eqb nk name_eqb_iff), I1. split.
      * intros [->|[H1 H2]]; eauto.
      * intros [[H|(q & Eq & <-)] H2]; auto. inversion Eq; auto.
    + apply (is_mem_false name_eqb nk name_eqb_iff) in E. rewrite I1. split; [tauto|].
      intros [[H|(q & Eq & <-)] H2]; auto. inversion Eq; subst. contradiction.
  - rewrite I1. split; [tauto|]. intros [[H|(q & Eq & <-)] H2]; auto. discriminate.
Qed.

Lemma auto_links_nodup known n : NoDup (map nk (auto_links known n)).
Proof.
  unfold auto_links.
  assert (N1 : NoDup (map nk (match parent_of n with Some p => if is_mem name_eqb p known then is_insert name_eqb p [] else [] | None => [] end))).
  { destruct (parent_of n) as [p|]; [|constructor]. destruct (is_mem name_eqb p known); [|constructor].
    apply (is_insert_nodup name_eqb nk name_eqb_iff). constructor. }
  destruct (auto_of n) as [p|]; auto. destruct (is_mem name_eqb p known); auto.
  now apply (is_insert_nodup name_eqb nk name_eqb_iff).
Qed.

Lemma auto_links_sub known n x : In x (auto_links known n) -> parent_of n = Some x \/ auto_of n = Some x.
Proof.
  unfold auto_links.
  set (l1 := match parent_of n with Some p => if is_mem name_eqb p known then is_insert name_eqb p [] else [] | None => [] end).
  assert (I1 : In x l1 -> parent_of n = Some x).
  { unfold l1. destruct (parent_of n) as [p|]; [|intros []]. destruct (is_mem name_eqb p known); simpl; [|tauto].
    intros [->|[]]; auto. }
  destruct (auto_of n) as [p|]; auto. destruct (is_mem name_eqb p known); auto.
  unfold is_insert. destruct (is_mem name_eqb p l1); auto. intros H. apply in_app_iff in H as [H|[->|[]]]; auto.
Qed.

Lemma partof_in ims e x : name_wf (fst e) ->
  In x (map nk (partof_of ims e)) <->
  (own_key (fst e) x /\ In x (nkeys ims)) \/ In x (map nk (im_partof (snd e))).
Proof.
  intros W. unfold partof_of. rewrite (is_extend_in name_eqb nk name_eqb_iff), auto_links_in by auto.
  rewrite pkeys_fst. tauto.
Qed.

Lemma partof_set ims e : name_wf (fst e) -> name_set (im_partof (snd e)) -> name_set (partof_of ims e).
Proof.
  intros W [Wp Np]. split.
  - apply Forall_forall. intros x Hx. unfold partof_of in Hx.
    apply (is_extend_sub name_eqb) in Hx as [Hx|Hx].
    + apply auto_links_sub in Hx as [Hx|Hx]; eauto using parent_wf, auto_wf.
    + rewrite Forall_forall in Wp. auto.
  - apply (is_extend_nodup name_eqb nk name_eqb_iff). apply auto_links_nodup.
Qed.

(** ** Entries of the joined map *)
Section Entries.
  Variable arts : list art_im.
  Hypothesis W : Forall im_wf arts.
  Notation ims := (j_ims (join_artifacts_raw arts)).

  Lemma entry_wf e : In e ims -> name_wf (fst e) /\ name_wf (im_name (snd e)) /\ nk (im_name (snd e)) = nk (fst e) /\
    name_set (im_partof (snd e)) /\ (forall x, In x (im_partof (snd e)) -> ~ own_key (fst e) (nk x)) /\
    StronglySorted (le name_leb) (im_partof (snd e)).
  Proof.
    rewrite Forall_forall in W. intros He. destruct (jo_val _ _ (join_all_ok arts) e He) as (a & Ha & Hk & Hs).
    destruct (jo_key _ _ (join_all_ok arts) e He) as (b & Hb & Hn).
    pose proof (W b Hb) as Wb. pose proof (W a Ha) as Wa. rewrite Hs. destruct (clean_wf a Wa) as [C1 C2].
    assert (Wf : name_wf (fst e)) by (rewrite Hn; apply Wb).
    repeat split; auto.
    - apply C2.
    - apply C2.
    - intros x Hx. simpl in Hx. rewrite isort_in in Hx. apply strip_in in Hx as [_ Hx]; [|apply im_wf_set, Wa].
      intros O. apply Hx. eapply own_key_cong; [| | |exact O]; auto.
    - simpl. apply isort_sorted; [exact name_leb_total|exact name_leb_trans].
  Qed.
End Entries.

Lemma distinct_nk arts : Forall im_wf arts -> distinct arts -> NoDup (map (fun a => nk (im_name a)) arts).
Proof.
  intros W D. unfold distinct in D. induction arts as [|a l IH]; simpl; constructor.
  - inversion D as [|? ? Hn D']; subst. inversion W as [|? ? Wa Wl]; subst. intros H.
    apply in_map_iff in H as (b & E & Hb). apply Hn. apply in_map_iff. exists b. split; auto.
    rewrite Forall_forall in Wl. now apply (nk_key _ _ (iw_name _ (Wl b Hb)) (iw_name _ Wa)).
  - inversion D; subst. inversion W; subst. auto.
Qed.

Lemma join_distinct_gen l : forall arts j,
  NoDup (map (fun a => nk (im_name a)) (arts ++ l)) ->
  j_ims j = map (fun a => (im_name a, im_clean a)) arts ->
  j_files j = map (fun a => (im_name a, im_file a)) arts -> j_dups j = [] ->
  j_ims (fold_left join_step l j) = map (fun a => (im_name a, im_clean a)) (arts ++ l) /\
  j_files (fold_left join_step l j) = map (fun a => (im_name a, im_file a)) (arts ++ l) /\
  j_dups (fold_left join_step l j) = [].
Proof.
  induction l as [|a l IH]; simpl; intros arts j ND E1 E2 E3.
  - rewrite app_nil_r. auto.
  - assert (Hn : ~ In (nk (im_name a)) (map (fun a => nk (im_name a)) arts)).
    { rewrite map_app in ND. simpl in ND. apply NoDup_remove_2 in ND. intros H. apply ND, in_or_app. auto. }
    assert (G1 : mget (im_name a) (j_files j) = None).
    { apply (get_none_iff name_eqb nk name_eqb_iff). rewrite E2. unfold pkeys. rewrite map_map. exact Hn. }
    assert (G2 : mget (im_name a) (j_ims j) = None).
    { apply (get_none_iff name_eqb nk name_eqb_iff). rewrite E1. unfold pkeys. rewrite map_map. exact Hn. }
    replace (arts ++ a :: l) with ((arts ++ [a]) ++ l) in * by (rewrite <- app_assoc; reflexivity).
    apply IH; auto; unfold join_step; simpl.
    + rewrite (insert_fresh name_eqb) by auto. rewrite E1, map_app. reflexivity.
    + rewrite (insert_fresh name_eqb) by auto. rewrite E2, map_app. reflexivity.
    + now rewrite G1.
Qed.

Lemma join_distinct arts : NoDup (map (fun a => nk (im_name a)) arts) ->
  j_ims (join_artifacts_raw arts) = map (fun a => (im_name a, im_clean a)) arts /\
  j_files (join_artifacts_raw arts) = map (fun a => (im_name a, im_file a)) arts /\
  j_dups (join_artifacts_raw arts) = [].
Proof. intros ND. now apply (join_distinct_gen arts [] (mkJoined [] [] [])). Qed.

(** ** Texts *)
Lemma drop_while_all {A} (f : A -> bool) l : Forall (fun x => f x = false) (firstn 1 l) -> drop_while f l = l.
Proof. destruct l; simpl; auto. intros H; inversion H; subst. now rewrite H2. Qed.

Lemma trim_end_spec x : exists w, x = trim_end x ++ w /\ Forall (fun c => is_ws c = true) w /\
  forall p c, trim_end x = p ++ [c] -> is_ws c = false.
Proof.
  unfold trim_end. destruct (drop_while_spec is_ws (rev x)) as (p & E & Hp & Hd).
  exists (rev p). split; [|split].
  - rewrite <- rev_app_distr, <- E. now rewrite rev_involutive.
  - now apply Forall_rev.
  - intros q c Hq. apply (f_equal (@rev _)) in Hq. rewrite rev_involutive, rev_app_distr in Hq. simpl in Hq.
    rewrite Hq in Hd. exact Hd.
Qed.

Lemma trim_end_snoc_ws x c : is_ws c = true -> trim_end (x ++ [c]) = trim_end x.
Proof. intros H. unfold trim_end. rewrite rev_app_distr. simpl. now rewrite H. Qed.

Lemma trim_end_idem x : trim_end (trim_end x) = trim_end x.
Proof.
  unfold trim_end at 1 3. f_equal. unfold trim_end. rewrite rev_involutive.
  apply drop_while_all. destruct (drop_while_spec is_ws (rev x)) as (p & _ & _ & Hd).
  destruct (drop_while is_ws (rev x)); simpl; auto.
Qed.

Lemma clean_text_idem x : clean_text (clean_text x) = clean_text x.
Proof.
  unfold clean_text at 2. cbv zeta. destruct (mem_char c_nl (trim_end x)) eqn:E.
  - unfold clean_text. cbv zeta. rewrite trim_end_snoc_ws by reflexivity. rewrite trim_end_idem, E. reflexivity.
  - unfold clean_text. cbv zeta. rewrite trim_end_idem, E. reflexivity.
Qed.

Lemma strip_none n l : (forall x, In x l -> ~ own_key n (nk x)) -> NoDup (map nk l) -> strip_auto n l = l.
Proof.
  intros Hl ND. unfold strip_auto.
  assert (R : forall a, own_key n (nk a) -> is_remove name_eqb a l = l).
  { intros a Ha. clear ND. induction l as [|x l IH]; simpl; auto.
    destruct (name_eqb x a) eqn:E.
    - apply name_eqb_iff in E. exfalso. apply (Hl x); simpl; auto. now rewrite E.
    - f_equal. apply IH. intros y Hy. apply Hl. simpl; auto. }
  assert (E1 : match parent_of n with Some a => is_remove name_eqb a l | None => l end = l).
  { destruct (parent_of n) as [a|] eqn:E; auto. apply R. left. eauto. }
  rewrite E1. destruct (auto_of n) as [a|] eqn:E; auto. apply R. right. eauto.
Qed.

Lemma im_clean_idem a : im_wf a -> im_clean (im_clean a) = im_clean a.
Proof.
  intros W. unfold im_clean at 1. simpl. unfold im_clean. f_equal.
  - pose proof (strip_set (im_name a) _ (im_wf_set a W)) as S.
    rewrite strip_none.
    + apply isort_id. apply isort_sorted; [exact name_leb_total|exact name_leb_trans].
    + intros x Hx. rewrite isort_in in Hx. apply strip_in in Hx; [tauto|apply im_wf_set, W].
    + eapply Permutation_NoDup; [|apply (proj2 S)]. apply Permutation_map, isort_perm.
  - apply clean_text_idem.
Qed.

(** ** The artifact built for [a], converted back, is the cleaned [a]. *)
Section Back.
  Variables (M : num) (H : Type) (hash_im : art_im -> H).

  Lemma to_im_built ims code gs comp e : name_wf (fst e) ->
    im_name (snd e) = fst e -> name_set (im_partof (snd e)) ->
    (forall x, In x (im_partof (snd e)) -> ~ own_key (fst e) (nk x)) ->
    StronglySorted (le name_leb) (im_partof (snd e)) ->
    clean_text (im_text (snd e)) = im_text (snd e) ->
    to_im (built M H hash_im ims code gs comp e) = snd e.
  Proof.
    intros W En S Hno Sd Ht. unfold to_im, im_clean, built. simpl. destruct e as [n [n' f p d t]]. simpl in *. subst n'.
    f_equal.
    - transitivity (isort name_leb p); [|now apply isort_id].
      apply isort_canonical; try exact name_leb_total; try exact name_leb_trans.
      + apply name_set_antisym, strip_set, (partof_set ims (n, mkIm n f p d t)); auto.
      + pose proof (partof_set ims (n, mkIm n f p d t) W S) as PS.
        apply NoDup_Permutation.
        * apply (NoDup_map_inv nk), strip_nodup, PS.
        * apply (NoDup_map_inv nk), S.
        * intros x. rewrite strip_in by apply PS. unfold partof_of. cbn [fst snd im_partof]. split.
          -- intros [Hx Hn]. apply (is_extend_sub name_eqb) in Hx as [Hx|Hx]; auto.
             exfalso. apply Hn. apply auto_links_sub in Hx as [Hx|Hx]; [left|right]; eauto.
          -- intros Hx. split; auto.
             assert (X : forall l2 l1, (forall y, In y l2 -> ~ In (nk y) (map nk l1)) -> NoDup (map nk l2) ->
                     is_extend name_eqb l1 l2 = l1 ++ l2).
             { clear. intros l2 l1 Hd N2. unfold is_extend. revert l1 Hd. induction l2 as [|y l2 IH]; simpl; intros l1 Hd.
               - now rewrite app_nil_r.
               - inversion N2 as [|? ? Hny N2']; subst.
                 assert (is_insert name_eqb y l1 = l1 ++ [y]).
                 { unfold is_insert. destruct (is_mem name_eqb y l1) eqn:E; auto.
                   apply (is_mem_iff name_eqb nk name_eqb_iff) in E. exfalso. apply (Hd y); auto. }
                 rewrite H, IH; auto.
                 + rewrite <- app_assoc. reflexivity.
                 + intros z Hz Hin. rewrite map_app in Hin. apply in_app_iff in Hin as [Hin|[Hin|[]]].
                   * apply (Hd z); auto.
                   * simpl in Hin. apply Hny. rewrite Hin. apply in_map; auto. }
             rewrite X; [apply in_or_app; auto| |apply S].
             intros y Hy Hin. apply auto_links_in in Hin as [Hin _]; auto. apply (Hno y); auto.
    - unfold impl_of. simpl. destruct d; auto. destruct (mget n code); auto.
    - exact Ht.
  Qed.
End Back.
