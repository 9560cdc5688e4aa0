(** Proofs about parents and automatic links of names (C05). *)
From Coq Require Import Lia ZifyBool Permutation Sorted.
From Verif Require Import Base BaseFacts Regex RegexFacts Name SpecName NameFacts SubFacts Family.

Lemma element_no_dash e : element e -> ~ In c_dash e.
Proof.
  intros [_ H] Hin. rewrite Forall_forall in H. apply H in Hin. apply word_not in Hin. tauto.
Qed.

Lemma type_no_dash t p : In t type_words -> str_ci t p -> ~ In c_dash p.
Proof.
  intros Ht H Hin. apply word_ty in Ht as (t' & ->). unfold str_ci in H.
  assert (W : Forall word_char p).
  { destruct t'; simpl ty_str in H; rewrite ?sREQ, ?sSPC, ?sTST in H;
      apply f3 in H as (d & e & f & -> & H1 & H2 & H3);
      (apply Forall_cons; [|apply Forall_cons; [|apply Forall_cons; [|apply Forall_nil]]]);
      (eapply ci_word; [eassumption|unfold word_char; lia]). }
  rewrite Forall_forall in W. apply W in Hin. apply word_not in Hin. tauto.
Qed.

(** Splitting off the last element. *)
Lemma join_snoc p es e : join [c_dash] (p :: es ++ [e]) = join [c_dash] (p :: es) ++ c_dash :: e.
Proof.
  revert p; induction es as [|x es IH]; intros p.
  - reflexivity.
  - change (p :: (x :: es) ++ [e]) with (p :: x :: es ++ [e]).
    rewrite (join_cons [c_dash] p (x :: es ++ [e])) by discriminate.
    rewrite (join_cons [c_dash] p (x :: es)) by discriminate.
    rewrite IH. now rewrite <- !app_assoc.
Qed.

Lemma rsplit_dashed p es e : element e ->
  rsplit c_dash (join [c_dash] (p :: es ++ [e])) = Some (join [c_dash] (p :: es), e).
Proof.
  intros He. apply rsplit_some. split; [apply join_snoc|]. now apply element_no_dash.
Qed.

Lemma join_len3 p es : length p = 3 -> length (join [c_dash] (p :: es)) = 3 <-> es = [].
Proof.
  intros Hp. split; [|intros ->; auto].
  destruct es as [|e es]; auto. rewrite join_cons by discriminate.
  rewrite !app_length. simpl. lia.
Qed.

(** The pieces of a parsed name. *)
Definition pieces_of (n : name) (p : str) (es : list str) : Prop :=
  dashed p es (n_raw n) /\ str_ci (ty_str (n_ty n)) p.

Lemma wf_pieces n : name_wf n -> exists p es, pieces_of n p es.
Proof. intros H. apply name_ok_iff in H as (p & es & Hd & Ht & _). exists p, es. split; auto. Qed.

Lemma pieces_len n p es : pieces_of n p es -> length p = 3.
Proof. intros [_ H]. eapply type_len; eauto using ty_word. Qed.

Lemma pieces_fun n p es p' es' : pieces_of n p es -> pieces_of n p' es' -> p = p' /\ es = es'.
Proof.
  intros H H'. pose proof (pieces_len _ _ _ H) as L. pose proof (pieces_len _ _ _ H') as L'.
  destruct H as [(N1 & E1 & R1) T1], H' as [(N2 & E2 & R2) T2].
  assert (S : p :: es = p' :: es').
  { rewrite <- (split_join c_dash (p :: es)); [|discriminate|].
    - rewrite <- (split_join c_dash (p' :: es')); [|discriminate|].
      + change c_dash with 45%N. now rewrite <- R1, <- R2.
      + intros q [<-|Hq]; [eapply type_no_dash; eauto using ty_word|].
        rewrite Forall_forall in E2. now apply element_no_dash, E2.
    - intros q [<-|Hq]; [eapply type_no_dash; eauto using ty_word|].
      rewrite Forall_forall in E1. now apply element_no_dash, E1. }
  injection S as -> ->. auto.
Qed.

Lemma parent_root n p e : pieces_of n p [e] -> name_parent n = Ok None.
Proof.
  intros H. pose proof (pieces_len _ _ _ H) as L. destruct H as [(_ & He & R) T].
  inversion He; subst. unfold name_parent. rewrite R.
  pose proof (rsplit_dashed p [] e H1) as X. change 45%N with c_dash.
  change ([] ++ [e]) with [e] in X. rewrite X.
  simpl join. rewrite L. reflexivity.
Qed.

Lemma parent_deep n p es e : es <> [] -> pieces_of n p (es ++ [e]) ->
  exists m, name_parent n = Ok (Some m) /\ name_wf m /\ n_ty m = n_ty n /\ pieces_of m p es.
Proof.
  intros Hne H. pose proof (pieces_len _ _ _ H) as L. destruct H as [(_ & He & R) T].
  apply Forall_app in He as [He1 He2]. inversion He2; subst.
  set (x := join [c_dash] (p :: es)).
  set (m := mkName (n_ty n) (upper x) x).
  assert (Hm : name_from_str x = Ok m).
  { apply name_ok_iff. exists p, es. repeat split; auto. }
  exists m. split; [|split; [|split]].
  - unfold name_parent. rewrite R. change 45%N with c_dash. rewrite rsplit_dashed by auto.
    fold x. rewrite Hm.
    replace (Nat.eqb (length x) 3) with false; auto. symmetry. apply Nat.eqb_neq.
    intros E. apply join_len3 in E; auto.
  - exact Hm.
  - reflexivity.
  - split; auto. repeat split; auto.
Qed.

Definition auto_ty (t : ty) : option ty :=
  match t with REQ => None | SPC => Some REQ | TST => Some SPC end.

Lemma ty_str_ci t : str_ci (ty_str t) (ty_str t).
Proof. apply str_ci_upper. reflexivity. Qed.

Lemma skipn_dashed p es : length p = 3 -> es <> [] ->
  skipn 3 (join [c_dash] (p :: es)) = c_dash :: join [c_dash] es.
Proof.
  intros L H. rewrite join_cons by auto.
  rewrite skipn_app. replace (skipn 3 p) with (@nil N); [|rewrite <- L; now rewrite skipn_all].
  rewrite L. reflexivity.
Qed.

Lemma auto_none n : n_ty n = REQ -> name_auto n = Ok None.
Proof. unfold name_auto. now intros ->. Qed.

Lemma auto_some n p es t : pieces_of n p es -> auto_ty (n_ty n) = Some t ->
  exists m, name_auto n = Ok (Some m) /\ name_wf m /\ n_ty m = t /\ pieces_of m (ty_str t) es.
Proof.
  intros H E. pose proof (pieces_len _ _ _ H) as L. destruct H as [(Hne & He & R) T].
  unfold name_auto. fold (auto_ty (n_ty n)). rewrite E.
  set (x := join [c_dash] (ty_str t :: es)).
  set (m := mkName t (upper x) x).
  assert (Hm : name_from_str x = Ok m).
  { apply name_ok_iff. exists (ty_str t), es. repeat split; auto. apply ty_str_ci. }
  assert (Ex : ty_str t ++ skipn 3 (n_raw n) = x).
  { rewrite R. change 45%N with c_dash. rewrite skipn_dashed by auto. unfold x.
    now rewrite join_cons by auto. }
  rewrite Ex, Hm. exists m. repeat split; auto. apply ty_str_ci.
Qed.

Lemma parent_total n : name_wf n -> exists o, name_parent n = Ok o.
Proof.
  intros H. destruct (wf_pieces n H) as (p & es & HP).
  destruct (exists_last (proj1 (proj1 HP))) as (es' & e & ->).
  destruct es' as [|a es'].
  - exists None. eapply parent_root; eauto.
  - edestruct parent_deep as (m & E & _); [|exact HP|eauto]. discriminate.
Qed.

Lemma auto_total n : name_wf n -> exists o, name_auto n = Ok o.
Proof.
  intros H. destruct (wf_pieces n H) as (p & es & HP).
  destruct (auto_ty (n_ty n)) as [t|] eqn:E.
  - edestruct auto_some as (m & Hm & _); eauto.
  - exists None. apply auto_none. destruct (n_ty n); auto; discriminate.
Qed.

Lemma parent_of_ok n m : name_wf n -> parent_of n = Some m <-> name_parent n = Ok (Some m).
Proof.
  intros H. unfold parent_of. destruct (parent_total n H) as (o & ->). split; congruence.
Qed.
Lemma auto_of_ok n m : name_wf n -> auto_of n = Some m <-> name_auto n = Ok (Some m).
Proof.
  intros H. unfold auto_of. destruct (auto_total n H) as (o & ->). split; congruence.
Qed.

(** What a parent / auto name looks like. *)
Lemma parent_of_spec n m : name_wf n -> parent_of n = Some m ->
  name_wf m /\ n_ty m = n_ty n /\
  exists p es e, es <> [] /\ pieces_of n p (es ++ [e]) /\ pieces_of m p es.
Proof.
  intros H E. apply parent_of_ok in E; auto.
  destruct (wf_pieces n H) as (p & es & HP).
  destruct (exists_last (proj1 (proj1 HP))) as (es' & e & ->).
  destruct es' as [|a es'].
  - rewrite (parent_root n p e HP) in E. discriminate.
  - edestruct (parent_deep n p (a :: es') e) as (m' & E' & W & T & P); [discriminate|exact HP|].
    rewrite E in E'. injection E' as <-. repeat split; auto.
    exists p, (a :: es'), e. split; [discriminate|]. split; [exact HP|exact P].
Qed.

Lemma auto_of_spec n m : name_wf n -> auto_of n = Some m ->
  name_wf m /\ auto_ty (n_ty n) = Some (n_ty m) /\
  exists p es, pieces_of n p es /\ pieces_of m (ty_str (n_ty m)) es.
Proof.
  intros H E. apply auto_of_ok in E; auto.
  destruct (wf_pieces n H) as (p & es & HP).
  destruct (auto_ty (n_ty n)) as [t|] eqn:Et.
  - edestruct auto_some as (m' & E' & W & T & P); eauto.
    rewrite E in E'. injection E' as <-. subst t. repeat split; auto. exists p, es. auto.
  - rewrite auto_none in E; [discriminate|]. destruct (n_ty n); auto; discriminate.
Qed.

Lemma parent_wf n m : name_wf n -> parent_of n = Some m -> name_wf m.
Proof. intros H E. now apply parent_of_spec in E. Qed.
Lemma auto_wf n m : name_wf n -> auto_of n = Some m -> name_wf m.
Proof. intros H E. now apply auto_of_spec in E. Qed.

(** Repeated parents. *)
Fixpoint ancestors (fuel : nat) (n : name) : list name :=
  match fuel with
  | O => []
  | S k => match parent_of n with Some m => m :: ancestors k m | None => [] end
  end.

Lemma ancestors_len n p es : name_wf n -> pieces_of n p es -> forall k, length es <= k ->
  length (ancestors k n) = length es - 1.
Proof.
  intros H HP k. revert n es H HP. induction k as [|k IH]; intros n es H HP Hk.
  - destruct es; [|simpl in Hk; lia]. exfalso. now apply (proj1 (proj1 HP)).
  - simpl. destruct (exists_last (proj1 (proj1 HP))) as (es' & e & ->).
    rewrite app_length in *. simpl in *. destruct es' as [|a es'].
    + unfold parent_of. rewrite (parent_root n p e HP). reflexivity.
    + edestruct (parent_deep n p (a :: es') e) as (m & E & W & T & P); [discriminate|exact HP|].
      unfold parent_of. rewrite E. simpl. rewrite (IH m (a :: es')); auto; simpl in *; lia.
Qed.

(** Equal names have equal parents and equal autos. *)
Lemma pieces_upper n p es : name_wf n -> pieces_of n p es ->
  n_key n = join [c_dash] (upper p :: map upper es).
Proof.
  intros H [(Hne & _ & R) _]. rewrite (wf_key n H), R. clear.
  change 45%N with c_dash. revert p. induction es as [|e es IH]; intros p; auto.
  rewrite (join_cons _ p (e :: es)) by discriminate.
  rewrite (join_cons _ (upper p) (map upper (e :: es))) by discriminate.
  rewrite !upper_app. now rewrite IH.
Qed.

Lemma upper_no_dash x : ~ In c_dash x -> ~ In c_dash (upper x).
Proof.
  intros H Hin. apply in_map_iff in Hin as (c & E & Hc). apply H.
  assert (c = c_dash); [|now subst]. unfold upc, is_lower in E.
  destruct ((97 <=? c)%N && (c <=? 122)%N) eqn:Ec; auto.
  chars. lia.
Qed.

Lemma pieces_key n1 p1 es1 n2 p2 es2 :
  name_wf n1 -> name_wf n2 -> pieces_of n1 p1 es1 -> pieces_of n2 p2 es2 ->
  n_key n1 = n_key n2 <-> upper p1 = upper p2 /\ map upper es1 = map upper es2.
Proof.
  intros W1 W2 P1 P2. rewrite (pieces_upper n1 p1 es1), (pieces_upper n2 p2 es2) by auto.
  assert (D : forall n p es, pieces_of n p es ->
     forall q, In q (upper p :: map upper es) -> ~ In c_dash q).
  { intros n p es [(_ & He & _) T] q [<-|Hq].
    - apply upper_no_dash. eapply type_no_dash; eauto using ty_word.
    - apply in_map_iff in Hq as (e & <- & He'). rewrite Forall_forall in He.
      now apply upper_no_dash, element_no_dash, He. }
  split.
  - intros E. apply (f_equal (split_on c_dash)) in E.
    rewrite !split_join in E; try discriminate; [|now apply (D n2)|now apply (D n1)].
    injection E; auto.
  - intros [-> ->]. reflexivity.
Qed.

Lemma nk_key a b : name_wf a -> name_wf b -> nk a = nk b <-> n_key a = n_key b.
Proof. intros Ha Hb. rewrite <- name_eqb_iff. now apply name_eqb_key. Qed.

Lemma map_upper_snoc es e es' e' :
  map upper (es ++ [e]) = map upper (es' ++ [e']) -> map upper es = map upper es'.
Proof. rewrite !map_app. simpl. intros E. now apply app_inj_tail in E. Qed.

Lemma parent_cong a b : name_wf a -> name_wf b -> nk a = nk b ->
  option_map nk (parent_of a) = option_map nk (parent_of b).
Proof.
  intros Ha Hb E. apply nk_key in E; auto.
  destruct (wf_pieces a Ha) as (p & es & P), (wf_pieces b Hb) as (q & fs & Q).
  pose proof (proj1 (pieces_key a p es b q fs Ha Hb P Q) E) as [E1 E2].
  destruct (exists_last (proj1 (proj1 P))) as (es' & e & ->).
  destruct (exists_last (proj1 (proj1 Q))) as (fs' & f & ->).
  apply map_upper_snoc in E2.
  destruct es' as [|x es'], fs' as [|y fs']; try discriminate.
  - unfold parent_of. now rewrite (parent_root a p e P), (parent_root b q f Q).
  - destruct (parent_deep a p (x :: es') e) as (m & Em & Wm & Tm & Pm); [discriminate|exact P|].
    destruct (parent_deep b q (y :: fs') f) as (m' & Em' & Wm' & Tm' & Pm'); [discriminate|exact Q|].
    unfold parent_of. rewrite Em, Em'. simpl. f_equal. apply nk_key; auto.
    eapply pieces_key; eauto.
Qed.

Lemma auto_cong a b : name_wf a -> name_wf b -> nk a = nk b ->
  option_map nk (auto_of a) = option_map nk (auto_of b).
Proof.
  intros Ha Hb E0. pose proof E0 as E. apply nk_key in E; auto.
  destruct (wf_pieces a Ha) as (p & es & P), (wf_pieces b Hb) as (q & fs & Q).
  pose proof (proj1 (pieces_key a p es b q fs Ha Hb P Q) E) as [E1 E2].
  assert (T : n_ty a = n_ty b) by (unfold nk in E0; congruence).
  destruct (auto_ty (n_ty a)) as [t|] eqn:Et.
  - destruct (auto_some a p es t P Et) as (m & Em & Wm & Tm & Pm).
    rewrite T in Et. destruct (auto_some b q fs t Q Et) as (m' & Em' & Wm' & Tm' & Pm').
    unfold auto_of. rewrite Em, Em'. simpl. f_equal. apply nk_key; auto.
    eapply pieces_key; eauto.
  - assert (R : n_ty a = REQ) by (destruct (n_ty a); auto; discriminate).
    unfold auto_of. rewrite (auto_none a R), (auto_none b); auto. congruence.
Qed.

(** Commutation: the parent of the auto-partof is the auto-partof of the parent. *)
Lemma parent_auto_commute n : name_wf n ->
  match auto_of n with Some a => parent_of a | None => None end =
  match parent_of n with Some p => auto_of p | None => None end.
Proof.
  intros H. destruct (wf_pieces n H) as (p & es & P).
  destruct (exists_last (proj1 (proj1 P))) as (es' & e & ->).
  destruct (auto_ty (n_ty n)) as [t|] eqn:Et.
  - destruct (auto_some n p _ t P Et) as (m & Em & Wm & Tm & Pm).
    unfold auto_of at 1. rewrite Em. destruct es' as [|x es'].
    + unfold parent_of. now rewrite (parent_root n p e P), (parent_root m _ e Pm).
    + destruct (parent_deep n p (x :: es') e) as (m1 & Em1 & Wm1 & Tm1 & Pm1); [discriminate|exact P|].
      destruct (parent_deep m (ty_str t) (x :: es') e) as (m2 & Em2 & Wm2 & Tm2 & Pm2); [discriminate|exact Pm|].
      unfold parent_of. rewrite Em1, Em2.
      rewrite <- Tm1 in Et.
      destruct (auto_some m1 p _ t Pm1 Et) as (m3 & Em3 & Wm3 & Tm3 & Pm3).
      unfold auto_of. rewrite Em3. f_equal.
      assert (R : n_raw m2 = n_raw m3).
      { destruct Pm2 as [(_ & _ & ->) _], Pm3 as [(_ & _ & ->) _]. reflexivity. }
      unfold name_wf in *. rewrite R in Wm2. congruence.
  - assert (R : n_ty n = REQ) by (destruct (n_ty n); auto; discriminate).
    unfold auto_of at 1. rewrite (auto_none n R).
    destruct (parent_of n) as [q|] eqn:Eq; auto.
    apply parent_of_spec in Eq as (_ & Tq & _); auto.
    unfold auto_of. rewrite auto_none; auto. congruence.
Qed.

(** The parent, the auto-partof and the name itself are different names. *)
Lemma parent_neq n m : name_wf n -> parent_of n = Some m -> nk m <> nk n.
Proof.
  intros H E. pose proof (parent_wf n m H E) as W.
  apply parent_of_spec in E as (_ & _ & p & es & e & _ & P & Q); auto.
  rewrite nk_key by auto. rewrite (pieces_key m p es n p (es ++ [e])) by auto.
  intros [_ E2]. apply (f_equal (@length _)) in E2. rewrite !map_length, app_length in E2.
  simpl in E2. lia.
Qed.
Lemma auto_neq n m : name_wf n -> auto_of n = Some m -> nk m <> nk n.
Proof.
  intros H E. apply auto_of_spec in E as (_ & T & _); auto. unfold nk.
  destruct (n_ty n), (n_ty m); simpl in T; congruence.
Qed.
Lemma parent_auto_neq n p a : name_wf n -> parent_of n = Some p -> auto_of n = Some a -> nk p <> nk a.
Proof.
  intros H E1 E2. apply parent_of_spec in E1 as (_ & T1 & _); auto.
  apply auto_of_spec in E2 as (_ & T2 & _); auto. unfold nk.
  destruct (n_ty n), (n_ty p), (n_ty a); simpl in T2; congruence.
Qed.

(** ** Statements for the property file *)

Lemma parent_explicit x n : name_from_str x = Ok n ->
  exists p es e, Forall element (es ++ [e]) /\ str_ci (ty_str (n_ty n)) p /\
    x = join [45%N] (p :: es ++ [e]) /\
    (es = [] -> name_parent n = Ok None) /\
    (es <> [] -> exists m, name_from_str (join [45%N] (p :: es)) = Ok m /\
                           n_ty m = n_ty n /\ name_parent n = Ok (Some m)).
Proof.
  intros H. destruct (from_str_wf _ _ H) as [W R]. destruct (wf_pieces n W) as (p & es & P).
  destruct (exists_last (proj1 (proj1 P))) as (es' & e & ->).
  exists p, es', e. pose proof P as [(_ & He & Hr) Ht]. rewrite R in Hr.
  split; [exact He|]. split; [exact Ht|]. split; [exact Hr|]. split.
  - intros ->. eapply parent_root; eauto.
  - intros Hne. destruct (parent_deep n p es' e Hne P) as (m & Em & Wm & Tm & Pm).
    exists m. repeat split; auto. destruct Pm as [(_ & _ & <-) _]. exact Wm.
Qed.

Lemma auto_explicit x n : name_from_str x = Ok n ->
  (n_ty n = REQ /\ name_auto n = Ok None) \/
  exists t p es m, auto_ty (n_ty n) = Some t /\ x = join [45%N] (p :: es) /\ es <> [] /\
    str_ci (ty_str (n_ty n)) p /\
    name_from_str (join [45%N] (ty_str t :: es)) = Ok m /\ n_ty m = t /\
    name_auto n = Ok (Some m).
Proof.
  intros H. destruct (from_str_wf _ _ H) as [W R]. destruct (wf_pieces n W) as (p & es & P).
  destruct (auto_ty (n_ty n)) as [t|] eqn:Et.
  - right. destruct (auto_some n p es t P Et) as (m & Em & Wm & Tm & Pm).
    exists t, p, es, m. pose proof P as [(Hne & He & Hr) Ht]. rewrite R in Hr.
    repeat split; auto. destruct Pm as [(_ & _ & <-) _]. exact Wm.
  - left. assert (n_ty n = REQ) by (destruct (n_ty n); auto; discriminate).
    split; auto. now apply auto_none.
Qed.

(** [chain n k r]: the [k]-th parent of [n] is the root name [r]. *)
Inductive chain : name -> nat -> name -> Prop :=
| chain_root n : name_parent n = Ok None -> chain n 0 n
| chain_up n m k r : name_parent n = Ok (Some m) -> chain m k r -> chain n (S k) r.

Lemma chain_exists k : forall n p es, name_wf n -> pieces_of n p es -> length es = S k ->
  exists r, chain n k r /\ name_from_str (join [45%N] [p; hd [] es]) = Ok r.
Proof.
  induction k as [|k IH]; intros n p es W P L.
  - destruct es as [|e [|f es]]; try discriminate. exists n. split.
    + constructor. eapply parent_root; eauto.
    + destruct P as [(_ & _ & R) _]. simpl hd. rewrite <- R. exact W.
  - destruct (exists_last (proj1 (proj1 P))) as (es' & e & ->). rewrite app_length in L. simpl in L.
    assert (Hne : es' <> []) by (destruct es'; [simpl in L; lia|discriminate]).
    destruct (parent_deep n p es' e Hne P) as (m & Em & Wm & Tm & Pm).
    destruct (IH m p es' Wm Pm) as (r & Hr & Hh); [lia|]. exists r. split.
    + econstructor; eauto.
    + destruct es'; [congruence|]. exact Hh.
Qed.

Lemma commute_explicit x n : name_from_str x = Ok n ->
  forall p a, name_parent n = Ok p -> name_auto n = Ok a ->
  exists q, (match p with Some p' => name_auto p' | None => Ok None end) = Ok q /\
            (match a with Some a' => name_parent a' | None => Ok None end) = Ok q.
Proof.
  intros H p a Hp Ha. destruct (from_str_wf _ _ H) as [W _].
  pose proof (parent_auto_commute n W) as C.
  assert (Ep : parent_of n = p) by (unfold parent_of; now rewrite Hp).
  assert (Ea : auto_of n = a) by (unfold auto_of; now rewrite Ha).
  rewrite Ep, Ea in C.
  destruct p as [p|], a as [a|].
  - assert (Wp : name_wf p) by exact (parent_wf n p W Ep).
    assert (Wa : name_wf a) by exact (auto_wf n a W Ea).
    destruct (auto_total p Wp) as (o1 & E1), (parent_total a Wa) as (o2 & E2).
    unfold auto_of, parent_of in C. rewrite E1, E2 in C. rewrite E1, E2. subst. exists o1. auto.
  - assert (Wp : name_wf p) by exact (parent_wf n p W Ep).
    destruct (auto_total p Wp) as (o1 & E1). unfold auto_of in C. rewrite E1 in C. subst.
    rewrite E1. exists None. auto.
  - assert (Wa : name_wf a) by exact (auto_wf n a W Ea).
    destruct (parent_total a Wa) as (o2 & E2). unfold parent_of in C. rewrite E2 in C. subst.
    rewrite E2. exists None. auto.
  - exists None. auto.
Qed.
