(** More about the lints: references in the source, the order of lints, loaded projects. *)
From Coq Require Import Lia ZifyBool Permutation Sorted Arith.
From Verif Require Import Base BaseFacts Regex RegexFacts ScanFacts Name SpecName NameFacts SubFacts Family FamilyFacts RawNamesFacts
  Artifact Stored SpecLinks LinkFacts BuildFacts ProjectFacts Topo SpecGraph GraphFacts
  Markdown SpecMarkdown LineFacts MarkdownFacts Lint SpecLint RefFacts LintFacts
  Numbers SpecCompletion RowFacts CompletionFacts CompletionThms.

(** ** C32 *)
Section Code.
  Context {M : num} {H : Type}.
  Variable path_str : path -> str.
  Variable p : project M H.
  Notation arts := (pr_arts p).
  Notation defined := (defined p).

  Lemma defined_same q b : arts_wf arts -> name_wf q ->
    (defined q = Some b <-> exists m, In (m, b) arts /\ same_name q m).
  Proof.
    intros W Wq. rewrite defined_some by auto. split; intros (m & Hm & E); exists m; split; auto.
    - apply name_eqb_ci in E; auto; [|eapply aw_names; eauto]. apply name_eqb_iff in E. unfold nk in E. split; congruence.
    - apply name_eqb_ci; auto; [eapply aw_names; eauto|]. apply name_eqb_iff. unfold nk. destruct E. congruence.
  Qed.

  (** The message for an invalid reference. *)
  Definition code_reason (n : name) (sub : option subname) (msg : str) : Prop :=
    (no_artifact arts n /\ msg = s "Artifact " ++ n_raw n ++ s " does not exist") \/
    (ref_done arts n /\ msg = s "Artifact's done field is set") \/
    (ref_no_sub arts n sub /\ exists x, sub = Some x /\
       msg = s "Subname [[" ++ s_raw x ++ s "]] does not exist in artifact's text").

  Lemma all_code_in n c msg w : In w (all_code path_str n c msg) <->
    exists sub loc, match sub with None => ic_primary c = Some loc | Some x => In (x, loc) (ic_secondary c) end /\
      w = code_lint path_str n sub loc msg.
  Proof.
    unfold all_code. rewrite in_app_iff. split.
    - intros [X|X].
      + destruct (ic_primary c) as [loc|] eqn:E; [|destruct X]. destruct X as [<-|[]]. exists None, loc. auto.
      + apply in_map_iff in X as ([x loc] & <- & X). exists (Some x), loc. auto.
    - intros ([x|] & loc & X & ->).
      + right. apply in_map_iff. exists (x, loc). auto.
      + left. rewrite X. now left.
  Qed.

  Lemma code_exact w : arts_wf arts -> (forall n c, In (n, c) (pr_code p) -> name_wf n) ->
    (forall n c m b, In (n, c) (pr_code p) -> In (m, b) arts -> same_name n m -> a_impl b <> INot) ->
    In w (lint_code_impls path_str p) <->
    exists n sub loc msg, code_ref (pr_code p) n sub loc /\ code_reason n sub msg /\ w = code_lint path_str n sub loc msg.
  Proof.
    intros W WC WI. unfold lint_code_impls. rewrite in_flat_map. split.
    - intros ([n c] & Hin & X). cbn [fst snd] in X. pose proof (WC n c Hin) as Wn.
      destruct (defined n) as [b|] eqn:Ed.
      + apply defined_same in Ed as (m & Hm & Em); auto. destruct (a_impl b) as [d|c'|] eqn:Ei.
        * apply all_code_in in X as (sub & loc & R & ->). exists n, sub, loc. eexists. split; [exists c; eauto|]. split; [|reflexivity].
          right. left. split; [exists m, b, d; auto|reflexivity].
        * apply in_flat_map in X as ([x loc] & Hx & X). cbn [fst snd] in X.
          destruct (is_mem sub_eqb x (a_subnames b)) eqn:Es; [destruct X|]. destruct X as [<-|[]].
          exists n, (Some x), loc. eexists. split; [exists c; eauto|]. split; [|reflexivity]. right. right. split; [|eauto].
          exists m, b, x. split; auto. split; auto. split; auto. split; [congruence|]. intros z Hz Ez.
          assert (Y : is_mem sub_eqb x (a_subnames b) = true); [|congruence].
          apply existsb_exists. exists z. split; auto. apply str_eqb_eq. congruence.
        * destruct X.
      + apply defined_none in Ed. apply all_code_in in X as (sub & loc & R & ->). exists n, sub, loc. eexists.
        split; [exists c; eauto|]. split; [|reflexivity]. left. split; auto. intros m b Hm [E1 E2]. apply Ed. exists m, b. auto.
    - intros (n & sub & loc & msg & (c & Hin & R) & X & ->). exists (n, c). split; auto. cbn [fst snd]. pose proof (WC n c Hin) as Wn.
      destruct X as [(N & ->)|[((m & b & d & Hm & Em & Ei) & ->)|((m & b & x & -> & Hm & Em & Ei & Hs) & y & Ey & ->)]].
      + assert (Ed : defined n = None). { apply defined_none. intros (m & b & Hm & E1 & E2). apply (N m b Hm). split; auto. }
        rewrite Ed. apply all_code_in. eauto.
      + assert (Ed : defined n = Some b) by (apply defined_same; eauto). rewrite Ed, Ei. apply all_code_in. eauto.
      + injection Ey as <-. assert (Ed : defined n = Some b) by (apply defined_same; eauto). rewrite Ed.
        destruct (a_impl b) as [d|c'|] eqn:Ei'; [exfalso; eapply Ei; eauto| |exfalso; eapply WI; eauto].
        apply in_flat_map. exists (x, loc). split; auto. cbn [fst snd].
        destruct (is_mem sub_eqb x (a_subnames b)) eqn:Es; [|now left].
        apply existsb_exists in Es as (z & Hz & Ez). exfalso. apply (Hs z Hz). unfold sub_eqb in Ez. apply str_eqb_eq in Ez. congruence.
  Qed.
End Code.

(** ** C33: the order of lints *)
Lemma then_eq a b : then_cmp a b = Eq <-> a = Eq /\ b = Eq.
Proof. destruct a; simpl; intuition discriminate. Qed.
Lemma opt_eq {A} (cmp : A -> A -> comparison) x y : (forall a b, cmp a b = Eq <-> a = b) -> opt_cmp cmp x y = Eq <-> x = y.
Proof. intros E. destruct x, y; simpl; try (split; congruence). rewrite E. split; congruence. Qed.

Lemma lint_cmp_eq a b : lint_cmp a b = Eq <-> a = b.
Proof.
  unfold lint_cmp. rewrite !then_eq, (opt_eq str_cmp), (opt_eq Nat.compare), !Nat.compare_eq_iff, str_cmp_eq;
    [|apply Nat.compare_eq_iff|apply str_cmp_eq].
  destruct a as [l1 p1 n1 c1 m1], b as [l2 p2 n2 c2 m2]; cbn [li_level li_path li_line li_cat li_msg]. split.
  - intros (E1 & -> & -> & E2 & ->). f_equal; [destruct l1, l2|destruct c1, c2]; simpl in *; auto; discriminate.
  - intros E. injection E as -> -> -> -> ->. auto.
Qed.

Definition antisym_cmp {A} (cmp : A -> A -> comparison) : Prop := forall a b, cmp b a = CompOpp (cmp a b).
Definition trans_cmp {A} (cmp : A -> A -> comparison) : Prop := forall a b c, cmp a b = Lt -> cmp b c = Lt -> cmp a c = Lt.
Definition eq_cmp {A} (cmp : A -> A -> comparison) : Prop := forall a b, cmp a b = Eq -> a = b.

Lemma nat_antisym : antisym_cmp Nat.compare.
Proof. intros a b. apply Nat.compare_antisym. Qed.
Lemma nat_trans : trans_cmp Nat.compare.
Proof. intros a b c. rewrite !Nat.compare_lt_iff. lia. Qed.
Lemma opt_antisym {A} (cmp : A -> A -> comparison) : antisym_cmp cmp -> antisym_cmp (opt_cmp cmp).
Proof. intros H [a|] [b|]; simpl; auto. Qed.
Lemma opt_trans {A} (cmp : A -> A -> comparison) : trans_cmp cmp -> trans_cmp (opt_cmp cmp).
Proof. intros H [a|] [b|] [c|]; simpl; try discriminate; auto. apply H. Qed.

Lemma lint_cmp_antisym : antisym_cmp lint_cmp.
Proof.
  intros a b. unfold lint_cmp.
  rewrite (nat_antisym (level_num (li_level a))), (opt_antisym _ str_cmp_antisym (li_path a)),
    (opt_antisym _ nat_antisym (li_line a)), (nat_antisym (cat_num (li_cat a))), (str_cmp_antisym (li_msg a)).
  destruct (Nat.compare (level_num _) _); simpl; auto.
  destruct (opt_cmp str_cmp _ _); simpl; auto.
  destruct (opt_cmp Nat.compare _ _); simpl; auto.
  destruct (Nat.compare (cat_num _) _); simpl; auto.
Qed.

Lemma then_lt a b : then_cmp a b = Lt <-> a = Lt \/ a = Eq /\ b = Lt.
Proof. destruct a; simpl; intuition discriminate. Qed.

(** One step of a lexicographic order. *)
Lemma lex_trans {A B} (f : A -> B) (cmp : B -> B -> comparison) (rest : A -> A -> comparison) :
  (forall x y, cmp x y = Eq -> x = y) -> (forall x, cmp x x = Eq) -> trans_cmp cmp -> trans_cmp rest ->
  trans_cmp (fun a b => then_cmp (cmp (f a) (f b)) (rest a b)).
Proof.
  intros E R T1 T2 a b c. rewrite !then_lt. intros [X|[X X']] [Y|[Y Y']].
  - left. eauto.
  - left. apply E in Y. rewrite <- Y. auto.
  - left. apply E in X. rewrite X. auto.
  - right. apply E in X, Y. split; [rewrite X, Y; auto|eauto].
Qed.

Lemma lint_cmp_trans : trans_cmp lint_cmp.
Proof.
  assert (N1 : forall x y, Nat.compare x y = Eq -> x = y) by (intros; now apply Nat.compare_eq_iff).
  assert (S1 : forall x y, str_cmp x y = Eq -> x = y) by (intros; now apply str_cmp_eq).
  apply (lex_trans (fun a => level_num (li_level a)) Nat.compare); auto using Nat.compare_refl, nat_trans.
  apply (lex_trans li_path (opt_cmp str_cmp)).
  { intros x y. apply opt_eq, str_cmp_eq. } { intros x. apply opt_eq; [apply str_cmp_eq|auto]. } { apply opt_trans. intros a b c. apply str_cmp_lt_trans. }
  apply (lex_trans li_line (opt_cmp Nat.compare)).
  { intros x y. apply opt_eq, Nat.compare_eq_iff. } { intros x. apply opt_eq; [apply Nat.compare_eq_iff|auto]. } { apply opt_trans, nat_trans. }
  apply (lex_trans (fun a => cat_num (li_cat a)) Nat.compare); auto using Nat.compare_refl, nat_trans.
  intros a b c. apply str_cmp_lt_trans.
Qed.

Lemma lint_leb_total a b : lint_leb a b = true \/ lint_leb b a = true.
Proof. unfold lint_leb. rewrite (lint_cmp_antisym a b). destruct (lint_cmp a b); simpl; auto. Qed.
Lemma lint_leb_antisym a b : lint_leb a b = true -> lint_leb b a = true -> a = b.
Proof.
  unfold lint_leb. rewrite (lint_cmp_antisym a b). destruct (lint_cmp a b) eqn:E; simpl; try discriminate. intros _ _. now apply lint_cmp_eq.
Qed.
Lemma lint_leb_trans a b c : lint_leb a b = true -> lint_leb b c = true -> lint_leb a c = true.
Proof.
  unfold lint_leb. destruct (lint_cmp a b) eqn:E1, (lint_cmp b c) eqn:E2; try discriminate; intros _ _.
  - apply lint_cmp_eq in E1, E2. subst. now rewrite (proj2 (lint_cmp_eq c c) eq_refl).
  - apply lint_cmp_eq in E1. subst. now rewrite E2.
  - apply lint_cmp_eq in E2. subst. now rewrite E1.
  - now rewrite (lint_cmp_trans _ _ _ E1 E2).
Qed.
Lemma lint_eqb_iff a b : lint_eqb a b = true <-> a = b.
Proof. unfold lint_eqb. rewrite <- lint_cmp_eq. destruct (lint_cmp a b); intuition discriminate. Qed.

Lemma dedup_sorted l : StronglySorted (le lint_leb) l ->
  StronglySorted (le lint_leb) (dedup lint_eqb l) /\ NoDup (dedup lint_eqb l) /\ forall x, In x (dedup lint_eqb l) <-> In x l.
Proof.
  induction 1 as [|a l S (IS & IN & II) F]; [repeat split; constructor || auto|].
  simpl. destruct (dedup lint_eqb l) as [|y r] eqn:E.
  - assert (l = []) as ->. { destruct l as [|z l]; auto. exfalso. apply (II z). now left. }
    split; [constructor; constructor|]. split; [constructor; [intros []|constructor]|]. simpl in *; tauto.
  - rewrite Forall_forall in F. destruct (lint_eqb a y) eqn:Ea.
    + apply lint_eqb_iff in Ea. subst y. split; auto. split; auto. intros x. simpl in *. rewrite <- II. tauto.
    + assert (N : a <> y) by (intros ->; rewrite (proj2 (lint_eqb_iff y y) eq_refl) in Ea; discriminate).
      split; [|split].
      * constructor; auto. apply Forall_forall. intros x Hx. apply F, II, Hx.
      * constructor; auto. intros [->|Hin]; [congruence|]. apply N. apply lint_leb_antisym.
        -- apply F, II. now left.
        -- inversion IS as [|? ? _ F']; subst. rewrite Forall_forall in F'. apply F', Hin.
      * intros x. simpl in *. rewrite <- II. tauto.
Qed.

Lemma sort_dedup_ok l : StronglySorted (le lint_leb) (sort_dedup l) /\ NoDup (sort_dedup l) /\ forall x, In x (sort_dedup l) <-> In x l.
Proof.
  unfold sort_dedup. destruct (dedup_sorted (isort lint_leb l) (isort_sorted _ lint_leb_total lint_leb_trans l)) as (A & B & C).
  split; auto. split; auto. intros x. rewrite C. apply isort_in.
Qed.

Lemma sort_dedup_same l l' : (forall x, In x l <-> In x l') -> sort_dedup l = sort_dedup l'.
Proof.
  intros E. destruct (sort_dedup_ok l) as (A & B & C), (sort_dedup_ok l') as (A' & B' & C').
  apply (sorted_unique lint_leb); auto.
  - intros a b _ _. apply lint_leb_antisym.
  - apply NoDup_Permutation; auto. intros x. now rewrite C, C'.
Qed.

Definition is_error (x : lint) : bool := match li_level x with LError => true | LWarn => false end.
Lemma categorize_ok l : forall c, categorize c l =
  mkLints (ls_error c ++ filter is_error l) (ls_other c ++ filter (fun x => negb (is_error x)) l).
Proof.
  unfold categorize. induction l as [|x l IH]; intros c; simpl.
  - rewrite !app_nil_r. now destruct c.
  - rewrite IH. destruct x as [[] px lx cx mx]; simpl; now rewrite <- app_assoc.
Qed.

(** ** Loaded projects *)
Section Built.
  Variables (M : num) (topo : graph -> option (list nat)) (H : Type) (hash_im : art_im -> H).
  Hypothesis TC : topo_ok topo.
  Variables (arts : list art_im) (code : list (name * impl_code)) (out : list (name * artifact M H)).
  Hypothesis W : Forall im_wf arts.
  Hypothesis D : distinct arts.
  Hypothesis B : build M topo H hash_im arts code = Ok out.
  Variable path_str : path -> str.
  Variable p : project M H.
  Hypothesis PA : pr_arts p = out.

  Lemma built_wf : arts_wf out.
  Proof.
    destruct (build_entry M topo H hash_im TC arts code out W D B) as (gs & comp & G & C & E). rewrite Forall_forall in W. split.
    - intros m b Hin. rewrite E in Hin. apply in_map_iff in Hin as (a & X & Ha). inversion X; subst. apply W, Ha.
    - rewrite E, map_map. apply D.
    - intros m b z Hin Hz. rewrite E in Hin. apply in_map_iff in Hin as (a & X & Ha). inversion X; subst.
      cbn [built a_subnames] in Hz. split; [eapply parse_valid; eauto|]. destruct z as [x k]. apply in_parse_subnames in Hz as [-> _]. reflexivity.
  Qed.

  (** The links of an entry, with their spelling. *)
  Lemma built_links a : In a arts -> exists x, In (im_name a, x) out /\ a_file x = im_file a /\
    Forall name_wf (a_partof x) /\
    forall q, ~ own_link (n_key (im_name a)) (n_key q) -> name_wf q -> (In q (a_partof x) <-> In q (im_partof a)).
  Proof.
    intros Ha. destruct (build_entry M topo H hash_im TC arts code out W D B) as (gs & comp & G & C & E).
    eexists. split; [rewrite E; apply in_map_iff; exists a; split; [reflexivity|auto]|]. split; [reflexivity|].
    rewrite Forall_forall in W. pose proof (W a Ha) as Wa. pose proof (im_wf_set a Wa) as Sa. destruct (clean_wf a Wa) as [_ Sc].
    set (ims := map (fun a => (im_name a, im_clean a)) arts).
    pose proof (partof_set ims (im_name a, im_clean a) (iw_name _ Wa) Sc) as PS. cbn [built a_partof]. fold ims.
    split; [apply PS|]. intros q Ho Wq. rewrite own_link_iff in Ho by (auto; apply Wa). split.
    - intros Hq. unfold partof_of in Hq. apply (is_extend_sub name_eqb) in Hq as [Hq|Hq]; cbn [fst snd] in Hq.
      + exfalso. apply Ho. assert (X : In (nk q) (map nk (auto_links (map fst ims) (im_name a)))) by now apply in_map.
        apply auto_links_in in X as [X _]; auto. apply Wa.
      + cbn [im_clean im_partof] in Hq. rewrite isort_in, strip_in in Hq by apply Sa. tauto.
    - intros Hq. assert (Hc : In q (im_partof (im_clean a))).
      { cbn [im_clean im_partof]. rewrite isort_in, strip_in by apply Sa. auto. }
      assert (X : In (nk q) (map nk (partof_of ims (im_name a, im_clean a)))).
      { apply partof_in; [apply Wa|]. right. now apply in_map. }
      apply in_map_iff in X as (q' & Ek & Hq'). pose proof Hq' as Hq2. unfold partof_of in Hq2.
      apply (is_extend_sub name_eqb) in Hq2 as [Hq2|Hq2]; cbn [fst snd] in Hq2.
      + exfalso. apply Ho. assert (X : In (nk q') (map nk (auto_links (map fst ims) (im_name a)))) by now apply in_map.
        apply auto_links_in in X as [X _]; [|apply Wa]. now rewrite <- Ek.
      + assert (q' = q); [|now subst]. eapply (nodup_same nk); eauto. apply Sc.
  Qed.

  Lemma built_own a x : In a arts -> In (im_name a, x) out -> forall q, In q (a_partof x) ->
    own_link (n_key (im_name a)) (n_key q) -> name_wf q -> exists b, In b arts /\ n_key (im_name b) = n_key q.
  Proof.
    intros Ha Hx q Hq Ho Wq. destruct (partof_exact M topo H hash_im TC arts code out W D B a Ha) as (y & Hy & PE).
    assert (y = x); [|subst].
    { eapply (nodup_same (fun e : name * artifact M H => n_key (fst e))) with (x := (im_name a, y)) (y := (im_name a, x)) in Hy; eauto.
      - injection Hy; auto. - apply built_wf. }
    assert (N : named q (a_partof x)) by (exists q; auto). apply PE in N; auto. destruct N as [[_ N]|[_ N]]; [contradiction|auto].
  Qed.

  Lemma art_exists q : exists_art out q <-> exists b, In b arts /\ n_ty (im_name b) = n_ty q /\ n_key (im_name b) = n_key q.
  Proof.
    destruct (out_entries M topo H hash_im TC arts code out W D B) as [O1 O2]. split.
    - intros (m & b & Hin & E). destruct (O1 m b Hin) as (a & Ha & ->). eauto.
    - intros (b & Hb & E). destruct (O2 b Hb) as (x & Hx & _). exists (im_name b), x. auto.
  Qed.

  (** C10: exactly the explicit links other than the parent and the auto link are checked. *)
  Lemma missing_exact l : In l (lint_partof_dne path_str p) <->
    exists a q, In a arts /\ In q (im_partof a) /\ ~ own_link (n_key (im_name a)) (n_key q) /\
      (forall b, In b arts -> n_key (im_name b) <> n_key q) /\
      l = art_lint path_str LError (im_file a) (n_raw (im_name a) ++ s " defines partof=" ++ n_raw q ++ s " which does not exist").
  Proof.
    unfold lint_partof_dne. rewrite in_flat_map, PA. split.
    - intros ([n x] & Hin & X). cbn [fst snd] in X. apply in_flat_map in X as (q & Hq & X).
      destruct (out_entries M topo H hash_im TC arts code out W D B) as [O1 O2]. destruct (O1 n x Hin) as (a & Ha & ->).
      destruct (built_links a Ha) as (y & Hy & Fy & Wy & Ly).
      assert (y = x); [|subst y].
      { eapply (nodup_same (fun e : name * artifact M H => n_key (fst e))) with (x := (im_name a, y)) (y := (im_name a, x)) in Hy; eauto.
        - injection Hy; auto. - apply built_wf. }
      rewrite Forall_forall in Wy. pose proof (Wy q Hq) as Wq.
      destruct (defined p q) eqn:Ed; [destruct X|]. destruct X as [<-|[]]. apply defined_none in Ed. rewrite PA, art_exists in Ed.
      assert (N : forall b, In b arts -> n_key (im_name b) <> n_key q).
      { intros b Hb Ek. apply Ed. exists b. split; auto. split; auto. apply key_eq_ty; auto. rewrite Forall_forall in W. apply W, Hb. }
      assert (Ho : ~ own_link (n_key (im_name a)) (n_key q)).
      { intros Ho. destruct (built_own a x Ha Hin q Hq Ho Wq) as (b & Hb & Eb). now apply (N b Hb). }
      exists a, q. split; auto. split; [apply Ly; auto|]. split; auto. split; auto. now rewrite Fy.
    - intros (a & q & Ha & Hq & Ho & N & ->). destruct (built_links a Ha) as (x & Hx & Fx & Wx & Lx).
      assert (Wq : name_wf q). { rewrite Forall_forall in W. pose proof (im_wf_set a (W a Ha)) as [Sa _]. rewrite Forall_forall in Sa. auto. }
      exists (im_name a, x). split; auto. cbn [fst snd]. apply in_flat_map. exists q. split; [apply Lx; auto|].
      assert (Ed : defined p q = None).
      { apply defined_none. rewrite PA, art_exists. intros (b & Hb & _ & E2). now apply (N b Hb). }
      rewrite Ed, Fx. now left.
  Qed.

  Lemma built_partof_wf n x q : In (n, x) out -> In q (a_partof x) -> name_wf q.
  Proof.
    intros Hin Hq. destruct (out_entries M topo H hash_im TC arts code out W D B) as [O1 O2]. destruct (O1 n x Hin) as (a & Ha & ->).
    destruct (built_links a Ha) as (y & Hy & Fy & Wy & Ly).
    assert (y = x); [|subst y].
    { eapply (nodup_same (fun e : name * artifact M H => n_key (fst e))) with (x := (im_name a, y)) (y := (im_name a, x)) in Hy; eauto.
      - injection Hy; auto. - apply built_wf. }
    rewrite Forall_forall in Wy. auto.
  Qed.

  Lemma built_impl : pr_code p = code -> (forall n c, In (n, c) code -> name_wf n) ->
    forall n c m b, In (n, c) (pr_code p) -> In (m, b) out -> same_name n m -> a_impl b <> INot.
  Proof.
    intros PC WC n c m b Hn Hm [E1 E2] X. rewrite PC in Hn.
    destruct (out_entries M topo H hash_im TC arts code out W D B) as [O1 O2]. destruct (O1 m b Hm) as (a & Ha & ->).
    destruct (O2 a Ha) as (y & Hy & Iy & _).
    assert (y = b); [|subst y].
    { eapply (nodup_same (fun e : name * artifact M H => n_key (fst e))) with (x := (im_name a, y)) (y := (im_name a, b)) in Hy; eauto.
      - injection Hy; auto. - apply built_wf. }
    rewrite Iy in X. unfold impl_im in X. destruct (im_done a); [discriminate|].
    destruct (im_get name_eqb (im_name a) code) eqn:Eg; [discriminate|].
    apply (get_none_iff name_eqb nk name_eqb_iff) in Eg. apply Eg. unfold pkeys. apply in_map_iff. exists (n, c). split; auto.
    unfold nk. simpl. congruence.
  Qed.

  Lemma built_chain : lint_errors path_str p = [] -> forall n q, name_wf n -> name_wf q ->
    Relation_Operators.clos_refl_trans_1n _ (link_k p) (n_key n) (n_key q) -> ty_rank (n_ty q) <= ty_rank (n_ty n).
  Proof.
    intros E n q Wn Wq C. eapply (chain_rank path_str p E); eauto; rewrite PA.
    - intros m a Hm. eapply aw_names; eauto. apply built_wf.
    - intros m a r Hm Hr. eapply built_partof_wf; eauto.
  Qed.
  Lemma built_cycle : lint_errors path_str p = [] -> forall n q, name_wf n -> name_wf q ->
    Relation_Operators.clos_refl_trans_1n _ (link_k p) (n_key n) (n_key q) ->
    Relation_Operators.clos_refl_trans_1n _ (link_k p) (n_key q) (n_key n) -> n_ty n = n_ty q.
  Proof.
    intros E n q Wn Wq C1 C2. eapply (cycle_type path_str p E); eauto; rewrite PA.
    - intros m a Hm. eapply aw_names; eauto. apply built_wf.
    - intros m a r Hm Hr. eapply built_partof_wf; eauto.
  Qed.
  Lemma built_refs l : lint_text_refs path_str p = Ok l ->
    forall w, In w l <-> exists n a x y, In (n, a) out /\ ref_in (a_text a) x y /\ dangling out x y /\ w = ref_lint path_str n a x y.
  Proof. pose proof built_wf as BW. rewrite <- PA in *. now apply refs_exact. Qed.
  Lemma built_refs_panic : (lint_text_refs path_str p = Panic <->
     exists n a x y, In (n, a) out /\ ref_in (a_text a) x y /\ longs_name x) /\ lint_text_refs path_str p <> Err.
  Proof. pose proof built_wf as BW. rewrite <- PA in *. split; [now apply refs_panic|now apply refs_no_err]. Qed.
End Built.

Section Built2.
  Variables (M : num) (topo : graph -> option (list nat)) (H : Type) (hash_im : art_im -> H).
  Hypothesis TC : topo_ok topo.
  Variables (arts : list art_im) (code : list (name * impl_code)) (out : list (name * artifact M H)).
  Hypothesis W : Forall im_wf arts.
  Hypothesis D : distinct arts.
  Hypothesis WC : forall n c, In (n, c) code -> name_wf n.
  Hypothesis B : build M topo H hash_im arts code = Ok out.
  Variable path_str : path -> str.
  Variable p : project M H.
  Hypothesis PA : pr_arts p = out.
  Hypothesis PC : pr_code p = code.

  Lemma built_code w : In w (lint_code_impls path_str p) <->
    exists n sub loc msg, code_ref code n sub loc /\ code_reason p n sub msg /\ w = code_lint path_str n sub loc msg.
  Proof.
    pose proof (built_wf M topo H hash_im TC arts code out W D B p PA) as BW.
    pose proof (built_impl M topo H hash_im TC arts code out W D B p PA PC WC) as BI. rewrite <- PA in BW, BI.
    rewrite code_exact; auto; [now rewrite PC|]. intros n c. rewrite PC. apply WC.
  Qed.

  Lemma built_code_quiet : lint_code_impls path_str p = [] <->
    forall n sub loc, code_ref code n sub loc ->
    exists m b, In (m, b) out /\ same_name n m /\ (forall d, a_impl b <> IDone d) /\
      forall x, sub = Some x -> exists z, In z (a_subnames b) /\ s_key z = s_key x.
  Proof.
    pose proof (built_wf M topo H hash_im TC arts code out W D B p PA) as BW. split.
    - intros E n sub loc R.
      assert (N : forall msg, ~ code_reason p n sub msg).
      { intros msg X. assert (Y : In (code_lint path_str n sub loc msg) (lint_code_impls path_str p)).
        { apply built_code. exists n, sub, loc, msg. auto. } rewrite E in Y. destruct Y. }
      assert (Wn : name_wf n) by (destruct R as (c & Hc & _); eauto).
      destruct (defined p n) as [b|] eqn:Ed.
      + apply defined_same in Ed as (m & Hm & Em); auto; [|now rewrite PA]. rewrite PA in Hm. exists m, b. split; auto. split; auto.
        assert (ND : forall d, a_impl b <> IDone d).
        { intros d Hd. eapply N. right. left. split; [rewrite PA; exists m, b, d; auto|reflexivity]. }
        split; auto. intros x ->. destruct (existsb (fun z => str_eqb (s_key z) (s_key x)) (a_subnames b)) eqn:Es.
        * apply existsb_exists in Es as (z & Hz & Ez). apply str_eqb_eq in Ez. eauto.
        * exfalso. eapply N. right. right. split; [|eauto]. rewrite PA. exists m, b, x. split; auto. split; auto. split; auto. split; auto.
          intros z Hz Ez. assert (Y : existsb (fun z => str_eqb (s_key z) (s_key x)) (a_subnames b) = true); [|congruence].
          apply existsb_exists. exists z. split; auto. now apply str_eqb_eq.
      + exfalso. apply defined_none in Ed. eapply N. left. split; [|reflexivity]. intros m b Hm [E1 E2]. apply Ed. exists m, b. auto.
    - intros G. destruct (lint_code_impls path_str p) as [|w l] eqn:E; auto. exfalso.
      assert (Y : In w (lint_code_impls path_str p)) by (rewrite E; now left).
      apply built_code in Y as (n & sub & loc & msg & R & X & _). destruct (G n sub loc R) as (m & b & Hm & Em & Hd & Hs).
      destruct X as [(N & _)|[((m' & b' & d & Hm' & Em' & Ed) & _)|((m' & b' & x & -> & Hm' & Em' & _ & Hz) & _)]]; rewrite PA in *.
      + now apply (N m b).
      + assert (b' = b); [|subst; now apply (Hd d)].
        eapply (nodup_same (fun e : name * artifact M H => n_key (fst e))) with (x := (m', b')) (y := (m, b)) in Hm'; eauto.
        * injection Hm'; auto. * apply BW. * destruct Em, Em'. simpl. congruence.
      + destruct (Hs x eq_refl) as (z & Hz1 & Ez). apply (Hz z); auto.
        assert (b' = b); [|now subst].
        eapply (nodup_same (fun e : name * artifact M H => n_key (fst e))) with (x := (m', b')) (y := (m, b)) in Hm'; eauto.
        * injection Hm'; auto. * apply BW. * destruct Em, Em'. simpl. congruence.
  Qed.
End Built2.

Lemma sort_lints_same l l' : (forall x, In x l <-> In x l') ->
  sort_lints (categorize no_lints l) = sort_lints (categorize no_lints l').
Proof.
  intros E. rewrite !categorize_ok. unfold sort_lints. cbn [ls_error ls_other no_lints app].
  f_equal; apply sort_dedup_same; intros x; rewrite !filter_In, E; tauto.
Qed.
Lemma sort_lints_idem c : sort_lints (sort_lints c) = sort_lints c.
Proof. unfold sort_lints. cbn [ls_error ls_other]. f_equal; apply sort_dedup_same; intros x; apply sort_dedup_ok. Qed.
