(** Proofs about the lints (C10, C17, C29-C33). *)
From Coq Require Import Lia ZifyBool Permutation Sorted Relation_Operators Operators_Properties.
From Verif Require Import Base BaseFacts Regex RegexFacts ScanFacts Name SpecName NameFacts SubFacts FamilyFacts RawNamesFacts
  Artifact Stored SpecLinks LinkFacts BuildFacts ProjectFacts Topo SpecGraph GraphFacts
  Markdown SpecMarkdown LineFacts MarkdownFacts Lint SpecLint RefFacts.

(** ** Lines of a text *)
Lemma strip_cases l : strip_cr l = l \/ l = strip_cr l ++ [13%N].
Proof.
  unfold strip_cr. destruct (rev l) as [|c r] eqn:E; auto. destruct (N.eqb_spec c c_cr); auto. subst. right.
  rewrite <- (rev_involutive l), E. reflexivity.
Qed.

Lemma term_in ps l : In l (term_lines true ps) -> exists p, In p ps /\ l = strip_cr p.
Proof.
  induction ps as [|p ps IH]; [intros []|]. destruct ps as [|q ps].
  - simpl. destruct p; [intros []|]. intros [<-|[]]. eexists. split; [now left|reflexivity].
  - intros [<-|Hin]; [exists p; split; [now left|reflexivity]|]. destruct (IH Hin) as (r & Hr & ->). exists r. split; auto. now right.
Qed.

Lemma term_all ps p : In p ps -> p <> [] -> In (strip_cr p) (term_lines true ps).
Proof.
  induction ps as [|q ps IH]; [intros []|]. intros Hin Hn. destruct ps as [|r ps].
  - destruct Hin as [<-|[]]. simpl. destruct q; [congruence|]. now left.
  - destruct Hin as [<-|Hin]; [now left|]. right. now apply IH.
Qed.

Lemma lines_pred (P : str -> Prop) t : ~ P [] -> (forall l, P (l ++ [13%N]) <-> P l) ->
  (exists l, In l (str_lines t) /\ P l) <-> exists l, In l (split_on 10%N t) /\ P l.
Proof.
  intros H0 Hc.
  assert (S : forall l, P (strip_cr l) <-> P l).
  { intros l. destruct (strip_cases l) as [E|E]; [now rewrite E|]. rewrite E at 2. now rewrite Hc. }
  split.
  - intros (l & Hl & HP). apply term_in in Hl as (p & Hp & ->). exists p. split; auto. now apply S.
  - intros (l & Hl & HP). exists (strip_cr l). split; [|now apply S]. apply term_all; auto. intros ->. auto.
Qed.

Lemma header_cr prefix l x : header_line prefix (l ++ [13%N]) x <-> header_line prefix l x.
Proof.
  split.
  - intros (p & w1 & w2 & E & Hp & H1 & H2 & Hx).
    destruct (exists_last_dec w2) as [->|(w & c & ->)].
    + exfalso. rewrite app_nil_r in E. apply name_long in Hx as [L F].
      destruct (exists_last_dec x) as [->|(y & c & ->)]; [simpl in L; lia|].
      rewrite !app_assoc in E. apply app_inj_tail in E as [_ <-]. apply Forall_app in F as [_ F]. inversion F as [|? ? F0 _].
      apply name_ch_ws in F0. discriminate.
    + rewrite !app_assoc in E. apply app_inj_tail in E as [-> <-]. exists p, w1, w. apply Forall_app in H2 as [H2 _]. rewrite <- !app_assoc. auto 6.
  - intros (p & w1 & w2 & -> & Hp & H1 & H2 & Hx). exists p, w1, (w2 ++ [13%N]). rewrite <- !app_assoc.
    assert (blanks (w2 ++ [13%N])) by (apply Forall_app; split; auto; repeat constructor). auto 6.
Qed.

Lemma header_cr_ex prefix l : (exists x, header_line prefix (l ++ [13%N]) x) <-> exists x, header_line prefix l x.
Proof. split; intros (y & Hy); exists y; [exact (proj1 (header_cr _ _ _) Hy)|exact (proj2 (header_cr _ _ _) Hy)]. Qed.

Lemma end_cr l : end_line (l ++ [13%N]) <-> end_line l.
Proof.
  split.
  - intros (k & w & E & Hw). destruct (exists_last_dec w) as [->|(w' & c & ->)].
    + exfalso. rewrite app_nil_r in E. assert (X : s "###" ++ repeat 35%N k = s "##" ++ repeat 35%N k ++ [35%N]).
      { clear E. induction k; [reflexivity|]. simpl in *. do 3 f_equal. injection IHk as IHk. exact IHk. }
      rewrite X in E. rewrite !app_assoc in E. apply app_inj_tail in E as [_ E]. discriminate.
    + rewrite !app_assoc in E. apply app_inj_tail in E as [-> <-]. exists k, w'. apply Forall_app in Hw as [Hw _]. rewrite <- !app_assoc. auto.
  - intros (k & w & -> & Hw). exists k, (w ++ [13%N]). rewrite <- !app_assoc.
    assert (blanks (w ++ [13%N])) by (apply Forall_app; split; auto; repeat constructor). auto.
Qed.

Lemma header_not_nil prefix : ~ exists x, header_line prefix [] x.
Proof. intros (x & H). apply header_infix in H as (_ & _ & _ & _ & [] & _). Qed.

(** A header line is never an end-of-attributes line. *)
Lemma header_not_end prefix l x : header_line prefix l x -> ~ end_line l.
Proof.
  intros H (k & w & -> & Hw). apply header_infix in H as (_ & _ & _ & _ & _ & H). rewrite !in_app_iff in H.
  destruct H as [H|[H|H]]; [simpl in H; intuition discriminate| |].
  - apply repeat_spec in H. discriminate.
  - unfold blanks in Hw. rewrite Forall_forall in Hw. specialize (Hw _ H). discriminate.
Qed.

Lemma res_map_panic {A B} (f : A -> res B) l : (forall x, In x l -> f x <> Err) ->
  res_map f l <> Err /\ (res_map f l = Panic <-> exists x, In x l /\ f x = Panic).
Proof.
  induction l as [|a l IH]; intros Hn; simpl.
  - split; [discriminate|]. split; [discriminate|]. intros (x & [] & _).
  - destruct (IH (fun x Hx => Hn x (or_intror Hx))) as [I1 I2]. pose proof (Hn a (or_introl eq_refl)) as Ha.
    destruct (f a) as [b| |] eqn:E; cbn [res_bind]; [| congruence |].
    + destruct (res_map f l) as [r| |]; cbn [res_bind]; [| congruence |].
      * split; [discriminate|]. split; [discriminate|]. intros (x & [->|Hx] & Ex); [congruence|].
        assert (X : Ok r = Panic) by (apply I2; eauto). discriminate X.
      * split; [discriminate|]. split; auto. intros _. destruct (proj1 I2 eq_refl) as (x & Hx & Ex). exists x. auto.
    + split; [discriminate|]. split; auto. intros _. exists a. auto.
Qed.

Lemma forall2_in_l {A B} (R : A -> B -> Prop) l m : Forall2 R l m -> forall x, In x l -> exists y, In y m /\ R x y.
Proof.
  induction 1 as [|a b l m Hab _ IH]; intros x; [intros []|]. intros [<-|Hx]; [exists b; split; auto; now left|].
  destruct (IH x Hx) as (y & Hy & R'). exists y. split; auto. now right.
Qed.

Lemma res_concat_in {A B} (f : A -> res (list B)) l ys : res_map f l = Ok ys ->
  forall w, In w (concat ys) <-> exists x r, In x l /\ f x = Ok r /\ In w r.
Proof.
  intros E w. apply res_map_ok_iff in E. induction E as [|a b l m Hab _ IH]; simpl.
  - split; [intros []|]. intros (x & r & [] & _).
  - rewrite in_app_iff, IH. split.
    + intros [Hw|(x & r & Hx & Er & Hw)]; [exists a, b; auto|exists x, r; auto].
    + intros (x & r & [->|Hx] & Er & Hw); [left; congruence|right; eauto].
Qed.

Lemma nodup_same {A B} (f : A -> B) l x y : NoDup (map f l) -> In x l -> In y l -> f x = f y -> x = y.
Proof.
  induction l as [|a l IH]; intros ND; [intros []|]. inversion ND as [|? ? N1 N2]; subst. intros [->|Hx] [->|Hy] E; auto.
  - exfalso. apply N1. rewrite E. now apply in_map.
  - exfalso. apply N1. rewrite <- E. now apply in_map.
Qed.

Section Proofs.
  Context {M : num} {H : Type}.
  Variable path_str : path -> str.
  Variable p : project M H.
  Notation arts := (pr_arts p).
  Notation defined := (defined p).
  Notation art_lint := (art_lint path_str).

  Lemma defined_none q : defined q = None <-> ~ exists_art arts q.
  Proof.
    unfold Lint.defined. rewrite (get_none_iff name_eqb nk name_eqb_iff). unfold pkeys, exists_art. rewrite in_map_iff.
    split; intros N X; apply N.
    - destruct X as (m & b & Hin & E1 & E2). exists (m, b). split; auto. unfold nk. simpl. congruence.
    - destruct X as ([m b] & E & Hin). unfold nk in E. simpl in E. exists m, b. split; auto. split; congruence.
  Qed.

  Lemma bad_types_iff a b : bad_types a b = true <-> ty_rank a < ty_rank b.
  Proof. destruct a, b; simpl; split; intros X; try lia; try discriminate; auto. Qed.

  (** ** C29 *)
  Definition error_lint (n : name) (a : artifact M H) (l : lint) : Prop :=
    (exists q, missing_link arts a q /\
       l = art_lint LError (a_file a) (n_raw n ++ s " defines partof=" ++ n_raw q ++ s " which does not exist")) \/
    (exists q, bad_link n a q /\
       l = art_lint LError (a_file a) (n_raw n ++ s " cannot have `partof` " ++ n_raw q ++ s ": invalid types.")) \/
    (header_in (pr_prefix p) a /\ l = art_lint LError (a_file a) (n_raw n ++ s " text is invalid: " ++ msg_header)) \/
    (end_in a /\ l = art_lint LError (a_file a) (n_raw n ++ s " text is invalid: " ++ msg_end)) \/
    (done_with_subs a /\ l = art_lint LError (a_file a) (n_raw n ++ s ": subnames are defined when the `done` field is set.")).

  Lemma lint_errors_exact l : In l (lint_errors path_str p) <-> exists n a, In (n, a) arts /\ error_lint n a l.
  Proof.
    unfold lint_errors. rewrite !in_app_iff. split.
    - intros [X|[X|[X|X]]].
      + unfold lint_partof_dne in X. apply in_flat_map in X as ([n a] & Hin & X). apply in_flat_map in X as (q & Hq & X).
        destruct (defined q) eqn:E; [destruct X|]. destruct X as [<-|[]]. exists n, a. split; auto. left. exists q. split; auto.
        split; auto. now apply defined_none.
      + unfold lint_partof_types in X. apply in_flat_map in X as ([n a] & Hin & X). apply in_flat_map in X as (q & Hq & X).
        destruct (bad_types _ _) eqn:E; [|destruct X]. destruct X as [<-|[]]. exists n, a. split; auto. right. left. exists q. split; auto.
        split; auto. now apply bad_types_iff.
      + unfold lint_text in X. apply in_flat_map in X as ([n a] & Hin & X). apply in_flat_map in X as (t & Ht & X).
        cbn [fst snd] in *. exists n, a. split; auto.
        destruct (is_match_full (md_name_line_re _) t) eqn:E1; [|destruct (is_match_full attrs_end_re t) eqn:E2; [|destruct X]].
        * destruct X as [<-|[]]. right. right. left. split; auto. apply header_match in E1 as (x & Hx).
          assert (Y : exists l, In l (str_lines (a_text a)) /\ (exists x, header_line (pr_prefix p) l x)) by eauto.
          apply (lines_pred (fun l => exists x, header_line (pr_prefix p) l x)) in Y.
          -- destruct Y as (l & Hl & y & Hy). exists l, y. auto.
          -- apply header_not_nil.
          -- apply header_cr_ex.
        * destruct X as [<-|[]]. right. right. right. left. split; auto. apply end_line_iff in E2.
          assert (Y : exists l, In l (str_lines (a_text a)) /\ end_line l) by eauto.
          apply (lines_pred end_line) in Y; auto; [intros (k & w & Ek & _); discriminate|apply end_cr].
      + unfold lint_done_subnames in X. apply in_flat_map in X as ([n a] & Hin & X). cbn [fst snd] in *.
        destruct (a_impl a) as [d|c|] eqn:E; try destruct X. destruct (a_subnames a) as [|z zs] eqn:E2; [destruct X|].
        destruct X as [<-|[]]. exists n, a. split; auto. do 4 right. split; auto. split; [eauto|]. congruence.
    - intros (n & a & Hin & [(q & [Hq Hn] & ->)|[(q & [Hq Hb] & ->)|[[(t & x & Ht & Hx) ->]|[[(t & Ht & Hx) ->]|[[(d & Hd) Hs] ->]]]]]).
      + left. apply in_flat_map. exists (n, a). split; auto. apply in_flat_map. exists q. split; auto.
        apply defined_none in Hn. rewrite Hn. now left.
      + right. left. apply in_flat_map. exists (n, a). split; auto. apply in_flat_map. exists q. split; auto.
        apply bad_types_iff in Hb. cbn [fst snd]. rewrite Hb. now left.
      + right. right. left. apply in_flat_map. exists (n, a). split; auto.
        assert (Y : exists l, In l (split_on 10%N (a_text a)) /\ (exists x, header_line (pr_prefix p) l x)) by eauto.
        apply (lines_pred (fun l => exists x, header_line (pr_prefix p) l x)) in Y.
        * destruct Y as (l & Hl & Hy). apply in_flat_map. exists l. split; auto. apply header_match in Hy. rewrite Hy. now left.
        * apply header_not_nil.
        * apply header_cr_ex.
      + right. right. left. apply in_flat_map. exists (n, a). split; auto.
        assert (Y : exists l, In l (split_on 10%N (a_text a)) /\ end_line l) by eauto.
        apply (lines_pred end_line) in Y; [|intros (k & w & Ek & _); discriminate|apply end_cr].
        destruct Y as (l & Hl & Hy). apply in_flat_map. exists l. split; auto.
        destruct (is_match_full (md_name_line_re _) l) eqn:E1.
        * apply header_match in E1 as (z & Hz). apply header_not_end in Hz. contradiction.
        * apply end_line_iff in Hy. rewrite Hy. now left.
      + do 3 right. apply in_flat_map. exists (n, a). split; auto. cbn [fst snd]. rewrite Hd.
        destruct (a_subnames a); [congruence|]. now left.
  Qed.

  Lemma no_errors_iff : lint_errors path_str p = [] <-> forall n a, In (n, a) arts ->
    (forall q, In q (a_partof a) -> exists_art arts q /\ ty_rank (n_ty q) <= ty_rank (n_ty n)) /\
    ((exists d, a_impl a = IDone d) -> a_subnames a = []) /\
    (forall l, In l (split_on 10%N (a_text a)) -> (forall x, ~ header_line (pr_prefix p) l x) /\ ~ end_line l).
  Proof.
    split.
    - intros E n a Hin.
      assert (N : forall l, ~ error_lint n a l).
      { intros l X. assert (Y : In l (lint_errors path_str p)) by (apply lint_errors_exact; eauto). rewrite E in Y. destruct Y. }
      split; [|split].
      + intros q Hq. split.
        * destruct (defined q) as [b|] eqn:Ed.
          -- assert (G : defined q <> None) by congruence. rewrite defined_none in G.
             destruct (get_some_in name_eqb nk name_eqb_iff _ _ _ Ed) as (m & Em & Hm). exists m, b. split; auto.
             unfold nk in Em. split; congruence.
          -- apply defined_none in Ed. exfalso. eapply N. left. exists q. split; [split; auto|reflexivity].
        * destruct (Nat.le_gt_cases (ty_rank (n_ty q)) (ty_rank (n_ty n))) as [|G]; auto.
          exfalso. eapply N. right. left. exists q. split; [split; auto|reflexivity].
      + intros Hd. destruct (a_subnames a) eqn:Es; auto. exfalso. eapply N. do 4 right. split; [split; auto; congruence|reflexivity].
      + intros l Hl. split.
        * intros x Hx. eapply N. do 2 right. left. split; [exists l, x; auto|reflexivity].
        * intros Hx. eapply N. do 3 right. left. split; [exists l; auto|reflexivity].
    - intros G. destruct (lint_errors path_str p) as [|l ls] eqn:E; auto. exfalso.
      assert (Y : In l (lint_errors path_str p)) by (rewrite E; now left). apply lint_errors_exact in Y as (n & a & Hin & X).
      destruct (G n a Hin) as (G1 & G2 & G3).
      destruct X as [(q & [Hq Hn] & _)|[(q & [Hq Hb] & _)|[[(t & x & Ht & Hx) _]|[[(t & Ht & Hx) _]|[[(d & Hd) Hs] _]]]]].
      + apply Hn, G1, Hq.
      + destruct (G1 q Hq) as [_ L]. lia.
      + destruct (G3 t Ht) as [G4 _]. now apply (G4 x).
      + destruct (G3 t Ht) as [_ G4]. auto.
      + apply Hs, G2. eauto.
  Qed.

  (** ** C30 *)
  Lemma link_rank : lint_errors path_str p = [] -> (forall n a, In (n, a) arts -> name_wf n) ->
    (forall n a q, In (n, a) arts -> In q (a_partof a) -> name_wf q) ->
    forall n q, name_wf q -> links_to arts n q -> ty_rank (n_ty q) <= ty_rank (n_ty n).
  Proof.
    intros E W1 W2 n q Wq (a & q' & Hin & Hq & K). pose proof (proj1 no_errors_iff E n a Hin) as (G & _).
    destruct (G q' Hq) as [_ L]. rewrite <- (key_eq_ty q' q); auto. eapply W2; eauto.
  Qed.

  (** Links between keys. *)
  Definition link_k (k k' : str) : Prop :=
    exists n a q, In (n, a) arts /\ n_key n = k /\ In q (a_partof a) /\ n_key q = k'.

  Lemma chain_rank : lint_errors path_str p = [] -> (forall n a, In (n, a) arts -> name_wf n) ->
    (forall n a q, In (n, a) arts -> In q (a_partof a) -> name_wf q) ->
    forall k k', clos_refl_trans_1n _ link_k k k' -> forall n q, name_wf n -> name_wf q -> n_key n = k -> n_key q = k' ->
    ty_rank (n_ty q) <= ty_rank (n_ty n).
  Proof.
    intros E W1 W2 k k' C. induction C as [k|k k1 k' (m & a & q1 & Hin & Km & Hq & Kq) C IH]; intros n q Wn Wq Kn K'.
    - rewrite (key_eq_ty q n); auto. congruence.
    - assert (L1 : ty_rank (n_ty q1) <= ty_rank (n_ty n)).
      { rewrite (key_eq_ty n m); [|auto|eapply W1; eauto|congruence].
        apply (proj1 no_errors_iff E m a Hin). auto. }
      assert (L2 : ty_rank (n_ty q) <= ty_rank (n_ty q1)) by (apply IH; auto; eapply W2; eauto).
      lia.
  Qed.

  Lemma cycle_type : lint_errors path_str p = [] -> (forall n a, In (n, a) arts -> name_wf n) ->
    (forall n a q, In (n, a) arts -> In q (a_partof a) -> name_wf q) ->
    forall n q, name_wf n -> name_wf q -> clos_refl_trans_1n _ link_k (n_key n) (n_key q) ->
    clos_refl_trans_1n _ link_k (n_key q) (n_key n) -> n_ty n = n_ty q.
  Proof.
    intros E W1 W2 n q Wn Wq C1 C2.
    pose proof (chain_rank E W1 W2 _ _ C1 n q Wn Wq eq_refl eq_refl).
    pose proof (chain_rank E W1 W2 _ _ C2 q n Wq Wn eq_refl eq_refl).
    destruct (n_ty n), (n_ty q); simpl in *; auto; lia.
  Qed.

  (** ** C31 *)
  Definition ref_lint (n : name) (a : artifact M H) (x y : str) : lint :=
    art_lint LWarn (a_file a) (n_raw n ++ s " has soft reference [[" ++ (x ++ y) ++ s "]] which does not exist.").

  Lemma defined_some q b : arts_wf arts -> name_wf q ->
    (defined q = Some b <-> exists m, In (m, b) arts /\ str_ci (n_raw m) (n_raw q)).
  Proof.
    intros W Wq. unfold Lint.defined. split.
    - intros E. destruct (get_some_in name_eqb nk name_eqb_iff _ _ _ E) as (m & Em & Hm). exists m. split; auto.
      apply name_eqb_ci; auto; [eapply aw_names; eauto|]. now apply name_eqb_iff.
    - intros (m & Hm & Ec). destruct (im_get name_eqb q arts) as [b'|] eqn:E.
      + destruct (get_some_in name_eqb nk name_eqb_iff _ _ _ E) as (m' & Em & Hm').
        f_equal. eapply (nodup_same (fun e : name * artifact M H => n_key (fst e))) with (x := (m', b')) (y := (m, b)) in Hm'; eauto.
        * injection Hm'. auto.
        * apply W.
        * simpl. unfold nk in Em. apply name_eqb_ci in Ec; auto; [|eapply aw_names; eauto]. apply name_eqb_iff in Ec. unfold nk in Ec. congruence.
      + exfalso. apply (get_none_iff name_eqb nk name_eqb_iff) in E. apply E. unfold pkeys. apply in_map_iff. exists (m, b). split; auto.
        simpl. apply name_eqb_iff, name_eqb_ci; auto. eapply aw_names; eauto.
  Qed.

  Lemma sub_mem b m y : arts_wf arts -> In (m, b) arts ->
    is_mem sub_eqb (sub_new y) (a_subnames b) = true <-> exists z, In z (a_subnames b) /\ str_ci (s_raw z) y.
  Proof.
    intros W Hin. unfold is_mem. rewrite existsb_exists. split; intros (z & Hz & E); exists z; split; auto.
    - apply str_ci_upper. destruct (aw_subs arts W m b z Hin Hz) as [_ K]. rewrite <- K.
      unfold sub_eqb in E. apply str_eqb_eq in E. simpl in E. congruence.
    - apply str_ci_upper in E. destruct (aw_subs arts W m b z Hin Hz) as [_ K]. unfold sub_eqb. apply str_eqb_eq. simpl. congruence.
  Qed.

  Lemma lint_ref_valid n a x y : arts_wf arts -> valid_name x -> (y = [] \/ valid_sub y) ->
    exists r, lint_ref path_str p (n, a) (ref_caps x y) = Ok r /\
      forall w, In w r <-> dangling arts x y /\ w = ref_lint n a x y.
  Proof.
    intros W Hx Hy. unfold lint_ref. destruct (ref_caps_get x y Hy) as [-> ->].
    apply name_accept in Hx as (q & Eq). rewrite Eq. destruct (from_str_wf _ _ Eq) as [Wq Rq].
    eexists. split; [reflexivity|]. intros w. cbn [fst snd].
    assert (F : name_full q (option_map sub_new match y with [] => None | _ => Some y end) = x ++ y).
    { unfold name_full. rewrite Rq. f_equal. destruct y; reflexivity. }
    rewrite F. change (Lint.art_lint path_str LWarn (a_file a) (n_raw n ++ s " has soft reference [[" ++ (x ++ y) ++ s "]] which does not exist.")) with (ref_lint n a x y).
    destruct (defined q) as [b|] eqn:Ed.
    - apply defined_some in Ed as (m & Hm & Ec); auto. rewrite Rq in Ec.
      assert (D : dangling arts x y <-> y <> [] /\ forall z, In z (a_subnames b) -> ~ str_ci (s_raw z) y).
      { split; [intros D; exact (D m b Hm Ec)|]. intros D m' b' Hm' Ec'.
        assert (Some b' = Some b) as X; [|injection X as ->; exact D].
        rewrite <- (proj2 (defined_some q b' W Wq)), <- (proj2 (defined_some q b W Wq)); auto.
        - exists m. rewrite Rq. auto.
        - exists m'. rewrite Rq. auto. }
      rewrite D. destruct y as [|c y].
      + cbn [option_map]. split; [intros []|]. intros [[X _] _]. congruence.
      + cbn [option_map]. destruct (is_mem sub_eqb (sub_new (c :: y)) (a_subnames b)) eqn:Em.
        * apply (sub_mem b m) in Em as (z & Hz & Ez); auto. split; [intros []|]. intros [[_ X] _]. now apply (X z) in Hz.
        * split.
          -- intros [<-|[]]. split; auto. split; [discriminate|]. intros z Hz Ez.
             assert (X : is_mem sub_eqb (sub_new (c :: y)) (a_subnames b) = true) by (apply (sub_mem b m); eauto). congruence.
          -- intros [_ ->]. now left.
    - apply defined_none in Ed.
      assert (D : dangling arts x y).
      { intros m b Hm Ec. exfalso. apply Ed. exists m, b. split; auto. rewrite <- Rq in Ec.
        assert (Wm : name_wf m) by (eapply aw_names; eauto).
        apply name_eqb_ci in Ec; auto. apply name_eqb_iff in Ec. unfold nk in Ec. split; congruence. }
      split; [intros [<-|[]]; auto|]. intros [_ ->]. destruct y; now left.
  Qed.

  Lemma lint_ref_longs n a x y : longs_name x -> lint_ref path_str p (n, a) (ref_caps x y) = Panic.
  Proof.
    intros Hx. unfold lint_ref. assert (E : cap_get 0 (ref_caps x y) = Some x) by (destruct y; reflexivity).
    rewrite E. apply name_panic in Hx. now rewrite Hx.
  Qed.

  Lemma refs_panic : arts_wf arts -> lint_text_refs path_str p = Panic <->
    exists n a x y, In (n, a) arts /\ ref_in (a_text a) x y /\ longs_name x.
  Proof.
    intros W. unfold lint_text_refs.
    assert (NE : forall e cs, In cs (find_all re_text_ref (a_text (snd e))) -> lint_ref path_str p e cs <> Err).
    { intros [n a] cs Hin. apply text_refs_in in Hin as (x & y & ([Hx|Hx] & Hy & _) & ->).
      - destruct (lint_ref_valid n a x y W Hx Hy) as (r & -> & _). discriminate.
      - now rewrite lint_ref_longs. }
    set (f := fun e : name * artifact M H => _).
    assert (Hf : forall e, f e <> Err /\ (f e = Panic <-> exists x y, ref_in (a_text (snd e)) x y /\ longs_name x)).
    { intros e. unfold f. pose proof (res_map_panic (lint_ref path_str p e) (find_all re_text_ref (a_text (snd e))) (NE e)) as [R1 R2].
      split.
      - destruct (res_map _ _); cbn [res_bind]; congruence.
      - transitivity (res_map (lint_ref path_str p e) (find_all re_text_ref (a_text (snd e))) = Panic).
        { destruct (res_map _ _); cbn [res_bind]; split; congruence. }
        rewrite R2. destruct e as [n a]. split.
        + intros (cs & Hin & E). apply text_refs_in in Hin as (x & y & R & ->). exists x, y. split; auto.
          destruct R as ([Hx|Hx] & Hy & _); auto. destruct (lint_ref_valid n a x y W Hx Hy) as (r & Er & _). congruence.
        + intros (x & y & R & Hx). exists (ref_caps x y). split; [apply text_refs_in; eauto|]. now apply lint_ref_longs. }
    pose proof (res_map_panic f arts (fun e _ => proj1 (Hf e))) as [R1 R2].
    transitivity (res_map f arts = Panic).
    { destruct (res_map f arts); cbn [res_bind]; split; congruence. }
    rewrite R2. split.
    - intros ([n a] & Hin & E). apply Hf in E as (x & y & R & L). exists n, a, x, y. auto.
    - intros (n & a & x & y & Hin & R & L). exists (n, a). split; auto. apply Hf. eauto.
  Qed.

  Lemma refs_no_err : arts_wf arts -> lint_text_refs path_str p <> Err.
  Proof.
    intros W. unfold lint_text_refs.
    assert (NE : forall e cs, In cs (find_all re_text_ref (a_text (snd e))) -> lint_ref path_str p e cs <> Err).
    { intros [n a] cs Hin. apply text_refs_in in Hin as (x & y & ([Hx|Hx] & Hy & _) & ->).
      - destruct (lint_ref_valid n a x y W Hx Hy) as (r & -> & _). discriminate.
      - now rewrite lint_ref_longs. }
    set (f := fun e : name * artifact M H => _).
    assert (Hf : forall e, f e <> Err).
    { intros e. unfold f. pose proof (res_map_panic (lint_ref path_str p e) (find_all re_text_ref (a_text (snd e))) (NE e)) as [R1 _].
      destruct (res_map _ _); cbn [res_bind]; congruence. }
    pose proof (res_map_panic f arts (fun e _ => Hf e)) as [R1 _]. destruct (res_map f arts); cbn [res_bind]; congruence.
  Qed.

  Lemma refs_exact l : arts_wf arts -> lint_text_refs path_str p = Ok l ->
    forall w, In w l <-> exists n a x y, In (n, a) arts /\ ref_in (a_text a) x y /\ dangling arts x y /\ w = ref_lint n a x y.
  Proof.
    intros W E w.
    assert (NL : forall n a x y, In (n, a) arts -> ref_in (a_text a) x y -> valid_name x).
    { intros n a x y Hin R. destruct R as ([Hx|Hx] & Hy & U); auto. exfalso.
      assert (P : lint_text_refs path_str p = Panic) by (apply refs_panic; auto; exists n, a, x, y; split; auto; split; auto; split; auto).
      congruence. }
    unfold lint_text_refs in E. destruct (res_map _ arts) as [ls| |] eqn:E1; try discriminate. injection E as <-.
    rewrite (res_concat_in _ _ _ E1). split.
    - intros ([n a] & r & Hin & Er & Hw). destruct (res_map (lint_ref _ _ _) _) as [rs| |] eqn:E2; try discriminate. injection Er as <-.
      rewrite (res_concat_in _ _ _ E2) in Hw. destruct Hw as (cs & r & Hcs & Er & Hw).
      apply text_refs_in in Hcs as (x & y & R & ->). pose proof (NL n a x y Hin R) as Hx.
      destruct (lint_ref_valid n a x y W Hx (proj1 (proj2 R))) as (r' & Er' & Hr). assert (r' = r) by congruence. subst r'.
      apply Hr in Hw as [D ->]. exists n, a, x, y. auto.
    - intros (n & a & x & y & Hin & R & D & ->). 
      apply res_map_ok_iff in E1. destruct (forall2_in_l _ _ _ E1 _ Hin) as (r & Hr & Er). exists (n, a), r. split; auto. split; auto.
      cbv beta in Er. destruct (res_map (lint_ref _ _ _) _) as [rs| |] eqn:E2; try discriminate. injection Er as <-.
      rewrite (res_concat_in _ _ _ E2). exists (ref_caps x y).
      destruct (lint_ref_valid n a x y W (NL n a x y Hin R) (proj1 (proj2 R))) as (r' & Er' & Hr'). exists r'.
      split; [apply text_refs_in; eauto|]. split; auto. apply Hr'. auto.
  Qed.
End Proofs.
