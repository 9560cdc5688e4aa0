(** The statements of SpecJoin.v for [join_locations]. *)
From Coq Require Import Lia ZifyBool Permutation.
From Verif Require Import Base BaseFacts Regex Name SpecName NameFacts SubFacts Artifact GraphFacts Lint Source SpecJoin JoinFacts LineFacts LintFacts.

Lemma same_ref_key r r' : ref_wf r -> ref_wf r' -> same_ref r r' <-> rkey r = rkey r'.
Proof.
  destruct r as [[l n] sub], r' as [[l' n'] sub']. unfold ref_wf, same_ref, ref_name, ref_sub, rkey, r_name, r_sub. cbn [fst snd].
  intros [Hn Hs] [Hn' Hs'].
  assert (E1 : str_ci (n_raw n) (n_raw n') <-> nk n = nk n').
  { rewrite <- (name_eqb_ci n n' Hn Hn'). apply name_eqb_iff. }
  assert (E2 : same_subname sub sub' <-> option_map s_key sub = option_map s_key sub').
  { destruct sub as [x|], sub' as [y|]; cbn [same_subname option_map].
    - specialize (Hs x eq_refl). specialize (Hs' y eq_refl). apply sub_ok in Hs as [Hx _]. apply sub_ok in Hs' as [Hy _].
      rewrite str_ci_upper. rewrite Hx, Hy. cbn [sub_new s_key s_raw]. split; [intros ->; reflexivity|intros E; injection E as ->; reflexivity].
    - split; [intros []|discriminate].
    - split; [intros []|discriminate].
    - tauto. }
  rewrite E1, E2. split; [intros [-> ->]; reflexivity|intros E; injection E as Ea Eb Ec; split; [unfold nk; congruence|auto]].
Qed.

Lemma nth_split_lt {A} (l : list A) i j a b : i < j -> nth_error l i = Some a -> nth_error l j = Some b ->
  exists x y z, l = x ++ a :: y ++ b :: z /\ length x = i.
Proof.
  intros L Ha Hb. apply nth_error_split in Ha as (x & r & -> & Lx). rewrite nth_error_app2 in Hb by lia.
  replace (j - length x) with (S (j - length x - 1)) in Hb by lia. cbn [nth_error] in Hb. apply nth_error_split in Hb as (y & z & -> & _).
  exists x, y, z. auto.
Qed.

Lemma nodup_repeated refs : Forall ref_wf refs -> NoDup (map rkey refs) <-> forall i j, ~ repeated refs i j.
Proof.
  intros W. rewrite Forall_forall in W. split.
  - intros ND i j (r & r' & Hi & Hj & N & E). apply same_ref_key in E; try (apply W; eapply nth_error_In; eauto).
    apply N. apply (proj1 (NoDup_nth_error (map rkey refs)) ND).
    + rewrite map_length. apply nth_error_Some. congruence.
    + rewrite !nth_error_map, Hi, Hj. cbn [option_map]. now rewrite E.
  - intros NR. apply NoDup_nth_error. intros i j Hi E. rewrite map_length in Hi.
    destruct (Nat.eq_dec i j) as [|N]; auto. exfalso. apply (NR i j).
    rewrite !nth_error_map in E. destruct (nth_error refs i) as [r|] eqn:Er; [|apply nth_error_None in Er; lia].
    destruct (nth_error refs j) as [r'|] eqn:Er'; [|discriminate]. cbn [option_map] in E. injection E as E1 E2 E3.
    exists r, r'. repeat split; auto. all: apply same_ref_key; try (apply W; eapply nth_error_In; eauto); unfold rkey, nk; congruence.
Qed.

Lemma no_error_iff refs : Forall ref_wf refs ->
  fst (join_locations refs) = [] <-> forall i j, ~ repeated refs i j.
Proof. intros W. rewrite dups_nil_iff. now apply nodup_repeated. Qed.

Lemma in_listed refs n sub l : NoDup (map rkey refs) -> listed (snd (join_locations refs)) n sub l ->
  exists r, In r refs /\ nk (r_name r) = nk n /\ r_sub r = sub /\ r_loc r = l.
Proof.
  intros ND (c & Hin & Hl). destruct (out_entry refs n c ND Hin) as (_ & P & Sd & _).
  destruct sub as [x|]; [apply Sd in Hl|apply P in Hl]; destruct Hl as (r & ? & ? & ? & ?); exists r; auto.
Qed.
Lemma out_nodup refs : NDn (snd (join_locations refs)).
Proof. destruct (join_shape refs) as (sec & _ & _ & ND & _). exact ND. Qed.

Theorem join_exact refs : Forall ref_wf refs -> (forall i j, ~ repeated refs i j) ->
  forall path_str, join_lints path_str refs = [] /\
  (forall r, In r refs -> exists n, str_ci (n_raw (ref_name r)) (n_raw n) /\ listed (snd (join_locations refs)) n (ref_sub r) (ref_loc r)) /\
  (forall n sub l, listed (snd (join_locations refs)) n sub l ->
     exists r, In r refs /\ str_ci (n_raw n) (n_raw (ref_name r)) /\ ref_sub r = sub /\ ref_loc r = l) /\
  (forall n c, In (n, c) (snd (join_locations refs)) -> exists r, In r refs /\ ref_name r = n) /\
  (forall n c n' c', In (n, c) (snd (join_locations refs)) -> In (n', c') (snd (join_locations refs)) ->
     str_ci (n_raw n) (n_raw n') -> (n, c) = (n', c')).
Proof.
  intros W NR path_str. pose proof (proj2 (no_error_iff refs W) NR) as D0. pose proof (proj1 (dups_nil_iff refs) D0) as ND.
  rewrite Forall_forall in W.
  assert (Wn : forall r, In r refs -> name_wf (r_name r)) by (intros r Hr; apply (W r Hr)).
  assert (On : forall n c, In (n, c) (snd (join_locations refs)) -> exists r, In r refs /\ r_name r = n).
  { intros n c Hin. destruct (out_entry refs n c ND Hin) as ((r & ? & ? & _) & _). eauto. }
  assert (CI : forall n n', name_wf n -> name_wf n' -> str_ci (n_raw n) (n_raw n') <-> nk n = nk n').
  { intros n n' Hn Hn'. rewrite <- (name_eqb_ci n n' Hn Hn'). apply name_eqb_iff. }
  split; [unfold join_lints; now rewrite D0|]. split; [|split; [|split]].
  - intros r Hr. destruct (proj2 (listed_nodup refs ND (r_name r) (r_sub r) (r_loc r))) as (n & c & Hin & En & Hl).
    { exists r. auto. }
    exists n. destruct (On n c Hin) as (r0 & Hr0 & <-). split; [apply CI; auto|]. exists c. split; auto.
    destruct (out_entry refs _ c ND Hin) as (_ & P & Sd & _).
    change (ref_sub r) with (r_sub r). change (ref_loc r) with (r_loc r). destruct (r_sub r) as [x|] eqn:Ex.
    + apply Sd. exists r. auto.
    + exact Hl.
  - intros n sub l Hl. destruct (in_listed refs n sub l ND Hl) as (r & Hr & En & Es & El). exists r. repeat split; auto.
    destruct Hl as (c & Hin & _). destruct (On n c Hin) as (r0 & Hr0 & <-). apply CI; auto.
  - exact On.
  - intros n c n' c' Hin Hin' E. destruct (On n c Hin) as (r0 & Hr0 & <-). destruct (On n' c' Hin') as (r1 & Hr1 & <-).
    apply CI in E; auto. eapply (nodup_same (fun e : name * impl_code => nk (fst e))); [apply out_nodup|eauto|eauto|exact E].
Qed.

(** The next and the previous reference to the same thing. *)
Lemma next_same (y : list src_ref) r b z : rkey b = rkey r -> exists u v w, y ++ b :: z = u ++ v :: w /\ rkey v = rkey r /\ forall x, In x u -> rkey x <> rkey r.
Proof.
  intros E. induction y as [|a y IH].
  - exists [], b, z. repeat split; auto; try (intros x []). 
  - destruct (rkey_dec a r) as [Ea|Ea].
    + exists [], a, (y ++ b :: z). repeat split; auto; try (intros x []). 
    + destruct IH as (u & v & w & Eq & Ev & Hu). exists (a :: u), v, w. cbn [app]. rewrite Eq. repeat split; auto. intros x [<-|Hx]; auto.
Qed.
Lemma prev_same (x : list src_ref) a y r : rkey a = rkey r -> exists u v w, x ++ a :: y = u ++ v :: w /\ rkey v = rkey r /\ forall z, In z w -> rkey z <> rkey r.
Proof.
  intros E. revert x. induction y as [|c y IH] using rev_ind; intros x.
  - exists x, a, []. repeat split; auto; try (intros z []).
  - destruct (rkey_dec c r) as [Ec|Ec].
    + exists (x ++ a :: y), c, []. rewrite <- app_assoc. repeat split; auto; try (intros z []).
    + destruct (IH x) as (u & v & w & Eq & Ev & Hw). exists u, v, (w ++ [c]).
      replace (x ++ a :: y ++ [c]) with ((x ++ a :: y) ++ [c]) by (now rewrite <- app_assoc).
      rewrite Eq, <- app_assoc. repeat split; auto. intros z Hz. apply in_app_or in Hz as [Hz|[<-|[]]]; auto.
Qed.

Lemma in_dups refs d : In d (fst (join_locations refs)) <->
    exists a r1 b r2 c, refs = a ++ r1 :: b ++ r2 :: c /\ rkey r1 = rkey r2 /\ (forall r, In r b -> rkey r <> rkey r1) /\
      d = (r_loc r1, r_loc r2, r_full r2).
Proof. destruct (join_shape refs) as (sec & -> & _). apply (ji_dups _ _ (join_inv_all refs)). Qed.

Theorem join_reports refs : Forall ref_wf refs -> forall path_str i j r,
  repeated refs i j -> nth_error refs i = Some r ->
  exists w r', In w (join_lints path_str refs) /\ points_to path_str w r /\ In r' refs /\ same_ref r r' /\
    li_msg w = s "duplicate detected: " ++ name_full (ref_name r') (ref_sub r').
Proof.
  intros W path_str i j r (r1 & r2 & Hi & Hj & N & E) Hr. rewrite Hr in Hi. injection Hi as <-. rewrite Forall_forall in W.
  pose proof (nth_error_In _ _ Hr) as I1. pose proof (nth_error_In _ _ Hj) as I2.
  apply same_ref_key in E; auto.
  assert (exists d, In d (fst (join_locations refs)) /\ exists r', In r' refs /\ rkey r' = rkey r /\ snd d = r_full r' /\ (fst (fst d) = r_loc r \/ snd (fst d) = r_loc r)) as (d & Hd & r' & Hr' & Er' & Ed & El).
  { destruct (Nat.lt_ge_cases i j) as [L|L].
    - destruct (nth_split_lt refs i j r r2 L Hr Hj) as (x & y & z & Eq & _).
      destruct (next_same y r r2 z (eq_sym E)) as (u & v & w & Eq' & Ev & Hu).
      exists (r_loc r, r_loc v, r_full v). split.
      + apply in_dups. exists x, r, u, v, w. rewrite Eq, Eq'. repeat split; auto.
      + exists v. cbn [fst snd]. repeat split; auto. rewrite Eq, Eq'. apply in_or_app. right. right. apply in_or_app. right. now left.
    - destruct (nth_split_lt refs j i r2 r ltac:(lia) Hj Hr) as (x & y & z & Eq & _).
      destruct (prev_same x r2 y r (eq_sym E)) as (u & v & w & Eq' & Ev & Hw).
      assert (Eq2 : refs = u ++ v :: w ++ r :: z).
      { rewrite Eq. replace (x ++ r2 :: y ++ r :: z) with ((x ++ r2 :: y) ++ r :: z) by (now rewrite <- app_assoc). rewrite Eq', <- app_assoc. reflexivity. }
      exists (r_loc v, r_loc r, r_full r). split.
      + apply in_dups. exists u, v, w, r, z. repeat split; auto. intros q Hq. rewrite Ev. auto.
      + exists r. cbn [fst snd]. repeat split; auto. }
  destruct d as [[l1 l2] msg]. cbn [fst snd] in *. subst msg.
  assert (F : forall l, In l [l1; l2] -> In (mkLint LError (Some (path_str (loc_file l))) (Some (loc_line l)) CParseCodeImplementations (s "duplicate detected: " ++ r_full r')) (join_lints path_str refs)).
  { intros l Hl. unfold join_lints. apply in_flat_map. exists (l1, l2, r_full r'). split; auto. unfold dup_lints.
    apply (in_map (fun l : code_loc => mkLint LError (Some (path_str (loc_file l))) (Some (loc_line l)) CParseCodeImplementations (s "duplicate detected: " ++ r_full r')) [l1; l2] l Hl). }
  exists (mkLint LError (Some (path_str (loc_file (r_loc r)))) (Some (loc_line (r_loc r))) CParseCodeImplementations (s "duplicate detected: " ++ r_full r')), r'.
  split; [apply F; destruct El as [<-|<-]; cbn [In]; auto|]. split; [repeat split|]. split; auto. split; [|reflexivity].
  apply same_ref_key; auto.
Qed.

Theorem join_only refs : Forall ref_wf refs -> forall path_str w, In w (join_lints path_str refs) ->
  exists i j r, repeated refs i j /\ nth_error refs i = Some r /\ points_to path_str w r.
Proof.
  intros W path_str w Hw. rewrite Forall_forall in W. unfold join_lints in Hw. apply in_flat_map in Hw as (d & Hd & Hw).
  apply in_dups in Hd as (a & r1 & b & r2 & c & Eq & E & _ & ->). unfold dup_lints in Hw.
  assert (N1 : nth_error refs (length a) = Some r1) by (rewrite Eq, nth_error_app2, Nat.sub_diag; auto).
  assert (N2 : nth_error refs (length a + S (length b)) = Some r2).
  { rewrite Eq, nth_error_app2 by lia. replace (length a + S (length b) - length a) with (S (length b)) by lia. cbn [nth_error]. rewrite nth_error_app2, Nat.sub_diag; auto. }
  assert (S1 : same_ref r1 r2) by (apply same_ref_key; auto; apply W; eapply nth_error_In; eauto).
  assert (S2 : same_ref r2 r1) by (apply same_ref_key; auto; apply W; eapply nth_error_In; eauto).
  cbn [map In] in Hw. destruct Hw as [<-|[<-|[]]].
  - exists (length a), (length a + S (length b)), r1. split; [exists r1, r2; repeat split; auto; try lia; apply S1|]. split; auto. repeat split.
  - exists (length a + S (length b)), (length a), r2. split; [exists r2, r1; repeat split; auto; try lia; apply S2|]. split; auto. repeat split.
Qed.

(** Arrival orders. *)
Lemma perm_no_error refs refs' : Permutation refs refs' -> fst (join_locations refs) = [] <-> fst (join_locations refs') = [].
Proof.
  intros P. rewrite !dups_nil_iff. split; intros; (eapply Permutation_NoDup; [apply Permutation_map|eassumption]); auto using Permutation_sym.
Qed.

Theorem join_orders refs refs' : Permutation refs refs' -> forall path_str,
  (join_lints path_str refs = [] <-> join_lints path_str refs' = []) /\
  (join_lints path_str refs = [] ->
   forall n c, In (n, c) (snd (join_locations refs)) -> exists n' c', In (n', c') (snd (join_locations refs')) /\
     name_eqb n n' = true /\ ic_primary c' = ic_primary c /\ Permutation (ic_secondary c) (ic_secondary c') /\
     (ic_primary c <> None -> n' = n)).
Proof.
  intros P path_str.
  assert (Z : forall r, join_lints path_str r = [] <-> fst (join_locations r) = []).
  { intros r. unfold join_lints. destruct (fst (join_locations r)) as [|[[? ?] ?] l]; [tauto|]. cbn [flat_map dup_lints map app]. split; discriminate. }
  rewrite !Z. split; [apply perm_no_error, P|]. intros D n c Hin. apply dups_nil_iff in D.
  destruct (join_perm refs refs' P D n c Hin) as (n' & c' & H1 & H2 & H3 & H4 & H5). exists n', c'. repeat split; auto.
  apply name_eqb_iff. auto.
Qed.
