(** C55: routing of the web client. *)
From Coq Require Import Lia ZifyBool.
From Verif Require Import Base BaseFacts Regex RegexFacts Name SpecName NameFacts LineFacts GreedyFacts SpecSource SourceFacts Artifact Web SpecWeb WebRoute PropApi.

Lemma is_nil_iff {A} (l : list A) : is_nil l = true <-> l = [].
Proof. destruct l; split; auto; discriminate. Qed.
Lemma first_edit_unique (digit : char -> Prop) h x y : first_edit digit h x -> first_edit digit h y -> x = y.
Proof.
  intros (p & q & E & He & F) (p' & q' & E' & He' & F').
  assert (L : length p = length p') by (pose proof (F p' q' y E' He'); pose proof (F' p q x E He); lia).
  rewrite E in E'. assert (q = q') as <-.
  { clear -E' L. revert p' E' L. induction p as [|c p IH]; intros [|d p'] E L; try discriminate; auto. injection E as _ E. apply (IH p' E). now injection L. }
  destruct He as (e & v & -> & Ce & Nx & Fx & Hv), He' as (e' & v' & Eq & Ce' & Ny & Fy & Hv').
  assert (Le : length e = length e') by (apply Forall2_length in Ce, Ce'; congruence).
  assert (Eq' : x ++ v = y ++ v').
  { clear -Eq Le. revert e' Eq Le. induction e as [|c e IH]; intros [|d e'] E L; try discriminate; auto. injection E as _ E. apply (IH e' E). now injection L. }
  clear -Eq' Fx Fy Hv Hv'. revert y Eq' Fy. induction Fx as [|c x Hc Fx IH]; intros y E Fy.
  - destruct y as [|d y]; auto. cbn [app] in E. subst v. inversion Fy. contradiction.
  - destruct y as [|d y]; [cbn [app] in E; subst v'; contradiction|]. injection E as <- E. f_equal. inversion Fy. now apply IH.
Qed.

Lemma in_forall2_r {A B} (R : A -> B -> Prop) l k : Forall2 R l k -> forall y, In y k -> exists x, In x l /\ R x y.
Proof. induction 1 as [|a b l k Hab F IH]; intros y []; [subst; exists a; split; [now left|auto]|]. destruct (IH y H) as (x & Hx & Rx). exists x. split; [now right|auto]. Qed.

Definition is_graph (h : str) : Prop := h = [] \/ str_ci (s "graph") h.

(** Every fragment: which page it leads to.  [lim] is the number of values of [usize]. *)
Theorem C55_exact : forall dig lim h,
  let digit := fun c => dig c = true in
  match from_hash dig lim h with
  | Ok VGraph => is_graph h
  | Ok (VArtifact n) => ~ is_graph h /\ exists x, first_name h x /\ name_from_str x = Ok n
  | Ok (VEdit id) => ~ is_graph h /\ without_name h /\ exists ds, first_edit digit h ds /\ numeral ds id /\ (id < lim)%N
  | Ok VNotFound => ~ is_graph h /\ without_name h /\ forall ds, first_edit digit h ds -> ~ exists id, numeral ds id /\ (id < lim)%N
  | Panic => ~ is_graph h /\ exists x, first_name h x /\ longs_name x
  | Err => False
  end.
Proof.
  intros dig lim h digit. unfold from_hash.
  assert (G : str_eqb (lower h) (s "graph") || is_nil h = true <-> is_graph h).
  { rewrite orb_true_iff, str_eqb_eq, lower_graph, is_nil_iff. unfold is_graph. tauto. }
  destruct (str_eqb (lower h) (s "graph") || is_nil h); [now apply G|].
  assert (NG : ~ is_graph h) by (intros X; apply G in X; discriminate). clear G.
  destruct (url_exact h) as [(x & -> & F)|[-> N]].
  - change (group [(0, x)]) with x. unfold expect_name. destruct (name_from_str x) as [n| |] eqn:E; cbn [res_bind]; eauto.
    + exfalso. apply name_err in E as [E1 E2]. destruct F as (_ & _ & _ & [L|L] & _); contradiction.
    + split; auto. exists x. split; auto. now apply name_panic.
  - destruct (edit_exact dig h) as [(x & -> & F)|[-> N']].
    + change (group [(0, x)]) with x. destruct (parse_usize lim x) as [id|] eqn:E.
      * apply parse_usize_iff in E as [E1 E2]. eauto 6.
      * split; auto. split; auto. intros ds F' (id & Hid). assert (ds = x) as -> by (eapply first_edit_unique; eauto). apply parse_usize_iff in Hid. congruence.
    + split; auto. split; auto. intros ds F. now apply N' in F.
Qed.
Print Assumptions C55_exact.

(** What the cases speak of is unique. *)
Theorem C55_unique : forall (digit : char -> Prop) h x y,
  (first_name h x -> first_name h y -> x = y) /\ (first_edit digit h x -> first_edit digit h y -> x = y) /\
  (forall m n, numeral x m -> numeral x n -> m = n).
Proof.
  intros digit h x y. split; [apply first_name_unique|]. split; [apply first_edit_unique|].
  intros m n Hm Hn. apply numeral_iff in Hm, Hn. intuition congruence.
Qed.
Print Assumptions C55_unique.

Lemma first_whole x : name_like x -> first_name x x.
Proof.
  intros L. exists [], []. rewrite app_nil_r. repeat split; auto; intros; cbn [length app] in *; try lia.
  subst x. rewrite app_length. lia.
Qed.
Lemma first_after x : name_like x -> first_name (s "artifacts/" ++ x) x.
Proof.
  intros L. exists (s "artifacts/"), []. rewrite app_nil_r. repeat split; auto.
  - intros p x' q E L'. apply (no_name_inside (s "artifacts/") x p x' q); auto.
    apply lang_cis. apply is_match_full_iff. reflexivity.
  - intros x' q E L'. apply app_inv_head in E. subst x. rewrite app_length. lia.
Qed.
Lemma name_not_graph p x : name_like x -> ~ is_graph (p ++ x).
Proof.
  intros L [E|C].
  - apply app_eq_nil in E as [_ ->]. apply name_four in L as (a & b & c & t & E & _). discriminate.
  - apply name_four in L as (a & b & c & t & -> & _). assert (I : In 45%N (p ++ a :: b :: c :: 45%N :: t)) by (apply in_or_app; right; do 3 right; now left).
    apply (in_forall2_r _ _ _ C) in I as (d & Hd & Cd). vm_compute in Hd. unfold char_ci in Cd. lia.
Qed.

(** The addresses the program makes: of a name, of its upper-case form, with "artifacts/" before
    it, and of an edit. *)
Theorem C55_names : forall dig lim n, name_from_str (n_raw n) = Ok n ->
  from_hash dig lim (n_raw n) = Ok (VArtifact n) /\
  from_hash dig lim (s "artifacts/" ++ n_raw n) = Ok (VArtifact n) /\
  exists m, from_hash dig lim (n_key n) = Ok (VArtifact m) /\ name_eqb m n = true.
Proof.
  intros dig lim n W.
  assert (X : forall p m, name_from_str (n_raw m) = Ok m -> first_name (p ++ n_raw m) (n_raw m) -> from_hash dig lim (p ++ n_raw m) = Ok (VArtifact m)).
  { intros p m Wm F. assert (L : name_like (n_raw m)) by (left; apply name_accept; eauto). pose proof (name_not_graph p _ L) as NG.
    pose proof (C55_exact dig lim (p ++ n_raw m)) as E. cbv zeta in E.
    assert (NW : ~ without_name (p ++ n_raw m)). { destruct F as (p' & q' & E' & L' & _). intros N. now apply (N p' (n_raw m) q'). }
    destruct (from_hash dig lim (p ++ n_raw m)) as [[| n'| id|]| |]; try tauto.
    - destruct E as (_ & x & F' & E). rewrite (first_name_unique _ _ _ F' F) in E. congruence.
    - destruct E as (_ & x & F' & E). rewrite (first_name_unique _ _ _ F' F) in E. apply name_panic in E. congruence. }
  assert (L : name_like (n_raw n)) by (left; apply name_accept; eauto).
  split; [apply (X [] n W), first_whole, L|]. split; [apply (X _ n W), first_after, L|].
  pose proof (wf_key n W) as K.
  assert (C : str_ci (n_raw n) (n_key n)) by (apply str_ci_upper; rewrite K, upper_idem; reflexivity).
  assert (exists m, name_from_str (n_key n) = Ok m) as [m Em].
  { apply name_accept. apply (valid_name_ci (n_raw n)); auto. apply name_accept. eauto. }
  apply from_str_wf in Em as [Wm Rm]. rewrite <- Rm in C |- *. exists m. split; [apply (X [] m Wm), first_whole; left; apply name_accept; eauto|].
  apply name_eqb_ci; auto. now apply str_ci_sym.
Qed.
Print Assumptions C55_names.

Theorem C55_edits : forall dig lim id, (forall c, (48 <= c <= 57)%N -> dig c = true) -> (id < lim)%N -> from_hash dig lim (hash_edit id) = Ok (VEdit id).
Proof.
  intros dig lim id Dg L. pose proof (C55_exact dig lim (hash_edit id)) as E. cbv zeta in E.
  unfold hash_edit in *. set (ds := decimal _ id) in *.
  assert (Nd : numeral ds id) by (apply decimal_numeral; lia). clearbody ds. pose proof (numeral_chars _ _ Nd) as Fd. pose proof (numeral_ne _ _ Nd) as Ne.
  assert (NoDash : ~ In 45%N (s "edit/" ++ ds)).
  { intros I. apply in_app_iff in I as [I|I]; [vm_compute in I; lia|]. rewrite Forall_forall in Fd. apply Fd in I. lia. }
  assert (NG : ~ is_graph (s "edit/" ++ ds)).
  { intros [X|C]; [discriminate|]. inversion C as [|? ? ? ? Hc _]; subst. unfold char_ci in Hc. lia. }
  assert (WN : without_name (s "edit/" ++ ds)).
  { intros p x q Eq Lx. apply name_four in Lx as (a & b & c & t & -> & _). apply NoDash. rewrite Eq. apply in_or_app. right. do 3 right. now left. }
  assert (FE : first_edit (fun c => dig c = true) (s "edit/" ++ ds) ds).
  { exists [], (s "edit/" ++ ds). split; [reflexivity|]. split; [|intros; cbn; lia]. exists (s "edit/"), []. rewrite app_nil_r. repeat split; auto.
    - apply str_ci_upper. reflexivity.
    - eapply Forall_impl; [|exact Fd]. intros c Hc. now apply Dg. }
  destruct (from_hash dig lim (s "edit/" ++ ds)) as [[|n|i|]| |]; try tauto.
  - destruct E as (_ & x & (p & q & E & Lx & _) & _). exfalso. now apply (WN p x q).
  - destruct E as (_ & _ & ds' & F' & N' & _). assert (ds' = ds) as -> by (eapply first_edit_unique; eauto). do 2 f_equal. apply numeral_iff in Nd, N'. intuition congruence.
  - destruct E as (_ & _ & X). exfalso. apply (X ds FE). eauto.
  - destruct E as (_ & x & (p & q & E & Lx & _) & _). exfalso. now apply (WN p x q).
Qed.
Print Assumptions C55_edits.

(** A fragment that merely contains a name is routed to that name. *)
Example C55_example :
  from_hash is_digit 4294967296 (s "edit/12") = Ok (VEdit 12) /\
  from_hash is_digit 4294967296 (s "edit/4294967296") = Ok VNotFound /\
  from_hash is_digit 4294967296 (s "GRAPH") = Ok VGraph /\
  from_hash is_digit 4294967296 (s "Artifacts/spc-a.tst-b") = Ok (VArtifact (mkName SPC (s "SPC-A") (s "spc-a"))) /\
  from_hash is_digit 4294967296 (s "edit/req-a/7") = Ok (VArtifact (mkName REQ (s "REQ-A") (s "req-a"))) /\
  from_hash is_digit 4294967296 (s "settings") = Ok VNotFound /\
  from_hash is_digit 4294967296 (383%N :: s "pc-a") = Panic.
Proof. vm_compute. auto 8. Qed.
