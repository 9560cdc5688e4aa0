(** Facts about Render.v: what is replaced. *)
From Coq Require Import ZArith Lia.
From Verif Require Import Base BaseFacts Regex RegexFacts GreedyFacts Name SpecName NameFacts ScanFacts SubFacts RefFacts Artifact Lint Ls Api Render SpecRender.
Open Scope nat_scope.

(** ** Searching *)
Section Search.
  Context {A R : Type}.
  Fixpoint first_some (h : A -> option R) (l : list A) : option R :=
    match l with [] => None | a :: l' => match h a with Some r => Some r | None => first_some h l' end end.
  Lemma first_app h l m : first_some h (l ++ m) = match first_some h l with Some r => Some r | None => first_some h m end.
  Proof. induction l as [|a l IH]; cbn [app first_some]; auto. destruct (h a); auto. Qed.
  Lemma first_ext h h' l : (forall a, In a l -> h a = h' a) -> first_some h l = first_some h' l.
  Proof. induction l as [|a l IH]; intros E; cbn [first_some]; auto. rewrite (E a (or_introl eq_refl)). destruct (h' a); auto. apply IH. intros b Hb. apply E. now right. Qed.
End Search.
Lemma first_map {A B R} (g : A -> B) (h : B -> option R) l : first_some h (map g l) = first_some (fun a => h (g a)) l.
Proof. induction l as [|a l IH]; cbn [map first_some]; auto. now rewrite IH. Qed.
Lemma first_flat {A B R} (g : A -> list B) (h : B -> option R) l : first_some h (flat_map g l) = first_some (fun a => first_some h (g a)) l.
Proof. induction l as [|a l IH]; cbn [flat_map first_some]; auto. rewrite first_app, IH. reflexivity. Qed.
Lemma first_filter {A} (P : A -> bool) l : hd_error (filter P l) = first_some (fun a => if P a then Some a else None) l.
Proof. induction l as [|a l IH]; cbn [filter first_some]; auto. destruct (P a); auto. Qed.

(** Greedy and lazy repetition of a class. *)
Fixpoint gsearch {R} (f : char -> bool) (g : str -> option R) (t : str) : option R :=
  match t with
  | [] => g []
  | c :: t' => if f c then match gsearch f g t' with Some r => Some r | None => g t end else g t
  end.
Fixpoint lsearch {R} (g : str -> option R) (t : str) : option R :=
  match g t with
  | Some r => Some r
  | None => match t with [] => None | _ :: t' => lsearch g t' end
  end.
Lemma star_greedy {R} f (g : str -> option R) : forall n t cs, length t <= n ->
  first_some (fun st : mstate => g (fst st)) (iter (run (Cls f)) true n t cs) = gsearch f g t.
Proof.
  induction n as [|n IH]; intros t cs L.
  - destruct t; [|cbn in L; lia]. cbn. now destruct (g []).
  - destruct t as [|c t].
    + cbn. now destruct (g []).
    + cbn [iter gsearch]. rewrite run_cls_cons. destruct (f c); cbn [flat_map].
      * cbn [fst snd]. assert (E : Nat.ltb (length t) (length (c :: t)) = true) by (apply Nat.ltb_lt; cbn; lia). rewrite E, app_nil_r, first_app, IH by (cbn in L; lia).
        destruct (gsearch f g t); auto. cbn [first_some fst]. now destruct (g (c :: t)).
      * cbn [app first_some fst]. now destruct (g (c :: t)).
Qed.
Lemma star_lazy {R} (g : str -> option R) : forall n t cs, length t <= n ->
  first_some (fun st : mstate => g (fst st)) (iter (run any_char) false n t cs) = lsearch g t.
Proof.
  unfold any_char. induction n as [|n IH]; intros t cs L.
  - destruct t; [|cbn in L; lia]. cbn. now destruct (g []).
  - destruct t as [|c t].
    + cbn. now destruct (g []).
    + cbn [iter lsearch]. rewrite run_cls_cons. cbn [flat_map first_some fst snd]. assert (E : Nat.ltb (length t) (length (c :: t)) = true) by (apply Nat.ltb_lt; cbn; lia).
      rewrite E, app_nil_r, IH by (cbn in L; lia). reflexivity.
Qed.
Lemma gsearch_none {R} f (g : str -> option R) t : gsearch f g t = None -> forall w u, t = w ++ u -> Forall (fun c => f c = true) w -> g u = None.
Proof.
  induction t as [|c t IH]; cbn [gsearch]; intros N w u E Fw.
  - symmetry in E. apply app_eq_nil in E as [-> ->]. exact N.
  - destruct w as [|d w].
    + cbn [app] in E. subst u. destruct (f c); auto. destruct (gsearch f g t); [discriminate N|exact N].
    + cbn [app] in E. injection E as <- E. inversion Fw; subst. rewrite H1 in N. destruct (gsearch f g (w ++ u)) eqn:G; [discriminate N|]. eapply IH; eauto.
Qed.
Lemma gsearch_max {R} f (g : str -> option R) t : forall r, gsearch f g t = Some r ->
  exists w u, t = w ++ u /\ Forall (fun c => f c = true) w /\ g u = Some r /\
    forall w' u', t = w' ++ u' -> Forall (fun c => f c = true) w' -> g u' <> None -> length w' <= length w.
Proof.
  induction t as [|c t IH]; intros r; cbn [gsearch].
  - intros E. exists [], []. split; auto. split; auto. split; auto. intros w' u' E' _ _. symmetry in E'. apply app_eq_nil in E' as [-> ->]. auto.
  - destruct (f c) eqn:Fc.
    + destruct (gsearch f g t) as [r'|] eqn:E.
      * intros [= <-]. destruct (IH _ eq_refl) as (w & u & -> & Fw & G & Mx). exists (c :: w), u. split; auto. split; auto. split; auto.
        intros w' u' E' Fw' G'. destruct w' as [|d w']; [cbn; lia|]. cbn [app] in E'. injection E' as <- E'. inversion Fw'; subst. cbn [length]. apply le_n_S. eapply Mx; eauto.
      * intros G. exists [], (c :: t). split; auto. split; auto. split; auto. intros w' u' E' Fw' G'. destruct w' as [|d w']; [auto|]. cbn [app] in E'. injection E' as <- E'. exfalso.
        apply G'. eapply gsearch_none; eauto. now inversion Fw'.
    + intros G. exists [], (c :: t). split; auto. split; auto. split; auto. intros w' u' E' Fw' _. destruct w' as [|d w']; auto. cbn [app] in E'. injection E' as <- E'. inversion Fw'; subst. congruence.
Qed.
Lemma app_len_eq {A} (a b c d : list A) : a ++ b = c ++ d -> length a = length c -> a = c /\ b = d.
Proof.
  revert c. induction a as [|x a IH]; intros [|y c] E L; try discriminate L; [auto|]. cbn [app] in E. injection E as <- E. cbn in L. destruct (IH c E) as [-> ->]; auto.
Qed.
Lemma gsearch_some {R} f (g : str -> option R) t r : gsearch f g t = Some r <->
  exists w u, t = w ++ u /\ Forall (fun c => f c = true) w /\ g u = Some r /\
    forall w' u', t = w' ++ u' -> Forall (fun c => f c = true) w' -> g u' <> None -> length w' <= length w.
Proof.
  split; [apply gsearch_max|]. intros (w & u & E & Fw & G & Mx). destruct (gsearch f g t) as [r'|] eqn:Gs.
  - destruct (gsearch_max f g t r' Gs) as (w' & u' & E' & Fw' & G' & Mx').
    assert (L : length w = length w') by (apply Nat.le_antisymm; [eapply Mx'|eapply Mx]; eauto; congruence).
    rewrite E in E'. destruct (app_len_eq _ _ _ _ E' L) as [-> ->]. congruence.
  - rewrite (gsearch_none f g t Gs w u E Fw) in G. discriminate G.
Qed.
Lemma lsearch_none {R} (g : str -> option R) t : lsearch g t = None -> forall w u, t = w ++ u -> g u = None.
Proof.
  induction t as [|c t IH]; cbn [lsearch]; intros N w u E.
  - symmetry in E. apply app_eq_nil in E as [-> ->]. now destruct (g []).
  - destruct (g (c :: t)) eqn:G; [discriminate N|]. destruct w as [|d w]; [cbn [app] in E; now subst u|]. cbn [app] in E. injection E as <- E. eapply IH; eauto.
Qed.
Lemma lsearch_min {R} (g : str -> option R) t : forall r, lsearch g t = Some r ->
  exists w u, t = w ++ u /\ g u = Some r /\ forall w' u', t = w' ++ u' -> g u' <> None -> length w <= length w'.
Proof.
  induction t as [|c t IH]; intros r; cbn [lsearch].
  - intros E. destruct (g []) as [r'|] eqn:G; [|discriminate E]. injection E as <-. exists [], []. split; auto. split; auto. intros; cbn; lia.
  - destruct (g (c :: t)) as [r'|] eqn:G.
    + intros [= <-]. exists [], (c :: t). split; auto. split; auto. intros; cbn; lia.
    + intros L. destruct (IH _ L) as (w & u & -> & G' & Mx). exists (c :: w), u. split; auto. split; auto. intros w' u' E' G2. destruct w' as [|d w']; [cbn [app] in E'; subst u'; congruence|].
      cbn [app] in E'. injection E' as <- E'. cbn. apply le_n_S. eapply Mx; eauto.
Qed.
Lemma lsearch_some {R} (g : str -> option R) t r : lsearch g t = Some r <->
  exists w u, t = w ++ u /\ g u = Some r /\ forall w' u', t = w' ++ u' -> g u' <> None -> length w <= length w'.
Proof.
  split; [apply lsearch_min|]. intros (w & u & E & G & Mx). destruct (lsearch g t) as [r'|] eqn:Gs.
  - destruct (lsearch_min g t r' Gs) as (w' & u' & E' & G' & Mx').
    assert (L : length w = length w') by (apply Nat.le_antisymm; [eapply Mx|eapply Mx']; eauto; congruence).
    rewrite E in E'. destruct (app_len_eq _ _ _ _ E' L) as [-> ->]. congruence.
  - rewrite (lsearch_none g t Gs w u E) in G. discriminate G.
Qed.

(** ** Dot blocks *)
Lemma iter_cls_caps f g : forall n t cs st, In st (iter (run (Cls f)) g n t cs) -> snd st = cs.
Proof.
  induction n as [|n IH]; intros t cs st Hin.
  - destruct Hin as [<-|[]]. reflexivity.
  - assert (X : In st (flat_map (fun st0 => if Nat.ltb (length (fst st0)) (length t) then iter (run (Cls f)) g n (fst st0) (snd st0) else []) (run (Cls f) t cs)) -> snd st = cs).
    { intros H. apply in_flat_map in H as ([r1 cs1] & H1 & H2). cbn [fst snd] in H2. destruct (Nat.ltb _ _); [|destruct H2]. apply IH in H2. subst.
      cbn [run] in H1. destruct t as [|c t]; [destruct H1|]. destruct (f c); [|destruct H1]. destruct H1 as [H1|[]]. now injection H1 as <- <-. }
    cbn [iter] in Hin. destruct g.
    + apply in_app_iff in Hin as [Hin|[<-|[]]]; auto.
    + destruct Hin as [<-|Hin]; auto.
Qed.
Definition pick (st : mstate) : option mstate := if at_eol (fst st) then Some st else None.
Lemma run_seq a b t cs : run (Seq a b) t cs = flat_map (fun st => run b (fst st) (snd st)) (run a t cs). Proof. reflexivity. Qed.
Lemma run_cap i a t cs : run (Cap i a) t cs = map (fun st => (fst st, (i, firstn (length t - length (fst st)) t) :: snd st)) (run a t cs). Proof. reflexivity. Qed.
Lemma run_lit c t cs : run (lit c) t cs = match t with d :: t' => if N.eqb c d then [(t', cs)] else [] | [] => [] end. Proof. reflexivity. Qed.
Lemma run_lits x : x <> [] -> forall t cs, run (lits x) t cs = if starts_with t x then [(skipn (length x) t, cs)] else [].
Proof.
  induction x as [|c x IH]; intros Nx t cs; [congruence|]. destruct x as [|c2 x].
  - change (lits [c]) with (lit c). rewrite run_lit. destruct t as [|d t]; [reflexivity|]. cbn [starts_with length skipn]. destruct (N.eqb c d), t; reflexivity.
  - change (lits (c :: c2 :: x)) with (Seq (lit c) (lits (c2 :: x))). rewrite run_seq, run_lit. destruct t as [|d t]; [reflexivity|].
    change (starts_with (d :: t) (c :: c2 :: x)) with (N.eqb c d && starts_with t (c2 :: x)). change (skipn (length (c :: c2 :: x)) (d :: t)) with (skipn (length (c2 :: x)) t).
    destruct (N.eqb c d); [|reflexivity]. cbn [flat_map fst snd andb]. rewrite app_nil_r. apply IH. discriminate.
Qed.
(** The end of a block: a line break, the fence and the end of the line. *)
Definition close (v : str) : option str :=
  match v with
  | c :: v' => if N.eqb c_nl c && starts_with v' (s "```") && at_eol (skipn 3 v') then Some (skipn 3 v') else None
  | [] => None
  end.
Definition dot_end (cs : caps) (u v : str) : option mstate :=
  match close v with Some r => Some (r, (4, s "```") :: (3, firstn (length u - S (length (s "```" ++ r))) u ++ [c_nl]) :: cs) | None => None end.
Lemma starts_skip x t : starts_with t x = true -> t = x ++ skipn (length x) t.
Proof.
  revert t. induction x as [|c x IH]; intros t E; [reflexivity|]. destruct t as [|d t]; [discriminate E|]. cbn [starts_with] in E. apply andb_true_iff in E as [E1 E2].
  apply N.eqb_eq in E1. subst d. cbn [app length skipn]. f_equal. auto.
Qed.
Lemma starts_app x t : starts_with (x ++ t) x = true.
Proof. induction x as [|c x IH]; [now destruct t|]. cbn [app starts_with]. now rewrite N.eqb_refl. Qed.
Lemma close_some v r : close v = Some r <-> v = c_nl :: s "```" ++ r /\ ends_line r.
Proof.
  assert (El : forall q, at_eol q = true <-> ends_line q).
  { intros [|c q]; cbn [at_eol]; split; intros E; auto; [now left|right|].
    - apply N.eqb_eq in E. subst. now exists q.
    - destruct E as [E|[q' E]]; [discriminate E|]. injection E as -> ->. reflexivity. }
  unfold close. destruct v as [|c v].
  - split; [discriminate|]. intros [E _]. discriminate E.
  - destruct (N.eqb c_nl c) eqn:E1; [|split; [discriminate|]; intros [E _]; injection E as -> _; discriminate E1]. apply N.eqb_eq in E1. subst c.
    destruct (starts_with v (s "```")) eqn:E2; cbn [andb].
    + apply starts_skip in E2. change (length (s "```")) with 3 in E2. destruct (at_eol (skipn 3 v)) eqn:E3.
      * split; [intros E; apply some_inj in E; subst r; split; [rewrite <- E2; reflexivity|now apply El]|]. intros [E _]. injection E as ->. reflexivity.
      * split; [discriminate|]. intros [E L]. injection E as ->. apply El in L. cbn in E3. congruence.
    + split; [discriminate|]. intros [E _]. assert (v = s "```" ++ r) by congruence. subst v. rewrite starts_app in E2. discriminate E2.
Qed.
Lemma firstn_plus {A} (u : list A) n v x : u = v ++ x :: n -> firstn (length u - length n) u = v ++ [x].
Proof.
  intros ->. rewrite app_length. cbn [length]. replace (length v + S (length n) - length n) with (length (v ++ [x])) by (rewrite app_length; cbn; lia).
  replace (v ++ x :: n) with ((v ++ [x]) ++ n) by (rewrite <- app_assoc; reflexivity). now rewrite firstn_app, firstn_all, Nat.sub_diag, app_nil_r.
Qed.
Lemma firstn_front {A} (u : list A) n v : u = v ++ n -> firstn (length u - length n) u = v.
Proof. intros ->. rewrite app_length. replace (length v + length n - length n) with (length v) by lia. now rewrite firstn_app, firstn_all, Nat.sub_diag, app_nil_r. Qed.
(** From the white space on. *)
Lemma run_body u cs : first_some pick (run (seqs [lit c_nl; Cap 3 (Seq (Seq any_char (Star false any_char)) (lit c_nl)); Cap 4 (lits (s "```"))]) u cs) =
  match u with
  | c :: d :: v => if N.eqb c_nl c then lsearch (dot_end cs (d :: v)) v else None
  | _ => None
  end.
Proof.
  change (seqs [lit c_nl; Cap 3 (Seq (Seq any_char (Star false any_char)) (lit c_nl)); Cap 4 (lits (s "```"))])
    with (Seq (lit c_nl) (Seq (Cap 3 (Seq (Seq any_char (Star false any_char)) (lit c_nl))) (Cap 4 (lits (s "```"))))).
  rewrite run_seq, run_lit. destruct u as [|c u]; [reflexivity|]. destruct (N.eqb c_nl c); [|now destruct u].
  cbn [flat_map fst snd]. rewrite app_nil_r, run_seq, run_cap, first_flat, first_map. cbn [fst snd].
  rewrite run_seq, first_flat, run_seq. destruct u as [|d v]; [reflexivity|].
  change (run any_char (d :: v) cs) with [(v, cs)]. cbn [flat_map fst snd]. rewrite app_nil_r.
  change (run (Star false any_char) v cs) with (iter (run any_char) false (length v) v cs).
  rewrite <- (star_lazy (dot_end cs (d :: v)) (length v) v cs (le_n _)). apply first_ext. intros [w cs'] Hin.
  pose proof (iter_cls_caps _ _ _ _ _ _ Hin) as Ec. cbn [snd] in Ec. subst cs'.
  assert (Sf : exists y, v = y ++ w).
  { destruct (iter_sound any_char false (run_sound any_char) (length v) v cs w cs Hin) as (m & Em & _). eauto. }
  destruct Sf as [y ->]. cbn [fst snd]. rewrite run_lit. unfold dot_end. destruct w as [|e w]; [reflexivity|]. cbn [close].
  destruct (N.eqb c_nl e) eqn:Ee; [|reflexivity]. cbn [first_some fst snd andb]. rewrite run_cap, first_map, run_lits by discriminate. cbn [fst snd].
  destruct (starts_with w (s "```")) eqn:Ew; [|reflexivity]. cbn [first_some fst snd andb]. change (length (s "```")) with 3. unfold pick. cbn [fst].
  apply starts_skip in Ew. change (length (s "```")) with 3 in Ew. destruct (at_eol (skipn 3 w)); [|reflexivity]. apply N.eqb_eq in Ee. subst e.
  remember (skipn 3 w) as r eqn:Er. clear Er. subst w. do 3 f_equal.
  - f_equal. now apply (firstn_front (s "```" ++ r) r (s "```")).
  - f_equal. f_equal. rewrite (firstn_plus (d :: y ++ c_nl :: s "```" ++ r) (s "```" ++ r) (d :: y) c_nl) by reflexivity.
    change (S (length (s "```" ++ r))) with (length (c_nl :: s "```" ++ r)). now rewrite (firstn_front (d :: y ++ c_nl :: s "```" ++ r) (c_nl :: s "```" ++ r) (d :: y)).
Qed.

Definition dot_rest (cs : caps) (u : str) : option mstate :=
  match u with
  | c :: d :: v => if N.eqb c_nl c then lsearch (dot_end cs (d :: v)) v else None
  | _ => None
  end.
Definition block (u b r : str) : Prop := b <> [] /\ u = c_nl :: b ++ c_nl :: s "```" ++ r /\ ends_line r.
Lemma block_close u b r : block u b r <-> exists d y v, u = c_nl :: d :: y ++ v /\ b = d :: y /\ close v = Some r.
Proof.
  split.
  - intros (Nb & -> & El). destruct b as [|d y]; [congruence|]. exists d, y, (c_nl :: s "```" ++ r). split; [reflexivity|]. split; auto. now apply close_some.
  - intros (d & y & v & -> & -> & C). apply close_some in C as [-> El]. split; [discriminate|]. split; auto.
Qed.
Lemma dot_end_none cs u v : dot_end cs u v = None <-> close v = None.
Proof. unfold dot_end. destruct (close v); split; congruence. Qed.
Lemma dot_end_eq cs d y v r : close v = Some r -> dot_end cs (d :: y ++ v) v = Some (r, (4, s "```") :: (3, (d :: y) ++ [c_nl]) :: cs).
Proof.
  intros C. unfold dot_end. rewrite C. apply close_some in C as [-> _]. change (S (length (s "```" ++ r))) with (length (c_nl :: s "```" ++ r)).
  now rewrite (firstn_front (d :: y ++ c_nl :: s "```" ++ r) (c_nl :: s "```" ++ r) (d :: y)).
Qed.
Lemma dot_rest_some cs u r cs' : dot_rest cs u = Some (r, cs') <->
  exists b, block u b r /\ cs' = (4, s "```") :: (3, b ++ [c_nl]) :: cs /\ forall b' r', block u b' r' -> length b <= length b'.
Proof.
  unfold dot_rest. split.
  - destruct u as [|c [|d v]]; try discriminate. destruct (N.eqb c_nl c) eqn:Ec; [|discriminate]. apply N.eqb_eq in Ec. subst c. intros L.
    apply lsearch_some in L as (y & w & -> & E & Mx). destruct (close w) as [r0|] eqn:C; [|apply (dot_end_none cs (d :: y ++ w)) in C; congruence].
    rewrite (dot_end_eq cs d y w r0 C) in E. apply some_inj in E. apply pair_equal_spec in E as [<- <-]. exists (d :: y). pose proof (proj1 (close_some _ _) C) as [Ew El].
    split; [apply block_close; eauto 6|]. split.
    + reflexivity.
    + intros b' r' B. apply block_close in B as (d' & y' & v' & E' & -> & C'). injection E' as <- E'. cbn [length]. apply le_n_S. apply (Mx y' v'); auto. rewrite dot_end_none. congruence.
  - intros (b & B & -> & Mn). pose proof B as B0. apply block_close in B0 as (d & y & v & -> & -> & C). rewrite N.eqb_refl. apply lsearch_some. exists y, v. split; auto. split.
    + now apply dot_end_eq.
    + intros w' u' E' N. rewrite dot_end_none in N. destruct (close u') as [r'|] eqn:C'; [|congruence]. assert (X : length (d :: y) <= length (d :: w')); [|cbn in X; lia]. apply (Mn _ r'). apply block_close.
      exists d, w', u'. split; [now rewrite E'|]. split; auto.
Qed.
Lemma dot_rest_none cs u : dot_rest cs u = None <-> forall b r, ~ block u b r.
Proof.
  split.
  - intros N b r B. pose proof B as B0. apply block_close in B0 as (d & y & v & -> & -> & C). unfold dot_rest in N. rewrite N.eqb_refl in N.
    pose proof (lsearch_none _ _ N y v eq_refl) as X. rewrite dot_end_none in X. congruence.
  - intros N. destruct (dot_rest cs u) as [[r cs']|] eqn:E; auto. apply dot_rest_some in E as (b & B & _). exfalso. eapply N; eauto.
Qed.
Lemma lang_fence f : lang (cis (s "```dot")) f <-> str_ci (s "```dot") f.
Proof.
  rewrite lang_cis. unfold str_ci.
  assert (X : forall c d, In c (s "```dot") -> folds c d <-> char_ci c d).
  { intros c d Hc. rewrite char_ci_upc. unfold folds.
    cbn in Hc. decompose [or] Hc; subst; try contradiction; cbn; split; intros E; try lia; try tauto; auto; intuition (auto; discriminate || lia). }
  revert X. generalize (s "```dot"). intros x X. revert f. induction x as [|c x IH]; intros f; split; intros F; inversion F; subst; constructor; try (apply X; [now left|auto]; fail).
  - apply IH; auto. intros c0 d Hc. apply X. now right.
  - apply IH; auto. intros c0 d Hc. apply X. now right.
Qed.
Definition dot_tail := seqs [lit c_nl; Cap 3 (Seq (Seq any_char (Star false any_char)) (lit c_nl)); Cap 4 (lits (s "```"))].
Lemma run_dot f q : str_ci (s "```dot") f -> first_some pick (run re_dot (f ++ q) []) = gsearch is_ws (fun u => dot_rest [(2, firstn (length (f ++ q) - length u) (f ++ q))] u) q.
Proof.
  intros Cf. change re_dot with (Seq (Cap 2 (Seq (cis (s "```dot")) (Star true ws))) dot_tail).
  assert (Lf : length f = 6) by (symmetry; exact (str_ci_length _ _ Cf)).
  assert (Rf : run (cis (s "```dot")) (f ++ q) [] = [(q, [])]).
  { destruct (run_cis (s "```dot") ltac:(discriminate) (f ++ q) []) as [E|E].
    - apply lang_fence in Cf. destruct (run_complete_in _ f q [] Cf) as [cs' Hin]. rewrite E in Hin. destruct Hin.
    - rewrite E. change (length (s "```dot")) with 6. rewrite <- Lf, skipn_app, skipn_all, Nat.sub_diag. reflexivity. }
  rewrite run_seq, first_flat, run_cap, first_map, run_seq, Rf. cbn [flat_map fst snd]. rewrite app_nil_r.
  change (run (Star true ws) q []) with (iter (run (Cls is_ws)) true (length q) q []).
  rewrite <- (star_greedy is_ws _ (length q) q [] (le_n _)). apply first_ext. intros [u cs] Hin. pose proof (iter_cls_caps _ _ _ _ _ _ Hin) as Ec. cbn [snd] in Ec. subst cs.
  cbn [fst snd]. apply run_body.
Qed.
Lemma run_dot_no t : (forall f q, t = f ++ q -> ~ str_ci (s "```dot") f) -> run re_dot t [] = [].
Proof.
  intros N. change re_dot with (Seq (Cap 2 (Seq (cis (s "```dot")) (Star true ws))) dot_tail). rewrite run_seq, run_cap, run_seq.
  destruct (run_cis (s "```dot") ltac:(discriminate) t []) as [E|E]; rewrite E; [reflexivity|]. exfalso.
  assert (Hin : In (skipn (length (s "```dot")) t, []) (run (cis (s "```dot")) t [])) by (rewrite E; now left).
  apply run_sound in Hin as (m & Em & Mm). apply mat_lang, lang_fence in Mm. exact (N _ _ Em Mm).
Qed.
Definition dot_caps (f w b : str) : caps := [(4, s "```"); (3, b ++ [c_nl]); (2, f ++ w)].
Lemma mark_block b f w bd r : mark b (PDot f w bd) r <-> b = true /\ str_ci (s "```dot") f /\ Forall (fun c => is_ws c = true) w /\ bd <> [] /\ ends_line r.
Proof. split; [intros X; inversion X; subst; auto 6|intros (-> & ? & ? & ? & ?); now constructor]. Qed.
Lemma source_dot f w b r : source (PDot f w b) ++ r = f ++ w ++ c_nl :: b ++ c_nl :: s "```" ++ r.
Proof. cbn [source]. rewrite <- !app_assoc. cbn [app]. rewrite <- !app_assoc. reflexivity. Qed.
(** Fences have the same length. *)
Lemma fence_len f f' : str_ci (s "```dot") f -> str_ci (s "```dot") f' -> length f = length f'.
Proof. intros A B. apply str_ci_length in A, B. congruence. Qed.
Lemma dot_some t r cs : first_some pick (run re_dot t []) = Some (r, cs) <->
  exists f w b, mark true (PDot f w b) r /\ preferred true (PDot f w b) r /\ t = source (PDot f w b) ++ r /\ cs = dot_caps f w b.
Proof.
  split.
  - intros E. destruct (lang_fence (firstn 6 t)) as [LF FL].
    destruct (run_cis (s "```dot") ltac:(discriminate) t []) as [X|X].
    { exfalso. assert (Y : run re_dot t [] = []); [|rewrite Y in E; discriminate E].
      apply run_dot_no. intros f q -> Cf. apply lang_fence in Cf. destruct (run_complete_in _ f q [] Cf) as [cs' Hin]. rewrite X in Hin. destruct Hin. }
    assert (Hin : In (skipn (length (s "```dot")) t, []) (run (cis (s "```dot")) t [])) by (rewrite X; now left).
    apply run_sound in Hin as (f & Et & Mm). apply mat_lang, lang_fence in Mm. remember (skipn (length (s "```dot")) t) as q eqn:Eq. clear Eq X LF FL. subst t.
    rewrite (run_dot f q Mm) in E. apply gsearch_some in E as (w & u & -> & Fw & D & Mx). apply dot_rest_some in D as (b & (Nb & -> & El) & -> & Mn).
    exists f, w, b. split; [now apply mark_block|]. split; [|split].
    + intros f' w' b' r' Mk' Es. apply mark_block in Mk' as (_ & Cf' & Fw' & Nb' & El'). rewrite !source_dot in Es.
      destruct (app_len_eq _ _ _ _ Es (fence_len _ _ Cf' Mm)) as [-> Eq].
      assert (B' : block (c_nl :: b' ++ c_nl :: s "```" ++ r') b' r') by (split; auto).
      assert (Lw : length w' <= length w).
      { apply (Mx w' (c_nl :: b' ++ c_nl :: s "```" ++ r')); auto. intros X. eapply dot_rest_none in X; eauto. }
      destruct (Nat.eq_dec (length w') (length w)) as [Ew|Ew]; [right|left; lia]. split; auto.
      destruct (app_len_eq _ _ _ _ Eq Ew) as [-> Eb]. apply (Mn b' r'). rewrite <- Eb. exact B'.
    + now rewrite source_dot.
    + unfold dot_caps. rewrite (firstn_front _ (c_nl :: b ++ c_nl :: s "```" ++ r) (f ++ w)); auto. now rewrite <- app_assoc.
  - intros (f & w & b & Mk & Pf & -> & ->). pose proof Mk as Mk0. apply mark_block in Mk0 as (_ & Cf & Fw & Nb & El). rewrite source_dot, run_dot by auto.
    assert (B : block (c_nl :: b ++ c_nl :: s "```" ++ r) b r) by (split; auto).
    apply gsearch_some. exists w, (c_nl :: b ++ c_nl :: s "```" ++ r). split; auto. split; auto. split.
    + apply dot_rest_some. exists b. split; auto. split.
      * unfold dot_caps. rewrite (firstn_front _ (c_nl :: b ++ c_nl :: s "```" ++ r) (f ++ w)); auto. now rewrite <- app_assoc.
      * intros b' r' (Nb' & Eu & El'). destruct (Pf f w b' r') as [L|[_ L]]; auto; [now apply mark_block| |lia]. rewrite !source_dot. congruence.
    + intros w' u' Eq Fw' D'. destruct (dot_rest _ u') as [[r' cs']|] eqn:D; [|congruence]. apply dot_rest_some in D as (b' & (Nb' & -> & El') & _).
      destruct (Pf f w' b' r') as [L|[L _]]; [now apply mark_block| |lia|lia]. rewrite !source_dot. now rewrite Eq.
Qed.
Lemma dot_none t : first_some pick (run re_dot t []) = None <-> forall f w b r, mark true (PDot f w b) r -> source (PDot f w b) ++ r <> t.
Proof.
  split.
  - intros N f w b r Mk <-. apply mark_block in Mk as (_ & Cf & Fw & Nb & El). rewrite source_dot, run_dot in N by auto.
    pose proof (gsearch_none _ _ _ N w _ eq_refl Fw) as D. eapply dot_rest_none in D. apply D. split; eauto.
  - intros N. destruct (first_some pick (run re_dot t [])) as [[r cs]|] eqn:E; auto. apply dot_some in E as (f & w & b & Mk & _ & -> & _). exfalso. eapply N; eauto.
Qed.

(** ** One position *)
Definition ref_sub (y : str) : option str := match y with [] => None | _ => Some y end.
Definition token_of (k : piece) : token :=
  match k with
  | PChar _ => TOther
  | PSub x => TSub x
  | PRef x y => TRef x (ref_sub y)
  | PDot f w b => TDot (f ++ w) (b ++ [c_nl]) (s "```")
  end.
Lemma sub_ref_apart x r x' y' r' : valid_sub x -> valid_name x' \/ longs_name x' -> s "[[" ++ x ++ s "]]" ++ r <> s "[[" ++ x' ++ y' ++ s "]]" ++ r'.
Proof.
  intros Vx Vn E. apply app_inv_head in E. apply valid_sub_chars in Vx as (z & -> & _). pose proof (name_no_special x' Vn) as Ch. destruct x' as [|c x'].
  - destruct Vn as [(t & p & es & _ & _ & (Ne & _ & E0))|(t & p & es & _ & _ & (Ne & _ & E0))]; rewrite join_cons2 in E0 by auto; destruct p; discriminate E0.
  - cbn [app] in E. injection E as <- _. destruct (Ch _ (or_introl eq_refl)) as [W|W]; [unfold word_char, c_dot in W; lia|discriminate W].
Qed.
Lemma token_some b t r k : token_here b t = Some (r, k) <-> exists pc, mark b pc r /\ preferred b pc r /\ t = source pc ++ r /\ k = token_of pc.
Proof.
  unfold token_here. destruct (match_here re_text_sub t) as [[r0 cs]|] eqn:Es.
  - apply match_here_text_sub in Es as (x & Vx & -> & ->). cbn [cap_get Nat.eqb]. split.
    + intros E. apply some_inj in E. apply pair_equal_spec in E as [<- <-]. exists (PSub x). split; [now constructor|]. split; [exact I|]. split; auto. cbn [source]. now rewrite <- !app_assoc.
    + intros (pc & Mk & _ & E & ->). inversion Mk; subst; cbn [source] in E.
      * rewrite <- !app_assoc in E. assert (Hm : match_here re_text_sub (s "[[" ++ x ++ s "]]" ++ r0) = Some (r, [(0, x0)])) by (apply match_here_text_sub; exists x0; auto).
        assert (Hm0 : match_here re_text_sub (s "[[" ++ x ++ s "]]" ++ r0) = Some (r0, [(0, x)])) by (apply match_here_text_sub; exists x; auto).
        rewrite Hm in Hm0. apply some_inj in Hm0. apply pair_equal_spec in Hm0 as [<- Ec]. cbn [token_of]. congruence.
      * exfalso. rewrite <- !app_assoc in E. eapply sub_ref_apart; eauto.
      * exfalso. apply str_ci_length in H as L. destruct f as [|c f]; [discriminate L|]. inversion H; subst. cbn [app] in E. injection E as <- _. unfold char_ci in *. cbn in *. lia.
  - destruct (match_here re_text_ref t) as [[r0 cs]|] eqn:Er.
    + apply match_here_text_ref in Er as (x & y & Vx & Vy & -> & ->). destruct (ref_caps_get x y Vy) as [-> ->]. split.
      * intros E. apply some_inj in E. apply pair_equal_spec in E as [<- <-]. exists (PRef x y). split; [now constructor|]. split; [exact I|]. split; [cbn [source]; now rewrite <- !app_assoc|reflexivity].
      * intros (pc & Mk & _ & E & ->). inversion Mk; subst; cbn [source] in E.
        -- exfalso. rewrite <- !app_assoc in E. eapply sub_ref_apart; eauto.
        -- rewrite <- !app_assoc in E. assert (Hm : match_here re_text_ref (s "[[" ++ x ++ y ++ s "]]" ++ r0) = Some (r, ref_caps x0 y0)) by (apply match_here_text_ref; exists x0, y0; auto).
           assert (Hm0 : match_here re_text_ref (s "[[" ++ x ++ y ++ s "]]" ++ r0) = Some (r0, ref_caps x y)) by (apply match_here_text_ref; exists x, y; auto).
           rewrite Hm in Hm0. apply some_inj in Hm0. apply pair_equal_spec in Hm0 as [<- Ec].
           destruct (ref_caps_get x y Vy) as [C0 C1], (ref_caps_get x0 y0 H0) as [D0 D1]. rewrite Ec in D0, D1. cbn [token_of]. unfold ref_sub. rewrite <- D1, C1. congruence.
        -- exfalso. apply str_ci_length in H as L. destruct f as [|c f]; [discriminate L|]. inversion H; subst. cbn [app] in E. injection E as <- _. unfold char_ci in *. cbn in *. lia.
    + assert (Ns : forall b pc r', mark b pc r' -> t = source pc ++ r' -> exists f w bd, pc = PDot f w bd).
      { intros b' pc r' Mk E. inversion Mk; subst; [| |eauto].
        - exfalso. cbn [source] in Es. rewrite <- !app_assoc in Es. assert (X : match_here re_text_sub (s "[[" ++ x ++ s "]]" ++ r') = Some (r', [(0, x)])) by (apply match_here_text_sub; eauto). congruence.
        - exfalso. cbn [source] in Er. rewrite <- !app_assoc in Er. assert (X : match_here re_text_ref (s "[[" ++ x ++ y ++ s "]]" ++ r') = Some (r', ref_caps x y)) by (apply match_here_text_ref; eauto 6). congruence. }
      destruct b.
      * assert (Ff : hd_error (filter (fun st : mstate => at_eol (fst st)) (run re_dot t [])) = first_some pick (run re_dot t [])) by apply first_filter.
        destruct (filter _ (run re_dot t [])) as [|[r0 cs] l]; cbn [hd_error] in Ff; symmetry in Ff.
        -- split; [discriminate|]. intros (pc & Mk & _ & E & _). destruct (Ns _ _ _ Mk E) as (f & w & bd & ->). pose proof (proj1 (dot_none t) Ff f w bd r Mk). congruence.
        -- split.
           ++ intros E. apply some_inj in E. apply pair_equal_spec in E as [-> <-]. apply dot_some in Ff as (f & w & bd & Mk & Pf & Et & ->). exists (PDot f w bd). split; auto.
           ++ intros (pc & Mk & Pf & E & ->). destruct (Ns _ _ _ Mk E) as (f & w & bd & ->).
              assert (X : first_some pick (run re_dot t []) = Some (r, dot_caps f w bd)) by (apply dot_some; exists f, w, bd; auto). rewrite Ff in X. apply some_inj in X. apply pair_equal_spec in X as [-> ->]. reflexivity.
      * split; [discriminate|]. intros (pc & Mk & _ & E & _). destruct (Ns _ _ _ Mk E) as (f & w & bd & ->). inversion Mk.
Qed.

Lemma token_none b t : token_here b t = None <-> forall pc r, mark b pc r -> source pc ++ r <> t.
Proof.
  destruct (token_here b t) as [[r k]|] eqn:E.
  - split; [discriminate|]. intros N. apply token_some in E as (pc & Mk & _ & -> & _). exfalso. eapply N; eauto.
  - split; auto. intros _ pc r Mk Et. 
    assert (X : exists r' k', token_here b t = Some (r', k')); [|destruct X as (r' & k' & X); congruence].
    destruct pc as [c|x|x y|f w bd]; [inversion Mk| | |].
    + exists r, (TSub x). apply token_some. exists (PSub x). repeat split; auto.
    + exists r, (TRef x (ref_sub y)). apply token_some. exists (PRef x y). repeat split; auto.
    + destruct (first_some pick (run re_dot t [])) as [[r' cs]|] eqn:Ef.
      * apply dot_some in Ef as (f' & w' & b' & Mk' & Pf & Et' & _). exists r', (token_of (PDot f' w' b')). assert (b = true) as -> by now inversion Mk. apply token_some. exists (PDot f' w' b'). auto.
      * assert (b = true) as -> by now inversion Mk. pose proof (proj1 (dot_none t) Ef f w bd r Mk). congruence.
Qed.
Lemma mark_source b pc r : mark b pc r -> source pc <> [].
Proof.
  intros Mk. inversion Mk; subst; cbn [source]; try discriminate. apply str_ci_length in H. destruct f; discriminate.
Qed.
Lemma token_short b t r k : token_here b t = Some (r, k) -> length r < length t.
Proof. intros E. apply token_some in E as (pc & Mk & _ & -> & _). apply mark_source in Mk. rewrite app_length. destruct (source pc); [congruence|cbn [length]; lia]. Qed.

(** ** The whole text *)
Definition value (f : token -> res str) (pc : piece) : res str := match pc with PChar c => Ok [c] | _ => f (token_of pc) end.
Fixpoint values (f : token -> res str) (ks : list piece) : res str :=
  match ks with
  | [] => Ok []
  | k :: ks' => res_bind (value f k) (fun x => res_bind (values f ks') (fun y => Ok (x ++ y)))
  end.
Lemma cut_source b t ks : cut b t ks -> concat (map source ks) = t.
Proof. induction 1; cbn [map concat source app]; congruence. Qed.
Lemma cut_det_step b pc r pc' r' : mark b pc r -> preferred b pc r -> mark b pc' r' -> preferred b pc' r' -> source pc ++ r = source pc' ++ r' -> r = r' /\ pc = pc'.
Proof.
  intros Mk Pf Mk' Pf' E.
  assert (X : token_here b (source pc ++ r) = Some (r, token_of pc)) by (apply token_some; eauto).
  assert (Y : token_here b (source pc ++ r) = Some (r', token_of pc')) by (apply token_some; eauto).
  rewrite X in Y. apply some_inj in Y. apply pair_equal_spec in Y as [-> Et]. apply app_inv_tail in E. split; auto.
  destruct pc, pc'; cbn [token_of] in Et; try discriminate Et; inversion Mk; inversion Mk'; subst.
  - congruence.
  - injection Et as -> Ey. unfold ref_sub in Ey. destruct y, y0; congruence.
  - cbn [source] in E. injection Et as E1 E2. apply app_inj_tail in E2 as [-> _].
    destruct (app_len_eq _ _ _ _ E1) as [-> ->]; auto. eapply fence_len; eauto.
Qed.
Lemma cut_unique b t ks : cut b t ks -> forall ks', cut b t ks' -> ks' = ks.
Proof.
  induction 1 as [b|b k rest ks Mk Pf C IH|b c rest ks N C IH]; intros ks' C'.
  - inversion C' as [b0 E0 E1|b0 k' rest' ks0 Mk' Pf' C0 E0 E1|b0 c' rest' ks0 N' C0 E0 E1]; subst; auto. apply app_eq_nil in E1 as [E1 _]. apply mark_source in Mk'. congruence.
  - inversion C' as [b0 E0 E1|b0 k' rest' ks0 Mk' Pf' C0 E0 E1|b0 c rest' ks0 N' C0 E0 E1]; subst.
    + symmetry in E1. apply app_eq_nil in E1 as [E1 _]. apply mark_source in Mk. congruence.
    + destruct (cut_det_step _ _ _ _ _ Mk Pf Mk' Pf') as [<- <-]; auto. f_equal. now apply IH.
    + exfalso. eapply N'; eauto.
  - inversion C' as [b0 E0 E1|b0 k' rest' ks0 Mk' Pf' C0 E0 E1|b0 c' rest' ks0 N' C0 E0 E1]; subst.
    + exfalso. eapply N; eauto.
    + f_equal. now apply IH.
Qed.
Lemma replace_cut f : forall n b t, length t <= n -> exists ks, cut b t ks /\ replace_from f n b t = values f ks.
Proof.
  induction n as [|n IH]; intros b t L.
  - destruct t; [|cbn [length] in L; lia]. exists []. split; [constructor|reflexivity].
  - cbn [replace_from]. destruct (token_here b t) as [[r k]|] eqn:E.
    + pose proof (token_short _ _ _ _ E) as Lr. apply token_some in E as (pc & Mk & Pf & -> & ->). destruct (IH false r ltac:(lia)) as (ks & C & ->).
      exists (pc :: ks). split; [now constructor|]. cbn [values]. now destruct pc; [inversion Mk| | |].
    + destruct t as [|c t]; [exists []; split; [constructor|reflexivity]|]. cbn [length] in L. destruct (IH (N.eqb c c_nl) t ltac:(lia)) as (ks & C & ->).
      exists (PChar c :: ks). split; [|reflexivity]. constructor; auto. now apply token_none.
Qed.
Lemma replace_all_values f t ks : cut true t ks -> replace_all f t = values f ks.
Proof. intros C. destruct (replace_cut f (length t) true t (le_n _)) as (ks' & C' & E). rewrite (cut_unique _ _ _ C ks' C') in E. exact E. Qed.
Lemma cut_exists b t : exists ks, cut b t ks.
Proof. destruct (replace_cut (fun _ => Ok []) (length t) b t (le_n _)) as (ks & C & _). eauto. Qed.
