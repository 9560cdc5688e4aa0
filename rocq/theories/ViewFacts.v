(** The second look for graphs finds the blocks of the first. *)
From Coq Require Import ZArith Lia ZifyBool.
From Verif Require Import Api Render SpecRender RenderFacts SpecExport ExportFacts View SpecView.
From Verif Require Import Base BaseFacts Regex RegexFacts Name SpecName NameFacts SubFacts RefFacts Artifact Lint SpecLint LintFacts.
Open Scope nat_scope.

(** ** The two expressions find the same *)
Definition sim (x y : Regex.mstate) : Prop := fst x = fst y /\ cap_get 3 (snd x) = cap_get 3 (snd y).
Lemma flat_sim (f g : Regex.mstate -> list Regex.mstate) l m : (forall x y, sim x y -> Forall2 sim (f x) (g y)) -> Forall2 sim l m -> Forall2 sim (flat_map f l) (flat_map g m).
Proof. intros F. induction 1; cbn [flat_map]; [constructor|]. apply Forall2_app; auto. Qed.
Lemma cap_get_cons i j x cs : cap_get i ((j, x) :: cs) = if Nat.eqb i j then Some x else cap_get i cs.
Proof. reflexivity. Qed.
Lemma iter_sim (st st' : str -> caps -> list Regex.mstate) g : (forall t cs cs', cap_get 3 cs = cap_get 3 cs' -> Forall2 sim (st t cs) (st' t cs')) ->
  forall n t cs cs', cap_get 3 cs = cap_get 3 cs' -> Forall2 sim (iter st g n t cs) (iter st' g n t cs').
Proof.
  intros F. induction n as [|n IH]; intros t cs cs' E; cbn [iter]; [repeat constructor; auto|].
  assert (X : Forall2 sim (flat_map (fun x : Regex.mstate => if Nat.ltb (length (fst x)) (length t) then iter st g n (fst x) (snd x) else []) (st t cs))
                          (flat_map (fun x : Regex.mstate => if Nat.ltb (length (fst x)) (length t) then iter st' g n (fst x) (snd x) else []) (st' t cs'))).
  { apply flat_sim; [|now apply F]. intros x y [E1 E2]. rewrite E1. destruct (Nat.ltb _ _); [now apply IH|constructor]. }
  destruct g; [apply Forall2_app; [exact X|]|constructor; [|exact X]]; repeat constructor; auto.
Qed.
Lemma run_sim r : forall t cs cs', cap_get 3 cs = cap_get 3 cs' -> Forall2 sim (run r t cs) (run r t cs').
Proof.
  induction r; intros t cs cs' E; cbn [run].
  - repeat constructor; auto.
  - destruct t as [|c t]; [constructor|]. destruct (f c); repeat constructor; auto.
  - apply flat_sim; [|now apply IHr1]. intros x y [E1 E2]. rewrite E1. now apply IHr2.
  - apply Forall2_app; auto.
  - now apply iter_sim.
  - specialize (IHr t cs cs' E). induction IHr as [|x y l m [E1 E2] _ IH]; cbn [map]; constructor; [|exact IH]. split; [exact E1|]. destruct x, y. cbn [fst snd] in *. rewrite !cap_get_cons. subst. now destruct (Nat.eqb _ _).
Qed.
Lemma cap_sim i r t cs : i <> 3 -> Forall2 sim (run (Cap i r) t cs) (run r t cs).
Proof.
  intros N. rewrite run_cap. induction (run r t cs) as [|x l IH]; cbn [map]; constructor; [|exact IH]. split; [reflexivity|]. cbn [snd]. rewrite cap_get_cons. destruct (Nat.eqb 3 i) eqn:E; [apply Nat.eqb_eq in E; congruence|]. reflexivity.
Qed.
Lemma sim_trans x y z : sim x y -> sim y z -> sim x z.
Proof. intros [A B] [C D]. split; congruence. Qed.
Lemma flat_flat {A B C} (f : A -> list B) (g : B -> list C) l : flat_map g (flat_map f l) = flat_map (fun x => flat_map g (f x)) l.
Proof. induction l as [|x l IH]; [reflexivity|]. cbn [flat_map]. now rewrite flat_map_app, IH. Qed.
Lemma Forall2_ext_r {A B} (R : A -> B -> Prop) l m m' : Forall2 R l m -> m = m' -> Forall2 R l m'.
Proof. now intros X <-. Qed.
Lemma view_sim t : Forall2 sim (run re_dot t []) (run re_view t []).
Proof.
  change re_dot with (Seq (Cap 2 (Seq (cis (s "```dot")) (Star true ws))) (Seq (lit c_nl) (Seq (Cap 3 (Seq (Seq any_char (Star false any_char)) (lit c_nl))) (Cap 4 (lits (s "```")))))).
  change re_view with (Seq (cis (s "```dot")) (Seq (Star true ws) (Seq (lit c_nl) (Seq (Cap 3 (Seq (Seq any_char (Star false any_char)) (lit c_nl))) (lits (s "```")))))).
  rewrite !run_seq.
  assert (T : forall x y, sim x y -> Forall2 sim (run (Seq (lit c_nl) (Seq (Cap 3 (Seq (Seq any_char (Star false any_char)) (lit c_nl))) (Cap 4 (lits (s "```"))))) (fst x) (snd x))
      (run (Seq (lit c_nl) (Seq (Cap 3 (Seq (Seq any_char (Star false any_char)) (lit c_nl))) (lits (s "```")))) (fst y) (snd y))).
  { intros x y [E1 E2]. rewrite !run_seq, E1. apply flat_sim; [|now apply run_sim]. clear x y E1 E2. intros x y [E1 E2]. rewrite !run_seq, E1. apply flat_sim; [|now apply run_sim].
    clear x y E1 E2. intros x y [E1 E2]. rewrite E1. pose proof (cap_sim 4 (lits (s "```")) (fst y) (snd x) ltac:(lia)) as A. pose proof (run_sim (lits (s "```")) (fst y) (snd x) (snd y) E2) as B.
    clear -A B. revert A. generalize (run (Cap 4 (lits (s "```"))) (fst y) (snd x)). induction B; intros l0 A; inversion A; subst; constructor; eauto using sim_trans. }
  assert (X : Forall2 sim (run (Cap 2 (Seq (cis (s "```dot")) (Star true ws))) t []) (run (Seq (cis (s "```dot")) (Star true ws)) t [])) by (apply cap_sim; lia).
  pose proof (flat_sim _ _ _ _ T X) as Y. rewrite run_seq, flat_flat in Y. eapply Forall2_ext_r; [exact Y|]. apply flat_map_ext. intros st. now rewrite run_seq.
Qed.

Lemma filter_sim l m : Forall2 sim l m -> Forall2 sim (filter (fun st : Regex.mstate => at_eol (fst st)) l) (filter (fun st : Regex.mstate => at_eol (fst st)) m).
Proof. induction 1 as [|x y l m [E1 E2] _ IH]; cbn [filter]; [constructor|]. rewrite E1. destruct (at_eol (fst y)); [constructor; [split; auto|exact IH]|exact IH]. Qed.
Lemma view_pick t : view_here true t = match first_some pick (run re_dot t []) with Some (r, cs) => Some (r, cap_get 3 cs) | None => None end.
Proof.
  unfold view_here, pick. rewrite <- first_filter. generalize (filter_sim _ _ (view_sim t)). generalize (filter (fun st : Regex.mstate => at_eol (fst st)) (run re_dot t [])) (filter (fun st : Regex.mstate => at_eol (fst st)) (run re_view t [])). intros l0 m0 S. inversion S as [|[r cs] [r' cs'] l m [E1 E2] _]; subst; [reflexivity|]. cbn [hd_error fst snd] in *. congruence.
Qed.
Lemma view_some t r d : view_here true t = Some (r, d) <->
  exists f w b, mark true (PDot f w b) r /\ preferred true (PDot f w b) r /\ t = source (PDot f w b) ++ r /\ d = Some (b ++ [c_nl]).
Proof.
  rewrite view_pick. destruct (first_some pick (run re_dot t [])) as [[r0 cs]|] eqn:E.
  - apply dot_some in E as (f & w & b & Mk & Pf & -> & ->). split.
    + intros X. assert (X1 : r0 = r) by congruence. assert (X2 : cap_get 3 (dot_caps f w b) = d) by congruence. subst. exists f, w, b. auto.
    + intros (f' & w' & b' & Mk' & Pf' & E & ->). destruct (cut_det_step true _ _ _ _ Mk Pf Mk' Pf' E) as [-> X]. inversion X. reflexivity.
  - split; [discriminate|]. intros (f & w & b & Mk & Pf & -> & _). exfalso. exact (proj1 (dot_none _) E f w b r Mk eq_refl).
Qed.
Lemma view_none t : view_here true t = None <-> forall f w b r, mark true (PDot f w b) r -> source (PDot f w b) ++ r <> t.
Proof. rewrite view_pick, <- dot_none. destruct (first_some pick (run re_dot t [])) as [[r cs]|]; split; congruence. Qed.

(** A text cut into blocks and other characters. *)
Inductive cut2 : bool -> str -> list piece -> Prop :=
| C2Nil b : cut2 b [] []
| C2Dot f w b r ks : mark true (PDot f w b) r -> preferred true (PDot f w b) r -> cut2 false r ks -> cut2 true (source (PDot f w b) ++ r) (PDot f w b :: ks)
| C2Char bol c r ks : (bol = true -> forall f w b q, mark true (PDot f w b) q -> source (PDot f w b) ++ q <> c :: r) -> cut2 (N.eqb c 10) r ks -> cut2 bol (c :: r) (PChar c :: ks).
Definition val2 (viz : str -> str) (k : piece) : str := match k with PChar c => [c] | PDot f w b => view_dot viz (b ++ [c_nl]) | _ => [] end.
Lemma view_values viz bol t ks : cut2 bol t ks -> forall n, length t <= n -> view_from viz n bol t = Ok (concat (map (val2 viz) ks)).
Proof.
  induction 1 as [b|f w b r ks Mk Pf C IH|bol c r ks N C IH]; intros n L.
  - destruct n; [reflexivity|]. cbn [view_from]. destruct (view_here b []) as [[r d]|] eqn:E; [|reflexivity]. destruct b; [|discriminate E].
    apply view_some in E as (f & w & b & Mk & _ & E & _). symmetry in E. apply app_eq_nil in E as [E _]. now apply mark_source in Mk.
  - destruct n as [|n]; [exfalso; apply mark_source in Mk; rewrite app_length in L; destruct (source (PDot f w b)); [congruence|cbn [length] in L; lia]|].
    cbn [view_from]. assert (E : view_here true (source (PDot f w b) ++ r) = Some (r, Some (b ++ [c_nl]))) by (apply view_some; exists f, w, b; auto). rewrite E.
    rewrite IH; [reflexivity|]. apply mark_source in Mk. rewrite app_length in L. destruct (source (PDot f w b)); [congruence|cbn [length] in L; lia].
  - destruct n as [|n]; [cbn [length] in L; lia|]. cbn [view_from]. assert (E : view_here bol (c :: r) = None).
    { destruct bol; [|reflexivity]. apply view_none. now apply N. }
    rewrite E. change c_nl with 10%N. rewrite IH by (cbn [length] in L; lia). reflexivity.
Qed.

(** ** What the first pass writes *)
Inductive inp : piece -> str -> Prop :=
| IChar c : inp (PChar c) [c]
| INode k o : (forall c, k <> PChar c) -> (exists t, source k = s "[[" ++ t ++ s "]]") -> In 123%N o -> ~ In 96%N o -> (forall u, o <> u ++ [10%N]) -> (exists t, o = 10%N :: t) -> inp k o.
Inductive outp : piece -> str -> Prop :=
| OChar c : outp (PChar c) [c]
| OHtml k o t : (exists u, source k = s "[[" ++ u) -> o = 60%N :: t -> ~ In 10%N o -> outp k o
| ODot f w b kb ds : cut true (b ++ [10%N]) kb -> Forall2 inp kb ds -> outp (PDot f w b) (f ++ w ++ 10%N :: concat ds ++ 10%N :: s "```").
Definition closer (t u r : str) : Prop := t = u ++ 10%N :: s "```" ++ r /\ ends_line r.

Lemma cons_app {A} (c : A) x u y : c :: x = u ++ y -> (u = [] /\ y = c :: x) \/ exists u', u = c :: u' /\ x = u' ++ y.
Proof. destruct u as [|d u]; cbn [app]; intros E; [left; auto|]. injection E as <- E. right. eauto. Qed.
Lemma app_split {A} (a b u v : list A) : a ++ b = u ++ v -> length a <= length u -> exists m, u = a ++ m /\ b = m ++ v.
Proof.
  revert u. induction a as [|x a IH]; intros u E L; [exists u; auto|]. destruct u as [|y u]; [cbn in L; lia|]. cbn [app] in E. injection E as <- E.
  destruct (IH u E) as (m & -> & ->); [cbn in L; lia|]. exists m. auto.
Qed.

(** *** Inside a block *)
Lemma inp_ticks kb ds : Forall2 inp kb ds -> forall x y, Forall (fun c => c = 96%N) x -> concat ds = x ++ y -> exists kb' ds', Forall2 inp kb' ds' /\ concat (map source kb) = x ++ concat (map source kb') /\ y = concat ds'.
Proof.
  intros F x. revert kb ds F. induction x as [|c x IH]; intros kb ds F y Fx E; [exists kb, ds; auto|]. inversion Fx as [|? ? -> Fx']; subst.
  destruct F as [|k o kb ds I F]; [discriminate E|]. cbn [concat map] in *. destruct I as [c|k o Nc _ _ _ _ (t & ->)].
  - cbn [app] in E. injection E as -> E. destruct (IH kb ds F y Fx' E) as (kb' & ds' & F' & E1 & E2). exists kb', ds'. split; [exact F'|]. split; [|exact E2]. cbn [source app]. now rewrite E1.
  - discriminate E.
Qed.
Lemma inp_closer kb ds : Forall2 inp kb ds -> forall u r, r <> [] -> closer (concat ds) u r ->
  exists u' v, concat (map source kb) = u' ++ 10%N :: s "```" ++ v /\ ((exists q, v = 10%N :: q) \/ exists q, v = s "[[" ++ q).
Proof.
  induction 1 as [|k o kb ds I F IH]; intros u r Nr [E El]; [destruct u; discriminate E|]. cbn [concat map] in *. destruct I as [c|k o Nc Src _ Nt Nl (t & Eo)].
  - cbn [app] in E. apply cons_app in E as [[-> E]|(u' & -> & E)].
    + injection E as <- E. symmetry in E. destruct (inp_ticks kb ds F (s "```") r) as (kb' & ds' & F' & E1 & ->); [repeat constructor|exact E|].
      exists [], (concat (map source kb')). split; [cbn [app source]; now rewrite E1|]. destruct El as [Er|(q & Eq)]; [congruence|].
      destruct F' as [|k' o' kb' ds' I' F']; [discriminate Eq|]. cbn [concat map] in *. destruct I' as [c'|k' o' _ (z & ->) _ _ _ _].
      * cbn [app source] in *. injection Eq as -> _. left. eauto.
      * right. cbn [app]. eexists. rewrite <- app_assoc. reflexivity.
    + destruct (IH u' r Nr (conj E El)) as (u2 & v & E1 & E2). exists (c :: u2), v. split; [|exact E2]. cbn [source app]. now rewrite E1.
  - destruct (Nat.le_gt_cases (length o) (length u)) as [L|L].
    + apply app_split in E as (m & -> & E); [|exact L]. destruct (IH m r Nr (conj E El)) as (u2 & v & E1 & E2). exists (source k ++ u2), v. split; [|exact E2]. rewrite E1, <- app_assoc. reflexivity.
    + exfalso. symmetry in E. apply app_split in E as (m & Eo2 & E); [|lia]. destruct m as [|c m]; [rewrite app_nil_r in Eo2; subst; lia|]. cbn [app] in E. injection E as <- E.
      destruct m as [|c m]; [apply (Nl u); exact Eo2|]. cbn [app] in E. injection E as <- E. apply Nt. rewrite Eo2. apply in_app_iff. right. right. now left.
Qed.

Lemma last_split {A} (b : list A) c u x : b ++ [c] = u ++ x -> x <> [] -> exists x', x = x' ++ [c] /\ b = u ++ x'.
Proof.
  intros E N. destruct (exists_last N) as (x' & d & ->). rewrite app_assoc in E. apply app_inj_tail in E as [-> ->]. eauto.
Qed.
Lemma block_inner f w b rest kb ds : mark true (PDot f w b) rest -> preferred true (PDot f w b) rest -> plain_block (PDot f w b) ->
  cut true (b ++ [10%N]) kb -> Forall2 inp kb ds -> forall u r, r <> [] -> ~ closer (concat ds) u r.
Proof.
  intros Mk Pf Pb Ck F u r Nr Cl. destruct (inp_closer kb ds F u r Nr Cl) as (u' & v & E & Ev). rewrite (cut_source _ _ _ Ck) in E.
  apply mark_block in Mk as (_ & Cf & Fw & Nb & El). destruct Ev as [(q & ->)|(q & ->)].
  - assert (X : exists q', 10%N :: q = q' ++ [10%N] /\ b = u' ++ 10%N :: s "```" ++ q').
    { destruct (last_split b 10%N (u' ++ 10%N :: s "```") (10%N :: q)) as (q' & E1 & E2); [rewrite <- app_assoc; exact E|discriminate|]. exists q'. split; [exact E1|]. rewrite E2, <- app_assoc. reflexivity. }
    destruct X as (q' & E1 & Eb). destruct u' as [|c u'].
    + cbn [app] in Eb. destruct (Pf f (w ++ [10%N]) (s "```" ++ q') rest) as [L|[L _]]; [| |rewrite app_length in L; cbn in L; lia|rewrite app_length in L; cbn in L; lia].
      * apply mark_block. split; auto. split; auto. split; [|split; [discriminate|exact El]]. apply Forall_app. split; [exact Fw|]. repeat constructor.
      * rewrite !source_dot, Eb. flat. reflexivity.
    + destruct (Pf f w (c :: u') (10%N :: q ++ s "```" ++ rest)) as [L|[_ L]]; [| |lia|].
      * apply mark_block. split; auto. split; auto. split; auto. split; [discriminate|]. right. eauto.
      * rewrite !source_dot, Eb. change c_nl with 10%N. replace (10%N :: q ++ s "```" ++ rest) with ((q' ++ [10%N]) ++ s "```" ++ rest) by (rewrite <- E1; reflexivity). flat. reflexivity.
      * rewrite Eb in L. rewrite app_length in L. cbn [length] in L. lia.
  - destruct (last_split b 10%N (u' ++ 10%N :: s "```[") (91%N :: q)) as (q' & E1 & E2); [rewrite <- app_assoc; exact E|discriminate|].
    destruct q' as [|c q']; [discriminate E1|]. injection E1 as <- _. apply (Pb u' q'). rewrite E2, <- app_assoc. reflexivity.
Qed.

(** *** Outside *)
Lemma fence_shape f : str_ci (s "```dot") f -> exists d o t, f = [96%N; 96%N; 96%N; d; o; t] /\ (d <> 96 /\ d <> 10 /\ d <> 60 /\ o <> 10 /\ o <> 60 /\ t <> 10 /\ t <> 60)%N.
Proof.
  intros C. change (s "```dot") with [96; 96; 96; 100; 111; 116]%N in C. repeat match goal with C : str_ci _ _ |- _ => inversion C; clear C; subst | C : Forall2 _ _ _ |- _ => inversion C; clear C; subst end.
  repeat match goal with C : char_ci _ _ |- _ => unfold char_ci in C end. exists y2, y3, y4. split; [|lia]. repeat f_equal; lia.
Qed.
Lemma outp_first ks os b t : cut b t ks -> Forall2 outp ks os -> match t with [] => os = [] | c :: _ => exists d y, concat os = d :: y /\ (c = 10%N <-> d = 10%N) end.
Proof.
  intros C F. destruct C as [b|b k rest ks Mk Pf C|b c rest ks N C].
  - inversion F. reflexivity.
  - inversion F as [|? o ? os' I F']; subst. destruct I as [c|k o t (u & Es) -> _|f w b' kb ds _ _]; [inversion Mk| |].
    + rewrite Es. cbn [app concat]. exists 60%N, (t ++ concat os'). split; [reflexivity|]. split; discriminate.
    + apply mark_block in Mk as (_ & Cf & _). destruct (fence_shape f Cf) as (d & o & t & -> & _). cbn [source app concat]. eexists. eexists. split; [reflexivity|]. tauto.
  - inversion F as [|? o ? os' I F']; subst. inversion I as [c'|k' o' t (u & Es)|]; subst; [|discriminate Es]. cbn [concat app]. eexists. eexists. split; [reflexivity|]. tauto.
Qed.
Lemma ends_out ks os b t : cut b t ks -> Forall2 outp ks os -> ends_line (concat os) <-> ends_line t.
Proof.
  intros C F. pose proof (outp_first ks os b t C F) as X. unfold ends_line. destruct t as [|c t].
  - rewrite X. cbn [concat]. tauto.
  - destruct X as (d & y & -> & E). split; intros [Z|(q & Z)]; try discriminate Z; injection Z as -> <-; right; [rewrite (proj2 E eq_refl)|rewrite (proj1 E eq_refl)]; eauto.
Qed.
Lemma out_ticks x : forall b t ks os r, cut b t ks -> Forall2 outp ks os -> Forall (fun c => c = 96%N) x -> concat os = x ++ r -> ends_line r -> exists r', t = x ++ r' /\ ends_line r'.
Proof.
  induction x as [|c x IH]; intros b t ks os r C F Fx E El.
  - exists t. split; [reflexivity|]. apply (ends_out ks os b t C F). now rewrite E.
  - inversion Fx as [|? ? -> Fx']; subst. destruct C as [b|b k rest ks Mk Pf C|b c rest ks N C].
    + inversion F; subst. discriminate E.
    + exfalso. inversion F as [|? o ? os' I F']; subst. destruct I as [c|k o t _ -> _|f w b' kb ds _ _]; [inversion Mk|discriminate E|].
      apply mark_block in Mk as (_ & Cf & _). destruct (fence_shape f Cf) as (d & o & t & -> & N). cbn [concat app] in E. injection E as E.
      destruct x as [|c1 x]; [destruct El as [->|(q & ->)]; discriminate E|]. injection E as _ E. destruct x as [|c2 x]; [destruct El as [->|(q & ->)]; discriminate E|]. injection E as _ E.
      destruct x as [|c3 x]; [destruct El as [->|(q & ->)]; [discriminate E|injection E as E _; lia]|]. injection E as E _. inversion Fx' as [|? ? _ F2]; subst. inversion F2 as [|? ? _ F3]; subst. inversion F3; subst. lia.
    + inversion F as [|? o ? os' I F']; subst. inversion I as [c'|k' o' t (u & Es)|]; subst; [|discriminate Es]. cbn [concat app] in E. injection E as -> E.
      destruct (IH _ _ _ _ r C F' Fx' E El) as (r' & -> & El'). exists r'. auto.
Qed.
Lemma out_closer b t ks : cut b t ks -> forall os u r, Forall2 outp ks os -> closer (concat os) u r -> exists u' r', closer t u' r' /\ (u <> [] -> u' <> []).
Proof.
  induction 1 as [b|b k rest ks Mk Pf C IH|b c rest ks N C IH]; intros os u r F [E El].
  - inversion F; subst. destruct u; discriminate E.
  - inversion F as [|? o ? os' I F']; subst. destruct I as [c|k o t (v & Es) -> Nn|f w b' kb ds _ _]; [inversion Mk| |].
    + cbn [concat] in E. destruct (Nat.le_gt_cases (length (60%N :: t)) (length u)) as [L|L].
      * apply app_split in E as (m & -> & E); [|exact L]. destruct (IH os' m r F' (conj E El)) as (u' & r' & [-> El'] & _). exists (source k ++ u'), r'. split; [split; [rewrite <- app_assoc; reflexivity|exact El']|]. intros _. rewrite Es. discriminate.
      * exfalso. symmetry in E. apply app_split in E as (m & Eo & E); [|lia]. destruct m as [|c m]; [rewrite app_nil_r in Eo; rewrite Eo in L; lia|]. injection E as <- _. apply Nn. rewrite Eo. apply in_app_iff. right. now left.
    + exists (f ++ w ++ 10%N :: b'), rest. apply mark_block in Mk as (_ & Cf & _ & _ & El'). split; [split; [|exact El']|].
      * rewrite source_dot. flat. reflexivity.
      * intros _. destruct (fence_shape f Cf) as (d & o & t & -> & _). discriminate.
  - inversion F as [|? o ? os' I F']; subst. inversion I as [c'|k' o' t (v & Es)|]; subst; [|discriminate Es]. cbn [concat app] in E. apply cons_app in E as [[-> E]|(u' & -> & E)].
    + injection E as <- E. symmetry in E. destruct (out_ticks (s "```") _ _ _ _ r C F') as (r' & -> & El'); [repeat constructor|exact E|exact El|]. exists [], r'. split; [split; [reflexivity|exact El']|]. congruence.
    + destruct (IH os' u' r F' (conj E El)) as (u2 & r' & [-> El'] & _). exists (c :: u2), r'. split; [split; [reflexivity|exact El']|]. discriminate.
Qed.

Fixpoint plain_run (bol : bool) (z : str) : Prop :=
  match z with [] => True | c :: z' => c <> 60%N /\ (bol = true -> c <> 96%N) /\ plain_run (N.eqb c 10) z' end.
Lemma walk z : forall b t ks os y, cut b t ks -> Forall2 outp ks os -> plain_run b z -> concat os = z ++ y ->
  exists b' t' ks' os', cut b' t' ks' /\ Forall2 outp ks' os' /\ t = z ++ t' /\ y = concat os'.
Proof.
  induction z as [|c z IH]; intros b t ks os y C F P E; [exists b, t, ks, os; auto|]. destruct P as (P1 & P2 & P3). destruct C as [b|b k rest ks Mk Pf C|b c' rest ks N C].
  - inversion F; subst. discriminate E.
  - exfalso. inversion F as [|? o ? os' I F']; subst. destruct I as [c0|k o t _ -> _|f w b' kb ds _ _]; [inversion Mk|injection E as E _; congruence|].
    apply mark_block in Mk as (-> & Cf & _). destruct (fence_shape f Cf) as (d & o & t & -> & _). injection E as E _. now apply P2.
  - inversion F as [|? o ? os' I F']; subst. inversion I as [c0|k' o' t (v & Es)|]; subst; [|discriminate Es]. cbn [concat app] in E. injection E as -> E.
    destruct (IH _ _ _ _ y C F' P3 E) as (b' & t' & ks' & os2 & C' & F2 & -> & ->). exists b', t', ks', os2. auto.
Qed.
Lemma ws_run w : Forall (fun c => is_ws c = true) w -> forall b, plain_run b (w ++ [10%N]).
Proof.
  induction 1 as [|c w Hc _ IH]; intros b; cbn [app plain_run]; [repeat split; discriminate|]. split; [intros ->; discriminate Hc|]. split; [intros _ ->; discriminate Hc|apply IH].
Qed.
Lemma char_no_block c rest ks os : cut (N.eqb c 10) rest ks -> Forall2 outp ks os -> (forall k r, mark true k r -> source k ++ r <> c :: rest) ->
  forall f w b q, mark true (PDot f w b) q -> source (PDot f w b) ++ q <> c :: concat os.
Proof.
  intros C F N f w b q Mk E. apply mark_block in Mk as (_ & Cf & Fw & Nb & El). rewrite source_dot in E. destruct (fence_shape f Cf) as (d & o & t & Ef & Nd).
  rewrite Ef in E. cbn [app] in E. injection E as <- E. symmetry in E.
  assert (E' : concat os = ([96%N; 96%N; d; o; t] ++ w ++ [10%N]) ++ (b ++ 10%N :: s "```" ++ q)) by (rewrite E; flat; reflexivity).
  destruct (fun P => walk _ _ _ _ _ _ C F P E') as (b' & t' & ks' & os' & C' & F' & Et & Ey).
  { cbn [app plain_run N.eqb Pos.eqb]. repeat split; try discriminate; try tauto; try (intros X; apply N.eqb_eq in X; tauto). apply ws_run. exact Fw. }
  destruct (out_closer b' t' ks' C' os' b q F') as (u' & r' & [-> El'] & Nu); [split; auto|].
  apply (N (PDot f w u') r'); [apply mark_block; auto 8|]. rewrite source_dot, Ef, Et. flat. reflexivity.
Qed.

Lemma white_in kb ds : Forall2 inp kb ds -> Forall (fun c => is_ws c = true) (concat ds) -> concat (map source kb) = concat ds.
Proof.
  induction 1 as [|k o kb ds I F IH]; cbn [concat map]; intros W; [reflexivity|]. apply Forall_app in W as [W1 W2]. rewrite (IH W2). f_equal.
  destruct I as [c|k o _ _ Ho _ _ _]; [reflexivity|]. rewrite Forall_forall in W1. apply W1 in Ho. discriminate Ho.
Qed.
Lemma block_white f w b rest kb ds : mark true (PDot f w b) rest -> preferred true (PDot f w b) rest -> cut true (b ++ [10%N]) kb -> Forall2 inp kb ds ->
  Forall (fun c => is_ws c = true) (concat ds) -> forall u r, ~ closer rest u r.
Proof.
  intros Mk Pf Ck F W u r [E El]. pose proof (white_in kb ds F W) as X. rewrite (cut_source _ _ _ Ck) in X. rewrite <- X in W. apply Forall_app in W as [W _].
  apply mark_block in Mk as (_ & Cf & Fw & Nb & _).
  destruct (Pf f (w ++ 10%N :: b) (s "```" ++ u) r) as [L|[L _]]; [| |rewrite app_length in L; cbn in L; lia|rewrite app_length in L; cbn in L; lia].
  - apply mark_block. split; auto. split; auto. split; [|split; [discriminate|exact El]]. apply Forall_app. split; [exact Fw|]. constructor; [reflexivity|exact W].
  - rewrite !source_dot, E. flat. reflexivity.
Qed.
Lemma ticks_closer b r R : b <> [] -> b ++ 10%N :: s "```" ++ r = s "```" ++ R -> exists u, R = u ++ 10%N :: s "```" ++ r.
Proof.
  intros N E. destruct b as [|c1 b]; [congruence|]. injection E as -> E. destruct b as [|c2 b]; [discriminate E|]. injection E as -> E. destruct b as [|c3 b]; [discriminate E|]. injection E as -> E. eauto.
Qed.
Lemma block_again f w b rest kb ds ks os : mark true (PDot f w b) rest -> preferred true (PDot f w b) rest -> plain_block (PDot f w b) ->
  cut true (b ++ [10%N]) kb -> Forall2 inp kb ds -> cut false rest ks -> Forall2 outp ks os ->
  exists w1 b1, mark true (PDot f w1 b1) (concat os) /\ preferred true (PDot f w1 b1) (concat os) /\ w ++ 10%N :: concat ds = w1 ++ 10%N :: b1.
Proof.
  intros Mk Pf Pb Ck F C Fo. set (d := concat ds). set (R := concat os).
  pose proof (block_inner f w b rest kb ds Mk Pf Pb Ck F) as Inner. fold d in Inner.
  assert (White : Forall (fun c => is_ws c = true) d -> forall u r, ~ closer R u r).
  { intros W u r Cl. destruct (out_closer false rest ks C os u r Fo Cl) as (u' & r' & Cl' & _). exact (block_white f w b rest kb ds Mk Pf Ck F W u' r' Cl'). }
  pose proof Mk as Mk0. apply mark_block in Mk0 as (_ & Cf & Fw & Nb & El).
  assert (ElR : ends_line R) by (apply (ends_out ks os false rest C Fo); exact El).
  assert (Dl : exists d0, d = d0 ++ [10%N]).
  { unfold d. destruct kb as [|k0 kb']; [apply cut_source in Ck; destruct b; discriminate Ck|]. destruct (@exists_last _ (k0 :: kb') ltac:(discriminate)) as (kb0 & k & Ek). rewrite Ek in *.
    apply cut_source in Ck. rewrite map_app, concat_app in Ck. cbn [map concat] in Ck. rewrite app_nil_r in Ck.
    apply Forall2_app_inv_l in F as (d1 & d2 & F1 & F2 & ->). inversion F2 as [|? o ? ? I F3]; subst. inversion F3; subst. rewrite concat_app. cbn [concat]. rewrite app_nil_r.
    destruct I as [c|k o _ (z & Es) _ _ _ _].
    - cbn [source] in Ck. apply app_inj_tail in Ck as [_ <-]. eauto.
    - exfalso. rewrite Es in Ck. change (s "[[" ++ z ++ s "]]") with (s "[[" ++ z ++ [93%N] ++ [93%N]) in Ck. rewrite !app_assoc in Ck. apply app_inj_tail in Ck as [_ X]. discriminate X. }
  destruct Dl as (d0 & Ed).
  assert (Nd : d <> []) by (rewrite Ed; destruct d0; discriminate).
  (* a closer that starts inside [d] is inside [d] *)
  assert (In_d : forall u r, ends_line r -> d ++ 10%N :: s "```" ++ R = u ++ 10%N :: s "```" ++ r -> length d <= length u).
  { intros u r Elr E. destruct (Nat.le_gt_cases (length d) (length u)) as [L|L]; [exact L|]. exfalso. symmetry in E. apply app_split in E as (m & Em & E); [|lia].
    destruct m as [|c1 m]; [rewrite app_nil_r in Em; rewrite Em in L; lia|]. injection E as <- E.
    assert (Last : forall x c, d = x ++ [c] -> c = 10%N) by (intros x c X; rewrite Ed in X; now apply app_inj_tail in X as [_ <-]).
    destruct m as [|c2 m]; [discriminate E|]. injection E as <- E. destruct m as [|c3 m]; [specialize (Last (u ++ [10%N]) 96%N); rewrite <- app_assoc in Last; specialize (Last Em); discriminate Last|]. injection E as <- E.
    destruct m as [|c4 m]; [specialize (Last (u ++ [10%N; 96%N]) 96%N); rewrite <- app_assoc in Last; specialize (Last Em); discriminate Last|]. injection E as <- E.
    destruct m as [|c5 m]; [specialize (Last (u ++ [10%N; 96%N; 96%N]) 96%N); rewrite <- app_assoc in Last; specialize (Last Em); discriminate Last|].
    apply (Inner u (c5 :: m)); [discriminate|]. split; [exact Em|]. right. destruct Elr as [->|(q & ->)]; [discriminate E|]. injection E as -> _. eauto. }
  set (T := source (PDot f w d) ++ R). assert (M0 : mark true (PDot f w d) R) by (apply mark_block; auto 8).
  destruct (first_some pick (run re_dot T [])) as [[r cs]|] eqn:E; [|exfalso; exact (proj1 (dot_none _) E f w d R M0 eq_refl)].
  apply dot_some in E as (f1 & w1 & b1 & M1 & P1 & Et & _). unfold T in Et. pose proof M1 as M1'. apply mark_block in M1' as (_ & Cf1 & Fw1 & Nb1 & El1).
  assert (f1 = f) as ->. { rewrite !source_dot in Et. apply app_len_eq in Et as [-> _]; [reflexivity|now apply fence_len]. }
  assert (Eq : w ++ 10%N :: d ++ 10%N :: s "```" ++ R = w1 ++ 10%N :: b1 ++ 10%N :: s "```" ++ r) by (rewrite !source_dot in Et; now apply app_inv_head in Et).
  assert (r = R) as ->.
  { destruct (P1 f w d R M0 Et) as [L|[L1 L2]].
    - assert (X : exists w4, w1 = w ++ 10%N :: w4 /\ d ++ 10%N :: s "```" ++ R = w4 ++ 10%N :: b1 ++ 10%N :: s "```" ++ r).
      { apply app_split in Eq as (m & -> & E); [|lia]. destruct m as [|c m]; [rewrite app_nil_r in L; lia|]. injection E as <- E. eauto. }
      destruct X as (w4 & -> & E4). apply Forall_app in Fw1 as [_ Fw4]. inversion Fw4 as [|? ? _ Fw4']; subst.
      assert (Done : Forall (fun c => is_ws c = true) d -> forall b', b' <> [] -> b' ++ 10%N :: s "```" ++ r = s "```" ++ R -> False).
      { intros W b' Nb' E. destruct (ticks_closer b' r R Nb' E) as (u & Eu). apply (White W u r). split; auto. }
      destruct (Nat.le_gt_cases (length d) (length w4)) as [L4|L4].
      + exfalso. apply app_split in E4 as (m & -> & E4); [|exact L4]. apply Forall_app in Fw4' as [Wd Wm]. destruct m as [|c m].
        * injection E4 as E4. apply (Done Wd b1 Nb1). symmetry. exact E4.
        * injection E4 as <- E4. destruct m as [|c m]; [discriminate E4|]. injection E4 as <- E4. apply Forall_inv_tail, Forall_inv in Wm. discriminate Wm.
      + symmetry in E4. apply app_split in E4 as (m & Em & E4); [|lia]. destruct m as [|c m]; [rewrite app_nil_r in Em; rewrite Em in L4; lia|]. injection E4 as <- E4.
        destruct (Nat.lt_trichotomy (length b1) (length m)) as [Lb|[Lb|Lb]].
        * exfalso. assert (X : length d <= length (w4 ++ 10%N :: b1)). { apply (In_d _ r El1). rewrite Em. rewrite <- !app_assoc. cbn [app]. f_equal. f_equal. symmetry. exact E4. }
          rewrite Em in X. rewrite !app_length in X. cbn [length] in X. lia.
        * apply app_len_eq in E4 as [_ E4]; [|exact Lb]. injection E4 as E4. auto.
        * exfalso. destruct m as [|c m].
          -- cbn [app] in E4. destruct b1 as [|c b1]; [congruence|]. injection E4 as -> E4. assert (Wd : Forall (fun c => is_ws c = true) d) by (rewrite Em; apply Forall_app; split; [exact Fw4'|repeat constructor]).
             destruct b1 as [|c b1]; [discriminate E4|]. apply (Done Wd (c :: b1)); [discriminate|exact E4].
          -- destruct (P1 f (w ++ 10%N :: w4) (c :: m) R) as [L'|[_ L']]; [| |lia|cbn [length] in *; lia].
             ++ apply mark_block. split; auto. split; auto. split; [|split; [discriminate|exact ElR]]. apply Forall_app. split; [exact Fw|exact Fw4].
             ++ rewrite <- Et. rewrite !source_dot, Em. flat. reflexivity.
    - apply app_len_eq in Eq as [-> Eq]; [|exact L1]. injection Eq as Eq. pose proof (In_d b1 r El1 Eq) as L3. apply app_len_eq in Eq as [_ Eq]; [|lia]. injection Eq as Eq. auto. }
  exists w1, b1. split; [exact M1|]. split; [exact P1|]. apply (app_inv_tail (10%N :: s "```" ++ R)). rewrite <- !app_assoc. exact Eq.
Qed.

(** ** The whole text *)
Lemma chars_cut R ks : cut2 false R ks -> forall o b, ~ In 10%N o -> o <> [] -> (b = true -> hd 0%N o <> 96%N) -> cut2 b (o ++ R) (map PChar o ++ ks).
Proof.
  intros C. induction o as [|c o IH]; intros b Nn Ne Hd; [congruence|]. cbn [app map]. constructor.
  - intros Eb f w b0 q Mk E. apply mark_block in Mk as (_ & Cf & _). destruct (fence_shape f Cf) as (d & x & y & -> & _). rewrite source_dot in E. injection E as E _. cbn [hd] in Hd. apply (Hd Eb). congruence.
  - assert (X : (c =? 10)%N = false) by (apply N.eqb_neq; intros ->; apply Nn; now left). rewrite X. destruct o as [|c2 o]; [exact C|]. apply IH; [intros I; apply Nn; now right|discriminate|discriminate].
Qed.
Lemma chars_val viz o : concat (map (val2 viz) (map PChar o)) = o.
Proof. induction o as [|c o IH]; [reflexivity|]. cbn [map concat val2 app]. now rewrite IH. Qed.

Lemma most_white f w b r : mark true (PDot f w b) r -> preferred true (PDot f w b) r -> forall u v, b = u ++ 10%N :: v -> Forall (fun c => is_ws c = true) u -> v = [].
Proof.
  intros Mk Pf u v -> Fu. destruct v as [|c v]; [reflexivity|exfalso]. apply mark_block in Mk as (_ & Cf & Fw & _ & El).
  assert (X : length (w ++ 10%N :: u) < length w \/ length (w ++ 10%N :: u) = length w /\ length (u ++ 10%N :: c :: v) <= length (c :: v)).
  { apply (Pf f (w ++ 10%N :: u) (c :: v) r).
    - constructor; auto; [|discriminate]. apply Forall_app. split; [exact Fw|]. constructor; [reflexivity|exact Fu].
    - cbn [source]. flat. reflexivity. }
  rewrite app_length in X. cbn [length] in X. lia.
Qed.
Definition second (viz : str -> str) (ko : piece * str) (o' : str) : Prop :=
  match fst ko with
  | PDot f w b => exists d w1 b1, snd ko = f ++ w ++ 10%N :: d ++ 10%N :: s "```" /\ Forall (fun c => is_ws c = true) w1 /\ b1 <> [] /\ w ++ 10%N :: d = w1 ++ 10%N :: b1 /\
      (forall u v, b1 = u ++ 10%N :: v -> Forall (fun c => is_ws c = true) u -> v = []) /\ o' = view_dot viz (b1 ++ [10%N])
  | _ => o' = snd ko
  end.
Lemma second_pass viz b t ks : cut b t ks -> Forall plain_block ks -> forall os, Forall2 outp ks os ->
  exists ks2 os2, cut2 b (concat os) ks2 /\ concat (map (val2 viz) ks2) = concat os2 /\ Forall2 (second viz) (combine ks os) os2.
Proof.
  induction 1 as [b|b k rest ks Mk Pf C IH|b c rest ks N C IH]; intros P os F.
  - inversion F; subst. exists [], []. repeat constructor.
  - inversion P as [|? ? Pk P']; subst. inversion F as [|? o ? os' I F']; subst. destruct (IH P' os' F') as (ks2 & os2 & C2 & E2 & F2). destruct I as [c|k o t (u & Es) -> Nn|f w b' kb ds Ck Fi]; [inversion Mk| |].
    + exists (map PChar (60%N :: t) ++ ks2), ((60%N :: t) :: os2). cbn [concat]. split; [apply chars_cut; auto; [discriminate|cbn [hd]; discriminate]|]. split; [rewrite map_app, concat_app, chars_val, E2; reflexivity|].
      cbn [combine]. constructor; [|exact F2]. unfold second. cbn [fst snd]. destruct k as [c| | |f w b']; try reflexivity. exfalso. apply mark_block in Mk as (_ & Cf & _). destruct (fence_shape f Cf) as (d & x & y & -> & _). discriminate Es.
    + assert (b = true) as -> by (now apply mark_block in Mk). destruct (block_again f w b' rest kb ds ks os' Mk Pf Pk Ck Fi C F') as (w1 & b1 & M1 & P1 & E).
      exists (PDot f w1 b1 :: ks2), (view_dot viz (b1 ++ [10%N]) :: os2). cbn [concat]. split; [|split].
      * assert (X : (f ++ w ++ 10%N :: concat ds ++ 10%N :: s "```") ++ concat os' = source (PDot f w1 b1) ++ concat os').
        { f_equal. cbn [source]. f_equal. change (w ++ (10%N :: concat ds) ++ 10%N :: s "```" = w1 ++ (10%N :: b1) ++ 10%N :: s "```"). rewrite !app_assoc. now rewrite E. }
        rewrite X. now constructor.
      * cbn [map concat val2]. now rewrite E2.
      * cbn [combine]. constructor; [|exact F2]. unfold second. cbn [fst snd]. exists (concat ds), w1, b1. assert (Bl : forall u v, b1 = u ++ 10%N :: v -> Forall (fun c => is_ws c = true) u -> v = []) by (eapply most_white; eauto). apply mark_block in M1 as (_ & _ & Fw1 & Nb1 & _). auto 8.
  - inversion P as [|? ? Pk P']; subst. inversion F as [|? o ? os' I F']; subst. destruct (IH P' os' F') as (ks2 & os2 & C2 & E2 & F2).
    inversion I as [c'|k' o' t (u & Es)|]; subst; [|discriminate Es]. exists (PChar c :: ks2), ([c] :: os2). cbn [concat app]. split; [|split].
    + constructor; [|exact C2]. intros ->. eapply char_no_block; eauto.
    + cbn [map concat val2 app]. now rewrite E2.
    + cbn [combine]. constructor; [reflexivity|exact F2].
Qed.

(** ** The pieces of a rendered text are of that form *)
Lemma free_app (d : char) x y : ~ In d x -> ~ In d y -> ~ In d (x ++ y).
Proof. rewrite in_app_iff. tauto. Qed.
Lemma free_lit (d : char) x : forallb (fun c => negb (N.eqb c d)) x = true -> ~ In d x.
Proof. rewrite forallb_forall. intros F I. specialize (F d I). rewrite N.eqb_refl in F. discriminate F. Qed.
Definition line_ch (d : char) : Prop := d = 10%N \/ d = 96%N.
Lemma free_name d x : line_ch d -> valid_name x \/ longs_name x -> ~ In d x.
Proof. intros D V I. apply (name_no_special x V) in I. destruct D; subst; unfold word_char in I; lia. Qed.
Lemma free_sub d y : line_ch d -> y = [] \/ valid_sub y -> ~ In d y.
Proof.
  intros D [->|V]; [intros []|]. apply valid_sub_chars in V as (z & -> & _ & F). rewrite Forall_forall in F. intros [I|I]; [destruct D; subst; discriminate|]. apply F in I. destruct D; subst; unfold word_char, c_dash in I; lia.
Qed.
Lemma free_upper d x : line_ch d -> ~ In d x -> ~ In d (upper x).
Proof. intros D N I. unfold upper in I. apply in_map_iff in I as (c & E & I). unfold upc, is_lower in E. destruct (_ && _)%bool eqn:L; [destruct D; subst; lia|subst; auto]. Qed.
Lemma free_lower d x : line_ch d -> ~ In d x -> ~ In d (map lowc x).
Proof. intros D N I. apply in_map_iff in I as (c & E & I). unfold lowc, is_upper in E. destruct (_ && _)%bool eqn:L; [destruct D; subst; lia|subst; auto]. Qed.
Lemma free_decimal d n x : line_ch d -> decimal n x -> ~ In d x.
Proof. intros D (_ & F & _) I. rewrite Forall_forall in F. apply F in I. destruct D; subst; lia. Qed.
Lemma free_shade d a b x : line_ch d -> shade a b x -> ~ In d x.
Proof.
  intros D (i & j & _ & _ & E). apply nth_error_In in E. destruct D as [->| ->]; cbn [In] in E;
    repeat (destruct E as [<-|E]; [apply free_lit; reflexivity|]); destruct E.
Qed.
Lemma free_trim d b x : ~ In d x -> ~ In d (trim_base b x).
Proof.
  unfold trim_base. intros N. destruct (starts_with x b); [|exact N].
  assert (S : ~ In d (skipn (length b) x)) by (intros I; apply N; rewrite <- (firstn_skipn (length b) x); apply in_or_app; auto).
  destruct (skipn (length b) x) as [|c q]; [exact S|]. destruct (N.eqb c c_slash); [|exact S]. intros I. apply S. now right.
Qed.

Ltac free := repeat (first [assumption | apply free_app | apply free_upper | apply free_lower | (apply free_lit; reflexivity)]).
Section Form.
  Context {M : num} {H : Type}.
  Variable reported : F M -> Z.
  Variable path_str : path -> str.
  Variable strfmt : str -> str -> str -> option str.
  Variable p : project M H.
  Variable base : str.
  Variable url : option str.
  Hypothesis Np : forall n z loc, code_ref (pr_code p) n z loc -> ~ In 10%N (path_str (loc_file loc)).
  Hypothesis Nu : forall u file row o, url = Some u -> ~ In 10%N file -> ~ In 10%N row -> strfmt u file row = Some o -> ~ In 10%N o.
  Notation ms := (view_ms url).

  Lemma ref_html_line x y o : valid_name x \/ longs_name x -> y = [] \/ valid_sub y -> ref_html reported p x y o -> ~ In 10%N o /\ exists t, o = 60%N :: t.
  Proof.
    intros V Y R. assert (L : line_ch 10%N) by now left. pose proof (free_name _ x L V). pose proof (free_sub _ y L Y).
    destruct R as [a col _ Tc|a _ _|_]; (split; [|eexists; reflexivity]); [pose proof (free_shade _ _ _ _ L Tc)| |]; free.
  Qed.
  Lemma sub_html_line parent x o : valid_sub x -> sub_html path_str strfmt p base ms parent x o -> ~ In 10%N o /\ exists t, o = 60%N :: t.
  Proof.
    intros V R. assert (L : line_ch 10%N) by now left. pose proof (free_sub _ x L (or_intror V)).
    destruct R as [_|loc t I _ (d & D & ->)|loc t u h I U (d & D & ->) (d2 & D2 & E)]; (split; [|eexists; reflexivity]); [free| |].
    - destruct I as (n & z & C & _). pose proof (Np _ _ _ C). pose proof (free_decimal _ _ _ L D). free.
    - destruct I as (n & z & C & _). pose proof (Np _ _ _ C). pose proof (free_decimal _ _ _ L D). cbn in U.
      assert (X : ~ In 10%N h). { eapply (Nu u); [exact U| |exact (free_decimal _ _ _ L D2)|exact E]. now apply free_trim. }
      free.
  Qed.
  Lemma indent_free n x : ~ In 96%N x -> ~ In 96%N (indent n x).
  Proof. intros N. unfold indent. apply free_app; [apply free_lit; reflexivity|]. apply free_app; [|exact N]. intros I. apply repeat_spec in I. discriminate I. Qed.
  Lemma node_form id attrs : ~ In 96%N id -> Forall (fun x => ~ In 96%N x) attrs ->
    In 123%N (node id attrs) /\ ~ In 96%N (node id attrs) /\ (forall u, node id attrs <> u ++ [10%N]) /\ exists t, node id attrs = 10%N :: t.
  Proof.
    intros Ni Fa. split; [|split; [|split]].
    - unfold node. apply in_or_app. left. unfold indent. apply in_or_app. right. apply in_or_app. right. now left.
    - unfold node. repeat (apply free_app || apply indent_free); free.
      induction Fa as [|x l Nx F IH]; cbn [map concat]; [intros []|]. apply free_app; [now apply indent_free|exact IH].
    - intros u E. apply (f_equal (@rev N)) in E. rewrite rev_app_distr in E. unfold node in E. rewrite !app_assoc in E. rewrite rev_app_distr in E. cbn in E. discriminate E.
    - unfold node, indent at 1. eexists. reflexivity.
  Qed.
  Lemma graph_inp parent b kb ds : cut true b kb -> Forall2 (graph_piece reported p parent) kb ds -> Forall2 inp kb ds.
  Proof.
    intros C F. pose proof (cut_fit _ _ _ C) as Ff. clear C. induction F as [|k o kb ds G F IH]; [constructor|]. inversion Ff as [|? ? Fk Ff']; subst. constructor; [|auto].
    assert (L : line_ch 96%N) by now right.
    destruct G as [c|x o _ G|x y o V G]; [constructor| |].
    - cbn [fit] in Fk. pose proof (free_sub _ x L (or_intror Fk)).
      assert (X : exists attrs, o = node (upper x) attrs /\ Forall (fun x => ~ In 96%N x) attrs).
      { destruct G; (eexists; split; [reflexivity|]); repeat (apply Forall_cons || apply Forall_nil); free. }
      destruct X as (attrs & -> & Fa). assert (Ni : ~ In 96%N (upper x)) by free. destruct (node_form (upper x) attrs Ni Fa) as (N1 & N2 & N3 & N4). constructor; auto; [discriminate|]. exists x. reflexivity.
    - cbn [fit] in Fk. destruct Fk as [Vx Vy]. pose proof (free_sub _ y L Vy). pose proof (free_name _ x L Vx).
      assert (X : exists attrs, o = node (upper (x ++ y)) attrs /\ Forall (fun x => ~ In 96%N x) attrs).
      { destruct G as [a col _ Tc|_]; [pose proof (free_shade _ _ _ _ L Tc)|]; (eexists; split; [reflexivity|]); repeat (apply Forall_cons || apply Forall_nil); free. }
      destruct X as (attrs & -> & Fa). assert (Ni : ~ In 96%N (upper (x ++ y))) by free. destruct (node_form (upper (x ++ y)) attrs Ni Fa) as (N1 & N2 & N3 & N4). constructor; auto; [discriminate|]. exists (x ++ y). cbn [source]. now rewrite <- !app_assoc.
  Qed.
  Lemma shown_outp parent b t ks os : cut b t ks -> Forall2 (shown reported path_str strfmt p base ms parent) ks os -> Forall2 outp ks os.
  Proof.
    intros C F. pose proof (cut_fit _ _ _ C) as Ff. clear C. induction F as [|k o ks os G F IH]; [constructor|]. inversion Ff as [|? ? Fk Ff']; subst. constructor; [|auto].
    destruct G as [c|x o _ G|x y o V G|f w b0 o _ (kb & ds & C & F2 & ->)|f w b0 o X _|f w b0 o pre post X _]; try discriminate X; [constructor| | |].
    - cbn [fit] in Fk. destruct (sub_html_line _ _ _ Fk G) as (N & t' & ->). eapply OHtml; [|reflexivity|exact N]. eexists. reflexivity.
    - cbn [fit] in Fk. destruct Fk as [Vx Vy]. destruct (ref_html_line _ _ _ Vx Vy G) as (N & t' & ->). eapply OHtml; [|reflexivity|exact N]. eexists. reflexivity.
    - apply ODot with (kb := kb); [exact C|]. eapply graph_inp; eauto.
  Qed.
  Lemma second_seen viz parent : forall ks os os2, Forall2 (shown reported path_str strfmt p base ms parent) ks os -> Forall2 (second viz) (combine ks os) os2 ->
    Forall2 (seen viz reported path_str strfmt p base ms parent) ks os2.
  Proof.
    intros ks os os2 F. revert os2. induction F as [|k o ks os G F IH]; intros os2 F2; cbn [combine] in F2; inversion F2 as [|? o2 ? os2' S F2']; subst; constructor; auto.
    unfold second in S. cbn [fst snd] in S. destruct k as [c|x|x y|f w b0]; [subst; apply VOther; auto; discriminate..|].
    destruct S as (d & w1 & b1 & E & Fw & Nb & E1 & Bl & ->). inversion G as [| | |f' w' b' o' _ Gr|f' w' b' o' X _|f' w' b' o' pre post X _]; subst; try discriminate X.
    unfold view_dot. apply VGraph with (o := d) (w' := w1); auto.
    assert (X : w ++ [10%N] ++ o' ++ [10%N] ++ s "```" = w ++ 10%N :: d ++ 10%N :: s "```") by (apply (app_inv_head f); assumption).
    apply app_inv_head in X. cbn [app] in X. assert (Y : o' ++ 10%N :: s "```" = d ++ 10%N :: s "```") by congruence. apply app_inv_tail in Y. now subst.
  Qed.
  Theorem view_ok viz parent t ks : (forall o, replace_markdown reported path_str strfmt p base ms parent t = Ok o <-> exists os, Forall2 (shown reported path_str strfmt p base ms parent) ks os /\ o = concat os) ->
    cut true t ks -> Forall plain_block ks -> forall o, replace_markdown reported path_str strfmt p base ms parent t = Ok o ->
    exists os2, Forall2 (seen viz reported path_str strfmt p base ms parent) ks os2 /\ view_replace viz o = Ok (concat os2).
  Proof.
    intros R C P o E. apply R in E as (os & F & ->). destruct (second_pass viz true t ks C P os (shown_outp _ _ _ _ _ C F)) as (ks2 & os2 & C2 & E2 & F2).
    exists os2. split; [eapply second_seen; eauto|]. unfold view_replace. rewrite (view_values viz true _ ks2 C2 _ (le_n _)). now rewrite E2.
  Qed.
  Lemma view_total viz : forall n bol t, exists o, view_from viz n bol t = Ok o.
  Proof.
    induction n as [|n IH]; intros bol t; cbn [view_from]; [eauto|]. destruct (view_here bol t) as [[r d]|] eqn:E.
    - destruct bol; [|discriminate E]. apply view_some in E as (f & w & b & _ & _ & _ & ->). destruct (IH false r) as (o & ->). cbn [res_bind]. eauto.
    - destruct t as [|c t]; [eauto|]. destruct (IH (N.eqb c c_nl) t) as (o & ->). cbn [res_bind]. eauto.
  Qed.
  Hypothesis W1 : arts_wf (pr_arts p).
  Hypothesis W2 : code_ok (pr_code p).
  Lemma seen_unique viz parent k o1 o2 : fit k -> seen viz reported path_str strfmt p base ms parent k o1 -> seen viz reported path_str strfmt p base ms parent k o2 -> o1 = o2.
  Proof.
    intros Fk S1 S2.
    assert (U : forall x y, shown reported path_str strfmt p base ms parent k x -> shown reported path_str strfmt p base ms parent k y -> x = y).
    { destruct (text_piece reported path_str strfmt p base ms W1 W2 parent k Fk) as [(o & _ & _ & U)|(_ & _ & Ns)]; intros x y X Y; [apply U in X, Y; congruence|exfalso; eapply Ns; eauto]. }
    destruct S1 as [f w b g w1 x1 G1 F1 N1 E1 L1|k o1 Nk Sh1].
    - inversion S2 as [f' w' b' g2 w2 x2 G2 F2 N2 E2 L2|k o Nk _]; subst; [|exfalso; now apply (Nk f w b)].
      assert (X : f ++ w ++ [10%N] ++ g ++ [10%N] ++ s "```" = f ++ w ++ [10%N] ++ g2 ++ [10%N] ++ s "```") by (apply U; now constructor).
      do 3 apply app_inv_head in X. apply app_inv_tail in X. subst g2. clear U S2 G1 G2.
      assert (V : forall w1 x1 w2 x2, Forall (fun c => is_ws c = true) w2 -> x2 <> [] -> (forall u v, x1 = u ++ [10%N] ++ v -> Forall (fun c => is_ws c = true) u -> v = []) ->
                  w1 ++ [10%N] ++ x1 = w2 ++ [10%N] ++ x2 -> length w1 < length w2 -> False).
      { clear. intros w1 x1 w2 x2 F2 N2 L1 E L. assert (exists m, w2 = w1 ++ m /\ [10%N] ++ x1 = m ++ [10%N] ++ x2) as (m & -> & Em) by (apply app_split; [exact E|lia]).
        destruct m as [|c m]; [rewrite app_nil_r in L; lia|]. cbn [app] in Em. injection Em as <- Em. apply Forall_app in F2 as [_ F2]. inversion F2; subst. apply N2. eapply L1; [reflexivity|assumption]. }
      assert (E : w1 ++ [10%N] ++ x1 = w2 ++ [10%N] ++ x2) by congruence.
      assert (L : length w1 = length w2). { destruct (Nat.lt_trichotomy (length w1) (length w2)) as [L|[L|L]]; [exfalso; eapply (V w1 x1 w2 x2); eauto|exact L|exfalso; eapply (V w2 x2 w1 x1); eauto]. }
      assert (exists m, w2 = w1 ++ m /\ [10%N] ++ x1 = m ++ [10%N] ++ x2) as (m & -> & Em) by (apply app_split; [exact E|lia]).
      rewrite app_length in L. assert (m = []) as -> by (destruct m; [reflexivity|cbn in L; lia]). cbn [app] in Em. congruence.
    - inversion S2 as [f' w' b' g2 w2 x2 G2 F2 N2 E2 L2|k' o' _ Sh2]; subst; [exfalso; eapply Nk; reflexivity|]. auto.
  Qed.
  Lemma seen_shown viz parent k o : seen viz reported path_str strfmt p base ms parent k o -> exists o', shown reported path_str strfmt p base ms parent k o'.
  Proof. intros [f w b g w1 x1 G _ _ _ _|k' o' _ Sh]; [|eauto]. eexists. apply SIgnore; [reflexivity|exact G]. Qed.
  Lemma seen_all viz parent t ks : cut true t ks -> Forall plain_block ks ->
    (forall o, view_text viz reported path_str strfmt p base url parent t = Ok o <-> exists os, Forall2 (seen viz reported path_str strfmt p base ms parent) ks os /\ o = concat os) /\
    (view_text viz reported path_str strfmt p base url parent t = Panic <-> exists k, In k ks /\ broken path_str strfmt p base ms parent k) /\
    view_text viz reported path_str strfmt p base url parent t <> Err.
  Proof.
    intros C P. destruct (render_ok reported path_str strfmt p base ms W1 W2 parent t ks C) as (R & Rp & Re). pose proof (cut_fit _ _ _ C) as Ff. rewrite Forall_forall in Ff.
    unfold view_text. split; [|split].
    - intros o. split.
      + pose proof (view_ok viz parent t ks R C P) as V. destruct (replace_markdown _ _ _ _ _ _ _ _) as [o1| |] eqn:E; cbn [res_bind]; [|discriminate..]. destruct (V o1 eq_refl) as (os2 & F & ->). intros X. exists os2. split; [exact F|congruence].
      + intros (os & F & ->).
        assert (X : exists os', Forall2 (shown reported path_str strfmt p base ms parent) ks os').
        { clear - F. induction F as [|k o ks os S F (os' & IH)]; [exists []; constructor|]. apply seen_shown in S as (o' & S). exists (o' :: os'). now constructor. }
        destruct X as (os' & F'). assert (E : replace_markdown reported path_str strfmt p base ms parent t = Ok (concat os')) by (apply R; eauto).
        destruct (view_ok viz parent t ks R C P _ E) as (os2 & F2 & Ev). rewrite E. cbn [res_bind]. rewrite Ev. f_equal. f_equal. symmetry.
        apply (Forall2_unique (seen viz reported path_str strfmt p base ms parent) ks); auto. intros k Hk x y. apply seen_unique. auto.
    - rewrite <- Rp. destruct (replace_markdown _ _ _ _ _ _ _ _) as [o1| |] eqn:E; cbn [res_bind]; [|split; congruence..]. unfold view_replace. destruct (view_total viz (length o1) true o1) as (o & ->). split; discriminate.
    - destruct (replace_markdown _ _ _ _ _ _ _ _) as [o1| |] eqn:E; cbn [res_bind]; [|congruence..]. unfold view_replace. destruct (view_total viz (length o1) true o1) as (o & ->). discriminate.
  Qed.
End Form.
