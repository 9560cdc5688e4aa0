(** A walk that races with the threads that rename or remove what it finds delivers what a walk
    before all of that would have, but for files that are gone when it comes by again. *)
From Coq Require Import Permutation Relation_Operators Lia.
From Verif Require Import Base BaseFacts Name Artifact SpecGraph Stored Markdown Lint Load Disk DiskFacts Walk WalkFacts SpecWalk Modify SpecModify PhaseFacts ReloadFacts WalkRace.

(** Two lists without repetitions. *)
Lemma flat_map_nil {A B} (g : A -> list B) l : (forall x, In x l -> g x = []) -> flat_map g l = [].
Proof. induction l as [|x l IH]; intros Hl; cbn [flat_map]; auto. rewrite Hl by now left. apply IH. intros y Hy. apply Hl. now right. Qed.
Lemma flat_map_ext_in {A B} (g h : A -> list B) l : (forall x, In x l -> g x = h x) -> flat_map g l = flat_map h l.
Proof. induction l as [|x l IH]; intros Hl; cbn [flat_map]; auto. rewrite Hl by now left. f_equal. apply IH. intros y Hy. apply Hl. now right. Qed.
Lemma exchange {A B} (dec : forall x y : A, {x = y} + {x <> y}) (g : A -> list B) b : forall a, NoDup a -> NoDup b -> (forall x, In x b -> ~ In x a -> g x = []) ->
  exists c, (forall x, In x c -> In x a /\ ~ In x b) /\ Permutation (flat_map g a) (flat_map g b ++ flat_map g c).
Proof.
  induction b as [|x b IH]; intros a Na Nb Hg.
  - exists a. split; [auto|]. apply Permutation_refl.
  - inversion Nb as [|? ? Nx Nb']; subst. destruct (in_dec dec x a) as [Hx|Hx].
    + apply in_split in Hx as (a1 & a2 & ->). pose proof (NoDup_remove _ _ _ Na) as [Na' Nx'].
      destruct (IH (a1 ++ a2) Na' Nb') as (c & Hc & P).
      { intros y Hy Ny. apply Hg; [now right|]. intros Hy'. apply in_app_or in Hy' as [Hy'|[<-|Hy']]; [apply Ny, in_or_app; now left|contradiction|apply Ny, in_or_app; now right]. }
      exists c. split.
      * intros y Hy. destruct (Hc y Hy) as [H1 H2]. split; [apply in_app_or in H1 as [H1|H1]; apply in_or_app; [now left|right; now right]|]. intros [<-|Hb]; [|contradiction]. apply Nx'. exact H1.
      * cbn [flat_map]. rewrite <- app_assoc. eapply Permutation_trans; [|apply Permutation_app_head; exact P]. rewrite !flat_map_app. cbn [flat_map]. rewrite !app_assoc. apply Permutation_app_tail, Permutation_app_comm.
    + destruct (IH a Na Nb') as (c & Hc & P); [intros y Hy; apply Hg; now right|]. exists c. split.
      * intros y Hy. destruct (Hc y Hy) as [H1 H2]. split; auto. intros [<-|Hb]; contradiction.
      * cbn [flat_map]. rewrite (Hg x) by (auto; now left). exact P.
Qed.

(** Four numbers that go down in turn. *)
Lemma lex_acc {X} (R : X -> X -> Prop) (P : X -> Prop) (a b c d : X -> nat) :
  (forall x y, P x -> R x y -> P y /\ (a y < a x \/ a y = a x /\ (b y < b x \/ b y = b x /\ (c y < c x \/ c y = c x /\ d y < d x)))) ->
  forall x, P x -> Acc (fun y x => R x y) x.
Proof.
  intros St. enough (Z : forall na nb nc nd x, a x = na -> b x = nb -> c x = nc -> d x = nd -> P x -> Acc (fun y x => R x y) x) by eauto.
  induction na as [na IHa] using lt_wf_ind. induction nb as [nb IHb] using lt_wf_ind. induction nc as [nc IHc] using lt_wf_ind. induction nd as [nd IHd] using lt_wf_ind.
  intros x Ea Eb Ec Ed Px. constructor. intros y Ryx. destruct (St x y Px Ryx) as [Py [L|[Q [L|[Q2 [L|[Q3 L]]]]]]].
  - eapply (IHa (a y)); eauto. lia.
  - eapply (IHb (b y)); eauto; lia.
  - eapply (IHc (c y)); eauto; lia.
  - eapply (IHd (d y)); eauto; lia.
Qed.

(** How many directories there are. *)
Fixpoint dirs_in (n : node) : nat :=
  match n with NFile _ => 0 | NDir l => S ((fix sum (l : list (str * node)) := match l with [] => 0 | (_, c) :: l' => dirs_in c + sum l' end) l) end.

Section Race.
  Variable filter : bool -> path -> bool.
  Variable does : node -> list lint -> path -> node -> list lint -> Prop.
  Notation rstep := (rstep filter does).

  (** One file after the other. *)
  Inductive exec : node -> list lint -> list path -> node -> list lint -> Prop :=
  | ex_nil t g : exec t g [] t g
  | ex_do t g p t1 g1 l t' g' : does t g p t1 g1 -> exec t1 g1 l t' g' -> exec t g (p :: l) t' g'
  | ex_gone t g p l t' g' : lookup t p = None -> exec t g l t' g' -> exec t g (p :: l) t' g'.
  Lemma exec_app t g a t1 g1 b t' g' : exec t g a t1 g1 -> exec t1 g1 b t' g' -> exec t g (a ++ b) t' g'.
  Proof. induction 1; cbn [app]; auto; intros X; [eapply ex_do|eapply ex_gone]; eauto. Qed.
  Lemma exec_gone t g l : (forall p, In p l -> lookup t p = None) -> exec t g l t g.
  Proof. induction l as [|p l IH]; intros Hl; [constructor|]. apply ex_gone; [apply Hl; now left|apply IH; intros q Hq; apply Hl; now right]. Qed.

  (** What the walk finds below a path in the first tree. *)
  Variable E : disk_errs.
  Hypothesis Es : forall q, e_stat E q = None.
  Hypothesis Eo : forall q, e_open E q = None.
  Variable t0 : node.
  Hypothesis T0 : tree_ok t0.
  Notation walk_node := (walk_node (e_stat E) (e_open E) filter).
  Definition under (p : path) : list path := match lookup t0 p with Some n => fst (walk_node p n) | None => [] end.

  Lemma goes_all p l : fst (goes (e_stat E) (e_open E) filter p l) = flat_map (fun e => fst (walk_node (p ++ [fst e]) (snd e))) l.
  Proof.
    induction l as [|[x c] l IH]; [reflexivity|]. rewrite goes_cons. cbn [flat_map fst snd]. pose proof (walk_no_error E Es Eo filter (p ++ [x]) c) as X.
    destruct (walk_node (p ++ [x]) c) as [fs e]. cbn [fst snd] in *. subst e. destruct (goes (e_stat E) (e_open E) filter p l) as [fs' e']. cbn [fst] in *. now rewrite IH.
  Qed.
  Lemma child t p l x c : tree_ok t -> lookup t p = Some (NDir l) -> In (x, c) l -> lookup t (p ++ [x]) = Some c.
  Proof.
    intros T L Hx. rewrite lookup_app, L. cbn [lookup]. apply (lookup_ok _ _ _ T), tree_ok_dir in L as [N _]. rewrite (in_assoc x l c N Hx). now destruct c.
  Qed.
  Lemma under_dir p l : lookup t0 p = Some (NDir l) -> filter true p = true -> under p = flat_map (fun x => under (p ++ [x])) (map fst l).
  Proof.
    intros L F. unfold under at 1. rewrite L, walk_dir, Es, F, Eo, goes_all, flat_map_concat_map, flat_map_concat_map, map_map. f_equal. apply map_ext_in. intros [x c] Hx. cbn [fst snd]. unfold under. now rewrite (child t0 p l x c T0 L Hx).
  Qed.
  Lemma under_skip d p : filter d p = false -> is_dir (lookup t0 p) = d -> under p = [].
  Proof.
    intros F D. unfold under. destruct (lookup t0 p) as [[c|l]|]; cbn [is_dir] in D; subst d; auto.
    - cbn [Walk.walk_node]. now rewrite Es, F.
    - rewrite walk_dir, Es, F. reflexivity.
  Qed.
  Lemma under_file p : filter false p = true -> file_at t0 p <> None -> under p = [p].
  Proof.
    intros F D. unfold under, file_at in *. destruct (lookup t0 p) as [[c|l]|]; try contradiction. cbn [Walk.walk_node]. now rewrite Es, F.
  Qed.

  Variable roots : list path.
  Hypothesis Rd : forall r, In r roots -> is_dir (lookup t0 r) = true.
  (** What the threads may have made of the tree. *)
  Definition fair (t : node) : Prop :=
    tree_ok t /\ same_dirs t0 t /\ forall p, filter false p = true -> file_at t p <> None -> file_at t0 p <> None.
  Hypothesis good : forall l rest t g, Permutation (flat_map under roots) (l ++ rest) -> exec t0 [] l t g -> fair t.

  Definition future (k : list (path * bool)) (rs : list path) : list path := flat_map under (map fst k) ++ flat_map under rs.
  Definition entry_ok (e : path * bool) : Prop :=
    is_dir (lookup t0 (fst e)) = snd e /\ (snd e = false -> filter false (fst e) = true -> file_at t0 (fst e) <> None).
  Definition sim (x : race) : Prop :=
    (forall e, In e (rc_stack x) -> entry_ok e) /\ (forall r, In r (rc_roots x) -> In r roots) /\
    exists l, Permutation (flat_map under roots) (l ++ rc_found x ++ future (rc_stack x) (rc_roots x)) /\ exec t0 [] l (rc_tree x) (rc_got x).

  Lemma sim_step x y : rstep x y -> sim x -> sim y.
  Proof.
    intros S (Hk & Hr & l & P & X). assert (Fa : fair (rc_tree x)) by (eapply good; eauto).
    destruct S as [t r rs f g D|t p lst lst' k rs f g L F Pl|t p d k rs f g F|t p k rs f g F|t p k rs f g L|t k rs f1 p f2 g t' g' W]; unfold sim in *; cbn [rc_tree rc_stack rc_roots rc_found rc_got] in *.
    - split; [|split].
      + intros e [<-|[]]. split; [apply Rd, Hr; now left|discriminate].
      + intros r' H'. apply Hr. now right.
      + exists l. split; auto. eapply Permutation_trans; [exact P|]. unfold future. cbn [map flat_map fst app]. rewrite app_nil_r. apply Permutation_refl.
    - destruct Fa as (Tt & Sd & Ff). assert (D0 : is_dir (lookup t0 p) = true) by (rewrite <- Sd, L; reflexivity).
      destruct (lookup t0 p) as [[c|l0]|] eqn:L0; try discriminate D0.
      assert (Nl : NoDup (map fst lst')) by (eapply Permutation_NoDup; [apply Permutation_map, Pl|]; apply (lookup_ok _ _ _ Tt), tree_ok_dir in L; apply L).
      assert (Nl0 : NoDup (map fst l0)) by (pose proof L0 as Z; apply (lookup_ok _ _ _ T0), tree_ok_dir in Z; apply Z).
      destruct (exchange (list_eq_dec N.eq_dec) (fun x => under (p ++ [x])) (map fst lst') (map fst l0) Nl0 Nl) as (c & Hc & Pc).
      { intros x _ Nx. unfold under. rewrite lookup_app, L0. cbn [lookup]. apply assoc_none in Nx. now rewrite Nx. }
      split; [|split; auto].
      + intros e He. apply in_app_or in He as [He|He]; [|apply Hk; now right]. apply in_map_iff in He as ([x d] & <- & He). apply (Permutation_in _ (Permutation_sym Pl)) in He.
        pose proof (child t p lst x d Tt L He) as C. unfold entry_ok, listed. cbn [fst snd]. split; [now rewrite <- Sd, C|]. intros Nd Fx. apply Ff; auto. unfold file_at. rewrite C. destruct d; [discriminate|discriminate Nd].
      + exists (l ++ flat_map (fun x => under (p ++ [x])) c). split.
        * eapply Permutation_trans; [exact P|]. rewrite <- app_assoc. apply Permutation_app_head.
          unfold future. cbn [map flat_map fst]. rewrite (under_dir p l0 L0 F). rewrite map_app, flat_map_app, map_map.
          assert (Q : flat_map under (map (fun e => fst (listed p e)) lst') = flat_map (fun x => under (p ++ [x])) (map fst lst')).
          { rewrite !flat_map_concat_map, !map_map. reflexivity. }
          rewrite Q. clear Q. set (A := flat_map _ (map fst l0)) in *. set (B := flat_map _ (map fst lst')) in *. set (C := flat_map _ c) in *.
          rewrite !app_assoc. apply Permutation_app_tail. rewrite <- !app_assoc. apply Permutation_trans with (f ++ (B ++ C) ++ flat_map under (map fst k)).
          { apply Permutation_app_head. apply Permutation_app_tail. exact Pc. }
          rewrite <- app_assoc. apply Permutation_trans with (f ++ C ++ B ++ flat_map under (map fst k)).
          { apply Permutation_app_head. rewrite !app_assoc. apply Permutation_app_tail, Permutation_app_comm. }
          rewrite !app_assoc. do 2 apply Permutation_app_tail. apply Permutation_app_comm.
        * eapply exec_app; [exact X|]. apply exec_gone. intros q Hq. apply in_flat_map in Hq as (x & Hx & Hq). destruct (Hc x Hx) as [H1 H2].
          assert (Gx : lookup t (p ++ [x]) = None).
          { rewrite lookup_app, L. cbn [lookup]. destruct (assoc x lst) as [d|] eqn:A; auto. apply assoc_in in A. exfalso. apply H2. apply in_map_iff. exists (x, d). split; auto. now apply (Permutation_in _ Pl). }
          unfold under in Hq. pose proof (Sd (p ++ [x])) as Dx. rewrite Gx in Dx. destruct (lookup t0 (p ++ [x])) as [[y|m]|]; [|discriminate Dx|destruct Hq].
          cbn [Walk.walk_node] in Hq. rewrite Es in Hq. destruct (filter false (p ++ [x])); [|destruct Hq]. destruct Hq as [<-|[]]. exact Gx.
    - split; [intros e He; apply Hk; now right|split; auto]. exists l. split; auto. unfold future in P. cbn [map flat_map fst] in P.
      destruct (Hk (p, d) (or_introl eq_refl)) as [D _]. cbn [fst snd] in D. rewrite (under_skip d p F D) in P. exact P.
    - destruct (Hk (p, false) (or_introl eq_refl)) as [_ D]. cbn [fst snd] in D. split; [intros e He; apply Hk; now right|split; auto]. exists l. split; auto.
      unfold future in P. cbn [map flat_map fst] in P. rewrite (under_file p F (D eq_refl F)) in P. unfold future. rewrite <- app_assoc. exact P.
    - destruct (Hk (p, false) (or_introl eq_refl)) as [D1 D2]. cbn [fst snd] in D1, D2. split; [intros e He; apply Hk; now right|split; auto].
      unfold future in P. cbn [map flat_map fst] in P. destruct (filter false p) eqn:F.
      + rewrite (under_file p F (D2 eq_refl eq_refl)) in P. exists (l ++ [p]). split.
        * eapply Permutation_trans; [exact P|]. rewrite <- !app_assoc. apply Permutation_app_head. unfold future. cbn [app]. apply Permutation_sym, Permutation_middle.
        * eapply exec_app; [exact X|]. apply exec_gone. intros q [<-|[]]. exact L.
      + rewrite (under_skip false p F D1) in P. exists l. auto.
    - split; auto. split; auto. exists (l ++ [p]). split.
      + eapply Permutation_trans; [exact P|]. rewrite <- !app_assoc. apply Permutation_app_head. cbn [app]. apply Permutation_sym, Permutation_middle.
      + eapply exec_app; [exact X|]. eapply ex_do; [exact W|constructor].
  Qed.
  (** It never hangs: until all is done, something can happen. *)
  Lemma sim_goes x : (forall t g p, exists t' g', does t g p t' g') -> sim x -> (exists t g, x = mkRace t [] [] [] g) \/ exists y, rstep x y.
  Proof.
    intros Td (Hk & Hr & l & P & X). assert (Fa : fair (rc_tree x)) by (eapply good; eauto). destruct x as [t k rs f g]. cbn [rc_tree rc_stack rc_roots rc_found rc_got] in *.
    destruct Fa as (_ & Sd & _). destruct k as [|[p d] k].
    - destruct rs as [|r rs]; [|right; eexists; apply ra_root; rewrite Sd; apply Rd, Hr; now left].
      destruct f as [|q f]; [left; eauto|]. destruct (Td t g q) as (t' & g' & W). right. exists (mkRace t' [] [] ([] ++ f) g'). apply (ra_work _ _ t [] [] [] q f g t' g' W).
    - right. destruct (Hk (p, d) (or_introl eq_refl)) as [D _]. cbn [fst snd] in D. destruct (filter d p) eqn:F; [|eexists; apply ra_skip; exact F]. destruct d.
      + rewrite <- Sd in D. destruct (lookup t p) as [[c|m]|] eqn:L; try discriminate D. eexists. eapply ra_dir; eauto.
      + eexists. apply ra_file. exact F.
  Qed.
  (** It comes to an end. *)
  Definition weight (p : path) : nat := match lookup t0 p with Some n => dirs_in n | None => 0 end.
  Fixpoint total (l : list path) : nat := match l with [] => 0 | p :: l' => weight p + total l' end.
  Lemma total_app a b : total (a ++ b) = total a + total b.
  Proof. induction a as [|x a IH]; cbn [app total]; auto. rewrite IH. lia. Qed.
  Lemma total_repeat (p : path) l : total (map (fun x => p ++ [x]) l) = length (flat_map (fun x => repeat tt (weight (p ++ [x]))) l).
  Proof. induction l as [|x l IH]; cbn [map total flat_map]; auto. now rewrite app_length, repeat_length, IH. Qed.
  Lemma weight_dir p l : lookup t0 p = Some (NDir l) -> weight p = S (total (map (fun x => p ++ [x]) (map fst l))).
  Proof.
    intros L. unfold weight at 1. rewrite L. cbn [dirs_in]. f_equal. assert (C : forall x c, In (x, c) l -> weight (p ++ [x]) = dirs_in c) by (intros x c Hx; unfold weight; now rewrite (child t0 p l x c T0 L Hx)).
    clear L. induction l as [|[x c] l IH]; cbn [map total fst]; auto. rewrite (C x c) by now left. f_equal. apply IH. intros y d Hy. apply C. now right.
  Qed.
  Definition files_of (k : list (path * bool)) : nat := length (List.filter (fun e => negb (snd e)) k).
  Lemma sim_down x y : sim x -> rstep x y -> sim y /\
    (length (rc_roots y) < length (rc_roots x) \/ length (rc_roots y) = length (rc_roots x) /\
    (total (map fst (rc_stack y)) < total (map fst (rc_stack x)) \/ total (map fst (rc_stack y)) = total (map fst (rc_stack x)) /\
    (files_of (rc_stack y) < files_of (rc_stack x) \/ files_of (rc_stack y) = files_of (rc_stack x) /\ length (rc_found y) < length (rc_found x)))).
  Proof.
    intros Sx S. split; [eapply sim_step; eauto|]. destruct Sx as (Hk & Hr & l & P & X). assert (Fa : fair (rc_tree x)) by (eapply good; eauto).
    assert (One : forall p d k, entry_ok (p, d) -> total (map fst k) < total (map fst ((p, d) :: k)) \/ total (map fst k) = total (map fst ((p, d) :: k)) /\ files_of k < files_of ((p, d) :: k)).
    { intros p d k [D _]. cbn [fst snd] in D. cbn [map total fst]. unfold files_of. cbn [List.filter snd]. destruct d; cbn [negb length].
      - left. destruct (lookup t0 p) as [[c|m]|] eqn:L; try discriminate D. rewrite (weight_dir p m L). lia.
      - right. split; [|lia]. unfold weight. destruct (lookup t0 p) as [[c|m]|]; cbn [dirs_in]; auto. discriminate D. }
    destruct S as [t r rs f g D|t p lst lst' k rs f g L F Pl|t p d k rs f g F|t p k rs f g F|t p k rs f g L|t k rs f1 p f2 g t' g' W]; cbn [rc_tree rc_stack rc_roots rc_found rc_got] in *.
    - left. cbn [length]. lia.
    - right. split; auto. left. destruct Fa as (Tt & Sd & Ff). assert (D0 : is_dir (lookup t0 p) = true) by (rewrite <- Sd, L; reflexivity).
      destruct (lookup t0 p) as [[c|l0]|] eqn:L0; try discriminate D0.
      assert (Nl : NoDup (map fst lst')) by (eapply Permutation_NoDup; [apply Permutation_map, Pl|]; apply (lookup_ok _ _ _ Tt), tree_ok_dir in L; apply L).
      assert (Nl0 : NoDup (map fst l0)) by (pose proof L0 as Z; apply (lookup_ok _ _ _ T0), tree_ok_dir in Z; apply Z).
      destruct (exchange (list_eq_dec N.eq_dec) (fun x => repeat tt (weight (p ++ [x]))) (map fst lst') (map fst l0) Nl0 Nl) as (c & _ & Pc).
      { intros x _ Nx. unfold weight. rewrite lookup_app, L0. cbn [lookup]. apply assoc_none in Nx. now rewrite Nx. }
      apply Permutation_length in Pc. rewrite app_length, <- !total_repeat in Pc.
      cbn [map total fst]. rewrite (weight_dir p l0 L0), map_app, total_app, map_map. assert (Q : map (fun e => fst (listed p e)) lst' = map (fun x => p ++ [x]) (map fst lst')) by (rewrite map_map; reflexivity). rewrite Q. lia.
    - right. split; auto. destruct (One p d k (Hk _ (or_introl eq_refl))) as [Y|[Y Z]]; auto.
    - right. split; auto. destruct (One p false k (Hk _ (or_introl eq_refl))) as [Y|[Y Z]]; auto.
    - right. split; auto. destruct (One p false k (Hk _ (or_introl eq_refl))) as [Y|[Y Z]]; auto.
    - right. split; auto. right. split; auto. right. split; auto. rewrite !app_length. cbn [length]. lia.
  Qed.
  Lemma sim_ends x : sim x -> Acc (fun y x => rstep x y) x.
  Proof. apply (lex_acc rstep sim (fun x => length (rc_roots x)) (fun x => total (map fst (rc_stack x))) (fun x => files_of (rc_stack x)) (fun x => length (rc_found x))). exact sim_down. Qed.
  Lemma sim_start : sim (mkRace t0 [] roots [] []).
  Proof. split; [intros e []|]. split; auto. exists []. split; [apply Permutation_refl|constructor]. Qed.
  (** When all is done, the same was done in some order. *)
  Lemma sim_steps x : clos_refl_trans_1n _ rstep (mkRace t0 [] roots [] []) x -> sim x.
  Proof. assert (Y : forall x y, clos_refl_trans_1n _ rstep x y -> sim x -> sim y) by (induction 1 as [|a b z S1 _ IH]; auto; intros Q; apply IH; eapply sim_step; eauto). intros S. eapply Y; eauto. apply sim_start. Qed.
  Theorem race_seq t g : clos_refl_trans_1n _ rstep (mkRace t0 [] roots [] []) (mkRace t [] [] [] g) -> exists l, Permutation (flat_map under roots) l /\ exec t0 [] l t g.
  Proof.
    intros S. destruct (sim_steps _ S) as (_ & _ & l & P & X). exists l. split; auto. cbn [rc_found rc_stack rc_roots] in P. unfold future in P. cbn [map flat_map app] in P. now rewrite app_nil_r in P.
  Qed.
End Race.

Lemma fair_refl filter t : tree_ok t -> fair filter t t.
Proof. intros T. split; auto. split; auto. intros p. reflexivity. Qed.
(** Each of the files keeps the tree fair, so all of them do. *)
Lemma exec_fair filter (does : node -> list lint -> path -> node -> list lint -> Prop) t0 (P : path -> Prop) :
  (forall t g q t' g', P q -> does t g q t' g' -> fair filter t0 t -> fair filter t0 t') ->
  forall t g l t' g', exec does t g l t' g' -> (forall q, In q l -> P q) -> fair filter t0 t -> fair filter t0 t'.
Proof. intros St t g l t' g' X. induction X; intros Hp F; auto; [apply IHX; [intros z Hz; apply Hp; now right|]; eapply St; eauto; apply Hp; now left|apply IHX; auto; intros z Hz; apply Hp; now right]. Qed.

Section Phases.
  Variable path_str : path -> str.
  Variable M : num.
  Variable H : Type.
  Variable st : settings.
  Variables to_toml to_json : list (name * art_raw) -> str.
  Variable yaml_done : str -> str.
  Variable style : md_attrs.
  Variables E1 E3 : disk_errs.
  Hypothesis Es1 : forall q, e_stat E1 q = None.
  Hypothesis Eo1 : forall q, e_open E1 q = None.
  Hypothesis Es3 : forall q, e_stat E3 q = None.
  Hypothesis Eo3 : forall q, e_open E3 q = None.
  Notation mstep := (mstep path_str M H st to_toml to_json yaml_done style E3).
  Notation to_back_up := (to_back_up path_str st E1).
  Notation to_remove := (to_remove path_str st E3).

  (** What a walk without errors delivers. *)
  Lemma walk_under E filter t roots : (forall q, e_stat E q = None) -> (forall q, e_open E q = None) -> (forall r, In r roots -> is_dir (lookup t r) = true) ->
    walk_paths (e_stat E) (e_open E) (e_none E) path_str filter t roots = map inl (flat_map (under filter E t) roots).
  Proof.
    intros Es Eo R. unfold walk_paths. induction roots as [|r roots IH]; [reflexivity|]. cbn [flat_map]. rewrite map_app, <- IH by (intros z Hz; apply R; now right). f_equal.
    unfold walk_path, under. specialize (R r (or_introl eq_refl)). destruct (lookup t r) as [[c|l]|]; try discriminate R. pose proof (walk_no_error E Es Eo filter r (NDir l)) as X.
    destruct (walk_node (e_stat E) (e_open E) filter r (NDir l)) as [fs e]. cbn [fst snd] in *. subst e. now rewrite app_nil_r.
  Qed.

  Section Back.
    Variable t0 : node.
    Hypothesis T0 : tree_ok t0.
    Hypothesis R0 : forall r, In r (se_arts st) -> is_dir (lookup t0 r) = true.
    Notation flt := (art_filter (se_xarts st)).
    Notation F := (flat_map (under flt E1 t0) (se_arts st)).
    Lemma roots_no_file r : In r (se_arts st) -> file_at t0 r = None.
    Proof. intros Hr. specialize (R0 r Hr). unfold file_at. destruct (lookup t0 r) as [[]|]; auto; discriminate R0. Qed.
    Lemma back_typed q : In q F -> typed q /\ ~ In q (se_arts st).
    Proof.
      intros Hq. destruct (orig_ok path_str st E1 t0 T0 roots_no_file q) as [T [c Fc]]; [|split; auto; intros Hr; apply roots_no_file in Hr; congruence].
      unfold orig, Modify.to_back_up. rewrite walk_under; auto. now apply in_map.
    Qed.
    Lemma back_good l rest t g : Permutation F (l ++ rest) -> exec (backs_up path_str) t0 [] l t g -> fair flt t0 t.
    Proof.
      intros P X. eapply (exec_fair _ _ t0 (fun q => In q F)); [|exact X| |now apply fair_refl]; [|intros q Hq; apply (Permutation_in _ (Permutation_sym P)), in_or_app; now left].
      clear l rest t g P X. intros t g q t' g' Hq D (Tt & Sd & Ff). destruct (back_typed q Hq) as [Ty _].
      assert (Y : t' = t \/ fs_rename t q (backup_of q) = Some t') by (destruct D as [[D _]|[D _]]; tauto). destruct Y as [->|Y]; [split; auto|].
      destruct (rename_spec t q (backup_of q) t' Tt (typed_nonempty q Ty) (backup_nonempty q Ty)) as (c & F1 & F2 & F3 & F4 & Tt' & Sd'); auto; [intros X; now apply (backup_typed q q)|].
      split; auto. split; [intros z; now rewrite Sd', Sd|]. intros z Fz Nz. apply Ff; auto.
      destruct (list_eq_dec (list_eq_dec N.eq_dec) z q) as [->|N1]; [congruence|]. destruct (list_eq_dec (list_eq_dec N.eq_dec) z (backup_of q)) as [->|N2]; [|rewrite <- F4; auto].
      exfalso. apply art_filter_file in Fz as [_ K]. apply art_type_iff in K. exact (backup_typed q (backup_of q) Ty K eq_refl).
    Qed.
    Lemma back_steps c p rest l : forall t g t' g', (forall q, In q l -> In q F) -> exec (backs_up path_str) t g l t' g' ->
      clos_refl_trans_1n _ mstep (MBackup M H t c p (map inl l ++ rest) g) (MBackup M H t' c p rest g').
    Proof.
      induction l as [|q l IH]; intros t g t' g' Hl X; [inversion X; subst; constructor|]. assert (Hl' : forall z, In z l -> In z F) by (intros z Hz; apply Hl; now right).
      inversion X as [|? ? ? t1 g1 ? ? ? D X'|? ? ? ? ? ? L X']; subst; cbn [map app].
      - destruct D as [[D ->]|[D [m ->]]]; econstructor; [apply b_ok; eauto|eapply IH; eauto|eapply b_fail; eauto|eapply IH; eauto].
      - econstructor; [apply b_gone; auto; apply back_typed, Hl; now left|]. now apply IH.
    Qed.
    (** Any moment, *)
    Theorem back_moment c p x : clos_refl_trans_1n _ (rstep flt (backs_up path_str)) (mkRace t0 [] (se_arts st) [] []) x ->
      exists todo rest, Permutation (to_back_up t0) todo /\ clos_refl_trans_1n _ mstep (MBackup M H t0 c p todo []) (MBackup M H (rc_tree x) c p rest (rc_got x)).
    Proof.
      intros S. destruct (sim_steps flt (backs_up path_str) E1 Es1 Eo1 t0 T0 (se_arts st) R0 back_good x S) as (_ & _ & l & P & X). set (rest := rc_found x ++ _) in P. exists (map inl l ++ map inl rest), (map inl rest). split.
      - unfold Modify.to_back_up. rewrite walk_under by auto. rewrite <- map_app. now apply Permutation_map.
      - eapply back_steps; eauto. intros q Hq. apply (Permutation_in _ (Permutation_sym P)), in_or_app. now left.
    Qed.
    (** and the end. *)
    Theorem back_refines c p t g : race_back path_str st t0 t g ->
      exists todo, Permutation (to_back_up t0) todo /\ clos_refl_trans_1n _ mstep (MBackup M H t0 c p todo []) (MBackup M H t c p [] g).
    Proof.
      intros S. destruct (race_seq flt (backs_up path_str) E1 Es1 Eo1 t0 T0 (se_arts st) R0 back_good t g S) as (l & P & X). exists (map inl l). split.
      - unfold Modify.to_back_up. rewrite walk_under by auto. now apply Permutation_map.
      - rewrite <- (app_nil_r (map inl l)). eapply back_steps; eauto. intros q Hq. now apply (Permutation_in _ (Permutation_sym P)).
    Qed.
    Lemma race_fair t g : race_back path_str st t0 t g -> fair flt t0 t.
    Proof. intros S. destruct (race_seq flt (backs_up path_str) E1 Es1 Eo1 t0 T0 (se_arts st) R0 back_good t g S) as (l & P & X). eapply (back_good l []); eauto. now rewrite app_nil_r. Qed.
    Theorem back_goes x : clos_refl_trans_1n _ (rstep flt (backs_up path_str)) (mkRace t0 [] (se_arts st) [] []) x ->
      (exists t g, x = mkRace t [] [] [] g) \/ exists y, rstep flt (backs_up path_str) x y.
    Proof.
      intros S. eapply (sim_goes flt (backs_up path_str) E1 t0 (se_arts st) R0 back_good x); [|eapply sim_steps; eauto; exact back_good].
      intros t g q. eexists t, _. right. split; [now left|]. exists []. reflexivity.
    Qed.
  End Back.

  Section Remove.
    Variable t0 : node.
    Hypothesis T0 : tree_ok t0.
    Hypothesis R0 : forall r, In r (se_arts st) -> is_dir (lookup t0 r) = true.
    Notation flt := (backup_filter (se_xarts st)).
    Notation F := (flat_map (under flt E3 t0) (se_arts st)).
    Lemma rem_backup q : In q F -> is_backup q = true /\ ~ In q (se_arts st).
    Proof.
      intros Hq. destruct (remove_sound path_str st E3 t0 q T0 R0) as [B (r & Hr & x & c & -> & Nx & L & _)]; [unfold Modify.to_remove; rewrite walk_under; auto; now apply in_map|].
      split; auto. intros Hr'. apply R0 in Hr'. rewrite L in Hr'. discriminate Hr'.
    Qed.
    Lemma rem_good l rest t g : Permutation F (l ++ rest) -> exec (removes path_str) t0 [] l t g -> fair flt t0 t.
    Proof.
      intros P X. eapply (exec_fair _ _ t0 (fun q => In q F)); [|exact X| |now apply fair_refl]; [|intros q Hq; apply (Permutation_in _ (Permutation_sym P)), in_or_app; now left].
      clear l rest t g P X. intros t g q t' g' Hq D (Tt & Sd & Ff). destruct (rem_backup q Hq) as [Ty _].
      assert (Y : t' = t \/ fs_remove t q = Some t') by (destruct D as [[D _]|[D _]]; tauto). destruct Y as [->|Y]; [split; auto|].
      destruct (remove_spec t q t' Tt) as (F0 & F1 & F2 & Tt' & Sd'); auto; [intros ->; discriminate Ty|].
      split; auto. split; [intros z; now rewrite Sd', Sd|]. intros z Fz Nz. apply Ff; auto. destruct (list_eq_dec (list_eq_dec N.eq_dec) z q) as [->|N1]; [congruence|]. rewrite <- F2; auto.
    Qed.
    Lemma rem_steps c p rest l : forall t g t' g', (forall q, In q l -> In q F) -> exec (removes path_str) t g l t' g' ->
      clos_refl_trans_1n _ mstep (MRemove M H t c p (map inl l ++ rest) g) (MRemove M H t' c p rest g').
    Proof.
      induction l as [|q l IH]; intros t g t' g' Hl X; [inversion X; subst; constructor|]. assert (Hl' : forall z, In z l -> In z F) by (intros z Hz; apply Hl; now right).
      inversion X as [|? ? ? t1 g1 ? ? ? D X'|? ? ? ? ? ? L X']; subst; cbn [map app].
      - destruct D as [[D ->]|[D [m ->]]]; econstructor; [apply r_ok; eauto|eapply IH; eauto|eapply r_fail; eauto|eapply IH; eauto].
      - econstructor; [apply r_gone; auto; apply rem_backup, Hl; now left|]. now apply IH.
    Qed.
    (** Any moment, *)
    Theorem rem_moment c p x : clos_refl_trans_1n _ (rstep flt (removes path_str)) (mkRace t0 [] (se_arts st) [] []) x ->
      exists todo rest, Permutation (to_remove t0) todo /\ clos_refl_trans_1n _ mstep (MRemove M H t0 c p todo []) (MRemove M H (rc_tree x) c p rest (rc_got x)).
    Proof.
      intros S. destruct (sim_steps flt (removes path_str) E3 Es3 Eo3 t0 T0 (se_arts st) R0 rem_good x S) as (_ & _ & l & P & X). set (rest := rc_found x ++ _) in P. exists (map inl l ++ map inl rest), (map inl rest). split.
      - unfold Modify.to_remove. rewrite walk_under by auto. rewrite <- map_app. now apply Permutation_map.
      - eapply rem_steps; eauto. intros q Hq. apply (Permutation_in _ (Permutation_sym P)), in_or_app. now left.
    Qed.
    (** and the end. *)
    Theorem rem_refines c p t g : race_remove path_str st t0 t g ->
      exists todo, Permutation (to_remove t0) todo /\ clos_refl_trans_1n _ mstep (MRemove M H t0 c p todo []) (MRemove M H t c p [] g).
    Proof.
      intros S. destruct (race_seq flt (removes path_str) E3 Es3 Eo3 t0 T0 (se_arts st) R0 rem_good t g S) as (l & P & X). exists (map inl l). split.
      - unfold Modify.to_remove. rewrite walk_under by auto. now apply Permutation_map.
      - rewrite <- (app_nil_r (map inl l)). eapply rem_steps; eauto. intros q Hq. now apply (Permutation_in _ (Permutation_sym P)).
    Qed.
    Theorem rem_goes x : clos_refl_trans_1n _ (rstep flt (removes path_str)) (mkRace t0 [] (se_arts st) [] []) x ->
      (exists t g, x = mkRace t [] [] [] g) \/ exists y, rstep flt (removes path_str) x y.
    Proof.
      intros S. eapply (sim_goes flt (removes path_str) E3 t0 (se_arts st) R0 rem_good x); [|eapply sim_steps; eauto; exact rem_good].
      intros t g q. eexists t, _. right. split; [now left|]. exists []. reflexivity.
    Qed.
  End Remove.

  (** Saving leaves the directories. *)
  Definition savers (t0 : node) (x : mstate M H) : Prop :=
    match x with
    | MBackup _ _ t _ _ todo _ => todo = [] /\ tree_ok t /\ same_dirs t0 t
    | MSave _ _ t _ _ _ _ => tree_ok t /\ same_dirs t0 t
    | _ => True
    end.
  Definition before_removal (x : mstate M H) : Prop := match x with MRemove _ _ _ _ _ _ _ | MDone _ _ _ _ => False | _ => True end.
  Lemma savers_step t0 x y : mstep x y -> before_removal x -> savers t0 x -> savers t0 y.
  Proof.
    intros S B V.
    assert (W : forall t l z t', tree_ok t -> same_dirs t0 t -> fs_write t l z = Some t' -> tree_ok t' /\ same_dirs t0 t').
    { intros t l z t' Tt Sd E. destruct (write_spec t l z t' Tt E) as (_ & _ & T' & Sd'). split; auto. intros q. now rewrite Sd', Sd. }
    inversion S; subst; cbn [savers before_removal] in *; auto; try contradiction; try (destruct V as [V1 V2]; first [discriminate V1|eauto]).
    match goal with X : _ \/ _ |- _ => destruct X as [->|(? & ? & _ & X)] end; eauto.
  Qed.
  Lemma never_back x y : clos_refl_trans_1n _ mstep x y -> ~ before_removal x -> ~ before_removal y.
  Proof. induction 1 as [|x y z S1 _ IH]; auto. intros B. apply IH. inversion S1; subst; cbn [before_removal] in *; tauto. Qed.
  Lemma savers_steps t0 x y : clos_refl_trans_1n _ mstep x y -> before_removal y -> savers t0 x -> savers t0 y.
  Proof.
    induction 1 as [|x y z S1 S2 IH]; auto. intros B V. apply IH; auto. eapply savers_step; eauto. destruct x; cbn [before_removal]; auto; (apply (never_back y z S2); auto; inversion S1; subst; cbn [before_removal]; auto).
  Qed.

  Lemma steps_app x y z : clos_refl_trans_1n _ mstep x y -> clos_refl_trans_1n _ mstep y z -> clos_refl_trans_1n _ mstep x z.
  Proof. induction 1; auto. intros. econstructor; eauto. Qed.

  Theorem racy_refines t c p x : tree_ok t -> (forall r, In r (se_arts st) -> is_dir (lookup t r) = true) -> racy path_str st M H to_toml to_json yaml_done style E3 t c p x ->
    exists todo, Permutation (to_back_up t) todo /\ clos_refl_trans_1n _ mstep (MBackup M H t c p todo []) x.
  Proof.
    intros T R X. destruct X as [t1 g1 t' e B S|t1 g1 t2 c2 g2 t3 g3 B S N Q].
    - destruct (back_refines t T R c p t1 g1 B) as (todo & P & S0). exists todo. split; auto. eapply steps_app; eauto.
    - destruct (back_refines t T R c p t1 g1 B) as (todo & P & S0). exists todo. split; auto. destruct (race_fair t T R t1 g1 B) as (T1 & D1 & _).
      assert (V : savers t (MSave M H t2 c2 p [] g2)) by (eapply savers_steps; [exact S|exact I|]; cbn [savers]; auto). destruct V as [T2 D2].
      destruct (rem_refines t2 T2) with (c := categorize c2 g2) (p := p) (t := t3) (g := g3) as (todo3 & P3 & S3); auto; [intros r Hr; rewrite D2; auto|].
      eapply steps_app; [exact S0|]. eapply steps_app; [exact S|]. eapply Relation_Operators.rt1n_trans; [apply s_end; eauto|]. eapply steps_app; [exact S3|]. econstructor; [apply r_end|constructor].
  Qed.
  Theorem moment_refines t c p d : tree_ok t -> (forall r, In r (se_arts st) -> is_dir (lookup t r) = true) -> moment path_str st M H to_toml to_json yaml_done style E3 t c p d ->
    exists todo x, Permutation (to_back_up t) todo /\ clos_refl_trans_1n _ mstep (MBackup M H t c p todo []) x /\ disk M H x = d.
  Proof.
    intros T R X. destruct X as [x S|t1 g1 t2 c2 td g2 B S|t1 g1 t2 c2 g2 x B S N Q].
    - destruct (back_moment t T R c p x S) as (todo & rest & P & S0). exists todo. eexists. split; [exact P|]. split; [exact S0|reflexivity].
    - destruct (back_refines t T R c p t1 g1 B) as (todo & P & S0). exists todo. eexists. split; [exact P|]. split; [eapply steps_app; [exact S0|exact S]|reflexivity].
    - destruct (back_refines t T R c p t1 g1 B) as (todo & P & S0). exists todo. destruct (race_fair t T R t1 g1 B) as (T1 & D1 & _).
      assert (V : savers t (MSave M H t2 c2 p [] g2)) by (eapply savers_steps; [exact S|exact I|]; cbn [savers]; auto). destruct V as [T2 D2].
      destruct (rem_moment t2 T2) with (c := categorize c2 g2) (p := p) (x := x) as (todo3 & rest & P3 & S3); auto; [intros r Hr; rewrite D2; auto|].
      eexists. split; [exact P|]. split; [|shelve]. eapply steps_app; [exact S0|]. eapply steps_app; [exact S|]. eapply Relation_Operators.rt1n_trans; [apply s_end; eauto|]. exact S3.
      Unshelve. reflexivity.
  Qed.
End Phases.
