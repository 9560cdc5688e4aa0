(** Reading after writing. *)
From Coq Require Import Lia ZifyBool.
From Verif Require Import Base BaseFacts Artifact Disk.

Section NodeInd.
  Variable P : node -> Prop.
  Hypothesis HF : forall c, P (NFile c).
  Hypothesis HD : forall l, (forall x c, In (x, c) l -> P c) -> P (NDir l).
  Fixpoint node_ind' (t : node) : P t :=
    match t with
    | NFile c => HF c
    | NDir l => HD l ((fix go (l : list (str * node)) : forall x c, In (x, c) l -> P c :=
        match l with
        | [] => fun x c H => match H with end
        | (y, d) :: l' => fun x c H => match H with
                                       | or_introl E => eq_ind d P (node_ind' d) c (f_equal snd E)
                                       | or_intror H' => go l' x c H'
                                       end
        end) l)
    end.
End NodeInd.

Lemma tree_ok_dir l : tree_ok (NDir l) <-> NoDup (map fst l) /\ forall x c, In (x, c) l -> tree_ok c.
Proof.
  cbn [tree_ok]. split; intros [N A]; (split; [exact N|]); clear N.
  - induction l as [|[y d] l IH]; intros x c Hin; [destruct Hin|]. destruct A as [A1 A2]. destruct Hin as [E|Hin]; [now injection E as <- <-|eauto].
  - induction l as [|[y d] l IH]; auto. split; [eapply A; now left|]. apply IH. intros x c Hin. eapply A. right. exact Hin.
Qed.

Lemma str_eqb_spec' x y : str_eqb x y = true <-> x = y.
Proof. apply str_eqb_eq. Qed.
Lemma eqb_neq x y : str_eqb x y = false <-> x <> y.
Proof. rewrite <- not_true_iff_false. now rewrite str_eqb_eq. Qed.

Section Assoc.
  Context {A : Type}.
  Lemma assoc_in x (l : list (str * A)) v : assoc x l = Some v -> In (x, v) l.
  Proof.
    induction l as [|[y w] l IH]; cbn [assoc]; [discriminate|]. destruct (str_eqb y x) eqn:E; [|right; auto].
    intros X. injection X as ->. apply str_eqb_eq in E as ->. now left.
  Qed.
  Lemma in_assoc x (l : list (str * A)) v : NoDup (map fst l) -> In (x, v) l -> assoc x l = Some v.
  Proof.
    induction l as [|[y w] l IH]; cbn [assoc map fst]; intros N; [intros []|]; intros [E|Hin]; inversion N; subst.
    - injection E as -> ->. now rewrite str_eqb_refl.
    - destruct (str_eqb y x) eqn:E; auto. apply str_eqb_eq in E as ->. exfalso. apply H1. change x with (fst (x, v)). now apply in_map.
  Qed.
  Lemma assoc_none x (l : list (str * A)) : assoc x l = None <-> ~ In x (map fst l).
  Proof.
    induction l as [|[y w] l IH]; cbn [assoc map fst In]; [tauto|]. destruct (str_eqb y x) eqn:E.
    - apply str_eqb_eq in E. split; [discriminate|]. tauto.
    - apply eqb_neq in E. rewrite IH. tauto.
  Qed.
  Lemma set_same x v (l : list (str * A)) : NoDup (map fst l) -> assoc x (set_entry x v l) = v.
  Proof.
    induction l as [|[y w] l IH]; cbn [set_entry map fst]; intros N.
    - destruct v; cbn [assoc]; auto. now rewrite str_eqb_refl.
    - inversion N; subst. destruct (str_eqb y x) eqn:E.
      + destruct v; cbn [assoc]; [now rewrite E|]. apply str_eqb_eq in E as ->. now apply assoc_none.
      + cbn [assoc]. rewrite E. auto.
  Qed.
  Lemma set_other x y v (l : list (str * A)) : x <> y -> assoc y (set_entry x v l) = assoc y l.
  Proof.
    intros N. assert (E : str_eqb x y = false) by now apply eqb_neq.
    induction l as [|[z w] l IH]; cbn [set_entry assoc].
    - destruct v; cbn [assoc]; auto. now rewrite E.
    - destruct (str_eqb z x) eqn:Ez.
      + apply str_eqb_eq in Ez as ->. rewrite E. destruct v; cbn [assoc]; auto. now rewrite E.
      + cbn [assoc]. now rewrite IH.
  Qed.
  Lemma set_names x v (l : list (str * A)) y : In y (map fst (set_entry x v l)) -> y = x /\ v <> None \/ In y (map fst l).
  Proof.
    induction l as [|[z w] l IH]; cbn [set_entry map fst].
    - destruct v; cbn; [|tauto]. intros [->|[]]. left. split; [reflexivity|discriminate].
    - destruct (str_eqb z x) eqn:Ez; [destruct v; cbn [map fst In]; tauto|]. cbn [map fst In]. intuition.
  Qed.
  Lemma set_nodup x v (l : list (str * A)) : NoDup (map fst l) -> NoDup (map fst (set_entry x v l)).
  Proof.
    induction l as [|[z w] l IH]; cbn [set_entry map fst]; intros N.
    - destruct v; repeat constructor. auto.
    - inversion N; subst. destruct (str_eqb z x) eqn:Ez; [destruct v; cbn [map fst]; auto|]. cbn [map fst]. constructor; auto.
      intros Hin. apply set_names in Hin as [[-> _]|Hin]; auto. now rewrite str_eqb_refl in Ez.
  Qed.
  Lemma set_in x v (l : list (str * A)) y c : In (y, c) (set_entry x v l) -> v = Some c \/ In (y, c) l.
  Proof.
    induction l as [|[z w] l IH]; cbn [set_entry].
    - destruct v; cbn; [|tauto]. intros [E|[]]. injection E as _ <-. auto.
    - destruct (str_eqb z x) eqn:Ez.
      + destruct v; cbn [In]; [|tauto]. intros [E|Hin]; [injection E as _ <-|]; auto.
      + cbn [In]. intuition.
  Qed.
End Assoc.

Lemma put_ok p v : forall t, tree_ok t -> (forall c, v = Some c -> tree_ok c) -> tree_ok (put t p v).
Proof.
  induction p as [|x p IH]; intros t T V; cbn [put]; auto. destruct t as [c|l]; auto. destruct p as [|y p].
  - apply tree_ok_dir in T as [N A]. apply tree_ok_dir. split; [now apply set_nodup|]. intros z c Hin. apply set_in in Hin as [E|Hin]; eauto.
  - destruct (assoc x l) as [c|] eqn:E; auto. apply tree_ok_dir in T as [N A]. apply tree_ok_dir. split; [now apply set_nodup|].
    intros z d Hin. apply set_in in Hin as [E'|Hin]; [|eauto]. injection E' as <-. apply IH; auto. apply assoc_in in E. eauto.
Qed.

Lemma lookup_ok p : forall t n, tree_ok t -> lookup t p = Some n -> tree_ok n.
Proof.
  induction p as [|x p IH]; intros t n T E; cbn [lookup] in E; [now injection E as <-|]. destruct t as [c|l]; [discriminate|].
  destruct (assoc x l) as [c|] eqn:Ea; [|discriminate]. apply tree_ok_dir in T as [_ A]. apply assoc_in in Ea. eauto.
Qed.

Lemma lookup_app p : forall t q, lookup t (p ++ q) = match lookup t p with Some c => lookup c q | None => None end.
Proof.
  induction p as [|x p IH]; intros t q; cbn [app lookup]; auto. destruct t as [c|l]; auto. destruct (assoc x l); auto.
Qed.

(** [put] changes nothing but what is below the path, and the path itself. *)
Lemma put_same p v : forall t, p <> [] -> tree_ok t -> is_dir (lookup t (parent p)) = true -> lookup (put t p v) p = v.
Proof.
  unfold parent. induction p as [|x p IH]; intros t N T D; [contradiction|]. destruct p as [|y p].
  - cbn [removelast lookup] in D. destruct t as [c|l]; [discriminate|]. cbn [put lookup]. apply tree_ok_dir in T as [T _]. rewrite set_same by auto. destruct v; auto.
  - change (removelast (x :: y :: p)) with (x :: removelast (y :: p)) in D. cbn [lookup] in D. destruct t as [c|l]; [discriminate|].
    destruct (assoc x l) as [c|] eqn:E; [|discriminate]. change (put (NDir l) (x :: y :: p) v) with (match assoc x l with Some c => NDir (set_entry x (Some (put c (y :: p) v)) l) | None => NDir l end).
    rewrite E. cbn [lookup]. pose proof T as T'. apply tree_ok_dir in T as [T A]. rewrite set_same by auto. apply IH; auto; [discriminate|]. apply assoc_in in E. eauto.
Qed.
Lemma put_other p v : forall t q, (forall r, q <> p ++ r) -> (forall r, p <> q ++ r) -> lookup (put t p v) q = lookup t q.
Proof.
  induction p as [|x p IH]; intros t q N N'; [exfalso; now apply (N q)|]. destruct q as [|z q]; [exfalso; now apply (N' (x :: p))|].
  destruct t as [c|l]; [destruct p; reflexivity|]. destruct (list_eq_dec N.eq_dec x z) as [->|D].
  - destruct p as [|y p]; [exfalso; now apply (N q)|].
    change (put (NDir l) (z :: y :: p) v) with (match assoc z l with Some c => NDir (set_entry z (Some (put c (y :: p) v)) l) | None => NDir l end).
    destruct (assoc z l) as [c|] eqn:E; auto. cbn [lookup].
    assert (X : assoc z (set_entry z (Some (put c (y :: p) v)) l) = Some (put c (y :: p) v)).
    { clear -E. induction l as [|[w d] l IHl]; cbn [assoc set_entry] in *; [discriminate|]. destruct (str_eqb w z) eqn:Ew; cbn [assoc]; rewrite Ew; auto. }
    rewrite X, E. apply IH; intros r Er; [apply (N r)|apply (N' r)]; cbn [app]; now rewrite Er.
  - destruct p as [|y p]; [cbn [put lookup]; now rewrite set_other|].
    change (put (NDir l) (x :: y :: p) v) with (match assoc x l with Some c => NDir (set_entry x (Some (put c (y :: p) v)) l) | None => NDir l end).
    destruct (assoc x l) as [c|]; auto. cbn [lookup]. now rewrite set_other.
Qed.
(** Directories above stay directories. *)
Lemma put_above p v : forall t q r, p = q ++ r -> r <> [] -> is_dir (lookup (put t p v) q) = is_dir (lookup t q).
Proof.
  induction p as [|x p IH]; intros t q r E R; [destruct q; [destruct r; [contradiction|discriminate]|discriminate]|].
  destruct q as [|z q]; cbn [app] in E.
  - cbn [lookup]. destruct t as [c|l]; [destruct p; reflexivity|]. destruct p; [reflexivity|]. cbn [put]. destruct (assoc x l); reflexivity.
  - injection E as <- E. destruct t as [c|l]; [destruct p; reflexivity|]. destruct p as [|y p]; [destruct q; [destruct r; [contradiction|discriminate]|discriminate]|].
    change (put (NDir l) (x :: y :: p) v) with (match assoc x l with Some c => NDir (set_entry x (Some (put c (y :: p) v)) l) | None => NDir l end).
    destruct (assoc x l) as [c|] eqn:Ea; auto. cbn [lookup].
    assert (X : assoc x (set_entry x (Some (put c (y :: p) v)) l) = Some (put c (y :: p) v)).
    { clear -Ea. induction l as [|[w d] l IHl]; cbn [assoc set_entry] in *; [discriminate|]. destruct (str_eqb w x) eqn:Ew; cbn [assoc]; rewrite Ew; auto. }
    rewrite X, Ea. now apply (IH c q r).
Qed.
(** A file has nothing below it. *)
Lemma below_file t p q : q <> [] -> match lookup t p with Some (NFile _) | None => lookup t (p ++ q) = None | _ => True end.
Proof.
  intros Q. rewrite lookup_app. destruct (lookup t p) as [[c|l]|]; auto. destruct q; [contradiction|reflexivity].
Qed.

(** Files only: what matters to a reader of files. *)
Lemma file_put_same t p c : p <> [] -> tree_ok t -> is_dir (lookup t (parent p)) = true -> file_at (put t p (Some (NFile c))) p = Some c.
Proof. intros N T D. unfold file_at. now rewrite put_same. Qed.
Lemma path_prefix_dec (p q : path) : (exists r, q = p ++ r) \/ (forall r, q <> p ++ r).
Proof.
  revert q. induction p as [|x p IH]; intros q; [left; now exists q|]. destruct q as [|y q]; [right; discriminate|].
  destruct (list_eq_dec N.eq_dec x y) as [->|D]; [|right; intros r E; now injection E as -> _].
  destruct (IH q) as [(r & ->)|Nr]; [left; now exists r|right]. intros r E. injection E as E. now apply (Nr r).
Qed.
Lemma file_put_other t p v q : tree_ok t -> is_dir (lookup t (parent p)) = true -> is_dir (lookup t p) = false -> (forall c, v = Some c -> is_dir (Some c) = false) -> p <> [] -> q <> p ->
  file_at (put t p v) q = file_at t q.
Proof.
  intros T D F V Np N. unfold file_at. destruct (path_prefix_dec p q) as [(r & ->)|A].
  - assert (R : r <> []) by (intros ->; rewrite app_nil_r in N; auto). pose proof (below_file t p r R) as B1. pose proof (below_file (put t p v) p r R) as B2.
    rewrite (put_same p v t Np T D) in B2. destruct (lookup t p) as [[c|l]|]; try discriminate F; rewrite B1; destruct v as [[c'|l']|]; try (now rewrite B2); now specialize (V _ eq_refl).
  - destruct (path_prefix_dec q p) as [(r & ->)|B]; [|now rewrite put_other].
    assert (R : r <> []) by (intros ->; rewrite app_nil_r in N; auto). pose proof (put_above (q ++ r) v t q r eq_refl R) as E.
    assert (Dq : is_dir (lookup t q) = true).
    { unfold parent in D. rewrite removelast_app in D by exact R. rewrite lookup_app in D. destruct (lookup t q) as [[c|l]|]; auto. destruct (removelast r); discriminate D. }
    rewrite Dq in E. destruct (lookup (put t (q ++ r) v) q) as [[c|l]|]; try discriminate E. destruct (lookup t q) as [[c|l']|]; try discriminate Dq. reflexivity.
Qed.
Lemma dir_put t p v q : tree_ok t -> is_dir (lookup t (parent p)) = true -> is_dir (lookup t p) = false -> (forall c, v = Some c -> is_dir (Some c) = false) -> p <> [] ->
  is_dir (lookup (put t p v) q) = is_dir (lookup t q).
Proof.
  intros T D F V Np. destruct (path_prefix_dec p q) as [(r & ->)|A].
  - destruct r as [|x r].
    + rewrite app_nil_r, put_same by auto. rewrite F. destruct v as [c|]; auto.
    + pose proof (below_file t p (x :: r) ltac:(discriminate)) as B1. pose proof (below_file (put t p v) p (x :: r) ltac:(discriminate)) as B2.
      rewrite (put_same p v t Np T D) in B2. destruct (lookup t p) as [[c|l]|]; try discriminate F; rewrite B1; destruct v as [[c'|l']|]; try (now rewrite B2); now specialize (V _ eq_refl).
  - destruct (path_prefix_dec q p) as [(r & ->)|B]; [|now rewrite put_other]. destruct r as [|x r]; [exfalso; apply (A []); now rewrite !app_nil_r|].
    now apply (put_above (q ++ x :: r) v t q (x :: r)).
Qed.

Lemma some_eq {A} (a b : A) : Some a = Some b -> a = b.
Proof. congruence. Qed.

(** The three operations, in terms of files and directories. *)
Definition same_dirs (t t' : node) : Prop := forall q, is_dir (lookup t' q) = is_dir (lookup t q).

Lemma root_dir t : tree_ok t -> forall p c, file_at t p = Some c -> p <> [] -> is_dir (lookup t (parent p)) = true.
Proof.
  intros T p c E N. unfold file_at in E. rewrite (app_removelast_last [] N) in E. rewrite lookup_app in E. fold (parent p) in E. destruct (lookup t (parent p)) as [[d|l]|]; try discriminate E; auto.
Qed.

Lemma rename_spec t src dst t' : tree_ok t -> src <> [] -> dst <> [] -> src <> dst -> fs_rename t src dst = Some t' ->
  exists c, file_at t src = Some c /\ file_at t' dst = Some c /\ file_at t' src = None /\ (forall q, q <> src -> q <> dst -> file_at t' q = file_at t q) /\
    tree_ok t' /\ same_dirs t t'.
Proof.
  intros T Ns Nd Ne E. unfold fs_rename in E. destruct (lookup t src) as [[c|l]|] eqn:L; try discriminate E. exists c.
  destruct (is_dir (lookup t dst)) eqn:D1; [discriminate E|]. destruct (is_dir (lookup t (parent dst))) eqn:D2; [|discriminate E]. cbn [negb orb] in E. injection E as <-.
  assert (Fs : file_at t src = Some c) by (unfold file_at; now rewrite L).
  assert (Ps : is_dir (lookup t (parent src)) = true) by (eapply root_dir; eauto).
  set (t1 := put t src None). assert (T1 : tree_ok t1) by (apply put_ok; auto; discriminate).
  assert (Sd : same_dirs t t1) by (intros q; apply dir_put; auto; [rewrite L; reflexivity|discriminate]).
  assert (T2 : tree_ok (put t1 dst (Some (NFile c)))) by (apply put_ok; auto; intros d X; now injection X as <-).
  assert (Vd : forall d, Some (NFile c) = Some d -> is_dir (Some d) = false) by (intros d X; now injection X as <-).
  split; auto. split; [apply file_put_same; auto; now rewrite Sd|].
  assert (Fo : forall q, q <> dst -> file_at (put t1 dst (Some (NFile c))) q = file_at t1 q) by (intros q Hq; apply file_put_other; auto; now rewrite Sd).
  split; [rewrite Fo by auto; unfold file_at, t1; now rewrite put_same|]. split; [|split; auto].
  - intros q Hs Hd. rewrite Fo by auto. apply file_put_other; auto; [rewrite L; reflexivity|discriminate].
  - intros q. rewrite dir_put; auto; now rewrite Sd.
Qed.
Lemma write_spec t p c t' : tree_ok t -> fs_write t p c = Some t' ->
  file_at t' p = Some c /\ (forall q, q <> p -> file_at t' q = file_at t q) /\ tree_ok t' /\ same_dirs t t'.
Proof.
  intros T E. unfold fs_write in E. destruct p as [|x p]; [discriminate E|]. destruct (is_dir (lookup t (x :: p))) eqn:D1; [discriminate E|]. destruct (is_dir (lookup t (parent (x :: p)))) eqn:D2; [|discriminate E]. cbn [negb orb] in E. apply some_eq in E as <-.
  assert (Np : x :: p <> []) by discriminate. assert (Vd : forall d, Some (NFile c) = Some d -> is_dir (Some d) = false) by (intros d X; now injection X as <-).
  split; [now apply file_put_same|]. split; [intros q Hq; now apply file_put_other|]. split; [apply put_ok; auto; intros d X; now injection X as <-|]. intros q. now apply dir_put.
Qed.
Lemma remove_spec t p t' : tree_ok t -> p <> [] -> fs_remove t p = Some t' ->
  file_at t p <> None /\ file_at t' p = None /\ (forall q, q <> p -> file_at t' q = file_at t q) /\ tree_ok t' /\ same_dirs t t'.
Proof.
  intros T Np E. unfold fs_remove in E. destruct (lookup t p) as [[c|l]|] eqn:L; try discriminate E. injection E as <-.
  assert (Fs : file_at t p = Some c) by (unfold file_at; now rewrite L). assert (D2 : is_dir (lookup t (parent p)) = true) by (eapply root_dir; eauto).
  split; [congruence|]. split; [unfold file_at; now rewrite put_same|]. split; [intros q Hq; apply file_put_other; auto; [now rewrite L|discriminate]|].
  split; [apply put_ok; auto; discriminate|]. intros q. apply dir_put; auto; [now rewrite L|discriminate].
Qed.
