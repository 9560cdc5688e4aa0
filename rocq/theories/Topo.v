(** A topological sort meeting the contract of SpecGraph.v: the contract is satisfiable. *)
From Verif Require Import Base BaseFacts Artifact SpecGraph.
From Coq Require Import Relations Lia.

Definition no_pred (g : graph) (rem : list nat) (x : nat) : bool :=
  negb (existsb (fun e => Nat.eqb (snd e) x && is_mem Nat.eqb (fst e) rem) (g_edges g)).

Fixpoint kahn (g : graph) (fuel : nat) (rem : list nat) : option (list nat) :=
  match fuel with
  | O => match rem with [] => Some [] | _ => None end
  | S n =>
      match rem with
      | [] => Some []
      | _ => match find (no_pred g rem) rem with
             | None => None
             | Some x => match kahn g n (remove Nat.eq_dec x rem) with
                         | Some l => Some (x :: l)
                         | None => None
                         end
             end
      end
  end.
Definition topo_sort (g : graph) : option (list nat) := kahn g (length (g_nodes g)) (g_nodes g).

(** ** Correctness *)
Lemma nat_eqb_spec a b : Nat.eqb a b = true <-> (fun x : nat => x) a = (fun x => x) b.
Proof. apply Nat.eqb_eq. Qed.

Lemma is_mem_nat x l : is_mem Nat.eqb x l = true <-> In x l.
Proof. rewrite (is_mem_iff Nat.eqb (fun x => x) nat_eqb_spec), map_id. reflexivity. Qed.

Lemma no_pred_iff g rem x : no_pred g rem x = true <-> forall a, In a rem -> ~ In (a, x) (g_edges g).
Proof.
  unfold no_pred. rewrite negb_true_iff. split.
  - intros E a Ha Hin. assert (existsb (fun e => Nat.eqb (snd e) x && is_mem Nat.eqb (fst e) rem) (g_edges g) = true).
    { apply existsb_exists. exists (a, x). split; auto. simpl. rewrite Nat.eqb_refl. simpl. now apply is_mem_nat. }
    congruence.
  - intros Hn. destruct (existsb _ _) eqn:E; auto. apply existsb_exists in E as ((a, b) & Hin & E).
    simpl in E. apply andb_true_iff in E as [E1 E2]. apply Nat.eqb_eq in E1. subst. apply is_mem_nat in E2.
    exfalso. apply (Hn a); auto.
Qed.

Lemma stuck_cycle n : forall (E : nat -> nat -> Prop) rem, length rem <= n -> rem <> [] ->
  (forall x, In x rem -> exists a, In a rem /\ E a x) -> exists x, clos_trans nat E x x.
Proof.
  induction n as [|n IH]; intros E rem Hl Hne Hp.
  - destruct rem; [contradiction|simpl in Hl; lia].
  - destruct rem as [|x rem]; [contradiction|].
    destruct (Hp x (or_introl eq_refl)) as (b & Hb & Eb).
    destruct (Nat.eq_dec b x) as [->|Nb]; [exists x; now apply t_step|].
    destruct (IH (fun a c => E a c \/ (E a x /\ E x c)) (remove Nat.eq_dec x (x :: rem))) as (y & Hy).
    + simpl. destruct (Nat.eq_dec x x); [|contradiction]. pose proof (remove_length_le Nat.eq_dec rem x). simpl in Hl. lia.
    + intros X. assert (In b (remove Nat.eq_dec x (x :: rem))) by (apply in_in_remove; auto).
      rewrite X in H. destruct H.
    + intros y Hy. apply in_remove in Hy as [Hy Ny]. destruct (Hp y Hy) as (a & Ha & Ea).
      destruct (Nat.eq_dec a x) as [->|Na].
      * exists b. split; [apply in_in_remove; auto|]. right. auto.
      * exists a. split; [apply in_in_remove; auto|]. auto.
    + exists y. clear -Hy. revert Hy. generalize y at 1 3. generalize y. clear y.
      intros p q Hy. induction Hy as [a c [He|[H1 H2]]|].
      * now apply t_step.
      * eapply t_trans; apply t_step; eassumption.
      * eapply t_trans; eassumption.
Qed.

Lemma remove_len x l : In x l -> length (remove Nat.eq_dec x l) < length l.
Proof. apply remove_length_lt. Qed.

Lemma kahn_ok g n : forall rem, length rem <= n -> NoDup rem ->
  match kahn g n rem with
  | Some l => NoDup l /\ (forall x, In x l <-> In x rem) /\
              (forall a b, In a rem -> In b rem -> In (a, b) (g_edges g) -> before l a b)
  | None => graph_cyclic g
  end.
Proof.
  induction n as [|n IH]; intros rem Hl ND; cbn [kahn].
  - destruct rem; [|simpl in Hl; lia]. repeat split; try constructor; try contradiction.
  - destruct rem as [|r rem]; [repeat split; try constructor; try contradiction|].
    set (R := r :: rem) in *.
    destruct (find (no_pred g R) R) as [x|] eqn:Ef.
    + apply find_some in Ef as [Hx Ex]. rewrite no_pred_iff in Ex.
      specialize (IH (remove Nat.eq_dec x R)).
      assert (length (remove Nat.eq_dec x R) <= n) by (pose proof (remove_len x R Hx); lia).
      assert (NoDup (remove Nat.eq_dec x R)).
      { clear -ND. induction ND as [|y l Hn ND IHl]; simpl; [constructor|].
        destruct (Nat.eq_dec x y); auto. constructor; auto. intros Hin. apply in_remove in Hin. tauto. }
      specialize (IH H H0). destruct (kahn g n (remove Nat.eq_dec x R)) as [l|]; auto.
      destruct IH as (N & I & B). split; [|split].
      * constructor; auto. rewrite I. intros Hin. apply in_remove in Hin. tauto.
      * intros y. simpl. rewrite I. split.
        -- intros [<-|Hin]; auto. now apply in_remove in Hin.
        -- intros Hin. destruct (Nat.eq_dec x y); auto. right. apply in_in_remove; auto.
      * intros a b Ha Hb He. destruct (Nat.eq_dec b x) as [->|Nb]; [exfalso; apply (Ex a); auto|].
        destruct (Nat.eq_dec a x) as [->|Na].
        -- assert (Hin : In b l) by (apply I, in_in_remove; auto).
           apply in_split in Hin as (l1 & l2 & ->). exists [], l1, l2. reflexivity.
        -- destruct (B a b) as (l1 & l2 & l3 & ->); auto; try (apply in_in_remove; auto).
           exists (x :: l1), l2, l3. reflexivity.
    + apply (stuck_cycle (length R) _ R); auto; [discriminate|].
      intros x Hx. pose proof (find_none _ _ Ef x Hx) as E. unfold no_pred in E.
      apply negb_false_iff, existsb_exists in E as ((a, b) & Hin & E). cbn [fst snd] in E.
      apply andb_true_iff in E as [E1 E2]. apply Nat.eqb_eq in E1. subst. apply is_mem_nat in E2. eauto.
Qed.

Theorem topo_sort_ok : topo_ok topo_sort.
Proof.
  intros g W. unfold topo_sort. pose proof (kahn_ok g _ (g_nodes g) (le_n _) (gw_nodes g W)) as K.
  destruct (kahn g (length (g_nodes g)) (g_nodes g)) as [l|]; auto.
  destruct K as (N & I & B). split; auto. split; auto.
  intros a b He. apply B; auto; now apply (gw_in g W) in He.
Qed.
