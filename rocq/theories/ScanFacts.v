(** Scanning a text with [captures_iter]: when matches cannot overlap, the scan finds every
    position at which the pattern matches, in order. *)
From Coq Require Import Lia ZifyBool Sorted.
From Verif Require Import Base BaseFacts Regex RegexFacts.

(** Every position with a match, with its captures. *)
Fixpoint all_matches (r : re) (i : nat) (t : str) : list (nat * caps) :=
  (match match_here r t with Some (_, cs) => [(i, cs)] | None => [] end)
  ++ match t with [] => [] | _ :: t' => all_matches r (S i) t' end.

Definition isolated (r : re) : Prop :=
  forall c m rest cs, match_here r (c :: m ++ rest) = Some (rest, cs) ->
  forall a b, m = a ++ b -> b <> [] -> match_here r (b ++ rest) = None.

Definition consuming (r : re) : Prop := ~ lang r [].

Lemma consuming_nil r : consuming r -> match_here r [] = None.
Proof.
  intros H. apply match_here_none. intros (m & rest & E & L).
  symmetry in E. apply app_eq_nil in E as [-> ->]. contradiction.
Qed.

Lemma all_matches_skip r m rest i :
  (forall a b, m = a ++ b -> b <> [] -> match_here r (b ++ rest) = None) ->
  all_matches r i (m ++ rest) = all_matches r (length m + i) rest.
Proof.
  revert i; induction m as [|c m IH]; intros i H; simpl app; auto.
  simpl all_matches. pose proof (H [] (c :: m) eq_refl ltac:(discriminate)) as H0.
  simpl in H0. rewrite H0. simpl.
  rewrite IH.
  - f_equal. lia.
  - intros a b -> Hb. apply (H (c :: a) b); auto.
Qed.

Lemma find_all_all r t : consuming r -> isolated r ->
  forall n i, length t <= n -> captures_iter r n t = map snd (all_matches r i t).
Proof.
  intros Hc Hi n. revert t. induction n as [|n IH]; intros t i Hn.
  - destruct t; [|simpl in Hn; lia]. simpl. now rewrite consuming_nil.
  - destruct t as [|c t].
    + simpl. now rewrite !consuming_nil.
    + simpl captures_iter. simpl all_matches.
      destruct (match_here r (c :: t)) as [[rest cs]|] eqn:E.
      * pose proof E as E'. apply match_here_sound in E as (m & Em & M).
        destruct m as [|d m].
        { apply mat_lang in M. contradiction. }
        simpl in Em. injection Em as <- ->.
        assert (Nat.ltb (length rest) (length (c :: m ++ rest)) = true) as Hlt.
        { apply Nat.ltb_lt. simpl. rewrite app_length. lia. }
        simpl in Hlt. rewrite Hlt. simpl. f_equal.
        rewrite all_matches_skip.
        -- apply IH. simpl in Hn. rewrite app_length in Hn. lia.
        -- eapply Hi; eauto.
      * simpl. apply IH. simpl in Hn. lia.
Qed.

Lemma all_matches_in r t : forall i j cs,
  In (j, cs) (all_matches r i t) <->
  exists p q rest, t = p ++ q /\ j = length p + i /\ match_here r q = Some (rest, cs).
Proof.
  induction t as [|c t IH]; intros i j cs; simpl; rewrite in_app_iff.
  - split.
    + intros [H|[]]. destruct (match_here r []) as [[rest cs']|] eqn:E; [|destruct H].
      destruct H as [H|[]]. injection H as <- <-. exists [], [], rest. auto.
    + intros (p & q & rest & E & -> & H). symmetry in E. apply app_eq_nil in E as [-> ->].
      left. rewrite H. now left.
  - rewrite IH. split.
    + intros [H|(p & q & rest & -> & -> & H)].
      * destruct (match_here r (c :: t)) as [[rest cs']|] eqn:E; [|destruct H].
        destruct H as [H|[]]. injection H as <- <-. exists [], (c :: t), rest. auto.
      * exists (c :: p), q, rest. repeat split; auto. simpl. lia.
    + intros (p & q & rest & E & -> & H). destruct p as [|d p].
      * simpl in E. subst. left. rewrite H. now left.
      * injection E as <- ->. right. exists p, q, rest. repeat split; auto. simpl. lia.
Qed.

Lemma all_matches_sorted r t : forall i,
  StronglySorted (fun a b => fst a < fst b) (all_matches r i t).
Proof.
  induction t as [|c t IH]; intros i; simpl.
  - destruct (match_here r []) as [[rest cs]|]; simpl; repeat constructor.
  - destruct (match_here r (c :: t)) as [[rest cs]|]; simpl; auto.
    constructor; auto. apply Forall_forall. intros [j cs'] H.
    apply all_matches_in in H as (p & q & rest' & _ & -> & _). simpl. lia.
Qed.

(** Keeping the first of equal elements. *)
Section Firsts.
  Context {K KK : Type} (keqb : K -> K -> bool) (proj : K -> KK).
  Hypothesis keqb_spec : forall a b, keqb a b = true <-> proj a = proj b.

  Lemma is_extend_first l m k :
    In k (is_extend keqb m l) <->
    In k m \/ exists l1 l2, l = l1 ++ k :: l2 /\
      forall x, In x (m ++ l1) -> proj x <> proj k.
  Proof.
    unfold is_extend. revert m. induction l as [|a l IH]; simpl; intros m.
    - split; auto. intros [H|(l1 & l2 & E & _)]; auto. destruct l1; discriminate.
    - rewrite IH. unfold is_insert. destruct (is_mem keqb a m) eqn:E.
      + apply (is_mem_iff keqb proj keqb_spec) in E. apply in_map_iff in E as (a' & Ea & Ha).
        split; (intros [H|(l1 & l2 & E1 & E2)]; [now left|right]).
        * exists (a :: l1), l2. split; [simpl; congruence|]. intros x Hx.
          apply in_app_iff in Hx as [Hx|[<-|Hx]].
          -- apply E2, in_or_app. now left.
          -- rewrite <- Ea. apply E2, in_or_app. now left.
          -- apply E2, in_or_app. now right.
        * destruct l1 as [|b l1].
          -- injection E1 as -> ->. exfalso. apply (E2 a'); auto. rewrite app_nil_r. auto.
          -- injection E1 as -> ->. exists l1, l2. split; auto. intros x Hx. apply E2.
             apply in_app_iff in Hx. apply in_or_app. simpl. tauto.
      + apply (is_mem_false keqb proj keqb_spec) in E. split.
        * intros [H|(l1 & l2 & -> & E2)].
          -- apply in_app_iff in H as [H|[<-|[]]]; [now left|].
             right. exists [], l. split; auto. intros x Hx. rewrite app_nil_r in Hx.
             intros Eq. apply E. rewrite <- Eq. now apply in_map.
          -- right. exists (a :: l1), l2. split; auto. intros x Hx. apply E2.
             rewrite <- app_assoc. exact Hx.
        * intros [H|(l1 & l2 & E1 & E2)]; [left; apply in_or_app; auto|].
          destruct l1 as [|b l1].
          -- injection E1 as -> ->. left. apply in_or_app. right. now left.
          -- injection E1 as -> ->. right. exists l1, l2. split; auto. intros x Hx. apply E2.
             rewrite <- app_assoc in Hx. exact Hx.
  Qed.

  Lemma is_collect_first l k :
    In k (is_collect keqb l) <->
    exists l1 l2, l = l1 ++ k :: l2 /\ forall x, In x l1 -> proj x <> proj k.
  Proof.
    unfold is_collect. rewrite is_extend_first. simpl. split; auto. intros [[]|H]; auto.
  Qed.
End Firsts.
