(** Proofs about the stored form of name sets (C07). *)
From Coq Require Import Lia ZifyBool Permutation Sorted.
From Verif Require Import Base BaseFacts Name SpecName NameFacts SubFacts FamilyFacts
  Expand SpecExpand ExpandFacts RawNames.

Lemma join_forall (P : N -> Prop) c l :
  P c -> Forall (Forall P) l -> Forall P (join [c] l).
Proof.
  intros Hc. induction 1 as [|x l Hx Hl IH]; [constructor|].
  destruct l as [|y l]; [exact Hx|]. rewrite join_cons by discriminate.
  apply Forall_app. split; auto. constructor; auto.
Qed.

Lemma name_chars n : name_wf n -> Forall (fun c => word_char c \/ c = 45%N) (n_raw n).
Proof.
  intros H. apply name_ok_iff in H as (p & es & (Hne & He & ->) & Ht & _).
  apply join_forall; auto. constructor.
  - assert (W : Forall word_char p).
    { unfold str_ci in Ht. destruct (n_ty n); simpl ty_str in Ht; rewrite ?sREQ, ?sSPC, ?sTST in Ht;
      apply f3 in Ht as (d & e & f & -> & H1 & H2 & H3);
      (apply Forall_cons; [|apply Forall_cons; [|apply Forall_cons; [|apply Forall_nil]]]);
      (eapply ci_word; [eassumption|unfold word_char; lia]). }
    eapply Forall_impl; [|exact W]. auto.
  - eapply Forall_impl; [|exact He]. intros e [_ W]. eapply Forall_impl; [|exact W]. auto.
Qed.

Lemma name_plain n : name_wf n -> plain_text (n_raw n).
Proof.
  intros H. eapply Forall_impl; [|apply name_chars, H].
  intros c Hc. cbv beta in Hc. unfold word_char in Hc. unfold blank, special. lia.
Qed.

Lemma name_nonempty n : name_wf n -> n_raw n <> [].
Proof.
  intros H E. destruct (wf_pieces n H) as (p & es & P).
  pose proof (pieces_len _ _ _ P) as L. destruct P as [(Hne & _ & R) _].
  rewrite R, join_cons in E by auto. destruct p; discriminate.
Qed.

Lemma expand_one n : name_wf n -> expand_names (n_raw n) = Ok [n].
Proof.
  intros H. unfold expand_names.
  assert (E : parse_collapsed (n_raw n) = Ok [n_raw n]).
  { apply parse_collapsed_ok. pose proof (name_plain n H) as P.
    rewrite nb_id by (eapply denotes_blankfree; constructor; eauto).
    replace [n_raw n] with (nonempty (n_raw n)); [now constructor|].
    pose proof (name_nonempty n H). destruct (n_raw n); [congruence|reflexivity]. }
  rewrite E. simpl. rewrite H. reflexivity.
Qed.

Lemma name_leb_total a b : name_leb a b = true \/ name_leb b a = true.
Proof. apply str_leb_total. Qed.
Lemma name_leb_trans a b c : name_leb a b = true -> name_leb b c = true -> name_leb a c = true.
Proof. apply str_leb_trans. Qed.

(** A set of names: parsed names, no two of them equal. *)
Definition name_set (l : list name) : Prop := Forall name_wf l /\ NoDup (map nk l).

Lemma name_set_perm l l' : Permutation l l' -> name_set l -> name_set l'.
Proof.
  intros P [H1 H2]. split.
  - eapply Permutation_Forall; eauto.
  - eapply Permutation_NoDup; [apply Permutation_map, P|]. auto.
Qed.

Lemma name_set_antisym l : name_set l ->
  forall a b, In a l -> In b l -> le name_leb a b -> le name_leb b a -> a = b.
Proof.
  intros [H1 H2] a b Ha Hb L1 L2.
  assert (K : n_key a = n_key b) by (now apply str_leb_antisym).
  rewrite Forall_forall in H1. apply nk_key in K; auto.
  clear -H2 Ha Hb K. induction l as [|x l IH]; [destruct Ha|]. inversion H2; subst.
  destruct Ha as [->|Ha], Hb as [->|Hb]; auto.
  - exfalso. apply H1. rewrite K. now apply in_map.
  - exfalso. apply H1. rewrite <- K. now apply in_map.
Qed.

Lemma de_seq_ok l : forall out, Forall name_wf l -> NoDup (map nk (out ++ l)) ->
  names_de_seq out (map n_raw l) = Ok (out ++ l).
Proof.
  induction l as [|n l IH]; intros out Hw Hd; cbn [names_de_seq fnames_de map].
  - now rewrite app_nil_r.
  - inversion Hw; subst. rewrite expand_one by auto. cbn [res_bind].
    rewrite (is_extend_distinct name_eqb nk name_eqb_iff [n] out).
    + rewrite IH; auto; rewrite <- app_assoc; auto.
    + rewrite map_app in *. simpl in *. apply NoDup_remove_1 in Hd as Hd'. 
      replace (map nk out ++ [nk n]) with (map nk out ++ nk n :: []) by auto.
      clear -Hd. 
      assert (G : forall A (a b : list A) x, NoDup (a ++ x :: b) -> NoDup (a ++ [x])).
      { intros A a b x Hn. induction a as [|y a IHa]; simpl in *; [repeat constructor; auto|].
        inversion Hn; subst. constructor; auto. rewrite in_app_iff in *. simpl in *. tauto. }
      eapply G; eauto.
Qed.

Lemma fde_ok l : forall out, Forall name_wf l -> NoDup (map nk (out ++ l)) ->
  fnames_de out (map n_raw l) = Ok (out ++ l).
Proof.
  induction l as [|n l IH]; intros out Hw Hd; cbn [names_de_seq fnames_de map].
  - now rewrite app_nil_r.
  - inversion Hw; subst. unfold name_wf in H1. rewrite H1. cbn [res_bind].
    assert (E : is_insert name_eqb n out = out ++ [n]).
    { unfold is_insert. replace (is_mem name_eqb n out) with false; auto. symmetry.
      apply (is_mem_false name_eqb nk name_eqb_iff). rewrite map_app in Hd. simpl in Hd.
      apply NoDup_remove_2 in Hd. intros Hin. apply Hd, in_or_app. now left. }
    rewrite E, IH; auto; rewrite <- app_assoc; auto.
Qed.

Lemma names_roundtrip l : l <> [] -> name_set l ->
  exists v l', names_ser l = Ok v /\ names_de v = Ok l' /\ Permutation l l'.
Proof.
  intros Hne Hs. destruct l as [|a [|b l]]; [congruence| |].
  - destruct Hs as [Hw _]. inversion Hw; subst. exists (VStr (n_raw a)), [a]. simpl.
    rewrite expand_one by auto. auto.
  - set (L := a :: b :: l) in *. exists (VSeq (map n_raw (isort name_leb L))), (isort name_leb L).
    split; [reflexivity|]. split; [|apply isort_perm].
    assert (Hs' : name_set (isort name_leb L)) by (eapply name_set_perm; [apply isort_perm|auto]).
    cbn [names_de]. rewrite (de_seq_ok (isort name_leb L) []); [reflexivity|apply Hs'|apply Hs'].
Qed.

Lemma names_ser_canon l l' : name_set l -> Permutation l l' -> names_ser l = names_ser l'.
Proof.
  intros Hs P. pose proof (Permutation_length P) as L.
  destruct l as [|a [|b l]].
  - apply Permutation_nil in P. now subst.
  - apply Permutation_length_1_inv in P. now subst.
  - destruct l' as [|c [|d l']]; try discriminate. unfold names_ser.
    do 3 f_equal. apply isort_canonical; auto using name_leb_total.
    + exact name_leb_trans.
    + now apply name_set_antisym.
Qed.

Lemma fnames_roundtrip l : name_set l ->
  exists l', fnames_de [] (fnames_ser l) = Ok l' /\ Permutation l l'.
Proof.
  intros Hs. exists (isort name_leb l). split; [|apply isort_perm].
  assert (Hs' : name_set (isort name_leb l)) by (eapply name_set_perm; [apply isort_perm|auto]).
  apply (fde_ok _ []); apply Hs'.
Qed.
Lemma fnames_ser_canon l l' : name_set l -> Permutation l l' -> fnames_ser l = fnames_ser l'.
Proof.
  intros Hs P. unfold fnames_ser. f_equal. apply isort_canonical; auto using name_leb_total.
  - exact name_leb_trans.
  - now apply name_set_antisym.
Qed.
