(** Facts about the histories of the web client. *)
From Coq Require Import Lia ZifyBool.
From Verif Require Import Base BaseFacts Regex Name SpecName NameFacts SpecSource Artifact Web SpecWeb WebRoute PropRoute.

Lemma hash_edit_quiet dig lim id : exists v, from_hash dig lim (hash_edit id) = Ok v.
Proof.
  pose proof (C55_exact dig lim (hash_edit id)) as E. cbv zeta in E.
  destruct (from_hash dig lim (hash_edit id)); [eauto|destruct E|]. exfalso.
  destruct E as (_ & x & (p & q & E & Lx & _) & _). unfold hash_edit in E.
  assert (Nd : numeral (decimal (S (N.to_nat (N.log2 id))) id) id) by (apply decimal_numeral; lia).
  apply numeral_chars in Nd. set (ds := decimal _ id) in *. clearbody ds.
  apply name_four in Lx as (a & b & c & t & -> & _). assert (I : In 45%N (s "edit/" ++ ds)) by (rewrite E; apply in_or_app; right; do 3 right; now left).
  apply in_app_iff in I as [I|I]; [vm_compute in I; lia|]. rewrite Forall_forall in Nd. apply Nd in I. lia.
Qed.

Section Facts.
  Context {H : Type} (heqb : H -> H -> bool) (dig : char -> bool) (lim : N).
  Implicit Types c : client H.
  Local Notation get := (im_get N.eqb).
  Let nspec := N.eqb_eq.

  Definition tasks c : list (req H) := match c_task c with Some r => [r] | None => [] end.

  Lemma push_logs_fields k c : c_static (push_logs k c) = c_static c /\ c_project (push_logs k c) = c_project c /\ c_view (push_logs k c) = c_view c /\
    c_task (push_logs k c) = c_task c /\ c_edits (push_logs k c) = c_edits c /\ c_updating (push_logs k c) = c_updating c /\ (c_next c <= c_next (push_logs k c))%N.
  Proof.
    revert c. induction k as [|k IH]; intros c; cbn [push_logs]; [repeat split; lia|].
    destruct (IH (set_logs (take_next c) (is_insert N.eqb (c_next c) (c_logs c)))) as (-> & -> & -> & -> & -> & -> & L).
    cbn in *. repeat split; lia.
  Qed.

  Opaque push_logs.

  (** What the client and the requests on their way have in common. *)
  Record winv (h : list (event H * world H)) (w : world H) : Prop := {
    wi_one : snd w = tasks (fst w);
    wi_nodup : NoDup (pkeys (fun x => x) (c_edits (fst w)));
    wi_fresh : Forall (fun x => (fst x < c_next (fst w))%N) (c_edits (fst w));
    wi_upd_nodup : NoDup (pkeys (fun x => x) (c_updating (fst w)));
    wi_upd_fresh : Forall (fun x => (fst x < c_next (fst w))%N) (c_updating (fst w));
    wi_task : match c_task (fst w) with
              | Some (RModify j ops) => exists id c0 e0 op, In (EUser (USave id), (c0, [])) h /\ c_next c0 = j /\
                  get id (c_edits c0) = Some e0 /\ edit_op e0 = Ok op /\ ops = [op] /\ get j (c_updating (fst w)) = Some [id]
              | Some (RRead j _) => (j < c_next (fst w))%N /\ get j (c_updating (fst w)) = None
              | _ => True
              end }.

  Lemma get_fresh {V} (m : list (N * V)) n : Forall (fun x => (fst x < n)%N) m -> get n m = None.
  Proof.
    intros F. apply (get_none_iff N.eqb (fun x => x) nspec). intros I. apply in_map_iff in I as ((k & v) & E & I). rewrite Forall_forall in F. apply F in I. cbn in *. lia.
  Qed.
  Lemma fresh_mono {V} (m : list (N * V)) n k : Forall (fun x => (fst x < n)%N) m -> (n <= k)%N -> Forall (fun x => (fst x < k)%N) m.
  Proof. intros F L. eapply Forall_impl; [|exact F]. intros x Hx. cbn in *. lia. Qed.
  Lemma insert_keys {V} (m : list (N * V)) k v n : Forall (fun x => (fst x < n)%N) m -> (k < n)%N -> Forall (fun x => (fst x < n)%N) (im_insert N.eqb k v m).
  Proof. intros F L. induction F as [|[a b] m Ha F IH]; cbn [im_insert]; [repeat constructor; auto|]. destruct (N.eqb_spec a k); constructor; auto. Qed.
  Lemma remove_keys {V} (m : list (N * V)) k n : Forall (fun x => (fst x < n)%N) m -> NoDup (pkeys (fun x => x) m) -> Forall (fun x => (fst x < n)%N) (im_remove N.eqb k m).
  Proof.
    intros F ND. apply Forall_forall. intros x Hx.
    destruct x as [a b]. assert (G : get a (im_remove N.eqb k m) = Some b).
    { apply (in_get N.eqb (fun x => x) nspec); auto. apply (nodup_remove N.eqb (fun x => x) nspec). auto. }
    rewrite (get_remove N.eqb (fun x => x) nspec) in G by auto. destruct (N.eqb_spec k a); [discriminate|].
    apply (get_some_in N.eqb (fun x => x) nspec) in G as (a' & Ea & I). cbn in Ea. subst a'. rewrite Forall_forall in F. apply (F _ I).
  Qed.

  Lemma complete_fields id c c' : complete_editing heqb dig lim id c = Ok c' -> NoDup (pkeys (fun x => x) (c_edits c)) ->
    c_task c' = c_task c /\ c_updating c' = c_updating c /\ c_next c' = c_next c /\ c_static c' = c_static c /\ c_project c' = c_project c /\ c_logs c' = c_logs c /\
    NoDup (pkeys (fun x => x) (c_edits c')) /\
    (forall n, Forall (fun x => (fst x < n)%N) (c_edits c) -> Forall (fun x => (fst x < n)%N) (c_edits c')) /\
    (forall i, get i (c_edits c') = if N.eqb id i then None else get i (c_edits c)).
  Proof.
    intros E ND. unfold complete_editing in E. destruct (get id (c_edits c)) as [e|] eqn:G.
    - assert (X : exists v, c' = set_view (set_edits c (im_remove N.eqb id (c_edits c))) v).
      { destruct (at_edit (c_view c) id).
        - destruct (route_after heqb (c_project c) e) as [r| |]; try discriminate. cbn [res_bind] in E. destruct (from_hash dig lim r) as [v| |]; try discriminate. injection E as <-. eauto.
        - injection E as <-. exists (c_view c). now destruct c. }
      destruct X as [v ->]. cbn. repeat split; auto.
      + now apply (nodup_remove N.eqb (fun x => x) nspec).
      + intros n F. now apply remove_keys.
      + intros i. now apply (get_remove N.eqb (fun x => x) nspec).
    - injection E as <-. repeat split; auto. intros i. destruct (N.eqb_spec id i) as [<-|]; auto.
  Qed.

  Lemma inv_start p v : winv [] (start p v).
  Proof. constructor; cbn; auto; constructor. Qed.

  (** Histories only grow. *)
  Lemma task_more (h : list (event H * world H)) e (w0 w : world H) :
    match c_task (fst w) with
    | Some (RModify j ops) => exists id c0 e0 op, In (EUser (USave id), (c0, [])) h /\ c_next c0 = j /\
        get id (c_edits c0) = Some e0 /\ edit_op e0 = Ok op /\ ops = [op] /\ get j (c_updating (fst w)) = Some [id]
    | Some (RRead j _) => (j < c_next (fst w))%N /\ get j (c_updating (fst w)) = None
    | _ => True
    end -> forall w' : world H, c_task (fst w') = c_task (fst w) -> c_updating (fst w') = c_updating (fst w) -> (c_next (fst w) <= c_next (fst w'))%N ->
    match c_task (fst w') with
    | Some (RModify j ops) => exists id c0 e0 op, In (EUser (USave id), (c0, [])) ((e, w0) :: h) /\ c_next c0 = j /\
        get id (c_edits c0) = Some e0 /\ edit_op e0 = Ok op /\ ops = [op] /\ get j (c_updating (fst w')) = Some [id]
    | Some (RRead j _) => (j < c_next (fst w'))%N /\ get j (c_updating (fst w')) = None
    | _ => True
    end.
  Proof.
    intros T w' -> -> L. destruct (c_task (fst w)) as [[|j b|j ops]|]; auto.
    - destruct T. split; auto. lia.
    - destruct T as (id & c0 & e0 & op & I & T). exists id, c0, e0, op. split; [now right|auto].
  Qed.

  Lemma inv_same h c q e c' : winv h (c, q) -> c_task c' = c_task c -> c_updating c' = c_updating c -> (c_next c <= c_next c')%N ->
    NoDup (pkeys (fun x => x) (c_edits c')) -> Forall (fun x => (fst x < c_next c')%N) (c_edits c') ->
    winv ((e, (c, q)) :: h) (c', q ++ []).
  Proof.
    intros [I1 I2 I3 I4 I5 I6] Et Eu L ND F. cbn [fst snd] in *. constructor; cbn [fst snd]; auto.
    - rewrite app_nil_r, I1. unfold tasks. now rewrite Et.
    - now rewrite Eu.
    - rewrite Eu. eapply fresh_mono; eauto.
    - apply (task_more h e (c, q) (c, q) I6 (c', q)); auto.
  Qed.

  Lemma inv_logs h c q e k : winv h (c, q) -> winv ((e, (c, q)) :: h) (push_logs k c, q ++ []).
  Proof.
    intros I. destruct (push_logs_fields k c) as (_ & _ & _ & E1 & E2 & E3 & L). apply (inv_same h c q e); auto; rewrite E2; destruct I; auto.
    cbn in *. eapply fresh_mono; eauto.
  Qed.

  Lemma tasks_none c : tasks c = [] -> c_task c = None.
  Proof. unfold tasks. now destruct (c_task c). Qed.

  (** What a read sends. *)
  Lemma inv_fetch h0 h c e reload c' sent : winv h0 (c, []) -> start_fetch_project reload c = (c', sent) -> winv ((e, h) :: h0) (c', sent).
  Proof.
    intros I E. assert (T : c_task c = None) by (apply tasks_none; symmetry; apply (wi_one _ _ I)). unfold start_fetch_project in E.
    destruct (c_static c); [|rewrite T in E].
    - injection E as <- <-. apply (inv_logs _ _ _ e 1) in I. destruct I as [I1 I2 I3 I4 I5 I6]. cbn [app] in *.
      assert (T' : c_task (push_logs 1 c) = None) by (destruct (push_logs_fields 1 c) as (_ & _ & _ & -> & _); exact T).
      clear -I1 I2 I3 I4 I5 T'. set (d := push_logs 1 c) in *. clearbody d. constructor; auto. unfold fst. now rewrite T'.
    - injection E as <- <-. destruct I as [I1 I2 I3 I4 I5 I6]. cbn [fst snd] in *. constructor; cbn [fst snd set_task take_next c_edits c_updating c_next c_task]; auto.
      + eapply fresh_mono; eauto; lia.
      + eapply fresh_mono; eauto; lia.
      + split; [lia|]. now apply get_fresh.
  Qed.

  Lemma inv_step h w e w' : winv h w -> wstep heqb dig lim w e w' -> winv ((e, w) :: h) w'.
  Proof.
    intros I S. destruct S as [c q u c' sent E|c q q' r m c' sent A E].
    - destruct u as [| |id|id|id f| |x|ids|]; cbn [act] in E.
      + (* create *)
        unfold open_edit in E. destruct (from_hash dig lim (hash_edit (c_next c))) as [v| |]; try discriminate. cbn in E. injection E as <- <-.
        apply (inv_same h c q); auto; cbn; try lia; destruct I as [I1 I2 I3 I4 I5 I6]; cbn in *.
        * now apply (nodup_insert N.eqb (fun x => x) nspec).
        * apply insert_keys; [eapply fresh_mono; eauto; lia|lia].
      + (* edit *)
        unfold open_edit in E. destruct (from_hash dig lim (hash_edit (c_next c))) as [v| |]; try discriminate. cbn [res_bind update update_batch update_model handle_start take_next c_view c_project] in E.
        destruct (c_view c) as [|n|i|]; try discriminate. destruct (im_get name_eqb n (c_project c)) as [a|]; [|discriminate]. cbn in E. injection E as <- <-.
        apply (inv_same h c q); auto; cbn; try lia; destruct I as [I1 I2 I3 I4 I5 I6]; cbn in *.
        * now apply (nodup_insert N.eqb (fun x => x) nspec).
        * apply insert_keys; [eapply fresh_mono; eauto; lia|lia].
      + (* save *)
        cbn [update update_model] in E. unfold start_send_update in E. destruct (c_task c) as [r|] eqn:T.
        * injection E as <- <-. now apply inv_logs.
        * cbn [res_map] in E. destruct (get id (c_edits c)) as [ed|] eqn:G; [|discriminate]. destruct (edit_op ed) as [op| |] eqn:Eo; try discriminate.
          cbn in E. injection E as <- <-. destruct I as [I1 I2 I3 I4 I5 I6]. cbn [fst snd] in *. unfold tasks in I1. rewrite T in I1. subst q.
          constructor; cbn [fst snd app c_edits c_updating c_next c_task]; auto.
          -- eapply fresh_mono; eauto; lia.
          -- now apply (nodup_insert N.eqb (fun x => x) nspec).
          -- apply insert_keys; [eapply fresh_mono; eauto; lia|lia].
          -- exists id, c, ed, op. repeat split; auto; [now left|]. apply (get_insert_same N.eqb (fun x => x) nspec).
      + (* cancel *)
        cbn [update update_model] in E. unfold quiet in E. destruct (complete_editing heqb dig lim id c) as [c1| |] eqn:Ec; try discriminate. injection E as <- <-.
        apply complete_fields in Ec as (E1 & E2 & E3 & _ & _ & _ & ND & Fr & _); [|apply I].
        apply (inv_same h c q); auto; rewrite ?E3; try lia. apply Fr. apply I.
      + (* type *)
        cbn [update update_model] in E. unfold quiet, handle_edit in E. destruct (get id (c_edits c)) as [ed|] eqn:G; [|discriminate].
        destruct (set_field ed f) as [ed'| |]; try discriminate. cbn in E. injection E as <- <-.
        assert (L : (id < c_next c)%N). { apply (get_some_in N.eqb (fun x => x) nspec) in G as (k & -> & G). pose proof (wi_fresh _ _ I) as F. rewrite Forall_forall in F. apply (F _ G). }
        apply (inv_same h c q); auto; cbn; try lia; destruct I as [I1 I2 I3 I4 I5 I6]; cbn in *.
        * now apply (nodup_insert N.eqb (fun x => x) nspec).
        * apply insert_keys; auto.
      + (* sync *)
        cbn [update update_model] in E. injection E as E. destruct (c_task c) as [r|] eqn:T.
        * unfold start_fetch_project in E. rewrite T in E. destruct (c_static c); injection E as <- <-; now apply inv_logs.
        * pose proof (wi_one _ _ I) as Q. cbn [fst snd] in Q. unfold tasks in Q. rewrite T in Q. subst q. cbn [app]. eapply inv_fetch; eauto.
      + destruct (from_hash dig lim x) as [v| |]; try discriminate. cbn in E. injection E as <- <-. apply (inv_same h c q); auto; cbn; try lia; apply I.
      + cbn in E. injection E as <- <-. apply (inv_same h c q); auto; cbn; try lia; apply I.
      + cbn in E. injection E as <- <-. apply (inv_same h c q); auto; cbn; try lia; apply I.
    - assert (Q : q = [] /\ q' = [] /\ c_task c = Some r).
      { pose proof (wi_one _ _ I) as Q. cbn [fst snd] in Q. unfold tasks in Q. destruct (c_task c) as [r'|]; [|now destruct q].
        destruct q as [|a q]; [injection Q as -> ->; auto|]. injection Q as _ Q. now destruct q. }
      destruct Q as (-> & -> & T). cbn [app] in *.
      assert (Err : forall k, winv ((EAnswer r (MError k), (c, [r])) :: h) (set_task (push_logs k c) None, [])).
      { intros k. apply (inv_logs _ _ _ (EAnswer r (MError k)) k) in I. destruct I as [I1 I2 I3 I4 I5 I6]. constructor; cbn [fst snd set_task c_edits c_updating c_next c_task] in *; auto. }
      assert (Ans : forall j p, m = MProject j p -> get j (c_updating c) = None \/ (exists id, get j (c_updating c) = Some [id]) -> winv ((EAnswer r m, (c, [r])) :: h) (c', sent)).
      { intros j p -> G. cbn [update update_model] in E. unfold quiet in E. destruct (handle_recv_project heqb dig lim j p c) as [c1| |] eqn:Ec; try discriminate. injection E as <- <-.
        unfold handle_recv_project in Ec. cbn [set_task set_project c_updating c_static c_project c_view c_task c_logs c_edits c_next] in Ec.
        destruct I as [I1 I2 I3 I4 I5 I6]. cbn [fst snd] in *. destruct G as [G|[id G]]; rewrite G in Ec.
        - injection Ec as <-. constructor; cbn; auto.
        - cbn [complete_all] in Ec. match type of Ec with context [complete_editing _ _ _ _ ?x] => set (c2 := x) in Ec end.
          destruct (complete_editing heqb dig lim id c2) as [c3| |] eqn:Ec'; try discriminate. injection Ec as <-.
          apply complete_fields in Ec' as (E1 & E2 & E3 & _ & _ & _ & ND & Fr & _); [|exact I2]. cbn in E1, E2, E3.
          constructor; cbn [fst snd].
          + unfold tasks. now rewrite E1.
          + auto.
          + rewrite E3. now apply Fr.
          + rewrite E2. now apply (nodup_remove N.eqb (fun x => x) nspec).
          + rewrite E2, E3. now apply remove_keys.
          + now rewrite E1. }
      pose proof (wi_task _ _ I) as Tk. cbn [fst] in Tk. rewrite T in Tk.
      destruct r as [|j b|j ops], m; cbn [answers] in A; try contradiction.
      + cbn [update update_model] in E. destruct static.
        * injection E as <- <-. destruct I as [I1 I2 I3 I4 I5 I6]. constructor; cbn; auto.
        * match type of E with Ok (start_fetch_project _ ?x) = _ => set (c1 := x) in E end. assert (E' : start_fetch_project false c1 = (c', sent)) by congruence.
          assert (I0 : winv h (c1, [])). { destruct I as [I1 I2 I3 I4 I5 I6]. constructor; cbn; auto. }
          eapply inv_fetch in I0; [exact I0|eauto].
      + cbn [update update_model] in E. injection E as <- <-. apply Err.
      + subst. eapply Ans; [reflexivity|]. left. apply Tk.
      + cbn [update update_model] in E. injection E as <- <-. apply Err.
      + subst. eapply Ans; [reflexivity|]. right. destruct Tk as (id & _ & _ & _ & _ & _ & _ & _ & _ & G). eauto.
      + cbn [update update_model] in E. injection E as <- <-. apply Err.
  Qed.

  Lemma answered h c q q' r : winv h (c, q ++ r :: q') -> q = [] /\ q' = [] /\ c_task c = Some r.
  Proof.
    intros I. pose proof (wi_one _ _ I) as Q. cbn [fst snd] in Q. unfold tasks in Q. destruct (c_task c) as [r'|]; [|now destruct q].
    destruct q as [|a q]; [injection Q as -> ->; auto|]. injection Q as _ Q. now destruct q.
  Qed.

  (** The first request, and whether the client is static. *)
  Lemma step_static h w e w' : winv h w -> wstep heqb dig lim w e w' ->
    (c_task (fst w) <> Some RInitial -> c_static (fst w') = c_static (fst w) /\ c_task (fst w') <> Some RInitial) /\
    (c_task (fst w') = Some RInitial -> c_task (fst w) = Some RInitial /\ c_static (fst w') = c_static (fst w)) /\
    (forall r m, e = EAnswer r m -> c_task (fst w) = Some r /\ c_task (fst w') <> Some RInitial /\ (m = MError 1 -> c_static (fst w') = c_static (fst w))).
  Proof.
    intros I S. destruct S as [c q u c' sent E|c q q' r m c' sent A E]; cbn [fst].
    - assert (X : c_static c' = c_static c /\ (c_task c' = c_task c \/ c_task c' <> Some RInitial)); [|destruct X as [X1 [X2|X2]]; rewrite ?X1, ?X2; repeat split; try discriminate; auto; contradiction].
      destruct (push_logs_fields 1 c) as (P1 & _ & _ & P4 & _).
      destruct u as [| |id|id|id f| |x|ids|]; cbn [act] in E.
      + unfold open_edit in E. destruct (from_hash dig lim (hash_edit (c_next c))) as [v| |]; try discriminate. cbn in E. injection E as <- <-. cbn. auto.
      + unfold open_edit in E. destruct (from_hash dig lim (hash_edit (c_next c))) as [v| |]; try discriminate. cbn [res_bind update update_batch update_model handle_start take_next c_view c_project] in E.
        destruct (c_view c) as [|n|i|]; try discriminate. destruct (im_get name_eqb n (c_project c)) as [a|]; [|discriminate]. cbn in E. injection E as <- <-. cbn. auto.
      + cbn [update update_model] in E. unfold start_send_update in E. destruct (c_task c) as [r|] eqn:T.
        * assert (c' = push_logs 1 c) by congruence. subst c'. split; [exact P1|left; congruence].
        * destruct (res_map _ [id]) as [ops| |]; try discriminate. cbn in E. injection E as <- <-. cbn. split; auto. right. discriminate.
      + cbn [update update_model] in E. unfold quiet in E. destruct (complete_editing heqb dig lim id c) as [c1| |] eqn:Ec; try discriminate. injection E as <- <-.
        apply complete_fields in Ec as (E1 & E2 & E3 & E4 & _); [|apply I]. auto.
      + cbn [update update_model] in E. unfold quiet, handle_edit in E. destruct (get id (c_edits c)) as [ed|]; [|discriminate].
        destruct (set_field ed f) as [ed'| |]; try discriminate. cbn in E. injection E as <- <-. cbn. auto.
      + cbn [update update_model] in E. unfold start_fetch_project in E. destruct (c_static c) eqn:Es.
        * assert (c' = push_logs 1 c) by congruence. subst c'. rewrite P1, P4. auto.
        * destruct (c_task c) as [r|] eqn:T; [assert (c' = push_logs 1 c) by congruence; subst c'; split; [congruence|left; congruence]|]. injection E as <- <-. cbn. split; auto. right. discriminate.
      + destruct (from_hash dig lim x) as [v| |]; try discriminate. cbn in E. injection E as <- <-. auto.
      + cbn in E. injection E as <- <-. auto.
      + cbn in E. injection E as <- <-. auto.
    - destruct (answered _ _ _ _ _ I) as (-> & -> & T).
      assert (X : c_task c' <> Some RInitial /\ (r <> RInitial \/ m = MError 1 -> c_static c' = c_static c)).
      { destruct (push_logs_fields 1 c) as (P1 & _).
        pose proof (wi_task _ _ I) as Tk. cbn [fst] in Tk. rewrite T in Tk.
        destruct r as [|j b|j ops], m; cbn [answers] in A; try contradiction; subst; cbn [update update_model] in E.
        - split; [|intros [X|X]; [congruence|discriminate]]. destruct static; [injection E as <- <-; discriminate|]. unfold start_fetch_project in E. cbn in E. injection E as <- <-. discriminate.
        - assert (c' = set_task (push_logs 1 c) None) by congruence. subst c'. split; [discriminate|]. intros _. exact P1.
        - unfold quiet, handle_recv_project in E. cbn [set_task set_project c_updating] in E. destruct Tk as [_ Tk]. rewrite Tk in E. injection E as <- <-. split; [discriminate|reflexivity].
        - assert (c' = set_task (push_logs 1 c) None) by congruence. subst c'. split; [discriminate|]. intros _. exact P1.
        - destruct Tk as (i & c0 & e0 & op & Ih & <- & G0 & Eo & -> & Gu). unfold quiet, handle_recv_project in E. cbn [set_task set_project c_updating] in E. rewrite Gu in E.
          cbn [complete_all] in E. match type of E with context [complete_editing _ _ _ _ ?x] => set (c2 := x) in E end.
          destruct (complete_editing heqb dig lim i c2) as [c3| |] eqn:Ec; try discriminate. injection E as <- <-.
          apply complete_fields in Ec as (E1 & _ & _ & E4 & _); [|apply I]. rewrite E1, E4. split; [discriminate|reflexivity].
        - assert (c' = set_task (push_logs 1 c) None) by congruence. subst c'. split; [discriminate|]. intros _. exact P1. }
      destruct X as [X1 X2]. rewrite T. split; [|split].
      + intros Nr. split; auto. apply X2. left. congruence.
      + contradiction.
      + intros r' m' [= <- <-]. repeat split; auto.
  Qed.

  Lemma inv_history p v h w : history heqb dig lim p v h w -> winv h w.
  Proof. induction 1; [apply inv_start|]. eapply inv_step; eauto. Qed.
End Facts.
