(** Facts about the server together with its pages. *)
From Coq Require Import Lia ZifyBool Relation_Operators.
From Verif Require Import Base BaseFacts Name Artifact Stored Markdown Lint Source Pool Load Disk Walk Modify SpecModify NameFacts PropModify Server SpecServer ServerFacts ServerCalls Web WebSave WebFacts PropWeb System.
Open Scope nat_scope.

Lemma ok_inj {A} (a b : A) : Ok a = Ok b -> a = b.
Proof. congruence. Qed.

(** The counter of a page never goes back, and a request takes a number. *)
Section Numbers.
  Context {H : Type} (heqb : H -> H -> bool) (dig : char -> bool) (lim : N).
  Lemma complete_next id (c c' : client H) : complete_editing heqb dig lim id c = Ok c' -> c_next c' = c_next c.
  Proof.
    unfold complete_editing. destruct (im_get N.eqb id (c_edits c)) as [e|]; [|intros [= <-]; reflexivity]. destruct (at_edit (c_view c) id); [|intros [= <-]; reflexivity].
    destruct (route_after heqb (c_project c) e) as [r| |]; try discriminate. cbn [res_bind]. destruct (from_hash dig lim r) as [v| |]; try discriminate. cbn [res_bind]. intros [= <-]. reflexivity.
  Qed.
  Lemma complete_all_next ids (c c' : client H) : complete_all heqb dig lim ids c = Ok c' -> c_next c' = c_next c.
  Proof.
    revert c. induction ids as [|i ids IH]; cbn [complete_all]; intros c; [intros [= <-]; reflexivity|].
    destruct (complete_editing heqb dig lim i c) as [c1| |] eqn:E; try discriminate. cbn [res_bind]. intros X. rewrite (IH _ X). eapply complete_next; eauto.
  Qed.
  Lemma fetch_next b (c c' : client H) sent : start_fetch_project b c = (c', sent) -> (c_next c <= c_next c')%N /\ (sent <> [] -> (c_next c < c_next c')%N).
  Proof.
    unfold start_fetch_project. destruct (push_logs_fields 1 c) as (_ & _ & _ & _ & _ & _ & L). destruct (c_static c); [|destruct (c_task c)]; intros E; injection E as <- <-; (split; [try exact L; cbn; lia|]); intros X; try congruence; cbn; lia.
  Qed.
  Lemma update_model_next m (c c' : client H) sent : update_model heqb dig lim m c = Ok (c', sent) -> (c_next c <= c_next c')%N /\ (sent <> [] -> (c_next c < c_next c')%N).
  Proof.
    assert (Q : forall r, (forall c1, r = Ok c1 -> c_next c1 = c_next c) -> quiet r = Ok (c', sent) -> (c_next c <= c_next c')%N /\ (sent <> [] -> (c_next c < c_next c')%N)).
    { intros [c1| |] Hr E; try discriminate E. injection E as <- <-. rewrite (Hr c1 eq_refl). split; [lia|congruence]. }
    destruct m; cbn [update_model]; intros E; try discriminate E.
    - injection E as <- <-. cbn. split; [lia|congruence].
    - injection E as <- <-. split; [lia|congruence].
    - destruct static; [injection E as <- <-; cbn; split; [lia|congruence]|]. apply ok_inj in E. apply fetch_next in E. exact E.
    - apply ok_inj in E. now apply fetch_next in E.
    - unfold start_send_update in E. destruct (push_logs_fields 1 c) as (_ & _ & _ & _ & _ & _ & L). destruct (c_task c).
      + injection E as <- <-. split; [exact L|congruence].
      + destruct (res_map _ ids) as [ops| |]; try discriminate E. injection E as <- <-. cbn. lia.
    - apply Q in E; auto. intros c1. unfold handle_recv_project. cbn [set_task set_project c_updating]. destruct (im_get N.eqb jid (c_updating c)); [|intros [= <-]; reflexivity]. intros X. apply complete_all_next in X. exact X.
    - destruct (push_logs_fields logs c) as (_ & _ & _ & _ & _ & _ & L). injection E as <- <-. cbn [set_task c_next]. split; [exact L|congruence].
    - destruct (push_logs_fields logs c) as (_ & _ & _ & _ & _ & _ & L). injection E as <- <-. split; [exact L|congruence].
    - injection E as <- <-. cbn. split; [lia|congruence].
    - apply Q in E; auto. intros c1. unfold handle_edit. destruct (im_get N.eqb id (c_edits c)) as [e|]; try discriminate. destruct (set_field e f); try discriminate. cbn. intros [= <-]. reflexivity.
    - apply Q in E; auto. intros c1. unfold handle_start. destruct current; [|intros [= <-]; reflexivity]. destruct (c_view c) as [|n|i|]; try discriminate. destruct (im_get name_eqb n (c_project c)); try discriminate. intros [= <-]. reflexivity.
    - apply Q in E; auto. intros c1. apply complete_next.
  Qed.
  Lemma batch_next l (c c' : client H) sent : update_batch heqb dig lim l c = Ok (c', sent) -> (c_next c <= c_next c')%N /\ (sent <> [] -> (c_next c < c_next c')%N).
  Proof.
    revert c c' sent. induction l as [|m l IH]; cbn [update_batch]; intros c c' sent E; [injection E as <- <-; split; [lia|congruence]|].
    destruct (update_model heqb dig lim m c) as [[c1 s1]| |] eqn:E1; cbn [res_bind] in E; try discriminate E. cbn [fst snd] in E.
    destruct (update_batch heqb dig lim l c1) as [[c2 s2]| |] eqn:E2; cbn [res_bind] in E; try discriminate E. cbn [fst snd] in E. injection E as <- <-.
    apply update_model_next in E1 as [A1 B1]. apply IH in E2 as [A2 B2]. split; [lia|]. intros Ne. destruct s1; [|assert (c_next c < c_next c1)%N by (apply B1; discriminate); lia].
    assert (c_next c1 < c_next c2)%N by (apply B2; exact Ne). lia.
  Qed.
  Lemma update_next m (c c' : client H) sent : update heqb dig lim m c = Ok (c', sent) -> (c_next c <= c_next c')%N /\ (sent <> [] -> (c_next c < c_next c')%N).
  Proof. intros E. destruct m; try exact (update_model_next _ _ _ _ E). exact (batch_next _ _ _ _ E). Qed.
  Lemma act_next u (c c' : client H) sent : act heqb dig lim u c = Ok (c', sent) -> (c_next c <= c_next c')%N /\ (sent <> [] -> (c_next c < c_next c')%N).
  Proof.
    assert (O : forall b, open_edit heqb dig lim b c = Ok (c', sent) -> (c_next c <= c_next c')%N /\ (sent <> [] -> (c_next c < c_next c')%N)).
    { intros b. unfold open_edit. destruct (from_hash dig lim (hash_edit (c_next c))) as [v| |]; try discriminate. cbn [res_bind]. intros E. apply update_next in E. cbn [take_next c_next] in E. lia. }
    destruct u; cbn [act]; intros E; try (apply update_next in E; exact E); try (now apply O in E).
    destruct (from_hash dig lim h) as [v| |]; try discriminate. cbn [res_bind] in E. apply update_next in E. exact E.
  Qed.
  (** Only Save sends modifications. *)
  Lemma fetch_sends b (c c' : client H) sent j ops : start_fetch_project b c = (c', sent) -> ~ In (RModify j ops) sent.
  Proof. unfold start_fetch_project. destruct (c_static c); [|destruct (c_task c)]; intros [= <- <-]; cbn; intuition discriminate. Qed.
  Lemma answer_sends r m (c c' : client H) sent j ops : answers r m -> update heqb dig lim m c = Ok (c', sent) -> ~ In (RModify j ops) sent.
  Proof.
    assert (Q : forall r0, quiet r0 = Ok (c', sent) -> ~ In (RModify j ops) sent) by (intros [c1| |] E; try discriminate E; injection E as <- <-; auto).
    intros A E. destruct r, m; cbn [answers] in A; try contradiction; cbn [update update_model] in E; try (eapply Q; exact E); try (injection E as <- <-; auto; fail).
    destruct static; [injection E as <- <-; auto|]. apply ok_inj in E. eapply fetch_sends; eauto.
  Qed.
  Lemma user_sends u (c c' : client H) sent j ops : act heqb dig lim u c = Ok (c', sent) -> In (RModify j ops) sent -> (exists id, u = USave id) /\ j = c_next c /\ c_task c = None.
  Proof.
    assert (Q : forall r0, quiet r0 = Ok (c', sent) -> ~ In (RModify j ops) sent) by (intros [c1| |] E; try discriminate E; injection E as <- <-; auto).
    assert (O : forall b, open_edit heqb dig lim b c = Ok (c', sent) -> ~ In (RModify j ops) sent).
    { intros b. unfold open_edit. destruct (from_hash dig lim (hash_edit (c_next c))) as [v| |]; try discriminate. cbn [res_bind update update_batch update_model]. unfold quiet.
      destruct (handle_start (c_next c) b (take_next c)) as [c1| |]; try discriminate. cbn [res_bind fst snd app]. intros [= <- <-]. auto. }
    destruct u; cbn [act]; intros E I.
    - destruct (O _ E I).
    - destruct (O _ E I).
    - cbn [update update_model] in E. unfold start_send_update in E. destruct (c_task c); [injection E as <- <-; destruct I|].
      destruct (res_map _ [id]) as [l| |]; try discriminate E. injection E as <- <-. destruct I as [I|[]]. injection I as <- <-. eauto.
    - destruct (Q _ E I).
    - destruct (Q _ E I).
    - apply ok_inj in E. destruct (fetch_sends _ _ _ _ _ _ E I).
    - destruct (from_hash dig lim h) as [v| |]; try discriminate. injection E as <- <-. destruct I.
    - injection E as <- <-. destruct I.
    - injection E as <- <-. destruct I.
  Qed.
End Numbers.

(** What a page shows and what its forms were opened on. *)
Section Shown.
  Context {H : Type} (heqb : H -> H -> bool) (dig : char -> bool) (lim : N).
  Definition from_edits (c c' : client H) : Prop :=
    forall id ed', In (id, ed') (c_edits c') -> (exists id' ed, In (id', ed) (c_edits c) /\ e_orig ed = e_orig ed') \/ e_orig ed' = None \/
      exists n a, In (n, a) (c_project c) /\ e_orig ed' = Some (sa_id a).
  Lemma from_refl (c c' : client H) : c_edits c' = c_edits c -> from_edits c c'.
  Proof. intros E id ed I. rewrite E in I. eauto. Qed.
  Lemma insert_in {V} k (v : V) m x w : In (x, w) (im_insert N.eqb k v m) -> In (x, w) m \/ w = v.
  Proof.
    induction m as [|[a b] m IH]; cbn [im_insert]; [intros [I|[]]; right; congruence|]. destruct (N.eqb a k); intros [I|I]; try (injection I as <- <-); auto; [left; now right|left; now left|]. destruct (IH I); auto. left. now right.
  Qed.
  Lemma remove_sub {V} k (m : list (N * V)) x : In x (im_remove N.eqb k m) -> In x m.
  Proof.
    induction m as [|[a b] m IH]; cbn [im_remove]; auto. destruct (N.eqb a k).
    - unfold swap_last. destruct (rev m) as [|y r] eqn:E; [intros []|]. intros I. right. apply in_rev. rewrite E. destruct I as [I|I]; [now left|]. right. now apply in_rev in I.
    - intros [I|I]; [now left|right; auto].
  Qed.
  Lemma complete_shown id (c c' : client H) : complete_editing heqb dig lim id c = Ok c' -> c_project c' = c_project c /\ forall x, In x (c_edits c') -> In x (c_edits c).
  Proof.
    unfold complete_editing. destruct (im_get N.eqb id (c_edits c)) as [e|]; [|intros [= <-]; auto]. destruct (at_edit (c_view c) id).
    - destruct (route_after heqb (c_project c) e) as [r| |]; try discriminate. cbn [res_bind]. destruct (from_hash dig lim r) as [v| |]; try discriminate. cbn [res_bind]. intros [= <-]. cbn. split; auto. intros x. apply remove_sub.
    - intros [= <-]. cbn. split; auto. intros x. apply remove_sub.
  Qed.
  Lemma complete_all_shown ids (c c' : client H) : complete_all heqb dig lim ids c = Ok c' -> c_project c' = c_project c /\ forall x, In x (c_edits c') -> In x (c_edits c).
  Proof.
    revert c. induction ids as [|i ids IH]; cbn [complete_all]; intros c; [intros [= <-]; auto|].
    destruct (complete_editing heqb dig lim i c) as [c1| |] eqn:E; try discriminate. cbn [res_bind]. intros X. apply IH in X as [X1 X2]. apply complete_shown in E as [Y1 Y2]. split; [congruence|auto].
  Qed.
  Definition new_project (m : msg H) (p : sproject H) : sproject H := match m with MProject _ q => q | MInitial _ (Some q) => q | _ => p end.
  Lemma set_field_orig (e e' : edit H) f : set_field e f = Ok e' -> e_orig e' = e_orig e.
  Proof. destruct f; cbn [set_field set_partof]; try (intros [= <-]; reflexivity); [destruct (list_set i x (e_partof e))|destruct (list_del i (e_partof e))]; try discriminate; intros [= <-]; reflexivity. Qed.
  Lemma fetch_shown b (c c' : client H) sent : start_fetch_project b c = (c', sent) -> c_project c' = c_project c /\ c_edits c' = c_edits c.
  Proof.
    unfold start_fetch_project. destruct (push_logs_fields 1 c) as (_ & P & _ & _ & E & _). destruct (c_static c); [|destruct (c_task c)]; intros X; injection X as <- <-; auto.
  Qed.
  Lemma update_shown m (c c' : client H) sent : update_model heqb dig lim m c = Ok (c', sent) -> c_project c' = new_project m (c_project c) /\ from_edits c c'.
  Proof.
    assert (Sub : forall c1 : client H, (forall x, In x (c_edits c1) -> In x (c_edits c)) -> from_edits c c1) by (intros c1 X id ed I; left; eauto).
    destruct m; cbn [update_model new_project]; intros E; try discriminate E.
    - injection E as <- <-. split; [reflexivity|now apply from_refl].
    - injection E as <- <-. split; [reflexivity|now apply from_refl].
    - assert (X : c_project c' = match p with Some q => q | None => c_project c end /\ c_edits c' = c_edits c).
      { destruct static; [injection E as <- <-; auto|]. apply ok_inj in E. apply fetch_shown in E. exact E. }
      destruct X as [X1 X2]. split; [rewrite X1; now destruct p|now apply from_refl].
    - apply ok_inj in E. apply fetch_shown in E as [X1 X2]. split; [exact X1|now apply from_refl].
    - unfold start_send_update in E. destruct (push_logs_fields 1 c) as (_ & P & _ & _ & Ee & _). destruct (c_task c).
      + injection E as <- <-. split; [exact P|now apply from_refl].
      + destruct (res_map _ ids) as [ops| |]; try discriminate E. injection E as <- <-. split; [reflexivity|now apply from_refl].
    - unfold quiet in E. destruct (handle_recv_project heqb dig lim jid p c) as [c1| |] eqn:Ec; try discriminate E. injection E as <- <-. unfold handle_recv_project in Ec. cbn [set_task set_project c_updating] in Ec.
      destruct (im_get N.eqb jid (c_updating c)); [|injection Ec as <-; split; [reflexivity|now apply from_refl]]. apply complete_all_shown in Ec as [X1 X2]. split; [exact X1|]. apply Sub. intros x Hx. apply X2 in Hx. exact Hx.
    - destruct (push_logs_fields logs c) as (_ & P & _ & _ & Ee & _). injection E as <- <-. cbn [set_task c_project]. split; [exact P|now apply from_refl].
    - destruct (push_logs_fields logs c) as (_ & P & _ & _ & Ee & _). injection E as <- <-. split; [exact P|now apply from_refl].
    - injection E as <- <-. split; [reflexivity|now apply from_refl].
    - unfold quiet, handle_edit in E. destruct (im_get N.eqb id (c_edits c)) as [e|] eqn:G; try discriminate. destruct (set_field e f) as [e'| |] eqn:Ef; try discriminate. cbn in E. injection E as <- <-. split; [reflexivity|].
      intros i ed I. cbn [c_edits set_edits] in I. apply insert_in in I as [I| ->]; [left; eauto|]. left. apply (get_some_in N.eqb (fun x => x) N.eqb_eq) in G as (i' & _ & G). exists i', e. split; auto. symmetry. eapply set_field_orig; eauto.
    - unfold quiet, handle_start in E. destruct current.
      + destruct (c_view c) as [|n|i|]; try discriminate. destruct (im_get name_eqb n (c_project c)) as [a|] eqn:G; try discriminate. cbn in E. injection E as <- <-. split; [reflexivity|].
        intros i ed I. cbn [c_edits set_edits] in I. apply insert_in in I as [I| ->]; [left; eauto|]. right. right. apply (get_some_in name_eqb nk name_eqb_iff) in G as (n' & _ & G). exists n', a. auto.
      + injection E as <- <-. split; [reflexivity|]. intros i ed I. cbn [c_edits set_edits] in I. apply insert_in in I as [I| ->]; [left; eauto|]. right. now left.
    - unfold quiet in E. destruct (complete_editing heqb dig lim id c) as [c1| |] eqn:Ec; try discriminate. injection E as <- <-. apply complete_shown in Ec as [X1 X2]. split; auto.
  Qed.
  Lemma act_shown u (c c' : client H) sent : act heqb dig lim u c = Ok (c', sent) -> c_project c' = c_project c /\ from_edits c c'.
  Proof.
    assert (O : forall b, open_edit heqb dig lim b c = Ok (c', sent) -> c_project c' = c_project c /\ from_edits c c').
    { intros b. unfold open_edit. destruct (from_hash dig lim (hash_edit (c_next c))) as [v| |]; try discriminate. cbn [res_bind update update_batch].
      destruct (update_model heqb dig lim (MStart (c_next c) b) (take_next c)) as [[c1 s1]| |] eqn:E1; try discriminate. cbn [res_bind fst snd update_model]. intros E. injection E as <- <-. apply update_shown in E1 as [X1 X2].
      split; [exact X1|]. intros i ed I. exact (X2 i ed I). }
    destruct u; cbn [act]; intros E; try exact (update_shown _ _ _ _ E); try exact (O _ E).
    destruct (from_hash dig lim h) as [v| |]; try discriminate. cbn [res_bind] in E. exact (update_shown (MView v) _ _ _ E).
  Qed.
End Shown.

Lemma set_same {H} k (w w0 : world H) l : nth_error l k = Some w0 -> nth_error (set_page H k w l) k = Some w.
Proof.
  revert l. induction k as [|k IH]; intros [|x l]; try discriminate; unfold set_page; cbn; auto. apply IH.
Qed.
Lemma set_other {H} k i (w w0 : world H) l : nth_error l k = Some w0 -> i <> k -> nth_error (set_page H k w l) i = nth_error l i.
Proof.
  revert l i. induction k as [|k IH]; intros [|x l] [|i]; try discriminate; unfold set_page; cbn; auto; try congruence. intros E Ne. apply IH; auto.
Qed.

Section Facts.
  Variables (path_str : path -> str) (M : num) (topo : graph -> option (list nat)) (H : Type) (heqb : H -> H -> bool) (hash_im : art_im -> H) (debug_im : art_im -> str) (st : settings)
    (to_toml to_json : list (name * art_raw) -> str) (yaml_done : str -> str) (style : md_attrs) (load : node -> res (lints * project M H + lints) -> Prop)
    (enc : path -> str) (dec : str -> option path) (dig : char -> bool) (lim : N) (first : sproject H).
  Notation ystep := (ystep path_str M topo H heqb hash_im debug_im st to_toml to_json yaml_done style load enc dec dig lim first).
  Notation happened := (happened path_str M topo H heqb hash_im debug_im st to_toml to_json yaml_done style load enc dec dig lim first).
  Notation serves := (serves _ _ _ _ _ (call_read M H load) (call_modify path_str M topo H heqb hash_im debug_im st load)
    (call_goes path_str M H st to_toml to_json yaml_done style) (call_ended M H)).
  Notation sys := (sys M H).
  Notation told := (told M H enc).
  Implicit Types (l : list (sys * label M H * sys)) (y : sys).

  Lemma happened_step d p l y y0 e y1 : happened d p l y -> In (y0, e, y1) l -> ystep y0 e y1.
  Proof. induction 1 as [|l y e' y' Hh IH S]; intros I; [destruct I|]. destruct I as [I|I]; [injection I as -> -> ->; exact S|auto]. Qed.
  Lemma happened_cut d p l y l1 y0 e y1 l2 : happened d p l y -> l = l1 ++ (y0, e, y1) :: l2 -> happened d p l2 y0.
  Proof.
    intros Hh. revert l1. induction Hh as [|l y e' y' Hh IH S]; intros l1 E; [destruct l1; discriminate E|]. destruct l1 as [|z l1]; cbn [app] in E.
    - injection E as -> -> -> ->. exact Hh.
    - injection E as _ E. eauto.
  Qed.
  Lemma told_answers r a m : told r a = Some m -> answers r m.
  Proof. destruct a, r; cbn; intros [= <-]; reflexivity. Qed.
  (** What is on its way back was answered. *)
  Lemma back_inv d p l y : happened d p l y -> forall k r m, In (k, r, m) (y_back _ _ y) ->
    (r = RInitial /\ m = MInitial false None) \/ exists y0 a y1, In (y0, LServe k r a, y1) l /\ told r a = Some m.
  Proof.
    induction 1 as [|l y e y' Hh IH S]; intros k r m I; [destruct I|].
    assert (IH' : In (k, r, m) (y_back _ _ y) -> (r = RInitial /\ m = MInitial false None) \/ exists y0 a y1, In (y0, LServe k r a, y1) ((y, e, y') :: l) /\ told r a = Some m).
    { intros J. apply IH in J as [J|(y0 & a & y1 & J & T)]; auto. right. exists y0, a, y1. split; [now right|auto]. }
    destruct S; cbn [y_back] in *; auto.
    - apply in_app_or in I as [I|[I|[]]]; auto. injection I as <- <- <-. auto.
    - apply in_app_or in I as [I|I]; auto. destruct (told r0 a) as [m'|] eqn:T; [|destruct I]. destruct I as [I|[]]. injection I as <- <- <-. right. eexists _, a, _. split; [now left|auto].
    - apply IH'. apply in_app_or in I as [I|I]; apply in_or_app; [now left|right; now right].
  Qed.
  Definition as_event (k : nat) (ev : event H) (e : label M H) : Prop :=
    match ev with
    | EUser u => e = LUser k u
    | EAnswer r m => e = LArrive k r m \/ (e = LGiveUp k r /\ m = MError 1)
    end.
  (** A step of the system is a step of one page, or of none. *)
  Lemma page_step d p l y e y' k w : happened d p l y -> ystep y e y' -> nth_error (y_pages _ _ y) k = Some w ->
    nth_error (y_pages _ _ y') k = Some w \/ exists ev w', as_event k ev e /\ wstep heqb dig lim w ev w' /\ nth_error (y_pages _ _ y') k = Some w'.
  Proof.
    intros Hh S G. pose proof (back_inv _ _ _ _ Hh) as B. destruct S as [g n b d0 q x v|g n b d0 q x i u c qs c' sent Gi A|g n n' b d0 q x i|g n n' b d0 q x i r qq a d' p' x' As Sv|g n b b' d0 q x i r m c qs qs' c' sent Gi A|g n b d0 q x i r c qs qs' c' sent Gi A|g n b d0 q x d'];
      cbn [y_pages y_back] in *; auto.
    - left. rewrite nth_error_app1; auto. apply nth_error_Some. congruence.
    - destruct (Nat.eq_dec k i) as [->|Ne]; [|left; erewrite set_other by eauto; exact G]. pose proof (eq_trans (eq_sym Gi) G) as Z; injection Z as <-. right. exists (EUser u), (c', qs ++ sent).
      split; [reflexivity|]. split; [now constructor|]. eapply set_same; eauto.
    - destruct (Nat.eq_dec k i) as [->|Ne]; [|left; erewrite set_other by eauto; exact G]. pose proof (eq_trans (eq_sym Gi) G) as Z; injection Z as <-. right. exists (EAnswer r m), (c', qs ++ qs' ++ sent).
      split; [now left|]. split; [|eapply set_same; eauto]. constructor; auto. destruct (B i r m) as [[-> ->]|(y0 & a & y1 & _ & T)]; [apply in_elt|exact Logic.I|eapply told_answers; eauto].
    - destruct (Nat.eq_dec k i) as [->|Ne]; [|left; erewrite set_other by eauto; exact G]. pose proof (eq_trans (eq_sym Gi) G) as Z; injection Z as <-. right. exists (EAnswer r (MError 1)), (c', qs ++ qs' ++ sent).
      split; [now right|]. split; [|eapply set_same; eauto]. constructor; auto. destruct r; reflexivity.
  Qed.
  (** What happens on a page is a history of the client. *)
  Lemma page_history d p l y k w : happened d p l y -> nth_error (y_pages _ _ y) k = Some w ->
    exists v h, history heqb dig lim first v h w /\ forall ev w0, In (ev, w0) h -> exists y0 e y1, In (y0, e, y1) l /\ as_event k ev e /\ nth_error (y_pages _ _ y0) k = Some w0.
  Proof.
    intros Hh. revert w. induction Hh as [|l y e y' Hh IH S]; intros w G; [destruct k; discriminate G|].
    destruct (nth_error (y_pages _ _ y) k) as [w0|] eqn:G0.
    - destruct (IH w0 eq_refl) as (v & h & Hi & Co).
      assert (Co' : forall ev w0, In (ev, w0) h -> exists y0 e0 y1, In (y0, e0, y1) ((y, e, y') :: l) /\ as_event k ev e0 /\ nth_error (y_pages _ _ y0) k = Some w0).
      { intros ev w1 I. apply Co in I as (y0 & e0 & y1 & I & X). exists y0, e0, y1. split; [now right|auto]. }
      destruct (page_step _ _ _ _ _ _ _ _ Hh S G0) as [G1|(ev & w' & Ae & Ws & G1)]; rewrite G in G1; injection G1 as <-; [eauto|].
      exists v, ((ev, w0) :: h). split; [econstructor; eauto|]. intros ev' w1 [I|I]; [|auto]. injection I as <- <-. exists y, e, y'. split; [now left|auto].
    - assert (X : exists v, w = start first v); [|destruct X as [v ->]; exists v, []; split; [constructor|intros ev w1 []]].
      destruct S as [g n b d0 q x v|g n b d0 q x i u c qs c' sent Gi A|g n n' b d0 q x i|g n n' b d0 q x i r qq a d' p' x' As Sv|g n b b' d0 q x i r m c qs qs' c' sent Gi A|g n b d0 q x i r c qs qs' c' sent Gi A|g n b d0 q x d'];
        cbn [y_pages] in *; try congruence.
      + apply nth_error_None in G0. rewrite nth_error_app2 in G by lia. destruct (k - length g) as [|z] eqn:Ez; cbn in G; [injection G as <-; eauto|destruct z; discriminate G].
      + destruct (Nat.eq_dec k i) as [->|Ne]; [congruence|]. erewrite set_other in G by eauto. congruence.
      + destruct (Nat.eq_dec k i) as [->|Ne]; [congruence|]. erewrite set_other in G by eauto. congruence.
      + destruct (Nat.eq_dec k i) as [->|Ne]; [congruence|]. erewrite set_other in G by eauto. congruence.
  Qed.
  (** The counters of the pages. *)
  Lemma page_next d p l y k w : happened d p l y -> nth_error (y_pages _ _ y) k = Some w ->
    forall y0 e y1 w0, In (y0, e, y1) l -> nth_error (y_pages _ _ y0) k = Some w0 -> (c_next (fst w0) <= c_next (fst w))%N.
  Proof.
    intros Hh. revert w. induction Hh as [|l y e y' Hh IH S]; intros w G y0 e0 y1 w0 I G0; [destruct I|].
    assert (X : exists w1, nth_error (y_pages _ _ y) k = Some w1 /\ (c_next (fst w0) <= c_next (fst w1))%N).
    { destruct I as [I|I]; [injection I as -> -> ->; exists w0; split; [exact G0|lia]|].
      destruct (nth_error (y_pages _ _ y) k) as [w1|] eqn:G1; [exists w1; split; auto; eapply IH; eauto|]. exfalso.
      clear IH G S. revert y0 e0 y1 w0 I G0 G1. induction Hh as [|l y e2 y2 Hh IH S]; intros y0 e0 y1 w0 I G0 G1; [destruct I|].
      assert (Z : exists w3, nth_error (y_pages _ _ y) k = Some w3).
      { destruct I as [I|I]; [injection I as -> -> ->; eauto|]. destruct (nth_error (y_pages _ _ y) k) as [w3|] eqn:G3; eauto. destruct (IH _ _ _ _ I G0 eq_refl). }
      destruct Z as [w3 G3]. destruct (page_step _ _ _ _ _ _ _ _ Hh S G3) as [Z|(ev & w' & _ & _ & Z)]; congruence. }
    destruct X as (w1 & G1 & L). destruct (page_step _ _ _ _ _ _ _ _ Hh S G1) as [Z|(ev & w' & Ae & Ws & Z)]; rewrite G in Z; injection Z as ->; auto.
    enough (c_next (fst w1) <= c_next (fst w'))%N by lia. destruct Ws as [c q u c' sent E|c q q' r m c' sent A E]; cbn [fst]; [apply act_next in E|apply update_next in E]; apply E.
  Qed.
  (** A modification on its way was sent by Save. *)
  Lemma net_inv d p l y : happened d p l y -> forall k j ops, In (k, RModify j ops) (y_net _ _ y) ->
    exists y0 id y1 w0, In (y0, LUser k (USave id), y1) l /\ nth_error (y_pages _ _ y0) k = Some w0 /\ c_next (fst w0) = j /\
      exists w1, nth_error (y_pages _ _ y1) k = Some w1 /\ (j < c_next (fst w1))%N.
  Proof.
    induction 1 as [|l y e y' Hh IH S]; intros k j ops I; [destruct I|].
    assert (IH' : In (k, RModify j ops) (y_net _ _ y) -> exists y0 id y1 w0, In (y0, LUser k (USave id), y1) ((y, e, y') :: l) /\ nth_error (y_pages _ _ y0) k = Some w0 /\ c_next (fst w0) = j /\
      exists w1, nth_error (y_pages _ _ y1) k = Some w1 /\ (j < c_next (fst w1))%N).
    { intros J. apply IH in J as (y0 & id & y1 & w0 & J & X). exists y0, id, y1, w0. split; [now right|auto]. }
    pose proof (back_inv _ _ _ _ Hh) as B.
    destruct S as [g n b d0 q x v|g n b d0 q x i u c qs c' sent Gi A|g n n' b d0 q x i|g n n' b d0 q x i r qq a d' p' x' As Sv|g n b b' d0 q x i r m c qs qs' c' sent Gi A|g n b d0 q x i r c qs qs' c' sent Gi A|g n b d0 q x d'];
      cbn [y_net y_back] in *; auto.
    - apply in_app_or in I as [I|[I|[]]]; auto. discriminate I.
    - apply in_app_or in I as [I|I]; auto. apply in_map_iff in I as (r & E & I). injection E as -> ->. pose proof (user_sends heqb dig lim _ _ _ _ _ _ A I) as ((id & ->) & -> & _).
      eexists _, id, _, (c, qs). split; [now left|]. split; [exact Gi|]. split; [reflexivity|]. cbn [y_pages]. eexists. split; [eapply set_same; eauto|]. cbn [fst].
      apply act_next in A as [_ A]. apply A. intros ->. destruct I.
    - apply IH'. apply in_app_or in I as [I|I]; apply in_or_app; [now left|right; now right].
    - apply IH'. apply in_app_or in I as [I|I]; apply in_or_app; [now left|right; now right].
    - apply in_app_or in I as [I|I]; auto. apply in_map_iff in I as (r' & E & I). injection E as -> ->. exfalso. eapply (answer_sends heqb dig lim r); [|exact A|exact I].
      destruct (B k r m) as [[-> ->]|(y0 & a & y1 & _ & T)]; [apply in_elt|exact Logic.I|eapply told_answers; eauto].
    - apply in_app_or in I as [I|I]; auto. apply in_map_iff in I as (r' & E & I). injection E as -> ->. exfalso. eapply (answer_sends heqb dig lim r); [|exact A|exact I]. destruct r; reflexivity.
  Qed.

  (** A modification that is answered with a project. *)
  Lemma goes_on E1 E3 x t j : clos_refl_trans_1n _ (call_goes path_str M H st to_toml to_json yaml_done style) (disk M H x, CModify M H E1 E3 x) (t, j) ->
    exists x', j = CModify M H E1 E3 x' /\ t = disk M H x' /\ clos_refl_trans_1n _ (mstep path_str M H st to_toml to_json yaml_done style E3) x x'.
  Proof.
    intros G. remember (disk M H x, CModify M H E1 E3 x) as u eqn:Eu. remember (t, j) as v eqn:Ev. revert x Eu.
    induction G as [u|u v w S1 G IH]; intros x ->.
    - inversion Ev; subst. exists x. split; [reflexivity|]. split; [reflexivity|]. constructor.
    - inversion S1 as [E1' E3' y y' St A B]. subst. destruct (IH eq_refl y' eq_refl) as (x' & -> & -> & C).
      exists x'. split; [reflexivity|]. split; [reflexivity|]. econstructor; eassumption.
  Qed.
  Lemma modify_served d p x ops q d' p' x' : serves (d, p, x) (QModify (Some (Ok ops))) (AProject q) (d', p', x') ->
    p' = q /\ x = false /\ x' = false /\ exists E1 E3 r, load d r /\ runs path_str M topo H heqb hash_im debug_im st to_toml to_json yaml_done style E1 E3 d r ops (MDone M H d' (Ok (inl q))).
  Proof.
    intros S. remember (AProject q) as a eqn:Ea. remember (QModify (Some (Ok ops))) as qq eqn:Eq. inversion S; subst; try discriminate; try (injection H3 as <-).
    match goal with X : QModify _ = QModify _ |- _ => injection X as <- end. match goal with X : AProject _ = AProject _ |- _ => injection X as -> end.
    repeat (split; [reflexivity|]).
    match goal with X : modifies _ _ _ _ _ _ _ _ _ _ _ _ |- _ => destruct X as (j & j' & (E1 & E3 & r & x0 & Lr & Hb & ->) & Hg & He) end.
    exists E1, E3, r. split; auto.
    assert (Hd : disk M H x0 = d).
    { unfold begins in Hb. destruct (res_bind _ _) as [[z|[c0 p0]]| |]; try (subst x0; reflexivity). destruct Hb as (todo & _ & ->). reflexivity. }
    rewrite <- Hd in Hg at 1. apply goes_on in Hg as (x1 & -> & -> & Hs). destruct x1 as [| | |t' r']; cbn [call_ended] in He; try discriminate He. cbn [disk].
    assert (r' = Ok (inl q)) as -> by (destruct r' as [[z|[k z]]| |]; cbn in He; congruence). rewrite <- Hd at 1. rewrite Hd. exists x0. split; auto.
  Qed.
End Facts.
