(** Lemmas for C94: when the requests of a page are sent, answered and over. *)
From Coq Require Import ZArith Lia Relation_Operators.
From Verif Require Import Base BaseFacts Name Artifact Stored Markdown Lint Source Pool Load Disk Walk Modify Server SpecServer ServerFacts ServerCalls Web WebSave WebFacts PropWeb System SystemFacts SpecFresh.
Open Scope nat_scope.

Section Client.
  Context {H : Type} (heqb : H -> H -> bool) (dig : char -> bool) (lim : N).
  Definition numbered (j : N) (r : req H) : Prop := match r with RInitial => False | RRead i _ => i = j | RModify i _ => i = j end.
  (** What is sent has the number the counter had, or a later one, and the counter is beyond it. *)
  Lemma fetch_numbers b (c c' : client H) sent r : start_fetch_project b c = (c', sent) -> In r sent -> r = RRead (c_next c) b /\ c_next c' = (c_next c + 1)%N.
  Proof. unfold start_fetch_project. destruct (c_static c); [|destruct (c_task c)]; intros [= <- <-]; cbn; intuition. Qed.
  Lemma model_numbers m (c c' : client H) sent r : update_model heqb dig lim m c = Ok (c', sent) -> In r sent ->
    numbered (c_next c) r /\ (c_next c < c_next c')%N.
  Proof.
    assert (Q : forall r0, quiet r0 = Ok (c', sent) -> ~ In r sent) by (intros [c1| |] E; try discriminate E; injection E as <- <-; auto).
    destruct m; cbn [update_model]; intros E I; try discriminate E; try (exfalso; eapply Q; eauto; fail); try (injection E as <- <-; destruct I; fail).
    - destruct static; [injection E as <- <-; destruct I|]. apply ok_inj in E. destruct (fetch_numbers _ _ _ _ _ E I) as [-> ->]. cbn. lia.
    - apply ok_inj in E. destruct (fetch_numbers _ _ _ _ _ E I) as [-> ->]. cbn. lia.
    - unfold start_send_update in E. destruct (c_task c); [injection E as <- <-; destruct I|].
      destruct (res_map _ ids) as [ops| |]; try discriminate E. cbn [res_bind] in E. injection E as <- <-. destruct I as [<-|[]]. cbn. lia.
  Qed.
  Lemma act_numbers u (c c' : client H) sent r : act heqb dig lim u c = Ok (c', sent) -> In r sent -> numbered (c_next c) r /\ (c_next c < c_next c')%N.
  Proof.
    assert (O : forall b, open_edit heqb dig lim b c = Ok (c', sent) -> ~ In r sent).
    { intros b. unfold open_edit. destruct (from_hash dig lim (hash_edit (c_next c))) as [v| |]; try discriminate. cbn [res_bind update update_batch update_model]. unfold quiet.
      destruct (handle_start (c_next c) b (take_next c)) as [c1| |]; try discriminate. cbn [res_bind fst snd]. intros E. injection E as <- <-. auto. }
    destruct u; cbn [act update]; intros E I; try (eapply model_numbers; eauto; fail); try (exfalso; eapply O; eauto; fail).
    destruct (from_hash dig lim h) as [v| |]; try discriminate E. cbn [res_bind] in E. eapply model_numbers; eauto.
  Qed.
End Client.

Section Facts.
  Variables (path_str : path -> str) (M : num) (topo : graph -> option (list nat)) (H : Type) (heqb : H -> H -> bool) (hash_im : art_im -> H) (debug_im : art_im -> str) (st : settings)
    (to_toml to_json : list (name * art_raw) -> str) (yaml_done : str -> str) (style : md_attrs) (load : node -> res (lints * project M H + lints) -> Prop)
    (enc : path -> str) (dec : str -> option path) (dig : char -> bool) (lim : N) (first : sproject H).
  Notation ystep := (ystep path_str M topo H heqb hash_im debug_im st to_toml to_json yaml_done style load enc dec dig lim first).
  Notation happened := (happened path_str M topo H heqb hash_im debug_im st to_toml to_json yaml_done style load enc dec dig lim first).
  Notation serves := (serves _ _ _ _ _ (call_read M H load) (call_modify path_str M topo H heqb hash_im debug_im st load)
    (call_goes path_str M H st to_toml to_json yaml_done style) (call_ended M H)).
  Notation sys := (sys M H).
  Notation told := (told M H enc).
  Notation pages := (y_pages M H).
  Notation page_history := (page_history path_str M topo H heqb hash_im debug_im st to_toml to_json yaml_done style load enc dec dig lim first).
  Notation page_step := (page_step path_str M topo H heqb hash_im debug_im st to_toml to_json yaml_done style load enc dec dig lim first).
  Notation back_inv := (back_inv path_str M topo H heqb hash_im debug_im st to_toml to_json yaml_done style load enc dec dig lim first).
  Notation page_next := (page_next path_str M topo H heqb hash_im debug_im st to_toml to_json yaml_done style load enc dec dig lim first).
  Notation happened_step := (happened_step path_str M topo H heqb hash_im debug_im st to_toml to_json yaml_done style load enc dec dig lim first).
  Notation happened_cut := (happened_cut path_str M topo H heqb hash_im debug_im st to_toml to_json yaml_done style load enc dec dig lim first).
  Implicit Types (l : list (sys * label M H * sys)) (y : sys).
  Ltac steps S := destruct S as [g n b d0 q x v|g n b d0 q x i u ca qs cb sent Gi A|g n n' b d0 q x i|g n n' b d0 q x i r0 qq a d' p' x' As Sv|g n b b' d0 q x i r0 m ca qs qs' cb sent Gi A|g n b d0 q x i r0 ca qs qs' cb sent Gi A|g n b d0 q x d'].

  (** A page has at most one request that is not over. *)
  Lemma page_one d p l y k c q : happened d p l y -> nth_error (pages y) k = Some (c, q) -> q = tasks c.
  Proof. intros Hh G. destruct (page_history _ _ _ _ _ _ Hh G) as (v & h & Hi & _). apply inv_history in Hi. exact (wi_one _ _ Hi). Qed.
  Lemma page_stays d p l y e y' k w : happened d p l y -> ystep y e y' -> nth_error (pages y) k = Some w -> exists w', nth_error (pages y') k = Some w' /\ (c_next (fst w) <= c_next (fst w'))%N.
  Proof.
    intros Hh S G. destruct (page_step _ _ _ _ _ _ _ _ Hh S G) as [Z|(ev & w' & Ae & Ws & Z)]; [exists w; split; [exact Z|lia]|].
    exists w'. split; [exact Z|]. destruct Ws as [c q u c' sent E|c q q' r m c' sent A E]; cbn [fst]; [apply act_next in E|apply update_next in E]; apply E.
  Qed.
  (** Requests on their way have numbers below the counter of their page. *)
  Lemma net_numbers d p l y : happened d p l y -> forall k r, In (k, r) (y_net _ _ y) -> r <> RInitial ->
    exists w j, nth_error (pages y) k = Some w /\ numbered j r /\ (j < c_next (fst w))%N.
  Proof.
    induction 1 as [|l y e y' Hh IH S]; intros k r I Nr; [destruct I|].
    assert (IH' : In (k, r) (y_net _ _ y) -> exists w j, nth_error (pages y') k = Some w /\ numbered j r /\ (j < c_next (fst w))%N).
    { intros J. destruct (IH _ _ J Nr) as (w & j & G & Nu & L). destruct (page_stays _ _ _ _ _ _ _ _ Hh S G) as (w' & G' & L'). exists w', j. split; [exact G'|]. split; [exact Nu|lia]. }
    pose proof S as S0. steps S; cbn [y_net y_pages] in *; auto.
    - apply in_app_or in I as [I|[I|[]]]; auto. congruence.
    - apply in_app_or in I as [I|I]; auto. apply in_map_iff in I as (r' & E & I). injection E as -> ->. destruct (act_numbers heqb dig lim _ _ _ _ _ A I) as [Nu L].
      eexists _, _. split; [eapply set_same; eauto|]. split; [exact Nu|exact L].
    - apply IH'. apply in_app_or in I as [I|I]; apply in_or_app; [now left|right; now right].
    - apply IH'. apply in_app_or in I as [I|I]; apply in_or_app; [now left|right; now right].
    - apply in_app_or in I as [I|I]; auto. apply in_map_iff in I as (r' & E & I). injection E as -> ->.
      assert (Um : update_model heqb dig lim m ca = Ok (cb, sent)).
      { destruct (back_inv _ _ _ _ Hh k r0 m) as [[-> ->]|(y0 & a & y1 & _ & T)]; [cbn [y_back]; apply in_elt|exact A|].
        apply told_answers in T. destruct r0, m; cbn [answers] in T; try contradiction; exact A. }
      destruct (model_numbers heqb dig lim _ _ _ _ _ Um I) as [Nu L]. eexists _, _. split; [eapply set_same; eauto|]. split; [exact Nu|exact L].
    - apply in_app_or in I as [I|I]; auto. apply in_map_iff in I as (r' & E & I). injection E as -> ->.
      destruct (model_numbers heqb dig lim _ _ _ _ _ A I) as [Nu L]. eexists _, _. split; [eapply set_same; eauto|]. split; [exact Nu|exact L].
  Qed.
  Lemma served_number d p l y k r a y1 : happened d p l y -> ystep y (LServe k r a) y1 -> exists w j, nth_error (pages y) k = Some w /\ numbered j r /\ (j < c_next (fst w))%N.
  Proof.
    intros Hh S. inversion S as [| | |g n n' b d0 q x i r0 qq a0 d' p' x' As Sv| | |]; subst. eapply net_numbers; [exact Hh|cbn; apply in_elt|]. intros ->. discriminate As.
  Qed.
  (** The request a page waits for was sent after the page was last told something. *)
  Lemma waits_since d p l y k c r : happened d p l y -> nth_error (pages y) k = Some (c, [r]) -> r <> RInitial ->
    exists l1 y1 e1 y2 l2 w, l = l1 ++ (y1, e1, y2) :: l2 /\ nth_error (pages y1) k = Some w /\ numbered (c_next (fst w)) r /\ in_no (told_to k) l1.
  Proof.
    intros Hh. revert c. induction Hh as [|l y e y' Hh IH S]; intros c G Nr; [destruct k; discriminate G|].
    destruct (nth_error (pages y) k) as [[c0 q0]|] eqn:G0.
    - assert (IH' : q0 = [r] -> ~ told_to k e -> exists l1 y1 e1 y2 l2 w, (y, e, y') :: l = l1 ++ (y1, e1, y2) :: l2 /\ nth_error (pages y1) k = Some w /\ numbered (c_next (fst w)) r /\ in_no (told_to k) l1).
      { intros -> Nt. destruct (IH _ eq_refl Nr) as (l1 & y1 & e1 & y2 & l2 & w & -> & X & Y & Z). exists ((y, e, y') :: l1), y1, e1, y2, l2, w. split; [reflexivity|]. split; [exact X|]. split; [exact Y|].
        intros a b d1 [I|I]; [injection I as <- <- <-; exact Nt|]. eapply Z; eauto. }
      assert (New : numbered (c_next c0) r -> exists l1 y1 e1 y2 l2 w, (y, e, y') :: l = l1 ++ (y1, e1, y2) :: l2 /\ nth_error (pages y1) k = Some w /\ numbered (c_next (fst w)) r /\ in_no (told_to k) l1).
      { intros Nu. exists [], y, e, y', l, (c0, q0). split; [reflexivity|]. split; [exact G0|]. split; [exact Nu|]. intros a b d1 []. }
      pose proof (page_one _ _ _ _ _ _ _ Hh G0) as One. pose proof (back_inv _ _ _ _ Hh) as B.
      steps S; cbn [y_pages y_back] in *.
      + apply IH'; [|intros []]. rewrite nth_error_app1 in G by (apply nth_error_Some; congruence). congruence.
      + destruct (Nat.eq_dec k i) as [->|Ne]; [|erewrite set_other in G by eauto; apply IH'; [congruence|intros []]].
        pose proof (eq_trans (eq_sym Gi) G0) as Z. injection Z as -> ->.
        erewrite set_same in G by eauto. injection G as -> E.
        destruct sent as [|s0 sent]; [rewrite app_nil_r in E; apply IH'; [exact E|intros []]|].
        apply New. assert (I : In r (s0 :: sent)).
        { destruct q0 as [|z q0]; [cbn in E; rewrite E; now left|]. cbn in E. injection E as _ E. destruct q0; discriminate E. }
        apply (act_numbers heqb dig lim _ _ _ _ _ A I).
      + apply IH'; [congruence|intros []].
      + apply IH'; [congruence|intros []].
      + destruct (Nat.eq_dec k i) as [->|Ne]; [|erewrite set_other in G by eauto; apply IH'; [congruence|cbn; congruence]].
        pose proof (eq_trans (eq_sym Gi) G0) as Z. injection Z as -> <-. erewrite set_same in G by eauto. injection G as -> E. apply New.
        assert (Q : qs = [] /\ qs' = []).
        { unfold tasks in One. destruct (c_task c0); [|now destruct qs]. destruct qs as [|z qs]; cbn in One; [injection One as _ ->; auto|]. injection One as _ One. now destruct qs. }
        destruct Q as [-> ->]. cbn in E. subst sent.
        assert (Um : update_model heqb dig lim m c0 = Ok (c, [r])).
        { destruct (B i r0 m) as [[-> ->]|(y0 & a & y1 & _ & T)]; [apply in_elt|exact A|]. apply told_answers in T. destruct r0, m; cbn [answers] in T; try contradiction; exact A. }
        apply (model_numbers heqb dig lim _ _ _ _ _ Um (or_introl eq_refl)).
      + destruct (Nat.eq_dec k i) as [->|Ne]; [|erewrite set_other in G by eauto; apply IH'; [congruence|cbn; congruence]].
        pose proof (eq_trans (eq_sym Gi) G0) as Z. injection Z as -> <-. erewrite set_same in G by eauto. injection G as -> E. apply New.
        assert (Q : qs = [] /\ qs' = []).
        { unfold tasks in One. destruct (c_task c0); [|now destruct qs]. destruct qs as [|z qs]; cbn in One; [injection One as _ ->; auto|]. injection One as _ One. now destruct qs. }
        destruct Q as [-> ->]. cbn in E. subst sent. apply (model_numbers heqb dig lim _ _ _ _ _ A (or_introl eq_refl)).
      + apply IH'; [congruence|intros []].
    - exfalso. steps S; cbn [y_pages] in *; try congruence.
      + apply nth_error_None in G0. rewrite nth_error_app2 in G by lia. destruct (k - length g) as [|z] eqn:Ez; cbn in G; [injection G as _ E; congruence|destruct z; discriminate G].
      + destruct (Nat.eq_dec k i) as [->|Ne]; [congruence|]. erewrite set_other in G by eauto. congruence.
      + destruct (Nat.eq_dec k i) as [->|Ne]; [congruence|]. erewrite set_other in G by eauto. congruence.
      + destruct (Nat.eq_dec k i) as [->|Ne]; [congruence|]. erewrite set_other in G by eauto. congruence.
  Qed.
  Lemma numbered_same j j' (r : req H) : numbered j r -> numbered j' r -> j = j'.
  Proof. destruct r; cbn; [intros []|congruence|congruence]. Qed.
  (** An event of the past, before or after another. *)
  Lemma in_split_two {A} (x z : A) (l l1 l2 : list A) : In x l -> l = l1 ++ z :: l2 -> (exists a b, l1 = a ++ x :: b /\ l = a ++ x :: b ++ z :: l2) \/ In x (z :: l2).
  Proof.
    intros I ->. apply in_app_or in I as [I|I]; [left|now right]. apply in_split in I as (a & b & ->). exists a, b. split; [reflexivity|]. now rewrite <- app_assoc.
  Qed.
  (** An answer that arrives was given after the page was last told something. *)
  Lemma answered_since d p l y k r m c q q' : happened d p l y -> In (k, r, m) (y_back _ _ y) -> r <> RInitial -> nth_error (pages y) k = Some (c, q ++ r :: q') ->
    exists l1 y1 a y2 l2, l = l1 ++ (y1, LServe k r a, y2) :: l2 /\ told r a = Some m /\ in_no (told_to k) l1.
  Proof.
    intros Hh I Nr G. pose proof (page_one _ _ _ _ _ _ _ Hh G) as One.
    assert (Q : q = [] /\ q' = []).
    { unfold tasks in One. destruct (c_task c); [|now destruct q]. destruct q as [|z q]; cbn in One; [injection One as _ ->; auto|]. injection One as _ One. now destruct q. }
    destruct Q as [-> ->]. cbn [app] in G.
    destruct (waits_since _ _ _ _ _ _ _ Hh G Nr) as (l1 & y1 & e1 & y2 & l2 & w & El & G1 & Nu & Nt).
    destruct (back_inv _ _ _ _ Hh k r m I) as [[-> _]|(y0 & a & y3 & Is & T)]; [congruence|].
    pose proof Hh as Hh0. destruct (in_split_two _ _ _ _ _ Is El) as [(u & v & -> & E)|Il].
    - exists u, y0, a, y3, (v ++ (y1, e1, y2) :: l2). split; [exact E|]. split; [exact T|]. intros z e' z' J. eapply Nt. apply in_or_app. left. exact J.
    - exfalso. assert (Hz : exists lz, happened d p lz y0 /\ ystep y0 (LServe k r a) y3 /\ (y0 = y1 \/ In (y0, LServe k r a, y3) l2)).
      { apply in_split in Is as (u & v & E). exists v. split; [|split; [eapply happened_step; [exact Hh|]; rewrite E; apply in_elt|]].
        - eapply happened_cut; [exact Hh|exact E].
        - destruct Il as [X|X]; [left; congruence|now right]. }
      destruct Hz as (lz & Hz & Sz & W). destruct (served_number _ _ _ _ _ _ _ _ Hz Sz) as (w0 & j & G0 & Nj & L). pose proof (numbered_same _ _ _ Nj Nu) as ->.
      destruct W as [->|W]; [rewrite G0 in G1; injection G1 as ->; lia|].
      assert (H1 : happened d p l2 y1) by (eapply happened_cut; [exact Hh|exact El]).
      pose proof (page_next _ _ _ _ _ _ H1 G1 _ _ _ _ W G0). lia.
  Qed.
End Facts.
