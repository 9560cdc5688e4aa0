(** C83: the server together with the pages open on it. *)
From Coq Require Import ZArith Lia Permutation Relation_Operators.
From Verif Require Import Base BaseFacts Regex Name SpecName NameFacts RawNames RawNamesFacts Family FamilyFacts Artifact Stored SpecGraph Topo SpecLinks BuildFacts LinkFacts ProjectFacts Numbers
  Markdown SpecMarkdown MarkdownFacts YamlExample Lint SpecLint LintFacts LintThms Source SpecJoin Pool PoolFacts Load LoadFacts SpecLoad CheckFacts ReadThms Disk DiskFacts Walk SpecWalk WalkFacts Modify SpecModify SpecReload OpFacts PureFacts OrderFacts
  PhaseFacts ResultFacts CodecExample ReloadFacts DiskRunFacts PropArtifacts PropCompleted PropMarkdown PropLint PropLoad PropModify PropDisk Server SpecServer ServerFacts ServerCalls Web WebSave SpecSave WebFacts PropWeb PropEdit PropSave System SpecSystem SystemFacts.
Open Scope nat_scope.

Section Theorems.
  Variables (path_str : path -> str) (yaml : str -> option (option str * option RawNames.names_val)) (parse_toml parse_json : str -> res (list (name * art_raw)))
    (parse_msg : path -> str -> str) (prefix : str) (M : num) (topo : graph -> option (list nat)) (H : Type) (heqb : H -> H -> bool) (hash_im : art_im -> H)
    (settings_path : path) (url_error : option str) (enc : path -> str) (dec : str -> option path).
  Variables (debug_im : art_im -> str) (st : settings) (to_toml to_json : list (name * art_raw) -> str) (yaml_done : str -> str) (style : md_attrs).
  Variables (dig : char -> bool) (lim : N) (first : sproject H).
  Hypothesis TO : parser_ok parse_toml.
  Hypothesis JO : parser_ok parse_json.
  Hypothesis TC : topo_ok topo.
  Hypothesis HE : forall a b, heqb a b = true <-> a = b.
  Hypothesis HI : forall a b, hash_im a = hash_im b -> a = b.
  Notation load_of := (load_of path_str yaml parse_toml parse_json parse_msg prefix M topo H hash_im settings_path url_error st).
  (** What reading the project from a disk may give, whatever the file system and the threads do; there is at least one thread. *)
  Definition may_load (t : node) (r : res (lints * project M H + lints)) : Prop := exists E n lo, 0 < n /\ load_of E t n lo r.
  Notation runs := (runs path_str M topo H heqb hash_im debug_im st to_toml to_json yaml_done style).
  Notation ystep := (ystep path_str M topo H heqb hash_im debug_im st to_toml to_json yaml_done style may_load enc dec dig lim first).
  Notation happened := (happened path_str M topo H heqb hash_im debug_im st to_toml to_json yaml_done style may_load enc dec dig lim first).
  Notation pages := (y_pages M H).
  Notation get := (im_get N.eqb).
  Notation wire := (wire M H enc).

  Lemma id_there (p : project M H) (i : H) : In i (map hash_im (stored_form p)) \/ ~ In i (map hash_im (stored_form p)).
  Proof.
    assert (D : forall a b : H, {a = b} + {a <> b}) by (intros a b; destruct (heqb a b) eqn:Q; [left; now apply HE|right; intros X; apply HE in X; congruence]).
    destruct (in_dec D i (map hash_im (stored_form p))); auto.
  Qed.
  Lemma saved_replaced E d n lo r E1 E3 e o b d' c1 (p1 : project M H) : load_of E d n lo r -> edit_op e = Ok o -> receive dec o = Some b ->
    runs E1 E3 d r [b] (MDone M H d' (Ok (inl (c1, p1)))) -> exists c p, r = Ok (inl (c, p)) /\ replaced dec e p p1.
  Proof.
    intros Ld Op Rc Rn. destruct r as [[[c p]|c]| |].
    - exists c, p. split; auto. destruct (e_orig e) as [i|] eqn:Eo.
      + assert (I : In i (map hash_im (stored_form p))).
        { destruct (id_there p i) as [I|N]; auto. exfalso. destruct (form_sends dec e o b Op Rc) as (w & De & Eb). rewrite Eo in Eb. subst b.
          destruct (C36_refused path_str M topo H heqb hash_im debug_im st to_toml to_json yaml_done style E1 E3 d c p [OUpdate w i] (OUpdate (im_clean w) i) HE (or_introl eq_refl)) as (k & z & _ & X).
          - intros (_ & _ & C). destruct (C i) as [C'|(o' & a & [<-|[]] & Nn & So & Ea)]; [left; eauto|contradiction|].
            destruct So as [So|[j So]]; [discriminate So|]. cbn [op_clean] in So. injection So as <- <-. apply Nn. cbn [op_clean]. exists (im_clean w). now rewrite Ea.
          - apply X in Rn. discriminate Rn. }
        pose proof (C35_loaded _ _ _ _ _ _ _ _ _ _ _ _ TO JO TC _ _ _ _ _ _ _ Ld) as L.
        apply in_map_iff in I as (x & Ex & Hx). unfold stored_form in Hx. apply in_map_iff in Hx as ([m a] & <- & Ha). cbn [snd] in Ex. rewrite <- (lo_id _ _ L m a Ha) in Ex. subst i.
        destruct (C81_edited path_str yaml parse_toml parse_json parse_msg prefix M topo H heqb hash_im settings_path url_error dec debug_im st to_toml to_json yaml_done style TO JO TC HE HI
          E d n lo c p m a e o b E1 E3 d' c1 p1 Ld Ha Eo Op Rc Rn) as (w & De & X & _).
        exists w. split; auto. rewrite Eo. exists m, a. auto.
      + destruct (C81_created path_str yaml parse_toml parse_json parse_msg prefix M topo H heqb hash_im settings_path url_error dec debug_im st to_toml to_json yaml_done style TO JO TC HE HI
          E d n lo c p e o b E1 E3 d' c1 p1 Ld Eo Op Rc Rn) as (w & De & Ni & X).
        exists w. split; auto. rewrite Eo. auto.
    - exfalso. destruct Rn as (x0 & B & S0). unfold begins in B. cbn [res_bind modify_pure] in B. destruct (is_nil (ls_error c)); subst x0;
        apply (after_done path_str M H st to_toml to_json yaml_done style E3) in S0; discriminate S0.
    - exfalso. destruct Rn as (x0 & B & S0). unfold begins in B. cbn [res_bind] in B. subst x0. apply (after_done path_str M H st to_toml to_json yaml_done style E3) in S0. discriminate S0.
    - exfalso. destruct Rn as (x0 & B & S0). unfold begins in B. cbn [res_bind] in B. subst x0. apply (after_done path_str M H st to_toml to_json yaml_done style E3) in S0. discriminate S0.
  Qed.
  (** What the step of a successful save gives. *)
  Lemma serve_step y1 k j op x y2 e : ystep y1 (LServe k (RModify j [op]) (AProject x)) y2 -> edit_op e = Ok op ->
    y_project _ _ y2 = x /\ exists b E n lo c p E1 E3, receive dec op = Some b /\ load_of E (y_disk _ _ y1) n lo (Ok (inl (c, p))) /\
      runs E1 E3 (y_disk _ _ y1) (Ok (inl (c, p))) [b] (MDone M H (y_disk _ _ y2) (Ok (inl x))) /\ replaced dec e p (snd x).
  Proof.
    intros S Op. inversion S as [| | |g n n' b d p x0 k' r q a d' p' x' As Sv E1 E2 E3| | |]; subst. cbn [y_project y_disk]. cbn [asked received] in As. injection As as <-.
    destruct (receive dec op) as [b0|] eqn:Rc; cbn [res_bind] in Sv.
    2:{ exfalso. remember (QModify (Some Err)) as qq. remember (AProject x) as aa. inversion Sv; subst; discriminate. }
    apply modify_served in Sv as (-> & -> & -> & E1 & E3 & r & (E & n0 & lo & _ & Ld) & Rn). split; auto. destruct x as [c1 p1]. cbn [snd].
    destruct (saved_replaced E d n0 lo r E1 E3 e op b0 d' c1 p1 Ld Op Rc Rn) as (c & pl & -> & Re). exists b0, E, n0, lo, c, pl, E1, E3. auto.
  Qed.

  (** A form disappears from a page only when it is cancelled or when the answer to a save of it
      arrives; then the server had saved what stood in the form when Save was pressed: the project
      on the disk with this artifact replaced, or added, is the one the page shows now. *)
  Theorem C83_closed : forall d0 p0 l y e y' k c q c' q' id ed,
    happened d0 p0 l y -> ystep y e y' ->
    nth_error (pages y) k = Some (c, q) -> nth_error (pages y') k = Some (c', q') ->
    get id (c_edits c) = Some ed -> get id (c_edits c') = None ->
    e = LUser k (UCancel id) \/
    exists j op x l1 y1 y2 l2 y3 y4 c0 q0 e0,
      e = LArrive k (RModify j [op]) (MProject j (wire (snd x))) /\ c_project c' = wire (snd x) /\
      (* the server saved it *)
      l = l1 ++ (y1, LServe k (RModify j [op]) (AProject x), y2) :: l2 /\ y_project _ _ y2 = x /\
      (* after Save was pressed *)
      In (y3, LUser k (USave id), y4) l2 /\ nth_error (pages y3) k = Some (c0, q0) /\ get id (c_edits c0) = Some e0 /\
      exists E n lo cl p, load_of E (y_disk _ _ y1) n lo (Ok (inl (cl, p))) /\ replaced dec e0 p (snd x) /\
        (safe_disk st (y_disk _ _ y1) -> (forall f, dec (e_file e0) = Some f -> plain_path f) -> holds to_toml to_json yaml_done style (y_disk _ _ y2) (snd x)).
  Proof.
    intros d0 p0 l y e y' k c q c' q' id ed Hh S G G' Fd Fn.
    destruct (page_step path_str M topo H heqb hash_im debug_im st to_toml to_json yaml_done style may_load enc dec dig lim first _ _ _ _ _ _ _ _ Hh S G) as [X|(ev & w' & Ae & Ws & X)]; rewrite G' in X; injection X as X; [congruence|].
    subst w'. destruct (page_history path_str M topo H heqb hash_im debug_im st to_toml to_json yaml_done style may_load enc dec dig lim first _ _ _ _ _ _ Hh G) as (v & h & Hi & Co).
    destruct (C53_kept heqb dig lim first v h c q ev c' q' id ed Hi Ws Fd) as [X|[(f & ed' & _ & _ & X)|(_ & [->|(j & op & pj & c0 & e0 & -> & Ih & (c9 & Sb) & G0 & Eo)])]]; try congruence.
    - left. exact Ae.
    - right. destruct Ae as [->|[_ X]]; [|discriminate X].
      destruct (C53_saved heqb dig lim first v h c q j [op] pj c' q' Hi Ws) as (Ep & _ & _).
      assert (Bk : In (k, RModify j [op], MProject j pj) (y_back _ _ y)) by (inversion S; subst; cbn [y_back]; apply in_elt).
      apply (back_inv path_str M topo H heqb hash_im debug_im st to_toml to_json yaml_done style may_load enc dec dig lim first _ _ _ _ Hh) in Bk as [[X _]|(y1 & a & y2 & Is & Ta)]; [discriminate X|].
      destruct a as [x|er| |]; cbn [told] in Ta; try discriminate Ta. injection Ta as <-.
      apply in_split in Is as (l1 & l2 & El).
      destruct (Co _ _ Ih) as (y3 & e3 & y4 & I3 & A3 & G3). cbn [as_event] in A3. subst e3.
      assert (Ssv : ystep y1 (LServe k (RModify j [op]) (AProject x)) y2) by (eapply happened_step; [exact Hh|rewrite El; apply in_elt]).
      pose proof (happened_cut path_str M topo H heqb hash_im debug_im st to_toml to_json yaml_done style may_load enc dec dig lim first _ _ _ _ _ _ _ _ _ Hh El) as H2.
      assert (Nj : c_next c0 = j).
      { cbn [act update update_model] in Sb. destruct (user_sends heqb dig lim (USave id) c0 c9 _ j [op] Sb (or_introl eq_refl)) as (_ & -> & _). reflexivity. }
      assert (I3' : In (y3, LUser k (USave id), y4) l2).
      { rewrite El in I3. apply in_app_or in I3 as [I3|[I3|I3]]; auto; [|discriminate I3]. exfalso.
        assert (Nt : In (k, RModify j [op]) (y_net _ _ y1)) by (inversion Ssv; subst; cbn [y_net]; apply in_elt).
        apply (net_inv path_str M topo H heqb hash_im debug_im st to_toml to_json yaml_done style may_load enc dec dig lim first _ _ _ _ H2) in Nt as (y5 & i5 & y6 & w5 & I5 & G5 & N5 & w6 & G6 & N6).
        apply in_split in I3 as (la & lb & Ea).
        assert (H3 : happened d0 p0 (lb ++ (y1, LServe k (RModify j [op]) (AProject x), y2) :: l2) y3).
        { eapply (happened_cut path_str M topo H heqb hash_im debug_im st to_toml to_json yaml_done style may_load enc dec dig lim first _ _ _ _ la y3 (LUser k (USave id)) y4); [exact Hh|]. rewrite El, Ea, <- app_assoc. reflexivity. }
        (* the page after the other save *)
        assert (X : (c_next (fst w6) <= c_next c0)%N).
        { apply in_split in I5 as (lc & ld & Ec). destruct (rev lc) as [|[[ya ea] yb] rl] eqn:Er.
          - assert (lc = []) as -> by (rewrite <- (rev_involutive lc), Er; reflexivity). cbn [app] in Ec.
            assert (y6 = y1) as -> by (clear -H2 Ec; inversion H2; subst; [discriminate|]; congruence).
            eapply (page_next path_str M topo H heqb hash_im debug_im st to_toml to_json yaml_done style may_load enc dec dig lim first _ _ _ _ k (c0, []) H3 G3 y1 _ y2 w6); [apply in_elt|exact G6].
          - assert (El' : lc = rev rl ++ [(ya, ea, yb)]) by (rewrite <- (rev_involutive lc), Er; reflexivity).
            assert (ya = y6).
            { rewrite Ec, El', <- app_assoc in H2. cbn [app] in H2. eapply (happened_cut path_str M topo H heqb hash_im debug_im st to_toml to_json yaml_done style may_load enc dec dig lim first _ _ _ _ (rev rl) ya ea yb) in H2; [|reflexivity]. inversion H2; subst. reflexivity. }
            subst ya. eapply (page_next path_str M topo H heqb hash_im debug_im st to_toml to_json yaml_done style may_load enc dec dig lim first _ _ _ _ k (c0, []) H3 G3 y6 ea yb w6); [|exact G6].
            rewrite Ec, El'. apply in_or_app. right. right. apply in_or_app. left. apply in_or_app. right. now left. }
        lia. }
      destruct (serve_step y1 k j op x y2 e0 Ssv Eo) as (Ey & b & E & n & lo & cl & p & E1 & E3 & Rc & Ld & Rn & Rp).
      exists j, op, x, l1, y1, y2, l2, y3, y4, c0, [], e0. do 7 (split; [assumption||reflexivity|]). exists E, n, lo, cl, p. split; auto. split; auto.
      intros Sd Pl. destruct (form_sends dec e0 op b Eo Rc) as (w & De & Eb). destruct x as [c1 p1].
      assert (Wo : Forall op_wf [b] /\ forall o a, In o [b] -> stores o a -> plain_path (im_file a)).
      { split; [constructor; [|constructor]; subst b; destruct (e_orig e0); exact (de_wf _ _ _ De)|]. intros o a [<-|[]] So. assert (a = w) as -> by (subst b; destruct (e_orig e0), So as [So|[i So]]; try discriminate So; now injection So). apply Pl, (de_file _ _ _ De). }
      eapply (C40_disk path_str M topo H heqb hash_im debug_im st to_toml to_json yaml_done style E1 E3 yaml parse_toml parse_json parse_msg prefix settings_path url_error E n lo (y_disk _ _ y1) cl p [b]);
        eauto; apply Wo.
  Qed.

  (** A page shows the project it starts with, or one the server has answered it with. *)
  Theorem C83_shown : forall d0 p0 l y k c q, happened d0 p0 l y -> nth_error (pages y) k = Some (c, q) ->
    c_project c = first \/
    exists y1 r x y2, In (y1, LServe k r (AProject x), y2) l /\ c_project c = wire (snd x) /\ y_project _ _ y2 = x.
  Proof.
    intros d0 p0 l y k c q Hh. revert c q. induction Hh as [|l y e y' Hh IH S]; intros c q G; [destruct k; discriminate G|].
    assert (IH' : forall c0 q0, nth_error (pages y) k = Some (c0, q0) -> c_project c0 = first \/
      exists y1 r x y2, In (y1, LServe k r (AProject x), y2) ((y, e, y') :: l) /\ c_project c0 = wire (snd x) /\ y_project _ _ y2 = x).
    { intros c0 q0 X. destruct (IH c0 q0 X) as [Z|(y1 & r & x & y2 & I & Z)]; auto. right. exists y1, r, x, y2. split; [now right|auto]. }
    destruct (nth_error (pages y) k) as [[c0 q0]|] eqn:G0.
    - specialize (IH' _ _ eq_refl).
      destruct (page_step path_str M topo H heqb hash_im debug_im st to_toml to_json yaml_done style may_load enc dec dig lim first _ _ _ _ _ _ _ _ Hh S G0) as [X|(ev & w' & Ae & Ws & X)]; rewrite G in X; [injection X as -> ->; exact IH'|].
      injection X as <-. inversion Ws as [c1 q1 u c1' sent E|c1 q1 q2 r m c1' sent A E]; subst.
      + apply act_shown in E as [-> _]. exact IH'.
      + assert (Um : update_model heqb dig lim m c0 = Ok (c, sent)) by (destruct r, m; cbn [answers] in A; try contradiction; exact E).
        apply update_shown in Um as [-> _]. destruct m; cbn [new_project]; try exact IH'.
        * destruct p; [|exact IH']. destruct Ae as [->|[_ X]]; [|discriminate X]. exfalso.
          assert (Bk : In (k, r, MInitial static (Some s)) (y_back _ _ y)) by (inversion S; subst; cbn [y_back]; apply in_elt).
          apply (back_inv path_str M topo H heqb hash_im debug_im st to_toml to_json yaml_done style may_load enc dec dig lim first _ _ _ _ Hh) in Bk as [[_ X]|(y1 & a & y2 & _ & Ta)]; [discriminate X|].
          destruct a, r; discriminate Ta.
        * destruct Ae as [->|[_ X]]; [|discriminate X].
          assert (Bk : In (k, r, MProject jid p) (y_back _ _ y)) by (inversion S; subst; cbn [y_back]; apply in_elt).
          apply (back_inv path_str M topo H heqb hash_im debug_im st to_toml to_json yaml_done style may_load enc dec dig lim first _ _ _ _ Hh) in Bk as [[_ X]|(y1 & a & y2 & Is & Ta)]; [discriminate X|].
          destruct a as [x|er| |]; [|destruct r; discriminate Ta..].
          assert (p = wire (snd x)) as -> by (destruct r; cbn [told] in Ta; congruence). right. exists y1, r, x, y2. split; [now right|]. split; auto.
          assert (Ss : ystep y1 (LServe k r (AProject x)) y2) by (eapply happened_step; eauto). inversion Ss as [| | |g n n' b d p x0 k' r' qq a d' p' x' As Sv E1 E2 E3| | |]; subst. cbn [y_project].
          remember (AProject x) as aa. inversion Sv; subst; congruence.
    - left. assert (X : exists v, (c, q) = start first v); [|destruct X as [v X]; injection X as -> _; reflexivity].
      destruct S as [g n b d1 qq x v|g n b d1 qq x i u c1 qs c' sent Gi A|g n n' b d1 qq x i|g n n' b d1 qq x i r q1 a d' p' x' As Sv|g n b b' d1 qq x i r m c1 qs qs' c' sent Gi A|g n b d1 qq x i r c1 qs qs' c' sent Gi A|g n b d1 qq x d'];
        cbn [y_pages] in *; try congruence.
      + apply nth_error_None in G0. rewrite nth_error_app2 in G by lia. destruct (k - length g) as [|z] eqn:Ez; cbn in G; [injection G as <- <-; eexists; reflexivity|destruct z; discriminate G].
      + destruct (Nat.eq_dec k i) as [->|Ne]; [congruence|]. erewrite set_other in G by eauto. congruence.
      + destruct (Nat.eq_dec k i) as [->|Ne]; [congruence|]. erewrite set_other in G by eauto. congruence.
      + destruct (Nat.eq_dec k i) as [->|Ne]; [congruence|]. erewrite set_other in G by eauto. congruence.
  Qed.
  (** The forms of a page: those that replace an artifact were opened on one the page showed. *)
  Theorem C83_opened : forall d0 p0 l y k c q id ed i, happened d0 p0 l y -> nth_error (pages y) k = Some (c, q) ->
    In (id, ed) (c_edits c) -> e_orig ed = Some i ->
    exists y1 e1 y2 c1 q1 n a, In (y1, e1, y2) l /\ nth_error (pages y1) k = Some (c1, q1) /\ In (n, a) (c_project c1) /\ sa_id a = i.
  Proof.
    intros d0 p0 l y k c q id ed i Hh. revert c q id ed. induction Hh as [|l y e y' Hh IH S]; intros c q id ed G I Eo; [destruct k; discriminate G|].
    destruct (nth_error (pages y) k) as [[c0 q0]|] eqn:G0.
    - assert (IH' : (exists id' ed', In (id', ed') (c_edits c0) /\ e_orig ed' = e_orig ed) ->
        exists y1 e1 y2 c1 q1 n a, In (y1, e1, y2) ((y, e, y') :: l) /\ nth_error (pages y1) k = Some (c1, q1) /\ In (n, a) (c_project c1) /\ sa_id a = i).
      { intros (id' & ed' & I' & E'). rewrite Eo in E'. destruct (IH _ _ _ _ eq_refl I' E') as (y1 & e1 & y2 & c1 & q1 & n & a & J & X). exists y1, e1, y2, c1, q1, n, a. split; [now right|auto]. }
      destruct (page_step path_str M topo H heqb hash_im debug_im st to_toml to_json yaml_done style may_load enc dec dig lim first _ _ _ _ _ _ _ _ Hh S G0) as [X|(ev & w' & Ae & Ws & X)]; rewrite G in X; [injection X as -> ->; eauto|].
      injection X as <-. assert (Fe : from_edits c0 c).
      { inversion Ws as [c1 q1 u c1' sent E|c1 q1 q2 r m c1' sent A E]; subst; [now apply act_shown in E|].
        assert (Um : update_model heqb dig lim m c0 = Ok (c, sent)) by (destruct r, m; cbn [answers] in A; try contradiction; exact E). now apply update_shown in Um. }
      destruct (Fe id ed I) as [X|[X|(n & a & Ia & X)]]; [auto|congruence|]. exists y, e, y', c0, q0, n, a. split; [now left|]. split; [exact G0|]. split; auto. congruence.
    - exfalso. assert (X : exists v, (c, q) = start first v); [|destruct X as [v X]; injection X as -> _; destruct I].
      destruct S as [g n b d1 qq x v|g n b d1 qq x j u c1 qs c' sent Gi A|g n n' b d1 qq x j|g n n' b d1 qq x j r q1 a d' p' x' As Sv|g n b b' d1 qq x j r m c1 qs qs' c' sent Gi A|g n b d1 qq x j r c1 qs qs' c' sent Gi A|g n b d1 qq x d'];
        cbn [y_pages] in *; try congruence.
      + apply nth_error_None in G0. rewrite nth_error_app2 in G by lia. destruct (k - length g) as [|z] eqn:Ez; cbn in G; [injection G as <- <-; eexists; reflexivity|destruct z; discriminate G].
      + destruct (Nat.eq_dec k j) as [->|Ne]; [congruence|]. erewrite set_other in G by eauto. congruence.
      + destruct (Nat.eq_dec k j) as [->|Ne]; [congruence|]. erewrite set_other in G by eauto. congruence.
      + destruct (Nat.eq_dec k j) as [->|Ne]; [congruence|]. erewrite set_other in G by eauto. congruence.
  Qed.
End Theorems.
Print Assumptions C83_closed.
Print Assumptions C83_shown.
Print Assumptions C83_opened.

(** The system on the example disk of C81, run by a list of commands. *)
Definition i_st := mkSys exact_num art_im.
Definition i_goes := call_goes ex_path exact_num art_im m_st ex_store ex_store ex_yaml_done Hashes.
Definition i_may_load := may_load ex_path ex_yaml ex_parse ex_parse (fun _ _ => s "bad") [] exact_num topo_sort art_im (fun a => a) [s "settings.toml"] None m_st.
Definition i_begins := call_modify ex_path exact_num topo_sort art_im art_eqb (fun a => a) (fun _ => s "art") m_st i_may_load.
Definition i_serves := serves node (found exact_num art_im) failed (list (op art_im)) (call exact_num art_im) (call_read exact_num art_im i_may_load) i_begins i_goes (call_ended exact_num art_im).
Definition i_step := ystep ex_path exact_num topo_sort art_im art_eqb (fun a => a) (fun _ => s "art") m_st ex_store ex_store ex_yaml_done Hashes i_may_load w_wire w_back is_digit 4294967296 [].
Definition i_happened := happened ex_path exact_num topo_sort art_im art_eqb (fun a => a) (fun _ => s "art") m_st ex_store ex_store ex_yaml_done Hashes i_may_load w_wire w_back is_digit 4294967296 [].
Definition i_serve (d : node) (p : found exact_num art_im) (x : bool) (q : quest art_im) : reply exact_num art_im * (node * found exact_num art_im * bool) :=
  match q with
  | QBad => (AInvalid, (d, p, x))
  | _ =>
    if x then (ADied, (d, p, true))
    else match q with
         | QRead None | QRead (Some (Some false)) => (AProject p, (d, p, false))
         | QModify (Some Panic) => (ADied, (d, p, true))
         | QRead (Some (Some true)) =>
             match i_load d with
             | Ok (inl y) => (AProject y, (d, y, false)) | Ok (inr c) => (AFailed (None, c), (d, p, false)) | _ => (ADied, (d, p, true))
             end
         | QModify (Some (Ok ops)) =>
             let z := i_mod d ops in
             match snd z with
             | Ok (inl y) => (AProject y, (fst z, y, false)) | Ok (inr (k, c)) => (AFailed (Some k, c), (fst z, p, false)) | _ => (ADied, (fst z, p, true))
             end
         | _ => (AInvalid, (d, p, false))
         end
  end.
Lemma lifted E1 E3 x x' : clos_refl_trans_1n _ (mstep ex_path exact_num art_im m_st ex_store ex_store ex_yaml_done Hashes E3) x x' ->
  clos_refl_trans_1n _ i_goes (disk _ _ x, CModify _ _ E1 E3 x) (disk _ _ x', CModify _ _ E1 E3 x').
Proof. induction 1 as [x|x y z S R IH]; [constructor|]. econstructor; [constructor; exact S|exact IH]. Qed.
Lemma i_may t : i_may_load t (i_load t).
Proof. exists no_errs, 2, (fun _ => ([], None)). split; [lia|]. exact (i_loads t). Qed.
Lemma i_modifies d ops : modifies node (found exact_num art_im) failed (list (op art_im)) (call exact_num art_im) i_begins i_goes (call_ended exact_num art_im) d ops (fst (i_mod d ops)) (as_modified _ _ (snd (i_mod d ops))).
Proof.
  destruct (i_runs d ops) as (x0 & B & R).
  assert (D : disk exact_num art_im x0 = d).
  { unfold begins in B. destruct (res_bind _ _) as [[z|[c0 p0]]| |]; try (subst x0; reflexivity). destruct B as (todo & _ & ->). reflexivity. }
  exists (CModify exact_num art_im no_errs no_errs x0), (CModify exact_num art_im no_errs no_errs (MDone exact_num art_im (fst (i_mod d ops)) (snd (i_mod d ops)))).
  split; [|split].
  - exists no_errs, no_errs, (i_load d), x0. split; [apply i_may|]. split; [exact B|reflexivity].
  - rewrite <- D at 1. apply (lifted no_errs) in R. exact R.
  - reflexivity.
Qed.
Lemma i_reads d : reads node (found exact_num art_im) failed (call exact_num art_im) (call_read exact_num art_im i_may_load) i_goes (call_ended exact_num art_im) d d (as_read _ _ (i_load d)).
Proof. exists (CLoaded _ _ (as_read _ _ (i_load d))), (CLoaded _ _ (as_read _ _ (i_load d))). split; [exists (i_load d); split; [apply i_may|reflexivity]|]. split; [constructor|reflexivity]. Qed.
Lemma i_serve_ok d p x q : i_serves (d, p, x) q (fst (i_serve d p x q)) (snd (i_serve d p x q)).
Proof.
  unfold i_serves. destruct q as [|f|f]; [constructor| |]; destruct x; try (constructor; discriminate).
  - destruct f as [[[|]|]|]; cbn [i_serve fst snd].
    + pose proof (i_reads d) as R. destruct (i_load d) as [[y|c]| |]; cbn [as_read fst snd] in *; [now constructor|now constructor|eapply sv_reload_died; [exact R|discriminate]|eapply sv_reload_died; [exact R|discriminate]].
    + apply sv_read; auto.
    + apply sv_invalid; auto.
    + apply sv_read; auto.
  - destruct f as [[ops| |]|]; cbn [i_serve fst snd]; try (apply sv_invalid; auto; fail); try apply sv_unparsed.
    pose proof (i_modifies d ops) as R. cbv zeta. set (z := i_mod d ops) in *. clearbody z. destruct z as [d' [[y|[k c]]| |]]; cbn [as_modified fst snd] in *; [now constructor|now constructor|eapply sv_modify_died; [exact R|discriminate]|eapply sv_modify_died; [exact R|discriminate]].
Qed.
(** Take the element at an index out. *)
Fixpoint pick {A} (i : nat) (l : list A) : option (list A * A * list A) :=
  match i, l with
  | _, [] => None
  | 0, x :: l' => Some ([], x, l')
  | S i', x :: l' => match pick i' l' with Some (a, y, b) => Some (x :: a, y, b) | None => None end
  end.
Lemma pick_ok {A} i (l : list A) a x b : pick i l = Some (a, x, b) -> l = a ++ x :: b.
Proof.
  revert l a. induction i as [|i IH]; intros [|y l] a E; cbn [pick] in E; try discriminate E; [injection E as <- <- <-; reflexivity|].
  destruct (pick i l) as [[[a' y'] b']|] eqn:P; try discriminate E. injection E as <- <- <-. cbn [app]. f_equal. now apply IH.
Qed.
Definition req_dec : forall a b : req art_im, {a = b} + {a <> b}.
Proof. repeat decide equality. Defined.
Inductive cmd := KOpen (v : view) | KUser (k : nat) (u : action) | KNet (i : nat) | KBack (i : nat) | KGiveUp (k : nat).
Definition i_cmd (y : sys exact_num art_im) (m : cmd) : option (label exact_num art_im * sys exact_num art_im) :=
  let '(mkSys _ _ g n b d p x) := y in
  match m with
  | KOpen v => Some (LOpen v, i_st (g ++ [start [] v]) (n ++ [(length g, RInitial)]) b d p x)
  | KUser k u =>
      match nth_error g k with
      | Some (c, q) => match act art_eqb is_digit 4294967296 u c with
                       | Ok (c', sent) => Some (LUser k u, i_st (set_page _ k (c', q ++ sent) g) (n ++ sends _ k sent) b d p x)
                       | _ => None
                       end
      | None => None
      end
  | KNet i =>
      match pick i n with
      | Some (n1, (k, r), n2) =>
          match r with
          | RInitial => Some (LFile k, i_st g (n1 ++ n2) (b ++ [(k, RInitial, MInitial false None)]) d p x)
          | _ => match asked art_im w_back r with
                 | Some q => let z := i_serve d p x q in
                             Some (LServe k r (fst z), i_st g (n1 ++ n2) (b ++ match told exact_num art_im w_wire r (fst z) with Some m => [(k, r, m)] | None => [] end) (fst (fst (snd z))) (snd (fst (snd z))) (snd (snd z)))
                 | None => None
                 end
          end
      | None => None
      end
  | KBack i =>
      match pick i b with
      | Some (b1, (k, r, m), b2) =>
          match nth_error g k with
          | Some (c, [r0]) =>
              (* pages have at most one request *)
              if req_dec r0 r
              then match update art_eqb is_digit 4294967296 m c with
                   | Ok (c', sent) => Some (LArrive k r m, i_st (set_page _ k (c', sent) g) (n ++ sends _ k sent) (b1 ++ b2) d p x)
                   | _ => None
                   end
              else None
          | _ => None
          end
      | None => None
      end
  | KGiveUp k =>
      match nth_error g k with
      | Some (c, [r]) => match update art_eqb is_digit 4294967296 (MError 1) c with
                         | Ok (c', sent) => Some (LGiveUp k r, i_st (set_page _ k (c', sent) g) (n ++ sends _ k sent) b d p x)
                         | _ => None
                         end
      | _ => None
      end
  end.
Lemma i_cmd_ok y m e y' : i_cmd y m = Some (e, y') -> i_step y e y'.
Proof.
  destruct y as [g n b d p x]. unfold i_step, i_cmd. destruct m as [v|k u|i|i|k]; intros E.
  - injection E as <- <-. constructor.
  - destruct (nth_error g k) as [[c q]|] eqn:G; try discriminate E. destruct (act art_eqb is_digit 4294967296 u c) as [[c' sent]| |] eqn:A; try discriminate E. injection E as <- <-. eapply y_user; [exact G|exact A].
  - destruct (pick i n) as [[[n1 [k r]] n2]|] eqn:P; try discriminate E. apply pick_ok in P as ->.
    assert (Sv : forall q, asked art_im w_back r = Some q -> (let z := i_serve d p x q in
        Some (LServe k r (fst z), i_st g (n1 ++ n2) (b ++ match told exact_num art_im w_wire r (fst z) with Some m => [(k, r, m)] | None => [] end) (fst (fst (snd z))) (snd (fst (snd z))) (snd (snd z)))) = Some (e, y') ->
        i_step (mkSys _ _ g (n1 ++ (k, r) :: n2) b d p x) e y').
    { intros q Q Ez. cbv zeta in Ez. injection Ez as <- <-. pose proof (i_serve_ok d p x q) as S. destruct (i_serve d p x q) as [a [[d' p'] x']]. cbn [fst snd] in *. eapply y_serve; [exact Q|exact S]. }
    destruct r as [|j f|j ops]; [injection E as <- <-; constructor| |]; cbn [asked] in E; (eapply Sv; [reflexivity|exact E]).
  - destruct (pick i b) as [[[b1 [[k r] m]] b2]|] eqn:P; try discriminate E. apply pick_ok in P as ->.
    destruct (nth_error g k) as [[c [|r0 [|]]]|] eqn:G; try discriminate E. destruct (req_dec r0 r) as [->|]; try discriminate E.
    destruct (update art_eqb is_digit 4294967296 m c) as [[c' sent]| |] eqn:U; try discriminate E. injection E as <- <-.
    apply (y_arrive _ _ _ _ _ _ _ _ _ _ _ _ _ _ _ _ _ _ g n b1 b2 d p x k r m c [] [] c' sent); auto.
  - destruct (nth_error g k) as [[c [|r [|]]]|] eqn:G; try discriminate E.
    destruct (update art_eqb is_digit 4294967296 (MError 1) c) as [[c' sent]| |] eqn:U; try discriminate E. injection E as <- <-.
    apply (y_give_up _ _ _ _ _ _ _ _ _ _ _ _ _ _ _ _ _ _ g n b d p x k r c [] [] c' sent); auto.
Qed.
Fixpoint i_run (l : list cmd) (y : sys exact_num art_im) : option (sys exact_num art_im) :=
  match l with [] => Some y | m :: l' => match i_cmd y m with Some (_, y') => i_run l' y' | None => None end end.
Lemma i_run_ok d p h y l y' : i_happened d p h y -> i_run l y = Some y' -> exists h', i_happened d p (h' ++ h) y'.
Proof.
  revert h y. induction l as [|m l IH]; intros h y Hh E; cbn [i_run] in E; [injection E as <-; exists []; exact Hh|].
  destruct (i_cmd y m) as [[e y1]|] eqn:C; try discriminate E. apply i_cmd_ok in C. assert (H1 : i_happened d p ((y, e, y1) :: h) y1) by (econstructor; eassumption).
  destruct (IH _ _ H1 E) as [h' X]. exists (h' ++ [(y, e, y1)]). now rewrite <- app_assoc.
Qed.
(** Two pages open the same artifact. On the first it is renamed and rewritten and saved, on the
    second it is marked as done and saved; the answer to the first save is read and that page's form
    is gone, the second save is refused and that page's form is still there. *)
Definition i_type (k : nat) (id : N) (l : list field) : list cmd := map (fun f => KUser k (UType id f)) l.
Definition i_show (k : nat) : list cmd := [KNet 0; KBack 0; KNet 0; KBack 0; KUser k (UHash (s "SPC-a-b")); KUser k UEdit].
Definition i_story : list cmd :=
  [KOpen VGraph] ++ i_show 0 ++ [KOpen VGraph] ++ i_show 1 ++
  i_type 0 1 [FName (s "spc-C"); FPartAdd; FPartSet 2 (s "req-A"); FText (s "low" ++ [10%N] ++ s "new ")] ++
  i_type 1 1 [FDone (s "by hand")] ++ [KUser 0 (USave 1); KUser 1 (USave 1); KNet 0; KNet 0].
Definition i_first : found exact_num art_im := match i_load m_tree with Ok (inl x) => x | _ => (mkLints [] [], mkProject [] [] [] [] None) end.
Definition i_begin := i_st [] [] [] m_tree i_first false.
Definition forms_of (y : option (sys exact_num art_im)) : list (list (str * str)) :=
  match y with Some y => map (fun w => map (fun e => (e_name (snd e), e_done (snd e))) (c_edits (fst w))) (y_pages _ _ y) | None => [] end.
Definition shown_of (y : option (sys exact_num art_im)) : list (list str) :=
  match y with Some y => map (fun w => map (fun e => n_raw (sa_name (snd e))) (c_project (fst w))) (y_pages _ _ y) | None => [] end.
Example C83_example :
  forms_of (i_run i_story i_begin) = [[(s "spc-C", [])]; [(s "SPC-a-b", s "by hand")]] /\
  forms_of (i_run (i_story ++ [KBack 0]) i_begin) = [[]; [(s "SPC-a-b", s "by hand")]] /\
  forms_of (i_run (i_story ++ [KBack 1; KBack 0]) i_begin) = [[]; [(s "SPC-a-b", s "by hand")]] /\
  shown_of (i_run (i_story ++ [KBack 1; KBack 0]) i_begin) = [[s "REQ-a"; s "SPC-a"; s "spc-C"]; [s "REQ-a"; s "SPC-a"; s "SPC-a-b"]] /\
  (exists l y, i_happened m_tree i_first l y /\ i_run (i_story ++ [KBack 1; KBack 0]) i_begin = Some y).
Proof.
  assert (R : forall l, match i_run l i_begin with Some y => exists h, i_happened m_tree i_first h y | None => True end).
  { intros l. destruct (i_run l i_begin) as [y|] eqn:E; auto. destruct (i_run_ok m_tree i_first [] i_begin l y (hp_start _ _ _ _ _ _ _ _ _ _ _ _ _ _ _ _ _ _ _ _) E) as [h X]. rewrite app_nil_r in X. eauto. }
  split; [vm_compute; reflexivity|]. split; [vm_compute; reflexivity|]. split; [vm_compute; reflexivity|].
  assert (Sh : shown_of (i_run (i_story ++ [KBack 1; KBack 0]) i_begin) = [[s "REQ-a"; s "SPC-a"; s "spc-C"]; [s "REQ-a"; s "SPC-a"; s "SPC-a-b"]]) by (vm_compute; reflexivity).
  split; auto. specialize (R (i_story ++ [KBack 1; KBack 0])). destruct (i_run (i_story ++ [KBack 1; KBack 0]) i_begin) as [y|]; [|discriminate Sh]. destruct R as [h R]. exists h, y. auto.
Qed.
