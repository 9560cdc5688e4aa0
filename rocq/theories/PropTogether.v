(** C97: the saves of all pages add up. *)
From Coq Require Import ZArith Lia Permutation Relation_Operators.
From Verif Require Import Base BaseFacts Regex Name SpecName NameFacts RawNames RawNamesFacts Family FamilyFacts Artifact Stored SpecGraph Topo SpecLinks BuildFacts LinkFacts ProjectFacts Numbers
  Markdown SpecMarkdown MarkdownFacts YamlExample Lint SpecLint LintFacts LintThms Source SpecJoin Pool PoolFacts Load LoadFacts SpecLoad CheckFacts ReadThms Disk DiskFacts Walk SpecWalk WalkFacts Modify SpecModify SpecReload OpFacts PureFacts OrderFacts
  PhaseFacts ResultFacts CodecExample ReloadFacts DiskRunFacts PropArtifacts PropCompleted PropMarkdown PropLint PropLoad PropModify PropDisk SpecAgain AgainFacts PropAgain
  Server SpecServer ServerFacts ServerCalls Web WebSave SpecSave WebFacts PropWeb PropEdit PropSave System SpecSystem SystemFacts PropSystem SpecTogether.
Open Scope nat_scope.

Section Theorems.
  Variables (path_str : path -> str) (yaml : str -> option (option str * option RawNames.names_val)) (parse_toml parse_json : str -> res (list (name * art_raw)))
    (parse_msg : path -> str -> str) (prefix : str) (M : num) (topo : graph -> option (list nat)) (H : Type) (heqb : H -> H -> bool) (hash_im : art_im -> H)
    (settings_path : path) (url_error : option str) (enc : path -> str) (dec : str -> option path).
  Variables (debug_im : art_im -> str) (st : settings) (to_toml to_json : list (name * art_raw) -> str) (yaml_done : str -> str) (style : md_attrs).
  Variables (dig : char -> bool) (lim : N) (first : sproject H).
  Hypothesis TO : parser_ok parse_toml.
  Hypothesis JO : parser_ok parse_json.
  Hypothesis TC : topo_ok topo.
  Hypothesis HE : forall a b, heqb a b = true <-> a = b.
  (** Ids do not collide. *)
  Hypothesis HI : forall a b, hash_im a = hash_im b -> a = b.
  Hypothesis YO : yaml_ok yaml yaml_done.
  Hypothesis CT : codec_ok to_toml parse_toml.
  Hypothesis CJ : codec_ok to_json parse_json.
  Hypothesis RA : roots_apart (se_arts st).
  Notation may_load := (may_load path_str yaml parse_toml parse_json parse_msg prefix M topo H hash_im settings_path url_error st).
  Notation ystep := (ystep path_str M topo H heqb hash_im debug_im st to_toml to_json yaml_done style may_load enc dec dig lim first).
  Notation happened := (happened path_str M topo H heqb hash_im debug_im st to_toml to_json yaml_done style may_load enc dec dig lim first).
  Notation runs := (runs path_str M topo H heqb hash_im debug_im st to_toml to_json yaml_done style).
  Notation shows := (shows path_str yaml parse_toml parse_json parse_msg prefix M topo H hash_im settings_path url_error st).
  Notation can_load := (can_load path_str yaml parse_toml parse_json parse_msg prefix M topo H hash_im settings_path url_error st).
  Notation accepted := (accepted path_str yaml parse_toml parse_json parse_msg prefix M topo H heqb hash_im settings_path url_error debug_im st to_toml to_json yaml_done style).
  Notation reads := (reads node (found M H) failed (call M H) (call_read M H may_load) (call_goes path_str M H st to_toml to_json yaml_done style) (call_ended M H)).
  Notation modifies := (modifies node (found M H) failed (list (op H)) (call M H) (call_modify path_str M topo H heqb hash_im debug_im st may_load) (call_goes path_str M H st to_toml to_json yaml_done style) (call_ended M H)).
  Notation orderly := (orderly dec st prefix style).
  Notation saves := (saves dec).

  (** The calls of the server as a whole. *)
  Lemma reads_load d d' r : reads d d' r -> d' = d /\ exists z, may_load d z /\ r = as_read M H z.
  Proof.
    intros (j & j' & (z & L & ->) & G & En). remember (d, CLoaded M H (as_read M H z)) as u eqn:Eu. remember (d', j') as w eqn:Ew. destruct G as [|u1 u2 S1 _]; [|subst; inversion S1].
    rewrite Eu in Ew. injection Ew as <- <-. cbn in En. injection En as <-. eauto.
  Qed.
  Lemma modifies_runs d ops d' r : modifies d ops d' r -> exists E1 E3 z w, may_load d z /\ runs E1 E3 d z ops (MDone M H d' w) /\ r = as_modified M H w.
  Proof.
    intros (j & j' & (E1 & E3 & z & x & L & B & ->) & G & En).
    assert (Hd : disk M H x = d).
    { unfold begins in B. destruct (res_bind _ _) as [[?|[c0 p0]]| |]; try (subst x; reflexivity). destruct B as (todo & _ & ->). reflexivity. }
    rewrite <- Hd in G at 1. apply goes_on in G as (x1 & -> & -> & Hs). destruct x1 as [| | |t' w]; cbn [call_ended] in En; try discriminate En. injection En as <-.
    exists E1, E3, z, w. split; auto. split; auto. exists x. auto.
  Qed.

  (** Requests to modify come from forms. *)
  Lemma user_form u (c c' : client H) sent j ops : act heqb dig lim u c = Ok (c', sent) -> In (RModify j ops) sent -> exists e o, ops = [o] /\ edit_op e = Ok o.
  Proof.
    intros A I. destruct (user_sends heqb dig lim _ _ _ _ _ _ A I) as ((id & ->) & _ & _). cbn [act update update_model] in A. unfold start_send_update in A. destruct (c_task c); [injection A as <- <-; destruct I|].
    cbn [res_map] in A. destruct (im_get N.eqb id (c_edits c)) as [e|]; [|discriminate A]. destruct (edit_op e) as [o| |] eqn:Eo; cbn [res_bind] in A; try discriminate A.
    injection A as <- <-. destruct I as [I|[]]. injection I as <- <-. eauto.
  Qed.
  Lemma net_form d p l y : happened d p l y -> forall k j ops, In (k, RModify j ops) (y_net _ _ y) -> exists e o, ops = [o] /\ edit_op e = Ok o.
  Proof.
    induction 1 as [|l y e y' Hh IH S]; intros k j ops I; [destruct I|].
    pose proof (back_inv path_str M topo H heqb hash_im debug_im st to_toml to_json yaml_done style may_load enc dec dig lim first _ _ _ _ Hh) as B.
    destruct S as [g n b d0 q x v|g n b d0 q x i u c qs c' sent Gi A|g n n' b d0 q x i|g n n' b d0 q x i r qq a d' p' x' As Sv|g n b b' d0 q x i r m c qs qs' c' sent Gi A|g n b d0 q x i r c qs qs' c' sent Gi A|g n b d0 q x d'];
      cbn [y_net y_back] in *; eauto.
    - apply in_app_or in I as [I|[I|[]]]; eauto. discriminate I.
    - apply in_app_or in I as [I|I]; eauto. apply in_map_iff in I as (r & E & I). injection E as -> ->. eapply user_form; eauto.
    - eapply IH. apply in_app_or in I as [I|I]; apply in_or_app; [left|right; right]; exact I.
    - eapply IH. apply in_app_or in I as [I|I]; apply in_or_app; [left|right; right]; exact I.
    - apply in_app_or in I as [I|I]; eauto. apply in_map_iff in I as (r' & E & I). injection E as -> ->. exfalso. eapply (answer_sends heqb dig lim r); [|exact A|exact I].
      destruct (B k r m) as [[-> ->]|(y0 & a & y1 & _ & T)]; [apply in_elt|exact Logic.I|eapply told_answers; eauto].
    - apply in_app_or in I as [I|I]; eauto. apply in_map_iff in I as (r' & E & I). injection E as -> ->. exfalso. eapply (answer_sends heqb dig lim r); [|exact A|exact I]. destruct r; reflexivity.
  Qed.
  Lemma received_wf e o bs : edit_op e = Ok o -> received H dec [o] = Ok bs -> Forall op_wf bs.
  Proof.
    cbn [received]. intros Eo R. destruct (receive dec o) as [b|] eqn:Rc; [|discriminate R]. injection R as <-. destruct (form_sends dec e o b Eo Rc) as (w & De & ->).
    constructor; [|constructor]. destruct (e_orig e); exact (de_wf _ _ _ De).
  Qed.

  (** Adding a request at the end. *)
  Lemma outcome_saved l ops A B C : outcome hash_im l A B -> applied hash_im ops B C -> outcome hash_im (l ++ [(ops, true)]) A C.
  Proof.
    intros O Ap. induction O as [A B E|ops' l A B C' Ap' O IH|ops' l A B O IH]; cbn [app].
    - apply oc_saved with C; [|constructor; reflexivity]. intros a. rewrite (Ap a). now rewrite (E a).
    - econstructor; eauto.
    - constructor; auto.
  Qed.
  Lemma outcome_refused l ops A B : outcome hash_im l A B -> outcome hash_im (l ++ [(ops, false)]) A B.
  Proof. intros O. induction O; cbn [app]; [constructor; now constructor|econstructor; eauto|constructor; auto]. Qed.
  Lemma outcome_ext l A B B' : outcome hash_im l A B -> (forall a, In a B' <-> In a B) -> outcome hash_im l A B'.
  Proof.
    intros O. revert B'. induction O as [A B E|ops l A B C Ap O IH|ops l A B O IH]; intros B' E'; [constructor; intros a; now rewrite E'|econstructor; eauto|constructor; auto].
  Qed.

  (** What an accepted request leaves in memory and on the disk. *)
  Lemma saved_both t ops t' A E1 E3 z c1 p1 : safe_disk st t -> shows t A -> may_load t z -> runs E1 E3 t z ops (MDone M H t' (Ok (inl (c1, p1)))) ->
    fine H st ops -> md_survive prefix style (stored_form p1) -> no_twins (stored_form p1) ->
    safe_disk st t' /\ applied hash_im ops A (stored_form p1) /\ can_load t' (stored_form p1).
  Proof.
    intros Sd Sh (E & n & lo & N0 & Ld) Rn (W & Wo) Md Nt.
    assert (Z : exists c p, z = Ok (inl (c, p))).
    { apply done_project in Rn as ([[c p]|c] & c' & q & -> & Ep & _); [eauto|]. cbn [modify_pure] in Ep. destruct (is_nil (ls_error c)); discriminate Ep. }
    destruct Z as (c & p & ->). unfold PropSave.load_of in Ld.
    assert (Wc : walk_lints_ok (code_files E t lo path_str st)) by apply found_walk_ok.
    split; [|split].
    - exact (saved_safe path_str M topo TC H heqb HE hash_im debug_im st to_toml to_json yaml_done style E1 E3 yaml parse_toml parse_json TO JO parse_msg prefix settings_path url_error
        t Sd c p ops E n _ Wc Ld W Wo t' c1 p1 Rn Nt).
    - pose proof (C35_loaded _ _ _ _ _ _ _ _ _ _ _ _ TO JO TC _ _ _ _ _ _ _ Ld) as L.
      assert (Nh : NoDup (map hash_im (stored_form p))).
      { pose proof (lo_distinct _ _ L) as D. unfold distinct in D. apply NoDup_map_inv in D. apply FinFun.Injective_map_NoDup; [intros a b; apply HI|exact D]. }
      destruct (C35_map path_str M topo H heqb hash_im debug_im st to_toml to_json yaml_done style E1 E3 t c p ops t' c1 p1 TC HE L Nh W Rn) as (_ & _ & X).
      intros a. rewrite (X a). now rewrite (Sh E n lo c p N0 Ld a).
    - intros E' n' lo' r N' L2.
      exact (saved_loads path_str M topo TC H heqb HE hash_im debug_im st to_toml to_json yaml_done style E1 E3 yaml parse_toml parse_json TO JO parse_msg prefix settings_path url_error
        t Sd c p ops E n _ Wc Ld W Wo t' c1 p1 Rn YO CT CJ E' RA Md n' _ r N' (found_walk_ok _ _ _ _ _ _ _ _) L2).
  Qed.

  (** The project the server has in memory, and what anybody can load from the disk, is what the
      accepted saves of all pages made, in the order they were answered, of what there was. *)
  Theorem C97_together : forall d0 p0 l y, safe_disk st d0 -> shows d0 (stored_form (snd p0)) -> happened d0 p0 l y -> orderly l ->
    outcome hash_im (saves l) (stored_form (snd p0)) (stored_form (snd (y_project _ _ y))) /\
    shows (y_disk _ _ y) (stored_form (snd (y_project _ _ y))) /\ safe_disk st (y_disk _ _ y) /\
    ((exists ops, In (ops, true) (saves l)) -> exists B, (forall a, In a B <-> In a (stored_form (snd (y_project _ _ y)))) /\ can_load (y_disk _ _ y) B).
  Proof.
    intros d0 p0 l y Sd0 Sh0 Hh. induction Hh as [|l y e y' Hh IH S]; intros Or.
    - cbn [y_disk y_project]. split; [constructor; reflexivity|]. split; [exact Sh0|]. split; [exact Sd0|]. intros (ops & []).
    - assert (Or' : orderly l) by (intros a b c I; eapply Or; right; exact I). destruct (IH Or') as (Oc & Sh & Sd & Cl). clear IH Or'.
      pose proof (Or _ _ _ (or_introl eq_refl)) as Oe.
      assert (Es : saves ((y, e, y') :: l) = saves l ++ save_of dec e) by (unfold SpecTogether.saves; cbn [rev]; rewrite flat_map_app; cbn [flat_map fst snd]; now rewrite app_nil_r).
      rewrite Es. clear Es.
      assert (Same : y_disk _ _ y' = y_disk _ _ y -> (forall a, In a (stored_form (snd (y_project _ _ y'))) <-> In a (stored_form (snd (y_project _ _ y)))) ->
        save_of dec e = [] \/ (exists bs, save_of dec e = [(bs, false)]) ->
        outcome hash_im (saves l ++ save_of dec e) (stored_form (snd p0)) (stored_form (snd (y_project _ _ y'))) /\
        shows (y_disk _ _ y') (stored_form (snd (y_project _ _ y'))) /\ safe_disk st (y_disk _ _ y') /\
        ((exists ops, In (ops, true) (saves l ++ save_of dec e)) -> exists B, (forall a, In a B <-> In a (stored_form (snd (y_project _ _ y')))) /\ can_load (y_disk _ _ y') B)).
      { intros -> Ep Ee. split.
        - apply outcome_ext with (stored_form (snd (y_project _ _ y))); auto. destruct Ee as [->|[bs ->]]; [now rewrite app_nil_r|now apply outcome_refused].
        - split; [|split; auto].
          + intros E n lo c p N0 Ld a. rewrite Ep. eapply Sh; eauto.
          + intros (ops & I). destruct Cl as (B & EB & Cl).
            * exists ops. apply in_app_or in I as [I|I]; auto. destruct Ee as [Ee|[bs Ee]]; rewrite Ee in I; [destruct I|destruct I as [I|[]]; discriminate I].
            * exists B. split; auto. intros a. now rewrite EB, Ep. }
      inversion S as [g n b d p x v|g n b d p x k u c q c' sent G A|g n n' b d p x k|g n n' b d p x k r q a d' p' x' As Sv|g n b b' d p x k r m c q q' c' sent G A|g n b d p x k r c q q' c' sent G A|g n b d p x d'];
        subst; cbn [y_disk y_project] in *; try (apply Same; [reflexivity|reflexivity|now left]); [|destruct Oe].
      assert (Q : match a with AProject _ => False | _ => True end -> save_of dec (LServe k r a) = [] \/ exists bs, save_of dec (LServe k r a) = [(bs, false)]).
      { intros Na. cbn [save_of]. destruct r as [|j f|j ops]; auto. destruct (received H dec ops) as [bs| |]; auto. right. exists bs. destruct a; auto. destruct Na. }
      inversion Sv as [| |? ? f Hf| |? ?|? ? ? q0 Rd|? ? ? e0 Rd|? ? ? r0 Rd Nk|? ? ops ? q0 Rd|? ? ops ? e0 Rd|? ? ops ? r0 Rd Nk]; subst; try (apply Same; [reflexivity|reflexivity|apply Q; exact Logic.I]).
      + apply Same; [reflexivity|reflexivity|]. left. destruct r as [|j ff|j ops]; cbn [asked] in As; try discriminate As. reflexivity.
      + apply reads_load in Rd as (-> & z & (E & m & lo & N0 & Ld) & Ez). destruct z as [[[c2 p2]|]| |]; try discriminate Ez. injection Ez as ->. apply Same; [reflexivity| |].
        * intros a. cbn [snd]. eapply Sh; [exact N0|exact Ld].
        * left. destruct r as [|j ff|j ops]; cbn [asked] in As; try discriminate As. reflexivity.
      + apply reads_load in Rd as (-> & _). apply Same; [reflexivity|reflexivity|apply Q; exact Logic.I].
      + apply reads_load in Rd as (-> & _). apply Same; [reflexivity|reflexivity|apply Q; exact Logic.I].
      + destruct r as [|j ff|j os]; cbn [asked] in As; try discriminate As. injection As as Rc.
        apply modifies_runs in Rd as (E1 & E3 & z & w & Lz & Rn & Ew). destruct w as [[[c1 p1]|[kk w]]| |]; try discriminate Ew. injection Ew as ->. cbn [snd].
        destruct Oe as (Pl & Md & Nt). cbn [snd] in Md, Nt. cbn [save_of] in *. rewrite Rc in *.
        destruct (net_form _ _ _ _ Hh k j os) as (e & o & -> & Eo); [cbn [y_net]; apply in_elt|].
        destruct (saved_both d ops d' (stored_form (snd p)) E1 E3 z c1 p1 Sd Sh Lz Rn) as (Sd' & Ap & Cl'); auto.
        { split; [eapply received_wf; eauto|]. intros o' a Io So. eapply Pl; eauto. }
        split; [eapply outcome_saved; eauto|]. split; [apply can_shows; exact Cl'|]. split; [exact Sd'|]. intros _. exists (stored_form p1). split; [reflexivity|exact Cl'].
      + apply modifies_runs in Rd as (E1 & E3 & z & w & Lz & Rn & Ew). destruct w as [[[c1 p1]|[kk w]]| |]; try discriminate Ew. injection Ew as ->.
        pose proof (C38_disk_untouched _ _ _ _ _ _ _ _ _ _ _ _ _ _ _ _ _ _ _ Rn) as X. cbn in X.
        assert (Kn : kk <> KBackups /\ kk <> KSave) by (destruct r as [|j ff|j os]; exact Oe). destruct X as [X|[X| -> ]]; [now destruct Kn|now destruct Kn|].
        apply Same; [reflexivity|reflexivity|apply Q; exact Logic.I].
      + apply modifies_runs in Rd as (E1 & E3 & z & w & Lz & Rn & Ew).
        pose proof (C38_disk_untouched _ _ _ _ _ _ _ _ _ _ _ _ _ _ _ _ _ _ _ Rn) as X.
        assert (d' = d) as -> by (destruct w as [[w|[kk w]]| |]; [destruct (Nk _ Ew)|destruct (Nk _ Ew)|exact X|exact X]).
        apply Same; [reflexivity|reflexivity|apply Q; exact Logic.I].
  Qed.

  (** One step: the artifacts change only when a save is accepted, and then exactly the version the
      form was opened on is replaced by what the form says, or a new artifact is added: nothing that
      another page saved is lost. *)
  Definition puts (f : edit H) (A B : list art_im) : Prop :=
    exists w, described dec f w /\
      match e_orig f with
      | Some i => exists a, In a A /\ hash_im a = i /\ forall x, In x B <-> x = im_clean w \/ (In x A /\ x <> a)
      | None => ~ In (im_clean w) A /\ forall x, In x B <-> x = im_clean w \/ In x A
      end.
  Theorem C97_step : forall d0 p0 l y e y', safe_disk st d0 -> shows d0 (stored_form (snd p0)) -> happened d0 p0 l y -> ystep y e y' -> orderly ((y, e, y') :: l) ->
    (forall a, In a (stored_form (snd (y_project _ _ y'))) <-> In a (stored_form (snd (y_project _ _ y)))) \/
    exists k j o f, e = LServe k (RModify j [o]) (AProject (y_project _ _ y')) /\ edit_op f = Ok o /\
      puts f (stored_form (snd (y_project _ _ y))) (stored_form (snd (y_project _ _ y'))).
  Proof.
    intros d0 p0 l y e y' Sd0 Sh0 Hh S Or. assert (Or' : orderly l) by (intros a b c I; eapply Or; right; exact I).
    destruct (C97_together d0 p0 l y Sd0 Sh0 Hh Or') as (_ & Sh & _). pose proof S as S0.
    inversion S as [g n b d p x v|g n b d p x k u c q c' sent G A|g n n' b d p x k|g n n' b d p x k r q a d' p' x' As Sv|g n b b' d p x k r m c q q' c' sent G A|g n b d p x k r c q q' c' sent G A|g n b d p x d'];
      subst; cbn [y_disk y_project] in *; try (left; reflexivity).
    inversion Sv as [| |? ? f Hf| |? ?|? ? ? q0 Rd|? ? ? e0 Rd|? ? ? r0 Rd Nk|? ? ops ? q0 Rd|? ? ops ? e0 Rd|? ? ops ? r0 Rd Nk]; subst; try (left; reflexivity).
    - left. apply reads_load in Rd as (-> & z & (E & m & lo & N0 & Ld) & Ez). destruct z as [[[c2 p2]|]| |]; try discriminate Ez. injection Ez as ->. intros a. cbn [snd]. eapply Sh; [exact N0|exact Ld].
    - right. destruct r as [|j ff|j os]; cbn [asked] in As; try discriminate As. injection As as Rc. destruct (net_form _ _ _ _ Hh k j os) as (f & o & -> & Eo); [cbn [y_net]; apply in_elt|].
      exists k, j, o, f. split; auto. split; auto. cbn [received] in Rc. destruct (receive dec o) as [b0|] eqn:Rb; [|discriminate Rc]. injection Rc as <-.
      apply modifies_runs in Rd as (E1 & E3 & z & w & (E & m & lo & N0 & Ld) & Rn & Ew). destruct w as [[[c1 p1]|[kk w]]| |]; try discriminate Ew. injection Ew as ->. cbn [snd].
      destruct (saved_replaced path_str yaml parse_toml parse_json parse_msg prefix M topo H heqb hash_im settings_path url_error dec debug_im st to_toml to_json yaml_done style TO JO TC HE HI E d m lo z E1 E3 f o b0 d' c1 p1 Ld Eo Rb Rn) as (c & pl & -> & w & De & X).
      pose proof (C35_loaded _ _ _ _ _ _ _ _ _ _ _ _ TO JO TC _ _ _ _ _ _ _ Ld) as L. pose proof (Sh E m lo c pl N0 Ld) as Eq.
      exists w. split; auto. destruct (e_orig f) as [i|].
      + destruct X as (nm & a & I & <- & X). exists (to_im a). split; [apply Eq; unfold stored_form; apply in_map_iff; now exists (nm, a)|]. split; [symmetry; exact (lo_id _ _ L nm a I)|].
        intros z. now rewrite X, Eq.
      + destruct X as [Ni X]. split; [now rewrite <- Eq|]. intros z. now rewrite X, Eq.
  Qed.
  (** What a page shows is what the saves before some moment have made. *)
  Theorem C97_pages : forall d0 p0 l y k c q, safe_disk st d0 -> shows d0 (stored_form (snd p0)) -> happened d0 p0 l y -> orderly l -> nth_error (y_pages _ _ y) k = Some (c, q) ->
    c_project c = first \/
    exists l2 l1 p, l = l2 ++ l1 /\ c_project c = wire M H enc p /\ outcome hash_im (saves l1) (stored_form (snd p0)) (stored_form p).
  Proof.
    intros d0 p0 l y k c q Sd0 Sh0 Hh Or G.
    destruct (C83_shown path_str yaml parse_toml parse_json parse_msg prefix M topo H heqb hash_im settings_path url_error enc dec debug_im st to_toml to_json yaml_done style dig lim first d0 p0 l y k c q Hh G) as [X|(y1 & r & x & y2 & I & -> & Ex)]; auto.
    right. apply in_split in I as (l2 & l1 & El). exists l2, ((y1, LServe k r (AProject x), y2) :: l1), (snd x). split; auto. split; auto.
    pose proof (happened_cut path_str M topo H heqb hash_im debug_im st to_toml to_json yaml_done style may_load enc dec dig lim first _ _ _ _ _ _ _ _ _ Hh El) as H1.
    assert (S1 : ystep y1 (LServe k r (AProject x)) y2) by (eapply happened_step; [exact Hh|rewrite El; apply in_elt]).
    destruct (C97_together d0 p0 _ y2 Sd0 Sh0 (hp_step _ _ _ _ _ _ _ _ _ _ _ _ _ _ _ _ _ _ _ _ _ _ _ _ H1 S1)) as (O & _).
    - intros a e b J. eapply Or. rewrite El. apply in_or_app. right. exact J.
    - now rewrite Ex in O.
  Qed.
End Theorems.
Print Assumptions C97_together.
Print Assumptions C97_step.
Print Assumptions C97_pages.

(** The example system: two pages save different artifacts, a third had opened what the first one
    replaced and is refused; the saves of the first two are both there. *)
Fixpoint i_labels (l : list cmd) (y : sys exact_num art_im) : list (label exact_num art_im) :=
  match l with [] => [] | m :: l' => match i_cmd y m with Some (e, y') => e :: i_labels l' y' | None => [] end end.
Lemma i_labels_ok d p h y l y' : i_happened d p h y -> i_run l y = Some y' ->
  exists h', i_happened d p (h' ++ h) y' /\ map (fun x => snd (fst x)) (rev h') = i_labels l y.
Proof.
  revert h y. induction l as [|m l IH]; intros h y Hh E; cbn [i_run i_labels] in *; [injection E as <-; exists []; split; [exact Hh|reflexivity]|].
  destruct (i_cmd y m) as [[e y1]|] eqn:C; try discriminate E. apply i_cmd_ok in C. assert (H1 : i_happened d p ((y, e, y1) :: h) y1) by (econstructor; eassumption).
  destruct (IH _ _ H1 E) as (h' & X & Y). exists (h' ++ [(y, e, y1)]). rewrite <- app_assoc. split; [exact X|]. rewrite rev_app_distr. cbn [rev app map fst snd]. now rewrite Y.
Qed.
Definition calm_b (e : label exact_num art_im) : bool :=
  match e with
  | LDisk => false
  | LServe _ (RModify _ ops) (AProject x) =>
      match received art_im w_back ops with
      | Ok bs => forallb (fun o => match o with OCreate a | OUpdate a _ => forallb goes_down (im_file a) && forallb (fun z => negb (path_prefix (im_file a) z)) (se_xarts m_st) | _ => true end) bs
      | _ => true
      end && forallb (fun a => forallb (fun l => text_b [] l && negb (last_cr l)) (split_on 10%N (im_text a))) (stored_form (snd x)) &&
      forallb (fun a => match art_type_of (im_file a) with Some _ => true | None => false end) (stored_form (snd x)) &&
      forallb (fun a => forallb (fun b => negb (path_eqb (backup_of (im_file a)) (backup_of (im_file b))) || path_eqb (im_file a) (im_file b)) (stored_form (snd x))) (stored_form (snd x))
  | LServe _ _ (AFailed (Some KBackups, _)) | LServe _ _ (AFailed (Some KSave, _)) => false
  | _ => true
  end.
Lemma calm_b_ok e : calm_b e = true -> orderly_step w_back m_st [] Hashes e.
Proof.
  unfold calm_b, orderly_step. destruct e as [| | |k r a| | |]; try discriminate; auto.
  destruct r as [|j f|j ops]; destruct a as [x|[[kk|] c]| |]; auto; try (destruct kk; intros X; try discriminate X; split; discriminate).
  rewrite !Bool.andb_true_iff. intros [[[A B] C] D]. split; [|split].
  - intros bs o a R Io So. rewrite R in A. rewrite forallb_forall in A. specialize (A o Io).
    assert (Z : forallb goes_down (im_file a) && forallb (fun z => negb (path_prefix (im_file a) z)) (se_xarts m_st) = true) by (destruct So as [->|[i ->]]; exact A).
    apply Bool.andb_true_iff in Z as [Z1 Z2]. split; [apply Forall_forall; rewrite forallb_forall in Z1; exact Z1|].
    intros z Iz Be. rewrite forallb_forall in Z2. specialize (Z2 z Iz). apply Bool.negb_true_iff in Z2. apply path_prefix_iff in Be. congruence.
  - apply md_survive_quiet; [exact m_prefix|discriminate|]. apply Forall_forall. intros a I. apply quiet_b. rewrite forallb_forall in B. exact (B a I).
  - now apply h_twins.
Qed.
Definition i_show_art (k : nat) (n : str) : list cmd := [KNet 0; KBack 0; KNet 0; KBack 0; KUser k (UHash n); KUser k UEdit].
Definition i_three : list cmd :=
  [KOpen VGraph] ++ i_show_art 0 (s "SPC-a-b") ++ [KOpen VGraph] ++ i_show_art 1 (s "REQ-a") ++ [KOpen VGraph] ++ i_show_art 2 (s "SPC-a-b") ++
  i_type 0 1 [FName (s "spc-C"); FText (s "low" ++ [10%N] ++ s "new ")] ++ i_type 1 1 [FText (s "more")] ++ i_type 2 1 [FDone (s "by hand")] ++
  [KUser 0 (USave 1); KUser 1 (USave 1); KUser 2 (USave 1); KNet 0; KNet 0; KNet 0; KBack 1; KBack 1; KBack 0].
Definition i_end := match i_run i_three i_begin with Some y => y | None => i_begin end.
Definition i_req := mkIm (im_name req_a) (im_file req_a) (im_partof req_a) (im_done req_a) (s "more").
Example C97_example : exists l,
  i_happened m_tree i_first l i_end /\ orderly w_back m_st [] Hashes l /\
  safe_disk m_st m_tree /\
  shows ex_path ex_yaml ex_parse ex_parse (fun _ _ => s "bad") [] exact_num topo_sort art_im (fun a => a) [s "settings.toml"] None m_st m_tree (stored_form (snd i_first)) /\
  stored_form (snd i_first) = [req_a; spc_a; spc_b] /\
  map snd (saves w_back l) = [true; true; false] /\
  stored_form (snd (y_project _ _ i_end)) = [i_req; spc_a; im_clean first_art] /\
  shown_of (Some i_end) = [[s "REQ-a"; s "SPC-a"; s "spc-C"]; [s "REQ-a"; s "SPC-a"; s "spc-C"]; [s "REQ-a"; s "SPC-a"; s "SPC-a-b"]].
Proof.
  assert (R : match i_run i_three i_begin with Some _ => true | None => false end = true) by (vm_compute; reflexivity).
  destruct (i_run i_three i_begin) as [y|] eqn:E; [|discriminate R]. clear R.
  assert (Ey : i_end = y) by (unfold i_end; now rewrite E).
  destruct (i_labels_ok m_tree i_first [] i_begin i_three y (hp_start _ _ _ _ _ _ _ _ _ _ _ _ _ _ _ _ _ _ _ _) E) as (h & Hh & Lb). rewrite app_nil_r in Hh.
  exists h. rewrite Ey at 1. split; [exact Hh|]. split.
  { assert (X : forallb calm_b (i_labels i_three i_begin) = true) by (vm_compute; reflexivity). rewrite <- Lb in X. rewrite forallb_forall in X.
    intros a e b I. apply calm_b_ok, X. apply in_map_iff. exists (a, e, b). split; [reflexivity|]. now apply -> in_rev. }
  split; [exact m_safe|]. split.
  { assert (X : ok_b (i_load m_tree) = true) by (vm_compute; reflexivity). unfold i_first. pose proof (i_loads m_tree) as Ld. destruct (i_load m_tree) as [[[c p]|]| |]; try discriminate X. cbn [snd].
    apply (C96_shows ex_path ex_yaml ex_parse ex_parse (fun _ _ => s "bad") [] exact_num topo_sort art_im (fun a => a) [s "settings.toml"] None m_st ex_parser_ok ex_parser_ok topo_sort_ok m_tree no_errs 2 (fun _ => ([], None)) c p); [exact Ld|lia|].
    intros f Hf. assert (Y : forallb (fun i => match i with inl f => negb (jb_panic (load_file ex_path ex_yaml ex_parse ex_parse (fun _ _ => s "bad") [] f)) | inr _ => true end) (art_files no_errs m_tree ex_path m_st) = true) by (vm_compute; reflexivity).
    rewrite forallb_forall in Y. specialize (Y _ Hf). now apply Bool.negb_true_iff in Y. }
  split; [vm_compute; reflexivity|]. split.
  { assert (X : map snd (flat_map (save_of w_back) (i_labels i_three i_begin)) = [true; true; false]) by (vm_compute; reflexivity). rewrite <- X, <- Lb. unfold saves. f_equal.
    generalize (rev h) as z. induction z as [|x z IH]; cbn [flat_map map]; [reflexivity|now rewrite IH]. }
  split; vm_compute; reflexivity.
Qed.
