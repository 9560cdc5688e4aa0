(** C84: saving a form again when the answer did not arrive. *)
From Coq Require Import ZArith Lia Permutation Relation_Operators.
From Verif Require Import Base BaseFacts Regex Name SpecName NameFacts RawNames RawNamesFacts Family FamilyFacts Artifact Stored SpecGraph Topo SpecLinks BuildFacts LinkFacts ProjectFacts Numbers
  Markdown SpecMarkdown MarkdownFacts YamlExample Lint SpecLint LintFacts LintThms Source SpecJoin Pool PoolFacts Load LoadFacts SpecLoad CheckFacts ReadThms Disk DiskFacts Walk SpecWalk WalkFacts Modify SpecModify SpecReload OpFacts PureFacts OrderFacts
  PhaseFacts ResultFacts CodecExample ReloadFacts DiskRunFacts PropArtifacts PropCompleted PropMarkdown PropLint PropLoad PropModify PropDisk Server SpecServer ServerFacts ServerCalls Web WebSave SpecSave WebFacts PropWeb PropEdit PropSave System SpecSystem SystemFacts PropSystem.
Open Scope nat_scope.

(** Some request takes the id [i] away. *)
Definition removes {H} (hash_im : art_im -> H) (l : list (list (op H))) (i : H) : Prop :=
  exists ops, In ops l /\ taken hash_im (map (op_clean H) ops) i.

Section Theorems.
  Variables (path_str : path -> str) (yaml : str -> option (option str * option RawNames.names_val)) (parse_toml parse_json : str -> res (list (name * art_raw)))
    (parse_msg : path -> str -> str) (prefix : str) (M : num) (topo : graph -> option (list nat)) (H : Type) (heqb : H -> H -> bool) (hash_im : art_im -> H)
    (settings_path : path) (url_error : option str) (dec : str -> option path).
  Variables (debug_im : art_im -> str) (st : settings) (to_toml to_json : list (name * art_raw) -> str) (yaml_done : str -> str) (style : md_attrs).
  Hypothesis TO : parser_ok parse_toml.
  Hypothesis JO : parser_ok parse_json.
  Hypothesis TC : topo_ok topo.
  Hypothesis HE : forall a b, heqb a b = true <-> a = b.
  Hypothesis HI : forall a b, hash_im a = hash_im b -> a = b.
  Hypothesis YO : yaml_ok yaml yaml_done.
  Hypothesis CT : codec_ok to_toml parse_toml.
  Hypothesis CJ : codec_ok to_json parse_json.
  Hypothesis RA : roots_apart (se_arts st).
  Notation load_of := (load_of path_str yaml parse_toml parse_json parse_msg prefix M topo H hash_im settings_path url_error st).
  Notation runs := (runs path_str M topo H heqb hash_im debug_im st to_toml to_json yaml_done style).
  Notation saved := (saved path_str yaml parse_toml parse_json parse_msg prefix M topo H heqb hash_im settings_path url_error debug_im st to_toml to_json yaml_done style).
  Notation refused := (refused path_str yaml parse_toml parse_json parse_msg prefix M topo H heqb hash_im settings_path url_error debug_im st to_toml to_json yaml_done style).
  Notation history := (PropSave.history path_str yaml parse_toml parse_json parse_msg prefix M topo H heqb hash_im settings_path url_error debug_im st to_toml to_json yaml_done style).

  (** Whenever the disk can be read, there is an artifact with the id [i]. *)
  Definition present (t : node) (i : H) : Prop :=
    forall E n lo c p, reliable E -> 0 < n -> load_of E t n lo (Ok (inl (c, p))) -> In i (map hash_im (stored_form p)).

  Lemma id_dec (a b : H) : a = b \/ a <> b.
  Proof. destruct (heqb a b) eqn:Q; [left; now apply HE|right; intros X; apply HE in X; congruence]. Qed.
  Lemma stored_dec ops i : stored hash_im ops i \/ ~ stored hash_im ops i.
  Proof.
    induction ops as [|x ops IH]; [right; intros (o & a & [] & _)|].
    destruct IH as [(o & a & I & X)|N]; [left; exists o, a; split; [now right|auto]|].
    assert (Y : (exists a, stores x a /\ hash_im a = i) \/ forall a, stores x a -> hash_im a <> i).
    { destruct x as [b|b j|m j].
      - destruct (id_dec (hash_im b) i); [left; exists b; split; [now left|auto]|]. right. intros a [X|[j X]]; [injection X as <-; auto|discriminate X].
      - destruct (id_dec (hash_im b) i); [left; exists b; split; [right; eauto|auto]|]. right. intros a [X|[j' X]]; [discriminate X|injection X as <- _; auto].
      - right. intros a [X|[j' X]]; discriminate X. }
    destruct Y as [(a & S & E)|Y]; [left; exists x, a; split; [now left|auto]|right]. intros (o & a & [<-|I] & S & E); [exact (Y a S E)|]. apply N. exists o, a. auto.
  Qed.
  Lemma stored_last ops i : stored hash_im ops i -> exists a, last_stored hash_im ops i a.
  Proof.
    intros (o & a & I & So & Ea). revert o a I So Ea. induction ops as [|x ops IH]; intros o a I So Ea; [destruct I|].
    assert (D : (exists o a, In o ops /\ stores o a /\ hash_im a = i) \/ forall o a, In o ops -> stores o a -> hash_im a <> i).
    { destruct (stored_dec ops i) as [S|S]; [now left|right]. intros o1 a1 I1 S1 X. apply S. exists o1, a1. auto. }
    destruct D as [(o' & a' & I' & So' & E')|N].
    - destruct (IH o' a' I' So' E') as (b & l & o1 & r & El & X). exists b, (x :: l), o1, r. split; [now rewrite El|auto].
    - destruct I as [->|I]; [|exfalso; exact (N o a I So Ea)]. exists a, [], o, ops. split; [reflexivity|]. split; auto.
  Qed.
  Lemma saved_present t ops t1 i : saved t ops t1 -> ~ taken hash_im (map (op_clean H) ops) i -> stored hash_im (map (op_clean H) ops) i \/ present t i -> present t1 i.
  Proof.
    intros (Sd & W & Wp & E & n & lo & c & p & E1 & E3 & c1 & p1 & Re & N0 & Ld & Rn & Md) Nt C E' n' lo' c2 p2 (Es & Eo & Er) N' Ld2.
    pose proof (C35_loaded _ _ _ _ _ _ _ _ _ _ _ _ TO JO TC _ _ _ _ _ _ _ Ld) as L. pose proof (no_twice M H hash_im HI p L) as Nh.
    destruct (C40_reload path_str M topo H heqb hash_im debug_im st to_toml to_json yaml_done style E1 E3 yaml parse_toml parse_json parse_msg prefix settings_path url_error E n lo t c p ops t1 c1 p1 E'
      TC HE TO JO YO CT CJ Sd RA Ld W Wp Rn Md Es Eo Er) as [_ P].
    specialize (P n' lo' c2 p2 N' Ld2). apply (Permutation_in _ (Permutation_map hash_im (Permutation_sym P))).
    destruct (C35_map path_str M topo H heqb hash_im debug_im st to_toml to_json yaml_done style E1 E3 t c p ops t1 c1 p1 TC HE L Nh W Rn) as (_ & _ & X).
    destruct (stored_dec (map (op_clean H) ops) i) as [S|S].
    - apply stored_last in S as [a La]. apply in_map_iff. exists a. assert (Ea : hash_im a = i) by (destruct La as (? & ? & ? & _ & _ & Z & _); exact Z). split; auto. apply X. rewrite Ea. auto.
    - destruct C as [C|C]; [contradiction|]. specialize (C E n lo c p Re N0 Ld). apply in_map_iff in C as (a & Ea & Ia). apply in_map_iff. exists a. split; auto. apply X. rewrite Ea. auto.
  Qed.
  Lemma history_present t l t' i : history t l t' -> present t i -> ~ removes hash_im l i -> present t' i.
  Proof.
    induction 1 as [t|t ops t1 l t' S Hh IH]; auto. intros Pr Nb.
    assert (N1 : ~ taken hash_im (map (op_clean H) ops) i) by (intros X; apply Nb; exists ops; split; [now left|auto]).
    assert (N2 : ~ removes hash_im l i) by (intros (o & Ho & X); apply Nb; exists o; split; [now right|auto]).
    destruct S as [S|S]; [apply IH; auto; eapply saved_present; eauto|]. apply refused_same in S as ->. auto.
  Qed.

  (** A new artifact is created once: sending the form again, after the answer was lost or not, is
      refused and leaves the disk alone, unless the artifact was edited or deleted in between. *)
  Theorem C84_created : forall t e o b t1 l t2 E n lo r E1 E3 t3 y,
    e_orig e = None -> edit_op e = Ok o -> receive dec o = Some b ->
    saved t [b] t1 -> history t1 l t2 -> (forall w, described dec e w -> ~ removes hash_im l (hash_im (im_clean w))) ->
    reliable E -> 0 < n -> load_of E t2 n lo r -> runs E1 E3 t2 r [b] (MDone M H t3 y) ->
    t3 = t2 /\ forall x, y <> Ok (inl x).
  Proof.
    intros t e o b t1 l t2 E n lo r E1 E3 t3 y Eo Op Rc Sv Hh Nr Re N0 Ld Rn.
    destruct (form_sends dec e o b Op Rc) as (w & De & Eb). rewrite Eo in Eb. subst b. specialize (Nr w De).
    assert (Pr : present t1 (hash_im (im_clean w))).
    { apply (saved_present _ _ _ _ Sv).
      - intros (o' & [<-|[]] & (To & _)). destruct To as [[z X]|[z X]]; discriminate X.
      - left. exists (OCreate (im_clean w)), (im_clean w). split; [now left|]. split; [now left|auto]. }
    apply (history_present _ _ _ _ Hh Pr) in Nr. clear Pr.
    destruct r as [[[c p]|c]| |].
    - destruct (C36_refused path_str M topo H heqb hash_im debug_im st to_toml to_json yaml_done style E1 E3 t2 c p [OCreate w] (OCreate (im_clean w)) HE (or_introl eq_refl)) as (k & z & _ & X).
      + apply C36_kinds. exact (Nr E n lo c p Re N0 Ld).
      + apply X in Rn. injection Rn as -> ->. split; auto. discriminate.
    - destruct Rn as (x0 & B & S0). unfold begins in B. cbn [res_bind modify_pure] in B. destruct (is_nil (ls_error c)); subst x0;
        apply (after_done path_str M H st to_toml to_json yaml_done style E3) in S0; injection S0 as -> ->; split; auto; discriminate.
    - destruct Rn as (x0 & B & S0). unfold begins in B. cbn [res_bind] in B. subst x0. apply (after_done path_str M H st to_toml to_json yaml_done style E3) in S0. injection S0 as -> ->. split; auto. discriminate.
    - destruct Rn as (x0 & B & S0). unfold begins in B. cbn [res_bind] in B. subst x0. apply (after_done path_str M H st to_toml to_json yaml_done style E3) in S0. injection S0 as -> ->. split; auto. discriminate.
  Qed.
  (** The same for a form that was opened on an artifact and changed. *)
  Theorem C84_edited : forall t E0 n0 lo0 c p m a e o b t1 l t2 E n lo r E1 E3 t3 y,
    load_of E0 t n0 lo0 (Ok (inl (c, p))) -> In (m, a) (pr_arts p) ->
    e_orig e = Some (a_id a) -> edit_op e = Ok o -> receive dec o = Some b -> (forall w, described dec e w -> im_clean w <> to_im a) ->
    saved t [b] t1 -> history t1 l t2 -> ~ brings hash_im l (a_id a) ->
    reliable E -> 0 < n -> load_of E t2 n lo r -> runs E1 E3 t2 r [b] (MDone M H t3 y) ->
    t3 = t2 /\ forall x, y <> Ok (inl x).
  Proof.
    intros t E0 n0 lo0 c p m a e o b t1 l t2 E n lo r E1 E3 t3 y Ld0 Ia Eo Op Rc Ch Sv Hh Nb Re N0 Ld Rn.
    exact (C82_edits path_str yaml parse_toml parse_json parse_msg prefix M topo H heqb hash_im settings_path url_error dec debug_im st to_toml to_json yaml_done style TO JO TC HE HI YO CT CJ RA
      t E0 n0 lo0 c p m a e o b t1 l t2 E n lo r e o b E1 E3 t3 y Ld0 Ia Eo Eo Op Rc Op Rc Ch Ch Sv Hh Nb Re N0 Ld Rn).
  Qed.
End Theorems.
Print Assumptions C84_created.
Print Assumptions C84_edited.

(** A page makes a new artifact. The server saves it, the answer is lost, the form is still there
    and is saved again: refused, the disk as it was, the form still there. *)
Definition r_story : list cmd :=
  [KOpen VGraph; KNet 0; KBack 0; KNet 0; KBack 0; KUser 0 UCreate] ++
  i_type 0 1 [FName (s "SPC-n"); FFile (w_wire (im_file spc_n)); FText (s "new")] ++ [KUser 0 (USave 1); KNet 0].
Definition r_disk (y : option (sys exact_num art_im)) : option (list art_im) :=
  match y with Some y => Some (map (fun e => to_im (snd e)) (i_arts (y_disk _ _ y))) | None => None end.
Definition r_form : edit art_im := mkEdit None (s "SPC-n") (w_wire (im_file spc_n)) [] [] (s "new").
Example C84_example :
  i_ops r_form = [OCreate spc_n] /\ e_orig r_form = None /\
  r_disk (i_run r_story i_begin) = Some [req_a; spc_a; spc_b; spc_n] /\
  forms_of (i_run (r_story ++ [KGiveUp 0]) i_begin) = [[(s "SPC-n", [])]] /\
  r_disk (i_run (r_story ++ [KGiveUp 0; KUser 0 (USave 1); KNet 0]) i_begin) = Some [req_a; spc_a; spc_b; spc_n] /\
  i_out (i_mod (fst (i_mod m_tree (i_ops r_form))) (i_ops r_form)) = (Some KHash, []) /\
  forms_of (i_run (r_story ++ [KGiveUp 0; KUser 0 (USave 1); KNet 0; KBack 1]) i_begin) = [[(s "SPC-n", [])]].
Proof. vm_compute. repeat split. Qed.
(** After the artifact was deleted the form creates it again. *)
Example C84_deleted :
  let t1 := fst (i_mod m_tree (i_ops r_form)) in let t2 := fst (i_mod t1 [ODelete (im_name spc_n) spc_n]) in
  snd (i_out (i_mod t1 [ODelete (im_name spc_n) spc_n])) = [req_a; spc_a; spc_b] /\
  i_out (i_mod t2 (i_ops r_form)) = (None, [req_a; spc_a; spc_b; spc_n]).
Proof. vm_compute. repeat split. Qed.
(** The conditions of C84 hold here. *)
Example C84_conditions :
  saved ex_path ex_yaml ex_parse ex_parse (fun _ _ => s "bad") [] exact_num topo_sort art_im art_eqb (fun a => a) [s "settings.toml"] None (fun _ => s "art") m_st ex_store ex_store ex_yaml_done Hashes
    m_tree (i_ops r_form) (fst (i_mod m_tree (i_ops r_form))) /\
  ~ removes (fun a : art_im => a) [] spc_n.
Proof.
  assert (Ef : i_ops r_form = [OCreate spc_n]) by (vm_compute; reflexivity). split; [|intros (o & [] & _)].
  rewrite Ef. split; [apply safe_b_ok; vm_compute; reflexivity|]. split; [|split].
  - constructor; [|constructor]. split; cbn [im_name im_partof spc_n m_im map].
    + apply PropModify.names_ok; vm_compute; exact Logic.I.
    + constructor.
    + constructor.
  - intros o a [<-|[]] So. destruct So as [So|[i So]]; [|discriminate So]. injection So as <-. split; [repeat constructor|]. intros e [<-|[]] [x B]. discriminate B.
  - assert (Bl : ok_b (i_load m_tree) = true) by (vm_compute; reflexivity).
    destruct (i_load m_tree) as [[[c p]|c]| |] eqn:El; try discriminate Bl.
    assert (Bm : ok_b (snd (i_mod m_tree [OCreate spc_n])) = true) by (vm_compute; reflexivity).
    destruct (snd (i_mod m_tree [OCreate spc_n])) as [[[c1 p1]|c1]| |] eqn:Em; try discriminate Bm.
    exists no_errs, 2, (fun _ => ([], None)), c, p, no_errs, no_errs, c1, p1. split; [repeat split|]. split; [repeat constructor|]. split; [|split].
    + rewrite <- El. exact (i_loads m_tree).
    + rewrite <- Em, <- El. exact (i_runs m_tree _).
    + assert (Sp : stored_form p1 = [req_a; spc_a; spc_b; spc_n]).
      { assert (X : snd (i_out (i_mod m_tree [OCreate spc_n])) = [req_a; spc_a; spc_b; spc_n]) by (vm_compute; reflexivity). unfold i_out in X. rewrite Em in X. exact X. }
      rewrite Sp. apply md_survive_quiet; [exact m_prefix|discriminate|]. repeat (apply Forall_cons; [apply quiet_b; vm_compute; reflexivity|]). apply Forall_nil.
Qed.
