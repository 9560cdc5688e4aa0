(** Property C85: everything can be reached from every page. *)
From Coq Require Import ZArith Lia.
From Verif Require Import Api Render SpecRender RenderFacts SpecExport ExportFacts DocFacts ReadyFacts View WebGraph WebGraphFacts Screen SpecScreen ScreenFacts JoinFacts Json WireJson SpecWire MovedFacts.
From Verif Require Import Base BaseFacts Regex Name SpecName NameFacts Artifact Stored SpecGraph Topo SpecLinks Numbers YamlExample Lint SpecLint Source SpecJoin
  Pool Load LoadFacts SpecLoad Web WebFacts PropArtifacts PropCompleted PropMarkdown PropLint PropLoad PropRender PropRoute PropWeb.
Open Scope nat_scope.

Section Theorems.
  Variables (path_str : path -> str) (yaml : str -> option (option str * option RawNames.names_val)) (parse_toml parse_json : str -> res (list (name * art_raw)))
    (parse_msg : path -> str -> str) (prefix : str) (M : num) (topo : graph -> option (list nat)) (H : Type) (heqb : H -> H -> bool) (hash_im : art_im -> H)
    (settings_path : path) (url_error : option str) (dig : char -> bool) (lim : N).
  Variables (reported : F M -> Z) (strfmt : str -> str -> str -> option str) (parse : str -> option (str -> bool)) (viz : str -> str) (base : str) (url : option str).
  Hypothesis TC : topo_ok topo.
  Hypothesis PO : parser_ok parse_toml.
  Hypothesis PJ : parser_ok parse_json.
  (** The project the server has loaded, and as the page has it: in another order (C88). *)
  Variables (n : nat) (afs : list (art_file + lint)) (cfs : list (code_file + lint)) (lc : lints) (loaded p : project M H).
  Hypothesis W1 : walk_lints_ok afs.
  Hypothesis W2 : walk_lints_ok cfs.
  Hypothesis Ld : loads path_str yaml parse_toml parse_json parse_msg prefix M topo H hash_im settings_path url_error n afs cfs (Ok (inl (lc, loaded))).
  Hypothesis Mv : project_moved loaded p.
  Notation displays := (displays reported path_str strfmt parse viz p base url).
  Notation unshowable := (unshowable path_str p strfmt base url).
  Local Definition R : ready p := ready_moved loaded p (loads_ready M topo TC H hash_im path_str yaml parse_toml parse_json PO PJ parse_msg prefix settings_path url_error n afs cfs lc loaded W1 W2 Ld) Mv.

  (** A page can be shown unless it is that of an artifact, or of a form, whose text cannot. *)
  Theorem C85_shown : forall (c : client H) v r, displays c v r ->
    r <> Err /\
    (r = Panic <-> (exists m a, c_view c = VArtifact m /\ im_get name_eqb m (pr_arts p) = Some a /\ unshowable (n_raw (a_name a)) (a_text a)) \/
                   (exists id e, c_view c = VEdit id /\ im_get N.eqb id (c_edits c) = Some e /\ unshowable (e_name e) (e_text e))).
  Proof.
    intros c v r (g & G & ->). unfold screen_of.
    destruct (pane_total parse (nv_forms_on v) (nv_forms v) (form_links c)) as (fs & Ef & _); [intros re; unfold form_links; eauto|].
    destruct (pane_total parse (nv_search_on v) (nv_search v) (search_links reported p)) as (ss & Es & _); [intros re; destruct (links_total reported p R re) as (l & E & _); eauto|].
    assert (X : forall r0, r0 = page_of reported path_str strfmt viz p base url c g -> 
      let t := res_bind r0 (fun pg => res_bind (pane parse (nv_forms_on v) (nv_forms v) (form_links c)) (fun fs => res_bind (pane parse (nv_search_on v) (nv_search v) (search_links reported p)) (fun ss => Ok (mkScreen (c_logs c) fs ss pg)))) in
      (r0 <> Err -> t <> Err) /\ (t = Panic <-> r0 = Panic)).
    { intros r0 _. cbv zeta. rewrite Ef. cbn [res_bind]. rewrite Es. destruct r0; cbn [res_bind]; split; try discriminate; try tauto; split; discriminate. }
    specialize (X _ eq_refl). cbv zeta in X. destruct X as [X1 X2]. rewrite X2. clear X2. split; [apply X1; clear X1|clear X1].
    - unfold page_of. destruct (c_view c) as [|m|id|]; try discriminate.
      + destruct (graph_cases reported parse p R _ g G) as [->|[o ->]]; discriminate.
      + destruct (im_get name_eqb m (pr_arts p)) as [a|] eqn:Ga; try discriminate. apply (get_some_in name_eqb nk) in Ga as (m' & _ & I); [|exact name_eqb_iff].
        destruct (page_cases reported path_str strfmt viz p base url R m' a I) as [(x & -> & _)|[-> _]]; discriminate.
      + destruct (im_get N.eqb id (c_edits c)) as [e|]; try discriminate. destruct (text_cases reported path_str strfmt viz p base url R (e_name e) (e_text e)) as [(o & -> & _)|[-> _]]; discriminate.
    - unfold page_of. destruct (c_view c) as [|m|id|].
      + destruct (graph_cases reported parse p R _ g G) as [->|[o ->]]; cbn [res_bind]; split; try discriminate; intros [(m & a & X & _)|(id & e & X & _)]; discriminate X.
      + destruct (im_get name_eqb m (pr_arts p)) as [a|] eqn:Ga.
        * pose proof Ga as G'. apply (get_some_in name_eqb nk) in G' as (m' & _ & I); [|exact name_eqb_iff].
          destruct (page_cases reported path_str strfmt viz p base url R m' a I) as [(x & -> & _ & _ & N)|[-> B]]; cbn [res_bind]; split; try discriminate.
          -- intros [(m1 & a1 & X & Y & Z)|(id & e & X & _)]; [|discriminate X]. injection X as <-. rewrite Ga in Y. injection Y as <-. contradiction.
          -- intros _. left. exists m, a. auto.
          -- auto.
        * split; try discriminate. intros [(m1 & a1 & X & Y & Z)|(id & e & X & _)]; [|discriminate X]. injection X as <-. rewrite Ga in Y. discriminate Y.
      + destruct (im_get N.eqb id (c_edits c)) as [e|] eqn:Ge.
        * destruct (text_cases reported path_str strfmt viz p base url R (e_name e) (e_text e)) as [(o & -> & N)|[-> B]]; cbn [res_bind]; split; try discriminate.
          -- intros [(m1 & a1 & X & _)|(i & e1 & X & Y & Z)]; [discriminate X|]. injection X as <-. rewrite Ge in Y. injection Y as <-. contradiction.
          -- intros _. right. exists id, e. auto.
          -- auto.
        * split; try discriminate. intros [(m1 & a1 & X & _)|(i & e1 & X & Y & Z)]; [discriminate X|]. injection X as <-. rewrite Ge in Y. discriminate Y.
      + split; try discriminate. intros [(m & a & X & _)|(id & e & X & _)]; discriminate X.
  Qed.

  Local Lemma ok_inj {A} (x y : A) : Ok x = Ok y -> x = y.
  Proof. congruence. Qed.

  (** Following the link [k] opens the page of [a], and keeps all forms. *)
  Definition leads (c : client H) (k : link) (a : artifact M H) : Prop :=
    lk_label k = n_raw (a_name a) /\ (exists col, lk_color k = Some col /\ tinted reported a col) /\
    exists h c', lk_href k = s "#" ++ h /\ act heqb dig lim (UHash h) c = Ok (c', []) /\ c_edits c' = c_edits c /\
      forall v' sc', displays c' v' (Ok sc') -> exists x, sc_page sc' = PgArtifact x /\ page_shows reported path_str p a x /\
        view_text viz reported path_str strfmt p base url (n_raw (a_name a)) (a_text a) = Ok (ap_text x).
  (** Following the link [k] opens the form [id]. *)
  Definition opens (c : client H) (k : link) (id : N) (e : edit H) : Prop :=
    lk_label k = match e_name e with [] => s "NOT YET NAMED" | _ :: _ => e_name e end /\
    exists h c', lk_href k = s "#" ++ h /\ act heqb dig lim (UHash h) c = Ok (c', []) /\ c_edits c' = c_edits c /\
      forall v' sc', displays c' v' (Ok sc') -> exists t, sc_page sc' = PgForm id e t /\ view_text viz reported path_str strfmt p base url (e_name e) (e_text e) = Ok t.

  (** The search lists exactly the artifacts whose name is found, and each link leads there. *)
  Theorem C85_artifacts : forall (c : client H) v sc re, displays c v (Ok sc) -> nv_search_on v = true -> parse (nv_search v) = Some re ->
    exists l, sc_search sc = Some (Some l) /\ NoDup (map lk_href l) /\
      (forall m a, In (m, a) (pr_arts p) -> re (n_raw m) = true -> exists k, In k l /\ leads c k a) /\
      (forall k, In k l -> exists m a, In (m, a) (pr_arts p) /\ re (n_raw m) = true /\ leads c k a).
  Proof.
    intros c v sc re (g & G & E) On Pa. symmetry in E. unfold screen_of in E. apply bind_ok in E as (pg & Ep & E). apply bind_ok in E as (fs & Ef & E). apply bind_ok in E as (ss & Es & E). apply ok_inj in E as <-. cbn [sc_search].
    unfold pane in Es. rewrite On, Pa in Es. destruct (links_total reported p R re) as (l & El & F). rewrite El in Es. apply ok_inj in Es as <-. exists l. split; [reflexivity|].
    assert (L : forall m a k, In (m, a) (pr_arts p) -> (exists col, k = mkLink (s "#" ++ n_raw m) (n_raw m) (Some col) /\ tinted reported a col) -> leads c k a).
    { intros m a k I (col & -> & Tc). destruct (art_wf p R m a I) as (En & Wm & _). subst m. split; [reflexivity|]. split; [exists col; split; [reflexivity|exact Tc]|].
      exists (n_raw (a_name a)), (set_view c (VArtifact (a_name a))). split; [reflexivity|]. split; [cbn [act]; destruct (C55_names dig lim (a_name a) Wm) as [-> _]; reflexivity|]. split; [reflexivity|].
      intros v' sc' (g' & _ & E'). symmetry in E'. unfold screen_of in E'. apply bind_ok in E' as (pg' & Ep' & E'). apply bind_ok in E' as (fs' & _ & E'). apply bind_ok in E' as (ss' & _ & E'). apply ok_inj in E' as <-. cbn [sc_page].
      unfold page_of in Ep'. cbn [set_view c_view] in Ep'. rewrite (get_art p R _ a I) in Ep'. destruct (page_cases reported path_str strfmt viz p base url R _ a I) as [(x & Ex & Px & Tx & _)|[Ex _]]; rewrite Ex in Ep'; [|discriminate Ep'].
      apply ok_inj in Ep' as <-. exists x. auto. }
    split; [|split].
    - assert (Nd : NoDup (map (fun e : name * artifact M H => s "#" ++ n_raw (fst e)) (filter (fun e => re (n_raw (fst e))) (pr_arts p)))).
      { pose proof (aw_nodup _ (rd_arts p R)) as X. pose proof (aw_names _ (rd_arts p R)) as Wn. clear -X Wn. induction (pr_arts p) as [|[m a] l IH]; [constructor|]. cbn [map fst] in X. inversion X as [|? ? N X']; subst.
        assert (IHl : NoDup (map (fun e : name * artifact M H => s "#" ++ n_raw (fst e)) (filter (fun e => re (n_raw (fst e))) l))) by (apply IH; auto; intros; eapply Wn; right; eauto).
        cbn [filter fst]. destruct (re (n_raw m)); auto. cbn [map fst]. constructor; auto. intros I. apply in_map_iff in I as ([m' a'] & Q & I). apply filter_In in I as [I _]. cbn [fst] in Q. apply app_inv_head in Q.
        apply N. apply in_map_iff. exists (m', a'). split; auto. cbn [fst].
        pose proof (Wn m a (or_introl eq_refl)) as Y1. pose proof (Wn m' a' (or_intror I)) as Y2. unfold name_wf in *. rewrite Q in Y2. congruence. }
      replace (map lk_href l) with (map (fun e : name * artifact M H => s "#" ++ n_raw (fst e)) (filter (fun e => re (n_raw (fst e))) (pr_arts p))); auto.
      clear -F. induction F as [|e k l1 l2 (col & -> & _) F IH]; [reflexivity|]. cbn [map lk_href]. now f_equal.
    - intros m a I Rm. assert (I' : In (m, a) (filter (fun e => re (n_raw (fst e))) (pr_arts p))) by (apply filter_In; auto).
      assert (exists k, In k l /\ exists col, k = mkLink (s "#" ++ n_raw m) (n_raw m) (Some col) /\ tinted reported a col) as (k & Ik & X).
      { clear -F I'. induction F as [|e k l1 l2 Y F IH]; [destruct I'|]. destruct I' as [->|I']; [exists k; split; [now left|exact Y]|]. destruct (IH I') as (k' & Ik & X). exists k'. split; [now right|auto]. }
      exists k. split; auto. eapply L; eauto.
    - intros k Ik. assert (exists e, In e (filter (fun e => re (n_raw (fst e))) (pr_arts p)) /\ exists col, k = mkLink (s "#" ++ n_raw (fst e)) (n_raw (fst e)) (Some col) /\ tinted reported (snd e) col) as ([m a] & I & X).
      { clear -F Ik. induction F as [|e k' l1 l2 Y F IH]; [destruct Ik|]. destruct Ik as [->|Ik]; [exists e; split; [now left|exact Y]|]. destruct (IH Ik) as (e' & Ie & X). exists e'. split; [now right|auto]. }
      apply filter_In in I as [I Rm]. exists m, a. split; auto. split; auto. exact (L m a k I X).
  Qed.
  (** The other pane lists exactly the forms whose name is found, and each link opens its form; as
      long as the counter has not reached the largest number. *)
  Theorem C85_forms : forall p0 v0 h (c : client H) q v sc re, Web.history heqb dig lim p0 v0 h (c, q) ->
    (c_next c <= lim)%N -> (forall x, (48 <= x <= 57)%N -> dig x = true) ->
    displays c v (Ok sc) -> nv_forms_on v = true -> parse (nv_forms v) = Some re ->
    exists l, sc_forms sc = Some (Some l) /\ NoDup (map lk_href l) /\
      (forall id e, im_get N.eqb id (c_edits c) = Some e -> re (e_name e) = true -> exists k, In k l /\ opens c k id e) /\
      (forall k, In k l -> exists id e, im_get N.eqb id (c_edits c) = Some e /\ re (e_name e) = true /\ opens c k id e).
  Proof.
    intros p0 v0 h c q v sc re Hh Nx Dg (g & G & E) On Pa. symmetry in E. unfold screen_of in E. apply bind_ok in E as (pg & Ep & E). apply bind_ok in E as (fs & Ef & E). apply bind_ok in E as (ss & Es & E). apply ok_inj in E as <-. cbn [sc_forms].
    unfold pane in Ef. rewrite On, Pa in Ef. unfold form_links in Ef. apply ok_inj in Ef as <-. eexists. split; [reflexivity|].
    apply inv_history in Hh. pose proof (wi_fresh _ _ Hh) as Fr. pose proof (wi_nodup _ _ Hh) as Nd. cbn [fst] in Fr, Nd. rewrite Forall_forall in Fr.
    assert (Gi : forall id e, In (id, e) (c_edits c) -> im_get N.eqb id (c_edits c) = Some e).
    { intros id e I. apply (in_get N.eqb (fun x => x) N.eqb_eq); auto. }
    assert (L : forall id e, In (id, e) (c_edits c) -> opens c (form_link (id, e)) id e).
    { intros id e I. split; [cbn [form_link lk_label snd]; destruct (e_name e); reflexivity|].
      exists (hash_edit id), (set_view c (VEdit id)). split; [reflexivity|]. split; [cbn [act]; rewrite C55_edits; auto; apply (N.lt_le_trans _ (c_next c)); auto; exact (Fr _ I)|]. split; [reflexivity|].
      intros v' sc' (g' & _ & E'). symmetry in E'. unfold screen_of in E'. apply bind_ok in E' as (pg' & Ep' & E'). apply bind_ok in E' as (fs' & _ & E'). apply bind_ok in E' as (ss' & _ & E'). apply ok_inj in E' as <-. cbn [sc_page].
      unfold page_of in Ep'. cbn [set_view c_view c_edits] in Ep'. rewrite (Gi id e I) in Ep'. apply bind_ok in Ep' as (t & Et & Ep'). apply ok_inj in Ep' as <-. eauto. }
    split; [|split].
    - assert (X : forall l : list (N * edit H), (forall x, In x l -> (fst x < c_next c)%N) -> NoDup (pkeys (fun x => x) l) -> NoDup (map lk_href (map form_link (filter (fun x => re (e_name (snd x))) l)))).
      { clear -Nx Dg. induction l as [|[i e] l IH]; intros Fr Nd; [constructor|]. inversion Nd as [|? ? Ni Nd']; subst.
        assert (IHl : NoDup (map lk_href (map form_link (filter (fun x => re (e_name (snd x))) l)))) by (apply IH; auto; intros; apply Fr; now right).
        cbn [filter snd]. destruct (re (e_name e)); auto. cbn [map form_link lk_href fst]. constructor; auto. intros I. apply in_map_iff in I as (k & Q & I). apply in_map_iff in I as ([i' e'] & <- & I). apply filter_In in I as [I _].
        cbn [form_link lk_href fst] in Q. apply app_inv_head in Q. pose proof (C55_edits dig lim i Dg ltac:(specialize (Fr _ (or_introl eq_refl)); cbn [fst] in Fr; lia)) as A. pose proof (C55_edits dig lim i' Dg ltac:(specialize (Fr _ (or_intror I)); cbn [fst] in Fr; lia)) as B.
        rewrite Q in B. rewrite A in B. injection B as <-. apply Ni. unfold pkeys. apply in_map_iff. exists (i, e'). auto. }
      apply X; auto.
    - intros id e Ge Re. pose proof Ge as I. apply (get_some_in N.eqb (fun x => x) N.eqb_eq) in I as (i & -> & I). exists (form_link (id, e)). split; [|now apply L].
      apply in_map_iff. exists (id, e). split; auto. apply filter_In. auto.
    - intros k Ik. apply in_map_iff in Ik as ([id e] & <- & I). apply filter_In in I as [I Re]. exists id, e. split; [now apply Gi|]. split; auto.
  Qed.

  (** *** Errors *)
  Local Definition logs_ok (c : client H) : Prop := NoDup (c_logs c) /\ Forall (fun i => (i < c_next c)%N) (c_logs c).
  Local Lemma is_mem_in i l : is_mem N.eqb i l = true <-> In i l.
  Proof. unfold is_mem. rewrite existsb_exists. split; [intros (x & I & E); apply N.eqb_eq in E; now subst|intros I; exists i; split; auto; apply N.eqb_refl]. Qed.
  Local Lemma push_ok k : forall c : client H, logs_ok c -> logs_ok (push_logs k c) /\ incl (c_logs c) (c_logs (push_logs k c)) /\ (0 < k -> In (c_next c) (c_logs (push_logs k c))) /\ ~ In (c_next c) (c_logs c).
  Proof.
    assert (Fr : forall c : client H, logs_ok c -> ~ In (c_next c) (c_logs c)).
    { intros c [_ F] I. rewrite Forall_forall in F. specialize (F _ I). lia. }
    induction k as [|k IH]; intros c O; [split; [auto|]; split; [now intros ?|]; split; [lia|auto]|].
    cbn [push_logs]. set (c1 := set_logs (take_next c) (is_insert N.eqb (c_next c) (c_logs c))).
    assert (E1 : c_logs c1 = c_logs c ++ [c_next c]).
    { unfold c1, is_insert. cbn [set_logs take_next c_logs]. destruct (is_mem N.eqb (c_next c) (c_logs c)) eqn:X; auto. apply is_mem_in in X. now apply Fr in X. }
    assert (O1 : logs_ok c1).
    { destruct O as [N0 F0]. split; rewrite E1.
      - apply JoinFacts.nodup_app_disj; auto; [constructor; [easy|constructor]|]. intros x I [<-|[]]. now apply (Fr c).
      - apply Forall_app. split; [eapply Forall_impl; [|exact F0]; cbn; intros; cbv beta in *; lia|]. constructor; [cbn; lia|constructor]. }
    destruct (IH c1 O1) as (A & B & _ & _). split; auto. split; [|split; [|now apply Fr]].
    - intros x I. apply B. rewrite E1. apply in_or_app. auto.
    - intros _. apply B. rewrite E1. apply in_or_app. right. now left.
  Qed.
  Local Lemma removed l : forall m, NoDup m -> NoDup (fold_left (fun m i => is_remove N.eqb i m) l m) /\ forall x, In x (fold_left (fun m i => is_remove N.eqb i m) l m) <-> In x m /\ ~ In x l.
  Proof.
    induction l as [|i l IH]; intros m Nd; [cbn; tauto|]. cbn [fold_left].
    assert (Nd' : NoDup (map (fun x : N => x) m)) by now rewrite map_id.
    pose proof (is_remove_nodup N.eqb (fun x => x) N.eqb_eq i m Nd') as Y. rewrite map_id in Y. destruct (IH _ Y) as [A B]. split; auto.
    intros x. rewrite B, (is_remove_in N.eqb (fun x => x) N.eqb_eq i m x Nd'). cbn [In]. intuition.
  Qed.
  Local Lemma clear_ok ids (c : client H) : logs_ok c -> logs_ok (clear_logs ids c) /\ forall x, In x (c_logs (clear_logs ids c)) <-> In x (c_logs c) /\ match ids with None => False | Some l => ~ In x l end.
  Proof.
    intros [N0 F0]. unfold clear_logs, logs_ok. cbn [set_logs c_logs c_next]. destruct ids as [l|]; [|split; [split; constructor|cbn; tauto]].
    destruct (removed l _ N0) as [A B]. split; [split; auto|exact B]. apply Forall_forall. intros x I. apply B in I as [I _]. rewrite Forall_forall in F0. auto.
  Qed.
  Local Definition keeps (c c' : client H) : Prop := c_logs c' = c_logs c /\ (c_next c <= c_next c')%N.
  Local Lemma keeps_ok c c' : keeps c c' -> logs_ok c -> logs_ok c'.
  Proof. intros [E L] [A B]. unfold logs_ok. rewrite E. split; auto. eapply Forall_impl; [|exact B]. cbv beta. intros. lia. Qed.
  Local Lemma keeps_refl c : keeps c c. Proof. split; auto. lia. Qed.
  Local Lemma complete_keeps i (c c' : client H) : complete_editing heqb dig lim i c = Ok c' -> keeps c c'.
  Proof.
    unfold complete_editing. destruct (im_get N.eqb i (c_edits c)) as [e|]; [|intros [= <-]; apply keeps_refl]. destruct (at_edit (c_view c) i); [|intros [= <-]; split; cbn; auto; lia].
    intros E. apply bind_ok in E as (h & _ & E). apply bind_ok in E as (v & _ & E). injection E as <-. split; cbn; auto. lia.
  Qed.
  Local Lemma completes_keep l : forall c c' : client H, complete_all heqb dig lim l c = Ok c' -> keeps c c'.
  Proof.
    induction l as [|i l IH]; intros c c' E; cbn in E; [injection E as <-; apply keeps_refl|]. apply bind_ok in E as (c1 & E1 & E). apply complete_keeps in E1 as [A B]. apply IH in E as [A' B']. split; [congruence|lia].
  Qed.
  (** What a message does to the errors. *)
  Ltac fin E := apply ok_inj in E; apply (f_equal fst) in E; cbn [fst] in E; match type of E with _ = ?c => subst c end.
  Local Lemma model_ok m (c c' : client H) sent : update_model heqb dig lim m c = Ok (c', sent) -> logs_ok c ->
    logs_ok c' /\ ((forall ids, m <> MClearLogs ids) -> incl (c_logs c) (c_logs c')).
  Proof.
    intros E O. assert (K : forall c1, keeps c c1 -> logs_ok c1 /\ ((forall ids, m <> MClearLogs ids) -> incl (c_logs c) (c_logs c1))).
    { intros c1 X. split; [now apply (keeps_ok c)|]. intros _. destruct X as [-> _]. now intros ?. }
    assert (P : forall k c1, keeps c c1 -> logs_ok (push_logs k c1) /\ ((forall ids, m <> MClearLogs ids) -> incl (c_logs c) (c_logs (push_logs k c1)))).
    { intros k c1 X. destruct (K c1 X) as [O1 _]. destruct (push_ok k c1 O1) as (A & B & _). split; auto. intros _. destruct X as [<- _]. exact B. }
    assert (S : forall reload c1, keeps c c1 -> logs_ok (fst (start_fetch_project reload c1)) /\ ((forall ids, m <> MClearLogs ids) -> incl (c_logs c) (c_logs (fst (start_fetch_project reload c1))))).
    { intros reload c1 X. unfold start_fetch_project. destruct (c_static c1); [now apply P|]. destruct (c_task c1); [now apply P|]. apply K. destruct X as [A B]. split; cbn; auto. lia. }
    destruct m as [v| |static q0|reload|ids|jid q0|k|k|ids|id f|id cur|id|l]; cbn [update_model] in E.
    - injection E as <- _. apply K. split; cbn; auto. lia.
    - injection E as <- _. apply K. apply keeps_refl.
    - apply ok_inj in E. destruct static; [injection E as <- _; apply K; split; cbn; auto; lia|].
      match type of E with start_fetch_project _ ?c1 = _ => pose proof (S false c1) as X end. rewrite E in X. apply X. split; cbn; auto. lia.
    - apply ok_inj in E. pose proof (S reload c (keeps_refl c)) as X. rewrite E in X. exact X.
    - unfold start_send_update in E. destruct (c_task c); [fin E; apply P, keeps_refl|]. apply bind_ok in E as (ops & _ & E). injection E as <- _. apply K. split; cbn; auto. lia.
    - apply bind_ok in E as (c1 & E & E'). injection E' as <- _. apply K. unfold handle_recv_project in E. cbv zeta in E. destruct (im_get N.eqb jid _); [|injection E as <-; split; cbn; auto; lia].
      apply completes_keep in E as [A B]. cbn in A, B. split; auto.
    - fin E. destruct (P k c (keeps_refl c)) as [A B]. split; auto.
    - fin E. apply P, keeps_refl.
    - fin E. split; [now apply clear_ok|]. intros X. now specialize (X ids).
    - apply bind_ok in E as (c1 & E & E'). injection E' as <- _. apply K. unfold handle_edit in E. destruct (im_get N.eqb id (c_edits c)); [|discriminate]. apply bind_ok in E as (e' & _ & E). injection E as <-. split; cbn; auto. lia.
    - apply bind_ok in E as (c1 & E & E'). injection E' as <- _. apply K. unfold handle_start in E. destruct cur; [|injection E as <-; split; cbn; auto; lia].
      destruct (c_view c); try discriminate. destruct (im_get name_eqb n0 (c_project c)); [|discriminate]. injection E as <-. split; cbn; auto. lia.
    - apply bind_ok in E as (c1 & E & E'). injection E' as <- _. apply K. now apply complete_keeps in E.
    - discriminate.
  Qed.
  Local Lemma act_ok u (c c' : client H) sent : act heqb dig lim u c = Ok (c', sent) -> logs_ok c -> logs_ok c' /\ ((forall ids, u <> UClear ids) -> incl (c_logs c) (c_logs c')).
  Proof.
    intros E O.
    assert (Op : forall cur, open_edit heqb dig lim cur c = Ok (c', sent) -> logs_ok c' /\ ((forall ids, u <> UClear ids) -> incl (c_logs c) (c_logs c'))).
    { intros cur E'. unfold open_edit in E'. apply bind_ok in E' as (v & _ & E'). cbn [update update_batch] in E'. apply bind_ok in E' as ([c1 s1] & E1 & E'). apply bind_ok in E' as ([c2 s2] & E2 & E'). injection E' as <- _. cbn [fst] in *.
      apply model_ok in E1 as [A B]; [|apply (keeps_ok c); auto; split; cbn; auto; lia]. apply bind_ok in E2 as ([c3 s3] & E3 & E2). cbn [fst snd] in E2. apply ok_inj in E2. injection E2 as <- <-.
      apply model_ok in E3 as [A' B']; auto. split; auto. intros _. cbn [c_logs take_next] in B. eapply incl_tran; [apply B|apply B']; discriminate. }
    destruct u; cbn [act update] in E; try (now apply (Op _ E)).
    6: { apply model_ok in E; auto. destruct E as [A B]. split; auto. intros X. now specialize (X ids). }
    5: { apply bind_ok in E as (v & _ & E). apply model_ok in E as [A B]; auto. split; auto. intros _. apply B. discriminate. }
    all: apply model_ok in E as [A B]; auto; split; auto; intros _; apply B; discriminate.
  Qed.
  Local Lemma logs_history p0 v0 h w : Web.history heqb dig lim p0 v0 h w -> logs_ok (fst w).
  Proof.
    induction 1 as [|h w e w' Hh IH St]; [split; constructor|]. destruct St as [c q u c' sent E|c q q' r m c' sent An E]; cbn [fst] in *.
    - now apply act_ok in E.
    - unfold update in E. destruct m; try (now apply model_ok in E). destruct r; cbn in An; contradiction.
  Qed.
  (** Errors are shown until they are closed: closing some closes these, and nothing else closes any;
      and a request that fails shows one more. *)
  Theorem C85_errors : forall p0 v0 h (c : client H) q e c' q', Web.history heqb dig lim p0 v0 h (c, q) -> Web.wstep heqb dig lim (c, q) e (c', q') ->
    forall v sc v' sc', displays c v (Ok sc) -> displays c' v' (Ok sc') ->
      NoDup (sc_errors sc') /\
      (forall ids, e = EUser (UClear ids) -> forall i, In i (sc_errors sc') <-> In i (sc_errors sc) /\ match ids with None => False | Some l => ~ In i l end) /\
      ((forall ids, e <> EUser (UClear ids)) -> incl (sc_errors sc) (sc_errors sc')) /\
      (forall r, e = EAnswer r (MError 1) -> exists i, In i (sc_errors sc') /\ ~ In i (sc_errors sc)).
  Proof.
    intros p0 v0 h c q e c' q' Hh St v sc v' sc' D D'.
    assert (X : forall c v sc, displays c v (Ok sc) -> sc_errors sc = c_logs c).
    { clear. intros c v sc (g & _ & E). symmetry in E. unfold screen_of in E. apply bind_ok in E as (pg & _ & E). apply bind_ok in E as (fs & _ & E). apply bind_ok in E as (ss & _ & E). injection E as <-. reflexivity. }
    rewrite (X _ _ _ D), (X _ _ _ D'). apply logs_history in Hh. cbn [fst] in Hh. inversion St as [c1 q1 u c2 sent E|c1 q1 q2 r m c2 sent An E]; subst.
    - pose proof (act_ok u c c' sent E Hh) as [[A _] B]. split; auto. split; [|split; [|discriminate]].
      + intros ids [= ->]. cbn [act update update_model] in E. fin E. apply clear_ok; auto.
      + intros Nc. apply B. intros ids ->. now apply (Nc ids).
    - assert (E' : update_model heqb dig lim m c = Ok (c', sent)) by (unfold update in E; destruct m; auto; destruct r; cbn in An; contradiction).
      pose proof (model_ok m c c' sent E' Hh) as [[A _] B]. split; auto. split; [discriminate|]. split.
      + intros _. apply B. intros ids ->. destruct r; exact An.
      + intros r0 [= -> ->]. cbn [update_model] in E'. fin E'. destruct (push_ok 1 c Hh) as (_ & _ & C & D0). exists (c_next c). split; auto.
  Qed.
End Theorems.
Print Assumptions C85_shown.
Print Assumptions C85_artifacts.
Print Assumptions C85_forms.
Print Assumptions C85_errors.

(** A search, a form that has just been opened, and a page that cannot be shown. *)
Definition n_parse (x : str) : option (str -> bool) := if str_eqb x (s "(") then None else Some (fun y => starts_with y x).
Definition n_c0 : client str := mkClient false [] VGraph None [] [] [] 0%N.
Definition n_then (r : res (client str * list (req str))) (u : action) : res (client str * list (req str)) :=
  res_bind r (fun x => act str_eqb is_digit 1000%N u (fst x)).
Definition n_client (us : list action) : client str := match fold_left n_then us (Ok (n_c0, [])) with Ok (c, _) => c | _ => n_c0 end.
Definition n_screen (us : list action) (v : nav) : res (screen str) :=
  screen_of (fun x : F exact_num => x) ex_path r_strfmt n_parse (fun x => x) r_project [] (Some (s "http://h/")) (n_client us) v None.
Definition n_panes (r : res (screen str)) := match r with Ok x => Some (sc_forms x, sc_search x) | _ => None end.
Definition n_page (r : res (screen str)) := match r with Ok x => Some (sc_page x) | _ => None end.
Definition n_nav (x : str) := mkNav true x true [] [].
Example C85_example :
  n_panes (n_screen [UCreate; UCreate; UType 0 (FName (s "TST-x"))] (n_nav (s "SPC"))) =
    Some (Some (Some [mkLink (s "#edit/0") (s "TST-x") None; mkLink (s "#edit/1") (s "NOT YET NAMED") None]),
          Some (Some [mkLink (s "#SPC-a") (s "SPC-a") (Some (s "#FF851B"))])) /\
  n_panes (n_screen [] (n_nav (s "("))) = Some (Some (Some []), Some None) /\
  (exists e t, n_page (n_screen [UCreate; UCreate; UHash (s "edit/0")] (n_nav [])) = Some (PgForm 0 e t)) /\
  (exists x, n_page (n_screen [UCreate; UHash (s "SPC-a")] (n_nav [])) = Some (PgArtifact x) /\ ap_name x = s "SPC-a" /\ ap_spc x = (s "66.7", s "#FF851B") /\ ap_impl x = Some (s "Implemented:", s "x.rs[0]")) /\
  n_screen [UCreate; UType 0 (FText (s "see [[" ++ [383%N] ++ s "PC-a]]"))] (n_nav []) = Panic /\
  n_page (n_screen [UCreate; UType 0 (FText (s "see [[" ++ [383%N] ++ s "PC-a]]")); UHash (s "edit/7")] (n_nav [])) = Some PgNoForm.
Proof.
  split; [vm_compute; reflexivity|]. split; [vm_compute; reflexivity|]. split; [do 2 eexists; vm_compute; reflexivity|].
  split; [eexists; split; [vm_compute; reflexivity|]; repeat split; vm_compute; reflexivity|]. split; vm_compute; reflexivity.
Qed.
