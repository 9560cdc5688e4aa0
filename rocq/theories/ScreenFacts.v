(** Facts about what a page shows. *)
From Coq Require Import ZArith Lia.
From Verif Require Import Api Render SpecRender RenderFacts SpecExport ExportFacts DocFacts ReadyFacts View SpecView ViewFacts WebGraph SpecWebGraph WebGraphFacts Ls Screen SpecScreen.
From Verif Require Import Base BaseFacts Regex Name SpecName NameFacts Artifact Lint SpecLint Web.
Open Scope nat_scope.

Lemma tenths_percent v : tenths v (percent v).
Proof.
  destruct (proj2 (percentage_iff v (percent2 v)) eq_refl) as (d & e & D & E & X). exists d, e. split; auto. split; auto. unfold percent2 in X.
  change (s "0") with [48%N] in X. rewrite !app_assoc in X. apply app_inj_tail in X as [X _]. rewrite X. now rewrite <- app_assoc.
Qed.
Lemma spc_total x : exists c, spc_shown x = Ok (percent x, c) /\ spc_hue x c.
Proof.
  unfold spc_shown, spc_points, spc_hue. destruct (Z.leb_spec 1000 x), (Z.leb_spec 700 x), (Z.leb_spec 400 x); try lia; eexists; (split; [reflexivity|]).
  - right. right. right. auto.
  - right. right. left. auto.
  - right. left. auto.
  - left. auto.
Qed.
Lemma tst_total x : exists c, tst_shown x = Ok (percent x, c) /\ tst_hue x c.
Proof.
  unfold tst_shown, tst_points, tst_hue. destruct (Z.leb_spec 1000 x), (Z.leb_spec 500 x); try lia; eexists; (split; [reflexivity|]).
  - right. right. auto.
  - right. left. auto.
  - left. auto.
Qed.

Section Facts.
  Context {M : num} {H : Type}.
  Variable reported : F M -> Z.
  Variable path_str : path -> str.
  Variable strfmt : str -> str -> str -> option str.
  Variable parse : str -> option (str -> bool).
  Variable viz : str -> str.
  Variable p : project M H.
  Variable base : str.
  Variable url : option str.
  Hypothesis R : ready p.
  Notation view_text := (view_text viz reported path_str strfmt p base url).

  Lemma text_cases parent t : (exists o, view_text parent t = Ok o /\ ~ unshowable path_str p strfmt base url parent t) \/ (view_text parent t = Panic /\ unshowable path_str p strfmt base url parent t).
  Proof.
    destruct (cut_exists true t) as (ks & Ck). destruct (render_ok reported path_str strfmt p base (view_ms url) (rd_arts p R) (rd_code p R) parent t ks Ck) as (_ & P & E).
    unfold View.view_text. destruct (replace_markdown reported path_str strfmt p base (view_ms url) parent t) as [y| |] eqn:Ey.
    - left. destruct (view_total viz (length y) true y) as [o Eo]. exists o. split; [exact Eo|]. intros (ks' & k & Ck' & I & B). pose proof (cut_unique _ _ _ Ck' _ Ck) as Q. subst ks'. assert (X : Ok y = Panic) by (apply P; exists k; auto). discriminate X.
    - congruence.
    - right. split; auto. destruct (proj1 P eq_refl) as (k & I & B). exists ks, k. auto.
  Qed.
  Lemma art_wf n a : In (n, a) (pr_arts p) -> a_name a = n /\ name_wf (a_name a) /\ Forall name_wf (a_parts a) /\ Forall name_wf (a_partof a).
  Proof.
    intros I. pose proof (rd_names p R n a I) as En. split; auto. split; [rewrite En; apply (aw_names _ (rd_arts p R) n a I)|].
    split; apply Forall_forall; intros q Hq; apply (rd_links p R n a q I); auto.
  Qed.
  Lemma page_cases n a : In (n, a) (pr_arts p) ->
    (exists x, artifact_page reported path_str strfmt viz p base url a = Ok x /\ page_shows reported path_str p a x /\ view_text (n_raw (a_name a)) (a_text a) = Ok (ap_text x) /\
       ~ unshowable path_str p strfmt base url (n_raw (a_name a)) (a_text a)) \/
    (artifact_page reported path_str strfmt viz p base url a = Panic /\ unshowable path_str p strfmt base url (n_raw (a_name a)) (a_text a)).
  Proof.
    intros I. destruct (art_wf n a I) as (_ & W & W1 & W2). unfold artifact_page. destruct (dot_total reported p R a W W1 W2) as (g & -> & U). cbn [res_bind].
    destruct (spc_total (reported (fst (a_completed a)))) as (c1 & -> & C1). destruct (tst_total (reported (snd (a_completed a)))) as (c2 & -> & C2). cbn [res_bind].
    destruct (text_cases (n_raw (a_name a)) (a_text a)) as [(o & -> & N)|[-> B]]; cbn [res_bind]; [left|right; auto].
    eexists. split; [reflexivity|]. split; [|split; auto]. split; cbn [ap_name ap_file ap_graph ap_spc ap_tst ap_impl fst snd]; auto using tenths_percent.
    - now apply U.
    - intros d ->. reflexivity.
    - intros c loc -> E. cbn [impl_shown]. rewrite E. eexists. split; [apply place_iff; reflexivity|reflexivity].
    - intros N1 N2. destruct (a_impl a) as [d|c|]; cbn [impl_shown]; auto; [exfalso; now apply (N1 d)|]. destruct (ic_primary c) as [loc|] eqn:E; auto. exfalso. now apply (N2 c loc).
  Qed.
  Lemma get_art n a : In (n, a) (pr_arts p) -> im_get name_eqb n (pr_arts p) = Some a.
  Proof.
    intros I. apply get_target; [exact (rd_arts p R)|apply (aw_names _ (rd_arts p R) n a I)|]. exists n. split; auto. split; [apply str_ci_upper; reflexivity|now left].
  Qed.
  Lemma links_total re : exists l, search_links reported p re = Ok l /\
    Forall2 (fun e k => exists col, k = mkLink (s "#" ++ n_raw (fst e)) (n_raw (fst e)) (Some col) /\ tinted reported (snd e) col) (filter (fun e => re (n_raw (fst e))) (pr_arts p)) l.
  Proof.
    unfold search_links. assert (X : forall l, incl l (pr_arts p) -> exists ks, res_map (name_link reported p) (filter (fun n => re (n_raw n)) (map fst l)) = Ok ks /\
      Forall2 (fun e k => exists col, k = mkLink (s "#" ++ n_raw (fst e)) (n_raw (fst e)) (Some col) /\ tinted reported (snd e) col) (filter (fun e => re (n_raw (fst e))) l) ks).
    { induction l as [|[n a] l IH]; intros I; [exists []; split; [reflexivity|constructor]|]. destruct IH as (ks & E & F); [intros x Hx; apply I; now right|].
      cbn [map filter fst]. destruct (re (n_raw n)); [|exists ks; auto]. cbn [res_map]. unfold name_link at 1.
      destruct (name_hex_ok reported p n a (get_art n a (I _ (or_introl eq_refl)))) as (col & -> & U). cbn [res_bind]. rewrite E. cbn [res_bind]. eexists. split; [reflexivity|].
      constructor; [|exact F]. exists col. split; [reflexivity|]. now apply U. }
    exact (X _ (incl_refl _)).
  Qed.
  Lemma graph_cases search g : graph_results reported p parse search g -> g = None \/ exists o, g = Some (Ok o).
  Proof. intros [E|re fs cs E Pf Pc]; [now left|right]. destruct (text_good reported p R re fs Pf cs) as (o & -> & _). eauto. Qed.
  Lemma pane_total on x links : (forall re, exists l, links re = Ok l) -> exists y, pane parse on x links = Ok y /\ forall re, on = true -> parse x = Some re -> exists l, links re = Ok l /\ y = Some (Some l).
  Proof.
    intros T. unfold pane. destruct on; [|eexists; split; [reflexivity|discriminate]]. destruct (parse x) as [re|]; [|eexists; split; [reflexivity|discriminate]].
    destruct (T re) as [l E]. rewrite E. eexists. split; [reflexivity|]. intros re' _ [= <-]. eauto.
  Qed.
End Facts.
