(** Properties C88: what the server and its pages tell each other arrives.  C89: so does what the
    commands print as JSON. *)
From Coq Require Import ZArith Permutation Sorted Lia.
From Verif Require Import Api Render SpecRender SpecExport ExportFacts ReadyFacts.
From Verif Require Import Base BaseFacts Regex Name SpecName NameFacts RawNamesFacts Family FamilyFacts Artifact Stored SpecGraph Topo SpecLinks Numbers Markdown YamlExample Lint SpecLint LintFacts Source SpecJoin
  Pool Load LoadFacts SpecLoad Modify Ls LsFacts Web WebSave System Json SpecJson JsonFacts WireJson SpecWire WireFacts MovedFacts SendFacts SpecJsonArt JsonPanicFacts SpecModify PropArtifacts PropCompleted PropMarkdown PropLint PropLoad PropRender PropEdit PropSave.
Open Scope nat_scope.

Section Theorems.
  Variables (path_str : path -> str) (yaml : str -> option (option str * option RawNames.names_val)) (parse_toml parse_json : str -> res (list (name * art_raw)))
    (parse_msg : path -> str -> str) (prefix : str) (M : num) (topo : graph -> option (list nat)) (H : Type) (hash_im : art_im -> H)
    (settings_path : path) (url_error : option str).
  Hypothesis TC : topo_ok topo.
  Hypothesis PO : parser_ok parse_toml.
  Hypothesis PJ : parser_ok parse_json.
  Variables (enc : path -> str) (id_text : H -> str) (id_read : str -> res H) (num_text : F M -> option str) (num_read : str -> option (F M)).
  (** The project the server has. *)
  Variables (n : nat) (afs : list (art_file + lint)) (cfs : list (code_file + lint)) (lc : lints) (p : project M H).
  Hypothesis W1 : walk_lints_ok afs.
  Hypothesis W2 : walk_lints_ok cfs.
  Hypothesis Ld : loads path_str yaml parse_toml parse_json parse_msg prefix M topo H hash_im settings_path url_error n afs cfs (Ok (inl (lc, p))).
  Hypothesis Rd : forall m a, In (m, a) (pr_arts p) -> readable id_text id_read num_text num_read a.
  Local Definition Sd : sendable p := loads_sendable M topo TC H hash_im path_str yaml parse_toml parse_json PO PJ parse_msg prefix settings_path url_error n afs cfs lc p W1 W2 Ld.
  Local Lemma arts_fit m a : In (m, a) (pr_arts p) -> fits 5 (e_art enc id_text num_text a).
  Proof. intros Hin. destruct (Rd m a Hin) as (_ & (t1 & E1 & J1 & _) & (t2 & E2 & J2 & _)). apply art_fits; eauto. Qed.

  Local Lemma split_entries {K A B} (raw : K -> str) (R1 R0 : A -> B -> Prop) (T : A -> A -> Prop) (l : list (K * A)) (l' : list (K * B)) :
    (forall a b, R1 a b -> exists a', T a a' /\ R0 a' b) -> entries true raw R1 l l' -> exists m, moved T l m /\ entries false raw R0 m l'.
  Proof.
    intros S (m & [P _] & F).
    assert (X : exists m', Forall2 (fun a b => fst b = fst a /\ T (snd a) (snd b)) m m' /\ Forall2 (fun a b => fst b = fst a /\ R0 (snd a) (snd b)) m' l').
    { clear P. induction F as [|[k a] [k2 b] m l' [E1 E2] F (m' & F1 & F2)]; [exists []; split; constructor|]. cbn [fst snd] in *. subst k2. destruct (S a b E2) as (a' & Ta & Ra). exists ((k, a') :: m'). split; constructor; auto. }
    destruct X as (m' & F1 & F2). exists m'. split; [exists m; auto|]. exists m'. split; [reflexivity|exact F2].
  Qed.
  Local Lemma split_code c w : same_code enc true c w -> exists c', code_moved c c' /\ same_code enc false c' w.
  Proof.
    intros [Ep Es]. assert (X : exists m, Permutation (ic_secondary c) m /\ entries false s_raw (same_loc enc) m (wc_secondary w)).
    { destruct Es as (m & [P _] & F). exists m. split; [exact P|]. exists m. split; [reflexivity|exact F]. }
    destruct X as (m & P & F). exists (mkCode (ic_primary c) m). split; [split; [reflexivity|exact P]|split; [exact Ep|exact F]].
  Qed.
  Local Lemma split_art (a : artifact M H) w : same_art enc true a w -> exists b, art_moved a b /\ same_art enc false b w.
  Proof.
    intros (E1 & E2 & E3 & E4 & E5 & E6 & E7 & E8 & E9).
    assert (X : exists i, impl_moved (a_impl a) i /\ same_impl enc false i (wa_impl w)).
    { destruct (a_impl a) as [d|c|], (wa_impl w) as [d'|c'|]; cbn [same_impl] in E8; try contradiction; [exists (IDone d); split; auto; reflexivity| |exists INot; split; auto; reflexivity].
      destruct (split_code c c' E8) as (x & X1 & X2). exists (ICode x). auto. }
    destruct X as (i & Mi & Si). exists (mkArt (a_id a) (a_name a) (a_file a) (a_partof a) (a_parts a) (a_completed a) (a_text a) i (a_subnames a)).
    split; repeat (split; [first [reflexivity|assumption]|]); try reflexivity; assumption.
  Qed.

  (** The answer to a page is JSON from which the page gets the project and the lints, complete:
      every artifact, reference and setting as the server has it, in the order of the texts of the
      names; the forms of the page start from these artifacts (C83), and what it shows is this
      project in another order (C85). *)
  Theorem C88_answer : forall st c, paths_once enc st ->
    exists w, from_text (r_result id_read num_read) (answer_text enc id_text num_text st p c) = Ok (w, c) /\ same_project enc true st p w /\
      map (fun x => (fst x, seen (snd x))) (wp_arts w) = wire M H enc p /\
      exists q, project_moved p q /\ same_project enc false st q w.
  Proof.
    intros st c Po. destruct (project_arr enc id_text id_read num_text num_read true st p Po Sd Rd) as (w & Ew & Sw). exists w.
    assert (Fp : fits 7 (e_project enc id_text num_text st p)) by (apply project_fits; exact arts_fit).
    split.
    - unfold answer_text. rewrite text_arr.
      + unfold e_result, r_result. obj. need_ (e_project enc id_text num_text st p) Ew. need_ (e_lints c) (lints_arr str_leb c). reflexivity.
      + eapply (fits_le 8); [|lia]. apply fits_obj. intros e [<-|[<-|[]]]; cbn [snd]; [exact Fp|]. eapply fits_le; [apply lints_fits|lia].
    - split; [exact Sw|]. destruct Sw as (S1 & S2 & S3). split; [now apply wire_seen; [apply Sd|]|].
      destruct (split_entries n_raw _ (same_code enc false) code_moved _ _ split_code S2) as (mc & Mc & Fc).
      destruct (split_entries n_raw _ (same_art enc false) art_moved _ _ split_art S3) as (ma & Ma & Fa).
      exists (mkProject ma mc (pr_prefix p) (pr_settings_path p) (pr_url_error p)). split; [split; assumption|]. split; [exact S1|]. split; assumption.
  Qed.

  (** [art export] converts the project through JSON: it does not panic there, and nothing changes. *)
  Theorem C88_to_ser : forall st, paths_once enc st -> exists w, to_ser enc id_text id_read num_text num_read st p = Ok w /\ same_project enc false st p w.
  Proof.
    intros st Po. destruct (project_arr enc id_text id_read num_text num_read false st p Po Sd Rd) as (w & Ew & Sw). exists w. split; [|exact Sw].
    assert (Fp : fits 7 (e_project enc id_text num_text st p)) by (apply project_fits; exact arts_fit). unfold to_ser.
    rewrite <- (arrange_same (e_project enc id_text num_text st p)) by apply Fp. rewrite text_arr by (eapply fits_le; [exact Fp|lia]). cbn [lebof] in Ew. rewrite Ew. reflexivity.
  Qed.

  (** ** [art ls --type json] *)
  Definition r_list (v : jval) : res (list (w_art M H)) := res_bind (r_arr v) (res_map (r_art id_read num_read)).
  (** What is printed is JSON that says, of each listed artifact, all there is to say. *)
  Theorem C89_list : forall reported regex code_str cmd l, ls_run reported regex path_str code_str cmd (pr_arts p) = Ok (OJson l) ->
    exists ws, from_text r_list (ls_text enc id_text num_text l) = Ok ws /\ Forall2 (same_art enc false) l ws.
  Proof.
    intros rp rx cs cmd l E.
    assert (I : forall a, In a l -> exists m, In (m, a) (pr_arts p)).
    { unfold ls_run in E. destruct (filter_artifacts _ _ cmd (pr_arts p)) as [ns| |]; cbn [res_bind] in E; try discriminate E. cbv zeta in E. destruct (str_eqb (ls_type cmd) (s "json")).
      - destruct (res_map (index (pr_arts p)) (isort name_leb ns)) as [l'| |] eqn:El; cbn [res_bind] in E; try discriminate E. injection E as ->. revert l El. generalize (isort name_leb ns). clear.
        induction l as [|m l IH]; intros l' E; cbn [res_map] in E; [injection E as <-; intros a []|]. unfold index at 1 in E. destruct (im_get name_eqb m (pr_arts p)) as [b|] eqn:G; cbn [res_bind] in E; [|discriminate E].
        destruct (res_map (index (pr_arts p)) l) as [l0| |]; cbn [res_bind] in E; try discriminate E. injection E as <-. intros a [<-|Ha]; [|apply (IH l0 eq_refl a Ha)].
        apply (get_some_in name_eqb nk) in G as (m' & _ & X); [eauto|exact name_eqb_iff].
      - destruct (str_eqb (ls_type cmd) (s "list")); [|discriminate E]. destruct (ls_long cmd).
        + match type of E with res_bind ?r _ = _ => destruct r as [x| |]; cbn [res_bind] in E; discriminate E end.
        + match type of E with res_bind ?r _ = _ => destruct r as [x| |]; cbn [res_bind] in E; discriminate E end. }
    assert (X : exists ws, Forall2 (fun a w => r_art id_read num_read (arrange (lebof false) (e_art enc id_text num_text a)) = Ok w /\ same_art enc false a w) l ws).
    { clear E. induction l as [|a l IH]; [exists []; constructor|]. destruct IH as (ws & F); [intros b Hb; apply I; now right|]. destruct (I a (or_introl eq_refl)) as (m & Ha).
      destruct (art_arr enc id_text id_read num_text num_read false a) as (w & Ew & Sw); [apply (sd_arts p Sd m a Ha)|exact (Rd m a Ha)|]. exists (w :: ws). constructor; auto. }
    destruct X as (ws & F). exists ws. split; [|clear -F; induction F as [|? ? ? ? [? ?]]; constructor; auto].
    assert (Fl : fits 6 (JArr (map (e_art enc id_text num_text) l) true)).
    { apply fits_arr. intros v Hv. apply in_map_iff in Hv as (a & <- & Ha). destruct (I a Ha) as (m & Hm). exact (arts_fit m a Hm). }
    unfold ls_text, from_text. destruct Fl as [Wl Dl]. rewrite (proj2 (read_written _ Wl ltac:(lia))). unfold r_list. cbn [r_arr res_bind]. apply res_map_ok.
    clear E Dl. induction F as [|a w l ws [Ew _] F IH]; cbn [map]; constructor.
    - rewrite <- (arrange_same (e_art enc id_text num_text a)); [exact Ew|]. destruct (I a (or_introl eq_refl)) as (m & Hm). apply (arts_fit m a Hm).
    - apply IH; [intros b Hb; apply I; now right|]. inversion Wl as [| | | |l0 A|]; subst. constructor. intros v Hv. apply A. now right.
  Qed.
End Theorems.

Section Requests.
  Variables (H : Type) (dec : str -> option path) (id_text : H -> str) (id_read : str -> res H).
  (** A request arrives as it was meant: the server has the operations of the page, or refuses them
      all if the path of one is not one. *)
  Theorem C88_request : forall l, Forall (fun o => sim_set (sop_im o) /\ id_ok id_text id_read o) l ->
    read_ops dec id_read (ops_text id_text l) = received H dec l.
  Proof.
    intros l W. unfold read_ops, ops_text.
    assert (Fl : fits 4 (JArr (map (e_sop id_text) l) true)) by (apply fits_arr; intros v Hv; apply in_map_iff in Hv as (o & <- & _); apply sop_fits).
    unfold from_text. destruct Fl as [Wl Dl]. rewrite (proj1 (read_written _ Wl ltac:(lia))). cbn [arrange r_arr res_bind]. rewrite map_map. clear Wl Dl.
    induction W as [|o l [Ws Wi] W IH]; [reflexivity|]. cbn [map res_map received]. rewrite (op_arr id_text id_read dec str_leb o Ws Wi). destruct (receive dec o) as [b|]; [|reflexivity]. cbn [res_bind]. rewrite IH. reflexivity.
  Qed.
  (** Every request a form makes is of this kind. *)
  Theorem C88_form : forall e o, edit_op e = Ok o -> (forall i, e_orig e = Some i -> id_read (id_text i) = Ok i) ->
    read_ops dec id_read (ops_text id_text [o]) = received H dec [o].
  Proof.
    intros e o E I. apply C88_request. constructor; [|constructor]. unfold edit_op, edit_im in E. destruct (res_map expect_name (e_partof e)) as [ps| |] eqn:Ep; cbn [res_bind] in E; try discriminate E.
    unfold expect_name in E. destruct (name_from_str (e_name e)) as [m| |] eqn:En; cbn [res_bind] in E; try discriminate E. injection E as <-.
    destruct (expect_all _ _ Ep) as (F & _). destruct (collect_wf ps F) as (N & F' & _). destruct (from_str_wf _ _ En) as [Wm _].
    assert (S : sim_set (mkSim m (e_file e) (is_collect name_eqb ps) (if is_nil (e_done e) then None else Some (e_done e)) (e_text e))).
    { split; [exact Wm|]. split; [exact F'|]. cbn [si_partof]. apply (is_collect_nodup name_eqb nk name_eqb_iff). }
    destruct (e_orig e) as [i|]; cbn [sop_im id_ok]; split; auto.
  Qed.
  (** Whatever text is sent instead: what the server takes it for are operations with names and with
      links that are names, each once; otherwise it refuses it, unless some name in it has a type
      spelled with a long s. *)
  Definition calm {A} (d : jval -> res A) : Prop := forall v, d v = Panic -> exists z, jsaid v z /\ longs_name z.
  Lemma get1_in fs k v : get1 fs k = Ok (Some v) -> In (k, v) fs.
  Proof.
    unfold get1. destruct (filter (fun e => str_eqb (fst e) k) fs) as [|e [|e' l]] eqn:E; try discriminate. intros [= <-].
    assert (I : In e (filter (fun e => str_eqb (fst e) k) fs)) by (rewrite E; now left). apply filter_In in I as [I X]. apply str_eqb_eq in X. destruct e. cbn in *. now subst.
  Qed.
  Lemma get1_calm fs k : get1 fs k <> Panic.
  Proof. unfold get1. now destruct (filter (fun e => str_eqb (fst e) k) fs) as [|e [|e' l]]. Qed.
  Lemma need_panic {A} fs k (d : jval -> res A) b : calm d -> need fs k d = Panic -> exists z, jsaid (JObj fs b) z /\ longs_name z.
  Proof.
    intros C E. unfold need in E. apply bind_panic in E as [E|([v|] & G & E)]; [now apply get1_calm in E| |discriminate E]. apply get1_in in G.
    destruct (C v E) as (z & S & L). exists z. split; auto. eapply sd_val; eauto.
  Qed.
  Lemma may_panic {A} fs k x (d : jval -> res A) b : calm d -> may fs k x d = Panic -> exists z, jsaid (JObj fs b) z /\ longs_name z.
  Proof.
    intros C E. unfold may in E. apply bind_panic in E as [E|([v|] & G & E)]; [now apply get1_calm in E| |discriminate E]. apply get1_in in G.
    destruct (C v E) as (z & S & L). exists z. split; auto. eapply sd_val; eauto.
  Qed.
  Lemma obj_calm {A} (f : list (str * jval) -> res A) : (forall fs b, f fs = Panic -> exists z, jsaid (JObj fs b) z /\ longs_name z) -> calm (fun v => res_bind (r_obj v) f).
  Proof.
    intros C v E. apply bind_panic in E as [E|(fs & G & E)]; [destruct v as [| | | | |l []|]; discriminate E|]. destruct v as [| | | | |l []|]; try discriminate G. injection G as <-. now apply C.
  Qed.
  Lemma map_panic {A B} (f : A -> res B) l : res_map f l = Panic -> exists a, In a l /\ f a = Panic.
  Proof.
    induction l as [|a l IH]; cbn [res_map]; [discriminate|]. intros E. apply bind_panic in E as [E|(b & _ & E)]; [exists a; split; [now left|auto]|].
    apply bind_panic in E as [E|(c & _ & E)]; [|discriminate E]. destruct (IH E) as (x & I & X). exists x. split; [now right|auto].
  Qed.
  Lemma text_calm : calm WireJson.r_text. Proof. intros v E. now destruct v. Qed.
  Lemma opt_text_calm : calm r_opt_text. Proof. intros v E. now destruct v. Qed.
  Lemma name_calm : calm r_name.
  Proof. intros v E. destruct v; try discriminate E. exists x. split; [constructor|]. now apply name_panic. Qed.
  Lemma set_calm : calm (r_set name_eqb r_name).
  Proof.
    intros v E. unfold r_set in E. apply bind_panic in E as [E|(l & G & E)]; [destruct v as [| | | |l []| |]; discriminate E|]. destruct v as [| | | |l' []| |]; try discriminate G. injection G as ->.
    apply bind_panic in E as [E|(m & _ & E)]; [|discriminate E]. destruct (map_panic _ _ E) as (a & I & X). destruct (name_calm a X) as (z & S & L). exists z. split; auto. eapply sd_arr; eauto.
  Qed.
  Lemma im_calm : calm (r_im dec).
  Proof.
    apply obj_calm. intros fs b E.
    apply bind_panic in E as [E|(n & _ & E)]; [eapply need_panic; [apply name_calm|exact E]|].
    apply bind_panic in E as [E|(f & _ & E)].
    { apply need_panic with (b := b) in E; auto. intros v X. apply bind_panic in X as [X|(y & _ & X)]; [now apply text_calm in X|]. now destruct (dec y). }
    apply bind_panic in E as [E|(po & _ & E)]; [eapply need_panic; [apply set_calm|exact E]|].
    apply bind_panic in E as [E|(d & _ & E)]; [eapply may_panic; [apply opt_text_calm|exact E]|].
    apply bind_panic in E as [E|(t & _ & E)]; [eapply need_panic; [apply text_calm|exact E]|discriminate E].
  Qed.
  Hypothesis ids_calm : forall x, id_read x <> Panic.
  Lemma id_calm : calm (r_id id_read).
  Proof. intros v E. unfold r_id in E. apply bind_panic in E as [E|(x & _ & E)]; [now apply text_calm in E|]. now apply ids_calm in E. Qed.
  Lemma op_calm : calm (r_op dec id_read).
  Proof.
    apply obj_calm. intros fs b E. apply bind_panic in E as [E|(t & _ & E)]; [eapply need_panic; [apply text_calm|exact E]|].
    destruct (str_eqb t (s "create")); [apply bind_panic in E as [E|(a & _ & E)]; [eapply need_panic; [apply im_calm|exact E]|discriminate E]|].
    destruct (str_eqb t (s "update")).
    { apply bind_panic in E as [E|(a & _ & E)]; [eapply need_panic; [apply im_calm|exact E]|]. apply bind_panic in E as [E|(i & _ & E)]; [eapply need_panic; [apply id_calm|exact E]|discriminate E]. }
    destruct (str_eqb t (s "delete")); [|discriminate E].
    apply bind_panic in E as [E|(a & _ & E)]; [eapply need_panic; [apply name_calm|exact E]|]. apply bind_panic in E as [E|(i & _ & E)]; [eapply need_panic; [apply id_calm|exact E]|discriminate E].
  Qed.
  Lemma arrange_said leb v : forall z, jsaid (arrange leb v) z -> jsaid v z.
  Proof.
    induction v as [| | | |l ok IH|l ok IH|] using jval_ind'; intros z S; cbn [arrange] in S; auto.
    - inversion S as [|? ? v ? I J| |]; subst. apply in_map_iff in I as (u & <- & I). eapply sd_arr; eauto.
    - inversion S as [| |? ? ? v I|? ? ? v ? I J]; subst; apply (Permutation_in _ (Permutation_sym (isort_perm _ _))) in I || apply (Permutation_in _ (isort_perm _ _)) in I;
        apply in_map_iff in I as ([k' u] & E & I); cbn [fst snd] in E; injection E as <- <-; [eapply sd_key; eauto|eapply sd_val; eauto].
  Qed.
  Lemma map_all {A B} (f : A -> res B) (P : B -> Prop) l : (forall a b, f a = Ok b -> P b) -> forall m, res_map f l = Ok m -> Forall P m.
  Proof.
    intros F. induction l as [|a l IH]; intros m E; cbn [res_map] in E; [injection E as <-; constructor|].
    destruct (f a) as [b| |] eqn:Ea; cbn [res_bind] in E; try discriminate E. destruct (res_map f l) as [c| |]; cbn [res_bind] in E; try discriminate E. injection E as <-. constructor; eauto.
  Qed.
  Lemma name_read v n : r_name v = Ok n -> name_wf n.
  Proof. destruct v; try discriminate. cbn [r_name WireJson.r_text res_bind]. intros E. now apply from_str_wf in E. Qed.
  Lemma need_ok {A} fs k (d : jval -> res A) a : need fs k d = Ok a -> exists v, d v = Ok a.
  Proof. unfold need. destruct (get1 fs k) as [[v|]| |]; cbn [res_bind]; try discriminate. eauto. Qed.
  Lemma im_read v a : r_im dec v = Ok a -> im_wf a.
  Proof.
    unfold r_im. destruct (r_obj v) as [fs| |]; cbn [res_bind]; try discriminate.
    destruct (need fs (s "name") r_name) as [n| |] eqn:En; cbn [res_bind]; try discriminate. destruct (need fs (s "file") _) as [f| |]; cbn [res_bind]; try discriminate.
    destruct (need fs (s "partof") _) as [po| |] eqn:Ep; cbn [res_bind]; try discriminate. destruct (may fs (s "done") None r_opt_text) as [d| |]; cbn [res_bind]; try discriminate.
    destruct (need fs (s "text") WireJson.r_text) as [t| |]; cbn [res_bind]; try discriminate. intros [= <-].
    apply need_ok in En as (v1 & En). apply name_read in En. apply need_ok in Ep as (v2 & Ep). unfold r_set in Ep. destruct (r_arr v2) as [l| |]; cbn [res_bind] in Ep; try discriminate Ep.
    destruct (res_map r_name l) as [ps| |] eqn:Em; cbn [res_bind] in Ep; try discriminate Ep. injection Ep as <-.
    apply (map_all r_name name_wf) in Em; [|exact name_read]. destruct (collect_wf ps Em) as (N & F' & _). constructor; [exact En|exact F'|exact N].
  Qed.
  Lemma op_read v o : r_op dec id_read v = Ok o -> op_wf o.
  Proof.
    unfold r_op. destruct (r_obj v) as [fs| |]; cbn [res_bind]; try discriminate. destruct (need fs (s "op") WireJson.r_text) as [t| |]; cbn [res_bind]; try discriminate.
    destruct (str_eqb t (s "create")).
    { destruct (need fs (s "artifact") _) as [a| |] eqn:Ea; cbn [res_bind]; try discriminate. intros [= <-]. apply need_ok in Ea as (w & Ea). exact (im_read w a Ea). }
    destruct (str_eqb t (s "update")).
    { destruct (need fs (s "artifact") _) as [a| |] eqn:Ea; cbn [res_bind]; try discriminate. destruct (need fs (s "orig_id") _) as [i| |]; cbn [res_bind]; try discriminate. intros [= <-]. apply need_ok in Ea as (w & Ea). exact (im_read w a Ea). }
    destruct (str_eqb t (s "delete")); [|discriminate].
    destruct (need fs (s "name") _) as [a| |] eqn:Ea; cbn [res_bind]; try discriminate. destruct (need fs (s "orig_id") _) as [i| |]; cbn [res_bind]; try discriminate. intros [= <-]. apply need_ok in Ea as (w & Ea). exact (name_read w a Ea).
  Qed.
  Lemma doc_said x v b z : r_doc x = (v, b) -> jsaid v z -> quoted x z.
  Proof.
    unfold r_doc. intros E S. destruct (r_val max_depth x) as [u o] eqn:Eu. apply (val_said max_depth x u o z Eu). destruct o; injection E as -> _; exact S.
  Qed.
  Definition ops_of (v : jval) : res (list (op H)) := res_bind (r_arr (arrange str_leb v)) (res_map (r_op dec id_read)).
  Lemma ops_of_ok v l : ops_of v = Ok l -> Forall op_wf l.
  Proof.
    unfold ops_of. destruct (r_arr (arrange str_leb v)) as [m| |]; cbn [res_bind]; try discriminate. apply map_all. exact op_read.
  Qed.
  Lemma ops_of_panic v : ops_of v = Panic -> exists z, jsaid v z /\ longs_name z.
  Proof.
    unfold ops_of. intros E. assert (X : exists z, jsaid (arrange str_leb v) z /\ longs_name z).
    { apply bind_panic in E as [E|(m & G & E)]; [destruct (arrange str_leb v) as [| | | |l []| |]; discriminate E|]. destruct (arrange str_leb v) as [| | | |l []| |]; try discriminate G. injection G as ->.
      destruct (map_panic _ _ E) as (a & Ia & Xa). destruct (op_calm a Xa) as (z & S & L). exists z. split; auto. eapply sd_arr; eauto. }
    destruct X as (z & S & L). exists z. split; auto. now apply arrange_said in S.
  Qed.
  Lemma read_ops_doc x r : read_ops dec id_read x = r -> r = Err \/ exists v, r_doc x = (v, true) /\ ops_of v = r.
  Proof. unfold read_ops, from_text. destruct (r_doc x) as [v [|]]; [right; exists v; auto|left; auto]. Qed.
  Theorem C88_any : forall x,
    match read_ops dec id_read x with
    | Ok l => Forall op_wf l
    | Err => True
    | Panic => exists z, quoted x z /\ longs_name z
    end.
  Proof.
    intros x. pose proof (read_ops_doc x _ eq_refl) as D. destruct (read_ops dec id_read x) as [l| |]; auto; (destruct D as [D|(v & Ed & D)]; [discriminate D|]).
    - exact (ops_of_ok v l D).
    - destruct (ops_of_panic v D) as (z & S & L). exists z. split; auto. exact (doc_said x v true z Ed S).
  Qed.
End Requests.

(** ** Ratios that are no numbers *)
Section NoNumber.
  Variables (M : num) (H : Type) (enc : path -> str) (id_text : H -> str) (id_read : str -> res H) (num_text : F M -> option str) (num_read : str -> option (F M)).
  Hypothesis texts : forall x t, num_text x = Some t -> jnumber t.
  Local Lemma num_fits k x : fits k (e_num num_text x).
  Proof. unfold e_num. destruct (num_text x) as [t|] eqn:E; split; try constructor; cbn [depth]; try lia. exact (texts x t E). Qed.
  Local Lemma any_art_fits (a : artifact M H) : fits 5 (e_art enc id_text num_text a).
  Proof.
    unfold e_art. apply fits_obj. each; try apply fits_str; try apply fits_strs; [|apply impl_fits]. apply fits_obj. each; apply num_fits.
  Qed.
  Local Lemma none_unread x : num_text x = None -> r_num num_read (e_num num_text x) = Err.
  Proof. unfold e_num. now intros ->. Qed.
  Local Lemma need_here {A} (fs : list (str * jval)) k (d : jval -> res A) v : get1 fs k = Ok (Some v) -> need fs k d = d v.
  Proof. unfold need. now intros ->. Qed.
  Local Lemma art_unread (a : artifact M H) w : num_text (fst (a_completed a)) = None \/ num_text (snd (a_completed a)) = None -> r_art id_read num_read (e_art enc id_text num_text a) <> Ok w.
  Proof.
    intros N E. unfold r_art, e_art in E. cbn [r_obj res_bind] in E.
    repeat match type of E with res_bind (need ?fs (s "completed") _) _ = _ => fail 1 | res_bind ?r _ = _ => let x := fresh "x" in destruct r as [x| |]; cbn [res_bind] in E; try discriminate E end.
    erewrite (need_here _ (s "completed")) in E by reflexivity. cbn [snd r_obj res_bind] in E.
    erewrite (need_here _ (s "spc")) in E by reflexivity. erewrite (need_here _ (s "tst")) in E by reflexivity. cbn [snd] in E.
    destruct N as [N|N]; rewrite (none_unread _ N) in E; [|destruct (r_num num_read (e_num num_text (fst (a_completed a))))]; discriminate E.
  Qed.
  Local Lemma map_in_ok {A B} (f : A -> res B) l l' x : res_map f l = Ok l' -> In x l -> exists y, f x = Ok y.
  Proof.
    revert l'. induction l as [|a l IH]; intros l' E; [intros []|]. cbn [res_map] in E. destruct (f a) as [y| |] eqn:Ey; cbn [res_bind] in E; try discriminate E.
    destruct (res_map f l) as [m| |]; cbn [res_bind] in E; try discriminate E. intros [<-|I]; eauto.
  Qed.
  (** A project with a ratio that is no number stops the command that exports it: its JSON says
      [null] there, which is not read as a number. *)
  Theorem C88_no_number : forall st (p : project M H) m a, In (m, a) (pr_arts p) ->
    num_text (fst (a_completed a)) = None \/ num_text (snd (a_completed a)) = None -> to_ser enc id_text id_read num_text num_read st p = Panic.
  Proof.
    intros st p m a I N. assert (Fp : fits 7 (e_project enc id_text num_text st p)) by (apply project_fits; intros; apply any_art_fits). unfold to_ser.
    rewrite <- (arrange_same (e_project enc id_text num_text st p)) by apply Fp. rewrite text_arr by (eapply fits_le; [exact Fp|lia]). rewrite arrange_same by apply Fp.
    destruct (WireJson.r_project id_read num_read (e_project enc id_text num_text st p)) as [w| |] eqn:E; try reflexivity. exfalso. unfold WireJson.r_project, e_project in E. cbn [r_obj res_bind] in E.
    repeat match type of E with res_bind (need ?fs (s "artifacts") _) _ = _ => fail 1 | res_bind ?r _ = _ => let x := fresh "x" in destruct r as [x| |]; cbn [res_bind] in E; try discriminate E end.
    erewrite (need_here _ (s "artifacts")) in E by reflexivity. unfold r_map in E. cbn [snd r_obj res_bind] in E.
    match type of E with res_bind (res_bind (res_map ?f ?l) _) _ = _ => destruct (res_map f l) as [l'| |] eqn:El; cbn [res_bind] in E; try discriminate E end.
    destruct (map_in_ok _ _ _ (n_raw m, e_art enc id_text num_text a) El) as (y & Ey); [apply (in_map (fun e => (n_raw (fst e), e_art enc id_text num_text (snd e))) _ (m, a) I)|]. cbn [fst snd] in Ey.
    destruct (name_from_str (n_raw m)) as [k| |]; cbn [res_bind] in Ey; try discriminate Ey. destruct (r_art id_read num_read (e_art enc id_text num_text a)) as [z| |] eqn:Ez; try discriminate Ey. exact (art_unread a z N Ez).
  Qed.
End NoNumber.

(** ** Printed lints *)
(** The two lists are JSON, and together they say which lints there are: reading up to the end of
    each list, all of them are found again. *)
Definition is_list (x : str) (l : list lint) : Prop := from_text r_lint_list x = Ok l.
Theorem C89_lints : forall c,
  (exists a b, lints_text c = s "  ----- ERRORS -----:" ++ [10%N] ++ a ++ [10%N; 10%N] ++ s "  ----- WARNINGS -----:" ++ [10%N] ++ b ++ [10%N] /\
     is_list a (ls_error c) /\ is_list b (ls_other c)) /\
  forall c', lints_text c' = lints_text c -> c' = c.
Proof.
  assert (P : forall l, r_doc (w_pretty 0 (e_lint_list l)) = (e_lint_list l, true) /\ json 127 (w_pretty 0 (e_lint_list l)) (e_lint_list l)).
  { intros l. destruct (lint_list_fits l) as [W D]. split; [apply (read_written _ W); lia|]. apply w_pretty_json; [exact W|lia]. }
  assert (L : forall l, r_lint_list (e_lint_list l) = Ok l).
  { intros l. pose proof (lint_list_arr (fun _ _ => true) l) as E. rewrite arrange_same in E; [exact E|apply lint_list_fits]. }
  intros c. split.
  - exists (w_pretty 0 (e_lint_list (ls_error c))), (w_pretty 0 (e_lint_list (ls_other c))). split; [reflexivity|]. unfold is_list, from_text. rewrite (proj1 (P (ls_error c))), (proj1 (P (ls_other c))). split; apply L.
  - intros c' E. unfold lints_text in E. apply app_inv_head in E. apply app_inv_head in E.
    assert (St : forall r, stop ([c_nl; c_nl] ++ r)) by (intros r; left; reflexivity).
    assert (Pi : forall (a b : jval) (r r' : str), (a, Some r) = (b, Some r') -> a = b /\ r = r') by (intros * Q; now injection Q).
    pose proof (f_equal (r_val (S 127)) E) as X. rewrite !(proj1 complete3 127 _ _ (proj2 (P _)) _ (St _)) in X. apply Pi in X as [EX X].
    apply app_inv_head in X. apply app_inv_head in X. apply app_inv_head in X.
    assert (St' : stop [c_nl]) by (left; reflexivity).
    pose proof (f_equal (r_val (S 127)) X) as Y. rewrite !(proj1 complete3 127 _ _ (proj2 (P _)) _ St') in Y. apply Pi in Y as [EY _].
    apply (f_equal r_lint_list) in EX, EY. rewrite !L in EX, EY. destruct c, c'. cbn in EX, EY. congruence.
Qed.

(** ** Examples *)
Definition z_num (x : F exact_num) : option str := if Z.ltb x 0 then None else Some (nat_str (Z.to_nat x)).
Definition z_read (x : str) : option (F exact_num) := Some (Z.of_N (fold_left (fun a c => a * 10 + (c - 48))%N x 0%N)).
Definition z_set : w_settings path :=
  mkWset [s "p"] [s "p"; s "settings.toml"] [[s "p"; s "src"]; [s "p"; s "lib"]] [] [[s "p"; s "design"]] [] (Some (s "http://h/")) (NamePrefix (s "##")) (CodeBlock (Some (s "@@")))
         None true FamilyList (DotReplace (s "b") (s "a")) NameDefault.
Definition z_load := ex_seq exact_num 2
  [md (s "a.md") [s "# REQ-a"; s "top [[req-B.x]]"; s "# req-B"; s "partof: REQ-a"; s "###"; s "do [[.x]]"; s "# SPC-b"; s "partof: REQ-b"; s "done: ""sure"""; s "###"; s "low"]]
  [src (s "x.rs") [s "// #req-b"; s "// #req-b.X"]].
Definition z_project : project exact_num str := match z_load with Ok (inl (_, p)) => p | _ => mkProject [] [] [] [] None end.
Definition z_answer : str := answer_text ex_path (fun x : str => x) z_num z_set z_project no_lints.
Definition z_page := from_text (r_result (M := exact_num) (@Ok str) z_read) z_answer.
Definition z_ls (ty : str) := ls_run (fun x : F exact_num => x) (fun _ => None) ex_path (fun _ => []) (mkLs None (s "N") false (s ">0") (s ">0") flags_empty false ty) (pr_arts z_project).
Definition z_lint (m : str) (k : option nat) : lint := mkLint LError (Some (s "a.md")) k CLoadPaths m.

(** The example project is loaded and meets the hypotheses; its artifacts arrive in the order of
    the texts of their names.  A share that is not a number is written as null, which is not read
    as a share: then the conversion panics. *)
Example C88_example :
  (exists c, ex_load exact_num 2 [md (s "a.md") [s "# REQ-a"; s "top [[req-B.x]]"; s "# req-B"; s "partof: REQ-a"; s "###"; s "do [[.x]]"; s "# SPC-b"; s "partof: REQ-b"; s "done: ""sure"""; s "###"; s "low"]]
     [src (s "x.rs") [s "// #req-b"; s "// #req-b.X"]] (Ok (inl (c, z_project)))) /\
  paths_once ex_path z_set /\ (forall m a, In (m, a) (pr_arts z_project) -> readable (fun x : str => x) (@Ok str) z_num z_read a) /\
  map (fun e => n_raw (fst e)) (pr_arts z_project) = [s "REQ-a"; s "req-B"; s "SPC-b"] /\
  (exists w, z_page = Ok (w, no_lints) /\ ws_arts (wp_settings w) = [s "p/design"] /\ map (fun e => n_raw (fst e)) (wp_arts w) = [s "REQ-a"; s "SPC-b"; s "req-B"]) /\
  to_ser ex_path (fun x : str => x) (@Ok str) (fun _ => None) z_read z_set z_project = Panic.
Proof.
  split.
  { assert (X : z_load = Ok (inl (match z_load with Ok (inl (c, _)) => c | _ => no_lints end, z_project))) by (vm_compute; reflexivity).
    eexists. rewrite <- X. apply ex_seq_loads. }
  split; [|split; [|split; [|split]]].
  - repeat split; cbn [map ws_code ws_xcode ws_arts ws_xarts z_set]; repeat constructor; cbn; intuition discriminate.
  - assert (A : forallb (fun e : name * artifact exact_num str => (0 <=? fst (a_completed (snd e)))%Z && (0 <=? snd (a_completed (snd e)))%Z) (pr_arts z_project) = true) by (vm_compute; reflexivity).
    intros m a Hin. rewrite forallb_forall in A. specialize (A _ Hin). cbn [snd] in A. apply andb_prop in A as [A1 A2].
    assert (Rz : forall x : F exact_num, (0 <=? x)%Z = true -> exists t, z_num x = Some t /\ jnumber t /\ z_read t = Some x).
    { intros x Px. apply Z.leb_le in Px. exists (nat_str (Z.to_nat x)). unfold z_num. destruct (Z.ltb_spec x 0) as [Lt|Ge]; [lia|]. split; [reflexivity|]. split; [apply (decimal_number (Z.to_nat x)), nat_str_decimal|].
      destruct (nat_str_decimal (Z.to_nat x)) as (_ & _ & V & _). unfold z_read. rewrite V, nat_N_Z. exact (f_equal Some (Z2Nat.id x Px)). }
    split; [reflexivity|]. split; apply Rz; assumption.
  - vm_compute. reflexivity.
  - assert (X : exists w, z_page = Ok (w, no_lints)) by (vm_compute; eexists; reflexivity). destruct X as [w X]. exists w. split; [exact X|].
    assert (Y : match z_page with Ok (w, _) => (ws_arts (wp_settings w), map (fun e => n_raw (fst e)) (wp_arts w)) | _ => ([], []) end = ([s "p/design"], [s "REQ-a"; s "SPC-b"; s "req-B"])) by (vm_compute; reflexivity).
    rewrite X in Y. injection Y as -> ->. split; reflexivity.
  - vm_compute. reflexivity.
Qed.
(** A form of a page arrives; if its path is not one, the request is refused. *)
Definition z_form (f : str) : edit str := mkEdit (Some (s "low")) (s "spc-C") f [s "REQ-a"; s "req-A"] (s "by hand") (s "say ""hi""").
Definition z_sent (f : str) := match edit_op (z_form f) with Ok o => Some (ops_text (fun x : str => x) [o], read_ops (fun x => if is_nil x then None else Some [x]) (@Ok str) (ops_text (fun x : str => x) [o])) | _ => None end.
Definition nm (x : str) : name := match name_from_str x with Ok m => m | _ => mkName REQ [] [] end.
Example C88_form_example :
  z_sent (s "a.md") = Some (s "[{""op"":""update"",""artifact"":{""name"":""spc-C"",""file"":""a.md"",""partof"":[""REQ-a""],""done"":""by hand"",""text"":""say \""hi\""""},""orig_id"":""low""}]",
    Ok [OUpdate (mkIm (nm (s "spc-C")) [s "a.md"] [nm (s "REQ-a")] (Some (s "by hand")) (s "say ""hi""")) (s "low")]) /\
  option_map snd (z_sent []) = Some Err.
Proof. vm_compute. repeat split. Qed.
(** A request that is not one, one with a link given twice, and one that stops the server. *)
Definition z_read_ops := read_ops (fun x => if is_nil x then None else Some [x]) (@Ok str).
Definition z_req (f : str) (link : str) : str :=
  s "[{""op"":""create"",""artifact"":{""name"":""SPC-c"",""file"":""" ++ f ++ s """,""partof"":[""REQ-a"",""" ++ link ++ s """],""done"":null,""text"":""x""}}]".
Example C88_any_example :
  z_read_ops (s "[1]") = Err /\ z_read_ops (z_req [] (s "REQ-b")) = Err /\ z_read_ops (z_req (s "f") (s "none")) = Err /\
  z_read_ops (z_req (s "f") (s "req-A")) = Ok [OCreate (mkIm (nm (s "SPC-c")) [s "f"] [nm (s "REQ-a")] None (s "x"))] /\
  z_read_ops (z_req (s "f") ([383%N] ++ s "PC-b")) = Panic.
Proof. vm_compute. repeat split. Qed.
Example C89_example :
  (exists l, z_ls (s "json") = Ok (OJson l) /\ map (fun a => n_raw (a_name a)) l = [s "REQ-a"; s "req-B"; s "SPC-b"]) /\
  lints_text (mkLints [z_lint (s "no") (Some 3)] []) = join [10%N]
    [s "  ----- ERRORS -----:"; s "["; s "  {"; s "    ""level"": ""Error"","; s "    ""path"": ""a.md"","; s "    ""line"": 3,"; s "    ""category"": ""LoadPaths"","; s "    ""msg"": ""no"""; s "  }"; s "]"; [];
     s "  ----- WARNINGS -----:"; s "[]"; []].
Proof.
  split; [|vm_compute; reflexivity].
  assert (X : match z_ls (s "json") with Ok (OJson l) => Some (map (fun a => n_raw (a_name a)) l) | _ => None end = Some [s "REQ-a"; s "req-B"; s "SPC-b"]) by (vm_compute; reflexivity).
  destruct (z_ls (s "json")) as [[l| |]| |]; try discriminate X. exists l. split; [reflexivity|]. injection X as ->. reflexivity.
Qed.
Print Assumptions C88_answer.
Print Assumptions C88_to_ser.
Print Assumptions C88_request.
Print Assumptions C88_form.
Print Assumptions C88_any.
Print Assumptions C88_no_number.
Print Assumptions C89_list.
Print Assumptions C89_lints.
