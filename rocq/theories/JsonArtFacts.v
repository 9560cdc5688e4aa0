(** Artifact files in JSON are read as what they say, and say what they were written from. *)
From Coq Require Import Lia.
From Verif Require Import Base BaseFacts Name NameFacts Expand RawNames RawNamesFacts Artifact SpecLinks LinkFacts Stored ProjectFacts Markdown SpecMarkdown MarkdownFacts Load LoadFacts Modify SpecModify
  Json SpecJson JsonFacts JsonArt SpecJsonArt.
Open Scope nat_scope.

Lemma bind_ok {A B} (r : res A) (f : A -> res B) b : res_bind r f = Ok b <-> exists a, r = Ok a /\ f a = Ok b.
Proof. destruct r as [a| |]; cbn [res_bind]; split; try discriminate; try (intros (a' & E & _); discriminate E); [intros E; eauto|]. intros (a' & E & Ef). injection E as <-. exact Ef. Qed.

Lemma opt_iff v o : opt_de v = Ok o <-> maybe_text v o.
Proof.
  unfold maybe_text. split.
  - destruct v; try discriminate; intros E; injection E as <-; [now left|right; eauto].
  - intros [[-> ->]|(x & -> & ->)]; reflexivity.
Qed.
Lemma text_iff v o : text_de v = Ok o <-> cleaned v o.
Proof.
  unfold text_de, cleaned. rewrite bind_ok. split; intros (a & E & X); exists a; rewrite opt_iff in *; split; auto; congruence.
Qed.
Lemma extend_app out a b : is_extend name_eqb out (a ++ b) = is_extend name_eqb (is_extend name_eqb out a) b.
Proof. unfold is_extend. apply fold_left_app. Qed.
Lemma seq_iff l : forall out ok o, seq_de out l ok = Ok o <-> ok = true /\ exists xs ls, l = map JStr xs /\ Forall2 (fun x l => expand_names x = Ok l) xs ls /\ o = is_extend name_eqb out (concat ls).
Proof.
  induction l as [|v l IH]; intros out ok o.
  - cbn [seq_de]. split.
    + destruct ok; [|discriminate]. intros E. injection E as <-. split; auto. exists [], []. repeat split. constructor.
    + intros (-> & xs & ls & E & F & ->). symmetry in E. apply map_eq_nil in E as ->. inversion F; subst. reflexivity.
  - split.
    + destruct v as [| | |x| | |]; try discriminate. cbn [seq_de]. rewrite bind_ok. intros (ns & En & E). apply IH in E as (-> & xs & ls & -> & F & ->). split; auto. exists (x :: xs), (ns :: ls). split; auto. split; [now constructor|]. cbn [concat]. now rewrite extend_app.
    + intros (-> & xs & ls & E & F & ->). destruct xs as [|x xs]; [discriminate E|]. injection E as -> ->. inversion F as [|x0 ns xs0 ls0 En F0]; subst. cbn [seq_de]. rewrite En. cbn [res_bind]. apply IH. split; auto. exists xs, ls0. split; auto. split; auto. cbn [concat]. now rewrite extend_app.
Qed.
Lemma partof_iff v o : partof_de v = Ok o <-> links v o.
Proof.
  unfold links. split.
  - destruct v as [| | |x|l ok| |]; try discriminate; cbn [partof_de]; [intros E; injection E as <-; now left| |]; rewrite bind_ok; intros (a & E & X); injection X as <-.
    + right. left. eauto.
    + right. right. apply seq_iff in E as (-> & xs & ls & -> & F & ->). exists xs, ls. auto.
  - intros [[-> ->]|[(x & l & -> & E & ->)|(xs & ls & -> & F & ->)]]; [reflexivity|cbn [partof_de]; now rewrite E|]. cbn [partof_de]. apply bind_ok. eexists. split; [apply seq_iff; split; auto; exists xs, ls; split; [reflexivity|split; [exact F|reflexivity]]|reflexivity].
Qed.

Lemma field_cons {A} k' v fs k (rel : jval -> option A -> Prop) o : field ((k', v) :: fs) k rel o <-> if str_eqb k' k then ~ In k (map fst fs) /\ rel v o else field fs k rel o.
Proof.
  destruct (str_eqb k' k) eqn:E.
  - apply str_eqb_eq in E as ->. split.
    + intros [[N _]|(a & u & b & Ef & Na & Nb & R)]; [exfalso; apply N; now left|]. destruct a as [|[a1 a2] a]; [injection Ef as -> ->; auto|]. injection Ef as <- <- _. exfalso. apply Na. now left.
    + intros [N R]. right. exists [], v, fs. repeat split; auto.
  - assert (Nk : k' <> k) by (intros ->; rewrite (proj2 (str_eqb_eq k k) eq_refl) in E; discriminate E). split.
    + intros [[N ->]|(a & u & b & Ef & Na & Nb & R)]; [left; split; auto; intros H; apply N; now right|]. destruct a as [|[a1 a2] a]; [injection Ef as -> _ _; congruence|]. injection Ef as <- <- ->. right. exists a, u, b. repeat split; auto. intros H. apply Na. now right.
    + intros [[N ->]|(a & u & b & -> & Na & Nb & R)]; [left; split; auto; intros [H|H]; [now apply Nk|auto]|]. right. exists ((k', v) :: a), u, b. repeat split; auto. intros [H|H]; [now apply Nk|auto].
Qed.
Definition fld {A} (st : option (option A)) (fs : list (str * jval)) (k : str) (rel : jval -> option A -> Prop) (o : option A) : Prop :=
  match st with Some x => ~ In k (map fst fs) /\ o = x | None => field fs k rel o end.
Lemma fld_other {A} (st : option (option A)) k' v fs k rel o : str_eqb k' k = false -> fld st ((k', v) :: fs) k rel o <-> fld st fs k rel o.
Proof.
  intros E. destruct st as [x|]; cbn [fld]; [|rewrite field_cons, E; tauto]. cbn [map fst In]. split; intros [N ->]; split; auto. intros [->|H]; [|auto]. rewrite (proj2 (str_eqb_eq k k) eq_refl) in E. discriminate E.
Qed.
Lemma fields_iff l : forall d p t ok r, fields_de d p t l ok = Ok r <->
  ok = true /\ fld d l (s "done") maybe_text (raw_done r) /\ fld p l (s "partof") links (raw_partof r) /\ fld t l (s "text") cleaned (raw_text r).
Proof.
  induction l as [|[k v] l IH]; intros d p t ok r.
  - cbn [fields_de]. assert (F : forall A (st : option (option A)) k rel o, fld st [] k rel o <-> o = match st with Some x => x | None => None end).
    { intros A st k rel o. destruct st as [x|]; cbn [fld]; [intuition|]. unfold field. split; [intros [[_ E]|(a & v & b & E & _)]; auto; destruct a; discriminate E|left; auto]. }
    rewrite !F. destruct ok; [|split; [discriminate|intros [E _]; discriminate E]]. split; [intros E; injection E as <-; auto|]. intros (_ & E1 & E2 & E3). destruct r. cbn in *. congruence.
  - cbn [fields_de].
    destruct (str_eqb k (s "done")) eqn:K1.
    { apply str_eqb_eq in K1 as ->. rewrite (fld_other p (s "done") v l (s "partof")), (fld_other t (s "done") v l (s "text")) by reflexivity. destruct d as [x|].
      - split; [discriminate|]. intros (_ & [N _] & _). exfalso. apply N. now left.
      - rewrite bind_ok. cbn [fld]. rewrite field_cons. cbn [s str_eqb]. rewrite (proj2 (str_eqb_eq (s "done") (s "done")) eq_refl). split.
        + intros (a & Ea & E). apply opt_iff in Ea. apply IH in E as (-> & [N ->] & E2 & E3). auto.
        + intros (-> & [N R] & E2 & E3). exists (raw_done r). split; [now apply opt_iff|]. apply IH. cbn [fld]. auto. }
    destruct (str_eqb k (s "partof")) eqn:K2.
    { apply str_eqb_eq in K2 as ->. rewrite (fld_other d (s "partof") v l (s "done")), (fld_other t (s "partof") v l (s "text")) by reflexivity. destruct p as [x|].
      - split; [discriminate|]. intros (_ & _ & [N _] & _). exfalso. apply N. now left.
      - rewrite bind_ok. cbn [fld]. rewrite field_cons. rewrite (proj2 (str_eqb_eq (s "partof") (s "partof")) eq_refl). split.
        + intros (a & Ea & E). apply partof_iff in Ea. apply IH in E as (-> & E1 & [N ->] & E3). auto.
        + intros (-> & E1 & [N R] & E3). exists (raw_partof r). split; [now apply partof_iff|]. apply IH. cbn [fld]. auto. }
    destruct (str_eqb k (s "text")) eqn:K3.
    { apply str_eqb_eq in K3 as ->. rewrite (fld_other d (s "text") v l (s "done")), (fld_other p (s "text") v l (s "partof")) by reflexivity. destruct t as [x|].
      - split; [discriminate|]. intros (_ & _ & _ & [N _]). exfalso. apply N. now left.
      - rewrite bind_ok. cbn [fld]. rewrite field_cons. rewrite (proj2 (str_eqb_eq (s "text") (s "text")) eq_refl). split.
        + intros (a & Ea & E). apply text_iff in Ea. apply IH in E as (-> & E1 & E2 & [N ->]). auto.
        + intros (-> & E1 & E2 & [N R]). exists (raw_text r). split; [now apply text_iff|]. apply IH. cbn [fld]. auto. }
    rewrite !fld_other by auto. apply IH.
Qed.
Lemma raw_iff v r : raw_de v = Ok r <-> says_art v r.
Proof.
  unfold says_art. split.
  - destruct v as [| | | |l ok|l ok|]; try discriminate; cbn [raw_de].
    + destruct l as [|a l]; [discriminate|]. rewrite bind_ok. intros (d & Ed & E). destruct l as [|b l]; [discriminate E|]. apply bind_ok in E as (p & Ep & E). destruct l as [|c l]; [discriminate E|]. apply bind_ok in E as (t & Et & E).
      destruct l; [|discriminate E]. destruct ok; [|discriminate E]. injection E as <-. right. exists a, b, c. split; auto. rewrite opt_iff in Ed. rewrite partof_iff in Ep. rewrite text_iff in Et. auto.
    + intros E. apply fields_iff in E as (-> & E1 & E2 & E3). left. exists l. auto.
  - intros [(fs & -> & E1 & E2 & E3)|(a & b & c & -> & E1 & E2 & E3)]; cbn [raw_de].
    + apply fields_iff. auto.
    + rewrite <- opt_iff in E1. rewrite <- partof_iff in E2. rewrite <- text_iff in E3. rewrite E1. cbn [res_bind]. rewrite E2. cbn [res_bind]. rewrite E3. cbn [res_bind]. now destruct r.
Qed.
Lemma arts_iff l : forall out ok o, arts_de out l ok = Ok o <->
  ok = true /\ exists es, Forall2 (fun f e => name_from_str (fst f) = Ok (fst e) /\ says_art (snd f) (snd e)) l es /\ o = im_extend name_eqb out es.
Proof.
  induction l as [|[k v] l IH]; intros out ok o.
  - cbn [arts_de]. split; [destruct ok; [|discriminate]; intros E; injection E as <-; split; auto; exists []; split; constructor|]. intros (-> & es & F & ->). inversion F; subst. reflexivity.
  - cbn [arts_de]. rewrite bind_ok. split.
    + intros (n & En & E). apply bind_ok in E as (r & Er & E). apply raw_iff in Er. apply IH in E as (-> & es & F & ->). split; auto. exists ((n, r) :: es). split; [constructor; auto|reflexivity].
    + intros (-> & es & F & ->). inversion F as [|f [n r] l0 es0 [En Er] F0]; subst. cbn [fst snd] in *. exists n. split; auto. apply bind_ok. exists r. split; [now apply raw_iff|]. apply IH. split; auto. exists es0. auto.
Qed.
Theorem parse_iff x l : json_parse x = Ok l <-> says x l.
Proof.
  unfold json_parse, says. split.
  - destruct (r_doc x) as [v full] eqn:D. destruct v as [| | | | |fs ok|]; try discriminate. rewrite bind_ok. intros (o & Eo & E). destruct full; [|discriminate E]. injection E as <-. apply doc_iff in D.
    apply arts_iff in Eo as (-> & es & F & ->). exists fs, es. auto.
  - intros (fs & es & D & F & ->). apply doc_iff in D. rewrite D. apply bind_ok. exists (im_collect name_eqb es). split; auto. apply arts_iff. split; auto. exists es. auto.
Qed.

(** ** What is written *)
Lemma json_parser_ok : parser_ok json_parse.
Proof.
  intros x l E. apply parse_iff in E as (fs & es & _ & F & ->). unfold im_collect, im_extend.
  assert (We : Forall raw_wf es).
  { clear x. induction F as [|f e fs es [En Sa] _ IH]; constructor; auto. split; [eapply (proj1 (from_str_wf _ _ En))|]. intros p Ep.
    assert (Lk : forall v, links v (Some p) -> name_set p).
    { intros v [[_ X]|[(y & l & _ & X & Y)|(xs & ls & _ & X & Y)]]; [discriminate X|injection Y as ->; eapply (names_de_set (VStr y)); eauto|].
      injection Y as ->. apply (names_de_set (VSeq xs)). cbn [names_de]. clear -X. unfold is_collect. generalize (@nil name). induction X as [|x l xs ls E X IH]; intros out; [reflexivity|]. cbn [names_de_seq concat]. rewrite E. cbn [res_bind]. rewrite IH. now rewrite extend_app. }
    destruct Sa as [(gs & _ & _ & X & _)|(a & b & c & _ & _ & X & _)]; rewrite Ep in X; eauto.
    destruct X as [[_ X]|(a & v & b & _ & _ & _ & X)]; [discriminate X|eauto]. }
  clear F. assert (W0 : Forall raw_wf (@nil (name * art_raw))) by constructor. revert W0. generalize (@nil (name * art_raw)). induction We as [|[n r] es Wr _ IH]; intros out W0; [exact W0|]. cbn [fold_left fst snd]. apply IH.
  clear IH. induction out as [|[n' r'] out IHo]; cbn [im_insert]; [constructor; auto|]. inversion W0 as [|x0 l0 [Wn Wp] Wo]; subst. destruct (name_eqb n' n); constructor; auto; split; auto. exact (proj2 Wr).
Qed.

(** The document of a list of entries. *)
Definition ser_val (e : name * art_raw) : str * jval :=
  (n_raw (fst e), JObj [(s "done", j_opt (raw_done (snd e))); (s "partof", match raw_partof (snd e) with None => JNull | Some l => j_names (pval l) end); (s "text", j_opt (raw_text (snd e)))] true).
Lemma clean_trim t : clean_text t = t -> clean_text (trim_end t) = t.
Proof. intros E. rewrite <- E at 2. unfold clean_text. now rewrite trim_end_idem. Qed.
Lemma ser_form l : Forall entry_form l -> arts_ser l = Ok (JObj (map ser_val l) true).
Proof.
  intros F. unfold arts_ser. replace (res_map _ l) with (Ok (map ser_val l)); [reflexivity|]. induction F as [|[n [d p t]] l [_ Pf Tf] _ IH]; [reflexivity|]. cbn [res_map map fst snd]. rewrite <- IH. unfold raw_ser, ser_val. cbn [raw_done raw_partof raw_text fst snd] in *.
  assert (Et : option_map (fun t => clean_text (trim_end t)) t = t) by (destruct t as [t|]; [cbn [option_map]; rewrite clean_trim; auto; now apply Tf|reflexivity]). rewrite Et.
  destruct p as [p|]; [|reflexivity]. destruct (Pf p eq_refl) as [Np _]. destruct p as [|a [|b p]]; [congruence|reflexivity|reflexivity].
Qed.
Lemma names_whole v : whole (j_names v) /\ depth (j_names v) <= 1.
Proof.
  destruct v as [x|l]; cbn [j_names depth]; [split; [constructor|lia]|]. split.
  - constructor. intros v Hv. apply in_map_iff in Hv as (x & <- & _). constructor.
  - apply le_n_S. induction l as [|x l IH]; cbn [map fold_right depth]; [lia|]. lia.
Qed.
Lemma ser_whole l : whole (JObj (map ser_val l) true) /\ depth (JObj (map ser_val l) true) <= 3.
Proof.
  assert (P : forall e, whole (snd (ser_val e)) /\ depth (snd (ser_val e)) <= 2).
  { intros [n [d p t]]. unfold ser_val. cbn [snd fst raw_done raw_partof raw_text].
    assert (O : forall o, whole (j_opt o) /\ depth (j_opt o) = 0) by (intros [o|]; split; constructor).
    set (q := match p with Some l => j_names (pval l) | None => JNull end). assert (Q : whole q /\ depth q <= 1) by (subst q; destruct p; [apply names_whole|split; [constructor|cbn; lia]]).
    destruct (O d) as [D1 D2], (O t) as [T1 T2], Q as [Q1 Q2]. split.
    - constructor. intros k v [E|[E|[E|[]]]]; injection E as <- <-; auto.
    - cbn [depth map snd fold_right]. lia. }
  split.
  - constructor. intros k v Hv. apply in_map_iff in Hv as (e & E & _). pose proof (proj1 (P e)) as X. rewrite E in X. exact X.
  - cbn [depth]. apply le_n_S. induction l as [|e l IH]; cbn [map fold_right]; [lia|]. pose proof (proj2 (P e)). lia.
Qed.
Lemma store_doc l : Forall entry_form l -> jdoc (json_store l) (JObj (map ser_val l) true).
Proof. intros F. unfold json_store. rewrite (ser_form l F). apply doc_iff. destruct (ser_whole l) as [A B]. apply read_written; auto. lia. Qed.
Lemma maybe_opt o : maybe_text (j_opt o) o.
Proof. destruct o as [x|]; [right; exists x; split; reflexivity|left; split; reflexivity]. Qed.
Lemma links_pval ps : ps <> [] -> name_set ps -> links (j_names (pval ps)) (Some (isort name_leb ps)).
Proof.
  intros N S. apply partof_iff. pose proof (pval_read ps N S) as E. destruct ps as [|a [|b ps]]; [congruence| |].
  - cbn [pval j_names partof_de names_de] in *. rewrite E. reflexivity.
  - set (L := isort name_leb (a :: b :: ps)) in *. change (pval (a :: b :: ps)) with (VSeq (map n_raw L)) in *. cbn [j_names partof_de names_de] in *. apply bind_ok. exists L. split; auto. revert E. generalize (@nil name) as out. generalize L at 2 4 as o. generalize (map n_raw L) as l. clear. induction l as [|x l IH]; intros o out E; [exact E|]. cbn [names_de_seq map seq_de] in *. destruct (expand_names x) as [ns| |]; try discriminate E. cbn [res_bind] in *. now apply IH.
Qed.
Lemma one_field {A} (a b : list (str * jval)) k v (rel : jval -> option A -> Prop) o : rel v o -> forallb (fun e => negb (str_eqb (fst e) k)) a = true -> forallb (fun e => negb (str_eqb (fst e) k)) b = true -> field (a ++ (k, v) :: b) k rel o.
Proof.
  assert (N : forall l : list (str * jval), forallb (fun e => negb (str_eqb (fst e) k)) l = true -> ~ In k (map fst l)).
  { intros l E I. apply in_map_iff in I as (e & <- & I). rewrite forallb_forall in E. specialize (E e I). rewrite (proj2 (str_eqb_eq (fst e) (fst e)) eq_refl) in E. discriminate E. }
  intros R Ea Eb. right. exists a, v, b. repeat split; auto.
Qed.
Lemma val_says e : entry_form e -> says_art (snd (ser_val e)) (snd (norm e)).
Proof.
  intros [_ Pf Tf]. destruct e as [n [d p t]]. unfold ser_val, norm. cbn [fst snd raw_done raw_partof raw_text] in *. left. eexists. split; [reflexivity|]. cbn [raw_done raw_partof raw_text].
  split; [|split].
  - apply (one_field [] _ (s "done")); [apply maybe_opt|reflexivity|reflexivity].
  - apply (one_field [_] [_] (s "partof")); [|reflexivity|reflexivity]. destruct p as [p|]; [|left; auto]. destruct (Pf p eq_refl). now apply links_pval.
  - apply (one_field [_; _] [] (s "text")); [|reflexivity|reflexivity]. exists t. split; [apply maybe_opt|]. destruct t as [t|]; [|reflexivity]. cbn [option_map]. f_equal. symmetry. now apply Tf.
Qed.
Lemma store_says l : Forall entry_form l -> NoDup (map (fun e => nk (fst e)) l) -> says (json_store l) (map norm l).
Proof.
  intros F ND. exists (map ser_val l), (map norm l). split; [now apply store_doc|]. split.
  - induction F as [|e l Fe _ IH]; [constructor|]. inversion ND; subst. constructor; [|auto]. split; [apply Fe|now apply val_says].
  - symmetry. apply (collect_distinct name_eqb nk name_eqb_iff). unfold pkeys. rewrite map_map. exact ND.
Qed.
Lemma json_codec_ok : codec_ok json_store json_parse.
Proof.
  intros arts file W D Ha. exists (map norm (map raw_entry arts)). split.
  - apply parse_iff, store_says.
    + apply Forall_map, Forall_forall. intros a Hin. rewrite Forall_forall in W. apply raw_form; auto. now apply Ha.
    + rewrite map_map. cbn. now apply distinct_nk.
  - rewrite !map_map. rewrite <- (map_id arts) at 2. apply map_ext_in. intros a Hin. destruct (Ha a Hin) as (Hc & Hf). rewrite Forall_forall in W. now apply norm_back; auto.
Qed.
