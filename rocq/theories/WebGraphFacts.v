(** Facts about the search graph. *)
From Coq Require Import ZArith Lia Permutation Sorted.
From Verif Require Import Api Render SpecRender RenderFacts SpecExport ExportFacts DocFacts ReadyFacts WebGraph SpecWebGraph.
From Verif Require Import Base BaseFacts Regex Name SpecName NameFacts SubFacts RawNamesFacts Artifact SpecGraph SpecLinks BuildFacts LinkFacts ProjectFacts CompletionThms Stored Lint SpecLint LintFacts LintThms Source SpecJoin JoinThms
  Pool PoolFacts Load LoadFacts SpecLoad CheckFacts ReadThms RowFacts Topo PureFacts.
Open Scope nat_scope.

(** The two directions of the links agree, where the upper end exists. *)
Definition two_way_in {M H} (p : project M H) : Prop :=
  (forall n a q, In (n, a) (pr_arts p) -> In q (a_parts a) -> link p (n_key n) (n_key q)) /\
  (forall n a k, In (n, a) (pr_arts p) -> link p (n_key n) k -> exists q, In q (a_parts a) /\ n_key q = k).

Section Inverse.
  Variable M : num.
  Variable topo : graph -> option (list nat).
  Variable TC : topo_ok topo.
  Variable H : Type.
  Variable hash_im : art_im -> H.
  Variable path_str : path -> str.
  Lemma built_two_way arts code out prefix sp url : Forall im_wf arts -> distinct arts ->
    build M topo H hash_im arts code = Ok out -> two_way_in (project_sort M H (mkProject out code prefix sp url)).
  Proof.
    intros W D B. set (p := project_sort M H _).
    assert (E : forall n a, In (n, a) (pr_arts p) -> exists a0, In (n, a0) out /\ a = art_sort M H a0).
    { intros n a Hin. cbn [project_sort pr_arts p] in Hin. apply in_map_iff in Hin as ([m a0] & X & Hin). injection X as -> <-. exists a0. split; [|reflexivity]. now apply isort_in in Hin. }
    assert (E' : forall n a0, In (n, a0) out -> In (n, art_sort M H a0) (pr_arts p)).
    { intros n a0 Hin. cbn [project_sort pr_arts p]. apply in_map_iff. exists (n, a0). split; [reflexivity|]. now apply isort_in. }
    pose proof (build_out M topo H hash_im TC arts code out W B) as O.
    pose proof (parts_inverse M topo H hash_im TC arts code out W B) as PI. split.
    - intros n a q Hin Hq. destruct (E n a Hin) as (a0 & H0 & ->). cbn [art_sort a_parts] in Hq. apply isort_in in Hq.
      destruct (oo_parts _ O n a0 q H0 Hq) as (_ & m & b & Hb & Ek).
      destruct (proj1 (PI n a0 m b H0 Hb)) as (r & Hr & Er); [exists q; auto|].
      exists m, (art_sort M H b), r. split; [auto|]. split; [cbn [art_sort a_partof]; now apply isort_in|auto].
    - intros n a k Hin (m & b & q & Hb & Hq & E1 & ->). destruct (E n a Hin) as (a0 & H0 & ->). destruct (E m b Hb) as (b0 & Hb0 & ->). cbn [art_sort a_partof] in Hq. apply isort_in in Hq.
      destruct (proj2 (PI n a0 m b0 H0 Hb0)) as (r & Hr & Er); [exists q; auto|].
      exists r. split; [cbn [art_sort a_parts]; now apply isort_in|auto].
  Qed.

  Variable yaml : str -> option (option str * option RawNames.names_val).
  Variables parse_toml parse_json : str -> res (list (name * art_raw)).
  Variable PO : parser_ok parse_toml.
  Variable PJ : parser_ok parse_json.
  Variable parse_msg : path -> str -> str.
  Variable prefix : str.
  Variable settings_path : path.
  Variable url_error : option str.
  Lemma loads_two_way n afs cfs c p : walk_lints_ok afs -> walk_lints_ok cfs ->
    loads path_str yaml parse_toml parse_json parse_msg prefix M topo H hash_im settings_path url_error n afs cfs (Ok (inl (c, p))) -> two_way_in p.
  Proof.
    intros W1 W2 (arts & refs & la & lc & arrived & R1 & R2 & P & E).
    pose proof (run_arts_wf path_str yaml parse_toml parse_json parse_msg prefix PO PJ n afs arts la R1) as Wa.
    pose proof (run_refs_wf path_str 4 cfs refs lc R2) as Wr.
    assert (AE : Forall (fun x => is_error x = true) arrived).
    { eapply Permutation_Forall; [apply Permutation_sym, P|]. apply Forall_app. split; [eapply ref_lints_error; eauto|]. apply Forall_app. split; [eapply art_lints_error; eauto|apply collect_error]. }
    destruct (finish_loaded M topo TC H hash_im path_str prefix settings_path url_error arrived arts refs la lc c p Wa Wr AE P (eq_sym E)) as ((_ & _ & D & NR) & _ & _ & out & B & ->).
    now apply (built_two_way arts _ out).
  Qed.
End Inverse.

Lemma nodup_filter_map {A B} (f : A -> B) g l : NoDup (map f l) -> NoDup (map f (filter g l)).
Proof.
  induction l as [|x l IH]; cbn [map filter]; intros N; [constructor|]. inversion N as [|? ? N1 N2]; subst. destruct (g x); [|auto]. cbn [map]. constructor; [|auto].
  intros X. apply N1. apply in_map_iff in X as (y & E & Hy). apply filter_In in Hy as [Hy _]. rewrite <- E. now apply in_map.
Qed.

Section Page.
  Context {M : num} {H : Type}.
  Variable reported : F M -> Z.
  Variable p : project M H.
  Variable R : ready p.
  Variable T : two_way_in p.
  Notation artifact := (artifact M H).
  Let W : arts_wf (pr_arts p) := rd_arts p R.

  Definition in_focus (fs : list (name * artifact)) (q : name) : bool := im_mem name_eqb q fs.
  Definition nodes_at (fs : list (name * artifact)) (e : name * artifact) : list (name * bool) :=
    (fst e, true) :: map (fun q => (q, false)) (filter (fun q => negb (in_focus fs q)) (a_parts (snd e) ++ a_partof (snd e))).
  Notation node_of := (fun (e : name * bool) x => ref_node reported p (snd e) (n_raw (fst e)) [] x).

  Lemma node_one f q : name_wf q -> exists o, name_dot reported p q f = Ok o /\ ref_node reported p f (n_raw q) [] o.
  Proof. intros Wq. destruct (fullname_ok reported p W f q [] Wq (or_introl eq_refl)) as (o & E & U). exists o. split; [exact E|now apply U]. Qed.
  Lemma around_ok fs l : Forall name_wf l -> exists os ds, around reported p fs l = Ok os /\
    Forall2 node_of (map (fun q => (q, false)) (filter (fun q => negb (in_focus fs q)) l)) ds /\ concat os = concat ds.
  Proof.
    induction 1 as [|q l Wq Wl IH]; [exists [], []; repeat split; constructor|]. destruct IH as (os & ds & E & F & C).
    unfold around in *. cbn [res_map filter]. unfold in_focus at 1. destruct (im_mem name_eqb q fs) eqn:Eq; cbn [negb res_bind].
    - rewrite E. exists ([] :: os), ds. split; [reflexivity|]. split; [exact F|exact C].
    - destruct (node_one false q Wq) as (o & -> & U). cbn [res_bind]. rewrite E. exists (o :: os), (o :: ds). split; [reflexivity|]. cbn [map]. split; [constructor; auto|]. cbn [concat]. now rewrite C.
  Qed.
  Lemma focus_ok fs n a : In (n, a) (pr_arts p) -> exists o ds, focus_dot reported p fs (n, a) = Ok o /\ Forall2 node_of (nodes_at fs (n, a)) ds /\ o = concat ds.
  Proof.
    intros Hin. unfold focus_dot, nodes_at. cbn [fst snd]. destruct (node_one true n (aw_names _ W n a Hin)) as (o & -> & U). cbn [res_bind].
    destruct (around_ok fs (a_parts a)) as (o1 & d1 & -> & F1 & C1); [apply Forall_forall; intros q Hq; apply (rd_links p R n a q Hin); auto|]. cbn [res_bind].
    destruct (around_ok fs (a_partof a)) as (o2 & d2 & -> & F2 & C2); [apply Forall_forall; intros q Hq; apply (rd_links p R n a q Hin); auto|]. cbn [res_bind].
    exists (o ++ concat o1 ++ concat o2), (o :: d1 ++ d2). split; [reflexivity|]. split; [constructor; [exact U|]|].
    - rewrite filter_app, map_app. now apply Forall2_app.
    - cbn [concat]. now rewrite concat_app, C1, C2.
  Qed.
  Lemma all_ok fs l : incl l (pr_arts p) -> exists os ds, res_map (focus_dot reported p fs) l = Ok os /\ Forall2 node_of (flat_map (nodes_at fs) l) ds /\ concat os = concat ds.
  Proof.
    induction l as [|[n a] l IH]; intros I; [exists [], []; repeat split; constructor|].
    destruct IH as (os & ds & E & F & C); [intros x Hx; apply I; now right|]. destruct (focus_ok fs n a) as (o & d & Eo & Fo & ->); [apply I; now left|].
    cbn [res_map]. rewrite Eo. cbn [res_bind]. rewrite E. exists (concat d :: os), (d ++ ds). split; [reflexivity|]. cbn [flat_map]. split; [now apply Forall2_app|]. cbn [concat]. now rewrite C, concat_app.
  Qed.

  Variable re : str -> bool.
  Variable fs : list (name * artifact).
  Variable Pf : Permutation (focus_of p re) fs.
  Lemma fs_found n a : In (n, a) fs <-> found p re n a.
  Proof.
    unfold found. split.
    - intros Hin. apply (Permutation_in _ (Permutation_sym Pf)) in Hin. now apply filter_In in Hin.
    - intros [Hin E]. apply (Permutation_in _ Pf). apply filter_In. auto.
  Qed.
  Lemma fs_incl : incl fs (pr_arts p).
  Proof. intros [n a] Hin. now apply fs_found in Hin as [Hin _]. Qed.
  Lemma focus_iff q : name_wf q -> in_focus fs q = true <-> found_key p re (n_key q).
  Proof.
    intros Wq. unfold in_focus, im_mem. assert (E : (if im_get name_eqb q fs then true else false) = true <-> In (nk q) (map (fun e : name * artifact => nk (fst e)) fs)).
    { rewrite <- (get_some_iff name_eqb nk name_eqb_iff fs q). destruct (im_get name_eqb q fs) as [a|]; split; try discriminate; eauto. intros (v & X). discriminate X. }
    etransitivity; [exact E|]. rewrite in_map_iff. split.
    - intros ([m a] & Em & Hm). cbn [fst] in Em. apply fs_found in Hm. exists m, a. split; [exact Hm|]. unfold nk in Em. congruence.
    - intros (m & a & F & Ek). exists (m, a). split; [|now apply fs_found]. cbn [fst]. apply name_eqb_iff, name_eqb_key; auto. destruct F as [F _]. exact (aw_names _ W m a F).
  Qed.
  Lemma links_wf n a q : In (n, a) fs -> In q (a_parts a ++ a_partof a) -> name_wf q.
  Proof. intros Hin Hq. apply in_app_iff in Hq. apply (rd_links p R n a q (fs_incl _ Hin)). tauto. Qed.
  Lemma link_around n a q : In (n, a) fs -> In q (a_parts a ++ a_partof a) -> link p (n_key q) (n_key n) \/ link p (n_key n) (n_key q).
  Proof.
    intros Hin Hq. apply fs_incl in Hin. apply in_app_iff in Hq as [Hq|Hq].
    - right. now apply (proj1 T n a q).
    - left. exists n, a, q. auto.
  Qed.
  Lemma around_link n a k : In (n, a) fs -> link p k (n_key n) \/ link p (n_key n) k -> exists q, In q (a_parts a ++ a_partof a) /\ n_key q = k.
  Proof.
    intros Hin [(m & b & q & Hm & Hq & -> & E)|L]; apply fs_incl in Hin.
    - exists q. split; [|reflexivity]. apply in_app_iff. right. assert (X : (m, b) = (n, a)) by (apply (nodup_same (fun e : name * artifact => n_key (fst e)) (pr_arts p)); auto; exact (aw_nodup _ W)). congruence.
    - destruct (proj2 T n a k Hin L) as (q & Hq & E). exists q. split; [apply in_app_iff; auto|exact E].
  Qed.
  Lemma key_found k n a : found p re n a -> n_key n = k -> found_key p re k.
  Proof. intros F E. exists n, a. auto. Qed.

  Lemma nodes_in e : In e (flat_map (nodes_at fs) fs) <->
    (exists a, e = (fst e, true) /\ In (fst e, a) fs) \/ (exists n a, e = (fst e, false) /\ In (n, a) fs /\ In (fst e) (a_parts a ++ a_partof a) /\ in_focus fs (fst e) = false).
  Proof.
    rewrite in_flat_map. split.
    - intros ([n a] & Hin & He). unfold nodes_at in He. cbn [fst snd] in He. destruct He as [<-|He]; [left; exists a; auto|].
      apply in_map_iff in He as (q & <- & Hq). apply filter_In in Hq as [Hq N]. apply Bool.negb_true_iff in N. right. exists n, a. auto.
    - intros [(a & -> & Hin)|(n & a & -> & Hin & Hq & N)]; cbn [fst] in *.
      + exists (fst e, a). split; [exact Hin|]. now left.
      + exists (n, a). split; [exact Hin|]. right. apply in_map_iff. exists (fst e). split; [reflexivity|]. apply filter_In. split; [exact Hq|]. now rewrite N.
  Qed.
  Lemma nodes_good : nodes_ok p re (flat_map (nodes_at fs) fs).
  Proof.
    split; [|split; [|split]].
    - intros n. rewrite nodes_in. cbn [fst]. split.
      + intros [(a & _ & Hin)|(m & a & X & _)]; [|discriminate X]. exists a. now apply fs_found.
      + intros (a & F). left. exists a. split; [reflexivity|now apply fs_found].
    - assert (E : forall l, filter snd (flat_map (nodes_at fs) l) = map (fun e => (fst e, true)) l).
      { induction l as [|e l IH]; [reflexivity|]. cbn [flat_map map]. rewrite filter_app, IH. unfold nodes_at. cbn [filter snd app]. f_equal.
        assert (Z : filter snd (map (fun q : name => (q, false)) (filter (fun q => negb (in_focus fs q)) (a_parts (snd e) ++ a_partof (snd e)))) = []); [|now rewrite Z].
        induction (filter (fun q => negb (in_focus fs q)) (a_parts (snd e) ++ a_partof (snd e))) as [|q l' IH']; [reflexivity|exact IH']. }
      rewrite E, map_map. cbn [fst]. eapply Permutation_NoDup; [apply Permutation_map, Pf|]. unfold focus_of. apply nodup_filter_map. exact (aw_nodup _ W).
    - intros q Hq. apply nodes_in in Hq as [(a & X & _)|(n & a & _ & Hin & Hq & N)]; [discriminate X|]. cbn [fst] in *. split.
      + intros F. apply focus_iff in F; [congruence|]. now apply (links_wf n a).
      + exists n, a. split; [now apply fs_found|]. now apply (link_around n a).
    - intros k n a F L. apply fs_found in F as Hin. destruct (around_link n a k Hin L) as (q & Hq & <-). destruct (in_focus fs q) eqn:N.
      + apply focus_iff in N as (m & b & Fm & Em); [|now apply (links_wf n a)]. exists (m, true). split; [|exact Em]. apply nodes_in. left. exists b. split; [reflexivity|]. now apply fs_found.
      + exists (q, false). split; [|reflexivity]. apply nodes_in. right. exists n, a. auto.
  Qed.

  Definition pk (c : name * name) : (ty * str) * (ty * str) := (nk (fst c), nk (snd c)).
  Lemma pair_eqb_iff x y : pair_eqb x y = true <-> pk x = pk y.
  Proof. unfold pair_eqb, pk. rewrite Bool.andb_true_iff, !name_eqb_iff. split; [intros [-> ->]; auto|intros X; exact (conj (f_equal fst X) (f_equal snd X))]. Qed.
  Definition keys (c : name * name) : str * str := (n_key (fst c), n_key (snd c)).
  Lemma pairs_in c : In c (flat_map pairs_of fs) <-> exists n a, In (n, a) fs /\ ((fst c = n /\ In (snd c) (a_parts a)) \/ (snd c = n /\ In (fst c) (a_partof a))).
  Proof.
    rewrite in_flat_map. split.
    - intros ([n a] & Hin & Hc). unfold pairs_of in Hc. cbn [fst snd] in Hc. exists n, a. split; [exact Hin|]. apply in_app_iff in Hc as [Hc|Hc]; apply in_map_iff in Hc as (q & <- & Hq); auto.
    - intros (n & a & Hin & Hc). exists (n, a). split; [exact Hin|]. unfold pairs_of. cbn [fst snd]. apply in_app_iff. destruct c as [x y]. cbn [fst snd] in Hc. destruct Hc as [[-> Hq]|[-> Hq]]; [left|right]; apply in_map_iff; eauto.
  Qed.
  Lemma pairs_wf c : In c (flat_map pairs_of fs) -> name_wf (fst c) /\ name_wf (snd c).
  Proof.
    intros Hc. apply pairs_in in Hc as (n & a & Hin & Hc). assert (Wn : name_wf n) by exact (aw_names _ W n a (fs_incl _ Hin)).
    destruct Hc as [[-> Hq]|[-> Hq]]; split; auto; apply (links_wf n a); auto; apply in_app_iff; auto.
  Qed.
  Variable cs : list (name * name).
  Variable Pc : Permutation (connections fs) cs.
  Lemma arrows_good : arrows_ok p re (map keys cs).
  Proof.
    assert (S : forall c, In c (connections fs) -> In c (flat_map pairs_of fs)).
    { intros c Hc. unfold connections, is_collect in Hc. apply (is_extend_sub pair_eqb) in Hc as [[]|Hc]. exact Hc. }
    split.
    - eapply Permutation_NoDup; [apply Permutation_map, Pc|]. pose proof (is_collect_nodup pair_eqb pk pair_eqb_iff (flat_map pairs_of fs)) as ND. fold (connections fs) in ND.
      revert ND S. generalize (connections fs). induction l as [|c l IH]; intros ND S; [constructor|]. cbn [map] in *. inversion ND as [|? ? N1 N2]; subst. constructor; [|apply IH; [exact N2|intros x Hx; apply S; now right]].
      intros X. apply N1. apply in_map_iff in X as (d & E & Hd). apply in_map_iff. exists d. split; [|exact Hd].
      destruct (pairs_wf c (S c (or_introl eq_refl))) as [C1 C2]. destruct (pairs_wf d (S d (or_intror Hd))) as [D1 D2]. unfold keys in E. injection E as E1 E2.
      unfold pk. f_equal; apply name_eqb_iff, name_eqb_key; auto.
    - intros k1 k2. split.
      + intros Hk. apply in_map_iff in Hk as (c & E & Hc). apply (Permutation_in _ (Permutation_sym Pc)) in Hc. apply S in Hc. unfold keys in E. injection E as <- <-.
        apply pairs_in in Hc as (n & a & Hin & [[En Hq]|[En Hq]]).
        * split; [rewrite En; apply (proj1 T n a _ (fs_incl _ Hin) Hq)|]. left. exists n, a. split; [now apply fs_found|congruence].
        * split; [exists n, a, (fst c); rewrite En; split; [exact (fs_incl _ Hin)|auto]|]. right. exists n, a. split; [now apply fs_found|congruence].
      + intros [L F].
        assert (X : exists c, In c (flat_map pairs_of fs) /\ keys c = (k1, k2)).
        { destruct F as [(n & a & F & <-)|(n & a & F & <-)]; apply fs_found in F.
          - destruct (proj2 T n a k2 (fs_incl _ F) L) as (q & Hq & <-). exists (n, q). split; [|reflexivity]. apply pairs_in. exists n, a. auto.
          - destruct L as (m & b & q & Hm & Hq & -> & E). assert (X : (m, b) = (n, a)) by (apply (nodup_same (fun e : name * artifact => n_key (fst e)) (pr_arts p)); auto; [exact (aw_nodup _ W)|exact (fs_incl _ F)]).
            injection X as -> ->. exists (q, n). split; [|reflexivity]. apply pairs_in. exists n, a. auto. }
        destruct X as (c & Hc & Ec). assert (X : In (pk c) (map pk (connections fs))) by (apply (is_collect_in pair_eqb pk pair_eqb_iff); now apply in_map).
        apply in_map_iff in X as (d & Ed & Hd). apply in_map_iff. exists d. split; [|exact (Permutation_in _ Pc Hd)]. rewrite <- Ec. unfold pk, nk in Ed. unfold keys. congruence.
  Qed.

  Lemma text_good : exists o, graph_text reported p fs cs = Ok o /\ drawn reported p (flat_map (nodes_at fs) fs) (map keys cs) o.
  Proof.
    unfold graph_text. destruct (all_ok fs fs fs_incl) as (os & ds & -> & F & C). cbn [res_bind]. eexists. split; [reflexivity|]. exists ds. split; [exact F|]. rewrite C.
    assert (A : concat (map (fun c : name * name => connect_names_dot (fst c) (snd c)) cs) = concat (map (fun c => arrow (fst c) (snd c)) (map keys cs))).
    { f_equal. rewrite map_map. apply map_ext. intros c. unfold connect_names_dot, arrow, line, keys. cbn [fst snd]. flat. reflexivity. }
    rewrite A. set (X := concat (map _ (map keys cs))). clearbody X. unfold wrap_dot, frame. rewrite !nls_cons by discriminate. rewrite nls_one. unfold indent. cbn [repeat]. flat. reflexivity.
  Qed.
End Page.
