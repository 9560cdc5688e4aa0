(** What is written is read back. *)
From Coq Require Import Permutation Sorted Lia.
From Verif Require Import Base BaseFacts Name SpecName NameFacts RawNamesFacts Artifact Stored Markdown Lint Modify Render SpecExport ExportFacts Json SpecJson JsonFacts JsonArtFacts Web WebSave WireJson SpecWire LsFacts.
Open Scope nat_scope.

Definition kleb (leb : str -> str -> bool) (a b : str * jval) : bool := leb (fst a) (fst b).

(** ** Fields *)
Lemma filter_perm {A} (f : A -> bool) l m : Permutation l m -> Permutation (filter f l) (filter f m).
Proof. induction 1; cbn [filter]; [constructor| | |eapply perm_trans; eauto]. - destruct (f x); auto. - destruct (f x), (f y); auto; constructor. Qed.
Lemma get1_perm l m k : Permutation l m -> get1 l k = get1 m k.
Proof.
  intros P. pose proof (filter_perm (fun e => str_eqb (fst e) k) l m P) as Q. unfold get1. destruct (filter _ l) as [|a [|b x]] eqn:A.
  - apply Permutation_nil in Q. rewrite Q. reflexivity.
  - apply Permutation_length_1_inv in Q. rewrite Q. reflexivity.
  - destruct (filter _ m) as [|a' [|b' y]] eqn:B; [| |reflexivity]; apply Permutation_length in Q; discriminate Q.
Qed.
Lemma get1_arr leb l k : get1 (isort (kleb leb) (map (fun e => (fst e, arrange leb (snd e))) l)) k = match get1 l k with Ok (Some v) => Ok (Some (arrange leb v)) | x => x end.
Proof.
  rewrite <- (get1_perm _ _ k (isort_perm (kleb leb) _)). unfold get1.
  assert (E : filter (fun e => str_eqb (fst e) k) (map (fun e : str * jval => (fst e, arrange leb (snd e))) l) = map (fun e => (fst e, arrange leb (snd e))) (filter (fun e => str_eqb (fst e) k) l)).
  { induction l as [|e l IH]; [reflexivity|]. cbn [map filter fst]. destruct (str_eqb (fst e) k); cbn [map]; now rewrite IH. }
  rewrite E. destruct (filter _ l) as [|a [|b x]]; reflexivity.
Qed.
Lemma need_arr {A} leb l k (d : jval -> res A) v r : get1 l k = Ok (Some v) -> d (arrange leb v) = r -> need (isort (kleb leb) (map (fun e => (fst e, arrange leb (snd e))) l)) k d = r.
Proof. intros G E. unfold need. rewrite get1_arr, G. exact E. Qed.
Lemma may_arr {A} leb l k x (d : jval -> res A) v r : get1 l k = Ok (Some v) -> d (arrange leb v) = r -> may (isort (kleb leb) (map (fun e => (fst e, arrange leb (snd e))) l)) k x d = r.
Proof. intros G E. unfold may. rewrite get1_arr, G. exact E. Qed.
Lemma may_arr_none {A} leb l k x (d : jval -> res A) : get1 l k = Ok None -> may (isort (kleb leb) (map (fun e => (fst e, arrange leb (snd e))) l)) k x d = Ok x.
Proof. intros G. unfold may. rewrite get1_arr, G. reflexivity. Qed.
Lemma arrange_obj leb l : arrange leb (JObj l true) = JObj (isort (kleb leb) (map (fun e => (fst e, arrange leb (snd e))) l)) true.
Proof. reflexivity. Qed.
Ltac obj := rewrite arrange_obj; cbn [r_obj res_bind].
Ltac need_ v E := match goal with |- context [need (isort (kleb ?leb) (map _ ?l)) ?k ?d] => rewrite (need_arr leb l k d v _ (eq_refl _) E) end; cbn [res_bind].
Ltac may_ v E := match goal with |- context [may (isort (kleb ?leb) (map _ ?l)) ?k ?x ?d] => rewrite (may_arr leb l k x d v _ (eq_refl _) E) end; cbn [res_bind].

(** ** Lists and maps *)
Lemma res_map_ok {A B} (f : A -> res B) l m : Forall2 (fun a b => f a = Ok b) l m -> res_map f l = Ok m.
Proof. induction 1 as [|a b l m E F IH]; [reflexivity|]. cbn [res_map]. rewrite E. cbn [res_bind]. rewrite IH. reflexivity. Qed.
Lemma res_map_id {A B} (f : B -> res A) (g : A -> B) (h : B -> B) (l : list A) : (forall x, In x l -> f (h (g x)) = Ok x) -> res_map f (map h (map g l)) = Ok l.
Proof. intros E. apply res_map_ok. induction l as [|x l IH]; cbn [map]; constructor; [apply E; left; reflexivity|apply IH; intros y Hy; apply E; now right]. Qed.
Definition lebof (sorted : bool) : str -> str -> bool := if sorted then str_leb else fun _ _ => true.
Lemma ordered_isort {K A} sorted (raw : K -> str) (l : list (K * A)) : ordered sorted raw l (isort (fun a b => lebof sorted (raw (fst a)) (raw (fst b))) l).
Proof.
  destruct sorted; cbn [ordered lebof].
  - split; [apply isort_perm|]. apply (isort_sorted (fun a b : K * A => str_leb (raw (fst a)) (raw (fst b)))).
    + intros a b. apply str_leb_total.
    + intros a b c. apply str_leb_trans.
  - apply isort_id. induction l as [|x l IH]; constructor; [exact IH|]. apply Forall_forall. reflexivity.
Qed.
Lemma map_arr {K A B C} sorted (eqb : K -> K -> bool) (proj : K -> C) (raw : K -> str) key (d : jval -> res B) (g : A -> jval) (R : A -> B -> Prop) (l : list (K * A)) :
  (forall a b, eqb a b = true <-> proj a = proj b) -> (forall k x, In (k, x) l -> key (raw k) = Ok k) -> (forall k x, In (k, x) l -> exists y, d (arrange (lebof sorted) (g x)) = Ok y /\ R x y) ->
  NoDup (map (fun e => proj (fst e)) l) ->
  exists l', r_map eqb key d (arrange (lebof sorted) (JObj (map (fun e => (raw (fst e), g (snd e))) l) true)) = Ok l' /\ entries sorted raw R l l'.
Proof.
  intros Q Ky Dy ND. set (leb := lebof sorted) in *. set (m := isort (fun a b => leb (raw (fst a)) (raw (fst b))) l).
  assert (E : isort (kleb leb) (map (fun e => (fst e, arrange leb (snd e))) (map (fun e => (raw (fst e), g (snd e))) l)) = map (fun e => (raw (fst e), arrange leb (g (snd e)))) m).
  { rewrite map_map. cbn [fst snd]. apply (isort_mapped (fun e : K * A => (raw (fst e), arrange leb (g (snd e))))). reflexivity. }
  assert (Im : forall e, In e m -> In e l) by (intros e He; now apply isort_in in He).
  assert (X : exists l', res_map (fun e => res_bind (key (fst e)) (fun k => res_bind (d (snd e)) (fun x => Ok (k, x)))) (map (fun e => (raw (fst e), arrange leb (g (snd e)))) m) = Ok l' /\
    Forall2 (fun a b => fst b = fst a /\ R (snd a) (snd b)) m l').
  { clearbody m. clear E. induction m as [|[k x] m IH]; [exists []; split; [reflexivity|constructor]|]. destruct (Dy k x (Im _ (or_introl eq_refl))) as (y & Ey & Ry).
    destruct IH as (l' & E' & F'); [intros e He; apply Im; now right|]. exists ((k, y) :: l'). split; [|constructor; [split; [reflexivity|exact Ry]|exact F']].
    cbn [map res_map fst snd]. rewrite (Ky k x (Im _ (or_introl eq_refl))). cbn [res_bind]. rewrite Ey. cbn [res_bind]. rewrite E'. reflexivity. }
  destruct X as (l' & E' & F'). exists l'. split; [|exists m; split; [apply ordered_isort|exact F']].
  unfold r_map. rewrite arrange_obj, E. cbn [r_obj res_bind]. rewrite E'. cbn [res_bind]. f_equal. apply (collect_distinct eqb proj Q). unfold pkeys.
  assert (Em : map (fun e => proj (fst e)) l' = map (fun e => proj (fst e)) m) by (clear -F'; induction F' as [|a b m l' [Ek _] F IH]; [reflexivity|]; cbn [map]; now rewrite Ek, IH).
  rewrite Em. eapply Permutation_NoDup; [apply Permutation_map, isort_perm|exact ND].
Qed.
Lemma set_arr {A C} leb (eqb : A -> A -> bool) (proj : A -> C) (d : jval -> res A) (g : A -> str) l : (forall a b, eqb a b = true <-> proj a = proj b) ->
  (forall x, In x l -> d (JStr (g x)) = Ok x) -> NoDup (map proj l) -> r_set eqb d (arrange leb (JArr (map (fun x => JStr (g x)) l) true)) = Ok l.
Proof.
  intros Q D ND. unfold r_set. cbn [arrange r_arr res_bind]. rewrite map_map. cbn [arrange].
  rewrite (res_map_ok d (map (fun x => JStr (g x)) l) l) by (clear ND; induction l as [|x l IH]; cbn [map]; constructor; [apply D; left; reflexivity|apply IH; intros y Hy; apply D; now right]).
  cbn [res_bind]. now rewrite (is_collect_distinct eqb proj Q).
Qed.
Lemma nat_arr leb n : r_nat (arrange leb (JNum (nat_str n))) = Ok n.
Proof.
  cbn [arrange r_nat]. destruct (nat_str_decimal n) as (_ & F & V & _).
  assert (E : forallb is_digit (nat_str n) = true) by (apply forallb_forall; intros c Hc; rewrite Forall_forall in F; specialize (F c Hc); unfold is_digit; apply Bool.andb_true_iff; split; apply N.leb_le; lia).
  rewrite E, V. now rewrite Nnat.Nat2N.id.
Qed.
Lemma nodup_inj {A B C} (f : A -> B) (g : A -> C) l : (forall x y, In x l -> In y l -> g x = g y -> f x = f y) -> NoDup (map f l) -> NoDup (map g l).
Proof.
  induction l as [|x l IH]; intros E ND; cbn [map] in *; [constructor|]. inversion ND as [|? ? Hn N2]; subst. constructor.
  - intros Hin. apply in_map_iff in Hin as (y & Ey & Hy). apply Hn. apply in_map_iff. exists y. split; [|exact Hy]. apply E; [now right|now left|exact Ey].
  - apply IH; [|exact N2]. intros a b Ha Hb. apply E; now right.
Qed.

(** ** The parts of a project *)
Section Parts.
  Context {M : num} {H : Type}.
  Variable enc : path -> str.
  Variable id_text : H -> str.
  Variable id_read : str -> res H.
  Variable num_text : F M -> option str.
  Variable num_read : str -> option (F M).
  Variable sorted : bool.
  Local Notation arr := (arrange (lebof sorted)).

  Lemma loc_arr l : exists w, r_loc (arr (e_loc enc l)) = Ok w /\ same_loc enc l w.
  Proof.
    eexists. split; [|reflexivity]. unfold e_loc, r_loc. obj. need_ (JStr (enc (loc_file l))) (eq_refl (Ok (enc (loc_file l)))).
    need_ (JNum (nat_str (loc_line l))) (nat_arr (lebof sorted) (loc_line l)). reflexivity.
  Qed.
  Lemma code_arr c : code_set c -> exists w, r_code (arr (e_code enc c)) = Ok w /\ same_code enc sorted c w.
  Proof.
    intros [S N]. destruct (map_arr sorted sub_eqb s_key s_raw sub_from_str r_loc (e_loc enc) (same_loc enc) (ic_secondary c) sub_eqb_iff) as (l' & El & Sl); [intros k x Hk; exact (S k x Hk)|intros k x _; apply loc_arr|exact N|].
    unfold e_code, r_code. obj. set (pv := match ic_primary c with None => JNull | Some l => e_loc enc l end).
    assert (P : exists o, match arr pv with JNull => Ok None | _ => res_bind (r_loc (arr pv)) (fun l => Ok (Some l)) end = Ok o /\ match ic_primary c, o with None, None => True | Some l, Some x => same_loc enc l x | _, _ => False end).
    { subst pv. destruct (ic_primary c) as [l|]; [|exists None; split; [reflexivity|exact I]]. destruct (loc_arr l) as (w & Ew & Sw). exists (Some w). split; [|exact Sw]. rewrite Ew. reflexivity. }
    destruct P as (o & Eo & So). exists (mkWcode o l'). split; [|split; [exact So|exact Sl]].
    may_ pv Eo. need_ (JObj (map (fun e => (s_raw (fst e), e_loc enc (snd e))) (ic_secondary c)) true) El. reflexivity.
  Qed.
  Lemma impl_arr i : (forall c, i = ICode c -> code_set c) -> exists w, r_impl (arr (e_impl enc i)) = Ok w /\ same_impl enc sorted i w.
  Proof.
    intros W. unfold r_impl. destruct i as [d|c|]; cbn [e_impl]; obj.
    - exists (WDone d). split; [|reflexivity]. need_ (JStr (s "Done")) (eq_refl (Ok (s "Done"))). change (str_eqb (s "Done") (s "Done")) with true. cbn iota. need_ (JStr d) (eq_refl (Ok d)). reflexivity.
    - destruct (code_arr c (W c eq_refl)) as (w & Ew & Sw). exists (WCode w). split; [|exact Sw].
      need_ (JStr (s "Code")) (eq_refl (Ok (s "Code"))). change (str_eqb (s "Code") (s "Done")) with false. change (str_eqb (s "Code") (s "Code")) with true. cbn iota. need_ (e_code enc c) Ew. reflexivity.
    - exists WNot. split; [|exact I]. need_ (JStr (s "NotImpl")) (eq_refl (Ok (s "NotImpl"))). reflexivity.
  Qed.
  Lemma names_arr l : name_set l -> r_set name_eqb r_name (arr (e_names l)) = Ok l.
  Proof. intros [W N]. apply (set_arr _ name_eqb nk); [apply name_eqb_iff| |exact N]. intros x Hx. rewrite Forall_forall in W. exact (W x Hx). Qed.
  Lemma num_arr x t : num_text x = Some t -> num_read t = Some x -> r_num num_read (arr (e_num num_text x)) = Ok x.
  Proof. intros E R. unfold e_num. rewrite E. cbn [arrange r_num]. now rewrite R. Qed.
  Lemma art_arr a : art_set a -> readable id_text id_read num_text num_read a -> exists w, r_art id_read num_read (arr (e_art enc id_text num_text a)) = Ok w /\ same_art enc sorted a w.
  Proof.
    intros (Wn & Wp & Wq & Ws & Ns & Wc) (Ei & (t1 & E1 & _ & R1) & (t2 & E2 & _ & R2)). destruct (impl_arr (a_impl a) Wc) as (w & Ew & Sw).
    exists (mkWart (a_id a) (a_name a) (enc (a_file a)) (a_partof a) (a_parts a) (a_completed a) (a_text a) w (a_subnames a)). split; [|repeat split; exact Sw].
    - unfold e_art, r_art. obj. need_ (JStr (id_text (a_id a))) Ei. need_ (JStr (n_raw (a_name a))) Wn. need_ (JStr (enc (a_file a))) (eq_refl (Ok (enc (a_file a)))).
      need_ (e_names (a_partof a)) (names_arr _ Wp). need_ (e_names (a_parts a)) (names_arr _ Wq).
      assert (EC : (fun v => res_bind (r_obj v) (fun gs => res_bind (need gs (s "spc") (r_num num_read)) (fun x => res_bind (need gs (s "tst") (r_num num_read)) (fun y => Ok (x, y)))))
        (arr (JObj [(s "spc", e_num num_text (fst (a_completed a))); (s "tst", e_num num_text (snd (a_completed a)))] true)) = Ok (a_completed a)).
      { cbv beta. obj. need_ (e_num num_text (fst (a_completed a))) (num_arr _ _ E1 R1). need_ (e_num num_text (snd (a_completed a))) (num_arr _ _ E2 R2). now rewrite <- surjective_pairing. }
      need_ (JObj [(s "spc", e_num num_text (fst (a_completed a))); (s "tst", e_num num_text (snd (a_completed a)))] true) EC.
      need_ (JStr (a_text a)) (eq_refl (Ok (a_text a))). need_ (e_impl enc (a_impl a)) Ew.
      assert (ES : r_set sub_eqb r_sub (arr (JArr (map (fun z => JStr (s_raw z)) (a_subnames a)) true)) = Ok (a_subnames a)) by (apply (set_arr _ sub_eqb s_key); [apply sub_eqb_iff|exact Ws|exact Ns]).
      need_ (JArr (map (fun z => JStr (s_raw z)) (a_subnames a)) true) ES. reflexivity.
  Qed.

  (** ** Settings *)
  Lemma opt_arr o : r_opt_text (arr (j_text o)) = Ok o. Proof. destruct o; reflexivity. Qed.
  Lemma md_name_arr n : r_md_name (arr (e_md_name n)) = Ok n.
  Proof.
    unfold r_md_name. destruct n as [|x]; cbn [e_md_name]; obj.
    - need_ (JStr (s "default")) (eq_refl (Ok (s "default"))). reflexivity.
    - need_ (JStr (s "prefix")) (eq_refl (Ok (s "prefix"))). change (str_eqb (s "prefix") (s "default")) with false. change (str_eqb (s "prefix") (s "prefix")) with true. cbn iota. need_ (JStr x) (eq_refl (Ok x)). reflexivity.
  Qed.
  Lemma attrs_arr n : r_attrs (arr (e_attrs n)) = Ok n.
  Proof.
    unfold r_attrs. destruct n as [|x]; cbn [e_attrs]; obj.
    - need_ (JStr (s "hashes")) (eq_refl (Ok (s "hashes"))). reflexivity.
    - need_ (JStr (s "code")) (eq_refl (Ok (s "code"))). change (str_eqb (s "code") (s "hashes")) with false. change (str_eqb (s "code") (s "code")) with true. cbn iota. may_ (j_text x) (opt_arr x). reflexivity.
  Qed.
  Lemma family_arr n : r_family (arr (e_family n)) = Ok n. Proof. destruct sorted, n; reflexivity. Qed.
  Lemma dot_arr n : r_dot (arr (e_dot n)) = Ok n.
  Proof.
    unfold r_dot. destruct n as [| |x y]; cbn [e_dot]; obj.
    - need_ (JStr (s "ignore")) (eq_refl (Ok (s "ignore"))). reflexivity.
    - need_ (JStr (s "remove_braces")) (eq_refl (Ok (s "remove_braces"))). reflexivity.
    - need_ (JStr (s "replace_braces")) (eq_refl (Ok (s "replace_braces"))). change (str_eqb (s "replace_braces") (s "ignore")) with false. change (str_eqb (s "replace_braces") (s "remove_braces")) with false. change (str_eqb (s "replace_braces") (s "replace_braces")) with true. cbn iota.
      need_ (JStr x) (eq_refl (Ok x)). need_ (JStr y) (eq_refl (Ok y)). reflexivity.
  Qed.
  Lemma paths_arr l : NoDup (map enc l) -> r_texts (arr (e_paths enc l)) = Ok (map enc l).
  Proof.
    intros N. unfold e_paths. replace (map (fun p => JStr (enc p)) l) with (map (fun x => JStr (id x)) (map enc l)) by (rewrite map_map; reflexivity).
    apply (set_arr _ str_eqb id); [intros a b; unfold id; apply str_eqb_eq|reflexivity|]. rewrite map_id. exact N.
  Qed.
  Lemma settings_arr w : paths_once enc w -> r_settings (arr (e_settings enc w)) = Ok (settings_as enc w).
  Proof.
    intros (N1 & N2 & N3 & N4). unfold e_settings, r_settings. obj.
    need_ (JStr (enc (ws_base w))) (eq_refl (Ok (enc (ws_base w)))). need_ (JStr (enc (ws_file w))) (eq_refl (Ok (enc (ws_file w)))).
    need_ (e_paths enc (ws_code w)) (paths_arr _ N1). need_ (e_paths enc (ws_xcode w)) (paths_arr _ N2). need_ (e_paths enc (ws_arts w)) (paths_arr _ N3). need_ (e_paths enc (ws_xarts w)) (paths_arr _ N4).
    may_ (j_text (ws_url w)) (opt_arr (ws_url w)).
    assert (E1 : (fun v => res_bind (r_obj v) (fun fs => may fs (s "md_name") NameDefault r_md_name)) (arr (JObj [(s "md_name", e_md_name (ws_parse w))] true)) = Ok (ws_parse w)).
    { cbv beta. obj. may_ (e_md_name (ws_parse w)) (md_name_arr (ws_parse w)). reflexivity. }
    may_ (JObj [(s "md_name", e_md_name (ws_parse w))] true) E1.
    assert (E2 : (fun v => res_bind (r_obj v) (fun fs => may fs (s "md_attrs") Hashes r_attrs)) (arr (JObj [(s "md_attrs", e_attrs (ws_attrs w))] true)) = Ok (ws_attrs w)).
    { cbv beta. obj. may_ (e_attrs (ws_attrs w)) (attrs_arr (ws_attrs w)). reflexivity. }
    may_ (JObj [(s "md_attrs", e_attrs (ws_attrs w))] true) E2.
    set (ev := JObj [(s "md_header", j_text (ws_header w)); (s "md_toc", JBool (ws_toc w)); (s "md_family", e_family (ws_family w)); (s "md_dot", e_dot (ws_dot w)); (s "md_name", e_md_name (ws_name w))] true).
    assert (E3 : (fun v => res_bind (r_obj v) (fun fs =>
      res_bind (may fs (s "md_header") None r_opt_text) (fun h => res_bind (may fs (s "md_toc") true r_bool) (fun t => res_bind (may fs (s "md_family") FamilyList r_family) (fun fa =>
      res_bind (may fs (s "md_dot") DotIgnore r_dot) (fun d => res_bind (may fs (s "md_name") NameDefault r_md_name) (fun n => Ok (h, t, fa, d, n)))))))) (arr ev) = Ok (ws_header w, ws_toc w, ws_family w, ws_dot w, ws_name w)).
    { cbv beta. subst ev. obj. may_ (j_text (ws_header w)) (opt_arr (ws_header w)). may_ (JBool (ws_toc w)) (eq_refl (Ok (ws_toc w))). may_ (e_family (ws_family w)) (family_arr (ws_family w)). may_ (e_dot (ws_dot w)) (dot_arr (ws_dot w)). may_ (e_md_name (ws_name w)) (md_name_arr (ws_name w)). reflexivity. }
    may_ ev E3. reflexivity.
  Qed.
  Lemma project_arr st p : paths_once enc st -> sendable p -> (forall n a, In (n, a) (pr_arts p) -> readable id_text id_read num_text num_read a) ->
    exists w, r_project id_read num_read (arr (e_project enc id_text num_text st p)) = Ok w /\ same_project enc sorted st p w.
  Proof.
    intros Ps [Sa Na Sc Nc] Rd.
    destruct (map_arr sorted name_eqb nk n_raw name_from_str r_code (e_code enc) (same_code enc sorted) (pr_code p) name_eqb_iff) as (lc & Ec & Fc).
    { intros k x Hk. apply (Sc k x Hk). } { intros k x Hk. apply code_arr. apply (Sc k x Hk). } { eapply nodup_inj; [|exact Nc]. intros x y _ _ E. unfold nk in E. congruence. }
    destruct (map_arr sorted name_eqb nk n_raw name_from_str (r_art id_read num_read) (e_art enc id_text num_text) (same_art enc sorted) (pr_arts p) name_eqb_iff) as (la & Ea & Fa).
    { intros k x Hk. apply (Sa k x Hk). } { intros k x Hk. apply art_arr; [apply (Sa k x Hk)|exact (Rd k x Hk)]. } { eapply nodup_inj; [|exact Na]. intros x y _ _ E. unfold nk in E. congruence. }
    exists (mkWproject (settings_as enc st) lc la). split; [|split; [reflexivity|split; [exact Fc|exact Fa]]].
    unfold e_project, r_project. obj. need_ (e_settings enc st) (settings_arr st Ps).
    need_ (JObj (map (fun e => (n_raw (fst e), e_code enc (snd e))) (pr_code p)) true) Ec.
    need_ (JObj (map (fun e => (n_raw (fst e), e_art enc id_text num_text (snd e))) (pr_arts p)) true) Ea. reflexivity.
  Qed.
End Parts.

(** ** Lints *)
Lemma cat_found c : find (fun d => str_eqb (cat_str d) (cat_str c)) all_cats = Some c. Proof. destruct c; reflexivity. Qed.
Lemma level_arr leb l : r_level (arrange leb (JStr (level_str l))) = Ok l. Proof. destruct l; reflexivity. Qed.
Lemma cat_arr leb c : r_cat (arrange leb (JStr (cat_str c))) = Ok c. Proof. cbn [arrange]. unfold r_cat. cbn [r_text res_bind]. now rewrite cat_found. Qed.
Ltac no_ := match goal with |- context [may (isort (kleb ?leb) (map _ ?l)) ?k ?x ?d] => rewrite (may_arr_none leb l k x d (eq_refl _)) end; cbn [res_bind].
Lemma lint_arr leb x : r_lint (arrange leb (e_lint x)) = Ok x.
Proof.
  destruct x as [l p n c m]. unfold e_lint, r_lint. cbn [li_level li_path li_line li_cat li_msg].
  assert (N : forall n, (fun v => match v with JNull => Ok None | _ => res_bind (r_nat v) (fun n => Ok (Some n)) end) (arrange leb (JNum (nat_str n))) = Ok (Some n)).
  { intros k. cbv beta. pose proof (nat_arr leb k) as E. cbn [arrange] in *. now rewrite E. }
  destruct p as [p|], n as [n|]; cbn [app]; obj; need_ (JStr (level_str l)) (level_arr leb l).
  - may_ (JStr p) (eq_refl (Ok (Some p))). may_ (JNum (nat_str n)) (N n). need_ (JStr (cat_str c)) (cat_arr leb c). need_ (JStr m) (eq_refl (Ok m)). reflexivity.
  - may_ (JStr p) (eq_refl (Ok (Some p))). no_. need_ (JStr (cat_str c)) (cat_arr leb c). need_ (JStr m) (eq_refl (Ok m)). reflexivity.
  - no_. may_ (JNum (nat_str n)) (N n). need_ (JStr (cat_str c)) (cat_arr leb c). need_ (JStr m) (eq_refl (Ok m)). reflexivity.
  - no_. no_. need_ (JStr (cat_str c)) (cat_arr leb c). need_ (JStr m) (eq_refl (Ok m)). reflexivity.
Qed.
Lemma lint_list_arr leb l : r_lint_list (arrange leb (e_lint_list l)) = Ok l.
Proof. unfold r_lint_list, e_lint_list. cbn [arrange r_arr res_bind]. apply res_map_id. intros x _. apply lint_arr. Qed.
Lemma lints_arr leb c : r_lints (arrange leb (e_lints c)) = Ok c.
Proof. destruct c as [e o]. unfold e_lints, r_lints. cbn [ls_error ls_other]. obj. need_ (e_lint_list e) (lint_list_arr leb e). need_ (e_lint_list o) (lint_list_arr leb o). reflexivity. Qed.

(** ** Operations *)
Section Ops.
  Context {H : Type}.
  Variable id_text : H -> str.
  Variable id_read : str -> res H.
  Variable dec : str -> option path.
  Lemma im_arr leb a : sim_set a -> r_im dec (arrange leb (e_sim a)) = match receive_im dec a with Some b => Ok b | None => Err end.
  Proof.
    intros [Wn Wp]. unfold e_sim, r_im, receive_im. obj. need_ (JStr (n_raw (si_name a))) Wn.
    assert (F : (fun v => res_bind (r_text v) (fun x => match dec x with Some p => Ok p | None => Err end)) (arrange leb (JStr (si_file a))) = match dec (si_file a) with Some p => Ok p | None => Err end) by reflexivity.
    need_ (JStr (si_file a)) F. destruct (dec (si_file a)) as [f|]; [|reflexivity]. cbn [res_bind].
    assert (P : r_set name_eqb r_name (arrange leb (e_names (si_partof a))) = Ok (si_partof a)).
    { destruct Wp as [W N]. apply (set_arr _ name_eqb nk); [apply name_eqb_iff| |exact N]. intros x Hx. rewrite Forall_forall in W. exact (W x Hx). }
    need_ (e_names (si_partof a)) P. assert (D : r_opt_text (arrange leb (j_text (si_done a))) = Ok (si_done a)) by (destruct (si_done a); reflexivity). may_ (j_text (si_done a)) D.
    need_ (JStr (si_text a)) (eq_refl (Ok (si_text a))). reflexivity.
  Qed.
  Definition id_ok (o : sop H) : Prop := match o with SCreate _ => True | SUpdate _ i => id_read (id_text i) = Ok i end.
  Lemma op_arr leb o : sim_set (sop_im o) -> id_ok o -> r_op dec id_read (arrange leb (e_sop id_text o)) = match receive dec o with Some b => Ok b | None => Err end.
  Proof.
    intros W I. unfold r_op. destruct o as [a|a i]; cbn [e_sop receive sop_im id_ok] in *; obj.
    - need_ (JStr (s "create")) (eq_refl (Ok (s "create"))). change (str_eqb (s "create") (s "create")) with true. cbn iota. need_ (e_sim a) (im_arr leb a W). destruct (receive_im dec a); reflexivity.
    - need_ (JStr (s "update")) (eq_refl (Ok (s "update"))). change (str_eqb (s "update") (s "create")) with false. change (str_eqb (s "update") (s "update")) with true. cbn iota. need_ (e_sim a) (im_arr leb a W). destruct (receive_im dec a) as [b|]; [|reflexivity]. cbn [res_bind].
      need_ (JStr (id_text i)) I. reflexivity.
  Qed.
End Ops.

(** ** The texts *)
Definition fits (k : nat) (v : jval) : Prop := whole v /\ depth v <= k.
Lemma fits_le k m v : fits k v -> k <= m -> fits m v. Proof. intros [W D] L. split; [exact W|lia]. Qed.
Lemma max_of l n : (forall x, In x l -> x <= n) -> fold_right Nat.max 0 l <= n.
Proof. induction l as [|x l IH]; intros B; cbn [fold_right]; [lia|]. assert (x <= n) by (apply B; now left). assert (fold_right Nat.max 0 l <= n) by (apply IH; intros y Hy; apply B; now right). lia. Qed.
Lemma fits_obj k l : (forall e, In e l -> fits k (snd e)) -> fits (S k) (JObj l true).
Proof.
  intros A. split; [constructor; intros a v Hin; apply (A _ Hin)|]. cbn [depth]. apply le_n_S, max_of. intros x Hx. apply in_map_iff in Hx as (e & <- & He). apply (A e He).
Qed.
Lemma fits_arr k l : (forall v, In v l -> fits k v) -> fits (S k) (JArr l true).
Proof. intros A. split; [constructor; intros v Hin; apply (A _ Hin)|]. cbn [depth]. apply le_n_S, max_of. intros x Hx. apply in_map_iff in Hx as (e & <- & He). apply (A e He). Qed.
Lemma fits_str k x : fits k (JStr x). Proof. split; [constructor|cbn [depth]; lia]. Qed.
Lemma fits_null k : fits k JNull. Proof. split; [constructor|cbn [depth]; lia]. Qed.
Lemma fits_bool k b : fits k (JBool b). Proof. split; [constructor|cbn [depth]; lia]. Qed.
Lemma decimal_number n x : SpecExport.decimal n x -> jnumber x.
Proof. intros (N & F & _ & Z). exists [], x, [], []. split; [now rewrite !app_nil_r|]. split; [auto|]. split; [split; auto|]. split; [exact Z|]. split; left; reflexivity. Qed.
Lemma fits_nat k n : fits k (JNum (nat_str n)). Proof. split; [constructor; apply (decimal_number n), nat_str_decimal|cbn [depth]; lia]. Qed.
Lemma fits_text k o : fits k (j_text o). Proof. destruct o; [apply fits_str|apply fits_null]. Qed.
Lemma fits_lits k l : forallb (fun e => match snd e with JObj _ _ | JArr _ _ | JNum _ | JBad => false | _ => true end) l = true -> fits (S k) (JObj l true).
Proof. intros A. apply fits_obj. intros e He. rewrite forallb_forall in A. specialize (A e He). destruct (snd e); try discriminate A; [apply fits_null|apply fits_bool|apply fits_str]. Qed.
Lemma fits_strs k {A} (g : A -> str) l : fits (S k) (JArr (map (fun x => JStr (g x)) l) true).
Proof. apply fits_arr. intros v Hv. apply in_map_iff in Hv as (x & <- & _). apply fits_str. Qed.
Ltac each := let e := fresh in let He := fresh in intros e He; cbn [In] in He; repeat (destruct He as [He|He]; [subst e; cbn [snd]|]); [..|destruct He].

Fixpoint arrange_fits leb v : whole v -> whole (arrange leb v) /\ depth (arrange leb v) = depth v.
Proof.
  destruct v as [|b|x|x|l ok|l ok|]; intros W; try (split; [exact W|reflexivity]).
  - inversion W as [| | | |l' A|]; subst.
    assert (X : forall v, In v l -> whole (arrange leb v) /\ depth (arrange leb v) = depth v).
    { clear W. induction l as [|v l IH]; intros u Hu; [contradiction|]. destruct Hu as [<-|Hu]; [apply arrange_fits, A; left; reflexivity|]. apply IH; [|exact Hu]. intros w Hw. apply A. right. exact Hw. }
    split; cbn [arrange].
    + constructor. intros v Hv. apply in_map_iff in Hv as (u & <- & Hu). apply (X u Hu).
    + cbn [depth]. f_equal. f_equal. rewrite map_map. apply map_ext_in. intros u Hu. apply (X u Hu).
  - inversion W as [| | | | |l' A]; subst.
    assert (X : forall k v, In (k, v) l -> whole (arrange leb v) /\ depth (arrange leb v) = depth v).
    { clear W. induction l as [|[k0 v] l IH]; intros k u Hu; [contradiction|]. destruct Hu as [E|Hu]; [injection E as _ <-; apply arrange_fits, (A k0); left; reflexivity|]. apply (IH (fun k w Hw => A k w (or_intror Hw)) k u Hu). }
    rewrite arrange_obj. split.
    + constructor. intros k v Hv. apply isort_in in Hv. apply in_map_iff in Hv as ([k0 u] & E & Hu). injection E as _ <-. apply (X k0 u Hu).
    + cbn [depth]. f_equal.
      assert (P : forall a b, Permutation a b -> fold_right Nat.max 0 a = fold_right Nat.max 0 b) by (induction 1; cbn [fold_right] in *; lia).
      rewrite (P _ (map (fun e => depth (snd e)) (map (fun e => (fst e, arrange leb (snd e))) l))) by (apply Permutation_map, Permutation_sym, isort_perm).
      f_equal. rewrite map_map. apply map_ext_in. intros [k u] Hu. apply (X k u Hu).
Qed.
Lemma text_arr {A} leb (d : jval -> res A) v : fits 127 v -> from_text d (w_val (arrange leb v)) = d (arrange leb v).
Proof.
  intros [W D]. destruct (arrange_fits leb v W) as [W' D']. unfold from_text. rewrite (proj1 (read_written _ W' ltac:(rewrite D'; exact D))). reflexivity.
Qed.
Lemma arrange_same v : whole v -> arrange (fun _ _ => true) v = v.
Proof.
  revert v. fix IHv 1. intros v. destruct v as [|b|x|x|l ok|l ok|]; intros W; try reflexivity.
  - inversion W as [| | | |l' A|]; subst. cbn [arrange]. f_equal. clear W. induction l as [|v l IH]; [reflexivity|]. cbn [map]. f_equal; [apply IHv, A; left; reflexivity|apply IH; intros w Hw; apply A; right; exact Hw].
  - inversion W as [| | | | |l' A]; subst. rewrite arrange_obj. f_equal.
    assert (E : map (fun e => (fst e, arrange (fun _ _ => true) (snd e))) l = l).
    { clear W. induction l as [|[k v] l IH]; [reflexivity|]. cbn [map fst snd]. f_equal; [f_equal; apply IHv, (A k); left; reflexivity|]. apply IH. intros k0 w Hw. apply (A k0). right. exact Hw. }
    rewrite E. apply isort_id. clear. induction l as [|x l IH]; constructor; [exact IH|]. apply Forall_forall. reflexivity.
Qed.

Section Fits.
  Context {M : num} {H : Type}.
  Variable enc : path -> str.
  Variable id_text : H -> str.
  Variable num_text : F M -> option str.
  Lemma loc_fits l : fits 1 (e_loc enc l). Proof. apply fits_obj. each; [apply fits_str|apply fits_nat]. Qed.
  Lemma code_fits c : fits 3 (e_code enc c).
  Proof.
    apply fits_obj. each.
    - destruct (ic_primary c); [eapply fits_le; [apply loc_fits|lia]|apply fits_null].
    - apply fits_obj. intros e He. apply in_map_iff in He as (x & <- & _). apply loc_fits.
  Qed.
  Lemma impl_fits i : fits 4 (e_impl enc i).
  Proof. destruct i; cbn [e_impl]; [apply fits_lits; reflexivity| |apply fits_lits; reflexivity]. apply fits_obj. each; [apply fits_str|apply code_fits]. Qed.
  Lemma art_fits a : (exists t, num_text (fst (a_completed a)) = Some t /\ jnumber t) -> (exists t, num_text (snd (a_completed a)) = Some t /\ jnumber t) -> fits 5 (e_art enc id_text num_text a).
  Proof.
    intros (t1 & E1 & J1) (t2 & E2 & J2). unfold e_art. apply fits_obj. each; try apply fits_str; try apply fits_strs.
    - apply fits_obj. unfold e_num. rewrite E1, E2. each; (split; [constructor; assumption|cbn [depth]; lia]).
    - apply impl_fits.
  Qed.
  Lemma md_name_fits k n : fits (S k) (e_md_name n). Proof. destruct n; apply fits_lits; reflexivity. Qed.
  Lemma settings_fits w : fits 3 (e_settings enc w).
  Proof.
    apply fits_obj. each; try apply fits_str; try apply fits_strs; try apply fits_text.
    - apply fits_obj. each. apply md_name_fits.
    - apply fits_obj. each. destruct (ws_attrs w) as [|[x|]]; apply fits_lits; reflexivity.
    - apply fits_obj. each; [apply fits_text|apply fits_bool|apply fits_lits; destruct (ws_family w); reflexivity|destruct (ws_dot w); apply fits_lits; reflexivity|apply md_name_fits].
  Qed.
  Lemma project_fits w p : (forall n a, In (n, a) (pr_arts p) -> fits 5 (e_art enc id_text num_text a)) -> fits 7 (e_project enc id_text num_text w p).
  Proof.
    intros A. apply fits_obj. each.
    - eapply fits_le; [apply settings_fits|lia].
    - apply fits_obj. intros e He. apply in_map_iff in He as (x & <- & _). eapply fits_le; [apply code_fits|lia].
    - apply fits_obj. intros e He. apply in_map_iff in He as ([n a] & <- & Hx). exact (A n a Hx).
  Qed.
End Fits.
Lemma lint_fits x : fits 1 (e_lint x).
Proof.
  apply fits_obj. intros e He. rewrite !in_app_iff in He. destruct He as [[<-|[]]|[He|[He|[<-|[<-|[]]]]]]; try apply fits_str.
  - destruct (li_path x); [|contradiction]. destruct He as [<-|[]]. apply fits_str.
  - destruct (li_line x); [|contradiction]. destruct He as [<-|[]]. apply fits_nat.
Qed.
Lemma lint_list_fits l : fits 2 (e_lint_list l).
Proof. apply fits_arr. intros v Hv. apply in_map_iff in Hv as (x & <- & _). apply lint_fits. Qed.
Lemma lints_fits c : fits 3 (e_lints c). Proof. apply fits_obj. each; apply lint_list_fits. Qed.
Lemma sop_fits {H} (id_text : H -> str) o : fits 3 (e_sop id_text o).
Proof.
  assert (S : forall a, fits 2 (e_sim a)) by (intros a; apply fits_obj; each; try apply fits_str; try apply fits_strs; apply fits_text).
  destruct o; apply fits_obj; each; try apply fits_str; apply S.
Qed.
