(** C19, C48-C50, C63, C64: [art ls] and project discovery. *)
From Coq Require Import Lia ZArith ZifyBool QArith Qround Sorted.
From Verif Require Import Base BaseFacts Name NameFacts Family Artifact Numbers AverageFacts Disk Ls SpecLs LsFacts.
Open Scope nat_scope.

(** ** C19 Colours are total and ordered *)
Theorem C19_total : forall spc tst, exists c, name_color spc tst = Ok c /\ completed_color spc tst = Ok (html_name c) /\
  (exists c1, spc_color spc = Ok c1) /\ exists c2, tst_color tst = Ok c2.
Proof.
  intros spc tst. destruct (points_total spc tst) as (c & A & B). exists c. split; [exact A|]. split; [exact B|].
  unfold spc_color, spc_points, tst_color, tst_points.
  destruct (1000 <=? spc)%Z, (700 <=? spc)%Z, (400 <=? spc)%Z, (1000 <=? tst)%Z, (500 <=? tst)%Z; split; eexists; reflexivity.
Qed.

Theorem C19_ordered : forall spc tst spc' tst' c c', (spc <= spc')%Z -> (tst <= tst')%Z ->
  (name_color spc tst = Ok c -> name_color spc' tst' = Ok c' -> rank c <= rank c') /\
  (spc_color spc = Ok c -> spc_color spc' = Ok c' -> rank c <= rank c') /\
  (tst_color tst = Ok c -> tst_color tst' = Ok c' -> rank c <= rank c').
Proof.
  intros spc tst spc' tst' c c' Hs Ht.
  assert (Ps : spc_points spc <= spc_points spc' <= 3).
  { unfold spc_points. destruct (Z.leb_spec 1000 spc), (Z.leb_spec 700 spc), (Z.leb_spec 400 spc),
      (Z.leb_spec 1000 spc'), (Z.leb_spec 700 spc'), (Z.leb_spec 400 spc'); lia. }
  assert (Pt : tst_points tst <= tst_points tst' <= 2).
  { unfold tst_points. destruct (Z.leb_spec 1000 tst), (Z.leb_spec 500 tst), (Z.leb_spec 1000 tst'), (Z.leb_spec 500 tst'); lia. }
  unfold name_color, spc_color, tst_color. revert Ps Pt.
  generalize (spc_points spc) (spc_points spc') (tst_points tst) (tst_points tst'). intros a a' b b' Pa Pb.
  split; [|split].
  - unfold points_color. assert (Q : a + b <= a' + b' <= 5) by lia. revert Q. generalize (a + b) (a' + b'). intros n n' Q.
    do 6 (destruct n as [|n]; [do 6 (destruct n' as [|n']; [intros E1 E2; inversion E1; inversion E2; subst; cbn; lia|]); discriminate|]).
    discriminate.
  - do 4 (destruct a as [|a]; [do 4 (destruct a' as [|a']; [intros E1 E2; inversion E1; inversion E2; subst; cbn; lia|]); discriminate|]).
    discriminate.
  - do 3 (destruct b as [|b]; [do 3 (destruct b' as [|b']; [intros E1 E2; inversion E1; inversion E2; subst; cbn; lia|]); discriminate|]).
    discriminate.
Qed.

Theorem C19_green : forall spc tst, name_color spc tst = Ok Green <-> (1000 <= spc /\ 1000 <= tst)%Z.
Proof.
  intros spc tst. unfold name_color, points_color, spc_points, tst_points.
  destruct (Z.leb_spec 1000 spc), (Z.leb_spec 700 spc), (Z.leb_spec 400 spc), (Z.leb_spec 1000 tst), (Z.leb_spec 500 tst);
    cbn; split; intros E; try discriminate E; try lia; reflexivity.
Qed.
Theorem C19_red : forall spc tst, name_color spc tst = Ok Red <-> (spc < 400 /\ tst < 500)%Z.
Proof.
  intros spc tst. unfold name_color, points_color, spc_points, tst_points.
  destruct (Z.leb_spec 1000 spc), (Z.leb_spec 700 spc), (Z.leb_spec 400 spc), (Z.leb_spec 1000 tst), (Z.leb_spec 500 tst);
    cbn; split; intros E; try discriminate E; try lia; reflexivity.
Qed.

(** What counts is the reported ratio: it is rounded, so almost complete is green as well. *)
Theorem C19_rounded : forall spc tst : Q, (spc <= 1)%Q -> (tst <= 1)%Q ->
  (name_color (nround exact_num spc) (nround exact_num tst) = Ok Green <-> (1999 # 2000 <= spc)%Q /\ (1999 # 2000 <= tst)%Q).
Proof.
  intros spc tst Hs Ht. rewrite C19_green, <- (thousandths_full spc Hs), <- (thousandths_full tst Ht).
  assert (M : forall q, (q <= 1)%Q -> (thousandths q <= 1000)%Z).
  { intros q Hq. apply thousandths_mono in Hq. rewrite (proj2 thousandths_ends) in Hq. exact Hq. }
  pose proof (M spc Hs). pose proof (M tst Ht). cbn [nround exact_num] in *. lia.
Qed.

(** The number shown tells the reported thousandths apart. *)
Theorem C19_percent : forall x y, (0 <= x <= 1000)%Z -> (0 <= y <= 1000)%Z -> percent x = percent y -> x = y.
Proof.
  set (val := fold_left (fun (acc : N) c => if N.eqb c c_dot then acc else (10 * acc + (c - 48))%N)).
  assert (V : forallb (fun i => N.eqb (val (percent (Z.of_nat i)) 0%N) (N.of_nat i)) (seq 0 1001) = true) by (vm_compute; reflexivity).
  rewrite forallb_forall in V.
  assert (W : forall x, (0 <= x <= 1000)%Z -> val (percent x) 0%N = Z.to_N x).
  { intros x Hx. specialize (V (Z.to_nat x)). rewrite Z2Nat.id in V by lia. apply N.eqb_eq in V; [rewrite V; apply Z_nat_N|]. apply in_seq. lia. }
  intros x y Hx Hy E. pose proof (W x Hx) as A. pose proof (W y Hy) as B. rewrite E in A. rewrite A in B. apply Z2N.inj; lia || congruence.
Qed.

Example C19_example : name_color 1000 499 = Ok Blue /\ name_color 999 1000 = Ok Blue /\ name_color 700 0 = Ok Yellow /\
  completed_color 1000 1000 = Ok (s "olive") /\ percent 1000 = s "100.0" /\ percent 45 = s "4.5" /\ percent 0 = s "0.0" /\
  name_color (nround exact_num (4999 # 5000)%Q) (nround exact_num 1%Q) = Ok Green.
Proof. vm_compute. repeat split. Qed.

(** ** C49 Flag strings *)
(** A text is accepted exactly if it denotes tokens, and the flags are those the tokens select. *)
Theorem C49_accepted : forall x f, flags_from_str x = Ok f <-> exists l, denotes x l /\ forall d, selected f d = true <-> selects l d.
Proof.
  intros x f. split.
  - intros E. destruct (from_str_ok x f E) as (l & D). exists l. split; [exact D|].
    destruct (from_str_denotes x l D) as (g & E' & Hg). rewrite E in E'. inversion E'; subst. exact Hg.
  - intros (l & D & Hf). destruct (from_str_denotes x l D) as (g & E & Hg). rewrite E. f_equal. apply flags_ext. intros d.
    apply eq_true_iff_eq. rewrite Hf, Hg. reflexivity.
Qed.
Theorem C49_rejected : forall x, (forall l, ~ denotes x l) <-> flags_from_str x = Err.
Proof.
  intros x. split.
  - intros Hn. destruct (flags_from_str x) as [f| |] eqn:E; [|reflexivity|].
    + apply from_str_ok in E. destruct E as (l & D). destruct (Hn l D).
    + unfold flags_from_str in E. destruct (is_nil x); [discriminate E|]. destruct (negb _); discriminate E.
  - intros E l D. apply from_str_denotes in D. destruct D as (f & E' & _). congruence.
Qed.

(** Neither the order nor the number of the tokens matters, nor how they are written. *)
Theorem C49_order : forall x y l k, denotes x l -> denotes y k -> (forall t, In t l <-> In t k) -> flags_from_str x = flags_from_str y.
Proof.
  intros x y l k Dx Dy E. apply from_str_denotes in Dx, Dy. destruct Dx as (f & -> & Hf). destruct Dy as (g & -> & Hg).
  f_equal. apply flags_ext. intros d. apply eq_true_iff_eq. rewrite Hf, Hg. unfold selects.
  assert (N : l = [] <-> k = []).
  { split; intros ->.
    - destruct k as [|t k]; [reflexivity|]. exfalso. apply (in_nil (a := t)), (proj2 (E t)). left. reflexivity.
    - destruct l as [|t l]; [reflexivity|]. exfalso. apply (in_nil (a := t)), (proj1 (E t)). left. reflexivity. }
  rewrite N, (E TAll), (E (TField d)). reflexivity.
Qed.

(** [A] in front selects the other fields. *)
Theorem C49_inverted : forall l f g, l <> [] -> ~ In TAll l ->
  flags_from_str (map letter l) = Ok f -> flags_from_str (map letter (TAll :: l)) = Ok g ->
  (forall d, selected g d = negb (selected f d)) /\ flags_invert g = f.
Proof.
  intros l f g Hn Ha Ef Eg.
  destruct (from_str_denotes _ _ (dn_letters l Hn)) as (f' & E & Hf). rewrite Ef in E. inversion E; subst f'. clear E.
  assert (Hc : TAll :: l <> []) by discriminate.
  destruct (from_str_denotes _ _ (dn_letters _ Hc)) as (g' & E & Hg). rewrite Eg in E. inversion E; subst g'. clear E.
  assert (X : forall d, selected g d = negb (selected f d)).
  { intros d. apply eq_true_iff_eq. rewrite negb_true_iff, <- not_true_iff_false, Hf, Hg. unfold selects. cbn [In].
    assert (TField d <> TAll) by discriminate. assert (TAll <> TField d) by discriminate. assert (TAll :: l <> []) by discriminate. tauto. }
  split; [exact X|]. apply flags_ext. intros d. rewrite selected_invert, X. apply negb_involutive.
Qed.
Theorem C49_invert_twice : forall f, flags_invert (flags_invert f) = f.
Proof. intros f. apply flags_ext. intros d. rewrite !selected_invert. apply negb_involutive. Qed.

(** The columns shown: those given, or with [-A] the others; by default name and parts, in the
    long form everything. *)
Theorem C49_shown : forall given all long d,
  selected (flags_from_cmd given all long) d = true <->
  if all then selected given d = false
  else selected given d = true \/ ((forall e, selected given e = false) /\ (long = true \/ d = FdName \/ d = FdParts)).
Proof.
  intros given all long d. unfold flags_from_cmd, resolve_actual. destruct all.
  - rewrite andb_false_r. cbn [andb]. rewrite selected_invert, negb_true_iff. reflexivity.
  - cbn [negb]. rewrite andb_true_r. destruct (Nat.eqb_spec (flags_len given) 0) as [E|E].
    + pose proof (proj1 (len_zero given) E) as Z. destruct long; cbn [andb].
      * cbn. split; [intros _; auto|]. intros _. destruct d; reflexivity.
      * rewrite E. cbn [Nat.eqb]. rewrite Z. split.
        -- intros X. right. split; [exact Z|]. destruct d; cbn in X; try discriminate X; auto.
        -- intros [X|(_ & [X|[-> | ->]])]; try discriminate X; reflexivity.
    + rewrite andb_false_r. destruct (Nat.eqb_spec (flags_len given) 0); [contradiction|].
      split; [auto|]. intros [X|(Z & _)]; [exact X|]. exfalso. apply E, len_zero, Z.
Qed.

Example C49_example :
  flags_from_str (s "NP") = flags_from_str (s "parts,,N,P") /\ flags_from_str (s "PNP") = Ok flags_default /\
  flags_from_str (s ",") = Ok flags_default /\ flags_from_str (s "name") = Ok (mkFlags true false false false false false false) /\
  flags_from_str (s "A,text") = flags_from_str (s "NFSPOI") /\ flags_from_str (s "ANFSPOIT") = Ok flags_empty /\
  flags_from_str (s "n") = Err /\ flags_from_str (s "Name") = Err /\ flags_from_str [] = Err /\ flags_from_str (s "name text") = Err.
Proof. vm_compute. repeat split. Qed.

(** ** C48 art ls filters *)
(** The artifacts listed, sorted by name, are those for which every selected field but subnames
    has a match; without a pattern they are all listed. *)
Theorem C48_listed : forall M H reported regex path_str code_str cmd (arts : list (name * artifact M H)) toks m,
  arts_ok arts -> denotes (ls_fields cmd) toks -> ~ selects toks FdImpl -> searched regex cmd = Some m ->
  ls_type cmd = s "json" \/ ls_type cmd = s "list" ->
  exists out l, ls_run reported regex path_str code_str cmd arts = Ok out /\ prints path_str code_str reported cmd arts l out /\
    StronglySorted (fun a b => name_leb (a_name a) (a_name b) = true) l /\ NoDup (map (fun a => (n_ty (a_name a), n_key (a_name a))) l) /\
    forall a, In a l <-> In (a_name a, a) arts /\
      match m with Some m => forall d, selects toks d -> d <> FdSubnames -> field_matches path_str m a d | None => True end.
Proof.
  intros M H reported regex path_str code_str cmd arts toks m Ha Hd Hi Hm Ht.
  destruct (from_str_denotes _ _ Hd) as (f & Ef & Hf).
  assert (Fi : fl_impl f = false) by (apply not_true_iff_false; intros X; apply Hi, (Hf FdImpl), X).
  destruct (run_ok reported regex path_str code_str cmd arts f m Ha Ef Fi Hm Ht) as (out & Eo & Hp).
  exists out, (map snd (kept path_str m f arts)). split; [exact Eo|]. split; [exact Hp|]. split; [apply kept_sorted, Ha|].
  assert (K : forall e, In e (kept path_str m f arts) -> In e arts) by (intros e He; apply kept_in in He; apply He).
  split.
  - assert (N : NoDup (map (fun e => (n_ty (fst e), n_key (fst e))) (kept path_str m f arts))).
    { unfold kept. eapply Permutation.Permutation_NoDup; [apply Permutation.Permutation_map, isort_perm|]. destruct m as [m|]; [|apply ao_once, Ha].
      pose proof (nodup_sub (fun e => keeps path_str m f (snd e)) arts (ao_once _ Ha)) as X. rewrite map_map in X. exact X. }
    rewrite map_map. erewrite map_ext_in; [exact N|]. intros [n a] He. cbn [fst snd]. rewrite (ao_names _ Ha n a) by (apply K, He). reflexivity.
  - intros a. rewrite in_map_iff. split.
    + intros ([n b] & E & He). cbn in E. subst b. apply kept_in in He. destruct He as (He & Hk).
      rewrite (ao_names _ Ha n a He). split; [exact He|]. destruct m as [m|]; [|exact I]. cbn [snd] in Hk.
      intros d Hs Hd'. apply (proj1 (keeps_iff path_str m f a Fi) Hk); [apply Hf, Hs|exact Hd'].
    + intros (He & Hk). exists (a_name a, a). split; [reflexivity|]. apply kept_in. split; [exact He|].
      destruct m as [m|]; [|exact I]. cbn [snd]. apply keeps_iff; [exact Fi|]. intros d Hs Hd'. apply Hk; [apply Hf, Hs|exact Hd'].
Qed.

(** In all other cases the command fails: it never panics. *)
Theorem C48_errors : forall M H reported regex path_str code_str cmd (arts : list (name * artifact M H)), arts_ok arts ->
  (ls_run reported regex path_str code_str cmd arts = Err <->
   (forall toks, denotes (ls_fields cmd) toks -> selects toks FdImpl) \/ searched regex cmd = None \/
   (ls_type cmd <> s "json" /\ ls_type cmd <> s "list")) /\
  ls_run reported regex path_str code_str cmd arts <> Panic.
Proof.
  intros M H reported regex path_str code_str cmd arts Ha.
  assert (D : (exists toks, denotes (ls_fields cmd) toks /\ ~ selects toks FdImpl) \/ forall toks, denotes (ls_fields cmd) toks -> selects toks FdImpl).
  { destruct (flags_from_str (ls_fields cmd)) as [f| |] eqn:Ef.
    - pose proof (proj1 (C49_accepted _ _) Ef) as (l & Dl & Hl). destruct (fl_impl f) eqn:Hi.
      + right. intros toks Dt. destruct (from_str_denotes _ _ Dt) as (g & Eg & Hg). rewrite Ef in Eg. inversion Eg; subst g. apply Hg. exact Hi.
      + left. exists l. split; [exact Dl|]. rewrite <- Hl. cbn. congruence.
    - right. intros toks Dt. exfalso. exact (proj2 (C49_rejected _) Ef toks Dt).
    - right. intros toks Dt. destruct (from_str_denotes _ _ Dt) as (g & Eg & _). congruence. }
  assert (T : (ls_type cmd = s "json" \/ ls_type cmd = s "list") \/ (ls_type cmd <> s "json" /\ ls_type cmd <> s "list")).
  { destruct (list_eq_dec N.eq_dec (ls_type cmd) (s "json")); [tauto|]. destruct (list_eq_dec N.eq_dec (ls_type cmd) (s "list")); tauto. }
  assert (B : (forall toks, denotes (ls_fields cmd) toks -> selects toks FdImpl) ->
    flags_from_str (ls_fields cmd) = Err \/ (exists f, flags_from_str (ls_fields cmd) = Ok f /\ fl_impl f = true)).
  { intros Hs. destruct (flags_from_str (ls_fields cmd)) as [f| |] eqn:Ef; [right|left; reflexivity|].
    - exists f. split; [reflexivity|]. pose proof (proj1 (C49_accepted _ _) Ef) as (l & Dl & Hl). apply (Hl FdImpl), Hs, Dl.
    - exfalso. unfold flags_from_str in Ef. destruct (is_nil _); [discriminate Ef|]. destruct (negb _); discriminate Ef. }
  assert (E : (forall toks, denotes (ls_fields cmd) toks -> selects toks FdImpl) \/ searched regex cmd = None \/
    (ls_type cmd <> s "json" /\ ls_type cmd <> s "list") -> ls_run reported regex path_str code_str cmd arts = Err).
  { intros Hc. apply run_err; [exact Ha|]. destruct Hc as [Hc|[Hc|Hc]]; [apply B in Hc|..]; tauto. }
  destruct D as [(toks & Dt & Hs)|D].
  2: { rewrite (E (or_introl D)). split; [tauto|discriminate]. }
  destruct (searched regex cmd) as [m|] eqn:Em.
  2: { rewrite (E (or_intror (or_introl eq_refl))). split; [tauto|discriminate]. }
  destruct T as [T|T].
  2: { rewrite (E (or_intror (or_intror T))). split; [tauto|discriminate]. }
  destruct (C48_listed M H reported regex path_str code_str cmd arts toks m Ha Dt Hs Em T) as (out & l & -> & _).
  split; [|discriminate]. split; [discriminate|]. intros [X|[X|X]]; [destruct (Hs (X toks Dt))|discriminate X|].
  destruct T as [T|T]; destruct X as (X1 & X2); [destruct (X1 T)|destruct (X2 T)].
Qed.

(** Fields that exclude nothing: subnames, and no field at all. *)
Theorem C48_subnames : forall M H reported regex path_str code_str cmd (arts : list (name * artifact M H)) m,
  arts_ok arts -> searched regex cmd = Some m -> ls_type cmd = s "json" -> ls_fields cmd = s "S" \/ ls_fields cmd = s "ANFSPOIT" ->
  exists l, ls_run reported regex path_str code_str cmd arts = Ok (OJson l) /\ forall a, In a l <-> In (a_name a, a) arts.
Proof.
  intros M H reported regex path_str code_str cmd arts m Ha Hm Ht Hf.
  assert (X : exists toks, denotes (ls_fields cmd) toks /\ forall d, selects toks d -> d = FdSubnames).
  { destruct Hf as [-> | ->].
    - exists [TField FdSubnames]. split; [apply (dn_letters [TField FdSubnames]); discriminate|].
      intros d [(A & _)|[(_ & [A|[]])|([A|[]] & _)]]; try discriminate A. congruence.
    - exists [TAll; TField FdName; TField FdFile; TField FdSubnames; TField FdParts; TField FdPartof; TField FdImpl; TField FdText].
      split; [apply (dn_letters [TAll; TField FdName; TField FdFile; TField FdSubnames; TField FdParts; TField FdPartof; TField FdImpl; TField FdText]); discriminate|].
      intros d [(A & _)|[(A & _)|(_ & A)]]; [discriminate A|exfalso; apply A; cbn; auto|].
      exfalso. apply A. destruct d; cbn; auto 9. }
  destruct X as (toks & Dt & Hs).
  destruct (C48_listed M H reported regex path_str code_str cmd arts toks m Ha Dt) as (out & l & Eo & Hp & _ & _ & Hl).
  { intros X. apply Hs in X. discriminate X. } { exact Hm. } { left. exact Ht. }
  destruct out as [l'|t|rows].
  - destruct Hp as (_ & ->). exists l. split; [exact Eo|]. intros a. rewrite Hl. split; [tauto|]. intros Hin. split; [exact Hin|].
    destruct m as [m|]; [|exact I]. intros d Hd Hd'. apply Hs in Hd. contradiction.
  - destruct Hp as (X & _). rewrite Ht in X. discriminate X.
  - destruct Hp as (X & _). rewrite Ht in X. discriminate X.
Qed.

(** The completion filters of the command line have no effect. *)
Theorem C48_completion_ignored : forall M H reported regex path_str code_str (arts : list (name * artifact M H)) p fs lg fl al ty spc tst spc' tst',
  ls_run reported regex path_str code_str (mkLs p fs lg spc tst fl al ty) arts =
  ls_run reported regex path_str code_str (mkLs p fs lg spc' tst' fl al ty) arts.
Proof. reflexivity. Qed.

(** A project of two artifacts; a pattern matches the texts that contain it (case matters here). *)
Fixpoint contains (p x : str) : bool := starts_with x p || match x with [] => false | _ :: x' => contains p x' end.
Definition ex_regex (p : str) : option (str -> bool) := if str_eqb p (s "(?i)(") then None else Some (contains (skipn 4 p)).
Definition ls_name (x : str) : name := match name_from_str x with Ok n => n | _ => mkName REQ [] [] end.
Definition ls_a : artifact exact_num nat :=
  mkArt (M := exact_num) (H := nat) 1 (ls_name (s "SPC-foobar")) [s "p"; s "a.md"] [] [ls_name (s "tst-one"); ls_name (s "TST-two")] (500%Z, 1000%Z) (s "some text") (IDone (s "by hand")) [].
Definition ls_b : artifact exact_num nat :=
  mkArt (M := exact_num) (H := nat) 2 (ls_name (s "TST-one")) [s "p"; s "b.md"] [ls_name (s "SPC-foobar")] [] (1000%Z, 1000%Z) (s "tests") INot [sub_new (s ".x"); sub_new (s ".tst-y")].
Definition ls_arts := [(a_name ls_b, ls_b); (a_name ls_a, ls_a)].
Definition ls_path (p : path) : str := join (s "/") p.
Definition ls_code (c : impl_code) : str := s "code".
Definition ls_cmd_for (p : option str) (fs : str) (ty : str) : ls_cmd := mkLs p fs false (s ">0") (s ">0") flags_empty false ty.
Notation ex_run := (ls_run (M := exact_num) (H := nat) (fun z => z) ex_regex ls_path ls_code).

Lemma ls_arts_ok : arts_ok ls_arts.
Proof.
  split.
  - intros n a [E|[E|[]]]; inversion E; reflexivity.
  - repeat constructor; cbn; intuition discriminate.
Qed.

(** The help text says that [-f NT] lists the artifacts with a match in the name or the text:
    it does not. *)
Definition help_says (regex : str -> option (str -> bool)) (path_str : path -> str)
    (run : ls_cmd -> list (name * artifact exact_num nat) -> res (output (artifact exact_num nat))) : Prop :=
  forall cmd arts toks m l, arts_ok arts -> denotes (ls_fields cmd) toks -> searched regex cmd = Some (Some m) ->
    run cmd arts = Ok (OJson l) -> forall a, In (a_name a, a) arts ->
    (exists d, selects toks d /\ d <> FdSubnames /\ field_matches path_str m a d) -> In a l.
Theorem C48_help_refuted : ~ help_says ex_regex ls_path ex_run.
Proof.
  intros X.
  assert (E : In ls_a []).
  { eapply (X (ls_cmd_for (Some (s "foobar")) (s "NT") (s "json")) ls_arts [TField FdName; TField FdText]).
    - exact ls_arts_ok.
    - apply (dn_letters [TField FdName; TField FdText]). discriminate.
    - reflexivity.
    - vm_compute. reflexivity.
    - right. left. reflexivity.
    - exists FdName. split; [right; left; split; [intros [E|[E|[]]]; discriminate E|left; reflexivity]|]. split; [discriminate|].
      vm_compute. reflexivity. }
  destruct E.
Qed.

Example C48_example :
  ex_run (ls_cmd_for (Some (s "foobar")) (s "NT") (s "json")) ls_arts = Ok (OJson []) /\
  ex_run (ls_cmd_for (Some (s "foobar")) (s "name") (s "json")) ls_arts = Ok (OJson [ls_a]) /\
  ex_run (ls_cmd_for (Some (s "one")) (s "P") (s "json")) ls_arts = Ok (OJson [ls_a]) /\
  ex_run (ls_cmd_for None (s "name") (s "json")) ls_arts = Ok (OJson [ls_a; ls_b]) /\
  ex_run (ls_cmd_for (Some (s "nothing")) (s "S") (s "json")) ls_arts = Ok (OJson [ls_a; ls_b]) /\
  ex_run (ls_cmd_for (Some (s "(")) (s "name") (s "json")) ls_arts = Err /\
  ex_run (ls_cmd_for None (s "A") (s "json")) ls_arts = Err /\ ex_run (ls_cmd_for None (s "name") (s "xml")) ls_arts = Err.
Proof. vm_compute. repeat split. Qed.

(** ** C63 The table of art ls *)
(** A title for each column that is shown and below it the value of each artifact listed; the rows
    all have the same number of cells. *)
Theorem C63_table : forall M H reported regex path_str code_str cmd (arts : list (name * artifact M H)) rows,
  arts_ok arts -> ls_run reported regex path_str code_str cmd arts = Ok (OTable rows) ->
  let cols := filter (selected (flags_from_cmd (ls_flags cmd) (ls_all cmd) (ls_long cmd))) columns in
  (exists l, map (map texts) rows = title cols :: map (row path_str code_str reported arts cols) l) /\
  forall r, In r rows -> length r = 2 + length cols.
Proof.
  intros M H reported regex path_str code_str cmd arts rows Ha E cols.
  destruct (run_prints reported regex path_str code_str cmd arts _ Ha E) as (f & m & _ & _ & _ & _ & Hp).
  set (l := map snd (kept path_str m f arts)) in Hp.
  assert (X : map (map texts) rows = title cols :: map (row path_str code_str reported arts cols) l) by exact Hp.
  split; [exists l; exact X|]. intros r Hr. apply (in_map (map texts)) in Hr. rewrite X in Hr.
  rewrite <- (map_length texts r). destruct Hr as [<-|Hr]; [unfold title; rewrite app_length, map_length; reflexivity|].
  apply in_map_iff in Hr. destruct Hr as (a & <- & _). unfold row. rewrite app_length, map_length. reflexivity.
Qed.

(** No cell breaks its row: the text is cut to 30 characters and its line breaks are escaped. *)
Theorem C63_one_line : forall M H path_str code_str (arts : list (name * artifact M H)) a,
  ~ In c_nl (value path_str code_str arts a FdText) /\ length (value path_str code_str arts a FdText) <= 60.
Proof.
  intros M H path_str code_str arts a. cbn [value].
  assert (X : forall x, ~ In c_nl (concat (map (fun c => if N.eqb c 10 then [92; 110]%N else [c]) x)) /\
    length (concat (map (fun c => if N.eqb c 10 then [92; 110]%N else [c]) x)) <= 2 * length x).
  { induction x as [|c x (IH1 & IH2)]; [split; [intros []|cbn; lia]|]. cbn [map concat]. rewrite in_app_iff, app_length. split.
    - intros [X|X]; [|exact (IH1 X)]. destruct (N.eqb_spec c 10) as [->|Hc].
      + destruct X as [X|[X|[]]]; discriminate X.
      + destruct X as [X|[]]. apply Hc. exact X.
    - destruct (N.eqb c 10); cbn [length]; lia. }
  destruct (X (firstn 30 (a_text a))) as (X1 & X2). split; [exact X1|]. pose proof (firstn_le_length 30 (a_text a)). lia.
Qed.

(** Names are shown in the colour of their artifact, undefined ones in italics, subnames green if
    they are implemented and otherwise red. *)
Theorem C63_colours : forall M H reported (arts : list (name * artifact M H)) names, exists l,
  lookup_name_styles reported arts names = Ok (separated l) /\
  Forall2 (fun n t => match im_get name_eqb n arts with
                      | Some a => exists c, name_color (reported (fst (a_completed a))) (reported (snd (a_completed a))) = Ok c /\
                                            t = colored (n_raw (a_name a)) c
                      | None => t = italic (n_raw n)
                      end) names l.
Proof.
  intros M H reported arts names. destruct (lookup_ok M H reported arts names) as (l & E & _ & F). exists l. split; [exact E|].
  clear E. induction F as [|n t names l Hn F IH]; constructor; [|exact IH]. destruct (im_get name_eqb n arts) as [a|]; [|exact Hn].
  unfold name_style in Hn. destruct (name_color _ _) as [c| |]; try discriminate Hn. inversion Hn. eauto.
Qed.
Theorem C63_subnames : forall M H (a : artifact M H) x,
  subname_style a x = colored (s_raw x) (if match a_impl a with ICode c => im_mem sub_eqb x (ic_secondary c) | _ => false end then Green else Red).
Proof. intros M H a x. unfold subname_style. destruct (a_impl a) as [d|c|]; reflexivity. Qed.

Example C63_example : exists rows, ex_run (ls_cmd_for None (s "name") (s "list")) ls_arts = Ok (OTable rows) /\
  map (map texts) rows = [[s "spc%"; s "tst%"; s " | name"; s " | parts"];
                          [s "50.0"; s "100.0"; s " | SPC-foobar"; s " | TST-one, TST-two"];
                          [s "100.0"; s "100.0"; s " | TST-one"; s " | "]] /\
  nth 3 (nth 1 rows []) [] = [plain (s " | "); colored (s "TST-one") Green; plain (s ", "); italic (s "TST-two")].
Proof. eexists. split; [vm_compute; reflexivity|]. vm_compute. split; reflexivity. Qed.

(** ** C64 The long form of art ls *)
(** The lines of each artifact: its name and completion, and the fields that are shown, but never
    the subnames; the names of parts and partof have a line each, and so have the separators
    between them. *)
Theorem C64_long : forall M H reported regex path_str code_str cmd (arts : list (name * artifact M H)) t,
  arts_ok arts -> ls_run reported regex path_str code_str cmd arts = Ok (OLong t) ->
  exists l, texts t = concat (map (fun x => x ++ [c_nl])
    (flat_map (long path_str code_str reported with_separators arts (selected (flags_from_cmd (ls_flags cmd) (ls_all cmd) (ls_long cmd)))) l)).
Proof.
  intros M H reported regex path_str code_str cmd arts t Ha E.
  destruct (run_prints reported regex path_str code_str cmd arts _ Ha E) as (f & m & _ & _ & _ & _ & Hp).
  exists (map snd (kept path_str m f arts)). exact Hp.
Qed.
(** So a list of [n] names takes [2n - 1] lines. *)
Theorem C64_separators : forall l, length (with_separators l) = 2 * length l - 1.
Proof. induction l as [|x [|y l] IH]; [reflexivity|reflexivity|]. cbn [with_separators length] in *. lia. Qed.

(** A line for each name is what a list is for: not the case. *)
Theorem C64_items_refuted : ~ forall cmd arts t, arts_ok arts -> ex_run cmd arts = Ok (OLong t) ->
  exists l, (forall a, In a l -> In (a_name a, a) arts) /\ texts t = concat (map (fun x => x ++ [c_nl])
    (flat_map (long ls_path ls_code (fun z : F exact_num => z) (fun items => items) arts (selected (flags_from_cmd (ls_flags cmd) (ls_all cmd) (ls_long cmd)))) l)).
Proof.
  intros X. set (cmd := mkLs (Some (s "SPC")) (s "name") true (s ">0") (s ">0") flags_empty false (s "list")).
  destruct (X cmd ls_arts _ ls_arts_ok eq_refl) as (l & Hl & E). destruct l as [|a l]; [vm_compute in E; discriminate E|].
  destruct (Hl a (or_introl eq_refl)) as [Ea|[Ea|[]]]; inversion Ea; subst a; vm_compute in E; discriminate E.
Qed.

Example C64_example : exists t,
  ex_run (mkLs (Some (s "SPC")) (s "name") true (s ">0") (s ">0") flags_empty false (s "list")) ls_arts = Ok (OLong t) /\
  texts t = s "# SPC-foobar
Completed: spc=50.0%  tst=100.0%
File: p/a.md
Implemented: by hand
Parts:
- TST-one
- , 
- TST-two
Partof:
some text



".
Proof. eexists. split; [vm_compute; reflexivity|]. vm_compute. reflexivity. Qed.

(** ** C50 Project discovery *)
Definition within (r d : path) : Prop := exists q, d = r ++ q.
Lemma find_up_spec ex r : 
  (forall d, find_up ex r = Ok d <-> exists x y, r = x ++ y /\ d = rev y /\ ex (rev y ++ [s ".art"]) = true /\
     forall x1 x2, x = x1 ++ x2 -> x2 <> [] -> ex (rev (x2 ++ y) ++ [s ".art"]) = false) /\ find_up ex r <> Panic.
Proof.
  induction r as [|c r (IH & NP)].
  - cbn [find_up]. split; [|destruct (ex _); discriminate]. intros d. destruct (ex (rev [] ++ [s ".art"])) eqn:E.
    + split; [intros X; inversion X; exists [], []; repeat split; try exact E; intros x1 x2 X1; apply eq_sym, app_eq_nil in X1; destruct X1 as (_ & ->); congruence|].
      intros (x & y & X & -> & _). apply eq_sym, app_eq_nil in X. destruct X as (_ & ->). reflexivity.
    + split; [discriminate|]. intros (x & y & X & -> & X2 & _). apply eq_sym, app_eq_nil in X. destruct X as (_ & ->). congruence.
  - cbn [find_up]. destruct (ex (rev (c :: r) ++ [s ".art"])) eqn:E; (split; [|discriminate || exact NP]); intros d.
    + split.
      * intros X. inversion X. exists [], (c :: r). repeat split; [exact E|]. intros x1 x2 X1. apply eq_sym, app_eq_nil in X1. destruct X1 as (_ & ->). congruence.
      * intros (x & y & X & -> & _ & Hx). destruct x as [|c' x]; [cbn in X; subst y; reflexivity|]. exfalso.
        specialize (Hx [] (c' :: x) eq_refl). rewrite <- X in Hx. rewrite Hx in E; discriminate.
    + rewrite IH. split.
      * intros (x & y & -> & -> & X & Hx). exists (c :: x), y. repeat split; [exact X|]. intros x1 x2 X1 X2. destruct x1 as [|c1 x1].
        -- cbn in X1. subst x2. exact E.
        -- inversion X1. apply (Hx x1 x2); assumption.
      * intros (x & y & X & -> & Xe & Hx). destruct x as [|c' x]; [cbn in X; subst y; congruence|]. inversion X; subst.
        exists x, y. repeat split; [exact Xe|]. intros x1 x2 -> X2. apply (Hx (c' :: x1) x2); [reflexivity|exact X2].
Qed.

(** The directory found contains [.art], and no directory between it and the start does. *)
Theorem C50_nearest : forall ex d r, find_repo ex d = Ok r <->
  within r d /\ ex (r ++ [s ".art"]) = true /\
  forall r', within r' d -> length r < length r' -> ex (r' ++ [s ".art"]) = false.
Proof.
  intros ex d r. unfold find_repo. rewrite (proj1 (find_up_spec ex (rev d))). split.
  - intros (x & y & X & -> & E & Hx). apply (f_equal (@rev _)) in X. rewrite rev_involutive, rev_app_distr in X.
    split; [exists (rev x); exact X|]. split; [exact E|]. intros r' (q & Hq) Hl.
    set (n := length r' - length (rev y)).
    specialize (Hx (rev (skipn n (rev x))) (rev (firstn n (rev x)))).
    assert (E1 : x = rev (skipn n (rev x)) ++ rev (firstn n (rev x))) by (rewrite <- rev_app_distr, firstn_skipn, rev_involutive; reflexivity).
    assert (R : r' = rev y ++ firstn n (rev x)).
    { assert (firstn (length r') d = r') by (rewrite Hq, firstn_app, Nat.sub_diag, firstn_all, app_nil_r; reflexivity).
      rewrite <- H, X. rewrite firstn_app, firstn_all2 by lia. reflexivity. }
    rewrite rev_app_distr, rev_involutive, <- R in Hx. apply Hx; [exact E1|].
    intros X0. apply (f_equal (@length _)) in X0. rewrite rev_length in X0. rewrite R, app_length in Hl. cbn in X0. lia.
  - intros ((q & ->) & E & Hx). exists (rev q), (rev r). rewrite rev_app_distr, rev_involutive. repeat split; [exact E|].
    intros x1 x2 X X2. rewrite rev_app_distr, rev_involutive. apply Hx.
    + exists (rev x1). rewrite <- app_assoc. f_equal. rewrite <- rev_app_distr, <- X, rev_involutive. reflexivity.
    + rewrite app_length, rev_length. destruct x2; [congruence|]. cbn. lia.
Qed.

(** It fails exactly if there is none. *)
Theorem C50_fails : forall ex d, find_repo ex d = Err <-> forall r, within r d -> ex (r ++ [s ".art"]) = false.
Proof.
  intros ex d. split.
  - intros E r (q & ->). unfold find_repo in E. apply not_true_iff_false. intros Hr. rewrite rev_app_distr in E. revert E.
    induction (rev q) as [|c x IH]; cbn [app find_up].
    + destruct r as [|c r _] using rev_ind; [cbn [rev find_up]; rewrite Hr; discriminate|]. rewrite rev_app_distr. cbn [rev app find_up].
      rewrite rev_involutive, Hr. discriminate.
    + match goal with |- context [if ?b then _ else _] => destruct b end; [intros X; discriminate X|exact IH].
  - intros Hn. destruct (find_repo ex d) as [r| |] eqn:E; [|reflexivity|exfalso; exact (proj2 (find_up_spec ex (rev d)) E)].
    apply C50_nearest in E. destruct E as (W & E & _). rewrite (Hn r W) in E. discriminate E.
Qed.

(** Every directory of the project that is not within a nested one leads to it, the root included. *)
Theorem C50_within : forall ex d r, find_repo ex d = Ok r ->
  forall d', within r d' -> within d' d -> find_repo ex d' = Ok r.
Proof.
  intros ex d r E d' W W'. apply C50_nearest in E. destruct E as (_ & E & Hx). apply C50_nearest.
  split; [exact W|]. split; [exact E|]. intros r' (q & ->) Hl. apply Hx; [|exact Hl]. destruct W' as (q' & ->). exists (q ++ q').
  rewrite app_assoc. reflexivity.
Qed.

(** On a disk: a file named [.art] counts as well. *)
Definition exists_on (t : node) (p : path) : bool := match lookup t p with Some _ => true | None => false end.
Example C50_example :
  let t := NDir [(s "a", NDir [(s ".art", NDir []); (s "b", NDir [(s "c", NDir []); (s "d", NDir [(s ".art", NFile [])])])])] in
  find_repo (exists_on t) [s "a"; s "b"; s "c"] = Ok [s "a"] /\ find_repo (exists_on t) [s "a"; s "b"; s "d"] = Ok [s "a"; s "b"; s "d"] /\
  find_repo (exists_on t) [] = Err.
Proof. vm_compute. repeat split. Qed.

Print Assumptions C19_total.
Print Assumptions C19_ordered.
Print Assumptions C19_green.
Print Assumptions C19_red.
Print Assumptions C19_rounded.
Print Assumptions C19_percent.
Print Assumptions C49_accepted.
Print Assumptions C49_rejected.
Print Assumptions C49_order.
Print Assumptions C49_inverted.
Print Assumptions C49_invert_twice.
Print Assumptions C49_shown.
Print Assumptions C48_listed.
Print Assumptions C48_errors.
Print Assumptions C48_subnames.
Print Assumptions C48_completion_ignored.
Print Assumptions C48_help_refuted.
Print Assumptions C63_table.
Print Assumptions C63_one_line.
Print Assumptions C63_colours.
Print Assumptions C63_subnames.
Print Assumptions C64_long.
Print Assumptions C64_separators.
Print Assumptions C64_items_refuted.
Print Assumptions C50_nearest.
Print Assumptions C50_fails.
Print Assumptions C50_within.
