(** C56, C57, C58. *)
From Coq Require Import Lia.
From Verif Require Import Base BaseFacts Regex Name SpecName NameFacts LineFacts Artifact Source Lint SpecJoin JoinFacts JoinThms Api.

(** ** C56 *)
Lemma trim_spec base p :
  (exists q, p = base ++ c_slash :: q /\ trim_base base p = q) \/
  (exists q, p = base ++ q /\ (forall q', q <> c_slash :: q') /\ trim_base base p = q) \/
  ((forall q, p <> base ++ q) /\ trim_base base p = p).
Proof.
  unfold trim_base. destruct (starts_with p base) eqn:E.
  - apply starts_with_iff in E as [r ->]. assert (Er : skipn (length base) (base ++ r) = r).
    { rewrite skipn_app, Nat.sub_diag, skipn_all. reflexivity. }
    rewrite Er. destruct r as [|c r].
    + right. left. exists []. repeat split; auto. discriminate.
    + destruct (N.eqb_spec c c_slash) as [->|Hc]; [left; eauto|]. right. left. exists (c :: r). repeat split; auto. intros q' [= ->]. congruence.
  - right. right. split; auto. intros q ->. assert (starts_with (base ++ q) base = true) by (apply starts_with_iff; eauto). congruence.
Qed.

Lemma join_app_ne sep a b : a <> [] -> b <> [] -> join sep (a ++ b) = join sep a ++ sep ++ join sep b.
Proof.
  induction a as [|x a IH]; [congruence|]. intros _ Nb. destruct a as [|y a].
  - cbn [app]. now rewrite join_cons.
  - change ((x :: y :: a) ++ b) with (x :: (y :: a) ++ b). rewrite join_cons by discriminate. rewrite IH by (auto; discriminate).
    rewrite (join_cons sep x (y :: a)) by discriminate. now rewrite !app_assoc.
Qed.

(** A directory or file name: not empty and without slash. *)
Definition component (c : str) : Prop := c <> [] /\ ~ In c_slash c.

Lemma trim_below base q : trim_base base (base ++ c_slash :: q) = q.
Proof.
  unfold trim_base. assert (starts_with (base ++ c_slash :: q) base = true) as -> by (apply starts_with_iff; eauto).
  rewrite skipn_app, Nat.sub_diag, skipn_all. reflexivity.
Qed.

Lemma join_head r : r <> [] -> Forall component r -> exists c t, join [c_slash] r = c :: t /\ c <> c_slash.
Proof.
  intros Nr F. destruct r as [|x r]; [congruence|]. inversion F as [|? ? [Nx Hx] F']; subst. destruct x as [|c x]; [congruence|].
  exists c. destruct r as [|y r].
  - exists x. split; auto. intros ->. apply Hx. now left.
  - rewrite join_cons by discriminate. eexists. split; [reflexivity|]. intros ->. apply Hx. now left.
Qed.

(** Below the project directory: the path relative to it, without leading slash; also when the
    project directory is the root. *)
Theorem C56_below : forall (base r : path), Forall component r ->
  trim_base (path_text base) (path_text (base ++ r)) = join [c_slash] r.
Proof.
  intros base r F. destruct base as [|b base].
  - cbn [app]. unfold path_text. cbn [join]. unfold trim_base. cbn [starts_with length skipn]. rewrite N.eqb_refl. cbn [andb].
    destruct r as [|x r]; [reflexivity|]. destruct (join_head (x :: r)) as (c & t & -> & Hc); auto; [discriminate|].
    destruct (starts_with (c :: t) []) eqn:E; [|discriminate]. destruct (N.eqb_spec c c_slash); congruence.
  - destruct r as [|x r].
    + rewrite app_nil_r. unfold trim_base. assert (starts_with (path_text (b :: base)) (path_text (b :: base)) = true) as ->
        by (apply starts_with_iff; exists []; now rewrite app_nil_r). now rewrite skipn_all.
    + unfold path_text. rewrite join_app_ne by discriminate. cbn [app]. change (c_slash :: join [c_slash] (b :: base) ++ c_slash :: join [c_slash] (x :: r))
        with (path_text (b :: base) ++ c_slash :: join [c_slash] (x :: r)). apply trim_below.
Qed.
Print Assumptions C56_below.

(** A path that is not below the project directory is shown in full, except that a last component of
    the project directory which is only a part of the component of the path is cut off as well. *)
Theorem C56_elsewhere : forall (base p : path), Forall component base -> Forall component p -> (forall r, p <> base ++ r) ->
  (exists b c t r, base = b ++ [c] /\ t <> [] /\ p = b ++ [c ++ t] ++ r /\
     trim_base (path_text base) (path_text p) = join [c_slash] (t :: r)) \/
  ((forall b c t r, base = b ++ [c] -> p <> b ++ [c ++ t] ++ r) /\
   trim_base (path_text base) (path_text p) = path_text p).
Proof.
  intros base p Fb Fp Nb.
  assert (NE : base <> []) by (intros ->; now apply (Nb p)).
  assert (X : forall q : str, path_text p = path_text base ++ q -> (forall q', q <> c_slash :: q') /\
    exists b c t r, base = b ++ [c] /\ t <> [] /\ p = b ++ [c ++ t] ++ r /\ q = join [c_slash] (t :: r)).
  { clear -Fb Fp Nb NE. unfold path_text. intros q [= E]. revert p q Fp Nb E. induction base as [|x base IH]; [congruence|].
    intros p q Fp Nb E. inversion Fb as [|? ? [Nx Hx] Fb']; subst. destruct p as [|y p].
    { change (join [c_slash] []) with (@nil N) in E. destruct base; [change (join [c_slash] [x]) with x in E|rewrite join_cons in E by discriminate]; (destruct x as [|c x]; [congruence|discriminate E]). }
    inversion Fp as [|? ? [Ny Hy] Fp']; subst.
    assert (Pfx : forall u v w z : str, ~ In c_slash u -> ~ In c_slash w -> u ++ c_slash :: v = w ++ c_slash :: z -> u = w /\ v = z).
    { clear. intros u. induction u as [|c u IHu]; intros v w z Hu Hw E; destruct w as [|d w]; cbn [app] in E; [injection E as E1; subst; auto| | |].
      - injection E as E1 E2. subst. exfalso. apply Hw. now left.
      - injection E as E1 E2. subst. exfalso. apply Hu. now left.
      - injection E as E1 E2. subst. destruct (IHu v w z) as [-> ->]; auto; intros I; [apply Hu|apply Hw]; now right. }
    destruct base as [|x2 base].
    - (* the last component *)
      assert (Cut : forall u w z : str, ~ In c_slash u -> ~ In c_slash w -> forall v, w ++ v = u ++ z -> (v = [] \/ exists v', v = c_slash :: v') ->
                exists t, w = u ++ t /\ z = t ++ v).
      { clear. intros u. induction u as [|c u IHu]; intros w z Hu Hw v E Hv.
        - exists w. cbn [app] in *. auto.
        - destruct w as [|d w]; cbn [app] in E.
          + exfalso. destruct Hv as [->|[v' ->]]; [discriminate|]. injection E as <- _. apply Hu. now left.
          + injection E as <- E. destruct (IHu w z) with (v := v) as (t & -> & ->); auto; try (intros I; [apply Hu|apply Hw]; now right).
            * intros I. apply Hu. now right.
            * intros I. apply Hw. now right.
            * exists t. auto. }
      change (join [c_slash] [x]) with x in E.
      assert (Ep : exists v, join [c_slash] (y :: p) = y ++ v /\ v = match p with [] => [] | _ => c_slash :: join [c_slash] p end).
      { destruct p as [|y2 p]; [exists []; now rewrite app_nil_r|]. exists (c_slash :: join [c_slash] (y2 :: p)). now rewrite join_cons by discriminate. }
      destruct Ep as (v & Ev & Hv). rewrite Ev in E. destruct (Cut x y q Hx Hy v E) as (t & Et & Ez).
      { rewrite Hv. destruct p; eauto. }
      subst y. assert (Nt : t <> []) by (intros ->; apply (Nb p); now rewrite app_nil_r). split.
      + intros q' ->. destruct t as [|d t]; [congruence|]. injection Ez as E1 _. apply Hy. apply in_or_app. right. left. congruence.
      + exists [], x, t, p. repeat split; auto. rewrite Ez, Hv. destruct p as [|y2 p]; [now rewrite app_nil_r|]. now rewrite (join_cons _ t) by discriminate.
    - rewrite (join_cons _ x) in E by discriminate. destruct p as [|y2 p].
      + exfalso. change (join [c_slash] [y]) with y in E. apply Hy. rewrite E. rewrite <- app_assoc. apply in_or_app. right. now left.
      + rewrite (join_cons _ y) in E by discriminate. rewrite <- !app_assoc in E. cbn [app] in E.
        apply Pfx in E as [-> E]; auto.
        destruct (IH Fb' ltac:(discriminate) (y2 :: p) q) as (Q1 & b & c & t & r & -> & Nt & Ep & Eq); auto.
        { intros r0 Er. apply (Nb r0). cbn [app]. now rewrite Er. }
        split; auto. exists (x :: b), c, t, r. repeat split; auto. cbn [app]. f_equal. exact Ep. }
  destruct (trim_spec (path_text base) (path_text p)) as [(q & E & _)|[(q & E & _ & T)|(Nq & T)]].
  - exfalso. apply X in E as [E _]. now apply (E q).
  - left. apply X in E as (_ & b & c & t & r & -> & Nt & Ep & ->). exists b, c, t, r. auto.
  - right. split; auto. intros b c t r -> ->. destruct b as [|x b].
    + cbn [app] in Nq. destruct r as [|y r].
      * apply (Nq t). unfold path_text. reflexivity.
      * apply (Nq (t ++ c_slash :: join [c_slash] (y :: r))). unfold path_text. rewrite join_cons by discriminate. cbn [app]. f_equal. now rewrite <- app_assoc.
    + destruct r as [|y r].
      * apply (Nq t). unfold path_text. rewrite (join_app_ne _ (x :: b) [c]) by discriminate. rewrite (join_app_ne _ (x :: b) ([c ++ t] ++ [])) by discriminate. cbn [app]. change (join [c_slash] [c]) with c. change (join [c_slash] [c ++ t]) with (c ++ t). apply f_equal. rewrite <- !app_assoc. reflexivity.
      * apply (Nq (t ++ c_slash :: join [c_slash] (y :: r))). unfold path_text. rewrite (join_app_ne _ (x :: b) [c]) by discriminate. rewrite (join_app_ne _ (x :: b) ([c ++ t] ++ y :: r)) by discriminate. cbn [app]. rewrite (join_cons _ _ (y :: r)) by discriminate.
        change (join [c_slash] [c]) with c. apply f_equal. rewrite <- !app_assoc. reflexivity.
Qed.
Print Assumptions C56_elsewhere.

(** Hence two different files can be shown alike. *)
Theorem C56_ambiguous : exists base p q : path, Forall component base /\ Forall component p /\ Forall component q /\ p <> q /\
  trim_base (path_text base) (path_text p) = trim_base (path_text base) (path_text q).
Proof.
  exists [s "home"; s "proj"], [s "home"; s "proj"; s "x"], [s "home"; s "projx"].
  repeat split; try (repeat constructor; try discriminate; vm_compute; intuition discriminate); vm_compute; try reflexivity; discriminate.
Qed.
Print Assumptions C56_ambiguous.

Example C56_example :
  trim_base (s "/home/proj") (s "/home/proj/src/a.rs") = s "src/a.rs" /\ trim_base (s "/") (s "/src/a.rs") = s "src/a.rs" /\
  trim_base (s "/home/proj") (s "/home/proj2/a.rs") = s "2/a.rs" /\ trim_base (s "/home/proj") (s "/tmp/a.rs") = s "/tmp/a.rs".
Proof. vm_compute. auto. Qed.

(** ** C57 *)

(** The text asks for what the reference is a reference to. *)
Definition asks (x : str) (sub : option str) (r : src_ref) : Prop :=
  str_ci x (n_raw (ref_name r)) /\
  match sub, ref_sub r with
  | None, None => True
  | Some y, Some z => str_ci y (s_raw z)
  | _, _ => False
  end.

Lemma str_ci_sym x y : str_ci x y -> str_ci y x.
Proof. rewrite !str_ci_upper. auto. Qed.
Lemma str_ci_trans x y z : str_ci x y -> str_ci y z -> str_ci x z.
Proof. rewrite !str_ci_upper. congruence. Qed.

Lemma element_ci e e' : str_ci e e' -> element e -> element e'.
Proof. intros C [Ne F]. split; [|now apply (ci_word_all e)]. intros ->. inversion C. congruence. Qed.

Lemma dash_ci c : char_ci 45 c -> c = 45%N.
Proof. unfold char_ci. lia. Qed.

Lemma join_ci l : l <> [] -> forall y, str_ci (join [45%N] l) y -> exists l', Forall2 str_ci l l' /\ y = join [45%N] l'.
Proof.
  induction l as [|x l IH]; [congruence|]. intros _ y C. destruct l as [|x2 l].
  - exists [y]. split; [|reflexivity]. constructor; auto.
  - rewrite join_cons in C by discriminate. apply Forall2_app_inv_l in C as (y1 & y2 & C1 & C2 & ->).
    inversion C2 as [|? c ? y3 Hc C3]; subst. apply dash_ci in Hc as ->. cbn [app] in C3. apply IH in C3 as (l' & F & ->); [|discriminate].
    exists (y1 :: l'). split; [constructor; auto|]. rewrite join_cons; [reflexivity|]. intros ->. inversion F.
Qed.

Lemma valid_name_ci x y : str_ci x y -> valid_name x -> valid_name y.
Proof.
  intros C (t & p & es & It & Tp & Ne & Fe & ->). apply join_ci in C as (l & F & ->); [|discriminate].
  inversion F as [|? p' ? es' Hp F']; subst. exists t, p', es'. split; auto. split; [now apply (str_ci_trans _ p)|]. split; [intros ->; inversion F'; congruence|].
  split; [|reflexivity]. clear -Fe F'. induction F' as [|e e' l l' He F IH]; constructor; inversion Fe; subst; auto. now apply (element_ci e).
Qed.

Lemma valid_sub_ci x y : str_ci x y -> valid_sub x -> valid_sub y.
Proof.
  intros C (e & He & H). destruct H as [->|(t & Ht & ->)]; inversion C as [|? c ? z Hc C']; subst;
    assert (c = 46%N) as -> by (unfold char_ci in Hc; lia).
  - exists z. split; [now apply (element_ci e)|now left].
  - apply Forall2_app_inv_l in C' as (t' & w & Ct & Cw & ->). inversion Cw as [|? d ? e' Hd Ce]; subst. apply dash_ci in Hd as ->.
    exists e'. split; [now apply (element_ci e)|]. right. exists t'. split; auto. destruct Ht as [Ht|Ht]; [left|right]; now apply (str_ci_trans _ t).
Qed.

Lemma get_impl_listed refs n x sub l : name_from_str x = Ok n ->
  get_impl (snd (join_locations refs)) x sub = Ok l <->
  exists so, match sub with None => so = None | Some y => exists z, sub_from_str y = Ok z /\ so = Some z end /\
    listed_k (snd (join_locations refs)) n so l.
Proof.
  intros En. unfold get_impl. rewrite En. cbn [res_bind]. destruct (join_shape refs) as (sec & _ & _ & ND & _). split.
  - destruct (im_get name_eqb n (snd (join_locations refs))) as [c|] eqn:G; [|discriminate].
    apply (get_some_in name_eqb nk name_eqb_iff) in G as (n' & Ek & Hin). destruct sub as [y|].
    + destruct (sub_from_str y) as [z| |] eqn:Ez; cbn [res_bind]; try discriminate.
      destruct (im_get sub_eqb z (ic_secondary c)) as [l'|] eqn:G; [|discriminate]. intros [= ->].
      apply (get_some_in sub_eqb s_key sub_eqb_iff) in G as (z' & Ez' & Hz). exists (Some z). split; [eauto|]. exists n', c. repeat split; auto. eauto.
    + destruct (ic_primary c) as [l'|] eqn:Ep; [|discriminate]. intros [= ->]. exists None. split; auto. exists n', c. auto.
  - intros (so & Hs & L). pose proof L as L0. destruct L as (n' & c & Hin & Ek & H).
    rewrite (get_proj name_eqb nk name_eqb_iff _ _ _ (eq_sym Ek)), (in_get name_eqb nk name_eqb_iff _ _ _ ND Hin).
    destruct sub as [y|].
    + destruct Hs as (z & -> & ->). cbn [res_bind]. destruct H as (z' & Ez & Hz).
      destruct (im_get sub_eqb z (ic_secondary c)) as [l'|] eqn:G.
      * apply (get_some_in sub_eqb s_key sub_eqb_iff) in G as (z2 & Ez2 & Hz2). f_equal.
        assert (L' : listed_k (snd (join_locations refs)) n (Some z) l') by (exists n', c; repeat split; eauto).
        apply listed_get in L0, L'. congruence.
      * exfalso. apply (proj1 (get_none_iff sub_eqb s_key sub_eqb_iff _ _) G). rewrite <- Ez. unfold pkeys. apply in_map_iff. exists (z', l). auto.
    + subst so. now rewrite H.
Qed.

Lemma asks_key x sub r n so : name_from_str x = Ok n -> match sub with None => so = None | Some y => exists z, sub_from_str y = Ok z /\ so = Some z end ->
  ref_wf r -> asks x sub r <-> rkey r = (nk n, option_map s_key so).
Proof.
  intros En Hs [Wn Ws]. apply from_str_wf in En as [Wn' <-]. unfold asks, rkey, r_name, r_sub. fold (ref_name r) (ref_sub r).
  rewrite <- (name_eqb_ci n (ref_name r) Wn' Wn), name_eqb_iff.
  assert (E : match sub, ref_sub r with None, None => True | Some y, Some z => str_ci y (s_raw z) | _, _ => False end <->
              option_map s_key (ref_sub r) = option_map s_key so).
  { destruct sub as [y|].
    - destruct Hs as (z & Ez & ->). apply sub_ok in Ez as [-> _]. destruct (ref_sub r) as [w|]; cbn [option_map]; [|split; [tauto|discriminate]].
      specialize (Ws w eq_refl). apply sub_ok in Ws as [Ew _]. rewrite Ew. cbn [s_raw s_key sub_new]. rewrite str_ci_upper. split; [intros ->; auto|intros [= <-]; auto].
    - subst so. destruct (ref_sub r) as [w|]; cbn [option_map]; split; auto; try tauto; discriminate. }
  rewrite E. split; [intros [-> ->]; auto|]. intros H. split; [symmetry; exact (f_equal fst H)|exact (f_equal snd H)].
Qed.

(** The location found is that of the last reference to the thing asked for, in any spelling. *)
Theorem C57_exact : forall refs, Forall ref_wf refs -> forall x sub l,
  get_impl (snd (join_locations refs)) x sub = Ok l <->
  exists a r b, refs = a ++ r :: b /\ asks x sub r /\ (forall r', In r' b -> ~ asks x sub r') /\ ref_loc r = l.
Proof.
  intros refs W x sub l. destruct (name_from_str x) as [n| |] eqn:En.
  - rewrite (get_impl_listed refs n x sub l En). split.
    + intros (so & Hs & L). apply listed_get in L. apply (ji_get _ _ (join_inv_all refs)) in L as (a & r & b & E & Ek & El & Hb).
      rewrite Forall_forall in W. assert (Hr : In r refs) by (rewrite E; apply in_or_app; right; now left).
      exists a, r, b. repeat split; auto; try apply (asks_key x sub r n so En Hs (W r Hr)); auto.
      * intros r' Hr' A. apply (Hb r' Hr'). rewrite Ek. apply (asks_key x sub r' n so En Hs); auto. apply W. rewrite E. apply in_or_app. right. now right.
    + intros (a & r & b & E & A & Hb & El). rewrite Forall_forall in W. assert (Hr : In r refs) by (rewrite E; apply in_or_app; right; now left).
      assert (exists so, match sub with None => so = None | Some y => exists z, sub_from_str y = Ok z /\ so = Some z end) as [so Hs].
      { destruct sub as [y|]; [|eauto]. destruct A as [_ A]. destruct (ref_sub r) as [z|] eqn:Ez; [|destruct A].
        destruct (W r Hr) as [_ Wz]. specialize (Wz z Ez).
        assert (exists z', sub_from_str y = Ok z') as [z' Ez']; [|eauto].
        apply sub_accept. apply sub_ok in Wz as [_ V]. apply (valid_sub_ci (s_raw z)); auto. now apply str_ci_sym. }
      exists so. split; auto. apply listed_get. apply (ji_get _ _ (join_inv_all refs)). exists a, r, b. repeat split; auto.
      * now apply (asks_key x sub r n so En Hs (W r Hr)).
      * intros r' Hr' Ek. apply (Hb r' Hr'). apply (asks_key x sub r' n so En Hs); auto; [|rewrite Ek; now apply (asks_key x sub r n so En Hs (W r Hr))]. apply W. rewrite E. apply in_or_app. right. now right.
  - unfold get_impl. rewrite En. cbn [res_bind]. split; [discriminate|]. intros (a & r & b & -> & [A _] & _). exfalso.
    rewrite Forall_forall in W. destruct (W r) as [Wn _]; [apply in_or_app; right; now left|].
    apply name_err in En as [Nv _]. apply Nv. apply (valid_name_ci (n_raw (ref_name r))); [now apply str_ci_sym|]. apply name_accept. eauto.
  - unfold get_impl. rewrite En. cbn [res_bind]. split; [discriminate|]. intros (a & r & b & -> & [A _] & _). exfalso.
    rewrite Forall_forall in W. destruct (W r) as [Wn _]; [apply in_or_app; right; now left|].
    assert (V : valid_name x) by (apply (valid_name_ci (n_raw (ref_name r))); [now apply str_ci_sym|]; apply name_accept; eauto).
    apply name_accept in V as [n' V]. congruence.
Qed.
Print Assumptions C57_exact.

(** It panics only for a name whose type is spelled with a long s. *)
Theorem C57_panics : forall code x sub, get_impl code x sub = Panic <-> longs_name x.
Proof.
  intros code x sub. rewrite <- name_panic. unfold get_impl. destruct (name_from_str x) as [n| |]; cbn [res_bind]; [|split; discriminate|tauto].
  split; [|discriminate]. destruct (im_get name_eqb n code) as [c|]; [|discriminate]. destruct sub as [y|].
  - destruct (sub_from_str y) as [z| |] eqn:E; cbn [res_bind]; try discriminate; [|now apply sub_no_panic in E].
    destruct (im_get sub_eqb z (ic_secondary c)); discriminate.
  - destruct (ic_primary c); discriminate.
Qed.
Print Assumptions C57_panics.

(** ** C58 *)
Theorem C58_kinds : forall x k, kind_from_str x = Some k <-> x = kind_str k.
Proof.
  intros x k. split; [|intros ->; destruct k; reflexivity]. unfold kind_from_str.
  repeat match goal with |- (if ?b then _ else _) = _ -> _ => destruct b eqn:?E; [intros [= <-]; now apply str_eqb_eq|clear E] end.
  discriminate.
Qed.
Print Assumptions C58_kinds.

Theorem C58_methods : forall x m, method_from_str x = Some m <-> x = method_str m.
Proof.
  intros x m. split; [|intros ->; destruct m; reflexivity]. unfold method_from_str.
  repeat match goal with |- (if ?b then _ else _) = _ -> _ => destruct b eqn:?E; [intros [= <-]; now apply str_eqb_eq|clear E] end.
  discriminate.
Qed.
Print Assumptions C58_methods.

Example C57_example : exists refs, Forall ref_wf refs /\
  get_impl (snd (join_locations refs)) (s "spc-A") (Some (s ".X")) = Ok (mkLoc [s "c"] 3) /\
  get_impl (snd (join_locations refs)) (s "SPC-a") None = Ok (mkLoc [s "b"] 2) /\
  get_impl (snd (join_locations refs)) (s "SPC-b") None = Err.
Proof.
  exists [(mkLoc [s "a"] 1, mkName SPC (s "SPC-A") (s "SPC-a"), Some (sub_new (s ".x")));
          (mkLoc [s "b"] 2, mkName SPC (s "SPC-A") (s "Spc-a"), None);
          (mkLoc [s "c"] 3, mkName SPC (s "SPC-A") (s "SPC-A"), Some (sub_new (s ".x")))].
  split; [|vm_compute; auto].
  repeat apply Forall_cons; try apply Forall_nil; (split; [vm_compute; reflexivity|intros x E; cbn in E; try discriminate E; injection E as <-; vm_compute; reflexivity]).
Qed.
Example C58_example : kind_from_str (s "HashMismatch") = Some HashMismatch /\ kind_from_str (s "hashMismatch") = None /\ method_from_str (s "ModifyProject") = Some ModifyProject.
Proof. vm_compute. auto. Qed.
