(** Facts about the operations of a modify request. *)
From Coq Require Import Permutation Lia ZifyBool.
From Verif Require Import Base BaseFacts Name Artifact Stored Lint Load Disk Walk WalkFacts Modify SpecWalk SpecModify.

Lemma flat_map_nil {A B} (f : A -> list B) l : flat_map f l = [] <-> forall x, In x l -> f x = [].
Proof.
  induction l as [|x l IH]; cbn [flat_map]; [split; [intros _ y []|auto]|]. split.
  - intros E. apply app_eq_nil in E as [E1 E2]. intros y [<-|Hy]; auto. now apply IH.
  - intros E. rewrite (E x (or_introl eq_refl)). apply IH. intros y Hy. apply E. now right.
Qed.

Lemma nodup_app_inv {A} (l r : list A) : NoDup (l ++ r) -> NoDup l /\ NoDup r /\ forall x, In x l -> ~ In x r.
Proof.
  induction l as [|x l IH]; cbn [app]; [intros N; split; [constructor|]; auto|]. intros N. inversion N as [|? ? Nx N']; subst.
  destruct (IH N') as (A1 & A2 & A3). split; [constructor; auto; intros X; apply Nx, in_or_app; auto|]. split; auto.
  intros y [<-|Hy]; auto. intros X. apply Nx, in_or_app. auto.
Qed.

Lemma path_prefix_iff p q : path_prefix p q = true <-> below p q.
Proof.
  revert p. induction q as [|y q IH]; intros p.
  - destruct p; split; auto; intros _; eexists; reflexivity.
  - destruct p as [|x p]; [split; [discriminate|intros [z E]; discriminate E]|]. change (path_prefix (x :: p) (y :: q)) with (str_eqb x y && path_prefix p q)%bool. rewrite Bool.andb_true_iff, IH, str_eqb_eq. split.
    + intros [-> [z ->]]. now exists z.
    + intros [z E]. injection E as -> ->. split; auto. now exists z.
Qed.

Lemma check_path_ok path_str st p : check_path path_str st p = [] <->
  known_extension p /\ (exists r, In r (se_arts st) /\ below p r) /\
  forall e r, In e (se_xarts st) -> In r (se_arts st) -> below p e -> below p r -> ~ below r e.
Proof.
  unfold check_path. destruct (art_type_of p) as [ty|] eqn:Ty.
  - assert (K : known_extension p) by (apply art_type_iff; congruence).
    assert (V : forall r, In r (filter (path_prefix p) (se_arts st)) <-> In r (se_arts st) /\ below p r) by (intros r; rewrite filter_In, path_prefix_iff; tauto).
    destruct (filter (path_prefix p) (se_arts st)) as [|v vs] eqn:F; cbn [is_nil].
    + split; [discriminate|]. intros (_ & (r & Hr) & _). destruct (proj2 (V r) Hr).
    + rewrite flat_map_nil. split.
      * intros Hx. split; auto. split; [exists v; apply V; now left|]. intros e r He Hr Be Br Bre. specialize (Hx e He).
        rewrite (proj2 (path_prefix_iff p e) Be) in Hx. cbn [andb] in Hx.
        rewrite (proj2 (existsb_exists _ (v :: vs))) in Hx; [discriminate Hx|]. exists r. split; [now apply V|now apply path_prefix_iff].
      * intros (_ & _ & Hx) e He. destruct (path_prefix p e && existsb (fun v => path_prefix v e) (v :: vs)) eqn:X; auto. exfalso.
        apply Bool.andb_true_iff in X as [X1 X2]. apply existsb_exists in X2 as (r & Hr & Br). apply V in Hr as [Hr Bp].
        apply path_prefix_iff in X1, Br. exact (Hx e r He Hr X1 Bp Br).
  - split; [discriminate|]. intros (K & _). apply art_type_iff in K. congruence.
Qed.

Section Ops.
  Context {H : Type}.
  Variable heqb : H -> H -> bool.
  Variable heqb_iff : forall a b, heqb a b = true <-> a = b.
  Variable hash_im : art_im -> H.
  Variable debug_im : art_im -> str.
  Notation op := (op H).
  Notation noop := (noop hash_im).
  Notation ids_in := (ids_in hash_im).
  Notation takes := (takes hash_im).
  Notation get := (im_get heqb).
  Notation perform := (perform_operations H heqb hash_im debug_im).
  Notation one := (perform_one H heqb hash_im debug_im).

  Lemma heqb_id a b : heqb a b = true <-> (fun x : H => x) a = (fun x => x) b.
  Proof. apply heqb_iff. Qed.
  Lemma heqb_refl a : heqb a a = true.
  Proof. now apply heqb_iff. Qed.
  Lemma h_dec (a b : H) : {a = b} + {a <> b}.
  Proof. destruct (heqb a b) eqn:E; [left; now apply heqb_iff|right; intros X; apply heqb_iff in X; congruence]. Qed.
  Lemma noop_iff o : opt_eqb H heqb (op_new H hash_im o) (op_orig H o) = true <-> noop o.
  Proof.
    destruct o as [a|a i|n i]; cbn [opt_eqb op_new op_orig].
    - split; [discriminate|]. intros [b E]. discriminate E.
    - rewrite heqb_iff. split; [intros <-; now exists a|]. intros [b E]. now injection E as -> ->.
    - split; [discriminate|]. intros [b E]. discriminate E.
  Qed.
  Definition is_noop (o : op) : bool := opt_eqb H heqb (op_new H hash_im o) (op_orig H o).
  (** The ids of the operations that are not no-ops. *)
  Definition busy (ops : list op) : list H := flat_map ids_in (filter (fun o => negb (is_noop o)) ops).

  Lemma busy_app l r : busy (l ++ r) = busy l ++ busy r.
  Proof. unfold busy. now rewrite filter_app, flat_map_app. Qed.
  Lemma busy_in ops i : In i (busy ops) <-> exists o, In o ops /\ ~ noop o /\ In i (ids_in o).
  Proof.
    unfold busy. rewrite in_flat_map. split.
    - intros (o & Ho & Hi). apply filter_In in Ho as [Ho E]. exists o. split; auto. split; auto. intros X. apply noop_iff in X. unfold is_noop in E. now rewrite X in E.
    - intros (o & Ho & N & Hi). exists o. split; auto. apply filter_In. split; auto. unfold is_noop. destruct (opt_eqb H heqb (op_new H hash_im o) (op_orig H o)) eqn:E; auto. now apply noop_iff in E.
  Qed.

  Lemma insert_in h ids x : In x (is_insert heqb h ids) <-> x = h \/ In x ids.
  Proof.
    unfold is_insert. destruct (is_mem heqb h ids) eqn:E.
    - apply (proj1 (is_mem_iff heqb (fun x => x) heqb_id h ids)) in E. rewrite map_id in E. split; auto. intros [->|]; auto.
    - rewrite in_app_iff. cbn [In]. intuition.
  Qed.
  Lemma mem_in h ids : is_mem heqb h ids = true <-> In h ids.
  Proof. rewrite (is_mem_iff heqb (fun x => x) heqb_id h ids), map_id. tauto. Qed.

  Lemma overlap_nil ops : forall ids, check_overlap H heqb hash_im ids ops = [] <->
    NoDup (busy ops) /\ forall i, In i (busy ops) -> ~ In i ids.
  Proof.
    induction ops as [|o ops IH]; intros ids; cbn [check_overlap].
    { cbn. split; [intros _; split; [constructor|intros i []]|auto]. }
    assert (Bc : busy (o :: ops) = if is_noop o then busy ops else ids_in o ++ busy ops) by (unfold busy; cbn [filter]; destruct (is_noop o); reflexivity).
    rewrite Bc. unfold is_noop. destruct (opt_eqb H heqb (op_new H hash_im o) (op_orig H o)) eqn:E; [apply IH|].
    assert (T : forall i n ids, take_id H heqb ids (Some i) n = (is_insert heqb i ids, if is_mem heqb i ids then [plain_lint CIdOverlap (s "Attempting to operate twice on " ++ n_raw n)] else [])) by reflexivity.
    assert (T0 : forall n ids, take_id H heqb ids None n = (ids, [])) by reflexivity.
    assert (X : forall A (l : list A) b (x : A), (if b : bool then [x] else []) ++ l = [] <-> b = false /\ l = []) by (intros A l [] x; cbn; split; [discriminate|intros [Y _]; discriminate Y|auto|tauto]).
    assert (F : forall h ids, is_mem heqb h ids = false <-> ~ In h ids) by (intros h l; rewrite <- mem_in; destruct (is_mem heqb h l); split; congruence).
    assert (NC : forall A (x : A) l, NoDup (x :: l) <-> ~ In x l /\ NoDup l) by (intros A x l; apply NoDup_cons_iff).
    destruct o as [a|a i|n i]; cbn [op_new op_orig op_name] in *; rewrite ?T, ?T0, ?T; cbn [app]; cbn [SpecModify.ids_in app].
    - rewrite X, F, IH, NC. split.
      + intros (A & B & C). split; [split; auto; intros D; apply (C _ D), insert_in; auto|]. intros j [<-|Hj]; auto. intros K. apply (C j Hj), insert_in. auto.
      + intros [[A B] C]. split; [apply C; now left|]. split; auto. intros j Hj K. apply insert_in in K as [->|K]; [contradiction|]. apply (C j (or_intror Hj) K).
    - rewrite X, X, !F, IH, !NC. split.
      + intros (A & B & C & D). split; [split; [|split; auto]|].
        * intros [->|K]; [apply B, insert_in; auto|]. apply (D _ K), insert_in. right. apply insert_in. auto.
        * intros K. apply (D _ K), insert_in. auto.
        * intros j [<-|[<-|Hj]]; auto; [intros K; apply B, insert_in; auto|]. intros K. apply (D j Hj), insert_in. right. apply insert_in. auto.
      + intros [(A & B & C) D]. split; [apply D; now left|]. split; [|split; auto].
        * intros K. apply insert_in in K as [->|K]; [apply A; now left|]. apply (D i); [right; now left|auto].
        * intros j Hj K. apply insert_in in K as [->|K]; [contradiction|]. apply insert_in in K as [->|K]; [apply A; now right|]. apply (D j); [right; now right|auto].
    - rewrite X, F, IH, NC. split.
      + intros (A & B & C). split; [split; auto; intros D; apply (C _ D), insert_in; auto|]. intros j [<-|Hj]; auto. intros K. apply (C j Hj), insert_in. auto.
      + intros [[A B] C]. split; [apply C; now left|]. split; auto. intros j Hj K. apply insert_in in K as [->|K]; [contradiction|]. apply (C j (or_intror Hj) K).
  Qed.
  Corollary overlap_iff ops : check_overlap H heqb hash_im [] ops = [] <-> NoDup (busy ops).
  Proof. rewrite overlap_nil. split; [tauto|]. intros N. split; auto. Qed.

  Notation pk m := (map (fun e : H * art_im => (fun x : H => x) (fst e)) m).

  Lemma one_errs acc o : exists l, fst (one acc o) = fst acc ++ l.
  Proof.
    destruct acc as [errs m]. destruct o as [a|a i|n i]; cbn [perform_one].
    - destruct (get (hash_im a) m); cbn [fst]; [eexists; reflexivity|exists []; now rewrite app_nil_r].
    - destruct (get i m); cbn [fst]; [exists []; now rewrite app_nil_r|eexists; reflexivity].
    - destruct (get i m); cbn [fst]; [exists []; now rewrite app_nil_r|eexists; reflexivity].
  Qed.
  Lemma perform_snoc ops o m : perform (ops ++ [o]) m = one (perform ops m) o.
  Proof. unfold perform_operations. now rewrite fold_left_app. Qed.
  Lemma perform_snoc_ok ops o m m2 : perform (ops ++ [o]) m = ([], m2) ->
    exists m1, perform ops m = ([], m1) /\ one ([], m1) o = ([], m2).
  Proof.
    rewrite perform_snoc. intros E. destruct (perform ops m) as [e m1] eqn:E1. destruct (one_errs (e, m1) o) as [l L]. rewrite E in L. cbn [fst] in L.
    symmetry in L. apply app_eq_nil in L as [-> _]. eauto.
  Qed.

  (** One operation that is accepted. *)
  Lemma one_ok m o m2 : NoDup (pk m) -> one ([], m) o = ([], m2) ->
    NoDup (pk m2) /\
    match o with
    | OCreate a => get (hash_im a) m = None /\ forall i, get i m2 = if h_dec (hash_im a) i then Some a else get i m
    | OUpdate a j => get j m <> None /\ forall i, get i m2 = if h_dec (hash_im a) i then Some a else if h_dec j i then None else get i m
    | ODelete _ j => get j m <> None /\ forall i, get i m2 = if h_dec j i then None else get i m
    end.
  Proof.
    intros ND. assert (R : forall m j, NoDup (pk m) -> NoDup (pk (im_remove heqb j m))) by (intros mm j Hm; exact (nodup_remove heqb (fun x => x) heqb_id mm j Hm)).
    assert (I : forall m j a, NoDup (pk m) -> NoDup (pk (im_insert heqb j a m))) by (intros mm j a Hm; exact (nodup_insert heqb (fun x => x) heqb_id mm j a Hm)).
    assert (G : forall (m : ids_map H) j a i, get i (im_insert heqb j a m) = if h_dec j i then Some a else get i m).
    { intros mm j a i. destruct (h_dec j i) as [->|N]; [exact (get_insert_same heqb (fun x => x) heqb_id mm i a)|exact (get_insert_other heqb (fun x => x) heqb_id mm j i a N)]. }
    assert (GR : forall (m : ids_map H) j i, NoDup (pk m) -> get i (im_remove heqb j m) = if h_dec j i then None else get i m).
    { intros mm j i Hm. rewrite (get_remove heqb (fun x => x) heqb_id mm j i Hm). destruct (h_dec j i) as [->|N]; [now rewrite heqb_refl|]. destruct (heqb j i) eqn:X; auto. now apply heqb_iff in X. }
    destruct o as [a|a j|n j]; cbn [perform_one]; intros E.
    - destruct (get (hash_im a) m) eqn:X; [discriminate E|]. injection E as <-. auto.
    - destruct (get j m) eqn:X; [|discriminate E]. injection E as <-. split; auto. split; [discriminate|]. intros i. now rewrite G, GR.
    - destruct (get j m) eqn:X; [|discriminate E]. injection E as <-. split; auto. split; [discriminate|]. intros i. now apply GR.
  Qed.

  Lemma noop_dec o : {noop o} + {~ noop o}.
  Proof. destruct (opt_eqb H heqb (op_new H hash_im o) (op_orig H o)) eqn:E; [left; now apply noop_iff|right; intros X; apply noop_iff in X; congruence]. Qed.

  Lemma busy_snoc ops o : NoDup (busy (ops ++ [o])) -> NoDup (busy ops) /\ (~ noop o -> NoDup (ids_in o) /\ forall i, In i (ids_in o) -> ~ In i (busy ops)).
  Proof.
    rewrite busy_app. intros N.
    assert (B : ~ noop o -> busy [o] = ids_in o).
    { intros X. unfold busy. cbn [filter]. unfold is_noop. destruct (opt_eqb H heqb (op_new H hash_im o) (op_orig H o)) eqn:E; [now apply noop_iff in E|]. cbn. apply app_nil_r. }
    destruct (nodup_app_inv _ _ N) as (N1 & N2 & D). split; auto. intros X. rewrite (B X) in N2, D. split; auto. intros i Hi Hb. now apply (D i Hb).
  Qed.

  Lemma stores_cases (o : op) a : stores o a -> match o with OCreate b => b = a | OUpdate b _ => b = a | ODelete _ _ => False end.
  Proof. intros [->|[i ->]]; reflexivity. Qed.
  Lemma targets_cases (o : op) i : targets o i <-> match o with OCreate _ => False | OUpdate _ j => j = i | ODelete _ j => j = i end.
  Proof.
    split; [intros [[a ->]|[n ->]]; reflexivity|]. destruct o as [a|a j|n j]; [intros []|intros <-; left; now exists a|intros <-; right; now exists n].
  Qed.
  Lemma stores_id o a : stores o a -> In (hash_im a) (ids_in o).
  Proof. intros [->|[i ->]]; now left. Qed.
  Lemma targets_id o i : targets o i -> In i (ids_in o).
  Proof. intros [[a ->]|[n ->]]; [right; now left|now left]. Qed.

  (** Where what is present came from. *)
  Lemma present_before ops : forall m m2, NoDup (pk m) -> perform ops m = ([], m2) -> NoDup (pk m2) /\
    forall i, get i m2 <> None -> get i m <> None \/ exists o a, In o ops /\ ~ noop o /\ stores o a /\ hash_im a = i.
  Proof.
    induction ops as [|o ops IH] using rev_ind; intros m m2 ND E.
    - cbn in E. injection E as <-. auto.
    - apply perform_snoc_ok in E as (m1 & E1 & E2). destruct (IH m m1 ND E1) as [N1 P1]. destruct (one_ok m1 o m2 N1 E2) as [N2 P2]. split; auto.
      intros i Gi. assert (L : forall j, get j m1 <> None -> get j m <> None \/ exists o' a, In o' (ops ++ [o]) /\ ~ noop o' /\ stores o' a /\ hash_im a = j).
      { intros j Hj. destruct (P1 j Hj) as [|(o' & a & Ho & X)]; [now left|]. right. exists o', a. split; auto. apply in_or_app. now left. }
      assert (Last : In o (ops ++ [o])) by (apply in_or_app; right; now left).
      destruct o as [a|a j|n j]; destruct P2 as [Pg P2]; rewrite P2 in Gi.
      + destruct (h_dec (hash_im a) i) as [<-|N]; [|now apply L]. right. exists (OCreate a), a. repeat split; auto; [intros [b X]; discriminate X|now left].
      + destruct (h_dec (hash_im a) i) as [<-|N].
        * destruct (h_dec (hash_im a) j) as [<-|Nj]; [now apply L|]. right. exists (OUpdate a j), a. repeat split; auto; [intros [b X]; injection X as -> ->; contradiction|right; now exists j].
        * destruct (h_dec j i); [congruence|now apply L].
      + destruct (h_dec j i); [congruence|now apply L].
  Qed.

  Theorem perform_get ops : forall m m2, NoDup (pk m) -> check_overlap H heqb hash_im [] ops = [] -> perform ops m = ([], m2) ->
    forall i a, get i m2 = Some a <->
      ~ taken hash_im ops i /\ (last_stored hash_im ops i a \/ (~ stored hash_im ops i /\ get i m = Some a)).
  Proof.
    induction ops as [|o ops IH] using rev_ind; intros m m2 ND Ov E i a.
    - cbn in E. injection E as <-. split.
      + intros G. split; [intros (o & [] & _)|]. right. split; auto. intros (o & b & [] & _).
      + intros (_ & [(l & o & r & X & _)|[_ G]]); auto. destruct l; discriminate X.
    - apply perform_snoc_ok in E as (m1 & E1 & E2). apply overlap_iff in Ov. destruct (busy_snoc ops o Ov) as [Bn Bo].
      assert (Ov1 : check_overlap H heqb hash_im [] ops = []) by now apply overlap_iff.
      specialize (IH m m1 ND Ov1 E1). destruct (present_before ops m m1 ND E1) as [N1 _]. destruct (one_ok m1 o m2 N1 E2) as [_ P2].
      assert (Tk : taken hash_im (ops ++ [o]) i <-> taken hash_im ops i \/ takes o i).
      { unfold taken. split.
        - intros (o' & Ho & T). apply in_app_or in Ho as [Ho|[<-|[]]]; [left; now exists o'|now right].
        - intros [(o' & Ho & T)|T]; [exists o'; split; auto; apply in_or_app; now left|exists o; split; auto; apply in_or_app; right; now left]. }
      assert (St : stored hash_im (ops ++ [o]) i <-> stored hash_im ops i \/ exists b, stores o b /\ hash_im b = i).
      { unfold stored. split.
        - intros (o' & b & Ho & T). apply in_app_or in Ho as [Ho|[<-|[]]]; [left; now exists o', b|right; now exists b].
        - intros [(o' & b & Ho & T)|(b & T)]; [exists o', b; split; auto; apply in_or_app; now left|exists o, b; split; auto; apply in_or_app; right; now left]. }
      assert (Ls : forall b, last_stored hash_im (ops ++ [o]) i b <->
                     (stores o b /\ hash_im b = i) \/ (last_stored hash_im ops i b /\ forall c, stores o c -> hash_im c <> i)).
      { intros b. unfold last_stored. split.
        - intros (l & o' & r & X & S' & Hb & L). destruct r as [|z r _] using rev_ind.
          + apply app_inj_tail in X as [-> ->]. left. auto.
          + replace (l ++ o' :: r ++ [z]) with ((l ++ o' :: r) ++ [z]) in X by now rewrite <- app_assoc.
            apply app_inj_tail in X as [-> ->]. right. split.
            * exists l, o', r. repeat split; auto. intros o2 c Ho Sc. apply (L o2 c); auto. apply in_or_app. now left.
            * intros c Sc. apply (L z c); auto. apply in_or_app. right. now left.
        - intros [[S' Hb]|[(l & o' & r & -> & S' & Hb & L) Lo]].
          + exists ops, o, []. repeat split; auto.
          + exists l, o', (r ++ [o]). split; [now rewrite <- app_assoc|]. repeat split; auto. intros o2 c Ho Sc.
            apply in_app_or in Ho as [Ho|[<-|[]]]; [now apply (L o2 c)|now apply Lo]. }
      rewrite Tk, St, Ls.
      assert (NotTaken : forall j, ~ noop o -> In j (ids_in o) -> ~ taken hash_im ops j).
      { intros j Hn Hj (o' & Ho & [T Tn]). destruct (Bo Hn) as [_ D]. apply (D j Hj), busy_in. exists o'. split; auto. split; auto. now apply targets_id. }
      destruct o as [b|b j|n j]; destruct P2 as [Pg P2]; rewrite P2.
      + assert (Hn : ~ noop (OCreate b)) by (intros [c X]; discriminate X).
        assert (Tn : ~ takes (OCreate b) i) by (intros [T _]; now apply targets_cases in T).
        destruct (h_dec (hash_im b) i) as [<-|N].
        * split.
          -- intros X. injection X as <-. split; [|left; left; split; auto; now left]. intros [T|T]; [|contradiction]. apply (NotTaken (hash_im b)); auto. now left.
          -- intros [_ [[[S' _]|[_ L]]|[Ns _]]].
             ++ apply stores_cases in S'. now subst.
             ++ exfalso. apply (L b); auto. now left.
             ++ exfalso. apply Ns. right. exists b. split; auto. now left.
        * rewrite IH. assert (NS : forall c, stores (OCreate b) c -> hash_im c <> i) by (intros c Sc; apply stores_cases in Sc; now subst).
          split.
          -- intros [A B]. split; [tauto|]. destruct B as [B|[B1 B2]]; [left; right; auto|]. right. split; auto. intros [X|(c & Sc & Hc)]; auto. now apply (NS c).
          -- intros [A B]. split; [tauto|]. destruct B as [[[Sc Hc]|[B _]]|[B1 B2]]; [now apply (NS a) in Hc|auto|]. right. split; auto.
      + destruct (h_dec (hash_im b) j) as [Ej|Nj].
        * (* a no-op *)
          assert (Tn : forall k, ~ takes (OUpdate b j) k) by (intros k [_ T]; apply T; exists b; now subst j).
          destruct (h_dec (hash_im b) i) as [<-|N].
          -- split.
             ++ intros X. injection X as <-. split; [|left; left; split; auto; right; now exists j].
                destruct (get j m1) as [c|] eqn:Gc; [|congruence]. rewrite <- Ej in Gc. apply IH in Gc as [Gt _]. intros [T|T]; [contradiction|]. now apply (Tn (hash_im b)).
             ++ intros [_ [[[S' _]|[_ L]]|[Ns _]]].
                ** apply stores_cases in S'. now subst.
                ** exfalso. apply (L b); auto. right. now exists j.
                ** exfalso. apply Ns. right. exists b. split; auto. right. now exists j.
          -- destruct (h_dec j i) as [->|_]; [congruence|]. rewrite IH. specialize (Tn i).
             assert (NS : forall c, stores (OUpdate b j) c -> hash_im c <> i) by (intros c Sc; apply stores_cases in Sc; now subst).
             split.
             ++ intros [A B]. split; [tauto|]. destruct B as [B|[B1 B2]]; [left; right; auto|]. right. split; auto. intros [X|(c & Sc & Hc)]; auto. now apply (NS c).
             ++ intros [A B]. split; [tauto|]. destruct B as [[[Sc Hc]|[B _]]|[B1 B2]]; [now apply (NS a) in Hc|auto|]. right. split; auto.
        * assert (Hn : ~ noop (OUpdate b j)) by (intros [c X]; injection X as -> ->; contradiction).
          destruct (h_dec (hash_im b) i) as [<-|N].
          -- assert (Tn : ~ takes (OUpdate b j) (hash_im b)) by (intros [T _]; apply targets_cases in T; congruence).
             split.
             ++ intros X. injection X as <-. split; [|left; left; split; auto; right; now exists j]. intros [T|T]; [|contradiction]. apply (NotTaken (hash_im b)); auto. now left.
             ++ intros [_ [[[S' _]|[_ L]]|[Ns _]]].
                ** apply stores_cases in S'. now subst.
                ** exfalso. apply (L b); auto. right. now exists j.
                ** exfalso. apply Ns. right. exists b. split; auto. right. now exists j.
          -- destruct (h_dec j i) as [->|Nji].
             ++ split; [discriminate|]. intros [A _]. exfalso. apply A. right. split; auto. left. now exists b.
             ++ rewrite IH. assert (Tn : ~ takes (OUpdate b j) i) by (intros [T _]; now apply targets_cases in T).
                assert (NS : forall c, stores (OUpdate b j) c -> hash_im c <> i) by (intros c Sc; apply stores_cases in Sc; now subst).
                split.
                ** intros [A B]. split; [tauto|]. destruct B as [B|[B1 B2]]; [left; right; auto|]. right. split; auto. intros [X|(c & Sc & Hc)]; auto. now apply (NS c).
                ** intros [A B]. split; [tauto|]. destruct B as [[[Sc Hc]|[B _]]|[B1 B2]]; [now apply (NS a) in Hc|auto|]. right. split; auto.
      + assert (Hn : ~ noop (ODelete n j)) by (intros [c X]; discriminate X).
        assert (NS : forall c, ~ stores (ODelete n j) c) by (intros c Sc; now apply stores_cases in Sc).
        destruct (h_dec j i) as [->|Nji].
        * split; [discriminate|]. intros [A _]. exfalso. apply A. right. split; auto. right. now exists n.
        * rewrite IH. assert (Tn : ~ takes (ODelete n j) i) by (intros [T _]; now apply targets_cases in T).
          split.
          -- intros [A B]. split; [tauto|]. destruct B as [B|[B1 B2]]; [left; right; split; auto; intros c Sc; now apply NS in Sc|]. right. split; auto. intros [X|(c & Sc & Hc)]; auto. now apply (NS c).
          -- intros [A B]. split; [tauto|]. destruct B as [[[Sc Hc]|[B _]]|[B1 B2]]; [now apply NS in Sc|auto|]. right. split; auto.
  Qed.

  Lemma perform_prefix l r m m2 : perform (l ++ r) m = ([], m2) -> exists m1, perform l m = ([], m1).
  Proof.
    revert m2. induction r as [|o r IH] using rev_ind; intros m2 E; [rewrite app_nil_r in E; eauto|].
    rewrite app_assoc in E. apply perform_snoc_ok in E as (m1 & E1 & _). eauto.
  Qed.

  (** What must hold for a request to be accepted. *)
  Theorem accepted_fresh ops m m2 : NoDup (pk m) -> check_overlap H heqb hash_im [] ops = [] -> perform ops m = ([], m2) ->
    forall o, In o ops ->
      (forall a, o = OCreate a -> get (hash_im a) m = None) /\
      (forall i, takes o i -> get i m <> None) /\
      (forall i, targets o i -> get i m <> None \/ exists o' a, In o' ops /\ ~ noop o' /\ stores o' a /\ hash_im a = i).
  Proof.
    intros ND Ov E o Ho. apply in_split in Ho as (l & r & ->).
    replace (l ++ o :: r) with ((l ++ [o]) ++ r) in * by now rewrite <- app_assoc.
    destruct (perform_prefix _ _ _ _ E) as [m1 E1]. apply perform_snoc_ok in E1 as (m0 & E0 & E1).
    apply overlap_iff in Ov. rewrite busy_app in Ov. apply nodup_app_inv in Ov as (Ov & _ & _). destruct (busy_snoc l o Ov) as [Bl Bo].
    assert (Ol : check_overlap H heqb hash_im [] l = []) by now apply overlap_iff.
    destruct (present_before l m m0 ND E0) as [N0 P0]. destruct (one_ok m0 o m1 N0 E1) as [_ P1].
    assert (NotStored : forall j o' a, ~ noop o -> In j (ids_in o) -> In o' l -> ~ noop o' -> stores o' a -> hash_im a = j -> False).
    { intros j o' a Hn Hj Ho' Hn' S' <-. destruct (Bo Hn) as [_ D]. apply (D _ Hj), busy_in. exists o'. split; auto. split; auto. now apply stores_id. }
    assert (Tg : forall i, targets o i -> get i m0 <> None).
    { intros i T. apply targets_cases in T. destruct o as [b|b j|n j]; [destruct T| |]; destruct P1 as [P1 _]; now subst. }
    split; [|split].
    - intros a ->. destruct P1 as [P1 _]. destruct (get (hash_im a) m) as [b|] eqn:G; auto. exfalso.
      assert (Hn : ~ noop (OCreate a)) by (intros [c X]; discriminate X).
      assert (Nt : ~ taken hash_im l (hash_im a)).
      { intros (o' & Ho' & [T Tn]). destruct (Bo Hn) as [_ D]. apply (D (hash_im a)); [now left|]. apply busy_in. exists o'. split; auto. split; auto. now apply targets_id. }
      assert (X : exists c, get (hash_im a) m0 = Some c); [|destruct X; congruence].
      assert (Dec : stored hash_im l (hash_im a) \/ ~ stored hash_im l (hash_im a)).
      { unfold stored. clear -heqb_iff. induction l as [|o' l IH]; [right; intros (o' & b & [] & _)|].
        destruct IH as [(o2 & b & Ho & X)|N]; [left; exists o2, b; split; auto; now right|].
        assert (D : (exists b, stores o' b /\ hash_im b = hash_im a) \/ ~ (exists b, stores o' b /\ hash_im b = hash_im a)).
        { destruct o' as [b|b j|n j].
          - destruct (h_dec (hash_im b) (hash_im a)); [left; exists b; split; auto; now left|right; intros (c & Sc & Hc); apply stores_cases in Sc; subst; auto].
          - destruct (h_dec (hash_im b) (hash_im a)); [left; exists b; split; auto; right; now exists j|right; intros (c & Sc & Hc); apply stores_cases in Sc; subst; auto].
          - right. intros (c & Sc & _). now apply stores_cases in Sc. }
        destruct D as [(b & S' & Hb)|D]; [left; exists o', b; split; auto; now left|]. right. intros (o2 & b & [<-|Ho] & X); [apply D; now exists b|]. apply N. now exists o2, b. }
      destruct Dec as [(o' & c & Ho' & S' & Hc)|Ns].
      + destruct (noop_dec o') as [X|X]; [|exfalso; exact (NotStored (hash_im a) o' c Hn (or_introl eq_refl) Ho' X S' Hc)].
        assert (Last : exists c', last_stored hash_im l (hash_im a) c').
        { clear -Ho' S' Hc heqb_iff. induction l as [|o2 l IH] using rev_ind; [destruct Ho'|].
          assert (D : (exists b, stores o2 b /\ hash_im b = hash_im a) \/ ~ (exists b, stores o2 b /\ hash_im b = hash_im a)).
          { destruct o2 as [b|b j|n j].
            - destruct (h_dec (hash_im b) (hash_im a)); [left; exists b; split; auto; now left|right; intros (d & Sc & Hd); apply stores_cases in Sc; subst; auto].
            - destruct (h_dec (hash_im b) (hash_im a)); [left; exists b; split; auto; right; now exists j|right; intros (d & Sc & Hd); apply stores_cases in Sc; subst; auto].
            - right. intros (d & Sc & _). now apply stores_cases in Sc. }
          destruct D as [(b & S2 & Hb)|D]; [exists b; exists l, o2, []; repeat split; auto|].
          apply in_app_or in Ho' as [Ho'|[<-|[]]]; [|exfalso; apply D; now exists c].
          destruct (IH Ho') as (c' & u & o3 & v & -> & S3 & H3 & L3). exists c', u, o3, (v ++ [o2]). split; [now rewrite <- app_assoc|]. repeat split; auto.
          intros o4 d Hd Sd Hh. apply in_app_or in Hd as [Hd|[<-|[]]]; [now apply (L3 o4 d)|]. apply D. now exists d. }
        destruct Last as [c' L]. exists c'. apply (perform_get l m m0 ND Ol E0). split; auto.
      + exists b. apply (perform_get l m m0 ND Ol E0). split; auto.
    - intros i [T Tn]. destruct (P0 i (Tg i T)) as [|(o' & a & Ho' & X & S' & Hi)]; auto. exfalso. exact (NotStored i o' a Tn (targets_id o i T) Ho' X S' Hi).
    - intros i T. destruct (P0 i (Tg i T)) as [|(o' & a & Ho' & X)]; auto. right. exists o', a. split; auto. apply in_or_app. left. apply in_or_app. now left.
  Qed.

  (** An operation on its own. *)
  Definition alone (m : ids_map H) (o : op) : Prop :=
    match o with OCreate a => get (hash_im a) m = None | OUpdate _ i => get i m <> None | ODelete _ i => get i m <> None end.

  Theorem accepted_iff ops m : NoDup (pk m) -> (forall o, In o ops -> ~ noop o) ->
    (check_overlap H heqb hash_im [] ops = [] /\ fst (perform ops m) = [] <-> NoDup (flat_map ids_in ops) /\ Forall (alone m) ops).
  Proof.
    intros ND Nn. assert (B : busy ops = flat_map ids_in ops).
    { unfold busy. f_equal. clear -Nn heqb_iff. induction ops as [|o ops IH]; auto. cbn [filter]. unfold is_noop at 1.
      destruct (opt_eqb H heqb (op_new H hash_im o) (op_orig H o)) eqn:E; [exfalso; apply (Nn o (or_introl eq_refl)); now apply noop_iff|]. cbn [negb]. rewrite IH; auto. intros o' Ho. apply Nn. now right. }
    rewrite overlap_iff, B. split.
    - intros [N E]. split; auto. destruct (perform ops m) as [e m2] eqn:P. cbn [fst] in E. subst e. apply Forall_forall. intros o Ho.
      assert (Ov : check_overlap H heqb hash_im [] ops = []) by (apply overlap_iff; now rewrite B).
      destruct (accepted_fresh ops m m2 ND Ov P o Ho) as (A1 & A2 & _). destruct o as [a|a i|n i]; cbn [alone]; [now apply A1| |].
      + apply A2. split; [left; now exists a|now apply Nn].
      + apply A2. split; [right; now exists n|now apply Nn].
    - intros [N F]. split; auto. clear B. assert (X : exists m2, perform ops m = ([], m2) /\ NoDup (pk m2) /\ forall i, ~ In i (flat_map ids_in ops) -> get i m2 = get i m).
      { induction ops as [|o ops IH] using rev_ind; [exists m; cbn; auto|]. rewrite flat_map_app in N. cbn [flat_map] in N. rewrite app_nil_r in N.
        destruct (nodup_app_inv _ _ N) as (N1 & N2 & D). apply Forall_app in F as [F Fo]. inversion Fo as [|? ? Ao _]; subst.
        destruct IH as (m1 & E1 & M1 & G1); auto; [intros o' Ho'; apply Nn, in_or_app; now left|].
        assert (Fr : forall i, In i (ids_in o) -> get i m1 = get i m) by (intros i Hi; apply G1; intros X; exact (D i X Hi)).
        assert (One : exists m2, one ([], m1) o = ([], m2)).
        { destruct o as [a|a i|n i]; cbn [perform_one alone] in *.
          - rewrite (Fr (hash_im a)) by now left. rewrite Ao. eauto.
          - destruct (get i m1) eqn:G; [eauto|]. rewrite (Fr i) in G by (right; now left). congruence.
          - destruct (get i m1) eqn:G; [eauto|]. rewrite (Fr i) in G by now left. congruence. }
        destruct One as [m2 E2]. exists m2. rewrite perform_snoc, E1. split; auto. destruct (one_ok m1 o m2 M1 E2) as [M2 P2]. split; auto.
        intros i Ni. rewrite flat_map_app in Ni. cbn [flat_map] in Ni. rewrite app_nil_r in Ni.
        rewrite <- (G1 i) by (intros X; apply Ni, in_or_app; now left).
        assert (No : ~ In i (ids_in o)) by (intros X; apply Ni, in_or_app; now right).
        destruct o as [a|a j|n j]; destruct P2 as [_ P2]; rewrite P2; cbn [SpecModify.ids_in In] in No.
        - destruct (h_dec (hash_im a) i); tauto.
        - destruct (h_dec (hash_im a) i); [tauto|]. destruct (h_dec j i); tauto.
        - destruct (h_dec j i); tauto. }
      destruct X as (m2 & -> & _). reflexivity.
  Qed.

  (** The order of the operations. *)
  Theorem order_irrelevant ops ops' m m1 m2 : NoDup (pk m) -> Permutation ops ops' ->
    (forall o o' a b, In o ops -> In o' ops -> stores o a -> stores o' b -> hash_im a = hash_im b -> a = b) ->
    check_overlap H heqb hash_im [] ops = [] -> perform ops m = ([], m1) ->
    check_overlap H heqb hash_im [] ops' = [] -> perform ops' m = ([], m2) ->
    forall i, get i m1 = get i m2.
  Proof.
    intros ND P Inj O1 E1 O2 E2 i.
    assert (X : forall a, get i m1 = Some a <-> get i m2 = Some a).
    { intros a. rewrite (perform_get ops m m1 ND O1 E1), (perform_get ops' m m2 ND O2 E2).
      assert (T : taken hash_im ops i <-> taken hash_im ops' i) by (split; intros (o & Ho & Z); exists o; split; auto; [now apply (Permutation_in _ P)|now apply (Permutation_in _ (Permutation_sym P))]).
      assert (S' : stored hash_im ops i <-> stored hash_im ops' i) by (split; intros (o & c & Ho & Z); exists o, c; split; auto; [now apply (Permutation_in _ P)|now apply (Permutation_in _ (Permutation_sym P))]).
      assert (L : forall l, stored hash_im l i -> exists c, last_stored hash_im l i c).
      { clear -heqb_iff. intros l. induction l as [|o2 l IH] using rev_ind; [intros (o & c & [] & _)|].
        intros (o & c & Ho & S' & Hc).
        assert (D : (exists b, stores o2 b /\ hash_im b = i) \/ ~ (exists b, stores o2 b /\ hash_im b = i)).
        { destruct o2 as [b|b j|n j].
          - destruct (h_dec (hash_im b) i); [left; exists b; split; auto; now left|right; intros (d & Sc & Hd); apply stores_cases in Sc; subst; auto].
          - destruct (h_dec (hash_im b) i); [left; exists b; split; auto; right; now exists j|right; intros (d & Sc & Hd); apply stores_cases in Sc; subst; auto].
          - right. intros (d & Sc & _). now apply stores_cases in Sc. }
        destruct D as [(b & S2 & Hb)|D]; [exists b; exists l, o2, []; repeat split; auto|].
        apply in_app_or in Ho as [Ho|[<-|[]]]; [|exfalso; apply D; now exists c].
        destruct IH as (c' & u & o3 & v & -> & S3 & H3 & L3); [now exists o, c|]. exists c', u, o3, (v ++ [o2]). split; [now rewrite <- app_assoc|]. repeat split; auto.
        intros o4 d Hd Sd Hh. apply in_app_or in Hd as [Hd|[<-|[]]]; [now apply (L3 o4 d)|]. apply D. now exists d. }
      assert (LS : forall l c, last_stored hash_im l i c -> exists o, In o l /\ stores o c /\ hash_im c = i).
      { intros l c (u & o & v & -> & Z1 & Z2 & _). exists o. split; auto. apply in_or_app. right. now left. }
      assert (LL : last_stored hash_im ops i a <-> last_stored hash_im ops' i a).
      { split; intros La.
        - destruct (LS _ _ La) as (o & Ho & Z1 & Z2). destruct (L ops') as [c Lc]; [apply S'; now exists o, a|].
          destruct (LS _ _ Lc) as (o' & Ho' & Y1 & Y2). apply (Permutation_in _ (Permutation_sym P)) in Ho'. assert (a = c) as -> by (apply (Inj o o'); auto; congruence). auto.
        - destruct (LS _ _ La) as (o & Ho & Z1 & Z2). destruct (L ops) as [c Lc]; [apply S'; now exists o, a|].
          destruct (LS _ _ Lc) as (o' & Ho' & Y1 & Y2). apply (Permutation_in _ (Permutation_sym P)) in Ho. assert (a = c) as -> by (apply (Inj o o'); auto; congruence). auto. }
      tauto. }
    destruct (get i m1) as [a|] eqn:G1.
    - symmetry. now apply X.
    - destruct (get i m2) as [b|] eqn:G2; auto. exfalso. discriminate (proj2 (X b) eq_refl).
  Qed.
End Ops.
