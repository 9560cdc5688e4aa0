(** Facts on [art init]. *)
From Coq Require Import Lia.
From Verif Require Import Base BaseFacts Artifact Disk DiskFacts Settings Init.

Definition chg (ds fs : list path) (t t' : node) : Prop :=
  tree_ok t' /\ (forall q, ~ In q fs -> file_at t' q = file_at t q) /\
  (forall q, ~ In q ds -> is_dir (lookup t' q) = is_dir (lookup t q)) /\
  (forall q, is_dir (lookup t q) = true -> is_dir (lookup t' q) = true).
Lemma chg_refl ds fs t : tree_ok t -> chg ds fs t t.
Proof. intros T. repeat split; auto. Qed.
Lemma chg_trans ds fs t t' t'' : chg ds fs t t' -> chg ds fs t' t'' -> chg ds fs t t''.
Proof.
  intros (T & F & D & U) (T' & F' & D' & U'). repeat split; auto.
  - intros q N. now rewrite F', F.
  - intros q N. now rewrite D', D.
Qed.
Lemma chg_more ds fs ds' fs' t t' : incl ds ds' -> incl fs fs' -> chg ds fs t t' -> chg ds' fs' t t'.
Proof. intros I J (T & F & D & U). repeat split; auto. Qed.

Lemma parent_app p x : parent (p ++ [x]) = p.
Proof. unfold parent. now rewrite removelast_last. Qed.
Lemma app_ne (p : path) x : p ++ [x] <> [].
Proof. now destruct p. Qed.
Lemma no_self (p : path) x q : p ++ x :: q <> p.
Proof. intros E. apply (f_equal (@length _)) in E. rewrite app_length in E. cbn [length] in E. lia. Qed.

(** A new directory. *)
Lemma mkdir_spec t p : tree_ok t -> p <> [] -> lookup t p = None -> is_dir (lookup t (parent p)) = true ->
  chg [p] [] t (put t p (Some (NDir []))) /\ is_dir (lookup (put t p (Some (NDir []))) p) = true.
Proof.
  intros T Np L D. set (t' := put t p (Some (NDir []))). assert (E : lookup t' p = Some (NDir [])) by (now apply put_same).
  assert (X : forall q, q <> p -> file_at t' q = file_at t q /\ is_dir (lookup t' q) = is_dir (lookup t q)).
  { intros q N. destruct (path_prefix_dec p q) as [(r & ->)|A].
    - assert (R : r <> []) by (intros ->; rewrite app_nil_r in N; auto). unfold file_at. rewrite !lookup_app, E, L. destruct r; [contradiction|auto].
    - destruct (path_prefix_dec q p) as [(r & Er)|B]; [|unfold file_at, t'; rewrite put_other; auto].
      assert (R : r <> []) by (intros ->; rewrite app_nil_r in Er; auto). pose proof (put_above p (Some (NDir [])) t q r Er R) as Q. fold t' in Q. split; auto.
      assert (Dq : is_dir (lookup t q) = true).
      { rewrite Er in D. unfold parent in D. rewrite removelast_app in D by exact R. rewrite lookup_app in D. destruct (lookup t q) as [[c|l]|]; auto. destruct (removelast r); discriminate D. }
      unfold file_at. rewrite Dq in Q. destruct (lookup t' q) as [[c|l]|]; try discriminate Q. destruct (lookup t q) as [[c|l']|]; try discriminate Dq. reflexivity. }
  split; [|now rewrite E]. repeat split.
  - apply put_ok; auto. intros c Q. injection Q as <-. cbn. split; [constructor|exact I].
  - intros q _. destruct (list_eq_dec (list_eq_dec N.eq_dec) q p) as [->|N]; [unfold file_at; now rewrite E, L|]. now apply X.
  - intros q N. apply X. intros ->. apply N. now left.
  - intros q Dq. destruct (list_eq_dec (list_eq_dec N.eq_dec) q p) as [->|N]; [now rewrite E|]. now rewrite (proj2 (X q N)).
Qed.

Section Steps.
  Variable io : nat -> option (option nat).

  Lemma dir_create_spec i t p : tree_ok t -> p <> [] -> is_dir (lookup t (parent p)) = true ->
    chg [p] [] t (snd (dir_create io i t p)) /\
    (fst (dir_create io i t p) = true <-> io i = None /\ file_at t p = None) /\
    (fst (dir_create io i t p) = true -> is_dir (lookup (snd (dir_create io i t p)) p) = true) /\
    (fst (dir_create io i t p) = false -> snd (dir_create io i t p) = t).
  Proof.
    intros T Np D. unfold dir_create, file_at. destruct (io i) as [k|]; cbn [fst snd].
    { split; [now apply chg_refl|]. split; [split; [discriminate|intros [X _]; discriminate X]|]. split; [discriminate|auto]. }
    destruct (lookup t p) as [[c|l]|] eqn:L; cbn [is_dir fst snd].
    - split; [now apply chg_refl|]. split; [split; [discriminate|intros [_ X]; discriminate X]|]. split; [discriminate|auto].
    - split; [now apply chg_refl|]. split; [tauto|]. split; [now rewrite L|discriminate].
    - rewrite D. cbn [fst snd]. destruct (mkdir_spec t p T Np L D) as [A B]. split; auto. split; [tauto|]. split; auto. discriminate.
  Qed.
  Lemma file_create_spec i t p : tree_ok t -> p <> [] -> is_dir (lookup t (parent p)) = true ->
    chg [] [p] t (snd (file_create io i t p)) /\
    (fst (file_create io i t p) = true <-> io i = None /\ is_dir (lookup t p) = false).
  Proof.
    intros T Np D. unfold file_create. destruct (io i) as [k|]; cbn [fst snd].
    { split; [now apply chg_refl|]. split; [discriminate|intros [X _]; discriminate X]. }
    destruct (lookup t p) as [n|] eqn:L; cbn [fst snd].
    - split; [now apply chg_refl|]. destruct (is_dir (Some n)); cbn [negb]; split; try tauto; discriminate || (intros [_ X]; discriminate X).
    - destruct (fs_write t p []) as [t'|] eqn:W; cbn [fst snd].
      + apply write_spec in W as (_ & F & T' & S); auto. split; [|tauto]. repeat split; auto.
        * intros q N. apply F. intros ->. apply N. now left.
        * intros q Q. now rewrite S.
      + exfalso. unfold fs_write in W. destruct p; [contradiction|]. rewrite L, D in W. discriminate W.
  Qed.
  Lemma file_write_spec i t p text : tree_ok t -> p <> [] -> is_dir (lookup t (parent p)) = true -> is_dir (lookup t p) = false ->
    chg [] [p] t (snd (file_write io i t p text)) /\
    (fst (file_write io i t p text) = true <-> io i = None) /\
    (fst (file_write io i t p text) = true -> file_at (snd (file_write io i t p text)) p = Some text).
  Proof.
    intros T Np D F0. assert (W : forall c, exists t', fs_write t p c = Some t' /\ chg [] [p] t t' /\ file_at t' p = Some c).
    { intros c. destruct (fs_write t p c) as [t'|] eqn:W.
      - exists t'. split; auto. apply write_spec in W as (E & F & T' & S); auto. split; auto. repeat split; auto.
        + intros q N. apply F. intros ->. apply N. now left.
        + intros q Q. now rewrite S.
      - exfalso. unfold fs_write in W. destruct p; [contradiction|]. rewrite F0, D in W. discriminate W. }
    unfold file_write. destruct (io i) as [[k|]|].
    - destruct (W (firstn k text)) as (t' & -> & C & E). cbn [fst snd]. split; auto. split; [split; discriminate|discriminate].
    - cbn [fst snd]. split; [now apply chg_refl|]. split; [split; discriminate|discriminate].
    - destruct (W text) as (t' & -> & C & E). cbn [fst snd]. split; auto. split; [tauto|auto].
  Qed.
End Steps.

Section Run.
  Variable io : nat -> option (option nat).
  Variables (t : node) (wd : path).
  Hypothesis T : tree_ok t.
  Hypothesis D : is_dir (lookup t wd) = true.
  Hypothesis A : lookup t (art_dir wd) = None.

  Definition ds := [art_dir wd; design_dir wd].
  Definition fs := [settings_file wd; purpose_file wd].
  Definition clear_design : Prop := file_at t (design_dir wd) = None /\ is_dir (lookup t (purpose_file wd)) = false.

  Lemma ne_ps : settings_file wd <> purpose_file wd.
  Proof.
    unfold settings_file, purpose_file, art_dir, design_dir. rewrite <- !app_assoc. cbn [app]. intros E. apply app_inv_head in E. discriminate E.
  Qed.
  Lemma ne_da : design_dir wd <> art_dir wd.
  Proof. unfold art_dir, design_dir. intros E. apply app_inv_head in E. discriminate E. Qed.
  Lemma ne_ad p : In p ds -> forall x y, p <> wd ++ [x; y].
  Proof.
    intros I x y E. unfold ds, art_dir, design_dir in I. destruct I as [I|[I|[]]]; rewrite E in I; apply app_inv_head in I; discriminate I.
  Qed.
  Lemma ne_f p : In p fs -> forall x, p <> wd ++ [x].
  Proof.
    intros I x E. unfold fs, settings_file, purpose_file, art_dir, design_dir in I. rewrite <- !app_assoc in I. destruct I as [I|[I|[]]]; rewrite E in I; apply app_inv_head in I; discriminate I.
  Qed.
  Lemma ne_wd p : In p ds -> p <> wd.
  Proof. intros [<-|[<-|[]]]; apply no_self. Qed.

  Let steps := init_steps io t wd.
  Lemma lt6 i : Nat.ltb i 6 = true -> i < 6.
  Proof. apply Nat.ltb_lt. Qed.
  Lemma steps_spec : chg ds fs t (snd steps) /\
    (fst steps = true <-> (forall i, i < 6 -> io i = None) /\ clear_design) /\
    (fst steps = true -> file_at (snd steps) (settings_file wd) = Some init_settings /\ file_at (snd steps) (purpose_file wd) = Some init_purpose /\
       is_dir (lookup (snd steps) (art_dir wd)) = true /\ is_dir (lookup (snd steps) (design_dir wd)) = true) /\
    (snd steps <> t -> lookup (snd steps) (art_dir wd) <> None).
  Proof.
    unfold steps, init_steps, and_then, clear_design.
    assert (Inc : incl [art_dir wd] ds /\ incl [design_dir wd] ds /\ incl [settings_file wd] fs /\ incl [purpose_file wd] fs /\ incl (@nil path) ds /\ incl (@nil path) fs).
    { unfold ds, fs. repeat split; intros x Hx; cbn in *; tauto. }
    destruct Inc as (I1 & I2 & I3 & I4 & I5 & I6).
    assert (P1 : parent (art_dir wd) = wd) by apply parent_app. assert (P2 : parent (design_dir wd) = wd) by apply parent_app.
    assert (P3 : parent (settings_file wd) = art_dir wd) by apply parent_app. assert (P4 : parent (purpose_file wd) = design_dir wd) by apply parent_app.
    assert (Up : forall t', chg ds fs t t' -> forall p, is_dir (lookup t p) = true -> is_dir (lookup t' p) = true) by (intros t' (_ & _ & _ & U); auto).
    assert (Sd : settings_file wd <> [] /\ purpose_file wd <> [] /\ art_dir wd <> [] /\ design_dir wd <> []) by (repeat split; apply app_ne). destruct Sd as (N1 & N2 & N3 & N4).
    assert (Fs : settings_file wd = wd ++ [s ".art"; s "settings.toml"]) by (unfold settings_file, art_dir; now rewrite <- app_assoc).
    assert (Fp : purpose_file wd = wd ++ [s "design"; s "purpose.md"]) by (unfold purpose_file, design_dir; now rewrite <- app_assoc).
    assert (Gs : forall t', chg ds fs t t' -> is_dir (lookup t' (settings_file wd)) = false).
    { intros t' (_ & _ & U & _). rewrite U; [|intros I; apply (ne_ad _ I _ _ Fs)]. rewrite Fs. change [s ".art"; s "settings.toml"] with ([s ".art"] ++ [s "settings.toml"]). rewrite app_assoc, lookup_app. fold (art_dir wd). now rewrite A. }
    assert (Gp : forall t', chg ds fs t t' -> is_dir (lookup t' (purpose_file wd)) = is_dir (lookup t (purpose_file wd))).
    { intros t' (_ & _ & U & _). apply U. intros I; apply (ne_ad _ I _ _ Fp). }
    assert (Gd : forall t', chg ds fs t t' -> file_at t' (design_dir wd) = file_at t (design_dir wd)).
    { intros t' (_ & U & _). apply U. intros I. now apply (ne_f _ I (s "design")). }
    assert (Dn : forall t', is_dir (lookup t' (art_dir wd)) = true -> lookup t' (art_dir wd) <> None) by (intros t' X Y; rewrite Y in X; discriminate X).
    destruct (dir_create_spec io 0 t (art_dir wd) T N3) as (C1 & R1 & V1 & Z1); [now rewrite P1|]. destruct (dir_create io 0 t (art_dir wd)) as [ok1 t1]. cbn [fst snd] in *.
    apply (chg_more _ _ ds fs) in C1; auto. destruct ok1; cbn [fst snd].
    2:{ rewrite (Z1 eq_refl). split; [now apply chg_refl|]. split; [|split; [discriminate|now intros []]]. split; [discriminate|]. intros (O & _). exfalso.
        enough (false = true) by discriminate. apply R1. split; [apply O; apply lt6; reflexivity|]. unfold file_at. now rewrite A. }
    assert (Dt : is_dir (lookup t1 (art_dir wd)) = true) by (now apply V1). apply proj1 in R1. destruct (R1 eq_refl) as [O0 _]. clear R1 V1 Z1.
    pose proof (proj1 C1) as T1.
    destruct (file_create_spec io 1 t1 (settings_file wd) T1 N1) as (C2 & R2); [now rewrite P3|]. destruct (file_create io 1 t1 (settings_file wd)) as [ok2 t2]. cbn [fst snd] in *.
    assert (Dt2 : is_dir (lookup t2 (art_dir wd)) = true) by (now apply C2).
    apply (chg_more _ _ ds fs) in C2; auto. pose proof (chg_trans _ _ _ _ _ C1 C2) as C2'. destruct ok2; cbn [fst snd].
    2:{ split; auto. split; [|split; [discriminate|auto]]. split; [discriminate|]. intros (O & _). exfalso. enough (false = true) by discriminate. apply R2. split; [apply O; apply lt6; reflexivity|]. now apply Gs. }
    apply proj1 in R2. destruct (R2 eq_refl) as [O1 _]. clear R2. pose proof (proj1 C2') as T2.
    destruct (file_write_spec io 2 t2 (settings_file wd) init_settings T2 N1) as (C3 & R3 & V3); [now rewrite P3|now apply Gs|]. destruct (file_write io 2 t2 (settings_file wd) init_settings) as [ok3 t3]. cbn [fst snd] in *.
    assert (Dt3 : is_dir (lookup t3 (art_dir wd)) = true) by (now apply C3).
    apply (chg_more _ _ ds fs) in C3; auto. pose proof (chg_trans _ _ _ _ _ C2' C3) as C3'. destruct ok3; cbn [fst snd].
    2:{ split; auto. split; [|split; [discriminate|auto]]. split; [discriminate|]. intros (O & _). exfalso. enough (false = true) by discriminate. apply R3. apply O; apply lt6; reflexivity. }
    assert (S3 : file_at t3 (settings_file wd) = Some init_settings) by (now apply V3). apply proj1 in R3. specialize (R3 eq_refl). pose proof (proj1 C3') as T3.
    destruct (dir_create_spec io 3 t3 (design_dir wd) T3 N4) as (C4 & R4 & V4 & Z4); [rewrite P2; now apply (Up _ C3')|]. destruct (dir_create io 3 t3 (design_dir wd)) as [ok4 t4]. cbn [fst snd] in *.
    assert (S4 : file_at t4 (settings_file wd) = Some init_settings) by (rewrite <- S3; apply C4; auto).
    assert (Dt4 : is_dir (lookup t4 (art_dir wd)) = true) by (now apply C4).
    apply (chg_more _ _ ds fs) in C4; auto. pose proof (chg_trans _ _ _ _ _ C3' C4) as C4'. rewrite (Gd _ C3') in R4. destruct ok4; cbn [fst snd].
    2:{ split; auto. split; [|split; [discriminate|auto]]. split; [discriminate|]. intros (O & X & _). exfalso. enough (false = true) by discriminate. apply R4. split; [apply O; apply lt6; reflexivity|exact X]. }
    assert (Dd : is_dir (lookup t4 (design_dir wd)) = true) by (now apply V4). destruct (proj1 R4 eq_refl) as [O3 X3]. pose proof (proj1 C4') as T4.
    destruct (file_create_spec io 4 t4 (purpose_file wd) T4 N2) as (C5 & R5); [now rewrite P4|]. destruct (file_create io 4 t4 (purpose_file wd)) as [ok5 t5]. cbn [fst snd] in *.
    assert (S5 : file_at t5 (settings_file wd) = Some init_settings) by (rewrite <- S4; apply C5; intros [E|[]]; now apply ne_ps).
    assert (Dt5 : is_dir (lookup t5 (art_dir wd)) = true) by (now apply C5).
    assert (Dd5 : is_dir (lookup t5 (design_dir wd)) = true) by (now apply C5).
    apply (chg_more _ _ ds fs) in C5; auto. pose proof (chg_trans _ _ _ _ _ C4' C5) as C5'. rewrite (Gp _ C4') in R5. destruct ok5; cbn [fst snd].
    2:{ split; auto. split; [|split; [discriminate|auto]]. split; [discriminate|]. intros (O & _ & X). exfalso. enough (false = true) by discriminate. apply R5. split; [apply O; apply lt6; reflexivity|exact X]. }
    destruct (proj1 R5 eq_refl) as [O4 X4]. pose proof (proj1 C5') as T5.
    destruct (file_write_spec io 5 t5 (purpose_file wd) init_purpose T5 N2) as (C6 & R6 & V6); [now rewrite P4|now rewrite (Gp _ C5')|]. destruct (file_write io 5 t5 (purpose_file wd) init_purpose) as [ok6 t6]. cbn [fst snd] in *.
    assert (S6 : file_at t6 (settings_file wd) = Some init_settings) by (rewrite <- S5; apply C6; intros [E|[]]; now apply ne_ps).
    assert (Dt6 : is_dir (lookup t6 (art_dir wd)) = true) by (now apply C6).
    assert (Dd6 : is_dir (lookup t6 (design_dir wd)) = true) by (now apply C6).
    apply (chg_more _ _ ds fs) in C6; auto. pose proof (chg_trans _ _ _ _ _ C5' C6) as C6'.
    split; auto. split; [|split; auto]. rewrite R6. split.
    - intros O5. split; auto. intros i Hi. do 6 (destruct i as [|i]; [assumption|]). now apply Nat.ltb_lt in Hi.
    - intros (O & _). apply O. apply lt6; reflexivity.
  Qed.
End Run.
