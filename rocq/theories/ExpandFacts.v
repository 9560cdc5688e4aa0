(** Proofs about collapsed name lists (C06). *)
From Coq Require Import Lia ZifyBool.
From Verif Require Import Base BaseFacts Name Expand SpecExpand.

Definition nb (raw : str) : str :=
  filter (fun c => negb (N.eqb c 32 || N.eqb c 10 || N.eqb c 13)) raw.

Lemma nb_app x y : nb (x ++ y) = nb x ++ nb y.
Proof. apply filter_app. Qed.

Lemma is_blank_iff c : is_blank c = true <-> blank c.
Proof. unfold is_blank, blank. chars. lia. Qed.

Lemma nb_cons c x : nb (c :: x) = if is_blank c then nb x else c :: nb x.
Proof.
  unfold nb, is_blank. simpl. chars. destruct (_ || _); auto.
Qed.

(** ** [pieces] *)
Lemma pieces_cons t x : ~ In c_comma t -> pieces (t ++ c_comma :: x) = nonempty t ++ pieces x.
Proof.
  intros H. unfold pieces. rewrite split_on_app by auto. simpl. destruct t; auto.
Qed.
Lemma pieces_plain t : ~ In c_comma t -> pieces t = nonempty t.
Proof. intros H. unfold pieces. rewrite split_on_nosep by auto. simpl. destruct t; auto. Qed.

(** [strout] is empty or ends with a comma. *)
Inductive closed : str -> Prop :=
| closed_nil : closed []
| closed_snoc x : closed (x ++ [c_comma]).

Lemma split_on_comma x y :
  split_on c_comma (x ++ c_comma :: y) = split_on c_comma x ++ split_on c_comma y.
Proof.
  induction x as [|d x IH]; simpl.
  - reflexivity.
  - destruct (N.eqb_spec d c_comma).
    + now rewrite IH.
    + rewrite IH. destruct (split_on c_comma x) eqn:E; [now apply split_on_nonempty in E|]. reflexivity.
Qed.

Lemma pieces_closed so x : closed so -> pieces (so ++ x) = pieces so ++ pieces x.
Proof.
  intros H. destruct H as [|so]; [reflexivity|].
  unfold pieces. rewrite <- app_assoc. simpl. rewrite !split_on_comma, !filter_app. simpl.
  now rewrite app_nil_r.
Qed.

Lemma pieces_groups cur l : ~ In c_comma cur -> cur <> [] -> (forall p, In p l -> ~ In c_comma p) ->
  pieces (flat_map (fun p => cur ++ p ++ [c_comma]) l) = map (fun p => cur ++ p) l.
Proof.
  intros Hc Hn. induction l as [|p l IH]; simpl; intros H; auto.
  replace ((cur ++ p ++ [c_comma]) ++ flat_map (fun p => cur ++ p ++ [c_comma]) l)
    with ((cur ++ p) ++ c_comma :: flat_map (fun p => cur ++ p ++ [c_comma]) l)
    by (now rewrite <- !app_assoc).
  rewrite pieces_cons.
  - rewrite IH by auto. destruct cur; [congruence|reflexivity].
  - intros Hin. apply in_app_iff in Hin as [Hin|Hin]; auto. apply (H p); auto.
Qed.

Lemma closed_groups so cur l : closed so -> closed (so ++ flat_map (fun p => cur ++ p ++ [c_comma]) l).
Proof.
  intros H. destruct (list_eq_dec (list_eq_dec N.eq_dec) l []) as [->|Hl].
  - simpl. now rewrite app_nil_r.
  - destruct (exists_last Hl) as (l' & p & ->). rewrite flat_map_app. simpl. rewrite app_nil_r.
    rewrite !app_assoc. constructor.
Qed.
Lemma closed_comma so cur : closed (so ++ cur ++ [c_comma]).
Proof. rewrite app_assoc. constructor. Qed.

(** ** Plain texts *)
Lemma plain_comma t : plain_text t -> ~ In c_comma t.
Proof.
  intros H Hin. unfold plain_text in H. rewrite Forall_forall in H. apply (proj2 (H _ Hin)).
  unfold special. chars. lia.
Qed.
Lemma plain_special c t : plain_text t -> special c -> ~ In c t.
Proof. intros H Hc Hin. unfold plain_text in H. rewrite Forall_forall in H. now apply (proj2 (H _ Hin)). Qed.
Lemma plain_nil : plain_text []. Proof. constructor. Qed.

Lemma denotes_no_comma r l : denotes r l -> forall p, In p l -> ~ In c_comma p.
Proof.
  induction 1 as [t Ht|t r l Ht _ IH|t r1 l1 r2 l2 Ht Hn _ IH1 _ IH2]; intros p Hp.
  - destruct t; [destruct Hp|]. destruct Hp as [<-|[]]. now apply plain_comma.
  - apply in_app_iff in Hp as [Hp|Hp]; auto. destruct t; [destruct Hp|]. destruct Hp as [<-|[]].
    now apply plain_comma.
  - apply in_app_iff in Hp as [Hp|Hp]; auto. apply in_map_iff in Hp as (x & <- & Hx).
    intros Hin. apply in_app_iff in Hin as [Hin|Hin]; [now apply plain_comma in Hin|].
    now apply IH1 in Hin.
Qed.

Lemma denotes_blankfree r l : denotes r l -> Forall (fun c => ~ blank c) r.
Proof.
  assert (HP : forall t, plain_text t -> Forall (fun c => ~ blank c) t).
  { intros t H. eapply Forall_impl; [|exact H]. intros c Hc. apply Hc. }
  assert (H44 : ~ blank 44%N) by (unfold blank; lia).
  assert (H91 : ~ blank 91%N) by (unfold blank; lia).
  assert (H93 : ~ blank 93%N) by (unfold blank; lia).
  induction 1; auto; rewrite ?Forall_app; repeat split; auto; constructor; auto;
    rewrite ?Forall_app; repeat split; auto.
Qed.

Lemma nb_id r : Forall (fun c => ~ blank c) r -> nb r = r.
Proof.
  induction 1 as [|c r Hc _ IH]; auto. rewrite nb_cons, IH.
  destruct (is_blank c) eqn:E; auto. apply is_blank_iff in E. contradiction.
Qed.

Lemma nb_blankfree x : Forall (fun c => ~ blank c) (nb x).
Proof.
  induction x as [|c x IH]; [constructor|]. rewrite nb_cons.
  destruct (is_blank c) eqn:E; auto. constructor; auto. rewrite <- is_blank_iff. congruence.
Qed.

(** ** Soundness *)
Lemma pc_sound n : forall inb so cur raw out rest,
  closed so -> plain_text cur ->
  pc n inb so cur raw = Ok (out, rest) ->
  exists u l, denotes (cur ++ nb u) l /\ out = pieces so ++ l /\
    (if inb then raw = u ++ 93%N :: rest else raw = u /\ rest = []).
Proof.
  induction n as [|n IH]; intros inb so cur raw out rest Hso Hcur H.
  - destruct raw; simpl in H; [|discriminate]. destruct inb; [discriminate|].
    injection H as <- <-. exists [], (nonempty cur). simpl. rewrite app_nil_r. repeat split.
    + now constructor.
    + rewrite pieces_closed by auto. now rewrite (pieces_plain cur) by now apply plain_comma.
  - destruct raw as [|c raw]; simpl in H.
    { destruct inb; [discriminate|].
      injection H as <- <-. exists [], (nonempty cur). simpl. rewrite app_nil_r. repeat split.
      + now constructor.
      + rewrite pieces_closed by auto. now rewrite (pieces_plain cur) by now apply plain_comma. }
    destruct (is_blank c) eqn:Eb.
    { apply IH in H as (u & l & Hd & Ho & Hr); auto. exists (c :: u), l.
      rewrite nb_cons, Eb. repeat split; auto. destruct inb; [now rewrite Hr|].
      destruct Hr as [-> ->]; auto. }
    destruct (N.eqb_spec c c_lbr) as [->|Nl].
    { destruct cur as [|c0 cur']; [discriminate|]. set (cur := c0 :: cur') in *.
      destruct (pc n true [] [] raw) as [[ps rest1]| |] eqn:E1; try discriminate.
      apply IH in E1 as (u1 & l1 & Hd1 & Ho1 & Hr1); [|constructor|apply plain_nil].
      simpl in Hd1, Ho1. subst ps raw.
      apply IH in H as (u2 & l2 & Hd2 & Ho2 & Hr2); [|now apply closed_groups|apply plain_nil].
      simpl in Hd2. exists (c_lbr :: u1 ++ 93%N :: u2), (map (fun x => cur ++ x) l1 ++ l2).
      split; [|split].
      - rewrite nb_cons. replace (is_blank c_lbr) with false by reflexivity.
        rewrite nb_app, nb_cons. replace (is_blank 93%N) with false by reflexivity.
        apply D_group; auto. discriminate.
      - rewrite Ho2, pieces_closed by auto. rewrite pieces_groups.
        + now rewrite app_assoc.
        + now apply plain_comma.
        + discriminate.
        + eapply denotes_no_comma; eauto.
      - destruct inb.
        + rewrite Hr2. simpl. now rewrite <- app_assoc.
        + destruct Hr2 as [-> ->]. auto. }
    destruct (N.eqb_spec c c_rbr) as [->|Nr].
    { destruct inb; [|discriminate]. injection H as <- <-.
      exists [], (nonempty cur). simpl. rewrite app_nil_r. repeat split.
      + now constructor.
      + rewrite pieces_closed by auto. now rewrite (pieces_plain cur) by now apply plain_comma. }
    destruct (N.eqb_spec c c_comma) as [->|Nc].
    { apply IH in H as (u & l & Hd & Ho & Hr); [|apply closed_comma|apply plain_nil].
      simpl in Hd. exists (c_comma :: u), (nonempty cur ++ l). split; [|split].
      - rewrite nb_cons. replace (is_blank c_comma) with false by reflexivity.
        now apply D_comma.
      - rewrite Ho, pieces_closed by auto. rewrite pieces_cons by now apply plain_comma.
        change (pieces []) with (@nil str). now rewrite app_nil_r, app_assoc.
      - destruct inb; [now rewrite Hr|]. destruct Hr as [-> ->]; auto. }
    { apply IH in H as (u & l & Hd & Ho & Hr); auto.
      - exists (c :: u), l. rewrite nb_cons, Eb. rewrite <- app_assoc in Hd. repeat split; auto.
        destruct inb; [now rewrite Hr|]. destruct Hr as [-> ->]; auto.
      - apply Forall_app. split; auto. constructor; auto. split.
        + rewrite <- is_blank_iff. congruence.
        + unfold special. chars. lia. }
Qed.

(** ** No fuel problem *)
Lemma pc_no_panic n : forall inb so cur raw,
  length raw <= n -> pc n inb so cur raw <> Panic.
Proof.
  induction n as [|n IH]; intros inb so cur raw Hn.
  - destruct raw; [|simpl in Hn; lia]. simpl. destruct inb; discriminate.
  - destruct raw as [|c raw]; simpl; [destruct inb; discriminate|]. simpl in Hn.
    destruct (is_blank c); [apply IH; lia|].
    destruct (N.eqb c c_lbr).
    { destruct cur as [|c0 cur']; [discriminate|].
      destruct (pc n true [] [] raw) as [[ps rest]| |] eqn:E; [|discriminate|].
      - apply IH. apply pc_sound in E as (u & l & _ & _ & ->); [|constructor|apply plain_nil].
        rewrite app_length in Hn. simpl in Hn. lia.
      - exfalso. revert E. apply IH. lia. }
    destruct (N.eqb c c_rbr); [destruct inb; discriminate|].
    destruct (N.eqb c c_comma); apply IH; lia.
Qed.

(** ** Completeness *)
Lemma pc_text t : forall n inb so cur raw z,
  plain_text t -> nb raw = t ++ z -> length raw <= n ->
  exists u1 u2, raw = u1 ++ u2 /\ nb u2 = z /\ nb u1 = t /\
    forall v, length (raw ++ v) <= n ->
    exists m, length (u2 ++ v) <= m /\ pc n inb so cur (raw ++ v) = pc m inb so (cur ++ t) (u2 ++ v).
Proof.
  (* induction on [raw] *)
  intros n inb so cur raw. revert t n cur.
  induction raw as [|c raw IH]; intros t n cur z Ht E Hn.
  - simpl in E. symmetry in E. apply app_eq_nil in E as [-> ->].
    exists [], []. repeat split; auto. intros v Hv. exists n. rewrite app_nil_r. auto.
  - destruct n as [|n]; [simpl in Hn; lia|]. rewrite nb_cons in E. simpl in Hn.
    destruct (is_blank c) eqn:Eb.
    + destruct (IH t n cur z Ht E) as (u1 & u2 & -> & H2 & H1 & H); [lia|].
      exists (c :: u1), u2. rewrite nb_cons, Eb. repeat split; auto.
      intros v Hv. simpl in Hv. destruct (H v) as (m & Hm & Hpc); [lia|].
      exists m. split; auto. simpl. now rewrite Eb.
    + destruct t as [|d t].
      * simpl in E. exists [], (c :: raw). rewrite nb_cons, Eb. repeat split; auto.
        intros v Hv. exists (S n). now rewrite app_nil_r.
      * injection E as -> E. inversion Ht as [|? ? [Hd1 Hd2] Ht']; subst.
        destruct (IH t n (cur ++ [d]) z Ht' E) as (u1 & u2 & -> & H2 & H1 & H); [lia|].
        exists (d :: u1), u2. rewrite nb_cons, Eb. repeat split; auto; [congruence|].
        intros v Hv. simpl in Hv. destruct (H v) as (m & Hm & Hpc); [lia|].
        exists m. split; auto. simpl app. simpl pc. rewrite Eb.
        assert (Hs : N.eqb d c_lbr = false /\ N.eqb d c_rbr = false /\ N.eqb d c_comma = false).
        { unfold special in Hd2. chars. lia. }
        destruct Hs as (-> & -> & ->). rewrite Hpc. now rewrite <- app_assoc.
Qed.

Lemma nb_split_char raw c z :
  nb raw = c :: z -> exists b u, raw = b ++ c :: u /\ Forall (fun d => is_blank d = true) b /\
    is_blank c = false /\ nb u = z.
Proof.
  induction raw as [|d raw IH]; intros E; [discriminate|]. rewrite nb_cons in E.
  destruct (is_blank d) eqn:Eb.
  - destruct (IH E) as (b & u & -> & Hb & Hc & Hu). exists (d :: b), u. repeat split; auto.
  - injection E as -> E. exists [], raw. repeat split; auto.
Qed.

Lemma pc_blanks b : forall n inb so cur v,
  Forall (fun d => is_blank d = true) b -> length (b ++ v) <= n ->
  exists m, length v <= m /\ pc n inb so cur (b ++ v) = pc m inb so cur v.
Proof.
  induction b as [|d b IH]; intros n inb so cur v Hb Hn; [eauto|].
  inversion Hb as [|? ? Hd Hb']; subst. destruct n as [|n]; [simpl in Hn; lia|]. simpl in Hn.
  destruct (IH n inb so cur v Hb') as (m & Hm & Hpc); [lia|].
  exists m. split; auto. simpl. now rewrite Hd.
Qed.

(** How the input continues after the list: the end, or a closing bracket. *)
Definition ending (inb : bool) (v rest : str) : Prop :=
  if inb then v = 93%N :: rest else v = [] /\ rest = [].

Lemma nb_app_split u x y : nb u = x ++ y -> exists u1 u2, u = u1 ++ u2 /\ nb u1 = x /\ nb u2 = y.
Proof.
  revert u; induction x as [|c x IH]; intros u E.
  - exists [], u. auto.
  - apply nb_split_char in E as (b & u' & -> & Hb & Hc & E).
    apply IH in E as (u1 & u2 & -> & H1 & H2). exists (b ++ c :: u1), u2.
    rewrite <- app_assoc. repeat split; auto. rewrite nb_app, nb_cons, Hc, H1.
    replace (nb b) with (@nil N); auto. clear -Hb. induction Hb as [|d b Hd _ IH]; auto.
    now rewrite nb_cons, Hd.
Qed.

Lemma pc_complete r l : denotes r l -> forall n inb so u v rest,
  nb u = r -> ending inb v rest -> closed so -> length (u ++ v) <= n ->
  pc n inb so [] (u ++ v) = Ok (pieces so ++ l, rest).
Proof.
  assert (Hstop : forall m inb so cur v rest, plain_text cur -> ending inb v rest -> closed so ->
            forall b, Forall (fun d => is_blank d = true) b -> length (b ++ v) <= m ->
            pc m inb so cur (b ++ v) = Ok (pieces so ++ nonempty cur, rest)).
  { intros m inb so cur v rest Hc He Hso b Hb Hm.
    destruct (pc_blanks b m inb so cur v Hb Hm) as (m' & Hm' & ->).
    destruct inb; simpl in He.
    - subst v. destruct m' as [|m']; [simpl in Hm'; lia|]. simpl.
      rewrite pieces_closed, (pieces_plain cur) by (auto using plain_comma). reflexivity.
    - destruct He as [-> ->]. destruct m'; simpl;
        rewrite pieces_closed, (pieces_plain cur) by (auto using plain_comma); reflexivity. }
  induction 1 as [t Ht|t r l Ht Hd IH|t r1 l1 r2 l2 Ht Hn Hd1 IH1 Hd2 IH2];
    intros n inb so u v rest Hu He Hso Hlen.
  - destruct (pc_text t n inb so [] u []) as (u1 & u2 & -> & H2 & H1 & H); auto.
    + now rewrite app_nil_r.
    + rewrite app_length in Hlen. lia.
    + destruct (H v Hlen) as (m & Hm & ->). simpl.
      assert (Hb : Forall (fun d => is_blank d = true) u2).
      { clear -H2. induction u2 as [|d u2 IH]; auto. rewrite nb_cons in H2.
        destruct (is_blank d) eqn:E; [constructor; auto|discriminate]. }
      apply Hstop; auto.
  - destruct (pc_text t n inb so [] u (44%N :: r)) as (u1 & u2 & -> & H2 & H1 & H); auto.
    + rewrite app_length in Hlen. lia.
    + destruct (H v Hlen) as (m & Hm & ->). simpl.
      apply nb_split_char in H2 as (b & u3 & -> & Hb & _ & H3).
      rewrite <- app_assoc in Hm |- *.
      destruct (pc_blanks b m inb so t ((44%N :: u3) ++ v) Hb Hm) as (m' & Hm' & ->).
      simpl in Hm'. destruct m' as [|m']; [lia|]. simpl.
      rewrite (IH m' inb (so ++ t ++ [c_comma]) u3 v rest); auto.
      * rewrite pieces_closed by auto. rewrite pieces_cons by now apply plain_comma.
        change (pieces []) with (@nil str). now rewrite app_nil_r, app_assoc.
      * apply closed_comma.
      * lia.
  - destruct (pc_text t n inb so [] u (91%N :: r1 ++ 93%N :: r2)) as (u1 & u2 & -> & H2 & H1 & H); auto.
    + rewrite app_length in Hlen. lia.
    + destruct (H v Hlen) as (m & Hm & ->). simpl.
      apply nb_split_char in H2 as (b & u3 & -> & Hb & _ & H3).
      rewrite <- app_assoc in Hm |- *.
      destruct (pc_blanks b m inb so t ((91%N :: u3) ++ v) Hb Hm) as (m' & Hm' & ->).
      simpl in Hm'. destruct m' as [|m']; [lia|]. simpl.
      destruct t as [|t0 t']; [congruence|]. set (t := t0 :: t') in *.
      apply nb_app_split in H3 as (u4 & u5 & -> & H4 & H5).
      apply nb_split_char in H5 as (b2 & u6 & -> & Hb2 & _ & H6).
      assert (E : (u4 ++ b2 ++ 93%N :: u6) ++ v = (u4 ++ b2) ++ (93%N :: u6 ++ v)).
      { rewrite <- !app_assoc. reflexivity. }
      rewrite E in Hm' |- *.
      assert (Hnb2 : nb b2 = []).
      { clear -Hb2. induction Hb2 as [|d b Hd _ IH]; auto. now rewrite nb_cons, Hd. }
      rewrite (IH1 m' true [] (u4 ++ b2) (93%N :: u6 ++ v) (u6 ++ v)); auto.
      * cbv beta iota. change (pieces [] ++ l1) with l1. rewrite (IH2 m' inb _ u6 v rest); auto.
        -- rewrite pieces_closed by auto. rewrite pieces_groups.
           ++ now rewrite app_assoc.
           ++ now apply plain_comma.
           ++ discriminate.
           ++ eapply denotes_no_comma; eauto.
        -- now apply closed_groups.
        -- rewrite !app_length in *. simpl in Hm'. rewrite app_length in Hm'. lia.
      * rewrite nb_app, Hnb2, app_nil_r. auto.
      * reflexivity.
      * constructor.
      * lia.
Qed.

Lemma parse_collapsed_ok raw l : parse_collapsed raw = Ok l <-> denotes (nb raw) l.
Proof.
  unfold parse_collapsed. split.
  - destruct (pc (length raw) false [] [] raw) as [[out rest]| |] eqn:E; simpl; try discriminate.
    intros H; injection H as <-.
    apply pc_sound in E as (u & l & Hd & -> & -> & ->); [|constructor|apply plain_nil]. exact Hd.
  - intros H. pose proof (pc_complete _ _ H (length raw) false [] raw [] []) as C.
    rewrite app_nil_r in C. rewrite C; [reflexivity|reflexivity|split; auto|constructor|auto].
Qed.

Lemma parse_collapsed_no_panic raw : parse_collapsed raw <> Panic.
Proof.
  unfold parse_collapsed. pose proof (pc_no_panic (length raw) false [] [] raw (le_n _)) as H.
  destruct (pc (length raw) false [] [] raw) as [[out rest]| |]; simpl; congruence.
Qed.

(** ** Trees *)
Lemma denotes_item : forall i, item_ok i ->
  denotes (render i) (leaves i) /\
  forall r l, denotes r l -> denotes (render i ++ 44%N :: r) (leaves i ++ l).
Proof.
  fix IH 1. intros [x|p sub] Hok; simpl in *.
  - destruct Hok as [Hn Hp]. replace [x] with (nonempty x) by (destruct x; [congruence|reflexivity]).
    split; [now constructor|]. intros r l H.
    change (x :: l) with ([x] ++ l).
    replace [x] with (nonempty x) by (destruct x; [congruence|reflexivity]). now apply D_comma.
  - destruct Hok as (Hn & Hp & Hsub).
    assert (Hin : denotes (join [44%N] (map render sub)) (flat_map leaves sub)).
    { clear -IH Hsub. induction sub as [|j sub IHs]; simpl in *.
      - apply (D_text []). apply plain_nil.
      - destruct Hsub as [Hj Hsub]. specialize (IHs Hsub). destruct (IH j Hj) as [H1 H2].
        destruct sub as [|k sub]; [now rewrite app_nil_r|].
        apply (H2 _ _ IHs). }
    assert (H0 : denotes [] []) by (apply (D_text []); apply plain_nil).
    split.
    + rewrite <- (app_nil_r (map _ (flat_map leaves sub))). now apply D_group.
    + intros r l Hr. rewrite <- app_assoc. simpl. rewrite <- app_assoc. simpl.
      apply D_group; auto. apply (D_comma [] r l); auto. apply plain_nil.
Qed.

Lemma denotes_items l : Forall item_ok l ->
  denotes (join [44%N] (map render l)) (flat_map leaves l).
Proof.
  induction 1 as [|j l Hj Hl IH]; simpl; [apply (D_text []), plain_nil|].
  destruct (denotes_item j Hj) as [H1 H2]. destruct l as [|k l]; [simpl; now rewrite app_nil_r|].
  apply (H2 _ _ IH).
Qed.

(** ** Rejection *)
Lemma count_app c x y : count c (x ++ y) = count c x + count c y.
Proof. induction x; simpl; lia. Qed.

Lemma count_cons c d x : count c (d :: x) = (if N.eqb c d then 1 else 0) + count c x.
Proof. reflexivity. Qed.
Lemma count_nil c : count c [] = 0.
Proof. reflexivity. Qed.

Lemma count_notin c x : ~ In c x -> count c x = 0.
Proof.
  induction x as [|d x IH]; simpl; intros H; auto.
  destruct (N.eqb_spec c d); [subst; exfalso; auto|]. rewrite IH; auto.
Qed.

Lemma split_at {A} (x y p q : list A) c : x ++ y = p ++ c :: q ->
  (exists y1, x = p ++ c :: y1 /\ q = y1 ++ y) \/ (exists x2, p = x ++ x2 /\ y = x2 ++ c :: q).
Proof.
  revert p; induction x as [|a x IH]; intros p E; simpl in E.
  - right. exists p. auto.
  - destruct p as [|b p]; simpl in E; injection E as -> E.
    + left. exists x. auto.
    + destruct (IH p E) as [(y1 & -> & ->)|(x2 & -> & ->)].
      * left. exists y1. auto.
      * right. exists x2. auto.
Qed.

Definition never_bad (r : str) : Prop := ~ unopened r /\ ~ unclosed r /\ ~ no_prefix r.

Lemma plain_count t : plain_text t -> count 91%N t = 0 /\ count 93%N t = 0.
Proof. intros H. split; apply count_notin; apply plain_special; auto; unfold special; lia. Qed.

Lemma denotes_balanced r l : denotes r l -> count 91%N r = count 93%N r.
Proof.
  induction 1 as [t Ht|t r l Ht _ IH|t r1 l1 r2 l2 Ht Hn _ IH1 _ IH2];
    destruct (plain_count t Ht) as [C1 C2]; rewrite ?count_app; simpl;
    rewrite ?count_app; simpl; lia.
Qed.

Lemma plain_no_split c t p q : plain_text t -> special c -> t = p ++ c :: q -> False.
Proof.
  intros H Hc ->. eapply plain_special; eauto. apply in_or_app. right. now left.
Qed.

Lemma denotes_opened r l : denotes r l -> ~ unopened r.
Proof.
  assert (S93 : special 93%N) by (unfold special; lia).
  induction 1 as [t Ht|t r l Ht _ IH|t r1 l1 r2 l2 Ht Hn Hd1 IH1 Hd2 IH2];
    destruct (plain_count t Ht) as [C1 C2]; intros (p & q & E & C).
  - eapply plain_no_split; eauto.
  - apply split_at in E as [(y & E & _)|(x & -> & E)]; [eapply plain_no_split; eauto|].
    destruct x as [|d x]; [discriminate|]. injection E as <- E.
    apply IH. exists x, q. split; auto. rewrite !count_app, C1, C2 in C. simpl in C. lia.
  - apply split_at in E as [(y & E & _)|(x & -> & E)]; [eapply plain_no_split; eauto|].
    destruct x as [|d x]; [discriminate|]. injection E as <- E.
    rewrite !count_app, C1, C2 in C. simpl in C.
    apply split_at in E as [(y & E & _)|(x2 & -> & E)].
    + apply IH1. exists x, y. split; auto. lia.
    + rewrite !count_app, (denotes_balanced _ _ Hd1) in C.
      destruct x2 as [|d x2]; [simpl in C; lia|]. injection E as <- E.
      apply IH2. exists x2, q. split; auto. simpl in C. lia.
Qed.

Lemma denotes_prefixed r l : denotes r l -> ~ no_prefix r.
Proof.
  assert (S91 : special 91%N) by (unfold special; lia).
  assert (Hlast : forall (x y : str) (d e : N), x ++ [d] = y ++ [e] -> x = y /\ d = e).
  { intros. now apply app_inj_tail. }
  induction 1 as [t Ht|t r l Ht _ IH|t r1 l1 r2 l2 Ht Hn Hd1 IH1 Hd2 IH2];
    intros (p & q & E & C).
  - eapply plain_no_split; eauto.
  - apply split_at in E as [(y & E & _)|(x & -> & E)]; [eapply plain_no_split; eauto|].
    destruct x as [|d x]; [discriminate|]. injection E as <- E.
    apply IH. exists x, q. split; auto. destruct C as [C|(p' & d & C & Hd)].
    + destruct t; discriminate.
    + destruct x as [|x0 x]; [now left|]. right.
      destruct (@exists_last _ (x0 :: x) ltac:(discriminate)) as (x' & e & Ex). rewrite Ex in *.
      exists x', e. split; auto. replace (t ++ 44%N :: x' ++ [e]) with ((t ++ 44%N :: x') ++ [e]) in C
        by (rewrite <- app_assoc; reflexivity).
      apply Hlast in C as [_ <-]. auto.
  - apply split_at in E as [(y & E & _)|(x & -> & E)]; [eapply plain_no_split; eauto|].
    destruct x as [|d x].
    { (* the opening bracket itself *)
      rewrite app_nil_r in C. destruct C as [->|(p' & d & -> & Hd)]; [congruence|].
      eapply plain_special; eauto. apply in_or_app. right. now left. }
    injection E as <- E.
    apply split_at in E as [(y & E & _)|(x2 & -> & E)].
    + apply IH1. exists x, y. split; auto. destruct C as [C|(p' & d & C & Hd)].
      * destruct t; discriminate.
      * destruct x as [|x0 x]; [now left|]. right.
        destruct (@exists_last _ (x0 :: x) ltac:(discriminate)) as (x' & e & Ex). rewrite Ex in *.
        exists x', e. split; auto.
        replace (t ++ 91%N :: x' ++ [e]) with ((t ++ 91%N :: x') ++ [e]) in C
          by (rewrite <- app_assoc; reflexivity).
        apply Hlast in C as [_ <-]. auto.
    + destruct x2 as [|d x2]; [discriminate|]. injection E as <- E.
      apply IH2. exists x2, q. split; auto. destruct C as [C|(p' & d & C & Hd)].
      * destruct t; discriminate.
      * destruct x2 as [|x0 x2]; [now left|]. right.
        destruct (@exists_last _ (x0 :: x2) ltac:(discriminate)) as (x' & e & Ex). rewrite Ex in *.
        exists x', e. split; auto.
        replace (t ++ 91%N :: r1 ++ 93%N :: x' ++ [e]) with ((t ++ 91%N :: r1 ++ 93%N :: x') ++ [e]) in C
          by (rewrite <- !app_assoc; simpl; now rewrite <- !app_assoc).
        apply Hlast in C as [_ <-]. auto.
Qed.

(** A bracket error stays one when text is put in front. *)
Lemma no_prefix_lift a c r : special c -> no_prefix r -> no_prefix (a ++ c :: r).
Proof.
  intros Hc (p & q & -> & H). exists (a ++ c :: p), q. split; [now rewrite <- app_assoc|].
  right. destruct H as [->|(p' & d & -> & Hd)].
  - exists a, c. auto.
  - exists (a ++ c :: p'), d. split; auto. now rewrite <- app_assoc.
Qed.

Lemma pc_err n : forall inb so cur raw,
  closed so -> plain_text cur -> length raw <= n -> pc n inb so cur raw = Err ->
  no_prefix (cur ++ nb raw) \/
  (if inb then forall p q, nb raw = p ++ q -> count 93%N p <= count 91%N p
   else unopened (cur ++ nb raw) \/ unclosed (cur ++ nb raw)).
Proof.
  assert (S91 : special 91%N) by (unfold special; lia).
  assert (S93 : special 93%N) by (unfold special; lia).
  assert (S44 : special 44%N) by (unfold special; lia).
  induction n as [|n IH]; intros inb so cur raw Hso Hcur Hn H.
  - destruct raw; [|simpl in Hn; lia]. simpl in H. destruct inb; [|discriminate].
    right. intros p q E. symmetry in E. apply app_eq_nil in E as [-> ->]. auto.
  - destruct raw as [|c raw]; simpl in H.
    { destruct inb; [|discriminate].
      right. intros p q E. symmetry in E. apply app_eq_nil in E as [-> ->]. auto. }
    simpl in Hn. rewrite nb_cons. destruct (is_blank c) eqn:Eb.
    { apply IH in H; auto. lia. }
    destruct (plain_count cur Hcur) as [Cu1 Cu2].
    destruct (N.eqb_spec c c_lbr) as [->|Nl].
    { destruct cur as [|c0 cur']; [left; exists [], (nb raw); auto|].
      set (cur := c0 :: cur') in *. clearbody cur.
      destruct (pc n true [] [] raw) as [[ps rest1]| |] eqn:E1; try discriminate.
      - apply pc_sound in E1 as (u1 & l1 & Hd1 & Ho1 & Hr1); [|constructor|apply plain_nil].
        simpl in Hd1, Ho1. subst ps raw.
        pose proof (denotes_balanced _ _ Hd1) as B1.
        assert (O1 : forall p q, nb u1 = p ++ q -> count 93%N p <= count 91%N p).
        { intros p q E. revert q E. induction p as [|d p IHp] using rev_ind; intros q E; [simpl; auto|].
          rewrite <- app_assoc in E. specialize (IHp _ E).
          rewrite !count_app, !count_cons, !count_nil.
          destruct (N.eqb_spec 93 d) as [<-|]; [|lia].
          destruct (le_lt_dec (count 91%N p) (count 93%N p)) as [Hle|Hlt]; [|lia].
          exfalso. apply (denotes_opened _ _ Hd1). exists p, q. simpl. split; auto. }
        apply IH in H; [|now apply closed_groups|apply plain_nil
                        |rewrite app_length in Hn; simpl in Hn; lia].
        simpl in H. rewrite nb_app, nb_cons. change (is_blank 93%N) with false. cbv iota.
        change (cur ++ c_lbr :: nb u1 ++ 93%N :: nb rest1)
          with (cur ++ (c_lbr :: nb u1) ++ 93%N :: nb rest1).
        rewrite (app_assoc cur). destruct H as [H|H].
        + left. now apply no_prefix_lift.
        + right. destruct inb.
          * intros p q E.
            destruct p as [|d p]; [simpl; auto|]. simpl in E. injection E as <- E.
            apply app_eq_app in E as (l & [[E1 E2]|[E1 E2]]).
            -- specialize (O1 _ _ E1). simpl. lia.
            -- subst p. destruct l as [|e l]; [simpl; rewrite app_nil_r; specialize (O1 (nb u1) []);
                 rewrite app_nil_r in O1; specialize (O1 eq_refl); lia|].
               simpl in E2. injection E2 as <- E2. specialize (H _ _ E2).
               simpl. rewrite !count_app. simpl. lia.
          * destruct H as [(p & q & E & C)|H].
            -- left. exists ((cur ++ c_lbr :: nb u1) ++ 93%N :: p), q. split.
               ++ rewrite E. now rewrite <- (app_assoc _ (93%N :: p)).
               ++ rewrite ?count_app; simpl; rewrite ?count_app; simpl; lia.
            -- right. unfold unclosed in *. rewrite !count_app. simpl. lia.
      - apply IH in E1; [|constructor|apply plain_nil|lia]. simpl in E1.
        destruct E1 as [E1|E1].
        + left. now apply (no_prefix_lift cur 91%N).
        + right. destruct inb.
          * intros p q E. destruct p as [|d p]; [simpl; auto|]. injection E as <- E.
            specialize (E1 _ _ E). simpl. lia.
          * right. unfold unclosed. specialize (E1 (nb raw) [] ltac:(now rewrite app_nil_r)).
            rewrite !count_app. simpl. lia. }
    destruct (N.eqb_spec c c_rbr) as [->|Nr].
    { destruct inb; [discriminate|]. right. left. exists cur, (nb raw). split; auto. lia. }
    destruct (N.eqb_spec c c_comma) as [->|Nc].
    { apply IH in H; [|apply closed_comma|apply plain_nil|lia]. simpl in H.
      destruct H as [H|H]; [left; now apply (no_prefix_lift cur 44%N)|]. right. destruct inb.
      - intros p q E. destruct p as [|d p]; [simpl; auto|]. injection E as <- E.
        specialize (H _ _ E). simpl. lia.
      - destruct H as [(p & q & E & C)|H].
        + left. exists (cur ++ 44%N :: p), q. rewrite E. split; [now rewrite <- app_assoc|].
          rewrite !count_app. simpl. lia.
        + right. unfold unclosed in *. rewrite !count_app. simpl. lia. }
    { apply IH in H; [|auto| |lia].
      - rewrite <- app_assoc in H. simpl in H. destruct H as [H|H]; auto.
        right. destruct inb; auto. intros p q E. destruct p as [|d p]; [simpl; auto|].
        injection E as <- E. specialize (H _ _ E).
        assert (E91 : N.eqb 91 c = false) by (chars; lia).
        assert (E93 : N.eqb 93 c = false) by (chars; lia).
        rewrite !count_cons, E91, E93. exact H.
      - apply Forall_app. split; auto. constructor; auto. split.
        + rewrite <- is_blank_iff. congruence.
        + unfold special. chars. lia. }
Qed.

Lemma parse_collapsed_err raw :
  parse_collapsed raw = Err <-> unopened (nb raw) \/ unclosed (nb raw) \/ no_prefix (nb raw).
Proof.
  split.
  - unfold parse_collapsed.
    destruct (pc (length raw) false [] [] raw) as [[out rest]| |] eqn:E; simpl; try discriminate.
    intros _. apply pc_err in E; [|constructor|apply plain_nil|auto]. simpl in E. tauto.
  - intros H. destruct (parse_collapsed raw) as [l| |] eqn:E; auto.
    + apply parse_collapsed_ok in E. exfalso. destruct H as [H|[H|H]].
      * now apply (denotes_opened _ _ E).
      * unfold unclosed in H. rewrite (denotes_balanced _ _ E) in H. lia.
      * now apply (denotes_prefixed _ _ E).
    + now apply parse_collapsed_no_panic in E.
Qed.

Lemma res_map_total {A B} (f : A -> res B) l ys :
  Forall2 (fun x y => f x = Ok y) l ys -> res_map f l = Ok ys.
Proof. apply res_map_ok_iff. Qed.

Lemma parse_collapsed_spec raw l :
  parse_collapsed raw = Ok l <-> exists r, no_blanks raw r /\ denotes r l.
Proof.
  rewrite parse_collapsed_ok. unfold no_blanks. split.
  - intros H. exists (nb raw). auto.
  - intros (r & -> & H). exact H.
Qed.

Lemma parse_collapsed_err_spec raw :
  parse_collapsed raw = Err <->
  exists r, no_blanks raw r /\ (unopened r \/ unclosed r \/ no_prefix r).
Proof.
  rewrite parse_collapsed_err. unfold no_blanks. split.
  - intros H. exists (nb raw). auto.
  - intros (r & -> & H). exact H.
Qed.

Lemma expand_trees items raw : Forall item_ok items ->
  no_blanks raw (join [44%N] (map render items)) ->
  parse_collapsed raw = Ok (flat_map leaves items).
Proof.
  intros H E. apply parse_collapsed_spec. eexists. split; [exact E|]. now apply denotes_items.
Qed.
