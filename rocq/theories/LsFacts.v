(** Facts on [art ls]. *)
From Coq Require Import Lia ZArith ZifyBool.
From Verif Require Import Base BaseFacts Name NameFacts Family Artifact Ls SpecLs.
Open Scope nat_scope.

(** ** Flags *)
Definition spells (x : str) (t : token) : Prop := x = [letter t] \/ x = word t.

Definition tokens : list token :=
  [TField FdName; TField FdFile; TField FdSubnames; TField FdParts; TField FdPartof; TField FdImpl; TField FdText; TAll].
Lemma tokens_all t : In t tokens.
Proof. destruct t as [d|]; [destruct d|]; cbn; auto 10. Qed.
Lemma valid_eq : valid_fields = map (fun t => [letter t]) tokens ++ map word tokens.
Proof. reflexivity. Qed.

Definition id_spec : forall a b : str, str_eqb a b = true <-> (fun x : str => x) a = (fun x : str => x) b := str_eqb_eq.
Lemma mem_str x l : is_mem str_eqb x l = true <-> In x l.
Proof. rewrite (is_mem_iff str_eqb (fun x => x) id_spec), map_id. reflexivity. Qed.
Lemma mem_collect x l : is_mem str_eqb x (is_collect str_eqb l) = is_mem str_eqb x l.
Proof.
  apply eq_true_iff_eq. rewrite !mem_str. pose proof (is_collect_in str_eqb (fun x => x) id_spec l x) as E.
  rewrite !map_id in E. exact E.
Qed.

Lemma valid_iff x : is_mem str_eqb x valid_fields = true <-> exists t, spells x t.
Proof.
  rewrite mem_str, valid_eq, in_app_iff, !in_map_iff. unfold spells. split.
  - intros [(t & <- & _)|(t & <- & _)]; exists t; auto.
  - intros (t & [-> | ->]); [left|right]; exists t; (split; [reflexivity|apply tokens_all]).
Qed.

Lemma letter_inj t t' : letter t = letter t' -> t = t'.
Proof. destruct t as [d|], t' as [d'|]; try destruct d; try destruct d'; cbn; intros E; (reflexivity || discriminate E). Qed.
Lemma word_inj t t' : word t = word t' -> t = t'.
Proof. destruct t as [d|], t' as [d'|]; try destruct d; try destruct d'; cbn; intros E; (reflexivity || discriminate E). Qed.
Lemma word_letter t t' : word t <> [letter t'].
Proof. destruct t as [d|]; try destruct d; discriminate. Qed.
Lemma spells_inj x t t' : spells x t -> spells x t' -> t = t'.
Proof.
  intros [-> | ->] [E|E].
  - apply letter_inj. congruence.
  - symmetry in E. apply word_letter in E. tauto.
  - apply word_letter in E. tauto.
  - apply word_inj. exact E.
Qed.
Lemma letter_upper t : is_upper (letter t) = true.
Proof. destruct t as [d|]; try destruct d; reflexivity. Qed.
Lemma letter_comma t : letter t <> c_comma.
Proof. destruct t as [d|]; try destruct d; discriminate. Qed.
Lemma word_upper t : existsb is_upper (word t) = false.
Proof. destruct t as [d|]; try destruct d; reflexivity. Qed.
Lemma word_comma t : mem_char c_comma (word t) = false.
Proof. destruct t as [d|]; try destruct d; reflexivity. Qed.
Lemma mem_char_iff c x : mem_char c x = true <-> In c x.
Proof.
  unfold mem_char. rewrite existsb_exists. split.
  - intros (d & Hd & E). apply N.eqb_eq in E. subst. exact Hd.
  - intros Hc. exists c. split; [exact Hc|apply N.eqb_refl].
Qed.

(** The pieces of a text, and the tokens of its non-empty pieces. *)
Definition pieces (x : str) : list str :=
  if mem_char c_comma x then filter nonempty (split_on c_comma x)
  else if negb (existsb is_upper x) then [x] else map (fun c => [c]) x.

Lemma denotes_pieces x l : denotes x l -> x <> [] /\ Forall2 spells (pieces x) l.
Proof.
  intros [l0 Hn|t|p l0 Hp F].
  - split; [destruct l0; [congruence|discriminate]|]. unfold pieces.
    assert (E : mem_char c_comma (map letter l0) = false).
    { apply not_true_iff_false. rewrite mem_char_iff, in_map_iff. intros (t & E & _). apply (letter_comma t E). }
    rewrite E. assert (E2 : existsb is_upper (map letter l0) = true).
    { destruct l0; [congruence|]. cbn [map existsb]. rewrite letter_upper. reflexivity. }
    rewrite E2. cbn [negb]. clear. induction l0 as [|t l0 IH]; cbn [map]; constructor; [left; reflexivity|exact IH].
  - split; [destruct t as [d|]; try destruct d; discriminate|]. unfold pieces. rewrite word_comma, word_upper. cbn [negb].
    constructor; [right; reflexivity|constructor].
  - assert (NC : forall q, In q p -> ~ In c_comma q).
    { intros q Hq. clear Hp. induction F as [|q0 k p l0 Hk F IH]; [destruct Hq|]. destruct Hq as [<-|Hq]; [|auto].
      destruct Hk as [|t|t]; [intros []|intros [E|[]]; apply (letter_comma t E)|].
      rewrite <- mem_char_iff, word_comma. discriminate. }
    assert (C : mem_char c_comma (join [c_comma] p) = true).
    { destruct p as [|a [|b p]]; cbn in Hp; try lia. rewrite join_cons by discriminate.
      apply mem_char_iff. rewrite !in_app_iff. right. left. left. reflexivity. }
    split; [intros E; rewrite E in C; discriminate C|]. unfold pieces. rewrite C.
    rewrite split_join; [|destruct p; cbn in Hp; [lia|discriminate]|exact NC].
    clear -F. induction F as [|q k p l0 Hk F IH]; [constructor|]. cbn [filter concat].
    destruct Hk as [|t|t]; [exact IH| |].
    + cbn [nonempty is_nil negb app]. constructor; [left; reflexivity|exact IH].
    + assert (E : nonempty (word t) = true) by (destruct t as [d|]; try destruct d; reflexivity).
      rewrite E. constructor; [right; reflexivity|exact IH].
Qed.

Lemma upper_letter c t : spells [c] t -> c = letter t.
Proof. intros [E|E]; [congruence|]. destruct t as [d|]; try destruct d; discriminate E. Qed.

Lemma pieces_denotes x l : x <> [] -> Forall2 spells (pieces x) l -> denotes x l.
Proof.
  intros Hn F. unfold pieces in F. destruct (mem_char c_comma x) eqn:C.
  - pose proof (join_split c_comma x) as J. rewrite <- J.
    assert (L : 2 <= length (split_on c_comma x)).
    { destruct (split_on c_comma x) as [|a [|b q]] eqn:E; [now apply split_on_nonempty in E| |cbn; lia].
      exfalso. cbn in J. subst a. apply mem_char_iff in C. apply (split_on_pieces c_comma x x); [rewrite E; left; reflexivity|exact C]. }
    assert (X : exists ls, Forall2 piece (split_on c_comma x) ls /\ concat ls = l).
    { clear J L C Hn. revert l F. induction (split_on c_comma x) as [|a q IH]; cbn [filter]; intros l F.
      - inversion F. exists []. split; [constructor|reflexivity].
      - destruct a as [|c a].
        + destruct (IH l F) as (ls & A & B). exists ([] :: ls). split; [constructor; [constructor|exact A]|exact B].
        + change (nonempty (c :: a)) with true in F. cbn iota in F. inversion F as [|u t v l' Hs F' E1 E2]. subst.
          destruct (IH l' F') as (ls & A & <-). exists ([t] :: ls). split; [|reflexivity].
          constructor; [|exact A]. destruct Hs as [-> | ->]; constructor. }
    destruct X as (ls & A & <-). apply dn_commas; assumption.
  - destruct (existsb is_upper x) eqn:U; cbn [negb] in F.
    + assert (E : x = map letter l).
      { clear -F. revert l F. induction x as [|c x IH]; cbn [map]; intros l F; inversion F; subst; [reflexivity|].
        cbn [map]. f_equal; [apply upper_letter; assumption|apply IH; assumption]. }
      rewrite E. apply dn_letters. intros ->. cbn in E. congruence.
    + inversion F as [|a t b l' Hs F']. subst. inversion F'; subst. destruct Hs as [-> | ->]; [|constructor].
      exfalso. cbn [existsb] in U. rewrite letter_upper in U. discriminate U.
Qed.

Lemma fields_in fs l : Forall2 spells fs l -> forall t,
  is_mem str_eqb [letter t] fs || is_mem str_eqb (word t) fs = true <-> In t l.
Proof.
  intros F t. rewrite orb_true_iff, !mem_str. induction F as [|x u fs l Hs F IH]; [cbn; tauto|]. cbn [In]. rewrite <- IH. split.
  - intros [[E|E]|[E|E]]; try tauto; left.
    + apply (spells_inj x); [exact Hs|left; exact E].
    + apply (spells_inj x); [exact Hs|right; exact E].
  - intros [-> |[E|E]]; try tauto. destruct Hs as [-> | ->]; tauto.
Qed.

Lemma len_zero f : flags_len f = 0 <-> forall d, selected f d = false.
Proof.
  destruct f as [[] [] [] [] [] [] []]; cbv -[iff]; split; intros E; try discriminate E; try reflexivity;
    try (intros d; destruct d; reflexivity);
    exfalso; first [discriminate (E FdName)|discriminate (E FdFile)|discriminate (E FdSubnames)|discriminate (E FdParts)
                    |discriminate (E FdPartof)|discriminate (E FdImpl)|discriminate (E FdText)].
Qed.
Lemma selected_invert f d : selected (flags_invert f) d = negb (selected f d).
Proof. destruct d; reflexivity. Qed.
Lemma flags_ext f g : (forall d, selected f d = selected g d) -> f = g.
Proof.
  intros E. destruct f, g. pose proof (E FdName). pose proof (E FdFile). pose proof (E FdSubnames). pose proof (E FdParts).
  pose proof (E FdPartof). pose proof (E FdImpl). pose proof (E FdText). cbn in *. congruence.
Qed.

Lemma resolve_selects (l : list token) f all :
  (forall d, selected f d = true <-> In (TField d) l) -> (all = true <-> In TAll l) ->
  forall d, selected (resolve_actual f all) d = true <-> selects l d.
Proof.
  intros Hf Ha d. unfold resolve_actual, selects. destruct all.
  - rewrite selected_invert, negb_true_iff, <- not_true_iff_false, Hf. pose proof (proj1 Ha eq_refl) as Hin.
    split; [tauto|]. intros [(-> & _)|[X|X]]; [destruct Hin| |]; tauto.
  - assert (Hn : ~ In TAll l) by (rewrite <- Ha; discriminate). destruct (Nat.eqb_spec (flags_len f) 0) as [E|E].
    + assert (El : l = []).
      { destruct l as [|t l]; [reflexivity|]. exfalso. destruct t as [d0|]; [|apply Hn; left; reflexivity].
        pose proof (proj1 (len_zero f) E d0) as X. rewrite (proj2 (Hf d0)) in X by (left; reflexivity). discriminate X. }
      subst l. split.
      * intros X. left. split; [reflexivity|]. destruct d; cbn in X; try discriminate X; auto.
      * intros [(_ & [-> | ->])|[(_ & [])|([] & _)]]; reflexivity.
    + rewrite Hf. split; [tauto|]. intros [(-> & _)|[X|X]]; try tauto. exfalso. apply E, len_zero. intros d0.
      apply not_true_iff_false. rewrite Hf. intros [].
Qed.

Lemma from_str_denotes x l : denotes x l -> exists f, flags_from_str x = Ok f /\ forall d, selected f d = true <-> selects l d.
Proof.
  intros D. apply denotes_pieces in D. destruct D as (Hn & F). unfold flags_from_str.
  replace (is_nil x) with false by (destruct x; [congruence|reflexivity]). cbn iota.
  change (split_fields x) with (is_collect str_eqb (pieces x)).
  assert (V : forallb (fun f => is_mem str_eqb f valid_fields) (is_collect str_eqb (pieces x)) = true).
  { apply forallb_forall. intros y Hy. rewrite <- mem_str, mem_collect, mem_str in Hy. apply valid_iff.
    clear -F Hy. induction F as [|u t fs l Hs F IH]; [destruct Hy|]. destruct Hy as [<-|Hy]; [exists t; exact Hs|auto]. }
  rewrite V. cbn [negb]. rewrite !mem_collect. eexists. split; [reflexivity|].
  apply resolve_selects.
  - intros d. rewrite <- (fields_in _ _ F). destruct d; reflexivity.
  - rewrite <- (fields_in _ _ F). reflexivity.
Qed.

Lemma from_str_ok x f : flags_from_str x = Ok f -> exists l, denotes x l.
Proof.
  unfold flags_from_str. destruct x as [|c x]; [discriminate|]. cbn [is_nil].
  change (split_fields (c :: x)) with (is_collect str_eqb (pieces (c :: x))).
  destruct (forallb _ _) eqn:V; [|discriminate]. intros _.
  assert (X : exists l, Forall2 spells (pieces (c :: x)) l).
  { rewrite forallb_forall in V.
    assert (V' : forall y, In y (pieces (c :: x)) -> exists t, spells y t).
    { intros y Hy. apply valid_iff, V. rewrite <- mem_str, mem_collect, mem_str. exact Hy. }
    clear V. induction (pieces (c :: x)) as [|y fs IH]; [exists []; constructor|].
    destruct (V' y) as (t & Ht); [left; reflexivity|]. destruct IH as (l & Hl); [intros z Hz; apply V'; right; exact Hz|].
    exists (t :: l). constructor; assumption. }
  destruct X as (l & F). exists l. apply pieces_denotes; [discriminate|exact F].
Qed.

(** ** Colours *)
Lemma points_total spc tst : exists c, name_color spc tst = Ok c /\ completed_color spc tst = Ok (html_name c).
Proof.
  unfold name_color, completed_color, points_color, spc_points, tst_points.
  destruct (1000 <=? spc)%Z, (700 <=? spc)%Z, (400 <=? spc)%Z, (1000 <=? tst)%Z, (500 <=? tst)%Z; cbn; eauto.
Qed.
Lemma name_style_ok M H reported (a : artifact M H) : exists c, name_style reported a = Ok (colored (n_raw (a_name a)) c).
Proof. unfold name_style. destruct (points_total (reported (fst (a_completed a))) (reported (snd (a_completed a)))) as (c & -> & _). exists c. reflexivity. Qed.
Lemma spc_style_ok M H reported (a : artifact M H) : exists c, spc_style reported a = Ok (colored (percent (reported (fst (a_completed a)))) c).
Proof.
  unfold spc_style, spc_color, spc_points. set (x := reported (fst (a_completed a))).
  destruct (1000 <=? x)%Z, (700 <=? x)%Z, (400 <=? x)%Z; cbn; eauto.
Qed.
Lemma tst_style_ok M H reported (a : artifact M H) : exists c, tst_style reported a = Ok (colored (percent (reported (snd (a_completed a)))) c).
Proof.
  unfold tst_style, tst_color, tst_points. set (x := reported (snd (a_completed a))).
  destruct (1000 <=? x)%Z, (500 <=? x)%Z; cbn; eauto.
Qed.

(** ** Output *)
Lemma separated_cons t l : separated (t :: l) = t :: match l with [] => [] | _ => plain (s ", ") :: separated l end.
Proof. unfold separated. cbn [flat_map app removelast]. destruct l as [|u l]; reflexivity. Qed.
Lemma separated_texts l : texts (separated l) = join (s ", ") (map tx l).
Proof.
  induction l as [|t l IH]; [reflexivity|]. rewrite separated_cons. destruct l as [|u l].
  - cbn. rewrite app_nil_r. reflexivity.
  - change (map tx (t :: u :: l)) with (tx t :: map tx (u :: l)). rewrite join_cons by discriminate.
    rewrite <- IH. reflexivity.
Qed.

Lemma lookup_ok M H reported (arts : list (name * artifact M H)) names :
  exists l, lookup_name_styles reported arts names = Ok (separated l) /\ map tx l = map (shown arts) names /\
    Forall2 (fun n t => match im_get name_eqb n arts with
                        | Some a => name_style reported a = Ok t
                        | None => t = italic (n_raw n) end) names l.
Proof.
  unfold lookup_name_styles. induction names as [|n names IH]; [exists []; cbn; auto|].
  destruct IH as (l & E & Em & F). cbn [res_map].
  destruct (res_map _ names) as [l0| |] eqn:R; try discriminate E. cbn [res_bind] in E.
  assert (X : exists t, match im_get name_eqb n arts with None => Ok (italic (n_raw n)) | Some a => name_style reported a end = Ok t /\
              tx t = shown arts n /\ match im_get name_eqb n arts with Some a => name_style reported a = Ok t | None => t = italic (n_raw n) end).
  { unfold shown. destruct (im_get name_eqb n arts) as [a|].
    - destruct (name_style_ok M H reported a) as (c & Ec). rewrite Ec. eexists. split; [reflexivity|]. split; reflexivity.
    - eexists. split; [reflexivity|]. split; reflexivity. }
  destruct X as (t & Et & Ex & Hx). rewrite Et. cbn [res_bind].
  exists (t :: l0).
  assert (El : map tx l0 = map (shown arts) names /\ Forall2 (fun n t => match im_get name_eqb n arts with
                        | Some a => name_style reported a = Ok t
                        | None => t = italic (n_raw n) end) names l0).
  { clear -R. revert l0 R. induction names as [|n names IH]; intros l0 R; cbn [res_map] in R; [inversion R; split; constructor|].
    destruct (match im_get name_eqb n arts with None => _ | Some a => _ end) as [t| |] eqn:Et; try discriminate R. cbn [res_bind] in R.
    destruct (res_map _ names) as [l| |]; try discriminate R. cbn [res_bind] in R. inversion R; subst. destruct (IH l eq_refl) as [A B].
    split.
    - cbn [map]. rewrite A. f_equal. unfold shown. destruct (im_get name_eqb n arts) as [a|].
      + destruct (name_style_ok M H reported a) as (c & Ec). rewrite Ec in Et. inversion Et. reflexivity.
      + inversion Et. reflexivity.
    - constructor; [|exact B]. destruct (im_get name_eqb n arts); [exact Et|]. inversion Et. reflexivity. }
  split; [reflexivity|]. split.
  - cbn [map]. rewrite Ex, (proj1 El). reflexivity.
  - constructor; [exact Hx|apply El].
Qed.

Lemma cell_if_ok b c out : cell_if b (Ok c) out = Ok (out ++ (if b then [plain (s " | ") :: c] else [])).
Proof. destruct b; cbn; [reflexivity|]. rewrite app_nil_r. reflexivity. Qed.
Lemma filter_opt {A} (p : A -> bool) x l : filter p (x :: l) = (if p x then [x] else []) ++ filter p l.
Proof. cbn. destruct (p x); reflexivity. Qed.
Lemma map_opt {A B} (g : A -> B) (b : bool) x : map g (if b then [x] else []) = if b then [g x] else [].
Proof. destruct b; reflexivity. Qed.
Lemma texts_one x : texts [x] = tx x.
Proof. unfold texts. cbn. apply app_nil_r. Qed.
Lemma texts_app a b : texts (a ++ b) = texts a ++ texts b.
Proof. unfold texts. rewrite map_app, concat_app. reflexivity. Qed.
Lemma text_cell_eq x : text_cell x = concat (map (fun c => if N.eqb c 10 then [92; 110]%N else [c]) (firstn 30 x)).
Proof. unfold text_cell, replace_char. rewrite flat_map_concat_map. reflexivity. Qed.

Section Out.
  Context {M : num} {H : Type}.
  Variable reported : F M -> Z.
  Variable regex : str -> option (str -> bool).
  Variable path_str : path -> str.
  Variable code_str : impl_code -> str.
  Notation artifact := (artifact M H).
  Notation artifacts := (list (name * Artifact.artifact M H)).

  Lemma line_ok (arts : artifacts) f a : exists cells, line_style reported path_str code_str arts f a = Ok cells /\
    map texts cells = row path_str code_str reported arts (filter (selected f) columns) a.
  Proof.
    unfold line_style. destruct (spc_style_ok _ _ reported a) as (c1 & ->). destruct (tst_style_ok _ _ reported a) as (c2 & ->).
    destruct (name_style_ok _ _ reported a) as (c3 & ->). cbn [res_bind].
    destruct (lookup_ok _ _ reported arts (a_parts a)) as (l1 & -> & E1 & _).
    destruct (lookup_ok _ _ reported arts (a_partof a)) as (l2 & -> & E2 & _).
    rewrite cell_if_ok. cbn [res_bind]. rewrite cell_if_ok. cbn [res_bind]. rewrite cell_if_ok. cbn [res_bind].
    rewrite cell_if_ok. cbn [res_bind]. rewrite cell_if_ok. cbn [res_bind]. rewrite cell_if_ok. cbn [res_bind]. rewrite cell_if_ok.
    eexists. split; [reflexivity|]. unfold row, columns. rewrite !filter_opt. cbn [filter]. rewrite !map_app, !map_opt. cbn [map selected value].
    rewrite <- !app_assoc, ?app_nil_r.
    assert (T : forall c, texts (plain (s " | ") :: c) = s " | " ++ texts c) by reflexivity.
    rewrite !T, !texts_one, !separated_texts, E1, E2, text_cell_eq. cbn [tx plain colored].
    replace (map tx (map (subname_style a) (a_subnames a))) with (map s_raw (a_subnames a)) by (rewrite map_map; reflexivity).
    reflexivity.
  Qed.

  Lemma header_ok f : map texts (header f) = title (filter (selected f) columns).
  Proof.
    unfold header, title, columns, head_if. rewrite !filter_opt. cbn [filter]. rewrite !map_app, !map_opt. cbn [map selected].
    rewrite ?app_nil_r. reflexivity.
  Qed.

  Definition lines (l : list str) : str := concat (map (fun x => x ++ [c_nl]) l).
  Lemma lines_app a b : lines (a ++ b) = lines a ++ lines b.
  Proof. unfold lines. rewrite map_app, concat_app. reflexivity. Qed.
  Lemma lines_cons x l : lines (x :: l) = lines [x] ++ lines l.
  Proof. apply (lines_app [x] l). Qed.
  Lemma line_texts l : texts (line l) = lines [texts l].
  Proof. unfold line, lines. rewrite texts_app, texts_one. cbn [map concat tx plain]. rewrite app_nil_r. reflexivity. Qed.

  Lemma items_ok l : map tx (separated l) = with_separators (map tx l).
  Proof.
    induction l as [|t l IH]; [reflexivity|]. rewrite separated_cons. destruct l as [|u l]; [reflexivity|].
    cbn [map] in *. rewrite IH. reflexivity.
  Qed.
  Lemma extend_ok (arts : artifacts) ti names : exists l, extend_names reported arts ti names = Ok l /\
    texts l = lines ((ti ++ s ":") :: map (app (s "- ")) (with_separators (map (shown arts) names))).
  Proof.
    unfold extend_names. destruct (lookup_ok _ _ reported arts names) as (l & -> & E & _). cbn [res_bind].
    eexists. split; [reflexivity|]. rewrite texts_app, line_texts, texts_one. cbn [tx bold plain].
    rewrite (lines_cons _ (map _ _)). f_equal. rewrite <- E, <- items_ok.
    induction (separated l) as [|t k IH]; [reflexivity|]. cbn [flat_map map]. rewrite texts_app, IH, line_texts.
    rewrite (lines_cons _ (map _ _)). f_equal. unfold texts. cbn [map concat tx bold plain].
    rewrite app_nil_r. reflexivity.
  Qed.

  Lemma full_ok (arts : artifacts) f a : exists l, full_style reported path_str code_str arts f a = Ok l /\
    texts l = lines (long path_str code_str reported with_separators arts (selected f) a).
  Proof.
    unfold full_style. destruct (name_style_ok _ _ reported a) as (c3 & ->). destruct (spc_style_ok _ _ reported a) as (c1 & ->).
    destruct (tst_style_ok _ _ reported a) as (c2 & ->). cbn [res_bind].
    assert (P : forall (b : bool) ti names, exists l, (if b then extend_names reported arts ti names else Ok []) = Ok l /\
      texts l = lines (if b then (ti ++ s ":") :: map (app (s "- ")) (with_separators (map (shown arts) names)) else [])).
    { intros [] ti ns; [apply extend_ok|exists []; split; reflexivity]. }
    destruct (P (fl_parts f) (s "Parts") (a_parts a)) as (l1 & -> & E1).
    destruct (P (fl_partof f) (s "Partof") (a_partof a)) as (l2 & -> & E2). clear P. cbn [res_bind].
    eexists. split; [reflexivity|]. unfold long. rewrite !texts_app, E1, E2, !lines_app.
    assert (P : forall (b : bool) l x, texts l = x -> texts (if b then line l else []) = lines (if b then [x] else [])).
    { intros [] l x <-; [apply line_texts|reflexivity]. }
    rewrite (lines_cons (s "# " ++ _) [_]), <- !app_assoc. cbn [selected value].
    rewrite (P (fl_file f) _ (s "File: " ++ path_str (a_file a))) by (unfold texts; cbn [map concat tx bold plain]; rewrite app_nil_r; reflexivity).
    rewrite (P (fl_impl f) _ (s "Implemented: " ++ impl_str code_str (a_impl a))) by (unfold texts; cbn [map concat tx bold plain]; rewrite app_nil_r; reflexivity).
    rewrite (P (fl_text f) _ (trim_end (a_text a))) by apply texts_one.
    rewrite !line_texts. unfold texts. cbn [map concat tx bold plain colored]. rewrite !app_nil_r. reflexivity.
  Qed.
End Out.

(** ** The command *)
Lemma keeps_iff {M : num} {H} path_str m f (a : artifact M H) : fl_impl f = false ->
  keeps path_str m f a = true <-> forall d, selected f d = true -> d <> FdSubnames -> field_matches path_str m a d.
Proof.
  intros Hi. unfold keeps. rewrite negb_true_iff, !orb_false_iff, !andb_false_iff, !negb_false_iff.
  assert (X : forall l, existsb (fun n : name => m (n_raw n)) l = true <-> exists n, In n l /\ m (n_raw n) = true)
    by (intros l; apply existsb_exists).
  rewrite !X. split.
  - intros ((((A & B) & C) & D) & E) d Hd Hs. destruct d; cbn in *; intuition congruence.
  - intros A. assert (Y : forall d, d <> FdSubnames -> selected f d = false \/ field_matches path_str m a d).
    { intros d Hd. destruct (selected f d) eqn:E; [right; apply A; assumption|left; reflexivity]. }
    repeat split; [apply (Y FdName)|apply (Y FdFile)|apply (Y FdParts)|apply (Y FdPartof)|apply (Y FdText)]; discriminate.
Qed.

Lemma insert_mapped {A B} (g : A -> B) la lb (E : forall x y, lb (g x) (g y) = la x y) x l : insert_sorted lb (g x) (map g l) = map g (insert_sorted la x l).
Proof. induction l as [|y l IH]; cbn [map insert_sorted]; auto. rewrite E. destruct (la x y); cbn [map]; auto. now rewrite IH. Qed.
Lemma isort_mapped {A B} (g : A -> B) la lb (E : forall x y, lb (g x) (g y) = la x y) l : isort lb (map g l) = map g (isort la l).
Proof. induction l as [|x l IH]; cbn [map isort]; auto. rewrite IH. now apply insert_mapped. Qed.

Section Run.
  Context {M : num} {H : Type}.
  Variable reported : F M -> Z.
  Variable regex : str -> option (str -> bool).
  Variable path_str : path -> str.
  Variable code_str : impl_code -> str.
  Notation artifact := (artifact M H).
  Notation artifacts := (list (name * Artifact.artifact M H)).
  Notation run := (ls_run reported regex path_str code_str).

  Definition by_name (x y : name * artifact) : bool := name_leb (fst x) (fst y).

  Lemma nodup_sub (p : name * artifact -> bool) (arts : artifacts) :
    NoDup (map (fun e => (n_ty (fst e), n_key (fst e))) arts) -> NoDup (map nk (map fst (filter p arts))).
  Proof.
    intros Hn. rewrite map_map. induction arts as [|e arts IH]; [constructor|]. cbn [map filter] in *.
    inversion Hn as [|? ? Hx Hn']. subst. destruct (p e); [|auto]. cbn [map]. constructor; [|auto].
    intros Hin. apply Hx. apply in_map_iff in Hin. destruct Hin as (e' & E & Hin). apply filter_In in Hin. apply in_map_iff.
    exists e'. split; [exact E|apply Hin].
  Qed.

  Lemma index_all (arts : artifacts) l : arts_ok arts -> (forall e, In e l -> In e arts) -> forall e, In e l -> index arts (fst e) = Ok (snd e).
  Proof.
    intros Ha Hl [n a] He. unfold index. cbn [fst snd].
    rewrite (in_get name_eqb nk name_eqb_iff arts n a); [reflexivity| |apply Hl, He].
    unfold pkeys. pose proof (ao_once _ Ha) as X. exact X.
  Qed.

  (** The pairs that are listed. *)
  Definition kept (m : option (str -> bool)) (f : flags) (arts : artifacts) : artifacts :=
    isort by_name (match m with None => arts | Some m => filter (fun e => keeps path_str m f (snd e)) arts end).

  Lemma filter_ok cmd arts f m : arts_ok arts -> flags_from_str (ls_fields cmd) = Ok f -> fl_impl f = false ->
    searched regex cmd = Some m ->
    exists l, filter_artifacts regex path_str cmd arts = Ok l /\ isort name_leb l = map fst (kept m f arts).
  Proof.
    intros Ha Ef Hi Hm. unfold filter_artifacts. rewrite Ef. cbn [res_bind]. rewrite Hi. unfold searched, pattern_text in Hm.
    unfold kept. destruct (ls_pattern cmd) as [p|].
    - destruct (regex _) as [r|]; [|discriminate Hm]. inversion Hm; subst m. eexists. split; [reflexivity|].
      rewrite (is_collect_distinct name_eqb nk name_eqb_iff) by (apply nodup_sub, ao_once, Ha). apply isort_mapped. reflexivity.
    - inversion Hm; subst m. eexists. split; [reflexivity|].
      rewrite (is_collect_distinct name_eqb nk name_eqb_iff); [apply isort_mapped; reflexivity|].
      rewrite map_map. exact (ao_once _ Ha).
  Qed.

  Lemma kept_in m f arts e : In e (kept m f arts) <-> In e arts /\ match m with None => True | Some m => keeps path_str m f (snd e) = true end.
  Proof. unfold kept. rewrite isort_in. destruct m; [apply filter_In|tauto]. Qed.

  Lemma kept_sorted m f arts : arts_ok arts ->
    Sorted.StronglySorted (fun a b => name_leb (a_name a) (a_name b) = true) (map snd (kept m f arts)).
  Proof.
    intros Ha. assert (S : Sorted.StronglySorted (fun x y => by_name x y = true) (kept m f arts)).
    { apply isort_sorted; intros; [apply str_leb_total|]. eapply str_leb_trans; eassumption. }
    assert (N : forall e, In e (kept m f arts) -> a_name (snd e) = fst e).
    { intros [n a] He. apply kept_in in He. apply (ao_names _ Ha), He. }
    induction S as [|e l S IH Fe]; cbn [map]; constructor.
    - apply IH. intros e' He'. apply N. right. exact He'.
    - apply Forall_map. rewrite Forall_forall in Fe |- *. intros e' He'. rewrite !N by (try (left; reflexivity); right; exact He').
      apply Fe, He'.
  Qed.

  Lemma res_map_all {A B C} (g : A -> B) (h : B -> res C) (P : A -> C -> Prop) l :
    (forall x, In x l -> exists y, h (g x) = Ok y /\ P x y) -> exists ys, res_map h (map g l) = Ok ys /\ Forall2 P l ys.
  Proof.
    induction l as [|x l IH]; intros Hl; [exists []; split; [reflexivity|constructor]|].
    destruct (Hl x) as (y & E & Hp); [left; reflexivity|]. destruct IH as (ys & E2 & F); [intros z Hz; apply Hl; right; exact Hz|].
    exists (y :: ys). cbn [map res_map]. rewrite E. cbn [res_bind]. rewrite E2. split; [reflexivity|constructor; assumption].
  Qed.

  Lemma run_ok cmd (arts : artifacts) f m : arts_ok arts -> flags_from_str (ls_fields cmd) = Ok f -> fl_impl f = false ->
    searched regex cmd = Some m -> ls_type cmd = s "json" \/ ls_type cmd = s "list" ->
    exists out, run cmd arts = Ok out /\ prints path_str code_str reported cmd arts (map snd (kept m f arts)) out.
  Proof.
    intros Ha Ef Hi Hm Ht. destruct (filter_ok cmd arts f m Ha Ef Hi Hm) as (l & El & Es).
    assert (IX : forall e, In e (kept m f arts) -> index arts (fst e) = Ok (snd e)).
    { apply index_all; [exact Ha|]. intros e He. apply kept_in in He. apply He. }
    unfold ls_run. rewrite El. cbn [res_bind]. rewrite Es. set (g := flags_from_cmd (ls_flags cmd) (ls_all cmd) (ls_long cmd)).
    destruct (str_eqb (ls_type cmd) (s "json")) eqn:Ej.
    - destruct (res_map_all fst (index arts) (fun e a => a = snd e) (kept m f arts)) as (ys & E & Fy).
      { intros e He. exists (snd e). auto. }
      rewrite E. cbn [res_bind]. eexists. split; [reflexivity|]. split; [apply str_eqb_eq, Ej|].
      clear -Fy. induction Fy as [|e y l ys Hy Fy IH]; [reflexivity|]. cbn [map]. congruence.
    - assert (Et : ls_type cmd = s "list").
      { destruct Ht as [Ht|Ht]; [|exact Ht]. rewrite Ht, str_eqb_refl in Ej. discriminate Ej. }
      rewrite Et, str_eqb_refl. destruct (ls_long cmd) eqn:Eg.
      + destruct (res_map_all fst (fun n => res_bind (index arts n) (full_style reported path_str code_str arts g))
                    (fun e t => texts t = lines (long path_str code_str reported with_separators arts (selected g) (snd e))) (kept m f arts)) as (ys & E & Fy).
        { intros e He. rewrite (IX e He). cbn [res_bind]. apply full_ok. }
        rewrite E. cbn [res_bind]. eexists. split; [reflexivity|]. unfold prints. rewrite Eg. fold g. split; [exact Et|]. split; [reflexivity|].
        change (concat (map (fun x => x ++ [c_nl]) ?x)) with (lines x).
        clear -Fy. induction Fy as [|e y l ys Hy Fy IH]; [reflexivity|]. cbn [map concat flat_map].
        rewrite texts_app, lines_app, IH, Hy. reflexivity.
      + unfold display_table.
        destruct (res_map_all fst (fun n => res_bind (index arts n) (line_style reported path_str code_str arts g))
                    (fun e t => map texts t = row path_str code_str reported arts (filter (selected g) columns) (snd e)) (kept m f arts)) as (ys & E & Fy).
        { intros e He. rewrite (IX e He). cbn [res_bind]. apply line_ok. }
        rewrite E. cbn [res_bind]. eexists. split; [reflexivity|]. unfold prints. rewrite Eg. fold g. split; [exact Et|]. split; [reflexivity|].
        cbn [map]. rewrite header_ok. f_equal.
        clear -Fy. induction Fy as [|e y l ys Hy Fy IH]; [reflexivity|]. cbn [map]. congruence.
  Qed.

  Lemma run_err cmd (arts : artifacts) : arts_ok arts ->
    (flags_from_str (ls_fields cmd) = Err \/ (exists f, flags_from_str (ls_fields cmd) = Ok f /\ fl_impl f = true) \/
     searched regex cmd = None \/ (ls_type cmd <> s "json" /\ ls_type cmd <> s "list")) -> run cmd arts = Err.
  Proof.
    intros Ha Hc. unfold ls_run.
    assert (NP : flags_from_str (ls_fields cmd) <> Panic).
    { unfold flags_from_str. destruct (is_nil _); [discriminate|]. destruct (negb _); discriminate. }
    destruct (flags_from_str (ls_fields cmd)) as [f| |] eqn:Ef; [|unfold filter_artifacts; rewrite Ef; reflexivity|congruence].
    destruct (fl_impl f) eqn:Hi; [unfold filter_artifacts; rewrite Ef; cbn [res_bind]; rewrite Hi; reflexivity|].
    destruct (searched regex cmd) as [m|] eqn:Hm.
    - destruct (filter_ok cmd arts f m Ha Ef Hi Hm) as (l & El & Es). rewrite El. cbn [res_bind].
      destruct Hc as [Hc|[(f' & E & Hc)|[Hc|(H1 & H2)]]]; try congruence.
      destruct (str_eqb (ls_type cmd) (s "json")) eqn:E1; [apply str_eqb_eq in E1; congruence|].
      destruct (str_eqb (ls_type cmd) (s "list")) eqn:E2; [apply str_eqb_eq in E2; congruence|]. reflexivity.
    - unfold filter_artifacts. rewrite Ef. cbn [res_bind]. rewrite Hi. unfold searched, pattern_text in Hm.
      destruct (ls_pattern cmd) as [p|]; [|discriminate Hm]. destruct (regex _); [discriminate Hm|]. reflexivity.
  Qed.

  Lemma run_prints cmd (arts : artifacts) out : arts_ok arts -> run cmd arts = Ok out ->
    exists f m, flags_from_str (ls_fields cmd) = Ok f /\ searched regex cmd = Some m /\
      prints path_str code_str reported cmd arts (map snd (kept m f arts)) out.
  Proof.
    intros Ha E.
    assert (NE : forall P : Prop, (P -> run cmd arts = Err) -> ~ P) by (intros P HP X; rewrite (HP X) in E; discriminate E).
    pose proof (NE _ (run_err cmd arts Ha)) as X.
    destruct (flags_from_str (ls_fields cmd)) as [f| |] eqn:Ef; [|tauto|].
    2: { unfold ls_run, filter_artifacts in E. rewrite Ef in E. discriminate E. }
    destruct (searched regex cmd) as [m|] eqn:Em; [|tauto].
    assert (Hi : fl_impl f = false) by (apply not_true_iff_false; intros Hi; apply X; right; left; exists f; auto).
    assert (Ht : ls_type cmd = s "json" \/ ls_type cmd = s "list").
    { destruct (list_eq_dec N.eq_dec (ls_type cmd) (s "json")); [tauto|]. destruct (list_eq_dec N.eq_dec (ls_type cmd) (s "list")); tauto. }
    destruct (run_ok cmd arts f m Ha Ef Hi Em Ht) as (out' & E' & Hp). rewrite E in E'. inversion E'; subst out'.
    exists f, m. auto.
  Qed.
End Run.
