(** Loading the same from other files (C91). *)
From Coq Require Import Lia Permutation Relations ZArith Sorted.
From Verif Require Import Base BaseFacts Regex Name SpecName NameFacts SubFacts Family RawNames Artifact Stored SpecGraph SpecLinks LinkFacts BuildFacts ProjectFacts
  Numbers SpecCompletion RowFacts CompletionFacts CompletionThms Markdown SpecMarkdown Lint SpecLint LintFacts LintThms Source SpecJoin JoinFacts JoinThms
  Pool PoolFacts Load LoadFacts SpecLoad CheckFacts ReadThms DeterFacts Modify SpecModify PureFacts SpecLocal LocalFacts RestateFacts.
Open Scope nat_scope.

(** ** The same in any order *)
Lemma forall2_in_l {A B} (R : A -> B -> Prop) l l' : Forall2 R l l' -> forall a, In a l -> exists b, In b l' /\ R a b.
Proof. induction 1 as [|x y l l' Hr F IH]; intros a Ha; [destruct Ha|]. destruct Ha as [->|Ha]; [exists y; split; [now left|auto]|]. destruct (IH a Ha) as (b & Hb & Rb). exists b. split; [now right|auto]. Qed.
Lemma forall2_in_r {A B} (R : A -> B -> Prop) l l' : Forall2 R l l' -> forall b, In b l' -> exists a, In a l /\ R a b.
Proof. induction 1 as [|x y l l' Hr F IH]; intros a Ha; [destruct Ha|]. destruct Ha as [->|Ha]; [exists x; split; [now left|auto]|]. destruct (IH a Ha) as (b & Hb & Rb). exists b. split; [now right|auto]. Qed.
Lemma forall2_keys {A B K} (R : A -> B -> Prop) (f : A -> K) (g : B -> K) l l' : (forall a b, In a l -> In b l' -> R a b -> f a = g b) -> Forall2 R l l' -> map f l = map g l'.
Proof.
  intros E F. revert E. induction F as [|x y l l' Hr F IH]; intros E; cbn [map]; auto. f_equal; [apply E; auto; now left|]. apply IH. intros a b Ha Hb. apply E; now right.
Qed.
Lemma restated_distinct arts arts' : arts_restated arts arts' -> distinct arts <-> distinct arts'.
Proof.
  intros (l & P & F). unfold distinct. assert (Q : map (fun a => n_key (im_name a)) arts = map (fun a => n_key (im_name a)) l).
  { eapply forall2_keys; [|exact F]. intros a b _ _ (Ek & _). congruence. }
  rewrite Q. split; apply Permutation_NoDup; [apply Permutation_sym|]; now apply Permutation_map.
Qed.
Lemma restated_nodup refs refs' : Forall ref_wf refs -> Forall ref_wf refs' -> refs_restated refs refs' -> NoDup (map rkey refs) <-> NoDup (map rkey refs').
Proof.
  intros W W' (l & P & F). rewrite Forall_forall in W, W'. assert (Q : map rkey refs = map rkey l).
  { eapply forall2_keys; [|exact F]. intros a b Ha Hb S. apply same_ref_key; auto. apply W', (Permutation_in _ (Permutation_sym P) Hb). }
  rewrite Q. split; apply Permutation_NoDup; [apply Permutation_sym|]; now apply Permutation_map.
Qed.
Lemma same_ref_sym r r' : same_ref r r' -> same_ref r' r.
Proof.
  intros [A B]. split; [apply str_ci_upper; symmetry; now apply str_ci_upper|]. destruct (ref_sub r), (ref_sub r'); cbn [same_subname] in *; auto. apply str_ci_upper. symmetry. now apply str_ci_upper.
Qed.
Lemma restated_edits arts arts' refs refs' : arts_restated arts arts' -> refs_restated refs refs' ->
  edits_only (fun _ => False) arts arts' refs refs' /\ edits_only (fun _ => False) arts' arts refs' refs.
Proof.
  intros (l & P & F) (k & Q & G).
  assert (A1 : forall a, In a arts -> exists a', In a' arts' /\ restated a a').
  { intros a Ha. destruct (forall2_in_l _ _ _ F a Ha) as (b & Hb & R). exists b. split; auto. apply (Permutation_in _ (Permutation_sym P) Hb). }
  assert (A2 : forall a', In a' arts' -> exists a, In a arts /\ restated a a').
  { intros a Ha. apply (Permutation_in _ P) in Ha. destruct (forall2_in_r _ _ _ F a Ha) as (b & Hb & R). eauto. }
  assert (R1 : forall r, In r refs -> exists r', In r' refs' /\ same_ref r r').
  { intros a Ha. destruct (forall2_in_l _ _ _ G a Ha) as (b & Hb & R). exists b. split; auto. apply (Permutation_in _ (Permutation_sym Q) Hb). }
  assert (R2 : forall r', In r' refs' -> exists r, In r refs /\ same_ref r r').
  { intros a Ha. apply (Permutation_in _ Q) in Ha. destruct (forall2_in_r _ _ _ G a Ha) as (b & Hb & R). eauto. }
  split; (split; [|split; [|split]]).
  - intros a Ha _. destruct (A1 a Ha) as (a' & Ha' & (X1 & X2 & X3 & X4)). refine (ex_intro _ a' (conj Ha' (conj X1 (conj X2 (conj X3 _))))). intros q Wq _. now apply X4.
  - intros a Ha _. destruct (A2 a Ha) as (b & Hb & (X1 & _)). exists b. split; auto.
  - intros r Hr _. auto.
  - intros r Hr _. auto.
  - intros a Ha _. destruct (A2 a Ha) as (b & Hb & (X1 & X2 & X3 & X4)). refine (ex_intro _ b (conj Hb (conj (eq_sym X1) (conj (eq_sym X2) (conj (eq_sym X3) _))))). intros q Wq _. symmetry. now apply X4.
  - intros a Ha _. destruct (A1 a Ha) as (b & Hb & (X1 & _)). exists b. split; auto.
  - intros r Hr _. destruct (R2 r Hr) as (b & Hb & S). exists b. split; auto. now apply same_ref_sym.
  - intros r Hr _. destruct (R1 r Hr) as (b & Hb & S). exists b. split; auto. now apply same_ref_sym.
Qed.

(** ** The faults *)
Section Alike.
  Context {M M' : num} {H H' : Type}.
  (** Every artifact has a counterpart. *)
  Definition entries_alike (out : list (name * artifact M H)) (out' : list (name * artifact M' H')) : Prop :=
    forall n x, In (n, x) out -> exists n' x', In (n', x') out' /\ n_key n' = n_key n /\ art_alike x x'.
End Alike.
Definition names_ok {M H} (out : list (name * artifact M H)) : Prop :=
  forall n x, In (n, x) out -> name_wf n /\ forall q, In q (a_partof x) -> name_wf q.
Lemma done_alike (i i' : impl) d : impl_alike i i' -> i' = IDone d -> i = IDone d.
Proof. intros A ->. destruct i; cbn [impl_alike] in A; try contradiction. now subst. Qed.
Lemma done_alike' (i i' : impl) d : impl_alike i i' -> i = IDone d -> i' = IDone d.
Proof. intros A ->. destruct i'; cbn [impl_alike] in A; try contradiction. now subst. Qed.
Section Transfer.
  Context {M M' : num} {H H' : Type}.
  Variables (out : list (name * artifact M H)) (out' : list (name * artifact M' H')).
  Hypothesis S1 : entries_alike out out'.
  Hypothesis S2 : entries_alike out' out.
  Hypothesis N1 : names_ok out.
  Hypothesis N2 : names_ok out'.
  Lemma al_dangling x y : dangling out x y -> dangling out' x y.
  Proof.
    intros Dg m b' Hin E. destruct (S2 m b' Hin) as (m0 & b & Hb & Ek & (_ & _ & Es & _)).
    destruct (Dg m0 b Hb) as [Y N]; [|split; auto; rewrite Es; exact N].
    destruct (N1 m0 b Hb) as [Wm _], (N2 m b' Hin) as [Wm' _]. rewrite (wf_key _ Wm), (wf_key _ Wm') in Ek. apply str_ci_upper. apply str_ci_upper in E. congruence.
  Qed.
  Lemma al_sound prefix : arts_sound out prefix -> arts_sound out' prefix.
  Proof.
    intros A n x' Hin. destruct (S2 n x' Hin) as (n0 & x & Hx & Ek & (_ & Ex & Es & Ei & Ep & _)). destruct (A n0 x Hx) as (A1 & A2 & A3).
    destruct (N1 n0 x Hx) as [Wn0 Wq0], (N2 n x' Hin) as [Wn Wq].
    rewrite Ex, Es. split; [|split].
    - intros q Hq. assert (I : In (n_key q) (map n_key (a_partof x))) by (apply Ep; now apply in_map). apply in_map_iff in I as (q0 & E0 & H0).
      assert (T : n_ty q0 = n_ty q) by (apply key_eq_ty; auto).
      destruct (A1 q0 H0) as [(m & b & Hm & Tm & Em) L]. destruct (S1 m b Hm) as (m' & b' & Hm' & Em' & _). split.
      + exists m', b'. split; auto. split; [|congruence]. rewrite <- T, <- Tm. apply key_eq_ty; auto; [apply (proj1 (N2 m' b' Hm'))|apply (proj1 (N1 m b Hm))].
      + rewrite <- T. replace (n_ty n) with (n_ty n0); [exact L|]. now apply key_eq_ty.
    - intros (d & Ed). apply A2. exists d. apply (done_alike' _ _ d Ei Ed).
    - exact A3.
  Qed.
  Lemma al_longs : longs_in_text out -> longs_in_text out'.
  Proof.
    intros (n & a & x & y & Hin & R & L). destruct (S1 n a Hin) as (n' & a' & Ha' & _ & (_ & Et & _)). exists n', a', x, y. split; auto. split; auto. now rewrite <- Et.
  Qed.
  Variables refs refs' : list src_ref.
  Hypothesis Wr : Forall ref_wf refs.
  Hypothesis Wr' : Forall ref_wf refs'.
  Hypothesis ND : NoDup (map rkey refs).
  Hypothesis ND' : NoDup (map rkey refs').
  Hypothesis R2 : forall r', In r' refs' -> exists r, In r refs /\ same_ref r r'.
  Lemma al_code : code_resolves out (snd (join_locations refs)) -> code_resolves out' (snd (join_locations refs')).
  Proof.
    intros T n sub loc R. destruct (in_listed refs' n sub loc ND' R) as (r' & Hr' & En & Es & _). destruct (R2 r' Hr') as (r & Hr & S).
    rewrite Forall_forall in Wr, Wr'. apply same_ref_key in S; auto. unfold rkey in S.
    assert (Kn : nk (r_name r) = nk n) by congruence. assert (Ks : option_map s_key (r_sub r) = option_map s_key sub) by congruence.
    destruct (proj1 (loc_ref refs n sub ND)) as (l & m & c & Hm & Em & Hl); [exists r; split; [exact Hr|]; unfold rkey; congruence|].
    assert (G : exists sub0, code_ref (snd (join_locations refs)) m sub0 l /\ option_map s_key sub0 = option_map s_key sub).
    { destruct sub as [z|].
      - destruct Hl as (z' & Ez & Hz). exists (Some z'). split; [exists c; auto|]. cbn [option_map]. congruence.
      - exists None. split; [exists c; auto|reflexivity]. }
    destruct G as (sub0 & Hc & Eo). destruct (T m sub0 l Hc) as (m1 & b & Hb & [F1 F2] & Hd & Hs).
    destruct (S1 m1 b Hb) as (m' & b' & Hb' & Ek & (_ & _ & Eb & Ei & _)). exists m', b'. split; auto. unfold nk in Em.
    split; [split; [|congruence]|].
    - assert (n_ty m' = n_ty m1) by (apply key_eq_ty; auto; [apply (proj1 (N2 m' b' Hb'))|apply (proj1 (N1 m1 b Hb))]). congruence.
    - split.
      + intros d Ed. apply (Hd d). apply (done_alike _ _ d Ei Ed).
      + rewrite <- Eb. intros x ->. destruct sub0 as [x0|]; [|discriminate Eo]. cbn [option_map] in Eo. destruct (Hs x0 eq_refl) as (z & Hz & Ez). exists z. split; [auto|congruence].
  Qed.
End Transfer.
Lemma al_texts {M M' H H'} (out : list (name * artifact M H)) (out' : list (name * artifact M' H')) : entries_alike out out' -> entries_alike out' out -> names_ok out -> names_ok out' ->
  texts_resolve out -> texts_resolve out'.
Proof.
  intros S1 S2 N1 N2 T n a' x y Hin R Dg. destruct (S2 n a' Hin) as (n0 & a & Ha & _ & (_ & Et & _)). apply (T n0 a x y Ha); [now rewrite <- Et|]. now apply (al_dangling out' out).
Qed.

Section Loads.
  Variable path_str : path -> str.
  Variable yaml : str -> option (option str * option names_val).
  Variables parse_toml parse_json : str -> res (list (name * art_raw)).
  Variable parse_msg : path -> str -> str.
  Variable prefix : str.
  Hypothesis toml_ok : parser_ok parse_toml.
  Hypothesis json_ok : parser_ok parse_json.
  Variable M : num.
  Variable topo : graph -> option (list nat).
  Hypothesis TC : topo_ok topo.
  Variable H : Type.
  Variable hash_im : art_im -> H.
  Variable settings_path : path.
  Variable url_error : option str.
  Notation load_file := (load_file path_str yaml parse_toml parse_json parse_msg prefix).
  Notation art_items := (art_items path_str yaml parse_toml parse_json parse_msg prefix).
  Notation code_items := (code_items path_str).
  Notation finish := (finish path_str prefix M topo H hash_im settings_path url_error).
  Notation loads := (loads path_str yaml parse_toml parse_json parse_msg prefix M topo H hash_im settings_path url_error).
  Notation build := (build M topo H hash_im).

  Section Two.
    Variables (arts arts' : list art_im) (refs refs' : list src_ref).
    Hypothesis W : Forall im_wf arts.
    Hypothesis W' : Forall im_wf arts'.
    Hypothesis Wr : Forall ref_wf refs.
    Hypothesis Wr' : Forall ref_wf refs'.
    Hypothesis RA : arts_restated arts arts'.
    Hypothesis RR : refs_restated refs refs'.

    Section Built.
      Hypothesis D : distinct arts.
      Hypothesis NR : forall i j, ~ repeated refs i j.
      Lemma d2 : distinct arts'.
      Proof. now apply (restated_distinct arts arts' RA). Qed.
      Lemma nr2 : forall i j, ~ repeated refs' i j.
      Proof. apply (nodup_repeated refs' Wr'). apply (restated_nodup refs refs' Wr Wr' RR). now apply nodup_repeated. Qed.
      Variables out out' : list (name * artifact M H).
      Hypothesis B : build arts (snd (join_locations refs)) = Ok out.
      Hypothesis B' : build arts' (snd (join_locations refs')) = Ok out'.
      Let OO := build_out M topo H hash_im TC arts _ out W B.
      Let OO' := build_out M topo H hash_im TC arts' _ out' W' B'.
      Lemma restated_similar : similar arts arts' (fun _ _ => True) /\ similar arts' arts (fun _ _ => True).
      Proof.
        destruct (restated_edits arts arts' refs refs' RA RR) as [(A & _) (A' & _)]. split.
        - intros a Ha. destruct (A a Ha (fun x => x)) as (a' & Ha' & E1 & _ & _ & E4). refine (ex_intro _ a' (conj Ha' (conj E1 (conj _ I)))). intros q Wq. apply E4; auto.
        - intros a Ha. destruct (A' a Ha (fun x => x)) as (a' & Ha' & E1 & _ & _ & E4). refine (ex_intro _ a' (conj Ha' (conj E1 (conj _ I)))). intros q Wq. apply E4; auto.
      Qed.
      Lemma built_alike : entries_alike out out' /\ entries_alike out' out.
      Proof.
        destruct (restated_edits arts arts' refs refs' RA RR) as [Ed Ed']. destruct restated_similar as [S S'].
        pose proof (build_same_links M M topo topo H H hash_im hash_im TC TC arts arts' _ _ out out' _ W W' D d2 B B' S S') as L.
        pose proof (build_same_links M M topo topo H H hash_im hash_im TC TC arts' arts _ _ out' out _ W' W d2 D B' B S' S) as L'.
        assert (An : forall (r : list src_ref) (l : list art_im) (o : list (name * artifact M H)), Forall im_wf l -> distinct l -> build l (snd (join_locations r)) = Ok o -> forall n x, In (n, x) o -> a_name x = n).
        { intros r l o Wl Dl Bl n x Hx. destruct (out_entries M topo H hash_im TC l _ o Wl Dl Bl) as [O1 O2]. destruct (O1 n x Hx) as (a & Ha & ->). destruct (O2 a Ha) as (y & Hy & _ & _ & _ & _ & _ & Ny).
          destruct (out_same o (build_out M topo H hash_im TC l _ o Wl Bl) _ _ _ _ Hx Hy eq_refl) as [_ ->]. exact Ny. }
        split; intros n x Hx.
        - destruct (edit_entry M M topo topo H H hash_im hash_im TC TC arts arts' refs refs' out out' W W' D d2 Wr Wr' NR nr2 B B' (fun _ => False) Ed n x Hx (fun f => f)) as (n' & x' & Hx' & Ek & Et & Es & Ei & Ep).
          exists n', x'. split; auto. split; auto. split; [rewrite (An refs arts out W D B n x Hx), (An refs' arts' out' W' d2 B' n' x' Hx'); congruence|]. split; auto. split; auto. split; auto. split; [intros k; apply Ep; auto|].
          destruct (L n x Hx) as (n2 & x2 & H2 & E2 & P2 & _). destruct (out_same out' OO' n2 x2 n' x' H2 Hx' ltac:(congruence)) as [-> ->]. intros k. symmetry. apply P2.
        - destruct (edit_entry M M topo topo H H hash_im hash_im TC TC arts' arts refs' refs out' out W' W d2 D Wr' Wr nr2 NR B' B (fun _ => False) Ed' n x Hx (fun f => f)) as (n' & x' & Hx' & Ek & Et & Es & Ei & Ep).
          exists n', x'. split; auto. split; auto. split; [rewrite (An refs' arts' out' W' d2 B' n x Hx), (An refs arts out W D B n' x' Hx'); congruence|]. split; auto. split; auto. split; auto. split; [intros k; apply Ep; auto|].
          destruct (L' n x Hx) as (n2 & x2 & H2 & E2 & P2 & _). destruct (out_same out OO n2 x2 n' x' H2 Hx' ltac:(congruence)) as [-> ->]. intros k. symmetry. apply P2.
      Qed.
      Lemma built_names : names_ok out /\ names_ok out'.
      Proof.
        split; intros n x Hx.
        - split; [exact (oo_wf out OO n x Hx)|]. intros q Hq. exact (built_partof_wf M topo H hash_im TC arts _ out W D B (mkProject out [] [] [] None) eq_refl n x q Hx Hq).
        - split; [exact (oo_wf out' OO' n x Hx)|]. intros q Hq. exact (built_partof_wf M topo H hash_im TC arts' _ out' W' d2 B' (mkProject out' [] [] [] None) eq_refl n x q Hx Hq).
      Qed.
      Lemma faults_same :
        (longs_in_text out <-> longs_in_text out') /\ (arts_sound out prefix <-> arts_sound out' prefix) /\ (texts_resolve out <-> texts_resolve out') /\
        (code_resolves out (snd (join_locations refs)) <-> code_resolves out' (snd (join_locations refs'))).
      Proof.
        destruct built_alike as [S1 S2], built_names as [N1 N2]. destruct (restated_edits arts arts' refs refs' RA RR) as [(_ & _ & R1 & R2) _].
        pose proof (proj2 (nodup_repeated refs Wr) NR) as ND. pose proof (proj2 (nodup_repeated refs' Wr') nr2) as ND'.
        split; [split; [now apply al_longs|now apply al_longs]|]. split; [split; [now apply al_sound|now apply al_sound]|]. split; [split; [now apply al_texts|now apply al_texts]|].
        split.
        - apply (al_code out out' S1 N1 N2 refs refs' Wr Wr' ND ND'). auto.
        - apply (al_code out' out S2 N2 N1 refs' refs Wr' Wr ND' ND). intros r Hr. destruct (R1 r Hr (fun f => f)) as (r' & Hr' & S). exists r'. split; auto. now apply same_ref_sym.
      Qed.
      (** In the order of names. *)
      Lemma sorted_alike px sp ue : Forall2 (fun e f => n_key (fst e) = n_key (fst f) /\ art_alike (snd e) (snd f))
        (pr_arts (project_sort M H (mkProject out (snd (join_locations refs)) px sp ue))) (pr_arts (project_sort M H (mkProject out' (snd (join_locations refs')) px sp ue))).
      Proof.
        destruct built_alike as [S1 S2]. cbn [project_sort pr_arts]. apply forall2_map. cbn [fst snd]. unfold im_sort, name_leb.
        apply (sorted_forall2 (fun e : name * artifact M H => n_key (fst e)) (fun e : name * artifact M H => n_key (fst e))).
        - exact (oo_nodup out OO).
        - exact (oo_nodup out' OO').
        - intros k. rewrite !in_map_iff. split; intros ([n x] & <- & Hx); [destruct (S1 n x Hx) as (n' & x' & Hx' & Ek & _)|destruct (S2 n x Hx) as (n' & x' & Hx' & Ek & _)]; exists (n', x'); auto.
        - intros [n x] [n' x'] Hx Hx' Ek. cbn [fst snd] in *. split; auto. destruct (S1 n x Hx) as (n2 & x2 & H2 & E2 & A).
          destruct (out_same out' OO' n2 x2 n' x' H2 Hx' ltac:(congruence)) as [-> ->]. destruct A as (A1 & A2 & A3 & A4 & A5 & A6).
          assert (Iq : forall l k, In k (map n_key (isort name_leb l)) <-> In k (map n_key l)).
          { intros l k. rewrite !in_map_iff. split; intros (q & Eq & Hq); exists q; (split; [auto|]); [apply isort_in in Hq; exact Hq|apply isort_in; exact Hq]. }
          unfold art_alike, art_sort. cbn [a_name a_text a_subnames a_impl a_partof a_parts]. split; auto. split; auto. split; [now rewrite A3|]. split.
          { destruct (a_impl x) as [d|c|], (a_impl x') as [d'|c'|]; cbn [impl_alike] in *; try contradiction; auto. destruct A4 as [P L]. split; [exact P|]. intros z. specialize (L z). unfold linked, code_sort in *. cbn [ic_secondary].
            unfold im_sort. rewrite <- !(existsb_perm _ _ _ (isort_perm _ _)). exact L. }
          split; intros k; rewrite !Iq; auto.
      Qed.
    End Built.
    Variables (la la' lc lc' arrived arrived' : list lint).
    Hypothesis La : la = [] <-> la' = [].
    Hypothesis Lc : lc = [] <-> lc' = [].
    Hypothesis Ea : Forall (fun x => is_error x = true) arrived.
    Hypothesis Ea' : Forall (fun x => is_error x = true) arrived'.
    Hypothesis A : Permutation arrived (lc ++ la ++ collect_lints path_str arts refs).
    Hypothesis A' : Permutation arrived' (lc' ++ la' ++ collect_lints path_str arts' refs').
    Lemma clean_alike : read_clean la lc arts refs <-> read_clean la' lc' arts' refs'.
    Proof.
      unfold read_clean. rewrite La, Lc, (restated_distinct arts arts' RA). rewrite <- (nodup_repeated refs Wr), <- (nodup_repeated refs' Wr'), (restated_nodup refs refs' Wr Wr' RR). tauto.
    Qed.
    Lemma status_alike : exit_status (finish arrived arts refs) = exit_status (finish arrived' arts' refs').
    Proof.
      destruct (finish_exact path_str prefix M topo TC H hash_im settings_path url_error arts refs la lc arrived W Wr Ea A) as (out & B & E0 & E2 & E1 & E3).
      destruct (finish_exact path_str prefix M topo TC H hash_im settings_path url_error arts' refs' la' lc' arrived' W' Wr' Ea' A') as (out' & B' & F0 & F2 & F1 & F3).
      pose proof clean_alike as CS.
      assert (T : read_clean la lc arts refs -> (longs_in_text out <-> longs_in_text out') /\ (arts_sound out prefix <-> arts_sound out' prefix) /\ (texts_resolve out <-> texts_resolve out') /\
                  (code_resolves out (snd (join_locations refs)) <-> code_resolves out' (snd (join_locations refs')))) by (intros (_ & _ & D & N); exact (faults_same D N out out' B B')).
      revert E0 E1 E2 E3 F0 F1 F2 F3 T CS. clear.
      generalize (status_cases (finish arrived arts refs)).
      generalize (exit_status (finish arrived arts refs)) (exit_status (finish arrived' arts' refs')).
      generalize (read_clean la lc arts refs) (read_clean la' lc' arts' refs') (longs_in_text out) (longs_in_text out') (arts_sound out prefix) (arts_sound out' prefix)
        (texts_resolve out) (texts_resolve out') (code_resolves out (snd (join_locations refs))) (code_resolves out' (snd (join_locations refs'))) (url_error = None).
      intros P P0 P1 P2 P3 P4 P5 P6 P7 P8 P9 n n0 [C|[C|[C|C]]] E0 E1 E2 E3 F0 F1 F2 F3 T CS; subst n; symmetry.
      - apply F0. pose proof (proj1 E0 eq_refl). tauto.
      - apply F1. pose proof (proj1 E1 eq_refl). tauto.
      - apply F2. pose proof (proj1 E2 eq_refl). tauto.
      - apply F3. pose proof (proj1 E3 eq_refl). tauto.
    Qed.
    Lemma finish_alike c p : finish arrived arts refs = Ok (inl (c, p)) -> exists c' p' out out', finish arrived' arts' refs' = Ok (inl (c', p')) /\
      distinct arts /\ (forall i j, ~ repeated refs i j) /\
      build arts (snd (join_locations refs)) = Ok out /\ build arts' (snd (join_locations refs')) = Ok out' /\
      p = project_sort M H (mkProject out (snd (join_locations refs)) prefix settings_path url_error) /\
      p' = project_sort M H (mkProject out' (snd (join_locations refs')) prefix settings_path url_error).
    Proof.
      intros E. destruct (finish_loaded M topo TC H hash_im path_str prefix settings_path url_error arrived arts refs la lc c p W Wr Ea A E) as (RC & _ & _ & out & B & Ep).
      pose proof (proj1 clean_alike RC) as RC'. pose proof RC as (_ & _ & D & NR). pose proof RC' as (_ & _ & D' & NR').
      assert (Z : arrived' = []) by (apply (arrived_nil path_str arts' refs' la' lc' arrived'); auto).
      assert (Z0 : arrived = []) by (apply (arrived_nil path_str arts refs la lc arrived); auto).
      destruct (build_total M topo H hash_im TC arts' (snd (join_locations refs'))) as (out' & B' & _).
      assert (L : longs_in_text out <-> longs_in_text out') by apply (faults_same D NR out out' B B').
      set (q := mkProject out (snd (join_locations refs)) prefix settings_path url_error) in *.
      set (q' := mkProject out' (snd (join_locations refs')) prefix settings_path url_error).
      destruct (built_refs_panic M topo H hash_im TC arts _ out W D B path_str q eq_refl) as [PP NE]. fold (longs_in_text out) in PP.
      destruct (built_refs_panic M topo H hash_im TC arts' _ out' W' D' B' path_str q' eq_refl) as [PP' NE']. fold (longs_in_text out') in PP'.
      unfold Load.finish in *. rewrite Z. rewrite Z0 in E. cbn [categorize fold_left ls_error no_lints is_nil negb] in *. rewrite B in E. rewrite B'. cbn [res_bind] in *. fold q in E. fold q'.
      unfold lint_project, lint_other in *.
      destruct (lint_text_refs path_str q) as [l| |] eqn:ET; [|discriminate E|discriminate E].
      destruct (lint_text_refs path_str q') as [l'| |] eqn:ET'; [|congruence|exfalso; assert (Y : Ok l = @Panic (list lint)) by (apply PP, L, PP'; reflexivity); discriminate Y].
      cbn [res_bind] in *. do 2 eexists. exists out, out'. split; [reflexivity|]. auto 10.
    Qed.
  End Two.

  (** The complaints about the files. *)
  Lemma arts_lints n afs arts la : killers load_file afs < n -> run_of n (art_items afs) arts la -> la = [] <-> quiet load_file afs.
  Proof.
    intros L R. rewrite <- killers_panics in L. destruct (run_all n (art_items afs) arts la L R) as [_ P].
    assert (Z : la = [] <-> lints_of (art_items afs) ++ flat_map jb_lints (jobs_of (art_items afs)) = []).
    { split; intros E; rewrite E in P; [now apply Permutation_nil in P|]. now apply Permutation_sym, Permutation_nil in P. }
    rewrite Z. unfold quiet, lints_of, jobs_of, Load.art_items. clear. induction afs as [|[f|x] l IH]; cbn [map flat_map app].
    - split; auto. intros _. split; [intros f []|intros x []].
    - split.
      + intros E. apply app_eq_nil in E as [E1 E2]. apply app_eq_nil in E2 as [E2 E3]. destruct (proj1 IH) as [I1 I2]; [now rewrite E1, E3|].
        split; [intros g [G|G]; [injection G as <-; exact E2|auto]|intros x [G|G]; [discriminate G|apply (I2 x G)]].
      + intros [F1 F2]. assert (Y := proj2 IH (conj (fun g G => F1 g (or_intror G)) (fun x G => F2 x (or_intror G)))). apply app_eq_nil in Y as [Y1 Y2].
        rewrite Y1, Y2, (F1 f (or_introl eq_refl)). reflexivity.
    - split; [discriminate|]. intros [_ F2]. exfalso. apply (F2 x). now left.
  Qed.
  Lemma refs_lints cfs refs lc : killers (load_locations path_str) cfs < 4 -> run_of 4 (code_items cfs) refs lc -> lc = [] <-> quiet (load_locations path_str) cfs.
  Proof.
    intros L R. rewrite <- killers_panics in L. destruct (run_all 4 (code_items cfs) refs lc L R) as [_ P].
    assert (Z : lc = [] <-> lints_of (code_items cfs) ++ flat_map jb_lints (jobs_of (code_items cfs)) = []).
    { split; intros E; rewrite E in P; [now apply Permutation_nil in P|]. now apply Permutation_sym, Permutation_nil in P. }
    rewrite Z. unfold quiet, lints_of, jobs_of, Load.code_items. clear. induction cfs as [|[f|x] l IH]; cbn [map flat_map app].
    - split; auto. intros _. split; [intros f []|intros x []].
    - split.
      + intros E. apply app_eq_nil in E as [E1 E2]. apply app_eq_nil in E2 as [E2 E3]. destruct (proj1 IH) as [I1 I2]; [now rewrite E1, E3|].
        split; [intros g [G|G]; [injection G as <-; exact E2|auto]|intros x [G|G]; [discriminate G|apply (I2 x G)]].
      + intros [F1 F2]. assert (Y := proj2 IH (conj (fun g G => F1 g (or_intror G)) (fun x G => F2 x (or_intror G)))). apply app_eq_nil in Y as [Y1 Y2].
        rewrite Y1, Y2, (F1 f (or_introl eq_refl)). reflexivity.
    - split; [discriminate|]. intros [_ F2]. exfalso. apply (F2 x). now left.
  Qed.

  Lemma restated_perm arts arts0 arts' arts0' : Permutation arts arts0 -> Permutation arts' arts0' -> arts_restated arts0 arts0' -> arts_restated arts arts'.
  Proof.
    intros P P' (l & Q & F). destruct (Permutation_Forall2 (Permutation_sym P) F) as (l' & Q' & F'). exists l'. split; auto. now rewrite P', Q.
  Qed.
  Lemma restated_perm_refs refs refs0 refs' refs0' : Permutation refs refs0 -> Permutation refs' refs0' -> refs_restated refs0 refs0' -> refs_restated refs refs'.
  Proof.
    intros P P' (l & Q & F). destruct (Permutation_Forall2 (Permutation_sym P) F) as (l' & Q' & F'). exists l'. split; auto. now rewrite P', Q.
  Qed.

  Notation file_arts := (file_arts load_file).
  Theorem loads_alike n n' afs afs' cfs cfs' r r' : walk_lints_ok afs -> walk_lints_ok cfs -> walk_lints_ok afs' -> walk_lints_ok cfs' ->
    killers load_file afs < n -> killers load_file afs' < n' -> killers (load_locations path_str) cfs < 4 -> killers (load_locations path_str) cfs' < 4 ->
    (quiet load_file afs <-> quiet load_file afs') -> (quiet (load_locations path_str) cfs <-> quiet (load_locations path_str) cfs') ->
    arts_restated (file_arts afs) (file_arts afs') -> refs_restated (file_refs path_str cfs) (file_refs path_str cfs') ->
    loads n afs cfs r -> loads n' afs' cfs' r' ->
    exit_status r = exit_status r' /\
    forall c p, r = Ok (inl (c, p)) -> exists c' p', r' = Ok (inl (c', p')) /\
      Forall2 (fun e f => n_key (fst e) = n_key (fst f) /\ art_alike (snd e) (snd f)) (pr_arts p) (pr_arts p').
  Proof.
    intros WA WC WA' WC' K K' Kc Kc' Qa Qc RA RR (arts & refs & la & lc & arrived & Ra & Rc & P & ->) (arts' & refs' & la' & lc' & arrived' & Ra' & Rc' & P' & ->).
    pose proof (run_arts_wf path_str yaml parse_toml parse_json parse_msg prefix toml_ok json_ok n afs arts la Ra) as Wa.
    pose proof (run_refs_wf path_str 4 cfs refs lc Rc) as Wr.
    pose proof (run_arts_wf path_str yaml parse_toml parse_json parse_msg prefix toml_ok json_ok n' afs' arts' la' Ra') as Wa'.
    pose proof (run_refs_wf path_str 4 cfs' refs' lc' Rc') as Wr'.
    assert (AE : Forall (fun x => is_error x = true) arrived).
    { eapply Permutation_Forall; [apply Permutation_sym; exact P|]. apply Forall_app. split; [eapply (ref_lints_error _ 4 cfs refs lc WC); eauto|].
      apply Forall_app. split; [eapply (art_lints_error _ _ _ _ _ _ n afs arts la WA); eauto|apply collect_error]. }
    assert (AE' : Forall (fun x => is_error x = true) arrived').
    { eapply Permutation_Forall; [apply Permutation_sym; exact P'|]. apply Forall_app. split; [eapply (ref_lints_error _ 4 cfs' refs' lc' WC'); eauto|].
      apply Forall_app. split; [eapply (art_lints_error _ _ _ _ _ _ n' afs' arts' la' WA'); eauto|apply collect_error]. }
    pose proof (arts_run path_str yaml parse_toml parse_json parse_msg prefix n afs arts la K Ra) as F1. pose proof (refs_run path_str cfs refs lc Kc Rc) as F2.
    pose proof (arts_run path_str yaml parse_toml parse_json parse_msg prefix n' afs' arts' la' K' Ra') as F1'. pose proof (refs_run path_str cfs' refs' lc' Kc' Rc') as F2'.
    pose proof (restated_perm _ _ _ _ F1 F1' RA) as RA1. pose proof (restated_perm_refs _ _ _ _ F2 F2' RR) as RR1.
    assert (La : la = [] <-> la' = []) by (rewrite (arts_lints n afs arts la K Ra), (arts_lints n' afs' arts' la' K' Ra'); exact Qa).
    assert (Lc : lc = [] <-> lc' = []) by (rewrite (refs_lints cfs refs lc Kc Rc), (refs_lints cfs' refs' lc' Kc' Rc'); exact Qc).
    split; [exact (status_alike arts arts' refs refs' Wa Wa' Wr Wr' RA1 RR1 la la' lc lc' arrived arrived' La Lc AE AE' P P')|].
    intros c p E. destruct (finish_alike arts arts' refs refs' Wa Wa' Wr Wr' RA1 RR1 la la' lc lc' arrived arrived' La Lc AE P P' c p E) as (c' & p' & out & out' & E' & D & NR & B & B' & -> & ->).
    exists c', (project_sort M H (mkProject out' (snd (join_locations refs')) prefix settings_path url_error)). split; [exact E'|].
    exact (sorted_alike arts arts' refs refs' Wa Wa' Wr Wr' RA1 RR1 D NR out out' B B' prefix settings_path url_error).
  Qed.
End Loads.

(** ** Completion *)
Section Exact.
  Variable path_str : path -> str.
  Variable yaml : str -> option (option str * option names_val).
  Variables parse_toml parse_json : str -> res (list (name * art_raw)).
  Variable parse_msg : path -> str -> str.
  Variable prefix : str.
  Hypothesis toml_ok : parser_ok parse_toml.
  Hypothesis json_ok : parser_ok parse_json.
  Variable topo : graph -> option (list nat).
  Hypothesis TC : topo_ok topo.
  Variable H : Type.
  Variable hash_im : art_im -> H.
  Variable settings_path : path.
  Variable url_error : option str.
  Notation load_file := (load_file path_str yaml parse_toml parse_json parse_msg prefix).
  Notation loads := (loads path_str yaml parse_toml parse_json parse_msg prefix exact_num topo H hash_im settings_path url_error).
  Notation build := (build exact_num topo H hash_im).
  Notation file_arts := (file_arts load_file).
  Notation sorted out refs := (project_sort exact_num H (mkProject out (snd (join_locations refs)) prefix settings_path url_error)).

  (** What was loaded was built. *)
  Lemma loads_built n afs cfs c p : walk_lints_ok afs -> walk_lints_ok cfs -> loads n afs cfs (Ok (inl (c, p))) -> exists arts refs la lc out,
    run_of n (art_items path_str yaml parse_toml parse_json parse_msg prefix afs) arts la /\ run_of 4 (code_items path_str cfs) refs lc /\ Forall im_wf arts /\ Forall ref_wf refs /\ distinct arts /\ (forall i j, ~ repeated refs i j) /\
    build arts (snd (join_locations refs)) = Ok out /\ p = sorted out refs.
  Proof.
    intros W1 W2 (arts & refs & la & lc & arrived & R1 & R2 & P & E).
    pose proof (run_arts_wf path_str yaml parse_toml parse_json parse_msg prefix toml_ok json_ok n afs arts la R1) as Wa.
    pose proof (run_refs_wf path_str 4 cfs refs lc R2) as Wr.
    assert (AE : Forall (fun x => is_error x = true) arrived).
    { eapply Permutation_Forall; [apply Permutation_sym, P|]. apply Forall_app. split; [eapply ref_lints_error; eauto|]. apply Forall_app. split; [eapply art_lints_error; eauto|apply collect_error]. }
    destruct (finish_loaded exact_num topo TC H hash_im path_str prefix settings_path url_error arrived arts refs la lc c p Wa Wr AE P (eq_sym E)) as ((_ & _ & D & NR) & _ & _ & out & B & ->).
    exists arts, refs, la, lc, out. auto 10.
  Qed.

  Lemma sort_in (out : list (name * artifact exact_num H)) refs n a : In (n, a) (pr_arts (sorted out refs)) <-> exists a0, In (n, a0) out /\ a = art_sort exact_num H a0.
  Proof.
    cbn [project_sort pr_arts]. rewrite in_map_iff. split.
    - intros ([m b] & E & Hm). injection E as -> <-. apply isort_in in Hm. eauto.
    - intros (b & Hb & ->). exists (n, b). split; [reflexivity|]. now apply isort_in.
  Qed.
  Lemma sort_keys l k : In k (map n_key (isort name_leb l)) <-> In k (map n_key l).
  Proof. rewrite !in_map_iff. split; intros (q & Eq & Hq); exists q; (split; [auto|]); [apply isort_in in Hq; exact Hq|apply isort_in; exact Hq]. Qed.
  Lemma sort_below (out : list (name * artifact exact_num H)) refs k j : SpecCompletion.below (pr_arts (sorted out refs)) k j <-> SpecCompletion.below out k j.
  Proof.
    split.
    - intros (n & a & q & Hn & En & Hq & Eq). apply sort_in in Hn as (a0 & H0 & ->). cbn [art_sort a_parts] in Hq. apply isort_in in Hq. exists n, a0, q. auto.
    - intros (n & a & q & Hn & En & Hq & Eq). exists n, (art_sort exact_num H a), q. split; [apply sort_in; eauto|]. split; auto. split; auto. cbn [art_sort a_parts]. now apply isort_in.
  Qed.
  Lemma sort_cyclic out refs : cyclic (pr_arts (sorted out refs)) <-> cyclic out.
  Proof.
    assert (G : forall (R R' : str -> str -> Prop), (forall k j, R k j -> R' k j) -> forall k j, clos_trans str R k j -> clos_trans str R' k j).
    { intros R R' I k j C. induction C; [apply t_step; auto|eapply t_trans; eauto]. }
    split; intros (k & C); exists k; (eapply G; [|exact C]); intros i j; apply sort_below.
  Qed.
  Lemma sort_reaches out refs k j : reaches (pr_arts (sorted out refs)) k j <-> reaches out k j.
  Proof.
    assert (G : forall (R R' : str -> str -> Prop), (forall k j, R k j -> R' k j) -> forall k j, clos_refl_trans str R k j -> clos_refl_trans str R' k j).
    { intros R R' I u v C. induction C; [apply rt_step; auto|apply rt_refl|eapply rt_trans; eauto]. }
    unfold reaches. split; apply G; intros u v; apply (sort_below out refs u v).
  Qed.
  Lemma sort_own (a : artifact exact_num H) : own_spc (a_impl (art_sort exact_num H a)) (a_subnames (art_sort exact_num H a)) = own_spc (a_impl a) (a_subnames a) /\
    own_tst (a_impl (art_sort exact_num H a)) (a_subnames (art_sort exact_num H a)) = own_tst (a_impl a) (a_subnames a).
  Proof.
    cbn [art_sort a_impl a_subnames]. pose proof (isort_perm sub_leb (a_subnames a)) as P. pose proof (Permutation_length P) as L.
    destruct (a_impl a) as [d|c|]; cbn [own_spc own_tst]; [auto| |rewrite <- L; auto].
    assert (Lk : forall x, linked (code_sort c) x = linked c x).
    { intros x. unfold linked, code_sort. cbn [ic_secondary]. unfold im_sort. symmetry. apply existsb_perm, isort_perm. }
    rewrite !(filter_ext (linked (code_sort c)) (linked c) Lk). rewrite <- L. cbn [code_sort ic_primary].
    rewrite <- (Permutation_length (filter_perm (linked c) _ _ P)), <- (Permutation_length (filter_perm test_sub _ _ P)).
    rewrite <- (Permutation_length (filter_perm (linked c) _ _ (filter_perm test_sub _ _ P))). auto.
  Qed.
  Lemma sort_changed X out out' refs refs' : changed_only X (pr_arts (sorted out refs)) (pr_arts (sorted out' refs')) <-> changed_only X out out'.
  Proof.
    assert (SS : forall a a' : artifact exact_num H, says_same (fun k => ~ X k) (art_sort exact_num H a) (art_sort exact_num H a') <-> says_same (fun k => ~ X k) a a').
    { intros a a'. unfold says_same. destruct (sort_own a) as [-> ->], (sort_own a') as [-> ->]. cbn [art_sort a_partof].
      split; intros (U & V); (split; [|exact V]); intros k Hk; specialize (U k Hk); rewrite !sort_keys in *; exact U. }
    split; intros [C1 C2]; split.
    - intros n a Ha Nx. destruct (C1 n (art_sort exact_num H a)) as (n' & a' & Ha' & En & S); [apply sort_in; eauto|auto|]. apply sort_in in Ha' as (b & Hb & ->). exists n', b. split; auto. split; auto. now apply SS.
    - intros n a Ha Nx. destruct (C2 n (art_sort exact_num H a)) as (n' & a' & Ha' & En); [apply sort_in; eauto|auto|]. apply sort_in in Ha' as (b & Hb & ->). exists n', b. auto.
    - intros n a Ha Nx. apply sort_in in Ha as (a0 & H0 & ->). destruct (C1 n a0 H0 Nx) as (n' & a' & Ha' & En & S). exists n', (art_sort exact_num H a'). split; [apply sort_in; eauto|]. split; auto. now apply SS.
    - intros n a Ha Nx. apply sort_in in Ha as (a0 & H0 & ->). destruct (C2 n a0 H0 Nx) as (n' & a' & Ha' & En). exists n', (art_sort exact_num H a'). split; [apply sort_in; eauto|auto].
  Qed.

  Theorem loads_local n n' afs afs' cfs cfs' c c' p p' X : walk_lints_ok afs -> walk_lints_ok cfs -> walk_lints_ok afs' -> walk_lints_ok cfs' ->
    loads n afs cfs (Ok (inl (c, p))) -> loads n' afs' cfs' (Ok (inl (c', p'))) ->
    ~ cyclic (pr_arts p) -> ~ cyclic (pr_arts p') -> changed_only X (pr_arts p) (pr_arts p') ->
    forall m a m' a', In (m, a) (pr_arts p) -> In (m', a') (pr_arts p') -> n_key m' = n_key m -> untouched X (pr_arts p) (pr_arts p') (n_key m) -> a_completed a = a_completed a'.
  Proof.
    intros W1 W2 W1' W2' L L' AC AC' C m a m' a' Hm Hm' Em U.
    destruct (loads_built n afs cfs c p W1 W2 L) as (arts & refs & la & lc & out & _ & _ & Wa & Wr & D & NR & B & ->).
    destruct (loads_built n' afs' cfs' c' p' W1' W2' L') as (arts' & refs' & la' & lc' & out' & _ & _ & Wa' & Wr' & D' & NR' & B' & ->).
    rewrite sort_cyclic in AC, AC'. rewrite sort_changed in C. apply sort_in in Hm as (b & Hb & ->). apply sort_in in Hm' as (b' & Hb' & ->). cbn [art_sort a_completed].
    apply (local topo topo H H hash_im hash_im TC TC arts arts' _ _ out out' Wa Wa' B B' X C AC AC' m b m' b' Hb Hb' Em).
    intros j Hj. apply U. rewrite !sort_reaches. exact Hj.
  Qed.
  Lemma edits_perm X arts arts0 arts' arts0' refs refs0 refs' refs0' : Permutation arts arts0 -> Permutation arts' arts0' -> Permutation refs refs0 -> Permutation refs' refs0' ->
    edits_only X arts0 arts0' refs0 refs0' -> edits_only X arts arts' refs refs'.
  Proof.
    intros P P' Q Q' (E1 & E2 & E3 & E4). split; [|split; [|split]].
    - intros a Ha Nx. destruct (E1 a (Permutation_in _ P Ha) Nx) as (b & Hb & R). exists b. split; auto. apply (Permutation_in _ (Permutation_sym P') Hb).
    - intros a Ha Nx. destruct (E2 a (Permutation_in _ P' Ha) Nx) as (b & Hb & R). exists b. split; auto. apply (Permutation_in _ (Permutation_sym P) Hb).
    - intros a Ha Nx. destruct (E3 a (Permutation_in _ Q Ha) Nx) as (b & Hb & R). exists b. split; auto. apply (Permutation_in _ (Permutation_sym Q') Hb).
    - intros a Ha Nx. destruct (E4 a (Permutation_in _ Q' Ha) Nx) as (b & Hb & R). exists b. split; auto. apply (Permutation_in _ (Permutation_sym Q) Hb).
  Qed.
  Theorem loads_edit n n' afs afs' cfs cfs' c c' p p' X : walk_lints_ok afs -> walk_lints_ok cfs -> walk_lints_ok afs' -> walk_lints_ok cfs' ->
    killers load_file afs < n -> killers load_file afs' < n' -> killers (load_locations path_str) cfs < 4 -> killers (load_locations path_str) cfs' < 4 ->
    loads n afs cfs (Ok (inl (c, p))) -> loads n' afs' cfs' (Ok (inl (c', p'))) ->
    edits_only X (file_arts afs) (file_arts afs') (file_refs path_str cfs) (file_refs path_str cfs') -> changed_only X (pr_arts p) (pr_arts p').
  Proof.
    intros W1 W2 W1' W2' K K' Kc Kc' L L' Ed.
    destruct (loads_built n afs cfs c p W1 W2 L) as (arts & refs & la & lc & out & R & Rc & Wa & Wr & D & NR & B & ->).
    destruct (loads_built n' afs' cfs' c' p' W1' W2' L') as (arts' & refs' & la' & lc' & out' & R' & Rc' & Wa' & Wr' & D' & NR' & B' & ->).
    apply sort_changed. apply (edit_changed exact_num exact_num topo topo H H hash_im hash_im TC TC arts arts' refs refs' out out' Wa Wa' D D' Wr Wr' NR NR' B B' X).
    refine (edits_perm X _ _ _ _ _ _ _ _ _ _ _ _ Ed).
    - exact (arts_run path_str yaml parse_toml parse_json parse_msg prefix n afs arts la K R).
    - exact (arts_run path_str yaml parse_toml parse_json parse_msg prefix n' afs' arts' la' K' R').
    - exact (refs_run path_str cfs refs lc Kc Rc).
    - exact (refs_run path_str cfs' refs' lc' Kc' Rc').
  Qed.

  Lemma alike_improves i i' subs : impl_alike i i' -> improves i subs i' subs.
  Proof. intros A. destruct (own_alike i i' subs A) as [E1 E2]. unfold improves, better. rewrite E1, E2. lia. Qed.
  Theorem loads_alike_completed n n' afs afs' cfs cfs' c c' p p' : walk_lints_ok afs -> walk_lints_ok cfs -> walk_lints_ok afs' -> walk_lints_ok cfs' ->
    killers load_file afs < n -> killers load_file afs' < n' -> killers (load_locations path_str) cfs < 4 -> killers (load_locations path_str) cfs' < 4 ->
    arts_restated (file_arts afs) (file_arts afs') -> refs_restated (file_refs path_str cfs) (file_refs path_str cfs') ->
    loads n afs cfs (Ok (inl (c, p))) -> loads n' afs' cfs' (Ok (inl (c', p'))) ->
    forall m a m' a', In (m, a) (pr_arts p) -> In (m', a') (pr_arts p') -> n_key m' = n_key m -> a_completed a = a_completed a'.
  Proof.
    intros W1 W2 W1' W2' K K' Kc Kc' RA RR L L' m a m' a' Hm Hm' Em.
    destruct (loads_built n afs cfs c p W1 W2 L) as (arts & refs & la & lc & out & R & Rc & Wa & Wr & D & NR & B & ->).
    destruct (loads_built n' afs' cfs' c' p' W1' W2' L') as (arts' & refs' & la' & lc' & out' & R' & Rc' & Wa' & Wr' & D' & NR' & B' & ->).
    apply sort_in in Hm as (b & Hb & ->). apply sort_in in Hm' as (b' & Hb' & ->). cbn [art_sort a_completed].
    assert (RA1 := restated_perm _ _ _ _ (arts_run path_str yaml parse_toml parse_json parse_msg prefix n afs arts la K R) (arts_run path_str yaml parse_toml parse_json parse_msg prefix n' afs' arts' la' K' R') RA).
    assert (RR1 := restated_perm_refs _ _ _ _ (refs_run path_str cfs refs lc Kc Rc) (refs_run path_str cfs' refs' lc' Kc' Rc') RR).
    destruct (restated_edits arts arts' refs refs' RA1 RR1) as [Ed Ed'].
    assert (G : forall a1 a1' r1 r1', Forall im_wf a1 -> Forall im_wf a1' -> Forall ref_wf r1 -> Forall ref_wf r1' -> (forall i j, ~ repeated r1 i j) -> (forall i j, ~ repeated r1' i j) -> edits_only (fun _ => False) a1 a1' r1 r1' ->
      similar a1 a1' (fun a a' => improves (impl_im (snd (join_locations r1)) a) (subs_im a) (impl_im (snd (join_locations r1')) a') (subs_im a')) /\ similar a1 a1' (fun _ _ => True)).
    { clear. intros a1 a1' r1 r1' Wa Wa' Wr Wr' NR NR' Ed. assert (S : forall a, In a a1 -> exists a', In a' a1' /\ n_key (im_name a') = n_key (im_name a) /\
        (forall q, name_wf q -> (named q (im_partof a') <-> named q (im_partof a))) /\ improves (impl_im (snd (join_locations r1)) a) (subs_im a) (impl_im (snd (join_locations r1')) a') (subs_im a')).
      { pose proof Ed as (E1 & _). intros a Ha. destruct (E1 a Ha (fun f => f)) as (a' & Ha' & X1 & X2 & X3 & X4). refine (ex_intro _ a' (conj Ha' (conj X1 (conj (fun q Wq => X4 q Wq (fun f => f)) _)))).
        replace (subs_im a') with (subs_im a) by (unfold subs_im; now rewrite X3). apply alike_improves. apply impl_im_alike; auto.
        - apply key_nk; [exact (im_name_wf a1' a' Wa' Ha')|exact (im_name_wf a1 a Wa Ha)|exact X1].
        - apply (edit_codes a1 a1' r1 r1' Wr Wr' NR NR' (fun _ => False) Ed); [exact (im_name_wf a1 a Wa Ha)|exact (fun f => f)]. }
      split; intros a Ha; destruct (S a Ha) as (a' & Ha' & X1 & X2 & X3); exists a'; auto. }
    destruct (G arts arts' refs refs' Wa Wa' Wr Wr' NR NR' Ed) as [S1 T1]. destruct (G arts' arts refs' refs Wa' Wa Wr' Wr NR' NR Ed') as [S2 T2].
    destruct (exact_mono topo topo H H hash_im hash_im TC TC arts arts' _ _ out out' Wa Wa' D D' B B' S1 T2 m b m' b' Hb Hb' (eq_sym Em)) as [L1 L2].
    destruct (exact_mono topo topo H H hash_im hash_im TC TC arts' arts _ _ out' out Wa' Wa D' D B' B S2 T1 m' b' m b Hb' Hb Em) as [L3 L4].
    destruct (a_completed b) as [u v], (a_completed b') as [u' v']. cbn [fst snd] in *. f_equal; lia.
  Qed.
End Exact.
