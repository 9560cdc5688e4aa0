(** Statements about loaded projects, in the form used by the property files. *)
From Verif Require Import Base BaseFacts Name SpecName NameFacts Family FamilyFacts RawNamesFacts Artifact Stored
  SpecGraph GraphFacts CompletedFacts BuildFacts SpecLinks LinkFacts.
From Coq Require Import Permutation Lia Sorted.

Section Project.
  Variables (M : num) (topo : graph -> option (list nat)) (H : Type) (hash_im : art_im -> H).
  Hypothesis TC : topo_ok topo.
  Notation build := (build M topo H hash_im).

  Lemma build_total arts code : exists out, build arts code = Ok out /\
    NoDup (nkeys out) /\ (forall n, In (nk n) (nkeys out) <-> exists a, In a arts /\ nk (im_name a) = nk n) /\
    (forall n a, In (n, a) out -> a_name a = n).
  Proof.
    destruct (build_ok M topo TC H hash_im arts code) as (gs & comp & G & C & E).
    eexists. split; [exact E|]. pose proof (join_all_ok arts) as J. rewrite pkeys_map by auto.
    split; [apply J|]. split.
    - intros n. rewrite (jo_in _ _ J), in_map_iff. split; intros (a & H1 & H2); exists a; auto.
    - intros n a Hin. apply in_map_iff in Hin as (e & X & _). inversion X; subst. reflexivity.
  Qed.

  (** The entry of [a] in the result. *)
  Lemma build_entry arts code out : Forall im_wf arts -> distinct arts -> build arts code = Ok out ->
    exists gs comp, graphs_ok (links (map (fun a => (im_name a, im_clean a)) arts)) gs /\
      comp_ok M topo (map (fun a => (im_name a, im_clean a)) arts) code gs comp /\
      out = map (fun a => (im_name a, built M H hash_im (map (fun a => (im_name a, im_clean a)) arts) code gs comp
                                          (im_name a, im_clean a))) arts.
  Proof.
    intros W D E. destruct (build_ok M topo TC H hash_im arts code) as (gs & comp & G & C & E').
    rewrite E in E'. inversion E' as [Eo]. destruct (join_distinct arts (distinct_nk arts W D)) as (J & _ & _).
    rewrite J in *. exists gs, comp. rewrite map_map. auto.
  Qed.

  Lemma partof_exact arts code out : Forall im_wf arts -> distinct arts -> build arts code = Ok out ->
    forall a, In a arts -> exists art, In (im_name a, art) out /\
      forall q, name_wf q ->
      (named q (a_partof art) <->
       (named q (im_partof a) /\ ~ own_link (n_key (im_name a)) (n_key q)) \/
       (own_link (n_key (im_name a)) (n_key q) /\ exists b, In b arts /\ n_key (im_name b) = n_key q)).
  Proof.
    intros W D E a Ha. destruct (build_entry arts code out W D E) as (gs & comp & G & C & ->).
    eexists. split; [apply in_map_iff; exists a; split; [reflexivity|auto]|].
    intros q Wq. cbn [built a_partof].
    rewrite Forall_forall in W. pose proof (W a Ha) as Wa. pose proof (im_wf_set a Wa) as Sa.
    destruct (clean_wf a Wa) as [_ Sc].
    set (ims := map (fun a => (im_name a, im_clean a)) arts).
    pose proof (partof_set ims (im_name a, im_clean a) (iw_name _ Wa) Sc) as PS.
    rewrite named_iff; auto; [|apply PS]. rewrite partof_in by (apply Wa). cbn [fst snd].
    rewrite own_link_iff by (auto; apply Wa).
    assert (P1 : In (nk q) (map nk (im_partof (im_clean a))) <-> named q (im_partof a) /\ ~ own_key (im_name a) (nk q)).
    { rewrite named_iff; auto; [|apply Sa]. rewrite !in_map_iff. cbn [im_clean im_partof]. split.
      - intros (x & Ex & Hx). rewrite isort_in, strip_in in Hx by apply Sa. rewrite <- Ex. split; [|tauto].
        exists x. tauto.
      - intros [(x & Ex & Hx) Hn]. exists x. split; auto. rewrite isort_in, strip_in by apply Sa.
        rewrite Ex. auto. }
    assert (P2 : In (nk q) (nkeys ims) <-> exists b, In b arts /\ n_key (im_name b) = n_key q).
    { unfold ims, pkeys. rewrite map_map, in_map_iff. simpl. split; intros (b & H1 & H2); exists b.
      - split; auto. apply (nk_key _ _ (iw_name _ (W b H2)) Wq). auto.
      - split; auto. apply (nk_key _ _ (iw_name _ (W b H1)) Wq). auto. }
    rewrite P1, P2. tauto.
  Qed.

  Lemma parts_inverse arts code out : Forall im_wf arts -> build arts code = Ok out ->
    forall n1 a1 n2 a2, In (n1, a1) out -> In (n2, a2) out ->
    (named n2 (a_parts a1) <-> named n1 (a_partof a2)).
  Proof.
    intros W E n1 a1 n2 a2 H1 H2. destruct (build_ok M topo TC H hash_im arts code) as (gs & comp & G & C & E').
    rewrite E in E'. inversion E' as [Eo]. subst out. clear E E'.
    set (ims := j_ims (join_artifacts_raw arts)) in *.
    apply in_map_iff in H1 as (e1 & X1 & I1), H2 as (e2 & X2 & I2). inversion X1; inversion X2; subst. clear X1 X2.
    destruct (entry_wf arts W e1 I1) as (W1 & _ & _ & S1 & _), (entry_wf arts W e2 I2) as (W2 & _ & _ & S2 & _).
    cbn [built a_parts a_partof].
    pose proof (partof_set ims e2 W2 S2) as PS.
    assert (Wp : Forall name_wf (parts_at gs (fst e1))).
    { apply Forall_forall. intros x Hx. unfold parts_at, parts_of in Hx. apply in_map_iff in Hx as (i & <- & Hi).
      apply (neighbors_nodes _ _ G) in Hi as [_ Hi]. apply (lookup_name_total _ _ G) in Hi as (m & Em & _ & Hm).
      unfold node_name. rewrite Em. apply in_flat in Hm as (m' & ps & Hin & Hor).
      apply in_map_iff in Hin as (e & Xe & He). inversion Xe; subst.
      destruct (entry_wf arts W e He) as (We & _ & _ & Se & _). destruct Hor as [->|Hor]; auto.
      pose proof (partof_set ims e We Se) as [PW _]. rewrite Forall_forall in PW. auto. }
    rewrite !named_iff; auto; [|apply PS]. unfold parts_at.
    pose proof (id_of_get ims gs G e1 I1) as Hid.
    rewrite (parts_iff _ _ G _ _ (fst e2) Hid). split.
    - intros (m & ps & Hin & Em & Hn). apply in_map_iff in Hin as (e & Xe & He). inversion Xe; subst.
      assert (e = e2); [|now subst].
      pose proof (jo_nodup _ _ (join_all_ok arts)) as ND. fold ims in ND.
      assert (Hg : mget (fst e) ims = mget (fst e2) ims) by (apply (get_proj name_eqb nk name_eqb_iff); auto).
      destruct e as [ne ve], e2 as [n2 v2]. simpl in *.
      clear -ND He I2 Em. induction ims as [|x l IH]; [contradiction|]. inversion ND as [|? ? Hn ND']; subst.
      destruct He as [->|He], I2 as [I2|I2]; auto.
      + exfalso. apply Hn. simpl. rewrite Em. unfold pkeys. apply in_map_iff. exists (n2, v2). auto.
      + subst x. exfalso. apply Hn. simpl. rewrite <- Em. unfold pkeys. apply in_map_iff. exists (ne, ve). auto.
    - intros Hn. exists (fst e2), (partof_of ims e2). split; [apply in_map_iff; exists e2; auto|]. auto.
  Qed.

  Lemma parts_exist arts code out : Forall im_wf arts -> build arts code = Ok out ->
    forall n1 a1, In (n1, a1) out ->
    NoDup (map n_key (a_parts a1)) /\
    forall q, In q (a_parts a1) -> exists n2 a2, In (n2, a2) out /\ n_key n2 = n_key q.
  Proof.
    intros W E n1 a1 H1. destruct (build_ok M topo TC H hash_im arts code) as (gs & comp & G & C & E').
    rewrite E in E'. inversion E' as [Eo]. subst out. clear E E'.
    set (ims := j_ims (join_artifacts_raw arts)) in *.
    apply in_map_iff in H1 as (e1 & X1 & I1). inversion X1; subst. clear X1.
    cbn [built a_parts].
    assert (Hq : forall q, In q (parts_at gs (fst e1)) -> name_wf q /\ exists e, In e ims /\ nk (fst e) = nk q).
    { intros q Hq. unfold parts_at, parts_of in Hq. apply in_map_iff in Hq as (i & <- & Hi).
      pose proof (neighbors_nodes _ _ G _ _ Hi) as [_ Hn].
      pose proof (lookup_name_total _ _ G _ Hn) as (m & Em & _ & Hm). split.
      - unfold node_name. rewrite Em. apply in_flat in Hm as (m' & ps & Hin & Hor).
        apply in_map_iff in Hin as (e & Xe & He). inversion Xe; subst.
        destruct (entry_wf arts W e He) as (We & _ & _ & Se & _). destruct Hor as [->|Hor]; auto.
        pose proof (partof_set ims e We Se) as [PW _]. rewrite Forall_forall in PW. auto.
      - destruct (kids_def ims (jo_nodup _ _ (join_all_ok arts)) gs G _ _ Hi) as [_ Hd].
        apply (is_def_iff ims (jo_nodup _ _ (join_all_ok arts)) gs G _ Hn) in Hd as (e & He & ->).
        exists e. split; auto. symmetry. now apply (id_of_name ims gs G). }
    split.
    - pose proof (parts_nodup _ _ G (id_of gs (fst e1))) as ND. fold (parts_at gs (fst e1)) in ND.
      revert ND Hq. generalize (parts_at gs (fst e1)). induction l as [|x l IH]; simpl; intros ND Hq; constructor.
      + inversion ND as [|? ? Hn ND']; subst. intros Hin. apply Hn. apply in_map_iff in Hin as (y & Ey & Hy).
        apply in_map_iff. exists y. split; auto. apply nk_key; auto; apply Hq; auto.
      + inversion ND; subst. apply IH; auto.
    - intros q Hqi. destruct (Hq q Hqi) as (Wq & e & He & Ek).
      eexists (fst e), _. split; [apply in_map_iff; exists e; split; [reflexivity|auto]|].
      destruct (entry_wf arts W e He) as (We & _). now apply nk_key in Ek.
  Qed.

  (** ** Stored forms *)
  Lemma built_back arts code out : Forall im_wf arts -> distinct arts -> build arts code = Ok out ->
    forall a, In a arts -> exists art, In (im_name a, art) out /\ to_im art = im_clean a /\
      a_id art = hash_im (im_clean a) /\ a_file art = im_file a /\ a_text art = clean_text (im_text a).
  Proof.
    intros W D E a Ha. destruct (build_entry arts code out W D E) as (gs & comp & G & C & ->).
    eexists. split; [apply in_map_iff; exists a; split; [reflexivity|auto]|].
    rewrite Forall_forall in W. pose proof (W a Ha) as Wa. split; [|auto].
    destruct (clean_wf a Wa) as [_ Sc]. rewrite to_im_built; cbn [fst snd]; auto.
    - apply Wa.
    - intros x Hx. cbn [im_clean im_partof] in Hx. rewrite isort_in in Hx.
      apply strip_in in Hx as [_ Hx]; auto. apply im_wf_set, Wa.
    - cbn [im_clean im_partof]. apply isort_sorted; [exact name_leb_total|exact name_leb_trans].
    - cbn [im_clean im_text]. apply clean_text_idem.
  Qed.

  Lemma map_to_im arts code out : Forall im_wf arts -> distinct arts -> build arts code = Ok out ->
    map (fun e => to_im (snd e)) out = map im_clean arts.
  Proof.
    intros W D E. destruct (build_entry arts code out W D E) as (gs & comp & G & C & ->).
    rewrite map_map. apply map_ext_in. intros a Ha. cbn [snd].
    rewrite Forall_forall in W. pose proof (W a Ha) as Wa.
    destruct (clean_wf a Wa) as [_ Sc]. rewrite to_im_built; cbn [fst snd]; auto.
    - apply Wa.
    - intros x Hx. cbn [im_clean im_partof] in Hx. rewrite isort_in in Hx.
      apply strip_in in Hx as [_ Hx]; auto. apply im_wf_set, Wa.
    - cbn [im_clean im_partof]. apply isort_sorted; [exact name_leb_total|exact name_leb_trans].
    - cbn [im_clean im_text]. apply clean_text_idem.
  Qed.

  Lemma build_clean arts code : Forall im_wf arts -> build (map im_clean arts) code = build arts code.
  Proof.
    intros W. unfold Artifact.build.
    assert (J : join_artifacts_raw (map im_clean arts) = join_artifacts_raw arts).
    { unfold join_artifacts_raw. generalize (mkJoined [] [] []). induction arts as [|a l IH]; simpl; intros j; auto.
      inversion W as [|? ? Wa Wl]; subst. rewrite IH by auto. f_equal. unfold join_step.
      rewrite im_clean_idem by auto. reflexivity. }
    now rewrite J.
  Qed.

  (** Storing every artifact and loading again gives the same project. *)
  Lemma store_load arts code out : Forall im_wf arts -> distinct arts -> build arts code = Ok out ->
    build (map (fun e => to_im (snd e)) out) code = Ok out.
  Proof. intros W D E. rewrite (map_to_im arts code out) by auto. rewrite build_clean; auto. Qed.

  (** ** Implementations *)
  Lemma impl_exact arts code out : Forall im_wf arts -> distinct arts ->
    Forall (fun c => name_wf (fst c)) code -> NoDup (map (fun c => n_key (fst c)) code) ->
    build arts code = Ok out ->
    forall a, In a arts -> exists art, In (im_name a, art) out /\
      (forall d, a_impl art = IDone d <-> im_done a = Some d) /\
      (forall c, a_impl art = ICode c <->
         im_done a = None /\ exists m, In (m, c) code /\ n_key m = n_key (im_name a)) /\
      (a_impl art = INot <->
         im_done a = None /\ forall m c, In (m, c) code -> n_key m <> n_key (im_name a)).
  Proof.
    intros W D Wc Nc E a Ha. destruct (build_entry arts code out W D E) as (gs & comp & G & C & ->).
    eexists. split; [apply in_map_iff; exists a; split; [reflexivity|auto]|].
    rewrite Forall_forall in W, Wc. pose proof (W a Ha) as Wa. cbn [built a_impl]. unfold impl_of. cbn [snd fst im_clean im_done].
    assert (NDc : NoDup (nkeys code)).
    { clear -Wc Nc. induction code as [|[m c] l IH]; simpl; constructor; inversion Nc as [|? ? Hn Nc']; subst.
      - intros Hin. apply Hn. apply in_map_iff in Hin as (x & E & Hx). apply in_map_iff. exists x. split; auto.
        unfold nk in E. congruence.
      - apply IH; auto. intros x Hx. apply Wc. simpl; auto. }
    destruct (im_done a) as [d|].
    - repeat split; intros; try congruence; try tauto; destruct H0; congruence.
    - destruct (mget (im_name a) code) as [c|] eqn:Ec.
      + apply (get_some_in name_eqb nk name_eqb_iff) in Ec as (m & Em & Hm).
        assert (Km : n_key m = n_key (im_name a)).
        { apply (nk_key _ _ (Wc _ Hm) (iw_name _ Wa)). auto. }
        split; [split; congruence|]. split.
        * intros c'. split.
          -- intros X; inversion X; subst. split; auto. exists m. auto.
          -- intros (_ & m' & Hm' & Km'). f_equal.
             assert (mget m code = Some c) by (apply (in_get name_eqb nk name_eqb_iff); auto).
             assert (mget m' code = Some c') by (apply (in_get name_eqb nk name_eqb_iff); auto).
             assert (nk m = nk m').
             { apply (nk_key _ _ (Wc _ Hm) (Wc _ Hm')). simpl. congruence. }
             rewrite (get_proj name_eqb nk name_eqb_iff _ _ _ H2) in H0. congruence.
        * split; [discriminate|]. intros [_ X]. exfalso. apply (X m c); auto.
      + split; [split; congruence|]. split.
        * intros c. split; [discriminate|]. intros (_ & m & Hm & Km). exfalso.
          apply (get_none_iff name_eqb nk name_eqb_iff) in Ec. apply Ec. unfold pkeys. apply in_map_iff.
          exists (m, c). split; auto. simpl. apply (nk_key _ _ (Wc _ Hm) (iw_name _ Wa)). auto.
        * split; auto. intros _. split; auto. intros m c Hm Km.
          apply (get_none_iff name_eqb nk name_eqb_iff) in Ec. apply Ec. unfold pkeys. apply in_map_iff.
          exists (m, c). split; auto. simpl. apply (nk_key _ _ (Wc _ Hm) (iw_name _ Wa)). auto.
  Qed.

  Lemma build_code_cong arts code code' :
    (forall a, In a arts -> mget (im_name a) code = mget (im_name a) code') ->
    build arts code = build arts code'.
  Proof.
    intros Hc. unfold Artifact.build. destruct (finalize_load (j_ims (join_artifacts_raw arts))) as [l| |] eqn:El; auto.
    simpl. unfold determine_artifacts.
    assert (El2 : l_ims l = j_ims (join_artifacts_raw arts)).
    { unfold finalize_load in El. destruct (determine_partofs _); simpl in El; try discriminate.
      destruct (determine_graphs _); simpl in El; try discriminate.
      destruct (determine_parts _); simpl in El; try discriminate. inversion El. reflexivity. }
    assert (Ei : determine_impls (l_ims l) code = determine_impls (l_ims l) code').
    { rewrite El2. pose proof (join_all_ok arts) as J. rewrite !determine_impls_ok by apply J.
      apply map_ext_in. intros e He. f_equal. unfold impl_of. destruct (im_done (snd e)); auto.
      destruct (jo_key _ _ J e He) as (a & Ha & Hn). rewrite Hn. now rewrite Hc. }
    now rewrite Ei.
  Qed.

  Lemma unknown_reference arts code m c : (forall a, In a arts -> nk (im_name a) <> nk m) ->
    build arts (code ++ [(m, c)]) = build arts code.
  Proof.
    intros Hn. apply build_code_cong. intros a Ha. rewrite (get_app name_eqb).
    destruct (mget (im_name a) code); auto. simpl. destruct (name_eqb m (im_name a)) eqn:E; auto.
    apply name_eqb_iff in E. exfalso. apply (Hn a); auto.
  Qed.
End Project.

(** ** Stored form *)
Lemma raw_roundtrip a : im_wf a -> im_clean a = a ->
  let '(f, n, r) := into_raw a in from_raw n f r = a.
Proof.
  intros W C. unfold into_raw, from_raw. simpl. destruct a as [n f p d t]. simpl in *.
  pose proof (im_wf_set _ W) as S. simpl in S.
  pose proof (f_equal im_partof C) as E1. simpl in E1. clear C.
  assert (P : isort name_leb (match (match p with [] => None | _ :: _ => Some p end) with
              | Some p => is_collect name_eqb (strip_auto n p) | None => [] end) = p).
  { destruct p as [|x p]; auto. rewrite (is_collect_distinct name_eqb nk name_eqb_iff).
    - exact E1.
    - apply strip_nodup, S. }
  f_equal; [|destruct t; auto]. destruct p; exact P.
Qed.

(** ** Texts *)
Lemma mem_char_nl x : mem_char c_nl x = true <-> In c_nl x.
Proof. apply mem_char_iff. Qed.

Lemma clean_text_spec x : exists t w, x = t ++ w /\ Forall (fun c => is_ws c = true) w /\
  (forall p c, t = p ++ [c] -> is_ws c = false) /\
  (In 10%N t -> clean_text x = t ++ [10%N]) /\ (~ In 10%N t -> clean_text x = t).
Proof.
  destruct (trim_end_spec x) as (w & E & Hw & Hl). exists (trim_end x), w. repeat split; auto.
  - intros Hin. unfold clean_text. cbv zeta. apply mem_char_nl in Hin. now rewrite Hin.
  - intros Hn. unfold clean_text. cbv zeta. destruct (mem_char c_nl (trim_end x)) eqn:Em; auto.
    apply mem_char_nl in Em. contradiction.
Qed.

(** ** Duplicates *)
Lemma dups_mono l : forall j, incl (j_dups j) (j_dups (fold_left join_step l j)).
Proof.
  induction l as [|a l IH]; simpl; intros j; [apply incl_refl|].
  eapply incl_tran; [|apply IH]. unfold join_step. simpl.
  destruct (mget (im_name a) (j_files j)); [apply incl_appl|]; apply incl_refl.
Qed.

(** the last file inserted for a name *)
Lemma files_get l : forall j n,
  mget n (j_files (fold_left join_step l j)) =
  match mget n (rev (map (fun a => (im_name a, im_file a)) l)) with
  | Some f => Some f
  | None => mget n (j_files j)
  end.
Proof.
  induction l as [|a l IH]; simpl; intros j n; auto. rewrite IH. rewrite (get_app name_eqb).
  destruct (mget n (rev _)); auto. simpl. rewrite (get_insert name_eqb nk name_eqb_iff).
  destruct (name_eqb (im_name a) n); auto.
Qed.

Definition clash (a b : art_im) : Prop := nk (im_name a) = nk (im_name b).

Lemma get_last n (l : list art_im) f : mget n (rev (map (fun a => (im_name a, im_file a)) l)) = Some f ->
  exists l1 a l2, l = l1 ++ a :: l2 /\ nk (im_name a) = nk n /\ im_file a = f /\
                  forall b, In b l2 -> nk (im_name b) <> nk n.
Proof.
  induction l as [|a l IH] using rev_ind; simpl; [discriminate|].
  rewrite map_app, rev_app_distr. simpl. destruct (name_eqb (im_name a) n) eqn:E.
  - intros X; inversion X; subst. apply name_eqb_iff in E. exists l, a, []. simpl. repeat split; auto.
  - intros X. destruct (IH X) as (l1 & b & l2 & -> & ? & ? & Hn). exists l1, b, (l2 ++ [a]).
    rewrite <- app_assoc. simpl. repeat split; auto. intros c Hc. apply in_app_iff in Hc as [Hc|[->|[]]]; auto.
    intros Ek. apply name_eqb_iff in Ek. congruence.
Qed.

Lemma dups_sound_gen l : forall arts j, j = fold_left join_step arts (mkJoined [] [] []) ->
  (forall n f g, In (n, f, g) (j_dups j) -> exists l1 a l2 b l3, arts = l1 ++ a :: l2 ++ b :: l3 /\
     clash a b /\ im_file a = f /\ im_file b = g /\ im_name b = n) ->
  forall n f g, In (n, f, g) (j_dups (fold_left join_step l j)) ->
  exists l1 a l2 b l3, arts ++ l = l1 ++ a :: l2 ++ b :: l3 /\ clash a b /\ im_file a = f /\ im_file b = g /\ im_name b = n.
Proof.
  induction l as [|x l IH]; simpl; intros arts j Ej Hs n f g Hin.
  - rewrite app_nil_r. auto.
  - replace (arts ++ x :: l) with ((arts ++ [x]) ++ l) by (rewrite <- app_assoc; reflexivity).
    apply (IH (arts ++ [x]) (join_step j x)); auto.
    + rewrite fold_left_app. simpl. now rewrite <- Ej.
    + clear n f g Hin. intros n f g Hin. unfold join_step in Hin. simpl in Hin.
      assert (Old : In (n, f, g) (j_dups j) -> exists l1 a l2 b l3, arts ++ [x] = l1 ++ a :: l2 ++ b :: l3 /\
         clash a b /\ im_file a = f /\ im_file b = g /\ im_name b = n).
      { intros Ho. destruct (Hs _ _ _ Ho) as (l1 & a & l2 & b & l3 & -> & ? & ? & ? & ?).
        exists l1, a, l2, b, (l3 ++ [x]). repeat split; auto. rewrite <- !app_assoc. simpl. rewrite <- !app_assoc. reflexivity. }
      destruct (mget (im_name x) (j_files j)) as [f0|] eqn:Eg; auto.
      apply in_app_iff in Hin as [Hin|[Hin|[]]]; auto. inversion Hin; subst.
      rewrite files_get in Eg. simpl in Eg.
      destruct (mget (im_name x) (rev _)) as [f1|] eqn:Er; [|discriminate]. inversion Eg; subst.
      apply get_last in Er as (l1 & a & l2 & -> & Hk & Hf & _). exists l1, a, l2, x, []. repeat split; auto.
      rewrite <- app_assoc. reflexivity.
Qed.

Lemma dups_sound arts n f g : In (n, f, g) (j_dups (join_artifacts_raw arts)) ->
  exists l1 a l2 b l3, arts = l1 ++ a :: l2 ++ b :: l3 /\ clash a b /\ im_file a = f /\ im_file b = g /\ im_name b = n.
Proof.
  apply (dups_sound_gen arts [] (mkJoined [] [] [])); auto. simpl. tauto.
Qed.

(** consecutive clashing artifacts are reported with both files *)
Lemma dups_complete l1 a l2 b l3 : clash a b -> (forall c, In c l2 -> ~ clash c b) ->
  In (im_name b, im_file a, im_file b) (j_dups (join_artifacts_raw (l1 ++ a :: l2 ++ b :: l3))).
Proof.
  intros Hc Hn. unfold join_artifacts_raw.
  replace (l1 ++ a :: l2 ++ b :: l3) with ((l1 ++ a :: l2) ++ b :: l3) by (rewrite <- app_assoc; reflexivity).
  rewrite fold_left_app. simpl. apply dups_mono. unfold join_step at 1. simpl.
  rewrite files_get. rewrite map_app, rev_app_distr. simpl. rewrite (get_app name_eqb), (get_app name_eqb).
  assert (E : mget (im_name b) (rev (map (fun a => (im_name a, im_file a)) l2)) = None).
  { apply (get_none_iff name_eqb nk name_eqb_iff). intros Hin. unfold pkeys in Hin. rewrite map_rev, <- in_rev, map_map in Hin.
    apply in_map_iff in Hin as (c & E & Hin). apply (Hn c); auto. }
  rewrite E. simpl. destruct (name_eqb (im_name a) (im_name b)) eqn:E2.
  - apply in_or_app. simpl. auto.
  - exfalso. unfold clash in Hc. apply name_eqb_iff in Hc. congruence.
Qed.

Lemma clash_dec a b : {clash a b} + {~ clash a b}.
Proof.
  unfold clash. destruct (name_eqb (im_name a) (im_name b)) eqn:E.
  - left. now apply name_eqb_iff.
  - right. intros H. apply name_eqb_iff in H. congruence.
Qed.

(** both files of any clash are named *)
Lemma dups_files l1 a l2 b l3 : clash a b ->
  (exists n g, In (n, im_file a, g) (j_dups (join_artifacts_raw (l1 ++ a :: l2 ++ b :: l3)))) /\
  (exists n f, In (n, f, im_file b) (j_dups (join_artifacts_raw (l1 ++ a :: l2 ++ b :: l3)))).
Proof.
  intros Hc. split.
  - (* the first clash after a *)
    assert (X : exists m1 c m2, l2 ++ b :: l3 = m1 ++ c :: m2 /\ clash a c /\ forall d, In d m1 -> ~ clash a d).
    { clear -Hc. induction l2 as [|x l2 IH]; simpl.
      - exists [], b, l3. simpl. repeat split; auto.
      - destruct (clash_dec a x).
        + exists [], x, (l2 ++ b :: l3). simpl. repeat split; auto.
        + destruct IH as (m1 & c & m2 & E & ? & Hn). exists (x :: m1), c, m2. simpl. rewrite E. repeat split; auto.
          intros d [<-|Hd]; auto. }
    destruct X as (m1 & c & m2 & -> & Hac & Hm). exists (im_name c), (im_file c).
    apply dups_complete; auto. intros d Hd Hcd. apply (Hm d Hd). unfold clash in *. congruence.
  - assert (X : exists m1 c m2, l1 ++ a :: l2 = m1 ++ c :: m2 /\ clash c b /\ forall d, In d m2 -> ~ clash d b).
    { clear -Hc. induction l2 as [|x l2 IH] using rev_ind.
      - exists l1, a, []. repeat split; auto.
      - destruct (clash_dec x b).
        + exists (l1 ++ a :: l2), x, []. rewrite <- app_assoc. repeat split; auto.
        + destruct IH as (m1 & c & m2 & E & ? & Hn). exists m1, c, (m2 ++ [x]).
          replace (l1 ++ a :: l2 ++ [x]) with ((l1 ++ a :: l2) ++ [x]) by (rewrite <- app_assoc; reflexivity).
          rewrite E, <- app_assoc. repeat split; auto.
          intros d Hd. apply in_app_iff in Hd as [Hd|[->|[]]]; auto. }
    destruct X as (m1 & c & m2 & E & Hcb & Hm). exists (im_name b), (im_file c).
    replace (l1 ++ a :: l2 ++ b :: l3) with ((l1 ++ a :: l2) ++ b :: l3) by (rewrite <- app_assoc; reflexivity).
    rewrite E, <- app_assoc. simpl. apply dups_complete; auto.
Qed.

Lemma nodup_split (arts : list art_im) : ~ NoDup (map (fun a => nk (im_name a)) arts) ->
  exists l1 a l2 b l3, arts = l1 ++ a :: l2 ++ b :: l3 /\ clash a b.
Proof.
  induction arts as [|a l IH]; simpl; intros ND; [exfalso; apply ND; constructor|].
  destruct (in_dec (fun x y : ty * str => ltac:(decide equality; [apply str_eq_dec|decide equality])) (nk (im_name a)) (map (fun a => nk (im_name a)) l)) as [Hin|Hn].
  - apply in_map_iff in Hin as (b & E & Hb). apply in_split in Hb as (m1 & m2 & ->).
    exists [], a, m1, b, m2. split; auto. unfold clash. congruence.
  - destruct IH as (l1 & x & l2 & y & l3 & -> & Hc); [intros N; apply ND; now constructor|].
    exists (a :: l1), x, l2, y, l3. auto.
Qed.

Lemma dups_none_iff arts : j_dups (join_artifacts_raw arts) = [] <-> NoDup (map (fun a => nk (im_name a)) arts).
Proof.
  split; [|intros ND; now apply join_distinct].
  intros E.
  destruct (ListDec.NoDup_dec (fun x y : ty * str => ltac:(decide equality; [apply str_eq_dec|decide equality])) (map (fun a => nk (im_name a)) arts)) as [|ND]; auto.
  exfalso. destruct (nodup_split arts ND) as (l1 & a & l2 & b & l3 & -> & Hc).
  destruct (dups_files l1 a l2 b l3 Hc) as [(n & g & Hin) _]. rewrite E in Hin. destruct Hin.
Qed.

Lemma dups_permutation arts arts' : Permutation arts arts' ->
  (j_dups (join_artifacts_raw arts) = [] <-> j_dups (join_artifacts_raw arts') = []).
Proof.
  intros P. rewrite !dups_none_iff.
  pose proof (Permutation_map (fun a => nk (im_name a)) P) as P'. split; apply Permutation_NoDup; auto.
  now apply Permutation_sym.
Qed.

(** The same by spelling. *)
Lemma nodup_app_r {A} (l1 l2 : list A) : NoDup (l1 ++ l2) -> NoDup l2.
Proof. induction l1; simpl; auto. intros N; inversion N; auto. Qed.

Definition same_name (a b : art_im) : Prop := str_ci (n_raw (im_name a)) (n_raw (im_name b)).

Lemma same_clash a b : name_wf (im_name a) -> name_wf (im_name b) -> (same_name a b <-> clash a b).
Proof. intros Wa Wb. unfold same_name, clash. rewrite <- name_eqb_ci, name_eqb_iff by auto. reflexivity. Qed.

Lemma dups_iff arts : Forall (fun a => name_wf (im_name a)) arts ->
  (j_dups (join_artifacts_raw arts) <> [] <->
   exists l1 a l2 b l3, arts = l1 ++ a :: l2 ++ b :: l3 /\ same_name a b).
Proof.
  intros W. rewrite dups_none_iff. split.
  - intros ND. apply nodup_split in ND as (l1 & a & l2 & b & l3 & -> & Hc). exists l1, a, l2, b, l3. split; auto.
    rewrite Forall_forall in W. apply same_clash; auto; apply W; rewrite in_app_iff; simpl; rewrite in_app_iff; simpl; auto.
  - intros (l1 & a & l2 & b & l3 & -> & Hs) ND. rewrite Forall_forall in W.
    apply same_clash in Hs; try (apply W; rewrite in_app_iff; simpl; rewrite in_app_iff; simpl; auto).
    rewrite map_app in ND. apply nodup_app_r in ND. simpl in ND. inversion ND as [|? ? Hn _]; subst.
    apply Hn. rewrite Hs, map_app. apply in_or_app. right. left. reflexivity.
Qed.

Lemma dups_reported arts l1 a l2 b l3 : Forall (fun a => name_wf (im_name a)) arts ->
  arts = l1 ++ a :: l2 ++ b :: l3 -> same_name a b ->
  (exists n g, In (n, im_file a, g) (j_dups (join_artifacts_raw arts))) /\
  (exists n f, In (n, f, im_file b) (j_dups (join_artifacts_raw arts))).
Proof.
  intros W -> Hs. apply dups_files. rewrite Forall_forall in W.
  apply same_clash; auto; apply W; rewrite in_app_iff; simpl; rewrite in_app_iff; simpl; auto.
Qed.

Lemma dups_only arts n f g : Forall (fun a => name_wf (im_name a)) arts ->
  In (n, f, g) (j_dups (join_artifacts_raw arts)) ->
  exists l1 a l2 b l3, arts = l1 ++ a :: l2 ++ b :: l3 /\ same_name a b /\ im_file a = f /\ im_file b = g /\ im_name b = n.
Proof.
  intros W Hin. apply dups_sound in Hin as (l1 & a & l2 & b & l3 & -> & Hc & ? & ? & ?).
  exists l1, a, l2, b, l3. repeat split; auto. rewrite Forall_forall in W.
  apply same_clash; auto; apply W; rewrite in_app_iff; simpl; rewrite in_app_iff; simpl; auto.
Qed.

Lemma join_kept arts : Forall (fun a => name_wf (im_name a)) arts -> distinct arts ->
  j_dups (join_artifacts_raw arts) = [] /\
  j_ims (join_artifacts_raw arts) = map (fun a => (im_name a, im_clean a)) arts /\
  j_files (join_artifacts_raw arts) = map (fun a => (im_name a, im_file a)) arts.
Proof.
  intros W D.
  assert (N : NoDup (map (fun a => nk (im_name a)) arts)).
  { clear -D. unfold distinct in D. induction arts as [|a l IH]; simpl; constructor; inversion D as [|? ? Hn D']; subst; auto.
    intros Hin. apply Hn. apply in_map_iff in Hin as (b & E & Hb). apply in_map_iff. exists b. split; auto.
    unfold nk in E. congruence. }
  destruct (join_distinct arts N) as (? & ? & ?). auto.
Qed.

(** Cleaning. *)
Lemma clean_idem_all : (forall x, clean_text (clean_text x) = clean_text x) /\
  (forall a, im_wf a -> im_clean (im_clean a) = im_clean a).
Proof. split; [exact clean_text_idem|exact im_clean_idem]. Qed.

Lemma map_eq_in {A B} (f g : A -> B) l : map f l = map g l -> forall x, In x l -> f x = g x.
Proof. induction l as [|a l IH]; simpl; intros E x Hx; [contradiction|]. inversion E. destruct Hx as [->|Hx]; auto. Qed.

(** The id of a loaded artifact is the hash of its stored form. *)
Lemma id_stored M topo (TC : topo_ok topo) H hash_im arts code out : Forall im_wf arts -> distinct arts ->
  build M topo H hash_im arts code = Ok out -> forall n a, In (n, a) out -> a_id a = hash_im (to_im a).
Proof.
  intros W D E n a Hin. pose proof (map_to_im M topo H hash_im TC arts code out W D E) as MT.
  destruct (build_entry M topo H hash_im TC arts code out W D E) as (gs & comp & G & C & Eo).
  rewrite Eo in Hin, MT. apply in_map_iff in Hin as (x & Ex & Hx). rewrite map_map in MT.
  assert (X : forall x, In x arts -> to_im (built M H hash_im (map (fun a => (im_name a, im_clean a)) arts) code gs comp
     (im_name x, im_clean x)) = im_clean x).
  { intros y Hy. exact (map_eq_in _ _ _ MT y Hy). }
  specialize (X x Hx). inversion Ex; subst. rewrite X. reflexivity.
Qed.

(** What cleaning keeps of the links. *)
Lemma clean_links a : im_wf a -> forall q,
  In q (im_partof (im_clean a)) <-> In q (im_partof a) /\ ~ own_link (n_key (im_name a)) (n_key q).
Proof.
  intros W q. cbn [im_clean im_partof]. rewrite isort_in, strip_in by apply (im_wf_set a W).
  split; intros [Hq Hn]; split; auto; intros X; apply Hn.
  - apply own_link_iff; auto; [apply W|]. pose proof (iw_links a W) as L. rewrite Forall_forall in L. auto.
  - apply own_link_iff in X; auto; [apply W|]. pose proof (iw_links a W) as L. rewrite Forall_forall in L. auto.
Qed.

Lemma clean_im_wf a : im_wf a -> im_wf (im_clean a).
Proof.
  intros W. destruct (clean_wf a W) as [C1 C2]. constructor; auto.
  - apply C2.
  - destruct C2 as [Wf N]. clear -Wf N. induction (im_partof (im_clean a)) as [|x l IH]; simpl; constructor.
    + inversion N as [|? ? Hn N']; subst. inversion Wf as [|? ? W1 W2]; subst. intros Hin. apply Hn.
      apply in_map_iff in Hin as (y & E & Hy). apply in_map_iff. exists y. split; auto.
      rewrite Forall_forall in W2. apply (nk_key y x (W2 y Hy) W1). auto.
    + inversion N; inversion Wf; subst. apply IH; auto.
Qed.
