(** C94: what a page shows, and how old it can be. *)
From Coq Require Import ZArith Lia Permutation Relation_Operators.
From Verif Require Import Base BaseFacts Regex Name SpecName NameFacts RawNames RawNamesFacts Family FamilyFacts Artifact Stored SpecGraph Topo SpecLinks BuildFacts LinkFacts ProjectFacts Numbers
  Markdown SpecMarkdown MarkdownFacts YamlExample Lint SpecLint LintFacts LintThms Source SpecJoin Pool PoolFacts Load LoadFacts SpecLoad CheckFacts ReadThms Disk DiskFacts Walk SpecWalk WalkFacts Modify SpecModify SpecReload OpFacts PureFacts OrderFacts
  PhaseFacts ResultFacts CodecExample ReloadFacts DiskRunFacts PropArtifacts PropCompleted PropMarkdown PropLint PropLoad PropModify PropDisk Server SpecServer ServerFacts ServerCalls Web WebSave SpecSave WebFacts PropWeb PropEdit PropSave System SpecSystem SystemFacts PropSystem SpecFresh SinceFacts.
Open Scope nat_scope.

Section Theorems.
  Variables (path_str : path -> str) (yaml : str -> option (option str * option RawNames.names_val)) (parse_toml parse_json : str -> res (list (name * art_raw)))
    (parse_msg : path -> str -> str) (prefix : str) (M : num) (topo : graph -> option (list nat)) (H : Type) (heqb : H -> H -> bool) (hash_im : art_im -> H)
    (settings_path : path) (url_error : option str) (enc : path -> str) (dec : str -> option path).
  Variables (debug_im : art_im -> str) (st : settings) (to_toml to_json : list (name * art_raw) -> str) (yaml_done : str -> str) (style : md_attrs).
  Variables (dig : char -> bool) (lim : N) (first : sproject H).
  Notation load_of := (load_of path_str yaml parse_toml parse_json parse_msg prefix M topo H hash_im settings_path url_error st).
  Notation may_load := (may_load path_str yaml parse_toml parse_json parse_msg prefix M topo H hash_im settings_path url_error st).
  Notation ystep := (ystep path_str M topo H heqb hash_im debug_im st to_toml to_json yaml_done style may_load enc dec dig lim first).
  Notation happened := (happened path_str M topo H heqb hash_im debug_im st to_toml to_json yaml_done style may_load enc dec dig lim first).
  Notation serves := (serves _ _ _ _ _ (call_read M H may_load) (call_modify path_str M topo H heqb hash_im debug_im st may_load)
    (call_goes path_str M H st to_toml to_json yaml_done style) (call_ended M H)).
  Notation pages := (y_pages M H).
  Notation wire := (wire M H enc).
  Notation told := (told M H enc).

  (** The project a page is sent is the one the server had when it answered, and it answered after
      the page was last told anything: what a page shows never goes back. *)
  Theorem C94_fresh : forall d0 p0 l y k r j p y' c' q',
    happened d0 p0 l y -> ystep y (LArrive k r (MProject j p)) y' -> nth_error (pages y') k = Some (c', q') ->
    c_project c' = p /\
    exists l1 y1 x y2 l2, l = l1 ++ (y1, LServe k r (AProject x), y2) :: l2 /\ in_no (told_to k) l1 /\
      p = wire (snd x) /\ y_project _ _ y2 = x.
  Proof.
    intros d0 p0 l y k r j p y' c' q' Hh S G. inversion S as [| | | |g n b b' d x0 z k' r' m c q q2 c1 sent Gi Up| |]; subst. cbn [y_pages] in G. erewrite set_same in G by eauto. injection G as -> <-.
    split; [cbn [update] in Up; now apply update_shown in Up as [-> _]|].
    assert (I : In (k, r, MProject j p) (y_back M H (mkSys M H g n (b ++ (k, r, MProject j p) :: b') d x0 z))) by (cbn; apply in_elt).
    assert (Nr : r <> RInitial).
    { intros ->. destruct (back_inv path_str M topo H heqb hash_im debug_im st to_toml to_json yaml_done style may_load enc dec dig lim first _ _ _ _ Hh k RInitial (MProject j p) I) as [[_ X]|(y0 & a & y1 & _ & T)]; [discriminate X|]. destruct a; discriminate T. }
    destruct (answered_since path_str M topo H heqb hash_im debug_im st to_toml to_json yaml_done style may_load enc dec dig lim first _ _ _ _ _ _ _ _ _ _ Hh I Nr Gi) as (l1 & y1 & a & y2 & l2 & E & T & No).
    destruct a as [x|e| |]; destruct r as [|i f|i ops]; cbn in T; try discriminate T; injection T as _ <-; exists l1, y1, x, y2, l2; (split; [exact E|]; split; [exact No|]; split; [reflexivity|]).
    - assert (St : ystep y1 (LServe k (RRead i f) (AProject x)) y2) by (eapply happened_step; [exact Hh|]; rewrite E; apply in_elt).
      inversion St as [| | |g1 n1 n2 b1 d1 p1 x1 k1 r1 qq a1 d' p' x' As Sv| | |]; subst. cbn [y_project]. remember (AProject x) as aa eqn:Ea. inversion Sv; subst; try discriminate; congruence.
    - assert (St : ystep y1 (LServe k (RModify i ops) (AProject x)) y2) by (eapply happened_step; [exact Hh|]; rewrite E; apply in_elt).
      inversion St as [| | |g1 n1 n2 b1 d1 p1 x1 k1 r1 qq a1 d' p' x' As Sv| | |]; subst. cbn [y_project]. remember (AProject x) as aa eqn:Ea. inversion Sv; subst; try discriminate; congruence.
  Qed.

  (** Reading does not change the disk. *)
  Lemma read_disk d p x f a d' p' x' : serves (d, p, x) (QRead f) a (d', p', x') -> d' = d.
  Proof.
    assert (R : forall e r, reads _ _ _ _ (call_read M H may_load) (call_goes path_str M H st to_toml to_json yaml_done style) (call_ended M H) d e r -> e = d).
    { intros e r (j & j' & (z & _ & ->) & Go & _). remember (d, CLoaded M H (as_read M H z)) as u eqn:Eu. remember (e, j') as v eqn:Ev. destruct Go as [|y z0 S _]; [congruence|]. subst u. inversion S. }
    remember (QRead f) as q eqn:Eq. intros S. inversion S; subst; auto; try (eapply R; eauto; fail); discriminate.
  Qed.
  Lemma still_disk d0 p0 l y a z l2 : happened d0 p0 l y -> l = a ++ z :: l2 -> in_no touches_disk a -> y_disk _ _ y = y_disk _ _ (snd z).
  Proof.
    intros Hh. revert a. induction Hh as [|l y e y' Hh IH S]; intros a E No; [destruct a; discriminate E|].
    destruct a as [|u a]; cbn [app] in E; [injection E as <- <-; reflexivity|]. injection E as <- ->.
    assert (Y : y_disk _ _ y = y_disk _ _ (snd z)) by (apply (IH a eq_refl); intros u v w I; apply (No u v w); now right).
    rewrite <- Y. assert (Nt : ~ touches_disk e) by (eapply No; now left). destruct S; cbn [y_disk]; try reflexivity; [|destruct Nt; exact Logic.I].
    destruct r as [|j f|j ops]; [discriminate| |destruct Nt; exact Logic.I]. cbn [asked] in *. match goal with X : Some _ = Some _ |- _ => injection X as <- end. eapply read_disk; eauto.
  Qed.
  Lemma sync_sends (c c' : client H) sent : act heqb dig lim USync c = Ok (c', sent) -> c_static c = false -> c_task c = None -> sent = [RRead (c_next c) true].
  Proof. cbn [act update update_model]. intros E S T. apply ok_inj in E. unfold start_fetch_project in E. rewrite S, T in E. now injection E as _ <-. Qed.
  (** While a page waits, its request stays. *)
  Lemma keeps_waiting d0 p0 a z l2 y k r c : happened d0 p0 (a ++ z :: l2) y -> nth_error (pages (snd z)) k = Some (c, [r]) -> in_no (told_to k) a ->
    exists c', nth_error (pages y) k = Some (c', [r]).
  Proof.
    intros Hh. remember (a ++ z :: l2) as l eqn:El. revert a El. induction Hh as [|l y e y' Hh IH S]; intros a El G No; [destruct a; discriminate El|].
    destruct a as [|u a]; cbn [app] in El; [injection El as <- <-; eauto|]. injection El as <- ->.
    destruct (IH a eq_refl G) as [c1 G1]; [intros u v w I; apply (No u v w); now right|].
    assert (Nt : ~ told_to k e) by (eapply No; now left).
    assert (H' : happened d0 p0 ((y, e, y') :: a ++ z :: l2) y') by (econstructor; eauto).
    destruct (page_step path_str M topo H heqb hash_im debug_im st to_toml to_json yaml_done style may_load enc dec dig lim first _ _ _ _ _ _ _ _ Hh S G1) as [X|(ev & w' & Ae & Ws & X)]; [eauto|].
    remember (c1, [r]) as w0 eqn:Ew. destruct Ws as [c2 q2 u c2' sent E|c2 q2 q3 r2 m c2' sent A E].
    - injection Ew as -> ->. pose proof (page_one path_str M topo H heqb hash_im debug_im st to_toml to_json yaml_done style may_load enc dec dig lim first _ _ _ _ _ _ _ H' X) as One.
      exists c2'. rewrite X. destruct sent as [|s0 sent]; [reflexivity|]. exfalso. unfold tasks in One. destruct (c_task c2'); discriminate One.
    - exfalso. apply Nt. cbn [as_event] in Ae. destruct Ae as [-> |[-> _]]; reflexivity.
  Qed.

  (** Sync: if a page that waits for nothing is asked to synchronise, the next thing it is told is
      what loading gave of the disk as it was at a moment since then, which is still there if nothing
      has touched the disk since; or an error, because that disk could not be loaded, and then it
      shows what it showed before. *)
  Theorem C94_sync : forall d0 p0 l1 y3 y4 l2 y k c r m y' c1 q1 c' q',
    happened d0 p0 (l1 ++ (y3, LUser k USync, y4) :: l2) y ->
    nth_error (pages y3) k = Some (c, []) -> c_static c = false -> in_no (told_to k) l1 ->
    ystep y (LArrive k r m) y' -> nth_error (pages y) k = Some (c1, q1) -> nth_error (pages y') k = Some (c', q') ->
    exists a y1 ans y2 b, l1 = a ++ (y1, LServe k r ans, y2) :: b /\ y_disk _ _ y2 = y_disk _ _ y1 /\
      (in_no touches_disk a -> y_disk _ _ y' = y_disk _ _ y1) /\
      ((exists E n lo cl p, load_of E (y_disk _ _ y1) n lo (Ok (inl (cl, p))) /\ c_project c' = wire p /\ y_project _ _ y2 = (cl, p)) \/
       (exists E n lo cl, load_of E (y_disk _ _ y1) n lo (Ok (inr cl)) /\ c_project c' = c_project c1 /\ y_project _ _ y2 = y_project _ _ y1 /\ In (c_next c1) (c_logs c'))).
  Proof.
    intros d0 p0 l1 y3 y4 l2 y k c r m y' c1 q1 c' q' Hh G3 St No S G1 G'.
    assert (H3 : happened d0 p0 l2 y3) by (eapply happened_cut; [exact Hh|reflexivity]).
    assert (S3 : ystep y3 (LUser k USync) y4) by (eapply happened_step; [exact Hh|apply in_elt]).
    assert (T3 : c_task c = None) by (apply tasks_none; symmetry; exact (page_one path_str M topo H heqb hash_im debug_im st to_toml to_json yaml_done style may_load enc dec dig lim first _ _ _ _ _ _ _ H3 G3)).
    assert (G4 : exists c4, nth_error (pages y4) k = Some (c4, [RRead (c_next c) true])).
    { inversion S3 as [|g n b d p x i u ca qs cb sent Gi A| | | | |]; subst. cbn [y_pages] in *. rewrite Gi in G3. injection G3 as -> ->. apply (sync_sends _ _ _) in A; auto. subst sent. eexists. eapply set_same; eauto. }
    destruct G4 as [c4 G4].
    destruct (keeps_waiting d0 p0 l1 (y3, LUser k USync, y4) l2 y k _ c4 Hh G4 No) as [c5 G5]. rewrite G1 in G5. injection G5 as -> ->.
    inversion S as [| | | |g n b b' d x0 z k' r' m' ca q q2 cb sent Gi Up| |]; subst. cbn [y_pages] in G1, G'. pose proof (eq_trans (eq_sym Gi) G1) as Z. injection Z as -> Eq.
    assert (Er : r = RRead (c_next c) true) by (destruct q as [|z0 q]; [now injection Eq as -> _|injection Eq as _ Eq; destruct q; discriminate Eq]). subst r.
    erewrite set_same in G' by eauto. injection G' as -> <-.
    assert (I : In (k, RRead (c_next c) true, m) (y_back M H (mkSys M H g n (b ++ (k, RRead (c_next c) true, m) :: b') d x0 z))) by (cbn; apply in_elt).
    destruct (back_inv path_str M topo H heqb hash_im debug_im st to_toml to_json yaml_done style may_load enc dec dig lim first _ _ _ _ Hh k _ _ I) as [[X _]|(y1 & ans & y2 & Is & T)]; [discriminate X|].
    assert (Sz : ystep y1 (LServe k (RRead (c_next c) true) ans) y2) by (eapply happened_step; [exact Hh|exact Is]).
    destruct (in_split_two _ _ _ _ _ Is eq_refl) as [(a & b0 & -> & E)|Il].
    2:{ exfalso. apply in_split in Is as (u & v & E). assert (Hz : happened d0 p0 v y1) by (eapply happened_cut; [exact Hh|exact E]).
        destruct (served_number path_str M topo H heqb hash_im debug_im st to_toml to_json yaml_done style may_load enc dec dig lim first _ _ _ _ _ _ _ _ Hz Sz) as (w0 & j & G0 & Nj & L). cbn [numbered] in Nj. subst j.
        destruct Il as [X|X]; [congruence|]. pose proof (page_next path_str M topo H heqb hash_im debug_im st to_toml to_json yaml_done style may_load enc dec dig lim first _ _ _ _ _ _ H3 G3 _ _ _ _ X G0) as L'. cbn [fst] in L'. lia. }
    exists a, y1, ans, y2, b0. split; [reflexivity|].
    assert (Dk : in_no touches_disk a -> d = y_disk _ _ y2) by (intros Nd; exact (still_disk _ _ _ _ a (y1, LServe k (RRead (c_next c) true) ans, y2) _ Hh E Nd)).
    inversion Sz as [| | |g1 n1 n2 b1 d1 p1 x1 k1 r1 qq a1 d' p' x' As Sv| | |]; subst. cbn [y_disk y_project] in *. cbn [asked] in As. injection As as <-.
    pose proof (read_disk _ _ _ _ _ _ _ _ Sv) as ->. split; [reflexivity|]. split; [exact Dk|].
    assert (R : forall e r, reads _ _ _ _ (call_read M H may_load) (call_goes path_str M H st to_toml to_json yaml_done style) (call_ended M H) d1 e r -> exists z, may_load d1 z /\ r = as_read M H z).
    { intros e r (j & j' & (z1 & Ld & ->) & Go & En). exists z1. split; [exact Ld|]. remember (d1, CLoaded M H (as_read M H z1)) as u eqn:Eu. remember (e, j') as v eqn:Ev. destruct Go as [|u1 u2 S1 _]; [|subst u; inversion S1].
      rewrite Eu in Ev. injection Ev as <- <-. cbn in En. congruence. }
    remember (QRead (Some (Some true))) as qq eqn:Eqq.
    inversion Sv as [| |? ? f Hf| | |? ? ? q0 Rd|? ? ? e0 Rd|? ? ? r0 Rd Nk| | |]; subst; try discriminate.
    - exfalso. destruct Hf as [X|X]; congruence.
    - match goal with X : _ \/ _ \/ _ |- _ => destruct X as [X|[X|X]]; discriminate X end.
    - left. apply R in Rd as (z1 & (E1 & n0 & lo & _ & Ld) & Ez). destruct z1 as [[[cl p]|]| |]; try discriminate Ez. injection Ez as ->. cbn [told] in T. injection T as <-.
      exists E1, n0, lo, cl, p. split; [exact Ld|]. split; [|reflexivity]. cbn [update] in Up. now apply update_shown in Up as [-> _].
    - right. apply R in Rd as (z1 & (E1 & n0 & lo & _ & Ld) & Ez). destruct z1 as [[|cl]| |]; try discriminate Ez. cbn [told] in T. injection T as <-.
      exists E1, n0, lo, cl. split; [exact Ld|]. cbn [update update_model push_logs] in Up. injection Up as <- _. cbn. split; [reflexivity|]. split; [reflexivity|]. unfold is_insert. destruct (is_mem N.eqb (c_next c5) (c_logs c5)) eqn:Em; [|apply in_or_app; right; now left]. apply existsb_exists in Em as (z2 & I2 & E2). apply N.eqb_eq in E2. now subst z2.
  Qed.
End Theorems.
Print Assumptions C94_fresh.
Print Assumptions C94_sync.

(** The first of two pages saves; Sync on the second is pressed, answered and read, as the theorem
    asks for; then it shows what the first has saved. *)
Definition f_story : list cmd :=
  [KOpen VGraph] ++ i_show 0 ++ [KOpen VGraph] ++ i_show 1 ++ i_type 0 1 [FName (s "spc-C")] ++ [KUser 0 (USave 1); KNet 0; KBack 0].
Definition f_tail (y3 : option (sys exact_num art_im)) : bool :=
  match y3 with
  | Some y3 =>
      match i_cmd y3 (KUser 1 USync) with
      | Some (LUser 1 USync, y4) =>
          match i_cmd y4 (KNet 0) with
          | Some (LServe 1 _ (AProject _), y) =>
              match i_cmd y (KBack 0) with
              | Some (LArrive 1 _ _, y') => match nth_error (y_pages _ _ y3) 1 with Some (c, []) => negb (c_static c) | _ => false end
              | _ => false
              end
          | _ => false
          end
      | _ => false
      end
  | None => false
  end.
Example C94_example :
  shown_of (i_run (f_story ++ [KUser 1 USync]) i_begin) = [[s "REQ-a"; s "SPC-a"; s "spc-C"]; [s "REQ-a"; s "SPC-a"; s "SPC-a-b"]] /\
  shown_of (i_run (f_story ++ [KUser 1 USync; KNet 0; KBack 0]) i_begin) = [[s "REQ-a"; s "SPC-a"; s "spc-C"]; [s "REQ-a"; s "SPC-a"; s "spc-C"]] /\
  exists y3 y4 l2 r x y c r' m y', i_happened m_tree i_first ([(y4, LServe 1 r (AProject x), y)] ++ (y3, LUser 1 USync, y4) :: l2) y /\
    nth_error (y_pages _ _ y3) 1 = Some (c, []) /\ c_static c = false /\ in_no (told_to 1) [(y4, LServe 1 r (AProject x), y)] /\ i_step y (LArrive 1 r' m) y'.
Proof.
  split; [vm_compute; reflexivity|]. split; [vm_compute; reflexivity|].
  assert (F : f_tail (i_run f_story i_begin) = true) by (vm_compute; reflexivity). unfold f_tail in F.
  destruct (i_run f_story i_begin) as [y3|] eqn:E3; [|discriminate F]. destruct (i_run_ok m_tree i_first [] i_begin f_story y3 (hp_start _ _ _ _ _ _ _ _ _ _ _ _ _ _ _ _ _ _ _ _) E3) as [l2 H3]. rewrite app_nil_r in H3.
  destruct (i_cmd y3 (KUser 1 USync)) as [[[|[|[|]] []| | | | |] y4]|] eqn:E4; try discriminate F.
  destruct (i_cmd y4 (KNet 0)) as [[[| | |[|[|]] r [x| | |]| | |] y]|] eqn:E5; try discriminate F.
  destruct (i_cmd y (KBack 0)) as [[[| | | |[|[|]] r' m| |] y']|] eqn:E6; try discriminate F.
  destruct (nth_error (y_pages _ _ y3) 1) as [[c [|]]|] eqn:G3; try discriminate F.
  apply i_cmd_ok in E4, E5, E6.
  exists y3, y4, l2, r, x, y, c, r', m, y'. split.
  - cbn [app]. econstructor; [econstructor; [exact H3|exact E4]|exact E5].
  - split; [exact G3|]. split; [now destruct (c_static c)|]. split; [|exact E6]. intros u e v [I|[]]. injection I as <- <- <-. auto.
Qed.
