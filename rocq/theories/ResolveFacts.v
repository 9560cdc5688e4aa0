(** Configured paths are taken relative to the project directory. *)
From Coq Require Import Lia ZifyBool.
From Verif Require Import Base BaseFacts Artifact Load Disk Walk SpecWalk.

Lemma trim_str_rep k x fuel : k <= fuel -> starts_with x (s "{repo}") = false -> trim_str fuel (s "{repo}") (concat (repeat (s "{repo}") k) ++ x) = x.
Proof.
  intros L N. revert fuel L. induction k as [|k IH]; intros fuel L; cbn [repeat concat app].
  - destruct fuel; cbn [trim_str]; auto. now rewrite N.
  - destruct fuel as [|fuel]; [lia|]. cbn [trim_str].
    rewrite <- app_assoc. rewrite (proj2 (starts_with_iff _ _)) by (eexists; reflexivity).
    rewrite skipn_app, skipn_all, Nat.sub_diag. apply IH. lia.
Qed.
Lemma drop_rep c m x : (forall y, x <> c :: y) -> drop_while (N.eqb c) (repeat c m ++ x) = x.
Proof.
  intros N. induction m as [|m IH]; cbn [repeat app drop_while].
  - destruct x as [|d x]; auto. cbn [drop_while]. destruct (N.eqb c d) eqn:E; auto. apply N.eqb_eq in E as ->. exfalso. now apply (N x).
  - now rewrite N.eqb_refl.
Qed.
Lemma concat_len k : length (concat (repeat (s "{repo}") k)) = 6 * k.
Proof. induction k as [|k IH]; auto. cbn [repeat concat]. rewrite app_length, IH. change (length (s "{repo}")) with 6. lia. Qed.

Theorem resolve_leading base k m x : (forall y, x <> 47%N :: y) -> (m = 0 -> starts_with x (s "{repo}") = false) ->
  resolve_path base (concat (repeat (s "{repo}") k) ++ repeat 47%N m ++ x) =
  match concat_path base (split_on 47%N x) with Some q => Ok q | None => Panic end.
Proof.
  intros Nx Nm. unfold resolve_path, trim_char. rewrite trim_str_rep.
  - rewrite drop_rep by auto. reflexivity.
  - rewrite app_length, concat_len. lia.
  - destruct m as [|m]; cbn [repeat app]; auto.
Qed.

Lemma concat_down cs : forall base, ups cs = 0 -> concat_path base cs = Some (base ++ filter goes_down cs).
Proof.
  induction cs as [|c cs IH]; intros base U; cbn [concat_path filter]; [now rewrite app_nil_r|]. unfold ups in U. cbn [filter] in U. unfold goes_up in U at 1. unfold goes_down at 1.
  destruct (str_eqb c (s "..")) eqn:E; [discriminate U|]. rewrite Bool.orb_false_r. destruct (is_nil c || str_eqb c (s ".")); cbn [negb]; rewrite IH by exact U; auto.
  now rewrite <- app_assoc.
Qed.

Lemma updown c : goes_up c = true -> goes_down c = false.
Proof. unfold goes_up, goes_down. intros ->. now rewrite Bool.orb_true_r. Qed.

Lemma concat_step base c cs : concat_path base (c :: cs) =
  if goes_up c then match base with [] => None | _ => concat_path (removelast base) cs end
  else if goes_down c then concat_path (base ++ [c]) cs else concat_path base cs.
Proof.
  cbn [concat_path]. unfold goes_up, goes_down. destruct (str_eqb c (s "..")) eqn:E.
  - apply str_eqb_eq in E as ->. reflexivity.
  - rewrite Bool.orb_false_r. destruct (is_nil c || str_eqb c (s ".")); reflexivity.
Qed.

Theorem concat_none cs : forall base, concat_path base cs = None <-> exists a b, cs = a ++ b /\ ups a > length base + downs a.
Proof.
  induction cs as [|c cs IH]; intros base.
  - cbn [concat_path]. split; [discriminate|]. intros (a & b & E & L). symmetry in E. apply app_eq_nil in E as [-> _]. cbn in L. lia.
  - rewrite concat_step. assert (U : forall d a, ups (d :: a) = (if goes_up d then 1 else 0) + ups a) by (intros d a; unfold ups; cbn [filter]; now destruct (goes_up d)).
    assert (D : forall d a, downs (d :: a) = (if goes_down d then 1 else 0) + downs a) by (intros d a; unfold downs; cbn [filter]; now destruct (goes_down d)).
    destruct (goes_up c) eqn:Gu.
    + destruct base as [|x base].
      * split; auto. intros _. exists [c], cs. split; auto. rewrite U, D, Gu, (updown c Gu). cbn. lia.
      * assert (L : length (removelast (x :: base)) + 1 = length (x :: base)).
        { rewrite (app_removelast_last (l := x :: base) [] ltac:(discriminate)) at 2. rewrite app_length. reflexivity. }
        rewrite IH. split.
        -- intros (a & b & -> & G). exists (c :: a), b. split; auto. rewrite U, D, Gu, (updown c Gu). lia.
        -- intros (a & b & E & G). destruct a as [|d a]; [cbn in G; lia|]. injection E as <- ->. exists a, b. split; auto. rewrite U, D, Gu, (updown c Gu) in G. lia.
    + destruct (goes_down c) eqn:Gd; rewrite IH; split.
      * intros (a & b & -> & G). exists (c :: a), b. split; auto. rewrite app_length in G. cbn [length] in G. rewrite U, D, Gu, Gd. lia.
      * intros (a & b & E & G). destruct a as [|d a]; [cbn in G; lia|]. injection E as <- ->. exists a, b. split; auto. rewrite U, D, Gu, Gd in G. rewrite app_length. cbn [length]. lia.
      * intros (a & b & -> & G). exists (c :: a), b. split; auto. rewrite U, D, Gu, Gd. lia.
      * intros (a & b & E & G). destruct a as [|d a]; [cbn in G; lia|]. injection E as <- ->. exists a, b. split; auto. rewrite U, D, Gu, Gd in G. lia.
Qed.

Theorem concat_inside cs : forall base q, (forall a b, cs = a ++ b -> ups a <= downs a) -> concat_path base cs = Some q -> exists r, q = base ++ r.
Proof.
  assert (G : forall cs ext base q, (forall a b, cs = a ++ b -> ups a <= length ext + downs a) -> concat_path (base ++ ext) cs = Some q -> exists r, q = base ++ r).
  { clear cs. induction cs as [|c cs IH]; intros ext base q H E.
    - cbn [concat_path] in E. injection E as <-. now exists ext.
    - rewrite concat_step in E.
      assert (U : forall d a, ups (d :: a) = (if goes_up d then 1 else 0) + ups a) by (intros d a; unfold ups; cbn [filter]; now destruct (goes_up d)).
      assert (D : forall d a, downs (d :: a) = (if goes_down d then 1 else 0) + downs a) by (intros d a; unfold downs; cbn [filter]; now destruct (goes_down d)).
      destruct (goes_up c) eqn:Gu.
      + pose proof (H [c] cs eq_refl) as H1. rewrite U, D, Gu, (updown c Gu) in H1. cbn in H1.
        destruct ext as [|x ext] using rev_ind; [cbn in H1; lia|]. rewrite app_assoc in E. rewrite removelast_last in E.
        destruct ((base ++ ext) ++ [x]) eqn:X; [destruct (base ++ ext); discriminate X|]. apply (IH ext base q); auto.
        intros a b ->. specialize (H (c :: a) b eq_refl). rewrite U, D, Gu, (updown c Gu), app_length in H. cbn [length] in H. lia.
      + destruct (goes_down c) eqn:Gd.
        * rewrite <- app_assoc in E. apply (IH (ext ++ [c]) base q); auto. intros a b ->. specialize (H (c :: a) b eq_refl). rewrite U, D, Gu, Gd in H. rewrite app_length. cbn [length]. lia.
        * apply (IH ext base q); auto. intros a b ->. specialize (H (c :: a) b eq_refl). rewrite U, D, Gu, Gd in H. lia. }
  intros base q H E. apply (G cs [] base q); [exact H|]. now rewrite app_nil_r.
Qed.
