From Coq Require Import Lia ZArith Permutation.
From Verif Require Import Base BaseFacts Name NameFacts Artifact Ids SpecIds.
Open Scope nat_scope.

(** ** UTF-8 is prefix free *)
Ltac dm c d := pose proof (N.div_mod c d ltac:(discriminate)); pose proof (N.mod_lt c d ltac:(discriminate)).
Lemma div3 c : (c / 4096 = c / 64 / 64)%N.
Proof. rewrite N.div_div by discriminate. reflexivity. Qed.
Lemma div4 c : (c / 262144 = c / 64 / 64 / 64)%N.
Proof. rewrite !N.div_div by discriminate. reflexivity. Qed.

Lemma cons_eq {A} (a b : A) l m : a :: l = b :: m -> a = b /\ l = m.
Proof. intros E. inversion E. auto. Qed.
Ltac cons_split := repeat match goal with H : _ :: _ = _ :: _ |- _ => apply cons_eq in H; destruct H end.
Lemma utf8_prefix c d x y : (c < 1114112)%N -> (d < 1114112)%N -> utf8 c ++ x = utf8 d ++ y -> c = d /\ x = y.
Proof.
  intros Hc Hd. unfold utf8. rewrite !div3, !div4.
  dm c 64%N. dm (c / 64)%N 64%N. dm (c / 64 / 64)%N 64%N.
  dm d 64%N. dm (d / 64)%N 64%N. dm (d / 64 / 64)%N 64%N.
  set (c1 := (c / 64)%N) in *. set (c2 := (c1 / 64)%N) in *. set (c3 := (c2 / 64)%N) in *.
  set (d1 := (d / 64)%N) in *. set (d2 := (d1 / 64)%N) in *. set (d3 := (d2 / 64)%N) in *.
  set (cm := (c mod 64)%N) in *. set (cm1 := (c1 mod 64)%N) in *. set (cm2 := (c2 mod 64)%N) in *.
  set (dm0 := (d mod 64)%N) in *. set (dm1 := (d1 mod 64)%N) in *. set (dm2 := (d2 mod 64)%N) in *.
  assert (c3 < 5)%N by lia. assert (d3 < 5)%N by lia.
  clearbody c1 c2 c3 d1 d2 d3 cm cm1 cm2 dm0 dm1 dm2.
  destruct (N.ltb_spec c 128) as [C1|C1]; [|destruct (N.ltb_spec c 2048) as [C2|C2]; [|destruct (N.ltb_spec c 65536) as [C3|C3]]];
  (destruct (N.ltb_spec d 128) as [D1|D1]; [|destruct (N.ltb_spec d 2048) as [D2|D2]; [|destruct (N.ltb_spec d 65536) as [D3|D3]]]);
    cbn [app]; intros E; cons_split; try (exfalso; lia); (split; [lia|assumption]).
Qed.
Lemma utf8_nonempty c : exists b l, utf8 c = b :: l.
Proof. unfold utf8. repeat destruct (N.ltb _ _); eauto. Qed.
Lemma utf8_byte c : (c < 1114112)%N -> Forall (fun b => b < 248)%N (utf8 c).
Proof.
  intros Hc. unfold utf8. rewrite div3, div4.
  dm c 64%N. dm (c / 64)%N 64%N. dm (c / 64 / 64)%N 64%N.
  set (c1 := (c / 64)%N) in *. set (c2 := (c1 / 64)%N) in *. set (c3 := (c2 / 64)%N) in *.
  set (cm := (c mod 64)%N) in *. set (cm1 := (c1 mod 64)%N) in *. set (cm2 := (c2 mod 64)%N) in *.
  clearbody c1 c2 c3 cm cm1 cm2.
  destruct (N.ltb_spec c 128); [|destruct (N.ltb_spec c 2048); [|destruct (N.ltb_spec c 65536)]];
    repeat (apply Forall_cons; [lia|]); apply Forall_nil.
Qed.
Lemma utf8_length c : (length (utf8 c) <= 4)%nat.
Proof. unfold utf8. repeat destruct (N.ltb _ _); cbn; lia. Qed.
Lemma bytes_length x : (length (bytes_of x) <= 4 * length x)%nat.
Proof.
  unfold bytes_of. induction x as [|c x IH]; cbn [flat_map length]; [lia|].
  rewrite app_length. pose proof (utf8_length c). lia.
Qed.

Lemma bytes_lt x : is_text x -> Forall (fun b => b < 248)%N (bytes_of x).
Proof.
  intros Hx. unfold bytes_of. induction Hx as [|c x Hc _ IH]; cbn [flat_map]; [constructor|].
  apply Forall_app. split; [apply utf8_byte, Hc|apply IH].
Qed.
Lemma bytes_inj x y : is_text x -> is_text y -> bytes_of x = bytes_of y -> x = y.
Proof.
  intros Hx. revert y. unfold bytes_of. induction Hx as [|c x Hc _ IH]; intros y Hy.
  - destruct y as [|d y]; [reflexivity|]. cbn [flat_map]. destruct (utf8_nonempty d) as (b & l & ->). discriminate.
  - destruct Hy as [|d y Hd Hy]; cbn [flat_map].
    + destruct (utf8_nonempty c) as (b & l & ->). discriminate.
    + intros E. destruct (utf8_prefix _ _ _ _ Hc Hd E) as (-> & E'). f_equal. apply IH; assumption.
Qed.

Lemma cut_255 (l l' r r' : list N) : Forall (fun b => b < 248)%N l -> Forall (fun b => b < 248)%N l' ->
  l ++ 255%N :: r = l' ++ 255%N :: r' -> l = l' /\ r = r'.
Proof.
  intros Hl. revert l'. induction Hl as [|b l Hb _ IH]; intros l' Hl' E.
  - destruct Hl' as [|b' l' Hb' _]; cbn in E; [injection E; auto|]. injection E as E _. lia.
  - destruct Hl' as [|b' l' Hb' Hl']; cbn in E; [injection E as E _; lia|].
    injection E as -> E. destruct (IH _ Hl' E) as (-> & ->). auto.
Qed.
Lemma h_str_app x r : h_str x ++ r = bytes_of x ++ 255%N :: r.
Proof. unfold h_str. rewrite <- app_assoc. reflexivity. Qed.
Lemma h_str_prefix x y r r' : is_text x -> is_text y -> h_str x ++ r = h_str y ++ r' -> x = y /\ r = r'.
Proof.
  intros Hx Hy E. rewrite !h_str_app in E.
  destruct (cut_255 _ _ _ _ (bytes_lt _ Hx) (bytes_lt _ Hy) E) as (E' & ->). split; [apply bytes_inj; assumption|reflexivity].
Qed.
Lemma h_str_nonempty x r : h_str x ++ r <> [].
Proof. rewrite h_str_app. destruct (bytes_of x); discriminate. Qed.

Lemma le_length k n : length (le k n) = k.
Proof. revert n. induction k as [|k IH]; intros n; cbn [le length]; auto. Qed.
Lemma le_inj k n m : (n < 256 ^ N.of_nat k)%N -> (m < 256 ^ N.of_nat k)%N -> le k n = le k m -> n = m.
Proof.
  revert n m. induction k as [|k IH]; intros n m Hn Hm.
  - cbn in Hn, Hm. lia.
  - rewrite Nat2N.inj_succ, N.pow_succ_r' in Hn, Hm. cbn [le]. intros E. injection E as E1 E2.
    apply IH in E2.
    + rewrite (N.div_mod n 256), (N.div_mod m 256) by discriminate. congruence.
    + apply N.div_lt_upper_bound; [discriminate|assumption].
    + apply N.div_lt_upper_bound; [discriminate|assumption].
Qed.
Lemma app_split {A} (a b x y : list A) : length a = length b -> a ++ x = b ++ y -> a = b /\ x = y.
Proof.
  revert b. induction a as [|c a IH]; intros [|d b] Hl E; try discriminate; cbn in *; [auto|].
  injection E as -> E. destruct (IH b (ltac:(lia)) E) as (-> & ->). auto.
Qed.
Definition small (n : N) := (n < 256 ^ N.of_nat 8)%N.
Lemma h_num_prefix n m r r' : small n -> small m -> h_num n ++ r = h_num m ++ r' -> n = m /\ r = r'.
Proof.
  intros Hn Hm E. unfold h_num in E. apply app_split in E; [|rewrite !le_length; reflexivity].
  destruct E as (E & ->). split; [apply (le_inj 8); assumption|reflexivity].
Qed.
Lemma small_le n : (n < 256)%N -> small n.
Proof. unfold small. intros H. apply N.lt_le_trans with (1 := H). discriminate. Qed.
Lemma ty_small t : small (ty_disc t).
Proof. apply small_le. destruct t; reflexivity. Qed.

(** ** Paths *)
(** what can follow a path starts with a number below 3 *)
Definition tail_ok (r : list N) := exists n r', (n < 3)%N /\ r = h_num n ++ r'.
Lemma comp_len c : comp_ok c -> small (N.of_nat (length (bytes_of c))).
Proof.
  intros (_ & _ & _ & Hl). unfold small. pose proof (bytes_length c).
  apply N.le_lt_trans with (4 * N.of_nat (length c))%N; [lia|].
  apply N.lt_le_trans with (4 * 4611686018427387904)%N; [lia|]. discriminate.
Qed.
Lemma h_comp_cases c : comp_ok c ->
  (c = s ".." /\ h_comp c = h_num 3) \/
  (c <> s ".." /\ h_comp c = h_num 4 ++ h_num (N.of_nat (length (bytes_of c))) ++ bytes_of c).
Proof.
  intros (_ & H1 & H2 & _). unfold h_comp.
  destruct c as [|x c]; [congruence|]. cbn [is_nil orb].
  destruct (str_eqb (x :: c) (s ".")) eqn:E1; [apply str_eqb_eq in E1; congruence|].
  destruct (str_eqb (x :: c) (s "..")) eqn:E2.
  - left. apply str_eqb_eq in E2. auto.
  - right. split; [|reflexivity]. intros E. rewrite E in E2. vm_compute in E2. discriminate.
Qed.
Lemma comp_not_tail c r r' : comp_ok c -> tail_ok r' -> h_comp c ++ r <> r'.
Proof.
  intros Hc (n & r2 & Hn & ->) E.
  destruct (h_comp_cases c Hc) as [(_ & Ec)|(_ & Ec)]; rewrite Ec in E; rewrite <- ?app_assoc in E;
    apply h_num_prefix in E; try (apply small_le; lia); lia.
Qed.
Lemma comp_prefix c d r r' : comp_ok c -> comp_ok d -> h_comp c ++ r = h_comp d ++ r' -> c = d /\ r = r'.
Proof.
  intros Hc Hd E.
  destruct (h_comp_cases c Hc) as [(Xc & Ec)|(_ & Ec)], (h_comp_cases d Hd) as [(Xd & Ed)|(_ & Ed)];
    rewrite Ec, Ed in E; rewrite <- ?app_assoc in E; apply h_num_prefix in E; try (apply small_le; lia); destruct E as (En & E); try discriminate En.
  - split; [congruence|exact E].
  - apply h_num_prefix in E; try (apply comp_len; assumption). destruct E as (En' & E).
    apply app_split in E; [|lia]. destruct E as (E & ->). split; [|reflexivity].
    apply bytes_inj; [apply Hc|apply Hd|exact E].
Qed.
Lemma comps_prefix p q r r' : Forall comp_ok p -> Forall comp_ok q -> tail_ok r -> tail_ok r' ->
  flat_map h_comp p ++ r = flat_map h_comp q ++ r' -> p = q /\ r = r'.
Proof.
  intros Hp. revert q. induction Hp as [|c p Hc _ IH]; intros q Hq Hr Hr' E.
  - destruct Hq as [|d q Hd _]; [auto|]. cbn [flat_map] in E. rewrite <- app_assoc in E. exfalso.
    apply (comp_not_tail d (flat_map h_comp q ++ r') r Hd Hr). symmetry. exact E.
  - destruct Hq as [|d q Hd Hq]; cbn [flat_map] in E; rewrite <- !app_assoc in E.
    + exfalso. apply (comp_not_tail c _ _ Hc Hr' E).
    + destruct (comp_prefix _ _ _ _ Hc Hd E) as (-> & E'). destruct (IH q Hq Hr Hr' E') as (-> & ->). auto.
Qed.

(** ** The rest *)
Definition rest (ps : list name) (d : option str) (t : str) : list N := flat_map h_name ps ++ h_opt d ++ h_str t.
Definition done_ok (d : option str) : Prop := match d with Some x => is_text x | None => True end.
Lemma rest_tail ps d t : tail_ok (rest ps d t).
Proof.
  destruct ps as [|p ps].
  - destruct d as [x|]; [exists 1%N|exists 0%N]; eexists; (split; [reflexivity|]); unfold rest; cbn [flat_map app h_opt];
      rewrite <- ?app_assoc; reflexivity.
  - exists (ty_disc (n_ty p)). eexists. split; [destruct (n_ty p); reflexivity|].
    unfold rest, h_name. cbn [flat_map]. rewrite <- !app_assoc. reflexivity.
Qed.
Lemma rest_cons p ps d t : rest (p :: ps) d t = h_num (ty_disc (n_ty p)) ++ h_str (n_key p) ++ rest ps d t.
Proof. unfold rest, h_name. cbn [flat_map]. rewrite <- !app_assoc. reflexivity. Qed.
Lemma rest_none t : rest [] None t = h_num 0 ++ h_str t ++ [].
Proof. unfold rest. cbn [flat_map app h_opt]. rewrite app_nil_r. reflexivity. Qed.
Lemma rest_some x t : rest [] (Some x) t = h_num 1 ++ h_str x ++ h_str t.
Proof. unfold rest. cbn [flat_map app h_opt]. rewrite <- app_assoc. reflexivity. Qed.
Lemma rest_nonempty ps d t : rest ps d t <> [].
Proof. destruct (rest_tail ps d t) as (n & r & _ & ->). discriminate. Qed.

Definition ascii_num (n : N) : str := n :: repeat 0%N 7.
Lemma h_num_text n x r : (n < 128)%N -> h_num n ++ h_str x ++ r = h_str (ascii_num n ++ x) ++ r.
Proof.
  intros Hn. rewrite !h_str_app. unfold bytes_of. rewrite flat_map_app. unfold ascii_num. cbn [flat_map repeat].
  assert (E : utf8 n = [n]). { unfold utf8. apply N.ltb_lt in Hn. rewrite Hn. reflexivity. }
  assert (E2 : h_num n = n :: repeat 0%N 7).
  { unfold h_num. cbn [le]. rewrite N.mod_small by lia. rewrite N.div_small by lia. reflexivity. }
  rewrite E, E2. reflexivity.
Qed.
Lemma is_text_num n x : (n < 128)%N -> is_text x -> is_text (ascii_num n ++ x).
Proof. intros Hn Hx. unfold is_text, ascii_num. cbn. repeat (apply Forall_cons; [lia|]). exact Hx. Qed.

(** A stream that is one text: only a link-less artifact without done. *)
Lemma rest_text ps d t x : Forall (fun n => is_text (n_key n)) ps -> done_ok d -> is_text t -> is_text x ->
  h_str x = rest ps d t -> ps = [] /\ d = None /\ x = ascii_num 0 ++ t.
Proof.
  intros Hps Hd Ht Hx E. rewrite <- (app_nil_r (h_str x)) in E.
  destruct ps as [|p ps].
  - destruct d as [y|].
    + rewrite rest_some, h_num_text in E by lia.
      apply h_str_prefix in E; [|exact Hx|apply is_text_num; [lia|exact Hd]].
      destruct E as (_ & E). exfalso. apply (h_str_nonempty t []). rewrite app_nil_r. symmetry. exact E.
    + rewrite rest_none, h_num_text in E by lia.
      apply h_str_prefix in E; [|exact Hx|apply is_text_num; [lia|exact Ht]]. tauto.
  - rewrite rest_cons, h_num_text in E by (destruct (n_ty p); reflexivity).
    apply h_str_prefix in E; [|exact Hx|apply is_text_num; [destruct (n_ty p); reflexivity|inversion Hps; assumption]].
    destruct E as (_ & E). exfalso. apply (rest_nonempty ps d t). symmetry. exact E.
Qed.

Definition rest_same ps (d : option str) (t : str) ps' d' t' := map link_key ps = map link_key ps' /\ d = d' /\ t = t'.
Definition rest_traded ps (d : option str) (t : str) ps' d' t' := exists ls k, map link_key ps = ls ++ [(SPC, k)] /\ map link_key ps' = ls /\
  d = None /\ d' = Some k /\ t' = repeat 0%N 8 ++ t.
(** no links against some *)
Lemma rest_nil_cons d t q qs d' t' : done_ok d -> is_text t ->
  Forall (fun n => is_text (n_key n)) (q :: qs) -> done_ok d' -> is_text t' ->
  rest [] d t = rest (q :: qs) d' t' -> rest_traded (q :: qs) d' t' [] d t.
Proof.
  intros Hd Ht Hq Hd' Ht' E. rewrite rest_cons in E. pose proof (ty_small (n_ty q)) as Hs. inversion Hq as [|? ? Hk Hqs]; subst.
  destruct d as [x|].
  - rewrite rest_some in E. apply h_num_prefix in E; [|apply small_le; lia|exact Hs]. destruct E as (En & E).
    apply h_str_prefix in E; [|exact Hd|exact Hk]. destruct E as (-> & E).
    apply rest_text in E; try assumption. destruct E as (-> & -> & ->).
    exists [], (n_key q). unfold link_key. cbn [map app]. repeat split.
    destruct (n_ty q); try discriminate. reflexivity.
  - rewrite rest_none in E. apply h_num_prefix in E; [|apply small_le; lia|exact Hs]. destruct E as (En & E).
    apply h_str_prefix in E; [|exact Ht|exact Hk]. destruct E as (_ & E). exfalso.
    apply (rest_nonempty qs d' t'). symmetry. exact E.
Qed.
Lemma rest_eq ps d t ps' d' t' :
  Forall (fun n => is_text (n_key n)) ps -> done_ok d -> is_text t ->
  Forall (fun n => is_text (n_key n)) ps' -> done_ok d' -> is_text t' ->
  rest ps d t = rest ps' d' t' -> rest_same ps d t ps' d' t' \/ rest_traded ps d t ps' d' t' \/ rest_traded ps' d' t' ps d t.
Proof.
  intros Hps Hd Ht. revert ps'. induction Hps as [|p ps Hp Hps IH]; intros qs Hqs Hd' Ht' E.
  - destruct Hqs as [|q qs Hq Hqs].
    + left. split; [reflexivity|]. destruct d as [x|], d' as [x'|]; rewrite ?rest_some, ?rest_none in E.
      * apply h_num_prefix in E; try (apply small_le; lia). destruct E as (_ & E).
        apply h_str_prefix in E; try assumption. destruct E as (-> & E).
        rewrite <- (app_nil_r (h_str t)), <- (app_nil_r (h_str t')) in E.
        apply h_str_prefix in E; try assumption. destruct E as (-> & _). auto.
      * apply h_num_prefix in E; try (apply small_le; lia). destruct E as (En & _). discriminate.
      * apply h_num_prefix in E; try (apply small_le; lia). destruct E as (En & _). discriminate.
      * apply h_num_prefix in E; try (apply small_le; lia). destruct E as (_ & E).
        apply h_str_prefix in E; try assumption. destruct E as (-> & _). auto.
    + right. right. apply rest_nil_cons; auto.
  - destruct Hqs as [|q qs Hq Hqs].
    + right. left. apply rest_nil_cons; auto.
    + rewrite !rest_cons in E. apply h_num_prefix in E; try apply ty_small. destruct E as (En & E).
      apply h_str_prefix in E; try assumption. destruct E as (Ek & E).
      assert (Epq : link_key p = link_key q).
      { unfold link_key. rewrite Ek. destruct (n_ty p), (n_ty q); try discriminate; reflexivity. }
      destruct (IH _ Hqs Hd' Ht' E) as [(A & B & C)|[(ls & k & A & B & C)|(ls & k & A & B & C)]].
      * left. split; [cbn [map]; congruence|auto].
      * right. left. exists (link_key p :: ls), k. cbn [map app]. rewrite A, B, Epq. auto.
      * right. right. exists (link_key q :: ls), k. cbn [map app]. rewrite A, B, Epq. auto.
Qed.

Lemma rest_links ps ps' d t : map link_key ps = map link_key ps' -> rest ps d t = rest ps' d t.
Proof.
  intros E. unfold rest. f_equal.
  assert (G : forall l, flat_map h_name l = flat_map (fun k : ty * str => h_num (ty_disc (fst k)) ++ h_str (snd k)) (map link_key l)).
  { induction l as [|n l IH]; [reflexivity|]. cbn [flat_map map]. rewrite IH. reflexivity. }
  rewrite !G, E. reflexivity.
Qed.
Lemma rest_trade ps d t ps' d' t' : rest_traded ps d t ps' d' t' -> rest ps d t = rest ps' d' t'.
Proof.
  intros (ls & k & A & B & -> & -> & ->).
  destruct (rev ps) as [|p pl] eqn:Er.
  - apply (f_equal (@rev name)) in Er. rewrite rev_involutive in Er. subst ps. destruct ls; discriminate A.
  - apply (f_equal (@rev name)) in Er. rewrite rev_involutive in Er. cbn [rev] in Er. subst ps.
    rewrite map_app in A. cbn [map] in A. apply app_inj_tail in A. destruct A as (A & Ep).
    rewrite <- B in A. rewrite (rest_links ps' (rev pl)) by (symmetry; exact A).
    unfold rest. rewrite flat_map_app. cbn [flat_map]. rewrite app_nil_r, <- !app_assoc. f_equal.
    unfold link_key in Ep. injection Ep as Et Ek. unfold h_name. rewrite Et, Ek. cbn [ty_disc h_opt]. rewrite <- !app_assoc. apply (f_equal (app (h_num 1))). apply (f_equal (app (h_str k))).
    rewrite <- (app_nil_r (h_str t)), h_num_text by lia. rewrite app_nil_r. reflexivity.
Qed.

Lemma h_im_eq a : h_im a = h_str (n_raw (im_name a)) ++ h_num 1 ++ flat_map h_comp (im_file a) ++ rest (im_partof a) (im_done a) (im_text a).
Proof. unfold h_im, h_path, rest. rewrite <- !app_assoc. reflexivity. Qed.

Lemma streams a b : im_text_ok a -> im_text_ok b ->
  (h_im a = h_im b <-> same_content a b \/ traded a b \/ traded b a).
Proof.
  intros Ha Hb. rewrite !h_im_eq. split.
  - intros E. apply h_str_prefix in E; [|apply Ha|apply Hb]. destruct E as (En & E).
    apply h_num_prefix in E; try (apply small_le; lia). destruct E as (_ & E).
    apply comps_prefix in E; [|apply Ha|apply Hb|apply rest_tail|apply rest_tail]. destruct E as (Ef & E).
    apply rest_eq in E; [|apply Ha|apply Ha|apply Ha|apply Hb|apply Hb|apply Hb].
    destruct E as [(A & B & C)|[E|E]].
    + left. repeat split; assumption.
    + right. left. split; [exact En|split; [exact Ef|exact E]].
    + right. right. split; [congruence|split; [congruence|exact E]].
  - intros [(En & Ef & El & Ed & Et)|[(En & Ef & E)|(En & Ef & E)]].
    + rewrite En, Ef, Ed, Et, (rest_links _ _ _ _ El). reflexivity.
    + rewrite En, Ef. rewrite (rest_trade _ _ _ _ _ _ E). reflexivity.
    + rewrite En, Ef. rewrite (rest_trade _ _ _ _ _ _ E). reflexivity.
Qed.

(** ** Base64 *)
Lemma b64_inverse v : (v < 64)%N -> b64_val (b64_char v) = Some v.
Proof.
  intros Hv. unfold b64_char.
  destruct (N.ltb_spec v 26); [|destruct (N.ltb_spec v 52); [|destruct (N.ltb_spec v 62); [|destruct (N.eqb_spec v 62)]]];
    unfold b64_val;
    repeat match goal with |- context [N.leb ?a ?b] => destruct (N.leb_spec a b) end;
    repeat match goal with |- context [N.eqb ?a ?b] => destruct (N.eqb_spec a b) end;
    cbn [andb]; try lia; f_equal; lia.
Qed.
Lemma b64_val_char c v : b64_val c = Some v -> b64_char v = c /\ (v < 64)%N.
Proof.
  unfold b64_val.
  repeat match goal with |- context [N.leb ?a ?b] => destruct (N.leb_spec a b) end;
    repeat match goal with |- context [N.eqb ?a ?b] => destruct (N.eqb_spec a b) end;
    cbn [andb]; intros E; inversion E; subst; clear E; unfold b64_char;
    repeat match goal with |- context [N.ltb ?a ?b] => destruct (N.ltb_spec a b) end;
    repeat match goal with |- context [N.eqb ?a ?b] => destruct (N.eqb_spec a b) end; lia.
Qed.
Lemma values_map l : Forall (fun v => v < 64)%N l -> values (map b64_char l) = Some l.
Proof.
  intros Hl. induction Hl as [|v l Hv _ IH]; [reflexivity|]. cbn [map values]. rewrite b64_inverse, IH by exact Hv. reflexivity.
Qed.
Lemma values_inv x l : values x = Some l -> x = map b64_char l /\ Forall (fun v => v < 64)%N l.
Proof.
  revert l. induction x as [|c x IH]; intros l E; cbn [values] in E.
  - inversion E. split; [reflexivity|constructor].
  - destruct (b64_val c) eqn:Ec; [|discriminate]. destruct (values x) eqn:Ex; [|discriminate]. inversion E; subst.
    destruct (IH _ eq_refl) as (-> & H). apply b64_val_char in Ec. destruct Ec as (<- & Hv).
    split; [reflexivity|constructor; assumption].
Qed.

Lemma list3_ind {A} (P : list A -> Prop) : P [] -> (forall a, P [a]) -> (forall a b, P [a; b]) ->
  (forall a b c l, P l -> P (a :: b :: c :: l)) -> forall l, P l.
Proof.
  intros H0 H1 H2 H3. fix IH 1. intros [|a [|b [|c l]]]; [exact H0|apply H1|apply H2|apply H3, IH].
Qed.
Lemma list4_ind {A} (P : list A -> Prop) : P [] -> (forall a, P [a]) -> (forall a b, P [a; b]) -> (forall a b c, P [a; b; c]) ->
  (forall a b c d l, P l -> P (a :: b :: c :: d :: l)) -> forall l, P l.
Proof.
  intros H0 H1 H2 H3 H4. fix IH 1. intros [|a [|b [|c [|d l]]]]; [exact H0|apply H1|apply H2|apply H3|apply H4, IH].
Qed.
Ltac inv_all := repeat match goal with H : Forall _ (_ :: _) |- _ => inversion H; clear H; subst end.
Ltac dms := repeat match goal with
  | |- context [N.div ?a ?b] => lazymatch goal with _ : a = (b * (a / b) + a mod b)%N |- _ => fail | _ => dm a b end
  | |- context [N.modulo ?a ?b] => lazymatch goal with _ : a = (b * (a / b) + a mod b)%N |- _ => fail | _ => dm a b end
  end.
Ltac gen := repeat match goal with
  | _ : context [N.div ?a ?b] |- _ => let x := fresh "q" in set (x := (a / b)%N) in *; clearbody x
  | _ : context [N.modulo ?a ?b] |- _ => let x := fresh "m" in set (x := (a mod b)%N) in *; clearbody x
  end.
Lemma sextets_lt l : Forall is_byte l -> Forall (fun v => v < 64)%N (to_sextets l).
Proof.
  unfold is_byte. induction l as [|a|a b|a b c l IH] using list3_ind; intros Hl; inv_all; cbn [to_sextets].
  - constructor.
  - repeat (apply Forall_cons; [dms; gen; lia|]). constructor.
  - repeat (apply Forall_cons; [dms; gen; lia|]). constructor.
  - repeat (apply Forall_cons; [dms; gen; lia|]). auto.
Qed.
Lemma split16 p q : (q < 16 -> (p * 16 + q) / 16 = p /\ (p * 16 + q) mod 16 = q)%N.
Proof.
  intros Hq. assert (E : ((p * 16 + q) / 16 = p)%N) by (symmetry; apply N.div_unique with q; lia).
  split; [exact E|]. pose proof (N.div_mod (p * 16 + q) 16 ltac:(discriminate)). lia.
Qed.
Lemma split4 p q : (q < 4 -> (p * 4 + q) / 4 = p /\ (p * 4 + q) mod 4 = q)%N.
Proof.
  intros Hq. assert (E : ((p * 4 + q) / 4 = p)%N) by (symmetry; apply N.div_unique with q; lia).
  split; [exact E|]. pose proof (N.div_mod (p * 4 + q) 4 ltac:(discriminate)). lia.
Qed.
Lemma sextets_inverse strict l : Forall is_byte l -> of_sextets strict (to_sextets l) = Some l.
Proof.
  unfold is_byte. induction l as [|a|a b|a b c l IH] using list3_ind; intros Hl; inv_all; cbn [to_sextets of_sextets].
  - reflexivity.
  - dm a 4%N. replace (a mod 4 * 16)%N with (a mod 4 * 16 + 0)%N by lia.
    destruct (split16 (a mod 4) 0) as (-> & ->); [lia|]. cbn. rewrite andb_false_r. f_equal. f_equal. lia.
  - dm a 4%N. dm b 16%N. replace (b mod 16 * 4)%N with (b mod 16 * 4 + 0)%N by lia.
    assert (b / 16 < 16)%N by (apply N.div_lt_upper_bound; [discriminate|lia]).
    destruct (split16 (a mod 4) (b / 16)) as (-> & ->); [lia|]. destruct (split4 (b mod 16) 0) as (-> & ->); [lia|].
    cbn [N.eqb negb]. rewrite andb_false_r. f_equal. f_equal; [lia|f_equal; lia].
  - rewrite IH by assumption. dm a 4%N. dm b 16%N. dm c 64%N.
    assert (b / 16 < 16)%N by (apply N.div_lt_upper_bound; [discriminate|lia]).
    assert (c / 64 < 4)%N by (apply N.div_lt_upper_bound; [discriminate|lia]).
    destruct (split16 (a mod 4) (b / 16)) as (-> & ->); [lia|].
    destruct (split4 (b mod 16) (c / 64)) as (-> & ->); [lia|].
    do 2 f_equal; [lia|]. f_equal; [lia|]. f_equal. lia.
Qed.
Lemma decode_encode strict l : Forall is_byte l ->
  id_de strict (b64_encode l) = if Nat.leb (length l) 16 then Ok (l ++ repeat 0%N (16 - length l)) else Panic.
Proof.
  intros Hl. unfold id_de, b64_encode. rewrite values_map by (apply sextets_lt, Hl). rewrite sextets_inverse by exact Hl. reflexivity.
Qed.
Lemma decode_bytes strict l o : Forall (fun v => v < 64)%N l -> of_sextets strict l = Some o -> Forall is_byte o.
Proof.
  unfold is_byte. revert o. induction l as [|a|a b|a b c|a b c d l IH] using list4_ind; intros o Hl E; inv_all; cbn [of_sextets] in E.
  - inversion E. constructor.
  - discriminate.
  - destruct (_ && _); inversion E; subst. apply Forall_cons; [|constructor]. dms. gen. lia.
  - destruct (_ && _); inversion E; subst. repeat (apply Forall_cons; [dms; gen; lia|]). constructor.
  - destruct (of_sextets strict l) as [o'|] eqn:El; inversion E; subst. repeat (apply Forall_cons; [dms; gen; lia|]). apply IH; auto.
Qed.
(** [strict]: no two texts decode to the same bytes *)
Lemma encode_decode l o : Forall (fun v => v < 64)%N l -> of_sextets true l = Some o -> to_sextets o = l.
Proof.
  revert o. induction l as [|a|a b|a b c|a b c d l IH] using list4_ind; intros o Hl E; inv_all; cbn [of_sextets] in E.
  - inversion E. reflexivity.
  - discriminate.
  - cbn [andb] in E. destruct (N.eqb_spec (b mod 16) 0) as [E0|]; cbn [negb] in E; [|discriminate]. inversion E; subst.
    cbn [to_sextets]. dm b 16%N. assert (b / 16 < 4)%N by (apply N.div_lt_upper_bound; [discriminate|lia]).
    destruct (split4 a (b / 16)) as (-> & ->); [lia|]. f_equal. f_equal. lia.
  - cbn [andb] in E. destruct (N.eqb_spec (c mod 4) 0) as [E0|]; cbn [negb] in E; [|discriminate]. inversion E; subst.
    cbn [to_sextets]. dm b 16%N. dm c 4%N. assert (b / 16 < 4)%N by (apply N.div_lt_upper_bound; [discriminate|lia]).
    assert (c / 4 < 16)%N by (apply N.div_lt_upper_bound; [discriminate|lia]).
    destruct (split4 a (b / 16)) as (-> & ->); [lia|]. destruct (split16 (b mod 16) (c / 4)) as (-> & ->); [lia|].
    f_equal. f_equal; [lia|]. f_equal. lia.
  - destruct (of_sextets true l) as [o'|] eqn:El; inversion E; subst. cbn [to_sextets].
    dm b 16%N. dm c 4%N. assert (b / 16 < 4)%N by (apply N.div_lt_upper_bound; [discriminate|lia]).
    assert (c / 4 < 16)%N by (apply N.div_lt_upper_bound; [discriminate|lia]).
    destruct (split4 a (b / 16)) as (-> & ->); [lia|]. destruct (split16 (b mod 16) (c / 4)) as (-> & ->); [lia|].
    assert (E1 : ((c mod 4 * 64 + d) / 64 = c mod 4)%N) by (symmetry; apply N.div_unique with d; lia).
    assert (E2 : ((c mod 4 * 64 + d) mod 64 = d)%N) by (symmetry; apply N.mod_unique with (c mod 4)%N; lia).
    rewrite E1, E2. rewrite (IH o') by auto. f_equal. f_equal; [lia|]. f_equal. lia.
Qed.
Lemma decode_ok strict x h : id_de strict x = Ok h ->
  exists o, Forall is_byte o /\ length o <= 16 /\ h = o ++ repeat 0%N (16 - length o) /\ (strict = true -> x = b64_encode o).
Proof.
  unfold id_de. destruct (values x) as [l|] eqn:Ev; [|discriminate]. apply values_inv in Ev. destruct Ev as (-> & Hl).
  destruct (of_sextets strict l) as [o|] eqn:Eo; [|discriminate].
  destruct (Nat.leb_spec (length o) 16); [|discriminate]. intros E. inversion E; subst.
  exists o. split; [apply (decode_bytes strict l); assumption|]. split; [assumption|]. split; [reflexivity|].
  intros ->. unfold b64_encode. rewrite (encode_decode l o) by assumption. reflexivity.
Qed.
Lemma of_sextets_length strict l o : of_sextets strict l = Some o -> 4 * length o <= 3 * length l.
Proof.
  revert o. induction l as [|a|a b|a b c|a b c d l IH] using list4_ind; intros o E; cbn [of_sextets] in E.
  - injection E as <-. cbn; lia.
  - discriminate.
  - destruct (_ && _); [discriminate|]. injection E as <-. cbn; lia.
  - destruct (_ && _); [discriminate|]. injection E as <-. cbn; lia.
  - destruct (of_sextets strict l) as [o'|]; [|discriminate]. injection E as <-. specialize (IH o' eq_refl). cbn [length]. lia.
Qed.
Lemma sextets_length l : 3 * length (to_sextets l) <= 4 * length l + 2 /\ 4 * length l <= 3 * length (to_sextets l).
Proof. induction l as [|a|a b|a b c l IH] using list3_ind; cbn [to_sextets length]; lia. Qed.
Lemma char_safe v : (v < 64)%N -> url_safe (b64_char v).
Proof.
  intros Hv. unfold b64_char, url_safe.
  repeat match goal with |- context [N.ltb ?a ?b] => destruct (N.ltb_spec a b) end;
    repeat match goal with |- context [N.eqb ?a ?b] => destruct (N.eqb_spec a b) end; lia.
Qed.
