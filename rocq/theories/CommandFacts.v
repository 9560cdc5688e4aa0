(** Facts on the commands: what is written, what changes on the disk. *)
From Coq Require Import ZArith Lia.
From Verif Require Import Base BaseFacts Name Artifact Lint SpecLint Api Render SpecRender SpecExport ExportFacts DocFacts SpecCommands.
From Verif Require Import Disk DiskFacts Commands.
Open Scope nat_scope.

(** ** Sequences of texts *)
Definition cat (l : list (res str)) : res str := res_bind (res_map (fun x => x) l) (fun l => Ok (concat l)).
Definition glue (a b : res str) : res str := res_bind a (fun x => res_bind b (fun y => Ok (x ++ y))).

Lemma cat_cons r l : cat (r :: l) = glue r (cat l).
Proof. unfold cat, glue. cbn [res_map]. destruct r; cbn [res_bind]; auto. destruct (res_map (fun x => x) l); reflexivity. Qed.
Lemma cat_app a b : cat (a ++ b) = glue (cat a) (cat b).
Proof.
  induction a as [|r a IH]; cbn [app].
  - change (cat []) with (Ok (@nil N)). unfold glue. cbn [res_bind]. destruct (cat b); reflexivity.
  - rewrite !cat_cons, IH. unfold glue. destruct r; cbn [res_bind]; auto. destruct (cat a); cbn [res_bind]; auto. destruct (cat b); cbn [res_bind]; auto. now rewrite app_assoc.
Qed.
Lemma cat_one r : cat [r] = r.
Proof. rewrite cat_cons. unfold glue, cat. cbn. destruct r; cbn; auto. now rewrite app_nil_r. Qed.
Lemma cat_map {A} (f : A -> res str) l : cat (map f l) = res_bind (res_map f l) (fun l => Ok (concat l)).
Proof.
  induction l as [|a l IH]; [reflexivity|]. cbn [map]. rewrite cat_cons, IH. unfold glue. cbn [res_map]. destruct (f a); cbn [res_bind]; auto. destruct (res_map f l); reflexivity.
Qed.
Lemma cat_flat {A} (f : A -> list (res str)) l : cat (flat_map f l) = res_bind (res_map (fun a => cat (f a)) l) (fun l => Ok (concat l)).
Proof.
  induction l as [|a l IH]; [reflexivity|]. cbn [flat_map]. rewrite cat_app, IH. unfold glue. cbn [res_map]. destruct (cat (f a)); cbn [res_bind]; auto. destruct (res_map _ l); reflexivity.
Qed.

Lemma rmap_ext {A B} (f g : A -> res B) l : (forall a, f a = g a) -> res_map f l = res_map g l.
Proof. intros E. induction l as [|a l IH]; [reflexivity|]. cbn [res_map]. now rewrite E, IH. Qed.

Ltac cats := repeat first [rewrite cat_app | rewrite cat_cons | change (cat []) with (Ok (@nil N))].
Ltac crush := unfold glue; repeat (first [progress cbn [res_bind] | rewrite app_nil_r |
  match goal with |- context [res_bind ?x _] => lazymatch x with Ok _ => fail | _ => destruct x end end]); auto.

Section Writes.
  Context {M : num} {H : Type}.
  Variable reported : F M -> Z.
  Variable path_str : path -> str.
  Variable strfmt : str -> str -> str -> option str.
  Variable p : project M H.
  Variable base : str.
  Variable ms : md_settings.

  Lemma section_cat title l : cat (section_writes reported p title l) = family_section reported p title l.
  Proof.
    unfold section_writes, family_section. destruct l as [|n l]; [apply cat_one|]. rewrite cat_cons, cat_map. unfold glue. cbn [res_bind].
    destruct (res_map _ (n :: l)); cbn [res_bind]; auto. now rewrite <- !app_assoc.
  Qed.
  Lemma family_cat a : cat (family_writes reported p ms a) = art_to_markdown_family reported p ms a.
  Proof.
    unfold family_writes, art_to_markdown_family. destruct (ms_family ms).
    - rewrite cat_app, !section_cat. reflexivity.
    - cats. unfold glue. destruct (artifact_part_dot reported p a); cbn [res_bind]; auto. f_equal. repeat first [rewrite <- app_assoc | rewrite app_nil_r]. reflexivity.
  Qed.
  Lemma art_cat a : cat (art_writes reported path_str strfmt p base ms a) = art_to_markdown reported path_str strfmt p base ms a.
  Proof.
    unfold art_writes, art_to_markdown. cats. rewrite family_cat.
    destruct (art_to_markdown_family reported p ms a) as [fam| |]; unfold glue; cbn [res_bind]; auto.
    destruct (html_file_url strfmt base ms (path_str (a_file a))) as [file| |]; cbn [res_bind]; auto.
    set (im := match a_impl a with IDone d => Ok d | ICode (mkCode (Some c) _) => html_code_url strfmt base ms (path_str (loc_file c)) (loc_line c) | _ => Ok (s "<i>not implemented</i>") end).
    destruct im as [impl| |]; cbn [res_bind]; auto.
    destruct (replace_markdown reported path_str strfmt p base ms (n_raw (a_name a)) (a_text a)) as [x| |]; cbn [res_bind]; auto.
    f_equal. repeat first [rewrite <- app_assoc | rewrite app_nil_r | progress cbn [app]]. reflexivity.
  Qed.
  Lemma toc_cat : cat (toc_writes reported p ms) = to_markdown_toc reported p ms.
  Proof.
    unfold toc_writes, to_markdown_toc. rewrite cat_cons, cat_app, cat_map, cat_one. unfold glue. cbn [res_bind].
    destruct (res_map _ (pr_arts p)); cbn [res_bind]; auto. f_equal. repeat first [rewrite <- app_assoc | progress cbn [app]]. reflexivity.
  Qed.
  Lemma writes_cat ex : cat (md_writes reported path_str strfmt p base ms ex) = to_markdown reported path_str strfmt p base ms ex.
  Proof.
    unfold md_writes, to_markdown. rewrite !cat_app, cat_flat. rewrite (rmap_ext _ (fun e => art_to_markdown reported path_str strfmt p base ms (snd e))) by (intros e; apply art_cat).
    replace (cat (if ex_toc ex then toc_writes reported p ms else [])) with (if ex_toc ex then to_markdown_toc reported p ms else Ok []) by (destruct (ex_toc ex); [now rewrite toc_cat|reflexivity]).
    destruct (ex_header ex) as [h|]; [rewrite cat_one|change (cat []) with (Ok (@nil N))]; unfold glue; cbn [res_bind];
      destruct (if ex_toc ex then to_markdown_toc reported p ms else Ok []) as [toc| |]; cbn [res_bind]; auto; destruct (res_map _ (pr_arts p)); cbn [res_bind]; auto; now rewrite <- ?app_assoc.
  Qed.
End Writes.

(** ** What becomes of the writes *)
Lemma flow_done l : forall y, flow l 0 y <-> cat l = Ok y.
Proof.
  induction l as [|r l IH]; intros y.
  - change (cat []) with (Ok (@nil N)). split; intros E; [now inversion E|]. injection E as <-. constructor.
  - rewrite cat_cons. split; intros E.
    + inversion E; subst. match goal with X : flow l 0 _ |- _ => apply IH in X; rewrite X end. reflexivity.
    + unfold glue in E. destruct r as [x| |]; cbn [res_bind] in E; try discriminate E. destruct (cat l) as [z| |]; cbn [res_bind] in E; try discriminate E. injection E as <-. constructor. now apply IH.
Qed.
Lemma flow_status l st y : flow l st y -> st = 0 \/ st = 1 \/ st = 101.
Proof. induction 1; auto. Qed.
(** As far as the texts can be computed. *)
Fixpoint before (l : list (res str)) : str := match l with Ok x :: l' => x ++ before l' | _ => [] end.
Lemma flow_prefix l st y : flow l st y -> exists z, before l = y ++ z.
Proof.
  induction 1 as [| |x l st y F (z & IH)|x l k|r l N]; cbn [before].
  - now exists [].
  - now exists [].
  - exists z. rewrite IH. apply app_assoc.
  - exists (skipn k x ++ before l). rewrite app_assoc, firstn_skipn. reflexivity.
  - exists []. destruct r; auto. exfalso. eapply N. reflexivity.
Qed.
Lemma before_cat l o : cat l = Ok o -> before l = o.
Proof.
  revert o. induction l as [|r l IH]; intros o E; [now injection E|]. rewrite cat_cons in E. unfold glue in E. destruct r as [x| |]; cbn [res_bind] in E; try discriminate E.
  destruct (cat l) as [z| |] eqn:El; cbn [res_bind] in E; try discriminate E. injection E as <-. cbn [before]. now rewrite (IH z eq_refl).
Qed.
Lemma flow_panic l y : flow l 101 y -> (forall o, cat l <> Ok o) /\ y = before l.
Proof.
  intros F. remember 101 as st eqn:E. induction F as [| |x l st y F IH|x l k|r l N]; try discriminate E.
  - destruct (IH E) as [A ->]. split; auto. intros o X. rewrite cat_cons in X. unfold glue in X. cbn [res_bind] in X. destruct (cat l) as [z| |]; try discriminate X. now apply (A z).
  - split; [|destruct r; auto; exfalso; eapply N; reflexivity]. intros o X. rewrite cat_cons in X. destruct r; try discriminate X. eapply N. reflexivity.
Qed.
Lemma flow_stops l : (forall o, cat l <> Ok o) -> flow l 101 (before l).
Proof.
  induction l as [|r l IH]; intros N; [exfalso; now apply (N [])|]. destruct r as [x| |]; cbn [before].
  - constructor. apply IH. intros o E. apply (N (x ++ o)). rewrite cat_cons. unfold glue. cbn [res_bind]. now rewrite E.
  - apply fl_panic. discriminate.
  - apply fl_panic. discriminate.
Qed.

Lemma before_app a b x : cat a = Ok x -> before (a ++ b) = x ++ before b.
Proof.
  revert x. induction a as [|r a IH]; intros x E; [injection E as <-; reflexivity|]. rewrite cat_cons in E. unfold glue in E. destruct r as [y| |]; cbn [res_bind] in E; try discriminate E.
  destruct (cat a) as [z| |] eqn:Ea; cbn [res_bind] in E; try discriminate E. injection E as <-. cbn [app before]. now rewrite (IH z eq_refl), app_assoc.
Qed.
Section Stump.
  Context {M : num} {H : Type}.
  Variable reported : F M -> Z.
  Variable path_str : path -> str.
  Variable strfmt : str -> str -> str -> option str.
  Variable p : project M H.
  Variable base : str.
  Variable ms : md_settings.
  Hypothesis R : SpecExport.ready p.

  (** With a template that cannot be filled in, the writes stop at the first file. *)
  Lemma stump_before ex : bad_template strfmt ms -> pr_arts p <> [] -> stump reported p ms ex (before (md_writes reported path_str strfmt p base ms ex)).
  Proof.
    intros (u & U & B) N. destruct (toc_total reported p ms R) as (tc & Et & Ut).
    assert (He : forall e rest, pr_arts p = e :: rest -> exists family, art_to_markdown_family reported p ms (snd e) = Ok family /\ family_html reported p ms (snd e) family).
    { intros e rest E. destruct (ready_art p R e) as (W1 & W2 & W3); [rewrite E; now left|]. destruct (family_total reported p ms R (snd e) W1 W2 W3) as (fam & Ef & Uf). exists fam. split; auto. now apply Uf. }
    set (toc := if ex_toc ex then tc else []).
    assert (Ec : cat (match ex_header ex with Some h => [Ok (h ++ [c_nl])] | None => [] end ++ (if ex_toc ex then toc_writes reported p ms else [])) =
                 Ok (match ex_header ex with Some h => line h | None => [] end ++ toc)).
    { rewrite cat_app. replace (cat (if ex_toc ex then toc_writes reported p ms else [])) with (Ok toc) by (unfold toc; destruct (ex_toc ex); [now rewrite toc_cat|reflexivity]).
      destruct (ex_header ex); [rewrite cat_one|]; reflexivity. }
    unfold md_writes. rewrite app_assoc, (before_app _ _ _ Ec). destruct (pr_arts p) as [|e rest] eqn:Ea; [contradiction|]. destruct (He e rest eq_refl) as (fam & Ef & Hf).
    exists toc, e, rest, fam. split; [exact Ea|]. split; [exact Hf|]. split.
    { unfold toc. rewrite Ea. destruct (ex_toc ex); [now apply Ut|reflexivity]. }
    cbn [flat_map]. unfold art_writes.
    assert (Eh : cat ([Ok (ms_prefix ms ++ s "# " ++ n_raw (a_name (snd e)) ++ [c_nl]); Ok (details_begin (s "metadata"))] ++ family_writes reported p ms (snd e)) =
                 Ok ((ms_prefix ms ++ s "# " ++ n_raw (a_name (snd e)) ++ [c_nl]) ++ details_begin (s "metadata") ++ fam)).
    { rewrite cat_app, family_cat, Ef. cats. unfold glue. cbn [res_bind]. rewrite app_nil_r, <- !app_assoc. reflexivity. }
    assert (Hp : html_file_url strfmt base ms (path_str (a_file (snd e))) = Panic) by (unfold html_file_url, format_code_url_maybe, format_code_url; rewrite U, B; reflexivity).
    rewrite Hp. cbn [res_bind].
    match goal with |- context [before (([?a; ?b] ++ ?c ++ ?d) ++ ?x)] => replace (([a; b] ++ c ++ d) ++ x) with (([a; b] ++ c) ++ d ++ x) by (rewrite <- !app_assoc; reflexivity) end.
    rewrite (before_app _ _ _ Eh). cbn [app before]. unfold line, details_begin. rewrite app_nil_r. repeat first [rewrite <- app_assoc | progress cbn [app]]. reflexivity.
  Qed.
End Stump.

(** ** Unpacking *)
Definition inside (d q : path) : Prop := exists x, q = d ++ x.
Lemma put_fresh_dir t p : tree_ok t -> p <> [] -> lookup t p = None -> is_dir (lookup t (parent p)) = true ->
  tree_ok (put t p (Some (NDir []))) /\ (forall q, file_at (put t p (Some (NDir []))) q = file_at t q) /\
  (forall q, q <> p -> is_dir (lookup (put t p (Some (NDir []))) q) = is_dir (lookup t q)) /\ is_dir (lookup (put t p (Some (NDir []))) p) = true.
Proof.
  intros T N L D. assert (S : lookup (put t p (Some (NDir []))) p = Some (NDir [])) by now apply put_same.
  assert (B : forall x q, lookup (put t p (Some (NDir []))) (p ++ x :: q) = None) by (intros x q; rewrite lookup_app, S; reflexivity).
  assert (B' : forall x q, lookup t (p ++ x :: q) = None) by (intros x q; rewrite lookup_app, L; reflexivity).
  split; [apply put_ok; auto; intros c [= <-]; cbn; split; auto; constructor|]. split; [|split; [|now rewrite S]].
  - intros q. unfold file_at. destruct (path_prefix_dec p q) as [(x & ->)|A]; [destruct x as [|x y]; [rewrite app_nil_r, S, L; reflexivity|now rewrite B, B']|].
    destruct (path_prefix_dec q p) as [(x & Ex)|A']; [|now rewrite put_other].
    assert (X : x <> []) by (intros ->; rewrite app_nil_r in Ex; apply (A []); now rewrite app_nil_r).
    pose proof (put_above p (Some (NDir [])) t q x Ex X) as Q.
    assert (Dq : is_dir (lookup t q) = true).
    { destruct (exists_last X) as (x' & z & E). rewrite Ex, E in D. unfold parent in D. rewrite app_assoc, removelast_last in D.
      rewrite lookup_app in D. destruct (lookup t q) as [[c|l]|]; auto. destruct x'; auto. }
    rewrite Dq in Q. destruct (lookup t q) as [[c|l]|]; try discriminate Dq. destruct (lookup (put t p _) q) as [[c|l']|]; try discriminate Q. reflexivity.
  - intros q Nq. destruct (path_prefix_dec p q) as [(x & ->)|A]; [destruct x as [|x y]; [rewrite app_nil_r in Nq; contradiction|now rewrite B, B']|].
    destruct (path_prefix_dec q p) as [(x & Ex)|A']; [|now rewrite put_other].
    apply (put_above p _ t q x Ex). intros ->. rewrite app_nil_r in Ex. congruence.
Qed.

Lemma mkdir_spec t p t' : tree_ok t -> mkdir t p = Some t' ->
  tree_ok t' /\ (forall q, file_at t' q = file_at t q) /\ (forall q, q <> p -> is_dir (lookup t' q) = is_dir (lookup t q)) /\ is_dir (lookup t' p) = true.
Proof.
  intros T E. unfold mkdir in E. destruct (lookup t p) as [[c|l]|] eqn:L; try discriminate E.
  - injection E as <-. split; auto. split; auto. split; auto. now rewrite L.
  - destruct (is_dir (lookup t (parent p))) eqn:D; [|discriminate E]. injection E as <-. apply put_fresh_dir; auto. intros ->. discriminate L.
Qed.
Lemma mkdirs_spec q : forall t d t', tree_ok t -> mkdirs t d q = Some t' ->
  tree_ok t' /\ (forall r, file_at t' r = file_at t r) /\ (forall r, ~ inside d r -> is_dir (lookup t' r) = is_dir (lookup t r)) /\
  (is_dir (lookup t d) = true -> is_dir (lookup t' d) = true /\ is_dir (lookup t' (d ++ q)) = true).
Proof.
  induction q as [|x q IH]; intros t d t' T E; cbn [mkdirs] in E.
  - injection E as <-. split; auto. split; auto. split; auto. intros D. rewrite app_nil_r. auto.
  - destruct (mkdir t (d ++ [x])) as [t1|] eqn:E1; [|discriminate E]. apply mkdir_spec in E1 as (T1 & F1 & D1 & S1); auto. apply IH in E as (T2 & F2 & D2 & S2); auto.
    split; auto. split; [intros r; now rewrite F2, F1|]. rewrite <- app_assoc in S2. split.
    + intros r Nr. rewrite D2, D1; auto; [intros ->; apply Nr; now exists [x]|]. intros (y & ->). apply Nr. exists (x :: y). now rewrite <- app_assoc.
    + intros D. destruct (S2 S1) as [_ S]. split; auto. assert (K : forall y, d <> d ++ x :: y) by (intros y X; rewrite <- (app_nil_r d) in X at 1; apply app_inv_head in X; discriminate X).
      rewrite D2; [rewrite D1; auto|]. intros (y & X). rewrite <- app_assoc in X. exact (K _ X).
Qed.

(** One entry changes its own file only, and makes directories. *)
Definition only_in (d : path) (t t' : node) : Prop :=
  tree_ok t' /\ (forall q, ~ inside d q -> file_at t' q = file_at t q /\ is_dir (lookup t' q) = is_dir (lookup t q)).
Lemma only_refl d t : tree_ok t -> only_in d t t.
Proof. intros T. split; auto. Qed.
Lemma only_trans d t1 t2 t3 : only_in d t1 t2 -> only_in d t2 t3 -> only_in d t1 t3.
Proof. intros [_ A] [T B]. split; auto. intros q N. destruct (A q N) as [<- <-]. now apply B. Qed.
Lemma mkdirs_only t d q t' : tree_ok t -> mkdirs t d q = Some t' -> only_in d t t'.
Proof. intros T E. apply mkdirs_spec in E as (T' & F & D & _); auto. split; auto. Qed.
Lemma write_only t d q x t' : tree_ok t -> fs_write t (d ++ q) x = Some t' -> only_in d t t'.
Proof. intros T E. apply write_spec in E as (_ & F & T' & D); auto. split; auto. intros r N. split; [apply F; intros ->; apply N; now exists q|apply D]. Qed.
Lemma unpack_only t d e t' : tree_ok t -> unpack t d e = Some t' -> only_in d t t'.
Proof.
  intros T E. unfold unpack in E. destruct (mkdirs t d (removelast (fst e))) as [t1|] eqn:E1; [|discriminate E]. apply mkdirs_only in E1; auto. eapply only_trans; [exact E1|].
  destruct (snd e); [now apply write_only in E; [|apply E1]|]. apply mkdir_spec in E as (T' & F & D & _); [|apply E1]. split; auto. intros q N. split; auto. apply D. intros ->. apply N. now exists (fst e).
Qed.
Lemma part_only t d e t' : tree_ok t -> unpack_part t d e t' -> only_in d t t'.
Proof.
  intros T [(k & E)|(t1 & x & k & E1 & _ & E)]; [now apply mkdirs_only in E|]. apply mkdirs_only in E1; auto. eapply only_trans; [exact E1|]. apply write_only in E; auto. apply E1.
Qed.
Lemma unpacks_only d init t l st t' : unpacks d init t l st t' -> tree_ok t -> only_in d t t'.
Proof.
  induction 1 as [t e l st t1 t' E U IH|t e l t' E|t t' N E|t t' k N E|t]; intros T.
  - apply unpack_only in E; auto. eapply only_trans; [exact E|]. apply IH, E.
  - now apply part_only in E.
  - now apply write_only in E.
  - now apply write_only in E.
  - now apply only_refl.
Qed.
Lemma unpack_file t d e t' : tree_ok t -> unpack t d e = Some t' ->
  tree_ok t' /\ (forall q, q <> d ++ fst e \/ snd e = None -> file_at t' q = file_at t q) /\ (forall x, snd e = Some x -> file_at t' (d ++ fst e) = Some x).
Proof.
  intros T E. unfold unpack in E. destruct (mkdirs t d (removelast (fst e))) as [t1|] eqn:E1; [|discriminate E]. apply mkdirs_spec in E1 as (T1 & F1 & _); auto.
  destruct (snd e) as [x|].
  - apply write_spec in E as (W & F & T' & _); auto. split; auto. split; [|intros y [= <-]; auto]. intros q [N|N]; [now rewrite F, F1|discriminate N].
  - apply mkdir_spec in E as (T' & F & _); auto. split; auto. split; [intros q _; now rewrite F, F1|discriminate].
Qed.
Lemma unpacks_files d init t l t' : unpacks d init t l 0 t' -> tree_ok t ->
  file_at t' (d ++ [initial_json]) = Some init /\
  (forall q, (forall x, ~ In (q, Some x) l) -> q <> [initial_json] -> file_at t' (d ++ q) = file_at t (d ++ q)) /\
  (forall q x, NoDup (map fst l) -> In (q, Some x) l -> q <> [initial_json] -> file_at t' (d ++ q) = Some x).
Proof.
  intros U. remember 0 as st eqn:Es. induction U as [t e l st t1 t' E U IH|t e l t' E|t t' N E|t t' k N E|t]; intros T; try discriminate Es.
  - apply unpack_file in E as (T1 & F & W); auto. destruct (IH Es T1) as (I & O & A). split; auto. split.
    + intros q Nq Ni. rewrite (O q) by (auto; intros x Hx; apply (Nq x); now right). apply F. destruct e as [p [x|]]; cbn [fst snd]; auto. left. intros X. apply app_inv_head in X. subst. apply (Nq x). now left.
    + intros q x ND [->|Hin] Nq; cbn [map fst] in ND; inversion ND as [|? ? N1 N2]; subst; [|now apply A].
      rewrite (O q); [now apply (W x)| |auto]. intros y Hy. apply N1. apply (in_map fst) in Hy. exact Hy.
  - apply write_spec in E as (W & F & _); auto. split; auto. split; [intros q _ Nq; apply F; intros X; apply app_inv_head in X; contradiction|intros q x _ []].
Qed.
Lemma unpacks_initial d init t l t' : unpacks d init t l 0 t' -> tree_ok t -> (forall x, ~ In ([initial_json], Some x) l) -> file_at t (d ++ [initial_json]) <> None.
Proof.
  intros U. remember 0 as st eqn:Es. induction U as [t e l st t1 t' E U IH|t e l t' E|t t' N E|t t' k N E|t]; intros T NI; try discriminate Es; auto.
  apply unpack_file in E as (T1 & F & _); auto. rewrite <- (F (d ++ [initial_json])); [apply IH; auto; intros x Hx; apply (NI x); now right|].
  destruct e as [p [x|]]; cbn [fst snd]; auto. left. intros X. apply app_inv_head in X. subst. apply (NI x). now left.
Qed.
