(** Loading the project that [art init] makes. *)
From Coq Require Import Lia Permutation.
From Verif Require Import Base BaseFacts Regex Name SpecName NameFacts RawNames Artifact Stored Family GraphFacts BuildFacts SpecGraph SpecLinks LinkFacts ProjectFacts
  Markdown SpecMarkdown Lint SpecLint LintFacts LintThms Source SpecJoin Pool PoolFacts Load LoadFacts SpecLoad CheckFacts ReadThms
  Disk DiskFacts Walk SpecWalk WalkFacts ResolveFacts Settings Init InitFacts.

Definition purpose_text : str := s "The goal of this project is...".
Definition purpose_im (wd : path) : art_im := mkIm (mkName REQ (s "REQ-PURPOSE") (s "REQ-purpose")) (purpose_file wd) [] None purpose_text.

Lemma purpose_type wd : art_type_of (purpose_file wd) = Some TMd.
Proof. unfold art_type_of, extension, purpose_file. rewrite rev_app_distr. reflexivity. Qed.

Section Fresh.
  Variable path_str : path -> str.
  Variable yaml : str -> option (option str * option names_val).
  Variables parse_toml parse_json : str -> res (list (name * art_raw)).
  Variable parse_msg : path -> str -> str.
  Hypothesis toml_ok : parser_ok parse_toml.
  Hypothesis json_ok : parser_ok parse_json.
  Variable M : num.
  Variable topo : graph -> option (list nat).
  Hypothesis TC : topo_ok topo.
  Variable H : Type.
  Variable hash_im : art_im -> H.
  Variable wd : path.
  Notation loads := (loads path_str yaml parse_toml parse_json parse_msg [] M topo H hash_im (settings_file wd) None).

  Lemma load_purpose : load_file path_str yaml parse_toml parse_json parse_msg [] (mkAF (purpose_file wd) (inl init_purpose)) = mkJob [purpose_im wd] [] false.
  Proof. unfold load_file. cbn [af_path af_text]. rewrite purpose_type. unfold parse_artifacts. vm_compute. reflexivity. Qed.

  Lemma purpose_wf : Forall im_wf [purpose_im wd].
  Proof.
    pose proof (load_file_wf path_str yaml parse_toml parse_json parse_msg [] toml_ok json_ok (mkAF (purpose_file wd) (inl init_purpose))) as W.
    now rewrite load_purpose in W.
  Qed.

  Theorem fresh_loads n r : 0 < n -> loads n [inl (mkAF (purpose_file wd) (inl init_purpose))] [] r ->
    exists c p a, r = Ok (inl (c, p)) /\ ls_error c = [] /\ ls_other c = [] /\ pr_arts p = [(im_name (purpose_im wd), a)] /\
      a_name a = im_name (purpose_im wd) /\ a_text a = purpose_text /\ a_file a = purpose_file wd /\ a_partof a = [] /\ a_subnames a = [] /\ a_impl a = INot.
  Proof.
    intros Hn L. assert (E0 : exit_status r = 0).
    - assert (Wa : walk_lints_ok [@inl art_file lint (mkAF (purpose_file wd) (inl init_purpose))]) by (intros x [X|[]]; discriminate X).
      destruct (check_exact path_str yaml parse_toml parse_json parse_msg [] toml_ok json_ok M topo TC H hash_im (settings_file wd) None n _ [] r Wa ltac:(now intros x []) L)
        as (arts & refs & la & lc & out & Ra & Rc & B & S0 & _).
      apply run_all in Ra as [Pa Pl]; [|cbn [map art_items jobs_of flat_map app]; rewrite load_purpose; cbn; exact Hn].
      apply run_all in Rc as [Pc Pm]; [|cbn; lia]. unfold art_items in Pa, Pl. cbn [map jobs_of lints_of flat_map app] in Pa, Pl. rewrite load_purpose in Pa, Pl. cbn [jb_out jb_lints app] in Pa, Pl.
      apply Permutation_sym, Permutation_length_1_inv in Pa as ->. apply Permutation_sym, Permutation_nil in Pl as ->.
      cbn in Pc, Pm. apply Permutation_sym, Permutation_nil in Pc as ->. apply Permutation_sym, Permutation_nil in Pm as ->.
      apply S0. clear S0. assert (Ds : distinct [purpose_im wd]) by (constructor; [now intros []|constructor]).
      destruct (build_entry M topo H hash_im TC _ _ _ purpose_wf Ds B) as (gs & comp & _ & _ & E). cbn [map] in E.
      assert (In1 : forall n a, In (n, a) out -> a_text a = purpose_text /\ a_partof a = [] /\ a_impl a = INot).
      { intros m a. rewrite E. intros [X|[]]. injection X as <- <-. cbn [built a_text a_partof a_impl]. repeat split. }
      assert (Nb : forall (a : artifact M H) x y, a_text a = purpose_text -> ~ ref_in (a_text a) x y).
      { intros a x y -> (_ & _ & u & v & X). assert (I : In 91%N purpose_text) by (rewrite X; apply in_or_app; right; now left).
        revert I. vm_compute. intuition discriminate. }
      assert (Nl : forall l, In l (split_on 10%N purpose_text) -> hd_error l = Some 84%N).
      { intros l Hl. vm_compute in Hl. destruct Hl as [<-|[]]. reflexivity. }
      split; [|split; [|split; [|split; [|split]]]].
      + split; auto. split; auto. split; auto. intros i j (x & y & X). destruct X as (X & _). destruct i; discriminate X.
      + intros (m & a & x & y & Hin & Hr & _). apply In1 in Hin as (Ht & _). exact (Nb a x y Ht Hr).
      + intros m a Hin. apply In1 in Hin as (Ht & Hp & Hi). rewrite Hp, Hi, Ht. split; [intros q []|]. split; [intros (d & X); discriminate X|].
        intros l Hl. apply Nl in Hl. split.
        * intros x (p & w1 & w2 & X & F & _). inversion F; subst. discriminate Hl.
        * intros (k & w & -> & _). discriminate Hl.
      + reflexivity.
      + intros m a x y Hin Hr. apply In1 in Hin as (Ht & _). destruct (Nb a x y Ht Hr).
      + intros m sub loc X. exfalso. destruct X as (c & [] & _).
    - destruct L as (arts & refs & la & lc & arrived & Ra & Rc & P & ->).
      apply run_all in Ra as [Pa _]; [|cbn [map art_items jobs_of flat_map app]; rewrite load_purpose; cbn; exact Hn].
      unfold art_items in Pa. cbn [map jobs_of lints_of flat_map app] in Pa. rewrite load_purpose in Pa. cbn [jb_out app] in Pa.
      apply Permutation_sym, Permutation_length_1_inv in Pa as ->. unfold finish in *.
      destruct (negb (is_nil (ls_error (categorize no_lints arrived)))); [discriminate E0|].
      assert (Ds : distinct [purpose_im wd]) by (constructor; [now intros []|constructor]).
      destruct (build M topo H hash_im [purpose_im wd] (snd (join_locations refs))) as [out| |] eqn:B; cbn [res_bind] in *; try discriminate E0.
      destruct (lint_project path_str _) as [l| |]; cbn [res_bind] in *; try discriminate E0.
      destruct (build_entry M topo H hash_im TC _ _ _ purpose_wf Ds B) as (gs & comp & _ & _ & E). cbn [map] in E. subst out.
      apply run_all in Rc as [Pc _]; [|cbn; lia]. cbn in Pc. apply Permutation_sym, Permutation_nil in Pc as ->.
      set (c := sort_lints _) in *. do 3 eexists. split; [reflexivity|].
      unfold exit_status, check_status in E0. unfold lints_empty in E0. destruct (ls_error c); [|discriminate E0]. destruct (ls_other c); [|discriminate E0].
      split; auto. split; auto. split; [reflexivity|]. repeat split.
  Qed.
End Fresh.
