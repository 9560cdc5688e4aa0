(** A markdown artifact file stops its reader only for a name spelled with a long s. *)
From Coq Require Import Lia.
From Verif Require Import Base BaseFacts Regex Name SpecName NameFacts Expand SpecExpand ExpandFacts RawNames Artifact Stored Markdown SpecMarkdown LineFacts SpecMdFile MdFileFacts SpecJsonArt JsonPanicFacts.
Open Scope nat_scope.

Lemma names_panic v : names_de v = Panic -> exists z, (v = VStr z \/ exists zs, v = VSeq zs /\ In z zs) /\ longs_list z.
Proof.
  destruct v as [x|l]; cbn [names_de]; intros E; [exists x; split; auto; now apply expand_panic|].
  assert (X : exists z, In z l /\ longs_list z); [|destruct X as (z & I & L); exists z; split; eauto]. revert E. generalize (@nil name).
  induction l as [|x l IH]; intros out; cbn [names_de_seq]; [discriminate|]. intros E. apply bind_panic in E as [E|(a & _ & E)].
  - exists x. split; [now left|now apply expand_panic].
  - destruct (IH _ E) as (z & I & L). exists z. split; [now right|auto].
Qed.

Section Panic.
  Variable yaml : str -> option (option str * option names_val).
  Variable prefix : str.
  (** All lines of the file. *)
  Variable all : list str.
  Notation some_lines a := (forall l, In l a -> In l all).
  Local Definition cause : Prop :=
    (exists l y, In l all /\ header_line prefix l y /\ longs_name y) \/
    (exists a d v z, some_lines a /\ yaml (join [10%N] a) = Some (d, Some v) /\ (v = VStr z \/ exists zs, v = VSeq zs /\ In z zs) /\ longs_list z).
  Local Definition from_file (st : md) : Prop :=
    some_lines (md_other st) /\ forall x, md_at st = Some x -> exists a, x = join [10%N] a /\ some_lines a.

  Lemma insert_panic out n st : from_file st -> insert_from_parts yaml out n (md_at st) (md_other st) = Panic -> cause.
  Proof.
    intros [_ Fa]. unfold insert_from_parts. intros E. apply bind_panic in E as [E|(dp & _ & E)]; [|destruct (im_mem _ _ _); discriminate E].
    destruct (md_at st) as [x|]; [|discriminate E]. destruct (Fa x eq_refl) as (a & -> & Sa). destruct (yaml (join [10%N] a)) as [[d [v|]]|] eqn:Ey; try discriminate E.
    apply bind_panic in E as [E|(l & _ & E)]; [|discriminate E]. destruct (names_panic v E) as (z & V & L). right. exists a, d, v, z. auto.
  Qed.
  Lemma loop_panic ls : forall code st, some_lines ls -> from_file st -> (forall o acc, code = Some (o, acc) -> In o all /\ some_lines acc) ->
    match md_loop yaml prefix ls code st with Ok st' => from_file st' | Err => True | Panic => cause end.
  Proof.
    induction ls as [|l ls IH]; intros code st Sl Fs Fc; cbn [md_loop].
    - destruct code as [[o acc]|]; auto. destruct (Fc o acc eq_refl) as [Io _]. destruct Fs as [Fo Fa]. split; auto. cbn [md_other]. intros x Ix. apply in_app_or in Ix as [Ix|[<-|[]]]; auto.
    - assert (Il : In l all) by (apply Sl; now left). assert (Sl' : some_lines ls) by (intros x Ix; apply Sl; now right). pose proof Fs as [Fo Fa].
      assert (Add : forall a x, some_lines a -> In x all -> some_lines (a ++ [x])) by (intros a x Ha Hx y Iy; apply in_app_or in Iy as [Iy|[<-|[]]]; auto).
      destruct code as [[o acc]|].
      + destruct (Fc o acc eq_refl) as [Io Ia]. destruct (is_match_full code_end_re l).
        * apply IH; [exact Sl'| |discriminate]. split; [exact Fo|]. cbn [md_at]. intros x X. injection X as <-. exists acc. auto.
        * apply IH; auto. intros o' acc' X. injection X as <- <-. split; [exact Io|exact (Add _ _ Ia Il)].
      + destruct (header prefix l) as [x|] eqn:Eh.
        * destruct (match md_name st with Some n => insert_from_parts yaml (md_out st) n (md_at st) (md_other st) | None => Ok (md_out st) end) as [out| |] eqn:Ei; cbn [res_bind]; auto.
          2: { destruct (md_name st) as [n|]; [|discriminate Ei]. eapply insert_panic; eauto. }
          destruct (name_from_str x) as [n| |] eqn:En; cbn [res_bind]; auto.
          -- apply IH; [exact Sl'|split; [intros y []|discriminate]|discriminate].
          -- left. exists l, x. split; auto. split; [now apply header_iff|now apply name_panic].
        * destruct (is_match_full attrs_end_re l).
          -- destruct (match md_name st, md_at st with Some _, Some _ => true | _, _ => false end); auto. apply IH; [exact Sl'| |discriminate]. split; [intros y []|]. cbn [md_at]. intros x X. injection X as <-. exists (md_other st). auto.
          -- destruct (is_match_full attrs_code_re l).
             ++ destruct (match md_name st, md_at st with Some _, Some _ => true | _, _ => false end); auto. apply IH; auto. intros o acc X. injection X as <- <-. split; auto. intros y [].
             ++ apply IH; [exact Sl'| |discriminate]. split; [exact (Add _ _ Fo Il)|exact Fa].
  Qed.
End Panic.

Theorem md_panic yaml prefix x ls : lines_of x ls -> from_markdown yaml prefix x = Panic ->
  (exists l y, In l ls /\ header_line prefix l y /\ longs_name y) \/
  (exists a d v z, (forall l, In l a -> In l ls) /\ yaml (join [10%N] a) = Some (d, Some v) /\ (v = VStr z \/ exists zs, v = VSeq zs /\ In z zs) /\ longs_list z).
Proof.
  intros Lo. apply lines_buf in Lo. unfold from_markdown. rewrite Lo.
  assert (F0 : from_file ls (mkMd [] None None [])) by (split; [intros y []|discriminate]).
  pose proof (loop_panic yaml prefix ls ls None (mkMd [] None None []) (fun _ I => I) F0 ltac:(discriminate)) as X.
  destruct (md_loop yaml prefix ls None (mkMd [] None None [])) as [st| |]; cbn [res_bind]; [|discriminate|intros _; exact X].
  destruct (md_name st) as [n|]; [|discriminate]. intros E. exact (insert_panic yaml prefix ls _ _ _ X E).
Qed.
