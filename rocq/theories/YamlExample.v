(** A codec that meets [yaml_ok], so that the hypothesis of the round trip is not empty: the
    subset of YAML that is written, double-quoted strings and block lists. *)
From Coq Require Import Lia ZifyBool.
From Verif Require Import Base BaseFacts Regex RegexFacts Name SpecName NameFacts RawNames Artifact LinkFacts Markdown SpecMarkdown LineFacts MarkdownFacts.

Fixpoint esc (d : str) : str :=
  match d with
  | [] => []
  | c :: d' => (if N.eqb c 10 then [92; 110] else if N.eqb c 92 then [92; 92] else if N.eqb c 34 then [92; 34] else [c])%N ++ esc d'
  end.
Definition ex_yaml_done (d : str) : str := s "done: """ ++ esc d ++ [34%N].

Fixpoint unesc (x : str) : option str :=
  match x with
  | [] => None
  | [c] => if N.eqb c 34 then Some [] else None
  | c :: ((e :: x'') as x') =>
      if N.eqb c 92
      then if N.eqb e 110 then option_map (cons 10%N) (unesc x'') else option_map (cons e) (unesc x'')
      else option_map (cons c) (unesc x')
  end.
Fixpoint items (ls : list str) : option (list str) :=
  match ls with
  | [] => Some []
  | l :: ls' => match l, items ls' with
                | c :: d :: x, Some r => if (N.eqb c 45 && N.eqb d 32)%bool then Some (x :: r) else None
                | _, _ => None
                end
  end.
Definition ex_partof (ls : list str) : option names_val :=
  match ls with
  | [] => None
  | l :: ls' => if str_eqb l (s "partof:") then option_map VSeq (items ls')
                else if starts_with l (s "partof: ") then Some (VStr (skipn 8 l)) else None
  end.
Definition ex_yaml (x : str) : option (option str * option names_val) :=
  match split_on 10%N x with
  | [] => None
  | l :: ls =>
      if starts_with l (s "done: """) then
        match unesc (skipn 7 l) with
        | None => None
        | Some d => match ls with
                    | [] => Some (Some d, None)
                    | _ :: ls' => option_map (fun v => (Some d, Some v)) (ex_partof ls')
                    end
        end
      else option_map (fun v => (None, Some v)) (ex_partof (l :: ls))
  end.

Lemma unesc_esc d : unesc (esc d ++ [34%N]) = Some d.
Proof.
  induction d as [|c d IH]; [reflexivity|]. simpl esc.
  destruct (N.eqb_spec c 10) as [->|]; [simpl; now rewrite IH|].
  destruct (N.eqb_spec c 92) as [->|]; [simpl; now rewrite IH|].
  destruct (N.eqb_spec c 34) as [->|]; [simpl; now rewrite IH|].
  cbn [app]. destruct (esc d ++ [34%N]) as [|e r] eqn:E; [destruct (esc d); discriminate|].
  cbn [unesc]. destruct (N.eqb_spec c 92); [congruence|]. cbn [unesc] in IH. rewrite IH. reflexivity.
Qed.

Lemma esc_nl d : ~ In 10%N (esc d).
Proof.
  induction d as [|c d IH]; simpl; [auto|]. rewrite in_app_iff. intros [X|X]; auto.
  destruct (N.eqb_spec c 10); [simpl in X; intuition discriminate|].
  destruct (N.eqb_spec c 92); [simpl in X; intuition discriminate|].
  destruct (N.eqb_spec c 34); [simpl in X; intuition discriminate|]. destruct X as [X|[]]. congruence.
Qed.

Lemma items_map l : items (map (fun x => s "- " ++ x) l) = Some l.
Proof. induction l as [|x l IH]; [reflexivity|]. cbn [map items app]. rewrite IH. reflexivity. Qed.

Lemma valid_no_nl x : valid_name x -> ~ In 10%N x.
Proof.
  intros H Hin. assert (L : lang re_name x) by (apply lang_name_words; auto). apply name_re_chars in L as [_ L].
  rewrite Forall_forall in L. specialize (L _ Hin). unfold name_ch, word_char in L. lia.
Qed.

Lemma partof_read v : names_of v <> [] -> ex_partof (partof_lines v) = Some v.
Proof.
  intros Hn. destruct v as [x|l]; cbn [partof_lines ex_partof].
  - destruct (str_eqb (s "partof: " ++ x) (s "partof:")) eqn:E; [apply str_eqb_eq in E; discriminate|].
    assert (S : starts_with (s "partof: " ++ x) (s "partof: ") = true) by (apply starts_with_iff; eauto). rewrite S. reflexivity.
  - destruct (str_eqb (s "partof:") (s "partof:")) eqn:E; [now rewrite items_map|].
    assert (str_eqb (s "partof:") (s "partof:") = true) by (now apply str_eqb_eq). congruence.
Qed.

Lemma partof_no_nl v : Forall valid_name (names_of v) -> Forall (fun l => ~ In 10%N l) (partof_lines v).
Proof.
  destruct v as [x|l]; cbn [names_of partof_lines]; intros H.
  - inversion H; subst. constructor; [|constructor]. rewrite in_app_iff. intros [X|X].
    + simpl in X. intuition discriminate.
    + now apply (valid_no_nl x).
  - constructor; [simpl; intuition discriminate|]. apply Forall_map. eapply Forall_impl; [|exact H]. intros x Hx.
    cbv beta. rewrite in_app_iff. intros [X|X].
    + simpl in X. intuition discriminate.
    + now apply (valid_no_nl x).
Qed.

Lemma done_line d : ~ In 10%N (ex_yaml_done d).
Proof.
  unfold ex_yaml_done. rewrite !in_app_iff. intros [X|[X|[X|[]]]]; [simpl in X; intuition discriminate|now apply esc_nl in X|discriminate].
Qed.

Lemma done_read d rest : ex_yaml (join [10%N] (ex_yaml_done d :: rest)) =
  match split_on 10%N (join [10%N] (ex_yaml_done d :: rest)) with
  | _ :: [] => Some (Some d, None)
  | _ :: _ :: ls' => option_map (fun v => (Some d, Some v)) (ex_partof ls')
  | [] => None
  end.
Proof.
  unfold ex_yaml.
  assert (E : exists ls, split_on 10%N (join [10%N] (ex_yaml_done d :: rest)) = ex_yaml_done d :: ls).
  { destruct rest as [|r rest].
    - exists []. cbn [join]. apply split_on_nosep, done_line.
    - rewrite join_cons by discriminate. eexists. cbn [app]. apply split_on_app, done_line. }
  destruct E as (ls & E). rewrite E.
  assert (S : starts_with (ex_yaml_done d) (s "done: """) = true) by (apply starts_with_iff; unfold ex_yaml_done; eauto). rewrite S.
  change (skipn 7 (ex_yaml_done d)) with (esc d ++ [34%N]). rewrite unesc_esc. reflexivity.
Qed.

Lemma ex_yaml_ok : yaml_ok ex_yaml ex_yaml_done.
Proof.
  split.
  - intros d. exists (s " """ ++ esc d), 34%N. split; [reflexivity|]. split; [reflexivity|].
    rewrite in_app_iff. intros [X|X]; [simpl in X; intuition discriminate|now apply esc_nl in X].
  - intros d. change (ex_yaml_done d) with (join [10%N] [ex_yaml_done d]). rewrite done_read. cbn [join].
    rewrite split_on_nosep by apply done_line. reflexivity.
  - intros v Hn Hv. unfold ex_yaml. rewrite split_join.
    + pose proof (partof_read v Hn) as R. destruct (partof_lines v) as [|l ls] eqn:E; [destruct v; discriminate|].
      assert (S : starts_with l (s "done: """) = false) by (destruct v; cbn in E; injection E as <- _; reflexivity).
      rewrite S, R. reflexivity.
    + destruct v; discriminate.
    + now apply partof_no_nl.
  - intros d v Hn Hv. rewrite done_read, split_join.
    + now rewrite partof_read.
    + discriminate.
    + constructor; [apply done_line|]. constructor; [auto|]. now apply partof_no_nl.
Qed.
