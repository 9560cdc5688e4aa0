(** A stored format with its parser, to show that the assumptions on toml and json can be met:
    texts with their length in front, lists with their length in front. *)
From Coq Require Import Lia.
From Verif Require Import Base BaseFacts Name NameFacts RawNamesFacts Artifact SpecLinks LinkFacts Stored ProjectFacts MarkdownFacts Load LoadFacts Modify SpecModify.

Definition enc (x : str) : str := N.of_nat (length x) :: x.
Definition dec (x : str) : option (str * str) :=
  match x with [] => None | n :: r => Some (firstn (N.to_nat n) r, skipn (N.to_nat n) r) end.
Lemma dec_enc x r : dec (enc x ++ r) = Some (x, r).
Proof.
  unfold enc. cbn [app dec]. rewrite Nnat.Nat2N.id. now rewrite firstn_app, skipn_app, Nat.sub_diag, firstn_all, skipn_all, firstn_O, app_nil_r.
Qed.
Definition enc_opt (o : option str) : str := match o with None => [0%N] | Some x => 1%N :: enc x end.
Definition dec_opt (x : str) : option (option str * str) :=
  match x with
  | 0%N :: r => Some (None, r)
  | 1%N :: r => match dec r with Some (y, r') => Some (Some y, r') | None => None end
  | _ => None
  end.
Lemma dec_enc_opt o r : dec_opt (enc_opt o ++ r) = Some (o, r).
Proof. destruct o as [x|]; [|reflexivity]. cbn [enc_opt app dec_opt]. now rewrite dec_enc. Qed.

Definition dec_name (x : str) : option (name * str) :=
  match dec x with Some (y, r) => match name_from_str y with Ok n => Some (n, r) | _ => None end | None => None end.
Lemma dec_enc_name n r : name_wf n -> dec_name (enc (n_raw n) ++ r) = Some (n, r).
Proof. intros W. unfold dec_name. now rewrite dec_enc, W. Qed.
Fixpoint dec_names (k : nat) (x : str) : option (list name * str) :=
  match k with
  | 0 => Some ([], x)
  | S k' => match dec_name x with
            | Some (n, r) => match dec_names k' r with Some (l, r') => Some (n :: l, r') | None => None end
            | None => None
            end
  end.
Definition enc_names (l : list name) : str := N.of_nat (length l) :: flat_map (fun n => enc (n_raw n)) l.
Lemma dec_enc_names l r : Forall name_wf l -> dec_names (length l) (flat_map (fun n => enc (n_raw n)) l ++ r) = Some (l, r).
Proof.
  induction 1 as [|n l W _ IH]; [reflexivity|]. cbn [length flat_map dec_names]. rewrite <- app_assoc, dec_enc_name by auto. now rewrite IH.
Qed.
Definition enc_partof (o : option (list name)) : str := match o with None => [0%N] | Some l => 1%N :: enc_names l end.
Definition dec_partof (x : str) : option (option (list name) * str) :=
  match x with
  | 0%N :: r => Some (None, r)
  | 1%N :: k :: r => match dec_names (N.to_nat k) r with Some (l, r') => Some (Some (is_collect name_eqb l), r') | None => None end
  | _ => None
  end.
Lemma dec_enc_partof o r : match o with Some l => name_set l | None => True end -> dec_partof (enc_partof o ++ r) = Some (o, r).
Proof.
  destruct o as [l|]; [|reflexivity]. intros W. unfold enc_partof, enc_names. cbn [app dec_partof]. rewrite Nnat.Nat2N.id. rewrite dec_enc_names by apply W. rewrite (is_collect_distinct name_eqb nk name_eqb_iff); auto. apply W.
Qed.

Definition enc_entry (e : name * art_raw) : str :=
  enc (n_raw (fst e)) ++ enc_opt (raw_done (snd e)) ++ enc_partof (raw_partof (snd e)) ++ enc_opt (raw_text (snd e)).
Definition dec_entry (x : str) : option ((name * art_raw) * str) :=
  match dec_name x with
  | None => None
  | Some (n, r) =>
      match dec_opt r with
      | None => None
      | Some (d, r) =>
          match dec_partof r with
          | None => None
          | Some (p, r) => match dec_opt r with None => None | Some (t, r) => Some ((n, mkRaw d p t), r) end
          end
      end
  end.
Definition entry_wf (e : name * art_raw) : Prop := name_wf (fst e) /\ match raw_partof (snd e) with Some l => name_set l | None => True end.
Lemma dec_enc_entry e r : entry_wf e -> dec_entry (enc_entry e ++ r) = Some (e, r).
Proof.
  intros [W1 W2]. destruct e as [n [d p t]]. cbn [fst snd raw_partof] in *. unfold enc_entry, dec_entry. cbn [fst snd raw_done raw_partof raw_text]. rewrite <- !app_assoc.
  rewrite dec_enc_name by auto. rewrite dec_enc_opt, dec_enc_partof by auto. now rewrite dec_enc_opt.
Qed.
Fixpoint dec_entries (k : nat) (x : str) : option (list (name * art_raw)) :=
  match k with
  | 0 => match x with [] => Some [] | _ => None end
  | S k' => match dec_entry x with
            | Some (e, r) => match dec_entries k' r with Some l => Some (e :: l) | None => None end
            | None => None
            end
  end.
Definition ex_store (l : list (name * art_raw)) : str := N.of_nat (length l) :: flat_map enc_entry l.
Definition ex_parse (x : str) : res (list (name * art_raw)) :=
  match x with [] => Err | k :: r => match dec_entries (N.to_nat k) r with Some l => Ok l | None => Err end end.
Lemma parse_store l : Forall entry_wf l -> ex_parse (ex_store l) = Ok l.
Proof.
  intros W. unfold ex_parse, ex_store. rewrite Nnat.Nat2N.id. replace (dec_entries _ _) with (Some l); [reflexivity|]. symmetry. rewrite <- (app_nil_r (flat_map enc_entry l)).
  induction W as [|e l We _ IH]; [reflexivity|]. cbn [length flat_map dec_entries]. rewrite <- app_assoc, dec_enc_entry by auto. now rewrite IH.
Qed.
Lemma ex_codec_ok : codec_ok ex_store ex_parse.
Proof.
  intros arts file W D Ha. exists (map raw_entry arts). split.
  - apply parse_store. apply Forall_forall. intros e He. apply in_map_iff in He as (a & <- & Hin). rewrite Forall_forall in W. pose proof (W a Hin) as Wa. split; [apply Wa|].
    cbn. destruct (im_partof a) eqn:E; [exact I|]. rewrite <- E. now apply im_wf_set.
  - rewrite map_map. erewrite map_ext_in; [apply map_id|]. intros a Hin. destruct (Ha a Hin) as [C <-]. rewrite Forall_forall in W. exact (ProjectFacts.raw_roundtrip a (W a Hin) C).
Qed.

Lemma dec_name_wf x n r : dec_name x = Some (n, r) -> name_wf n.
Proof. unfold dec_name. destruct (dec x) as [[y r0]|]; [|discriminate]. destruct (name_from_str y) as [m| |] eqn:E; try discriminate. intros X. injection X as <- _. eapply (proj1 (from_str_wf _ _ E)). Qed.
Lemma dec_names_wf k : forall x l r, dec_names k x = Some (l, r) -> Forall name_wf l.
Proof.
  induction k as [|k IH]; intros x l r E; cbn [dec_names] in E; [injection E as <- <-; constructor|]. destruct (dec_name x) as [[n r1]|] eqn:En; [|discriminate E].
  destruct (dec_names k r1) as [[l1 r2]|] eqn:El; [|discriminate E]. injection E as <- <-. constructor; [eapply dec_name_wf; eauto|eauto].
Qed.
Lemma ex_parser_ok : parser_ok ex_parse.
Proof.
  intros x l E. unfold ex_parse in E. destruct x as [|k x]; [discriminate E|]. destruct (dec_entries (N.to_nat k) x) as [l0|] eqn:D; [|discriminate E]. injection E as <-. revert x l0 D.
  induction (N.to_nat k) as [|j IH]; intros x l0 D; cbn [dec_entries] in D; [destruct x; [injection D as <-; constructor|discriminate D]|].
  destruct (dec_entry x) as [[e r]|] eqn:Ee; [|discriminate D]. destruct (dec_entries j r) as [l1|] eqn:D1; [|discriminate D]. injection D as <-. constructor; [|eauto].
  unfold dec_entry in Ee. destruct (dec_name x) as [[n r1]|] eqn:En; [|discriminate Ee]. destruct (dec_opt r1) as [[d r2]|]; [|discriminate Ee]. destruct (dec_partof r2) as [[p r3]|] eqn:Ep; [|discriminate Ee].
  destruct (dec_opt r3) as [[t r4]|]; [|discriminate Ee]. injection Ee as <- <-. split; cbn [fst snd raw_partof]; [eapply dec_name_wf; eauto|]. intros q ->.
  unfold dec_partof in Ep. destruct r2 as [|[|[]] r2]; try discriminate Ep. destruct r2 as [|m r2]; [discriminate Ep|].
  destruct (dec_names (N.to_nat m) r2) as [[l2 r5]|] eqn:Dn; [|discriminate Ep]. injection Ep as <- <-. apply dec_names_wf in Dn. split.
  - apply (extend_wf l2 []); [constructor|exact Dn].
  - apply (is_collect_nodup name_eqb nk name_eqb_iff).
Qed.
