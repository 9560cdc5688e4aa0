(** C43, C44: ids. *)
From Coq Require Import Lia ZArith.
From Verif Require Import Base BaseFacts Name NameFacts Artifact Stored Ids SpecIds IdFacts.
Open Scope nat_scope.

(** ** C43 Ids identify content *)
Theorem C43_equal_content_equal_id : forall H (sip : list N -> H) a b, same_content a b -> sip_id sip a = sip_id sip b.
Proof.
  intros H sip a b (En & Ef & El & Ed & Et). unfold sip_id. f_equal.
  rewrite !h_im_eq, En, Ef, Ed, Et, (rest_links _ _ _ _ El). reflexivity.
Qed.
Print Assumptions C43_equal_content_equal_id.

(** What is hashed is the same exactly for artifacts of equal content and for those that differ by
    the trade of a link for a done text. *)
Theorem C43_hashed : forall a b, im_text_ok a -> im_text_ok b ->
  (h_im a = h_im b <-> same_content a b \/ traded a b \/ traded b a).
Proof. exact streams. Qed.
Print Assumptions C43_hashed.

(** Where the hash has no collision, ids of artifacts that agree on being done, or on the number
    of links, tell them apart. *)
Theorem C43_separates : forall H (sip : list N -> H) a b, im_text_ok a -> im_text_ok b ->
  (forall x y, sip x = sip y -> x = y) ->
  ((im_done a = None <-> im_done b = None) \/ length (im_partof a) = length (im_partof b)) ->
  sip_id sip a = sip_id sip b -> same_content a b.
Proof.
  intros H sip a b Ha Hb Hinj Hc E. apply Hinj, streams in E; try assumption.
  assert (no : forall a b, traded a b -> im_done a = None /\ im_done b <> None /\ length (im_partof a) <> length (im_partof b)).
  { intros a0 b0 (_ & _ & ls & k & A & B & C & D & _). split; [exact C|]. split; [congruence|].
    apply (f_equal (@length _)) in A. apply (f_equal (@length _)) in B. rewrite map_length in A, B.
    rewrite app_length in A. cbn in A. lia. }
  destruct E as [E|[E|E]]; [exact E| |]; apply no in E; destruct E as (A & B & C); exfalso; destruct Hc as [Hc|Hc]; try tauto; lia.
Qed.
Print Assumptions C43_separates.

Definition id_name (x : str) : name := match name_from_str x with Ok n => n | _ => mkName REQ [] [] end.
Definition id_a := mkIm (id_name (s "SPC-a")) [s "p"; s "design.md"] [id_name (s "SPC-x")] None (s "text").
Definition id_b := mkIm (id_name (s "SPC-a")) [s "p"; s "design.md"] [] (Some (s "SPC-X")) (repeat 0%N 8 ++ s "text").

Definition textb (x : str) : bool := forallb (fun c => N.ltb c 1114112) x.
Lemma textb_ok x : textb x = true -> is_text x.
Proof. intros E. apply Forall_forall. intros c Hc. unfold textb in E. rewrite forallb_forall in E. apply N.ltb_lt, E, Hc. Qed.
Definition compb (c : str) : bool :=
  textb c && negb (is_nil c) && negb (str_eqb c (s ".")) && N.ltb (N.of_nat (length c)) 4611686018427387904.
Lemma compb_ok c : compb c = true -> comp_ok c.
Proof.
  unfold compb. rewrite !andb_true_iff, !negb_true_iff. intros (((A & B) & C) & D).
  split; [apply textb_ok, A|]. split; [intros ->; discriminate|]. split; [|apply N.ltb_lt, D].
  intros ->. rewrite str_eqb_refl in C. discriminate.
Qed.
Definition im_textb (a : art_im) : bool :=
  textb (n_raw (im_name a)) && forallb compb (im_file a) && forallb (fun n => textb (n_key n)) (im_partof a) &&
  (match im_done a with Some d => textb d | None => true end) && textb (im_text a).
Lemma im_textb_ok a : im_textb a = true -> im_text_ok a.
Proof.
  unfold im_textb. rewrite !andb_true_iff, !forallb_forall. intros ((((A & B) & C) & D) & E). split.
  - apply textb_ok, A.
  - apply Forall_forall. intros c Hc. apply compb_ok, B, Hc.
  - apply Forall_forall. intros c Hc. apply textb_ok, C, Hc.
  - destruct (im_done a); [apply textb_ok, D|exact I].
  - apply textb_ok, E.
Qed.
(** Two different artifacts, both clean, with the same id whatever the hash function is. *)
Theorem C43_collision : im_clean id_a = id_a /\ im_clean id_b = id_b /\ im_done id_a <> im_done id_b /\
  im_text_ok id_a /\ im_text_ok id_b /\ forall H (sip : list N -> H), sip_id sip id_a = sip_id sip id_b.
Proof.
  split; [vm_compute; reflexivity|]. split; [vm_compute; reflexivity|]. split; [discriminate|].
  split; [apply im_textb_ok; vm_compute; reflexivity|]. split; [apply im_textb_ok; vm_compute; reflexivity|].
  intros H sip. unfold sip_id. apply f_equal. vm_compute. reflexivity.
Qed.
Print Assumptions C43_collision.

(** The id follows the spelling of the own name, not that of a link. *)
Example C43_example :
  h_im (mkIm (id_name (s "SPC-A")) (im_file id_a) (im_partof id_a) None (s "text")) <> h_im id_a /\
  h_im (mkIm (im_name id_a) (im_file id_a) [id_name (s "spc-X")] None (s "text")) = h_im id_a /\
  h_im (mkIm (im_name id_a) [s "p"; s "other.md"] (im_partof id_a) None (s "text")) <> h_im id_a /\
  h_im (mkIm (im_name id_a) (im_file id_a) (im_partof id_a) (Some []) (s "text")) <> h_im id_a.
Proof. vm_compute. repeat split; discriminate. Qed.

(** ** C44 Textual ids round-trip *)
Theorem C44_roundtrip : forall strict h, is_id h -> id_de strict (id_ser h) = Ok h.
Proof.
  intros strict h (Hb & Hl). unfold id_ser. rewrite decode_encode, Hl by exact Hb. cbn. rewrite app_nil_r. reflexivity.
Qed.
Print Assumptions C44_roundtrip.

Theorem C44_distinct : forall h h', is_id h -> is_id h' -> id_ser h = id_ser h' -> h = h'.
Proof.
  intros h h' H H' E. apply (f_equal (id_de true)) in E. rewrite !C44_roundtrip in E by assumption. congruence.
Qed.
Print Assumptions C44_distinct.

(** 22 characters that mean nothing special in a URL or in JSON. *)
Theorem C44_form : forall h, is_id h -> length (id_ser h) = 22 /\ Forall url_safe (id_ser h).
Proof.
  intros h (Hb & Hl). unfold id_ser, b64_encode. rewrite map_length. pose proof (sextets_length h). split; [lia|].
  apply Forall_map. apply (Forall_impl _ char_safe), sextets_lt, Hb.
Qed.
Print Assumptions C44_form.

(** What is accepted is the form of at most 16 bytes, with zeros for those that are missing.  With
    the check on the last character there is one text for each. *)
Theorem C44_accepted : forall strict x h, id_de strict x = Ok h ->
  is_id h /\ exists o, length o <= 16 /\ h = o ++ repeat 0%N (16 - length o) /\ (strict = true -> x = b64_encode o).
Proof.
  intros strict x h E. apply decode_ok in E. destruct E as (o & Hb & Hl & -> & Hx). split.
  - split; [apply Forall_app; split; [exact Hb|]|rewrite app_length, repeat_length; lia].
    apply Forall_forall. intros c Hc. apply repeat_spec in Hc. subst. reflexivity.
  - exists o. auto.
Qed.
Print Assumptions C44_accepted.

(** Shorter texts are accepted, longer ones panic. *)
Theorem C44_short_long : forall strict o, Forall is_byte o ->
  (length o <= 16 -> id_de strict (b64_encode o) = Ok (o ++ repeat 0%N (16 - length o))) /\
  (16 < length o -> id_de strict (b64_encode o) = Panic).
Proof.
  intros strict o Hb. rewrite decode_encode by exact Hb. destruct (Nat.leb_spec (length o) 16); split; intros; try lia; reflexivity.
Qed.
Print Assumptions C44_short_long.

(** A text of up to 22 characters never panics; it is an error if some character is not of the form. *)
Theorem C44_invalid : forall strict x, length x <= 22 ->
  id_de strict x <> Panic /\ ((exists c, In c x /\ ~ url_safe c) -> id_de strict x = Err).
Proof.
  intros strict x Hx. split.
  - unfold id_de. destruct (values x) as [l|] eqn:Ev; [|discriminate]. apply values_inv in Ev. destruct Ev as (-> & Hl). rewrite map_length in Hx.
    destruct (of_sextets strict l) as [o|] eqn:Eo; [|discriminate]. apply of_sextets_length in Eo.
    destruct (Nat.leb_spec (length o) 16); [discriminate|lia].
  - intros (c & Hc & Hu). unfold id_de. destruct (values x) as [l|] eqn:Ev; [|reflexivity]. exfalso. apply values_inv in Ev. destruct Ev as (-> & Hl).
    apply in_map_iff in Hc as (v & <- & Hv). apply Hu, char_safe. rewrite Forall_forall in Hl. auto.
Qed.
Print Assumptions C44_invalid.

Example C44_example :
  id_ser [254; 220; 186; 152; 118; 84; 50; 16; 0; 1; 2; 3; 4; 5; 6; 255]%N = s "_ty6mHZUMhAAAQIDBAUG_w" /\
  id_de true (s "_ty6mHZUMhAAAQIDBAUG_w") = Ok [254; 220; 186; 152; 118; 84; 50; 16; 0; 1; 2; 3; 4; 5; 6; 255]%N /\
  id_de true [] = Ok (repeat 0%N 16) /\ id_de true (s "_ty6") = Ok ([254; 220; 186]%N ++ repeat 0%N 13) /\
  id_de true (s "_ty6mHZUMhAAAQIDBAUG_wAA") = Panic /\
  id_de true (s "_ty6+") = Err /\ id_de true (s "_ty6mHZUMhAAAQIDBAUG_x") = Err /\ id_de false (s "_ty6mHZUMhAAAQIDBAUG_x") = id_de false (s "_ty6mHZUMhAAAQIDBAUG_w").
Proof. vm_compute. repeat split. Qed.
