(** What it means that a project got through: the page has what the server has. *)
From Coq Require Import Permutation Sorted.
From Verif Require Import Base Name SpecName NameFacts RawNamesFacts Artifact Stored Markdown Lint Modify Render Json SpecJson Web WireJson.

(** What loading delivers and JSON can carry: names and subnames that are read back as they are,
    each once (in any spelling). *)
Definition sub_wf (z : subname) : Prop := sub_from_str (s_raw z) = Ok z.
Definition code_set (c : impl_code) : Prop :=
  (forall z l, In (z, l) (ic_secondary c) -> sub_wf z) /\ NoDup (map (fun e : subname * code_loc => s_key (fst e)) (ic_secondary c)).
Definition art_set {M : num} {H : Type} (a : artifact M H) : Prop :=
  name_wf (a_name a) /\ name_set (a_partof a) /\ name_set (a_parts a) /\ (forall z, In z (a_subnames a) -> sub_wf z) /\ NoDup (map s_key (a_subnames a)) /\
  forall c, a_impl a = ICode c -> code_set c.
Record sendable {M : num} {H : Type} (p : project M H) : Prop := {
  sd_arts : forall n a, In (n, a) (pr_arts p) -> name_wf n /\ art_set a;
  sd_nodup : NoDup (map (fun e : name * artifact M H => n_key (fst e)) (pr_arts p));
  sd_code : forall n c, In (n, c) (pr_code p) -> name_wf n /\ code_set c;
  sd_codes : NoDup (map (fun e : name * impl_code => n_key (fst e)) (pr_code p)) }.
(** The paths of each list of the settings have different texts. *)
Definition paths_once (enc : path -> str) (w : w_settings path) : Prop :=
  NoDup (map enc (ws_code w)) /\ NoDup (map enc (ws_xcode w)) /\ NoDup (map enc (ws_arts w)) /\ NoDup (map enc (ws_xarts w)).
Definition settings_as {P Q} (f : P -> Q) (w : w_settings P) : w_settings Q :=
  mkWset (f (ws_base w)) (f (ws_file w)) (map f (ws_code w)) (map f (ws_xcode w)) (map f (ws_arts w)) (map f (ws_xarts w)) (ws_url w)
         (ws_parse w) (ws_attrs w) (ws_header w) (ws_toc w) (ws_family w) (ws_dot w) (ws_name w).

(** In the order of their texts, or as they were. *)
Definition ordered {K A} (sorted : bool) (raw : K -> str) (l m : list (K * A)) : Prop :=
  if sorted then Permutation l m /\ StronglySorted (fun a b => str_leb (raw (fst a)) (raw (fst b)) = true) m else m = l.
Definition entries {K A B} (sorted : bool) (raw : K -> str) (R : A -> B -> Prop) (l : list (K * A)) (l' : list (K * B)) : Prop :=
  exists m, ordered sorted raw l m /\ Forall2 (fun a b => fst b = fst a /\ R (snd a) (snd b)) m l'.

Section Same.
  Context {M : num} {H : Type}.
  Variable enc : path -> str.
  Variable sorted : bool.
  Definition same_loc (l : code_loc) (w : w_loc) : Prop := w = mkWloc (enc (loc_file l)) (loc_line l).
  Definition same_code (c : impl_code) (w : w_code) : Prop :=
    match ic_primary c, wc_primary w with None, None => True | Some l, Some x => same_loc l x | _, _ => False end /\
    entries sorted s_raw same_loc (ic_secondary c) (wc_secondary w).
  Definition same_impl (i : impl) (w : w_impl) : Prop :=
    match i, w with IDone d, WDone e => e = d | ICode c, WCode x => same_code c x | INot, WNot => True | _, _ => False end.
  Definition same_art (a : artifact M H) (w : w_art M H) : Prop :=
    wa_id w = a_id a /\ wa_name w = a_name a /\ wa_file w = enc (a_file a) /\ wa_partof w = a_partof a /\ wa_parts w = a_parts a /\
    wa_completed w = a_completed a /\ wa_text w = a_text a /\ same_impl (a_impl a) (wa_impl w) /\ wa_subnames w = a_subnames a.
  Definition same_project (st : w_settings path) (p : project M H) (w : w_project M H) : Prop :=
    wp_settings w = settings_as enc st /\ entries sorted n_raw same_code (pr_code p) (wp_code w) /\ entries sorted n_raw same_art (pr_arts p) (wp_arts w).
End Same.

(** The texts of ids and ratios are read back: an id is 16 bytes (C44), a ratio is finite. *)
Definition readable {M : num} {H : Type} (id_text : H -> str) (id_read : str -> res H) (num_text : F M -> option str) (num_read : str -> option (F M)) (a : artifact M H) : Prop :=
  id_read (id_text (a_id a)) = Ok (a_id a) /\
  (exists t, num_text (fst (a_completed a)) = Some t /\ jnumber t /\ num_read t = Some (fst (a_completed a))) /\
  (exists t, num_text (snd (a_completed a)) = Some t /\ jnumber t /\ num_read t = Some (snd (a_completed a))).

(** An operation a client can send: the name and its partof are names, each once. *)
Definition sim_set (x : sim) : Prop := name_wf (si_name x) /\ name_set (si_partof x).
Definition sop_im {H} (o : sop H) : sim := match o with SCreate a | SUpdate a _ => a end.

(** The same project in another order: what is listed by name may move. *)
Definition moved {K A} (R : A -> A -> Prop) (l l' : list (K * A)) : Prop := exists m, Permutation l m /\ Forall2 (fun a b => fst b = fst a /\ R (snd a) (snd b)) m l'.
Definition code_moved (c d : impl_code) : Prop := ic_primary d = ic_primary c /\ Permutation (ic_secondary c) (ic_secondary d).
Definition impl_moved (i j : impl) : Prop := match i, j with ICode c, ICode d => code_moved c d | _, _ => j = i end.
Definition art_moved {M : num} {H : Type} (a b : artifact M H) : Prop :=
  a_id b = a_id a /\ a_name b = a_name a /\ a_file b = a_file a /\ a_partof b = a_partof a /\ a_parts b = a_parts a /\ a_completed b = a_completed a /\ a_text b = a_text a /\
  impl_moved (a_impl a) (a_impl b) /\ a_subnames b = a_subnames a.
Definition project_moved {M : num} {H : Type} (p q : project M H) : Prop := moved code_moved (pr_code p) (pr_code q) /\ moved art_moved (pr_arts p) (pr_arts q).
