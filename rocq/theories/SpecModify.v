(** Specification of what a list of operations does, in terms of ids. *)
From Verif Require Import Base Name NameFacts Artifact Stored SpecLinks Markdown MarkdownFacts Lint Load Disk Walk SpecWalk Modify.

Definition below (p r : path) : Prop := exists x, p = r ++ x.

Section Ops.
  Context {H : Type}.
  Variable hash_im : art_im -> H.

  (** An update that gives the artifact the id it has. *)
  Definition noop (o : op H) : Prop := exists a, o = OUpdate a (hash_im a).
  (** The operation stores [a]. *)
  Definition stores (o : op H) (a : art_im) : Prop := o = OCreate a \/ exists i, o = OUpdate a i.
  (** The operation names [i] as what it updates or deletes. *)
  Definition targets (o : op H) (i : H) : Prop := (exists a, o = OUpdate a i) \/ (exists n, o = ODelete n i).
  (** The operation takes the id [i] away. *)
  Definition takes (o : op H) (i : H) : Prop := targets o i /\ ~ noop o.
  (** The ids of an operation. *)
  Definition ids_in (o : op H) : list H :=
    match o with OCreate a => [hash_im a] | OUpdate a i => [hash_im a; i] | ODelete _ i => [i] end.
  (** [a] is the last artifact stored under the id [i]. *)
  Definition last_stored (ops : list (op H)) (i : H) (a : art_im) : Prop :=
    exists l o r, ops = l ++ o :: r /\ stores o a /\ hash_im a = i /\
      forall o' b, In o' r -> stores o' b -> hash_im b <> i.
  Definition stored (ops : list (op H)) (i : H) : Prop := exists o a, In o ops /\ stores o a /\ hash_im a = i.
  Definition taken (ops : list (op H)) (i : H) : Prop := exists o, In o ops /\ takes o i.
End Ops.

(** A project as loading gives it: the stored forms of its artifacts are clean, well formed and
    of distinct names, and each artifact is served with the hash of its stored form. *)
Definition stored_form {M H} (p : project M H) : list art_im := map (fun e => to_im (snd e)) (pr_arts p).
Record loaded_ok {M H} (hash_im : art_im -> H) (p : project M H) : Prop := {
  lo_wf : Forall im_wf (stored_form p);
  lo_distinct : distinct (stored_form p);
  lo_clean : forall a, In a (stored_form p) -> im_clean a = a;
  lo_id : forall n a, In (n, a) (pr_arts p) -> a_id a = hash_im (to_im a) }.
Definition op_wf {H} (o : op H) : Prop := match o with OCreate a => im_wf a | OUpdate a _ => im_wf a | ODelete n _ => name_wf n end.

(** The operation fits the project: what it creates is not there; what it updates or deletes is
    (an update that changes nothing may also refer to what another operation stores). *)
Definition current {M H} (hash_im : art_im -> H) (ops : list (op H)) (p : project M H) (o : op H) : Prop :=
  let ids := map hash_im (stored_form p) in
  (forall a, o = OCreate a -> ~ In (hash_im a) ids) /\
  (forall i, takes hash_im o i -> In i ids) /\
  (forall i, targets o i -> In i ids \/ exists o' a, In o' ops /\ ~ noop hash_im o' /\ stores o' a /\ hash_im a = i).

(** What a file of the project should hold: the text for all artifacts that name the file. *)
Section Files.
  Context {M : num} {H : Type}.
  Variables to_toml to_json : list (name * art_raw) -> str.
  Variable yaml_done : str -> str.
  Variable style : md_attrs.
  Definition arts_in (f : path) (arts : list art_im) : list art_im := filter (fun a => path_eqb (im_file a) f) arts.
  Definition text_of (p : project M H) (f : path) : res str :=
    file_text to_toml to_json yaml_done style (pr_prefix p) f (map raw_entry (arts_in f (stored_form p))).
  (** Every file of the project is on disk, complete. *)
  Definition holds (t : node) (p : project M H) : Prop :=
    forall a, In a (stored_form p) -> exists l y, locate (im_file a) = Some l /\ text_of p (im_file a) = Ok y /\ file_at t l = Some y.
End Files.
(** No "", "." or ".." in a path. *)
Definition plain_path (q : path) : Prop := Forall (fun c => goes_down c = true) q.
(** A format whose texts can be read back (as C25 has it for markdown). *)
Definition codec_ok (to : list (name * art_raw) -> str) (parse : str -> res (list (name * art_raw))) : Prop :=
  forall arts file, Forall im_wf arts -> distinct arts -> (forall a, In a arts -> im_clean a = a /\ im_file a = file) ->
  exists raws, parse (to (map raw_entry arts)) = Ok raws /\ map (fun e => from_raw (fst e) file (snd e)) raws = arts.
(** No root is below another. *)
Definition roots_apart (roots : list path) : Prop := NoDup roots /\ forall r r', In r roots -> In r' roots -> below r r' -> r = r'.
(** The artifact files of the disk. *)
Definition found_file (st : settings) (t : node) (f : path) : Prop := exists r, In r (se_arts st) /\ reachable t (se_xarts st) r f /\ known_extension f.
(** The names in directories are names: not "", "." or "..". *)
Definition tree_names (t : node) : Prop := forall f n, lookup t f = Some n -> plain_path f.
(** Two paths that differ at most in the extension. *)
Definition twins (q q' : path) : Prop := exists d x e e', q = d ++ [x ++ 46%N :: e] /\ q' = d ++ [x ++ 46%N :: e'] /\ ~ In 46%N e /\ ~ In 46%N e'.
(** A disk on which backups do not collide: artifact paths are directories (or missing), no two
    artifact files differ only in extension. *)
Record safe_disk (st : settings) (t : node) : Prop := {
  sd_tree : tree_ok t;
  sd_names : tree_names t;
  sd_roots : forall r, In r (se_arts st) -> file_at t r = None;
  sd_twins : forall q q', found_file st t q -> found_file st t q' -> twins q q' -> q = q' }.
