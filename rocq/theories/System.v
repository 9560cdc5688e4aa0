(** [art serve] with the pages that are open on it: the client of Web.v, the calls of
    ServerCalls.v and the network between them. *)
From Verif Require Import Base Name Artifact Stored Markdown Lint Source Pool Load Disk Walk Modify Server SpecServer ServerCalls Web WebSave.

Section System.
  Variable path_str : path -> str.
  Variable M : num.
  Variable topo : graph -> option (list nat).
  Variable H : Type.
  Variable heqb : H -> H -> bool.
  Variable hash_im : art_im -> H.
  Variable debug_im : art_im -> str.
  Variable st : settings.
  Variables to_toml to_json : list (name * art_raw) -> str.
  Variable yaml_done : str -> str.
  Variable style : md_attrs.
  Variable load : node -> res (lints * project M H + lints) -> Prop.
  (** The text of a path in JSON and back. *)
  Variable enc : path -> str.
  Variable dec : str -> option path.
  Variable dig : char -> bool.
  Variable lim : N.
  (** The project a page shows before it has any (main.rs:45-68). *)
  Variable first : sproject H.

  Definition found := (lints * project M H)%type.
  Definition failed := (option mkind * lints)%type.
  Definition quest := request (list (op H)).
  Definition reply := answer found failed.

  (** artifact-lib/src/lib.rs:390-395, [Project] as JSON, read as artifact-ser/src/ser.rs:67-71, its
      artifacts; [to_value] (handler.rs:88, 167) puts them in the order of their texts.  C88 shows
      that this is what the JSON says. *)
  Definition wire (p : project M H) : sproject H :=
    map (fun x => (fst x, serve enc (snd x))) (isort (fun a b => str_leb (n_raw (fst a)) (n_raw (fst b))) (pr_arts p)).

  (** handler.rs:144-151, [json::from_value] on the operations *)
  Fixpoint received (l : list (sop H)) : res (list (op H)) :=
    match l with
    | [] => Ok []
    | o :: l' => match receive dec o with Some b => res_bind (received l') (fun m => Ok (b :: m)) | None => Err end
    end.
  (** What a request of a page is for the server (handler.rs:178-211); the first page is a file
      (handler.rs:217-230). *)
  Definition asked (r : req H) : option quest :=
    match r with
    | RInitial => None
    | RRead _ reload => Some (QRead (Some (Some reload)))
    | RModify _ ops => Some (QModify (Some (received ops)))
    end.
  (** What the page makes of an answer (fetch.rs:152-188); nothing arrives when the handler panics. *)
  Definition told (r : req H) (a : reply) : option (msg H) :=
    match a, r with
    | AProject x, RRead j _ => Some (MProject j (wire (snd x)))
    | AProject x, RModify j _ => Some (MProject j (wire (snd x)))
    | AFailed _, _ => Some (MError 1)
    | AInvalid, _ => Some (MError 1)
    | _, _ => None
    end.

  Notation serves := (serves _ _ _ _ _ (call_read M H load) (call_modify path_str M topo H heqb hash_im debug_im st load)
    (call_goes path_str M H st to_toml to_json yaml_done style) (call_ended M H)).

  (** The pages, in the order they were opened; the requests and answers on their way; disk, project
      and whether a handler has panicked. *)
  Record sys := mkSys {
    y_pages : list (world H); y_net : list (nat * req H); y_back : list (nat * req H * msg H);
    y_disk : node; y_project : found; y_poisoned : bool }.
  (** A page is opened; a user does something; the server answers a request; an answer arrives; the
      browser gives up on a request; something else changes the disk. *)
  Inductive label := LOpen (v : view) | LUser (k : nat) (u : action) | LFile (k : nat) | LServe (k : nat) (r : req H) (a : reply)
                   | LArrive (k : nat) (r : req H) (m : msg H) | LGiveUp (k : nat) (r : req H) | LDisk.
  Definition set_page (k : nat) (w : world H) (l : list (world H)) : list (world H) := firstn k l ++ w :: skipn (S k) l.
  Definition sends (k : nat) (l : list (req H)) : list (nat * req H) := map (fun r => (k, r)) l.

  (** Requests are answered one at a time, at the moment they are logged (C45_atomic). *)
  Inductive ystep : sys -> label -> sys -> Prop :=
  | y_open g n b d p x v :
      ystep (mkSys g n b d p x) (LOpen v) (mkSys (g ++ [start first v]) (n ++ [(length g, RInitial)]) b d p x)
  | y_user g n b d p x k u c q c' sent : @nth_error (world H) g k = Some (c, q) -> act heqb dig lim u c = Ok (c', sent) ->
      ystep (mkSys g n b d p x) (LUser k u) (mkSys (set_page k (c', q ++ sent) g) (n ++ sends k sent) b d p x)
  | y_file g n n' b d p x k :
      ystep (mkSys g (n ++ (k, RInitial) :: n') b d p x) (LFile k) (mkSys g (n ++ n') (b ++ [(k, RInitial, MInitial false None)]) d p x)
  | y_serve g n n' b d p x k r q a d' p' x' : asked r = Some q -> serves (d, p, x) q a (d', p', x') ->
      ystep (mkSys g (n ++ (k, r) :: n') b d p x) (LServe k r a)
            (mkSys g (n ++ n') (b ++ match told r a with Some m => [(k, r, m)] | None => [] end) d' p' x')
  | y_arrive g n b b' d p x k r m c q q' c' sent : @nth_error (world H) g k = Some (c, q ++ r :: q') -> update heqb dig lim m c = Ok (c', sent) ->
      ystep (mkSys g n (b ++ (k, r, m) :: b') d p x) (LArrive k r m)
            (mkSys (set_page k (c', q ++ q' ++ sent) g) (n ++ sends k sent) (b ++ b') d p x)
  | y_give_up g n b d p x k r c q q' c' sent : @nth_error (world H) g k = Some (c, q ++ r :: q') -> update heqb dig lim (MError 1) c = Ok (c', sent) ->
      ystep (mkSys g n b d p x) (LGiveUp k r) (mkSys (set_page k (c', q ++ q' ++ sent) g) (n ++ sends k sent) b d p x)
  | y_disk_changes g n b d p x d' : ystep (mkSys g n b d p x) LDisk (mkSys g n b d' p x).

  (** What has happened, latest first: before, what, after. *)
  Inductive happened (d : node) (p : found) : list (sys * label * sys) -> sys -> Prop :=
  | hp_start : happened d p [] (mkSys [] [] [] d p false)
  | hp_step l y e y' : happened d p l y -> ystep y e y' -> happened d p ((y, e, y') :: l) y'.
End System.
Arguments LOpen {M H}. Arguments LUser {M H}. Arguments LFile {M H}. Arguments LServe {M H}. Arguments LArrive {M H}. Arguments LGiveUp {M H}. Arguments LDisk {M H}.
