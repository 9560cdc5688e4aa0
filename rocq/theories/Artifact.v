(** artifact-lib/src/lib.rs and artifact-data/src/{artifact,graph}.rs: artifacts, the link
    graph and completion. *)
From Verif Require Import Base Regex Name Family.

(** An absolute path as the list of its components ([path_abs]/[std::path]). *)
Definition path := list str.

(** artifact-lib/src/lib.rs:123-127, [CodeLoc] *)
Record code_loc := mkLoc { loc_file : path; loc_line : nat }.
(** artifact-lib/src/lib.rs:116-119, [ImplCode] *)
Record impl_code := mkCode { ic_primary : option code_loc; ic_secondary : list (subname * code_loc) }.
(** artifact-lib/src/lib.rs:105-112, [Impl] *)
Inductive impl := IDone (d : str) | ICode (c : impl_code) | INot.

(** artifact-lib/src/lib.rs:226-232, [ArtifactIm] *)
Record art_im := mkIm { im_name : name; im_file : path; im_partof : list name;
                        im_done : option str; im_text : str }.

(** artifact-ser/src/lib.rs:429-441, [string_trim_right] and [clean_text] *)
Definition clean_text (x : str) : str :=
  let y := trim_end x in if mem_char c_nl y then y ++ [c_nl] else y.

(** artifact-lib/src/lib.rs:252-256, [ArtifactIm::clean] *)
Definition im_clean (a : art_im) : art_im :=
  mkIm (im_name a) (im_file a) (isort name_leb (strip_auto (im_name a) (im_partof a)))
       (im_done a) (clean_text (im_text a)).

(** data/raw.rs:91-127, [join_artifacts_raw]: the duplicates reported (name, file of the
    earlier one, file of the later one; two error lints each), the file of each name and
    the cleaned artifacts. *)
Record joined := mkJoined { j_dups : list (name * path * path); j_files : list (name * path);
                            j_ims : list (name * art_im) }.
Definition join_step (j : joined) (a : art_im) : joined :=
  mkJoined (match im_get name_eqb (im_name a) (j_files j) with
            | Some f => j_dups j ++ [(im_name a, f, im_file a)]
            | None => j_dups j
            end)
           (im_insert name_eqb (im_name a) (im_file a) (j_files j))
           (im_insert name_eqb (im_name a) (im_clean a) (j_ims j)).
Definition join_artifacts_raw (arts : list art_im) : joined :=
  fold_left join_step arts (mkJoined [] [] []).

(** Floating point arithmetic is abstracted: [T] stands for [f64] with the operations used,
    [F] for [f32] and [nround] for [round_ratio] (graph.rs:161-163).  Instances: exact
    rationals, rationals with a rounding after each operation, IEEE binary64. *)
Record num := mkNum { T : Type; n0 : T; n1 : T; nadd : T -> T -> T; ndiv : T -> nat -> T;
                      F : Type; f0 : F; nround : T -> F }.

Definition nbool (M : num) (b : bool) : T M := if b then n1 M else n0 M.

(** artifact-lib/src/lib.rs:44, [SUBNAME_TST_RE] *)
Definition re_tst_sub : re := seqs [lit c_dot; cis (s "tst"); lit c_dash; Star true dot].

Record stats (M : num) := mkStats { st_count : nat; st_value : T M; st_tcount : nat; st_tvalue : T M }.
Arguments mkStats {M}.  Arguments st_count {M}.  Arguments st_value {M}.
Arguments st_tcount {M}.  Arguments st_tvalue {M}.

(** artifact-lib/src/lib.rs:143-175, [Impl::to_statistics] *)
Definition code_step (M : num) (c : impl_code) (acc : stats M) (sub : subname) : stats M :=
  let has := nbool M (im_mem sub_eqb sub (ic_secondary c)) in
  let acc1 := mkStats (S (st_count acc)) (nadd M (st_value acc) has) (st_tcount acc) (st_tvalue acc) in
  if is_match_full re_tst_sub (s_raw sub)
  then mkStats (st_count acc1) (st_value acc1) (S (st_tcount acc1)) (nadd M (st_tvalue acc1) has)
  else acc1.
Definition to_statistics (M : num) (i : impl) (subs : list subname) : stats M :=
  match i with
  | IDone _ => mkStats 1 (n1 M) 1 (n1 M)
  | ICode c =>
      fold_left (code_step M c) subs
        (mkStats 1 (nbool M (match ic_primary c with Some _ => true | None => false end)) 0 (n0 M))
  | INot => match subs with
            | [] => mkStats 0 (n0 M) 0 (n0 M)
            | _ => mkStats (1 + length subs) (n0 M) 0 (n0 M)
            end
  end.

(** artifact.rs:120-130, [determine_partofs]; [artifact_ims[name]] may panic *)
Definition determine_partofs (ims : list (name * art_im)) : res (list (name * list name)) :=
  res_map (fun e : name * list name =>
             match im_get name_eqb (fst e) ims with
             | Some im => Ok (fst e, is_extend name_eqb (snd e) (im_partof im))
             | None => Panic
             end)
          (auto_partofs (map fst ims)).

(** artifact.rs:133-140, [determine_subnames] *)
Definition determine_subnames (ims : list (name * art_im)) : list (name * list subname) :=
  im_collect name_eqb (map (fun e => (fst e, parse_subnames (im_text (snd e)))) ims).

(** artifact.rs:151-167, [determine_impls] *)
Definition determine_impls (ims : list (name * art_im)) (code : list (name * impl_code))
  : list (name * impl) :=
  fold_left (fun out e =>
    let i := match im_done (snd e) with
             | Some d => IDone d
             | None => match im_get name_eqb (fst e) code with
                       | Some c => ICode c
                       | None => INot
                       end
             end in
    im_insert name_eqb (fst e) i out) ims [].

(** graph.rs:170-183, [create_ids] *)
Definition create_ids (partofs : list (name * list name)) : list (name * nat) :=
  fst (fold_left (fun acc e =>
         let acc1 := (im_insert name_eqb (fst e) (snd acc) (fst acc), S (snd acc)) in
         fold_left (fun a p => (im_insert name_eqb p (snd a) (fst a), S (snd a))) (snd e) acc1)
       partofs ([], 1)).

(** petgraph [DiGraphMap<u32, ()>]: nodes and edges in insertion order, without repetitions. *)
Record graph := mkGraph { g_nodes : list nat; g_edges : list (nat * nat) }.
Definition edge_eqb (a b : nat * nat) : bool := Nat.eqb (fst a) (fst b) && Nat.eqb (snd a) (snd b).
Definition add_node (i : nat) (g : graph) : graph :=
  mkGraph (is_insert Nat.eqb i (g_nodes g)) (g_edges g).
Definition add_edge (a b : nat) (g : graph) : graph :=
  mkGraph (is_insert Nat.eqb b (is_insert Nat.eqb a (g_nodes g)))
          (is_insert edge_eqb (a, b) (g_edges g)).
(** [neighbors]: targets of outgoing edges *)
Definition neighbors (g : graph) (i : nat) : list nat :=
  map snd (filter (fun e => Nat.eqb (fst e) i) (g_edges g)).

(** graph.rs:25-32 *)
Record graphs := mkGraphs { lookup_name : list (nat * name); lookup_id : list (name * nat);
                            g_full : graph }.

(** graph.rs:36-54, [determine_graphs]; [ids[..]] may panic *)
Fixpoint add_edges (ids : list (name * nat)) (id : nat) (ps : list name) (g : graph) : res graph :=
  match ps with
  | [] => Ok g
  | p :: ps' => match im_get name_eqb p ids with
                | Some i => add_edges ids id ps' (add_edge i id g)
                | None => Panic
                end
  end.
Fixpoint build_graph (ids : list (name * nat)) (partofs : list (name * list name)) (g : graph) : res graph :=
  match partofs with
  | [] => Ok g
  | (n, ps) :: rest =>
      match im_get name_eqb n ids with
      | Some id => res_bind (add_edges ids id ps (add_node id g)) (build_graph ids rest)
      | None => Panic
      end
  end.
Definition determine_graphs (partofs : list (name * list name)) : res graphs :=
  let ids := create_ids partofs in
  res_bind (build_graph ids partofs (mkGraph [] [])) (fun g =>
  Ok (mkGraphs (im_collect Nat.eqb (map (fun e => (snd e, fst e)) ids)) ids g)).

(** graph.rs:57-70, [determine_parts] *)
Definition determine_parts (gs : graphs) : res (list (name * list name)) :=
  res_bind
    (res_map (fun e : nat * name =>
                res_bind (res_map (fun i => match im_get Nat.eqb i (lookup_name gs) with
                                            | Some n => Ok n
                                            | None => Panic
                                            end) (neighbors (g_full gs) (fst e)))
                         (fun l => Ok (snd e, is_collect name_eqb l)))
             (lookup_name gs))
    (fun l => Ok (im_collect name_eqb l)).

(** graph.rs:74-159, [determine_completed].  [topo] stands for
    [petgraph::algo::toposort].  The [debug_assert_eq!]s are modelled as in a debug build. *)
Section Completed.
  Variable M : num.
  Variable topo : graph -> option (list nat).

  (** graph.rs:101-107 *)
  Definition ratio (value : T M) (count : nat) : T M :=
    match count with O => n0 M | _ => ndiv M value count end.

  (** The accumulators of the main loop. *)
  Definition table := list (nat * T M).

  (** graph.rs:122-127: the neighbour loop for TST; [implemented[&part_id]] may panic *)
  Fixpoint sum_parts (tbl : table) (ids : list nat) (cv : nat * T M) : res (nat * T M) :=
    match ids with
    | [] => Ok cv
    | i :: ids' => match im_get Nat.eqb i tbl with
                   | Some v => sum_parts tbl ids' (S (fst cv), nadd M (snd cv) v)
                   | None => Panic
                   end
    end.

  Definition is_tst (gs : graphs) (i : nat) : res bool :=
    match im_get Nat.eqb i (lookup_name gs) with
    | Some n => Ok (ty_eqb (n_ty n) TST)
    | None => Panic
    end.

  (** graph.rs:131-140: the neighbour loop for REQ and SPC *)
  Fixpoint sum_parts2 (gs : graphs) (impld tested : table) (ids : list nat) (a : stats M) : res (stats M) :=
    match ids with
    | [] => Ok a
    | i :: ids' =>
        match im_get Nat.eqb i tested with
        | None => Panic
        | Some t =>
            let a1 := mkStats (st_count a) (st_value a) (S (st_tcount a)) (nadd M (st_tvalue a) t) in
            match is_tst gs i with
            | Ok true => sum_parts2 gs impld tested ids' a1
            | Ok false =>
                match im_get Nat.eqb i impld with
                | None => Panic
                | Some v =>
                    sum_parts2 gs impld tested ids'
                      (mkStats (S (st_count a1)) (nadd M (st_value a1) v) (st_tcount a1) (st_tvalue a1))
                end
            | _ => Panic
            end
        end
    end.

  (** graph.rs:112-146: one iteration *)
  Definition complete_one (gs : graphs) (impls : list (nat * impl)) (subnames : list (name * list subname))
             (id : nat) (acc : table * table) : res (table * table) :=
    match im_get Nat.eqb id (lookup_name gs) with
    | None => Panic
    | Some n =>
        match im_get name_eqb n subnames with
        | None => Ok acc
        | Some sub =>
            match im_get Nat.eqb id impls with
            | None => Panic
            | Some i =>
                let st := to_statistics M i sub in
                let nb := neighbors (g_full gs) id in
                let (impld, tested) := acc in
                res_bind
                  (if ty_eqb (n_ty n) TST
                   then res_bind (sum_parts impld nb (st_count st, st_value st)) (fun cv =>
                        Ok (mkStats (fst cv) (snd cv) (fst cv) (snd cv)))
                   else sum_parts2 gs impld tested nb st)
                  (fun r =>
                     Ok (im_insert Nat.eqb id (ratio (st_value r) (st_count r)) impld,
                         im_insert Nat.eqb id (ratio (st_tvalue r) (st_tcount r)) tested))
            end
        end
    end.

  Fixpoint complete_all (gs : graphs) (impls : list (nat * impl)) (subnames : list (name * list subname))
           (order : list nat) (acc : table * table) : res (table * table) :=
    match order with
    | [] => Ok acc
    | id :: order' => res_bind (complete_one gs impls subnames id acc)
                               (complete_all gs impls subnames order')
    end.

  (** Result: (spc, tst) by name. *)
  Definition determine_completed (gs : graphs) (impls : list (name * impl))
             (subnames : list (name * list subname)) : res (list (name * (F M * F M))) :=
    match topo (g_full gs) with
    | None => Ok (im_collect name_eqb (map (fun e => (fst e, (f0 M, f0 M))) impls))
    | Some sorted =>
        res_bind
          (res_map (fun e : name * impl =>
                      match im_get name_eqb (fst e) (lookup_id gs) with
                      | Some id => Ok (id, snd e)
                      | None => Panic
                      end) impls)
          (fun byid =>
        let byid := im_collect Nat.eqb byid in
        res_bind (complete_all gs byid subnames (rev sorted) ([], [])) (fun acc =>
        if negb (Nat.eqb (length byid) (length (fst acc)) && Nat.eqb (length byid) (length (snd acc)))
        then Panic else
        res_bind
          (res_map (fun e : nat * T M =>
                      match im_get Nat.eqb (fst e) (snd acc), im_get Nat.eqb (fst e) (lookup_name gs) with
                      | Some t, Some n => Ok (n, (nround M (snd e), nround M t))
                      | _, _ => Panic
                      end) (fst acc))
          (fun l =>
             let out := im_collect name_eqb l in
             if negb (Nat.eqb (length byid) (length out)) then Panic else Ok out)))
    end.
End Completed.

(** artifact-lib/src/lib.rs:51-73, [Artifact]; [H] is the type of ids ([HashIm]) *)
Record artifact (M : num) (H : Type) := mkArt {
  a_id : H; a_name : name; a_file : path; a_partof : list name; a_parts : list name;
  a_completed : F M * F M; a_text : str; a_impl : impl; a_subnames : list subname }.
Arguments mkArt {M H}.  Arguments a_id {M H}.  Arguments a_name {M H}.  Arguments a_file {M H}.
Arguments a_partof {M H}.  Arguments a_parts {M H}.  Arguments a_completed {M H}.
Arguments a_text {M H}.  Arguments a_impl {M H}.  Arguments a_subnames {M H}.

(** artifact.rs:26-32, [ArtifactsLoaded] *)
Record loaded := mkLoaded {
  l_ims : list (name * art_im); l_graphs : graphs; l_partofs : list (name * list name);
  l_parts : list (name * list name); l_subnames : list (name * list subname) }.

(** artifact.rs:37-56, [finalize_load_artifact]; the two [rayon::join] halves share nothing *)
Definition finalize_load (ims : list (name * art_im)) : res loaded :=
  res_bind (determine_partofs ims) (fun partofs =>
  res_bind (determine_graphs partofs) (fun gs =>
  res_bind (determine_parts gs) (fun parts =>
  Ok (mkLoaded ims gs partofs parts (determine_subnames ims))))).

(** artifact.rs:61-117, [determine_artifacts]: [take] is the [remove!] macro, [take_all] the
    closure body, [build_all] the iteration over [defined]; the [debug_assert!]s at the end
    are modelled as in a debug build. *)
Section Build.
  Variable M : num.
  Variable topo : graph -> option (list nat).
  Variable H : Type.
  Variable hash_im : art_im -> H.

  Definition take {V} (n : name) (m : list (name * V)) : res (V * list (name * V)) :=
    match im_get name_eqb n m with
    | Some v => Ok (v, im_remove name_eqb n m)
    | None => Panic
    end.

  Record pools := mkPools {
    q_ids : list (name * H); q_partofs : list (name * list name); q_parts : list (name * list name);
    q_completed : list (name * (F M * F M)); q_ims : list (name * art_im);
    q_impls : list (name * impl); q_subnames : list (name * list subname) }.

  Definition take_all (n : name) (file : path) (q : pools) : res (artifact M H * pools) :=
    res_bind (take n (q_ids q)) (fun i =>
    res_bind (take n (q_partofs q)) (fun po =>
    res_bind (take n (q_parts q)) (fun pa =>
    res_bind (take n (q_completed q)) (fun co =>
    res_bind (take n (q_ims q)) (fun im =>
    res_bind (take n (q_impls q)) (fun il =>
    res_bind (take n (q_subnames q)) (fun su =>
    Ok (mkArt (fst i) n file (fst po) (fst pa) (fst co) (im_text (fst im)) (fst il) (fst su),
        mkPools (snd i) (snd po) (snd pa) (snd co) (snd im) (snd il) (snd su))))))))).

  Fixpoint build_all (defined : list (name * path)) (q : pools)
    : res (list (name * artifact M H) * pools) :=
    match defined with
    | [] => Ok ([], q)
    | (n, file) :: rest =>
        res_bind (take_all n file q) (fun aq =>
        res_bind (build_all rest (snd aq)) (fun r => Ok ((n, fst aq) :: fst r, snd r)))
    end.

  Definition is_nil {A} (l : list A) : bool := match l with [] => true | _ => false end.

  Definition determine_artifacts (l : loaded) (code : list (name * impl_code))
             (defined : list (name * path)) : res (list (name * artifact M H)) :=
    let impls := determine_impls (l_ims l) code in
    res_bind (determine_completed M topo (l_graphs l) impls (l_subnames l)) (fun completed =>
    let ids := im_collect name_eqb (map (fun e => (fst e, hash_im (snd e))) (l_ims l)) in
    res_bind (build_all defined (mkPools ids (l_partofs l) (l_parts l) completed (l_ims l) impls (l_subnames l)))
      (fun r =>
       if is_nil (q_partofs (snd r)) && is_nil (q_completed (snd r)) && is_nil (q_ims (snd r)) &&
          is_nil (q_impls (snd r)) && is_nil (q_subnames (snd r))
       then Ok (im_collect name_eqb (fst r)) else Panic)).

  (** Loading and building together, as in project.rs:135-157: the artifacts received from
      the readers are joined, completed with their links, and assembled. *)
  Definition build (arts : list art_im) (code : list (name * impl_code))
    : res (list (name * artifact M H)) :=
    let j := join_artifacts_raw arts in
    res_bind (finalize_load (j_ims j)) (fun l => determine_artifacts l code (j_files j)).
End Build.
