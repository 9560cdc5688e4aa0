(** artifact-data/src/implemented.rs: references to artifacts in source code. *)
From Verif Require Import Base Regex Name Artifact Lint.

(** implemented.rs:29-42, [SRC_NAME_RE].  Groups: 0 is the name (group 1 of the source), 1 the
    subname (group 2), 2 is "skip" and 3 is "done". *)
Definition re_src : re :=
  Alt (seqs [lit c_hash; Cap 0 re_name; opt (Cap 1 re_sub)])
      (Alt (Cap 2 (cis (s "#ART-SKIP"))) (Cap 3 (cis (s "#ART-DONE")))).

(** What [parse_locations] sends: location, name, subname. *)
Definition src_ref := (code_loc * name * option subname)%type.

(** How reading a file ends: normally, with an i/o error (unreadable file or a line that is not
    UTF-8), or with the reader thread panicking ([expect!(Name::from_str(..))]). *)
Inductive ending := EDone | EIo | EPanic.

(** implemented.rs:76-96, the loop over the matches of one line; [None] is the panic.  The result
    is the references sent, and the new value of [skipping]. *)
Fixpoint scan_matches (loc : code_loc) (skipping : bool) (l : list caps) : list src_ref * option bool :=
  match l with
  | [] => ([], Some skipping)
  | cs :: l' =>
      match cap_get 2 cs, cap_get 3 cs with
      | Some _, _ => scan_matches loc true l'
      | None, Some _ => scan_matches loc false l'
      | None, None =>
          if skipping then scan_matches loc skipping l'
          else match cap_get 0 cs with
               | None => ([], None)
               | Some x =>
                   match name_from_str x with
                   | Ok n =>
                       let (out, r) := scan_matches loc skipping l' in
                       ((loc, n, option_map sub_new (cap_get 1 cs)) :: out, r)
                   | _ => ([], None)
                   end
               end
      end
  end.

(** implemented.rs:73-98, the loop over the lines, [i] is the number of the next line.  [lines] are
    the lines [BufRead::lines] delivers up to the first error, [io] tells whether there is one. *)
Fixpoint scan_lines (file : path) (io : bool) (i : nat) (skipping : bool) (lines : list str) : list src_ref * ending :=
  match lines with
  | [] => ([], if io then EIo else EDone)
  | l :: ls =>
      let (out, r) := scan_matches (mkLoc file i) skipping (find_all re_src l) in
      match r with
      | None => (out, EPanic)
      | Some sk => let (out', e) := scan_lines file io (S i) sk ls in (out ++ out', e)
      end
  end.

(** implemented.rs:58-99, [parse_file] and [parse_locations] *)
Definition parse_locations (file : path) (lines : list str) (io : bool) : list src_ref * ending :=
  scan_lines file io 0 false lines.

(** implemented.rs:101-187, [join_locations].  A duplicate is recorded as the pair of locations
    (earlier, later) and the name as spelled in the later one; two lints are sent for each. *)
Definition src_dup := (code_loc * code_loc * str)%type.
Record joining := mkJoining {
  jl_dups : list src_dup; jl_primary : list (name * code_loc); jl_secondary : list (name * list (subname * code_loc)) }.

(** implemented.rs:149-174, [insert_secondary] *)
Definition insert_secondary (j : joining) (n : name) (sub : subname) (loc : code_loc) : joining :=
  match im_get name_eqb n (jl_secondary j) with
  | Some m =>
      mkJoining (match im_get sub_eqb sub m with
                 | Some orig => jl_dups j ++ [(orig, loc, name_full n (Some sub))]
                 | None => jl_dups j
                 end)
                (jl_primary j)
                (im_insert name_eqb n (im_insert sub_eqb sub loc m) (jl_secondary j))
  | None => mkJoining (jl_dups j) (jl_primary j) (im_insert name_eqb n [(sub, loc)] (jl_secondary j))
  end.
(** implemented.rs:112-119 *)
Definition join_loc (j : joining) (r : src_ref) : joining :=
  let '(loc, n, sub) := r in
  match sub with
  | Some sb => insert_secondary j n sb loc
  | None =>
      mkJoining (match im_get name_eqb n (jl_primary j) with
                 | Some orig => jl_dups j ++ [(orig, loc, n_raw n)]
                 | None => jl_dups j
                 end)
                (im_insert name_eqb n loc (jl_primary j)) (jl_secondary j)
  end.
(** implemented.rs:121-146 *)
Fixpoint join_primary (prim : list (name * code_loc)) (sec : list (name * list (subname * code_loc)))
  : list (name * impl_code) * list (name * list (subname * code_loc)) :=
  match prim with
  | [] => ([], sec)
  | (n, loc) :: prim' =>
      let (out, sec') := join_primary prim' (im_remove name_eqb n sec) in
      ((n, mkCode (Some loc) (match im_get name_eqb n sec with Some m => m | None => [] end)) :: out, sec')
  end.
Definition join_locations (refs : list src_ref) : list src_dup * list (name * impl_code) :=
  let j := fold_left join_loc refs (mkJoining [] [] []) in
  let (out, sec) := join_primary (jl_primary j) (jl_secondary j) in
  (jl_dups j, im_extend name_eqb (im_collect name_eqb out) (map (fun e => (fst e, mkCode None (snd e))) sec)).

(** implemented.rs:176-187, [duplicate_detected]: the two lints of a duplicate. *)
Definition dup_lints (path_str : path -> str) (d : src_dup) : list lint :=
  let '(a, b, msg) := d in
  map (fun l : code_loc => mkLint LError (Some (path_str (loc_file l))) (Some (loc_line l)) CParseCodeImplementations
                        (s "duplicate detected: " ++ msg)) [a; b].
