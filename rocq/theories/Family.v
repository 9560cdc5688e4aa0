(** artifact-ser/src/family.rs: parents and automatic links. *)
From Verif Require Import Base Name.

(** family.rs:89-96, [Name::parent].  [rfind] gives a byte offset; it is compared with 3
    only, and the first three characters of a parsed name are ASCII, so character offsets
    agree.  The two [expect]s are [Panic]. *)
Definition name_parent (n : name) : res (option name) :=
  match rsplit c_dash (n_raw n) with
  | None => Panic
  | Some (before, _) =>
      if Nat.eqb (length before) 3 then Ok None
      else match name_from_str before with
           | Ok p => Ok (Some p)
           | _ => Panic
           end
  end.

(** family.rs:104-114, [Name::auto_partof] *)
Definition name_auto (n : name) : res (option name) :=
  match (match n_ty n with REQ => None | SPC => Some REQ | TST => Some SPC end) with
  | None => Ok None
  | Some t =>
      match name_from_str (ty_str t ++ skipn 3 (n_raw n)) with
      | Ok p => Ok (Some p)
      | _ => Panic
      end
  end.

(** The same without the panic outcomes; C05 proves that they do not arise for parsed
    names, so the rest of the model uses these. *)
Definition parent_of (n : name) : option name :=
  match name_parent n with Ok o => o | _ => None end.
Definition auto_of (n : name) : option name :=
  match name_auto n with Ok o => o | _ => None end.

(** family.rs:162-180, [auto_partofs]: body of the loop, then the loop.  [known] is the key
    set of the map argument. *)
Definition auto_links (known : list name) (n : name) : list name :=
  let l1 := match parent_of n with
            | Some p => if is_mem name_eqb p known then is_insert name_eqb p [] else []
            | None => []
            end in
  match auto_of n with
  | Some p => if is_mem name_eqb p known then is_insert name_eqb p l1 else l1
  | None => l1
  end.
Definition auto_partofs (known : list name) : list (name * list name) :=
  fold_left (fun out n => im_insert name_eqb n (auto_links known n) out) known [].

(** artifact-ser/src/lib.rs:445-452, [strip_auto_partofs] *)
Definition strip_auto (n : name) (partof : list name) : list name :=
  let p1 := match parent_of n with Some a => is_remove name_eqb a partof | None => partof end in
  match auto_of n with Some a => is_remove name_eqb a p1 | None => p1 end.
