(** The file system: a tree of directories and files.  Symbolic links, permissions and file
    metadata are not modelled; operations may fail (Modify.v). *)
From Verif Require Import Base Artifact.

Inductive node := NFile (text : str) | NDir (entries : list (str * node)).

(** Components of absolute paths name entries from the root. *)
Fixpoint assoc {A} (x : str) (l : list (str * A)) : option A :=
  match l with
  | [] => None
  | (y, v) :: l' => if str_eqb y x then Some v else assoc x l'
  end.
Fixpoint lookup (t : node) (p : path) : option node :=
  match p with
  | [] => Some t
  | x :: p' => match t with
               | NFile _ => None
               | NDir l => match assoc x l with Some c => lookup c p' | None => None end
               end
  end.
Definition is_dir (n : option node) : bool := match n with Some (NDir _) => true | _ => false end.
Definition file_at (t : node) (p : path) : option str := match lookup t p with Some (NFile c) => Some c | _ => None end.

(** Change the entry at a path whose directory exists ([None]: remove). *)
Fixpoint set_entry {A} (x : str) (v : option A) (l : list (str * A)) : list (str * A) :=
  match l with
  | [] => match v with Some c => [(x, c)] | None => [] end
  | (y, w) :: l' => if str_eqb y x then match v with Some c => (y, c) :: l' | None => l' end
                    else (y, w) :: set_entry x v l'
  end.
Fixpoint put (t : node) (p : path) (v : option node) : node :=
  match p, t with
  | [], _ => t
  | x :: p', NDir l =>
      match p' with
      | [] => NDir (set_entry x v l)
      | _ => match assoc x l with
             | Some c => NDir (set_entry x (Some (put c p' v)) l)
             | None => t
             end
      end
  | _, _ => t
  end.

(** Names in a directory are distinct. *)
Fixpoint tree_ok (t : node) : Prop :=
  match t with
  | NFile _ => True
  | NDir l => NoDup (map fst l) /\ (fix all l := match l with [] => True | (_, c) :: l' => tree_ok c /\ all l' end) l
  end.

Definition parent (p : path) : path := removelast p.

(** [rename]: the target is replaced if it is a file (POSIX). *)
Definition fs_rename (t : node) (src dst : path) : option node :=
  match lookup t src with
  | Some (NFile c) =>
      if is_dir (lookup t dst) || negb (is_dir (lookup t (parent dst))) then None
      else Some (put (put t src None) dst (Some (NFile c)))
  | _ => None
  end.
(** open with create and truncate, write everything *)
Definition fs_write (t : node) (p : path) (c : str) : option node :=
  match p with
  | [] => None
  | _ => if is_dir (lookup t p) || negb (is_dir (lookup t (parent p))) then None
         else Some (put t p (Some (NFile c)))
  end.
(** unlink *)
Definition fs_remove (t : node) (p : path) : option node :=
  match lookup t p with
  | Some (NFile _) => Some (put t p None)
  | _ => None
  end.
