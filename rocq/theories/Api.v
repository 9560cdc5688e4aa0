(** artifact-ser/src/ser.rs and artifact-ser/src/lib.rs: what every consumer of the served
    project calls: shown paths, the lookup of code locations, names of methods and errors. *)
From Verif Require Import Base Name Artifact.

(** ser.rs:118-130, [SettingsSer::trim_base] *)
Definition trim_base (base p : str) : str :=
  if starts_with p base
  then match skipn (length base) p with
       | c :: q => if N.eqb c c_slash then q else c :: q
       | [] => []
       end
  else p.

(** The text of an absolute path ([PathSer], artifact-ser/src/ser.rs; [settings.base] is one too). *)
Definition path_text (p : path) : str := c_slash :: join [c_slash] p.

(** ser.rs:76-94, [ProjectSer::get_impl]; the texts of the errors are left out *)
Definition get_impl (code : list (name * impl_code)) (x : str) (sub : option str) : res code_loc :=
  res_bind (name_from_str x) (fun n =>
  match im_get name_eqb n code with
  | None => Err
  | Some c =>
      match sub with
      | None => match ic_primary c with Some l => Ok l | None => Err end
      | Some y => res_bind (sub_from_str y) (fun sn =>
                  match im_get sub_eqb sn (ic_secondary c) with Some l => Ok l | None => Err end)
      end
  end).

(** lib.rs:341-359, [ModifyErrorKind] *)
Inductive error_kind := InvalidFromLoad | InvalidPaths | HashMismatch | InvalidFromModify | CreateBackups | SaveProject.
(** lib.rs:375-384, [ModifyErrorKind::as_str] *)
Definition kind_str (k : error_kind) : str :=
  match k with
  | InvalidFromLoad => s "InvalidFromLoad"
  | InvalidPaths => s "InvalidPaths"
  | HashMismatch => s "HashMismatch"
  | InvalidFromModify => s "InvalidFromModify"
  | CreateBackups => s "CreateBackups"
  | SaveProject => s "SaveProject"
  end.
(** lib.rs:362-373, [ModifyErrorKind::from_str] *)
Definition kind_from_str (x : str) : option error_kind :=
  if str_eqb x (s "InvalidFromLoad") then Some InvalidFromLoad
  else if str_eqb x (s "InvalidPaths") then Some InvalidPaths
  else if str_eqb x (s "HashMismatch") then Some HashMismatch
  else if str_eqb x (s "InvalidFromModify") then Some InvalidFromModify
  else if str_eqb x (s "CreateBackups") then Some CreateBackups
  else if str_eqb x (s "SaveProject") then Some SaveProject
  else None.

(** lib.rs:396-417, [Method] *)
Inductive method := ReadProject | ModifyProject.
Definition method_str (m : method) : str :=
  match m with ReadProject => s "ReadProject" | ModifyProject => s "ModifyProject" end.
Definition method_from_str (x : str) : option method :=
  if str_eqb x (s "ReadProject") then Some ReadProject
  else if str_eqb x (s "ModifyProject") then Some ModifyProject
  else None.
