(** What the server sends to the web client and what it makes of the client's operations. *)
From Verif Require Import Base Name Artifact Stored Modify Web.

Section Wire.
  Context {M : num} {H : Type}.
  (** The text of a path in JSON ([PathSer]: path_abs, stfu8) and back. *)
  Variable enc : path -> str.
  Variable dec : str -> option path.

  (** artifact-lib/src/lib.rs:47-74, [Artifact] as JSON, read as artifact-ser/src/ser.rs:134-144,
      [ArtifactSer]; names are written raw (artifact-ser/src/name.rs:285-302) *)
  Definition serve (a : artifact M H) : sart H :=
    mkSart (a_id a) (a_name a) (enc (a_file a)) (a_partof a) (match a_impl a with IDone d => Some d | _ => None end) (a_text a).
  (** artifact-ser/src/ser.rs:232-238, [ArtifactImSer] as JSON, read as artifact-lib/src/lib.rs:227-235,
      [ArtifactIm] *)
  Definition receive_im (x : sim) : option art_im :=
    match dec (si_file x) with
    | Some f => Some (mkIm (si_name x) f (si_partof x) (si_done x) (si_text x))
    | None => None
    end.
  (** artifact-ser/src/ser.rs:52-64, [ArtifactOpSer], read as artifact-lib/src/lib.rs:296-312,
      [ArtifactOp] *)
  Definition receive (o : sop H) : option (op H) :=
    match o with
    | SCreate a => match receive_im a with Some b => Some (OCreate b) | None => None end
    | SUpdate a i => match receive_im a with Some b => Some (OUpdate b i) | None => None end
    end.
End Wire.
