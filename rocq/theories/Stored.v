(** artifact-lib/src/lib.rs and artifact-data/src/intermediate.rs: the stored form of
    artifacts. *)
From Verif Require Import Base Name Family Artifact.

(** artifact-lib/src/lib.rs:259-275, [From<Artifact> for ArtifactIm] *)
Definition to_im {M H} (a : artifact M H) : art_im :=
  im_clean (mkIm (a_name a) (a_file a) (a_partof a)
                 (match a_impl a with IDone d => Some d | _ => None end) (a_text a)).

(** data/raw.rs:50-62, [ArtifactRaw] *)
Record art_raw := mkRaw { raw_done : option str; raw_partof : option (list name); raw_text : option str }.

(** data/intermediate.rs:34-51, [from_raw].  [drain(..).collect()] re-collects a set. *)
Definition from_raw (n : name) (file : path) (r : art_raw) : art_im :=
  mkIm n file
       (isort name_leb (match raw_partof r with
                        | Some p => is_collect name_eqb (strip_auto n p)
                        | None => []
                        end))
       (raw_done r)
       (match raw_text r with Some t => t | None => [] end).

(** data/intermediate.rs:53-72, [into_raw] *)
Definition into_raw (a : art_im) : path * name * art_raw :=
  (im_file a, im_name a,
   mkRaw (im_done a)
         (match im_partof a with [] => None | p => Some p end)
         (match im_text a with [] => None | t => Some t end)).
