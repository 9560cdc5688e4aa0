(** What the page of an artifact makes of its text. *)
From Coq Require Import ZArith.
From Verif Require Import Api Render SpecRender SpecExport.
From Verif Require Import Base Regex Name SpecName Artifact Lint.

(** No line of a block but the first starts with three back ticks and an opening bracket. *)
Definition plain_block (k : piece) : Prop :=
  match k with PDot f w b => forall u v, b <> u ++ 10%N :: s "```[[" ++ v | _ => True end.

Section Seen.
  Context {M : num} {H : Type}.
  Variable viz : str -> str.
  Variable reported : F M -> Z.
  Variable path_str : path -> str.
  Variable strfmt : str -> str -> str -> option str.
  Variable p : project M H.
  Variable base : str.
  Variable ms : md_settings.
  (** A block becomes the picture of its graph, without the blank lines in front; everything else
      is as in the exported text. *)
  Inductive seen (parent : str) : piece -> str -> Prop :=
  | VGraph f w b o w' x : SpecExport.graph reported p parent (b ++ [10%N]) o -> Forall (fun c => is_ws c = true) w' -> x <> [] ->
      w ++ [10%N] ++ o = w' ++ [10%N] ++ x -> (forall u v, x = u ++ [10%N] ++ v -> Forall (fun c => is_ws c = true) u -> v = []) ->
      seen parent (PDot f w b) ([10%N] ++ s "<html>" ++ [10%N] ++ viz (x ++ [10%N]) ++ [10%N] ++ s "</html>" ++ [10%N])
  | VOther k o : (forall f w b, k <> PDot f w b) -> shown reported path_str strfmt p base ms parent k o -> seen parent k o.
End Seen.
