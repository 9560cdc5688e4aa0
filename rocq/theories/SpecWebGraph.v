(** What the search graph shows: nodes and arrows. *)
From Coq Require Import ZArith.
From Verif Require Import Api Render SpecRender SpecExport.
From Verif Require Import Base Regex Name SpecName Artifact Lint.

Section Drawn.
  Context {M : num} {H : Type}.
  Variable reported : F M -> Z.
  Variable p : project M H.

  (** The artifacts that are found *)
  Definition found (re : str -> bool) (n : name) (a : artifact M H) : Prop := In (n, a) (pr_arts p) /\ re (n_raw n) = true.
  Definition found_key (re : str -> bool) (k : str) : Prop := exists n a, found re n a /\ n_key n = k.
  (** [q] is written in the partof of [n] (given, or implied by the name): a link, by key *)
  Definition link (k1 k2 : str) : Prop := exists n a q, In (n, a) (pr_arts p) /\ In q (a_partof a) /\ k1 = n_key q /\ k2 = n_key n.

  (** The name and whether it is found, for each node; the keys of the ends, for each arrow *)
  Definition nodes_ok (re : str -> bool) (nodes : list (name * bool)) : Prop :=
    (forall n, In (n, true) nodes <-> exists a, found re n a) /\
    NoDup (map (fun e => n_key (fst e)) (filter snd nodes)) /\
    (forall q, In (q, false) nodes ->
       ~ found_key re (n_key q) /\ exists n a, found re n a /\ (link (n_key q) (n_key n) \/ link (n_key n) (n_key q))) /\
    (forall k n a, found re n a -> link k (n_key n) \/ link (n_key n) k -> exists e, In e nodes /\ n_key (fst e) = k).
  Definition arrows_ok (re : str -> bool) (arrows : list (str * str)) : Prop :=
    NoDup arrows /\ forall k1 k2, In (k1, k2) arrows <-> link k1 k2 /\ (found_key re k1 \/ found_key re k2).

  Definition frame (x : str) : str :=
    indent 8 (s "digraph G {") ++ indent 8 (s "graph [") ++ indent 12 (s "margin=0.001; label="""";") ++ indent 12 [] ++ indent 8 (s "];") ++
    indent 0 [] ++ indent 8 (s "////////////////////") ++ indent 8 (s "// DOT INSERTED HERE") ++ indent 0 [] ++ indent 8 x ++
    indent 0 [] ++ indent 8 (s "///////////////////") ++ indent 8 (s "// END INSERTED DOT") ++ indent 0 [] ++ indent 8 (s "}") ++ indent 8 [].
  Definition drawn (nodes : list (name * bool)) (arrows : list (str * str)) (o : str) : Prop :=
    exists ds, Forall2 (fun e x => ref_node reported p (snd e) (n_raw (fst e)) [] x) nodes ds /\
      o = frame (concat ds ++ concat (map (fun c => arrow (fst c) (snd c)) arrows)).
End Drawn.
