(** artifact-frontend/src/graph.rs:85-136, [graph_html_results]: the dot text of the search graph.

    The focus and the connections are hash tables: the text depends on the order in which they
    are walked, which is arbitrary.  Drawing the text (viz.js) is not modelled; nor is the page
    around it. *)
From Coq Require Import Permutation ZArith.
From Verif Require Import Api Render.
From Verif Require Import Base Regex Name Artifact Lint.

Section WebGraph.
  Context {M : num} {H : Type}.
  Variable reported : F M -> Z.
  Variable p : project M H.
  Notation artifact := (artifact M H).

  (** graph.rs:94-100; [HashMap<&Name, _>] compares by key, as the map it is taken from *)
  Definition focus_of (re : str -> bool) : list (name * artifact) := filter (fun e => re (n_raw (fst e))) (pr_arts p).

  (** graph.rs:102-120, the body of the loop: the neighbours that are not in focus *)
  Definition around (focus : list (name * artifact)) (l : list name) : res (list str) :=
    res_map (fun q => if im_mem name_eqb q focus then Ok [] else name_dot reported p q false) l.
  Definition focus_dot (focus : list (name * artifact)) (e : name * artifact) : res str :=
    res_bind (name_dot reported p (fst e) true) (fun d0 =>
    res_bind (around focus (a_parts (snd e))) (fun d1 =>
    res_bind (around focus (a_partof (snd e))) (fun d2 =>
    Ok (d0 ++ concat d1 ++ concat d2)))).

  (** graph.rs:122-131: a set of pairs; equality of pairs is equality of both names *)
  Definition pair_eqb (x y : name * name) : bool := name_eqb (fst x) (fst y) && name_eqb (snd x) (snd y).
  Definition pairs_of (e : name * artifact) : list (name * name) :=
    map (fun q => (fst e, q)) (a_parts (snd e)) ++ map (fun q => (q, fst e)) (a_partof (snd e)).
  Definition connections (fs : list (name * artifact)) : list (name * name) := is_collect pair_eqb (flat_map pairs_of fs).

  (** The text, for one order [fs] of the focus and one order [cs] of the connections *)
  Definition graph_text (fs : list (name * artifact)) (cs : list (name * name)) : res str :=
    res_bind (res_map (focus_dot fs) fs) (fun ds =>
    Ok (wrap_dot (concat ds ++ concat (map (fun c => connect_names_dot (fst c) (snd c)) cs)) false)).

  (** graph.rs:88-91: [parse] is the regex library; without a valid expression there is no graph *)
  Inductive graph_results (parse : str -> option (str -> bool)) (search : str) : option (res str) -> Prop :=
  | GInvalid : parse search = None -> graph_results parse search None
  | GDrawn re fs cs : parse search = Some re -> Permutation (focus_of re) fs -> Permutation (connections fs) cs ->
      graph_results parse search (Some (graph_text fs cs)).
End WebGraph.
