(** What is expected of [petgraph::algo::toposort], and well-formed graphs. *)
From Verif Require Import Base Artifact.
From Coq Require Import Relations.

Record graph_wf (g : graph) : Prop := {
  gw_nodes : NoDup (g_nodes g);
  gw_edges : NoDup (g_edges g);
  gw_in : forall a b, In (a, b) (g_edges g) -> In a (g_nodes g) /\ In b (g_nodes g) }.

(** [a] occurs before [b] *)
Definition before (l : list nat) (a b : nat) : Prop := exists l1 l2 l3, l = l1 ++ a :: l2 ++ b :: l3.

(** All nodes once, sources of edges first. *)
Definition topo_order (g : graph) (l : list nat) : Prop :=
  NoDup l /\ (forall x, In x l <-> In x (g_nodes g)) /\
  (forall a b, In (a, b) (g_edges g) -> before l a b).

Definition graph_cyclic (g : graph) : Prop :=
  exists x, clos_trans nat (fun a b => In (a, b) (g_edges g)) x x.

(** The contract of the library: an order, or an error for cyclic graphs only. *)
Definition topo_ok (topo : graph -> option (list nat)) : Prop :=
  forall g, graph_wf g ->
    match topo g with
    | Some l => topo_order g l
    | None => graph_cyclic g
    end.
