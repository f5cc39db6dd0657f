(** Model of the graphs the library works on.

    /repo/gerrychain/graph/graph.py:508-580 (FrozenGraph) wraps a networkx
    Graph.  A graph is its node list and its undirected edge list (each edge
    once, in some orientation).  Simplification: networkx's adjacency
    dictionaries are replaced by searches in the edge list; node and edge
    attributes are kept outside of this record. *)
From Coq Require Import List Bool Arith.
From Verif Require Import Base.
Import ListNotations.

Record graph (N : Type) := mkGraph { g_nodes : list N; g_edges : list (N * N) }.
Arguments mkGraph {N}. Arguments g_nodes {N}. Arguments g_edges {N}.

Section Graph.
  Context {N : Type} {EN : EqB N}.

  (** networkx Graph.neighbors, used through
      /repo/gerrychain/graph/graph.py:559-561 (FrozenGraph.neighbors). *)
  Definition nbrs_in_edge (v : N) (e : N * N) : list N :=
    (if eqb (fst e) v then [snd e] else []) ++ (if eqb (snd e) v then [fst e] else []).
  Definition neighbors (g : graph N) (v : N) : list N :=
    set_of (flat_map (nbrs_in_edge v) (g_edges g)).

  (** /repo/gerrychain/graph/graph.py:579-580 (FrozenGraph.subgraph) *)
  Definition subgraph (g : graph N) (s : list N) : graph N :=
    mkGraph (filter (fun v => mem v s) (g_nodes g))
            (filter (fun e => mem (fst e) s && mem (snd e) s) (g_edges g)).

  (** networkx's level-by-level search ([_plain_bfs] in
      networkx.algorithms.components.connected).  [fuel] bounds the number of
      levels. *)
  Fixpoint plain_bfs (fuel : nat) (nbrs : N -> list N) (seen level : list N) : res (list N) :=
    match level with
    | [] => Ok seen
    | _ :: _ =>
      match fuel with
      | 0 => NoFuel
      | S f =>
        let new := set_of (sdiff (flat_map nbrs level) seen) in
        plain_bfs f nbrs (seen ++ new) new
      end
    end.

  (** networkx.is_connected: raises NetworkXPointlessConcept on the null
      graph, otherwise compares the size of one component with the size of
      the graph. *)
  Definition is_connected (g : graph N) : res bool :=
    match g_nodes g with
    | [] => Err PointlessConcept
    | v :: _ =>
      c <- plain_bfs (S (length (g_nodes g))) (neighbors g) [v] [v] ;;
      Ok (Nat.eqb (length c) (length (g_nodes g)))
    end.
End Graph.
