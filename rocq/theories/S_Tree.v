(** Specification of trees, of the two sides of a tree edge and of population
    balance, independent of any search. *)
From Coq Require Import List Bool Arith ZArith QArith Qabs.
From Verif Require Import Base M_Graph M_Partition S_Partition M_Machine S_Machine S_Contiguity.
Import ListNotations.
Local Open Scope nat_scope.

Section Spec.
  Context {N : Type} {EN : EqB N}.

  (** A tree: connected, with one edge fewer than nodes. *)
  Record is_tree (T : graph N) : Prop := {
    tree_wf : wf_graph T;
    tree_connected : forall u v, In u (g_nodes T) -> In v (g_nodes T) -> reach (adj T) u v;
    tree_size : S (List.length (g_edges T)) = List.length (g_nodes T)
  }.
  (** A spanning tree of [g]. *)
  Definition spanning_tree (g T : graph N) : Prop :=
    is_tree T /\ (forall n, In n (g_nodes T) <-> In n (g_nodes g)) /\ (forall u v, adj T u v -> adj g u v).

  (** A step along an edge of [T] other than the edge between [u] and [v]. *)
  Definition adj_without (T : graph N) (u v a b : N) : Prop :=
    adj T a b /\ ~ (a = u /\ b = v) /\ ~ (a = v /\ b = u).
  (** The nodes on [u]'s side when the edge between [u] and [v] is removed. *)
  Definition side (T : graph N) (u v : N) (x : N) : Prop := reach (adj_without T u v) u x.

  (** A population within the tolerance of the target. *)
  Definition balanced (target eps : Q) (x : Z) : Prop := (Qabs (inject_Z x - target) <= target * eps)%Q.
  (** The nodes with property [S] have a balanced total population. *)
  Definition balanced_set (pop : N -> Z) (target eps : Q) (S : N -> Prop) : Prop :=
    exists x, sums_to pop S x /\ balanced target eps x.
End Spec.
