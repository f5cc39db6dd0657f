(** Specification vocabulary for plans: what an assignment means, independent
    of how flips are applied. *)
From Coq Require Import List Bool Arith.
From Verif Require Import Base M_Graph M_Partition.
Import ListNotations.

Section Spec.
  Context {N P : Type} {EN : EqB N} {EP : EqB P}.

  (** The district a plan reports for a node ([partition.assignment[n]]). *)
  Definition district (a : assignment N P) (n : N) : option P := dget (a_map a) n.

  (** Node [n] is listed under district [p] ([n in partition.parts[p]]). *)
  Definition listed (a : assignment N P) (p : P) (n : N) : Prop :=
    exists s, dget (a_parts a) p = Some s /\ In n s.

  (** District labels ([partition.parts.keys()]). *)
  Definition labels (a : assignment N P) : list P := dkeys (a_parts a).

  (** The two views of an assignment agree and cover exactly [nodes]. *)
  Record coherent (nodes : list N) (a : assignment N P) : Prop := {
    coh_map_keys : NoDup (dkeys (a_map a));
    coh_part_keys : NoDup (labels a);
    coh_dom : forall n, In n (dkeys (a_map a)) <-> In n nodes;
    coh_agree : forall n p, district a n = Some p <-> listed a p n;
    coh_parts_nodup : forall p s, dget (a_parts a) p = Some s -> NoDup s
  }.

  (** A Python dictionary has distinct keys. *)
  Definition is_dict {K V} (d : dict K V) : Prop := NoDup (dkeys d).

  (** Applying a list of flip dictionaries one after the other. *)
  Definition flip_history (a : assignment N P) (hist : list (dict N P))
    : res (assignment N P) := foldM flip_assignment hist a.

  (** Adjacency, and the meaning of "cut edge". *)
  Definition adj (g : graph N) (u v : N) : Prop :=
    In (u, v) (g_edges g) \/ In (v, u) (g_edges g).

  Record wf_graph (g : graph N) : Prop := {
    wfg_nodes : NoDup (g_nodes g);
    wfg_edges : NoDup (g_edges g);
    wfg_ends : forall u v, In (u, v) (g_edges g) -> In u (g_nodes g) /\ In v (g_nodes g);
    wfg_once : forall u v, In (u, v) (g_edges g) -> In (v, u) (g_edges g) -> u = v
  }.
End Spec.
