(** Specification of the cuts that a cut search should find, in terms of the
    sides of a tree edge ([S_Tree]).  Only the argument and result records
    ([populated], [cut]) are shared with the model. *)
From Coq Require Import List Bool Arith ZArith QArith Qabs.
From Verif Require Import Base M_Graph M_Partition S_Partition M_Machine S_Machine S_Contiguity M_Tree S_Tree.
Import ListNotations.
Local Open Scope nat_scope.

Section Spec.
  Context {N : Type} {EN : EqB N}.

  (** A tree with a population for each node. *)
  Record cut_input (h : populated N) : Prop := {
    ci_tree : is_tree (h_tree h);
    ci_keys : NoDup (dkeys (h_pop h));
    ci_pop : forall n, In n (dkeys (h_pop h)) <-> In n (g_nodes (h_tree h))
  }.
  Definition pop_of (h : populated N) (n : N) : Z := dget_or 0%Z (h_pop h) n.
  Definition side_balanced (h : populated N) (u v : N) : Prop :=
    balanced_set (pop_of h) (h_ideal h) (h_eps h) (side (h_tree h) u v).
  (** As [side_balanced], without equality. *)
  Definition side_strictly_balanced (h : populated N) (u v : N) : Prop :=
    exists x, sums_to (pop_of h) (side (h_tree h) u v) x /\
      (Qabs (inject_Z x - h_ideal h) < h_ideal h * h_eps h)%Q.
  Definition both_balanced (h : populated N) (u v : N) : Prop := side_balanced h u v /\ side_balanced h v u.
  Definition some_balanced (h : populated N) (u v : N) : Prop := side_balanced h u v \/ side_balanced h v u.

  Definition cuts_edge (c : cut N) (u v : N) : Prop := cut_edge c = (u, v) \/ cut_edge c = (v, u).
  (** Exactly one cut for each edge of the tree with property [Pr], and no
      other cut. *)
  Record one_cut_for (h : populated N) (Pr : N -> N -> Prop) (cuts : list (cut N)) : Prop := {
    oc_sound : forall c u v, In c cuts -> cuts_edge c u v -> adj (h_tree h) u v /\ (Pr u v \/ Pr v u);
    oc_complete : forall u v, adj (h_tree h) u v -> Pr u v -> exists c, In c cuts /\ cuts_edge c u v;
    oc_once : forall i j c c' u v, nth_error cuts i = Some c -> nth_error cuts j = Some c' ->
      cuts_edge c u v -> cuts_edge c' u v -> i = j
  }.
  (** The subset of a cut is the side of one end of its edge. *)
  Definition cut_off (h : populated N) (c : cut N) (u v : N) : Prop :=
    cuts_edge c u v /\ NoDup (cut_subset c) /\ forall x, In x (cut_subset c) <-> side (h_tree h) u v x.
End Spec.
