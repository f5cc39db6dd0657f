(** Specification of proposals: moves of nodes between districts. *)
From Coq Require Import List Bool Arith.
From Verif Require Import Base M_Graph M_Partition S_Partition.
Import ListNotations.

Section Spec.
  Context {N P : Type} {EN : EqB N} {EP : EqB P}.
  (** Node [n] could move to [q]: it has a neighbour in district [q] and is not
      in [q] itself. *)
  Definition boundary_move (g : graph N) (A : assignment N P) (n : N) (q : P) : Prop :=
    exists m, adj g n m /\ district A m = Some q /\ district A n <> Some q.
  (** [A'] is [A] with the single node [n] moved to [q]. *)
  Definition moved (A : assignment N P) (n : N) (q : P) (A' : assignment N P) : Prop :=
    district A' n = Some q /\ forall x, x <> n -> district A' x = district A x.
  (** The plans agree on every node. *)
  Definition same_plan (A A' : assignment N P) : Prop := forall x, district A' x = district A x.
  (** Some edge joins two districts. *)
  Definition has_cut (g : graph N) (A : assignment N P) : Prop :=
    exists u v, adj g u v /\ district A u <> district A v.
End Spec.
