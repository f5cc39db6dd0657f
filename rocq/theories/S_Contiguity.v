(** Specification of connectivity, independent of any search. *)
From Coq Require Import List Bool Arith.
From Verif Require Import Base M_Graph M_Partition S_Partition.
Import ListNotations.

Section Spec.
  Context {N P : Type} {EN : EqB N} {EP : EqB P}.

  (** [v] can be reached from [u] by zero or more steps of [R]. *)
  Inductive reach {X : Type} (R : X -> X -> Prop) (u : X) : X -> Prop :=
  | reach_refl : reach R u u
  | reach_step : forall v w, reach R u v -> R v w -> reach R u w.

  (** The nodes satisfying [S] induce a connected subgraph of [g]: any two are
      joined by a path of edges of [g] that stays inside [S]. *)
  Definition connected_on (g : graph N) (S : N -> Prop) : Prop :=
    forall u v, S u -> S v -> reach (fun a b => adj g a b /\ S a /\ S b) u v.

  Definition in_district (A : assignment N P) (p : P) (n : N) : Prop := district A n = Some p.

  (** A district is fine when it has a node and is connected. *)
  Definition district_ok (g : graph N) (A : assignment N P) (p : P) : Prop :=
    (exists n, in_district A p n) /\ connected_on g (in_district A p).

  (** A contiguous plan. *)
  Definition contiguous_plan (g : graph N) (A : assignment N P) : Prop :=
    forall p, In p (labels A) -> district_ok g A p.
End Spec.
