(** When do two reads give the same reply? *)
From Coq Require Import String List Bool.
From Verif Require Import Base M_Graph M_Partition M_Machine S_Machine.
Import ListNotations.

Section Reply.
  Context {N P V L : Type} {EN : EqB N} {EP : EqB P} {RV : CRing V}.

  (** The same entry under every label, counting a missing entry as the
      default (the empty set, or 0). *)
  Definition same_entries (v v' : value N P V L) : Prop :=
    match v, v' with
    | VEdgesBy d, VEdgesBy d' => forall p, dget_or [] d p = dget_or [] d' p
    | VNodesBy d, VNodesBy d' => forall p, dget_or [] d p = dget_or [] d' p
    | VNum d, VNum d' => forall p, dget_or (Num c0) d p = dget_or (Num c0) d' p
    | _, _ => v = v'
    end.

  (** Equal values; for the three updaters that return a defaultdict, the same
      entries. *)
  Definition same_value (u : updater N P V L) (v v' : value N P V L) : Prop :=
    match u with
    | UCutEdgesByPart | UExteriorSet | UExterior => same_entries v v'
    | _ => v = v'
    end.

  (** Both reads return the same value, or both raise the same exception. *)
  Definition same_reply (u : updater N P V L) (r r' : res (value N P V L)) : Prop :=
    match r, r' with
    | Ok v, Ok v' => same_value u v v'
    | Err e, Err e' => e = e'
    | _, _ => False
    end.

  (** Operations other than [plan.parent = None]. *)
  Definition no_erasure (x : op N P) : Prop :=
    match x with OErase _ => False | _ => True end.
End Reply.
