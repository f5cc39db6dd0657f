(** spectral_recom with the order in which the set of cut edges is listed as an
    argument; see M_Orders.v. *)
From Coq Require Import List Bool Arith Reals.
From Verif Require Import Base M_Graph M_Partition M_Machine M_Proposals M_Recom M_Spectral.
Import ListNotations.
Local Open Scope list_scope.

Section Order.
  Context {N P V L : Type} {EN : EqB N} {EP : EqB P} {EL : EqB L} {ON : Ord N} {OP : Ord P} {RV : CRing V}.
  Variable E : env N P V L.
  Notation g := (e_graph E).
  Notation M := (@M N P V L).
  Notation "'do' x <- m ; f" := (bindM m (fun x => f))
    (at level 200, x name, m at level 100, f at level 200, right associativity).
  Variable eigh : list N -> (N -> N -> R) -> list (R * (N -> R)).
  Variables (set_order : list N -> list N) (oe : list (N * N) -> list (N * N)).
  (** proposals/spectral_proposals.py:90-103, [tuple(partition["cut_edges"])] *)
  Definition spectral_in (r : nat) (random : option (N * N -> R)) (normalized : bool) (wts : dict (N * N) R)
             (a : nat) : M (nat * dict (N * N) R) :=
    do o <- get_obj a ;
    do cuts <- cut_edges_of E a ;
    do edge <- lift (choice r (oe cuts)) ;
    do p <- lift (part_of (o_assign o) (fst edge)) ;
    do q <- lift (part_of (o_assign o) (snd edge)) ;
    do nodes <- lift (merged (o_assign o) p q) ;
    let '(flips, wts') := spectral_cut eigh set_order (subgraph g nodes) (p, q) random normalized wts in
    do f <- lift flips ;
    do b <- flip E a f ;
    ret (b, wts').
End Order.
