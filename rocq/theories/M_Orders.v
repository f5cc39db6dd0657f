(** The proposals with the order in which a set is listed as an argument.

    [tuple(s)] and [list(s)] of a set list its elements in an order that depends
    on hash values and on the history of the set; for strings it differs between
    two runs of one program unless PYTHONHASHSEED is set.  The other models list
    a set in the order of insertion.  Here every such list goes through a function
    of the caller's choice first. *)
From Coq Require Import String List Bool Arith ZArith QArith.
From Verif Require Import Base M_Graph M_Partition M_Machine M_Election M_Proposals M_Tree M_Recursive M_Recom.
Import ListNotations.
Local Open Scope nat_scope.
Local Open Scope string_scope.
Local Open Scope list_scope.

Section Orders.
  Context {N P V L : Type} {EN : EqB N} {EP : EqB P} {EL : EqB L} {ON : Ord N} {OP : Ord P} {RV : CRing V}.
  Variable E : env N P V L.
  Notation g := (e_graph E).
  Notation M := (@M N P V L).
  Notation "'do' x <- m ; f" := (bindM m (fun x => f))
    (at level 200, x name, m at level 100, f at level 200, right associativity).
  (** Orders of sets of edges, of (node, district) pairs, of nodes and of
      districts. *)
  Variables (oe : list (N * N) -> list (N * N)) (om : list (N * P) -> list (N * P)) (on : list N -> list N) (op : list P -> list P).

  (** proposals/proposals.py:79-95, [tuple(partition["cut_edges"])] *)
  Definition random_flip_in (r : nat) (b : bool) (a : nat) : M nat :=
    do o <- get_obj a ;
    do cuts <- cut_edges_of E a ;
    if Nat.eqb (List.length cuts) 0 then ret a
    else
      do edge <- lift (choice r (oe cuts)) ;
      let no := orient b edge in
      do p <- lift (part_of (o_assign o) (snd no)) ;
      flip E a [(fst no, p)].

  (** proposals.py:49-76, [tuple(partition["cut_edges"])] *)
  Definition chunk_flip_in (r : nat) (b : bool) (a : nat) : M nat :=
    do o <- get_obj a ;
    do cuts <- cut_edges_of E a ;
    do edge <- lift (choice r (oe cuts)) ;
    do flips <- lift (chunk_flips E (o_assign o) (fst (orient b edge))) ;
    flip E a flips.

  (** proposals.py:25-46, [tuple(dist_edges)] *)
  Definition every_district_in (draws : nat -> nat * bool) (a : nat) : M nat :=
    do o <- get_obj a ;
    do v <- read E a "cut_edges_by_part" ;
    do d <- lift (as_edges_by v) ;
    do flips <- lift (every_district_flips (o_assign o) draws 0 (map oe (dvals d)) []) ;
    flip E a flips.

  (** proposals.py:98-130: the cut edges are gone through twice, the boundary
      nodes and the districts of the neighbours are listed *)
  Definition bi_in (r1 r2 : nat) (a : nat) : M nat :=
    do o <- get_obj a ;
    do cuts <- cut_edges_of E a ;
    let b_nodes := on (sunion (set_of (map fst (oe cuts))) (set_of (map snd (oe cuts)))) in
    do node <- lift (choice r1 b_nodes) ;
    do ps <- lift (mapM (part_of (o_assign o)) (neighbors g node)) ;
    let nas := op (set_of ps) in
    do own <- lift (part_of (o_assign o) node) ;
    do rest <- lift (if mem own nas then Ok (sdiff nas [own]) else Err ValueError) ;
    do p <- lift (choice r2 rest) ;
    flip E a [(node, p)].

  (** proposals.py:136-157: the cut edges are gone through twice, the pairs are
      listed *)
  Definition slow_in (r : nat) (a : nat) : M nat :=
    do o <- get_obj a ;
    do cuts <- cut_edges_of E a ;
    do moves <- lift (reversible_moves (o_assign o) (oe cuts)) ;
    do m <- lift (choice r (om moves)) ;
    flip E a [m].

  (** proposals/tree_proposals.py:36-146, [tuple(partition["cut_edges"])] *)
  Definition recom_in (pop : dict N Z) (method : @method_fn N) (draws : nat -> nat) (target eps : Q) (fuel : nat) (a : nat) : M nat :=
    do o <- get_obj a ;
    let n := List.length (a_parts (o_assign o)) in
    do cuts <- (if Nat.ltb 0 (n * (n - 1)) then cut_edges_of E a else ret []) ;
    do flips <- lift (recom_loop E pop method draws target eps fuel (o_assign o) (oe cuts) n [] 0 0) ;
    flip E a flips.

  (** tree_proposals.py:222-267, [list(pair_edges)] *)
  Definition reversible_in (pop : dict N Z) (balance : @balance_fn N) (tree : graph N -> nat -> res (graph N)) (target eps : Q)
             (weights : nat -> N * N -> Q) (draws : nat -> nat) (fuel : nat) (max : option nat) (repeat : bool) (bound : nat)
             (r1 r2 r3 : nat) (u : Q) (a : nat) : M nat :=
    do o <- get_obj a ;
    let A := o_assign o in
    do pair <- lift (choice r1 (list_prod (dkeys (a_parts A)) (dkeys (a_parts A)))) ;
    let pair_edges := dist_pair_edges E A (fst pair) (snd pair) in
    if eqb (fst pair) (snd pair) || Nat.eqb (List.length pair_edges) 0 then ret a
    else
      do edge <- lift (choice r2 (oe pair_edges)) ;
      do p <- lift (part_of A (fst edge)) ;
      do q <- lift (part_of A (snd edge)) ;
      do nodes <- lift (merged A p q) ;
      do cuts <- lift (search_cuts E pop tree target eps weights draws fuel max repeat (bounded bound balance) nodes) ;
      match cuts with
      | [] => ret a
      | _ =>
        do c <- lift (choice r3 cuts) ;
        let rest := sdiff (g_nodes (subgraph g nodes)) (set_of (cut_subset c)) in
        do b <- flip E a (assign_all rest q (assign_all (cut_subset c) p [])) ;
        do o' <- get_obj b ;
        let seam := List.length (dist_pair_edges E (o_assign o') (fst pair) (snd pair)) in
        do prob <- lift (qdiv (Qn (List.length cuts)) (Qn bound * Qn seam)) ;
        if qlt 1 prob then lift (Err ReversibilityError)
        else if qlt u prob then ret b else ret a
      end.
End Orders.
