(** Model of /repo/gerrychain/proposals/tree_proposals.py: recom and
    reversible_recom, on the plan objects of M_Machine.v.

    The bipartition method, the spanning trees and every random draw are
    arguments, as in M_Proposals.v and M_Recursive.v.  Populations of nodes are
    a dictionary [pop]. *)
From Coq Require Import String List Bool Arith ZArith QArith.
From Verif Require Import Base M_Graph M_Partition M_Machine M_Election M_Proposals M_Tree M_Recursive.
Import ListNotations.
Local Open Scope nat_scope.
Local Open Scope list_scope.

Section Recom.
  Context {N P V L : Type} {EN : EqB N} {EP : EqB P} {EL : EqB L} {ON : Ord N} {OP : Ord P} {RV : CRing V}.
  Variable E : env N P V L.
  Notation g := (e_graph E).
  Notation M := (@M N P V L).
  Notation "'do' x <- m ; f" := (bindM m (fun x => f))
    (at level 200, x name, m at level 100, f at level 200, right associativity).
  Variable pop : dict N Z.

  (** The populations seen through a subgraph: other nodes are a KeyError. *)
  Definition restrict (s : list N) : dict N Z := filter (fun kv => mem (fst kv) s) pop.
  (** tree_proposals.py:109-113: [parts_to_merge.sort()] *)
  Definition sorted_pair (p q : P) : P * P := if leb p q then (p, q) else (q, p).
  (** tree_proposals.py:118-120 and 238-240 *)
  Definition merged (A : assignment N P) (p q : P) : res (list N) :=
    s1 <- of_option KeyError (dget (a_parts A) p) ;;
    s2 <- of_option KeyError (dget (a_parts A) q) ;;
    Ok (sunion s1 s2).

  Section Method.
    Variables (method : @method_fn N) (draws : nat -> nat) (target eps : Q).
    (** tree_proposals.py:103-144.  [cuts] is partition["cut_edges"], [n] the
        number of parts, [bad] the set bad_district_pairs, [k] counts the random
        choices and [j] the calls of the method.  One step of the model is one
        round of the inner loop; going back to the head of the outer loop in
        between changes nothing, because [bad] is the same.  [bad] grows by one
        pair at a time, so the loop is left without [flips] only when
        len(bad_district_pairs) == tot_pairs. *)
    Fixpoint recom_loop (fuel : nat) (A : assignment N P) (cuts : list (N * N)) (n : nat)
             (bad : list (P * P)) (k j : nat) : res (dict N P) :=
      match fuel with
      | 0 => NoFuel
      | S fuel' =>
        if Nat.ltb (2 * List.length bad) (n * (n - 1)) then
          edge <- choice (draws k) cuts ;;
          p <- part_of A (fst edge) ;;
          q <- part_of A (snd edge) ;;
          let pair := sorted_pair p q in
          if mem pair bad then recom_loop fuel' A cuts n bad (S k) j
          else
            nodes <- merged A (fst pair) (snd pair) ;;
            match epsilon_tree_bipartition (fun _ => method j) (restrict nodes) (subgraph g nodes)
                    [fst pair; snd pair] target eps with
            | Err ReselectException => recom_loop fuel' A cuts n (sadd pair bad) (S k) (S j)
            | r => r
            end
        else Err MetagraphError
      end.
    (** tree_proposals.py:36-146.  The cut edges are read once, before the loop
        is first entered: later reads return the cached set. *)
    Definition recom (fuel : nat) (a : nat) : M nat :=
      do o <- get_obj a ;
      let n := List.length (a_parts (o_assign o)) in
      do cuts <- (if Nat.ltb 0 (n * (n - 1)) then cut_edges_of E a else ret []) ;
      do flips <- lift (recom_loop fuel (o_assign o) cuts n [] 0 0) ;
      flip E a flips.
  End Method.

  (** tree_proposals.py:191-205 dist_pair_edges; every node of a plan has a
      district, so the KeyError of mapping[...] is not modelled *)
  Definition joins (A : assignment N P) (p q : P) (e : N * N) : bool :=
    let d x := dget (a_map A) x in
    (eqb (d (fst e)) (Some p) && eqb (d (snd e)) (Some q)) || (eqb (d (fst e)) (Some q) && eqb (d (snd e)) (Some p)).
  Definition dist_pair_edges (A : assignment N P) (p q : P) : list (N * N) := filter (joins A p q) (g_edges g).
  (** tree_proposals.py:207-213 *)
  Definition bounded (bound : nat) (balance : @balance_fn N) : @balance_fn N := fun h one_sided d =>
    cuts <- balance h one_sided d ;;
    if Nat.ltb bound (List.length cuts) then Err ReversibilityError else Ok cuts.

  (** tree_proposals.py:250-253 [{node: p for node in nodes}] added to [f] *)
  Definition assign_all (nodes : list N) (p : P) (f : dict N P) : dict N P := fold_left (fun f n => dset f n p) nodes f.

  Section Reversible.
    Variables (balance : @balance_fn N) (tree : graph N -> nat -> res (graph N)) (target eps : Q)
              (weights : nat -> N * N -> Q) (draws : nat -> nat) (fuel : nat) (max : option nat) (repeat : bool) (bound : nat).
    (** tree_proposals.py:215-220 and 242-244 with tree.py:721-795: node_repeats
        is 1, the cuts are two-sided; max_attempts, 100000 in the code, is [max] *)
    Definition search_cuts (b : @balance_fn N) (nodes : list N) : res (list (cut N)) :=
      bipartition_tree_random_all (tree (subgraph g nodes))
        (fun T i => b (mkPopulated T (restrict nodes) target eps (weights i)) false (draws i))
        fuel max 1 repeat None.
    (** tree_proposals.py:222-267.  [r1] draws the pair of districts, [r2] the
        edge, [r3] the cut, [u] is random.random().  The pairs are listed in the
        order of the parts: any order is covered by quantifying over [r1]. *)
    Definition reversible_recom (r1 r2 r3 : nat) (u : Q) (a : nat) : M nat :=
      do o <- get_obj a ;
      let A := o_assign o in
      do pair <- lift (choice r1 (list_prod (dkeys (a_parts A)) (dkeys (a_parts A)))) ;
      let pair_edges := dist_pair_edges A (fst pair) (snd pair) in
      if eqb (fst pair) (snd pair) || Nat.eqb (List.length pair_edges) 0 then ret a
      else
        do edge <- lift (choice r2 pair_edges) ;
        do p <- lift (part_of A (fst edge)) ;
        do q <- lift (part_of A (snd edge)) ;
        do nodes <- lift (merged A p q) ;
        do cuts <- lift (search_cuts (bounded bound balance) nodes) ;
        match cuts with
        | [] => ret a
        | _ =>
          do c <- lift (choice r3 cuts) ;
          let rest := sdiff (g_nodes (subgraph g nodes)) (set_of (cut_subset c)) in
          do b <- flip E a (assign_all rest q (assign_all (cut_subset c) p [])) ;
          do o' <- get_obj b ;
          let seam := List.length (dist_pair_edges (o_assign o') (fst pair) (snd pair)) in
          do prob <- lift (qdiv (Qn (List.length cuts)) (Qn bound * Qn seam)) ;
          if qlt 1 prob then lift (Err ReversibilityError)
          else if qlt u prob then ret b else ret a
        end.
  End Reversible.
End Recom.
