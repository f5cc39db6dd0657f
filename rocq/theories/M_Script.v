(** Model of /repo/gerrychain/proposals/tree_proposals.py:278-305 (class ReCom)
    and of [functools.partial(recom, pop_col=..., pop_target=..., epsilon=...,
    method=...)]: recom, and reversible_recom, as the proposal of a MarkovChain. *)
From Coq Require Import List Bool Arith ZArith QArith.
From Verif Require Import Base M_Graph M_Partition M_Machine M_Tree M_Recursive M_Recom.
Import ListNotations.
Local Open Scope nat_scope.
Local Open Scope list_scope.

Section Script.
  Context {N P V L R : Type} {EN : EqB N} {EP : EqB P} {EL : EqB L} {ON : Ord N} {OP : Ord P} {RV : CRing V}.
  Variable E : env N P V L.
  Variable pop : dict N Z.
  (** The world of the chain: the plan objects and the state of the random
      number generator.  [input a r] says what one call of recom on plan [a]
      makes of the random state [r]: the behaviour of the bipartition method,
      the draws of cut edges, a bound on the number of rounds, and the new
      random state. *)
  Variable input : nat -> R -> @method_fn N * (nat -> nat) * nat * R.
  (** tree_proposals.py:302-305 ReCom.__call__, which forwards to recom
      (tree_proposals.py:36-146), as a partial object does. *)
  Definition recom_proposal (target eps : Q) (a : nat) (w : heap N P V L * R)
    : res nat * (heap N P V L * R) :=
    let '(method, draws, fuel, r) := input a (snd w) in
    let '(b, h) := recom E pop method draws target eps fuel a (fst w) in
    (b, (h, r)).

  (** What one call of reversible_recom draws: the spanning trees and the
      weights, roots and rounds of the search for cuts, the pair of districts,
      the edge between them, the cut, and random.random(). *)
  Record spin := mkSpin {
    sp_tree : graph N -> nat -> res (graph N);
    sp_weights : nat -> N * N -> Q;
    sp_draws : nat -> nat;
    sp_fuel : nat;
    sp_pair : nat;
    sp_edge : nat;
    sp_cut : nat;
    sp_u : Q }.
  (** functools.partial(reversible_recom, pop_col=..., pop_target=..., epsilon=...,
      M=..., repeat_until_valid=...) (tree_proposals.py:149-275) *)
  Definition reversible_proposal (spins : nat -> R -> spin * R) (balance : @balance_fn N) (max : option nat)
    (repeat : bool) (bound : nat) (target eps : Q) (a : nat) (w : heap N P V L * R)
    : res nat * (heap N P V L * R) :=
    let '(s, r) := spins a (snd w) in
    let '(b, h) := reversible_recom E pop balance (sp_tree s) target eps (sp_weights s) (sp_draws s) (sp_fuel s)
                     max repeat bound (sp_pair s) (sp_edge s) (sp_cut s) (sp_u s) a (fst w) in
    (b, (h, r)).

  (** A proposal of proposals.py in a chain: [prop d] is a call in which the
      random generator gives the draws [d]; the world holds the draws to come,
      [d0] stands for those after the last. *)
  Definition fed {D : Type} (d0 : D) (prop : D -> nat -> heap N P V L -> res nat * heap N P V L)
    (a : nat) (w : heap N P V L * list D) : res nat * (heap N P V L * list D) :=
    let '(b, h) := prop (hd d0 (snd w)) a (fst w) in (b, (h, tl (snd w))).
End Script.
