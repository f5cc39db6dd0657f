(** Model of /repo/gerrychain/proposals/proposals.py, metagraph.py and
    accept.py on the plan objects of M_Machine.v.

    Every call of [random] is an argument: a draw [r] selects the element
    number [r mod n] of a sequence of length [n], a draw [b] selects index 0
    (true) or 1 (false).  Because theorems quantify over all draws, the
    iteration order of Python sets does not matter.  Generators are run to
    their end. *)
From Coq Require Import String List Bool Arith ZArith QArith.
From Verif Require Import Base M_Graph M_Partition M_Machine M_Election.
Import ListNotations.
Local Open Scope nat_scope.
Local Open Scope string_scope.
Local Open Scope list_scope.

(** [random.choice(seq)] *)
Definition choice {X} (r : nat) (l : list X) : res X :=
  of_option IndexError (nth_error l (r mod List.length l)).

Section Proposals.
  Context {N P V L : Type} {EN : EqB N} {EP : EqB P} {EL : EqB L} {ON : Ord N} {RV : CRing V}.
  Variable E : env N P V L.
  Notation g := (e_graph E).
  Notation M := (@M N P V L).
  Notation "'do' x <- m ; f" := (bindM m (fun x => f))
    (at level 200, x name, m at level 100, f at level 200, right associativity).

  (** [partition["cut_edges"]] *)
  Definition cut_edges_of (a : nat) : M (list (N * N)) :=
    do v <- read E a "cut_edges" ; lift (as_edges v).
  (** [partition.assignment.mapping[n]] *)
  Definition part_of (A : assignment N P) (n : N) : res P := of_option KeyError (dget (a_map A) n).
  (** [edge[index], edge[1 - index]] *)
  Definition orient (b : bool) (e : N * N) : N * N := if b then e else (snd e, fst e).

  (** proposals.py:8-22 *)
  Definition propose_any_node_flip (r1 r2 : nat) (a : nat) : M nat :=
    do o <- get_obj a ;
    do node <- lift (choice r1 (g_nodes g)) ;
    do newpart <- lift (choice r2 (dkeys (a_parts (o_assign o)))) ;
    flip E a [(node, newpart)].

  (** proposals.py:25-46; [draws i] are the draws for the [i]-th district *)
  Fixpoint every_district_flips (A : assignment N P) (draws : nat -> nat * bool) (i : nat)
           (sets : list (list (N * N))) (flips : dict N P) : res (dict N P) :=
    match sets with
    | [] => Ok flips
    | dist_edges :: rest =>
      edge <- choice (fst (draws i)) dist_edges ;;
      let no := orient (snd (draws i)) edge in
      p <- part_of A (snd no) ;;
      every_district_flips A draws (S i) rest (dset flips (fst no) p)
    end.
  Definition propose_flip_every_district (draws : nat -> nat * bool) (a : nat) : M nat :=
    do o <- get_obj a ;
    do v <- read E a "cut_edges_by_part" ;
    do d <- lift (as_edges_by v) ;
    do flips <- lift (every_district_flips (o_assign o) draws 0 (dvals d) []) ;
    flip E a flips.

  (** proposals.py:49-76 *)
  Definition chunk_flips (A : assignment N P) (node : N) : res (dict N P) :=
    foldM (fun flips nbr =>
      q <- part_of A nbr ;;
      p <- part_of A node ;;
      Ok (if eqb q p then flips else dset flips nbr p)) (neighbors g node) [].
  Definition propose_chunk_flip (r : nat) (b : bool) (a : nat) : M nat :=
    do o <- get_obj a ;
    do cuts <- cut_edges_of a ;
    do edge <- lift (choice r cuts) ;
    do flips <- lift (chunk_flips (o_assign o) (fst (orient b edge))) ;
    flip E a flips.

  (** proposals.py:79-95 *)
  Definition propose_random_flip (r : nat) (b : bool) (a : nat) : M nat :=
    do o <- get_obj a ;
    do cuts <- cut_edges_of a ;
    if Nat.eqb (List.length cuts) 0 then ret a
    else
      do edge <- lift (choice r cuts) ;
      let no := orient b edge in
      do p <- lift (part_of (o_assign o) (snd no)) ;
      flip E a [(fst no, p)].

  (** proposals.py:98-130 *)
  Definition propose_bi (r1 r2 : nat) (a : nat) : M nat :=
    do o <- get_obj a ;
    do cuts <- cut_edges_of a ;
    let b_nodes := sunion (set_of (map fst cuts)) (set_of (map snd cuts)) in
    do node <- lift (choice r1 b_nodes) ;
    do ps <- lift (mapM (part_of (o_assign o)) (neighbors g node)) ;
    let nas := set_of ps in
    do own <- lift (part_of (o_assign o) node) ;
    do rest <- lift (if mem own nas then Ok (sdiff nas [own]) else Err ValueError) ;
    do p <- lift (choice r2 rest) ;
    flip E a [(node, p)].

  (** proposals.py:148-155: the set of (node, part) pairs *)
  Definition reversible_moves (A : assignment N P) (cuts : list (N * N)) : res (list (N * P)) :=
    l1 <- mapM (fun e => p <- part_of A (snd e) ;; Ok (fst e, p)) cuts ;;
    l2 <- mapM (fun e => p <- part_of A (fst e) ;; Ok (snd e, p)) cuts ;;
    Ok (sunion (set_of l1) (set_of l2)).
  (** proposals.py:136-157 *)
  Definition slow_reversible_propose (r : nat) (a : nat) : M nat :=
    do o <- get_obj a ;
    do cuts <- cut_edges_of a ;
    do moves <- lift (reversible_moves (o_assign o) cuts) ;
    do m <- lift (choice r moves) ;
    flip E a [m].

  (** metagraph.py:20-31 *)
  Definition all_cut_edge_flips (a : nat) : M (list (dict N P)) :=
    do o <- get_obj a ;
    do cuts <- cut_edges_of a ;
    lift (mapM (fun eb => let no := orient (snd eb) (fst eb) in
                          p <- part_of (o_assign o) (snd no) ;; Ok [(fst no, p)])
               (flat_map (fun e => [(e, true); (e, false)]) cuts)).

  (** metagraph.py:34-61; [is_valid] is the constraint or the Validator *)
  Section Metagraph.
    Variable is_valid : nat -> M bool.
    Fixpoint valid_states (a : nat) (fs : list (dict N P)) : M (list nat) :=
      match fs with
      | [] => ret []
      | f :: rest =>
        do b <- flip E a f ;
        do ok <- is_valid b ;
        do bs <- valid_states a rest ;
        ret (if ok then b :: bs else bs)
      end.
    Definition all_valid_states_one_flip_away (a : nat) : M (list nat) :=
      do fs <- all_cut_edge_flips a ; valid_states a fs.
    (** metagraph.py:64-80 *)
    Fixpoint flips_of (bs : list nat) : M (list (option (dict N P))) :=
      match bs with
      | [] => ret []
      | b :: rest => do o <- get_obj b ; do fs <- flips_of rest ; ret (o_flips o :: fs)
      end.
    Definition all_valid_flips (a : nat) : M (list (option (dict N P))) :=
      do bs <- all_valid_states_one_flip_away a ; flips_of bs.
    (** metagraph.py:83-100 *)
    Definition metagraph_degree (a : nat) : M nat :=
      do bs <- all_valid_states_one_flip_away a ; ret (List.length bs).
  End Metagraph.

  (** accept.py:15-16 *)
  Definition always_accept (a : nat) : M bool := ret true.
  (** accept.py:19-35; [u] is [random.random()] *)
  Definition cut_edge_accept (u : Q) (a : nat) : M bool :=
    do o <- get_obj a ;
    match o_parent o with
    | None => ret (qlt u 1)
    | Some q =>
      do before <- cut_edges_of q ;
      do now <- cut_edges_of a ;
      do x <- lift (qdiv (inject_Z (Z.of_nat (List.length before)))
                         (inject_Z (Z.of_nat (List.length now)))) ;
      ret (qlt u (if Qle_bool x 1 then x else 1%Q))
    end.
End Proposals.
