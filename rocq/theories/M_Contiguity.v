(** Model of /repo/gerrychain/constraints/contiguity.py.

    A plan is seen through its graph, its assignment, its flips and the
    assignment of its parent (if the parent link is set).  Avoidance functions
    may only look at the two ends of an edge.  The order in which Python
    iterates over a set of districts is not determined, so [contiguous_on] and
    [contiguous_bfs_on] take the districts in any order. *)
From Coq Require Import List Bool Arith.
From Verif Require Import Base M_Graph M_Partition M_Machine.
Import ListNotations.

Section Contiguity.
  Context {N P : Type} {EN : EqB N} {EP : EqB P}.
  Variable g : graph N.

  (** ** are_reachable *)

  (** The fringe is a heap of (distance, counter, node); [extract_min] is
      heappop.  Counters are distinct, so nodes are never compared. *)
  Definition entry := (nat * nat * N)%type.
  Definition entry_lt (x y : entry) : bool :=
    Nat.ltb (fst (fst x)) (fst (fst y)) ||
    (Nat.eqb (fst (fst x)) (fst (fst y)) && Nat.ltb (snd (fst x)) (snd (fst y))).
  Fixpoint extract_min (x : entry) (l : list entry) : entry * list entry :=
    match l with
    | [] => (x, [])
    | y :: r =>
      if entry_lt y x then let '(m, r') := extract_min y r in (m, x :: r')
      else let '(m, r') := extract_min x r in (m, y :: r')
    end.

  (** contiguity.py:51-60: the for loop over the neighbours of [v] *)
  Definition relax (avoid : N -> N -> bool) (v : N) (d : nat)
             (st : dict N nat * nat * list entry) (u : N) : dict N nat * nat * list entry :=
    let '(seen, c, fringe) := st in
    if avoid v u then st
    else
      let vu := S d in
      if match dget seen u with None => true | Some x => Nat.ltb vu x end
      then (dset seen u vu, S c, fringe ++ [(vu, c, u)])
      else st.

  Definition all_seen (seen : dict N nat) (targets : list N) : bool :=
    forallb (fun t => dmem seen t) targets.

  (** contiguity.py:46-60: the while loop; [c] is the state of the counter *)
  Fixpoint reach_loop (fuel : nat) (avoid : N -> N -> bool) (targets : list N)
           (dist seen : dict N nat) (c : nat) (fringe : list entry) : res bool :=
    match fuel with
    | 0 => NoFuel
    | S fuel' =>
      if all_seen seen targets then Ok true
      else match fringe with
           | [] => Ok (all_seen seen targets)
           | x :: r =>
             let '((d, _, v), fringe1) := extract_min x r in
             if dmem dist v then reach_loop fuel' avoid targets dist seen c fringe1
             else if mem v (g_nodes g) then
               let dist1 := dset dist v d in
               let '(seen1, c1, fringe2) :=
                 fold_left (relax avoid v d) (neighbors g v) (seen, c, fringe1) in
               reach_loop fuel' avoid targets dist1 seen1 c1 fringe2
             else Err KeyError
           end
    end.

  (** contiguity.py:11-62 are_reachable.  The bound on the iterations is the
      number of entries ever pushed. *)
  Definition are_reachable (source : N) (avoid : N -> N -> bool) (targets : list N) : res bool :=
    reach_loop (2 + list_sum (map (fun v => List.length (neighbors g v)) (g_nodes g)))
      avoid targets [] [(source, 0)] 1 [(0, 0, source)].

  (** ** affected_parts, contiguous *)

  (** contiguity.py:141-166.  Returned as a list without repetitions. *)
  Definition affected_parts (A : assignment N P) (flips : option (dict N P))
             (parent : option (assignment N P)) : res (list P) :=
    match flips with
    | None => Ok (dkeys (a_parts A))
    | Some f =>
      match parent with
      | None => Ok (set_of (dvals f))
      | Some B =>
        foldM (fun acc np =>
          old <- of_option KeyError (dget (a_map B) (fst np)) ;;
          Ok (sadd old (sadd (snd np) acc))) f []
      end
    end.

  (** partition/subgraphs.py:38-49 SubgraphView.__getitem__ (the cache is
      transparent: parts and graph of a plan never change) *)
  Definition district_graph (A : assignment N P) (p : P) : res (graph N) :=
    s <- of_option KeyError (dget (a_parts A) p) ;; Ok (subgraph g s).

  (** [all(test(p) for p in ps)], or a loop that returns False *)
  Fixpoint all_pass (test : P -> res bool) (ps : list P) : res bool :=
    match ps with
    | [] => Ok true
    | p :: r => b <- test p ;; if b then all_pass test r else Ok false
    end.

  (** contiguity.py:169-181 contiguous, on the affected districts [ps] *)
  Definition contiguous_on (A : assignment N P) (ps : list P) : res bool :=
    all_pass (fun p => s <- district_graph A p ;; is_connected s) ps.
  Definition contiguous A flips parent : res bool :=
    ps <- affected_parts A flips parent ;; contiguous_on A ps.

  (** contiguity.py:244-274 _bfs on the dictionary of neighbour lists of [h] *)
  Fixpoint bfs_loop (fuel : nat) (nbrs : N -> list N) (q visited : list N) : res (list N) :=
    match q with
    | [] => Ok visited
    | v :: q' =>
      match fuel with
      | 0 => NoFuel
      | S fuel' =>
        let '(q1, visited1) :=
          fold_left (fun st u => let '(q, vis) := st in
            if mem u vis then st else (q ++ [u], sadd u vis)) (nbrs v) (q', visited) in
        bfs_loop fuel' nbrs q1 visited1
      end
    end.
  Definition bfs (h : graph N) : res bool :=
    match g_nodes h with
    | [] => Err StopIteration
    | v :: _ =>
      if Nat.leb (List.length (g_nodes h)) 1 then Ok true
      else visited <- bfs_loop (2 + List.length (g_nodes h)) (neighbors h) [v] [] ;;
           Ok (Nat.eqb (List.length (g_nodes h)) (List.length visited))
    end.
  (** contiguity.py:184-204 contiguous_bfs *)
  Definition contiguous_bfs_on (A : assignment N P) (ps : list P) : res bool :=
    all_pass (fun p => s <- district_graph A p ;; bfs s) ps.
  Definition contiguous_bfs A flips parent : res bool :=
    ps <- affected_parts A flips parent ;; contiguous_bfs_on A ps.

  (** ** single_flip_contiguous *)

  (** contiguity.py:113-134: one changed node.  [pick] is random.choice. *)
  Definition flip_keeps (pick : N -> list N -> N) (A B : assignment N P) (x : N) : res bool :=
    old <- of_option KeyError (dget (a_map B) x) ;;
    nds <- mapM (fun n => p <- of_option KeyError (dget (a_map A) n) ;; Ok (n, p)) (neighbors g x) ;;
    let old_neighbors := map fst (filter (fun np => eqb (snd np) old) nds) in
    match old_neighbors with
    | [] => Ok false
    | _ => are_reachable (pick x old_neighbors)
             (fun u v => negb (eqb (dget (a_map A) u) (dget (a_map A) v))) old_neighbors
    end.
  Fixpoint flips_keep pick A B (xs : list N) : res bool :=
    match xs with
    | [] => Ok true
    | x :: r => b <- flip_keeps pick A B x ;; if b then flips_keep pick A B r else Ok false
    end.
  (** contiguity.py:66-138 *)
  Definition single_flip_contiguous (pick : N -> list N -> N) (A : assignment N P)
             (flips : option (dict N P)) (parent : option (assignment N P)) : res bool :=
    match flips, parent with
    | Some ((_ :: _) as f), Some B =>
      match a_parts B with
      | [] => contiguous A flips parent
      | _ => flips_keep pick A B (dkeys f)
      end
    | _, _ => contiguous A flips parent
    end.

  (** ** Components *)

  (** contiguity.py:207-216 number_of_contiguous_parts *)
  Definition number_of_contiguous_parts (A : assignment N P) : res nat :=
    foldM (fun k p => s <- district_graph A p ;; b <- is_connected s ;;
                      Ok (if b then S k else k)) (dkeys (a_parts A)) 0.

  (** networkx.connected_components *)
  Definition connected_components (h : graph N) : res (list (list N)) :=
    st <- foldM (fun st v => let '(seen, comps) := st in
            if mem v seen then Ok st
            else c <- plain_bfs (S (List.length (g_nodes h))) (neighbors h) [v] [v] ;;
                 Ok (sunion seen c, comps ++ [c])) (g_nodes h) ([], []) ;;
    Ok (snd st).
  (** contiguity.py:226-241 contiguous_components; a component subgraph is
      given by its nodes *)
  Definition contiguous_components (A : assignment N P) : res (dict P (list (list N))) :=
    mapM (fun p => s <- district_graph A p ;; cs <- connected_components s ;; Ok (p, cs))
         (dkeys (a_parts A)).
End Contiguity.

(** The checks applied to plan objects: flips and parent link are those of the
    object at the time of the check. *)
Section Objects.
  Context {N P V L : Type} {EN : EqB N} {EP : EqB P} {EL : EqB L} {ON : Ord N} {RV : CRing V}.
  Variable E : env N P V L.
  Definition parent_assignment (h : heap N P V L) (o : pobj N P V L) : option (assignment N P) :=
    match o_parent o with
    | None => None
    | Some q => option_map (@o_assign N P V L) (nth_error h q)
    end.
  Definition contiguous_at (a : nat) (h : heap N P V L) : res bool :=
    match nth_error h a with
    | None => Err AttributeError
    | Some o => contiguous (e_graph E) (o_assign o) (o_flips o) (parent_assignment h o)
    end.
End Objects.
