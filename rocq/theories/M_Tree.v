(** Model of the spanning-tree functions of /repo/gerrychain/tree.py:52-885.

    - Random draws are arguments: [draw : nat] selects an element by
      [M_Proposals.choice]; weights drawn by [random.random()] are a function
      of the edge.
    - Populations are integers; the target and the tolerance are rationals.
      Floating-point rounding is not modelled.
    - The networkx searches used (bfs_edges, bfs_predecessors, bfs_successors,
      the Kruskal minimum spanning tree) are modelled as in networkx 3. *)
From Coq Require Import String List Bool Arith ZArith QArith Qabs.
From Verif Require Import Base M_Graph M_Machine M_Election M_Proposals.
Import ListNotations.
Local Open Scope nat_scope.
Local Open Scope list_scope.

Section Tree.
  Context {N : Type} {EN : EqB N}.

  (** ** Rooted searches *)

  (** networkx.bfs_edges ([generic_bfs_edges]): all children of the node in
      front of the queue are reported before the next node is looked at. *)
  Fixpoint bfs_edges (fuel : nat) (nbrs : N -> list N) (visited queue : list N) : res (list (N * N)) :=
    match queue with
    | [] => Ok []
    | p :: q =>
      match fuel with
      | 0 => NoFuel
      | S f =>
        let new := filter (fun c => negb (mem c visited)) (nbrs p) in
        rest <- bfs_edges f nbrs (visited ++ new) (q ++ new) ;;
        Ok (map (pair p) new ++ rest)
      end
    end.
  Definition bfs (T : graph N) (root : N) : res (list (N * N)) :=
    bfs_edges (S (List.length (g_nodes T))) (neighbors T) [root] [root].
  (** tree.py:52-53 with networkx.bfs_predecessors, which yields
      (child, parent) for every edge of the search *)
  Definition predecessors (es : list (N * N)) : dict N N :=
    fold_left (fun d e => dset d (snd e) (fst e)) es [].
  (** networkx.bfs_successors: groups consecutive edges with the same parent *)
  Fixpoint bfs_successors (parent : N) (children : list N) (es : list (N * N)) : list (N * list N) :=
    match es with
    | [] => [(parent, children)]
    | (p, c) :: r =>
      if eqb p parent then bfs_successors parent (children ++ [c]) r
      else (parent, children) :: bfs_successors p [c] r
    end.
  (** tree.py:56-57 *)
  Definition successors (root : N) (es : list (N * N)) : dict N (list N) :=
    fold_left (fun d e => dset d (fst e) (snd e)) (bfs_successors root [] es) [].

  (** ** PopulatedGraph, tree.py:135-217 *)

  Definition degree (T : graph N) (n : N) : nat := List.length (neighbors T n).
  Definition zsum (l : list Z) : Z := fold_left Z.add l 0%Z.
  Definition within (target eps : Q) (x : Z) : bool :=
    Qle_bool (Qabs (inject_Z x - target)) (target * eps).
  Definition strictly_within (target eps : Q) (x : Z) : bool :=
    qlt (Qabs (inject_Z x - target)) (eps * target).

  (** tree.py:233-234 *)
  Record cut := mkCut { cut_edge : N * N; cut_weight : Q; cut_subset : list N }.

  (** The arguments of a cut search: the tree, the populations, the target and
      the tolerance; [weight] is the attribute "random_weight" of a tree edge
      or else a fresh draw. *)
  Record populated := mkPopulated {
    h_tree : graph N; h_pop : dict N Z; h_ideal : Q; h_eps : Q; h_weight : N * N -> Q }.
  Definition tot_pop (h : populated) : Z := zsum (dvals (h_pop h)).

  (** tree.py:264 and 377: [choice([x for x in h if h.degree(x) > 1])] *)
  Definition pick_root (draw : nat) (h : populated) : res N :=
    choice draw (filter (fun x => Nat.ltb 1 (degree (h_tree h) x)) (g_nodes (h_tree h))).

  (** ** Contraction, tree.py:243-286 *)

  (** The mutable part of the PopulatedGraph. *)
  Record contracting := mkContracting {
    k_pop : dict N Z; k_subsets : dict N (list N); k_deg : dict N nat; k_leaves : list N; k_cuts : list cut }.

  (** tree.py:191-217 *)
  Definition has_ideal_population (h : populated) (one_sided : bool) (x : Z) : bool :=
    if one_sided then strictly_within (h_ideal h) (h_eps h) x
    else within (h_ideal h) (h_eps h) x && within (h_ideal h) (h_eps h) (tot_pop h - x)%Z.

  (** tree.py:271-285, one iteration.  Simplification: degrees are natural
      numbers; subtraction below 0 cannot be told from 0. *)
  Definition contract_leaf (h : populated) (one_sided : bool) (root : N) (pred : dict N N)
             (leaf : N) (rest : list N) (s : contracting) : res contracting :=
    x <- of_option KeyError (dget (k_pop s) leaf) ;;
    sub <- of_option KeyError (dget (k_subsets s) leaf) ;;
    parent <- of_option KeyError (dget pred leaf) ;;
    let cuts := if has_ideal_population h one_sided x
                then k_cuts s ++ [mkCut (leaf, parent) (h_weight h (leaf, parent)) sub]
                else k_cuts s in
    px <- of_option KeyError (dget (k_pop s) parent) ;;
    ps <- of_option KeyError (dget (k_subsets s) parent) ;;
    pd <- of_option KeyError (dget (k_deg s) parent) ;;
    Ok (mkContracting (dset (k_pop s) parent (px + x)%Z) (dset (k_subsets s) parent (sunion ps sub))
                      (dset (k_deg s) parent (pd - 1))
                      (if Nat.eqb (pd - 1) 1 && negb (eqb parent root) then rest ++ [parent] else rest)
                      cuts).
  Fixpoint contract_loop (fuel : nat) (h : populated) (one_sided : bool) (root : N) (pred : dict N N)
           (s : contracting) : res (list cut) :=
    match k_leaves s with
    | [] => Ok (k_cuts s)
    | leaf :: rest =>
      match fuel with
      | 0 => NoFuel
      | S f => s' <- contract_leaf h one_sided root pred leaf rest s ;; contract_loop f h one_sided root pred s'
      end
    end.
  Definition find_cuts_contraction (h : populated) (one_sided : bool) (draw : nat) : res (list cut) :=
    let T := h_tree h in
    root <- pick_root draw h ;;
    es <- bfs T root ;;
    contract_loop (S (List.length (g_nodes T))) h one_sided root (predecessors es)
      (mkContracting (h_pop h) (map (fun n => (n, [n])) (g_nodes T))
                     (map (fun n => (n, degree T n)) (g_nodes T))
                     (filter (fun x => Nat.eqb (degree T x) 1) (g_nodes T)) []).

  (** ** Memoization, tree.py:289-424 *)

  (** tree.py:304-320; the head of [stack] is the right end of the deque *)
  Fixpoint calc_loop (fuel : nat) (succ : dict N (list N)) (pop : dict N Z) (stack : list N)
           (pops : dict N Z) : res (dict N Z) :=
    match stack with
    | [] => Ok pops
    | next :: rest =>
      match fuel with
      | 0 => NoFuel
      | S f =>
        if dmem pops next then calc_loop f succ pop rest pops
        else
          match dget succ next with
          | Some children =>
            if forallb (dmem pops) children then
              xs <- mapM (fun c => of_option KeyError (dget pops c)) children ;;
              x <- of_option KeyError (dget pop next) ;;
              calc_loop f succ pop rest (dset pops next (zsum xs + x)%Z)
            else
              calc_loop f succ pop (rev (filter (fun c => negb (dmem pops c)) children) ++ next :: rest) pops
          | None =>
            x <- of_option KeyError (dget pop next) ;;
            calc_loop f succ pop rest (dset pops next x)
          end
      end
    end.
  Definition calc_pops (fuel : nat) (succ : dict N (list N)) (root : N) (pop : dict N Z) : res (dict N Z) :=
    start <- of_option KeyError (dget succ root) ;;
    calc_loop fuel succ pop (rev start) [].

  (** tree.py:339-348 *)
  Fixpoint part_loop (fuel : nat) (succ : dict N (list N)) (stack nodes : list N) : res (list N) :=
    match stack with
    | [] => Ok nodes
    | next :: rest =>
      match fuel with
      | 0 => NoFuel
      | S f =>
        if mem next nodes then part_loop f succ rest nodes
        else
          let nodes' := nodes ++ [next] in
          match dget succ next with
          | Some children => part_loop f succ (rev (filter (fun c => negb (mem c nodes')) children) ++ rest) nodes'
          | None => part_loop f succ rest nodes'
          end
      end
    end.
  Definition part_nodes (fuel : nat) (start : N) (succ : dict N (list N)) : res (list N) :=
    part_loop fuel succ [start] [].

  (** tree.py:387-424, one node *)
  Definition memo_cut (h : populated) (one_sided : bool) (pred : dict N N) (succ : dict N (list N))
             (fuel : nat) (node : N) (x : Z) : res (list cut) :=
    let ok1 := within (h_ideal h) (h_eps h) x in
    let ok2 := within (h_ideal h) (h_eps h) (tot_pop h - x)%Z in
    let below (outer : bool) :=
      parent <- of_option KeyError (dget pred node) ;;
      sub <- part_nodes fuel node succ ;;
      Ok [mkCut (node, parent) (h_weight h (node, parent))
                (if outer then sdiff (g_nodes (h_tree h)) sub else sub)] in
    if one_sided then
      if ok1 then below false
      else if ok2 then below true
      else Ok []
    else if ok1 && ok2 then below true
    else Ok [].
  Definition find_cuts_memoization (h : populated) (one_sided : bool) (draw : nat) : res (list cut) :=
    let T := h_tree h in
    let n := List.length (g_nodes T) in
    root <- pick_root draw h ;;
    es <- bfs T root ;;
    let pred := predecessors es in
    let succ := successors root es in
    pops <- calc_pops (2 * n) succ root (h_pop h) ;;
    css <- mapM (fun nx => memo_cut h one_sided pred succ (S n) (fst nx) (snd nx)) pops ;;
    Ok (concat css).

  (** ** Choosing among cuts, tree.py:446-578 *)

  (** [max(cuts, key=lambda cut: cut.weight)]: the first of maximal weight.
      Simplification: every cut carries a weight (tree.py:477-478 is dead for
      the two searches above). *)
  Fixpoint max_from (best : cut) (l : list cut) : cut :=
    match l with
    | [] => best
    | c :: r => max_from (if qlt (cut_weight best) (cut_weight c) then c else best) r
    end.
  Definition max_weight_choice (cuts : list cut) : res cut :=
    match cuts with [] => Err IndexError | c :: r => Ok (max_from c r) end.

  (** itertools.combinations *)
  Fixpoint combinations {X} (k : nat) (l : list X) : list (list X) :=
    match k, l with
    | 0, _ => [[]]
    | S _, [] => []
    | S k', x :: r => map (cons x) (combinations k' r) ++ combinations k r
    end.
  (** tree.py:483-494; [sorted(..., reverse=True)] keeps the order of equal keys *)
  Definition surcharge_of (d : dict string Q) (s : list string) : Q := qsum (map (dget_or 0%Q d) s).
  Definition ranks_below (d : dict string Q) (s t : list string) : bool :=
    Nat.ltb (List.length s) (List.length t) ||
    (Nat.eqb (List.length s) (List.length t) && Qle_bool (surcharge_of d s) (surcharge_of d t)).
  Fixpoint insert_combo (d : dict string Q) (s : list string) (l : list (list string)) : list (list string) :=
    match l with
    | [] => [s]
    | t :: r => if ranks_below d t s then s :: t :: r else t :: insert_combo d s r
    end.
  Definition power_set_sorted (d : dict string Q) : list (list string) :=
    fold_right (insert_combo d) []
      (flat_map (fun i => combinations i (dkeys d)) (seq 1 (List.length d))).
  (** tree.py:501-578.  [region key n] is [nodes[n].get(key)]. *)
  Section Regions.
    Context {L : Type} {EL : EqB L}.
    Variable region : string -> N -> option L.
    Definition separates (c : cut) (key : string) : bool :=
      negb (eqb (region key (fst (cut_edge c))) (region key (snd (cut_edge c)))).
    Fixpoint first_suitable (cuts : list cut) (combos : list (list string)) : res cut :=
      match combos with
      | [] => max_weight_choice cuts
      | s :: r =>
        match filter (fun c => forallb (separates c) s) cuts with
        | [] => first_suitable cuts r
        | suitable => max_weight_choice suitable
        end
      end.
    (** [draw] is used only when no surcharge dictionary is given. *)
    Definition region_preferred_choice (surcharge : option (dict string Q)) (draw : nat)
               (cuts : list cut) : res cut :=
      match surcharge with
      | None => choice draw cuts
      | Some d =>
        match cuts with
        | [] => Err IndexError
        | _ =>
          if Nat.ltb (List.length d) 1 || Nat.ltb 3 (List.length d) then max_weight_choice cuts
          else first_suitable cuts (power_set_sorted d)
        end
      end.
  End Regions.

  (** ** Spanning trees *)

  (** Kruskal as in networkx.minimum_spanning_tree: the edges in order of
      weight, an edge is kept when its ends are in different components.
      Simplification: the union-find structure is the function from nodes to
      representatives. *)
  Fixpoint kruskal (find : N -> N) (es : list (N * N)) : list (N * N) :=
    match es with
    | [] => []
    | (u, v) :: r =>
      if eqb (find u) (find v) then kruskal find r
      else (u, v) :: kruskal (fun x => if eqb (find x) (find u) then find v else find x) r
    end.
  Fixpoint insert_edge (w : N * N -> Q) (e : N * N) (l : list (N * N)) : list (N * N) :=
    match l with
    | [] => [e]
    | f :: r => if Qle_bool (w e) (w f) then e :: f :: r else f :: insert_edge w e r
    end.
  Definition sort_edges (w : N * N -> Q) (l : list (N * N)) : list (N * N) := fold_right (insert_edge w) [] l.
  Section Surcharge.
    Context {L : Type} {EL : EqB L}.
    (** [region key n] is [nodes[n][key]]: [None] is a missing attribute,
        [Some None] the value None. *)
    Variable region : string -> N -> option (option L).
    (** tree.py:79-89: the weight of an edge; [u] is [random.random()] *)
    Definition edge_weight (surcharge : dict string Q) (u : N * N -> Q) (e : N * N) : res Q :=
      foldM (fun w kv =>
        a <- of_option KeyError (region (fst kv) (fst e)) ;;
        b <- of_option KeyError (region (fst kv) (snd e)) ;;
        Ok (if negb (eqb a b) || eqb a None || eqb b None then (w + snd kv)%Q else w))
        surcharge (u e).
    (** tree.py:60-94 *)
    Definition random_spanning_tree (surcharge : dict string Q) (u : N * N -> Q) (g : graph N) : res (graph N) :=
      ws <- mapM (fun e => w <- edge_weight surcharge u e ;; Ok (e, w)) (g_edges g) ;;
      Ok (mkGraph (g_nodes g) (kruskal (fun x => x) (sort_edges (fun e => dget_or 0%Q ws e) (g_edges g)))).
  End Surcharge.

  (** Wilson's algorithm, tree.py:97-132.  [draws] is the stream of choices. *)
  Fixpoint walk (fuel : nat) (g : graph N) (draws : nat -> nat) (i : nat) (tree : list N)
           (next : dict N (option N)) (u : N) : res (nat * dict N (option N)) :=
    if mem u tree then Ok (i, next)
    else
      match fuel with
      | 0 => NoFuel
      | S f => v <- choice (draws i) (neighbors g u) ;; walk f g draws (S i) tree (dset next u (Some v)) v
      end.
  Fixpoint retrace (fuel : nat) (tree : list N) (next : dict N (option N)) (u : N) : res (list N) :=
    if mem u tree then Ok tree
    else
      match fuel with
      | 0 => NoFuel
      | S f =>
        o <- of_option KeyError (dget next u) ;;
        (* [next_node[u]] is None only for the root, which is in the tree;
           looking up [next_node[None]] would raise KeyError *)
        v <- of_option KeyError o ;;
        retrace f (tree ++ [u]) next v
      end.
  Fixpoint grow (fuel : nat) (g : graph N) (draws : nat -> nat) (i : nat) (tree : list N)
           (next : dict N (option N)) (nodes : list N) : res (nat * (list N * dict N (option N))) :=
    match nodes with
    | [] => Ok (i, (tree, next))
    | u :: r =>
      p <- walk fuel g draws i tree next u ;;
      tree' <- retrace (S (List.length (g_nodes g))) tree (snd p) u ;;
      grow fuel g draws (fst p) tree' (snd p) r
    end.
  (** The tree together with the number of calls of [choice]. *)
  Definition uniform_run (fuel : nat) (g : graph N) (draws : nat -> nat) : res (graph N * nat) :=
    root <- choice (draws 0) (g_nodes g) ;;
    r <- grow fuel g draws 1 [root] [(root, None)] (g_nodes g) ;;
    let tn := snd r in
    es <- mapM (fun n => o <- of_option KeyError (dget (snd tn) n) ;;
                         Ok (match o with Some v => [(n, v)] | None => [] end)) (fst tn) ;;
    let edges := concat es in
    Ok (mkGraph (set_of (flat_map (fun e => [fst e; snd e]) edges)) edges, fst r).
  Definition uniform_spanning_tree (fuel : nat) (g : graph N) (draws : nat -> nat) : res (graph N) :=
    r <- uniform_run fuel g draws ;; Ok (fst r).

  (** ** Bipartition, tree.py:581-885 *)

  (** [tree i] is the outcome of the [i]-th call of the spanning tree sampler,
      [search T i] the cuts the search reports for tree [T] in attempt [i],
      [pick cuts] the cut choice.  [max = None] means unbounded attempts. *)
  Section Attempts.
    Variable tree : nat -> res (graph N).
    Variable search : graph N -> nat -> res (list cut).

    (** tree.py:679-718 and 782-795: the loop shared by both functions.
        [stop cuts] says whether the attempt ends the loop. *)
    Fixpoint attempt_loop (fuel : nat) (max : option nat) (node_repeats : nat)
             (stop : list cut -> bool) (failure : exn)
             (T : graph N) (drawn restarts attempts : nat) : res (list cut) :=
      if match max with Some m => Nat.ltb attempts m | None => true end then
        match fuel with
        | 0 => NoFuel
        | S f =>
          st <- (if Nat.eqb restarts node_repeats then T' <- tree drawn ;; Ok (T', S drawn, 0)
                 else Ok (T, drawn, restarts)) ;;
          let '(T', drawn', restarts') := st in
          cuts <- search T' attempts ;;
          if stop cuts then Ok cuts
          else attempt_loop f max node_repeats stop failure T' drawn' (S restarts') (S attempts)
        end
      else Err failure.
    Definition some_cut (cuts : list cut) : bool := negb (Nat.eqb (List.length cuts) 0).
    (** tree.py:673-674 and 776-777: the first tree, given or drawn *)
    Definition first_tree (given : option (graph N)) : res (graph N * nat) :=
      match given with Some T => Ok (T, 0) | None => T <- tree 0 ;; Ok (T, 1) end.

    (** tree.py:581-718 *)
    Definition bipartition_tree (fuel : nat) (max : option nat) (node_repeats : nat) (reselect : bool)
               (given : option (graph N)) (pick : list cut -> res cut) : res (list N) :=
      p <- first_tree given ;;
      cuts <- attempt_loop fuel max node_repeats some_cut
                (if reselect then ReselectException else RuntimeError) (fst p) (snd p) 0 0 ;;
      c <- pick cuts ;;
      Ok (cut_subset c).
    (** tree.py:721-795 *)
    Definition bipartition_tree_random_all (fuel : nat) (max : option nat) (node_repeats : nat)
               (repeat_until_valid : bool) (given : option (graph N)) : res (list cut) :=
      p <- first_tree given ;;
      attempt_loop fuel max node_repeats (fun cuts => negb repeat_until_valid || some_cut cuts)
        RuntimeError (fst p) (snd p) 0 0.
    (** tree.py:871-885; [search] has one_sided_cut=True (tree.py:868-869) *)
    Definition bipartition_tree_random (fuel : nat) (max : option nat) (node_repeats : nat)
               (repeat_until_valid : bool) (given : option (graph N)) (draw : nat) : res (option (list N)) :=
      cuts <- bipartition_tree_random_all fuel max node_repeats repeat_until_valid given ;;
      match cuts with
      | [] => Ok None
      | _ => c <- choice draw cuts ;; Ok (Some (cut_subset c))
      end.
  End Attempts.

  (** The calls with their own arguments: [balance h one_sided draw] is
      [balance_edge_fn], [draws] and [weights] the random draws of each
      attempt.  tree.py:667-670 and 683-691. *)
  Definition balance_fn : Type := populated -> bool -> nat -> res (list cut).
  Definition bipartition_tree_call (balance : balance_fn) (tree : nat -> res (graph N))
             (pop : dict N Z) (target eps : Q) (one_sided : bool)
             (weights : nat -> N * N -> Q) (draws : nat -> nat) :=
    bipartition_tree tree (fun T i => balance (mkPopulated T pop target eps (weights i)) one_sided (draws i)).
  (** tree.py:868-883: the argument [one_sided] is not used *)
  Definition bipartition_tree_random_call (balance : balance_fn) (tree : nat -> res (graph N))
             (pop : dict N Z) (target eps : Q) (one_sided : bool)
             (weights : nat -> N * N -> Q) (draws : nat -> nat) :=
    bipartition_tree_random tree (fun T i => balance (mkPopulated T pop target eps (weights i)) true (draws i)).
End Tree.
Arguments cut N : clear implicits.
Arguments populated N : clear implicits.
Arguments contracting N : clear implicits.
