(** Model of the functions of /repo/gerrychain/tree.py that build plans by
    repeated splitting (lines 888-1438), and of
    partition.py:67-120 from_random_assignment.

    [method i g target eps one_sided] is the [i]-th call of the bipartition
    method; it returns a set of nodes, [None] or an exception.  Because it is
    indexed by the call, it may be random.  [set_of] turns the list it returns
    into a set.  Populations are integers, targets and tolerances rationals;
    floating-point rounding is not modelled. *)
From Coq Require Import String List Bool Arith ZArith QArith Qabs.
From Verif Require Import Base M_Graph M_Partition M_Election M_Tree.
Import ListNotations.
Local Open Scope nat_scope.
Local Open Scope list_scope.

(** [float(n)] *)
Definition Qn (n : nat) : Q := inject_Z (Z.of_nat n).
(** [min(a, b)] and [max(a, b)] *)
Definition qmin (a b : Q) : Q := if Qle_bool a b then a else b.
Definition qmax (a b : Q) : Q := if Qle_bool a b then b else a.

(** tree.py:1197-1230.  [fuel] bounds the iterations of all three loops. *)
Fixpoint halve (fuel n : nat) (largest : option nat) : res (nat * option nat) :=
  match fuel with
  | 0 => NoFuel
  | S f => if Nat.eqb (n mod 2) 0 then halve f (n / 2) (Some 2) else Ok (n, largest)
  end.
Fixpoint strip (fuel ceil i n : nat) (largest : option nat) : res (nat * option nat) :=
  match fuel with
  | 0 => NoFuel
  | S f => if Nat.eqb (n mod i) 0 then strip f ceil i (n / i) (if Nat.leb i ceil then Some i else largest)
           else Ok (n, largest)
  end.
Fixpoint odd_factors (fuel fuel' ceil i n : nat) (largest : option nat) : res (nat * option nat) :=
  match fuel with
  | 0 => NoFuel
  | S f => if Nat.leb (i * i) n then
             r <- strip fuel' ceil i n largest ;;
             odd_factors f fuel' ceil (i + 2) (fst r) (snd r)
           else Ok (n, largest)
  end.
Definition get_max_prime_factor_less_than (n ceil : nat) : res (option nat) :=
  if Nat.leb n 1 || Nat.leb ceil 1 then Ok None
  else
    r <- halve (S n) n None ;;
    r <- odd_factors (S n) (S n) ceil 3 (fst r) (snd r) ;;
    Ok (if Nat.ltb 1 (fst r) && Nat.leb (fst r) ceil then Some (fst r) else snd r).

Section Recursive.
  Context {N P : Type} {EN : EqB N} {EP : EqB P}.
  Definition method_fn : Type := nat -> graph N -> Q -> Q -> bool -> res (option (list N)).
  Variable method : method_fn.
  Variable pop : dict N Z.
  Notation flips := (dict N P).

  (** tree.py:931-933 and 1017-1019 check_pop *)
  Definition check_pop (target eps : Q) (x : Z) : bool :=
    Qle_bool (target * (1 - eps)) (inject_Z x) && Qle_bool (inject_Z x) (target * (1 + eps)).
  (** tree.py:947-950, 1041-1044, 1066-1069: assign the nodes and add up their
      population; [label] is evaluated for every node *)
  Definition assign_nodes (label : res P) (nodes : list N) (f : flips) : res (flips * Z) :=
    foldM (fun acc node =>
      p <- label ;;
      x <- of_option KeyError (dget pop node) ;;
      Ok (dset (fst acc) node p, (snd acc + x)%Z)) nodes (f, 0%Z).
  (** tree.py:935-953 and 1027-1047: one call of the method, the None check,
      the assignment and the population check.  Returns the set, the new
      assignment and the set's population. *)
  Definition take (i : nat) (g : graph N) (remaining : list N) (target eps : Q) (tt ee : Q) (one_sided : bool)
             (label : res P) (f : flips) : res (list N * flips * Z) :=
    r <- method i (subgraph g remaining) tt ee one_sided ;;
    match r with
    | None => Err BalanceError
    | Some s =>
      let nodes := set_of s in
      fx <- assign_nodes label nodes f ;;
      if check_pop target eps (snd fx) then Ok (nodes, fst fx, snd fx) else Err PopulationBalanceError
    end.
  (** tree.py:955-966 and 1074-1085: the rest goes to the last part *)
  Definition finish (target eps : Q) (remaining : list N) (label : res P) (f : flips) : res flips :=
    fx <- assign_nodes label remaining f ;;
    if check_pop target eps (snd fx) then Ok (fst fx) else Err PopulationBalanceError.
  (** [parts[-k]] *)
  Definition from_end (k : nat) (parts : list P) : res P := of_option IndexError (nth_error (rev parts) (k - 1)).

  (** tree.py:1052-1085: the last two parts *)
  Definition last_two (i : nat) (g : graph N) (parts : list P) (target eps : Q) (remaining : list N) (f : flips)
    : list N * res flips :=
    match take i g remaining target eps target eps false (from_end 2 parts) f with
    | Ok (nodes, f', _) =>
      let rest := sdiff remaining nodes in (rest, finish target eps rest (from_end 1 parts) f')
    | Err e => (remaining, Err e)
    | NoFuel => (remaining, NoFuel)
    end.

  (** tree.py:888-966.  The first component is the node set the function has
      been reading and changing in place. *)
  Definition epsilon_tree_bipartition_on (nodes : list N) (g : graph N) (parts : list P) (target eps : Q)
    : list N * res flips :=
    if negb (Nat.eqb (List.length parts) 2) then (nodes, Err ValueError)
    else last_two 0 g parts target eps nodes [].
  Definition epsilon_tree_bipartition (g : graph N) (parts : list P) (target eps : Q) : res flips :=
    snd (epsilon_tree_bipartition_on (g_nodes g) g parts target eps).

  (** tree.py:1022-1031: the target and tolerance of the next call *)
  Definition window (target eps debt : Q) : res (Q * Q) :=
    let min_pop := qmax (target * (1 - eps)) (target * (1 - eps) - debt) in
    let max_pop := qmin (target * (1 + eps)) (target * (1 + eps) - debt) in
    let tt := ((min_pop + max_pop) / 2)%Q in
    ee <- qdiv (max_pop - min_pop) (2 * tt) ;;
    Ok (tt, ee).
  (** tree.py:1021-1050 *)
  Fixpoint part_off (i : nat) (g : graph N) (todo : list P) (target eps : Q) (remaining : list N) (debt : Q) (f : flips)
    : list N * res (nat * flips) :=
    match todo with
    | [] => (remaining, Ok (i, f))
    | p :: rest =>
      match (w <- window target eps debt ;;
             take i g remaining target eps (fst w) (snd w) true (Ok p) f) with
      | Ok (nodes, f', x) =>
        part_off (S i) g rest target eps (sdiff remaining nodes) (debt + (inject_Z x - target)) f'
      | Err e => (remaining, Err e)
      | NoFuel => (remaining, NoFuel)
      end
    end.
  (** tree.py:971-1085, as above with the node set first *)
  Definition recursive_tree_part_on (nodes : list N) (g : graph N) (parts : list P) (target eps : Q)
    : list N * res flips :=
    match part_off 0 g (firstn (List.length parts - 2) parts) target eps nodes 0 [] with
    | (rest, Ok (i, f)) => last_two i g parts target eps rest f
    | (rest, Err e) => (rest, Err e)
    | (rest, NoFuel) => (rest, NoFuel)
    end.
  Definition recursive_tree_part (g : graph N) (parts : list P) (target eps : Q) : res flips :=
    snd (recursive_tree_part_on (g_nodes g) g parts target eps).
End Recursive.

(** ** Graph objects whose node set is cached *)
Section Frozen.
  Context {N : Type} {EN : EqB N}.
  (** graph.py:301-303 Graph.node_indices makes a new set at every access;
      graph.py:563-565 FrozenGraph.node_indices caches it. *)
  Inductive graph_object := Plain | Frozen (cache : option (list N)).
  Definition node_indices (o : graph_object) (g : graph N) : list N :=
    match o with Frozen (Some c) => c | _ => g_nodes g end.
  (** The object after code has changed the set it got from node_indices. *)
  Definition after (o : graph_object) (nodes : list N) : graph_object :=
    match o with Plain => Plain | Frozen _ => Frozen (Some nodes) end.
  (** recursive_tree_part on a graph object *)
  Definition recursive_tree_part_object {P} {EP : EqB P} (method : @method_fn N) (pop : dict N Z) (o : graph_object) (g : graph N)
             (parts : list P) (target eps : Q) : graph_object * res (dict N P) :=
    let r := recursive_tree_part_on method pop (node_indices o g) g parts target eps in
    (after o (fst r), snd r).
  (** partition.py:67-120 with the default method.  Of the constructor only the
      check partition.py:135-136 is modelled. *)
  Definition from_random_assignment (method : @method_fn N) (pop : dict N Z) (o : graph_object) (g : graph N)
             (n_parts : nat) (eps : Q) : graph_object * res (dict N nat) :=
    match (total <- foldM (fun acc n => x <- of_option KeyError (dget pop n) ;; Ok (acc + x)%Z) (node_indices o g) 0%Z ;;
           qdiv (inject_Z total) (Qn n_parts)) with
    | Ok ideal =>
      let r := recursive_tree_part_object method pop o g (seq 0 n_parts) ideal eps in
      (fst r, a <- snd r ;;
              if seteqb (dkeys a) (node_indices (fst r) g) then Ok a else Err KeyError)
    | Err e => (o, Err e)
    | NoFuel => (o, NoFuel)
    end.
End Frozen.

(** ** Seed plans *)
Section Seed.
  Context {N P : Type} {EN : EqB N} {EP : EqB P}.
  Variable method : @method_fn N.
  Variable pop : dict N Z.

  (** The sum of the populations of a set of nodes (tree.py:1131-1133,
      1171-1173) *)
  Definition pop_sum (nodes : list N) : res Z :=
    foldM (fun acc n => x <- of_option KeyError (dget pop n) ;; Ok (acc + x)%Z) nodes 0%Z.
  Definition paint (nodes : list N) (part : nat) (f : dict N nat) : dict N nat :=
    fold_left (fun f n => dset f n part) nodes f.
  (** tree.py:1149-1169: cut off the chunks [part], [part + 1], ...; [last] is
      the label of what remains *)
  Fixpoint chunk_off (todo : nat) (k : nat) (g : graph N) (part last : nat) (tt ee : Q) (remaining : list N) (f : dict N nat)
    : res (nat * list N * dict N nat) :=
    match todo with
    | 0 => Ok (k, remaining, f)
    | S todo =>
      r <- method k (subgraph g remaining) tt ee true ;;
      match r with
      | None => Err BalanceError
      | Some s =>
        let nodes := set_of s in
        let rest := sdiff remaining nodes in
        chunk_off todo (S k) g (S part) last tt ee rest (paint rest last (paint nodes part f))
      end
    end.
  (** tree.py:1135-1186: the loop with its tolerance *)
  Fixpoint chunk_loop (fuel k : nat) (g : graph N) (num_chunks left : nat) (chunk_pop : Z) (target eps new_eps : Q)
    : res (nat * dict N nat) :=
    match fuel with
    | 0 => NoFuel
    | S fuel =>
      let min_pop := (target * (1 - new_eps) * Qn left)%Q in
      let max_pop := (target * (1 + new_eps) * Qn left)%Q in
      tt <- qdiv (inject_Z chunk_pop) (Qn num_chunks) ;;
      ee <- qdiv (qmin (max_pop - tt) (tt - min_pop)) tt ;;
      r <- chunk_off (num_chunks - 1) k g 0 (num_chunks - 1) tt ee (g_nodes g) [] ;;
      let '(k', remaining, f) := r in
      x <- pop_sum remaining ;;
      as_dist <- qdiv (inject_Z x) (Qn left) ;;
      let fake := if Nat.eqb left 1 then Qabs eps else (Qabs eps / 2)%Q in
      if qlt as_dist (target * (1 - fake)) || qlt (target * (1 + fake)) as_dist then
        chunk_loop fuel k' g num_chunks left chunk_pop target eps (new_eps / 2)
      else Ok (k', f)
    end.
  (** tree.py:1088-1194.  The final grouping (1188-1194) is [level_sets]: the
      keys of a dict are distinct, so appending to a list is adding to a set. *)
  Definition get_seed_chunks (fuel k : nat) (g : graph N) (num_chunks num_dists : nat) (target eps : Q)
    : res (nat * list (list N)) :=
    if Nat.eqb num_chunks 0 then Err ZeroDivisionError
    else
      let left := num_dists / num_chunks in
      e1 <- qdiv eps (Qn (left * num_chunks)) ;;
      let new_eps := if Nat.eqb left 1 then eps else e1 in
      chunk_pop <- pop_sum (g_nodes g) ;;
      r <- chunk_loop fuel k g num_chunks left chunk_pop target eps new_eps ;;
      Ok (fst r, dvals (level_sets (snd r))).

  (** tree.py:1295-1306: the number of chunks *)
  Definition choose_chunks (num_dists : nat) (n ceil : option nat) : res (option nat) :=
    match n with
    | None =>
      match ceil with
      | None => get_max_prime_factor_less_than num_dists num_dists
      | Some c => if Nat.leb 2 c then get_max_prime_factor_less_than num_dists c else Err ValueError
      end
    | Some m => if Nat.ltb 1 m then Ok (Some m) else Err ValueError
    end.
  (** tree.py:1233-1373.  [fuel] bounds both the depth of the recursion and the
      iterations of each tolerance loop; [k] counts the calls of the method.
      node_repeats is part of the method. *)
  Fixpoint recursive_seed_part_inner (fuel k : nat) (g : graph N) (num_dists : nat) (target eps : Q) (n ceil : option nat)
    : res (nat * list (list N)) :=
    match fuel with
    | 0 => NoFuel
    | S fuel' =>
      nc <- choose_chunks num_dists n ceil ;;
      if Nat.eqb num_dists 1 then Ok (k, [set_of (g_nodes g)])
      else if Nat.eqb num_dists 2 then
        r <- method k g target eps false ;;
        match r with
        | None => Err TypeError
        | Some s => let nodes := set_of s in Ok (S k, [nodes; sdiff (set_of (g_nodes g)) nodes])
        end
      else if match nc with None => true | Some c => negb (Nat.eqb (num_dists mod c) 0) end then
        let remaining := set_of (g_nodes g) in
        r <- method k (subgraph g remaining) target eps true ;;
        match r with
        | None => Err TypeError
        | Some s =>
          let nodes := set_of s in
          rest <- recursive_seed_part_inner fuel' (S k) (subgraph g (sdiff remaining nodes)) (num_dists - 1) target eps n ceil ;;
          Ok (fst rest, nodes :: snd rest)
        end
      else
        match nc with
        | None => Ok (k, [])
        | Some c =>
          chunks <- get_seed_chunks fuel' k g c num_dists target eps ;;
          foldM (fun acc chunk =>
            r <- recursive_seed_part_inner fuel' (fst acc) (subgraph g chunk) (num_dists / c) target eps n ceil ;;
            Ok (fst r, snd acc ++ snd r)) (snd chunks) (fst chunks, [])
        end
    end.
  (** tree.py:1435-1437 *)
  Fixpoint label_sets (parts : list P) (i : nat) (sets : list (list N)) (f : dict N P) : res (dict N P) :=
    match sets with
    | [] => Ok f
    | s :: rest =>
      f' <- foldM (fun f node => p <- of_option IndexError (nth_error parts i) ;; Ok (dset f node p)) s f ;;
      label_sets parts (S i) rest f'
    end.
  (** tree.py:1376-1438 *)
  Definition recursive_seed_part (fuel : nat) (g : graph N) (parts : list P) (target eps : Q) (n ceil : option nat) : res (dict N P) :=
    r <- recursive_seed_part_inner fuel 0 g (List.length parts) target eps n ceil ;;
    label_sets parts 0 (snd r) [].
End Seed.

(** ** bipartition_tree and bipartition_tree_random as methods *)
Section Methods.
  Context {N : Type} {EN : EqB N}.
  Variables (balance : @balance_fn N) (tree : nat -> graph N -> nat -> res (graph N)) (pop : dict N Z)
            (weights : nat -> nat -> N * N -> Q) (draws : nat -> nat -> nat).
  (** tree.py:670 and 773: the populations of the nodes of the graph *)
  Definition populations (g : graph N) : res (dict N Z) :=
    mapM (fun n => x <- of_option KeyError (dget pop n) ;; Ok (n, x)) (set_of (g_nodes g)).
  (** tree.py:581-718; [tree i g] draws the spanning trees of the [i]-th call *)
  Definition tree_method (fuel : nat) (max : option nat) (node_repeats : nat) (reselect : bool)
             (pick : nat -> list (cut N) -> res (cut N)) : @method_fn N :=
    fun i g target eps one_sided =>
      p <- populations g ;;
      s <- bipartition_tree_call balance (tree i g) p target eps one_sided (weights i) (draws i)
             fuel max node_repeats reselect None (pick i) ;;
      Ok (Some s).
  (** tree.py:798-885 *)
  Definition tree_random_method (fuel : nat) (max : option nat) (node_repeats : nat) (repeat_until_valid : bool)
             (draw : nat -> nat) : @method_fn N :=
    fun i g target eps one_sided =>
      p <- populations g ;;
      bipartition_tree_random_call balance (tree i g) p target eps one_sided (weights i) (draws i)
        fuel max node_repeats repeat_until_valid None (draw i).
End Methods.
