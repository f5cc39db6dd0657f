(** Model of FrozenGraph (graph/graph.py:508-580) and SubgraphView
    (partition/subgraphs.py) as Python objects that share a Graph with the
    caller, with their caches.

    networkx is modelled by its documented effect: [freeze] replaces the
    methods of the object that add or remove nodes and edges by a function
    that raises NetworkXError, and [subgraph] gives a live view.  The caches of
    node_indices and edge_indices, which lie in the dictionary of the Graph,
    are in M_Recursive.v. *)
From Coq Require Import List Bool Arith.
From Verif Require Import Base M_Graph M_Assignment.
Import ListNotations.

(** functools.lru_cache with maxsize [cap] > 0: entries with the most recently
    used first.  [compute] is the call on a miss; exceptions are not stored. *)
Section Lru.
  Context {K X : Type} {EK : EqB K}.
  Definition without (k : K) (c : list (K * X)) : list (K * X) := filter (fun kx => negb (eqb (fst kx) k)) c.
  Definition lru_call (cap : nat) (k : K) (compute : res X) (c : list (K * X)) : res X * list (K * X) :=
    match dget c k with
    | Some x => (Ok x, (k, x) :: without k c)
    | None =>
      match compute with
      | Ok x => (Ok x, (k, x) :: firstn (cap - 1) c)
      | other => (other, c)
      end
    end.
End Lru.

Section Frozen.
  Context {N F V P : Type} {EN : EqB N} {EF : EqB F} {EP : EqB P}.
  (** The sizes of the three caches (graph.py:559, 571, 575: 16384, 16384 and
      65536), which all FrozenGraph objects of the process share. *)
  Variables cap_neighbors cap_degree cap_lookup : nat.

  (** A Graph: its structure, the node attributes, and whether it is frozen. *)
  Record gobj := mkG { go_graph : graph N; go_data : dict N (dict F V); go_frozen : bool }.
  (** A FrozenGraph: the Graph it holds, and for a subgraph the nodes shown. *)
  Record fobj := mkF { fo_graph : nat; fo_keep : option (list N) }.
  (** A SubgraphView (subgraphs.py:22-36): the FrozenGraph, the parts, the cache. *)
  Record view := mkV { v_obj : nat; v_parts : dict P (list N); v_cache : dict P nat }.
  Record world := mkW {
    w_graphs : list gobj;
    w_frozen : list fobj;
    w_views : list view;
    w_neighbors : list ((nat * N) * list N);
    w_degree : list ((nat * N) * option nat);
    w_lookup : list ((nat * (N * F)) * V)
  }.

  (** What the program does next. *)
  Inductive fcmd :=
  | NewGraph (g : graph N) (d : dict N (dict F V))
  | CopyGraph (i : nat)                      (* graph.copy() and Graph.from_networkx(graph) *)
  | AddNode (i : nat) (n : N)
  | AddEdge (i : nat) (u v : N)
  | RemoveNode (i : nat) (n : N)
  | RemoveEdge (i : nat) (u v : N)
  | AddData (i : nat) (rows : list (N * list (F * V)))   (* graph.add_data and graph.join *)
  | SetAttr (i : nat) (n : N) (f : F) (v : V)             (* graph.nodes[n][f] = v *)
  | Freeze (i : nat)                         (* FrozenGraph(graph), as Partition(graph, ...) does *)
  | Subgraph (j : nat) (s : list N)          (* frozen.subgraph(s) *)
  | Neighbors (j : nat) (n : N)
  | Degree (j : nat) (n : N)
  | Lookup (j : nat) (n : N) (f : F)
  | NewView (j : nat) (parts : dict P (list N))
  | ViewGet (a : nat) (p : P)
  | SetPartOf (a : nat) (p : P) (s : list N). (* writing to the dictionary the view holds *)

  (** Results of the reads; [ADegree None] is the lazy view that networkx
      returns for something that is not a node. *)
  Inductive answer := ADone | ANodes (l : list N) | ADegree (k : option nat) | AVal (v : V) | AFrozen (j : nat).

  (** networkx's graph operations. *)
  Definition same_edge (u v : N) (e : N * N) : bool :=
    (eqb (fst e) u && eqb (snd e) v) || (eqb (fst e) v && eqb (snd e) u).
  Definition add_node (n : N) (g : graph N) : graph N := mkGraph (sadd n (g_nodes g)) (g_edges g).
  Definition add_edge (u v : N) (g : graph N) : graph N :=
    let g' := add_node v (add_node u g) in
    if existsb (same_edge u v) (g_edges g') then g' else mkGraph (g_nodes g') (g_edges g' ++ [(u, v)]).
  Definition remove_node (n : N) (g : graph N) : graph N :=
    mkGraph (filter (fun m => negb (eqb m n)) (g_nodes g)) (filter (fun e => negb (eqb (fst e) n) && negb (eqb (snd e) n)) (g_edges g)).
  Definition remove_edge (u v : N) (g : graph N) : graph N := mkGraph (g_nodes g) (filter (fun e => negb (same_edge u v e)) (g_edges g)).
  Definition add_row (g : graph N) (d : dict N (dict F V)) (row : N * list (F * V)) : dict N (dict F V) :=
    if mem (fst row) (g_nodes g) then dset d (fst row) (fold_left (fun r fv => dset r (fst fv) (snd fv)) (snd row) (dget_or [] d (fst row))) else d.

  (** graph.nodes[n][f] *)
  Definition attribute (o : gobj) (n : N) (f : F) : option V :=
    if mem n (g_nodes (go_graph o)) then dget (dget_or [] (go_data o) n) f else None.
  (** The graph that a FrozenGraph shows. *)
  Definition shown (o : gobj) (keep : option (list N)) : graph N :=
    match keep with None => go_graph o | Some s => subgraph (go_graph o) s end.
  (** The Graph behind FrozenGraph [j], and the graph it shows. *)
  Definition behind (w : world) (j : nat) : option (gobj * graph N) :=
    match nth_error (w_frozen w) j with
    | None => None
    | Some fo => match nth_error (w_graphs w) (fo_graph fo) with Some o => Some (o, shown o (fo_keep fo)) | None => None end
    end.
  (** networkx's degree: a loop counts twice *)
  Definition degree_in (g : graph N) (n : N) : option nat :=
    if mem n (g_nodes g) then Some (List.length (flat_map (nbrs_in_edge n) (g_edges g))) else None.

  Definition with_graph (w : world) (i : nat) (o : gobj) : world :=
    mkW (upd (w_graphs w) i o) (w_frozen w) (w_views w) (w_neighbors w) (w_degree w) (w_lookup w).
  (** A method that changes a Graph: [Err] if it is frozen. *)
  Definition mutate (w : world) (i : nat) (f : gobj -> res gobj) : res answer * world :=
    match nth_error (w_graphs w) i with
    | None => (Err IndexError, w)
    | Some o =>
      if go_frozen o then (Err NetworkXError, w)
      else match f o with
           | Ok o' => (Ok ADone, with_graph w i o')
           | Err e => (Err e, w)
           | NoFuel => (NoFuel, w)
           end
    end.
  (** A reference that does not exist cannot be written in Python; the model
      raises IndexError and changes nothing. *)
  Definition fstep (c : fcmd) (w : world) : res answer * world :=
    match c with
    | NewGraph g d => (Ok ADone, mkW (w_graphs w ++ [mkG g d false]) (w_frozen w) (w_views w) (w_neighbors w) (w_degree w) (w_lookup w))
    | CopyGraph i =>
      match nth_error (w_graphs w) i with
      | None => (Err IndexError, w)
      | Some o => (Ok ADone, mkW (w_graphs w ++ [mkG (go_graph o) (go_data o) false]) (w_frozen w) (w_views w) (w_neighbors w) (w_degree w) (w_lookup w))
      end
    | AddNode i n => mutate w i (fun o => Ok (mkG (add_node n (go_graph o)) (go_data o) false))
    | AddEdge i u v => mutate w i (fun o => Ok (mkG (add_edge u v (go_graph o)) (go_data o) false))
    | RemoveNode i n => mutate w i (fun o =>
        if mem n (g_nodes (go_graph o)) then Ok (mkG (remove_node n (go_graph o)) (filter (fun kv => negb (eqb (fst kv) n)) (go_data o)) false) else Err NetworkXError)
    | RemoveEdge i u v => mutate w i (fun o =>
        if existsb (same_edge u v) (g_edges (go_graph o)) then Ok (mkG (remove_edge u v (go_graph o)) (go_data o) false) else Err NetworkXError)
    | AddData i rows => mutate w i (fun o => Ok (mkG (go_graph o) (fold_left (add_row (go_graph o)) rows (go_data o)) false))
    | SetAttr i n f v =>
      match nth_error (w_graphs w) i with
      | None => (Err IndexError, w)
      | Some o =>
        if mem n (g_nodes (go_graph o))
        then (Ok ADone, with_graph w i (mkG (go_graph o) (dset (go_data o) n (dset (dget_or [] (go_data o) n) f v)) (go_frozen o)))
        else (Err KeyError, w)
      end
    | Freeze i => (* graph.py:529-542 *)
      match nth_error (w_graphs w) i with
      | None => (Err IndexError, w)
      | Some o =>
        let w' := with_graph w i (mkG (go_graph o) (go_data o) true) in
        (Ok (AFrozen (List.length (w_frozen w))), mkW (w_graphs w') (w_frozen w ++ [mkF i None]) (w_views w) (w_neighbors w) (w_degree w) (w_lookup w))
      end
    | Subgraph j s => (* graph.py:579-580; nodes that are not in the graph are ignored *)
      match nth_error (w_frozen w) j, behind w j with
      | Some fo, Some (_, g) =>
        (Ok (AFrozen (List.length (w_frozen w))), mkW (w_graphs w) (w_frozen w ++ [mkF (fo_graph fo) (Some (filter (fun n => mem n (g_nodes g)) s))]) (w_views w) (w_neighbors w) (w_degree w) (w_lookup w))
      | _, _ => (Err IndexError, w)
      end
    | Neighbors j n => (* graph.py:559-561 *)
      match behind w j with
      | None => (Err IndexError, w)
      | Some (_, g) =>
        let r := lru_call cap_neighbors (j, n) (if mem n (g_nodes g) then Ok (neighbors g n) else Err NetworkXError) (w_neighbors w) in
        (x <- fst r ;; Ok (ANodes x), mkW (w_graphs w) (w_frozen w) (w_views w) (snd r) (w_degree w) (w_lookup w))
      end
    | Degree j n => (* graph.py:571-573 *)
      match behind w j with
      | None => (Err IndexError, w)
      | Some (_, g) =>
        let r := lru_call cap_degree (j, n) (Ok (degree_in g n)) (w_degree w) in
        (x <- fst r ;; Ok (ADegree x), mkW (w_graphs w) (w_frozen w) (w_views w) (w_neighbors w) (snd r) (w_lookup w))
      end
    | Lookup j n f => (* graph.py:575-577 *)
      match behind w j with
      | None => (Err IndexError, w)
      | Some (o, g) =>
        let r := lru_call cap_lookup (j, (n, f)) (of_option KeyError (if mem n (g_nodes g) then attribute o n f else None)) (w_lookup w) in
        (x <- fst r ;; Ok (AVal x), mkW (w_graphs w) (w_frozen w) (w_views w) (w_neighbors w) (w_degree w) (snd r))
      end
    | NewView j parts =>
      match nth_error (w_frozen w) j with
      | None => (Err IndexError, w)
      | Some _ => (Ok ADone, mkW (w_graphs w) (w_frozen w) (w_views w ++ [mkV j parts []]) (w_neighbors w) (w_degree w) (w_lookup w))
      end
    | ViewGet a p => (* subgraphs.py:38-53 *)
      match nth_error (w_views w) a with
      | None => (Err IndexError, w)
      | Some v =>
        match dget (v_cache v) p with
        | Some k => (Ok (AFrozen k), w)
        | None =>
          match dget (v_parts v) p with
          | None => (Err KeyError, w)
          | Some s =>
            match nth_error (w_frozen w) (v_obj v), behind w (v_obj v) with
            | Some fo, Some (_, g) =>
              let k := List.length (w_frozen w) in
              (Ok (AFrozen k), mkW (w_graphs w) (w_frozen w ++ [mkF (fo_graph fo) (Some (filter (fun n => mem n (g_nodes g)) s))])
                 (upd (w_views w) a (mkV (v_obj v) (v_parts v) (dset (v_cache v) p k))) (w_neighbors w) (w_degree w) (w_lookup w))
            | _, _ => (Err IndexError, w)
            end
          end
        end
      end
    | SetPartOf a p s =>
      match nth_error (w_views w) a with
      | None => (Err IndexError, w)
      | Some v => (Ok ADone, mkW (w_graphs w) (w_frozen w) (upd (w_views w) a (mkV (v_obj v) (dset (v_parts v) p s) (v_cache v))) (w_neighbors w) (w_degree w) (w_lookup w))
      end
    end.
  (** A program; exceptions are caught and the program goes on. *)
  Definition frun (cs : list fcmd) (w : world) : world := fold_left (fun w c => snd (fstep c w)) cs w.
  Definition no_world : world := mkW [] [] [] [] [] [].
End Frozen.
Arguments gobj : clear implicits.
Arguments fcmd : clear implicits.
Arguments world : clear implicits.
Arguments answer : clear implicits.
Arguments view : clear implicits.
Arguments fobj : clear implicits.
