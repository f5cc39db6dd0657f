(** Graphs from geometries: gerrychain/graph/adjacency.py:17-150,
    graph/graph.py:179-285 (from_geodataframe), :419-446
    (add_boundary_perimeters), :390-396 (islands) and graph/geo.py:52-68
    (invalid_geometries).

    The geometry library (shapely) is a record of functions on an arbitrary type
    of geometries; lengths and areas are in an arbitrary commutative ring with a
    test for being positive.  Node ids, row labels and attribute values are
    objects of one type [X], as in M_GraphData.v; [xbool], [xnum] say how flags
    and numbers are stored and [geom] which geometry a value of the geometry
    column is.  Row labels are distinct.  Not modelled: rounding, coordinate
    reference systems (the reprojection is a function on the geometry column),
    warnings other than the overlap report, and the attribute [graph.geometry]. *)
From Coq Require Import String List Bool Arith.
From Verif Require Import Base M_Graph M_Machine M_GraphData.
Import ListNotations.
Local Open Scope string_scope.
Local Open Scope list_scope.

(** The calls into shapely.  [query] is STRtree(geometries).query(geometry),
    which gives positions. *)
Record shapely (Geom V : Type) := mkShapely {
  is_empty : Geom -> bool;
  area : Geom -> V;
  len : Geom -> V;
  intersection : Geom -> Geom -> Geom;
  boundary : Geom -> Geom;
  unary_union : list Geom -> Geom;
  intersects : Geom -> Geom -> bool;
  is_valid : Geom -> bool;
  query : list Geom -> Geom -> list nat
}.
Arguments is_empty {Geom V}. Arguments area {Geom V}. Arguments len {Geom V}. Arguments intersection {Geom V}.
Arguments boundary {Geom V}. Arguments unary_union {Geom V}. Arguments intersects {Geom V}. Arguments is_valid {Geom V}. Arguments query {Geom V}.

(** A networkx graph with the edge attribute shared_perim: the nodes, and the
    edges each once with its value. *)
Record pgraph (X V : Type) := mkPG { pg_nodes : list X; pg_edges : list ((X * X) * V) }.
Arguments mkPG {X V}. Arguments pg_nodes {X V}. Arguments pg_edges {X V}.

Section Geo.
  Context {X Geom V : Type} {EX : EqB X} {OX : Ord X} {RV : CRing V}.
  Variable sh : shapely Geom V.
  Variable positive : V -> bool.
  Definition series := dict X Geom.

  (** adjacency.py:47-69 neighboring_geometries *)
  Definition neighboring_geometries (gs : series) : list (X * list X) :=
    map (fun ig =>
      (fst ig,
       flat_map (fun p => match nth_error gs p with
                          | Some (j, b) => if negb (is_empty sh b) && negb (eqb j (fst ig)) then [j] else []
                          | None => []
                          end)
                (query sh (map snd gs) (snd ig)))) gs.
  (** adjacency.py:72-87 intersections_with_neighbors: the lookups of ids taken
      from the index succeed. *)
  Definition intersections_with_neighbors (gs : series) : list (X * dict X Geom) :=
    map (fun ijs =>
      (fst ijs,
       fold_left (fun d j => match dget gs (fst ijs), dget gs j with
                             | Some a, Some b => dset d j (intersection sh a b)
                             | _, _ => d
                             end) (snd ijs) [])) (neighboring_geometries gs).
  (** adjacency.py:90-116 warn_for_overlaps: the reported pairs; the generator
      passes its argument on. *)
  Definition sorted_pair (i j : X) : X * X := if leb i j then (i, j) else (j, i).
  Definition overlaps (pairs : list (X * dict X Geom)) : list (X * X) :=
    set_of (flat_map (fun ijs => map (fun jg => sorted_pair (fst ijs) (fst jg))
                                     (filter (fun jg => positive (area sh (snd jg))) (snd ijs))) pairs).
  (** adjacency.py:119-136 queen *)
  Definition queen (gs : series) : dict X (dict X V) :=
    map (fun ijs => (fst ijs, map (fun jg => (fst jg, len sh (snd jg)))
                                  (filter (fun jg => negb (is_empty sh (snd jg))) (snd ijs))))
        (intersections_with_neighbors gs).
  (** adjacency.py:139-150 rook *)
  Definition rook (gs : series) : dict X (dict X V) :=
    map (fun ijs => (fst ijs, filter (fun jw => positive (snd jw)) (snd ijs))) (queen gs).
  (** adjacency.py:17-24 neighbors *)
  Definition geo_neighbors (gs : series) (adjacency : string) : res (dict X (dict X V)) :=
    if eqb adjacency "rook" then Ok (rook gs) else if eqb adjacency "queen" then Ok (queen gs) else Err ValueError.

  (** networkx.Graph(dict of dicts): nodes in order, then every entry as an
      edge; an edge that is there already, in either direction, gets the new
      value. *)
  Definition same_edge (u v : X) (e : (X * X) * V) : bool :=
    (eqb (fst (fst e)) u && eqb (snd (fst e)) v) || (eqb (fst (fst e)) v && eqb (snd (fst e)) u).
  Definition set_edge (es : list ((X * X) * V)) (u v : X) (w : V) : list ((X * X) * V) :=
    if existsb (same_edge u v) es then map (fun e => if same_edge u v e then (fst e, w) else e) es
    else es ++ [((u, v), w)].
  Definition add_node (ns : list X) (n : X) : list X := if mem n ns then ns else ns ++ [n].
  Definition add_edge (g : pgraph X V) (uvw : (X * X) * V) : pgraph X V :=
    let '((u, v), w) := uvw in
    mkPG (add_node (add_node (pg_nodes g) u) v) (set_edge (pg_edges g) u v w).
  Definition entries (a : dict X (dict X V)) : list ((X * X) * V) :=
    flat_map (fun ijs => map (fun jw => ((fst ijs, fst jw), snd jw)) (snd ijs)) a.
  Definition graph_of_dicts (a : dict X (dict X V)) : pgraph X V :=
    fold_left add_edge (entries a) (mkPG (fold_left add_node (dkeys a) []) []).

  (** What a partition sees of it: the graph, and the shared_perim of an edge. *)
  Definition plain (g : pgraph X V) : graph X := mkGraph (pg_nodes g) (map fst (pg_edges g)).
  Definition shared (g : pgraph X V) (uv : X * X) : V :=
    match find (same_edge (fst uv) (snd uv)) (pg_edges g) with Some e => snd e | None => c0 end.

  (** graph.py:390-396 islands: Graph.degree counts a self-loop twice. *)
  Definition degree (g : pgraph X V) (n : X) : nat :=
    list_sum (map (fun e => (if eqb (fst (fst e)) n then 1 else 0) + (if eqb (snd (fst e)) n then 1 else 0)) (pg_edges g)).
  Definition islands (g : pgraph X V) : list X := filter (fun n => Nat.eqb (degree g n) 0) (pg_nodes g).

  (** graph.py:419-446 add_boundary_perimeters: whether a unit's boundary meets
      the boundary of the union, its total perimeter, and what is left of it. *)
  Definition boundary_unit (gs : series) (n : X) : res bool :=
    a <- of_option KeyError (dget gs n) ;;
    Ok (intersects sh (boundary sh (unary_union sh (map snd gs))) (boundary sh a)).
  Definition total_perimeter (gs : series) (n : X) : res V :=
    a <- of_option KeyError (dget gs n) ;; Ok (len sh (boundary sh a)).
  Definition shared_perimeter (g : pgraph X V) (n : X) : V :=
    vsum (map snd (filter (fun e => eqb (fst (fst e)) n || eqb (snd (fst e)) n) (pg_edges g))).
  Definition exterior_perimeter (g : pgraph X V) (gs : series) (n : X) : res V :=
    t <- total_perimeter gs n ;; Ok (csub t (shared_perimeter g n)).

  (** What the plans of a graph made from geometries read; the other node data
      and the updaters are arbitrary. *)
  Definition geo_env {P L : Type} (gs : series) (g : pgraph X V) (attr : string -> X -> option (num V))
      (county : string -> X -> option L) (us : dict string (updater X P V L)) : env X P V L :=
    mkEnv (plain g) attr (fun n => match boundary_unit gs n with Ok b => b | _ => false end)
      (fun n => match exterior_perimeter g gs n with Ok x => x | _ => c0 end) (shared g) county us.

  (** The node attributes. *)
  Variable xbool : bool -> X.
  Variable xnum : V -> X.
  Variable geom : X -> Geom.
  Definition store_geo := dict X (dict string X).

  Definition add_boundary_perimeters (g : pgraph X V) (gs : series) (s : store_geo) : res store_geo :=
    foldM (fun s n =>
      b <- boundary_unit gs n ;;
      d <- of_option KeyError (dget s n) ;;
      let d1 := dset d "boundary_node" (xbool b) in
      if b then x <- exterior_perimeter g gs n ;; Ok (dset s n (dset d1 "boundary_perim" (xnum x)))
      else Ok (dset s n d1)) (pg_nodes g) s.
  (** networkx.set_node_attributes(graph, name="area", values=areas) *)
  Definition add_areas (gs : series) (s : store_geo) : store_geo :=
    fold_left (fun s ig => match dget s (fst ig) with
                           | Some d => dset s (fst ig) (dset d "area" (xnum (area sh (snd ig))))
                           | None => s
                           end) gs s.

  (** df.geometry *)
  Definition geometry (df : frame (F := string) (X := X)) : res series :=
    col <- of_option AttributeError (dget (f_columns df) "geometry") ;;
    Ok (combine (f_index df) (map geom col)).
  (** geo.py:52-68 invalid_geometries *)
  Definition invalid_geometries (df : frame (F := string) (X := X)) : res (list X) :=
    gs <- geometry df ;;
    Ok (map fst (filter (fun ig => negb (is_valid sh (snd ig))) gs)).
  (** geo.py:71-90 reprojected: a copy with other geometries. *)
  Variable to_utm : frame (F := string) (X := X) -> X -> X.
  Definition reprojected (df : frame (F := string) (X := X)) : frame (F := string) (X := X) :=
    mkFrame (f_index df)
      (map (fun cx => if eqb (fst cx) "geometry" then (fst cx, map (to_utm df) (snd cx)) else cx) (f_columns df)).

  (** graph.py:179-285 from_geodataframe, without the coordinate reference
      system and the warnings (M_Crs.v). *)
  Definition from_geodataframe (dataframe : frame (F := string) (X := X)) (adjacency : string) (cols_to_add : option (list string))
      (reproject ignore_errors : bool) : res (pgraph X V * store_geo) :=
    _ <- (if negb ignore_errors then
            invalid <- invalid_geometries dataframe ;;
            if Nat.ltb 0 (List.length invalid) then Err GeometryError else Ok tt
          else Ok tt) ;;
    df <- (if reproject then
             let df := reprojected dataframe in
             if ignore_errors then
               invalid <- invalid_geometries df ;;
               if Nat.ltb 0 (List.length invalid) then Err GeometryError else Ok df
             else Ok df
           else Ok dataframe) ;;
    gs <- geometry df ;;
    a <- geo_neighbors gs adjacency ;;
    let g := graph_of_dicts a in
    s1 <- add_boundary_perimeters g gs (map (fun n => (n, [])) (pg_nodes g)) ;;
    s2 <- add_data (add_areas gs s1) df cols_to_add ;;
    Ok (g, s2).
End Geo.
