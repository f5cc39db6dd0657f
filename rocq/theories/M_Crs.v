(** Coordinate reference systems and warnings of graphs made from tables:
    gerrychain/graph/graph.py:122-285 (from_file, from_geodataframe),
    398-416 (warn_for_islands, issue_warnings), 449-457 (check_dataframe),
    gerrychain/graph/geo.py:71-90 (reprojected).

    A GeoDataFrame is a table with, possibly, a coordinate reference system; two
    systems are equal or not.  [utm_crs] is the UTM system chosen for a table
    (identify_utm_zone, which may raise) and [to_utm] the geometries in it.
    Following geopandas: to_crs raises ValueError on a table without a system;
    set_crs(..., inplace=True) raises ValueError on a table that has another
    one, and otherwise writes into the table it is called on.
    df.crs.to_json() is taken to identify the system. *)
From Coq Require Import String List Bool Arith.
From Verif Require Import Base M_Graph M_Partition M_Machine M_GraphData M_Geo.
Import ListNotations.
Local Open Scope string_scope.
Local Open Scope list_scope.

(** A warning that a call issues. *)
Inductive warning (X : Type) :=
| Overlaps (pairs : list (X * X))
| Islands (nodes : list X)
| Missing (column : string)
| NoCrs.
Arguments Overlaps {X}. Arguments Islands {X}. Arguments Missing {X}. Arguments NoCrs {X}.

Section Crs.
  Context {X Geom V C : Type} {EX : EqB X} {OX : Ord X} {RV : CRing V} {EC : EqB C}.
  Variable sh : shapely Geom V.
  Variable positive : V -> bool.
  Variables (xbool : bool -> X) (xnum : V -> X) (geom : X -> Geom).
  Variable isna : X -> bool.
  Notation table := (@frame string X).
  Variable utm_crs : C -> table -> res C.
  Variable to_utm : C -> table -> X -> X.

  Record geoframe := mkGF { gf_table : table; gf_crs : option C }.
  (** A graph, its node attributes and graph.graph["crs"]. *)
  Record geograph := mkGG { gg_graph : pgraph X V; gg_attrs : dict X (dict string X); gg_crs : option C }.

  (** geo.py:71-90 reprojected *)
  Definition reprojected_frame (df : geoframe) : res geoframe :=
    c <- of_option ValueError (gf_crs df) ;;
    u <- utm_crs c (gf_table df) ;;
    Ok (mkGF (reprojected (to_utm c) (gf_table df)) (Some u)).
  (** GeoDataFrame.set_crs(crs, inplace=True) *)
  Definition set_crs (c : C) (df : geoframe) : res geoframe :=
    match gf_crs df with
    | Some c0 => if eqb c0 c then Ok df else Err ValueError
    | None => Ok (mkGF (gf_table df) (Some c))
    end.

  (** graph.py:398-416 warn_for_islands, issue_warnings *)
  Definition issue_warnings (g : pgraph X V) : list (warning X) :=
    match islands g with [] => [] | l => [Islands l] end.
  (** adjacency.py:90-116 warn_for_overlaps *)
  Definition overlap_warnings (gs : dict X Geom) : list (warning X) :=
    match overlaps sh positive (intersections_with_neighbors sh gs) with [] => [] | l => [Overlaps l] end.
  (** graph.py:449-457 check_dataframe *)
  Definition check_dataframe (df : table) : list (warning X) :=
    flat_map (fun kv => if existsb isna (snd kv) then [Missing (fst kv)] else []) (f_columns df).
  (** graph.py:309-335 add_data: the columns it checks are those asked for. *)
  Definition add_data_warnings (df : table) (columns : option (list string)) : res (list (warning X)) :=
    chosen <- select (match columns with Some cs => cs | None => dkeys (f_columns df) end) df ;;
    Ok (check_dataframe chosen).
  Definition crs_warnings (df : geoframe) : list (warning X) :=
    match gf_crs df with None => [NoCrs] | Some _ => [] end.

  (** graph.py:179-285 from_geodataframe after the geometry checks: the table
      used, the graph and the warnings.  The steps up to set_crs are those of
      M_Geo.from_geodataframe, with the table reprojected beforehand. *)
  Definition made_from (df : geoframe) (adjacency : string) (cols : option (list string)) (override : option C)
      : res (geograph * geoframe * list (warning X)) :=
    gs <- geometry geom (gf_table df) ;;
    a <- geo_neighbors sh positive gs adjacency ;;
    let g := graph_of_dicts a in
    s1 <- add_boundary_perimeters sh xbool xnum g gs (map (fun n => (n, [])) (pg_nodes g)) ;;
    s2 <- add_data (add_areas sh xnum gs s1) (gf_table df) cols ;;
    ws <- add_data_warnings (gf_table df) cols ;;
    df2 <- match override with Some c => set_crs c df | None => Ok df end ;;
    Ok (mkGG g s2 (gf_crs df2), df2, overlap_warnings gs ++ issue_warnings g ++ ws ++ crs_warnings df2).
  Definition checked (df : geoframe) : res unit :=
    invalid <- invalid_geometries sh geom (gf_table df) ;;
    if Nat.ltb 0 (List.length invalid) then Err GeometryError else Ok tt.
  (** The result, and the caller's table afterwards: the table that is used is
      the caller's own object unless it was reprojected. *)
  Definition from_geodataframe_crs (df : geoframe) (adjacency : string) (cols : option (list string))
      (reproject ignore_errors : bool) (override : option C) : res (geograph * list (warning X)) * geoframe :=
    let run :=
      _ <- (if negb ignore_errors then checked df else Ok tt) ;;
      used <- (if reproject then
                 used <- reprojected_frame df ;;
                 _ <- (if ignore_errors then checked used else Ok tt) ;;
                 Ok used
               else Ok df) ;;
      made_from used adjacency cols override in
    match run with
    | Ok (g, used, ws) => (Ok (g, ws), if reproject then df else used)
    | Err e => (Err e, df)
    | NoFuel => (NoFuel, df)
    end.

  (** graph.py:122-175 from_file: [df] is what geopandas reads from the file;
      df.crs.to_json() on a table without a system is an AttributeError. *)
  Definition from_file (df : geoframe) (adjacency : string) (cols : option (list string)) (reproject ignore_errors : bool)
      : res (geograph * list (warning X)) :=
    let '(r, df1) := from_geodataframe_crs df adjacency cols reproject ignore_errors None in
    gw <- r ;;
    c <- of_option AttributeError (gf_crs df1) ;;
    Ok (mkGG (gg_graph (fst gw)) (gg_attrs (fst gw)) (Some c), snd gw).
End Crs.
Arguments geoframe : clear implicits.
Arguments geograph : clear implicits.
