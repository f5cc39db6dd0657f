(** Saving and loading graphs: Graph.to_json, Graph.from_json and
    Graph.from_networkx (graph/graph.py:29-119), with geometries
    (graph.py:460-505) and json_serialize (graph.py:29-48).

    networkx.readwrite.json_graph.adjacency_data and adjacency_graph and
    Python's json are modelled by their documented effect.  Text is not
    modelled: json writes numbers and strings so that they are read back
    unchanged.  A float is its bit pattern.  Not modelled: floats, booleans and
    None as nodes, float keys, numpy scalars as keys, numpy arrays. *)
From Coq Require Import String List Bool Arith ZArith DecimalString.
From Verif Require Import Base.
Import ListNotations.
Local Open Scope list_scope.

(** Keys of attribute dictionaries; [KOther] is any other hashable object. *)
Inductive key := KStr (s : string) | KInt (z : Z) | KBool (b : bool) | KNone | KOther (k : nat).
(** Attribute values.  [VNp] is an integer scalar of numpy or pandas, [VGeom x]
    a shapely geometry with __geo_interface__ [x], [VOther] any other object
    that json cannot write. *)
Inductive value :=
| VNone | VBool (b : bool) | VInt (z : Z) | VFloat (bits : Z) | VStr (s : string)
| VList (l : list value) | VTuple (l : list value) | VDict (d : list (key * value))
| VNp (z : Z) | VGeom (x : value) | VOther (k : nat).
(** Nodes: numbers, strings, tuples, other hashable objects.  A numpy integer
    equals the int and is identified with it. *)
Inductive ident := IInt (z : Z) | IStr (s : string) | ITuple (l : list Z) | IOther (k : nat).
(** What a JSON file contains. *)
Inductive json := JNull | JBool (b : bool) | JInt (z : Z) | JFloat (bits : Z) | JStr (s : string) | JArr (l : list json) | JObj (d : list (string * json)).

Definition key_eqb (a b : key) : bool :=
  match a, b with
  | KStr s, KStr t => String.eqb s t
  | KInt x, KInt y => Z.eqb x y
  | KBool x, KBool y => Bool.eqb x y
  | KNone, KNone => true
  | KOther x, KOther y => Nat.eqb x y
  | _, _ => false
  end.
Fixpoint zs_eqb (a b : list Z) : bool :=
  match a, b with [], [] => true | x :: r, y :: s => Z.eqb x y && zs_eqb r s | _, _ => false end.
Definition ident_eqb (a b : ident) : bool :=
  match a, b with
  | IInt x, IInt y => Z.eqb x y
  | IStr s, IStr t => String.eqb s t
  | ITuple l, ITuple m => zs_eqb l m
  | IOther x, IOther y => Nat.eqb x y
  | _, _ => false
  end.
Lemma key_eqb_eq a b : key_eqb a b = true <-> a = b.
Proof.
  destruct a, b; cbn; try (split; [discriminate|congruence]); try tauto.
  - rewrite String.eqb_eq. split; congruence.
  - rewrite Z.eqb_eq. split; congruence.
  - rewrite Bool.eqb_true_iff. split; congruence.
  - rewrite Nat.eqb_eq. split; congruence.
Qed.
Lemma zs_eqb_eq a b : zs_eqb a b = true <-> a = b.
Proof.
  revert b. induction a as [|x a IH]; intros [|y b]; cbn; try (split; congruence). rewrite andb_true_iff, Z.eqb_eq, IH. split; [intros [-> ->]; reflexivity|intros [= -> ->]; auto].
Qed.
Lemma ident_eqb_eq a b : ident_eqb a b = true <-> a = b.
Proof.
  destruct a, b; cbn; try (split; [discriminate|congruence]).
  - rewrite Z.eqb_eq. split; congruence.
  - rewrite String.eqb_eq. split; congruence.
  - rewrite zs_eqb_eq. split; congruence.
  - rewrite Nat.eqb_eq. split; congruence.
Qed.
#[export] Instance EqB_key : EqB key := {| eqb := key_eqb; eqb_eq := key_eqb_eq |}.
#[export] Instance EqB_ident : EqB ident := {| eqb := ident_eqb; eqb_eq := ident_eqb_eq |}.

(** json.dump's treatment of dictionary keys *)
Definition key_text (k : key) : res string :=
  match k with
  | KStr s => Ok s
  | KInt z => Ok (NilZero.string_of_int (Z.to_int z))
  | KBool true => Ok "true"%string
  | KBool false => Ok "false"%string
  | KNone => Ok "null"%string
  | KOther _ => Err TypeError
  end.
(** json.dump with default=json_serialize (graph.py:29-48, 119): objects json
    cannot write become an integer or null *)
Fixpoint encode (v : value) : res json :=
  match v with
  | VNone => Ok JNull
  | VBool b => Ok (JBool b)
  | VInt z => Ok (JInt z)
  | VFloat x => Ok (JFloat x)
  | VStr s => Ok (JStr s)
  | VList l | VTuple l =>
    js <- (fix go l := match l with [] => Ok [] | x :: r => j <- encode x ;; js <- go r ;; Ok (j :: js) end) l ;; Ok (JArr js)
  | VDict d =>
    js <- (fix go d := match d with [] => Ok [] | (k, x) :: r => t <- key_text k ;; j <- encode x ;; js <- go r ;; Ok ((t, j) :: js) end) d ;; Ok (JObj js)
  | VNp z => Ok (JInt z)
  | VGeom _ | VOther _ => Ok JNull
  end.
(** json.load; of equal keys the last one counts *)
Fixpoint decode (j : json) : value :=
  match j with
  | JNull => VNone
  | JBool b => VBool b
  | JInt z => VInt z
  | JFloat x => VFloat x
  | JStr s => VStr s
  | JArr l => VList (map decode l)
  | JObj d => VDict (fold_left (fun acc kx => dset acc (KStr (fst kx)) (snd kx)) (map (fun kj => (fst kj, decode (snd kj))) d) [])
  end.

Notation attrs := (list (key * value)).
Notation nbrs := (list (ident * attrs)).
Notation adjacency := (list (ident * nbrs)).
(** A Graph: its own attributes, and for every node, in order, the attributes
    and the neighbours, in order, with the attributes of the edge. *)
Record jgraph := mkJ { j_attrs : attrs; j_nodes : nbrs; j_adj : adjacency }.

(** ** Rebuilding a graph from nodes and neighbours *)
(** networkx add_edge(u, v) and update of the edge's attributes, which are one
    dictionary for both directions *)
Definition put_edge (adj : adjacency) (u v : ident) (e : attrs) : adjacency :=
  let d := dupdate (dget_or [] (dget_or [] adj u) v) e in
  let adj1 := dset adj u (dset (dget_or [] adj u) v d) in
  dset adj1 v (dset (dget_or [] adj1 v) u d).
Definition put_edges (adj : adjacency) (u : ident) (es : nbrs) : adjacency :=
  fold_left (fun adj ve => put_edge adj u (fst ve) (snd ve)) es adj.
(** networkx Graph(graph), which graph.py:63-74 from_networkx calls; graph.copy()
    does the same *)
Definition from_networkx (g : jgraph) : jgraph :=
  mkJ (j_attrs g) (j_nodes g) (fold_left (fun adj ue => put_edges adj (fst ue) (snd ue)) (j_adj g) (map (fun n => (n, [])) (dkeys (j_adj g)))).

(** ** Saving *)
Definition value_of_ident (n : ident) : value :=
  match n with IInt z => VInt z | IStr s => VStr s | ITuple l => VTuple (map VInt l) | IOther k => VOther k end.
Definition value_of_key (k : key) : value :=
  match k with KStr s => VStr s | KInt z => VInt z | KBool b => VBool b | KNone => VNone | KOther k => VOther k end.
(** graph.py:460-481 remove_geometries and 484-505 convert_geometries_to_geojson
    on the dictionary of one node *)
Definition is_geom (v : value) : bool := match v with VGeom _ => true | _ => false end.
Definition handle_geometries (geo : bool) (a : attrs) : attrs :=
  if geo then map (fun kv => (fst kv, match snd kv with VGeom x => x | v => v end)) a
  else filter (fun kv => negb (is_geom (snd kv))) a.
(** The file: the items of the graph's attributes, the nodes, the neighbours. *)
Record file := mkFile { f_graph : json; f_nodes : list json; f_adj : list (list json) }.
(** networkx adjacency_data and graph.py:94-119 to_json.  The entry id replaces
    an attribute id. *)
Definition to_json (geo : bool) (g : jgraph) : res file :=
  gs <- encode (VList (map (fun kv => VTuple [value_of_key (fst kv); snd kv]) (j_attrs g))) ;;
  ns <- mapM (fun nx => encode (VDict (handle_geometries geo (dset (dget_or [] (j_nodes g) (fst nx)) (KStr "id") (value_of_ident (fst nx)))))) (j_adj g) ;;
  es <- mapM (fun nx => mapM (fun ve => encode (VDict (dset (snd ve) (KStr "id") (value_of_ident (fst ve))))) (snd nx)) (j_adj g) ;;
  Ok (mkFile gs ns es).

(** ** Loading *)
(** The node read from an entry: lists and dictionaries are not hashable, None
    cannot be a node.  Of the other values, only numbers and strings occur in
    files that to_json writes. *)
Definition ident_of_value (v : value) : res ident :=
  match v with
  | VInt z => Ok (IInt z)
  | VStr s => Ok (IStr s)
  | VNone => Err ValueError
  | _ => Err TypeError
  end.
Definition key_of_value (v : value) : res key :=
  match v with
  | VStr s => Ok (KStr s)
  | VInt z => Ok (KInt z)
  | VBool b => Ok (KBool b)
  | VNone => Ok KNone
  | _ => Err TypeError
  end.
(** [d.pop("id")] on the entry *)
Definition pop_id (v : value) : res (ident * attrs) :=
  match v with
  | VDict d =>
    x <- of_option KeyError (dget d (KStr "id")) ;;
    n <- ident_of_value x ;;
    Ok (n, filter (fun kv => negb (eqb (fst kv) (KStr "id"))) d)
  | _ => Err AttributeError
  end.
(** [dict(data.get("graph"))] *)
Definition graph_attrs (v : value) : res attrs :=
  match v with
  | VList l => foldM (fun d x => match x with VList [k; y] => k' <- key_of_value k ;; Ok (dset d k' y) | _ => Err ValueError end) l []
  | _ => Err TypeError
  end.
(** networkx adjacency_graph and graph.py:77-92 from_json; the warning about
    islands is not modelled *)
Definition read_nodes (ns : list (ident * attrs)) : nbrs :=
  fold_left (fun d na => dset d (fst na) (dupdate (dget_or [] d (fst na)) (snd na))) ns [].
Definition from_json (f : file) : res jgraph :=
  ga <- graph_attrs (decode (f_graph f)) ;;
  ns <- mapM (fun j => pop_id (decode j)) (f_nodes f) ;;
  es <- mapM (fun js => mapM (fun j => pop_id (decode j)) js) (f_adj f) ;;
  let nodes := read_nodes ns in
  let adj := fold_left (fun adj ue => put_edges adj (fst (fst ue)) (snd ue)) (combine ns es) (map (fun n => (n, [])) (dkeys nodes)) in
  Ok (from_networkx (mkJ ga nodes adj)).
