(** Grids: gerrychain/grid.py.

    Coordinates and dimensions are natural numbers; a negative dimension gives
    an empty range in Python and is not modelled.  The number of dimensions is
    two (ValueError otherwise, not modelled).  The order and orientation in
    which networkx lists the edges are not modelled: edges are listed by kind.
    The plan itself is a plan of M_Machine.v over the grid's environment; the
    updater polsby_popper is left out (it is a function of "area" and
    "perimeter", see M_Compact.v). *)
From Coq Require Import String List Bool Arith ZArith.
From Verif Require Import Base M_Graph M_Partition M_Machine.
Import ListNotations.
Local Open Scope string_scope.
Local Open Scope nat_scope.
Local Open Scope list_scope.

Definition cell := (nat * nat)%type.

(** networkx.grid_2d_graph(m, n): the nodes and the edges along both axes. *)
Definition cells (m n : nat) : list cell := flat_map (fun i => map (fun j => (i, j)) (seq 0 n)) (seq 0 m).
Definition row_edges (m n : nat) : list (cell * cell) :=
  flat_map (fun i => map (fun j => ((i, j), (S i, j))) (seq 0 n)) (seq 0 (m - 1)).
Definition column_edges (m n : nat) : list (cell * cell) :=
  flat_map (fun i => map (fun j => ((i, j), (i, S j))) (seq 0 (n - 1))) (seq 0 m).
(** grid.py:164-171 *)
Definition diagonal_edges (m n : nat) : list (cell * cell) :=
  flat_map (fun i => map (fun j => ((i, j), (S i, S j))) (seq 0 (n - 1))) (seq 0 (m - 1)) ++
  flat_map (fun i => map (fun j => ((i, S j), (S i, j))) (seq 0 (n - 1))) (seq 0 (m - 1)).
(** grid.py:142-181 create_grid_graph *)
Definition create_grid_graph (m n : nat) (with_diagonals : bool) : graph cell :=
  mkGraph (cells m n) (row_edges m n ++ column_edges m n ++ (if with_diagonals then diagonal_edges m n else [])).
(** grid.py:162 and 173-174: 1 on the edges along the axes, 0 on diagonals. *)
Definition shared_perim (m n : nat) (with_diagonals : bool) (e : cell * cell) : Z :=
  if with_diagonals && (mem e (diagonal_edges m n) || mem (snd e, fst e) (diagonal_edges m n)) then 0%Z else 1%Z.
(** grid.py:223-243 get_boundary_perim *)
Definition get_boundary_perim (m n : nat) (c : cell) : Z :=
  if mem c [(0, 0); (m - 1, 0); (0, n - 1); (m - 1, n - 1)] then 2%Z
  else if mem (fst c) [0; m - 1] || mem (snd c) [0; n - 1] then 1%Z
  else 0%Z.
(** grid.py:214-220: the attribute boundary_node. *)
Definition boundary_node (m n : nat) (c : cell) : bool := mem (fst c) [0; m - 1] || mem (snd c) [0; n - 1].
(** grid.py:176-177 and 216-220: the numeric node attributes. *)
Definition grid_attr (m n : nat) (f : string) (c : cell) : option (num Z) :=
  if mem c (cells m n) then
    if mem f ["population"; "area"] then Some (Num 1%Z)
    else if eqb f "boundary_perim" && boundary_node m n c then Some (Num (get_boundary_perim m n c))
    else None
  else None.
(** grid.py:246-264 color_half *)
Definition color_half (c : cell) (threshold : nat) : nat := if Nat.leb (fst c) threshold then 0 else 1.
(** grid.py:267-288 color_quadrants *)
Definition color_quadrants (c : cell) (thresholds : nat * nat) : nat :=
  (if Nat.ltb (fst c) (fst thresholds) then 0 else 1) + (if Nat.ltb (snd c) (snd thresholds) then 0 else 2).
(** grid.py:102-106: the assignment in use; an empty dictionary counts as none. *)
Definition grid_assignment (m n : nat) (given : option (dict cell nat)) : dict cell nat :=
  match given with
  | None | Some [] => map (fun c => (c, color_quadrants c (Nat.div2 m, Nat.div2 n))) (cells m n)
  | Some d => d
  end.

Section Grid.
  Context {P L : Type} {EP : EqB P}.
  (** grid.py:46-56 default_updaters, without polsby_popper. *)
  Definition default_updaters : dict string (updater cell P Z L) :=
    [("cut_edges", UCutEdges); ("population", UTally ["population"] "population"); ("perimeter", UPerimeter);
     ("exterior_boundaries", UExterior); ("interior_boundaries", UInterior); ("boundary_nodes", UBoundaryNodes);
     ("area", UTally ["area"] "area"); ("cut_edges_by_part", UCutEdgesByPart)].
  (** grid.py:108-110: updaters.update(default_updaters), also the content of
      the user's dictionary after the call if it was not empty. *)
  Definition grid_updaters (given : dict string (updater cell P Z L)) : dict string (updater cell P Z L) :=
    fold_left (fun d kv => dset d (fst kv) (snd kv)) default_updaters given.
  (** What a grid's plans read. *)
  Definition grid_env (m n : nat) (with_diagonals : bool) (given : dict string (updater cell P Z L)) : env cell P Z L :=
    mkEnv (create_grid_graph m n with_diagonals) (grid_attr m n) (boundary_node m n) (get_boundary_perim m n)
      (shared_perim m n with_diagonals) (fun _ _ => None) (grid_updaters given).
  (** grid.py:129-139 as_list_of_lists *)
  Definition as_list_of_lists (m n : nat) (A : assignment cell P) : res (list (list P)) :=
    mapM (fun j => mapM (fun i => match dget (a_map A) (i, j) with Some p => Ok p | None => Err KeyError end) (seq 0 m)) (seq 0 n).
End Grid.
