(** Model of the spanning tree counts,
    /repo/gerrychain/updaters/spanning_trees.py:11-41.

    Simplifications: numbers are exact integers, so exp(slogdet(L)[1]) is the
    absolute value of the determinant of L (exp(-inf) = 0 for a singular L);
    the determinant is defined here by expansion along the first row; the
    edge attribute "weight" that networkx.laplacian_matrix looks up is a total
    function on edges (1 where it is missing). *)
From Coq Require Import List Bool Arith ZArith.
From Verif Require Import Base M_Graph M_Partition.
Import ListNotations.
Local Open Scope Z_scope.

(** ** Matrices as lists of rows *)
Fixpoint delete_at {A} (i : nat) (l : list A) : list A :=
  match i, l with
  | _, [] => []
  | O, _ :: r => r
  | S j, x :: r => x :: delete_at j r
  end.
(** numpy.delete(m, i, 0) and numpy.delete(m, i, 1); an index past the end of
    the axis is IndexError. *)
Definition delete_row (i : nat) (m : list (list Z)) : res (list (list Z)) :=
  if Nat.ltb i (length m) then Ok (delete_at i m) else Err IndexError.
Definition delete_column (i width : nat) (m : list (list Z)) : res (list (list Z)) :=
  if Nat.ltb i width then Ok (map (delete_at i) m) else Err IndexError.
(** Determinant: alternating sum along the first row; [n] is the number of
    rows. *)
Fixpoint alternating (f : nat -> Z -> Z) (i : nat) (row : list Z) : Z :=
  match row with
  | [] => 0
  | x :: r => f i x - alternating f (S i) r
  end.
Fixpoint det_rows (n : nat) (m : list (list Z)) : Z :=
  match n, m with
  | S k, row :: rows => alternating (fun i x => x * det_rows k (map (delete_at i) rows)) 0 row
  | _, _ => 1
  end.
Definition det (m : list (list Z)) : Z := det_rows (length m) m.

Section Count.
  Context {N P : Type} {EN : EqB N} {EP : EqB P}.
  Variable weight : N * N -> Z.

  Fixpoint total (l : list Z) : Z := match l with [] => 0 | x :: r => x + total r end.
  (** networkx.to_scipy_sparse_array: the weight of the edge between two nodes. *)
  Definition joins (u v : N) (e : N * N) : bool :=
    (eqb (fst e) u && eqb (snd e) v) || (eqb (fst e) v && eqb (snd e) u).
  Definition adjacency (g : graph N) (u v : N) : Z := total (map weight (filter (joins u v) (g_edges g))).
  (** networkx.laplacian_matrix: row sums on the diagonal minus the adjacency
      matrix. *)
  Definition laplacian_entry (g : graph N) (u v : N) : Z :=
    (if eqb u v then total (map (adjacency g u) (g_nodes g)) else 0) - adjacency g u v.
  (** A graph without nodes is rejected by networkx. *)
  Definition laplacian_matrix (g : graph N) : res (list (list Z)) :=
    match g_nodes g with
    | [] => Err PointlessConcept
    | _ => Ok (map (fun u => map (laplacian_entry g u) (g_nodes g)) (g_nodes g))
    end.
  (** spanning_trees.py:27-30 *)
  Definition num_spanning_trees_in_graph (g : graph N) : res Z :=
    m <- laplacian_matrix g ;;
    m1 <- delete_row 0 m ;;
    m2 <- delete_column 1 (length (g_nodes g)) m1 ;;
    Ok (Z.abs (det m2)).
  (** spanning_trees.py:33-41; the district's subgraph is
      partition/subgraphs.py:38-49. *)
  Definition num_spanning_trees (g : graph N) (A : assignment N P) : res (dict P Z) :=
    mapM (fun pn => x <- num_spanning_trees_in_graph (subgraph g (snd pn)) ;; Ok (fst pn, x)) (a_parts A).
End Count.
