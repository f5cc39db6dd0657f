(** Model of /repo/gerrychain/proposals/spectral_proposals.py on the plan
    objects of M_Machine.v.

    Numbers are real numbers.  The rows and columns of a matrix, and the entries
    of a vector, are indexed by the nodes they belong to instead of by their
    positions.  numpy's eigh is an argument.  The edge attribute "weight" is a
    dictionary over the edges as the graph lists them; it is part of the user's
    graph and outlives the call. *)
From Coq Require Import List Bool Arith Reals.
From Verif Require Import Base M_Graph M_Partition M_Machine M_Proposals M_Recom.
Import ListNotations.
Local Open Scope R_scope.
Local Open Scope list_scope.

(** Sum of [f] over a list. *)
Definition total {X : Type} (l : list X) (f : X -> R) : R := fold_right (fun x s => f x + s) 0 l.

Section Cut.
  Context {N P : Type} {EN : EqB N} {EP : EqB P}.

  (** networkx reads the attribute "weight" of an edge, 1 if it is absent. *)
  Definition edge_weight (wts : dict (N * N) R) (i j : N) : R :=
    match dget wts (i, j) with
    | Some x => x
    | None => match dget wts (j, i) with Some x => x | None => 1 end
    end.
  (** networkx.to_scipy_sparse_array *)
  Definition adjacency (h : graph N) (wts : dict (N * N) R) (i j : N) : R :=
    if mem j (neighbors h i) then edge_weight wts i j else 0.
  (** networkx.laplacian_matrix: the row sums on the diagonal, minus the
      adjacency matrix *)
  Definition row_sum (h : graph N) (wts : dict (N * N) R) (i : N) : R := total (g_nodes h) (adjacency h wts i).
  Definition laplacian (h : graph N) (wts : dict (N * N) R) (i j : N) : R :=
    (if eqb i j then row_sum h wts i else 0) - adjacency h wts i j.
  (** networkx.normalized_laplacian_matrix: scaled by 1/sqrt of the row sums,
      where an infinite entry is replaced by 0 *)
  Definition inv_sqrt (x : R) : R := if Req_EM_T x 0 then 0 else / sqrt x.
  Definition normalized_laplacian (h : graph N) (wts : dict (N * N) R) (i j : N) : R :=
    inv_sqrt (row_sum h wts i) * (laplacian h wts i j * inv_sqrt (row_sum h wts j)).

  (** numpy.linalg.eigh: the eigenvalues with their eigenvectors, the columns of
      its second result *)
  Variable eigh : list N -> (N -> N -> R) -> list (R * (N -> R)).
  (** The order in which Python iterates over a set of nodes. *)
  Variable set_order : list N -> list N.

  (** spectral_proposals.py:34-36: [random] gives random.random() for each edge
      of the subgraph if weight_type is "random".  The attribute is written into
      the edge data that the subgraph shares with the graph. *)
  Definition draw_weights (h : graph N) (random : option (N * N -> R)) (wts : dict (N * N) R) : dict (N * N) R :=
    match random with
    | None => wts
    | Some draw => fold_left (fun w e => dset w e (draw e)) (g_edges h) wts
    end.
  (** spectral_proposals.py:38-42 *)
  Definition chosen_matrix (h : graph N) (normalized : bool) (wts : dict (N * N) R) : N -> N -> R :=
    if normalized then normalized_laplacian h wts else laplacian h wts.
  (** spectral_proposals.py:48: [part_labels[x > 0]] *)
  Definition side (part_labels : P * P) (x : R) : P := if Rlt_dec 0 x then snd part_labels else fst part_labels.
  (** spectral_proposals.py:9-52.  [nlist] follows graph.nodes(), but networkx
      orders the rows of the matrix by iterating over the graph, and the graph
      is a FrozenGraph whose __iter__ runs over a set (graph.py:556-557 and
      563-565).  The x-th entry of the vector is thus the one of the x-th node
      in the order of the set. *)
  Definition spectral_cut (h : graph N) (part_labels : P * P) (random : option (N * N -> R)) (normalized : bool)
             (wts : dict (N * N) R) : res (dict N P) * dict (N * N) R :=
    let wts' := draw_weights h random wts in
    let nlist := g_nodes h in
    let rows := set_order nlist in
    (match nth_error (eigh rows (chosen_matrix h normalized wts')) 1 with
     | None => Err IndexError
     | Some (_, v) => Ok (map (fun nr => (fst nr, side part_labels (v (snd nr)))) (combine nlist rows))
     end, wts').
End Cut.

Section Recom.
  Context {N P V L : Type} {EN : EqB N} {EP : EqB P} {EL : EqB L} {ON : Ord N} {OP : Ord P} {RV : CRing V}.
  Variable E : env N P V L.
  Notation g := (e_graph E).
  Notation M := (@M N P V L).
  Notation "'do' x <- m ; f" := (bindM m (fun x => f))
    (at level 200, x name, m at level 100, f at level 200, right associativity).
  Variable eigh : list N -> (N -> N -> R) -> list (R * (N -> R)).
  Variable set_order : list N -> list N.
  (** spectral_proposals.py:55-103; the weights left behind come with the plan *)
  Definition spectral_recom (r : nat) (random : option (N * N -> R)) (normalized : bool) (wts : dict (N * N) R)
             (a : nat) : M (nat * dict (N * N) R) :=
    do o <- get_obj a ;
    do cuts <- cut_edges_of E a ;
    do edge <- lift (choice r cuts) ;
    do p <- lift (part_of (o_assign o) (fst edge)) ;
    do q <- lift (part_of (o_assign o) (snd edge)) ;
    do nodes <- lift (merged (o_assign o) p q) ;
    let '(flips, wts') := spectral_cut eigh set_order (subgraph g nodes) (p, q) random normalized wts in
    do f <- lift flips ;
    do b <- flip E a f ;
    ret (b, wts').
End Recom.
