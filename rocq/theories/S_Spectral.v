(** What numpy promises about eigh, over the real numbers. *)
From Coq Require Import List Bool Arith Reals Sorted.
From Verif Require Import Base M_Spectral.
Import ListNotations.
Local Open Scope R_scope.

Section Spec.
  Context {N : Type} {EN : EqB N}.
  (** [sys] lists eigenvalues in ascending order with eigenvectors of the matrix
      [m] over the rows [ns]; the eigenvectors are the columns of an orthogonal
      matrix: the columns and the rows are orthonormal. *)
  Record eigensystem (ns : list N) (m : N -> N -> R) (sys : list (R * (N -> R))) : Prop := {
    es_sorted : StronglySorted Rle (map fst sys);
    es_eigen : forall lam v i, In (lam, v) sys -> In i ns -> total ns (fun j => m i j * v j) = lam * v i;
    es_columns : forall k l x y, nth_error sys k = Some x -> nth_error sys l = Some y ->
      total ns (fun i => snd x i * snd y i) = if Nat.eqb k l then 1 else 0;
    es_rows : forall i j, In i ns -> In j ns -> total sys (fun s => snd s i * snd s j) = if eqb i j then 1 else 0
  }.
End Spec.
