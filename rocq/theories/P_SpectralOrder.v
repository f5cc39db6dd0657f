(** C130 for spectral_recom and the order of the cut edges. *)
From Coq Require Import List Bool Arith Reals Permutation.
From Verif Require Import Base M_Graph M_Partition M_Machine M_Proposals M_Recom M_Spectral M_Orders P_Proposals P_Bi P_Orders M_SpectralOrder.
Import ListNotations.
Local Open Scope nat_scope.
Local Open Scope list_scope.

Section Order.
  Context {N P V L : Type} {EN : EqB N} {EP : EqB P} {EL : EqB L} {ON : Ord N} {OP : Ord P} {RV : CRing V}.
  Variable E : env N P V L.
  (** Listing the cut edges in another order renames the draw for the edge; the
      random weights and the order of the rows of the matrix are the same in both
      calls.  (The order of the rows does change what is drawn: see
      C97.) *)
  Theorem C130_spectral eigh set_order oe D h a cuts h' : lists oe -> cut_edges_of E a h = (Ok cuts, h') -> multiple D (List.length cuts) ->
    exists s, renames D s /\ forall r random normalized wts, r < D ->
      spectral_in E eigh set_order oe r random normalized wts a h = spectral_recom E eigh set_order (s r) random normalized wts a h.
  Proof.
    intros Ho Hc HD. destruct (renamed_choice cuts (oe cuts) D (Ho cuts) HD) as (s & Hs & Es). exists s. split; [exact Hs|]. intros r random normalized wts Hr. unfold spectral_in, spectral_recom. apply get_cases. intros o _.
    rewrite !(bindM_ok _ _ _ _ _ Hc). now rewrite (Es r Hr).
  Qed.
End Order.
(** A graph with two cut edges, listed backwards: every draw below 12 becomes
    another one. *)
Example C130_spectral_nonvacuous eigh set_order : exists s, renames 12 s /\ s 0 <> 0 /\ forall r random normalized wts, r < 12 ->
  spectral_in tri eigh set_order (@rev (nat * nat)) r random normalized wts 0 tri_heap = spectral_recom tri eigh set_order (s r) random normalized wts 0 tri_heap.
Proof.
  assert (Hc : exists e1 e2 h', cut_edges_of tri 0 tri_heap = (Ok [e1; e2], h')) by (do 3 eexists; vm_compute; reflexivity). destruct Hc as (e1 & e2 & h' & Hc).
  exists (fun r => if Nat.even r then S r else pred r). split; [|split; [discriminate|]].
  - assert (Q : forallb (fun d => Nat.ltb (if Nat.even d then S d else pred d) 12 && forallb (fun d' => implb (Nat.eqb (if Nat.even d then S d else pred d) (if Nat.even d' then S d' else pred d')) (Nat.eqb d d')) (seq 0 12)) (seq 0 12) = true) by reflexivity.
    rewrite forallb_forall in Q. split.
    + intros d Hd. specialize (Q d ltac:(apply in_seq; split; [apply Nat.le_0_l|exact Hd])). apply andb_prop in Q. apply Nat.ltb_lt. apply Q.
    + intros d d' Hd Hd' Ed. specialize (Q d ltac:(apply in_seq; split; [apply Nat.le_0_l|exact Hd])). apply andb_prop in Q. destruct Q as [_ Q]. rewrite forallb_forall in Q. specialize (Q d' ltac:(apply in_seq; split; [apply Nat.le_0_l|exact Hd'])). rewrite Ed, Nat.eqb_refl in Q. now apply Nat.eqb_eq.
  - intros r random normalized wts Hr. unfold spectral_in, spectral_recom. apply get_cases. intros o _. rewrite !(bindM_ok _ _ _ _ _ Hc).
    assert (Ch : choice r (rev [e1; e2]) = choice (if Nat.even r then S r else pred r) [e1; e2]) by (do 12 (destruct r as [|r]; [reflexivity|]); exfalso; do 12 apply Nat.succ_lt_mono in Hr; now apply Nat.nlt_0_r in Hr). now rewrite Ch.
Qed.
Print Assumptions C130_spectral.
