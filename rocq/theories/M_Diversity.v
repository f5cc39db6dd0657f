(** Diversity statistics: gerrychain/meta/diversity.py:32-86.

    A plan of the chain is given by what the function reads of it: its
    assignment and the value of its "cut_edges" updater.  The generator is the
    list of what it yields; the plan it yields with the numbers is the one it
    was given and is left out.  The two dictionaries of seen keys (all values
    are 1) are the lists of their keys.  Labels that cannot be compared
    (TypeError in sorted) are not modelled. *)
From Coq Require Import List Bool Arith.
From Verif Require Import Base M_Graph M_Partition.
Import ListNotations.

(** Equality of tuples, for the lookups in the dictionaries of seen keys. *)
Fixpoint list_eqb {A} {EA : EqB A} (l m : list A) : bool :=
  match l, m with
  | [], [] => true
  | x :: l', y :: m' => eqb x y && list_eqb l' m'
  | _, _ => false
  end.
Lemma list_eqb_eq {A} {EA : EqB A} (l m : list A) : list_eqb l m = true <-> l = m.
Proof.
  revert m. induction l as [|x l IH]; intros [|y m]; simpl; split; try congruence.
  - intro H. apply andb_true_iff in H. destruct H as [H1 H2]. apply eqb_true in H1. apply (IH m) in H2. now rewrite H1, H2.
  - intros [= -> ->]. rewrite eqb_refl. now apply IH.
Qed.
#[export] Instance EqB_list {A} {EA : EqB A} : EqB (list A) := {| eqb := list_eqb; eqb_eq := list_eqb_eq |}.

(** Python's sorted. *)
Fixpoint place {A} {OA : Ord A} (x : A) (l : list A) : list A :=
  match l with
  | [] => [x]
  | y :: r => if leb x y then x :: l else y :: place x r
  end.
Definition sorted {A} {OA : Ord A} (l : list A) : list A := fold_right place [] l.

(** diversity.py:10-29 DiversityStats *)
Record stats := mkStats { unique_plans : nat; unique_districts : nat; steps_taken : nat }.

Section Diversity.
  Context {N P : Type} {EN : EqB N} {ON : Ord N} {EP : EqB P}.
  (** diversity.py:58-63 *)
  Record seen := mkSeen { seen_plans : list (list (N * N)); seen_districts : list (list N); now_stats : stats }.
  Definition start : seen := mkSeen [] [] (mkStats 0 0 0).
  (** diversity.py:68-72: one pass of the inner loop. *)
  Definition see_district (s : seen) (nodes : list N) : seen :=
    let key := sorted nodes in
    let st := now_stats s in
    if mem key (seen_districts s) then s
    else mkSeen (seen_plans s) (key :: seen_districts s)
           (mkStats (unique_plans st) (S (unique_districts st)) (steps_taken st)).
  (** diversity.py:74-78 *)
  Definition see_plan (s : seen) (cuts : list (N * N)) : seen :=
    let key := sorted cuts in
    let st := now_stats s in
    if mem key (seen_plans s) then s
    else mkSeen (key :: seen_plans s) (seen_districts s)
           (mkStats (S (unique_plans st)) (unique_districts st) (steps_taken st)).
  (** diversity.py:66 *)
  Definition count_step (s : seen) : seen :=
    let st := now_stats s in
    mkSeen (seen_plans s) (seen_districts s) (mkStats (unique_plans st) (unique_districts st) (S (steps_taken st))).
  Definition visit (s : seen) (plan : assignment N P * list (N * N)) : seen :=
    see_plan (fold_left see_district (map snd (a_parts (fst plan))) (count_step s)) (snd plan).
  (** diversity.py:65-86 *)
  Fixpoint collect (s : seen) (chain : list (assignment N P * list (N * N))) : list stats :=
    match chain with
    | [] => []
    | plan :: rest => let s' := visit s plan in now_stats s' :: collect s' rest
    end.
  Definition collect_diversity_stats (chain : list (assignment N P * list (N * N))) : list stats := collect start chain.
End Diversity.
