(** C115: what an updater replies does not depend on what was read before, in
    which order, or which other plans were made; only cutting a plan off from
    its parent can change a reply. *)
From Coq Require Import String List Bool Arith ZArith Lia.
From Verif Require Import Base M_Graph M_Partition S_Partition L_Partition P_Partition
  M_Machine S_Machine S_Reads L_Machine L_Answers P_Machine L_Reads.
Import ListNotations.
Local Open Scope nat_scope.
Local Open Scope list_scope.
Local Open Scope string_scope.

Section Replies.
  Context {N P V L : Type} {EN : EqB N} {EP : EqB P} {EL : EqB L} {ON : Ord N} {RV : CRing V}.
  Variable E : env N P V L.

  Lemma req_reply h h' a b k k' u : session E h -> session E h' -> dget (e_updaters E) k = Some u ->
    dget (e_updaters E) k' = Some u ->
    req (veq u) (fst (read E a k h)) (fst (read E b k' h')) ->
    a < List.length h -> same_reply u (fst (read E a k h)) (fst (read E b k' h')).
  Proof.
    intros S S' Hu Hu' R Ha. destruct (nth_error h a) as [o|] eqn:Ho; [|apply nth_error_None in Ho; lia].
    destruct (session_answer E h a o k u S Ho Hu) as (_ & _ & NF).
    destruct (fst (read E a k h)), (fst (read E b k' h')); simpl in *; try tauto.
    now apply veq_same.
  Qed.

  (** The reply of updater [k] of plan [a] is the same now and after any
      sequence of reads, look-ups and flips: of this plan or others, raising or
      not. *)
  Theorem C115_reply_stays : forall h a k u ops,
    session E h -> Forall wf_op ops -> Forall no_erasure ops ->
    a < List.length h -> dget (e_updaters E) k = Some u ->
    same_reply u (fst (read E a k h)) (fst (read E a k (exec E ops h))).
  Proof.
    intros h a k u ops S F G Ha Hu. apply req_reply; auto.
    - now apply session_exec.
    - now apply exec_reply.
  Qed.

  (** Hence any two ways of using the plans before reading give the same
      reply. *)
  Theorem C115_any_schedule : forall h a k u ops ops',
    session E h -> Forall wf_op ops -> Forall wf_op ops' ->
    Forall no_erasure ops -> Forall no_erasure ops' ->
    a < List.length h -> dget (e_updaters E) k = Some u ->
    same_reply u (fst (read E a k (exec E ops h))) (fst (read E a k (exec E ops' h))).
  Proof.
    intros h a k u ops ops' S F F' G G' Ha Hu. apply req_reply; auto.
    - now apply session_exec.
    - now apply session_exec.
    - eapply req_trans; [apply veq_trans| |apply exec_reply; eauto].
      apply req_sym; [apply veq_sym|]. now apply exec_reply.
    - destruct (nth_error h a) as [o|] eqn:Ho; [|apply nth_error_None in Ho; lia].
      pose proof (session_wf E h S) as W. destruct S as (WE & REG & _).
      destruct (proj1 (exec_persists E ops h WE REG F W) a o Ho) as (o' & Ho' & _).
      apply nth_error_Some. congruence.
  Qed.

  (** A name that is not registered stays a KeyError. *)
  Theorem C115_unknown_name : forall h a k ops,
    session E h -> Forall wf_op ops -> a < List.length h -> dget (e_updaters E) k = None ->
    fst (read E a k (exec E ops h)) = Err KeyError.
  Proof.
    intros h a k ops S F Ha Hu.
    destruct (nth_error h a) as [o|] eqn:Ho; [|apply nth_error_None in Ho; lia].
    pose proof (session_wf E _ (session_exec E h ops S F)) as W'.
    pose proof (session_wf E h S) as W. destruct S as (WE & REG & _).
    destruct (proj1 (exec_persists E ops h WE REG F W) a o Ho) as (o' & Ho' & _).
    unfold read. rewrite (getitem_eq E _ _ _ _ _ Ho'), Hu.
    destruct (dget (o_cache o') k) as [v|] eqn:Ev; [|reflexivity].
    destruct (proj2 W' a o' Ho' k v Ev) as (u & Hu' & _). congruence.
  Qed.
End Replies.

(** Reading the perimeter of the child before or after everything else, with
    look-ups of districts that do not exist in between. *)
Example C115_nonvacuous :
  let h := ex_run ex_plan [OFlip 0 [(1, 2)]] in
  let ops := [OGet 1 "exterior_boundaries"; OLook 1 "exterior_boundaries" 9; OFlip 1 [(2, 1)];
              OGet 2 "perimeter"; OGet 0 "interior_boundaries"; OLook 0 "cut_edges_by_part" 7] in
  session ex_E h /\ Forall wf_op ops /\ Forall no_erasure ops /\ 1 < List.length h /\
  fst (read ex_E 1 "perimeter" h) = Ok (VNum [(1, Num 6%Z); (2, Num 14%Z)]) /\
  fst (read ex_E 1 "exterior_boundaries" h) = Ok (VNum [(1, Num 5%Z); (2, Num 13%Z)]) /\
  fst (read ex_E 1 "exterior_boundaries" (exec ex_E ops h)) =
    Ok (VNum [(1, Num 5%Z); (2, Num 13%Z); (9, Num 0%Z)]).
Proof.
  split; [ex_session|]. split; [repeat (constructor; [first [exact I|nodup]|]); constructor|].
  split; [repeat (constructor; [exact I|]); constructor|]. split; [simpl; lia|].
  split; [vm_compute; reflexivity|]. split; vm_compute; reflexivity.
Qed.

(** Cutting the plan off from its parent before the first read can change the
    reply: the tally of data with a missing value is NaN with the parent, a
    number without. *)
Theorem C115_erasure_refuted :
  exists h a k u ops, session ex_E h /\ Forall wf_op ops /\ a < List.length h /\
    dget (e_updaters ex_E) k = Some u /\
    ~ same_reply u (fst (read ex_E a k h)) (fst (read ex_E a k (exec ex_E ops h))).
Proof.
  exists (ex_run ex_plan [OFlip 0 [(1, 2)]]), 1, "nan". eexists. exists [OErase 1].
  split; [ex_session|]. split; [repeat constructor|].
  split; [vm_compute; lia|]. split; [reflexivity|]. vm_compute. discriminate.
Qed.

Print Assumptions C115_reply_stays.
Print Assumptions C115_any_schedule.
Print Assumptions C115_unknown_name.
Print Assumptions C115_erasure_refuted.
