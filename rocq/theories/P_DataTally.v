(** C22: a DataTally built from an attribute's name is bound to the first graph. *)
From Coq Require Import String List Bool Arith ZArith Lia.
From Verif Require Import Base M_Graph M_Partition S_Partition L_Partition P_Partition
  M_Machine S_Machine L_Cuts L_Tally M_Contiguity S_Contiguity P_Contiguity M_DataTally.
Import ListNotations.
Local Open Scope list_scope.

Section DataTally.
  Context {N P V : Type} {EN : EqB N} {EP : EqB P} {RV : CRing V} {ON : Ord N}.
  Implicit Types (q : tplan N P V) (x : tcall N P V).

  (** ** Specification *)

  (** What a DataTally over the numbers [data] answers to a call. *)
  Definition answer (data : N -> option (num V)) (x : tcall N P V) : res (dict P (num V)) :=
    match x with
    | Fresh q => scratch_tally (tp_assign q) (fun n => of_option KeyError (data n))
    | Child q flows previous => data_step data flows previous
    end.
  (** The attribute [a] of the nodes of [q]'s graph, and of no others. *)
  Definition numbers_of q (a : string) (n : N) : option (num V) :=
    if mem n (g_nodes (tp_graph q)) then tp_attr q a n else None.

  (** ** Lemmas *)
  Lemma resolve_named q a : (forall n, In n (g_nodes (tp_graph q)) -> tp_attr q a n <> None) ->
    exists d, resolve (Named a) q = Ok d /\ forall n, dget d n = numbers_of q a n.
  Proof.
    intro H. cbn [resolve]. unfold numbers_of. induction (g_nodes (tp_graph q)) as [|m l IH]; cbn [mapM].
    - exists []. split; reflexivity.
    - destruct (tp_attr q a m) as [v|] eqn:Em; [|elim (H m); [now left|exact Em]]. cbn [of_option bind].
      destruct IH as (d & E & Hd); [intros n Hn; apply H; now right|]. rewrite E. cbn [bind]. exists ((m, v) :: d). split; [reflexivity|].
      intro n. cbn. rewrite Hd. unfold mem. destruct (eqb_spec n m) as [->|Hne]; [now rewrite Em|reflexivity].
  Qed.
  Lemma scratch_ext_data (A : assignment N P) (f g : N -> res (num V)) : (forall n, f n = g n) -> scratch_tally A f = scratch_tally A g.
  Proof. intro H. unfold scratch_tally. apply foldM_ext. intros b np _. now rewrite H. Qed.
  Lemma mapM_ext_all {X Y} (f g : X -> res Y) l : (forall y : X, f y = g y) -> mapM f l = mapM g l.
  Proof. intro H. induction l as [|x l IH]; cbn; [reflexivity|]. now rewrite H, IH. Qed.
  Lemma step_ext_data (f g : N -> option (num V)) fl (old : dict P (num V)) : (forall n, f n = g n) -> data_step f fl old = data_step g fl old.
  Proof.
    intro H. unfold data_step. apply foldM_ext. intros b pf _. destruct (of_option KeyError (dget old (fst pf))); cbn; auto.
    rewrite (mapM_ext_all (fun n => of_option KeyError (f n)) (fun n => of_option KeyError (g n))) by (intro; now rewrite H).
    destruct (mapM _ (f_in (snd pf))); cbn; auto.
    now rewrite (mapM_ext_all (fun n => of_option KeyError (f n)) (fun n => of_option KeyError (g n)) (f_out (snd pf))) by (intro; now rewrite H).
  Qed.
  Lemma calls_given data d l : (forall n, dget d n = data n) -> calls (Given d) l = map (answer data) l.
  Proof.
    intro H. induction l as [|x l IH]; [reflexivity|]. cbn [calls map]. destruct x as [q|q fl old]; cbn [call resolve answer].
    - rewrite IH. f_equal. apply scratch_ext_data. intro n. now rewrite H.
    - rewrite IH. f_equal. apply step_ext_data. exact H.
  Qed.

  (** ** Theorems *)

  (** After the first plan, whatever plans over whatever graphs follow, all
      answers use the first graph's data. *)
  Theorem C22_bound : forall a q0 l, (forall n, In n (g_nodes (tp_graph q0)) -> tp_attr q0 a n <> None) ->
    calls (Named a) (Fresh q0 :: l) = map (answer (numbers_of q0 a)) (Fresh q0 :: l).
  Proof.
    intros a q0 l H. destruct (resolve_named q0 a H) as (d & E & Hd). cbn [calls call]. rewrite E. cbn [map answer].
    rewrite (calls_given _ _ l Hd). f_equal. apply scratch_ext_data. intro n. now rewrite Hd.
  Qed.
  (** A graph with a node that lacks the attribute raises KeyError and is not
      the first graph. *)
  Theorem C22_missing_attribute : forall a q0 l n, In n (g_nodes (tp_graph q0)) -> tp_attr q0 a n = None ->
    calls (Named a) (Fresh q0 :: l) = Err KeyError :: calls (Named a) l.
  Proof.
    intros a q0 l n Hn E. cbn [calls call]. assert (R : resolve (Named a) q0 = Err KeyError).
    { cbn [resolve]. induction (g_nodes (tp_graph q0)) as [|m r IH]; [destruct Hn|]. cbn [mapM]. destruct (tp_attr q0 a m) eqn:Em; cbn [of_option bind]; [|reflexivity].
      destruct Hn as [->|Hn]; [congruence|]. now rewrite (IH Hn). }
    now rewrite R.
  Qed.
  (** A plan over any graph whose nodes are among the first graph's: the
      district totals of the first graph's numbers. *)
  Theorem C22_totals : forall a q0 q (w : N -> V), coherent (g_nodes (tp_graph q)) (tp_assign q) ->
    data_is (tp_graph q0) (tp_attr q0 a) w -> incl (g_nodes (tp_graph q)) (g_nodes (tp_graph q0)) ->
    exists d, answer (numbers_of q0 a) (Fresh q) = Ok d /\ tally_ok (tp_graph q) (tp_assign q) w d.
  Proof.
    intros a q0 q w C D I. cbn [answer].
    set (E := mkEnv (P := P) (L := unit) (tp_graph q) (tp_attr q) (fun _ => false) (fun _ => c0) (fun _ => c0) (fun _ _ => None) []).
    assert (W : forall n, In n (g_nodes (tp_graph q)) -> of_option KeyError (numbers_of q0 a n) = Ok (Num (w n))).
    { intros n Hn. unfold numbers_of. rewrite (proj2 (mem_In _ _) (I n Hn)). now rewrite (D n (I n Hn)). }
    destruct (scratch_tally_ok E (tp_assign q) (fun n => of_option KeyError (numbers_of q0 a n))) as [d Hd]; [exact C|intros n Hn; eauto|].
    exists d. split; [exact Hd|]. destruct (scratch_tally_spec E (tp_assign q) _ d C Hd) as (_ & _ & T). apply T. exact W.
  Qed.
  (** A plan with a node unknown to the first graph. *)
  Theorem C22_unknown_node : forall a q0 q n p, dget (a_map (tp_assign q)) n = Some p -> ~ In n (g_nodes (tp_graph q0)) ->
    (forall m, In m (g_nodes (tp_graph q0)) -> tp_attr q0 a m <> None) ->
    answer (numbers_of q0 a) (Fresh q) = Err KeyError.
  Proof.
    intros a q0 q n p Hn Hout Hall. cbn [answer]. unfold scratch_tally. apply dget_In in Hn. generalize (@nil (P * num V)).
    induction (a_map (tp_assign q)) as [|[m pm] r IH]; [destruct Hn|]. intro acc. cbn [foldM fst snd]. unfold numbers_of at 1. destruct (mem_spec m (g_nodes (tp_graph q0))) as [Hm|Hm].
    - destruct (tp_attr q0 a m) eqn:Em; [|elim (Hall m Hm Em)]. cbn [of_option bind]. destruct Hn as [[= -> ->]|Hn]; [contradiction|]. now apply IH.
    - reflexivity.
  Qed.
  (** A child's call before any plan without a parent: the object has no data.
      It can only pass on the parent's tally, and only if no node has moved;
      and it remains without data. *)
  Theorem C22_child_first : forall a q flows previous l, (forall p, In p (dkeys flows) -> In p (dkeys previous)) ->
    calls (Named a) (Child q flows previous :: l) =
    (if forallb (fun pf => Nat.eqb (List.length (f_in (snd pf)) + List.length (f_out (snd pf))) 0) flows
     then Ok previous else Err TypeError) :: calls (Named a) l.
  Proof.
    intros a q flows previous l H. cbn [calls call]. f_equal. unfold unbound_step.
    assert (D : forall p v, dget previous p = Some v -> dset previous p v = previous).
    { clear. intros p v. induction previous as [|[k x] d IH]; cbn; [discriminate|]. destruct (eqb_spec p k) as [->|]; [now intros [= ->]|]. intro E. now rewrite IH. }
    induction flows as [|[p f] flows IH]; [reflexivity|]. cbn [foldM forallb fst snd].
    assert (Hp : In p (dkeys previous)) by (apply H; now left).
    destruct (dget previous p) as [v|] eqn:E; [|now apply dget_None in E]. cbn [of_option bind].
    destruct (f_in f) as [|m i]; [|reflexivity]. destruct (f_out f) as [|m o]; [|reflexivity]. cbn [mapM bind List.length Nat.add Nat.eqb andb].
    rewrite (D p v E). apply IH. intros p' Hp'. apply H. now right.
  Qed.
End DataTally.

(** ** Concrete case: two graphs with two nodes and different populations. *)
Definition two_nodes : graph nat := mkGraph [0; 1] [(0, 1)].
Definition pop_plan (a b : Z) : tplan nat nat Z :=
  mkTplan two_nodes (fun f n => if String.eqb f "pop" then if Nat.eqb n 0 then Some (Num a) else Some (Num b) else None) (plan_of two_nodes [(0, 1); (1, 2)]).
Theorem C22_second_graph_refuted :
  calls (Named "pop") [Fresh (pop_plan 3 4)] = [Ok [(1, Num 3%Z); (2, Num 4%Z)]] /\
  calls (Named "pop") [Fresh (pop_plan 5 6)] = [Ok [(1, Num 5%Z); (2, Num 6%Z)]] /\
  calls (Named "pop") [Fresh (pop_plan 3 4); Fresh (pop_plan 5 6)] = [Ok [(1, Num 3%Z); (2, Num 4%Z)]; Ok [(1, Num 3%Z); (2, Num 4%Z)]].
Proof. repeat split. Qed.
Example C22_nonvacuous : let q := pop_plan 3 4 in coherent (g_nodes (tp_graph q)) (tp_assign q) /\ data_is (tp_graph q) (tp_attr q "pop") (fun n => if Nat.eqb n 0 then 3%Z else 4%Z).
Proof.
  split.
  - eapply plan_of_coherent; [nodup|vm_compute; reflexivity].
  - intros n [<-|[<-|[]]]; reflexivity.
Qed.

Print Assumptions C22_bound.
Print Assumptions C22_missing_attribute.
Print Assumptions C22_totals.
Print Assumptions C22_unknown_node.
Print Assumptions C22_second_graph_refuted.
Print Assumptions C22_child_first.
