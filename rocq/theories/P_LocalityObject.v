(** C23, C95: the state kept by a LocalitySplits updater. *)
From Coq Require Import String List Bool Arith ZArith Reals Lra Lia ZifyBool ZifyNat.
From Verif Require Import Base M_Graph M_Partition S_Partition L_Partition P_Partition M_Machine S_Machine L_Cuts M_Contiguity S_Contiguity P_Contiguity
  M_Locality L_Locality P_Locality P_Entropy P_Symmetric.
Import ListNotations.
Local Open Scope nat_scope.
Local Open Scope list_scope.

Section Object.
  Context {N P L : Type} {EN : EqB N} {EP : EqB P} {EL : EqB L}.
  Variable none : L.
  Variable str : L -> L.
  Variable alpha : R.
  Variable plans : nat -> lplan N P L.
  Notation read_all := (read_all none str alpha plans).
  Notation read_plan := (read_plan none str alpha plans).
  Notation call := (call none str alpha).
  Notation start names := (mkReads (new_splits names) []).

  (** ** Specification *)

  (** [v] is the score [s] of the plan [q], with the localities of [first]. *)
  Definition score_of (first q : lplan N P L) (s : score_name) (v : score) : Prop :=
    let ld := locality_dict none first in
    exists sp, locality_splits ld q = Ok sp /\
      match s with
      | NumParts => v = SInt (num_parts sp)
      | NumPieces => exists k, num_pieces q = Ok k /\ v = SInt k
      | NakedBoundary => v = SInt (naked_boundary ld q)
      | ShannonEntropy => exists x, shannon_entropy str (set_of (dvals ld)) sp = Ok x /\ v = SReal x
      | PowerEntropy => exists x, power_entropy str alpha (set_of (dvals ld)) sp = Ok x /\ v = SReal x
      | SymmetricEntropy => exists x, symmetric_entropy ld (set_of (dvals ld)) q = Ok x /\ v = SReal x
      | NumSplitLocalities => v = SInt (num_split_localities (invert sp))
      | OtherScore _ => v = SNone
      end.

  (** ** Lemmas *)
  Definition untouched (sc : list (score_name * score)) : Prop := forall s v, In (OtherScore s, v) sc -> v = SNone.
  Lemma fill_spec f sc : (forall s, f (OtherScore s) = Ok None) -> untouched sc -> map fst (snd (fill f sc)) = map fst sc /\ untouched (snd (fill f sc)) /\
    (fst (fill f sc) = Ok tt -> forall s v, In (s, v) (snd (fill f sc)) -> exists o, f s = Ok o /\ match o with Some y => v = y | None => In (s, v) sc end).
  Proof.
    intro Ho. induction sc as [|[s old] sc IH]; intro U; [split; [reflexivity|]; split; [exact U|]; intros _ s v []|]. cbn [fill].
    destruct (f s) as [o|e|] eqn:E; [|split; [reflexivity|]; split; [exact U|]; intro; discriminate|split; [reflexivity|]; split; [exact U|]; intro; discriminate].
    destruct IH as (I1 & I2 & I3); [intros s' v' Hin; apply (U s'); now right|]. destruct (fill f sc) as [x r'] eqn:Ef. cbn [fst snd] in *. split; [cbn; now rewrite I1|]. split.
    - intros s' v [[= -> <-]|Hin]; [|eauto]. rewrite Ho in E. injection E as <-. apply (U s'). now left.
    - intros Hx s' v [[= <- <-]|Hin].
      + exists o. split; [exact E|]. destruct o; [reflexivity|now left].
      + destruct (I3 Hx s' v Hin) as (o' & E' & H'). exists o'. split; [exact E'|]. destruct o'; [exact H'|now right].
  Qed.
  Definition bound (i0 : nat) (o : splits_obj N L) : Prop :=
    so_dict o = locality_dict none (plans i0) /\ so_locs o = Some (set_of (dvals (locality_dict none (plans i0)))).
  Lemma call_spec i0 o j : (bound i0 o \/ (so_locs o = None /\ j = i0)) -> untouched (so_scores o) ->
    bound i0 (snd (call o (plans j))) /\ untouched (so_scores (snd (call o (plans j)))) /\ map fst (so_scores (snd (call o (plans j)))) = map fst (so_scores o) /\
    (fst (call o (plans j)) = Ok tt -> forall s v, In (s, v) (so_scores (snd (call o (plans j)))) -> score_of (plans i0) (plans j) s v).
  Proof.
    intros Hb U. unfold M_Locality.call.
    assert (E : match so_locs o with None => (locality_dict none (plans j), set_of (dvals (locality_dict none (plans j)))) | Some locs => (so_dict o, locs) end
                = (locality_dict none (plans i0), set_of (dvals (locality_dict none (plans i0))))).
    { destruct Hb as [[B1 B2]|[B1 ->]]; [rewrite B2, B1; reflexivity|now rewrite B1]. }
    rewrite E. set (ld := locality_dict none (plans i0)) in *. set (locs := set_of (dvals ld)) in *.
    destruct (locality_splits ld (plans j)) as [sp|e|] eqn:Esp; cbn [bind].
    2-3: (cbn [fst snd so_scores]; split; [split; reflexivity|]; split; [exact U|]; split; [reflexivity|]; intro; discriminate).
    destruct (match so_allowed o with [] => allowed_pieces locs (plans j) | _ :: _ => Ok (so_allowed o) end) as [al|e|] eqn:Eal; cbn [bind].
    2-3: (cbn [fst snd so_scores]; split; [split; reflexivity|]; split; [exact U|]; split; [reflexivity|]; intro; discriminate).
    destruct (fill_spec (compute str alpha ld locs sp (plans j)) (so_scores o)) as (F1 & F2 & F3); [reflexivity|exact U|].
    destruct (fill _ (so_scores o)) as [x sc]. cbn [fst snd so_scores] in *. split; [split; reflexivity|]. split; [exact F2|]. split; [exact F1|]. intros Hx s v Hin.
    exists sp. split; [exact Esp|]. destruct (F3 Hx s v Hin) as (r & Er & Hr). fold ld. fold locs. destruct s; cbn in Er.
    - injection Er as <-. exact Hr.
    - apply bind_Ok in Er. destruct Er as (k & Ek & [= <-]). eauto.
    - injection Er as <-. exact Hr.
    - apply bind_Ok in Er. destruct Er as (k & Ek & [= <-]). eauto.
    - apply bind_Ok in Er. destruct Er as (k & Ek & [= <-]). eauto.
    - apply bind_Ok in Er. destruct Er as (k & Ek & [= <-]). eauto.
    - injection Er as <-. exact Hr.
    - eapply U. injection Er as <-. exact Hr.
  Qed.
  Definition inv (i0 : nat) (names : list score_name) (w : reads_world N L) : Prop :=
    bound i0 (w_obj w) /\ untouched (so_scores (w_obj w)) /\ map fst (so_scores (w_obj w)) = names.
  Lemma read_inv i0 names w j : inv i0 names w -> inv i0 names (snd (read_plan w j)).
  Proof.
    intros (B & U & K). unfold M_Locality.read_plan. destruct (mem j (w_done w)); [split; [exact B|split; auto]|].
    destruct (call_spec i0 (w_obj w) j (or_introl B) U) as (B' & U' & K' & _). unfold inv. destruct (call (w_obj w) (plans j)) as [[[]|e|] o]; cbn [snd w_obj] in *; (split; [exact B'|split; [exact U'|etransitivity; [exact K'|first [exact K|exact Kn]]]]).
  Qed.
  Lemma first_inv i0 names : inv i0 names (snd (read_plan (start names) i0)).
  Proof.
    unfold M_Locality.read_plan. cbn [w_done mem existsb w_obj].
    assert (U : untouched (so_scores (N := N) (L := L) (new_splits names))) by (intros s v Hin; cbn in Hin; apply in_map_iff in Hin; destruct Hin as (x & [= _ <-] & _); reflexivity).
    destruct (call_spec i0 (new_splits names) i0 (or_intror (conj eq_refl eq_refl)) U) as (B' & U' & K' & _).
    assert (Kn : map fst (so_scores (N := N) (L := L) (new_splits names)) = names) by (cbn; rewrite map_map; apply map_id).
    destruct (call (new_splits names) (plans i0)) as [[[]|e|] o]; cbn [snd w_obj] in *; (split; [exact B'|split; [exact U'|etransitivity; [exact K'|first [exact K|exact Kn]]]]).
  Qed.
  Lemma all_inv i0 names l : inv i0 names (read_all (start names) (i0 :: l)).
  Proof.
    unfold M_Locality.read_all. cbn [fold_left]. generalize (first_inv i0 names). generalize (snd (read_plan (start names) i0)). induction l as [|j l IH]; intros w Hw; cbn [fold_left]; auto.
    apply IH. now apply read_inv.
  Qed.

  (** ** Theorems *)

  (** When a plan is read for the first time, every plan read so far shows the
      new plan's scores, computed with the localities of the plan that was the
      very first to be read. *)
  Theorem C23_overwritten : forall names i0 l j w', let w := read_all (start names) (i0 :: l) in
    ~ In j (w_done w) -> read_plan w j = (Ok tt, w') ->
    forall i, In i (w_done w) \/ i = j -> exists sc, shown w' i = Some sc /\ map fst sc = names /\ forall s v, In (s, v) sc -> score_of (plans i0) (plans j) s v.
  Proof.
    intros names i0 l j w' w Hj E i Hi. destruct (all_inv i0 names l) as (B & U & K). fold w in B, U, K. unfold M_Locality.read_plan in E.
    destruct (mem_spec j (w_done w)) as [|_]; [contradiction|]. destruct (call_spec i0 (w_obj w) j (or_introl B) U) as (B' & U' & K' & Hs).
    destruct (call (w_obj w) (plans j)) as [[[]|e|] o]; [|discriminate|discriminate]. injection E as <-. cbn [fst snd] in *. exists (so_scores o). split.
    - unfold shown. cbn [w_done w_obj]. replace (mem i (w_done w ++ [j])) with true; [reflexivity|]. symmetry. apply mem_In, in_app_iff. destruct Hi as [Hi| ->]; [now left|right; now left].
    - split; [etransitivity; [exact K'|first [exact K|exact Kn]]|]. now apply Hs.
  Qed.
  (** Reading it again changes nothing. *)
  Theorem C23_cached : forall w j, In j (w_done w) -> read_plan w j = (Ok tt, w).
  Proof. intros w j Hj. unfold M_Locality.read_plan. apply mem_In in Hj. now rewrite Hj. Qed.
  (** The very first read. *)
  Theorem C23_first : forall names i0 w', read_plan (start names) i0 = (Ok tt, w') ->
    exists sc, shown w' i0 = Some sc /\ map fst sc = names /\ forall s v, In (s, v) sc -> score_of (plans i0) (plans i0) s v.
  Proof.
    intros names i0 w' E. unfold M_Locality.read_plan in E. cbn [w_done mem existsb w_obj] in E.
    assert (U : untouched (so_scores (N := N) (L := L) (new_splits names))) by (intros s v Hin; cbn in Hin; apply in_map_iff in Hin; destruct Hin as (x & [= _ <-] & _); reflexivity).
    destruct (call_spec i0 (new_splits names) i0 (or_intror (conj eq_refl eq_refl)) U) as (B' & U' & K' & Hs).
    assert (Kn : map fst (so_scores (N := N) (L := L) (new_splits names)) = names) by (cbn; rewrite map_map; apply map_id).
    destruct (call (new_splits names) (plans i0)) as [[[]|e|] o]; [|discriminate|discriminate]. injection E as <-. cbn [fst snd] in *. exists (so_scores o). split.
    - unfold shown. cbn [w_done w_obj app mem existsb]. now rewrite eqb_refl.
    - split; [etransitivity; [exact K'|first [exact K|exact Kn]]|]. now apply Hs.
  Qed.
End Object.

(** ** Concrete cases *)

(** Plan 0 has districts {0, 1} and {2}; plan 1 one district; plan 2 is plan 0
    on a graph with other localities. *)
Definition three_plans (i : nat) : lplan nat nat nat :=
  match i with
  | 0 => row3_plan (fun _ => 7)
  | 1 => mkLplan row3 (fun n => Some 7) (fun _ => Some 1%Z) (plan_of row3 [(0, 1); (1, 1); (2, 1)]) []
  | _ => row3_plan (fun n => n)
  end.
Notation read3 l := (read_all 0 (fun x => x) 0%R three_plans (mkReads (new_splits [NumParts; NumPieces]) []) l).
(** The value of plan 0 changes when plan 1 is read. *)
Theorem C23_stability_refuted :
  shown (read3 [0]) 0 = Some [(NumParts, SInt 2); (NumPieces, SInt 2)] /\ shown (read3 [0; 1]) 0 = Some [(NumParts, SInt 1); (NumPieces, SInt 1)].
Proof. split; reflexivity. Qed.
(** Plan 2 has three locality-district pairs, but after plan 0 has been read
    only two are counted; num_pieces of the same call uses the new localities. *)
Theorem C95_second_graph_refuted :
  shown (read3 [2]) 2 = Some [(NumParts, SInt 3); (NumPieces, SInt 3)] /\ shown (read3 [0; 2]) 2 = Some [(NumParts, SInt 2); (NumPieces, SInt 3)].
Proof. split; reflexivity. Qed.
(** The hypotheses of the entropy theorems. *)
Example C94_nonvacuous : let q := row3_plan (fun _ => 7) in
  scored q (fun _ => 7) /\ localities q (fun _ => 7) = [7] /\ split q (fun _ => 7) 7 /\
  (forall p, In p (labels (lp_assign q)) -> (0 < district_people q (fun _ => 7%nat) (fun _ => 1%Z) p)%Z) /\
  (forall l, In l (localities q (fun _ => 7)) -> (0 < locality_people q (fun _ => 7%nat) (fun _ => 1%Z) l)%Z).
Proof.
  cbv zeta. split; [apply row3_scored|]. split; [reflexivity|]. split.
  - exists 1, 2. split; [discriminate|]. split; [exists 0|exists 2]; (split; [split; cbn; auto|reflexivity]).
  - split.
    + intros p [<-|[<-|[]]]; reflexivity.
    + intros l [<-|[]]; reflexivity.
Qed.
Example C76_nonvacuous : forall n m, In n (g_nodes row3) -> In m (g_nodes row3) -> (fun n => n) n <> (fun l => l + 10) m.
Proof. intros n m Hn Hm. cbn in *. destruct Hn as [<-|[<-|[<-|[]]]]; lia. Qed.

Print Assumptions C76_non_string.
Print Assumptions C94_shannon.
Print Assumptions C94_power.
Print Assumptions C94_shannon_zero.
Print Assumptions C94_power_zero.
Print Assumptions C94_symmetric.
Print Assumptions C94_symmetric_bound.
Print Assumptions C94_symmetric_empty_district.
Print Assumptions C23_overwritten.
Print Assumptions C23_cached.
Print Assumptions C23_first.
Print Assumptions C23_stability_refuted.
Print Assumptions C95_second_graph_refuted.
