(** C98: reversible_recom keeps the spanning tree distribution in detailed
    balance. *)
From Coq Require Import String List Bool Arith ZArith QArith Qabs Lqa Permutation Lia ZifyBool ZifyNat.
From Verif Require Import Base M_Graph M_Partition S_Partition L_Partition M_Machine S_Machine L_Sums
  L_Cuts L_Machine L_Answers S_Contiguity L_Search P_Partition P_Machine M_Election L_Order M_Proposals S_Proposals
  M_Tree S_Tree S_TreeCuts L_Tree P_Tree P_Contiguity P_Spanning P_Proposals P_Bipartition M_Recursive P_Recursive
  M_Recom P_Recom P_Reversible L_Locality M_SpanningCount L_MatrixTree P_SpanningCount L_Seam.
Import ListNotations.
Local Open Scope nat_scope.
Local Open Scope list_scope.

Section Spec.
  Context {N P V L : Type} {EN : EqB N} {EP : EqB P}.
  Definition qsum {X : Type} (l : list X) (f : X -> Q) : Q := fold_right (fun x s => (f x + s)%Q) 0%Q l.
  (** Districts [p] and [q] of [A] are the sets [SA] and [SB], in some order. *)
  Definition split_as (A : assignment N P) (p q : P) (SA SB : list N) : Prop :=
    (forall n, (district A n = Some p <-> In n SA) /\ (district A n = Some q <-> In n SB)) \/
    (forall n, (district A n = Some q <-> In n SA) /\ (district A n = Some p <-> In n SB)).
  (** The call returned a plan with property [Pr]. *)
  Definition ends_in (run : res nat * heap N P V L) (Pr : assignment N P -> Prop) : Prop :=
    exists b o, fst run = Ok b /\ nth_error (snd run) b = Some o /\ Pr (o_assign o).
  (** [x] is the probability that [run T i u] ends in [Pr] if [T] is drawn
      uniformly from [trees], then [i] uniformly from the numbers below [n T],
      and [u] uniformly from [0, 1). *)
  Definition chance {T : Type} (trees : list T) (n : T -> nat) (run : T -> nat -> Q -> res nat * heap N P V L)
             (Pr : assignment N P -> Prop) (x : Q) : Prop :=
    exists pr : T -> nat -> Q,
      (forall t i, In t trees -> i < n t -> (0 <= pr t i <= 1)%Q /\ forall u, (0 <= u < 1)%Q -> (ends_in (run t i u) Pr <-> (u < pr t i)%Q)) /\
      (x == qsum trees (fun t => qsum (seq 0 (n t)) (fun i => pr t i / Qn (n t))) / Qn (List.length trees))%Q.

  Lemma qsum_ext {X} (l : list X) f f' : (forall x, In x l -> (f x == f' x)%Q) -> (qsum l f == qsum l f')%Q.
  Proof. induction l as [|x l IH]; intro H; cbn [qsum fold_right]; [reflexivity|]. fold (qsum l f) (qsum l f'). rewrite (H x (or_introl eq_refl)), IH; [reflexivity|]. intros; apply H; now right. Qed.
  (** There is at most one such number. *)
  Theorem C98_unique {T : Type} (trees : list T) n run Pr x y : chance trees n run Pr x -> chance trees n run Pr y -> (x == y)%Q.
  Proof.
    intros (f & Hf & ->) (f' & Hf' & ->). apply Qmult_comp; [|reflexivity]. apply qsum_ext. intros t Ht. apply qsum_ext. intros i Hi. apply in_seq in Hi.
    apply Qmult_comp; [|reflexivity]. destruct (Hf t i Ht ltac:(lia)) as [B1 I1], (Hf' t i Ht ltac:(lia)) as [B2 I2].
    destruct (Qlt_le_dec (f t i) (f' t i)) as [X|X].
    - exfalso. assert (U : (0 <= f t i < 1)%Q) by (split; [tauto|]; apply Qlt_le_trans with (f' t i); tauto). assert (Y := proj1 (I1 _ U) (proj2 (I2 _ U) X)). lra.
    - destruct (Qlt_le_dec (f' t i) (f t i)) as [Y|Y]; [|lra].
      exfalso. assert (U : (0 <= f' t i < 1)%Q) by (split; [tauto|]; apply Qlt_le_trans with (f t i); tauto). assert (W := proj1 (I2 _ U) (proj2 (I1 _ U) Y)). lra.
  Qed.
End Spec.

Section Lists.
  Lemma filter_once {X} (f : X -> bool) (l : list X) :
    (forall i j c c', nth_error l i = Some c -> nth_error l j = Some c' -> f c = true -> f c' = true -> i = j) -> List.length (filter f l) <= 1.
  Proof.
    induction l as [|x l IH]; intro H; cbn [filter]; [cbn; lia|].
    assert (IH' : List.length (filter f l) <= 1) by (apply IH; intros i j c c' H1 H2 H3 H4; assert (Q := H (S i) (S j) c c' H1 H2 H3 H4); lia).
    destruct (f x) eqn:E; [|exact IH']. cbn [List.length]. destruct (filter f l) as [|y r] eqn:Ey; [cbn; lia|]. exfalso.
    assert (Hy : In y (filter f l)) by (rewrite Ey; now left). apply filter_In in Hy. destruct Hy as [Hy Fy]. apply In_nth_error in Hy. destruct Hy as (j & Hj).
    assert (Q := H 0 (S j) x y eq_refl Hj E Fy). discriminate.
  Qed.
  Lemma qsum_nth {X} (f : X -> Q) (d : X) (l : list X) : forall k, (qsum (seq k (List.length l)) (fun i => f (nth (i - k) l d)) == qsum l f)%Q.
  Proof.
    induction l as [|x l IH]; intro k; cbn [List.length seq qsum fold_right]; [reflexivity|].
    rewrite Nat.sub_diag. cbn [nth]. apply Qplus_comp; [reflexivity|]. rewrite <- (IH (S k)). apply qsum_ext. intros i Hi. apply in_seq in Hi.
    replace (i - k) with (S (i - S k)) by lia. reflexivity.
  Qed.
  Lemma qsum_count {X} (f : X -> bool) (z : Q) (l : list X) : (qsum l (fun x => if f x then z else 0) == Qn (List.length (filter f l)) * z)%Q.
  Proof.
    induction l as [|x l IH]; cbn [qsum fold_right filter]; [unfold Qn; cbn; ring|]. fold (qsum l (fun x => if f x then z else 0)%Q). rewrite IH.
    destruct (f x); [|ring]. cbn [List.length]. unfold Qn. rewrite Nat2Z.inj_succ, <- Z.add_1_l, inject_Z_plus. ring.
  Qed.
  Lemma qsum_zero {X} (l : list X) : (qsum l (fun _ => 0) == 0)%Q.
  Proof. induction l as [|x l IH]; cbn [qsum fold_right]; [reflexivity|]. fold (qsum l (fun _ => 0%Q)). rewrite IH. ring. Qed.
End Lists.

Section Hits.
  Context {N : Type} {EN : EqB N}.
  Variable H : graph N.
  Hypothesis WF : wf_graph H.
  Variables SA SB : list N.
  Hypothesis cover : forall n, In n (g_nodes H) -> In n SA \/ In n SB.
  Hypothesis apart : forall n, In n SA -> In n SB -> False.
  Hypothesis inA : incl SA (g_nodes H).
  Hypothesis inB : incl SB (g_nodes H).

  Definition same (s t : list N) : bool := subsetb s t && subsetb t s.
  Lemma same_iff s t : same s t = true <-> forall n, In n s <-> In n t.
  Proof.
    unfold same, subsetb. rewrite andb_true_iff, !forallb_forall. split.
    - intros [X Y] n. split; intro Z0; apply mem_In; auto.
    - intro X. split; intros n Z0; apply mem_In, X, Z0.
  Qed.
  Definition hit (c : cut N) : bool := same (cut_subset c) SA || same (cut_subset c) SB.

  Lemma hits_spec (T : list (N * N)) h cuts : tree_of H T -> h_tree h = mkGraph (g_nodes H) T -> one_cut_for h (both_balanced h) cuts ->
    (forall c, In c cuts -> exists u v, cut_off h c u v /\ both_balanced h u v) ->
    balanced_set (pop_of h) (h_ideal h) (h_eps h) (fun x => In x SA) -> balanced_set (pop_of h) (h_ideal h) (h_eps h) (fun x => In x SB) ->
    List.length (filter hit cuts) <= 1 /\ (List.length (filter hit cuts) = 1 <-> splits SA (mkGraph (g_nodes H) T)).
  Proof.
    intros HT ET O Off BA BB. assert (HT' := HT). destruct HT' as [_ (Tr & _ & _)].
    assert (Other : forall u v, adj (h_tree h) u v -> (forall x, side (h_tree h) u v x <-> In x SA) -> forall x, side (h_tree h) v u x <-> In x SB).
    { intros u v Ad Sd x. rewrite ET in *. destruct (C50_sides _ u v Tr Ad) as (All & Dis & _). cbn [g_nodes] in All. split; intro X.
      - assert (Hx : In x (g_nodes H)) by (apply All; auto). destruct (cover x Hx) as [Y|Y]; auto. exfalso. apply Sd in Y. apply (Dis x). auto.
      - assert (Hx : In x (g_nodes H)) by auto. apply All in Hx. destruct Hx as [Y|Y]; auto. exfalso. apply Sd in Y. apply (apart x); auto. }
    assert (Other' : forall u v, adj (h_tree h) u v -> (forall x, side (h_tree h) u v x <-> In x SB) -> forall x, side (h_tree h) v u x <-> In x SA).
    { intros u v Ad Sd x. rewrite ET in *. destruct (C50_sides _ u v Tr Ad) as (All & Dis & _). cbn [g_nodes] in All. split; intro X.
      - assert (Hx : In x (g_nodes H)) by (apply All; auto). destruct (cover x Hx) as [Y|Y]; auto. exfalso. apply Sd in Y. apply (Dis x). auto.
      - assert (Hx : In x (g_nodes H)) by auto. apply All in Hx. destruct Hx as [Y|Y]; auto. exfalso. apply Sd in Y. apply (apart x); auto. }
    assert (Hit : forall c, In c cuts -> hit c = true -> exists u v, cuts_edge c u v /\ adj (h_tree h) u v /\ (forall x, side (h_tree h) u v x <-> In x SA)).
    { intros c Hc Hh. destruct (Off c Hc) as (u & v & (Ed & _ & Is) & _). destruct (oc_sound _ _ _ O c u v Hc Ed) as [Ad _].
      unfold hit in Hh. apply orb_true_iff in Hh. rewrite !same_iff in Hh. destruct Hh as [Hh|Hh].
      - exists u, v. split; auto. split; auto. intro x. now rewrite <- Is.
      - exists v, u. split; [unfold cuts_edge in *; tauto|]. assert (Ad' : adj (h_tree h) v u) by (unfold adj in *; tauto). split; auto.
        apply Other'; auto. intro x. now rewrite <- Is. }
    assert (Once : forall u v u' v', adj (h_tree h) u v -> (forall x, side (h_tree h) u v x <-> In x SA) ->
      adj (h_tree h) u' v' -> (forall x, side (h_tree h) u' v' x <-> In x SA) -> u = u' /\ v = v').
    { intros u v u' v' A1 S1 A2 S2. assert (U' : In u' SA) by (apply S2; constructor). assert (V' : In v' SB) by (apply (Other u' v' A2 S2); constructor).
      assert (V1 : In v SB) by (apply (Other u v A1 S1); constructor). assert (U1 : In u SA) by (apply S1; constructor).
      destruct (eqb_spec u u') as [<-|Nu]; [destruct (eqb_spec v v') as [<-|Nv]; auto|]; exfalso.
      - apply (apart v'); auto. apply S1. eapply reach_step; [constructor|]. split; auto. split; intros [X Y]; subst; try congruence; eauto.
      - apply (apart v'); auto. apply S1. eapply reach_step; [apply S1; exact U'|]. split; auto. split; intros [X Y]; subst; try congruence; eauto. }
    assert (L1 : List.length (filter hit cuts) <= 1).
    { apply filter_once. intros i j c c' Hi Hj Fc Fc'. destruct (Hit c (nth_error_In _ _ Hi) Fc) as (u & v & E1 & A1 & S1), (Hit c' (nth_error_In _ _ Hj) Fc') as (u' & v' & E2 & A2 & S2).
      destruct (Once u v u' v' A1 S1 A2 S2) as [<- <-]. eapply (oc_once _ _ _ O); eauto. }
    split; auto. split.
    - intro L. destruct (filter hit cuts) as [|c r] eqn:Ef; [discriminate|]. assert (Hc : In c (filter hit cuts)) by (rewrite Ef; now left). apply filter_In in Hc.
      destruct (Hit c (proj1 Hc) (proj2 Hc)) as (u & v & _ & Ad & Sd). exists u, v. rewrite ET in *. auto.
    - intros (u & v & Ad & Sd). rewrite <- ET in Ad, Sd. assert (Sd' := Other u v Ad Sd).
      assert (B : both_balanced h u v).
      { split; unfold side_balanced; [eapply balanced_set_ext; [intro x; symmetry; apply Sd|exact BA]|eapply balanced_set_ext; [intro x; symmetry; apply Sd'|exact BB]]. }
      destruct (oc_complete _ _ _ O u v Ad B) as (c & Hc & Ec). destruct (Off c Hc) as (u' & v' & (Ec' & _ & Is) & _).
      assert (Hh : hit c = true).
      { unfold hit. rewrite orb_true_iff, !same_iff.
        assert (Eq : (u' = u /\ v' = v) \/ (u' = v /\ v' = u)) by (destruct Ec as [X|X], Ec' as [Y|Y]; rewrite X in Y; injection Y as <- <-; auto).
        destruct Eq as [[-> ->]|[-> ->]]; [left|right]; intro n; rewrite Is; auto. }
      assert (X : In c (filter hit cuts)) by now apply filter_In. destruct (filter hit cuts) as [|c0 [|c1 r]]; [destruct X|reflexivity|cbn in L1; lia].
  Qed.
End Hits.

Section Balance.
  Context {N P V L : Type} {EN : EqB N} {EP : EqB P} {EL : EqB L} {ON : Ord N} {RV : CRing V}.
  Variable E : env N P V L.
  Notation g := (e_graph E).
  Variable pop : dict N Z.
  Hypothesis Hpop : covers pop g.
  Variables (balance : @balance_fn N) (t e : Q) (bound : nat).
  Hypothesis Hbal : balance = find_cuts_memoization \/ balance = find_cuts_contraction.

  (** A call of reversible_recom (repeat_until_valid=False, max_attempts
      [S max]) in which uniform_spanning_tree returns the tree [T] and the cut
      search draws its root with [root T]. *)
  Definition call (weights : nat -> N * N -> Q) (root : list (N * N) -> nat -> nat) (fuel max : nat)
      (r1 r2 : nat) (a : nat) (h : heap N P V L) (T : list (N * N)) (r3 : nat) (u : Q) : res nat * heap N P V L :=
    reversible_recom E pop balance (fun H _ => Ok (mkGraph (g_nodes H) T)) t e weights (root T) (S fuel) (Some (S max)) false bound r1 r2 r3 u a h.
  (** The number of cuts that the search finds in [T]. *)
  Definition cuts_of (weights : nat -> N * N -> Q) (root : list (N * N) -> nat -> nat) (nodes : list N) (T : list (N * N)) : nat :=
    match balance (mkPopulated (mkGraph (g_nodes (subgraph g nodes)) T) (restrict pop nodes) t e (weights 0)) false (root T 0) with
    | Ok cuts => List.length cuts
    | _ => 0
    end.
  Definition lists_trees (H : graph N) (trees : list (list (N * N))) : Prop := NoDup trees /\ forall T, In T trees <-> tree_of H T.

  Lemma subgraph_ext (G : graph N) s s' : (forall n, In n s <-> In n s') -> subgraph G s = subgraph G s'.
  Proof using.
    intro H. assert (M : forall n, mem n s = mem n s').
    { intro n. destruct (mem n s') eqn:X; [apply mem_In, H; now apply mem_In|apply mem_notIn; rewrite H; now apply mem_notIn]. }
    unfold subgraph. f_equal; [apply filter_ext; exact M|]. apply filter_ext. intro x. now rewrite !M.
  Qed.
  Lemma restrict_ext s s' : (forall n, In n s <-> In n s') -> restrict pop s = restrict pop s'.
  Proof using.
    intro H. assert (M : forall n, mem n s = mem n s').
    { intro n. destruct (mem n s') eqn:X; [apply mem_In, H; now apply mem_In|apply mem_notIn; rewrite H; now apply mem_notIn]. }
    apply filter_ext. intro x. apply M.
  Qed.
  Lemma subgraph_twice (G : graph N) s s' : incl s' s -> subgraph (subgraph G s) s' = subgraph G s'.
  Proof using.
    intro I. assert (M : forall n, (mem n s && mem n s')%bool = mem n s').
    { intro n. destruct (mem n s') eqn:X; [|apply andb_false_r]. rewrite andb_true_r. apply mem_In, I, mem_In, X. }
    assert (FF : forall X (f f' : X -> bool) l, filter f' (filter f l) = filter (fun x => f x && f' x)%bool l).
    { intros X f f' l. induction l as [|x l IH]; cbn [filter]; auto. destruct (f x); cbn [filter andb]; rewrite IH; auto. }
    unfold subgraph. cbn [g_nodes g_edges]. rewrite !FF. f_equal; apply filter_ext; [intro n; apply M|]. intro x. rewrite <- (M (fst x)), <- (M (snd x)). 
    destruct (mem (fst x) s), (mem (snd x) s), (mem (fst x) s'), (mem (snd x) s'); reflexivity.
  Qed.
  Lemma two_sided hh d : cut_input hh -> 3 <= List.length (g_nodes (h_tree hh)) ->
    exists cuts, balance hh false d = Ok cuts /\ one_cut_for hh (both_balanced hh) cuts /\
      forall c, In c cuts -> exists u v, cut_off hh c u v /\ both_balanced hh u v.
  Proof using Hbal.
    intros I L3. destruct Hbal as [->| ->].
    - destruct (C50_memoization_two_sided hh I d L3) as (cuts & X & Y & W). exists cuts. split; auto. split; auto. intros c Hc. apply (W c Hc).
    - destruct (C51_contraction_two_sided hh I d L3) as (cuts & X & Y & W). exists cuts. split; auto. split; auto. intros c Hc. apply (W c Hc).
  Qed.
  Lemma cuts_search : cut_search balance.
  Proof using Hbal. destruct Hbal as [->| ->]; [apply C53_memoization_search|apply C53_contraction_search]. Qed.

  Section Plan.
    Variables (h : heap N P V L) (a : nat) (o : pobj N P V L).
    Hypothesis S : session E h.
    Hypothesis Ho : nth_error h a = Some o.
    Notation A := (o_assign o).
    Let C : coherent (g_nodes g) A := Coh E h a o S Ho.
    Let WF : wf_graph g := P_Proposals.wfg E h S.
    Variables (p q : P).
    Hypothesis Npq : p <> q.
    Hypothesis Adj : adjacent g A p q.
    Variable nodes : list N.
    Hypothesis Hnodes : forall n, In n nodes <-> district A n = Some p \/ district A n = Some q.
    Notation H := (subgraph g nodes).
    Hypothesis L3 : 3 <= List.length (g_nodes H).
    Variables SA SB : list N.
    Hypothesis Cov : forall n, In n nodes <-> In n SA \/ In n SB.
    Hypothesis Dis : forall n, In n SA -> In n SB -> False.
    Hypothesis BA : balanced_set (popn pop) t e (fun n => In n SA).
    Hypothesis BB : balanced_set (popn pop) t e (fun n => In n SB).
    Hypothesis New : ~ split_as A p q SA SB.
    Variables (weights : nat -> N * N -> Q) (root : list (N * N) -> nat -> nat) (fuel max r1 r2 : nat).
    Hypothesis Pair : choice r1 (list_prod (labels A) (labels A)) = Ok (p, q).

    Lemma nodes_in : incl nodes (g_nodes g).
    Proof using S Ho Hnodes. intros n X. apply Hnodes in X. apply (coh_dom _ _ C). destruct X as [X|X]; eapply dget_Some_key; exact X. Qed.
    Lemma nodes_H n : In n (g_nodes H) <-> In n nodes.
    Proof using S Ho Hnodes. rewrite subgraph_nodes. split; [intros [_ X]; exact X|]. intro X. split; [now apply nodes_in|exact X]. Qed.

    Lemma popn_restrict_set s : incl s nodes -> balanced_set (popn pop) t e (fun n => In n s) -> balanced_set (popn (restrict pop nodes)) t e (fun n => In n s).
    Proof using Hpop.
      intros I (x & Sx & Bx). exists x. split; auto. destruct Sx as (l & H1 & H2 & H3). exists l. split; auto. split; auto.
      rewrite H3. f_equal. apply map_ext_in. intros n Hn. symmetry. apply popn_restrict; auto. apply I, H2, Hn.
    Qed.

    Section Tree.
      Variable T : list (N * N).
      Hypothesis HT : tree_of H T.
      Notation hh := (mkPopulated (mkGraph (g_nodes H) T) (restrict pop nodes) t e (weights 0)).
      Lemma tree_cuts : exists cuts, balance hh false (root T 0) = Ok cuts /\ cuts_of weights root nodes T = List.length cuts /\
        List.length (filter (hit SA SB) cuts) <= 1 /\ (List.length (filter (hit SA SB) cuts) = 1 <-> splits SA (mkGraph (g_nodes H) T)).
      Proof using Hpop Hbal S Ho Hnodes L3 Cov Dis BA BB HT.
        assert (I : cut_input hh) by (apply (covers_input H); [apply HT|apply covers_restrict; auto; apply nodes_in]).
        destruct (two_sided hh (root T 0) I L3) as (cuts & Eb & O & Off). exists cuts. split; auto. unfold cuts_of. rewrite Eb. split; auto.
        eapply (hits_spec H SA SB); eauto.
        - intros n X. apply Cov, nodes_H, X.
        - intros n X. apply nodes_H, Cov. auto.
        - intros n X. apply nodes_H, Cov. auto.
        - reflexivity.
        - apply popn_restrict_set; auto. intros n X. apply Cov. auto.
        - apply popn_restrict_set; auto. intros n X. apply Cov. auto.
      Qed.
      Lemma found_cuts nodes' : (forall n, In n nodes' <-> In n nodes) ->
        found E pop balance (fun H _ => Ok (mkGraph (g_nodes H) T)) t e weights (root T) (Datatypes.S fuel) (Some (Datatypes.S max)) false nodes' =
        balance hh false (root T 0).
      Proof using.
        intro X. unfold found, search_cuts, bipartition_tree_random_all. cbn [first_tree bind fst snd attempt_loop Nat.ltb Nat.leb Nat.eqb negb orb].
        rewrite (subgraph_ext g _ _ X), (restrict_ext _ _ X). destruct (balance _ _ _); reflexivity.
      Qed.
      Definition prob_of (cuts : list (cut N)) (c : cut N) : Q :=
        if hit SA SB c then (Qn (List.length cuts) / (Qn bound * Qn (List.length (seam H SA SB))))%Q else 0%Q.
      Lemma one_tree cuts i c : balance hh false (root T 0) = Ok cuts -> List.length cuts <= bound -> nth_error cuts i = Some c ->
        (0 <= prob_of cuts c <= 1)%Q /\
        forall u, (0 <= u < 1)%Q -> (ends_in (call weights root fuel max r1 r2 a h T i u) (fun A' => split_as A' p q SA SB) <-> (u < prob_of cuts c)%Q).
      Proof using Hpop Hbal S Ho Npq Adj Hnodes Cov Dis New Pair HT.
        intros Eb Lb Hi.
        assert (Out := fun u => C48_outcome E pop Hpop balance (fun H _ => Ok (mkGraph (g_nodes H) T)) t e weights (root T) (Datatypes.S fuel) (Some (Datatypes.S max)) false bound
          h a o S Ho r1 r2 i u p q cuts_search).
        assert (Sm : forall nodes', (forall n, In n nodes' <-> district A n = Some p \/ district A n = Some q) ->
          samples (subgraph g nodes') (fun _ => Ok (mkGraph (g_nodes (subgraph g nodes')) T))).
        { intros nodes' X j T' Y. assert (Eg : subgraph g nodes' = H) by (apply subgraph_ext; intro n; now rewrite X, Hnodes). rewrite Eg in *. assert (Y' : mkGraph (g_nodes H) T = T') by congruence. rewrite <- Y'. apply HT. }
        assert (Key : forall u, exists b h' o' x sm prob, (x = p \/ x = q) /\ (forall n, district (o_assign o') n = Some x <-> In n (cut_subset c)) /\
            kept h h' /\ nth_error h' b = Some o' /\ redrawn A p q (o_assign o') /\ NoDup sm /\
            (forall x, In x sm <-> In x (g_edges g) /\
               ((district (o_assign o') (fst x) = Some p /\ district (o_assign o') (snd x) = Some q) \/
                (district (o_assign o') (fst x) = Some q /\ district (o_assign o') (snd x) = Some p))) /\
            (prob == Qn (List.length cuts) / (Qn bound * Qn (List.length sm)))%Q /\ (0 < prob <= 1)%Q /\
            ((u < prob)%Q -> call weights root fuel max r1 r2 a h T i u = (Ok b, h')) /\
            ((prob <= u)%Q -> call weights root fuel max r1 r2 a h T i u = (Ok a, h'))).
        { intro u. destruct (Out u Sm Pair Npq Adj) as (nodes' & _ & Hn' & Res). rewrite found_cuts in Res by (intro n; now rewrite Hn', Hnodes). rewrite Eb in Res.
          destruct cuts as [|c0 cuts0]; [destruct i; discriminate|]. rewrite (proj2 (Nat.ltb_ge _ _) Lb) in Res.
          destruct Res as (b & h' & o' & c' & x & sm & prob & Hc & Hx & Hd & _ & K & Hb & _ & R & _ & ND & Hs & Hp & Bp & Acc & Rej).
          assert (c' = c). { unfold choice in Hc. rewrite Nat.mod_small in Hc by (apply nth_error_Some; congruence). rewrite Hi in Hc. cbn in Hc. congruence. }
          subst c'. exists b, h', o', x, sm, prob. unfold call. auto 15. }
        clear Out Sm. unfold prob_of.
        assert (Split : forall (o' : pobj N P V L) x, (x = p \/ x = q) -> (forall n, district (o_assign o') n = Some x <-> In n (cut_subset c)) -> redrawn A p q (o_assign o') ->
          split_as (o_assign o') p q SA SB <-> hit SA SB c = true).
        { intros o' x Hx Hd [R1 R2]. unfold hit. rewrite orb_true_iff, !same_iff.
          assert (All : forall n, In n nodes <-> district (o_assign o') n = Some p \/ district (o_assign o') n = Some q).
          { intro n. rewrite Hnodes. split; [apply R2|]. intro Y. destruct (eqb_spec (district A n) (Some p)) as [Z1|Z1]; auto.
            destruct (eqb_spec (district A n) (Some q)) as [Z2|Z2]; auto. rewrite (R1 n Z1 Z2) in Y. tauto. }
          assert (Key2 : forall y, y <> x -> (y = p \/ y = q) -> forall s s', (forall n, In n nodes <-> In n s \/ In n s') -> (forall n, In n s -> In n s' -> False) ->
            (forall n, In n (cut_subset c) <-> In n s) -> forall n, district (o_assign o') n = Some y <-> In n s').
          { intros y Ny Hy s s' U D Q n. split; intro Z0.
            - assert (W : In n nodes) by (apply All; destruct Hy as [->| ->]; auto). apply U in W. destruct W as [W|W]; auto. exfalso. apply Q, Hd in W. congruence.
            - assert (W : In n nodes) by (apply U; auto). apply All in W. assert (W' : district (o_assign o') n <> Some x) by (intro Z1; apply Hd, Q in Z1; eauto).
              destruct Hx as [->| ->], Hy as [->| ->], W as [W|W]; congruence. }
          assert (Cov' : forall n, In n nodes <-> In n SB \/ In n SA) by (intro n; rewrite Cov; tauto).
          split.
          - intros [Q|Q]; destruct Hx as [->| ->].
            + left. intro n. rewrite <- Hd. apply Q.
            + right. intro n. rewrite <- Hd. apply Q.
            + right. intro n. rewrite <- Hd. apply Q.
            + left. intro n. rewrite <- Hd. apply Q.
          - intros [Q|Q]; destruct Hx as [->| ->].
            + left. intro n. rewrite Hd, Q. split; [tauto|]. apply (Key2 q) with SA; auto.
            + right. intro n. rewrite Hd, Q. split; [tauto|]. apply (Key2 p) with SA; auto.
            + right. intro n. rewrite Hd, Q. split; [|tauto]. apply (Key2 q) with SB; eauto.
            + left. intro n. rewrite Hd, Q. split; [|tauto]. apply (Key2 p) with SB; eauto. }
        assert (Seam : forall (o' : pobj N P V L) sm, split_as (o_assign o') p q SA SB -> NoDup sm -> (forall x, In x sm <-> In x (g_edges g) /\
               ((district (o_assign o') (fst x) = Some p /\ district (o_assign o') (snd x) = Some q) \/
                (district (o_assign o') (fst x) = Some q /\ district (o_assign o') (snd x) = Some p))) -> List.length sm = List.length (seam H SA SB)).
        { intros o' sm Sp ND Hs. assert (Eq : forall x, In x sm <-> In x (seam H SA SB)).
          { intros [v w]. rewrite Hs, In_seam. cbn [fst snd]. unfold subgraph. cbn [g_edges]. rewrite filter_In, andb_true_iff, !mem_In, !Cov. cbn [fst snd].
            destruct Sp as [Sp|Sp]; rewrite (proj1 (Sp v)), (proj2 (Sp v)), (proj1 (Sp w)), (proj2 (Sp w)); tauto. }
          apply Nat.le_antisymm; apply NoDup_incl_length; auto; try (intros x Hx; now apply Eq). apply NoDup_filter, (wf_subgraph g nodes WF). }
        destruct (hit SA SB c) eqn:Eh.
        - split.
          + destruct (Key 0%Q) as (b & h' & o' & x & sm & prob & Hx & Hd & _ & _ & R & ND & Hs & Hp & Bp & _).
            rewrite <- (Seam o' sm (proj2 (Split o' x Hx Hd R) eq_refl) ND Hs), <- Hp. lra.
          + intros u Hu. destruct (Key u) as (b & h' & o' & x & sm & prob & Hx & Hd & K & Hb & R & ND & Hs & Hp & Bp & Acc & Rej).
            rewrite <- (Seam o' sm (proj2 (Split o' x Hx Hd R) eq_refl) ND Hs), <- Hp. split.
            * intros (b' & o'' & X1 & X2 & X3). destruct (Qlt_le_dec u prob) as [Y|Y]; auto. exfalso. rewrite (Rej Y) in X1, X2. cbn [fst snd] in X1, X2. injection X1 as <-.
              destruct (K a o Ho) as (o3 & Y1 & Y2 & _). rewrite Y1 in X2. injection X2 as <-. rewrite Y2 in X3. contradiction.
            * intro Y. rewrite (Acc Y). exists b, o'. cbn [fst snd]. split; auto. split; auto. now apply (Split o' x Hx Hd R).
        - split; [lra|]. intros u Hu. split; [|lra]. intros (b' & o'' & X1 & X2 & X3). exfalso.
          destruct (Key u) as (b & h' & o' & x & sm & prob & Hx & Hd & K & Hb & R & ND & Hs & Hp & Bp & Acc & Rej).
          destruct (Qlt_le_dec u prob) as [Y|Y].
          + rewrite (Acc Y) in X1, X2. cbn [fst snd] in X1, X2. injection X1 as <-. rewrite Hb in X2. injection X2 as <-. apply (Split o' x Hx Hd R) in X3. discriminate.
          + rewrite (Rej Y) in X1, X2. cbn [fst snd] in X1, X2. injection X1 as <-. destruct (K a o Ho) as (o3 & Y1 & Y2 & _). rewrite Y1 in X2. injection X2 as <-. rewrite Y2 in X3. contradiction.
      Qed.
    End Tree.

    (** C98.  The number of spanning trees of the two new districts over the
        bound times the number of spanning trees of the two districts together. *)
    Theorem C98_chance trees kA kB : lists_trees H trees ->
      numbers (tree_of (subgraph g SA)) kA -> numbers (tree_of (subgraph g SB)) kB ->
      (forall T, In T trees -> cuts_of weights root nodes T <= bound) ->
      chance trees (cuts_of weights root nodes) (call weights root fuel max r1 r2 a h) (fun A' => split_as A' p q SA SB)
        (Qn kA * Qn kB / (Qn bound * Qn (List.length trees))).
    Proof.
      intros [ND IT] NA NB Few.
      pose (hh T := mkPopulated (mkGraph (g_nodes H) T) (restrict pop nodes) t e (weights 0)).
      exists (fun T i => match balance (hh T) false (root T 0) with Ok cuts => match nth_error cuts i with Some c => prob_of cuts c | None => 0%Q end | _ => 0%Q end).
      split.
      - intros T i HT Hi. apply IT in HT. destruct (tree_cuts T HT) as (cuts & Eb & En & _). unfold hh. rewrite Eb. rewrite En in Hi.
        destruct (nth_error cuts i) as [c|] eqn:Ec; [|apply nth_error_None in Ec; lia]. apply one_tree; auto. rewrite <- En. apply Few, IT, HT.
      - set (z := (1 / (Qn bound * Qn (List.length (seam H SA SB))))%Q).
        pose (sp T := match balance (hh T) false (root T 0) with Ok cuts => Nat.eqb (List.length (filter (hit SA SB) cuts)) 1 | _ => false end).
        assert (X : forall T, In T trees -> (qsum (seq 0 (cuts_of weights root nodes T))
            (fun i => match balance (hh T) false (root T 0) with Ok cuts => match nth_error cuts i with Some c => prob_of cuts c | None => 0 end | _ => 0 end /
               Qn (cuts_of weights root nodes T)) == if sp T then z else 0)%Q).
        { intros T HT. apply IT in HT. destruct (tree_cuts T HT) as (cuts & Eb & En & L1 & _). unfold sp, hh in *. rewrite Eb, En.
          transitivity (qsum cuts (fun c => prob_of cuts c / Qn (List.length cuts)))%Q.
          - destruct cuts as [|c0 cuts0]; [reflexivity|]. set (cuts := c0 :: cuts0) in *. rewrite <- (qsum_nth _ c0 cuts 0). apply qsum_ext. intros i Hi. apply in_seq in Hi.
            rewrite Nat.sub_0_r. rewrite (nth_error_nth' cuts c0) by lia. reflexivity.
          - transitivity (qsum cuts (fun c => if hit SA SB c then (Qn (List.length cuts) * z) / Qn (List.length cuts) else 0))%Q.
            + apply qsum_ext. intros c _. unfold prob_of. destruct (hit SA SB c); [unfold z, Qdiv; ring|unfold Qdiv; ring].
            + rewrite qsum_count. destruct (Nat.eqb_spec (List.length (filter (hit SA SB) cuts)) 1) as [Y|Y].
              * rewrite Y. assert (Hn : ~ (Qn (List.length cuts) == 0)%Q).
                { destruct cuts as [|c0 cuts0]; [discriminate|]. unfold Qn, Qeq. cbn. lia. }
                transitivity (Qn 1 * z * (Qn (List.length cuts) * / Qn (List.length cuts)))%Q; [unfold Qdiv; ring|]. rewrite (Qmult_inv_r _ Hn). unfold Qn. cbn [Z.of_nat Pos.of_succ_nat]. ring.
              * replace (List.length (filter (hit SA SB) cuts)) with 0 by lia. unfold Qn. cbn [Z.of_nat]. ring. }
        rewrite (qsum_ext _ _ _ X), qsum_count.
        assert (Cnt : List.length (filter sp trees) = List.length (seam H SA SB) * (kA * kB)).
        { eapply numbers_unique; [|apply (seam_count H) with (kA := kA) (kB := kB)].
          - exists (filter sp trees). split; [now apply NoDup_filter|]. split; [|reflexivity]. intro T. rewrite filter_In, IT.
            split; intros [HT Y]; split; auto; destruct (tree_cuts T HT) as (cuts & Eb & En & _ & L2); unfold sp, hh in *; rewrite Eb in *; [apply L2, Nat.eqb_eq, Y|apply Nat.eqb_eq, L2, Y].
          - apply wf_subgraph, WF.
          - intros n Hn. apply Cov, nodes_H, Hn.
          - exact Dis.
          - intros n Hn. apply nodes_H, Cov. auto.
          - intros n Hn. apply nodes_H, Cov. auto.
          - rewrite subgraph_twice; auto. intros n Hn. apply Cov. auto.
          - rewrite subgraph_twice; auto. intros n Hn. apply Cov. auto. }
        rewrite Cnt. assert (Qn_mul : forall i j, (Qn (i * j) == Qn i * Qn j)%Q) by (intros; unfold Qn; rewrite Nat2Z.inj_mul, inject_Z_mult; reflexivity).
        rewrite !Qn_mul. unfold z, Qdiv. rewrite !Qinv_mult_distr.
        destruct (seam H SA SB) as [|e0 l0] eqn:Es.
        + assert (Zero : (Qn kA * Qn kB * / Qn (List.length trees) == 0)%Q).
          { destruct kA as [|kA]; [unfold Qn; cbn [Z.of_nat]; ring|]. destruct kB as [|kB]; [unfold Qn; cbn [Z.of_nat]; ring|].
            destruct trees as [|T trees']; [unfold Qn; cbn; ring|]. exfalso. assert (HT : tree_of H T) by (apply IT; now left).
            destruct NA as (lA & _ & IA & EA), NB as (lB & _ & IB & EB).
            assert (Some_ : forall s l k, incl s nodes -> (forall T, In T l <-> tree_of (subgraph g s) T) -> List.length l = Datatypes.S k -> exists n, In n s).
            { intros s l k I Hl Hk. destruct l as [|T1 l]; [discriminate|]. destruct (proj1 (Hl T1) (or_introl eq_refl)) as [_ ([_ _ Sz] & _)]. cbn [g_nodes] in Sz.
              destruct (g_nodes (subgraph g s)) as [|n r] eqn:En; [discriminate|]. exists n. assert (Y : In n (g_nodes (subgraph g s))) by (rewrite En; now left). apply subgraph_nodes in Y. tauto. }
            destruct (Some_ SA lA kA) as [x Hx]; auto; [intros n Hn; apply Cov; auto|]. destruct (Some_ SB lB kB) as [y Hy]; auto; [intros n Hn; apply Cov; auto|].
            destruct HT as [_ ([_ Con _] & _ & Sub)]. cbn [g_nodes] in Con.
            assert (R : reach (adj (mkGraph (g_nodes H) T)) x y) by (apply Con; apply nodes_H, Cov; auto).
            assert (In y SA); [|eauto]. clear Hy. induction R as [|v w R IH St]; auto. apply Sub in St. assert (St' := St). apply adj_subgraph in St. destruct St as (_ & _ & Hw).
            apply Cov in Hw. destruct Hw as [Hw|Hw]; auto. exfalso.
            destruct St' as [St'|St']; [assert (Y : In (v, w) (seam H SA SB))|assert (Y : In (w, v) (seam H SA SB))]; try (apply In_seam; tauto); rewrite Es in Y; destruct Y. }
          transitivity (Qn kA * Qn kB * / Qn (List.length trees) * / Qn bound)%Q; [ring|]. rewrite Zero. cbn [List.length]. change (Qn 0) with 0%Q. ring.
        + assert (Hs : ~ (Qn (List.length (e0 :: l0)) == 0)%Q) by (unfold Qn, Qeq; cbn; lia).
          transitivity (Qn kA * Qn kB * (/ Qn bound * / Qn (List.length trees)) * (Qn (List.length (e0 :: l0)) * / Qn (List.length (e0 :: l0))))%Q; [rewrite (Qmult_inv_r _ Hs); ring|ring].
    Qed.
  End Plan.

  (** [k] is the product of the numbers of spanning trees of the districts. *)
  Definition tree_product (A : assignment N P) (k : nat) : Prop :=
    exists (f : P -> nat) ls, NoDup ls /\ (forall x, In x ls <-> exists n, district A n = Some x) /\
      (forall x s, In x ls -> (forall n, In n s <-> district A n = Some x) -> numbers (tree_of (subgraph g s)) (f x)) /\
      k = fold_right Nat.mul 1 (map f ls).
  (** [A] and [B] split the same nodes into [p] and [q], up to exchanging the
      two labels. *)
  Definition same_split (p q : P) (B A : assignment N P) : Prop :=
    (forall n, (district A n = Some p <-> district B n = Some p) /\ (district A n = Some q <-> district B n = Some q)) \/
    (forall n, (district A n = Some q <-> district B n = Some p) /\ (district A n = Some p <-> district B n = Some q)).

  Lemma chance_ext {T : Type} (trees : list T) n run Pr Pr' x : (forall A, Pr A <-> Pr' A) ->
    chance (N := N) (P := P) (V := V) (L := L) trees n run Pr x -> chance trees n run Pr' x.
  Proof using.
    intros Eq (pr & H1 & H2). exists pr. split; auto. intros t0 i Ht Hi. destruct (H1 t0 i Ht Hi) as [B I]. split; auto. intros u Hu. rewrite <- (I u Hu).
    split; intros (b & o & X1 & X2 & X3); exists b, o; repeat split; auto; now apply Eq.
  Qed.
  Lemma prod_out (x : P) ls : NoDup ls -> In x ls -> exists rest, NoDup rest /\ (forall y, In y rest <-> In y ls /\ y <> x) /\
    forall f, fold_right Nat.mul 1 (map f ls) = f x * fold_right Nat.mul 1 (map f rest).
  Proof using.
    intros ND Hx. apply in_split in Hx. destruct Hx as (l1 & l2 & ->). exists (l1 ++ l2). apply NoDup_remove in ND. destruct ND as [ND Nx]. split; auto. split.
    - intro y. rewrite !in_app_iff. cbn [In]. split.
      + intro Y. split; [destruct Y; auto|]. intros ->. apply Nx, in_app_iff. exact Y.
      + intros [[Y|[Y|Y]] Z0]; auto. congruence.
    - intro f. rewrite !map_app, !fold_right_app. cbn [map fold_right]. generalize (fold_right Nat.mul 1 (map f l2)). intro b. clear. induction l1 as [|y l IH]; cbn [map fold_right]; [reflexivity|]. rewrite IH. lia.
  Qed.
  Lemma prod_perm (f f' : P -> nat) l l' : NoDup l -> NoDup l' -> (forall x, In x l <-> In x l') -> (forall x, In x l -> f x = f' x) ->
    fold_right Nat.mul 1 (map f l) = fold_right Nat.mul 1 (map f' l').
  Proof using.
    intros N1 N2 Eq Ef. assert (Pm := NoDup_Permutation N1 N2 Eq). clear N1 N2 Eq. rewrite (map_ext_in f f' l Ef). clear Ef.
    induction Pm; cbn [map fold_right]; lia.
  Qed.

  (** C98.  Two plans that differ only in how the nodes of [p] and [q] are
      split: with weight the product of the numbers of spanning trees of the
      districts, the flows between them are equal. *)
  Theorem C98_detailed_balance h1 a1 o1 h2 a2 o2 p q nodes trees k1 k2 w1 root1 f1 m1 r1 r2 w2 root2 f2 m2 s1 s2 x y :
    session E h1 -> nth_error h1 a1 = Some o1 -> session E h2 -> nth_error h2 a2 = Some o2 ->
    p <> q -> adjacent g (o_assign o1) p q -> adjacent g (o_assign o2) p q ->
    redrawn (o_assign o1) p q (o_assign o2) -> ~ same_split p q (o_assign o2) (o_assign o1) ->
    (forall n, In n nodes <-> district (o_assign o1) n = Some p \/ district (o_assign o1) n = Some q) ->
    3 <= List.length (g_nodes (subgraph g nodes)) ->
    (forall z, z = p \/ z = q -> balanced_set (popn pop) t e (fun n => district (o_assign o1) n = Some z)) ->
    (forall z, z = p \/ z = q -> balanced_set (popn pop) t e (fun n => district (o_assign o2) n = Some z)) ->
    choice r1 (list_prod (labels (o_assign o1)) (labels (o_assign o1))) = Ok (p, q) ->
    choice s1 (list_prod (labels (o_assign o2)) (labels (o_assign o2))) = Ok (p, q) ->
    lists_trees (subgraph g nodes) trees ->
    (forall T, In T trees -> cuts_of w1 root1 nodes T <= bound) -> (forall T, In T trees -> cuts_of w2 root2 nodes T <= bound) ->
    tree_product (o_assign o1) k1 -> tree_product (o_assign o2) k2 ->
    chance trees (cuts_of w1 root1 nodes) (call w1 root1 f1 m1 r1 r2 a1 h1) (same_split p q (o_assign o2)) x ->
    chance trees (cuts_of w2 root2 nodes) (call w2 root2 f2 m2 s1 s2 a2 h2) (same_split p q (o_assign o1)) y ->
    (Qn k1 * x == Qn k2 * y)%Q.
  Proof using Hpop Hbal.
    intros S1 O1 S2 O2 Npq Ad1 Ad2 [R1 R2] New Hn L3 B1 B2 C1 C2 Tr W1 W2 K1 K2 X Y.
    pose (part := fun (A : assignment N P) z => filter (fun n => eqb (district A n) (Some z)) (g_nodes g)).
    assert (Part : forall h a o, session E h -> nth_error h a = Some o -> forall z n, In n (part (o_assign o) z) <-> district (o_assign o) n = Some z).
    { intros h a o Hs Ho z n. unfold part. rewrite filter_In. assert (C := Coh E h a o Hs Ho). split.
      - intros [_ W]. destruct (eqb_spec (district (o_assign o) n) (Some z)); congruence.
      - intro W. split; [apply (coh_dom _ _ C); eapply dget_Some_key; exact W|]. rewrite W. apply eqb_refl. }
    assert (P1 := Part h1 a1 o1 S1 O1). assert (P2 := Part h2 a2 o2 S2 O2).
    assert (Same : forall n, (district (o_assign o1) n = Some p \/ district (o_assign o1) n = Some q) <-> (district (o_assign o2) n = Some p \/ district (o_assign o2) n = Some q)).
    { intro n. split; [apply R2|]. intro W. destruct (eqb_spec (district (o_assign o1) n) (Some p)) as [Z1|Z1]; auto.
      destruct (eqb_spec (district (o_assign o1) n) (Some q)) as [Z2|Z2]; auto. rewrite (R1 n Z1 Z2) in W. tauto. }
    assert (Oth : forall z n, z <> p -> z <> q -> district (o_assign o1) n = Some z <-> district (o_assign o2) n = Some z).
    { intros z n Zp Zq. destruct (eqb_spec (district (o_assign o1) n) (Some p)) as [Z1|Z1].
      - assert (W := proj1 (Same n) (or_introl Z1)). split; intro; destruct W; congruence.
      - destruct (eqb_spec (district (o_assign o1) n) (Some q)) as [Z2|Z2].
        + assert (W := proj1 (Same n) (or_intror Z2)). split; intro; destruct W; congruence.
        + now rewrite (R1 n Z1 Z2). }
    destruct K1 as (n1 & l1 & ND1 & I1 & F1 & ->), K2 as (n2 & l2 & ND2 & I2 & F2 & ->).
    assert (Lp1 : In p l1) by (apply I1; destruct Ad1 as (u & v & _ & D1 & _); eauto).
    assert (Lq1 : In q l1) by (apply I1; destruct Ad1 as (u & v & _ & _ & D1); eauto).
    assert (Lp2 : In p l2) by (apply I2; destruct Ad2 as (u & v & _ & D1 & _); eauto).
    assert (Lq2 : In q l2) by (apply I2; destruct Ad2 as (u & v & _ & _ & D1); eauto).
    destruct (prod_out p l1 ND1 Lp1) as (l1' & ND1' & I1' & ->). destruct (prod_out p l2 ND2 Lp2) as (l2' & ND2' & I2' & ->).
    destruct (prod_out q l1' ND1' (proj2 (I1' q) (conj Lq1 (not_eq_sym Npq)))) as (l1'' & ND1'' & I1'' & ->).
    destruct (prod_out q l2' ND2' (proj2 (I2' q) (conj Lq2 (not_eq_sym Npq)))) as (l2'' & ND2'' & I2'' & ->).
    assert (Rest : fold_right Nat.mul 1 (map n1 l1'') = fold_right Nat.mul 1 (map n2 l2'')).
    { apply prod_perm; auto.
      - intro z. rewrite I1'', I1', I2'', I2', I1, I2. split; intros [[(n & D) Zp] Zq]; split; auto; split; auto; exists n; apply (Oth z n Zp Zq); auto.
      - intros z Hz. apply I1'' in Hz. destruct Hz as [Hz Zq]. apply I1' in Hz. destruct Hz as [Hz Zp].
        eapply numbers_unique; [apply (F1 z (part (o_assign o1) z) Hz), P1|]. apply F2.
        + apply I2. apply I1 in Hz. destruct Hz as (n & D). exists n. apply (Oth z n Zp Zq); auto.
        + intro n. rewrite P1. apply Oth; auto. }
    rewrite Rest. generalize (fold_right Nat.mul 1 (map n2 l2'')). intro rest.
    assert (X' := C98_chance h1 a1 o1 S1 O1 p q Npq Ad1 nodes Hn L3 (part (o_assign o2) p) (part (o_assign o2) q)).
    assert (Y' := C98_chance h2 a2 o2 S2 O2 p q Npq Ad2 nodes (fun n => iff_trans (Hn n) (Same n)) L3 (part (o_assign o1) p) (part (o_assign o1) q)).
    assert (EX : (x == Qn (n2 p) * Qn (n2 q) / (Qn bound * Qn (List.length trees)))%Q).
    { eapply C98_unique; [exact X|]. eapply chance_ext; [|apply X'].
      - intro A'. unfold split_as, same_split. split; (intros [Q|Q]; [left|right]; intro n; assert (Q1 := Q n); rewrite !P2 in *; exact Q1).
      - intro n. now rewrite !P2, Hn.
      - intros n. rewrite !P2. congruence.
      - eapply balanced_set_ext; [|apply (B2 p); auto]. intro n. symmetry. apply P2.
      - eapply balanced_set_ext; [|apply (B2 q); auto]. intro n. symmetry. apply P2.
      - intro Q. apply New. unfold split_as in Q. unfold same_split. destruct Q as [Q|Q]; [left|right]; intro n; assert (Q1 := Q n); rewrite !P2 in Q1; exact Q1.
      - exact C1.
      - exact Tr.
      - apply F2; auto.
      - apply F2; auto.
      - exact W1. }
    assert (EY : (y == Qn (n1 p) * Qn (n1 q) / (Qn bound * Qn (List.length trees)))%Q).
    { eapply C98_unique; [exact Y|]. eapply chance_ext; [|apply Y'].
      - intro A'. unfold split_as, same_split. split; (intros [Q|Q]; [left|right]; intro n; assert (Q1 := Q n); rewrite !P1 in *; exact Q1).
      - intro n. now rewrite !P1, Hn.
      - intros n. rewrite !P1. congruence.
      - eapply balanced_set_ext; [|apply (B1 p); auto]. intro n. symmetry. apply P1.
      - eapply balanced_set_ext; [|apply (B1 q); auto]. intro n. symmetry. apply P1.
      - intro Q. apply New. unfold split_as in Q. unfold same_split. destruct Q as [Q|Q]; [left|right]; intro n; assert (Q1 := Q n); rewrite !P1 in Q1; tauto.
      - exact C2.
      - exact Tr.
      - apply F1; auto.
      - apply F1; auto.
      - exact W2. }
    rewrite EX, EY. assert (Qn_mul : forall i j, (Qn (i * j) == Qn i * Qn j)%Q) by (intros; unfold Qn; rewrite Nat2Z.inj_mul, inject_Z_mult; reflexivity).
    rewrite !Qn_mul. unfold Qdiv. ring.
  Qed.

  (** A call that draws another pair of districts does not change how [p] and
      [q] split their nodes, unless it fails. *)
  Theorem C98_other_pair h a o tree weights draws fuel max repeat r1 r2 r3 u p q p' q' : session E h -> nth_error h a = Some o ->
    (forall nodes, (forall n, In n nodes <-> district (o_assign o) n = Some p' \/ district (o_assign o) n = Some q') -> samples (subgraph g nodes) (tree (subgraph g nodes))) ->
    choice r1 (list_prod (labels (o_assign o)) (labels (o_assign o))) = Ok (p', q') -> p <> q ->
    ~ (p' = p /\ q' = q) -> ~ (p' = q /\ q' = p) ->
    forall A2, redrawn (o_assign o) p q A2 -> ~ same_split p q A2 (o_assign o) ->
    ~ ends_in (reversible_recom E pop balance tree t e weights draws fuel max repeat bound r1 r2 r3 u a h)
        (fun A' => forall n, district A' n = district A2 n).
  Proof using Hpop Hbal.
    intros Ss Ho Sm Hc Npq D1 D2 A2 [R1 R2] New (b & o' & X1 & X2 & X3).
    assert (Old : (forall n, district (o_assign o) n = district A2 n) -> False).
    { intro Eq. apply New. left. intro n. now rewrite Eq. }
    assert (Dec : p' = q' \/ ~ adjacent g (o_assign o) p' q' \/ (p' <> q' /\ adjacent g (o_assign o) p' q')).
    { destruct (eqb_spec p' q') as [->|N1]; auto. right. destruct (dist_pair_edges E (o_assign o) p' q') as [|e0 l] eqn:Ed.
      - left. intro Ad. apply (proj2 (seam_some E weights draws fuel (o_assign o) p' q')) in Ad. contradiction.
      - right. split; auto. apply (proj1 (seam_some E weights draws fuel (o_assign o) p' q')). rewrite Ed. discriminate. }
    destruct Dec as [Dec|[Dec|[N1 Ad]]].
    - rewrite (C48_self_loop E pop balance tree t e weights draws fuel max repeat bound h a o Ho r1 r2 r3 u p' q' Hc (or_introl Dec)) in X1, X2. cbn [fst snd] in X1, X2. injection X1 as <-. rewrite Ho in X2. injection X2 as <-. auto.
    - rewrite (C48_self_loop E pop balance tree t e weights draws fuel max repeat bound h a o Ho r1 r2 r3 u p' q' Hc (or_intror Dec)) in X1, X2. cbn [fst snd] in X1, X2. injection X1 as <-. rewrite Ho in X2. injection X2 as <-. auto.
    - destruct (C48_outcome E pop Hpop balance tree t e weights draws fuel max repeat bound h a o Ss Ho r1 r2 r3 u p' q' cuts_search Sm Hc N1 Ad) as (nodes & _ & Hn & Res).
      destruct (found _ _ _ _ _ _ _ _ _ _ _ nodes) as [cuts|ex|]; [|rewrite Res in X1; discriminate|rewrite Res in X1; discriminate].
      destruct cuts as [|c0 cuts0]; [rewrite Res in X1, X2; cbn [fst snd] in X1, X2; injection X1 as <-; rewrite Ho in X2; injection X2 as <-; auto|].
      destruct (Nat.ltb bound (List.length (c0 :: cuts0))); [rewrite Res in X1; discriminate|].
      destruct Res as (b' & h' & o3 & c & x & sm & prob & _ & _ & _ & _ & K & Hb & _ & [Q1 Q2] & _ & _ & _ & _ & _ & Acc & Rej).
      destruct (Qlt_le_dec u prob) as [Y|Y].
      + rewrite (Acc Y) in X1, X2. cbn [fst snd] in X1, X2. injection X1 as <-. rewrite Hb in X2. injection X2 as <-.
        apply Old. intro n. rewrite <- X3.
        destruct (eqb_spec (district (o_assign o) n) (Some p)) as [Z1|Z1]; [|destruct (eqb_spec (district (o_assign o) n) (Some q)) as [Z2|Z2]].
        * assert (W := R2 n (or_introl Z1)). rewrite <- X3 in W.
          destruct (eqb_spec (district (o_assign o) n) (Some p')) as [Z3|Z3]; [|destruct (eqb_spec (district (o_assign o) n) (Some q')) as [Z4|Z4]].
          -- assert (p' = p) by congruence. subst p'. assert (W' := Q2 n (or_introl Z3)). destruct W as [W|W], W' as [W'|W']; try congruence.
             exfalso. apply D1. split; auto. congruence.
          -- assert (q' = p) by congruence. subst q'. assert (W' := Q2 n (or_intror Z4)). destruct W as [W|W], W' as [W'|W']; try congruence.
             exfalso. apply D2. split; auto. congruence.
          -- symmetry. now apply Q1.
        * assert (W := R2 n (or_intror Z2)). rewrite <- X3 in W.
          destruct (eqb_spec (district (o_assign o) n) (Some p')) as [Z3|Z3]; [|destruct (eqb_spec (district (o_assign o) n) (Some q')) as [Z4|Z4]].
          -- assert (p' = q) by congruence. subst p'. assert (W' := Q2 n (or_introl Z3)). destruct W as [W|W], W' as [W'|W']; try congruence.
             exfalso. apply D2. split; auto. congruence.
          -- assert (q' = q) by congruence. subst q'. assert (W' := Q2 n (or_intror Z4)). destruct W as [W|W], W' as [W'|W']; try congruence.
             exfalso. apply D1. split; auto. congruence.
          -- symmetry. now apply Q1.
        * rewrite X3. symmetry. now apply R1.
      + rewrite (Rej Y) in X1, X2. cbn [fst snd] in X1, X2. injection X1 as <-. destruct (K a o Ho) as (o4 & Y1 & Y2 & _). rewrite Y1 in X2. injection X2 as <-. rewrite Y2 in X3. auto.
  Qed.
End Balance.

(** ** The 4-cycle with its two balanced plans *)
Definition square_E : env nat nat Z nat :=
  mkEnv square (fun _ _ => None) (fun _ => false) (fun _ => 0%Z) (fun _ => 0%Z) (fun _ _ => None) [("cut_edges"%string, UCutEdges)].
Definition square_run (d : dict nat nat) : heap nat nat Z nat := match M_Machine.root square_E d with Ok h => h | _ => [] end.
Lemma square_session d h : is_dict d -> M_Machine.root square_E d = Ok h -> session square_E (square_run d).
Proof.
  intros D R. split; [|split].
  - split; [exact square_wf|]. intros k ps al H. apply dget_In in H. destruct H as [H|[]]. discriminate.
  - intros k u H k' u' H'. apply dget_In in H. simpl in H. repeat destruct H as [H|H]; try contradiction; injection H as <- <-; simpl in H';
      repeat destruct H' as [H'|H']; try contradiction; injection H' as <- <-; reflexivity.
  - exists d, h, []. split; auto. split; auto. split; [constructor|]. unfold square_run. now rewrite R.
Qed.
Definition across : dict nat nat := [(0, 1); (1, 1); (2, 2); (3, 2)].
Definition along : dict nat nat := [(0, 1); (1, 2); (2, 2); (3, 1)].
Definition square_trees : list (list (nat * nat)) :=
  [[(1, 2); (2, 3); (0, 3)]; [(0, 1); (2, 3); (0, 3)]; [(0, 1); (1, 2); (0, 3)]; [(0, 1); (1, 2); (2, 3)]].
Lemma square_lists : lists_trees (subgraph square [0; 1; 2; 3]) square_trees.
Proof.
  split; [nodup|]. intro T. change (subgraph square [0; 1; 2; 3]) with square. split.
  - intro H. unfold square_trees in H. repeat destruct H as [H|H]; try contradiction; subst T; (split; [|split;
      [apply is_connected_tree; [wfg|reflexivity|vm_compute; reflexivity]|split; [reflexivity|intros u v [X|X]; cbn in X; unfold adj; cbn; tauto]]]).
    + exists (fun e => negb (Nat.eqb (fst e) 0 && Nat.eqb (snd e) 1)). reflexivity.
    + exists (fun e => negb (Nat.eqb (fst e) 1 && Nat.eqb (snd e) 2)). reflexivity.
    + exists (fun e => negb (Nat.eqb (fst e) 2 && Nat.eqb (snd e) 3)). reflexivity.
    + exists (fun e => negb (Nat.eqb (fst e) 0 && Nat.eqb (snd e) 3)). reflexivity.
  - intros [[f ->] [[_ _ Sz] _]]. cbn [g_edges g_nodes square List.length filter] in *.
    destruct (f (0, 1)), (f (1, 2)), (f (2, 3)), (f (0, 3)); try discriminate Sz; unfold square_trees; cbn; auto 10.
Qed.
Lemma pair_tree (s : list nat) u v : In (u, v) (g_edges square) -> (forall n, In n s <-> n = u \/ n = v) -> numbers (tree_of (subgraph square s)) 1.
Proof.
  intros He Hs. rewrite (subgraph_ext square s [u; v]) by (intro n; rewrite Hs; cbn; intuition). clear s Hs. exists [[(u, v)]].
  split; [nodup|]. split; [|reflexivity]. intro T.
  assert (G : exists a b, (a, b) = (u, v) \/ (a, b) = (v, u)) by eauto.
  cbn in He. repeat destruct He as [He|He]; try contradiction; injection He as <- <-; clear G; vm_compute subgraph;
    (split; [intros [<-|[]]; split; [exists (fun _ => true); reflexivity|split; [apply is_connected_tree; [wfg|reflexivity|vm_compute; reflexivity]|split; [reflexivity|auto]]]
            |intros [[f ->] [[_ _ Sz] _]]; cbn [g_edges g_nodes List.length filter] in *; match goal with |- context[f ?x] => destruct (f x) end; [now left|discriminate Sz]]).
Qed.
Lemma pair_balanced u v (Pr : nat -> Prop) : u < 4 -> v < 4 -> u <> v -> (forall n, Pr n <-> n = u \/ n = v) -> balanced_set (popn (flat_pop 4 1)) 2 0 Pr.
Proof.
  intros Hu Hv Nuv Hp. exists 2%Z. split; [|unfold balanced; vm_compute; discriminate]. exists [u; v]. split; [constructor; [intros [H|[]]; congruence|constructor; [intros []|constructor]]|].
  split; [intro n; rewrite Hp; cbn; intuition|].
  assert (X : forall n, n < 4 -> popn (flat_pop 4 1) n = 1%Z) by (intros n Hn; do 4 (destruct n as [|n]; [reflexivity|]); lia).
  cbn [map]. rewrite (X u Hu), (X v Hv). reflexivity.
Qed.
Lemma dist4 (o : pobj nat nat Z nat) (d : dict nat nat) x u v : a_map (o_assign o) = d ->
  (forall n, n < 4 -> dget d n = Some x <-> n = u \/ n = v) -> u < 4 -> v < 4 -> (forall n, 4 <= n -> dget d n = None) ->
  forall n, district (o_assign o) n = Some x <-> n = u \/ n = v.
Proof.
  intros Ed H Hu Hv H' n. unfold district. rewrite Ed. destruct (Nat.lt_ge_cases n 4) as [L|L]; [auto|]. rewrite (H' n L). split; [discriminate|lia].
Qed.
Ltac four_cases := let n := fresh "n" in let X := fresh in intros n X; do 4 (destruct n as [|n]; [cbn; split; [intro; try discriminate; auto|intros [|]; congruence]|]); lia.
Ltac no_more := let n := fresh "n" in let X := fresh in intros n X; do 4 (destruct n as [|n]; [lia|]); reflexivity.
(** From either plan the other is reached with chance 1/4; each has one
    spanning tree per district. *)
Example C98_nonvacuous :
  let bal := @find_cuts_memoization nat _ in let pop := flat_pop 4 1 in let w := fun _ _ => 0%Q in let root := fun _ _ => 0 in
  exists o1 o2, let A1 := o_assign o1 in let A2 := o_assign o2 in
  session square_E (square_run across) /\ nth_error (square_run across) 0 = Some o1 /\
  session square_E (square_run along) /\ nth_error (square_run along) 0 = Some o2 /\
  covers pop square /\ adjacent square A1 1 2 /\ adjacent square A2 1 2 /\ redrawn A1 1 2 A2 /\ ~ same_split 1 2 A2 A1 /\
  (forall n, In n [0; 1; 2; 3] <-> district A1 n = Some 1 \/ district A1 n = Some 2) /\
  3 <= List.length (g_nodes (subgraph square [0; 1; 2; 3])) /\
  (forall z, z = 1 \/ z = 2 -> balanced_set (popn pop) 2 0 (fun n => district A1 n = Some z)) /\
  (forall z, z = 1 \/ z = 2 -> balanced_set (popn pop) 2 0 (fun n => district A2 n = Some z)) /\
  choice 1 (list_prod (labels A1) (labels A1)) = Ok (1, 2) /\ choice 1 (list_prod (labels A2) (labels A2)) = Ok (1, 2) /\
  lists_trees (subgraph square [0; 1; 2; 3]) square_trees /\
  (forall T, In T square_trees -> cuts_of square_E pop bal 2 0 w root [0; 1; 2; 3] T <= 1) /\
  tree_product square_E A1 1 /\ tree_product square_E A2 1 /\
  chance square_trees (cuts_of square_E pop bal 2 0 w root [0; 1; 2; 3]) (call square_E pop bal 2 0 1 w root 0 0 1 0 0 (square_run across)) (same_split 1 2 A2) (1 # 4) /\
  chance square_trees (cuts_of square_E pop bal 2 0 w root [0; 1; 2; 3]) (call square_E pop bal 2 0 1 w root 0 0 1 0 0 (square_run along)) (same_split 1 2 A1) (1 # 4).
Proof.
  intros bal pop w root0. eexists. eexists. intros A1 A2.
  assert (S1 : session square_E (square_run across)) by (eapply square_session; [nodup|vm_compute; reflexivity]).
  assert (S2 : session square_E (square_run along)) by (eapply square_session; [nodup|vm_compute; reflexivity]).
  split; [exact S1|]. split; [vm_compute; reflexivity|]. split; [exact S2|]. split; [vm_compute; reflexivity|].
  assert (D11 : forall n, district A1 n = Some 1 <-> n = 0 \/ n = 1) by (eapply dist4; [reflexivity|four_cases|lia|lia|no_more]).
  assert (D12 : forall n, district A1 n = Some 2 <-> n = 2 \/ n = 3) by (eapply dist4; [reflexivity|four_cases|lia|lia|no_more]).
  assert (D21 : forall n, district A2 n = Some 1 <-> n = 0 \/ n = 3) by (eapply dist4; [reflexivity|four_cases|lia|lia|no_more]).
  assert (D22 : forall n, district A2 n = Some 2 <-> n = 1 \/ n = 2) by (eapply dist4; [reflexivity|four_cases|lia|lia|no_more]).
  assert (Cv : covers pop square) by (split; [nodup|intro n; reflexivity]).
  assert (Ad1 : adjacent square A1 1 2) by (exists 1, 2; split; [left; cbn; auto|]; rewrite D11, D12; auto).
  assert (Ad2 : adjacent square A2 1 2) by (exists 0, 1; split; [left; cbn; auto|]; rewrite D21, D22; auto).
  assert (Dn : forall (A : assignment nat nat) n, A = A1 \/ A = A2 -> district A n = None \/ district A n = Some 1 \/ district A n = Some 2).
  { intros A n H. destruct (Nat.lt_ge_cases n 4) as [L|L].
    - destruct H as [->| ->]; do 4 (destruct n as [|n]; [cbn; auto|]); lia.
    - left. destruct H as [->| ->]; do 4 (destruct n as [|n]; [lia|]); reflexivity. }
  assert (Sp : ~ same_split 1 2 A2 A1).
  { intros [X|X].
    - destruct (X 1) as [Y _]. rewrite D11, D21 in Y. lia.
    - destruct (X 1) as [_ Y]. rewrite D11, D22 in Y. destruct (X 0) as [_ Z0]. rewrite D11, D22 in Z0. lia. }
  assert (Hn : forall n, In n [0; 1; 2; 3] <-> district A1 n = Some 1 \/ district A1 n = Some 2) by (intro n; rewrite D11, D12; cbn; intuition).
  assert (Hn2 : forall n, In n [0; 1; 2; 3] <-> district A2 n = Some 1 \/ district A2 n = Some 2) by (intro n; rewrite D21, D22; cbn; intuition).
  assert (B1 : forall z, z = 1 \/ z = 2 -> balanced_set (popn pop) 2 0 (fun n => district A1 n = Some z)).
  { intros z [->| ->]; [apply (pair_balanced 0 1); auto; lia|apply (pair_balanced 2 3); auto; lia]. }
  assert (B2 : forall z, z = 1 \/ z = 2 -> balanced_set (popn pop) 2 0 (fun n => district A2 n = Some z)).
  { intros z [->| ->]; [apply (pair_balanced 0 3); auto; lia|apply (pair_balanced 1 2); auto; lia]. }
  assert (Few : forall T, In T square_trees -> cuts_of square_E pop bal 2 0 w root0 [0; 1; 2; 3] T <= 1).
  { intros T H. unfold square_trees in H. repeat destruct H as [H|H]; try contradiction; subst T; vm_compute; lia. }
  assert (Dn4 : forall n, district A1 n = Some 1 \/ district A1 n = Some 2 -> n < 4) by (intro n; rewrite D11, D12; lia).
  assert (Lab : forall (A : assignment nat nat) x, A = A1 \/ A = A2 -> In x [1; 2] <-> exists n, district A n = Some x).
  { intros A x H. split.
    - intros [<-|[<-|[]]]; destruct H as [->| ->]; [exists 0; apply D11|exists 0; apply D21|exists 2; apply D12|exists 2; apply D22]; auto.
    - intros (n & Hd). destruct (Dn A n H) as [Q|[Q|Q]]; rewrite Hd in Q; [discriminate|injection Q as ->; cbn; auto|injection Q as ->; cbn; auto]. }
  assert (Tp : forall (A : assignment nat nat), A = A1 \/ A = A2 -> tree_product square_E A 1).
  { intros A H. exists (fun _ => 1), [1; 2]. split; [nodup|]. split; [intro x; apply Lab, H|]. split; [|reflexivity].
    intros x s Hx Hs. destruct Hx as [<-|[<-|[]]], H as [->| ->].
    - apply (pair_tree s 0 1); [cbn; auto|]. intro n. now rewrite Hs, D11.
    - apply (pair_tree s 0 3); [cbn; auto|]. intro n. now rewrite Hs, D21.
    - apply (pair_tree s 2 3); [cbn; auto|]. intro n. now rewrite Hs, D12.
    - apply (pair_tree s 1 2); [cbn; auto|]. intro n. now rewrite Hs, D22. }
  assert (Ch : forall (h : heap nat nat Z nat) oa (A' : assignment nat nat) sa sb u v u' v', session square_E h -> nth_error h 0 = Some oa -> adjacent square (o_assign oa) 1 2 ->
    (forall n, In n [0; 1; 2; 3] <-> district (o_assign oa) n = Some 1 \/ district (o_assign oa) n = Some 2) ->
    (forall n, district A' n = Some 1 <-> In n sa) -> (forall n, district A' n = Some 2 <-> In n sb) ->
    (forall n, In n sa <-> n = u \/ n = v) -> (forall n, In n sb <-> n = u' \/ n = v') -> In (u, v) (g_edges square) -> In (u', v') (g_edges square) ->
    (forall n, In n [0; 1; 2; 3] <-> In n sa \/ In n sb) -> (forall n, In n sa -> In n sb -> False) -> (u <> v /\ u' <> v') -> ~ same_split 1 2 A' (o_assign oa) ->
    choice 1 (list_prod (labels (o_assign oa)) (labels (o_assign oa))) = Ok (1, 2) ->
    chance square_trees (cuts_of square_E pop bal 2 0 w root0 [0; 1; 2; 3]) (call square_E pop bal 2 0 1 w root0 0 0 1 0 0 h) (same_split 1 2 A') (1 # 4)).
  { intros h oa A' sa sb u v u' v' Ss Ho Ad Hno Da Db Sa Sb Ea Eb Cv2 Dj [Nu Nu'] New Hc.
    assert (Lt : forall a b, In (a, b) (g_edges square) -> a < 4 /\ b < 4) by (intros a b H; cbn in H; repeat destruct H as [H|H]; try contradiction; injection H as <- <-; lia).
    assert (Sas : forall B, split_as B 1 2 sa sb <-> same_split 1 2 A' B).
    { intro B. unfold split_as, same_split. split; (intros [Q|Q]; [left|right]; intro n; assert (Q1 := Q n); rewrite ?Da, ?Db in *; exact Q1). }
    eapply chance_ext; [exact Sas|].
    assert (X := C98_chance square_E pop Cv bal 2 0 1 (or_introl eq_refl) h 0 oa Ss Ho 1 2 ltac:(discriminate) Ad [0; 1; 2; 3] Hno ltac:(cbn; lia) sa sb Cv2 Dj
      (pair_balanced u v _ (proj1 (Lt _ _ Ea)) (proj2 (Lt _ _ Ea)) Nu Sa) (pair_balanced u' v' _ (proj1 (Lt _ _ Eb)) (proj2 (Lt _ _ Eb)) Nu' Sb)
      (fun Q => New (proj1 (Sas _) Q)) w root0 0 0 1 0 Hc square_trees 1 1 square_lists (pair_tree sa u v Ea Sa) (pair_tree sb u' v' Eb Sb) Few).
    destruct X as (pr & X1 & X2). exists pr. split; [exact X1|]. rewrite <- X2. vm_compute. reflexivity. }
  split; [exact Cv|]. split; [exact Ad1|]. split; [exact Ad2|].
  split. { split; intros n H.
    - intro H'. destruct (Dn A1 n (or_introl eq_refl)) as [Q|[Q|Q]]; try contradiction. destruct (Nat.lt_ge_cases n 4) as [L|L].
      + exfalso. do 4 (destruct n as [|n]; [cbn in Q; discriminate|]). lia.
      + do 4 (destruct n as [|n]; [lia|]). reflexivity.
    - apply Hn2, Hn, H. }
  split; [exact Sp|]. split; [exact Hn|]. split; [cbn; lia|]. split; [exact B1|]. split; [exact B2|]. split; [reflexivity|]. split; [reflexivity|]. split; [exact square_lists|]. split; [exact Few|].
  split; [apply Tp; auto|]. split; [apply Tp; auto|]. split.
  - eapply (Ch _ _ A2 [0; 3] [1; 2] 0 3 1 2 S1); try exact Ad1; try exact Hn; try exact Sp; try reflexivity; try (intro n; rewrite ?D21, ?D22; cbn; intuition; fail); cbn; auto.
  - eapply (Ch _ _ A1 [0; 1] [2; 3] 0 1 2 3 S2); try exact Ad2; try exact Hn2; try reflexivity; try (intro n; rewrite ?D11, ?D12; cbn; intuition; fail); cbn; auto.
    intros [X|X]; apply Sp; [left|right]; intro n; specialize (X n); tauto.
Qed.

Print Assumptions C98_unique.
Print Assumptions C98_chance.
Print Assumptions C98_detailed_balance.
Print Assumptions C98_other_pair.
