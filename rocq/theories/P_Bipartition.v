(** Splitting a graph with a spanning tree (C53, C54) and the choice among
    cuts (C62). *)
From Coq Require Import String List Bool Arith ZArith QArith Qabs Lqa Lia ZifyBool ZifyNat Permutation Sorted.
From Verif Require Import Base M_Graph M_Partition S_Partition L_Partition M_Machine S_Machine L_Sums
  S_Contiguity L_Search M_Election L_Order M_Proposals M_Tree S_Tree S_TreeCuts L_Tree L_Kruskal
  P_Partition P_Contiguity P_Tree P_Spanning.
Import ListNotations.
Local Open Scope nat_scope.
Local Open Scope list_scope.

(** ** Specification of a split *)
Section Split.
  Context {N : Type} {EN : EqB N}.
  Definition outside (g : graph N) (s : list N) (x : N) : Prop := In x (g_nodes g) /\ ~ In x s.
  Definition popn (pop : dict N Z) (n : N) : Z := dget_or 0%Z pop n.
  (** [s] is a connected proper part of [g] with connected complement and
      balanced population; with [two_sided] the complement is balanced too. *)
  Record good_split (g : graph N) (pop : dict N Z) (target eps : Q) (two_sided : bool) (s : list N) : Prop := {
    gs_nodup : NoDup s;
    gs_incl : incl s (g_nodes g);
    gs_some : s <> [];
    gs_rest : exists x, outside g s x;
    gs_connected : connected_on g (fun x => In x s);
    gs_complement : connected_on g (outside g s);
    gs_balanced : balanced_set (popn pop) target eps (fun x => In x s);
    gs_both : two_sided = true -> balanced_set (popn pop) target eps (outside g s)
  }.
  Definition covers (pop : dict N Z) (g : graph N) : Prop :=
    NoDup (dkeys pop) /\ forall n, In n (dkeys pop) <-> In n (g_nodes g).
  (** A sampler of spanning trees. *)
  Definition samples (g : graph N) (tree : nat -> res (graph N)) : Prop := forall i T, tree i = Ok T -> spanning_tree g T.

  (** What is required of the search for balanced cuts; both searches of the
      library meet it. *)
  Definition cut_search (balance : @balance_fn N) : Prop :=
    forall h one_sided draw cuts c, cut_input h -> balance h one_sided draw = Ok cuts -> In c cuts ->
      exists u v, adj (h_tree h) u v /\ cut_off h c u v /\ side_balanced h u v /\ (one_sided = false -> side_balanced h v u).

  Lemma cut_off_adj (h : populated N) Pr cuts c u v : one_cut_for h Pr cuts -> In c cuts -> cut_off h c u v -> adj (h_tree h) u v.
  Proof. intros O Hc (E & _). now destruct (oc_sound _ _ _ O c u v Hc E). Qed.
  Theorem C53_memoization_search : cut_search find_cuts_memoization.
  Proof.
    intros h one_sided draw cuts c I E Hc.
    destruct (le_lt_dec 3 (List.length (g_nodes (h_tree h)))) as [L|L].
    - destruct one_sided.
      + destruct (C50_memoization_one_sided h I draw L) as (cuts' & E' & O & S). assert (cuts' = cuts) by congruence. subst cuts'.
        destruct (S c Hc) as (_ & u & v & Ho & Hb). exists u, v. split; [eapply cut_off_adj; eauto|]. split; auto. split; auto. discriminate.
      + destruct (C50_memoization_two_sided h I draw L) as (cuts' & E' & O & S). assert (cuts' = cuts) by congruence. subst cuts'.
        destruct (S c Hc) as (_ & u & v & Ho & Hb & Hb'). exists u, v. split; [eapply cut_off_adj; eauto|]. auto.
    - destruct (C60_small_trees h I one_sided draw) as [E' _]; [lia|congruence].
  Qed.
  Theorem C53_contraction_search : cut_search find_cuts_contraction.
  Proof.
    intros h one_sided draw cuts c I E Hc.
    destruct (le_lt_dec 3 (List.length (g_nodes (h_tree h)))) as [L|L].
    - destruct one_sided.
      + destruct (C51_contraction_one_sided h I draw L) as (cuts' & r & E' & _ & O & S). assert (cuts' = cuts) by congruence. subst cuts'.
        destruct (S c Hc) as (_ & u & v & Ho & x & Hx & Hb). exists u, v. split; [eapply cut_off_adj; eauto|]. split; auto.
        split; [|discriminate]. exists x. split; auto. unfold balanced. now apply Qlt_le_weak.
      + destruct (C51_contraction_two_sided h I draw L) as (cuts' & E' & O & S). assert (cuts' = cuts) by congruence. subst cuts'.
        destruct (S c Hc) as (_ & u & v & Ho & Hb & Hb'). exists u, v. split; [eapply cut_off_adj; eauto|]. auto.
    - destruct (C60_small_trees h I one_sided draw) as [_ E']; [lia|congruence].
  Qed.

  Lemma balanced_set_ext (pop : N -> Z) t e (A B : N -> Prop) : (forall x, A x <-> B x) -> balanced_set pop t e A -> balanced_set pop t e B.
  Proof. intros H (x & S & Bx). exists x. split; auto. eapply sums_to_ext; eauto. Qed.
  Lemma connected_on_ext (g : graph N) (A B : N -> Prop) : (forall x, A x <-> B x) -> connected_on g A -> connected_on g B.
  Proof.
    intros H C u v Hu Hv. eapply reach_weaken; [|apply C; now apply H]. cbn beta. intros a b (H1 & H2 & H3).
    split; auto. split; now apply H.
  Qed.
  Lemma connected_on_super (g T : graph N) (A : N -> Prop) : (forall u v, adj T u v -> adj g u v) -> connected_on T A -> connected_on g A.
  Proof. intros H C u v Hu Hv. eapply reach_weaken; [|apply C; auto]. cbn beta. intros a b (H1 & H2 & H3). auto. Qed.

  Lemma side_good (g T : graph N) pop target eps (wt : N * N -> Q) one_sided c u v : spanning_tree g T -> covers pop g ->
    let h := mkPopulated T pop target eps wt in
    adj T u v -> cut_off h c u v -> side_balanced h u v -> (one_sided = false -> side_balanced h v u) ->
    good_split g pop target eps (negb one_sided) (cut_subset c).
  Proof.
    intros (HT & HN & HA) [K1 K2] h A (Ec & ND & Is) B B'. cbn [h h_tree] in *.
    destruct (C50_sides T u v HT A) as (All & Dis & Con).
    destruct (C50_sides T v u HT (adj_sym _ _ _ A)) as (_ & _ & Con').
    assert (Out : forall x, outside g (cut_subset c) x <-> side T v u x).
    { intro x. unfold outside. rewrite <- HN, All, Is. specialize (Dis x). tauto. }
    constructor; auto.
    - intros x Hx. apply HN, All. left. now apply Is.
    - intro E. assert (H : In u (cut_subset c)) by (apply Is; constructor). rewrite E in H. destruct H.
    - exists v. apply Out. constructor.
    - eapply connected_on_super; [exact HA|]. eapply connected_on_ext; [|exact Con]. intro x. symmetry. apply Is.
    - eapply connected_on_super; [exact HA|]. eapply connected_on_ext; [|exact Con']. intro x. symmetry. apply Out.
    - eapply balanced_set_ext; [|exact B]. intro x. symmetry. apply Is.
    - intro E. apply negb_true_iff in E. eapply balanced_set_ext; [|exact (B' E)]. intro x. symmetry. apply Out.
  Qed.
  Lemma covers_input (g T : graph N) pop target eps wt : spanning_tree g T -> covers pop g ->
    cut_input (mkPopulated T pop target eps wt).
  Proof. intros (HT & HN & _) [K1 K2]. constructor; cbn; auto. intro n. now rewrite K2, HN. Qed.

  (** ** The loop over attempts *)
  Section Loop.
    Variables (tree : nat -> res (graph N)) (search : graph N -> nat -> res (list (cut N))).

    Lemma loop_sound (Good : graph N -> Prop) max k stop failure fuel : forall T drawn restarts attempts cuts,
      (forall i T, tree i = Ok T -> Good T) -> Good T ->
      attempt_loop tree search fuel max k stop failure T drawn restarts attempts = Ok cuts ->
      exists T' i, Good T' /\ search T' i = Ok cuts /\ stop cuts = true.
    Proof.
      induction fuel as [|fuel IH]; intros T drawn restarts attempts cuts Ht HT; cbn [attempt_loop].
      - destruct (match max with Some m => Nat.ltb attempts m | None => true end); discriminate.
      - destruct (match max with Some m => Nat.ltb attempts m | None => true end); [|discriminate].
        set (st := if Nat.eqb restarts k then _ else _).
        assert (Hst : forall p, st = Ok p -> Good (fst (fst p))).
        { intros [[T1 d1] r1] E. unfold st in E. cbn [fst]. destruct (Nat.eqb restarts k).
          - destruct (tree drawn) as [T2| |] eqn:E2; try discriminate. cbn [bind] in E. injection E as <- _ _. eauto.
          - congruence. }
        destruct st as [[[T1 d1] r1]| |]; try discriminate. cbn [bind]. specialize (Hst _ eq_refl). cbn [fst] in Hst.
        destruct (search T1 attempts) as [cs| |] eqn:Es; try discriminate. cbn [bind]. destruct (stop cs) eqn:Ec.
        + intro H. injection H as <-. eauto.
        + intro H. eapply IH; eauto.
    Qed.

    (** The tree used in attempt [i]: a new one after every [k] attempts. *)
    Variables (k : nat) (given : option (graph N)).
    Hypothesis Hk : 1 <= k.
    Definition used (i : nat) : res (graph N) :=
      match given with
      | Some T => if Nat.ltb i k then Ok T else tree (i / k - 1)
      | None => tree (i / k)
      end.
    Variables (Ts : nat -> graph N) (cs : nat -> list (cut N)).
    Hypothesis Hused : forall i, used i = Ok (Ts i).
    Hypothesis Hcs : forall i, search (Ts i) i = Ok (cs i).

    Fixpoint outcome (fuel : nat) (max : option nat) (stop : list (cut N) -> bool) (failure : exn) (i : nat) : res (list (cut N)) :=
      if match max with Some m => Nat.ltb i m | None => true end then
        match fuel with 0 => NoFuel | S f => if stop (cs i) then Ok (cs i) else outcome f max stop failure (S i) end
      else Err failure.
    Definition d0 := match given with Some _ => 0 | None => 1 end.
    Lemma used_block q j : j < k -> used (k * q + j) = used (k * q).
    Proof.
      intro Hj. unfold used.
      assert (D1 : (k * q + j) / k = q) by (rewrite Nat.mul_comm, Nat.div_add_l, Nat.div_small; lia).
      assert (D2 : (k * q) / k = q) by (rewrite Nat.mul_comm, Nat.div_mul; lia).
      rewrite D1, D2. destruct given; auto. destruct q as [|q].
      - rewrite Nat.mul_0_r. cbn [plus]. rewrite (proj2 (Nat.ltb_lt j k) Hj), (proj2 (Nat.ltb_lt 0 k)) by lia. reflexivity.
      - rewrite !(proj2 (Nat.ltb_ge _ k)) by nia. reflexivity.
    Qed.
    Lemma used_next q : tree (q + d0) = Ok (Ts (k * S q)).
    Proof.
      rewrite <- Hused. unfold used, d0.
      assert (D2 : (k * S q) / k = S q) by (rewrite Nat.mul_comm, Nat.div_mul; lia). rewrite D2. destruct given.
      - rewrite (proj2 (Nat.ltb_ge _ k)) by nia. f_equal. lia.
      - f_equal. lia.
    Qed.
    Lemma loop_outcome max stop failure fuel : forall T q restarts attempts,
      restarts <= k -> attempts = k * q + restarts -> (restarts < k -> T = Ts attempts) ->
      attempt_loop tree search fuel max k stop failure T (q + d0) restarts attempts = outcome fuel max stop failure attempts.
    Proof.
      induction fuel as [|fuel IH]; intros T q restarts attempts Hr Ha HT; cbn [attempt_loop outcome];
        destruct (match max with Some m => Nat.ltb attempts m | None => true end); auto.
      assert (Next : forall q' j, j < k -> attempts = k * q' + j ->
        (if stop (cs attempts) then Ok (cs attempts) else attempt_loop tree search fuel max k stop failure (Ts attempts) (q' + d0) (S j) (S attempts)) =
        (if stop (cs attempts) then Ok (cs attempts) else outcome fuel max stop failure (S attempts))).
      { intros q' j Hj Ea. destruct (stop (cs attempts)); auto. apply IH; [lia|lia|]. intro Hj'.
        assert (E : used attempts = used (S attempts)).
        { rewrite Ea. replace (S (k * q' + j)) with (k * q' + S j) by lia. rewrite !used_block by lia. reflexivity. }
        rewrite !Hused in E. congruence. }
      destruct (Nat.eqb_spec restarts k) as [E|E].
      - rewrite used_next. cbn [bind]. assert (Ea : attempts = k * S q + 0) by lia.
        assert (Et : Ts (k * S q) = Ts attempts) by (f_equal; lia). rewrite Et, Hcs. cbn [bind].
        rewrite <- (Next (S q) 0) by lia. reflexivity.
      - rewrite (HT ltac:(lia)). cbn [bind]. rewrite Hcs. cbn [bind]. apply (Next q restarts); lia.
    Qed.
    Lemma first_outcome max stop failure fuel :
      exists T, first_tree tree given = Ok (T, d0) /\
        attempt_loop tree search fuel max k stop failure T d0 0 0 = outcome fuel max stop failure 0.
    Proof.
      exists (Ts 0). split.
      - unfold first_tree, d0. assert (H := Hused 0). unfold used in H. destruct given.
        + rewrite (proj2 (Nat.ltb_lt 0 k)) in H by lia. congruence.
        + rewrite Nat.div_0_l in H by lia. rewrite H. reflexivity.
      - apply (loop_outcome max stop failure fuel (Ts 0) 0 0 0); lia || auto.
    Qed.
  End Loop.
    Lemma outcome_bounded (cs : nat -> list (cut N)) m stop failure fuel i : i <= m -> m <= i + fuel ->
      (exists j, i <= j < m /\ stop (cs j) = true /\ (forall j', i <= j' < j -> stop (cs j') = false) /\ outcome cs fuel (Some m) stop failure i = Ok (cs j)) \/
      ((forall j, i <= j < m -> stop (cs j) = false) /\ outcome cs fuel (Some m) stop failure i = Err failure).
    Proof.
      revert i. induction fuel as [|fuel IH]; intros i Hi Hf; cbn [outcome].
      - rewrite (proj2 (Nat.ltb_ge i m)) by lia. right. split; auto. lia.
      - destruct (Nat.ltb_spec i m) as [Him|Him]; [|right; split; auto; lia].
        destruct (stop (cs i)) eqn:E.
        + left. exists i. split; [lia|]. split; auto. split; auto. lia.
        + destruct (IH (S i)) as [(j & H1 & H2 & H3 & H4)|(H1 & H2)]; try lia.
          * left. exists j. split; [lia|]. split; auto. split; auto. intros j' Hj'. destruct (Nat.eq_dec j' i) as [->|]; auto. apply H3. lia.
          * right. split; auto. intros j Hj. destruct (Nat.eq_dec j i) as [->|]; auto. apply H1. lia.
    Qed.
    Lemma outcome_unbounded (cs : nat -> list (cut N)) stop failure fuel i : (forall j, i <= j < i + fuel -> stop (cs j) = false) -> outcome cs fuel None stop failure i = NoFuel.
    Proof.
      revert i. induction fuel as [|fuel IH]; intros i H; cbn [outcome]; auto. rewrite (H i) by lia. apply IH. intros. apply H. lia.
    Qed.

  Lemma first_tree_good (tree : nat -> res (graph N)) given g p : samples g tree -> (forall T, given = Some T -> spanning_tree g T) ->
    first_tree tree given = Ok p -> spanning_tree g (fst p).
  Proof.
    unfold first_tree. intros S G H. destruct given as [T|].
    - injection H as <-. auto.
    - destruct (tree 0) eqn:E; try discriminate. cbn [bind] in H. injection H as <-. eapply S; eauto.
  Qed.

  (** bipartition_tree returns a good split, for every sampler of spanning
      trees, every cut search and every cut choice. *)
  Theorem C53_sound balance tree g pop target eps one_sided weights draws fuel max k reselect given pick s :
    cut_search balance -> samples g tree -> (forall T, given = Some T -> spanning_tree g T) -> covers pop g ->
    (forall cuts c, pick cuts = Ok c -> In c cuts) ->
    bipartition_tree_call balance tree pop target eps one_sided weights draws fuel max k reselect given pick = Ok s ->
    good_split g pop target eps (negb one_sided) s.
  Proof.
    intros Bal Smp Giv Cov Pick H. unfold bipartition_tree_call, bipartition_tree in H.
    destruct (first_tree tree given) as [p| |] eqn:Ef; try discriminate. cbn [bind] in H.
    destruct (attempt_loop _ _ _ _ _ _ _ _ _ _ _) as [cuts| |] eqn:El; try discriminate. cbn [bind] in H.
    destruct (pick cuts) as [c| |] eqn:Ep; try discriminate. cbn [bind] in H. injection H as <-.
    destruct (loop_sound tree _ (spanning_tree g) _ _ _ _ _ _ _ _ _ _ Smp (first_tree_good _ _ _ _ Smp Giv Ef) El) as (T & i & HT & Es & _).
    apply Pick in Ep. destruct (Bal _ _ _ _ _ (covers_input g T pop target eps (weights i) HT Cov) Es Ep) as (u & v & A & O & B & B').
    eapply side_good; eauto.
  Qed.
  Theorem C54_sound balance tree g pop target eps one_sided weights draws fuel max k rep given draw s :
    cut_search balance -> samples g tree -> (forall T, given = Some T -> spanning_tree g T) -> covers pop g ->
    bipartition_tree_random_call balance tree pop target eps one_sided weights draws fuel max k rep given draw = Ok (Some s) ->
    good_split g pop target eps false s.
  Proof.
    intros Bal Smp Giv Cov H. unfold bipartition_tree_random_call, bipartition_tree_random, bipartition_tree_random_all in H.
    destruct (first_tree tree given) as [p| |] eqn:Ef; try discriminate. cbn [bind] in H.
    destruct (attempt_loop _ _ _ _ _ _ _ _ _ _ _) as [cuts| |] eqn:El; try discriminate. cbn [bind] in H.
    destruct cuts as [|c0 cuts]; [discriminate|].
    destruct (choice draw (c0 :: cuts)) as [c| |] eqn:Ep; try discriminate. cbn [bind] in H. injection H as <-.
    destruct (loop_sound tree _ (spanning_tree g) _ _ _ _ _ _ _ _ _ _ Smp (first_tree_good _ _ _ _ Smp Giv Ef) El) as (T & i & HT & Es & _).
    apply choice_In in Ep. destruct (Bal _ _ _ _ _ (covers_input g T pop target eps (weights i) HT Cov) Es Ep) as (u & v & A & O & B & B').
    eapply (side_good g T pop target eps (weights i) true); eauto.
  Qed.
  (** The argument one_sided_cut makes no difference. *)
  Theorem C54_always_one_sided balance (tree : nat -> res (graph N)) pop target eps b b' weights draws fuel max k rep given draw :
    bipartition_tree_random_call balance tree pop target eps b weights draws fuel max k rep given draw =
    bipartition_tree_random_call balance tree pop target eps b' weights draws fuel max k rep given draw.
  Proof. reflexivity. Qed.

  (** A tree offers a cut when it has an edge with both sides (one-sided: some
      side) balanced. *)
  Definition offers (T : graph N) pop target eps (one_sided : bool) : Prop :=
    exists u v, adj T u v /\
      let b x y := balanced_set (popn pop) target eps (side T x y) in
      if one_sided then b u v \/ b v u else b u v /\ b v u.
  Lemma memo_offers (T : graph N) pop target eps wt one_sided draw : cut_input (mkPopulated T pop target eps wt) -> 3 <= List.length (g_nodes T) ->
    exists cuts, find_cuts_memoization (mkPopulated T pop target eps wt) one_sided draw = Ok cuts /\
      (cuts <> [] <-> offers T pop target eps one_sided).
  Proof.
    intros I L. set (h := mkPopulated T pop target eps wt) in *.
    assert (X : forall Pr cuts, one_cut_for h Pr cuts -> (cuts <> [] <-> exists u v, adj T u v /\ Pr u v)).
    { intros Pr cuts O. split.
      - intro NE. destruct cuts as [|c cuts]; [congruence|]. destruct (cut_edge c) as [u v] eqn:E.
        destruct (oc_sound _ _ _ O c u v (or_introl eq_refl) (or_introl E)) as [A [P|P]]; [exists u, v; auto|].
        exists v, u. split; auto. now apply adj_sym.
      - intros (u & v & A & P) ->. destruct (oc_complete _ _ _ O u v A P) as (c & [] & _). }
    destruct one_sided.
    - destruct (C50_memoization_one_sided h I draw L) as (cuts & E & O & _). exists cuts. split; auto. apply (X _ _ O).
    - destruct (C50_memoization_two_sided h I draw L) as (cuts & E & O & _). exists cuts. split; auto. apply (X _ _ O).
  Qed.

  (** With a sampler that never fails, at most [m] attempts are made (attempt
      [i] uses the tree number i/k): the call succeeds iff one of those trees
      offers a cut, and otherwise raises ReselectException if pair reselection
      is allowed and RuntimeError if not. *)
  Theorem C53_attempts tree g pop target eps one_sided weights draws fuel m k reselect given pick (Ts : nat -> graph N) :
    samples g tree -> (forall T, given = Some T -> spanning_tree g T) -> covers pop g ->
    3 <= List.length (g_nodes g) -> wf_graph g -> 1 <= k -> m <= fuel ->
    (forall i, used tree k given i = Ok (Ts i)) ->
    (forall cuts, cuts <> [] -> exists c, pick cuts = Ok c /\ In c cuts) ->
    let call := bipartition_tree_call find_cuts_memoization tree pop target eps one_sided weights draws fuel (Some m) k reselect given pick in
    ((exists i, i < m /\ offers (Ts i) pop target eps one_sided) <-> exists s, call = Ok s) /\
    ((forall i, i < m -> ~ offers (Ts i) pop target eps one_sided) <->
     call = Err (if reselect then ReselectException else RuntimeError)).
  Proof.
    intros Smp Giv Cov L3 WF Hk Hf Hu Pick call.
    assert (HT : forall i, spanning_tree g (Ts i)).
    { intro i. specialize (Hu i). unfold used in Hu. destruct given as [T0|]; [|eapply Smp; eauto].
      destruct (Nat.ltb i k); [|eapply Smp; eauto]. injection Hu as <-. auto. }
    assert (Len : forall i, 3 <= List.length (g_nodes (Ts i))).
    { intro i. destruct (HT i) as (Tr & HN & _). replace (List.length (g_nodes (Ts i))) with (List.length (g_nodes g)); auto.
      apply Permutation_length, NoDup_Permutation; [apply (wfg_nodes g WF)|apply (wfg_nodes _ (tree_wf _ Tr))|]. intro x. now rewrite HN. }
    set (search := fun T i => find_cuts_memoization (mkPopulated T pop target eps (weights i)) one_sided (draws i)).
    assert (Cut : forall i, exists cuts, search (Ts i) i = Ok cuts /\ (cuts <> [] <-> offers (Ts i) pop target eps one_sided)).
    { intro i. apply memo_offers; auto. eapply covers_input; eauto. }
    set (cs := fun i => match search (Ts i) i with Ok c => c | _ => [] end).
    assert (Hcs : forall i, search (Ts i) i = Ok (cs i)).
    { intro i. destruct (Cut i) as (c & E & _). unfold cs. now rewrite E. }
    assert (Off : forall i, some_cut (cs i) = true <-> offers (Ts i) pop target eps one_sided).
    { intro i. destruct (Cut i) as (c & E & I). rewrite <- I. rewrite Hcs in E. injection E as ->. unfold some_cut.
      destruct c; cbn; split; try congruence; auto. }
    destruct (first_outcome tree search k given Hk Ts cs Hu Hcs (Some m) some_cut (if reselect then ReselectException else RuntimeError) fuel) as (T & E1 & E2).
    assert (Call : call = (cuts <- outcome cs fuel (Some m) some_cut (if reselect then ReselectException else RuntimeError) 0 ;; c <- pick cuts ;; Ok (cut_subset c))).
    { unfold call, bipartition_tree_call, bipartition_tree. rewrite E1. cbn [bind fst snd]. fold search. rewrite E2. reflexivity. }
    destruct (outcome_bounded cs m some_cut (if reselect then ReselectException else RuntimeError) fuel 0) as [(j & Hj & Sj & Bef & Eo)|(None_ & Eo)]; [lia|lia| |].
    - destruct (Pick (cs j)) as (c & Ec & _); [intro E; rewrite E in Sj; discriminate|].
      rewrite Eo in Call. cbn [bind] in Call. rewrite Ec in Call. cbn [bind] in Call. rewrite Call.
      assert (Hj' : j < m) by lia. split; split.
      + intros _. eauto.
      + intros _. exists j. split; auto. now apply Off.
      + intro H. elim (H j Hj'). now apply Off.
      + discriminate.
    - rewrite Eo in Call. cbn [bind] in Call. rewrite Call. split; split.
      + intros (i & Hi & Ho). apply Off in Ho. rewrite None_ in Ho by lia. discriminate.
      + intros (s & Hs). discriminate.
      + reflexivity.
      + intros _ i Hi Ho. apply Off in Ho. rewrite None_ in Ho by lia. discriminate.
  Qed.
  (** With max_attempts=None it never returns when no tree offers a cut. *)
  Theorem C53_unbounded tree g pop target eps one_sided weights draws k reselect given pick (Ts : nat -> graph N) :
    samples g tree -> (forall T, given = Some T -> spanning_tree g T) -> covers pop g ->
    3 <= List.length (g_nodes g) -> wf_graph g -> 1 <= k ->
    (forall i, used tree k given i = Ok (Ts i)) ->
    (forall i, ~ offers (Ts i) pop target eps one_sided) ->
    forall fuel, bipartition_tree_call find_cuts_memoization tree pop target eps one_sided weights draws fuel None k reselect given pick = NoFuel.
  Proof.
    intros Smp Giv Cov L3 WF Hk Hu No fuel.
    assert (HT : forall i, spanning_tree g (Ts i)).
    { intro i. specialize (Hu i). unfold used in Hu. destruct given as [T0|]; [|eapply Smp; eauto].
      destruct (Nat.ltb i k); [|eapply Smp; eauto]. injection Hu as <-. auto. }
    assert (Len : forall i, 3 <= List.length (g_nodes (Ts i))).
    { intro i. destruct (HT i) as (Tr & HN & _). replace (List.length (g_nodes (Ts i))) with (List.length (g_nodes g)); auto.
      apply Permutation_length, NoDup_Permutation; [apply (wfg_nodes g WF)|apply (wfg_nodes _ (tree_wf _ Tr))|]. intro x. now rewrite HN. }
    set (search := fun T i => find_cuts_memoization (mkPopulated T pop target eps (weights i)) one_sided (draws i)).
    assert (Hcs : forall i, search (Ts i) i = Ok []).
    { intro i. destruct (memo_offers (Ts i) pop target eps (weights i) one_sided (draws i)) as (cuts & E & I); auto.
      { eapply covers_input; eauto. }
      destruct cuts as [|c cuts]; [exact E|]. elim (No i). apply I. discriminate. }
    destruct (first_outcome tree search k given Hk Ts (fun _ => []) Hu Hcs None some_cut (if reselect then ReselectException else RuntimeError) fuel) as (T & E1 & E2).
    unfold bipartition_tree_call, bipartition_tree. rewrite E1. cbn [bind fst snd]. fold search. rewrite E2, outcome_unbounded by reflexivity. reflexivity.
  Qed.
  Lemma attempts_setup tree g pop target eps one_sided weights draws k given (Ts : nat -> graph N) :
    samples g tree -> (forall T, given = Some T -> spanning_tree g T) -> covers pop g ->
    3 <= List.length (g_nodes g) -> wf_graph g ->
    (forall i, used tree k given i = Ok (Ts i)) ->
    exists cs : nat -> list (cut N),
      (forall i, find_cuts_memoization (mkPopulated (Ts i) pop target eps (weights i)) one_sided (draws i) = Ok (cs i)) /\
      (forall i, some_cut (cs i) = true <-> offers (Ts i) pop target eps one_sided).
  Proof.
    intros Smp Giv Cov L3 WF Hu.
    assert (HT : forall i, spanning_tree g (Ts i)).
    { intro i. specialize (Hu i). unfold used in Hu. destruct given as [T0|]; [|eapply Smp; eauto].
      destruct (Nat.ltb i k); [|eapply Smp; eauto]. injection Hu as <-. auto. }
    assert (Len : forall i, 3 <= List.length (g_nodes (Ts i))).
    { intro i. destruct (HT i) as (Tr & HN & _). replace (List.length (g_nodes (Ts i))) with (List.length (g_nodes g)); auto.
      apply Permutation_length, NoDup_Permutation; [apply (wfg_nodes g WF)|apply (wfg_nodes _ (tree_wf _ Tr))|]. intro x. now rewrite HN. }
    set (search := fun T i => find_cuts_memoization (mkPopulated T pop target eps (weights i)) one_sided (draws i)).
    assert (Cut : forall i, exists cuts, search (Ts i) i = Ok cuts /\ (cuts <> [] <-> offers (Ts i) pop target eps one_sided)).
    { intro i. apply memo_offers; auto. eapply covers_input; eauto. }
    set (cs := fun i => match search (Ts i) i with Ok c => c | _ => [] end).
    assert (Hcs : forall i, search (Ts i) i = Ok (cs i)).
    { intro i. destruct (Cut i) as (c & E & _). unfold cs. now rewrite E. }
    exists cs. split; [exact Hcs|].
    intro i. destruct (Cut i) as (c & E & I). rewrite <- I. rewrite Hcs in E. injection E as ->. unfold some_cut.
    destruct c; cbn; split; try congruence; auto.
  Qed.
  (** bipartition_tree_random succeeds iff one of the attempted trees has an
      edge with some balanced side, and otherwise raises RuntimeError. *)
  Theorem C54_attempts tree g pop target eps one_sided weights draws fuel m k given draw (Ts : nat -> graph N) :
    samples g tree -> (forall T, given = Some T -> spanning_tree g T) -> covers pop g ->
    3 <= List.length (g_nodes g) -> wf_graph g -> 1 <= k -> m <= fuel ->
    (forall i, used tree k given i = Ok (Ts i)) ->
    let call := bipartition_tree_random_call find_cuts_memoization tree pop target eps one_sided weights draws fuel (Some m) k true given draw in
    ((exists i, i < m /\ offers (Ts i) pop target eps true) <-> exists s, call = Ok (Some s)) /\
    ((forall i, i < m -> ~ offers (Ts i) pop target eps true) <-> call = Err RuntimeError).
  Proof.
    intros Smp Giv Cov L3 WF Hk Hf Hu call.
    destruct (attempts_setup tree g pop target eps true weights draws k given Ts Smp Giv Cov L3 WF Hu) as (cs & Hcs & Off).
    set (search := fun T i => find_cuts_memoization (mkPopulated T pop target eps (weights i)) true (draws i)).
    set (stop := fun cuts : list (cut N) => negb true || some_cut cuts).
    destruct (first_outcome tree search k given Hk Ts cs Hu Hcs (Some m) stop RuntimeError fuel) as (T & E1 & E2).
    assert (Call : call = (cuts <- outcome cs fuel (Some m) stop RuntimeError 0 ;;
      match cuts with [] => Ok None | _ => c <- choice draw cuts ;; Ok (Some (cut_subset c)) end)).
    { unfold call, bipartition_tree_random_call, bipartition_tree_random, bipartition_tree_random_all. rewrite E1. cbn [bind fst snd].
      fold search. fold stop. rewrite E2. reflexivity. }
    destruct (outcome_bounded cs m stop RuntimeError fuel 0) as [(j & Hj & Sj & Bef & Eo)|(None_ & Eo)]; [lia|lia| |].
    - unfold stop in Sj. cbn [negb orb] in Sj. rewrite Eo in Call. cbn [bind] in Call.
      destruct (cs j) as [|c0 l] eqn:Ecj; [discriminate|].
      destruct (choice_nonempty draw (c0 :: l)) as (c & Ec); [discriminate|]. rewrite Ec in Call. cbn [bind] in Call. rewrite Call.
      assert (Hj' : j < m) by lia. rewrite <- Ecj in Sj. split; split.
      + intros _. eauto.
      + intros _. exists j. split; auto. now apply Off.
      + intro H. elim (H j Hj'). now apply Off.
      + discriminate.
    - unfold stop in None_. cbn [negb orb] in None_. rewrite Eo in Call. cbn [bind] in Call. rewrite Call. split; split.
      + intros (i & Hi & Ho). apply Off in Ho. rewrite None_ in Ho by lia. discriminate.
      + intros (s & Hs). discriminate.
      + reflexivity.
      + intros _ i Hi Ho. apply Off in Ho. rewrite None_ in Ho by lia. discriminate.
  Qed.
  (** With repeat_until_valid=False only the first tree is tried, and None is
      returned exactly when it offers no cut. *)
  Theorem C54_single_try tree g pop target eps one_sided weights draws fuel m k given draw (Ts : nat -> graph N) :
    samples g tree -> (forall T, given = Some T -> spanning_tree g T) -> covers pop g ->
    3 <= List.length (g_nodes g) -> wf_graph g -> 1 <= k -> 1 <= m -> 1 <= fuel ->
    (forall i, used tree k given i = Ok (Ts i)) ->
    let call := bipartition_tree_random_call find_cuts_memoization tree pop target eps one_sided weights draws fuel (Some m) k false given draw in
    (offers (Ts 0) pop target eps true <-> exists s, call = Ok (Some s)) /\
    (~ offers (Ts 0) pop target eps true <-> call = Ok None).
  Proof.
    intros Smp Giv Cov L3 WF Hk Hm Hf Hu call.
    destruct (attempts_setup tree g pop target eps true weights draws k given Ts Smp Giv Cov L3 WF Hu) as (cs & Hcs & Off).
    set (search := fun T i => find_cuts_memoization (mkPopulated T pop target eps (weights i)) true (draws i)).
    set (stop := fun cuts : list (cut N) => negb false || some_cut cuts).
    destruct (first_outcome tree search k given Hk Ts cs Hu Hcs (Some m) stop RuntimeError fuel) as (T & E1 & E2).
    assert (Call : call = match cs 0 with [] => Ok None | _ => c <- choice draw (cs 0) ;; Ok (Some (cut_subset c)) end).
    { unfold call, bipartition_tree_random_call, bipartition_tree_random, bipartition_tree_random_all. rewrite E1. cbn [bind fst snd].
      fold search. fold stop. rewrite E2. destruct fuel as [|fuel]; [lia|]. cbn [outcome].
      rewrite (proj2 (Nat.ltb_lt 0 m)) by lia. reflexivity. }
    specialize (Off 0). rewrite Call. unfold some_cut in Off. destruct (cs 0) as [|c0 l].
    - cbn in Off. assert (No : ~ offers (Ts 0) pop target eps true) by (intro H; apply Off in H; discriminate).
      split; split; auto; try tauto. intros (s & Hs). discriminate.
    - assert (Yes : offers (Ts 0) pop target eps true) by (apply Off; reflexivity).
      destruct (choice_nonempty draw (c0 :: l)) as (c & Ec); [discriminate|]. rewrite Ec. cbn [bind].
      split; split; eauto; try tauto. discriminate.
  Qed.
End Split.

(** ** Choosing a cut *)
Section Choice.
  Context {N L : Type} {EN : EqB N} {EL : EqB L}.

  (** A cut of maximal weight in a list. *)
  Definition heaviest (cuts : list (cut N)) (c : cut N) : Prop :=
    In c cuts /\ forall c', In c' cuts -> (cut_weight c' <= cut_weight c)%Q.
  Lemma max_from_spec l : forall b : cut N, heaviest (b :: l) (max_from b l).
  Proof.
    induction l as [|c l IH]; intro b; cbn [max_from].
    - split; [now left|]. intros c' [<-|[]]. apply Qle_refl.
    - set (b' := if qlt (cut_weight b) (cut_weight c) then c else b).
      assert (Hb : (cut_weight b <= cut_weight b')%Q /\ (cut_weight c <= cut_weight b')%Q /\ (b' = b \/ b' = c)).
      { unfold b'. destruct (qlt (cut_weight b) (cut_weight c)) eqn:E.
        - apply qlt_spec in E. split; [lra|]. split; [lra|auto].
        - split; [lra|]. split; [|auto]. destruct (Qlt_le_dec (cut_weight b) (cut_weight c)) as [H|H]; [apply qlt_spec in H; congruence|lra]. }
      destruct (IH b') as [I M]. split.
      + destruct I as [<-|I]; [|simpl; auto]. destruct Hb as (_ & _ & [-> | ->]); simpl; auto.
      + intros c' [<-|[<-|Hc]].
        * eapply Qle_trans; [apply Hb|]. apply M. now left.
        * eapply Qle_trans; [apply Hb|]. apply M. now left.
        * apply M. now right.
  Qed.
  Theorem C62_max_weight (cuts : list (cut N)) : cuts <> [] -> exists c, max_weight_choice cuts = Ok c /\ heaviest cuts c.
  Proof. destruct cuts as [|c l]; [congruence|]. intros _. eexists. split; [reflexivity|]. apply max_from_spec. Qed.

  (** ** Combinations of region columns *)
  Lemma In_combinations {X} k : forall (l s : list X), In s (combinations k l) -> incl s l /\ List.length s = k /\ (NoDup l -> NoDup s).
  Proof.
    intros l. revert k. induction l as [|x l IH]; intros k s; destruct k; cbn [combinations].
    - intros [<-|[]]. split; [intros y []|]. split; auto.
    - intros [].
    - intros [<-|[]]. split; [intros y []|]. split; auto. constructor.
    - intro H. apply in_app_iff in H. destruct H as [H|H].
      + apply in_map_iff in H. destruct H as (t & <- & H). apply IH in H. destruct H as (H1 & H2 & H3). split; [|split].
        * intros y [<-|Hy]; [now left|]. right. now apply H1.
        * cbn [List.length]. now f_equal.
        * intro ND. inversion ND; subst. constructor; auto.
      + apply IH in H. destruct H as (H1 & H2 & H3). split; [|split]; auto.
        * intros y Hy. right. now apply H1.
        * intro ND. inversion ND; auto.
  Qed.
  Lemma filter_combination {X} (f : X -> bool) l : In (filter f l) (combinations (List.length (filter f l)) l).
  Proof.
    induction l as [|x l IH]; [now left|]. cbn [filter]. destruct (f x).
    - cbn [List.length combinations]. apply in_app_iff. left. now apply in_map.
    - destruct (filter f l) as [|y s] eqn:E; [now left|]. cbn [List.length combinations] in *. apply in_app_iff. right. exact IH.
  Qed.

  (** [s] is less important than [t]: fewer regions, or as many with a smaller
      or equal total surcharge. *)
  Definition less_important (d : dict string Q) (s t : list string) : Prop :=
    List.length s < List.length t \/
    (List.length s = List.length t /\ (qsum (map (dget_or 0%Q d) s) <= qsum (map (dget_or 0%Q d) t))%Q).
  Lemma ranks_below_spec d s t : ranks_below d s t = true <-> less_important d s t.
  Proof.
    unfold ranks_below, less_important, surcharge_of. rewrite orb_true_iff, andb_true_iff, Nat.ltb_lt, Nat.eqb_eq, Qle_bool_iff. tauto.
  Qed.
  Lemma ranks_total d s t : ranks_below d s t = false -> ranks_below d t s = true.
  Proof.
    intro H. apply ranks_below_spec. unfold less_important. destruct (lt_eq_lt_dec (List.length s) (List.length t)) as [[H1|H1]|H1].
    - assert (X : ranks_below d s t = true) by (apply ranks_below_spec; left; exact H1). congruence.
    - right. split; auto. destruct (Qlt_le_dec (surcharge_of d t) (surcharge_of d s)) as [Q|Q]; [unfold surcharge_of in Q; lra|].
      assert (X : ranks_below d s t = true) by (apply ranks_below_spec; right; split; auto). congruence.
    - left. exact H1.
  Qed.
  Lemma less_trans d s t r : less_important d s t -> less_important d t r -> less_important d s r.
  Proof. unfold less_important. intros [H1|[H1 Q1]] [H2|[H2 Q2]]; [left; lia|left; lia|left; lia|right]. split; [lia|]. eapply Qle_trans; eauto. Qed.
  Definition desc d (s t : list string) : Prop := less_important d t s.
  Lemma insert_combo_perm d s l : Permutation (insert_combo d s l) (s :: l).
  Proof. induction l as [|t l IH]; simpl; auto. destruct (ranks_below d t s); auto. rewrite IH. constructor. Qed.
  Lemma insert_combo_sorted d s l : StronglySorted (desc d) l -> StronglySorted (desc d) (insert_combo d s l).
  Proof.
    induction 1 as [|t l HS IH HF]; simpl; [repeat constructor|]. destruct (ranks_below d t s) eqn:E.
    - apply ranks_below_spec in E. constructor; [constructor; auto|]. constructor; auto.
      eapply Forall_impl; [|exact HF]. intros a Ha. unfold desc in *. eapply less_trans; eauto.
    - apply ranks_total, ranks_below_spec in E. constructor; auto. apply Forall_forall. intros x Hx.
      apply (Permutation_in _ (insert_combo_perm d s l)) in Hx. destruct Hx as [<-|Hx]; [exact E|]. rewrite Forall_forall in HF. auto.
  Qed.
  Lemma power_set_perm d : Permutation (power_set_sorted d) (flat_map (fun i => combinations i (dkeys d)) (seq 1 (List.length d))).
  Proof.
    unfold power_set_sorted. induction (flat_map (fun i => combinations i (dkeys d)) (seq 1 (List.length d))) as [|s l IH]; simpl; auto.
    rewrite insert_combo_perm. now constructor.
  Qed.
  Lemma power_set_sorted_ok d : StronglySorted (desc d) (power_set_sorted d).
  Proof.
    unfold power_set_sorted. induction (flat_map (fun i => combinations i (dkeys d)) (seq 1 (List.length d))) as [|s l IH]; simpl; [constructor|].
    now apply insert_combo_sorted.
  Qed.
  Lemma power_set_In d s : NoDup (dkeys d) -> s <> [] -> NoDup s -> incl s (dkeys d) ->
    exists t, In t (power_set_sorted d) /\ Permutation s t.
  Proof.
    intros NDk NE ND I. set (t := filter (fun x => mem x s) (dkeys d)).
    assert (P : Permutation s t).
    { apply NoDup_Permutation; auto; [now apply NoDup_filter|]. intro x. unfold t. rewrite filter_In, mem_In. split; [intro H; auto|tauto]. }
    exists t. split; auto. apply (Permutation_in _ (Permutation_sym (power_set_perm d))). apply in_flat_map.
    exists (List.length t). split; [|apply filter_combination]. apply in_seq.
    apply Permutation_length in P.
    assert (List.length s <> 0) by (destruct s; simpl; congruence).
    assert (List.length s <= List.length (dkeys d)) by now apply NoDup_incl_length.
    unfold dkeys in *. rewrite map_length in *. lia.
  Qed.
  Lemma In_power_set d s : In s (power_set_sorted d) -> s <> [] /\ incl s (dkeys d) /\ (NoDup (dkeys d) -> NoDup s).
  Proof.
    intro H. apply (Permutation_in _ (power_set_perm d)) in H. apply in_flat_map in H. destruct H as (k & Hk & H).
    apply in_seq in Hk. apply In_combinations in H. destruct H as (H1 & H2 & H3). split; [|split]; auto. intros ->. simpl in H2. lia.
  Qed.

  Variable region : string -> N -> option L.
  (** The ends of the cut's edge lie in different regions, for every column in
      [s]. *)
  Definition crosses (c : cut N) (s : list string) : Prop :=
    forall key, In key s -> region key (fst (cut_edge c)) <> region key (snd (cut_edge c)).
  Lemma crosses_spec c s : forallb (separates region c) s = true <-> crosses c s.
  Proof.
    rewrite forallb_forall. unfold separates, crosses. split; intros H key Hk; specialize (H key Hk).
    - apply negb_true_iff in H. apply eqb_neq. exact H.
    - apply negb_true_iff. now apply eqb_neq.
  Qed.
  Lemma first_suitable_spec cuts combos : cuts <> [] ->
    exists c, first_suitable region cuts combos = Ok c /\
      ((exists pre s post, combos = pre ++ s :: post /\ (forall t, In t pre -> forall c', In c' cuts -> ~ crosses c' t) /\
          crosses c s /\ In c cuts /\ (forall c', In c' cuts -> crosses c' s -> (cut_weight c' <= cut_weight c)%Q)) \/
       ((forall t, In t combos -> forall c', In c' cuts -> ~ crosses c' t) /\ heaviest cuts c)).
  Proof.
    intro NE. induction combos as [|s combos IH]; cbn [first_suitable].
    - destruct (C62_max_weight cuts NE) as (c & E & H). exists c. split; [exact E|]. right. split; [|exact H]. intros t [].
    - destruct (filter (fun c => forallb (separates region c) s) cuts) as [|c0 l] eqn:F.
      + assert (No : forall c', In c' cuts -> ~ crosses c' s).
        { intros c' Hc X. assert (I : In c' (filter (fun c => forallb (separates region c) s) cuts)) by (apply filter_In; split; auto; now apply crosses_spec).
          rewrite F in I. destruct I. }
        destruct IH as (c & E & [(pre & s' & post & -> & Pre & R)|(All & H)]); exists c; split; auto.
        * left. exists (s :: pre), s', post. split; auto. split; auto. intros t [<-|Ht]; auto.
        * right. split; auto. intros t [<-|Ht]; auto.
      + destruct (C62_max_weight (c0 :: l)) as (c & E & I & M); [discriminate|]. exists c. split; [exact E|]. left. exists [], s, combos.
        split; [reflexivity|]. split; [intros t []|]. rewrite <- F in I, M. apply filter_In in I. destruct I as [I1 I2]. split; [now apply crosses_spec|].
        split; auto. intros c' Hc X. apply M. apply filter_In. split; auto. now apply crosses_spec.
  Qed.
  Lemma sorted_app_first {X} (R : X -> X -> Prop) pre s post : StronglySorted R (pre ++ s :: post) -> forall t, In t post -> R s t.
  Proof.
    induction pre as [|a pre IH]; cbn [app]; intro H; inversion H as [|? ? H1 H2]; subst; [now apply Forall_forall|auto].
  Qed.

  (** With one to three region columns the chosen cut is the heaviest of those
      that cross a most important combination of columns; if no cut crosses
      any column it is the heaviest of all. *)
  Theorem C62_region_preferred (d : dict string Q) draw cuts : NoDup (dkeys d) -> 1 <= List.length d <= 3 -> cuts <> [] ->
    exists c, region_preferred_choice region (Some d) draw cuts = Ok c /\ In c cuts /\
      ((exists s, s <> [] /\ NoDup s /\ incl s (dkeys d) /\ crosses c s /\
          (forall c', In c' cuts -> crosses c' s -> (cut_weight c' <= cut_weight c)%Q) /\
          (forall c' s', In c' cuts -> s' <> [] -> NoDup s' -> incl s' (dkeys d) -> crosses c' s' -> less_important d s' s)) \/
       ((forall c' key, In c' cuts -> In key (dkeys d) -> ~ crosses c' [key]) /\ heaviest cuts c)).
  Proof.
    intros NDk Ld NE. unfold region_preferred_choice. destruct cuts as [|c0 l] eqn:Ecs; [congruence|]. rewrite <- Ecs in *.
    rewrite (proj2 (Nat.ltb_ge (List.length d) 1)), (proj2 (Nat.ltb_ge 3 (List.length d))) by lia. cbn [orb].
    destruct (first_suitable_spec cuts (power_set_sorted d) NE) as (c & E & [(pre & s & post & Ep & Pre & X & I & M)|(All & H)]); exists c; split; auto.
    - split; auto. left. assert (Hs : In s (power_set_sorted d)) by (rewrite Ep; apply in_app_iff; right; now left).
      apply In_power_set in Hs. destruct Hs as (S1 & S2 & S3). exists s. split; auto. split; auto. split; auto. split; auto. split; auto.
      intros c' s' Hc' N1 N2 I' X'. destruct (power_set_In d s' NDk N1 N2 I') as (t & Ht & P).
      assert (Xt : crosses c' t) by (intros key Hk; apply X'; eapply Permutation_in; [apply Permutation_sym; exact P|exact Hk]).
      assert (Lt : less_important d t s).
      { rewrite Ep in Ht. apply in_app_iff in Ht. destruct Ht as [Ht|[<-|Ht]].
        - elim (Pre t Ht c' Hc' Xt).
        - right. split; auto. apply Qle_refl.
        - assert (So := power_set_sorted_ok d). rewrite Ep in So. exact (sorted_app_first _ _ _ _ So t Ht). }
      unfold less_important in *. rewrite (Permutation_length P). assert (Qp := qsum_perm _ _ (Permutation_map (dget_or 0%Q d) P)).
      destruct Lt as [Lt|[Lt Q]]; auto. right. split; auto. rewrite Qp. exact Q.
    - split; [apply H|]. right. split; auto. intros c' key Hc Hk X.
      destruct (power_set_In d [key] NDk) as (t & Ht & P); [discriminate|repeat constructor; intros []|intros x [<-|[]]; exact Hk|].
      apply (All t Ht c' Hc). intros k' Hk'. apply X. eapply Permutation_in; [apply Permutation_sym; exact P|exact Hk'].
  Qed.
  (** With no column or more than three the heaviest cut is taken; without a
      dictionary any cut may be chosen. *)
  Theorem C62_no_regions (d : dict string Q) draw cuts : List.length d = 0 \/ 3 < List.length d -> cuts <> [] ->
    region_preferred_choice region (Some d) draw cuts = max_weight_choice cuts.
  Proof.
    intros H NE. unfold region_preferred_choice. destruct cuts; [congruence|].
    replace (Nat.ltb (List.length d) 1 || Nat.ltb 3 (List.length d)) with true; auto. symmetry.
    apply orb_true_iff. rewrite !Nat.ltb_lt. lia.
  Qed.
  Theorem C62_no_surcharge cuts : cuts <> [] ->
    (forall draw, exists c, region_preferred_choice region None draw cuts = Ok c /\ In c cuts) /\
    (forall c, In c cuts -> exists draw, region_preferred_choice region None draw cuts = Ok c).
  Proof.
    intro NE. split.
    - intro draw. destruct (choice_nonempty draw cuts NE) as (c & E). exists c. split; auto. eapply choice_In; eauto.
    - intros c Hc. apply In_nth_error in Hc. destruct Hc as (i & Hi). exists i. cbn [region_preferred_choice]. unfold choice.
      rewrite Nat.mod_small by (apply nth_error_Some; congruence). now rewrite Hi.
  Qed.
End Choice.

(** ** Examples and refutations *)
Definition square : graph nat := mkGraph [0; 1; 2; 3] [(0, 1); (1, 2); (2, 3); (0, 3)].
Lemma path_spans_square : spanning_tree square (path_tree 4).
Proof.
  split; [apply is_connected_tree; [wfg|reflexivity|vm_compute; reflexivity]|]. split; [intro n; reflexivity|].
  intros u v [H|H]; [left|right]; cbn in *; tauto.
Qed.
Lemma square_wf : wf_graph square. Proof. wfg. Qed.
Lemma square_covers : covers (flat_pop 4 4) square.
Proof. split; [nodup|]. intro n. cbn. tauto. Qed.
(** The hypotheses of C53 and C54 hold for the 4-cycle split along a path. *)
Example C53_nonvacuous :
  samples square (fun _ => Ok (path_tree 4)) /\ covers (flat_pop 4 4) square /\ wf_graph square /\
  (forall i, used (fun _ => Ok (path_tree 4)) 2 None i = Ok (path_tree 4)) /\
  bipartition_tree_call find_cuts_memoization (fun _ => Ok (path_tree 4)) (flat_pop 4 4) 8 0 false
    (fun _ _ => 0%Q) (fun i => i) 5 (Some 5) 2 true None max_weight_choice = Ok [0; 1] /\
  bipartition_tree_call find_cuts_memoization (fun _ => Ok (path_tree 4)) (flat_pop 4 4) 6 (1 # 4) false
    (fun _ _ => 0%Q) (fun i => i) 5 (Some 5) 2 true None max_weight_choice = Err ReselectException.
Proof.
  split; [intros i T H; injection H as <-; exact path_spans_square|]. split; [exact square_covers|]. split; [exact square_wf|].
  split; [reflexivity|]. split; vm_compute; reflexivity.
Qed.
(** bipartition_tree_random with one_sided_cut=False can return a set whose
    complement is out of tolerance, although the same tree has a cut with both
    sides in tolerance, which bipartition_tree finds. *)
Theorem C54_complement_refuted :
  exists (g : graph nat) tree pop target eps weights draws draw s,
    wf_graph g /\ samples g tree /\ covers pop g /\
    bipartition_tree_random_call find_cuts_memoization tree pop target eps false weights draws 1 (Some 1) 1 true None draw = Ok (Some s) /\
    ~ good_split g pop target eps true s /\
    exists s', bipartition_tree_call find_cuts_memoization tree pop target eps false weights draws 1 (Some 1) 1 false None max_weight_choice = Ok s' /\
      good_split g pop target eps true s'.
Proof.
  exists square, (fun _ => Ok (path_tree 4)), (flat_pop 4 4), 10%Q, (1 # 5), (fun _ _ => 0%Q), (fun i => i), 0, [0; 1; 2].
  assert (Sm : samples square (fun _ => Ok (path_tree 4))) by (intros i T H; injection H as <-; exact path_spans_square).
  split; [exact square_wf|]. split; [exact Sm|]. split; [exact square_covers|].
  split; [vm_compute; reflexivity|]. split.
  - intro G. destruct (gs_both _ _ _ _ _ _ G eq_refl) as (x & (l & ND & I & E) & B).
    assert (P : Permutation l [3]).
    { apply NoDup_Permutation; auto; [repeat constructor; intros []|]. intro y. rewrite I. unfold outside. cbn. split.
      - intros [[<-|[<-|[<-|[<-|[]]]]] Hn]; tauto.
      - intros [<-|[]]. split; [tauto|]. intros [H|[H|[H|[]]]]; discriminate. }
    apply Permutation_sym, Permutation_length_1_inv in P. subst l. cbn in E. subst x. unfold balanced in B. vm_compute in B. now apply B.
  - eexists. split; [vm_compute; reflexivity|].
    eapply (C53_sound find_cuts_memoization (fun _ => Ok (path_tree 4)) square (flat_pop 4 4) 10 (1 # 5) false (fun _ _ => 0%Q) (fun i => i) 1 (Some 1) 1 false None max_weight_choice).
    + apply C53_memoization_search.
    + exact Sm.
    + discriminate.
    + exact square_covers.
    + intros cuts c H. destruct cuts as [|c0 l]; [discriminate|]. destruct (C62_max_weight (c0 :: l)) as (c' & E & I & _); [discriminate|]. congruence.
    + vm_compute. reflexivity.
Qed.
(** Non-vacuity of the choice of cuts: the lighter cut is preferred because it
    crosses both columns. *)
Definition ex_cuts : list (cut nat) := [mkCut (0, 1) (9 # 10) [0]; mkCut (1, 2) (1 # 10) [0; 1]; mkCut (2, 3) (2 # 10) [0; 1; 2]].
Definition ex_columns (key : string) (n : nat) : option nat :=
  if eqb key "county"%string then Some (if Nat.leb n 1 then 0 else 1) else Some (if Nat.leb n 1 then 0 else if Nat.leb n 2 then 1 else 2).
Example C62_nonvacuous :
  let d := [("county"%string, 1%Q); ("town"%string, 2%Q)] in
  region_preferred_choice ex_columns (Some d) 0 ex_cuts = Ok (mkCut (1, 2) (1 # 10) [0; 1]) /\
  region_preferred_choice ex_columns (Some [("county"%string, 1%Q)]) 0 (firstn 1 ex_cuts) = Ok (mkCut (0, 1) (9 # 10) [0]) /\
  max_weight_choice ex_cuts = Ok (mkCut (0, 1) (9 # 10) [0]) /\
  NoDup (dkeys d) /\ 1 <= List.length d <= 3.
Proof. cbn zeta. split; [vm_compute; reflexivity|]. split; [vm_compute; reflexivity|]. split; [vm_compute; reflexivity|]. split; [nodup|cbn; lia]. Qed.

Print Assumptions C53_memoization_search.
Print Assumptions C53_contraction_search.
Print Assumptions C53_sound.
Print Assumptions C53_attempts.
Print Assumptions C53_unbounded.
Print Assumptions C54_sound.
Print Assumptions C54_always_one_sided.
Print Assumptions C54_attempts.
Print Assumptions C54_single_try.
Print Assumptions C54_complement_refuted.
Print Assumptions C62_max_weight.
Print Assumptions C62_region_preferred.
Print Assumptions C62_no_regions.
Print Assumptions C62_no_surcharge.
