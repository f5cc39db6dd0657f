(** Balanced cuts of spanning trees (C50, C51, C60). *)
From Coq Require Import List Bool Arith ZArith QArith Qabs Lqa Lia ZifyBool ZifyNat Permutation.
From Verif Require Import Base M_Graph M_Partition S_Partition L_Partition M_Machine S_Machine L_Sums
  S_Contiguity L_Search M_Election M_Proposals M_Tree S_Tree S_TreeCuts L_Tree L_TreeCuts L_Contract L_Order
  P_Partition P_Contiguity.
Import ListNotations.
Local Open Scope nat_scope.

Section Root.
  Context {N : Type} {EN : EqB N}.

  Lemma choice_In {X} draw (l : list X) x : choice draw l = Ok x -> In x l.
  Proof. unfold choice. destruct (nth_error l _) eqn:E; [|discriminate]. intro H. injection H as <-. eapply nth_error_In; eauto. Qed.
  Lemma choice_nonempty {X} draw (l : list X) : l <> [] -> exists x, choice draw l = Ok x.
  Proof.
    intro H. unfold choice. destruct (nth_error l (draw mod List.length l)) eqn:E; [eexists; reflexivity|].
    apply nth_error_None in E. assert (List.length l <> 0) by (destruct l; simpl; congruence).
    assert (draw mod List.length l < List.length l) by now apply Nat.mod_upper_bound. lia.
  Qed.
  Lemma choice_empty {X} draw : choice draw (@nil X) = Err IndexError.
  Proof. unfold choice. now destruct (draw mod _). Qed.

  Lemma tree_has_node (T : graph N) : is_tree T -> exists n, In n (g_nodes T).
  Proof. intro H. assert (L := tree_size T H). destruct (g_nodes T) as [|n l]; [discriminate|]. exists n. now left. Qed.

  Lemma inner_node (T : graph N) : is_tree T -> 3 <= List.length (g_nodes T) ->
    exists x, In x (g_nodes T) /\ 1 < degree T x.
  Proof.
    intros HT L3. destruct (tree_has_node T HT) as (r & Hr).
    destruct (bfs_tree T r HT Hr) as (gs & _ & So & _). set (es := flatten gs) in *.
    assert (R := so_rooted _ _ _ So). assert (WF := tree_wf T HT).
    destruct (existsb (fun x => Nat.ltb 1 (degree T x)) (g_nodes T)) eqn:E.
    - apply existsb_exists in E. destruct E as (x & Hx & Hd). exists x. split; auto. now apply Nat.ltb_lt.
    - exfalso.
      assert (A : forall x, In x (g_nodes T) -> degree T x <= 1).
      { intros x Hx. destruct (Nat.ltb 1 (degree T x)) eqn:D; [|apply Nat.ltb_ge in D; exact D].
        assert (existsb (fun x => Nat.ltb 1 (degree T x)) (g_nodes T) = true) by (apply existsb_exists; eauto). congruence. }
      assert (Dr := A r Hr). rewrite (degree_kids T r es r WF So Hr), eqb_refl in Dr.
      assert (Sp := sub_split r es r R). rewrite (sub_all r es R) in Sp.
      assert (Len : List.length (nodes_of r es) = List.length (g_nodes T)).
      { apply Permutation_length, NoDup_Permutation; [apply rooted_nodup, R|apply wfg_nodes, WF|apply (so_nodes _ _ _ So)]. }
      apply Permutation_length in Sp. rewrite Len in Sp.
      destruct (kids es r) as [|k [|k' l]] eqn:K; cbn [List.length flat_map] in *; try lia.
      rewrite app_nil_r in Sp.
      assert (Hk : In (r, k) es) by (apply In_kids; rewrite K; now left).
      assert (Hkn : In k (g_nodes T)) by (apply (so_nodes _ _ _ So); right; apply (parent_in r es r k R Hk)).
      assert (Dk := A k Hkn). rewrite (degree_kids T r es k WF So Hkn) in Dk.
      assert (Hkr : k <> r) by apply (parent_in r es r k R Hk).
      rewrite (proj2 (eqb_neq k r) Hkr) in Dk.
      assert (Sk := Permutation_length (sub_split r es k R)). destruct (kids es k); simpl in *; lia.
  Qed.
  Lemma pick_root_ok (h : populated N) draw : is_tree (h_tree h) -> 3 <= List.length (g_nodes (h_tree h)) ->
    exists r, pick_root draw h = Ok r /\ In r (g_nodes (h_tree h)) /\ 1 < degree (h_tree h) r.
  Proof.
    intros HT L3. destruct (inner_node _ HT L3) as (x & Hx & Hd).
    destruct (choice_nonempty draw (filter (fun x => Nat.ltb 1 (degree (h_tree h) x)) (g_nodes (h_tree h)))) as (r & Er).
    - intro H. assert (Hi : In x (filter (fun x => Nat.ltb 1 (degree (h_tree h) x)) (g_nodes (h_tree h)))).
      { apply filter_In. split; auto. now apply Nat.ltb_lt. }
      rewrite H in Hi. destruct Hi.
    - exists r. split; [exact Er|]. apply choice_In in Er. apply filter_In in Er. split; [tauto|]. apply Nat.ltb_lt. tauto.
  Qed.
  Lemma pick_root_small (h : populated N) draw : is_tree (h_tree h) -> List.length (g_nodes (h_tree h)) <= 2 ->
    pick_root draw h = Err IndexError.
  Proof.
    intros HT L2. unfold pick_root. set (T := h_tree h) in *. rewrite (filter_none _ (g_nodes T)); [apply choice_empty|].
    intros x Hx. apply Nat.ltb_ge. unfold degree.
    destruct (bfs_tree T x HT Hx) as (gs & _ & So & _). assert (WF := tree_wf T HT).
    assert (I : List.length (x :: neighbors T x) <= List.length (g_nodes T)).
    { apply NoDup_incl_length.
      - constructor; [|now apply NoDup_neighbors]. intro H. apply In_neighbors in H. eapply search_loopless; eauto.
      - intros y [<-|Hy]; auto. apply In_neighbors in Hy. eapply adj_nodes; eauto. }
    simpl in I. lia.
  Qed.
End Root.

Section Cuts.
  Context {N : Type} {EN : EqB N}.

  (** The two sides of a tree edge: every node is on exactly one of them, and
      each side is connected. *)
  Theorem C50_sides (T : graph N) u v : is_tree T -> adj T u v ->
    (forall x, In x (g_nodes T) <-> side T u v x \/ side T v u x) /\
    (forall x, ~ (side T u v x /\ side T v u x)) /\
    connected_on T (side T u v).
  Proof.
    intros HT A. assert (WF := tree_wf T HT). destruct (adj_nodes T u v WF A) as [Hu Hv].
    destruct (bfs_tree T u HT Hu) as (gs & _ & So & _). set (es := flatten gs) in *.
    assert (R := so_rooted _ _ _ So).
    assert (He : In (u, v) es).
    { destruct (so_all _ _ _ So u v A) as [H|H]; auto. apply (parent_in u es v u R) in H. tauto. }
    assert (Ab := fun x => side_above T u es u v x So He). assert (Be := fun x => side_below T u es u v x So He).
    split; [|split].
    - intro x. rewrite <- Ab, <- Be. split.
      + intro Hx. destruct (In_dec_of x (sub es v)); auto.
      + intros [[H _]|H]; auto. apply (so_nodes _ _ _ So). destruct (sub_in u es v x R H) as [->|H']; [|now right].
        right. now destruct (parent_in u es u v R He).
    - intros x [H1 H2]. apply Ab in H1. apply Be in H2. tauto.
    - intros a b Ha Hb.
      assert (In_side : forall x, side T u v x -> reach (fun a b => adj T a b /\ side T u v a /\ side T u v b) u x).
      { intros x Hx. induction Hx as [|x y Hx IH Hxy]; [constructor|]. eapply reach_step; [exact IH|].
        split; [apply Hxy|]. split; [exact Hx|]. eapply reach_step; eauto. }
      eapply reach_trans; [|apply In_side; exact Hb].
      apply reach_sym; [|apply In_side; exact Ha]. intros x y (H1 & H2 & H3). split; auto. now apply adj_sym.
  Qed.

  Variable h : populated N.
  Hypothesis In_h : cut_input h.

  Lemma memo_runs one_sided draw : 3 <= List.length (g_nodes (h_tree h)) ->
    exists r es cuts, find_cuts_memoization h one_sided draw = Ok cuts /\ search_of (h_tree h) r es /\
      found h es (memo_keep h es one_sided) (map snd es) (memo_sel h es one_sided) cuts.
  Proof.
    intro L3. assert (HT := ci_tree h In_h). destruct (pick_root_ok h draw HT L3) as (r & Er & Hr & _).
    destruct (bfs_tree (h_tree h) r HT Hr) as (gs & Eb & So & NDg & new & gs' & ->).
    destruct (memo_found h r (flatten ((r, new) :: gs')) In_h So one_sided (successors r (flatten ((r, new) :: gs')))) as (pops & css & Ep & Em & F).
    { intro x. now apply succ_spec. }
    exists r, (flatten ((r, new) :: gs')), (concat css). split; [|auto].
    unfold find_cuts_memoization. rewrite Er. cbn [bind]. rewrite Eb. cbn [bind]. cbv zeta. rewrite Ep. cbn [bind]. rewrite Em. reflexivity.
  Qed.
  Lemma contract_runs one_sided draw : 3 <= List.length (g_nodes (h_tree h)) ->
    exists r es cuts, pick_root draw h = Ok r /\ 1 < degree (h_tree h) r /\
      find_cuts_contraction h one_sided draw = Ok cuts /\ search_of (h_tree h) r es /\
      found h es (cont_keep h one_sided es) (map snd es) (fun y x => In x (sub es y)) cuts.
  Proof.
    intro L3. assert (HT := ci_tree h In_h). destruct (pick_root_ok h draw HT L3) as (r & Er & Hr & Hd).
    destruct (bfs_tree (h_tree h) r HT Hr) as (gs & Eb & So & _). set (es := flatten gs) in *.
    destruct (inv_loop h one_sided r es So Hd (S (List.length (g_nodes (h_tree h)))) [] _ (inv_start h one_sided r es In_h So Hd)) as (cuts & Ec & F).
    { assert (Len : List.length (nodes_of r es) = List.length (g_nodes (h_tree h))).
      { apply Permutation_length, NoDup_Permutation; [apply rooted_nodup, (so_rooted _ _ _ So)|apply wfg_nodes, (tree_wf _ HT)|apply (so_nodes _ _ _ So)]. }
      unfold nodes_of in Len. simpl in *. lia. }
    exists r, es, cuts. split; auto. split; auto. split; auto.
    unfold find_cuts_contraction. rewrite Er. cbn [bind]. rewrite Eb. cbn [bind]. exact Ec.
  Qed.

  (** Memoization, two-sided: one cut for exactly the edges that leave both
      sides balanced; the subset of a cut is one side of its edge. *)
  Theorem C50_memoization_two_sided draw : 3 <= List.length (g_nodes (h_tree h)) ->
    exists cuts, find_cuts_memoization h false draw = Ok cuts /\
      one_cut_for h (both_balanced h) cuts /\
      forall c, In c cuts -> cut_weight c = h_weight h (cut_edge c) /\
        exists u v, cut_off h c u v /\ both_balanced h u v.
  Proof.
    intro L3. destruct (memo_runs false draw L3) as (r & es & cuts & E & So & F). exists cuts. split; auto.
    assert (Keep : forall p y, In (p, y) es -> memo_keep h es false y = true <-> both_balanced h y p).
    { intros p y He. unfold memo_keep, both_balanced. rewrite andb_true_iff.
      rewrite (below_balanced h r es So p y He), (above_balanced h r es In_h So p y He). tauto. }
    split.
    - eapply found_one_cut; [exact So|exact F|]. intros p y He. rewrite (Keep p y He). unfold both_balanced. tauto.
    - intros c Hc. destruct (fo_sound _ _ _ _ _ _ F c Hc) as (p & y & He & _ & K & Ec & Wc & ND & Is).
      rewrite Ec. split; auto. exists p, y. split; [|apply (Keep p y He) in K; unfold both_balanced in *; tauto].
      split; [right; exact Ec|]. split; auto. intro x. rewrite Is. unfold memo_sel. cbn [andb].
      apply (side_above _ r es p y x So He).
  Qed.
  (** One-sided: one cut for exactly the edges with a balanced side; the
      subset of a cut is a balanced side. *)
  Theorem C50_memoization_one_sided draw : 3 <= List.length (g_nodes (h_tree h)) ->
    exists cuts, find_cuts_memoization h true draw = Ok cuts /\
      one_cut_for h (some_balanced h) cuts /\
      forall c, In c cuts -> cut_weight c = h_weight h (cut_edge c) /\
        exists u v, cut_off h c u v /\ side_balanced h u v.
  Proof.
    intro L3. destruct (memo_runs true draw L3) as (r & es & cuts & E & So & F). exists cuts. split; auto.
    split.
    - eapply found_one_cut; [exact So|exact F|]. intros p y He. unfold memo_keep, some_balanced. rewrite orb_true_iff.
      rewrite (below_balanced h r es So p y He), (above_balanced h r es In_h So p y He). tauto.
    - intros c Hc. destruct (fo_sound _ _ _ _ _ _ F c Hc) as (p & y & He & _ & K & Ec & Wc & ND & Is).
      rewrite Ec. split; auto. unfold memo_keep in K. unfold memo_sel in Is. cbn [andb] in Is.
      destruct (within (h_ideal h) (h_eps h) (W es (h_pop h) y)) eqn:B.
      + exists y, p. split; [|now apply (below_balanced h r es So p y He)].
        split; [left; exact Ec|]. split; auto. intro x. rewrite Is. apply (side_below _ r es p y x So He).
      + exists p, y. split; [|now apply (above_balanced h r es In_h So p y He)].
        split; [right; exact Ec|]. split; auto. intro x. rewrite Is. apply (side_above _ r es p y x So He).
  Qed.

  (** Contraction, two-sided: the same specification. *)
  Theorem C51_contraction_two_sided draw : 3 <= List.length (g_nodes (h_tree h)) ->
    exists cuts, find_cuts_contraction h false draw = Ok cuts /\
      one_cut_for h (both_balanced h) cuts /\
      forall c, In c cuts -> cut_weight c = h_weight h (cut_edge c) /\
        exists u v, cut_off h c u v /\ both_balanced h u v.
  Proof.
    intro L3. destruct (contract_runs false draw L3) as (r & es & cuts & _ & _ & E & So & F). exists cuts. split; auto.
    assert (Keep : forall p y, In (p, y) es -> cont_keep h false es y = true <-> both_balanced h y p).
    { intros p y He. unfold cont_keep, has_ideal_population, both_balanced. rewrite andb_true_iff.
      rewrite (below_balanced h r es So p y He), (above_balanced h r es In_h So p y He). tauto. }
    split.
    - eapply found_one_cut; [exact So|exact F|]. intros p y He. rewrite (Keep p y He). unfold both_balanced. tauto.
    - intros c Hc. destruct (fo_sound _ _ _ _ _ _ F c Hc) as (p & y & He & _ & K & Ec & Wc & ND & Is).
      rewrite Ec. split; auto. exists y, p. split; [|now apply (Keep p y He)].
      split; [left; exact Ec|]. split; auto. intro x. rewrite Is. apply (side_below _ r es p y x So He).
  Qed.
  (** Hence both searches cut the same edges, whatever the roots. *)
  Theorem C51_same_edges draw draw' : 3 <= List.length (g_nodes (h_tree h)) ->
    exists cuts cuts', find_cuts_contraction h false draw = Ok cuts /\ find_cuts_memoization h false draw' = Ok cuts' /\
      forall u v, (exists c, In c cuts /\ cuts_edge c u v) <-> (exists c, In c cuts' /\ cuts_edge c u v).
  Proof.
    intro L3. destruct (C51_contraction_two_sided draw L3) as (cuts & E & O & _).
    destruct (C50_memoization_two_sided draw' L3) as (cuts' & E' & O' & _).
    exists cuts, cuts'. split; auto. split; auto.
    assert (Sym : forall u v, both_balanced h u v \/ both_balanced h v u -> both_balanced h u v) by (unfold both_balanced; tauto).
    intros u v. split; intros (c & Hc & Hu).
    - destruct (oc_sound _ _ _ O c u v Hc Hu) as [A B]. apply (oc_complete _ _ _ O'); auto.
    - destruct (oc_sound _ _ _ O' c u v Hc Hu) as [A B]. apply (oc_complete _ _ _ O); auto.
  Qed.
  (** Contraction, one-sided: only the side away from the root is looked at,
      and equality is excluded. *)
  Theorem C51_contraction_one_sided draw : 3 <= List.length (g_nodes (h_tree h)) ->
    exists cuts r, find_cuts_contraction h true draw = Ok cuts /\ pick_root draw h = Ok r /\
      one_cut_for h (fun u v => side_strictly_balanced h u v /\ ~ side (h_tree h) u v r) cuts /\
      forall c, In c cuts -> cut_weight c = h_weight h (cut_edge c) /\
        exists u v, cut_off h c u v /\ side_strictly_balanced h u v.
  Proof.
    intro L3. destruct (contract_runs true draw L3) as (r & es & cuts & Er & Hd & E & So & F). exists cuts, r. split; auto. split; auto.
    assert (R := so_rooted _ _ _ So).
    assert (Strict : forall p y, In (p, y) es -> cont_keep h true es y = true <-> side_strictly_balanced h y p).
    { intros p y He. unfold cont_keep, has_ideal_population, strictly_within. rewrite qlt_spec.
      assert (S := below_sum h r es So p y He). split.
      - intro B. exists (W es (h_pop h) y). split; auto. rewrite (Qmult_comm (h_ideal h)). exact B.
      - intros (x & S' & B). rewrite (sums_to_fun _ _ _ _ S S'). rewrite (Qmult_comm (h_eps h)). exact B. }
    assert (Root : forall p y, In (p, y) es -> ~ side (h_tree h) y p r /\ side (h_tree h) p y r).
    { intros p y He.
      assert (Hn : ~ In r (sub es y)).
      { intro H. destruct (sub_in r es y r R H) as [->|H'].
        - apply (parent_in _ es p y R) in He. tauto.
        - assert (ND' := rooted_nodup r es R). inversion ND'; subst. contradiction. }
      split.
      - intro H. apply (side_below _ r es p y r So He) in H. contradiction.
      - apply (side_above _ r es p y r So He). split; auto. apply (so_nodes _ _ _ So). now left. }
    split.
    - eapply found_one_cut; [exact So|exact F|]. intros p y He. cbn beta. rewrite (Strict p y He). destruct (Root p y He). tauto.
    - intros c Hc. destruct (fo_sound _ _ _ _ _ _ F c Hc) as (p & y & He & _ & K & Ec & Wc & ND & Is).
      rewrite Ec. split; auto. exists y, p. split; [|now apply (Strict p y He)].
      split; [left; exact Ec|]. split; auto. intro x. rewrite Is. apply (side_below _ r es p y x So He).
  Qed.

  (** Trees with at most two nodes. *)
  Theorem C60_small_trees one_sided draw : List.length (g_nodes (h_tree h)) <= 2 ->
    find_cuts_memoization h one_sided draw = Err IndexError /\
    find_cuts_contraction h one_sided draw = Err IndexError.
  Proof.
    intro L2. assert (P := pick_root_small h draw (ci_tree h In_h) L2).
    unfold find_cuts_memoization, find_cuts_contraction. now rewrite P.
  Qed.
  Theorem C60_root_choice draw : 3 <= List.length (g_nodes (h_tree h)) ->
    exists r, pick_root draw h = Ok r /\ In r (g_nodes (h_tree h)) /\ 1 < degree (h_tree h) r.
  Proof. apply pick_root_ok, (ci_tree h In_h). Qed.
End Cuts.

(** ** Examples *)

Definition path_tree (n : nat) : graph nat := mkGraph (seq 0 n) (map (fun i => (i, S i)) (seq 0 (n - 1))).
Definition flat_pop (n : nat) (x : Z) : dict nat Z := map (fun i => (i, x)) (seq 0 n).
Definition ex_h (n : nat) (x : Z) (t e : Q) : populated nat :=
  mkPopulated (path_tree n) (flat_pop n x) t e (fun _ => 0%Q).
Lemma is_connected_tree (T : graph nat) : wf_graph T -> S (List.length (g_edges T)) = List.length (g_nodes T) ->
  is_connected T = Ok true -> is_tree T.
Proof.
  intros WF L C. constructor; auto. intros u v Hu Hv.
  assert (Sp := is_connected_spec T WF). destruct (g_nodes T) as [|n l] eqn:E; [destruct Hu|].
  destruct Sp as (b & Eb & Ib). assert (b = true) by congruence. subst b. apply (proj1 Ib eq_refl u v); auto.
Qed.
Ltac ci := constructor; cbn;
  [apply is_connected_tree; [wfg|reflexivity|vm_compute; reflexivity]|nodup|intro; tauto].

(** Non-vacuity: the path on 4 nodes with populations 4, target 8. *)
Example C50_nonvacuous : cut_input (ex_h 4 4 8 0) /\ 3 <= List.length (g_nodes (h_tree (ex_h 4 4 8 0))) /\
  (exists c, find_cuts_memoization (ex_h 4 4 8 0) false 0 = Ok [c] /\ cut_edge c = (2, 1) /\ cut_subset c = [0; 1]) /\
  both_balanced (ex_h 4 4 8 0) 1 2 /\ ~ both_balanced (ex_h 4 4 8 0) 0 1.
Proof.
  assert (I : cut_input (ex_h 4 4 8 0)) by ci.
  assert (L3 : 3 <= List.length (g_nodes (h_tree (ex_h 4 4 8 0)))) by (cbn; lia).
  split; auto. split; auto. split; [eexists; split; [vm_compute; reflexivity|split; reflexivity]|].
  destruct (C50_memoization_two_sided _ I 0 L3) as (cuts & E & O & _).
  assert (Ec : find_cuts_memoization (ex_h 4 4 8 0) false 0 = Ok [mkCut (2, 1) 0%Q [0; 1]]) by (vm_compute; reflexivity).
  assert (cuts = [mkCut (2, 1) 0%Q [0; 1]]) by congruence. subst cuts. split.
  - destruct (oc_sound _ _ _ O _ 1 2 (or_introl eq_refl)) as [_ B]; [right; reflexivity|]. unfold both_balanced in *. tauto.
  - intro B. destruct (oc_complete _ _ _ O 0 1) as (c & [<-|[]] & [H|H]); auto; try discriminate. left. cbn. auto.
Qed.

(** In one-sided mode the two searches disagree: on the path on 3 nodes with
    populations 1 and target 2, contraction finds nothing (it does not look at
    the root's side), memoization two cuts. *)
Theorem C51_one_sided_same_edges_refuted :
  exists h : populated nat, cut_input h /\ 3 <= List.length (g_nodes (h_tree h)) /\
    forall draw, find_cuts_contraction h true draw = Ok [] /\
      exists c c', find_cuts_memoization h true draw = Ok [c; c'].
Proof.
  exists (ex_h 3 1 2 (1 # 4)). split; [ci|]. split; [cbn; lia|]. intro draw.
  assert (P : pick_root draw (ex_h 3 1 2 (1 # 4)) = Ok 1).
  { unfold pick_root, choice. change (filter _ _) with [1]. cbn [List.length]. now rewrite Nat.mod_1_r. }
  unfold find_cuts_contraction, find_cuts_memoization. rewrite P. cbn [bind].
  split; [vm_compute; reflexivity|]. eexists _, _. vm_compute. reflexivity.
Qed.
(** The same on a cut exactly at the tolerance, with the balanced side away
    from the root: path on 3 nodes, target 1, tolerance 0. *)
Theorem C51_one_sided_equality_refuted :
  exists h : populated nat, cut_input h /\ 3 <= List.length (g_nodes (h_tree h)) /\
    side_balanced h 0 1 /\ forall draw, find_cuts_contraction h true draw = Ok [].
Proof.
  exists (ex_h 3 1 1 0). split; [ci|]. split; [cbn; lia|]. split.
  - exists 1%Z. split; [|unfold balanced; vm_compute; discriminate].
    exists [0]. split; [nodup|]. split; [|reflexivity]. intro y.
    assert (T : is_tree (path_tree 3)) by (apply is_connected_tree; [wfg|reflexivity|vm_compute; reflexivity]).
    split.
    + intros [<-|[]]. constructor.
    + intro H. left. induction H as [|a b Ha IH (Hab & H1 & H2)]; auto. exfalso. rewrite <- IH in *.
      unfold adj in Hab. cbn in Hab. destruct Hab as [[H|[H|[]]]|[H|[H|[]]]]; try discriminate. injection H as <-. tauto.
  - intro draw.
    assert (P : pick_root draw (ex_h 3 1 1 0) = Ok 1).
    { unfold pick_root, choice. change (filter _ _) with [1]. cbn [List.length]. now rewrite Nat.mod_1_r. }
    unfold find_cuts_contraction. rewrite P. cbn [bind]. vm_compute. reflexivity.
Qed.
(** Non-vacuity of the contraction theorem and of the small trees. *)
Example C51_nonvacuous : exists c, find_cuts_contraction (ex_h 4 4 8 0) false 1 = Ok [c] /\ cut_edge c = (1, 2).
Proof. eexists. split; vm_compute; reflexivity. Qed.
Example C60_nonvacuous : cut_input (ex_h 2 4 4 0) /\ List.length (g_nodes (h_tree (ex_h 2 4 4 0))) <= 2 /\
  both_balanced (ex_h 2 4 4 0) 0 1.
Proof.
  split; [ci|]. split; [cbn; lia|].
  assert (B : forall x y, (x = 0 /\ y = 1 \/ x = 1 /\ y = 0) -> side_balanced (ex_h 2 4 4 0) x y).
  { intros x y Hxy. exists 4%Z. split; [|unfold balanced; vm_compute; discriminate].
    exists [x]. split; [nodup|]. split; [|destruct Hxy as [[-> ->]|[-> ->]]; reflexivity]. intro z. split.
    - intros [<-|[]]. constructor.
    - intro H. left. induction H as [|a b Ha IH (Hab & H1 & H2)]; auto. exfalso.
      unfold adj in Hab. cbn in Hab. destruct Hab as [[H|[]]|[H|[]]]; injection H as <- <-; destruct Hxy as [[-> ->]|[-> ->]]; try discriminate; tauto. }
  split; apply B; auto.
Qed.

Print Assumptions C50_sides.
Print Assumptions C50_memoization_two_sided.
Print Assumptions C50_memoization_one_sided.
Print Assumptions C51_contraction_two_sided.
Print Assumptions C51_same_edges.
Print Assumptions C51_contraction_one_sided.
Print Assumptions C51_one_sided_same_edges_refuted.
Print Assumptions C51_one_sided_equality_refuted.
Print Assumptions C60_small_trees.
Print Assumptions C60_root_choice.
