(** C48: reversible_recom. *)
From Coq Require Import String List Bool Arith ZArith QArith Qabs Lqa Lia ZifyBool ZifyNat.
From Verif Require Import Base M_Graph M_Partition S_Partition L_Partition M_Machine S_Machine L_Sums
  L_Cuts L_Machine L_Answers S_Contiguity L_Search P_Partition P_Machine M_Election L_Order M_Proposals S_Proposals
  M_Tree S_Tree S_TreeCuts L_Tree P_Tree P_Contiguity P_Spanning P_Proposals P_Bipartition M_Recursive P_Recursive M_Recom P_Recom.
Import ListNotations.
Local Open Scope nat_scope.
Local Open Scope list_scope.

Section Reversible.
  Context {N P V L : Type} {EN : EqB N} {EP : EqB P} {EL : EqB L} {ON : Ord N} {RV : CRing V}.
  Variable E : env N P V L.
  Notation g := (e_graph E).
  Variable pop : dict N Z.
  Hypothesis Hpop : covers pop g.
  Variables (balance : @balance_fn N) (tree : graph N -> nat -> res (graph N)) (t e : Q)
            (weights : nat -> N * N -> Q) (draws : nat -> nat) (fuel : nat) (max : option nat) (repeat : bool) (bound : nat).

  Definition found (nodes : list N) : res (list (cut N)) :=
    search_cuts E pop tree t e weights draws fuel max repeat balance nodes.
  (** The bound only turns a result with too many cuts into an error. *)
  Lemma bounded_search nodes :
    search_cuts E pop tree t e weights draws fuel max repeat (bounded bound balance) nodes =
    match found nodes with
    | Ok cuts => if Nat.ltb bound (List.length cuts) then Err ReversibilityError else Ok cuts
    | r => r
    end.
  Proof.
    unfold found, search_cuts, bipartition_tree_random_all. destruct (first_tree (tree (subgraph g nodes)) None) as [[T d]| |]; [|reflexivity|reflexivity].
    cbn [bind fst snd]. assert (X : forall T d k r,
      attempt_loop (tree (subgraph g nodes)) (fun T i => bounded bound balance (mkPopulated T (restrict pop nodes) t e (weights i)) false (draws i))
        fuel max 1 (fun cuts => negb repeat || some_cut cuts) RuntimeError T d k r =
      match attempt_loop (tree (subgraph g nodes)) (fun T i => balance (mkPopulated T (restrict pop nodes) t e (weights i)) false (draws i))
        fuel max 1 (fun cuts => negb repeat || some_cut cuts) RuntimeError T d k r with
      | Ok cuts => if Nat.ltb bound (List.length cuts) then Err ReversibilityError else Ok cuts
      | r => r
      end); [|apply X]. clear T d. induction fuel as [|f IH]; intros T d k r; cbn [attempt_loop].
    - destruct (match max with Some m => Nat.ltb r m | None => true end); reflexivity.
    - destruct (match max with Some m => Nat.ltb r m | None => true end); [|reflexivity].
      destruct (if Nat.eqb k 1 then _ else _) as [[[T' d'] k']| |]; cbn [bind]; [|reflexivity|reflexivity].
      unfold bounded at 1. destruct (balance _ false (draws r)) as [cuts| |]; cbn [bind]; [|reflexivity|reflexivity].
      destruct (negb repeat || some_cut cuts) eqn:Es.
      + destruct (Nat.ltb bound (List.length cuts)); cbn [bind]; [reflexivity|]. now rewrite Es.
      + assert (Hc : cuts = []) by (destruct cuts; auto; rewrite orb_true_r in Es; discriminate). subst cuts. cbn [List.length].
        rewrite (proj2 (Nat.ltb_ge _ _)) by lia. cbn [bind]. rewrite Es. apply IH.
  Qed.

  Section Plan.
    Variables (h : heap N P V L) (a : nat) (o : pobj N P V L).
    Hypothesis S : session E h.
    Hypothesis Ho : nth_error h a = Some o.
    Notation A := (o_assign o).
    Let C : coherent (g_nodes g) A := Coh E h a o S Ho.
    Let WF : wf_graph g := P_Proposals.wfg E h S.
    Notation step := (reversible_recom E pop balance tree t e weights draws fuel max repeat bound).

    Lemma joins_iff (A' : assignment N P) p q x : joins A' p q x = true <->
      (district A' (fst x) = Some p /\ district A' (snd x) = Some q) \/ (district A' (fst x) = Some q /\ district A' (snd x) = Some p).
    Proof.
      unfold joins, district. rewrite orb_true_iff, !andb_true_iff.
      assert (X : forall a b : option P, eqb a b = true <-> a = b) by (intros; now destruct (eqb_spec a0 b); split). rewrite !X. reflexivity.
    Qed.
    Lemma seam_iff (A' : assignment N P) p q x : In x (dist_pair_edges E A' p q) <-> In x (g_edges g) /\
      ((district A' (fst x) = Some p /\ district A' (snd x) = Some q) \/ (district A' (fst x) = Some q /\ district A' (snd x) = Some p)).
    Proof. unfold dist_pair_edges. now rewrite filter_In, joins_iff. Qed.
    Lemma seam_some (A' : assignment N P) p q : dist_pair_edges E A' p q <> [] <-> adjacent g A' p q.
    Proof.
      split.
      - intro H. destruct (dist_pair_edges E A' p q) as [|[u v] l] eqn:X; [congruence|].
        assert (Y : In (u, v) (dist_pair_edges E A' p q)) by (rewrite X; now left). apply seam_iff in Y. cbn [fst snd] in Y.
        destruct Y as [Y [[Y1 Y2]|[Y1 Y2]]]; [exists u, v|exists v, u]; unfold adj; auto.
      - intros (u & v & [H|H] & H1 & H2) X; [assert (Y : In (u, v) (dist_pair_edges E A' p q))|assert (Y : In (v, u) (dist_pair_edges E A' p q))];
          try (apply seam_iff; cbn [fst snd]; tauto); rewrite X in Y; destruct Y.
    Qed.

    (** C48.  Two equal or two non-adjacent districts: the plan itself. *)
    Theorem C48_self_loop r1 r2 r3 u p q : choice r1 (list_prod (labels A) (labels A)) = Ok (p, q) ->
      p = q \/ ~ adjacent g A p q -> step r1 r2 r3 u a h = (Ok a, h).
    Proof.
      intros Hc Hpq. unfold reversible_recom. rewrite (get_bind h a o) by exact Ho. cbn zeta. unfold labels in Hc. rewrite Hc.
      rewrite lift_bind. cbn [fst snd]. destruct (eqb_spec p q) as [Epq|Npq]; [reflexivity|]. destruct Hpq as [X|X]; [contradiction|].
      destruct (dist_pair_edges E A p q) as [|x l] eqn:Ed; [reflexivity|]. exfalso. apply X, seam_some. now rewrite Ed.
    Qed.

    Lemma found_good nodes cuts c : cut_search balance -> samples (subgraph g nodes) (tree (subgraph g nodes)) -> incl nodes (g_nodes g) ->
      found nodes = Ok cuts -> In c cuts ->
      good_split (subgraph g nodes) (restrict pop nodes) t e true (cut_subset c) /\
      exists u v, adj g u v /\ In u (cut_subset c) /\ In v nodes /\ ~ In v (cut_subset c).
    Proof.
      intros HB HS I H Hc. unfold found, search_cuts, bipartition_tree_random_all in H.
      destruct (first_tree (tree (subgraph g nodes)) None) as [[T d]| |] eqn:Ef; try discriminate. cbn [bind fst snd] in H.
      assert (HT := first_tree_good _ None _ _ HS ltac:(discriminate) Ef). cbn [fst] in HT.
      destruct (loop_sound _ _ (spanning_tree (subgraph g nodes)) _ _ _ _ _ _ _ _ _ _ HS HT H) as (T' & i & HT' & Hs & _). cbn beta in Hs.
      assert (Cov := covers_restrict E pop Hpop nodes I).
      destruct (HB _ _ _ _ c (covers_input _ _ _ _ _ _ HT' Cov) Hs Hc) as (u & v & Ad & Off & B & B').
      split; [exact (side_good _ _ _ _ _ _ false c u v HT' Cov Ad Off B B')|].
      cbn [h_tree] in Ad, Off. destruct HT' as (Tr & Tn & Ta). destruct Off as (_ & _ & Is).
      destruct (C50_sides T' u v Tr Ad) as (_ & Dis & _). cbn [h_tree] in Is. assert (G := Ta u v Ad). apply adj_subgraph in G.
      exists u, v. split; [tauto|]. split; [apply Is; constructor|]. split; [tauto|]. intro X. apply Is in X. apply (Dis v). split; auto. constructor.
    Qed.

    (** Otherwise the two districts are merged and searched for cuts.  The
        search's own errors pass through; no cut: the plan itself; more cuts
        than [bound]: ReversibilityError; else a new plan that redraws the two
        districts, both connected and balanced, is accepted with probability
        cuts / (bound * seam), which is in (0, 1]. *)
    Theorem C48_outcome r1 r2 r3 u p q : cut_search balance ->
      (forall nodes, (forall n, In n nodes <-> district A n = Some p \/ district A n = Some q) -> samples (subgraph g nodes) (tree (subgraph g nodes))) ->
      choice r1 (list_prod (labels A) (labels A)) = Ok (p, q) -> p <> q -> adjacent g A p q ->
      exists nodes, NoDup nodes /\ (forall n, In n nodes <-> district A n = Some p \/ district A n = Some q) /\
        match found nodes with
        | NoFuel => fst (step r1 r2 r3 u a h) = NoFuel
        | Err x => fst (step r1 r2 r3 u a h) = Err x
        | Ok [] => step r1 r2 r3 u a h = (Ok a, h)
        | Ok cuts =>
          if Nat.ltb bound (List.length cuts) then fst (step r1 r2 r3 u a h) = Err ReversibilityError
          else exists b h' o' c x seam prob,
            choice r3 cuts = Ok c /\ (x = p \/ x = q) /\ (forall n, district (o_assign o') n = Some x <-> In n (cut_subset c)) /\
            session E h' /\ kept h h' /\ nth_error h' b = Some o' /\ o_parent o' = Some a /\ redrawn A p q (o_assign o') /\
            (forall x, x = p \/ x = q -> connected_on g (fun n => district (o_assign o') n = Some x) /\
                                         balanced_set (popn pop) t e (fun n => district (o_assign o') n = Some x)) /\
            NoDup seam /\
            (forall x, In x seam <-> In x (g_edges g) /\
               ((district (o_assign o') (fst x) = Some p /\ district (o_assign o') (snd x) = Some q) \/
                (district (o_assign o') (fst x) = Some q /\ district (o_assign o') (snd x) = Some p))) /\
            (prob == Qn (List.length cuts) / (Qn bound * Qn (List.length seam)))%Q /\ (0 < prob <= 1)%Q /\
            ((u < prob)%Q -> step r1 r2 r3 u a h = (Ok b, h')) /\
            ((prob <= u)%Q -> step r1 r2 r3 u a h = (Ok a, h'))
        end.
    Proof.
      intros HB HS Hc Npq Ad. unfold reversible_recom.
      assert (Ne : dist_pair_edges E A p q <> []) by now apply seam_some.
      destruct (choice_ok r2 _ Ne) as (ed & Ee & He). apply seam_iff in He. destruct He as [Hed He].
      assert (exists x y, district A (fst ed) = Some x /\ district A (snd ed) = Some y /\ x <> y /\ ((x = p /\ y = q) \/ (x = q /\ y = p))) as (x & y & Dx & Dy & Nxy & Hxy).
      { destruct He as [[H1 H2]|[H1 H2]]; [exists p, q|exists q, p]; auto 10. }
      assert (Lx : In x (labels A)) by (eapply label_of; eauto). assert (Ly : In y (labels A)) by (eapply label_of; eauto).
      destruct (merged_ok E h a o S Ho x y Lx Ly) as (nodes & Em & NDn & Hn).
      exists nodes. split; auto. split. { intro n. rewrite Hn. destruct Hxy as [[-> ->]|[-> ->]]; tauto. }
      assert (In_ : incl nodes (g_nodes g)).
      { intros n X. apply Hn in X. apply (coh_dom _ _ C). destruct X as [X|X]; eapply dget_Some_key; exact X. }
      rewrite (get_bind h a o) by exact Ho. cbn zeta. unfold labels in Hc. rewrite Hc. rewrite lift_bind. cbn [fst snd].
      destruct (eqb_spec p q) as [|_]; [contradiction|].
      destruct (Nat.eqb_spec (List.length (dist_pair_edges E A p q)) 0) as [X|_]; [destruct (dist_pair_edges E A p q); [congruence|discriminate]|].
      cbn [orb]. rewrite Ee, lift_bind.
      assert (part_of A (fst ed) = Ok x /\ part_of A (snd ed) = Ok y) as [P1 P2].
      { unfold part_of, district in *. rewrite Dx, Dy. auto. }
      rewrite P1, lift_bind, P2, lift_bind, Em, lift_bind, bounded_search.
      destruct (found nodes) as [cuts|ex|] eqn:Ef; [|reflexivity|reflexivity].
      destruct cuts as [|c0 cuts0]; [reflexivity|]. set (cuts := c0 :: cuts0) in *.
      destruct (Nat.ltb_spec bound (List.length cuts)) as [Hb|Hb]; [reflexivity|]. rewrite lift_bind.
      change (match cuts with [] => ?X | _ => ?Y end) with Y.
      destruct (choice_ok r3 cuts ltac:(discriminate)) as (c & Ec & Inc). rewrite Ec, lift_bind.
      destruct (found_good nodes cuts c HB (HS nodes ltac:(intro n; rewrite Hn; destruct Hxy as [[-> ->]|[-> ->]]; tauto)) In_ Ef Inc) as [G (u0 & v0 & Ad0 & Iu & Iv & Nv)].
      set (rest := sdiff (g_nodes (subgraph g nodes)) (set_of (cut_subset c))) in *.
      assert (Hrest : forall n, In n rest <-> In n nodes /\ ~ In n (cut_subset c)).
      { intro n. unfold rest. rewrite In_sdiff, In_set_of. rewrite (P_Recursive.sub_nodes g nodes In_). reflexivity. }
      set (f := assign_all rest y (assign_all (cut_subset c) x [])).
      assert (Hf : forall n, dget f n = if mem n rest then Some y else if mem n (cut_subset c) then Some x else None).
      { intro n. unfold f. change (assign_all rest y) with (painted y rest). change (assign_all (cut_subset c) x) with (painted x (cut_subset c)). now rewrite !dget_painted. }
      assert (Sub : incl (cut_subset c) nodes).
      { intros n X. apply (gs_incl _ _ _ _ _ _ G) in X. now apply (P_Recursive.sub_nodes g nodes In_). }
      destruct (split_flip E h a o S Ho h x y nodes f S (kept_refl h) Nxy Lx Ly Hn) as (b & h2 & o' & F1 & F2 & F3 & F4 & F5 & F6 & F7).
      { apply painted_nodup, painted_nodup. constructor. }
      { intro n. rewrite dget_In_keys. setoid_rewrite Hf. destruct (mem n rest) eqn:E1.
        - apply mem_In, Hrest in E1. split; [tauto|eauto].
        - apply mem_notIn in E1. rewrite Hrest in E1. destruct (mem n (cut_subset c)) eqn:E2.
          + apply mem_In in E2. split; [auto|eauto].
          + apply mem_notIn in E2. split; [intros (w & X); discriminate|tauto]. }
      { intros n z. rewrite Hf. destruct (mem n rest), (mem n (cut_subset c)); intro X; try discriminate; injection X as <-; auto. }
      assert (Fx : forall n, district (o_assign o') n = Some x <-> In n (cut_subset c)).
      { intro n. rewrite F7, Hf by auto. destruct (mem n rest) eqn:E1.
        - apply mem_In, Hrest in E1. split; [intro X; congruence|tauto].
        - destruct (mem n (cut_subset c)) eqn:E2; [apply mem_In in E2|apply mem_notIn in E2]; split; auto; [discriminate|contradiction]. }
      assert (Fy : forall n, district (o_assign o') n = Some y <-> outside (subgraph g nodes) (cut_subset c) n).
      { intro n. rewrite F7, Hf by auto. unfold outside. rewrite (P_Recursive.sub_nodes g nodes In_), <- Hrest. destruct (mem n rest) eqn:E1.
        - apply mem_In in E1. tauto.
        - apply mem_notIn in E1. split; [|contradiction]. destruct (mem n (cut_subset c)); congruence. }
      rewrite (bindM_ok _ _ _ _ _ F1). rewrite (get_bind h2 b o') by exact F4. cbn zeta.
      assert (Sn : dist_pair_edges E (o_assign o') p q <> []).
      { apply seam_some. assert (X : adjacent g (o_assign o') x y).
        { exists u0, v0. split; auto. split; [now apply Fx|]. apply Fy. unfold outside. now rewrite (P_Recursive.sub_nodes g nodes In_). }
        destruct Hxy as [[-> ->]|[-> ->]]; auto. now apply adjacent_sym. }
      set (seam := dist_pair_edges E (o_assign o') p q) in *.
      assert (Ls : (1 <= Qn (List.length seam))%Q).
      { unfold Qn. change 1%Q with (inject_Z 1). rewrite <- Zle_Qle. destruct seam; [congruence|cbn [List.length]; lia]. }
      assert (Lc : (1 <= Qn (List.length cuts))%Q).
      { unfold Qn. change 1%Q with (inject_Z 1). rewrite <- Zle_Qle. cbn [cuts List.length]. lia. }
      assert (Lb : (Qn (List.length cuts) <= Qn bound)%Q) by (unfold Qn; rewrite <- Zle_Qle; lia).
      assert (Lm : (Qn bound <= Qn bound * Qn (List.length seam))%Q) by nra.
      assert (Lp : (0 < Qn bound * Qn (List.length seam))%Q) by nra.
      unfold qdiv. destruct (Qeq_bool (Qn bound * Qn (List.length seam)) 0) eqn:Ez; [apply Qeq_bool_iff in Ez; rewrite Ez in Lp; lra|].
      rewrite lift_bind. set (prob := (Qn (List.length cuts) / (Qn bound * Qn (List.length seam)))%Q).
      assert (P01 : (0 < prob <= 1)%Q).
      { unfold prob. split; [apply Qlt_shift_div_l; lra|]. apply Qle_shift_div_r; lra. }
      exists b, h2, o', c, x, seam, prob. split; auto. split; [tauto|]. split; [exact Fx|]. split; auto. split; auto. split; auto. split; auto. split.
      { destruct Hxy as [[-> ->]|[-> ->]]; auto. destruct F6 as [R1 R2]. split; intros z Z; [intros Z'; apply R1; auto|]. destruct (R2 z); tauto. }
      split.
      { assert (X : forall z, z = x \/ z = y -> connected_on g (fun n => district (o_assign o') n = Some z) /\ balanced_set (popn pop) t e (fun n => district (o_assign o') n = Some z)).
        { intros z [-> | ->]; split.
          - eapply connected_on_ext; [intro n; symmetry; apply Fx|]. eapply connected_sub. apply G.
          - eapply balanced_set_ext; [intro n; symmetry; apply Fx|]. eapply balanced_w; [|apply G]. cbn beta. intros n X. apply popn_restrict. auto.
          - eapply connected_on_ext; [intro n; symmetry; apply Fy|]. eapply connected_sub. apply G.
          - eapply balanced_set_ext; [intro n; symmetry; apply Fy|]. eapply balanced_w; [|apply (gs_both _ _ _ _ _ _ G); auto].
            cbn beta. intros n X. apply popn_restrict. unfold outside in X. rewrite (P_Recursive.sub_nodes g nodes In_) in X. tauto. }
        intros z Hz. apply X. destruct Hxy as [[-> ->]|[-> ->]]; tauto. }
      split; [apply NoDup_filter, (wfg_edges _ WF)|]. split; [intro z; apply seam_iff|]. split; [reflexivity|]. split; auto.
      assert (qlt 1 prob = false) as -> by (unfold qlt; rewrite (proj2 (Qle_bool_iff _ _)); [reflexivity|tauto]).
      unfold qlt. split; intro Hu.
      - destruct (Qle_bool prob u) eqn:Eq; [apply Qle_bool_iff in Eq; lra|reflexivity].
      - now rewrite (proj2 (Qle_bool_iff _ _) Hu).
    Qed.
  End Plan.
End Reversible.

(** ** Examples and refutations *)
(** The path 0 - 1 - 2 - 3 with one inhabitant each. *)
Definition four_trees : list (graph nat) :=
  [path_tree 4; path_tree 3; mkGraph [1; 2; 3] [(1, 2); (2, 3)]; path_tree 2; mkGraph [1; 2] [(1, 2)]].
Lemma four_trees_ok : Forall is_tree four_trees.
Proof. unfold four_trees. repeat (apply Forall_cons; [apply is_connected_tree; [wfg|reflexivity|vm_compute; reflexivity]|]). apply Forall_nil. Qed.
Definition four_pop : dict nat Z := flat_pop 4 1.
Definition four_method (reselect : bool) : @method_fn nat :=
  tree_method find_cuts_memoization (fun _ g _ => lookup_tree four_trees g) four_pop
    (fun _ _ _ => 0%Q) (fun _ i => i) 4 (Some 4) 1 reselect (fun _ => max_weight_choice).
Lemma four_covers : covers four_pop (e_graph ex_E).
Proof. split; [nodup|]. intro n. cbn. tauto. Qed.
Lemma four_contracts b : inside (four_method b) /\ splits_connected (four_method b) /\ tolerant four_pop (four_method b).
Proof.
  apply C56_bipartition_tree.
  - apply C53_memoization_search.
  - intros i g. exact (lookup_samples four_trees g 0 four_trees_ok).
  - intros _ cuts c H. destruct cuts as [|c0 l]; [discriminate|]. destruct (C62_max_weight (c0 :: l)) as (c' & E & I & _); [discriminate|]. congruence.
Qed.
Definition lopsided : dict nat nat := [(0, 1); (1, 2); (2, 2); (3, 2)].
Example C46_nonvacuous :
  let h := ex_run lopsided [] in let (r, h') := recom ex_E four_pop (four_method true) (fun i => i) 2 0 1 0 h in
  session ex_E h /\ covers four_pop (e_graph ex_E) /\ inside (four_method true) /\ splits_connected (four_method true) /\
  r = Ok 1 /\ option_map (fun o => a_map (o_assign o)) (nth_error h' 1) = Some [(0, 1); (1, 1); (2, 2); (3, 2)].
Proof.
  destruct (four_contracts true) as (I1 & I2 & _).
  split; [ex_session|]. split; [exact four_covers|]. split; [exact I1|]. split; [exact I2|]. split; vm_compute; reflexivity.
Qed.

Lemma same_subset E pop (nodes l : list nat) : (forall n, In n nodes <-> In n l) ->
  @restrict nat _ pop nodes = restrict pop l /\ subgraph (@e_graph nat nat Z nat E) nodes = subgraph (e_graph E) l.
Proof.
  intro H. assert (M : forall n, mem n nodes = mem n l).
  { intro n. destruct (mem n l) eqn:X; [apply mem_In, H; now apply mem_In|apply mem_notIn; rewrite H; now apply mem_notIn]. }
  split; [apply filter_ext; intro x; apply M|]. unfold subgraph. f_equal; [apply filter_ext; exact M|]. apply filter_ext. intro x. now rewrite !M.
Qed.
Definition named (d : dict nat nat) (p : nat) : list nat := map fst (filter (fun np => Nat.eqb (snd np) p) d).
Lemma In_named d p n : NoDup (dkeys d) -> dget d n = Some p <-> In n (named d p).
Proof.
  intro ND. unfold named. rewrite in_map_iff. setoid_rewrite filter_In. split.
  - intro H. exists (n, p). split; auto. split; [now apply dget_In|]. apply Nat.eqb_refl.
  - intros ([n' p'] & H1 & H2 & H3). cbn in H1, H3. apply Nat.eqb_eq in H3. subst. now apply In_dget.
Qed.
(** A plan on the path whose adjacent pairs all fail. *)
Lemma path_reselects o t e : NoDup (dkeys (a_map (o_assign o))) ->
  (forall u v p q, In (u, v) (g_edges (e_graph ex_E)) -> dget (a_map (o_assign o)) u = Some p -> dget (a_map (o_assign o)) v = Some q -> p <> q ->
    forall j x y, (x = p /\ y = q) \/ (x = q /\ y = p) ->
    let l := named (a_map (o_assign o)) x ++ named (a_map (o_assign o)) y in
    epsilon_tree_bipartition (fun _ => four_method true j) (restrict four_pop l) (subgraph (e_graph ex_E) l) [x; y] t e = Err ReselectException) ->
  always_reselects ex_E four_pop o (four_method true) t e.
Proof.
  intros ND H j p q nodes Npq (u & v & Ad & D1 & D2) Hn.
  destruct (same_subset ex_E four_pop nodes (named (a_map (o_assign o)) p ++ named (a_map (o_assign o)) q)) as [-> ->].
  { intro n. rewrite Hn, in_app_iff. unfold district. now rewrite !In_named. }
  unfold district in *. destruct Ad as [Ad|Ad]; eapply H; eauto.
Qed.
Ltac path_case := 
  let u := fresh in let v := fresh in let p := fresh in let q := fresh in let H := fresh in let D1 := fresh in let D2 := fresh in let Npq := fresh in
  intros u v p q H D1 D2 Npq; cbn in H; repeat destruct H as [H|H]; try contradiction; injection H as <- <-;
  vm_compute in D1; vm_compute in D2; injection D1 as <-; injection D2 as <-; try congruence;
  intros j x y [[-> ->]|[-> ->]]; vm_compute; reflexivity.
(** C47.  Two districts that cannot be balanced: MetagraphError for every fair
    stream of choices. *)
Example C47_raises_nonvacuous : exists o,
  let h := ex_run ex_plan [] in
  session ex_E h /\ nth_error h 0 = Some o /\
  always_reselects ex_E four_pop o (four_method true) 3 0 /\
  (forall p q, In p (labels (o_assign o)) -> In q (labels (o_assign o)) -> p <> q -> adjacent (e_graph ex_E) (o_assign o) p q) /\
  fst (recom ex_E four_pop (four_method true) (fun i => i) 3 0 9 0 h) = Err MetagraphError.
Proof.
  eexists. cbn zeta. split; [ex_session|]. split; [vm_compute; reflexivity|]. split; [|split].
  - apply path_reselects; [nodup|]. path_case.
  - intros p q Hp Hq Npq. cbn in Hp, Hq.
    destruct Hp as [<-|[<-|[]]], Hq as [<-|[<-|[]]]; try congruence; [exists 1, 2|exists 2, 1]; cbn; unfold adj; cbn; auto 10.
  - vm_compute. reflexivity.
Qed.
(** With a third district that touches only one of them recom never returns and
    never raises, although no pair can be split. *)
Theorem C47_raises_refuted : exists (E : env nat nat Z nat) pop h a o (method : @method_fn nat) t e,
  session E h /\ nth_error h a = Some o /\ covers pop (e_graph E) /\
  inside method /\ splits_connected method /\ always_reselects E pop o method t e /\
  forall draws fuel, fst (recom E pop method draws t e fuel a h) = NoFuel.
Proof.
  destruct (four_contracts true) as (I1 & I2 & _).
  assert (Ss : session ex_E (ex_run ex_three [])) by ex_session.
  exists ex_E, four_pop, (ex_run ex_three []), 0. eexists. exists (four_method true), 2%Q, 0%Q.
  split; [exact Ss|]. split; [vm_compute; reflexivity|]. split; [exact four_covers|]. split; [exact I1|]. split; [exact I2|].
  match goal with |- ?X /\ _ => assert (R : X) end.
  { apply path_reselects; [nodup|]. path_case. }
  split; [exact R|]. intros draws fuel. eapply (C47_never_terminates ex_E four_pop _ 0 _ Ss) with (p := 1) (q := 3); try exact R; try reflexivity.
  - exists 0, 1. split; [left; cbn; auto|]. vm_compute. discriminate.
  - cbn. auto.
  - cbn. auto.
  - discriminate.
  - intros (u & v & Ad & D1 & D2). unfold adj in Ad. cbn in Ad.
    repeat destruct Ad as [Ad|Ad]; try contradiction; injection Ad as <- <-; vm_compute in D1, D2; discriminate.
Qed.

(** ** Single-node districts (C60) *)
Section Small.
  Context {N P V L : Type} {EN : EqB N} {EP : EqB P} {EL : EqB L} {ON : Ord N} {OP : Ord P} {RV : CRing V}.
  (** One of the two searches of the library. *)
  Definition library_search (balance : @balance_fn N) : Prop :=
    balance = find_cuts_memoization \/ balance = find_cuts_contraction.

  (** The sampler returns a tree when it is given two joined nodes. *)
  Definition samples_pairs (tree : nat -> graph N -> nat -> res (graph N)) : Prop :=
    forall i g j u v, wf_graph g -> adj g u v -> (forall n, In n (g_nodes g) <-> n = u \/ n = v) -> u <> v ->
      exists T, tree i g j = Ok T.

  (** On a graph with at most two nodes bipartition_tree raises IndexError, for
      every sampler of spanning trees that returns. *)
  Theorem C60_bipartition : forall balance tree (pop : dict N Z) weights draws fuel max k reselect pick i (g : graph N) t e os,
    library_search balance -> samples g (tree i g) -> (forall j, exists T, tree i g j = Ok T) ->
    List.length (g_nodes g) <= 2 -> incl (g_nodes g) (dkeys pop) -> 0 < fuel -> max <> Some 0 ->
    tree_method balance tree pop weights draws fuel max k reselect pick i g t e os = Err IndexError.
  Proof.
    intros balance tree pop weights draws fuel max k reselect pick i g t e os Lib Smp Tot Small Inc Hf Hm.
    assert (Pops : exists p, populations pop g = Ok p).
    { unfold populations. assert (X : forall l, incl l (dkeys pop) -> exists p, mapM (fun n => x <- of_option KeyError (dget pop n) ;; Ok (n, x)) l = Ok p).
      { induction l as [|n l IH]; intro Hl; [exists []; reflexivity|]. cbn [mapM].
        assert (Hn : In n (dkeys pop)) by (apply Hl; now left). apply dget_In_keys in Hn. destruct Hn as (x & Ex).
        rewrite Ex. cbn [of_option bind]. destruct IH as (p & Ep); [intros m M; apply Hl; now right|].
        rewrite Ep. cbn [bind]. eauto. }
      apply X. intros n Hn. apply Inc. now apply In_set_of. }
    destruct Pops as (p & Ep). destruct (populations_inv pop g p Ep) as (K1 & K2 & _).
    unfold tree_method. rewrite Ep. cbn [bind]. unfold bipartition_tree_call, bipartition_tree, first_tree.
    destruct (Tot 0) as (T0 & E0). rewrite E0. cbn [bind fst snd].
    assert (Bad : forall T j, spanning_tree g T -> balance (mkPopulated T p t e (weights i j)) os (draws i j) = Err IndexError).
    { intros T j HT. assert (I : cut_input (mkPopulated T p t e (weights i j))) by (apply (covers_input g); [exact HT|split; assumption]).
      assert (Sm : List.length (g_nodes T) <= 2).
      { destruct HT as (HT & HN & _). etransitivity; [|exact Small]. apply NoDup_incl_length; [apply (tree_wf _ HT)|]. intros n Hn. now apply HN. }
      destruct (C60_small_trees _ I os (draws i j) Sm). destruct Lib as [-> | ->]; assumption. }
    destruct fuel as [|fuel]; [lia|]. cbn [attempt_loop].
    assert (Hmax : match max with Some m => Nat.ltb 0 m | None => true end = true).
    { destruct max as [[|m]|]; [congruence|reflexivity|reflexivity]. }
    rewrite Hmax. destruct (Nat.eqb 0 k).
    - destruct (Tot 1) as (T1 & E1). rewrite E1. cbn [bind]. rewrite Bad; [reflexivity|]. eapply Smp; exact E1.
    - cbn [bind]. rewrite Bad; [reflexivity|]. eapply Smp; exact E0.
  Qed.

  (** So recom with bipartition_tree raises IndexError for every plan whose
      districts are single nodes, whatever is drawn. *)
  Theorem C60_recom : forall (E : env N P V L) pop h a o balance tree weights draws fuel max k reselect pick choices t e rounds,
    session E h -> nth_error h a = Some o -> covers pop (e_graph E) ->
    dget (e_updaters E) "cut_edges"%string = Some UCutEdges ->
    (forall n m p, district (o_assign o) n = Some p -> district (o_assign o) m = Some p -> n = m) ->
    (exists x, S_Machine.cut_edge (e_graph E) (o_assign o) x) ->
    library_search balance -> (forall i g, samples g (tree i g)) -> samples_pairs tree ->
    0 < fuel -> max <> Some 0 -> 0 < rounds ->
    fst (recom E pop (tree_method balance tree pop weights draws fuel max k reselect pick) choices t e rounds a h) = Err IndexError.
  Proof.
    intros E pop h a o balance tree weights draws fuel max k reselect pick choices t e rounds S Ho Cov Hu One (x0 & Hx0) Lib Smp Tot Hf Hm Hr.
    set (m := tree_method balance tree pop weights draws fuel max k reselect pick).
    set (A := o_assign o) in *.
    assert (C : coherent (g_nodes (e_graph E)) A) by exact (Coh E h a o S Ho).
    assert (WF : wf_graph (e_graph E)) by exact (P_Proposals.wfg E h S).
    destruct (recom_start E pop h a o S Ho m choices t e Hu) as (cuts & h1 & _ & _ & Hc & Hall & Er). rewrite Er. clear Er.
    assert (Np : 0 < List.length (a_parts A) * (List.length (a_parts A) - 1)).
    { destruct Hx0 as (_ & Ad & Dn). destruct (adj_nodes _ _ _ WF Ad) as [N1 N2].
      destruct (has_district _ A _ C N1) as [p1 P1]. destruct (has_district _ A _ C N2) as [p2 P2].
      assert (L1 : In p1 (labels A)) by (eapply district_node; [exact C|exact P1]).
      assert (L2 : In p2 (labels A)) by (eapply district_node; [exact C|exact P2]).
      assert (p1 <> p2) by congruence.
      assert (2 <= List.length (labels A)).
      { change 2 with (List.length [p1; p2]). apply NoDup_incl_length; [repeat constructor; cbn; intuition congruence|].
        intros y [<-|[<-|[]]]; auto. }
      unfold labels, dkeys in *. rewrite map_length in *. destruct (List.length (a_parts A)) as [|[|nn]]; cbn; lia. }
    destruct rounds as [|rounds]; [lia|]. cbn [recom_loop]. fold A.
    replace (Nat.ltb (2 * @List.length (P * P) []) (List.length (a_parts A) * (List.length (a_parts A) - 1))) with true by (symmetry; apply Nat.ltb_lt; cbn [List.length]; lia).
    assert (Cne : cuts <> []) by (intro X; specialize (Hall Np x0 Hx0); rewrite X in Hall; destruct Hall).
    match goal with |- context [edge <- choice ?r ?c ;; _] => set (r0 := r) end.
    destruct (round E h a o S Ho cuts r0 _ (fun pair =>
          if mem pair [] then recom_loop E pop m choices t e rounds A cuts (List.length (a_parts A)) [] (Datatypes.S 0) 0
          else nodes <- merged A (fst pair) (snd pair) ;;
            match epsilon_tree_bipartition (fun _ => m 0) (restrict pop nodes) (subgraph (e_graph E) nodes) [fst pair; snd pair] t e with
            | Err ReselectException => recom_loop E pop m choices t e rounds A cuts (List.length (a_parts A)) (sadd pair []) (Datatypes.S 0) (Datatypes.S 0)
            | r => r
            end) Hc Cne) as (p & q & Npq & _ & Ad & Er).
    fold A in Er. cbn zeta. rewrite Er. clear Er. cbn [mem existsb fst snd].
    assert (LL : In p (labels A) /\ In q (labels A)).
    { destruct Ad as (u & v & _ & D1 & D2). split; eapply district_node; try exact C; eauto. }
    destruct LL as [Lp Lq].
    destruct (merged_ok E h a o S Ho p q Lp Lq) as (nodes & Em & NDn & Hn). fold A in Em, Hn. rewrite Em. cbn [bind].
    assert (In_ : incl nodes (g_nodes (e_graph E))).
    { intros n X. apply Hn in X. apply (coh_dom _ _ C). destruct X as [X|X]; eapply dget_Some_key; exact X. }
    assert (Two : exists u v, adj (e_graph E) u v /\ u <> v /\ forall n, In n nodes <-> n = u \/ n = v).
    { destruct Ad as (u & v & Ad & D1 & D2). exists u, v. split; auto. split; [congruence|]. intro n. rewrite Hn. split.
      - intros [D|D]; [left|right]; eapply One; eauto.
      - intros [-> | ->]; auto. }
    destruct Two as (u & v & Auv & Nuv & Two).
    assert (Call : forall g', wf_graph g' -> (forall n, In n (g_nodes g') <-> In n nodes) -> adj g' u v -> m 0 g' t e false = Err IndexError).
    { intros g' W' N' A'. assert (N2 : forall n, In n (g_nodes g') <-> n = u \/ n = v) by (intro n; rewrite N'; apply Two).
      apply C60_bipartition; auto.
      - intro j. exact (Tot 0 g' j u v W' A' N2 Nuv).
      - change 2 with (List.length [u; v]). apply NoDup_incl_length; [apply W'|]. intros n X. apply N2 in X. cbn. intuition congruence.
      - intros n X. apply (proj2 Cov), In_, N', X. }
    assert (Ee : epsilon_tree_bipartition (fun _ => m 0) (restrict pop nodes) (subgraph (e_graph E) nodes) [p; q] t e = Err IndexError).
    { unfold epsilon_tree_bipartition, epsilon_tree_bipartition_on. cbn [List.length Nat.eqb negb].
      unfold last_two, take. rewrite Call; [reflexivity| | |].
      - apply wf_subgraph, wf_subgraph, WF.
      - intro n. rewrite !subgraph_nodes. split; [tauto|]. intro X. split; [|split]; auto.
      - apply adj_subgraph. rewrite !subgraph_nodes, adj_subgraph.
        assert (In u nodes) by (apply Two; auto). assert (In v nodes) by (apply Two; auto). auto 10. }
    rewrite Ee. reflexivity.
  Qed.
End Small.

(** A sampler for pairs of nodes, and a plan with four single-node districts. *)
Definition pair_sampler (i : nat) (g : graph nat) (j : nat) : res (graph nat) :=
  match g_nodes g with
  | [a; b] => match find (fun e => (Nat.eqb (fst e) a && Nat.eqb (snd e) b) || (Nat.eqb (fst e) b && Nat.eqb (snd e) a)) (g_edges g) with
              | Some e => if Nat.eqb a b then Err RuntimeError else Ok (mkGraph [a; b] [e])
              | None => Err RuntimeError
              end
  | _ => Err RuntimeError
  end.
Definition single_nodes : dict nat nat := [(0, 1); (1, 2); (2, 3); (3, 4)].
Example C60_recom_nonvacuous :
  let h := ex_run single_nodes [] in
  session ex_E h /\ covers four_pop (e_graph ex_E) /\
  (exists o, nth_error h 0 = Some o /\ S_Machine.cut_edge (e_graph ex_E) (o_assign o) (0, 1) /\
     forall n m p, district (o_assign o) n = Some p -> district (o_assign o) m = Some p -> n = m) /\
  (forall i g, samples g (pair_sampler i g)) /\ samples_pairs pair_sampler.
Proof.
  split; [ex_session|]. split; [exact four_covers|]. split; [|split].
  - eexists. split; [vm_compute; reflexivity|]. split.
    + split; [reflexivity|]. split; [left; cbn; auto|vm_compute; discriminate].
    + intros n m p. unfold district. cbn.
      repeat match goal with |- context [Nat.eqb ?x ?y] => destruct (Nat.eqb_spec x y); subst end; try discriminate; try congruence.
  - intros i g j T. unfold pair_sampler. destruct (g_nodes g) as [|a [|b [|c r]]] eqn:En; try discriminate.
    destruct (find _ _) as [[x y]|] eqn:Ef; [|discriminate]. destruct (Nat.eqb_spec a b) as [|Nab]; [discriminate|]. intros [= <-].
    apply find_some in Ef. cbn [fst snd] in Ef. destruct Ef as [Hin Hxy].
    assert (Exy : (x = a /\ y = b) \/ (x = b /\ y = a)).
    { apply orb_true_iff in Hxy. rewrite !andb_true_iff, !Nat.eqb_eq in Hxy. exact Hxy. }
    assert (Aab : adj (mkGraph [a; b] [(x, y)]) a b) by (unfold adj; cbn; destruct Exy as [[-> ->]|[-> ->]]; auto).
    assert (Aba : adj (mkGraph [a; b] [(x, y)]) b a) by (unfold adj in *; tauto).
    split; [|split].
    + constructor; [constructor| |reflexivity]; cbn.
      * constructor; [cbn; intuition congruence|]. constructor; [intros []|constructor].
      * constructor; [intros []|constructor].
      * intros u v [E|[]]. injection E as <- <-. destruct Exy as [[-> ->]|[-> ->]]; auto.
      * intros u v [E|[]] [E'|[]]. congruence.
      * intros u v [<-|[<-|[]]] [<-|[<-|[]]]; try apply reach_refl; eapply reach_step; [apply reach_refl| |apply reach_refl|]; assumption.
    + intro n. cbn. rewrite En. cbn. tauto.
    + intros u v Au. unfold adj in *. cbn in Au. destruct Au as [[E|[]]|[E|[]]]; injection E as -> ->; auto.
  - intros i g j u v W A Hn Nuv. unfold pair_sampler.
    assert (Nd := wfg_nodes _ W). assert (Len : List.length (g_nodes g) = 2).
    { apply Nat.le_antisymm.
      - change 2 with (List.length [u; v]). apply NoDup_incl_length; auto. intros n X. apply Hn in X. cbn. intuition congruence.
      - change 2 with (List.length [u; v]). apply NoDup_incl_length; [repeat constructor; cbn; intuition congruence|].
        intros n [<-|[<-|[]]]; apply Hn; auto. }
    destruct (g_nodes g) as [|a [|b [|c r]]]; try discriminate.
    assert (Nab : a <> b) by (inversion Nd; subst; cbn in *; intuition congruence).
    assert (Ha := proj1 (Hn a) ltac:(cbn; auto)). assert (Hb := proj1 (Hn b) ltac:(cbn; auto)).
    destruct (find _ (g_edges g)) as [e|] eqn:Ef; [rewrite (proj2 (Nat.eqb_neq a b) Nab); eauto|exfalso].
    assert (X : exists e, In e (g_edges g) /\ (e = (a, b) \/ e = (b, a))).
    { destruct A as [A|A]; eexists; (split; [exact A|]); destruct Ha, Hb; subst; try tauto. }
    destruct X as (e & He & Ee). apply (find_none _ _ Ef) in He. apply orb_false_iff in He. rewrite !andb_false_iff, !Nat.eqb_neq in He.
    destruct Ee as [-> | ->]; cbn in He; tauto.
Qed.

(** C60.  Two adjacent single-node districts, exactly balanced: IndexError. *)
Definition pairwise : dict nat nat := [(0, 1); (1, 2); (2, 3); (3, 3)].
Theorem C60_recom_refuted : exists (E : env nat nat Z nat) pop h a (method : @method_fn nat) draws t e fuel,
  session E h /\ covers pop (e_graph E) /\ inside method /\ splits_connected method /\
  fst (recom E pop method draws t e fuel a h) = Err IndexError.
Proof.
  destruct (four_contracts true) as (I1 & I2 & _).
  exists ex_E, four_pop, (ex_run pairwise []), 0, (four_method true), (fun i => i), 1%Q, 0%Q, 1.
  split; [ex_session|]. split; [exact four_covers|]. split; [exact I1|]. split; [exact I2|]. vm_compute. reflexivity.
Qed.

(** C48.  The lopsided plan: the balanced cut is found, one of at most two. *)
Definition four_reversible (bound : nat) (u : Q) (h : heap nat nat Z nat) :=
  reversible_recom ex_E four_pop find_cuts_memoization (fun g _ => lookup_tree four_trees g) 2 0 (fun _ _ => 0%Q) (fun i => i) 4 (Some 4) true
    bound 1 0 0 u 0 h.
Example C48_nonvacuous :
  let h := ex_run lopsided [] in
  session ex_E h /\ covers four_pop (e_graph ex_E) /\ (forall g, samples g (fun _ => lookup_tree four_trees g)) /\
  cut_search (@find_cuts_memoization nat _) /\
  fst (four_reversible 2 (1 # 4) h) = Ok 1 /\ fst (four_reversible 2 (3 # 4) h) = Ok 0 /\
  option_map (fun o => a_map (o_assign o)) (nth_error (snd (four_reversible 2 (3 # 4) h)) 1) = Some [(0, 1); (1, 1); (2, 2); (3, 2)] /\
  fst (four_reversible 0 (1 # 4) h) = Err ReversibilityError.
Proof.
  split; [ex_session|]. split; [exact four_covers|]. split; [intro g; exact (lookup_samples four_trees g 0 four_trees_ok)|].
  split; [apply C53_memoization_search|]. vm_compute. repeat split.
Qed.

Print Assumptions bounded_search.
Print Assumptions C48_self_loop.
Print Assumptions C48_outcome.
Print Assumptions C47_raises_refuted.
Print Assumptions C60_bipartition.
Print Assumptions C60_recom.
Print Assumptions C60_recom_refuted.
