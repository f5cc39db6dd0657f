(** Random spanning trees (C52, C93). *)
From Coq Require Import String List Bool Arith ZArith QArith Lqa Lia ZifyBool ZifyNat Permutation.
From Verif Require Import Base M_Graph M_Partition S_Partition L_Partition M_Machine S_Machine
  S_Contiguity L_Search M_Election L_Order M_Proposals M_Tree S_Tree L_Tree L_Wilson L_Kruskal P_Partition P_Contiguity P_Tree.
Import ListNotations.
Local Open Scope nat_scope.
Local Open Scope list_scope.

Section Uniform.
  Context {N : Type} {EN : EqB N}.

  (** Wilson's algorithm: whatever is drawn, if the walks end the result is a
      spanning tree of the graph; no other error is possible. *)
  Theorem C52_uniform_spanning_tree (g : graph N) fuel draws : wf_graph g -> connected_graph g ->
    2 <= List.length (g_nodes g) ->
    uniform_spanning_tree fuel g draws = NoFuel \/
    exists T, uniform_spanning_tree fuel g draws = Ok T /\ spanning_tree g T.
  Proof.
    intros WF [NE Con] L2.
    assert (Nbr : forall x, In x (g_nodes g) -> neighbors g x <> []).
    { intros x Hx E.
      assert (Y : exists y, In y (g_nodes g) /\ y <> x).
      { assert (ND := wfg_nodes g WF). destruct (g_nodes g) as [|a [|b l]]; try (simpl in L2; lia).
        inversion ND as [|? ? Ha _]; subst. destruct (eq_dec_of a x) as [->|Ha']; [exists b|exists a]; split; simpl; auto.
        intros ->. apply Ha. now left. }
      destruct Y as (y & Hy & Hyx). destruct (reach_first _ _ _ (Con x y Hx Hy)) as [H|(z & Hz & _)]; [congruence|].
      apply In_neighbors in Hz. rewrite E in Hz. destruct Hz. }
    unfold uniform_spanning_tree, uniform_run. destruct (choice_of (draws 0) (g_nodes g) NE) as (root & Er & Hr). rewrite Er. cbn [bind].
    assert (G0 : grown g root [root] [(root, None)] []).
    { constructor; cbn.
      - constructor.
      - repeat constructor. intros [].
      - intro x. tauto.
      - intros x [<-|[]]. exact Hr.
      - now rewrite eqb_refl.
      - intros p c []. }
    destruct (grow_spec g WF Nbr root fuel draws (g_nodes g) 1 _ _ _ G0) as [E|(j & tree & next & es & E & G & I)]; auto.
    - left. rewrite E. reflexivity.
    - right. rewrite E. cbn [bind fst snd]. destruct (edges_of g root tree next es G) as (ess & Em & NDe & Ie).
      rewrite Em. cbn [bind]. eexists. split; [reflexivity|].
      assert (R := gr_rooted _ _ _ _ _ G).
      assert (Nodes : forall x, In x (nodes_of root es) <-> In x (g_nodes g)).
      { intro x. rewrite <- (gr_nodes _ _ _ _ _ G). split; [apply (gr_in _ _ _ _ _ G)|]. intro Hx. apply I. auto. }
      assert (Kid : exists p c, In (p, c) es /\ p = root).
      { assert (Y : exists y, In y (g_nodes g) /\ y <> root).
        { assert (ND := wfg_nodes g WF). destruct (g_nodes g) as [|a [|b l]]; try (simpl in L2; lia).
          inversion ND as [|? ? Ha _]; subst. destruct (eq_dec_of a root) as [->|Ha']; [exists b|exists a]; split; simpl; auto.
          intros ->. apply Ha. now left. }
        destruct Y as (y & Hy & Hyx). apply Nodes in Hy.
        destruct (reach_first _ _ _ (rooted_reach root es y R Hy)) as [H|(z & Hz & _)]; [congruence|]. eauto. }
      assert (NodesT : forall x, In x (set_of (flat_map (fun e => [fst e; snd e]) (concat ess))) <-> In x (nodes_of root es)).
      { intro x. rewrite In_set_of, in_flat_map. split.
        - intros ([c p] & H & Hx). apply Ie in H. destruct (parent_in root es p c R H) as (H1 & H2 & _).
          destruct Hx as [<-|[<-|[]]]; simpl; auto.
        - intros [<-|H].
          + destruct Kid as (p & c & H & ->). exists (c, root). split; [now apply Ie|simpl; auto].
          + apply in_map_iff in H. destruct H as ([p c] & <- & H). exists (c, p). split; [now apply Ie|simpl; auto]. }
      split; [|split].
      + apply (rooted_is_tree root es); cbn; auto. apply NoDup_set_of.
      + intro n. cbn. rewrite NodesT. apply Nodes.
      + intros u v [H|H]; cbn in H; apply Ie in H; apply (gr_next _ _ _ _ _ G) in H; [tauto|]. apply adj_sym. tauto.
  Qed.
  (** A graph with one node gives the empty graph, which is no spanning tree. *)
  Theorem C52_one_node_refuted (x : N) fuel draws :
    uniform_spanning_tree fuel (mkGraph [x] []) draws = Ok (mkGraph [] []) /\
    ~ spanning_tree (mkGraph [x] []) (mkGraph [] []).
  Proof.
    split.
    - unfold uniform_spanning_tree, uniform_run. cbn [g_nodes]. unfold choice. cbn [List.length]. rewrite Nat.mod_1_r. cbn [nth_error of_option bind].
      assert (G : grow fuel (mkGraph [x] []) draws 1 [x] [(x, None)] [x] = Ok (1, ([x], [(x, None)]))).
      { cbn [grow]. destruct fuel; cbn; rewrite eqb_refl; reflexivity. }
      rewrite G. cbn. rewrite eqb_refl. reflexivity.
    - intros (_ & H & _). cbn in H. apply (proj2 (H x)). auto.
  Qed.
End Uniform.

Section Random.
  Context {N L : Type} {EN : EqB N} {EL : EqB L}.

  (** The intended weight of an edge: the random draw plus the surcharge of
      every region column in which the ends differ or have no region. *)
  Definition same_region (region : string -> N -> option (option L)) (key : string) (e : N * N) : bool :=
    match region key (fst e), region key (snd e) with
    | Some (Some a), Some (Some b) => eqb a b
    | _, _ => false
    end.
  Definition intended_weight region (surcharge : dict string Q) (u : N * N -> Q) (e : N * N) : Q :=
    (u e + qsum (map (fun kv => if same_region region (fst kv) e then 0 else snd kv) surcharge))%Q.
  Definition total_weight region surcharge u (T : graph N) : Q :=
    qsum (map (intended_weight region surcharge u) (g_edges T)).

  Lemma edge_weight_ok (region : string -> N -> option (option L)) u e (d : dict string Q) :
    (forall key n, In key (dkeys d) -> n = fst e \/ n = snd e -> region key n <> None) ->
    exists w, edge_weight region d u e = Ok w /\ (w == intended_weight region d u e)%Q.
  Proof.
    unfold edge_weight, intended_weight. intro H. generalize (u e) as x. intro x.
    revert x. induction d as [|[k s] d IH]; intro x.
    - exists x. split; [reflexivity|]. cbn. ring.
    - cbn [foldM fst snd].
      assert (Ha := H k (fst e) (or_introl eq_refl) (or_introl eq_refl)). assert (Hb := H k (snd e) (or_introl eq_refl) (or_intror eq_refl)).
      destruct (region k (fst e)) as [a|] eqn:Ea; [|congruence]. destruct (region k (snd e)) as [b|] eqn:Eb; [|congruence]. cbn [bind of_option].
      destruct (IH (fun key n Hk => H key n (or_intror Hk)) (if negb (eqb a b) || eqb a None || eqb b None then (x + s)%Q else x)) as (w & E & Q).
      exists w. split; [exact E|]. rewrite Q. cbn [map]. rewrite qsum_cons. cbn [fst snd]. set (rest := qsum _). unfold same_region. rewrite Ea, Eb.
      destruct (eqb_spec a b) as [<-|Hab].
      + destruct a as [a|].
        * rewrite eqb_refl. destruct (eqb_spec (Some a) (@None L)); [discriminate|]. cbn [negb orb]. ring.
        * destruct (eqb_spec (@None L) None); [|congruence]. cbn [negb orb]. ring.
      + cbn [negb orb].
        destruct a as [a|], b as [b|]; try ring. destruct (eqb_spec a b) as [->|]; [congruence|]. ring.
  Qed.
  Lemma edge_weight_err (region : string -> N -> option (option L)) u e (d : dict string Q) err :
    edge_weight region d u e = Err err -> err = KeyError.
  Proof.
    unfold edge_weight. generalize (u e). induction d as [|[k s] d IH]; intros x H; [discriminate|]. cbn [foldM fst snd] in H.
    destruct (region k (fst e)); [|cbn in H; congruence]. destruct (region k (snd e)); [|cbn in H; congruence]. cbn [bind of_option] in H. eauto.
  Qed.
  Lemma edge_weight_fuel (region : string -> N -> option (option L)) u e (d : dict string Q) : edge_weight region d u e <> NoFuel.
  Proof.
    unfold edge_weight. generalize (u e). induction d as [|[k s] d IH]; intros x H; [discriminate|]. cbn [foldM fst snd] in H.
    destruct (region k (fst e)); [|cbn in H; congruence]. destruct (region k (snd e)); [|cbn in H; congruence]. cbn [bind of_option] in H. eapply IH; eauto.
  Qed.

  Lemma weights_dict (f : N * N -> Q) (l : list (N * N)) e : In e l -> dget_or 0%Q (map (fun e => (e, f e)) l) e = f e.
  Proof.
    unfold dget_or. induction l as [|a l IH]; intros H; [destruct H|]. cbn [map dget]. destruct (eqb_spec e a) as [->|Hn]; auto.
    apply IH. destruct H; congruence.
  Qed.

  (** The random spanning tree: a spanning tree of minimum total weight among
      all spanning trees, whatever the draws and surcharges. *)
  Theorem C93_random_spanning_tree (region : string -> N -> option (option L)) d u (g : graph N) :
    wf_graph g -> connected_graph g ->
    (forall key n, In key (dkeys d) -> In n (g_nodes g) -> region key n <> None) ->
    exists T, random_spanning_tree region d u g = Ok T /\ spanning_tree g T /\ incl (g_edges T) (g_edges g) /\
      forall T', spanning_tree g T' -> incl (g_edges T') (g_edges g) ->
        (total_weight region d u T <= total_weight region d u T')%Q.
  Proof.
    intros WF Con Reg.
    assert (Ew : forall e, In e (g_edges g) -> exists w, edge_weight region d u e = Ok w /\ (w == intended_weight region d u e)%Q).
    { intros [a b] He. apply edge_weight_ok. destruct (wfg_ends g WF a b He) as [Ha Hb]. intros key n Hk [-> | ->]; auto. }
    set (f := fun e => match edge_weight region d u e with Ok w => w | _ => 0%Q end).
    assert (Ef : forall e, In e (g_edges g) -> edge_weight region d u e = Ok (f e) /\ (f e == intended_weight region d u e)%Q).
    { intros e He. destruct (Ew e He) as (w & E & Q). unfold f. rewrite E. auto. }
    unfold random_spanning_tree.
    rewrite (mapM_all_Ok _ (fun e => (e, f e))) by (intros e He; rewrite (proj1 (Ef e He)); reflexivity). cbn [bind].
    eexists. split; [reflexivity|]. set (w := fun e => dget_or 0%Q (map (fun e => (e, f e)) (g_edges g)) e).
    assert (Ww : forall e, In e (g_edges g) -> (w e == intended_weight region d u e)%Q).
    { intros e He. unfold w. rewrite weights_dict by auto. now apply Ef. }
    set (T := mkGraph (g_nodes g) (kruskal (fun x => x) (sort_edges w (g_edges g)))).
    assert (ST : spanning_tree g T) by (apply kruskal_tree; auto; apply sort_edges_perm).
    assert (Inc : incl (g_edges T) (g_edges g)).
    { intros e He. cbn in He. apply kruskal_incl in He. eapply Permutation_in; [apply sort_edges_perm|exact He]. }
    split; auto. split; auto. intros T' ST' Inc'.
    assert (Sum : forall X, incl (g_edges X) (g_edges g) -> (total_weight region d u X == qsum (map w (g_edges X)))%Q).
    { intros X HX. apply qsum_map_eq. intros e He. symmetry. apply Ww. now apply HX. }
    rewrite (Sum T Inc), (Sum T' Inc').
    assert (Len : forall X, spanning_tree g X -> S (List.length (map w (g_edges X))) = List.length (g_nodes g)).
    { intros X (HX & HN & _). rewrite map_length, (tree_size X HX). apply Permutation_length, NoDup_Permutation; auto; [apply (wfg_nodes X (tree_wf X HX))|apply (wfg_nodes g WF)]. }
    apply (dominated_sum (List.length (map w (g_edges T)))); auto.
    - apply Len in ST, ST'. lia.
    - intro t. assert (C := kruskal_count_le w g T' t WF Con ST' Inc'). unfold count in C.
      assert (Cm : forall l, cnt t (map w l) = List.length (filter (le_t w t) l)).
      { intro l. unfold cnt, le_t. induction l as [|e l IH]; auto. cbn [map filter]. destruct (Qle_bool (w e) t); cbn [List.length]; auto. }
      rewrite !Cm. exact C.
  Qed.
  (** The only failure is KeyError, for a node without a region column. *)
  Theorem C93_errors (region : string -> N -> option (option L)) d u (g : graph N) :
    (forall T, random_spanning_tree region d u g <> Ok T) ->
    random_spanning_tree region d u g = Err KeyError.
  Proof.
    unfold random_spanning_tree. intro H.
    assert (X : forall l, (exists ws, mapM (fun e => w <- edge_weight region d u e ;; Ok (e, w)) l = Ok ws) \/
      mapM (fun e => w <- edge_weight region d u e ;; Ok (e, w)) l = Err KeyError).
    { induction l as [|e l IH]; [left; now exists []|]. cbn [mapM].
      destruct (edge_weight region d u e) as [w|err|] eqn:E.
      - cbn [bind]. destruct IH as [(ws & ->)| ->]; [left; cbn [bind]; eexists; reflexivity|right; reflexivity].
      - right. cbn [bind]. f_equal. eapply edge_weight_err; eauto.
      - elim (edge_weight_fuel _ _ _ _ E). }
    destruct (X (g_edges g)) as [(ws & E)|E]; rewrite E in *; [|reflexivity]. cbn [bind] in H. elim (H _ eq_refl).
  Qed.
End Random.

(** Non-vacuity: a triangle with a tail. *)
Definition kite : graph nat := mkGraph [0; 1; 2; 3] [(0, 1); (1, 2); (0, 2); (2, 3)].
Lemma kite_ok : wf_graph kite /\ connected_graph kite /\ 2 <= List.length (g_nodes kite).
Proof.
  assert (WF : wf_graph kite) by wfg. split; auto. split; [|cbn; lia]. split; [discriminate|].
  assert (Sp := is_connected_spec kite WF). cbn [g_nodes kite] in Sp. destruct Sp as (b & Eb & Ib).
  assert (E : is_connected kite = Ok true) by (vm_compute; reflexivity). assert (b = true) by congruence. subst b.
  exact (proj1 Ib eq_refl).
Qed.
Example C52_nonvacuous : exists T, uniform_spanning_tree 10 kite (fun i => i) = Ok T /\ List.length (g_edges T) = 3.
Proof. eexists. split; vm_compute; reflexivity. Qed.
Definition ex_region (key : string) (n : nat) : option (option nat) :=
  if eqb key "county"%string then Some (match n with 3 => None | 0 => Some 0 | _ => Some 1 end) else None.
Definition ex_u (e : nat * nat) : Q := match e with (0, 2) => 1 # 10 | (0, 1) => 2 # 10 | _ => 5 # 10 end.
Example C93_nonvacuous :
  (forall key n, In key (dkeys [("county"%string, 1%Q)]) -> In n (g_nodes kite) -> ex_region key n <> None) /\
  (exists T, random_spanning_tree ex_region [] ex_u kite = Ok T /\ g_edges T = [(0, 2); (0, 1); (2, 3)]) /\
  (exists T, random_spanning_tree ex_region [("county"%string, 1%Q)] ex_u kite = Ok T /\ g_edges T = [(1, 2); (0, 2); (2, 3)]) /\
  random_spanning_tree ex_region [("town"%string, 1%Q)] ex_u kite = Err KeyError.
Proof.
  split; [intros key n [<-|[]] _; discriminate|]. split; [eexists; split; vm_compute; reflexivity|].
  split; [eexists; split; vm_compute; reflexivity|]. vm_compute. reflexivity.
Qed.

Print Assumptions C52_uniform_spanning_tree.
Print Assumptions C52_one_node_refuted.
Print Assumptions C93_random_spanning_tree.
Print Assumptions C93_errors.
