(** C83: the number of spanning trees of each district. *)
From Coq Require Import List Bool Arith ZArith Lia Permutation.
From Verif Require Import Base M_Graph M_Partition S_Partition L_Partition P_Partition M_Machine S_Machine L_Sums M_Contiguity S_Contiguity L_Search P_Contiguity
  S_Tree L_Locality M_SpanningCount L_Det L_MatrixTree.
Import ListNotations.
Local Open Scope Z_scope.
Local Open Scope list_scope.

Section Count.
  Context {N P : Type} {EN : EqB N} {EP : EqB P}.
  Variable weight : N * N -> Z.
  Implicit Types (g : graph N).

  (** ** Specification: the edge sets of the spanning trees of [g], as sublists
      of its edge list. *)
  Definition tree_of g (T : list (N * N)) : Prop :=
    (exists f, T = filter f (g_edges g)) /\ spanning_tree g (mkGraph (g_nodes g) T).
  Definition tree_weight (T : list (N * N)) : Z := fold_right (fun e x => weight e * x) 1 T.

  (** ** Lemmas *)
  Lemma total_filter (f : N * N -> bool) E : total (map weight (filter f E)) = total (map (fun e => weight e * (if f e then 1 else 0)) E).
  Proof. induction E as [|e E IH]; cbn [filter map total]; [reflexivity|]. destruct (f e); cbn [map total]; lia. Qed.
  Lemma joins_sum (u a b : N) l : NoDup l -> In a l -> In b l ->
    total (map (fun x => if joins u x (a, b) then 1 else 0) l) = (if eqb a u then 1 else if eqb b u then 1 else 0).
  Proof.
    intros ND Ha Hb. unfold joins. cbn [fst snd].
    assert (G : forall y, In y l -> total (map (fun x => if eqb y x then 1 else 0) l) = 1).
    { clear - ND. induction ND as [|y l Hn ND IH]; [intros x []|]. intros x [->|Hx]; cbn [map total].
      - rewrite eqb_refl. rewrite total_zero; [reflexivity|]. intros z Hz. destruct (eqb_spec x z) as [->|]; [contradiction|reflexivity].
      - rewrite (IH x Hx). destruct (eqb_spec x y) as [->|]; [contradiction|reflexivity]. }
    destruct (eqb_spec a u) as [->|Hau]; [|destruct (eqb_spec b u) as [->|Hbu]].
    - etransitivity; [|apply (G b Hb)]. apply (f_equal total), map_ext. intro x. cbn [andb]. destruct (eqb_spec b x) as [->|Hbx]; [reflexivity|]. cbn [orb].
      destruct (eqb_spec u x) as [->|]; [|reflexivity]. destruct (eqb_spec b x); [contradiction|reflexivity].
    - etransitivity; [|apply (G a Ha)]. apply (f_equal total), map_ext. intro x. cbn [andb orb]. now rewrite andb_true_r.
    - apply total_zero. intros x _. cbn [andb orb]. now rewrite andb_false_r.
  Qed.
  Lemma entry_lap g u v : wf_graph g -> In u (g_nodes g) -> In v (g_nodes g) -> laplacian_entry weight g u v = lap weight (g_edges g) u v.
  Proof.
    intros W Hu Hv. unfold laplacian_entry, adjacency, lap. rewrite total_filter. destruct (eqb_spec u v) as [<-|Hne].
    - replace (total (map (fun v => total (map weight (filter (joins u v) (g_edges g)))) (g_nodes g)))
        with (total (map (fun e => weight e * total (map (fun x => if joins u x e then 1 else 0) (g_nodes g))) (g_edges g))).
      + transitivity (total (map (fun e => weight e * total (map (fun x => if joins u x e then 1 else 0) (g_nodes g)) + (-1) * (weight e * (if joins u u e then 1 else 0))) (g_edges g))); [rewrite total_add, total_scale; lia|].
        apply (f_equal total), map_ext_in. intros [a b] He. destruct (wfg_ends g W a b He) as [Ha Hb]. rewrite (joins_sum u a b _ (wfg_nodes g W) Ha Hb).
        unfold joins, inc. cbn [fst snd]. destruct (eqb_spec a u), (eqb_spec b u); cbn [andb orb]; ring.
      + transitivity (total (map (fun e => total (map (fun x => weight e * (if joins u x e then 1 else 0)) (g_nodes g))) (g_edges g))).
        * apply (f_equal total), map_ext. intro e. now rewrite total_scale.
        * rewrite total_swap. apply (f_equal total), map_ext. intro x. symmetry. apply total_filter.
    - transitivity (total (map (fun e => (-1) * (weight e * (if joins u v e then 1 else 0))) (g_edges g))); [rewrite total_scale; lia|].
      apply (f_equal total), map_ext. intros [a b]. unfold joins, inc. cbn [fst snd].
      destruct (eqb_spec a u), (eqb_spec b u), (eqb_spec a v), (eqb_spec b v); subst; try contradiction; cbn [andb orb]; ring.
  Qed.
  Lemma sub_ex (E T : list (N * N)) : sub E T <-> exists f, T = filter f E.
  Proof. split; [intro H; exists (fun e => mem e T); exact H|]. intros [f ->]. apply sub_filter. Qed.
  Lemma forest_tree g r rest (T : list (N * N)) : wf_graph g -> g_nodes g = r :: rest -> forest [r] rest (g_edges g) T <-> tree_of g T.
  Proof.
    intros W En. unfold forest, tree_of. rewrite <- sub_ex. split.
    - intros (H1 & H2 & H3). split; [exact H1|]. split; [|split; [intro n; tauto|]].
      + split.
        * split; cbn [g_nodes g_edges].
          -- apply W.
          -- eapply sub_NoDup; [apply W|exact H1].
          -- intros u v H. apply (wfg_ends g W). eapply sub_incl; eauto.
          -- intros u v H H'. apply (wfg_once g W); eapply sub_incl; eauto.
        * cbn [g_nodes]. assert (R : forall u, In u (g_nodes g) -> reach (adj (mkGraph (g_nodes g) T)) u r).
          { intros u Hu. rewrite En in Hu. destruct Hu as [<-|Hu]; [constructor|]. destruct (H2 u Hu) as (s & [<-|[]] & Hr). exact Hr. }
          intros u v Hu Hv. eapply reach_trans; [apply R, Hu|]. apply reach_sym; [intros a b; apply adj_sym|]. now apply R.
        * cbn [g_nodes g_edges]. rewrite H3, En. reflexivity.
      + intros u v [H|H]; [left|right]; eapply sub_incl; eauto.
    - intros [H1 (Tr & _ & _)]. split; [exact H1|]. split.
      + intros u Hu. exists r. split; [now left|]. apply (tree_connected _ Tr); cbn [g_nodes]; rewrite En; cbn; auto.
      + pose proof (tree_size _ Tr) as Hs. cbn [g_nodes g_edges] in Hs. rewrite En in Hs. cbn in Hs. lia.
  Qed.
  Lemma prod_weight T : prod weight T = tree_weight T.
  Proof. induction T as [|e T IH]; cbn; [reflexivity|]. now rewrite IH. Qed.
  Lemma value_minor g a b rest : wf_graph g -> g_nodes g = a :: b :: rest ->
    num_spanning_trees_in_graph weight g = Ok (Z.abs (D (b :: rest) (columns weight (g_edges g) (b :: rest)))) /\
    Z.abs (det (map (fun u => map (laplacian_entry weight g u) (b :: rest)) (b :: rest))) = Z.abs (D (b :: rest) (columns weight (g_edges g) (b :: rest))).
  Proof.
    intros W En.
    assert (M : forall cs, (forall c, In c cs -> In c (g_nodes g)) -> length cs = length (b :: rest) ->
      det (map (fun u => map (laplacian_entry weight g u) cs) (b :: rest)) = D (b :: rest) (columns weight (g_edges g) cs)).
    { intros cs Hc Hl. rewrite <- det_D by (unfold columns; rewrite map_length; exact Hl). f_equal. apply map_ext_in. intros u Hu. unfold columns. rewrite map_map. apply map_ext_in. intros c Hc'.
      apply entry_lap; auto. rewrite En. now right. }
    split.
    - unfold num_spanning_trees_in_graph, laplacian_matrix. rewrite En.
      transitivity (Ok (Z.abs (det (map (delete_at 1) (map (fun u => map (laplacian_entry weight g u) (a :: b :: rest)) (b :: rest)))))); [reflexivity|]. rewrite map_map.
      transitivity (Ok (Z.abs (det (map (fun u => map (laplacian_entry weight g u) (a :: rest)) (b :: rest))))); [reflexivity|]. f_equal.
      rewrite M; [|intros c Hc; rewrite En; destruct Hc as [<-|Hc]; [now left|right; now right]|reflexivity].
      cbn [columns map]. rewrite (D_exchange _ _ (fun u => lap weight (g_edges g) u b)); [lia|].
      intros r Hr. rewrite map_map. change (lap weight (g_edges g) r a = - (lap weight (g_edges g) r b + total (map (lap weight (g_edges g) r) rest))).
      pose proof (lap_row weight (g_edges g) (g_nodes g) r (wfg_nodes g W)) as H. rewrite En in H. cbn [map total] in H. rewrite <- En in H.
      assert (total_row : lap weight (g_edges g) r a + (lap weight (g_edges g) r b + total (map (lap weight (g_edges g) r) rest)) = 0); [|lia].
      apply H; [rewrite En; now right|]. intros [x y] He. left. now apply (wfg_ends g W).
    - rewrite M; [reflexivity| |reflexivity]. intros c Hc. rewrite En. now right.
  Qed.

  (** ** Theorems *)

  (** The value is the weighted number of spanning trees. *)
  Theorem C83_weighted : forall g, wf_graph g -> (2 <= length (g_nodes g))%nat ->
    exists x, num_spanning_trees_in_graph weight g = Ok (Z.abs x) /\ sums_to tree_weight (tree_of g) x.
  Proof.
    intros g W Hl. destruct (g_nodes g) as [|a [|b rest]] eqn:En; cbn [length] in Hl; try lia.
    destruct (value_minor g a b rest W En) as [E _]. eexists. split; [exact E|].
    pose proof (matrix_tree weight (length (g_edges g)) (g_edges g) [a] (b :: rest) eq_refl (wfg_edges g W)) as M.
    eapply sums_to_ext; [intro T; apply (forest_tree g a (b :: rest) T W En)|]. eapply sums_to_w; [intros T _; apply prod_weight|]. apply M.
    - cbn [app]. rewrite <- En. apply W.
    - intros x y He. cbn [app]. rewrite <- En. now apply (wfg_ends g W).
  Qed.
  (** Without weights it is their number. *)
  Theorem C83_count : forall g, wf_graph g -> (2 <= length (g_nodes g))%nat -> (forall e, In e (g_edges g) -> weight e = 1) ->
    exists k, num_spanning_trees_in_graph weight g = Ok (Z.of_nat k) /\ numbers (tree_of g) k.
  Proof.
    intros g W Hl Hw. destruct (C83_weighted g W Hl) as (x & E & s & ND & I & Ex). exists (length s). split; [|exists s; auto].
    rewrite E. f_equal. rewrite Ex, vsum_total. replace (map tree_weight s) with (map (fun _ : list (N * N) => 1) s).
    - clear. assert (H : total (map (fun _ : list (N * N) => 1) s) = Z.of_nat (length s)) by (induction s as [|T s IH]; cbn [map total length]; lia). rewrite H. lia.
    - apply map_ext_in. intros T HT. apply I in HT. destruct HT as [[f ->] _]. clear - Hw. induction (g_edges g) as [|e E IH]; [reflexivity|]. cbn [filter].
      destruct (f e); cbn [tree_weight fold_right]; [|apply IH; intros; apply Hw; now right]. rewrite (Hw e (or_introl eq_refl)). fold (tree_weight (filter f E)). rewrite <- IH; [reflexivity|]. intros; apply Hw; now right.
  Qed.
  (** It does not matter that column 1 is deleted instead of column 0. *)
  Theorem C83_any_column : forall g a b rest, wf_graph g -> g_nodes g = a :: b :: rest ->
    num_spanning_trees_in_graph weight g = Ok (Z.abs (det (map (fun u => map (laplacian_entry weight g u) (b :: rest)) (b :: rest)))).
  Proof. intros g a b rest W En. destruct (value_minor g a b rest W En) as [E ->]. exact E. Qed.
  (** One node: an error although there is exactly one spanning tree. *)
  Theorem C83_single_node_refuted : forall g a, wf_graph g -> g_nodes g = [a] ->
    num_spanning_trees_in_graph weight g = Err IndexError /\ numbers (tree_of g) 1.
  Proof.
    intros g a W En. split.
    - unfold num_spanning_trees_in_graph, laplacian_matrix. rewrite En. reflexivity.
    - pose proof (matrix_tree weight (length (g_edges g)) (g_edges g) [a] [] eq_refl (wfg_edges g W)) as M. destruct M as (s & ND & I & E).
      + cbn [app]. rewrite <- En. apply W.
      + intros x y He. cbn [app]. rewrite <- En. now apply (wfg_ends g W).
      + exists [[]]. split; [constructor; [intros []|constructor]|]. split; [|reflexivity]. intro T. rewrite <- (forest_tree g a [] T W En). cbn [In]. split.
        * intros [<-|[]]. split; [apply sub_nil|]. split; [intros x []|reflexivity].
        * intros (_ & _ & Hl). left. destruct T; [reflexivity|discriminate].
  Qed.
  (** A district that is not connected has none. *)
  Theorem C83_disconnected : forall g u v, wf_graph g -> In u (g_nodes g) -> In v (g_nodes g) -> ~ reach (adj g) u v ->
    num_spanning_trees_in_graph weight g = Ok 0.
  Proof.
    intros g u v W Hu Hv Hn. destruct (C83_weighted g W) as (x & E & s & ND & I & Ex).
    - destruct (g_nodes g) as [|a [|b rest]]; [destruct Hu| |cbn; lia]. exfalso. apply Hn. destruct Hu as [<-|[]], Hv as [<-|[]]. constructor.
    - rewrite E, Ex. destruct s as [|T s]; [reflexivity|]. exfalso. destruct (proj1 (I T) (or_introl eq_refl)) as [_ (Tr & Hnodes & Hadj)]. apply Hn.
      eapply reach_mono; [exact Hadj|]. apply (tree_connected _ Tr); assumption.
  Qed.
  (** The updater: one entry per district. *)
  Theorem C83_updater : forall g (A : assignment N P), wf_graph g -> coherent (g_nodes g) A -> (forall e, In e (g_edges g) -> weight e = 1) ->
    (forall p, In p (labels A) -> exists u v, u <> v /\ member g A p u /\ member g A p v) ->
    exists d, num_spanning_trees weight g A = Ok d /\ dkeys d = labels A /\
      forall p s, dget (a_parts A) p = Some s -> exists k, dget d p = Some (Z.of_nat k) /\ numbers (tree_of (subgraph g s)) k.
  Proof.
    intros g A W C Hw H2. unfold num_spanning_trees.
    assert (Each : forall p s, In (p, s) (a_parts A) -> exists k, num_spanning_trees_in_graph weight (subgraph g s) = Ok (Z.of_nat k) /\ numbers (tree_of (subgraph g s)) k).
    { intros p s Hps. apply C83_count.
      - now apply wf_subgraph.
      - destruct (H2 p) as (u & v & Hne & [Hu Du] & [Hv Dv]); [change p with (fst (p, s)); now apply in_map|].
        assert (Ms : forall n, In n (g_nodes g) -> district A n = Some p -> In n s).
        { intros n Hn Dn. destruct (proj1 (coh_agree _ _ C n p) Dn) as (s' & Hs & Hin). rewrite (In_dget _ _ _ (coh_part_keys _ _ C) Hps) in Hs. injection Hs as <-. exact Hin. }
        assert (Iu : In u (g_nodes (subgraph g s))) by (apply subgraph_nodes; auto). assert (Iv : In v (g_nodes (subgraph g s))) by (apply subgraph_nodes; auto).
        destruct (g_nodes (subgraph g s)) as [|x [|y l]]; [destruct Iu| |cbn; lia]. exfalso. apply Hne. destruct Iu as [<-|[]], Iv as [<-|[]]. reflexivity.
      - intros e He. apply Hw. unfold subgraph in He. cbn in He. apply filter_In in He. tauto. }
    assert (ND : NoDup (dkeys (a_parts A))) by apply C. unfold labels. induction (a_parts A) as [|[p s] l IH]; [exists []; split; [reflexivity|]; split; [reflexivity|]; discriminate|].
    cbn [mapM fst snd]. destruct (Each p s (or_introl eq_refl)) as (k & Ek & Nk). rewrite Ek. cbn [bind]. inversion ND as [|? ? Hn ND']; subst.
    destruct IH as (d & Ed & Kd & Hd); [intros q t Hq; apply Each with q; now right|exact ND'|]. rewrite Ed. cbn [bind]. exists ((p, Z.of_nat k) :: d). split; [reflexivity|]. split; [unfold dkeys in *; cbn [map fst]; now rewrite Kd|].
    intros q t. cbn [dget]. destruct (eqb_spec q p) as [->|].
    - intros [= <-]. eauto.
    - apply Hd.
  Qed.
End Count.

(** ** Concrete case: a triangle with a pendant node has three spanning trees. *)
Definition lollipop : graph nat := mkGraph [0; 1; 2; 3]%nat [(0, 1); (1, 2); (2, 0); (2, 3)]%nat.
Example C83_nonvacuous : wf_graph lollipop /\ num_spanning_trees_in_graph (fun _ => 1) lollipop = Ok 3.
Proof. split; [wfg|reflexivity]. Qed.

Print Assumptions C83_weighted.
Print Assumptions C83_count.
Print Assumptions C83_any_column.
Print Assumptions C83_single_node_refuted.
Print Assumptions C83_disconnected.
Print Assumptions C83_updater.
