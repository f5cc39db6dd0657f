(** Counting the spanning trees that one edge cut splits into two given sets:
    one for each choice of a spanning tree of either set and an edge between
    them. *)
From Coq Require Import List Bool Arith ZArith Lia Permutation.
From Verif Require Import Base M_Graph M_Partition S_Partition L_Partition M_Machine S_Machine S_Contiguity L_Search M_Tree S_Tree L_Tree
  S_TreeCuts P_Tree L_Kruskal L_Locality M_SpanningCount L_MatrixTree P_SpanningCount.
Import ListNotations.
Local Open Scope nat_scope.
Local Open Scope list_scope.

Section Seam.
  Context {N : Type} {EN : EqB N}.
  Variable H : graph N.
  Hypothesis WF : wf_graph H.
  Variables SA SB : list N.
  Hypothesis cover : forall n, In n (g_nodes H) -> In n SA \/ In n SB.
  Hypothesis apart : forall n, In n SA -> In n SB -> False.
  Hypothesis inA : incl SA (g_nodes H).
  Hypothesis inB : incl SB (g_nodes H).
  Notation HA := (subgraph H SA).
  Notation HB := (subgraph H SB).
  Notation graph_of T := (mkGraph (g_nodes H) T).

  (** The edges between the two sets. *)
  Definition between (e : N * N) : bool := (mem (fst e) SA && mem (snd e) SB) || (mem (fst e) SB && mem (snd e) SA).
  Definition seam : list (N * N) := filter between (g_edges H).
  (** Some edge of the tree [T] has exactly the nodes of [SA] on one side. *)
  Definition splits (T : graph N) : Prop := exists u v, adj T u v /\ forall x, side T u v x <-> In x SA.

  Lemma In_seam u v : In (u, v) seam <-> In (u, v) (g_edges H) /\ ((In u SA /\ In v SB) \/ (In u SB /\ In v SA)).
  Proof. unfold seam, between. cbn [fst snd]. rewrite filter_In. cbn [fst snd]. rewrite orb_true_iff, !andb_true_iff, !mem_In. tauto. Qed.
  Lemma In_HA u v : In (u, v) (g_edges HA) <-> In (u, v) (g_edges H) /\ In u SA /\ In v SA.
  Proof. cbn [subgraph g_edges]. rewrite filter_In. cbn [fst snd]. rewrite andb_true_iff, !mem_In. tauto. Qed.
  Lemma In_HB u v : In (u, v) (g_edges HB) <-> In (u, v) (g_edges H) /\ In u SB /\ In v SB.
  Proof. cbn [subgraph g_edges]. rewrite filter_In. cbn [fst snd]. rewrite andb_true_iff, !mem_In. tauto. Qed.
  Lemma nodes_HA n : In n (g_nodes HA) <-> In n SA.
  Proof. rewrite subgraph_nodes. split; [tauto|auto]. Qed.
  Lemma nodes_HB n : In n (g_nodes HB) <-> In n SB.
  Proof. rewrite subgraph_nodes. split; [tauto|auto]. Qed.
  Lemma size : List.length (g_nodes H) = List.length (g_nodes HA) + List.length (g_nodes HB).
  Proof.
    rewrite <- app_length. apply Permutation_length, NoDup_Permutation.
    - apply WF.
    - apply NoDup_app_iff. split; [apply (wf_subgraph H SA WF)|]. split; [apply (wf_subgraph H SB WF)|]. intros x. rewrite nodes_HA, nodes_HB. eauto.
    - intro x. rewrite in_app_iff, nodes_HA, nodes_HB. split; [auto|intros [X|X]; auto].
  Qed.
  Lemma least_edges (T : graph N) : wf_graph T -> g_nodes T <> [] -> (forall u v, In u (g_nodes T) -> In v (g_nodes T) -> reach (adj T) u v) ->
    List.length (g_nodes T) <= S (List.length (g_edges T)).
  Proof.
    intros W Ne Con. destruct (kruskal_tree T (g_edges T) W (conj Ne Con) (Permutation_refl _)) as (Tr & _ & _).
    rewrite <- (tree_size _ Tr : S (List.length (kruskal (fun x => x) (g_edges T))) = List.length (g_nodes T)). apply le_n_S.
    apply NoDup_incl_length; [apply kruskal_nodup, W|]. intros e. apply kruskal_incl.
  Qed.
  Lemma tree_sub G T : tree_of G T -> sub (g_edges G) T.
  Proof. intros [Hs _]. now apply sub_ex. Qed.

  Definition glue (e : N * N) (T1 T2 : list (N * N)) : list (N * N) := filter (fun x => eqb x e || mem x T1 || mem x T2) (g_edges H).

  Section Glue.
    Variables (e : N * N) (T1 T2 : list (N * N)).
    Hypothesis He : In e seam.
    Hypothesis H1 : tree_of HA T1.
    Hypothesis H2 : tree_of HB T2.
    Lemma T1_in u v : In (u, v) T1 -> In (u, v) (g_edges H) /\ In u SA /\ In v SA.
    Proof using H1. intro X. apply In_HA. exact (sub_incl (fun _ => 0%Z) _ _ _ (tree_sub _ _ H1) X). Qed.
    Lemma T2_in u v : In (u, v) T2 -> In (u, v) (g_edges H) /\ In u SB /\ In v SB.
    Proof using H2. intro X. apply In_HB. exact (sub_incl (fun _ => 0%Z) _ _ _ (tree_sub _ _ H2) X). Qed.
    Lemma In_glue x : In x (glue e T1 T2) <-> x = e \/ In x T1 \/ In x T2.
    Proof using He H1 H2.
      unfold glue. rewrite filter_In, !orb_true_iff, !mem_In. assert (Ee : eqb x e = true <-> x = e) by (destruct (eqb_spec x e); split; congruence). rewrite Ee.
      split; [tauto|]. intro X. split; [|tauto]. destruct X as [-> |[X|X]].
      - destruct e as [u v]. now apply In_seam in He.
      - destruct x as [u v]. now apply T1_in in X.
      - destruct x as [u v]. now apply T2_in in X.
    Qed.
    Lemma glue_wf : wf_graph (graph_of (glue e T1 T2)).
    Proof using WF.
      assert (I : incl (glue e T1 T2) (g_edges H)) by (intros x X; apply filter_In in X; tauto).
      constructor; cbn [g_nodes g_edges].
      - apply WF.
      - apply NoDup_filter, WF.
      - intros u v X. apply (wfg_ends _ WF), I, X.
      - intros u v X Y. apply (wfg_once _ WF); auto.
    Qed.
    Lemma glue_size : List.length (glue e T1 T2) = S (List.length T1 + List.length T2).
    Proof using He H1 H2 WF apart.
      assert (L : List.length (glue e T1 T2) = List.length (e :: T1 ++ T2)); [|rewrite L; cbn; now rewrite app_length]. apply Permutation_length, NoDup_Permutation.
      - apply NoDup_filter, WF.
      - destruct e as [u v]. apply In_seam in He. destruct He as [_ He']. constructor.
        + rewrite in_app_iff. intros [X|X]; [apply T1_in in X|apply T2_in in X]; destruct X as (_ & X1 & X2), He' as [[Y1 Y2]|[Y1 Y2]]; eauto.
        + apply NoDup_app_iff. split; [eapply sub_NoDup; [|apply tree_sub, H1]; apply (wf_subgraph H SA WF)|].
          split; [eapply sub_NoDup; [|apply tree_sub, H2]; apply (wf_subgraph H SB WF)|]. intros [a b] X Y. apply T1_in in X. apply T2_in in Y. destruct X as (_ & X & _), Y as (_ & Y & _). eauto.
      - intro x. rewrite In_glue. cbn [In]. rewrite in_app_iff. intuition.
    Qed.
    (** The edge, its end in [SA] first. *)
    Lemma ends : exists u v, (e = (u, v) \/ e = (v, u)) /\ In u SA /\ In v SB.
    Proof using He. destruct e as [u v]. apply In_seam in He. destruct He as [_ [[X Y]|[X Y]]]; [exists u, v|exists v, u]; auto. Qed.
    Lemma glue_side u v : (e = (u, v) \/ e = (v, u)) -> In u SA -> In v SB -> forall x, side (graph_of (glue e T1 T2)) u v x <-> In x SA.
    Proof using He H1 H2 apart inA.
      intros Ee Hu Hv x. split.
      - intro R. refine (reach_closed _ (fun y => In y SA) u x Hu _ R). intros a b Ha (Ad & N1 & N2).
        assert (G : forall p q, In (p, q) (glue e T1 T2) -> In p SA /\ In q SA \/ In p SB /\ In q SB \/ (p, q) = e).
        { intros p q X. apply In_glue in X. destruct X as [X|[X|X]]; [auto|apply T1_in in X; tauto|apply T2_in in X; tauto]. }
        destruct Ad as [Ad|Ad]; cbn in Ad; apply G in Ad; destruct Ad as [[? ?]|[[X1 X2]|X]]; auto; try (exfalso; eauto; fail);
          exfalso; destruct Ee as [Ee|Ee]; rewrite Ee in X; injection X as -> ->; auto.
      - intro Hx. destruct H1 as [_ (Tr & _ & _)]. assert (R : reach (adj (mkGraph (g_nodes HA) T1)) u x) by (apply (tree_connected _ Tr); now apply nodes_HA).
        refine (reach_mono _ _ _ _ _ R). intros a b Ad. split.
        + destruct Ad as [Ad|Ad]; cbn in Ad; [left|right]; cbn; apply In_glue; auto.
        + assert (X : In a SA /\ In b SA) by (destruct Ad as [Ad|Ad]; cbn in Ad; apply T1_in in Ad; tauto). destruct X as [Xa Xb].
          split; intros [-> ->]; eauto.
    Qed.
    Lemma glue_tree : tree_of H (glue e T1 T2).
    Proof using He H1 H2 WF apart cover inA inB.
      destruct ends as (u & v & Ee & Hu & Hv).
      assert (LA : forall x, In x SA -> reach (adj (graph_of (glue e T1 T2))) x u).
      { intros x Hx. destruct H1 as [_ (Tr & _ & _)]. assert (R : reach (adj (mkGraph (g_nodes HA) T1)) x u) by (apply (tree_connected _ Tr); now apply nodes_HA).
        refine (reach_mono _ _ _ _ _ R). intros a b [Ad|Ad]; [left|right]; cbn in *; apply In_glue; auto. }
      assert (LB : forall x, In x SB -> reach (adj (graph_of (glue e T1 T2))) x v).
      { intros x Hx. destruct H2 as [_ (Tr & _ & _)]. assert (R : reach (adj (mkGraph (g_nodes HB) T2)) x v) by (apply (tree_connected _ Tr); now apply nodes_HB).
        refine (reach_mono _ _ _ _ _ R). intros a b [Ad|Ad]; [left|right]; cbn in *; apply In_glue; auto. }
      assert (Uv : adj (graph_of (glue e T1 T2)) v u) by (destruct Ee as [Ee|Ee]; [right|left]; cbn; apply In_glue; auto).
      assert (All : forall x, In x (g_nodes H) -> reach (adj (graph_of (glue e T1 T2))) x u).
      { intros x Hx. destruct (cover x Hx) as [X|X]; auto. eapply reach_step; [apply LB, X|exact Uv]. }
      split; [eexists; reflexivity|]. split; [|split; [reflexivity|intros a b [X|X]; apply filter_In in X; [left|right]; tauto]].
      split.
      - apply glue_wf.
      - cbn [g_nodes]. intros a b Ha Hb. eapply reach_trans; [apply All, Ha|]. apply reach_sym; [intros; now apply adj_sym|]. now apply All.
      - cbn [g_nodes g_edges]. rewrite glue_size, size. destruct H1 as [_ (Tr1 & _ & _)], H2 as [_ (Tr2 & _ & _)].
        apply tree_size in Tr1. apply tree_size in Tr2. cbn [g_nodes g_edges] in Tr1, Tr2. lia.
    Qed.
    Lemma glue_splits : splits (graph_of (glue e T1 T2)).
    Proof using He H1 H2 apart inA.
      destruct ends as (u & v & Ee & Hu & Hv). exists u, v. split; [|now apply glue_side].
      destruct Ee as [Ee|Ee]; [left|right]; cbn; apply In_glue; auto.
    Qed.
  End Glue.

  Section Cut.
    Variable T : list (N * N).
    Hypothesis HT : tree_of H T.
    Hypothesis Sp : splits (graph_of T).
    Notation part S := (filter (fun e => mem (fst e) S && mem (snd e) S) T).
    Lemma T_in x : In x T -> In x (g_edges H).
    Proof using EN HT. intro X. exact (sub_incl (fun _ => 0%Z) _ _ _ (tree_sub _ _ HT) X). Qed.
    Lemma T_ends u v : In (u, v) T -> (In u SA \/ In u SB) /\ (In v SA \/ In v SB).
    Proof using EN HT WF cover. intro X. apply T_in, (wfg_ends _ WF) in X. split; apply cover; tauto. Qed.
    Lemma In_part S u v : In (u, v) (part S) <-> In (u, v) T /\ In u S /\ In v S.
    Proof. rewrite filter_In. cbn [fst snd]. rewrite andb_true_iff, !mem_In. tauto. Qed.
    Lemma cut_pieces : exists e, In e seam /\ tree_of HA (part SA) /\ tree_of HB (part SB) /\ T = glue e (part SA) (part SB).
    Proof using EN HT Sp WF cover apart inA inB.
      destruct Sp as (u & v & Auv & Sd). destruct HT as [Hsub (Tr & _ & _)].
      destruct (C50_sides _ u v Tr Auv) as (All & Dis & Con). assert (Auv' : adj (graph_of T) v u) by (unfold adj in *; tauto).
      destruct (C50_sides _ v u Tr Auv') as (_ & _ & Con'). cbn [g_nodes] in All.
      assert (Sd' : forall x, side (graph_of T) v u x <-> In x SB).
      { intro x. split; intro X.
        - assert (Hx : In x (g_nodes H)) by (apply All; auto). destruct (cover x Hx) as [Y|Y]; auto. exfalso. apply Sd in Y. apply (Dis x). auto.
        - assert (Hx : In x (g_nodes H)) by auto. apply All in Hx. destruct Hx as [Y|Y]; auto. exfalso. apply Sd in Y. apply (apart x); auto. }
      assert (Hu : In u SA) by (apply Sd; constructor). assert (Hv : In v SB) by (apply Sd'; constructor).
      assert (Only : forall a b, adj (graph_of T) a b -> In a SA -> In b SB -> a = u /\ b = v).
      { intros a b Ad Ha Hb. destruct (eqb_spec a u) as [->|Na]; [destruct (eqb_spec b v) as [->|Nb]; [auto|]|]; exfalso; apply Sd in Ha;
          (apply (apart b); [|exact Hb]); apply Sd; (eapply reach_step; [exact Ha|]); (split; [exact Ad|]); split; intros [X Y]; subst; try congruence.
        - apply (apart v); [|exact Hv]. now apply Sd. }
      assert (He : exists e, In e T /\ (e = (u, v) \/ e = (v, u))) by (destruct Auv as [X|X]; cbn in X; eauto).
      destruct He as (e & HeT & Ee). exists e.
      assert (Hse : In e seam).
      { assert (X := T_in e HeT). destruct Ee; subst e; apply In_seam; auto. }
      assert (Mem : forall x, In x T <-> x = e \/ In x (part SA) \/ In x (part SB)).
      { intros [a b]. rewrite !In_part. split; [|intros [-> |[X|X]]; tauto]. intro X. destruct (T_ends a b X) as [[Y|Y] [Z1|Z1]]; auto.
        - destruct (Only a b (or_introl X) Y Z1) as [-> ->]. left. destruct Ee as [-> | ->]; auto. assert (u = v) by (apply (wfg_once _ WF); apply T_in; auto). congruence.
        - destruct (Only b a (or_intror X) Z1 Y) as [-> ->]. left. destruct Ee as [-> | ->]; auto. assert (v = u) by (apply (wfg_once _ WF); apply T_in; auto). congruence. }
      assert (ConA : forall a b, In a (g_nodes HA) -> In b (g_nodes HA) -> reach (adj (mkGraph (g_nodes HA) (part SA))) a b).
      { intros a b Ha Hb. apply nodes_HA in Ha, Hb. refine (reach_mono _ _ _ _ _ (Con a b (proj2 (Sd a) Ha) (proj2 (Sd b) Hb))).
        intros x y ([X|X] & Hx & Hy); apply Sd in Hx, Hy; [left|right]; cbn; apply In_part; auto. }
      assert (ConB : forall a b, In a (g_nodes HB) -> In b (g_nodes HB) -> reach (adj (mkGraph (g_nodes HB) (part SB))) a b).
      { intros a b Ha Hb. apply nodes_HB in Ha, Hb. refine (reach_mono _ _ _ _ _ (Con' a b (proj2 (Sd' a) Ha) (proj2 (Sd' b) Hb))).
        intros x y ([X|X] & Hx & Hy); apply Sd' in Hx, Hy; [left|right]; cbn; apply In_part; auto. }
      assert (WfP : forall Q, wf_graph (mkGraph (g_nodes (subgraph H Q)) (part Q))).
      { intro Q. constructor; cbn [g_nodes g_edges].
        - apply (wf_subgraph H Q WF).
        - apply NoDup_filter, (tree_wf _ Tr).
        - intros a b X. apply In_part in X. destruct X as (X & Y1 & Y2). apply T_in, (wfg_ends _ WF) in X. rewrite !subgraph_nodes. tauto.
        - intros a b X Y. apply In_part in X, Y. apply (wfg_once _ WF); apply T_in; tauto. }
      assert (LT : List.length T = S (List.length (part SA) + List.length (part SB))).
      { assert (L : List.length T = List.length (e :: part SA ++ part SB)); [|rewrite L; cbn; now rewrite app_length]. apply Permutation_length, NoDup_Permutation.
        - apply (tree_wf _ Tr).
        - constructor.
          + rewrite in_app_iff. destruct Ee; subst e; rewrite !In_part; intros [X|X]; destruct X as (_ & X1 & X2); eauto.
          + apply NoDup_app_iff. split; [apply NoDup_filter, (tree_wf _ Tr)|]. split; [apply NoDup_filter, (tree_wf _ Tr)|]. intros [a b] X Y. apply In_part in X, Y. destruct X as (_ & X & _), Y as (_ & Y & _). eauto.
        - intro x. rewrite Mem. cbn [In]. rewrite in_app_iff. intuition. }
      assert (NA : g_nodes HA <> []) by (intro X; assert (Y : In u (g_nodes HA)) by (now apply nodes_HA); rewrite X in Y; destruct Y).
      assert (NB : g_nodes HB <> []) by (intro X; assert (Y : In v (g_nodes HB)) by (now apply nodes_HB); rewrite X in Y; destruct Y).
      assert (L1 := least_edges (mkGraph (g_nodes HA) (part SA)) (WfP SA) NA ConA). assert (L2 := least_edges (mkGraph (g_nodes HB) (part SB)) (WfP SB) NB ConB).
      cbn [g_nodes g_edges] in L1, L2. assert (Ts := tree_size _ Tr). cbn [g_nodes g_edges] in Ts. rewrite size in Ts.
      assert (Tree : forall Q, (forall a b, In a (g_nodes (subgraph H Q)) -> In b (g_nodes (subgraph H Q)) -> reach (adj (mkGraph (g_nodes (subgraph H Q)) (part Q))) a b) ->
        S (List.length (part Q)) = List.length (g_nodes (subgraph H Q)) -> tree_of (subgraph H Q) (part Q)).
      { intros Q Cq Lq. split; [|split; [|split; [reflexivity|]]].
        - destruct Hsub as [f Ef]. exists f. rewrite Ef. cbn [subgraph g_edges]. clear. induction (g_edges H) as [|x l IH]; [reflexivity|]. cbn [filter].
          destruct (f x) eqn:Ex, (mem (fst x) Q && mem (snd x) Q) eqn:Em; cbn [filter]; rewrite ?Ex, ?Em; cbn [filter]; congruence.
        - split; auto.
        - intros a b Ad. assert (X : adj H a b /\ In a Q /\ In b Q).
          { destruct Ad as [Ad|Ad]; cbn in Ad; apply In_part in Ad; destruct Ad as (Ad & X & Y); apply T_in in Ad; unfold adj; tauto. }
          apply adj_subgraph. tauto. }
      assert (TA := Tree SA ConA ltac:(lia)). assert (TB := Tree SB ConB ltac:(lia)).
      split; auto. split; auto. split; auto.
      eapply sub_ext; [apply sub_ex; exact Hsub|apply sub_filter|]. intro x. rewrite Mem. symmetry. now apply In_glue.
    Qed.
  End Cut.

  Lemma glue_inj e T1 T2 e' T1' T2' : In e seam -> tree_of HA T1 -> tree_of HB T2 -> In e' seam -> tree_of HA T1' -> tree_of HB T2' ->
    glue e T1 T2 = glue e' T1' T2' -> e = e' /\ T1 = T1' /\ T2 = T2'.
  Proof.
    intros He H1 H2 He' H1' H2' Eq.
    assert (M : forall x, (x = e \/ In x T1 \/ In x T2) <-> (x = e' \/ In x T1' \/ In x T2')).
    { intro x. rewrite <- (In_glue e T1 T2 He H1 H2 x), <- (In_glue e' T1' T2' He' H1' H2' x). now rewrite Eq. }
    assert (Cs : forall d U V u v, In d seam -> tree_of HA U -> tree_of HB V -> ((u, v) = d \/ In (u, v) U \/ In (u, v) V) ->
      ((u, v) = d /\ (In u SA /\ In v SB \/ In u SB /\ In v SA)) \/ (In (u, v) U /\ In u SA /\ In v SA) \/ (In (u, v) V /\ In u SB /\ In v SB)).
    { intros d U V u v Hd HU HV [X|[X|X]].
      - left. split; auto. subst d. now apply In_seam in Hd.
      - right. left. split; auto. now apply (T1_in U HU) in X.
      - right. right. split; auto. now apply (T2_in V HV) in X. }
    assert (Up : forall d U V d' U' V', In d seam -> tree_of HA U -> tree_of HB V -> In d' seam -> tree_of HA U' -> tree_of HB V' ->
      (forall x, (x = d \/ In x U \/ In x V) -> (x = d' \/ In x U' \/ In x V')) -> d = d' /\ incl U U' /\ incl V V').
    { intros d U V d' U' V' A1 A2 A3 A4 A5 A6 I. split; [|split].
      - destruct d as [u v]. assert (X := I (u, v) (or_introl eq_refl)). apply In_seam in A1. destruct A1 as [_ A1].
        destruct (Cs d' U' V' u v A4 A5 A6 X) as [[Y _]|[[_ [Y Z1]]|[_ [Y Z1]]]]; auto; exfalso; destruct A1 as [[B1 B2]|[B1 B2]]; eauto.
      - intros [u v] X. assert (B := T1_in U A2 u v X). destruct B as (_ & B1 & B2). specialize (I (u, v) (or_intror (or_introl X))).
        destruct (Cs d' U' V' u v A4 A5 A6 I) as [[_ [[C1 C2]|[C1 C2]]]|[[Y _]|[_ [Y Z1]]]]; auto; exfalso; eauto.
      - intros [u v] X. assert (B := T2_in V A3 u v X). destruct B as (_ & B1 & B2). specialize (I (u, v) (or_intror (or_intror X))).
        destruct (Cs d' U' V' u v A4 A5 A6 I) as [[_ [[C1 C2]|[C1 C2]]]|[[_ [Y Z1]]|[Y _]]]; auto; exfalso; eauto. }
    destruct (Up e T1 T2 e' T1' T2' He H1 H2 He' H1' H2' (fun x => proj1 (M x))) as (E1 & I1 & I2).
    destruct (Up e' T1' T2' e T1 T2 He' H1' H2' He H1 H2 (fun x => proj2 (M x))) as (_ & I1' & I2').
    split; auto. split; (eapply sub_ext; [eapply tree_sub; eassumption|eapply tree_sub; eassumption|]); intro x; split; auto.
  Qed.

  (** The number of spanning trees that some edge splits into the two sets. *)
  Lemma seam_count kA kB : numbers (tree_of HA) kA -> numbers (tree_of HB) kB ->
    numbers (fun T => tree_of H T /\ splits (graph_of T)) (List.length seam * (kA * kB)).
  Proof.
    intros (sA & NA & IA & <-) (sB & NB & IB & <-).
    exists (map (fun x => glue (fst x) (fst (snd x)) (snd (snd x))) (list_prod seam (list_prod sA sB))). split; [|split].
    - assert (ND : NoDup (list_prod seam (list_prod sA sB))).
      { assert (LP : forall X Y (l : list X) (m : list Y), NoDup l -> NoDup m -> NoDup (list_prod l m)).
        { intros X Y l m Hl Hm. induction Hl as [|x l Hx Hl IH]; cbn [list_prod]; [constructor|]. apply NoDup_app_iff. split; [apply FinFun.Injective_map_NoDup; auto; intros ? ? Z1; congruence|].
          split; auto. intros [a b] U V. apply in_map_iff in U. destruct U as (y & U & _). injection U as <- <-. apply in_prod_iff in V. tauto. }
        apply LP; [apply NoDup_filter, WF|now apply LP]. }
      assert (I : forall x, In x (list_prod seam (list_prod sA sB)) -> In (fst x) seam /\ tree_of HA (fst (snd x)) /\ tree_of HB (snd (snd x))).
      { intros (d & U & V) X. apply in_prod_iff in X. destruct X as [X Y]. apply in_prod_iff in Y. cbn. rewrite <- IA, <- IB. tauto. }
      revert I. induction ND as [|x l Hx ND IH]; intro I; cbn [map]; [constructor|]. constructor; [|apply IH; intros y Y; apply I; now right].
      intro X. apply in_map_iff in X. destruct X as (y & X & Y). apply Hx. destruct (I x (or_introl eq_refl)) as (A1 & A2 & A3), (I y (or_intror Y)) as (B1 & B2 & B3).
      destruct (glue_inj _ _ _ _ _ _ B1 B2 B3 A1 A2 A3 X) as (C1 & C2 & C3). destruct x as (x1 & x2 & x3), y as (y1 & y2 & y3). cbn in *. congruence.
    - intro T. rewrite in_map_iff. split.
      + intros ((d & U & V) & <- & X). apply in_prod_iff in X. destruct X as [X Y]. apply in_prod_iff in Y. destruct Y as [Y1 Y2]. apply IA in Y1. apply IB in Y2. cbn.
        split; [now apply glue_tree|now apply glue_splits].
      + intros [HT Sp]. destruct (cut_pieces T HT Sp) as (d & D1 & D2 & D3 & D4). eexists (d, (_, _)). split; [symmetry; exact D4|].
        apply in_prod_iff. split; auto. apply in_prod_iff. rewrite IA, IB. auto.
    - rewrite map_length, !prod_length. reflexivity.
  Qed.
End Seam.
