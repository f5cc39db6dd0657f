(** C97: spectral_recom. *)
From Coq Require Import String List Bool Arith ZArith Reals Lra Sorted Lia Permutation.
From Verif Require Import Base M_Graph M_Partition S_Partition L_Partition M_Machine S_Machine L_Sums
  L_Cuts L_Machine L_Answers S_Contiguity L_Search P_Partition P_Machine L_Order M_Proposals S_Proposals
  P_Proposals M_Recursive P_Bipartition P_Recursive M_Recom P_Recom M_Spectral S_Spectral L_Fiedler L_Spectral.
Import ListNotations.
Local Open Scope R_scope.
Local Open Scope list_scope.

Section Spec.
  Context {N : Type} {EN : EqB N}.
  (** The stored weights are positive and belong to edges of the graph. *)
  Definition edge_data (g : graph N) (wts : dict (N * N) R) : Prop :=
    forall e x, dget wts e = Some x -> In e (g_edges g) /\ 0 < x.
  Definition positive_draws (g : graph N) (random : option (N * N -> R)) : Prop :=
    forall draw e, random = Some draw -> In e (g_edges g) -> 0 < draw e.
End Spec.

Section Cut.
  Context {N P : Type} {EN : EqB N} {EP : EqB P}.

  Lemma fold_draw (draw : N * N -> R) es : forall wts e,
    dget (fold_left (fun w e => dset w e (draw e)) es wts) e = if mem e es then Some (draw e) else dget wts e.
  Proof.
    induction es as [|k es IH]; intros wts e; cbn [fold_left]; [reflexivity|]. rewrite IH. change (mem e (k :: es)) with (eqb e k || mem e es)%bool.
    destruct (mem e es) eqn:Em; [now rewrite orb_true_r|]. rewrite orb_false_r, dget_dset. destruct (eqb_spec e k) as [->|Ne]; reflexivity.
  Qed.
  Lemma draw_data (g h : graph N) random wts : edge_data g wts -> positive_draws g random -> incl (g_edges h) (g_edges g) -> edge_data g (draw_weights h random wts).
  Proof.
    intros D Pd I e x. unfold draw_weights. destruct random as [draw|]; [|apply D]. rewrite fold_draw. destruct (mem e (g_edges h)) eqn:Em; [|apply D].
    apply mem_In in Em. intro E. injection E as <-. split; [auto|]. apply (Pd draw e); auto.
  Qed.
  Lemma edge_weight_sym (g : graph N) wts : wf_graph g -> edge_data g wts -> forall i j, edge_weight wts i j = edge_weight wts j i.
  Proof.
    intros WF D i j. unfold edge_weight. destruct (dget wts (i, j)) as [x|] eqn:E1, (dget wts (j, i)) as [y|] eqn:E2; auto.
    assert (i = j) by (apply (wfg_once _ WF); [apply (D _ _ E1)|apply (D _ _ E2)]). congruence.
  Qed.
  Lemma edge_weight_pos (g : graph N) wts : edge_data g wts -> forall i j, 0 < edge_weight wts i j.
  Proof.
    intros D i j. unfold edge_weight. destruct (dget wts (i, j)) as [x|] eqn:E1; [apply (D _ _ E1)|].
    destruct (dget wts (j, i)) as [x|] eqn:E2; [apply (D _ _ E2)|lra].
  Qed.

  Section Signs.
    Variables (g h : graph N) (wts : dict (N * N) R).
    Hypothesis WFg : wf_graph g.
    Hypothesis WF : wf_graph h.
    Hypothesis D : edge_data g wts.
    Hypothesis Con : connected_on h (fun n => In n (g_nodes h)).
    Notation W := (adjacency h wts).
    Notation ns := (g_nodes h).

    Lemma W_sym i j : W i j = W j i.
    Proof.
      unfold adjacency. rewrite (edge_weight_sym g wts WFg D i j).
      replace (mem j (neighbors h i)) with (mem i (neighbors h j)); auto. apply eq_true_iff_eq. rewrite !mem_In, !In_neighbors. unfold adj. tauto.
    Qed.
    Lemma W_nonneg i j : 0 <= W i j.
    Proof. unfold adjacency. destruct (mem j (neighbors h i)); [|lra]. left. eapply edge_weight_pos; eauto. Qed.
    Lemma W_adj i j : W i j <> 0 <-> adj h i j.
    Proof.
      unfold adjacency. rewrite <- In_neighbors, <- mem_In. destruct (mem j (neighbors h i)).
      - assert (H := edge_weight_pos g wts D i j). split; [auto|intros _; lra].
      - split; [contradiction|discriminate].
    Qed.
    Lemma whole (c : N -> bool) a b : In a ns -> In b ns -> c a = true ->
      (forall i j, In i ns -> In j ns -> c i = true -> W i j <> 0 -> c j = true) -> c b = true.
    Proof.
      intros Ha Hb Ca Cl. refine (reach_closed _ (fun n => c n = true) a b Ca _ (Con a b Ha Hb)).
      intros i j Ci (A & Hi & Hj). apply (Cl i j); auto. now apply W_adj.
    Qed.
    (** Reachability inside a decidable set of nodes is decidable. *)
    Lemma reach_bool (d : N -> bool) a : In a ns -> d a = true -> exists c : N -> bool, forall n,
      c n = true <-> reach (fun i j => adj h i j /\ (In i ns /\ d i = true) /\ (In j ns /\ d j = true)) a n.
    Proof.
      intros Ha Da. destruct (plain_bfs_spec (fun i => filter d (neighbors h i)) ns a) with (fuel := S (List.length ns)) (seen := [a]) (level := [a]) as (c & _ & _ & _ & Hc).
      - intros u v _ Hv. apply filter_In in Hv. destruct Hv as [Hv _]. apply In_neighbors in Hv. now apply (L_Search.adj_nodes h u v WF) in Hv.
      - apply WF.
      - intros x [<-|[]]. auto.
      - constructor; [auto|constructor].
      - apply incl_refl.
      - now left.
      - intros x [<-|[]]. constructor.
      - intros x y [<-|[]] H. exfalso. apply H. now left.
      - cbn. lia.
      - exists (fun n => mem n c). intro n. rewrite mem_In, Hc. split; intro H.
        + cut (reach (fun i j => adj h i j /\ (In i ns /\ d i = true) /\ In j ns /\ d j = true) a n /\ In n ns /\ d n = true); [tauto|].
          induction H as [|u v R IH Hv]; [split; [constructor|auto]|]. apply filter_In in Hv. destruct Hv as [Hv Dv]. apply In_neighbors in Hv.
          assert (Nv := proj2 (L_Search.adj_nodes h u v WF Hv)). destruct IH as (IH & Hu). split; [|auto]. eapply reach_step; [exact IH|]. tauto.
        + refine (reach_mono _ _ _ _ _ H). intros i j (A & _ & _ & Dj). apply filter_In. split; auto. now apply In_neighbors.
    Qed.
    Lemma signs_connected (m y : N -> R) lam : (forall i, In i ns -> 0 < m i) ->
      (forall i, In i ns -> lap ns W y i = lam * m i * y i) ->
      (forall x, total ns (fun i => m i * x i) = 0 -> lam * mass ns m x x <= form ns W x x) ->
      connected_on h (fun n => In n ns /\ 0 <= y n).
    Proof.
      intros Pm Ey Mn a b [Ha Ya] [Hb Yb]. set (d := fun n => if Rle_dec 0 (y n) then true else false).
      assert (Hd : forall n, d n = true <-> 0 <= y n) by (intro n; unfold d; destruct (Rle_dec 0 (y n)); split; try discriminate; try tauto; auto).
      destruct (reach_bool d a Ha (proj2 (Hd a) Ya)) as (c & Hc).
      assert (G : c b = true).
      { apply (nonneg_connected ns W m W_sym W_nonneg Pm whole y lam Ey Mn c a b); auto.
        - apply Hc. constructor.
        - intros i j Hi Hj Ci Yi Yj Wij. apply Hc in Ci. apply Hc. eapply reach_step; [exact Ci|]. rewrite !Hd, <- W_adj. auto. }
      apply Hc in G. refine (reach_mono _ _ _ _ _ G). intros i j (A & (Hi & Di) & Hj & Dj). rewrite !Hd in *. auto.
    Qed.

    Lemma lap_apply x i : In i ns -> total ns (fun j => laplacian h wts i j * x j) = lap ns W x i.
    Proof.
      intro Hi. unfold laplacian, lap, row_sum.
      rewrite (total_ext ns _ (fun j => (if eqb i j then 1 else 0) * (total ns (W i) * x j) - W i j * x j)) by (intros j _; destruct (eqb i j); lra).
      rewrite total_minus, (total_delta ns (fun j => total ns (W i) * x j) i (wfg_nodes _ WF) Hi), <- total_scale_r, <- total_minus.
      apply total_ext. intros; lra.
    Qed.
    Lemma row_sum_pos i : (2 <= List.length ns)%nat -> In i ns -> 0 < row_sum h wts i.
    Proof.
      intros L2 Hi. assert (Hj : exists j, In j ns /\ j <> i).
      { assert (ND := wfg_nodes _ WF). destruct ns as [|x [|y r]]; cbn in L2; try lia. inversion ND as [|? ? Hx _]; subst.
        destruct (eqb_spec x i) as [->|Nx]; [exists y; split; [right; now left|]; intros ->; apply Hx; now left|exists x; split; [now left|auto]]. }
      destruct Hj as (j & Hj & Nj). destruct (reach_first _ _ _ (Con i j Hi Hj)) as [E|(w & (A & _ & Hw) & _)]; [contradiction|].
      apply (total_pos ns (W i) w); auto using W_nonneg. assert (H := proj2 (W_adj i w) A). assert (H' := W_nonneg i w). lra.
    Qed.
  End Signs.

  Variable eigh : list N -> (N -> N -> R) -> list (R * (N -> R)).
  Variable set_order : list N -> list N.

  Lemma combine_self {X} (l : list X) : combine l l = map (fun x => (x, x)) l.
  Proof. induction l as [|x l IH]; cbn; congruence. Qed.
  Lemma dget_map_fun {Y} (l : list N) (F : N -> Y) n : dget (map (fun x => (x, F x)) l) n = if mem n l then Some (F n) else None.
  Proof. induction l as [|x l IH]; cbn [map dget mem existsb]; [reflexivity|]. destruct (eqb_spec n x) as [->|Nx]; cbn [orb]; auto. Qed.
  Lemma two_columns ns mat (sys : list (R * (N -> R))) : NoDup ns -> (2 <= List.length ns)%nat -> eigensystem ns mat sys ->
    exists l0 v0 l1 v1 rest, sys = (l0, v0) :: (l1, v1) :: rest.
  Proof.
    intros ND L2 Sys. destruct ns as [|i [|j r]] eqn:Ens; cbn in L2; try lia. rewrite <- Ens in *.
    assert (Hi : In i ns) by (rewrite Ens; now left). assert (Hj : In j ns) by (rewrite Ens; right; now left).
    assert (Nij : i <> j). { rewrite Ens in ND. inversion ND as [|? ? Hx _]; subst. intros ->. apply Hx. now left. }
    assert (Rii := es_rows _ _ _ Sys i i Hi Hi). assert (Rjj := es_rows _ _ _ Sys j j Hj Hj). assert (Rij := es_rows _ _ _ Sys i j Hi Hj).
    rewrite eqb_refl in Rii, Rjj. destruct (eqb_spec i j) as [|_]; [contradiction|].
    destruct sys as [|[l0 v0] [|[l1 v1] rest]]; [cbn in Rii; lra| |do 5 eexists; reflexivity].
    cbn in Rii, Rjj, Rij. exfalso. assert (v0 i * v0 j = 0) by lra. apply Rmult_integral in H. destruct H as [H|H]; rewrite H in *; lra.
  Qed.

  (** C97. The cut of a connected subgraph of at least two nodes, if the rows of
      the matrix are in the order of the nodes: both labels are used, the nodes
      whose entry is not positive are connected, and so are the others unless
      some entry is exactly zero. *)
  Theorem C97_cut (g : graph N) nodes (wts : dict (N * N) R) random normalized (p q : P) :
    wf_graph g -> edge_data g wts -> positive_draws g random ->
    let h := subgraph g nodes in
    let wts' := draw_weights h random wts in
    let mat := chosen_matrix h normalized wts' in
    connected_on h (fun n => In n (g_nodes h)) -> (2 <= List.length (g_nodes h))%nat ->
    set_order (g_nodes h) = g_nodes h -> eigensystem (g_nodes h) mat (eigh (g_nodes h) mat) -> p <> q ->
    exists f lam v, spectral_cut eigh set_order h (p, q) random normalized wts = (Ok f, wts') /\
      nth_error (eigh (g_nodes h) mat) 1 = Some (lam, v) /\
      (forall n, dget f n = Some p <-> In n (g_nodes h) /\ v n <= 0) /\
      (forall n, dget f n = Some q <-> In n (g_nodes h) /\ 0 < v n) /\
      (exists n, dget f n = Some p) /\ (exists n, dget f n = Some q) /\
      connected_on g (fun n => dget f n = Some p) /\
      ((forall n, In n (g_nodes h) -> v n <> 0) -> connected_on g (fun n => dget f n = Some q)).
  Proof.
    intros WFg D Pd h wts' mat Con L2 Or Sys Npq. assert (WF : wf_graph h) by now apply wf_subgraph.
    assert (D' : edge_data g wts') by (apply draw_data; auto; intros e He; apply filter_In in He; tauto).
    destruct (two_columns _ _ _ (wfg_nodes _ WF) L2 Sys) as (l0 & v0 & l1 & v & rest & Esys).
    assert (Nth : nth_error (eigh (g_nodes h) mat) 1 = Some (l1, v)) by now rewrite Esys.
    set (s := fun i => if normalized then sqrt (row_sum h wts' i) else 1).
    assert (Ps : forall i, In i (g_nodes h) -> 0 < s i).
    { intros i Hi. unfold s. destruct normalized; [|lra]. apply sqrt_lt_R0. now apply (row_sum_pos g). }
    assert (ML : forall u i, In i (g_nodes h) -> total (g_nodes h) (fun j => mat i j * u j) = lap (g_nodes h) (adjacency h wts') (fun j => u j / s j) i / s i).
    { intros u i Hi. unfold mat, chosen_matrix. destruct normalized.
      - rewrite (total_ext (g_nodes h) _ (fun j => / s i * (laplacian h wts' i j * (u j / s j)))).
        + rewrite total_scale. rewrite (lap_apply h wts' WF (fun j => u j / s j) i Hi). unfold Rdiv. lra.
        + intros j Hj. unfold normalized_laplacian, inv_sqrt. assert (P1 := row_sum_pos g h wts' WF D' Con i L2 Hi). assert (P2 := row_sum_pos g h wts' WF D' Con j L2 Hj).
          destruct (Req_EM_T (row_sum h wts' i) 0) as [|_]; [lra|]. destruct (Req_EM_T (row_sum h wts' j) 0) as [|_]; [lra|]. unfold s, Rdiv. ring.
      - rewrite (lap_apply h wts' WF u i Hi). unfold s. replace (lap (g_nodes h) (adjacency h wts') (fun j => u j / 1) i) with (lap (g_nodes h) (adjacency h wts') u i); [field|].
        unfold lap. apply total_ext. intros. field. }
    assert (Ne : g_nodes h <> []) by (destruct (g_nodes h); [cbn in L2; lia|discriminate]).
    assert (Ws := W_sym g h wts' WFg D'). assert (Wn := W_nonneg g h wts' D'). assert (Wh := whole g h wts' D' Con).
    assert (Eig := fiedler_eigen (g_nodes h) (adjacency h wts') s mat _ Ps ML Sys l0 l1 v0 v rest Esys).
    assert (Min := fiedler_minimal (g_nodes h) (adjacency h wts') s mat _ (wfg_nodes _ WF) Ws Wn Ps Wh ML Sys l0 l1 v0 v rest Esys Ne).
    destruct (both_signs (g_nodes h) (adjacency h wts') s mat _ (wfg_nodes _ WF) Ws Wn Ps Wh ML Sys l0 l1 v0 v rest Esys Ne) as [(ip & Hip & Vip) (iq & Hiq & Viq)].
    set (y := fiedler s v) in *.
    assert (Sg : forall i, In i (g_nodes h) -> (0 <= y i <-> 0 <= v i)).
    { intros i Hi. unfold y, fiedler. assert (Pi := Ps i Hi). split; intro H.
      - replace (v i) with (v i / s i * s i) by (field; lra). apply Rmult_le_pos; lra.
      - apply Rmult_le_pos; auto. left. now apply Rinv_0_lt_compat. }
    assert (Sg' : forall i, In i (g_nodes h) -> (0 <= - y i <-> v i <= 0)).
    { intros i Hi. unfold y, fiedler. assert (Pi := Ps i Hi). split; intro H.
      - assert (0 <= - (v i / s i) * s i) by (apply Rmult_le_pos; lra). replace (v i) with (v i / s i * s i) by (field; lra). lra.
      - assert (0 <= (- v i) * / s i); [apply Rmult_le_pos; [lra|left; now apply Rinv_0_lt_compat]|]. unfold Rdiv. lra. }
    assert (Pm : forall i, In i (g_nodes h) -> 0 < s i * s i) by (intros i Hi; apply Rmult_lt_0_compat; auto).
    assert (C1 := signs_connected g h wts' WFg WF D' Con (fun i => s i * s i) y l1 Pm Eig Min).
    assert (C2 : connected_on h (fun n => In n (g_nodes h) /\ 0 <= - y n)).
    { apply (signs_connected g h wts' WFg WF D' Con (fun i => s i * s i) (fun i => - y i) l1 Pm); auto.
      intros i Hi. replace (l1 * (s i * s i) * - y i) with (- (l1 * (s i * s i) * y i)) by lra. rewrite <- (Eig i Hi). unfold lap.
      rewrite (total_ext (g_nodes h) _ (fun j => (-1) * (adjacency h wts' i j * (y i - y j)))) by (intros; lra). rewrite total_scale. lra. }
    set (f := map (fun n => (n, side (p, q) (v n))) (g_nodes h)).
    assert (Fp : forall n, dget f n = Some p <-> In n (g_nodes h) /\ v n <= 0).
    { intro n. unfold f. rewrite (dget_map_fun (g_nodes h) (fun n => side (p, q) (v n))). rewrite <- mem_In. destruct (mem n (g_nodes h)); [|split; [discriminate|intros [[=] _]]].
      unfold side. cbn [fst snd]. destruct (Rlt_dec 0 (v n)); split; intro H; try (split; auto; lra); try reflexivity.
      - exfalso. apply Npq. congruence.
      - lra. }
    assert (Fq : forall n, dget f n = Some q <-> In n (g_nodes h) /\ 0 < v n).
    { intro n. unfold f. rewrite (dget_map_fun (g_nodes h) (fun n => side (p, q) (v n))). rewrite <- mem_In. destruct (mem n (g_nodes h)); [|split; [discriminate|intros [[=] _]]].
      unfold side. cbn [fst snd]. destruct (Rlt_dec 0 (v n)); split; intro H; try (split; auto; lra); try reflexivity.
      - exfalso. apply Npq. congruence.
      - lra. }
    assert (Up : forall A B : N -> Prop, (forall n, A n <-> B n) -> connected_on h A -> connected_on g B).
    { intros A B E H u w Hu Hw. apply E in Hu, Hw. refine (reach_mono _ _ _ _ _ (H u w Hu Hw)). intros x z (X & X1 & X2). apply adj_subgraph in X. rewrite <- !E. tauto. }
    exists f, l1, v. split; [|split; [exact Nth|split; [exact Fp|split; [exact Fq|split; [|split; [|split]]]]]].
    - unfold spectral_cut. cbn zeta. rewrite Or. fold wts'. fold mat. rewrite Nth, combine_self, map_map. reflexivity.
    - exists iq. apply Fp. split; auto. lra.
    - exists ip. now apply Fq.
    - refine (Up _ _ _ C2). intro n. rewrite Fp. split; intros [H1 H2]; split; auto; apply Sg'; auto.
    - intro Nz. refine (Up _ _ _ C1). intro n. rewrite Fq. split; intros [H1 H2]; split; auto.
      + apply Sg in H2; auto. assert (X := Nz n H1). lra.
      + apply Sg; auto. lra.
  Qed.
End Cut.

Section Recom.
  Context {N P V L : Type} {EN : EqB N} {EP : EqB P} {EL : EqB L} {ON : Ord N} {OP : Ord P} {RV : CRing V}.
  Variable E : env N P V L.
  Notation g := (e_graph E).
  Variable eigh : list N -> (N -> N -> R) -> list (R * (N -> R)).
  Variable set_order : list N -> list N.
  Hypothesis reorders : forall l, Permutation (set_order l) l.
  Variables (h : heap N P V L) (a : nat) (o : pobj N P V L).
  Hypothesis S : session E h.
  Hypothesis Ho : nth_error h a = Some o.
  Hypothesis Hu : dget (e_updaters E) "cut_edges"%string = Some UCutEdges.
  Notation A := (o_assign o).
  Let C : coherent (g_nodes g) A := Coh E h a o S Ho.
  Let WF : wf_graph g := P_Proposals.wfg E h S.
  Variables (random : option (N * N -> R)) (normalized : bool) (wts : dict (N * N) R).

  Lemma keys_combine {X Y Z} (k : X -> Y -> Z) (l : list X) : forall l' : list Y, List.length l' = List.length l ->
    map fst (map (fun nr => (fst nr, k (fst nr) (snd nr))) (combine l l')) = l.
  Proof. induction l as [|x l IH]; intros [|y l'] H; cbn in *; try discriminate; auto. f_equal. apply IH. congruence. Qed.
  Lemma cut_shape sub (p q : P) f w : spectral_cut eigh set_order sub (p, q) random normalized wts = (Ok f, w) ->
    dkeys f = g_nodes sub /\ (forall n x, dget f n = Some x -> x = p \/ x = q).
  Proof.
    unfold spectral_cut. cbn zeta. destruct (nth_error _ 1) as [[l v]|]; [|discriminate]. intro H. injection H as <- _. split.
    - unfold dkeys. apply (keys_combine (fun _ r => side (p, q) (v r))). apply Permutation_length, reorders.
    - intros n x Hx. apply dget_In in Hx. apply in_map_iff in Hx. destruct Hx as (nr & X & _). injection X as _ <-. unfold side. destruct (Rlt_dec 0 (v (snd nr))); auto.
  Qed.

  (** What one call does, in terms of the cut of one merged pair. *)
  Lemma call r : (~ has_cut g A /\ fst (spectral_recom E eigh set_order r random normalized wts a h) = Err IndexError) \/
    exists p q nodes h1, p <> q /\ adjacent g A p q /\ merged A p q = Ok nodes /\ NoDup nodes /\
      (forall n, In n nodes <-> district A n = Some p \/ district A n = Some q) /\ session E h1 /\ kept h h1 /\
      match spectral_cut eigh set_order (subgraph g nodes) (p, q) random normalized wts with
      | (Ok f, w) => exists b h2 o', spectral_recom E eigh set_order r random normalized wts a h = (Ok (b, w), h2) /\
          session E h2 /\ kept h h2 /\ nth_error h2 b = Some o' /\ o_parent o' = Some a /\
          redrawn A p q (o_assign o') /\ (forall n x, x = p \/ x = q -> district (o_assign o') n = Some x <-> dget f n = Some x)
      | (Err x, _) => fst (spectral_recom E eigh set_order r random normalized wts a h) = Err x
      | (NoFuel, _) => False
      end.
  Proof.
    unfold spectral_recom. destruct (cuts_ok E h a o S Ho Hu) as (cuts & h1 & Hc & ND & Sp & S1 & K).
    rewrite (get_bind h a o) by exact Ho. rewrite (bindM_ok _ _ _ _ _ Hc). destruct cuts as [|e0 cuts].
    - left. split; [|rewrite choice_nil; reflexivity]. intros (u & v & Huv). apply (cut_edge_iff E o) in Huv. destruct Huv as [X|X]; apply Sp in X; destruct X.
    - right. destruct (choice_ok r (e0 :: cuts) ltac:(discriminate)) as (e & Ee & He). apply Sp in He. rewrite Ee.
      destruct He as (_ & Ad & Dn). destruct (adj_node E h S _ _ Ad) as [N1 N2].
      destruct (part_ok E h a o S Ho _ N1) as (p & E1 & D1 & _). destruct (part_ok E h a o S Ho _ N2) as (q & E2 & D2 & _).
      assert (Lp : In p (labels A)) by exact (label_of E h a o S Ho _ _ D1). assert (Lq : In q (labels A)) by exact (label_of E h a o S Ho _ _ D2).
      destruct (merged_ok E h a o S Ho p q Lp Lq) as (nodes & Em & NDn & Hn).
      assert (Npq : p <> q) by congruence.
      exists p, q, nodes, h1. split; auto. split; [exists (fst e), (snd e); auto|]. split; auto. split; auto. split; auto. split; auto. split; auto.
      match goal with |- context [bindM (lift (Ok e)) ?F h1] =>
        replace (bindM (lift (Ok e)) F h1) with
          ((let '(flips, w) := spectral_cut eigh set_order (subgraph g nodes) (p, q) random normalized wts in
            bindM (lift flips) (fun f => bindM (flip E a f) (fun b => ret (b, w)))) h1)
          by (unfold bindM, lift; rewrite E1, E2, Em; destruct (spectral_cut eigh set_order (subgraph g nodes) (p, q) random normalized wts) as [[?|?|] ?]; reflexivity)
      end.
      destruct (spectral_cut eigh set_order (subgraph g nodes) (p, q) random normalized wts) as [[f|x|] w] eqn:Ec.
      + destruct (cut_shape _ _ _ _ _ Ec) as [Kf Lf].
        destruct (split_flip E h a o S Ho h1 p q nodes f S1 K Npq Lp Lq Hn) as (b & h2 & o' & F1 & F2 & F3 & F4 & F5 & F6 & F7).
        * rewrite Kf. apply (wf_subgraph g nodes WF).
        * intro n. rewrite Kf, subgraph_nodes. split; [tauto|]. intro X. split; auto. apply Hn in X. apply (coh_dom _ _ C). destruct X as [X|X]; eapply dget_Some_key; exact X.
        * exact Lf.
        * exists b, h2, o'. split; [|auto 10]. unfold bindM at 1, lift at 1. unfold bindM. rewrite F1. reflexivity.
      + reflexivity.
      + unfold spectral_cut in Ec. destruct (nth_error _ 1) as [[? ?]|]; discriminate.
  Qed.

  (** C97. Whatever order the set of nodes has and whatever eigh returns: a new
      plan that only redraws two adjacent districts, or IndexError. *)
  Theorem C97_recom r b w h' :
    spectral_recom E eigh set_order r random normalized wts a h = (Ok (b, w), h') ->
    exists o' p q, session E h' /\ nth_error h' b = Some o' /\ o_parent o' = Some a /\
      p <> q /\ adjacent g A p q /\ redrawn A p q (o_assign o').
  Proof using S Ho Hu reorders.
    intro H. destruct (call r) as [[_ X]|(p & q & nodes & h1 & Npq & Ad & Em & ND & Hn & S1 & K & X)]; [rewrite H in X; discriminate|].
    destruct (spectral_cut _ _ _ _ _ _ _) as [[f|x|] w'].
    - destruct X as (b' & h2 & o' & E1 & E2 & _ & E4 & E5 & E6 & _). rewrite H in E1. injection E1 as <- <- <-. exists o', p, q. auto 10.
    - rewrite H in X. discriminate.
    - destruct X.
  Qed.
  Theorem C97_errors r x : fst (spectral_recom E eigh set_order r random normalized wts a h) = Err x ->
    x = IndexError /\ (has_cut g A -> exists rows m, (List.length (eigh rows m) < 2)%nat).
  Proof using S Ho Hu reorders.
    intro H. destruct (call r) as [[Nc X]|(p & q & nodes & h1 & Npq & Ad & Em & ND & Hn & S1 & K & X)].
    - split; [congruence|]. intro. contradiction.
    - destruct (spectral_cut _ _ _ _ _ _ _) as [[f|y|] w'] eqn:Ec.
      + destruct X as (b' & h2 & o' & E1 & _). rewrite E1 in H. discriminate.
      + rewrite H in X. unfold spectral_cut in Ec. destruct (nth_error _ 1) as [[? ?]|] eqn:En; [discriminate|]. apply nth_error_None in En.
        split; [congruence|]. intros _. do 2 eexists. apply Nat.lt_succ_r. exact En.
      + destruct X.
  Qed.
  (** The edge attribute "weight": untouched unless the weights are random;
      otherwise the edges inside the two districts, and only these, hold what
      was drawn. *)
  Theorem C97_weights r b w h' :
    spectral_recom E eigh set_order r random normalized wts a h = (Ok (b, w), h') ->
    (random = None -> w = wts) /\
    (forall draw, random = Some draw -> exists p q, p <> q /\ adjacent g A p q /\ forall u v,
      In (u, v) (g_edges g) ->
      ((district A u = Some p \/ district A u = Some q) /\ (district A v = Some p \/ district A v = Some q) -> dget w (u, v) = Some (draw (u, v))) /\
      (~ ((district A u = Some p \/ district A u = Some q) /\ (district A v = Some p \/ district A v = Some q)) -> dget w (u, v) = dget wts (u, v))).
  Proof using S Ho Hu reorders.
    intro H. destruct (call r) as [[_ X]|(p & q & nodes & h1 & Npq & Ad & Em & ND & Hn & S1 & K & X)]; [rewrite H in X; discriminate|].
    destruct (spectral_cut _ _ _ _ _ _ _) as [[f|x|] w'] eqn:Ec.
    - destruct X as (b' & h2 & o' & E1 & _). rewrite H in E1. injection E1 as <- <- <-.
      assert (Ew : w = draw_weights (subgraph g nodes) random wts) by (unfold spectral_cut in Ec; cbn zeta in Ec; congruence).
      split; [intros ->; exact Ew|]. intros draw ->. exists p, q. split; auto. split; auto. intros u v Huv. rewrite Ew. cbn [draw_weights]. rewrite fold_draw, <- !Hn.
      assert (G : mem (u, v) (g_edges (subgraph g nodes)) = true <-> In u nodes /\ In v nodes).
      { rewrite mem_In. cbn [subgraph g_edges]. rewrite filter_In. cbn [fst snd]. rewrite andb_true_iff, !mem_In. tauto. }
      destruct (mem (u, v) (g_edges (subgraph g nodes))); split; intro X; auto.
      + exfalso. apply X. now apply G.
      + exfalso. assert (false = true) by now apply G. discriminate.
    - rewrite H in X. discriminate.
    - destruct X.
  Qed.

  (** With an eigensystem of the matrix whose rows are in the order of the nodes,
      and connected districts: the call succeeds, both districts have nodes, the
      one of the first end of the cut edge is connected, and the other one if no
      entry of the vector is zero. *)
  Theorem C97_connected r : edge_data g wts -> positive_draws g random -> has_cut g A ->
    (forall p, connected_on g (fun n => district A n = Some p)) ->
    (forall p q nodes, p <> q -> adjacent g A p q -> merged A p q = Ok nodes ->
       let sub := subgraph g nodes in let mat := chosen_matrix sub normalized (draw_weights sub random wts) in
       set_order (g_nodes sub) = g_nodes sub /\ eigensystem (g_nodes sub) mat (eigh (g_nodes sub) mat)) ->
    exists b w h' o' p q nodes lam v, spectral_recom E eigh set_order r random normalized wts a h = (Ok (b, w), h') /\
      nth_error h' b = Some o' /\ p <> q /\ adjacent g A p q /\ redrawn A p q (o_assign o') /\ merged A p q = Ok nodes /\
      nth_error (eigh (g_nodes (subgraph g nodes)) (chosen_matrix (subgraph g nodes) normalized w)) 1 = Some (lam, v) /\
      (exists n, district (o_assign o') n = Some p) /\ (exists n, district (o_assign o') n = Some q) /\
      connected_on g (fun n => district (o_assign o') n = Some p) /\
      ((forall n, In n nodes -> v n <> 0) -> connected_on g (fun n => district (o_assign o') n = Some q)).
  Proof using S Ho Hu reorders.
    intros D Pd HC Con Sys. destruct (call r) as [[X _]|(p & q & nodes & h1 & Npq & Ad & Em & ND & Hn & S1 & K & X)]; [contradiction|].
    destruct (Sys p q nodes Npq Ad Em) as [Or Es]. cbn zeta in Or, Es. destruct Ad as (u0 & v0 & Auv & Du & Dv).
    assert (Hin : forall n, In n (g_nodes (subgraph g nodes)) <-> In n nodes).
    { intro n. rewrite subgraph_nodes. split; [tauto|]. intro Y. split; auto. apply Hn in Y. apply (coh_dom _ _ C). destruct Y as [Y|Y]; eapply dget_Some_key; exact Y. }
    assert (Cs : connected_on (subgraph g nodes) (fun n => In n (g_nodes (subgraph g nodes)))).
    { set (Rl := fun x y => adj (subgraph g nodes) x y /\ In x (g_nodes (subgraph g nodes)) /\ In y (g_nodes (subgraph g nodes))).
      assert (Lift : forall t x y, t = p \/ t = q -> district A x = Some t -> district A y = Some t -> reach Rl x y).
      { intros t x y Ht Hx Hy. refine (reach_mono _ _ _ _ _ (Con t x y Hx Hy)). intros i j (A1 & A2 & A3). assert (Ni : In i nodes) by (apply Hn; destruct Ht; subst t; auto).
        assert (Nj : In j nodes) by (apply Hn; destruct Ht; subst t; auto). unfold Rl. rewrite !Hin, adj_subgraph. auto. }
      assert (Nu : In u0 nodes) by (apply Hn; auto). assert (Nv : In v0 nodes) by (apply Hn; auto).
      assert (St1 : Rl u0 v0) by (unfold Rl; rewrite !Hin, adj_subgraph; auto).
      assert (St2 : Rl v0 u0) by (unfold Rl; rewrite !Hin, adj_subgraph; split; auto; split; auto; unfold adj in *; tauto).
      intros x y Hx Hy. rewrite Hin, Hn in Hx, Hy. fold Rl. destruct Hx as [Hx|Hx], Hy as [Hy|Hy].
      - apply (Lift p); auto.
      - eapply reach_trans; [eapply reach_step; [apply (Lift p x u0); auto|exact St1]|apply (Lift q); auto].
      - eapply reach_trans; [eapply reach_step; [apply (Lift q x v0); auto|exact St2]|apply (Lift p); auto].
      - apply (Lift q); auto. }
    assert (L2 : (2 <= List.length (g_nodes (subgraph g nodes)))%nat).
    { assert (I : incl [u0; v0] (g_nodes (subgraph g nodes))) by (intros x [<-|[<-|[]]]; apply Hin, Hn; auto).
      apply NoDup_incl_length in I; [exact I|]. constructor; [intros [Y|[]]; congruence|constructor; [intros []|constructor]]. }
    destruct (C97_cut eigh set_order g nodes wts random normalized p q WF D Pd Cs L2 Or Es Npq) as (f & lam & v & Ec & En & _ & _ & Np & Nq & Cp & Cq).
    rewrite Ec in X. destruct X as (b & h2 & o' & E1 & _ & _ & E4 & _ & E6 & E7).
    exists b, (draw_weights (subgraph g nodes) random wts), h2, o', p, q, nodes, lam, v.
    split; auto. split; auto. split; auto. split; [exists u0, v0; auto|]. split; auto. split; auto. split; auto.
    split; [destruct Np as (n & Hp); exists n; apply E7; auto|]. split; [destruct Nq as (n & Hq); exists n; apply E7; auto|].
    split; [eapply P_Bipartition.connected_on_ext; [|exact Cp]; intro n; symmetry; apply E7; auto|].
    intro Nz. eapply P_Bipartition.connected_on_ext; [|apply Cq]; [intro n; symmetry; apply E7; auto|]. intros n Hi. apply Nz, Hin, Hi.
  Qed.
End Recom.

(** ** Concrete cases *)
Lemma inv_sqrt_sq x : 0 < x -> (/ sqrt x) * (/ sqrt x) = / x.
Proof. intro H. rewrite <- Rinv_mult, sqrt_sqrt by lra. reflexivity. Qed.
Ltac entries := unfold total, laplacian, row_sum, adjacency, edge_weight; cbn -[Rplus Rmult Rminus Rinv Ropp sqrt IZR].

(** The path of four nodes of the other examples, with drawn weights. *)
Definition sp_draw (e : nat * nat) : R := if Nat.eqb (fst e) 1 then 3 / 8 else 1 / 2.
Definition sp_sys (t : R) : list (R * (nat -> R)) :=
  [(0, fun _ => 1 / 2);
   (1 / 4, fun n => nth n [2 * t; t; - t; - (2 * t)] 0);
   (1, fun n => nth n [1 / 2; - (1 / 2); - (1 / 2); 1 / 2] 0);
   (3 / 2, fun n => nth n [t; - (2 * t); 2 * t; - t] 0)].
Definition sp_matrix (nodes : list nat) : nat -> nat -> R :=
  let h := subgraph ex_g nodes in chosen_matrix h false (draw_weights h (Some sp_draw) []).
Ltac cases_in := repeat match goal with H : In _ _ |- _ => cbn in H end;
  repeat match goal with
  | H : False |- _ => destruct H
  | H : _ \/ _ |- _ => destruct H as [H|H]
  end.
Ltac columns := intros [|[|[|[|k]]]] [|[|[|[|l]]]] ? ? Hk Hl; cbn in Hk, Hl; try discriminate;
  try (destruct k; discriminate); try (destruct l; discriminate);
  injection Hk as <-; injection Hl as <-; unfold total; cbn -[Rplus Rmult Rminus Rinv Ropp sqrt IZR]; try lra.
Lemma sp_eigensystem t nodes : t * t = / 10 -> nodes = [0; 1; 2; 3]%nat \/ nodes = [2; 3; 0; 1]%nat ->
  eigensystem [0; 1; 2; 3]%nat (sp_matrix nodes) (sp_sys t).
Proof.
  intros T Hn. assert (Eq : forall i j, sp_matrix nodes i j = sp_matrix [0; 1; 2; 3]%nat i j) by (destruct Hn as [-> | ->]; reflexivity).
  constructor.
  - cbn [sp_sys map fst]. repeat (constructor; [|repeat constructor; lra]). constructor.
  - intros lam v i Hs Hi. rewrite (total_ext _ _ (fun j => sp_matrix [0; 1; 2; 3]%nat i j * v j)) by (intros; now rewrite Eq). clear Eq Hn nodes.
    unfold sp_matrix, chosen_matrix. unfold sp_sys in Hs.
    cases_in; subst i; injection Hs as <- <-; entries; unfold sp_draw; cbn -[Rplus Rmult Rminus Rinv Ropp sqrt IZR]; lra.
  - columns.
  - intros i j Hi Hj. cases_in; subst i j; unfold total, sp_sys; cbn -[Rplus Rmult Rminus Rinv Ropp sqrt IZR]; lra.
Qed.
Example C97_nonvacuous : let h := ex_run ex_plan [] in
  let eigh := fun (_ : list nat) (_ : nat -> nat -> R) => sp_sys (/ sqrt 10) in
  exists o, session ex_E h /\ nth_error h 0 = Some o /\ dget (e_updaters ex_E) "cut_edges"%string = Some UCutEdges /\
    edge_data ex_g [] /\ positive_draws ex_g (Some sp_draw) /\ has_cut ex_g (o_assign o) /\
    (forall p, connected_on ex_g (fun n => district (o_assign o) n = Some p)) /\
    (forall p q nodes, p <> q -> adjacent ex_g (o_assign o) p q -> merged (o_assign o) p q = Ok nodes ->
       let sub := subgraph ex_g nodes in let mat := chosen_matrix sub false (draw_weights sub (Some sp_draw) []) in
       eigensystem (g_nodes sub) mat (eigh (g_nodes sub) mat) /\
       forall n, In n nodes -> snd (nth 1 (eigh (g_nodes sub) mat) (0, fun _ => 0)) n <> 0).
Proof.
  cbn zeta. assert (T : / sqrt 10 * / sqrt 10 = / 10) by (apply inv_sqrt_sq; lra).
  assert (T0 : / sqrt 10 <> 0) by (intro X; rewrite X in T; lra). revert T T0. generalize (/ sqrt 10). intros t T T0.
  eexists. split; [ex_session|]. split; [vm_compute; reflexivity|]. split; [reflexivity|].
  split; [intros e x X; discriminate X|]. split; [intros draw e X; injection X as <-; intros _; unfold sp_draw; destruct (Nat.eqb (fst e) 1); lra|].
  split; [exists 1%nat, 2%nat; split; [left; cbn; auto|vm_compute; discriminate]|].
  assert (Dist : forall A n p, A = mkAssignment [(1, [0; 1]); (2, [2; 3])]%nat ex_plan -> district A n = Some p -> (p = 1 /\ (n = 0 \/ n = 1) \/ p = 2 /\ (n = 2 \/ n = 3))%nat).
  { intros A n p -> H. unfold district in H. cbn in H. destruct n as [|[|[|[|n]]]]; cbn in H; try discriminate; injection H as <-; auto. }
  match goal with |- context [district ?A] => assert (EA : A = mkAssignment [(1, [0; 1]); (2, [2; 3])]%nat ex_plan) by reflexivity; generalize dependent A end.
  intros A EA. split.
  - intros p x y Hx Hy. destruct (Dist A x p EA Hx) as [[-> X]|[-> X]], (Dist A y _ EA Hy) as [[Ep Y]|[Ep Y]]; try discriminate Ep;
      destruct X as [-> | ->], Y as [-> | ->]; try constructor; (eapply reach_step; [constructor|]); (split; [unfold adj; cbn; auto|auto]).
  - intros p q nodes Npq (u & v & Ad & Du & Dv) Em.
    assert (Hn : nodes = [0; 1; 2; 3]%nat \/ nodes = [2; 3; 0; 1]%nat).
    { destruct (Dist A u p EA Du) as [[-> X]|[-> X]], (Dist A v q EA Dv) as [[-> Y]|[-> Y]]; try contradiction; rewrite EA in Em; vm_compute in Em; injection Em as <-; auto. }
    assert (Ns : g_nodes (subgraph ex_g nodes) = [0; 1; 2; 3]%nat) by (destruct Hn as [-> | ->]; reflexivity).
    cbn zeta. rewrite Ns. split; [now apply sp_eigensystem|].
    intros n Hi. assert (X : In n [0; 1; 2; 3]%nat) by (destruct Hn; subst nodes; cbn in *; tauto). cases_in; subst n; cbn -[Rplus Rmult Rminus Rinv Ropp sqrt IZR]; lra.
Qed.

(** An entry that is exactly zero: the nodes with positive entries need not be
    connected.  A star with three leaves. *)
Definition star : graph nat := mkGraph [0; 1; 2; 3]%nat [(0, 1); (0, 2); (0, 3)]%nat.
Definition star_sys (x y z : R) : list (R * (nat -> R)) :=
  [(0, fun _ => 1 / 2);
   (1, fun n => nth n [0; x; x; - (2 * x)] 0);
   (1, fun n => nth n [0; y; - y; 0] 0);
   (4, fun n => nth n [3 * z; - z; - z; - z] 0)].
Lemma star_wf : wf_graph star.
Proof.
  constructor; cbn.
  - nodup.
  - nodup.
  - intros u v H. repeat destruct H as [H|H]; try injection H as <- <-; cbn; auto 8.
  - intros u v H H'. repeat destruct H as [H|H]; try injection H as <- <-; repeat destruct H' as [H'|H']; try discriminate; tauto.
Qed.
Theorem C97_zero_refuted :
  exists (g : graph nat) (eigh : list nat -> (nat -> nat -> R) -> list (R * (nat -> R))) f,
    wf_graph g /\ connected_on g (fun n => In n (g_nodes g)) /\
    eigensystem (g_nodes g) (laplacian g []) (eigh (g_nodes g) (laplacian g [])) /\
    spectral_cut eigh (fun l => l) g (1, 2)%nat None false [] = (Ok f, []) /\
    ~ connected_on g (fun n => dget f n = Some 2%nat).
Proof.
  assert (X : / sqrt 6 * / sqrt 6 = / 6) by (apply inv_sqrt_sq; lra). assert (Y : / sqrt 2 * / sqrt 2 = / 2) by (apply inv_sqrt_sq; lra).
  assert (Z12 : / sqrt 12 * / sqrt 12 = / 12) by (apply inv_sqrt_sq; lra).
  assert (Px : 0 < / sqrt 6) by (apply Rinv_0_lt_compat, sqrt_lt_R0; lra).
  revert X Y Z12 Px. generalize (/ sqrt 6), (/ sqrt 2), (/ sqrt 12). intros x y z X Y Z12 Px.
  exists star, (fun _ _ => star_sys x y z). eexists. split; [apply star_wf|]. split; [|split; [|split; [reflexivity|]]].
  - assert (U : forall u, In u (g_nodes star) -> u = 0%nat \/ adj star u 0%nat) by (intros u Hu; cases_in; subst u; unfold adj; cbn; tauto).
    intros u v Hu Hv. eapply reach_trans with (v := 0%nat).
    + destruct (U u Hu) as [-> |A]; [constructor|]. eapply reach_step; [constructor|]. split; auto. split; auto. cbn; auto.
    + destruct (U v Hv) as [-> |A]; [constructor|]. eapply reach_step; [constructor|]. split; [unfold adj in *; tauto|]. split; auto. cbn; auto.
  - constructor.
    + cbn [star_sys map fst]. repeat (constructor; [|repeat constructor; lra]). constructor.
    + intros lam v i Hs Hi. unfold star_sys in Hs. cases_in; subst i; injection Hs as <- <-; entries; lra.
    + columns.
    + intros i j Hi Hj. cases_in; subst i j; unfold total, star_sys; cbn -[Rplus Rmult Rminus Rinv Ropp sqrt IZR]; lra.
  - cbn -[Rplus Rmult Rminus Rinv Ropp sqrt IZR side]. unfold side.
    destruct (Rlt_dec 0 0) as [B|_]; [lra|]. destruct (Rlt_dec 0 x) as [_|B]; [|lra]. destruct (Rlt_dec 0 (- (2 * x))) as [B|_]; [lra|]. cbn [fst snd].
    intro H. specialize (H 1%nat 2%nat eq_refl eq_refl).
    assert (G : 2%nat = 1%nat); [|discriminate]. refine (reach_closed _ (fun n => n = 1%nat) _ _ eq_refl _ H).
    intros u v -> (A & _ & B). destruct v as [|[|[|[|v]]]]; cbn in B; try discriminate; auto. unfold adj in A. cbn in A. exfalso.
    repeat match goal with H : _ \/ _ |- _ => destruct H as [H|H] end; try discriminate; auto.
Qed.

(** Rows in another order than graph.nodes(): the entries go to the wrong nodes
    and a district falls apart.  A path whose nodes were added as 1, 0, 2, with a
    set of integers iterated in ascending order. *)
Definition path3 : graph nat := mkGraph [1; 0; 2]%nat [(0, 1); (1, 2)]%nat.
Definition path3_sys (x y z : R) : list (R * (nat -> R)) :=
  [(0, fun _ => z);
   (1, fun n => nth n [y; 0; - y] 0);
   (3, fun n => nth n [x; - (2 * x); x] 0)].
Lemma path3_wf : wf_graph path3.
Proof.
  constructor; cbn.
  - nodup.
  - nodup.
  - intros u v H. repeat destruct H as [H|H]; try injection H as <- <-; cbn; auto 8.
  - intros u v H H'. repeat destruct H as [H|H]; try injection H as <- <-; repeat destruct H' as [H'|H']; try discriminate; tauto.
Qed.
Theorem C97_order_refuted :
  exists (g : graph nat) (eigh : list nat -> (nat -> nat -> R) -> list (R * (nat -> R))) rows f,
    wf_graph g /\ connected_on g (fun n => In n (g_nodes g)) /\ Permutation rows (g_nodes g) /\
    eigensystem rows (laplacian g []) (eigh rows (laplacian g [])) /\
    spectral_cut eigh (fun _ => rows) g (1, 2)%nat None false [] = (Ok f, []) /\
    ~ connected_on g (fun n => dget f n = Some 1%nat).
Proof.
  assert (X : / sqrt 6 * / sqrt 6 = / 6) by (apply inv_sqrt_sq; lra). assert (Y : / sqrt 2 * / sqrt 2 = / 2) by (apply inv_sqrt_sq; lra).
  assert (Z3 : / sqrt 3 * / sqrt 3 = / 3) by (apply inv_sqrt_sq; lra).
  assert (Py : 0 < / sqrt 2) by (apply Rinv_0_lt_compat, sqrt_lt_R0; lra).
  revert X Y Z3 Py. generalize (/ sqrt 6), (/ sqrt 2), (/ sqrt 3). intros x y z X Y Z3 Py.
  exists path3, (fun _ _ => path3_sys x y z), [0; 1; 2]%nat. eexists. split; [apply path3_wf|]. split; [|split; [apply perm_swap|split; [|split; [reflexivity|]]]].
  - assert (U : forall u, In u (g_nodes path3) -> u = 1%nat \/ adj path3 u 1%nat) by (intros u Hu; cases_in; subst u; unfold adj; cbn; tauto).
    intros u v Hu Hv. eapply reach_trans with (v := 1%nat).
    + destruct (U u Hu) as [-> |A]; [constructor|]. eapply reach_step; [constructor|]. split; auto. split; auto. cbn; auto.
    + destruct (U v Hv) as [-> |A]; [constructor|]. eapply reach_step; [constructor|]. split; [unfold adj in *; tauto|]. split; auto. cbn; auto.
  - constructor.
    + cbn [path3_sys map fst]. repeat (constructor; [|repeat constructor; lra]). constructor.
    + intros lam v i Hs Hi. unfold path3_sys in Hs. cases_in; subst i; injection Hs as <- <-; entries; lra.
    + columns.
    + intros i j Hi Hj. cases_in; subst i j; unfold total, path3_sys; cbn -[Rplus Rmult Rminus Rinv Ropp sqrt IZR]; lra.
  - cbn -[Rplus Rmult Rminus Rinv Ropp sqrt IZR side]. unfold side.
    destruct (Rlt_dec 0 0) as [B|_]; [lra|]. destruct (Rlt_dec 0 y) as [_|B]; [|lra]. destruct (Rlt_dec 0 (- y)) as [B|_]; [lra|]. cbn [fst snd].
    intro H. specialize (H 0%nat 2%nat eq_refl eq_refl).
    assert (G : 2%nat = 0%nat); [|discriminate]. refine (reach_closed _ (fun n => n = 0%nat) _ _ eq_refl _ H).
    intros u v -> (A & _ & B). destruct v as [|[|[|v]]]; cbn in B; try discriminate; auto. unfold adj in A. cbn in A. exfalso.
    repeat match goal with H : _ \/ _ |- _ => destruct H as [H|H] end; try discriminate; auto.
Qed.

Print Assumptions C97_cut.
Print Assumptions C97_recom.
Print Assumptions C97_errors.
Print Assumptions C97_weights.
Print Assumptions C97_connected.
Print Assumptions C97_zero_refuted.
Print Assumptions C97_order_refuted.
