(** C100: which trees [random_spanning_tree] returns, and how often. *)
From Coq Require Import String List Bool Arith ZArith QArith Lqa Lia ZifyBool ZifyNat Permutation.
From Verif Require Import Base M_Graph M_Partition S_Partition L_Partition M_Machine S_Machine
  S_Contiguity L_Search M_Election L_Order M_Proposals M_Tree S_Tree L_Tree L_Wilson L_Kruskal P_Partition P_Contiguity P_Tree P_Spanning
  L_Locality M_SpanningCount L_MatrixTree P_SpanningCount M_Recursive P_Uniform.
Import ListNotations.
Local Open Scope nat_scope.
Local Open Scope list_scope.

Section RandomTree.
  Context {N L : Type} {EN : EqB N} {EL : EqB L}.
  Implicit Types (region : string -> N -> option (option L)) (d : dict string Q) (u : N * N -> Q).

  (** Every region column is present at every node. *)
  Definition has_columns region d (g : graph N) : Prop :=
    forall key n, In key (dkeys d) -> In n (g_nodes g) -> region key n <> None.
  (** The edge between two nodes, in the direction in which the graph stores it. *)
  Definition link (E : list (N * N)) (Pr : N * N -> Prop) (a b : N) : Prop :=
    (In (a, b) E /\ Pr (a, b)) \/ (In (b, a) E /\ Pr (b, a)).

  Lemma tree_form region d u (g : graph N) : wf_graph g -> has_columns region d g ->
    exists w, (forall e, In e (g_edges g) -> (w e == intended_weight region d u e)%Q) /\
      random_spanning_tree region d u g = Ok (mkGraph (g_nodes g) (kruskal (fun x => x) (sort_edges w (g_edges g)))).
  Proof.
    intros WF Reg.
    assert (Ew : forall e, In e (g_edges g) -> exists w, edge_weight region d u e = Ok w /\ (w == intended_weight region d u e)%Q).
    { intros [a b] He. apply edge_weight_ok. destruct (wfg_ends g WF a b He) as [Ha Hb]. intros key n Hk [-> | ->]; apply Reg; auto. }
    set (f := fun e => match edge_weight region d u e with Ok w => w | _ => 0%Q end).
    assert (Ef : forall e, In e (g_edges g) -> edge_weight region d u e = Ok (f e) /\ (f e == intended_weight region d u e)%Q).
    { intros e He. destruct (Ew e He) as (w & E & Q). unfold f. rewrite E. auto. }
    exists (fun e => dget_or 0%Q (map (fun e => (e, f e)) (g_edges g)) e). split.
    - intros e He. rewrite weights_dict by auto. now apply Ef.
    - unfold random_spanning_tree.
      rewrite (mapM_all_Ok _ (fun e => (e, f e))) by (intros e He; rewrite (proj1 (Ef e He)); reflexivity). reflexivity.
  Qed.

  (** At every level: nodes joined in the graph by edges of weight at most [c]
      are joined in the tree by such edges. *)
  Theorem C100_levels region d u (g : graph N) c x y : wf_graph g -> has_columns region d g ->
    reach (link (g_edges g) (fun e => intended_weight region d u e <= c)%Q) x y ->
    exists T, random_spanning_tree region d u g = Ok T /\ reach (link (g_edges T) (fun e => intended_weight region d u e <= c)%Q) x y.
  Proof.
    intros WF Reg H. destruct (tree_form region d u g WF Reg) as (w & Hw & ->). eexists. split; [reflexivity|]. cbn [g_edges].
    set (es := sort_edges w (g_edges g)). assert (P : Permutation es (g_edges g)) by apply sort_edges_perm.
    set (l1 := filter (le_t w c) es). set (l2 := filter (gt_t w c) es).
    assert (Es : es = l1 ++ l2) by apply sorted_split, sort_edges_sorted.
    assert (In1 : forall e, In e l1 <-> In e (g_edges g) /\ (intended_weight region d u e <= c)%Q).
    { intro e. unfold l1. rewrite filter_In. unfold le_t. rewrite Qle_bool_iff. split.
      - intros [He Hc]. assert (He' : In e (g_edges g)) by (eapply Permutation_in; eauto). split; auto. now rewrite <- (Hw e He').
      - intros [He Hc]. split; [eapply Permutation_in; [apply Permutation_sym; exact P|exact He]|]. now rewrite (Hw e He). }
    assert (F : final (fun z : N => z) l1 x = final (fun z : N => z) l1 y).
    { induction H as [|a b Hab IH [[H1 H2]|[H1 H2]]]; auto; rewrite IH; [|symmetry]; apply final_edge; now apply In1. }
    apply (kruskal_joined l1 (fun z => z) []) in F; [|intros a b ->; constructor]. cbn [app] in F.
    eapply reach_mono; [|exact F]. cbn beta. intros a b. rewrite Es, kruskal_app. unfold joined, link. rewrite !in_app_iff.
    intros [K|K]; [left|right]; (split; [now left|]); apply kruskal_incl, In1 in K; tauto.
  Qed.

  (** One column with a surcharge of at least one, and draws below one: what a
      region joins in the graph, the tree joins inside the region. *)
  Theorem C100_regions region key s u (g : graph N) x y : wf_graph g -> has_columns region [(key, s)] g -> (1 <= s)%Q ->
    (forall e, In e (g_edges g) -> 0 <= u e < 1)%Q ->
    reach (link (g_edges g) (fun e => same_region region key e = true)) x y ->
    exists T, random_spanning_tree region [(key, s)] u g = Ok T /\ reach (link (g_edges T) (fun e => same_region region key e = true)) x y.
  Proof.
    intros WF Reg Hs Hu H.
    assert (W0 : forall e, same_region region key e = true -> (intended_weight region [(key, s)] u e == u e)%Q).
    { intros e E. unfold intended_weight. cbn [map fst snd]. rewrite E. rewrite qsum_cons. unfold qsum. cbn. ring. }
    assert (W1 : forall e, In e (g_edges g) -> same_region region key e = false -> (1 <= intended_weight region [(key, s)] u e)%Q).
    { intros e He E. unfold intended_weight. cbn [map fst snd]. rewrite E. rewrite qsum_cons. unfold qsum. cbn. specialize (Hu e He). lra. }
    (* the largest weight used by the path *)
    assert (C : exists c, (c < 1)%Q /\ forall e, In e (g_edges g) -> (u e <= c)%Q).
    { clear -Hu. induction (g_edges g) as [|e l IH]; [exists 0%Q; split; [lra|intros e []]|].
      destruct IH as (c & Hc & Hle); [intros; apply Hu; now right|]. destruct (Hu e (or_introl eq_refl)) as [_ H1].
      destruct (Qlt_le_dec (u e) c) as [X|X].
      - exists c. split; auto. intros f [<-|Hf]; [lra|auto].
      - exists (u e). split; auto. intros f [<-|Hf]; [lra|]. specialize (Hle f Hf). lra. }
    destruct C as (c & Hc & Hle).
    destruct (C100_levels region [(key, s)] u g c x y WF Reg) as (T & E & R).
    { eapply reach_mono; [|exact H]. cbn beta. intros a b [[K1 K2]|[K1 K2]]; [left|right]; (split; auto); rewrite W0; auto. }
    exists T. split; auto. eapply reach_mono; [|exact R]. cbn beta.
    assert (Inc : incl (g_edges T) (g_edges g)).
    { destruct (tree_form region [(key, s)] u g WF Reg) as (w & _ & E'). rewrite E' in E. injection E as <-. intros e He. cbn in He.
      apply kruskal_incl in He. eapply Permutation_in; [apply sort_edges_perm|exact He]. }
    intros a b [[K1 K2]|[K1 K2]]; [left|right]; (split; auto).
    - destruct (same_region region key (a, b)) eqn:Es; auto. assert (X := W1 _ (Inc _ K1) Es). lra.
    - destruct (same_region region key (b, a)) eqn:Es; auto. assert (X := W1 _ (Inc _ K1) Es). lra.
  Qed.

  (** Every spanning tree is possible: it is returned whenever its edges are
      the lightest. *)
  Theorem C100_support region d u (g : graph N) T : wf_graph g -> connected_graph g -> has_columns region d g -> tree_of g T ->
    (forall e f, In e T -> In f (g_edges g) -> ~ In f T -> intended_weight region d u e < intended_weight region d u f)%Q ->
    exists R, random_spanning_tree region d u g = Ok R /\ forall e, In e (g_edges R) <-> In e T.
  Proof.
    intros WF Con Reg [[f Ef] ST] Sep. destruct (tree_form region d u g WF Reg) as (w & Hw & ->). eexists. split; [reflexivity|]. cbn [g_edges].
    set (K := kruskal (fun x => x) (sort_edges w (g_edges g))).
    assert (IT : incl T (g_edges g)) by (rewrite Ef; intros e He; apply filter_In in He; tauto).
    assert (IK : incl K (g_edges g)) by (intros e He; apply kruskal_incl in He; eapply Permutation_in; [apply sort_edges_perm|exact He]).
    assert (SK : spanning_tree g (mkGraph (g_nodes g) K)) by (apply kruskal_tree; auto; apply sort_edges_perm).
    assert (Len : List.length K = List.length T).
    { destruct ST as [[_ _ S1] _], SK as [[_ _ S2] _]. cbn in S1, S2. lia. }
    assert (NK : NoDup K) by apply (wfg_edges _ (tree_wf _ (proj1 SK))). assert (NT : NoDup T) by apply (wfg_edges _ (tree_wf _ (proj1 ST))).
    assert (KT : incl K T).
    { destruct T as [|e0 T0] eqn:ET; [destruct K; [intros x []|discriminate Len]|]. rewrite <- ET in *.
      assert (Mx : exists e, In e T /\ forall e', In e' T -> (w e' <= w e)%Q).
      { clear -ET. revert e0 T0 ET. induction T as [|a T IH]; intros e0 T0 ET; [discriminate|]. destruct T as [|b T'].
        - exists a. split; [now left|]. intros e' [<-|[]]. apply Qle_refl.
        - destruct (IH b T' eq_refl) as (e & He & Hm). destruct (Qlt_le_dec (w a) (w e)) as [X|X].
          + exists e. split; [now right|]. intros e' [<-|He']; [lra|auto].
          + exists a. split; [now left|]. intros e' [<-|He']; [apply Qle_refl|]. specialize (Hm e' He'). lra. }
      destruct Mx as (e & He & Hm).
      assert (C := kruskal_count_le w g (mkGraph (g_nodes g) T) (w e) WF Con ST IT). cbn [g_edges] in C. fold K in C.
      assert (CT : count w (w e) T = List.length T).
      { unfold count. rewrite <- (app_nil_r T) at 1. rewrite filter_app_nil; auto; [|intros x []]. intros x Hx. apply Qle_bool_iff. now apply Hm. }
      assert (CG := count_gt w (w e) K). assert (GT : filter (gt_t w (w e)) K = []) by (destruct (filter (gt_t w (w e)) K); [reflexivity|cbn in CG; lia]).
      intros k Hk. destruct (In_dec_of k T) as [|Hn]; auto. exfalso.
      assert (X := Sep e k He (IK k Hk) Hn). rewrite <- (Hw e (IT e He)), <- (Hw k (IK k Hk)) in X.
      assert (G : In k (filter (gt_t w (w e)) K)); [|rewrite GT in G; destruct G]. apply filter_In. split; auto. unfold gt_t, le_t. apply negb_true_iff.
      destruct (Qle_bool (w k) (w e)) eqn:E; auto. apply Qle_bool_iff in E. lra. }
    intro e. split; [apply KT|]. apply NoDup_length_incl; auto. lia.
  Qed.

  (** Without surcharges only the order of the draws matters. *)
  Theorem C100_order region u u' (g : graph N) : wf_graph g ->
    (forall e f, In e (g_edges g) -> In f (g_edges g) -> (u e <= u f <-> u' e <= u' f)%Q) ->
    random_spanning_tree region [] u g = random_spanning_tree region [] u' g.
  Proof.
    intros WF Ord. assert (Reg : has_columns region [] g) by (intros k n []).
    destruct (tree_form region [] u g WF Reg) as (w & Hw & ->). destruct (tree_form region [] u' g WF Reg) as (w' & Hw' & ->).
    do 3 f_equal.
    assert (W : forall e f, In e (g_edges g) -> In f (g_edges g) -> Qle_bool (w e) (w f) = Qle_bool (w' e) (w' f)).
    { intros e f He Hf. apply eq_true_iff_eq. rewrite !Qle_bool_iff. rewrite (Hw e He), (Hw f Hf), (Hw' e He), (Hw' f Hf).
      unfold intended_weight. cbn [map]. unfold qsum. cbn. rewrite !Qplus_0_r. apply Ord; auto. }
    clear -W. set (l := g_edges g) in *. assert (I : incl l l) by apply incl_refl. revert I. generalize l at 1 3 4. intro l'.
    induction l' as [|e l' IH]; intro I; [reflexivity|]. unfold sort_edges in *. cbn [fold_right]. rewrite IH by (intros x Hx; apply I; now right).
    assert (J : incl (fold_right (insert_edge w') [] l') l).
    { intros x Hx. apply I. right. eapply Permutation_in; [apply (sort_edges_perm w')|exact Hx]. }
    assert (He : In e l) by (apply I; now left). revert J. generalize (fold_right (insert_edge w') [] l'). clear IH I. intro m.
    induction m as [|f m IHm]; intro J; [reflexivity|]. cbn [insert_edge]. rewrite (W e f) by (auto; apply J; now left).
    destruct (Qle_bool (w' e) (w' f)); auto. f_equal. apply IHm. intros x Hx. apply J. now right.
  Qed.
End RandomTree.

(** ** Orders of the edges *)
Section Orders.
  Context {X : Type}.
  Fixpoint everywhere (x : X) (l : list X) : list (list X) :=
    (x :: l) :: match l with [] => [] | y :: r => map (cons y) (everywhere x r) end.
  Fixpoint orders (l : list X) : list (list X) := match l with [] => [[]] | x :: r => flat_map (everywhere x) (orders r) end.
  Lemma In_everywhere x l m : In m (everywhere x l) <-> exists a b, l = a ++ b /\ m = a ++ x :: b.
  Proof.
    revert m. induction l as [|y r IH]; intro m; cbn [everywhere].
    - split; [intros [<-|[]]; now exists [], []|]. intros (a & b & E & ->). destruct a; [|discriminate]. destruct b; [|discriminate]. now left.
    - split.
      + intros [<-|H]; [now exists [], (y :: r)|]. apply in_map_iff in H. destruct H as (m' & <- & H). apply IH in H. destruct H as (a & b & -> & ->). now exists (y :: a), b.
      + intros (a & b & E & ->). destruct a as [|z a]; [left; cbn in *; now rewrite E|]. injection E as <- E. right. cbn. apply in_map, IH. now exists a, b.
  Qed.
  Lemma In_orders l : forall m, In m (orders l) <-> Permutation m l.
  Proof.
    induction l as [|x l IH]; intro m; cbn [orders].
    - split; [intros [<-|[]]; constructor|]. intro P. apply Permutation_sym, Permutation_nil in P. subst. now left.
    - rewrite in_flat_map. split.
      + intros (o & Ho & H). apply IH in Ho. apply In_everywhere in H. destruct H as (a & b & -> & ->).
        apply Permutation_sym. apply Permutation_cons_app. now apply Permutation_sym.
      + intro P. assert (Hx : In x m) by (eapply Permutation_in; [apply Permutation_sym; exact P|now left]). apply in_split in Hx. destruct Hx as (a & b & ->).
        exists (a ++ b). split; [|apply In_everywhere; now exists a, b]. apply IH. apply Permutation_sym in P. apply Permutation_sym. eapply Permutation_cons_app_inv; eauto.
  Qed.
  Lemma NoDup_everywhere x l : ~ In x l -> NoDup (everywhere x l).
  Proof.
    induction l as [|y r IH]; intro H; cbn [everywhere]; [repeat constructor; intros []|]. constructor.
    - intro K. apply in_map_iff in K. destruct K as (m & E & _). injection E as -> _. apply H. now left.
    - apply FinFun.Injective_map_NoDup; [intros a b E; congruence|]. apply IH. intro K. apply H. now right.
  Qed.
  Lemma everywhere_inj x l l' m : ~ In x l -> ~ In x l' -> In m (everywhere x l) -> In m (everywhere x l') -> l = l'.
  Proof.
    intros H H' K K'. apply In_everywhere in K, K'. destruct K as (a & b & -> & ->), K' as (a' & b' & -> & E).
    revert a' H' E. induction a as [|y a IH]; intros [|y' a'] H' E; cbn in *.
    - congruence.
    - injection E as <- _. elim H'. now left.
    - injection E as -> _. elim H. now left.
    - injection E as <- E. f_equal. apply IH; auto.
  Qed.
  Lemma NoDup_orders l : NoDup l -> NoDup (orders l).
  Proof.
    induction 1 as [|x l Hx ND IH]; cbn [orders]; [repeat constructor; intros []|].
    assert (Sub : forall o, In o (orders l) -> ~ In x o) by (intros o Ho K; apply Hx; apply In_orders in Ho; eapply Permutation_in; eauto).
    revert IH Sub. generalize (orders l). induction 1 as [|o os Ho NDo IHo]; intro Sub; cbn [flat_map]; [constructor|].
    apply NoDup_app_iff. split; [apply NoDup_everywhere, Sub; now left|]. split; [apply IHo; intros; apply Sub; now right|].
    intros m K1 K2. apply in_flat_map in K2. destruct K2 as (o' & Ho' & K2). apply Ho.
    rewrite (everywhere_inj x o o' m); auto; apply Sub; [now left|now right].
  Qed.
End Orders.

Section NotUniform.
  Context {N L : Type} {EN : EqB N} {EL : EqB L}.
  (** Draws in the order [l]: the position of the edge. *)
  Definition rank (l : list (N * N)) (e : N * N) : Q :=
    (fix go (l : list (N * N)) (i : Q) : Q := match l with [] => i | f :: r => if eqb f e then i else go r (i + 1)%Q end) l 0%Q.
  (** The order [l] of the draws of the edges leads to the tree [T]. *)
  Definition leads_to (region : string -> N -> option (option L)) (g : graph N) (T : list (N * N)) (l : list (N * N)) : Prop :=
    Permutation l (g_edges g) /\ exists R, random_spanning_tree region [] (rank l) g = Ok R /\ same_edges R T.
  Definition leadsb (region : string -> N -> option (option L)) (g : graph N) (T : list (N * N)) (l : list (N * N)) : bool :=
    match random_spanning_tree region [] (rank l) g with Ok R => sameb R T | _ => false end.
  Lemma leads_count region g T : NoDup (g_edges g) -> numbers (leads_to region g T) (List.length (filter (leadsb region g T) (orders (g_edges g)))).
  Proof.
    intro ND. exists (filter (leadsb region g T) (orders (g_edges g))). split; [apply NoDup_filter, NoDup_orders, ND|]. split; [|reflexivity].
    intro l. rewrite filter_In, In_orders. unfold leads_to, leadsb. split; intros [P H]; (split; [exact P|]).
    - destruct (random_spanning_tree region [] (rank l) g) as [R|e|]; try discriminate H. exists R. split; auto. now apply sameb_spec.
    - destruct H as (R & -> & H). now apply sameb_spec.
  Qed.
End NotUniform.

(** A square with a diagonal. *)
Definition diamond : graph nat := mkGraph [0; 1; 2; 3] [(0, 1); (1, 2); (2, 3); (0, 3); (0, 2)].
Definition no_region (key : string) (n : nat) : option (option nat) := None.

(** The two trees that avoid the diagonal and share three sides are rarer than
    the ones that use it: 14 against 16 of the 120 orders. *)
Definition around : list (nat * nat) := [(0, 1); (1, 2); (2, 3)].
Definition across : list (nat * nat) := [(0, 1); (2, 3); (0, 2)].

Lemma diamond_wf : wf_graph diamond.
Proof.
  constructor; cbn.
  - repeat constructor; cbn; intuition discriminate.
  - repeat constructor; cbn; intuition discriminate.
  - intros u v [H|[H|[H|[H|[H|[]]]]]]; injection H as <- <-; auto 10.
  - intros u v [H|[H|[H|[H|[H|[]]]]]] [K|[K|[K|[K|[K|[]]]]]]; congruence.
Qed.
Lemma diamond_around : tree_of diamond around.
Proof.
  replace around with (edges_in diamond [(0, 1); (1, 2); (2, 3)]) by (vm_compute; reflexivity).
  apply (edges_in_tree diamond diamond_wf 0 [(0, 1); (1, 2); (2, 3)]).
  - apply (rooted_snoc 0 [(0, 1); (1, 2)] 2 3); [apply (rooted_snoc 0 [(0, 1)] 1 2); [apply (rooted_snoc 0 [] 0 1); [constructor|now left|cbn; lia]|cbn; auto|cbn; lia]|cbn; auto|cbn; lia].
  - intro x. cbn. tauto.
  - intros p q H. cbn in H. destruct H as [H|[H|[H|[]]]]; injection H as <- <-; unfold adj; cbn; auto 10.
Qed.
Lemma diamond_across : tree_of diamond across.
Proof.
  replace across with (edges_in diamond [(0, 1); (0, 2); (2, 3)]) by (vm_compute; reflexivity).
  apply (edges_in_tree diamond diamond_wf 0 [(0, 1); (0, 2); (2, 3)]).
  - apply (rooted_snoc 0 [(0, 1); (0, 2)] 2 3); [apply (rooted_snoc 0 [(0, 1)] 0 2); [apply (rooted_snoc 0 [] 0 1); [constructor|now left|cbn; lia]|cbn; auto|cbn; lia]|cbn; auto|cbn; lia].
  - intro x. cbn. tauto.
  - intros p q H. cbn in H. destruct H as [H|[H|[H|[]]]]; injection H as <- <-; unfold adj; cbn; auto 10.
Qed.
Lemma diamond_connected : connected_graph diamond.
Proof.
  destruct diamond_around as [_ [[_ C _] [_ A]]]. split; [discriminate|]. intros u v Hu Hv. eapply reach_mono; [intros a b; apply A|]. now apply C.
Qed.

(** The sampler with random weights is not uniform. *)
Theorem C100_uniform_refuted : exists (g : graph nat) (T T' : list (nat * nat)) k k',
  wf_graph g /\ connected_graph g /\ tree_of g T /\ tree_of g T' /\
  (forall region : string -> nat -> option (option nat), numbers (leads_to region g T) k /\ numbers (leads_to region g T') k') /\ k < k'.
Proof.
  exists diamond, around, across, 14, 16. split; [apply diamond_wf|]. split; [apply diamond_connected|]. split; [apply diamond_around|]. split; [apply diamond_across|].
  split; [|lia]. intro region. split.
  - replace 14 with (List.length (filter (leadsb region diamond around) (orders (g_edges diamond)))) by (vm_compute; reflexivity). apply leads_count, diamond_wf.
  - replace 16 with (List.length (filter (leadsb region diamond across) (orders (g_edges diamond)))) by (vm_compute; reflexivity). apply leads_count, diamond_wf.
Qed.

(** Two halves of the diamond as regions, and draws that favour the tree around. *)
Definition halves (key : string) (n : nat) : option (option nat) := Some (Some (if n <? 2 then 0 else 1)).
Definition favour (e : nat * nat) : Q := if mem e around then 1 # 4 else 1 # 2.
Example C100_nonvacuous : wf_graph diamond /\ connected_graph diamond /\ has_columns halves [("county"%string, 2%Q)] diamond /\ tree_of diamond around /\
  (forall e f, In e around -> In f (g_edges diamond) -> ~ In f around ->
     intended_weight no_region [] favour e < intended_weight no_region [] favour f)%Q /\
  (forall e, In e (g_edges diamond) -> 0 <= favour e < 1)%Q /\
  reach (link (g_edges diamond) (fun e => same_region halves "county" e = true)) 0 1 /\
  ~ reach (link (g_edges diamond) (fun e => same_region halves "county" e = true)) 0 2 /\
  reach (link (g_edges diamond) (fun e => intended_weight halves [("county"%string, 2%Q)] favour e <= 9 # 4)%Q) 0 3.
Proof.
  split; [apply diamond_wf|]. split; [apply diamond_connected|]. split; [intros key n _ _; discriminate|]. split; [apply diamond_around|].
  split; [|split; [|split; [|split]]].
  - intros e f He Hf Hn. assert (F : f = (0, 3) \/ f = (0, 2)).
    { cbn in Hf. unfold around in Hn. cbn in Hn. destruct Hf as [<-|[<-|[<-|[<-|[<-|[]]]]]]; tauto. }
    destruct He as [<-|[<-|[<-|[]]]], F as [->| ->]; reflexivity.
  - intros e [<-|[<-|[<-|[<-|[<-|[]]]]]]; split; vm_compute; congruence.
  - eapply reach_step; [constructor|]. left. split; [left; reflexivity|reflexivity].
  - assert (G : forall x, reach (link (g_edges diamond) (fun e => same_region halves "county" e = true)) 0 x -> x < 2).
    { intros x H. induction H as [|a b H IH [[K1 K2]|[K1 K2]]]; [lia| |]; cbn in K1; destruct K1 as [K|[K|[K|[K|[K|[]]]]]]; injection K as <- <-;
        try (vm_compute in K2; discriminate K2); lia. }
    intro H. apply G in H. lia.
  - eapply reach_step; [eapply reach_step; [eapply reach_step; [constructor|]|]|].
    + left. split; [left; reflexivity|]. vm_compute. congruence.
    + left. split; [right; left; reflexivity|]. vm_compute. congruence.
    + left. split; [right; right; left; reflexivity|]. vm_compute. congruence.
Qed.

Print Assumptions C100_support.
Print Assumptions C100_levels.
Print Assumptions C100_regions.
Print Assumptions C100_order.
Print Assumptions C100_uniform_refuted.
