(** C99: the spanning tree drawn by [uniform_spanning_tree] is uniform. *)
From Coq Require Import String List Bool Arith ZArith QArith Qabs Lqa Permutation Lia ZifyBool ZifyNat.
From Verif Require Import Base M_Graph M_Partition S_Partition L_Partition M_Machine S_Machine
  S_Contiguity L_Search M_Election M_Proposals M_Tree S_Tree L_Tree L_Wilson L_Popping L_WilsonRuns L_Uniform L_Locality
  P_Contiguity M_SpanningCount L_MatrixTree P_SpanningCount L_Kruskal M_Recursive.
Import ListNotations.
Local Open Scope nat_scope.
Local Open Scope list_scope.

(** ** Specification *)
Section Spec.
  Context {N : Type} {EN : EqB N}.
  (** The graph [R] has the edges [T], whatever their direction. *)
  Definition same_edges (R : graph N) (T : list (N * N)) : Prop :=
    forall u v, adj R u v <-> In (u, v) T \/ In (v, u) T.
  (** [ws] is a sequence of [n] draws below [D], and with these draws the call
      returns the tree [T] without asking for a further one. *)
  Definition returns (g : graph N) (D n : nat) (T : list (N * N)) (ws : list nat) : Prop :=
    List.length ws = n /\ Forall (fun w => w < D) ws /\
    exists fuel R m, uniform_run fuel g (fun i => nth i ws 0) = Ok (R, m) /\ m <= n /\ same_edges R T.
End Spec.

Section Lists.
  Lemma filter_length_le {X} (f : X -> bool) l : List.length (filter f l) <= List.length l.
  Proof. induction l as [|x l IH]; cbn; [reflexivity|]. destruct (f x); cbn; lia. Qed.
  (** Counting along an injective relation. *)
  Lemma numbers_rel {X Y} (A : X -> Prop) (B : Y -> Prop) (R : X -> Y -> Prop) j k :
    (forall x, A x -> exists y, B y /\ R x y) -> (forall x x' y, R x y -> R x' y -> x = x') ->
    numbers A j -> numbers B k -> j <= k.
  Proof.
    intros H1 H2 (l & ND & Hl & <-) (l' & ND' & Hl' & <-).
    assert (X1 : forall l0, (forall x, In x l0 -> A x) -> NoDup l0 -> exists l1, NoDup l1 /\ List.length l1 = List.length l0 /\ (forall y, In y l1 -> B y /\ exists x, In x l0 /\ R x y)).
    { induction l0 as [|x l0 IH]; intros Ha Nd.
      - exists []. split; [constructor|]. split; [reflexivity|intros y []].
      - inversion Nd as [|? ? Hx Nd0]; subst. destruct IH as (l1 & N1 & L1 & I1); auto. { intros; apply Ha; now right. }
        destruct (H1 x (Ha x (or_introl eq_refl))) as (y & By & Ry). exists (y :: l1). split; [|split].
        + constructor; auto. intro Hy. destruct (I1 y Hy) as (_ & x' & Hx' & R'). rewrite (H2 x x' y Ry R') in Hx. contradiction.
        + cbn. now rewrite L1.
        + intros z [<-|Hz]; [split; auto; exists x; split; auto; now left|]. destruct (I1 z Hz) as (? & x' & ? & ?). split; auto. exists x'. split; auto. now right. }
    destruct (X1 l) as (l1 & N1 & L1 & I1); auto. { intros x. apply Hl. }
    rewrite <- L1. apply NoDup_incl_length; auto. intros y Hy. apply Hl'. apply (I1 y Hy).
  Qed.
  Fixpoint words (D n : nat) : list (list nat) :=
    match n with 0 => [[]] | S n => flat_map (fun w => map (cons w) (words D n)) (seq 0 D) end.
  Lemma In_words D n : forall ws, In ws (words D n) <-> List.length ws = n /\ Forall (fun w => w < D) ws.
  Proof.
    induction n as [|n IH]; intro ws; cbn [words].
    - split; [intros [<-|[]]; split; auto|]. intros [H _]. destruct ws; [now left|discriminate].
    - rewrite in_flat_map. split.
      + intros (w & Hw & H). apply in_map_iff in H. destruct H as (t & <- & Ht). apply IH in Ht. destruct Ht as [H1 H2]. apply in_seq in Hw. cbn. split; [lia|]. constructor; auto. lia.
      + intros [H1 H2]. destruct ws as [|w t]; [discriminate|]. inversion H2; subst. exists w. split; [apply in_seq; lia|]. apply in_map, IH. cbn in H1. split; auto.
  Qed.
  Lemma NoDup_words D n : NoDup (words D n).
  Proof.
    induction n as [|n IH]; cbn [words]; [repeat constructor; intros []|].
    assert (X : forall l, NoDup l -> NoDup (flat_map (fun w => map (cons w) (words D n)) l)); [|apply X, seq_NoDup].
    induction 1 as [|w l Hw NDl IHl]; cbn [flat_map]; [constructor|]. apply NoDup_app_iff. split; [|split; [exact IHl|]].
    - apply FinFun.Injective_map_NoDup; auto. intros a b E. congruence.
    - intros x H1 H2. apply in_map_iff in H1. destruct H1 as (t & <- & _). apply in_flat_map in H2. destruct H2 as (w' & Hw' & H2).
      apply in_map_iff in H2. destruct H2 as (t' & E & _). injection E as -> _. contradiction.
  Qed.
  Lemma length_words D n : List.length (words D n) = D ^ n.
  Proof.
    induction n as [|n IH]; cbn [words]; [reflexivity|].
    assert (X : forall l, List.length (flat_map (fun w => map (cons w) (words D n)) l) = List.length l * D ^ n).
    { induction l as [|w l IHl]; cbn [flat_map]; [reflexivity|]. rewrite app_length, map_length, IHl, IH. cbn. lia. }
    rewrite X, seq_length. reflexivity.
  Qed.
  Lemma numbers_words (A : list nat -> Prop) D n (b : list nat -> bool) :
    (forall ws, A ws <-> (List.length ws = n /\ Forall (fun w => w < D) ws) /\ b ws = true) ->
    numbers A (List.length (filter b (words D n))).
  Proof.
    intro H. exists (filter b (words D n)). split; [apply NoDup_filter, NoDup_words|]. split; [|reflexivity].
    intro ws. now rewrite filter_In, In_words, H.
  Qed.
End Lists.

Section Traces.
  Context {N : Type} {EN : EqB N}.
  Lemma length_trace (tr : list (N * nat)) l : NoDup l -> (forall p, In p tr -> In (fst p) l) -> List.length tr = sumd (fun x => List.length (drawsat x tr)) l.
  Proof.
    intro ND. induction tr as [|p tr IH]; intro H.
    - cbn. clear. induction l; cbn; auto.
    - cbn [List.length]. rewrite IH by (intros; apply H; now right). rewrite <- (sumd_bump _ (fst p) l ND (H p (or_introl eq_refl))).
      unfold sumd. f_equal. apply map_ext. intro x. unfold bump, drawsat. cbn [filter]. destruct (eqb x (fst p)); cbn [map List.length]; lia.
  Qed.
End Traces.

Section Uniform.
  Context {N : Type} {EN : EqB N}.
  Variable g : graph N.
  Hypothesis WF : wf_graph g.

  Lemma drawn_list ws (tr : list (N * nat)) : drawn (fun i => nth i ws 0) 1 tr -> S (List.length tr) <= List.length ws ->
    exists w0 rest, ws = w0 :: map snd tr ++ rest.
  Proof using.
    destruct ws as [|w0 ws]; [cbn; intros; lia|]. intros Hd Hl. exists w0, (skipn (List.length tr) ws). f_equal.
    rewrite <- (firstn_skipn (List.length tr) ws) at 1. f_equal. cbn in Hl.
    apply (nth_ext _ _ 0 0); [rewrite firstn_length, map_length; lia|]. intros i Hi. rewrite firstn_length in Hi.
    assert (Hi' : i < List.length tr) by lia. destruct (nth_error tr i) as [q|] eqn:E; [|apply nth_error_None in E; lia].
    specialize (Hd i q E). cbn in Hd. rewrite (nth_error_nth (map snd tr) i 0 (map_nth_error snd i tr E)). rewrite Hd.
    rewrite <- (firstn_skipn (List.length tr) ws) at 2. rewrite app_nth1; [reflexivity|]. rewrite firstn_length. lia.
  Qed.
  Lemma list_drawn w0 (tr : list (N * nat)) rest : drawn (fun i => nth i (w0 :: map snd tr ++ rest) 0) 1 tr.
  Proof using.
    intros j q E. cbn [Nat.add nth]. assert (Hj : j < List.length tr) by (apply nth_error_Some; congruence). rewrite app_nth1 by (rewrite map_length; exact Hj).
    now rewrite (nth_error_nth (map snd tr) j 0 (map_nth_error snd j tr E)).
  Qed.
  Lemma choice_In {X} w (l : list X) x : choice w l = Ok x -> In x l.
  Proof using. unfold choice. destruct (nth_error _ _) eqn:E; [|discriminate]. intro H. injection H as <-. eapply nth_error_In; eauto. Qed.

  Lemma run_shape fuel ws R m : uniform_run fuel g (fun i => nth i ws 0) = Ok (R, m) -> m <= List.length ws ->
    exists w0 root tr tree next k es rest, ws = w0 :: map snd tr ++ rest /\ choice w0 (g_nodes g) = Ok root /\
      start g root tr tree next /\ done g root tr tree next k es /\ m = S (List.length tr) /\
      same_edges R es.
  Proof using WF.
    intros H Hm. unfold uniform_run in H. destruct (choice (nth 0 ws 0) (g_nodes g)) as [root|e|] eqn:Er; try discriminate H. cbn [bind] in H.
    destruct (grow fuel g _ 1 [root] [(root, None)] (g_nodes g)) as [[j [tree next]]|e|] eqn:Eg; try discriminate H. cbn [bind fst snd] in H.
    destruct (grow_grows g _ _ _ _ _ _ _ _ _ Eg) as (tr & G & Ej & Hd). assert (Hroot := choice_In _ _ _ Er).
    destruct (start_done g WF root Hroot tr tree next G) as (k & es & Dn).
    destruct (edges_of g root tree next es (bi_grown _ _ _ _ _ _ _ _ (do_binv _ _ _ _ _ _ _ Dn))) as (ess & Em & _ & Ie).
    rewrite Em in H. cbn [bind] in H. injection H as <- <-. subst j. destruct (drawn_list ws tr Hd) as (w0 & rest & E); [lia|].
    exists w0, root, tr, tree, next, k, es, rest. split; [exact E|]. split; [rewrite E in Er; exact Er|]. split; [exact G|]. split; [exact Dn|]. split; [lia|].
    intros u v. unfold adj. cbn [g_edges]. rewrite !Ie. tauto.
  Qed.
  Lemma shape_run fuel w0 root tr tree next k es rest : choice w0 (g_nodes g) = Ok root ->
    start g root tr tree next -> done g root tr tree next k es -> List.length tr <= fuel ->
    exists R, uniform_run fuel g (fun i => nth i (w0 :: map snd tr ++ rest) 0) = Ok (R, S (List.length tr)) /\ same_edges R es.
  Proof using.
    intros Er G Dn Hf. assert (Hd := list_drawn w0 tr rest). set (draws := fun i => nth i (w0 :: map snd tr ++ rest) 0) in *. unfold uniform_run. change (draws 0) with w0. rewrite Er. cbn [bind].
    rewrite (grows_grow g _ _ _ _ _ _ _ G fuel 1 Hd Hf). cbn [bind fst snd].
    destruct (edges_of g root tree next es (bi_grown _ _ _ _ _ _ _ _ (do_binv _ _ _ _ _ _ _ Dn))) as (ess & Em & _ & Ie).
    rewrite Em. cbn [bind]. eexists. split; [reflexivity|]. intros u v. unfold adj. cbn [g_edges]. rewrite !Ie. tauto.
  Qed.

  (** The test for [returns]. *)
  Definition sameb (R : graph N) (T : list (N * N)) : bool :=
    forallb (fun e => mem e T || mem (snd e, fst e) T) (g_edges R) && forallb (fun e => mem e (g_edges R) || mem (snd e, fst e) (g_edges R)) T.
  Lemma sameb_spec R T : sameb R T = true <-> same_edges R T.
  Proof using.
    unfold sameb, same_edges, adj. rewrite andb_true_iff, !forallb_forall. split.
    - intros [H1 H2] u v. split; (intros [H|H]; [apply H1 in H || apply H2 in H|apply H1 in H || apply H2 in H]); cbn in H; apply orb_true_iff in H; rewrite !mem_In in H; tauto.
    - intro H. split; intros [u v] Huv; cbn; apply orb_true_iff; rewrite !mem_In; apply H; auto.
  Qed.
  Definition returnsb (n : nat) (T : list (N * N)) (ws : list nat) : bool :=
    match uniform_run n g (fun i => nth i ws 0) with Ok (R, m) => Nat.leb m n && sameb R T | _ => false end.
  Lemma returnsb_spec D n T ws : returns g D n T ws <-> (List.length ws = n /\ Forall (fun w => w < D) ws) /\ returnsb n T ws = true.
  Proof using WF.
    unfold returns, returnsb. split.
    - intros (Ln & Hd & fuel & R & m & E & Hm & He). split; [auto|]. rewrite <- Ln in Hm.
      destruct (run_shape fuel ws R m E Hm) as (w0 & root & tr & tree & next & k & es & rest & -> & Er & G & Dn & Em & Hes).
      destruct (shape_run n w0 root tr tree next k es rest Er G Dn) as (R' & E' & Hes').
      { rewrite <- Ln. cbn. rewrite app_length, map_length. lia. }
      rewrite E'. apply andb_true_iff. split; [apply Nat.leb_le; lia|]. apply sameb_spec. intros u v. rewrite (Hes' u v), <- (Hes u v). apply He.
    - intros [[Ln Hd] H]. split; auto. split; auto. destruct (uniform_run n g _) as [[R m]|e|] eqn:E; try discriminate H.
      apply andb_true_iff in H. destruct H as [H1 H2]. apply Nat.leb_le in H1. apply sameb_spec in H2. exists n, R, m. auto.
  Qed.
  Lemma returns_count D n T : exists c, numbers (returns g D n T) c.
  Proof using WF. eexists. apply numbers_words with (b := returnsb n T). intro ws. apply returnsb_spec. Qed.

  (** ** The exchange on sequences of draws *)
  Hypothesis Nbr : forall x, In x (g_nodes g) -> neighbors g x <> [].
  Variable D : nat.
  Hypothesis HD : forall x, In x (g_nodes g) -> Nat.divide (List.length (neighbors g x)) D.

  Lemma in_own x w tr : In (x, w) tr -> exists j, j < List.length (drawsat x tr) /\ own tr x j = w.
  Proof using.
    intro H. assert (I : In w (drawsat x tr)). { unfold drawsat. apply in_map_iff. exists (x, w). split; auto. apply filter_In. split; auto. cbn. apply eqb_refl. }
    apply (In_nth _ _ 0) in I. destruct I as (j & Hj & E). exists j. auto.
  Qed.
  Lemma own_in x j tr : j < List.length (drawsat x tr) -> In (own tr x j) (map snd tr).
  Proof using.
    intro H. apply (nth_In _ 0) in H. fold (own tr x j) in H. unfold drawsat in H at 1. apply in_map_iff in H. destruct H as (p & E & Hp). apply filter_In in Hp. destruct Hp as [Hp _].
    apply in_map_iff. exists p. auto.
  Qed.
  Definition bfs_of (T : list (N * N)) (r : N) : list (N * N) := match bfs (mkGraph (g_nodes g) T) r with Ok es => es | _ => [] end.
  Lemma bfs_of_spec T r : tree_of g T -> In r (g_nodes g) -> search_of (mkGraph (g_nodes g) T) r (bfs_of T r).
  Proof using. intros [_ [HT _]] Hr. destruct (bfs_tree (mkGraph (g_nodes g) T) r HT Hr) as (gs & E & H & _). unfold bfs_of. now rewrite E. Qed.
  Definition exchanged (T T' : list (N * N)) (ws ws' : list nat) : Prop :=
    exists w0 root tr tree next k es tr' tree' next' rest, ws = w0 :: map snd tr ++ rest /\ ws' = w0 :: map snd tr' ++ rest /\
      choice w0 (g_nodes g) = Ok root /\ start g root tr tree next /\ done g root tr tree next k es /\
      start g root tr' tree' next' /\ (forall u v, In (u, v) es \/ In (v, u) es <-> In (u, v) T \/ In (v, u) T) /\
      (forall x, List.length (drawsat x tr') = List.length (drawsat x tr)) /\
      (forall x, In x (g_nodes g) -> x <> root -> forall j, j < List.length (drawsat x tr) ->
         own tr' x j = if Nat.eqb (S j) (List.length (drawsat x tr)) then swap (par (bfs_of T' root) x) (neighbors g x) (own tr x j) else own tr x j).
  Lemma par_nbr T' root x : tree_of g T' -> In root (g_nodes g) -> In x (g_nodes g) -> x <> root -> In (par (bfs_of T' root) x) (neighbors g x).
  Proof using.
    intros HT Hr Hx Hne. assert (So := bfs_of_spec T' root HT Hr). assert (R := so_rooted _ _ _ So).
    assert (Hn : In x (nodes_of root (bfs_of T' root))) by now apply (so_nodes _ _ _ So). destruct Hn as [Hn|Hn]; [congruence|].
    apply in_map_iff in Hn. destruct Hn as ([p x'] & E & H). cbn in E. subst x'. rewrite (par_in root _ p x R H). apply In_neighbors.
    apply adj_sym. apply (proj2 HT). apply (so_adj _ _ _ So). exact H.
  Qed.
  Lemma exchange_ws n T T' ws : tree_of g T -> tree_of g T' -> returns g D n T ws -> exists ws', returns g D n T' ws' /\ exchanged T T' ws ws'.
  Proof using WF Nbr HD.
    intros HT HT' (Ln & Hd & fuel & R & m & E & Hm & He). rewrite <- Ln in Hm.
    destruct (run_shape fuel ws R m E Hm) as (w0 & root & tr & tree & next & k & es & rest & -> & Er & G & Dn & Em & Hes).
    assert (Hroot := choice_In _ _ _ Er). assert (So := bfs_of_spec T' root HT' Hroot).
    destruct (exchange g WF Nbr root Hroot tr tree next k es (bfs_of T' root) Dn (so_rooted _ _ _ So)) as (tr' & tree' & next' & k' & G' & Dn' & Len & Own).
    { intro x. apply (so_nodes _ _ _ So). }
    { intros p c H. apply (proj2 HT'). apply (so_adj _ _ _ So). exact H. }
    assert (Lt : List.length tr' = List.length tr).
    { rewrite (length_trace tr (g_nodes g)), (length_trace tr' (g_nodes g)); try apply WF.
      - unfold sumd. f_equal. now apply map_ext.
      - intros [x w] H. destruct (In_dec_of x (g_nodes g)) as [Hx|Hx]; auto. destruct (in_own x w tr' H) as (j & Hj & _). rewrite (done_none g root _ _ _ _ _ x Dn') in Hj by auto. cbn in Hj. lia.
      - intros [x w] H. destruct (In_dec_of x (g_nodes g)) as [Hx|Hx]; auto. destruct (in_own x w tr H) as (j & Hj & _). rewrite (done_none g root _ _ _ _ _ x Dn) in Hj by auto. cbn in Hj. lia. }
    exists (w0 :: map snd tr' ++ rest). split.
    - split; [|split].
      + rewrite <- Ln. cbn. rewrite !app_length, !map_length. lia.
      + inversion Hd as [|? ? H0 H1]; subst. constructor; auto. rewrite Forall_app in *. destruct H1 as [H1 H2]. split; auto.
        rewrite Forall_forall in *. intros w Hw. apply in_map_iff in Hw. destruct Hw as ([x w'] & Ew & Hw). cbn in Ew. subst w'.
        destruct (in_own x w tr' Hw) as (j & Hj & <-). rewrite Len in Hj.
        destruct (In_dec_of x (g_nodes g)) as [Hx|Hx]; [destruct (eq_dec_of x root) as [->|Hr]|].
        * rewrite (done_none g root _ _ _ _ _ root Dn) in Hj by auto. cbn in Hj. lia.
        * rewrite (Own x Hx Hr j Hj). assert (B := H1 _ (own_in x j tr Hj)). destruct (Nat.eqb _ _); auto. apply swap_lt; auto. now apply par_nbr.
        * rewrite (done_none g root _ _ _ _ _ x Dn) in Hj by auto. cbn in Hj. lia.
      + destruct (shape_run (List.length tr') w0 root tr' tree' next' k' _ rest Er G' Dn' (le_n _)) as (R' & E' & Hes').
        exists (List.length tr'), R', (S (List.length tr')). split; auto. split; [rewrite <- Ln, Lt; lia|].
        intros u v. rewrite (Hes' u v). symmetry. apply (search_sym_all (mkGraph (g_nodes g) T') root (bfs_of T' root) u v So).
    - exists w0, root, tr, tree, next, k, es, tr', tree', next', rest. 
      split; [reflexivity|]. split; [reflexivity|]. split; [exact Er|]. split; [exact G|]. split; [exact Dn|]. split; [exact G'|].
      split; [|split; [exact Len|exact Own]]. intros u v. rewrite <- (Hes u v). apply He.
  Qed.
  Lemma exchanged_inj T T' ws1 ws2 ws' : tree_of g T' -> exchanged T T' ws1 ws' -> exchanged T T' ws2 ws' -> ws1 = ws2.
  Proof using WF Nbr HD.
    intros HT' (w1 & r1 & tr1 & t1 & n1 & k1 & es1 & tr1' & t1' & n1' & rest1 & E1 & E1' & C1 & G1 & D1 & G1' & S1 & L1 & O1).
    intros (w2 & r2 & tr2 & t2 & n2 & k2 & es2 & tr2' & t2' & n2' & rest2 & E2 & E2' & C2 & G2 & D2 & G2' & S2 & L2 & O2).
    assert (Ee : w1 :: map snd tr1' ++ rest1 = w2 :: map snd tr2' ++ rest2) by congruence. injection Ee as Ew Et. subst w2.
    assert (r2 = r1) by congruence. subst r2. destruct (grows_det g _ _ _ _ _ _ G1' _ _ _ _ _ G2' Et) as (-> & _ & _ & ->).
    assert (Hroot := choice_In _ _ _ C1).
    assert (Gr1 := bi_grown _ _ _ _ _ _ _ _ (do_binv _ _ _ _ _ _ _ D1)). assert (Gr2 := bi_grown _ _ _ _ _ _ _ _ (do_binv _ _ _ _ _ _ _ D2)).
    assert (Len : forall x, List.length (drawsat x tr1) = List.length (drawsat x tr2)) by (intro x; now rewrite <- L1, L2).
    assert (Nodes : forall x, In x (nodes_of r1 es1) <-> In x (nodes_of r1 es2)).
    { intro x. rewrite <- (gr_nodes _ _ _ _ _ Gr1), <- (gr_nodes _ _ _ _ _ Gr2). split; intro H; [apply (do_all _ _ _ _ _ _ _ D2), (gr_in _ _ _ _ _ Gr1)|apply (do_all _ _ _ _ _ _ _ D1), (gr_in _ _ _ _ _ Gr2)]; exact H. }
    assert (Sub : forall p c, In (p, c) es1 -> In (p, c) es2).
    { apply (rooted_unique r1); try apply (gr_rooted _ _ _ _ _ Gr1); try apply (gr_rooted _ _ _ _ _ Gr2); [intro x; apply Nodes|].
      intros p c H. apply S2, S1. auto. }
    assert (Par : forall x, In x (g_nodes g) -> x <> r1 -> par es1 x = par es2 x).
    { intros x Hx Hr. assert (Hn : In x (nodes_of r1 es1)) by (apply (gr_nodes _ _ _ _ _ Gr1), (do_all _ _ _ _ _ _ _ D1), Hx). destruct Hn as [Hn|Hn]; [congruence|].
      apply in_map_iff in Hn. destruct Hn as ([p x'] & E & H). cbn in E. subst x'.
      now rewrite (par_in r1 es1 p x (gr_rooted _ _ _ _ _ Gr1) H), (par_in r1 es2 p x (gr_rooted _ _ _ _ _ Gr2) (Sub _ _ H)). }
    assert (Own : forall x j, own tr1 x j = own tr2 x j).
    { intros x j. destruct (Nat.lt_ge_cases j (List.length (drawsat x tr1))) as [Hj|Hj].
      2:{ unfold own. rewrite !nth_overflow; auto. now rewrite <- Len. }
      destruct (In_dec_of x (g_nodes g)) as [Hx|Hx]; [destruct (eq_dec_of x r1) as [->|Hr]|].
      - rewrite (done_none g r1 _ _ _ _ _ r1 D1) in Hj by auto. cbn in Hj. lia.
      - assert (Hj2 := Hj). rewrite Len in Hj2. assert (A1 := O1 x Hx Hr j Hj). assert (A2 := O2 x Hx Hr j Hj2). rewrite <- Len in A2.
        destruct (Nat.eqb_spec (S j) (List.length (drawsat x tr1))) as [Ej|Ej]; [|congruence].
        destruct (done_count g r1 _ _ _ _ _ x D1 Hx Hr) as [Lx1 P1]. destruct (done_count g r1 _ _ _ _ _ x D2 Hx Hr) as [Lx2 P2].
        assert (k1 x = j) by lia. assert (k2 x = j) by (rewrite <- Len in Lx2; lia).
        assert (Ch : forall w v, step_to g w x = v -> choice w (neighbors g x) = Ok v).
        { intros w v Hs. unfold step_to in Hs. destruct (choice_of w (neighbors g x) (Nbr x Hx)) as (v' & Ev & _). rewrite Ev in *. congruence. }
        apply (swap_inj (par es1 x) (par (bfs_of T' r1) x) (neighbors g x)); [apply NoDup_neighbors|apply (par_nbr T' r1 x HT' Hroot Hx Hr)|apply Ch; rewrite <- P1; now subst j| |congruence].
        apply Ch. rewrite (Par x Hx Hr), <- P2. congruence.
      - rewrite (done_none g r1 _ _ _ _ _ x D1) in Hj by auto. cbn in Hj. lia. }
    assert (tr1 = tr2).
    { apply (grows_same g (own tr1) _ _ _ _ _ _ G1 (fun _ => 0) _ _ _ G2 (own_reads tr1)). apply reads_own. intros x j. cbn. apply Own. }
    congruence.
  Qed.
  Lemma returns_le n T T' j k : tree_of g T -> tree_of g T' -> numbers (returns g D n T) j -> numbers (returns g D n T') k -> j <= k.
  Proof using WF Nbr HD.
    intros HT HT'. apply (numbers_rel _ _ (exchanged T T')).
    - intros ws H. apply (exchange_ws n T T' ws HT HT' H).
    - intros x x' y. now apply exchanged_inj.
  Qed.
End Uniform.

(** ** The walks end *)
Section Ends.
  Context {N : Type} {EN : EqB N}.
  Variable g : graph N.
  Hypothesis WF : wf_graph g.
  Hypothesis Nbr : forall x, In x (g_nodes g) -> neighbors g x <> [].
  Variable D : nat.
  Hypothesis HD : forall x, In x (g_nodes g) -> Nat.divide (List.length (neighbors g x)) D.
  Hypothesis Dpos : 0 < D.

  Section Towards.
    Variables (root : N) (es : list (N * N)).
    Hypothesis R : rooted root es.
    Hypothesis Nodes : forall x, In x (nodes_of root es) <-> In x (g_nodes g).
    Hypothesis Adj : forall p c, In (p, c) es -> adj g p c.
    Lemma par_path x : In x (g_nodes g) -> exists h, h <= List.length es /\ Nat.iter h (par es) x = root.
    Proof.
      intro Hx. apply Nodes in Hx.
      assert (X : forall es0, rooted root es0 -> forall rest, es = es0 ++ rest -> forall y, In y (nodes_of root es0) -> exists h, h <= List.length es0 /\ Nat.iter h (par es) y = root).
      { induction 1 as [|es0 p c R0 IH Hp Hc]; intros rest E y Hy.
        - destruct Hy as [<-|[]]. now exists 0.
        - rewrite <- app_assoc in E. rewrite nodes_snoc, in_app_iff in Hy. rewrite app_length. cbn [List.length]. destruct Hy as [Hy|[<-|[]]].
          + destruct (IH _ E y Hy) as (h & Hh & Eh). exists h. split; [lia|auto].
          + destruct (IH _ E p Hp) as (h & Hh & Eh). exists (S h). split; [lia|]. rewrite iter_succ_r, (par_in root es p c R); auto.
            rewrite E. apply in_app_iff. right. now left. }
      apply (X es R []); auto. now rewrite app_nil_r.
    Qed.
    Lemma par_step x : In x (g_nodes g) -> x <> root -> In (par es x) (neighbors g x) /\ In (par es x) (g_nodes g).
    Proof.
      intros Hx Hr. assert (Hx' := Hx). apply Nodes in Hx'. destruct Hx' as [H|H]; [congruence|]. apply in_map_iff in H. destruct H as ([p x'] & E & H). cbn in E. subst x'.
      rewrite (par_in root es p x R H). assert (A := Adj p x H). split; [apply In_neighbors; now apply adj_sym|]. apply (adj_nodes g p x WF A).
    Qed.
    Lemma walks_par tree h : In root tree -> forall u next, In u (g_nodes g) -> Nat.iter h (par es) u = root ->
      exists tr next', walks g tree next u tr next' /\ List.length tr <= h /\ Forall (fun w => w < D) (map snd tr).
    Proof.
      intro Hroot. induction h as [|h IH]; intros u next Hu Hh.
      - cbn in Hh. subst u. exists [], next. split; [now constructor|]. split; [apply Nat.le_0_l|constructor].
      - destruct (In_dec_of u tree) as [Ht|Ht]; [exists [], next; split; [now constructor|]; split; [cbn; lia|constructor]|].
        assert (Hr : u <> root) by (intros ->; contradiction). destruct (par_step u Hu Hr) as [P1 P2]. rewrite iter_succ_r in Hh.
        destruct (IH (par es u) (dset next u (Some (par es u))) P2 Hh) as (tr & next' & Hw & Hl & Hf).
        destruct (index_nth _ _ P1) as [I1 I2]. exists ((u, index (par es u) (neighbors g u)) :: tr), next'. split; [|split].
        + apply walks_step with (par es u); auto. unfold choice. rewrite Nat.mod_small by exact I2. now rewrite I1.
        + cbn. lia.
        + cbn. constructor; auto. apply Nat.lt_le_trans with (1 := I2). apply Nat.divide_pos_le; auto.
    Qed.
    Lemma walk_ext tree : In root tree -> forall ws u next, In u (g_nodes g) ->
      (exists t l next', ws = map snd t ++ l /\ walks g tree next u t next') \/
      (exists t extra next', map snd t = ws ++ extra /\ List.length extra <= List.length es /\ Forall (fun w => w < D) extra /\ walks g tree next u t next').
    Proof.
      intro Hroot. induction ws as [|w ws IH]; intros u next Hu.
      - right. destruct (par_path u Hu) as (h & Hh & Eh). destruct (walks_par tree h Hroot u next Hu Eh) as (tr & next' & Hw & Hl & Hf).
        exists tr, (map snd tr), next'. split; auto. split; [rewrite map_length; lia|]. auto.
      - destruct (In_dec_of u tree) as [Ht|Ht]; [left; exists [], (w :: ws), next; split; [reflexivity|now constructor]|].
        destruct (choice_of w (neighbors g u) (Nbr u Hu)) as (v & Ev & Hv). apply In_neighbors in Hv.
        assert (Hvn : In v (g_nodes g)) by (apply (adj_nodes g u v WF Hv)).
        destruct (IH v (dset next u (Some v)) Hvn) as [(t & l & next' & E & Hw)|(t & extra & next' & E & Hl & Hf & Hw)].
        + left. exists ((u, w) :: t), l, next'. split; [cbn; now rewrite E|]. econstructor; eauto.
        + right. exists ((u, w) :: t), extra, next'. split; [cbn; now rewrite E|]. split; auto. split; auto. econstructor; eauto.
    Qed.
    Lemma walks_grown tree next u t next' es0 : grown g root tree next es0 -> In u (g_nodes g) -> walks g tree next u t next' ->
      exists tree1 es1, retrace (S (List.length (g_nodes g))) tree next' u = Ok tree1 /\ grown g root tree1 next' es1.
    Proof.
      intros G Hu Hw. set (ds := fun i => nth i (map snd t) 0).
      assert (Hd : drawn ds 0 t). { intros j p E. unfold ds. cbn. now rewrite (nth_error_nth (map snd t) j 0 (map_nth_error snd j t E)). }
      assert (Ew := walks_walk g ds _ _ _ _ _ Hw (List.length t) 0 Hd (le_n _)).
      destruct (walk_spec g WF Nbr u tree ds (List.length t) 0 next [] u) as [E|(i' & next1 & l & y & E & Ht & Hy & ND & Hl & Keep)]; auto.
      - constructor.
      - constructor.
      - intros x [].
      - rewrite E in Ew. discriminate Ew.
      - rewrite E in Ew. injection Ew as _ <-. exists (tree ++ l).
        destruct (grown_trail g root tree next next1 es0 u l y G Keep Ht Hy ND Hl) as (es1 & G1). exists es1. split; auto.
        apply (retrace_spec g next1 u l y Ht); auto; [intros x Hx; now apply Hl|].
        assert (I : incl l (g_nodes g)) by (intros x Hx; now apply Hl). apply NoDup_incl_length in I; auto.
    Qed.
    Lemma grow_ext nodes : forall ws tree next es0, grown g root tree next es0 -> incl nodes (g_nodes g) ->
      (exists t l tree' next', ws = map snd t ++ l /\ grows g tree next nodes t tree' next') \/
      (exists t extra tree' next', map snd t = ws ++ extra /\ List.length extra <= List.length nodes * List.length es /\ Forall (fun w => w < D) extra /\ grows g tree next nodes t tree' next').
    Proof.
      induction nodes as [|u nodes IH]; intros ws tree next es0 G Hn.
      - left. exists [], ws, tree, next. split; [reflexivity|constructor].
      - assert (Hu : In u (g_nodes g)) by (apply Hn; now left). assert (Hn' : incl nodes (g_nodes g)) by (intros x Hx; apply Hn; now right).
        assert (Hroot : In root tree) by (apply (gr_nodes _ _ _ _ _ G); now left).
        destruct (walk_ext tree Hroot ws u next Hu) as [(t1 & l & next1 & E & Hw)|(t1 & extra & next1 & E & Hl & Hf & Hw)];
          destruct (walks_grown tree next u t1 next1 es0 G Hu Hw) as (tree1 & es1 & Er & G1).
        + destruct (IH l tree1 next1 es1 G1 Hn') as [(t2 & l2 & tree2 & next2 & E2 & G2)|(t2 & ex2 & tree2 & next2 & E2 & Hl2 & Hf2 & G2)].
          * left. exists (t1 ++ t2), l2, tree2, next2. split; [rewrite map_app, <- app_assoc; congruence|]. econstructor; eauto.
          * right. exists (t1 ++ t2), ex2, tree2, next2. split; [rewrite map_app, E2, app_assoc; congruence|]. split; [cbn [List.length]; lia|]. split; auto. econstructor; eauto.
        + right. destruct (IH [] tree1 next1 es1 G1 Hn') as [(t2 & l2 & tree2 & next2 & E2 & G2)|(t2 & ex2 & tree2 & next2 & E2 & Hl2 & Hf2 & G2)].
          * exists (t1 ++ t2), extra, tree2, next2. assert (map snd t2 = []) by (destruct (map snd t2); [reflexivity|discriminate E2]).
            split; [rewrite map_app, H, app_nil_r; exact E|]. split; [cbn [List.length]; lia|]. split; auto. econstructor; eauto.
          * exists (t1 ++ t2), (extra ++ ex2), tree2, next2. split; [rewrite map_app, E2; cbn; now rewrite E, app_assoc|].
            split; [rewrite app_length; cbn [List.length]; lia|]. split; [now apply Forall_app|]. econstructor; eauto.
    Qed.
  End Towards.

  (** A sequence of draws with which the call returns. *)
  Definition finb (ws : list nat) : bool :=
    match uniform_run (List.length ws) g (fun i => nth i ws 0) with Ok (_, m) => Nat.leb m (List.length ws) | _ => false end.
  Lemma finb_shape ws : finb ws = true <-> exists w0 root tr tree next rest, ws = w0 :: map snd tr ++ rest /\ choice w0 (g_nodes g) = Ok root /\ start g root tr tree next.
  Proof.
    unfold finb. split.
    - intro H. destruct (uniform_run _ _ _) as [[R m]|e|] eqn:E; try discriminate H. apply Nat.leb_le in H.
      destruct (run_shape g WF _ ws R m E H) as (w0 & root & tr & tree & next & k & es & rest & E1 & Er & G & _). exists w0, root, tr, tree, next, rest. auto.
    - intros (w0 & root & tr & tree & next & rest & -> & Er & G). destruct (start_done g WF root (choice_In _ _ _ Er) tr tree next G) as (k & es & Dn).
      destruct (shape_run g (List.length (w0 :: map snd tr ++ rest)) w0 root tr tree next k es rest Er G Dn) as (R & E & _).
      { cbn. rewrite app_length, map_length. lia. }
      rewrite E. apply Nat.leb_le. cbn. rewrite app_length, map_length. lia.
  Qed.
  Lemma finb_app a b : finb a = true -> finb (a ++ b) = true.
  Proof.
    rewrite !finb_shape. intros (w0 & root & tr & tree & next & rest & -> & Er & G). exists w0, root, tr, tree, next, (rest ++ b).
    split; auto. cbn. now rewrite <- app_assoc.
  Qed.
  Variable T : list (N * N).
  Hypothesis HT : tree_of g T.
  Hypothesis NE : g_nodes g <> [].
  Definition long : nat := S (List.length (g_nodes g) * List.length (g_nodes g)).
  Lemma can_finish ws : Forall (fun w => w < D) ws -> exists b, List.length b = long /\ Forall (fun w => w < D) b /\ finb (ws ++ b) = true.
  Proof.
    assert (Go : forall w0 ws, exists extra, List.length extra <= List.length (g_nodes g) * List.length (g_nodes g) /\ Forall (fun w => w < D) extra /\ finb ((w0 :: ws) ++ extra) = true).
    { intros w0 ws0. destruct (choice_of w0 (g_nodes g) NE) as (root & Er & Hr). assert (So := bfs_of_spec g T root HT Hr).
      assert (R := so_rooted _ _ _ So). set (es := bfs_of g T root) in *.
      assert (Nd : forall x, In x (nodes_of root es) <-> In x (g_nodes g)) by (intro x; apply (so_nodes _ _ _ So)).
      assert (Ad : forall p c, In (p, c) es -> adj g p c) by (intros p c H; apply (proj2 HT); apply (so_adj _ _ _ So); exact H).
      assert (Le : List.length es <= List.length (g_nodes g)).
      { assert (I : incl (nodes_of root es) (g_nodes g)) by (intros x; apply Nd). apply NoDup_incl_length in I; [|now apply rooted_nodup]. unfold nodes_of in I. cbn in I. rewrite map_length in I. lia. }
      assert (G0 := bi_grown _ _ _ _ _ _ _ _ (binv_init g root (fun _ _ => 0) Hr)).
      destruct (grow_ext root es R Nd Ad (g_nodes g) ws0 _ _ _ G0 (incl_refl _)) as [(t & l & tree & next & E & G)|(t & extra & tree & next & E & Hl & Hf & G)].
      - exists []. split; [cbn; lia|]. split; [constructor|]. apply finb_shape. exists w0, root, t, tree, next, l. rewrite app_nil_r. split; [now rewrite E|auto].
      - exists extra. split; [nia|]. split; auto. apply finb_shape. exists w0, root, t, tree, next, []. split; [|auto]. rewrite app_nil_r, E. reflexivity. }
    assert (Pad : forall extra, List.length extra <= long -> Forall (fun w => w < D) extra -> finb (ws ++ extra) = true -> exists b, List.length b = long /\ Forall (fun w => w < D) b /\ finb (ws ++ b) = true).
    { intros extra Hl Hf Hb. exists (extra ++ repeat 0 (long - List.length extra)). split; [rewrite app_length, repeat_length; lia|]. split.
      - apply Forall_app. split; auto. apply Forall_forall. intros x Hx. apply repeat_spec in Hx. now subst.
      - rewrite app_assoc. now apply finb_app. }
    intro Hws. destruct ws as [|w0 ws0].
    - destruct (Go 0 []) as (extra & Hl & Hf & Hb). apply (Pad (0 :: extra)); [unfold long; cbn [List.length]; lia|constructor; auto|exact Hb].
    - destruct (Go w0 ws0) as (extra & Hl & Hf & Hb). apply (Pad extra); [unfold long; lia|auto|exact Hb].
  Qed.

  (** The number of sequences of [n] draws with which the call does not return. *)
  Definition unfin (n : nat) : nat := List.length (filter (fun ws => negb (finb ws)) (words D n)).
  Lemma flat_map_length_le {X Y} (f : X -> list Y) l c : (forall x, In x l -> List.length (f x) <= c) -> List.length (flat_map f l) <= List.length l * c.
  Proof. induction l as [|x l IH]; intro H; cbn [flat_map List.length]; [reflexivity|]. rewrite app_length. apply Nat.add_le_mono; [apply H; now left|apply IH; intros; apply H; now right]. Qed.
  Lemma unfin_step n L c : (forall a, In a (words D n) -> List.length (filter (fun b => negb (finb (a ++ b))) (words D L)) <= c) -> unfin (n + L) <= unfin n * c.
  Proof.
    intro H. unfold unfin. eapply Nat.le_trans; [|apply (flat_map_length_le (fun a => map (app a) (filter (fun b => negb (finb (a ++ b))) (words D L))))].
    - apply NoDup_incl_length; [apply NoDup_filter, NoDup_words|]. intros ws Hws. apply filter_In in Hws. destruct Hws as [Hw Hf]. apply In_words in Hw. destruct Hw as [Hl Hd].
      rewrite <- (firstn_skipn n ws) in Hf, Hd |- *. apply Forall_app in Hd. destruct Hd as [Hd1 Hd2].
      assert (L1 : List.length (firstn n ws) = n) by (rewrite firstn_length; lia). assert (L2 : List.length (skipn n ws) = L) by (rewrite skipn_length; lia).
      apply in_flat_map. exists (firstn n ws). split.
      + apply filter_In. split; [now apply In_words|]. apply negb_true_iff. apply negb_true_iff in Hf. destruct (finb (firstn n ws)) eqn:E; auto. rewrite (finb_app _ (skipn n ws) E) in Hf. discriminate.
      + apply in_map, filter_In. split; [now apply In_words|exact Hf].
    - intros a Ha. apply filter_In in Ha. rewrite map_length. now apply H.
  Qed.
  Lemma filter_lt {X} (f : X -> bool) l x : In x l -> f x = false -> S (List.length (filter f l)) <= List.length l.
  Proof.
    induction l as [|y l IH]; intros H E; [destruct H|]. cbn [filter]. destruct H as [->|H].
    - rewrite E. cbn. apply le_n_S, filter_length_le.
    - specialize (IH H E). destruct (f y); cbn; [now apply le_n_S|]. now apply le_S.
  Qed.
  Lemma unfin_long n : unfin (n + long) <= unfin n * (D ^ long - 1).
  Proof.
    apply unfin_step. intros a Ha. apply In_words in Ha. destruct (can_finish a (proj2 Ha)) as (b & H1 & H2 & H3).
    assert (X := filter_lt (fun b => negb (finb (a ++ b))) (words D long) b (proj2 (In_words D long b) (conj H1 H2))).
    cbn beta in X. rewrite H3 in X. specialize (X eq_refl). rewrite length_words in X. lia.
  Qed.
  Lemma unfin_bound k r : unfin (k * long + r) <= (D ^ long - 1) ^ k * D ^ r.
  Proof.
    induction k as [|k IH].
    - change (0 * long + r) with r. rewrite Nat.pow_0_r, Nat.mul_1_l. unfold unfin. rewrite <- (length_words D r). apply filter_length_le.
    - replace (S k * long + r) with ((k * long + r) + long) by ring. eapply Nat.le_trans; [apply unfin_long|].
      rewrite Nat.pow_succ_r'. apply (Nat.mul_le_mono_r _ _ (D ^ long - 1)) in IH. eapply Nat.le_trans; [exact IH|]. apply Nat.eq_le_incl. ring.
  Qed.
  (** A geometric bound in elementary form. *)
  Lemma power_bound m k : m ^ k * (m + k) <= S m ^ k * m.
  Proof.
    induction k as [|k IH]; [cbn; lia|]. cbn [Nat.pow]. assert (X : S m * (m ^ k * (m + k)) <= S m * (S m ^ k * m)) by now apply Nat.mul_le_mono_l. nia.
  Qed.
  Lemma unfin_small n : unfin n * (D ^ long - 1 + n / long) <= D ^ n * (D ^ long - 1).
  Proof.
    assert (L0 : long <> 0) by (unfold long; lia). assert (B := unfin_bound (n / long) (n mod long)).
    assert (En : n / long * long + n mod long = n) by (rewrite (Nat.div_mod n long L0) at 3; lia). rewrite En in B.
    set (k := n / long) in *. set (r := n mod long) in *. assert (M1 : 1 <= D ^ long) by (apply Nat.neq_0_lt_0, Nat.pow_nonzero; lia).
    assert (PB := power_bound (D ^ long - 1) k). replace (S (D ^ long - 1)) with (D ^ long) in PB by lia. rewrite <- Nat.pow_mul_r in PB.
    rewrite <- En at 2. rewrite Nat.pow_add_r, (Nat.mul_comm k long).
    set (M := D ^ long - 1) in *. set (P := M ^ k) in *. set (Q := D ^ (long * k)) in *. set (Z := D ^ r) in *. nia.
  Qed.
End Ends.

(** ** Every run ends in one spanning tree *)
Section Trees.
  Context {N : Type} {EN : EqB N}.
  Variable g : graph N.
  Hypothesis WF : wf_graph g.
  Definition edges_in (es : list (N * N)) : list (N * N) := filter (fun e => mem e es || mem (snd e, fst e) es) (g_edges g).
  Lemma In_edges_in root es u v : rooted root es -> (forall p c, In (p, c) es -> adj g p c) ->
    (In (u, v) (edges_in es) \/ In (v, u) (edges_in es) <-> In (u, v) es \/ In (v, u) es).
  Proof.
    intros R Ad. unfold edges_in. rewrite !filter_In. cbn [fst snd]. rewrite !orb_true_iff, !mem_In. split.
    - tauto.
    - intro H. assert (A : adj g u v) by (destruct H as [H|H]; [|apply adj_sym]; auto). destruct A as [A|A]; tauto.
  Qed.
  Lemma edges_in_tree root es : rooted root es -> (forall x, In x (nodes_of root es) <-> In x (g_nodes g)) -> (forall p c, In (p, c) es -> adj g p c) ->
    tree_of g (edges_in es).
  Proof.
    intros R Nd Ad. assert (I := fun u v => In_edges_in root es u v R Ad). split; [eexists; reflexivity|]. split; [|split].
    - constructor.
      + constructor; cbn.
        * apply WF.
        * apply NoDup_filter, WF.
        * intros u v H. apply filter_In in H. apply (wfg_ends g WF). tauto.
        * intros u v H1 H2. apply filter_In in H1, H2. apply (wfg_once g WF); tauto.
      + cbn. intros u v Hu Hv. apply Nd in Hu, Hv.
        assert (Sym : forall a b, adj (mkGraph (g_nodes g) (edges_in es)) a b -> adj (mkGraph (g_nodes g) (edges_in es)) b a) by (intros; now apply adj_sym).
        eapply reach_trans; [apply reach_sym; [exact Sym|]|]; (eapply reach_mono; [|eapply rooted_reach; eauto]); cbn beta; intros a b Hab; apply I; auto.
      + cbn [g_nodes g_edges]. set (f := fun e : N * N => if mem e es then e else (snd e, fst e)).
        assert (P : Permutation (map f (edges_in es)) es).
        { apply NoDup_Permutation.
          - assert (ND : NoDup (edges_in es)) by apply NoDup_filter, WF.
            assert (Inj : forall a b, In a (edges_in es) -> In b (edges_in es) -> f a = f b -> a = b).
            { intros [a1 a2] [b1 b2] Ha Hb E. apply filter_In in Ha, Hb. destruct Ha as [Ha _], Hb as [Hb _]. unfold f in E. cbn [fst snd] in E.
              assert (X : (a1, a2) = (b1, b2) \/ (a1, a2) = (b2, b1)) by (destruct (mem (a1, a2) es), (mem (b1, b2) es); injection E as E1 E2; subst; auto).
              destruct X as [X|X]; auto. injection X as -> ->. assert (b2 = b1) by (apply (wfg_once g WF); auto). now subst. }
            clear -ND Inj. induction ND as [|x l Hx ND IH]; cbn; [constructor|]. constructor.
            + intro H. apply in_map_iff in H. destruct H as (y & E & Hy). apply Inj in E; [|now right|now left]. now subst.
            + apply IH. intros a b Ha Hb. apply Inj; now right.
          - eapply rooted_es_nodup; eauto.
          - intros [a b]. rewrite in_map_iff. split.
            + intros ([x y] & E & H). apply filter_In in H. destruct H as [_ H]. unfold f in E. cbn [fst snd] in *. destruct (mem (x, y) es) eqn:Em.
              * rewrite <- E. now apply mem_In.
              * cbn [orb] in H. rewrite <- E. now apply mem_In.
            + intro H. destruct (proj2 (I a b) (or_introl H)) as [H1|H1].
              * exists (a, b). split; auto. unfold f. now rewrite (proj2 (mem_In (a, b) es) H).
              * exists (b, a). split; auto. unfold f. cbn [fst snd]. destruct (mem_spec (b, a) es) as [Hm|Hm]; auto. elim (rooted_no_swap root es a b R H Hm). }
        apply Permutation_length in P. rewrite map_length in P. rewrite P.
        assert (P' : Permutation (nodes_of root es) (g_nodes g)) by (apply NoDup_Permutation; auto; [now apply rooted_nodup|apply WF]).
        apply Permutation_length in P'. unfold nodes_of in P'. cbn in P'. now rewrite map_length in P'.
    - intro n. cbn. tauto.
    - intros u v A. apply I in A. destruct A as [A|A]; [auto|apply adj_sym; auto].
  Qed.
  Lemma tree_edges_unique T T' : tree_of g T -> tree_of g T' -> (forall u v, In (u, v) T \/ In (v, u) T <-> In (u, v) T' \/ In (v, u) T') -> T = T'.
  Proof.
    intros [S _] [S' _] H. apply (sub_ext (g_edges g)); [now apply sub_ex|now apply sub_ex|].
    assert (In1 : forall A B u v, (exists f, A = filter f (g_edges g)) -> (exists f, B = filter f (g_edges g)) -> (forall u v, In (u, v) A \/ In (v, u) A -> In (u, v) B \/ In (v, u) B) -> In (u, v) A -> In (u, v) B).
    { intros A B u v [f ->] [f' ->] Hab Huv. destruct (Hab u v (or_introl Huv)) as [X|X]; auto.
      assert (E : u = v). { apply filter_In in Huv, X. apply (wfg_once g WF); tauto. } now subst. }
    intros [u v]. split; [apply (In1 T T')|apply (In1 T' T)]; auto; intros; now apply H.
  Qed.

  Lemma double_count {A B} (f : A -> B -> bool) (la : list A) (lb : list B) :
    list_sum (map (fun a => List.length (filter (f a) lb)) la) = list_sum (map (fun b => List.length (filter (fun a => f a b) la)) lb).
  Proof.
    induction la as [|a la IH]; cbn [map filter].
    - change (list_sum []) with 0. induction lb as [|b lb IHb]; [reflexivity|]. exact IHb.
    - change (list_sum (?x :: ?l)) with (x + list_sum l). rewrite IH. clear IH.
      induction lb as [|b lb IHb]; [reflexivity|]. cbn [map filter]. change (list_sum (?x :: ?l)) with (x + list_sum l). destruct (f a b); cbn [List.length]; lia.
  Qed.
  Lemma list_sum_const {A} (f : A -> nat) c l : (forall a, In a l -> f a = c) -> list_sum (map f l) = List.length l * c.
  Proof. induction l as [|a l IH]; intro H; [reflexivity|]. change (f a + list_sum (map f l) = c + List.length l * c). rewrite (H a (or_introl eq_refl)), IH; auto. intros; apply H; now right. Qed.

  Lemma one_tree (ts : list (list (N * N))) ws : NoDup ts -> (forall T, In T ts <-> tree_of g T) ->
    List.length (filter (fun T => returnsb g (List.length ws) T ws) ts) = if finb g ws then 1 else 0.
  Proof.
    intros ND Hts. unfold returnsb, finb. destruct (uniform_run _ _ _) as [[R m]|e|] eqn:E.
    - destruct (Nat.leb m (List.length ws)) eqn:Lm; cbn [andb]; [|clear; induction ts; cbn; auto]. apply Nat.leb_le in Lm.
      destruct (run_shape g WF _ ws R m E Lm) as (w0 & root & tr & tree & next & k & es & rest & _ & _ & _ & Dn & _ & Hes).
      assert (Gr := bi_grown _ _ _ _ _ _ _ _ (do_binv _ _ _ _ _ _ _ Dn)). assert (Rt := gr_rooted _ _ _ _ _ Gr).
      assert (Ad : forall p c, In (p, c) es -> adj g p c) by (intros p c H; apply adj_sym; apply (gr_next _ _ _ _ _ Gr p c H)).
      assert (HT : tree_of g (edges_in es)).
      { apply edges_in_tree with root; auto. intro x. rewrite <- (gr_nodes _ _ _ _ _ Gr). split; [apply (gr_in _ _ _ _ _ Gr)|apply (do_all _ _ _ _ _ _ _ Dn)]. }
      assert (Is : forall T, In T ts -> (sameb R T = true <-> T = edges_in es)).
      { intros T Ht. apply Hts in Ht. rewrite sameb_spec. split.
        - intro H. apply tree_edges_unique; auto. intros u v. rewrite <- (H u v), (Hes u v). symmetry. now apply (In_edges_in root).
        - intros -> u v. rewrite (Hes u v). symmetry. now apply (In_edges_in root). }
      apply Hts in HT. clear -ND Is HT. induction ND as [|T ts Hn ND IH]; [destruct HT|]. cbn [filter]. destruct (sameb R T) eqn:Es.
      + apply Is in Es; [|now left]. subst T. cbn. f_equal.
        assert (X : filter (sameb R) ts = []); [|exact (f_equal (@List.length _) X)]. clear -Is Hn. assert (I : forall T, In T ts -> sameb R T = false).
        { intros T Ht. destruct (sameb R T) eqn:E; auto. apply Is in E; [|now right]. now subst. }
        clear Is Hn. induction ts as [|T ts IH]; cbn; [reflexivity|]. rewrite (I T (or_introl eq_refl)). apply IH. intros; apply I; now right.
      + destruct HT as [->|HT]; [rewrite (proj2 (Is (edges_in es) (or_introl eq_refl)) eq_refl) in Es; discriminate|]. apply IH; auto. intros; apply Is; now right.
    - clear; induction ts; cbn; auto.
    - clear; induction ts; cbn; auto.
  Qed.
End Trees.

Section Theorems.
  Context {N : Type} {EN : EqB N}.
  Variable g : graph N.
  Hypothesis WF : wf_graph g.
  Hypothesis Con : connected_graph g.
  Hypothesis Two : 2 <= List.length (g_nodes g).
  Variable D : nat.
  (** Every draw is equally likely below [D], and so is every neighbour. *)
  Hypothesis HD : forall x, In x (g_nodes g) -> Nat.divide (List.length (neighbors g x)) D.

  Lemma has_nbr x : In x (g_nodes g) -> neighbors g x <> [].
  Proof using WF Con Two.
    intros Hx E. destruct Con as [NE C].
    assert (Y : exists y, In y (g_nodes g) /\ y <> x).
    { assert (ND := wfg_nodes g WF). clear -ND Two EN. destruct (g_nodes g) as [|a [|b l]]; try (cbn in Two; lia).
      inversion ND as [|? ? Ha _]; subst. destruct (eq_dec_of a x) as [->|Ha']; [exists b|exists a]; split; cbn; auto.
      intros ->. apply Ha. now left. }
    destruct Y as (y & Hy & Hyx). destruct (reach_first _ _ _ (C x y Hx Hy)) as [H|(z & Hz & _)]; [congruence|].
    apply In_neighbors in Hz. rewrite E in Hz. destruct Hz.
  Qed.

  (** For every number of draws, every spanning tree is returned by the same
      number of sequences of draws. *)
  Theorem C99_uniform n T T' : tree_of g T -> tree_of g T' ->
    exists c, numbers (returns g D n T) c /\ numbers (returns g D n T') c.
  Proof using WF Con Two HD.
    intros HT HT'. destruct (returns_count g WF D n T) as (c & Hc), (returns_count g WF D n T') as (c' & Hc').
    assert (E : c = c').
    { apply Nat.le_antisymm; [apply (returns_le g WF has_nbr D HD n T T')|apply (returns_le g WF has_nbr D HD n T' T)]; auto. }
    subst c'. exists c. auto.
  Qed.
  Lemma count_all n t T c : 0 < D -> numbers (tree_of g) t -> tree_of g T -> numbers (returns g D n T) c -> t * c + unfin g D n = D ^ n.
  Proof using WF Con Two HD.
    intros D0 (ts & ND & Hts & <-) HT Hc.
    assert (Each : forall T', In T' ts -> List.length (filter (returnsb g n T') (words D n)) = c).
    { intros T' Ht. apply Hts in Ht. destruct (C99_uniform n T T' HT Ht) as (c' & H1 & H2). assert (c' = c) by exact (numbers_unique _ _ _ H1 Hc). subst c'.
      eapply numbers_unique; [|exact H2]. apply numbers_words. intro ws. apply returnsb_spec. exact WF. }
    rewrite <- (list_sum_const (fun T' => List.length (filter (returnsb g n T') (words D n))) c ts Each), double_count.
    rewrite <- (length_words D n). unfold unfin.
    assert (Hw : forall ws, In ws (words D n) -> List.length (filter (fun T => returnsb g n T ws) ts) = if finb g ws then 1 else 0).
    { intros ws H. apply In_words in H. destruct H as [<- _]. apply one_tree; auto. }
    revert Hw. generalize (words D n). clear. induction l as [|ws l IH]; intro H; [reflexivity|]. cbn [map filter].
    change (list_sum (?x :: ?l)) with (x + list_sum l). rewrite (H ws (or_introl eq_refl)).
    assert (IH' := IH (fun w h => H w (or_intror h))). destruct (finb g ws); cbn [negb List.length]; lia.
  Qed.
  (** The probability that [n] draws suffice and the tree [T] is returned tends
      to one over the number of spanning trees, and never exceeds it. *)
  Theorem C99_limit t T : 0 < D -> numbers (tree_of g) t -> tree_of g T -> forall eps, (0 < eps)%Q ->
    exists n0, forall n c, n0 <= n -> numbers (returns g D n T) c ->
      (1 / Qn t - eps < Qn c / Qn (D ^ n) <= 1 / Qn t)%Q.
  Proof using WF Con Two HD.
    intros D0 Ht HT eps He.
    set (L := long g). set (M := D ^ L - 1).
    assert (L0 : L <> 0) by (unfold L, long; lia).
    destruct (Qarchimedean (Qn M / eps)) as (pz & Hp).
    exists (L * Pos.to_nat pz). intros n c Hn Hc.
    assert (Sum := count_all n t T c D0 Ht HT Hc).
    assert (Small := unfin_small g WF has_nbr D HD D0 T HT (proj1 Con) n). fold L M in Small.
    assert (Hk : Pos.to_nat pz <= n / L) by (apply Nat.div_le_lower_bound; auto).
    assert (T1 : 1 <= t). { destruct Ht as (ts & _ & Hts & <-). apply Hts in HT. destruct ts; [destruct HT|cbn; lia]. }
    assert (P1 : 1 <= D ^ n) by (apply Nat.neq_0_lt_0, Nat.pow_nonzero; lia).
    set (U := unfin g D n) in *. set (k := n / L) in *. set (W := D ^ n) in *. clearbody U k W M.
    assert (QW : (0 < Qn W)%Q) by (unfold Qn; rewrite <- (Zlt_Qlt 0); lia).
    assert (QT : (0 < Qn t)%Q) by (unfold Qn; rewrite <- (Zlt_Qlt 0); lia).
    assert (QT1 : (1 <= Qn t)%Q) by (unfold Qn; change 1%Q with (inject_Z 1); rewrite <- Zle_Qle; lia).
    assert (QU : (0 <= Qn U)%Q) by (unfold Qn; rewrite <- (Zle_Qle 0); lia).
    assert (QM : (0 <= Qn M)%Q) by (unfold Qn; rewrite <- (Zle_Qle 0); lia).
    assert (QS : (Qn t * Qn c + Qn U == Qn W)%Q).
    { unfold Qn. rewrite <- inject_Z_mult, <- inject_Z_plus. apply inject_Z_injective. lia. }
    assert (QB : (Qn U * (Qn M + Qn k) <= Qn W * Qn M)%Q).
    { unfold Qn. rewrite <- inject_Z_plus, <- !inject_Z_mult, <- Zle_Qle. lia. }
    assert (QK : (Qn M / eps < Qn k)%Q).
    { eapply Qlt_le_trans; [exact Hp|]. unfold Qn. change (Z.pos pz # 1)%Q with (inject_Z (Z.pos pz)). rewrite <- Zle_Qle. lia. }
    assert (QK' : (Qn M < eps * Qn k)%Q).
    { apply (Qmult_lt_l _ _ eps He) in QK. setoid_replace (eps * (Qn M / eps))%Q with (Qn M) in QK; [exact QK|]. field. lra. }
    assert (QE : (Qn U < eps * Qn W)%Q).
    { destruct (Qlt_le_dec (Qn U) (eps * Qn W)) as [X|X]; auto. exfalso.
      assert (Qk0 : (0 <= Qn k)%Q) by (unfold Qn; rewrite <- (Zle_Qle 0); lia).
      assert (A1 : (0 <= (Qn U - eps * Qn W) * (Qn M + Qn k))%Q) by (apply Qmult_le_0_compat; lra).
      assert (A2 : (0 < Qn W * (eps * Qn k - Qn M))%Q) by (apply Qmult_lt_0_compat; lra).
      assert (A3 : (0 <= eps * (Qn W * Qn M))%Q) by (apply Qmult_le_0_compat; [lra|apply Qmult_le_0_compat; lra]).
      lra. }
    assert (Div : (Qn c / Qn W == 1 / Qn t - Qn U / (Qn t * Qn W))%Q) by (setoid_replace (Qn U) with (Qn W - Qn t * Qn c)%Q by lra; field; split; lra).
    assert (Q0 : (0 <= Qn U / (Qn t * Qn W))%Q) by (apply Qle_shift_div_l; nra).
    assert (Q1 : (Qn U / (Qn t * Qn W) < eps)%Q) by (apply Qlt_shift_div_r; nra).
    rewrite Div. split; lra.
  Qed.
End Theorems.

(** A triangle: its three spanning trees, and the draws of three numbers below
    six that return them. *)
Definition triangle : graph nat := mkGraph [0; 1; 2] [(0, 1); (1, 2); (0, 2)].
Definition tri_a : list (nat * nat) := [(0, 1); (1, 2)].
Definition tri_b : list (nat * nat) := [(0, 1); (0, 2)].
Example C99_nonvacuous : wf_graph triangle /\ connected_graph triangle /\
  (forall x, In x (g_nodes triangle) -> Nat.divide (List.length (neighbors triangle x)) 6) /\
  tree_of triangle tri_a /\ tree_of triangle tri_b /\ numbers (tree_of triangle) 3 /\
  numbers (returns triangle 6 3 tri_a) 54 /\ numbers (returns triangle 6 3 tri_b) 54.
Proof.
  assert (W : wf_graph triangle).
  { constructor; cbn.
    - repeat constructor; cbn; intuition discriminate.
    - repeat constructor; cbn; intuition discriminate.
    - intros u v [H|[H|[H|[]]]]; injection H as <- <-; auto.
    - intros u v [H|[H|[H|[]]]] [K|[K|[K|[]]]]; congruence. }
  assert (A : forall u v, u < 3 -> v < 3 -> u <> v -> adj triangle u v).
  { intros u v Hu Hv Hn. destruct u as [|[|[|u]]], v as [|[|[|v]]]; try lia; unfold adj; cbn; auto 10. }
  assert (R : forall c : list (nat * nat), c = [(0, 1); (1, 2)] \/ c = [(0, 1); (0, 2)] -> rooted 0 c).
  { intros c [->| ->].
    - apply (rooted_snoc 0 [(0, 1)] 1 2); [apply (rooted_snoc 0 [] 0 1); [constructor|now left|cbn; lia]|cbn; auto|cbn; lia].
    - apply (rooted_snoc 0 [(0, 1)] 0 2); [apply (rooted_snoc 0 [] 0 1); [constructor|now left|cbn; lia]|cbn; auto|cbn; lia]. }
  assert (Tr : forall c : list (nat * nat), c = [(0, 1); (1, 2)] \/ c = [(0, 1); (0, 2)] -> tree_of triangle (edges_in triangle c)).
  { intros c Hc. apply (edges_in_tree triangle W 0 c (R c Hc)).
    - intro x. destruct Hc as [->| ->]; cbn; tauto.
    - intros p q H. apply A; destruct Hc as [->| ->]; cbn in H; destruct H as [H|[H|[]]]; injection H as <- <-; lia. }
  split; [exact W|]. split; [|split; [|split; [|split; [|split; [|split]]]]].
  - split; [discriminate|]. intros u v Hu Hv. destruct (Nat.eq_dec u v) as [->|Hn]; [constructor|].
    eapply reach_step; [constructor|]. apply A; auto; cbn in Hu, Hv; lia.
  - intros x [<-|[<-|[<-|[]]]]; exists 3; reflexivity.
  - apply (Tr [(0, 1); (1, 2)]). auto.
  - apply (Tr [(0, 1); (0, 2)]). auto.
  - destruct (C83_count (fun _ => 1%Z) triangle W) as (k & E & H); [cbn; lia|reflexivity|].
    assert (E' : num_spanning_trees_in_graph (fun _ : nat * nat => 1%Z) triangle = Ok 3%Z) by (vm_compute; reflexivity).
    rewrite E' in E. injection E as E. assert (k = 3) by lia. now subst.
  - replace 54 with (List.length (filter (returnsb triangle 3 tri_a) (words 6 3))) by (vm_compute; reflexivity). apply numbers_words. intro ws. now apply returnsb_spec.
  - replace 54 with (List.length (filter (returnsb triangle 3 tri_b) (words 6 3))) by (vm_compute; reflexivity). apply numbers_words. intro ws. now apply returnsb_spec.
Qed.

Print Assumptions C99_uniform.
Print Assumptions C99_limit.
