(** Lemmas about Kruskal's algorithm, tree.py:60-94. *)
From Coq Require Import String List Bool Arith ZArith QArith Lqa Lia ZifyBool ZifyNat Permutation Sorted.
From Verif Require Import Base M_Graph M_Partition S_Partition L_Partition M_Machine S_Machine
  S_Contiguity L_Search M_Election L_Order M_Proposals M_Tree S_Tree L_Tree.
Import ListNotations.
Local Open Scope nat_scope.
Local Open Scope list_scope.

Section Kruskal.
  Context {N : Type} {EN : EqB N}.
  Implicit Types (F es l : list (N * N)) (find : N -> N).

  Definition joined F (a b : N) : Prop := In (a, b) F \/ In (b, a) F.
  Definition classes (V : list N) find : nat := List.length (set_of (map find V)).
  Definition merged find (u v : N) : N -> N := fun x => if eqb (find x) (find u) then find v else find x.
  (** The representatives after a run. *)
  Fixpoint final find es : N -> N :=
    match es with
    | [] => find
    | (u, v) :: r => if eqb (find u) (find v) then final find r else final (merged find u v) r
    end.
  Lemma kruskal_app es : forall find l, kruskal find (es ++ l) = kruskal find es ++ kruskal (final find es) l.
  Proof.
    induction es as [|[u v] es IH]; intros find l; [reflexivity|]. cbn [app kruskal final].
    destruct (eqb (find u) (find v)); [apply IH|]. cbn [app]. f_equal. apply IH.
  Qed.
  Lemma kruskal_incl es : forall find e, In e (kruskal find es) -> In e es.
  Proof.
    induction es as [|[u v] es IH]; intros find e H; [exact H|]. cbn [kruskal] in H.
    destruct (eqb (find u) (find v)); [right; eauto|]. destruct H as [<-|H]; [now left|]. right. eauto.
  Qed.
  Lemma kruskal_nodup es : forall find, NoDup es -> NoDup (kruskal find es).
  Proof.
    induction es as [|[u v] es IH]; intros find ND; [constructor|]. inversion ND; subst. cbn [kruskal].
    destruct (eqb (find u) (find v)); auto. constructor; auto. intro H. apply kruskal_incl in H. contradiction.
  Qed.
  Lemma kruskal_length es : forall find, List.length (kruskal find es) <= List.length es.
  Proof.
    induction es as [|[u v] es IH]; intros find; [reflexivity|]. cbn [kruskal].
    destruct (eqb (find u) (find v)); simpl; [etransitivity; [apply IH|lia]|]. apply le_n_S, IH.
  Qed.
  Lemma merged_same find u v x y : find x = find y -> merged find u v x = merged find u v y.
  Proof. intro H. unfold merged. now rewrite H. Qed.
  Lemma final_same es : forall find x y, find x = find y -> final find es x = final find es y.
  Proof.
    induction es as [|[u v] es IH]; intros find x y H; [exact H|]. cbn [final].
    destruct (eqb (find u) (find v)); auto. apply IH. now apply merged_same.
  Qed.
  Lemma final_edge es : forall find u v, In (u, v) es -> final find es u = final find es v.
  Proof.
    induction es as [|[a b] es IH]; intros find u v H; [destruct H|]. cbn [final]. destruct H as [H|H].
    - injection H as -> ->. destruct (eqb_spec (find u) (find v)) as [E|E]; apply final_same; auto.
      unfold merged. rewrite eqb_refl. now destruct (eqb (find v) (find u)).
    - destruct (eqb (find a) (find b)); auto.
  Qed.

  (** Kept edges merge two classes each. *)
  Lemma set_of_nodup_len (l l' : list N) : (forall x, In x l <-> In x l') -> List.length (set_of l) = List.length (set_of l').
  Proof.
    intro H. apply Permutation_length, NoDup_Permutation; try apply NoDup_set_of. intro x. rewrite !In_set_of. apply H.
  Qed.
  Lemma merge_classes V find u v : In u V -> In v V -> find u <> find v -> S (classes V (merged find u v)) = classes V find.
  Proof.
    intros Hu Hv Hn. unfold classes. symmetry.
    assert (P : Permutation (set_of (map find V)) (find u :: set_of (map (merged find u v) V))).
    { apply NoDup_Permutation.
      - apply NoDup_set_of.
      - constructor; [|apply NoDup_set_of]. rewrite In_set_of. intro H. apply in_map_iff in H. destruct H as (x & E & _).
        unfold merged in E. destruct (eqb_spec (find x) (find u)); congruence.
      - intro x. simpl. rewrite !In_set_of, !in_map_iff. unfold merged. split.
        + intros (y & <- & Hy). destruct (eqb_spec (find y) (find u)) as [E|E]; [left; congruence|]. right. exists y. split; auto.
          now rewrite (proj2 (eqb_neq _ _) E).
        + intros [<-|(y & E & Hy)]; [eauto|]. destruct (eqb_spec (find y) (find u)) as [E'|E']; [exists v|exists y]; auto. }
    apply Permutation_length in P. exact P.
  Qed.
  Lemma kruskal_count V es : forall find, (forall u v, In (u, v) es -> In u V /\ In v V) ->
    List.length (kruskal find es) + classes V (final find es) = classes V find.
  Proof.
    induction es as [|[u v] es IH]; intros find He; [reflexivity|]. cbn [kruskal final].
    assert (He' : forall a b, In (a, b) es -> In a V /\ In b V) by (intros; apply He; now right).
    destruct (He u v (or_introl eq_refl)) as [Hu Hv].
    destruct (eqb_spec (find u) (find v)) as [E|E]; [now apply IH|]. cbn [List.length].
    change (kruskal _ es) with (kruskal (merged find u v) es).
    rewrite <- (merge_classes V find u v Hu Hv E), <- (IH (merged find u v) He'). lia.
  Qed.

  (** Nodes with the same representative are joined by kept edges. *)
  Lemma kruskal_joined es : forall find F, (forall x y, find x = find y -> reach (joined F) x y) ->
    forall x y, final find es x = final find es y -> reach (joined (F ++ kruskal find es)) x y.
  Proof.
    induction es as [|[u v] es IH]; intros find F HF x y H.
    - cbn [kruskal]. rewrite app_nil_r. now apply HF.
    - cbn [kruskal final] in *. destruct (eqb (find u) (find v)); [now apply IH|].
      assert (Sub : forall a b, reach (joined F) a b -> reach (joined (F ++ [(u, v)])) a b).
      { intros a b. apply reach_mono. intros c d [K|K]; [left|right]; apply in_app_iff; auto. }
      assert (Sym : forall a b, joined (F ++ [(u, v)]) a b -> joined (F ++ [(u, v)]) b a) by (intros a b [K|K]; [now right|now left]).
      replace (F ++ (u, v) :: kruskal _ es) with ((F ++ [(u, v)]) ++ kruskal (merged find u v) es) by now rewrite <- app_assoc.
      apply IH; [|exact H]. clear x y H.
      assert (Uv : reach (joined (F ++ [(u, v)])) u v).
      { apply reach_one. left. apply in_app_iff. right. now left. }
      assert (Tov : forall x, find x = find u -> reach (joined (F ++ [(u, v)])) x v).
      { intros x Hx. eapply reach_trans; [apply Sub, HF; exact Hx|exact Uv]. }
      intros x y. unfold merged. destruct (eqb_spec (find x) (find u)) as [Ex|Ex], (eqb_spec (find y) (find u)) as [Ey|Ey]; intro H.
      + apply Sub, HF. congruence.
      + eapply reach_trans; [apply Tov; exact Ex|]. now apply Sub, HF.
      + apply reach_sym; [exact Sym|]. eapply reach_trans; [apply Tov; exact Ey|]. apply Sub, HF. congruence.
      + now apply Sub, HF.
  Qed.
  Lemma classes_one V find r : In r V -> (forall x, In x V -> find x = find r) -> classes V find = 1.
  Proof.
    intros Hr H. unfold classes. rewrite (set_of_nodup_len (map find V) [find r]); [reflexivity|].
    intro x. rewrite in_map_iff. simpl. split.
    - intros (y & <- & Hy). left. symmetry. auto.
    - intros [<-|[]]. eauto.
  Qed.
  Lemma classes_id V : NoDup V -> classes V (fun x => x) = List.length V.
  Proof.
    intro ND. unfold classes. rewrite map_id. apply Permutation_length, NoDup_Permutation; auto; [apply NoDup_set_of|]. intro x. apply In_set_of.
  Qed.
  (** A run over edges that connect everything ends in one class. *)
  Lemma connected_one V find es r : In r V -> (forall x, In x V -> reach (fun a b => find a = find b \/ joined es a b) r x) ->
    classes V (final find es) = 1.
  Proof.
    intros Hr H. apply (classes_one V _ r Hr). intros x Hx. specialize (H x Hx). clear Hx.
    induction H as [|x y Hxy IH [E|[E|E]]]; auto.
    - rewrite <- IH. symmetry. now apply final_same.
    - rewrite <- IH. symmetry. now apply final_edge.
    - rewrite <- IH. now apply final_edge.
  Qed.
  Lemma reach_weaken {X} (R R' : X -> X -> Prop) u v : (forall a b, R a b -> R' a b) -> reach R u v -> reach R' u v.
  Proof. intros H. induction 1; [constructor|]. eapply reach_step; eauto. Qed.

  Definition connected_graph (g : graph N) : Prop :=
    g_nodes g <> [] /\ forall u v, In u (g_nodes g) -> In v (g_nodes g) -> reach (adj g) u v.

  Lemma kruskal_tree (g : graph N) es : wf_graph g -> connected_graph g -> Permutation es (g_edges g) ->
    spanning_tree g (mkGraph (g_nodes g) (kruskal (fun x => x) es)).
  Proof.
    intros WF [NE Con] P. assert (Ein : forall e, In e es <-> In e (g_edges g)).
    { intro e. split; apply Permutation_in; auto. now apply Permutation_sym. }
    assert (ND : NoDup es) by (eapply Permutation_NoDup; [apply Permutation_sym; exact P|apply (wfg_edges g WF)]).
    assert (Ends : forall u v, In (u, v) es -> In u (g_nodes g) /\ In v (g_nodes g)) by (intros u v H; apply Ein in H; now apply (wfg_ends g WF)).
    destruct (g_nodes g) as [|r V'] eqn:EV; [congruence|]. rewrite <- EV in *. assert (Hr : In r (g_nodes g)) by (rewrite EV; now left).
    assert (One : classes (g_nodes g) (final (fun x => x) es) = 1).
    { apply (connected_one _ _ _ r Hr). intros x Hx. eapply reach_weaken; [|apply Con; auto]. intros a b [H|H]; right; [left|right]; now apply Ein. }
    assert (Same : forall x y, In x (g_nodes g) -> In y (g_nodes g) -> final (fun x => x) es x = final (fun x => x) es y).
    { intros x y Hx Hy. assert (X : forall z, In z (g_nodes g) -> final (fun x => x) es r = final (fun x => x) es z).
      { intros z Hz. assert (H := Con r z Hr Hz). induction H as [|a b Hab IH [E|E]]; auto.
        - rewrite IH; [apply final_edge; now apply Ein|]. now apply (wfg_ends g WF) in E.
        - rewrite IH; [symmetry; apply final_edge; now apply Ein|]. now apply (wfg_ends g WF) in E. }
      rewrite <- (X x Hx), <- (X y Hy). reflexivity. }
    split; [|split].
    - constructor; cbn.
      + constructor; cbn.
        * apply (wfg_nodes g WF).
        * now apply kruskal_nodup.
        * intros u v H. apply kruskal_incl in H. now apply Ends.
        * intros u v H H'. apply kruskal_incl in H, H'. apply Ein in H, H'. now apply (wfg_once g WF).
      + intros u v Hu Hv. apply (kruskal_joined es (fun x => x) []); [|now apply Same].
        intros x y ->. constructor.
      + assert (C := kruskal_count (g_nodes g) es (fun x => x) Ends). rewrite One, classes_id in C by apply (wfg_nodes g WF). lia.
    - intro n. reflexivity.
    - intros u v [H|H]; cbn in H; apply kruskal_incl, Ein in H; [now left|now right].
  Qed.

  (** ** Minimality *)
  Variable w : N * N -> Q.
  Definition le_t (t : Q) (e : N * N) : bool := Qle_bool (w e) t.
  Definition gt_t (t : Q) (e : N * N) : bool := negb (le_t t e).

  Definition w_le (e f : N * N) : Prop := (w e <= w f)%Q.
  Lemma insert_edge_perm e l : Permutation (insert_edge w e l) (e :: l).
  Proof.
    induction l as [|f l IH]; simpl; auto. destruct (Qle_bool (w e) (w f)); auto.
    rewrite IH. constructor.
  Qed.
  Lemma sort_edges_perm l : Permutation (sort_edges w l) l.
  Proof. induction l as [|e l IH]; simpl; auto. unfold sort_edges in *. simpl. rewrite insert_edge_perm. now constructor. Qed.
  Lemma insert_edge_sorted e l : StronglySorted w_le l -> StronglySorted w_le (insert_edge w e l).
  Proof.
    induction 1 as [|f l HS IH HF]; simpl; [repeat constructor|]. destruct (Qle_bool (w e) (w f)) eqn:E.
    - apply Qle_bool_iff in E. constructor; [constructor; auto|]. constructor; auto.
      eapply Forall_impl; [|exact HF]. intros a Ha. unfold w_le in *. eapply Qle_trans; eauto.
    - constructor; auto. apply Forall_forall. intros x Hx. apply (Permutation_in _ (insert_edge_perm e l)) in Hx.
      destruct Hx as [<-|Hx]; [|rewrite Forall_forall in HF; auto]. unfold w_le.
      destruct (Qlt_le_dec (w f) (w e)) as [H|H]; [lra|]. apply Qle_bool_iff in H. congruence.
  Qed.
  Lemma sort_edges_sorted l : StronglySorted w_le (sort_edges w l).
  Proof. induction l as [|e l IH]; simpl; [constructor|]. now apply insert_edge_sorted. Qed.
  Lemma sorted_split t l : StronglySorted w_le l -> l = filter (le_t t) l ++ filter (gt_t t) l.
  Proof.
    induction 1 as [|e l HS IH HF]; auto. simpl. unfold gt_t at 1. destruct (le_t t e) eqn:E; simpl.
    - now f_equal.
    - assert (All : forall x, In x l -> le_t t x = false).
      { intros x Hx. rewrite Forall_forall in HF. specialize (HF x Hx). unfold w_le, le_t in *.
        destruct (Qle_bool (w x) t) eqn:Ex; auto. apply Qle_bool_iff in Ex.
        assert (H : (w e <= t)%Q) by (eapply Qle_trans; eauto). apply Qle_bool_iff in H. congruence. }
      assert (F1 : filter (le_t t) l = []).
      { clear -All. induction l as [|a l IH]; auto. simpl. rewrite All by now left. apply IH. intros. apply All. now right. }
      rewrite F1 in *. simpl in *. now f_equal.
  Qed.
  Definition count (t : Q) (l : list (N * N)) : nat := List.length (filter (le_t t) l).
  Lemma count_gt t l : count t l + List.length (filter (gt_t t) l) = List.length l.
  Proof. unfold count, gt_t. induction l as [|e l IH]; auto. simpl. destruct (le_t t e); simpl; lia. Qed.
  Lemma filter_app_nil {X} (f : X -> bool) (l l' : list X) : (forall x, In x l -> f x = true) -> (forall x, In x l' -> f x = false) -> filter f (l ++ l') = l.
  Proof.
    intros H1 H2. rewrite filter_app.
    assert (E1 : filter f l = l) by (clear -H1; induction l as [|a l IH]; auto; simpl; rewrite H1 by (now left); f_equal; apply IH; intros; apply H1; now right).
    assert (E2 : filter f l' = []) by (clear -H2; induction l' as [|a l' IH]; auto; simpl; rewrite H2 by (now left); apply IH; intros; apply H2; now right).
    rewrite E1, E2. apply app_nil_r.
  Qed.

  (** For every threshold the Kruskal tree has at least as many edges below it
      as any other spanning tree. *)
  Lemma kruskal_count_le (g T : graph N) t : wf_graph g -> connected_graph g ->
    spanning_tree g T -> incl (g_edges T) (g_edges g) ->
    count t (g_edges T) <= count t (kruskal (fun x => x) (sort_edges w (g_edges g))).
  Proof.
    intros WF [NE Con] [HT [HN HA]] HE.
    set (es := sort_edges w (g_edges g)). assert (P : Permutation es (g_edges g)) by apply sort_edges_perm.
    assert (Ein : forall e, In e es <-> In e (g_edges g)).
    { intro e. split; apply Permutation_in; auto. now apply Permutation_sym. }
    assert (Ends : forall u v, In (u, v) es -> In u (g_nodes g) /\ In v (g_nodes g)) by (intros u v H; apply Ein in H; now apply (wfg_ends g WF)).
    set (l1 := filter (le_t t) es). set (l2 := filter (gt_t t) es).
    assert (Es : es = l1 ++ l2) by apply sorted_split, sort_edges_sorted.
    set (id := fun x : N => x). set (fnd := final id l1).
    assert (K : kruskal id es = kruskal id l1 ++ kruskal fnd l2) by (rewrite Es at 1; apply kruskal_app).
    assert (C1 : count t (kruskal id es) = List.length (kruskal id l1)).
    { unfold count. rewrite K, filter_app_nil; auto.
      - intros x Hx. apply kruskal_incl in Hx. now apply filter_In in Hx.
      - intros x Hx. apply kruskal_incl in Hx. apply filter_In in Hx. destruct Hx as [_ Hx]. unfold gt_t in Hx. now apply negb_true_iff in Hx. }
    assert (C2 : List.length (kruskal id l1) + classes (g_nodes g) fnd = List.length (g_nodes g)).
    { rewrite <- (classes_id (g_nodes g)) by apply (wfg_nodes g WF). apply kruskal_count. intros u v H. apply Ends. rewrite Es. apply in_app_iff. auto. }
    (* the edges of T above the threshold must join the remaining classes *)
    set (h := filter (gt_t t) (g_edges T)).
    assert (C3 : List.length (kruskal fnd h) + 1 = classes (g_nodes g) fnd).
    { destruct (g_nodes g) as [|r V'] eqn:EV; [congruence|]. rewrite <- EV in *. assert (Hr : In r (g_nodes g)) by (rewrite EV; now left).
      rewrite <- (kruskal_count (g_nodes g) h fnd).
      - f_equal. symmetry. apply (connected_one _ _ _ r Hr). intros x Hx. eapply reach_weaken; [|apply (tree_connected T HT); now apply HN].
        assert (Step : forall a b, In (a, b) (g_edges T) -> fnd a = fnd b \/ In (a, b) h).
        { intros a b H. destruct (le_t t (a, b)) eqn:E.
          - left. apply final_edge. apply filter_In. split; auto. apply Ein. now apply HE.
          - right. apply filter_In. split; auto. unfold gt_t. now rewrite E. }
        intros a b [H|H]; apply Step in H; destruct H as [H|H]; auto.
        + right. now left.
        + right. now right.
      - intros u v H. apply filter_In in H. destruct H as [H _]. apply HE in H. now apply (wfg_ends g WF). }
    assert (L1 := kruskal_length h fnd). assert (L2 := count_gt t (g_edges T)). fold h in L2.
    assert (L3 := tree_size T HT).
    assert (L4 : List.length (g_nodes T) = List.length (g_nodes g)).
    { apply Permutation_length, NoDup_Permutation; auto; [apply (wfg_nodes T (tree_wf T HT))|apply (wfg_nodes g WF)]. }
    unfold id in *. lia.
  Qed.
End Kruskal.

(** Lists of equal length where one has at least as many elements below any
    threshold: its sum is at most the other's. *)
Section Dominate.
  Definition cnt (t : Q) (l : list Q) : nat := List.length (filter (fun x => Qle_bool x t) l).
  Lemma cnt_cons t x l : cnt t (x :: l) = (if Qle_bool x t then 1 else 0) + cnt t l.
  Proof. unfold cnt. simpl. destruct (Qle_bool x t); reflexivity. Qed.
  Lemma cnt_perm t l l' : Permutation l l' -> cnt t l = cnt t l'.
  Proof. induction 1; rewrite ?cnt_cons in *; try lia. Qed.
  Lemma cnt_le t l : cnt t l <= List.length l.
  Proof. induction l as [|x l IH]; [reflexivity|]. rewrite cnt_cons. simpl. destruct (Qle_bool x t); lia. Qed.
  Lemma cnt_all t l : cnt t l = List.length l <-> forall x, In x l -> (x <= t)%Q.
  Proof.
    induction l as [|x l IH]; [split; [intros _ y []|reflexivity]|]. rewrite cnt_cons. cbn [List.length]. assert (L := cnt_le t l). split.
    - intros H y Hy. destruct (Qle_bool x t) eqn:E; [|lia]. destruct Hy as [<-|Hy]; [now apply Qle_bool_iff|]. apply IH; [lia|exact Hy].
    - intro H. assert (E : Qle_bool x t = true) by (apply Qle_bool_iff, H; now left). rewrite E.
      rewrite (proj2 IH); auto. intros. apply H. now right.
  Qed.
  Lemma pick_max (l : list Q) : l <> [] -> exists m l', Permutation l (m :: l') /\ forall x, In x l -> (x <= m)%Q.
  Proof.
    induction l as [|x l IH]; [congruence|]. intros _. destruct l as [|y l].
    - exists x, []. split; auto. intros z [<-|[]]. apply Qle_refl.
    - destruct IH as (m & l' & P & M); [congruence|]. destruct (Qlt_le_dec m x) as [H|H].
      + exists x, (y :: l). split; auto. intros z [<-|Hz]; [apply Qle_refl|]. specialize (M z Hz). lra.
      + exists m, (x :: l'). split.
        * rewrite P. constructor.
        * intros z [<-|Hz]; auto.
  Qed.
  Lemma qsum_cons x l : qsum (x :: l) = (x + qsum l)%Q. Proof. reflexivity. Qed.
  Lemma dominated_sum n : forall a b : list Q, List.length a = n -> List.length b = n ->
    (forall t, cnt t b <= cnt t a) -> (qsum a <= qsum b)%Q.
  Proof.
    induction n as [|n IH]; intros a b La Lb H.
    - destruct a, b; try discriminate. 
    - destruct (pick_max a) as (ma & a' & Pa & Ma); [intros ->; discriminate|].
      destruct (pick_max b) as (mb & b' & Pb & Mb); [intros ->; discriminate|].
      assert (La' : List.length a' = n) by (apply Permutation_length in Pa; simpl in Pa; lia).
      assert (Lb' : List.length b' = n) by (apply Permutation_length in Pb; simpl in Pb; lia).
      assert (Mab : (ma <= mb)%Q).
      { assert (X : cnt mb a = List.length a).
        { assert (Y := H mb). rewrite (proj2 (cnt_all mb b) Mb) in Y. assert (Z := cnt_le mb a). lia. }
        apply (proj1 (cnt_all mb a) X). apply (Permutation_in _ (Permutation_sym Pa)). now left. }
      rewrite (qsum_perm _ _ Pa), (qsum_perm _ _ Pb), !qsum_cons.
      apply Qplus_le_compat; auto. apply IH; auto. intro t.
      assert (Ht := H t). rewrite (cnt_perm t _ _ Pa), (cnt_perm t _ _ Pb), !cnt_cons in Ht.
      destruct (Qle_bool ma t) eqn:Ea.
      + apply Qle_bool_iff in Ea. rewrite (proj2 (cnt_all t a')).
        * assert (Z := cnt_le t b'). lia.
        * intros x Hx. eapply Qle_trans; [|exact Ea]. apply Ma. apply (Permutation_in _ (Permutation_sym Pa)). now right.
      + lia.
  Qed.
End Dominate.
