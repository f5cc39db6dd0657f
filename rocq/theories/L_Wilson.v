(** Lemmas about Wilson's algorithm, tree.py:97-132. *)
From Coq Require Import List Bool Arith ZArith QArith Lia ZifyBool ZifyNat Permutation.
From Verif Require Import Base M_Graph M_Partition S_Partition L_Partition M_Machine S_Machine
  S_Contiguity L_Search M_Election M_Proposals M_Tree S_Tree L_Tree.
Import ListNotations.
Local Open Scope nat_scope.

Section RootedTree.
  Context {N : Type} {EN : EqB N}.
  Lemma rooted_reach r (es : list (N * N)) x : rooted r es -> In x (nodes_of r es) ->
    reach (fun a b => In (a, b) es) r x.
  Proof.
    intro R. revert x. induction R as [|es p c R IH Hp Hc]; intro x.
    - intros [<-|[]]. constructor.
    - rewrite nodes_snoc, in_app_iff.
      assert (Mono : forall y, In y (nodes_of r es) -> reach (fun a b => In (a, b) (es ++ [(p, c)])) r y).
      { intros y Hy. eapply reach_mono; [|apply IH; exact Hy]. cbn beta. intros. apply in_app_iff. auto. }
      intros [H|[<-|[]]]; auto. eapply reach_step; [apply Mono; exact Hp|]. apply in_app_iff. right. now left.
  Qed.
  (** The graph whose edges are those of a rooted list, reversed. *)
  Lemma rooted_is_tree r (es : list (N * N)) (T : graph N) : rooted r es -> NoDup (g_nodes T) ->
    (forall x, In x (g_nodes T) <-> In x (nodes_of r es)) -> NoDup (g_edges T) ->
    (forall c p, In (c, p) (g_edges T) <-> In (p, c) es) -> is_tree T.
  Proof.
    intros R NDn Hn NDe He.
    assert (A : forall u v, adj T u v <-> In (u, v) es \/ In (v, u) es).
    { intros u v. unfold adj. rewrite !He. tauto. }
    constructor.
    - constructor; auto.
      + intros u v H. apply He in H. destruct (parent_in r es v u R H) as (H1 & H2 & _). rewrite !Hn. split; auto. now right.
      + intros u v H1 H2. apply He in H1, H2. elim (rooted_no_swap r es u v R H2 H1).
    - intros u v Hu Hv. apply Hn in Hu, Hv.
      assert (Sym : forall a b, adj T a b -> adj T b a) by (intros; now apply adj_sym).
      eapply reach_trans; [apply reach_sym; [exact Sym|]|]; (eapply reach_mono; [|eapply rooted_reach; eauto]); cbn beta; intros; apply A; auto.
    - assert (P : Permutation (g_edges T) (map (fun e => (snd e, fst e)) es)).
      { apply NoDup_Permutation; auto.
        - apply FinFun.Injective_map_NoDup; [|eapply rooted_es_nodup; eauto]. intros [a b] [a' b'] E. simpl in E. congruence.
        - intros [c p]. rewrite He, in_map_iff. split.
          + intro H. exists (p, c). auto.
          + intros ([a b] & E & H). simpl in E. injection E as <- <-. exact H. }
      apply Permutation_length in P. rewrite P, map_length.
      assert (P' : Permutation (g_nodes T) (nodes_of r es)) by (apply NoDup_Permutation; auto; now apply rooted_nodup).
      apply Permutation_length in P'. rewrite P'. unfold nodes_of. simpl. now rewrite map_length.
  Qed.
End RootedTree.

Section Wilson.
  Context {N : Type} {EN : EqB N}.
  Variable g : graph N.
  Hypothesis WF : wf_graph g.

  (** Following [next] from [x] through the nodes [l] to [y]. *)
  Inductive trail (next : dict N (option N)) : N -> list N -> N -> Prop :=
  | trail_nil : forall x, trail next x [] x
  | trail_cons : forall x v l y, dget next x = Some (Some v) -> adj g x v -> trail next v l y -> trail next x (x :: l) y.

  Lemma trail_snoc next x l y v : trail next x l y -> dget next y = Some (Some v) -> adj g y v -> trail next x (l ++ [y]) v.
  Proof.
    induction 1 as [x|x w l y H1 H2 H3 IH]; intros Hy Ha; simpl.
    - eapply trail_cons; eauto. constructor.
    - eapply trail_cons; eauto.
  Qed.
  Lemma trail_set next x l y u o : trail next x l y -> ~ In u l -> trail (dset next u o) x l y.
  Proof.
    induction 1 as [x|x w l y H1 H2 H3 IH]; intro Hu; [constructor|]. simpl in Hu.
    eapply trail_cons; eauto. rewrite dget_dset_neq; auto.
  Qed.
  Lemma trail_split next x l y v : trail next x l y -> In v l -> exists l1 l2, l = l1 ++ v :: l2 /\ trail next x l1 v.
  Proof.
    induction 1 as [x|x w l y H1 H2 H3 IH]; intro Hv; [destruct Hv|].
    destruct (eq_dec_of x v) as [->|Hn].
    - exists [], l. split; auto. constructor.
    - destruct Hv as [Hv|Hv]; [congruence|]. destruct (IH Hv) as (l1 & l2 & -> & Ht). exists (x :: l1), l2. split; auto.
      eapply trail_cons; eauto.
  Qed.
  Lemma trail_head next x l y : trail next x l y -> In x l \/ x = y.
  Proof. inversion 1; subst; auto. left. now left. Qed.

  Lemma choice_of {X} draw (l : list X) : l <> [] -> exists x, choice draw l = Ok x /\ In x l.
  Proof.
    intro H. unfold choice. destruct (nth_error l (draw mod List.length l)) eqn:E.
    - eexists. split; [reflexivity|]. eapply nth_error_In; eauto.
    - apply nth_error_None in E. assert (List.length l <> 0) by (destruct l; simpl; congruence).
      assert (draw mod List.length l < List.length l) by now apply Nat.mod_upper_bound. lia.
  Qed.

  Lemma retrace_spec next u l y : trail next u l y -> forall fuel tree, In y tree -> NoDup l -> (forall x, In x l -> ~ In x tree) ->
    List.length l <= fuel -> retrace fuel tree next u = Ok (tree ++ l).
  Proof.
    induction 1 as [x|x v l y H1 H2 H3 IH]; intros fuel tree Hy ND Hl Lf.
    - rewrite app_nil_r. destruct fuel; cbn [retrace]; now rewrite (proj2 (mem_In _ _) Hy).
    - destruct fuel as [|fuel]; [simpl in Lf; lia|]. cbn [retrace].
      destruct (mem_spec x tree) as [Hm|Hm]; [elim (Hl x); auto; now left|].
      rewrite H1. cbn [bind of_option]. inversion ND as [|? ? Hx NDl]; subst.
      rewrite (IH fuel (tree ++ [x])); auto.
      + now rewrite <- app_assoc.
      + apply in_app_iff. auto.
      + intros z Hz H. apply in_app_iff in H. destruct H as [H|[<-|[]]]; [|contradiction]. apply (Hl z); auto. now right.
      + simpl in Lf. lia.
  Qed.

  Record grown (root : N) (tree : list N) (next : dict N (option N)) (es : list (N * N)) : Prop := {
    gr_rooted : rooted root es;
    gr_nodup : NoDup tree;
    gr_nodes : forall x, In x tree <-> In x (nodes_of root es);
    gr_in : forall x, In x tree -> In x (g_nodes g);
    gr_root : dget next root = Some None;
    gr_next : forall p c, In (p, c) es -> dget next c = Some (Some p) /\ adj g c p
  }.
  Lemma grown_trail root tree next next' es u l y : grown root tree next es ->
    (forall x, In x tree -> dget next' x = dget next x) ->
    trail next' u l y -> In y tree -> NoDup l -> (forall x, In x l -> ~ In x tree /\ In x (g_nodes g)) ->
    exists es', grown root (tree ++ l) next' es'.
  Proof.
    intros G Keep Ht Hy ND Hl.
    assert (X : exists es', rooted root (es ++ es') /\ (forall x, In x (map snd es') <-> In x l) /\
      (forall p c, In (p, c) es' -> dget next' c = Some (Some p) /\ adj g c p)).
    { induction Ht as [x|x v l y H1 H2 H3 IH].
      - exists []. rewrite app_nil_r. split; [apply (gr_rooted _ _ _ _ G)|]. split; [simpl; tauto|intros ? ? []].
      - inversion ND as [|? ? Hx NDl]; subst. destruct (IH Hy NDl) as (es' & R & S & E).
        { intros. apply Hl. now right. }
        exists (es' ++ [(v, x)]). rewrite app_assoc. split; [|split].
        + constructor; auto.
          * fold (nodes_of root (es ++ es')). unfold nodes_of. rewrite map_app. simpl. rewrite in_app_iff, S.
            destruct (trail_head _ _ _ _ H3) as [H| ->]; auto. apply (gr_nodes _ _ _ _ G) in Hy. destruct Hy; auto.
          * rewrite map_app. simpl. rewrite in_app_iff, S. intro H. destruct (Hl x (or_introl eq_refl)) as [Hn _].
            apply Hn, (gr_nodes _ _ _ _ G). destruct H as [<-|[H|H]]; [now left|now right|contradiction].
        + intro z. rewrite map_app, in_app_iff, S. simpl. tauto.
        + intros p c Hpc. apply in_app_iff in Hpc. destruct Hpc as [H|[H|[]]]; auto. injection H as <- <-. auto. }
    destruct X as (es' & R & S & E). exists (es ++ es'). constructor; auto.
    - apply NoDup_app_iff. split; [apply (gr_nodup _ _ _ _ G)|]. split; auto. intros x H1 H2. now apply (Hl x).
    - intro x. unfold nodes_of. rewrite map_app, in_app_iff. simpl. rewrite in_app_iff, S, (gr_nodes _ _ _ _ G). simpl. tauto.
    - intros x Hx. apply in_app_iff in Hx. destruct Hx as [Hx|Hx]; [now apply (gr_in _ _ _ _ G)|now apply Hl].
    - rewrite Keep; [apply (gr_root _ _ _ _ G)|]. apply (gr_nodes _ _ _ _ G). now left.
    - intros p c Hpc. apply in_app_iff in Hpc. destruct Hpc as [H|H]; auto.
      destruct (gr_next _ _ _ _ G p c H) as [H1 H2]. split; auto. rewrite Keep; auto. apply (gr_nodes _ _ _ _ G).
      right. apply in_map_iff. now exists (p, c).
  Qed.
  Lemma edges_of root tree next es : grown root tree next es ->
    exists ess, mapM (fun n => o <- of_option KeyError (dget next n) ;; Ok (match o with Some v => [(n, v)] | None => [] end)) tree = Ok ess /\
      NoDup (concat ess) /\ forall c p, In (c, p) (concat ess) <-> In (p, c) es.
  Proof.
    intro G.
    assert (Val : forall x, In x tree -> (x = root /\ dget next x = Some None) \/ exists p, In (p, x) es /\ dget next x = Some (Some p)).
    { intros x Hx. apply (gr_nodes _ _ _ _ G) in Hx. destruct Hx as [<-|Hx]; [left; split; auto; apply (gr_root _ _ _ _ G)|].
      apply in_map_iff in Hx. destruct Hx as ([p x'] & E & H). simpl in E. subst x'. right. exists p. split; auto.
      now apply (gr_next _ _ _ _ G). }
    set (f := fun n => match dget next n with Some (Some v) => [(n, v)] | _ => [] end).
    assert (Em : mapM (fun n => o <- of_option KeyError (dget next n) ;; Ok (match o with Some v => [(n, v)] | None => [] end)) tree = Ok (map f tree)).
    { apply mapM_all_Ok. intros x Hx. unfold f. destruct (Val x Hx) as [(_ & E)|(p & _ & E)]; rewrite E; reflexivity. }
    exists (map f tree). split; auto. rewrite <- flat_map_concat_map.
    assert (Inf : forall c p, In (c, p) (flat_map f tree) <-> In c tree /\ dget next c = Some (Some p)).
    { intros c p. rewrite in_flat_map. unfold f. split.
      - intros (x & Hx & H). destruct (dget next x) as [[v|]|] eqn:E; [destruct H as [H|[]]; injection H as -> ->; auto|destruct H|destruct H].
      - intros [H1 H2]. exists c. split; auto. rewrite H2. now left. }
    split.
    - assert (ND := gr_nodup _ _ _ _ G). clear -ND. induction tree as [|x tree IH]; [constructor|]. inversion ND; subst. cbn [flat_map].
      apply NoDup_app_iff. split; [|split]; auto.
      + unfold f. destruct (dget next x) as [[v|]|]; repeat constructor; intros [].
      + intros [a b] Ha Hb. apply in_flat_map in Hb. destruct Hb as (y & Hy & Hb). unfold f in Ha, Hb.
        destruct (dget next x) as [[v|]|]; [destruct Ha as [Ha|[]]|destruct Ha|destruct Ha].
        destruct (dget next y) as [[v'|]|]; [destruct Hb as [Hb|[]]|destruct Hb|destruct Hb]. injection Ha as -> ->. injection Hb as -> ->. contradiction.
    - intros c p. rewrite Inf. split.
      + intros [H1 H2]. destruct (Val c H1) as [(_ & E)|(p' & H & E)]; [congruence|]. assert (p = p') by congruence. now subst.
      + intro H. split; [|now apply (gr_next _ _ _ _ G)]. apply (gr_nodes _ _ _ _ G). right. apply in_map_iff. now exists (p, c).
  Qed.

  Hypothesis Nbr : forall x, In x (g_nodes g) -> neighbors g x <> [].

  Lemma walk_spec u0 tree draws fuel : forall i next l u,
    trail next u0 l u -> NoDup l -> ~ In u l -> In u (g_nodes g) -> (forall x, In x l -> ~ In x tree /\ In x (g_nodes g)) ->
    walk fuel g draws i tree next u = NoFuel \/
    exists i' next' l' y, walk fuel g draws i tree next u = Ok (i', next') /\ trail next' u0 l' y /\ In y tree /\
      NoDup l' /\ (forall x, In x l' -> ~ In x tree /\ In x (g_nodes g)) /\ (forall x, In x tree -> dget next' x = dget next x).
  Proof.
    induction fuel as [|fuel IH]; intros i next l u Ht ND Hu Hun Hl; cbn [walk]; destruct (mem_spec u tree) as [Hm|Hm].
    - right. exists i, next, l, u. auto 10.
    - now left.
    - right. exists i, next, l, u. auto 10.
    - destruct (choice_of (draws i) (neighbors g u) (Nbr u Hun)) as (v & Ev & Hv). rewrite Ev. cbn [bind].
      apply In_neighbors in Hv; auto. assert (Hvn : In v (g_nodes g)) by (eapply adj_nodes; eauto).
      set (next1 := dset next u (Some v)).
      assert (Keep : forall x, In x tree -> dget next1 x = dget next x).
      { intros x Hx. unfold next1. apply dget_dset_neq. intros ->. contradiction. }
      assert (Ht1 : trail next1 u0 l u) by now apply trail_set.
      assert (Fin : forall l1, trail next1 u0 l1 v -> NoDup l1 -> ~ In v l1 -> (forall x, In x l1 -> ~ In x tree /\ In x (g_nodes g)) ->
        walk fuel g draws (S i) tree next1 v = NoFuel \/
        exists i' next' l' y, walk fuel g draws (S i) tree next1 v = Ok (i', next') /\ trail next' u0 l' y /\ In y tree /\
        NoDup l' /\ (forall x, In x l' -> ~ In x tree /\ In x (g_nodes g)) /\ (forall x, In x tree -> dget next' x = dget next x)).
      { intros l1 T1 N1 V1 L1. destruct (IH (S i) next1 l1 v T1 N1 V1 Hvn L1) as [E|(i' & next' & l' & y & E & A & B & C & D & F)]; auto.
        right. exists i', next', l', y. split; auto. split; auto. split; auto. split; auto. split; auto.
        intros x Hx. rewrite F, Keep; auto. }
      destruct (In_dec_of v (l ++ [u])) as [Hin|Hin].
      + (* a loop is erased *)
        destruct (eq_dec_of v u) as [->|Hvu].
        * apply (Fin l); auto.
        * assert (Hin' : In v l) by (apply in_app_iff in Hin; destruct Hin as [H|[H|[]]]; [exact H|congruence]).
          destruct (trail_split next1 u0 l u v Ht1 Hin') as (l1 & l2 & El & T1). subst l.
          apply (Fin l1); auto.
          -- now apply nodup_app_l in ND.
          -- intro H. eapply nodup_app_disj; [exact ND|exact H|now left].
          -- intros x Hx. apply Hl, in_app_iff. auto.
      + apply (Fin (l ++ [u])); auto.
        * apply trail_snoc; auto. unfold next1. apply dget_dset_eq.
        * now apply NoDup_app_single.
        * intros x Hx. apply in_app_iff in Hx. destruct Hx as [Hx|[<-|[]]]; auto.
  Qed.

  Lemma grow_spec root fuel draws nodes : forall i tree next es, grown root tree next es -> (forall x, In x nodes -> In x (g_nodes g)) ->
    grow fuel g draws i tree next nodes = NoFuel \/
    exists j tree' next' es', grow fuel g draws i tree next nodes = Ok (j, (tree', next')) /\ grown root tree' next' es' /\
      (forall x, In x nodes \/ In x tree -> In x tree').
  Proof.
    induction nodes as [|u nodes IH]; intros i tree next es G Hn.
    - right. exists i, tree, next, es. split; auto. split; auto. intros x [[]|H]; auto.
    - cbn [grow].
      destruct (walk_spec u tree draws fuel i next [] u) as [E|(i' & next' & l & y & E & Ht & Hy & ND & Hl & Keep)].
      + constructor.
      + constructor.
      + intros [].
      + apply Hn. now left.
      + intros x [].
      + left. rewrite E. reflexivity.
      + rewrite E. cbn [bind fst snd].
        rewrite (retrace_spec next' u l y Ht); auto; [|intros x Hx; now apply Hl|].
        2:{ assert (I : incl l (g_nodes g)) by (intros x Hx; now apply Hl). apply NoDup_incl_length in I; auto. }
        cbn [bind]. destruct (grown_trail root tree next next' es u l y G Keep Ht Hy ND Hl) as (es' & G').
        destruct (IH i' (tree ++ l) next' es' G') as [E2|(j & tree2 & next2 & es2 & E2 & G2 & I2)].
        * intros. apply Hn. now right.
        * left. exact E2.
        * right. exists j, tree2, next2, es2. split; auto. split; auto. intros x [[<-|H]|H]; apply I2; auto.
          -- right. apply in_app_iff. destruct (trail_head _ _ _ _ Ht) as [H| ->]; auto.
          -- right. apply in_app_iff. auto.
  Qed.
End Wilson.
