(** Runs of Wilson's algorithm as traces of (node, draw), and the cycle popping
    they perform on the stacks of draws of the nodes. *)
From Coq Require Import List Bool Arith ZArith Lia ZifyBool ZifyNat Permutation.
From Verif Require Import Base M_Graph M_Partition S_Partition L_Partition M_Machine S_Machine
  S_Contiguity L_Search M_Election M_Proposals M_Tree S_Tree L_Tree L_Wilson L_Popping.
Import ListNotations.
Local Open Scope nat_scope.

Lemma iter_succ_r {X} (f : X -> X) n x : Nat.iter (S n) f x = Nat.iter n f (f x).
Proof. induction n as [|n IH]; [reflexivity|]. change (f (Nat.iter (S n) f x) = f (Nat.iter n f (f x))). now rewrite IH. Qed.
Lemma iter_add {X} (f : X -> X) m n x : Nat.iter (m + n) f x = Nat.iter m f (Nat.iter n f x).
Proof. induction m as [|m IH]; [reflexivity|]. change (f (Nat.iter (m + n) f x) = f (Nat.iter m f (Nat.iter n f x))). now rewrite IH. Qed.

Section Runs.
  Context {N : Type} {EN : EqB N}.
  Variable g : graph N.
  Hypothesis WF : wf_graph g.

  Inductive walks (tree : list N) : dict N (option N) -> N -> list (N * nat) -> dict N (option N) -> Prop :=
  | walks_stop : forall next u, In u tree -> walks tree next u [] next
  | walks_step : forall next u w v tr next', ~ In u tree -> choice w (neighbors g u) = Ok v ->
      walks tree (dset next u (Some v)) v tr next' -> walks tree next u ((u, w) :: tr) next'.
  Inductive grows : list N -> dict N (option N) -> list N -> list (N * nat) -> list N -> dict N (option N) -> Prop :=
  | grows_nil : forall tree next, grows tree next [] [] tree next
  | grows_cons : forall tree next u nodes t1 next1 tree1 t2 tree2 next2, walks tree next u t1 next1 ->
      retrace (S (List.length (g_nodes g))) tree next1 u = Ok tree1 -> grows tree1 next1 nodes t2 tree2 next2 ->
      grows tree next (u :: nodes) (t1 ++ t2) tree2 next2.

  (** ** Traces and the model *)
  Definition drawn (draws : nat -> nat) (i : nat) (tr : list (N * nat)) : Prop :=
    forall j p, nth_error tr j = Some p -> snd p = draws (i + j).
  Lemma drawn_cons draws i p tr : drawn draws i (p :: tr) <-> snd p = draws i /\ drawn draws (S i) tr.
  Proof.
    split.
    - intro H. split; [rewrite (H 0 p eq_refl); now rewrite Nat.add_0_r|]. intros j q Hj. rewrite (H (S j) q Hj). f_equal. lia.
    - intros [H1 H2] [|j] q Hj; cbn in Hj.
      + injection Hj as <-. now rewrite Nat.add_0_r.
      + rewrite (H2 j q Hj). f_equal. lia.
  Qed.
  Lemma drawn_app draws i t1 t2 : drawn draws i (t1 ++ t2) <-> drawn draws i t1 /\ drawn draws (i + List.length t1) t2.
  Proof.
    revert i. induction t1 as [|p t1 IH]; intro i; cbn [app List.length].
    - rewrite Nat.add_0_r. split; [intro H; split; auto; intros [|?] ? X; discriminate X|tauto].
    - rewrite !drawn_cons, IH. replace (i + S (List.length t1)) with (S i + List.length t1) by lia. tauto.
  Qed.
  Lemma walk_walks draws tree fuel : forall i next u j next', walk fuel g draws i tree next u = Ok (j, next') ->
    exists tr, walks tree next u tr next' /\ j = i + List.length tr /\ drawn draws i tr.
  Proof.
    induction fuel as [|fuel IH]; intros i next u j next'; cbn [walk]; destruct (mem_spec u tree) as [Hm|Hm]; intro H.
    - injection H as <- <-. exists []. split; [now constructor|]. split; [cbn; lia|]. intros [|?] ? X; discriminate X.
    - discriminate H.
    - injection H as <- <-. exists []. split; [now constructor|]. split; [cbn; lia|]. intros [|?] ? X; discriminate X.
    - destruct (choice (draws i) (neighbors g u)) as [v|e|] eqn:Ev; try discriminate H. cbn [bind] in H.
      destruct (IH _ _ _ _ _ H) as (tr & Hw & -> & Hd). exists ((u, draws i) :: tr). split; [econstructor; eauto|].
      split; [cbn; lia|]. now apply drawn_cons.
  Qed.
  Lemma walks_walk draws tree next u tr next' : walks tree next u tr next' -> forall fuel i, drawn draws i tr ->
    List.length tr <= fuel -> walk fuel g draws i tree next u = Ok (i + List.length tr, next').
  Proof.
    induction 1 as [next u Hu|next u w v tr next' Hu Ev Hw IH]; intros fuel i Hd Hf.
    - cbn [List.length]. rewrite Nat.add_0_r. destruct fuel; cbn [walk]; now rewrite (proj2 (mem_In _ _) Hu).
    - destruct fuel as [|fuel]; [cbn in Hf; lia|]. cbn [walk]. rewrite (proj2 (mem_notIn _ _) Hu).
      apply drawn_cons in Hd. destruct Hd as [Hd1 Hd2]. cbn [snd] in Hd1. rewrite <- Hd1, Ev. cbn [bind].
      rewrite (IH fuel (S i) Hd2); [f_equal; f_equal; cbn; lia|cbn in Hf; lia].
  Qed.
  Lemma grow_grows draws fuel nodes : forall i tree next j tree' next', grow fuel g draws i tree next nodes = Ok (j, (tree', next')) ->
    exists tr, grows tree next nodes tr tree' next' /\ j = i + List.length tr /\ drawn draws i tr.
  Proof.
    induction nodes as [|u nodes IH]; intros i tree next j tree' next' H.
    - cbn in H. injection H as <- <- <-. exists []. split; [constructor|]. split; [cbn; lia|]. intros [|?] ? X; discriminate X.
    - cbn [grow] in H. destruct (walk fuel g draws i tree next u) as [[i1 next1]|e|] eqn:Ew; try discriminate H. cbn [bind fst snd] in H.
      destruct (retrace (S (List.length (g_nodes g))) tree next1 u) as [tree1|e|] eqn:Er; try discriminate H. cbn [bind] in H.
      destruct (walk_walks _ _ _ _ _ _ _ _ Ew) as (t1 & W1 & -> & D1). destruct (IH _ _ _ _ _ _ H) as (t2 & G2 & -> & D2).
      exists (t1 ++ t2). split; [econstructor; eauto|]. split; [rewrite app_length; lia|]. now apply drawn_app.
  Qed.
  Lemma grows_grow draws tree next nodes tr tree' next' : grows tree next nodes tr tree' next' -> forall fuel i, drawn draws i tr ->
    List.length tr <= fuel -> grow fuel g draws i tree next nodes = Ok (i + List.length tr, (tree', next')).
  Proof.
    induction 1 as [tree next|tree next u nodes t1 next1 tree1 t2 tree2 next2 W1 Er G2 IH]; intros fuel i Hd Hf.
    - cbn. now rewrite Nat.add_0_r.
    - apply drawn_app in Hd. destruct Hd as [D1 D2]. rewrite app_length in *. cbn [grow].
      rewrite (walks_walk _ _ _ _ _ _ W1 fuel i D1) by lia. cbn [bind fst snd]. rewrite Er. cbn [bind].
      rewrite (IH fuel _ D2) by lia. now rewrite Nat.add_assoc.
  Qed.
  (** The trace is determined by the draws in order. *)
  Lemma walks_det tree next u t1 n1 : walks tree next u t1 n1 -> forall t2 n2 l1 l2, walks tree next u t2 n2 ->
    map snd t1 ++ l1 = map snd t2 ++ l2 -> t1 = t2 /\ n1 = n2 /\ l1 = l2.
  Proof.
    induction 1 as [next u Hu|next u w v tr next' Hu Ev Hw IH]; intros t2 n2 l1 l2 H2 E; inversion H2 as [? ? Hu2|? ? w2 v2 tr2 next2 Hu2 Ev2 Hw2]; subst; try contradiction.
    - auto.
    - cbn in E. injection E as -> E. assert (v2 = v) by congruence. subst v2. destruct (IH _ _ _ _ Hw2 E) as (-> & -> & ->). auto.
  Qed.
  Lemma grows_det tree next nodes t1 tr1 n1 : grows tree next nodes t1 tr1 n1 -> forall t2 tr2 n2 l1 l2, grows tree next nodes t2 tr2 n2 ->
    map snd t1 ++ l1 = map snd t2 ++ l2 -> t1 = t2 /\ tr1 = tr2 /\ n1 = n2 /\ l1 = l2.
  Proof.
    induction 1 as [tree next|tree next u nodes t1 next1 tree1 t2 tree2 next2 W1 Er G2 IH]; intros t' tr' n' l1 l2 H' E; inversion H' as [|? ? ? ? t3 next3 tree3 t4 tree4 next4 W3 Er3 G4]; subst.
    - auto.
    - rewrite !map_app, <- !app_assoc in E. destruct (walks_det _ _ _ _ _ W1 _ _ _ _ W3 E) as (-> & -> & E2).
      assert (tree3 = tree1) by congruence. subst. destruct (IH _ _ _ _ _ G4 E2) as (-> & -> & -> & ->). auto.
  Qed.

  (** ** Reading the draws from stacks *)
  Definition bump (d : N -> nat) (x : N) : N -> nat := fun y => d y + (if eqb y x then 1 else 0).
  Fixpoint reads (W : N -> nat -> nat) (d : N -> nat) (tr : list (N * nat)) : Prop :=
    match tr with [] => True | p :: t => W (fst p) (d (fst p)) = snd p /\ reads W (bump d (fst p)) t end.
  Fixpoint after (d : N -> nat) (tr : list (N * nat)) : N -> nat :=
    match tr with [] => d | p :: t => after (bump d (fst p)) t end.
  Lemma reads_app W t1 t2 : forall d, reads W d (t1 ++ t2) <-> reads W d t1 /\ reads W (after d t1) t2.
  Proof. induction t1 as [|p t1 IH]; intro d; cbn; [tauto|]. rewrite IH. tauto. Qed.
  Lemma after_app t1 t2 : forall d, after d (t1 ++ t2) = after (after d t1) t2.
  Proof. induction t1 as [|p t1 IH]; intro d; cbn; auto. Qed.
  Lemma after_ge t : forall d x, d x <= after d t x.
  Proof. induction t as [|p t IH]; intros d x; cbn; auto. specialize (IH (bump d (fst p)) x). unfold bump in IH at 1. lia. Qed.
  Lemma walks_same W tree next u t1 n1 : walks tree next u t1 n1 -> forall d t2 n2, walks tree next u t2 n2 ->
    reads W d t1 -> reads W d t2 -> t1 = t2 /\ n1 = n2.
  Proof.
    induction 1 as [next u Hu|next u w v tr next' Hu Ev Hw IH]; intros d t2 n2 H2 R1 R2; inversion H2 as [? ? Hu2|? ? w2 v2 tr2 next2 Hu2 Ev2 Hw2]; subst; try contradiction.
    - auto.
    - cbn in R1, R2. destruct R1 as [E1 R1], R2 as [E2 R2]. assert (w2 = w) by congruence. subst w2.
      assert (v2 = v) by congruence. subst v2. destruct (IH _ _ _ Hw2 R1 R2) as (-> & ->). split; congruence.
  Qed.
  Lemma grows_same W tree next nodes t1 tr1 n1 : grows tree next nodes t1 tr1 n1 -> forall d t2 tr2 n2, grows tree next nodes t2 tr2 n2 ->
    reads W d t1 -> reads W d t2 -> t1 = t2 /\ tr1 = tr2 /\ n1 = n2.
  Proof.
    induction 1 as [tree next|tree next u nodes t1 next1 tree1 t2 tree2 next2 W1 Er G2 IH]; intros d t' tr' n' H' R1 R2; inversion H' as [|? ? ? ? t3 next3 tree3 t4 tree4 next4 W3 Er3 G4]; subst.
    - auto.
    - apply reads_app in R1, R2. destruct R1 as [R1 R1'], R2 as [R2 R2'].
      destruct (walks_same W _ _ _ _ _ W1 _ _ _ W3 R1 R2) as (-> & ->).
      assert (tree3 = tree1) by congruence. subst. destruct (IH _ _ _ _ G4 R1' R2') as (-> & -> & ->). auto.
  Qed.

  (** The draws of one node in a trace. *)
  Definition drawsat (x : N) (tr : list (N * nat)) : list nat := map snd (filter (fun p => eqb x (fst p)) tr).
  Lemma after_count tr : forall d x, after d tr x = d x + List.length (drawsat x tr).
  Proof.
    induction tr as [|p tr IH]; intros d x; cbn [after].
    - cbn. lia.
    - rewrite IH. unfold bump, drawsat. cbn [filter]. destruct (eqb x (fst p)); cbn [map List.length]; lia.
  Qed.
  Lemma reads_own W tr : forall d, (forall x j, W x (d x + j) = nth j (drawsat x tr) 0) -> reads W d tr.
  Proof.
    induction tr as [|p tr IH]; intros d H; cbn [reads]; auto. split.
    - rewrite <- (Nat.add_0_r (d (fst p))), H. unfold drawsat. cbn [filter]. now rewrite eqb_refl.
    - apply IH. intros x j. unfold bump. specialize (H x). unfold drawsat in H. cbn [filter] in H. destruct (eqb x (fst p)).
      + specialize (H (S j)). cbn [map nth] in H. unfold drawsat. rewrite <- H. f_equal. lia.
      + specialize (H j). unfold drawsat. rewrite <- H. f_equal. lia.
  Qed.
  Lemma reads_nth W tr : forall d, reads W d tr -> forall x j, j < List.length (drawsat x tr) -> nth j (drawsat x tr) 0 = W x (d x + j).
  Proof.
    induction tr as [|p tr IH]; intros d R x j; cbn [reads] in R; unfold drawsat; cbn [filter]; [cbn; lia|].
    destruct R as [E R]. specialize (IH _ R x). unfold bump in IH. destruct (eqb_spec x (fst p)) as [Ex|Hx].
    - cbn [map List.length]. destruct j as [|j]; cbn [nth]; intro Hj; [now rewrite Nat.add_0_r, Ex|].
      unfold drawsat in IH. rewrite IH by lia. f_equal. lia.
    - intro Hj. unfold drawsat in IH. rewrite IH by exact Hj. f_equal. lia.
  Qed.

  (** ** The popping invariant *)
  Definition step_to (w : nat) (x : N) : N := match choice w (neighbors g x) with Ok v => v | _ => x end.
  Variables (root : N) (W : N -> nat -> nat).
  Definition tops (x : N) (j : nat) : N := step_to (W x j) x.
  Definition reached (k : N -> nat) : Prop := exists m, pops root (g_nodes g) tops m (fun _ => 0) k.

  Record winv (tree : list N) (next : dict N (option N)) (a : N) (l : list N) (u : N) (d k : N -> nat) : Prop := {
    wi_reach : reached k;
    wi_on : forall x, In x l \/ (In x tree /\ x <> root) -> d x = S (k x) /\ dget next x = Some (Some (cur tops k x));
    wi_off : forall x, ~ In x l -> ~ (In x tree /\ x <> root) -> d x = k x;
    wi_trail : trail g next a l u;
    wi_nd : NoDup l;
    wi_u : ~ In u l;
    wi_l : forall x, In x l -> ~ In x tree /\ In x (g_nodes g);
    wi_un : In u (g_nodes g);
    wi_root : In root tree
  }.

  Lemma trail_split2 next x l y v : trail g next x l y -> In v l -> exists l1 l2, l = l1 ++ v :: l2 /\ trail g next x l1 v /\ trail g next v (v :: l2) y.
  Proof using.
    induction 1 as [x|x w l y H1 H2 H3 IH]; intro Hv; [destruct Hv|].
    destruct (eq_dec_of x v) as [->|Hn].
    - exists [], l. split; auto. split; [constructor|]. econstructor; eauto.
    - destruct Hv as [Hv|Hv]; [congruence|]. destruct (IH Hv) as (l1 & l2 & -> & Ht & Ht2). exists (x :: l1), l2. split; auto. split; auto.
      eapply trail_cons; eauto.
  Qed.
  Lemma trail_iter next f x l y : trail g next x l y -> (forall z, In z l -> dget next z = Some (Some (f z))) ->
    (forall z, In z l -> exists n, Nat.iter n f x = z) /\ (exists n, Nat.iter n f x = y) /\
    (forall z, In z l -> exists n, Nat.iter n f z = y) /\ (forall z, In z l -> In (f z) l \/ f z = y).
  Proof using.
    induction 1 as [x|x v l y H1 H2 H3 IH]; intro Hf.
    - split; [intros z []|]. split; [now exists 0|]. split; intros z [].
    - assert (Ev : f x = v) by (rewrite (Hf x (or_introl eq_refl)) in H1; congruence).
      destruct IH as (I1 & (n & I2) & I3 & I4); [intros z Hz; apply Hf; now right|].
      assert (Sh : forall n z, Nat.iter n f v = z -> Nat.iter (S n) f x = z) by (intros n' z Hz; now rewrite iter_succ_r, Ev).
      split; [|split; [|split]].
      + intros z [<-|Hz]; [now exists 0|]. destruct (I1 z Hz) as (n' & Hn'). exists (S n'). auto.
      + exists (S n). auto.
      + intros z [<-|Hz]; [exists (S n); auto|auto].
      + intros z [<-|Hz].
        * rewrite Ev. destruct (trail_head g _ _ _ _ H3) as [H|H]; auto. left. now right.
        * destruct (I4 z Hz); auto. left. now right.
  Qed.

  Lemma winv_step tree next a l u d k v : winv tree next a l u d k -> ~ In u tree ->
    choice (W u (d u)) (neighbors g u) = Ok v ->
    exists l' k', winv tree (dset next u (Some v)) a l' v (bump d u) k'.
  Proof using WF.
    intros I Hu Ev. pose proof I as [IR ION IOFF IT IND IU IL IUN IRT]. set (next1 := dset next u (Some v)).
    assert (Hv : adj g u v). { apply In_neighbors; auto. unfold choice in Ev. destruct (nth_error _ _) eqn:E; [|discriminate Ev]. injection Ev as <-. eapply nth_error_In; eauto. }
    assert (Hvn : In v (g_nodes g)) by (eapply adj_nodes; eauto).
    assert (Du : d u = k u). { apply (wi_off _ _ _ _ _ _ _ I); [apply (wi_u _ _ _ _ _ _ _ I)|tauto]. }
    assert (Cu : cur tops k u = v) by (unfold cur, tops, step_to; now rewrite <- Du, Ev).
    assert (Ht : trail g next1 a (l ++ [u]) v).
    { apply trail_snoc with (y := u); auto; [|apply dget_dset_eq]. apply trail_set; [exact IT|exact IU]. }
    assert (ND : NoDup (l ++ [u])) by (apply NoDup_app_single; [exact IND|exact IU]).
    assert (Hl : forall x, In x (l ++ [u]) -> ~ In x tree /\ In x (g_nodes g)).
    { intros x Hx. apply in_app_iff in Hx. destruct Hx as [Hx|[<-|[]]]; [now apply (wi_l _ _ _ _ _ _ _ I)|split; auto]. }
    assert (On : forall x, In x (l ++ [u]) \/ (In x tree /\ x <> root) -> bump d u x = S (k x) /\ dget next1 x = Some (Some (cur tops k x))).
    { intros x Hx. unfold bump, next1. destruct (eqb_spec x u) as [->|Hxu].
      - rewrite dget_dset_eq, Cu, Du. split; auto. lia.
      - rewrite dget_dset_neq by congruence. rewrite Nat.add_0_r. apply (wi_on _ _ _ _ _ _ _ I).
        destruct Hx as [Hx|Hx]; auto. apply in_app_iff in Hx. destruct Hx as [Hx|[Hx|[]]]; auto. congruence. }
    assert (Off : forall x, ~ In x (l ++ [u]) -> ~ (In x tree /\ x <> root) -> bump d u x = k x).
    { intros x H1 H2. rewrite in_app_iff in H1. unfold bump. destruct (eqb_spec x u) as [->|Hxu]; [elim H1; right; now left|].
      rewrite Nat.add_0_r. apply (wi_off _ _ _ _ _ _ _ I); tauto. }
    destruct (In_dec_of v (l ++ [u])) as [Hin|Hin].
    - destruct (trail_split2 next1 a (l ++ [u]) v v Ht Hin) as (l1 & l2 & El & T1 & T2).
      set (C := v :: l2) in *. exists l1, (fun x => k x + (if mem x C then 1 else 0)).
      rewrite El in ND, Hl, On, Off.
      assert (DC : forall x, In x l1 -> ~ In x C) by (intros x H1 H2; eapply nodup_app_disj; eauto).
      assert (NC : forall x, In x tree -> ~ In x C) by (intros x H1 H2; apply (Hl x); [apply in_app_iff; auto|auto]).
      destruct (trail_iter next1 (cur tops k) v C v T2) as (I1 & _ & I3 & I4). { intros z Hz. apply On. left. apply in_app_iff. auto. }
      assert (Cy : cycle root (g_nodes g) (cur tops k) C).
      { constructor.
        - discriminate.
        - apply NC, IRT.
        - intros x Hx. apply Hl, in_app_iff. auto.
        - intros x Hx. destruct (I4 x Hx) as [H| ->]; auto. now left.
        - intros x y Hx Hy. destruct (I3 x Hx) as (n & Hn), (I1 y Hy) as (m & Hm). exists (m + n). now rewrite iter_add, Hn. }
      constructor; auto.
      + destruct (wi_reach _ _ _ _ _ _ _ I) as (m & Hm). exists (S m). eapply pops_snoc; [exact Hm|]. split; [exact Cy|reflexivity].
      + intros x Hx. assert (E : mem x C = false) by (apply mem_notIn; destruct Hx as [Hx|[Hx _]]; auto). unfold cur. rewrite E, Nat.add_0_r. apply On.
        destruct Hx; auto. left. apply in_app_iff. auto.
      + intros x H1 H2. destruct (mem_spec x C) as [Hc|Hc].
        * rewrite (proj1 (On x (or_introl (proj2 (in_app_iff _ _ _) (or_intror Hc))))). lia.
        * rewrite Nat.add_0_r. apply Off; auto. rewrite in_app_iff. tauto.
      + now apply nodup_app_l in ND.
      + intro H. apply (DC v H). now left.
      + intros x Hx. apply Hl, in_app_iff. auto.
    - exists (l ++ [u]), k. constructor; auto.
  Qed.

  Lemma winv_walks tree a next u tr next' : walks tree next u tr next' -> forall l d k, winv tree next a l u d k -> reads W d tr ->
    exists l' y k', winv tree next' a l' y (after d tr) k' /\ In y tree /\ (forall x, In x tree -> dget next' x = dget next x).
  Proof using WF.
    induction 1 as [next u Hu|next u w v tr next' Hu Ev Hw IH]; intros l d k I R.
    - exists l, u, k. auto.
    - cbn [reads fst snd] in R. destruct R as [E R]. subst w. destruct (winv_step _ _ _ _ _ _ _ _ I Hu Ev) as (l1 & k1 & I1).
      destruct (IH l1 _ k1 I1 R) as (l' & y & k' & I' & Hy & Keep). exists l', y, k'. split; [exact I'|]. split; auto.
      intros x Hx. rewrite Keep by auto. apply dget_dset_neq. intros ->. contradiction.
  Qed.

  (** Between two walks. *)
  Record binv (tree : list N) (next : dict N (option N)) (d k : N -> nat) (es : list (N * N)) : Prop := {
    bi_reach : reached k;
    bi_on : forall x, In x tree -> x <> root -> d x = S (k x) /\ dget next x = Some (Some (cur tops k x));
    bi_off : forall x, ~ (In x tree /\ x <> root) -> d x = k x;
    bi_grown : grown g root tree next es
  }.
  Lemma binv_root tree next d k es : binv tree next d k es -> In root tree.
  Proof using. intro B. apply (gr_nodes _ _ _ _ _ (bi_grown _ _ _ _ _ B)). now left. Qed.
  Lemma binv_start tree next d k es u : binv tree next d k es -> In u (g_nodes g) -> winv tree next u [] u d k.
  Proof using.
    intros B Hu. constructor; auto.
    - apply (bi_reach _ _ _ _ _ B).
    - intros x [[]|[H1 H2]]. now apply (bi_on _ _ _ _ _ B).
    - intros x _. apply (bi_off _ _ _ _ _ B).
    - constructor.
    - constructor.
    - intros x [].
    - now apply (binv_root _ _ _ _ _ B).
  Qed.
  Lemma binv_walks tree next d k es u t1 next1 : binv tree next d k es -> In u (g_nodes g) -> walks tree next u t1 next1 -> reads W d t1 ->
    exists tree1 k1 es1, retrace (S (List.length (g_nodes g))) tree next1 u = Ok tree1 /\ binv tree1 next1 (after d t1) k1 es1 /\
      In u tree1 /\ incl tree tree1.
  Proof using WF.
    intros B Hu Hw R. destruct (winv_walks _ u _ _ _ _ Hw [] d k (binv_start _ _ _ _ _ _ B Hu) R) as (l & y & k1 & I & Hy & Keep).
    pose proof I as [IR ION IOFF IT IND IU IL IUN IRT]. exists (tree ++ l), k1.
    destruct (grown_trail g root tree next next1 es u l y (bi_grown _ _ _ _ _ B) Keep (wi_trail _ _ _ _ _ _ _ I) Hy (wi_nd _ _ _ _ _ _ _ I) (wi_l _ _ _ _ _ _ _ I)) as (es1 & G1).
    exists es1. split; [|split; [|split]].
    - apply (retrace_spec g next1 u l y (wi_trail _ _ _ _ _ _ _ I)); auto.
      + intros x Hx. now apply (wi_l _ _ _ _ _ _ _ I).
      + assert (X : incl l (g_nodes g)) by (intros x Hx; now apply (wi_l _ _ _ _ _ _ _ I)). apply NoDup_incl_length in X; [lia|exact IND].
    - constructor; auto.
      + intros x Hx Hr. apply (wi_on _ _ _ _ _ _ _ I). apply in_app_iff in Hx. tauto.
      + intros x Hx. rewrite in_app_iff in Hx. destruct (eq_dec_of x root) as [->|Hr].
        * apply (wi_off _ _ _ _ _ _ _ I); [|tauto]. intro H. apply (wi_l _ _ _ _ _ _ _ I) in H. destruct H as [H _]. now apply H.
        * apply (wi_off _ _ _ _ _ _ _ I); tauto.
    - apply in_app_iff. destruct (trail_head g _ _ _ _ (wi_trail _ _ _ _ _ _ _ I)) as [H| ->]; auto.
    - intros x Hx. apply in_app_iff. auto.
  Qed.
  Lemma binv_grows tree next nodes tr tree' next' : grows tree next nodes tr tree' next' -> forall d k es, binv tree next d k es ->
    incl nodes (g_nodes g) -> reads W d tr ->
    exists k' es', binv tree' next' (after d tr) k' es' /\ incl nodes tree' /\ incl tree tree'.
  Proof using WF.
    induction 1 as [tree next|tree next u nodes t1 next1 tree1 t2 tree2 next2 W1 Er G2 IH]; intros d k es B Hn R.
    - exists k, es. split; [exact B|]. split; [intros x []|]. now intros x.
    - apply reads_app in R. destruct R as [R1 R2].
      destruct (binv_walks _ _ _ _ _ _ _ _ B (Hn u (or_introl eq_refl)) W1 R1) as (tree1' & k1 & es1 & Er' & B1 & Hu & Inc).
      assert (tree1' = tree1) by congruence. subst tree1'.
      destruct (IH _ _ _ B1) as (k' & es' & B' & H1 & H2); auto. { intros x Hx. apply Hn. now right. }
      exists k', es'. rewrite after_app. split; auto. split; [intros x [<-|Hx]; auto|]. intros x Hx. auto.
  Qed.
  Lemma binv_init : In root (g_nodes g) -> binv [root] [(root, None)] (fun _ => 0) (fun _ => 0) [].
  Proof using.
    intro Hr. constructor.
    - exists 0. now constructor.
    - intros x [<-|[]] H. now elim H.
    - auto.
    - constructor.
      + constructor.
      + repeat constructor. intros [].
      + intro x. cbn. tauto.
      + intros x [<-|[]]. exact Hr.
      + cbn. now rewrite eqb_refl.
      + intros p c [].
  Qed.
  (** When every node is in the tree the current successors have no cycle. *)
  Lemma rooted_acyclic (f : N -> N) es : rooted root es -> (forall p c, In (p, c) es -> f c = p) -> (forall x, In x (g_nodes g) -> In x (nodes_of root es)) ->
    acyclic root (g_nodes g) f.
  Proof using.
    intros R Hf Hall C Cy. assert (X : forall es0 rest, es = es0 ++ rest -> rooted root es0 -> forall x, In x (nodes_of root es0) -> ~ In x C).
    { intros es0 rest E R0. revert rest E. induction R0 as [|es0 p c R0 IH Hp Hc]; intros rest E x Hx.
      - destruct Hx as [<-|[]]. apply Cy.
      - rewrite nodes_snoc, in_app_iff in Hx. rewrite <- app_assoc in E.
        destruct Hx as [Hx|[<-|[]]]; [now apply (IH _ E)|]. intro H. apply (cy_closed _ _ _ _ Cy) in H.
        rewrite (Hf p c) in H; [now apply (IH _ E p Hp)|]. rewrite E. apply in_app_iff. right. now left. }
    destruct C as [|x C'] eqn:EC; [now elim (cy_some _ _ _ _ Cy)|]. apply (X es [] (eq_sym (app_nil_r es)) R x); [|now left].
    apply Hall, (cy_in _ _ _ _ Cy). now left.
  Qed.
  Lemma binv_acyclic tree next d k es : binv tree next d k es -> incl (g_nodes g) tree -> acyclic root (g_nodes g) (cur tops k).
  Proof using.
    intros B Hall. apply rooted_acyclic with es; [apply (gr_rooted _ _ _ _ _ (bi_grown _ _ _ _ _ B))| |].
    - intros p c H. destruct (gr_next _ _ _ _ _ (bi_grown _ _ _ _ _ B) p c H) as [H1 _].
      assert (R := gr_rooted _ _ _ _ _ (bi_grown _ _ _ _ _ B)). destruct (parent_in root es p c R H) as (_ & H2 & H3).
      destruct (bi_on _ _ _ _ _ B c) as [_ H4]; [|exact H3|congruence].
      apply (gr_nodes _ _ _ _ _ (bi_grown _ _ _ _ _ B)). now right.
    - intros x Hx. apply (gr_nodes _ _ _ _ _ (bi_grown _ _ _ _ _ B)). auto.
  Qed.
End Runs.
