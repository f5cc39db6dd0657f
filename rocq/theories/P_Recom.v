(** C46-C48: recom and reversible_recom. *)
From Coq Require Import String List Bool Arith ZArith QArith Qabs Lqa Lia ZifyBool ZifyNat.
From Verif Require Import Base M_Graph M_Partition S_Partition L_Partition M_Machine S_Machine L_Sums
  L_Cuts L_Machine L_Answers S_Contiguity L_Search P_Partition P_Machine M_Election L_Order M_Proposals S_Proposals
  M_Tree S_Tree S_TreeCuts L_Tree P_Tree P_Contiguity P_Spanning P_Proposals P_Bipartition M_Recursive P_Recursive M_Recom.
Import ListNotations.
Local Open Scope nat_scope.
Local Open Scope list_scope.

Section Spec.
  Context {N P : Type} {EN : EqB N} {EP : EqB P}.
  (** Some edge of the graph joins districts [p] and [q]. *)
  Definition adjacent (g : graph N) (A : assignment N P) (p q : P) : Prop :=
    exists u v, adj g u v /\ district A u = Some p /\ district A v = Some q.
  (** [A'] is [A] with the nodes of [p] and [q] redistributed between [p] and
      [q]. *)
  Definition redrawn (A : assignment N P) (p q : P) (A' : assignment N P) : Prop :=
    (forall x, district A x <> Some p -> district A x <> Some q -> district A' x = district A x) /\
    (forall x, district A x = Some p \/ district A x = Some q -> district A' x = Some p \/ district A' x = Some q).
  (** A stream of draws that hits every position of every sequence again and
      again. *)
  Definition fair (draws : nat -> nat) : Prop :=
    forall n i b, i < n -> exists k, b <= k /\ draws k mod n = i.
End Spec.

Section Recom.
  Context {N P V L : Type} {EN : EqB N} {EP : EqB P} {EL : EqB L} {ON : Ord N} {OP : Ord P} {RV : CRing V}.
  Variable E : env N P V L.
  Notation g := (e_graph E).
  Variable pop : dict N Z.
  Hypothesis Hpop : covers pop g.
  Implicit Types (A : assignment N P) (h : heap N P V L) (o : pobj N P V L) (a : nat).

  Lemma dget_restrict s n : dget (restrict pop s) n = if mem n s then dget pop n else None.
  Proof.
    clear Hpop. unfold restrict. induction pop as [|[k v] d IH]; cbn [filter dget fst]; [now destruct (mem n s)|].
    destruct (eqb_spec n k) as [->|Nk].
    - destruct (mem k s) eqn:Ek; cbn [dget]; [now rewrite eqb_refl|exact IH].
    - destruct (mem k s) eqn:Ek; cbn [dget]; [destruct (eqb_spec n k); [contradiction|]|]; exact IH.
  Qed.
  Lemma covers_restrict s : incl s (g_nodes g) -> covers (restrict pop s) (subgraph g s).
  Proof.
    intro I. destruct Hpop as [K1 K2]. split.
    - unfold restrict. clear - K1. induction pop as [|[k v] d IH]; cbn [filter fst]; [constructor|]. inversion K1 as [|? ? H1 H2]; subst.
      destruct (mem k s); auto. cbn [dkeys map fst]. constructor; auto. intro X. apply H1. apply in_map_iff in X. destruct X as ([k' v'] & X1 & X2). cbn in X1. subst k'.
      apply filter_In in X2. apply in_map_iff. exists (k, v'). tauto.
    - intro n. rewrite dget_In_keys, subgraph_nodes. rewrite dget_restrict. destruct (mem n s) eqn:Em.
      + apply mem_In in Em. rewrite <- dget_In_keys, K2. tauto.
      + apply mem_notIn in Em. split; [intros (v & X); discriminate|tauto].
  Qed.
  Lemma popn_restrict s n : In n s -> popn (restrict pop s) n = popn pop n.
  Proof. intro H. unfold popn, dget_or. rewrite dget_restrict. now rewrite (proj2 (mem_In n s) H). Qed.

  Section Plan.
    Variables (h : heap N P V L) (a : nat) (o : pobj N P V L).
    Hypothesis S : session E h.
    Hypothesis Ho : nth_error h a = Some o.
    Notation A := (o_assign o).
    Let C : coherent (g_nodes g) A := Coh E h a o S Ho.
    Let WF : wf_graph g := P_Proposals.wfg E h S.

    Lemma merged_ok p q : In p (labels A) -> In q (labels A) ->
      exists nodes, merged A p q = Ok nodes /\ NoDup nodes /\ (forall n, In n nodes <-> district A n = Some p \/ district A n = Some q).
    Proof.
      intros Hp Hq. apply dget_In_keys in Hp, Hq. destruct Hp as (s1 & E1), Hq as (s2 & E2).
      exists (sunion s1 s2). unfold merged. rewrite E1, E2. cbn [of_option bind]. split; auto. split.
      - apply NoDup_sunion. apply (coh_parts_nodup _ _ C p s1 E1).
      - intro n. rewrite In_sunion, !(coh_agree _ _ C). unfold listed. split.
        + intros [H|H]; [left|right]; eauto.
        + intros [(s & H1 & H2)|(s & H1 & H2)]; [left|right]; congruence.
    Qed.
    Lemma sorted_pair_spec (p q : P) : let s := sorted_pair p q in
      leb (fst s) (snd s) = true /\ (s = (p, q) \/ s = (q, p)).
    Proof. unfold sorted_pair. destruct (leb p q) eqn:X; cbn; split; auto. destruct (leb_total p q) as [Y|Y]; congruence. Qed.
    Lemma label_of n p : district A n = Some p -> In p (labels A).
    Proof. intro H. eapply district_node; [apply C|exact H]. Qed.
    Lemma adjacent_sym p q : adjacent g A p q -> adjacent g A q p.
    Proof. intros (u & v & H1 & H2 & H3). exists v, u. split; auto. unfold adj in *. tauto. Qed.

    (** One round of the loop. *)
    Lemma round (cuts : list (N * N)) r (X : Type) (K : P * P -> res X) : (forall e, In e cuts -> S_Machine.cut_edge g A e) -> cuts <> [] ->
      exists p q, p <> q /\ leb p q = true /\ adjacent g A p q /\
        (edge <- choice r cuts ;; x <- part_of A (fst edge) ;; y <- part_of A (snd edge) ;; K (sorted_pair x y)) = K (p, q).
    Proof.
      intros Hc Hne. destruct (choice_ok r cuts Hne) as (e & Ee & He). apply Hc in He. rewrite Ee. cbn [bind].
      destruct He as (_ & Ad & Dn). destruct (adj_node E h S _ _ Ad) as [N1 N2].
      destruct (part_ok E h a o S Ho _ N1) as (x & E1 & D1 & _). destruct (part_ok E h a o S Ho _ N2) as (y & E2 & D2 & _).
      rewrite E1, E2. cbn [bind]. assert (Nxy : x <> y) by congruence.
      assert (Axy : adjacent g A x y) by (exists (fst e), (snd e); auto).
      destruct (sorted_pair_spec x y) as [Lb [Sp|Sp]]; rewrite Sp in *; cbn [fst snd] in Lb.
      - exists x, y. auto.
      - exists y, x. split; auto. split; auto. split; [now apply adjacent_sym|auto].
    Qed.

    (** Setting the result of a split. *)
    Lemma split_flip h1 p q nodes f : session E h1 -> kept h h1 -> p <> q -> In p (labels A) -> In q (labels A) ->
      (forall n, In n nodes <-> district A n = Some p \/ district A n = Some q) ->
      NoDup (dkeys f) -> (forall n, In n (dkeys f) <-> In n nodes) -> (forall n x, dget f n = Some x -> x = p \/ x = q) ->
      exists b h2 o', flip E a f h1 = (Ok b, h2) /\ session E h2 /\ kept h h2 /\ nth_error h2 b = Some o' /\ o_parent o' = Some a /\
        redrawn A p q (o_assign o') /\ (forall n x, x = p \/ x = q -> district (o_assign o') n = Some x <-> dget f n = Some x).
    Proof.
      intros S1 K Npq Lp Lq Hn ND Keys Lab. destruct (K a o Ho) as (o1 & H1 & E1 & _).
      destruct (flip_ok E h1 a o1 f S1 H1 ND) as (o' & F1 & F2 & F3 & _ & F4 & F5 & F6).
      { intros n x Hx. assert (Hk : In n nodes) by (apply Keys, dget_In_keys; eauto). apply Hn in Hk. split.
        - apply (coh_dom _ _ C). destruct Hk as [Hk|Hk]; eapply dget_Some_key; exact Hk.
        - rewrite E1. destruct (Lab n x Hx) as [-> | ->]; auto. }
      rewrite E1 in F4. exists (List.length h1), (h1 ++ [o']), o'. split; auto. split; auto. split; [eapply kept_trans; [exact K|apply kept_app]|].
      split; auto. split; auto. split; [split|].
      - intros x X1 X2. rewrite F4. destruct (dget f x) as [y|] eqn:Ey; auto. exfalso.
        assert (Hk : In x nodes) by (apply Keys, dget_In_keys; eauto). apply Hn in Hk. tauto.
      - intros x X. apply Hn, Keys, dget_In_keys in X. destruct X as (y & Ey). rewrite F4, Ey. destruct (Lab x y Ey) as [-> | ->]; auto.
      - intros n x Hx. rewrite F4. destruct (dget f n) as [y|] eqn:Ey; [reflexivity|]. split; [|discriminate]. intro D. exfalso.
        assert (Hk : In n nodes) by (apply Hn; destruct Hx; subst x; auto). apply Keys, dget_In_keys in Hk. destruct Hk as (y & Ey'). congruence.
    Qed.

    Variables (method : @method_fn N) (draws : nat -> nat) (t e : Q).
    Lemma loop_ok cuts n : (forall x, In x cuts -> S_Machine.cut_edge g A x) -> forall fuel bad k j f,
      recom_loop E pop method draws t e fuel A cuts n bad k j = Ok f ->
      exists p q nodes j, p <> q /\ adjacent g A p q /\ merged A p q = Ok nodes /\
        epsilon_tree_bipartition (fun _ => method j) (restrict pop nodes) (subgraph g nodes) [p; q] t e = Ok f.
    Proof.
      intro Hc. induction fuel as [|fuel IH]; intros bad k j f H; cbn [recom_loop] in H; [discriminate|].
      destruct (Nat.ltb (2 * List.length bad) (n * (n - 1))); [|discriminate].
      destruct cuts as [|e0 cuts]; [rewrite choice_nil in H; discriminate|].
      destruct (round (e0 :: cuts) (draws k) _ (fun pair =>
          if mem pair bad then recom_loop E pop method draws t e fuel A (e0 :: cuts) n bad (Datatypes.S k) j
          else nodes <- merged A (fst pair) (snd pair) ;;
            match epsilon_tree_bipartition (fun _ => method j) (restrict pop nodes) (subgraph g nodes) [fst pair; snd pair] t e with
            | Err ReselectException => recom_loop E pop method draws t e fuel A (e0 :: cuts) n (sadd pair bad) (Datatypes.S k) (Datatypes.S j)
            | r => r
            end) Hc ltac:(discriminate)) as (p & q & Npq & Lpq & Ad & Er).
      cbn zeta in H. rewrite Er in H. clear Er. cbn [fst snd] in H.
      destruct (mem (p, q) bad); [eapply IH; eauto|].
      destruct (merged A p q) as [nodes| |] eqn:Em; try discriminate. cbn [bind] in H.
      destruct (epsilon_tree_bipartition _ _ _ _ _ _) as [f'|x|] eqn:Ee.
      - injection H as <-. exists p, q, nodes, j. auto.
      - destruct x; try discriminate. eapply IH; eauto.
      - discriminate.
    Qed.

    Hypothesis Hu : dget (e_updaters E) "cut_edges"%string = Some UCutEdges.
    Notation n_parts := (List.length (a_parts A)).
    Lemma recom_start : exists cuts h1,
      session E h1 /\ kept h h1 /\ (forall x, In x cuts -> S_Machine.cut_edge g A x) /\
      (0 < n_parts * (n_parts - 1) -> forall x, S_Machine.cut_edge g A x -> In x cuts) /\
      forall fuel, recom E pop method draws t e fuel a h =
        bindM (lift (recom_loop E pop method draws t e fuel A cuts n_parts [] 0 0)) (fun f => flip E a f) h1.
    Proof.
      unfold recom. destruct (Nat.ltb_spec 0 (n_parts * (n_parts - 1))) as [Hn|Hn].
      - destruct (cuts_ok E h a o S Ho Hu) as (s & h1 & Hc & ND & Sp & S' & K). exists s, h1.
        split; auto. split; auto. split; [intros x; apply Sp|]. split; [intros _ x; apply Sp|]. intro fuel.
        rewrite (get_bind h a o) by exact Ho. cbn zeta. rewrite (proj2 (Nat.ltb_lt _ _) Hn). now rewrite (bindM_ok _ _ _ _ _ Hc).
      - exists [], h. split; auto. split; [apply kept_refl|]. split; [intros x []|]. split; [lia|]. intro fuel.
        rewrite (get_bind h a o) by exact Ho. cbn zeta. rewrite (proj2 (Nat.ltb_ge _ _) Hn). reflexivity.
    Qed.

    (** C46.  Whatever recom returns is a new plan that only redraws two
        adjacent districts; both are balanced, and connected if the method's
        sides are. *)
    Theorem C46_sound fuel b h' :
      recom E pop method draws t e fuel a h = (Ok b, h') ->
      exists o' p q, session E h' /\ nth_error h' b = Some o' /\ o_parent o' = Some a /\
        p <> q /\ adjacent g A p q /\ redrawn A p q (o_assign o') /\
        balanced_set (popn pop) t e (fun n => district (o_assign o') n = Some p) /\
        balanced_set (popn pop) t e (fun n => district (o_assign o') n = Some q) /\
        (inside method -> splits_connected method ->
         connected_on g (fun n => district (o_assign o') n = Some p) /\
         connected_on g (fun n => district (o_assign o') n = Some q)).
    Proof.
      intro H. destruct recom_start as (cuts & h1 & S1 & K & Hc & _ & Er). rewrite Er in H. clear Er.
      destruct (recom_loop _ _ _ _ _ _ _ _ _ _ _ _ _) as [f|x|] eqn:El; try discriminate.
      destruct (loop_ok cuts _ Hc _ _ _ _ _ El) as (p & q & nodes & j & Npq & Ad & Em & Ee).
      assert (LL : In p (labels A) /\ In q (labels A)).
      { destruct Ad as (u & v & _ & D1 & D2). split; eapply label_of; eauto. }
      destruct LL as [Lp Lq]. destruct (merged_ok p q Lp Lq) as (nodes' & Em' & NDn & Hn). assert (nodes' = nodes) by congruence. subst nodes'.
      assert (In_ : incl nodes (g_nodes g)).
      { intros n X. apply Hn in X. apply (coh_dom _ _ C). destruct X as [X|X]; eapply dget_Some_key; exact X. }
      assert (Cov := covers_restrict nodes In_). assert (WFs : wf_graph (subgraph g nodes)) by now apply wf_subgraph.
      assert (G := C55_sound _ _ _ p q t e f WFs Cov Npq Ee). destruct G as [G1 G2 G3 G4].
      assert (Keys : forall n, In n (dkeys f) <-> In n nodes) by (intro n; rewrite G2; now apply sub_nodes).
      destruct (split_flip h1 p q nodes f S1 K Npq Lp Lq Hn G1 Keys) as (b' & h2 & o' & F1 & F2 & F3 & F4 & F5 & F6 & F7).
      { intros n x Hx. destruct (G3 n x Hx) as [X|[X|[]]]; auto. }
      cbn [lift bindM] in H. unfold bindM, lift in H. rewrite F1 in H. injection H as <- <-.
      exists o', p, q. split; auto. split; auto. split; auto. split; auto. split; auto. split; auto.
      assert (Bal : forall x, x = p \/ x = q -> balanced_set (popn pop) t e (fun n => district (o_assign o') n = Some x)).
      { intros x Hx. eapply balanced_set_ext; [intro n; symmetry; apply F7; exact Hx|].
        eapply balanced_w; [|apply (G4 x); destruct Hx; subst x; [now left|right; now left]].
        intros n Hg. apply popn_restrict. apply Keys, dget_In_keys. eauto. }
      split; [auto|]. split; [auto|]. intros Ins Spl.
      assert (Con : forall x, x = p \/ x = q -> connected_on g (fun n => district (o_assign o') n = Some x)).
      { intros x Hx. eapply connected_on_ext; [intro n; symmetry; apply F7; exact Hx|].
        assert (Eq : recursive_tree_part (fun _ => method j) (restrict pop nodes) (subgraph g nodes) [p; q] t e = Ok f) by exact Ee.
        apply connected_sub with (s := nodes). eapply (C56_sound (fun _ => method j)) with (parts := [p; q]); try exact Eq; auto.
        - constructor; [intros [X|[]]; congruence|]. constructor; [intros []|constructor].
        - intros i g' t' e' os s. apply Ins.
        - intros i g' t' e' os s. apply Spl.
        - destruct Hx; subst x; [now left|right; now left]. }
      auto.
    Qed.

    Definition pair_at (cuts : list (N * N)) (k : nat) : res (P * P) :=
      edge <- choice (draws k) cuts ;; x <- part_of A (fst edge) ;; y <- part_of A (snd edge) ;; Ok (sorted_pair x y).
    Lemma loop_eq cuts n fuel bad k j :
      recom_loop E pop method draws t e (Datatypes.S fuel) A cuts n bad k j =
      if Nat.ltb (2 * List.length bad) (n * (n - 1)) then
        pair <- pair_at cuts k ;;
        if mem pair bad then recom_loop E pop method draws t e fuel A cuts n bad (Datatypes.S k) j
        else nodes <- merged A (fst pair) (snd pair) ;;
          match epsilon_tree_bipartition (fun _ => method j) (restrict pop nodes) (subgraph g nodes) [fst pair; snd pair] t e with
          | Err ReselectException => recom_loop E pop method draws t e fuel A cuts n (sadd pair bad) (Datatypes.S k) (Datatypes.S j)
          | r => r
          end
      else Err MetagraphError.
    Proof.
      cbn [recom_loop]. destruct (Nat.ltb _ _); [|reflexivity]. unfold pair_at.
      destruct (choice (draws k) cuts) as [ed| |]; cbn [bind]; [|reflexivity|reflexivity].
      destruct (part_of A (fst ed)) as [x| |]; cbn [bind]; [|reflexivity|reflexivity].
      destruct (part_of A (snd ed)) as [y| |]; cbn [bind]; [|reflexivity|reflexivity]. reflexivity.
    Qed.
    Lemma pair_at_ok cuts k : (forall x, In x cuts -> S_Machine.cut_edge g A x) -> cuts <> [] ->
      exists p q, p <> q /\ leb p q = true /\ adjacent g A p q /\ pair_at cuts k = Ok (p, q).
    Proof. intros Hc Hne. exact (round cuts (draws k) _ (fun s => Ok s) Hc Hne). Qed.
    (** Its errors: MetagraphError; IndexError for a plan without cut edges; and
        those of the split of two adjacent districts, which C55_errors lists. *)
    Theorem C46_errors fuel x : fst (recom E pop method draws t e fuel a h) = Err x ->
      x = MetagraphError \/ (~ has_cut g A /\ x = IndexError) \/
      exists p q nodes j, p <> q /\ adjacent g A p q /\ merged A p q = Ok nodes /\ x <> ReselectException /\
        epsilon_tree_bipartition (fun _ => method j) (restrict pop nodes) (subgraph g nodes) [p; q] t e = Err x.
    Proof.
      intro H. destruct recom_start as (cuts & h1 & S1 & K & Hc & Hc' & Er). rewrite Er in H. clear Er.
      assert (Lp : recom_loop E pop method draws t e fuel A cuts n_parts [] 0 0 = Err x).
      { destruct (recom_loop _ _ _ _ _ _ _ _ _ _ _ _ _) as [f|y|] eqn:El; [|cbn in H; congruence|cbn in H; discriminate]. exfalso.
        destruct (loop_ok cuts _ Hc _ _ _ _ _ El) as (p & q & nodes & j & Npq & Ad & Em & Ee).
        assert (LL : In p (labels A) /\ In q (labels A)) by (destruct Ad as (u & v & _ & D1 & D2); split; eapply label_of; eauto).
        destruct LL as [Lp Lq]. destruct (merged_ok p q Lp Lq) as (nodes' & Em' & NDn & Hn). assert (nodes' = nodes) by congruence. subst nodes'.
        assert (In_ : incl nodes (g_nodes g)).
        { intros n X. apply Hn in X. apply (coh_dom _ _ C). destruct X as [X|X]; eapply dget_Some_key; exact X. }
        destruct (C55_sound _ _ _ p q t e f (wf_subgraph g nodes WF) (covers_restrict nodes In_) Npq Ee) as [G1 G2 G3 _].
        destruct (split_flip h1 p q nodes f S1 K Npq Lp Lq Hn G1) as (b' & h2 & o' & F1 & _).
        { intro n. rewrite G2. now apply sub_nodes. }
        { intros n y Hx. destruct (G3 n y Hx) as [X|[X|[]]]; auto. }
        unfold bindM, lift in H. rewrite F1 in H. discriminate. }
      clear H. revert Lp. assert (G : forall bad k j, recom_loop E pop method draws t e fuel A cuts n_parts bad k j = Err x ->
        x = MetagraphError \/ (~ has_cut g A /\ x = IndexError) \/
        exists p q nodes j, p <> q /\ adjacent g A p q /\ merged A p q = Ok nodes /\ x <> ReselectException /\
          epsilon_tree_bipartition (fun _ => method j) (restrict pop nodes) (subgraph g nodes) [p; q] t e = Err x); [|apply G].
      induction fuel as [|fuel IH]; intros bad k j H; [discriminate|].
      rewrite loop_eq in H. destruct (Nat.ltb_spec (2 * List.length bad) (n_parts * (n_parts - 1))) as [Hl|Hl]; [|injection H as <-; now left].
      destruct cuts as [|e0 cuts].
      - unfold pair_at in H. rewrite choice_nil in H. cbn [bind] in H. injection H as <-. right. left. split; auto.
        intros (u & v & Huv). apply (cut_edge_iff E o) in Huv. destruct Huv as [X|X]; apply (Hc' ltac:(lia)) in X; destruct X.
      - destruct (pair_at_ok (e0 :: cuts) k Hc ltac:(discriminate)) as (p & q & Npq & Lb & Ad & Ep). rewrite Ep in H. cbn [bind fst snd] in H.
        destruct (mem (p, q) bad); [eapply IH; eauto|].
        assert (LL : In p (labels A) /\ In q (labels A)) by (destruct Ad as (u & v & _ & D1 & D2); split; eapply label_of; eauto).
        destruct (merged_ok p q (proj1 LL) (proj2 LL)) as (nodes & E1 & _). rewrite E1 in H. cbn [bind] in H.
        destruct (epsilon_tree_bipartition _ _ _ _ _ _) as [f|y|] eqn:Ee; [discriminate| |discriminate].
        assert (D : y = ReselectException \/ y <> ReselectException) by (destruct y; auto; right; discriminate).
        destruct D as [->|D]; [eapply IH; eauto|]. assert (y = x) by (destruct y; congruence). subst y.
        right. right. exists p, q, nodes, j. auto.
    Qed.
    (** With fewer than two parts MetagraphError is raised at once. *)
    Theorem C47_few_parts fuel : List.length (labels A) < 2 ->
      fst (recom E pop method draws t e (Datatypes.S fuel) a h) = Err MetagraphError.
    Proof.
      intro Hl. destruct recom_start as (cuts & h1 & S1 & K & _ & _ & Er). rewrite Er, loop_eq.
      assert (Hn : n_parts < 2) by (unfold labels, dkeys in Hl; now rewrite map_length in Hl).
      rewrite (proj2 (Nat.ltb_ge _ _)) by nia. reflexivity.
    Qed.

    (** ** Termination (C47) *)
    Lemma pair_at_hit cuts p q : (forall x, S_Machine.cut_edge g A x -> In x cuts) -> p <> q -> leb p q = true -> adjacent g A p q ->
      exists i, i < List.length cuts /\ forall k, draws k mod List.length cuts = i -> pair_at cuts k = Ok (p, q).
    Proof.
      intros Hc Npq Lb (u & v & Ad & D1 & D2).
      assert (Go : forall x y, In (x, y) cuts -> (district A x = Some p /\ district A y = Some q) \/ (district A x = Some q /\ district A y = Some p) ->
        exists i, i < List.length cuts /\ forall k, draws k mod List.length cuts = i -> pair_at cuts k = Ok (p, q)).
      { intros x y Hx HD. destruct (In_nth_error _ _ Hx) as (i & Hi). exists i. split; [apply nth_error_Some; congruence|]. intros k Hk.
        unfold pair_at, choice. rewrite Hk, Hi. cbn [of_option bind fst snd]. unfold part_of, district in *.
        destruct HD as [[X Y]|[X Y]]; rewrite X, Y; cbn [of_option bind]; unfold sorted_pair; [now rewrite Lb|].
        destruct (leb q p) eqn:Lb'; [|reflexivity]. elim Npq. now apply leb_antisym. }
      assert (Dn : district A u <> district A v) by congruence.
      destruct (proj2 (cut_edge_iff E o u v) (conj Ad Dn)) as [Hx|Hx]; apply Hc in Hx; eapply Go; eauto.
    Qed.

    (** Sets of pairs of districts. *)
    Definition pairs_of (K : list P) (bad : list (P * P)) : Prop :=
      NoDup bad /\ forall p q, In (p, q) bad -> In p K /\ In q K /\ p <> q /\ leb p q = true.
    Let swap (pq : P * P) := (snd pq, fst pq).
    Lemma list_prod_NoDup (K : list P) : NoDup K -> NoDup (list_prod K K).
    Proof.
      intro HK. assert (G : forall l : list P, NoDup l -> NoDup (list_prod l K)).
      { induction l as [|x l IH]; intro Hl; cbn [list_prod]; [constructor|]. inversion Hl as [|? ? H1 H2]; subst. apply NoDup_app_iff. split; [|split; auto].
        - apply FinFun.Injective_map_NoDup; auto. intros y z X. congruence.
        - intros [y z] X Y. apply in_map_iff in X. destruct X as (w & X & _). injection X as <- <-. apply in_prod_iff in Y. tauto. }
      auto.
    Qed.
    Lemma in_swap p q bad : In (p, q) (map swap bad) <-> In (q, p) bad.
    Proof.
      rewrite in_map_iff. split; [intros ([x y] & X & Y); unfold swap in X; cbn in X; injection X as <- <-; exact Y|].
      intro X. exists (q, p). auto.
    Qed.
    Lemma in_diag p q (K : list P) : In (p, q) (map (fun x => (x, x)) K) <-> p = q /\ In p K.
    Proof. rewrite in_map_iff. split; [intros (x & X & Y); injection X as <- <-; auto|intros [<- X]; eauto]. Qed.
    Lemma pairs_bound K bad : NoDup K -> pairs_of K bad -> List.length K + 2 * List.length bad <= List.length K * List.length K.
    Proof.
      intros HK [ND Hp]. rewrite <- prod_length.
      replace (List.length K + 2 * List.length bad) with (List.length (map (fun x => (x, x)) K ++ bad ++ map swap bad)) by (rewrite !app_length, !map_length; lia).
      apply NoDup_incl_length.
      - apply NoDup_app_iff. split; [|split].
        + apply FinFun.Injective_map_NoDup; auto. intros x y X. congruence.
        + apply NoDup_app_iff. split; auto. split.
          * apply FinFun.Injective_map_NoDup; auto. intros [x1 x2] [y1 y2] X. unfold swap in X. cbn in X. congruence.
          * intros [x y] X Y. apply (proj1 (in_swap _ _ _)) in Y. apply Hp in X, Y. destruct X as (_ & _ & X1 & X2), Y as (_ & _ & Y1 & Y2). elim X1. now apply leb_antisym.
        + intros [x y] X Y. apply in_diag in X. destruct X as [<- X]. apply in_app_iff in Y. destruct Y as [Y|Y]; [|apply (proj1 (in_swap _ _ _)) in Y]; apply Hp in Y; tauto.
      - intros [x y] X. apply in_prod_iff. apply in_app_iff in X. destruct X as [X|X]; [apply in_diag in X; destruct X as [<- X]; auto|].
        apply in_app_iff in X. destruct X as [X|X]; [|apply (proj1 (in_swap _ _ _)) in X]; apply Hp in X; tauto.
    Qed.
    Lemma pairs_missing K bad : pairs_of K bad -> NoDup K -> List.length K + 2 * List.length bad < List.length K * List.length K ->
      exists p q, In p K /\ In q K /\ p <> q /\ leb p q = true /\ ~ In (p, q) bad.
    Proof.
      intros [ND Hp] HK Hl.
      set (all := map (fun x => (x, x)) K ++ bad ++ map swap bad).
      destruct (existsb (fun pq => negb (mem pq all)) (list_prod K K)) eqn:Ex.
      - apply existsb_exists in Ex. destruct Ex as ([p q] & H1 & H2). apply in_prod_iff in H1. apply negb_true_iff, mem_notIn in H2.
        unfold all in H2. rewrite !in_app_iff, in_swap, in_diag in H2.
        assert (Npq : p <> q) by (intros ->; tauto). destruct (leb_total p q) as [Lb|Lb].
        + exists p, q. tauto.
        + exists q, p. split; [tauto|]. split; [tauto|]. split; [congruence|]. split; auto.
      - exfalso. assert (Inc : incl (list_prod K K) all).
        { intros x Hx. destruct (mem x all) eqn:Em; [now apply mem_In|]. exfalso.
          assert (Y : existsb (fun pq => negb (mem pq all)) (list_prod K K) = true) by (apply existsb_exists; exists x; rewrite Em; auto). congruence. }
        apply NoDup_incl_length in Inc; [|now apply list_prod_NoDup]. unfold all in Inc. rewrite prod_length, !app_length, !map_length in Inc. lia.
    Qed.

    (** Splitting two adjacent districts always asks for another pair. *)
    Definition always_reselects : Prop := forall j p q nodes, p <> q -> adjacent g A p q ->
      (forall n, In n nodes <-> district A n = Some p \/ district A n = Some q) ->
      epsilon_tree_bipartition (fun _ => method j) (restrict pop nodes) (subgraph g nodes) [p; q] t e = Err ReselectException.
    Hypothesis Hre : always_reselects.
    (** Pairs that can ever be drawn. *)
    Definition drawn_pairs (bad : list (P * P)) : Prop :=
      NoDup bad /\ forall p q, In (p, q) bad -> p <> q /\ leb p q = true /\ adjacent g A p q.
    Lemma drawn_are_pairs bad : drawn_pairs bad -> pairs_of (labels A) bad.
    Proof.
      intros [ND Hp]. split; auto. intros p q X. apply Hp in X. destruct X as (X1 & X2 & (u & v & _ & D1 & D2)).
      split; [eapply label_of; eauto|]. split; [eapply label_of; eauto|auto].
    Qed.
    Lemma drawn_add bad p q : drawn_pairs bad -> ~ In (p, q) bad -> p <> q -> leb p q = true -> adjacent g A p q -> drawn_pairs (sadd (p, q) bad).
    Proof.
      intros [ND Hp] Nb H1 H2 H3. split; [now apply NoDup_sadd|]. intros x y X. apply In_sadd in X. destruct X as [X|X]; [injection X as -> ->; auto|auto].
    Qed.
    Lemma n_parts_labels : n_parts = List.length (labels A).
    Proof. unfold labels, dkeys. now rewrite map_length. Qed.
    Lemma loop_round cuts bad k j : (forall x, In x cuts -> S_Machine.cut_edge g A x) -> cuts <> [] -> drawn_pairs bad ->
      2 * List.length bad < n_parts * (n_parts - 1) ->
      exists p q bad' j', pair_at cuts k = Ok (p, q) /\ drawn_pairs bad' /\ (if mem (p, q) bad then bad' = bad else List.length bad' = List.length bad + 1) /\
        forall fuel, recom_loop E pop method draws t e (Datatypes.S fuel) A cuts n_parts bad k j =
        recom_loop E pop method draws t e fuel A cuts n_parts bad' (Datatypes.S k) j'.
    Proof.
      intros Hc Hne Dp Hl. destruct (pair_at_ok cuts k Hc Hne) as (p & q & Npq & Lb & Ad & Ep).
      assert (Eq := fun fuel => loop_eq cuts n_parts fuel bad k j). rewrite (proj2 (Nat.ltb_lt _ _) Hl), Ep in Eq. cbn [bind fst snd] in Eq.
      exists p, q. destruct (mem (p, q) bad) eqn:Em; [exists bad, j; auto|]. assert (Em' := Em). apply mem_notIn in Em'.
      assert (LL : In p (labels A) /\ In q (labels A)) by (destruct Ad as (u & v & _ & D1 & D2); split; eapply label_of; eauto).
      destruct (merged_ok p q (proj1 LL) (proj2 LL)) as (nodes & E1 & _ & Hn). rewrite E1 in Eq. cbn [bind] in Eq. rewrite (Hre j p q nodes Npq Ad Hn) in Eq.
      exists (sadd (p, q) bad), (Datatypes.S j). split; auto. split; [now apply drawn_add|]. split; auto.
      unfold sadd. rewrite Em, app_length. cbn. lia.
    Qed.

    (** If some two districts are not adjacent, recom runs forever for every
        sequence of random choices. *)
    Theorem C47_never_terminates p q : has_cut g A -> In p (labels A) -> In q (labels A) -> p <> q -> ~ adjacent g A p q ->
      forall fuel, fst (recom E pop method draws t e fuel a h) = NoFuel.
    Proof.
      intros (u & v & Huv) Lp Lq Npq Nad fuel. destruct recom_start as (cuts & h1 & S1 & K & Hc & Hc' & Er). rewrite Er. clear Er.
      assert (KL : NoDup (labels A)) by apply (coh_part_keys _ _ C).
      assert (Short : forall bad, drawn_pairs bad -> 2 * List.length bad < n_parts * (n_parts - 1)).
      { intros bad Dp. assert (Hp : exists x y, In x (labels A) /\ In y (labels A) /\ x <> y /\ leb x y = true /\ ~ adjacent g A x y).
        { destruct (leb_total p q) as [Lb|Lb]; [exists p, q; auto|exists q, p]. split; auto. split; auto. split; auto. split; auto.
          intro X. apply Nad. now apply adjacent_sym. }
        destruct Hp as (x & y & H1 & H2 & H3 & H4 & H5).
        assert (Nb : ~ In (x, y) bad) by (intro X; apply Dp in X; tauto).
        assert (B := pairs_bound (labels A) (sadd (x, y) bad) KL).
        assert (Pn : pairs_of (labels A) (sadd (x, y) bad)).
        { destruct (drawn_are_pairs bad Dp) as [D1 D2]. split; [now apply NoDup_sadd|]. intros x' y' X. apply In_sadd in X. destruct X as [X|X]; [injection X as -> ->; auto|auto]. }
        specialize (B Pn). unfold sadd in B. rewrite (proj2 (mem_notIn _ _) Nb), app_length in B. cbn [List.length] in B. rewrite n_parts_labels. nia. }
      assert (Hne : cuts <> []).
      { specialize (Short [] ltac:(split; [constructor|intros x y []])). cbn [List.length] in Short. intros ->. apply (cut_edge_iff E o) in Huv.
        destruct Huv as [X|X]; apply (Hc' ltac:(lia)) in X; destruct X. }
      assert (Loop : forall fuel bad k j, drawn_pairs bad -> recom_loop E pop method draws t e fuel A cuts n_parts bad k j = NoFuel).
      { clear fuel. induction fuel as [|fuel IH]; intros bad k j Dp; [reflexivity|].
        destruct (loop_round cuts bad k j Hc Hne Dp (Short bad Dp)) as (x & y & bad' & j' & _ & Dp' & _ & Eq). rewrite Eq. now apply IH. }
      rewrite Loop; [reflexivity|]. split; [constructor|intros x y []].
    Qed.
    (** If all districts are pairwise adjacent, recom can only raise
        MetagraphError, and does so for every fair sequence of choices. *)
    Theorem C47_raises : (forall p q, In p (labels A) -> In q (labels A) -> p <> q -> adjacent g A p q) ->
      (forall fuel, fst (recom E pop method draws t e fuel a h) = NoFuel \/ fst (recom E pop method draws t e fuel a h) = Err MetagraphError) /\
      (fair draws -> exists fuel, fst (recom E pop method draws t e fuel a h) = Err MetagraphError).
    Proof.
      intro All. assert (KL : NoDup (labels A)) by apply (coh_part_keys _ _ C). assert (D0 : drawn_pairs []) by (split; [constructor|intros x y []]).
      assert (Cne : forall cuts bad, (0 < n_parts * (n_parts - 1) -> forall x, S_Machine.cut_edge g A x -> In x cuts) ->
        drawn_pairs bad -> 2 * List.length bad < n_parts * (n_parts - 1) ->
        exists p q, p <> q /\ leb p q = true /\ adjacent g A p q /\ ~ In (p, q) bad /\ exists i, i < List.length cuts /\ forall k, draws k mod List.length cuts = i -> pair_at cuts k = Ok (p, q)).
      { intros cuts bad Hc' Dp Hl. destruct (pairs_missing (labels A) bad (drawn_are_pairs bad Dp) KL) as (p & q & H1 & H2 & H3 & H4 & H5).
        { rewrite n_parts_labels in Hl. nia. }
        exists p, q. specialize (All p q H1 H2 H3). split; auto. split; auto. split; auto. split; auto. apply pair_at_hit; auto. apply Hc'. lia. }
      split.
      - intro fuel. destruct recom_start as (cuts & h1 & S1 & K & Hc & Hc' & Er). rewrite Er. clear Er.
        assert (Loop : forall fuel bad k j, drawn_pairs bad ->
          recom_loop E pop method draws t e fuel A cuts n_parts bad k j = NoFuel \/ recom_loop E pop method draws t e fuel A cuts n_parts bad k j = Err MetagraphError).
        { clear fuel. induction fuel as [|fuel IH]; intros bad k j Dp; [now left|].
          destruct (Nat.ltb_spec (2 * List.length bad) (n_parts * (n_parts - 1))) as [Hl|Hl].
          - assert (Hne : cuts <> []) by (destruct (Cne cuts bad Hc' Dp Hl) as (_ & _ & _ & _ & _ & _ & i & Hi & _); intros ->; cbn in Hi; lia).
            destruct (loop_round cuts bad k j Hc Hne Dp Hl) as (x & y & bad' & j' & _ & Dp' & _ & Eq). rewrite Eq. now apply IH.
          - rewrite loop_eq, (proj2 (Nat.ltb_ge _ _) Hl). now right. }
        destruct (Loop fuel [] 0 0 D0) as [X|X]; rewrite X; [now left|now right].
      - intro Fair.
        destruct recom_start as (cuts & h1 & S1 & K & Hc & Hc' & Er).
        assert (Main : forall m bad k j, drawn_pairs bad -> n_parts * (n_parts - 1) - 2 * List.length bad <= m ->
          exists fuel, recom_loop E pop method draws t e fuel A cuts n_parts bad k j = Err MetagraphError).
        { induction m as [|m IHm]; intros bad k j Dp Hm;
            (destruct (Nat.ltb_spec (2 * List.length bad) (n_parts * (n_parts - 1))) as [Hl|Hl];
             [|exists 1; now rewrite loop_eq, (proj2 (Nat.ltb_ge _ _) Hl)]); [lia|].
          destruct (Cne cuts bad Hc' Dp Hl) as (p & q & Npq & Lb & Ad & Nb & i & Hi & Hit).
          assert (Hne : cuts <> []) by (intros ->; cbn in Hi; lia).
          destruct (Fair _ i k Hi) as (k' & Hk & Ek). apply Hit in Ek.
          assert (Wait : forall d k j, k + d = k' -> exists fuel, recom_loop E pop method draws t e fuel A cuts n_parts bad k j = Err MetagraphError).
          { clear k j Hk. induction d as [|d IHd]; intros k j Hd.
            - replace k with k' by lia. destruct (loop_round cuts bad k' j Hc Hne Dp Hl) as (x & y & bad' & j' & Ep & Dp' & Hb & Eq).
              rewrite Ek in Ep. injection Ep as <- <-. rewrite (proj2 (mem_notIn _ _) Nb) in Hb.
              destruct (IHm bad' (Datatypes.S k') j' Dp' ltac:(lia)) as (fuel & Hf).
              exists (Datatypes.S fuel). now rewrite Eq.
            - destruct (loop_round cuts bad k j Hc Hne Dp Hl) as (x & y & bad' & j' & Ep & Dp' & Hb & Eq).
              assert (Nx : exists fuel, recom_loop E pop method draws t e fuel A cuts n_parts bad' (Datatypes.S k) j' = Err MetagraphError).
              { destruct (mem (x, y) bad); [subst bad'; apply IHd; lia|apply IHm; auto; lia]. }
              destruct Nx as (fuel & Hf). exists (Datatypes.S fuel). now rewrite Eq. }
          apply (Wait (k' - k)). lia. }
        destruct (Main _ [] 0 0 D0 (le_n _)) as (fuel & Hf). exists fuel. rewrite Er, Hf. reflexivity.
    Qed.
  End Plan.
End Recom.

Print Assumptions C46_sound.
Print Assumptions C46_errors.
Print Assumptions C47_few_parts.
Print Assumptions C47_never_terminates.
Print Assumptions C47_raises.
