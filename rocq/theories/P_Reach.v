(** C114: which plans a chain can reach. *)
From Coq Require Import String List Bool Arith ZArith QArith Qabs Lqa Lia ZifyBool ZifyNat.
From Verif Require Import Base M_Graph M_Partition S_Partition L_Partition M_Machine S_Machine L_Sums
  L_Cuts L_Machine L_Answers S_Contiguity L_Search P_Partition P_Machine M_Constraints P_Constraints M_Chain P_Chain
  M_Election L_Order M_Proposals S_Proposals M_Contiguity
  M_Tree S_Tree S_TreeCuts L_Tree P_Tree P_Contiguity P_Spanning P_Proposals P_Bipartition M_Recursive P_Recursive
  M_Recom P_Recom P_Reversible M_Script L_Run P_RecomChain.
Import ListNotations.
Local Open Scope nat_scope.
Local Open Scope list_scope.

Section Reach.
  Context {N P V L : Type} {EN : EqB N} {EP : EqB P} {EL : EqB L} {ON : Ord N} {RV : CRing V}.
  Variable E : env N P V L.
  Notation g := (e_graph E).

  (** ** Moving single nodes *)
  Definition put (A : N -> option P) (m : N * P) : N -> option P :=
    fun x => if eqb x (fst m) then Some (snd m) else A x.
  Fixpoint plans (A : N -> option P) (ms : list (N * P)) : list (N -> option P) :=
    match ms with [] => [] | m :: ms' => put A m :: plans (put A m) ms' end.
  Lemma plans_length A ms : List.length (plans A ms) = List.length ms.
  Proof. revert A. induction ms as [|m ms IH]; intro A; [reflexivity|]. cbn [plans List.length]. now rewrite IH. Qed.
  (** If all moves are to the districts of [B], the moved nodes end there. *)
  Lemma plans_last (B : N -> P) ms : forall A k F, (forall m, In m ms -> snd m = B (fst m)) ->
    nth_error (plans A ms) k = Some F -> List.length ms = S k ->
    forall x, In x (map fst ms) \/ A x = Some (B x) -> F x = Some (B x).
  Proof.
    induction ms as [|m ms IH]; intros A k F Hm Hk Hl x Hx; [discriminate|].
    assert (Hp : forall y, y = fst m \/ A y = Some (B y) -> put A m y = Some (B y)).
    { intros y Hy. unfold put. destruct (eqb_spec y (fst m)) as [->|Ny]; [rewrite (Hm m (or_introl eq_refl)); reflexivity|]. destruct Hy; [contradiction|auto]. }
    destruct ms as [|m' ms].
    - destruct k as [|k]; [|discriminate]. injection Hk as <-. apply Hp. destruct Hx as [[Hx|[]]|Hx]; auto.
    - destruct k as [|k]; [discriminate|]. change (nth_error (plans (put A m) (m' :: ms)) k = Some F) in Hk.
      apply (IH (put A m) k F); auto.
      + intros y Hy. apply Hm. now right.
      + destruct Hx as [[Hx|Hx]|Hx]; auto.
  Qed.

  Definition any_node (d : nat * nat) : nat -> heap N P V L -> res nat * heap N P V L :=
    propose_any_node_flip E (fst d) (snd d).
  Definition random_flip (d : nat * bool) : nat -> heap N P V L -> res nat * heap N P V L :=
    propose_random_flip E (fst d) (snd d).

  (** C114. A chain of propose_any_node_flip without constraints can turn any
      plan into any other with the same district labels, in any number of steps
      that is at least the number of nodes. *)
  Theorem C114_any_node : forall h a o (B : N -> P) k,
    session E h -> nth_error h a = Some o -> g_nodes g <> [] ->
    (forall n, In n (g_nodes g) -> In (B n) (labels (o_assign o))) -> List.length (g_nodes g) <= k ->
    exists ds ys ch' w', List.length ds = k /\
      for_loop (fed (0, 0) any_node) yes_accept erase_link (S (S k)) 1 (fun _ w => w) (free_chain k a) (h, ds)
        = (ys, Finished, ch', w') /\
      exists c v o', nth_error ys k = Some (c, v) /\ nth_error (fst v) c = Some o' /\
        forall n, In n (g_nodes g) -> district (o_assign o') n = Some (B n).
  Proof.
    intros h a o B k Ss Ho Hne HB Hk. remember (labels (o_assign o)) as ls eqn:Els.
    set (lead := fun A A' : N -> option P => exists m : N * P, In (fst m) (g_nodes g) /\ In (snd m) ls /\
                   forall x, In x (g_nodes g) -> A' x = put A m x).
    assert (Can : forall h a o B, session E h -> nth_error h a = Some o -> labels (o_assign o) = ls ->
      lead (district (o_assign o)) B ->
      exists d c h' o', any_node d a h = (Ok c, h') /\ session E h' /\ nth_error h' c = Some o' /\
        labels (o_assign o') = ls /\ forall n, In n (g_nodes g) -> district (o_assign o') n = B n).
    { clear. intros h a o B Ss Ho Hl ([n q] & Hn & Hq & HB). cbn [fst snd] in *. rewrite <- Hl in Hq.
      destruct (choice_any (g_nodes g) n Hn) as [r1 H1]. destruct (choice_any (labels (o_assign o)) q Hq) as [r2 H2].
      destruct (single_flip E h a o Ho h n q Ss (kept_refl h) Hn Hq) as (c & h' & o' & F1 & F2 & F3 & F4 & F5 & F6 & _).
      exists (r1, r2), c, h', o'. split.
      { unfold any_node, propose_any_node_flip. cbn [fst snd]. rewrite (get_bind h a o) by exact Ho. rewrite H1, lift_bind.
        unfold labels in H2. rewrite H2, lift_bind. exact F1. }
      split; auto. split; auto. split.
      - destruct (session_labels E h' F2) as [ls' Hls]. rewrite (Hls c o' F4). destruct (F3 a o Ho) as (o1 & Ho1 & E1 & _).
        rewrite <- (Hls a o1 Ho1), E1. exact Hl.
      - intros x Hx. rewrite (HB x Hx). unfold put. cbn [fst snd]. destruct F6 as [M1 M2].
        destruct (eqb_spec x n) as [->|Nx]; auto. }
    assert (exists n0, In n0 (g_nodes g)) as (n0 & Hn0) by (destruct (g_nodes g) as [|n0 ns]; [contradiction|exists n0; now left]).
    set (ms := map (fun n => (n, B n)) (g_nodes g) ++ repeat (n0, B n0) (k - List.length (g_nodes g))).
    assert (Lm : List.length ms = k).
    { unfold ms. rewrite app_length, map_length, repeat_length. lia. }
    assert (Hms : forall m, In m ms -> In (fst m) (g_nodes g) /\ snd m = B (fst m)).
    { intros m Hm. unfold ms in Hm. apply in_app_iff in Hm. destruct Hm as [Hm|Hm].
      - apply in_map_iff in Hm. destruct Hm as (n & <- & Hn). auto.
      - apply repeat_spec in Hm. subst m. split; [exact Hn0|reflexivity]. }
    assert (Hp : forall A, path E lead A (plans A ms)).
    { clear - Hms HB. induction ms as [|m ms IH]; intro A; [exact I|]. cbn [plans path]. split.
      - intros A' HA'. exists m. destruct (Hms m (or_introl eq_refl)) as [H1 H2]. split; auto. split.
        + rewrite H2. auto.
        + intros x Hx. unfold put. destruct (eqb x (fst m)); auto. symmetry. now apply HA'.
      - apply IH. intros y Hy. apply Hms. now right. }
    destruct (free_reaches E (0, 0) any_node (fun A => labels A = ls) lead Can (plans (district (o_assign o)) ms) h a o)
      as (ds & Hl & ys & ch' & w' & Hloop & Hlen & Hys); auto.
    rewrite plans_length, Lm in *. exists ds, ys, ch', w'. split; auto. split; auto.
    assert (List.length (g_nodes g) <> 0) by (destruct (g_nodes g); [destruct Hn0|discriminate]). destruct k as [|k]; [lia|].
    destruct (nth_error (plans (district (o_assign o)) ms) k) as [F|] eqn:HF; [|apply nth_error_None in HF; rewrite plans_length in HF; lia].
    destruct (Hys k F HF) as (c & v & o' & X1 & X2 & X3 & X4). exists c, v, o'. split; auto. split; auto.
    intros n Hn. rewrite X4 by auto. apply (plans_last B ms (district (o_assign o)) k F); auto.
    - intros m Hm. now apply Hms.
    - left. unfold ms. rewrite map_app, map_map. cbn [fst]. rewrite map_id. apply in_app_iff. now left.
  Qed.

  (** ** propose_random_flip *)
  Lemma crossing (S T : N -> Prop) u v : reach (fun a b => adj g a b /\ S a /\ S b) u v ->
    T u -> ~ T v -> (forall x, T x \/ ~ T x) -> exists x y, adj g x y /\ S x /\ S y /\ T x /\ ~ T y.
  Proof.
    intros H Tu Tv Dec. induction H as [|v w H IH (Ad & Sv & Sw)]; [contradiction|].
    destruct (Dec v) as [X|X]; eauto 8.
  Qed.
  Definition outside (p : P) (A : N -> option P) : list N := filter (fun n => negb (eqb (A n) (Some p))) (g_nodes g).
  Lemma In_outside p A n : In n (outside p A) <-> In n (g_nodes g) /\ A n <> Some p.
  Proof. unfold outside. rewrite filter_In, negb_true_iff. destruct (eqb_spec (A n) (Some p)); intuition congruence. Qed.

  (** C114. A chain of propose_random_flip without constraints can put every node
      of a connected graph into any one of the districts that are not empty. *)
  Theorem C114_swallowed : forall h a o p k,
    session E h -> nth_error h a = Some o -> dget (e_updaters E) "cut_edges"%string = Some UCutEdges ->
    connected_on g (fun n => In n (g_nodes g)) -> (exists n, district (o_assign o) n = Some p) ->
    List.length (g_nodes g) <= k ->
    exists ds ys ch' w', List.length ds = k /\
      for_loop (fed (0, true) random_flip) yes_accept erase_link (S (S k)) 1 (fun _ w => w) (free_chain k a) (h, ds)
        = (ys, Finished, ch', w') /\
      exists c v o', nth_error ys k = Some (c, v) /\ nth_error (fst v) c = Some o' /\
        forall n, In n (g_nodes g) -> district (o_assign o') n = Some p.
  Proof.
    intros h a o p k Ss Ho Hu Con (n0 & Hn0) Hk.
    set (lead := fun A A' : N -> option P =>
      (exists n m, adj g n m /\ A m = Some p /\ A n <> Some p /\ forall x, In x (g_nodes g) -> A' x = put A (n, p) x) \/
      ((forall x, In x (g_nodes g) -> A x = Some p) /\ forall x, In x (g_nodes g) -> A' x = A x)).
    assert (Can : forall h a o B, session E h -> nth_error h a = Some o -> True ->
      lead (district (o_assign o)) B ->
      exists d c h' o', random_flip d a h = (Ok c, h') /\ session E h' /\ nth_error h' c = Some o' /\
        True /\ forall n, In n (g_nodes g) -> district (o_assign o') n = B n).
    { clear - Hu. intros h a o B Ss Ho _ [(n & m & Ad & Dm & Dn & HB)|[All HB]].
      - destruct (C42_every_move_possible E h a o Ss Ho Hu n p) as (r & b & c & h' & o' & Hr & Ho' & Mv).
        { exists m. auto. }
        exists (r, b), c, h', o'. split; auto.
        destruct (C42_random_flip E h a o Ss Ho Hu) with (r := r) (b := b) as (c2 & h2 & o2 & n2 & q2 & H2 & S2 & _).
        { exists n, m. split; auto. congruence. }
        rewrite Hr in H2. injection H2 as <- <-. split; auto. split; auto. split; auto.
        intros x Hx. rewrite (HB x Hx). unfold put. cbn [fst snd]. destruct Mv as [M1 M2]. destruct (eqb_spec x n) as [->|Nx]; auto.
      - destruct (cuts_ok E h a o Ss Ho Hu) as (s & h' & Hc & _ & Sp & S' & K).
        destruct (K a o Ho) as (o1 & Ho1 & E1 & _).
        exists (0, true), a, h', o1. split.
        { unfold random_flip, propose_random_flip. rewrite (get_bind h a o) by exact Ho. rewrite (bindM_ok _ _ _ _ _ Hc).
          destruct s as [|e s]; [reflexivity|]. exfalso. destruct (proj1 (Sp e) (or_introl eq_refl)) as (_ & Ad & Nd).
          apply Nd. destruct (adj_node E h Ss _ _ Ad). rewrite !All; auto. }
        split; auto. split; auto. split; auto. intros x Hx. rewrite E1. symmetry. auto. }
    assert (Nn : In n0 (g_nodes g)).
    { apply (coh_dom _ _ (session_coherent E h a o Ss Ho)). eapply dget_Some_key; exact Hn0. }
    assert (Grow : forall k A, List.length (outside p A) <= k -> A n0 = Some p ->
      exists l, List.length l = k /\ path E lead A l /\
        match rev l with [] => forall x, In x (g_nodes g) -> A x = Some p | F :: _ => forall x, In x (g_nodes g) -> F x = Some p end).
    { clear - Con Nn. induction k as [|k IH]; intros A Hk HA.
      - exists []. split; auto. split; [exact I|]. cbn [rev]. intros x Hx.
        destruct (eqb_spec (A x) (Some p)) as [X|X]; auto. exfalso.
        assert (Y : In x (outside p A)) by (apply In_outside; auto). destruct (outside p A); [destruct Y|cbn [List.length] in Hk; lia].
      - assert (St : exists B, (forall A', (forall n, In n (g_nodes g) -> A' n = A n) -> lead A' B) /\
                       List.length (outside p B) <= k /\ B n0 = Some p).
        { destruct (outside p A) as [|v l] eqn:Ho.
          - assert (All : forall x, In x (g_nodes g) -> A x = Some p).
            { intros x Hx. destruct (eqb_spec (A x) (Some p)) as [X|X]; auto. exfalso.
              assert (Y : In x (outside p A)) by (apply In_outside; auto). rewrite Ho in Y. destruct Y. }
            exists A. split; [|split; auto; rewrite Ho; cbn [List.length]; lia].
            intros A' HA'. right. split; intros x Hx; [rewrite HA'; auto|symmetry; auto].
          - assert (Hv : In v (outside p A)) by (rewrite Ho; now left). apply In_outside in Hv. destruct Hv as [Nv Dv].
            destruct (crossing (fun n => In n (g_nodes g)) (fun x => A x = Some p) n0 v (Con n0 v Nn Nv) HA Dv)
              as (x & y & Ad & Nx & Ny & Dx & Dy).
            { intro x. destruct (eqb_spec (A x) (Some p)); auto. }
            exists (put A (y, p)). split; [|split].
            + intros A' HA'. left. exists y, x. split; [now apply adj_sym|]. rewrite !HA' by auto. split; auto. split; auto.
              intros z Hz. unfold put. cbn [fst snd]. destruct (eqb z y); auto. symmetry. auto.
            + assert (Lt : List.length (outside p (put A (y, p))) < List.length (outside p A)).
              { unfold outside. clear - Ny Dy. induction (g_nodes g) as [|z l IH]; [destruct Ny|].
                assert (Le : List.length (filter (fun n => negb (eqb (put A (y, p) n) (Some p))) l) <= List.length (filter (fun n => negb (eqb (A n) (Some p))) l)).
                { clear. induction l as [|z l IH]; [reflexivity|]. cbn [filter]. unfold put at 1. cbn [fst snd]. destruct (eqb z y).
                  - rewrite eqb_refl. cbn [negb]. destruct (negb (eqb (A z) (Some p))); cbn [List.length]; lia.
                  - destruct (negb (eqb (A z) (Some p))); cbn [List.length]; lia. }
                cbn [filter]. unfold put at 1. cbn [fst snd]. destruct (eqb_spec z y) as [->|Nz].
                - rewrite eqb_refl. cbn [negb]. destruct (eqb_spec (A y) (Some p)); [contradiction|]. cbn [negb List.length]. lia.
                - destruct Ny as [->|Ny]; [contradiction|]. specialize (IH Ny). destruct (negb (eqb (A z) (Some p))); cbn [List.length]; lia. }
              rewrite Ho in Lt. cbn [List.length] in Lt, Hk. lia.
            + unfold put. cbn [fst snd]. destruct (eqb n0 y); auto. }
        destruct St as (B & HB & HkB & HB0). destruct (IH B HkB HB0) as (l & Hl & Hp & Hlast).
        exists (B :: l). split; [cbn [List.length]; lia|]. split; [split; auto|]. cbn [rev].
        destruct (rev l) as [|F r]; [cbn [app]; exact Hlast|exact Hlast]. }
    destruct (Grow k (district (o_assign o))) as (l & Hl & Hp & Hlast); auto.
    { etransitivity; [|exact Hk]. unfold outside. clear. induction (g_nodes g) as [|x l IH]; [reflexivity|]. cbn [filter]. destruct (negb _); cbn [List.length]; lia. }
    destruct (free_reaches E (0, true) random_flip (fun _ => True) lead Can l h a o Hp Ss Ho I) as (ds & Hd & ys & ch' & w' & Hloop & Hlen & Hys).
    rewrite Hl in *. exists ds, ys, ch', w'. split; auto. split; auto.
    assert (List.length (g_nodes g) <> 0) by (destruct (g_nodes g); [destruct Nn|discriminate]). destruct k as [|k]; [lia|].
    destruct (rev l) as [|F r] eqn:Er.
    { exfalso. assert (X : List.length (rev l) = 0) by (now rewrite Er). rewrite rev_length in X. lia. }
    assert (HF : nth_error l k = Some F).
    { assert (El : l = rev r ++ [F]) by (rewrite <- (rev_involutive l), Er; reflexivity).
      assert (Hk' : k = List.length (rev r)) by (rewrite El, app_length in Hl; cbn [List.length] in Hl; lia).
      rewrite El, Hk', nth_error_app2, Nat.sub_diag by lia. reflexivity. }
    destruct (Hys k F HF) as (c & v & o' & X1 & X2 & X3 & X4). exists c, v, o'. split; auto. split; auto.
    intros n Hn. rewrite X4 by auto. auto.
  Qed.

  (** ** What the boundary proposals cannot do *)
  (** [x] is what a call of one of the boundary proposals on plan [a] gives. *)
  Definition one_node_call (a : nat) (h : heap N P V L) (x : res nat * heap N P V L) : Prop :=
    (exists r b, x = propose_random_flip E r b a h) \/
    (exists r b, x = propose_chunk_flip E r b a h) \/
    (exists r, x = slow_reversible_propose E r a h) \/
    (exists r1 r2, x = propose_bi E r1 r2 a h).
  Definition boundary_call (a : nat) (h : heap N P V L) (x : res nat * heap N P V L) : Prop :=
    one_node_call a h x \/
    (dget (e_updaters E) "cut_edges_by_part"%string = Some UCutEdgesByPart /\
     exists draws, x = propose_flip_every_district E draws a h).

  Lemma kept_lift {X} (r : res X) (f : X -> @M N P V L nat) h : (forall x, kept h (snd (f x h))) -> kept h (snd (bindM (lift r) f h)).
  Proof. intro H. unfold bindM, lift. destruct r; [apply H|apply kept_refl|apply kept_refl]. Qed.
  Lemma kept_read {X} a k (c : value N P V L -> res X) (f : X -> @M N P V L nat) h : session E h -> (forall x h', kept h' (snd (f x h'))) ->
    kept h (snd (bindM (bindM (read E a k) (fun v => lift (c v))) f h)).
  Proof.
    intros Ss H. pose proof (read_kept E h a k Ss) as K. unfold bindM. destruct (read E a k h) as [[v|e|] h1]; cbn [snd] in K; [|exact K|exact K].
    unfold lift. destruct (c v) as [x|e|]; [|exact K|exact K]. eapply kept_trans; [exact K|apply H].
  Qed.
  Lemma kept_get {X} a (f : pobj N P V L -> @M N P V L X) h : (forall o, kept h (snd (f o h))) -> kept h (snd (bindM (get_obj a) f h)).
  Proof. intro H. unfold bindM, get_obj. destruct (nth_error h a); [apply H|apply kept_refl]. Qed.
  Lemma call_kept a h x : session E h -> boundary_call a h x -> kept h (snd x).
  Proof.
    intros Ss [[(r & b & ->)|[(r & b & ->)|[(r & ->)|(r1 & r2 & ->)]]]|(_ & draws & ->)].
    - apply kept_get. intro o. apply kept_read; auto. intros s h'. destruct (Nat.eqb (List.length s) 0); [apply kept_refl|].
      apply kept_lift. intro e. apply kept_lift. intro p. apply flip_kept.
    - apply kept_get. intro o. apply kept_read; auto. intros s h'.
      apply kept_lift. intro e. apply kept_lift. intro f. apply flip_kept.
    - apply kept_get. intro o. apply kept_read; auto. intros s h'.
      apply kept_lift. intro m. apply kept_lift. intro f. apply flip_kept.
    - apply kept_get. intro o. apply kept_read; auto. intros s h'. cbv zeta.
      apply kept_lift. intro e. apply kept_lift. intro f. apply kept_lift. intro own. apply kept_lift. intro rest. apply kept_lift. intro p. apply flip_kept.
    - apply kept_get. intro o. pose proof (read_kept E h a "cut_edges_by_part"%string Ss) as K. unfold bindM at 1.
      destruct (read E a "cut_edges_by_part"%string h) as [[v|e|] h1]; cbn [snd] in K; [|exact K|exact K].
      eapply kept_trans; [exact K|]. apply kept_lift. intro d. apply kept_lift. intro f. apply flip_kept.
  Qed.

  (** The new plan has no district that was empty. *)
  Definition no_revival (A A' : assignment N P) : Prop :=
    forall q, (forall n, district A n <> Some q) -> forall n, district A' n <> Some q.
  (** Some edge lies inside a district. *)
  Definition inner_edge (A : assignment N P) : Prop := exists u v, adj g u v /\ district A u = district A v.

  Lemma moved_revival A n q A' : boundary_move g A n q -> moved A n q A' -> no_revival A A'.
  Proof.
    intros (m & _ & Dm & _) [M1 M2] p Hp x Hx. destruct (eqb_spec x n) as [->|Nx].
    - apply (Hp m). congruence.
    - apply (Hp x). rewrite <- M2; auto.
  Qed.
  Lemma moved_inner A n q A' : wf_graph g -> boundary_move g A n q -> moved A n q A' -> inner_edge A'.
  Proof.
    intros WF (m & Ad & Dm & Dn) [M1 M2]. exists n, m. split; auto. rewrite M1. rewrite M2; [congruence|].
    intros ->. contradiction.
  Qed.

  Lemma one_step a h o b h' : session E h -> nth_error h a = Some o ->
    dget (e_updaters E) "cut_edges"%string = Some UCutEdges -> one_node_call a h (Ok b, h') ->
    session E h' /\ exists o', nth_error h' b = Some o' /\ no_revival (o_assign o) (o_assign o') /\
      (same_plan (o_assign o) (o_assign o') \/ inner_edge (o_assign o')).
  Proof.
    intros Ss Ho Hu Hc. pose proof (P_Proposals.wfg E h Ss) as WF.
    destruct (cuts_ok E h a o Ss Ho Hu) as (s & h1 & Hs & _ & Sp & S1 & K1).
    assert (Dec : has_cut g (o_assign o) \/ (s = [] /\ ~ has_cut g (o_assign o))).
    { destruct s as [|e s].
      - right. split; auto. intros (u & v & Ad & Nd). assert (X := proj2 (cut_edge_iff E o u v) (conj Ad Nd)).
        destruct X as [X|X]; apply Sp in X; destruct X.
      - left. destruct (proj1 (Sp e) (or_introl eq_refl)) as (_ & H1 & H2). exists (fst e), (snd e). auto. }
    destruct Hc as [(r & b0 & Hc)|[(r & b0 & Hc)|[(r & Hc)|(r1 & r2 & Hc)]]].
    - destruct Dec as [Hcut|[-> Hno]].
      + destruct (C42_random_flip E h a o Ss Ho Hu Hcut r b0) as (c & h2 & o' & n & q & H2 & S2 & Ho' & _ & Bm & Mv).
        rewrite <- Hc in H2. injection H2 as <- <-. split; auto. exists o'. split; auto. split; [eapply moved_revival; eauto|right; eapply moved_inner; eauto].
      + unfold propose_random_flip in Hc. rewrite (get_bind h a o) in Hc by exact Ho. rewrite (bindM_ok _ _ _ _ _ Hs) in Hc.
        cbn [List.length Nat.eqb] in Hc. injection Hc as -> ->. split; auto. destruct (K1 a o Ho) as (o1 & Ho1 & E1 & _).
        exists o1. split; auto. rewrite E1. split; [intros q Hq; exact Hq|left; intro x; reflexivity].
    - destruct Dec as [Hcut|[-> Hno]].
      + destruct (C43_chunk_flip E h a o Ss Ho Hu Hcut r b0) as (c & h2 & o' & v & m & p & H2 & S2 & Ho' & _ & Ad & Dv & Dm & H3 & H4 & H5).
        rewrite <- Hc in H2. injection H2 as <- <-. split; auto. exists o'. split; auto.
        split; [|right; exists v, m; split; auto; rewrite H5; symmetry; now apply H3].
        intros q Hq x Hx.
        assert (Dec : adj g v x \/ ~ adj g v x).
        { unfold adj. destruct (In_dec eq_dec_of (v, x) (g_edges g)) as [X|X]; [auto|]. destruct (In_dec eq_dec_of (x, v) (g_edges g)) as [Y|Y]; [auto|]. tauto. }
        destruct Dec as [X|X].
        * apply (Hq v). rewrite (H3 x X) in Hx. congruence.
        * apply (Hq x). rewrite <- (H4 x X). exact Hx.
      + pose proof (C43_chunk_no_cut_edges E h a o Ss Ho Hu Hno r b0) as X. rewrite <- Hc in X. discriminate.
    - destruct (C44_moves E h a o Ss Ho Hu) as (mv & _ & Im & H). specialize (H r).
      destruct (choice r mv) as [[n q]|e|] eqn:Er; [|destruct H as [H _]; rewrite <- Hc in H; discriminate|destruct H].
      destruct H as (c & h2 & o' & H2 & S2 & Ho' & _ & Mv). rewrite <- Hc in H2. injection H2 as <- <-. split; auto. exists o'. split; auto.
      assert (Bm : boundary_move g (o_assign o) n q) by (apply Im; eapply choice_In; eauto).
      split; [eapply moved_revival; eauto|right; eapply moved_inner; eauto].
    - destruct (C44_bi E h a o Ss Ho Hu) as (bs & _ & Ib & H). specialize (H r1 r2).
      destruct (choice r1 bs) as [n|e|] eqn:Er; [|destruct H as [H _]; rewrite <- Hc in H; discriminate|destruct H as [H _]; rewrite <- Hc in H; discriminate].
      destruct H as [H1 H2].
      assert (Dec2 : (exists m, adj g n m /\ district (o_assign o) m = district (o_assign o) n) \/ (forall m, adj g n m -> district (o_assign o) m <> district (o_assign o) n)).
      { destruct (existsb (fun m => eqb (district (o_assign o) m) (district (o_assign o) n)) (neighbors g n)) eqn:Ex.
        - apply existsb_exists in Ex. destruct Ex as (m & Hm & Em). left. exists m. split; [now apply In_neighbors in Hm|]. now destruct (eqb_spec (district (o_assign o) m) (district (o_assign o) n)).
        - right. intros m Am Em. assert (X : existsb (fun m => eqb (district (o_assign o) m) (district (o_assign o) n)) (neighbors g n) = true); [|congruence].
          apply existsb_exists. exists m. split; [now apply In_neighbors|]. rewrite Em. apply eqb_refl. }
      destruct Dec2 as [D|D].
      + destruct (H1 D) as (c & h2 & o' & q & X & S2 & Ho' & _ & Bm & Mv). rewrite <- Hc in X. injection X as <- <-. split; auto. exists o'. split; auto. split; [eapply moved_revival; eauto|right; eapply moved_inner; eauto].
      + specialize (H2 D). rewrite <- Hc in H2. discriminate.
  Qed.
  Lemma call_step a h o b h' : session E h -> nth_error h a = Some o ->
    dget (e_updaters E) "cut_edges"%string = Some UCutEdges -> boundary_call a h (Ok b, h') ->
    session E h' /\ exists o', nth_error h' b = Some o' /\ no_revival (o_assign o) (o_assign o').
  Proof.
    intros Ss Ho Hu [Hc|(Hbp & draws & Hc)].
    - destruct (one_step a h o b h' Ss Ho Hu Hc) as (S' & o' & Ho' & Hn & _). eauto.
    - destruct (C43_every_district E h a o Ss Ho Hu Hbp draws) as (S2 & H & _). rewrite <- Hc in S2, H. cbn [fst snd] in S2, H.
      destruct (H b eq_refl) as (o' & Ho' & _ & Hx). split; auto. exists o'. split; auto.
      intros q Hq x Dx. destruct (Hx x) as [X|(q' & X & (m & _ & Dm & _))]; [apply (Hq x)|apply (Hq m)]; congruence.
  Qed.

  (** Chains whose proposal calls one of these each time, with any constraints,
      any acceptance function and any loop body. *)
  Section Run.
    Context {R : Type}.
    Notation W := (heap N P V L * R)%type.
    Hypothesis Hu : dget (e_updaters E) "cut_edges"%string = Some UCutEdges.
    Variable proposal : nat -> W -> res nat * W.
    Variable accept : nat -> W -> res pyval * W.
    Variable cs : list (constraint nat W).
    Variable body : nat -> W -> W.
    Hypothesis accept_ok : forall a, well_behaved E (accept a).
    Hypothesis cs_ok : forall c a, In c cs -> well_behaved E (c a).
    Hypothesis body_ok : forall a, well_behaved E (fun w => (tt, body a w)).

    (** C114. A district that is empty in one plan of such a chain is empty in all
        later ones; so if all nodes are in one district they stay there. *)
    Theorem C114_gone : forall n fuel ch w ys en ch' w' o0,
      (forall a w, boundary_call a (fst w) (fst (proposal a w), fst (snd (proposal a w)))) ->
      ch_valid ch = Reusable cs -> session E (fst w) -> nth_error (fst w) (ch_initial ch) = Some o0 ->
      for_loop proposal accept erase_link n fuel body ch w = (ys, en, ch', w') ->
      forall i j a v b u, i <= j -> nth_error ys i = Some (a, v) -> nth_error ys j = Some (b, u) ->
      exists o o', nth_error (fst v) a = Some o /\ nth_error (fst u) b = Some o' /\
        (forall q, (forall x, district (o_assign o) x <> Some q) -> forall x, district (o_assign o') x <> Some q) /\
        (forall p, (forall x, In x (g_nodes g) -> district (o_assign o) x = Some p) ->
           forall x, In x (g_nodes g) -> district (o_assign o') x = Some p).
    Proof.
      intros n fuel ch w ys en ch' w' o0 Calls Hv Ss Ho Hl i j a v b u Hij Hi Hj.
      assert (Step : forall a o (w : W) b w', session E (fst w) -> nth_error (fst w) a = Some o -> proposal a w = (Ok b, w') ->
        session E (fst w') /\ kept (fst w) (fst w') /\ exists o', nth_error (fst w') b = Some o' /\ no_revival (o_assign o) (o_assign o')).
      { clear - Calls Hu. intros a o w b w' Sw How H. pose proof (Calls a w) as C. rewrite H in C. cbn [fst snd] in C.
        pose proof (call_kept a (fst w) _ Sw C) as K. destruct (call_step a (fst w) o b (fst w') Sw How Hu C) as (S' & o' & Ho' & Hn). eauto 6. }
      destruct (run_invariant E proposal accept cs body accept_ok cs_ok body_ok) with (n := n) (fuel := fuel) (ch := ch) (w := w) (ys := ys) (en := en) (ch' := ch') (w' := w') (o0 := o0)
        as [Ex Inv]; auto.
      { intros a1 o1 w1 b1 w2 S1 H1 H2. destruct (Step a1 o1 w1 b1 w2 S1 H1 H2) as (X1 & X2 & o' & X3 & _). eauto. }
      destruct (Ex a v (nth_error_In _ _ Hi)) as (Sv & o & Hov). destruct (Ex b u (nth_error_In _ _ Hj)) as (Su & o' & Hou).
      exists o, o'. split; auto. split; auto.
      assert (Gone : no_revival (o_assign o) (o_assign o')).
      { intros q Hq. apply (Inv (fun A => forall x, district A x <> Some q)) with (i := i) (j := j) (a := a) (v := v) (b := b) (u := u) (o := o); auto.
        intros a1 o1 w1 b1 w2 o2 S1 H1 H2 H3. destruct (Step a1 o1 w1 b1 w2 S1 H1 H2) as (_ & _ & o3 & X3 & X4).
        assert (o3 = o2) by congruence. subst o3. apply X4. }
      split; [exact Gone|]. intros p Hp x Hx.
      pose proof (session_coherent E (fst u) b o' Su Hou) as C'. pose proof (session_coherent E (fst v) a o Sv Hov) as C.
      destruct (has_district g (o_assign o') x C' Hx) as [q Hq]. destruct (eqb_spec q p) as [->|Nq]; auto. exfalso.
      apply (Gone q) with (n := x); auto. intros y Hy.
      assert (Ny : In y (g_nodes g)) by (apply (coh_dom _ _ C); eapply dget_Some_key; exact Hy). rewrite (Hp y Ny) in Hy. congruence.
    Qed.

    (** C114. Every plan such a chain yields is the initial plan or has an edge
        inside a district. *)
    Theorem C114_inner_edge : forall n fuel ch w ys en ch' w' o0,
      (forall a w, one_node_call a (fst w) (fst (proposal a w), fst (snd (proposal a w)))) ->
      ch_valid ch = Reusable cs -> session E (fst w) -> nth_error (fst w) (ch_initial ch) = Some o0 ->
      for_loop proposal accept erase_link n fuel body ch w = (ys, en, ch', w') ->
      forall a v, In (a, v) ys -> exists o, nth_error (fst v) a = Some o /\
        ((forall x, district (o_assign o) x = district (o_assign o0) x) \/
         exists x y, adj g x y /\ district (o_assign o) x = district (o_assign o) y).
    Proof.
      intros n fuel ch w ys en ch' w' o0 Calls Hv Ss Ho Hl a v Hi.
      assert (Step : forall a o (w : W) b w', session E (fst w) -> nth_error (fst w) a = Some o -> proposal a w = (Ok b, w') ->
        session E (fst w') /\ kept (fst w) (fst w') /\ exists o', nth_error (fst w') b = Some o' /\
          (same_plan (o_assign o) (o_assign o') \/ inner_edge (o_assign o'))).
      { clear - Calls Hu. intros a o w b w' Sw How H. pose proof (Calls a w) as C. rewrite H in C. cbn [fst snd] in C.
        pose proof (call_kept a (fst w) _ Sw (or_introl C)) as K. destruct (one_step a (fst w) o b (fst w') Sw How Hu C) as (S' & o' & Ho' & _ & Hn). eauto 6. }
      destruct (run_invariant E proposal accept cs body accept_ok cs_ok body_ok) with (n := n) (fuel := fuel) (ch := ch) (w := w) (ys := ys) (en := en) (ch' := ch') (w' := w') (o0 := o0)
        as [Ex Inv]; auto.
      { intros a1 o1 w1 b1 w2 S1 H1 H2. destruct (Step a1 o1 w1 b1 w2 S1 H1 H2) as (X1 & X2 & o' & X3 & _). eauto. }
      destruct (C37_steps proposal accept erase_link n fuel body ch w ys en ch' w' cs Hv Hl) as [->|(rest & -> & _)]; [destruct Hi|].
      destruct (In_nth_error _ _ Hi) as [j Hj]. destruct (Ex a v Hi) as (_ & o & Hov). exists o. split; auto.
      apply (Inv (fun A => same_plan (o_assign o0) A \/ inner_edge A)) with (i := 0) (j := j) (a := ch_initial ch) (v := w) (b := a) (u := v) (o := o0); auto; [|lia|left; intro x; reflexivity].
      intros a1 o1 w1 b1 w2 o2 S1 H1 H2 H3 [Sm|In1]; destruct (Step a1 o1 w1 b1 w2 S1 H1 H2) as (_ & _ & o3 & X3 & X4);
        assert (o3 = o2) by congruence; subst o3.
      - destruct X4 as [X4|X4]; auto. left. intro x. rewrite X4. apply Sm.
      - destruct X4 as [X4|X4]; auto. right. destruct In1 as (x & y & Ad & Dxy). exists x, y. split; auto. rewrite !X4. exact Dxy.
    Qed.
  End Run.
End Reach.

(** ** Recombination on a cycle *)
Definition hex_g : graph nat := mkGraph [0; 1; 2; 3; 4; 5] [(0, 1); (1, 2); (2, 3); (3, 4); (4, 5); (0, 5)].
Definition hex : env nat nat Z nat :=
  mkEnv hex_g (fun _ _ => None) (fun _ => false) (fun _ => 0%Z) (fun _ => 0%Z) (fun _ _ => None) [("cut_edges"%string, UCutEdges)].
Definition hex_pop : dict nat Z := [(0, 1%Z); (1, 1%Z); (2, 1%Z); (3, 1%Z); (4, 1%Z); (5, 1%Z)].
Definition hex_at (d : dict nat nat) : heap nat nat Z nat := match M_Machine.root hex d with Ok h => h | _ => [] end.
(** The two ways to cut the cycle into three pairs. *)
Definition hex_1 : dict nat nat := [(0, 1); (1, 1); (2, 2); (3, 2); (4, 3); (5, 3)].
Definition hex_2 : dict nat nat := [(0, 1); (1, 2); (2, 2); (3, 3); (4, 3); (5, 1)].
Lemma hex_wfg : wf_graph hex_g. Proof. wfg. Qed.
Lemma hex_covers : covers hex_pop hex_g.
Proof. split; [nodup|intro n; reflexivity]. Qed.
Lemma hex_session d h : is_dict d -> M_Machine.root hex d = Ok h -> session hex (hex_at d).
Proof.
  intros D R. split; [|split].
  - split; [exact hex_wfg|]. intros k ps al H. apply dget_In in H. destruct H as [H|[]]. discriminate.
  - intros k u H k' u' H'. apply dget_In in H. simpl in H. repeat destruct H as [H|H]; try contradiction; injection H as <- <-; simpl in H';
      repeat destruct H' as [H'|H']; try contradiction; injection H' as <- <-; reflexivity.
  - exists d, h, []. split; auto. split; auto. split; [constructor|]. unfold hex_at. now rewrite R.
Qed.

(** The pairs 01, 23 and 45. *)
Definition in_pairs (A : assignment nat nat) : Prop :=
  (district A 0 = district A 1 /\ district A 2 = district A 3 /\ district A 4 = district A 5) /\
  district A 0 <> district A 2 /\ district A 2 <> district A 4 /\ district A 4 <> district A 0.

Lemma two_joined (S : nat -> Prop) u v : u <> v -> (forall x, S x <-> x = u \/ x = v) -> connected_on hex_g S -> adj hex_g u v.
Proof.
  intros Nuv HS C.
  assert (R : forall x, reach (fun a b => adj hex_g a b /\ S a /\ S b) u x -> x = u \/ adj hex_g u v).
  { intros x H. induction H as [|y z H IH (H1 & H2 & H3)]; [now left|].
    apply HS in H2. apply HS in H3. destruct H3 as [->| ->]; [now left|]. destruct H2 as [->| ->]; [now right|]. destruct IH; [congruence|now right]. }
  destruct (R v) as [X|X]; auto; [|congruence]. apply C; apply HS; auto.
Qed.

Lemma hex_pair (A : assignment nat nat) p : coherent (g_nodes hex_g) A ->
  in_balance hex_pop A 2 0 p -> connected_on hex_g (in_district A p) ->
  exists u v, In (u, v) (g_edges hex_g) /\ forall x, district A x = Some p <-> x = u \/ x = v.
Proof.
  intros C (z & (s & ND & Hs & ->) & B) Con.
  assert (Sn : forall n, In n s -> In n (g_nodes hex_g)).
  { intros n Hn. apply Hs in Hn. apply (proj1 (coh_dom _ _ C n)). eapply dget_Some_key; exact Hn. }
  assert (L : vsum (map (popn hex_pop) s) = Z.of_nat (List.length s)).
  { clear - Sn. induction s as [|n s IH]; [reflexivity|].
    cbn [map]. rewrite vsum_cons, IH by (intros; apply Sn; now right).
    assert (popn hex_pop n = 1%Z) as -> by (specialize (Sn n (or_introl eq_refl)); cbn in Sn; repeat destruct Sn as [<-|Sn]; try reflexivity; destruct Sn).
    cbn [List.length]. change (1 + Z.of_nat (List.length s) = Z.of_nat (S (List.length s)))%Z. lia. }
  unfold S_Tree.balanced in B. rewrite L in B. apply Qabs_Qle_condition in B.
  assert (Z.of_nat (List.length s) = 2%Z).
  { destruct B as [B1 B2]. unfold Qle, Qminus, Qplus, Qopp, inject_Z, Qmult in B1, B2. cbn [Qnum Qden] in B1, B2. lia. }
  destruct s as [|u [|v [|]]]; cbn [List.length] in *; try lia.
  assert (HS : forall x, in_district A p x <-> x = u \/ x = v).
  { intro x. rewrite <- Hs. cbn. intuition congruence. }
  assert (Nuv : u <> v). { apply NoDup_cons_iff in ND. destruct ND as [ND _]. intro. apply ND. left. congruence. }
  destruct (two_joined (in_district A p) u v Nuv HS Con) as [H0|H0].
  - exists u, v. split; auto.
  - exists v, u. split; auto. intro x. rewrite (HS x). tauto.
Qed.

Lemma hex_step (A A' : assignment nat nat) p q : coherent (g_nodes hex_g) A' -> redrawn A p q A' ->
  (forall x, x = p \/ x = q -> connected_on hex_g (in_district A' x) /\ in_balance hex_pop A' 2 0 x) ->
  in_pairs A -> in_pairs A'.
Proof.
  intros C [R1 R2] G ((A1 & A2 & A3) & A4 & A5 & A6).
  destruct (Nat.eq_dec p q) as [->|Npq].
  { assert (Sm : forall x, district A' x = district A x).
    { intro x. destruct (eqb_spec (district A x) (Some q)) as [Dx|Dx]; [|now apply R1]. rewrite Dx. destruct (R2 x); auto. }
    unfold in_pairs. rewrite !Sm. auto. }
  destruct (G p (or_introl eq_refl)) as [C1 B1]. destruct (G q (or_intror eq_refl)) as [C2 B2].
  destruct (hex_pair A' p C B1 C1) as (u & v & E1 & D1). destruct (hex_pair A' q C B2 C2) as (u' & v' & E2 & D2).
  assert (M : forall x, (x = u \/ x = v \/ x = u' \/ x = v') \/ (x <> u /\ x <> v /\ x <> u' /\ x <> v')) by (intro; lia).
  assert (K : forall x, (district A x = Some p \/ district A x = Some q) <-> (district A' x = Some p \/ district A' x = Some q)).
  { intro x. split; [apply R2|]. intros H. destruct (eqb_spec (district A x) (Some p)) as [|X1]; auto.
    destruct (eqb_spec (district A x) (Some q)) as [|X2]; auto. rewrite (R1 x X1 X2) in H. exact H. }
  assert (F : forall x, (x = u \/ x = v -> district A' x = Some p /\ (district A x = Some p \/ district A x = Some q)) /\
                        (x = u' \/ x = v' -> district A' x = Some q /\ (district A x = Some p \/ district A x = Some q)) /\
                        (x <> u -> x <> v -> x <> u' -> x <> v' -> district A' x = district A x /\ district A x <> Some p /\ district A x <> Some q)).
  { intro x. split; [|split].
    - intro H. apply D1 in H. split; auto. apply K. auto.
    - intro H. apply D2 in H. split; auto. apply K. auto.
    - intros H1 H2 H3 H4.
      assert (X : ~ (district A x = Some p \/ district A x = Some q)).
      { rewrite K. intros [X|X]; [apply D1 in X|apply D2 in X]; tauto. }
      assert (district A x <> Some p /\ district A x <> Some q) as [X1 X2] by tauto. rewrite R1; auto. }
  assert (Dis : forall x, (x = u \/ x = v) -> (x = u' \/ x = v') -> False).
  { intros x H1 H2. apply D1 in H1. apply D2 in H2. congruence. }
  clear C R1 R2 G C1 B1 C2 B2 D1 D2 M K.
  pose proof (F 0) as F0. pose proof (F 1) as F1. pose proof (F 2) as F2. pose proof (F 3) as F3. pose proof (F 4) as F4. pose proof (F 5) as F5. clear F.
  unfold in_pairs.
  set (a0 := district A 0) in *; set (a1 := district A 1) in *; set (a2 := district A 2) in *; set (a3 := district A 3) in *; set (a4 := district A 4) in *; set (a5 := district A 5) in *.
  set (b0 := district A' 0) in *; set (b1 := district A' 1) in *; set (b2 := district A' 2) in *; set (b3 := district A' 3) in *; set (b4 := district A' 4) in *; set (b5 := district A' 5) in *.
  clearbody a0 a1 a2 a3 a4 a5 b0 b1 b2 b3 b4 b5. clear A A'. subst a1 a3 a5.
  cbn in E1, E2.
  repeat destruct E1 as [E1|E1]; try contradiction; injection E1 as <- <-;
  repeat destruct E2 as [E2|E2]; try contradiction; injection E2 as <- <-;
  try (exfalso; first [apply (Dis 0); lia|apply (Dis 1); lia|apply (Dis 2); lia|apply (Dis 3); lia|apply (Dis 4); lia|apply (Dis 5); lia]);
  clear Dis;
  repeat match goal with
  | H : (?P -> _) /\ (?Q -> _) /\ (_ -> _ -> _ -> _ -> _) |- _ =>
      let G := fresh in
      first [ assert (G : P) by lia; apply (proj1 H) in G; clear H; destruct G
            | assert (G : Q) by lia; apply (proj1 (proj2 H)) in G; clear H; destruct G
            | pose proof (proj2 (proj2 H) ltac:(lia) ltac:(lia) ltac:(lia) ltac:(lia)) as G; clear H; destruct G as (? & ? & ?) ]
  end;
  solve [exfalso; intuition congruence | repeat split; intuition congruence].
Qed.

Definition hex_plan (d : dict nat nat) : pobj nat nat Z nat := nth 0 (hex_at d) (mkObj (mkAssignment [] []) None None [] None []).
Lemma hex_o1 : nth_error (hex_at hex_1) 0 = Some (hex_plan hex_1). Proof. vm_compute. reflexivity. Qed.
Lemma hex_o2 : nth_error (hex_at hex_2) 0 = Some (hex_plan hex_2). Proof. vm_compute. reflexivity. Qed.
Lemma hex_s1 : session hex (hex_at hex_1). Proof. eapply hex_session; [nodup|vm_compute; reflexivity]. Qed.
Lemma hex_s2 : session hex (hex_at hex_2). Proof. eapply hex_session; [nodup|vm_compute; reflexivity]. Qed.

(** A plan that a recombination chain could want: connected districts, each
    within the tolerance. *)
Definition fine {N P V L} {EN : EqB N} {EP : EqB P} (E : env N P V L) (pop : dict N Z) (target eps : Q) (A : assignment N P) : Prop :=
  contiguous_plan (e_graph E) A /\ forall p, In p (labels A) -> in_balance pop A target eps p.
(** Two plans with the same districts, whatever their labels. *)
Definition same_split {N P} {EN : EqB N} (nodes : list N) (A B : assignment N P) : Prop :=
  forall x y, In x nodes -> In y nodes -> (district A x = district A y <-> district B x = district B y).

Lemma hex_fine d : In d [hex_1; hex_2] -> fine hex hex_pop 2 0 (o_assign (hex_plan d)).
Proof.
  intro Hd.
  assert (Ho : nth_error (hex_at d) 0 = Some (hex_plan d)) by (destruct Hd as [<-|[<-|[]]]; [exact hex_o1|exact hex_o2]).
  assert (Ss : session hex (hex_at d)) by (destruct Hd as [<-|[<-|[]]]; [exact hex_s1|exact hex_s2]).
  pose proof (session_coherent hex (hex_at d) 0 _ Ss Ho) as C. split.
  - apply yes_contiguous; [exact hex_wfg|exact C|]. destruct Hd as [<-|[<-|[]]]; vm_compute; reflexivity.
  - assert (Q1 : forall p s, dget (a_parts (o_assign (hex_plan d))) p = Some s -> S_Tree.balanced 2 0 (vsum (map (popn hex_pop) s)) ->
      in_balance hex_pop (o_assign (hex_plan d)) 2 0 p).
    { intros p s Hs B. exists (vsum (map (popn hex_pop) s)). split; auto. exists s. split; [exact (coh_parts_nodup _ _ C p s Hs)|]. split; auto.
      intro n. unfold in_district. rewrite (coh_agree _ _ C). unfold listed. split; [eauto|]. intros (s' & H1 & H2). congruence. }
    intros p Hp. clear C Ss Ho. destruct Hd as [<-|[<-|[]]]; vm_compute in Hp;
      repeat destruct Hp as [<-|Hp]; try contradiction; (eapply Q1; [vm_compute; reflexivity|vm_compute; discriminate]).
Qed.

Section Hexagon.
  Context {R : Type}.
  Notation W := (heap nat nat Z nat * R)%type.
  Variable proposal : nat -> W -> res nat * W.
  Variable accept : nat -> W -> res pyval * W.
  Variable cs : list (constraint nat W).
  Variable body : nat -> W -> W.
  Hypothesis accept_ok : forall a, well_behaved hex (accept a).
  Hypothesis cs_ok : forall c a, In c cs -> well_behaved hex (c a).
  Hypothesis body_ok : forall a, well_behaved hex (fun w => (tt, body a w)).
  Hypothesis proposes : forall a o (w : W) b w', session hex (fst w) -> nth_error (fst w) a = Some o ->
    proposal a w = (Ok b, w') -> redraws hex hex_pop 2 0 a o (fst w) b (fst w').

  Lemma hex_stuck n fuel ch w ys en ch' w' :
    ch_valid ch = Reusable cs -> ch_initial ch = 0 -> fst w = hex_at hex_1 ->
    for_loop proposal accept erase_link n fuel body ch w = (ys, en, ch', w') ->
    forall a v, In (a, v) ys -> exists o, nth_error (fst v) a = Some o /\ in_pairs (o_assign o).
  Proof.
    intros Hv Hi Hw Hl a v Ha. pose proof hex_s1 as Ss. rewrite <- Hw in Ss. pose proof hex_o1 as Ho. rewrite <- Hw, <- Hi in Ho.
    destruct (run_invariant hex proposal accept cs body accept_ok cs_ok body_ok) with (n := n) (fuel := fuel) (ch := ch) (w := w) (ys := ys) (en := en) (ch' := ch') (w' := w') (o0 := hex_plan hex_1)
      as [Ex Inv]; auto.
    { intros a1 o1 w1 b1 w2 S1 H1 H2. destruct (proposes a1 o1 w1 b1 w2 S1 H1 H2) as (S' & K & Cs). split; auto. split; auto.
      destruct Cs as [->|(o' & p & q & X & _)]; eauto. destruct (K a1 o1 H1) as (o2 & Ho2 & _). eauto. }
    destruct (C37_steps proposal accept erase_link n fuel body ch w ys en ch' w' cs Hv Hl) as [->|(rest & -> & _)]; [destruct Ha|].
    destruct (In_nth_error _ _ Ha) as [j Hj]. destruct (Ex a v Ha) as (_ & o & Hov). exists o. split; auto.
    apply (Inv in_pairs) with (i := 0) (j := j) (a := ch_initial ch) (v := w) (b := a) (u := v) (o := hex_plan hex_1); auto; [|lia|].
    - intros a1 o1 w1 b1 w2 o2 S1 H1 H2 H3 Pr. destruct (proposes a1 o1 w1 b1 w2 S1 H1 H2) as (S' & K & [->|(o' & p & q & X & Rd & G)]).
      + destruct (K a1 o1 H1) as (o' & X & Y & _). assert (o' = o2) by congruence. subst o'. now rewrite Y.
      + assert (o' = o2) by congruence. subst o'. apply (hex_step (o_assign o1) (o_assign o2) p q); auto. exact (session_coherent hex (fst w2) b1 o2 S' X).
    - repeat split; vm_compute; congruence.
  Qed.

  Lemma hex_never n fuel ch w ys en ch' w' :
    ch_valid ch = Reusable cs -> ch_initial ch = 0 -> fst w = hex_at hex_1 ->
    for_loop proposal accept erase_link n fuel body ch w = (ys, en, ch', w') ->
    forall a v o, In (a, v) ys -> nth_error (fst v) a = Some o -> ~ same_split (g_nodes hex_g) (o_assign o) (o_assign (hex_plan hex_2)).
  Proof.
    intros Hv Hi Hw Hl a v o Ha Ho Sm. destruct (hex_stuck n fuel ch w ys en ch' w' Hv Hi Hw Hl a v Ha) as (o' & Ho' & ((X & _) & _)).
    assert (o' = o) by congruence. subst o'. apply (Sm 0 1) in X; [|cbn; tauto|cbn; tauto]. vm_compute in X. discriminate.
  Qed.
End Hexagon.

(** C114. Recombination cannot reach every plan either: there are a map, a
    target population, a tolerance and two plans with the same labels, both with
    connected districts within the tolerance, such that no chain of recom that
    starts from the first ever yields the second or a relabelling of it. *)
Theorem C114_recom_refuted :
  exists (E : env nat nat Z nat) pop target eps h1 o1 h2 o2,
    dget (e_updaters E) "cut_edges"%string = Some UCutEdges /\ covers pop (e_graph E) /\ (0 < target)%Q /\ (0 <= eps < 1)%Q /\
    session E h1 /\ nth_error h1 0 = Some o1 /\ fine E pop target eps (o_assign o1) /\
    session E h2 /\ nth_error h2 0 = Some o2 /\ fine E pop target eps (o_assign o2) /\
    labels (o_assign o1) = labels (o_assign o2) /\
    forall (R : Type) (input : nat -> R -> @method_fn nat * (nat -> nat) * nat * R) accept cs body,
      (forall a r, inside (fst (fst (fst (input a r)))) /\ splits_connected (fst (fst (fst (input a r))))) ->
      (forall a, well_behaved E (accept a)) -> (forall c a, In c cs -> well_behaved E (c a)) ->
      (forall a, well_behaved E (fun w : heap nat nat Z nat * R => (tt, body a w))) ->
      forall n fuel ch r ys en ch' w', ch_valid ch = Reusable cs -> ch_initial ch = 0 ->
      for_loop (recom_proposal E pop input target eps) accept erase_link n fuel body ch (h1, r) = (ys, en, ch', w') ->
      forall a v o, In (a, v) ys -> nth_error (fst v) a = Some o -> ~ same_split (g_nodes (e_graph E)) (o_assign o) (o_assign o2).
Proof.
  exists hex, hex_pop, 2%Q, 0%Q, (hex_at hex_1), (hex_plan hex_1), (hex_at hex_2), (hex_plan hex_2).
  split; [reflexivity|]. split; [exact hex_covers|]. split; [lra|]. split; [lra|].
  split; [exact hex_s1|]. split; [exact hex_o1|]. split; [apply hex_fine; cbn; auto|].
  split; [exact hex_s2|]. split; [exact hex_o2|]. split; [apply hex_fine; cbn; auto|]. split; [vm_compute; reflexivity|].
  intros R input accept cs body M Ha Hc Hb n fuel ch r ys en ch' w' Hv Hi Hl.
  refine (hex_never _ accept cs body Ha Hc Hb _ n fuel ch (hex_at hex_1, r) ys en ch' w' Hv Hi eq_refl Hl).
  intros a o w b w1. apply (recom_proposes hex hex_pop hex_covers 2 0 eq_refl input M).
Qed.

(** The same for chains of reversible_recom. *)
Theorem C114_reversible_refuted :
  exists (E : env nat nat Z nat) pop target eps h1 o1 h2 o2,
    covers pop (e_graph E) /\ (0 < target)%Q /\ (0 <= eps < 1)%Q /\
    session E h1 /\ nth_error h1 0 = Some o1 /\ fine E pop target eps (o_assign o1) /\
    session E h2 /\ nth_error h2 0 = Some o2 /\ fine E pop target eps (o_assign o2) /\
    labels (o_assign o1) = labels (o_assign o2) /\
    forall (R : Type) (spins : nat -> R -> @spin nat * R) balance max repeat bound accept cs body,
      cut_search balance ->
      (forall a r nodes, samples (subgraph (e_graph E) nodes) (sp_tree (fst (spins a r)) (subgraph (e_graph E) nodes))) ->
      (forall a, well_behaved E (accept a)) -> (forall c a, In c cs -> well_behaved E (c a)) ->
      (forall a, well_behaved E (fun w : heap nat nat Z nat * R => (tt, body a w))) ->
      forall n fuel ch r ys en ch' w', ch_valid ch = Reusable cs -> ch_initial ch = 0 ->
      for_loop (reversible_proposal E pop spins balance max repeat bound target eps) accept erase_link n fuel body ch (h1, r) = (ys, en, ch', w') ->
      forall a v o, In (a, v) ys -> nth_error (fst v) a = Some o -> ~ same_split (g_nodes (e_graph E)) (o_assign o) (o_assign o2).
Proof.
  exists hex, hex_pop, 2%Q, 0%Q, (hex_at hex_1), (hex_plan hex_1), (hex_at hex_2), (hex_plan hex_2).
  split; [exact hex_covers|]. split; [lra|]. split; [lra|].
  split; [exact hex_s1|]. split; [exact hex_o1|]. split; [apply hex_fine; cbn; auto|].
  split; [exact hex_s2|]. split; [exact hex_o2|]. split; [apply hex_fine; cbn; auto|]. split; [vm_compute; reflexivity|].
  intros R spins balance max repeat bound accept cs body Hs Tr Ha Hc Hb n fuel ch r ys en ch' w' Hv Hi Hl.
  refine (hex_never _ accept cs body Ha Hc Hb _ n fuel ch (hex_at hex_1, r) ys en ch' w' Hv Hi eq_refl Hl).
  intros a o w b w1 S Ho H. unfold reversible_proposal in H. pose proof (Tr a (snd w)) as Tr'.
  destruct (spins a (snd w)) as [s r']. cbn [fst] in Tr'.
  destruct (reversible_recom _ _ _ _ _ _ _ _ _ _ _ _ _ _ _ _ _ _) as [b' h'] eqn:Er. injection H as -> <-. cbn [fst].
  refine (reversible_redraws hex hex_pop hex_covers 2 0 balance _ _ _ _ max repeat bound _ _ _ _ a o (fst w) b h' Hs _ S Ho Er).
  intros nodes p q _. apply Tr'.
Qed.

(** Trees for each pair of neighbouring districts of the cycle; with them the
    methods meet their contracts and the chain of C114_recom_refuted runs, here
    for four plans. *)
Definition hex_trees : list (graph nat) :=
  [path_tree 4; mkGraph [2; 3; 4; 5] [(2, 3); (3, 4); (4, 5)]; mkGraph [0; 1; 4; 5] [(0, 1); (0, 5); (4, 5)]].
Lemma hex_trees_ok : Forall is_tree hex_trees.
Proof. unfold hex_trees. repeat (apply Forall_cons; [apply is_connected_tree; [wfg|reflexivity|vm_compute; reflexivity]|]). apply Forall_nil. Qed.
Definition hex_method : @method_fn nat :=
  tree_method find_cuts_memoization (fun _ g _ => lookup_tree hex_trees g) hex_pop
    (fun _ _ _ => 0%Q) (fun _ i => i) 4 (Some 4) 1 true (fun _ => max_weight_choice).
Lemma hex_contracts : inside hex_method /\ splits_connected hex_method.
Proof.
  assert (H : inside hex_method /\ splits_connected hex_method /\ tolerant hex_pop hex_method); [|tauto].
  apply C56_bipartition_tree.
  - apply C53_memoization_search.
  - intros i g. exact (lookup_samples hex_trees g 0 hex_trees_ok).
  - intros _ cuts c H. destruct cuts as [|c0 l]; [discriminate|].
    destruct (C62_max_weight (c0 :: l)) as (c' & E & I & _); [discriminate|]. congruence.
Qed.
Example C114_recom_nonvacuous :
  inside hex_method /\ splits_connected hex_method /\
  exists ys ch' w' h3 o3,
    for_loop (recom_proposal hex hex_pop (fun a (r : unit) => (hex_method, fun i => i + a, 5, r)) 2 0) anything erase_link 6 5 (fun _ w => w)
      (mkChain (Reusable []) 4 0 0 None) (hex_at hex_1, tt) = (ys, Finished, ch', w') /\
    nth_error ys 3 = Some (3, (h3, tt)) /\ nth_error h3 3 = Some o3.
Proof. split; [apply hex_contracts|]. split; [apply hex_contracts|]. do 5 eexists. split; [vm_compute; reflexivity|]. split; vm_compute; reflexivity. Qed.

(** ** The path of four nodes *)
(** propose_any_node_flip can cut every edge of the path. *)
Definition stripes (n : nat) : nat := nth n [2; 1; 2; 1] 2.
Example C114_any_node_nonvacuous : exists o,
  session ex_E (ex_run ex_plan []) /\ nth_error (ex_run ex_plan []) 0 = Some o /\ g_nodes (e_graph ex_E) <> [] /\
  (forall n, In n (g_nodes (e_graph ex_E)) -> In (stripes n) (labels (o_assign o))) /\ List.length (g_nodes (e_graph ex_E)) <= 5.
Proof.
  eexists. split; [ex_session|]. split; [vm_compute; reflexivity|]. split; [discriminate|]. split; [|cbn; lia].
  intros n H. cbn in H. repeat destruct H as [<-|H]; try contradiction; vm_compute; auto.
Qed.
Example C114_swallowed_nonvacuous : exists o,
  session ex_E (ex_run ex_plan []) /\ nth_error (ex_run ex_plan []) 0 = Some o /\
  dget (e_updaters ex_E) "cut_edges"%string = Some UCutEdges /\
  connected_on (e_graph ex_E) (fun n => In n (g_nodes (e_graph ex_E))) /\ (exists n, district (o_assign o) n = Some 2) /\
  List.length (g_nodes (e_graph ex_E)) <= 4.
Proof.
  eexists. split; [ex_session|]. split; [vm_compute; reflexivity|]. split; [reflexivity|].
  split; [|split; [exists 3; vm_compute; reflexivity|cbn; lia]].
  assert (T : is_tree (path_tree 4)) by (apply is_connected_tree; [wfg|reflexivity|vm_compute; reflexivity]).
  intros u v Hu Hv. pose proof (tree_connected _ T u v Hu Hv) as H. clear Hv. induction H as [|x y H IH Ad]; [constructor|].
  econstructor; [exact IH|]. pose proof ex_wf as [Wf _]. split; [exact Ad|]. destruct Ad as [Ad|Ad]; apply (wfg_ends _ Wf) in Ad; tauto.
Qed.

(** A chain of propose_random_flip in which district 2 vanishes and stays away. *)
Example C114_gone_nonvacuous : exists ys ch' w' v1 v3 o1 o3,
  (forall a w, boundary_call ex_E a (fst w) (fst (fed (0, true) (random_flip ex_E) a w), fst (snd (fed (0, true) (random_flip ex_E) a w)))) /\
  session ex_E (ex_run [(0, 1); (1, 1); (2, 1); (3, 2)] []) /\
  for_loop (fed (0, true) (random_flip ex_E)) yes_accept erase_link 9 5 (fun _ w => w) (free_chain 3 0)
    (ex_run [(0, 1); (1, 1); (2, 1); (3, 2)] [], [(0, false)]) = (ys, Finished, ch', w') /\
  nth_error ys 1 = Some (1, v1) /\ nth_error (fst v1) 1 = Some o1 /\ a_map (o_assign o1) = [(0, 1); (1, 1); (2, 1); (3, 1)] /\
  nth_error ys 3 = Some (1, v3) /\ nth_error (fst v3) 1 = Some o3 /\ a_map (o_assign o3) = [(0, 1); (1, 1); (2, 1); (3, 1)].
Proof.
  do 7 eexists. split.
  { intros a w. left. left. unfold fed, random_flip. destruct (propose_random_flip _ _ _ _ _) as [b h] eqn:Er. exists (fst (hd (0, true) (snd w))), (snd (hd (0, true) (snd w))). rewrite Er. reflexivity. }
  split; [ex_session|]. split; [vm_compute; reflexivity|]. repeat split; vm_compute; reflexivity.
Qed.

(** C114. Single flips at the boundary cannot reach every plan: there are a
    connected map and a plan on it, with the labels of the initial plan, none of
    them empty, that no chain of propose_random_flip, propose_chunk_flip,
    slow_reversible_propose or propose_bi ever yields, though a chain of
    propose_any_node_flip can. *)
Theorem C114_flip_refuted :
  exists (E : env nat nat Z nat) h o (B : nat -> nat),
    dget (e_updaters E) "cut_edges"%string = Some UCutEdges /\ session E h /\ nth_error h 0 = Some o /\
    is_connected (e_graph E) = Ok true /\
    (forall p, In p (labels (o_assign o)) <-> exists n, In n (g_nodes (e_graph E)) /\ B n = p) /\
    (forall (R : Type) (proposal : nat -> heap nat nat Z nat * R -> res nat * (heap nat nat Z nat * R)) accept cs body,
      (forall a w, one_node_call E a (fst w) (fst (proposal a w), fst (snd (proposal a w)))) ->
      (forall a, well_behaved E (accept a)) -> (forall c a, In c cs -> well_behaved E (c a)) ->
      (forall a, well_behaved E (fun w : heap nat nat Z nat * R => (tt, body a w))) ->
      forall n fuel ch r ys en ch' w', ch_valid ch = Reusable cs -> ch_initial ch = 0 ->
      for_loop proposal accept erase_link n fuel body ch (h, r) = (ys, en, ch', w') ->
      forall a v o', In (a, v) ys -> nth_error (fst v) a = Some o' ->
      exists n, In n (g_nodes (e_graph E)) /\ district (o_assign o') n <> Some (B n)) /\
    exists k ds ys ch' w',
      for_loop (fed (0, 0) (any_node E)) yes_accept erase_link (S (S k)) 1 (fun _ w => w) (free_chain k 0) (h, ds)
        = (ys, Finished, ch', w') /\
      exists c v o', nth_error ys k = Some (c, v) /\ nth_error (fst v) c = Some o' /\
        forall n, In n (g_nodes (e_graph E)) -> district (o_assign o') n = Some (B n).
Proof.
  destruct C114_any_node_nonvacuous as (o & Ss & Ho & Hne & Hl & Hk).
  exists ex_E, (ex_run ex_plan []), o, stripes. split; [reflexivity|]. split; auto. split; auto. split; [vm_compute; reflexivity|]. split; [|split].
  - intro p. split.
    + intro Hp. assert (Ho' := Ho). vm_compute in Ho'. injection Ho' as <-. vm_compute in Hp.
      destruct Hp as [<-|[<-|[]]]; [exists 1|exists 0]; cbn; auto.
    + intros (n & Hn & <-). now apply Hl.
  - intros R proposal accept cs body Calls Ha Hc Hb n fuel ch r ys en ch' w' Hv Hi Hrun a v o' Hin Ho'.
    assert (Hu : dget (e_updaters ex_E) "cut_edges"%string = Some UCutEdges) by reflexivity.
    assert (Ho2 := Ho). rewrite <- Hi in Ho2.
    destruct (C114_inner_edge ex_E Hu proposal accept cs body Ha Hc Hb n fuel ch (ex_run ex_plan [], r) ys en ch' w' o Calls Hv Ss Ho2 Hrun a v Hin) as (o1 & X & Y).
    assert (o1 = o') by congruence. subst o1. destruct Y as [Y|(x & y & Ad & D)].
    + exists 0. split; [cbn; auto|]. rewrite Y. assert (Ho3 := Ho). vm_compute in Ho3. injection Ho3 as <-. discriminate.
    + assert (Fin : forall z, district (o_assign o') z = Some (stripes z) \/ district (o_assign o') z <> Some (stripes z)).
      { intro z. destruct (eqb_spec (district (o_assign o') z) (Some (stripes z))); auto. }
      destruct Ad as [Ad|Ad]; cbn in Ad; repeat destruct Ad as [Ad|Ad]; try contradiction; injection Ad as <- <-;
        match goal with H : district _ ?u = district _ ?w |- _ =>
          destruct (Fin u) as [F1|F1]; [|exists u; split; [cbn; auto|exact F1]];
          destruct (Fin w) as [F2|F2]; [|exists w; split; [cbn; auto|exact F2]] end;
        exfalso; rewrite D, F2 in F1; discriminate.
  - destruct (C114_any_node ex_E (ex_run ex_plan []) 0 o stripes 5 Ss Ho Hne Hl Hk) as (ds & ys & ch' & w' & _ & X & Y).
    exists 5, ds, ys, ch', w'. auto.
Qed.

Print Assumptions C114_any_node.
Print Assumptions C114_swallowed.
Print Assumptions C114_gone.
Print Assumptions C114_inner_edge.
Print Assumptions C114_flip_refuted.
Print Assumptions C114_recom_refuted.
Print Assumptions C114_reversible_refuted.
