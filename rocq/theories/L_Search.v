(** Lemmas about reachability and the searches that decide it. *)
From Coq Require Import List Bool Arith Lia ZifyBool ZifyNat.
From Verif Require Import Base M_Graph M_Partition S_Partition L_Partition M_Machine M_Contiguity S_Contiguity.
Import ListNotations.

Section Reach.
  Context {X : Type}.
  Implicit Types R : X -> X -> Prop.
  Lemma reach_trans R u v w : reach R u v -> reach R v w -> reach R u w.
  Proof. intros H1 H2. induction H2; auto. eapply reach_step; eauto. Qed.
  Lemma reach_one R u v : R u v -> reach R u v.
  Proof. intro H. eapply reach_step; eauto. constructor. Qed.
  Lemma reach_head R u v w : R u v -> reach R v w -> reach R u w.
  Proof. intros H1 H2. eapply reach_trans; [apply reach_one|]; eauto. Qed.
  Lemma reach_sym R u v : (forall a b, R a b -> R b a) -> reach R u v -> reach R v u.
  Proof. intros S H. induction H; [constructor|]. eapply reach_head; eauto. Qed.
  Lemma reach_mono R R' u v : (forall a b, R a b -> R' a b) -> reach R u v -> reach R' u v.
  Proof. intros S H. induction H; [constructor|]. eapply reach_step; eauto. Qed.
  Lemma reach_closed R (C : X -> Prop) u v : C u -> (forall a b, C a -> R a b -> C b) -> reach R u v -> C v.
  Proof. intros H1 H2 H. induction H; auto. eapply H2; eauto. Qed.
  (** The first step of a path that goes somewhere. *)
  Lemma reach_first R u v : reach R u v -> v = u \/ exists w, R u w /\ reach R w v.
  Proof.
    intro H. induction H as [|v w H IH Hvw]; auto. right. destruct IH as [->|(x & H1 & H2)].
    - exists w. split; auto. constructor.
    - exists x. split; auto. eapply reach_step; eauto.
  Qed.
End Reach.

Section Search.
  Context {N P : Type} {EN : EqB N} {EP : EqB P}.

  Lemma In_neighbors (g : graph N) u v : In v (neighbors g u) <-> adj g u v.
  Proof.
    unfold neighbors, adj. rewrite In_set_of, in_flat_map. split.
    - intros ([a b] & Hin & H). unfold nbrs_in_edge in H. simpl in H. apply in_app_or in H.
      destruct H as [H|H].
      + destruct (eqb_spec a u); [|destruct H]. destruct H as [<-|[]]. subst. auto.
      + destruct (eqb_spec b u); [|destruct H]. destruct H as [<-|[]]. subst. auto.
    - intros [H|H]; eexists; split; try exact H; unfold nbrs_in_edge; simpl;
        rewrite eqb_refl; apply in_or_app; simpl; auto.
  Qed.
  Lemma NoDup_neighbors (g : graph N) u : NoDup (neighbors g u).
  Proof. apply NoDup_set_of. Qed.
  Lemma adj_sym (g : graph N) u v : adj g u v -> adj g v u.
  Proof. unfold adj. tauto. Qed.
  Lemma adj_nodes (g : graph N) u v : wf_graph g -> adj g u v -> In u (g_nodes g) /\ In v (g_nodes g).
  Proof. intros W [H|H]; apply (wfg_ends g W) in H; tauto. Qed.

  (** ** plain_bfs *)
  Lemma plain_bfs_spec (nbrs : N -> list N) (U : list N) (s : N) :
    (forall u v, In u U -> In v (nbrs u) -> In v U) -> NoDup U ->
    forall fuel seen level,
      incl seen U -> NoDup seen -> incl level seen -> In s seen ->
      (forall x, In x seen -> reach (fun a b => In b (nbrs a)) s x) ->
      (forall x y, In x seen -> ~ In x level -> In y (nbrs x) -> In y seen) ->
      List.length U + 1 <= fuel + List.length seen ->
      exists c, plain_bfs fuel nbrs seen level = Ok c /\ NoDup c /\ incl c U /\
                forall x, In x c <-> reach (fun a b => In b (nbrs a)) s x.
  Proof.
    intros HU NU. induction fuel as [|fuel IH]; intros seen level I1 ND I2 Hs R C F.
    - exfalso. pose proof (NoDup_incl_length ND I1). lia.
    - destruct level as [|l0 level'].
      { simpl. exists seen. repeat split; auto. intro H.
        apply (reach_closed _ (fun z => In z seen) s x Hs) in H; auto. intros a b Ha Hb. eapply C; eauto. }
      set (level := l0 :: level') in *. simpl plain_bfs.
      set (new := set_of (sdiff (flat_map nbrs level) seen)).
      assert (Hnew : forall x, In x new <-> (exists y, In y level /\ In x (nbrs y)) /\ ~ In x seen).
      { intro x. unfold new. now rewrite In_set_of, In_sdiff, in_flat_map. }
      change (exists c, plain_bfs fuel nbrs (seen ++ new) new = Ok c /\ NoDup c /\ incl c U /\
                forall x, In x c <-> reach (fun a b => In b (nbrs a)) s x).
      destruct (Nat.eq_dec (List.length new) 0) as [E0|E0].
      { apply length_zero_iff_nil in E0. rewrite E0 in *.
        assert (Cl : forall a b, In a seen -> In b (nbrs a) -> In b seen).
        { intros a b Ha Hb. destruct (In_dec_of b seen) as [|Hn]; auto. exfalso.
          destruct (In_dec_of a level) as [Hl|Hl]; [|apply Hn; eapply C; eauto].
          destruct (proj2 (Hnew b)); eauto. }
        exists seen. rewrite app_nil_r. split; [destruct fuel; reflexivity|]. split; [auto|]. split; [auto|].
        intro x. split; auto. intro H. apply (reach_closed _ (fun z => In z seen) s x Hs) in H; auto. }
      apply IH.
      + intros x Hx. apply in_app_or in Hx. destruct Hx as [Hx|Hx]; auto.
        apply Hnew in Hx. destruct Hx as [(y & Hy & Hxy) _]. apply (HU y x); auto.
      + apply NoDup_app_iff. split; [auto|]. split; [apply NoDup_set_of|].
        intros x Hx Hx'. apply Hnew in Hx'. tauto.
      + intros x Hx. apply in_or_app. auto.
      + apply in_or_app. auto.
      + intros x Hx. apply in_app_or in Hx. destruct Hx as [Hx|Hx]; auto.
        apply Hnew in Hx. destruct Hx as [(y & Hy & Hxy) _]. apply reach_step with y; auto.
      + intros x y Hx Hn Hy. apply in_app_or in Hx. destruct Hx as [Hx|Hx]; [|tauto].
        destruct (In_dec_of y seen) as [|Hys]; [apply in_or_app; auto|].
        apply in_or_app. destruct (In_dec_of x level) as [Hl|Hl].
        * right. apply Hnew. eauto.
        * left. eapply C; eauto.
      + rewrite app_length. lia.
  Qed.

  (** ** is_connected *)
  Lemma is_connected_spec (g : graph N) : wf_graph g ->
    match g_nodes g with
    | [] => is_connected g = Err PointlessConcept
    | _ => exists b, is_connected g = Ok b /\
             (b = true <-> forall u v, In u (g_nodes g) -> In v (g_nodes g) -> reach (adj g) u v)
    end.
  Proof.
    intro W. unfold is_connected. destruct (g_nodes g) as [|s r] eqn:En; auto.
    pose proof (wfg_nodes g W) as ND. rewrite En in ND.
    destruct (plain_bfs_spec (neighbors g) (s :: r) s) with (fuel := S (List.length (s :: r))) (seen := [s]) (level := [s])
      as (c & Hc & NDc & Ic & Sp); auto.
    - intros u v _ Hv. apply In_neighbors in Hv. rewrite <- En. apply (adj_nodes g u v W Hv).
    - intros x [<-|[]]. now left.
    - constructor; [auto|constructor].
    - apply incl_refl.
    - now left.
    - intros x [<-|[]]. constructor.
    - intros x y [<-|[]] H. exfalso. apply H. now left.
    - simpl. lia.
    - rewrite Hc. simpl bind. exists (Nat.eqb (List.length c) (List.length (s :: r))). split; auto.
      assert (Sp' : forall x, In x c <-> reach (adj g) s x).
      { intro x. rewrite Sp. split; apply reach_mono; intros a b; apply In_neighbors. }
      rewrite Nat.eqb_eq. split.
      + intros Hlen u v Hu Hv.
        assert (Inc : incl (s :: r) c).
        { apply NoDup_length_incl; auto. lia. }
        apply reach_trans with s.
        * apply reach_sym; [intros; now apply adj_sym|]. apply Sp', Inc, Hu.
        * apply Sp', Inc, Hv.
      + intro H. assert (Inc : incl (s :: r) c).
        { intros x Hx. apply Sp', H; auto. now left. }
        pose proof (NoDup_incl_length ND Inc). pose proof (NoDup_incl_length NDc Ic). lia.
  Qed.

  (** ** Subgraphs *)
  Lemma wf_subgraph (g : graph N) s : wf_graph g -> wf_graph (subgraph g s).
  Proof.
    intros [W1 W2 W3 W4]. constructor; simpl.
    - now apply NoDup_filter.
    - now apply NoDup_filter.
    - intros u v H. apply filter_In in H. destruct H as [H Hm]. simpl in Hm.
      apply andb_true_iff in Hm. destruct (W3 u v H). rewrite !filter_In. tauto.
    - intros u v H1 H2. apply filter_In in H1, H2. apply W4; tauto.
  Qed.
  Lemma adj_subgraph (g : graph N) s u v : adj (subgraph g s) u v <-> adj g u v /\ In u s /\ In v s.
  Proof.
    unfold adj. simpl. rewrite !filter_In. simpl. rewrite !andb_true_iff, !mem_In. tauto.
  Qed.
  Lemma subgraph_nodes (g : graph N) s n : In n (g_nodes (subgraph g s)) <-> In n (g_nodes g) /\ In n s.
  Proof. simpl. now rewrite filter_In, mem_In. Qed.

  (** ** bfs_loop *)
  Lemma bfs_loop_spec (nbrs : N -> list N) (U : list N) (s : N) :
    (forall u v, In u U -> In v (nbrs u) -> In v U) -> NoDup U -> In s U ->
    forall fuel q visited,
      incl visited U -> NoDup visited -> incl q (s :: visited) ->
      (forall x, In x visited -> reach (fun a b => In b (nbrs a)) s x) ->
      (forall x y, In x (s :: visited) -> ~ In x q -> In y (nbrs x) -> In y visited) ->
      (List.length q + List.length U < fuel + List.length visited) ->
      exists c, bfs_loop fuel nbrs q visited = Ok c /\ NoDup c /\ incl c U /\
        (forall x, In x c -> reach (fun a b => In b (nbrs a)) s x) /\
        (forall x y, In x (s :: c) -> In y (nbrs x) -> In y c).
  Proof.
    intros HU NU HsU. induction fuel as [|fuel IH]; intros q visited I1 ND I2 R C F.
    - exfalso. pose proof (NoDup_incl_length ND I1). lia.
    - destruct q as [|v q']; simpl.
      { exists visited. repeat split; auto. intros x y Hx Hy. eapply C; eauto. }
      set (st := fold_left _ _ _).
      assert (G : forall l q0 vis0 : list N,
        let st := fold_left (fun st u => let '(q, vis) := st in
            if mem u vis then st else (q ++ [u], sadd u vis)) l (q0, vis0) in
        NoDup vis0 ->
        (forall x, In x (snd st) <-> In x vis0 \/ In x l) /\ NoDup (snd st) /\
        (forall x, In x (fst st) -> In x q0 \/ In x (snd st)) /\ incl q0 (fst st) /\
        (forall x, In x (snd st) -> ~ In x vis0 -> In x (fst st)) /\
        List.length (fst st) + List.length vis0 = List.length q0 + List.length (snd st)).
      { clear. induction l as [|u l IHl]; intros q0 vis0 st ND.
        - subst st. simpl. repeat split; auto; try tauto. apply incl_refl.
        - subst st. simpl. destruct (mem_spec u vis0) as [Hm|Hm].
          + destruct (IHl q0 vis0 ND) as (A1 & A2 & A3 & A4 & A5 & A6).
            split; [|split; [|split; [|split; [|split]]]]; auto.
            intro x. rewrite A1. split; [tauto|]. intros [H|[->|H]]; auto.
          + destruct (IHl (q0 ++ [u]) (sadd u vis0) ltac:(now apply NoDup_sadd)) as (A1 & A2 & A3 & A4 & A5 & A6).
            split; [|split; [|split; [|split; [|split]]]]; auto.
            * intro x. rewrite A1, In_sadd. split; [|intros [H|[H|H]]; auto]. intros [[->|H]|H]; auto.
            * intros x Hx. destruct (A3 x Hx) as [H|H]; auto. apply in_app_or in H. destruct H as [H|[<-|[]]]; auto.
              right. apply A1. rewrite In_sadd. auto.
            * intros x Hx. apply A4. apply in_or_app. auto.
            * intros x Hx Hn. destruct (eq_dec_of x u) as [->|Hne].
              -- apply A4. apply in_or_app. right. now left.
              -- apply A5; auto. rewrite In_sadd. tauto.
            * assert (L1 : List.length (sadd u vis0) = S (List.length vis0)).
              { unfold sadd. destruct (mem_spec u vis0) as [|_]; [contradiction|]. rewrite app_length. simpl. lia. }
              rewrite L1, (app_length q0 [u]) in A6. simpl in A6. lia. }
      destruct (G (nbrs v) q' visited ND) as (A1 & A2 & A3 & A4 & A5 & A6). fold st in A1, A2, A3, A4, A5, A6.
      destruct st as [q1 vis1]. simpl in *.
      assert (HvU : In v U). { destruct (I2 v (or_introl eq_refl)) as [<-|H]; auto. }
      assert (Rv : reach (fun a b => In b (nbrs a)) s v).
      { destruct (I2 v (or_introl eq_refl)) as [<-|H]; auto. constructor. }
      apply IH; auto.
      + intros x Hx. apply A1 in Hx. destruct Hx as [Hx|Hx]; auto. eapply HU; eauto.
      + intros x Hx. destruct (A3 x Hx) as [H|H]; [|now right].
        destruct (I2 x (or_intror H)) as [|H']; [now left|right]. apply A1. auto.
      + intros x Hx. apply A1 in Hx. destruct Hx as [Hx|Hx]; auto. eapply reach_step; eauto.
      + intros x y Hx Hn Hy. apply A1. destruct (eq_dec_of x v) as [->|Hne]; auto. left.
        apply (C x y); auto.
        * destruct Hx as [->|Hx]; [now left|right]. destruct (In_dec_of x visited) as [|Hv]; auto.
          exfalso. apply Hn. apply A5; auto.
        * intros [H|H]; [congruence|]. apply Hn, A4, H.
      + lia.
  Qed.

  (** ** are_reachable *)
  Lemma extract_min_spec : forall (l : list (@entry N)) x m r,
    extract_min x l = (m, r) ->
    (forall y, In y (x :: l) <-> y = m \/ In y r) /\ List.length r = List.length l.
  Proof.
    induction l as [|y l IH]; intros x m r H; simpl in H.
    - injection H as <- <-. simpl. split; [|auto]. intro y. intuition.
    - destruct (entry_lt y x).
      + destruct (extract_min y l) as [m' r'] eqn:Em. injection H as <- <-.
        destruct (IH _ _ _ Em) as [I1 I2]. split; [|simpl; lia].
        intro z. specialize (I1 z). simpl in *. tauto.
      + destruct (extract_min x l) as [m' r'] eqn:Em. injection H as <- <-.
        destruct (IH _ _ _ Em) as [I1 I2]. split; [|simpl; lia].
        intro z. specialize (I1 z). simpl in *. tauto.
  Qed.

  Variable g : graph N.
  Hypothesis Wg : wf_graph g.
  Variable avoid : N -> N -> bool.
  Definition open_edge (u v : N) : Prop := adj g u v /\ avoid u v = false.

  Lemma relax_fold v d : forall l seen c fringe seen' c' fringe',
    fold_left (relax avoid v d) l (seen, c, fringe) = (seen', c', fringe') ->
    (forall x, In x (dkeys seen') <-> In x (dkeys seen) \/ (In x l /\ avoid v x = false)) /\
    (forall x, In x (map snd fringe') -> In x (map snd fringe) \/ (In x l /\ avoid v x = false)) /\
    (forall x, In x (map snd fringe) -> In x (map snd fringe')) /\
    (forall x, In x (dkeys seen') -> ~ In x (dkeys seen) -> In x (map snd fringe')) /\
    List.length fringe' <= List.length fringe + List.length l.
  Proof.
    induction l as [|u l IH]; intros seen c fringe seen' c' fringe' H; simpl in H.
    - injection H as <- <- <-. simpl. split; [tauto|]. split; [auto|]. split; [auto|]. split; [tauto|lia].
    - destruct (avoid v u) eqn:Ea.
      + destruct (IH _ _ _ _ _ _ H) as (A1 & A2 & A3 & A4 & A5).
        split; [|split; [|split; [|split]]]; auto; simpl.
        * intro x. rewrite A1. split; [tauto|]. intros [Hx|[[->|Hx] Hav]]; auto. congruence.
        * intros x Hx. destruct (A2 x Hx) as [|[? ?]]; auto.
        * lia.
      + destruct (match dget seen u with None => true | Some x => Nat.ltb (S d) x end) eqn:Et.
        * destruct (IH _ _ _ _ _ _ H) as (A1 & A2 & A3 & A4 & A5).
          split; [|split; [|split; [|split]]]; simpl.
          -- intro x. rewrite A1, In_dkeys_dset. split; [|intros [Hx|[[->|Hx] Hav]]; auto].
             intros [[->|Hx]|[? ?]]; auto.
          -- intros x Hx. destruct (A2 x Hx) as [Hx'|[? ?]]; auto. rewrite map_app in Hx'.
             apply in_app_or in Hx'. destruct Hx' as [|[<-|[]]]; auto.
          -- intros x Hx. apply A3. rewrite map_app. apply in_or_app. auto.
          -- intros x Hx Hn. destruct (eq_dec_of x u) as [->|Hne].
             ++ apply A3. rewrite map_app. apply in_or_app. right. now left.
             ++ apply A4; auto. rewrite In_dkeys_dset. tauto.
          -- rewrite app_length in A5. simpl in A5. lia.
        * destruct (IH _ _ _ _ _ _ H) as (A1 & A2 & A3 & A4 & A5).
          assert (Hu : In u (dkeys seen)).
          { apply dget_key. destruct (dget seen u); [eauto|discriminate]. }
          split; [|split; [|split; [|split]]]; auto; simpl.
          -- intro x. rewrite A1. split; [tauto|]. intros [Hx|[[->|Hx] Hav]]; auto.
          -- intros x Hx. destruct (A2 x Hx) as [|[? ?]]; auto.
          -- lia.
  Qed.

  (** The degrees of the nodes not yet searched. *)
  Definition remaining (dist : dict N nat) (l : list N) : nat :=
    list_sum (map (fun v => if dmem dist v then 0 else List.length (neighbors g v)) l).
  Lemma remaining_dset dist v d : forall l, NoDup l -> In v l -> dmem dist v = false ->
    remaining (dset dist v d) l + List.length (neighbors g v) = remaining dist l.
  Proof.
    assert (Same : forall l, ~ In v l -> remaining (dset dist v d) l = remaining dist l).
    { induction l as [|x l IH]; intro Hn; [reflexivity|]. unfold remaining in *. simpl.
      rewrite IH by (intro; apply Hn; now right). f_equal.
      unfold dmem. rewrite dget_dset_neq; auto. intros ->. apply Hn. now left. }
    induction l as [|x l IH]; intros ND Hin Hd; [destruct Hin|].
    inversion ND; subst. unfold remaining in *. simpl. destruct (eq_dec_of x v) as [->|Hne].
    - rewrite Hd. unfold dmem at 1. rewrite dget_dset_eq. unfold remaining in Same. rewrite Same; auto. lia.
    - destruct Hin as [|Hin]; [contradiction|]. specialize (IH H2 Hin Hd).
      replace (dmem (dset dist v d) x) with (dmem dist x); [lia|].
      unfold dmem. rewrite dget_dset_neq; auto.
  Qed.

  Lemma all_seen_spec (seen : dict N nat) ts : all_seen seen ts = true <-> forall t, In t ts -> In t (dkeys seen).
  Proof.
    unfold all_seen. rewrite forallb_forall. split; intros H t Ht; specialize (H t Ht).
    - now apply dmem_In.
    - now apply dmem_In.
  Qed.

  Lemma reach_loop_spec ts s : In s (g_nodes g) -> forall fuel dist seen c fringe,
    In s (dkeys seen) ->
    (forall x, In x (dkeys seen) -> reach open_edge s x) ->
    (forall x, In x (dkeys seen) -> In x (dkeys dist) \/ In x (map snd fringe)) ->
    (forall x, In x (map snd fringe) -> In x (dkeys seen)) ->
    (forall x y, In x (dkeys dist) -> open_edge x y -> In y (dkeys seen)) ->
    (List.length fringe + remaining dist (g_nodes g) < fuel) ->
    exists b, reach_loop g fuel avoid ts dist seen c fringe = Ok b /\
      (b = true <-> forall t, In t ts -> reach open_edge s t).
  Proof.
    intro Hs. induction fuel as [|fuel IH]; intros dist seen c fringe Ss R D Fs C F; [lia|]. simpl.
    destruct (all_seen seen ts) eqn:Ea.
    - exists true. split; auto. split; auto. intros _ t Ht. apply R.
      revert t Ht. now apply all_seen_spec.
    - destruct fringe as [|e fr].
      + exists false. split; auto. split; [discriminate|]. intro H. exfalso.
        assert (all_seen seen ts = true); [|congruence]. apply all_seen_spec. intros t Ht.
        apply (reach_closed open_edge (fun z => In z (dkeys seen)) s t Ss); auto.
        intros a b Ha Hb. apply (C a b); auto. destruct (D a Ha) as [|[]]; auto.
      + destruct (extract_min e fr) as [[[d k] v] fr1] eqn:Em.
        destruct (extract_min_spec _ _ _ _ Em) as [E1 E2].
        assert (Hfr : forall x, In x (map snd (e :: fr)) <-> x = v \/ In x (map snd fr1)).
        { intro x. rewrite !in_map_iff. split.
          - intros (y & <- & Hy). apply E1 in Hy. destruct Hy as [->|Hy]; eauto.
          - intros [->|(y & <- & Hy)].
            + exists (d, k, v). split; auto. apply E1. auto.
            + exists y. split; auto. apply E1. auto. }
        assert (Hvs : In v (dkeys seen)). { apply Fs, Hfr. auto. }
        assert (Hvg : In v (g_nodes g)).
        { apply (reach_closed open_edge (fun z => In z (g_nodes g)) s v); auto.
          intros a b _ [Hab _]. apply (adj_nodes g a b Wg Hab). }
        destruct (dmem dist v) eqn:Edv.
        * apply IH; auto.
          -- intros x Hx. destruct (D x Hx) as [|Hx']; auto. apply Hfr in Hx'.
             destruct Hx' as [->|]; auto. left. now apply dmem_In.
          -- intros x Hx. apply Fs, Hfr. auto.
          -- unfold entry in *; simpl in F; lia.
        * rewrite (proj2 (mem_In v (g_nodes g)) Hvg).
          destruct (fold_left (relax avoid v d) (neighbors g v) (seen, c, fr1)) as [[seen1 c1] fr2] eqn:Ef.
          destruct (relax_fold _ _ _ _ _ _ _ _ _ Ef) as (A1 & A2 & A3 & A4 & A5).
          assert (Op : forall x, In x (neighbors g v) /\ avoid v x = false <-> open_edge v x).
          { intro x. unfold open_edge. now rewrite In_neighbors. }
          apply IH.
          -- apply A1. auto.
          -- intros x Hx. apply A1 in Hx. destruct Hx as [Hx|Hx]; auto. eapply reach_step; [apply R, Hvs|].
             now apply Op.
          -- intros x Hx. rewrite In_dkeys_dset.
             destruct (In_dec_of x (dkeys seen)) as [Hxs|Hxs]; [|right; apply A4; auto].
             destruct (D x Hxs) as [|Hx']; auto. apply Hfr in Hx'. destruct Hx' as [->|]; auto.
          -- intros x Hx. apply A1. destruct (A2 x Hx) as [Hx'|]; auto. left. apply Fs, Hfr. auto.
          -- intros x y Hx Hy. apply A1. rewrite In_dkeys_dset in Hx. destruct Hx as [->|Hx].
             ++ right. now apply Op.
             ++ left. apply (C x y); auto.
          -- pose proof (remaining_dset dist v d (g_nodes g) (wfg_nodes g Wg) Hvg Edv). unfold entry in *. simpl in F. lia.
  Qed.

  Theorem are_reachable_spec source ts : In source (g_nodes g) ->
    exists b, are_reachable g source avoid ts = Ok b /\
      (b = true <-> forall t, In t ts -> reach open_edge source t).
  Proof.
    intro Hs. unfold are_reachable. apply reach_loop_spec; [exact Hs|..]; simpl.
    - now left.
    - intros x [<-|[]]. constructor.
    - intros x [<-|[]]. right. now left.
    - intros x [<-|[]]. now left.
    - intros x y [].
    - unfold remaining. simpl. lia.
  Qed.
End Search.
