(** Lemmas about the population and subtree searches of tree.py:289-348. *)
From Coq Require Import List Bool Arith ZArith QArith Lia ZifyBool ZifyNat Permutation.
From Verif Require Import Base M_Graph M_Partition S_Partition L_Partition M_Machine S_Machine L_Sums
  S_Contiguity L_Search M_Election M_Proposals M_Tree S_Tree S_TreeCuts L_Tree.
Import ListNotations.
Local Open Scope nat_scope.

Lemma zsum_vsum l : zsum l = vsum l. Proof. reflexivity. Qed.

Section Below.
  Context {N : Type} {EN : EqB N}.
  Variables (r : N) (es : list (N * N)) (succ : dict N (list N)).
  Hypothesis R : rooted r es.
  Hypothesis Hsucc : forall x, dget succ x =
    match kids es x with [] => if eqb x r then Some [] else None | l => Some l end.

  Lemma flat_map_length_perm (l l' : list N) : Permutation l l' ->
    Permutation (flat_map (sub es) l) (flat_map (sub es) l').
  Proof. apply Permutation_flat_map. Qed.

  (** ** _part_nodes *)
  Definition part_done x : Prop := forall rest nodes, (forall y, In y (sub es x) -> ~ In y nodes) ->
    exists nodes', (forall fuel, part_loop (List.length (sub es x) + fuel) succ (x :: rest) nodes = part_loop fuel succ rest nodes') /\
      (forall y, In y nodes' <-> In y nodes \/ In y (sub es x)) /\ (NoDup nodes -> NoDup nodes').
  Lemma part_list cs : (forall c, In c cs -> part_done c) -> forall rest nodes,
    NoDup (flat_map (sub es) cs) -> (forall y, In y (flat_map (sub es) cs) -> ~ In y nodes) ->
    exists nodes', (forall fuel, part_loop (List.length (flat_map (sub es) cs) + fuel) succ (cs ++ rest) nodes = part_loop fuel succ rest nodes') /\
      (forall y, In y nodes' <-> In y nodes \/ In y (flat_map (sub es) cs)) /\ (NoDup nodes -> NoDup nodes').
  Proof.
    induction cs as [|c cs IH]; intros Hc rest nodes ND Dis.
    - exists nodes. simpl. split; auto. split; auto. intro y. tauto.
    - cbn [flat_map] in *. destruct (Hc c (or_introl eq_refl) (cs ++ rest) nodes) as (n1 & E1 & I1 & D1).
      { intros y Hy. apply Dis. apply in_app_iff. auto. }
      destruct (IH (fun x Hx => Hc x (or_intror Hx)) rest n1) as (n2 & E2 & I2 & D2).
      { eapply nodup_app_r; eauto. }
      { intros y Hy Hy1. apply I1 in Hy1. destruct Hy1 as [Hy1|Hy1].
        - apply (Dis y); auto. apply in_app_iff. auto.
        - eapply nodup_app_disj; eauto. }
      exists n2. split; [|split; auto].
      + intro fuel. rewrite app_length, <- Nat.add_assoc. cbn [app]. rewrite E1. apply E2.
      + intro y. rewrite I2, I1, in_app_iff. tauto.
  Qed.
  Lemma filter_all {X} (f : X -> bool) l : (forall x, In x l -> f x = true) -> filter f l = l.
  Proof. induction l as [|a l IH]; intro H; auto. simpl. rewrite H by now left. f_equal. apply IH. intros. apply H. now right. Qed.
  Lemma part_all x : part_done x.
  Proof.
    pattern x. apply (kids_ind r es _ R). clear x. intros x IH rest nodes Dis.
    assert (Sp := sub_split r es x R). assert (ND := kids_disjoint r es x R).
    assert (Hx : In x (sub es x)) by (eapply sub_root; eauto).
    destruct (part_list (rev (kids es x))) with (rest := rest) (nodes := nodes ++ [x]) as (n' & E1 & I1 & D1).
    - intros c Hc. apply IH. now apply in_rev.
    - inversion ND; subst. eapply Permutation_NoDup; [|eassumption]. apply Permutation_flat_map. apply Permutation_rev.
    - intros y Hy Hn. inversion ND as [|? ? H1 H2]; subst.
      assert (Hy' : In y (flat_map (sub es) (kids es x))).
      { eapply Permutation_in; [|exact Hy]. apply Permutation_flat_map. apply Permutation_sym, Permutation_rev. }
      apply in_app_iff in Hn. destruct Hn as [Hn|[<-|[]]]; [|contradiction].
      apply (Dis y); auto. eapply Permutation_in; [apply Permutation_sym; exact Sp|]. now right.
    - exists n'. split; [|split].
      + intro fuel. rewrite (Permutation_length Sp). cbn [List.length plus part_loop].
        destruct (mem_spec x nodes) as [Hm|Hm]; [elim (Dis x Hx Hm)|].
        assert (Len : List.length (flat_map (sub es) (kids es x)) = List.length (flat_map (sub es) (rev (kids es x)))).
        { apply Permutation_length, Permutation_flat_map, Permutation_rev. }
        rewrite Len. rewrite Hsucc.
        assert (Fl : filter (fun c => negb (mem c (nodes ++ [x]))) (kids es x) = kids es x).
        { apply filter_all. intros c Hc. apply negb_true_iff, mem_notIn. rewrite in_app_iff. intros [H|[H|[]]].
          - apply (Dis c); auto. eapply sub_child; [eauto|exact Hx|]. now apply In_kids.
          - subst. apply In_kids in Hc. eapply rooted_no_swap; eauto. }
        destruct (kids es x) as [|k l] eqn:K.
        * destruct (eqb x r); cbn [filter rev app] in *; apply E1.
        * rewrite Fl. apply E1.
      + intro y. rewrite I1, in_app_iff.
        assert (Hs : In y (sub es x) <-> y = x \/ In y (flat_map (sub es) (rev (kids es x)))).
        { split.
          - intro H. apply (Permutation_in _ Sp) in H. destruct H as [<-|H]; auto. right.
            eapply Permutation_in; [|exact H]. apply Permutation_flat_map, Permutation_rev.
          - intros [->|H]; auto. apply (Permutation_in _ (Permutation_sym Sp)). right.
            eapply Permutation_in; [|exact H]. apply Permutation_flat_map, Permutation_sym, Permutation_rev. }
        rewrite Hs. simpl. intuition auto.
      + intro NDn. apply D1. apply NoDup_app_single; auto.
  Qed.
  Lemma part_nodes_spec fuel x : List.length (sub es x) <= fuel ->
    exists s, part_nodes fuel x succ = Ok s /\ NoDup s /\ forall y, In y s <-> In y (sub es x).
  Proof.
    intro Hf. destruct (part_all x [] []) as (s & E & I & D); [intros y _ []|].
    exists s. split; [|split].
    - unfold part_nodes. replace fuel with (List.length (sub es x) + (fuel - List.length (sub es x))) by lia.
      rewrite E. now destruct (fuel - List.length (sub es x)).
    - apply D. constructor.
    - intro y. rewrite I. simpl. tauto.
  Qed.

  (** ** _calc_pops *)
  Variable pop : dict N Z.
  Definition popf (n : N) : Z := dget_or 0%Z pop n.
  Definition W (x : N) : Z := vsum (map popf (sub es x)).
  Lemma W_split x : W x = (vsum (map W (kids es x)) + popf x)%Z.
  Proof.
    unfold W. rewrite (vsum_perm _ _ (Permutation_map popf (sub_split r es x R))). cbn [map]. rewrite vsum_cons.
    rewrite Z.add_comm. change (cadd ?a ?b) with (Z.add a b). f_equal.
    generalize (kids es x). induction l as [|k l IH]; [reflexivity|]. cbn [flat_map map]. rewrite map_app, vsum_app, vsum_cons, IH. reflexivity.
  Qed.

  Definition calc_done x : Prop := x <> r -> (forall y, In y (sub es x) -> In y (dkeys pop)) ->
    forall rest pops, (forall y, In y (sub es x) -> dget pops y = None) ->
    exists k pops', k <= 2 * List.length (sub es x) /\
      (forall fuel, calc_loop (k + fuel) succ pop (x :: rest) pops = calc_loop fuel succ pop rest pops') /\
      (forall y, dget pops' y = if mem y (sub es x) then Some (W y) else dget pops y) /\
      (NoDup (dkeys pops) -> NoDup (dkeys pops')).
  Lemma calc_list cs : (forall c, In c cs -> calc_done c) -> (forall c, In c cs -> c <> r) ->
    (forall y, In y (flat_map (sub es) cs) -> In y (dkeys pop)) ->
    forall rest pops, NoDup (flat_map (sub es) cs) -> (forall y, In y (flat_map (sub es) cs) -> dget pops y = None) ->
    exists k pops', k <= 2 * List.length (flat_map (sub es) cs) /\
      (forall fuel, calc_loop (k + fuel) succ pop (cs ++ rest) pops = calc_loop fuel succ pop rest pops') /\
      (forall y, dget pops' y = if mem y (flat_map (sub es) cs) then Some (W y) else dget pops y) /\
      (NoDup (dkeys pops) -> NoDup (dkeys pops')).
  Proof.
    induction cs as [|c cs IH]; intros Hc Hr Hp rest pops ND Dis.
    - exists 0, pops. simpl. split; [lia|]. auto.
    - cbn [flat_map] in *. destruct (Hc c (or_introl eq_refl)) with (rest := cs ++ rest) (pops := pops) as (k1 & p1 & L1 & E1 & I1 & D1).
      { apply Hr. now left. }
      { intros y Hy. apply Hp, in_app_iff. auto. }
      { intros y Hy. apply Dis. apply in_app_iff. auto. }
      destruct (IH (fun x Hx => Hc x (or_intror Hx)) (fun x Hx => Hr x (or_intror Hx))) with (rest := rest) (pops := p1) as (k2 & p2 & L2 & E2 & I2 & D2).
      { intros y Hy. apply Hp, in_app_iff. auto. }
      { eapply nodup_app_r; eauto. }
      { intros y Hy. rewrite I1. destruct (mem_spec y (sub es c)) as [Hm|Hm].
        - exfalso. eapply nodup_app_disj; eauto.
        - apply Dis. apply in_app_iff. auto. }
      exists (k1 + k2), p2. split; [rewrite app_length; lia|]. split; [|split; auto].
      + intro fuel. rewrite <- Nat.add_assoc. cbn [app]. rewrite E1. apply E2.
      + intro y. rewrite I2, I1. destruct (mem_spec y (flat_map (sub es) cs)) as [H1|H1], (mem_spec y (sub es c)) as [H2|H2],
          (mem_spec y (sub es c ++ flat_map (sub es) cs)) as [H3|H3]; auto; rewrite in_app_iff in H3; tauto.
  Qed.
  Lemma calc_all x : calc_done x.
  Proof.
    pattern x. apply (kids_ind r es _ R). clear x. intros x IH Hxr Hp rest pops Dis.
    assert (Sp := sub_split r es x R). assert (ND := kids_disjoint r es x R).
    assert (Hx : In x (sub es x)) by (eapply sub_root; eauto).
    assert (Px : dget pop x = Some (popf x)).
    { specialize (Hp x Hx). apply dget_key in Hp. destruct Hp as (v & Hv). unfold popf, dget_or. now rewrite Hv. }
    assert (Nx : dmem pops x = false) by (unfold dmem; now rewrite Dis).
    assert (Nr : eqb x r = false) by now apply eqb_neq.
    destruct (kids es x) as [|k l] eqn:K.
    - assert (Sx : forall y, mem y (sub es x) = eqb y x).
      { intro y. destruct (mem_spec y (sub es x)) as [H|H].
        - apply (Permutation_in _ Sp) in H. destruct H as [<-|[]]. now rewrite eqb_refl.
        - symmetry. apply eqb_neq. intros ->. contradiction. }
      assert (Wx : W x = popf x) by (rewrite W_split, K; reflexivity).
      exists 1, (dset pops x (popf x)). split; [rewrite (Permutation_length Sp); simpl; lia|]. split; [|split].
      + intro fuel. cbn [plus calc_loop]. rewrite Nx, Hsucc, K, Nr, Px. reflexivity.
      + intro y. rewrite dget_dset, Sx. destruct (eqb_spec y x) as [->|]; auto. now rewrite Wx.
      + intro. now apply NoDup_dset.
    - set (cs := rev (k :: l)).
      assert (Pcs : Permutation (flat_map (sub es) cs) (flat_map (sub es) (k :: l))) by (apply Permutation_flat_map, Permutation_sym, Permutation_rev).
      inversion ND as [|? ? Nin NDk]; subst.
      assert (Below : forall y, In y (flat_map (sub es) cs) -> In y (sub es x) /\ y <> x).
      { intros y Hy. apply (Permutation_in _ Pcs) in Hy. split; [apply (Permutation_in _ (Permutation_sym Sp)); now right|].
        intros ->. contradiction. }
      destruct (calc_list cs) with (rest := x :: rest) (pops := pops) as (k1 & p1 & L1 & E1 & I1 & D1).
      + intros c Hc. apply IH. now apply in_rev.
      + intros c Hc ->. apply in_rev in Hc. rewrite <- K in Hc. apply In_kids in Hc. apply (parent_in r es _ _ R) in Hc. tauto.
      + intros y Hy. apply Hp. now apply Below.
      + eapply Permutation_NoDup; [apply Permutation_sym; exact Pcs|exact NDk].
      + intros y Hy. apply Dis. now apply Below.
      + assert (Kin : forall c, In c (k :: l) -> In c (flat_map (sub es) cs)).
        { intros c Hc. apply (Permutation_in _ (Permutation_sym Pcs)). apply in_flat_map. exists c. split; auto. eapply sub_root; eauto. }
        assert (Kp : forall c, In c (k :: l) -> dget p1 c = Some (W c)).
        { intros c Hc. rewrite I1. now rewrite (proj2 (mem_In _ _) (Kin c Hc)). }
        assert (N1 : dget p1 x = None).
        { rewrite I1. destruct (mem_spec x (flat_map (sub es) cs)) as [H|H]; [apply Below in H; tauto|]. now apply Dis. }
        exists (S (k1 + 1)), (dset p1 x (W x)). split.
        { assert (L2 := Permutation_length Sp). assert (L3 := Permutation_length Pcs). cbn [List.length] in L2. lia. }
        split; [|split].
        * intro fuel. cbn [plus calc_loop]. rewrite Nx, Hsucc, K.
          assert (F1 : forallb (dmem pops) (k :: l) = false).
          { cbn [forallb]. unfold dmem at 1. rewrite Dis; auto. apply Below. apply Kin. now left. }
          rewrite F1. rewrite filter_all.
          2:{ intros c Hc. apply negb_true_iff. unfold dmem. rewrite Dis; auto. apply Below. now apply Kin. }
          fold cs. rewrite <- Nat.add_assoc. rewrite E1. cbn [plus calc_loop]. unfold dmem at 1. rewrite N1, Hsucc, K.
          assert (F2 : forallb (dmem p1) (k :: l) = true).
          { apply forallb_forall. intros c Hc. unfold dmem. now rewrite Kp. }
          rewrite F2. rewrite (mapM_all_Ok _ W).
          2:{ intros c Hc. now rewrite Kp. }
          cbn [bind]. rewrite Px. cbn [bind of_option]. rewrite zsum_vsum. rewrite (W_split x), K. reflexivity.
        * intro y. rewrite dget_dset. destruct (eqb_spec y x) as [->|Hyx].
          -- now rewrite (proj2 (mem_In _ _) Hx).
          -- rewrite I1. destruct (mem_spec y (flat_map (sub es) cs)) as [H1|H1], (mem_spec y (sub es x)) as [H2|H2]; auto.
             ++ apply Below in H1. tauto.
             ++ apply (Permutation_in _ Sp) in H2. destruct H2 as [<-|H2]; [congruence|].
                elim H1. apply (Permutation_in _ (Permutation_sym Pcs)). exact H2.
        * intro. apply NoDup_dset. auto.
  Qed.
  Lemma calc_pops_spec fuel : (forall y, In y (nodes_of r es) -> In y (dkeys pop)) ->
    2 * List.length (nodes_of r es) <= fuel ->
    exists pops, calc_pops fuel succ r pop = Ok pops /\ NoDup (dkeys pops) /\
      (forall y, In y (dkeys pops) <-> In y (map snd es)) /\
      (forall y v, dget pops y = Some v -> v = W y).
  Proof.
    intros Hp Hf. assert (Sp := sub_split r es r R). rewrite (sub_all r es R) in Sp.
    assert (Hs : exists start, dget succ r = Some start /\ start = kids es r).
    { rewrite Hsucc. rewrite eqb_refl. destruct (kids es r); eauto. }
    destruct Hs as (start & Hs & ->). unfold calc_pops. rewrite Hs. cbn [bind of_option].
    assert (Pcs : Permutation (flat_map (sub es) (rev (kids es r))) (flat_map (sub es) (kids es r)))
      by (apply Permutation_flat_map, Permutation_sym, Permutation_rev).
    assert (ND := kids_disjoint r es r R). inversion ND as [|? ? Nin NDk]; subst.
    destruct (calc_list (rev (kids es r))) with (rest := @nil N) (pops := @nil (N * Z)) as (k & p & L1 & E1 & I1 & D1).
    - intros. apply calc_all.
    - intros c Hc ->. apply in_rev in Hc. apply In_kids in Hc. apply (parent_in r es _ _ R) in Hc. tauto.
    - intros y Hy. apply Hp. apply (Permutation_in _ (Permutation_sym Sp)). right. now apply (Permutation_in _ Pcs).
    - eapply Permutation_NoDup; [apply Permutation_sym; exact Pcs|exact NDk].
    - reflexivity.
    - exists p. split; [|split; [|split]].
      + rewrite app_nil_r in E1. replace fuel with (k + (fuel - k)).
        * rewrite E1. now destruct (fuel - k).
        * rewrite (Permutation_length Sp) in Hf. simpl in Hf. rewrite (Permutation_length Pcs) in L1. lia.
      + apply D1. constructor.
      + intro y. rewrite dget_key. setoid_rewrite I1.
        assert (Eq : In y (map snd es) <-> In y (flat_map (sub es) (rev (kids es r)))).
        { assert (ND' := rooted_nodup r es R). unfold nodes_of in *. inversion ND' as [|? ? Nr _]; subst. split.
          - intro H. apply (Permutation_in _ (Permutation_sym Pcs)).
            assert (H' : In y (r :: map snd es)) by now right. apply (Permutation_in _ Sp) in H'. destruct H' as [<-|H']; auto. contradiction.
          - intro H. apply (Permutation_in _ Pcs) in H.
            assert (H' : In y (r :: map snd es)) by (apply (Permutation_in _ (Permutation_sym Sp)); now right).
            destruct H' as [<-|H']; auto. contradiction. }
        rewrite Eq. destruct (mem_spec y (flat_map (sub es) (rev (kids es r)))) as [H|H]; split; eauto.
        * intros [v Hv]. discriminate.
        * contradiction.
      + intros y v Hv. rewrite I1 in Hv. destruct (mem y (flat_map (sub es) (rev (kids es r)))); [congruence|discriminate].
  Qed.
End Below.
(** ** Found cuts *)
Section Found.
  Context {N : Type} {EN : EqB N}.
  Variables (h : @populated N) (r : N) (es : list (N * N)).
  Hypothesis In_h : cut_input h.
  Hypothesis So : search_of (h_tree h) r es.
  Let T := h_tree h.
  Let R : rooted r es := so_rooted T r es So.
  Notation Wt := (W es (h_pop h)).

  Lemma nodes_perm : Permutation (nodes_of r es) (dkeys (h_pop h)).
  Proof.
    apply NoDup_Permutation; [apply rooted_nodup, R|apply (ci_keys h In_h)|].
    intro x. rewrite (so_nodes _ _ _ So), (ci_pop h In_h). tauto.
  Qed.
  Lemma dvals_popf (d : dict N Z) : NoDup (dkeys d) -> dvals d = map (popf d) (dkeys d).
  Proof.
    unfold dvals, dkeys. intro ND. rewrite map_map. apply map_ext_in. intros [k v] Hi. simpl.
    unfold popf, dget_or. rewrite (In_dget d k v ND Hi). reflexivity.
  Qed.
  Lemma tot_pop_sum : tot_pop h = vsum (map (popf (h_pop h)) (g_nodes T)).
  Proof.
    unfold tot_pop. rewrite zsum_vsum, dvals_popf by apply (ci_keys h In_h). apply vsum_perm, Permutation_map.
    apply NoDup_Permutation; [apply (ci_keys h In_h)|apply wfg_nodes, (tree_wf _ (ci_tree h In_h))|apply (ci_pop h In_h)].
  Qed.
  Lemma below_sum p c : In (p, c) es -> sums_to (pop_of h) (side T c p) (Wt c).
  Proof.
    intro He. exists (sub es c). split; [eapply sub_nodup; exact R|]. split; [|reflexivity].
    intro y. apply (side_below T r es p c y So He).
  Qed.
  Lemma sub_nodes p c x : In (p, c) es -> In x (sub es c) -> In x (g_nodes T).
  Proof.
    intros He Hx. apply (so_nodes _ _ _ So). destruct (sub_in r es c x R Hx) as [->|H].
    - right. now destruct (parent_in r es p c R He).
    - now right.
  Qed.
  Lemma above_sum p c : In (p, c) es -> sums_to (pop_of h) (side T p c) (tot_pop h - Wt c)%Z.
  Proof.
    intro He. exists (sdiff (g_nodes T) (sub es c)).
    assert (NDn := wfg_nodes _ (tree_wf _ (ci_tree h In_h))). split; [now apply NoDup_sdiff|]. split.
    - intro y. rewrite In_sdiff. apply (side_above T r es p c y So He).
    - rewrite tot_pop_sum.
      assert (P : Permutation (g_nodes T) (sub es c ++ sdiff (g_nodes T) (sub es c))).
      { apply NoDup_Permutation; auto.
        - apply NoDup_app_iff. split; [eapply sub_nodup; exact R|]. split; [now apply NoDup_sdiff|].
          intros x H1 H2. apply In_sdiff in H2. tauto.
        - intro x. rewrite in_app_iff, In_sdiff. destruct (In_dec_of x (sub es c)) as [Hx|Hx]; [|tauto].
          split; auto. intro. eapply sub_nodes; eauto. }
      rewrite (vsum_perm _ _ (Permutation_map (popf (h_pop h)) P)), map_app, vsum_app.
      change (cadd ?a ?b) with (Z.add a b). unfold W. change (pop_of h) with (popf (h_pop h)). lia.
  Qed.
  Lemma within_spec t e x : within t e x = true <-> balanced t e x.
  Proof. apply Qle_bool_iff. Qed.
  Lemma balanced_fun (Pr : N -> Prop) x t e : sums_to (pop_of h) Pr x ->
    balanced_set (pop_of h) t e Pr <-> within t e x = true.
  Proof.
    intro S. rewrite within_spec. split.
    - intros (y & S' & B). now rewrite (sums_to_fun _ _ _ _ S S').
    - intro B. exists x. auto.
  Qed.
  Lemma below_balanced p c : In (p, c) es -> side_balanced h c p <-> within (h_ideal h) (h_eps h) (Wt c) = true.
  Proof. intro He. apply balanced_fun. now apply below_sum. Qed.
  Lemma above_balanced p c : In (p, c) es -> side_balanced h p c <-> within (h_ideal h) (h_eps h) (tot_pop h - Wt c)%Z = true.
  Proof. intro He. apply balanced_fun. now apply above_sum. Qed.

  (** What a search leaves: one cut for each non-root node that is kept. *)
  Record found (keep : N -> bool) (C : list N) (sel : N -> N -> Prop) (cuts : list (cut N)) : Prop := {
    fo_once : NoDup (map (fun c => fst (cut_edge c)) cuts);
    fo_sound : forall c, In c cuts -> exists p y, In (p, y) es /\ In y C /\ keep y = true /\ cut_edge c = (y, p) /\
      cut_weight c = h_weight h (y, p) /\ NoDup (cut_subset c) /\ forall x, In x (cut_subset c) <-> sel y x;
    fo_complete : forall p y, In (p, y) es -> In y C -> keep y = true -> exists c, In c cuts /\ cut_edge c = (y, p)
  }.
  Lemma found_one_cut keep sel cuts (Pr : N -> N -> Prop) :
    found keep (map snd es) sel cuts ->
    (forall p y, In (p, y) es -> keep y = true <-> Pr y p \/ Pr p y) ->
    one_cut_for h Pr cuts.
  Proof.
    intros F HP. constructor.
    - intros c u v Hc E. destruct (fo_sound _ _ _ _ F c Hc) as (p & y & He & _ & K & Ec & _).
      unfold cuts_edge in E. rewrite Ec in E. apply (HP p y He) in K.
      assert (A := so_adj _ _ _ So p y He). destruct E as [E|E]; injection E as <- <-.
      + split; [now apply adj_sym|]. exact K.
      + split; [exact A|]. tauto.
    - intros u v A Pu. apply (so_all _ _ _ So) in A. destruct A as [He|He].
      + destruct (fo_complete _ _ _ _ F u v He) as (c & Hc & Ec).
        * apply (parent_in r es u v R He).
        * apply (HP u v He). auto.
        * exists c. split; auto. right. exact Ec.
      + destruct (fo_complete _ _ _ _ F v u He) as (c & Hc & Ec).
        * apply (parent_in r es v u R He).
        * apply (HP v u He). auto.
        * exists c. split; auto. left. exact Ec.
    - intros i j c c' u v Hi Hj E E'.
      assert (Hc := nth_error_In _ _ Hi). assert (Hc' := nth_error_In _ _ Hj).
      destruct (fo_sound _ _ _ _ F c Hc) as (p & y & He & _ & _ & Ec & _).
      destruct (fo_sound _ _ _ _ F c' Hc') as (p' & y' & He' & _ & _ & Ec' & _).
      assert (y' = y).
      { unfold cuts_edge in E, E'. rewrite Ec in E. rewrite Ec' in E'.
        destruct E as [E|E], E' as [E'|E']; injection E as <- <-; injection E' as -> ->; auto;
        exfalso; eapply (rooted_no_swap r es); eauto. }
      subst y'. assert (ND := fo_once _ _ _ _ F).
      apply (map_nth_error (fun c => fst (cut_edge c))) in Hi, Hj. rewrite Ec in Hi. rewrite Ec' in Hj. simpl in *.
      eapply NoDup_nth_error; eauto; [|congruence]. apply nth_error_Some. congruence.
  Qed.

  (** ** Memoization *)
  Lemma mapM_pick (f : N * Z -> res (list (@cut N))) (l : list (N * Z)) :
    NoDup (map fst l) ->
    (forall nx, In nx l -> f nx = Ok [] \/ exists c, f nx = Ok [c] /\ fst (cut_edge c) = fst nx) ->
    exists css, mapM f l = Ok css /\ NoDup (map (fun c => fst (cut_edge c)) (concat css)) /\
      (forall c, In c (concat css) <-> exists nx, In nx l /\ f nx = Ok [c]) /\
      (forall c, In c (concat css) -> In (fst (cut_edge c)) (map fst l)).
  Proof.
    induction l as [|nx l IH]; intros ND Hf.
    - exists []. simpl. split; [reflexivity|]. split; [constructor|]. split; [|tauto].
      intro c. split; [tauto|]. intros (? & [] & _).
    - simpl in ND. inversion ND as [|? ? Nin ND']; subst. destruct IH as (css & E & NDc & I & K); auto.
      { intros. apply Hf. now right. }
      destruct (Hf nx (or_introl eq_refl)) as [F|(c & F & Fc)].
      + exists ([] :: css). simpl. rewrite F. cbn [bind]. rewrite E. cbn [bind app]. split; [reflexivity|].
        split; [exact NDc|]. split.
        * intro c. rewrite I. split.
          -- intros (x & Hx & Fx). exists x. auto.
          -- intros (x & [<-|Hx] & Fx); [congruence|]. eauto.
        * intros c Hc. right. now apply K.
      + exists ([c] :: css). simpl. rewrite F. cbn [bind]. rewrite E. cbn [bind app map]. split; [reflexivity|].
        split; [|split].
        * constructor; auto. rewrite Fc. intro H. apply in_map_iff in H. destruct H as (c' & Ec' & Hc'). apply K in Hc'.
          congruence.
        * intro c'. simpl. rewrite I. split.
          -- intros [<-|(x & Hx & Fx)]; eauto.
          -- intros (x & [<-|Hx] & Fx); [left; congruence|]. eauto.
        * intros c' [<-|Hc']; [left; auto|]. right. now apply K.
  Qed.

  Definition memo_keep (one_sided : bool) (y : N) : bool :=
    let ok1 := within (h_ideal h) (h_eps h) (Wt y) in
    let ok2 := within (h_ideal h) (h_eps h) (tot_pop h - Wt y)%Z in
    if one_sided then ok1 || ok2 else ok1 && ok2.
  Definition memo_sel (one_sided : bool) (y x : N) : Prop :=
    if one_sided && within (h_ideal h) (h_eps h) (Wt y) then In x (sub es y)
    else In x (g_nodes T) /\ ~ In x (sub es y).
  Lemma sub_len c : List.length (sub es c) <= S (List.length (nodes_of r es)).
  Proof.
    assert (I : forall x, In x (sub es c) -> In x (c :: nodes_of r es)).
    { intros x Hx. destruct (sub_in r es c x R Hx) as [->|H]; [now left|]. right. now right. }
    apply NoDup_incl_length in I; [exact I|]. eapply sub_nodup. exact R.
  Qed.
  Lemma memo_found one_sided succ :
    (forall x, dget succ x = match kids es x with [] => if eqb x r then Some [] else None | l => Some l end) ->
    exists pops css, calc_pops (2 * List.length (g_nodes T)) succ r (h_pop h) = Ok pops /\
      mapM (fun nx => memo_cut h one_sided (predecessors es) succ (S (List.length (g_nodes T))) (fst nx) (snd nx)) pops = Ok css /\
      found (memo_keep one_sided) (map snd es) (memo_sel one_sided) (concat css).
  Proof.
    intro Hs.
    assert (Len : List.length (nodes_of r es) = List.length (g_nodes T)).
    { apply Permutation_length, NoDup_Permutation; [apply rooted_nodup, R|apply wfg_nodes, (tree_wf _ (ci_tree h In_h))|apply (so_nodes _ _ _ So)]. }
    destruct (calc_pops_spec r es succ R Hs (h_pop h) (2 * List.length (g_nodes T))) as (pops & E & ND & Keys & Vals).
    { intros y Hy. apply (ci_pop h In_h). now apply (so_nodes _ _ _ So). }
    { rewrite Len. lia. }
    set (f := fun nx => memo_cut h one_sided (predecessors es) succ (S (List.length (g_nodes T))) (fst nx) (snd nx)).
    assert (Step : forall y v, In (y, v) pops -> exists p, In (p, y) es /\
      (memo_keep one_sided y = false /\ f (y, v) = Ok [] \/
       memo_keep one_sided y = true /\ exists s, NoDup s /\ (forall x, In x s <-> memo_sel one_sided y x) /\
         f (y, v) = Ok [mkCut (y, p) (h_weight h (y, p)) s])).
    { intros y v Hyv.
      assert (v = Wt y) by (apply Vals; now apply In_dget). subst v.
      assert (Hy : In y (map snd es)) by (apply Keys; apply in_map_iff; now exists (y, Wt y)).
      apply in_map_iff in Hy. destruct Hy as ([p y'] & Ey & He). simpl in Ey. subst y'.
      exists p. split; auto.
      destruct (part_nodes_spec r es succ R Hs (S (List.length (g_nodes T))) y) as (s & Es & NDs & Is).
      { rewrite <- Len. apply sub_len. }
      unfold f, memo_cut. cbn [fst snd]. rewrite (proj2 (pred_spec r es y p R) He). cbn [bind of_option]. rewrite Es. cbn [bind].
      unfold memo_keep, memo_sel.
      assert (Out : forall x, In x (sdiff (g_nodes (h_tree h)) s) <-> In x (g_nodes T) /\ ~ In x (sub es y)).
      { intro x. rewrite In_sdiff, Is. reflexivity. }
      assert (NDo : NoDup (sdiff (g_nodes (h_tree h)) s)) by (apply NoDup_sdiff; apply wfg_nodes, (tree_wf _ (ci_tree h In_h))).
      destruct one_sided, (within (h_ideal h) (h_eps h) (Wt y)), (within (h_ideal h) (h_eps h) (tot_pop h - Wt y)%Z);
        cbn [andb orb]; try (left; split; reflexivity); right; split; auto; eauto. }
    destruct (mapM_pick f pops) as (css & Em & NDc & Ic & _).
    { exact ND. }
    { intros [y v] Hyv. destruct (Step y v Hyv) as (p & He & [(_ & F)|(_ & s & _ & _ & F)]); [left; exact F|].
      right. exists (mkCut (y, p) (h_weight h (y, p)) s). auto. }
    exists pops, css. split; [exact E|]. split; [exact Em|]. constructor.
    - exact NDc.
    - intros c Hc. apply Ic in Hc. destruct Hc as ([y v] & Hyv & F).
      destruct (Step y v Hyv) as (p & He & [(_ & F')|(K & s & NDs & Is & F')]); [congruence|].
      assert (Ec : c = mkCut (y, p) (h_weight h (y, p)) s) by congruence. subst c.
      exists p, y. cbn. split; auto. split; [apply (parent_in r es p y R He)|]. auto 10.
    - intros p y He Hy K. apply Keys in Hy. apply dget_key in Hy. destruct Hy as (v & Hv). apply dget_In in Hv.
      destruct (Step y v Hv) as (p' & He' & [(K' & _)|(_ & s & NDs & Is & F')]); [congruence|].
      assert (p' = p) by (eapply (parent_unique r es); eauto). subst p'.
      exists (mkCut (y, p) (h_weight h (y, p)) s). split; auto. apply Ic. eauto.
  Qed.
End Found.
