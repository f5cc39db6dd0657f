(** C104: how likely recom is to redraw two districts in a given way. *)
From Coq Require Import String List Bool Arith ZArith QArith Qabs Lqa Permutation Lia ZifyBool ZifyNat.
From Verif Require Import Base M_Graph M_Partition S_Partition L_Partition M_Machine S_Machine L_Sums
  L_Cuts L_Machine L_Answers S_Contiguity L_Search P_Partition P_Machine M_Election L_Order M_Proposals S_Proposals
  M_Tree S_Tree S_TreeCuts L_Tree P_Tree P_Contiguity P_Spanning P_Proposals P_Bipartition M_Recursive P_Recursive
  M_Recom P_Recom P_Reversible L_Locality M_SpanningCount L_MatrixTree P_SpanningCount L_Seam P_DetailedBalance M_Diversity P_Uniform P_FlipLaw.
Import ListNotations.
Local Open Scope nat_scope.
Local Open Scope list_scope.

(** ** At most one edge of a tree has exactly equal sides *)
Section Exact.
  Context {N : Type} {EN : EqB N}.
  Lemma sums_less (w : N -> Z) (A B : N -> Prop) z x y : (forall n, A n -> B n) -> B z -> ~ A z -> (forall n, B n -> (0 < w n)%Z) ->
    sums_to w A x -> sums_to w B y -> (x < y)%Z.
  Proof.
    intros AB Bz Az Pos (l & N1 & I1 & ->) (m & N2 & I2 & ->).
    assert (Pm : Permutation m (l ++ sdiff m l)).
    { apply NoDup_Permutation; auto.
      - apply NoDup_app_iff. split; auto. split; [now apply NoDup_sdiff|]. intros n X Y. apply In_sdiff in Y. tauto.
      - intro n. rewrite in_app_iff, In_sdiff, I1, I2. destruct (In_dec_of n l) as [H|H]; rewrite I1 in H; [split; [intros _; left; exact H|intros _; now apply AB]|]. tauto. }
    assert (E : vsum (map w m) = vsum (map w (l ++ sdiff m l))).
    { apply vsum_same; auto; [|intro n; split; apply Permutation_in; [exact Pm|now apply Permutation_sym]]. eapply Permutation_NoDup; eauto. }
    rewrite E, map_app, vsum_app. assert (G : forall r, incl r m -> (0 <= vsum (map w r))%Z /\ (In z r -> (0 < vsum (map w r))%Z)).
    { clear E Pm. induction r as [|a r IH]; intro I; cbn [map]; [rewrite vsum_nil; split; [apply Z.le_refl|intros []]|]. rewrite vsum_cons.
      destruct (IH (fun n h => I n (or_intror h))) as [G1 G2]. assert (Pa := Pos a (proj1 (I2 a) (I a (or_introl eq_refl)))). cbn. split; [lia|]. intros _. lia. }
    destruct (G (sdiff m l)) as [_ G2]; [intros n X; apply In_sdiff in X; tauto|].
    assert (Z0 : In z (sdiff m l)) by (apply In_sdiff; split; [now apply I2|now rewrite I1]). specialize (G2 Z0). cbn. lia.
  Qed.

  Variables (T : graph N) (w : N -> Z) (t e : Q).
  Hypothesis HT : is_tree T.
  Hypothesis He : (e == 0)%Q.
  Hypothesis Pos : forall n, In n (g_nodes T) -> (0 < w n)%Z.
  Notation bal u v := (balanced_set w t e (side T u v)).
  Lemma exact_sum (A : N -> Prop) : balanced_set w t e A -> exists x, sums_to w A x /\ (inject_Z x == t)%Q.
  Proof.
    intros (x & S & B). exists x. split; auto. unfold balanced in B. apply Qabs_Qle_condition in B. assert (t * e == 0)%Q by (rewrite He; ring). lra.
  Qed.
  Lemma strict_sides u v u' v' : adj T u v -> adj T u' v' -> bal v u -> bal u' v' -> side T u v u' -> side T u v v' -> side T u' v' v -> False.
  Proof.
    intros Ad Ad' B B' Hu Hv Sv. destruct (C50_sides T u v HT Ad) as (All & Dis & _). destruct (C50_sides T u' v' HT Ad') as (All' & _ & _).
    destruct (exact_sum _ B) as (x & Sx & Ex), (exact_sum _ B') as (y & Sy & Ey).
    assert (L : (x < y)%Z).
    { refine (sums_less w (side T v u) (side T u' v') u' x y _ _ _ _ Sx Sy).
      - intros n X. induction X as [|a b X IH St]; [exact Sv|]. eapply reach_step; [exact IH|].
        assert (Y : side T v u b) by (eapply reach_step; eauto). destruct St as (St & _ & _). split; auto.
        split; intros [Ea _]; rewrite Ea in X; [exact (Dis u' (conj Hu X))|exact (Dis v' (conj Hv X))].
      - constructor.
      - intro X. apply (Dis u'). auto.
      - intros n X. apply Pos, All'. auto. }
    assert (Eq : (inject_Z x == inject_Z y)%Q) by (rewrite Ex, Ey; reflexivity). unfold Qeq in Eq. cbn in Eq. lia.
  Qed.
  Lemma one_exact_edge u v u' v' : adj T u v -> adj T u' v' -> bal u v -> bal v u -> bal u' v' -> bal v' u' ->
    (u' = u /\ v' = v) \/ (u' = v /\ v' = u).
  Proof.
    intros Ad Ad' B1 B2 B1' B2'. destruct (eqb_spec (u', v') (u, v)) as [Q|Q]; [left; injection Q as -> ->; auto|].
    destruct (eqb_spec (u', v') (v, u)) as [Q'|Q']; [right; injection Q' as -> ->; auto|]. exfalso.
    assert (Go : forall a b, adj T a b -> bal a b -> bal b a -> (u', v') <> (a, b) -> (u', v') <> (b, a) -> side T a b u' -> False).
    { intros a b A Ba Bb X Y S. assert (S' : side T a b v') by (eapply reach_step; [exact S|]; split; auto; split; intros [-> ->]; congruence).
      destruct (C50_sides T u' v' HT Ad') as (All & _ & _). assert (Nb : In b (g_nodes T)).
      { destruct (tree_wf _ HT) as [_ _ W _]. destruct A as [A|A]; apply W in A; tauto. }
      apply All in Nb. destruct Nb as [Nb|Nb].
      - eapply (strict_sides a b u' v'); eauto.
      - eapply (strict_sides a b v' u'); eauto. unfold adj in *. tauto. }
    destruct (C50_sides T u v HT Ad) as (All & _ & _). assert (Nu : In u' (g_nodes T)).
    { destruct (tree_wf _ HT) as [_ _ W _]. destruct Ad' as [A|A]; apply W in A; tauto. }
    apply All in Nu. destruct Nu as [Nu|Nu]; [apply (Go u v)|apply (Go v u)]; auto. unfold adj in *. tauto.
  Qed.
End Exact.

(** ** Words of draws that stop at the first success *)
Section Words.
  Context {X : Type}.
  Fixpoint lwords (ts : list X) (m : nat) : list (list X) :=
    match m with 0 => [[]] | S m => map (fun xw => fst xw :: snd xw) (list_prod ts (lwords ts m)) end.
  Lemma In_lwords ts m : forall w, In w (lwords ts m) <-> List.length w = m /\ Forall (fun x => In x ts) w.
  Proof.
    induction m as [|m IH]; intro w; cbn [lwords].
    - split; [intros [<-|[]]; auto|]. intros [H _]. destruct w; [now left|discriminate].
    - rewrite in_map_iff. split.
      + intros ([x v] & <- & H). apply in_prod_iff in H. cbn [fst snd]. destruct H as [H1 H2]. apply IH in H2. destruct H2 as [<- H2]. split; [reflexivity|constructor; auto].
      + intros [H F]. destruct w as [|x v]; [discriminate|]. inversion F as [|? ? F1 F2]; subst. exists (x, v). split; auto. apply in_prod_iff. split; auto. apply IH. split; auto.
  Qed.
  Lemma NoDup_lwords ts m : NoDup ts -> NoDup (lwords ts m).
  Proof.
    intro ND. induction m as [|m IH]; cbn [lwords]; [constructor; [intros []|constructor]|].
    apply FinFun.Injective_map_NoDup; [|now apply NoDup_prod]. intros [x v] [y u]. cbn. intros [= -> ->]. reflexivity.
  Qed.
  Lemma length_lwords ts m : List.length (lwords ts m) = List.length ts ^ m.
  Proof. induction m as [|m IH]; cbn [lwords]; [reflexivity|]. rewrite map_length, prod_length, IH. reflexivity. Qed.
  Variables no sp : X -> bool.
  Fixpoint first_hit (w : list X) : bool := match w with [] => false | x :: w => if no x then first_hit w else sp x end.
  (** [K^(m-1) + F K^(m-2) + ... + F^(m-1)] *)
  Definition geo (K F m : nat) : nat := list_sum (map (fun j => F ^ j * K ^ (m - 1 - j)) (seq 0 m)).
  Lemma geo_S K F m : geo K F (S m) = K ^ m + F * geo K F m.
  Proof.
    unfold geo. rewrite <- cons_seq. cbn [map]. change (list_sum (?x :: ?l)) with (x + list_sum l).
    replace (S m - 1 - 0) with m by lia. rewrite Nat.pow_0_r, Nat.mul_1_l. f_equal.
    rewrite <- seq_shift, map_map. assert (G : forall l, list_sum (map (fun j => F ^ S j * K ^ (S m - 1 - S j)) l) = F * list_sum (map (fun j => F ^ j * K ^ (m - 1 - j)) l)); [|apply G].
    induction l as [|j l IH]; cbn [map]; [cbn; lia|]. change (list_sum (?x :: ?l)) with (x + list_sum l). rewrite IH. replace (S m - 1 - S j) with (m - 1 - j) by lia. cbn [Nat.pow]. lia.
  Qed.
  Lemma geo_sum K F m : F <= K -> (K - F) * geo K F m + F ^ m = K ^ m.
  Proof.
    intro H. induction m as [|m IH]; [unfold geo; cbn; lia|]. rewrite geo_S, !Nat.pow_succ_r'. rewrite <- IH at 2.
    rewrite <- IH. set (x := F ^ m). set (y := geo K F m). replace K with ((K - F) + F) at 4 by lia. nia.
  Qed.
  Lemma count_hits ts m : (forall x, In x ts -> no x = true -> sp x = false) ->
    List.length (filter first_hit (lwords ts m)) = List.length (filter sp ts) * geo (List.length ts) (List.length (filter no ts)) m.
  Proof.
    intro Hns. induction m as [|m IH]; [cbn; lia|]. rewrite geo_S. cbn [lwords].
    set (W := lwords ts m) in *. set (c := List.length (filter first_hit W)) in *.
    assert (Pre : forall l, incl l ts -> List.length (filter first_hit (map (fun xw => fst xw :: snd xw) (list_prod l W))) = List.length (filter sp l) * List.length W + List.length (filter no l) * c).
    { induction l as [|x l IHl]; intro I; [reflexivity|]. cbn [list_prod]. rewrite map_app, filter_app, app_length, IHl by (intros y Y; apply I; now right). rewrite map_map. cbn [fst snd].
      assert (Hx := Hns x (I x (or_introl eq_refl))).
      assert (One : List.length (filter first_hit (map (fun w => x :: w) W)) = if no x then c else if sp x then List.length W else 0).
      { unfold c. clear. induction W as [|w W IH]; [destruct (no x), (sp x); reflexivity|]. cbn [map filter first_hit]. destruct (no x).
        - destruct (first_hit w); cbn [List.length]; now rewrite IH.
        - destruct (sp x); cbn [List.length]; now rewrite IH. }
      rewrite One. cbn [filter]. destruct (no x) eqn:Ex; [rewrite (Hx eq_refl); cbn [List.length]; lia|]. destruct (sp x); cbn [List.length]; lia. }
    rewrite (Pre ts (incl_refl ts)). unfold W at 1. rewrite length_lwords, IH. lia.
  Qed.
  Lemma first_hit_spec d : forall w, first_hit w = true <-> exists j, j < List.length w /\ (forall i, i < j -> no (nth i w d) = true) /\ no (nth j w d) = false /\ sp (nth j w d) = true.
  Proof.
    induction w as [|x w IH]; cbn [first_hit]; [split; [discriminate|intros (j & H & _); cbn in H; lia]|].
    destruct (no x) eqn:Ex.
    - rewrite IH. split.
      + intros (j & H1 & H2 & H3 & H4). exists (S j). split; [cbn; lia|]. split; [|auto]. intros [|i] Hi; [exact Ex|]. apply H2. lia.
      + intros ([|j] & H1 & H2 & H3 & H4); [cbn in H3; congruence|]. exists j. split; [cbn in H1; lia|]. split; [|auto]. intros i Hi. apply (H2 (S i)). lia.
    - split.
      + intro H. exists 0. split; [cbn; lia|]. split; [lia|]. auto.
      + intros ([|j] & H1 & H2 & H3 & H4); [exact H4|]. assert (Y := H2 0 ltac:(lia)). cbn in Y. congruence.
  Qed.
End Words.

Section Law.
  Context {N P V L : Type} {EN : EqB N} {EP : EqB P} {EL : EqB L} {ON : Ord N} {OP : Ord P} {RV : CRing V}.
  Variable E : env N P V L.
  Notation g := (e_graph E).
  Variable pop : dict N Z.
  Hypothesis Hpop : covers pop g.
  Variables (balance : @balance_fn N) (t e : Q).
  Hypothesis Hbal : balance = find_cuts_memoization \/ balance = find_cuts_contraction.

  (** ** Specification *)

  (** bipartition_tree with node_repeats=1, max_attempts [m] and
      allow_pair_reselection=False, in which the sampler returns the trees of
      [w] one after another.  [m] is the length of [w] below, so no tree after
      the last is asked for. *)
  Definition method_of (weights : nat -> N * N -> Q) (root : nat -> nat) (fuel m : nat) (pick : list (cut N) -> res (cut N))
      (w : list (list (N * N))) : @method_fn N :=
    tree_method balance (fun _ H i => Ok (mkGraph (g_nodes H) (nth i w (hd [] w)))) pop (fun _ => weights) (fun _ => root) fuel (Some m) 1 false (fun _ => pick).
  (** A call of recom with it that draws the cut edge number [r]. *)
  Definition recom_call (weights : nat -> N * N -> Q) (root : nat -> nat) (fuel m : nat) (pick : list (cut N) -> res (cut N))
      (a : nat) (h : heap N P V L) (r : nat) (w : list (list (N * N))) : res nat * heap N P V L :=
    recom E pop (method_of weights root fuel m pick w) (fun _ => r) t e 1 a h.
  (** A way of choosing among cuts. *)
  Definition picks (pick : list (cut N) -> res (cut N)) : Prop := forall cuts, cuts <> [] -> exists c, pick cuts = Ok c /\ In c cuts.
  (** Draw [r] of a cut edge of [A], from its cut edges [s], is an edge between [p] and [q]. *)
  Definition draws_pair (A : assignment N P) (s : list (N * N)) (p q : P) (r : nat) : Prop :=
    r < List.length s /\ exists x, choice r s = Ok x /\
      ((district A (fst x) = Some p /\ district A (snd x) = Some q) \/ (district A (fst x) = Some q /\ district A (snd x) = Some p)).
  (** Edge [u v] of the tree [T] leaves balanced populations on both sides. *)
  Definition balanced_edge (T : graph N) (u v : N) : Prop :=
    adj T u v /\ balanced_set (popn pop) t e (side T u v) /\ balanced_set (popn pop) t e (side T v u).
  Definition one_balanced_edge (H : graph N) : Prop := forall T u v u' v', tree_of H T ->
    balanced_edge (mkGraph (g_nodes H) T) u v -> balanced_edge (mkGraph (g_nodes H) T) u' v' -> (u' = u /\ v' = v) \/ (u' = v /\ v' = u).
  Definition fails (H : graph N) (T : list (N * N)) : Prop := tree_of H T /\ forall u v, ~ balanced_edge (mkGraph (g_nodes H) T) u v.

  (** The hypothesis [one_balanced_edge] holds for exact balance and positive populations. *)
  Theorem C104_exact H : wf_graph H -> (e == 0)%Q -> (forall n, In n (g_nodes H) -> (0 < popn pop n)%Z) -> one_balanced_edge H.
  Proof using.
    intros WF He Pos T u v u' v' HT (A & B1 & B2) (A' & B1' & B2').
    eapply (one_exact_edge (mkGraph (g_nodes H) T) (popn pop) t e); eauto. apply HT.
  Qed.

  Lemma populations_some (H : graph N) : incl (g_nodes H) (dkeys pop) -> exists pp, populations pop H = Ok pp.
  Proof using.
    intro I. unfold populations. assert (G : forall l, incl l (dkeys pop) -> exists pp, mapM (fun n => x <- of_option KeyError (dget pop n) ;; Ok (n, x)) l = Ok pp).
    { induction l as [|n l IH]; intro J; [eexists; reflexivity|]. cbn [mapM]. destruct (proj1 (dget_In_keys pop n) (J n (or_introl eq_refl))) as (x & Ex). rewrite Ex. cbn [of_option bind].
      destruct IH as (pp & Ep); [intros y Y; apply J; now right|]. rewrite Ep. eexists. reflexivity. }
    apply G. intros n X. apply I. apply (proj1 (Base.In_set_of _ _)) in X; exact X.
  Qed.
  Lemma bal_agree (w w' : N -> Z) (Pr : N -> Prop) : (forall n, Pr n -> w n = w' n) -> balanced_set w t e Pr -> balanced_set w' t e Pr.
  Proof using. intros H (x & (l & H1 & H2 & ->) & B). exists (vsum (map w l)). split; auto. exists l. split; auto. split; auto. f_equal. apply map_ext_in. intros n X. apply H, H2, X. Qed.

  Section Plan.
    Variables (h : heap N P V L) (a : nat) (o : pobj N P V L).
    Hypothesis S : session E h.
    Hypothesis Ho : nth_error h a = Some o.
    Hypothesis Hu : dget (e_updaters E) "cut_edges"%string = Some UCutEdges.
    Notation A := (o_assign o).
    Let C : coherent (g_nodes g) A := Coh E h a o S Ho.
    Let WF : wf_graph g := P_Proposals.wfg E h S.
    Variables (p q : P).
    Hypothesis Npq : p <> q.
    Variable nodes : list N.
    Hypothesis Hnodes : forall n, In n nodes <-> district A n = Some p \/ district A n = Some q.
    Notation H := (subgraph g nodes).
    Hypothesis L3 : 3 <= List.length (g_nodes H).
    Variables SA SB : list N.
    Hypothesis Cov : forall n, In n nodes <-> In n SA \/ In n SB.
    Hypothesis Dis : forall n, In n SA -> In n SB -> False.
    Hypothesis BA : balanced_set (popn pop) t e (fun n => In n SA).
    Hypothesis BB : balanced_set (popn pop) t e (fun n => In n SB).
    Hypothesis One : one_balanced_edge H.
    Variables (weights : nat -> N * N -> Q) (root : nat -> nat) (fuel m : nat) (pick : list (cut N) -> res (cut N)).
    Hypothesis Hfuel : m <= fuel.
    Hypothesis Hpick : picks pick.

    Lemma in_nodes : incl nodes (g_nodes g).
    Proof using S Ho Hnodes. intros n X. apply Hnodes in X. apply (coh_dom _ _ C). destruct X as [X|X]; eapply dget_Some_key; exact X. Qed.
    Lemma H_nodes n : In n (g_nodes H) <-> In n nodes.
    Proof using S Ho Hnodes. rewrite subgraph_nodes. split; [intros [_ X]; exact X|]. intro X. split; [now apply in_nodes|exact X]. Qed.

    Section Populations.
      Variable pp : dict N Z.
      Hypothesis Hpp : populations pop H = Ok pp.
      Lemma pp_covers : covers pp H /\ forall n, In n (g_nodes H) -> popn pp n = popn pop n.
      Proof using Hpp. destruct (populations_inv pop _ _ Hpp) as (K1 & K2 & K3). split; [split; assumption|exact K3]. Qed.
      Notation hh i T := (mkPopulated (mkGraph (g_nodes H) T) pp t e (weights i)).
      Lemma attempt i T : tree_of H T -> exists cuts, balance (hh i T) false (root i) = Ok cuts /\
        (cuts = [] <-> fails H T) /\
        (forall c, In c cuts -> good_split H pp t e true (cut_subset c) /\ (P_DetailedBalance.hit SA SB c = true <-> splits SA (mkGraph (g_nodes H) T))).
      Proof using Hbal S Ho Hnodes L3 Cov Dis BA BB One Hpp.
        intro HT. destruct pp_covers as [Cv Ag]. assert (I : cut_input (hh i T)) by (apply (covers_input H); [apply HT|exact Cv]).
        destruct (two_sided balance Hbal (hh i T) (root i) I L3) as (cuts & Eb & O & Off). exists cuts. split; auto.
        assert (Tr : is_tree (mkGraph (g_nodes H) T)) by apply HT.
        assert (Conv : forall u v, adj (mkGraph (g_nodes H) T) u v -> both_balanced (hh i T) u v <-> balanced_edge (mkGraph (g_nodes H) T) u v).
        { intros u v Ad. destruct (C50_sides _ u v Tr Ad) as (All & _). cbn [g_nodes] in All. unfold both_balanced, side_balanced, balanced_edge. cbn [h_tree h_ideal h_eps].
          split; [intros [X Y]; split; [exact Ad|]; split|intros (_ & X & Y); split];
            [refine (bal_agree _ _ _ _ X)|refine (bal_agree _ _ _ _ Y)|refine (bal_agree _ _ _ _ X)|refine (bal_agree _ _ _ _ Y)];
            intros n Hn; [| |symmetry|symmetry]; apply Ag, All; auto. }
        assert (Few : forall i j c c', nth_error cuts i = Some c -> nth_error cuts j = Some c' -> i = j).
        { intros i0 j c c' Hi Hj. destruct (Off c (nth_error_In _ _ Hi)) as (u & v & (Ed & _) & B), (Off c' (nth_error_In _ _ Hj)) as (u' & v' & (Ed' & _) & B').
          destruct (oc_sound _ _ _ O c u v (nth_error_In _ _ Hi) Ed) as [Ad _]. destruct (oc_sound _ _ _ O c' u' v' (nth_error_In _ _ Hj) Ed') as [Ad' _].
          assert (Ee := One T u v u' v' HT (proj1 (Conv u v Ad) B) (proj1 (Conv u' v' Ad') B')).
          eapply (oc_once _ _ _ O i0 j c c' u v); eauto. destruct Ee as [[-> ->]|[-> ->]]; auto. unfold cuts_edge in *. tauto. }
        split; [|intros c Hc; split].
        - split.
          + intros -> . split; auto. intros u v B. assert (Ad : adj (mkGraph (g_nodes H) T) u v) by apply B. apply (Conv u v Ad) in B.
            destruct (oc_complete _ _ _ O u v Ad B) as (c & [] & _).
          + intros [_ F]. destruct cuts as [|c cuts]; auto. exfalso. destruct (Off c (or_introl eq_refl)) as (u & v & (Ed & _) & B).
            destruct (oc_sound _ _ _ O c u v (or_introl eq_refl) Ed) as [Ad _]. apply (F u v). now apply Conv.
        - destruct (Off c Hc) as (u & v & Co & B1 & B2). destruct (oc_sound _ _ _ O c u v Hc (proj1 Co)) as [Ad _].
          apply (side_good H (mkGraph (g_nodes H) T) pp t e (weights i) false c u v); auto. apply HT.
        - destruct (hits_spec H SA SB (fun n X => proj1 (Cov n) (proj1 (H_nodes n) X)) Dis) with (T := T) (h := hh i T) (cuts := cuts) as [_ L2]; auto.
          + intros n X. apply H_nodes, Cov. auto.
          + intros n X. apply H_nodes, Cov. auto.
          + cbn [h_ideal h_eps]. refine (bal_agree _ _ _ _ BA). intros n X. symmetry. apply Ag, H_nodes, Cov. auto.
          + cbn [h_ideal h_eps]. refine (bal_agree _ _ _ _ BB). intros n X. symmetry. apply Ag, H_nodes, Cov. auto.
          + destruct (In_nth_error _ _ Hc) as (k & Hk).
            assert (Ec : cuts = [c]).
            { destruct cuts as [|c1 [|c2 l]]; [destruct Hc| |assert (Q := Few 0 1 c1 c2 eq_refl eq_refl); discriminate]. destruct Hc as [<-|[]]. reflexivity. }
            rewrite <- L2, Ec. cbn [filter]. destruct (P_DetailedBalance.hit SA SB c); cbn [List.length]; split; auto; discriminate.
      Qed.

      (** The method on the two districts. *)
      Lemma method_spec w : 1 <= m -> List.length w = m -> Forall (tree_of H) w ->
        (exists j c, j < m /\ (forall i, i < j -> fails H (nth i w [])) /\ ~ fails H (nth j w []) /\
           good_split H pp t e true (cut_subset c) /\ (P_DetailedBalance.hit SA SB c = true <-> splits SA (mkGraph (g_nodes H) (nth j w []))) /\
           method_of weights root fuel m pick w 0 H t e false = Ok (Some (cut_subset c))) \/
        ((forall i, i < m -> fails H (nth i w [])) /\ method_of weights root fuel m pick w 0 H t e false = Err RuntimeError).
      Proof using Hbal S Ho Hnodes L3 Cov Dis BA BB One Hfuel Hpick Hpp.
        intros Hm Lw Fw. set (Ts := fun i => nth i w (hd [] w)).
        assert (HTs : forall i, tree_of H (Ts i)).
        { intro i. unfold Ts. destruct w as [|T0 w']; [cbn in Lw; lia|]. cbn [hd]. rewrite Forall_forall in Fw. destruct (Nat.lt_ge_cases i (List.length (T0 :: w'))) as [Hi|Hi].
          - apply Fw, nth_In, Hi.
          - rewrite nth_overflow by exact Hi. apply Fw. now left. }
        assert (Nth : forall i, i < m -> nth i w [] = Ts i) by (intros i Hi; apply nth_indep; lia).
        set (cs := fun i => match balance (hh i (Ts i)) false (root i) with Ok c => c | _ => [] end).
        assert (Hcs : forall i, balance (hh i (Ts i)) false (root i) = Ok (cs i)) by (intro i; destruct (attempt i (Ts i) (HTs i)) as (c & X & _); unfold cs; now rewrite X).
        assert (Spec : forall i, (cs i = [] <-> fails H (Ts i)) /\ forall c, In c (cs i) -> good_split H pp t e true (cut_subset c) /\ (P_DetailedBalance.hit SA SB c = true <-> splits SA (mkGraph (g_nodes H) (Ts i)))).
        { intro i. destruct (attempt i (Ts i) (HTs i)) as (c & X & Y). rewrite Hcs in X. injection X as ->. exact Y. }
        unfold method_of, tree_method. rewrite Hpp. cbn [bind]. unfold bipartition_tree_call, bipartition_tree.
        destruct (first_outcome (fun i => Ok (mkGraph (g_nodes H) (Ts i))) (fun T i => balance (mkPopulated T pp t e (weights i)) false (root i)) 1 None (le_n 1)
          (fun i => mkGraph (g_nodes H) (Ts i)) cs) with (max := Some m) (stop := @some_cut N) (failure := RuntimeError) (fuel := fuel) as (T0 & E1 & E2).
        { intro i. unfold used. now rewrite Nat.div_1_r. }
        { exact Hcs. }
        unfold Ts in E1. rewrite E1. cbn [bind fst snd]. fold Ts. unfold Ts in E2. rewrite E2.
        destruct (outcome_bounded cs m (@some_cut N) RuntimeError fuel 0) as [(j & Hj & Sj & Bef & Eo)|(No & Eo)]; [lia|lia| |]; rewrite Eo; cbn [bind].
        - left. assert (NE : cs j <> []) by (intro X; rewrite X in Sj; discriminate). destruct (Hpick (cs j) NE) as (c & Ec & Ic). rewrite Ec. cbn [bind].
          exists j, c. split; [lia|]. split; [intros i Hi; rewrite Nth by lia; apply Spec; assert (X := Bef i ltac:(lia)); destruct (cs i); [reflexivity|discriminate]|].
          rewrite Nth by lia. split; [intro X; apply NE; now apply Spec|]. destruct (proj2 (Spec j) c Ic) as [G1 G2]. auto.
        - right. split; auto. intros i Hi. rewrite Nth by lia. apply Spec. assert (X := No i ltac:(lia)). destruct (cs i); [reflexivity|discriminate].
      Qed.
    End Populations.

    Lemma eps_ok (meth : graph N -> Q -> Q -> bool -> res (option (list N))) (d : dict N Z) (G : graph N) (x y : P) s : covers d G -> NoDup (g_nodes G) ->
      meth (subgraph G (g_nodes G)) t e false = Ok (Some s) -> incl s (g_nodes G) ->
      balanced_set (popn d) t e (fun n => In n s) -> balanced_set (popn d) t e (outside G s) ->
      exists f, epsilon_tree_bipartition (fun _ => meth) d G [x; y] t e = Ok f /\ (x <> y -> forall n, dget f n = Some x <-> In n s).
    Proof.
      intros [K1 K2] ND Em I B B'. unfold epsilon_tree_bipartition, epsilon_tree_bipartition_on. cbn [List.length Nat.eqb negb].
      unfold last_two, take. rewrite Em. cbn [bind]. unfold from_end. cbn [rev app nth_error Nat.sub of_option]. unfold assign_nodes at 1.
      assert (I1 : incl (set_of s) (dkeys d)) by (intros n X; apply K2, I; apply (proj1 (Base.In_set_of _ _)) in X; exact X).
      assert (Chk : forall l Pr, NoDup l -> (forall n, In n l <-> Pr n) -> balanced_set (popn d) t e Pr -> check_pop t e (0 + psum d l) = true).
      { intros l Pr Nl El (z & (l' & M1 & M2 & ->) & Bz). apply check_spec. rewrite Z.add_0_l. unfold psum.
        assert (Eq : vsum (map (popn d) l) = vsum (map (popn d) l')); [|rewrite Eq; exact Bz].
        apply vsum_same; auto. intro n. rewrite El, M2. reflexivity. }
      rewrite assign_ok by exact I1. cbn [bind fst snd]. rewrite (Chk (set_of s) (fun n => In n s)); [|apply NoDup_set_of|intro n; apply Base.In_set_of|exact B].
      cbn [snd]. unfold finish, assign_nodes. rewrite assign_ok by (intros n X; apply In_sdiff in X; apply K2; tauto). cbn [bind fst snd].
      rewrite (Chk (sdiff (g_nodes G) (set_of s)) (outside G s)); [|now apply NoDup_sdiff|intro n; rewrite In_sdiff, Base.In_set_of; reflexivity|exact B'].
      eexists. split; [reflexivity|]. intros Nxy n. rewrite !dget_painted.
      destruct (mem n (sdiff (g_nodes G) (set_of s))) eqn:E1.
      - apply mem_In, In_sdiff in E1. rewrite Base.In_set_of in E1. split; [congruence|tauto].
      - destruct (mem n (set_of s)) eqn:E2.
        + apply mem_In in E2. apply (proj1 (Base.In_set_of _ _)) in E2. tauto.
        + apply mem_notIn in E2. rewrite Base.In_set_of in E2. split; [intros [=]|contradiction].
    Qed.

    (** A call that draws an edge between [p] and [q]. *)
    Variables (s : list (N * N)) (h1 : heap N P V L).
    Hypothesis Hs : cut_edges_of E a h = (Ok s, h1).
    Lemma call_spec r w : draws_pair A s p q r -> 1 <= m -> List.length w = m -> Forall (tree_of H) w ->
      (exists j c b h' o' x, j < m /\ (forall i, i < j -> fails H (nth i w [])) /\ ~ fails H (nth j w []) /\
         (P_DetailedBalance.hit SA SB c = true <-> splits SA (mkGraph (g_nodes H) (nth j w []))) /\
         recom_call weights root fuel m pick a h r w = (Ok b, h') /\ nth_error h' b = Some o' /\
         (x = p \/ x = q) /\ (forall n, district (o_assign o') n = Some x <-> In n (cut_subset c)) /\ redrawn A p q (o_assign o')) \/
      ((forall i, i < m -> fails H (nth i w [])) /\ fst (recom_call weights root fuel m pick a h r w) = Err RuntimeError).
    Proof using Hpop Hbal S Ho Hu Npq Hnodes L3 Cov Dis BA BB One Hfuel Hpick Hs.
      intros (Hr & ed & Ee & De) Hm Lw Fw.
      destruct (cuts_ok E h a o S Ho Hu) as (s0 & h0 & Hc & _ & Sp & S1 & K). rewrite Hs in Hc. injection Hc as <- <-.
      assert (L2 : 1 < List.length (a_parts A)).
      { assert (X : List.length [p; q] <= List.length (labels A)).
        { apply NoDup_incl_length; [constructor; [intros [X|[]]; congruence|constructor; [intros []|constructor]]|].
          intros z [<-|[<-|[]]]; destruct De as [[X Y]|[X Y]]; eapply (label_of E h a o S Ho); eauto. }
        unfold labels, dkeys in X. rewrite map_length in X. cbn in X. lia. }
      unfold recom_call, recom. rewrite (get_bind h a o) by exact Ho. cbn zeta. rewrite (proj2 (Nat.ltb_lt 0 _)) by nia. rewrite (bindM_ok _ _ _ _ _ Hs).
      set (meth := method_of weights root fuel m pick w).
      rewrite (loop_eq E pop o meth (fun _ => r) t e s). cbn [List.length Nat.mul]. rewrite (proj2 (Nat.ltb_lt 0 _)) by nia.
      assert (Pr : exists x y, ((x = p /\ y = q) \/ (x = q /\ y = p)) /\ pair_at o (fun _ => r) s 0 = Ok (x, y)).
      { unfold pair_at. rewrite Ee. cbn [bind]. unfold part_of, district in *. destruct De as [[X Y]|[X Y]]; rewrite X, Y; cbn [of_option bind]; unfold sorted_pair;
          match goal with |- context [if ?b then _ else _] => destruct b end; eexists; eexists; (split; [|reflexivity]); auto. }
      destruct Pr as (x & y & Exy & Ep). rewrite Ep. cbn [bind fst snd]. change (mem (x, y) []) with false. cbn iota.
      assert (Lx : In x (labels A) /\ In y (labels A)).
      { destruct De as [[X Y]|[X Y]], Exy as [[-> ->]|[-> ->]]; split; eapply (label_of E h a o S Ho); eauto. }
      destruct Lx as [Lx Ly]. assert (Nxy : x <> y) by (destruct Exy as [[-> ->]|[-> ->]]; congruence).
      destruct (merged_ok E h a o S Ho x y Lx Ly) as (nodes' & Em & _ & Hn'). rewrite Em. cbn [bind].
      assert (Hnn : forall n, In n nodes' <-> In n nodes) by (intro n; rewrite Hn', Hnodes; destruct Exy as [[-> ->]|[-> ->]]; tauto).
      rewrite (subgraph_ext g _ _ Hnn), (restrict_ext pop _ _ Hnn).
      assert (Self : subgraph H (g_nodes H) = H).
      { rewrite subgraph_twice by (intros n X; now apply H_nodes). apply subgraph_ext. apply H_nodes. }
      destruct (populations_some H) as (pp & Hpp); [intros n X; apply Hpop, in_nodes, H_nodes, X|].
      assert (Cv := covers_restrict E pop Hpop nodes in_nodes).
      destruct (pp_covers pp Hpp) as [_ Ag].
      destruct (method_spec pp Hpp w Hm Lw Fw) as [(j & c & Hj & Bef & At & G & Hh & Emeth)|(No & Emeth)]; fold meth in Emeth.
      - left. assert (Ag' : forall n, In n (g_nodes H) -> popn pp n = popn (restrict pop nodes) n).
        { intros n X. rewrite (Ag n X). symmetry. apply popn_restrict. now apply H_nodes. }
        destruct (eps_ok (meth 0) (restrict pop nodes) H x y (cut_subset c) Cv (wfg_nodes _ (wf_subgraph g nodes WF))) as (f & Ef & Df).
        { rewrite Self. exact Emeth. }
        { apply G. }
        { refine (bal_agree _ _ _ _ (gs_balanced _ _ _ _ _ _ G)). intros n X. apply Ag'. now apply (gs_incl _ _ _ _ _ _ G). }
        { refine (bal_agree _ _ _ _ (gs_both _ _ _ _ _ _ G eq_refl)). intros n [X _]. now apply Ag'. }
        rewrite Ef. specialize (Df Nxy).
        destruct (C55_sound _ _ _ x y t e f (wf_subgraph g nodes WF) Cv Nxy Ef) as [G1 G2 G3 _].
        destruct (split_flip E h a o S Ho h1 x y nodes f S1 K Nxy Lx Ly (fun n => iff_trans (iff_sym (Hnn n)) (Hn' n)) G1) as (b & h2 & o' & F1 & _ & _ & F4 & _ & F6 & F7).
        { intro n. rewrite G2. apply H_nodes. }
        { intros n z Hz. destruct (G3 n z Hz) as [X|[X|[]]]; auto. }
        exists j, c, b, h2, o', x. split; auto. split; auto. split; auto. split; auto. unfold bindM, lift. rewrite F1. split; auto. split; auto.
        split; [tauto|]. split; [intro n; rewrite (F7 n x (or_introl eq_refl)); apply Df|].
        destruct Exy as [[-> ->]|[-> ->]]; auto. destruct F6 as [R1 R2]. split; [auto|]. intros z Hz. destruct (R2 z); tauto.
      - right. split; auto. unfold epsilon_tree_bipartition, epsilon_tree_bipartition_on. cbn [List.length Nat.eqb negb]. unfold last_two, take. rewrite Self, Emeth. reflexivity.
    Qed.

    Lemma split_hit (A' : assignment N P) c x : (x = p \/ x = q) -> (forall n, district A' n = Some x <-> In n (cut_subset c)) -> redrawn A p q A' ->
      split_as A' p q SA SB <-> P_DetailedBalance.hit SA SB c = true.
    Proof.
      intros Hx Hd [R1 R2]. unfold P_DetailedBalance.hit. rewrite orb_true_iff, !same_iff.
      assert (All : forall n, In n nodes <-> district A' n = Some p \/ district A' n = Some q).
      { intro n. rewrite Hnodes. split; [apply R2|]. intro Y. destruct (eqb_spec (district A n) (Some p)) as [Z1|Z1]; auto.
        destruct (eqb_spec (district A n) (Some q)) as [Z2|Z2]; auto. rewrite (R1 n Z1 Z2) in Y. tauto. }
      assert (Key2 : forall y, y <> x -> (y = p \/ y = q) -> forall u v, (forall n, In n nodes <-> In n u \/ In n v) -> (forall n, In n u -> In n v -> False) ->
        (forall n, In n (cut_subset c) <-> In n u) -> forall n, district A' n = Some y <-> In n v).
      { intros y Ny Hy u v U D Q n. split; intro Z0.
        - assert (W : In n nodes) by (apply All; destruct Hy as [->| ->]; auto). apply U in W. destruct W as [W|W]; auto. exfalso. apply Q, Hd in W. congruence.
        - assert (W : In n nodes) by (apply U; auto). apply All in W. assert (W' : district A' n <> Some x) by (intro Z1; apply Hd, Q in Z1; eauto).
          destruct Hx as [->| ->], Hy as [->| ->], W as [W|W]; congruence. }
      assert (Cov' : forall n, In n nodes <-> In n SB \/ In n SA) by (intro n; rewrite Cov; tauto).
      split.
      - intros [Q|Q]; destruct Hx as [->| ->].
        + left. intro n. rewrite <- Hd. apply Q.
        + right. intro n. rewrite <- Hd. apply Q.
        + right. intro n. rewrite <- Hd. apply Q.
        + left. intro n. rewrite <- Hd. apply Q.
      - intros [Q|Q]; destruct Hx as [->| ->].
        + left. intro n. rewrite Hd, Q. split; [tauto|]. apply (Key2 q) with SA; auto.
        + right. intro n. rewrite Hd, Q. split; [tauto|]. apply (Key2 p) with SA; auto.
        + right. intro n. rewrite Hd, Q. split; [|tauto]. apply (Key2 q) with SB; eauto.
        + left. intro n. rewrite Hd, Q. split; [|tauto]. apply (Key2 p) with SB; eauto.
    Qed.

    (** ** C104 *)

    (** As many draws of a cut edge give an edge between [p] and [q] as there
        are such edges. *)
    Theorem C104_pair d : numbers (fun x => In x (g_edges g) /\
        ((district A (fst x) = Some p /\ district A (snd x) = Some q) \/ (district A (fst x) = Some q /\ district A (snd x) = Some p))) d ->
      numbers (draws_pair A s p q) d.
    Proof using Npq S Ho Hu Hs.
      clear - Npq S Ho Hu Hs WF. intro Hd. destruct (cuts_ok E h a o S Ho Hu) as (s0 & h0 & Hc & ND & Sp & _). rewrite Hs in Hc. injection Hc as <- <-.
      set (b := fun r => match choice r s with Ok x => M_Recom.joins A p q x | _ => false end).
      assert (J : forall x, M_Recom.joins A p q x = true <-> ((district A (fst x) = Some p /\ district A (snd x) = Some q) \/ (district A (fst x) = Some q /\ district A (snd x) = Some p))).
      { intro x. unfold M_Recom.joins, district. rewrite orb_true_iff, !andb_true_iff.
        assert (Q : forall y z : option P, eqb y z = true <-> y = z) by (intros; apply eqb_eq). rewrite !Q. tauto. }
      set (l := filter b (seq 0 (List.length s))).
      assert (Nl : numbers (draws_pair A s p q) (List.length l)).
      { exists l. split; [apply NoDup_filter, seq_NoDup|]. split; [|reflexivity]. intro r. unfold l, draws_pair. rewrite filter_In, in_seq. unfold b. split.
        - intros [H1 H2]. split; [lia|]. destruct (choice r s) as [x| |]; try discriminate. exists x. split; auto. now apply J.
        - intros [H1 (x & E1 & E2)]. split; [lia|]. rewrite E1. now apply J. }
      enough (List.length l = d) by (subst d; exact Nl).
      refine (numbers_same _ _ (fun r x => r < List.length s /\ (choice r s = Ok x \/ choice r s = Ok (snd x, fst x)) /\ In x (g_edges g) /\
         ((district A (fst x) = Some p /\ district A (snd x) = Some q) \/ (district A (fst x) = Some q /\ district A (snd x) = Some p))) _ _ _ _ _ _ Nl Hd).
      - intros r (Hr & [u v] & Ex & D). assert (Ce := proj1 (Sp _) (choice_In _ _ _ Ex)). destruct Ce as (_ & Ad & _). cbn [fst snd] in *.
        destruct Ad as [Ad|Ad]; [exists (u, v)|exists (v, u)]; cbn [fst snd]; tauto.
      - intros [u v] [Hx D]. cbn [fst snd] in *. assert (Dn : district A u <> district A v) by (destruct D as [[X Y]|[X Y]]; congruence).
        destruct (proj2 (cut_edge_iff E o u v) (conj (or_introl Hx) Dn)) as [He|He]; apply Sp in He; destruct (choice_below s _ He) as (r & Hr & Hcr);
          exists r; (split; [split; [exact Hr|eexists; split; [exact Hcr|cbn [fst snd]; tauto]]|]); auto.
      - intros r r' [u v] (Hr & X & Hx & D) (Hr' & X' & _). cbn [fst snd] in *. assert (Nuv : u <> v) by (destruct D as [[Y Z0]|[Y Z0]]; congruence).
        assert (Le : forall r x, choice r s = Ok x -> leb (fst x) (snd x) = true) by (intros r0 x Hx0; apply choice_In, Sp in Hx0; apply Hx0).
        destruct X as [X|X], X' as [X'|X']; try (exact (choice_unique s r r' _ ND Hr Hr' X X')); exfalso; apply Nuv; apply Le in X, X'; cbn [fst snd] in *; apply leb_antisym; assumption.
      - intros r [u v] [u' v'] (Hr & X & Hx & D) (Hr' & X' & Hx' & _). cbn [fst snd] in *. assert (Nuv : u <> v) by (destruct D as [[Y Z0]|[Y Z0]]; congruence).
        destruct X as [X|X], X' as [X'|X']; rewrite X in X'; injection X' as <- <-; auto; exfalso; apply Nuv; now apply (wfg_once _ WF).
    Qed.

    Lemma splits_edge T : tree_of H T -> splits SA (mkGraph (g_nodes H) T) -> ~ fails H T.
    Proof using S Ho Hnodes Cov Dis BA BB.
      intros HT (u & v & Ad & Sd) [_ F]. apply (F u v). destruct HT as [_ (Tr & _ & _)]. destruct (C50_sides _ u v Tr Ad) as (All & Di & _). cbn [g_nodes] in All.
      split; auto. split; [refine (balanced_set_ext _ _ _ _ _ _ BA); intro x; symmetry; apply Sd|]. refine (balanced_set_ext _ _ _ _ _ _ BB). intro x. split; intro X.
      - assert (Y : In x (g_nodes H)) by (apply H_nodes, Cov; auto). apply All in Y. destruct Y as [Y|Y]; auto. exfalso. apply Sd in Y. eauto.
      - assert (Y : In x (g_nodes H)) by (apply All; auto). apply H_nodes, Cov in Y. destruct Y as [Y|Y]; auto. exfalso. apply Sd in Y. apply (Di x). auto.
    Qed.
    Lemma call_split r w : draws_pair A s p q r -> 1 <= m -> List.length w = m -> Forall (tree_of H) w ->
      ends_in (recom_call weights root fuel m pick a h r w) (fun A' => split_as A' p q SA SB) <->
      exists j, j < m /\ (forall i, i < j -> fails H (nth i w [])) /\ ~ fails H (nth j w []) /\ splits SA (mkGraph (g_nodes H) (nth j w [])).
    Proof using Hpop Hbal S Ho Hu Npq Hnodes L3 Cov Dis BA BB One Hfuel Hpick Hs.
      intros Hr Hm Lw Fw. destruct (call_spec r w Hr Hm Lw Fw) as [(j & c & b & h' & o' & x & Hj & Bef & At & Hh & Ec & Eo & Hx & Hd & R)|(No & Ec)].
      - assert (Sh := split_hit (o_assign o') c x Hx Hd R). split.
        + intros (b' & o2 & X1 & X2 & X3). rewrite Ec in X1, X2. cbn [fst snd] in X1, X2. injection X1 as <-. rewrite Eo in X2. injection X2 as <-.
          exists j. split; auto. split; auto. split; auto. now apply Hh, Sh.
        + intros (j' & Hj' & Bef' & At' & Sp'). assert (j' = j).
          { destruct (Nat.lt_trichotomy j j') as [Y|[Y|Y]]; auto; exfalso; [apply At, Bef', Y|apply At', Bef, Y]. }
          subst j'. rewrite Ec. exists b, o'. cbn [fst snd]. split; auto. split; auto. now apply Sh, Hh.
      - split.
        + intros (b' & o2 & X1 & _). rewrite Ec in X1. discriminate.
        + intros (j & Hj & _ & At & _). elim At. auto.
    Qed.
    (** The words of [m] spanning trees of the two districts together that
        end in the split [SA], [SB]. *)
    Theorem C104_split r K F kA kB : draws_pair A s p q r -> 1 <= m ->
      numbers (tree_of H) K -> numbers (fails H) F -> numbers (tree_of (subgraph g SA)) kA -> numbers (tree_of (subgraph g SB)) kB ->
      numbers (fun w => List.length w = m /\ Forall (tree_of H) w /\ ends_in (recom_call weights root fuel m pick a h r w) (fun A' => split_as A' p q SA SB))
        (List.length (seam H SA SB) * (kA * kB) * geo K F m).
    Proof using Hpop Hbal S Ho Hu Npq Hnodes L3 Cov Dis BA BB One Hfuel Hpick Hs.
      intros Hr Hm (lK & NK & IK & <-) (lF & NF & IF & <-) NA NB.
      assert (Sc : numbers (fun T => tree_of H T /\ splits SA (mkGraph (g_nodes H) T)) (List.length (seam H SA SB) * (kA * kB))).
      { apply (seam_count H).
        - apply wf_subgraph, WF.
        - intros n Hn. apply Cov, H_nodes, Hn.
        - exact Dis.
        - intros n Hn. apply H_nodes, Cov. auto.
        - intros n Hn. apply H_nodes, Cov. auto.
        - rewrite subgraph_twice; auto. intros n Hn. apply Cov. auto.
        - rewrite subgraph_twice; auto. intros n Hn. apply Cov. auto. }
      destruct Sc as (lS & NS & IS & <-).
      set (no := fun T => mem T lF). set (sp := fun T => mem T lS).
      assert (Eno : List.length (filter no lK) = List.length lF).
      { apply Permutation_length, NoDup_Permutation; [now apply NoDup_filter|exact NF|]. intro T. unfold no. rewrite filter_In, mem_In, IK, IF. unfold fails. tauto. }
      assert (Esp : List.length (filter sp lK) = List.length lS).
      { apply Permutation_length, NoDup_Permutation; [now apply NoDup_filter|exact NS|]. intro T. unfold sp. rewrite filter_In, mem_In, IK, IS. tauto. }
      rewrite <- Eno, <- Esp, <- count_hits.
      - exists (filter (first_hit no sp) (lwords lK m)). split; [apply NoDup_filter, NoDup_lwords, NK|]. split; [|reflexivity]. intro w. rewrite filter_In, In_lwords.
        assert (Fa : Forall (fun T => In T lK) w <-> Forall (tree_of H) w) by (split; apply Forall_impl; intro T; apply IK). rewrite Fa.
        split; [intros [[Lw Fw] X]; split; [exact Lw|]; split; [exact Fw|]|intros (Lw & Fw & X); split; [split; [exact Lw|exact Fw]|]];
          [apply (call_split r w Hr Hm Lw Fw)|apply (call_split r w Hr Hm Lw Fw) in X];
          [apply (first_hit_spec no sp []) in X|apply (first_hit_spec no sp [])].
        + destruct X as (j & X1 & X2 & X3 & X4). exists j. split; [lia|]. unfold no, sp in *. split; [intros i Hi; apply IF, mem_In, X2, Hi|].
          split; [rewrite <- IF; now apply mem_notIn|]. apply mem_In, IS in X4. apply X4.
        + destruct X as (j & X1 & X2 & X3 & X4). exists j. split; [lia|]. unfold no, sp. split; [intros i Hi; apply mem_In, IF, X2, Hi|].
          split; [apply mem_notIn; now rewrite IF|]. apply mem_In, IS. split; auto. rewrite Forall_forall in Fw. apply Fw, nth_In. lia.
      - intros T HT X. unfold no, sp in *. apply mem_In, IF in X. apply mem_notIn. rewrite IS. intros [H1 H2]. exact (splits_edge T H1 H2 X).
    Qed.
    (** RuntimeError is raised iff no tree of the word has a balanced edge. *)
    Theorem C104_fail r w : draws_pair A s p q r -> 1 <= m -> List.length w = m -> Forall (tree_of H) w ->
      (fst (recom_call weights root fuel m pick a h r w) = Err RuntimeError <-> Forall (fails H) w) /\
      (~ Forall (fails H) w -> exists b, fst (recom_call weights root fuel m pick a h r w) = Ok b).
    Proof using Hpop Hbal S Ho Hu Npq Hnodes L3 Cov Dis BA BB One Hfuel Hpick Hs.
      intros Hr Hm Lw Fw. destruct (call_spec r w Hr Hm Lw Fw) as [(j & c & b & h' & o' & x & Hj & Bef & At & Hh & Ec & _)|(No & Ec)].
      - rewrite Ec. cbn [fst]. split; [|eauto]. split; [discriminate|]. intro X. exfalso. apply At. rewrite Forall_forall in X. apply X, nth_In. lia.
      - rewrite Ec. assert (X : Forall (fails H) w).
        { apply Forall_forall. intros T HT. apply (In_nth _ _ []) in HT. destruct HT as (i & Hi & <-). apply No. lia. }
        split; [tauto|]. intro Y. contradiction.
    Qed.
    (** The failing trees have a number. *)
    Lemma fails_number K : numbers (tree_of H) K -> exists F, numbers (fails H) F.
    Proof using Hpop Hbal S Ho Hnodes L3 Cov Dis BA BB One weights root.
      intros (l & ND & I & _). destruct (populations_some H) as (pp & Hpp); [intros n X; apply Hpop, in_nodes, H_nodes, X|].
      set (f := fun T => match balance (mkPopulated (mkGraph (g_nodes H) T) pp t e (weights 0)) false (root 0) with Ok [] => true | _ => false end).
      exists (List.length (filter f l)), (filter f l). split; [now apply NoDup_filter|]. split; [|reflexivity].
      intro T. rewrite filter_In, I. split.
      - intros [HT Hf]. destruct (attempt pp Hpp 0 T HT) as (cuts & Eb & Ec & _). apply Ec. unfold f in Hf. rewrite Eb in Hf. destruct cuts; [reflexivity|discriminate].
      - intro HF. assert (HT := proj1 HF). split; [exact HT|]. destruct (attempt pp Hpp 0 T HT) as (cuts & Eb & Ec & _). unfold f. now rewrite Eb, (proj2 Ec HF).
    Qed.
  End Plan.

  (** A call that draws an edge between two other districts does not produce a
      plan that splits the nodes of [p] and [q] differently, whatever the
      bipartition method. *)
  Theorem C104_other h a o s h1 method r p q p' q' A2 : session E h -> nth_error h a = Some o ->
    dget (e_updaters E) "cut_edges"%string = Some UCutEdges -> cut_edges_of E a h = (Ok s, h1) ->
    draws_pair (o_assign o) s p' q' r -> p <> q -> ~ (p' = p /\ q' = q) -> ~ (p' = q /\ q' = p) ->
    redrawn (o_assign o) p q A2 -> ~ same_split p q A2 (o_assign o) ->
    ~ ends_in (recom E pop method (fun _ => r) t e 1 a h) (fun A' => forall n, district A' n = district A2 n).
  Proof using Hpop.
    clear Hbal. intros S Ho Hu Hs (Hr & ed & Ee & De) Npq D1 D2 [R1 R2] New (b & o' & X1 & X2 & X3).
    assert (WF : wf_graph g) by exact (P_Proposals.wfg E h S).
    destruct (cuts_ok E h a o S Ho Hu) as (s0 & h0 & Hc & _ & Sp & S1 & K). rewrite Hs in Hc. injection Hc as <- <-.
    assert (Npq' : p' <> q').
    { assert (Ce := proj1 (Sp ed) (choice_In _ _ _ Ee)). destruct Ce as (_ & _ & Dn). destruct De as [[X Y]|[X Y]]; congruence. }
    assert (Q : redrawn (o_assign o) p' q' (o_assign o')).
    { unfold recom in X1, X2. rewrite (get_bind h a o) in X1, X2 by exact Ho. cbn zeta in X1, X2. revert X1 X2.
      destruct (Nat.ltb_spec 0 (List.length (a_parts (o_assign o)) * (List.length (a_parts (o_assign o)) - 1))) as [Hn|Hn]; intros X1 X2.
      - rewrite (bindM_ok _ _ _ _ _ Hs) in X1, X2. rewrite (loop_eq E pop o method (fun _ => r) t e s) in X1, X2. cbn [List.length Nat.mul Nat.add] in X1, X2. rewrite (proj2 (Nat.ltb_lt 0 _) Hn) in X1, X2.
        assert (Pr : exists x y, ((x = p' /\ y = q') \/ (x = q' /\ y = p')) /\ pair_at o (fun _ => r) s 0 = Ok (x, y)).
        { unfold pair_at. rewrite Ee. cbn [bind]. unfold part_of, district in *. destruct De as [[X Y]|[X Y]]; rewrite X, Y; cbn [of_option bind]; unfold sorted_pair;
            match goal with |- context [if ?b then _ else _] => destruct b end; eexists; eexists; (split; [|reflexivity]); auto. }
        destruct Pr as (x & y & Exy & Ep). rewrite Ep in X1, X2. cbn [bind fst snd] in X1, X2. change (mem (x, y) []) with false in X1, X2. cbn iota in X1, X2.
        assert (Lx : In x (labels (o_assign o)) /\ In y (labels (o_assign o))).
        { destruct De as [[X Y]|[X Y]], Exy as [[-> ->]|[-> ->]]; split; eapply (label_of E h a o S Ho); eauto. }
        destruct Lx as [Lx Ly]. assert (Nxy : x <> y) by (destruct Exy as [[-> ->]|[-> ->]]; congruence).
        destruct (merged_ok E h a o S Ho x y Lx Ly) as (nodes & Em & _ & Hn'). rewrite Em in X1, X2. cbn [bind] in X1, X2.
        assert (In_ : incl nodes (g_nodes g)).
        { intros n X. apply Hn' in X. apply (coh_dom _ _ (Coh E h a o S Ho)). destruct X as [X|X]; eapply dget_Some_key; exact X. }
        destruct (epsilon_tree_bipartition _ _ _ _ _ _) as [f|ex|] eqn:Ef; [|destruct ex; discriminate|discriminate].
        destruct (C55_sound _ _ _ x y t e f (wf_subgraph g nodes WF) (covers_restrict E pop Hpop nodes In_) Nxy Ef) as [G1 G2 G3 _].
        destruct (split_flip E h a o S Ho h1 x y nodes f S1 K Nxy Lx Ly Hn' G1) as (b' & h2 & o2 & F1 & _ & _ & F4 & _ & F6 & _).
        { intro n. rewrite G2. now apply sub_nodes. }
        { intros n z Hz. destruct (G3 n z Hz) as [X|[X|[]]]; auto. }
        unfold bindM, lift in X1, X2. rewrite F1 in X1, X2. cbn [fst snd] in X1, X2. injection X1 as <-. rewrite F4 in X2. injection X2 as <-.
        destruct Exy as [[-> ->]|[-> ->]]; auto. destruct F6 as [Q1 Q2]. split; [auto|]. intros z Hz. destruct (Q2 z); tauto.
      - exfalso. change (bindM (ret []) ?k h) with (k (@nil (N * N)) h) in X1. unfold bindM, lift, ret in X1. cbn [recom_loop] in X1. rewrite (proj2 (Nat.ltb_ge _ _)) in X1 by (cbn; lia). discriminate. }
    destruct Q as [Q1 Q2]. apply New. left.
    assert (Eq : forall n, district (o_assign o) n = district A2 n); [|intro n; now rewrite Eq].
    intro n. rewrite <- X3.
    destruct (eqb_spec (district (o_assign o) n) (Some p)) as [Z1|Z1]; [|destruct (eqb_spec (district (o_assign o) n) (Some q)) as [Z2|Z2]].
    - assert (W := R2 n (or_introl Z1)). rewrite <- X3 in W.
      destruct (eqb_spec (district (o_assign o) n) (Some p')) as [Z3|Z3]; [|destruct (eqb_spec (district (o_assign o) n) (Some q')) as [Z4|Z4]].
      + assert (p' = p) by congruence. subst p'. assert (W' := Q2 n (or_introl Z3)). destruct W as [W|W], W' as [W'|W']; try congruence. exfalso. apply D1. split; auto. congruence.
      + assert (q' = p) by congruence. subst q'. assert (W' := Q2 n (or_intror Z4)). destruct W as [W|W], W' as [W'|W']; try congruence. exfalso. apply D2. split; auto. congruence.
      + symmetry. now apply Q1.
    - assert (W := R2 n (or_intror Z2)). rewrite <- X3 in W.
      destruct (eqb_spec (district (o_assign o) n) (Some p')) as [Z3|Z3]; [|destruct (eqb_spec (district (o_assign o) n) (Some q')) as [Z4|Z4]].
      + assert (p' = q) by congruence. subst p'. assert (W' := Q2 n (or_introl Z3)). destruct W as [W|W], W' as [W'|W']; try congruence. exfalso. apply D2. split; auto. congruence.
      + assert (q' = q) by congruence. subst q'. assert (W' := Q2 n (or_intror Z4)). destruct W as [W|W], W' as [W'|W']; try congruence. exfalso. apply D1. split; auto. congruence.
      + symmetry. now apply Q1.
    - rewrite X3. symmetry. now apply R1.
  Qed.

  (** The calls that draw an edge between [p] and [q], then [m] trees, and
      split [p] and [q] as in [B]. *)
  Definition moves (weights : nat -> N * N -> Q) (root : nat -> nat) (fuel m : nat) (pick : list (cut N) -> res (cut N))
      (a : nat) (h : heap N P V L) (A : assignment N P) (s : list (N * N)) (p q : P) (H : graph N) (B : assignment N P) (rw : nat * list (list (N * N))) : Prop :=
    draws_pair A s p q (fst rw) /\ List.length (snd rw) = m /\ Forall (tree_of H) (snd rw) /\
    ends_in (recom_call weights root fuel m pick a h (fst rw) (snd rw)) (same_split p q B).
  Definition pair_edge (A : assignment N P) (p q : P) (x : N * N) : Prop := In x (g_edges g) /\
    ((district A (fst x) = Some p /\ district A (snd x) = Some q) \/ (district A (fst x) = Some q /\ district A (snd x) = Some p)).
  Definition part (A : assignment N P) z := filter (fun n => eqb (district A n) (Some z)) (g_nodes g).
  Lemma In_part h a o : session E h -> nth_error h a = Some o -> forall z n, In n (part (o_assign o) z) <-> district (o_assign o) n = Some z.
  Proof using.
    intros Hs Ho z n. unfold part. rewrite filter_In. assert (C := Coh E h a o Hs Ho). split.
    - intros [_ W]. destruct (eqb_spec (district (o_assign o) n) (Some z)); congruence.
    - intro W. split; [apply (coh_dom _ _ C); eapply dget_Some_key; exact W|]. rewrite W. apply eqb_refl.
  Qed.
  (** Their number. *)
  Theorem C104_moves h1 a1 o1 h2 a2 o2 p q nodes s1 h1' weights root fuel m pick K F d1 d2 kA kB :
    session E h1 -> nth_error h1 a1 = Some o1 -> session E h2 -> nth_error h2 a2 = Some o2 ->
    dget (e_updaters E) "cut_edges"%string = Some UCutEdges -> cut_edges_of E a1 h1 = (Ok s1, h1') ->
    p <> q -> redrawn (o_assign o1) p q (o_assign o2) ->
    (forall n, In n nodes <-> district (o_assign o1) n = Some p \/ district (o_assign o1) n = Some q) ->
    3 <= List.length (g_nodes (subgraph g nodes)) -> one_balanced_edge (subgraph g nodes) ->
    (forall z, z = p \/ z = q -> balanced_set (popn pop) t e (fun n => district (o_assign o2) n = Some z)) ->
    picks pick -> 1 <= m <= fuel ->
    numbers (tree_of (subgraph g nodes)) K -> numbers (fails (subgraph g nodes)) F ->
    numbers (pair_edge (o_assign o1) p q) d1 -> numbers (pair_edge (o_assign o2) p q) d2 ->
    (forall u, (forall n, In n u <-> district (o_assign o2) n = Some p) -> numbers (tree_of (subgraph g u)) kA) ->
    (forall u, (forall n, In n u <-> district (o_assign o2) n = Some q) -> numbers (tree_of (subgraph g u)) kB) ->
    numbers (moves weights root fuel m pick a1 h1 (o_assign o1) s1 p q (subgraph g nodes) (o_assign o2)) (d1 * (d2 * (kA * kB) * geo K F m)).
  Proof using Hpop Hbal.
    intros S1 O1 S2 O2 Hu Hs Npq [R1 R2] Hn L3 One B2 Hp [Hm Hf] NK NF N1 N2 NA NB.
    assert (P2 := In_part h2 a2 o2 S2 O2).
    assert (Same : forall n, (district (o_assign o1) n = Some p \/ district (o_assign o1) n = Some q) <-> (district (o_assign o2) n = Some p \/ district (o_assign o2) n = Some q)).
    { intro n. split; [apply R2|]. intro W. destruct (eqb_spec (district (o_assign o1) n) (Some p)) as [Z1|Z1]; auto.
      destruct (eqb_spec (district (o_assign o1) n) (Some q)) as [Z2|Z2]; auto. rewrite (R1 n Z1 Z2) in W. tauto. }
    set (SA := part (o_assign o2) p). set (SB := part (o_assign o2) q).
    assert (Cov : forall n, In n nodes <-> In n SA \/ In n SB) by (intro n; unfold SA, SB; now rewrite !P2, Hn).
    assert (Dis : forall n, In n SA -> In n SB -> False) by (intro n; unfold SA, SB; rewrite !P2; congruence).
    assert (Es : List.length (seam (subgraph g nodes) SA SB) = d2).
    { apply (numbers_unique (pair_edge (o_assign o2) p q)); [|exact N2]. exists (seam (subgraph g nodes) SA SB). split; [apply NoDup_filter, (wf_subgraph g nodes (P_Proposals.wfg E h1 S1))|].
      split; [|reflexivity]. intros [u v]. rewrite In_seam. unfold pair_edge. cbn [fst snd]. unfold subgraph. cbn [g_edges]. rewrite filter_In, andb_true_iff, !mem_In, !Cov. cbn [fst snd]. unfold SA, SB. rewrite !P2. tauto. }
    assert (Np := C104_pair h1 a1 o1 S1 O1 Hu p q Npq s1 h1' Hs d1 N1).
    destruct Np as (lr & NDr & Ir & Er). 
    assert (W : forall r, draws_pair (o_assign o1) s1 p q r -> numbers (fun w => List.length w = m /\ Forall (tree_of (subgraph g nodes)) w /\
      ends_in (recom_call weights root fuel m pick a1 h1 r w) (same_split p q (o_assign o2))) (d2 * (kA * kB) * geo K F m)).
    { intros r Hr. rewrite <- Es. refine (numbers_ext _ _ _ _ (C104_split h1 a1 o1 S1 O1 Hu p q Npq nodes Hn L3 SA SB Cov Dis _ _ One weights root fuel m pick Hf Hp s1 h1' Hs r K F kA kB Hr Hm NK NF (NA SA (P2 p)) (NB SB (P2 q)))).
      - intro w. assert (Q : forall A', split_as A' p q SA SB <-> same_split p q (o_assign o2) A').
        { intro A'. unfold split_as, same_split, SA, SB. split; (intros [X|X]; [left|right]; intro n; assert (X1 := X n); rewrite !P2 in *; exact X1). }
        unfold ends_in. setoid_rewrite Q. reflexivity.
      - eapply balanced_set_ext; [|apply (B2 p); auto]. intro n. symmetry. apply P2.
      - eapply balanced_set_ext; [|apply (B2 q); auto]. intro n. symmetry. apply P2. }
    revert W Ir NDr Er. unfold moves. generalize (d2 * (kA * kB) * geo K F m). intros c W Ir NDr <-.
    assert (G : forall l, NoDup l -> (forall r, In r l -> draws_pair (o_assign o1) s1 p q r) -> numbers (fun rw => In (fst rw) l /\ List.length (snd rw) = m /\ Forall (tree_of (subgraph g nodes)) (snd rw) /\
      ends_in (recom_call weights root fuel m pick a1 h1 (fst rw) (snd rw)) (same_split p q (o_assign o2))) (List.length l * c)).
    { induction l as [|r l IH]; intros ND Hl; [exists []; split; [constructor|]; split; [intro x; cbn; tauto|reflexivity]|]. inversion ND as [|? ? Nr ND']; subst.
      destruct (IH ND' (fun r h => Hl r (or_intror h))) as (l1 & M1 & M2 & M3). destruct (W r (Hl r (or_introl eq_refl))) as (l2 & M4 & M5 & M6).
      exists (map (pair r) l2 ++ l1). split; [apply NoDup_app_iff; split; [apply FinFun.Injective_map_NoDup; auto; intros x y [= ->]; reflexivity|split; [exact M1|]]|split].
      - intros [r' w] X Y. apply in_map_iff in X. destruct X as (w' & [= <- <-] & _). apply M2 in Y. cbn [fst] in Y. tauto.
      - intros [r' w]. rewrite in_app_iff, in_map_iff, M2. cbn [fst snd In]. split.
        + intros [(w' & [= <- <-] & X)|X]; [apply M5 in X|]; tauto.
        + intros [[<-|X] Y]; [left; exists w; split; auto; now apply M5|right; tauto].
      - rewrite app_length, map_length, M3, M6. reflexivity. }
    refine (numbers_ext _ _ _ _ (G lr NDr (fun r => proj1 (Ir r)))). intros [r w]. cbn [fst snd]. rewrite Ir. reflexivity.
  Qed.

  (** Two plans that differ in how the nodes of [p] and [q] are split.  Let the
      weight of a plan be its number of cut edges times the product of the
      numbers of spanning trees of its districts.  A plan is left for the other
      by [c] of the (number of cut edges) x K^m pairs of draws.  Then the flows
      between them are equal. *)
  Theorem C104_balance h1 a1 o1 h2 a2 o2 p q nodes s1 h1' s2 h2' w1 root1 f1 pick1 w2 root2 f2 pick2 m K F c1 c2 k1 k2 :
    session E h1 -> nth_error h1 a1 = Some o1 -> session E h2 -> nth_error h2 a2 = Some o2 ->
    dget (e_updaters E) "cut_edges"%string = Some UCutEdges -> cut_edges_of E a1 h1 = (Ok s1, h1') -> cut_edges_of E a2 h2 = (Ok s2, h2') ->
    p <> q -> adjacent g (o_assign o1) p q -> adjacent g (o_assign o2) p q -> redrawn (o_assign o1) p q (o_assign o2) ->
    (forall n, In n nodes <-> district (o_assign o1) n = Some p \/ district (o_assign o1) n = Some q) ->
    3 <= List.length (g_nodes (subgraph g nodes)) -> one_balanced_edge (subgraph g nodes) ->
    (forall z, z = p \/ z = q -> balanced_set (popn pop) t e (fun n => district (o_assign o1) n = Some z)) ->
    (forall z, z = p \/ z = q -> balanced_set (popn pop) t e (fun n => district (o_assign o2) n = Some z)) ->
    picks pick1 -> picks pick2 -> 1 <= m <= f1 -> m <= f2 ->
    numbers (tree_of (subgraph g nodes)) K -> numbers (fails (subgraph g nodes)) F ->
    tree_product E (o_assign o1) k1 -> tree_product E (o_assign o2) k2 ->
    numbers (moves w1 root1 f1 m pick1 a1 h1 (o_assign o1) s1 p q (subgraph g nodes) (o_assign o2)) c1 ->
    numbers (moves w2 root2 f2 m pick2 a2 h2 (o_assign o2) s2 p q (subgraph g nodes) (o_assign o1)) c2 ->
    (Qn (List.length s1) * Qn k1 * (Qn c1 / (Qn (List.length s1) * Qn (K ^ m))) == Qn (List.length s2) * Qn k2 * (Qn c2 / (Qn (List.length s2) * Qn (K ^ m))))%Q.
  Proof using Hpop Hbal.
    intros S1 O1 S2 O2 Hu Hs1 Hs2 Npq Ad1 Ad2 R Hn L3 One B1 B2 Hp1 Hp2 [Hm Hf1] Hf2 NK NF K1 K2 N1 N2.
    assert (P1 := In_part h1 a1 o1 S1 O1). assert (P2 := In_part h2 a2 o2 S2 O2). assert (R' := R). destruct R' as [R1 R2].
    assert (Same : forall n, (district (o_assign o1) n = Some p \/ district (o_assign o1) n = Some q) <-> (district (o_assign o2) n = Some p \/ district (o_assign o2) n = Some q)).
    { intro n. split; [apply R2|]. intro W. destruct (eqb_spec (district (o_assign o1) n) (Some p)) as [Z1|Z1]; auto.
      destruct (eqb_spec (district (o_assign o1) n) (Some q)) as [Z2|Z2]; auto. rewrite (R1 n Z1 Z2) in W. tauto. }
    assert (Rb : redrawn (o_assign o2) p q (o_assign o1)).
    { split; [|intros x X; now apply Same]. intros x X Y. destruct (eqb_spec (district (o_assign o1) x) (Some p)) as [Z1|Z1]; [exfalso; destruct (R2 x (or_introl Z1)); auto|].
      destruct (eqb_spec (district (o_assign o1) x) (Some q)) as [Z2|Z2]; [exfalso; destruct (R2 x (or_intror Z2)); auto|]. symmetry. now apply R1. }
    assert (Oth : forall z n, z <> p -> z <> q -> district (o_assign o1) n = Some z <-> district (o_assign o2) n = Some z).
    { intros z n Zp Zq. destruct (eqb_spec (district (o_assign o1) n) (Some p)) as [Z1|Z1].
      - assert (W := proj1 (Same n) (or_introl Z1)). split; intro; destruct W; congruence.
      - destruct (eqb_spec (district (o_assign o1) n) (Some q)) as [Z2|Z2].
        + assert (W := proj1 (Same n) (or_intror Z2)). split; intro; destruct W; congruence.
        + now rewrite (R1 n Z1 Z2). }
    assert (Pe : forall A : assignment N P, exists d, numbers (pair_edge A p q) d).
    { intro A. exists (List.length (filter (M_Recom.joins A p q) (g_edges g))), (filter (M_Recom.joins A p q) (g_edges g)). split; [apply NoDup_filter, (P_Proposals.wfg E h1 S1)|]. split; [|reflexivity].
      intro x. rewrite filter_In. unfold pair_edge, M_Recom.joins, district. rewrite orb_true_iff, !andb_true_iff.
      assert (Q : forall y z : option P, eqb y z = true <-> y = z) by (intros; apply eqb_eq). rewrite !Q. tauto. }
    destruct (Pe (o_assign o1)) as [d1 D1], (Pe (o_assign o2)) as [d2 D2].
    destruct K1 as (n1 & l1 & ND1 & I1 & F1 & ->), K2 as (n2 & l2 & ND2 & I2 & F2 & ->).
    assert (Lp1 : In p l1) by (apply I1; destruct Ad1 as (u & v & _ & X & _); eauto).
    assert (Lq1 : In q l1) by (apply I1; destruct Ad1 as (u & v & _ & _ & X); eauto).
    assert (Lp2 : In p l2) by (apply I2; destruct Ad2 as (u & v & _ & X & _); eauto).
    assert (Lq2 : In q l2) by (apply I2; destruct Ad2 as (u & v & _ & _ & X); eauto).
    assert (C1 : c1 = d1 * (d2 * (n2 p * n2 q) * geo K F m)).
    { eapply numbers_unique; [exact N1|]. eapply C104_moves; eauto. }
    assert (C2 : c2 = d2 * (d1 * (n1 p * n1 q) * geo K F m)).
    { eapply numbers_unique; [exact N2|]. eapply (C104_moves h2 a2 o2 h1 a1 o1); eauto. intro n. now rewrite Hn. }
    destruct (prod_out p l1 ND1 Lp1) as (l1' & ND1' & I1' & ->). destruct (prod_out p l2 ND2 Lp2) as (l2' & ND2' & I2' & ->).
    destruct (prod_out q l1' ND1' (proj2 (I1' q) (conj Lq1 (not_eq_sym Npq)))) as (l1'' & ND1'' & I1'' & ->).
    destruct (prod_out q l2' ND2' (proj2 (I2' q) (conj Lq2 (not_eq_sym Npq)))) as (l2'' & ND2'' & I2'' & ->).
    assert (Rest : fold_right Nat.mul 1 (map n1 l1'') = fold_right Nat.mul 1 (map n2 l2'')).
    { apply prod_perm; auto.
      - intro z. rewrite I1'', I1', I2'', I2', I1, I2. split; intros [[(n & D) Zp] Zq]; split; auto; split; auto; exists n; apply (Oth z n Zp Zq); auto.
      - intros z Hz. apply I1'' in Hz. destruct Hz as [Hz Zq]. apply I1' in Hz. destruct Hz as [Hz Zp].
        eapply numbers_unique; [apply (F1 z (part (o_assign o1) z) Hz), P1|]. apply F2.
        + apply I2. apply I1 in Hz. destruct Hz as (n & D). exists n. apply (Oth z n Zp Zq); auto.
        + intro n. rewrite P1. apply Oth; auto. }
    rewrite Rest. generalize (fold_right Nat.mul 1 (map n2 l2'')). intro rest.
    assert (Ns : forall h a o s h', session E h -> nth_error h a = Some o -> cut_edges_of E a h = (Ok s, h') -> adjacent g (o_assign o) p q -> ~ (Qn (List.length s) == 0)%Q).
    { intros h a o s h' Ss Ho Hs (u & v & Ad & X & Y). apply Qn_nonzero. destruct (cuts_ok E h a o Ss Ho Hu) as (s0 & h0 & Hc & _ & Sp & _). rewrite Hs in Hc. injection Hc as <- <-.
      assert (Dn : district (o_assign o) u <> district (o_assign o) v) by congruence.
      destruct (proj2 (cut_edge_iff E o u v) (conj Ad Dn)) as [Z0|Z0]; apply Sp in Z0; destruct s; cbn in *; try contradiction; lia. }
    assert (Z1 := Ns h1 a1 o1 s1 h1' S1 O1 Hs1 Ad1). assert (Z2 := Ns h2 a2 o2 s2 h2' S2 O2 Hs2 Ad2).
    assert (Can : forall x y z w : Q, ~ (x == 0)%Q -> (x * y * (z / (x * w)) == y * z / w)%Q).
    { intros x y z w Hx. unfold Qdiv. rewrite Qinv_mult_distr. transitivity (y * z * / w * (x * / x))%Q; [ring|]. rewrite Qmult_inv_r by exact Hx. ring. }
    rewrite !Can by assumption. rewrite C1, C2. apply Qmult_comp; [|reflexivity]. rewrite !Qn_times. ring.
  Qed.
End Law.

(** ** Five nodes, two exactly balanced plans *)
Definition house_g : graph nat := mkGraph [0; 1; 2; 3; 4] [(0, 1); (0, 2); (1, 3); (2, 3); (2, 4); (3, 4)].
Definition house : env nat nat Z nat :=
  mkEnv house_g (fun _ _ => None) (fun _ => false) (fun _ => 0%Z) (fun _ => 0%Z) (fun _ _ => None) [("cut_edges"%string, UCutEdges)].
Definition house_pop : dict nat Z := [(0, 2%Z); (1, 2%Z); (2, 2%Z); (3, 1%Z); (4, 1%Z)].
Lemma house_wfg : wf_graph house_g. Proof. wfg. Qed.
Lemma house_covers : covers house_pop house_g.
Proof. split; [nodup|intro n; reflexivity]. Qed.
Definition house_at (d : dict nat nat) : heap nat nat Z nat := match M_Machine.root house d with Ok h => h | _ => [] end.
Definition house_1 : dict nat nat := [(0, 1); (1, 1); (2, 2); (3, 2); (4, 2)].
Definition house_2 : dict nat nat := [(0, 1); (2, 1); (1, 2); (3, 2); (4, 2)].
Lemma house_session d h : is_dict d -> M_Machine.root house d = Ok h -> session house (house_at d).
Proof.
  intros D R. split; [|split].
  - split; [exact house_wfg|]. intros k ps al H. apply dget_In in H. destruct H as [H|[]]. discriminate.
  - intros k u H k' u' H'. apply dget_In in H. simpl in H. repeat destruct H as [H|H]; try contradiction; injection H as <- <-; simpl in H';
      repeat destruct H' as [H'|H']; try contradiction; injection H' as <- <-; reflexivity.
  - exists d, h, []. split; auto. split; auto. split; [constructor|]. unfold house_at. now rewrite R.
Qed.
Lemma house_s1 : session house (house_at house_1). Proof. eapply house_session; [nodup|vm_compute; reflexivity]. Qed.
Lemma house_s2 : session house (house_at house_2). Proof. eapply house_session; [nodup|vm_compute; reflexivity]. Qed.
Definition house_plan (d : dict nat nat) : pobj nat nat Z nat := nth 0 (house_at d) (mkObj (mkAssignment [] []) None None [] None []).
Notation H1 := (o_assign (house_plan house_1)).
Notation H2 := (o_assign (house_plan house_2)).
Lemma house_o1 : nth_error (house_at house_1) 0 = Some (house_plan house_1). Proof. vm_compute. reflexivity. Qed.
Lemma house_o2 : nth_error (house_at house_2) 0 = Some (house_plan house_2). Proof. vm_compute. reflexivity. Qed.
Lemma house_d1 x : district H1 x = dget house_1 x.
Proof. replace H1 with (mkAssignment [(1, [0; 1]); (2, [2; 3; 4])] house_1) by (vm_compute; reflexivity). reflexivity. Qed.
Lemma house_d2 x : district H2 x = dget house_2 x.
Proof. replace H2 with (mkAssignment [(1, [0; 2]); (2, [1; 3; 4])] house_2) by (vm_compute; reflexivity). reflexivity. Qed.
Lemma house_none (d : dict nat nat) n : forallb (fun n => n <? 5) (dkeys d) = true -> n <> 0 -> n <> 1 -> n <> 2 -> n <> 3 -> n <> 4 -> dget d n = None.
Proof. intros Hk ? ? ? ? ?. destruct (dget d n) eqn:Eq; [|reflexivity]. apply dget_Some_key in Eq. rewrite forallb_forall in Hk. apply Hk, Nat.ltb_lt in Eq. lia. Qed.
Lemma house_in (d : dict nat nat) z l : forallb (fun n => n <? 5) (dkeys d) = true -> Forall (fun n => n < 5) l ->
  forallb (fun n => Bool.eqb (eqb (dget d n) (Some z)) (mem n l)) [0; 1; 2; 3; 4] = true -> forall n, dget d n = Some z <-> In n l.
Proof.
  intros Hk Hl Hb n. rewrite forallb_forall in Hb. destruct (Nat.lt_ge_cases n 5) as [Hn|Hn].
  - assert (X := Hb n). cbn [In] in X. assert (Y : eqb (dget d n) (Some z) = mem n l) by (apply eqb_prop, X; lia).
    rewrite <- mem_In, <- Y. symmetry. apply (@eqb_eq (option nat) _).
  - split.
    + intro X. rewrite house_none in X by (auto; lia). discriminate.
    + intro X. rewrite Forall_forall in Hl. apply Hl in X. lia.
Qed.
Lemma house_11 n : district H1 n = Some 1 <-> In n [0; 1].
Proof. rewrite house_d1. revert n. apply house_in; [reflexivity|repeat constructor; lia|reflexivity]. Qed.
Lemma house_12 n : district H1 n = Some 2 <-> In n [2; 3; 4].
Proof. rewrite house_d1. revert n. apply house_in; [reflexivity|repeat constructor; lia|reflexivity]. Qed.
Lemma house_21 n : district H2 n = Some 1 <-> In n [0; 2].
Proof. rewrite house_d2. revert n. apply house_in; [reflexivity|repeat constructor; lia|reflexivity]. Qed.
Lemma house_22 n : district H2 n = Some 2 <-> In n [1; 3; 4].
Proof. rewrite house_d2. revert n. apply house_in; [reflexivity|repeat constructor; lia|reflexivity]. Qed.
Lemma house_some d z n : (d = house_1 \/ d = house_2) -> dget d n = Some z -> z = 1 \/ z = 2.
Proof. intros [->| ->] X; apply dget_In in X; cbn in X; repeat destruct X as [X|X]; try contradiction; injection X as <- <-; auto. Qed.
Lemma house_redrawn : redrawn H1 1 2 H2.
Proof.
  split; intros n.
  - rewrite house_d1, house_d2. intros X Y. destruct (dget house_1 n) as [z|] eqn:Eq; [destruct (house_some house_1 z n) as [->| ->]; auto; congruence|].
    destruct (dget house_2 n) eqn:Eq2; [|reflexivity]. exfalso. apply dget_Some_key in Eq2. apply dget_None in Eq. apply Eq. cbn in *. tauto.
  - rewrite house_11, house_12, house_21, house_22. cbn. tauto.
Qed.
Lemma house_balanced (Pr : nat -> Prop) l : NoDup l -> (forall n, Pr n <-> In n l) -> vsum (map (popn house_pop) l) = 4%Z -> balanced_set (popn house_pop) 4 0 Pr.
Proof. intros ND I Eq. exists 4%Z. split; [exists l; split; [exact ND|split; [intro y; symmetry; apply I|symmetry; exact Eq]]|]. unfold S_Tree.balanced, Qle. vm_compute. discriminate. Qed.
Lemma house_b1 z : z = 1 \/ z = 2 -> balanced_set (popn house_pop) 4 0 (fun n => district H1 n = Some z).
Proof. intros [->| ->]; [apply (house_balanced _ [0; 1]); [nodup|apply house_11|vm_compute; reflexivity]|apply (house_balanced _ [2; 3; 4]); [nodup|apply house_12|vm_compute; reflexivity]]. Qed.
Lemma house_b2 z : z = 1 \/ z = 2 -> balanced_set (popn house_pop) 4 0 (fun n => district H2 n = Some z).
Proof. intros [->| ->]; [apply (house_balanced _ [0; 2]); [nodup|apply house_21|vm_compute; reflexivity]|apply (house_balanced _ [1; 3; 4]); [nodup|apply house_22|vm_compute; reflexivity]]. Qed.
Notation house_all := (subgraph house_g [0; 1; 2; 3; 4]).
Lemma house_merged n : In n [0; 1; 2; 3; 4] <-> district H1 n = Some 1 \/ district H1 n = Some 2.
Proof. rewrite house_11, house_12. cbn. tauto. Qed.
Lemma house_one : one_balanced_edge house_pop 4 0 house_all.
Proof. apply C104_exact; [apply wf_subgraph, house_wfg|reflexivity|]. intros n X. change (In n [0; 1; 2; 3; 4]) in X. cbn in X. repeat destruct X as [<-|X]; try contradiction; vm_compute; reflexivity. Qed.
Lemma house_trees l k : 2 <= List.length (g_nodes (subgraph house_g l)) -> num_spanning_trees_in_graph (fun _ : nat * nat => 1%Z) (subgraph house_g l) = Ok (Z.of_nat k) ->
  forall u, (forall n, In n u <-> In n l) -> numbers (tree_of (subgraph house_g u)) k.
Proof.
  intros Hl Hk u Hu. rewrite (subgraph_ext house_g u l) by exact Hu.
  destruct (C83_count (fun _ => 1%Z) (subgraph house_g l) (wf_subgraph _ l house_wfg) Hl (fun _ _ => eq_refl)) as (k' & E' & X). rewrite Hk in E'. injection E' as E'.
  apply Nat2Z.inj in E'. now subst.
Qed.
Lemma house_K : numbers (tree_of house_all) 11.
Proof. apply (house_trees [0; 1; 2; 3; 4] 11); [cbn; lia|vm_compute; reflexivity|reflexivity]. Qed.
Lemma house_11k u : (forall n, In n u <-> district H1 n = Some 1) -> numbers (tree_of (subgraph house_g u)) 1.
Proof. intro X. apply (house_trees [0; 1] 1); [cbn; lia|vm_compute; reflexivity|]. intro n. now rewrite X, house_11. Qed.
Lemma house_12k u : (forall n, In n u <-> district H1 n = Some 2) -> numbers (tree_of (subgraph house_g u)) 3.
Proof. intro X. apply (house_trees [2; 3; 4] 3); [cbn; lia|vm_compute; reflexivity|]. intro n. now rewrite X, house_12. Qed.
Lemma house_21k u : (forall n, In n u <-> district H2 n = Some 1) -> numbers (tree_of (subgraph house_g u)) 1.
Proof. intro X. apply (house_trees [0; 2] 1); [cbn; lia|vm_compute; reflexivity|]. intro n. now rewrite X, house_21. Qed.
Lemma house_22k u : (forall n, In n u <-> district H2 n = Some 2) -> numbers (tree_of (subgraph house_g u)) 1.
Proof. intro X. apply (house_trees [1; 3; 4] 1); [cbn; lia|vm_compute; reflexivity|]. intro n. now rewrite X, house_22. Qed.
Lemma house_labels (d : dict nat nat) A : (d = house_1 \/ d = house_2) -> (forall n, district A n = dget d n) -> forall x, In x [1; 2] <-> exists n : nat, district A n = Some x.
Proof.
  intros Hd HA x. split.
  - intros [<-|[<-|[]]]; [exists 0|exists 3]; rewrite HA; destruct Hd as [->| ->]; reflexivity.
  - intros (n & X). rewrite HA in X. destruct (house_some d x n Hd X) as [->| ->]; cbn; auto.
Qed.
Lemma house_t1 : tree_product house H1 3.
Proof.
  exists (fun z => if Nat.eqb z 1 then 1 else 3), [1; 2]. split; [nodup|]. split; [apply (house_labels house_1); [auto|apply house_d1]|]. split; [|reflexivity].
  intros x u [<-|[<-|[]]] Hu; [now apply house_11k|now apply house_12k].
Qed.
Lemma house_t2 : tree_product house H2 1.
Proof.
  exists (fun z => 1), [1; 2]. split; [nodup|]. split; [apply (house_labels house_2); [auto|apply house_d2]|]. split; [|reflexivity].
  intros x u [<-|[<-|[]]] Hu; [now apply house_21k|now apply house_22k].
Qed.
Lemma house_pairs (A : assignment nat nat) d l : (forall n, district A n = dget d n) -> NoDup l ->
  filter (fun x => (eqb (dget d (fst x)) (Some 1) && eqb (dget d (snd x)) (Some 2)) || (eqb (dget d (fst x)) (Some 2) && eqb (dget d (snd x)) (Some 1))) (g_edges house_g) = l ->
  numbers (pair_edge house A 1 2) (List.length l).
Proof.
  intros HA ND <-. eexists. split; [exact ND|]. split; [|reflexivity]. intro x. rewrite filter_In. unfold pair_edge. rewrite !HA, orb_true_iff, !andb_true_iff.
  assert (Q : forall y z : option nat, eqb y z = true <-> y = z) by (intros; apply eqb_eq). rewrite !Q. reflexivity.
Qed.
Lemma house_p1 : numbers (pair_edge house H1 1 2) 2.
Proof. apply (house_pairs H1 house_1 [(0, 2); (1, 3)] house_d1); [nodup|reflexivity]. Qed.
Lemma house_p2 : numbers (pair_edge house H2 1 2) 3.
Proof. apply (house_pairs H2 house_2 [(0, 1); (2, 3); (2, 4)] house_d2); [nodup|reflexivity]. Qed.
Definition house_cuts (d : dict nat nat) : list (nat * nat) := match fst (cut_edges_of house 0 (house_at d)) with Ok s => s | _ => [] end.
Definition house_after (d : dict nat nat) : heap nat nat Z nat := snd (cut_edges_of house 0 (house_at d)).
Lemma house_c1 : cut_edges_of house 0 (house_at house_1) = (Ok (house_cuts house_1), house_after house_1). Proof. vm_compute. reflexivity. Qed.
Lemma house_c2 : cut_edges_of house 0 (house_at house_2) = (Ok (house_cuts house_2), house_after house_2). Proof. vm_compute. reflexivity. Qed.
Lemma house_l1 : List.length (house_cuts house_1) = 2. Proof. vm_compute. reflexivity. Qed.
Lemma house_l2 : List.length (house_cuts house_2) = 3. Proof. vm_compute. reflexivity. Qed.
Definition house_pick (l : list (cut nat)) : res (cut nat) := of_option IndexError (hd_error l).
Lemma house_picks : picks house_pick.
Proof. intros l Hl. destruct l as [|c l]; [contradiction|]. exists c. split; [reflexivity|now left]. Qed.
Lemma house_F : exists F, numbers (fails house_pop 4 0 house_all) F.
Proof.
  eapply (fails_number house house_pop house_covers _ 4 0 (or_introl eq_refl) (house_at house_1) 0 (house_plan house_1) house_s1 house_o1 1 2 [0; 1; 2; 3; 4] house_merged ltac:(cbn; lia) [0; 1] [2; 3; 4]).
  - intro n. cbn. tauto.
  - intro n. cbn. lia.
  - apply (house_balanced _ [0; 1]); [nodup|reflexivity|reflexivity].
  - apply (house_balanced _ [2; 3; 4]); [nodup|reflexivity|reflexivity].
  - exact house_one.
  - exact (fun _ _ => 0%Q).
  - exact (fun _ => 0).
  - exact house_K.
Qed.
Notation house_moves d A B := (moves house house_pop (@find_cuts_memoization nat _) 4 0 (fun _ _ => 0%Q) (fun _ => 0) 1 1 house_pick 0 (house_at d) A (house_cuts d) 1 2 house_all B).
Lemma house_m1 : numbers (house_moves house_1 H1 H2) 6.
Proof.
  destruct house_F as [F HF].
  exact (C104_moves house house_pop house_covers _ 4 0 (or_introl eq_refl) _ 0 _ _ 0 _ 1 2 [0; 1; 2; 3; 4] _ _ (fun _ _ => 0%Q) (fun _ => 0) 1 1 house_pick 11 F 2 3 1 1
    house_s1 house_o1 house_s2 house_o2 eq_refl house_c1 ltac:(discriminate) house_redrawn house_merged ltac:(cbn; lia) house_one house_b2 house_picks (conj (le_n 1) (le_n 1))
    house_K HF house_p1 house_p2 house_21k house_22k).
Qed.
Lemma house_back : redrawn H2 1 2 H1.
Proof.
  split; intros n.
  - rewrite house_d1, house_d2. intros X Y. destruct (dget house_2 n) as [z|] eqn:Eq; [destruct (house_some house_2 z n) as [->| ->]; auto; congruence|].
    destruct (dget house_1 n) eqn:Eq2; [|reflexivity]. exfalso. apply dget_Some_key in Eq2. apply dget_None in Eq. apply Eq. cbn in *. tauto.
  - rewrite house_11, house_12, house_21, house_22. cbn. tauto.
Qed.
Lemma house_merged2 n : In n [0; 1; 2; 3; 4] <-> district H2 n = Some 1 \/ district H2 n = Some 2.
Proof. rewrite house_21, house_22. cbn. tauto. Qed.
Lemma house_m2 : numbers (house_moves house_2 H2 H1) 18.
Proof.
  destruct house_F as [F HF].
  exact (C104_moves house house_pop house_covers _ 4 0 (or_introl eq_refl) _ 0 _ _ 0 _ 1 2 [0; 1; 2; 3; 4] _ _ (fun _ _ => 0%Q) (fun _ => 0) 1 1 house_pick 11 F 3 2 1 3
    house_s2 house_o2 house_s1 house_o1 eq_refl house_c2 ltac:(discriminate) house_back house_merged2 ltac:(cbn; lia) house_one house_b1 house_picks (conj (le_n 1) (le_n 1))
    house_K HF house_p2 house_p1 house_11k house_12k).
Qed.
(** Neither the uniform distribution nor the product of the numbers of spanning
    trees is in balance: the first plan is left for the second with chance 3/11,
    the second for the first with chance 6/11, and their products are 3 and 1. *)
Theorem C104_trees_refuted : exists (E : env nat nat Z nat) pop balance t e weights root pick h1 h1' h2 h2' o1 o2 s1 s2 p q nodes K c1 c2 k1 k2,
  session E h1 /\ session E h2 /\ nth_error h1 0 = Some o1 /\ nth_error h2 0 = Some o2 /\ covers pop (e_graph E) /\ picks pick /\
  cut_edges_of E 0 h1 = (Ok s1, h1') /\ cut_edges_of E 0 h2 = (Ok s2, h2') /\ redrawn (o_assign o1) p q (o_assign o2) /\
  (forall n, In n nodes <-> district (o_assign o1) n = Some p \/ district (o_assign o1) n = Some q) /\ numbers (tree_of (subgraph (e_graph E) nodes)) K /\
  one_balanced_edge pop t e (subgraph (e_graph E) nodes) /\ tree_product E (o_assign o1) k1 /\ tree_product E (o_assign o2) k2 /\
  numbers (moves E pop balance t e weights root 1 1 pick 0 h1 (o_assign o1) s1 p q (subgraph (e_graph E) nodes) (o_assign o2)) c1 /\
  numbers (moves E pop balance t e weights root 1 1 pick 0 h2 (o_assign o2) s2 p q (subgraph (e_graph E) nodes) (o_assign o1)) c2 /\
  k1 = 3 /\ k2 = 1 /\ (Qn c1 / (Qn (List.length s1) * Qn K) == 3 # 11)%Q /\ (Qn c2 / (Qn (List.length s2) * Qn K) == 6 # 11)%Q.
Proof.
  exists house, house_pop, (@find_cuts_memoization nat _), 4%Q, 0%Q, (fun _ _ => 0%Q), (fun _ => 0), house_pick, (house_at house_1), (house_after house_1), (house_at house_2), (house_after house_2),
    (house_plan house_1), (house_plan house_2), (house_cuts house_1), (house_cuts house_2), 1, 2, [0; 1; 2; 3; 4], 11, 6, 18, 3, 1.
  split; [exact house_s1|]. split; [exact house_s2|]. split; [exact house_o1|]. split; [exact house_o2|]. split; [exact house_covers|]. split; [exact house_picks|].
  split; [exact house_c1|]. split; [exact house_c2|]. split; [exact house_redrawn|]. split; [exact house_merged|]. split; [exact house_K|]. split; [exact house_one|].
  split; [exact house_t1|]. split; [exact house_t2|]. split; [exact house_m1|]. split; [exact house_m2|]. split; [reflexivity|]. split; [reflexivity|].
  rewrite house_l1, house_l2. split; reflexivity.
Qed.
(** The same plans meet the hypotheses of the other theorems. *)
Example C104_nonvacuous :
  (Qn 2 * Qn 3 * (Qn 6 / (Qn 2 * Qn (11 ^ 1))) == Qn 3 * Qn 1 * (Qn 18 / (Qn 3 * Qn (11 ^ 1))))%Q /\ ~ same_split 1 2 H2 H1.
Proof.
  split.
  - destruct house_F as [F HF]. rewrite <- house_l1 at 1 2. rewrite <- house_l2 at 1 2.
    refine (C104_balance house house_pop house_covers _ 4 0 (or_introl eq_refl) _ 0 _ _ 0 _ 1 2 [0; 1; 2; 3; 4] _ _ _ _ _ _ 1 _ _ _ 1 _ 1 11 F 6 18 3 1
      house_s1 house_o1 house_s2 house_o2 eq_refl house_c1 house_c2 ltac:(discriminate) _ _ house_redrawn house_merged ltac:(cbn; lia) house_one house_b1 house_b2 house_picks house_picks
      (conj (le_n 1) (le_n 1)) (le_n 1) house_K HF house_t1 house_t2 house_m1 house_m2).
    + exists 0, 2. rewrite house_11, house_12. split; [left; cbn; auto|cbn; auto].
    + exists 0, 1. rewrite house_21, house_22. split; [left; cbn; auto|cbn; auto].
  - intros [X|X].
    + assert (Y := X 1). rewrite !house_d1, !house_d2 in Y. vm_compute in Y. destruct Y as [Y1 Y2]. intuition discriminate.
    + assert (Y := X 0). rewrite !house_d1, !house_d2 in Y. vm_compute in Y. destruct Y as [Y1 Y2]. intuition discriminate.
Qed.
Definition house_3 : dict nat nat := [(0, 1); (1, 1); (2, 2); (3, 3); (4, 3)].
Example C104_other_nonvacuous : exists A2 : assignment nat nat, let A := o_assign (house_plan house_3) in
  session house (house_at house_3) /\ nth_error (house_at house_3) 0 = Some (house_plan house_3) /\
  cut_edges_of house 0 (house_at house_3) = (Ok (house_cuts house_3), house_after house_3) /\
  (exists r, draws_pair A (house_cuts house_3) 1 3 r) /\ redrawn A 1 2 A2 /\ ~ same_split 1 2 A2 A.
Proof.
  assert (Dd : forall x, district (o_assign (house_plan house_3)) x = dget house_3 x).
  { intro x. replace (o_assign (house_plan house_3)) with (mkAssignment [(1, [0; 1]); (2, [2]); (3, [3; 4])] house_3) by (vm_compute; reflexivity). reflexivity. }
  exists (mkAssignment [] [(0, 1); (1, 2); (2, 2); (3, 3); (4, 3)]). intro A.
  split; [eapply house_session; [nodup|vm_compute; reflexivity]|]. split; [vm_compute; reflexivity|]. split; [vm_compute; reflexivity|].
  split; [exists 1; split; [vm_compute; lia|]; exists (1, 3); split; [vm_compute; reflexivity|]; left; unfold A; rewrite !Dd; split; reflexivity|].
  split; [split; intro n; unfold A; rewrite !Dd; unfold district, house_3; cbn [a_map dget]|].
  - destruct (eqb_spec n 0); [tauto|]. destruct (eqb_spec n 1); [tauto|]. destruct (eqb_spec n 2); [tauto|]. reflexivity.
  - destruct (eqb_spec n 0); [auto|]. destruct (eqb_spec n 1); [auto|]. destruct (eqb_spec n 2); [auto|]. auto.
  - intros [X|X]; [assert (Y := X 1)|assert (Y := X 0)]; unfold A in Y; rewrite !Dd in Y; vm_compute in Y; destruct Y as [Y1 Y2]; intuition discriminate.
Qed.
Print Assumptions C104_exact.
Print Assumptions C104_pair.
Print Assumptions C104_split.
Print Assumptions C104_fail.
Print Assumptions C104_other.
Print Assumptions C104_moves.
Print Assumptions C104_balance.
Print Assumptions C104_trees_refuted.
