(** C123: repeated calls of reversible_recom approach the spanning tree
    distribution on plans, whatever plan they start from, provided every plan
    can be reached from every other by splitting two districts again. *)
From Coq Require Import String List Bool Arith ZArith QArith Qabs Lqa Permutation Lia ZifyBool ZifyNat.
From Verif Require Import Base M_Graph M_Partition S_Partition L_Partition M_Machine S_Machine L_Sums
  L_Cuts L_Machine L_Answers S_Contiguity L_Search P_Partition P_Machine M_Election L_Order M_Proposals S_Proposals
  M_Tree S_Tree S_TreeCuts L_Tree P_Tree P_Contiguity L_Kruskal P_Spanning P_Proposals P_Bipartition M_Recursive P_Recursive
  M_Recom P_Recom P_Reversible L_Locality M_SpanningCount L_MatrixTree P_SpanningCount L_Seam M_Diversity P_DetailedBalance L_Pieces
  P_Stationary L_Converge.
From Verif Require P_FlipLaw P_Reach.
Import ListNotations.
Local Open Scope nat_scope.
Local Open Scope list_scope.

(** ** A connected graph has a spanning tree *)
Section Tree.
  Context {N : Type} {EN : EqB N}.
  Lemma kruskal_filter find es : NoDup es -> kruskal find es = filter (fun e => mem e (kruskal find es)) es.
  Proof.
    intro ND. revert find. induction ND as [|[u v] es Hn ND IH]; intro find; [reflexivity|]. cbn [kruskal]. destruct (eqb (find u) (find v)) eqn:E.
    - cbn [filter]. assert (X : mem (u, v) (kruskal find es) = false) by (apply mem_notIn; intro X; apply Hn; eapply kruskal_incl; exact X). rewrite X. apply IH.
    - set (f' := fun x => if eqb (find x) (find u) then find v else find x). cbn [filter]. assert (X : mem (u, v) ((u, v) :: kruskal f' es) = true) by (apply mem_In; now left).
      rewrite X. f_equal. rewrite (IH f') at 1. apply filter_ext_in. intros e He. destruct (mem e ((u, v) :: kruskal f' es)) eqn:M.
      + apply mem_In. apply mem_In in M. destruct M as [M|M]; [|exact M]. exfalso. apply Hn. now rewrite M.
      + apply mem_notIn. apply mem_notIn in M. intro Y. apply M. now right.
  Qed.
  Lemma some_tree (g : graph N) : wf_graph g -> connected_graph g -> exists T, tree_of g T.
  Proof.
    intros WF Con. exists (kruskal (fun x => x) (g_edges g)). split; [eexists; apply kruskal_filter, WF|]. apply kruskal_tree; auto.
  Qed.
  Lemma connected_part (g : graph N) (D : N -> Prop) s : wf_graph g -> connected_on g D -> (exists n, D n) -> (forall n, D n -> In n (g_nodes g)) -> (forall n, In n s <-> D n) ->
    connected_graph (subgraph g s).
  Proof.
    intros WF Con (n & Hn) In_g Hs. assert (Hg : forall m, In m (g_nodes (subgraph g s)) <-> D m).
    { intro m. cbn [subgraph g_nodes]. rewrite filter_In, mem_In, Hs. split; [tauto|auto]. }
    split; [intro X; apply Hg in Hn; rewrite X in Hn; destruct Hn|]. intros u v Hu Hv. apply Hg in Hu, Hv.
    apply (reach_mono _ _ _ _ (fun a b (W : adj g a b /\ D a /\ D b) => proj2 (adj_subgraph g s a b) (conj (proj1 W) (conj (proj2 (Hs a) (proj1 (proj2 W))) (proj2 (Hs b) (proj2 (proj2 W)))))) (Con u v Hu Hv)).
  Qed.
End Tree.

Section Converge.
  Context {N P V L : Type} {EN : EqB N} {EP : EqB P} {EL : EqB L} {ON : Ord N} {RV : CRing V}.
  Variable E : env N P V L.
  Notation g := (e_graph E).
  Variable pop : dict N Z.
  Hypothesis Hpop : covers pop g.
  Variables (balance : @balance_fn N) (t e : Q) (bound k : nat).
  Hypothesis Hbal : balance = find_cuts_memoization \/ balance = find_cuts_contraction.
  Notation start := (@start N P V L).
  Notation plan x := (o_assign (s_obj x)).
  Notation same := (same_districts (g_nodes g)).
  Notation ready := (ready E pop balance t e bound k).
  Notation law := (law E pop balance t e bound k).
  Notation run := (run E pop balance t e bound).
  Notation options := (options E pop balance t e).

  (** ** Specification *)
  (** [B] splits two adjacent districts of [A] again and has the other
      districts of [A]. *)
  Definition resplit (A B : assignment N P) : Prop :=
    exists p q p' q', p <> q /\ p' <> q' /\ In p' (labels B) /\ In q' (labels B) /\ adjacent g A p q /\
      (forall n, (district A n = Some p \/ district A n = Some q) <-> (district B n = Some p' \/ district B n = Some q')) /\
      elsewhere E A B p q.

  (** ** Lemmas *)
  Lemma average_nonneg {X} (l : list X) f : (forall x, In x l -> (0 <= f x)%Q) -> (0 <= average l f)%Q.
  Proof.
    intro H. unfold average. apply Qle_shift_div_l' || (unfold Qdiv; apply Qmult_le_0_compat; [now apply qsum_nonneg|]).
    apply Qinv_le_0_compat. unfold Qn, Qle. cbn. lia.
  Qed.
  Lemma average_term {X} (l : list X) f x : In x l -> (forall y, In y l -> (0 <= f y)%Q) -> (0 < f x)%Q -> (0 < average l f)%Q.
  Proof.
    intros Hx Hf Fx. unfold average, Qdiv. apply Qmult_lt_0_compat; [eapply Qlt_le_trans; [exact Fx|now apply qsum_term]|].
    apply Qinv_lt_0_compat. destruct l; [destruct Hx|]. unfold Qn, Qlt. cbn. lia.
  Qed.
  Lemma law_nonneg x Pr v : law x Pr v -> (0 <= v)%Q.
  Proof using.
    intros (f & Hf & ->). apply average_nonneg. intros r Hr. apply in_seq in Hr. apply average_nonneg. intros T HT. apply average_nonneg. intros i Hi. apply in_seq in Hi. apply (Hf r T i); auto; lia.
  Qed.
  (** The same district is drawn twice with a positive chance. *)
  Lemma stays_sometimes x v : k <> 0 -> ready x -> law x (fun D => same D (plan x)) v -> (0 < v)%Q.
  Proof using.
    intros K0 Rx (f & Hf & ->). pose proof (proj1 (proj2 (proj2 Rx))) as Vx. destruct (labels (plan x)) as [|p ls] eqn:El; [exfalso; apply K0; rewrite <- (proj1 Vx), El; reflexivity|].
    assert (Hl : In (p, p) (list_prod (labels (plan x)) (labels (plan x)))) by (rewrite El; apply in_prod; now left).
    destruct (P_FlipLaw.choice_below _ _ Hl) as (r & Hr & Hc). rewrite (pairs_length E pop balance t e bound k x Rx) in Hr.
    assert (Nn : forall r T i, r < k * k -> In T (s_trees x r) -> i < options x r T -> (0 <= f r T i)%Q) by (intros; apply (Hf r0 T i); auto).
    apply average_term with r; [apply in_seq; lia| |].
    { intros r' Hr'. apply in_seq in Hr'. apply average_nonneg. intros T HT. apply average_nonneg. intros i Hi. apply in_seq in Hi. apply Nn; auto; lia. }
    assert (One : (average (s_trees x r) (fun T => average (seq 0 (options x r T)) (fun i => f r T i)) == 1)%Q); [|rewrite One; reflexivity].
    transitivity (average (s_trees x r) (fun _ => 1%Q)); [|apply average_const, (proj1 (proj2 (proj2 (proj2 Rx)))); lia].
    apply average_ext. intros T HT. transitivity (average (seq 0 (options x r T)) (fun _ => 1%Q)); [|apply average_const, options_pos].
    apply average_ext. intros i Hi. apply in_seq in Hi.
    assert (St : forall u, run x r T i u = (Ok (s_at x), s_heap x)).
    { intro u. apply (C48_self_loop E pop balance _ t e _ _ _ _ false bound _ _ _ (proj1 (proj2 Rx)) r _ i u p p Hc). now left. }
    apply (likelihood_unique (fun u => ends_in (run x r T i u) (fun D => same D (plan x))) (fun _ => True)); [|apply Hf; auto; lia|].
    - intros u _. split; auto. intros _. rewrite St. exists (s_at x), (s_obj x). cbn [fst snd]. split; [reflexivity|]. split; [apply Rx|]. apply same_districts_refl.
    - split; [split; discriminate|]. left. intros u U. split; [intros _; lra|auto].
  Qed.
  Lemma numbers_pos {X} (Pr : X -> Prop) m x : numbers Pr m -> Pr x -> (0 < Qn m)%Q.
  Proof. intros (l & _ & Hl & <-) H. apply Hl in H. destruct l; [destruct H|]. unfold Qn, Qlt. cbn. lia. Qed.
  Lemma district_tree x z s : ready x -> In z (labels (plan x)) -> (forall n, In n s <-> district (plan x) n = Some z) -> exists T, tree_of (subgraph g s) T.
  Proof using.
    intros Rx Hz Hs. pose proof (proj2 (proj1 (proj2 (proj2 Rx))) z Hz) as (Ex & Con & _). assert (WF := P_Proposals.wfg E _ (proj1 Rx)).
    apply some_tree; [now apply wf_subgraph|]. apply (connected_part g (fun n => district (plan x) n = Some z)); auto.
    intros n Hn. eapply (in_node (g_nodes g) (plan x) n z (ready_proper E pop balance t e bound k x Rx) Hn).
  Qed.
  Lemma move_positive x y v w : 0 < bound -> ready x -> ready y -> ~ same (plan x) (plan y) -> resplit (plan x) (plan y) -> tree_product E (plan y) w ->
    law x (fun D => same D (plan y)) v -> (0 < v)%Q.
  Proof using Hpop Hbal.
    intros B0 Rx Ry Ne (p & q & p' & q' & Npq & Npq' & Lp' & Lq' & Ad & Un & El) (fw & ls & NDl & Hls & Hfw & _) Lx.
    pose proof (ready_proper E pop balance t e bound k x Rx) as PA. pose proof (ready_proper E pop balance t e bound k y Ry) as PB. set (gn := g_nodes g) in *.
    assert (Lp : In p (labels (plan x))) by (destruct Ad as (u & w' & _ & D & _); eapply (in_node _ (plan x) u p PA D)).
    assert (Lq : In q (labels (plan x))) by (destruct Ad as (u & w' & _ & _ & D); eapply (in_node _ (plan x) w' q PA D)).
    assert (Hl : In (p, q) (list_prod (labels (plan x)) (labels (plan x)))) by (apply in_prod; assumption). destruct (P_FlipLaw.choice_below _ _ Hl) as (r & Hr & Hc). rewrite (pairs_length E pop balance t e bound k x Rx) in Hr.
    destruct (proj2 (proj2 (proj2 (proj2 Rx))) r p q Hr Hc Npq Ad) as (_ & [L1 L2] & _). set (U := drawn E x r) in *.
    assert (HU : forall n, In n U <-> district (plan x) n = Some p \/ district (plan x) n = Some q) by (intro n; exact (in_drawn E pop balance t e bound k x Rx r p q n Hc)).
    assert (Tn : numbers (tree_of (subgraph g U)) (List.length (s_trees x r))) by (exists (s_trees x r); auto).
    assert (Hp : forall z, In z (labels (plan y)) -> exists m, numbers (tree_of (subgraph g (piece gn (plan y) z))) m /\ (0 < Qn m)%Q).
    { intros z Hz. assert (Hin : forall n, In n (piece gn (plan y) z) <-> district (plan y) n = Some z) by (intro n; now apply in_piece). exists (fw z).
      assert (Nz : numbers (tree_of (subgraph g (piece gn (plan y) z))) (fw z)) by (apply Hfw; [apply Hls, (proj2 PB), Hz|exact Hin]). split; [exact Nz|].
      destruct (district_tree y z _ Ry Hz Hin) as (T & HT). exact (numbers_pos _ _ _ Nz HT). }
    destruct (Hp p' Lp') as (kA & NA & KA), (Hp q' Lq') as (kB & NB & KB).
    rewrite (C119_moves E pop Hpop balance t e bound k Hbal x y v p q p' q' U (piece gn (plan y) p') (piece gn (plan y) q') kA kB (List.length (s_trees x r)) Rx Ry Ne Npq Npq' Lp' Lq' Ad HU
      (fun n => in_piece gn (plan y) p' n PB) (fun n => in_piece gn (plan y) q' n PB)); auto.
    - assert (P1 : forall a, a <> 0 -> (0 < Qn a)%Q) by (intros a Ha; unfold Qn, Qlt; cbn; lia). unfold Qdiv. repeat apply Qmult_lt_0_compat; auto; try reflexivity.
      apply Qinv_lt_0_compat. repeat apply Qmult_lt_0_compat; apply P1; try lia. intro X. apply (proj1 (proj2 (proj2 (proj2 Rx))) r Hr). now destruct (s_trees x r).
    - intro n. rewrite HU, !(in_piece gn (plan y) _ n PB). apply Un.
  Qed.
  Lemma move_only x y v : ready x -> ready y -> ~ same (plan x) (plan y) -> law x (fun D => same D (plan y)) v -> (0 < v)%Q -> resplit (plan x) (plan y).
  Proof using Hpop Hbal.
    intros Rx Ry Ne Lx Vp. pose proof (ready_proper E pop balance t e bound k x Rx) as PA. pose proof (ready_proper E pop balance t e bound k y Ry) as PB. set (gn := g_nodes g) in *.
    pose proof (len_eq E pop balance t e bound k x y Rx Ry) as K.
    assert (Dec : (exists p q, differ gn (plan x) (plan y) p q /\ adjacent g (plan x) p q) \/ (forall p q, differ gn (plan x) (plan y) p q -> ~ adjacent g (plan x) p q)).
    { destruct (differ_count gn (plan x) (plan y) PA) as [(p & q & D & _)|No]; [|right; intros p q D; destruct (No p q D)]. destruct (adj_dec E (plan x) p q) as [Ad|Ad]; [left; eauto|]. right. intros p1 q1 D1 Ad1. apply Ad.
      destruct (differ_pair gn _ _ p q p1 q1 PA D D1) as [[-> ->]|[-> ->]]; [exact Ad1|now apply adjacent_sym]. }
    destruct Dec as [(p & q & D & Ad)|No].
    - destruct (differ_back gn _ _ p q PA PB K D) as (p' & q' & D' & Un). exists p, q, p', q'. split; [apply D|]. split; [apply D'|]. split; [apply D'|]. split; [apply D'|]. split; [exact Ad|]. split; [|now apply differ_elsewhere].
      intro n. specialize (Un n). now rewrite !(in_piece gn (plan x) _ n PA), !(in_piece gn (plan y) _ n PB) in Un.
    - assert (X := value_zero E pop Hpop balance t e bound k Hbal x y Rx Ry Ne v Lx No). exfalso. lra.
  Qed.

  Section Chain.
    Context {X : Type} {EX : EqB X}.
    Variable states : list X.
    Variable at_ : X -> start.
    Hypothesis ND : NoDup states.
    Hypothesis Ready : forall x, In x states -> ready (at_ x).
    Hypothesis Distinct : forall x y, In x states -> In y states -> same (plan (at_ x)) (plan (at_ y)) -> x = y.
    Hypothesis Complete : forall h a o, session E h -> nth_error h a = Some o -> valid E pop t e k (o_assign o) -> exists x, In x states /\ same (plan (at_ x)) (o_assign o).
    Variable K : X -> X -> Q.
    Hypothesis HK : forall x y, In x states -> In y states -> law (at_ x) (fun D => same D (plan (at_ y))) (K x y).
    Variable weight : X -> nat.
    Hypothesis Hweight : forall x, In x states -> tree_product E (plan (at_ x)) (weight x).
    Hypothesis K0 : k <> 0.
    Hypothesis B0 : 0 < bound.
    (** From one plan to another by splitting two districts again. *)
    Definition moves (x y : X) : Prop := In x states /\ In y states /\ resplit (plan (at_ x)) (plan (at_ y)).
    (** The share of a plan in all spanning forests with one tree per district. *)
    Definition share (x : X) : Q := (Qn (weight x) / qsum states (fun z => Qn (weight z)))%Q.

    Lemma Kpos x y : In x states -> In y states -> (0 <= K x y)%Q.
    Proof using HK. intros Hx Hy. eapply law_nonneg, HK; auto. Qed.
    Lemma Ktot x : In x states -> (qsum states (K x) == 1)%Q.
    Proof using EX Hpop Hbal ND Ready Distinct Complete HK K0. apply (C119_total E pop Hpop balance t e bound k Hbal states at_ ND Ready Distinct Complete K HK x K0). Qed.
    Lemma weight_positive x : In x states -> (0 < Qn (weight x))%Q.
    Proof using Ready Hweight.
      clear K0 B0 HK Distinct Complete. clear K. intros Hx. destruct (Hweight x Hx) as (fw & ls & NDl & Hls & Hfw & ->). pose proof (Ready x Hx) as Rx. pose proof (ready_proper E pop balance t e bound k _ Rx) as PA.
      assert (Hp : forall z, In z ls -> 0 < fw z).
      { intros z Hz. assert (Lz : In z (labels (plan (at_ x)))) by (apply Hls in Hz; destruct Hz as (n & Hn); eapply (in_node _ _ n z PA Hn)).
        assert (Hin : forall n, In n (piece (g_nodes g) (plan (at_ x)) z) <-> district (plan (at_ x)) n = Some z) by (intro n; now apply in_piece).
        destruct (district_tree _ z _ Rx Lz Hin) as (T & HT). assert (Y := numbers_pos _ _ _ (Hfw z _ Hz Hin) HT). unfold Qn, Qlt in Y. cbn in Y. lia. }
      assert (Y : 0 < fold_right Nat.mul 1 (map fw ls)); [|unfold Qn, Qlt; cbn; lia].
      clear - Hp. induction ls as [|z ls IH]; cbn [map fold_right]; [lia|]. assert (0 < fw z) by (apply Hp; now left). assert (0 < fold_right Nat.mul 1 (map fw ls)) by (apply IH; intros; apply Hp; now right). nia.
    Qed.
    Lemma total_positive : states <> [] -> (0 < qsum states (fun z => Qn (weight z)))%Q.
    Proof using Ready Hweight.
      intro Ne. assert (Ex : exists x, In x states) by (clear - Ne; destruct states as [|x l]; [congruence|exists x; now left]). destruct Ex as (x & Hx).
      eapply Qlt_le_trans; [exact (weight_positive x Hx)|]. apply (qsum_term states (fun z => Qn (weight z)) x); [|exact Hx]. intros y Hy. apply Qlt_le_weak, weight_positive, Hy.
    Qed.
    (** C123.  The shares are a probability, and every plan has some. *)
    Theorem C123_shares : states <> [] -> (qsum states share == 1)%Q /\ forall x, In x states -> (0 < share x)%Q.
    Proof using Ready Hweight.
      intro Ne. assert (T := total_positive Ne). set (Z0 := qsum states (fun z => Qn (weight z))) in *. split.
      - unfold share. fold Z0. transitivity (qsum states (fun x => / Z0 * Qn (weight x)))%Q; [apply qsum_ext; intros; unfold Qdiv; ring|]. rewrite qsum_scale. fold Z0. field. intro H. rewrite H in T. discriminate.
      - intros x Hx. unfold share. fold Z0. unfold Qdiv. apply Qmult_lt_0_compat; [now apply weight_positive|now apply Qinv_lt_0_compat].
    Qed.
    Lemma moves_leads x y : In x states -> reach moves x y -> reach (leads states K) x y.
    Proof using EX Hpop Hbal Ready Distinct HK Hweight B0.
      intros H0 R. induction R as [|y z R IH (Hy & Hz & Sp)]; [constructor|]. destruct (eqb_spec y z) as [Eyz|Nyz]; [rewrite <- Eyz; exact IH|].
      econstructor; [exact IH|]. split; [exact Hy|]. split; [exact Hz|].
      apply (move_positive (at_ y) (at_ z) (K y z) (weight z) B0 (Ready y Hy) (Ready z Hz) (fun W => Nyz (Distinct y z Hy Hz W)) Sp (Hweight z Hz) (HK y z Hy Hz)).
    Qed.
    Lemma leads_moves x y : reach (leads states K) x y -> reach moves x y.
    Proof using EX Hpop Hbal Ready Distinct HK.
      intros R. induction R as [|y z R IH (Hy & Hz & Kp)]; [constructor|]. destruct (eqb_spec y z) as [Eyz|Nyz]; [rewrite <- Eyz; exact IH|].
      econstructor; [exact IH|]. split; [exact Hy|]. split; [exact Hz|].
      exact (move_only (at_ y) (at_ z) (K y z) (Ready y Hy) (Ready z Hz) (fun W => Nyz (Distinct y z Hy Hz W)) (HK y z Hy Hz) Kp).
    Qed.

    (** C123.  The distance to the spanning tree distribution falls below a
        geometric sequence that does not depend on the plan the chain starts
        from. *)
    Theorem C123_rate : states <> [] -> (forall x y, In x states -> In y states -> reach moves x y) ->
      exists m delta, (0 < delta <= 1)%Q /\
        forall d j r, (forall x, In x states -> (0 <= d x)%Q) -> (qsum states d == 1)%Q ->
          (qsum states (fun y => Qabs (after states K (r + j * m) d y - share y)) <= 2 * pow (1 - delta) j)%Q.
    Proof using EX Hpop Hbal ND Ready Distinct Complete HK Hweight K0 B0.
      intros Ne Irr. assert (Ex : exists x, In x states) by (clear - Ne; destruct states as [|x l]; [congruence|exists x; now left]). destruct Ex as (s & Hs).
      destruct (C123_shares Ne) as [S1 S2]. apply (converge states K ND Kpos Ktot share s Hs).
      - exact (stays_sometimes (at_ s) (K s s) K0 (Ready s Hs) (HK s s Hs Hs)).
      - intros x y Hx Hy. apply moves_leads; auto.
      - intros y Hy. apply Qlt_le_weak, S2, Hy.
      - exact S1.
      - intros y Hy. exact (C119_forever E pop Hpop balance t e bound k Hbal states at_ ND Ready Distinct Complete K HK weight Hweight 1 y K0 Hy).
    Qed.
    (** C123.  So from every start the chance of every plan approaches its
        share. *)
    Theorem C123_limit eps : (0 < eps)%Q -> (forall x y, In x states -> In y states -> reach moves x y) ->
      exists n0, forall n, n0 <= n -> forall d, (forall x, In x states -> (0 <= d x)%Q) -> (qsum states d == 1)%Q ->
        forall y, In y states -> (Qabs (after states K n d y - share y) <= eps)%Q.
    Proof using EX Hpop Hbal ND Ready Distinct Complete HK Hweight K0 B0.
      intros He Irr. assert (C : states = [] \/ states <> []) by (clear; destruct states; [left; reflexivity|right; discriminate]).
      destruct C as [En|Ne]; [exists 0; intros n _ d _ _ y Hy; rewrite En in Hy; destruct Hy|].
      destruct (C123_rate Ne Irr) as (m & delta & Hd & H). destruct (pow_to_zero delta (eps / 2) Hd) as (j & Hj); [apply Qlt_shift_div_l; lra|].
      exists (j * m). intros n Hn d D1 D2 y Hy. eapply Qle_trans; [apply (qsum_term states (fun y => Qabs (after states K n d y - share y)) y); [intros; apply Qabs_nonneg|exact Hy]|].
      replace n with ((n - j * m) + j * m) by lia. eapply Qle_trans; [apply (H d j _ D1 D2)|]. setoid_replace eps with (2 * (eps / 2))%Q by field. apply Qmult_le_l; [reflexivity|]. now apply Qlt_le_weak.
    Qed.
    (** C123.  A plan that cannot be reached by such moves has no chance after
        any number of calls. *)
    Theorem C123_unreachable x y n : In x states -> In y states -> ~ reach moves x y -> (after states K n (point x) y == 0)%Q.
    Proof using EX Hpop Hbal ND Ready Distinct Complete HK K0.
      intros Hx Hy No. apply (unreachable states K ND Kpos Ktot x y n Hx Hy). intro R. apply No, leads_moves, R.
    Qed.
    (** C123.  With two districts on a connected graph every plan is one move
        away from every other. *)
    Theorem C123_two : k = 2 -> connected_on g (fun n => In n (g_nodes g)) -> forall x y, In x states -> In y states -> reach moves x y.
    Proof using Ready.
      clear K0 B0 HK Distinct Complete Hweight Hbal. clear weight K. intros K2 Con x y Hx Hy. econstructor; [constructor|]. split; [exact Hx|]. split; [exact Hy|]. pose proof (Ready x Hx) as Rx. pose proof (Ready y Hy) as Ry.
      pose proof (ready_proper E pop balance t e bound k _ Rx) as PA. pose proof (ready_proper E pop balance t e bound k _ Ry) as PB.
      assert (Two : forall z, In z states -> exists p q, labels (plan (at_ z)) = [p; q] /\ p <> q).
      { intros z Hz. pose proof (Ready z Hz) as Rz. pose proof (proj1 (proj1 (proj2 (proj2 Rz)))) as Len. rewrite K2 in Len. pose proof (coh_part_keys _ _ (proj1 (ready_proper E pop balance t e bound k _ Rz))) as NDk. change (NoDup (labels (plan (at_ z)))) in NDk.
        destruct (labels (plan (at_ z))) as [|p [|q [|o l]]]; try discriminate. exists p, q. split; [reflexivity|]. intros ->. inversion NDk as [|? ? Hn _]. apply Hn. now left. }
      destruct (Two x Hx) as (p & q & Lx & Npq), (Two y Hy) as (p' & q' & Ly & Npq').
      assert (All : forall z r s, In z states -> labels (plan (at_ z)) = [r; s] -> forall n, In n (g_nodes g) <-> district (plan (at_ z)) n = Some r \/ district (plan (at_ z)) n = Some s).
      { intros z r s Hz Lz n. pose proof (ready_proper E pop balance t e bound k _ (Ready z Hz)) as Pz. split.
        - intro Hn. destruct (node_in _ _ n Pz Hn) as (w & Hw). destruct (in_node _ _ n w Pz Hw) as [_ Lw]. rewrite Lz in Lw. destruct Lw as [<-|[<-|[]]]; auto.
        - intros [H|H]; eapply (in_node _ _ n _ Pz H). }
      destruct (proj2 PA p) as (u & Hu); [rewrite Lx; now left|]. destruct (proj2 PA q) as (v & Hv); [rewrite Lx; right; now left|].
      exists p, q, p', q'. split; [exact Npq|]. split; [exact Npq'|]. split; [rewrite Ly; now left|]. split; [rewrite Ly; right; now left|]. split; [|split].
      - destruct (crossing g (fun n => district (plan (at_ x)) n = Some p) (fun n => district (plan (at_ x)) n = Some q) u v) as (a & b & Ad & Ha & Hb); auto.
        + eapply P_Contiguity.connected_on_ext; [|exact Con]. exact (All x p q Hx Lx).
        + intros n H1 H2. congruence.
        + exists a, b. auto.
      - intro n. rewrite <- (All x p q Hx Lx), <- (All y p' q' Hy Ly). reflexivity.
      - intros n m Hn _ Np Nq. apply (All x p q Hx Lx) in Hn. tauto.
    Qed.
  End Chain.
End Converge.

(** On the 4-cycle all the hypotheses hold: from either plan, and from every
    mixture of the two, the chance of each approaches 1/2. *)
Example C123_nonvacuous :
  exists K : bool -> bool -> Q, (forall b b', law square_E (flat_pop 4 1) find_cuts_memoization 2 0 1 2 (square_at b)
    (fun D => same_districts [0; 1; 2; 3] D (o_assign (s_obj (square_at b')))) (K b b')) /\
    (K true false == 1 # 8)%Q /\
    forall eps, (0 < eps)%Q -> exists n0, forall n, n0 <= n -> forall d, (forall b, (0 <= d b)%Q) -> (d true + d false == 1)%Q ->
      forall b, (Qabs (after [true; false] K n d b - (1 # 2)) <= eps)%Q.
Proof.
  destruct C119_nonvacuous as (_ & Dis & Comp & Tp & K & HK & M & _). exists K. split; [exact HK|]. split; [exact M|]. intros eps He.
  assert (Cv : covers (flat_pop 4 1) (e_graph square_E)) by (split; [nodup|intro n; reflexivity]).
  assert (Con : connected_on square (fun n => In n (g_nodes square))).
  { assert (St : forall a b, adj square a b -> In a (g_nodes square) -> In b (g_nodes square) -> reach (fun u v => adj square u v /\ In u (g_nodes square) /\ In v (g_nodes square)) a b) by (intros a b A Ha Hb; econstructor; [constructor|auto]).
    assert (Ad : forall i j, In (i, j) [(0, 1); (1, 2); (2, 3); (3, 0); (1, 0); (2, 1); (3, 2); (0, 3)] -> adj square i j) by (intros i j H; cbn in H; repeat destruct H as [H|H]; try contradiction; injection H as <- <-; (left; cbn; tauto) || (right; cbn; tauto)).
    assert (From : forall u, In u (g_nodes square) -> reach (fun u v => adj square u v /\ In u (g_nodes square) /\ In v (g_nodes square)) u 0 /\ reach (fun u v => adj square u v /\ In u (g_nodes square) /\ In v (g_nodes square)) 0 u).
    { intros u Hu. cbn in Hu. destruct Hu as [<-|[<-|[<-|[<-|[]]]]]; (split; [|]); try constructor.
      - apply St; [apply Ad|..]; cbn; tauto.
      - apply St; [apply Ad|..]; cbn; tauto.
      - apply reach_cat with 1; apply St; [apply Ad|..|apply Ad| |]; cbn; tauto.
      - apply reach_cat with 1; apply St; [apply Ad|..|apply Ad| |]; cbn; tauto.
      - apply St; [apply Ad|..]; cbn; tauto.
      - apply St; [apply Ad|..]; cbn; tauto. }
    intros u v Hu Hv. apply reach_cat with 0; now apply From. }
  assert (In2 : forall b, In b [true; false]) by (intros []; cbn; auto).
  assert (Irr := C123_two square_E (flat_pop 4 1) find_cuts_memoization 2 0 1 2 [true; false] square_at (fun b _ => square_ready b) eq_refl Con).
  destruct (C123_limit square_E (flat_pop 4 1) Cv find_cuts_memoization 2 0 1 2 (or_introl eq_refl) [true; false] square_at ltac:(nodup) (fun b _ => square_ready b) (fun b b' _ _ => Dis b b') Comp K (fun b b' _ _ => HK b b')
    (fun _ => 1%nat) (fun b _ => Tp b) ltac:(discriminate) ltac:(lia) eps He Irr) as (n0 & H).
  exists n0. intros n Hn d D1 D2 b. specialize (H n Hn d (fun b _ => D1 b)). assert (Sh : (share [true; false] (fun _ => 1%nat) b == 1 # 2)%Q) by reflexivity. rewrite <- Sh. apply H; auto.
  rewrite !qsum_cons. cbn [qsum fold_right]. rewrite Qplus_0_r. exact D2.
Qed.

(** ** The 6-cycle with its two plans of three districts *)
Section Hexagon.
  Import P_Reach.
  Definition hex_start (d : dict nat nat) : @start nat nat Z nat :=
    let x := mkStart (hex_at d) 0 (hex_plan d) (fun _ _ => 0%Q) (fun _ _ => 0) 0 0 0 (fun _ => []) in
    mkStart (hex_at d) 0 (hex_plan d) (fun _ _ => 0%Q) (fun _ _ => 0) 0 0 0 (fun r => [g_edges (subgraph hex_g (drawn hex x r))]).
  Definition hex_of (b : bool) : @start nat nat Z nat := hex_start (if b then hex_1 else hex_2).
  Lemma only_tree (H : graph nat) : wf_graph H -> connected_graph H -> S (List.length (g_edges H)) = List.length (g_nodes H) -> lists_trees H [g_edges H].
  Proof.
    intros WF Con Len. split; [constructor; [intros []|constructor]|].
    assert (Is : forall T, tree_of H T -> T = g_edges H).
    { intros T [[f ->] [[_ _ Sz] _]]. cbn [g_nodes g_edges] in Sz. assert (X : List.length (filter f (g_edges H)) = List.length (g_edges H)) by lia.
      clear - X. induction (g_edges H) as [|e l IH]; [reflexivity|]. cbn [filter] in *. destruct (f e); cbn [List.length] in X; [f_equal; apply IH; lia|]. exfalso.
      assert (Y : forall m : list (nat * nat), List.length (filter f m) <= List.length m) by (induction m as [|w m IHm]; cbn [filter]; [auto|destruct (f w); cbn [List.length]; lia]). specialize (Y l). lia. }
    intro T. split; [intros [<-|[]]|intro HT; left; symmetry; now apply Is]. destruct (some_tree H WF Con) as (T & HT). rewrite <- (Is T HT). exact HT.
  Qed.
  Lemma hex_valid b : valid hex hex_pop 2 0 3 (o_assign (s_obj (hex_of b))).
  Proof.
    set (d := if b then hex_1 else hex_2). assert (F : fine hex hex_pop 2 0 (o_assign (hex_plan d))) by (apply hex_fine; destruct b; cbn; auto).
    change (o_assign (s_obj (hex_of b))) with (o_assign (hex_plan d)). split; [destruct b; vm_compute; reflexivity|]. destruct F as [F1 F2]. intros z Hz.
    split; [|split].
    - unfold d in *. destruct b; vm_compute in Hz; destruct Hz as [<-|[<-|[<-|[]]]].
      all: first [exists 0; vm_compute; reflexivity|exists 2; vm_compute; reflexivity|exists 3; vm_compute; reflexivity|exists 4; vm_compute; reflexivity].
    - apply F1. exact Hz.
    - destruct (F2 z Hz) as (s & Hs & B). exists s. split; [exact Hs|exact B].
  Qed.
  Lemma hex_ready b : ready hex hex_pop find_cuts_memoization 2 0 1 3 (hex_of b).
  Proof.
    split; [destruct b; [exact hex_s1|exact hex_s2]|]. split; [destruct b; [exact hex_o1|exact hex_o2]|]. split; [apply hex_valid|]. split; [discriminate|].
    assert (Coh : coherent (g_nodes hex_g) (o_assign (s_obj (hex_of b)))) by (destruct b; [exact (session_coherent hex _ _ _ hex_s1 hex_o1)|exact (session_coherent hex _ _ _ hex_s2 hex_o2)]).
    assert (Dom : forall n z, district (o_assign (s_obj (hex_of b))) n = Some z -> In n (g_nodes hex_g)) by (intros n z X; apply (coh_dom _ _ Coh); eapply dget_Some_key; exact X).
    intros r p q Hr Hc Npq Ad. set (D := drawn hex (hex_of b) r).
    assert (Size : List.length D = 4 /\ List.length (g_edges (subgraph hex_g D)) = 3 /\ List.length (g_nodes (subgraph hex_g D)) = 4 /\
        cuts_of hex hex_pop find_cuts_memoization 2 0 (s_weights (hex_of b)) (s_root (hex_of b)) D (g_edges (subgraph hex_g D)) = 1).
    { unfold D. clear D Ad. do 9 (destruct r as [|r]; [destruct b; vm_compute in Hc; injection Hc as <- <-; try (exfalso; apply Npq; reflexivity); vm_compute; auto|]). lia. }
    destruct Size as (S1 & S2 & S3 & S4). change (s_trees (hex_of b) r) with [g_edges (subgraph hex_g D)]. split; [lia|].
    split; [|intros T [<-|[]]; fold D; lia].
    assert (HD : forall n, In n D <-> district (o_assign (s_obj (hex_of b))) n = Some p \/ district (o_assign (s_obj (hex_of b))) n = Some q).
    { intro n. unfold D, drawn. rewrite Hc, filter_In, orb_true_iff. split.
      - intros [_ [X|X]]; apply eqb_true in X; auto.
      - intro X. split; [destruct X as [X|X]; exact (Dom n _ X)|destruct X as [X|X]; [left|right]; rewrite X; apply eqb_refl]. }
    apply only_tree; [apply wf_subgraph, hex_wfg| |lia].
    destruct Ad as (u & v & Auv & Du & Dv). pose proof (hex_valid b) as [_ Vb].
    apply (connected_part hex_g (fun n => district (o_assign (s_obj (hex_of b))) n = Some p \/ district (o_assign (s_obj (hex_of b))) n = Some q)); [exact hex_wfg| |exists u; auto| |exact HD].
    - apply choice_In, in_prod_iff in Hc. destruct Hc as [Lp Lq].
      apply (union_connected hex_g (fun n => district (o_assign (s_obj (hex_of b))) n = Some p) (fun n => district (o_assign (s_obj (hex_of b))) n = Some q) u v); auto; apply Vb; assumption.
    - intros n [X|X]; exact (Dom n _ X).
  Qed.
  Lemma hex_district b n : n < 6 -> district (o_assign (s_obj (hex_of b))) n = dget (if b then hex_1 else hex_2) n.
  Proof. intro Hn. destruct b; do 6 (destruct n as [|n]; [vm_compute; reflexivity|]); lia. Qed.
  Lemma hex_distinct b b' : same_districts (g_nodes hex_g) (o_assign (s_obj (hex_of b))) (o_assign (s_obj (hex_of b'))) -> b = b'.
  Proof.
    intro H. assert (X := H 0 1 ltac:(cbn; auto) ltac:(cbn; auto)). rewrite !hex_district in X by lia. destruct b, b'; auto; exfalso; vm_compute in X; destruct X as [X1 X2]; [specialize (X1 eq_refl)|specialize (X2 eq_refl)]; discriminate.
  Qed.
  (** Every valid plan is one of the two. *)
  Lemma hex_complete h a o : session hex h -> nth_error h a = Some o -> valid hex hex_pop 2 0 3 (o_assign o) ->
    exists b, In b [true; false] /\ same_districts (g_nodes hex_g) (o_assign (s_obj (hex_of b))) (o_assign o).
  Proof.
    intros S Ho [Len Val]. set (A := o_assign o) in *. pose proof (session_coherent hex h a o S Ho) as C. fold A in C.
    assert (Pair : forall n, n < 6 -> exists u v, In (u, v) (g_edges hex_g) /\ (n = u \/ n = v) /\ forall m, district A m = district A n <-> m = u \/ m = v).
    { intros n Hn. assert (X : In n (g_nodes hex_g)) by (cbn; lia). apply (coh_dom _ _ C) in X. apply dget_key in X. destruct X as (z & Hz). change (district A n = Some z) in Hz.
      assert (Lz : In z (labels A)) by exact (label_of hex h a o S Ho n z Hz). destruct (Val z Lz) as (_ & Con & Bal).
      destruct (hex_pair A z C Bal Con) as (u & v & Euv & Hd). exists u, v. split; [exact Euv|]. rewrite Hz. split; [now apply Hd|exact Hd]. }
    assert (In6 : forall n, In n (g_nodes hex_g) -> n < 6) by (intros n Hn; cbn in Hn; lia).
    destruct (Pair 0 ltac:(lia)) as (u0 & v0 & E0 & H0 & D0), (Pair 2 ltac:(lia)) as (u2 & v2 & E2 & H2 & D2), (Pair 4 ltac:(lia)) as (u4 & v4 & E4 & H4 & D4).
    cbn in E0, E2, E4.
    pose proof (D0 1) as X01. pose proof (D0 2) as X02. pose proof (D0 3) as X03. pose proof (D0 4) as X04. pose proof (D0 5) as X05.
    pose proof (D2 0) as X20. pose proof (D2 1) as X21. pose proof (D2 3) as X23. pose proof (D2 4) as X24. pose proof (D2 5) as X25.
    pose proof (D4 0) as X40. pose proof (D4 1) as X41. pose proof (D4 2) as X42. pose proof (D4 3) as X43. pose proof (D4 5) as X45. clear D0 D2 D4 Pair.
    set (a0 := district A 0) in *; set (a1 := district A 1) in *; set (a2 := district A 2) in *; set (a3 := district A 3) in *; set (a4 := district A 4) in *; set (a5 := district A 5) in *.
    assert (Case : (a0 = a1 /\ a2 = a3 /\ a4 = a5 /\ a0 <> a2 /\ a2 <> a4 /\ a4 <> a0) \/ (a0 = a5 /\ a1 = a2 /\ a3 = a4 /\ a0 <> a2 /\ a2 <> a4 /\ a4 <> a0)).
    { clearbody a0 a1 a2 a3 a4 a5. clear - E0 H0 E2 H2 E4 H4 X01 X02 X03 X04 X05 X20 X21 X23 X24 X25 X40 X41 X42 X43 X45.
      repeat destruct E0 as [E0|E0]; try contradiction; injection E0 as <- <-; try (exfalso; lia);
      repeat destruct E2 as [E2|E2]; try contradiction; injection E2 as <- <-; try (exfalso; lia);
      repeat destruct E4 as [E4|E4]; try contradiction; injection E4 as <- <-; try (exfalso; lia); 
      repeat match goal with
      | Hx : ?a = ?b <-> ?R |- _ => let G := fresh in first [assert (G : a = b) by (apply Hx; lia) | assert (G : a <> b) by (rewrite Hx; lia)]; clear Hx
      end;
      first [exfalso; congruence|left; repeat split; congruence|right; repeat split; congruence]. }
    destruct Case as [(C1 & C2 & C3 & C4 & C5 & C6)|(C1 & C2 & C3 & C4 & C5 & C6)]; [exists true|exists false]; (split; [cbn; auto|]); intros n m Hn Hm; apply In6 in Hn, Hm; rewrite !hex_district by assumption;
      (do 6 (destruct n as [|n]; [do 6 (destruct m as [|m]; [cbn [dget hex_1 hex_2 eqb EqB_nat Nat.eqb]; fold a0 a1 a2 a3 a4 a5; split; intro; congruence|]); lia|]); lia).
  Qed.
  Lemma hex_weight b : tree_product hex (o_assign (s_obj (hex_of b))) 1.
  Proof.
    pose proof (hex_valid b) as [_ Vb]. set (A := o_assign (s_obj (hex_of b))) in *.
    assert (Lb : labels A = [1; 2; 3] \/ labels A = [1; 3; 2]) by (unfold A; destruct b; vm_compute; auto).
    assert (Coh : coherent (g_nodes hex_g) A) by (unfold A; destruct b; [exact (session_coherent hex _ _ _ hex_s1 hex_o1)|exact (session_coherent hex _ _ _ hex_s2 hex_o2)]).
    assert (Dom : forall n z, district A n = Some z -> In n (g_nodes hex_g)) by (intros n z X; apply (coh_dom _ _ Coh); eapply dget_Some_key; exact X).
    assert (L123 : forall z, In z (labels A) <-> In z [1; 2; 3]) by (intro z; destruct Lb as [-> | ->]; cbn; tauto).
    exists (fun _ => 1), [1; 2; 3]. split; [nodup|]. split; [|split; [|reflexivity]].
    - intro z. rewrite <- L123. split; [intro Hz; apply (Vb z Hz)|]. intros (n & Hn). assert (Hd := Dom n z Hn). assert (n < 6) by (cbn in Hd; lia). apply L123. unfold A in Hn. rewrite hex_district in Hn by assumption. destruct b; do 6 (destruct n as [|n]; [cbn in Hn; injection Hn as <-; cbn; tauto|]); lia.
    - intros z s Hz Hs. apply L123 in Hz. destruct (Vb z Hz) as (Ex & Con & _).
      assert (Pc : exists u v, (forall n, district A n = Some z <-> n = u \/ n = v) /\ List.length (g_nodes (subgraph hex_g [u; v])) = 2 /\ List.length (g_edges (subgraph hex_g [u; v])) = 1).
      { destruct (hex_pair A z Coh) as (u & v & Euv & Hd); [apply Vb, Hz|exact Con|]. exists u, v. split; [exact Hd|]. cbn in Euv. repeat destruct Euv as [Euv|Euv]; try contradiction; injection Euv as <- <-; vm_compute; auto. }
      destruct Pc as (u & v & Hd & S1 & S2). assert (Es : subgraph hex_g s = subgraph hex_g [u; v]) by (apply subgraph_ext; intro n; rewrite Hs, Hd; cbn; intuition congruence).
      change (e_graph hex) with hex_g. rewrite Es. exists [g_edges (subgraph hex_g [u; v])]. destruct (only_tree (subgraph hex_g [u; v])) as [O1 O2]; [apply wf_subgraph, hex_wfg| |lia|auto].
      apply (connected_part hex_g (fun n => district A n = Some z)); auto; [exact hex_wfg|intros n Hn; exact (Dom n z Hn)|]. intro n. rewrite Hd. cbn. intuition congruence.
  Qed.
  Lemma hex_apart b : ~ resplit hex (o_assign (s_obj (hex_of b))) (o_assign (s_obj (hex_of (negb b)))).
  Proof.
    intros (p & q & p' & q' & Npq & Npq' & Lp' & Lq' & (u & v & Ad & Du & Dv) & Un & _).
    assert (In3 : forall z, In z (labels (o_assign (s_obj (hex_of b)))) -> In z [1; 2; 3]) by (destruct b; vm_compute; tauto).
    assert (In3' : forall z, In z (labels (o_assign (s_obj (hex_of (negb b))))) -> In z [1; 2; 3]) by (destruct b; vm_compute; tauto).
    apply In3' in Lp', Lq'.
    assert (Lu : forall n z, district (o_assign (s_obj (hex_of b))) n = Some z -> In z [1; 2; 3]).
    { intros n z H. apply In3. destruct b; [exact (label_of hex _ _ _ hex_s1 hex_o1 n z H)|exact (label_of hex _ _ _ hex_s2 hex_o2 n z H)]. }
    apply Lu in Du, Dv. clear Lu In3 In3' Ad u v.
    pose proof (Un 0) as U0. pose proof (Un 1) as U1. pose proof (Un 2) as U2. pose proof (Un 3) as U3. pose proof (Un 4) as U4. pose proof (Un 5) as U5. clear Un. rewrite !hex_district in * by lia.
    assert (Sm : forall a c : nat, Some a = Some c <-> a = c) by (intros; split; congruence).
    destruct b; cbn [negb dget hex_1 hex_2 eqb EqB_nat Nat.eqb] in *; rewrite !Sm in *; clear Sm;
      destruct Du as [<-|[<-|[<-|[]]]], Dv as [<-|[<-|[<-|[]]]]; try (exfalso; apply Npq; reflexivity);
      destruct Lp' as [<-|[<-|[<-|[]]]], Lq' as [<-|[<-|[<-|[]]]]; try (exfalso; apply Npq'; reflexivity); clear Npq Npq';
      first [clear - U0; lia|clear - U1; lia|clear - U2; lia|clear - U3; lia|clear - U4; lia|clear - U5; lia].
  Qed.
  (** C123.  Reachability is needed: on the 6-cycle with three districts a chain
      that starts in one plan never gets to the other, whose share is 1/2. *)
  Theorem C123_refuted : exists (E : env nat nat Z nat) pop t e bound k (states : list bool) (at_ : bool -> start) (weight : bool -> nat) K,
    covers pop (e_graph E) /\ NoDup states /\ k <> 0 /\ 0 < bound /\
    (forall x, In x states -> ready E pop find_cuts_memoization t e bound k (at_ x)) /\
    (forall x y, In x states -> In y states -> same_districts (g_nodes (e_graph E)) (o_assign (s_obj (at_ x))) (o_assign (s_obj (at_ y))) -> x = y) /\
    (forall h a o, session E h -> nth_error h a = Some o -> valid E pop t e k (o_assign o) -> exists x, In x states /\ same_districts (g_nodes (e_graph E)) (o_assign (s_obj (at_ x))) (o_assign o)) /\
    (forall x y, In x states -> In y states -> law E pop find_cuts_memoization t e bound k (at_ x) (fun D => same_districts (g_nodes (e_graph E)) D (o_assign (s_obj (at_ y)))) (K x y)) /\
    (forall x, In x states -> tree_product E (o_assign (s_obj (at_ x))) (weight x)) /\
    exists x y, In x states /\ In y states /\ (share states weight y == 1 # 2)%Q /\ forall n, (after states K n (point x) y == 0)%Q.
  Proof.
    assert (Ex : forall b b', exists v, law hex hex_pop find_cuts_memoization 2 0 1 3 (hex_of b) (fun D => same_districts (g_nodes hex_g) D (o_assign (s_obj (hex_of b')))) v).
    { intros b b'. apply (C119_defined hex hex_pop hex_covers find_cuts_memoization 2 0 1 3 (or_introl eq_refl) (hex_of b)); [apply hex_ready|]. intro A. exact (same_dec hex A (o_assign (s_obj (hex_of b')))). }
    destruct (Ex true true) as (v11 & H11), (Ex true false) as (v12 & H12), (Ex false true) as (v21 & H21), (Ex false false) as (v22 & H22).
    set (K := fun b b' : bool => if b then (if b' then v11 else v12) else (if b' then v21 else v22)).
    assert (HK : forall b b', law hex hex_pop find_cuts_memoization 2 0 1 3 (hex_of b) (fun D => same_districts (g_nodes hex_g) D (o_assign (s_obj (hex_of b')))) (K b b')) by (intros [] []; [exact H11|exact H12|exact H21|exact H22]).
    exists hex, hex_pop, 2%Q, 0%Q, 1, 3, [true; false], hex_of, (fun _ => 1), K.
    split; [exact hex_covers|]. split; [nodup|]. split; [discriminate|]. split; [lia|]. split; [intros x _; apply hex_ready|]. split; [intros x y _ _; apply hex_distinct|].
    split; [exact hex_complete|]. split; [intros x y _ _; apply HK|]. split; [intros x _; apply hex_weight|]. exists true, false. split; [now left|]. split; [right; now left|]. split; [reflexivity|].
    intro n. apply (C123_unreachable hex hex_pop hex_covers find_cuts_memoization 2 0 1 3 (or_introl eq_refl) [true; false] hex_of ltac:(nodup) (fun b _ => hex_ready b) (fun b b' _ _ => hex_distinct b b') hex_complete K
      (fun b b' _ _ => HK b b') ltac:(discriminate)); [now left|right; now left|].
    intro R. assert (X : forall y, reach (moves hex [true; false] hex_of) true y -> y = true); [|discriminate (X false R)].
    clear. intros y R. induction R as [|y z R IH (_ & _ & Sp)]; [reflexivity|]. subst y. destruct z; [reflexivity|]. destruct (hex_apart true Sp).
  Qed.
End Hexagon.

Print Assumptions C123_shares.
Print Assumptions C123_rate.
Print Assumptions C123_limit.
Print Assumptions C123_two.
Print Assumptions C123_unreachable.
Print Assumptions C123_refuted.
