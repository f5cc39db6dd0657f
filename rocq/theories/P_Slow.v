(** C127: what a chain of slow_reversible_propose samples. *)
From Coq Require Import String List Bool Arith ZArith QArith Qabs Lqa Lia ZifyBool ZifyNat Permutation.
From Verif Require Import Base M_Graph M_Partition S_Partition L_Partition M_Machine S_Machine
  L_Cuts L_Machine L_Answers P_Partition P_Machine M_Constraints M_Chain P_Chain M_Diversity L_Order M_Proposals S_Proposals P_Proposals
  L_Locality M_Recursive S_Contiguity P_Uniform P_FlipLaw P_ChainLaw.
From Verif Require Import P_DetailedBalance P_Stationary L_Converge L_Average P_LongRun P_Histogram P_AnyNode.
Import ListNotations.
Local Open Scope nat_scope.
Local Open Scope list_scope.

(** ** Sums over draws *)
Lemma filter_words {X} (f : list nat -> bool) (l : list X) (w : X -> nat) (W : list (list nat)) :
  List.length (filter f (flat_map (fun d => map (cons (w d)) W) l)) = list_sum (map (fun d => List.length (filter (fun r => f (w d :: r)) W)) l).
Proof.
  induction l as [|d l IH]; [reflexivity|]. cbn [flat_map map list_sum fold_right]. rewrite filter_app, app_length, IH. f_equal.
  clear. induction W as [|r W IH]; [reflexivity|]. cbn [map filter]. destruct (f (w d :: r)); cbn [List.length]; now rewrite IH.
Qed.
Lemma sum_cycle {X} (G : X -> nat) (l : list X) (e : nat) t : l <> [] -> 
  list_sum (map (fun d => match choice d l with Ok m => G m | _ => e end) (seq 0 (t * List.length l))) = t * list_sum (map G l).
Proof.
  intro Hl. assert (L0 : List.length l <> 0) by (destruct l; [contradiction|discriminate]).
  induction t as [|t IH]; [reflexivity|]. replace (S t * List.length l) with (t * List.length l + List.length l) by lia. rewrite seq_app, map_app, list_sum_app, IH.
  assert (E : map (fun d => match choice d l with Ok m => G m | _ => e end) (seq (0 + t * List.length l) (List.length l)) = map G l); [|rewrite E; lia].
  rewrite <- (Nat.add_0_r (0 + t * List.length l)), <- (map_id (seq _ _)). cbn [Nat.add].
  assert (E : seq (t * List.length l + 0) (List.length l) = map (fun i => t * List.length l + i) (seq 0 (List.length l))).
  { generalize 0 at 1 2. generalize (List.length l) at 2 4. induction n as [|n IHn]; intro s; [reflexivity|]. cbn [seq map]. f_equal. rewrite <- IHn. f_equal. lia. }
  rewrite E, !map_map. clear E IH.
  assert (E : forall i, In i (seq 0 (List.length l)) -> match choice (t * List.length l + i) l with Ok m => G m | _ => e end = match nth_error l i with Some m => G m | None => e end).
  { intros i Hi. apply in_seq in Hi. unfold choice. rewrite Nat.add_comm, Nat.mod_add, Nat.mod_small by lia. now destruct (nth_error l i). }
  rewrite (map_ext_in _ _ _ E). clear. induction l as [|m l IH]; [reflexivity|]. cbn [List.length seq map nth_error]. f_equal. rewrite <- IH, <- seq_shift, map_map. reflexivity.
Qed.

Section Slow.
  Context {N P V L : Type} {EN : EqB N} {EP : EqB P} {EL : EqB L} {ON : Ord N} {RV : CRing V}.
  Variable E : env N P V L.
  Notation g := (e_graph E).
  Notation nodes := (g_nodes g).
  Variable labs : list P.
  Notation plan := (plan (N := N) (P := P)).
  Notation objects := (objects (N := N) (P := P) (V := V) (L := L)).

  (** ** Specification *)

  (** A move of one node into the district of a neighbour. *)
  Definition edge_move (x : plan) (nq : N * P) : Prop :=
    exists m, adj g (fst nq) m /\ In (m, Some (snd nq)) x /\ ~ In (fst nq, Some (snd nq)) x.
  (** One number per call; a call uses it to choose among its moves. *)
  Definition slow (a : nat) (w : objects) : res nat * objects :=
    match snd w with [] => (NoFuel, w) | d :: r => let '(b, h) := slow_reversible_propose E d a (fst w) in (b, (h, r)) end.
  (** Constraints whose verdict depends on the plan alone and whose effect does
      not depend on the draws to come; likewise the user's loop body. *)
  Variable cs : list (constraint nat objects).
  Variable passes : constraint nat objects -> plan -> bool.
  Definition steady : Prop := forall c a h x, In c cs -> is_plan E labs h a x ->
    exists h', keeps E h h' /\ forall ds, c a (h, ds) = (Ok (PBool (passes c x)), (h', ds)).
  Notation allowed := (allowed cs passes).
  Variable body : nat -> objects -> objects.
  Definition calm : Prop := forall a h, session E h -> exists h', keeps E h h' /\ forall ds, body a (h, ds) = (h', ds).
  (** With the draws [ds] below [D] a loop over the chain yields [k] plans, and
      they are as [A] says. *)
  Definition slow_shows (D : nat) (A : list plan -> Prop) (ch : chain nat objects) (h : heap N P V L) (k n : nat) (ds : list nat) : Prop :=
    List.length ds = n /\ Forall (fun d => d < D) ds /\
    exists ys en ch' w', for_loop slow always erase_link k (S n) body ch (h, ds) = (ys, en, ch', w') /\ List.length ys = k /\ A (map (read E) ys).
  Definition most_slow (D : nat) (A : list plan -> Prop) (ch : chain nat objects) (h : heap N P V L) (k : nat) (p : Q) : Prop :=
    forall eps, (0 < eps)%Q -> exists n0, forall n, n0 <= n -> exists c, numbers (slow_shows D A ch h k n) c /\ (p - eps <= Qn c / Qn (D ^ n))%Q.
  (** The moves the constraints allow. *)
  Definition slow_options (x : plan) (nq : N * P) : Prop := edge_move x nq /\ allowed (place (fst nq) (snd nq) x) = true.
  (** Allowed plans, closed under and connected by allowed moves. *)
  Definition slow_component (plans : list plan) : Prop := NoDup plans /\ (forall x, In x plans -> complete E labs x /\ allowed x = true) /\
    (forall x nq, In x plans -> slow_options x nq -> In (place (fst nq) (snd nq) x) plans) /\
    (forall x y, In x plans -> In y plans -> reach (fun a b => In a plans /\ exists nq, slow_options a nq /\ b = place (fst nq) (snd nq) a) x y).
  (** Every allowed move is undone by a move. *)
  Definition undoable (plans : list plan) : Prop := forall x nq, In x plans -> slow_options x nq ->
    exists nq', edge_move (place (fst nq) (snd nq) x) nq' /\ place (fst nq') (snd nq') (place (fst nq) (snd nq) x) = x.
  (** [D] is a common multiple of the numbers of moves, so that a number below
      [D] makes a uniform choice at every plan. *)
  Definition fair (plans : list plan) (D : nat) : Prop := 0 < D /\ forall x, In x plans -> exists c t, numbers (edge_move x) c /\ D = t * c.

  (** ** Moves of a plan *)
  Hypothesis WG : wf_graph g.
  Definition edge_moveb (x : plan) (nq : N * P) : bool :=
    existsb (fun m => (mem (fst nq, m) (g_edges g) || mem (m, fst nq) (g_edges g)) && mem (m, Some (snd nq)) x) nodes && negb (mem (fst nq, Some (snd nq)) x).
  Definition moves_of (x : plan) : list (N * P) := filter (edge_moveb x) (list_prod nodes labs).
  Lemma edge_moveb_iff x nq : edge_moveb x nq = true <-> edge_move x nq.
  Proof.
    unfold edge_moveb, edge_move. rewrite andb_true_iff, existsb_exists, negb_true_iff. split.
    - intros ((m & _ & Hm) & Hn). apply andb_true_iff in Hm. destruct Hm as [Ha Hq]. exists m. apply orb_true_iff in Ha. rewrite !mem_In in Ha. split; [exact Ha|]. split; [now apply mem_In|]. intro X. apply mem_In in X. congruence.
    - intros (m & Ha & Hq & Hn). split; [exists m; split|].
      + destruct Ha as [Ha|Ha]; apply (wfg_ends _ WG) in Ha; tauto.
      + apply andb_true_iff. split; [apply orb_true_iff; now rewrite !mem_In|now apply mem_In].
      + destruct (mem (fst nq, Some (snd nq)) x) eqn:Em; [|reflexivity]. apply mem_In in Em. contradiction.
  Qed.
  Lemma edge_move_labs x nq : complete E labs x -> edge_move x nq -> In (fst nq) nodes /\ In (snd nq) labs.
  Proof.
    intros [_ C] (m & Ha & Hm & _). split; [destruct Ha as [Ha|Ha]; apply (wfg_ends _ WG) in Ha; tauto|]. destruct (C m _ Hm) as (q & [= ->] & Hq). exact Hq.
  Qed.
  Lemma moves_of_iff x nq : complete E labs x -> In nq (moves_of x) <-> edge_move x nq.
  Proof.
    intro C. unfold moves_of. rewrite filter_In, edge_moveb_iff. split; [tauto|]. intro Hm. split; [|exact Hm]. destruct nq as [n q]. apply in_prod_iff. now apply (edge_move_labs x (n, q)).
  Qed.
  Lemma edge_move_differs x nq : complete E labs x -> edge_move x nq -> place (fst nq) (snd nq) x <> x.
  Proof.
    intros C Hm X. pose proof (edge_move_labs x nq C Hm) as [Hn _]. destruct Hm as (m & _ & _ & Hi). apply Hi. rewrite <- (proj1 C) in Hn. apply in_map_iff in Hn. destruct Hn as ([n v] & En & Hn). cbn in En. subst n.
    rewrite <- X. unfold place. apply in_map_iff. exists (fst nq, v). cbn [fst]. rewrite eqb_refl. auto.
  Qed.
  Lemma moves_plan h a x : dget (e_updaters E) "cut_edges"%string = Some UCutEdges -> is_plan E labs h a x ->
    exists mv, NoDup mv /\ (forall nq, In nq mv <-> edge_move x nq) /\
      forall d n q, choice d mv = Ok (n, q) -> exists b h', slow_reversible_propose E d a h = (Ok b, h') /\ keeps E h h' /\ is_plan E labs h' b (place n q x).
  Proof.
    intros Hu (S & o & Ho & Ll & Hx). pose proof (session_coherent E h a o S Ho) as C. destruct (cuts_ok E h a o S Ho Hu) as (s & h1 & Hc & NDs & Sp & S1 & K1).
    destruct (reversible_spec E h a o S Ho s Sp) as (mv & Hm & NDm & Im). exists mv. split; [exact NDm|].
    assert (In_plan : forall m q, In (m, Some q) x <-> In m nodes /\ district (o_assign o) m = Some q).
    { intros m q. rewrite <- Hx. unfold plan_of. rewrite in_map_iff. split; [intros (m' & [= -> Hd] & Hi); auto|intros [Hi Hd]; exists m; rewrite Hd; auto]. }
    assert (BM : forall n q, boundary_move g (o_assign o) n q <-> edge_move x (n, q)).
    { intros n q. unfold boundary_move, edge_move. cbn [fst snd]. split; intros (m & Ha & Hq & Hn); exists m; (split; [exact Ha|]); assert (Hnm : In n nodes /\ In m nodes) by (destruct Ha as [Ha|Ha]; apply (wfg_ends _ WG) in Ha; tauto).
      - split; [apply In_plan; tauto|]. rewrite In_plan. tauto.
      - rewrite In_plan in Hq, Hn. tauto. }
    split; [intros [n q]; rewrite Im; apply BM|]. intros d n q Hd.
    pose proof (proj1 (Im n q) (choice_In d mv _ Hd)) as Bm. assert (Ln : In n nodes /\ In q labs).
    { destruct Bm as (m & Ha & Hq & _). split; [destruct Ha as [Ha|Ha]; apply (wfg_ends _ WG) in Ha; tauto|]. rewrite <- Ll. eapply district_node; [exact C|exact Hq]. }
    unfold slow_reversible_propose. rewrite (get_bind h a o) by exact Ho. rewrite (bindM_ok _ _ _ _ _ Hc), Hm, lift_bind, Hd, lift_bind.
    destruct (K1 a o Ho) as (o1 & H1 & E1 & _).
    destruct (flip_ok E h1 a o1 [(n, q)] S1 H1) as (o' & F1 & F2 & F3 & F4 & F5 & F6 & F7).
    { repeat constructor. intros []. }
    { intros m p Hp. cbn [dget] in Hp. destruct (eqb_spec m n) as [->|]; [|discriminate]. injection Hp as <-. rewrite E1, Ll. exact Ln. }
    exists (List.length h1), (h1 ++ [o']). split; [exact F1|]. split.
    - split; [exact F6|]. intros b o2 Hb. destruct (K1 b o2 Hb) as (o3 & H3 & E3 & _). exists o3. split; [|exact E3]. rewrite nth_error_app1; [exact H3|]. apply nth_error_Some. congruence.
    - split; [exact F6|]. exists o'. split; [exact F7|]. split; [rewrite <- Ll, <- E1; eapply flip_labels; [|exact F4]; repeat constructor; intros []|].
      rewrite <- Hx. unfold plan_of, place. rewrite map_map. apply map_ext. intro m. cbn [fst]. rewrite F5, E1. cbn [dget]. destruct (eqb_spec m n) as [->|]; reflexivity.
  Qed.

  (** ** The chain on plans *)
  Variable plans : list plan.
  Definition proposes_of (x : plan) (d : nat) : plan := match choice d (moves_of x) with Ok nq => place (fst nq) (snd nq) x | _ => x end.
  Definition belongs : constraint plan (@P_ChainLaw.world plan) := fun y w => (Ok (PBool (mem y plans)), w).
  Definition belongsp (c : constraint plan (@P_ChainLaw.world plan)) (y : plan) : bool := mem y plans.
  Lemma belongs_pure : P_ChainLaw.pure [belongs] belongsp.
  Proof. intros c y w [<-|[]]. reflexivity. Qed.
  Notation valid := (P_ChainLaw.valid [belongs] belongsp).
  Lemma valid_mem y : valid y = mem y plans.
  Proof. unfold P_ChainLaw.valid. cbn [forallb]. apply andb_true_r. Qed.
  Notation trailb := (trailb proposes_of yes [belongs] belongsp).
  Notation cntp D := (cntp proposes_of yes D [belongs] belongsp).

  (** ** A run as a function of the draws *)
  Fixpoint crun (k : nat) (a : nat) (h : heap N P V L) (x : plan) (A : list plan -> bool) (ds : list nat) : bool :=
    match k with
    | 0 => A [x]
    | S k' =>
      match ds with
      | [] => false
      | d :: r =>
        match slow_reversible_propose E d a h with
        | (Ok b, h1) =>
          match validator (Reusable cs) b (erase a h1, r) with
          | (Ok true, (h2, _), _) => let h3 := fst (body b (h2, r)) in
              crun k' b h3 (read E (b, (h3, r))) (fun l => A (x :: l)) r
          | (Ok false, (h2, _), _) => crun k a h2 x A r
          | _ => false
          end
        | _ => false
        end
      end
    end.
  Lemma steady_loop l : steady -> incl l cs -> forall a h x, is_plan E labs h a x ->
    exists h', keeps E h h' /\ forall ds, exists r, validate_loop l a (h, ds) = (Ok (forallb (fun c => passes c x) l), (h', ds), r).
  Proof.
    intro J. induction l as [|c l IH]; intros I a h x Hp; cbn [validate_loop forallb].
    - exists h. split; [split; [apply Hp|eauto]|eauto].
    - destruct (J c a h x (I c (or_introl eq_refl)) Hp) as (h' & Kp & Ec). destruct (passes c x) eqn:Pc.
      + destruct (IH (fun y Hy => I y (or_intror Hy)) a h' x (plan_keeps E labs h h' a x Hp Kp)) as (h'' & Kp' & El). exists h''. split; [now apply keeps_trans with h'|]. intro ds. rewrite Ec. unfold verdict. cbn [coerce andb]. apply El.
      + exists h'. split; [exact Kp|]. intro ds. rewrite Ec. unfold verdict. cbn [coerce andb]. eauto.
  Qed.
  Lemma steady_all a h x : steady -> is_plan E labs h a x -> exists h', keeps E h h' /\ forall ds, validator (Reusable cs) a (h, ds) = (Ok (allowed x), (h', ds), Reusable cs).
  Proof.
    intros J Hp. destruct (steady_loop cs J (incl_refl cs) a h x Hp) as (h' & Kp & El). exists h'. split; [exact Kp|]. intro ds. destruct (El ds) as (r & Er). unfold validator, P_AnyNode.allowed. rewrite Er. reflexivity.
  Qed.
  Lemma read_plan h b z r : is_plan E labs h b z -> read E (b, (h, r)) = z.
  Proof. intros (_ & o & Ho & _ & Hz). unfold read. cbn [fst snd]. now rewrite Ho. Qed.

  Hypothesis Hu : dget (e_updaters E) "cut_edges"%string = Some UCutEdges.
  Hypothesis J : steady.
  Hypothesis Hb : calm.
  Hypothesis Co : slow_component plans.
  Variable D : nat.
  Hypothesis Fa : fair plans D.

  Lemma allowed_mem x nq : In x plans -> edge_move x nq -> allowed (place (fst nq) (snd nq) x) = mem (place (fst nq) (snd nq) x) plans.
  Proof.
    intros Hx Hm. destruct Co as (_ & H1 & H2 & _). destruct (allowed _) eqn:Al; symmetry.
    - apply mem_In. apply H2; [exact Hx|]. split; assumption.
    - destruct (mem _ _) eqn:Em; [|reflexivity]. apply mem_In in Em. apply H1 in Em. destruct Em. congruence.
  Qed.
  (** One draw. *)
  Lemma one_draw h a x : is_plan E labs h a x -> In x plans ->
    exists mv, NoDup mv /\ (forall nq, In nq mv <-> edge_move x nq) /\ mv <> [] /\
      forall d, exists nq, choice d mv = Ok nq /\
        exists b h1 h2, slow_reversible_propose E d a h = (Ok b, h1) /\
          (forall r, validator (Reusable cs) b (erase a h1, r) = (Ok (mem (place (fst nq) (snd nq) x) plans), (h2, r), Reusable cs)) /\
          keeps E h h2 /\ is_plan E labs h2 b (place (fst nq) (snd nq) x).
  Proof.
    intros Hp Hx. destruct (moves_plan h a x Hu Hp) as (mv & NDm & Im & F). exists mv. split; [exact NDm|]. split; [exact Im|].
    assert (Hne : mv <> []).
    { intro E0. destruct Fa as [D0 F0]. destruct (F0 x Hx) as (c & t & (l & Nl & Il & Ll) & Dt). destruct l as [|m l]; [cbn in Ll; lia|]. specialize (proj1 (Il m) (or_introl eq_refl)) as Hm. apply Im in Hm. rewrite E0 in Hm. destruct Hm. }
    split; [exact Hne|]. intro d. destruct (choice_ok d mv Hne) as ([n q] & Hd & Hi). exists (n, q). split; [exact Hd|]. destruct (F d n q Hd) as (b & h1 & Hs & K1 & P1). cbn [fst snd].
    assert (K2 := erase_keeps E h1 a (proj1 K1)). destruct (steady_all b (erase a h1) _ J (plan_keeps E labs _ _ _ _ P1 K2)) as (h2 & K3 & Ev). exists b, h1, h2. split; [exact Hs|]. split.
    - intro r. rewrite Ev. pose proof (allowed_mem x (n, q) Hx (proj1 (Im (n, q)) Hi)) as Am. cbn [fst snd] in Am. now rewrite Am.
    - split; [apply keeps_trans with h1; [exact K1|now apply keeps_trans with (erase a h1)]|]. now apply plan_keeps with (erase a h1); [apply plan_keeps with h1|].
  Qed.
  Lemma moves_perm x mv : In x plans -> NoDup mv -> (forall nq, In nq mv <-> edge_move x nq) -> NoDup labs -> Permutation mv (moves_of x).
  Proof.
    intros Hx NDm Im NL. destruct Co as (_ & H1 & _). apply NoDup_Permutation; [exact NDm|apply NoDup_filter, NoDup_prod; [apply WG|exact NL]|]. intro nq. rewrite Im. symmetry. apply moves_of_iff. now apply H1.
  Qed.
  Hypothesis NL : NoDup labs.
  Lemma moves_length x : In x plans -> exists t, D = t * List.length (moves_of x) /\ moves_of x <> [] /\ 0 < t.
  Proof.
    intro Hx. destruct Fa as [D0 F0]. destruct (F0 x Hx) as (c & t & (l & Nl & Il & Ll) & Dt). pose proof (Permutation_length (moves_perm x l Hx Nl Il NL)) as Pl. exists t. rewrite <- Pl, Ll. split; [exact Dt|]. split; [|destruct t; lia].
    intro E0. rewrite E0 in Pl. cbn in Pl. rewrite Pl in Ll. subst c. lia.
  Qed.
  Lemma trailb_S k x A d r : trailb (S k) x A (d :: r) =
    if mem (proposes_of x d) plans then trailb k (proposes_of x d) (fun l => A (x :: l)) r else trailb (S k) x A r.
  Proof.
    unfold P_Histogram.trailb. cbn [trail P_LongRun.cut]. unfold P_ChainLaw.outcome. rewrite valid_mem. destruct (mem (proposes_of x d) plans); [|reflexivity]. unfold yes. destruct (trail _ _ _ _ k (proposes_of x d) r); reflexivity.
  Qed.
  Lemma crun_count n : forall k a h x A, is_plan E labs h a x -> In x plans -> List.length (filter (crun k a h x A) (words D n)) = cntp D k x A n.
  Proof.
    induction n as [|n IH]; intros k a h x A Hp Hx.
    - unfold P_Histogram.cntp. cbn [words]. destruct k; reflexivity.
    - destruct k as [|k].
      + unfold P_Histogram.cntp. f_equal. apply filter_ext. intro ds. destruct ds; reflexivity.
      + unfold P_Histogram.cntp. cbn [words]. rewrite !(filter_words _ (seq 0 D) (fun d => d)).
        destruct (one_draw h a x Hp Hx) as (mv & NDm & Im & Hne & F). destruct (moves_length x Hx) as (t & Dt & Hne' & _). pose proof (moves_perm x mv Hx NDm Im NL) as Pm.
        set (G := fun nq => if mem (place (fst nq) (snd nq) x) plans then cntp D k (place (fst nq) (snd nq) x) (fun l => A (x :: l)) n else cntp D (S k) x A n).
        assert (E1 : forall d, List.length (filter (fun r => crun (S k) a h x A (d :: r)) (words D n)) = match choice d mv with Ok m => G m | _ => 0 end).
        { intro d. destruct (F d) as (nq & Hd & b & h1 & h2 & Hs & Hv & K2 & P2). rewrite Hd. unfold G. destruct (mem (place (fst nq) (snd nq) x) plans) eqn:Em.
          - destruct (Hb b h2 (proj1 K2)) as (h3 & K3 & Eb). pose proof (plan_keeps E labs _ _ _ _ P2 K3) as P3.
            rewrite <- (IH k b h3 (place (fst nq) (snd nq) x) (fun l => A (x :: l)) P3 (proj1 (mem_In _ _) Em)). f_equal. apply filter_ext. intro r. cbn [crun]. rewrite Hs, Hv, Eb. cbn [fst]. now rewrite (read_plan h3 b _ r P3).
          - rewrite <- (IH (S k) a h2 x A (plan_keeps E labs _ _ _ _ Hp K2) Hx). f_equal. apply filter_ext. intro r. cbn [crun]. rewrite Hs, Hv. reflexivity. }
        assert (E2 : forall d, List.length (filter (fun r => trailb (S k) x A (d :: r)) (words D n)) = match choice d (moves_of x) with Ok m => G m | _ => 0 end).
        { intro d. destruct (choice_ok d (moves_of x) Hne') as (nq & Hd & _). rewrite Hd. unfold G, P_Histogram.cntp.
          assert (Ep : proposes_of x d = place (fst nq) (snd nq) x) by (unfold proposes_of; now rewrite Hd).
          rewrite (filter_ext (fun r => trailb (S k) x A (d :: r)) (fun r => if mem (place (fst nq) (snd nq) x) plans then trailb k (place (fst nq) (snd nq) x) (fun l => A (x :: l)) r else trailb (S k) x A r)) by (intro r; rewrite trailb_S, Ep; reflexivity).
          now destruct (mem (place (fst nq) (snd nq) x) plans). }
        rewrite (map_ext _ _ E1), (map_ext _ _ E2). rewrite Dt at 2. rewrite (sum_cycle G (moves_of x) 0 t Hne'). rewrite Dt. rewrite <- (Permutation_length Pm). rewrite (sum_cycle G mv 0 t Hne). f_equal. now apply Permutation_list_sum, Permutation_map.
  Qed.
  Lemma advance_run x k ds : In x plans -> forall n h ch, ch_valid ch = Reusable cs -> is_plan E labs h (ch_state ch) x -> (k < ch_total ch)%Z -> List.length ds < n ->
    (exists b h2 r z, advance slow always erase_link n k ch (h, ds) = (Ok b, mkChain (Reusable cs) (ch_total ch) (ch_initial ch) b (Some (k + 1)%Z), (h2, r)) /\
       List.length r < List.length ds /\ In z plans /\ is_plan E labs h2 b z /\
       forall j A h3, body b (h2, r) = (h3, r) -> keeps E h2 h3 -> crun (S j) (ch_state ch) h x A ds = crun j b h3 z (fun l => A (x :: l)) r) \/
    (exists ch' w', advance slow always erase_link n k ch (h, ds) = (NoFuel, ch', w') /\ forall j A, crun (S j) (ch_state ch) h x A ds = false).
  Proof.
    intros Hx. induction ds as [|d ds IH]; intros [|n] h ch Hv Hp Hk Hlen; cbn [List.length] in Hlen; try lia; cbn [advance].
    - right. rewrite (proj2 (Z.ltb_lt _ _) Hk). cbn. eauto.
    - rewrite (proj2 (Z.ltb_lt _ _) Hk). destruct (one_draw h (ch_state ch) x Hp Hx) as (mv & _ & _ & _ & F). destruct (F d) as (nq & _ & b & h1 & h2 & Hs & Hval & K2 & P2). clear F.
      assert (Ea : slow (ch_state ch) (h, d :: ds) = (Ok b, (h1, ds))) by (unfold slow; cbn [fst snd]; now rewrite Hs). rewrite Ea.
      change (erase_link (ch_state ch) (h1, ds)) with (erase (ch_state ch) h1, ds). rewrite Hv, Hval. destruct (mem (place (fst nq) (snd nq) x) plans) eqn:Em.
      + left. unfold always, always_accept. cbn [ret fst snd truthy]. exists b, h2, ds, (place (fst nq) (snd nq) x). split; [reflexivity|]. split; [cbn; lia|]. split; [now apply mem_In|]. split; [exact P2|].
        intros j A h3 Eb K3. cbn [crun]. rewrite Hs, Hval, Eb. cbn [fst]. now rewrite (read_plan h3 b _ ds (plan_keeps E labs _ _ _ _ P2 K3)).
      + destruct (IH n h2 (with_valid ch (Reusable cs)) eq_refl (plan_keeps E labs _ _ _ _ Hp K2) Hk ltac:(lia)) as [(b' & h' & r & z & Ed & Lr & Hz & Pz & Cr)|(ch' & w' & Ed & Cr)].
        * left. exists b', h', r, z. split; [exact Ed|]. split; [cbn; lia|]. split; [exact Hz|]. split; [exact Pz|]. intros j A h3 Eb K3. cbn [crun]. rewrite Hs, Hval. exact (Cr j A h3 Eb K3).
        * right. exists ch', w'. split; [exact Ed|]. intros j A. cbn [crun]. rewrite Hs, Hval. exact (Cr j A).
  Qed.
  Lemma loop_run k : forall n h ch x ds c A, In x plans -> ch_valid ch = Reusable cs -> is_plan E labs h (ch_state ch) x -> ch_counter ch = Some c -> (0 < c)%Z ->
    (c + Z.of_nat k <= ch_total ch)%Z -> List.length ds < n ->
    exists ys en ch' w', loop slow always erase_link k n body ch (h, ds) = (ys, en, ch', w') /\
      ((List.length ys = k /\ crun k (ch_state ch) h x A ds = A (x :: map (read E) ys)) \/ (List.length ys < k /\ crun k (ch_state ch) h x A ds = false)).
  Proof.
    induction k as [|k IH]; intros n h ch x ds c A Hx Hv Hp Hc C0 Ht Hlen.
    - do 4 eexists. split; [reflexivity|]. left. split; [reflexivity|]. destruct ds; reflexivity.
    - cbn [loop]. unfold next. rewrite Hc. replace (c =? 0)%Z with false by lia.
      destruct (advance_run x c ds Hx n h ch Hv Hp ltac:(lia) Hlen) as [(b & h2 & r & z & Ed & Lr & Hz & Pz & Cr)|(ch' & w' & Ed & Cr)]; rewrite Ed.
      + destruct (Hb b h2 (proj1 Pz)) as (h3 & K3 & Eb). rewrite Eb.
        destruct (IH n h3 (mkChain (Reusable cs) (ch_total ch) (ch_initial ch) b (Some (c + 1)%Z)) z r (c + 1)%Z (fun l => A (x :: l)) Hz eq_refl (plan_keeps E labs _ _ _ _ Pz K3) eq_refl ltac:(lia) ltac:(cbn [ch_total]; lia) ltac:(lia)) as (ys & en & ch' & w' & El & Hj).
        rewrite El. do 4 eexists. split; [reflexivity|]. rewrite (Cr k A h3 (Eb r) K3). cbn [ch_state] in Hj. cbn [map List.length].
        assert (Rd : read E (b, (h2, r)) = z) by now apply read_plan.
        destruct Hj as [[H1 H2]|[H1 H2]]; [left; split; [lia|rewrite H2]|right; split; [lia|exact H2]]. change (A (x :: z :: map (read E) ys) = A (x :: read E (b, (h2, r)) :: map (read E) ys)). now rewrite Rd.
      + do 4 eexists. split; [reflexivity|]. right. split; [cbn; lia|apply Cr].
  Qed.
  Lemma slow_iff (A : list plan -> Prop) (Ab : list plan -> bool) h ch k x n : (forall l, A l <-> Ab l = true) -> In x plans ->
    ch_valid ch = Reusable cs -> is_plan E labs h (ch_initial ch) x -> (Z.of_nat k < ch_total ch)%Z ->
    numbers (slow_shows D A ch h (S k) n) (cntp D k x Ab n).
  Proof.
    intros HA Hx Hv Hp Hk. destruct (Hb (ch_initial ch) h (proj1 Hp)) as (h' & Kb & Eb). pose proof (plan_keeps E labs _ _ _ _ Hp Kb) as Hp'.
    rewrite <- (crun_count n k (ch_initial ch) h' x Ab Hp' Hx). apply numbers_words. intro ds.
    assert (G : List.length ds = n -> exists ys en ch' w', for_loop slow always erase_link (S k) (S n) body ch (h, ds) = (ys, en, ch', w') /\
                ((List.length ys = S k /\ crun k (ch_initial ch) h' x Ab ds = Ab (map (read E) ys)) \/ (List.length ys < S k /\ crun k (ch_initial ch) h' x Ab ds = false))).
    { intro Hlen. unfold for_loop. cbn [loop]. unfold next, iter. cbn [ch_counter]. change (0 =? 0)%Z with true. cbn [ch_state ch_valid ch_total ch_initial]. rewrite Hv, Eb.
      destruct (loop_run k (S n) h' (mkChain (Reusable cs) (ch_total ch) (ch_initial ch) (ch_initial ch) (Some 1%Z)) x ds 1%Z Ab Hx eq_refl Hp' eq_refl ltac:(lia) ltac:(cbn [ch_total]; lia) ltac:(lia)) as (ys & en & ch' & w' & El & Hj).
      rewrite El. do 4 eexists. split; [reflexivity|]. cbn [ch_state] in Hj. assert (Rd : read E (ch_initial ch, (h, ds)) = x) by now apply read_plan.
      destruct Hj as [[H1 H2]|[H1 H2]]; [left; split; [cbn; lia|rewrite H2]|right; split; [cbn; lia|exact H2]]. change (Ab (x :: map (read E) ys) = Ab (read E (ch_initial ch, (h, ds)) :: map (read E) ys)). now rewrite Rd. }
    unfold slow_shows. split.
    - intros (Hlen & Hd & ys & en & ch' & w' & El & Hy & Ha). split; auto. destruct (G Hlen) as (ys2 & en2 & ch2 & w2 & E2 & Hg). rewrite El in E2. injection E2 as <- _ _ _. destruct Hg as [[_ Hg]|[Hg _]]; [|lia]. rewrite Hg. now apply HA.
    - intros ((Hlen & Hd) & Cr). split; auto. split; auto. destruct (G Hlen) as (ys2 & en2 & ch2 & w2 & E2 & Hg). exists ys2, en2, ch2, w2. split; auto. destruct Hg as [[Hg1 Hg]|[_ Hg]]; [|congruence]. split; [exact Hg1|]. apply HA. congruence.
  Qed.

  (** ** Balance *)
  Lemma count_draws x (B : plan -> bool) t : moves_of x <> [] -> D = t * List.length (moves_of x) ->
    List.length (filter (fun d => B (proposes_of x d)) (seq 0 D)) = t * List.length (filter (fun nq => B (place (fst nq) (snd nq) x)) (moves_of x)).
  Proof.
    intros Hne Dt. assert (C : forall {Y} (f : Y -> bool) l, List.length (filter f l) = list_sum (map (fun y => if f y then 1 else 0) l)) by (intros Y f l; induction l as [|y l IH]; [reflexivity|]; cbn [filter map list_sum fold_right]; destruct (f y); cbn [List.length]; rewrite IH; reflexivity).
    rewrite !C, Dt. rewrite <- (sum_cycle (fun nq => if B (place (fst nq) (snd nq) x) then 1 else 0) (moves_of x) 0 t Hne). f_equal. apply map_ext. intro d. unfold proposes_of. destruct (choice_ok d (moves_of x) Hne) as (nq & Hd & _). now rewrite Hd.
  Qed.
  Lemma draws_number x y : numbers (P_ChainLaw.move_draws proposes_of yes D x y) (List.length (filter (fun d => eqb (proposes_of x d) y) (seq 0 D))).
  Proof.
    eexists. split; [apply NoDup_filter, seq_NoDup|]. split; [|reflexivity]. intro d. rewrite filter_In, in_seq, eqb_eq. unfold P_ChainLaw.move_draws, yes. split; intros; intuition lia.
  Qed.
  Lemma one_move x nq : In x plans -> In nq (moves_of x) -> List.length (filter (fun m => eqb (place (fst m) (snd m) x) (place (fst nq) (snd nq) x)) (moves_of x)) = 1.
  Proof.
    intros Hx Hi. pose proof Co as (_ & H1 & _). destruct (H1 x Hx) as [C _]. assert (Nm : NoDup (moves_of x)) by (apply NoDup_filter, NoDup_prod; [apply WG|exact NL]).
    eapply numbers_unique; [|apply (numbers_one (fun m => In m (moves_of x) /\ place (fst m) (snd m) x = place (fst nq) (snd nq) x) nq)].
    - eexists. split; [apply NoDup_filter, Nm|]. split; [|reflexivity]. intro m. rewrite filter_In, eqb_eq. reflexivity.
    - auto.
    - intros m [Hm Em]. apply moves_of_iff in Hm; [|exact C]. pose proof (proj1 (moves_of_iff x nq C) Hi) as Hn. destruct m as [n' q'], nq as [n q]. cbn [fst snd] in *. apply (place_unique E labs (wfg_nodes _ WG) x n q n' q'); auto.
      + now apply (edge_move_labs x (n, q)).
      + now apply (edge_move_differs x (n, q)).
  Qed.
  Definition size (x : plan) : Q := Qn (List.length (moves_of x)).
  Lemma slow_balanced : undoable plans -> P_ChainLaw.balanced proposes_of yes D [belongs] belongsp size.
  Proof.
    intros Un x y a b Vx Vy Hxy Ha Hc. rewrite valid_mem in Vx, Vy. apply mem_In in Vx, Vy. pose proof Co as (_ & H1 & _).
    assert (Go : forall x y, In x plans -> In y plans -> x <> y -> (exists nq, In nq (moves_of x) /\ place (fst nq) (snd nq) x = y) -> exists nq, In nq (moves_of y) /\ place (fst nq) (snd nq) y = x).
    { clear - Un Co WG H1. intros x y Hx Hy Hxy (nq & Hi & <-). apply moves_of_iff in Hi; [|now apply H1]. destruct (Un x nq Hx) as (nq' & Hm & Ep); [split; [exact Hi|now apply H1]|]. exists nq'. split; [|exact Ep]. apply moves_of_iff; [now apply H1|exact Hm]. }
    assert (Num : forall x y a, In x plans -> In y plans -> x <> y -> numbers (P_ChainLaw.move_draws proposes_of yes D x y) a ->
              ((exists nq, In nq (moves_of x) /\ place (fst nq) (snd nq) x = y) /\ List.length (moves_of x) * a = D) \/ ((forall nq, In nq (moves_of x) -> place (fst nq) (snd nq) x <> y) /\ a = 0)).
    { clear Vx Vy Hxy Ha Hc x y a b. intros x y a Hx Hy Hxy Ha. destruct (moves_length x Hx) as (t & Dt & Hne & _). assert (Ea := numbers_unique _ _ _ Ha (draws_number x y)). rewrite (count_draws x (fun z => eqb z y) t Hne Dt) in Ea.
      destruct (existsb (fun nq => eqb (place (fst nq) (snd nq) x) y) (moves_of x)) eqn:Ex.
      - left. apply existsb_exists in Ex. destruct Ex as (nq & Hi & Ep). apply (proj1 (eqb_eq _ _)) in Ep. split; [eauto|]. rewrite <- Ep in Ea. rewrite (one_move x nq Hx Hi) in Ea. lia.
      - right. split.
        + intros nq Hi Ep. assert (X : existsb (fun nq => eqb (place (fst nq) (snd nq) x) y) (moves_of x) = true) by (apply existsb_exists; exists nq; split; [exact Hi|now apply (proj2 (eqb_eq _ _))]). congruence.
        + rewrite Ea. replace (filter _ (moves_of x)) with (@nil (N * P)); [cbn; lia|]. symmetry. clear - Ex. induction (moves_of x) as [|m l IH]; [reflexivity|]. cbn [existsb filter] in *. apply orb_false_iff in Ex. destruct Ex as [-> Ex]. now apply IH. }
    unfold size. rewrite <- !Qn_times. destruct (Num x y a Vx Vy Hxy Ha) as [[G1 E1]|[G1 E1]], (Num y x b Vy Vx (not_eq_sym Hxy) Hc) as [[G2 E2]|[G2 E2]].
    - now rewrite E1, E2.
    - destruct (Go x y Vx Vy Hxy G1) as (nq & Hi & Ep). exfalso. exact (G2 nq Hi Ep).
    - destruct (Go y x Vy Vx (not_eq_sym Hxy) G2) as (nq & Hi & Ep). exfalso. exact (G1 nq Hi Ep).
    - rewrite E1, E2, !Nat.mul_0_r. reflexivity.
  Qed.
  Definition good_draws (x : plan) : nat := List.length (filter (fun d => mem (proposes_of x d) plans) (seq 0 D)).
  Lemma good_numbers x : numbers (P_ChainLaw.valid_draws proposes_of D [belongs] belongsp x) (good_draws x).
  Proof.
    eexists. split; [apply NoDup_filter, seq_NoDup|]. split; [|reflexivity]. intro d. rewrite filter_In, in_seq. unfold P_ChainLaw.valid_draws. rewrite valid_mem. intuition lia.
  Qed.
  Lemma good_options x c : In x plans -> numbers (slow_options x) c -> (size x * Qn (good_draws x) == Qn D * Qn c)%Q.
  Proof.
    intros Hx Hc. destruct (moves_length x Hx) as (t & Dt & Hne & _). pose proof Co as (_ & H1 & _). unfold size, good_draws. rewrite (count_draws x (fun z => mem z plans) t Hne Dt).
    replace (List.length (filter (fun nq => mem (place (fst nq) (snd nq) x) plans) (moves_of x))) with c; [rewrite <- !Qn_times; rewrite Dt; replace (List.length (moves_of x) * (t * c)) with (t * List.length (moves_of x) * c) by lia; reflexivity|].
    eapply numbers_unique; [exact Hc|]. exists (filter (fun nq => mem (place (fst nq) (snd nq) x) plans) (moves_of x)). split; [apply NoDup_filter, NoDup_filter, NoDup_prod; [apply WG|exact NL]|]. split; [|reflexivity]. intro nq. rewrite filter_In, moves_of_iff by now apply H1. unfold slow_options.
    split; intros [A B]; (split; [exact A|]); [rewrite (allowed_mem x nq Hx A)|rewrite <- (allowed_mem x nq Hx A)]; exact B.
  Qed.
  Lemma slow_closed w : (forall x, In x plans -> numbers (slow_options x) (w x) /\ 0 < w x) -> closed proposes_of D [belongs] belongsp plans.
  Proof.
    intro Hw. pose proof Co as (Np & _). split; [exact Np|]. split.
    - intros x Hx. split; [rewrite valid_mem; now apply mem_In|]. destruct (Hw x Hx) as [Hn Hp]. pose proof (good_options x (w x) Hx Hn) as Eg.
      destruct (good_numbers x) as (l & Nl & Il & Ll). destruct l as [|d l].
      + exfalso. cbn in Ll. rewrite <- Ll in Eg. change (Qn 0) with 0%Q in Eg. pose proof (pos_Qn _ Hp). pose proof (pos_Qn _ (proj1 Fa)). assert (0 < Qn D * Qn (w x))%Q by now apply Qmult_lt_0_compat. lra.
      + exists d. exact (proj1 (Il d) (or_introl eq_refl)).
    - intros x d _ _ Vd. rewrite valid_mem in Vd. now apply mem_In.
  Qed.
  Lemma slow_connected : connected proposes_of yes D plans.
  Proof.
    intros x y Hx Hy. pose proof Co as (_ & H1 & Hc & Hr). specialize (Hr x y Hx Hy). induction Hr as [|b c R IH (Hb' & nq & Ho & ->)]; [constructor|]. econstructor; [now apply IH|].
    split; [exact Hb'|]. split; [now apply Hc|]. destruct (moves_length b Hb') as (t & Dt & Hne & Ht). destruct Ho as [Hm _]. apply moves_of_iff in Hm; [|now apply H1].
    destruct (choice_below (moves_of b) nq Hm) as (r & Hr' & Er). exists r. split; [apply Nat.lt_le_trans with (List.length (moves_of b)); [exact Hr'|rewrite Dt; destruct t; [inversion Ht|apply Nat.le_add_r]]|]. split; [unfold proposes_of; now rewrite Er|reflexivity].
  Qed.
  Lemma slow_quota w y : (forall x, In x plans -> numbers (slow_options x) (w x) /\ 0 < w x) -> In y plans -> (share plans size good_draws y == quota plans w y)%Q.
  Proof.
    intros Hw Hy. unfold share, quota. assert (E0 : (qsum plans (fun x => size x * Qn (good_draws x)) == Qn D * qsum plans (fun x => Qn (w x)))%Q).
    { rewrite <- qsum_scale. apply qsum_ext. intros x Hx. now apply good_options, Hw. }
    rewrite E0, (good_options y (w y) Hy (proj1 (Hw y Hy))). pose proof (pos_Qn _ (proj1 Fa)) as D0. unfold Qdiv. rewrite Qinv_mult_distr.
    assert (I : (Qn D * / Qn D == 1)%Q) by (apply Qmult_inv_r; lra). set (T := (/ qsum plans (fun x => Qn (w x)))%Q). setoid_replace (Qn D * Qn (w y) * (/ Qn D * T))%Q with ((Qn D * / Qn D) * (Qn (w y) * T))%Q by ring. rewrite I. ring.
  Qed.

  Lemma slow_transfer (A : list plan -> Prop) (Ab : list plan -> bool) h ch x k p : (forall l, A l <-> Ab l = true) ->
    ch_valid ch = Reusable cs -> In x plans -> is_plan E labs h (ch_initial ch) x -> (Z.of_nat k < ch_total ch)%Z ->
    at_least proposes_of yes D A (mkChain (Reusable [belongs]) (ch_total ch) x x None) (S k) p -> most_slow D A ch h (S k) p.
  Proof.
    intros HA Hv Hx Hp Hk H eps He. destruct (H eps He) as (n0 & H0). exists n0. intros n Hle. destruct (H0 n Hle) as (c & Nc & B). exists c. split; [|exact B].
    assert (Ec : c = cntp D k x Ab n); [|rewrite Ec; now apply slow_iff]. eapply numbers_unique; [exact Nc|]. apply numbers_words. intro ds.
    exact (shows_iff proposes_of yes D [belongs] belongsp A Ab (mkChain (Reusable [belongs]) (ch_total ch) x x None) k x n ds HA belongs_pure eq_refl eq_refl Hk).
  Qed.
End Slow.

Section Theorems.
  Context {N P V L : Type} {EN : EqB N} {EP : EqB P} {EL : EqB L} {ON : Ord N} {RV : CRing V}.
  Variable E : env N P V L.
  Notation g := (e_graph E).
  Notation plan := (plan (N := N) (P := P)).
  Notation objects := (objects (N := N) (P := P) (V := V) (L := L)).
  (** The setting: a well-formed graph with the cut_edges updater, districts
      [labs], constraints and loop body as above, a component of allowed plans
      with undoable moves and the numbers [w] of allowed moves. *)
  Definition setting (labs : list P) (cs : list (constraint nat objects)) passes body (plans : list plan) (D : nat) (w : plan -> nat) : Prop :=
    wf_graph g /\ dget (e_updaters E) "cut_edges"%string = Some UCutEdges /\ NoDup labs /\ steady E labs cs passes /\ calm E body /\
    slow_component E labs cs passes plans /\ undoable E cs passes plans /\ fair E plans D /\
    forall x, In x plans -> numbers (slow_options E cs passes x) (w x) /\ 0 < w x.

  (** Averages over a long run are close to the mean in which a plan weighs its
      number of allowed moves. *)
  Theorem C127_averages labs cs passes body plans D w (f : plan -> Q) : setting labs cs passes body plans D w ->
    forall eps, (0 < eps)%Q -> exists k0, forall k, k0 <= k -> forall h ch x, ch_valid ch = Reusable cs -> In x plans -> is_plan E labs h (ch_initial ch) x -> (Z.of_nat k <= ch_total ch)%Z ->
      most_slow E body D (fun l => Qabs (average f l - qsum plans (fun y => quota plans w y * f y)) <= eps)%Q ch h k (1 - eps).
  Proof.
    intros (WG & Hu & NL & J & Hb & Co & Un & Fa & Hw) eps He.
    destruct (C125_averages (proposes_of E labs) yes D [belongs plans] (belongsp plans) plans (size E labs) (good_draws E labs plans D) f (belongs_pure plans)
      ltac:(eapply slow_closed; eassumption) ltac:(eapply slow_connected; eassumption) ltac:(eapply slow_balanced; eassumption)
      ltac:(intros x Hx; apply pos_Qn; destruct (moves_length E labs cs passes WG plans Co D Fa NL x Hx) as (t & _ & Hne & _); destruct (moves_of E labs x); [contradiction|cbn; lia])
      ltac:(intros x _; apply good_numbers) eps He) as (k0 & Hk).
    exists (S k0). intros [|k] Hle h ch x Vch Hx Px Tch; [lia|].
    assert (E0 : (qsum plans (fun y => quota plans w y * f y) == qsum plans (fun y => share plans (size E labs) (good_draws E labs plans D) y * f y))%Q).
    { apply qsum_ext. intros y Hy. assert (Eq : (share plans (size E labs) (good_draws E labs plans D) y == quota plans w y)%Q) by (eapply slow_quota; eassumption). now rewrite Eq. }
    eapply (slow_transfer E labs cs passes body WG plans Hu J Hb Co D Fa NL _ (fun l => Qle_bool (Qabs (average f l - qsum plans (fun y => quota plans w y * f y))) eps)%Q h ch x); auto.
    - intro l. symmetry. apply Qle_bool_iff.
    - lia.
    - eapply at_least_ext; [|apply (Hk (S k) ltac:(lia) (mkChain (Reusable [belongs plans]) (ch_total ch) x x None) eq_refl Hx Tch)]. intro l. cbn beta. now rewrite E0.
  Qed.
  (** The share of every plan among the plans of a long run. *)
  Theorem C127_histogram labs cs passes body plans D w y : setting labs cs passes body plans D w -> In y plans ->
    forall eps, (0 < eps)%Q -> exists k0, forall k, k0 <= k -> forall h ch x, ch_valid ch = Reusable cs -> In x plans -> is_plan E labs h (ch_initial ch) x -> (Z.of_nat k <= ch_total ch)%Z ->
      most_slow E body D (fun l => Qabs (portion y l - quota plans w y) <= eps)%Q ch h k (1 - eps).
  Proof.
    intros (WG & Hu & NL & J & Hb & Co & Un & Fa & Hw) Hy eps He.
    destruct (C125_histogram (proposes_of E labs) yes D [belongs plans] (belongsp plans) plans (size E labs) (good_draws E labs plans D) y (belongs_pure plans)
      ltac:(eapply slow_closed; eassumption) ltac:(eapply slow_connected; eassumption) ltac:(eapply slow_balanced; eassumption)
      ltac:(intros x Hx; apply pos_Qn; destruct (moves_length E labs cs passes WG plans Co D Fa NL x Hx) as (t & _ & Hne & _); destruct (moves_of E labs x); [contradiction|cbn; lia])
      ltac:(intros x _; apply good_numbers) Hy eps He) as (k0 & Hk).
    exists (S k0). intros [|k] Hle h ch x Vch Hx Px Tch; [lia|].
    assert (Eq : (share plans (size E labs) (good_draws E labs plans D) y == quota plans w y)%Q) by (eapply slow_quota; eassumption).
    eapply (slow_transfer E labs cs passes body WG plans Hu J Hb Co D Fa NL _ (fun l => Qle_bool (Qabs (portion y l - quota plans w y)) eps)%Q h ch x); auto.
    - intro l. symmetry. apply Qle_bool_iff.
    - lia.
    - eapply at_least_ext; [|apply (Hk (S k) ltac:(lia) (mkChain (Reusable [belongs plans]) (ch_total ch) x x None) eq_refl Hx Tch)]. intro l. cbn beta. now rewrite Eq.
  Qed.
  (** Moves between plans with connected districts, none of which vanishes, can
      be undone. *)
  Theorem C127_undoable labs cs passes plans : wf_graph g -> slow_component E labs cs passes plans ->
    (forall x p, In x plans -> connected_on g (fun n => In (n, Some p) x)) ->
    (forall x y p, In x plans -> In y plans -> (exists m, In (m, Some p) x) -> exists m, In (m, Some p) y) -> undoable E cs passes plans.
  Proof.
    intros WG (_ & H1 & H2 & _) Cn Nv x [n q] Hx Ho. pose proof (H2 x _ Hx Ho) as Hy. destruct (H1 x Hx) as [C _]. destruct Ho as [Hm _]. pose proof (edge_move_labs E labs WG x (n, q) C Hm) as [Hn _]. cbn [fst snd] in *.
    destruct (place_differs E labs (wfg_nodes _ WG) x n q Hn C (edge_move_differs E labs WG x (n, q) C Hm)) as (p & Hp & Lp & Dpq).
    assert (At : forall m r, In (m, Some r) (place n q x) <-> (m = n /\ r = q /\ In n (map fst x)) \/ (m <> n /\ In (m, Some r) x)).
    { intros m r. unfold place. rewrite in_map_iff. split.
      - intros ([m' v] & Em & Hi). cbn [fst] in Em. destruct (eqb_spec m' n) as [->|Hd]; [injection Em as <- <-; left; split; [reflexivity|split; [reflexivity|]]; apply in_map_iff; exists (n, v); auto|injection Em as <- ->; right; auto].
      - intros [(-> & -> & Hi)|[Hd Hi]]; [apply in_map_iff in Hi; destruct Hi as ([m' v] & Em & Hi); cbn in Em; subst m'; exists (n, v); cbn [fst]; rewrite eqb_refl; auto|exists (m, Some r); cbn [fst]; destruct (eqb_spec m n); [contradiction|auto]]. }
    destruct (Nv x _ p Hx Hy (ex_intro _ n Hp)) as (m & Hmp). apply At in Hmp. destruct Hmp as [(_ & Eq & _)|[Hmn Hmx]]; [congruence|].
    assert (First : forall m, reach (fun a b => adj g a b /\ In (a, Some p) x /\ In (b, Some p) x) n m -> m <> n -> exists m', adj g n m' /\ m' <> n /\ In (m', Some p) x).
    { clear - EN. intros m R. induction R as [|v w R IH (Ha & _ & Hw)]; [congruence|]. intro Hd. destruct (eqb_spec v n) as [->|Hv]; [eauto|now apply IH]. }
    destruct (First m (Cn x p Hx n m Hp Hmx) Hmn) as (m' & Ha & Hd & Hi).
    exists (n, p). cbn [fst snd]. split; [|now apply (place_back E labs (wfg_nodes _ WG))]. exists m'. cbn [fst snd]. split; [exact Ha|]. split; [apply At; auto|]. rewrite At. intros [(_ & Eq & _)|[Hd' _]]; congruence.
  Qed.
End Theorems.
Print Assumptions C127_averages.
Print Assumptions C127_histogram.
Print Assumptions C127_undoable.

(** ** The path of four nodes cut in two *)
(** District 1 is a beginning of the path and district 2 the rest. *)
Definition cut_plan (l : list nat) : plan (N := nat) (P := nat) := map (fun nq => (fst nq, Some (snd nq))) (combine [0; 1; 2; 3] l).
Definition cut_1 : plan := cut_plan [1; 2; 2; 2].
Definition cut_2 : plan := cut_plan [1; 1; 2; 2].
Definition cut_3 : plan := cut_plan [1; 1; 1; 2].
Definition cut_plans : list plan := [cut_1; cut_2; cut_3].
Definition beginning : constraint nat (objects (N := nat) (P := nat) (V := Z) (L := nat)) :=
  fun a w => (Ok (PBool (mem (match nth_error (fst w) a with Some o => plan_of ex_E (o_assign o) | None => [] end) cut_plans)), w).
Definition beginningp (c : constraint nat (objects (N := nat) (P := nat) (V := Z) (L := nat))) (x : plan) : bool := mem x cut_plans.
Definition cut_w (x : plan (N := nat) (P := nat)) : nat := if eqb x cut_2 then 2 else 1.
Lemma cut_moves x : In x cut_plans -> exists u, u < 3 /\ forall nq, edge_move ex_E x nq <-> nq = (u, 2) \/ nq = (S u, 1).
Proof.
  intro Hx. assert (T : exists u, u < 3 /\ moves_of ex_E [1; 2] x = [(u, 2); (S u, 1)]).
  { destruct Hx as [<-|[<-|[<-|[]]]]; [exists 0|exists 1|exists 2]; (split; [lia|vm_compute; reflexivity]). }
  destruct T as (u & Hu & Em). exists u. split; [exact Hu|]. intro nq. rewrite <- (moves_of_iff ex_E [1; 2] (proj1 ex_wf) x nq).
  - rewrite Em. cbn. split; [intros [<-|[<-|[]]]; auto|intros [->| ->]; auto].
  - apply shaped_iff. destruct Hx as [<-|[<-|[<-|[]]]]; reflexivity.
Qed.
Lemma cut_steady : steady ex_E [1; 2] [beginning] beginningp.
Proof.
  intros c a h x [<-|[]] (S & o & Ho & _ & Hx). exists h. split; [split; [exact S|eauto]|]. intro ds. unfold beginning, beginningp. cbn [fst]. now rewrite Ho, Hx.
Qed.
Lemma cut_calm : calm ex_E (fun _ w => w).
Proof. intros a h S. exists h. split; [split; [exact S|eauto]|reflexivity]. Qed.
Lemma cut_options x nq : In x cut_plans -> slow_options ex_E [beginning] beginningp x nq <->
  In nq (filter (fun nq => mem (place (fst nq) (snd nq) x) cut_plans) (moves_of ex_E [1; 2] x)).
Proof.
  intro Hx. rewrite filter_In, moves_of_iff; [|apply ex_wf|apply shaped_iff; destruct Hx as [<-|[<-|[<-|[]]]]; reflexivity].
  unfold slow_options, P_AnyNode.allowed, beginningp. cbn [forallb]. now rewrite andb_true_r.
Qed.
Lemma cut_component : slow_component ex_E [1; 2] [beginning] beginningp cut_plans.
Proof.
  assert (Cl : forall x nq, In x cut_plans -> slow_options ex_E [beginning] beginningp x nq -> In (place (fst nq) (snd nq) x) cut_plans).
  { intros x nq Hx Ho. apply cut_options in Ho; [|exact Hx]. apply filter_In in Ho. now apply mem_In. }
  split; [nodup|]. split; [intros x Hx; split; [apply shaped_iff|]; destruct Hx as [<-|[<-|[<-|[]]]]; reflexivity|]. split; [exact Cl|].
  set (R := fun a b => In a cut_plans /\ exists nq, slow_options ex_E [beginning] beginningp a nq /\ b = place (fst nq) (snd nq) a).
  assert (Step : forall x y nq, In x cut_plans -> In nq (filter (fun nq => mem (place (fst nq) (snd nq) x) cut_plans) (moves_of ex_E [1; 2] x)) -> y = place (fst nq) (snd nq) x -> R x y).
  { intros x y nq Hx Hi ->. split; [exact Hx|]. exists nq. split; [now apply cut_options|reflexivity]. }
  assert (R12 : R cut_1 cut_2) by (apply (Step _ _ (1, 1)); [cbn; auto|vm_compute; auto|reflexivity]). assert (R21 : R cut_2 cut_1) by (apply (Step _ _ (1, 2)); [cbn; auto|vm_compute; auto|reflexivity]).
  assert (R23 : R cut_2 cut_3) by (apply (Step _ _ (2, 1)); [cbn; auto|vm_compute; auto|reflexivity]). assert (R32 : R cut_3 cut_2) by (apply (Step _ _ (2, 2)); [cbn; auto|vm_compute; auto|reflexivity]).
  intros x y Hx Hy. assert (A : reach R x cut_2) by (destruct Hx as [<-|[<-|[<-|[]]]]; [|constructor|]; (econstructor; [constructor|assumption])).
  destruct Hy as [<-|[<-|[<-|[]]]]; [|exact A|]; (econstructor; [exact A|assumption]).
Qed.
Lemma cut_undoable : undoable ex_E [beginning] beginningp cut_plans.
Proof.
  apply (C127_undoable ex_E [1; 2]); [apply ex_wf|apply cut_component| |].
  - intros x p Hx u v Hu Hv.
    assert (Ad : forall i j, In (i, j) [(0, 1); (1, 2); (2, 3)] -> adj (e_graph ex_E) i j /\ adj (e_graph ex_E) j i).
    { intros i j H. split; [left|right]; cbn; cbn in H; tauto. }
    assert (E01 := Ad 0 1 ltac:(cbn; auto)). assert (E12 := Ad 1 2 ltac:(cbn; auto)). assert (E23 := Ad 2 3 ltac:(cbn; auto)). clear Ad.
    set (RR := fun a b => adj (e_graph ex_E) a b /\ In (a, Some p) x /\ In (b, Some p) x).
    assert (Up : forall i j, In (i, Some p) x -> In (j, Some p) x -> j = S i \/ i = S j -> RR i j).
    { intros i j Hi Hj D. split; [|auto]. assert (Bi : i < 4 /\ j < 4) by (destruct Hx as [<-|[<-|[<-|[]]]]; cbn in Hi, Hj; split; repeat destruct Hi as [[= <- _]|Hi]; repeat destruct Hj as [[= <- _]|Hj]; try contradiction; lia).
      destruct D as [-> | ->]; [destruct i as [|[|[|i]]]|destruct j as [|[|[|j]]]]; try tauto; lia. }
    clearbody RR. destruct Hx as [<-|[<-|[<-|[]]]]; cbn in Hu, Hv; unfold cut_1, cut_2, cut_3 in Up; cbn in Up;
      repeat destruct Hu as [Hu|Hu]; try contradiction; injection Hu; intros; subst; repeat destruct Hv as [Hv|Hv]; try contradiction; try discriminate; injection Hv; intros; subst; try constructor;
      first [econstructor; [constructor|apply Up; auto; fail]
            |econstructor; [econstructor; [constructor|apply (Up _ 1); auto 6; fail]|apply Up; auto 6; fail]
            |econstructor; [econstructor; [constructor|apply (Up _ 2); auto 6; fail]|apply Up; auto 6; fail]].
  - intros x y p Hx Hy (m & Hm). assert (Hp : p = 1 \/ p = 2) by (destruct Hx as [<-|[<-|[<-|[]]]]; cbn in Hm; repeat destruct Hm as [Hm|Hm]; try contradiction; injection Hm; auto).
    destruct Hp as [-> | ->]; [exists 0|exists 3]; destruct Hy as [<-|[<-|[<-|[]]]]; cbn; auto 6.
Qed.
Lemma cut_fair : fair ex_E cut_plans 2.
Proof.
  split; [lia|]. intros x Hx. exists 2, 1. split; [|reflexivity]. destruct (cut_moves x Hx) as (u & _ & Hm). exists [(u, 2); (S u, 1)]. split; [constructor; [intros [X|[]]; injection X; lia|constructor; [intros []|constructor]]|]. split; [|reflexivity].
  intro nq. rewrite Hm. cbn. split; [intros [<-|[<-|[]]]; auto|intros [->| ->]; auto].
Qed.
Lemma cut_setting : setting ex_E [1; 2] [beginning] beginningp (fun _ w => w) cut_plans 2 cut_w.
Proof.
  split; [apply ex_wf|]. split; [reflexivity|]. split; [nodup|]. split; [apply cut_steady|]. split; [apply cut_calm|]. split; [apply cut_component|]. split; [apply cut_undoable|]. split; [apply cut_fair|].
  intros x Hx. split; [|unfold cut_w; destruct (eqb x cut_2); lia]. exists (filter (fun nq => mem (place (fst nq) (snd nq) x) cut_plans) (moves_of ex_E [1; 2] x)).
  split; [apply NoDup_filter, NoDup_filter, NoDup_prod; vm_compute; nodup|]. split; [intro nq; symmetry; now apply cut_options|]. destruct Hx as [<-|[<-|[<-|[]]]]; vm_compute; reflexivity.
Qed.
Definition cut_runs (A : list (plan (N := nat) (P := nat)) -> Prop) (k : nat) (p : Q) : Prop :=
  most_slow ex_E (fun _ w => w) 2 A (mkChain (Reusable [beginning]) (Z.of_nat k) 0 0 None) (ex_run ex_plan []) k p.
Lemma cut_start : is_plan ex_E [1; 2] (ex_run ex_plan []) 0 cut_2.
Proof. split; [ex_session|]. eexists. split; [vm_compute; reflexivity|]. split; vm_compute; reflexivity. Qed.
Lemma cut_share y c : In y cut_plans -> (quota cut_plans cut_w y == c)%Q -> forall eps, (0 < eps)%Q -> exists k0, forall k, k0 <= k ->
  cut_runs (fun l => Qabs (portion y l - c) <= eps)%Q k (1 - eps).
Proof.
  intros Hy Hc eps He. destruct (C127_histogram ex_E [1; 2] [beginning] beginningp (fun _ w => w) cut_plans 2 cut_w y cut_setting Hy eps He) as (k0 & Hk).
  exists k0. intros k Hle e He'. destruct (Hk k Hle (ex_run ex_plan []) (mkChain (Reusable [beginning]) (Z.of_nat k) 0 0 None) cut_2 eq_refl ltac:(cbn; auto) cut_start ltac:(cbn; lia) e He') as (n0 & Hn).
  exists n0. intros n Hl. destruct (Hn n Hl) as (m & (l & N1 & I1 & L1) & B). exists m. split; [|exact B]. exists l. split; [exact N1|]. split; [|exact L1]. intro ds. rewrite I1. unfold slow_shows.
  split; intros (H1 & H2 & ys & en & ch' & w' & H3 & H4 & H5); (split; [exact H1|]; split; [exact H2|]; exists ys, en, ch', w'; split; [exact H3|]; split; [exact H4|]); [rewrite <- Hc|rewrite Hc]; exact H5.
Qed.
(** The cut in the middle is half of a long run, each other cut a quarter. *)
Example C127_nonvacuous : forall eps, (0 < eps)%Q -> exists k0, forall k, k0 <= k ->
  cut_runs (fun l => Qabs (portion cut_2 l - (1 # 2)) <= eps)%Q k (1 - eps) /\ cut_runs (fun l => Qabs (portion cut_1 l - (1 # 4)) <= eps)%Q k (1 - eps).
Proof.
  intros eps He. destruct (cut_share cut_2 (1 # 2)%Q ltac:(cbn; auto) ltac:(vm_compute; reflexivity) eps He) as (k1 & H1). destruct (cut_share cut_1 (1 # 4)%Q ltac:(cbn; auto) ltac:(vm_compute; reflexivity) eps He) as (k2 & H2).
  exists (Nat.max k1 k2). intros k Hle. split; [apply H1|apply H2]; lia.
Qed.
(** C127. slow_reversible_propose does not sample the allowed plans uniformly:
    here are three of them, and the share of one does not come near 1/3. *)
Theorem C127_uniform_refuted : exists (E : env nat nat Z nat) labs cs passes plans D w h x y,
  setting E labs cs passes (fun _ w => w) plans D w /\ is_plan E labs h 0 x /\ In x plans /\ In y plans /\
  ~ (forall eps, (0 < eps)%Q -> exists k0, forall k, k0 <= k ->
      most_slow E (fun _ w => w) D (fun l => Qabs (portion y l - 1 / Qn (List.length plans)) <= eps)%Q (mkChain (Reusable cs) (Z.of_nat k) 0 0 None) h k (1 - eps)).
Proof.
  exists ex_E, [1; 2], [beginning], beginningp, cut_plans, 2, cut_w, (ex_run ex_plan []), cut_2, cut_2. split; [apply cut_setting|]. split; [apply cut_start|]. split; [cbn; auto|]. split; [cbn; auto|].
  intro H. destruct (H (1 # 50)%Q eq_refl) as (k1 & H1). destruct (cut_share cut_2 (1 # 2)%Q ltac:(cbn; auto) ltac:(vm_compute; reflexivity) (1 # 50)%Q eq_refl) as (k2 & H2).
  specialize (H1 (Nat.max k1 k2) ltac:(lia) (1 # 50)%Q eq_refl). specialize (H2 (Nat.max k1 k2) ltac:(lia) (1 # 50)%Q eq_refl). destruct H1 as (n1 & H1). destruct H2 as (n2 & H2).
  destruct (H1 (Nat.max n1 n2) ltac:(lia)) as (a & (la & Na & Ia & <-) & Ba). destruct (H2 (Nat.max n1 n2) ltac:(lia)) as (b & (lb & Nb & Ib & <-) & Bb). set (n := Nat.max n1 n2) in *.
  assert (U : List.length (la ++ lb) <= List.length (words 2 n)).
  { apply NoDup_incl_length.
    - apply NoDup_app_iff. split; [exact Na|]. split; [exact Nb|]. intros ds Hda Hdb. apply Ia in Hda. apply Ib in Hdb. destruct Hda as (_ & _ & ys & en & ch' & w' & E1 & _ & A1). destruct Hdb as (_ & _ & ys2 & en2 & ch2 & w2 & E2 & _ & A2).
      rewrite E1 in E2. injection E2 as <- _ _ _. change (1 / Qn (List.length cut_plans))%Q with (1 # 3)%Q in A1. apply Qabs_Qle_condition in A1, A2. lra.
    - intros ds Hd. apply in_app_or in Hd. apply In_words. destruct Hd as [Hd|Hd]; [apply Ia in Hd|apply Ib in Hd]; (split; apply Hd). }
  rewrite app_length, length_words in U. assert (D0 : (0 < Qn (2 ^ n))%Q) by (apply pos_Qn, Nat.neq_0_lt_0, Nat.pow_nonzero; lia).
  assert (Us : (Qn (List.length la) / Qn (2 ^ n) + Qn (List.length lb) / Qn (2 ^ n) <= 1)%Q).
  { setoid_replace (Qn (List.length la) / Qn (2 ^ n) + Qn (List.length lb) / Qn (2 ^ n))%Q with (Qn (List.length la + List.length lb) / Qn (2 ^ n))%Q by (rewrite Qn_plus; field; lra).
    apply Qle_shift_div_r; [exact D0|]. rewrite Qmult_1_l. unfold Qn. rewrite <- Zle_Qle. lia. }
  lra.
Qed.
Print Assumptions C127_uniform_refuted.
