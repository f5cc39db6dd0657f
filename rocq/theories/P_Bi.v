(** C129: what a chain of slow_reversible_propose_bi samples. *)
From Coq Require Import String List Bool Arith ZArith QArith Qabs Lqa Lia ZifyBool ZifyNat Permutation.
From Verif Require Import Base M_Graph M_Partition S_Partition L_Partition M_Machine S_Machine
  L_Cuts L_Machine L_Answers P_Partition P_Machine M_Constraints M_Chain P_Chain M_Diversity L_Order M_Proposals S_Proposals P_Proposals
  L_Locality M_Recursive S_Contiguity P_Uniform P_FlipLaw P_ChainLaw.
From Verif Require Import P_DetailedBalance P_Stationary L_Converge L_Average P_LongRun P_Histogram P_AnyNode P_Slow.
Import ListNotations.
Local Open Scope nat_scope.
Local Open Scope list_scope.

(** ** Sums over pairs of draws *)
Lemma seq_shifted k n : seq k n = map (fun j => k + j) (seq 0 n).
Proof.
  rewrite <- (Nat.add_0_r k) at 1. generalize 0. induction n as [|n IH]; intro s; [reflexivity|]. cbn [seq map]. f_equal. rewrite <- IH. f_equal. lia.
Qed.
Lemma sum_pairs (H : nat -> nat -> nat) b : 0 < b -> forall a,
  list_sum (map (fun d => H (d / b) (d mod b)) (seq 0 (a * b))) = list_sum (map (fun i => list_sum (map (H i) (seq 0 b))) (seq 0 a)).
Proof.
  intros Hb a. induction a as [|a IH]; [reflexivity|]. replace (S a * b) with (a * b + b) by lia. rewrite seq_app, map_app, list_sum_app, IH. rewrite seq_S, map_app, list_sum_app. f_equal. cbn [Nat.add map list_sum fold_right]. rewrite Nat.add_0_r. f_equal.
  rewrite seq_shifted, map_map. apply map_ext_in. intros j Hj. apply in_seq in Hj. rewrite (Nat.add_comm (a * b)), Nat.div_add, Nat.mod_add, Nat.div_small, Nat.mod_small by lia. reflexivity.
Qed.
Lemma sum_zero {X} (f : X -> nat) l : (forall y, In y l -> f y = 0) -> list_sum (map f l) = 0.
Proof. intro H0. induction l as [|z l IH]; [reflexivity|]. cbn [map list_sum fold_right]. rewrite (H0 z) by (cbn; auto). apply IH. intros y Hy. apply H0. cbn; auto. Qed.
Lemma sum_single {X} (f : X -> nat) l x : NoDup l -> In x l -> (forall y, In y l -> y <> x -> f y = 0) -> list_sum (map f l) = f x.
Proof.
  induction l as [|z l IH]; intros ND Hi H0; [destruct Hi|]. inversion ND as [|? ? Hn ND']; subst. change (f z + list_sum (map f l) = f x). destruct Hi as [->|Hi].
  - rewrite (sum_zero f l); [lia|]. intros y Hy. apply H0; [now right|]. intros ->. contradiction.
  - rewrite (H0 z); [|now left|intros ->; contradiction]. apply IH; auto. intros y Hy. apply H0. now right.
Qed.
Lemma count_sum {X} (f : X -> bool) l : List.length (filter f l) = list_sum (map (fun y => if f y then 1 else 0) l).
Proof. induction l as [|y l IH]; [reflexivity|]. cbn [filter map list_sum fold_right]. destruct (f y); cbn [List.length]; rewrite IH; reflexivity. Qed.

Lemma qsum_both {X} (l l' : list X) f : (qsum (l ++ l') f == qsum l f + qsum l' f)%Q.
Proof. induction l as [|x l IH]; [change (qsum l' f == 0 + qsum l' f)%Q; ring|]. cbn [app]. rewrite !qsum_cons, IH. ring. Qed.
Lemma qsum_const {X} (l : list X) z : (qsum l (fun _ => z) == Qn (List.length l) * z)%Q.
Proof. induction l as [|x l IH]; [change (0 == Qn 0 * z)%Q; change (Qn 0) with 0%Q; ring|]. rewrite qsum_cons, IH. change (List.length (x :: l)) with (1 + List.length l). rewrite Qn_plus. change (Qn 1) with 1%Q. ring. Qed.
Lemma qsum_permuted {X} (l l' : list X) f : Permutation l l' -> (qsum l f == qsum l' f)%Q.
Proof. intro H. induction H; [reflexivity|rewrite !qsum_cons, IHPermutation; reflexivity|rewrite !qsum_cons; ring|now rewrite IHPermutation1]. Qed.

Section Pick.
  Context {N P : Type}.
  (** The choice of a node with the first and of a district with the second of two
      numbers below [B], given as one number. *)
  Definition pick (B : nat) (bs : list N) (rs : N -> list P) (d : nat) : option (N * P) :=
    match choice (d / B) bs with Ok n => match choice (d mod B) (rs n) with Ok q => Some (n, q) | _ => None end | _ => None end.
  Lemma pick_sum B bs rs G : 0 < B -> bs <> [] -> (exists t, B = t * List.length bs) -> (forall n, In n bs -> rs n <> [] /\ exists t, B = t * List.length (rs n)) ->
    list_sum (map (fun d => match pick B bs rs d with Some m => G m | None => 0 end) (seq 0 (B * B))) =
    B / List.length bs * list_sum (map (fun n => B / List.length (rs n) * list_sum (map (fun q => G (n, q)) (rs n))) bs).
  Proof.
    intros HB Hb (t & Ht) Hr. unfold pick.
    rewrite (sum_pairs (fun i j => match match choice i bs with Ok n => match choice j (rs n) with Ok q => Some (n, q) | _ => None end | _ => None end with Some m => G m | None => 0 end) B HB B).
    assert (E1 : forall i, list_sum (map (fun j => match match choice i bs with Ok n => match choice j (rs n) with Ok q => Some (n, q) | _ => None end | _ => None end with Some m => G m | None => 0 end) (seq 0 B)) =
      match choice i bs with Ok n => B / List.length (rs n) * list_sum (map (fun q => G (n, q)) (rs n)) | _ => 0 end).
    { intro i. destruct (choice_ok i bs Hb) as (n & Hn & Hi). rewrite Hn. destruct (Hr n Hi) as (Hne & t' & Ht').
      assert (L0 : List.length (rs n) <> 0) by (destruct (rs n); [contradiction|discriminate]).
      replace (B / List.length (rs n)) with t' by (rewrite Ht', Nat.div_mul by exact L0; reflexivity). rewrite <- (sum_cycle (fun q => G (n, q)) (rs n) 0 t' Hne), <- Ht'. f_equal. apply map_ext. intro j. now destruct (choice j (rs n)). }
    rewrite (map_ext _ _ E1). assert (L0 : List.length bs <> 0) by (destruct bs; [contradiction|discriminate]).
    replace (B / List.length bs) with t by (rewrite Ht, Nat.div_mul by exact L0; reflexivity).
    rewrite <- (sum_cycle (fun n => B / List.length (rs n) * list_sum (map (fun q => G (n, q)) (rs n))) bs 0 t Hb), <- Ht. reflexivity.
  Qed.
  Lemma pick_perm B bs rs bs' rs' (G : N * P -> nat) : Permutation bs bs' -> (forall n, In n bs -> Permutation (rs n) (rs' n)) ->
    B / List.length bs * list_sum (map (fun n => B / List.length (rs n) * list_sum (map (fun q => G (n, q)) (rs n))) bs) =
    B / List.length bs' * list_sum (map (fun n => B / List.length (rs' n) * list_sum (map (fun q => G (n, q)) (rs' n))) bs').
  Proof.
    intros Pb Pr. rewrite <- (Permutation_length Pb). f_equal. rewrite <- (Permutation_list_sum (Permutation_map (fun n => B / List.length (rs' n) * list_sum (map (fun q => G (n, q)) (rs' n))) Pb)).
    f_equal. apply map_ext_in. intros n Hn. rewrite (Permutation_length (Pr n Hn)). f_equal. now apply Permutation_list_sum, Permutation_map, Pr.
  Qed.
End Pick.

Section Bi.
  Context {N P V L : Type} {EN : EqB N} {EP : EqB P} {EL : EqB L} {ON : Ord N} {RV : CRing V}.
  Variable E : env N P V L.
  Notation g := (e_graph E).
  Notation nodes := (g_nodes g).
  Variable labs : list P.
  Notation plan := (plan (N := N) (P := P)).
  Notation objects := (objects (N := N) (P := P) (V := V) (L := L)).
  Notation edge_move := (edge_move E).
  Notation complete := (complete E labs).
  Notation is_plan := (is_plan E labs).

  (** ** Specification *)

  (** One number below [B * B] per call: two numbers below [B]. *)
  Definition bi (B : nat) (a : nat) (w : objects) : res nat * objects :=
    match snd w with [] => (NoFuel, w) | d :: r => let '(b, h) := propose_bi E (d / B) (d mod B) a (fst w) in (b, (h, r)) end.
  Variable cs : list (constraint nat objects).
  Variable passes : constraint nat objects -> plan -> bool.
  Notation allowed := (allowed cs passes).
  Notation options := (slow_options E cs passes).
  Variable body : nat -> objects -> objects.
  (** With the draws [ds] a loop over the chain yields [k] plans, and they are as
      [A] says. *)
  Definition bi_shows (B : nat) (A : list plan -> Prop) (ch : chain nat objects) (h : heap N P V L) (k n : nat) (ds : list nat) : Prop :=
    List.length ds = n /\ Forall (fun d => d < B * B) ds /\
    exists ys en ch' w', for_loop (bi B) always erase_link k (S n) body ch (h, ds) = (ys, en, ch', w') /\ List.length ys = k /\ A (map (read E) ys).
  Definition most_bi (B : nat) (A : list plan -> Prop) (ch : chain nat objects) (h : heap N P V L) (k : nat) (p : Q) : Prop :=
    forall eps, (0 < eps)%Q -> exists n0, forall n, n0 <= n -> exists c, numbers (bi_shows B A ch h k n) c /\ (p - eps <= Qn c / Qn ((B * B) ^ n))%Q.
  (** Every node that has a neighbour in another district has one in its own:
      otherwise the proposal raises ValueError (C44). *)
  Definition settled (x : plan) : Prop := forall n q, edge_move x (n, q) -> exists m p, m <> n /\ adj g n m /\ In (n, Some p) x /\ In (m, Some p) x.
  (** [B] is a common multiple of the numbers of boundary nodes and of the numbers
      of districts next to a boundary node. *)
  Definition bi_fair (plans : list plan) (B : nat) : Prop := 0 < B /\ forall x, In x plans ->
    (exists c t, numbers (fun n => exists q, edge_move x (n, q)) c /\ B = t * c) /\
    forall n q, edge_move x (n, q) -> exists c t, numbers (fun r => edge_move x (n, r)) c /\ B = t * c.
  (** The weight of a plan: every allowed move counts for one divided by the
      number of other districts next to the node that moves. *)
  Definition weighs (x : plan) (w : Q) : Prop := exists l c, NoDup l /\ (forall nq, In nq l <-> options x nq) /\
    (forall nq, In nq l -> numbers (fun r => edge_move x (fst nq, r)) (c nq)) /\ (w == qsum l (fun nq => 1 / Qn (c nq)))%Q.
  Definition fraction (plans : list plan) (w : plan -> Q) (y : plan) : Q := (w y / qsum plans w)%Q.

  (** ** Moves of a plan *)
  Hypothesis WG : wf_graph g.
  Definition movers (x : plan) : list N := filter (fun n => existsb (fun q => edge_moveb E x (n, q)) labs) nodes.
  Definition dests (x : plan) (n : N) : list P := filter (fun q => edge_moveb E x (n, q)) labs.
  Lemma movers_iff x n : complete x -> In n (movers x) <-> exists q, edge_move x (n, q).
  Proof.
    intro C. unfold movers. rewrite filter_In, existsb_exists. split.
    - intros (_ & q & _ & H). exists q. now apply (edge_moveb_iff E WG).
    - intros (q & H). pose proof (edge_move_labs E labs WG x (n, q) C H) as [H1 H2]. split; [exact H1|]. exists q. split; [exact H2|]. now apply (edge_moveb_iff E WG).
  Qed.
  Lemma dests_iff x n q : complete x -> In q (dests x n) <-> edge_move x (n, q).
  Proof.
    intro C. unfold dests. rewrite filter_In, (edge_moveb_iff E WG). split; [tauto|]. intro H. split; [|exact H]. exact (proj2 (edge_move_labs E labs WG x (n, q) C H)).
  Qed.
  Lemma call_plan h a x : dget (e_updaters E) "cut_edges"%string = Some UCutEdges -> is_plan h a x -> settled x ->
    exists bs rs, NoDup bs /\ (forall n, In n bs <-> exists q, edge_move x (n, q)) /\
      (forall n, In n bs -> NoDup (rs n) /\ forall q, In q (rs n) <-> edge_move x (n, q)) /\
      forall r1 r2 n q, choice r1 bs = Ok n -> choice r2 (rs n) = Ok q -> exists b h', propose_bi E r1 r2 a h = (Ok b, h') /\ keeps E h h' /\ is_plan h' b (place n q x).
  Proof.
    intros Hu (S & o & Ho & Ll & Hx) St. pose proof (session_coherent E h a o S Ho) as C. destruct (cuts_ok E h a o S Ho Hu) as (s & h1 & Hc & NDs & Sp & S1 & K1).
    set (A := o_assign o) in *.
    assert (In_plan : forall m q, In (m, Some q) x <-> In m nodes /\ district A m = Some q).
    { intros m q. rewrite <- Hx. unfold plan_of. rewrite in_map_iff. split; [intros (m' & [= -> Hd] & Hi); auto|intros [Hi Hd]; exists m; rewrite Hd; auto]. }
    assert (BM : forall n q, boundary_move g A n q <-> edge_move x (n, q)).
    { intros n q. unfold boundary_move, P_Slow.edge_move. cbn [fst snd]. split; intros (m & Ha & Hq & Hn); exists m; (split; [exact Ha|]); assert (Hnm : In n nodes /\ In m nodes) by (destruct Ha as [Ha|Ha]; apply (wfg_ends _ WG) in Ha; tauto).
      - split; [apply In_plan; tauto|]. rewrite In_plan. tauto.
      - rewrite In_plan in Hq, Hn. tauto. }
    set (bs := sunion (set_of (map fst s)) (set_of (map snd s))).
    set (rs := fun n => match mapM (part_of A) (neighbors g n), part_of A n with Ok ps, Ok p => sdiff (set_of ps) [p] | _, _ => [] end).
    assert (Ib : forall n, In n bs <-> exists q, boundary_move g A n q).
    { intro n. unfold bs. rewrite In_sunion, !In_set_of, !in_map_iff. split.
      - intros [([u v] & <- & He)|([u v] & <- & He)]; apply Sp in He; destruct He as (_ & Ad & Dn); simpl in *;
          destruct (adj_node E h S _ _ Ad) as [Nu Nv].
        + destruct (part_ok E h a o S Ho v Nv) as (q & _ & Dv & _). fold A in Dv. exists q, v. split; auto. split; auto. congruence.
        + destruct (part_ok E h a o S Ho u Nu) as (q & _ & Du & _). fold A in Du. exists q, u. split; [now apply (adj_sym E)|]. split; auto. congruence.
      - intros (q & m & Ad & Dm & Dn). assert (Hd : district A n <> district A m) by congruence.
        destruct (proj2 (cut_edge_iff E o n m) (conj Ad Hd)) as [He|He]; apply Sp in He; [left|right]; eexists; (split; [|exact He]); auto. }
    assert (Gp : forall n, exists ps, mapM (part_of A) (neighbors g n) = Ok ps /\ forall q, In q ps <-> exists m, adj g n m /\ district A m = Some q).
    { intro n. assert (Gl : forall l, (forall y, In y l -> In y nodes) ->
        exists ps, mapM (part_of A) l = Ok ps /\ forall q, In q ps <-> exists m, In m l /\ district A m = Some q).
      { induction l as [|y l IH]; intro Hl; [exists []; split; auto; intro q; split; [intros []|intros (m & [] & _)]|].
        destruct IH as (ps & Hps & Ip); [intros z Hz; apply Hl; now right|].
        destruct (part_ok E h a o S Ho y (Hl y (or_introl eq_refl))) as (px & P1 & P2 & _). fold A in P1, P2.
        cbn [mapM]. rewrite P1. cbn [bind]. rewrite Hps. cbn [bind]. exists (px :: ps). split; auto.
        intro q. simpl. rewrite Ip. split.
        - intros [<-|(m & H1 & H2)]; [exists y; auto|exists m; auto].
        - intros (m & [<-|H1] & H2); [left; congruence|right; eauto]. }
      destruct (Gl (neighbors g n)) as (ps & Hps & Ip).
      { intros y Hy. apply (neighbors_adj E) in Hy. apply (adj_node E h S _ _ Hy). }
      exists ps. split; auto. intro q. rewrite Ip. split; intros (m & H1 & H2); exists m; split; auto; now apply (neighbors_adj E). }
    assert (Ir : forall n, In n nodes -> NoDup (rs n) /\ forall q, In q (rs n) <-> edge_move x (n, q)).
    { intros n Nn. unfold rs. destruct (Gp n) as (ps & Hps & Ip). rewrite Hps. destruct (part_ok E h a o S Ho n Nn) as (p & Pp & Dp & Lp). fold A in Pp, Dp. rewrite Pp. split; [apply NoDup_sdiff, NoDup_set_of|].
      intro q. rewrite In_sdiff, In_set_of, Ip, <- BM. unfold boundary_move. split.
      - intros [(m & Ad & Dm) Hn]. exists m. split; [exact Ad|]. split; [exact Dm|]. intro Z. apply Hn. left. congruence.
      - intros (m & Ad & Dm & Dn). split; [eauto|]. intros [<-|[]]. contradiction. }
    exists bs, rs. split; [apply NoDup_sunion, NoDup_set_of|]. split; [intro n; rewrite Ib; split; intros (q & H); exists q; now apply BM|].
    assert (Nb : forall n, In n bs -> In n nodes) by (intros n Hn; apply Ib in Hn; destruct Hn as (q & m & Ad & _); apply (adj_node E h S _ _ Ad)).
    split; [intros n Hn; apply Ir; auto|]. intros r1 r2 n q H1 H2.
    pose proof (choice_In r1 bs n H1) as Hn. pose proof (Nb n Hn) as Nn. pose proof (proj1 (proj2 (Ir n Nn) q) (choice_In _ _ _ H2)) as Em.
    assert (Ln : In q labs).
    { pose proof (proj2 (BM n q) Em) as (m & Ad & Dm & _). rewrite <- Ll. eapply district_node; [exact C|exact Dm]. }
    unfold propose_bi. rewrite (get_bind h a o) by exact Ho. rewrite (bindM_ok _ _ _ _ _ Hc). fold A bs. rewrite H1, lift_bind.
    destruct (Gp n) as (ps & Hps & Ip). rewrite Hps, lift_bind. destruct (part_ok E h a o S Ho n Nn) as (p & Pp & Dp & Lp). fold A in Pp, Dp. rewrite Pp, lift_bind.
    assert (Hown : mem p (set_of ps) = true).
    { destruct (St n q Em) as (m & p' & _ & Ad & Hp & Hm). apply In_plan in Hp, Hm. apply mem_In, In_set_of, Ip. exists m. split; [exact Ad|]. destruct Hp, Hm. congruence. }
    rewrite Hown, lift_bind. unfold rs in H2. rewrite Hps, Pp in H2. rewrite H2, lift_bind.
    destruct (K1 a o Ho) as (o1 & Ho1 & E1 & _).
    destruct (flip_ok E h1 a o1 [(n, q)] S1 Ho1) as (o' & F1 & F2 & F3 & F4 & F5 & F6 & F7).
    { repeat constructor. intros []. }
    { intros m p' Hp'. cbn [dget] in Hp'. destruct (eqb_spec m n) as [->|]; [|discriminate]. injection Hp' as <-. rewrite E1. fold A. rewrite Ll. auto. }
    exists (List.length h1), (h1 ++ [o']). split; [exact F1|]. split.
    - split; [exact F6|]. intros b o2 Hb. destruct (K1 b o2 Hb) as (o3 & H3 & E3 & _). exists o3. split; [|exact E3]. rewrite nth_error_app1; [exact H3|]. apply nth_error_Some. congruence.
    - split; [exact F6|]. exists o'. split; [exact F7|]. split; [rewrite <- Ll; unfold A; rewrite <- E1; eapply flip_labels; [|exact F4]; repeat constructor; intros []|].
      rewrite <- Hx. unfold plan_of, place. rewrite map_map. apply map_ext. intro m. cbn [fst]. rewrite F5, E1. cbn [dget]. destruct (eqb_spec m n) as [->|]; reflexivity.
  Qed.

  (** ** The chain on plans *)
  Variable plans : list plan.
  Variable B : nat.
  Definition bi_of (x : plan) (d : nat) : plan := match pick B (movers x) (dests x) d with Some nq => place (fst nq) (snd nq) x | None => x end.
  Notation belongs := (belongs plans).
  Notation belongsp := (belongsp plans).
  Notation trailb := (trailb bi_of yes [belongs] belongsp).
  Notation cntp D := (cntp bi_of yes D [belongs] belongsp).

  (** ** A run as a function of the draws *)
  Fixpoint crun (k : nat) (a : nat) (h : heap N P V L) (x : plan) (A : list plan -> bool) (ds : list nat) : bool :=
    match k with
    | 0 => A [x]
    | S k' =>
      match ds with
      | [] => false
      | d :: r =>
        match propose_bi E (d / B) (d mod B) a h with
        | (Ok b, h1) =>
          match validator (Reusable cs) b (erase a h1, r) with
          | (Ok true, (h2, _), _) => let h3 := fst (body b (h2, r)) in
              crun k' b h3 (read E (b, (h3, r))) (fun l => A (x :: l)) r
          | (Ok false, (h2, _), _) => crun k a h2 x A r
          | _ => false
          end
        | _ => false
        end
      end
    end.

  Hypothesis Hu : dget (e_updaters E) "cut_edges"%string = Some UCutEdges.
  Hypothesis J : steady E labs cs passes.
  Hypothesis Hb : calm E body.
  Hypothesis Co : slow_component E labs cs passes plans.
  Hypothesis St : forall x, In x plans -> settled x.
  Hypothesis Fa : bi_fair plans B.
  Hypothesis NL : NoDup labs.

  Lemma plan_complete_in x : In x plans -> complete x.
  Proof. destruct Co as (_ & H1 & _). intro Hx. now apply H1. Qed.
  Lemma allowed_in x nq : In x plans -> edge_move x nq -> allowed (place (fst nq) (snd nq) x) = mem (place (fst nq) (snd nq) x) plans.
  Proof.
    intros Hx Hm. destruct Co as (_ & H1 & H2 & _). destruct (allowed _) eqn:Al; symmetry.
    - apply mem_In. apply H2; [exact Hx|]. split; assumption.
    - destruct (mem _ _) eqn:Em; [|reflexivity]. apply mem_In in Em. apply H1 in Em. destruct Em. congruence.
  Qed.
  Lemma movers_nodup x : NoDup (movers x). Proof. apply NoDup_filter, WG. Qed.
  Lemma dests_nodup x n : NoDup (dests x n). Proof. now apply NoDup_filter. Qed.
  Lemma movers_fair x : In x plans -> movers x <> [] /\ exists t, B = t * List.length (movers x).
  Proof.
    intro Hx. destruct Fa as [B0 F0]. destruct (F0 x Hx) as [(c & t & Hc & Bt) _]. assert (Lc : List.length (movers x) = c).
    { eapply numbers_unique; [|exact Hc]. exists (movers x). split; [apply movers_nodup|]. split; [|reflexivity]. intro n. apply movers_iff. now apply plan_complete_in. }
    rewrite Lc. split; [|eauto]. intro Z0. rewrite Z0 in Lc. cbn in Lc. subst c. lia.
  Qed.
  Lemma dests_fair x n : In x plans -> In n (movers x) -> dests x n <> [] /\ exists t, B = t * List.length (dests x n).
  Proof.
    intros Hx Hn. pose proof (plan_complete_in x Hx) as C. apply movers_iff in Hn; [|exact C]. destruct Hn as (q & Hq). destruct Fa as [B0 F0]. destruct (F0 x Hx) as [_ F1]. destruct (F1 n q Hq) as (c & t & Hc & Bt).
    assert (Lc : List.length (dests x n) = c).
    { eapply numbers_unique; [|exact Hc]. exists (dests x n). split; [apply dests_nodup|]. split; [|reflexivity]. intro r. now apply dests_iff. }
    rewrite Lc. split; [|eauto]. intro Z0. apply (dests_iff x n q C) in Hq. rewrite Z0 in Hq. destruct Hq.
  Qed.
  (** One draw. *)
  Lemma one_draw h a x : is_plan h a x -> In x plans ->
    exists F : nat -> option (N * P),
      (forall G, list_sum (map (fun d => match F d with Some m => G m | None => 0 end) (seq 0 (B * B))) =
                 list_sum (map (fun d => match pick B (movers x) (dests x) d with Some m => G m | None => 0 end) (seq 0 (B * B)))) /\
      forall d, exists nq, F d = Some nq /\
        exists b h1 h2, propose_bi E (d / B) (d mod B) a h = (Ok b, h1) /\
          (forall r, validator (Reusable cs) b (erase a h1, r) = (Ok (mem (place (fst nq) (snd nq) x) plans), (h2, r), Reusable cs)) /\
          keeps E h h2 /\ is_plan h2 b (place (fst nq) (snd nq) x).
  Proof.
    intros Hp Hx. pose proof (plan_complete_in x Hx) as C. destruct (call_plan h a x Hu Hp (St x Hx)) as (bs & rs & NDb & Ib & Ir & F). exists (pick B bs rs).
    assert (Pb : Permutation bs (movers x)) by (apply NoDup_Permutation; [exact NDb|apply movers_nodup|]; intro n; rewrite Ib; symmetry; now apply movers_iff).
    assert (Pr : forall n, In n bs -> Permutation (rs n) (dests x n)).
    { intros n Hn. destruct (Ir n Hn) as [ND Iq]. apply NoDup_Permutation; [exact ND|apply dests_nodup|]. intro q. rewrite Iq. symmetry. now apply dests_iff. }
    destruct (movers_fair x Hx) as [Hne Ht]. pose proof (proj1 Fa) as B0.
    assert (Hne' : bs <> []) by (intro Z0; rewrite Z0 in Pb; apply Permutation_nil in Pb; contradiction).
    assert (Hr : forall n, In n bs -> rs n <> [] /\ exists t, B = t * List.length (rs n)).
    { intros n Hn. destruct (dests_fair x n Hx) as [D1 D2]; [eapply Permutation_in; eassumption|]. rewrite (Permutation_length (Pr n Hn)). split; [|exact D2]. intro Z0. specialize (Pr n Hn). rewrite Z0 in Pr. apply Permutation_nil in Pr. contradiction. }
    split.
    - intro G. rewrite (pick_sum B bs rs G B0 Hne'), (pick_sum B (movers x) (dests x) G B0 Hne Ht); [now apply pick_perm|intros n Hn; now apply dests_fair| |exact Hr]. rewrite (Permutation_length Pb). exact Ht.
    - intro d. destruct (choice_ok (d / B) bs Hne') as (n & Hn & Hi). destruct (choice_ok (d mod B) (rs n) (proj1 (Hr n Hi))) as (q & Hq & Hiq). exists (n, q). split; [unfold pick; now rewrite Hn, Hq|]. cbn [fst snd].
      destruct (F _ _ n q Hn Hq) as (b & h1 & Hs & K1 & P1). assert (K2 := erase_keeps E h1 a (proj1 K1)). destruct (steady_all E labs cs passes b (erase a h1) _ J (plan_keeps E labs _ _ _ _ P1 K2)) as (h2 & K3 & Ev). exists b, h1, h2. split; [exact Hs|]. split.
      + intro r. rewrite Ev. pose proof (allowed_in x (n, q) Hx (proj1 (proj2 (Ir n Hi) q) Hiq)) as Am. cbn [fst snd] in Am. now rewrite Am.
      + split; [apply (keeps_trans E) with h1; [exact K1|now apply (keeps_trans E) with (erase a h1)]|]. now apply (plan_keeps E labs) with (erase a h1); [apply (plan_keeps E labs) with h1|].
  Qed.
  Lemma pick_some x d : In x plans -> exists nq, pick B (movers x) (dests x) d = Some nq /\ In (fst nq) (movers x) /\ In (snd nq) (dests x (fst nq)).
  Proof.
    intro Hx. destruct (movers_fair x Hx) as [Hne _]. unfold pick. destruct (choice_ok (d / B) _ Hne) as (n & Hn & Hi). rewrite Hn. destruct (dests_fair x n Hx Hi) as [Hne' _]. destruct (choice_ok (d mod B) _ Hne') as (q & Hq & Hiq). rewrite Hq. exists (n, q). auto.
  Qed.
  Lemma trail_S k x A d r : trailb (S k) x A (d :: r) =
    if mem (bi_of x d) plans then trailb k (bi_of x d) (fun l => A (x :: l)) r else trailb (S k) x A r.
  Proof.
    unfold P_Histogram.trailb. cbn [trail P_LongRun.cut]. unfold P_ChainLaw.outcome. rewrite valid_mem. destruct (mem (bi_of x d) plans); [|reflexivity]. unfold yes. destruct (trail _ _ _ _ k (bi_of x d) r); reflexivity.
  Qed.
  Lemma crun_count n : forall k a h x A, is_plan h a x -> In x plans -> List.length (filter (crun k a h x A) (words (B * B) n)) = cntp (B * B) k x A n.
  Proof.
    induction n as [|n IH]; intros k a h x A Hp Hx.
    - unfold P_Histogram.cntp. cbn [words]. destruct k; reflexivity.
    - destruct k as [|k].
      + unfold P_Histogram.cntp. f_equal. apply filter_ext. intro ds. destruct ds; reflexivity.
      + unfold P_Histogram.cntp. cbn [words]. rewrite !(filter_words _ (seq 0 (B * B)) (fun d => d)).
        destruct (one_draw h a x Hp Hx) as (F & Sum & Fd).
        set (G := fun nq => if mem (place (fst nq) (snd nq) x) plans then cntp (B * B) k (place (fst nq) (snd nq) x) (fun l => A (x :: l)) n else cntp (B * B) (S k) x A n).
        assert (E1 : forall d, List.length (filter (fun r => crun (S k) a h x A (d :: r)) (words (B * B) n)) = match F d with Some m => G m | None => 0 end).
        { intro d. destruct (Fd d) as (nq & Hd & b & h1 & h2 & Hs & Hv & K2 & P2). rewrite Hd. unfold G. destruct (mem (place (fst nq) (snd nq) x) plans) eqn:Em.
          - destruct (Hb b h2 (proj1 K2)) as (h3 & K3 & Eb). pose proof (plan_keeps E labs _ _ _ _ P2 K3) as P3.
            rewrite <- (IH k b h3 (place (fst nq) (snd nq) x) (fun l => A (x :: l)) P3 (proj1 (mem_In _ _) Em)). f_equal. apply filter_ext. intro r. cbn [crun]. rewrite Hs, Hv, Eb. cbn [fst]. now rewrite (read_plan E labs h3 b _ r P3).
          - rewrite <- (IH (S k) a h2 x A (plan_keeps E labs _ _ _ _ Hp K2) Hx). f_equal. apply filter_ext. intro r. cbn [crun]. rewrite Hs, Hv. reflexivity. }
        assert (E2 : forall d, List.length (filter (fun r => trailb (S k) x A (d :: r)) (words (B * B) n)) = match pick B (movers x) (dests x) d with Some m => G m | None => 0 end).
        { intro d. destruct (pick_some x d Hx) as (nq & Hd & _). rewrite Hd. unfold G, P_Histogram.cntp.
          assert (Ep : bi_of x d = place (fst nq) (snd nq) x) by (unfold bi_of; now rewrite Hd).
          rewrite (filter_ext (fun r => trailb (S k) x A (d :: r)) (fun r => if mem (place (fst nq) (snd nq) x) plans then trailb k (place (fst nq) (snd nq) x) (fun l => A (x :: l)) r else trailb (S k) x A r)) by (intro r; rewrite trail_S, Ep; reflexivity).
          now destruct (mem (place (fst nq) (snd nq) x) plans). }
        rewrite (map_ext _ _ E1), (map_ext _ _ E2). apply Sum.
  Qed.
  Lemma advance_run x k ds : In x plans -> forall n h ch, ch_valid ch = Reusable cs -> is_plan h (ch_state ch) x -> (k < ch_total ch)%Z -> List.length ds < n ->
    (exists b h2 r z, advance (bi B) always erase_link n k ch (h, ds) = (Ok b, mkChain (Reusable cs) (ch_total ch) (ch_initial ch) b (Some (k + 1)%Z), (h2, r)) /\
       List.length r < List.length ds /\ In z plans /\ is_plan h2 b z /\
       forall j A h3, body b (h2, r) = (h3, r) -> keeps E h2 h3 -> crun (S j) (ch_state ch) h x A ds = crun j b h3 z (fun l => A (x :: l)) r) \/
    (exists ch' w', advance (bi B) always erase_link n k ch (h, ds) = (NoFuel, ch', w') /\ forall j A, crun (S j) (ch_state ch) h x A ds = false).
  Proof.
    intros Hx. induction ds as [|d ds IH]; intros [|n] h ch Hv Hp Hk Hlen; cbn [List.length] in Hlen; try lia; cbn [advance].
    - right. rewrite (proj2 (Z.ltb_lt _ _) Hk). cbn. eauto.
    - rewrite (proj2 (Z.ltb_lt _ _) Hk). destruct (one_draw h (ch_state ch) x Hp Hx) as (F & _ & Fd). destruct (Fd d) as (nq & _ & b & h1 & h2 & Hs & Hval & K2 & P2). clear Fd F.
      assert (Ea : bi B (ch_state ch) (h, d :: ds) = (Ok b, (h1, ds))) by (unfold bi; cbn [fst snd]; now rewrite Hs). rewrite Ea.
      change (erase_link (ch_state ch) (h1, ds)) with (erase (ch_state ch) h1, ds). rewrite Hv, Hval. destruct (mem (place (fst nq) (snd nq) x) plans) eqn:Em.
      + left. unfold always, always_accept. cbn [ret fst snd truthy]. exists b, h2, ds, (place (fst nq) (snd nq) x). split; [reflexivity|]. split; [cbn; lia|]. split; [now apply mem_In|]. split; [exact P2|].
        intros j A h3 Eb K3. cbn [crun]. rewrite Hs, Hval, Eb. cbn [fst]. now rewrite (read_plan E labs h3 b _ ds (plan_keeps E labs _ _ _ _ P2 K3)).
      + destruct (IH n h2 (with_valid ch (Reusable cs)) eq_refl (plan_keeps E labs _ _ _ _ Hp K2) Hk ltac:(lia)) as [(b' & h' & r & z & Ed & Lr & Hz & Pz & Cr)|(ch' & w' & Ed & Cr)].
        * left. exists b', h', r, z. split; [exact Ed|]. split; [cbn; lia|]. split; [exact Hz|]. split; [exact Pz|]. intros j A h3 Eb K3. cbn [crun]. rewrite Hs, Hval. exact (Cr j A h3 Eb K3).
        * right. exists ch', w'. split; [exact Ed|]. intros j A. cbn [crun]. rewrite Hs, Hval. exact (Cr j A).
  Qed.
  Lemma loop_run k : forall n h ch x ds c A, In x plans -> ch_valid ch = Reusable cs -> is_plan h (ch_state ch) x -> ch_counter ch = Some c -> (0 < c)%Z ->
    (c + Z.of_nat k <= ch_total ch)%Z -> List.length ds < n ->
    exists ys en ch' w', loop (bi B) always erase_link k n body ch (h, ds) = (ys, en, ch', w') /\
      ((List.length ys = k /\ crun k (ch_state ch) h x A ds = A (x :: map (read E) ys)) \/ (List.length ys < k /\ crun k (ch_state ch) h x A ds = false)).
  Proof.
    induction k as [|k IH]; intros n h ch x ds c A Hx Hv Hp Hc C0 Ht Hlen.
    - do 4 eexists. split; [reflexivity|]. left. split; [reflexivity|]. destruct ds; reflexivity.
    - cbn [loop]. unfold next. rewrite Hc. replace (c =? 0)%Z with false by lia.
      destruct (advance_run x c ds Hx n h ch Hv Hp ltac:(lia) Hlen) as [(b & h2 & r & z & Ed & Lr & Hz & Pz & Cr)|(ch' & w' & Ed & Cr)]; rewrite Ed.
      + destruct (Hb b h2 (proj1 Pz)) as (h3 & K3 & Eb). rewrite Eb.
        destruct (IH n h3 (mkChain (Reusable cs) (ch_total ch) (ch_initial ch) b (Some (c + 1)%Z)) z r (c + 1)%Z (fun l => A (x :: l)) Hz eq_refl (plan_keeps E labs _ _ _ _ Pz K3) eq_refl ltac:(lia) ltac:(cbn [ch_total]; lia) ltac:(lia)) as (ys & en & ch' & w' & El & Hj).
        rewrite El. do 4 eexists. split; [reflexivity|]. rewrite (Cr k A h3 (Eb r) K3). cbn [ch_state] in Hj. cbn [map List.length].
        assert (Rd : read E (b, (h2, r)) = z) by now apply (read_plan E labs).
        destruct Hj as [[H1 H2]|[H1 H2]]; [left; split; [lia|rewrite H2]|right; split; [lia|exact H2]]. change (A (x :: z :: map (read E) ys) = A (x :: read E (b, (h2, r)) :: map (read E) ys)). now rewrite Rd.
      + do 4 eexists. split; [reflexivity|]. right. split; [cbn; lia|apply Cr].
  Qed.
  Lemma bi_iff (A : list plan -> Prop) (Ab : list plan -> bool) h ch k x n : (forall l, A l <-> Ab l = true) -> In x plans ->
    ch_valid ch = Reusable cs -> is_plan h (ch_initial ch) x -> (Z.of_nat k < ch_total ch)%Z ->
    numbers (bi_shows B A ch h (S k) n) (cntp (B * B) k x Ab n).
  Proof.
    intros HA Hx Hv Hp Hk. destruct (Hb (ch_initial ch) h (proj1 Hp)) as (h' & Kb & Eb). pose proof (plan_keeps E labs _ _ _ _ Hp Kb) as Hp'.
    rewrite <- (crun_count n k (ch_initial ch) h' x Ab Hp' Hx). apply numbers_words. intro ds.
    assert (G : List.length ds = n -> exists ys en ch' w', for_loop (bi B) always erase_link (S k) (S n) body ch (h, ds) = (ys, en, ch', w') /\
                ((List.length ys = S k /\ crun k (ch_initial ch) h' x Ab ds = Ab (map (read E) ys)) \/ (List.length ys < S k /\ crun k (ch_initial ch) h' x Ab ds = false))).
    { intro Hlen. unfold for_loop. cbn [loop]. unfold next, iter. cbn [ch_counter]. change (0 =? 0)%Z with true. cbn [ch_state ch_valid ch_total ch_initial]. rewrite Hv, Eb.
      destruct (loop_run k (S n) h' (mkChain (Reusable cs) (ch_total ch) (ch_initial ch) (ch_initial ch) (Some 1%Z)) x ds 1%Z Ab Hx eq_refl Hp' eq_refl ltac:(lia) ltac:(cbn [ch_total]; lia) ltac:(lia)) as (ys & en & ch' & w' & El & Hj).
      rewrite El. do 4 eexists. split; [reflexivity|]. cbn [ch_state] in Hj. assert (Rd : read E (ch_initial ch, (h, ds)) = x) by now apply (read_plan E labs).
      destruct Hj as [[H1 H2]|[H1 H2]]; [left; split; [cbn; lia|rewrite H2]|right; split; [cbn; lia|exact H2]]. change (Ab (x :: map (read E) ys) = Ab (read E (ch_initial ch, (h, ds)) :: map (read E) ys)). now rewrite Rd. }
    unfold bi_shows. split.
    - intros (Hlen & Hd & ys & en & ch' & w' & El & Hy & Ha). split; auto. destruct (G Hlen) as (ys2 & en2 & ch2 & w2 & E2 & Hg). rewrite El in E2. injection E2 as <- _ _ _. destruct Hg as [[_ Hg]|[Hg _]]; [|lia]. rewrite Hg. now apply HA.
    - intros ((Hlen & Hd) & Cr). split; auto. split; auto. destruct (G Hlen) as (ys2 & en2 & ch2 & w2 & E2 & Hg). exists ys2, en2, ch2, w2. split; auto. destruct Hg as [[Hg1 Hg]|[_ Hg]]; [|congruence]. split; [exact Hg1|]. apply HA. congruence.
  Qed.


  (** ** Balance *)
  Lemma count_draws x (T : plan -> bool) : In x plans ->
    List.length (filter (fun d => T (bi_of x d)) (seq 0 (B * B))) =
    B / List.length (movers x) * list_sum (map (fun n => B / List.length (dests x n) * List.length (filter (fun q => T (place n q x)) (dests x n))) (movers x)).
  Proof.
    intro Hx. destruct (movers_fair x Hx) as [Hne Ht]. rewrite count_sum.
    assert (E1 : forall d, (if T (bi_of x d) then 1 else 0) = match pick B (movers x) (dests x) d with Some m => (if T (place (fst m) (snd m) x) then 1 else 0) | None => 0 end).
    { intro d. destruct (pick_some x d Hx) as (nq & Hd & _). unfold bi_of. now rewrite Hd. }
    rewrite (map_ext _ _ E1). rewrite (pick_sum B (movers x) (dests x) (fun m => if T (place (fst m) (snd m) x) then 1 else 0) (proj1 Fa) Hne Ht) by (intros n Hn; now apply dests_fair).
    f_equal. f_equal. apply map_ext. intro n. f_equal. cbn [fst snd]. symmetry. apply count_sum.
  Qed.
  Lemma place_In (n : N) (q : P) (x : plan) m r : In (m, Some r) (place n q x) <-> (m = n /\ r = q /\ In n (map fst x)) \/ (m <> n /\ In (m, Some r) x).
  Proof.
    unfold place. rewrite in_map_iff. split.
    - intros ([m' v] & Em & Hi). cbn [fst] in Em. destruct (eqb_spec m' n) as [->|Hd]; [injection Em as <- <-; left; split; [reflexivity|split; [reflexivity|]]; apply in_map_iff; exists (n, v); auto|injection Em as <- ->; right; auto].
    - intros [(-> & -> & Hi)|[Hd Hi]]; [apply in_map_iff in Hi; destruct Hi as ([m' v] & Em & Hi); cbn in Em; subst m'; exists (n, v); cbn [fst]; rewrite eqb_refl; auto|exists (m, Some r); cbn [fst]; destruct (eqb_spec m n); [contradiction|auto]].
  Qed.
  Lemma plan_once (x : plan) n (p p' : P) : complete x -> In (n, Some p) x -> In (n, Some p') x -> p = p'.
  Proof.
    intros [C1 _] H1 H2. assert (ND : NoDup (map fst x)) by (rewrite C1; apply WG). clear C1. induction x as [|[m v] x IH]; [destruct H1|]. cbn [map fst] in ND. inversion ND as [|? ? Hn ND']; subst.
    destruct H1 as [H1|H1], H2 as [H2|H2]; [congruence| | |now apply IH]; exfalso; apply Hn; [injection H1 as -> ->|injection H2 as -> ->]; apply in_map_iff; eexists; (split; [|eassumption]); reflexivity.
  Qed.
  Definition touches (x : plan) (n : N) (r : P) : Prop := exists m, m <> n /\ adj g n m /\ In (m, Some r) x.
  Lemma move_touch (x : plan) (n : N) (p r : P) : complete x -> In (n, Some p) x -> edge_move x (n, r) <-> touches x n r /\ r <> p.
  Proof.
    intros C Hp. unfold P_Slow.edge_move, touches. cbn [fst snd]. split.
    - intros (m & Ad & Hm & Hn). split; [|intros ->; contradiction]. exists m. split; [|auto]. intros ->. contradiction.
    - intros [(m & Hd & Ad & Hm) Hr]. exists m. split; [exact Ad|]. split; [exact Hm|]. intro Hr'. apply Hr. exact (plan_once x n r p C Hr' Hp).
  Qed.
  Lemma touch_place (x : plan) (n : N) (q r : P) : touches (place n q x) n r <-> touches x n r.
  Proof.
    unfold touches. split; intros (m & Hd & Ad & Hm); exists m; (split; [exact Hd|]; split; [exact Ad|]); [apply place_In in Hm; destruct Hm as [[? _]|[_ ?]]; [contradiction|assumption]|apply place_In; auto].
  Qed.
  Lemma swap_count (T : P -> Prop) p q c : T p -> T q -> numbers (fun r => T r /\ r <> p) c -> numbers (fun r => T r /\ r <> q) c.
  Proof.
    intros Tp Tq (l & ND & Il & Ll). destruct (eqb_spec p q) as [->|Hpq]; [exists l; auto|]. exists (map (fun r => if eqb r q then p else r) l). split; [|split; [|now rewrite map_length]].
    - assert (Inj : forall a b, In a l -> In b l -> (if eqb a q then p else a) = (if eqb b q then p else b) -> a = b).
      { intros a b Ha Hb'. apply Il in Ha, Hb'. destruct (eqb_spec a q) as [->|], (eqb_spec b q) as [->|]; intro X0; auto; [subst b|subst a]; exfalso; tauto. }
      clear Il Ll. induction ND as [|a l Hn ND IH]; [constructor|]. cbn [map]. constructor.
      + intro Hi. apply in_map_iff in Hi. destruct Hi as (b & Eb & Hb'). apply Hn. rewrite (Inj a b); [exact Hb'|now left|now right|now symmetry].
      + apply IH. intros b c' H1 H2. apply Inj; now right.
    - intro r. rewrite in_map_iff. split.
      + intros (b & Eb & Hi). apply Il in Hi. destruct (eqb_spec b q) as [Eq|Nq]; subst r; [auto|tauto].
      + intros [Tr Hr]. destruct (eqb_spec r p) as [->|Hp]; [exists q; rewrite eqb_refl; split; [reflexivity|]; apply Il; auto|].
        exists r. destruct (eqb_spec r q); [contradiction|]. split; [reflexivity|]. apply Il. auto.
  Qed.
  Lemma move_back (x : plan) (n : N) (q : P) : In x plans -> In (place n q x) plans -> edge_move x (n, q) ->
    exists p, edge_move (place n q x) (n, p) /\ place n p (place n q x) = x /\ List.length (dests (place n q x) n) = List.length (dests x n).
  Proof.
    intros Hx Hy Hm. pose proof (plan_complete_in x Hx) as C. pose proof (plan_complete_in _ Hy) as Cy. destruct (St x Hx n q Hm) as (m & p & Hd & Ad & Hp & Hmp). exists p.
    assert (Tp : touches x n p) by (exists m; auto). destruct (proj1 (move_touch x n p q C Hp) Hm) as [Tq Hqp].
    assert (Hq : In (n, Some q) (place n q x)) by (apply place_In; left; split; [reflexivity|]; split; [reflexivity|]; apply in_map_iff; exists (n, Some p); auto).
    split; [apply (move_touch _ n q p Cy Hq); split; [now apply touch_place|congruence]|]. split; [now apply (place_back E labs (wfg_nodes _ WG))|].
    assert (NN : forall z, In z plans -> numbers (fun r => edge_move z (n, r)) (List.length (dests z n))).
    { intros z Hz. exists (dests z n). split; [apply dests_nodup|]. split; [|reflexivity]. intro r. apply dests_iff. now apply plan_complete_in. }
    assert (Ext : forall (T T' : P -> Prop) c, (forall r, T r <-> T' r) -> numbers T c -> numbers T' c) by (intros T T' c HT (l & H1 & H2 & H3); exists l; split; [exact H1|]; split; [intro r; rewrite H2; apply HT|exact H3]).
    eapply numbers_unique; [apply NN, Hy|]. apply (Ext (fun r => touches x n r /\ r <> q)); [intro r; rewrite (move_touch _ n q r Cy Hq), touch_place; reflexivity|].
    apply (swap_count _ p q); [exact Tp|exact Tq|]. apply (Ext (fun r => edge_move x (n, r))); [intro r; now apply move_touch|]. now apply NN.
  Qed.
  Lemma bi_draws x y : numbers (P_ChainLaw.move_draws bi_of yes (B * B) x y) (List.length (filter (fun d => eqb (bi_of x d) y) (seq 0 (B * B)))).
  Proof.
    eexists. split; [apply NoDup_filter, seq_NoDup|]. split; [|reflexivity]. intro d. rewrite filter_In, in_seq, eqb_eq. unfold P_ChainLaw.move_draws, yes. split; intros; intuition lia.
  Qed.
  Lemma same_move (x : plan) (n : N) (q : P) n' q' : In x plans -> edge_move x (n, q) -> place n' q' x = place n q x -> (n', q') = (n, q).
  Proof.
    intros Hx Hm Ep. pose proof (plan_complete_in x Hx) as C. apply (place_unique E labs (wfg_nodes _ WG) x n q n' q'); auto.
    - exact (proj1 (edge_move_labs E labs WG x (n, q) C Hm)).
    - exact (edge_move_differs E labs WG x (n, q) C Hm).
  Qed.
  Lemma move_count (x : plan) (n : N) (q : P) : In x plans -> edge_move x (n, q) ->
    List.length (movers x) * List.length (filter (fun d => eqb (bi_of x d) (place n q x)) (seq 0 (B * B))) = B * (B / List.length (dests x n)).
  Proof.
    intros Hx Hm. pose proof (plan_complete_in x Hx) as C. rewrite (count_draws x (fun z => eqb z (place n q x)) Hx).
    rewrite (sum_single _ (movers x) n (movers_nodup x)).
    - replace (List.length (filter _ (dests x n))) with 1.
      + destruct (movers_fair x Hx) as [Hne (t & Ht)]. assert (L0 : List.length (movers x) <> 0) by (destruct (movers x); [contradiction|discriminate]).
        assert (Bt : List.length (movers x) * (B / List.length (movers x)) = B) by (rewrite Ht at 1; rewrite Nat.div_mul by exact L0; lia). rewrite Nat.mul_1_r, Nat.mul_assoc, Bt. reflexivity.
      + rewrite count_sum, (sum_single _ (dests x n) q (dests_nodup x n)); [now rewrite eqb_refl|now apply dests_iff|]. intros r _ Hr. destruct (eqb_spec (place n r x) (place n q x)) as [Ep|]; [|reflexivity]. apply same_move in Ep; auto. congruence.
    - apply movers_iff; eauto.
    - intros m _ Hd. replace (List.length (filter _ (dests x m))) with 0; [lia|]. rewrite count_sum, sum_zero; [reflexivity|]. intros r _. destruct (eqb_spec (place m r x) (place n q x)) as [Ep|]; [|reflexivity]. apply same_move in Ep; auto. congruence.
  Qed.
  Lemma bi_reaches (x y : plan) d : In x plans -> bi_of x d = y -> exists n q, edge_move x (n, q) /\ y = place n q x.
  Proof.
    intros Hx <-. destruct (pick_some x d Hx) as ([n q] & Hd & H1 & H2). exists n, q. unfold bi_of. rewrite Hd. split; [|reflexivity]. apply dests_iff; [now apply plan_complete_in|exact H2].
  Qed.
  Definition spread (x : plan) : Q := Qn (List.length (movers x)).
  Lemma bi_balanced : P_ChainLaw.balanced bi_of yes (B * B) [belongs] belongsp spread.
  Proof.
    intros x y a b Vx Vy Hxy Ha Hc. rewrite valid_mem in Vx, Vy. apply mem_In in Vx, Vy.
    rewrite (numbers_unique _ _ _ Ha (bi_draws x y)), (numbers_unique _ _ _ Hc (bi_draws y x)). clear Ha Hc a b. unfold spread. rewrite <- !Qn_times.
    assert (Sym : forall x y, In x plans -> In y plans -> (exists n q, edge_move x (n, q) /\ y = place n q x) ->
      List.length (movers x) * List.length (filter (fun d => eqb (bi_of x d) y) (seq 0 (B * B))) = List.length (movers y) * List.length (filter (fun d => eqb (bi_of y d) x) (seq 0 (B * B)))).
    { clear - St Co Fa NL WG. intros x y Hx Hy (n & q & Hm & ->). destruct (move_back x n q Hx Hy Hm) as (p & Hm' & Ep & Lp). rewrite (move_count x n q Hx Hm). pose proof (move_count _ n p Hy Hm') as M. rewrite Ep in M. now rewrite M, Lp. }
    destruct (filter (fun d => eqb (bi_of x d) y) (seq 0 (B * B))) as [|d l] eqn:E1.
    - destruct (filter (fun d => eqb (bi_of y d) x) (seq 0 (B * B))) as [|d' l'] eqn:E2; [cbn [List.length]; rewrite !Nat.mul_0_r; reflexivity|].
      assert (Hd : In d' (filter (fun d => eqb (bi_of y d) x) (seq 0 (B * B)))) by (rewrite E2; now left). apply filter_In in Hd. destruct Hd as [_ Hd]. apply (proj1 (eqb_eq _ _)) in Hd. pose proof (Sym y x Vy Vx (bi_reaches y x d' Vy Hd)) as X0. rewrite E1, E2 in X0. now rewrite X0.
    - assert (Hd : In d (filter (fun d => eqb (bi_of x d) y) (seq 0 (B * B)))) by (rewrite E1; now left). apply filter_In in Hd. destruct Hd as [_ Hd]. apply (proj1 (eqb_eq _ _)) in Hd. pose proof (Sym x y Vx Vy (bi_reaches x y d Vx Hd)) as X0. rewrite E1 in X0. now rewrite X0.
  Qed.
  Definition valid_count (x : plan) : nat := List.length (filter (fun d => mem (bi_of x d) plans) (seq 0 (B * B))).
  Lemma valid_numbers x : numbers (P_ChainLaw.valid_draws bi_of (B * B) [belongs] belongsp x) (valid_count x).
  Proof.
    eexists. split; [apply NoDup_filter, seq_NoDup|]. split; [|reflexivity]. intro d. rewrite filter_In, in_seq. unfold P_ChainLaw.valid_draws. rewrite valid_mem. intuition lia.
  Qed.
  Lemma allowed_sum x l : In x plans -> incl l (movers x) ->
    (Qn (list_sum (map (fun n => (B / List.length (dests x n) * List.length (filter (fun q => mem (place n q x) plans) (dests x n)))%nat) l)) ==
     Qn B * qsum (flat_map (fun n => map (pair n) (filter (fun q => mem (place n q x) plans) (dests x n))) l) (fun nq => 1 / Qn (List.length (dests x (fst nq)))))%Q.
  Proof.
    intro Hx. induction l as [|n l IH]; intro Hl; [change (Qn 0 == Qn B * 0)%Q; change (Qn 0) with 0%Q; ring|]. cbn [map flat_map]. rewrite qsum_both.
    change (list_sum (?a :: ?b)) with (a + list_sum b). rewrite Qn_plus, IH by (intros m Hm; apply Hl; now right). rewrite qsum_map. cbn [fst]. rewrite qsum_const.
    destruct (dests_fair x n Hx (Hl n (or_introl eq_refl))) as [Hne (t & Ht)]. assert (L0 : 0 < List.length (dests x n)) by (destruct (dests x n); [contradiction|cbn; lia]).
    assert (D0 := pos_Qn _ L0). replace (B / List.length (dests x n)) with t by (rewrite Ht, Nat.div_mul by lia; reflexivity). rewrite Qn_times.
    assert (EB : (Qn B == Qn t * Qn (List.length (dests x n)))%Q) by (rewrite <- Qn_times, <- Ht; reflexivity). rewrite EB. field. lra.
  Qed.
  Lemma good_weight x w : In x plans -> weighs x w -> (spread x * Qn (valid_count x) == Qn (B * B) * w)%Q.
  Proof.
    intros Hx (l & c & ND & Il & Ic & Ew). pose proof (plan_complete_in x Hx) as C. unfold spread, valid_count. rewrite (count_draws x (fun z => mem z plans) Hx). rewrite <- Qn_times.
    destruct (movers_fair x Hx) as [Hne (t & Ht)]. assert (L0 : List.length (movers x) <> 0) by (destruct (movers x); [contradiction|discriminate]).
    assert (Bt : List.length (movers x) * (B / List.length (movers x)) = B) by (rewrite Ht at 1; rewrite Nat.div_mul by exact L0; lia). rewrite Nat.mul_assoc, Bt, !Qn_times, (allowed_sum x (movers x) Hx (incl_refl _)), Ew.
    set (f := flat_map (fun n => map (pair n) (filter (fun q => mem (place n q x) plans) (dests x n))) (movers x)).
    assert (If : forall nq, In nq f <-> edge_move x nq /\ mem (place (fst nq) (snd nq) x) plans = true).
    { intros [n q]. unfold f. rewrite in_flat_map. cbn [fst snd]. split.
      - intros (m & Hm & Hi). apply in_map_iff in Hi. destruct Hi as (r & [= -> ->] & Hr). apply filter_In in Hr. destruct Hr as [Hr Hp]. split; [now apply dests_iff|exact Hp].
      - intros [Hm Hp]. exists n. split; [apply movers_iff; eauto|]. apply in_map. apply filter_In. split; [now apply dests_iff|exact Hp]. }
    assert (Pl : Permutation l f).
    { apply NoDup_Permutation; [exact ND| |].
      - unfold f. clear - NL WG. pose proof (movers_nodup x) as Nm. induction (movers x) as [|n m IH]; [constructor|]. inversion Nm as [|? ? Hn Nm']; subst. cbn [flat_map]. apply NoDup_app_iff. split; [|split; [now apply IH|]].
        + apply FinFun.Injective_map_NoDup; [intros a b [= ->]; reflexivity|]. apply NoDup_filter, dests_nodup.
        + intros [a b] Hi Hj. apply in_map_iff in Hi. destruct Hi as (r & [= <- <-] & _). apply in_flat_map in Hj. destruct Hj as (m' & Hm' & Hj). apply in_map_iff in Hj. destruct Hj as (r' & [= -> ->] & _). contradiction.
      - intro nq. rewrite Il, If. unfold slow_options. split; intros [H1 H2]; (split; [exact H1|]); [rewrite <- (allowed_in x nq Hx H1)|rewrite (allowed_in x nq Hx H1)]; exact H2. }
    assert (Es : (qsum l (fun nq => 1 / Qn (c nq)) == qsum f (fun nq => 1 / Qn (List.length (dests x (fst nq)))))%Q).
    { rewrite <- (qsum_permuted _ _ _ Pl). apply qsum_ext. intros nq Hi. replace (c nq) with (List.length (dests x (fst nq))); [reflexivity|]. eapply numbers_unique; [|apply Ic, Hi]. exists (dests x (fst nq)). split; [apply dests_nodup|]. split; [|reflexivity]. intro r. now apply dests_iff. }
    rewrite Es. ring.
  Qed.
  Lemma bi_closed w : (forall x, In x plans -> weighs x (w x) /\ (0 < w x)%Q) -> closed bi_of (B * B) [belongs] belongsp plans.
  Proof.
    intro Hw. pose proof Co as (Np & _). split; [exact Np|]. split.
    - intros x Hx. split; [rewrite valid_mem; now apply mem_In|]. destruct (Hw x Hx) as [Hn Hp]. pose proof (good_weight x (w x) Hx Hn) as Eg.
      destruct (valid_numbers x) as (l & Nl & Il & Ll). destruct l as [|d l].
      + exfalso. cbn in Ll. rewrite <- Ll in Eg. change (Qn 0) with 0%Q in Eg. assert (B0 : 0 < B * B) by (pose proof (proj1 Fa); nia). pose proof (pos_Qn _ B0). assert (0 < Qn (B * B) * w x)%Q by now apply Qmult_lt_0_compat. lra.
      + exists d. exact (proj1 (Il d) (or_introl eq_refl)).
    - intros x d _ _ Vd. rewrite valid_mem in Vd. now apply mem_In.
  Qed.
  Lemma bi_connected : connected bi_of yes (B * B) plans.
  Proof.
    intros x y Hx Hy. pose proof Co as (_ & H1 & Hc & Hr). specialize (Hr x y Hx Hy). induction Hr as [|b c R IH (Hb' & nq & Ho & ->)]; [constructor|]. econstructor; [now apply IH|].
    split; [exact Hb'|]. split; [now apply Hc|]. destruct Ho as [Hm _]. destruct nq as [n q]. cbn [fst snd]. pose proof (move_count b n q Hb' Hm) as M.
    destruct (dests_fair b n Hb') as [Hne (t & Ht)]; [apply movers_iff; [now apply plan_complete_in|eauto]|]. assert (L0 : List.length (dests b n) <> 0) by (destruct (dests b n); [contradiction|discriminate]).
    replace (B / List.length (dests b n)) with t in M by (rewrite Ht, Nat.div_mul by exact L0; reflexivity). pose proof (proj1 Fa) as B0. assert (t0 : 0 < t) by (destruct t; [cbn in Ht; lia|lia]).
    destruct (filter (fun d => eqb (bi_of b d) (place n q b)) (seq 0 (B * B))) as [|d l] eqn:El; [cbn [List.length] in M; nia|].
    assert (Hd : In d (filter (fun d => eqb (bi_of b d) (place n q b)) (seq 0 (B * B)))) by (rewrite El; now left). apply filter_In in Hd. destruct Hd as [Hs Hd]. apply in_seq in Hs. apply (proj1 (eqb_eq _ _)) in Hd. exists d. split; [lia|]. split; [exact Hd|reflexivity].
  Qed.
  Lemma bi_fraction w y : (forall x, In x plans -> weighs x (w x) /\ (0 < w x)%Q) -> In y plans -> (share plans spread valid_count y == fraction plans w y)%Q.
  Proof.
    intros Hw Hy. unfold share, fraction. assert (E0 : (qsum plans (fun x => spread x * Qn (valid_count x)) == Qn (B * B) * qsum plans w)%Q).
    { rewrite <- qsum_scale. apply qsum_ext. intros x Hx. now apply good_weight, Hw. }
    rewrite E0, (good_weight y (w y) Hy (proj1 (Hw y Hy))). assert (B0 : 0 < B * B) by (pose proof (proj1 Fa); nia). pose proof (pos_Qn _ B0) as D0. unfold Qdiv. rewrite Qinv_mult_distr.
    assert (I : (Qn (B * B) * / Qn (B * B) == 1)%Q) by (apply Qmult_inv_r; lra). set (T := (/ qsum plans w)%Q). setoid_replace (Qn (B * B) * w y * (/ Qn (B * B) * T))%Q with ((Qn (B * B) * / Qn (B * B)) * (w y * T))%Q by ring. rewrite I. ring.
  Qed.
  Lemma bi_transfer (A : list plan -> Prop) (Ab : list plan -> bool) h ch x k p : (forall l, A l <-> Ab l = true) ->
    ch_valid ch = Reusable cs -> In x plans -> is_plan h (ch_initial ch) x -> (Z.of_nat k < ch_total ch)%Z ->
    at_least bi_of yes (B * B) A (mkChain (Reusable [belongs]) (ch_total ch) x x None) (S k) p -> most_bi B A ch h (S k) p.
  Proof.
    intros HA Hv Hx Hp Hk H eps He. destruct (H eps He) as (n0 & H0). exists n0. intros n Hle. destruct (H0 n Hle) as (c & Nc & Bd). exists c. split; [|exact Bd].
    assert (Ec : c = cntp (B * B) k x Ab n); [|rewrite Ec; now apply bi_iff]. eapply numbers_unique; [exact Nc|]. apply numbers_words. intro ds.
    exact (shows_iff bi_of yes (B * B) [belongs] belongsp A Ab (mkChain (Reusable [belongs]) (ch_total ch) x x None) k x n ds HA (belongs_pure plans) eq_refl eq_refl Hk).
  Qed.
  Lemma spread_pos x : In x plans -> (0 < spread x)%Q.
  Proof. intro Hx. apply pos_Qn. destruct (movers_fair x Hx) as [Hne _]. destruct (movers x); [contradiction|cbn; lia]. Qed.
End Bi.

Section Theorems.
  Context {N P V L : Type} {EN : EqB N} {EP : EqB P} {EL : EqB L} {ON : Ord N} {RV : CRing V}.
  Variable E : env N P V L.
  Notation g := (e_graph E).
  Notation plan := (plan (N := N) (P := P)).
  Notation objects := (objects (N := N) (P := P) (V := V) (L := L)).
  (** The setting: a well-formed graph with the cut_edges updater, districts
      [labs], constraints and loop body that leave the objects alone, a component
      of allowed plans, all of them settled, and their weights [w]. *)
  Definition bi_setting (labs : list P) (cs : list (constraint nat objects)) passes body (plans : list plan) (B : nat) (w : plan -> Q) : Prop :=
    wf_graph g /\ dget (e_updaters E) "cut_edges"%string = Some UCutEdges /\ NoDup labs /\ steady E labs cs passes /\ calm E body /\
    slow_component E labs cs passes plans /\ (forall x, In x plans -> settled E x) /\ bi_fair E plans B /\
    forall x, In x plans -> weighs E cs passes x (w x) /\ (0 < w x)%Q.

  (** Averages over a long run are close to the mean in which a plan weighs the
      sum over its allowed moves of one divided by the number of choices for the
      node that moves. *)
  Theorem C129_averages labs cs passes body plans B w (f : plan -> Q) : bi_setting labs cs passes body plans B w ->
    forall eps, (0 < eps)%Q -> exists k0, forall k, k0 <= k -> forall h ch x, ch_valid ch = Reusable cs -> In x plans -> is_plan E labs h (ch_initial ch) x -> (Z.of_nat k <= ch_total ch)%Z ->
      most_bi E body B (fun l => Qabs (average f l - qsum plans (fun y => fraction plans w y * f y)) <= eps)%Q ch h k (1 - eps).
  Proof.
    intros (WG & Hu & NL & J & Hb & Co & St & Fa & Hw) eps He.
    destruct (C125_averages (bi_of E labs B) yes (B * B) [belongs plans] (belongsp plans) plans (spread E labs) (valid_count E labs plans B) f (belongs_pure plans)
      (bi_closed E labs cs passes WG plans B Co St Fa NL w Hw) (bi_connected E labs cs passes WG plans B Co St Fa NL) (bi_balanced E labs cs passes WG plans B Co St Fa NL)
      (spread_pos E labs cs passes WG plans B Co St Fa) (fun x _ => valid_numbers E labs plans B St x) eps He) as (k0 & Hk).
    exists (S k0). intros [|k] Hle h ch x Vch Hx Px Tch; [lia|].
    assert (E0 : (qsum plans (fun y => fraction plans w y * f y) == qsum plans (fun y => share plans (spread E labs) (valid_count E labs plans B) y * f y))%Q).
    { apply qsum_ext. intros y Hy. assert (Eq : (share plans (spread E labs) (valid_count E labs plans B) y == fraction plans w y)%Q) by exact (bi_fraction E labs cs passes WG plans B Co St Fa NL w y Hw Hy). now rewrite Eq. }
    eapply (bi_transfer E labs cs passes body WG plans B Hu J Hb Co St Fa NL _ (fun l => Qle_bool (Qabs (average f l - qsum plans (fun y => fraction plans w y * f y))) eps)%Q h ch x); auto.
    - intro l. symmetry. apply Qle_bool_iff.
    - lia.
    - eapply at_least_ext; [|apply (Hk (S k) ltac:(lia) (mkChain (Reusable [belongs plans]) (ch_total ch) x x None) eq_refl Hx Tch)]. intro l. cbn beta. now rewrite E0.
  Qed.
  (** The share of every plan among the plans of a long run. *)
  Theorem C129_histogram labs cs passes body plans B w y : bi_setting labs cs passes body plans B w -> In y plans ->
    forall eps, (0 < eps)%Q -> exists k0, forall k, k0 <= k -> forall h ch x, ch_valid ch = Reusable cs -> In x plans -> is_plan E labs h (ch_initial ch) x -> (Z.of_nat k <= ch_total ch)%Z ->
      most_bi E body B (fun l => Qabs (portion y l - fraction plans w y) <= eps)%Q ch h k (1 - eps).
  Proof.
    intros (WG & Hu & NL & J & Hb & Co & St & Fa & Hw) Hy eps He.
    destruct (C125_histogram (bi_of E labs B) yes (B * B) [belongs plans] (belongsp plans) plans (spread E labs) (valid_count E labs plans B) y (belongs_pure plans)
      (bi_closed E labs cs passes WG plans B Co St Fa NL w Hw) (bi_connected E labs cs passes WG plans B Co St Fa NL) (bi_balanced E labs cs passes WG plans B Co St Fa NL)
      (spread_pos E labs cs passes WG plans B Co St Fa) (fun x _ => valid_numbers E labs plans B St x) Hy eps He) as (k0 & Hk).
    exists (S k0). intros [|k] Hle h ch x Vch Hx Px Tch; [lia|].
    assert (Eq : (share plans (spread E labs) (valid_count E labs plans B) y == fraction plans w y)%Q) by exact (bi_fraction E labs cs passes WG plans B Co St Fa NL w y Hw Hy).
    eapply (bi_transfer E labs cs passes body WG plans B Hu J Hb Co St Fa NL _ (fun l => Qle_bool (Qabs (portion y l - fraction plans w y)) eps)%Q h ch x); auto.
    - intro l. symmetry. apply Qle_bool_iff.
    - lia.
    - eapply at_least_ext; [|apply (Hk (S k) ltac:(lia) (mkChain (Reusable [belongs plans]) (ch_total ch) x x None) eq_refl Hx Tch)]. intro l. cbn beta. now rewrite Eq.
  Qed.
End Theorems.
Print Assumptions C129_averages.
Print Assumptions C129_histogram.

(** ** Three arms meeting in a node *)
(** Node 0 joins the arms 1-2-3, 4-5 and 6-7. The plans: node 0 belongs to one of
    the three arms, or nodes 0 and 1 belong to the second. *)
Definition tri : env nat nat Z nat :=
  mkEnv (mkGraph [0; 1; 2; 3; 4; 5; 6; 7] [(0, 1); (1, 2); (2, 3); (0, 4); (4, 5); (0, 6); (6, 7)]) (fun _ _ => None) (fun _ => false) (fun _ => 0%Z) (fun _ => 0%Z)
        (fun _ _ => None) [("cut_edges"%string, UCutEdges)].
Lemma tri_wf : wf_env tri.
Proof.
  split.
  - constructor; simpl.
    + nodup.
    + nodup.
    + intros u v H. repeat destruct H as [H|H]; try injection H as <- <-; simpl; auto 12.
    + intros u v H H'. repeat destruct H as [H|H]; try injection H as <- <-; repeat destruct H' as [H'|H']; try discriminate; tauto.
  - intros k ps al H. apply dget_In in H. simpl in H. repeat destruct H as [H|H]; try discriminate; contradiction.
Qed.
Lemma tri_registered : registered tri.
Proof.
  intros k u H k' u' H'. apply dget_In in H. simpl in H. repeat destruct H as [H|H]; try contradiction; injection H as <- <-; simpl in H';
  repeat destruct H' as [H'|H']; try contradiction; injection H' as <- <-; reflexivity.
Qed.
Definition tri_labels (l : list nat) : dict nat nat := combine [0; 1; 2; 3; 4; 5; 6; 7] l.
Definition tri_plan (l : list nat) : plan (N := nat) (P := nat) := map (fun nq => (fst nq, Some (snd nq))) (tri_labels l).
Definition tri_1 : plan := tri_plan [1; 1; 1; 1; 2; 2; 3; 3].
Definition tri_2 : plan := tri_plan [2; 1; 1; 1; 2; 2; 3; 3].
Definition tri_3 : plan := tri_plan [3; 1; 1; 1; 2; 2; 3; 3].
Definition tri_4 : plan := tri_plan [2; 2; 1; 1; 2; 2; 3; 3].
Definition tri_plans : list plan := [tri_1; tri_2; tri_3; tri_4].
Definition tri_heap : heap nat nat Z nat := match root tri (tri_labels [1; 1; 1; 1; 2; 2; 3; 3]) with Ok h => h | _ => [] end.
Lemma tri_start : is_plan tri [1; 2; 3] tri_heap 0 tri_1.
Proof.
  split.
  - split; [exact tri_wf|]. split; [exact tri_registered|]. exists (tri_labels [1; 1; 1; 1; 2; 2; 3; 3]), tri_heap, []. split; [vm_compute; nodup|]. split; [vm_compute; reflexivity|]. split; [constructor|reflexivity].
  - eexists. split; [vm_compute; reflexivity|]. split; vm_compute; reflexivity.
Qed.
Definition known : constraint nat (objects (N := nat) (P := nat) (V := Z) (L := nat)) :=
  fun a w => (Ok (PBool (mem (match nth_error (fst w) a with Some o => plan_of tri (o_assign o) | None => [] end) tri_plans)), w).
Definition knownp (c : constraint nat (objects (N := nat) (P := nat) (V := Z) (L := nat))) (x : plan) : bool := mem x tri_plans.
Definition tri_w (x : plan (N := nat) (P := nat)) : Q := if eqb x tri_2 then 2%Q else 1%Q.
Lemma tri_complete x : In x tri_plans -> complete tri [1; 2; 3] x.
Proof. intro Hx. apply shaped_iff. destruct Hx as [<-|[<-|[<-|[<-|[]]]]]; reflexivity. Qed.
Lemma tri_steady : steady tri [1; 2; 3] [known] knownp.
Proof.
  intros c a h x [<-|[]] (S & o & Ho & _ & Hx). exists h. split; [split; [exact S|eauto]|]. intro ds. unfold known, knownp. cbn [fst]. now rewrite Ho, Hx.
Qed.
Lemma tri_calm : calm tri (fun _ w => w).
Proof. intros a h S. exists h. split; [split; [exact S|eauto]|reflexivity]. Qed.
Lemma tri_moves x nq : In x tri_plans -> edge_move tri x nq <-> In nq (moves_of tri [1; 2; 3] x).
Proof. intro Hx. symmetry. apply moves_of_iff; [apply tri_wf|now apply tri_complete]. Qed.
Lemma tri_options x nq : In x tri_plans -> slow_options tri [known] knownp x nq <->
  In nq (filter (fun nq => mem (place (fst nq) (snd nq) x) tri_plans) (moves_of tri [1; 2; 3] x)).
Proof.
  intro Hx. rewrite filter_In, <- tri_moves by exact Hx. unfold slow_options, P_AnyNode.allowed, knownp. cbn [forallb]. now rewrite andb_true_r.
Qed.
Lemma tri_component : slow_component tri [1; 2; 3] [known] knownp tri_plans.
Proof.
  assert (Cl : forall x nq, In x tri_plans -> slow_options tri [known] knownp x nq -> In (place (fst nq) (snd nq) x) tri_plans).
  { intros x nq Hx Ho. apply tri_options in Ho; [|exact Hx]. apply filter_In in Ho. now apply mem_In. }
  split; [nodup|]. split; [intros x Hx; split; [now apply tri_complete|]; destruct Hx as [<-|[<-|[<-|[<-|[]]]]]; reflexivity|]. split; [exact Cl|].
  set (R := fun a b => In a tri_plans /\ exists nq, slow_options tri [known] knownp a nq /\ b = place (fst nq) (snd nq) a).
  assert (Step : forall x y nq, In x tri_plans -> In nq (filter (fun nq => mem (place (fst nq) (snd nq) x) tri_plans) (moves_of tri [1; 2; 3] x)) -> y = place (fst nq) (snd nq) x -> R x y).
  { intros x y nq Hx Hi ->. split; [exact Hx|]. exists nq. split; [now apply tri_options|reflexivity]. }
  assert (R12 : R tri_1 tri_2) by (apply (Step _ _ (0, 2)); [cbn; auto|vm_compute; auto|reflexivity]). assert (R21 : R tri_2 tri_1) by (apply (Step _ _ (0, 1)); [cbn; auto|vm_compute; auto|reflexivity]).
  assert (R32 : R tri_3 tri_2) by (apply (Step _ _ (0, 2)); [cbn; auto|vm_compute; auto|reflexivity]). assert (R23 : R tri_2 tri_3) by (apply (Step _ _ (0, 3)); [cbn; auto|vm_compute; auto|reflexivity]).
  assert (R42 : R tri_4 tri_2) by (apply (Step _ _ (1, 1)); [cbn; auto|vm_compute; auto|reflexivity]). assert (R24 : R tri_2 tri_4) by (apply (Step _ _ (1, 2)); [cbn; auto|vm_compute; auto|reflexivity]).
  intros x y Hx Hy. assert (A : reach R x tri_2) by (destruct Hx as [<-|[<-|[<-|[<-|[]]]]]; [|constructor| |]; (econstructor; [constructor|assumption])).
  destruct Hy as [<-|[<-|[<-|[<-|[]]]]]; [|exact A| |]; (econstructor; [exact A|assumption]).
Qed.
Lemma tri_settled x : In x tri_plans -> settled tri x.
Proof.
  intros Hx n q Hm. apply tri_moves in Hm; [|exact Hx].
  assert (Ad : forall i j, In (i, j) (g_edges (e_graph tri)) -> adj (e_graph tri) i j /\ adj (e_graph tri) j i) by (intros i j H; split; [left|right]; exact H).
  assert (Use : forall m p, m <> n -> In (n, m) (g_edges (e_graph tri)) \/ In (m, n) (g_edges (e_graph tri)) -> In (n, Some p) x -> In (m, Some p) x -> exists m p, m <> n /\ adj (e_graph tri) n m /\ In (n, Some p) x /\ In (m, Some p) x).
  { intros m p H1 [H2|H2] H3 H4; exists m, p; (split; [exact H1|]; split; [apply Ad in H2; tauto|auto]). }
  destruct Hx as [<-|[<-|[<-|[<-|[]]]]]; vm_compute in Hm; repeat destruct Hm as [Hm|Hm]; try contradiction; injection Hm as <- <-;
    first [apply (Use 1 1); [discriminate|cbn; tauto|cbn; tauto|cbn; tauto]|apply (Use 4 2); [discriminate|cbn; tauto|cbn; tauto|cbn; tauto]|apply (Use 6 3); [discriminate|cbn; tauto|cbn; tauto|cbn; tauto]
          |apply (Use 5 2); [discriminate|cbn; tauto|cbn; tauto|cbn; tauto]|apply (Use 7 3); [discriminate|cbn; tauto|cbn; tauto|cbn; tauto]|apply (Use 2 1); [discriminate|cbn; tauto|cbn; tauto|cbn; tauto]
          |apply (Use 0 2); [discriminate|cbn; tauto|cbn; tauto|cbn; tauto]|apply (Use 3 1); [discriminate|cbn; tauto|cbn; tauto|cbn; tauto]].
Qed.
Lemma tri_dests x n : In x tri_plans -> numbers (fun r => edge_move tri x (n, r)) (List.length (dests tri [1; 2; 3] x n)).
Proof. intro Hx. exists (dests tri [1; 2; 3] x n). split; [apply NoDup_filter; nodup|]. split; [|reflexivity]. intro r. apply dests_iff; [apply tri_wf|now apply tri_complete]. Qed.
Lemma tri_fair : bi_fair tri tri_plans 12.
Proof.
  split; [lia|]. intros x Hx. split.
  - exists (List.length (movers tri [1; 2; 3] x)), (12 / List.length (movers tri [1; 2; 3] x)). split.
    + exists (movers tri [1; 2; 3] x). split; [apply NoDup_filter, tri_wf|]. split; [|reflexivity]. intro n. apply movers_iff; [apply tri_wf|now apply tri_complete].
    + destruct Hx as [<-|[<-|[<-|[<-|[]]]]]; vm_compute; reflexivity.
  - intros n q Hm. exists (List.length (dests tri [1; 2; 3] x n)), (12 / List.length (dests tri [1; 2; 3] x n)). split; [now apply tri_dests|]. apply tri_moves in Hm; [|exact Hx].
    destruct Hx as [<-|[<-|[<-|[<-|[]]]]]; vm_compute in Hm; repeat destruct Hm as [Hm|Hm]; try contradiction; injection Hm as <- <-; vm_compute; reflexivity.
Qed.
Lemma tri_setting : bi_setting tri [1; 2; 3] [known] knownp (fun _ w => w) tri_plans 12 tri_w.
Proof.
  split; [apply tri_wf|]. split; [reflexivity|]. split; [nodup|]. split; [apply tri_steady|]. split; [apply tri_calm|]. split; [apply tri_component|]. split; [apply tri_settled|]. split; [apply tri_fair|].
  intros x Hx. split; [|unfold tri_w; destruct (eqb x tri_2); reflexivity]. exists (filter (fun nq => mem (place (fst nq) (snd nq) x) tri_plans) (moves_of tri [1; 2; 3] x)), (fun nq => List.length (dests tri [1; 2; 3] x (fst nq))).
  split; [apply NoDup_filter, NoDup_filter, NoDup_prod; vm_compute; nodup|]. split; [intro nq; symmetry; now apply tri_options|]. split; [intros nq _; now apply tri_dests|]. destruct Hx as [<-|[<-|[<-|[<-|[]]]]]; vm_compute; reflexivity.
Qed.
Definition tri_runs (A : list (plan (N := nat) (P := nat)) -> Prop) (k : nat) (p : Q) : Prop :=
  most_bi tri (fun _ w => w) 12 A (mkChain (Reusable [known]) (Z.of_nat k) 0 0 None) tri_heap k p.
Lemma tri_share y c : In y tri_plans -> (fraction tri_plans tri_w y == c)%Q -> forall eps, (0 < eps)%Q -> exists k0, forall k, k0 <= k ->
  tri_runs (fun l => Qabs (portion y l - c) <= eps)%Q k (1 - eps).
Proof.
  intros Hy Hc eps He. destruct (C129_histogram tri [1; 2; 3] [known] knownp (fun _ w => w) tri_plans 12 tri_w y tri_setting Hy eps He) as (k0 & Hk).
  exists k0. intros k Hle e He'. destruct (Hk k Hle tri_heap (mkChain (Reusable [known]) (Z.of_nat k) 0 0 None) tri_1 eq_refl ltac:(cbn; auto) tri_start ltac:(cbn; lia) e He') as (n0 & Hn).
  exists n0. intros n Hl. destruct (Hn n Hl) as (m & (l & N1 & I1 & L1) & Bd). exists m. split; [|exact Bd]. exists l. split; [exact N1|]. split; [|exact L1]. intro ds. rewrite I1. unfold bi_shows.
  split; intros (H1 & H2 & ys & en & ch' & w' & H3 & H4 & H5); (split; [exact H1|]; split; [exact H2|]; exists ys, en, ch', w'; split; [exact H3|]; split; [exact H4|]); [rewrite <- Hc|rewrite Hc]; exact H5.
Qed.
(** One plan makes up two fifths of a long run, each of the others one fifth. *)
Example C129_nonvacuous : forall eps, (0 < eps)%Q -> exists k0, forall k, k0 <= k ->
  tri_runs (fun l => Qabs (portion tri_2 l - (2 # 5)) <= eps)%Q k (1 - eps) /\ tri_runs (fun l => Qabs (portion tri_4 l - (1 # 5)) <= eps)%Q k (1 - eps).
Proof.
  intros eps He. destruct (tri_share tri_2 (2 # 5)%Q ltac:(cbn; auto) ltac:(vm_compute; reflexivity) eps He) as (k1 & H1). destruct (tri_share tri_4 (1 # 5)%Q ltac:(cbn; auto) ltac:(vm_compute; reflexivity) eps He) as (k2 & H2).
  exists (Nat.max k1 k2). intros k Hle. split; [apply H1|apply H2]; lia.
Qed.
(** C129. slow_reversible_propose_bi does not sample the allowed plans uniformly:
    here are four of them, and the share of one does not come near 1/4. *)
Theorem C129_uniform_refuted : exists (E : env nat nat Z nat) labs cs passes plans B w h x y,
  bi_setting E labs cs passes (fun _ w => w) plans B w /\ is_plan E labs h 0 x /\ In x plans /\ In y plans /\
  ~ (forall eps, (0 < eps)%Q -> exists k0, forall k, k0 <= k ->
      most_bi E (fun _ w => w) B (fun l => Qabs (portion y l - 1 / Qn (List.length plans)) <= eps)%Q (mkChain (Reusable cs) (Z.of_nat k) 0 0 None) h k (1 - eps)).
Proof.
  exists tri, [1; 2; 3], [known], knownp, tri_plans, 12, tri_w, tri_heap, tri_1, tri_2. split; [apply tri_setting|]. split; [apply tri_start|]. split; [cbn; auto|]. split; [cbn; auto|].
  intro H. destruct (H (1 # 50)%Q eq_refl) as (k1 & H1). destruct (tri_share tri_2 (2 # 5)%Q ltac:(cbn; auto) ltac:(vm_compute; reflexivity) (1 # 50)%Q eq_refl) as (k2 & H2).
  specialize (H1 (Nat.max k1 k2) ltac:(lia) (1 # 50)%Q eq_refl). specialize (H2 (Nat.max k1 k2) ltac:(lia) (1 # 50)%Q eq_refl). destruct H1 as (n1 & H1). destruct H2 as (n2 & H2).
  destruct (H1 (Nat.max n1 n2) ltac:(lia)) as (a & (la & Na & Ia & <-) & Ba). destruct (H2 (Nat.max n1 n2) ltac:(lia)) as (b & (lb & Nb & Ib & <-) & Bb). set (n := Nat.max n1 n2) in *. set (D := 12 * 12) in *.
  assert (U : List.length (la ++ lb) <= List.length (words D n)).
  { apply NoDup_incl_length.
    - apply NoDup_app_iff. split; [exact Na|]. split; [exact Nb|]. intros ds Hda Hdb. apply Ia in Hda. apply Ib in Hdb. destruct Hda as (_ & _ & ys & en & ch' & w' & E1 & _ & A1). destruct Hdb as (_ & _ & ys2 & en2 & ch2 & w2 & E2 & _ & A2).
      rewrite E1 in E2. injection E2 as <- _ _ _. change (1 / Qn (List.length tri_plans))%Q with (1 # 4)%Q in A1. apply Qabs_Qle_condition in A1, A2. lra.
    - intros ds Hd. apply in_app_or in Hd. apply In_words. destruct Hd as [Hd|Hd]; [apply Ia in Hd|apply Ib in Hd]; (split; apply Hd). }
  rewrite app_length, length_words in U. assert (D0 : (0 < Qn (D ^ n))%Q) by (apply pos_Qn, Nat.neq_0_lt_0, Nat.pow_nonzero; discriminate).
  assert (Us : (Qn (List.length la) / Qn (D ^ n) + Qn (List.length lb) / Qn (D ^ n) <= 1)%Q).
  { setoid_replace (Qn (List.length la) / Qn (D ^ n) + Qn (List.length lb) / Qn (D ^ n))%Q with (Qn (List.length la + List.length lb) / Qn (D ^ n))%Q by (rewrite Qn_plus; field; lra).
    apply Qle_shift_div_r; [exact D0|]. rewrite Qmult_1_l. unfold Qn. rewrite <- Zle_Qle. clearbody D. lia. }
  lra.
Qed.
Print Assumptions C129_uniform_refuted.
(** Moves between settled plans can be undone. *)
Theorem C129_undoable {N P V L : Type} {EN : EqB N} {EP : EqB P} {EL : EqB L} {ON : Ord N} {RV : CRing V} (E : env N P V L) labs cs passes plans B :
  wf_graph (e_graph E) -> NoDup labs -> slow_component E labs cs passes plans -> (forall x, In x plans -> settled E x) -> bi_fair E plans B -> undoable E cs passes plans.
Proof.
  intros WG NL Co St Fa x [n q] Hx Ho. assert (Hy := proj1 (proj2 (proj2 Co)) x _ Hx Ho). cbn [fst snd] in *. destruct (move_back E labs cs passes WG plans Co St NL x n q Hx Hy (proj1 Ho)) as (p & Hm & Ep & _). exists (n, p). auto.
Qed.
Print Assumptions C129_undoable.
(** C129. It does not sample what slow_reversible_propose samples either: on the
    same plans, under the same constraints, the shares of C127 and of C129 differ. *)
Definition tri_s (x : plan (N := nat) (P := nat)) : nat := if eqb x tri_2 then 3 else if eqb x tri_4 then 1 else 2.
Theorem C129_slow_refuted : exists (E : env nat nat Z nat) labs cs passes plans D v B w y,
  setting E labs cs passes (fun _ w => w) plans D v /\ bi_setting E labs cs passes (fun _ w => w) plans B w /\ In y plans /\ ~ (quota plans v y == fraction plans w y)%Q.
Proof.
  exists tri, [1; 2; 3], [known], knownp, tri_plans, 4, tri_s, 12, tri_w, tri_4. split; [|split; [apply tri_setting|split; [cbn; auto|vm_compute; discriminate]]].
  split; [apply tri_wf|]. split; [reflexivity|]. split; [nodup|]. split; [apply tri_steady|]. split; [apply tri_calm|]. split; [apply tri_component|].
  split; [apply (C129_undoable tri [1; 2; 3] _ _ _ 12); [apply tri_wf|nodup|apply tri_component|apply tri_settled|apply tri_fair]|]. split.
  - split; [lia|]. intros x Hx. exists 4, 1. split; [|reflexivity]. exists (moves_of tri [1; 2; 3] x). split; [apply NoDup_filter, NoDup_prod; vm_compute; nodup|]. split; [intro nq; symmetry; now apply tri_moves|]. destruct Hx as [<-|[<-|[<-|[<-|[]]]]]; vm_compute; reflexivity.
  - intros x Hx. split; [|unfold tri_s; destruct (eqb x tri_2), (eqb x tri_4); lia]. exists (filter (fun nq => mem (place (fst nq) (snd nq) x) tri_plans) (moves_of tri [1; 2; 3] x)).
    split; [apply NoDup_filter, NoDup_filter, NoDup_prod; vm_compute; nodup|]. split; [intro nq; symmetry; now apply tri_options|]. destruct Hx as [<-|[<-|[<-|[<-|[]]]]]; vm_compute; reflexivity.
Qed.
Print Assumptions C129_slow_refuted.
