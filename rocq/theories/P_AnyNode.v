(** C126: what a chain of propose_any_node_flip samples. *)
From Coq Require Import String List Bool Arith ZArith QArith Qabs Lqa Lia ZifyBool ZifyNat.
From Verif Require Import Base M_Graph M_Partition S_Partition L_Partition M_Machine S_Machine
  L_Cuts L_Machine L_Answers P_Partition P_Machine M_Constraints M_Chain P_Chain M_Diversity L_Order M_Proposals S_Proposals P_Proposals
  L_Locality M_Recursive S_Contiguity P_Uniform P_FlipLaw P_ChainLaw.
From Verif Require Import P_DetailedBalance P_Stationary L_Converge L_Average P_LongRun P_Histogram.
Import ListNotations.
Local Open Scope nat_scope.
Local Open Scope list_scope.

Section AnyNode.
  Context {N P V L : Type} {EN : EqB N} {EP : EqB P} {EL : EqB L} {ON : Ord N} {RV : CRing V}.
  Variable E : env N P V L.
  Notation g := (e_graph E).
  Notation nodes := (g_nodes g).
  (** The labels of the districts. *)
  Variable labs : list P.
  Notation K := (List.length labs).
  Notation D := (List.length nodes * K).

  (** ** Specification *)

  (** A plan as the list of its nodes with their districts. *)
  Definition plan : Type := list (N * option P).
  Definition plan_of (A : assignment N P) : plan := map (fun n => (n, district A n)) nodes.
  (** The plan with node [n] in district [q]. *)
  Definition place (n : N) (q : P) (x : plan) : plan := map (fun kv => if eqb (fst kv) n then (fst kv, Some q) else kv) x.
  (** A complete plan of the graph. *)
  Definition complete (x : plan) : Prop := map fst x = nodes /\ forall n v, In (n, v) x -> exists q, v = Some q /\ In q labs.
  (** The world of the chain: the plan objects and the draws to come. *)
  Definition objects : Type := heap N P V L * list nat.
  (** Object [a] is the plan [x]. *)
  Definition is_plan (h : heap N P V L) (a : nat) (x : plan) : Prop :=
    session E h /\ exists o, nth_error h a = Some o /\ labels (o_assign o) = labs /\ plan_of (o_assign o) = x.
  Definition keeps (h h' : heap N P V L) : Prop := session E h' /\
    forall a o, nth_error h a = Some o -> exists o', nth_error h' a = Some o' /\ o_assign o' = o_assign o.
  (** One number below [D] gives the node and the district of a call. *)
  Definition any_node (a : nat) (w : objects) : res nat * objects :=
    match snd w with
    | [] => (NoFuel, w)
    | d :: r => let '(b, h) := propose_any_node_flip E (d / K) (d mod K) a (fst w) in (b, (h, r))
    end.
  Definition always (a : nat) (w : objects) : res pyval * objects :=
    let '(r, h) := always_accept a (fst w) in
    (match r with Ok b => Ok (PBool b) | Err e => Err e | NoFuel => NoFuel end, (h, snd w)).
  (** Constraints whose verdict depends on the plan alone; they may read
      updaters, which fills the caches of the plans. *)
  Variable cs : list (constraint nat objects).
  Variable passes : constraint nat objects -> plan -> bool.
  Definition judge : Prop := forall c a h ds x, In c cs -> is_plan h a x ->
    exists h', c a (h, ds) = (Ok (PBool (passes c x)), (h', ds)) /\ keeps h h'.
  Definition allowed (x : plan) : bool := forallb (fun c => passes c x) cs.
  (** What the user does with a yielded plan: anything that keeps the plans and
      draws no random numbers. *)
  Variable body : nat -> objects -> objects.
  Definition harmless : Prop := forall a h ds, session E h -> exists h', body a (h, ds) = (h', ds) /\ keeps h h'.
  (** The plans a loop yielded, read when they were yielded. *)
  Definition read (aw : nat * objects) : plan :=
    match nth_error (fst (snd aw)) (fst aw) with Some o => plan_of (o_assign o) | None => [] end.
  (** With the draws [ds] a loop over the chain yields [k] plans, and they are as
      [A] says. *)
  Definition run_shows (A : list plan -> Prop) (ch : chain nat objects) (h : heap N P V L) (k n : nat) (ds : list nat) : Prop :=
    List.length ds = n /\ Forall (fun d => d < D) ds /\
    exists ys en ch' w', for_loop any_node always erase_link k (S n) body ch (h, ds) = (ys, en, ch', w') /\ List.length ys = k /\ A (map read ys).
  Definition most_runs (A : list plan -> Prop) (ch : chain nat objects) (h : heap N P V L) (k : nat) (p : Q) : Prop :=
    forall eps, (0 < eps)%Q -> exists n0, forall n, n0 <= n -> exists c, numbers (run_shows A ch h k n) c /\ (p - eps <= Qn c / Qn (D ^ n))%Q.
  (** The moves of one node that the constraints allow; putting a node where it
      is counts. *)
  Definition options (x : plan) (nq : N * P) : Prop := In (fst nq) nodes /\ In (snd nq) labs /\ allowed (place (fst nq) (snd nq) x) = true.
  (** Allowed plans, closed under and connected by allowed moves. *)
  Definition component (plans : list plan) : Prop := NoDup plans /\ (forall x, In x plans -> complete x /\ allowed x = true) /\
    (forall x nq, In x plans -> options x nq -> In (place (fst nq) (snd nq) x) plans) /\
    (forall x y, In x plans -> In y plans -> reach (fun a b => In a plans /\ exists nq, options a nq /\ b = place (fst nq) (snd nq) a) x y).
  Definition quota (plans : list plan) (v : plan -> nat) (y : plan) : Q := (Qn (v y) / qsum plans (fun x => Qn (v x)))%Q.

  (** ** The chain on plans *)
  Definition target (d : nat) : option (N * P) :=
    match choice (d / K) nodes, choice (d mod K) labs with Ok n, Ok q => Some (n, q) | _, _ => None end.
  Definition propose (x : plan) (d : nat) : plan := match target d with Some (n, q) => place n q x | None => x end.
  Definition shaped (x : plan) : bool := eqb (map fst x) nodes && forallb (fun kv => match snd kv with Some q => mem q labs | None => false end) x.
  Definition fine (x : plan) : bool := shaped x && allowed x.
  Definition one : constraint plan (@P_ChainLaw.world plan) := fun y w => (Ok (PBool (fine y)), w).
  Definition onep (c : constraint plan (@P_ChainLaw.world plan)) (y : plan) : bool := fine y.
  Definition yes (x y : plan) (d : nat) : bool := true.
  Notation valid := (P_ChainLaw.valid [one] onep).
  Lemma one_pure : P_ChainLaw.pure [one] onep.
  Proof. intros c y w [<-|[]]. reflexivity. Qed.
  Lemma valid_fine x : valid x = fine x.
  Proof. unfold P_ChainLaw.valid. cbn [forallb]. apply andb_true_r. Qed.
  Lemma shaped_iff x : shaped x = true <-> complete x.
  Proof.
    unfold shaped, complete. rewrite andb_true_iff, forallb_forall. split.
    - intros [H1 H2]. split; [now apply (proj1 (eqb_eq _ _))|]. intros n v Hi. specialize (H2 (n, v) Hi). cbn [snd] in H2. destruct v as [q|]; [|discriminate]. exists q. split; [reflexivity|]. now apply mem_In.
    - intros [H1 H2]. split; [now apply (proj2 (eqb_eq _ _))|]. intros [n v] Hi. destruct (H2 n v Hi) as (q & -> & Hq). cbn. now apply mem_In.
  Qed.
  Lemma place_complete n q x : In q labs -> complete x -> complete (place n q x).
  Proof.
    intros Hq [H1 H2]. split.
    - rewrite <- H1. unfold place. rewrite map_map. apply map_ext. intros [m v]. cbn. now destruct (eqb m n).
    - intros m v Hi. unfold place in Hi. apply in_map_iff in Hi. destruct Hi as ([m' v'] & Em & Hi). cbn [fst] in Em. destruct (eqb m' n); injection Em as <- <-; [eauto|]. eapply H2; exact Hi.
  Qed.
  Lemma plan_complete h a x : is_plan h a x -> complete x.
  Proof.
    intros (S & o & Ho & Hl & <-). pose proof (session_coherent E h a o S Ho) as C. split.
    - unfold plan_of. rewrite map_map. cbn. apply map_id.
    - intros n v Hi. unfold plan_of in Hi. apply in_map_iff in Hi. destruct Hi as (m & [= <- <-] & Hm).
      destruct (part_ok E h a o S Ho m Hm) as (q & _ & Dq & Lq). exists q. split; [exact Dq|]. now rewrite <- Hl.
  Qed.
  Lemma plan_keeps h h' a x : is_plan h a x -> keeps h h' -> is_plan h' a x.
  Proof. intros (S & o & Ho & Hl & Hx) (S' & Kp). destruct (Kp a o Ho) as (o' & Ho' & Eo). split; [exact S'|]. exists o'. rewrite Eo. auto. Qed.
  Lemma keeps_trans h h' h'' : keeps h h' -> keeps h' h'' -> keeps h h''.
  Proof. intros (S' & Kp) (S'' & Kp'). split; [exact S''|]. intros a o Ho. destruct (Kp a o Ho) as (o' & Ho' & Eo). destruct (Kp' a o' Ho') as (o'' & Ho'' & Eo'). exists o''. split; [exact Ho''|congruence]. Qed.
  Lemma erase_keeps h a : session E h -> keeps h (erase a h).
  Proof.
    intro S. split; [now apply session_erase|]. intros b o Ho. pose proof (session_wf E h S) as Wf. destruct S as (WE & REG & _).
    destruct (proj1 (exec_persists E [OErase a] h WE REG ltac:(repeat constructor) Wf) b o Ho) as (o' & H1 & H2 & _). exists o'. split; [exact H1|exact H2].
  Qed.
  Lemma choice_all {Y} r (l : list Y) : l <> [] -> exists y, choice r l = Ok y /\ In y l.
  Proof. apply choice_ok. Qed.
  Lemma propose_plan h a x d : nodes <> [] -> labs <> [] -> is_plan h a x ->
    exists b h', propose_any_node_flip E (d / K) (d mod K) a h = (Ok b, h') /\ keeps h h' /\ is_plan h' b (propose x d).
  Proof.
    intros Hn Hl (S & o & Ho & Ll & Hx). unfold propose, target. destruct (choice_all (d / K) nodes Hn) as (n & En & In1). destruct (choice_all (d mod K) labs Hl) as (q & Eq & In2). rewrite En, Eq.
    unfold propose_any_node_flip. rewrite (get_bind h a o) by exact Ho. rewrite En, lift_bind. change (dkeys (a_parts (o_assign o))) with (labels (o_assign o)). rewrite Ll, Eq, lift_bind.
    destruct (flip_ok E h a o [(n, q)] S Ho) as (o' & F1 & F2 & F3 & F4 & F5 & F6 & F7).
    { repeat constructor. intros []. }
    { intros m p Hm. cbn [dget] in Hm. destruct (eqb_spec m n) as [->|]; [|discriminate]. injection Hm as <-. rewrite Ll. auto. }
    exists (List.length h), (h ++ [o']). split; [exact F1|]. split.
    - split; [exact F6|]. intros b o1 Hb. exists o1. split; [|reflexivity]. rewrite nth_error_app1; [exact Hb|]. apply nth_error_Some. congruence.
    - split; [exact F6|]. exists o'. split; [exact F7|]. split; [rewrite <- Ll; eapply flip_labels; [|exact F4]; repeat constructor; intros []|].
      rewrite <- Hx. unfold plan_of, place. rewrite map_map. apply map_ext. intro m. cbn [fst]. rewrite F5. cbn [dget]. destruct (eqb_spec m n) as [->|]; reflexivity.
  Qed.
  Lemma judge_loop l : judge -> incl l cs -> forall a h ds x, is_plan h a x ->
    exists h' r, validate_loop l a (h, ds) = (Ok (forallb (fun c => passes c x) l), (h', ds), r) /\ keeps h h'.
  Proof.
    intro J. induction l as [|c l IH]; intros I a h ds x Hp; cbn [validate_loop forallb].
    - do 2 eexists. split; [reflexivity|]. split; [apply Hp|eauto].
    - destruct (J c a h ds x (I c (or_introl eq_refl)) Hp) as (h' & Ec & Kp). rewrite Ec. unfold verdict. cbn [coerce]. destruct (passes c x); cbn [andb].
      + destruct (IH (fun y Hy => I y (or_intror Hy)) a h' ds x (plan_keeps h h' a x Hp Kp)) as (h'' & r & El & Kp'). exists h'', r. split; [exact El|]. now apply keeps_trans with h'.
      + eauto.
  Qed.
  Lemma judge_all a h ds x : judge -> is_plan h a x -> exists h', validator (Reusable cs) a (h, ds) = (Ok (allowed x), (h', ds), Reusable cs) /\ keeps h h'.
  Proof. intros J Hp. destruct (judge_loop cs J (incl_refl cs) a h ds x Hp) as (h' & r & El & Kp). exists h'. split; [|exact Kp]. unfold validator, allowed. rewrite El. reflexivity. Qed.
  Notation cut := (cut propose yes [one] onep).
  Notation trail := (trail propose yes [one] onep).
  Lemma advance_sim x k ds : nodes <> [] -> labs <> [] -> judge -> forall n h ch, ch_valid ch = Reusable cs -> is_plan h (ch_state ch) x -> (k < ch_total ch)%Z -> List.length ds < n ->
    match cut x ds with
    | Some (z, r) => exists b h', advance any_node always erase_link n k ch (h, ds) = (Ok b, mkChain (Reusable cs) (ch_total ch) (ch_initial ch) b (Some (k + 1)%Z), (h', r)) /\ is_plan h' b z
    | None => exists ch' w', advance any_node always erase_link n k ch (h, ds) = (NoFuel, ch', w')
    end.
  Proof.
    intros Hn Hl J. induction ds as [|d ds IH]; intros [|n] h ch Hv Hp Hk Hlen; cbn [List.length] in Hlen; try lia; cbn [advance P_LongRun.cut].
    - rewrite (proj2 (Z.ltb_lt _ _) Hk). cbn. eauto.
    - rewrite (proj2 (Z.ltb_lt _ _) Hk). destruct (propose_plan h (ch_state ch) x d Hn Hl Hp) as (b & h1 & Ep & K1 & P1).
      assert (Ea : any_node (ch_state ch) (h, d :: ds) = (Ok b, (h1, ds))) by (unfold any_node; cbn [fst snd]; now rewrite Ep). rewrite Ea.
      change (erase_link (ch_state ch) (h1, ds)) with (erase (ch_state ch) h1, ds). assert (K2 := erase_keeps h1 (ch_state ch) (proj1 K1)). set (h2 := erase (ch_state ch) h1) in *.
      assert (P2 := plan_keeps _ _ _ _ P1 K2). destruct (judge_all b h2 ds (propose x d) J P2) as (h3 & Ej & K3). rewrite Hv, Ej.
      unfold P_ChainLaw.outcome. rewrite valid_fine. unfold fine. rewrite (proj2 (shaped_iff _) (plan_complete h1 b _ P1)). cbn [andb]. destruct (allowed (propose x d)).
      + unfold yes at 1. unfold always, always_accept. cbn [ret fst snd truthy]. do 2 eexists. split; [reflexivity|]. now apply plan_keeps with h2.
      + refine (IH n h3 (with_valid ch (Reusable cs)) eq_refl _ Hk ltac:(lia)). cbn [ch_state with_valid]. apply plan_keeps with h; [exact Hp|]. apply keeps_trans with h1; [exact K1|]. now apply keeps_trans with h2.
  Qed.
  Lemma loop_sim k : nodes <> [] -> labs <> [] -> judge -> harmless -> forall n h ch x ds c, ch_valid ch = Reusable cs -> is_plan h (ch_state ch) x -> ch_counter ch = Some c -> (0 < c)%Z ->
    (c + Z.of_nat k <= ch_total ch)%Z -> List.length ds < n ->
    exists ys en ch' w', loop any_node always erase_link k n body ch (h, ds) = (ys, en, ch', w') /\
      match trail k x ds with Some l => x :: map read ys = l | None => List.length ys < k end.
  Proof.
    intros Hn Hl J Hb. induction k as [|k IH]; intros n h ch x ds c Hv Hp Hc C0 Ht Hlen.
    - do 4 eexists. split; reflexivity.
    - cbn [loop P_Histogram.trail]. unfold next. rewrite Hc. replace (c =? 0)%Z with false by lia.
      assert (A := advance_sim x c ds Hn Hl J n h ch Hv Hp ltac:(lia) Hlen). destruct (cut x ds) as [[z r]|] eqn:Ec.
      + destruct A as (b & h' & Ea & Pb). rewrite Ea. assert (Lr := cut_length propose yes [one] onep x ds z r Ec).
        destruct (Hb b h' r (proj1 Pb)) as (h'' & Eb & Kb). rewrite Eb.
        destruct (IH n h'' (mkChain (Reusable cs) (ch_total ch) (ch_initial ch) b (Some (c + 1)%Z)) z r (c + 1)%Z eq_refl (plan_keeps _ _ _ _ Pb Kb) eq_refl ltac:(lia) ltac:(cbn [ch_total]; lia) ltac:(lia)) as (ys & en & ch' & w' & El & Hj).
        rewrite El. do 4 eexists. split; [reflexivity|].
        assert (Rd : read (b, (h', r)) = z) by (destruct Pb as (_ & o & Ho & _ & Hz); unfold read; cbn [fst snd]; now rewrite Ho).
        destruct (trail k z r) as [l|]; cbn [option_map map List.length]; [change (x :: read (b, (h', r)) :: map read ys = x :: l); rewrite Rd; now rewrite Hj|lia].
      + destruct A as (ch' & w' & Ea). rewrite Ea. do 4 eexists. split; [reflexivity|]. cbn. lia.
  Qed.
  Lemma run_iff (A : list plan -> Prop) (Ab : list plan -> bool) h ch k x n ds : nodes <> [] -> labs <> [] -> judge -> harmless -> (forall l, A l <-> Ab l = true) ->
    ch_valid ch = Reusable cs -> is_plan h (ch_initial ch) x -> (Z.of_nat k < ch_total ch)%Z ->
    run_shows A ch h (S k) n ds <-> (List.length ds = n /\ Forall (fun d => d < D) ds) /\ trailb propose yes [one] onep k x Ab ds = true.
  Proof.
    intros Hn Hl J Hb HA Hv Hp Hk.
    assert (G : List.length ds = n -> exists ys en ch' w', for_loop any_node always erase_link (S k) (S n) body ch (h, ds) = (ys, en, ch', w') /\
                match trail k x ds with Some l => map read ys = l | None => List.length ys < S k end).
    { intro Hlen. unfold for_loop. cbn [loop]. unfold next, iter. cbn [ch_counter]. change (0 =? 0)%Z with true. cbn [ch_state ch_valid ch_total ch_initial]. rewrite Hv.
      destruct (Hb (ch_initial ch) h ds (proj1 Hp)) as (h' & Eb & Kb). rewrite Eb.
      destruct (loop_sim k Hn Hl J Hb (S n) h' (mkChain (Reusable cs) (ch_total ch) (ch_initial ch) (ch_initial ch) (Some 1%Z)) x ds 1%Z eq_refl (plan_keeps _ _ _ _ Hp Kb) eq_refl ltac:(lia) ltac:(cbn [ch_total]; lia) ltac:(lia)) as (ys & en & ch' & w' & El & Hj).
      rewrite El. do 4 eexists. split; [reflexivity|].
      assert (Rd : read (ch_initial ch, (h, ds)) = x) by (destruct Hp as (_ & o & Ho & _ & Hz); unfold read; cbn [fst snd]; now rewrite Ho).
      destruct (trail k x ds); cbn [map List.length]; [change (read (ch_initial ch, (h, ds)) :: map read ys = l); rewrite Rd; exact Hj|lia]. }
    unfold run_shows, trailb. split.
    - intros (Hlen & Hd & ys & en & ch' & w' & El & Hy & Ha). split; auto. destruct (G Hlen) as (ys2 & en2 & ch2 & w2 & E2 & Hg). rewrite El in E2. injection E2 as <- _ _ _. destruct (trail k x ds) as [l|]; [rewrite <- Hg; now apply HA|lia].
    - intros ((Hlen & Hd) & El). split; auto. split; auto. destruct (G Hlen) as (ys2 & en2 & ch2 & w2 & E2 & Hg). exists ys2, en2, ch2, w2. split; auto.
      destruct (trail k x ds) as [l|] eqn:T; [|discriminate]. split; [|rewrite Hg; now apply HA]. rewrite <- (map_length read), Hg. eapply trail_length; exact T.
  Qed.

  (** ** Moves of one node *)
  Section Distinct.
    Hypothesis ND : NoDup nodes.
    Hypothesis NL : NoDup labs.
    Lemma target_some d : d < D -> exists n q, target d = Some (n, q) /\ In n nodes /\ In q labs.
    Proof.
      intro H. assert (Hk : K <> 0) by (intro Ek; rewrite Ek in H; lia). destruct (choice_all (d / K) nodes) as (n & En & Hn); [intro E0; rewrite E0 in H; cbn in H; lia|].
      destruct (choice_all (d mod K) labs) as (q & Eq & Hq); [intro E0; now rewrite E0 in Hk|]. exists n, q. unfold target. now rewrite En, Eq.
    Qed.
    Lemma target_onto n q : In n nodes -> In q labs -> exists d, d < D /\ target d = Some (n, q).
    Proof.
      intros Hn Hq. destruct (choice_below nodes n Hn) as (i & Hi & Ei). destruct (choice_below labs q Hq) as (j & Hj & Ej). exists (i * K + j). split; [nia|].
      unfold target. rewrite Nat.div_add_l, (Nat.div_small j), Nat.add_0_r, Ei by lia. rewrite Nat.add_comm, Nat.mod_add, Nat.mod_small, Ej by lia. reflexivity.
    Qed.
    Lemma target_inj d d' nq : d < D -> d' < D -> target d = Some nq -> target d' = Some nq -> d = d'.
    Proof.
      intros H H'. assert (Hk : K <> 0) by (intro Ek; rewrite Ek in H; lia). unfold target.
      destruct (choice (d / K) nodes) as [n| |] eqn:E1; try discriminate. destruct (choice (d mod K) labs) as [q| |] eqn:E2; try discriminate.
      destruct (choice (d' / K) nodes) as [n'| |] eqn:E3; try discriminate. destruct (choice (d' mod K) labs) as [q'| |] eqn:E4; try discriminate.
      intros [= <-] [= -> ->]. assert (A : d / K = d' / K) by (apply (choice_unique nodes _ _ n ND); auto; apply Nat.div_lt_upper_bound; lia).
      assert (B : d mod K = d' mod K) by (apply (choice_unique labs _ _ q NL); auto; now apply Nat.mod_upper_bound). rewrite (Nat.div_mod d K Hk), (Nat.div_mod d' K Hk), A, B. reflexivity.
    Qed.
    Lemma place_same x n v q : complete x -> In (n, v) x -> v = Some q -> place n q x = x.
    Proof.
      intros [H1 _] Hi ->. unfold place. rewrite <- (map_id x) at 2. apply map_ext_in. intros [m w] Hm. cbn [fst]. destruct (eqb_spec m n) as [Em|]; [|reflexivity]. subst m.
      f_equal. assert (F : NoDup (map fst x)) by now rewrite H1. clear - F Hi Hm. induction x as [|[a b] x IH]; [destruct Hi|]. cbn in F. inversion F as [|? ? A B]; subst.
      destruct Hi as [Hi|Hi], Hm as [Hm|Hm]; auto; [congruence| |]; exfalso; apply A; apply in_map_iff; [exists (n, w)|exists (n, Some q)]; (split; [cbn; congruence|assumption]).
    Qed.
    Lemma place_differs x n q : In n nodes -> complete x -> place n q x <> x -> exists p, In (n, Some p) x /\ In p labs /\ p <> q.
    Proof.
      intros Hn C Hd. assert (Hn' : In n (map fst x)) by (rewrite (proj1 C); exact Hn). apply in_map_iff in Hn'. destruct Hn' as ([m v] & Em & Hi). cbn in Em. subst m.
      destruct (proj2 C n v Hi) as (p & -> & Hp). exists p. split; [exact Hi|]. split; [exact Hp|]. intros ->. apply Hd. now apply (place_same x n (Some q) q).
    Qed.
    Lemma place_unique x n q n' q' : In n nodes -> complete x -> place n q x <> x -> place n' q' x = place n q x -> (n', q') = (n, q).
    Proof.
      intros Hn C Hd Hp. destruct (place_differs x n q Hn C Hd) as (p & Hi & _ & Hpq). assert (A := ext_in_map Hp _ Hi). cbn [fst] in A. rewrite eqb_refl in A.
      destruct (eqb_spec n n') as [E0|]; [|injection A as A; congruence]. injection A as A. congruence.
    Qed.
    Lemma place_back x n q p : complete x -> In (n, Some p) x -> place n p (place n q x) = x.
    Proof.
      intros C Hi. assert (E0 : place n p (place n q x) = place n p x); [|rewrite E0; now apply (place_same x n (Some p))].
      unfold place. rewrite map_map. apply map_ext. intros [m v]. cbn [fst]. destruct (eqb_spec m n) as [->|Hm]; cbn [fst]; [now rewrite eqb_refl|]. destruct (eqb_spec m n); [contradiction|reflexivity].
    Qed.
    Lemma propose_back x y d : complete x -> x <> y -> d < D -> propose x d = y -> exists d', d' < D /\ propose y d' = x.
    Proof.
      intros C Hxy Hd Ed. destruct (target_some d Hd) as (n & q & Et & Hn & Hq). unfold propose in Ed. rewrite Et in Ed. destruct (place_differs x n q Hn C ltac:(congruence)) as (p & Hi & Hp & _).
      destruct (target_onto n p Hn Hp) as (d' & Hd' & Et'). exists d'. split; [exact Hd'|]. unfold propose. rewrite Et', <- Ed. now apply place_back.
    Qed.
    Lemma propose_unique x y d d' : complete x -> x <> y -> d < D -> d' < D -> propose x d = y -> propose x d' = y -> d = d'.
    Proof.
      intros C Hxy Hd Hd' Ed Ed'. destruct (target_some d Hd) as (n & q & Et & Hn & Hq). destruct (target_some d' Hd') as (n' & q' & Et' & Hn' & Hq'). unfold propose in *. rewrite Et in Ed. rewrite Et' in Ed'.
      assert (U := place_unique x n q n' q' Hn C ltac:(congruence) ltac:(congruence)). rewrite U in Et'. eapply target_inj; eassumption.
    Qed.
    Lemma flips_balanced : P_ChainLaw.balanced propose yes D [one] onep (fun _ => 1%Q).
    Proof.
      intros x y a b Vx Vy Hxy Ha Hb. rewrite valid_fine in Vx, Vy. unfold fine in Vx, Vy. apply andb_true_iff in Vx, Vy. destruct Vx as [Cx _], Vy as [Cy _]. apply shaped_iff in Cx, Cy.
      assert (Hab : a = b); [|now rewrite Hab]. apply (numbers_same (P_ChainLaw.move_draws propose yes D x y) (P_ChainLaw.move_draws propose yes D y x)
        (fun d d' => P_ChainLaw.move_draws propose yes D x y d /\ P_ChainLaw.move_draws propose yes D y x d')); [| | | |exact Ha|exact Hb].
      - intros d Md. pose proof Md as (Hd & Ed & _). destruct (propose_back x y d Cx Hxy Hd Ed) as (d' & Hd' & Ed'). exists d'. split; [|split; [exact Md|]]; (split; [exact Hd'|]; split; [exact Ed'|reflexivity]).
      - intros d Md. pose proof Md as (Hd & Ed & _). destruct (propose_back y x d Cy (not_eq_sym Hxy) Hd Ed) as (d' & Hd' & Ed'). exists d'. split; [|split; [|exact Md]]; (split; [exact Hd'|]; split; [exact Ed'|reflexivity]).
      - intros d d' e [(H1 & H2 & _) _] [(H3 & H4 & _) _]. now apply (propose_unique x y).
      - intros d e e' [_ (H1 & H2 & _)] [_ (H3 & H4 & _)]. apply (propose_unique y x); auto.
    Qed.
    Lemma valid_place x n q d : complete x -> In q labs -> target d = Some (n, q) -> valid (propose x d) = allowed (place n q x).
    Proof.
      intros C Hq Et. rewrite valid_fine. unfold fine, propose. rewrite Et. now rewrite (proj2 (shaped_iff _) (place_complete n q x Hq C)).
    Qed.
    Lemma component_closed plans : nodes <> [] -> component plans -> closed propose D [one] onep plans.
    Proof.
      intros Hn (Np & Hp & Hc & _). split; [exact Np|]. split.
      - intros x Hx. destruct (Hp x Hx) as [C Al]. split; [rewrite valid_fine; unfold fine; now rewrite (proj2 (shaped_iff x) C)|].
        assert (Hi' : exists n v, In (n, v) x) by (destruct x as [|[n v] x]; [exfalso; apply Hn; now rewrite <- (proj1 C)|exists n, v; now left]). destruct Hi' as (n & v & Hi). destruct (proj2 C n v Hi) as (q & -> & Hq).
        assert (Hnn : In n nodes) by (rewrite <- (proj1 C); apply in_map_iff; exists (n, Some q); auto). destruct (target_onto n q Hnn Hq) as (d & Hd & Et). exists d. split; [exact Hd|].
        rewrite (valid_place x n q d C Hq Et), (place_same x n (Some q) q C Hi eq_refl). exact Al.
      - intros x d Hx Hd Vd. destruct (Hp x Hx) as [C Al]. destruct (target_some d Hd) as (n & q & Et & Hn' & Hq). rewrite (valid_place x n q d C Hq Et) in Vd. unfold propose. rewrite Et.
        apply (Hc x (n, q) Hx). split; [exact Hn'|]. split; [exact Hq|exact Vd].
    Qed.
    Lemma component_connected plans : component plans -> connected propose yes D plans.
    Proof.
      intros (_ & _ & Hc & Hr) x y Hx Hy. specialize (Hr x y Hx Hy). induction Hr as [|b c R IH (Hb & nq & Ho & ->)]; [constructor|]. econstructor; [now apply IH|].
      split; [exact Hb|]. split; [now apply Hc|]. destruct Ho as (H1 & H2 & _). destruct (target_onto (fst nq) (snd nq) H1 H2) as (d & Hd & Et). exists d. split; [exact Hd|]. split; [unfold propose; now rewrite Et|reflexivity].
    Qed.
    Lemma options_draws x c : complete x -> numbers (options x) c -> numbers (P_ChainLaw.valid_draws propose D [one] onep x) c.
    Proof.
      intros C Hc. assert (G := goods_numbers propose yes D [one] onep x). replace c with (P_ChainLaw.goods propose D [one] onep x); [exact G|]. symmetry.
      apply (numbers_same (options x) (P_ChainLaw.valid_draws propose D [one] onep x) (fun nq d => d < D /\ target d = Some nq)); [| | | |exact Hc|exact G].
      - intros [n q] (H1 & H2 & H3). destruct (target_onto n q H1 H2) as (d & Hd & Et). exists d. split; [split; [exact Hd|]|split; assumption]. now rewrite (valid_place x n q d C H2 Et).
      - intros d (Hd & Vd). destruct (target_some d Hd) as (n & q & Et & H1 & H2). exists (n, q). split; [|split; assumption]. split; [exact H1|]. split; [exact H2|]. now rewrite (valid_place x n q d C H2 Et) in Vd.
      - intros nq nq' d [_ H1] [_ H2]. congruence.
      - intros nq d d' [H1 H2] [H3 H4]. eapply target_inj; eassumption.
    Qed.
  End Distinct.

  (** ** Theorems *)
  Lemma transfer (A : list plan -> Prop) (Ab : list plan -> bool) h ch x k p : nodes <> [] -> labs <> [] -> judge -> harmless -> (forall l, A l <-> Ab l = true) ->
    ch_valid ch = Reusable cs -> is_plan h (ch_initial ch) x -> (Z.of_nat k < ch_total ch)%Z ->
    at_least propose yes D A (mkChain (Reusable [one]) (ch_total ch) x x None) (S k) p -> most_runs A ch h (S k) p.
  Proof.
    intros Hn Hl J Hb HA Hv Hp Hk H eps He. destruct (H eps He) as (n0 & H0). exists n0. intros n Hle. destruct (H0 n Hle) as (c & (l & N1 & I1 & L1) & B). exists c. split; [|exact B].
    exists l. split; [exact N1|]. split; [|exact L1]. intro ds. rewrite I1.
    rewrite (shows_iff propose yes D [one] onep A Ab (mkChain (Reusable [one]) (ch_total ch) x x None) k x n ds HA one_pure eq_refl eq_refl Hk).
    symmetry. now apply run_iff.
  Qed.
  Lemma quota_share plans v y : (quota plans v y == share plans (fun _ => 1%Q) v y)%Q.
  Proof.
    unfold quota, share. assert (E0 : (qsum plans (fun x => 1 * Qn (v x)) == qsum plans (fun x => Qn (v x)))%Q) by (apply qsum_ext; intros; ring). rewrite E0, Qmult_1_l. reflexivity.
  Qed.
  Lemma some_label plans x : nodes <> [] -> component plans -> In x plans -> labs <> [].
  Proof.
    intros Hn (_ & Hp & _) Hx. destruct (Hp x Hx) as [[C1 C2] _]. destruct x as [|[n v] x]; [intros _; apply Hn; now rewrite <- C1|]. destruct (C2 n v (or_introl eq_refl)) as (q & _ & Hq). intro E0. now rewrite E0 in Hq.
  Qed.
  (** Averages of any statistic over a long run are close to the mean under
      "number of allowed moves", in all but a small share of the runs. *)
  Theorem C126_averages plans v (f : plan -> Q) : nodes <> [] -> NoDup nodes -> NoDup labs -> judge -> harmless -> component plans ->
    (forall x, In x plans -> numbers (options x) (v x)) ->
    forall eps, (0 < eps)%Q -> exists k0, forall k, k0 <= k -> forall h ch x, ch_valid ch = Reusable cs -> In x plans -> is_plan h (ch_initial ch) x -> (Z.of_nat k <= ch_total ch)%Z ->
      most_runs (fun l => Qabs (average f l - qsum plans (fun y => quota plans v y * f y)) <= eps)%Q ch h k (1 - eps).
  Proof.
    intros Hn ND NL J Hb Co Hv eps He.
    destruct (C125_averages propose yes D [one] onep plans (fun _ => 1%Q) v f one_pure (component_closed ND plans Hn Co) (component_connected plans Co) (flips_balanced ND NL) (fun _ _ => eq_refl)
      (fun x Hx => options_draws ND NL x (v x) (proj1 (proj1 (proj2 Co) x Hx)) (Hv x Hx)) eps He) as (k0 & Hk).
    exists (S k0). intros [|k] Hle h ch x Vch Hx Px Tch; [lia|].
    assert (E0 : (qsum plans (fun y => quota plans v y * f y) == qsum plans (fun y => share plans (fun _ => 1) v y * f y))%Q) by (apply qsum_ext; intros y _; now rewrite quota_share).
    apply (transfer _ (fun l => Qle_bool (Qabs (average f l - qsum plans (fun y => quota plans v y * f y))) eps)%Q h ch x); auto.
    - now apply (some_label plans x).
    - intro l. symmetry. apply Qle_bool_iff.
    - lia.
    - eapply at_least_ext; [|apply (Hk (S k) ltac:(lia) (mkChain (Reusable [one]) (ch_total ch) x x None) eq_refl Hx Tch)]. intro l. cbn beta. now rewrite E0.
  Qed.
  (** The share of every plan among the plans of a long run is close to its
      number of allowed moves over the total of these numbers. *)
  Theorem C126_histogram plans v y : nodes <> [] -> NoDup nodes -> NoDup labs -> judge -> harmless -> component plans ->
    (forall x, In x plans -> numbers (options x) (v x)) -> In y plans ->
    forall eps, (0 < eps)%Q -> exists k0, forall k, k0 <= k -> forall h ch x, ch_valid ch = Reusable cs -> In x plans -> is_plan h (ch_initial ch) x -> (Z.of_nat k <= ch_total ch)%Z ->
      most_runs (fun l => Qabs (portion y l - quota plans v y) <= eps)%Q ch h k (1 - eps).
  Proof.
    intros Hn ND NL J Hb Co Hv Hy eps He.
    destruct (C125_histogram propose yes D [one] onep plans (fun _ => 1%Q) v y one_pure (component_closed ND plans Hn Co) (component_connected plans Co) (flips_balanced ND NL) (fun _ _ => eq_refl)
      (fun x Hx => options_draws ND NL x (v x) (proj1 (proj1 (proj2 Co) x Hx)) (Hv x Hx)) Hy eps He) as (k0 & Hk).
    exists (S k0). intros [|k] Hle h ch x Vch Hx Px Tch; [lia|].
    apply (transfer _ (fun l => Qle_bool (Qabs (portion y l - quota plans v y)) eps)%Q h ch x); auto.
    - now apply (some_label plans x).
    - intro l. symmetry. apply Qle_bool_iff.
    - lia.
    - eapply at_least_ext; [|apply (Hk (S k) ltac:(lia) (mkChain (Reusable [one]) (ch_total ch) x x None) eq_refl Hx Tch)]. intro l. cbn beta. now rewrite quota_share.
  Qed.
End AnyNode.
Print Assumptions C126_averages.
Print Assumptions C126_histogram.

(** ** At most one of four nodes in district 2 *)
Definition lone_allows (x : plan (N := nat) (P := nat)) : bool := Nat.leb (List.length (filter (fun kv => eqb (snd kv) (Some 2)) x)) 1.
Definition lone : constraint nat (objects (N := nat) (P := nat) (V := Z) (L := nat)) :=
  fun a w => (Ok (PBool (lone_allows (match nth_error (fst w) a with Some o => plan_of ex_E (o_assign o) | None => [] end))), w).
Definition lone_passes (c : constraint nat (objects (N := nat) (P := nat) (V := Z) (L := nat))) (x : plan) : bool := lone_allows x.
Definition lone_plan (l : list nat) : plan (N := nat) (P := nat) := map (fun nq => (fst nq, Some (snd nq))) (combine [0; 1; 2; 3] l).
Definition lone_plans : list plan := map lone_plan [[1; 1; 1; 1]; [2; 1; 1; 1]; [1; 2; 1; 1]; [1; 1; 2; 1]; [1; 1; 1; 2]].
Definition lone_options (x : plan (N := nat) (P := nat)) : nat := if eqb x (lone_plan [1; 1; 1; 1]) then 8 else 5.
Definition lone_start : dict nat nat := [(0, 1); (1, 1); (2, 1); (3, 2)].
Lemma lone_judge : judge ex_E [1; 2] [lone] lone_passes.
Proof.
  intros c a h ds x [<-|[]] (S & o & Ho & _ & Hx). exists h. unfold lone, lone_passes. cbn [fst]. rewrite Ho, Hx. split; [reflexivity|]. split; [exact S|eauto].
Qed.
Lemma lone_harmless : harmless ex_E (fun _ w => w).
Proof. intros a h ds S. exists h. split; [reflexivity|]. split; [exact S|eauto]. Qed.
Definition lone_pairs (x : plan (N := nat) (P := nat)) : list (nat * nat) :=
  filter (fun nq => lone_allows (place (fst nq) (snd nq) x)) (list_prod [0; 1; 2; 3] [1; 2]).
Lemma lone_numbers x : In x lone_plans -> numbers (options ex_E [1; 2] [lone] lone_passes x) (lone_options x).
Proof.
  intro Hx. exists (lone_pairs x). split; [apply NoDup_filter; apply NoDup_prod; nodup|]. split.
  - intros [n q]. unfold lone_pairs, options, allowed. cbn [forallb]. rewrite filter_In, in_prod_iff, andb_true_r. change (g_nodes (e_graph ex_E)) with [0; 1; 2; 3]. cbn [fst snd]. unfold lone_passes. tauto.
  - cbn in Hx. repeat destruct Hx as [<-|Hx]; try contradiction; reflexivity.
Qed.
Lemma lone_component : component ex_E [1; 2] [lone] lone_passes lone_plans.
Proof.
  assert (Cl : forall x nq, In x lone_plans -> options ex_E [1; 2] [lone] lone_passes x nq -> In (place (fst nq) (snd nq) x) lone_plans).
  { intros x [n q] Hx (Hn & Hq & Ha). change (g_nodes (e_graph ex_E)) with [0; 1; 2; 3] in Hn. cbn [fst snd] in *.
    assert (T : forallb (fun x => forallb (fun n => forallb (fun q => negb (allowed [lone] lone_passes (place n q x)) || mem (place n q x) lone_plans) [1; 2]) [0; 1; 2; 3]) lone_plans = true) by (vm_compute; reflexivity).
    rewrite forallb_forall in T. specialize (T x Hx). rewrite forallb_forall in T. specialize (T n Hn). rewrite forallb_forall in T. specialize (T q Hq). rewrite Ha in T. now apply mem_In. }
  split; [nodup|]. split.
  { intros x Hx. split; [|cbn in Hx; repeat destruct Hx as [<-|Hx]; try contradiction; reflexivity].
    apply shaped_iff. cbn in Hx. repeat destruct Hx as [<-|Hx]; try contradiction; reflexivity. }
  split; [exact Cl|].
  set (R := fun a b => In a lone_plans /\ exists nq, options ex_E [1; 2] [lone] lone_passes a nq /\ b = place (fst nq) (snd nq) a).
  set (base := lone_plan [1; 1; 1; 1]). assert (Hb : In base lone_plans) by (cbn; auto).
  assert (Out : forall x, In x lone_plans -> R x base /\ R base x).
  { intros x Hx. assert (Ex : exists n, In n [0; 1; 2; 3] /\ place n 1 x = base /\ exists q, In q [1; 2] /\ place n q base = x /\ lone_allows x = true).
    { cbn in Hx. repeat destruct Hx as [<-|Hx]; try contradiction; [exists 0|exists 0|exists 1|exists 2|exists 3]; (split; [cbn; auto|]; split; [reflexivity|]); [exists 1|exists 2|exists 2|exists 2|exists 2]; (split; [cbn; auto|]; split; reflexivity). }
    destruct Ex as (n & Hn & E1 & q & Hq & E2 & Al). split; (split; [assumption|]).
    - exists (n, 1). cbn [fst snd]. split; [|now rewrite E1]. split; [exact Hn|]. split; [cbn; auto|]. cbn [fst snd]. rewrite E1. reflexivity.
    - exists (n, q). cbn [fst snd]. split; [|now rewrite E2]. split; [exact Hn|]. split; [exact Hq|]. cbn [fst snd]. rewrite E2. unfold allowed. cbn [forallb]. now rewrite andb_true_r. }
  intros x y Hx Hy. apply reach_step with base; [apply reach_step with x; [constructor|apply (Out x Hx)]|apply (Out y Hy)].
Qed.
Definition lone_all : plan := lone_plan [1; 1; 1; 1].
Definition lone_last : plan := lone_plan [1; 1; 1; 2].
Definition lone_chain (k : nat) : chain nat (objects (N := nat) (P := nat) (V := Z) (L := nat)) := mkChain (Reusable [lone]) (Z.of_nat k) 0 0 None.
Definition lone_runs (A : list (plan (N := nat) (P := nat)) -> Prop) (k : nat) (p : Q) : Prop :=
  most_runs ex_E [1; 2] (fun _ w => w) A (lone_chain k) (ex_run lone_start []) k p.
Lemma lone_is_plan : is_plan ex_E [1; 2] (ex_run lone_start []) 0 lone_last.
Proof. split; [ex_session|]. eexists. split; [vm_compute; reflexivity|]. split; vm_compute; reflexivity. Qed.
Lemma lone_share y c : In y lone_plans -> (quota lone_plans lone_options y == c)%Q -> forall eps, (0 < eps)%Q -> exists k0, forall k, k0 <= k ->
  lone_runs (fun l => Qabs (portion y l - c) <= eps)%Q k (1 - eps).
Proof.
  intros Hy Hc eps He. destruct (C126_histogram ex_E [1; 2] [lone] lone_passes (fun _ w => w) lone_plans lone_options y ltac:(discriminate) ltac:(vm_compute; nodup) ltac:(nodup) lone_judge lone_harmless lone_component lone_numbers Hy eps He) as (k0 & Hk).
  exists k0. intros k Hle e He'. destruct (Hk k Hle (ex_run lone_start []) (lone_chain k) lone_last eq_refl ltac:(cbn; auto 6) lone_is_plan ltac:(cbn; lia) e He') as (n0 & Hn).
  exists n0. intros n Hl. destruct (Hn n Hl) as (m & (l & N1 & I1 & L1) & B). exists m. split; [|exact B]. exists l. split; [exact N1|]. split; [|exact L1]. intro ds. rewrite I1. unfold run_shows.
  split; intros (H1 & H2 & ys & en & ch' & w' & H3 & H4 & H5); (split; [exact H1|]; split; [exact H2|]; exists ys, en, ch', w'; split; [exact H3|]; split; [exact H4|]); [rewrite <- Hc|rewrite Hc]; exact H5.
Qed.
(** The plan without district 2 is 8/28 of the plans of a long run, each other
    plan 5/28. *)
Example C126_nonvacuous : forall eps, (0 < eps)%Q -> exists k0, forall k, k0 <= k ->
  lone_runs (fun l => Qabs (portion lone_all l - (8 # 28)) <= eps)%Q k (1 - eps) /\ lone_runs (fun l => Qabs (portion lone_last l - (5 # 28)) <= eps)%Q k (1 - eps).
Proof.
  intros eps He. destruct (lone_share lone_all (8 # 28)%Q ltac:(cbn; auto) ltac:(vm_compute; reflexivity) eps He) as (k1 & H1). destruct (lone_share lone_last (5 # 28)%Q ltac:(cbn; auto 6) ltac:(vm_compute; reflexivity) eps He) as (k2 & H2).
  exists (Nat.max k1 k2). intros k Hle. split; [apply H1|apply H2]; lia.
Qed.
(** C126. Such a chain does not sample the allowed plans uniformly: here are five
    of them, and the share of one does not come near 1/5. *)
Theorem C126_uniform_refuted : exists E labs cs passes h y,
  judge (N := nat) (P := nat) (V := Z) (L := nat) E labs cs passes /\ component E labs cs passes lone_plans /\ is_plan E labs h 0 lone_last /\ In lone_last lone_plans /\ In y lone_plans /\
  ~ (forall eps, (0 < eps)%Q -> exists k0, forall k, k0 <= k ->
      most_runs E labs (fun _ w => w) (fun l => Qabs (portion y l - 1 / Qn (List.length lone_plans)) <= eps)%Q (mkChain (Reusable cs) (Z.of_nat k) 0 0 None) h k (1 - eps)).
Proof.
  exists ex_E, [1; 2], [lone], lone_passes, (ex_run lone_start []), lone_all. split; [apply lone_judge|]. split; [apply lone_component|]. split; [apply lone_is_plan|]. split; [cbn; auto 6|]. split; [cbn; auto|].
  intro H. destruct (H (1 # 50)%Q eq_refl) as (k1 & H1). destruct (lone_share lone_all (8 # 28)%Q ltac:(cbn; auto) ltac:(vm_compute; reflexivity) (1 # 50)%Q eq_refl) as (k2 & H2).
  specialize (H1 (Nat.max k1 k2) ltac:(lia) (1 # 50)%Q eq_refl). specialize (H2 (Nat.max k1 k2) ltac:(lia) (1 # 50)%Q eq_refl). destruct H1 as (n1 & H1). destruct H2 as (n2 & H2).
  destruct (H1 (Nat.max n1 n2) ltac:(lia)) as (a & (la & Na & Ia & <-) & Ba). destruct (H2 (Nat.max n1 n2) ltac:(lia)) as (b & (lb & Nb & Ib & <-) & Bb). set (n := Nat.max n1 n2) in *.
  change (List.length (g_nodes (e_graph ex_E)) * List.length [1; 2]) with 8 in *.
  assert (U : List.length (la ++ lb) <= List.length (words 8 n)).
  { apply NoDup_incl_length.
    - apply NoDup_app_iff. split; [exact Na|]. split; [exact Nb|]. intros ds Hda Hdb. apply Ia in Hda. apply Ib in Hdb. destruct Hda as (_ & _ & ys & en & ch' & w' & E1 & _ & A1). destruct Hdb as (_ & _ & ys2 & en2 & ch2 & w2 & E2 & _ & A2).
      unfold lone_chain in E2. rewrite E1 in E2. injection E2 as <- _ _ _. change (1 / Qn (List.length lone_plans))%Q with (1 # 5)%Q in A1. apply Qabs_Qle_condition in A1, A2. lra.
    - intros ds Hd. apply in_app_or in Hd. apply In_words. destruct Hd as [Hd|Hd]; [apply Ia in Hd|apply Ib in Hd]; (split; apply Hd). }
  rewrite app_length, length_words in U. assert (D0 : (0 < Qn (8 ^ n))%Q) by (apply pos_Qn, Nat.neq_0_lt_0, Nat.pow_nonzero; lia).
  assert (Us : (Qn (List.length la) / Qn (8 ^ n) + Qn (List.length lb) / Qn (8 ^ n) <= 1)%Q).
  { setoid_replace (Qn (List.length la) / Qn (8 ^ n) + Qn (List.length lb) / Qn (8 ^ n))%Q with (Qn (List.length la + List.length lb) / Qn (8 ^ n))%Q by (rewrite Qn_plus; field; lra).
    apply Qle_shift_div_r; [exact D0|]. rewrite Qmult_1_l. unfold Qn. rewrite <- Zle_Qle. lia. }
  lra.
Qed.
Print Assumptions C126_uniform_refuted.
