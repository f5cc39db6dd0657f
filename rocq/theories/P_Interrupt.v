(** C112: a chain that is interrupted and used again. *)
From Coq Require Import List Bool Arith ZArith Lia ZifyBool ZifyNat.
From Verif Require Import Base M_Constraints P_Constraints M_Chain P_Chain M_Interrupt.
Import ListNotations.
Local Open Scope list_scope.

Section Interrupt.
  Context {X W : Type}.
  Variable proposal : X -> W -> res X * W.
  Variable accept : X -> W -> res pyval * W.
  Variable erase : X -> W -> W.
  Notation next := (next proposal accept erase).
  Notation advance := (advance proposal accept erase).
  Notation statement := (statement proposal accept erase).
  Notation statements := (statements proposal accept erase).
  Notation history := (history proposal accept erase).
  Implicit Types (cs : list (constraint X W)) (x y : X) (w : W) (ch : chain X W).

  (** ** Specification *)

  (** [y] was proposed from [x], satisfied the constraints and was accepted. *)
  Definition moved cs x y : Prop :=
    exists w w1 w2 v w3, proposal x w = (Ok y, w1) /\ all_true cs y (erase x w1) w2 /\
      accept y w2 = (Ok v, w3) /\ truthy v = true.
  (** [y] is reached from [x] by [m] such moves. *)
  Inductive moves cs : nat -> X -> X -> Prop :=
  | moves_none : forall x, moves cs 0 x x
  | moves_one : forall m x y z, moved cs x y -> moves cs m y z -> moves cs (S m) x z.

  (** ** Lemmas *)
  Lemma advance_statements fuel : forall ch w k r ch' w',
    ch_counter ch = Some k -> advance fuel k ch w = (r, ch', w') -> r <> NoFuel ->
    exists n, statements n Test ch w = Done r ch' w'.
  Proof.
    induction fuel as [|fuel IH]; intros ch w k r ch' w' Hk H Hr; simpl in H.
    { injection H as <- <- <-. congruence. }
    destruct (k <? ch_total ch)%Z eqn:Ek.
    2: { injection H as <- <- <-. exists 1. simpl. now rewrite Hk, Ek. }
    destruct (proposal (ch_state ch) w) as [[y|e|] w1] eqn:Ep.
    2: { injection H as <- <- <-. exists 2. simpl. rewrite Hk, Ek. simpl. now rewrite Ep. }
    2: { injection H as <- <- <-. congruence. }
    destruct (validator (ch_valid ch) y (erase (ch_state ch) w1)) as [[[[|]|e|] w3] i] eqn:Ev.
    - destruct (accept y w3) as [[v|e|] w4] eqn:Ea.
      + injection H as <- <- <-. destruct (truthy v) eqn:Et.
        * exists 8. simpl. rewrite Hk, Ek. simpl. rewrite Ep. simpl. rewrite Ev. simpl.
          rewrite Ea, Et. simpl. rewrite Hk. reflexivity.
        * exists 7. simpl. rewrite Hk, Ek. simpl. rewrite Ep. simpl. rewrite Ev. simpl.
          rewrite Ea, Et. simpl. rewrite Hk. reflexivity.
      + injection H as <- <- <-. exists 5. simpl. rewrite Hk, Ek. simpl. rewrite Ep. simpl.
        rewrite Ev. simpl. now rewrite Ea.
      + injection H as <- <- <-. congruence.
    - apply IH in H as (n & Hn); auto. exists (4 + n). simpl. rewrite Hk, Ek. simpl.
      rewrite Ep. simpl. rewrite Ev. exact Hn.
    - injection H as <- <- <-. exists 4. simpl. rewrite Hk, Ek. simpl. rewrite Ep. simpl.
      now rewrite Ev.
    - injection H as <- <- <-. congruence.
  Qed.

  Lemma statements_advance : forall m n ch w k r ch' w', n <= m ->
    ch_counter ch = Some k -> statements n Test ch w = Done r ch' w' ->
    exists fuel, advance fuel k ch w = (r, ch', w').
  Proof.
    induction m as [|m IH]; intros n ch w k r ch' w' Hn Hk H.
    { assert (n = 0) as -> by lia. discriminate. }
    destruct n as [|n]; [discriminate|]. simpl in H. rewrite Hk in H.
    destruct (k <? ch_total ch)%Z eqn:Ek.
    2: { injection H as <- <- <-. exists 1. simpl. now rewrite Ek. }
    destruct n as [|n]; [discriminate|]. simpl in H.
    destruct (proposal (ch_state ch) w) as [[y|e|] w1] eqn:Ep.
    2: { injection H as <- <- <-. exists 1. simpl. now rewrite Ek, Ep. }
    2: { injection H as <- <- <-. exists 1. simpl. now rewrite Ek, Ep. }
    destruct n as [|n]; [discriminate|]. simpl in H.
    destruct n as [|n]; [discriminate|]. simpl in H.
    destruct (validator (ch_valid ch) y (erase (ch_state ch) w1)) as [[[[|]|e|] w3] i] eqn:Ev.
    - destruct n as [|n]; [discriminate|]. simpl in H.
      destruct (accept y w3) as [[v|e|] w4] eqn:Ea.
      + exists 1. simpl. rewrite Ek, Ep, Ev, Ea. destruct (truthy v).
        * destruct n as [|n]; [discriminate|]. simpl in H.
          destruct n as [|n]; [discriminate|]. simpl in H. rewrite Hk in H.
          destruct n as [|n]; [discriminate|]. simpl in H. injection H as <- <- <-. reflexivity.
        * destruct n as [|n]; [discriminate|]. simpl in H. rewrite Hk in H.
          destruct n as [|n]; [discriminate|]. simpl in H. injection H as <- <- <-. reflexivity.
      + injection H as <- <- <-. exists 1. simpl. now rewrite Ek, Ep, Ev, Ea.
      + injection H as <- <- <-. exists 1. simpl. now rewrite Ek, Ep, Ev, Ea.
    - apply (IH n) with (k := k) in H; [|lia|auto].
      destruct H as (fuel & H). exists (S fuel). simpl. now rewrite Ek, Ep, Ev.
    - injection H as <- <- <-. exists 1. simpl. now rewrite Ek, Ep, Ev.
    - injection H as <- <- <-. exists 1. simpl. now rewrite Ek, Ep, Ev.
  Qed.

  (** C112. Without interrupts the statements of [__next__] compute what the
      function of M_Chain computes, which C35-C41 are about. *)
  Theorem C112_uncut : forall ch w r ch' w', r <> NoFuel ->
    ((exists n, statements n Enter ch w = Done r ch' w') <->
     (exists fuel, next fuel ch w = (r, ch', w'))).
  Proof.
    intros ch w r ch' w' Hr. unfold M_Chain.next. split.
    - intros (n & H). destruct n as [|n]; [discriminate|]. simpl in H.
      destruct (ch_counter ch) as [k|] eqn:Hk.
      2: { injection H as <- <- <-. exists 0. reflexivity. }
      destruct (k =? 0)%Z eqn:E0.
      + destruct n as [|n]; [discriminate|]. simpl in H. rewrite Hk in H.
        destruct n as [|n]; [discriminate|]. simpl in H. injection H as <- <- <-. exists 0.
        assert (k = 0)%Z as -> by lia. reflexivity.
      + eapply statements_advance; eauto.
    - intros (fuel & H). destruct (ch_counter ch) as [k|] eqn:Hk.
      2: { injection H as <- <- <-. exists 1. simpl. now rewrite Hk. }
      destruct (k =? 0)%Z eqn:E0.
      + injection H as <- <- <-. exists 3. simpl. rewrite Hk, E0. simpl. rewrite Hk. simpl.
        assert (k = 0)%Z as -> by lia. reflexivity.
      + eapply advance_statements in H as (n & H); eauto. exists (S n). simpl.
        now rewrite Hk, E0.
  Qed.

  Section Invariant.
    Variable cs : list (constraint X W).
    Variable ch0 : chain X W.
    Variable k : Z.
    Hypothesis Hv : ch_valid ch0 = Reusable cs.
    Hypothesis Hk : ch_counter ch0 = Some k.
    Let s := ch_state ch0.

    Definition returned ch : Prop :=
      (k = 0%Z /\ ch = with_counter ch0 1) \/
      (k <> 0%Z /\ (k < ch_total ch0)%Z /\ exists x, (x = s \/ moved cs s x) /\
         ch = with_counter (with_state ch0 x) (k + 1)).
    Definition inside ch : Prop := ch = ch0 /\ k <> 0%Z /\ (k < ch_total ch0)%Z.
    Definition inv (p : point X) ch w : Prop :=
      match p with
      | Enter => ch = ch0
      | Initial => ch = ch0 /\ k = 0%Z
      | Test => ch = ch0 /\ k <> 0%Z
      | Propose => inside ch
      | Erase y => inside ch /\ exists wa, proposal s wa = (Ok y, w)
      | Validate y => inside ch /\ exists wa wb, proposal s wa = (Ok y, wb) /\ w = erase s wb
      | Decide y => inside ch /\ exists wa wb, proposal s wa = (Ok y, wb) /\
                      all_true cs y (erase s wb) w
      | Move y => inside ch /\ moved cs s y
      | Count => k <> 0%Z /\ (k < ch_total ch0)%Z /\
                 (ch = ch0 \/ exists y, moved cs s y /\ ch = with_state ch0 y)
      | Return => returned ch
      end.
    Definition after (r : res X) ch : Prop :=
      match r with
      | Ok x => x = ch_state ch /\ returned ch
      | Err e => ch = ch0 /\ (quiet proposal accept cs -> e = StopIteration ->
                               k <> 0%Z /\ (ch_total ch0 <= k)%Z)
      | NoFuel => ch = ch0
      end.
    Definition holds (o : outcome X W) : Prop :=
      match o with Running p ch w => inv p ch w | Done r ch _ => after r ch end.

    Lemma with_valid_same : with_valid ch0 (Reusable cs) = ch0.
    Proof. destruct ch0 as [i t i0 s0 c]. simpl in Hv. subst. reflexivity. Qed.
    Lemma same_state : with_counter (with_state ch0 s) (k + 1) = with_counter ch0 (k + 1).
    Proof. destruct ch0. reflexivity. Qed.

    Lemma statement_inv p ch w : inv p ch w -> holds (statement p ch w).
    Proof.
      intro I. destruct p; simpl in *.
      - subst ch. rewrite Hk. destruct (Z.eqb_spec k 0); simpl; auto.
      - destruct I as [-> ->]. rewrite Hk. simpl. left. auto.
      - destruct I as [-> Hn]. rewrite Hk. destruct (Z.ltb_spec k (ch_total ch0)); simpl.
        + repeat split; auto.
        + split; auto.
      - destruct I as (-> & Hn & Hl). destruct (proposal (ch_state ch0) w) as [[y|e|] w1] eqn:Ep; simpl.
        + split; [repeat split; auto|]. eauto.
        + split; auto. intros (Q & _) ->. destruct (Q (ch_state ch0) w). now rewrite Ep.
        + reflexivity.
      - destruct I as ((-> & Hn & Hl) & wa & Ep). split; [repeat split; auto|]. eauto.
      - destruct I as ((-> & Hn & Hl) & wa & wb & Ep & ->). rewrite Hv.
        pose proof (C24_validator cs y (erase s wb)) as (V1 & _).
        pose proof (validator_quiet proposal accept cs y (erase s wb)) as VQ.
        pose proof (validator_reusable cs y (erase s wb)) as Vi.
        destruct (validator (Reusable cs) y (erase s wb)) as [[b w3] i].
        simpl in Vi. subst i. simpl in V1, VQ. rewrite with_valid_same.
        destruct b as [[|]|e|]; simpl.
        + split; [repeat split; auto|]. exists wa, wb. split; auto. now apply V1.
        + auto.
        + split; auto. intros Q ->. destruct (VQ w3 Q). reflexivity.
        + reflexivity.
      - destruct I as ((-> & Hn & Hl) & wa & wb & Ep & At).
        destruct (accept y w) as [[v|e|] w1] eqn:Ea; simpl.
        + destruct (truthy v) eqn:Et; simpl.
          * split; [repeat split; auto|]. exists wa, wb, w, v, w1. auto.
          * auto.
        + split; auto. intros (_ & Q & _) ->. destruct (Q y w). now rewrite Ea.
        + reflexivity.
      - destruct I as ((-> & Hn & Hl) & M). split; auto. split; auto. right. eauto.
      - destruct I as (Hn & Hl & [->|(y & M & ->)]); simpl; rewrite Hk; simpl; right;
          (split; [auto|]; split; [auto|]).
        + exists s. split; [auto|]. symmetry. apply same_state.
        + exists y. split; auto.
      - split; auto.
    Qed.

    Lemma statements_inv n : forall p ch w, inv p ch w -> holds (statements n p ch w).
    Proof.
      induction n as [|n IH]; intros p ch w I; simpl; auto.
      pose proof (statement_inv p ch w I) as J.
      destruct (statement p ch w) as [p1 ch1 w1|r ch1 w1]; auto.
    Qed.
  End Invariant.

  (** C112. An exception of a callback, or StopIteration, leaves the chain
      exactly as it was before the call: same plan, same counter, same
      constraints.  The next call proposes from the same plan again. *)
  Theorem C112_exception : forall n ch w e ch' w' cs,
    ch_valid ch = Reusable cs -> statements n Enter ch w = Done (Err e) ch' w' -> ch' = ch.
  Proof.
    intros n ch w e ch' w' cs Hv H. destruct (ch_counter ch) as [k|] eqn:Hk.
    - pose proof (statements_inv cs ch k Hv Hk n Enter ch w eq_refl) as I. rewrite H in I.
      simpl in I. tauto.
    - destruct n as [|n]; [discriminate|]. simpl in H. rewrite Hk in H. now injection H.
  Qed.

  (** C112. An interrupt leaves the chain in one of three states: as before the
      call; with the accepted plan as current plan but not counted; or with a
      plan that is counted but was not handed out. *)
  Theorem C112_cut : forall n ch w p ch' w' cs,
    ch_valid ch = Reusable cs -> statements n Enter ch w = Running p ch' w' ->
    ch_valid ch' = ch_valid ch /\ ch_total ch' = ch_total ch /\ ch_initial ch' = ch_initial ch /\
    ((ch_state ch' = ch_state ch /\ ch_counter ch' = ch_counter ch) \/
     (moved cs (ch_state ch) (ch_state ch') /\ ch_counter ch' = ch_counter ch) \/
     (exists k, ch_counter ch = Some k /\ ch_counter ch' = Some (k + 1)%Z /\
        (k = 0 \/ k < ch_total ch)%Z /\
        (ch_state ch' = ch_state ch \/ k <> 0%Z /\ moved cs (ch_state ch) (ch_state ch')))).
  Proof.
    intros n ch w p ch' w' cs Hv H. destruct (ch_counter ch) as [k|] eqn:Hk.
    - pose proof (statements_inv cs ch k Hv Hk n Enter ch w eq_refl) as I. rewrite H in I.
      simpl in I. destruct p; simpl in I;
        try (assert (ch' = ch) as -> by (unfold inside in I; tauto); repeat split; auto; fail).
      + destruct I as (Hn & Hl & [->|(y & M & ->)]); simpl; repeat split; auto.
      + destruct I as [(-> & ->)|(Hn & Hl & x & [->|M] & ->)]; simpl;
          repeat (split; [reflexivity|]); right; right.
        * exists 0%Z. repeat split; auto.
        * exists k. repeat split; auto.
        * exists k. repeat split; auto.
    - destruct n as [|n].
      + injection H as _ <- _. repeat split; auto.
      + simpl in H. rewrite Hk in H. discriminate.
  Qed.

  (** One event without a restart. *)
  Lemma yield_spec n ch w x ch' w' cs :
    ch_valid ch = Reusable cs -> statements n Enter ch w = Done (Ok x) ch' w' ->
    ch_valid ch' = ch_valid ch /\ ch_total ch' = ch_total ch /\ ch_initial ch' = ch_initial ch /\
    x = ch_state ch' /\
    exists k, ch_counter ch = Some k /\ ch_counter ch' = Some (k + 1)%Z /\
        (k = 0 \/ k < ch_total ch)%Z /\
        (ch_state ch' = ch_state ch \/ moved cs (ch_state ch) (ch_state ch')).
  Proof.
    intros Hv H. destruct (ch_counter ch) as [k|] eqn:Hk.
    - pose proof (statements_inv cs ch k Hv Hk n Enter ch w eq_refl) as I. rewrite H in I.
      simpl in I. destruct I as (-> & [(-> & ->)|(Hn & Hl & x0 & [->|M] & ->)]); simpl;
        repeat (split; [reflexivity|]).
      * exists 0%Z. repeat split; auto.
      * exists k. repeat split; auto.
      * exists k. repeat split; auto.
    - destruct n as [|n]; [discriminate|]. simpl in H. rewrite Hk in H. discriminate.
  Qed.

  Definition fine cs ch : Prop :=
    ch_state ch = ch_initial ch \/ exists v1 v2, all_true cs (ch_state ch) v1 v2.

  Lemma moved_fine cs x y : moved cs x y -> exists v1 v2, all_true cs y v1 v2.
  Proof. intros (w & w1 & w2 & v & w3 & _ & H & _). eauto. Qed.

  (** C112. However often the chain is interrupted, restarted or continued
      after an exception, every plan it hands out is the initial plan or passed
      all constraints. *)
  Theorem C112_valid : forall ch l ch' cs,
    ch_valid ch = Reusable cs -> history (iter ch) l ch' ->
    forall x, In (Yield x) l -> x = ch_initial ch \/ exists v1 v2, all_true cs x v1 v2.
  Proof.
    intros ch l ch' cs Hv H.
    assert (G : forall c l c', history c l c' -> ch_valid c = Reusable cs -> fine cs c ->
              ch_initial c = ch_initial ch ->
              forall x, In (Yield x) l -> x = ch_initial ch \/ exists v1 v2, all_true cs x v1 v2).
    { clear H l ch'. intros c l c' H.
      induction H as [c|c w n x c1 w1 l c2 S _ IH|c w n e c1 w1 l c2 S _ IH
                     |c w n p c1 w1 l c2 S _ IH|c l c2 _ IH]; intros Hc F Hi y I.
      - destruct I.
      - destruct (yield_spec _ _ _ _ _ _ _ Hc S) as (E1 & _ & E3 & -> & k & _ & _ & _ & M).
        assert (F1 : fine cs c1).
        { unfold fine in *. rewrite E3. destruct M as [->|M]; auto. right. eapply moved_fine; eauto. }
        destruct I as [[= <-]|I].
        + destruct F1 as [->|F1]; auto. left. congruence.
        + apply IH; auto; congruence.
      - destruct I as [I|I]; [discriminate|].
        rewrite (C112_exception _ _ _ _ _ _ _ Hc S) in IH. auto.
      - destruct I as [I|I]; [discriminate|].
        destruct (C112_cut _ _ _ _ _ _ _ Hc S) as (E1 & _ & E3 & M).
        apply IH; auto; try congruence. unfold fine in *. rewrite E3.
        destruct M as [(-> & _)|[(M & _)|(k & _ & _ & _ & [->|(_ & M)])]]; auto;
          right; eapply moved_fine; eauto.
      - destruct I as [I|I]; [discriminate|]. apply IH; auto. left. reflexivity. }
    apply (G _ _ _ H); auto. left. reflexivity.
  Qed.

  Lemma count_cons f (e : event X) l :
    count_of f (e :: l) = ((if f e then 1 else 0) + count_of f l)%Z.
  Proof. unfold count_of. cbn [filter]. destruct (f e); cbn [List.length]; lia. Qed.

  Lemma history_count cs c l c' : history c l c' -> ch_valid c = Reusable cs ->
    count_of is_restart l = 0%Z -> forall k, ch_counter c = Some k -> (0 <= k)%Z ->
    (k <= Z.max 1 (ch_total c))%Z ->
    ch_valid c' = Reusable cs /\ ch_total c' = ch_total c /\
    (exists m, moves cs m (ch_state c) (ch_state c') /\
       (Z.of_nat m <= count_of is_yield l + count_of is_cut l)%Z) /\
    exists k', ch_counter c' = Some k' /\
      (k + count_of is_yield l <= k' <= k + count_of is_yield l + count_of is_cut l)%Z /\
      (k' <= Z.max 1 (ch_total c))%Z.
  Proof.
    intro H.
    induction H as [c|c w n x c1 w1 l c2 S _ IH|c w n e c1 w1 l c2 S _ IH
                   |c w n p c1 w1 l c2 S _ IH|c l c2 _ IH]; intros Hc R k Hk K0 KT.
    - split; auto. split; auto. split.
      + exists 0. split; [constructor|]. unfold count_of. simpl. lia.
      + exists k. unfold count_of. simpl. split; auto. lia.
    - rewrite count_cons in R. cbn [is_yield is_cut is_restart] in R.
      destruct (yield_spec _ _ _ _ _ _ _ Hc S) as (E1 & E2 & _ & -> & k1 & Hk1 & Hk2 & B & M).
      rewrite Hk in Hk1. injection Hk1 as <-. rewrite E2 in IH.
      destruct (IH (eq_trans E1 Hc) R (k + 1)%Z Hk2) as (I1 & I2 & (m & M1 & M2) & k' & I3 & I4 & I5); try lia.
      split; auto. split; auto. rewrite !count_cons. cbn [is_yield is_cut is_restart]. split; [|exists k'; split; auto; lia].
      destruct M as [M|M]; [rewrite <- M; exists m; split; auto; lia|].
      exists (Datatypes.S m). split; [econstructor; eauto|lia].
    - rewrite count_cons in R. cbn [is_yield is_cut is_restart] in R.
      rewrite (C112_exception _ _ _ _ _ _ _ Hc S) in IH. rewrite !count_cons. cbn [is_yield is_cut is_restart].
      apply IH; auto.
    - rewrite count_cons in R. cbn [is_yield is_cut is_restart] in R.
      destruct (C112_cut _ _ _ _ _ _ _ Hc S) as (E1 & E2 & _ & M). rewrite E2 in IH.
      rewrite !count_cons. cbn [is_yield is_cut is_restart].
      destruct M as [(M & Hk2)|[(M & Hk2)|(k1 & Hk1 & Hk2 & B & M)]].
      + rewrite Hk in Hk2.
        destruct (IH (eq_trans E1 Hc) R k Hk2) as (I1 & I2 & (m & M1 & M2) & k' & I3 & I4 & I5); try lia.
        split; auto. split; auto. split; [|exists k'; split; auto; lia].
        rewrite <- M. exists m. split; auto. lia.
      + rewrite Hk in Hk2.
        destruct (IH (eq_trans E1 Hc) R k Hk2) as (I1 & I2 & (m & M1 & M2) & k' & I3 & I4 & I5); try lia.
        split; auto. split; auto. split; [|exists k'; split; auto; lia].
        exists (Datatypes.S m). split; [econstructor; eauto|lia].
      + rewrite Hk in Hk1. injection Hk1 as <-.
        destruct (IH (eq_trans E1 Hc) R (k + 1)%Z Hk2) as (I1 & I2 & (m & M1 & M2) & k' & I3 & I4 & I5); try lia.
        split; auto. split; auto. split; [|exists k'; split; auto; lia].
        destruct M as [M|(_ & M)]; [rewrite <- M; exists m; split; auto; lia|].
        exists (Datatypes.S m). split; [econstructor; eauto|lia].
    - rewrite count_cons in R. cbn [is_yield is_cut is_restart] in R. unfold count_of in R. lia.
  Qed.

  (** C112. Since the last restart a chain hands out at most total_steps plans
      (one, if total_steps <= 0) and makes at most one move per plan handed out
      and per interrupt. *)
  Theorem C112_at_most : forall ch l ch' cs,
    ch_valid ch = Reusable cs -> history (iter ch) l ch' -> count_of is_restart l = 0%Z ->
    (count_of is_yield l <= Z.max 1 (ch_total ch))%Z /\
    exists m, moves cs m (ch_initial ch) (ch_state ch') /\
      (Z.of_nat m <= count_of is_yield l + count_of is_cut l)%Z.
  Proof.
    intros ch l ch' cs Hv H R.
    destruct (history_count cs _ _ _ H Hv R 0%Z eq_refl) as (_ & _ & M & k' & _ & B & T); simpl; try lia.
    simpl in *. split; auto. lia.
  Qed.

  Lemma history_app c l l' c2 :
    history c (l ++ l') c2 -> exists c1, history c l c1 /\ history c1 l' c2.
  Proof.
    revert c. induction l as [|e l IH]; intros c H; simpl in H.
    - exists c. split; auto. constructor.
    - inversion H; subst;
        match goal with J : history _ (l ++ l') c2 |- _ => apply IH in J as (c1 & A & B) end;
        exists c1; split; auto; econstructor; eauto.
  Qed.

  (** C112. When the chain reports its end, the number of plans handed out is
      total_steps minus at most one per interrupt; without interrupts it is
      exactly total_steps, however many exceptions of callbacks were survived
      on the way. *)
  Theorem C112_finished : forall ch l ch' cs,
    ch_valid ch = Reusable cs -> quiet proposal accept cs ->
    history (iter ch) (l ++ [Raise StopIteration]) ch' -> count_of is_restart l = 0%Z ->
    (Z.max 1 (ch_total ch) - count_of is_cut l <= count_of is_yield l <= Z.max 1 (ch_total ch))%Z.
  Proof.
    intros ch l ch' cs Hv Q H R. apply history_app in H as (c1 & H & S).
    destruct (history_count cs _ _ _ H Hv R 0%Z eq_refl) as (V1 & T1 & _ & k' & K & B & T); simpl; try lia.
    simpl in *. inversion S as [|?|? w n e ch1 w1 ? ? S1 _|?|?]; subst.
    pose proof (statements_inv cs c1 k' V1 K n Enter c1 w eq_refl) as I. rewrite S1 in I.
    simpl in I. destruct I as (_ & I). destruct (I Q eq_refl) as (I1 & I2). 
    assert (0 <= count_of is_yield l)%Z by (unfold count_of; lia). lia.
  Qed.
End Interrupt.

(** C112. An interrupt can swallow a plan: a chain counting upwards hands out 0,
    is interrupted after it moved to 1 (the plan 1 is never handed out), and
    hands out 2; and with total_steps = 4 it may hand out only three plans. *)
Theorem C112_swallowed_plan_refuted :
  exists ch l ch',
    history count_up yes (fun _ w => w) (iter ch) l ch' /\ ch_total ch = 4%Z /\
    l = [Yield 0; Cut; Yield 2; Yield 3; Raise StopIteration] /\
    quiet count_up yes (elements (ch_valid ch)).
Proof.
  exists (ex_chain 4). do 2 eexists. split; [|split; [reflexivity|split; [reflexivity|]]].
  - eapply (@history_yield _ _ _ _ _ _ tt 3). { reflexivity. }
    eapply (@history_cut _ _ _ _ _ _ tt 8). { reflexivity. }
    eapply (@history_yield _ _ _ _ _ _ tt 9). { reflexivity. }
    eapply (@history_yield _ _ _ _ _ _ tt 9). { reflexivity. }
    eapply (@history_raise _ _ _ _ _ _ tt 2). { reflexivity. }
    constructor.
  - split; [|split]; try discriminate. intros c x w [<-|[]]. discriminate.
Qed.

(** C112. An interrupt between the move and the counting gives an extra move:
    four plans are handed out and the last one is four moves away. *)
Theorem C112_uncounted_move_refuted :
  exists ch l ch',
    history count_up yes (fun _ w => w) (iter ch) l ch' /\ ch_total ch = 4%Z /\
    l = [Yield 0; Cut; Yield 2; Yield 3; Yield 4; Raise StopIteration].
Proof.
  exists (ex_chain 4). do 2 eexists. split; [|split; reflexivity].
  eapply (@history_yield _ _ _ _ _ _ tt 3). { reflexivity. }
  eapply (@history_cut _ _ _ _ _ _ tt 7). { reflexivity. }
  eapply (@history_yield _ _ _ _ _ _ tt 9). { reflexivity. }
  eapply (@history_yield _ _ _ _ _ _ tt 9). { reflexivity. }
  eapply (@history_yield _ _ _ _ _ _ tt 9). { reflexivity. }
  eapply (@history_raise _ _ _ _ _ _ tt 2). { reflexivity. }
  constructor.
Qed.

(** A proposal that fails now and then: the failures do not cost a plan. *)
Definition unsteady (x : nat) (w : bool) : res nat * bool :=
  if w then (Ok (S x), w) else (Err RuntimeError, w).
Example C112_nonvacuous :
  let below5 : constraint nat bool := fun x w => (Ok (PBool (Nat.ltb x 5)), w) in
  let ok : nat -> bool -> res pyval * bool := fun _ w => (Ok (PBool true), w) in
  let ch := mkChain (Reusable [below5]) 3 0 0 None in
  exists ch', history unsteady ok (fun _ w => w) (iter ch)
    [Yield 0; Raise RuntimeError; Yield 1; Raise RuntimeError; Yield 2; Raise StopIteration] ch' /\
    quiet unsteady ok [below5] /\ moved unsteady ok (fun _ w => w) [below5] 0 1.
Proof.
  intros below5 ok ch. eexists. split; [|split].
  - eapply (@history_yield _ _ _ _ _ _ true 3). { reflexivity. }
    eapply (@history_raise _ _ _ _ _ _ false 3). { reflexivity. }
    eapply (@history_yield _ _ _ _ _ _ true 9). { reflexivity. }
    eapply (@history_raise _ _ _ _ _ _ false 3). { reflexivity. }
    eapply (@history_yield _ _ _ _ _ _ true 9). { reflexivity. }
    eapply (@history_raise _ _ _ _ _ _ true 2). { reflexivity. }
    constructor.
  - split; [|split]; try discriminate.
    + intros x [|]; discriminate.
    + intros c x w [<-|[]]. discriminate.
  - exists true, true, true, (PBool true), true. repeat split; auto.
    econstructor; [reflexivity|left; reflexivity|constructor].
Qed.

Print Assumptions C112_uncut.
Print Assumptions C112_exception.
Print Assumptions C112_cut.
Print Assumptions C112_valid.
Print Assumptions C112_at_most.
Print Assumptions C112_finished.
Print Assumptions C112_swallowed_plan_refuted.
Print Assumptions C112_uncounted_move_refuted.
