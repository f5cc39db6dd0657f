(** C35-C41, C88, C89: Markov chains. *)
From Coq Require Import String List Bool Arith ZArith Lia ZifyBool ZifyNat.
From Verif Require Import Base M_Graph M_Partition S_Partition L_Partition M_Machine S_Machine
  L_Machine L_Answers P_Partition P_Machine M_Constraints P_Constraints M_Chain.
Import ListNotations.
Local Open Scope list_scope.

Section Chain.
  Context {X W : Type}.
  Variable proposal : X -> W -> res X * W.
  Variable accept : X -> W -> res pyval * W.
  Variable erase : X -> W -> W.
  Notation advance := (advance proposal accept erase).
  Notation next := (next proposal accept erase).
  Notation loop := (loop proposal accept erase).
  Notation for_loop := (for_loop proposal accept erase).
  Notation draw := (draw proposal accept erase).
  Implicit Types (cs : list (constraint X W)) (x y : X) (w : W) (ch : chain X W).

  (** ** Specification of one step *)

  (** Plan [y] is rejected by the constraints [cs] (no exception). *)
  Definition rejected cs y w w' : Prop :=
    exists c w1 v, first_failing cs y w c w1 (Ok v) w' /\ is_false v.

  (** [step cs x w x' w']: from current plan [x] in world [w], some number of
      invalid proposals, then a valid one, which is accepted (and becomes the
      next plan) or not (and the plan stays).  The parent link of [x] is erased
      after every proposal. *)
  Inductive step (cs : list (constraint X W)) (x : X) : W -> X -> W -> Prop :=
  | step_invalid : forall w y w1 w2 x' w',
      proposal x w = (Ok y, w1) -> rejected cs y (erase x w1) w2 ->
      step cs x w2 x' w' -> step cs x w x' w'
  | step_stay : forall w y w1 w2 v w',
      proposal x w = (Ok y, w1) -> all_true cs y (erase x w1) w2 ->
      accept y w2 = (Ok v, w') -> truthy v = false -> step cs x w x w'
  | step_move : forall w y w1 w2 v w',
      proposal x w = (Ok y, w1) -> all_true cs y (erase x w1) w2 ->
      accept y w2 = (Ok v, w') -> truthy v = true -> step cs x w y w'.

  (** ** Lemmas *)
  Lemma validator_reusable cs x w : snd (validator (Reusable cs) x w) = Reusable cs.
  Proof. simpl. destruct (validate_loop cs x w) as [[r w'] rest]. reflexivity. Qed.

  Lemma advance_spec fuel : forall k ch w r ch' w' cs,
    ch_valid ch = Reusable cs -> advance fuel k ch w = (r, ch', w') ->
    (forall x', r = Ok x' ->
       (k < ch_total ch)%Z /\ step cs (ch_state ch) w x' w' /\
       ch' = mkChain (Reusable cs) (ch_total ch) (ch_initial ch) x' (Some (k + 1)%Z)) /\
    (forall e, r = Err e -> ch' = ch) /\ (r = NoFuel -> ch' = ch).
  Proof.
    induction fuel as [|fuel IH]; intros k ch w r ch' w' cs Hv H; simpl in H.
    - injection H as <- <- <-. split; [discriminate|]. split; auto.
    - destruct (Z.ltb_spec k (ch_total ch)) as [Hlt|Hge].
      2: { injection H as <- <- <-. split; [discriminate|]. split; auto. }
      assert (Hwv : with_valid ch (Reusable cs) = ch).
      { destruct ch as [i t i0 s c]. simpl in Hv. subst. reflexivity. }
      destruct (proposal (ch_state ch) w) as [[y|e|] w1] eqn:Ep.
      2: { injection H as <- <- <-. split; [discriminate|]. split; auto. }
      2: { injection H as <- <- <-. split; [discriminate|]. split; auto. }
      pose proof (C24_validator cs y (erase (ch_state ch) w1)) as (V1 & V2 & _).
      pose proof (validator_reusable cs y (erase (ch_state ch) w1)) as Vi.
      rewrite Hv in H.
      destruct (validator (Reusable cs) y (erase (ch_state ch) w1)) as [[b w3] i].
      simpl in Vi. subst i. simpl in V1, V2. destruct b as [[|]|e|].
      + destruct (accept y w3) as [[v|e|] w4] eqn:Ea.
        2: { injection H as <- <- <-. split; [discriminate|]. split; auto. }
        2: { injection H as <- <- <-. split; [discriminate|]. split; auto. }
        injection H as <- <- <-. split; [|split; discriminate].
        intros x' [= <-]. split; auto. split; auto.
        destruct (truthy v) eqn:Et.
        * eapply step_move; eauto. now apply V1.
        * eapply step_stay; eauto. now apply V1.
      + rewrite Hwv in H. destruct (IH _ _ _ _ _ _ cs Hv H) as (I1 & I2 & I3).
        split; [|auto]. intros x' Hx'. destruct (I1 x' Hx') as (_ & St & Eq). split; auto. split; auto.
        eapply step_invalid; eauto. now apply V2.
      + rewrite Hwv in H. injection H as <- <- <-. split; [discriminate|]. split; auto.
      + rewrite Hwv in H. injection H as <- <- <-. split; [discriminate|]. split; auto.
  Qed.

  (** Callbacks that never raise StopIteration. *)
  Definition quiet cs : Prop :=
    (forall x w, fst (proposal x w) <> Err StopIteration) /\
    (forall x w, fst (accept x w) <> Err StopIteration) /\
    (forall c x w, In c cs -> fst (c x w) <> Err StopIteration).

  Lemma validator_quiet cs y w w' : quiet cs -> fst (validator (Reusable cs) y w) <> (Err StopIteration, w').
  Proof.
    intros (_ & _ & Q) H. destruct (C24_validator cs y w) as (_ & _ & _ & V4).
    apply V4 in H; [|discriminate]. destruct H as (c & w1 & pre & post & E & _ & B & _).
    apply (Q c y w1); [rewrite E; apply in_elt|]. now rewrite B.
  Qed.

  Lemma advance_stop fuel : forall k ch w ch' w' cs,
    ch_valid ch = Reusable cs -> quiet cs -> advance fuel k ch w = (Err StopIteration, ch', w') ->
    (ch_total ch <= k)%Z.
  Proof.
    induction fuel as [|fuel IH]; intros k ch w ch' w' cs Hv Q H; simpl in H; [discriminate|].
    destruct (Z.ltb_spec k (ch_total ch)) as [Hlt|Hge]; auto. exfalso.
    assert (Hwv : with_valid ch (Reusable cs) = ch).
    { destruct ch as [i t i0 s c]. simpl in Hv. subst. reflexivity. }
    destruct (proposal (ch_state ch) w) as [[y|e|] w1] eqn:Ep; try discriminate.
    2: { injection H as -> _ _. destruct Q as (Q & _). apply (Q (ch_state ch) w). now rewrite Ep. }
    pose proof (validator_quiet cs y (erase (ch_state ch) w1)) as VQ.
    pose proof (validator_reusable cs y (erase (ch_state ch) w1)) as Vi.
    rewrite Hv in H.
    destruct (validator (Reusable cs) y (erase (ch_state ch) w1)) as [[b w3] i].
    simpl in Vi. subst i. destruct b as [[|]|e|].
    - destruct (accept y w3) as [[v|e|] w4] eqn:Ea; try discriminate.
      injection H as -> _ _. destruct Q as (_ & Q & _). apply (Q y w3). now rewrite Ea.
    - rewrite Hwv in H. specialize (IH _ _ _ _ _ cs Hv Q H). lia.
    - injection H as -> _ _. now apply (VQ w3 Q).
    - discriminate.
  Qed.

  Lemma loop_count n : forall fuel body ch w ys ch' w' cs k,
    ch_valid ch = Reusable cs -> quiet cs -> ch_counter ch = Some k -> (0 < k)%Z ->
    loop n fuel body ch w = (ys, Finished, ch', w') ->
    Z.of_nat (List.length ys) = Z.max 0 (ch_total ch - k) /\
    exists k', ch_counter ch' = Some k' /\ (ch_total ch <= k')%Z /\ ch_total ch' = ch_total ch /\ (0 < k')%Z.
  Proof.
    induction n as [|n IH]; intros fuel body ch w ys ch' w' cs k Hv Q Hk Hpos H; [discriminate|].
    simpl in H. unfold M_Chain.next in H. rewrite Hk in H.
    destruct (Z.eqb_spec k 0) as [|_]; [lia|].
    destruct (advance fuel k ch w) as [[r ch1] w1] eqn:Ea.
    destruct (advance_spec _ _ _ _ _ _ _ cs Hv Ea) as (A1 & A2 & _).
    destruct r as [x|e|].
    - destruct (A1 x eq_refl) as (Hlt & _ & ->).
      destruct (loop n fuel body _ (body x w1)) as [[[ys1 en] ch2] w2] eqn:El.
      injection H as <- -> -> ->.
      apply (IH _ _ _ _ _ _ _ cs (k + 1)%Z) in El; auto; simpl in *; [|lia].
      destruct El as [El1 El2]. split; auto. lia.
    - destruct e; try discriminate. injection H as <- <- <-. simpl.
      pose proof (advance_stop _ _ _ _ _ _ cs Hv Q Ea) as Hge.
      rewrite (A2 _ eq_refl). split; [lia|]. exists k. auto.
    - discriminate.
  Qed.

  (** C35. A finished loop yields exactly total_steps plans (one, if
      total_steps <= 0), the initial plan first. *)
  Theorem C35_chain_length : forall n fuel body ch w ys ch' w' cs,
    ch_valid ch = Reusable cs -> quiet cs ->
    for_loop n fuel body ch w = (ys, Finished, ch', w') ->
    List.length ys = Z.to_nat (Z.max 1 (ch_total ch)) /\
    exists rest, ys = (ch_initial ch, w) :: rest.
  Proof.
    intros n fuel body ch w ys ch' w' cs Hv Q H. unfold M_Chain.for_loop in H.
    destruct n as [|n]; [discriminate|]. simpl in H.
    destruct (loop n fuel body _ (body (ch_initial ch) w)) as [[[ys1 en] ch2] w2] eqn:El.
    injection H as <- -> -> ->.
    apply (loop_count _ _ _ _ _ _ _ _ cs 1%Z) in El; auto; [|lia]. simpl in El.
    split; [simpl; lia|eauto].
  Qed.

  (** C35. It does finish when nothing raises and every proposal is valid. *)
  Theorem C35_chain_finishes : forall n fuel body ch w cs,
    ch_valid ch = Reusable cs ->
    (forall x w, exists y w', proposal x w = (Ok y, w')) ->
    (forall x w, exists v w', accept x w = (Ok v, w')) ->
    (forall x w, exists w', all_true cs x w w') ->
    (Z.to_nat (Z.max 1 (ch_total ch)) < n)%nat -> (0 < fuel)%nat ->
    exists ys ch' w', for_loop n fuel body ch w = (ys, Finished, ch', w').
  Proof.
    intros n fuel body ch w cs Hv Pp Pa Pc Hn Hf.
    destruct fuel as [|fuel]; [lia|]. clear Hf.
    assert (G : forall n k ch w, ch_valid ch = Reusable cs -> ch_counter ch = Some k -> (0 < k)%Z ->
              (Z.to_nat (ch_total ch - k) < n)%nat ->
              exists ys ch' w', loop n (S fuel) body ch w = (ys, Finished, ch', w')).
    { clear n ch w Hv Hn. induction n as [|n IH]; intros k ch w Hv Hk Hpos Hn; [lia|].
      simpl. unfold M_Chain.next. rewrite Hk. destruct (Z.eqb_spec k 0) as [|_]; [lia|]. simpl.
      destruct (Z.ltb_spec k (ch_total ch)) as [Hlt|Hge]; [|eauto].
      destruct (Pp (ch_state ch) w) as (y & w1 & ->).
      destruct (Pc y (erase (ch_state ch) w1)) as (w3 & AT).
      pose proof (C24_validator cs y (erase (ch_state ch) w1)) as (V1 & _).
      pose proof (validator_reusable cs y (erase (ch_state ch) w1)) as Vi.
      apply V1 in AT. rewrite Hv.
      destruct (validator (Reusable cs) y (erase (ch_state ch) w1)) as [[b w3'] i].
      simpl in AT, Vi. subst i. injection AT as -> ->.
      destruct (Pa y w3) as (v & w4 & ->).
      set (ch1 := mkChain _ _ _ _ _).
      destruct (IH (k + 1)%Z ch1 (body (if truthy v then y else ch_state ch) w4)) as (ys & ch' & w' & El);
        auto; [simpl; lia|simpl; lia|].
      rewrite El. eauto. }
    unfold M_Chain.for_loop. destruct n as [|n]; [lia|]. simpl.
    set (ch1 := mkChain _ _ _ _ _).
    destruct (G n 1%Z ch1 (body (ch_initial ch) w)) as (ys & ch' & w' & El);
      auto; [lia|simpl; lia|].
    rewrite El. eauto.
  Qed.

  (** C35. If some constraint rejects every plan with False, the loop yields the
      initial plan and never ends, however many proposals are allowed. *)
  Theorem C35_all_invalid_runs_forever : forall n fuel body ch w cs,
    ch_valid ch = Reusable cs ->
    (forall x w, exists y w', proposal x w = (Ok y, w')) ->
    (forall x w, exists c w1 v w2, first_failing cs x w c w1 (Ok v) w2 /\ is_false v) ->
    (1 < ch_total ch)%Z -> (1 < n)%nat ->
    exists ch' w', for_loop n fuel body ch w = ([(ch_initial ch, w)], Unbounded, ch', w').
  Proof.
    intros n fuel body ch w cs Hv Pp Pc Ht Hn.
    assert (G : forall fuel ch w, ch_valid ch = Reusable cs -> (1 < ch_total ch)%Z ->
              exists ch' w', advance fuel 1 ch w = (NoFuel, ch', w')).
    { clear fuel ch w Hv Ht. induction fuel as [|f IH]; intros ch w Hv Ht; [cbn; eauto|]. cbn [M_Chain.advance].
      destruct (Z.ltb_spec 1 (ch_total ch)) as [_|]; [|lia].
      destruct (Pp (ch_state ch) w) as (y & w1 & ->). destruct (Pc y (erase (ch_state ch) w1)) as (c & w2 & v & w3 & FF & Fv).
      pose proof (C24_validator cs y (erase (ch_state ch) w1)) as (_ & V2 & _).
      pose proof (validator_reusable cs y (erase (ch_state ch) w1)) as Vi.
      assert (Vf : fst (validator (Reusable cs) y (erase (ch_state ch) w1)) = (Ok false, w3)) by (apply V2; eauto).
      rewrite Hv. destruct (validator (Reusable cs) y (erase (ch_state ch) w1)) as [[b w3'] i].
      simpl in Vf, Vi. subst i. injection Vf as -> ->. apply IH; auto. }
    unfold M_Chain.for_loop. destruct n as [|[|n]]; [lia|lia|].
    destruct (G fuel (mkChain (ch_valid ch) (ch_total ch) (ch_initial ch) (ch_initial ch) (Some 1%Z)) (body (ch_initial ch) w)) as (ch' & w' & El); auto.
    cbn [M_Chain.loop M_Chain.next iter ch_counter Z.eqb ch_valid ch_total ch_initial ch_state].
    change (1 =? 0)%Z with false. cbv iota. rewrite El. eauto.
  Qed.

  (** C37. Two consecutive yields are related by one step, in the world the
      user's code left behind. *)
  Inductive linked cs (body : X -> W -> W) : X * W -> list (X * W) -> Prop :=
  | linked_nil : forall xw, linked cs body xw []
  | linked_cons : forall x w x' w' rest, step cs x (body x w) x' w' ->
      linked cs body (x', w') rest -> linked cs body (x, w) ((x', w') :: rest).

  Lemma loop_linked n : forall fuel body ch w0 ys en ch' w' cs k,
    ch_valid ch = Reusable cs -> ch_counter ch = Some k -> (0 < k)%Z ->
    loop n fuel body ch (body (ch_state ch) w0) = (ys, en, ch', w') ->
    linked cs body (ch_state ch, w0) ys.
  Proof.
    induction n as [|n IH]; intros fuel body ch w0 ys en ch' w' cs k Hv Hk Hpos H.
    - injection H as <- _ _ _. constructor.
    - simpl in H. unfold M_Chain.next in H. rewrite Hk in H.
      destruct (Z.eqb_spec k 0) as [|_]; [lia|].
      destruct (advance fuel k ch (body (ch_state ch) w0)) as [[r ch1] w1] eqn:Ea.
      destruct (advance_spec _ _ _ _ _ _ _ cs Hv Ea) as (A1 & _ & _).
      destruct r as [x|e|].
      + destruct (A1 x eq_refl) as (Hlt & St & ->).
        destruct (loop n fuel body _ (body x w1)) as [[[ys1 en1] ch2] w2] eqn:El.
        injection H as <- <- <- <-. constructor; auto.
        match type of El with M_Chain.loop _ _ _ _ _ _ ?c _ = _ => apply (IH fuel body c w1 ys1 en1 ch2 w2 cs (k + 1)%Z) end;
          auto. lia.
      + destruct e; injection H as <- _ _ _; constructor.
      + injection H as <- _ _ _. constructor.
  Qed.

  Theorem C37_steps : forall n fuel body ch w ys en ch' w' cs,
    ch_valid ch = Reusable cs ->
    for_loop n fuel body ch w = (ys, en, ch', w') ->
    ys = [] \/ exists rest, ys = (ch_initial ch, w) :: rest /\
                            linked cs body (ch_initial ch, w) rest.
  Proof.
    intros n fuel body ch w ys en ch' w' cs Hv H. unfold M_Chain.for_loop in H.
    destruct n as [|n]; [injection H as <- _ _ _; auto|]. right. simpl in H.
    destruct (loop n fuel body _ (body (ch_initial ch) w)) as [[[ys1 en1] ch2] w2] eqn:El.
    injection H as <- <- <- <-. exists ys1. split; auto.
    match type of El with M_Chain.loop _ _ _ _ _ _ ?c _ = _ =>
      apply (loop_linked n fuel body c w ys1 en1 ch2 w2 cs 1%Z) end; auto. lia.
  Qed.

  (** A step keeps the plan or moves to a proposal made from it that passed all
      constraints. *)
  Lemma step_valid cs x w x' w' : step cs x w x' w' ->
    x' = x \/ exists v0 v1 v2, proposal x v0 = (Ok x', v1) /\ all_true cs x' (erase x v1) v2.
  Proof. induction 1; eauto 8. Qed.

  Lemma linked_valid cs body x w rest : linked cs body (x, w) rest ->
    forall y v, In (y, v) rest -> y = x \/ exists v1 v2, all_true cs y v1 v2.
  Proof.
    remember (x, w) as xw eqn:E. intro H. revert x w E.
    induction H as [|x0 w0 x' w' rest St HL IH]; intros x w E y v Hy; [destruct Hy|].
    injection E as -> ->. destruct (step_valid _ _ _ _ _ St) as [->|(v0 & v1 & v2 & _ & AT)].
    - destruct Hy as [[= <- <-]|Hy]; auto. eapply IH; eauto.
    - destruct Hy as [[= <- <-]|Hy]; [right; eauto|].
      destruct (IH x' w' eq_refl y v Hy) as [->|]; [right; eauto|auto].
  Qed.

  (** C38. However much was drawn from the chain before, iter() brings it back to
      the very same chain, so a loop behaves as if nothing had been drawn. *)
  Lemma next_fixed fuel ch w cs : ch_valid ch = Reusable cs ->
    forall r ch' w', next fuel ch w = (r, ch', w') ->
    ch_valid ch' = Reusable cs /\ ch_total ch' = ch_total ch /\ ch_initial ch' = ch_initial ch.
  Proof.
    intros Hv r ch' w' H. unfold M_Chain.next in H. destruct (ch_counter ch) as [k|].
    - destruct (k =? 0)%Z.
      + injection H as _ <- _. simpl. auto.
      + destruct (advance_spec _ _ _ _ _ _ _ cs Hv H) as (A1 & A2 & A3).
        destruct r as [x|e|].
        * destruct (A1 x eq_refl) as (_ & _ & ->). simpl. auto.
        * rewrite (A2 e eq_refl). auto.
        * rewrite (A3 eq_refl). auto.
    - injection H as _ <- _. auto.
  Qed.
  Theorem C38_restart : forall k fuel ch w ch' w' cs,
    ch_valid ch = Reusable cs -> draw k fuel ch w = (ch', w') ->
    iter ch' = iter ch /\
    forall n fuel' body w2, for_loop n fuel' body ch' w2 = for_loop n fuel' body ch w2.
  Proof.
    intros k fuel ch w ch' w' cs Hv H.
    assert (G : iter ch' = iter ch).
    { revert ch w Hv H. induction k as [|k IH]; intros ch w Hv H; simpl in H.
      - now injection H as <- _.
      - destruct (next fuel ch w) as [[r ch1] w1] eqn:En.
        destruct (next_fixed fuel ch w cs Hv _ _ _ En) as (H1 & H2 & H3).
        rewrite (IH _ _ H1 H). unfold iter. now rewrite H1, H2, H3, Hv. }
    split; auto. intros. unfold M_Chain.for_loop. now rewrite G.
  Qed.

  (** C88. Two loops over the same chain share one counter: once an inner loop
      has run to its end, the next value asked for by an outer loop is
      StopIteration; so in a nested loop the outer one yields one plan only. *)
  Theorem C88_nested_loops_interfere : forall n fuel body ch w ys ch' w' cs fuel' w2,
    ch_valid ch = Reusable cs -> quiet cs ->
    for_loop n fuel body ch w = (ys, Finished, ch', w') ->
    next (S fuel') ch' w2 = (Err StopIteration, ch', w2).
  Proof.
    intros n fuel body ch w ys ch' w' cs fuel' w2 Hv Q H. unfold M_Chain.for_loop in H.
    destruct n as [|n]; [discriminate|]. simpl in H.
    destruct (loop n fuel body _ (body (ch_initial ch) w)) as [[[ys1 en] ch2] w3] eqn:El.
    injection H as <- -> -> ->.
    apply (loop_count _ _ _ _ _ _ _ _ cs 1%Z) in El; auto; [|lia]. simpl in El.
    destruct El as (_ & k & Hk & Hge & Ht & Hp).
    unfold M_Chain.next. rewrite Hk. destruct (Z.eqb_spec k 0); [lia|]. simpl.
    destruct (Z.ltb_spec k (ch_total ch')) as [X0|X0]; [lia|reflexivity].
  Qed.

  (** C88. The whole nested loop: the outer loop yields the initial plan; the
      inner loop then goes through the chain as if there were no outer one; and
      the outer loop ends without another plan. *)
  Theorem C88_outer_loop : forall n fuel body ch w cs x ch1 w1,
    ch_valid ch = Reusable cs -> quiet cs -> next fuel (iter ch) w = (Ok x, ch1, w1) ->
    x = ch_initial ch /\
    (forall w2, for_loop n fuel body ch1 w2 = for_loop n fuel body ch w2) /\
    forall w2 ys ch2 w3, for_loop n fuel body ch1 w2 = (ys, Finished, ch2, w3) ->
    forall n' fuel' body' w4, loop (S n') (S fuel') body' ch2 w4 = ([], Finished, ch2, w4).
  Proof.
    intros n fuel body ch w cs x ch1 w1 Hv Q H.
    assert (Hi : ch_valid (iter ch) = Reusable cs) by exact Hv.
    destruct (next_fixed fuel (iter ch) w cs Hi _ _ _ H) as (V1 & T1 & I1).
    split; [cbn in H; congruence|]. split.
    - intro w2. unfold M_Chain.for_loop. f_equal. unfold iter. rewrite V1, T1, I1, Hv. reflexivity.
    - intros w2 ys ch2 w3 F n' fuel' body' w4. cbn [M_Chain.loop].
      now rewrite (C88_nested_loops_interfere _ _ _ _ _ _ _ _ cs fuel' w4 V1 Q F).
  Qed.

  (** C40. A constraint raising StopIteration ends the loop as if the chain were
      complete, whatever total_steps is. *)
  Theorem C40_stop_iteration_at_any_step : forall n fuel body ch w k y w1 w3 i,
    ch_counter ch = Some k -> (0 < k < ch_total ch)%Z ->
    proposal (ch_state ch) w = (Ok y, w1) ->
    validator (ch_valid ch) y (erase (ch_state ch) w1) = (Err StopIteration, w3, i) ->
    exists ch', loop (S n) (S fuel) body ch w = ([], Finished, ch', w3).
  Proof.
    intros n fuel body ch w k y w1 w3 i Hk Ht Hp Hv. eexists. simpl.
    unfold M_Chain.next. rewrite Hk. destruct (Z.eqb_spec k 0) as [|_]; [lia|]. simpl.
    destruct (Z.ltb_spec k (ch_total ch)) as [_|]; [|lia].
    rewrite Hp, Hv. reflexivity.
  Qed.
  Theorem C40_stop_iteration_ends_the_loop : forall n fuel body ch w y w1 w3 i,
    (1 < ch_total ch)%Z ->
    proposal (ch_initial ch) (body (ch_initial ch) w) = (Ok y, w1) ->
    validator (ch_valid ch) y (erase (ch_initial ch) w1) = (Err StopIteration, w3, i) ->
    exists ch', for_loop (S (S n)) (S fuel) body ch w = ([(ch_initial ch, w)], Finished, ch', w3).
  Proof.
    intros n fuel body ch w y w1 w3 i Ht Hp Hv. eexists. unfold M_Chain.for_loop. simpl.
    unfold M_Chain.next. simpl. destruct (Z.ltb_spec 1 (ch_total ch)) as [_|]; [|lia].
    rewrite Hp, Hv. reflexivity.
  Qed.

  (** C41. After that, every plan yielded is the current plan or passed the
      new constraints. *)
  Theorem C41_after_setter : forall n fuel body ch w ys en ch' w' cs k,
    ch_valid ch = Reusable cs -> ch_counter ch = Some k -> (0 < k)%Z ->
    loop n fuel body ch w = (ys, en, ch', w') ->
    forall y v, In (y, v) ys -> y = ch_state ch \/ exists v1 v2, all_true cs y v1 v2.
  Proof.
    intros n fuel body ch w ys en ch' w' cs k Hv Hk Hpos H y v Hy.
    destruct n as [|n]; [injection H as <- _ _ _; destruct Hy|].
    simpl in H. unfold M_Chain.next in H. rewrite Hk in H.
    destruct (Z.eqb_spec k 0) as [|_]; [lia|].
    destruct (advance fuel k ch w) as [[r ch1] w1] eqn:Ea.
    destruct (advance_spec _ _ _ _ _ _ _ cs Hv Ea) as (A1 & _ & _).
    destruct r as [x|e|].
    - destruct (A1 x eq_refl) as (Hlt & St & ->).
      destruct (loop n fuel body _ (body x w1)) as [[[ys1 en1] ch2] w2] eqn:El.
      injection H as <- <- <- <-.
      match type of El with M_Chain.loop _ _ _ _ _ _ ?c _ = _ =>
        apply (loop_linked n fuel body c w1 ys1 en1 ch2 w2 cs (k + 1)%Z) in El end; auto; [|lia].
      destruct (step_valid _ _ _ _ _ St) as [->|(v0 & v1 & v2 & _ & AT)].
      + destruct Hy as [[= <- <-]|Hy]; auto. eapply linked_valid; eauto.
      + destruct Hy as [[= <- <-]|Hy]; [right; eauto|].
        destruct (linked_valid _ _ _ _ _ El y v Hy) as [->|]; [right; eauto|auto].
    - destruct e; injection H as <- _ _ _; destruct Hy.
    - injection H as <- _ _ _. destruct Hy.
  Qed.

  Variable named : constraint X W -> bool.
  Lemma check_initial_ok i x w i' w' : check_initial named i x w = (Ok i', w') ->
    all_true (elements i) x w w' /\ (forall cs, i = Reusable cs -> i' = Reusable cs).
  Proof.
    unfold check_initial. intro H.
    assert (V : forall w1 i1, validator i x w = (Ok true, w1, i1) ->
              all_true (elements i) x w w1 /\ (forall cs, i = Reusable cs -> i1 = Reusable cs)).
    { intros w1 i1 Hv. pose proof (C24_validator (elements i) x w) as (V1 & _).
      split; [apply V1|].
      - destruct i as [cs|cs]; simpl in *; destruct (validate_loop cs x w) as [[r w2] rest];
          injection Hv as -> -> _; reflexivity.
      - intros cs ->. pose proof (validator_reusable cs x w) as Vi. rewrite Hv in Vi. exact Vi. }
    destruct (validator i x w) as [[[[|]|e|] w1] i1]; try discriminate.
    - injection H as <- <-. apply V. reflexivity.
    - destruct (failed_constraints (elements i1) x w1) as [[fs|e|] w2]; discriminate.
  Qed.

  (** C36. All plans yielded by a successfully constructed chain passed all the
      constraints, the initial one at construction. *)
  Theorem C36_yielded_plans_are_valid : forall arg initial total w0 ch w1 n fuel body w ys en ch' w' cs,
    make_validator arg = Reusable cs ->
    construct named arg initial total w0 = (Ok ch, w1) ->
    for_loop n fuel body ch w = (ys, en, ch', w') ->
    forall y v, In (y, v) ys -> exists v1 v2, all_true cs y v1 v2.
  Proof.
    intros arg initial total w0 ch w1 n fuel body w ys en ch' w' cs Ha Hc Hl y v Hy.
    unfold construct in Hc. rewrite Ha in Hc.
    destruct (check_initial named (Reusable cs) initial w0) as [[i|e|] w2] eqn:Ei; try discriminate.
    injection Hc as <- <-. destruct (check_initial_ok _ _ _ _ _ Ei) as [AT Hi].
    specialize (Hi cs eq_refl). subst i. simpl in AT.
    destruct (fun Hv => C37_steps _ _ _ _ _ _ _ _ _ cs Hv Hl) as [->|(rest & -> & HL)]; [reflexivity|destruct Hy|].
    simpl in *. destruct Hy as [[= <- <-]|Hy]; [eauto|].
    destruct (linked_valid _ _ _ _ _ HL y v Hy) as [->|]; eauto.
  Qed.

  (** C36, for constraints that test a property of the plan alone. *)
  Corollary C36_yielded_plans_satisfy : forall (Good : X -> Prop) arg initial total w0 ch w1 n fuel body w ys en ch' w' cs,
    make_validator arg = Reusable cs ->
    (forall x v v', all_true cs x v v' -> Good x) ->
    construct named arg initial total w0 = (Ok ch, w1) ->
    for_loop n fuel body ch w = (ys, en, ch', w') ->
    forall y v, In (y, v) ys -> Good y.
  Proof.
    intros. edestruct C36_yielded_plans_are_valid as (v1 & v2 & AT); eauto.
  Qed.

  (** C41. Replacing the constraints either fails and changes nothing, or
      installs them after the initial plan passed them. *)
  Theorem C41_setter : forall ch arg w r ch' w' cs,
    make_validator arg = Reusable cs ->
    set_constraints named ch arg w = (r, ch', w') ->
    (r = Ok tt /\ all_true cs (ch_initial ch) w w' /\ ch_valid ch' = Reusable cs /\
       ch_total ch' = ch_total ch /\ ch_initial ch' = ch_initial ch /\
       ch_state ch' = ch_state ch /\ ch_counter ch' = ch_counter ch) \/
    (r <> Ok tt /\ ch' = ch /\ ~ exists w2, all_true cs (ch_initial ch) w w2).
  Proof.
    intros ch arg w r ch' w' cs Ha H. unfold set_constraints in H. rewrite Ha in H.
    destruct (check_initial named (Reusable cs) (ch_initial ch) w) as [[i|e|] w2] eqn:Ei.
    - injection H as <- <- <-. left. destruct (check_initial_ok _ _ _ _ _ Ei) as [AT Hi].
      rewrite (Hi cs eq_refl). simpl. auto 8.
    - injection H as <- <- <-. right. split; [discriminate|]. split; auto.
      intros (w3 & AT). apply (C24_validator cs) in AT. unfold check_initial in Ei.
      destruct (validator (Reusable cs) (ch_initial ch) w) as [[b w4] i]. simpl in AT. injection AT as -> ->.
      discriminate.
    - injection H as <- <- <-. right. split; [discriminate|]. split; auto.
      intros (w3 & AT). apply (C24_validator cs) in AT. unfold check_initial in Ei.
      destruct (validator (Reusable cs) (ch_initial ch) w) as [[b w4] i]. simpl in AT. injection AT as -> ->.
      discriminate.
  Qed.

  (** C89. Constructing a chain from an invalid initial plan raises ValueError
      when the constraints are functions of the plan that do not raise and have
      names ... *)
  Lemma failed_pure (f : constraint X W -> bool) cs x : forall w,
    (forall c w, In c cs -> exists v w', c x w = (Ok v, w') /\ truthy v = f c) ->
    exists w', failed_constraints cs x w = (Ok (filter (fun c => negb (f c)) cs), w').
  Proof.
    induction cs as [|c cs IH]; intros w H; simpl; [eauto|].
    destruct (H c w (or_introl eq_refl)) as (v & w1 & -> & Ht).
    destruct (IH w1) as (w2 & ->); [intros; apply H; now right|].
    rewrite Ht. destruct (f c); simpl; eauto.
  Qed.
  Theorem C89_invalid_initial_plan : forall arg initial total w cs (f : constraint X W -> bool),
    make_validator arg = Reusable cs ->
    (forall c w, In c cs -> exists w', c initial w = (Ok (PBool (f c)), w')) ->
    (Forall (fun c => f c = true) cs -> exists ch w', construct named arg initial total w = (Ok ch, w')) /\
    (Exists (fun c => f c = false) cs ->
       exists w', construct named arg initial total w =
         (Err (if forallb named (filter (fun c => negb (f c)) cs) then ValueError else AttributeError), w')).
  Proof.
    intros arg initial total w cs f Ha Hc.
    assert (G : forall cs w, (forall c w, In c cs -> exists w', c initial w = (Ok (PBool (f c)), w')) ->
       exists w' rest, validate_loop cs initial w = (Ok (forallb f cs), w', rest)).
    { clear. induction cs as [|c cs IH]; intros w Hc; simpl; [eauto|].
      destruct (Hc c w (or_introl eq_refl)) as (w1 & ->). unfold verdict. simpl.
      destruct (f c); simpl; [|eauto]. apply IH. intros; apply Hc; now right. }
    destruct (G cs w Hc) as (w1 & rest & Hv). unfold construct, check_initial. rewrite Ha. simpl.
    rewrite Hv. split; intro H.
    - assert (forallb f cs = true) as ->.
      { apply forallb_forall. now apply Forall_forall. }
      eauto.
    - assert (forallb f cs = false) as ->.
      { apply not_true_iff_false. intro Hf. rewrite forallb_forall in Hf.
        apply Exists_exists in H. destruct H as (c & Hin & Hfc). rewrite (Hf c Hin) in Hfc. discriminate. }
      simpl. destruct (failed_pure f cs initial w1) as (w2 & ->); [|eauto].
      intros c w' Hin. destruct (Hc c w' Hin) as (w2 & ->). exists (PBool (f c)), w2. auto.
  Qed.

  (** ... but AttributeError when the constraints are given as a Validator (an
      object without a name), as the documentation recommends. *)
  Corollary C89_validator_object_attribute_error : forall (v : constraint X W) initial total w,
    named v = false -> (forall w, exists w', v initial w = (Ok (PBool false), w')) ->
    exists w', construct named (Callable v) initial total w = (Err AttributeError, w').
  Proof.
    intros v initial total w Hn Hf.
    destruct (C89_invalid_initial_plan (Callable v) initial total w [v] (fun _ => false) eq_refl)
      as [_ H].
    - intros c w' [<-|[]]. apply Hf.
    - destruct H as (w' & H); [repeat constructor|]. simpl in H. rewrite Hn in H. eauto.
  Qed.
  (** C41. When the initial plan violates constraints that are functions of the
      plan, assigning them raises ValueError, or AttributeError if a violated one
      has no name, and the chain keeps the old ones. *)
  Theorem C41_setter_error : forall ch arg w cs (f : constraint X W -> bool),
    make_validator arg = Reusable cs ->
    (forall c w, In c cs -> exists w', c (ch_initial ch) w = (Ok (PBool (f c)), w')) ->
    Exists (fun c => f c = false) cs ->
    exists w', set_constraints named ch arg w =
      (Err (if forallb named (filter (fun c => negb (f c)) cs) then ValueError else AttributeError), ch, w').
  Proof.
    intros ch arg w cs f Ha Hc He. destruct (C89_invalid_initial_plan arg (ch_initial ch) 0 w cs f Ha Hc) as [_ H].
    destruct (H He) as (w' & Hw). unfold construct in Hw. unfold set_constraints.
    destruct (check_initial named (make_validator arg) (ch_initial ch) w) as [[i|e|] w1]; try discriminate.
    injection Hw as -> ->. eauto.
  Qed.
End Chain.

(** C41. The current plan need not satisfy the constraints that were just
    installed: a chain on the integers counting upwards from 0, with "below 1"
    installed after two plans were drawn. *)
Definition count_up (x : nat) (w : unit) : res nat * unit := (Ok (S x), w).
Definition yes (x : nat) (w : unit) : res pyval * unit := (Ok (PBool true), w).
Definition below (k : nat) : constraint nat unit := fun x w => (Ok (PBool (Nat.ltb x k)), w).
Definition ex_chain (total : Z) : chain nat unit :=
  mkChain (Reusable [below 5]) total 0 0 None.
Theorem C41_current_plan_may_violate_refuted :
  exists ch w ch',
    draw count_up yes (fun _ w => w) 2 3 (iter (ex_chain 10)) tt = (ch, w) /\
    set_constraints (fun _ => true) ch (Callable (below 1)) w = (Ok tt, ch', w) /\
    ch_state ch' = 1 /\ fst (below 1 (ch_state ch') w) = Ok (PBool false).
Proof. do 3 eexists. split; [reflexivity|]. split; [reflexivity|]. split; reflexivity. Qed.

(** A finished loop of a quiet chain. *)
Example C35_nonvacuous :
  let ys := map (fun k => (k, tt)) [0; 1; 2; 3] in
  (exists ch, for_loop count_up yes (fun _ w => w) 9 3 (fun _ w => w) (ex_chain 4) tt =
     (ys, Finished, ch, tt)) /\ quiet count_up yes [below 5].
Proof.
  split; [eexists; vm_compute; reflexivity|]. split; [|split]; try discriminate.
  intros c x w [<-|[]]. discriminate.
Qed.
Theorem C35_length_for_nonpositive_refuted :
  exists total ys ch, (total <= 0)%Z /\
    for_loop count_up yes (fun _ w => w) 9 3 (fun _ w => w) (ex_chain total) tt = (ys, Finished, ch, tt) /\
    Z.of_nat (List.length ys) <> total.
Proof. exists 0%Z. do 2 eexists. split; [lia|]. split; [vm_compute; reflexivity|]. discriminate. Qed.

(** A chain that never gets past its initial plan. *)
Example C35_all_invalid_nonvacuous :
  (forall x w, exists y w', count_up x w = (Ok y, w')) /\
  exists x, fst (below 1 x tt) = Ok (PBool false).
Proof. split; [intros x w; do 2 eexists; reflexivity|exists 1; reflexivity]. Qed.

Definition stops : constraint nat unit := fun x w =>
  if Nat.ltb x 2 then (Ok (PBool true), w) else (Err StopIteration, w).
Theorem C40_step_count_refuted :
  exists ch ys ch', (ch_total ch = 10)%Z /\
    construct (fun _ => true) (Callable stops) 0 10 tt = (Ok ch, tt) /\
    for_loop count_up yes (fun _ w => w) 20 3 (fun _ w => w) ch tt = (ys, Finished, ch', tt) /\
    List.length ys = 2.
Proof. do 3 eexists. split; [|split; [reflexivity|split; [vm_compute; reflexivity|reflexivity]]]. reflexivity. Qed.

Example C38_nonvacuous :
  exists ch w, draw count_up yes (fun _ w => w) 3 2 (iter (ex_chain 4)) tt = (ch, w) /\ ch_state ch = 2.
Proof. do 2 eexists. split; reflexivity. Qed.
Example C89_nonvacuous :
  construct (fun _ => false) (Callable (below 1)) 3 10 tt = (Err AttributeError, tt) /\
  construct (fun _ => true) (Callable (below 1)) 3 10 tt = (Err ValueError, tt).
Proof. split; reflexivity. Qed.
(** C89. A constraint after the failing one is not consulted by the validator but
    is called when the message is composed, so its exception replaces the
    ValueError. *)
Theorem C89_later_constraint_masks_error_refuted :
  construct (fun _ => true) (Collection (Reusable [below 1; fun _ w => (Err KeyError, w)])) 3 10 tt
    = (Err KeyError, tt).
Proof. reflexivity. Qed.

(** ** C39: chains of plan objects *)
Section Memory.
  Context {N P V L R : Type} {EN : EqB N} {EP : EqB P} {EL : EqB L} {ON : Ord N} {RV : CRing V}.
  Variable E : env N P V L.
  (** The world: the plan objects and anything else (random state, ...). *)
  Notation W := (heap N P V L * R)%type.

  (** A computation that only creates and reads plans (and erases links). *)
  Definition well_behaved {A} (m : W -> A * W) : Prop :=
    forall w, exists ops, Forall wf_op ops /\ fst (snd (m w)) = exec E ops (fst w).

  Variable proposal : nat -> W -> res nat * W.
  Variable accept : nat -> W -> res pyval * W.
  Variable cs : list (constraint nat W).
  Variable body : nat -> W -> W.
  Definition erase_link (a : nat) (w : W) : W := (erase a (fst w), snd w).

  (** The proposal returns the plan itself or a plan flipped from it. *)
  Hypothesis proposal_ok : forall a, well_behaved (proposal a).
  Hypothesis proposal_flips : forall a w b w', proposal a w = (Ok b, w') ->
    b = a \/ exists o, nth_error (fst w') b = Some o /\ o_parent o = Some a.
  Hypothesis accept_ok : forall a, well_behaved (accept a).
  Hypothesis cs_ok : forall c a, In c cs -> well_behaved (c a).
  Hypothesis body_ok : forall a, well_behaved (fun w => (tt, body a w)).

  (** At most one ancestor is reachable from plan [a]. *)
  Definition one_ancestor (h : heap N P V L) (a : nat) : Prop :=
    exists o, nth_error h a = Some o /\
      forall q, o_parent o = Some q -> exists oq, nth_error h q = Some oq /\ o_parent oq = None.

  (** Plan [a] exists and has no parent. *)
  Definition cut_off (h : heap N P V L) (a : nat) : Prop :=
    exists o, nth_error h a = Some o /\ o_parent o = None.

  Lemma exec_keeps_cut h a ops : session E h -> Forall wf_op ops -> cut_off h a -> cut_off (exec E ops h) a.
  Proof.
    intros S F (o & Ho & Hp). pose proof (session_wf E h S) as Wf. destruct S as (WE & REG & _).
    destruct (proj1 (exec_persists E ops h WE REG F Wf) a o Ho) as (o' & H1 & _ & _ & H4).
    exists o'. split; auto. destruct (o_parent o') as [q|] eqn:Eq; auto. rewrite (H4 q eq_refl) in Hp. discriminate.
  Qed.
  Lemma exec_keeps_one h a ops : session E h -> Forall wf_op ops -> one_ancestor h a ->
    one_ancestor (exec E ops h) a.
  Proof.
    intros S F (o & Ho & Hp). pose proof (session_wf E h S) as Wf.
    pose proof S as (WE & REG & _).
    destruct (proj1 (exec_persists E ops h WE REG F Wf) a o Ho) as (o' & H1 & _ & _ & H4).
    exists o'. split; auto. intros q Hq. destruct (Hp q (H4 q Hq)) as (oq & Hoq & Hn).
    apply (exec_keeps_cut h q ops S F). exists oq. auto.
  Qed.
  Lemma exec_keeps_existing h a ops o : session E h -> Forall wf_op ops -> nth_error h a = Some o ->
    exists o', nth_error (exec E ops h) a = Some o'.
  Proof.
    intros S F Ho. pose proof (session_wf E h S) as Wf. destruct S as (WE & REG & _).
    destruct (proj1 (exec_persists E ops h WE REG F Wf) a o Ho) as (o' & H1 & _). eauto.
  Qed.

  (** What the run of a chain preserves about the current plan [a]. *)
  Definition good (Pr : heap N P V L -> nat -> Prop) (w : W) (a : nat) : Prop := session E (fst w) /\ Pr (fst w) a.

  Lemma wb_keeps (Pr : heap N P V L -> nat -> Prop) {A} (m : W -> A * W) w a :
    (forall h a ops, session E h -> Forall wf_op ops -> Pr h a -> Pr (exec E ops h) a) ->
    well_behaved m -> good Pr w a -> good Pr (snd (m w)) a.
  Proof.
    intros K H [S O]. unfold good. destruct (H w) as (ops & F & ->). split; [now apply session_exec|auto].
  Qed.
  Lemma all_true_keeps (Pr : heap N P V L -> nat -> Prop) cs' y w w' a :
    (forall h a ops, session E h -> Forall wf_op ops -> Pr h a -> Pr (exec E ops h) a) ->
    incl cs' cs -> all_true cs' y w w' -> good Pr w a -> good Pr w' a.
  Proof.
    intros K I H. induction H as [x w|c cs' x w v w1 w2 Hc _ _ IH]; intro G; auto.
    apply IH; [intros d Hd; apply I; now right|].
    replace w1 with (snd (c x w)) by (now rewrite Hc).
    apply wb_keeps; auto. apply cs_ok, I. now left.
  Qed.
  Lemma rejected_keeps (Pr : heap N P V L -> nat -> Prop) y w w' a :
    (forall h a ops, session E h -> Forall wf_op ops -> Pr h a -> Pr (exec E ops h) a) ->
    rejected cs y w w' -> good Pr w a -> good Pr w' a.
  Proof.
    intros K (c & w1 & v & (pre & post & Ec & AT & Hc & _) & _) G.
    replace w' with (snd (c y w1)) by (now rewrite Hc).
    apply wb_keeps; auto; [apply cs_ok; rewrite Ec; apply in_elt|].
    eapply all_true_keeps; eauto. intros d Hd. rewrite Ec. apply in_or_app. now left.
  Qed.

  Definition exists_plan (h : heap N P V L) (a : nat) : Prop := exists o, nth_error h a = Some o.
  Lemma exists_keeps h a ops : session E h -> Forall wf_op ops -> exists_plan h a -> exists_plan (exec E ops h) a.
  Proof. intros S F [o Ho]. eapply exec_keeps_existing; eauto. Qed.

  Lemma erase_cuts w a : good exists_plan w a -> good cut_off (erase_link a w) a.
  Proof.
    intros [S [o Ho]]. split; [now apply session_erase|].
    exists (without_parent o). split; [|reflexivity]. simpl. unfold erase. rewrite nth_set_nth, Nat.eqb_refl, Ho. reflexivity.
  Qed.

  Lemma step_one_ancestor a w b w' :
    step proposal accept erase_link cs a w b w' -> good exists_plan w a -> good one_ancestor w' b.
  Proof.
    assert (C1 : forall h a, cut_off h a -> one_ancestor h a).
    { intros h x (o & Ho & Hn). exists o. split; auto. intros q Hq. congruence. }
    assert (C2 : forall h a, cut_off h a -> exists_plan h a).
    { intros h x (o & Ho & _). exists o. auto. }
    induction 1 as [w y w1 w2 x' w' Hp Hr _ IH|w y w1 w2 v w' Hp Hv Ha _|w y w1 w2 v w' Hp Hv Ha _]; intro G.
    - assert (G1 : good exists_plan w1 a).
      { replace w1 with (snd (proposal a w)) by (now rewrite Hp). apply wb_keeps; auto. apply exists_keeps. }
      apply IH. pose proof (rejected_keeps cut_off _ _ _ a exec_keeps_cut Hr (erase_cuts w1 a G1)) as [S K].
      split; auto.
    - assert (G1 : good exists_plan w1 a).
      { replace w1 with (snd (proposal a w)) by (now rewrite Hp). apply wb_keeps; auto. apply exists_keeps. }
      pose proof (all_true_keeps cut_off cs _ _ _ a exec_keeps_cut (incl_refl _) Hv (erase_cuts w1 a G1)) as G2.
      replace w' with (snd (accept y w2)) by (now rewrite Ha).
      destruct (wb_keeps cut_off (accept y) w2 a exec_keeps_cut (accept_ok y) G2) as [S K]. split; auto.
    - assert (G1 : good exists_plan w1 a).
      { replace w1 with (snd (proposal a w)) by (now rewrite Hp). apply wb_keeps; auto. apply exists_keeps. }
      assert (G2 : good one_ancestor (erase_link a w1) y).
      { pose proof (erase_cuts w1 a G1) as [S K]. split; auto.
        destruct (proposal_flips a w y w1 Hp) as [->|(o & Ho & Hq)]; [now apply C1|].
        destruct (Nat.eq_dec y a) as [->|Hne]; [now apply C1|].
        exists o. split.
        - simpl. unfold erase. rewrite nth_set_nth. destruct (Nat.eqb_spec y a); [congruence|auto].
        - intros q Hq'. assert (q = a) by congruence. subst q. exact K. }
      pose proof (all_true_keeps one_ancestor cs _ _ _ y exec_keeps_one (incl_refl _) Hv G2) as G3.
      replace w' with (snd (accept y w2)) by (now rewrite Ha).
      exact (wb_keeps one_ancestor (accept y) w2 y exec_keeps_one (accept_ok y) G3).
  Qed.

  (** C39. From the second plan on, every yielded plan has at most one ancestor
      at the moment it is yielded, and the plan objects form a session, so that
      all the theorems of P_Machine.v apply to its updaters. *)
  Theorem C39_one_ancestor : forall n fuel ch w ys en ch' w',
    ch_valid ch = Reusable cs -> session E (fst w) ->
    (exists o, nth_error (fst w) (ch_initial ch) = Some o) ->
    for_loop proposal accept erase_link n fuel body ch w = (ys, en, ch', w') ->
    forall i a v, nth_error ys i = Some (a, v) ->
      session E (fst v) /\ (0 < i -> one_ancestor (fst v) a).
  Proof.
    intros n fuel ch w ys en ch' w' Hv S Ho Hl i a v Hi.
    destruct (C37_steps proposal accept erase_link n fuel body ch w ys en ch' w' cs Hv Hl) as [->|(rest & -> & HL)].
    { destruct i; discriminate. }
    destruct i as [|i]; simpl in Hi.
    - injection Hi as <- <-. split; auto. lia.
    - assert (G0 : good exists_plan w (ch_initial ch)) by (split; auto).
      assert (Main : forall rest x w, linked proposal accept erase_link cs body (x, w) rest ->
                good exists_plan w x -> forall j a v, nth_error rest j = Some (a, v) -> good one_ancestor v a).
      { clear - accept_ok cs_ok body_ok proposal_ok proposal_flips. induction rest as [|[y u] rest IH]; intros x w HL G j a v Hj; [destruct j; discriminate|].
        inversion HL; subst.
        assert (G1 : good exists_plan (body x w) x).
        { apply (wb_keeps exists_plan (fun w => (tt, body x w)) w x exists_keeps (body_ok x) G). }
        assert (G2 : good one_ancestor u y) by (eapply step_one_ancestor; eauto).
        destruct j as [|j]; simpl in Hj.
        - injection Hj as <- <-. exact G2.
        - eapply IH; eauto. destruct G2 as [S2 (o2 & Ho2 & _)]. split; auto. exists o2. auto. }
      destruct (Main rest _ _ HL G0 i a v Hi) as [S1 O1]. auto.
  Qed.
End Memory.

(** A chain of flips on the path of P_Machine.v: the world carries the flips to
    try; after three steps the fourth plan has one ancestor while four plans
    have been created. *)
Definition ex_prop (a : nat) (w : heap nat nat Z nat * list (dict nat nat))
  : res nat * (heap nat nat Z nat * list (dict nat nat)) :=
  match snd w with
  | [] => (Err IndexError, w)
  | f :: r => let '(b, h) := flip ex_E a f (fst w) in (b, (h, r))
  end.
Example C39_nonvacuous :
  exists ys ch' w' h a,
    for_loop ex_prop (fun _ w => (Ok (PBool true), w)) erase_link 9 9 (fun _ w => w)
      (mkChain (Reusable []) 4 0 0 None) (ex_run ex_plan [], [[(1, 2)]; [(2, 1)]; [(1, 1)]])
      = (ys, Finished, ch', w') /\
    nth_error ys 3 = Some (a, (h, [])) /\ List.length h = 4 /\ one_ancestor h a /\
    session ex_E (ex_run ex_plan []).
Proof.
  do 5 eexists. split; [vm_compute; reflexivity|]. split; [vm_compute; reflexivity|].
  split; [vm_compute; reflexivity|]. split; [|ex_session].
  eexists. split; [vm_compute; reflexivity|]. intros q [= <-]. eexists.
  split; [vm_compute; reflexivity|reflexivity].
Qed.

Print Assumptions C35_chain_length.
Print Assumptions C35_chain_finishes.
Print Assumptions C35_length_for_nonpositive_refuted.
Print Assumptions C35_all_invalid_runs_forever.
Print Assumptions C36_yielded_plans_are_valid.
Print Assumptions C36_yielded_plans_satisfy.
Print Assumptions C37_steps.
Print Assumptions C38_restart.
Print Assumptions C39_one_ancestor.
Print Assumptions C40_stop_iteration_ends_the_loop.
Print Assumptions C40_stop_iteration_at_any_step.
Print Assumptions C40_step_count_refuted.
Print Assumptions C41_setter.
Print Assumptions C41_setter_error.
Print Assumptions C41_after_setter.
Print Assumptions C41_current_plan_may_violate_refuted.
Print Assumptions C88_nested_loops_interfere.
Print Assumptions C88_outer_loop.
Print Assumptions C89_invalid_initial_plan.
Print Assumptions C89_validator_object_attribute_error.
Print Assumptions C89_later_constraint_masks_error_refuted.
