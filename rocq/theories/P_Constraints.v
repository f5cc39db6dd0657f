(** C24-C28, C34, C85-C87: validators and bounds. *)
From Coq Require Import String List Bool Arith ZArith QArith Qfield Lia Lqa ZifyBool ZifyNat.
From Verif Require Import Base M_Graph M_Partition S_Partition L_Partition M_Machine S_Machine
  L_Machine L_Answers P_Partition P_Machine M_Constraints.
Import ListNotations.
Local Open Scope list_scope.

(** ** Validator *)
Section Validator.
  Context {X W : Type}.
  Implicit Types (c : constraint X W) (cs : list (constraint X W)) (x : X) (w : W).

  Definition is_true (v : pyval) : Prop := v = PBool true \/ v = PNumpyBool true.
  Definition is_false (v : pyval) : Prop := v = PBool false \/ v = PNumpyBool false.

  (** The constraints are called in order, each in the world left by the one
      before, and all return True. *)
  Inductive all_true : list (constraint X W) -> X -> W -> W -> Prop :=
  | AT_nil : forall x w, all_true [] x w w
  | AT_cons : forall c cs x w v w1 w2, c x w = (Ok v, w1) -> is_true v ->
      all_true cs x w1 w2 -> all_true (c :: cs) x w w2.

  (** [c] is the first constraint that does not return True, called in world
      [w1], with outcome [out] and world [w2]; nothing is called after it. *)
  Definition first_failing cs x w c w1 (out : res pyval) w2 : Prop :=
    exists pre post, cs = pre ++ c :: post /\ all_true pre x w w1 /\ c x w1 = (out, w2) /\
      match out with Ok v => ~ is_true v | _ => True end.

  Lemma validate_cases cs : forall x w,
    (exists w', validate_loop cs x w = (Ok true, w', []) /\ all_true cs x w w') \/
    (exists c w1 out w2 post, first_failing cs x w c w1 out w2 /\
       validate_loop cs x w =
         (match out with
          | Ok v => match v with PBool false | PNumpyBool false => Ok false | _ => Err TypeError end
          | Err e => Err e
          | NoFuel => NoFuel
          end, w2, post)).
  Proof.
    induction cs as [|c cs IH]; intros x w.
    - left. exists w. split; [reflexivity|constructor].
    - simpl. destruct (c x w) as [[v|e|] w'] eqn:Ec.
      + assert (Fail : ~ is_true v -> exists c0 w1 out w2 post, first_failing (c :: cs) x w c0 w1 out w2 /\
                 (match match v with PBool false | PNumpyBool false => Ok false | _ => Err TypeError end with
                  | r => (r, w', cs) end =
                 (match out with
                  | Ok v => match v with PBool false | PNumpyBool false => Ok false | _ => Err TypeError end
                  | Err e => Err e | NoFuel => NoFuel end, w2, post))).
        { intro NT. exists c, w, (Ok v), w', cs. split; [|reflexivity].
          exists [], cs. repeat split; auto. constructor. }
        assert (Go : is_true v ->
          (exists w'0, validate_loop cs x w' = (Ok true, w'0, []) /\ all_true (c :: cs) x w w'0) \/
          (exists c0 w1 out w2 post, first_failing (c :: cs) x w c0 w1 out w2 /\
             validate_loop cs x w' =
             (match out with
              | Ok v => match v with PBool false | PNumpyBool false => Ok false | _ => Err TypeError end
              | Err e => Err e | NoFuel => NoFuel end, w2, post))).
        { intro T. destruct (IH x w') as [(w2 & H1 & H2)|(c0 & w1 & out & w2 & post & H1 & H2)].
          - left. exists w2. split; auto. econstructor; eauto.
          - right. exists c0, w1, out, w2, post. split; auto.
            destruct H1 as (pre & po & -> & A & B & C). exists (c :: pre), po.
            repeat split; auto. econstructor; eauto. }
        destruct v as [[|]|[|]|]; simpl.
        * apply Go. now left.
        * right. apply Fail. intros [H|H]; discriminate.
        * apply Go. now right.
        * right. apply Fail. intros [H|H]; discriminate.
        * right. apply Fail. intros [H|H]; discriminate.
      + right. exists c, w, (Err e), w', cs. split; [|reflexivity]. exists [], cs.
        repeat split; auto. constructor.
      + right. exists c, w, NoFuel, w', cs. split; [|reflexivity]. exists [], cs.
        repeat split; auto. constructor.
  Qed.

  Lemma all_true_det cs : forall x w w1 w2, all_true cs x w w1 -> all_true cs x w w2 -> w1 = w2.
  Proof.
    induction cs as [|c cs IH]; intros x w w1 w2 H1 H2; inversion H1; inversion H2; subst; auto.
    eapply IH; eauto. congruence.
  Qed.

  Lemma all_true_not_failing cs x w w' c w1 out w2 :
    all_true cs x w w' -> first_failing cs x w c w1 out w2 -> False.
  Proof.
    intros H (pre & post & -> & A & B & C). revert w w' H A.
    induction pre as [|d pre IH]; intros w w' H A.
    - inversion A; subst. simpl in H. inversion H; subst.
      match goal with E : c x w1 = (Ok ?v, _), T : is_true ?v |- _ =>
        rewrite E in B; injection B as <- <-; now apply C end.
    - simpl in H. inversion H; inversion A; subst.
      match goal with E1 : d x w = _, E2 : d x w = _ |- _ => rewrite E1 in E2; injection E2 as <- <- end.
      eapply IH; eauto.
  Qed.

  Lemma failing_det cs x w c w1 out w2 c' w1' out' w2' :
    first_failing cs x w c w1 out w2 -> first_failing cs x w c' w1' out' w2' ->
    out = out' /\ w2 = w2'.
  Proof.
    intros (pre & post & E & A & B & C) (pre' & post' & E' & A' & B' & C').
    revert w pre' cs E E' A A'. induction pre as [|d pre IH]; intros w pre' cs E E' A A'.
    - inversion A; subst. destruct pre' as [|d' pre']; simpl in E'.
      + injection E' as <- _. inversion A'; subst. rewrite B in B'. injection B' as <- <-. auto.
      + injection E' as <- _. inversion A'; subst. exfalso.
        match goal with E : c x w1 = (Ok ?v, _), T : is_true ?v |- _ =>
          rewrite E in B; injection B as <- <-; now apply C end.
    - inversion A; subst. destruct pre' as [|d' pre']; simpl in E'.
      + injection E' as <- _. inversion A'; subst. exfalso.
        match goal with E : d x w1' = (Ok ?v, _), T : is_true ?v |- _ =>
          rewrite E in B'; injection B' as <- <-; now apply C' end.
      + injection E' as <- E'. inversion A'; subst.
        match goal with E1 : d x w = _, E2 : d x w = _ |- _ => rewrite E1 in E2; injection E2 as <- <- end.
        eapply IH; eauto.
  Qed.

  (** C24. A Validator is the short-circuit conjunction of its constraints. *)
  Theorem C24_validator : forall (cs : list (constraint X W)) x w,
    let r := validator (Reusable cs) x w in
    (forall w', fst r = (Ok true, w') <-> all_true cs x w w') /\
    (forall w', fst r = (Ok false, w') <->
       exists c w1 v, first_failing cs x w c w1 (Ok v) w' /\ is_false v) /\
    (forall w', fst r = (Err TypeError, w') <->
       exists c w1 out, first_failing cs x w c w1 out w' /\ ((exists t, out = Ok (POther t)) \/ out = Err TypeError)) /\
    (forall w' e, e <> TypeError -> fst r = (Err e, w') <->
       exists c w1, first_failing cs x w c w1 (Err e) w').
  Proof.
    intros cs x w. simpl.
    destruct (validate_cases cs x w) as [(w0 & -> & A)|(c & w1 & out & w2 & post & F & ->)]; simpl.
    - split; [|split; [|split]].
      + intro w'. split; [intros [= ->]; auto|]. intro B. now rewrite (all_true_det _ _ _ _ _ A B).
      + intro w'. split; [discriminate|]. intros (c & w1 & v & F & _). exfalso.
        eapply all_true_not_failing; eauto.
      + intro w'. split; [discriminate|]. intros (c & w1 & v & F & _). exfalso.
        eapply all_true_not_failing; eauto.
      + intros w' e _. split; [discriminate|]. intros (c & w1 & F). exfalso.
        eapply all_true_not_failing; eauto.
    - assert (NT : forall v, out = Ok v -> ~ is_true v).
      { intros v ->. destruct F as (pre & po & _ & _ & _ & C). exact C. }
      split; [|split; [|split]].
      + intro w'. split.
        * destruct out as [[[|]|[|]|]|e|]; discriminate.
        * intro A. exfalso. eapply all_true_not_failing; eauto.
      + intro w'. split.
        * intro H. exists c, w1. destruct out as [v|e|]; try discriminate.
          destruct v as [[|]|[|]|]; try discriminate; injection H as <-;
            (eexists; split; [exact F|]); [now left|now right].
        * intros (c' & w1' & v' & F' & Hv'). destruct (failing_det _ _ _ _ _ _ _ _ _ _ _ F F') as [-> ->].
          destruct Hv' as [-> | ->]; reflexivity.
      + intro w'. split.
        * intro H. exists c, w1, out. destruct out as [v|e|]; try discriminate.
          -- destruct v as [[|]|[|]|]; try discriminate; injection H as <-.
             ++ exfalso. apply (NT _ eq_refl). now left.
             ++ exfalso. apply (NT _ eq_refl). now right.
             ++ split; eauto.
          -- injection H as -> <-. split; auto.
        * intros (c' & w1' & out' & F' & Ho). destruct (failing_det _ _ _ _ _ _ _ _ _ _ _ F F') as [-> ->].
          destruct Ho as [[t ->] | ->]; reflexivity.
      + intros w' e He. split.
        * intro H. exists c, w1. destruct out as [v|e'|]; try discriminate.
          -- destruct v as [[|]|[|]|]; try discriminate; injection H as H _; congruence.
          -- injection H as -> <-. exact F.
        * intros (c' & w1' & F'). destruct (failing_det _ _ _ _ _ _ _ _ _ _ _ F F') as [-> ->]. reflexivity.
  Qed.

  (** C34. With a reusable collection every validation evaluates the same
      constraints: each plan is accepted exactly if all of them return True in
      the world the earlier validations have left ... *)
  Theorem C34_reusable : forall (cs : list (constraint X W)) pre x post w,
    let v := snd (fst (validations (Reusable cs) pre w)) in
    snd (validations (Reusable cs) (pre ++ x :: post) w) = Reusable cs /\
    exists b, nth_error (fst (fst (validations (Reusable cs) (pre ++ x :: post) w))) (List.length pre) = Some b /\
      (b = Ok true <-> exists v', all_true cs x v v').
  Proof.
    intros cs pre x post. cbn zeta.
    assert (Vi : forall x w, snd (validator (Reusable cs) x w) = Reusable cs) by (intros y w; cbn; now destruct (validate_loop cs y w) as [[? ?] ?]).
    assert (End : forall xs w, snd (validations (Reusable cs) xs w) = Reusable cs).
    { induction xs as [|y xs IH]; intro w; [reflexivity|]. cbn [validations]. specialize (Vi y w).
      destruct (validator (Reusable cs) y w) as [[b w1] i1]. cbn [snd] in Vi. subst i1. specialize (IH w1).
      destruct (validations (Reusable cs) xs w1) as [[bs w2] i2]. exact IH. }
    intro w. split; [apply End|]. revert w. induction pre as [|y pre IH]; intro w.
    - cbn [app validations List.length fst snd]. pose proof (C24_validator cs x w) as (V & _). cbn zeta in V.
      destruct (validator (Reusable cs) x w) as [[b w1] i1]. cbn [fst] in V.
      destruct (validations i1 post w1) as [[bs w2] i2]. exists b. split; [reflexivity|]. split.
      + intros ->. exists w1. now apply V.
      + intros (v' & AT). apply V in AT. congruence.
    - cbn [app validations List.length]. specialize (Vi y w). destruct (validator (Reusable cs) y w) as [[b w1] i1]. cbn [snd] in Vi. subst i1.
      destruct (IH w1) as (b1 & H1 & H2). exists b1.
      destruct (validations (Reusable cs) (pre ++ x :: post) w1) as [[bs w2] i2]. destruct (validations (Reusable cs) pre w1) as [[bs3 w3] i3].
      cbn [fst snd nth_error] in *. auto.
  Qed.

  (** ... with a one-shot iterator, once a plan was accepted every later plan is
      accepted, and no constraint is called (the world does not change). *)
  Theorem C34_one_shot : forall (cs : list (constraint X W)) x w w' i xs,
    validator (OneShot cs) x w = (Ok true, w', i) ->
    validations i xs w' = (map (fun _ => Ok true) xs, w', i).
  Proof.
    intros cs x w w' i xs H. simpl in H.
    destruct (validate_cases cs x w) as [(w0 & E & A)|(c & w1 & out & w2 & post & F & E)];
      rewrite E in H.
    - injection H as <- <-. clear E A. induction xs as [|y xs IH]; simpl; auto. now rewrite IH.
    - destruct out as [[[|]|[|]|]|e|]; discriminate.
  Qed.
End Validator.

(** A constraint that accepts only even numbers, given as a generator: after
    accepting 2, the Validator accepts 3. *)
Definition ex_even : constraint nat nat := fun x w => (Ok (PNumpyBool (Nat.even x)), S w).
Theorem C34_one_shot_enforcement_refuted :
  exists (cs : list (constraint nat nat)) i w x,
    validator (OneShot cs) 2%nat 0%nat = (Ok true, w, i) /\
    (exists w', validator (Reusable cs) x w = (Ok false, w', Reusable cs)) /\
    fst (fst (validator i x w)) = Ok true.
Proof.
  exists [ex_even], (OneShot []), 1%nat, 3%nat. split; [reflexivity|].
  split; [eexists; reflexivity|reflexivity].
Qed.

Example C24_nonvacuous :
  fst (validator (Reusable [ex_even; fun x w => (Ok (POther true), w)]) 2%nat 0%nat) = (Err TypeError, 1%nat) /\
  fst (validator (Reusable [ex_even; fun x w => (Ok (POther true), w)]) 3%nat 0%nat) = (Ok false, 1%nat) /\
  fst (validator (Reusable [ex_even; ex_even]) 4%nat 0%nat) = (Ok true, 2%nat).
Proof. repeat split; reflexivity. Qed.

(** ** Bounds *)
Local Open Scope Q_scope.

Lemma Qltb_lt x y : Qltb x y = true <-> x < y.
Proof.
  unfold Qltb. rewrite negb_true_iff. destruct (Qle_bool y x) eqn:Hb.
  - apply Qle_bool_iff in Hb. split; [discriminate|]. intro. exfalso. lra.
  - split; auto. intros _. apply Qnot_le_lt. intro Hc. apply Qle_bool_iff in Hc. congruence.
Qed.
Lemma Qltb_ge x y : Qltb x y = false <-> y <= x.
Proof.
  unfold Qltb. rewrite negb_false_iff. apply Qle_bool_iff.
Qed.

Lemma min_fold_spec l : forall m, let r := fold_left (fun m y => if Qltb y m then y else m) l m in
  r <= m /\ (forall y, In y l -> r <= y) /\ (r = m \/ In r l).
Proof.
  induction l as [|y l IH]; intro m; simpl.
  - split; [lra|]. split; [intros y []|auto].
  - destruct (Qltb y m) eqn:Hb.
    + apply Qltb_lt in Hb. destruct (IH y) as (H1 & H2 & H3). split; [lra|]. split.
      * intros z [<-|Hz]; auto.
      * destruct H3 as [-> |H3]; auto.
    + apply Qltb_ge in Hb. destruct (IH m) as (H1 & H2 & H3). split; [lra|]. split.
      * intros z [<-|Hz]; auto. lra.
      * destruct H3 as [-> |H3]; auto.
Qed.
Lemma max_fold_spec l : forall m, let r := fold_left (fun m y => if Qltb m y then y else m) l m in
  m <= r /\ (forall y, In y l -> y <= r) /\ (r = m \/ In r l).
Proof.
  induction l as [|y l IH]; intro m; simpl.
  - split; [lra|]. split; [intros y []|auto].
  - destruct (Qltb m y) eqn:Hb.
    + apply Qltb_lt in Hb. destruct (IH y) as (H1 & H2 & H3). split; [lra|]. split.
      * intros z [<-|Hz]; auto.
      * destruct H3 as [-> |H3]; auto.
    + apply Qltb_ge in Hb. destruct (IH m) as (H1 & H2 & H3). split; [lra|]. split.
      * intros z [<-|Hz]; auto. lra.
      * destruct H3 as [-> |H3]; auto.
Qed.

Lemma py_min_spec l : l <> [] -> exists m, py_min l = Ok m /\ In m l /\ forall y, In y l -> m <= y.
Proof.
  destruct l as [|x l]; [congruence|]. intros _. simpl. eexists. split; [reflexivity|].
  destruct (min_fold_spec l x) as (H1 & H2 & H3). split; [destruct H3 as [-> |]; auto|].
  intros y [<-|Hy]; auto.
Qed.
Lemma py_max_spec l : l <> [] -> exists m, py_max l = Ok m /\ In m l /\ forall y, In y l -> y <= m.
Proof.
  destruct l as [|x l]; [congruence|]. intros _. simpl. eexists. split; [reflexivity|].
  destruct (max_fold_spec l x) as (H1 & H2 & H3). split; [destruct H3 as [-> |]; auto|].
  intros y [<-|Hy]; auto.
Qed.

(** C25. *)
Theorem C25_bounds : forall lo hi values,
  (values = [] -> bounds_call lo hi false values = Err ValueError) /\
  (values <> [] -> exists b, bounds_call lo hi false values = Ok b /\
     (b = true <-> forall v, In v values -> lo <= v <= hi)).
Proof.
  intros lo hi values. split; [intros ->; reflexivity|]. intro NE.
  destruct (py_min_spec values NE) as (mn & Emn & In1 & Mn).
  destruct (py_max_spec values NE) as (mx & Emx & In2 & Mx).
  unfold bounds_call. rewrite Emn. simpl. destruct (Qle_bool lo mn) eqn:Hb.
  - apply Qle_bool_iff in Hb. rewrite Emx. simpl. eexists. split; [reflexivity|].
    rewrite Qle_bool_iff. split.
    + intros Hh v Hv. specialize (Mn v Hv). specialize (Mx v Hv). lra.
    + intro A. apply (A mx In2).
  - exists false. split; auto. split; [discriminate|]. intro A. exfalso.
    assert (Qle_bool lo mn = true) by (apply Qle_bool_iff; apply (A mn In1)). congruence.
Qed.
Theorem C25_one_sided : forall bound v,
  (upper_bound bound v = true <-> v <= bound) /\ (lower_bound bound v = true <-> bound <= v).
Proof. intros. unfold upper_bound, lower_bound. rewrite !Qle_bool_iff. tauto. Qed.
(** C25. When the function returns a one-shot iterator, Bounds accepts nothing:
    it returns False or raises ValueError. *)
Theorem C25_iterator_never_accepted : forall lo hi values,
  bounds_call lo hi true values = Ok false \/ bounds_call lo hi true values = Err ValueError.
Proof.
  intros. unfold bounds_call. destruct (py_min values) as [m|e|] eqn:Em; simpl.
  - destruct (Qle_bool lo m); auto.
  - destruct values; simpl in Em; [injection Em as <-; auto|discriminate].
  - destruct values; discriminate.
Qed.
Example C25_nonvacuous :
  bounds_call 1 3 false [2; 3; 1] = Ok true /\ bounds_call 1 3 false [2; 4] = Ok false /\
  bounds_call 1 3 true [2; 3; 1] = Err ValueError.
Proof. repeat split; reflexivity. Qed.

(** ** Self-configuring bounds *)

Lemma calls_map {S} (f : S -> Q -> bool * S) (s : S) (g : Q -> bool) :
  (forall v, f s v = (g v, s)) -> forall vs, calls f s vs = (map g vs, s).
Proof. intros H vs. induction vs as [|v vs IH]; simpl; auto. now rewrite H, IH. Qed.

Lemma falsy_Some x : falsy (Some x) = false <-> ~ x == 0.
Proof.
  simpl. destruct (Qeq_bool x 0) eqn:Hb.
  - apply Qeq_bool_iff in Hb. split; [discriminate|contradiction].
  - apply Qeq_bool_neq in Hb. tauto.
Qed.

(** C27. *)
Theorem C27_upper_fixed_by_first_call : forall x vs, ~ x == 0 ->
  calls self_upper None (x :: vs) =
    (true :: map (fun v => Qle_bool v x) vs, Some x).
Proof.
  intros x vs Hx. simpl. rewrite (proj2 (Qle_bool_iff x x)) by lra.
  rewrite (calls_map self_upper (Some x) (fun v => Qle_bool v x)); auto.
  intro v. unfold self_upper. now rewrite (proj2 (falsy_Some x) Hx).
Qed.
Theorem C27_lower_fixed_by_first_call : forall eps x vs, 0 <= eps -> ~ x - eps == 0 ->
  calls (self_lower eps) None (x :: vs) =
    (true :: map (fun v => Qle_bool (x - eps) v) vs, Some (x - eps)).
Proof.
  intros eps x vs He Hx. simpl. rewrite (proj2 (Qle_bool_iff (x - eps) x)) by lra.
  rewrite (calls_map (self_lower eps) (Some (x - eps)) (fun v => Qle_bool (x - eps) v)); auto.
  intro v. unfold self_lower. now rewrite (proj2 (falsy_Some (x - eps)) Hx).
Qed.
(** C27. With a zero bound the next call accepts any value, and fixes the bound
    instead of the first one. *)
Theorem C27_upper_zero_reconfigures : forall x y vs, x == 0 -> ~ y == 0 ->
  calls self_upper None (x :: y :: vs) =
    (true :: true :: map (fun v => Qle_bool v y) vs, Some y).
Proof.
  intros x y vs Hx Hy. simpl. apply Qeq_bool_iff in Hx. rewrite Hx.
  rewrite (proj2 (Qle_bool_iff x x)) by lra. rewrite (proj2 (Qle_bool_iff y y)) by lra.
  rewrite (calls_map self_upper (Some y) (fun v => Qle_bool v y)); auto.
  intro v. unfold self_upper. now rewrite (proj2 (falsy_Some y) Hy).
Qed.
Theorem C27_lower_zero_reconfigures : forall eps x y, 0 <= eps -> x - eps == 0 ->
  fst (calls (self_lower eps) None [x; y]) = [true; true].
Proof.
  intros eps x y He Hx. simpl. apply Qeq_bool_iff in Hx. rewrite Hx. simpl.
  rewrite (proj2 (Qle_bool_iff (x - eps) x)) by lra.
  now rewrite (proj2 (Qle_bool_iff (y - eps) y)) by lra.
Qed.
Theorem C27_zero_bound_refuted : exists y,
  fst (calls self_upper None [0; y]) = [true; true] /\ ~ y <= 0.
Proof. exists 7. split; [reflexivity|]. intro H. vm_compute in H. now apply H. Qed.

(** C87. The module-level constraint no_more_discontiguous
    (constraints/contiguity.py:223) is one SelfConfiguringLowerBound with
    epsilon 0.05 for the whole process.  Its function is a count, so its bound
    never is 0: for every history of calls, by any number of chains, all calls
    after the very first compare with the count of the first plan ever checked. *)
Theorem C87_shared_bound : forall (n : nat) (ms : list nat),
  fst (calls (self_lower (5 # 100)) None (map (fun k => inject_Z (Z.of_nat k)) (n :: ms))) =
    true :: map (fun m => Nat.leb n m) ms.
Proof.
  intros n ms. simpl map. set (q := fun k : nat => inject_Z (Z.of_nat k)).
  change (inject_Z (Z.of_nat n)) with (q n). rewrite C27_lower_fixed_by_first_call.
  - simpl. f_equal. rewrite map_map. apply map_ext. intro m.
    apply eq_true_iff_eq. rewrite Qle_bool_iff, Nat.leb_le. unfold q. split.
    + intro H. assert (D : (Z.of_nat m < Z.of_nat n)%Z \/ (n <= m)%nat) by lia.
      destruct D as [D|D]; auto. exfalso.
      assert (D' : inject_Z (Z.of_nat m + 1) <= inject_Z (Z.of_nat n)) by (rewrite <- Zle_Qle; lia).
      rewrite inject_Z_plus in D'. change (inject_Z 1) with 1 in D'. lra.
    + intro H. assert (D : inject_Z (Z.of_nat n) <= inject_Z (Z.of_nat m)) by (rewrite <- Zle_Qle; lia). lra.
  - lra.
  - unfold q. intro H. assert (Z.of_nat n = 0 \/ 1 <= Z.of_nat n)%Z as [D|D] by lia.
    + rewrite D in H. change (inject_Z 0) with 0 in H. lra.
    + rewrite Zle_Qle in D. change (inject_Z 1) with 1 in D. lra.
Qed.
(** C87. A second chain, whose initial plan has one contiguous district of two,
    is refused by the constraint configured by an earlier chain. *)
Theorem C87_fresh_chain_accepts_its_own_start_refuted :
  exists first_run second_run, fst (calls (self_lower (5 # 100)) None first_run) = [true; true] /\
    fst (calls (self_lower (5 # 100)) None second_run) = [true; true] /\
    fst (calls (self_lower (5 # 100)) None (first_run ++ second_run)) = [true; true; false; false].
Proof. exists [2; 2], [1; 1]. repeat split; reflexivity. Qed.

(** C28. *)
Theorem C28_range_fixed_by_first_call : forall x percent vs,
  0 < x -> 0 <= percent -> percent < 100 ->
  fst (calls (within_range percent) (None, None) (x :: vs)) =
    true :: map (fun v => Qle_bool (x * (1 - percent / 100)) v && Qle_bool v (x * (1 + percent / 100))) vs.
Proof.
  intros x percent vs Hx H0 H1.
  assert (Hp : percent / 100 < 1) by (apply Qlt_shift_div_r; lra).
  assert (Hp0 : 0 <= percent / 100) by (apply Qle_shift_div_l; lra).
  assert (L : ~ x * (1 - percent / 100) == 0) by (intro; nra).
  assert (U : ~ x * (1 + percent / 100) == 0) by (intro; nra).
  simpl.
  rewrite (calls_map (within_range percent) _ (fun v =>
    Qle_bool (x * (1 - percent / 100)) v && Qle_bool v (x * (1 + percent / 100)))); [reflexivity|].
  intro v. unfold within_range. cbn [fst snd].
  rewrite (proj2 (falsy_Some _) L), (proj2 (falsy_Some _) U). reflexivity.
Qed.
(** Zero first value, or percent = 100: the second call accepts anything too. *)
Theorem C28_zero_bound_reconfigures : forall x percent y,
  x == 0 \/ percent == 100 ->
  fst (calls (within_range percent) (None, None) [x; y]) = [true; true].
Proof.
  intros x percent y H. simpl. unfold within_range. cbn [fst snd].
  assert (F : falsy (Some (x * (1 - percent / 100))) = true).
  { simpl. apply Qeq_bool_iff. destruct H as [H|H].
    - rewrite H. ring.
    - rewrite H. field. }
  now rewrite F.
Qed.
Theorem C28_percent_100_accepts_everything : forall vs,
  fst (calls (within_range 100) (None, None) vs) = map (fun _ => true) vs.
Proof.
  assert (G : forall st, falsy (fst st) = true -> forall vs,
            fst (calls (within_range 100) st vs) = map (fun _ => true) vs).
  { intros st Hst vs. revert st Hst. induction vs as [|v vs IH]; intros st Hst; auto.
    simpl. unfold within_range at 1. rewrite Hst. simpl orb. cbv iota.
    specialize (IH (Some (v * (1 - 100 / 100)), Some (v * (1 + 100 / 100)))).
    destruct (calls (within_range 100) _ vs) as [bs s2]. simpl in *. f_equal. apply IH.
    apply Qeq_bool_iff. field. }
  intro vs. now apply G.
Qed.
(** C28. With a negative first value and a positive percentage the range is
    empty: every later call rejects, also the initial plan itself. *)
Theorem C28_negative_value_rejects_everything : forall x percent vs,
  x < 0 -> 0 < percent -> percent < 100 ->
  fst (calls (within_range percent) (None, None) (x :: vs)) = true :: map (fun _ => false) vs.
Proof.
  intros x percent vs Hx H0 H1.
  assert (Hp : percent / 100 < 1) by (apply Qlt_shift_div_r; lra).
  assert (Hp0 : 0 < percent / 100) by (apply Qlt_shift_div_l; lra).
  assert (L : ~ x * (1 - percent / 100) == 0) by (intro; nra).
  assert (U : ~ x * (1 + percent / 100) == 0) by (intro; nra).
  simpl. rewrite (calls_map (within_range percent) _ (fun v => false)); [reflexivity|].
  intro v. unfold within_range. cbn [fst snd].
  rewrite (proj2 (falsy_Some _) L), (proj2 (falsy_Some _) U). simpl orb. cbv iota.
  f_equal. apply andb_false_iff.
  destruct (Qle_bool (x * (1 - percent / 100)) v) eqn:E1; auto. right.
  destruct (Qle_bool v (x * (1 + percent / 100))) eqn:E2; auto. exfalso.
  apply Qle_bool_iff in E1. apply Qle_bool_iff in E2. nra.
Qed.
Example C28_nonvacuous :
  fst (calls (within_range 10) (None, None) [10; 11; 12; 9]) = [true; true; false; true] /\
  fst (calls (within_range 10) (None, None) [-10; -10]) = [true; false].
Proof. repeat split; reflexivity. Qed.

(** ** Population constraints *)

Lemma qsum_app l : forall a, fold_left Qplus l a == a + qsum l.
Proof.
  unfold qsum. induction l as [|x l IH]; intro a; simpl; [lra|].
  rewrite (IH (a + x)), (IH (0 + x)). lra.
Qed.
Lemma qsum_cons x l : qsum (x :: l) == x + qsum l.
Proof. unfold qsum at 1. simpl. rewrite qsum_app. lra. Qed.

(** C85. districts_within_tolerance compares the spread with a fraction of the
    smallest district; a percentage of 1 or more is divided by 100. *)
Theorem C85_within_tolerance : forall pct values, values <> [] ->
  exists b, districts_within_tolerance pct values = Ok b /\
    (b = true <-> forall x y, In x values -> In y values ->
       exists m, In m values /\ (forall z, In z values -> m <= z) /\
         x - y <= (if Qle_bool 1 pct then pct / 100 else pct) * m).
Proof.
  intros pct values NE. unfold districts_within_tolerance.
  destruct (py_min_spec values NE) as (mn & Emn & In1 & Mn).
  destruct (py_max_spec values NE) as (mx & Emx & In2 & Mx).
  rewrite Emx, Emn. simpl. eexists. split; [reflexivity|].
  rewrite Qle_bool_iff.
  assert (Ep : (if Qle_bool 1 pct then pct * (1 # 100) else pct) == (if Qle_bool 1 pct then pct / 100 else pct)).
  { destruct (Qle_bool 1 pct); [|reflexivity]. field. }
  rewrite Ep. split.
  - intros H x y Hx Hy. exists mn. split; auto. split; auto.
    specialize (Mx x Hx). specialize (Mn y Hy). lra.
  - intro A. destruct (A mx mn In2 In1) as (m & Hm & Hmin & Hle).
    assert (Em : m == mn) by (apply Qle_antisym; auto). now rewrite Em in Hle.
Qed.
(** C85. So the tolerance is not monotone: 0.9 accepts a plan that 1 rejects. *)
Theorem C85_monotone_refuted : exists p q values,
  p <= q /\ districts_within_tolerance p values = Ok true /\
  districts_within_tolerance q values = Ok false.
Proof.
  exists (9 # 10), 1, [10; 15]. split; [lra|]. split; reflexivity.
Qed.

(** C86. Deviations from the ideal add up to zero and say how far each district
    is from the ideal; the function raises exactly when there is no district or
    the total is zero. *)
Lemma mapM_dev {P} ideal (t : dict P Q) : ~ ideal == 0 ->
  mapM (fun pv => d <- py_div (snd pv - ideal) ideal ;; Ok (fst pv, d)) t =
  Ok (map (fun pv => (fst pv, (snd pv - ideal) / ideal)) t).
Proof.
  intro NZ. induction t as [|[p v] t IH]; simpl; auto. unfold py_div at 1.
  destruct (Qeq_bool ideal 0) eqn:Eb.
  - apply Qeq_bool_iff in Eb. contradiction.
  - simpl. rewrite IH. reflexivity.
Qed.
Lemma qsum_dev {P} ideal (t : dict P Q) : ~ ideal == 0 ->
  qsum (dvals (map (fun pv : P * Q => (fst pv, (snd pv - ideal) / ideal)) t)) ==
  (qsum (dvals t) - inject_Z (Z.of_nat (List.length t)) * ideal) / ideal.
Proof.
  intro NZ. induction t as [|[p v] t IH].
  - simpl. unfold qsum. simpl. field. auto.
  - unfold dvals in *. cbn [map fst snd]. rewrite !qsum_cons, IH. cbn [List.length].
    rewrite Nat2Z.inj_succ, <- Z.add_1_r, inject_Z_plus. change (inject_Z 1) with 1. field. auto.
Qed.
Theorem C86_deviation : forall {P} (tally : dict P Q),
  (qsum (dvals tally) == 0 -> deviation_from_ideal tally = Err ZeroDivisionError) /\
  (~ qsum (dvals tally) == 0 ->
     exists d ideal, deviation_from_ideal tally = Ok d /\
       ideal * inject_Z (Z.of_nat (List.length tally)) == qsum (dvals tally) /\
       dkeys d = dkeys tally /\
       (forall p v, In (p, v) tally -> exists x, In (p, x) d /\ v == ideal * (1 + x)) /\
       qsum (dvals d) == 0).
Proof.
  intros P tally. destruct tally as [|pv0 tally0]; [split; [reflexivity|]; intro X; destruct X; reflexivity|].
  set (tally := pv0 :: tally0). assert (NE : tally <> []) by discriminate. clearbody tally. clear pv0 tally0.
  assert (Ln : ~ inject_Z (Z.of_nat (List.length tally)) == 0).
  { destruct tally; [congruence|]. unfold Qeq. simpl. lia. }
  set (ideal := qsum (dvals tally) / inject_Z (Z.of_nat (List.length tally))).
  assert (Eq : deviation_from_ideal tally =
    mapM (fun pv => d <- py_div (snd pv - ideal) ideal ;; Ok (fst pv, d)) tally).
  { unfold deviation_from_ideal. unfold py_div at 1.
    assert (El : List.length (dkeys tally) = List.length tally) by apply map_length. rewrite !El.
    destruct (Qeq_bool (inject_Z (Z.of_nat (List.length tally))) 0) eqn:Eb; [|reflexivity].
    apply Qeq_bool_iff in Eb. contradiction. }
  rewrite Eq. clear Eq.
  split.
  - intro Z0. assert (I0 : Qeq_bool ideal 0 = true).
    { apply Qeq_bool_iff. unfold ideal. rewrite Z0. field. auto. }
    clearbody ideal. clear - I0 NE. destruct tally as [|[p v] t]; [congruence|].
    simpl. unfold py_div at 1. rewrite I0. reflexivity.
  - intro NZ. assert (Ni : ~ ideal == 0).
    { intro X. apply NZ. unfold ideal in X.
      setoid_replace (qsum (dvals tally)) with
        (qsum (dvals tally) / inject_Z (Z.of_nat (List.length tally)) * inject_Z (Z.of_nat (List.length tally)))
        by (field; auto). rewrite X. ring. }
    eexists. exists ideal. split; [exact (mapM_dev ideal tally Ni)|]. split.
    { unfold ideal. field. auto. }
    split. { unfold dkeys. now rewrite map_map. }
    split.
    + intros p v Hv. exists ((v - ideal) / ideal). split.
      * apply in_map_iff. exists (p, v). auto.
      * field. auto.
    + rewrite qsum_dev by auto. unfold ideal. field. split; auto.
Qed.
Example C86_nonvacuous :
  exists d, deviation_from_ideal [(1%nat, 30); (2%nat, 50)] = Ok d /\ List.length d = 2%nat.
Proof. eexists. split; reflexivity. Qed.

(** C26. *)
Section Population.
  Context {N P L : Type} {EN : EqB N} {EP : EqB P} {EL : EqB L} {ON : Ord N}.
  Variable E : env N P Z L.
  Notation g := (e_graph E).

  (** Sum of [w] over all nodes. *)
  Definition total (w : N -> Z) : Q := inject_Z (fold_left Z.add (map w (g_nodes g)) 0%Z).

  Lemma mapM_as_Q l vs : mapM as_Q l = Ok vs -> exists zs, l = map Num zs /\ vs = map inject_Z zs.
  Proof.
    revert vs. induction l as [|x l IH]; simpl; intros vs H.
    - injection H as <-. exists []. auto.
    - destruct x as [z|]; simpl in H; try discriminate.
      destruct (mapM as_Q l) as [ys|e|] eqn:Ey; simpl in H; try discriminate. injection H as <-.
      destruct (IH ys eq_refl) as (zs & -> & ->). exists (z :: zs). auto.
  Qed.
  Lemma mapM_as_Q_ok zs : mapM as_Q (map Num zs) = Ok (map inject_Z zs).
  Proof. induction zs as [|z zs IH]; simpl; auto. rewrite IH. reflexivity. Qed.

  Lemma nsum_nums zs : nsum (map Num zs) = Num (fold_left Z.add zs 0%Z).
  Proof.
    unfold nsum. change (@c0 Z CRing_Z) with 0%Z. generalize 0%Z.
    induction zs as [|z zs IH]; intro a; simpl; auto.
  Qed.
  Lemma qsum_inject zs : qsum (map inject_Z zs) == inject_Z (fold_left Z.add zs 0%Z).
  Proof.
    unfold qsum. change 0 with (inject_Z 0). generalize 0%Z.
    induction zs as [|z zs IH]; intro a; simpl; [reflexivity|].
    rewrite <- IH. assert (X : inject_Z a + inject_Z z == inject_Z (a + z)) by (rewrite inject_Z_plus; reflexivity).
    clear IH. revert X. generalize (inject_Z a + inject_Z z), (inject_Z (a + z)).
    induction (map inject_Z zs) as [|y l IH]; intros p q X; simpl; auto. apply IH. now rewrite X.
  Qed.

  Lemma read_pop h a o key fields al w :
    session E h -> nth_error h a = Some o -> dget (e_updaters E) key = Some (UTally fields al) ->
    (forall f, In f fields -> data_is g (e_attr E f) (w f)) ->
    forall vs, fst (tally_values E key a h) = Ok vs ->
    exists d zs, fst (read E a key h) = Ok (VNum d) /\ dvals d = map Num zs /\ vs = map inject_Z zs /\
      NoDup (dkeys d) /\
      (forall p x, dget d p = Some x -> exists y, x = Num y /\
         sums_to (fun n => vsum (map (fun f => w f n) fields))
                 (fun n => In n (g_nodes g) /\ district (o_assign o) n = Some p) y) /\
      (forall n p, In n (g_nodes g) -> district (o_assign o) n = Some p -> In p (dkeys d)) /\
      qsum vs == total (fun n => vsum (map (fun f => w f n) fields)).
  Proof.
    intros S Ho Hu Hw vs Hv. unfold tally_values in Hv. rewrite fst_bindM in Hv.
    destruct (read E a key h) as [[v|e|] h1] eqn:Er; try discriminate.
    assert (Hr : fst (read E a key h) = Ok v) by (now rewrite Er).
    destruct (C10_tally E h a o key fields al w v S Ho Hu Hw Hr) as (d & -> & ND & T1 & T2).
    rewrite fst_bindM in Hv. simpl in Hv. destruct (mapM_as_Q _ _ Hv) as (zs & Ez & ->).
    exists d, zs. split; [auto|]. split; [auto|]. split; [auto|]. split; [auto|]. split; [auto|].
    split; [exact T2|].
    pose proof (C11_total_conserved E h a o key fields al w d S Ho Hu Hw Hr) as T.
    rewrite Ez, nsum_nums in T. injection T as T. rewrite qsum_inject, T. unfold total. reflexivity.
  Qed.

  (** If the constraint built from plan [a0] accepts plan [a] of the session,
      every district with an entry -- in particular every non-empty one -- has
      a population within the range around ideal = total / k, k the number of
      districts counted in the initial tally (the number of districts of the
      current plan, if the initial plan has no empty district); and conversely. *)
  Theorem C26_population_constraint : forall h a0 o0 a o key fields al w percent b d,
    session E h -> nth_error h a0 = Some o0 -> nth_error h a = Some o ->
    dget (e_updaters E) key = Some (UTally fields al) ->
    (forall f, In f fields -> data_is g (e_attr E f) (w f)) ->
    fst (within_percent E key percent a0 h) = Ok b ->
    fst (read E a key h) = Ok (VNum d) -> d <> [] ->
    exists k ideal, k <> 0%nat /\
      ideal * inject_Z (Z.of_nat k) == total (fun n => vsum (map (fun f => w f n) fields)) /\
      (forall d0, fst (read E a0 key h) = Ok (VNum d0) -> List.length (dkeys d0) = k) /\
      (no_empty_district g (o_assign o0) -> k = List.length (labels (o_assign o))) /\
      exists r, fst (population_ok E key b a h) = Ok r /\
        (r = true <-> forall p pop, dget d p = Some (Num pop) ->
           (1 - percent) * ideal <= inject_Z pop <= (1 + percent) * ideal).
  Proof.
    intros h a0 o0 a o key fields al w percent b d S Ho0 Ho Hu Hw Hb Hd Hne.
    unfold within_percent in Hb. rewrite fst_bindM in Hb.
    destruct (tally_values E key a0 h) as [[vs0|e|] h1] eqn:E0; try discriminate.
    simpl in Hb.
    destruct (read_pop h a0 o0 key fields al w S Ho0 Hu Hw vs0 ltac:(now rewrite E0))
      as (d0 & zs0 & Hd0 & Ez0 & -> & ND0 & _ & _ & Tot).
    unfold ideal_bounds, py_div in Hb.
    destruct (Qeq_bool (inject_Z (Z.of_nat (List.length (map inject_Z zs0)))) 0) eqn:Eb; simpl in Hb; try discriminate.
    apply Qeq_bool_neq in Eb. injection Hb as <-.
    set (k := List.length (map inject_Z zs0)) in *.
    set (ideal := qsum (map inject_Z zs0) / inject_Z (Z.of_nat k)) in *.
    exists k, ideal. split. { intro X. apply Eb. rewrite X. reflexivity. }
    split. { rewrite <- Tot. unfold ideal. field. exact Eb. }
    split.
    { intros d0' Hd0'. assert (d0' = d0) by congruence. subst d0'. unfold k.
      rewrite map_length. rewrite <- (map_length Num zs0), <- Ez0. unfold dkeys, dvals. now rewrite !map_length. }
    split.
    { intro NE0. destruct (session_labels E h S) as [ls Hls]. rewrite (Hls a o Ho), <- (Hls a0 o0 Ho0).
      transitivity (List.length (dkeys d0)).
      { unfold k. rewrite map_length. rewrite <- (map_length Num zs0), <- Ez0. unfold dkeys, dvals.
        now rewrite !map_length. }
      destruct (session_answer E h a0 o0 key _ S Ho0 Hu) as (An & _ & _).
      destruct (An _ Hd0) as (d' & [= <-] & _ & Inc & An'). destruct (An' w Hw) as [_ Key].
      apply Nat.le_antisymm; apply NoDup_incl_length; auto.
      - apply (coh_part_keys _ _ (session_coherent E h a0 o0 S Ho0)).
      - intros p Hp. destruct (NE0 p Hp) as [n Hn]. eapply Key; eauto. }
    assert (Hvs : exists zs, dvals d = map Num zs).
    { destruct (C10_tally E h a o key fields al w _ S Ho Hu Hw Hd) as (d' & [= <-] & ND & T1 & _).
      assert (Dk : forall p x, In (p, x) d -> exists y, x = Num y).
      { intros p x Hx. destruct (T1 p x) as (y & -> & _); [now apply In_dget|]. eauto. }
      clear - Dk. induction d as [|[p x] d IH].
      - exists []. reflexivity.
      - destruct IH as [zs Hz]; [intros q y Hy; apply (Dk q); now right|].
        destruct (Dk p x) as [y ->]; [now left|]. exists (y :: zs). simpl. now rewrite <- Hz. }
    destruct Hvs as [zs Hz].
    assert (Htv : fst (tally_values E key a h) = Ok (map inject_Z zs)).
    { unfold tally_values. rewrite fst_bindM. destruct (read E a key h) as [rr h2]. simpl in Hd. subst rr.
      rewrite fst_bindM. simpl. rewrite Hz. apply mapM_as_Q_ok. }
    unfold population_ok. rewrite fst_bindM.
    destruct (tally_values E key a h) as [rr h2]. simpl in Htv. subst rr. simpl.
    assert (NE : map inject_Z zs <> []).
    { destruct d; [congruence|]. destruct zs; [discriminate|]. discriminate. }
    destruct (proj2 (C25_bounds ((1 - percent) * ideal) ((1 + percent) * ideal) (map inject_Z zs)) NE)
      as (r & Hr & Iff).
    exists r. split; [exact Hr|]. rewrite Iff. split.
    - intros A p pop Hp. apply A. apply dget_In in Hp. apply (in_map snd) in Hp. simpl in Hp.
      change (map snd d) with (dvals d) in Hp. rewrite Hz in Hp. apply in_map_iff in Hp.
      destruct Hp as (z & [= ->] & Hz'). now apply in_map.
    - intros A v Hv. apply in_map_iff in Hv. destruct Hv as (z & <- & Hin).
      assert (Hin' : In (Num z) (dvals d)) by (rewrite Hz; now apply in_map).
      unfold dvals in Hin'. apply in_map_iff in Hin'. destruct Hin' as ([p x] & Hx & Hpx). simpl in Hx. subst x.
      apply (A p z). apply In_dget; auto.
      destruct (C10_tally E h a o key fields al w _ S Ho Hu Hw Hd) as (d' & [= <-] & ND & _). exact ND.
  Qed.
End Population.

Example C26_nonvacuous :
  let h := ex_run ex_plan ex_ops in
  session ex_E h /\
  (exists b, fst (within_percent ex_E "population" (1#2) 0 h) = Ok b /\
     fst (population_ok ex_E "population" b 0 h) = Ok true /\
     fst (population_ok ex_E "population" b 1 h) = Ok false).
Proof.
  split; [ex_session|]. eexists. split; [vm_compute; reflexivity|]. vm_compute. auto.
Qed.

Print Assumptions C24_validator.
Print Assumptions C25_bounds.
Print Assumptions C25_one_sided.
Print Assumptions C25_iterator_never_accepted.
Print Assumptions C26_population_constraint.
Print Assumptions C27_upper_fixed_by_first_call.
Print Assumptions C27_lower_fixed_by_first_call.
Print Assumptions C27_upper_zero_reconfigures.
Print Assumptions C27_lower_zero_reconfigures.
Print Assumptions C27_zero_bound_refuted.
Print Assumptions C28_range_fixed_by_first_call.
Print Assumptions C28_zero_bound_reconfigures.
Print Assumptions C28_percent_100_accepts_everything.
Print Assumptions C28_negative_value_rejects_everything.
Print Assumptions C34_reusable.
Print Assumptions C34_one_shot.
Print Assumptions C34_one_shot_enforcement_refuted.
Print Assumptions C85_within_tolerance.
Print Assumptions C85_monotone_refuted.
Print Assumptions C86_deviation.
Print Assumptions C87_shared_bound.
Print Assumptions C87_fresh_chain_accepts_its_own_start_refuted.
