(** C120, continued: a run that is alone. *)
From Coq Require Import List Bool Arith ZArith QArith Lia ZifyBool ZifyNat.
From Verif Require Import Base M_Constraints M_Chain M_Optimize P_Optimize M_Runs.
Import ListNotations.
Local Open Scope nat_scope.
Local Open Scope list_scope.

Section Alone.
  Context {X W V : Type} {SV : Scores V}.
  Variable proposal : X -> W -> res X * W.
  Variable accept : X -> W -> res pyval * W.
  Variable erase : X -> W -> W.
  Variable named : constraint X W -> bool.
  Variable score : X -> W -> res V * W.
  Variable maximize : bool.
  Variable constraints : constraints_arg X W.
  Variable initial : X.
  Variable user : X -> W -> W.
  Notation statement := (statement proposal erase named score maximize constraints initial).
  Notation drive := (drive proposal accept erase score).
  Notation burst := (burst proposal accept erase named score).
  Notation bursts := (bursts proposal accept erase named score maximize).
  Notation variable_loop := (variable_loop proposal accept erase named score maximize).

  (** ** Specification *)

  (** What the consumer of a run sees at a yield: the plan, best_part and
      best_score. *)
  Definition sight : Type := X * option X * option V.
  (** The run is consumed to its end and nothing else touches the optimizer: the
      yields, the ending, and the attributes and the world at the end. *)
  Inductive plays (fuel : nat) (r : run X W) : spot X W V -> locals -> attributes X V -> W -> list sight -> ending -> attributes X V -> W -> Prop :=
  | plays_go p l t w p1 l1 t1 w1 c ys en t' w' : statement fuel r p l t w = (Go p1 l1, t1, w1, c) ->
      plays fuel r p1 l1 t1 w1 ys en t' w' -> plays fuel r p l t w ys en t' w'
  | plays_yield p l t w x p1 l1 t1 w1 c ys en t' w' : statement fuel r p l t w = (Pause x p1 l1, t1, w1, c) ->
      plays fuel r p1 l1 t1 (user x w1) ys en t' w' -> plays fuel r p l t w ((x, a_part t1, a_score t1) :: ys) en t' w'
  | plays_return p l t w t1 w1 c : statement fuel r p l t w = (Stop, t1, w1, c) -> plays fuel r p l t w [] Finished t1 w1
  | plays_raise p l t w e t1 w1 c : statement fuel r p l t w = (Throw e, t1, w1, c) -> plays fuel r p l t w [] (Raised e) t1 w1.
  Definition seen (pt : point (X := X) (W := W) (V := V)) : sight := (y_plan pt, Some (y_best pt), Some (y_score pt)).
  Definition holds (p : progress (X := X) (V := V)) : attributes X V := mkAttributes (Some (p_best p)) (Some (p_score p)).

  (** A run that is alone does as the function of M_Optimize.v says, which gives
      the yields, the ending, the best plan with its score and the final
      world. *)
  Definition does (fuel : nat) (k : kind) (w : W) (result : list (point (X := X) (W := W) (V := V)) * ending * option progress * W) : Prop :=
    let '(ys, en, best, w') := result in en <> Unbounded -> forall t,
    exists t', plays fuel (mkRun k accept) Begin (locals_of k) t w (map seen ys) en t' w' /\ (forall p, best = Some p -> t' = holds p).

  Theorem C120_alone_unique fuel r p l t w ys en t' w' ys2 en2 t2 w2 : plays fuel r p l t w ys en t' w' -> plays fuel r p l t w ys2 en2 t2 w2 ->
    ys = ys2 /\ en = en2 /\ t' = t2 /\ w' = w2.
  Proof.
    intro H. revert ys2 en2 t2 w2. induction H; intros ys2 en2 t2 w2 G; inversion G; subst;
      match goal with A : statement _ _ _ _ _ _ = _, B : statement _ _ _ _ _ _ = _ |- _ => rewrite A in B; inversion B; subst end; auto.
    match goal with A : plays _ _ _ _ _ _ _ _ _ _ |- _ => apply IHplays in A; destruct A as (-> & -> & -> & ->) end. auto.
  Qed.

  Definition process (k : kind) := match k with Variable_length steps _ => keep_count (X := X) maximize steps | _ => keep_best maximize end.
  Definition tracks (k : kind) (l l0 : locals) (p : progress (X := X) (V := V)) : Prop :=
    l_left l = l_left l0 /\ l_len l = l_len l0 /\ match k with Variable_length _ _ => l_stuck l = p_stuck p /\ l_i l = p_i p | _ => True end.

  Ltac go H := eapply plays_go; [cbn; try rewrite H; cbn; reflexivity|].

  Lemma drive_plays fuel k l0 : forall n ch p w ys en p' ch' w', drive n fuel user (process k) ch p w = (ys, en, p', ch', w') ->
    forall l, tracks k l l0 p ->
    match en with
    | Finished => forall zs en2 t2 w2, (forall l', tracks k l' l0 p' -> plays fuel (mkRun k accept) After l' (holds p') w' zs en2 t2 w2) ->
        plays fuel (mkRun k accept) (Ask ch) l (holds p) w (map seen ys ++ zs) en2 t2 w2
    | Raised e => plays fuel (mkRun k accept) (Ask ch) l (holds p) w (map seen ys) (Raised e) (holds p') w'
    | Unbounded => True
    end.
  Proof.
    induction n as [|n IH]; intros ch p w ys en p' ch' w' D l T; cbn [M_Optimize.drive] in D.
    { injection D as <- <- <- <- <-. exact I. }
    destruct (next proposal accept erase fuel ch w) as [[[x|e|] ch1] w1] eqn:En.
    - destruct (score x (user x w1)) as [[s|e|] w2] eqn:Es.
      + destruct (process k p x s) as [p1 stop] eqn:Ep.
        assert (Y : forall zs en2 t2 w3, plays fuel (mkRun k accept) (Yielded ch1 x) l (holds p) (user x w1) zs en2 t2 w3 ->
          plays fuel (mkRun k accept) (Ask ch) l (holds p) w (seen (mkPoint x w1 (p_best p) (p_score p) (Some s)) :: zs) en2 t2 w3).
        { intros zs en2 t2 w3 G. apply (plays_yield fuel (mkRun k accept) (Ask ch) l (holds p) w x (Yielded ch1 x) l (holds p) w1 []); [cbn; rewrite En; reflexivity|exact G]. }
        assert (C : forall zs en2 t2 w3, (forall l1, tracks k l1 l0 p1 -> plays fuel (mkRun k accept) (if stop then After else Ask ch1) l1 (holds p1) w2 zs en2 t2 w3) ->
          plays fuel (mkRun k accept) (Yielded ch1 x) l (holds p) (user x w1) zs en2 t2 w3).
        { intros zs en2 t2 w3 G. go Es. destruct T as (T1 & T2 & T3). destruct k as [len num|steps|steps buffer]; cbn in Ep.
          - unfold keep_best in Ep. injection Ep as <- <-. destruct (is_improvement maximize s (p_score p)) eqn:Ei.
            + go Ei. go Ei. go Ei. go Ei. apply G. split; [|split]; auto.
            + go Ei. go Ei. apply G. split; [|split]; auto.
          - unfold keep_best in Ep. injection Ep as <- <-. destruct (is_improvement maximize s (p_score p)) eqn:Ei.
            + go Ei. go Ei. go Ei. go Ei. apply G. split; [|split]; auto.
            + go Ei. go Ei. apply G. split; [|split]; auto.
          - destruct T3 as [T3 T4]. unfold keep_count in Ep. injection Ep as <- <-. destruct (is_improvement maximize s (p_score p)) eqn:Ei; cbn [p_i p_best p_score p_stuck] in *.
            + go Ei. go Ei. go Ei. go Ei. rewrite T4. apply G. cbn. repeat split; auto.
            + go Ei. go Ei. rewrite T4. apply G. unfold tracks. cbn [l_left l_len l_stuck l_i p_stuck p_i]. repeat split; congruence. }
        destruct stop.
        * injection D as <- <- <- <- <-. intros zs en2 t2 w3 G. cbn [map app]. apply Y. apply C. exact G.
        * destruct (drive n fuel user (process k) ch1 p1 w2) as [[[[ys1 en1] p2] ch2] w3] eqn:Ed. injection D as <- <- <- <- <-.
          assert (I := fun l1 => IH _ _ _ _ _ _ _ _ Ed l1). destruct en1; auto.
          -- intros zs en2 t2 w4 G. cbn [map app]. apply Y. apply C. intros l1 T1. apply (I l1 T1). exact G.
          -- cbn [map]. apply Y. apply C. intros l1 T1. exact (I l1 T1).
      + injection D as <- <- <- <- <-. cbn [map]. apply (plays_yield fuel (mkRun k accept) (Ask ch) l (holds p) w x (Yielded ch1 x) l (holds p) w1 []); [cbn; rewrite En; reflexivity|]. eapply plays_raise. cbn. rewrite Es. reflexivity.
      + injection D as <- <- <- <- <-. exact I.
    - destruct e; injection D as <- <- <- <- <-;
        first [ intros zs en2 t2 w2 G; cbn [map app]; go En; apply G; exact T
              | cbn [map]; eapply plays_raise; cbn; rewrite En; reflexivity ].
    - injection D as <- <- <- <- <-. exact I.
  Qed.

  Variable cs : list (constraint X W).
  Hypothesis reusable : make_validator constraints = Reusable cs.
  Lemma construct_same a x total w : make_validator a = Reusable cs -> construct named a x total w = construct named constraints x total w.
  Proof. intro H. unfold construct. now rewrite H, reusable. Qed.

  Lemma burst_plays n fuel k a len p w ys en p' a' w' : burst n fuel user (process k) a len p w = (ys, en, p', a', w') ->
    make_validator a = Reusable cs ->
    match construct named constraints (p_best p) (Z.of_nat len) w with
    | (Ok ch, w1) => exists ch', drive n fuel user (process k) (iter ch) p w1 = (ys, en, p', ch', w') /\ make_validator a' = Reusable cs
    | (Err e, w1) => ys = [] /\ en = Raised (gen_exn e) /\ p' = p /\ w' = w1
    | (NoFuel, _) => en = Unbounded
    end.
  Proof.
    intros B Ha. unfold M_Optimize.burst in B. rewrite (construct_same _ _ _ _ Ha) in B.
    destruct (construct named constraints (p_best p) (Z.of_nat len) w) as [[ch|e|] w1] eqn:Ec.
    - destruct (drive n fuel user (process k) (iter ch) p w1) as [[[[ys1 en1] p1] ch1] w2] eqn:Ed. injection B as <- <- <- <- <-.
      exists ch1. split; [reflexivity|]. eapply left_over_ok; [exact Ha|]. eapply drive_fixed; [|exact Ed].
      cbn. destruct (construct_start _ _ _ _ _ _ _ Ec) as (_ & _ & H). auto.
    - injection B as <- <- <- <- <-. auto.
    - injection B as <- <- <- <- <-. reflexivity.
  Qed.

  Lemma bursts_play n fuel len num : forall left a p w ys en p' w', bursts left n fuel user a len p w = (ys, en, p', w') ->
    make_validator a = Reusable cs -> en <> Unbounded -> forall l, l_left l = left -> l_len l = len ->
    plays fuel (mkRun (Bursts len num) accept) Head l (holds p) w (map seen ys) en (holds p') w'.
  Proof.
    induction left as [|left IH]; intros a p w ys en p' w' B Ha U l L1 L2; cbn [M_Optimize.bursts] in B.
    { injection B as <- <- <- <-. eapply plays_return. cbn. now rewrite L1. }
    destruct (burst n fuel user (keep_best maximize) a len p w) as [[[[ys1 en1] p1] a1] w1] eqn:E1.
    assert (G := burst_plays n fuel (Bursts len num) _ _ _ _ _ _ _ _ _ E1 Ha).
    destruct (construct named constraints (p_best p) (Z.of_nat len) w) as [[ch|e|] w2] eqn:Ec.
    - destruct G as (ch' & D & Ha1). assert (I := drive_plays fuel (Bursts len num) (mkLocals left len (l_stuck l) (l_i l)) _ _ _ _ _ _ _ _ _ D (mkLocals left len (l_stuck l) (l_i l))).
      eapply plays_go. { cbn. rewrite L1, L2. cbn. rewrite Ec. reflexivity. }
      destruct en1.
      + destruct (bursts left n fuel user a1 len p1 w1) as [[[zs en2] p2] w3] eqn:E2. injection B as <- <- <- <-. rewrite map_app.
        apply I; [repeat split|]. intros l' (T1 & T2 & _). eapply plays_go; [reflexivity|]. eapply IH; eauto.
      + injection B as <- <- <- <-. apply I. repeat split.
      + injection B as <- <- <- <-. congruence.
    - destruct G as (-> & -> & -> & ->). injection B as <- <- <- <-. eapply plays_raise. cbn. rewrite L1, L2. cbn. rewrite Ec. reflexivity.
    - subst en1. injection B as <- <- <- <-. congruence.
  Qed.
  Lemma variable_plays n fuel steps buffer : forall k a len p w ys en p' w', variable_loop k n fuel user a steps buffer len p w = (ys, en, p', w') ->
    make_validator a = Reusable cs -> en <> Unbounded -> forall l, l_len l = len -> l_stuck l = p_stuck p -> l_i l = p_i p ->
    plays fuel (mkRun (Variable_length steps buffer) accept) Head l (holds p) w (map seen ys) en (holds p') w'.
  Proof.
    induction k as [|k IH]; intros a len p w ys en p' w' B Ha U l L1 L2 L3; cbn [M_Optimize.variable_loop] in B;
      (destruct (Nat.ltb (p_i p) steps) eqn:El; [|injection B as <- <- <- <-; eapply plays_return; cbn -[Nat.ltb]; rewrite L3, El; reflexivity]).
    { injection B as <- <- <- <-. congruence. }
    destruct (burst n fuel user (keep_count maximize steps) a len p w) as [[[[ys1 en1] p1] a1] w1] eqn:E1.
    assert (G := burst_plays n fuel (Variable_length steps buffer) _ _ _ _ _ _ _ _ _ E1 Ha).
    destruct (construct named constraints (p_best p) (Z.of_nat len) w) as [[ch|e|] w2] eqn:Ec.
    - destruct G as (ch' & D & Ha1). assert (I := drive_plays fuel (Variable_length steps buffer) l _ _ _ _ _ _ _ _ _ D l).
      eapply plays_go. { cbn -[Nat.ltb]. rewrite L3, El. cbn -[Nat.ltb]. rewrite L1, Ec. reflexivity. }
      destruct en1.
      + destruct (variable_loop k n fuel user a1 steps buffer _ p1 w1) as [[[zs en2] p2] w3] eqn:E2. injection B as <- <- <- <-. rewrite map_app.
        apply I; [repeat split; auto|]. intros l' (T1 & T2 & T3 & T4). eapply plays_go; [reflexivity|].
        eapply IH; [exact E2|exact Ha1|exact U| | |]; cbn [l_len l_stuck l_i]; auto. rewrite T2, T3, L1. reflexivity.
      + injection B as <- <- <- <-. apply I. repeat split; auto.
      + injection B as <- <- <- <-. congruence.
    - destruct G as (-> & -> & -> & ->). injection B as <- <- <- <-. eapply plays_raise. cbn -[Nat.ltb]. rewrite L3, El. cbn -[Nat.ltb]. rewrite L1, Ec. reflexivity.
    - subst en1. injection B as <- <- <- <-. congruence.
  Qed.

  (** ** C120: a run that is alone *)
  Theorem C120_alone_bursts n fuel len num w :
    does fuel (Bursts len num) w (short_bursts proposal accept erase named score maximize n fuel user constraints len num initial w).
  Proof.
    unfold does, short_bursts, started. destruct (score initial w) as [[s|e|] w1] eqn:Es.
    - destruct (bursts num n fuel user constraints len (mkProgress initial s 0 0) w1) as [[[ys en] p1] w2] eqn:E. intros U t. exists (holds p1).
      split; [|now intros p [= ->]]. go Es. go Es. go Es. eapply (bursts_play _ _ _ _ _ _ (mkProgress initial s 0 0)); eauto.
    - intros _ t. eexists. split; [|discriminate]. go Es. go Es. eapply plays_raise. cbn. now rewrite Es.
    - congruence.
  Qed.
  Theorem C120_alone_single n fuel steps w :
    does fuel (Single steps) w (single_run proposal accept erase named score maximize n fuel user constraints steps initial w).
  Proof.
    unfold does, single_run, started. destruct (construct named constraints initial (Z.of_nat steps) w) as [[ch|e|] w0] eqn:Ec.
    - destruct (score initial w0) as [[s|e|] w1] eqn:Es.
      + destruct (drive n fuel user (keep_best maximize) (iter ch) (mkProgress initial s 0 0) w1) as [[[[ys en] p1] ch1] w2] eqn:E. intros U t. exists (holds p1).
        split; [|now intros p [= ->]]. go Ec. go Es. go Es.
        assert (I := drive_plays fuel (Single steps) (locals_of (Single steps)) _ _ _ _ _ _ _ _ _ E (locals_of (Single steps))). destruct en; [| |congruence].
        * specialize (I (conj eq_refl (conj eq_refl Logic.I)) [] Finished (holds p1) w2). rewrite app_nil_r in I. apply I. intros l' _. eapply plays_return. reflexivity.
        * apply I. repeat split.
      + intros _ t. eexists. split; [|discriminate]. go Ec. go Es. eapply plays_raise. cbn. now rewrite Es.
      + congruence.
    - intros _ t. eexists. split; [|discriminate]. eapply plays_raise. cbn. now rewrite Ec.
    - congruence.
  Qed.
  Theorem C120_alone_variable k n fuel steps buffer w :
    does fuel (Variable_length steps buffer) w (variable_length_short_bursts proposal accept erase named score maximize k n fuel user constraints steps buffer initial w).
  Proof.
    unfold does, variable_length_short_bursts, started. destruct (score initial w) as [[s|e|] w1] eqn:Es.
    - destruct (variable_loop k n fuel user constraints steps buffer 2 (mkProgress initial s 0 0) w1) as [[[ys en] p1] w2] eqn:E. intros U t. exists (holds p1).
      split; [|now intros p [= ->]]. go Es. go Es. go Es. eapply (variable_plays _ _ _ _ _ _ _ (mkProgress initial s 0 0)); eauto.
    - intros _ t. eexists. split; [|discriminate]. go Es. go Es. eapply plays_raise. cbn. now rewrite Es.
    - congruence.
  Qed.
End Alone.
Print Assumptions C120_alone_unique.
Print Assumptions C120_alone_bursts.
Print Assumptions C120_alone_single.
Print Assumptions C120_alone_variable.

(** The theorem at work: a run with bursts of length two and four. *)
Example C120_alone_nonvacuous :
  exists ys p t', variable_length_short_bursts up yes kept (fun _ => true) (scored below) true 9 9 9 kept (Collection (Reusable [])) 7 0 5 tt = (ys, Finished, Some p, tt) /\
  map y_plan ys = [5; 6; 6; 7; 8; 9; 9] /\
  plays up kept (fun _ => true) (scored below) true (Collection (Reusable [])) 5 kept 9
    (mkRun (Variable_length 7 0) yes) Begin (locals_of (Variable_length 7 0)) fresh tt (map seen ys) Finished t' tt /\
  t' = mkAttributes (Some 9) (Some (below 9)).
Proof.
  assert (H := C120_alone_variable up yes kept (fun _ => true) (scored below) true (Collection (Reusable [])) 5 kept [] eq_refl 9 9 9 7 0 tt).
  unfold does in H. destruct (variable_length_short_bursts up yes kept (fun _ => true) (scored below) true 9 9 9 kept (Collection (Reusable [])) 7 0 5 tt) as [[[ys en] best] w'] eqn:E.
  vm_compute in E. injection E as <- <- <- <-. destruct (H ltac:(discriminate) fresh) as (t' & G & Ht).
  eexists _, _, _. split; [reflexivity|]. split; [reflexivity|]. split; [exact G|]. rewrite (Ht _ eq_refl). reflexivity.
Qed.
