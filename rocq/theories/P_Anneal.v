(** C66-C68: temperature schedules and simulated annealing. *)
From Coq Require Import List Bool Arith ZArith QArith Reals Lia Lqa Lra ZifyBool ZifyNat.
From Verif Require Import Base M_Constraints P_Constraints M_Chain P_Chain M_Optimize P_Optimize M_Anneal.
Import ListNotations.
Local Open Scope nat_scope.
Local Open Scope list_scope.

(** ** C67 *)

Lemma int_mod_ok a b : (0 < b)%Z -> int_mod a b = Ok (a mod b)%Z /\ (0 <= a mod b < b)%Z.
Proof. intro H. unfold int_mod. destruct (Z.eqb_spec b 0); [lia|]. split; auto. now apply Z.mod_pos_bound. Qed.
Lemma int_mod_periodic a b k : int_mod (a + k * b) b = int_mod a b.
Proof. unfold int_mod. destruct (Z.eqb_spec b 0); auto. now rewrite Z_mod_plus_full. Qed.

(** A schedule of rational temperatures: [t] is the time since the beginning
    of the cycle. *)
Definition in_unit (v : Q) : Prop := (0 <= v <= 1)%Q.

Theorem C67_jumpcycle hot cold step : (0 <= hot)%Z -> (0 <= cold)%Z -> (0 < hot + cold)%Z ->
  (exists v, jumpcycle hot cold step = Ok v /\ in_unit v /\
     ((step mod (hot + cold) < hot)%Z -> v == 0)%Q /\ ((hot <= step mod (hot + cold))%Z -> v == 1)%Q) /\
  forall k, jumpcycle hot cold (step + k * (hot + cold)) = jumpcycle hot cold step.
Proof.
  intros H1 H2 H3. split.
  - unfold jumpcycle. destruct (int_mod_ok step (hot + cold) H3) as [-> B]. cbn. eexists. split; [reflexivity|]. unfold in_unit.
    destruct (Z.leb_spec hot (step mod (hot + cold))); split; try Lqa.lra; split; intro; try lia; reflexivity.
  - intro k. unfold jumpcycle. now rewrite int_mod_periodic.
Qed.

Lemma unit_quotient a b : (0 <= a <= b)%Z -> (0 < b)%Z -> in_unit (inject_Z a / inject_Z b).
Proof.
  intros [H1 H2] H3. assert (0 < inject_Z b)%Q by (change 0%Q with (inject_Z 0); rewrite <- Zlt_Qlt; auto). split.
  - apply Qle_shift_div_l; auto. rewrite Qmult_0_l. change 0%Q with (inject_Z 0). rewrite <- Zle_Qle. auto.
  - apply Qle_shift_div_r; auto. rewrite Qmult_1_l. rewrite <- Zle_Qle. auto.
Qed.
Lemma int_div_ok a b : b <> 0%Z -> int_div a b = Ok (inject_Z a / inject_Z b)%Q.
Proof. intro H. unfold int_div. destruct (Z.eqb_spec b 0); [contradiction|auto]. Qed.

(** The linear schedule: 0 while hot, 1 while cold, and the straight lines
    between them. *)
Theorem C67_linearcycle hot cooldown cold step : (0 <= hot)%Z -> (0 <= cooldown)%Z -> (0 <= cold)%Z -> (0 < hot + 2 * cooldown + cold)%Z ->
  let cycle := (hot + 2 * cooldown + cold)%Z in let t := (step mod cycle)%Z in
  (exists v, linearcycle hot cooldown cold step = Ok v /\ in_unit v /\
     ((t < hot)%Z -> v == 0)%Q /\
     ((hot <= t < hot + cooldown)%Z -> v * inject_Z cooldown == inject_Z (t - hot))%Q /\
     ((hot + cooldown <= t < hot + cooldown + cold)%Z -> v == 1)%Q /\
     ((hot + cooldown + cold <= t)%Z -> v * inject_Z cooldown == inject_Z (cycle - t))%Q) /\
  forall k, linearcycle hot cooldown cold (step + k * cycle) = linearcycle hot cooldown cold step.
Proof.
  intros H1 H2 H2' H3 cycle t. split.
  - unfold linearcycle. fold cycle. destruct (int_mod_ok step cycle H3) as [-> B]. fold t in B |- *. cbn [bind].
    destruct (Z.ltb_spec t hot); [|destruct (Z.ltb_spec t (hot + cooldown)); [|destruct (Z.ltb_spec t (cycle - cooldown))]].
    + eexists. split; [reflexivity|]. split; [unfold in_unit; Lqa.lra|]. repeat split; intros; try lia; reflexivity.
    + rewrite int_div_ok by lia. eexists. split; [reflexivity|]. split; [apply unit_quotient; lia|].
      split; [lia|]. split; [|split; lia]. intros _. field. change 0%Q with (inject_Z 0). rewrite inject_Z_injective. lia.
    + eexists. split; [reflexivity|]. split; [unfold in_unit; Lqa.lra|]. repeat split; intros; try (unfold cycle in *; lia); reflexivity.
    + assert (cooldown <> 0)%Z by (unfold cycle in *; lia). rewrite int_div_ok by auto. cbn [bind]. eexists. split; [reflexivity|].
      assert (Un : in_unit (inject_Z (t - cycle + cooldown) / inject_Z cooldown)) by (apply unit_quotient; unfold cycle in *; lia).
      split; [unfold in_unit in *; Lqa.lra|]. split; [lia|]. split; [lia|]. split; [unfold cycle in *; lia|]. intros _.
      replace (cycle - t)%Z with (cooldown + - (t - cycle + cooldown))%Z by lia. rewrite (inject_Z_plus cooldown), inject_Z_opp. field.
      change 0%Q with (inject_Z 0). rewrite inject_Z_injective. lia.
  - intro k. unfold linearcycle. fold cycle. now rewrite int_mod_periodic.
Qed.
Theorem C67_linear_jumpcycle hot cooldown cold step : (0 <= hot)%Z -> (0 <= cooldown)%Z -> (0 <= cold)%Z -> (0 < hot + cooldown + cold)%Z ->
  let cycle := (hot + cooldown + cold)%Z in let t := (step mod cycle)%Z in
  (exists v, linear_jumpcycle hot cooldown cold step = Ok v /\ in_unit v /\
     ((t < hot)%Z -> v == 0)%Q /\
     ((hot <= t < hot + cooldown)%Z -> v * inject_Z cooldown == inject_Z (t - hot))%Q /\
     ((hot + cooldown <= t)%Z -> v == 1)%Q) /\
  forall k, linear_jumpcycle hot cooldown cold (step + k * cycle) = linear_jumpcycle hot cooldown cold step.
Proof.
  intros H1 H2 H2' H3 cycle t. split.
  - unfold linear_jumpcycle. fold cycle. destruct (int_mod_ok step cycle H3) as [-> B]. fold t in B |- *. cbn [bind].
    destruct (Z.ltb_spec t hot); [|destruct (Z.ltb_spec t (hot + cooldown))].
    + eexists. split; [reflexivity|]. split; [unfold in_unit; Lqa.lra|]. repeat split; intros; try lia; reflexivity.
    + rewrite int_div_ok by lia. eexists. split; [reflexivity|]. split; [apply unit_quotient; lia|].
      split; [lia|]. split; [|lia]. intros _. field. change 0%Q with (inject_Z 0). rewrite inject_Z_injective. lia.
    + eexists. split; [reflexivity|]. split; [unfold in_unit; Lqa.lra|]. repeat split; intros; try lia; reflexivity.
  - intro k. unfold linear_jumpcycle. fold cycle. now rewrite int_mod_periodic.
Qed.

(** The documented curve, cut off at 0 and 1. *)
Definition curve (x v : R) : Prop :=
  (let y := (ln (x / (1 - x)) + 5) / 10 in (y <= 0 -> v = 0) /\ (0 <= y <= 1 -> v = y) /\ (1 <= y -> v = 1))%R.

Lemma clip_range v : (0 <= clip v <= 1)%R.
Proof. unfold clip. destruct (Rlt_dec v 0); [lra|]. destruct (Rlt_dec 1 v); lra. Qed.
Lemma logit_ok x : (0 < x < 1)%R -> logit x = Ok ((ln (x / (1 - x)) + 5) / 10)%R.
Proof.
  intros [H1 H2]. unfold logit, real_div, math_log. destruct (Req_EM_T (1 - x) 0); [lra|]. cbn [bind].
  destruct (Rlt_dec 0 (x / (1 - x))) as [_|N]; [cbn [bind]|exfalso; apply N; apply Rdiv_lt_0_compat; lra].
  destruct (Req_EM_T 10 0); [lra|auto].
Qed.
Lemma real_quotient a b : (0 < a < b)%Z -> real_div (IZR a) (IZR b) = Ok (IZR a / IZR b)%R /\ (0 < IZR a / IZR b < 1)%R.
Proof.
  intros [H1 H2]. apply IZR_lt in H1. assert (H3 : (0 < IZR b)%R) by (apply IZR_lt; apply lt_IZR in H1; lia). apply IZR_lt in H2. unfold real_div.
  destruct (Req_EM_T (IZR b) 0); [lra|]. split; auto. split; [apply Rdiv_lt_0_compat; auto|].
  apply (Rmult_lt_reg_r (IZR b)); auto. unfold Rdiv. rewrite Rmult_assoc, Rinv_l, Rmult_1_l, Rmult_1_r; lra.
Qed.
Lemma clip_curve x : curve x (clip ((ln (x / (1 - x)) + 5) / 10)).
Proof. unfold curve, clip. cbv zeta. destruct (Rlt_dec _ 0); [repeat split; intros; lra|]. destruct (Rlt_dec 1 _); repeat split; intros; lra. Qed.

Theorem C67_logit_jumpcycle hot cooldown cold step : (0 <= hot)%Z -> (0 <= cooldown)%Z -> (0 <= cold)%Z -> (0 < hot + cooldown + cold)%Z ->
  let cycle := (hot + cooldown + cold)%Z in let t := (step mod cycle)%Z in
  (exists v, logit_jumpcycle hot cooldown cold step = Ok v /\ (0 <= v <= 1)%R /\
     ((t <= hot)%Z -> v = 0%R) /\
     ((hot < t < hot + cooldown)%Z -> curve (IZR (t - hot) / IZR cooldown) v) /\
     ((hot + cooldown <= t)%Z -> (hot < t)%Z -> v = 1%R)) /\
  forall k, logit_jumpcycle hot cooldown cold (step + k * cycle) = logit_jumpcycle hot cooldown cold step.
Proof.
  intros H1 H2 H2' H3 cycle t. split.
  - unfold logit_jumpcycle. fold cycle. destruct (int_mod_ok step cycle H3) as [-> B]. fold t in B |- *. cbn [bind].
    destruct (Z.leb_spec t hot); [|destruct (Z.ltb_spec t (hot + cooldown))].
    + eexists. split; [reflexivity|]. split; [lra|]. repeat split; intros; try lia; reflexivity.
    + destruct (real_quotient (t - hot) cooldown ltac:(lia)) as [-> Q]. cbn [bind]. rewrite logit_ok by auto. cbn [bind].
      eexists. split; [reflexivity|]. split; [apply clip_range|]. split; [lia|]. split; [|lia]. intros _. apply clip_curve.
    + eexists. split; [reflexivity|]. split; [lra|]. repeat split; intros; try lia; reflexivity.
  - intro k. unfold logit_jumpcycle. fold cycle. now rewrite int_mod_periodic.
Qed.
Theorem C67_logitcycle hot cooldown cold step : (0 <= hot)%Z -> (0 <= cooldown)%Z -> (0 <= cold)%Z -> (0 < hot + 2 * cooldown + cold)%Z ->
  let cycle := (hot + 2 * cooldown + cold)%Z in let t := (step mod cycle)%Z in
  (exists v, logitcycle hot cooldown cold step = Ok v /\ (0 <= v <= 1)%R /\
     ((t <= hot)%Z -> v = 0%R) /\
     ((hot < t < hot + cooldown)%Z -> curve (IZR (t - hot) / IZR cooldown) v) /\
     ((hot + cooldown <= t <= hot + cooldown + cold)%Z -> (hot < t)%Z -> v = 1%R) /\
     ((hot + cooldown + cold < t)%Z -> curve (IZR (t - (hot + cooldown + cold)) / IZR cooldown) (1 - v))) /\
  forall k, logitcycle hot cooldown cold (step + k * cycle) = logitcycle hot cooldown cold step.
Proof.
  intros H1 H2 H2' H3 cycle t. split.
  - unfold logitcycle. fold cycle. destruct (int_mod_ok step cycle H3) as [-> B]. fold t in B |- *. cbn [bind].
    destruct (Z.leb_spec t hot); [|destruct (Z.ltb_spec t (hot + cooldown)); [|destruct (Z.leb_spec t (cycle - cooldown))]].
    + eexists. split; [reflexivity|]. split; [lra|]. repeat split; intros; try lia; reflexivity.
    + destruct (real_quotient (t - hot) cooldown ltac:(lia)) as [-> Q]. cbn [bind]. rewrite logit_ok by auto. cbn [bind].
      eexists. split; [reflexivity|]. split; [apply clip_range|]. split; [lia|]. split; [|split; [lia|unfold cycle in *; lia]]. intros _. apply clip_curve.
    + eexists. split; [reflexivity|]. split; [lra|]. repeat split; intros; try (unfold cycle in *; lia); reflexivity.
    + assert (E : (t - cycle + cooldown = t - (hot + cooldown + cold))%Z) by (unfold cycle; lia). rewrite E.
      destruct (real_quotient (t - (hot + cooldown + cold)) cooldown ltac:(unfold cycle in *; lia)) as [-> Q]. cbn [bind]. rewrite logit_ok by auto. cbn [bind].
      eexists. split; [reflexivity|]. split; [apply clip_range|]. split; [lia|]. split; [lia|]. split; [unfold cycle in *; lia|].
      intros _. unfold curve, clip. cbv zeta. destruct (Rlt_dec (1 - _) 0); [repeat split; intros; lra|]. destruct (Rlt_dec 1 (1 - _)); repeat split; intros; lra.
  - intro k. unfold logitcycle. fold cycle. now rewrite int_mod_periodic.
Qed.
(** Without a cooldown the first cold step of the logit schedules is still hot. *)
Theorem C67_logit_cold_refuted :
  (1 <= 1 mod (1 + 2 * 0 + 2))%Z /\ logitcycle 1 0 2 1 = Ok 0%R /\ logit_jumpcycle 1 0 2 1 = Ok 0%R /\ linearcycle 1 0 2 1 = Ok 1%Q.
Proof. cbn. repeat split; lia. Qed.
(** A cycle of length zero raises. *)
Theorem C67_empty_cycle step : jumpcycle 0 0 step = Err ZeroDivisionError /\ linearcycle 0 0 0 step = Err ZeroDivisionError /\ logitcycle 0 0 0 step = Err ZeroDivisionError.
Proof. repeat split. Qed.
Example C67_nonvacuous : linearcycle 2 2 3 3 = Ok (1 / 2)%Q /\ linearcycle 2 2 3 8 = Ok (1 - 1 / 2)%Q /\ (3 mod (2 + 2 * 2 + 3) = 3)%Z.
Proof. repeat split. Qed.

(** ** C66 *)
Section Annealing.
  Context {U : Type}.
  Notation world := (world U).
  Variable score : nat -> world -> res R * world.
  Variable beta : Z -> res R.
  Variable magnitude limit : R.
  Variable random : U -> R * U.
  Variable maximize : bool.
  Notation accept := (sa_accept score beta magnitude limit random maximize).

  (** The plan [a] with its parent, the scores of both and the reading of the
      clock. *)
  Definition scene (a : nat) (w w2 : world) (s t : R) (n : Z) (h : list cell) : Prop :=
    exists c b w1, nth_error (w_cells w) a = Some c /\ c_parent c = Some b /\ score a w = (Ok s, w1) /\ score b w1 = (Ok t, w2) /\
      read_step (length (w_cells w2)) (w_cells w2) a = Ok (n, h).
  (** How much worse than the parent; negative for improvements. *)
  Definition loss (s t : R) : R := if maximize then (t - s)%R else (s - t)%R.

  Lemma accept_scene a w w2 s t n h : scene a w w2 s t n h ->
    accept a w = let (r, u) := anneal beta magnitude limit random maximize s t n (w_rest w2) in
      match r with
      | Ok v => (Ok (PBool v), mkWorld h (w_log w2 ++ [(n, v)]) u)
      | Err e => (Err e, mkWorld h (w_log w2 ++ [(n, false)]) u)
      | NoFuel => (NoFuel, mkWorld h (w_log w2 ++ [(n, false)]) u)
      end.
  Proof. intros (c & b & w1 & E1 & E2 & E3 & E4 & E5). unfold sa_accept. now rewrite E1, E2, E3, E4, E5. Qed.
  Theorem C66_annealing a w w2 s t n h b : scene a w w2 s t n h -> beta n = Ok b ->
    ((- (b * magnitude * loss s t) <= limit)%R ->
       exists v, fst (accept a w) = Ok (PBool v) /\ (v = true <-> (fst (random (w_rest w2)) < exp (- (b * magnitude * loss s t)))%R)) /\
    ((limit < - (b * magnitude * loss s t))%R -> fst (accept a w) = Err OverflowError).
  Proof.
    intros Sc Hb. rewrite (accept_scene _ _ _ _ _ _ _ Sc). unfold anneal. rewrite Hb.
    replace (- b * magnitude * (if maximize then -1 * (s - t) else s - t))%R with (- (b * magnitude * loss s t))%R by (unfold loss; destruct maximize; ring).
    unfold math_exp. destruct (random (w_rest w2)) as [r u]. destruct (Rlt_dec limit _) as [H|H]; split; intro H1; try lra; [reflexivity|].
    eexists. split; [reflexivity|]. cbn [fst]. destruct (Rlt_dec r _); split; auto; discriminate.
  Qed.
  Theorem C66_annealing_improvement a w w2 s t n h b : scene a w w2 s t n h -> beta n = Ok b ->
    (0 <= b)%R -> (0 <= magnitude)%R -> (fst (random (w_rest w2)) < 1)%R ->
    (loss s t <= 0)%R -> (b * magnitude * (- loss s t) <= limit)%R -> fst (accept a w) = Ok (PBool true).
  Proof.
    intros Sc Hb Pb Pm Pr Hl Hlim. destruct (C66_annealing _ _ _ _ _ _ _ _ Sc Hb) as [A _]. destruct A as (v & -> & Hv); [lra|].
    destruct v; auto. exfalso. assert (G : (0 <= - (b * magnitude * loss s t))%R).
    { assert (0 <= b * magnitude)%R by (apply Rmult_le_pos; auto). assert (0 <= b * magnitude * - loss s t)%R by (apply Rmult_le_pos; lra). lra. }
    assert (1 <= exp (- (b * magnitude * loss s t)))%R. { rewrite <- exp_0. destruct G as [G|<-]; [left; now apply exp_increasing|right; reflexivity]. }
    assert (false = true) by (apply Hv; lra). discriminate.
  Qed.
  Theorem C66_annealing_hot a w w2 s t n h : scene a w w2 s t n h -> beta n = Ok 0%R ->
    (fst (random (w_rest w2)) < 1)%R -> (0 <= limit)%R -> fst (accept a w) = Ok (PBool true).
  Proof.
    intros Sc Hb Pr Hlim. destruct (C66_annealing _ _ _ _ _ _ _ _ Sc Hb) as [A _]. replace (- (0 * magnitude * loss s t))%R with 0%R in A by ring.
    destruct A as (v & -> & Hv); [lra|]. destruct v; auto. rewrite exp_0 in Hv. apply Hv in Pr. discriminate.
  Qed.
  (** A plan without parent is accepted without being scored, without a draw
      and without reading the clock; and what the score or the schedule raise
      is raised. *)
  Theorem C66_annealing_root a w c : nth_error (w_cells w) a = Some c -> c_parent c = None -> accept a w = (Ok (PBool true), w).
  Proof. intros E1 E2. unfold sa_accept. now rewrite E1, E2. Qed.
  Theorem C66_annealing_raises a w e :
    (forall c b w1, nth_error (w_cells w) a = Some c -> c_parent c = Some b -> score a w = (Err e, w1) -> accept a w = (Err e, w1)) /\
    (forall c b s w1 w2, nth_error (w_cells w) a = Some c -> c_parent c = Some b -> score a w = (Ok s, w1) -> score b w1 = (Err e, w2) -> accept a w = (Err e, w2)) /\
    (forall w2 s t n h, scene a w w2 s t n h -> beta n = Err e -> fst (accept a w) = Err e /\ w_rest (snd (accept a w)) = w_rest w2).
  Proof.
    split; [|split].
    - intros c b w1 E1 E2 E3. unfold sa_accept. now rewrite E1, E2, E3.
    - intros c b s w1 w2 E1 E2 E3 E4. unfold sa_accept. now rewrite E1, E2, E3, E4.
    - intros w2 s t n h Sc Hb. rewrite (accept_scene _ _ _ _ _ _ _ Sc). unfold anneal. rewrite Hb. split; reflexivity.
  Qed.
End Annealing.

(** Nothing bounds the score: an improvement can be too large for math.exp. *)
Definition steep (gain : R) (a : nat) (w : world unit) : res R * world unit := (Ok (if Nat.eqb a 0 then 0%R else gain), w).
Definition two_plans : world unit := mkWorld [mkCell None None; mkCell (Some 0) None] [] tt.
Lemma steep_scene gain : scene (steep gain) 1 two_plans two_plans gain 0%R 1%Z [mkCell None (Some 0%Z); mkCell (Some 0) (Some 1%Z)].
Proof. eexists _, _, _. repeat split. Qed.
Theorem C66_overflow_refuted : forall limit, (0 <= limit)%R -> exists (score : nat -> world unit -> res R * world unit) w w2 s t h,
  scene score 1 w w2 s t 1%Z h /\ (loss true s t < 0)%R /\
  fst (sa_accept score (fun _ => Ok 1%R) 1 limit (fun u => (0%R, u)) true 1 w) = Err OverflowError.
Proof.
  intros limit Hl. exists (steep (limit + 1)%R), two_plans, two_plans, (limit + 1)%R, 0%R. eexists. split; [apply steep_scene|]. split; [unfold loss; lra|].
  apply (C66_annealing (steep (limit + 1)) (fun _ => Ok 1%R) 1 limit (fun u => (0%R, u)) true _ _ _ _ _ _ _ _ (steep_scene _) eq_refl). unfold loss. lra.
Qed.
Example C66_annealing_nonvacuous : fst (sa_accept (steep 2) (fun _ => Ok 1%R) 1 700 (fun u => ((1 / 2)%R, u)) true 1 two_plans) = Ok (PBool true).
Proof. eapply (C66_annealing_improvement _ _ _ _ _ _ _ _ _ _ _ _ _ _ (steep_scene 2) eq_refl); unfold loss; cbn; lra. Qed.

(** ** C68 *)

(** The number of steps of a plan: what its updater has cached or would
    compute. *)
Inductive val (h : list cell) : nat -> Z -> Prop :=
| val_cached a c n : nth_error h a = Some c -> c_step c = Some n -> val h a n
| val_root a c : nth_error h a = Some c -> c_step c = None -> c_parent c = None -> val h a 0%Z
| val_child a c b n : nth_error h a = Some c -> c_step c = None -> c_parent c = Some b -> val h b n -> val h a (n + 1)%Z.

Lemma val_det h a n : val h a n -> forall m, val h a m -> n = m.
Proof. induction 1; intros m V; inversion V; subst; try congruence. assert (b = b0) by congruence. subst. f_equal. auto. Qed.

Lemma nth_replace h a c : forall b, nth_error (replace h a c) b = if Nat.eqb b a then option_map (fun _ => c) (nth_error h a) else nth_error h b.
Proof.
  revert a. induction h as [|d h IH]; intros [|a] [|b]; cbn [replace nth_error Nat.eqb]; try reflexivity.
  - now destruct (Nat.eqb b a).
  - apply IH.
Qed.
Lemma length_replace h a c : length (replace h a c) = length h.
Proof. revert a. induction h; intros [|a']; cbn; auto. Qed.

(** [h'] is [h] with more values cached. *)
Definition refines (h h' : list cell) : Prop :=
  length h' = length h /\
  forall y c, nth_error h y = Some c -> exists c', nth_error h' y = Some c' /\ c_parent c' = c_parent c /\
    (c_step c' = c_step c \/ c_step c = None /\ exists m, c_step c' = Some m /\ val h y m).
Lemma refines_val h h' a n : refines h h' -> val h a n -> val h' a n.
Proof.
  intros [_ Rf]. induction 1 as [a c n E Es|a c E Es Ep|a c b n E Es Ep Vb IH]; destruct (Rf _ _ E) as (c' & E' & P' & [S'|(S' & m & S'' & Vm)]).
  - eapply val_cached; eauto. congruence.
  - congruence.
  - eapply val_root; eauto; congruence.
  - assert (0%Z = m) by (apply (val_det h a); [eapply val_root; eauto|exact Vm]). subst m. eapply val_cached; eauto.
  - eapply val_child; eauto; congruence.
  - assert (n + 1 = m)%Z by (apply (val_det h a); [eapply val_child; eauto|exact Vm]). subst m. eapply val_cached; eauto.
Qed.
Lemma refines_refl h : refines h h.
Proof. split; eauto. Qed.
Lemma read_refines f : forall h a n h', read_step f h a = Ok (n, h') ->
  val h a n /\ refines h h' /\ exists c', nth_error h' a = Some c' /\ c_step c' = Some n.
Proof.
  assert (G : forall h h1 a c n, refines h h1 -> nth_error h a = Some c -> c_step c = None -> val h a n ->
              refines h (replace h1 a (mkCell (c_parent c) (Some n))) /\
              exists c', nth_error (replace h1 a (mkCell (c_parent c) (Some n))) a = Some c' /\ c_step c' = Some n).
  { intros h h1 a c n [L1 Rf] E Es V. destruct (Rf _ _ E) as (c1 & E1 & _). split; [split|].
    - now rewrite length_replace.
    - intros y d Ey. rewrite nth_replace. destruct (Nat.eqb_spec y a) as [->|Ny].
      + rewrite E1. cbn. eexists. split; [reflexivity|]. cbn. replace d with c by congruence. eauto 6.
      + apply Rf. auto.
    - rewrite nth_replace, Nat.eqb_refl, E1. cbn. eauto. }
  induction f as [|f IH]; intros h a n h' H; cbn [read_step] in H; destruct (nth_error h a) as [c|] eqn:E; try discriminate;
    (destruct (c_step c) as [k|] eqn:Es; [injection H as <- <-; split; [eapply val_cached; eauto|split; [apply refines_refl|eauto]]|]);
    destruct (c_parent c) as [b|] eqn:Ep; try discriminate.
  - injection H as <- <-. assert (V := val_root h a c E Es Ep). split; [exact V|]. rewrite <- Ep. eapply G; eauto. apply refines_refl.
  - inv_bind H. injection H as <- <-. destruct a0 as [m h1]. apply IH in H0. cbn [fst snd] in *. destruct H0 as (V & Rf & _).
    assert (V' := val_child h a c b m E Es Ep V). split; [exact V'|]. rewrite <- Ep. eapply G; eauto.
  - injection H as <- <-. assert (V := val_root h a c E Es Ep). split; [exact V|]. rewrite <- Ep. eapply G; eauto. apply refines_refl.
Qed.

(** What proposals, constraints, scores and the consumer may do to plans: make
    new ones and read their steps. *)
Inductive moves (h : list cell) : list cell -> Prop :=
| moves_refl : moves h h
| moves_new h' p : moves h h' -> moves h (h' ++ [mkCell p None])
| moves_read h' f a n h'' : moves h h' -> read_step f h' a = Ok (n, h'') -> moves h h''.

Lemma val_app h c a n : val h a n -> val (h ++ [c]) a n.
Proof.
  assert (G : forall a d, nth_error h a = Some d -> nth_error (h ++ [c]) a = Some d) by (intros b d E; rewrite nth_error_app1; auto; apply nth_error_Some; congruence).
  induction 1; [eapply val_cached|eapply val_root|eapply val_child]; eauto.
Qed.
Lemma moves_keep h h' : moves h h' -> length h <= length h' /\ (forall a n, val h a n -> val h' a n) /\
  forall a c, nth_error h a = Some c -> exists c', nth_error h' a = Some c' /\ c_parent c' = c_parent c /\ (c_step c <> None -> c_step c' <> None).
Proof.
  induction 1 as [|h' p M (IL & IV & IC)|h' f a n h'' M (IL & IV & IC) Hr].
  - split; [lia|]. split; eauto.
  - rewrite app_length. split; [lia|]. split; [intros; apply val_app; auto|]. intros a c E. destruct (IC a c E) as (c' & E' & H). exists c'. split; auto.
    rewrite nth_error_app1; auto. apply nth_error_Some. congruence.
  - apply read_refines in Hr. destruct Hr as (_ & Rf & _). split; [destruct Rf; lia|]. split; [intros; eapply refines_val; eauto|].
    intros b c E. destruct (IC b c E) as (c1 & E1 & P1 & S1). destruct Rf as [_ Rf]. destruct (Rf _ _ E1) as (c2 & E2 & P2 & S2). exists c2. split; auto. split; [congruence|].
    intro N. apply S1 in N. destruct S2 as [->|(S2 & _)]; auto.
Qed.
Lemma moves_child h h' x n : moves h h' -> val h x n -> forall y c, length h <= y -> nth_error h' y = Some c -> c_parent c = Some x -> val h' y (n + 1)%Z.
Proof.
  intros M Vx. induction M as [|h' p M IH|h' f a k h'' M IH Hr]; intros y c Hy E Ep.
  - assert (y < length h) by (apply nth_error_Some; congruence). lia.
  - destruct (Nat.lt_ge_cases y (length h')) as [Hl|Hl].
    + rewrite nth_error_app1 in E by auto. apply val_app. eauto.
    + rewrite nth_error_app2 in E by auto. destruct (y - length h') as [|k] eqn:Ek; [|destruct k; discriminate]. cbn in E. injection E as <-. cbn in Ep. subst p.
      eapply val_child with (c := mkCell (Some x) None) (b := x); auto.
      * rewrite nth_error_app2 by auto. now rewrite Ek.
      * apply val_app. now apply (moves_keep _ _ M).
  - apply read_refines in Hr. destruct Hr as (_ & Rf & _). assert (Hl : y < length h') by (destruct Rf as [<- _]; apply nth_error_Some; congruence).
    destruct (nth_error h' y) as [d|] eqn:Ed; [|apply nth_error_None in Ed; lia]. assert (Rf' := Rf). destruct Rf' as [_ Rf']. destruct (Rf' _ _ Ed) as (c' & E' & P' & _).
    assert (c' = c) by congruence. subst c'. eapply refines_val; eauto. eapply IH; eauto. congruence.
Qed.
(** The current plan of a chain: the value does not depend on its parent. *)
Definition settled (h : list cell) (a : nat) (n : Z) : Prop :=
  val h a n /\ exists c, nth_error h a = Some c /\ (c_step c <> None \/ c_parent c = None).
Lemma settled_moves h h' a n : moves h h' -> settled h a n -> settled h' a n.
Proof.
  intros M (V & c & E & D). destruct (moves_keep _ _ M) as (_ & MV & MC). destruct (MC _ _ E) as (c' & E' & P' & S'). split; auto. exists c'. split; auto.
  destruct D; [left; auto|right; congruence].
Qed.
Lemma nth_cut_off h a b : nth_error (cut_off h a) b = if Nat.eqb b a then option_map (fun c => mkCell None (c_step c)) (nth_error h a) else nth_error h b.
Proof.
  unfold cut_off. destruct (nth_error h a) as [c|] eqn:E.
  - rewrite nth_replace, E. reflexivity.
  - destruct (Nat.eqb_spec b a) as [->|]; auto.
Qed.
Lemma settled_cut_off h a n : settled h a n -> settled (cut_off h a) a n /\ forall b m, val h b m -> val (cut_off h a) b m.
Proof.
  intros (V & c & E & D). assert (Ea : nth_error (cut_off h a) a = Some (mkCell None (c_step c))) by (rewrite nth_cut_off, Nat.eqb_refl, E; reflexivity).
  assert (Va : val (cut_off h a) a n).
  { destruct (c_step c) as [k|] eqn:Es.
    - assert (n = k) by (apply (val_det h a); [exact V|eapply val_cached; eauto]). subst k. eapply val_cached; eauto.
    - destruct D as [D|D]; [congruence|]. assert (n = 0%Z) by (apply (val_det h a); [exact V|eapply val_root; eauto]). subst n. eapply val_root; eauto. }
  split.
  - split; auto. eexists. split; [exact Ea|]. now right.
  - induction 1 as [b d m Eb Es|b d Eb Es Ep|b d p m Eb Es Ep Vp IH]; (destruct (Nat.eqb_spec b a) as [Nb|Nb]; [subst b|]).
    + replace m with n; auto. apply (val_det h a); [exact V|]. eapply val_cached; eauto.
    + eapply val_cached; eauto. rewrite nth_cut_off. destruct (Nat.eqb_spec b a); [contradiction|auto].
    + replace 0%Z with n; auto. apply (val_det h a); [exact V|]. eapply val_root; eauto.
    + eapply val_root; eauto. rewrite nth_cut_off. destruct (Nat.eqb_spec b a); [contradiction|auto].
    + replace (m + 1)%Z with n; auto. apply (val_det h a); [exact V|]. eapply val_child; eauto.
    + eapply val_child; eauto. rewrite nth_cut_off. destruct (Nat.eqb_spec b a); [contradiction|auto].
Qed.

Section Clock.
  Context {U : Type}.
  Notation world := (world U).
  Implicit Types (w : world) (a x y : nat).

  (** Code that makes plans and reads steps only. *)
  Definition careful {A : Type} (f : world -> A * world) : Prop :=
    forall w, moves (w_cells w) (w_cells (snd (f w))) /\ w_log (snd (f w)) = w_log w.
  (** Proposals return the current plan or a new plan derived from it. *)
  Definition derives (proposal : nat -> world -> res nat * world) : Prop :=
    forall x w, moves (w_cells w) (w_cells (snd (proposal x w))) /\ w_log (snd (proposal x w)) = w_log w /\
      forall y, fst (proposal x w) = Ok y -> y = x \/
        (length (w_cells w) <= y /\ exists c, nth_error (w_cells (snd (proposal x w))) y = Some c /\ c_parent c = Some x).
  (** The number of moves accepted. *)
  Definition accepted (l : list (Z * bool)) : Z := Z.of_nat (length (filter snd l)).
  (** Every reading is the start value, plus one, plus the number of moves
      accepted before. *)
  Definition on_time (v0 : Z) (l : list (Z * bool)) : Prop :=
    forall l1 n b l2, l = l1 ++ (n, b) :: l2 -> n = (v0 + 1 + accepted l1)%Z.

  Lemma on_time_add v0 l b : on_time v0 l -> on_time v0 (l ++ [((v0 + 1 + accepted l)%Z, b)]).
  Proof.
    intros H l1 n b' l2 E. destruct (exists_last (l := (n, b') :: l2)) as (l3 & z & E3); [discriminate|]. rewrite E3, app_assoc in E.
    apply app_inj_tail in E. destruct E as [E <-]. destruct l3 as [|d l3].
    - cbn in E3. injection E3 as -> -> ->. rewrite app_nil_r in E. now subst l.
    - injection E3 as <- _. subst l. eapply H. reflexivity.
  Qed.

  Lemma careful_trans h1 h2 h3 : moves h1 h2 -> moves h2 h3 -> moves h1 h3.
  Proof. intros M1 M2. revert M1. induction M2; intro M1; eauto using moves. Qed.

  Variable proposal : nat -> world -> res nat * world.
  Variable score : nat -> world -> res R * world.
  Variable beta : Z -> res R.
  Variable magnitude limit : R.
  Variable random : U -> R * U.
  Variable maximize : bool.
  Variable named : constraint nat world -> bool.
  Notation accept := (sa_accept score beta magnitude limit random maximize).

  Section Contracts.
  Hypothesis proposal_ok : derives proposal.
  Hypothesis score_ok : forall x, careful (score x).
  Variable cs : list (constraint nat world).
  Hypothesis cs_ok : forall c x, In c cs -> careful (c x).

  Lemma validator_moves y w r w' i : validator (Reusable cs) y w = (r, w', i) -> moves (w_cells w) (w_cells w') /\ w_log w' = w_log w.
  Proof.
    cbn [validator]. destruct (validate_loop cs y w) as [[b w1] rest] eqn:E. intro H. injection H as _ <- _. revert w b w1 rest E cs_ok. clear.
    induction cs as [|c l IH]; intros w b w1 rest E Hc; cbn [validate_loop] in E; [injection E as _ <- _; split; [constructor|auto]|].
    destruct (Hc c y (or_introl eq_refl) w) as [M1 L1]. destruct (c y w) as [r w2]. cbn [snd] in *. destruct r as [v|ex|]; try (injection E as _ <- _; auto; fail).
    destruct (verdict v); [injection E as _ <- _; auto|]. destruct (IH _ _ _ _ E) as [M2 L2]; [intros; apply Hc; now right|]. split; [eapply careful_trans; eauto|congruence].
  Qed.
  Lemma failed_moves y w r w' : forall l, incl l cs -> failed_constraints l y w = (r, w') -> moves (w_cells w) (w_cells w') /\ w_log w' = w_log w.
  Proof.
    intro l. revert w r w'. induction l as [|c l IH]; intros w r w' Hi E; cbn [failed_constraints] in E; [injection E as _ <-; split; [constructor|auto]|].
    destruct (cs_ok c y (Hi c (or_introl eq_refl)) w) as [M1 L1]. destruct (c y w) as [q w2]. cbn [snd] in *. destruct q as [v|ex|]; try (injection E as _ <-; auto; fail).
    destruct (failed_constraints l y w2) as [q w3] eqn:E2. destruct (IH _ _ _ (fun z Hz => Hi z (or_intror Hz)) E2) as [M2 L2].
    destruct q; injection E as _ <-; split; try congruence; eapply careful_trans; eauto.
  Qed.

  (** The chain stands at [x]. *)
  Definition standing v0 x w : Prop := settled (w_cells w) x (v0 + accepted (w_log w)) /\ on_time v0 (w_log w).
  Lemma standing_moves v0 x w w' : moves (w_cells w) (w_cells w') -> w_log w' = w_log w -> standing v0 x w -> standing v0 x w'.
  Proof. intros M L [H1 H2]. split; rewrite L; auto. eapply settled_moves; eauto. Qed.
  (** The plan offered to the acceptance function. *)
  Definition offered v0 x y w : Prop :=
    exists c, nth_error (w_cells w) y = Some c /\
      ((y = x /\ c_parent c = None) \/ (c_parent c = Some x /\ val (w_cells w) y (v0 + accepted (w_log w) + 1))).
  Lemma offered_moves v0 x y w w' : moves (w_cells w) (w_cells w') -> w_log w' = w_log w -> offered v0 x y w -> offered v0 x y w'.
  Proof.
    intros M L (c & E & D). destruct (moves_keep _ _ M) as (_ & MV & MC). destruct (MC _ _ E) as (c' & E' & P' & _). exists c'. split; auto. rewrite L, P'.
    destruct D as [D|[D1 D2]]; auto.
  Qed.
  Lemma accept_standing v0 x y w r w' : standing v0 x w -> offered v0 x y w -> accept y w = (r, w') ->
    on_time v0 (w_log w') /\ forall v, r = Ok v -> standing v0 (if truthy v then y else x) w'.
  Proof.
    intros St (c & E & D) H. unfold sa_accept in H. rewrite E in H. destruct (c_parent c) as [b|] eqn:Ep.
    2:{ injection H as <- <-. split; [apply St|]. intros v [= <-]. cbn [truthy]. destruct D as [[-> _]|[D _]]; [auto|discriminate]. }
    destruct D as [[_ D]|[D Vy]]; [discriminate|]. injection D as ->.
    destruct (score_ok y w) as [M1 L1]. destruct (score y w) as [r1 w1]. cbn [snd] in *. destruct r1 as [s|ex|];
      try (injection H as <- <-; split; [rewrite L1; apply St|discriminate]).
    destruct (score_ok x w1) as [M2 L2]. destruct (score x w1) as [r2 w2]. cbn [snd] in *. destruct r2 as [t|ex|];
      try (injection H as <- <-; split; [rewrite L2, L1; apply St|discriminate]).
    assert (M := careful_trans _ _ _ M1 M2). assert (L := eq_trans L2 L1). clear M1 M2 L1 L2 w1.
    assert (St2 := standing_moves _ _ _ _ M L St). destruct (moves_keep _ _ M) as (_ & MV & _). apply MV in Vy. rewrite <- L in Vy.
    destruct (read_step _ (w_cells w2) y) as [[n h]|ex|] eqn:Er; try (injection H as <- <-; split; [apply St2|discriminate]).
    assert (Er' := Er). apply read_refines in Er'. destruct Er' as (Vn & Rf & c2 & E2 & S2). assert (n = (v0 + 1 + accepted (w_log w2))%Z) by (rewrite (val_det _ _ _ Vn _ Vy); lia).
    assert (Mr : moves (w_cells w2) h) by (eapply moves_read; [constructor|exact Er]).
    destruct St2 as [Se Ti]. destruct (anneal beta magnitude limit random maximize s t n (w_rest w2)) as [q u]. clear Vn. subst n.
    destruct q as [v|ex|]; injection H as <- <-; cbn [w_log]; (split; [now apply on_time_add|]); [|discriminate|discriminate].
    intros v' [= <-]. split; cbn [w_cells w_log]; [|now apply on_time_add]. unfold accepted. rewrite filter_app, app_length. cbn [filter snd truthy]. destruct v; cbn [length].
    - split; [|exists c2; split; [exact E2|left; congruence]]. eapply refines_val; [exact Rf|]. replace (v0 + _)%Z with (v0 + accepted (w_log w2) + 1)%Z by (unfold accepted; lia). exact Vy.
    - rewrite Nat.add_0_r. eapply settled_moves; eauto.
  Qed.
  Lemma advance_standing v0 fuel : forall k ch w r ch' w', ch_valid ch = Reusable cs -> standing v0 (ch_state ch) w ->
    advance proposal accept forget fuel k ch w = (r, ch', w') ->
    ch_valid ch' = Reusable cs /\ on_time v0 (w_log w') /\ forall x, r = Ok x -> standing v0 (ch_state ch') w'.
  Proof.
    induction fuel as [|fuel IH]; intros k ch w r ch' w' Hv St H; cbn [advance] in H; [injection H as <- <- <-; split; auto; split; [apply St|discriminate]|].
    destruct (k <? ch_total ch)%Z; [|injection H as <- <- <-; split; auto; split; [apply St|discriminate]].
    destruct (proposal_ok (ch_state ch) w) as (M1 & L1 & Py). destruct (proposal (ch_state ch) w) as [r1 w1]. cbn [fst snd] in *.
    assert (St1 := standing_moves _ _ _ _ M1 L1 St). destruct r1 as [y|ex|]; try (injection H as <- <- <-; split; auto; split; [apply St1|discriminate]).
    assert (St2 : standing v0 (ch_state ch) (forget (ch_state ch) w1)).
    { destruct St1 as [S1 T1]. split; [|exact T1]. cbn. now apply settled_cut_off. }
    assert (Of : offered v0 (ch_state ch) y (forget (ch_state ch) w1)).
    { destruct (Py y eq_refl) as [->|(Hy & c & E & Ep)].
      - destruct St1 as [(_ & c & E & _) _]. exists (mkCell None (c_step c)). cbn [forget w_cells]. rewrite nth_cut_off, Nat.eqb_refl, E. cbn. auto.
      - destruct St as [[V0 (c0 & E0 & _)] _]. assert (Ny : y <> ch_state ch). { intros ->. assert (ch_state ch < length (w_cells w)) by (apply nth_error_Some; congruence). lia. }
        exists c. cbn [forget w_cells w_log]. split; [rewrite nth_cut_off; destruct (Nat.eqb_spec y (ch_state ch)); [contradiction|auto]|]. right. split; auto.
        rewrite L1. apply (proj2 (settled_cut_off _ _ _ (proj1 St1))). eapply moves_child; eauto. }
    rewrite Hv in H. assert (Vi := validator_reusable cs y (forget (ch_state ch) w1)).
    destruct (validator (Reusable cs) y (forget (ch_state ch) w1)) as [[b w3] i] eqn:Ev. cbn [snd] in Vi. subst i. apply validator_moves in Ev. destruct Ev as [M3 L3].
    assert (St3 := standing_moves _ _ _ _ M3 L3 St2). assert (Of3 := offered_moves _ _ _ _ _ M3 L3 Of).
    destruct b as [[|]|ex|]; try (injection H as <- <- <-; cbn; split; auto; split; [apply St3|discriminate]).
    - destruct (accept y w3) as [q w4] eqn:Ea. destruct (accept_standing _ _ _ _ _ _ St3 Of3 Ea) as [T4 S4].
      destruct q as [v|ex|]; injection H as <- <- <-; cbn; split; auto; split; auto; discriminate.
    - eapply IH in H; eauto.
  Qed.
  Lemma next_standing v0 fuel ch w r ch' w' : ch_valid ch = Reusable cs -> standing v0 (ch_state ch) w ->
    next proposal accept forget fuel ch w = (r, ch', w') -> ch_valid ch' = Reusable cs /\ on_time v0 (w_log w') /\ forall x, r = Ok x -> standing v0 (ch_state ch') w'.
  Proof.
    intros Hv St H. unfold next in H. destruct (ch_counter ch) as [k|]; [|injection H as <- <- <-; split; auto; split; [apply St|discriminate]].
    destruct (k =? 0)%Z; [|eapply advance_standing; eauto]. injection H as <- <- <-. cbn. split; auto. split; [apply St|auto].
  Qed.
  Variable user : nat -> world -> world.
  Hypothesis user_ok : forall x w, moves (w_cells w) (w_cells (user x w)) /\ w_log (user x w) = w_log w.
  Lemma drive_standing v0 process n fuel : forall ch p w ys en p' ch' w', ch_valid ch = Reusable cs -> standing v0 (ch_state ch) w ->
    drive proposal accept forget score n fuel user process ch p w = (ys, en, p', ch', w') -> on_time v0 (w_log w').
  Proof.
    induction n as [|n IH]; intros ch p w ys en p' ch' w' Hv St H; cbn [drive] in H; [injection H as _ _ _ _ <-; apply St|].
    destruct (next proposal accept forget fuel ch w) as [[r ch1] w1] eqn:En. destruct (next_standing _ _ _ _ _ _ _ Hv St En) as (Hv1 & T1 & S1).
    destruct r as [x|ex|].
    - specialize (S1 x eq_refl). destruct (user_ok x w1) as [Mu Lu]. destruct (score_ok x (user x w1)) as [Ms Ls].
      destruct (score x (user x w1)) as [r2 w2]. cbn [snd] in *. assert (St2 : standing v0 (ch_state ch1) w2).
      { apply (standing_moves v0 (ch_state ch1) w1); [eapply careful_trans; eauto|congruence|exact S1]. }
      destruct r2 as [s|ex|]; try (injection H as _ _ _ _ <-; apply St2).
      destruct (process p x s) as [p1 [|]]; [injection H as _ _ _ _ <-; apply St2|].
      destruct (drive proposal accept forget score n fuel user process ch1 p1 w2) as [[[[ys2 en2] p2] ch2] w3] eqn:Ed. injection H as _ _ _ _ <-. eapply IH; eauto.
    - destruct ex; injection H as _ _ _ _ <-; auto.
    - injection H as _ _ _ _ <-; auto.
  Qed.
  (** Simulated annealing from a plan whose clock shows [v0] (a plan without
      parent and without a cached value shows 0). *)
  Theorem C68_clock v0 n fuel args num_steps initial w ys en op w' : make_validator args = Reusable cs ->
    settled (w_cells w) initial v0 -> w_log w = [] ->
    single_run proposal accept forget named score maximize n fuel user args num_steps initial w = (ys, en, op, w') ->
    on_time v0 (w_log w').
  Proof.
    intros Ha Se Lg H. assert (T0 : on_time v0 []) by (intros [|? ?] ? ? ? E; discriminate).
    assert (St : standing v0 initial w). { split; rewrite Lg; [|exact T0]. unfold accepted. cbn. now rewrite Z.add_0_r. }
    unfold single_run in H. destruct (construct named args initial (Z.of_nat num_steps) w) as [q w0] eqn:Ec.
    assert (M0 : moves (w_cells w) (w_cells w0) /\ w_log w0 = w_log w /\ forall ch, q = Ok ch -> ch_valid ch = Reusable cs /\ ch_initial ch = initial).
    { unfold construct, check_initial in Ec. rewrite Ha in Ec. assert (Vi := validator_reusable cs initial w).
      destruct (validator (Reusable cs) initial w) as [[b w1] i] eqn:Ev. cbn [snd] in Vi. subst i. apply validator_moves in Ev. destruct Ev as [M L].
      destruct b as [[|]|ex|]; try (injection Ec as <- <-; split; auto; split; auto; intros ch [= <-]; cbn; auto; fail).
      destruct (failed_constraints (elements (Reusable cs)) initial w1) as [q2 w2] eqn:Ef. apply failed_moves in Ef; [|apply incl_refl]. destruct Ef as [M2 L2].
      destruct q2; injection Ec as <- <-; (split; [eapply careful_trans; eauto|split; [congruence|discriminate]]). }
    destruct M0 as (M0 & L0 & Q0). assert (St0 := standing_moves _ _ _ _ M0 L0 St).
    destruct q as [ch|ex|]; try (injection H as _ _ _ <-; apply St0). destruct (Q0 ch eq_refl) as [Hv Hi].
    unfold started in H. destruct (score_ok initial w0) as [Ms Ls]. destruct (score initial w0) as [r1 w1]. cbn [snd] in *. assert (St1 := standing_moves _ _ _ _ Ms Ls St0).
    destruct r1 as [s|ex|]; try (injection H as _ _ _ <-; apply St1).
    destruct (drive proposal accept forget score n fuel user (keep_best maximize) (iter ch) (mkProgress initial s 0 0) w1) as [[[[ys2 en2] p2] ch2] w3] eqn:Ed.
    injection H as _ _ _ <-. eapply drive_standing; [| |exact Ed]; [exact Hv|]. cbn [iter ch_state]. now rewrite Hi.
  Qed.
  End Contracts.
End Clock.

(** Three plans are handed out; both proposals are rejected, and the clock shows
    1 both times. *)
Definition sprout (x : nat) (w : world unit) : res nat * world unit :=
  (Ok (length (w_cells w)), mkWorld (w_cells w ++ [mkCell (Some x) None]) (w_log w) (w_rest w)).
Definition falling (x : nat) (w : world unit) : res R * world unit := (Ok (if Nat.eqb x 0 then 1 else 0)%R, w).
Definition one_plan : world unit := mkWorld [mkCell None None] [] tt.
Notation falls := (sa_accept falling (fun _ => Ok 1%R) 3 700 (fun u => ((1 / 2)%R, u)) true).
Lemma falls_rejects a n h l : nth_error h (S a) = Some (mkCell (Some 0) None) -> val h 0 n ->
  forall h', read_step (length h) h (S a) = Ok ((n + 1)%Z, h') -> falls (S a) (mkWorld h l tt) = (Ok (PBool false), mkWorld h' (l ++ [((n + 1)%Z, false)]) tt).
Proof.
  intros E V h' Er. unfold sa_accept. cbn [w_cells]. rewrite E. cbn [c_parent]. unfold falling. cbn [Nat.eqb w_cells]. rewrite Er. unfold anneal, math_exp. cbn [w_rest w_log].
  destruct (Rlt_dec 700 _) as [H|H]; [exfalso; lra|].
  destruct (Rlt_dec (1 / 2) _) as [K|K]; [exfalso|reflexivity].
  assert (Ex : (4 < exp 3)%R) by (assert (1 + 3 < exp 3)%R by (apply exp_ineq1; lra); lra).
  replace (- (1) * 3 * (-1 * (0 - 1)))%R with (-3)%R in K by lra.
  assert (P : (exp (-3) * exp 3 = 1)%R). { rewrite <- exp_plus. replace (-3 + 3)%R with 0%R by lra. apply exp_0. }
  assert (0 < exp (-3))%R by apply exp_pos. nra.
Qed.
Lemma falls_next k w n h' : (0 < k < 3)%Z -> val (w_cells w ++ [mkCell (Some 0) None]) 0 n -> (exists c, nth_error (w_cells w) 0 = Some (mkCell None c)) ->
  read_step (length (w_cells w ++ [mkCell (Some 0) None])) (w_cells w ++ [mkCell (Some 0) None]) (length (w_cells w)) = Ok ((n + 1)%Z, h') ->
  next sprout falls forget 9 (mkChain (Reusable []) 3 0 0 (Some k)) w = (Ok 0, mkChain (Reusable []) 3 0 0 (Some (k + 1)%Z), mkWorld h' (w_log w ++ [((n + 1)%Z, false)]) tt).
Proof.
  intros Hk V (c & E0) Er. unfold next. cbn [ch_counter]. destruct (Z.eqb_spec k 0); [lia|]. cbn [advance ch_total ch_state]. destruct (Z.ltb_spec k 3); [|lia].
  unfold sprout. cbn [validator validate_loop ch_valid]. destruct w as [h l []]. cbn [w_cells w_log w_rest] in *. unfold forget. cbn [w_cells w_log w_rest].
  destruct h as [|d h]; [discriminate|]. cbn in E0. injection E0 as ->. cbn [length].
  replace (cut_off ((mkCell None c :: h) ++ [mkCell (Some 0) None]) 0) with ((mkCell None c :: h) ++ [mkCell (Some 0) None]) by reflexivity.
  rewrite (falls_rejects (length h) n _ l) with (h' := h'); auto.
  cbn [app nth_error]. rewrite nth_error_app2, Nat.sub_diag by lia. reflexivity.
Qed.
Lemma falls_drive m p w x ch1 w1 : next sprout falls forget 9 ch1 w = (Ok 0, x, w1) ->
  forall ys en p2 ch2 w3, drive sprout falls forget falling m 9 (fun _ w => w) (keep_best true) x (fst (keep_best true p 0 1%R)) w1 = (ys, en, p2, ch2, w3) ->
  exists pt, y_plan pt = 0 /\ drive sprout falls forget falling (S m) 9 (fun _ w => w) (keep_best true) ch1 p w = (pt :: ys, en, p2, ch2, w3).
Proof.
  intros Hn ys en p2 ch2 w3 Hd. eexists (mkPoint 0 w1 (p_best p) (p_score p) (Some 1%R)). split; [reflexivity|]. cbn [drive]. rewrite Hn. unfold falling at 1. cbn [Nat.eqb].
  rewrite (surjective_pairing (keep_best true p 0 1%R)). rewrite Hd. reflexivity.
Qed.
Theorem C68_chain_steps_refuted : exists ys op w,
  single_run sprout falls forget (fun _ => true) falling true 9 9 (fun _ w => w) (Collection (Reusable [])) 3 0 one_plan = (ys, Finished, op, w) /\
  map y_plan ys = [0; 0; 0] /\ w_log w = [(1%Z, false); (1%Z, false)].
Proof.
  assert (V1 : val [mkCell None None; mkCell (Some 0) None] 0 0%Z) by (eapply val_root; reflexivity).
  assert (V2 : val [mkCell None (Some 0%Z); mkCell (Some 0) (Some 1%Z); mkCell (Some 0) None] 0 0%Z) by (eapply val_cached; reflexivity).
  set (ch k := mkChain (Reusable (@nil (constraint nat (world unit)))) 3 0 0 (Some k)).
  assert (N0 : next sprout falls forget 9 (ch 0%Z) one_plan = (Ok 0, ch 1%Z, one_plan)) by reflexivity.
  assert (N1 : next sprout falls forget 9 (ch 1%Z) one_plan = (Ok 0, ch 2%Z, mkWorld [mkCell None (Some 0%Z); mkCell (Some 0) (Some 1%Z)] [(1%Z, false)] tt))
    by (apply (falls_next 1 one_plan 0%Z); [lia|exact V1|eexists; reflexivity|reflexivity]).
  set (w1 := mkWorld [mkCell None (Some 0%Z); mkCell (Some 0) (Some 1%Z)] [(1%Z, false)] tt) in *.
  set (w2 := mkWorld [mkCell None (Some 0%Z); mkCell (Some 0) (Some 1%Z); mkCell (Some 0) (Some 1%Z)] [(1%Z, false); (1%Z, false)] tt).
  assert (N2 : next sprout falls forget 9 (ch 2%Z) w1 = (Ok 0, ch 3%Z, w2)) by (apply (falls_next 2 w1 0%Z); [lia|exact V2|eexists; reflexivity|reflexivity]).
  set (b p := fst (keep_best (X := nat) (V := R) true p 0 1%R)).
  set (p0 := mkProgress 0 1%R 0 0).
  assert (D3 : drive sprout falls forget falling 6 9 (fun _ w => w) (keep_best true) (ch 3%Z) (b (b (b p0))) w2 = ([], Finished, b (b (b p0)), ch 3%Z, w2)) by reflexivity.
  destruct (falls_drive _ _ _ _ _ _ N2 _ _ _ _ _ D3) as (q2 & P2 & D2). destruct (falls_drive _ _ _ _ _ _ N1 _ _ _ _ _ D2) as (q1 & P1 & D1).
  destruct (falls_drive _ _ _ _ _ _ N0 _ _ _ _ _ D1) as (q0 & P0 & D0).
  exists [q0; q1; q2], (Some (b (b (b p0)))), w2. split; [|split; [cbn; now rewrite P0, P1, P2|reflexivity]].
  unfold single_run, construct, check_initial. cbn [make_validator validator validate_loop]. unfold started, falling at 1. cbn [Nat.eqb].
  change (iter (mkChain (Reusable []) (Z.of_nat 3) 0 0 None)) with (ch 0%Z). fold p0. rewrite D0. reflexivity.
Qed.
Example C68_nonvacuous : derives sprout /\ (forall x, careful (falling x)) /\ settled (w_cells one_plan) 0 0.
Proof.
  split; [|split].
  - intros x w. cbn. split; [apply moves_new; constructor|]. split; [reflexivity|]. intros y [= <-]. right. split; [lia|].
    eexists. rewrite nth_error_app2, Nat.sub_diag by lia. split; reflexivity.
  - intros x w. cbn. split; [constructor|reflexivity].
  - split; [eapply val_root; reflexivity|]. eexists. split; [reflexivity|]. now right.
Qed.

Print Assumptions C67_jumpcycle.
Print Assumptions C67_linearcycle.
Print Assumptions C67_linear_jumpcycle.
Print Assumptions C67_logit_jumpcycle.
Print Assumptions C67_logitcycle.
Print Assumptions C67_logit_cold_refuted.
Print Assumptions C67_empty_cycle.
Print Assumptions C66_annealing.
Print Assumptions C66_annealing_improvement.
Print Assumptions C66_annealing_hot.
Print Assumptions C66_overflow_refuted.
Print Assumptions C68_clock.
Print Assumptions C68_chain_steps_refuted.
Print Assumptions C66_annealing_root.
Print Assumptions C66_annealing_raises.
