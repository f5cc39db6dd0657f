(** Averages of the laws of a finite Markov chain over its steps. *)
From Coq Require Import List Bool Arith ZArith QArith Qabs Lqa Lia ZifyBool ZifyNat.
From Verif Require Import Base M_Recursive S_Contiguity P_DetailedBalance P_Stationary L_Converge.
Import ListNotations.
Local Open Scope nat_scope.
Local Open Scope list_scope.

Section Average.
  Context {X : Type} {EX : EqB X}.
  Variable states : list X.
  Variable K : X -> X -> Q.
  Hypothesis ND : NoDup states.
  Hypothesis Kpos : forall x y, In x states -> In y states -> (0 <= K x y)%Q.
  Hypothesis Ktot : forall x, In x states -> (qsum states (K x) == 1)%Q.
  Notation after := (after states K).
  Notation norm := (norm states).

  (** The share of the first [n] plans that are [y], on average. *)
  Definition total (n : nat) (d : X -> Q) (y : X) : Q := qsum (seq 0 n) (fun i => after i d y).

  (** The chain that stays put half of the time. *)
  Definition lazy (x y : X) : Q := ((1 # 2) * (K x y + (if eqb x y then 1 else 0)))%Q.
  Lemma lazy_pos x y : In x states -> In y states -> (0 <= lazy x y)%Q.
  Proof using Kpos. intros Hx Hy. unfold lazy. specialize (Kpos x y Hx Hy). destruct (eqb x y); lra. Qed.
  Lemma lazy_stays x : In x states -> (0 < lazy x x)%Q.
  Proof using Kpos. intros Hx. unfold lazy. specialize (Kpos x x Hx Hx). rewrite eqb_refl. lra. Qed.
  Lemma lazy_act v y : In y states -> (qsum states (fun x => v x * lazy x y) == (1 # 2) * (v y + qsum states (fun x => v x * K x y)))%Q.
  Proof using ND.
    intro Hy. transitivity (qsum states (fun x => (1 # 2) * (v x * K x y + (if eqb x y then v y else 0))))%Q.
    - apply qsum_ext. intros x Hx. unfold lazy. destruct (eqb_spec x y) as [E|E]; [rewrite E; ring|ring].
    - rewrite qsum_scale, qsum_plus, qsum_indicator by auto. ring.
  Qed.
  Lemma lazy_tot x : In x states -> (qsum states (lazy x) == 1)%Q.
  Proof using ND Ktot.
    intro Hx. unfold lazy. rewrite qsum_scale, qsum_plus, (Ktot x Hx).
    rewrite (qsum_ext states (fun y => if eqb x y then 1 else 0)%Q (fun y => if eqb y x then 1 else 0)%Q); [rewrite qsum_indicator by auto; reflexivity|].
    intros y _. destruct (eqb_spec x y) as [E|E], (eqb_spec y x) as [F|F]; try reflexivity; congruence.
  Qed.
  Lemma after_scale n c d y : (after n (fun x => c * d x) y == c * after n d y)%Q.
  Proof using.
    revert y. induction n as [|n IH]; intro y; cbn [P_Stationary.after]; [reflexivity|]. rewrite <- qsum_scale. apply qsum_ext. intros x _. rewrite (IH x). ring.
  Qed.
  Lemma norm_ext v w : (forall x, In x states -> (v x == w x)%Q) -> (norm v == norm w)%Q.
  Proof. intro H. unfold L_Converge.norm. apply qsum_ext. intros x Hx. now rewrite (H x Hx). Qed.
  Lemma norm_plus v w : (norm (fun x => v x + w x) <= norm v + norm w)%Q.
  Proof. unfold L_Converge.norm. rewrite <- qsum_plus. apply qsum_le. intros x _. apply Qabs_triangle. Qed.
  Lemma norm_minus v w : (norm (fun x => v x - w x) <= norm v + norm w)%Q.
  Proof. unfold L_Converge.norm. rewrite <- qsum_plus. apply qsum_le. intros x _. eapply Qle_trans; [apply Qabs_triangle|]. rewrite Qabs_opp. apply Qle_refl. Qed.
  Lemma norm_scale c v : (0 <= c)%Q -> (norm (fun x => c * v x) == c * norm v)%Q.
  Proof. intro H. unfold L_Converge.norm. rewrite <- qsum_scale. apply qsum_ext. intros x _. rewrite Qabs_Qmult, (Qabs_pos c H). reflexivity. Qed.
  Lemma total_step n v y : (total (S n) v y == total n v y + after n v y)%Q.
  Proof.
    unfold total. rewrite seq_S. assert (A : forall (l m : list nat) f, (qsum (l ++ m) f == qsum l f + qsum m f)%Q).
    { clear. intros l m f. induction l as [|a l IH]; [cbn [app]; unfold qsum at 2; cbn; ring|]. cbn [app]. rewrite !qsum_cons, IH. ring. }
    rewrite A. cbn [qsum fold_right Nat.add]. ring.
  Qed.
  Lemma total_norm n v : (norm (total n v) <= Qn n * norm v)%Q.
  Proof using EX Kpos Ktot ND.
    induction n as [|n IH].
    - change (Qn 0) with 0%Q. rewrite (norm_ext _ (fun _ => 0 * 0)%Q); [|intros; reflexivity]. rewrite norm_scale by lra. lra.
    - rewrite (norm_ext _ (fun y => total n v y + after n v y)%Q) by (intros; apply total_step). eapply Qle_trans; [apply norm_plus|].
      pose proof (shrink states K ND Kpos Ktot n v) as Sh. assert (E : (Qn (S n) == Qn n + 1)%Q) by (unfold Qn; rewrite Nat2Z.inj_succ, <- Z.add_1_r, inject_Z_plus; reflexivity).
      rewrite E. lra.
  Qed.
  Lemma total_minus n v w y : (total n (fun x => v x - w x) y == total n v y - total n w y)%Q.
  Proof.
    unfold total. rewrite <- qsum_minus. apply qsum_ext. intros i _. apply after_minus.
  Qed.
  Lemma total_telescope n v y : In y states -> (total n (fun x => v x - after 1 v x) y == v y - after n v y)%Q.
  Proof using.
    intro Hy. induction n as [|n IH].
    - unfold total. cbn. ring.
    - rewrite total_step, IH, after_minus. assert (E : after n (after 1 v) y = after (S n) v y) by (now rewrite <- after_add, Nat.add_1_r). rewrite E. ring.
  Qed.
  (** The averages differ little from those of the lazy chain's law. *)
  Lemma total_lazy J : forall n v, (norm (total n v) <= Qn J * norm v + Qn n * norm (P_Stationary.after states lazy J v))%Q.
  Proof using EX Kpos Ktot ND.
    induction J as [|J IH]; intros n v.
    - change (Qn 0) with 0%Q. cbn [P_Stationary.after]. pose proof (total_norm n v). lra.
    - set (w := fun y => qsum states (fun x => v x * lazy x y)%Q).
      assert (W : forall y, In y states -> (v y - w y == (1 # 2) * (v y - after 1 v y))%Q) by (intros y Hy; unfold w; rewrite (lazy_act v y Hy); cbn [P_Stationary.after]; ring).
      assert (T1 : (norm (total n (fun x => v x - w x)) <= norm v)%Q).
      { rewrite (norm_ext _ (fun y => (1 # 2) * (v y - after n v y))%Q).
        - rewrite norm_scale by discriminate. pose proof (norm_minus v (after n v)). pose proof (shrink states K ND Kpos Ktot n v). lra.
        - intros y Hy. rewrite <- (total_telescope n v y Hy). unfold total. rewrite <- qsum_scale. apply qsum_ext. intros i _. rewrite <- after_scale. now apply after_ext. }
      assert (T2 := IH n w). assert (Nw : (norm w <= norm v)%Q) by exact (shrink states lazy ND lazy_pos lazy_tot 1 v).
      assert (A : P_Stationary.after states lazy J w = P_Stationary.after states lazy (S J) v) by (change w with (P_Stationary.after states lazy 1 v); rewrite <- after_add, Nat.add_1_r; reflexivity). rewrite A in T2.
      assert (T3 : (norm (total n v) <= norm (total n (fun x => v x - w x)) + norm (total n w))%Q).
      { eapply Qle_trans; [|apply norm_plus]. rewrite (norm_ext (total n v) (fun y => total n (fun x => v x - w x) y + total n w y)%Q); [apply Qle_refl|]. intros y _. rewrite total_minus. ring. }
      assert (E : (Qn (S J) == Qn J + 1)%Q) by (unfold Qn; rewrite Nat2Z.inj_succ, <- Z.add_1_r, inject_Z_plus; reflexivity).
      assert (Nj : (0 <= Qn J)%Q) by (unfold Qn, Qle; cbn; lia). assert (Qn J * norm w <= Qn J * norm v)%Q by (rewrite !(Qmult_comm (Qn J)); now apply Qmult_le_compat_r).
      rewrite E. set (z := (Qn n * norm (P_Stationary.after states lazy (S J) v))%Q) in *. lra.
  Qed.

  (** If every state leads to every other, the averages approach the invariant
      law from every start. *)
  Theorem averages target : (forall x y, In x states -> In y states -> reach (leads states K) x y) ->
    (forall y, In y states -> (0 <= target y)%Q) -> (qsum states target == 1)%Q ->
    (forall y, In y states -> (qsum states (fun x => target x * K x y) == target y)%Q) ->
    forall eps, (0 < eps)%Q -> exists n0, forall n, n0 <= n -> forall d, (forall x, In x states -> (0 <= d x)%Q) -> (qsum states d == 1)%Q ->
      forall y, In y states -> (Qabs (total n d y / Qn n - target y) <= eps)%Q.
  Proof using EX Kpos Ktot ND.
    intros Irr Tp Tm Inv eps He. assert (Ex : exists s, In s states) by (destruct states as [|s l]; [discriminate Tm|exists s; now left]). destruct Ex as (s & Hs).
    assert (Irr' : forall x y, In x states -> In y states -> reach (leads states lazy) x y).
    { intros x y Hx Hy. refine (reach_mono _ _ _ _ _ (Irr x y Hx Hy)). intros a b (Ha & Hb & Hk). split; [exact Ha|]. split; [exact Hb|]. unfold lazy. destruct (eqb a b); lra. }
    assert (Inv' : forall y, In y states -> (qsum states (fun x => target x * lazy x y) == target y)%Q) by (intros y Hy; rewrite (lazy_act target y Hy), (Inv y Hy); ring).
    destruct (converge states lazy ND lazy_pos lazy_tot target s Hs (lazy_stays s Hs) Irr' Tp Tm Inv') as (m & delta & Hd & Conv).
    destruct (pow_to_zero delta (eps / 4) Hd) as (j & Hj); [apply Qlt_shift_div_l; lra|]. set (J := j * m) in *.
    (* n >= 4 J / eps *)
    destruct (archimedean_Q 1 (eps / 4)) as (n1 & Hn1); [reflexivity|apply Qlt_shift_div_l; lra|].
    exists (S (J * n1)). intros n Hn d Dp Dm y Hy. set (v := fun x => (d x - target x)%Q).
    assert (Stay : forall i z, In z states -> (after i target z == target z)%Q).
    { induction i as [|i IH]; intros z Hz; cbn [P_Stationary.after]; [reflexivity|]. transitivity (qsum states (fun x => target x * K x z))%Q; [|now apply Inv]. apply qsum_ext. intros x Hx. now rewrite (IH x Hx). }
    assert (Stay' : forall i z, In z states -> (P_Stationary.after states lazy i target z == target z)%Q).
    { induction i as [|i IH]; intros z Hz; cbn [P_Stationary.after]; [reflexivity|]. transitivity (qsum states (fun x => target x * lazy x z))%Q; [|now apply Inv']. apply qsum_ext. intros x Hx. now rewrite (IH x Hx). }
    assert (Tt : forall i z, In z states -> (total i target z == Qn i * target z)%Q).
    { induction i as [|i IH]; intros z Hz; [unfold total, Qn; cbn; ring|]. rewrite total_step, (IH z Hz), (Stay i z Hz). unfold Qn. rewrite Nat2Z.inj_succ, <- Z.add_1_r, inject_Z_plus. ring. }
    assert (Nv : (norm v <= 2)%Q).
    { unfold v. eapply Qle_trans; [apply norm_minus|]. unfold L_Converge.norm. rewrite (qsum_ext states _ d (fun x Hx => Qabs_pos _ (Dp x Hx))), (qsum_ext states _ target (fun x Hx => Qabs_pos _ (Tp x Hx))), Dm, Tm. discriminate. }
    assert (Nl : (norm (P_Stationary.after states lazy J v) <= eps / 2)%Q).
    { rewrite (norm_ext _ (fun z => P_Stationary.after states lazy (0 + j * m) d z - target z)%Q).
      - eapply Qle_trans; [apply (Conv d j 0 Dp Dm)|]. setoid_replace (eps / 2)%Q with (2 * (eps / 4))%Q by field. apply Qmult_le_l; [reflexivity|now apply Qlt_le_weak].
      - intros z Hz. unfold v. rewrite after_minus, (Stay' J z Hz). reflexivity. }
    pose proof (total_lazy J n v) as Bd. assert (Nj : (0 <= Qn J)%Q) by (unfold Qn, Qle; cbn; lia). assert (Nn : (0 < Qn n)%Q) by (unfold Qn, Qlt; cbn; lia).
    assert (Qmul : forall a b c : Q, (0 <= a -> b <= c -> a * b <= a * c)%Q) by (intros a b c Ha Hb; rewrite !(Qmult_comm a); now apply Qmult_le_compat_r).
    assert (B1 := Qmul _ _ _ Nj Nv). assert (B2 := Qmul _ _ _ (Qlt_le_weak _ _ Nn) Nl).
    assert (B3 : (Qn J <= Qn n * (eps / 4))%Q).
    { assert (E4 : (0 < eps / 4)%Q) by (apply Qlt_shift_div_l; lra). apply Qle_trans with (Qn (J * n1) * (eps / 4))%Q.
      - assert (Em : (Qn (J * n1) == Qn J * Qn n1)%Q) by (unfold Qn; rewrite Nat2Z.inj_mul, inject_Z_mult; reflexivity). rewrite Em, <- Qmult_assoc. rewrite <- (Qmult_1_r (Qn J)) at 1. apply Qmul; [exact Nj|]. rewrite Qmult_1_l in Hn1. now apply Qlt_le_weak.
      - apply Qmult_le_compat_r; [|now apply Qlt_le_weak]. unfold Qn, Qle. cbn. lia. }
    assert (Bn : (norm (total n v) <= Qn n * eps)%Q).
    { assert (E1 : (Qn n * (eps / 4) == (1 # 4) * (Qn n * eps))%Q) by field. assert (E2 : (Qn n * (eps / 2) == (1 # 2) * (Qn n * eps))%Q) by field. rewrite E1 in B3. rewrite E2 in B2. set (z := (Qn n * eps)%Q) in *. lra. }
    assert (By : (Qabs (total n v y) <= Qn n * eps)%Q) by (eapply Qle_trans; [apply (qsum_term states (fun z => Qabs (total n v z)) y); [intros; apply Qabs_nonneg|exact Hy]|exact Bn]).
    assert (Ev : (total n d y / Qn n - target y == total n v y * / Qn n)%Q) by (unfold v; rewrite total_minus, (Tt n y Hy); field; lra).
    rewrite Ev, Qabs_Qmult, (Qabs_pos (/ Qn n)) by (apply Qlt_le_weak, Qinv_lt_0_compat, Nn). apply Qle_shift_div_r; [exact Nn|]. rewrite Qmult_comm. exact By.
  Qed.
End Average.
