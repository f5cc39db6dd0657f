(** C125: the histogram of a single long run. *)
From Coq Require Import List Bool Arith ZArith QArith Qabs Lqa Lia ZifyBool ZifyNat.
From Verif Require Import Base M_Constraints M_Chain L_Locality M_Recursive S_Contiguity P_Uniform P_ChainLaw.
From Verif Require Import P_DetailedBalance P_Stationary L_Converge L_Average P_LongRun.
Import ListNotations.
Local Open Scope nat_scope.
Local Open Scope list_scope.

(** ** Expectations over the paths of a kernel *)
Section Paths.
  Context {X : Type} {EX : EqB X}.
  Variable states : list X.
  Variable K : X -> X -> Q.
  Hypothesis ND : NoDup states.
  Hypothesis Kpos : forall x y, In x states -> In y states -> (0 <= K x y)%Q.
  Hypothesis Ktot : forall x, In x states -> (qsum states (K x) == 1)%Q.
  (** The mean of [F] over the first [k + 1] states from [x]. *)
  Fixpoint mean (k : nat) (x : X) (F : list X -> Q) : Q :=
    match k with 0 => F [x] | S k => qsum states (fun z => K x z * mean k z (fun l => F (x :: l)))%Q end.
  Lemma mean_ext k : forall x F F', (forall l, List.length l = S k -> F l == F' l)%Q -> (mean k x F == mean k x F')%Q.
  Proof.
    induction k as [|k IH]; intros x F F' H; cbn [mean]; [now apply H|]. apply qsum_ext. intros z _. rewrite (IH z (fun l => F (x :: l)) (fun l => F' (x :: l))); [reflexivity|]. intros l Hl. apply H. cbn. lia.
  Qed.
  Lemma mean_le k : forall x F F', In x states -> (forall l, List.length l = S k -> F l <= F' l)%Q -> (mean k x F <= mean k x F')%Q.
  Proof.
    induction k as [|k IH]; intros x F F' Hx H; cbn [mean]; [now apply H|]. apply qsum_le. intros z Hz. rewrite !(Qmult_comm (K x z)). apply Qmult_le_compat_r; [|now apply Kpos]. apply IH; [exact Hz|]. intros l Hl. apply H. cbn. lia.
  Qed.
  Lemma mean_plus k : forall x F F', (mean k x (fun l => F l + F' l) == mean k x F + mean k x F')%Q.
  Proof.
    induction k as [|k IH]; intros x F F'; cbn [mean]; [reflexivity|]. rewrite <- qsum_plus. apply qsum_ext. intros z _. rewrite (IH z (fun l => F (x :: l)) (fun l => F' (x :: l))). ring.
  Qed.
  Lemma mean_scale k c : forall x F, (mean k x (fun l => c * F l) == c * mean k x F)%Q.
  Proof.
    induction k as [|k IH]; intros x F; cbn [mean]; [reflexivity|]. rewrite <- qsum_scale. apply qsum_ext. intros z _. rewrite (IH z (fun l => F (x :: l))). ring.
  Qed.
  Lemma mean_const k c : forall x, In x states -> (mean k x (fun _ => c) == c)%Q.
  Proof.
    induction k as [|k IH]; intros x Hx; cbn [mean]; [reflexivity|]. rewrite (qsum_ext states _ (fun z => c * K x z)%Q) by (intros z Hz; rewrite (IH z Hz); ring). rewrite qsum_scale, (Ktot x Hx). ring.
  Qed.
  (** Sums of a function along the path. *)
  Variable f : X -> Q.
  Hypothesis fbound : forall x, In x states -> (Qabs (f x) <= 1)%Q.
  Definition m1 (k : nat) (x : X) : Q := mean k x (fun l => qsum l f).
  Definition m2 (k : nat) (x : X) : Q := mean k x (fun l => qsum l f * qsum l f)%Q.
  Lemma m1_S k x : In x states -> (m1 (S k) x == f x + qsum states (fun z => K x z * m1 k z))%Q.
  Proof.
    intro Hx. unfold m1. cbn [mean]. rewrite (qsum_ext states _ (fun z => f x * K x z + K x z * mean k z (fun l => qsum l f)))%Q.
    - rewrite qsum_plus, qsum_scale, (Ktot x Hx). ring.
    - intros z Hz. cbn beta. assert (E : (mean k z (fun l => qsum (x :: l) f) == mean k z (fun l => f x + qsum l f))%Q) by (apply mean_ext; intros l _; rewrite qsum_cons; reflexivity). rewrite E. rewrite mean_plus, (mean_const k (f x) z Hz). ring.
  Qed.
  Lemma m2_S k x : In x states -> (m2 (S k) x == f x * f x + 2 * f x * qsum states (fun z => K x z * m1 k z) + qsum states (fun z => K x z * m2 k z))%Q.
  Proof.
    intro Hx. unfold m1, m2. cbn [mean].
    rewrite (qsum_ext states _ (fun z => f x * f x * K x z + (2 * f x * (K x z * mean k z (fun l => qsum l f)) + K x z * mean k z (fun l => qsum l f * qsum l f))))%Q.
    - rewrite !qsum_plus, !qsum_scale, (Ktot x Hx). ring.
    - intros z Hz. cbn beta. assert (E : (mean k z (fun l => qsum (x :: l) f * qsum (x :: l) f) == mean k z (fun l => f x * f x + (2 * f x * qsum l f + qsum l f * qsum l f)))%Q) by (apply mean_ext; intros l _; rewrite qsum_cons; ring). rewrite E. rewrite !mean_plus, (mean_scale k (2 * f x) z (fun l => qsum l f)), (mean_const k (f x * f x) z Hz). ring.
  Qed.
  (** If the first moments are small, so are the second ones. *)
  Lemma Qeq_le_Q a b : (a == b)%Q -> (a <= b)%Q.
  Proof. intro H. rewrite H. apply Qle_refl. Qed.
  Lemma avg_le g c x : In x states -> (forall z, In z states -> (g z <= c)%Q) -> (qsum states (fun z => K x z * g z) <= c)%Q.
  Proof.
    intros Hx H. apply Qle_trans with (qsum states (fun z => c * K x z))%Q; [|rewrite qsum_scale, (Ktot x Hx); lra]. apply qsum_le. intros z Hz. rewrite (Qmult_comm c), !(Qmult_comm (K x z)). apply Qmult_le_compat_r; [now apply H|now apply Kpos].
  Qed.
  Lemma avg_abs g c x : In x states -> (forall z, In z states -> (Qabs (g z) <= c)%Q) -> (Qabs (qsum states (fun z => K x z * g z)) <= c)%Q.
  Proof.
    intros Hx H. apply Qabs_Qle_condition. split.
    - assert (A := avg_le (fun z => - g z)%Q c x Hx). rewrite (qsum_ext states _ (fun z => (-1) * (K x z * g z))%Q) in A by (intros; ring). rewrite qsum_scale in A.
      assert (B : (-1 * qsum states (fun z => K x z * g z) <= c)%Q); [|lra]. apply A. intros z Hz. specialize (H z Hz). apply Qabs_Qle_condition in H. lra.
    - apply avg_le; [exact Hx|]. intros z Hz. eapply Qle_trans; [apply Qle_Qabs|now apply H].
  Qed.
  Lemma fsq x : In x states -> (f x * f x <= 1)%Q.
  Proof. intro Hx. specialize (fbound x Hx). apply Qabs_Qle_condition in fbound. assert (0 <= (1 - f x) * (1 + f x))%Q by (apply Qmult_le_0_compat; lra). lra. Qed.
  Lemma m2_step k c C x : In x states -> (forall z, In z states -> (Qabs (m1 k z) <= c)%Q) -> (forall z, In z states -> (m2 k z <= C)%Q) -> (m2 (S k) x <= 1 + 2 * c + C)%Q.
  Proof.
    intros Hx H1 H2. rewrite (m2_S k x Hx). assert (A1 := fsq x Hx). assert (A3 := avg_le _ C x Hx H2). assert (A2 := avg_abs _ c x Hx H1). set (s := qsum states (fun z => K x z * m1 k z)%Q) in *.
    assert (A4 : (f x * s <= c)%Q). { eapply Qle_trans; [apply Qle_Qabs|]. rewrite Qabs_Qmult. pose proof (Qabs_nonneg s). pose proof (fbound x Hx). assert (Qabs (f x) * Qabs s <= 1 * Qabs s)%Q by (apply Qmult_le_compat_r; assumption). lra. }
    lra.
  Qed.
  Lemma small_squares : (forall eps, (0 < eps)%Q -> exists k0, forall k, k0 <= k -> forall x, In x states -> (Qabs (m1 k x) <= eps * Qn (S k))%Q) ->
    forall eps, (0 < eps)%Q -> exists k0, forall k, k0 <= k -> forall x, In x states -> (m2 k x <= eps * (Qn (S k) * Qn (S k)))%Q.
  Proof.
    intros H eps He. destruct (H (eps / 4)%Q) as (k0 & Hk); [apply Qlt_shift_div_l; lra|].
    (* a bound at k0 *)
    assert (Bd : exists C, (0 <= C)%Q /\ forall x, In x states -> (m2 k0 x <= C)%Q).
    { assert (G : forall l, exists C, (0 <= C)%Q /\ forall x, In x l -> (m2 k0 x <= C)%Q); [|apply (G states)].
      induction l as [|a l (C & C0 & HC)]; [exists 0%Q; split; [lra|intros x []]|]. exists (C + Qabs (m2 k0 a))%Q. pose proof (Qabs_nonneg (m2 k0 a)). pose proof (Qle_Qabs (m2 k0 a)). split; [lra|]. intros x [<-|Hx]; [lra|]. specialize (HC x Hx). lra. }
    destruct Bd as (C & C0 & HC).
    assert (B : forall i x, In x states -> (m2 (i + k0) x <= C + Qn i + (eps / 4) * (Qn (i + k0) * Qn (i + k0) + Qn (i + k0)))%Q).
    { induction i as [|i IH]; intros x Hx.
      - cbn [Nat.add]. specialize (HC x Hx). change (Qn 0) with 0%Q. assert (0 <= (eps / 4) * (Qn k0 * Qn k0 + Qn k0))%Q; [|lra]. apply Qmult_le_0_compat; [apply Qle_shift_div_l; lra|]. pose proof (nonneg_Qn k0). assert (0 <= Qn k0 * Qn k0)%Q by (apply Qmult_le_0_compat; assumption). lra.
      - cbn [Nat.add]. eapply Qle_trans; [apply (m2_step (i + k0) _ _ x Hx (fun z Hz => Hk (i + k0) ltac:(lia) z Hz) IH)|]. rewrite !Qn_S. set (q := Qn (i + k0)). set (e4 := (eps / 4)%Q).
        apply Qeq_le_Q. ring. }
    (* large k *)
    destruct (archimedean_Q 1 (eps / (4 * (C + 2))) ltac:(lra)) as (n1 & Hn1); [apply Qlt_shift_div_l; lra|].
    exists (k0 + n1). intros k Hle x Hx. specialize (B (k - k0) x Hx). replace (k - k0 + k0) with k in B by lia.
    assert (L1 : (Qn (k - k0) <= Qn (S k))%Q) by (unfold Qn; rewrite <- Zle_Qle; lia). assert (L2 : (Qn n1 <= Qn (S k))%Q) by (unfold Qn; rewrite <- Zle_Qle; lia). assert (L3 : (1 <= Qn (S k))%Q) by (rewrite Qn_S; pose proof (nonneg_Qn k); lra).
    assert (L4 : (Qn k * Qn k + Qn k <= Qn (S k) * Qn (S k))%Q) by (rewrite Qn_S; pose proof (nonneg_Qn k); lra). set (n := Qn (S k)) in *. set (e4 := (eps / 4)%Q) in *. assert (E4 : (eps == 4 * e4)%Q) by (unfold e4; field).
    assert (P4 : (0 < e4)%Q) by lra.
    assert (L5 : (C + 2 <= e4 * n)%Q).
    { assert (R : (eps / (4 * (C + 2)) == e4 / (C + 2))%Q) by (unfold e4; field; lra). rewrite R in Hn1. apply Qle_trans with (e4 * Qn n1)%Q; [|rewrite !(Qmult_comm e4); apply Qmult_le_compat_r; lra].
      assert (Y : ((C + 2) * 1 < (C + 2) * (Qn n1 * (1 * (e4 / (C + 2)))))%Q) by (apply Qmult_lt_l; [lra|exact Hn1]). setoid_replace ((C + 2) * (Qn n1 * (1 * (e4 / (C + 2)))))%Q with (e4 * Qn n1)%Q in Y by (field; lra). lra. }
    assert (L6 : ((C + 2) * n <= e4 * n * n)%Q) by (apply Qmult_le_compat_r; [exact L5|lra]).
    assert (L7 : (C <= C * n)%Q) by (setoid_replace C with (C * 1)%Q at 1 by ring; rewrite !(Qmult_comm C); apply Qmult_le_compat_r; assumption).
    assert (L8 : (e4 * (Qn k * Qn k + Qn k) <= e4 * (n * n))%Q) by (rewrite !(Qmult_comm e4); apply Qmult_le_compat_r; lra).
    assert (L9 : (0 <= e4 * (n * n))%Q) by (apply Qmult_le_0_compat; [lra|apply Qmult_le_0_compat; lra]).
    rewrite E4. lra.
  Qed.
  (** The first moment in terms of the laws of the single states. *)
  Lemma qsum_map {A B} (h : A -> B) (l : list A) (u : B -> Q) : qsum (map h l) u = qsum l (fun a => u (h a)).
  Proof. induction l as [|a l IH]; [reflexivity|]. cbn [map]. now rewrite !qsum_cons, IH. Qed.
  Lemma total_back k x y : In x states -> In y states -> (total states K (S k) (point x) y == point x y + qsum states (fun z => K x z * total states K k (point z) y))%Q.
  Proof.
    intros Hx Hy. unfold total. change (seq 0 (S k)) with (0 :: seq 1 k). rewrite qsum_cons. cbn [P_Stationary.after]. apply Qplus_comp; [reflexivity|]. rewrite <- seq_shift, qsum_map.
    rewrite (qsum_ext (seq 0 k) _ (fun i => qsum states (fun z => K x z * after states K i (point z) y)%Q)).
    - rewrite qsum_swap. apply qsum_ext. intros z _. now rewrite qsum_scale.
    - intros i _. change (after states K (S i) (point x) y == qsum states (fun z => K x z * after states K i (point z) y))%Q.
      rewrite <- Nat.add_1_r, after_add, (after_expand states K ND i _ y Hy). apply qsum_ext. intros z Hz.
      assert (E : (after states K 1 (point x) z == K x z)%Q); [|now rewrite E]. cbn [P_Stationary.after].
      transitivity (qsum states (fun w => if eqb w x then K x z else 0)%Q); [|now apply qsum_indicator].
      apply qsum_ext. intros w _. unfold point. destruct (eqb_spec w x) as [->|]; ring.
  Qed.
  Lemma m1_total k : forall x, In x states -> (m1 k x == qsum states (fun y => total states K (S k) (point x) y * f y))%Q.
  Proof.
    assert (Pt : forall x, In x states -> (qsum states (fun y => point x y * f y) == f x)%Q).
    { intros x Hx. transitivity (qsum states (fun w => if eqb w x then f x else 0)%Q); [|now apply qsum_indicator]. apply qsum_ext. intros w _. unfold point. destruct (eqb_spec w x) as [->|]; ring. }
    induction k as [|k IH]; intros x Hx.
    - unfold m1. cbn [mean]. rewrite qsum_cons. cbn [qsum fold_right]. rewrite <- (Pt x Hx). rewrite Qplus_0_r. apply qsum_ext. intros y _. unfold total. cbn. ring.
    - rewrite (m1_S k x Hx). rewrite (qsum_ext states (fun y => total states K (S (S k)) (point x) y * f y)%Q (fun y => point x y * f y + qsum states (fun z => K x z * (total states K (S k) (point z) y * f y)))%Q).
      + rewrite qsum_plus, (Pt x Hx). apply Qplus_comp; [reflexivity|]. rewrite qsum_swap. apply qsum_ext. intros z Hz. rewrite qsum_scale, (IH z Hz). reflexivity.
      + intros y Hy. rewrite (total_back (S k) x y Hx Hy), Qmult_plus_distr_l. apply Qplus_comp; [reflexivity|]. rewrite Qmult_comm, <- qsum_scale. apply qsum_ext. intros z _. ring.
  Qed.
  Lemma m1_small target : (forall x y, In x states -> In y states -> reach (leads states K) x y) ->
    (forall y, In y states -> (0 <= target y)%Q) -> (qsum states target == 1)%Q ->
    (forall y, In y states -> (qsum states (fun x => target x * K x y) == target y)%Q) -> (qsum states (fun y => target y * f y) == 0)%Q ->
    forall eps, (0 < eps)%Q -> exists k0, forall k, k0 <= k -> forall x, In x states -> (Qabs (m1 k x) <= eps * Qn (S k))%Q.
  Proof.
    intros Irr Tp Tm Inv Zero eps He. set (L := Qn (List.length states)). assert (L0 : (0 <= L)%Q) by apply nonneg_Qn.
    destruct (averages states K ND Kpos Ktot target Irr Tp Tm Inv (eps / (L + 1))) as (n0 & Hn); [apply Qlt_shift_div_l; lra|].
    exists n0. intros k Hle x Hx. specialize (Hn (S k) ltac:(lia) (point x) (fun z _ => point_pos x z) (point_mass states ND x Hx)). assert (N0 : (0 < Qn (S k))%Q) by (apply pos_Qn; lia).
    set (e := (eps / (L + 1))%Q) in *. assert (Ee : (eps == e * (L + 1))%Q) by (unfold e; field; lra). assert (E0 : (0 < e)%Q) by (unfold e; apply Qlt_shift_div_l; lra).
    rewrite (m1_total k x Hx).
    assert (R : (qsum states (fun y => total states K (S k) (point x) y * f y) == qsum states (fun y => (total states K (S k) (point x) y - Qn (S k) * target y) * f y))%Q).
    { rewrite (qsum_ext states (fun y => (total states K (S k) (point x) y - Qn (S k) * target y) * f y)%Q (fun y => total states K (S k) (point x) y * f y - Qn (S k) * (target y * f y))%Q) by (intros; ring). rewrite qsum_minus, qsum_scale, Zero. ring. }
    rewrite R. eapply Qle_trans; [apply qsum_abs|]. apply Qle_trans with (qsum states (fun _ => e * Qn (S k)))%Q.
    - apply qsum_le. intros y Hy. rewrite Qabs_Qmult. specialize (Hn y Hy). pose proof (fbound y Hy) as Fb.
      assert (B : (Qabs (total states K (S k) (point x) y - Qn (S k) * target y) <= e * Qn (S k))%Q).
      { setoid_replace (total states K (S k) (point x) y - Qn (S k) * target y)%Q with ((total states K (S k) (point x) y / Qn (S k) - target y) * Qn (S k))%Q by (field; lra). rewrite Qabs_Qmult, (Qabs_pos (Qn (S k))) by lra. apply Qmult_le_compat_r; [exact Hn|lra]. }
      set (a := Qabs (total states K (S k) (point x) y - Qn (S k) * target y)) in *. assert (A0 : (0 <= a)%Q) by apply Qabs_nonneg.
      apply Qle_trans with (a * 1)%Q; [rewrite !(Qmult_comm a); apply Qmult_le_compat_r; assumption|lra].
    - assert (Cst : forall (l : list X) c, (qsum l (fun _ => c) == Qn (List.length l) * c)%Q).
      { intros l c. induction l as [|a l IH]; [unfold qsum; cbn [fold_right List.length]; change (Qn 0) with 0%Q; ring|]. rewrite qsum_cons, IH. cbn [List.length]. rewrite Qn_S. ring. }
      rewrite Cst. fold L. rewrite Ee. assert (P : (0 <= e * Qn (S k))%Q) by (apply Qmult_le_0_compat; lra). assert (e * (L + 1) * Qn (S k) == L * (e * Qn (S k)) + e * Qn (S k))%Q by ring. lra.
  Qed.
End Paths.

(** The averages of a statistic along single paths are close to its mean. *)
Section Concentrate.
  Context {X : Type} {EX : EqB X}.
  Variable states : list X.
  Variable K : X -> X -> Q.
  Hypothesis ND : NoDup states.
  Hypothesis Kpos : forall x y, In x states -> In y states -> (0 <= K x y)%Q.
  Hypothesis Ktot : forall x, In x states -> (qsum states (K x) == 1)%Q.
  Definition near (g : X -> Q) (mu eps : Q) (l : list X) : bool := Qle_bool (Qabs (qsum l g / Qn (List.length l) - mu)) eps.
  Theorem concentrate target (g : X -> Q) : (forall x y, In x states -> In y states -> reach (leads states K) x y) ->
    (forall y, In y states -> (0 <= target y)%Q) -> (qsum states target == 1)%Q ->
    (forall y, In y states -> (qsum states (fun x => target x * K x y) == target y)%Q) ->
    forall eps, (0 < eps)%Q -> exists k0, forall k, k0 <= k -> forall x, In x states ->
      (1 - eps <= mean states K k x (fun l => if near g (qsum states (fun y => target y * g y)) eps l then 1 else 0))%Q.
  Proof.
    intros Irr Tp Tm Inv eps He. set (mu := qsum states (fun y => target y * g y)%Q).
    set (B := (qsum states (fun y => Qabs (g y)) + Qabs mu + 1)%Q).
    assert (S0 : (0 <= qsum states (fun y => Qabs (g y)))%Q) by (apply qsum_nonneg; intros; apply Qabs_nonneg). assert (M0 := Qabs_nonneg mu). assert (B0 : (0 < B)%Q) by (unfold B; lra).
    set (f := fun y => ((g y - mu) / B)%Q).
    assert (Fb : forall x, In x states -> (Qabs (f x) <= 1)%Q).
    { intros x Hx. unfold f, Qdiv. rewrite Qabs_Qmult. assert (I0 : (0 < / B)%Q) by now apply Qinv_lt_0_compat. rewrite (Qabs_pos (/ B)) by lra. apply Qle_shift_div_r; [exact B0|]. rewrite Qmult_1_l.
      eapply Qle_trans; [apply Qabs_triangle|]. rewrite Qabs_opp. assert (T := qsum_term states (fun y => Qabs (g y)) x (fun y _ => Qabs_nonneg (g y)) Hx). cbn beta in T. unfold B. lra. }
    assert (Zero : (qsum states (fun y => target y * f y) == 0)%Q).
    { unfold f. rewrite (qsum_ext states _ (fun y => / B * (target y * g y - mu * target y))%Q) by (intros; unfold Qdiv; ring). rewrite qsum_scale, qsum_minus, qsum_scale, Tm. fold mu. ring. }
    destruct (small_squares states K Kpos Ktot f Fb (m1_small states K ND Kpos Ktot f Fb target Irr Tp Tm Inv Zero) (eps * eps * eps / (B * B))) as (k0 & Hk).
    { apply Qlt_shift_div_l; [now apply Qmult_lt_0_compat|]. rewrite Qmult_0_l. apply Qmult_lt_0_compat; [now apply Qmult_lt_0_compat|exact He]. }
    exists k0. intros k Hle x Hx. specialize (Hk k Hle x Hx). set (n := Qn (S k)) in *. assert (N0 : (0 < n)%Q) by (apply pos_Qn; lia).
    assert (Len : forall l : list X, List.length l = S k -> (qsum l f == (qsum l g - n * mu) / B)%Q).
    { intros l Hl. unfold n. rewrite <- Hl. clear - B0. unfold f. induction l as [|a l IH]; [unfold qsum; cbn [fold_right List.length]; change (Qn 0) with 0%Q; field; lra|]. rewrite !qsum_cons, IH. cbn [List.length]. rewrite Qn_S. field. lra. }
    assert (Ch : (mean states K k x (fun l => 1 + (-1) * (if near g mu eps l then 1 else 0)) <= mean states K k x (fun l => B * B / (eps * eps * (n * n)) * (qsum l f * qsum l f)))%Q).
    { apply mean_le; auto. intros l Hl. assert (P : (0 <= B * B / (eps * eps * (n * n)))%Q).
      { apply Qle_shift_div_l; [repeat apply Qmult_lt_0_compat; assumption|]. rewrite Qmult_0_l. apply Qmult_le_0_compat; lra. }
      destruct (near g mu eps l) eqn:E.
      - assert (Sq : (0 <= qsum l f * qsum l f)%Q). { destruct (Qlt_le_dec (qsum l f) 0) as [W|W]; [|now apply Qmult_le_0_compat]. setoid_replace (qsum l f * qsum l f)%Q with ((- qsum l f) * (- qsum l f))%Q by ring. apply Qmult_le_0_compat; lra. }
        assert (0 <= B * B / (eps * eps * (n * n)) * (qsum l f * qsum l f))%Q by now apply Qmult_le_0_compat. lra.
      - unfold near in E. rewrite Hl in E. fold n in E. assert (F : (eps < Qabs (qsum l g / n - mu))%Q) by (apply Qnot_le_lt; intro C; apply Qle_bool_iff in C; congruence).
        set (u := (qsum l g / n - mu)%Q) in *. assert (Eu : (qsum l f == u * n / B)%Q) by (rewrite (Len l Hl); unfold u; field; lra).
        setoid_replace (B * B / (eps * eps * (n * n)) * (qsum l f * qsum l f))%Q with (u * u / (eps * eps))%Q by (rewrite Eu; field; lra).
        apply Qle_shift_div_l; [now apply Qmult_lt_0_compat|]. assert (Uu : (u * u == Qabs u * Qabs u)%Q) by (apply Qabs_case; intros; ring). rewrite Uu. set (a := Qabs u) in *.
        assert (eps * eps <= a * a)%Q by (apply Qmult_le_compat_nonneg; split; lra). lra. }
    rewrite (mean_plus states K k x (fun _ => 1%Q) (fun l => (-1) * (if near g mu eps l then 1 else 0))%Q) in Ch.
    rewrite (mean_const states K Ktot k 1 x Hx), (mean_scale states K k (-1) x (fun l => if near g mu eps l then 1 else 0)%Q), (mean_scale states K k _ x (fun l => qsum l f * qsum l f)%Q) in Ch.
    fold (m2 states K f k x) in Ch. set (G := mean states K k x (fun l => if near g mu eps l then 1 else 0)%Q) in *.
    assert (Last : (B * B / (eps * eps * (n * n)) * m2 states K f k x <= eps)%Q); [|lra].
    apply Qle_trans with (B * B / (eps * eps * (n * n)) * (eps * eps * eps / (B * B) * (n * n)))%Q.
    - rewrite !(Qmult_comm (B * B / (eps * eps * (n * n)))). apply Qmult_le_compat_r; [exact Hk|]. apply Qle_shift_div_l; [repeat apply Qmult_lt_0_compat; assumption|]. rewrite Qmult_0_l. apply Qmult_le_0_compat; lra.
    - apply Qeq_le_Q. field. repeat split; lra.
  Qed.
End Concentrate.

Section Histogram.
  Context {X : Type} {EX : EqB X}.
  Variable propose : X -> nat -> X.
  Variable agrees : X -> X -> nat -> bool.
  Variable D : nat.
  Variable cs : list (constraint X (@P_ChainLaw.world X)).
  Variable passes : constraint X (@P_ChainLaw.world X) -> X -> bool.
  Notation draw_proposal := (P_ChainLaw.draw_proposal propose).
  Notation draw_accept := (P_ChainLaw.draw_accept agrees).
  Notation pure := (P_ChainLaw.pure cs passes).
  Notation valid := (P_ChainLaw.valid cs passes).
  Notation outcome := (P_ChainLaw.outcome propose agrees cs passes).
  Notation hits := (P_ChainLaw.hits propose agrees D cs passes).
  Notation misses := (P_ChainLaw.misses propose agrees D cs passes).
  Notation goods := (P_ChainLaw.goods propose D cs passes).
  Notation cut := (cut propose agrees cs passes).

  (** ** Specification *)

  (** With the draws [ds] a loop over the chain yields at least [k] plans, and
      the first [k] of them are as [A] says. *)
  Definition shows (A : list X -> Prop) (ch : chain X P_ChainLaw.world) (k n : nat) (ds : list nat) : Prop :=
    List.length ds = n /\ Forall (fun d => d < D) ds /\
    exists ys en ch' w', for_loop draw_proposal draw_accept (fun _ w => w) k (S n) (fun _ w => w) ch (ds, None) = (ys, en, ch', w') /\
      List.length ys = k /\ A (map fst ys).
  (** In the limit of many draws at least the share [p] of the runs of the chain is such. *)
  Definition at_least (A : list X -> Prop) (ch : chain X P_ChainLaw.world) (k : nat) (p : Q) : Prop :=
    forall eps, (0 < eps)%Q -> exists n0, forall n, n0 <= n -> exists c, numbers (shows A ch k n) c /\ (p - eps <= Qn c / Qn (D ^ n))%Q.
  (** The average of a statistic over a list of plans. *)
  Definition average (g : X -> Q) (l : list X) : Q := (qsum l g / Qn (List.length l))%Q.
  (** The share of a plan in a list of plans. *)
  Definition portion (y : X) (l : list X) : Q := (Qn (List.length (filter (fun z => eqb z y) l)) / Qn (List.length l))%Q.

  Lemma at_least_ext A B ch k p : (forall l, A l <-> B l) -> at_least A ch k p -> at_least B ch k p.
  Proof.
    intros E H eps He. destruct (H eps He) as (n0 & Hn). exists n0. intros n Hle. destruct (Hn n Hle) as (c & (L & ND & HL & Len) & Bd). exists c. split; [|exact Bd].
    exists L. split; [exact ND|]. split; [|exact Len]. intro ds. rewrite HL. unfold shows. split; intros (H1 & H2 & ys & en & ch' & w' & E1 & E2 & E3); (split; [exact H1|]; split; [exact H2|]; exists ys, en, ch', w'; split; [exact E1|]; split; [exact E2|]; now apply E).
  Qed.
  (** ** The list of plans as a function of the draws *)
  Fixpoint trail (k : nat) (x : X) (ds : list nat) : option (list X) :=
    match k with 0 => Some [x] | S k => match cut x ds with Some (z, r) => option_map (cons x) (trail k z r) | None => None end end.
  Lemma trail_length k : forall x ds l, trail k x ds = Some l -> List.length l = S k.
  Proof.
    induction k as [|k IH]; intros x ds l; cbn [trail]; [now intros [= <-]|]. destruct (cut x ds) as [[z r]|]; [|discriminate]. destruct (trail k z r) as [l'|] eqn:E; [|discriminate].
    cbn [option_map]. intros [= <-]. cbn. f_equal. eapply IH; exact E.
  Qed.
  Lemma loop_trail k : forall n ch x ds m c, pure -> ch_valid ch = Reusable cs -> ch_state ch = x -> ch_counter ch = Some c -> (0 < c)%Z ->
    (c + Z.of_nat k <= ch_total ch)%Z -> List.length ds < n ->
    exists ys en ch' w', loop draw_proposal draw_accept (fun _ w => w) k n (fun _ w => w) ch (ds, m) = (ys, en, ch', w') /\
      match trail k x ds with Some l => x :: map fst ys = l | None => List.length ys < k end.
  Proof.
    induction k as [|k IH]; intros n ch x ds m c Pu Hv Hs Hc C0 Ht Hl.
    - do 4 eexists. split; [reflexivity|]. reflexivity.
    - cbn [loop trail]. unfold next. rewrite Hc. replace (c =? 0)%Z with false by lia.
      assert (A := advance_cut propose agrees cs passes x c ds n m ch Pu Hv Hs ltac:(lia) Hl). destruct (cut x ds) as [[z r]|] eqn:E.
      + destruct A as (m' & ->). assert (L := cut_length propose agrees cs passes x ds z r E).
        destruct (IH n (mkChain (Reusable cs) (ch_total ch) (ch_initial ch) z (Some (c + 1)%Z)) z r m' (c + 1)%Z Pu eq_refl eq_refl eq_refl ltac:(lia) ltac:(cbn [ch_total]; lia) ltac:(lia)) as (ys & en & ch' & w' & -> & Hj).
        do 4 eexists. split; [reflexivity|]. destruct (trail k z r) as [l|]; cbn [option_map map fst List.length]; [now rewrite Hj|lia].
      + destruct A as (ch' & w' & ->). do 4 eexists. split; [reflexivity|]. cbn. lia.
  Qed.
  Definition trailb (k : nat) (x : X) (A : list X -> bool) (ds : list nat) : bool := match trail k x ds with Some l => A l | None => false end.
  Lemma shows_iff (A : list X -> Prop) (Ab : list X -> bool) ch k x n ds : (forall l, A l <-> Ab l = true) -> pure -> ch_valid ch = Reusable cs -> ch_initial ch = x -> (Z.of_nat k < ch_total ch)%Z ->
    shows A ch (S k) n ds <-> (List.length ds = n /\ Forall (fun d => d < D) ds) /\ trailb k x Ab ds = true.
  Proof.
    intros HA Pu Hv Hi Hk.
    assert (G : List.length ds = n -> exists ys en ch' w', for_loop draw_proposal draw_accept (fun _ w => w) (S k) (S n) (fun _ w => w) ch (ds, None) = (ys, en, ch', w') /\
                match trail k x ds with Some l => map fst ys = l | None => List.length ys < S k end).
    { intro Hl. unfold for_loop. cbn [loop]. unfold next, iter. cbn [ch_counter]. change (0 =? 0)%Z with true. cbn [ch_state ch_valid ch_total ch_initial]. rewrite Hi, Hv.
      destruct (loop_trail k (S n) (mkChain (Reusable cs) (ch_total ch) x x (Some 1%Z)) x ds None 1%Z Pu eq_refl eq_refl eq_refl ltac:(lia) ltac:(cbn [ch_total]; lia) ltac:(lia)) as (ys & en & ch' & w' & E & Hj).
      rewrite E. do 4 eexists. split; [reflexivity|]. destruct (trail k x ds); [exact Hj|cbn; lia]. }
    unfold shows, trailb. split.
    - intros (Hl & Hd & ys & en & ch' & w' & E & Hy & Ha). split; auto. destruct (G Hl) as (ys2 & en2 & ch2 & w2 & E2 & Hg). rewrite E in E2. injection E2 as <- _ _ _. destruct (trail k x ds) as [l|]; [rewrite <- Hg; now apply HA|lia].
    - intros ((Hl & Hd) & E). split; auto. split; auto. destruct (G Hl) as (ys2 & en2 & ch2 & w2 & E2 & Hg). exists ys2, en2, ch2, w2. split; auto.
      destruct (trail k x ds) as [l|] eqn:T; [|discriminate]. split; [|rewrite Hg; now apply HA]. rewrite <- (map_length fst), Hg. eapply trail_length; exact T.
  Qed.

  (** ** Counting *)
  Definition cntp (k : nat) (x : X) (A : list X -> bool) (n : nat) : nat := List.length (filter (trailb k x A) (words D n)).
  Lemma cntp_0 x A n : cntp 0 x A n = if A [x] then D ^ n else 0.
  Proof.
    unfold cntp. rewrite <- (length_words D n). induction (words D n) as [|w l IH]; [now destruct (A [x])|]. cbn [filter]. unfold trailb at 1. cbn [trail]. destruct (A [x]); cbn [List.length]; lia.
  Qed.
  Lemma cntp_S k x A n plans : NoDup plans -> (forall d z, d < D -> outcome x d = Some z -> In z plans) ->
    (Qn (cntp (S k) x A (S n)) == qsum plans (fun z => Qn (hits x z) * Qn (cntp k z (fun l => A (x :: l)) n)) + Qn (misses x) * Qn (cntp (S k) x A n))%Q.
  Proof.
    intros ND Cl. unfold cntp at 1. cbn [words]. rewrite filter_flat_map. unfold P_ChainLaw.hits, P_ChainLaw.misses.
    assert (Hd : forall d z, In d (seq 0 D) -> outcome x d = Some z -> In z plans) by (intros d z Hd; apply Cl; apply in_seq in Hd; lia). clear Cl. revert Hd.
    induction (seq 0 D) as [|d l IH]; intro Hd.
    - cbn [flat_map filter List.length]. change (Qn 0) with 0%Q. rewrite (qsum_ext plans _ (fun _ => 0%Q)) by (intros; ring). rewrite qsum_zero. ring.
    - specialize (IH (fun d' z Hd' => Hd d' z (or_intror Hd'))). cbn [flat_map filter]. rewrite app_length, Qn_plus, IH.
      assert (E : List.length (filter (trailb (S k) x A) (map (cons d) (words D n))) = match outcome x d with Some z => cntp k z (fun l => A (x :: l)) n | None => cntp (S k) x A n end).
      { unfold cntp. generalize (words D n). induction l0 as [|w ws IHw]; [cbn; now destruct (outcome x d)|]. cbn [map filter].
        assert (T : trailb (S k) x A (d :: w) = match outcome x d with Some z => trailb k z (fun l => A (x :: l)) w | None => trailb (S k) x A w end).
        { unfold trailb. cbn [trail P_LongRun.cut]. destruct (outcome x d) as [z|]; [|reflexivity]. now destruct (trail k z w). }
        rewrite T. destruct (outcome x d) as [z|] eqn:Ed.
        - destruct (trailb k z _ w); cbn [List.length]; lia.
        - destruct (trailb (S k) x A w); cbn [List.length]; lia. }
      rewrite E. destruct (outcome x d) as [z|] eqn:Ed.
      + assert (Hz : In z plans) by (apply (Hd d); [now left|exact Ed]).
        transitivity (qsum plans (fun z' => (if eqb z' z then Qn (cntp k z (fun l => A (x :: l)) n) else 0) + Qn (List.length (filter (fun d0 => match outcome x d0 with Some z0 => eqb z0 z' | None => false end) l)) * Qn (cntp k z' (fun l => A (x :: l)) n)) + Qn (List.length (filter (fun d0 => match outcome x d0 with Some _ => false | None => true end) l)) * Qn (cntp (S k) x A n))%Q.
        * rewrite qsum_plus, qsum_indicator by auto. ring.
        * apply Qplus_comp; [|reflexivity]. apply qsum_ext. intros z' _. destruct (eqb_spec z z') as [Ez|Ez].
          -- rewrite <- Ez, eqb_refl. cbn [List.length]. rewrite Qn_S. ring.
          -- destruct (eqb_spec z' z) as [Ez'|]; [congruence|]. ring.
      + cbn [List.length]. rewrite Qn_S. ring.
  Qed.
  Definition freqp (k : nat) (x : X) (A : list X -> bool) (n : nat) : Q := (Qn (cntp k x A n) / Qn (D ^ n))%Q.
  Section Kernel.
    Variable plans : list X.
    Hypothesis Pu : pure.
    Hypothesis Cl : closed propose D cs passes plans.
    Definition prob (x z : X) : Q := (Qn (hits x z) / Qn (goods x))%Q.
    Lemma freqp_tends k : forall x A, In x plans -> to0 (fun n => freqp k x A n - mean plans prob k x (fun l => if A l then 1 else 0))%Q.
    Proof.
      assert (D0 : forall x, In x plans -> 0 < D) by (intros x Hx; pose proof (goods_pos propose agrees D cs passes plans x Cl Hx); pose proof (goods_misses propose agrees D cs passes x); lia).
      assert (DN : forall x n, In x plans -> (0 < Qn (D ^ n))%Q) by (intros x n Hx; apply pos_Qn; specialize (D0 x Hx); apply Nat.neq_0_lt_0, Nat.pow_nonzero; lia).
      induction k as [|k IH]; intros x A Hx.
      - apply (to0_ext (fun _ => 0%Q)); [|intros eps He; exists 0; intros; cbn; lra]. intro n. cbn [mean]. unfold freqp. rewrite cntp_0. specialize (DN x n Hx).
        destruct (A [x]); [field; lra|]. change (Qn 0) with 0%Q. field. lra.
      - assert (G0 := pos_Qn _ (goods_pos propose agrees D cs passes plans x Cl Hx)). assert (QD := pos_Qn _ (D0 x Hx)). assert (GM := goods_misses propose agrees D cs passes x).
        assert (QGM : (Qn (goods x) + Qn (misses x) == Qn D)%Q) by (rewrite <- Qn_plus, GM; reflexivity). assert (M0 : (0 <= Qn (misses x))%Q) by apply nonneg_Qn.
        set (v := fun z => mean plans prob k z (fun l => if A (x :: l) then 1%Q else 0%Q)).
        apply (to0_drift (Qn (goods x) / Qn D) _ (fun n => qsum plans (fun z => (Qn (hits x z) / Qn D) * (freqp k z (fun l => A (x :: l)) n - v z)))%Q).
        + split; [apply Qlt_shift_div_l; lra|apply Qle_shift_div_r; lra].
        + apply to0_qsum. intros z Hz. apply to0_const. now apply IH.
        + intro n. specialize (DN x n Hx). unfold freqp at 1. rewrite (cntp_S k x A n plans (proj1 Cl)) by (intros d z Hd; now apply (outcome_In propose agrees D cs passes plans)).
          cbn [mean]. fold v. change (qsum plans (fun z => prob x z * mean plans prob k z (fun l => if A (x :: l) then 1%Q else 0%Q))%Q) with (qsum plans (fun z => prob x z * v z)%Q).
          rewrite (qsum_ext plans (fun z => prob x z * v z)%Q (fun z => / Qn (goods x) * (Qn (hits x z) * v z))%Q) by (intros z Hz; unfold prob, Qdiv; ring).
          rewrite (qsum_ext plans (fun z => Qn (hits x z) / Qn D * (freqp k z (fun l => A (x :: l)) n - v z))%Q (fun z => / (Qn D * Qn (D ^ n)) * (Qn (hits x z) * Qn (cntp k z (fun l => A (x :: l)) n)) - / Qn D * (Qn (hits x z) * v z))%Q) by (intros z Hz; unfold freqp; field; lra).
          rewrite qsum_minus, !qsum_scale. set (A1 := qsum plans (fun z => Qn (hits x z) * Qn (cntp k z (fun l => A (x :: l)) n))%Q). set (B1 := qsum plans (fun z => Qn (hits x z) * v z)%Q).
          unfold freqp. cbn [Nat.pow]. rewrite Qn_mult. setoid_replace (Qn (misses x)) with (Qn D - Qn (goods x))%Q by lra. field. lra.
    Qed.
  End Kernel.

  (** ** Theorems *)

  (** The average of any statistic over the plans of a run is close to its mean
      under the shares, for nearly all runs. *)
  Theorem C125_averages plans weight v (g : X -> Q) : pure -> closed propose D cs passes plans -> connected propose agrees D plans ->
    P_ChainLaw.balanced propose agrees D cs passes weight -> (forall x, In x plans -> (0 < weight x)%Q) ->
    (forall x, In x plans -> numbers (P_ChainLaw.valid_draws propose D cs passes x) (v x)) ->
    forall eps, (0 < eps)%Q -> exists k0, forall k, k0 <= k -> forall ch, ch_valid ch = Reusable cs -> In (ch_initial ch) plans -> (Z.of_nat k <= ch_total ch)%Z ->
      at_least (fun l => Qabs (average g l - qsum plans (fun y => share plans weight v y * g y)) <= eps)%Q ch k (1 - eps).
  Proof.
    intros Pu Cl Co Bal W Hv eps He. assert (Hp : forall x z, In x plans -> In z plans -> P_ChainLaw.steps_to propose agrees D cs x z (prob x z)) by now apply steps_exist.
    destruct plans as [|x0 rest] eqn:Epl; [exists 0; intros k _ ch _ []|]. rewrite <- Epl in *. assert (Hx0 : In x0 plans) by (rewrite Epl; now left). clear Epl.
    destruct (concentrate plans prob (proj1 Cl) (p_pos propose agrees D cs passes plans prob Pu Cl Hp) (p_tot propose agrees D cs passes plans prob Pu Cl Hp) (share plans weight v) g (moves_leads propose agrees D cs passes plans prob Pu Cl Hp Co)
                (share_pos propose agrees D cs passes plans Pu Cl weight v W Hv) (share_tot propose agrees D cs passes plans Pu Cl weight v W Hv x0 Hx0) (share_inv propose agrees D cs passes plans prob Pu Cl Hp weight v Bal W Hv) eps He) as (k0 & Hk).
    exists (S k0). intros [|k] Hle ch Vch Ich Tch; [lia|]. specialize (Hk k ltac:(lia) _ Ich).
    intros e2 He2. set (mu := qsum plans (fun y => share plans weight v y * g y)%Q) in *. destruct (freqp_tends plans Cl k (ch_initial ch) (near g mu eps) Ich e2 He2) as (n0 & Hn). exists n0. intros n Hle2. exists (cntp k (ch_initial ch) (near g mu eps) n). split.
    - apply numbers_words. intro ws. apply shows_iff; auto; [|lia]. intro l. unfold near, average. symmetry. apply Qle_bool_iff.
    - specialize (Hn n Hle2). apply Qabs_Qle_condition in Hn. fold (freqp k (ch_initial ch) (near g mu eps) n). lra.
  Qed.
  (** In particular the histogram of a run. *)
  Theorem C125_histogram plans weight v y : pure -> closed propose D cs passes plans -> connected propose agrees D plans ->
    P_ChainLaw.balanced propose agrees D cs passes weight -> (forall x, In x plans -> (0 < weight x)%Q) ->
    (forall x, In x plans -> numbers (P_ChainLaw.valid_draws propose D cs passes x) (v x)) -> In y plans ->
    forall eps, (0 < eps)%Q -> exists k0, forall k, k0 <= k -> forall ch, ch_valid ch = Reusable cs -> In (ch_initial ch) plans -> (Z.of_nat k <= ch_total ch)%Z ->
      at_least (fun l => Qabs (portion y l - share plans weight v y) <= eps)%Q ch k (1 - eps).
  Proof.
    intros Pu Cl Co Bal W Hv Hy eps He. destruct (C125_averages plans weight v (fun z => if eqb z y then 1 else 0)%Q Pu Cl Co Bal W Hv eps He) as (k0 & Hk). exists k0. intros k Hle ch Vch Ich Tch.
    eapply at_least_ext; [|apply (Hk k Hle ch Vch Ich Tch)].
    assert (E : forall l, ((Qabs (average (fun z => if eqb z y then 1 else 0) l - qsum plans (fun z => share plans weight v z * (if eqb z y then 1 else 0))) <= eps)%Q <-> (Qabs (portion y l - share plans weight v y) <= eps)%Q)).
    { intro l. unfold average, portion. rewrite (qsum_count (fun z => eqb z y) 1%Q l).
      assert (Sh : (qsum plans (fun z => share plans weight v z * (if eqb z y then 1 else 0)) == share plans weight v y)%Q).
      { rewrite <- (qsum_indicator plans y (share plans weight v y) (proj1 Cl) Hy). apply qsum_ext. intros z _. destruct (eqb_spec z y) as [->|]; ring. }
      rewrite Sh, Qmult_1_r. reflexivity. }
    exact E.
  Qed.
End Histogram.

(** ** Concrete case: the plans 0, 1 and 2 in a row; nearly every long run spends
    half of its time at plan 1. *)
Example C125_nonvacuous : forall eps, (0 < eps)%Q -> exists k0, forall k, k0 <= k ->
  at_least row_propose row_agrees 2 (fun l => Qabs (portion 1%nat l - (1 # 2)) <= eps)%Q (mkChain (Reusable [row_constraint]) (Z.of_nat k) 0 0 None) k (1 - eps).
Proof.
  intros eps He. destruct (C125_histogram row_propose row_agrees 2 [row_constraint] row_passes row_plans (fun _ => 1%Q) row_v 1 row_pure row_closed row_connected row_balanced ltac:(reflexivity) row_numbers ltac:(cbn; auto) eps He) as (k0 & Hk).
  exists k0. intros k Hle. specialize (Hk k Hle (mkChain (Reusable [row_constraint]) (Z.of_nat k) 0 0 None) eq_refl ltac:(cbn; auto) ltac:(cbn; lia)). eapply at_least_ext; [|exact Hk].
  intro l. assert (E : (share row_plans (fun _ => 1%Q) row_v 1%nat == 1 # 2)%Q) by (vm_compute; reflexivity). cbn beta. rewrite E. reflexivity.
Qed.

Print Assumptions C125_averages.
Print Assumptions C125_histogram.
