(** Finite chains: when the law after many steps approaches the invariant one. *)
From Coq Require Import List Bool Arith ZArith QArith Qabs Lqa Lia ZifyBool ZifyNat.
From Verif Require Import Base M_Recursive S_Contiguity P_DetailedBalance P_Stationary.
Import ListNotations.
Local Open Scope nat_scope.
Local Open Scope list_scope.

Lemma qsum_le {X} (l : list X) f f' : (forall x, In x l -> (f x <= f' x)%Q) -> (qsum l f <= qsum l f')%Q.
Proof.
  induction l as [|x l IH]; intro H; [apply Qle_refl|]. rewrite !qsum_cons. apply Qplus_le_compat; [apply H; now left|apply IH; intros; apply H; now right].
Qed.
Lemma qsum_nonneg {X} (l : list X) f : (forall x, In x l -> (0 <= f x)%Q) -> (0 <= qsum l f)%Q.
Proof.
  induction l as [|x l IH]; intro H; [apply Qle_refl|]. rewrite qsum_cons. specialize (IH (fun y Hy => H y (or_intror Hy))). pose proof (H x (or_introl eq_refl)). lra.
Qed.
Lemma qsum_abs {X} (l : list X) f : (Qabs (qsum l f) <= qsum l (fun x => Qabs (f x)))%Q.
Proof.
  induction l as [|x l IH]; [apply Qle_refl|]. rewrite !qsum_cons. eapply Qle_trans; [apply Qabs_triangle|]. apply Qplus_le_compat; [apply Qle_refl|exact IH].
Qed.
Lemma qsum_term {X} (l : list X) f x : (forall y, In y l -> (0 <= f y)%Q) -> In x l -> (f x <= qsum l f)%Q.
Proof.
  induction l as [|y l IH]; intros H Hx; [destruct Hx|]. rewrite qsum_cons. assert (0 <= qsum l f)%Q by (apply qsum_nonneg; intros; apply H; now right). pose proof (H y (or_introl eq_refl)).
  destruct Hx as [->|Hx]; [lra|]. specialize (IH (fun z Hz => H z (or_intror Hz)) Hx). lra.
Qed.
Lemma qsum_zero {X} (l : list X) : (qsum l (fun _ => 0%Q) == 0)%Q.
Proof. induction l as [|x l IH]; [reflexivity|]. rewrite qsum_cons, IH. reflexivity. Qed.
Lemma qsum_minus {X} (l : list X) f f' : (qsum l (fun x => f x - f' x) == qsum l f - qsum l f')%Q.
Proof. induction l as [|x l IH]; [reflexivity|]. rewrite !qsum_cons, IH. ring. Qed.

Fixpoint pow (z : Q) (n : nat) : Q := match n with 0 => 1%Q | S n => (z * pow z n)%Q end.
Lemma pow_small d : (0 < d <= 1)%Q -> forall n, (0 <= pow (1 - d) n /\ (1 + Qn n * d) * pow (1 - d) n <= 1)%Q.
Proof.
  intros Hd. induction n as [|n [IH1 IH2]]; cbn [pow].
  - split; [lra|]. change (Qn 0) with 0%Q. lra.
  - assert (En : (Qn (S n) == Qn n + 1)%Q) by (unfold Qn; rewrite Nat2Z.inj_succ; unfold Z.succ; rewrite inject_Z_plus; reflexivity).
    assert (Nn : (0 <= Qn n)%Q) by (unfold Qn, Qle; cbn; lia). rewrite En. split; [apply Qmult_le_0_compat; lra|].
    set (z := pow (1 - d) n) in *.
    assert (E : ((1 + (Qn n + 1) * d) * ((1 - d) * z) == (1 + Qn n * d) * z - ((Qn n + 1) * (d * d)) * z)%Q) by ring.
    rewrite E. assert (0 <= ((Qn n + 1) * (d * d)) * z)%Q; [|lra]. apply Qmult_le_0_compat; [|exact IH1]. apply Qmult_le_0_compat; [lra|]. apply Qmult_le_0_compat; lra.
Qed.
Lemma archimedean_Q d eps : (0 < d)%Q -> (0 < eps)%Q -> exists n, (1 < Qn n * (d * eps))%Q.
Proof.
  intros Hd He. assert (Hz : (0 < d * eps)%Q) by (apply Qmult_lt_0_compat; auto). set (z := (d * eps)%Q) in *.
  destruct z as [a b]. unfold Qlt in Hz. cbn in Hz. exists (Z.to_nat (Z.pos b + 1)). unfold Qn. rewrite Z2Nat.id by lia. unfold Qlt. cbn [Qnum Qden Qmult inject_Z]. rewrite !Pos2Z.inj_mul. nia.
Qed.
Lemma pow_to_zero d eps : (0 < d <= 1)%Q -> (0 < eps)%Q -> exists n, (pow (1 - d) n < eps)%Q.
Proof.
  intros Hd He. destruct (archimedean_Q d eps (proj1 Hd) He) as (n & Hn). exists n.
  destruct (pow_small d Hd n) as [P1 P2]. set (z := pow (1 - d) n) in *.
  apply Qnot_le_lt. intro C. assert (Nn : (0 <= Qn n)%Q) by (unfold Qn, Qle; cbn; lia).
  assert ((1 + Qn n * d) * eps <= (1 + Qn n * d) * z)%Q. { apply Qmult_le_l; [|exact C]. assert (0 <= Qn n * d)%Q by (apply Qmult_le_0_compat; lra). lra. }
  assert ((1 + Qn n * d) * eps == eps + Qn n * (d * eps))%Q by ring. lra.
Qed.

Section Kernel.
  Context {X : Type} {EX : EqB X}.
  Variable states : list X.
  Variable K : X -> X -> Q.
  Hypothesis ND : NoDup states.
  Hypothesis Kpos : forall x y, In x states -> In y states -> (0 <= K x y)%Q.
  Hypothesis Ktot : forall x, In x states -> (qsum states (K x) == 1)%Q.
  Notation after := (after states K).

  Definition point (x : X) : X -> Q := fun z => if eqb z x then 1%Q else 0%Q.
  Definition norm (v : X -> Q) : Q := qsum states (fun y => Qabs (v y)).
  Notation pw n x y := (after n (point x) y).

  Lemma after_ext n d d' : (forall x, In x states -> (d x == d' x)%Q) -> forall y, In y states -> (after n d y == after n d' y)%Q.
  Proof. intro H. induction n as [|n IH]; intros y Hy; cbn [P_Stationary.after]; [now apply H|]. apply qsum_ext. intros x Hx. now rewrite (IH x Hx). Qed.
  Lemma after_add n m d : after (n + m) d = after n (after m d).
  Proof. induction n as [|n IH]; [reflexivity|]. cbn [P_Stationary.after Nat.add]. now rewrite IH. Qed.
  Lemma after_minus n d d' y : (after n (fun x => d x - d' x) y == after n d y - after n d' y)%Q.
  Proof.
    revert y. induction n as [|n IH]; intro y; cbn [P_Stationary.after]; [reflexivity|]. rewrite <- qsum_minus. apply qsum_ext. intros x _. rewrite (IH x). ring.
  Qed.
  Lemma after_mass n d : (qsum states (after n d) == qsum states d)%Q.
  Proof using EX Ktot.
    induction n as [|n IH]; cbn [P_Stationary.after]; [reflexivity|]. rewrite <- IH. rewrite qsum_swap. apply qsum_ext. intros x Hx. rewrite qsum_scale, (Ktot x Hx). ring.
  Qed.
  Lemma after_pos n d : (forall x, In x states -> (0 <= d x)%Q) -> forall y, In y states -> (0 <= after n d y)%Q.
  Proof using EX Kpos ND Ktot.
    intro H. induction n as [|n IH]; intros y Hy; cbn [P_Stationary.after]; [now apply H|]. apply qsum_nonneg. intros x Hx. apply Qmult_le_0_compat; auto.
  Qed.
  Lemma point_pos x y : (0 <= point x y)%Q.
  Proof. unfold point. destruct (eqb y x); [discriminate|apply Qle_refl]. Qed.
  Lemma point_mass x : In x states -> (qsum states (point x) == 1)%Q.
  Proof using EX ND. intro H. now apply qsum_indicator. Qed.
  Lemma after_expand n d y : In y states -> (after n d y == qsum states (fun x => d x * pw n x y))%Q.
  Proof using EX ND.
    revert y. induction n as [|n IH]; intros y Hy; cbn [P_Stationary.after].
    - transitivity (qsum states (fun x => if eqb x y then d y else 0%Q)); [symmetry; now apply qsum_indicator|]. apply qsum_ext. intros x Hx. unfold point.
      destruct (eqb_spec x y) as [E|E]; [rewrite E, eqb_refl; ring|]. destruct (eqb_spec y x) as [E'|E']; [congruence|ring].
    - transitivity (qsum states (fun z => qsum states (fun x => d x * (pw n x z * K z y))))%Q.
      + apply qsum_ext. intros z Hz. rewrite (IH z Hz). rewrite Qmult_comm, <- qsum_scale. apply qsum_ext. intros x _. ring.
      + rewrite qsum_swap. apply qsum_ext. intros x _. now rewrite qsum_scale.
  Qed.
  Lemma norm_pos v : (0 <= norm v)%Q.
  Proof. apply qsum_nonneg. intros. apply Qabs_nonneg. Qed.

  (** A step towards the invariant law. *)
  Lemma contract m delta target v : (0 <= delta)%Q -> (forall y, In y states -> (0 <= target y)%Q) -> (qsum states target == 1)%Q ->
    (forall x y, In x states -> In y states -> (delta * target y <= pw m x y)%Q) -> (qsum states v == 0)%Q ->
    (norm (after m v) <= (1 - delta) * norm v)%Q.
  Proof using EX ND Ktot.
    intros Hd Tp Tm Low V0. unfold norm.
    apply Qle_trans with (qsum states (fun y => qsum states (fun x => Qabs (v x) * (pw m x y - delta * target y))))%Q.
    - apply qsum_le. intros y Hy.
      assert (E : (after m v y == qsum states (fun x => v x * (pw m x y - delta * target y)))%Q).
      { rewrite (after_expand m v y Hy). transitivity (qsum states (fun x => v x * pw m x y) - delta * target y * qsum states v)%Q; [rewrite V0; ring|].
        rewrite <- qsum_scale, <- qsum_minus. apply qsum_ext. intros x _. ring. }
      rewrite E. eapply Qle_trans; [apply qsum_abs|]. apply qsum_le. intros x Hx. rewrite Qabs_Qmult. rewrite (Qabs_pos (pw m x y - delta * target y)); [apply Qle_refl|]. specialize (Low x y Hx Hy). lra.
    - rewrite qsum_swap. rewrite <- qsum_scale. apply qsum_le. intros x Hx. rewrite qsum_scale, qsum_minus, qsum_scale, Tm, after_mass, (point_mass x Hx).
      assert (E : (Qabs (v x) * (1 - delta * 1) == (1 - delta) * Qabs (v x))%Q) by ring. rewrite E. apply Qle_refl.
  Qed.
  Lemma shrink n v : (norm (after n v) <= norm v)%Q.
  Proof using EX ND Ktot Kpos.
    unfold norm. apply Qle_trans with (qsum states (fun y => qsum states (fun x => Qabs (v x) * pw n x y)))%Q.
    - apply qsum_le. intros y Hy. rewrite (after_expand n v y Hy). eapply Qle_trans; [apply qsum_abs|]. apply qsum_le. intros x Hx. rewrite Qabs_Qmult, (Qabs_pos (pw n x y)); [apply Qle_refl|]. apply after_pos; auto. intros; apply point_pos.
    - rewrite qsum_swap. apply qsum_le. intros x Hx. rewrite qsum_scale, after_mass, (point_mass x Hx), Qmult_1_r. apply Qle_refl.
  Qed.
  Lemma rate m delta target v : (0 <= delta <= 1)%Q -> (forall y, In y states -> (0 <= target y)%Q) -> (qsum states target == 1)%Q ->
    (forall x y, In x states -> In y states -> (delta * target y <= pw m x y)%Q) -> (qsum states v == 0)%Q ->
    forall j r, (norm (after (r + j * m) v) <= pow (1 - delta) j * norm v)%Q.
  Proof using EX ND Ktot Kpos.
    intros Hd Tp Tm Low V0 j r. rewrite after_add. eapply Qle_trans; [apply shrink|]. clear r.
    induction j as [|j IH]; cbn [Nat.mul pow P_Stationary.after]; [rewrite Qmult_1_l; apply Qle_refl|]. rewrite after_add.
    eapply Qle_trans; [apply (contract m delta target _ (proj1 Hd) Tp Tm Low); rewrite after_mass; exact V0|].
     rewrite <- Qmult_assoc. apply Qmult_le_compat_nonneg; [split; [lra|apply Qle_refl]|split; [apply norm_pos|exact IH]].
  Qed.

  (** Positive chances. *)
  Definition leads (x y : X) : Prop := In x states /\ In y states /\ (0 < K x y)%Q.
  Lemma pw_step n x y z : In x states -> In y states -> In z states -> (0 < pw n x y)%Q -> (0 < K y z)%Q -> (0 < pw (S n) x z)%Q.
  Proof using EX Kpos ND Ktot.
    intros Hx Hy Hz H1 H2. cbn [P_Stationary.after]. apply Qlt_le_trans with (pw n x y * K y z)%Q; [now apply Qmult_lt_0_compat|].
    apply (qsum_term states (fun w => pw n x w * K w z)%Q y); auto. intros w Hw. apply Qmult_le_0_compat; auto. apply after_pos; auto. intros; apply point_pos.
  Qed.
  Lemma reach_pw x y : In x states -> reach leads x y -> In y states /\ exists n, (0 < pw n x y)%Q.
  Proof using EX Kpos ND Ktot.
    intros Hx R. induction R as [|y z R (Hy & n & Hn) (_ & Hz & HK)].
    - split; [exact Hx|]. exists 0. cbn. unfold point. rewrite eqb_refl. reflexivity.
    - split; [exact Hz|]. exists (S n). now apply (pw_step n x y z).
  Qed.
  Lemma pw_cat n m x y z : In x states -> In y states -> In z states -> (0 < pw n x y)%Q -> (0 < pw m y z)%Q -> (0 < pw (m + n) x z)%Q.
  Proof using EX Kpos ND Ktot.
    intros Hx Hy Hz H1 H2. rewrite after_add, (after_expand m _ z Hz). apply Qlt_le_trans with (pw n x y * pw m y z)%Q; [now apply Qmult_lt_0_compat|].
    apply (qsum_term states (fun w => pw n x w * pw m w z)%Q y); auto. intros w Hw. apply Qmult_le_0_compat; apply after_pos; auto; intros; apply point_pos.
  Qed.
  Lemma pw_loop s n : In s states -> (0 < K s s)%Q -> (0 < pw n s s)%Q.
  Proof using EX Kpos ND Ktot.
    intros Hs HK. induction n as [|n IH]; [cbn; unfold point; rewrite eqb_refl; reflexivity|]. now apply (pw_step n s s s).
  Qed.
  Lemma common s : In s states -> (0 < K s s)%Q -> (forall x y, In x states -> In y states -> reach leads x y) ->
    exists m, forall x y, In x states -> In y states -> (0 < pw m x y)%Q.
  Proof using EX Kpos ND Ktot.
    intros Hs HK Irr.
    destruct (finite_choice 0 (fun x n => (0 < pw n x s)%Q) states) as [f Hf]; [intros x Hx; apply reach_pw; auto|].
    destruct (finite_choice 0 (fun y n => (0 < pw n s y)%Q) states) as [f' Hf']; [intros x Hx; apply reach_pw; auto|].
    assert (Up : forall (h : X -> nat) l x, In x l -> h x <= list_max (map h l)).
    { intros h l x Hx. pose proof (proj1 (list_max_le (map h l) (list_max (map h l))) (le_n _)) as F. rewrite Forall_map in F. rewrite Forall_forall in F. now apply F. }
    set (a := list_max (map f states)). set (b := list_max (map f' states)). exists (b + a). intros x y Hx Hy.
    pose proof (Up f states x Hx) as Ux. pose proof (Up f' states y Hy) as Uy. fold a in Ux. fold b in Uy.
    replace (b + a) with ((f' y + ((a - f x) + (b - f' y))) + f x) by lia. apply (pw_cat (f x) _ x s y); auto.
    apply (pw_cat _ (f' y) s s y); auto. now apply pw_loop.
  Qed.
  Lemma least (l : list (X * X)) (h : X * X -> Q) : (forall c, In c l -> (0 < h c)%Q) -> exists delta, (0 < delta <= 1)%Q /\ forall c, In c l -> (delta <= h c)%Q.
  Proof.
    induction l as [|c l IH]; intro H; [exists 1%Q; split; [lra|intros c []]|]. destruct IH as (d & Hd & Hl); [intros; apply H; now right|]. pose proof (H c (or_introl eq_refl)) as Hc.
    destruct (Qlt_le_dec d (h c)) as [W|W].
    - exists d. split; [exact Hd|]. intros c' [<-|Hc']; [lra|now apply Hl].
    - exists (h c). split; [lra|]. intros c' [<-|Hc']; [lra|]. specialize (Hl c' Hc'). lra.
  Qed.

  (** If every state leads to every other and some state may stay, the law
      approaches the invariant one from every start, at a geometric rate. *)
  Theorem converge target s : In s states -> (0 < K s s)%Q -> (forall x y, In x states -> In y states -> reach leads x y) ->
    (forall y, In y states -> (0 <= target y)%Q) -> (qsum states target == 1)%Q ->
    (forall y, In y states -> (qsum states (fun x => target x * K x y) == target y)%Q) ->
    exists m delta, (0 < delta <= 1)%Q /\
      forall d j r, (forall x, In x states -> (0 <= d x)%Q) -> (qsum states d == 1)%Q ->
        (qsum states (fun y => Qabs (after (r + j * m) d y - target y)) <= 2 * pow (1 - delta) j)%Q.
  Proof using EX Kpos Ktot ND.
    intros Hs HK Irr Tp Tm Inv. destruct (common s Hs HK Irr) as (m & Hm).
    destruct (least (list_prod states states) (fun c => pw m (fst c) (snd c))) as (delta & Hd & Low); [intros [x y] Hc; apply in_prod_iff in Hc; now apply Hm|].
    exists m, delta. split; [exact Hd|]. intros d j r Dp Dm.
    assert (T1 : forall y, In y states -> (target y <= 1)%Q) by (intros y Hy; rewrite <- Tm; now apply qsum_term).
    assert (Low' : forall x y, In x states -> In y states -> (delta * target y <= pw m x y)%Q).
    { intros x y Hx Hy. eapply Qle_trans; [|apply (Low (x, y)), in_prod; auto]. rewrite <- (Qmult_1_r delta) at 2. apply Qmult_le_l; [lra|auto]. }
    assert (Stay : forall n y, In y states -> (after n target y == target y)%Q).
    { intro n. induction n as [|n IH]; intros y Hy; cbn [P_Stationary.after]; [reflexivity|]. transitivity (qsum states (fun x => target x * K x y))%Q; [|now apply Inv]. apply qsum_ext. intros x Hx. now rewrite (IH x Hx). }
    pose proof (rate m delta target (fun x => d x - target x)%Q ltac:(lra) Tp Tm Low' ltac:(rewrite qsum_minus, Dm, Tm; reflexivity) j r) as R.
    eapply Qle_trans; [|eapply Qle_trans; [exact R|]].
    - unfold norm. apply qsum_le. intros y Hy. rewrite after_minus, (Stay _ y Hy). apply Qle_refl.
    - rewrite (Qmult_comm 2). destruct (pow_small delta Hd j) as [P1 _]. assert (norm (fun x => d x - target x) <= 2)%Q.
      { unfold norm. apply Qle_trans with (qsum states (fun x => d x + target x))%Q; [|rewrite qsum_plus, Dm, Tm; discriminate]. apply qsum_le. intros x Hx. specialize (Dp x Hx). specialize (Tp x Hx). apply Qabs_case; intros; lra. }
      apply Qmult_le_compat_nonneg; [split; [exact P1|apply Qle_refl]|split; [apply norm_pos|assumption]].
  Qed.
  (** What cannot be reached has chance 0 for ever. *)
  Theorem unreachable x y n : In x states -> In y states -> ~ reach leads x y -> (pw n x y == 0)%Q.
  Proof using EX Kpos ND Ktot.
    intros Hx Hy No. revert y Hy No. induction n as [|n IH]; intros y Hy No; cbn [P_Stationary.after].
    - unfold point. destruct (eqb_spec y x) as [E|E]; [|reflexivity]. exfalso. apply No. rewrite E. constructor.
    - rewrite <- (qsum_zero states). apply qsum_ext. intros z Hz. destruct (Qlt_le_dec 0 (K z y)) as [W|W].
      + rewrite (IH z Hz); [ring|]. intro R. apply No. econstructor; [exact R|]. split; auto.
      + assert (E : (K z y == 0)%Q) by (pose proof (Kpos z y Hz Hy); lra). rewrite E. ring.
  Qed.
End Kernel.
