(** Fiedler's theorem: the nodes with a nonnegative entry in an eigenvector of
    the second smallest eigenvalue induce a connected subgraph. *)
From Coq Require Import List Bool Arith Reals Lra Sorted.
From Verif Require Import Base M_Spectral S_Spectral.
Import ListNotations.
Local Open Scope R_scope.

(** ** Sums *)
Section Total.
  Context {X Y : Type}.
  Implicit Types (f g : X -> R) (l : list X).
  Lemma total_cons x l f : total (x :: l) f = f x + total l f.
  Proof. reflexivity. Qed.
  Lemma total_ext l f g : (forall x, In x l -> f x = g x) -> total l f = total l g.
  Proof. induction l as [|x l IH]; intro H; [reflexivity|]. rewrite !total_cons, H, IH; auto; [intros; apply H; now right|now left]. Qed.
  Lemma total_plus l f g : total l (fun x => f x + g x) = total l f + total l g.
  Proof. induction l as [|x l IH]; [cbn; lra|]. rewrite !total_cons, IH. lra. Qed.
  Lemma total_minus l f g : total l (fun x => f x - g x) = total l f - total l g.
  Proof. induction l as [|x l IH]; [cbn; lra|]. rewrite !total_cons, IH. lra. Qed.
  Lemma total_scale l f c : total l (fun x => c * f x) = c * total l f.
  Proof. induction l as [|x l IH]; [cbn; lra|]. rewrite !total_cons, IH. lra. Qed.
  Lemma total_scale_r l f c : total l (fun x => f x * c) = total l f * c.
  Proof. induction l as [|x l IH]; [cbn; lra|]. rewrite !total_cons, IH. lra. Qed.
  Lemma total_0 l : total l (fun _ => 0) = 0.
  Proof. induction l as [|x l IH]; [reflexivity|]. rewrite total_cons, IH. lra. Qed.
  Lemma total_le l f g : (forall x, In x l -> f x <= g x) -> total l f <= total l g.
  Proof.
    induction l as [|x l IH]; intro H; [cbn; lra|]. rewrite !total_cons.
    assert (f x <= g x) by (apply H; now left). assert (total l f <= total l g) by (apply IH; intros; apply H; now right). lra.
  Qed.
  Lemma total_nonneg l f : (forall x, In x l -> 0 <= f x) -> 0 <= total l f.
  Proof. intro H. rewrite <- (total_0 l). now apply total_le. Qed.
  Lemma total_zero l f : (forall x, In x l -> 0 <= f x) -> total l f = 0 -> forall x, In x l -> f x = 0.
  Proof.
    induction l as [|x l IH]; intros H E y Hy; [destruct Hy|]. rewrite total_cons in E.
    assert (0 <= f x) by (apply H; now left). assert (0 <= total l f) by (apply total_nonneg; intros; apply H; now right).
    destruct Hy as [<-|Hy]; [lra|]. apply IH; auto; [intros; apply H; now right|lra].
  Qed.
  Lemma total_pos l f x : (forall x, In x l -> 0 <= f x) -> In x l -> 0 < f x -> 0 < total l f.
  Proof.
    intros H Hx Hp. destruct (Rle_lt_or_eq_dec 0 (total l f) (total_nonneg l f H)) as [L|E]; auto.
    rewrite (total_zero l f H (eq_sym E) x Hx) in Hp. lra.
  Qed.
End Total.
Lemma total_swap {X Y : Type} (l : list X) (m : list Y) (f : X -> Y -> R) :
  total l (fun x => total m (f x)) = total m (fun y => total l (fun x => f x y)).
Proof.
  induction l as [|x l IH].
  - symmetry. apply (total_0 m).
  - rewrite total_cons, IH, <- total_plus. reflexivity.
Qed.
Lemma total_delta {X : Type} {EX : EqB X} (l : list X) (f : X -> R) (i : X) : NoDup l -> In i l ->
  total l (fun j => (if eqb i j then 1 else 0) * f j) = f i.
Proof.
  induction l as [|x l IH]; intros ND Hi; [destruct Hi|]. inversion ND as [|? ? Hx ND']; subst. rewrite total_cons.
  destruct (eqb_spec i x) as [<-|Nx].
  - rewrite (total_ext l _ (fun _ => 0)), total_0; [lra|]. intros j Hj. destruct (eqb_spec i j) as [<-|_]; [contradiction|lra].
  - destruct Hi as [E|Hi]; [congruence|]. rewrite IH by auto. lra.
Qed.

(** ** Fiedler's theorem in variational form *)
Section Fiedler.
  Context {N : Type} {EN : EqB N}.
  Variables (ns : list N) (W : N -> N -> R) (m : N -> R).
  Hypothesis W_sym : forall i j, W i j = W j i.
  Hypothesis W_nonneg : forall i j, 0 <= W i j.
  Hypothesis m_pos : forall i, In i ns -> 0 < m i.
  (** Any set of nodes that is closed under edges contains all or none. *)
  Hypothesis whole : forall (c : N -> bool) a b, In a ns -> In b ns -> c a = true ->
    (forall i j, In i ns -> In j ns -> c i = true -> W i j <> 0 -> c j = true) -> c b = true.

  Definition lap (x : N -> R) (i : N) : R := total ns (fun j => W i j * (x i - x j)).
  Definition form (x z : N -> R) : R := total ns (fun i => z i * lap x i).
  Definition mass (x z : N -> R) : R := total ns (fun i => m i * (x i * z i)).

  Lemma form_sym x z : form x z = form z x.
  Proof using W_sym.
    unfold form, lap.
    assert (G : forall u v, total ns (fun i => v i * total ns (fun j => W i j * (u i - u j))) =
      total ns (fun i => v i * u i * total ns (W i)) - total ns (fun i => total ns (fun j => W i j * v i * u j))).
    { intros u v. rewrite <- total_minus. apply total_ext. intros i _. rewrite <- !total_scale, <- total_minus. apply total_ext. intros. lra. }
    rewrite !G. f_equal; [apply total_ext; intros; lra|]. rewrite total_swap. apply total_ext. intros i _. apply total_ext. intros j _. rewrite (W_sym j i). lra.
  Qed.
  Lemma lap_lin x z e i : lap (fun i => x i + e * z i) i = lap x i + e * lap z i.
  Proof. unfold lap. rewrite <- total_scale, <- total_plus. apply total_ext. intros. lra. Qed.
  Lemma form_square x : 2 * form x x = total ns (fun i => total ns (fun j => W i j * ((x i - x j) * (x i - x j)))).
  Proof using W_sym.
    replace (2 * form x x) with (form x x + form x x) by lra. unfold form, lap.
    assert (E1 : total ns (fun i => x i * total ns (fun j => W i j * (x i - x j))) = total ns (fun i => total ns (fun j => W i j * (x i * (x i - x j))))).
    { apply total_ext. intros i _. rewrite <- total_scale. apply total_ext. intros. lra. }
    rewrite E1. rewrite total_swap at 2. rewrite <- total_plus. apply total_ext. intros i _. rewrite <- total_plus. apply total_ext. intros j _.
    rewrite (W_sym j i). lra.
  Qed.
  Lemma form_nonneg x : 0 <= form x x.
  Proof using W_sym W_nonneg.
    assert (0 <= 2 * form x x); [|lra]. rewrite form_square. apply total_nonneg. intros i _. apply total_nonneg. intros j _.
    apply Rmult_le_pos; auto. apply Rle_0_sqr.
  Qed.
  Lemma form_zero x : form x x = 0 -> forall i j, In i ns -> In j ns -> x i = x j.
  Proof using W_sym W_nonneg whole.
    intros E. assert (Q : forall i j, In i ns -> In j ns -> W i j <> 0 -> x i = x j).
    { intros i j Hi Hj Hw. assert (E2 : 2 * form x x = 0) by lra. rewrite form_square in E2.
      assert (N2 : forall i j, 0 <= W i j * ((x i - x j) * (x i - x j))) by (intros; apply Rmult_le_pos; auto; apply Rle_0_sqr).
      assert (E3 := total_zero ns _ (fun i _ => total_nonneg ns _ (fun j _ => N2 i j)) E2 i Hi). cbn beta in E3.
      assert (E4 := total_zero ns _ (fun j _ => N2 i j) E3 j Hj). cbn beta in E4.
      apply Rmult_integral in E4. destruct E4 as [E4|E4]; [contradiction|]. apply Rmult_integral in E4. destruct E4; lra. }
    intros a b Ha Hb. assert (G := whole (fun j => if Req_EM_T (x a) (x j) then true else false) a b Ha Hb).
    cbn beta in G. destruct (Req_EM_T (x a) (x b)) as [|Nab]; auto. exfalso. cut (false = true); [discriminate|]. apply G.
    - destruct (Req_EM_T (x a) (x a)); auto.
    - intros i j Hi Hj Ci Wij. destruct (Req_EM_T (x a) (x i)) as [Ei|]; [|discriminate]. destruct (Req_EM_T (x a) (x j)) as [|N']; auto.
      exfalso. apply N'. rewrite Ei. now apply Q.
  Qed.

  Variables (y : N -> R) (lam : R).
  Hypothesis y_eigen : forall i, In i ns -> lap y i = lam * m i * y i.
  Hypothesis minimal : forall x, total ns (fun i => m i * x i) = 0 -> lam * mass x x <= form x x.

  (** A vector of zero mean that attains the minimum is an eigenvector. *)
  Lemma minimiser x : total ns (fun i => m i * x i) = 0 -> form x x <= lam * mass x x -> forall i, In i ns -> lap x i = lam * m i * x i.
  Proof using W_sym m_pos minimal.
    intros Z0 Hx. assert (E : form x x = lam * mass x x) by (apply Rle_antisym; auto).
    assert (B : forall z, total ns (fun i => m i * z i) = 0 -> form x z = lam * mass x z).
    { intros z Hz. set (b := form x z - lam * mass x z). set (q := form z z - lam * mass z z).
      assert (Ineq : forall e, 0 <= 2 * e * b + e * e * q).
      { intro e. assert (M := minimal (fun i => x i + e * z i)).
        assert (H0 : total ns (fun i => m i * (x i + e * z i)) = 0).
        { rewrite (total_ext ns _ (fun i => m i * x i + e * (m i * z i))) by (intros; lra). rewrite total_plus, total_scale. rewrite Z0, Hz. lra. }
        specialize (M H0).
        assert (F : form (fun i => x i + e * z i) (fun i => x i + e * z i) = form x x + 2 * e * form x z + e * e * form z z).
        { unfold form at 1. rewrite (total_ext ns _ (fun i => x i * lap x i + e * (x i * lap z i) + e * (z i * lap x i) + e * e * (z i * lap z i)))
            by (intros i _; rewrite lap_lin; lra). rewrite !total_plus, !total_scale.
          change (total ns (fun i => x i * lap x i)) with (form x x). change (total ns (fun i => x i * lap z i)) with (form z x).
          change (total ns (fun i => z i * lap x i)) with (form x z). change (total ns (fun i => z i * lap z i)) with (form z z).
          rewrite (form_sym z x). lra. }
        assert (G : mass (fun i => x i + e * z i) (fun i => x i + e * z i) = mass x x + 2 * e * mass x z + e * e * mass z z).
        { unfold mass. rewrite (total_ext ns _ (fun i => m i * (x i * x i) + 2 * e * (m i * (x i * z i)) + e * e * (m i * (z i * z i)))) by (intros; lra).
          now rewrite !total_plus, !total_scale. }
        rewrite F, G in M. unfold b, q. lra. }
      cut (b = 0); [unfold b; lra|]. clearbody b q. clear - Ineq.
      destruct (Rle_lt_dec q 0) as [Hq|Hq].
      - assert (H1 := Ineq 1). assert (H2 := Ineq (-1)). lra.
      - assert (H := Ineq (- b / q)). replace (2 * (- b / q) * b + - b / q * (- b / q) * q) with (- (b * b) / q) in H by (field; lra).
        assert (0 <= - (b * b)). { replace (- (b * b)) with (- (b * b) / q * q) by (field; lra). apply Rmult_le_pos; lra. }
        assert (0 <= b * b) by apply Rle_0_sqr. assert (b * b = 0) by lra. apply Rmult_integral in H2. destruct H2; auto. }
    set (r := fun i => lap x i - lam * m i * x i).
    assert (S1 : total ns r = 0).
    { unfold r. rewrite total_minus. rewrite (total_ext ns (fun i => lam * m i * x i) (fun i => lam * (m i * x i))) by (intros; lra). rewrite total_scale, Z0.
      assert (total ns (lap x) = 0); [|lra].
      assert (F : form x (fun _ => 1) = form (fun _ => 1) x) by apply form_sym. unfold form in F.
      rewrite (total_ext ns (fun i => 1 * lap x i) (lap x)) in F by (intros; lra). rewrite F.
      rewrite (total_ext ns _ (fun _ => 0)); [apply total_0|]. intros i _. unfold lap. rewrite (total_ext ns _ (fun _ => 0)) by (intros; lra). rewrite total_0. lra. }
    assert (S2 : total ns (fun i => r i * r i / m i) = 0).
    { assert (Bz := B (fun i => r i / m i)). cbn beta in Bz. rewrite (total_ext ns (fun i => m i * (r i / m i)) r) in Bz.
      2:{ intros i Hi. field. assert (P := m_pos i Hi). lra. }
      specialize (Bz S1). unfold form, mass in Bz. rewrite <- total_scale in Bz.
      assert (D : total ns (fun i => r i / m i * lap x i) - total ns (fun i => lam * (m i * (x i * (r i / m i)))) = 0) by lra.
      rewrite <- total_minus in D. rewrite <- D. apply total_ext. intros i Hi. assert (P := m_pos i Hi). unfold r. field. lra. }
    intros i Hi. assert (Q : r i * r i / m i = 0).
    { apply (total_zero ns (fun i => r i * r i / m i)); auto. intros j Hj. assert (P := m_pos j Hj). apply Rmult_le_pos; [apply Rle_0_sqr|]. left. now apply Rinv_0_lt_compat. }
    assert (P := m_pos i Hi). assert (r i * r i = 0). { replace (r i * r i) with (r i * r i / m i * m i) by (field; lra). rewrite Q. lra. }
    apply Rmult_integral in H. unfold r in H. destruct H; lra.
  Qed.

  (** The nodes with a nonnegative entry cannot be split into two sets without
      an edge between them. *)
  Lemma nonneg_connected (c : N -> bool) a b : In a ns -> In b ns -> 0 <= y a -> 0 <= y b -> c a = true ->
    (forall i j, In i ns -> In j ns -> c i = true -> 0 <= y i -> 0 <= y j -> W i j <> 0 -> c j = true) -> c b = true.
  Proof using W_sym W_nonneg m_pos whole y_eigen minimal.
    intros Ha Hb Ya Yb Ca Cl. destruct (c b) eqn:Cb; auto. exfalso.
    (* the sum over neighbours with a negative entry *)
    set (s := fun i => total ns (fun j => W i j * Rmin (y j) 0)).
    assert (Sneg : forall i, s i = 0 -> forall j, In j ns -> y j < 0 -> W i j = 0).
    { intros i E j Hj Yj. assert (E' : total ns (fun j => W i j * - Rmin (y j) 0) = 0).
      { rewrite (total_ext ns _ (fun j => (-1) * (W i j * Rmin (y j) 0))) by (intros; lra). rewrite total_scale. unfold s in E. rewrite E. lra. }
      assert (Z := total_zero ns _ (fun j _ => Rmult_le_pos _ (- Rmin (y j) 0) (W_nonneg i j) ltac:(pose proof (Rmin_r (y j) 0); lra)) E' j Hj). cbn beta in Z.
      rewrite Rmin_left in Z by lra. apply Rmult_integral in Z. destruct Z; auto. lra. }
    (* a side of the split without negative neighbours is everything *)
    assert (Closed : forall (d : bool), (forall i, In i ns -> 0 <= y i -> c i = d -> s i = 0) -> False).
    { intros d Hs. set (k := fun i => if Rle_dec 0 (y i) then Bool.eqb (c i) d else false).
      assert (Kst : forall i j, In i ns -> In j ns -> k i = true -> W i j <> 0 -> k j = true).
      { intros i j Hi Hj Ki Wij. unfold k in *. destruct (Rle_dec 0 (y i)) as [Yi|]; [|discriminate]. apply eqb_prop in Ki.
        destruct (Rle_dec 0 (y j)) as [Yj|Yj].
        - apply eqb_true_iff. destruct d.
          + now apply (Cl i j).
          + destruct (c j) eqn:Cj; auto. rewrite <- Ki. symmetry. apply (Cl j i); auto. now rewrite W_sym.
        - exfalso. apply Wij. apply Sneg; auto. lra. }
      destruct d.
      - assert (G := whole k a b Ha Hb). unfold k in G at 1. destruct (Rle_dec 0 (y a)) as [_|]; [|contradiction]. rewrite Ca in G. specialize (G eq_refl Kst).
        unfold k in G. destruct (Rle_dec 0 (y b)); [|discriminate]. rewrite Cb in G. discriminate.
      - assert (G := whole k b a Hb Ha). unfold k in G at 1. destruct (Rle_dec 0 (y b)) as [_|]; [|contradiction]. rewrite Cb in G. specialize (G eq_refl Kst).
        unfold k in G. destruct (Rle_dec 0 (y a)); [|discriminate]. rewrite Ca in G. discriminate. }
    (* both sides have positive mass *)
    set (part := fun (d : bool) i => if Rle_dec 0 (y i) then if Bool.eqb (c i) d then m i * y i else 0 else 0).
    assert (PartN : forall d i, In i ns -> 0 <= part d i).
    { intros d i Hi. unfold part. destruct (Rle_dec 0 (y i)); [|lra]. destruct (Bool.eqb (c i) d); [|lra]. apply Rmult_le_pos; auto. left. auto. }
    assert (Noedge : forall i j, In i ns -> In j ns -> 0 <= y i -> 0 <= y j -> c i <> c j -> W i j = 0).
    { intros i j Hi Hj Yi Yj Nc. destruct (Req_EM_T (W i j) 0) as [|Hw]; auto. exfalso. apply Nc. destruct (c i) eqn:Ci.
      - symmetry. now apply (Cl i j).
      - destruct (c j) eqn:Cj; auto. rewrite <- Ci. apply (Cl j i); auto. now rewrite W_sym. }
    assert (Pos : forall d, 0 < total ns (part d)).
    { intro d. destruct (Rle_lt_or_eq_dec 0 (total ns (part d)) (total_nonneg ns _ (PartN d))) as [|E]; auto. exfalso. apply (Closed d). intros i Hi Yi Ci.
      assert (Zero : forall j, In j ns -> 0 <= y j -> c j = d -> y j = 0).
      { intros j Hj Yj Cj. assert (Z := total_zero ns _ (PartN d) (eq_sym E) j Hj). unfold part in Z. destruct (Rle_dec 0 (y j)); [|contradiction].
        rewrite (proj2 (eqb_true_iff _ _) Cj) in Z. apply Rmult_integral in Z. destruct Z as [Z|]; auto. assert (P := m_pos j Hj). lra. }
      assert (Ei := y_eigen i Hi). rewrite (Zero i Hi Yi Ci) in Ei. unfold lap in Ei. rewrite (Zero i Hi Yi Ci) in Ei.
      unfold s. rewrite (total_ext ns _ (fun j => (-1) * (W i j * (0 - y j)))).
      - rewrite total_scale, Ei. lra.
      - intros j Hj. destruct (Rle_lt_dec 0 (y j)) as [Yj|Yj].
        + rewrite Rmin_right by lra. destruct (Bool.bool_dec (c j) d) as [Cj|Cj].
          * rewrite (Zero j Hj Yj Cj). lra.
          * rewrite (Noedge i j) by (auto; congruence). lra.
        + rewrite Rmin_left by lra. lra. }
    set (al := total ns (part false)). set (be := total ns (part true)). assert (Pa := Pos false). assert (Pb := Pos true). fold al in Pa. fold be in Pb.
    set (k := fun i => if Rle_dec 0 (y i) then if c i then al else - be else 0).
    set (x := fun i => k i * y i).
    assert (Zx : total ns (fun i => m i * x i) = 0).
    { rewrite (total_ext ns _ (fun i => al * part true i + (- be) * part false i)).
      - rewrite total_plus, !total_scale. fold al be. lra.
      - intros i _. unfold x, k, part. destruct (Rle_dec 0 (y i)); [|lra]. destruct (c i); cbn [Bool.eqb]; lra. }
    assert (Lx : forall i, In i ns -> 0 <= y i -> lap x i = k i * (lam * m i * y i + s i)).
    { intros i Hi Yi. rewrite <- (y_eigen i Hi). unfold lap, s. rewrite <- total_plus, <- total_scale. apply total_ext. intros j Hj.
      destruct (Rle_lt_dec 0 (y j)) as [Yj|Yj].
      - rewrite Rmin_right by lra. destruct (Bool.bool_dec (c i) (c j)) as [Ec|Nc].
        + unfold x, k. destruct (Rle_dec 0 (y i)); [|contradiction]. destruct (Rle_dec 0 (y j)); [|contradiction]. rewrite Ec. destruct (c j); lra.
        + rewrite (Noedge i j) by auto. lra.
      - rewrite Rmin_left by lra. assert (Ej : x j = 0) by (unfold x, k; destruct (Rle_dec 0 (y j)); lra). rewrite Ej. unfold x. ring. }
    assert (Sle : forall i, s i <= 0).
    { intro i. unfold s. assert (G : total ns (fun j => W i j * Rmin (y j) 0) <= total ns (fun _ => 0)).
      { apply total_le. intros j _. assert (Rmin (y j) 0 <= 0) by apply Rmin_r. assert (P := W_nonneg i j). assert (0 <= W i j * - Rmin (y j) 0) by (apply Rmult_le_pos; lra). lra. }
      rewrite total_0 in G. exact G. }
    assert (Min : form x x <= lam * mass x x).
    { unfold form, mass. rewrite <- total_scale. apply total_le. intros i Hi. destruct (Rle_lt_dec 0 (y i)) as [Yi|Yi].
      - rewrite (Lx i Hi Yi). unfold x. assert (0 <= k i * k i * y i) by (apply Rmult_le_pos; auto; apply Rle_0_sqr). assert (P := Sle i).
        assert (k i * k i * y i * s i <= 0). { assert (0 <= k i * k i * y i * - s i) by (apply Rmult_le_pos; lra). lra. } lra.
      - unfold x, k. destruct (Rle_dec 0 (y i)); lra. }
    apply (Closed true). intros i Hi Yi Ci. assert (E := minimiser x Zx Min i Hi). rewrite (Lx i Hi Yi) in E. unfold x, k in E.
    destruct (Rle_dec 0 (y i)); [|contradiction]. rewrite Ci in E.
    assert (Es : al * s i = 0) by lra. apply Rmult_integral in Es. destruct Es; auto. lra.
  Qed.
End Fiedler.
