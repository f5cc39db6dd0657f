(** From an orthonormal eigensystem of the (normalized) Laplacian matrix to the
    hypotheses of L_Fiedler.v. *)
From Coq Require Import List Bool Arith Reals Lra Sorted Lia.
From Verif Require Import Base M_Graph M_Partition S_Partition S_Contiguity L_Search M_Spectral S_Spectral L_Fiedler.
Import ListNotations.
Local Open Scope R_scope.

Section Eigen.
  Context {N : Type} {EN : EqB N}.
  Variables (ns : list N) (W : N -> N -> R) (s : N -> R) (mat : N -> N -> R) (sys : list (R * (N -> R))).
  Hypothesis ND : NoDup ns.
  Hypothesis W_sym : forall i j, W i j = W j i.
  Hypothesis W_nonneg : forall i j, 0 <= W i j.
  Hypothesis s_pos : forall i, In i ns -> 0 < s i.
  Hypothesis whole : forall (c : N -> bool) a b, In a ns -> In b ns -> c a = true ->
    (forall i j, In i ns -> In j ns -> c i = true -> W i j <> 0 -> c j = true) -> c b = true.
  (** The matrix is the Laplacian scaled by 1/s on both sides. *)
  Hypothesis mat_lap : forall u i, In i ns -> total ns (fun j => mat i j * u j) = lap ns W (fun j => u j / s j) i / s i.
  Hypothesis Sys : eigensystem ns mat sys.
  Notation dot u v := (total ns (fun i => u i * v i)).

  Lemma expand u i : In i ns -> u i = total sys (fun k => snd k i * dot (snd k) u).
  Proof using ND Sys.
    intro Hi. rewrite <- (total_delta ns u i ND Hi).
    rewrite (total_ext ns _ (fun j => total sys (fun k => snd k i * snd k j * u j))).
    - rewrite total_swap. apply total_ext. intros k _. rewrite <- total_scale. apply total_ext. intros; lra.
    - intros j Hj. rewrite total_scale_r. now rewrite (es_rows _ _ _ Sys i j Hi Hj).
  Qed.
  Lemma square u : dot u u = total sys (fun k => dot (snd k) u * dot (snd k) u).
  Proof using ND Sys.
    rewrite (total_ext ns _ (fun i => total sys (fun k => snd k i * u i * dot (snd k) u))).
    - rewrite total_swap. apply total_ext. intros k _. now rewrite total_scale_r.
    - intros i Hi. rewrite (expand u i Hi) at 1. rewrite <- total_scale_r. apply total_ext. intros; lra.
  Qed.
  Lemma quad u : total ns (fun i => u i * total ns (fun j => mat i j * u j)) = total sys (fun k => fst k * (dot (snd k) u * dot (snd k) u)).
  Proof using ND Sys.
    rewrite (total_ext ns _ (fun i => total sys (fun k => snd k i * u i * (fst k * dot (snd k) u)))).
    - rewrite total_swap. apply total_ext. intros k _. rewrite total_scale_r. lra.
    - intros i Hi. rewrite (total_ext ns _ (fun j => total sys (fun k => mat i j * snd k j * dot (snd k) u))).
      + rewrite total_swap, <- total_scale. apply total_ext. intros [l v] Hk. rewrite total_scale_r. cbn [fst snd].
        rewrite (es_eigen _ _ _ Sys l v i Hk Hi). lra.
      + intros j Hj. rewrite (expand u j Hj) at 1. rewrite <- total_scale. apply total_ext. intros; lra.
  Qed.
  Lemma quad_form u : total ns (fun i => u i * total ns (fun j => mat i j * u j)) = form ns W (fun i => u i / s i) (fun i => u i / s i).
  Proof using mat_lap s_pos.
    unfold form. apply total_ext. intros i Hi. rewrite mat_lap by auto. assert (P := s_pos i Hi). field. lra.
  Qed.

  Variables (l0 l1 : R) (v0 v1 : N -> R) (rest : list (R * (N -> R))).
  Hypothesis shape : sys = (l0, v0) :: (l1, v1) :: rest.
  Hypothesis nonempty : ns <> [].

  Lemma in0 : In (l0, v0) sys. Proof using shape. rewrite shape. now left. Qed.
  Lemma in1 : In (l1, v1) sys. Proof using shape. rewrite shape. right. now left. Qed.
  Lemma unit0 : dot v0 v0 = 1.
  Proof using Sys shape. assert (H := es_columns _ _ _ Sys 0%nat 0%nat (l0, v0) (l0, v0)). rewrite shape in H. exact (H eq_refl eq_refl). Qed.
  Lemma unit1 : dot v1 v1 = 1.
  Proof using Sys shape. assert (H := es_columns _ _ _ Sys 1%nat 1%nat (l1, v1) (l1, v1)). rewrite shape in H. exact (H eq_refl eq_refl). Qed.
  Lemma orth01 : dot v0 v1 = 0.
  Proof using Sys shape. assert (H := es_columns _ _ _ Sys 0%nat 1%nat (l0, v0) (l1, v1)). rewrite shape in H. exact (H eq_refl eq_refl). Qed.
  Lemma least k : In k sys -> l0 <= fst k.
  Proof using Sys shape.
    intro H. assert (So := es_sorted _ _ _ Sys). rewrite shape in So, H. cbn [map fst] in So. inversion So as [|? ? _ F]; subst.
    destruct H as [<-|H]; [cbn; lra|]. rewrite Forall_forall in F. apply F. apply (in_map fst) in H. exact H.
  Qed.
  Lemma second k : In k ((l1, v1) :: rest) -> l1 <= fst k.
  Proof using Sys shape.
    intro H. assert (So := es_sorted _ _ _ Sys). rewrite shape in So. cbn [map fst] in So. inversion So as [|? ? So' _]; subst. inversion So' as [|? ? _ F]; subst.
    destruct H as [<-|H]; [cbn; lra|]. rewrite Forall_forall in F. apply F. apply (in_map fst) in H. exact H.
  Qed.
  Lemma l0_form : l0 = form ns W (fun i => v0 i / s i) (fun i => v0 i / s i).
  Proof using Sys shape mat_lap s_pos.
    rewrite <- quad_form. rewrite (total_ext ns _ (fun i => l0 * (v0 i * v0 i))).
    - rewrite total_scale, unit0. lra.
    - intros i Hi. rewrite (es_eigen _ _ _ Sys l0 v0 i in0 Hi). lra.
  Qed.
  Lemma l0_zero : l0 = 0.
  Proof using Sys shape mat_lap s_pos W_sym W_nonneg ND nonempty whole.
    assert (L0 : 0 <= l0) by (rewrite l0_form; apply form_nonneg; auto).
    assert (Q : total sys (fun k => fst k * (dot (snd k) s * dot (snd k) s)) = 0).
    { rewrite <- quad. rewrite (total_ext ns _ (fun _ => 0)); [apply total_0|]. intros i Hi. rewrite mat_lap by auto.
      replace (lap ns W (fun j => s j / s j) i) with 0; [unfold Rdiv; lra|]. symmetry. unfold lap. rewrite (total_ext ns _ (fun _ => 0)); [apply total_0|].
      intros j Hj. assert (P1 := s_pos i Hi). assert (P2 := s_pos j Hj). replace (s i / s i) with 1 by (field; lra). replace (s j / s j) with 1 by (field; lra). lra. }
    destruct (Req_EM_T l0 0) as [|Nz]; auto. exfalso.
    assert (C : forall k, In k sys -> dot (snd k) s = 0).
    { intros k Hk. assert (Lk := least k Hk).
      assert (Z : fst k * (dot (snd k) s * dot (snd k) s) = 0).
      { refine (total_zero sys (fun k => fst k * (dot (snd k) s * dot (snd k) s)) _ Q k Hk). intros j Hj. assert (Lj := least j Hj). apply Rmult_le_pos; [lra|apply Rle_0_sqr]. }
      apply Rmult_integral in Z. destruct Z as [Z|Z]; [lra|]. apply Rmult_integral in Z. tauto. }
    assert (Sq := square s). rewrite (total_ext sys _ (fun _ => 0)) in Sq.
    2:{ intros k Hk. rewrite (C k Hk). lra. }
    rewrite total_0 in Sq. destruct ns as [|n0 r0]; [contradiction|]. assert (P := s_pos n0 (or_introl eq_refl)).
    assert (Z := total_zero _ _ (fun i _ => Rle_0_sqr (s i)) Sq n0 (or_introl eq_refl)). unfold Rsqr in Z. apply Rmult_integral in Z. lra.
  Qed.
  (** The first eigenvector is a multiple of the scale. *)
  Lemma v0_scale : exists c, c <> 0 /\ forall i, In i ns -> v0 i = c * s i.
  Proof using Sys shape mat_lap s_pos W_sym W_nonneg ND nonempty whole.
    assert (F := l0_form). rewrite l0_zero in F. assert (K := form_zero ns W W_sym W_nonneg whole _ (eq_sym F)). cbn beta in K.
    assert (Hn : exists n0, In n0 ns) by (destruct ns as [|n0 r0]; [contradiction|exists n0; now left]). destruct Hn as [n0 H0].
    exists (v0 n0 / s n0). assert (E : forall i, In i ns -> v0 i = v0 n0 / s n0 * s i).
    { intros i Hi. rewrite (K n0 i H0 Hi). assert (P := s_pos i Hi). field. lra. }
    split; auto. intro Z. assert (U := unit0). rewrite (total_ext ns _ (fun _ => 0)) in U; [rewrite total_0 in U; lra|].
    intros i Hi. rewrite (E i Hi), Z. lra.
  Qed.
  Lemma orth_s u : dot s u = 0 <-> dot v0 u = 0.
  Proof using Sys shape mat_lap s_pos W_sym W_nonneg ND nonempty whole.
    destruct v0_scale as (c & Nc & E). rewrite (total_ext ns (fun i => v0 i * u i) (fun i => c * (s i * u i))) by (intros i Hi; rewrite (E i Hi); lra).
    rewrite total_scale. split; intro H; [rewrite H; lra|]. apply Rmult_integral in H. tauto.
  Qed.
  Definition fiedler (i : N) : R := v1 i / s i.
  Lemma fiedler_eigen i : In i ns -> lap ns W fiedler i = l1 * (s i * s i) * fiedler i.
  Proof using Sys shape mat_lap s_pos.
    intro Hi. assert (E := es_eigen _ _ _ Sys l1 v1 i in1 Hi). rewrite mat_lap in E by auto. unfold fiedler at 2. assert (P := s_pos i Hi).
    change (lap ns W fiedler i) with (lap ns W (fun j => v1 j / s j) i). replace (lap ns W (fun j => v1 j / s j) i) with (lap ns W (fun j => v1 j / s j) i / s i * s i) by (field; lra).
    rewrite E. field. lra.
  Qed.
  Lemma fiedler_minimal x : total ns (fun i => s i * s i * x i) = 0 -> l1 * mass ns (fun i => s i * s i) x x <= form ns W x x.
  Proof using Sys shape mat_lap s_pos W_sym W_nonneg ND nonempty whole.
    intro Z. set (u := fun i => s i * x i).
    assert (O : dot v0 u = 0) by (apply orth_s; rewrite <- Z; apply total_ext; intros; unfold u; lra).
    assert (Fu : form ns W x x = form ns W (fun i => u i / s i) (fun i => u i / s i)).
    { assert (Ex : forall i, In i ns -> u i / s i = x i) by (intros i Hi; assert (P := s_pos i Hi); unfold u; field; lra).
      unfold form. apply total_ext. intros i Hi. rewrite (Ex i Hi). f_equal. unfold lap. apply total_ext. intros j Hj. now rewrite (Ex i Hi), (Ex j Hj). }
    rewrite Fu, <- quad_form, quad, shape, total_cons. cbn [fst snd]. rewrite O.
    assert (M : mass ns (fun i => s i * s i) x x = total ((l1, v1) :: rest) (fun k => dot (snd k) u * dot (snd k) u)).
    { replace (mass ns (fun i => s i * s i) x x) with (dot u u) by (unfold mass; apply total_ext; intros; unfold u; lra).
      rewrite square, shape, total_cons. cbn [snd]. rewrite O. lra. }
    rewrite M, <- total_scale. assert (G : total ((l1, v1) :: rest) (fun k => l1 * (dot (snd k) u * dot (snd k) u)) <= total ((l1, v1) :: rest) (fun k => fst k * (dot (snd k) u * dot (snd k) u))).
    { apply total_le. intros k Hk. apply Rmult_le_compat_r; [apply Rle_0_sqr|now apply second]. }
    lra.
  Qed.
  (** Some entry is positive and some entry is negative. *)
  Lemma both_signs : (exists i, In i ns /\ 0 < v1 i) /\ (exists i, In i ns /\ v1 i < 0).
  Proof using Sys shape mat_lap s_pos W_sym W_nonneg ND nonempty whole.
    assert (O : dot s v1 = 0) by (apply orth_s, orth01).
    assert (G : forall v, dot s v = 0 -> dot v v = 1 -> exists i, In i ns /\ 0 < v i).
    { clear - s_pos. intros v O U.
      assert (D : (exists i, In i ns /\ 0 < v i) \/ forall i, In i ns -> v i <= 0).
      { clear. induction ns as [|n r IH]; [right; intros i []|]. destruct (Rlt_dec 0 (v n)) as [H|H]; [left; exists n; split; [now left|auto]|].
        destruct IH as [(i & Hi & H')|A]; [left; exists i; split; [now right|auto]|]. right. intros i [<-|Hi]; auto. lra. }
      destruct D as [D|D]; auto. exfalso.
      assert (Z : forall i, In i ns -> s i * - v i = 0).
      { apply total_zero.
        - intros i Hi. assert (P := s_pos i Hi). assert (v i <= 0) by auto. apply Rmult_le_pos; lra.
        - rewrite (total_ext ns _ (fun i => (-1) * (s i * v i))) by (intros; lra). rewrite total_scale, O. lra. }
      rewrite (total_ext ns _ (fun _ => 0)) in U; [rewrite total_0 in U; lra|]. intros i Hi. assert (P := s_pos i Hi). assert (Zi := Z i Hi). apply Rmult_integral in Zi.
      destruct Zi as [Zi|Zi]; [lra|]. replace (v i) with 0 by lra. lra. }
    split; [apply G; auto; apply unit1|]. destruct (G (fun i => - v1 i)) as (i & Hi & H).
    - rewrite (total_ext ns _ (fun i => (-1) * (s i * v1 i))) by (intros; lra). rewrite total_scale, O. lra.
    - rewrite <- unit1. apply total_ext. intros. lra.
    - exists i. split; auto. lra.
  Qed.
End Eigen.
