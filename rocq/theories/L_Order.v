(** Sums, sorting and order statistics of lists of rationals. *)
From Coq Require Import List Bool Arith ZArith QArith Qabs Lqa Lia Permutation ZifyBool ZifyNat.
From Verif Require Import Base M_Machine M_Election.
Import ListNotations.
Local Open Scope nat_scope.
Local Open Scope list_scope.

Lemma qlt_spec a b : qlt a b = true <-> (a < b)%Q.
Proof.
  unfold qlt. rewrite negb_true_iff. split.
  - intro H. apply Qnot_le_lt. intro K. apply Qle_bool_iff in K. congruence.
  - intro H. destruct (Qle_bool b a) eqn:E; auto. apply Qle_bool_iff in E. lra.
Qed.
Lemma qlt_false a b : qlt a b = false <-> (b <= a)%Q.
Proof. unfold qlt. rewrite negb_false_iff. apply Qle_bool_iff. Qed.
Lemma qdiv_ok a b : ~ (b == 0)%Q -> qdiv a b = Ok (a / b)%Q.
Proof.
  intro H. unfold qdiv. destruct (Qeq_bool b 0) eqn:E; auto. apply Qeq_bool_iff in E. contradiction.
Qed.
Lemma qdiv_zero a b : (b == 0)%Q -> qdiv a b = Err ZeroDivisionError.
Proof. intro H. unfold qdiv. apply Qeq_bool_iff in H. now rewrite H. Qed.

(** ** Sums *)
Lemma qsum_app l1 l2 : (qsum (l1 ++ l2) == qsum l1 + qsum l2)%Q.
Proof. induction l1; simpl; [lra|rewrite IHl1; lra]. Qed.
Lemma qsum_perm l1 l2 : Permutation l1 l2 -> (qsum l1 == qsum l2)%Q.
Proof. induction 1; simpl; lra. Qed.
Lemma qsum_rev l : (qsum (rev l) == qsum l)%Q.
Proof. apply qsum_perm. symmetry. apply Permutation_rev. Qed.
Lemma qsum_nonneg l : (forall x, In x l -> 0 <= x)%Q -> (0 <= qsum l)%Q.
Proof.
  induction l as [|x l IH]; simpl; intro H; [lra|].
  pose proof (H x (or_introl eq_refl)). assert (0 <= qsum l)%Q by auto. lra.
Qed.
Lemma qsum_map_le {X} (f h : X -> Q) l : (forall x, In x l -> f x <= h x)%Q ->
  (qsum (map f l) <= qsum (map h l))%Q.
Proof.
  induction l as [|x l IH]; simpl; intro H; [lra|].
  pose proof (H x (or_introl eq_refl)). assert (qsum (map f l) <= qsum (map h l))%Q by auto. lra.
Qed.
Lemma qsum_map_eq {X} (f h : X -> Q) l : (forall x, In x l -> f x == h x)%Q ->
  (qsum (map f l) == qsum (map h l))%Q.
Proof.
  induction l as [|x l IH]; simpl; intro H; [lra|].
  rewrite (H x (or_introl eq_refl)), IH by auto. lra.
Qed.
Lemma qsum_map_plus {X} (f h : X -> Q) l :
  (qsum (map (fun x => f x + h x) l) == qsum (map f l) + qsum (map h l))%Q.
Proof. induction l; simpl; lra. Qed.
Lemma qsum_map_scale {X} (f : X -> Q) k l : (qsum (map (fun x => k * f x) l) == k * qsum (map f l))%Q.
Proof. induction l as [|x l IH]; simpl; [lra|rewrite IH; lra]. Qed.
Lemma qsum_const {X} (l : list X) k : (qsum (map (fun _ => k) l) == inject_Z (Z.of_nat (List.length l)) * k)%Q.
Proof.
  induction l as [|x l IH].
  - change (0 == 0 * k)%Q. ring.
  - simpl map. simpl qsum. rewrite IH. simpl List.length. rewrite Nat2Z.inj_succ. unfold Z.succ. rewrite inject_Z_plus.
    change (inject_Z 1) with 1%Q. lra.
Qed.
Lemma len_pos {X} (l : list X) : l <> [] -> (0 < inject_Z (Z.of_nat (List.length l)))%Q.
Proof.
  intro H. change 0%Q with (inject_Z 0). rewrite <- Zlt_Qlt. destruct l; [contradiction|]. simpl List.length. lia.
Qed.
Lemma len_nonneg {X} (l : list X) : (0 <= inject_Z (Z.of_nat (List.length l)))%Q.
Proof. change 0%Q with (inject_Z 0). rewrite <- Zle_Qle. lia. Qed.
Lemma div_le a b c : (0 < b)%Q -> (a <= c * b)%Q -> (a / b <= c)%Q.
Proof. intros Hb H. apply Qle_shift_div_r; auto. Qed.
Lemma le_div a b c : (0 < b)%Q -> (c * b <= a)%Q -> (c <= a / b)%Q.
Proof. intros Hb H. apply Qle_shift_div_l; auto. Qed.

(** ** Sorting *)
Lemma insert_perm x l : Permutation (insert x l) (x :: l).
Proof.
  induction l as [|y l IH]; simpl; auto. destruct (Qle_bool x y); auto.
  rewrite IH. apply perm_swap.
Qed.
Lemma isort_perm l : Permutation (isort l) l.
Proof. induction l as [|x l IH]; simpl; auto. rewrite insert_perm. now constructor. Qed.
Lemma isort_length l : List.length (isort l) = List.length l.
Proof. apply Permutation_length, isort_perm. Qed.

Inductive sorted : list Q -> Prop :=
| sorted_nil : sorted []
| sorted_cons : forall x l, (forall y, In y l -> (x <= y)%Q) -> sorted l -> sorted (x :: l).

Lemma insert_sorted x l : sorted l -> sorted (insert x l).
Proof.
  induction 1 as [|y l Hy Hs IH]; simpl.
  - constructor; [intros y []|constructor].
  - destruct (Qle_bool x y) eqn:E.
    + apply Qle_bool_iff in E. constructor; [|constructor; auto].
      intros z [<-|Hz]; auto. specialize (Hy z Hz). lra.
    + constructor; auto. intros z Hz. apply (Permutation_in _ (insert_perm x l)) in Hz.
      destruct Hz as [<-|Hz]; auto.
      assert (~ (x <= y)%Q) by (rewrite <- Qle_bool_iff; congruence). lra.
Qed.
Lemma isort_sorted l : sorted (isort l).
Proof. induction l; simpl; [constructor|now apply insert_sorted]. Qed.

(** ** Order statistics *)

(** How many elements are below / not above [v]. *)
Definition below (v : Q) (l : list Q) : nat := List.length (filter (fun x => qlt x v) l).
Definition upto (v : Q) (l : list Q) : nat := List.length (filter (fun x => Qle_bool x v) l).

(** [v] is the element of rank [i] (counted from 0). *)
Definition ranked (l : list Q) (i : nat) (v : Q) : Prop := below v l <= i < upto v l.

Lemma filter_le {X} (f h : X -> bool) l : (forall x, In x l -> f x = true -> h x = true) ->
  List.length (filter f l) <= List.length (filter h l).
Proof.
  induction l as [|x l IH]; simpl; intro H; auto.
  specialize (IH (fun y Hy => H y (or_intror Hy))). specialize (H x (or_introl eq_refl)).
  destruct (f x), (h x); simpl; try lia.
Qed.
Lemma ranked_unique l i v w : ranked l i v -> ranked l i w -> (v == w)%Q.
Proof.
  assert (H : forall v w, ranked l i v -> ranked l i w -> ~ (v < w)%Q).
  { clear v w. intros v w [_ Hv] [Hw _] Hlt.
    assert (upto v l <= below w l); [|lia].
    apply filter_le. intros x _ Hx. apply Qle_bool_iff in Hx. apply qlt_spec. lra. }
  intros Hv Hw. pose proof (H v w Hv Hw). pose proof (H w v Hw Hv). lra.
Qed.
Lemma below_perm v l l' : Permutation l l' -> below v l = below v l'.
Proof. unfold below. induction 1; simpl; auto; repeat (match goal with |- context [qlt ?a ?b] => destruct (qlt a b) end); simpl; lia. Qed.
Lemma upto_perm v l l' : Permutation l l' -> upto v l = upto v l'.
Proof. unfold upto. induction 1; simpl; auto; repeat (match goal with |- context [Qle_bool ?a ?b] => destruct (Qle_bool a b) end); simpl; lia. Qed.
Lemma ranked_perm l l' i v : Permutation l l' -> ranked l i v -> ranked l' i v.
Proof. intros H. unfold ranked. now rewrite (below_perm v _ _ H), (upto_perm v _ _ H). Qed.
Lemma below_none v l : (forall y, In y l -> (v <= y)%Q) -> below v l = 0.
Proof.
  unfold below. induction l as [|x l IH]; simpl; intro H; auto.
  assert (qlt x v = false) as -> by (apply qlt_false; auto). auto.
Qed.
Lemma ranked_nth l : sorted l -> forall i, i < List.length l -> ranked l i (nth i l 0%Q).
Proof.
  induction 1 as [|x l Hx Hs IH]; simpl; intros i Hi; [lia|]. unfold ranked in *.
  destruct i as [|i].
  - split.
    + rewrite below_none; [lia|]. intros y [<-|Hy]; [lra|auto].
    + unfold upto. simpl. assert (Qle_bool x x = true) as -> by (apply Qle_bool_iff; lra). simpl. lia.
  - specialize (IH i ltac:(lia)). unfold below, upto in *. simpl.
    assert (Qle_bool x (nth i l 0%Q) = true) as ->.
    { apply Qle_bool_iff, Hx, nth_In. lia. }
    simpl. split; [|lia]. destruct (qlt x (nth i l 0%Q)); simpl; lia.
Qed.
Lemma ranked_sort l i : i < List.length l -> ranked l i (nth i (isort l) 0%Q).
Proof.
  intro H. apply (ranked_perm (isort l)); [apply isort_perm|]. apply ranked_nth; [apply isort_sorted|].
  now rewrite isort_length.
Qed.

Lemma below_ext v w l l' : Forall2 Qeq l l' -> (v == w)%Q -> below v l = below w l'.
Proof.
  unfold below. induction 1 as [|x y l l' Hxy _ IH]; intro Hv; simpl; auto.
  assert (qlt x v = qlt y w) as ->.
  { destruct (qlt y w) eqn:E.
    - apply qlt_spec in E. apply qlt_spec. lra.
    - apply qlt_false in E. apply qlt_false. lra. }
  destruct (qlt y w); simpl; auto.
Qed.
Lemma upto_ext v w l l' : Forall2 Qeq l l' -> (v == w)%Q -> upto v l = upto w l'.
Proof.
  unfold upto. induction 1 as [|x y l l' Hxy _ IH]; intro Hv; simpl; auto.
  assert (Qle_bool x v = Qle_bool y w) as ->.
  { destruct (Qle_bool y w) eqn:E.
    - apply Qle_bool_iff in E. apply Qle_bool_iff. lra.
    - destruct (Qle_bool x v) eqn:E'; auto. apply Qle_bool_iff in E'.
      assert (Qle_bool y w = true) by (apply Qle_bool_iff; lra). congruence. }
  destruct (Qle_bool y w); simpl; auto.
Qed.
Lemma ranked_ext l l' i v w : Forall2 Qeq l l' -> (v == w)%Q -> ranked l i v -> ranked l' i w.
Proof. intros H K. unfold ranked. now rewrite (below_ext v w l l' H K), (upto_ext v w l l' H K). Qed.

(** Reflection [x -> 1 - x] reverses ranks. *)
Lemma counts_reflect v l :
  below (1 - v)%Q (map (fun x => 1 - x)%Q l) + upto v l = List.length l /\
  upto (1 - v)%Q (map (fun x => 1 - x)%Q l) + below v l = List.length l.
Proof.
  unfold below, upto. induction l as [|x l [IH1 IH2]]; simpl; auto. split.
  - destruct (qlt (1 - x) (1 - v)) eqn:E1, (Qle_bool x v) eqn:E2; simpl; try lia; exfalso.
    + apply qlt_spec in E1. apply Qle_bool_iff in E2. lra.
    + apply qlt_false in E1. assert (Qle_bool x v = true) by (apply Qle_bool_iff; lra). congruence.
  - destruct (qlt x v) eqn:E1, (Qle_bool (1 - x) (1 - v)) eqn:E2; simpl; try lia; exfalso.
    + apply qlt_spec in E1. apply Qle_bool_iff in E2. lra.
    + apply qlt_false in E1. assert (Qle_bool (1 - x) (1 - v) = true) by (apply Qle_bool_iff; lra). congruence.
Qed.
Lemma ranked_reflect l l' i v : Forall2 Qeq l' (map (fun x => 1 - x)%Q l) ->
  i < List.length l -> ranked l i v -> ranked l' (List.length l - 1 - i) (1 - v)%Q.
Proof.
  intros F Hi [H1 H2].
  apply (ranked_ext (map (fun x => 1 - x)%Q l) l' _ (1 - v)%Q (1 - v)%Q); [|lra|].
  - clear - F. induction F; constructor; auto. lra.
  - destruct (counts_reflect v l) as [C1 C2]. unfold ranked. lia.
Qed.
Lemma Forall2_len {X Y} (F : X -> Y -> Prop) l l' : Forall2 F l l' -> List.length l = List.length l'.
Proof. induction 1; simpl; auto. Qed.
Lemma sort_reflect l l' i : Forall2 Qeq l' (map (fun x => 1 - x)%Q l) -> i < List.length l ->
  (nth i (isort l') 0 == 1 - nth (List.length l - 1 - i) (isort l) 0)%Q.
Proof.
  intros F Hi. assert (El : List.length l' = List.length l).
  { apply Forall2_len in F. now rewrite map_length in F. }
  apply (ranked_unique l' i).
  - apply ranked_sort. lia.
  - replace i with (List.length l - 1 - (List.length l - 1 - i)) at 1 by lia.
    apply ranked_reflect; auto; [lia|]. apply ranked_sort. lia.
Qed.
