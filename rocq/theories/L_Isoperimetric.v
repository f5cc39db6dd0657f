(** Sets of unit cells: perimeter and area (used by C103). *)
From Coq Require Import List Bool Arith Lia ZifyBool ZifyNat.
From Verif Require Import Base L_Partition L_Sums L_Locality M_Grid P_GridPerimeter.
Import ListNotations.
Local Open Scope nat_scope.
Local Open Scope list_scope.

Lemma max_in l : l <> [] -> In (list_max l) l.
Proof.
  induction l as [|x l IH]; [contradiction|]. intros _. destruct l as [|y l]; [left; cbn; lia|].
  assert (In (list_max (y :: l)) (y :: l)) by (apply IH; discriminate). change (list_max (x :: y :: l)) with (Nat.max x (list_max (y :: l))).
  destruct (Nat.max_spec x (list_max (y :: l))) as [[_ ->]|[_ ->]]; [right; exact H|now left].
Qed.
Lemma max_ge l x : In x l -> x <= list_max l.
Proof. intro H. assert (F := proj1 (list_max_le l (list_max l)) (le_n _)). rewrite Forall_forall in F. now apply F. Qed.
Definition lowest (l : list nat) : nat := fold_right Nat.min (list_max l) l.
Lemma min_le d l x : In x l -> fold_right Nat.min d l <= x.
Proof. induction l as [|y l IH]; [intros []|]. cbn. intros [->|H]; [lia|]. specialize (IH H). lia. Qed.
Lemma min_in d l : fold_right Nat.min d l = d \/ In (fold_right Nat.min d l) l.
Proof.
  induction l as [|y l IH]; [now left|]. cbn. destruct (Nat.min_spec y (fold_right Nat.min d l)) as [[_ ->]|[_ ->]]; [right; now left|].
  destruct IH; [now left|right; now right].
Qed.
Lemma lowest_in l : l <> [] -> In (lowest l) l.
Proof. intro H. unfold lowest. destruct (min_in (list_max l) l) as [->|X]; [now apply max_in|exact X]. Qed.
Lemma lowest_le l x : In x l -> lowest l <= x.
Proof. apply min_le. Qed.

(** A run of numbers without gaps is a range. *)
Lemma gapless I : NoDup I -> I <> [] -> (forall x y, In x I -> In y I -> x < y -> In (S x) I) ->
  forall x, In x I <-> lowest I <= x < lowest I + length I.
Proof.
  intros ND NE G. assert (Step : forall k, lowest I + k <= list_max I -> In (lowest I + k) I).
  { induction k; intro H; [rewrite Nat.add_0_r; now apply lowest_in|]. rewrite Nat.add_succ_r. apply (G _ (list_max I)); [apply IHk; lia|now apply max_in|lia]. }
  assert (Mem : forall x, In x I <-> lowest I <= x <= list_max I).
  { intro x. split; [intro H; split; [now apply lowest_le|now apply max_ge]|]. intros [H1 H2]. replace x with (lowest I + (x - lowest I)) by lia. apply Step. lia. }
  assert (Len : length I = S (list_max I) - lowest I).
  { apply (numbers_unique (fun x => In x I)); [exists I; split; [exact ND|split; reflexivity]|].
    exists (seq (lowest I) (S (list_max I) - lowest I)). split; [apply seq_NoDup|]. split; [|apply seq_length].
    intro x. rewrite in_seq, Mem. assert (lowest I <= list_max I) by (apply max_ge; now apply lowest_in). lia. }
  intro x. rewrite Mem, Len. assert (lowest I <= list_max I) by (apply max_ge; now apply lowest_in). lia.
Qed.

(** A side of a cell of [D] with no cell of [D] behind it. *)
Definition exposed (D : list cell) (cs : cell * side) : Prop :=
  In (fst cs) D /\ forall d, across (fst cs) (snd cs) = Some d -> ~ In d D.
Definition square_at (Pr : cell -> Prop) (i0 j0 w : nat) : Prop :=
  forall i j, Pr (i, j) <-> (i0 <= i < i0 + w /\ j0 <= j < j0 + w).

Section Iso.
  Variable D : list cell.
  Hypothesis ND : NoDup D.
  Hypothesis NE : D <> [].
  Let I := nodup Nat.eq_dec (map fst D).
  Let J := nodup Nat.eq_dec (map snd D).
  Let col i := map snd (filter (fun c => Nat.eqb (fst c) i) D).
  Let row j := map fst (filter (fun c => Nat.eqb (snd c) j) D).
  Lemma in_col i j : In j (col i) <-> In (i, j) D.
  Proof.
    unfold col. rewrite in_map_iff. split.
    - intros ([a b] & <- & H). apply filter_In in H. cbn in *. destruct H as [H E]. apply Nat.eqb_eq in E. now subst.
    - intro H. exists (i, j). split; [reflexivity|]. apply filter_In. cbn. now rewrite Nat.eqb_refl.
  Qed.
  Lemma in_row i j : In i (row j) <-> In (i, j) D.
  Proof.
    unfold row. rewrite in_map_iff. split.
    - intros ([a b] & <- & H). apply filter_In in H. cbn in *. destruct H as [H E]. apply Nat.eqb_eq in E. now subst.
    - intro H. exists (i, j). split; [reflexivity|]. apply filter_In. cbn. now rewrite Nat.eqb_refl.
  Qed.
  Lemma in_I i : In i I <-> exists j, In (i, j) D.
  Proof. unfold I. rewrite nodup_In, in_map_iff. split; [intros ([a b] & <- & H); eauto|intros [j H]; exists (i, j); auto]. Qed.
  Lemma in_J j : In j J <-> exists i, In (i, j) D.
  Proof. unfold J. rewrite nodup_In, in_map_iff. split; [intros ([a b] & <- & H); eauto|intros [i H]; exists (i, j); auto]. Qed.
  Lemma col_ne i : In i I -> col i <> [].
  Proof. intros H E. apply in_I in H. destruct H as [j H]. apply in_col in H. rewrite E in H. destruct H. Qed.
  Lemma row_ne j : In j J -> row j <> [].
  Proof. intros H E. apply in_J in H. destruct H as [i H]. apply in_row in H. rewrite E in H. destruct H. Qed.
  Definition rim : list (cell * side) :=
    map (fun i => ((i, list_max (col i)), Right)) I ++ map (fun i => ((i, lowest (col i)), Left)) I ++
    map (fun j => ((list_max (row j), j), Up)) J ++ map (fun j => ((lowest (row j), j), Down)) J.
  Lemma rim_nodup : NoDup rim.
  Proof.
    assert (N1 : NoDup I) by apply NoDup_nodup. assert (N2 : NoDup J) by apply NoDup_nodup. unfold rim. repeat rewrite NoDup_app_iff.
    repeat split; try (apply FinFun.Injective_map_NoDup; [intros x y; intro E; congruence|assumption]);
      intros cs H1 H2; repeat rewrite in_app_iff in H2; repeat rewrite in_map_iff in H2; apply in_map_iff in H1; destruct H1 as (x & <- & _);
      repeat destruct H2 as [H2|H2]; destruct H2 as (y & [=] & _).
  Qed.
  Lemma rim_exposed cs : In cs rim -> exposed D cs.
  Proof.
    intro H. unfold rim in H. repeat rewrite in_app_iff in H. repeat rewrite in_map_iff in H.
    destruct H as [(i & <- & H)|[(i & <- & H)|[(j & <- & H)|(j & <- & H)]]]; unfold exposed; cbn [fst snd].
    - split; [apply in_col, max_in, col_ne, H|]. intros d [= <-] Hd. apply in_col, max_ge in Hd. lia.
    - split; [apply in_col, lowest_in, col_ne, H|]. intros d Hd Hin. destruct (lowest (col i)) as [|j] eqn:E; [discriminate|]. injection Hd as <-. apply in_col, lowest_le in Hin. lia.
    - split; [apply in_row, max_in, row_ne, H|]. intros d [= <-] Hd. apply in_row, max_ge in Hd. lia.
    - split; [apply in_row, lowest_in, row_ne, H|]. intros d Hd Hin. destruct (lowest (row j)) as [|i] eqn:E; [discriminate|]. injection Hd as <-. apply in_row, lowest_le in Hin. lia.
  Qed.
  Lemma rim_length : length rim = 2 * (length I + length J).
  Proof. unfold rim. rewrite !app_length, !map_length. lia. Qed.
  Lemma prod_incl : incl D (list_prod I J).
  Proof. intros [i j] H. apply in_prod_iff. split; [apply in_I|apply in_J]; eauto. Qed.
  Lemma area_le : length D <= length I * length J.
  Proof. rewrite <- prod_length. apply NoDup_incl_length; [exact ND|apply prod_incl]. Qed.
  Lemma perimeter_ge k : numbers (exposed D) k -> 2 * (length I + length J) <= k.
  Proof.
    intros (l & Nl & Il & <-). rewrite <- rim_length. apply NoDup_incl_length; [apply rim_nodup|]. intros cs H. apply Il. now apply rim_exposed.
  Qed.
  Lemma iso_ineq k : numbers (exposed D) k -> 16 * length D <= k * k.
  Proof.
    intro Hk. assert (A := area_le). assert (B := perimeter_ge k Hk). set (w := length I) in *. set (v := length J) in *.
    assert (4 * (w * v) <= (w + v) * (w + v)). { destruct (Nat.le_ge_cases w v) as [L|L]; [replace v with (w + (v - w)) by lia|replace w with (v + (w - v)) by lia]; nia. }
    assert ((2 * (w + v)) * (2 * (w + v)) <= k * k) by (apply Nat.mul_le_mono; exact B). lia.
  Qed.
  Lemma some_cell : exists i j, In (i, j) D.
  Proof. generalize NE. clear. destruct D as [|[a b] l]; [intro H; now elim H|]. intros _. exists a, b. now left. Qed.
  Lemma iso_eq k : numbers (exposed D) k -> 16 * length D = k * k -> exists i0 j0 w, 0 < w /\ square_at (fun c => In c D) i0 j0 w.
  Proof.
    intros Hk Eq. assert (A := area_le). assert (B := perimeter_ge k Hk).
    assert (Hw : length I = length J /\ length D = length I * length J /\ k = 2 * (length I + length J)).
    { set (w := length I) in *. set (v := length J) in *. assert (C : (2 * (w + v)) * (2 * (w + v)) <= k * k) by (apply Nat.mul_le_mono; exact B).
      assert (E1 : w = v).
      { destruct (Nat.lt_trichotomy w v) as [L|[L|L]]; [|exact L|]; exfalso.
        - assert (4 * (w * v) < (w + v) * (w + v)) by (replace v with (w + (v - w)) by lia; assert (0 < v - w) by lia; nia). lia.
        - assert (4 * (w * v) < (w + v) * (w + v)) by (replace w with (v + (w - v)) by lia; assert (0 < w - v) by lia; nia). lia. }
      split; [exact E1|]. split; [rewrite <- E1 in *; nia|]. rewrite <- E1 in *. apply Nat.le_antisymm; [|exact B]. apply Nat.square_le_simpl_nonneg; [lia|nia]. }
    destruct Hw as (W1 & W2 & W3). set (w := length I) in *.
    assert (Full : forall i j, In i I -> In j J -> In (i, j) D).
    { assert (L : incl (list_prod I J) D) by (apply NoDup_length_incl; [exact ND|rewrite prod_length; apply Nat.eq_le_incl; symmetry; exact W2|apply prod_incl]).
      intros i j Hi Hj. apply L. now apply in_prod_iff. }
    assert (Tight : forall cs, exposed D cs -> In cs rim).
    { destruct Hk as (l & Nl & Il & Ll). assert (L : incl l rim) by (apply NoDup_length_incl; [apply rim_nodup|rewrite rim_length; fold w; lia|intros cs H; apply Il; now apply rim_exposed]).
      intros cs H. apply L. now apply Il. }
    destruct some_cell as (i1 & j1 & Hc). assert (Hi1 : In i1 I) by (apply in_I; eauto). assert (Hj1 : In j1 J) by (apply in_J; eauto).
    assert (NI : I <> []) by (intro E; rewrite E in Hi1; destruct Hi1). assert (NJ : J <> []) by (intro E; rewrite E in Hj1; destruct Hj1).
    assert (GI : forall x, In x I <-> lowest I <= x < lowest I + length I).
    { apply gapless; [apply NoDup_nodup|exact NI|]. intros x y Hx Hy L. destruct (in_dec Nat.eq_dec (S x) I) as [H|H]; [exact H|exfalso].
      assert (X : In ((x, j1), Up) rim).
      { apply Tight. split; cbn [fst snd]; [now apply Full|]. intros d [= <-] Hd. apply H, in_I. eauto. }
      unfold rim in X. repeat rewrite in_app_iff in X. repeat rewrite in_map_iff in X. destruct X as [(z & [=] & _)|[(z & [=] & _)|[(z & [= E1 <-] & _)|(z & [=] & _)]]].
      assert (In y (row z)) by (apply in_row, Full; assumption). assert (y <= list_max (row z)) by now apply max_ge. lia. }
    assert (GJ : forall x, In x J <-> lowest J <= x < lowest J + length J).
    { apply gapless; [apply NoDup_nodup|exact NJ|]. intros x y Hx Hy L. destruct (in_dec Nat.eq_dec (S x) J) as [H|H]; [exact H|exfalso].
      assert (X : In ((i1, x), Right) rim).
      { apply Tight. split; cbn [fst snd]; [now apply Full|]. intros d [= <-] Hd. apply H, in_J. eauto. }
      unfold rim in X. repeat rewrite in_app_iff in X. repeat rewrite in_map_iff in X. destruct X as [(z & [= <- E1] & _)|[(z & [=] & _)|[(z & [=] & _)|(z & [=] & _)]]].
      assert (In y (col z)) by (apply in_col, Full; assumption). assert (y <= list_max (col z)) by now apply max_ge. lia. }
    exists (lowest I), (lowest J), w. split; [unfold w; apply Nat.neq_0_lt_0; intro E; apply length_zero_iff_nil in E; contradiction|]. intros i j. rewrite W1 at 2. unfold w. rewrite <- GI, <- GJ. split.
    - intro H. split; [apply in_I|apply in_J]; eauto.
    - intros [H1 H2]. now apply Full.
  Qed.
End Iso.

Lemma square_eq D i0 j0 w k : NoDup D -> 0 < w -> square_at (fun c => In c D) i0 j0 w -> numbers (exposed D) k -> 16 * length D = k * k.
Proof.
  intros ND Hw Sq Hk.
  assert (L1 : length D = w * w).
  { apply (numbers_unique (fun c => In c D)); [exists D; split; [exact ND|split; reflexivity]|].
    exists (list_prod (seq i0 w) (seq j0 w)). split; [|split; [intros [i j]; etransitivity; [apply in_prod_iff|]; rewrite !in_seq; symmetry; apply Sq|etransitivity; [apply prod_length|]; rewrite !seq_length; reflexivity]].
    assert (NoDup (seq i0 w)) by apply seq_NoDup. assert (Nj : NoDup (seq j0 w)) by apply seq_NoDup.
    induction H as [|x l Hx Nl IH]; [constructor|]. cbn [list_prod]. apply NoDup_app_iff. split; [apply FinFun.Injective_map_NoDup; [intros u v E; congruence|exact Nj]|]. split; [exact IH|].
    intros [u v] H1 H2. apply in_map_iff in H1. destruct H1 as (z & [= <- <-] & _). apply in_prod_iff in H2. tauto. }
  assert (L2 : k = 4 * w).
  { apply (numbers_unique _ _ _ Hk).
    exists (map (fun i => ((i, j0 + w - 1), Right)) (seq i0 w) ++ map (fun i => ((i, j0), Left)) (seq i0 w) ++
            map (fun j => ((i0 + w - 1, j), Up)) (seq j0 w) ++ map (fun j => ((i0, j), Down)) (seq j0 w)).
    split; [|split].
    - assert (N1 : NoDup (seq i0 w)) by apply seq_NoDup. assert (N2 : NoDup (seq j0 w)) by apply seq_NoDup. repeat rewrite NoDup_app_iff.
      repeat split; try (apply FinFun.Injective_map_NoDup; [intros x y; intro E; congruence|assumption]);
        intros cs H1 H2; repeat rewrite in_app_iff in H2; repeat rewrite in_map_iff in H2; apply in_map_iff in H1; destruct H1 as (x & <- & _);
        repeat destruct H2 as [H2|H2]; destruct H2 as (y & [=] & _).
    - intros [[i j] s]. repeat rewrite in_app_iff. repeat rewrite in_map_iff. unfold exposed. cbn [fst snd]. rewrite (Sq i j). split.
      + intros [(x & [= <- <- <-] & H)|[(x & [= <- <- <-] & H)|[(x & [= <- <- <-] & H)|(x & [= <- <- <-] & H)]]]; apply in_seq in H; (split; [lia|]); intros [a b] Hd.
        * injection Hd as <- <-. rewrite (Sq x _). lia.
        * destruct j0 as [|j']; [discriminate|]. injection Hd as <- <-. rewrite (Sq x _). lia.
        * injection Hd as <- <-. rewrite (Sq _ x). lia.
        * destruct i0 as [|i']; [discriminate|]. injection Hd as <- <-. rewrite (Sq _ x). lia.
      + intros [H Hx]. destruct s; cbn [across] in Hx.
        * right. right. left. exists j. split; [|apply in_seq; lia]. assert (X := Hx _ eq_refl). rewrite (Sq _ _) in X. do 2 f_equal. lia.
        * right. right. right. exists j. split; [|apply in_seq; lia]. do 2 f_equal. destruct i as [|i']; [lia|]. assert (X := Hx _ eq_refl). rewrite (Sq _ _) in X. lia.
        * right. left. exists i. split; [|apply in_seq; lia]. do 2 f_equal. destruct j as [|j']; [lia|]. assert (X := Hx _ eq_refl). rewrite (Sq _ _) in X. lia.
        * left. exists i. split; [|apply in_seq; lia]. assert (X := Hx _ eq_refl). rewrite (Sq _ _) in X. do 2 f_equal. lia.
    - rewrite !app_length, !map_length, !seq_length. lia. }
  subst k. rewrite L1. lia.
Qed.
