(** C69: the Gingleator's scores. *)
From Coq Require Import List Bool Arith ZArith QArith Lia Lqa ZifyBool ZifyNat.
From Verif Require Import Base M_Constraints P_Constraints M_Election M_Gingles.
Import ListNotations.
Local Open Scope nat_scope.
Local Open Scope list_scope.

(** ** Specification *)

(** [n] of the shares reach the threshold. *)
Inductive reaching (threshold : Q) : list Q -> nat -> Prop :=
| reach_nil : reaching threshold [] 0
| reach_yes v l n : (threshold <= v)%Q -> reaching threshold l n -> reaching threshold (v :: l) (S n)
| reach_no v l n : (v < threshold)%Q -> reaching threshold l n -> reaching threshold (v :: l) n.
Definition shares (percs : list Q) : Prop := forall v, In v percs -> (0 <= v <= 1)%Q.

(** ** Lemmas *)
Lemma qlt_iff a b : qlt a b = true <-> (a < b)%Q.
Proof. unfold qlt. rewrite negb_true_iff, <- not_true_iff_false, Qle_bool_iff. split; [apply Qnot_le_lt|apply Qlt_not_le]. Qed.
Lemma count_from l : forall k, fold_left (fun n (b : bool) => n + (if b then 1 else 0)) l k = k + count_true l.
Proof.
  unfold count_true. induction l as [|b l IH]; intro k; cbn [fold_left]; [lia|]. rewrite IH. rewrite (IH (0 + _)). lia.
Qed.
Lemma num_cons v l t : num_opportunity_dists (v :: l) t = (if Qle_bool t v then 1 else 0) + num_opportunity_dists l t.
Proof. unfold num_opportunity_dists. cbn [map]. unfold count_true at 1. cbn [fold_left]. rewrite count_from. reflexivity. Qed.
Lemma num_iff l t : forall n, num_opportunity_dists l t = n <-> reaching t l n.
Proof.
  induction l as [|v l IH]; intro n.
  - cbn. split; [intros <-; constructor|now inversion 1].
  - rewrite num_cons. destruct (Qle_bool t v) eqn:E.
    + apply Qle_bool_iff in E. split.
      * intros <-. constructor; auto. now apply IH.
      * inversion 1; subst; [cbn; f_equal; now apply IH|lra].
    + assert (E' : (v < t)%Q) by (apply Qnot_le_lt; rewrite <- Qle_bool_iff; congruence). split.
      * intros <-. apply reach_no; auto. now apply IH.
      * inversion 1; subst; [lra|now apply IH].
Qed.
Lemma num_zero l t : num_opportunity_dists l t = 0 -> forall v, In v l -> (v < t)%Q.
Proof.
  induction l as [|v l IH]; intros E w []; rewrite num_cons in E; destruct (Qle_bool t v) eqn:El; try lia.
  - subst w. apply Qnot_le_lt. rewrite <- Qle_bool_iff. congruence.
  - apply IH; auto.
Qed.
Lemma num_full l t : num_opportunity_dists l t = length (filter (fun v => Qle_bool t v) l).
Proof. induction l as [|v l IH]; [reflexivity|]. rewrite num_cons, IH. cbn [filter]. destruct (Qle_bool t v); reflexivity. Qed.
Lemma next_dist_spec l t : (exists v, In v l /\ (v < t)%Q) ->
  exists m, py_max (filter (fun i => qlt i t) l) = Ok m /\ In m l /\ (m < t)%Q /\ forall v, In v l -> (v < t)%Q -> (v <= m)%Q.
Proof.
  intros (v & Hv & Ht). destruct (py_max_spec (filter (fun i => qlt i t) l)) as (m & Em & Hm & Max).
  - intro E. assert (In v (filter (fun i => qlt i t) l)) by (apply filter_In; rewrite qlt_iff; auto). rewrite E in H. destruct H.
  - exists m. split; auto. apply filter_In in Hm. rewrite qlt_iff in Hm. destruct Hm. split; auto. split; auto. intros w Hw Hl. apply Max. apply filter_In. rewrite qlt_iff. auto.
Qed.
Lemma next_dist_none l t : (forall v, In v l -> (t <= v)%Q) -> filter (fun i => qlt i t) l = [].
Proof.
  intro H. destruct (filter (fun i => qlt i t) l) as [|v r] eqn:E; auto. exfalso. assert (Hv : In v (filter (fun i => qlt i t) l)) by (rewrite E; now left).
  apply filter_In in Hv. rewrite qlt_iff in Hv. destruct Hv as [Hv Hl]. apply H in Hv. lra.
Qed.
Lemma all_or_some l t : (forall v, In v l -> (t <= v)%Q) \/ (exists v, In v l /\ (v < t)%Q).
Proof.
  induction l as [|v l [IH|(w & Hw & Hl)]]; [left; intros v []| |right; exists w; split; [now right|auto]].
  destruct (Qlt_le_dec v t) as [H|H]; [right; exists v; split; [now left|auto]|left; intros w [<-|Hw]; auto].
Qed.
Lemma q_of_nat_S n : (q_of_nat (S n) == q_of_nat n + 1)%Q.
Proof. unfold q_of_nat. rewrite Nat2Z.inj_succ. unfold Z.succ. rewrite inject_Z_plus. reflexivity. Qed.
Lemma q_of_nat_lt a b : a < b -> (q_of_nat a + 1 <= q_of_nat b)%Q.
Proof.
  intro H. rewrite <- q_of_nat_S. unfold q_of_nat. rewrite <- Zle_Qle. lia.
Qed.
Lemma q_of_nat_nonneg n : (0 <= q_of_nat n)%Q.
Proof. unfold q_of_nat. change 0%Q with (inject_Z 0). rewrite <- Zle_Qle. lia. Qed.

(** ** Theorems *)

Theorem C69_number percs threshold n : num_opportunity_dists percs threshold = n <-> reaching threshold percs n.
Proof. apply num_iff. Qed.

(** The reward is the share of the best district below the threshold, or its
    distance from the last tenth before the threshold, ten times. *)
Definition best_below (threshold : Q) (percs : list Q) (m : Q) : Prop :=
  In m percs /\ (m < threshold)%Q /\ forall v, In v percs -> (v < threshold)%Q -> (v <= m)%Q.

Theorem C69_reward_partial percs threshold n : shares percs -> (threshold <= 1)%Q -> reaching threshold percs n ->
  ((forall v, In v percs -> (threshold <= v)%Q) <-> reward_partial_dist percs threshold = Err ValueError) /\
  ((exists v, In v percs /\ (v < threshold)%Q) ->
     exists m s, best_below threshold percs m /\ reward_partial_dist percs threshold = Ok s /\ (s == q_of_nat n + m)%Q /\
       (q_of_nat n <= s < q_of_nat n + 1)%Q).
Proof.
  intros Sh Ht Hn. apply num_iff in Hn. unfold reward_partial_dist. rewrite Hn. split.
  - split.
    + intro All. rewrite next_dist_none by auto. reflexivity.
    + intro E. destruct (all_or_some percs threshold) as [|Some_]; auto. destruct (next_dist_spec _ _ Some_) as (m & Em & _). rewrite Em in E. discriminate.
  - intro Some_. destruct (next_dist_spec _ _ Some_) as (m & Em & Hm & Hl & Max). exists m. rewrite Em. cbn. eexists. split; [split; auto|]. split; [reflexivity|].
    destruct (Sh m Hm). split; [reflexivity|]. split; lra.
Qed.
Theorem C69_reward_close percs threshold n : shares percs -> reaching threshold percs n ->
  ((forall v, In v percs -> (threshold <= v)%Q) <-> reward_next_highest_close percs threshold = Err ValueError) /\
  ((exists v, In v percs /\ (v < threshold)%Q) ->
     exists m s, best_below threshold percs m /\ reward_next_highest_close percs threshold = Ok s /\
       (q_of_nat n <= s < q_of_nat n + 1)%Q /\
       ((m <= threshold - (1 # 10))%Q -> (s == q_of_nat n)%Q) /\
       ((threshold - (1 # 10) <= m)%Q -> (s == q_of_nat n + 10 * (m - (threshold - (1 # 10))))%Q)).
Proof.
  intros Sh Hn. apply num_iff in Hn. unfold reward_next_highest_close. rewrite Hn. split.
  - split.
    + intro All. rewrite next_dist_none by auto. reflexivity.
    + intro E. destruct (all_or_some percs threshold) as [|Some_]; auto. destruct (next_dist_spec _ _ Some_) as (m & Em & _). rewrite Em in E. cbn in E.
      destruct (qlt m _) in E; discriminate.
  - intro Some_. destruct (next_dist_spec _ _ Some_) as (m & Em & Hm & Hl & Max). exists m. rewrite Em. cbn [bind].
    destruct (qlt m (threshold - (1 # 10))) eqn:E.
    + apply qlt_iff in E. eexists. split; [split; auto|]. split; [reflexivity|]. split; [lra|]. split; intros; lra.
    + assert (E' : (threshold - (1 # 10) <= m)%Q) by (apply Qnot_lt_le; rewrite <- qlt_iff; congruence).
      eexists. split; [split; auto|]. split; [reflexivity|]. split; [lra|]. split; intros; lra.
Qed.
Lemma unit_share a b : (0 <= a)%Q -> (a <= b)%Q -> (0 < b)%Q -> (0 <= a / b <= 1)%Q.
Proof.
  intros H1 H2 H3. split.
  - apply Qle_shift_div_l; lra.
  - apply Qle_shift_div_r; lra.
Qed.
(** The bonus falls from 1 to 0 as the largest share rises from the threshold
    to 1. *)
Theorem C69_penalize_maximum percs threshold n : shares percs -> (threshold < 1)%Q -> reaching threshold percs n ->
  exists s, penalize_maximum_over percs threshold = Ok s /\ (q_of_nat n <= s <= q_of_nat n + 1)%Q /\
    (n = 0 -> (s == 0)%Q) /\
    (0 < n -> exists m, In m percs /\ (forall v, In v percs -> (v <= m)%Q) /\ ((s - q_of_nat n) * (1 - threshold) == 1 - m)%Q).
Proof.
  intros Sh Ht Hn. apply num_iff in Hn. unfold penalize_maximum_over. rewrite Hn. destruct (Nat.eqb_spec n 0) as [->|N0].
  - eexists. split; [reflexivity|]. change (q_of_nat 0) with 0%Q. split; [lra|]. split; [reflexivity|lia].
  - destruct percs as [|v0 percs]; [cbn in Hn; lia|]. destruct (py_max_spec (v0 :: percs)) as (m & Em & Hm & Max); [discriminate|]. rewrite Em. cbn [bind].
    unfold qdiv. assert (Ez : Qeq_bool (1 - threshold) 0 = false) by (apply not_true_iff_false; rewrite Qeq_bool_iff; lra). rewrite Ez. cbn [bind].
    assert (threshold <= m)%Q.
    { destruct (Qlt_le_dec m threshold) as [Hl|]; auto. exfalso. apply N0. rewrite <- Hn. clear - Max Hl. revert Max. generalize (v0 :: percs). intros l Max.
      induction l as [|v l IH]; [reflexivity|]. rewrite num_cons, IH by (intros; apply Max; now right).
      replace (Qle_bool threshold v) with false; [reflexivity|]. symmetry. apply not_true_iff_false. rewrite Qle_bool_iff. assert (v <= m)%Q by (apply Max; now left). lra. }
    destruct (Sh m Hm). assert (B := unit_share (1 - m) (1 - threshold) ltac:(lra) ltac:(lra) ltac:(lra)).
    eexists. split; [reflexivity|]. split; [lra|]. split; [contradiction|]. intros _. exists m. split; auto. split; auto. field. lra.
Qed.
Lemma sum_bounds l a b : (forall v, In v l -> (a <= v <= b)%Q) -> (a * q_of_nat (length l) <= fold_right Qplus 0 l <= b * q_of_nat (length l))%Q.
Proof.
  induction l as [|v l IH]; intro H; cbn [length fold_right].
  - change (q_of_nat 0) with 0%Q. lra.
  - rewrite q_of_nat_S. destruct (H v (or_introl eq_refl)). destruct IH as [I1 I2]; [intros; apply H; now right|]. split; lra.
Qed.
Theorem C69_penalize_average percs threshold n : shares percs -> (threshold < 1)%Q -> reaching threshold percs n ->
  exists s, penalize_avg_over percs threshold = Ok (Some s) /\ (q_of_nat n <= s <= q_of_nat n + 1)%Q /\
    (n = 0 -> (s == 0)%Q) /\
    (0 < n -> ((s - q_of_nat n) * (1 - threshold) * q_of_nat n == q_of_nat n - fold_right Qplus 0 (filter (fun v => Qle_bool threshold v) percs))%Q).
Proof.
  intros Sh Ht Hn. apply num_iff in Hn. rewrite num_full in Hn. unfold penalize_avg_over. set (l := filter (fun v => Qle_bool threshold v) percs) in *.
  assert (Hl : forall v, In v l -> (threshold <= v <= 1)%Q).
  { intros v Hv. apply filter_In in Hv. rewrite Qle_bool_iff in Hv. destruct Hv as [Hv Hv']. apply Sh in Hv. lra. }
  assert (D : forall x, (let n0 := q_of_nat (length l) in match l with [] => Ok (Some 0%Q) | _ :: _ => Ok (Some (x n0)) end) =
     if Nat.eqb n 0 then Ok (Some 0%Q) else Ok (Some (x (q_of_nat n)))) by (intro x; destruct l; cbn in Hn; subst n; reflexivity).
  assert (Ez : Qeq_bool (1 - threshold) 0 = false) by (apply not_true_iff_false; rewrite Qeq_bool_iff; lra). rewrite Ez.
  specialize (D (fun n0 => n0 + (1 - fold_right Qplus 0 l / n0) / (1 - threshold))%Q). cbv zeta beta in D |- *. clearbody l.
  rewrite D. clear D. destruct (Nat.eqb_spec n 0) as [->|N0].
  - eexists. split; [reflexivity|]. change (q_of_nat 0) with 0%Q. split; [lra|]. split; [reflexivity|lia].
  - destruct (sum_bounds l threshold 1 Hl) as [B1 B2]. rewrite Hn in B1, B2. assert (Hp : (1 <= q_of_nat n)%Q).
    { destruct n; [lia|]. rewrite q_of_nat_S. assert (P := q_of_nat_nonneg n). lra. }
    set (S_ := fold_right Qplus 0%Q l) in *. set (k := q_of_nat n) in *.
    assert (A1 : (threshold <= S_ / k)%Q) by (apply Qle_shift_div_l; lra). assert (A2 : (S_ / k <= 1)%Q) by (apply Qle_shift_div_r; lra).
    assert (B := unit_share (1 - S_ / k) (1 - threshold) ltac:(lra) ltac:(lra) ltac:(lra)).
    eexists. split; [reflexivity|]. split; [lra|]. split; [contradiction|]. intros _. field. split; lra.
Qed.
(** Plans with more opportunity districts score at least as high, whichever of
    the five scores is used; strictly higher with the rewards. *)
Theorem C69_more_districts percs percs' threshold n n' : shares percs -> shares percs' -> (threshold < 1)%Q ->
  reaching threshold percs n -> reaching threshold percs' n' -> n < n' ->
  num_opportunity_dists percs threshold < num_opportunity_dists percs' threshold /\
  (forall s s', reward_partial_dist percs threshold = Ok s -> reward_partial_dist percs' threshold = Ok s' -> (s < s')%Q) /\
  (forall s s', reward_next_highest_close percs threshold = Ok s -> reward_next_highest_close percs' threshold = Ok s' -> (s < s')%Q) /\
  (exists s s', penalize_maximum_over percs threshold = Ok s /\ penalize_maximum_over percs' threshold = Ok s' /\ (s <= s')%Q) /\
  (exists s s', penalize_avg_over percs threshold = Ok (Some s) /\ penalize_avg_over percs' threshold = Ok (Some s') /\ (s <= s')%Q).
Proof.
  intros Sh Sh' Ht Hn Hn' Hl. assert (L := q_of_nat_lt _ _ Hl). split.
  { apply num_iff in Hn, Hn'. lia. }
  split.
  { intros s s' E E'. destruct (C69_reward_partial percs threshold n Sh (Qlt_le_weak _ _ Ht) Hn) as [A B].
    destruct (C69_reward_partial percs' threshold n' Sh' (Qlt_le_weak _ _ Ht) Hn') as [A' B'].
    destruct (all_or_some percs threshold) as [X|X]; [apply A in X; congruence|]. destruct (all_or_some percs' threshold) as [X'|X']; [apply A' in X'; congruence|].
    destruct (B X) as (m & t & _ & Et & _ & R). destruct (B' X') as (m' & t' & _ & Et' & _ & R'). assert (s = t) by congruence. assert (s' = t') by congruence. subst. lra. }
  split.
  { intros s s' E E'. destruct (C69_reward_close percs threshold n Sh Hn) as [A B].
    destruct (C69_reward_close percs' threshold n' Sh' Hn') as [A' B'].
    destruct (all_or_some percs threshold) as [X|X]; [apply A in X; congruence|]. destruct (all_or_some percs' threshold) as [X'|X']; [apply A' in X'; congruence|].
    destruct (B X) as (m & t & _ & Et & R & _). destruct (B' X') as (m' & t' & _ & Et' & R' & _). assert (s = t) by congruence. assert (s' = t') by congruence. subst. lra. }
  split.
  { destruct (C69_penalize_maximum percs threshold n Sh Ht Hn) as (s & E & R & _). destruct (C69_penalize_maximum percs' threshold n' Sh' Ht Hn') as (s' & E' & R' & _).
    exists s, s'. split; auto. split; auto. lra. }
  { destruct (C69_penalize_average percs threshold n Sh Ht Hn) as (s & E & R & _). destruct (C69_penalize_average percs' threshold n' Sh' Ht Hn') as (s' & E' & R' & _).
    exists s, s'. split; auto. split; auto. lra. }
Qed.
(** The auxiliary updater gives shares. *)
Theorem C69_percentages {P} `{EqB P} (parts : list P) minority total :
  (forall k, In k parts -> exists m t, dget minority k = Some m /\ dget total k = Some t /\ (0 <= m <= t)%Q /\ (0 < t)%Q) ->
  exists d, percentages parts minority total = Ok d /\ dkeys d = parts /\ shares (map snd d) /\
    forall k v m t, In (k, v) d -> dget minority k = Some m -> dget total k = Some t -> (v * t == m)%Q.
Proof.
  unfold percentages. induction parts as [|k parts IH]; intro Hk.
  - exists []. repeat split; auto; intros; contradiction.
  - destruct IH as (d & Ed & Kd & Sd & Vd); [intros; apply Hk; now right|]. destruct (Hk k (or_introl eq_refl)) as (m & t & Em & Et & [B1 B2] & B3).
    assert (Ez : Qeq_bool t 0 = false) by (apply not_true_iff_false; rewrite Qeq_bool_iff; lra).
    assert (Eq : qdiv m t = Ok (m / t)%Q) by (unfold qdiv; now rewrite Ez).
    cbn [mapM]. rewrite Em, Et. cbn [of_option bind]. rewrite Eq. cbn [bind]. rewrite Ed. cbn [bind].
    exists ((k, (m / t)%Q) :: d). split; [reflexivity|]. split; [cbn; now rewrite <- Kd|]. split.
    + intros v [<-|Hv]; [apply unit_share; auto|apply Sd; auto].
    + intros k' v m' t' [[= <- <-]|Hin] Em' Et'; [|eapply Vd; eauto]. assert (m' = m) by congruence. assert (t' = t) by congruence. subst. field. lra.
Qed.
(** The most ambitious plan, with every district at the threshold, cannot be
    scored by the rewards; and a threshold of 1 breaks the penalties. *)
Theorem C69_all_opportunity_refuted :
  reward_partial_dist [3 # 5; 7 # 10]%Q (1 # 2) = Err ValueError /\ reward_next_highest_close [3 # 5; 7 # 10]%Q (1 # 2) = Err ValueError /\
  penalize_maximum_over [1; 7 # 10]%Q 1 = Err ZeroDivisionError /\ penalize_avg_over [1; 7 # 10]%Q 1 = Ok None.
Proof. repeat split. Qed.
Example C69_nonvacuous : shares [3 # 5; 2 # 5; 1 # 2]%Q /\ reaching (1 # 2) [3 # 5; 2 # 5; 1 # 2]%Q 2.
Proof.
  split; [intros v [<-|[<-|[<-|[]]]]; lra|]. apply reach_yes; [lra|]. apply reach_no; [lra|]. apply reach_yes; [lra|]. constructor.
Qed.

Print Assumptions C69_number.
Print Assumptions C69_reward_partial.
Print Assumptions C69_reward_close.
Print Assumptions C69_penalize_maximum.
Print Assumptions C69_penalize_average.
Print Assumptions C69_more_districts.
Print Assumptions C69_percentages.
Print Assumptions C69_all_opportunity_refuted.
