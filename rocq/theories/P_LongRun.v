(** C124: what the plans of a long chain look like. *)
From Coq Require Import List Bool Arith ZArith QArith Qabs Lqa Lia ZifyBool ZifyNat.
From Verif Require Import Base M_Constraints M_Chain L_Locality M_Recursive S_Contiguity P_Uniform P_ChainLaw.
From Verif Require Import P_DetailedBalance P_Stationary L_Converge L_Average.
Import ListNotations.
Local Open Scope nat_scope.
Local Open Scope list_scope.

(** ** Sequences that tend to 0 *)
Definition to0 (e : nat -> Q) : Prop := forall eps, (0 < eps)%Q -> exists n0, forall n, n0 <= n -> (Qabs (e n) <= eps)%Q.
Lemma to0_ext e e' : (forall n, e n == e' n)%Q -> to0 e -> to0 e'.
Proof. intros H T eps He. destruct (T eps He) as (n0 & Hn). exists n0. intros n Hle. rewrite <- (H n). now apply Hn. Qed.
Lemma to0_shift e : to0 e -> to0 (fun n => e (S n)).
Proof. intros T eps He. destruct (T eps He) as (n0 & Hn). exists n0. intros n Hle. apply Hn. lia. Qed.
Lemma to0_unshift e : to0 (fun n => e (S n)) -> to0 e.
Proof. intros T eps He. destruct (T eps He) as (n0 & Hn). exists (S n0). intros [|n] Hle; [lia|]. apply Hn. lia. Qed.
Lemma to0_plus e e' : to0 e -> to0 e' -> to0 (fun n => e n + e' n)%Q.
Proof.
  intros T T' eps He. assert (H2 : (0 < eps / 2)%Q) by (apply Qlt_shift_div_l; lra). destruct (T _ H2) as (n0 & Hn), (T' _ H2) as (n1 & Hn').
  exists (n0 + n1). intros n Hle. eapply Qle_trans; [apply Qabs_triangle|]. specialize (Hn n ltac:(lia)). specialize (Hn' n ltac:(lia)). setoid_replace eps with (eps / 2 + eps / 2)%Q by field. now apply Qplus_le_compat.
Qed.
Lemma to0_const c e : to0 e -> to0 (fun n => c * e n)%Q.
Proof.
  intros T eps He. assert (Hc : (0 < Qabs c + 1)%Q) by (pose proof (Qabs_nonneg c); lra). destruct (T (eps / (Qabs c + 1))%Q) as (n0 & Hn); [apply Qlt_shift_div_l; lra|].
  exists n0. intros n Hle. rewrite Qabs_Qmult. specialize (Hn n Hle). pose proof (Qabs_nonneg c). pose proof (Qabs_nonneg (e n)).
  assert ((Qabs c + 1) * Qabs (e n) <= eps)%Q.
  { setoid_replace eps with ((Qabs c + 1) * (eps / (Qabs c + 1)))%Q by (field; lra). apply Qmult_le_l; auto. }
  assert ((Qabs c + 1) * Qabs (e n) == Qabs c * Qabs (e n) + Qabs (e n))%Q by ring. lra.
Qed.
Lemma to0_qsum {X} (l : list X) (e : X -> nat -> Q) : (forall x, In x l -> to0 (e x)) -> to0 (fun n => qsum l (fun x => e x n)).
Proof.
  induction l as [|x l IH]; intro H.
  - intros eps He. exists 0. intros n _. unfold qsum. cbn. lra.
  - apply (to0_ext (fun n => e x n + qsum l (fun z => e z n))%Q); [intro n; now rewrite qsum_cons|]. apply to0_plus; [apply H; now left|apply IH; intros; apply H; now right].
Qed.
Lemma pow_mono d i j : (0 < d <= 1)%Q -> i <= j -> (pow (1 - d) j <= pow (1 - d) i)%Q.
Proof.
  intros Hd H. induction H as [|j H IH]; [apply Qle_refl|]. cbn [pow]. destruct (pow_small d Hd j) as [P0 _]. assert ((1 - d) * pow (1 - d) j == pow (1 - d) j - d * pow (1 - d) j)%Q by ring.
  assert (0 <= d * pow (1 - d) j)%Q by (apply Qmult_le_0_compat; lra). lra.
Qed.
Lemma to0_drift d e del : (0 < d <= 1)%Q -> to0 del -> (forall n, e (S n) == (1 - d) * e n + del n)%Q -> to0 e.
Proof.
  intros Hd T Rec eps He. assert (He2 : (0 < eps / 2)%Q) by (apply Qlt_shift_div_l; lra). destruct (T (d * (eps / 2))%Q) as (n0 & Hn); [apply Qmult_lt_0_compat; lra|].
  set (c := Qabs (e n0)) in *. assert (C0 : (0 <= c)%Q) by apply Qabs_nonneg.
  assert (B : forall i : nat, (Qabs (e (i + n0)%nat) <= pow (1 - d) i * c + eps / 2)%Q).
  { induction i as [|i IH]; cbn [Nat.add pow]; [fold c; lra|]. rewrite (Rec (i + n0)). eapply Qle_trans; [apply Qabs_triangle|]. rewrite Qabs_Qmult, (Qabs_pos (1 - d)) by lra.
    specialize (Hn (i + n0) ltac:(lia)). assert ((1 - d) * Qabs (e (i + n0)%nat) <= (1 - d) * (pow (1 - d) i * c + eps / 2))%Q by (rewrite !(Qmult_comm (1 - d)); apply Qmult_le_compat_r; [exact IH|lra]).
    assert ((1 - d) * (pow (1 - d) i * c + eps / 2) + d * (eps / 2) == (1 - d) * pow (1 - d) i * c + eps / 2)%Q by ring. lra. }
  destruct (pow_to_zero d (eps / 2 / (c + 1)) Hd) as (i0 & Hi); [apply Qlt_shift_div_l; lra|].
  exists (i0 + n0). intros n Hle. replace n with ((n - n0) + n0) by lia. eapply Qle_trans; [apply B|].
  assert (P1 := pow_mono d i0 (n - n0) Hd ltac:(lia)). destruct (pow_small d Hd (n - n0)) as [P0 _].
  assert (pow (1 - d) (n - n0) * c <= eps / 2)%Q; [|setoid_replace eps with (eps / 2 + eps / 2)%Q at 2 by field; lra].
  apply Qle_trans with (pow (1 - d) (n - n0) * (c + 1))%Q; [assert (pow (1 - d) (n - n0) * (c + 1) == pow (1 - d) (n - n0) * c + pow (1 - d) (n - n0))%Q by ring; lra|].
  apply Qle_trans with ((eps / 2 / (c + 1)) * (c + 1))%Q; [apply Qmult_le_compat_r; lra|]. setoid_replace (eps / 2 / (c + 1) * (c + 1))%Q with (eps / 2)%Q by (field; lra). apply Qle_refl.
Qed.

Lemma Qn_S n : (Qn (S n) == 1 + Qn n)%Q.
Proof. change (S n) with (1 + n). rewrite Qn_plus. reflexivity. Qed.
Lemma pos_Qn n : 0 < n -> (0 < Qn n)%Q.
Proof. intro H. unfold Qn. change 0%Q with (inject_Z 0). rewrite <- Zlt_Qlt. lia. Qed.
Lemma nonneg_Qn n : (0 <= Qn n)%Q.
Proof. unfold Qn. change 0%Q with (inject_Z 0). rewrite <- Zle_Qle. lia. Qed.

Section LongRun.
  Context {X : Type} {EX : EqB X}.
  Variable propose : X -> nat -> X.
  Variable agrees : X -> X -> nat -> bool.
  Variable D : nat.
  Variable cs : list (constraint X (@P_ChainLaw.world X)).
  Variable passes : constraint X (@P_ChainLaw.world X) -> X -> bool.
  Notation draw_proposal := (P_ChainLaw.draw_proposal propose).
  Notation draw_accept := (P_ChainLaw.draw_accept agrees).
  Notation pure := (P_ChainLaw.pure cs passes).
  Notation valid := (P_ChainLaw.valid cs passes).
  Notation outcome := (P_ChainLaw.outcome propose agrees cs passes).
  Notation hits := (P_ChainLaw.hits propose agrees D cs passes).
  Notation misses := (P_ChainLaw.misses propose agrees D cs passes).
  Notation goods := (P_ChainLaw.goods propose D cs passes).

  (** ** Specification *)

  (** A loop over the chain that ends when the draws [ds] are used up yields [y]
      as plan number [k] (the initial plan is number 0). *)
  Definition visits (ch : chain X P_ChainLaw.world) (k : nat) (y : X) (n : nat) (ds : list nat) : Prop :=
    List.length ds = n /\ Forall (fun d => d < D) ds /\
    exists ys en ch' w', for_loop draw_proposal draw_accept (fun _ w => w) (S k) (S n) (fun _ w => w) ch (ds, None) = (ys, en, ch', w') /\
      nth_error (map fst ys) k = Some y.
  (** Plan number [k] of the chains with initial plan [x] is [y] with
      probability [p]. *)
  Definition chance (k : nat) (x y : X) (p : Q) : Prop :=
    forall ch, ch_valid ch = Reusable cs -> ch_initial ch = x -> (Z.of_nat k < ch_total ch)%Z -> P_ChainLaw.tends D (visits ch k y) p.
  (** A finite set of valid plans that valid proposals do not leave and from each
      of which some proposal is valid. *)
  Definition closed (plans : list X) : Prop := NoDup plans /\
    (forall x, In x plans -> valid x = true /\ exists d, d < D /\ valid (propose x d) = true) /\
    (forall x d, In x plans -> d < D -> valid (propose x d) = true -> In (propose x d) plans).
  (** A draw proposes [b] from [a] and accepts it. *)
  Definition moves (a b : X) : Prop := exists d, P_ChainLaw.move_draws propose agrees D a b d.
  (** Every plan can be reached from every other. *)
  Definition connected (plans : list X) : Prop :=
    forall x y, In x plans -> In y plans -> reach (fun a b => In a plans /\ In b plans /\ moves a b) x y.
  (** At some plan the chain may stay. *)
  Definition lazy_somewhere (plans : list X) : Prop :=
    exists s d, In s plans /\ d < D /\ valid (propose s d) = true /\ (agrees s (propose s d) d = false \/ propose s d = s).
  (** The share of plan [y] under the weights times the number of valid draws. *)
  Definition share (plans : list X) (weight : X -> Q) (v : X -> nat) (y : X) : Q :=
    (weight y * Qn (v y) / qsum plans (fun x => weight x * Qn (v x)))%Q.

  (** ** The loop as a function of the draws *)
  Fixpoint cut (x : X) (ds : list nat) : option (X * list nat) :=
    match ds with [] => None | d :: r => match outcome x d with Some z => Some (z, r) | None => cut x r end end.
  Fixpoint go (k : nat) (x : X) (ds : list nat) : option X :=
    match k with 0 => Some x | S k => match cut x ds with Some (z, r) => go k z r | None => None end end.
  Lemma cut_length x ds : forall z r, cut x ds = Some (z, r) -> List.length r < List.length ds.
  Proof.
    induction ds as [|d ds IH]; intros z r; cbn [cut]; [discriminate|]. destruct (outcome x d).
    - intros [= _ <-]. cbn. lia.
    - intro H. specialize (IH _ _ H). cbn. lia.
  Qed.
  Lemma advance_cut x k ds : forall n m ch, pure -> ch_valid ch = Reusable cs -> ch_state ch = x -> (k < ch_total ch)%Z -> List.length ds < n ->
    match cut x ds with
    | Some (z, r) => exists m', advance draw_proposal draw_accept (fun _ w => w) n k ch (ds, m) = (Ok z, mkChain (Reusable cs) (ch_total ch) (ch_initial ch) z (Some (k + 1)%Z), (r, m'))
    | None => exists ch' w', advance draw_proposal draw_accept (fun _ w => w) n k ch (ds, m) = (NoFuel, ch', w')
    end.
  Proof.
    induction ds as [|d ds IH]; intros [|n] m ch Pu Hv Hs Hk Hl; cbn [List.length] in Hl; try lia; cbn [advance cut].
    - rewrite (proj2 (Z.ltb_lt _ _) Hk). cbn. eauto.
    - rewrite (proj2 (Z.ltb_lt _ _) Hk). unfold P_ChainLaw.draw_proposal at 1 3. cbn [fst]. rewrite Hs, Hv, !(validator_pure cs passes) by exact Pu. unfold P_ChainLaw.outcome.
      destruct (valid (propose x d)).
      + unfold P_ChainLaw.draw_accept. cbn [snd truthy]. eauto.
      + specialize (IH n (Some (x, d)) (with_valid ch (Reusable cs)) Pu eq_refl Hs Hk). apply IH. lia.
  Qed.
  Lemma loop_go k : forall n ch x ds m c, pure -> ch_valid ch = Reusable cs -> ch_state ch = x -> ch_counter ch = Some c -> (0 < c)%Z ->
    (c + Z.of_nat k <= ch_total ch)%Z -> List.length ds < n ->
    exists ys en ch' w', loop draw_proposal draw_accept (fun _ w => w) k n (fun _ w => w) ch (ds, m) = (ys, en, ch', w') /\
      forall j, j < k -> nth_error (map fst ys) j = go (S j) x ds.
  Proof.
    induction k as [|k IH]; intros n ch x ds m c Pu Hv Hs Hc C0 Ht Hl.
    - do 4 eexists. split; [reflexivity|]. intros j Hj. lia.
    - cbn [loop]. unfold next. rewrite Hc. replace (c =? 0)%Z with false by lia.
      assert (A := advance_cut x c ds n m ch Pu Hv Hs ltac:(lia) Hl). destruct (cut x ds) as [[z r]|] eqn:E.
      + destruct A as (m' & ->). assert (L := cut_length x ds z r E).
        destruct (IH n (mkChain (Reusable cs) (ch_total ch) (ch_initial ch) z (Some (c + 1)%Z)) z r m' (c + 1)%Z Pu eq_refl eq_refl eq_refl ltac:(lia) ltac:(cbn [ch_total]; lia) ltac:(lia)) as (ys & en & ch' & w' & -> & Hj).
        do 4 eexists. split; [reflexivity|]. intros [|j] Hlt; cbn [map nth_error go]; rewrite E; [reflexivity|]. apply (Hj j). lia.
      + destruct A as (ch' & w' & ->). do 4 eexists. split; [reflexivity|]. intros j Hj. cbn [map go]. rewrite E. now destruct j.
  Qed.
  Definition visitsb (k : nat) (x y : X) (ds : list nat) : bool := match go k x ds with Some z => eqb z y | None => false end.
  Lemma visits_iff ch k x y n ds : pure -> ch_valid ch = Reusable cs -> ch_initial ch = x -> (Z.of_nat k < ch_total ch)%Z ->
    visits ch k y n ds <-> (List.length ds = n /\ Forall (fun d => d < D) ds) /\ visitsb k x y ds = true.
  Proof.
    intros Pu Hv Hi Hk.
    assert (G : List.length ds = n -> exists ys en ch' w', for_loop draw_proposal draw_accept (fun _ w => w) (S k) (S n) (fun _ w => w) ch (ds, None) = (ys, en, ch', w') /\ nth_error (map fst ys) k = go k x ds).
    { intro Hl. unfold for_loop. cbn [loop]. unfold next, iter. cbn [ch_counter]. change (0 =? 0)%Z with true. cbn [ch_state ch_valid ch_total ch_initial]. rewrite Hi, Hv.
      destruct (loop_go k (S n) (mkChain (Reusable cs) (ch_total ch) x x (Some 1%Z)) x ds None 1%Z Pu eq_refl eq_refl eq_refl ltac:(lia) ltac:(cbn [ch_total]; lia) ltac:(lia)) as (ys & en & ch' & w' & E & Hj).
      rewrite E. do 4 eexists. split; [reflexivity|]. destruct k as [|k']; [reflexivity|]. cbn [map nth_error]. apply Hj. lia. }
    unfold visits, visitsb. split.
    - intros (Hl & Hd & ys & en & ch' & w' & E & Hy). split; auto. destruct (G Hl) as (ys2 & en2 & ch2 & w2 & E2 & Hg). rewrite E in E2. injection E2 as <- _ _ _. rewrite <- Hg, Hy. apply eqb_refl.
    - intros ((Hl & Hd) & E). split; auto. split; auto. destruct (G Hl) as (ys2 & en2 & ch2 & w2 & E2 & Hg). exists ys2, en2, ch2, w2. split; auto. rewrite Hg.
      destruct (go k x ds) as [z|]; [|discriminate]. f_equal. now apply eqb_eq.
  Qed.

  (** ** Counting *)
  Definition cnt (k : nat) (x y : X) (n : nat) : nat := List.length (filter (visitsb k x y) (words D n)).
  Lemma cnt_0 x y n : cnt 0 x y n = if eqb x y then D ^ n else 0.
  Proof.
    unfold cnt. rewrite <- (length_words D n). induction (words D n) as [|w l IH]; [now destruct (eqb x y)|]. cbn [filter]. unfold visitsb at 1. cbn [go]. destruct (eqb x y); cbn [List.length]; lia.
  Qed.
  Lemma cnt_nil k x y : cnt (S k) x y 0 = 0.
  Proof. reflexivity. Qed.
  Lemma cnt_S k x y n plans : NoDup plans -> (forall d z, d < D -> outcome x d = Some z -> In z plans) ->
    (Qn (cnt (S k) x y (S n)) == qsum plans (fun z => Qn (hits x z) * Qn (cnt k z y n)) + Qn (misses x) * Qn (cnt (S k) x y n))%Q.
  Proof.
    intros ND Cl. unfold cnt at 1. cbn [words]. rewrite filter_flat_map. unfold P_ChainLaw.hits, P_ChainLaw.misses.
    assert (Hd : forall d z, In d (seq 0 D) -> outcome x d = Some z -> In z plans) by (intros d z Hd; apply Cl; apply in_seq in Hd; lia). clear Cl. revert Hd.
    induction (seq 0 D) as [|d l IH]; intro Hd.
    - cbn [flat_map filter List.length]. change (Qn 0) with 0%Q. rewrite (qsum_ext plans _ (fun _ => 0%Q)) by (intros; ring). rewrite qsum_zero. ring.
    - specialize (IH (fun d' z Hd' => Hd d' z (or_intror Hd'))). cbn [flat_map filter]. rewrite app_length, Qn_plus, IH.
      assert (E : List.length (filter (visitsb (S k) x y) (map (cons d) (words D n))) = match outcome x d with Some z => cnt k z y n | None => cnt (S k) x y n end).
      { unfold cnt. generalize (words D n). induction l0 as [|w ws IHw]; [cbn; now destruct (outcome x d)|]. cbn [map filter]. unfold visitsb at 1. cbn [go cut]. destruct (outcome x d) as [z|] eqn:Ed.
        - fold (visitsb k z y w). destruct (visitsb k z y w); cbn [List.length]; lia.
        - change (match match cut x w with Some (z1, r) => go k z1 r | None => None end with Some z0 => eqb z0 y | None => false end) with (visitsb (S k) x y w). destruct (visitsb (S k) x y w); cbn [List.length]; lia. }
      rewrite E. destruct (outcome x d) as [z|] eqn:Ed.
      + assert (Hz : In z plans) by (apply (Hd d); [now left|exact Ed]).
        transitivity (qsum plans (fun z' => (if eqb z' z then Qn (cnt k z y n) else 0) + Qn (List.length (filter (fun d0 => match outcome x d0 with Some z0 => eqb z0 z' | None => false end) l)) * Qn (cnt k z' y n)) + Qn (List.length (filter (fun d0 => match outcome x d0 with Some _ => false | None => true end) l)) * Qn (cnt (S k) x y n))%Q.
        * rewrite qsum_plus, qsum_indicator by auto. ring.
        * apply Qplus_comp; [|reflexivity]. apply qsum_ext. intros z' _. destruct (eqb_spec z z') as [Ez|Ez].
          -- rewrite <- Ez, eqb_refl. cbn [List.length]. rewrite Qn_S. ring.
          -- destruct (eqb_spec z' z) as [Ez'|]; [congruence|]. ring.
      + cbn [List.length]. rewrite Qn_S. ring.
  Qed.
  Definition freq (k : nat) (x y : X) (n : nat) : Q := (Qn (cnt k x y n) / Qn (D ^ n))%Q.
  Lemma outcome_In plans x d z : closed plans -> In x plans -> d < D -> outcome x d = Some z -> In z plans.
  Proof.
    intros (ND & Hv & Cl) Hx Hd. unfold P_ChainLaw.outcome. destruct (valid (propose x d)) eqn:V; [|discriminate]. intros [= <-]. destruct (agrees x (propose x d) d); auto.
  Qed.
  Lemma goods_pos plans x : closed plans -> In x plans -> 0 < goods x.
  Proof.
    intros (ND & Hv & Cl) Hx. destruct (Hv x Hx) as (_ & d & Hd & Vd). unfold P_ChainLaw.goods.
    assert (I : In d (filter (fun d => valid (propose x d)) (seq 0 D))) by (apply filter_In; split; [apply in_seq; lia|exact Vd]).
    destruct (filter _ _); [destruct I|cbn; lia].
  Qed.
  Section Kernel.
    Variable plans : list X.
    Variable p : X -> X -> Q.
    Hypothesis Pu : pure.
    Hypothesis Cl : closed plans.
    Hypothesis Hp : forall x z, In x plans -> In z plans -> P_ChainLaw.steps_to propose agrees D cs x z (p x z).
    Lemma p_hits x z : In x plans -> In z plans -> (p x z == Qn (hits x z) / Qn (goods x))%Q.
    Proof using EX Pu Cl Hp.
      intros Hx Hz. eapply (steps_unique propose agrees D cs); [exact passes|apply Hp; assumption|]. apply (steps_hits propose agrees D cs passes); [exact Pu|]. eapply goods_pos; eassumption.
    Qed.
    Lemma p_pos x z : In x plans -> In z plans -> (0 <= p x z)%Q.
    Proof using EX Pu Cl Hp.
      intros Hx Hz. rewrite (p_hits x z Hx Hz). apply Qle_shift_div_l; [apply pos_Qn; eapply goods_pos; eassumption|]. rewrite Qmult_0_l. apply nonneg_Qn.
    Qed.
    Lemma p_tot x : In x plans -> (qsum plans (p x) == 1)%Q.
    Proof using EX Pu Cl Hp.
      intro Hx. assert (G0 := pos_Qn _ (goods_pos plans x Cl Hx)). rewrite (qsum_ext plans (p x) (fun z => / Qn (goods x) * Qn (hits x z))%Q).
      - rewrite qsum_scale. change (qsum plans (fun z => Qn (hits x z))) with (sumQ (fun z => Qn (hits x z)) plans).
        rewrite (hits_total propose agrees D cs passes x plans); [field; lra|exact (proj1 Cl)|]. intros d z Hd. now apply (outcome_In plans).
      - intros z Hz. rewrite (p_hits x z Hx Hz). unfold Qdiv. ring.
    Qed.
    Lemma after_back k x y : In x plans -> In y plans -> (after plans p (S k) (point x) y == qsum plans (fun z => p x z * after plans p k (point z) y))%Q.
    Proof using EX Cl.
      intros Hx Hy. assert (ND := proj1 Cl). rewrite <- Nat.add_1_r, after_add, (after_expand plans p ND k _ y Hy). apply qsum_ext. intros z Hz.
      assert (E : (after plans p 1 (point x) z == p x z)%Q); [|now rewrite E]. cbn [P_Stationary.after].
      transitivity (qsum plans (fun w => if eqb w x then p x z else 0)%Q); [|now apply qsum_indicator].
      apply qsum_ext. intros w _. unfold point. destruct (eqb_spec w x) as [->|]; ring.
    Qed.
    Lemma freq_tends k : forall x y, In x plans -> In y plans -> to0 (fun n => freq k x y n - after plans p k (point x) y)%Q.
    Proof using EX Pu Cl Hp.
      assert (D0 : forall x, In x plans -> 0 < D) by (intros x Hx; pose proof (goods_pos plans x Cl Hx); pose proof (goods_misses propose agrees D cs passes x); lia).
      assert (DN : forall x n, In x plans -> (0 < Qn (D ^ n))%Q) by (intros x n Hx; apply pos_Qn; specialize (D0 x Hx); apply Nat.neq_0_lt_0, Nat.pow_nonzero; lia).
      induction k as [|k IH]; intros x y Hx Hy.
      - apply (to0_ext (fun _ => 0%Q)); [|intros eps He; exists 0; intros; cbn; lra]. intro n. cbn [P_Stationary.after]. unfold freq, point. rewrite cnt_0. specialize (DN x n Hx).
        destruct (eqb_spec x y) as [->|E]; [rewrite eqb_refl; field; lra|]. destruct (eqb_spec y x) as [E'|_]; [now elim E|]. change (Qn 0) with 0%Q. field. lra.
      - assert (G0 := pos_Qn _ (goods_pos plans x Cl Hx)). assert (QD := pos_Qn _ (D0 x Hx)). assert (GM := goods_misses propose agrees D cs passes x).
        assert (QGM : (Qn (goods x) + Qn (misses x) == Qn D)%Q) by (rewrite <- Qn_plus, GM; reflexivity). assert (M0 : (0 <= Qn (misses x))%Q) by apply nonneg_Qn.
        apply (to0_drift (Qn (goods x) / Qn D) _ (fun n => qsum plans (fun z => (Qn (hits x z) / Qn D) * (freq k z y n - after plans p k (point z) y)))%Q).
        + split; [apply Qlt_shift_div_l; lra|apply Qle_shift_div_r; lra].
        + apply to0_qsum. intros z Hz. apply to0_const. now apply IH.
        + intro n. specialize (DN x n Hx). unfold freq at 1. rewrite (cnt_S k x y n plans (proj1 Cl)) by (intros d z Hd; now apply (outcome_In plans)).
          rewrite (after_back k x y Hx Hy).
          rewrite (qsum_ext plans (fun z => p x z * after plans p k (point z) y)%Q (fun z => / Qn (goods x) * (Qn (hits x z) * after plans p k (point z) y))%Q) by (intros z Hz; rewrite (p_hits x z Hx Hz); unfold Qdiv; ring).
          rewrite (qsum_ext plans (fun z => Qn (hits x z) / Qn D * (freq k z y n - after plans p k (point z) y))%Q (fun z => / (Qn D * Qn (D ^ n)) * (Qn (hits x z) * Qn (cnt k z y n)) - / Qn D * (Qn (hits x z) * after plans p k (point z) y))%Q) by (intros z Hz; unfold freq; field; lra).
          rewrite qsum_minus, !qsum_scale. set (A := qsum plans (fun z => Qn (hits x z) * Qn (cnt k z y n))%Q). set (B := qsum plans (fun z => Qn (hits x z) * after plans p k (point z) y)%Q).
          unfold freq. cbn [Nat.pow]. rewrite Qn_mult. setoid_replace (Qn (misses x)) with (Qn D - Qn (goods x))%Q by lra. field. lra.
    Qed.
    Theorem law k x y : In x plans -> In y plans -> chance k x y (after plans p k (point x) y).
    Proof using EX Pu Cl Hp.
      intros Hx Hy ch Hv Hi Hk eps He. destruct (freq_tends k x y Hx Hy (eps / 2)%Q) as (n0 & Hn); [apply Qlt_shift_div_l; lra|]. exists n0. intros n Hle. exists (cnt k x y n). split.
      - apply numbers_words. intro ws. now apply visits_iff.
      - specialize (Hn n Hle). apply Qabs_Qle_condition in Hn. fold (freq k x y n). assert (eps / 2 == eps * (1 # 2))%Q by field. lra.
    Qed.
    Lemma chance_after k x y q : In x plans -> In y plans -> chance k x y q -> (q == after plans p k (point x) y)%Q.
    Proof using EX Pu Cl Hp.
      intros Hx Hy H. set (ch := mkChain (Reusable cs) (Z.of_nat (S k)) x x None). eapply (tends_unique propose D); [apply (H ch)|apply (law k x y Hx Hy ch)]; cbn; auto; lia.
    Qed.
    Lemma moves_leads : connected plans -> forall x y, In x plans -> In y plans -> reach (leads plans p) x y.
    Proof using EX Pu Cl Hp.
      intros Co x y Hx Hy. specialize (Co x y Hx Hy). induction Co as [|b c R IH (Hb & Hc & d & Hd & Ed & Ad)]; [constructor|]. specialize (IH Hb). econstructor; [exact IH|]. split; [exact Hb|]. split; [exact Hc|].
      rewrite (p_hits b c Hb Hc). apply Qlt_shift_div_l; [apply pos_Qn; eapply goods_pos; eassumption|]. rewrite Qmult_0_l. apply pos_Qn. unfold P_ChainLaw.hits.
      assert (I : In d (filter (fun d => match outcome b d with Some z => eqb z c | None => false end) (seq 0 D))).
      { apply filter_In. split; [apply in_seq; lia|]. unfold P_ChainLaw.outcome. rewrite Ed, (proj1 (proj1 (proj2 Cl) c Hc)), Ad. apply eqb_refl. }
      destruct (filter _ _); [destruct I|cbn; lia].
    Qed.
    Lemma stays_loop : lazy_somewhere plans -> exists s, In s plans /\ (0 < p s s)%Q.
    Proof using EX Pu Cl Hp.
      intros (s & d & Hs & Hd & Vd & Or). exists s. split; [exact Hs|]. rewrite (p_hits s s Hs Hs). apply Qlt_shift_div_l; [apply pos_Qn; eapply goods_pos; eassumption|]. rewrite Qmult_0_l. apply pos_Qn. unfold P_ChainLaw.hits.
      assert (I : In d (filter (fun d => match outcome s d with Some z => eqb z s | None => false end) (seq 0 D))).
      { apply filter_In. split; [apply in_seq; lia|]. unfold P_ChainLaw.outcome. rewrite Vd. destruct Or as [E|E]; [rewrite E; apply eqb_refl|]. rewrite E. destruct (agrees s s d); apply eqb_refl. }
      destruct (filter _ _); [destruct I|cbn; lia].
    Qed.
    Variable weight : X -> Q.
    Variable v : X -> nat.
    Hypothesis Bal : P_ChainLaw.balanced propose agrees D cs passes weight.
    Hypothesis Wpos : forall x, In x plans -> (0 < weight x)%Q.
    Hypothesis Hv : forall x, In x plans -> numbers (P_ChainLaw.valid_draws propose D cs passes x) (v x).
    Lemma v_pos x : In x plans -> (0 < Qn (v x))%Q.
    Proof using EX agrees Pu Cl Hv. intro Hx. rewrite (numbers_unique _ _ _ (Hv x Hx) (goods_numbers propose agrees D cs passes x)). apply pos_Qn. eapply goods_pos; eassumption. Qed.
    Lemma mass_pos x : In x plans -> (0 < qsum plans (fun x => weight x * Qn (v x)))%Q.
    Proof using EX agrees Pu Cl Hv Wpos.
      intro Hx. apply Qlt_le_trans with (weight x * Qn (v x))%Q; [apply Qmult_lt_0_compat; [now apply Wpos|now apply v_pos]|].
      apply (qsum_term plans (fun x => weight x * Qn (v x))%Q x); [|exact Hx]. intros y Hy. apply Qlt_le_weak, Qmult_lt_0_compat; [now apply Wpos|now apply v_pos].
    Qed.
    Lemma share_pos y : In y plans -> (0 <= share plans weight v y)%Q.
    Proof using EX agrees Pu Cl Hv Wpos.
      intro Hy. apply Qle_shift_div_l; [now apply mass_pos with y|]. rewrite Qmult_0_l. apply Qlt_le_weak, Qmult_lt_0_compat; [now apply Wpos|now apply v_pos].
    Qed.
    Lemma share_tot y : In y plans -> (qsum plans (share plans weight v) == 1)%Q.
    Proof using EX agrees Pu Cl Hv Wpos.
      intro Hy. assert (M := mass_pos y Hy). unfold share. set (m := qsum plans (fun x => weight x * Qn (v x))%Q) in *.
      rewrite (qsum_ext plans _ (fun x => / m * (weight x * Qn (v x)))%Q) by (intros; unfold Qdiv; ring). rewrite qsum_scale. fold m. field. lra.
    Qed.
    Lemma share_inv y : In y plans -> (qsum plans (fun x => share plans weight v x * p x y) == share plans weight v y)%Q.
    Proof using EX agrees Pu Cl Hp Hv Wpos Bal.
      intro Hy. assert (M := mass_pos y Hy). unfold share. set (m := qsum plans (fun x => weight x * Qn (v x))%Q) in *.
      rewrite (qsum_ext plans _ (fun x => / m * (weight x * Qn (v x) * p x y))%Q) by (intros; unfold Qdiv; ring). rewrite qsum_scale.
      change (qsum plans (fun x => weight x * Qn (v x) * p x y)%Q) with (sumQ (fun x => weight x * Qn (v x) * p x y)%Q plans).
      rewrite (C101_stationary propose agrees D cs passes weight v p plans y Pu Bal (proj1 Cl) Hy); [unfold Qdiv; ring| |exact (proj2 (proj2 Cl))|exact Hp].
      intros x Hx. split; [exact (proj1 (proj1 (proj2 Cl) x Hx))|]. split; [now apply Hv|]. assert (V := v_pos x Hx). destruct (v x); [|lia]. change (Qn 0) with 0%Q in V. lra.
    Qed.
  End Kernel.
  Lemma steps_exist plans : pure -> closed plans -> forall x z, In x plans -> In z plans -> P_ChainLaw.steps_to propose agrees D cs x z (Qn (hits x z) / Qn (goods x)).
  Proof. intros Pu Cl x z Hx _. apply (steps_hits propose agrees D cs passes); [exact Pu|]. eapply goods_pos; eassumption. Qed.

  (** ** Theorems *)

  (** Plan number [k] follows the [k]-fold step probabilities. *)
  Theorem C124_law plans p k x y : pure -> closed plans ->
    (forall x z, In x plans -> In z plans -> P_ChainLaw.steps_to propose agrees D cs x z (p x z)) ->
    In x plans -> In y plans -> forall q, chance k x y q <-> (q == after plans p k (point x) y)%Q.
  Proof.
    intros Pu Cl Hp Hx Hy q. split; [now apply chance_after|]. intros E ch Hv Hi Hk eps He. destruct (law plans p Pu Cl Hp k x y Hx Hy ch Hv Hi Hk eps He) as (n0 & Hn). exists n0. intros n Hle.
    destruct (Hn n Hle) as (c & Nc & B). exists c. split; [exact Nc|]. rewrite E. exact B.
  Qed.
  (** On average over the first [n] plans the chances approach the shares. *)
  Theorem C124_averages plans weight v q : pure -> closed plans -> connected plans ->
    P_ChainLaw.balanced propose agrees D cs passes weight -> (forall x, In x plans -> (0 < weight x)%Q) ->
    (forall x, In x plans -> numbers (P_ChainLaw.valid_draws propose D cs passes x) (v x)) ->
    (forall k x y, In x plans -> In y plans -> chance k x y (q k x y)) ->
    forall eps, (0 < eps)%Q -> exists n0, forall n, n0 <= n -> forall x y, In x plans -> In y plans ->
      (Qabs (qsum (seq 0 n) (fun k => q k x y) / Qn n - share plans weight v y) <= eps)%Q.
  Proof.
    intros Pu Cl Co Bal W Hv Hq eps He. set (p := fun x z => (Qn (hits x z) / Qn (goods x))%Q). assert (Hp : forall x z, In x plans -> In z plans -> P_ChainLaw.steps_to propose agrees D cs x z (p x z)) by now apply steps_exist.
    destruct plans as [|x0 rest] eqn:Epl; [exists 0; intros n _ x y []|]. rewrite <- Epl in *. assert (Hx0 : In x0 plans) by (rewrite Epl; now left). clear Epl.
    destruct (averages plans p (proj1 Cl) (p_pos plans p Pu Cl Hp) (p_tot plans p Pu Cl Hp) (share plans weight v) (moves_leads plans p Pu Cl Hp Co)
                (share_pos plans Pu Cl weight v W Hv) (share_tot plans Pu Cl weight v W Hv x0 Hx0) (share_inv plans p Pu Cl Hp weight v Bal W Hv) eps He) as (n0 & Hn).
    exists n0. intros n Hle x y Hx Hy. specialize (Hn n Hle (point x) (fun z _ => point_pos x z) (point_mass plans (proj1 Cl) x Hx) y Hy).
    assert (E : (qsum (seq 0 n) (fun k => q k x y) == total plans p n (point x) y)%Q); [|now rewrite E]. unfold total. apply qsum_ext. intros k _. apply (chance_after plans p Pu Cl Hp); auto.
  Qed.
  (** If some plan may stay, the chances themselves approach the shares. *)
  Theorem C124_limit plans weight v q : pure -> closed plans -> connected plans -> lazy_somewhere plans ->
    P_ChainLaw.balanced propose agrees D cs passes weight -> (forall x, In x plans -> (0 < weight x)%Q) ->
    (forall x, In x plans -> numbers (P_ChainLaw.valid_draws propose D cs passes x) (v x)) ->
    (forall k x y, In x plans -> In y plans -> chance k x y (q k x y)) ->
    forall eps, (0 < eps)%Q -> exists n0, forall n, n0 <= n -> forall x y, In x plans -> In y plans -> (Qabs (q n x y - share plans weight v y) <= eps)%Q.
  Proof.
    intros Pu Cl Co La Bal W Hv Hq eps He. set (p := fun x z => (Qn (hits x z) / Qn (goods x))%Q). assert (Hp : forall x z, In x plans -> In z plans -> P_ChainLaw.steps_to propose agrees D cs x z (p x z)) by now apply steps_exist.
    destruct plans as [|x0 rest] eqn:Epl; [exists 0; intros n _ x y []|]. rewrite <- Epl in *. assert (Hx0 : In x0 plans) by (rewrite Epl; now left). clear Epl.
    destruct (stays_loop plans p Pu Cl Hp La) as (s & Hs & Ks).
    destruct (converge plans p (proj1 Cl) (p_pos plans p Pu Cl Hp) (p_tot plans p Pu Cl Hp) (share plans weight v) s Hs Ks (moves_leads plans p Pu Cl Hp Co)
                (share_pos plans Pu Cl weight v W Hv) (share_tot plans Pu Cl weight v W Hv x0 Hx0) (share_inv plans p Pu Cl Hp weight v Bal W Hv)) as (m & delta & Hd & R).
    destruct (pow_to_zero delta (eps / 2) Hd) as (j & Hj); [apply Qlt_shift_div_l; lra|].
    exists (j * m). intros n Hle x y Hx Hy. rewrite (chance_after plans p Pu Cl Hp n x y (q n x y) Hx Hy (Hq n x y Hx Hy)).
    eapply Qle_trans; [apply (qsum_term plans (fun y => Qabs (after plans p n (point x) y - share plans weight v y))%Q y); [intros; apply Qabs_nonneg|exact Hy]|].
    replace n with ((n - j * m) + j * m) by lia. eapply Qle_trans; [apply (R (point x) j _ (fun z _ => point_pos x z) (point_mass plans (proj1 Cl) x Hx))|]. setoid_replace eps with (2 * (eps / 2))%Q by field. apply Qmult_le_l; [reflexivity|]. now apply Qlt_le_weak.
  Qed.
End LongRun.

(** ** Concrete case: the plans 0, 1 and 2 in a row *)
Definition row_plans : list nat := [0; 1; 2].
Definition row_v (x : nat) : nat := match x with 1 => 2 | _ => 1 end.
Definition row_step (x z : nat) : Q := (Qn (hits row_propose row_agrees 2 [row_constraint] row_passes x z) / Qn (goods row_propose 2 [row_constraint] row_passes x))%Q.
Lemma row_closed : closed row_propose 2 [row_constraint] row_passes row_plans.
Proof.
  split; [repeat constructor; cbn; intuition discriminate|]. split.
  - intros x Hx. rewrite row_valid. assert (x < 3) by (cbn in Hx; lia). split; [now apply Nat.ltb_lt|]. exists 0. split; [lia|]. rewrite row_valid. cbn in Hx. destruct Hx as [<-|[<-|[<-|[]]]]; reflexivity.
  - intros x d Hx Hd. rewrite row_valid, Nat.ltb_lt. intro H. cbn in Hx. destruct Hx as [<-|[<-|[<-|[]]]], d as [|[|d]]; cbn in *; lia.
Qed.
Lemma row_balanced : P_ChainLaw.balanced row_propose row_agrees 2 [row_constraint] row_passes (fun _ => 1%Q).
Proof. intros x y a b. rewrite !row_valid, !Nat.ltb_lt. intros Hx Hy Hn Ha Hb. rewrite (row_moves x y a b); auto. reflexivity. Qed.
Lemma row_connected : connected row_propose row_agrees 2 row_plans.
Proof.
  assert (M : forall x d, In x row_plans -> d < 2 -> row_propose x d < 3 -> In x row_plans /\ In (row_propose x d) row_plans /\ moves row_propose row_agrees 2 x (row_propose x d)).
  { intros x d Hx Hd H. split; [exact Hx|]. split; [cbn in Hx; destruct Hx as [<-|[<-|[<-|[]]]], d as [|[|d]]; cbn in *; lia|]. exists d. repeat split; auto. }
  assert (To1 : forall x, In x row_plans -> reach (fun a b => In a row_plans /\ In b row_plans /\ moves row_propose row_agrees 2 a b) x 1).
  { intros x Hx. cbn in Hx. destruct Hx as [<-|[<-|[<-|[]]]]; [|constructor|]; (econstructor; [constructor|]); [apply (M 0 0)|apply (M 2 0)]; cbn; auto; lia. }
  intros x y Hx Hy. specialize (To1 x Hx). cbn in Hy. destruct Hy as [<-|[<-|[<-|[]]]]; [|exact To1|]; (econstructor; [exact To1|]); [apply (M 1 0)|apply (M 1 1)]; cbn; auto; lia.
Qed.
Lemma row_numbers x : In x row_plans -> numbers (P_ChainLaw.valid_draws row_propose 2 [row_constraint] row_passes x) (row_v x).
Proof. intro Hx. assert (E : row_v x = goods row_propose 2 [row_constraint] row_passes x) by (cbn in Hx; destruct Hx as [<-|[<-|[<-|[]]]]; reflexivity). rewrite E. exact (goods_numbers row_propose row_agrees 2 [row_constraint] row_passes x). Qed.
Lemma row_chance k x y : In x row_plans -> In y row_plans -> chance row_propose row_agrees 2 [row_constraint] k x y (after row_plans row_step k (point x) y).
Proof. intros Hx Hy. apply (law row_propose row_agrees 2 [row_constraint] row_passes row_plans row_step row_pure row_closed); auto. exact (steps_exist row_propose row_agrees 2 [row_constraint] row_passes row_plans row_pure row_closed). Qed.
Lemma row_alternates n : (after row_plans row_step n (point 1%nat) 1%nat == if Nat.even n then 1 else 0)%Q.
Proof.
  assert (T : (row_step 0 0 == 0 /\ row_step 0 1 == 1 /\ row_step 0 2 == 0 /\ row_step 1 0 == 1 # 2 /\ row_step 1 1 == 0 /\ row_step 1 2 == 1 # 2 /\ row_step 2 0 == 0 /\ row_step 2 1 == 1 /\ row_step 2 2 == 0)%Q) by (repeat split; vm_compute; reflexivity).
  destruct T as (T00 & T01 & T02 & T10 & T11 & T12 & T20 & T21 & T22).
  assert (G : (after row_plans row_step n (point 1%nat) 0%nat == (if Nat.even n then 0 else 1 # 2) /\ after row_plans row_step n (point 1%nat) 1%nat == (if Nat.even n then 1 else 0) /\ after row_plans row_step n (point 1%nat) 2%nat == (if Nat.even n then 0 else 1 # 2))%Q).
  { induction n as [|n (H0 & H1 & H2)]; [repeat split; reflexivity|]. rewrite Nat.even_succ, <- Nat.negb_even. cbn [P_Stationary.after]. unfold row_plans at 1 3 5. rewrite !qsum_cons. cbn [qsum fold_right].
    rewrite H0, H1, H2, T00, T01, T02, T10, T11, T12, T20, T21, T22. destruct (Nat.even n); repeat split; cbn [negb]; ring. }
  apply G.
Qed.
(** The chances themselves need not settle. *)
Theorem C124_alternates_refuted : exists (propose : nat -> nat -> nat) (agrees : nat -> nat -> nat -> bool) D cs passes plans weight v q x y,
  P_ChainLaw.pure cs passes /\ closed propose D cs passes plans /\ connected propose agrees D plans /\ P_ChainLaw.balanced propose agrees D cs passes weight /\
  (forall x, In x plans -> (0 < weight x)%Q) /\ (forall x, In x plans -> numbers (P_ChainLaw.valid_draws propose D cs passes x) (v x)) /\
  (forall k x y, In x plans -> In y plans -> chance propose agrees D cs k x y (q k x y)) /\ In x plans /\ In y plans /\
  forall l, ~ (forall eps, (0 < eps)%Q -> exists n0, forall n, n0 <= n -> (Qabs (q n x y - l) <= eps)%Q).
Proof.
  exists row_propose, row_agrees, 2, [row_constraint], row_passes, row_plans, (fun _ => 1%Q), row_v, (fun k x y => after row_plans row_step k (point x) y), 1, 1.
  split; [apply row_pure|]. split; [apply row_closed|]. split; [apply row_connected|]. split; [apply row_balanced|]. split; [reflexivity|]. split; [apply row_numbers|]. split; [apply row_chance|].
  split; [cbn; auto|]. split; [cbn; auto|]. intros l H. destruct (H (1 # 4) eq_refl) as (n0 & Hn). pose proof (Hn (2 * n0) ltac:(lia)) as A. pose proof (Hn (S (2 * n0)) ltac:(lia)) as B.
  rewrite row_alternates in A, B. rewrite Nat.even_succ, <- Nat.negb_even in B. rewrite Nat.even_mul in A, B. cbn [Nat.even orb negb] in A, B. apply Qabs_Qle_condition in A, B. lra.
Qed.
(** A chain that meets the hypotheses: half of the plans of a long run are plan 1. *)
Example C124_nonvacuous : forall eps, (0 < eps)%Q -> exists n0, forall n, n0 <= n -> forall x, In x row_plans ->
  (Qabs (qsum (seq 0 n) (fun k => after row_plans row_step k (point x) 1%nat) / Qn n - (1 # 2)) <= eps)%Q.
Proof.
  intros eps He. destruct (C124_averages row_propose row_agrees 2 [row_constraint] row_passes row_plans (fun _ => 1%Q) row_v (fun k x y => after row_plans row_step k (point x) y)
    row_pure row_closed row_connected row_balanced ltac:(reflexivity) row_numbers row_chance eps He) as (n0 & Hn). exists n0. intros n Hle x Hx.
  assert (E : (share row_plans (fun _ => 1%Q) row_v 1%nat == 1 # 2)%Q) by (vm_compute; reflexivity). rewrite <- E. apply (Hn n Hle x 1%nat Hx). cbn. auto.
Qed.

(** With an acceptance function that tosses a fair coin the chances settle. *)
Definition coin_propose (x d : nat) : nat := row_propose x (d mod 2).
Definition coin_agrees (x y d : nat) : bool := d <? 2.
Lemma coin_closed : closed coin_propose 4 [row_constraint] row_passes row_plans.
Proof.
  split; [repeat constructor; cbn; intuition discriminate|]. split.
  - intros x Hx. rewrite row_valid. assert (x < 3) by (cbn in Hx; lia). split; [now apply Nat.ltb_lt|]. exists 0. split; [lia|]. rewrite row_valid. cbn in Hx. destruct Hx as [<-|[<-|[<-|[]]]]; reflexivity.
  - intros x d Hx Hd. rewrite row_valid, Nat.ltb_lt. intro H. cbn in Hx. destruct Hx as [<-|[<-|[<-|[]]]], d as [|[|[|[|d]]]]; cbn in *; lia.
Qed.
Lemma coin_balanced : P_ChainLaw.balanced coin_propose coin_agrees 4 [row_constraint] row_passes (fun _ => 1%Q).
Proof.
  intros x y a b. rewrite !row_valid, !Nat.ltb_lt. intros Hx Hy Hn Ha Hb. assert (E : a = b); [|rewrite E; reflexivity].
  assert (G : forall x y, numbers (P_ChainLaw.move_draws coin_propose coin_agrees 4 x y) (List.length (filter (fun d => (coin_propose x d =? y) && (d <? 2)) (seq 0 4)))).
  { intros x' y'. eexists. split; [apply NoDup_filter, seq_NoDup|]. split; [|reflexivity]. intro d. rewrite filter_In, in_seq, andb_true_iff, Nat.eqb_eq. unfold P_ChainLaw.move_draws, coin_agrees. split; intros; intuition lia. }
  rewrite (numbers_unique _ _ _ Ha (G x y)), (numbers_unique _ _ _ Hb (G y x)).
  destruct x as [|[|[|x]]], y as [|[|[|y]]]; try lia; reflexivity.
Qed.
Lemma coin_connected : connected coin_propose coin_agrees 4 row_plans.
Proof.
  assert (M : forall x d, In x row_plans -> d < 2 -> coin_propose x d < 3 -> In x row_plans /\ In (coin_propose x d) row_plans /\ moves coin_propose coin_agrees 4 x (coin_propose x d)).
  { intros x d Hx Hd H. split; [exact Hx|]. split; [cbn in Hx; destruct Hx as [<-|[<-|[<-|[]]]], d as [|[|d]]; cbn in *; lia|]. exists d. split; [lia|]. split; [reflexivity|]. now apply Nat.ltb_lt. }
  assert (To1 : forall x, In x row_plans -> reach (fun a b => In a row_plans /\ In b row_plans /\ moves coin_propose coin_agrees 4 a b) x 1).
  { intros x Hx. cbn in Hx. destruct Hx as [<-|[<-|[<-|[]]]]; [|constructor|]; (econstructor; [constructor|]); [apply (M 0 0)|apply (M 2 0)]; cbn; auto; lia. }
  intros x y Hx Hy. specialize (To1 x Hx). cbn in Hy. destruct Hy as [<-|[<-|[<-|[]]]]; [|exact To1|]; (econstructor; [exact To1|]); [apply (M 1 0)|apply (M 1 1)]; cbn; auto; lia.
Qed.
Lemma coin_numbers x : In x row_plans -> numbers (P_ChainLaw.valid_draws coin_propose 4 [row_constraint] row_passes x) (2 * row_v x).
Proof. intro Hx. assert (E : 2 * row_v x = goods coin_propose 4 [row_constraint] row_passes x) by (cbn in Hx; destruct Hx as [<-|[<-|[<-|[]]]]; reflexivity). rewrite E. exact (goods_numbers coin_propose coin_agrees 4 [row_constraint] row_passes x). Qed.
Lemma coin_lazy : lazy_somewhere coin_propose coin_agrees 4 [row_constraint] row_passes row_plans.
Proof. exists 0, 2. split; [cbn; auto|]. split; [lia|]. split; [reflexivity|]. now left. Qed.
Example C124_limit_nonvacuous q : (forall k x y, In x row_plans -> In y row_plans -> chance coin_propose coin_agrees 4 [row_constraint] k x y (q k x y)) ->
  forall eps, (0 < eps)%Q -> exists n0, forall n, n0 <= n -> forall x, In x row_plans -> (Qabs (q n x 1%nat - (1 # 2)) <= eps)%Q.
Proof.
  intros Hq eps He. destruct (C124_limit coin_propose coin_agrees 4 [row_constraint] row_passes row_plans (fun _ => 1%Q) (fun x => 2 * row_v x) q
    row_pure coin_closed coin_connected coin_lazy coin_balanced ltac:(reflexivity) coin_numbers Hq eps He) as (n0 & Hn). exists n0. intros n Hle x Hx.
  assert (E : (share row_plans (fun _ => 1%Q) (fun x => 2 * row_v x)%nat 1%nat == 1 # 2)%Q) by (vm_compute; reflexivity). rewrite <- E. apply (Hn n Hle x 1%nat Hx). cbn. auto.
Qed.

Print Assumptions C124_law.
Print Assumptions C124_averages.
Print Assumptions C124_limit.
Print Assumptions C124_alternates_refuted.
