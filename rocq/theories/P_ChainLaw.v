(** C101: the law of a step of the chain when invalid proposals are redrawn. *)
From Coq Require Import List Bool Arith ZArith QArith Lqa Qabs Lia ZifyBool ZifyNat.
From Verif Require Import Base M_Constraints M_Chain L_Locality M_Recursive P_Uniform.
Import ListNotations.
Local Open Scope nat_scope.
Local Open Scope list_scope.

Section Law.
  Context {X : Type} {EX : EqB X}.
  (** A proposal function driven by one number below [D] per call, drawn
      uniformly; the acceptance function may use the plan proposed from and the
      same number (of which the two can use independent digits). *)
  Variable propose : X -> nat -> X.
  Variable agrees : X -> X -> nat -> bool.
  Variable D : nat.
  Definition world : Type := list nat * option (X * nat).
  Definition draw_proposal (x : X) (w : world) : res X * world :=
    match fst w with [] => (NoFuel, w) | d :: r => (Ok (propose x d), (r, Some (x, d))) end.
  Definition draw_accept (y : X) (w : world) : res pyval * world :=
    match snd w with Some (x, d) => (Ok (PBool (agrees x y d)), w) | None => (Err AttributeError, w) end.
  (** Constraints that depend on the plan alone. *)
  Variable cs : list (constraint X world).
  Variable passes : constraint X world -> X -> bool.
  Definition pure : Prop := forall c y w, In c cs -> c y w = (Ok (PBool (passes c y)), w).
  Definition valid (y : X) : bool := forallb (fun c => passes c y) cs.

  (** ** Specification *)

  (** [chain] is at plan [x] and has steps left. *)
  Definition at_plan (ch : chain X world) (x : X) : Prop :=
    ch_valid ch = Reusable cs /\ ch_state ch = x /\ exists k, ch_counter ch = Some k /\ (0 < k < ch_total ch)%Z.
  (** The next plan is [y] if the draws are [ds]. *)
  Definition arrives (ch : chain X world) (y : X) (n : nat) (ds : list nat) : Prop :=
    List.length ds = n /\ Forall (fun d => d < D) ds /\
    exists ch' w', next draw_proposal draw_accept (fun _ w => w) (S n) ch (ds, None) = (Ok y, ch', w').
  (** The fraction of the words of [n] draws with a property tends to [p]. *)
  Definition tends (A : nat -> list nat -> Prop) (p : Q) : Prop :=
    forall eps : Q, (0 < eps)%Q -> exists n0, forall n, n0 <= n -> exists c, numbers (A n) c /\ (p - eps < Qn c / Qn (D ^ n) < p + eps)%Q.
  (** From plan [x] the chain steps to plan [y] with probability [p]. *)
  Definition steps_to (x y : X) (p : Q) : Prop := forall ch, at_plan ch x -> tends (arrives ch y) p.
  (** The numbers whose proposal is valid. *)
  Definition valid_draws (x : X) : nat -> Prop := fun d => d < D /\ valid (propose x d) = true.
  (** The numbers that propose [y] and accept it. *)
  Definition move_draws (x y : X) : nat -> Prop := fun d => d < D /\ propose x d = y /\ agrees x y d = true.
  (** Proposals between valid plans are in detailed balance with the weights. *)
  Definition balanced (weight : X -> Q) : Prop := forall x y a b, valid x = true -> valid y = true -> x <> y ->
    numbers (move_draws x y) a -> numbers (move_draws y x) b -> (weight x * Qn a == weight y * Qn b)%Q.

  (** ** Lemmas *)
  Lemma validator_pure y w : pure -> validator (Reusable cs) y w = (Ok (valid y), w, Reusable cs).
  Proof.
    intro Pu. unfold validator, valid. assert (G : forall l, incl l cs -> exists r, validate_loop l y w = (Ok (forallb (fun c => passes c y) l), w, r)).
    { induction l as [|c l IH]; intro I; cbn [validate_loop forallb]; [eauto|]. rewrite (Pu c y w) by (apply I; now left). unfold verdict. cbn [coerce].
      destruct (passes c y); cbn [andb]; [apply IH; intros a Ha; apply I; now right|eauto]. }
    destruct (G cs (incl_refl cs)) as [r ->]. reflexivity.
  Qed.
  (** What one draw does. *)
  Definition outcome (x : X) (d : nat) : option X :=
    if valid (propose x d) then Some (if agrees x (propose x d) d then propose x d else x) else None.
  Fixpoint first_outcome (x : X) (ds : list nat) : option X :=
    match ds with [] => None | d :: r => match outcome x d with Some y => Some y | None => first_outcome x r end end.
  Lemma advance_outcome x k ds : forall n m ch, pure -> ch_valid ch = Reusable cs -> ch_state ch = x -> (k < ch_total ch)%Z -> List.length ds < n ->
    match first_outcome x ds with
    | Some y => exists ch' w', advance draw_proposal draw_accept (fun _ w => w) n k ch (ds, m) = (Ok y, ch', w')
    | None => exists ch' w', advance draw_proposal draw_accept (fun _ w => w) n k ch (ds, m) = (NoFuel, ch', w')
    end.
  Proof.
    induction ds as [|d ds IH]; intros [|n] m ch Pu Hv Hs Hk Hl; cbn [List.length] in Hl; try lia; cbn [advance first_outcome].
    - rewrite (proj2 (Z.ltb_lt _ _) Hk). cbn. eauto.
    - rewrite (proj2 (Z.ltb_lt _ _) Hk). unfold draw_proposal at 1 3. cbn [fst]. rewrite Hs, Hv, !validator_pure by exact Pu. unfold outcome.
      destruct (valid (propose x d)).
      + unfold draw_accept. cbn [snd truthy]. eauto.
      + specialize (IH n (Some (x, d)) (with_valid ch (Reusable cs)) Pu eq_refl Hs Hk). apply IH. lia.
  Qed.
  Definition arrivesb (x y : X) (ds : list nat) : bool := match first_outcome x ds with Some z => eqb z y | None => false end.
  Lemma arrives_iff ch x y n ds : pure -> at_plan ch x -> arrives ch y n ds <-> (List.length ds = n /\ Forall (fun d => d < D) ds) /\ arrivesb x y ds = true.
  Proof.
    intros Pu (Hv & Hs & k & Hc & Hk). unfold arrives, arrivesb, next. rewrite Hc. replace (k =? 0)%Z with false by lia.
    split.
    - intros (Hl & Hd & ch' & w' & E). split; auto. assert (A := advance_outcome x k ds (S n) None ch Pu Hv Hs (proj2 Hk)). rewrite Hl in A. specialize (A (Nat.lt_succ_diag_r n)).
      destruct (first_outcome x ds) as [z|].
      + destruct A as (ch2 & w2 & A). rewrite E in A. injection A as A _ _. rewrite A. apply eqb_refl.
      + destruct A as (ch2 & w2 & A). rewrite E in A. discriminate A.
    - intros ((Hl & Hd) & E). split; auto. split; auto. assert (A := advance_outcome x k ds (S n) None ch Pu Hv Hs (proj2 Hk)). rewrite Hl in A. specialize (A (Nat.lt_succ_diag_r n)).
      destruct (first_outcome x ds) as [z|]; [|discriminate]. apply (proj1 (eqb_eq z y)) in E. rewrite <- E. exact A.
  Qed.
  (** Draws by outcome. *)
  Definition hits (x y : X) : nat := List.length (filter (fun d => match outcome x d with Some z => eqb z y | None => false end) (seq 0 D)).
  Definition misses (x : X) : nat := List.length (filter (fun d => match outcome x d with Some _ => false | None => true end) (seq 0 D)).
  Definition goods (x : X) : nat := List.length (filter (fun d => valid (propose x d)) (seq 0 D)).
  Lemma goods_numbers x : numbers (valid_draws x) (goods x).
  Proof.
    exists (filter (fun d => valid (propose x d)) (seq 0 D)). split; [apply NoDup_filter, seq_NoDup|]. split; [|reflexivity].
    intro d. rewrite filter_In, in_seq. unfold valid_draws. split; intros [H1 H2]; split; auto; lia.
  Qed.
  Lemma goods_misses x : goods x + misses x = D.
  Proof.
    unfold goods, misses. rewrite <- (seq_length D 0) at 3. generalize (seq 0 D). induction l as [|d l IH]; [reflexivity|]. cbn [filter]. unfold outcome at 1.
    destruct (valid (propose x d)); cbn [List.length]; lia.
  Qed.
  Lemma hits_le x y : hits x y <= goods x.
  Proof.
    unfold goods, hits. generalize (seq 0 D). induction l as [|d l IH]; [constructor|]. cbn [filter]. unfold outcome at 1.
    destruct (valid (propose x d)); [destruct (eqb _ y); cbn [List.length]; lia|exact IH].
  Qed.
  Definition count_words (x y : X) (n : nat) : nat := List.length (filter (arrivesb x y) (words D n)).
  Lemma filter_flat_map {A B} (f : B -> bool) (g : A -> list B) l : filter f (flat_map g l) = flat_map (fun a => filter f (g a)) l.
  Proof. induction l as [|a l IH]; [reflexivity|]. cbn [flat_map]. rewrite filter_app. now f_equal. Qed.
  Lemma count_step x y n : count_words x y (S n) = hits x y * D ^ n + misses x * count_words x y n.
  Proof.
    unfold count_words at 1. cbn [words]. rewrite filter_flat_map. unfold hits, misses.
    induction (seq 0 D) as [|d l IH]; [reflexivity|]. cbn [flat_map filter]. rewrite app_length, IH.
    assert (E : List.length (filter (arrivesb x y) (map (cons d) (words D n))) =
                match outcome x d with Some z => if eqb z y then D ^ n else 0 | None => count_words x y n end).
    { unfold count_words. rewrite <- (length_words D n). generalize (words D n). induction l0 as [|w ws IHw]; [cbn; now destruct (outcome x d) as [z|]; [destruct (eqb z y)|]|].
      cbn [map filter]. unfold arrivesb at 1. cbn [first_outcome]. destruct (outcome x d) as [z|] eqn:Ed.
      - destruct (eqb z y); cbn [List.length]; lia.
      - fold (arrivesb x y w). destruct (arrivesb x y w); cbn [List.length]; lia. }
    rewrite E. destruct (outcome x d) as [z|]; [destruct (eqb z y)|]; cbn [List.length]; lia.
  Qed.
  Lemma count_formula x y n : count_words x y n * goods x + hits x y * misses x ^ n = hits x y * D ^ n.
  Proof.
    induction n as [|n IH]; [cbn; lia|]. rewrite count_step. assert (G := goods_misses x). cbn [Nat.pow]. set (h := hits x y) in *. set (m := misses x) in *. set (v := goods x) in *.
    assert (E : h * (D * D ^ n) = v * (h * D ^ n) + m * (h * D ^ n)) by (rewrite <- G at 1; ring).
    rewrite E, <- IH. rewrite IH at 1. ring_simplify. rewrite <- IH. ring.
  Qed.
  Lemma bernoulli a v n : a ^ n * (a + n * v) <= (a + v) ^ n * a.
  Proof.
    induction n as [|n IH]; [cbn; lia|]. cbn [Nat.pow].
    apply Nat.le_trans with ((a + v) * (a ^ n * (a + n * v))).
    - replace ((a + v) * (a ^ n * (a + n * v))) with (a ^ n * ((a + v) * (a + n * v))) by ring.
      replace (a * a ^ n * (a + S n * v)) with (a ^ n * (a * (a + S n * v))) by ring. apply Nat.mul_le_mono_l. nia.
    - replace ((a + v) * (a + v) ^ n * a) with ((a + v) * ((a + v) ^ n * a)) by ring. now apply Nat.mul_le_mono_l.
  Qed.
  Lemma Qn_mult a b : (Qn (a * b) == Qn a * Qn b)%Q.
  Proof. unfold Qn. rewrite <- inject_Z_mult. now rewrite Nat2Z.inj_mul. Qed.
  Lemma Qn_plus a b : (Qn (a + b) == Qn a + Qn b)%Q.
  Proof. unfold Qn. rewrite <- inject_Z_plus. now rewrite Nat2Z.inj_add. Qed.
  Lemma Qn_le a b : a <= b -> (Qn a <= Qn b)%Q.
  Proof. intro H. unfold Qn. rewrite <- Zle_Qle. lia. Qed.
  Lemma Qn_lt a b : a < b -> (Qn a < Qn b)%Q.
  Proof. intro H. unfold Qn. rewrite <- Zlt_Qlt. lia. Qed.
  Lemma Qn_0 : (Qn 0 == 0)%Q. Proof. reflexivity. Qed.

  (** ** Theorems *)

  (** The number of words of [n] draws after which the chain is at [y]. *)
  Theorem C101_count ch x y n c o v : pure -> at_plan ch x ->
    numbers (fun d => valid_draws x d /\ (if agrees x (propose x d) d then propose x d else x) = y) o -> numbers (valid_draws x) v ->
    numbers (arrives ch y n) c -> c * v = o * (D ^ n - (D - v) ^ n).
  Proof.
    intros Pu A Ho Hv Hc.
    assert (Ev : v = goods x) by (eapply numbers_unique; [exact Hv|apply goods_numbers]).
    assert (Eo : o = hits x y).
    { eapply numbers_unique; [exact Ho|]. eexists. split; [apply NoDup_filter, seq_NoDup|]. split; [|reflexivity]. intro d. rewrite filter_In, in_seq. unfold valid_draws, outcome.
      destruct (valid (propose x d)); [|split; [intros [_ K]; discriminate|intros [[_ K] _]; discriminate]].
      destruct (eqb_spec (if agrees x (propose x d) d then propose x d else x) y); split; try tauto; try (intros [_ K]; discriminate); intros; split; auto; try lia; tauto. }
    assert (Ec : c = count_words x y n).
    { eapply numbers_unique; [exact Hc|]. apply numbers_words. intro ws. rewrite (arrives_iff ch x y n ws Pu A). reflexivity. }
    subst. assert (F := count_formula x y n). assert (G := goods_misses x). replace (D - goods x) with (misses x) by lia.
    rewrite Nat.mul_sub_distr_l. lia.
  Qed.

  (** The step probabilities: the share of [y] among the valid draws. *)
  Lemma steps_hits x y : pure -> 0 < goods x -> steps_to x y (Qn (hits x y) / Qn (goods x)).
  Proof.
    intros Pu Hg ch A eps He. set (h := hits x y). set (v := goods x). set (m := misses x).
    assert (GM : v + m = D) by apply goods_misses. assert (Hh : h <= v) by apply hits_le.
    (* n0 > m / eps *)
    destruct (Qarchimedean (Qn m / eps)) as [z Hz].
    exists (S (Pos.to_nat z)). intros n Hn. exists (count_words x y n). split.
    { apply numbers_words. intro ws. rewrite (arrives_iff ch x y n ws Pu A). reflexivity. }
    assert (F := count_formula x y n). fold h v m in F. set (c := count_words x y n) in *.
    assert (B := bernoulli m v n). rewrite (Nat.add_comm m v), GM in B.
    assert (HD : 0 < D ^ n) by (apply Nat.neq_0_lt_0, Nat.pow_nonzero; lia).
    assert (QD : (0 < Qn (D ^ n))%Q) by (rewrite <- Qn_0; now apply Qn_lt). assert (Qv : (0 < Qn v)%Q) by (rewrite <- Qn_0; now apply Qn_lt).
    assert (QF : (Qn c * Qn v + Qn h * Qn (m ^ n) == Qn h * Qn (D ^ n))%Q) by (rewrite <- !Qn_mult, <- Qn_plus; now rewrite F).
    assert (Qm : (0 <= Qn (m ^ n))%Q) by (rewrite <- Qn_0; apply Qn_le; lia). assert (Qh : (0 <= Qn h <= Qn v)%Q) by (split; [rewrite <- Qn_0; apply Qn_le; lia|now apply Qn_le]).
    (* m^n < eps D^n *)
    assert (Small : (Qn (m ^ n) < eps * Qn (D ^ n))%Q).
    { assert (B2 : m ^ n * n <= D ^ n * m) by nia.
      assert (Q2 : (Qn (m ^ n) * Qn n <= Qn (D ^ n) * Qn m)%Q) by (rewrite <- !Qn_mult; now apply Qn_le).
      assert (Qz : (Qn m < eps * Qn n)%Q).
      { assert (Y : (Qn m / eps < Qn n)%Q).
        { eapply Qlt_le_trans; [exact Hz|]. unfold Qn. change (Z.pos z # 1)%Q with (inject_Z (Z.pos z)). rewrite <- Zle_Qle. lia. }
        apply (Qmult_lt_l _ _ eps He) in Y. setoid_replace (eps * (Qn m / eps))%Q with (Qn m) in Y; [exact Y|]. field. lra. }
      assert (Qn0 : (0 < Qn n)%Q) by (rewrite <- Qn_0; apply Qn_lt; lia).
      destruct (Qlt_le_dec (Qn (m ^ n)) (eps * Qn (D ^ n))) as [|K]; auto. exfalso.
      assert (K1 : (0 <= (Qn (m ^ n) - eps * Qn (D ^ n)) * Qn n)%Q) by (apply Qmult_le_0_compat; lra).
      assert (K2 : (0 < Qn (D ^ n) * (eps * Qn n - Qn m))%Q) by (apply Qmult_lt_0_compat; lra). lra. }
    assert (Div : (Qn c / Qn (D ^ n) == Qn h / Qn v - Qn h * Qn (m ^ n) / (Qn v * Qn (D ^ n)))%Q).
    { setoid_replace (Qn h * Qn (m ^ n))%Q with (Qn h * Qn (D ^ n) - Qn c * Qn v)%Q by lra. field. split; lra. }
    assert (P0 : (0 < Qn v * Qn (D ^ n))%Q) by (apply Qmult_lt_0_compat; lra).
    assert (L0 : (0 <= Qn h * Qn (m ^ n) / (Qn v * Qn (D ^ n)))%Q) by (apply Qle_shift_div_l; [exact P0|]; assert (Z0 : (0 <= Qn h * Qn (m ^ n))%Q) by (apply Qmult_le_0_compat; lra); lra).
    assert (L1 : (Qn h * Qn (m ^ n) / (Qn v * Qn (D ^ n)) < eps)%Q).
    { apply Qlt_shift_div_r; [exact P0|]. assert (Z1 : (0 <= (Qn v - Qn h) * Qn (m ^ n))%Q) by (apply Qmult_le_0_compat; lra).
      assert (Z2 : (0 < Qn v * (eps * Qn (D ^ n) - Qn (m ^ n)))%Q) by (apply Qmult_lt_0_compat; lra). lra. }
    rewrite Div. split; lra.
  Qed.
  Lemma tends_unique A p q : tends A p -> tends A q -> (p == q)%Q.
  Proof.
    intros Hp Hq. destruct (Q_dec p q) as [[Hl|Hl]|]; [exfalso|exfalso|assumption].
    - assert (He : (0 < (q - p) / 2)%Q) by (apply Qlt_shift_div_l; lra). destruct (Hp _ He) as [n Hn]. destruct (Hq _ He) as [n' Hn'].
      destruct (Hn (n + n')) as (c & N1 & C1); [lia|]. destruct (Hn' (n + n')) as (c' & N2 & C2); [lia|]. rewrite (numbers_unique _ _ _ N2 N1) in C2.
      assert (E : ((q - p) / 2 == q * (1 # 2) - p * (1 # 2))%Q) by field. lra.
    - assert (He : (0 < (p - q) / 2)%Q) by (apply Qlt_shift_div_l; lra). destruct (Hp _ He) as [n Hn]. destruct (Hq _ He) as [n' Hn'].
      destruct (Hn (n + n')) as (c & N1 & C1); [lia|]. destruct (Hn' (n + n')) as (c' & N2 & C2); [lia|]. rewrite (numbers_unique _ _ _ N2 N1) in C2.
      assert (E : ((p - q) / 2 == p * (1 # 2) - q * (1 # 2))%Q) by field. lra.
  Qed.
  Lemma steps_unique x y p q : steps_to x y p -> steps_to x y q -> (p == q)%Q.
  Proof.
    intros Hp Hq. set (ch := mkChain (Reusable cs) 2 x x (Some 1%Z)). assert (A : at_plan ch x) by (split; [reflexivity|]; split; [reflexivity|]; exists 1%Z; split; [reflexivity|cbn; lia]).
    eapply tends_unique; [apply (Hp ch A)|apply (Hq ch A)].
  Qed.
  Theorem C101_law x y o v : pure -> 0 < v ->
    numbers (fun d => valid_draws x d /\ (if agrees x (propose x d) d then propose x d else x) = y) o -> numbers (valid_draws x) v ->
    forall p, steps_to x y p <-> (p == Qn o / Qn v)%Q.
  Proof.
    intros Pu V0 Ho Hv p. assert (Ev : v = goods x) by (eapply numbers_unique; [exact Hv|apply goods_numbers]).
    assert (Eo : o = hits x y).
    { eapply numbers_unique; [exact Ho|]. eexists. split; [apply NoDup_filter, seq_NoDup|]. split; [|reflexivity]. intro d. rewrite filter_In, in_seq. unfold valid_draws, outcome.
      destruct (valid (propose x d)); [|split; [intros [_ K]; discriminate|intros [[_ K] _]; discriminate]].
      destruct (eqb_spec (if agrees x (propose x d) d then propose x d else x) y); split; try tauto; try (intros [_ K]; discriminate); intros; split; auto; try lia; tauto. }
    subst. split.
    - intro H. eapply steps_unique; [exact H|now apply steps_hits].
    - intros E ch A eps He. destruct (steps_hits x y Pu V0 ch A eps He) as [n0 Hn]. exists n0. intros n Hle. destruct (Hn n Hle) as (c & N & C). exists c. split; auto. rewrite E. exact C.
  Qed.

  (** Detailed balance of the chain: with the weights multiplied by the number
      of valid draws. *)
  Lemma hits_moves x y : valid y = true -> x <> y -> numbers (move_draws x y) (hits x y).
  Proof.
    intros Vy Hn. eexists. split; [apply NoDup_filter, seq_NoDup|]. split; [|reflexivity]. intro d. rewrite filter_In, in_seq. unfold move_draws, outcome. split.
    - intros [H1 H2]. destruct (valid (propose x d)); [|discriminate]. destruct (agrees x (propose x d) d) eqn:E; [|destruct (eqb_spec x y); [contradiction|discriminate]].
      destruct (eqb_spec (propose x d) y) as [Ey|]; [|discriminate]. rewrite Ey in E. split; [lia|auto].
    - intros (H1 & H2 & H3). split; [lia|]. rewrite H2, Vy, H3. apply eqb_refl.
  Qed.
  Theorem C101_balance weight x y vx vy p q : pure -> balanced weight -> valid x = true -> valid y = true ->
    numbers (valid_draws x) vx -> numbers (valid_draws y) vy -> 0 < vx -> 0 < vy -> steps_to x y p -> steps_to y x q ->
    (weight x * Qn vx * p == weight y * Qn vy * q)%Q.
  Proof.
    intros Pu Bal Vx Vy Nx Ny Px Py Sp Sq.
    rewrite (numbers_unique _ _ _ Nx (goods_numbers x)) in *. rewrite (numbers_unique _ _ _ Ny (goods_numbers y)) in *.
    destruct (eqb_spec x y) as [->|Hn]; [rewrite (steps_unique _ _ _ _ Sp Sq); reflexivity|].
    rewrite (steps_unique _ _ _ _ Sp (steps_hits x y Pu Px)), (steps_unique _ _ _ _ Sq (steps_hits y x Pu Py)).
    assert (B := Bal x y _ _ Vx Vy Hn (hits_moves x y Vy Hn) (hits_moves y x Vx (fun E => Hn (eq_sym E)))).
    assert (Qx : (0 < Qn (goods x))%Q) by (rewrite <- Qn_0; now apply Qn_lt). assert (Qy : (0 < Qn (goods y))%Q) by (rewrite <- Qn_0; now apply Qn_lt).
    transitivity (weight x * Qn (hits x y))%Q; [field; lra|]. rewrite B. field. lra.
  Qed.
  (** Hence these weights are stationary. *)
  Definition sumQ (f : X -> Q) (l : list X) : Q := fold_right (fun x s => f x + s)%Q 0%Q l.
  Lemma sumQ_ext f g l : (forall x, In x l -> f x == g x)%Q -> (sumQ f l == sumQ g l)%Q.
  Proof. induction l as [|x l IH]; intro H; [reflexivity|]. cbn. rewrite (H x (or_introl eq_refl)), IH; [reflexivity|]. intros; apply H; now right. Qed.
  Lemma sumQ_mult c f l : (sumQ (fun x => c * f x) l == c * sumQ f l)%Q.
  Proof. induction l as [|x l IH]; cbn; [ring|]. unfold sumQ in IH. rewrite IH. unfold sumQ. ring. Qed.
  Lemma sumQ_plus f g l : (sumQ (fun x => f x + g x) l == sumQ f l + sumQ g l)%Q.
  Proof. induction l as [|x l IH]; cbn; [reflexivity|]. unfold sumQ in IH. rewrite IH. unfold sumQ. ring. Qed.
  Lemma hits_total y S : NoDup S -> (forall d z, d < D -> outcome y d = Some z -> In z S) -> (sumQ (fun x => Qn (hits y x)) S == Qn (goods y))%Q.
  Proof.
    intros ND H. unfold hits, goods.
    assert (Hd : forall d z, In d (seq 0 D) -> outcome y d = Some z -> In z S) by (intros d z Hd; apply H; apply in_seq in Hd; lia). clear H. revert Hd.
    induction (seq 0 D) as [|d l IH]; intro Hd.
    - cbn. clear. induction S as [|x S IH]; [reflexivity|]. cbn. rewrite IH. reflexivity.
    - assert (IH' := IH (fun d' z Hd' => Hd d' z (or_intror Hd'))). clear IH. cbn [filter].
      assert (G : (sumQ (fun x => Qn (List.length (if match outcome y d with Some z => eqb z x | None => false end then d :: filter (fun d => match outcome y d with Some z => eqb z x | None => false end) l
                     else filter (fun d => match outcome y d with Some z => eqb z x | None => false end) l))) S ==
                  sumQ (fun x => (if match outcome y d with Some z => eqb z x | None => false end then 1 else 0)%Q) S +
                  sumQ (fun x => Qn (List.length (filter (fun d => match outcome y d with Some z => eqb z x | None => false end) l))) S)%Q).
      { rewrite <- sumQ_plus. apply sumQ_ext. intros x _. destruct (match outcome y d with Some z => eqb z x | None => false end); [|ring].
        cbn [List.length]. rewrite <- Nat.add_1_r, Qn_plus. change (Qn 1) with 1%Q. ring. }
      rewrite G, IH'. unfold outcome at 1. destruct (valid (propose y d)) eqn:V.
      + cbn [List.length]. rewrite <- Nat.add_1_r, Qn_plus. change (Qn 1) with 1%Q.
        set (z := if agrees y (propose y d) d then propose y d else y). assert (Hz : In z S) by (apply (Hd d); [now left|]; unfold outcome; now rewrite V).
        assert (One : (sumQ (fun x => if eqb z x then 1 else 0)%Q S == 1)%Q).
        { clear -ND Hz. induction ND as [|x S Hx ND IH]; [destruct Hz|]. cbn. destruct (eqb_spec z x) as [->|Hn].
          - assert (Z : (sumQ (fun x0 => if eqb x x0 then 1 else 0)%Q S == 0)%Q); [|unfold sumQ in Z; rewrite Z; reflexivity].
            clear -Hx. induction S as [|a S IH]; [reflexivity|]. cbn. destruct (eqb_spec x a) as [->|]; [elim Hx; now left|]. unfold sumQ in IH. rewrite IH; [reflexivity|]. intro K. apply Hx. now right.
          - destruct Hz as [->|Hz]; [contradiction|]. specialize (IH Hz). unfold sumQ in IH. rewrite IH. reflexivity. }
        rewrite One. ring.
      + assert (Z : (sumQ (fun _ : X => 0)%Q S == 0)%Q) by (clear; induction S as [|x S IH]; [reflexivity|]; cbn; unfold sumQ in IH; rewrite IH; reflexivity).
        rewrite Z. ring.
  Qed.
  Theorem C101_stationary weight (v : X -> nat) (p : X -> X -> Q) S y : pure -> balanced weight -> NoDup S -> In y S ->
    (forall x, In x S -> valid x = true /\ numbers (valid_draws x) (v x) /\ 0 < v x) ->
    (forall x d, In x S -> d < D -> valid (propose x d) = true -> In (propose x d) S) ->
    (forall x z, In x S -> In z S -> steps_to x z (p x z)) ->
    (sumQ (fun x => weight x * Qn (v x) * p x y) S == weight y * Qn (v y))%Q.
  Proof.
    intros Pu Bal ND Hy Hv Cl Hp. destruct (Hv y Hy) as (Vy & Ny & Py).
    transitivity (sumQ (fun x => weight y * Qn (v y) * p y x) S)%Q.
    - apply sumQ_ext. intros x Hx. destruct (Hv x Hx) as (Vx & Nx & Px). eapply C101_balance; eauto.
    - rewrite sumQ_mult. assert (T : (sumQ (fun x => p y x) S == 1)%Q); [|rewrite T; ring].
      assert (Ey := numbers_unique _ _ _ Ny (goods_numbers y)).
      transitivity (sumQ (fun x => / Qn (goods y) * Qn (hits y x)) S)%Q.
      + apply sumQ_ext. intros x Hx. rewrite (steps_unique _ _ _ _ (Hp y x Hy Hx) (steps_hits y x Pu ltac:(rewrite <- Ey; exact Py))). unfold Qdiv. ring.
      + rewrite sumQ_mult, hits_total; [|exact ND|].
        * rewrite Qmult_comm. apply Qmult_inv_r. intro K. assert (Z : (0 < Qn (goods y))%Q) by (rewrite <- Qn_0; apply Qn_lt; now rewrite <- Ey). lra.
        * intros d z Hd. unfold outcome. destruct (valid (propose y d)) eqn:V; [|discriminate]. intros [= <-]. destruct (agrees y (propose y d) d); auto.
  Qed.
End Law.

(** ** Concrete case: plans 0, 1 and 2 in a row, everything else invalid; a
    fair coin proposes the plan below or above. *)
Definition row_propose (x d : nat) : nat := match x with 0 => if d =? 0 then 1 else 3 | 1 => if d =? 0 then 0 else 2 | _ => if d =? 0 then 1 else 3 end.
Definition row_agrees (x y d : nat) : bool := true.
Definition row_constraint : constraint nat (@world nat) := fun y w => (Ok (PBool (Nat.ltb y 3)), w).
Definition row_passes (c : constraint nat (@world nat)) (y : nat) : bool := Nat.ltb y 3.
Lemma row_pure : pure [row_constraint] row_passes.
Proof. intros c y w [<-|[]]. reflexivity. Qed.
Lemma row_valid y : valid [row_constraint] row_passes y = Nat.ltb y 3.
Proof. unfold valid. cbn [forallb]. apply andb_true_r. Qed.
Lemma row_moves x y a b : x < 3 -> y < 3 -> x <> y -> numbers (move_draws row_propose row_agrees 2 x y) a -> numbers (move_draws row_propose row_agrees 2 y x) b -> a = b.
Proof.
  intros Hx Hy Hn Ha Hb.
  assert (G : forall x y, numbers (move_draws row_propose row_agrees 2 x y) (List.length (filter (fun d => row_propose x d =? y) (seq 0 2)))).
  { intros x' y'. eexists. split; [apply NoDup_filter, seq_NoDup|]. split; [|reflexivity]. intro d. rewrite filter_In, in_seq, Nat.eqb_eq. unfold move_draws, row_agrees. split; intros; intuition lia. }
  rewrite (numbers_unique _ _ _ Ha (G x y)), (numbers_unique _ _ _ Hb (G y x)).
  destruct x as [|[|[|x]]], y as [|[|[|y]]]; try lia; reflexivity.
Qed.
(** Symmetric proposals, and yet the uniform distribution is not stationary. *)
Theorem C101_uniform_refuted : exists (propose : nat -> nat -> nat) (agrees : nat -> nat -> nat -> bool) D cs passes S y,
  pure cs passes /\ balanced propose agrees D cs passes (fun _ => 1%Q) /\ NoDup S /\ In y S /\
  (forall x d, In x S -> d < D -> valid cs passes (propose x d) = true -> In (propose x d) S) /\
  forall p : nat -> nat -> Q, (forall x z, In x S -> In z S -> steps_to propose agrees D cs x z (p x z)) -> ~ (sumQ (fun x => p x y) S == 1)%Q.
Proof.
  exists row_propose, row_agrees, 2, [row_constraint], row_passes, [0; 1; 2], 1. split; [apply row_pure|]. split.
  { intros x y a b. rewrite !row_valid, !Nat.ltb_lt. intros Hx Hy Hn Ha Hb. rewrite (row_moves x y a b); auto. reflexivity. }
  split; [repeat constructor; cbn; intuition discriminate|]. split; [cbn; auto|]. split.
  { intros x d Hx Hd. rewrite row_valid, Nat.ltb_lt. intro H. cbn in Hx. destruct Hx as [<-|[<-|[<-|[]]]], d as [|[|d]]; cbn in *; lia. }
  intros p Hp.
  assert (P : forall x, In x [0; 1; 2] -> (p x 1%nat == Qn (hits row_propose row_agrees 2%nat [row_constraint] row_passes x 1%nat) / Qn (goods row_propose 2%nat [row_constraint] row_passes x))%Q).
  { intros x Hx. refine (steps_unique row_propose row_agrees 2 [row_constraint] row_passes x 1 _ _ (Hp x 1 Hx _) _); [cbn; auto|]. apply (steps_hits row_propose row_agrees 2 [row_constraint] row_passes); [apply row_pure|]. cbn in Hx. destruct Hx as [<-|[<-|[<-|[]]]]; cbn; lia. }
  cbn [sumQ fold_right]. rewrite (P 0), (P 1), (P 2) by (cbn; auto). vm_compute. discriminate.
Qed.
Example C101_nonvacuous : pure [row_constraint] row_passes /\ balanced row_propose row_agrees 2 [row_constraint] row_passes (fun _ => 1%Q) /\
  at_plan [row_constraint] (mkChain (Reusable [row_constraint]) 5 0 1 (Some 2%Z)) 1 /\
  steps_to row_propose row_agrees 2 [row_constraint] 1 0 (1 # 2) /\ steps_to row_propose row_agrees 2 [row_constraint] 0 1 1 /\
  numbers (valid_draws row_propose 2 [row_constraint] row_passes 1) 2 /\ numbers (valid_draws row_propose 2 [row_constraint] row_passes 0) 1 /\
  numbers (arrives row_propose row_agrees 2 (mkChain (Reusable [row_constraint]) 5 0 0 (Some 2%Z)) 1 3) 7.
Proof.
  split; [apply row_pure|]. split.
  { intros x y a b. rewrite !row_valid, !Nat.ltb_lt. intros Hx Hy Hn Ha Hb. rewrite (row_moves x y a b); auto. reflexivity. }
  split; [repeat split; exists 2%Z; split; [reflexivity|cbn; lia]|].
  split; [exact (steps_hits row_propose row_agrees 2 [row_constraint] row_passes 1 0 row_pure (Nat.lt_0_2))|].
  split; [exact (steps_hits row_propose row_agrees 2 [row_constraint] row_passes 0 1 row_pure (Nat.lt_0_1))|].
  split; [apply (goods_numbers row_propose row_agrees 2 [row_constraint] row_passes 1)|]. split; [apply (goods_numbers row_propose row_agrees 2 [row_constraint] row_passes 0)|].
  change 7 with (List.length (filter (arrivesb row_propose row_agrees [row_constraint] row_passes 0 1) (words 2 3))). apply numbers_words. intro ws.
  rewrite (arrives_iff row_propose row_agrees 2 [row_constraint] row_passes _ 0 1 3 ws row_pure); [reflexivity|]. repeat split; exists 2%Z; split; [reflexivity|cbn; lia].
Qed.

Print Assumptions C101_count.
Print Assumptions C101_law.
Print Assumptions C101_balance.
Print Assumptions C101_stationary.
Print Assumptions C101_uniform_refuted.
