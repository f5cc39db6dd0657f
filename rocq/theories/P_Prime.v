(** The largest bounded prime factor (C58). *)
From Coq Require Import String List Bool Arith ZArith QArith Lia ZifyBool ZifyNat.
From Verif Require Import Base M_Recursive.
Import ListNotations.
Local Open Scope nat_scope.
Local Open Scope list_scope.

(** Specification. *)
Definition is_prime (p : nat) : Prop := 2 <= p /\ forall d, Nat.divide d p -> d = 1 \/ d = p.
Definition prime_factor (n ceil p : nat) : Prop := is_prime p /\ Nat.divide p n /\ p <= ceil.
(** [p] is the largest prime factor of [n] that is at most [ceil]. *)
Definition largest_factor (n ceil p : nat) : Prop :=
  prime_factor n ceil p /\ forall q, prime_factor n ceil q -> q <= p.

Lemma div_pos d n : 1 <= n -> Nat.divide d n -> 1 <= d <= n.
Proof. intros Hn (k & ->). destruct k; [lia|]. destruct d; [lia|]. nia. Qed.
Lemma prime_mul p a b : is_prime p -> Nat.divide p (a * b) -> Nat.divide p a \/ Nat.divide p b.
Proof.
  intros [P2 Pd] H. destruct (Pd (Nat.gcd p a) (Nat.gcd_divide_l p a)) as [E|E].
  - right. eapply Nat.gauss; eauto.
  - left. rewrite <- E. apply Nat.gcd_divide_r.
Qed.
Lemma prime_prime p q : is_prime p -> is_prime q -> Nat.divide p q -> p = q.
Proof. intros [P2 _] [_ Q] H. destruct (Q p H); lia. Qed.
Lemma no_small_prime i n : 2 <= i -> 1 <= n -> Nat.divide i n -> (forall d, 2 <= d < i -> ~ Nat.divide d n) -> is_prime i.
Proof.
  intros Hi Hn Hd No. split; auto. intros d Dd. assert (X := div_pos d i ltac:(lia) Dd).
  destruct (Nat.eq_dec d 1); auto. destruct (Nat.eq_dec d i); auto.
  elim (No d ltac:(lia)). eapply Nat.divide_trans; eauto.
Qed.

Lemma mod_divide i n : 2 <= i -> (Nat.eqb (n mod i) 0 = true <-> Nat.divide i n).
Proof. intro Hi. rewrite Nat.eqb_eq. apply Nat.mod_divide. lia. Qed.

Section Inv.
  Variables n0 ceil : nat.
  Hypothesis Hn0 : 1 <= n0.
  (** [largest] is the largest prime factor of [n0] up to [ceil] that does not
      divide [n]. *)
  Definition best (n : nat) (largest : option nat) : Prop :=
    match largest with
    | Some p => prime_factor n0 ceil p /\ ~ Nat.divide p n /\ forall q, prime_factor n0 ceil q -> ~ Nat.divide q n -> q <= p
    | None => forall q, prime_factor n0 ceil q -> Nat.divide q n
    end.
  Record inv (i n : nat) (largest : option nat) : Prop := {
    iv_pos : 1 <= n;
    iv_div : Nat.divide n n0;
    iv_none : forall d, 2 <= d < i -> ~ Nat.divide d n;
    iv_small : forall q, is_prime q -> Nat.divide q n0 -> ~ Nat.divide q n -> q < i;
    iv_best : best n largest
  }.

  (** One division by [i]: the state is [inv] except that [largest] may already
      be [i]. *)
  Record mid (i n : nat) (largest : option nat) : Prop := {
    md_pos : 1 <= n;
    md_div : Nat.divide n n0;
    md_none : forall d, 2 <= d < i -> ~ Nat.divide d n;
    md_small : forall q, is_prime q -> Nat.divide q n0 -> ~ Nat.divide q n -> q <= i;
    md_best : best n largest \/ (Nat.divide i n /\ is_prime i /\ Nat.divide i n0 /\
      (if Nat.leb i ceil then largest = Some i else best n largest))
  }.
  Lemma inv_mid i n l : inv i n l -> mid i n l.
  Proof. intros [A B C D E]. constructor; auto. intros q Q1 Q2 Q3. specialize (D q Q1 Q2 Q3). lia. Qed.

  Lemma mid_step i n l : 2 <= i -> mid i n l -> Nat.divide i n ->
    mid i (n / i) (if Nat.leb i ceil then Some i else l).
  Proof.
    intros Hi M Di. assert (Pi : is_prime i) by exact (no_small_prime i n Hi (md_pos _ _ _ M) Di (md_none _ _ _ M)).
    destruct M as [Pos Div No Small B]. destruct Di as (m & Em).
    assert (Eq : n / i = m) by (rewrite Em, Nat.div_mul; lia). rewrite Eq.
    assert (Dm : Nat.divide m n) by (exists i; lia).
    assert (Dn0 : Nat.divide m n0) by (eapply Nat.divide_trans; eauto).
    assert (In0 : Nat.divide i n0) by (eapply Nat.divide_trans; [exists m; exact Em|exact Div]).
    assert (Keep : forall q, is_prime q -> Nat.divide q n -> q <> i -> Nat.divide q m).
    { intros q Q Dq Ne. rewrite Em in Dq. destruct (prime_mul q m i Q Dq) as [H|H]; auto. elim Ne. now apply prime_prime. }
    assert (Sm : forall q, is_prime q -> Nat.divide q n0 -> ~ Nat.divide q m -> q <= i).
    { intros q Q1 Q2 Q3. destruct (Nat.eq_dec q i) as [->|Ne]; [lia|]. apply Small; auto. }
    constructor; auto.
    - destruct m; [|lia]. exfalso. lia.
    - intros d Hd Dd. apply (No d Hd). eapply Nat.divide_trans; eauto.
    - destruct (Nat.eqb (m mod i) 0) eqn:Em'.
      + apply mod_divide in Em'; auto. right. split; auto. split; auto. split; auto. destruct (Nat.leb i ceil) eqn:Ec; auto.
        destruct B as [B|(_ & _ & _ & B)]; [|].
        * unfold best in *. destruct l as [p|].
          -- destruct B as (B1 & B2 & B3). split; auto. split; [intro X; apply B2; eapply Nat.divide_trans; eauto|].
             intros q Q1 Q2. apply B3; auto. intro X. apply Q2. destruct (Nat.eq_dec q i) as [->|Ne]; auto. apply Keep; auto. apply Q1.
          -- intros q Q. destruct (Nat.eq_dec q i) as [->|Ne]; auto. apply Keep; auto. apply Q.
        * unfold best in *. destruct l as [p|].
          -- destruct B as (B1 & B2 & B3). split; auto. split; [intro X; apply B2; eapply Nat.divide_trans; eauto|].
             intros q Q1 Q2. apply B3; auto. intro X. apply Q2. destruct (Nat.eq_dec q i) as [->|Ne]; auto. apply Keep; auto. apply Q1.
          -- intros q Q. destruct (Nat.eq_dec q i) as [->|Ne]; auto. apply Keep; auto. apply Q.
      + assert (Ni : ~ Nat.divide i m) by (intro X; apply mod_divide in X; auto; congruence). left.
        destruct (Nat.leb i ceil) eqn:Ec.
        * unfold best. split; [split; [auto|split; [auto|lia]]|]. split; auto. intros q Q1 Q2. apply Sm; auto; apply Q1.
        * assert (B' : best n l) by (destruct B as [B|(_ & _ & _ & B)]; auto). unfold best in *. destruct l as [p|].
          -- destruct B' as (B1 & B2 & B3). split; auto. split; [intro X; apply B2; eapply Nat.divide_trans; eauto|].
             intros q Q1 Q2. apply B3; auto. intro X. apply Q2. apply Keep; auto; [apply Q1|]. intros ->. destruct Q1 as (_ & _ & Q1). lia.
          -- intros q Q. apply Keep; auto; [apply Q|]. intros ->. destruct Q as (_ & _ & Q). lia.
  Qed.
  Lemma mid_inv i n l : 2 <= i -> mid i n l -> ~ Nat.divide i n -> inv (S i) n l.
  Proof.
    intros Hi [A B C D E] Ni. constructor; auto.
    - intros d Hd. destruct (Nat.eq_dec d i) as [->|Ne]; auto. apply C. lia.
    - intros q Q1 Q2 Q3. specialize (D q Q1 Q2 Q3). lia.
    - destruct E as [E|(E & _)]; auto. contradiction.
  Qed.
  Lemma strip_spec i : 2 <= i -> forall fuel n l, mid i n l -> n < fuel ->
    exists n' l', strip fuel ceil i n l = Ok (n', l') /\ inv (S i) n' l' /\ n' <= n.
  Proof.
    intros Hi. induction fuel as [|fuel IH]; intros n l M Hf; [lia|]. cbn [strip].
    destruct (Nat.eqb (n mod i) 0) eqn:E.
    - apply mod_divide in E; auto. assert (Lt : n / i < n) by (apply Nat.div_lt; [apply (md_pos _ _ _ M)|lia]).
      destruct (IH (n / i) _ (mid_step i n l Hi M E)) as (n' & l' & E' & I & L); [lia|]. exists n', l'. split; auto. split; auto. lia.
    - exists n, l. split; auto. split; [|lia]. apply mid_inv; auto. intro X. apply mod_divide in X; auto. congruence.
  Qed.
  Lemma halve_strip fuel : forall n l, 2 <= ceil -> halve fuel n l = strip fuel ceil 2 n l.
  Proof.
    induction fuel as [|fuel IH]; intros n l H; auto. cbn [halve strip]. rewrite (proj2 (Nat.leb_le 2 ceil) H).
    destruct (Nat.eqb (n mod 2) 0); auto.
  Qed.
  Lemma odd_skip i n l : inv i n l -> Nat.Even i -> 4 <= i -> inv (S i) n l.
  Proof.
    intros [A B C D E] Ev Hi. constructor; auto.
    2: { intros q Q1 Q2 Q3. specialize (D q Q1 Q2 Q3). lia. }
    intros d Hd Dd. destruct (Nat.eq_dec d i) as [->|Ne]; [|apply (C d); auto; lia].
    apply (C 2); [lia|]. eapply Nat.divide_trans; [|exact Dd]. destruct Ev as (k & ->). exists k. lia.
  Qed.
  Lemma odd_spec fuel' : forall fuel i n l, inv i n l -> Nat.Odd i -> 3 <= i -> n < fuel' -> 1 <= fuel -> n < fuel + i ->
    exists n' l' i', odd_factors fuel fuel' ceil i n l = Ok (n', l') /\ inv i' n' l' /\ n' < i' * i' /\ 3 <= i'.
  Proof.
    induction fuel as [|fuel IH]; intros i n l I O Hi Hf' Hf1 Hf; [lia|].
    cbn [odd_factors]. destruct (Nat.leb_spec (i * i) n) as [H|H].
    + destruct (strip_spec i ltac:(lia) fuel' n l (inv_mid _ _ _ I) Hf') as (n' & l' & -> & I' & L). cbn [bind fst snd].
      destruct O as (k & Ek). destruct (IH (i + 2) n' l') as (n2 & l2 & i2 & E2 & R); try nia.
      * replace (i + 2) with (S (S i)) by lia. apply odd_skip; auto; [|lia]. exists (S k). lia.
      * exists (S k). lia.
      * exists n2, l2, i2. auto.
    + exists n, l, i. auto.
  Qed.
  Lemma rest_prime i n l : inv i n l -> n < i * i -> 3 <= i -> 1 < n -> is_prime n.
  Proof.
    intros I Hs Hi Hn. split; [lia|]. intros d (k & E). destruct (Nat.eq_dec d 1); auto. right.
    destruct (Nat.eq_dec k 1) as [->|Nk]; [lia|]. exfalso.
    assert (d <> 0) by (intros ->; lia). assert (k <> 0) by (intros ->; lia).
    assert (Dd : ~ (2 <= d < i)) by (intro X; apply (iv_none _ _ _ I d X); exists k; exact E).
    assert (Dk : ~ (2 <= k < i)) by (intro X; apply (iv_none _ _ _ I k X); exists d; lia).
    assert (i <= d) by lia. assert (i <= k) by lia. nia.
  Qed.
End Inv.

(** For all n and ceil the function ends; it returns a number iff that is the
    largest prime factor of n up to ceil, and None iff there is none. *)
Theorem C58_largest_prime_factor n ceil : 1 <= n ->
  exists r, get_max_prime_factor_less_than n ceil = Ok r /\
    (forall p, r = Some p <-> largest_factor n ceil p) /\
    (r = None <-> forall p, ~ prime_factor n ceil p).
Proof.
  intro Hn.
  assert (Main : exists r, get_max_prime_factor_less_than n ceil = Ok r /\
    match r with Some p => largest_factor n ceil p | None => forall p, ~ prime_factor n ceil p end).
  { unfold get_max_prime_factor_less_than. destruct (Nat.leb_spec n 1) as [H1|H1]; cbn [orb].
    { exists None. split; auto. intros p (Pp & Dp & _). assert (X := div_pos p n Hn Dp). destruct Pp. lia. }
    destruct (Nat.leb_spec ceil 1) as [H2|H2].
    { exists None. split; auto. intros p ((Pp & _) & _ & Lp). lia. }
    assert (I0 : inv n ceil 2 n None).
    { constructor; auto; [apply Nat.divide_refl|lia|intros; contradiction|]. intros q (_ & Q & _). exact Q. }
    rewrite (halve_strip ceil (S n) n None ltac:(lia)).
    destruct (strip_spec n ceil Hn 2 ltac:(lia) (S n) n None (inv_mid n ceil Hn _ _ _ I0) ltac:(lia)) as (n1 & l1 & -> & I1 & L1). cbn [bind fst snd].
    destruct (odd_spec n ceil Hn (S n) (S n) 3 n1 l1 I1) as (n2 & l2 & i2 & -> & I2 & S2 & G2); try lia; [exists 1; lia|]. cbn [bind fst snd].
    eexists. split; [reflexivity|].
    assert (D2 := iv_div _ _ _ _ _ I2).
    destruct (Nat.ltb_spec 1 n2) as [H3|H3].
    - assert (Pn := rest_prime n ceil Hn i2 n2 l2 I2 S2 G2 H3). destruct (Nat.leb_spec n2 ceil) as [H4|H4]; cbn [andb].
      + split; [split; [auto|split; [auto|lia]]|]. intros q (Q1 & Q2 & Q3).
        destruct (Nat.eqb (n2 mod q) 0) eqn:E.
        * apply mod_divide in E; [|apply Q1]. apply (div_pos q n2) in E; lia.
        * assert (X : ~ Nat.divide q n2) by (intro X; apply mod_divide in X; [congruence|apply Q1]).
          assert (Y := iv_small _ _ _ _ _ I2 q Q1 Q2 X).
          assert (i2 <= n2); [|lia]. destruct (le_lt_dec i2 n2); auto. elim (iv_none _ _ _ _ _ I2 n2 ltac:(lia)). apply Nat.divide_refl.
      + assert (B := iv_best _ _ _ _ _ I2). unfold best in B. destruct l2 as [p|].
        * destruct B as (B1 & B2 & B3). split; auto. intros q Q. apply B3; auto. intro X. destruct Q as (Q1 & Q2 & Q3).
          assert (q = n2) by now apply prime_prime. lia.
        * intros q Q. assert (X := B q Q). destruct Q as (Q1 & Q2 & Q3). assert (q = n2) by now apply prime_prime. lia.
    - cbn [andb]. assert (E : n2 = 1) by (assert (X := iv_pos _ _ _ _ _ I2); lia).
      assert (No : forall q, is_prime q -> ~ Nat.divide q n2).
      { intros q [Q _] X. rewrite E in X. apply (div_pos q 1) in X; lia. }
      assert (B := iv_best _ _ _ _ _ I2). unfold best in B. destruct l2 as [p|].
      + destruct B as (B1 & _ & B3). split; auto. intros q Q. apply B3; auto. apply No, Q.
      + intros q Q. apply (No q); [apply Q|]. now apply B. }
  destruct Main as (r & E & H). exists r. split; auto. destruct r as [p|].
  - split.
    + intro q. split; [intro X; injection X as <-; exact H|]. intros [Q1 Q2]. destruct H as [P1 P2]. f_equal. apply Nat.le_antisymm; auto.
    + split; [discriminate|]. intro X. elim (X p). apply H.
  - split.
    + intro q. split; [discriminate|]. intros [Q _]. elim (H q Q).
    + split; auto.
Qed.
(** For n = 0 the answer is None. *)
Theorem C58_zero ceil : get_max_prime_factor_less_than 0 ceil = Ok None.
Proof. reflexivity. Qed.
Example C58_nonvacuous :
  get_max_prime_factor_less_than 84 84 = Ok (Some 7) /\ get_max_prime_factor_less_than 84 6 = Ok (Some 3) /\
  get_max_prime_factor_less_than 77 5 = Ok None /\ largest_factor 84 6 3.
Proof.
  split; [reflexivity|]. split; [reflexivity|]. split; [reflexivity|].
  destruct (C58_largest_prime_factor 84 6 ltac:(lia)) as (r & E & H & _). apply H. assert (E' : get_max_prime_factor_less_than 84 6 = Ok (Some 3)) by reflexivity. congruence.
Qed.
Print Assumptions C58_largest_prime_factor.
Print Assumptions C58_zero.
