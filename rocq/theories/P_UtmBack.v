(** C133: the arguments of UTM conversions, and the hemisphere of a point that
    is converted there and back. *)
From Coq Require Import String Ascii List Bool Arith ZArith QArith Lqa Lia ZifyBool ZifyNat.
From Verif Require Import Base M_Locality M_Utm P_Utm M_UtmBack.
Import ListNotations.
Local Open Scope Z_scope.

(** ** Specification *)

(** A letter that counts: the first character, in either case, is one of C to
    W, or the string is x or X; and it is not the letter I or O alone. *)
Definition between (a c b : ascii) : Prop := (nat_of_ascii a <= nat_of_ascii c <= nat_of_ascii b)%nat.
Definition good_letter (s : string) : Prop :=
  match s with
  | EmptyString => False
  | String c r =>
    (between "C" c "W" \/ between "c" c "w" \/ (c = "X"%char /\ r = EmptyString) \/ (c = "x"%char /\ r = EmptyString)) /\
    ~ In s ["I"; "i"; "O"; "o"]%string
  end.
(** The first character decides on the hemisphere. *)
Definition letter_north (s : string) : Prop :=
  match s with EmptyString => False | String c _ => between "N" c "X" \/ between "n" c "x" end.
(** No letter: None or the empty string. *)
Definition no_letter (l : option string) : Prop := l = None \/ l = Some EmptyString.
Definition good_hemisphere (l : option string) (northern : option bool) : Prop :=
  (no_letter l /\ northern <> None) \/ (exists s, l = Some s /\ good_letter s /\ northern = None).
Definition in_range (e n : Q) : Prop := (100000 <= e /\ e < 1000000 /\ 0 <= n /\ n <= 10000000)%Q.
Definition north (l : option string) (northern : option bool) : Prop :=
  northern = Some true \/ exists s, l = Some s /\ letter_north s.

(** ** Lemmas *)
Lemma by_ascii (Q : ascii -> bool) : forallb Q (map ascii_of_nat (seq 0 256)) = true -> forall c, Q c = true.
Proof.
  intros H c. rewrite forallb_forall in H. apply H. apply in_map_iff. exists (nat_of_ascii c). split; [apply ascii_nat_embedding|].
  apply in_seq. pose proof (nat_ascii_bounded c). lia.
Qed.
Definition btw (a c b : ascii) : bool := (code a <=? code c)%nat && (code c <=? code b)%nat.
Lemma btw_iff a c b : btw a c b = true <-> between a c b.
Proof. unfold btw, between, code. rewrite andb_true_iff, !Nat.leb_le. reflexivity. Qed.
Lemma upper_first c : eqb (btw "C" c "W" || btw "c" c "w") (btw "C" (upper1 c) "W") = true.
Proof. revert c. apply by_ascii. vm_compute. reflexivity. Qed.
Lemma upper_X c : eqb (Ascii.eqb c "X" || Ascii.eqb c "x") (Ascii.eqb (upper1 c) "X") = true.
Proof. revert c. apply by_ascii. vm_compute. reflexivity. Qed.
Lemma upper_I c : eqb (Ascii.eqb c "I" || Ascii.eqb c "i") (Ascii.eqb (upper1 c) "I") = true.
Proof. revert c. apply by_ascii. vm_compute. reflexivity. Qed.
Lemma upper_O c : eqb (Ascii.eqb c "O" || Ascii.eqb c "o") (Ascii.eqb (upper1 c) "O") = true.
Proof. revert c. apply by_ascii. vm_compute. reflexivity. Qed.
Lemma upper_N c : eqb (btw "N" c "X" || btw "n" c "x") (btw "N" (upper1 c) "X") = true.
Proof. revert c. apply by_ascii. vm_compute. reflexivity. Qed.
Lemma CW c : eqb ((code "C" <=? code c)%nat && (code c <? code "X")%nat) (btw "C" c "W") = true.
Proof. revert c. apply by_ascii. vm_compute. reflexivity. Qed.
Lemma code_X c : eqb (Nat.eqb (code c) (code "X")) (Ascii.eqb c "X") = true.
Proof. revert c. apply by_ascii. vm_compute. reflexivity. Qed.

Lemma le_one a c r : str_le (String a EmptyString) (String c r) = (code a <=? code c)%nat.
Proof. cbn [str_le]. destruct (Nat.ltb_spec (code a) (code c)), (Nat.eqb_spec (code a) (code c)), (Nat.leb_spec (code a) (code c)); cbn; lia. Qed.
Lemma one_le a c r : str_le (String c r) (String a EmptyString) = (code c <? code a)%nat || (Nat.eqb (code c) (code a) && match r with EmptyString => true | _ => false end).
Proof. cbn [str_le]. destruct r; reflexivity. Qed.
Lemma upper_empty r : upper r = EmptyString <-> r = EmptyString.
Proof. destruct r; cbn; split; congruence. Qed.

Lemma check_letter s : s <> EmptyString ->
  (negb (str_le "C" (upper s) && str_le (upper s) "X") || String.eqb (upper s) "I" || String.eqb (upper s) "O" = false <-> good_letter s).
Proof.
  intro Hs. destruct s as [|c r]; [contradiction|]. cbn [upper good_letter]. rewrite le_one, one_le.
  pose proof (upper_first c) as U1. pose proof (upper_X c) as U2. pose proof (upper_I c) as U3. pose proof (upper_O c) as U4.
  pose proof (CW (upper1 c)) as U5. pose proof (code_X (upper1 c)) as U6. apply eqb_prop in U1, U2, U3, U4, U5, U6.
  rewrite <- !btw_iff.
  assert (EI : forall k : ascii, String.eqb (String (upper1 c) (upper r)) (String k EmptyString) = Ascii.eqb (upper1 c) k && match r with EmptyString => true | _ => false end).
  { intro k. cbn [String.eqb]. destruct (Ascii.eqb (upper1 c) k); [|reflexivity]. destruct r; reflexivity. }
  rewrite !EI, U6, <- U2, <- U3, <- U4.
  assert (I1 : forall k : ascii, String k EmptyString = String c r <-> Ascii.eqb c k = true /\ r = EmptyString).
  { intro k. rewrite Ascii.eqb_eq. split; [intro H; injection H as <- <-; auto|intros [-> ->]; reflexivity]. }
  cbn [In]. rewrite !I1. rewrite <- (Ascii.eqb_eq c "X"), <- (Ascii.eqb_eq c "x").
  assert (U7 : Ascii.eqb c "X" || Ascii.eqb c "x" = true -> (code "C" <=? code (upper1 c))%nat = true).
  { rewrite U2. intro E. apply Ascii.eqb_eq in E. rewrite E. reflexivity. }
  rewrite andb_orb_distrib_r, U5, <- U1. clear - U7.
  destruct (btw "C" c "W"), (btw "c" c "w"), (Ascii.eqb c "X"), (Ascii.eqb c "x"), (Ascii.eqb c "I"), (Ascii.eqb c "i"), (Ascii.eqb c "O"), (Ascii.eqb c "o");
    cbn [orb] in U7; try rewrite (U7 eq_refl); destruct r; rewrite ?andb_false_r, ?andb_true_r; cbn; intuition (try congruence).
Qed.
Lemma north_letter s : good_letter s -> (str_le "N" (upper s) = true <-> letter_north s).
Proof.
  destruct s as [|c r]; [intros []|]. intro G. pose proof G as G'. apply check_letter in G'; [|discriminate]. cbn [upper letter_north] in *. rewrite le_one in *. rewrite one_le in G'.
  pose proof (upper_N c) as U1. apply eqb_prop in U1. rewrite <- !btw_iff, <- orb_true_iff, U1. unfold btw. rewrite andb_true_iff.
  apply orb_false_elim in G' as [G' _]. apply orb_false_elim in G' as [G' _]. apply negb_false_iff, andb_true_iff in G' as [_ G'].
  assert ((code (upper1 c) <=? code "X")%nat = true); [|tauto]. apply orb_true_iff in G' as [G'|G']; [|apply andb_true_iff in G' as [G' _]]; lia.
Qed.
Lemma check_zone_iff z l : check_zone z l = Ok tt <-> 1 <= z <= 60 /\ (no_letter l \/ exists s, l = Some s /\ good_letter s).
Proof.
  unfold check_zone. destruct (Z.leb_spec 1 z), (Z.leb_spec z 60); cbn [andb negb]; try (split; [discriminate|lia]).
  destruct l as [[|c r]|].
  - split; [intros _; split; [lia|left; right; reflexivity]|reflexivity].
  - cbv zeta. split.
    + intro E. split; [lia|]. right. exists (String c r). split; [reflexivity|]. apply check_letter; [discriminate|]. destruct (_ || _); [discriminate E|reflexivity].
    + intros [_ [[D|D]|(s & E & G)]]; [discriminate|discriminate|]. injection E as <-. apply check_letter in G; [|discriminate]. now rewrite G.
  - split; [intros _; split; [lia|left; left; reflexivity]|reflexivity].
Qed.
Lemma check_zone_cases z l : check_zone z l = Ok tt \/ check_zone z l = Err ValueError.
Proof. unfold check_zone. destruct (negb _); [auto|]. destruct l as [[|c r]|]; cbv zeta; auto. destruct (_ || _); auto. Qed.
Lemma truthy_iff l : truthy l = false <-> no_letter l.
Proof. unfold no_letter. destruct l as [[|c r]|]; cbn; split; auto; try discriminate. intros [D|D]; discriminate. Qed.

Lemma ok_pair (a b c d : Q) : Ok (a, b) = Ok (c, d) -> c = a /\ d = b.
Proof. intro H. injection H as -> ->. auto. Qed.

(** ** C133 *)

(** to_latlon accepts its arguments exactly if ... *)
Theorem C133_accepts : forall e n z l northern strict,
  (exists xy, to_latlon_start e n z l northern strict = Ok xy) <->
  good_hemisphere l northern /\ 1 <= z <= 60 /\ (strict = true -> in_range e n).
Proof.
  intros e n z l northern strict. unfold to_latlon_start, in_range.
  assert (R : strict && negb (in_bounds_strict e (num 100000) (num 1000000)) = false /\ strict && negb (in_bounds n (num 0) (num 10000000)) = false <-> (strict = true -> (100000 <= e /\ e < 1000000 /\ 0 <= n /\ n <= 10000000)%Q)).
  { unfold in_bounds_strict, in_bounds. change (num 100000) with 100000%Q. change (num 1000000) with 1000000%Q. change (num 0) with 0%Q. change (num 10000000) with 10000000%Q.
    destruct strict; cbn [andb]; [|split; [discriminate|auto]].
    destruct (le_spec 100000 e), (lt_spec e 1000000), (le_spec 0 n), (le_spec n 10000000); cbn [andb negb]; split; try (intros [? ?]; discriminate); try (intro F; specialize (F eq_refl); exfalso; lra); auto. }
  rewrite <- R. clear R.
  destruct (strict && negb (in_bounds_strict e (num 100000) (num 1000000))).
  { split; [|intros (_ & _ & D & _); discriminate]. intros [xy E]. destruct (_ && _) in E; [discriminate|]. destruct (_ && _) in E; discriminate. }
  destruct (strict && negb (in_bounds n (num 0) (num 10000000))).
  { split; [|intros (_ & _ & _ & D); discriminate]. intros [xy E]. destruct (_ && _) in E; [discriminate|]. destruct (_ && _) in E; discriminate. }
  pose proof (check_zone_iff z l) as K. unfold good_hemisphere. pose proof (truthy_iff l) as T.
  destruct (truthy l) eqn:ET; destruct northern as [b|]; cbn [andb negb].
  - split; [intros [xy D]; discriminate|]. intros ([[N _]|(s & _ & _ & D)] & _); [apply T in N; discriminate|discriminate].
  - destruct (check_zone_cases z l) as [EK|EK]; rewrite EK in *; cbn.
    + split; [intros _|intros _; eexists; reflexivity]. destruct (proj1 K eq_refl) as [Hz [N|(s & El & G)]]; [apply T in N; discriminate|]. split; [right; exists s; auto|]. repeat split; lia.
    + split; [intros [xy D]; discriminate|]. intros ([[N _]|(s & El & G & _)] & Hz & _); [apply T in N; discriminate|]. assert (D : @Err unit ValueError = Ok tt) by (apply K; split; [exact Hz|right; exists s; auto]). discriminate D.
  - destruct (check_zone_cases z l) as [EK|EK]; rewrite EK in *; cbn.
    + split; [intros _|intros _; eexists; reflexivity]. destruct (proj1 K eq_refl) as [Hz _]. split; [left; split; [now apply T|discriminate]|]. repeat split; lia.
    + split; [intros [xy D]; discriminate|]. intros (_ & Hz & _). assert (D : @Err unit ValueError = Ok tt) by (apply K; split; [exact Hz|left; now apply T]). discriminate D.
  - split; [intros [xy D]; discriminate|]. intros ([[_ D]|(s & El & G & _)] & _); [now destruct D|]. destruct (proj1 T eq_refl) as [D|D]; rewrite D in El; [discriminate|injection El as <-; destruct G].
Qed.
(** ... and raises ValueError otherwise. *)
Theorem C133_error : forall e n z l northern strict,
  ~ (good_hemisphere l northern /\ 1 <= z <= 60 /\ (strict = true -> in_range e n)) ->
  to_latlon_start e n z l northern strict = Err ValueError.
Proof.
  intros e n z l northern strict H. rewrite <- C133_accepts in H. revert H. unfold to_latlon_start. repeat (destruct (_ && _); [reflexivity|]).
  destruct (check_zone_cases z l) as [-> | ->]; cbn [bind]; [|reflexivity]. intro H. exfalso. apply H. eexists. reflexivity.
Qed.
(** The hemisphere of accepted arguments. *)
Theorem C133_hemisphere : forall e n z l northern strict x y, to_latlon_start e n z l northern strict = Ok (x, y) ->
  x = (e - 500000)%Q /\ (north l northern /\ y = n \/ ~ north l northern /\ y = (n - 10000000)%Q).
Proof.
  intros e n z l northern strict x y E. assert (A : exists xy, to_latlon_start e n z l northern strict = Ok xy) by (eexists; exact E).
  apply C133_accepts in A as (G & _ & _). unfold to_latlon_start in E. repeat (destruct (_ && _) in E; [discriminate|]).
  destruct (check_zone_cases z l) as [EK|EK]; rewrite EK in E; cbn [bind] in E; [|discriminate]. apply ok_pair in E as [-> ->]. split; [reflexivity|]. unfold north.
  destruct G as [[N Hb]|(s & -> & G & ->)].
  - assert (NL : ~ (exists s, l = Some s /\ letter_north s)) by (intros (s & El & Hs); destruct N as [-> | ->]; [discriminate|injection El as <-; destruct Hs]).
    destruct northern as [b|]; [|now destruct Hb]. destruct N as [-> | ->]; destruct b; auto; right; (split; [|reflexivity]); intros [D|D]; try discriminate; now apply NL.
  - pose proof (north_letter s G) as K. destruct s as [|c r]; [destruct G|]. destruct (str_le "N" (upper (String c r))).
    + left. split; [|reflexivity]. right. exists (String c r). split; [reflexivity|]. now apply K.
    + right. split; [|reflexivity]. intros [D|(s & El & Hs)]; [discriminate|]. injection El as <-. apply K in Hs. discriminate.
Qed.

Lemma band_letter lat : (-80 <= lat)%Q -> (lat <= 84)%Q -> exists c, latitude_to_zone_letter lat = Ok (Some c) /\ good_letter (String c EmptyString) /\ (letter_north (String c EmptyString) <-> (0 <= lat)%Q).
Proof.
  intros H1 H2. destruct (C84_letter lat H1 H2) as (k & c & B & Eg & El & _). exists c. split; [exact El|]. clear El.
  assert (Hk : (k < 20)%nat) by (destruct (Nat.lt_ge_cases k 20) as [|F]; [assumption|]; exfalso; clear - Eg F; do 20 (destruct k as [|k]; [lia|]); cbn in Eg; discriminate Eg).
  assert (HB : (10 <= k)%nat <-> (0 <= lat)%Q).
  { destruct B as [B1 B2]. split; intro H.
    - apply Qle_trans with (2 := B1). change 0%Q with (inject_Z 0). rewrite <- Zle_Qle. lia.
    - destruct B2 as [B2|[-> _]]; [|lia]. assert (Q1 : (inject_Z 0 < inject_Z (8 * Z.of_nat k - 72))%Q) by (change (inject_Z 0) with 0%Q; lra). rewrite <- Zlt_Qlt in Q1. lia. }
  rewrite <- HB. clear HB B H1 H2. rewrite <- north_letter; [|].
  all: assert (GL : good_letter (String c EmptyString) /\ (str_le "N" (upper (String c EmptyString)) = true <-> (10 <= k)%nat));
    [rewrite <- check_letter by discriminate; do 20 (destruct k as [|k]; [cbn in Eg; injection Eg as <-; split; [reflexivity|cbn; split; [intro; try discriminate; lia|intro; try reflexivity; lia]]|]); lia|].
  all: tauto.
Qed.
(** A point of the map west of the antimeridian, converted with the zone that
    from_latlon chooses, is accepted by to_latlon with the same numbers (if its
    range check is off or the numbers are in range), which continues with the
    numbers of the series: the offsets of both directions cancel in both
    hemispheres. *)
Theorem C133_there_and_back : forall e n lat lon, on_the_map (lat, lon) -> (lon < 180)%Q ->
  exists E N z l, from_latlon e n lat lon None None = Ok (E, N, z, Some l) /\ (letter_north l <-> (0 <= lat)%Q) /\
    forall strict, (strict = true -> in_range E N) ->
    exists x y, to_latlon_start E N z (Some l) None strict = Ok (x, y) /\ (x == e z)%Q /\ (y == n z)%Q.
Proof.
  intros e n lat lon (H1 & H2 & H3 & H4) H5. cbn [fst snd] in *. destruct (band_letter lat H1 H2) as (c & El & G & Hn).
  unfold from_latlon, in_bounds. change (num (-80)) with (-80)%Q. change (num 84) with 84%Q. change (num (-180)) with (-180)%Q. change (num 180) with 180%Q.
  destruct (le_spec (-80) lat); [|lra]. destruct (le_spec lat 84); [|lra]. destruct (le_spec (-180) lon); [|lra]. destruct (le_spec lon 180); [|lra]. cbn [andb negb bind]. rewrite El. cbn [bind option_map].
  eexists _, _, _, _. split; [reflexivity|]. split; [exact Hn|]. intros strict Hr. pose proof (C84_zone_range lat lon H3 H5) as Hz. set (z := latlon_to_zone_number lat lon) in *.
  change (num 500000) with 500000%Q in *. change (num 10000000) with 10000000%Q in *. change (num 0) with 0%Q in *. set (N := if lt lat 0 then _ else _) in *.
  destruct (proj2 (C133_accepts (e z + 500000) N z (Some (String c EmptyString)) None strict)) as [[x y] E].
  { split; [right; exists (String c EmptyString); auto|]. split; [exact Hz|exact Hr]. }
  exists x, y. split; [exact E|]. apply C133_hemisphere in E as [-> E]. split; [ring|]. unfold N in E. destruct E as [[Hnorth ->]|[Hnorth ->]].
  - destruct Hnorth as [D|(s & Es & Hs)]; [discriminate|]. injection Es as <-. apply Hn in Hs. destruct (lt_spec lat 0); [lra|]. reflexivity.
  - destruct (lt_spec lat 0) as [Hl|Hl]; [ring|]. exfalso. apply Hnorth. right. exists (String c EmptyString). split; [reflexivity|]. now apply Hn.
Qed.
(** On the antimeridian itself it is refused. *)
Theorem C133_antimeridian_refuted : forall e n lat, (-80 <= lat)%Q -> (lat <= 84)%Q ->
  exists E N l, from_latlon e n lat 180 None None = Ok (E, N, 61, Some l) /\
    forall e' n' l' northern strict, to_latlon_start e' n' 61 l' northern strict = Err ValueError.
Proof.
  intros e n lat H1 H2. destruct (band_letter lat H1 H2) as (c & El & G & Hn). destruct (C84_antimeridian_refuted lat H1 H2) as [A _].
  unfold utm_of_point, in_bounds in A. unfold from_latlon, in_bounds. cbn [fst snd] in A. destruct (negb _) in A |- *; [discriminate|]. destruct (negb _) in A |- *; [discriminate|]. rewrite El in *. cbn [bind option_map] in *. injection A as ->.
  eexists _, _, _. split; [reflexivity|]. intros. apply C133_error. intros (_ & Hz & _). lia.
Qed.
(** A hemisphere is not a letter: S, "south" and "South" are accepted and mean
    north, at every point. *)
Theorem C133_south_refuted : forall s, In s ["S"; "s"; "south"; "South"]%string -> forall e n z, 1 <= z <= 60 ->
  exists x y, to_latlon_start e n z (Some s) None false = Ok (x, y) /\ y = n.
Proof.
  intros s Hs e n z Hz. assert (G : good_letter s /\ letter_north s).
  { cbn [In] in Hs. destruct Hs as [<- |[<- |[<- |[<- |[]]]]]; (split; [split; [rewrite <- !btw_iff; cbn; auto|cbn; intuition discriminate]|cbn [letter_north]; rewrite <- !btw_iff; cbn; auto]). }
  destruct G as [G Gn]. destruct (proj2 (C133_accepts e n z (Some s) None false)) as [[x y] E]; [split; [right; exists s; auto|split; [exact Hz|discriminate]]|].
  exists x, y. split; [exact E|]. apply C133_hemisphere in E as [_ [[_ E]|[E _]]]; [exact E|]. exfalso. apply E. right. exists s. auto.
Qed.
(** from_latlon checks a letter that the caller forces only if the zone number
    is forced too: without it any string is returned as given. *)
Theorem C133_forced_letter_refuted : forall e n lat lon s, on_the_map (lat, lon) ->
  exists E N z, from_latlon e n lat lon None (Some s) = Ok (E, N, z, Some s).
Proof.
  intros e n lat lon s (H1 & H2 & H3 & H4). cbn [fst snd] in *. unfold from_latlon, in_bounds. change (num (-80)) with (-80)%Q. change (num 84) with 84%Q. change (num (-180)) with (-180)%Q. change (num 180) with 180%Q.
  destruct (le_spec (-80) lat); [|lra]. destruct (le_spec lat 84); [|lra]. destruct (le_spec (-180) lon); [|lra]. destruct (le_spec lon 180); [|lra]. cbn [andb negb bind]. eexists _, _, _. reflexivity.
Qed.
(** With a forced zone number it is accepted exactly if point, number and letter are. *)
Theorem C133_forced : forall e n lat lon z l,
  (exists r, from_latlon e n lat lon (Some z) l = Ok r) <->
  on_the_map (lat, lon) /\ 1 <= z <= 60 /\ (no_letter l \/ exists s, l = Some s /\ good_letter s).
Proof.
  intros e n lat lon z l. rewrite <- check_zone_iff. unfold on_the_map. cbn [fst snd]. unfold from_latlon, in_bounds. change (num (-80)) with (-80)%Q. change (num 84) with 84%Q. change (num (-180)) with (-180)%Q. change (num 180) with 180%Q.
  destruct (le_spec (-80) lat), (le_spec lat 84), (le_spec (-180) lon), (le_spec lon 180); cbn [andb negb]; try (split; [intros [r D]; discriminate|intros [? _]; exfalso; lra]).
  destruct (check_zone_cases z l) as [E|E]; rewrite E; cbn [bind]; [|split; [intros [r D]; discriminate|intros [_ D]; discriminate]].
  split; [auto|]. intros _. destruct l as [s|]; [eexists; reflexivity|]. destruct (band_letter lat) as (c & -> & _); [assumption|assumption|]. eexists. reflexivity.
Qed.

(** ** Examples *)
Example ex_boston : on_the_map (42 # 1, -71 # 1)%Q /\ (-71 # 1 < 180)%Q.
Proof. unfold on_the_map. cbn [fst snd]. repeat split; lra. Qed.
Example ex_boston_there : from_latlon (fun _ => -169000 # 1)%Q (fun _ => 4651000 # 1)%Q (42 # 1) (-71 # 1) None None = Ok ((331000 # 1)%Q, (4651000 # 1)%Q, 19, Some "T"%string).
Proof. vm_compute. reflexivity. Qed.
Example ex_boston_back : to_latlon_start (331000 # 1) (4651000 # 1) 19 (Some "t"%string) None true = Ok ((-169000 # 1)%Q, (4651000 # 1)%Q).
Proof. vm_compute. reflexivity. Qed.
Example ex_quito_south : to_latlon_start (331000 # 1) (9990000 # 1) 17 (Some "M"%string) None true = Ok ((-169000 # 1)%Q, (-10000 # 1)%Q).
Proof. vm_compute. reflexivity. Qed.
Example ex_both : to_latlon_start (331000 # 1) (9990000 # 1) 17 (Some "M"%string) (Some false) true = Err ValueError.
Proof. vm_compute. reflexivity. Qed.

Print Assumptions C133_accepts.
Print Assumptions C133_error.
Print Assumptions C133_hemisphere.
Print Assumptions C133_there_and_back.
Print Assumptions C133_antimeridian_refuted.
Print Assumptions C133_south_refuted.
Print Assumptions C133_forced_letter_refuted.
Print Assumptions C133_forced.
