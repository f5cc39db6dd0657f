(** C84: UTM zones. *)
From Coq Require Import String Ascii List Bool Arith ZArith QArith Qround Lqa Lia ZifyBool ZifyNat.
From Verif Require Import Base M_Locality L_Locality M_Utm.
Import ListNotations.
Local Open Scope Z_scope.

(** ** Specification *)

(** The twenty latitude bands: band [k] spans 8 degrees from 8k - 80, the last
    one 12 degrees. *)
Definition bands : string := "CDEFGHJKLMNPQRSTUVWX".
Definition in_band (lat : Q) (k : nat) : Prop :=
  (inject_Z (8 * Z.of_nat k - 80) <= lat /\
   (lat < inject_Z (8 * Z.of_nat k - 72) \/ (k = 19%nat /\ lat <= 84)))%Q.
(** South-western Norway and Svalbard have irregular zones. *)
Definition norway (lat lon : Q) : Prop := (56 <= lat /\ lat < 64 /\ 3 <= lon /\ lon < 12)%Q.
Definition svalbard (lat lon : Q) : Prop := (72 <= lat /\ lat <= 84 /\ 0 <= lon /\ lon < 42)%Q.
(** Longitude within [w] degrees of the middle of zone [z]. *)
Definition near (z : Z) (lon : Q) (w : Q) : Prop := (inject_Z (6 * z - 183) - w <= lon /\ lon <= inject_Z (6 * z - 183) + w)%Q.

(** ** Lemmas *)
Lemma le_spec x y : BoolSpec (x <= y)%Q (y < x)%Q (le x y).
Proof.
  unfold le. destruct (Qle_bool x y) eqn:E; constructor.
  - now apply Qle_bool_iff.
  - apply Qnot_le_lt. intro H. apply Qle_bool_iff in H. congruence.
Qed.
Lemma lt_spec x y : BoolSpec (x < y)%Q (y <= x)%Q (lt x y).
Proof. unfold lt. destruct (le_spec y x) as [H|H]; unfold le in *; rewrite ?(proj2 (Qle_bool_iff y x)) by assumption; [constructor; auto|]. destruct (Qle_bool y x) eqn:E; constructor; [now apply Qle_bool_iff|exact H]. Qed.
Lemma trunc_floor (x : Q) : (0 <= x)%Q -> (inject_Z (trunc x) <= x /\ x < inject_Z (trunc x) + 1)%Q /\ 0 <= trunc x.
Proof.
  intro H. assert (E : trunc x = Qfloor x).
  { destruct x as [n d]. unfold trunc, Qfloor. cbn [Qnum Qden]. unfold Qle in H. cbn in H. apply Z.quot_div_nonneg; lia. }
  rewrite E. split.
  - split; [apply Qfloor_le|]. generalize (Qlt_floor x). rewrite inject_Z_plus. exact (fun h => h).
  - change 0 with (Qfloor 0). now apply Qfloor_resp_le.
Qed.
Lemma usual_spec (lon : Q) : (-180 <= lon)%Q -> let z := trunc ((lon + num 180) / num 6) + 1 in
  (inject_Z (6 * z - 186) <= lon /\ lon < inject_Z (6 * z - 180))%Q /\ 1 <= z.
Proof.
  intros H z. unfold z. destruct (trunc_floor ((lon + num 180) / num 6)) as [[T1 T2] T3].
  - change ((lon + num 180) / num 6)%Q with ((lon + (180#1)) * (1#6))%Q. lra.
  - set (t := trunc ((lon + num 180) / num 6)) in *. change ((lon + num 180) / num 6)%Q with ((lon + (180#1)) * (1#6))%Q in *. split; [|lia].
    replace (6 * (t + 1) - 186) with (6 * t + -180) by lia. replace (6 * (t + 1) - 180) with (6 * t + -174) by lia.
    rewrite !inject_Z_plus, !inject_Z_mult. change (inject_Z 6) with 6%Q. change (inject_Z (-180)) with (-180)%Q. change (inject_Z (-174)) with (-174)%Q. split; lra.
Qed.
Lemma zone_cases (lat lon : Q) : let z := latlon_to_zone_number lat lon in let usual := trunc ((lon + num 180) / num 6) + 1 in
  (norway lat lon /\ z = 32) \/
  (~ norway lat lon /\ svalbard lat lon /\ ((lon < 9)%Q /\ z = 31 \/ (9 <= lon)%Q /\ (lon < 21)%Q /\ z = 33 \/ (21 <= lon)%Q /\ (lon < 33)%Q /\ z = 35 \/ (33 <= lon)%Q /\ z = 37)) \/
  (~ norway lat lon /\ ~ svalbard lat lon /\ z = usual).
Proof.
  cbv zeta. unfold latlon_to_zone_number, norway, svalbard.
  change (num 56) with 56%Q. change (num 64) with 64%Q. change (num 3) with 3%Q. change (num 12) with 12%Q. change (num 72) with 72%Q. change (num 84) with 84%Q.
  change (num 0) with 0%Q. change (num 9) with 9%Q. change (num 21) with 21%Q. change (num 33) with 33%Q. change (num 42) with 42%Q.
  destruct (le_spec 56 lat); destruct (lt_spec lat 64); destruct (le_spec 3 lon); destruct (lt_spec lon 12); cbn [andb]; try (left; split; [lra|reflexivity]); right;
  (destruct (le_spec 72 lat); destruct (le_spec lat 84); destruct (le_spec 0 lon); cbn [andb]; try (right; split; [lra|split; [lra|reflexivity]]);
   destruct (lt_spec lon 9); [left; split; [lra|split; [lra|left; split; [lra|reflexivity]]]|];
   destruct (lt_spec lon 21); [left; split; [lra|split; [lra|right; left; split; [lra|split; [lra|reflexivity]]]]|];
   destruct (lt_spec lon 33); [left; split; [lra|split; [lra|right; right; left; split; [lra|split; [lra|reflexivity]]]]|];
   destruct (lt_spec lon 42); [left; split; [lra|split; [lra|right; right; right; split; [lra|reflexivity]]]|]; right; split; [lra|split; [lra|reflexivity]]).
Qed.

(** ** Theorems *)

(** The zone is between 1 and 60, for every latitude. *)
Theorem C84_zone_range : forall lat lon, (-180 <= lon)%Q -> (lon < 180)%Q -> 1 <= latlon_to_zone_number lat lon <= 60.
Proof.
  intros lat lon H1 H2. destruct (usual_spec lon H1) as [[U1 U2] U3].
  destruct (zone_cases lat lon) as [[_ ->]|[(_ & _ & H)|(_ & _ & ->)]]; [lia|destruct H as [[_ ->]|[(_ & _ & ->)|[(_ & _ & ->)|(_ & ->)]]]; lia|].
  set (z := trunc ((lon + num 180) / num 6) + 1) in *. split; [exact U3|]. assert (H : (inject_Z (6 * z - 186) < inject_Z 180)%Q) by (change (inject_Z 180) with 180%Q; lra).
  rewrite <- Zlt_Qlt in H. lia.
Qed.
(** The point lies in its zone: within 3 degrees of the zone's central
    meridian, and within 6 degrees in Norway and Svalbard. *)
Theorem C84_zone_near : forall lat lon, (-180 <= lon)%Q -> (lon < 180)%Q ->
  let z := latlon_to_zone_number lat lon in zone_number_to_central_longitude z = 6 * z - 183 /\ near z lon 6 /\ (~ norway lat lon -> ~ svalbard lat lon -> near z lon 3).
Proof.
  intros lat lon H1 H2. cbv zeta. split; [unfold zone_number_to_central_longitude; lia|]. unfold near. destruct (zone_cases lat lon) as [[H ->]|[(Hn & Hs & H)|(Hn & Hs & ->)]].
  - change (inject_Z (6 * 32 - 183)) with 9%Q. unfold norway in *. split; [split; lra|]. intros Hc. contradiction.
  - split; [|intros _ Hc; contradiction]. unfold svalbard in *.
    destruct H as [[H ->]|[(H3 & H4 & ->)|[(H3 & H4 & ->)|(H3 & ->)]]]; [change (inject_Z (6 * 31 - 183)) with 3%Q|change (inject_Z (6 * 33 - 183)) with 15%Q|change (inject_Z (6 * 35 - 183)) with 27%Q|change (inject_Z (6 * 37 - 183)) with 39%Q]; split; lra.
  - destruct (usual_spec lon H1) as [[U1 U2] U3]. set (z := trunc ((lon + num 180) / num 6) + 1) in *.
    replace (6 * z - 186) with (6 * z - 183 + -3) in U1 by lia. replace (6 * z - 180) with (6 * z - 183 + 3) in U2 by lia. rewrite inject_Z_plus in U1, U2.
    change (inject_Z (-3)) with (-3)%Q in *. change (inject_Z 3) with 3%Q in *. split; [split; lra|]. intros _ _. split; lra.
Qed.
(** On Svalbard only the odd zones exist. *)
Theorem C84_svalbard : forall lat lon, svalbard lat lon -> In (latlon_to_zone_number lat lon) [31; 33; 35; 37].
Proof.
  intros lat lon Hs. destruct (zone_cases lat lon) as [[H ->]|[(Hn & _ & H)|(Hn & Hc & ->)]]; [unfold norway, svalbard in *; exfalso; lra| |contradiction].
  destruct H as [[_ ->]|[(_ & _ & ->)|[(_ & _ & ->)|(_ & ->)]]]; cbn; auto 6.
Qed.
(** The letter is that of the latitude band. *)
Theorem C84_letter : forall lat, (-80 <= lat)%Q -> (lat <= 84)%Q ->
  exists k c, in_band lat k /\ String.get k bands = Some c /\ latitude_to_zone_letter lat = Ok (Some c) /\ forall z, 1 <= z <= 60 -> check_valid_zone z (Some c) = Ok tt.
Proof.
  intros lat H1 H2. unfold latitude_to_zone_letter. change (num (-80)) with (-80)%Q. change (num 84) with 84%Q. destruct (le_spec (-80) lat); [|lra]. destruct (le_spec lat 84); [|lra]. cbn [andb].
  destruct (trunc_floor (lat + num 80)) as [[T1 T2] T3]; [change (num 80) with 80%Q; lra|]. change (num 80) with 80%Q in *. set (t := trunc (lat + 80)) in *.
  rewrite Z.shiftr_div_pow2 by lia. change (2 ^ 3) with 8. set (j := t / 8).
  assert (Hj : 8 * j <= t < 8 * j + 8) by (unfold j; pose proof (Z.div_mod t 8); pose proof (Z.mod_pos_bound t 8); lia).
  assert (Ht : t <= 164) by (assert (Hq : (inject_Z t <= inject_Z 164)%Q) by (change (inject_Z 164) with 164%Q; lra); now rewrite <- Zle_Qle in Hq).
  assert (L1 : (inject_Z (8 * j - 80) <= lat)%Q).
  { assert (inject_Z (8 * j) <= inject_Z t)%Q by (rewrite <- Zle_Qle; lia). unfold Z.sub. rewrite inject_Z_plus. change (inject_Z (- (80))) with (-80)%Q. lra. }
  assert (L2 : (lat < inject_Z (8 * j - 72))%Q).
  { assert (Q1 : (inject_Z (t + 1) <= inject_Z (8 * j + 8))%Q) by (rewrite <- Zle_Qle; lia). replace (8 * j - 72) with (8 * j + 8 + -80) by lia. rewrite (inject_Z_plus (8 * j + 8)). change (inject_Z (-80)) with (-80)%Q.
    rewrite (inject_Z_plus t 1) in Q1. change (inject_Z 1) with 1%Q in *. lra. }
  assert (Hr : 0 <= j <= 20) by (unfold j; split; [apply Z.div_pos; lia|apply Z.lt_succ_r, Z.div_lt_upper_bound; lia]).
  set (k := Nat.min 19 (Z.to_nat j)).
  assert (B : in_band lat k).
  { destruct (Z.eq_dec j 20) as [->|Hne].
    - unfold k. change (Nat.min 19 (Z.to_nat 20)) with 19%nat. split; [change (inject_Z (8 * Z.of_nat 19 - 80)) with 72%Q; change (inject_Z (8 * 20 - 80)) with 80%Q in *; lra|]. right. split; [reflexivity|exact H2].
    - assert (Ek : Z.of_nat k = j) by (unfold k; lia). split; [now rewrite Ek|]. left. now rewrite Ek. }
  assert (Ej : In j [0;1;2;3;4;5;6;7;8;9;10;11;12;13;14;15;16;17;18;19;20]) by (cbn [In]; lia).
  unfold zone_letters, bands. revert B. unfold k. clear - Ej. intro B.
  assert (V : forall c z, 1 <= z <= 60 -> (if negb ((code "C" <=? code c)%nat && (code c <=? code "X")%nat) || Ascii.eqb c "I" || Ascii.eqb c "O" then true else false) = false -> check_valid_zone z (Some c) = Ok tt).
  { intros c z Hz E. unfold check_valid_zone. replace (negb ((1 <=? z) && (z <=? 60))) with false by lia. destruct (negb _ || _ || _); [discriminate|reflexivity]. }
  repeat (destruct Ej as [<-|Ej]; [eexists _, _; split; [exact B|]; split; [reflexivity|]; split; [reflexivity|]; intros z Hz; apply V; [exact Hz|reflexivity]|]). destruct Ej.
Qed.
(** Outside of the supported latitudes there is no letter. *)
Theorem C84_no_letter : forall lat, (lat < -80 \/ 84 < lat)%Q -> latitude_to_zone_letter lat = Ok None.
Proof.
  intros lat H. unfold latitude_to_zone_letter. change (num (-80)) with (-80)%Q. change (num 84) with 84%Q. destruct (le_spec (-80) lat); destruct (le_spec lat 84); cbn [andb]; try reflexivity. lra.
Qed.
(** from_latlon accepts a point exactly if its coordinates are in range, and
    one point out of range is enough for identify_utm_zone to raise. *)
Definition on_the_map (p : Q * Q) : Prop := (-80 <= fst p /\ fst p <= 84 /\ -180 <= snd p /\ snd p <= 180)%Q.
Theorem C84_accepted : forall p,
  (on_the_map p -> utm_of_point p = Ok (latlon_to_zone_number (fst p) (snd p))) /\
  (~ on_the_map p -> utm_of_point p = Err ValueError).
Proof.
  intros [lat lon]. unfold utm_of_point, in_bounds, on_the_map. cbn [fst snd].
  change (num (-80)) with (-80)%Q. change (num 84) with 84%Q. change (num (-180)) with (-180)%Q. change (num 180) with 180%Q. split; intro H.
  - destruct (le_spec (-80) lat); [|lra]. destruct (le_spec lat 84); [|lra]. destruct (le_spec (-180) lon); [|lra]. destruct (le_spec lon 180); [|lra]. cbn [andb negb].
    destruct (C84_letter lat) as (k & c & _ & _ & -> & _); [lra|lra|]. reflexivity.
  - destruct (le_spec (-80) lat); [|reflexivity]. destruct (le_spec lat 84); [|reflexivity]. cbn [andb negb].
    destruct (le_spec (-180) lon); [|reflexivity]. destruct (le_spec lon 180); [|reflexivity]. exfalso. apply H. lra.
Qed.
Theorem C84_identify_off_the_map : forall pts, (exists p, In p pts /\ ~ on_the_map p) -> identify_utm_zone pts = Err ValueError.
Proof.
  intros pts (p & Hp & Hn). unfold identify_utm_zone. replace (mapM utm_of_point pts) with (@Err (list Z) ValueError); [reflexivity|]. symmetry.
  induction pts as [|q pts IH]; [destruct Hp|]. cbn [mapM]. destruct Hp as [->|Hp]; [now rewrite (proj2 (C84_accepted p) Hn)|].
  unfold utm_of_point at 1. destruct (negb (in_bounds (fst q) _ _)); [reflexivity|]. destruct (negb (in_bounds (snd q) _ _)); [reflexivity|].
  destruct (latitude_to_zone_letter (fst q)) as [l|e|] eqn:El; cbn [bind]; [now rewrite (IH Hp)| |].
  - destruct (le_spec (-80) (fst q)); [destruct (le_spec (fst q) 84)|].
    + destruct (C84_letter (fst q)) as (k & c & _ & _ & E & _); [lra|lra|]. congruence.
    + rewrite C84_no_letter in El by lra. discriminate.
    + rewrite C84_no_letter in El by lra. discriminate.
  - destruct (le_spec (-80) (fst q)); [destruct (le_spec (fst q) 84)|].
    + destruct (C84_letter (fst q)) as (k & c & _ & _ & E & _); [lra|lra|]. congruence.
    + rewrite C84_no_letter in El by lra. discriminate.
    + rewrite C84_no_letter in El by lra. discriminate.
Qed.
Example C84_off_nonvacuous : In (100, 0)%Q [(40, -75); (100, 0)]%Q /\ ~ on_the_map (100, 0)%Q.
Proof. split; [cbn; auto|]. unfold on_the_map. cbn [fst snd]. lra. Qed.

(** On the 180th meridian, which from_latlon accepts, the zone is 61, and that
    is rejected by the library's own check. *)
Theorem C84_antimeridian_refuted : forall lat, (-80 <= lat)%Q -> (lat <= 84)%Q ->
  utm_of_point (lat, 180%Q) = Ok 61 /\ forall c, check_valid_zone 61 c = Err ValueError.
Proof.
  intros lat H1 H2. split; [|reflexivity]. unfold utm_of_point, in_bounds. cbn [fst snd]. change (num (-80)) with (-80)%Q. change (num 84) with 84%Q.
  destruct (le_spec (-80) lat); [|lra]. destruct (le_spec lat 84); [|lra]. cbn [andb negb]. change (negb (le (num (-180)) 180 && le 180 (num 180))) with false. cbn match.
  destruct (C84_letter lat H1 H2) as (k & c & _ & _ & -> & _). cbn [bind]. f_equal. destruct (zone_cases lat 180) as [[Hw ->]|[(Hn & Hs & _)|(_ & _ & ->)]].
  - unfold norway in Hw. lra.
  - unfold svalbard in Hs. lra.
  - reflexivity.
Qed.

(** *** The zone of a whole map *)
Lemma best_spec (c : dict Z nat) : forall best,
  match fold_left (fun best kv => match best with None => Some kv | Some b => if (snd b <? snd kv)%nat then Some kv else best end) c best with
  | None => best = None /\ c = []
  | Some r => (In r c \/ best = Some r) /\ (forall kv, In kv c \/ best = Some kv -> (snd kv <= snd r)%nat)
  end.
Proof.
  induction c as [|kv c IH]; intro best; cbn [fold_left].
  - destruct best as [b|]; [|auto]. split; [now right|]. intros kv [[]|[= <-]]. lia.
  - set (b' := match best with None => Some kv | Some b => if (snd b <? snd kv)%nat then Some kv else best end). specialize (IH b'). destruct (fold_left _ c b') as [r|].
    + destruct IH as [I1 I2]. assert (B : (best = b' /\ exists b, best = Some b /\ (snd kv <= snd b)%nat) \/ (b' = Some kv /\ forall b, best = Some b -> (snd b <= snd kv)%nat)).
      { unfold b'. destruct best as [b|]; [|right; split; [reflexivity|discriminate]]. destruct (Nat.ltb_spec (snd b) (snd kv)); [right; split; [reflexivity|intros x [= <-]; lia]|left; split; [reflexivity|eauto]]. }
      split.
      * destruct I1 as [I1|I1]; [left; now right|]. destruct B as [[B _]|[B _]]; [right; congruence|]. left. left. congruence.
      * intros x [[<-|Hx]|Hx].
        -- destruct B as [[B (b & Eb & Hb)]|[B _]]; [specialize (I2 b); rewrite <- B in I2; specialize (I2 (or_intror Eb)); lia|]. apply I2. now right.
        -- apply I2. now left.
        -- destruct B as [[B _]|[B Hb]]; [apply I2; right; congruence|]. specialize (Hb x Hx). specialize (I2 kv (or_intror B)). lia.
    + destruct IH as [I1 _]. unfold b' in I1. destruct best as [b|]; [destruct (snd b <? snd kv)%nat|]; discriminate.
Qed.
(** identify_utm_zone returns the zone of some unit, and no zone has more
    units; its failures are an empty map and a point out of range. *)
Theorem C84_identify : forall pts z, identify_utm_zone pts = Ok z ->
  exists zones, mapM utm_of_point pts = Ok zones /\ In z zones /\
    forall z', (length (filter (Z.eqb z') zones) <= length (filter (Z.eqb z) zones))%nat.
Proof.
  intros pts z E. unfold identify_utm_zone in E. apply bind_Ok in E. destruct E as (zones & Ez & Em). exists zones. split; [exact Ez|]. unfold most_common in Em.
  pose proof (best_spec (counter zones) None) as B. destruct (fold_left _ (counter zones) None) as [[k n]|]; [|discriminate]. cbn in Em. injection Em as <-. destruct B as [[B|B] Bm]; [|discriminate].
  destruct (counter_spec zones) as [ND C].
  assert (G : forall x m, In (x, m) (counter zones) <-> In x zones /\ m = length (filter (Z.eqb x) zones)).
  { intros x m. split.
    - intro H. apply In_dget in H; [|exact ND]. rewrite C in H. destruct (mem_spec x zones); [|discriminate]. injection H as <-. split; [assumption|reflexivity].
    - intros [H ->]. apply dget_In. rewrite C. apply mem_In in H. now rewrite H. }
  apply G in B. destruct B as [B1 B2]. split; [exact B1|]. intro z'. destruct (in_dec Z.eq_dec z' zones) as [Hz|Hz].
  - rewrite <- B2. apply (Bm (z', _)). left. apply G. split; [exact Hz|reflexivity].
  - replace (filter (Z.eqb z') zones) with (@nil Z); [cbn; lia|]. symmetry. clear - Hz. induction zones as [|y l IH]; [reflexivity|]. cbn [filter]. destruct (Z.eqb_spec z' y) as [->|]; [elim Hz; now left|]. apply IH. intro Hc. apply Hz. now right.
Qed.
Theorem C84_identify_empty : identify_utm_zone [] = Err IndexError.
Proof. reflexivity. Qed.
Theorem C84_identify_total : forall pts, pts <> [] -> Forall (fun p => -80 <= fst p /\ fst p <= 84 /\ -180 <= snd p /\ snd p < 180)%Q pts ->
  exists z, identify_utm_zone pts = Ok z /\ 1 <= z <= 60.
Proof.
  intros pts Hne F. assert (G : exists zones, mapM utm_of_point pts = Ok zones /\ length zones = length pts /\ Forall (fun z => 1 <= z <= 60) zones).
  { clear Hne. induction F as [|[lat lon] pts (H1 & H2 & H3 & H4) F IH]; [exists []; auto|]. cbn [fst snd] in *. destruct IH as (zones & E & Hl & Hz).
    exists (latlon_to_zone_number lat lon :: zones). cbn [mapM]. unfold utm_of_point at 1, in_bounds. cbn [fst snd].
    change (num (-80)) with (-80)%Q. change (num 84) with 84%Q. change (num (-180)) with (-180)%Q. change (num 180) with 180%Q.
    destruct (le_spec (-80) lat); [|lra]. destruct (le_spec lat 84); [|lra]. destruct (le_spec (-180) lon); [|lra]. destruct (le_spec lon 180); [|lra]. cbn [andb negb].
    destruct (C84_letter lat H1 H2) as (k & c & _ & _ & -> & _). cbn [bind]. rewrite E. cbn [bind length]. split; [reflexivity|]. split; [now rewrite Hl|]. constructor; [now apply C84_zone_range|exact Hz]. }
  destruct G as (zones & E & Hl & Hz). unfold identify_utm_zone. rewrite E. cbn [bind]. pose proof (best_spec (counter zones) None) as B. unfold most_common.
  destruct (fold_left _ (counter zones) None) as [[k n]|].
  - exists k. split; [reflexivity|]. destruct B as [[B|B] _]; [|discriminate]. rewrite Forall_forall in Hz. apply Hz. apply counter_keys. apply (in_map fst) in B. exact B.
  - exfalso. destruct B as [_ B]. destruct zones as [|y l]; [destruct pts; [now apply Hne|discriminate]|].
    assert (Hy : In y (dkeys (counter (y :: l)))) by (apply counter_keys; now left). rewrite B in Hy. destruct Hy.
Qed.

Example C84_nonvacuous : utm_of_point (42.4, (-71.1))%Q = Ok 19 /\ latitude_to_zone_letter 42.4 = Ok (Some "T"%char) /\
  svalbard 78 20 /\ norway 60 5 /\ utm_of_point (60, 5)%Q = Ok 32 /\ utm_of_point (78, 20)%Q = Ok 33 /\ latlon_to_zone_number 0 5 = 31.
Proof. split; [reflexivity|]. split; [reflexivity|]. split; [unfold svalbard; repeat split; discriminate|]. split; [unfold norway; repeat split; discriminate|]. repeat split; reflexivity. Qed.

Print Assumptions C84_zone_range.
Print Assumptions C84_zone_near.
Print Assumptions C84_svalbard.
Print Assumptions C84_letter.
Print Assumptions C84_no_letter.
Print Assumptions C84_antimeridian_refuted.
Print Assumptions C84_identify.
Print Assumptions C84_identify_empty.
Print Assumptions C84_identify_total.
Print Assumptions C84_accepted.
Print Assumptions C84_identify_off_the_map.
