(** Model of the choice of UTM zones,
    /repo/gerrychain/vendor/utm/conversion.py:42-63, 187-232, 285-323 and
    /repo/gerrychain/graph/geo.py:15-32.

    Simplifications: coordinates are rationals (every float is one) and
    arithmetic is exact; OutOfRangeError is its base class ValueError
    (vendor/utm/error.py:1-2); coordinates are scalars, not numpy arrays; of
    from_latlon only the range checks and the zone are modelled, not the
    easting and northing; the change of coordinates and the centroids of
    identify_utm_zone are its argument. *)
From Coq Require Import String Ascii List Bool Arith ZArith QArith Qround.
From Verif Require Import Base M_Locality.
Import ListNotations.
Local Open Scope Z_scope.

(** Python's [x <= y], [x < y] and [int(x)] *)
Definition le (x y : Q) : bool := Qle_bool x y.
Definition lt (x y : Q) : bool := negb (Qle_bool y x).
Definition trunc (x : Q) : Z := Z.quot (Qnum x) (Zpos (Qden x)).
Definition num (z : Z) : Q := inject_Z z.

(** conversion.py:42 *)
Definition zone_letters : string := "CDEFGHJKLMNPQRSTUVWXX".

(** conversion.py:45-52 with a scalar *)
Definition in_bounds (x lower upper : Q) : bool := le lower x && le x upper.

(** conversion.py:55-63; [None] is a missing letter.  The letter is upper case
    already. *)
Definition code (c : ascii) : nat := nat_of_ascii c.
Definition check_valid_zone (zone_number : Z) (zone_letter : option ascii) : res unit :=
  if negb ((1 <=? zone_number) && (zone_number <=? 60)) then Err ValueError else
  match zone_letter with
  | None => Ok tt
  | Some c =>
    if negb ((code "C" <=? code c)%nat && (code c <=? code "X")%nat) || Ascii.eqb c "I" || Ascii.eqb c "O"
    then Err ValueError else Ok tt
  end.

(** conversion.py:285-294.  Indexing past the end is IndexError. *)
Definition latitude_to_zone_letter (latitude : Q) : res (option ascii) :=
  if le (num (-80)) latitude && le latitude (num 84) then
    c <- of_option IndexError (String.get (Z.to_nat (Z.shiftr (trunc (latitude + num 80)) 3)) zone_letters) ;; Ok (Some c)
  else Ok None.

(** conversion.py:297-319 *)
Definition latlon_to_zone_number (latitude longitude : Q) : Z :=
  let usual := trunc ((longitude + num 180) / num 6) + 1 in
  if (le (num 56) latitude && lt latitude (num 64)) && (le (num 3) longitude && lt longitude (num 12)) then 32
  else if (le (num 72) latitude && le latitude (num 84)) && le (num 0) longitude then
    if lt longitude (num 9) then 31
    else if lt longitude (num 21) then 33
    else if lt longitude (num 33) then 35
    else if lt longitude (num 42) then 37
    else usual
  else usual.

(** conversion.py:322-323 *)
Definition zone_number_to_central_longitude (zone_number : Z) : Z := (zone_number - 1) * 6 - 180 + 3.

(** conversion.py:187-232 without forced zone, and geo.py:15-20: the zone
    number of a point given as (latitude, longitude). *)
Definition utm_of_point (p : Q * Q) : res Z :=
  if negb (in_bounds (fst p) (num (-80)) (num 84)) then Err ValueError else
  if negb (in_bounds (snd p) (num (-180)) (num 180)) then Err ValueError else
  _ <- latitude_to_zone_letter (fst p) ;;
  Ok (latlon_to_zone_number (fst p) (snd p)).

(** collections.Counter.most_common(1): the first of the most frequent keys
    (heapq.nlargest with n = 1 is [max], which keeps the first maximum). *)
Definition most_common (c : dict Z nat) : option Z :=
  option_map fst (fold_left (fun best kv =>
    match best with
    | None => Some kv
    | Some b => if (snd b <? snd kv)%nat then Some kv else best
    end) c None).

(** geo.py:23-32; the argument is the list of centroids. *)
Definition identify_utm_zone (centroids : list (Q * Q)) : res Z :=
  zones <- mapM utm_of_point centroids ;;
  of_option IndexError (most_common (counter zones)).
