(** Model of the arguments of UTM conversions in both directions,
    /repo/gerrychain/vendor/utm/conversion.py:45-63, 71-74, 76-130, 187-236,
    277-282.

    Simplifications: those of M_Utm.v (exact rationals, scalars,
    OutOfRangeError as ValueError).  Strings are ASCII.  The series that give
    the easting and the northing in from_latlon are arguments, and to_latlon is
    modelled up to the point where its series start: its result here is the
    pair (x, y) that they are computed from. *)
From Coq Require Import String Ascii List Bool Arith ZArith QArith.
From Verif Require Import Base M_Utm.
Import ListNotations.
Local Open Scope Z_scope.

(** Python's str.upper and [s <= t] on ASCII strings *)
Definition upper1 (c : ascii) : ascii :=
  if (97 <=? code c)%nat && (code c <=? 122)%nat then ascii_of_nat (code c - 32) else c.
Fixpoint upper (s : string) : string :=
  match s with EmptyString => EmptyString | String c r => String (upper1 c) (upper r) end.
Fixpoint str_le (s t : string) : bool :=
  match s, t with
  | EmptyString, _ => true
  | String _ _, EmptyString => false
  | String a s', String b t' => (code a <? code b)%nat || (Nat.eqb (code a) (code b) && str_le s' t')
  end.

(** [bool(zone_letter)]: None and the empty string are false. *)
Definition truthy (l : option string) : bool :=
  match l with None | Some EmptyString => false | Some _ => true end.

(** conversion.py:45-52 with upper_strict=True and a scalar *)
Definition in_bounds_strict (x lower upper : Q) : bool := le lower x && lt x upper.

(** conversion.py:55-63, for any string *)
Definition check_zone (zone_number : Z) (zone_letter : option string) : res unit :=
  if negb ((1 <=? zone_number) && (zone_number <=? 60)) then Err ValueError else
  match zone_letter with
  | None | Some EmptyString => Ok tt
  | Some s =>
    let s := upper s in
    if negb (str_le "C" s && str_le s "X") || String.eqb s "I" || String.eqb s "O" then Err ValueError else Ok tt
  end.

(** conversion.py:76-130: to_latlon up to its series *)
Definition to_latlon_start (easting northing : Q) (zone_number : Z) (zone_letter : option string) (northern : option bool) (strict : bool) : res (Q * Q) :=
  if negb (truthy zone_letter) && match northern with None => true | _ => false end then Err ValueError else
  if truthy zone_letter && match northern with None => false | _ => true end then Err ValueError else
  if strict && negb (in_bounds_strict easting (num 100000) (num 1000000)) then Err ValueError else
  if strict && negb (in_bounds northing (num 0) (num 10000000)) then Err ValueError else
  _ <- check_zone zone_number zone_letter ;;
  let north := match zone_letter, northern with
    | Some (String _ _ as s), _ => str_le "N" (upper s)
    | _, Some b => b
    | _, None => false
    end in
  Ok (easting - num 500000, if north then northing else northing - num 10000000)%Q.

(** conversion.py:187-236 and 277-282: from_latlon; [e] and [n] are what the
    series give for a zone number (n does not include the offset of the
    southern hemisphere, conversion.py:279-280, and e includes the 500000). *)
Definition from_latlon (e n : Z -> Q) (latitude longitude : Q) (force_zone_number : option Z) (force_zone_letter : option string) : res (Q * Q * Z * option string) :=
  if negb (in_bounds latitude (num (-80)) (num 84)) then Err ValueError else
  if negb (in_bounds longitude (num (-180)) (num 180)) then Err ValueError else
  _ <- match force_zone_number with Some z => check_zone z force_zone_letter | None => Ok tt end ;;
  let z := match force_zone_number with Some z => z | None => latlon_to_zone_number latitude longitude end in
  l <- match force_zone_letter with
       | Some s => Ok (Some s)
       | None => c <- latitude_to_zone_letter latitude ;; Ok (option_map (fun c => String c EmptyString) c)
       end ;;
  Ok ((e z + num 500000)%Q, if lt latitude (num 0) then (n z + num 10000000)%Q else n z, z, l).
