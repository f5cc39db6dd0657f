(** Model of ElectionResults (/repo/gerrychain/updaters/election.py:170-376)
    and of /repo/gerrychain/metrics/partisan.py.

    Votes and shares are rationals, arithmetic is exact; a share that Python
    makes NaN (no votes in a district) is [NaN].  Vote counts themselves are
    numbers, not NaN. *)
From Coq Require Import String List Bool Arith ZArith QArith Qabs.
From Verif Require Import Base M_Graph M_Partition M_Machine.
Import ListNotations.
Local Open Scope nat_scope.
Local Open Scope list_scope.

(** [sum] (exact arithmetic: the order of the additions does not matter) *)
Definition qsum (l : list Q) : Q := fold_right Qplus 0%Q l.
(** [a < b] *)
Definition qlt (a b : Q) : bool := negb (Qle_bool b a).
(** [a / b] for Python numbers *)
Definition qdiv (a b : Q) : res Q := if Qeq_bool b 0 then Err ZeroDivisionError else Ok (a / b)%Q.

(** [sorted] *)
Fixpoint insert (x : Q) (l : list Q) : list Q :=
  match l with
  | [] => [x]
  | y :: r => if Qle_bool x y then x :: y :: r else y :: insert x r
  end.
Definition isort (l : list Q) : list Q := fold_right insert [] l.

(** The numbers of a list, if none is NaN. *)
Fixpoint all_num (l : list (num Q)) : option (list Q) :=
  match l with
  | [] => Some []
  | Num x :: r => match all_num r with Some l => Some (x :: l) | None => None end
  | NaN :: _ => None
  end.

Section Results.
  Context {K P : Type} {EK : EqB K} {EP : EqB P}.

  (** election.py:188-244, the attributes *)
  Record results := mkResults {
    er_parties : list K;
    er_counts : dict K (dict P Q);
    er_regions : list P;
    er_totals : dict P Q;
    er_percents : dict K (dict P (num Q))
  }.

  (** [counts[party][region]] *)
  Definition votes_in (counts : dict K (dict P Q)) (c : K) (r : P) : res Q :=
    d <- of_option KeyError (dget counts c) ;; of_option KeyError (dget d r).

  (** election.py:170-185 get_percents *)
  Definition get_percents (counts : dict P Q) (totals : dict P Q) : res (dict P (num Q)) :=
    mapM (fun rt =>
      if qlt 0 (snd rt)
      then v <- of_option KeyError (dget counts (fst rt)) ;;
           x <- qdiv v (snd rt) ;; Ok (fst rt, Num x)
      else Ok (fst rt, NaN)) totals.

  (** election.py:214-244 __init__.  Regions are the labels of a plan and
      parties the keys of a dictionary, so both are without repetitions and
      the comprehensions are maps. *)
  Definition make_results (parties : list K) (counts : dict K (dict P Q)) (regions : list P)
    : res results :=
    totals <- mapM (fun r => vs <- mapM (fun c => votes_in counts c r) parties ;;
                             Ok (r, qsum vs)) regions ;;
    percents <- mapM (fun c => d <- of_option KeyError (dget counts c) ;;
                               p <- get_percents d totals ;; Ok (c, p)) parties ;;
    Ok (mkResults parties counts regions totals percents).

  Variable R : results.

  (** election.py:345-360 won *)
  Fixpoint beats_all (c : K) (r : P) (opponents : list K) : res bool :=
    match opponents with
    | [] => Ok true
    | o :: rest =>
      if eqb o c then beats_all c r rest
      else
        mine <- votes_in (er_counts R) c r ;;
        theirs <- votes_in (er_counts R) o r ;;
        if qlt theirs mine then beats_all c r rest else Ok false
    end.
  Definition won (c : K) (r : P) : res bool := beats_all c r (er_parties R).

  (** election.py:254-262 seats (and wins, 264-274) *)
  Definition seats (c : K) : res nat :=
    foldM (fun k r => b <- won c r ;; Ok (if b then S k else k)) (er_regions R) 0.

  (** election.py:321-343 counts, votes *)
  Definition counts_of (c : K) : res (list Q) :=
    mapM (fun r => votes_in (er_counts R) c r) (er_regions R).
  (** election.py:305-319 count *)
  Definition count (c : K) (region : option P) : res Q :=
    match region with
    | Some r => votes_in (er_counts R) c r
    | None => vs <- counts_of c ;; Ok (qsum vs)
    end.
  (** election.py:294-303 percents *)
  Definition percents (c : K) : res (list (num Q)) :=
    d <- of_option KeyError (dget (er_percents R) c) ;;
    mapM (fun r => of_option KeyError (dget d r)) (er_regions R).
  (** election.py:276-292 percent *)
  Definition percent (c : K) (region : option P) : res (num Q) :=
    match region with
    | Some r => d <- of_option KeyError (dget (er_percents R) c) ;; of_option KeyError (dget d r)
    | None =>
      vs <- counts_of c ;;
      ts <- mapM (fun r => of_option KeyError (dget (er_totals R) r)) (er_regions R) ;;
      x <- qdiv (qsum vs) (qsum ts) ;; Ok (Num x)
    end.
  (** election.py:362-367 total_votes *)
  Definition total_votes : Q := qsum (dvals (er_totals R)).

  Definition first_party : res K := of_option IndexError (nth_error (er_parties R) 0).

  (** ** metrics/partisan.py *)

  (** numpy.mean; NaN for the empty list *)
  Definition mean (l : list Q) : Q := (qsum l / inject_Z (Z.of_nat (List.length l)))%Q.
  Definition np_mean (l : list (num Q)) : num Q :=
    match l, all_num l with
    | [], _ => NaN
    | _, Some q => Num (mean q)
    | _, None => NaN
    end.
  (** numpy.median *)
  Definition median (l : list Q) : Q :=
    let s := isort l in
    let n := List.length l in
    if Nat.odd n then nth (n / 2) s 0%Q
    else ((nth (n / 2 - 1) s 0 + nth (n / 2) s 0) / 2)%Q.
  Definition np_median (l : list (num Q)) : num Q :=
    match l, all_num l with
    | [], _ => NaN
    | _, Some q => Num (median q)
    | _, None => NaN
    end.
  Definition nsubq (x y : num Q) : num Q :=
    match x, y with Num a, Num b => Num (a - b)%Q | _, _ => NaN end.

  (** partisan.py:13-28 *)
  Definition mean_median : res (num Q) :=
    c <- first_party ;; data <- percents c ;; Ok (nsubq (np_median data) (np_mean data)).

  (** partisan.py:49: [round(n / 3)]; a third never lies half way between two
      integers *)
  Definition round_third (n : nat) : nat := (2 * n + 3) / 6.

  (** partisan.py:31-52.  If some share is NaN the order of [sorted] is
      unpredictable, but the result is NaN anyway. *)
  Definition mean_thirdian : res (num Q) :=
    c <- first_party ;; data <- percents c ;;
    if Nat.ltb (round_third (List.length data)) (List.length data) then
      match all_num data with
      | None => Ok NaN
      | Some q => Ok (Num (nth (round_third (List.length q)) (isort q) 0 - mean q)%Q)
      end
    else Err IndexError.

  (** partisan.py:76-94 *)
  Definition wasted_votes (v1 v2 : Q) : Q * Q :=
    let total := (v1 + v2)%Q in
    if qlt v2 v1 then ((v1 - total / 2)%Q, v2) else (v1, (v2 - total / 2)%Q).

  (** partisan.py:55-73; unpacking fails unless there are two parties *)
  Definition efficiency_gap : res Q :=
    vs <- mapM counts_of (er_parties R) ;;
    match vs with
    | [a; b] =>
      let wasted := map (fun ab => wasted_votes (fst ab) (snd ab)) (combine a b) in
      qdiv (qsum (map (fun w => snd w - fst w)%Q wasted)) total_votes
    | _ => Err ValueError
    end.

  (** partisan.py:97-114; comparisons with NaN are false *)
  Definition num_gt (x m : num Q) : bool :=
    match x, m with Num a, Num b => qlt b a | _, _ => false end.
  Definition partisan_bias : res Q :=
    c <- first_party ;; shares <- percents c ;;
    let above := List.length (filter (fun x => num_gt x (np_mean shares)) shares) in
    x <- qdiv (inject_Z (Z.of_nat above)) (inject_Z (Z.of_nat (List.length shares))) ;;
    Ok (x - (1 # 2))%Q.

  (** partisan.py:117-147 *)
  Definition gini_of (overall : Q) (shares : list Q) : Q :=
    let races := rev (isort shares) in
    let sv := map (fun r => overall - r + (1 # 2))%Q races in
    let reflected := rev (map (fun s => 1 - s)%Q sv) in
    (qsum (map (fun sr => Qabs (fst sr - snd sr)) (combine sv reflected))
     / inject_Z (Z.of_nat (List.length races)))%Q.
  Definition partisan_gini : res (num Q) :=
    c <- first_party ;;
    overall <- percent c None ;;
    data <- percents c ;;
    match data with
    | [] => Err ZeroDivisionError
    | _ =>
      match overall, all_num data with
      | Num o, Some q => Ok (Num (gini_of o q))
      | _, _ => Ok NaN
      end
    end.
End Results.
Arguments results : clear implicits.
