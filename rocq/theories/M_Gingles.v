(** Model of /repo/gerrychain/optimization/gingleator.py: the auxiliary updater
    and the score functions.  Shares are exact rationals; floating-point rounding
    is not modelled.  The registration of the updater is in M_Registry.v. *)
From Coq Require Import List Bool Arith ZArith QArith.
From Verif Require Import Base M_Constraints M_Election.
Import ListNotations.
Local Open Scope nat_scope.
Local Open Scope list_scope.

Section Shares.
  Context {P : Type} `{EqB P}.
  (** gingleator.py:80-85: the auxiliary updater; [parts] are the keys of
      part.parts *)
  Definition percentages (parts : list P) (minority total : dict P Q) : res (dict P Q) :=
    mapM (fun k => m <- of_option KeyError (dget minority k) ;;
                   t <- of_option KeyError (dget total k) ;;
                   q <- qdiv m t ;; Ok (k, q)) parts.
End Shares.

(** gingleator.py:119-120, 142-143, 169-170, 198-199: the sum of a list of
    booleans *)
Definition count_true (l : list bool) : nat := fold_left (fun n (b : bool) => n + (if b then 1 else 0)) l 0.
(** gingleator.py:100-120; the argument [percs] is part[minority_perc_col].values() *)
Definition num_opportunity_dists (percs : list Q) (threshold : Q) : nat :=
  count_true (map (fun v => Qle_bool threshold v) percs).
Definition q_of_nat (n : nat) : Q := inject_Z (Z.of_nat n).
(** gingleator.py:122-145 *)
Definition reward_partial_dist (percs : list Q) (threshold : Q) : res Q :=
  next_dist <- py_max (filter (fun i => qlt i threshold) percs) ;;
  Ok (q_of_nat (num_opportunity_dists percs threshold) + next_dist)%Q.
(** gingleator.py:147-176 *)
Definition reward_next_highest_close (percs : list Q) (threshold : Q) : res Q :=
  next_dist <- py_max (filter (fun i => qlt i threshold) percs) ;;
  let n := q_of_nat (num_opportunity_dists percs threshold) in
  if qlt next_dist (threshold - (1 # 10)) then Ok n
  else Ok (n + (next_dist - threshold + (1 # 10)) * 10)%Q.
(** gingleator.py:178-204 *)
Definition penalize_maximum_over (percs : list Q) (threshold : Q) : res Q :=
  let n := num_opportunity_dists percs threshold in
  if Nat.eqb n 0 then Ok 0%Q
  else
    max_dist <- py_max percs ;;
    q <- qdiv (1 - max_dist) (1 - threshold) ;;
    Ok (q_of_nat n + q)%Q.
(** gingleator.py:206-233.  np.mean returns a NumPy number, whose division by
    zero gives nan or infinity with a warning: the result [Ok None]. *)
Definition penalize_avg_over (percs : list Q) (threshold : Q) : res (option Q) :=
  let opport_dists := filter (fun v => Qle_bool threshold v) percs in
  match opport_dists with
  | [] => Ok (Some 0%Q)
  | _ =>
    let n := q_of_nat (length opport_dists) in
    let avg := (fold_right Qplus 0 opport_dists / n)%Q in
    if Qeq_bool (1 - threshold) 0 then Ok None
    else Ok (Some (n + (1 - avg) / (1 - threshold))%Q)
  end.
