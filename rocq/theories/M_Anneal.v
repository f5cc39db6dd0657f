(** Model of the temperature schedules and of simulated annealing in
    /repo/gerrychain/optimization/optimization.py:31-80 and 157-374.

    Steps and durations are integers.  The piecewise linear schedules are over
    the rationals, the logit schedules and the acceptance function over the
    reals; floating-point rounding is not modelled, except that math.exp raises
    OverflowError above a limit. *)
From Coq Require Import List Bool Arith ZArith QArith Reals.
From Verif Require Import Base M_Constraints M_Chain M_Optimize.
Import ListNotations.
Local Open Scope nat_scope.
Local Open Scope list_scope.

(** Python's [a % b] and [a / b] on integers *)
Definition int_mod (a b : Z) : res Z := if (b =? 0)%Z then Err ZeroDivisionError else Ok (a mod b)%Z.
Definition int_div (a b : Z) : res Q := if (b =? 0)%Z then Err ZeroDivisionError else Ok (inject_Z a / inject_Z b)%Q.

(** optimization.py:186-209 *)
Definition jumpcycle (hot cold step : Z) : res Q :=
  t <- int_mod step (hot + cold) ;;
  Ok (if (hot <=? t)%Z then 1%Q else 0%Q).
(** optimization.py:211-248 *)
Definition linearcycle (hot cooldown cold step : Z) : res Q :=
  let cycle := (hot + 2 * cooldown + cold)%Z in
  t <- int_mod step cycle ;;
  if (t <? hot)%Z then Ok 0%Q
  else if (t <? hot + cooldown)%Z then int_div (t - hot) cooldown
  else if (t <? cycle - cooldown)%Z then Ok 1%Q
  else q <- int_div (t - cycle + cooldown) cooldown ;; Ok (1 - q)%Q.
(** optimization.py:250-280 *)
Definition linear_jumpcycle (hot cooldown cold step : Z) : res Q :=
  t <- int_mod step (hot + cooldown + cold) ;;
  if (t <? hot)%Z then Ok 0%Q
  else if (t <? hot + cooldown)%Z then int_div (t - hot) cooldown
  else Ok 1%Q.

(** math.log *)
Definition math_log (x : R) : res R := if Rlt_dec 0 x then Ok (ln x) else Err ValueError.
(** [a / b] on numbers *)
Definition real_div (a b : R) : res R := if Req_EM_T b 0 then Err ZeroDivisionError else Ok (a / b)%R.
(** optimization.py:306 and 358 *)
Definition logit (x : R) : res R :=
  q <- real_div x (1 - x) ;;
  l <- math_log q ;;
  real_div (l + 5) 10.
(** optimization.py:314-318, 326-330 and 366-370 *)
Definition clip (v : R) : R := if Rlt_dec v 0 then 0%R else if Rlt_dec 1 v then 1%R else v.
(** optimization.py:282-332 *)
Definition logitcycle (hot cooldown cold step : Z) : res R :=
  let cycle := (hot + 2 * cooldown + cold)%Z in
  t <- int_mod step cycle ;;
  if (t <=? hot)%Z then Ok 0%R
  else if (t <? hot + cooldown)%Z then
    x <- real_div (IZR (t - hot)) (IZR cooldown) ;;
    v <- logit x ;; Ok (clip v)
  else if (t <=? cycle - cooldown)%Z then Ok 1%R
  else
    x <- real_div (IZR (t - cycle + cooldown)) (IZR cooldown) ;;
    v <- logit x ;; Ok (clip (1 - v)).
(** optimization.py:334-374 *)
Definition logit_jumpcycle (hot cooldown cold step : Z) : res R :=
  t <- int_mod step (hot + cooldown + cold) ;;
  if (t <=? hot)%Z then Ok 0%R
  else if (t <? hot + cooldown)%Z then
    x <- real_div (IZR (t - hot)) (IZR cooldown) ;;
    v <- logit x ;; Ok (clip v)
  else Ok 1%R.

(** ** The clock *)

(** A plan as far as the clock is concerned: its attribute [parent] and the
    value its updater [step] has cached, if any.  Plans are numbered in the
    order of creation. *)
Record cell := mkCell { c_parent : option nat; c_step : option Z }.
(** [w_log] records every reading of the clock by the acceptance function with
    the answer it then gave (false if it raised); it is not part of the
    program.  [w_rest] is everything else. *)
Record world (U : Type) := mkWorld { w_cells : list cell; w_log : list (Z * bool); w_rest : U }.
Arguments mkWorld {U}.
Arguments w_cells {U}.
Arguments w_log {U}.
Arguments w_rest {U}.

Fixpoint replace (l : list cell) (a : nat) (c : cell) : list cell :=
  match l, a with
  | [], _ => []
  | _ :: r, 0 => c :: r
  | d :: r, S a' => d :: replace r a' c
  end.
(** optimization.py:77-79 with partition.py:197-210: [part["step"]]; [fuel]
    bounds the number of ancestors.  AttributeError stands for a plan that does
    not exist. *)
Fixpoint read_step (fuel : nat) (h : list cell) (a : nat) : res (Z * list cell) :=
  match nth_error h a with
  | None => Err AttributeError
  | Some c =>
    match c_step c with
    | Some n => Ok (n, h)
    | None =>
      match c_parent c with
      | None => Ok (0%Z, replace h a (mkCell None (Some 0%Z)))
      | Some b =>
        match fuel with
        | 0 => NoFuel
        | S fuel' => x <- read_step fuel' h b ;;
                     Ok ((fst x + 1)%Z, replace (snd x) a (mkCell (Some b) (Some (fst x + 1)%Z)))
        end
      end
    end
  end.
(** chain.py:189-190: [self.state.parent = None] *)
Definition cut_off (h : list cell) (a : nat) : list cell :=
  match nth_error h a with None => h | Some c => replace h a (mkCell None (c_step c)) end.
Definition forget {U} (a : nat) (w : world U) : world U := mkWorld (cut_off (w_cells w) a) (w_log w) (w_rest w).

#[global] Program Instance Scores_R : Scores R := {| sle := fun s t => if Rle_dec s t then true else false |}.
Next Obligation. destruct (Rle_dec s t); auto. destruct (Rle_dec t s); auto. exfalso. destruct (Rle_or_lt s t); auto using Rlt_le. Qed.
Next Obligation. destruct (Rle_dec s t); [|discriminate]. destruct (Rle_dec t u); [|discriminate]. destruct (Rle_dec s u) as [|N]; auto. exfalso. apply N. eapply Rle_trans; eauto. Qed.

(** math.exp *)
Definition math_exp (limit x : R) : res R := if Rlt_dec limit x then Err OverflowError else Ok (exp x).

Section Annealing.
  Context {U : Type}.
  Notation world := (world U).
  Variable score : nat -> world -> res R * world.
  Variable beta : Z -> res R.
  Variable magnitude limit : R.
  Variable random : U -> R * U.
  Variable maximize : bool.

  (** optimization.py:178-182: [self._maximize], beta and the comparison with
      random.random(), which is drawn first *)
  Definition anneal (s t : R) (n : Z) (u : U) : res bool * U :=
    match beta n with
    | Ok b =>
      let delta := if maximize then (-1 * (s - t))%R else (s - t)%R in
      let (r, u1) := random u in
      match math_exp limit (- b * magnitude * delta)%R with
      | Ok e => (Ok (if Rlt_dec r e then true else false), u1)
      | Err e => (Err e, u1)
      | NoFuel => (NoFuel, u1)
      end
    | Err e => (Err e, u)
    | NoFuel => (NoFuel, u)
    end.
  (** optimization.py:174-182; [a] is the plan.  Its parent is read once; the
      score is assumed not to change it. *)
  Definition sa_accept (a : nat) (w : world) : res pyval * world :=
    match nth_error (w_cells w) a with
    | None => (Err AttributeError, w)
    | Some c =>
      match c_parent c with
      | None => (Ok (PBool true), w)
      | Some b =>
        match score a w with
        | (Ok s, w1) =>
          match score b w1 with
          | (Ok t, w2) =>
            match read_step (length (w_cells w2)) (w_cells w2) a with
            | Ok (n, h) =>
              let (r, u) := anneal s t n (w_rest w2) in
              match r with
              | Ok v => (Ok (PBool v), mkWorld h (w_log w2 ++ [(n, v)]) u)
              | Err e => (Err e, mkWorld h (w_log w2 ++ [(n, false)]) u)
              | NoFuel => (NoFuel, mkWorld h (w_log w2 ++ [(n, false)]) u)
              end
            | Err e => (Err e, w2)
            | NoFuel => (NoFuel, w2)
            end
          | (Err e, w2) => (Err e, w2)
          | (NoFuel, w2) => (NoFuel, w2)
          end
        | (Err e, w1) => (Err e, w1)
        | (NoFuel, w1) => (NoFuel, w1)
        end
      end
    end.
End Annealing.
