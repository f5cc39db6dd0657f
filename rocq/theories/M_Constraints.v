(** Model of /repo/gerrychain/constraints/validity.py and bounds.py.

    Numbers are rationals (comparison is exact); NaN is not modelled here. *)
From Coq Require Import String List Bool Arith ZArith QArith.
From Verif Require Import Base M_Graph M_Partition M_Machine.
Import ListNotations.
Local Open Scope list_scope.

(** ** Validator *)

(** What a constraint may return: a Python bool, a numpy bool, or something
    else (1, None, a string, ...), of which only its truth value matters. *)
Inductive pyval := PBool (b : bool) | PNumpyBool (b : bool) | POther (truth : bool).
(** [if v:] *)
Definition truthy (v : pyval) : bool :=
  match v with PBool b | PNumpyBool b | POther b => b end.

Section Validator.
  (** [X] plans, [W] the state of the world (constraints may keep state, draw
      random numbers, read caches). *)
  Context {X W : Type}.
  Definition constraint := X -> W -> res pyval * W.

  (** validity.py:42-44: coerce NumPy booleans *)
  Definition coerce (v : pyval) : pyval :=
    match v with PNumpyBool b => PBool b | v => v end.

  (** What happens after one call, validity.py:46-54: [None] goes on. *)
  Definition verdict (v : pyval) : option (res bool) :=
    match coerce v with
    | PBool false => Some (Ok false)
    | PBool true => None
    | _ => Some (Err TypeError)
    end.

  (** validity.py:32-56 Validator.__call__; also returns the constraints not
      yet drawn from the iterable when the call ends. *)
  Fixpoint validate_loop (cs : list constraint) (x : X) (w : W)
    : res bool * W * list constraint :=
    match cs with
    | [] => (Ok true, w, [])
    | c :: r =>
      match c x w with
      | (Ok v, w') =>
        match verdict v with
        | Some out => (out, w', r)
        | None => validate_loop r x w'
        end
      | (Err e, w') => (Err e, w', r)
      | (NoFuel, w') => (NoFuel, w', r)
      end
    end.

  (** The [constraints] argument: a list, tuple or other collection can be
      iterated again and again; a generator or other iterator only once. *)
  Inductive iterable := Reusable (cs : list constraint) | OneShot (cs : list constraint).
  Definition elements (i : iterable) : list constraint :=
    match i with Reusable cs | OneShot cs => cs end.

  Definition validator (i : iterable) (x : X) (w : W) : res bool * W * iterable :=
    match i with
    | Reusable cs => let '(r, w', _) := validate_loop cs x w in (r, w', Reusable cs)
    | OneShot cs => let '(r, w', rest) := validate_loop cs x w in (r, w', OneShot rest)
    end.

  (** Validating one plan after the other with the same Validator. *)
  Fixpoint validations (i : iterable) (xs : list X) (w : W) : list (res bool) * W * iterable :=
    match xs with
    | [] => ([], w, i)
    | x :: r =>
      let '(b, w1, i1) := validator i x w in
      let '(bs, w2, i2) := validations i1 r w1 in
      (b :: bs, w2, i2)
    end.
End Validator.
Arguments constraint : clear implicits.
Arguments iterable : clear implicits.

(** ** Bounds *)

Definition Qltb (x y : Q) : bool := negb (Qle_bool y x).

(** Python's min and max over a non-empty iterable; ValueError on empty ones. *)
Definition py_min (l : list Q) : res Q :=
  match l with
  | [] => Err ValueError
  | x :: r => Ok (fold_left (fun m y => if Qltb y m then y else m) r x)
  end.
Definition py_max (l : list Q) : res Q :=
  match l with
  | [] => Err ValueError
  | x :: r => Ok (fold_left (fun m y => if Qltb m y then y else m) r x)
  end.

(** bounds.py:25-28 Bounds.__call__ on the values returned by the function.
    [once] says that the function returned an iterator, which [min] exhausts. *)
Definition bounds_call (lo hi : Q) (once : bool) (values : list Q) : res bool :=
  mn <- py_min values ;;
  if Qle_bool lo mn
  then mx <- py_max (if once then [] else values) ;; Ok (Qle_bool mx hi)
  else Ok false.

(** bounds.py:57-58 UpperBound.__call__, 87-88 LowerBound.__call__ *)
Definition upper_bound (bound v : Q) : bool := Qle_bool v bound.
Definition lower_bound (bound v : Q) : bool := Qle_bool bound v.

(** [not self.bound]: None and zero are falsy *)
Definition falsy (b : option Q) : bool :=
  match b with None => true | Some x => Qeq_bool x 0 end.

(** bounds.py:118-121 SelfConfiguringUpperBound.__call__.  The state is
    [self.bound]; [v] is the value of the function at the plan (computed twice
    by the code, assumed to be the same both times). *)
Definition self_upper (bound : option Q) (v : Q) : bool * option Q :=
  let b := if falsy bound then Some v else bound in
  (match b with Some x => Qle_bool v x | None => false end, b).
(** bounds.py:155-158 SelfConfiguringLowerBound.__call__ *)
Definition self_lower (eps : Q) (bound : option Q) (v : Q) : bool * option Q :=
  let b := if falsy bound then Some (v - eps) else bound in
  (match b with Some x => Qle_bool x v | None => false end, b).
(** bounds.py:194-204 WithinPercentRangeOfBounds; [percent] is the argument of
    the constructor. *)
Definition within_range (percent : Q) (st : option Q * option Q) (v : Q)
  : bool * (option Q * option Q) :=
  let p := percent / 100 in
  if falsy (fst st) || falsy (snd st)
  then (true, (Some (v * (1 - p)), Some (v * (1 + p))))
  else (match st with
        | (Some l, Some u) => Qle_bool l v && Qle_bool v u
        | _ => false
        end, st).

(** A history of calls of a stateful bound: the answers. *)
Fixpoint calls {S : Type} (f : S -> Q -> bool * S) (s : S) (vs : list Q) : list bool * S :=
  match vs with
  | [] => ([], s)
  | v :: r => let '(b, s1) := f s v in let '(bs, s2) := calls f s1 r in (b :: bs, s2)
  end.

(** ** Population constraints *)

(** Division as Python does it. *)
Definition py_div (x y : Q) : res Q := if Qeq_bool y 0 then Err ZeroDivisionError else Ok (x / y).
Definition qsum (l : list Q) : Q := fold_left Qplus l 0.

(** validity.py:88-91: the bounds computed from the tally of the initial plan *)
Definition ideal_bounds (initial : list Q) (percent : Q) : res (Q * Q) :=
  ideal <- py_div (qsum initial) (inject_Z (Z.of_nat (List.length initial))) ;;
  Ok ((1 - percent) * ideal, (1 + percent) * ideal).

(** validity.py:116-122 deviation_from_ideal *)
Definition deviation_from_ideal {P} (tally : dict P Q) : res (dict P Q) :=
  ideal <- py_div (qsum (dvals tally)) (inject_Z (Z.of_nat (List.length (dkeys tally)))) ;;
  mapM (fun pv => d <- py_div (snd pv - ideal) ideal ;; Ok (fst pv, d)) tally.

(** validity.py:144-151 districts_within_tolerance *)
Definition districts_within_tolerance (percentage : Q) (values : list Q) : res bool :=
  let p := if Qle_bool 1 percentage then percentage * (1 # 100) else percentage in
  mx <- py_max values ;;
  mn <- py_min values ;;
  Ok (Qle_bool (mx - mn) (p * mn)).

(** validity.py:63-93 within_percent_of_ideal_population, on plan objects.
    Populations are integers.  A tally containing NaN is not modelled
    (TypeError). *)
Section Population.
  Context {N P L : Type} {EN : EqB N} {EP : EqB P} {EL : EqB L} {ON : Ord N}.
  Variable E : env N P Z L.
  Definition as_Q (x : num Z) : res Q :=
    match x with Num z => Ok (inject_Z z) | NaN => Err TypeError end.
  Definition tally_values (key : string) (a : nat) (h : heap N P Z L)
    : res (list Q) * heap N P Z L :=
    bindM (read E a key) (fun v => bindM (lift (as_num v)) (fun d =>
      lift (mapM as_Q (dvals d)))) h.
  (** The constructor, run on the initial plan [a0] ... *)
  Definition within_percent (key : string) (percent : Q) (a0 : nat)
    : heap N P Z L -> res (Q * Q) * heap N P Z L :=
    bindM (tally_values key a0) (fun vs => lift (ideal_bounds vs percent)).
  (** ... and a call of the resulting Bounds object on plan [a]. *)
  Definition population_ok (key : string) (bounds : Q * Q) (a : nat)
    : heap N P Z L -> res bool * heap N P Z L :=
    bindM (tally_values key a) (fun vs => lift (bounds_call (fst bounds) (snd bounds) false vs)).
End Population.
