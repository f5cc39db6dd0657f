(** Polsby-Popper scores and the constraints built on them:
    gerrychain/metrics/compactness.py and gerrychain/constraints/compactness.py.

    Floating-point numbers are real numbers with NaN; the attributes of the
    graph have values in any commutative ring, read as real numbers by [inj].
    Overflow, infinities and numpy scalars (which give infinity or NaN with a
    warning where Python floats raise ZeroDivisionError) are not modelled. *)
From Coq Require Import String List Bool Reals.
From Verif Require Import Base M_Graph M_Partition M_Machine M_Proposals.
Import ListNotations.
Local Open Scope string_scope.
Local Open Scope list_scope.

(** A number read as a real number. *)
Definition as_real {V} (inj : V -> R) (x : num V) : num R := match x with Num v => Num (inj v) | NaN => NaN end.
(** metrics/compactness.py:5-20 compute_polsby_popper *)
Definition compute_polsby_popper (area perimeter : num R) : num R :=
  match area, perimeter with
  | Num x, Num y => if Req_EM_T (y ^ 2) 0 then NaN else Num (4 * PI * x / y ^ 2)%R
  | _, _ => NaN
  end.

Section Scores.
  Context {N P V L : Type} {EN : EqB N} {EP : EqB P} {EL : EqB L} {ON : Ord N} {RV : CRing V}.
  Variable E : env N P V L.
  Variable inj : V -> R.
  Notation M := (@M N P V L).
  Notation "'do' x <- m ; f" := (bindM m (fun x => f))
    (at level 200, x name, m at level 100, f at level 200, right associativity).
  (** metrics/compactness.py:35-40, the dictionary comprehension over the
      districts; the subscripts raise KeyError. *)
  Fixpoint score_parts (a : nat) (parts : list P) : M (dict P (num R)) :=
    match parts with
    | [] => ret []
    | p :: rest =>
      do v <- read E a "area" ; do areas <- lift (as_num v) ; do x <- lift (of_option KeyError (dget areas p)) ;
      do u <- read E a "perimeter" ; do perims <- lift (as_num u) ; do y <- lift (of_option KeyError (dget perims p)) ;
      do d <- score_parts a rest ;
      ret ((p, compute_polsby_popper (as_real inj x) (as_real inj y)) :: d)
    end.
  (** metrics/compactness.py:25-40 polsby_popper *)
  Definition polsby_popper (a : nat) : M (dict P (num R)) :=
    do o <- get_obj a ; score_parts a (dkeys (a_parts (o_assign o))).
End Scores.

(** x + y for floats. *)
Definition radd (x y : num R) : num R := match x, y with Num a, Num b => Num (a + b)%R | _, _ => NaN end.
(** x / y for Python floats. *)
Definition rdiv (x y : num R) : res (num R) :=
  match y with
  | Num b => if Req_EM_T b 0 then Err ZeroDivisionError else Ok (match x with Num a => Num (a / b)%R | NaN => NaN end)
  | NaN => Ok NaN
  end.
(** constraints/compactness.py:8-19 L1_reciprocal_polsby_popper; the argument
    is the list of the values of the updater polsby_popper. *)
Definition L1_reciprocal (l : list (num R)) : res (num R) :=
  foldM (fun s v => r <- rdiv (Num 1%R) v ;; Ok (radd s r)) l (Num 0%R).
(** constraints/compactness.py:22-33 L1_polsby_popper *)
Definition L1_norm (l : list (num R)) : num R := fold_left radd l (Num 0%R).
(** constraints/compactness.py:36-47 L2_polsby_popper; the sum of squares is
    not negative, so math.sqrt does not raise. *)
Definition L2_norm (l : list (num R)) : num R :=
  match fold_left radd (map (fun v => match v with Num x => Num (x ^ 2)%R | NaN => NaN end) l) (Num 0%R) with
  | Num s => Num (sqrt s)
  | NaN => NaN
  end.
(** constraints/compactness.py:50-63 L_minus_1_polsby_popper; [n] is
    len(partition.parts). *)
Definition L_minus_1 (n : nat) (l : list (num R)) : res (num R) := s <- L1_reciprocal l ;; rdiv (Num (INR n)) s.

(** Comparison of floats: false if one is NaN. *)
Definition le_num (x y : num R) : bool :=
  match x, y with Num a, Num b => if Rle_dec a b then true else false | _, _ => false end.
(** [not self.bound] *)
Definition unset (b : option (num R)) : bool :=
  match b with None => true | Some (Num x) => if Req_EM_T x 0 then true else false | Some NaN => false end.
(** bounds.py:118-121 SelfConfiguringUpperBound.__call__ with the value (or
    exception) of the function at the plan; the second component is self.bound
    after the call. *)
Definition upper_call (bound : option (num R)) (v : res (num R)) : res bool * option (num R) :=
  match v with
  | Ok x => let b := if unset bound then Some x else bound in
            (Ok (match b with Some y => le_num x y | None => false end), b)
  | Err e => (Err e, bound)
  | NoFuel => (NoFuel, bound)
  end.
(** bounds.py:155-158 SelfConfiguringLowerBound.__call__ *)
Definition lower_call (eps : R) (bound : option (num R)) (v : res (num R)) : res bool * option (num R) :=
  match v with
  | Ok x => let b := if unset bound then Some (radd x (Num (- eps)%R)) else bound in
            (Ok (match b with Some y => le_num y x | None => false end), b)
  | Err e => (Err e, bound)
  | NoFuel => (NoFuel, bound)
  end.
(** constraints/compactness.py:66-70: the two constraints are objects of the
    module, so their bounds persist over everything the process does.  The
    plans a process evaluates them on, in order. *)
Fixpoint calls {X} (call : option (num R) -> res (num R) -> res bool * option (num R)) (f : X -> res (num R))
         (bound : option (num R)) (plans : list X) : list (res bool) :=
  match plans with
  | [] => []
  | x :: rest => let (r, b) := call bound (f x) in r :: calls call f b rest
  end.
