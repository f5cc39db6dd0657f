(** Model of /repo/gerrychain/chain.py (MarkovChain).

    The plan type [X] and the world [W] are arbitrary.  The proposal, the
    constraints and the acceptance function are arbitrary computations that may
    raise, change the world and draw random numbers from it.  [erase x] is the
    effect of [x.parent = None].  A state of None is not modelled. *)
From Coq Require Import List Bool Arith ZArith.
From Verif Require Import Base M_Constraints.
Import ListNotations.
Local Open Scope list_scope.

Section Chain.
  Context {X W : Type}.
  Variable proposal : X -> W -> res X * W.
  Variable accept : X -> W -> res pyval * W.
  Variable erase : X -> W -> W.
  (** Has the constraint an attribute [__name__]?  Functions and Bounds have,
      Validator objects and functools.partial objects have not
      (constraints/validity.py:8-60, bounds.py:30-32). *)
  Variable named : constraint X W -> bool.

  (** The attributes of a MarkovChain; [ch_counter = None] until [__iter__] has
      been called. *)
  Record chain := mkChain {
    ch_valid : iterable X W;
    ch_total : Z;
    ch_initial : X;
    ch_state : X;
    ch_counter : option Z
  }.

  (** The argument [constraints]. *)
  Inductive constraints_arg := Callable (c : constraint X W) | Collection (i : iterable X W).
  (** chain.py:79-82 and 133-136 *)
  Definition make_validator (a : constraints_arg) : iterable X W :=
    match a with Callable c => Reusable [c] | Collection i => i end.

  (** chain.py:85-89 and 139-143: the list comprehension collecting the failed
      constraints; every remaining constraint is called. *)
  Fixpoint failed_constraints (cs : list (constraint X W)) (x : X) (w : W)
    : res (list (constraint X W)) * W :=
    match cs with
    | [] => (Ok [], w)
    | c :: r =>
      match c x w with
      | (Ok v, w1) =>
        match failed_constraints r x w1 with
        | (Ok fs, w2) => (Ok (if truthy v then fs else c :: fs), w2)
        | other => other
        end
      | (Err e, w1) => (Err e, w1)
      | (NoFuel, w1) => (NoFuel, w1)
      end
    end.

  (** chain.py:84-94 and 138-148: check the initial state; on failure collect
      the names and raise. *)
  Definition check_initial (i : iterable X W) (x : X) (w : W) : res (iterable X W) * W :=
    match validator i x w with
    | (Ok true, w1, i1) => (Ok i1, w1)
    | (Ok false, w1, i1) =>
      match failed_constraints (elements i1) x w1 with
      | (Ok fs, w2) => (Err (if forallb named fs then ValueError else AttributeError), w2)
      | (Err e, w2) => (Err e, w2)
      | (NoFuel, w2) => (NoFuel, w2)
      end
    | (Err e, w1, _) => (Err e, w1)
    | (NoFuel, w1, _) => (NoFuel, w1)
    end.

  (** chain.py:51-101 __init__ *)
  Definition construct (a : constraints_arg) (initial : X) (total : Z) (w : W) : res chain * W :=
    match check_initial (make_validator a) initial w with
    | (Ok i, w1) => (Ok (mkChain i total initial initial None), w1)
    | (Err e, w1) => (Err e, w1)
    | (NoFuel, w1) => (NoFuel, w1)
    end.

  (** chain.py:114-150: assignment to [chain.constraints] *)
  Definition set_constraints (ch : chain) (a : constraints_arg) (w : W) : res unit * chain * W :=
    match check_initial (make_validator a) (ch_initial ch) w with
    | (Ok i, w1) =>
      (Ok tt, mkChain i (ch_total ch) (ch_initial ch) (ch_state ch) (ch_counter ch), w1)
    | (Err e, w1) => (Err e, ch, w1)
    | (NoFuel, w1) => (NoFuel, ch, w1)
    end.

  (** chain.py:152-164 __iter__ *)
  Definition iter (ch : chain) : chain :=
    mkChain (ch_valid ch) (ch_total ch) (ch_initial ch) (ch_initial ch) (Some 0%Z).

  Definition with_valid (ch : chain) (i : iterable X W) : chain :=
    mkChain i (ch_total ch) (ch_initial ch) (ch_state ch) (ch_counter ch).

  (** chain.py:185-196: the while loop; [fuel] bounds the number of proposals *)
  Fixpoint advance (fuel : nat) (k : Z) (ch : chain) (w : W) : res X * chain * W :=
    match fuel with
    | 0 => (NoFuel, ch, w)
    | S fuel' =>
      if (k <? ch_total ch)%Z then
        match proposal (ch_state ch) w with
        | (Err e, w1) => (Err e, ch, w1)
        | (NoFuel, w1) => (NoFuel, ch, w1)
        | (Ok y, w1) =>
          let w2 := erase (ch_state ch) w1 in
          match validator (ch_valid ch) y w2 with
          | (Err e, w3, i) => (Err e, with_valid ch i, w3)
          | (NoFuel, w3, i) => (NoFuel, with_valid ch i, w3)
          | (Ok false, w3, i) => advance fuel' k (with_valid ch i) w3
          | (Ok true, w3, i) =>
            match accept y w3 with
            | (Err e, w4) => (Err e, with_valid ch i, w4)
            | (NoFuel, w4) => (NoFuel, with_valid ch i, w4)
            | (Ok v, w4) =>
              let s := if truthy v then y else ch_state ch in
              (Ok s, mkChain i (ch_total ch) (ch_initial ch) s (Some (k + 1)%Z), w4)
            end
          end
        end
      else (Err StopIteration, ch, w)
    end.

  (** chain.py:166-196 __next__ *)
  Definition next (fuel : nat) (ch : chain) (w : W) : res X * chain * W :=
    match ch_counter ch with
    | None => (Err AttributeError, ch, w)
    | Some k =>
      if (k =? 0)%Z
      then (Ok (ch_state ch), mkChain (ch_valid ch) (ch_total ch) (ch_initial ch) (ch_state ch)
                                      (Some 1%Z), w)
      else advance fuel k ch w
    end.

  (** How a [for] loop over an iterator ends: normally (the iterator raised
      StopIteration), with another exception, or not within the bounds. *)
  Inductive ending := Finished | Raised (e : exn) | Unbounded.

  (** [for x in it: body(x)], after [iter(it)]: the yielded plans, each with the
      world at the moment of the yield.  [body] is what the user does between
      two yields; [n] bounds the number of steps. *)
  Fixpoint loop (n fuel : nat) (body : X -> W -> W) (ch : chain) (w : W)
    : list (X * W) * ending * chain * W :=
    match n with
    | 0 => ([], Unbounded, ch, w)
    | S n' =>
      match next fuel ch w with
      | (Ok x, ch1, w1) =>
        let '(ys, en, ch2, w2) := loop n' fuel body ch1 (body x w1) in
        ((x, w1) :: ys, en, ch2, w2)
      | (Err StopIteration, ch1, w1) => ([], Finished, ch1, w1)
      | (Err e, ch1, w1) => ([], Raised e, ch1, w1)
      | (NoFuel, ch1, w1) => ([], Unbounded, ch1, w1)
      end
    end.
  Definition for_loop (n fuel : nat) (body : X -> W -> W) (ch : chain) (w : W) :=
    loop n fuel body (iter ch) w.

  (** Drawing [k] values with next(), ignoring exceptions: partial consumption. *)
  Fixpoint draw (k fuel : nat) (ch : chain) (w : W) : chain * W :=
    match k with
    | 0 => (ch, w)
    | S k' => let '(_, ch1, w1) := next fuel ch w in draw k' fuel ch1 w1
    end.
End Chain.
Arguments chain : clear implicits.
Arguments constraints_arg : clear implicits.
