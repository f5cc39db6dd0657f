(** Model of /repo/gerrychain/optimization/optimization.py:66-73, 376-473 and
    475-607 as generators that share the optimizer's attributes: several runs of
    one optimizer can be under way at the same time (for instance in a [zip]),
    be left unfinished, be cut short by an interrupt anywhere, or raise.

    One statement is one step.  An interrupt inside a callback or inside the
    chain (see M_Interrupt.v for the latter) is an interrupt before the statement
    that calls it, together with an arbitrary change of the world.

    Simplifications, beyond those of M_Optimize.v: the optimizer's constraints
    are not a one-shot iterator; tilted_short_bursts and tilted_run are
    short_bursts and a single run with another acceptance function, and so is
    simulated_annealing. *)
From Coq Require Import List Bool Arith ZArith.
From Verif Require Import Base M_Constraints M_Chain M_Optimize.
Import ListNotations.
Local Open Scope nat_scope.
Local Open Scope list_scope.

Section Runs.
  Context {X W V : Type} {SV : Scores V}.
  Variable proposal : X -> W -> res X * W.
  Variable erase : X -> W -> W.
  Variable named : constraint X W -> bool.
  Variable score : X -> W -> res V * W.
  Variable maximize : bool.
  Variable constraints : constraints_arg X W.
  Variable initial : X.

  (** optimization.py:72-73: the attributes _best_part and _best_score; [None]
      is None *)
  Record attributes := mkAttributes { a_part : option X; a_score : option V }.
  Definition fresh : attributes := mkAttributes None None.

  (** A call of short_bursts, of simulated_annealing or tilted_run, or of
      variable_length_short_bursts, with the acceptance function. *)
  Inductive kind := Bursts (len num : nat) | Single (steps : nat) | Variable_length (steps buffer : nat).
  Record run := mkRun { r_kind : kind; r_accept : X -> W -> res pyval * W }.

  (** The local variables: bursts left to do; burst_length, time_stuck and i. *)
  Record locals := mkLocals { l_left : nat; l_len : nat; l_stuck : nat; l_i : nat }.
  (** optimization.py:414 (range), 547-549 *)
  Definition locals_of (k : kind) : locals :=
    match k with
    | Bursts len num => mkLocals num len 0 0
    | Single steps => mkLocals 0 steps 0 0
    | Variable_length _ _ => mkLocals 0 2 0 0
    end.

  (** Where a generator stands. *)
  Inductive spot :=
  | Begin                                          (* not started *)
  | First (c : option (chain X W))                 (* 411, 463, 545, 596 _best_part = _initial_part *)
  | Score_first (c : option (chain X W))           (* 412, 464, 546, 597 _best_score = score(_best_part) *)
  | Head                                           (* 414-417, 551-554 the outer loop *)
  | Ask (ch : chain X W)                           (* 419, 468, 555, 601 the chain is asked for a plan *)
  | Yielded (ch : chain X W) (x : X)               (* 420-421, 469-470, 556-557, 602-603 yield part; then it is scored *)
  | Compare (ch : chain X W) (x : X) (s : V)       (* 423, 471, 558, 605 if self._is_improvement(...) *)
  | Set_part (ch : chain X W) (x : X) (s : V)      (* 424, 472, 559, 606 self._best_part = part *)
  | Set_score (ch : chain X W) (x : X) (s : V)     (* 425, 473, 560, 607 self._best_score = part_score *)
  | Tail (ch : chain X W)                          (* 565-567 i += 1; break *)
  | After.                                         (* 569-570 after the inner loop *)

  (** How a statement goes on. *)
  Inductive next_spot :=
  | Go (s : spot) (l : locals)
  | Pause (x : X) (s : spot) (l : locals)
  | Stop
  | Throw (e : exn)
  | Hang.
  (** What can be observed: calls of the score function made by a run (not by its
      acceptance function), with [true] for the initial plan and [None] if it
      raised. *)
  Definition call : Type := bool * X * option V.

  (** What leaves the generator when a call in its body raises (PEP 479). *)
  Definition thrown {A} (r : res A) : next_spot :=
    match r with Err e => Throw (gen_exn e) | _ => Hang end.

  (** optimization.py:411-425, 451-473, 545-570 and 587-607, one statement; the
      chain's [__next__] is one statement too, with at most [fuel] proposals *)
  Definition statement (fuel : nat) (r : run) (p : spot) (l : locals) (t : attributes) (w : W)
    : next_spot * attributes * W * list call :=
    match p with
    | Begin =>
      match r_kind r with
      | Single steps =>
        match construct named constraints initial (Z.of_nat steps) w with
        | (Ok ch, w1) => (Go (First (Some (iter ch))) l, t, w1, [])
        | (q, w1) => (thrown q, t, w1, [])
        end
      | _ => (Go (First None) l, t, w, [])
      end
    | First c => (Go (Score_first c) l, mkAttributes (Some initial) (a_score t), w, [])
    | Score_first c =>
      match a_part t with
      | None => (Throw AttributeError, t, w, [])
      | Some x =>
        match score x w with
        | (Ok s, w1) =>
          (Go (match c with None => Head | Some ch => Ask ch end) l, mkAttributes (a_part t) (Some s), w1, [(true, x, Some s)])
        | (q, w1) => (thrown q, t, w1, [(true, x, None)])
        end
      end
    | Head =>
      match r_kind r with
      | Single _ => (Stop, t, w, [])
      | Bursts _ _ =>
        match l_left l, a_part t with
        | 0, _ => (Stop, t, w, [])
        | S n, Some x =>
          match construct named constraints x (Z.of_nat (l_len l)) w with
          | (Ok ch, w1) => (Go (Ask (iter ch)) (mkLocals n (l_len l) (l_stuck l) (l_i l)), t, w1, [])
          | (q, w1) => (thrown q, t, w1, [])
          end
        | S _, None => (Throw AttributeError, t, w, [])
        end
      | Variable_length steps _ =>
        if Nat.ltb (l_i l) steps then
          match a_part t with
          | Some x =>
            match construct named constraints x (Z.of_nat (l_len l)) w with
            | (Ok ch, w1) => (Go (Ask (iter ch)) l, t, w1, [])
            | (q, w1) => (thrown q, t, w1, [])
            end
          | None => (Throw AttributeError, t, w, [])
          end
        else (Stop, t, w, [])
      end
    | Ask ch =>
      match next proposal (r_accept r) erase fuel ch w with
      | (Ok x, ch1, w1) => (Pause x (Yielded ch1 x) l, t, w1, [])
      | (Err StopIteration, _, w1) => (Go After l, t, w1, [])
      | (Err e, _, w1) => (Throw e, t, w1, [])
      | (NoFuel, _, w1) => (Hang, t, w1, [])
      end
    | Yielded ch x =>
      match score x w with
      | (Ok s, w1) => (Go (Compare ch x s) l, t, w1, [(false, x, Some s)])
      | (q, w1) => (thrown q, t, w1, [(false, x, None)])
      end
    | Compare ch x s =>
      match a_score t with
      | None => (Throw TypeError, t, w, [])
      | Some old =>
        if is_improvement maximize s old then (Go (Set_part ch x s) l, t, w, [])
        else (Go (Tail ch) (mkLocals (l_left l) (l_len l) (S (l_stuck l)) (l_i l)), t, w, [])
      end
    | Set_part ch x s => (Go (Set_score ch x s) l, mkAttributes (Some x) (a_score t), w, [])
    | Set_score ch x s =>
      (Go (Tail ch) (mkLocals (l_left l) (l_len l) 0 (l_i l)), mkAttributes (a_part t) (Some s), w, [])
    | Tail ch =>
      match r_kind r with
      | Variable_length steps _ =>
        let l1 := mkLocals (l_left l) (l_len l) (l_stuck l) (S (l_i l)) in
        (Go (if Nat.leb steps (l_i l1) then After else Ask ch) l1, t, w, [])
      | _ => (Go (Ask ch) l, t, w, [])
      end
    | After =>
      match r_kind r with
      | Single _ => (Stop, t, w, [])
      | Bursts _ _ => (Go Head l, t, w, [])
      | Variable_length _ buffer =>
        let len := if Nat.leb (buffer * l_len l) (l_stuck l) then l_len l * 2 else l_len l in
        (Go Head (mkLocals (l_left l) len (l_stuck l) (l_i l)), t, w, [])
      end
    end.

  (** [n] statements, or fewer if the generator yields, returns or raises
      before. *)
  Fixpoint statements (n fuel : nat) (r : run) (p : spot) (l : locals) (t : attributes) (w : W)
    : next_spot * attributes * W * list call :=
    match n with
    | 0 => (Go p l, t, w, [])
    | S n' =>
      match statement fuel r p l t w with
      | (Go p1 l1, t1, w1, c1) =>
        let '(o, t2, w2, c2) := statements n' fuel r p1 l1 t1 w1 in (o, t2, w2, c1 ++ c2)
      | other => other
      end
    end.

  (** The optimizer and the generators made from it so far; [None] is a generator
      that has returned, raised or been cut short. *)
  Definition generator : Type := run * option (spot * locals).
  Record optimizer := mkOptimizer { o_attributes : attributes; o_runs : list generator }.
  Definition made : optimizer := mkOptimizer fresh [].
  Fixpoint put (i : nat) (g : generator) (l : list generator) : list generator :=
    match l, i with
    | [], _ => []
    | _ :: l', 0 => g :: l'
    | g' :: l', S i' => g' :: put i' g l'
    end.

  (** What happens in a program that uses the optimizer. *)
  Inductive event :=
  | Called (c : call)                   (* a run calls the score function *)
  | Made (k : run)                      (* a run is requested *)
  | Gave (i : nat) (x : X)              (* run [i] is resumed and yields [x] *)
  | Returned (i : nat)
  | Failed (i : nat) (e : exn)
  | Cut (i : nat) (p : spot).           (* run [i] is interrupted before statement [p] *)

  (** Every history: in every order, with any change of the world between two
      events. *)
  Inductive history : optimizer -> list event -> optimizer -> Prop :=
  | history_nil : forall o, history o [] o
  | history_made : forall t l r h o,
      history (mkOptimizer t (l ++ [(r, Some (Begin, locals_of (r_kind r)))])) h o ->
      history (mkOptimizer t l) (Made r :: h) o
  | history_gave : forall t l i r p v n fuel w x p1 v1 t1 w1 c h o,
      nth_error l i = Some (r, Some (p, v)) -> statements n fuel r p v t w = (Pause x p1 v1, t1, w1, c) ->
      history (mkOptimizer t1 (put i (r, Some (p1, v1)) l)) h o ->
      history (mkOptimizer t l) (map Called c ++ Gave i x :: h) o
  | history_returned : forall t l i r p v n fuel w t1 w1 c h o,
      nth_error l i = Some (r, Some (p, v)) -> statements n fuel r p v t w = (Stop, t1, w1, c) ->
      history (mkOptimizer t1 (put i (r, None) l)) h o ->
      history (mkOptimizer t l) (map Called c ++ Returned i :: h) o
  | history_failed : forall t l i r p v n fuel w e t1 w1 c h o,
      nth_error l i = Some (r, Some (p, v)) -> statements n fuel r p v t w = (Throw e, t1, w1, c) ->
      history (mkOptimizer t1 (put i (r, None) l)) h o ->
      history (mkOptimizer t l) (map Called c ++ Failed i e :: h) o
  | history_cut : forall t l i r p v n fuel w p1 v1 t1 w1 c h o,
      nth_error l i = Some (r, Some (p, v)) -> statements n fuel r p v t w = (Go p1 v1, t1, w1, c) ->
      history (mkOptimizer t1 (put i (r, None) l)) h o ->
      history (mkOptimizer t l) (map Called c ++ Cut i p1 :: h) o.
End Runs.
Arguments attributes : clear implicits.
Arguments run : clear implicits.
Arguments spot : clear implicits.
Arguments optimizer : clear implicits.
Arguments event : clear implicits.
Arguments generator : clear implicits.
