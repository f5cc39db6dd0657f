(** Model of /repo/gerrychain/chain.py:166-196 ([__next__]) statement by
    statement, so that an execution can be cut short anywhere: by Ctrl-C
    (KeyboardInterrupt), a signal handler that raises, or a time limit.  The
    chain object survives such an exception and [next] can be called again.

    Simplification: one statement is one step; an interrupt inside a callback
    (proposal, constraint, acceptance function) is an interrupt before the
    statement that calls it, together with an arbitrary change of the world. *)
From Coq Require Import List Bool Arith ZArith.
From Verif Require Import Base M_Constraints M_Chain.
Import ListNotations.
Local Open Scope list_scope.

Section Interrupt.
  Context {X W : Type}.
  Variable proposal : X -> W -> res X * W.
  Variable accept : X -> W -> res pyval * W.
  Variable erase : X -> W -> W.

  (** Where [__next__] stands, and its local variable [proposed_next_state]. *)
  Inductive point :=
  | Enter                   (* chain.py:181 if self.counter == 0 *)
  | Initial                 (* chain.py:182 self.counter += 1 *)
  | Test                    (* chain.py:185 while self.counter < self.total_steps *)
  | Propose                 (* chain.py:186 the call of the proposal *)
  | Erase (y : X)           (* chain.py:188-189 self.state.parent = None *)
  | Validate (y : X)        (* chain.py:191 if self.is_valid(...) *)
  | Decide (y : X)          (* chain.py:192 if self.accept(...) *)
  | Move (y : X)            (* chain.py:193 self.state = proposed_next_state *)
  | Count                   (* chain.py:194 self.counter += 1 *)
  | Return.                 (* chain.py:183 and 195 return self.state *)

  Inductive outcome :=
  | Running (p : point) (ch : chain X W) (w : W)
  | Done (r : res X) (ch : chain X W) (w : W).

  Definition with_state (ch : chain X W) (x : X) : chain X W :=
    mkChain (ch_valid ch) (ch_total ch) (ch_initial ch) x (ch_counter ch).
  Definition with_counter (ch : chain X W) (k : Z) : chain X W :=
    mkChain (ch_valid ch) (ch_total ch) (ch_initial ch) (ch_state ch) (Some k).

  (** chain.py:181-196, one statement.  Before the first [iter] there is no
      attribute [counter]. *)
  Definition statement (p : point) (ch : chain X W) (w : W) : outcome :=
    match p with
    | Enter =>
      match ch_counter ch with
      | None => Done (Err AttributeError) ch w
      | Some k => Running (if (k =? 0)%Z then Initial else Test) ch w
      end
    | Initial | Count =>
      match ch_counter ch with
      | None => Done (Err AttributeError) ch w
      | Some k => Running Return (with_counter ch (k + 1)) w
      end
    | Test =>
      match ch_counter ch with
      | None => Done (Err AttributeError) ch w
      | Some k =>
        if (k <? ch_total ch)%Z then Running Propose ch w else Done (Err StopIteration) ch w
      end
    | Propose =>
      match proposal (ch_state ch) w with
      | (Ok y, w1) => Running (Erase y) ch w1
      | (Err e, w1) => Done (Err e) ch w1
      | (NoFuel, w1) => Done NoFuel ch w1
      end
    | Erase y => Running (Validate y) ch (erase (ch_state ch) w)
    | Validate y =>
      match validator (ch_valid ch) y w with
      | (Ok b, w1, i) => Running (if b then Decide y else Test) (with_valid ch i) w1
      | (Err e, w1, i) => Done (Err e) (with_valid ch i) w1
      | (NoFuel, w1, i) => Done NoFuel (with_valid ch i) w1
      end
    | Decide y =>
      match accept y w with
      | (Ok v, w1) => Running (if truthy v then Move y else Count) ch w1
      | (Err e, w1) => Done (Err e) ch w1
      | (NoFuel, w1) => Done NoFuel ch w1
      end
    | Move y => Running Count (with_state ch y) w
    | Return => Done (Ok (ch_state ch)) ch w
    end.

  (** [n] statements, or fewer if the call ends before. *)
  Fixpoint statements (n : nat) (p : point) (ch : chain X W) (w : W) : outcome :=
    match n with
    | 0 => Running p ch w
    | S n' =>
      match statement p ch w with
      | Running p' ch' w' => statements n' p' ch' w'
      | done => done
      end
    end.

  (** What happens to a chain in a program that survives exceptions.  Between
      two events, and when a call is cut, anything may happen to the world. *)
  Inductive event := Yield (x : X) | Raise (e : exn) | Cut | Restart.

  Inductive history : chain X W -> list event -> chain X W -> Prop :=
  | history_nil : forall ch, history ch [] ch
  | history_yield : forall ch w n x ch1 w1 l ch2,
      statements n Enter ch w = Done (Ok x) ch1 w1 -> history ch1 l ch2 ->
      history ch (Yield x :: l) ch2
  | history_raise : forall ch w n e ch1 w1 l ch2,
      statements n Enter ch w = Done (Err e) ch1 w1 -> history ch1 l ch2 ->
      history ch (Raise e :: l) ch2
  | history_cut : forall ch w n p ch1 w1 l ch2,
      statements n Enter ch w = Running p ch1 w1 -> history ch1 l ch2 ->
      history ch (Cut :: l) ch2
  | history_restart : forall ch l ch2,
      history (iter ch) l ch2 -> history ch (Restart :: l) ch2.

  Definition is_yield (e : event) : bool := match e with Yield _ => true | _ => false end.
  Definition is_cut (e : event) : bool := match e with Cut => true | _ => false end.
  Definition is_restart (e : event) : bool := match e with Restart => true | _ => false end.
  Definition count_of (f : event -> bool) (l : list event) : Z :=
    Z.of_nat (List.length (filter f l)).
End Interrupt.
Arguments event : clear implicits.
Arguments outcome : clear implicits.
Arguments point : clear implicits.
