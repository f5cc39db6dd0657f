(** Model of /repo/gerrychain/optimization/optimization.py
    (SingleMetricOptimizer) on the chains of M_Chain.v: the runs and the tilted
    acceptance function.  The annealing acceptance function and the temperature
    schedules are in M_Anneal.v.

    The score is an arbitrary computation that may raise and change the world.
    Its values are compared by a total preorder; NaN is not modelled.  The
    generators are run by a consumer: [user x w] is what the consumer does
    between receiving [x] and asking for the next plan.  The progress bar is not
    modelled. *)
From Coq Require Import List Bool Arith ZArith QArith.
From Verif Require Import Base M_Constraints M_Chain M_Election.
Import ListNotations.
Local Open Scope nat_scope.
Local Open Scope list_scope.

(** What a generator raises when its body raises [e] (PEP 479). *)
Definition gen_exn (e : exn) : exn := match e with StopIteration => RuntimeError | e => e end.

(** Comparable scores: [sle s t] is [s <= t] and [t >= s]. *)
Class Scores (V : Type) := {
  sle : V -> V -> bool;
  sle_total : forall s t, sle s t = true \/ sle t s = true;
  sle_trans : forall s t u, sle s t = true -> sle t u = true -> sle s u = true
}.
#[global] Program Instance Scores_Q : Scores Q := {| sle := Qle_bool |}.
Next Obligation. destruct (Qlt_le_dec s t) as [H|H]; [left|right]; apply Qle_bool_iff; auto using Qlt_le_weak. Qed.
Next Obligation. rewrite Qle_bool_iff in *. eapply Qle_trans; eauto. Qed.

Section Optimizer.
  Context {X W V : Type} {SV : Scores V}.
  Variable proposal : X -> W -> res X * W.
  Variable accept : X -> W -> res pyval * W.
  Variable erase : X -> W -> W.
  Variable named : constraint X W -> bool.
  Variable score : X -> W -> res V * W.
  Variable maximize : bool.

  (** optimization.py:114-130 *)
  Definition is_improvement (new old : V) : bool := if maximize then sle old new else sle new old.

  (** The state of a run: _best_part, _best_score and the local variables
      time_stuck and i of variable_length_short_bursts. *)
  Record progress := mkProgress { p_best : X; p_score : V; p_stuck : nat; p_i : nat }.
  (** One yield: the plan, the world and what best_part and best_score return
      at that moment, and the score the plan gets when the run is resumed
      ([None] if scoring it raises). *)
  Record point := mkPoint { y_plan : X; y_world : W; y_best : X; y_score : V; y_scored : option V }.

  (** optimization.py:421-425, 470-473, 603-607: [self._is_improvement(...)] *)
  Definition keep_best (p : progress) (x : X) (s : V) : progress * bool :=
    (if is_improvement s (p_score p) then mkProgress x s (p_stuck p) (p_i p) else p, false).
  (** optimization.py:557-567; [true] is [break] *)
  Definition keep_count (num_steps : nat) (p : progress) (x : X) (s : V) : progress * bool :=
    let p1 := if is_improvement s (p_score p) then mkProgress x s 0 (p_i p)
              else mkProgress (p_best p) (p_score p) (S (p_stuck p)) (p_i p) in
    let p2 := mkProgress (p_best p1) (p_score p1) (p_stuck p1) (S (p_i p1)) in
    (p2, Nat.leb num_steps (p_i p2)).

  (** optimization.py:419-425, 468-473, 555-567, 601-607: the loop over a chain,
      after iter(); [n] bounds the number of plans and [fuel] the number of
      proposals per plan *)
  Fixpoint drive (n fuel : nat) (user : X -> W -> W) (process : progress -> X -> V -> progress * bool)
           (ch : chain X W) (p : progress) (w : W)
    : list point * ending * progress * chain X W * W :=
    match n with
    | 0 => ([], Unbounded, p, ch, w)
    | S n' =>
      match next proposal accept erase fuel ch w with
      | (Ok x, ch1, w1) =>
        match score x (user x w1) with
        | (Ok s, w2) =>
          let pt := mkPoint x w1 (p_best p) (p_score p) (Some s) in
          let '(p1, stop) := process p x s in
          if stop then ([pt], Finished, p1, ch1, w2)
          else
            let '(ys, en, p2, ch2, w3) := drive n' fuel user process ch1 p1 w2 in
            (pt :: ys, en, p2, ch2, w3)
        | (Err e, w2) => ([mkPoint x w1 (p_best p) (p_score p) None], Raised (gen_exn e), p, ch1, w2)
        | (NoFuel, w2) => ([mkPoint x w1 (p_best p) (p_score p) None], Unbounded, p, ch1, w2)
        end
      | (Err StopIteration, ch1, w1) => ([], Finished, p, ch1, w1)
      | (Err e, ch1, w1) => ([], Raised e, p, ch1, w1)
      | (NoFuel, ch1, w1) => ([], Unbounded, p, ch1, w1)
      end
    end.

  (** A chain is made from the optimizer's constraints and the best plan, then
      run.  If the constraints are an iterator, the chain's Validator goes on
      reading the same iterator: the next chain gets what is left of it. *)
  Definition left_over (a : constraints_arg X W) (ch : chain X W) : constraints_arg X W :=
    match a with Callable c => Callable c | Collection _ => Collection (ch_valid ch) end.
  Definition burst (n fuel : nat) (user : X -> W -> W) (process : progress -> X -> V -> progress * bool)
             (a : constraints_arg X W) (len : nat) (p : progress) (w : W)
    : list point * ending * progress * constraints_arg X W * W :=
    match construct named a (p_best p) (Z.of_nat len) w with
    | (Ok ch, w1) =>
      let '(ys, en, p1, ch1, w2) := drive n fuel user process (iter ch) p w1 in
      (ys, en, p1, left_over a ch1, w2)
    | (Err e, w1) => ([], Raised (gen_exn e), p, a, w1)
    | (NoFuel, w1) => ([], Unbounded, p, a, w1)
    end.

  (** optimization.py:414-425 *)
  Fixpoint bursts (k n fuel : nat) (user : X -> W -> W) (a : constraints_arg X W) (len : nat) (p : progress) (w : W)
    : list point * ending * progress * W :=
    match k with
    | 0 => ([], Finished, p, w)
    | S k' =>
      match burst n fuel user keep_best a len p w with
      | (ys, Finished, p1, a1, w1) =>
        let '(zs, en, p2, w2) := bursts k' n fuel user a1 len p1 w1 in (ys ++ zs, en, p2, w2)
      | (ys, en, p1, _, w1) => (ys, en, p1, w1)
      end
    end.
  (** optimization.py:411-412, 463-464, 545-546 and 596-597: the initial plan is
      scored first *)
  Definition started {R} (initial : X) (w : W) (fail : ending -> W -> R) (run : progress -> W -> R) : R :=
    match score initial w with
    | (Ok s, w1) => run (mkProgress initial s 0 0) w1
    | (Err e, w1) => fail (Raised (gen_exn e)) w1
    | (NoFuel, w1) => fail Unbounded w1
    end.
  (** optimization.py:376-425.  The result is the list of yields, the ending,
      and the final best plan and score ([None] if the initial plan could not
      be scored). *)
  Definition short_bursts (n fuel : nat) (user : X -> W -> W) (a : constraints_arg X W)
             (burst_length num_bursts : nat) (initial : X) (w : W)
    : list point * ending * option progress * W :=
    started initial w (fun en w1 => ([], en, None, w1))
      (fun p w1 => let '(ys, en, p1, w2) := bursts num_bursts n fuel user a burst_length p w1 in (ys, en, Some p1, w2)).
  (** optimization.py:427-473 and 572-607: simulated_annealing and tilted_run
      differ in the acceptance function only.  The chain is made before the
      initial plan is scored. *)
  Definition single_run (n fuel : nat) (user : X -> W -> W) (a : constraints_arg X W)
             (num_steps : nat) (initial : X) (w : W)
    : list point * ending * option progress * W :=
    match construct named a initial (Z.of_nat num_steps) w with
    | (Ok ch, w0) =>
      started initial w0 (fun en w1 => ([], en, None, w1))
        (fun p w1 => let '(ys, en, p1, _, w2) := drive n fuel user keep_best (iter ch) p w1 in (ys, en, Some p1, w2))
    | (Err e, w0) => ([], Raised (gen_exn e), None, w0)
    | (NoFuel, w0) => ([], Unbounded, None, w0)
    end.
  (** optimization.py:551-570; [k] bounds the number of bursts *)
  Fixpoint variable_loop (k n fuel : nat) (user : X -> W -> W) (a : constraints_arg X W) (num_steps stuck_buffer len : nat)
           (p : progress) (w : W) : list point * ending * progress * W :=
    if Nat.ltb (p_i p) num_steps then
      match k with
      | 0 => ([], Unbounded, p, w)
      | S k' =>
        match burst n fuel user (keep_count num_steps) a len p w with
        | (ys, Finished, p1, a1, w1) =>
          let len' := if Nat.leb (stuck_buffer * len) (p_stuck p1) then len * 2 else len in
          let '(zs, en, p2, w2) := variable_loop k' n fuel user a1 num_steps stuck_buffer len' p1 w1 in
          (ys ++ zs, en, p2, w2)
        | (ys, en, p1, _, w1) => (ys, en, p1, w1)
        end
      end
    else ([], Finished, p, w).
  (** optimization.py:509-570 *)
  Definition variable_length_short_bursts (k n fuel : nat) (user : X -> W -> W) (a : constraints_arg X W)
             (num_steps stuck_buffer : nat) (initial : X) (w : W)
    : list point * ending * option progress * W :=
    started initial w (fun en w1 => ([], en, None, w1))
      (fun p w1 => let '(ys, en, p1, w2) := variable_loop k n fuel user a num_steps stuck_buffer 2 p w1 in (ys, en, Some p1, w2)).

  (** optimization.py:132-155; [random] is random.random() *)
  Definition tilted_accept (parent : X -> W -> option X) (random : W -> Q * W) (prob : Q) (x : X) (w : W)
    : res pyval * W :=
    match parent x w with
    | None => (Ok (PBool true), w)
    | Some y =>
      match score x w with
      | (Ok s, w1) =>
        match score y w1 with
        | (Ok t, w2) =>
          if is_improvement s t then (Ok (PBool true), w2)
          else let (u, w3) := random w2 in (Ok (PBool (qlt u prob)), w3)
        | (Err e, w2) => (Err e, w2)
        | (NoFuel, w2) => (NoFuel, w2)
        end
      | (Err e, w1) => (Err e, w1)
      | (NoFuel, w1) => (NoFuel, w1)
      end
    end.
End Optimizer.

(** optimization.py:475-506 and 572-607: the tilted runs are the plain runs with
    the tilted acceptance function, whatever acceptance function the optimizer
    was given. *)
Section Tilted.
  Context {X W V : Type} {SV : Scores V}.
  Variable proposal : X -> W -> res X * W.
  Variable erase : X -> W -> W.
  Variable named : constraint X W -> bool.
  Variable score : X -> W -> res V * W.
  Variable maximize : bool.
  Variable parent : X -> W -> option X.
  Variable random : W -> Q * W.
  Definition tilted_short_bursts (prob : Q) (n fuel : nat) (user : X -> W -> W) (a : constraints_arg X W)
             (burst_length num_bursts : nat) (initial : X) (w : W) :=
    short_bursts proposal (tilted_accept score maximize parent random prob) erase named score maximize
      n fuel user a burst_length num_bursts initial w.
  Definition tilted_run (prob : Q) (n fuel : nat) (user : X -> W -> W) (a : constraints_arg X W)
             (num_steps : nat) (initial : X) (w : W) :=
    single_run proposal (tilted_accept score maximize parent random prob) erase named score maximize
      n fuel user a num_steps initial w.
End Tilted.
