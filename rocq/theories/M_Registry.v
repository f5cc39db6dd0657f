(** Model of the dictionaries of updaters: /repo/gerrychain/partition/partition.py:40,
    42-65, 122-166 and 197-210, grid.py:46-117, optimization/gingleator.py:80-88
    and optimization/optimization.py:76-80.

    Dictionaries are objects: a plan holds a reference to one, and a class holds
    a reference to its default_updaters.  An updater is an arbitrary [F] and
    [eval f p] is what it computes on plan number [p]; updaters that read other
    updaters are not modelled here (see M_Machine.v), and the checks of graph and
    assignment are left out.  The caller's own dictionary, which grid.py:110
    updates, is not an object of the model. *)
From Coq Require Import List Bool Arith.
From Verif Require Import Base.
Import ListNotations.
Local Open Scope list_scope.

Section Registry.
  Context {K F V : Type} `{EqB K}.
  Variable eval : F -> nat -> V.

  (** partition.py:197-210: the attributes [updaters] and [_cache] *)
  Record plan := mkPlan { updaters : nat; cache : dict K V }.
  (** The dictionaries; the default_updaters of class number [c] is number [c]. *)
  Record registry := mkRegistry { dicts : list (dict K F); plans : list plan }.

  Definition dict_at (w : registry) (r : nat) : dict K F := nth r (dicts w) [].
  Fixpoint put {A} (l : list A) (i : nat) (x : A) : list A :=
    match l, i with
    | [], _ => []
    | _ :: r, 0 => x :: r
    | y :: r, S i' => y :: put r i' x
    end.
  (** [self.updaters.update(us)] *)
  Definition update_at (w : registry) (r : nat) (us : dict K F) : registry :=
    mkRegistry (put (dicts w) r (dupdate (dict_at w r) us)) (plans w).
  Definition add_plan (w : registry) (r : nat) : registry := mkRegistry (dicts w) (plans w ++ [mkPlan r []]).

  (** partition.py:122-151 _first_time with 52-58: [cls(graph, assignment, us,
      use_default_updaters=use_default)] *)
  Definition construct (c : nat) (us : dict K F) (use_default : bool) (w : registry) : registry :=
    if use_default then add_plan (update_at w c us) c
    else let r := length (dicts w) in
         add_plan (update_at (mkRegistry (dicts w ++ [[]]) (plans w)) r us) r.
  (** grid.py:108-112: [updaters.update(self.default_updaters)] before
      Partition.__init__ *)
  Definition construct_grid (c : nat) (us : dict K F) (w : registry) : registry :=
    construct c (dupdate us (dict_at w c)) true w.
  (** partition.py:153-166 _from_parent *)
  Definition derive (p : nat) (w : registry) : registry :=
    match nth_error (plans w) p with None => w | Some o => add_plan w (updaters o) end.
  (** gingleator.py:80-87 [initial_state.updaters.update({name: f})] *)
  Definition register (p : nat) (k : K) (f : F) (w : registry) : registry :=
    match nth_error (plans w) p with None => w | Some o => update_at w (updaters o) [(k, f)] end.
  (** optimization.py:76-80: only if the name is free *)
  Definition register_new (p : nat) (k : K) (f : F) (w : registry) : registry :=
    match nth_error (plans w) p with
    | None => w
    | Some o => if dmem (dict_at w (updaters o)) k then w else update_at w (updaters o) [(k, f)]
    end.
  (** partition.py:197-210 __getitem__ *)
  Definition read (p : nat) (k : K) (w : registry) : res V * registry :=
    match nth_error (plans w) p with
    | None => (Err AttributeError, w)
    | Some o =>
      match dget (cache o) k with
      | Some v => (Ok v, w)
      | None =>
        match dget (dict_at w (updaters o)) k with
        | None => (Err KeyError, w)
        | Some f => (Ok (eval f p), mkRegistry (dicts w) (put (plans w) p (mkPlan (updaters o) (dset (cache o) k (eval f p)))))
        end
      end
    end.

  Inductive op :=
  | Construct (c : nat) (us : dict K F) (use_default : bool)
  | ConstructGrid (c : nat) (us : dict K F)
  | Derive (p : nat)
  | Register (p : nat) (k : K) (f : F)
  | RegisterNew (p : nat) (k : K) (f : F)
  | Read (p : nat) (k : K).
  Definition perform (w : registry) (o : op) : registry :=
    match o with
    | Construct c us b => construct c us b w
    | ConstructGrid c us => construct_grid c us w
    | Derive p => derive p w
    | Register p k f => register p k f w
    | RegisterNew p k f => register_new p k f w
    | Read p k => snd (read p k w)
    end.
  (** [classes] are the default_updaters of the classes at import time. *)
  Definition history (classes : list (dict K F)) (ops : list op) : registry := fold_left perform ops (mkRegistry classes []).
End Registry.
Arguments plan : clear implicits.
Arguments registry : clear implicits.
Arguments op : clear implicits.
