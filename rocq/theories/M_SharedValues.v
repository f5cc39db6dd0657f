(** Model of the values of updaters made with on_flow or on_edge_flow as objects: the dictionary
    of a plan holds references, and a user's function either makes a new object
    or changes the previous one in place and returns it
    (/repo/gerrychain/updaters/flows.py). *)
From Coq Require Import String List Bool Arith.
From Verif Require Import Base M_Graph M_Partition M_UserFlow.
Import ListNotations.
Local Open Scope list_scope.

Section Shared.
  Context {N P V Y : Type} {EN : EqB N} {EP : EqB P} {ON : Ord N}.
  (** The objects that values are; a reference is a position. *)
  Definition store : Type := list V.
  Fixpoint write (st : store) (r : nat) (y : V) : store :=
    match st, r with
    | [], _ => []
    | _ :: st, 0 => y :: st
    | x :: st, S r => x :: write st r y
    end.
  (** The value a dictionary of references shows for a part. *)
  Definition shows (st : store) (d : dict P nat) (p : P) : option V :=
    match dget d p with Some r => nth_error st r | None => None end.

  Variables (in_place : bool) (f : assignment N P -> V -> list Y -> list Y -> V) (init : assignment N P -> dict P V).
  (** flows.py:98-100 and 205-210: the call of the user's function *)
  Definition user_call (A : assignment N P) (r : nat) (ins outs : list Y) (st : store) : res nat * store :=
    match nth_error st r with
    | None => (Err KeyError, st)
    | Some x => if in_place then (Ok r, write st r (f A x ins outs)) else (Ok (List.length st), st ++ [f A x ins outs])
    end.
  (** flows.py:95-102 and 203-211: [d] starts as previous.copy(), which copies the dictionary
      and not the objects in it *)
  Fixpoint shared_replaced (A : assignment N P) (flows : dict P (flow Y)) (previous d : dict P nat) (st : store) : res (dict P nat) * store :=
    match flows with
    | [] => (Ok d, st)
    | (p, fl) :: rest =>
      match dget previous p with
      | None => (Err KeyError, st)
      | Some r =>
        match user_call A r (f_in fl) (f_out fl) st with
        | (Ok r', st') => shared_replaced A rest previous (dset d p r') st'
        | (Err e, st') => (Err e, st')
        | (NoFuel, st') => (NoFuel, st')
        end
      end
    end.
  (** flows.py:89-90 and 198-199: the initializer makes new objects *)
  Fixpoint allocate (d : dict P V) (st : store) : dict P nat * store :=
    match d with
    | [] => ([], st)
    | (p, x) :: d => let '(d', st') := allocate d (st ++ [x]) in ((p, List.length st) :: d', st')
    end.
  (** What came and left, by part: see [node_changes] and [edge_changes]. *)
  Variable changes : uobj N P nat -> res (dict P (flow Y)).
  Variable by_truth : bool.
  (** flows.py:86-104 and 195-213 with partition/partition.py:197-210;
      [by_truth] as in M_UserFlow.v *)
  Fixpoint shared_read (fuel : nat) (h : uheap N P nat) (st : store) (a : nat) : res (dict P nat) * uheap N P nat * store :=
    match fuel with
    | 0 => (NoFuel, h, st)
    | S fuel =>
      match nth_error h a with
      | None => (Err IndexError, h, st)
      | Some o =>
        match u_cache o with
        | Some d => (Ok d, h, st)
        | None =>
          let '(r, h', st') :=
            match parent_of by_truth h o with
            | None => let '(d, st') := allocate (init (u_assign o)) st in (Ok d, h, st')
            | Some p =>
              match shared_read fuel h st p with
              | (Ok previous, h', st') => 
                match changes o with
                | Ok fl => let '(r, st2) := shared_replaced (u_assign o) fl previous previous st' in (r, h', st2)
                | Err e => (Err e, h', st')
                | NoFuel => (NoFuel, h', st')
                end
              | (r, h', st') => (r, h', st')
              end
            end in
          match r with
          | Ok d => (Ok d, put h' a (mkUobj (u_assign o) (u_parent o) (u_flows o) (u_eflows o) (Some d)), st')
          | r => (r, h', st')
          end
        end
      end
    end.
End Shared.
(** flows.py:97 partition.flows *)
Definition node_changes {N P} (o : uobj N P nat) : res (dict P (flow N)) := Ok (u_flows o).
(** flows.py:200 partition.edge_flows *)
Definition edge_changes {N P} (o : uobj N P nat) : res (dict P (flow (N * N))) := of_option KeyError (u_eflows o).
Arguments store : clear implicits.
