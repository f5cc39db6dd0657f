(** Reads that are cut short: KeyboardInterrupt (or a signal handler that
    raises) can hit at any moment while [partition[k]] is being computed.
    What matters afterwards is which changes to existing objects had already
    been made.  The computations of M_Machine.v change existing objects in two
    ways only: a nested read stores its value in a plan's cache
    (partition/partition.py:208-210), and looking up a missing label in a
    defaultdict inserts it. *)
From Coq Require Import String List Bool Arith.
From Verif Require Import Base M_Graph M_Partition M_Machine.
Import ListNotations.
Local Open Scope string_scope.

Section Abort.
  Context {N P V L : Type} {EN : EqB N} {EP : EqB P} {EL : EqB L} {ON : Ord N} {RV : CRing V}.
  Variable E : env N P V L.

  (** One change an updater makes while it runs: a nested read or a look-up. *)
  Inductive effect :=
  | FGet (a : nat) (k : string)
  | FLook (a : nat) (k : string) (p : P).

  (** [bool(partition.parent)]: partition/partition.py:173-174 *)
  Definition parent_if_true (o : pobj N P V L) (h : heap N P V L) : option nat :=
    match o_parent o with
    | None => None
    | Some q => match nth_error h q with
                | None => None
                | Some po => match a_parts (o_assign po) with [] => None | _ => Some q end
                end
    end.

  (** The changes made by one run of updater [u] on plan [a], in the order of
      the program text.  Reads inside loops appear once per turn of the loop
      (M_Machine.v's [run] hoists them), so that every moment between two
      changes is a point of this list.  Everything else an updater does works
      on objects it has created itself and that are lost with it. *)
  Definition effects (a : nat) (o : pobj N P V L) (u : updater N P V L) (h : heap N P V L)
    : list effect :=
    match u with
    | UCutEdges => (* updaters/cut_edges.py:99-120 *)
      match parent_if_true o h with None => [] | Some q => [FGet q "cut_edges"] end
    | UCutEdgesByPart => (* flows.py:197-211 *)
      match parent_if_true o h, o_eflows o with
      | Some q, Some ef => FGet q "cut_edges_by_part" ::
                           map (FLook q "cut_edges_by_part") (dkeys ef)
      | _, _ => []
      end
    | UTally _ alias | UDataTally _ alias | UElection _ alias =>
      (* tally.py:155-157, flows.py:92-93, election.py:143-146 *)
      match o_parent o with None => [] | Some q => [FGet q alias] end
    | UBoundaryNodes => (* compactness.py:19-20 *)
      match parent_if_true o h with None => [] | Some q => [FGet q "boundary_nodes"] end
    | UExteriorSet => (* compactness.py:37-39 and 66-67 through flows.py:88-102 *)
      match o_parent o with
      | None => [FGet a "boundary_nodes"]
      | Some q => FGet q "exterior_boundaries_as_a_set" ::
          flat_map (fun p => [FLook q "exterior_boundaries_as_a_set" p; FGet a "boundary_nodes"])
                   (dkeys (o_flows o))
      end
    | UExterior => (* compactness.py:79-84 and 108-117 through flows.py:88-102 *)
      match o_parent o with
      | None => [FGet a "boundary_nodes"]
      | Some q => FGet q "exterior_boundaries" ::
          flat_map (fun p => [FLook q "exterior_boundaries" p; FGet a "boundary_nodes"])
                   (dkeys (o_flows o))
      end
    | UInterior => (* compactness.py:129-135 and flows.py:197-211 *)
      match parent_if_true o h with
      | None => flat_map (fun p => [FGet a "cut_edges_by_part"; FLook a "cut_edges_by_part" p])
                         (dkeys (a_parts (o_assign o)))
      | Some q => FGet q "interior_boundaries" ::
          match o_eflows o with
          | Some ef => map (FLook q "interior_boundaries") (dkeys ef)
          | None => []
          end
      end
    | UPerimeter => (* compactness.py:200-203 and 214 *)
      flat_map (fun p => [FGet a "exterior_boundaries"; FLook a "exterior_boundaries" p;
                          FGet a "interior_boundaries"; FLook a "interior_boundaries" p])
               (dkeys (a_parts (o_assign o)))
    | UCounty _ alias => (* county_splits.py:101-104 *)
      match parent_if_true o h with None => [] | Some q => [FGet q alias] end
    | UFlips | UFun _ => []
    end.

  (** The changes of a list, one after the other; a nested read that raises
      ends them.  The first component says whether all of them happened. *)
  Fixpoint perform (es : list effect) (h : heap N P V L) : bool * heap N P V L :=
    match es with
    | [] => (true, h)
    | FGet a k :: es =>
      match read E a k h with
      | (Ok _, h') => perform es h'
      | (_, h') => (false, h')
      end
    | FLook a k p :: es => perform es (look E a k p h)
    end.

  (** [aborted m a k h] is the memory left when the read of updater [k] of
      plan [a] (partition/partition.py:197-210) is cut short at moment [m].
      A moment is a list of numbers, one for each level of nesting: the first
      says how many changes the updater of [a] has completed, the rest is the
      moment inside the nested read it is busy with.  The empty list is the
      moment before anything happened. *)
  Fixpoint aborted (m : list nat) (a : nat) (k : string) (h : heap N P V L) : heap N P V L :=
    match m with
    | [] => h
    | n :: m' =>
      match nth_error h a with
      | None => h
      | Some o =>
        match dget (o_cache o) k with
        | Some _ => h
        | None =>
          match dget (e_updaters E) k with
          | None => h
          | Some u =>
            let es := effects a o u h in
            match perform (firstn n es) h with
            | (false, h') => h'
            | (true, h') =>
              match nth_error es n with
              | Some (FGet b k') => aborted m' b k' h'
              | _ => h'
              end
            end
          end
        end
      end
    end.

  (** A session in which some reads are cut short, and the caller goes on. *)
  Inductive event :=
  | Does (x : op N P)
  | CutShort (m : list nat) (a : nat) (k : string).
  Definition happen (h : heap N P V L) (x : event) : heap N P V L :=
    match x with
    | Does x => step E h x
    | CutShort m a k => aborted m a k h
    end.
  Definition live (xs : list event) (h : heap N P V L) : heap N P V L := fold_left happen xs h.
End Abort.
Arguments effect : clear implicits.
Arguments event : clear implicits.
