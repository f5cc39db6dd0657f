(** Model of updaters that a user writes with the decorators on_flow and
    on_edge_flow of /repo/gerrychain/updaters/flows.py.

    The updater is registered under one name; the user's functions are arguments
    and return values or raise.  They are taken to be pure: a function that
    changes [previous] in place is not modelled. *)
From Coq Require Import String List Bool Arith.
From Verif Require Import Base M_Graph M_Partition.
Import ListNotations.
Local Open Scope list_scope.

Section UserFlow.
  Context {N P X : Type} {EN : EqB N} {EP : EqB P} {ON : Ord N}.
  Variable g : graph N.
  (** partition/partition.py:29-38: the slots that matter here.  [u_eflows] is
      None when the slot was never set; [u_cache] is the entry of the updater. *)
  Record uobj := mkUobj {
    u_assign : assignment N P;
    u_parent : option nat;
    u_flows : dict P (flow N);
    u_eflows : option (dict P (flow (N * N)));
    u_cache : option (dict P X)
  }.
  Definition uheap : Type := list uobj.
  Fixpoint put (h : uheap) (a : nat) (o : uobj) : uheap :=
    match h, a with
    | [], _ => []
    | _ :: r, 0 => o :: r
    | x :: r, S a => x :: put r a o
    end.

  (** partition.py:148-151 *)
  Definition uroot (A : assignment N P) : uobj := mkUobj A None [] None None.
  (** partition.py:153-166; [cuts] says whether "cut_edges" is an updater *)
  Definition uflip (cuts : bool) (h : uheap) (a : nat) (flips : dict N P) : res uheap :=
    o <- of_option IndexError (nth_error h a) ;;
    fl <- flows_from_changes (a_map (u_assign o)) flips ;;
    A <- update_flows (u_assign o) fl ;;
    ef <- (if cuts then e <- compute_edge_flows g (a_map (u_assign o)) (a_map A) flips ;; Ok (Some e) else Ok None) ;;
    Ok (h ++ [mkUobj A (Some a) fl ef None]).
  (** chain.py:187-189 *)
  Definition uerase (h : uheap) (a : nat) : uheap :=
    match nth_error h a with
    | Some o => put h a (mkUobj (u_assign o) None (u_flows o) (u_eflows o) (u_cache o))
    | None => h
    end.

  (** flows.py:95-100 and 203-211: the function is called for the parts that have
      a flow; the result is a copy of the previous values with those replaced *)
  Definition replaced {Y} (f : assignment N P -> X -> list Y -> list Y -> res X) (A : assignment N P)
             (flows : dict P (flow Y)) (previous : dict P X) : res (dict P X) :=
    foldM (fun d pf =>
             x <- (pv <- of_option KeyError (dget previous (fst pf)) ;; f A pv (f_in (snd pf)) (f_out (snd pf))) ;;
             Ok (dset d (fst pf) x)) flows previous.
  (** flows.py:86-104 on_flow *)
  Definition on_flow (f : assignment N P -> X -> list N -> list N -> res X) (o : uobj) (previous : dict P X) : res (dict P X) :=
    replaced f (u_assign o) (u_flows o) previous.
  (** flows.py:195-213 on_edge_flow; an unset slot is looked up among the updaters
      (partition.py:212-213) and raises KeyError.  In the code this comes before
      the previous values are read; here after. *)
  Definition on_edge_flow (f : assignment N P -> X -> list (N * N) -> list (N * N) -> res X) (o : uobj) (previous : dict P X) : res (dict P X) :=
    ef <- of_option KeyError (u_eflows o) ;;
    replaced f (u_assign o) ef previous.

  Section Read.
    Variables (key alias : string) (init : assignment N P -> res (dict P X)) (update : uobj -> dict P X -> res (dict P X)).
    (** on_flow asks [partition.parent is None] (flows.py:89), on_edge_flow asks
        [not partition.parent] (flows.py:198), which is also true of a parent
        without parts (partition.py:173-174) *)
    Variable by_truth : bool.
    Definition parent_of (h : uheap) (o : uobj) : option nat :=
      match u_parent o with
      | Some p =>
        match nth_error h p with
        | Some q => if by_truth && Nat.eqb (List.length (a_parts (u_assign q))) 0 then None else Some p
        | None => Some p
        end
      | None => None
      end.
    (** partition.py:197-210 __getitem__ with the updater registered as [key] and
        no updater called [alias] unless it is the same name; the previous values
        are [partition.parent[alias]] (flows.py:93 and 201) *)
    Fixpoint uread (fuel : nat) (h : uheap) (a : nat) : res (dict P X) * uheap :=
      match fuel with
      | 0 => (NoFuel, h)
      | S fuel =>
        match nth_error h a with
        | None => (Err IndexError, h)
        | Some o =>
          match u_cache o with
          | Some d => (Ok d, h)
          | None =>
            let '(r, h') :=
              match parent_of h o with
              | None => (init (u_assign o), h)
              | Some p =>
                if String.eqb alias key
                then let '(r, h') := uread fuel h p in (previous <- r ;; update o previous, h')
                else (Err KeyError, h)
              end in
            match r with
            | Ok d => (Ok d, put h' a (mkUobj (u_assign o) (u_parent o) (u_flows o) (u_eflows o) (Some d)))
            | Err e => (Err e, h')
            | NoFuel => (NoFuel, h')
            end
          end
        end
      end.
  End Read.
End UserFlow.
Arguments uobj : clear implicits.
Arguments uheap : clear implicits.
