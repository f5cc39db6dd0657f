(** Model of a DataTally object used on plans over several graphs,
    /repo/gerrychain/updaters/tally.py:10-66.  An Election
    (updaters/election.py:68-109) holds one such object per party.

    Simplifications: as in M_Machine (numbers of a commutative ring or NaN).
    The value of the parent plan is an argument of a child's call; in the code
    it is read from the parent (updaters/flows.py:89-93) before the column is
    used. *)
From Coq Require Import String List Bool Arith.
From Verif Require Import Base M_Graph M_Partition M_Machine.
Import ListNotations.

Section DataTally.
  Context {N P V : Type} {EN : EqB N} {EP : EqB P} {RV : CRing V}.

  (** tally.py:34 self.data: a node attribute's name or a dictionary of numbers. *)
  Inductive column := Named (attribute : string) | Given (data : dict N (num V)).

  (** A plan: its graph, the graph's node attributes and the assignment. *)
  Record tplan := mkTplan {
    tp_graph : graph N; tp_attr : string -> N -> option (num V); tp_assign : assignment N P }.

  (** flows.py:88-102: a plan without a parent, or one with a parent whose
      tally is [previous]. *)
  Inductive tcall := Fresh (q : tplan) | Child (q : tplan) (flows : dict P (flow N)) (previous : dict P (num V)).

  (** tally.py:38-41 *)
  Definition resolve (c : column) (q : tplan) : res (dict N (num V)) :=
    match c with
    | Given d => Ok d
    | Named a => mapM (fun n => x <- of_option KeyError (tp_attr q a n) ;; Ok (n, x)) (g_nodes (tp_graph q))
    end.

  (** tally.py:57-61 with a column that is still a name: every [self.data[node]]
      indexes the name.  Simplification: this is TypeError for every node (for
      an integer node Python says IndexError if the number is out of the range
      of the name, and otherwise TypeError when the letters are added). *)
  Definition unbound_step (flows : dict P (flow N)) (old : dict P (num V)) : res (dict P (num V)) :=
    foldM (fun d pf =>
      prev <- of_option KeyError (dget old (fst pf)) ;;
      _ <- mapM (fun _ : N => Err TypeError : res (num V)) (f_in (snd pf)) ;;
      _ <- mapM (fun _ : N => Err TypeError : res (num V)) (f_out (snd pf)) ;;
      Ok (dset d (fst pf) prev)) flows old.

  (** tally.py:37-66 [__call__]: the value and the new content of [self.data].
      A child's call leaves the column as it is. *)
  Definition call (c : column) (x : tcall) : res (dict P (num V)) * column :=
    match x with
    | Fresh q =>
      match resolve c q with
      | Ok d => (scratch_tally (tp_assign q) (fun n => of_option KeyError (dget d n)), Given d)
      | Err e => (Err e, c)
      | NoFuel => (NoFuel, c)
      end
    | Child q flows previous =>
      match c with
      | Given d => (data_step (fun n => dget d n) flows previous, c)
      | Named _ => (unbound_step flows previous, c)
      end
    end.

  (** Any sequence of calls; a call that raises does not end the session. *)
  Fixpoint calls (c : column) (l : list tcall) : list (res (dict P (num V))) :=
    match l with
    | [] => []
    | x :: r => let '(v, c') := call c x in v :: calls c' r
    end.
End DataTally.
Arguments column : clear implicits.
Arguments tplan : clear implicits.
Arguments tcall : clear implicits.
