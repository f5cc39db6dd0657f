(** Model of Assignment, flows and the construction of plans.

    Python exceptions are [Err]; frozensets are duplicate-free lists. *)
From Coq Require Import List Bool Arith.
From Verif Require Import Base M_Graph.
Import ListNotations.

Section Assignment.
  Context {N P : Type} {EN : EqB N} {EP : EqB P}.

  (** /repo/gerrychain/partition/assignment.py:8-55, slots [parts], [mapping] *)
  Record assignment := mkAssignment {
    a_parts : dict P (list N);
    a_map : dict N P
  }.

  (** assignment.py:194-220 level_sets (container = set) *)
  Definition level_sets (d : dict N P) : dict P (list N) :=
    fold_left (fun sets kv =>
      dset sets (snd kv) (sadd (fst kv) (dget_or [] sets (snd kv)))) d [].

  (** assignment.py:50-53: mapping rebuilt from the parts *)
  Definition mapping_of_parts (parts : dict P (list N)) : dict N P :=
    fold_left (fun m pn => fold_left (fun m n => dset m n (fst pn)) (snd pn) m) parts [].

  (** assignment.py:41 and 63-64: total number of keys *)
  Definition parts_len (parts : dict P (list N)) : nat :=
    list_sum (map (fun pn => List.length (snd pn)) parts).

  (** assignment.py:23-55 Assignment.__init__ with validate=True and
      mapping=None.  The isinstance check on frozensets is not modelled: the
      model has one kind of set. *)
  Definition assignment_init (parts : dict P (list N)) : res assignment :=
    if Nat.eqb (parts_len parts) (List.length (set_of (concat (dvals parts))))
    then Ok (mkAssignment parts (mapping_of_parts parts))
    else Err ValueError.

  (** assignment.py:134-151 from_dict *)
  Definition from_dict (d : dict N P) : res assignment := assignment_init (level_sets d).

  (** updaters/flows.py:22-23 create_flow *)
  Record flow (X : Type) := mkFlow { f_in : list X; f_out : list X }.
  Definition create_flow {X} : flow X := mkFlow X [] [].

  (** [flows[p]["in"].add(x)] and [flows[p]["out"].add(x)] on a
      defaultdict(create_flow) *)
  Definition add_in {X} {EX : EqB X} (p : P) (x : X) (fl : dict P (flow X)) :=
    let f := dget_or create_flow fl p in
    dset fl p (mkFlow X (sadd x (f_in X f)) (f_out X f)).
  Definition add_out {X} {EX : EqB X} (p : P) (x : X) (fl : dict P (flow X)) :=
    let f := dget_or create_flow fl p in
    dset fl p (mkFlow X (f_in X f) (sadd x (f_out X f))).

  (** updaters/flows.py:26-45 flows_from_changes; the lru_cache is
      transparent because flips and assignments of a plan never change. *)
  Definition flow_step (old : dict N P) (fl : dict P (flow N)) (nt : N * P)
    : res (dict P (flow N)) :=
    source <- of_option KeyError (dget old (fst nt)) ;;
    if eqb source (snd nt) then Ok fl
    else Ok (add_out source (fst nt) (add_in (snd nt) (fst nt) fl)).
  Definition flows_from_changes (old : dict N P) (flips : dict N P)
    : res (dict P (flow N)) := foldM (flow_step old) flips [].

  (** assignment.py:76-86 update_flows *)
  Definition update_flow_step (a : assignment) (pf : P * flow N) : res assignment :=
    cur <- of_option KeyError (dget (a_parts a) (fst pf)) ;;
    Ok (mkAssignment
          (dset (a_parts a) (fst pf) (sunion (sdiff cur (f_out N (snd pf))) (f_in N (snd pf))))
          (fold_left (fun m n => dset m n (fst pf)) (f_in N (snd pf)) (a_map a))).
  Definition update_flows (a : assignment) (flows : dict P (flow N)) : res assignment :=
    foldM update_flow_step flows a.

  (** partition/partition.py:160-163: the assignment of a flipped plan.  The
      copy (assignment.py:69-74) is implicit: model values are immutable. *)
  Definition flip_assignment (a : assignment) (flips : dict N P) : res assignment :=
    fl <- flows_from_changes (a_map a) flips ;; update_flows a fl.

  (** partition/partition.py:187-195 crosses_parts *)
  Definition crosses_parts (m : dict N P) (e : N * N) : res bool :=
    a <- of_option KeyError (dget m (fst e)) ;;
    b <- of_option KeyError (dget m (snd e)) ;;
    Ok (negb (eqb a b)).

  (** partition/partition.py:133-136: the check of _first_time *)
  Definition first_time_assignment (g : graph N) (d : dict N P) : res assignment :=
    a <- from_dict d ;;
    if seteqb (dkeys (a_map a)) (g_nodes g) then Ok a else Err KeyError.

  Context {ON : Ord N}.

  (** [tuple(sorted((u, v)))] *)
  Definition sort2 (e : N * N) : N * N :=
    if leb (fst e) (snd e) then e else (snd e, fst e).

  (** updaters/flows.py:6-19 neighbor_flips *)
  Definition neighbor_flips (g : graph N) (flips : dict N P) : list (N * N) :=
    set_of (flat_map (fun node => map (fun nb => sort2 (node, nb)) (neighbors g node))
                     (dkeys flips)).

  (** updaters/flows.py:109-154 compute_edge_flows *)
  Definition edge_flow_step (old new : dict N P) (fl : dict P (flow (N * N)))
             (e : N * N) : res (dict P (flow (N * N))) :=
    old_source <- of_option KeyError (dget old (fst e)) ;;
    old_target <- of_option KeyError (dget old (snd e)) ;;
    new_source <- of_option KeyError (dget new (fst e)) ;;
    new_target <- of_option KeyError (dget new (snd e)) ;;
    let cut := negb (eqb new_source new_target) in
    let was_cut := negb (eqb old_source old_target) in
    if negb cut && was_cut then
      Ok (add_out old_source e (add_out old_target e fl))
    else if cut && negb was_cut then
      Ok (add_in new_source e (add_in new_target e fl))
    else if cut && was_cut then
      let no_longer := sdiff (set_of [old_target; old_source]) [new_target; new_source] in
      let newly := sdiff (set_of [new_target; new_source]) [old_target; old_source] in
      let fl1 := fold_left (fun fl p => add_out p e fl) no_longer fl in
      Ok (fold_left (fun fl p => add_in p e fl) newly fl1)
    else Ok fl.
  Definition compute_edge_flows (g : graph N) (old new flips : dict N P)
    : res (dict P (flow (N * N))) :=
    foldM (edge_flow_step old new) (neighbor_flips g flips) [].
End Assignment.
Arguments assignment : clear implicits.
Arguments mkAssignment {N P}.
Arguments mkFlow {X}. Arguments f_in {X}. Arguments f_out {X}.
