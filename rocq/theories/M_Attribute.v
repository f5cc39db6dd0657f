(** Attribute access on plans: partition/partition.py:28-38 (__slots__), 42-65
    (__init__), 122-166 (_first_time, _from_parent), 197-220 (__getitem__,
    __getattr__, the property parts), with Python's rules for attributes. *)
From Coq Require Import String List Bool Arith.
From Verif Require Import Base.
Import ListNotations.
Local Open Scope string_scope.
Local Open Scope list_scope.

Section Attribute.
  (** Values; [parts_of a] is the attribute parts of the assignment [a];
      [call u k] is what updater [u] gives when it is called after [k]
      other calls (updaters may be random, and may raise).  What an updater
      reads from the plan, and stores in its cache, is not modelled here: see
      M_Machine.v. *)
  Context (V : Type) (parts_of : V -> V) (call : nat -> nat -> res V).
  (** Names that the class object defines, such as __reduce_ex__ *)
  Context (inherited : list string).

  (** partition.py:28-38 *)
  Definition plain_slots : list string := ["graph"; "subgraphs"; "assignment"; "parent"; "flips"; "flows"; "edge_flows"].
  (** The names in the body of the class that are not slots or properties *)
  Definition class_names : list string :=
    ["default_updaters"; "__slots__"; "__init__"; "from_random_assignment"; "_first_time"; "_from_parent"; "__repr__"; "__len__"; "flip"; "crosses_parts";
     "__getitem__"; "__getattr__"; "keys"; "plot"; "from_districtr_file"] ++ inherited.

  (** A plan: the slots that are set, among them the updaters by name and the
      cache; [ob_dict] are the attributes that a subclass without slots allows
      to be set; [ob_calls] counts the calls of updaters. *)
  Record pobj := mkObj { ob_slots : dict string V; ob_updaters : option (dict string nat); ob_cache : option (dict string V); ob_dict : dict string V; ob_calls : nat }.
  (** What an attribute gives: a value, the cache, the updaters, or something
      of the class *)
  Inductive shown := SVal (v : V) | SCache | SUpdaters | SClass (name : string).

  (** [p.name] ([item = false]) and [p[name]] ([item = true]).  Python looks for
      slots and properties, then for attributes of the object, then in the
      class, and calls __getattr__ when that raises AttributeError;
      __getattr__ calls __getitem__, which reads the attributes _cache and
      updaters.  Running out of [fuel] is RecursionError. *)
  Fixpoint access (fuel : nat) (item : bool) (o : pobj) (name : string) : res shown * pobj :=
    match fuel with
    | 0 => (NoFuel, o)
    | S n =>
      if item then
        (* partition.py:208-210 *)
        match access n false o "_cache" with
        | (Ok SCache, o) =>
          match ob_cache o with
          | Some c =>
            match dget c name with
            | Some v => (Ok (SVal v), o)
            | None =>
              match access n false o "updaters" with
              | (Ok SUpdaters, o) =>
                match ob_updaters o with
                | Some us =>
                  match dget us name with
                  | Some u =>
                    match call u (ob_calls o) with
                    | Ok v => (Ok (SVal v), mkObj (ob_slots o) (ob_updaters o) (Some (dset c name v)) (ob_dict o) (S (ob_calls o)))
                    | Err e => (Err e, mkObj (ob_slots o) (ob_updaters o) (ob_cache o) (ob_dict o) (S (ob_calls o)))
                    | NoFuel => (NoFuel, o)
                    end
                  | None => (Err KeyError, o)
                  end
                | None => (Err AttributeError, o)
                end
              | (Ok _, o) => (Err TypeError, o)
              | (Err e, o) => (Err e, o)
              | (NoFuel, o) => (NoFuel, o)
              end
            end
          | None => (Err AttributeError, o)
          end
        | (Ok _, o) => (Err TypeError, o)
        | (Err e, o) => (Err e, o)
        | (NoFuel, o) => (NoFuel, o)
        end
      else
        (* object.__getattribute__, then partition.py:212-213 *)
        if eqb name "_cache" then match ob_cache o with Some _ => (Ok SCache, o) | None => access n true o name end
        else if eqb name "updaters" then match ob_updaters o with Some _ => (Ok SUpdaters, o) | None => access n true o name end
        else if mem name plain_slots then match dget (ob_slots o) name with Some v => (Ok (SVal v), o) | None => access n true o name end
        else if eqb name "parts" then
          (* partition.py:218-220 *)
          match access n false o "assignment" with
          | (Ok (SVal a), o) => (Ok (SVal (parts_of a)), o)
          | (Ok _, o) => (Err TypeError, o)
          | (Err AttributeError, o) => access n true o name
          | (Err e, o) => (Err e, o)
          | (NoFuel, o) => (NoFuel, o)
          end
        else match dget (ob_dict o) name with
             | Some v => (Ok (SVal v), o)
             | None => if mem name class_names then (Ok (SClass name), o) else access n true o name
             end
    end.
  Definition getattr (fuel : nat) := access fuel false.
  Definition getitem (fuel : nat) := access fuel true.

  (** Python's [hasattr(p, name)] and [getattr(p, name, default)], which copy,
      pickle and others use: only AttributeError counts as missing *)
  Definition hasattr (fuel : nat) (o : pobj) (name : string) : res bool :=
    match fst (getattr fuel o name) with Ok _ => Ok true | Err AttributeError => Ok false | Err e => Err e | NoFuel => NoFuel end.
  Definition getattr_default (fuel : nat) (o : pobj) (name : string) (default : shown) : res shown :=
    match fst (getattr fuel o name) with Err AttributeError => Ok default | r => r end.

  (** The object that copy and pickle make before they fill in the slots *)
  Definition blank : pobj := mkObj [] None None [] 0.

  (** partition.py:42-65 and 122-151, a first plan: [none] is None *)
  Definition first_plan (none graph assignment subgraphs : V) (us : dict string nat) : pobj :=
    mkObj [("graph", graph); ("assignment", assignment); ("parent", none); ("flips", none); ("flows", none); ("edge_flows", none); ("subgraphs", subgraphs)] (Some us) (Some []) [] 0.
  (** partition.py:153-166, a plan made by flip.  The slot edge_flows is only
      set if there is an updater cut_edges; [ef] is its value then. *)
  Definition flipped_plan (o : pobj) (parent flips flows ef graph assignment subgraphs : V) (us : dict string nat) : pobj :=
    mkObj ([("parent", parent); ("flips", flips); ("graph", graph); ("flows", flows); ("assignment", assignment)]
           ++ (if mem "cut_edges" (dkeys us) then [("edge_flows", ef)] else []) ++ [("subgraphs", subgraphs)])%list (Some us) (Some []) [] (ob_calls o).
End Attribute.
