(** Model of Assignment objects as Python objects: two slots that refer to
    dictionaries, which other objects or the caller may refer to as well.
    M_Partition.v models the same class by values. *)
From Coq Require Import String List Bool Arith.
From Verif Require Import Base M_Graph M_Partition.
Import ListNotations.

(** Not part of /repo: the list [l] with position [i] overwritten. *)
Fixpoint upd {A} (l : list A) (i : nat) (x : A) : list A :=
  match l, i with
  | [], _ => []
  | _ :: r, 0 => x :: r
  | y :: r, S i' => y :: upd r i' x
  end.

Section Objects.
  Context {N P : Type} {EN : EqB N} {EP : EqB P}.

  (** The dictionaries in memory, and the Assignment objects with their slots
      [parts] and [mapping] (assignment.py:21), as references. *)
  Record store := mkStore { st_parts : list (dict P (list N)); st_maps : list (dict N P); st_objs : list (nat * nat) }.

  (** The statements of a program that works with Assignment objects. *)
  Inductive cmd :=
  | NewParts (d : dict P (list N))                        (* a dictionary {part: frozenset} of the caller *)
  | NewMap (d : dict N P)                                 (* a dictionary {node: part} of the caller *)
  | Construct (p : nat) (m : option nat) (validate : bool) (* Assignment(parts, mapping, validate) *)
  | FromDict (d : dict N P)
  | Copy (a : nat)
  | UpdateFlows (a : nat) (fl : dict P (flow N))
  | UpdateParts (a : nat) (np : dict P (list N))
  | SetPart (p : nat) (k : P) (s : list N)                (* d[k] = frozenset(s), e.g. d = assignment.parts *)
  | SetNode (m : nat) (n : N) (k : P).                    (* d[n] = k, e.g. d = assignment.to_dict() *)

  (** assignment.py:80-86 update_flows on the two dictionaries; what was
      written before a KeyError stays. *)
  Fixpoint flows_run (fl : dict P (flow N)) (pm : dict P (list N) * dict N P) : res unit * (dict P (list N) * dict N P) :=
    match fl with
    | [] => (Ok tt, pm)
    | (p, f) :: fl' =>
      match dget (fst pm) p with
      | None => (Err KeyError, pm)
      | Some cur => flows_run fl' (dset (fst pm) p (sunion (sdiff cur (f_out f)) (f_in f)), fold_left (fun m n => dset m n p) (f_in f) (snd pm))
      end
    end.
  (** assignment.py:111-115 update_parts *)
  Definition parts_run (np : dict P (list N)) (pm : dict P (list N) * dict N P) : dict P (list N) * dict N P :=
    fold_left (fun pm pn => (dset (fst pm) (fst pn) (set_of (snd pn)), fold_left (fun m n => dset m n (fst pn)) (snd pn) (snd pm))) np pm.

  (** assignment.py:40-44: the check of __init__; the isinstance check is not
      modelled, as in M_Partition.v *)
  Definition valid_parts (d : dict P (list N)) : bool := Nat.eqb (parts_len d) (List.length (set_of (concat (dvals d)))).

  (** The two dictionaries of object [a]. *)
  Definition slots (st : store) (a : nat) : option (nat * nat * dict P (list N) * dict N P) :=
    match nth_error (st_objs st) a with
    | Some (p, m) =>
      match nth_error (st_parts st) p, nth_error (st_maps st) m with
      | Some dp, Some dm => Some (p, m, dp, dm)
      | _, _ => None
      end
    | None => None
    end.

  (** One statement.  A reference that does not exist cannot be written in
      Python; the model raises IndexError and changes nothing. *)
  Definition step (c : cmd) (st : store) : res unit * store :=
    let P0 := st_parts st in let M0 := st_maps st in let O0 := st_objs st in
    match c with
    | NewParts d => (Ok tt, mkStore (P0 ++ [d]) M0 O0)
    | NewMap d => (Ok tt, mkStore P0 (M0 ++ [d]) O0)
    | Construct p m validate => (* assignment.py:23-55; [if not mapping]: an empty mapping counts as none *)
      match nth_error P0 p with
      | None => (Err IndexError, st)
      | Some dp =>
        if validate && negb (valid_parts dp) then (Err ValueError, st)
        else
          let fresh := (Ok tt, mkStore P0 (M0 ++ [mapping_of_parts dp]) (O0 ++ [(p, List.length M0)])) in
          match m with
          | None => fresh
          | Some r =>
            match nth_error M0 r with
            | None => (Err IndexError, st)
            | Some [] => fresh
            | Some _ => (Ok tt, mkStore P0 M0 (O0 ++ [(p, r)]))
            end
          end
      end
    | FromDict d => (* assignment.py:149-151 *)
      let dp := level_sets d in
      if valid_parts dp then (Ok tt, mkStore (P0 ++ [dp]) (M0 ++ [mapping_of_parts dp]) (O0 ++ [(List.length P0, List.length M0)]))
      else (Err ValueError, st)
    | Copy a => (* assignment.py:69-74; again an empty mapping counts as none *)
      match slots st a with
      | None => (Err IndexError, st)
      | Some (_, _, dp, dm) =>
        let dm' := match dm with [] => mapping_of_parts dp | _ => dm end in
        (Ok tt, mkStore (P0 ++ [dp]) (M0 ++ [dm']) (O0 ++ [(List.length P0, List.length M0)]))
      end
    | UpdateFlows a fl =>
      match slots st a with
      | None => (Err IndexError, st)
      | Some (p, m, dp, dm) => let r := flows_run fl (dp, dm) in (fst r, mkStore (upd P0 p (fst (snd r))) (upd M0 m (snd (snd r))) O0)
      end
    | UpdateParts a np =>
      match slots st a with
      | None => (Err IndexError, st)
      | Some (p, m, dp, dm) => let r := parts_run np (dp, dm) in (Ok tt, mkStore (upd P0 p (fst r)) (upd M0 m (snd r)) O0)
      end
    | SetPart p k s =>
      match nth_error P0 p with
      | None => (Err IndexError, st)
      | Some dp => (Ok tt, mkStore (upd P0 p (dset dp k (set_of s))) M0 O0)
      end
    | SetNode m n k =>
      match nth_error M0 m with
      | None => (Err IndexError, st)
      | Some dm => (Ok tt, mkStore P0 (upd M0 m (dset dm n k)) O0)
      end
    end.
  (** A program; exceptions are caught and the program goes on. *)
  Definition run (cs : list cmd) (st : store) : store := fold_left (fun st c => snd (step c st)) cs st.
  Definition empty_store : store := mkStore [] [] [].

  (** What an object shows: its parts and its mapping. *)
  Definition value (st : store) (a : nat) : option (assignment N P) :=
    match slots st a with Some (_, _, dp, dm) => Some (mkAssignment dp dm) | None => None end.

  (** ** Reading an assignment *)
  (** assignment.py:60-61 and 63-64: __iter__, keys and __len__ *)
  Definition a_iter (a : assignment N P) : list N := dkeys (a_map a).
  Definition a_len (a : assignment N P) : nat := parts_len (a_parts a).
  (** assignment.py:66-67 __getitem__ *)
  Definition a_getitem (a : assignment N P) (n : N) : res P := of_option KeyError (dget (a_map a) n).
  (** collections.abc.Mapping.__contains__ and __eq__, which Assignment inherits *)
  Definition a_contains (a : assignment N P) (n : N) : bool := match a_getitem a n with Ok _ => true | _ => false end.
  Definition dict_eqb (d e : dict N P) : bool :=
    Nat.eqb (List.length d) (List.length e) && forallb (fun nk => match dget e (fst nk) with Some k => eqb (snd nk) k | None => false end) d.
  Definition a_eq (a b : assignment N P) : bool := dict_eqb (a_map a) (a_map b).
  (** assignment.py:117-125 to_series: the rows of the series; pandas.concat
      raises ValueError without objects *)
  Definition to_series (a : assignment N P) : res (list (N * P)) :=
    match a_parts a with
    | [] => Err ValueError
    | ps => Ok (flat_map (fun pn => map (fun n => (n, fst pn)) (snd pn)) ps)
    end.
  (** assignment.py:127-132 to_dict *)
  Definition to_dict (a : assignment N P) : dict N P := a_map a.

  (** ** get_assignment *)
  (** What the caller may pass as assignment: a node attribute, a dictionary or
      series, an Assignment, or anything else. *)
  Inductive source := Attribute (k : string) | Mapping (d : dict N P) | Object (a : assignment N P) | Other.
  (** assignment.py:154-191.  [node_data n k] is graph.nodes[n].get(k); an
      Assignment has a method items, so the second branch takes it. *)
  Definition get_assignment (node_data : N -> string -> option P) (g : option (graph N)) (s : source) : res (assignment N P) :=
    match s with
    | Attribute k =>
      match g with
      | None => Err TypeError
      | Some g => d <- mapM (fun n => x <- of_option KeyError (node_data n k) ;; Ok (n, x)) (g_nodes g) ;; from_dict d
      end
    | Mapping d => from_dict d
    | Object a => from_dict (a_map a)
    | Other => Err TypeError
    end.
  (** partition/partition.py:122-136: the assignment of a new plan *)
  Definition new_plan (node_data : N -> string -> option P) (g : graph N) (s : source) : res (assignment N P) :=
    a <- get_assignment node_data (Some g) s ;;
    if seteqb (a_iter a) (g_nodes g) then Ok a else Err KeyError.
  (** partition/partition.py:282-297 from_districtr_file.  [idcol] and [plan] are
      the id column and the assignment in the file, None if the file lacks
      them; [ident n k] is str(graph.nodes[n][k]). *)
  Definition from_districtr (ident : N -> string -> option string) (g : graph N) (idcol : option string) (plan : option (dict string P)) : res (assignment N P) :=
    k <- of_option KeyError idcol ;;
    ds <- of_option KeyError plan ;;
    ids <- mapM (fun n => x <- of_option TypeError (ident n k) ;; Ok (n, x)) (g_nodes g) ;;
    d <- mapM (fun nx => z <- of_option KeyError (dget ds (snd nx)) ;; Ok (fst nx, z)) ids ;;
    new_plan (fun _ _ => None) g (Mapping d).
End Objects.
Arguments store : clear implicits.
Arguments cmd : clear implicits.
Arguments source : clear implicits.
