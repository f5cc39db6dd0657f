(** Model of plans as objects: parent links, cached updater values, flips,
    reads and erasure of parent links.

    A heap is the list of all plan objects ever created from one root plan; an
    object is named by its position.  Every plan of a heap shares the graph,
    the node and edge data and the dictionary of updaters ([env]), as
    /repo/gerrychain/partition/partition.py:153-158 does.

    Simplifications:
    - numbers are elements of an arbitrary commutative ring, or NaN;
    - missing boundary_node / boundary_perim / shared_perim attributes are not
      modelled (these functions are total);
    - the lru_cache decorators of updaters/flows.py:6,26 are transparent
      (their arguments are compared by identity and never change);
    - values returned to the user are not mutated by the user. *)
From Coq Require Import String List Bool Arith ZArith Ring_theory InitialRing.
From Verif Require Import Base M_Graph M_Partition.
Import ListNotations.
Local Open Scope string_scope.

(** ** Numbers *)

Class CRing (V : Type) := {
  c0 : V; c1 : V;
  cadd : V -> V -> V; cmul : V -> V -> V; csub : V -> V -> V; copp : V -> V;
  cring : ring_theory c0 c1 cadd cmul csub copp eq
}.

(** The integers are such a ring. *)
#[export] Instance CRing_Z : CRing Z := {|
  c0 := 0%Z; c1 := 1%Z; cadd := Z.add; cmul := Z.mul; csub := Z.sub; copp := Z.opp;
  cring := InitialRing.Zth |}.

Inductive num (V : Type) := Num (v : V) | NaN.
Arguments Num {V}. Arguments NaN {V}.

Section Num.
  Context {V : Type} {RV : CRing V}.
  (** Python arithmetic with NaN propagation. *)
  Definition nadd (x y : num V) : num V :=
    match x, y with Num a, Num b => Num (cadd a b) | _, _ => NaN end.
  Definition nsub (x y : num V) : num V :=
    match x, y with Num a, Num b => Num (csub a b) | _, _ => NaN end.
  (** [sum(iterable)] *)
  Definition nsum (l : list (num V)) : num V := fold_left nadd l (Num c0).
  Definition vsum (l : list V) : V := fold_left cadd l c0.
  Definition is_nan (x : num V) : bool := match x with NaN => true | Num _ => false end.
End Num.

(** ** Values, updaters, objects *)

(** /repo/gerrychain/updaters/county_splits.py:20-31 CountySplit *)
Inductive split_flag := NotSplit | NewSplit | OldSplit.

Section Machine.
  Context {N P V L : Type} {EN : EqB N} {EP : EqB P} {EL : EqB L} {ON : Ord N} {RV : CRing V}.

  (** county_splits.py:6 CountyInfo *)
  Record county_info := mkCounty {
    ci_split : split_flag; ci_nodes : list N; ci_seen : list P
  }.

  Inductive value :=
  | VEdges (s : list (N * N))
  | VEdgesBy (d : dict P (list (N * N)))
  | VNum (d : dict P (num V))
  | VNodes (s : list N)
  | VNodesBy (d : dict P (list N))
  | VFlips (f : option (dict N P))
  | VCounty (d : dict L county_info)
  | VElec (counts : dict string (dict P (num V))) (totals : dict P (num V))
  | VOther (n : nat).

  (** The updaters of the library.  [UFun f] is a user-written updater that is
      a function of the assignment alone. *)
  Inductive updater :=
  | UCutEdges
  | UCutEdgesByPart
  | UTally (fields : list string) (alias : string)
  | UDataTally (data : N -> option (num V)) (alias : string)
  | UElection (parties : dict string (N -> option (num V))) (alias : string)
  | UBoundaryNodes
  | UExteriorSet
  | UExterior
  | UInterior
  | UPerimeter
  | UFlips
  | UCounty (field : string) (alias : string)
  | UFun (f : assignment N P -> value).

  Record env := mkEnv {
    e_graph : graph N;
    e_attr : string -> N -> option (num V);
    e_bnode : N -> bool;
    e_bperim : N -> V;
    e_sperim : N * N -> V;
    e_county : string -> N -> option L;
    e_updaters : dict string updater
  }.

  (** /repo/gerrychain/partition/partition.py:27-38, the slots of Partition
      that differ from plan to plan.  [o_eflows = None] is the unset slot. *)
  Record pobj := mkObj {
    o_assign : assignment N P;
    o_parent : option nat;
    o_flips : option (dict N P);
    o_flows : dict P (flow N);
    o_eflows : option (dict P (flow (N * N)));
    o_cache : dict string value
  }.
  Definition heap := list pobj.

  Variable E : env.
  Notation g := (e_graph E).

  Fixpoint set_nth {A} (n : nat) (f : A -> A) (l : list A) : list A :=
    match n, l with
    | _, [] => []
    | 0, x :: r => f x :: r
    | S m, x :: r => x :: set_nth m f r
    end.

  Definition with_cache (c : dict string value -> dict string value) (o : pobj) : pobj :=
    mkObj (o_assign o) (o_parent o) (o_flips o) (o_flows o) (o_eflows o) (c (o_cache o)).
  Definition without_parent (o : pobj) : pobj :=
    mkObj (o_assign o) None (o_flips o) (o_flows o) (o_eflows o) (o_cache o).

  (** ** Heap-passing computations *)

  Definition M (A : Type) := heap -> res A * heap.
  Definition ret {A} (a : A) : M A := fun h => (Ok a, h).
  Definition lift {A} (r : res A) : M A := fun h => (r, h).
  Definition bindM {A B} (m : M A) (f : A -> M B) : M B := fun h =>
    match m h with
    | (Ok a, h') => f a h'
    | (Err e, h') => (Err e, h')
    | (NoFuel, h') => (NoFuel, h')
    end.
  Notation "'do' x <- m ; f" := (bindM m (fun x => f))
    (at level 200, x name, m at level 100, f at level 200, right associativity).

  Definition get_obj (a : nat) : M pobj := fun h =>
    match nth_error h a with Some o => (Ok o, h) | None => (Err AttributeError, h) end.

  (** [cache[k][p] = dflt] for the missing keys [ps] of a defaultdict held in
      the cache of object [a] under [k]: the effect of merely reading
      [previous[part]] on a collections.defaultdict. *)
  Definition add_defaults {X} (dflt : X) (ps : list P) (d : dict P X) : dict P X :=
    fold_left (fun d p => if dmem d p then d else dset d p dflt) ps d.
  Definition touch_value (ps : list P) (v : value) : value :=
    match v with
    | VEdgesBy d => VEdgesBy (add_defaults [] ps d)
    | VNodesBy d => VNodesBy (add_defaults [] ps d)
    | VNum d => VNum (add_defaults (Num c0) ps d)
    | v => v
    end.
  Definition touch (a : nat) (k : string) (ps : list P) : M unit := fun h =>
    (Ok tt, set_nth a (with_cache (fun c =>
       match dget c k with Some v => dset c k (touch_value ps v) | None => c end)) h).

  (** Reading a value of the expected type; anything else is a misregistered
      updater and some Python TypeError. *)
  Definition as_edges (v : value) := match v with VEdges s => Ok s | _ => Err TypeError end.
  Definition as_edges_by (v : value) := match v with VEdgesBy d => Ok d | _ => Err TypeError end.
  Definition as_num (v : value) := match v with VNum d => Ok d | _ => Err TypeError end.
  Definition as_nodes (v : value) := match v with VNodes s => Ok s | _ => Err TypeError end.
  Definition as_nodes_by (v : value) := match v with VNodesBy d => Ok d | _ => Err TypeError end.
  Definition as_county (v : value) := match v with VCounty d => Ok d | _ => Err TypeError end.
  Definition as_elec (v : value) := match v with VElec c t => Ok c | _ => Err TypeError end.

  (** [if partition.parent:] -- a plan is falsy when it has no districts
      (partition/partition.py:173-174 defines [__len__]). *)
  Definition truthy_parent (o : pobj) : M (option nat) :=
    match o_parent o with
    | None => ret None
    | Some q => do po <- get_obj q ;
                ret (match a_parts (o_assign po) with [] => None | _ => Some q end)
    end.

  (** ** Pure parts of the updaters *)

  (** updaters/cut_edges.py:68-72 and 110-114 *)
  Definition scratch_cut_edges (A : assignment N P) : res (list (N * N)) :=
    foldM (fun acc e => b <- crosses_parts (a_map A) e ;;
                        Ok (if b then sadd (sort2 e) acc else acc)) (g_edges g) [].
  (** cut_edges.py:28-40 new_cuts *)
  Definition new_cuts (A : assignment N P) (flips : dict N P) : res (list (N * N)) :=
    foldM (fun acc e => b <- crosses_parts (a_map A) e ;;
                        Ok (if b then sadd e acc else acc)) (neighbor_flips g flips) [].
  (** cut_edges.py:43-56 obsolete_cuts *)
  Definition obsolete_cuts (old A : assignment N P) (flips : dict N P) : res (list (N * N)) :=
    foldM (fun acc e => b <- crosses_parts (a_map old) e ;;
                        c <- crosses_parts (a_map A) e ;;
                        Ok (if b && negb c then sadd e acc else acc)) (neighbor_flips g flips) [].
  (** cut_edges.py:6-25 put_edges_into_parts *)
  Definition put_edges (A : assignment N P) (edges : list (N * N))
    : res (dict P (list (N * N))) :=
    foldM (fun d e =>
      p <- of_option KeyError (dget (a_map A) (fst e)) ;;
      let d := dset d p (sadd e (dget_or [] d p)) in
      q <- of_option KeyError (dget (a_map A) (snd e)) ;;
      Ok (dset d q (sadd e (dget_or [] d q)))) edges [].

  (** updaters/tally.py:37-55 and 118-141: the initial tally; [w] reads the
      number of a node. *)
  Definition scratch_tally (A : assignment N P) (w : N -> res (num V)) : res (dict P (num V)) :=
    foldM (fun d np =>
      x <- w (fst np) ;;
      Ok (if is_nan x then d else dset d (snd np) (nadd (dget_or (Num c0) d (snd np)) x)))
      (a_map A) [].
  (** tally.py:169-170 _get_tally_from_node *)
  Definition field_sum (fields : list string) (n : N) : res (num V) :=
    xs <- mapM (fun f => of_option KeyError (e_attr E f n)) fields ;; Ok (nsum xs).
  (** tally.py:173-206 compute_out_flow, compute_in_flow *)
  Definition flow_sum (fields : list string) (nodes : list N) : res (num V) :=
    xs <- mapM (fun nf => of_option KeyError (e_attr E (snd nf) (fst nf)))
               (flat_map (fun n => map (fun f => (n, f)) fields) nodes) ;; Ok (nsum xs).
  (** tally.py:162-165 the loop of _update_tally *)
  Definition tally_step (fields : list string) (flows : dict P (flow N))
             (old : dict P (num V)) : res (dict P (num V)) :=
    foldM (fun d pf =>
      out <- flow_sum fields (f_out (snd pf)) ;;
      inn <- flow_sum fields (f_in (snd pf)) ;;
      prev <- of_option KeyError (dget old (fst pf)) ;;
      Ok (dset d (fst pf) (nadd (nsub prev out) inn))) flows old.
  (** tally.py:57-61 inside flows.py:97-100 *)
  Definition data_step (data : N -> option (num V)) (flows : dict P (flow N))
             (old : dict P (num V)) : res (dict P (num V)) :=
    foldM (fun d pf =>
      prev <- of_option KeyError (dget old (fst pf)) ;;
      inn <- mapM (fun n => of_option KeyError (data n)) (f_in (snd pf)) ;;
      out <- mapM (fun n => of_option KeyError (data n)) (f_out (snd pf)) ;;
      Ok (dset d (fst pf) (nsub (nadd prev (nsum inn)) (nsum out)))) flows old.

  (** compactness.py:21-25 *)
  Definition scratch_boundary : list N := set_of (filter (e_bnode E) (g_nodes g)).
  (** compactness.py:37-40 *)
  Definition scratch_ext_set (A : assignment N P) (bs : list N) : res (dict P (list N)) :=
    foldM (fun d n => p <- of_option KeyError (dget (a_map A) n) ;;
                      Ok (dset d p (sadd n (dget_or [] d p)))) bs [].
  (** compactness.py:79-84 *)
  Definition scratch_ext (A : assignment N P) (bs : list N) : res (dict P (num V)) :=
    foldM (fun d n => p <- of_option KeyError (dget (a_map A) n) ;;
                      Ok (dset d p (nadd (dget_or (Num c0) d p) (Num (e_bperim E n))))) bs [].
  Definition perim_sum (f : N -> V) (ns : list N) : num V := nsum (map (fun n => Num (f n)) ns).
  Definition shared_sum (es : list (N * N)) : num V := nsum (map (fun e => Num (e_sperim E e)) es).

  (** county_splits.py:83-99 *)
  Definition scratch_county (A : assignment N P) (field : string) : res (dict L county_info) :=
    foldM (fun d n =>
      c <- of_option KeyError (e_county E field n) ;;
      let info := dget_or (mkCounty NotSplit [] []) d c in
      p <- of_option KeyError (dget (a_map A) n) ;;
      let seen := sadd p (ci_seen info) in
      let split := if Nat.ltb 1 (List.length seen) then OldSplit else ci_split info in
      Ok (dset d c (mkCounty split (ci_nodes info ++ [n]) seen)))
      (g_nodes g) [].
  (** county_splits.py:104-115 *)
  Definition county_step (A : assignment N P) (info : county_info) : res county_info :=
    seen <- mapM (fun n => of_option KeyError (dget (a_map A) n)) (ci_nodes info) ;;
    let seen := set_of seen in
    let split := if Nat.ltb 1 (List.length seen)
                 then match ci_split info with OldSplit => OldSplit | _ => NewSplit end
                 else NotSplit in
    Ok (mkCounty split (ci_nodes info) seen).
  Definition county_update (A : assignment N P) (d : dict L county_info)
    : res (dict L county_info) :=
    mapM (fun ci => i <- county_step A (snd ci) ;; Ok (fst ci, i)) d.

  (** updaters/election.py:236-239: totals over partition.parts *)
  Definition elec_totals (A : assignment N P) (counts : dict string (dict P (num V)))
    : res (dict P (num V)) :=
    mapM (fun p =>
      xs <- mapM (fun c => of_option KeyError (dget (snd c) p)) counts ;; Ok (p, nsum xs))
      (dkeys (a_parts A)).
  (** election.py:143-146 with previous = None, respectively the parent's totals *)
  Definition elec_scratch (A : assignment N P) (parties : dict string (N -> option (num V)))
    : res (dict string (dict P (num V))) :=
    mapM (fun pd => t <- scratch_tally A (fun n => of_option KeyError (snd pd n)) ;;
                    Ok (fst pd, t)) parties.
  Definition elec_step (parties : dict string (N -> option (num V))) (flows : dict P (flow N))
             (old : dict string (dict P (num V))) : res (dict string (dict P (num V))) :=
    mapM (fun pd => prev <- of_option KeyError (dget old (fst pd)) ;;
                    t <- data_step (snd pd) flows prev ;; Ok (fst pd, t)) parties.

  (** ** Running one updater on one object

      [rec a k] stands for [partition[k]] on object [a]. *)
  Section Run.
    Variable rec : nat -> string -> M value.

    Definition run (a : nat) (o : pobj) (u : updater) : M value :=
      let A := o_assign o in
      match u with
      | UCutEdges =>
        (* cut_edges.py:99-120 *)
        do tp <- truthy_parent o ;
        match tp with
        | None => do s <- lift (scratch_cut_edges A) ; ret (VEdges s)
        | Some q =>
          do po <- get_obj q ;
          do fl <- lift (of_option TypeError (o_flips o)) ;
          do new <- lift (new_cuts A fl) ;
          do obs <- lift (obsolete_cuts (o_assign po) A fl) ;
          do v <- rec q "cut_edges" ;
          do prev <- lift (as_edges v) ;
          ret (VEdges (sdiff (sunion prev new) obs))
        end
      | UCutEdgesByPart =>
        (* flows.py:197-211 with cut_edges.py:59-96 *)
        do tp <- truthy_parent o ;
        match tp with
        | None =>
          do s <- lift (scratch_cut_edges A) ;
          do d <- lift (put_edges A s) ; ret (VEdgesBy d)
        | Some q =>
          do ef <- lift (of_option KeyError (o_eflows o)) ;
          do v <- rec q "cut_edges_by_part" ;
          do prev <- lift (as_edges_by v) ;
          do _ <- touch q "cut_edges_by_part" (dkeys ef) ;
          ret (VEdgesBy (fold_left (fun d pf =>
                 dset d (fst pf) (sdiff (sunion (dget_or [] prev (fst pf)) (f_in (snd pf)))
                                        (f_out (snd pf)))) ef prev))
        end
      | UTally fields alias =>
        (* tally.py:113-167 *)
        match o_parent o with
        | None => do d <- lift (scratch_tally A (field_sum fields)) ; ret (VNum d)
        | Some q =>
          do v <- rec q alias ;
          do old <- lift (as_num v) ;
          do d <- lift (tally_step fields (o_flows o) old) ;
          ret (VNum d)
        end
      | UDataTally data alias =>
        (* tally.py:57-66 through flows.py:88-102 *)
        match o_parent o with
        | None => do d <- lift (scratch_tally A (fun n => of_option KeyError (data n))) ;
                  ret (VNum d)
        | Some q =>
          do v <- rec q alias ;
          do old <- lift (as_num v) ;
          do d <- lift (data_step data (o_flows o) old) ;
          ret (VNum d)
        end
      | UElection parties alias =>
        (* election.py:138-167 and 214-239 *)
        do counts <- match o_parent o with
                     | None => lift (elec_scratch A parties)
                     | Some q =>
                       do v <- rec q alias ;
                       do old <- lift (as_elec v) ;
                       lift (elec_step parties (o_flows o) old)
                     end ;
        do totals <- lift (elec_totals A counts) ;
        ret (VElec counts totals)
      | UBoundaryNodes =>
        (* compactness.py:8-25 *)
        do tp <- truthy_parent o ;
        match tp with
        | None => ret (VNodes scratch_boundary)
        | Some q => rec q "boundary_nodes"
        end
      | UExteriorSet =>
        (* compactness.py:28-67; the read of boundary_nodes inside the loop is
           hoisted, it is cached after its first execution *)
        match o_parent o with
        | None =>
          do v <- rec a "boundary_nodes" ;
          do bs <- lift (as_nodes v) ;
          do d <- lift (scratch_ext_set A bs) ; ret (VNodesBy d)
        | Some q =>
          do v <- rec q "exterior_boundaries_as_a_set" ;
          do prev <- lift (as_nodes_by v) ;
          match o_flows o with
          | [] => ret (VNodesBy prev)
          | fl =>
            do _ <- touch q "exterior_boundaries_as_a_set" (dkeys fl) ;
            do v <- rec a "boundary_nodes" ;
            do bs <- lift (as_nodes v) ;
            ret (VNodesBy (fold_left (fun d pf =>
                   dset d (fst pf)
                     (sdiff (sunion (dget_or [] prev (fst pf)) (sinter (f_in (snd pf)) bs))
                            (f_out (snd pf)))) fl prev))
          end
        end
      | UExterior =>
        (* compactness.py:70-117 *)
        match o_parent o with
        | None =>
          do v <- rec a "boundary_nodes" ;
          do bs <- lift (as_nodes v) ;
          do d <- lift (scratch_ext A bs) ; ret (VNum d)
        | Some q =>
          do v <- rec q "exterior_boundaries" ;
          do prev <- lift (as_num v) ;
          match o_flows o with
          | [] => ret (VNum prev)
          | fl =>
            do _ <- touch q "exterior_boundaries" (dkeys fl) ;
            do v <- rec a "boundary_nodes" ;
            do bs <- lift (as_nodes v) ;
            ret (VNum (fold_left (fun d pf =>
                   dset d (fst pf)
                     (nsub (nadd (dget_or (Num c0) prev (fst pf))
                                 (perim_sum (e_bperim E) (sinter (f_in (snd pf)) bs)))
                           (perim_sum (e_bperim E) (sinter (f_out (snd pf)) bs)))) fl prev))
          end
        end
      | UInterior =>
        (* compactness.py:120-168 *)
        do tp <- truthy_parent o ;
        match tp with
        | None =>
          match dkeys (a_parts A) with
          | [] => ret (VNum [])
          | ps =>
            do v <- rec a "cut_edges_by_part" ;
            do d <- lift (as_edges_by v) ;
            do _ <- touch a "cut_edges_by_part" ps ;
            ret (VNum (map (fun p => (p, shared_sum (dget_or [] d p))) ps))
          end
        | Some q =>
          do ef <- lift (of_option KeyError (o_eflows o)) ;
          do v <- rec q "interior_boundaries" ;
          do prev <- lift (as_num v) ;
          do d <- lift (foldM (fun d pf =>
                 x <- of_option KeyError (dget prev (fst pf)) ;;
                 Ok (dset d (fst pf) (nsub (nadd x (shared_sum (f_in (snd pf))))
                                           (shared_sum (f_out (snd pf)))))) ef prev) ;
          ret (VNum d)
        end
      | UPerimeter =>
        (* compactness.py:183-214; the reads of the two updaters are hoisted
           out of the loop over the districts *)
        match dkeys (a_parts A) with
        | [] => ret (VNum [])
        | ps =>
          do ve <- rec a "exterior_boundaries" ;
          do ext <- lift (as_num ve) ;
          do _ <- touch a "exterior_boundaries" ps ;
          do vi <- rec a "interior_boundaries" ;
          do int <- lift (as_num vi) ;
          do d <- lift (mapM (fun p =>
                 x <- of_option KeyError (dget int p) ;;
                 Ok (p, nadd (dget_or (Num c0) ext p) x)) ps) ;
          ret (VNum d)
        end
      | UFlips => (* compactness.py:171-180 *) ret (VFlips (o_flips o))
      | UCounty field alias =>
        (* county_splits.py:57-117 *)
        do tp <- truthy_parent o ;
        match tp with
        | None => do d <- lift (scratch_county A field) ; ret (VCounty d)
        | Some q =>
          do v <- rec q alias ;
          do old <- lift (as_county v) ;
          do d <- lift (county_update A old) ;
          ret (VCounty d)
        end
      | UFun f => ret (f A)
      end.
  End Run.

  (** partition/partition.py:197-210 __getitem__.  [fuel] bounds the depth of
      nested reads. *)
  Fixpoint getitem (fuel : nat) (a : nat) (k : string) : M value :=
    match fuel with
    | 0 => lift NoFuel
    | S f =>
      do o <- get_obj a ;
      match dget (o_cache o) k with
      | Some v => ret v
      | None =>
        do u <- lift (of_option KeyError (dget (e_updaters E) k)) ;
        do v <- run (getitem f) a o u ;
        fun h => (Ok v, set_nth a (with_cache (fun c => dset c k v)) h)
      end
    end.

  (** Enough fuel for every read (proved in L_Machine.v). *)
  Definition read (a : nat) (k : string) : M value := fun h =>
    getitem (S (3 * List.length h)) a k h.

  (** partition/partition.py:122-151 _first_time: the root object *)
  Definition root (d : dict N P) : res heap :=
    A <- first_time_assignment g d ;;
    Ok [mkObj A None None [] None []].

  (** partition/partition.py:153-166 and 176-185: flip.  The new object gets
      the next address. *)
  Definition flip (a : nat) (flips : dict N P) : M nat := fun h =>
    match nth_error h a with
    | None => (Err AttributeError, h)
    | Some o =>
      match
        fl <- flows_from_changes (a_map (o_assign o)) flips ;;
        A <- update_flows (o_assign o) fl ;;
        ef <- (if dmem (e_updaters E) "cut_edges"
               then ef <- compute_edge_flows g (a_map (o_assign o)) (a_map A) flips ;; Ok (Some ef)
               else Ok None) ;;
        Ok (mkObj A (Some a) (Some flips) fl ef [])
      with
      | Ok o' => (Ok (List.length h), (h ++ [o'])%list)
      | Err e => (Err e, h)
      | NoFuel => (NoFuel, h)
      end
    end.

  (** chain.py:188-189: [state.parent = None] *)
  Definition erase (a : nat) (h : heap) : heap := set_nth a without_parent h.

  (** ** Constraints that look at the plan object

      constraints/validity.py:154-173 refuse_new_splits *)
  Definition is_new (f : split_flag) : bool := match f with NewSplit => true | _ => false end.
  Definition refuse_new_splits (k : string) (a : nat) : M bool :=
    do v <- read a k ;
    do d <- lift (as_county v) ;
    ret (negb (existsb (fun ci => is_new (ci_split (snd ci))) d)).
  (** constraints/validity.py:176-188 no_vanishing_districts *)
  Definition no_vanishing_districts (a : nat) : M bool :=
    do o <- get_obj a ;
    do tp <- truthy_parent o ;
    match tp with
    | None => ret true
    | Some _ => ret (forallb (fun ps => negb (Nat.eqb (List.length (snd ps)) 0)) (a_parts (o_assign o)))
    end.

  (** The caller looks up the label [p] in the dictionary that updater [k] of
      plan [a] returned.  Three updaters return a collections.defaultdict
      (updaters/cut_edges.py:6-25, compactness.py:37 and 80; the copies made in
      flows.py:95 and 203 are defaultdicts too), where looking up a missing
      label inserts it.  The others return plain dictionaries (tally.py:55 and
      141), sets or objects, which no look-up changes. *)
  Definition has_default (u : updater) : bool :=
    match u with UCutEdgesByPart | UExteriorSet | UExterior => true | _ => false end.
  Definition look (a : nat) (k : string) (p : P) (h : heap) : heap :=
    match dget (e_updaters E) k with
    | Some u => if has_default u then snd (touch a k [p] h) else h
    | None => h
    end.

  (** ** Arbitrary interleavings *)
  Inductive op :=
  | OFlip (a : nat) (flips : dict N P)
  | OGet (a : nat) (k : string)
  | OLook (a : nat) (k : string) (p : P)
  | OErase (a : nat).

  (** Exceptions are caught by the caller and the session goes on. *)
  Definition step (h : heap) (o : op) : heap :=
    match o with
    | OFlip a f => snd (flip a f h)
    | OGet a k => snd (read a k h)
    | OLook a k p => look a k p h
    | OErase a => erase a h
    end.
  Definition exec (ops : list op) (h : heap) : heap := fold_left step ops h.
End Machine.
Arguments county_info : clear implicits.
Arguments value : clear implicits.
Arguments updater : clear implicits.
Arguments env : clear implicits.
Arguments pobj : clear implicits.
Arguments heap : clear implicits.
Arguments op : clear implicits.
