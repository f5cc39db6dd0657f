(** The dictionary given to [flip]: the plan keeps a reference to it, and two
    updaters go back to it through least-recently-used caches of two entries.

    M_Partition and M_Machine treat the flips of a plan as a value.  Here they
    are what they are in the code: an object of the caller, which the caller may
    change at any time.  Addresses of dictionaries and identities of plans are
    list indices.  Modelled are the plan's districts, "cut_edges" and the Tally
    updaters; the other updaters use what was computed during the flip. *)
From Coq Require Import String List Bool Arith.
From Verif Require Import Base M_Graph M_Partition M_Machine M_Frozen.
Import ListNotations.
Local Open Scope string_scope.
Local Open Scope list_scope.

Section Flips.
  Context {N P V L : Type} {EN : EqB N} {EP : EqB P} {EL : EqB L} {ON : Ord N} {RV : CRing V}.
  Variable E : env N P V L.
  Notation g := (e_graph E).

  (** /repo/gerrychain/partition/partition.py:153-166: a plan holds the caller's
      dictionary itself ([pl_flips], an address; None for a plan made from an
      assignment).  [pl_cuts] and [pl_tallies] are its [_cache]
      (partition.py:197-210). *)
  Record plan := mkPlan {
    pl_assign : assignment N P;
    pl_parent : option nat;
    pl_flips : option nat;
    pl_cuts : option (list (N * N));
    pl_tallies : dict string (dict P (num V)) }.

  (** The dictionaries of the caller, the plans (None: the flip raised, the
      identity stays taken), and the caches of neighbor_flips and
      flows_from_changes (updaters/flows.py:6 and 26, maxsize=2), which all plans
      of the process share. *)
  Record world := mkWorld {
    w_dicts : list (dict N P);
    w_plans : list (option plan);
    w_nf : list (nat * list (N * N));
    w_fc : list ((nat * nat) * dict P (flow N)) }.

  Definition act (A : Type) := world -> res A * world.
  Definition done {A} (x : A) : act A := fun w => (Ok x, w).
  Definition just {A} (r : res A) : act A := fun w => (r, w).
  Definition andthen {A B} (m : act A) (f : A -> act B) : act B :=
    fun w => match m w with
             | (Ok x, w') => f x w'
             | (Err e, w') => (Err e, w')
             | (NoFuel, w') => (NoFuel, w')
             end.
  Notation "'let*' x := m 'in' k" := (andthen m (fun x => k)) (at level 200, x name, k at level 200).

  Definition plan_at (w : world) (x : nat) : option plan :=
    match nth_error (w_plans w) x with Some (Some p) => Some p | _ => None end.
  Definition the_plan (x : nat) : act plan := fun w => (of_option IndexError (plan_at w x), w).

  (** What the plan's dictionary holds now. *)
  Definition content (w : world) (i : option nat) : res (dict N P) :=
    i <- of_option TypeError i ;; of_option IndexError (nth_error (w_dicts w) i).

  (** updaters/flows.py:6-19 neighbor_flips, cached by plan.  The node of a
      changed dictionary may be unknown to the graph, which networkx refuses. *)
  Definition nf_call (x : nat) (i : option nat) : act (list (N * N)) := fun w =>
    let compute := d <- content w i ;;
                   if forallb (fun n => mem n (g_nodes g)) (dkeys d) then Ok (neighbor_flips g d)
                   else Err NetworkXError in
    let (r, c) := lru_call 2 x compute (w_nf w) in
    (r, mkWorld (w_dicts w) (w_plans w) c (w_fc w)).

  (** updaters/flows.py:26-45 flows_from_changes, cached by the two plans. *)
  Definition fc_call (q : nat) (A : assignment N P) (x : nat) (i : option nat) : act (dict P (flow N)) := fun w =>
    let compute := d <- content w i ;; flows_from_changes (a_map A) d in
    let (r, c) := lru_call 2 (q, x) compute (w_fc w) in
    (r, mkWorld (w_dicts w) (w_plans w) (w_nf w) c).

  (** partition.py:153-166 _from_parent, through flip (partition.py:176-185).
      The edge flows (flows.py:109-154) are computed and not kept: only the
      updaters left out here read them. *)
  Definition build (a : nat) (i x : nat) : act plan :=
    let* po := the_plan a in
    let* fl := fc_call a (pl_assign po) x (Some i) in
    let* A := just (update_flows (pl_assign po) fl) in
    let* ef := (if dmem (e_updaters E) "cut_edges"
                then let* es := nf_call x (Some i) in
                     just (foldM (edge_flow_step (a_map (pl_assign po)) (a_map A)) es [])
                else done []) in
    done (mkPlan A (Some a) (Some i) None []).
  Definition add_plan (p : option plan) (w : world) : world :=
    mkWorld (w_dicts w) (w_plans w ++ [p]) (w_nf w) (w_fc w).
  Definition flip (a i : nat) : act nat := fun w =>
    let x := List.length (w_plans w) in
    match build a i x w with
    | (Ok p, w') => (Ok x, add_plan (Some p) w')
    | (Err e, w') => (Err e, add_plan None w')
    | (NoFuel, w') => (NoFuel, add_plan None w')
    end.

  Definition with_plan (x : nat) (f : plan -> plan) (w : world) : world :=
    mkWorld (w_dicts w) (set_nth x (option_map f) (w_plans w)) (w_nf w) (w_fc w).
  Definition keep_cuts (s : list (N * N)) (p : plan) : plan :=
    mkPlan (pl_assign p) (pl_parent p) (pl_flips p) (Some s) (pl_tallies p).
  Definition keep_tally (k : string) (d : dict P (num V)) (p : plan) : plan :=
    mkPlan (pl_assign p) (pl_parent p) (pl_flips p) (pl_cuts p) (dset (pl_tallies p) k d).
  Definition drop_parent (p : plan) : plan :=
    mkPlan (pl_assign p) None (pl_flips p) (pl_cuts p) (pl_tallies p).

  (** updaters/cut_edges.py:28-56 on the edges neighbor_flips returned. *)
  Definition new_among (A : assignment N P) (es : list (N * N)) : res (list (N * N)) :=
    foldM (fun acc e => b <- crosses_parts (a_map A) e ;; Ok (if b then sadd e acc else acc)) es [].
  Definition gone_among (old A : assignment N P) (es : list (N * N)) : res (list (N * N)) :=
    foldM (fun acc e => b <- crosses_parts (a_map old) e ;;
                        c <- crosses_parts (a_map A) e ;;
                        Ok (if b && negb c then sadd e acc else acc)) es [].

  (** updaters/cut_edges.py:99-121 behind partition.py:197-210.  A parent without
      districts counts as no parent (partition.py:173-174). *)
  Fixpoint read_cuts (fuel : nat) (x : nat) : act (list (N * N)) :=
    match fuel with
    | O => just NoFuel
    | S fuel =>
      let* p := the_plan x in
      match pl_cuts p with
      | Some s => done s
      | None =>
        let* s :=
          (match pl_parent p with
           | None => just (scratch_cut_edges E (pl_assign p))
           | Some q =>
             let* po := the_plan q in
             match a_parts (pl_assign po) with
             | [] => just (scratch_cut_edges E (pl_assign p))
             | _ =>
               let* es := nf_call x (pl_flips p) in
               let* new := just (new_among (pl_assign p) es) in
               let* es' := nf_call x (pl_flips p) in
               let* gone := just (gone_among (pl_assign po) (pl_assign p) es') in
               let* prev := read_cuts fuel q in
               done (sdiff (sunion prev new) gone)
             end
           end) in
        fun w => (Ok s, with_plan x (keep_cuts s) w)
      end
    end.

  (** updaters/tally.py:113-167 behind partition.py:197-210. *)
  Fixpoint read_tally (fuel : nat) (x : nat) (k : string) : act (dict P (num V)) :=
    match fuel with
    | O => just NoFuel
    | S fuel =>
      let* p := the_plan x in
      match dget (pl_tallies p) k with
      | Some d => done d
      | None =>
        match dget (e_updaters E) k with
        | Some (UTally fields alias) =>
          let* d :=
            (match pl_parent p with
             | None => just (scratch_tally (pl_assign p) (field_sum E fields))
             | Some q =>
               let* po := the_plan q in
               let* old := read_tally fuel q alias in
               let* fl := fc_call q (pl_assign po) x (pl_flips p) in
               just (tally_step E fields fl old)
             end) in
          fun w => (Ok d, with_plan x (keep_tally k d) w)
        | _ => just (Err KeyError)
        end
      end
    end.

  (** [plan["cut_edges"]], [plan[k]] for a Tally and [plan.flips]. *)
  Definition cuts (x : nat) : act (list (N * N)) := fun w =>
    if dmem (e_updaters E) "cut_edges" then read_cuts (S (List.length (w_plans w))) x w else (Err KeyError, w).
  Definition tallied (x : nat) (k : string) : act (dict P (num V)) := fun w =>
    read_tally (S (List.length (w_plans w))) x k w.
  Definition flips_of (w : world) (x : nat) : option (dict N P) :=
    match plan_at w x with
    | Some p => match pl_flips p with Some i => nth_error (w_dicts w) i | None => None end
    | None => None
    end.

  (** What the program may do: make a dictionary, write to it ([d[n] = p], [del
      d[n]]), flip, read, and drop a parent (chain.py:186-189). *)
  Inductive cmd :=
  | NewDict (d : dict N P)
  | Write (i : nat) (n : N) (p : P)
  | Delete (i : nat) (n : N)
  | Flip (a i : nat)
  | ReadCuts (x : nat)
  | ReadTally (x : nat) (k : string)
  | Forget (x : nat).

  Definition with_dict (i : nat) (f : dict N P -> dict N P) (w : world) : world :=
    mkWorld (set_nth i f (w_dicts w)) (w_plans w) (w_nf w) (w_fc w).

  Definition step (w : world) (c : cmd) : world :=
    match c with
    | NewDict d => mkWorld (w_dicts w ++ [d]) (w_plans w) (w_nf w) (w_fc w)
    | Write i n p => with_dict i (fun d => dset d n p) w
    | Delete i n => with_dict i (without n) w
    | Flip a i => snd (flip a i w)
    | ReadCuts x => snd (cuts x w)
    | ReadTally x k => snd (tallied x k w)
    | Forget x => with_plan x drop_parent w
    end.
  Definition perform (cs : list cmd) (w : world) : world := fold_left step cs w.

  (** A program starts by making a plan of a labelling (partition.py:112-151). *)
  Definition start (d : dict N P) : res world :=
    A <- first_time_assignment g d ;; Ok (mkWorld [] [Some (mkPlan A None None None [])] [] []).
End Flips.
Arguments plan : clear implicits.
Arguments world : clear implicits.
Arguments cmd : clear implicits.
