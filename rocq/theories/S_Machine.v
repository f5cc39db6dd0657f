(** Specification of the updaters: what each one must report for a plan, in
    terms of the plan's assignment and the graph data only. *)
From Coq Require Import String List Bool Arith.
From Verif Require Import Base M_Graph M_Partition S_Partition M_Machine.
Import ListNotations.

Section Spec.
  Context {N P V L : Type} {EN : EqB N} {EP : EqB P} {EL : EqB L} {ON : Ord N} {RV : CRing V}.

  (** [x] is the sum of [w] over the finite set [Pr]: over any duplicate-free
      enumeration of it. *)
  Definition sums_to {X} (w : X -> V) (Pr : X -> Prop) (x : V) : Prop :=
    exists s, NoDup s /\ (forall y, In y s <-> Pr y) /\ x = vsum (map w s).

  (** A cut edge in sorted orientation. *)
  Definition cut_edge (g : graph N) (A : assignment N P) (e : N * N) : Prop :=
    leb (fst e) (snd e) = true /\ adj g (fst e) (snd e) /\
    district A (fst e) <> district A (snd e).

  (** A cut edge with an endpoint in district [p]. *)
  Definition cut_edge_of (g : graph N) (A : assignment N P) (p : P) (e : N * N) : Prop :=
    cut_edge g A e /\ (district A (fst e) = Some p \/ district A (snd e) = Some p).

  Definition member (g : graph N) (A : assignment N P) (p : P) (n : N) : Prop :=
    In n (g_nodes g) /\ district A n = Some p.

  (** A tally of NaN-free data [w]: every entry is the sum over the district,
      every non-empty district has an entry. *)
  Definition tally_ok (g : graph N) (A : assignment N P) (w : N -> V)
             (d : dict P (num V)) : Prop :=
    (forall p x, dget d p = Some x -> exists y, x = Num y /\ sums_to w (member g A p) y) /\
    (forall p n, member g A p n -> In p (dkeys d)).

  (** The node data is defined and NaN-free on the graph, with values [w]. *)
  Definition data_is (g : graph N) (data : N -> option (num V)) (w : N -> V) : Prop :=
    forall n, In n (g_nodes g) -> data n = Some (Num (w n)).

  Definition meets (g : graph N) (A : assignment N P) (ns : list N) (p : P) : Prop :=
    exists n, In n ns /\ district A n = Some p.

  (** What county_splits must say about one county [c]. *)
  Definition county_ok (g : graph N) (A : assignment N P) (county : N -> option L) (c : L)
             (i : county_info N P) : Prop :=
    (forall n, In n (ci_nodes i) <-> In n (g_nodes g) /\ county n = Some c) /\
    NoDup (ci_nodes i) /\
    (forall p, In p (ci_seen i) <-> meets g A (ci_nodes i) p) /\
    (ci_split i = NotSplit <->
       forall p q, meets g A (ci_nodes i) p -> meets g A (ci_nodes i) q -> p = q).

  (** The correct value of updater [u] for the plan object [o]. *)
  Definition correct (E : env N P V L) (o : pobj N P V L) (u : updater N P V L)
             (v : value N P V L) : Prop :=
    let g := e_graph E in
    let A := o_assign o in
    match u with
    | UCutEdges => exists s, v = VEdges s /\ NoDup s /\ forall e, In e s <-> cut_edge g A e
    | UCutEdgesByPart => exists d, v = VEdgesBy d /\ NoDup (dkeys d) /\
        forall p, NoDup (dget_or [] d p) /\
                  forall e, In e (dget_or [] d p) <-> cut_edge_of g A p e
    | UTally fields _ => exists d, v = VNum d /\ NoDup (dkeys d) /\
        incl (dkeys d) (labels A) /\
        forall w : string -> N -> V,
          (forall f, In f fields -> data_is g (e_attr E f) (w f)) ->
          tally_ok g A (fun n => vsum (map (fun f => w f n) fields)) d
    | UDataTally data _ => exists d, v = VNum d /\ NoDup (dkeys d) /\
        incl (dkeys d) (labels A) /\
        forall w, data_is g data w -> tally_ok g A w d
    | UElection parties _ => exists counts totals, v = VElec counts totals /\
        dkeys counts = dkeys parties /\
        (forall c d, In (c, d) counts -> NoDup (dkeys d) /\ incl (dkeys d) (labels A)) /\
        (forall c data d w, In (c, data) parties -> In (c, d) counts -> data_is g data w ->
           tally_ok g A w d) /\
        dkeys totals = labels A /\
        (forall w, (forall c data, In (c, data) parties -> data_is g data (w c)) ->
           forall p x, dget totals p = Some x ->
             exists y, x = Num y /\
               sums_to (fun n => vsum (map (fun c => w c n) (dkeys parties))) (member g A p) y)
    | UBoundaryNodes => exists s, v = VNodes s /\ NoDup s /\
        forall n, In n s <-> In n (g_nodes g) /\ e_bnode E n = true
    | UExteriorSet => exists d, v = VNodesBy d /\ NoDup (dkeys d) /\
        forall p, NoDup (dget_or [] d p) /\
          forall n, In n (dget_or [] d p) <-> member g A p n /\ e_bnode E n = true
    | UExterior => exists d, v = VNum d /\ NoDup (dkeys d) /\
        forall p, exists y, dget_or (Num c0) d p = Num y /\
          sums_to (e_bperim E) (fun n => member g A p n /\ e_bnode E n = true) y
    | UInterior => exists d, v = VNum d /\ NoDup (dkeys d) /\
        (forall p, In p (labels A) -> In p (dkeys d)) /\
        forall p x, dget d p = Some x -> exists y, x = Num y /\
          sums_to (e_sperim E) (cut_edge_of g A p) y
    | UPerimeter => exists d, v = VNum d /\ dkeys d = labels A /\
        forall p x, dget d p = Some x -> exists y z, x = Num (cadd y z) /\
          sums_to (e_bperim E) (fun n => member g A p n /\ e_bnode E n = true) y /\
          sums_to (e_sperim E) (cut_edge_of g A p) z
    | UFlips => v = VFlips (o_flips o)
    | UCounty field _ => exists d, v = VCounty d /\ NoDup (dkeys d) /\
        (forall c, In c (dkeys d) <-> exists n, In n (g_nodes g) /\ e_county E field n = Some c) /\
        (forall c i, dget d c = Some i -> county_ok g A (e_county E field) c i)
    | UFun f => v = f A
    end.

  (** [d'] is [d] with, possibly, extra entries holding the default value:
      what a collections.defaultdict may turn into by being looked up. *)
  Definition extends {X} (dflt : X) (d d' : dict P X) : Prop :=
    (forall p x, dget d p = Some x -> dget d' p = Some x) /\
    (forall p x, dget d p = None -> dget d' p = Some x -> x = dflt).

  (** When are two reads of updater [u] the same answer?  Equal values, except
      that the three updaters returning a defaultdict may gain default
      entries. *)
  Definition unchanged (v v' : value N P V L) : Prop :=
    match v, v' with
    | VEdgesBy d, VEdgesBy d' => extends [] d d'
    | VNodesBy d, VNodesBy d' => extends [] d d'
    | VNum d, VNum d' => extends (Num c0) d d'
    | _, _ => v' = v
    end.
  Definition same_answer (u : updater N P V L) (v v' : value N P V L) : Prop :=
    match u with
    | UCutEdgesByPart | UExteriorSet | UExterior => unchanged v v'
    | _ => v' = v
    end.

  (** The names an updater reads, and the updater it expects there. *)
  Definition reads (u : updater N P V L) : list (string * updater N P V L) :=
    match u with
    | UCutEdges => [("cut_edges"%string, UCutEdges)]
    | UCutEdgesByPart => [("cut_edges_by_part"%string, UCutEdgesByPart)]
    | UTally f a => [(a, UTally f a)]
    | UDataTally d a => [(a, UDataTally d a)]
    | UElection ps a => [(a, UElection ps a)]
    | UBoundaryNodes => [("boundary_nodes"%string, UBoundaryNodes)]
    | UExteriorSet => [("boundary_nodes"%string, UBoundaryNodes);
                       ("exterior_boundaries_as_a_set"%string, UExteriorSet)]
    | UExterior => [("boundary_nodes"%string, UBoundaryNodes);
                    ("exterior_boundaries"%string, UExterior)]
    | UInterior => [("cut_edges_by_part"%string, UCutEdgesByPart);
                    ("interior_boundaries"%string, UInterior)]
    | UPerimeter => [("exterior_boundaries"%string, UExterior);
                     ("interior_boundaries"%string, UInterior)]
    | UFlips => []
    | UCounty f a => [(a, UCounty f a)]
    | UFun _ => []
    end.

  (** Every updater finds the updaters it reads under the names it uses: the
      documented way of registering updaters (each under its own alias). *)
  Definition registered (E : env N P V L) : Prop :=
    forall k u, dget (e_updaters E) k = Some u ->
      forall k' u', In (k', u') (reads u) -> dget (e_updaters E) k' = Some u'.

  (** The graph is well formed and party dictionaries are dictionaries. *)
  Definition wf_env (E : env N P V L) : Prop :=
    wf_graph (e_graph E) /\
    forall k ps al, dget (e_updaters E) k = Some (UElection ps al) -> NoDup (dkeys ps).

  (** Flips in a session are dictionaries. *)
  Definition wf_op (x : op N P) : Prop :=
    match x with OFlip _ f => is_dict f | _ => True end.

  (** [h] holds the plans of a session: a plan is built from the dictionary
      [d], then an arbitrary sequence of flips of any plan, reads of any
      updater of any plan, and erasures of any parent link takes place.
      Operations that raise have no further effect and the session goes on. *)
  Definition session (E : env N P V L) (h : heap N P V L) : Prop :=
    wf_env E /\ registered E /\
    exists d h0 ops, is_dict d /\ root E d = Ok h0 /\ Forall wf_op ops /\ h = exec E ops h0.

  (** No district of the plan is empty. *)
  Definition no_empty_district (g : graph N) (A : assignment N P) : Prop :=
    forall p, In p (labels A) -> exists n, member g A p n.

  (** Two nodes of county [c] lie in different districts. *)
  Definition county_is_split (g : graph N) (A : assignment N P) (county : N -> option L) (c : L)
    : Prop :=
    exists m n, In m (g_nodes g) /\ In n (g_nodes g) /\ county m = Some c /\ county n = Some c /\
                district A m <> district A n.
End Spec.
