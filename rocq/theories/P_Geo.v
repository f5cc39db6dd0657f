(** C81, C82: adjacency and boundary lengths of graphs made from geometries. *)
From Coq Require Import String List Bool Arith ZArith Ring Permutation Lia ZifyBool ZifyNat.
From Verif Require Import Base M_Graph M_Partition S_Partition L_Partition M_Machine S_Machine L_Sums L_Cuts L_Answers P_Machine M_GraphData M_Geo L_Geo.
Import ListNotations.
Local Open Scope string_scope.
Local Open Scope nat_scope.
Local Open Scope list_scope.

(** ** Specification: what is expected of the geometry library. *)
Record geometry_laws {Geom V} (sh : shapely Geom V) (positive : V -> bool) : Prop := {
  (* the spatial index finds every geometry that meets the given one *)
  query_complete : forall l a p b, nth_error l p = Some b -> is_empty sh (intersection sh a b) = false -> In p (query sh l a);
  (* an empty geometry meets nothing, has no length and no area *)
  meets_empty : forall a b, is_empty sh b = true -> is_empty sh (intersection sh a b) = true;
  empty_length : forall a, is_empty sh a = true -> positive (len sh a) = false;
  empty_area : forall a, is_empty sh a = true -> positive (area sh a) = false;
  (* intersecting is symmetric *)
  sym_empty : forall a b, is_empty sh (intersection sh a b) = is_empty sh (intersection sh b a);
  sym_length : forall a b, len sh (intersection sh a b) = len sh (intersection sh b a);
  sym_area : forall a b, area sh (intersection sh a b) = area sh (intersection sh b a)
}.

Section Geo.
  Context {X Geom V : Type} {EX : EqB X} {OX : Ord X} {RV : CRing V}.
  Add Ring VRp : (@cring V RV).
  Variable sh : shapely Geom V.
  Variable positive : V -> bool.
  Implicit Types (gs : dict X Geom) (i j n : X) (w : V).

  (** Two different units of the collection whose intersection satisfies [ok]. *)
  Definition related gs (ok : Geom -> Prop) i j : Prop :=
    i <> j /\ exists a b, dget gs i = Some a /\ dget gs j = Some b /\ ok (intersection sh a b).

  (** ** Lemmas *)
  Lemma and_iff_when (Q R S : Prop) : (Q -> (R <-> S)) -> (Q /\ R <-> Q /\ S).
  Proof. tauto. Qed.
  Lemma dget_fold {A} gs (f : Geom -> A -> Geom) (a : A) (js : list X) : forall d j x,
    dget (fold_left (fun d j => match dget gs j with Some b => dset d j (f b a) | None => d end) js d) j = Some x <->
    (In j js /\ exists b, dget gs j = Some b /\ x = f b a) \/ (~ (In j js /\ In j (dkeys gs)) /\ dget d j = Some x).
  Proof.
    induction js as [|j0 js IH]; intros d j x; cbn [fold_left].
    - cbn [In]. split; [intro H; right; split; [tauto|exact H]|]. intros [[[] _]|[_ H]]; exact H.
    - rewrite IH. cbn [In]. destruct (dget gs j0) as [b0|] eqn:E0.
      + rewrite dget_dset. destruct (eqb_spec j j0) as [Ej|Hn]; [subst j0|].
        * assert (Hk : In j (dkeys gs)) by now apply dget_Some_key in E0. split.
          -- intros [[H1 H2]|[H1 H3]]; left; [split; [now right|exact H2]|]. split; [now left|]. exists b0. split; [exact E0|congruence].
          -- intros [[H1 (b & Hb & ->)]|[H1 H2]]; [|exfalso; apply H1; auto]. rewrite E0 in Hb. injection Hb as <-. destruct (in_dec eq_dec_of j js) as [Hin|Hin]; [left; eauto|right]. split; [tauto|reflexivity].
        * split; (intros [[H1 H2]|[H1 H2]]; [left|right]; (split; [|exact H2]); intuition congruence).
      + assert (Hk : ~ In j0 (dkeys gs)) by now apply dget_None. split.
        * intros [[H1 H2]|[H1 H2]]; [left; auto|right]. split; [|exact H2]. intros [[->|H3] H4]; tauto.
        * intros [[[->|H1] (b & Hb & ->)]|[H1 H2]]; [congruence|left; eauto|right]. split; [|exact H2]. tauto.
  Qed.
  Lemma nd_fold {A} gs (f : Geom -> A -> Geom) (a : A) (js : list X) : forall d, NoDup (dkeys d) ->
    NoDup (dkeys (fold_left (fun d j => match dget gs j with Some b => dset d j (f b a) | None => d end) js d)).
  Proof. induction js as [|j0 js IH]; intros d ND; cbn [fold_left]; [exact ND|]. apply IH. destruct (dget gs j0); [now apply NoDup_dset|exact ND]. Qed.

  (** Entries of [intersections_with_neighbors]. *)
  Definition near gs (a : Geom) i : list X :=
    flat_map (fun p => match nth_error gs p with
                       | Some (j, b) => if negb (is_empty sh b) && negb (eqb j i) then [j] else []
                       | None => []
                       end) (query sh (map snd gs) a).
  Lemma in_near gs a i j : NoDup (dkeys gs) -> In j (near gs a i) <-> j <> i /\ exists p b, In p (query sh (map snd gs) a) /\ nth_error gs p = Some (j, b) /\ is_empty sh b = false.
  Proof.
    intro ND. unfold near. rewrite in_flat_map. split.
    - intros (p & Hp & H). destruct (nth_error gs p) as [[j' b]|] eqn:E; [|destruct H]. destruct (is_empty sh b) eqn:Eb; cbn [negb andb] in H; [destruct H|]. destruct (eqb_spec j' i) as [->|Hn]; cbn [negb] in H; [destruct H|]. destruct H as [<-|[]]. split; [exact Hn|]. eauto.
    - intros (Hn & p & b & Hp & E & Eb). exists p. split; [exact Hp|]. rewrite E, Eb. destruct (eqb_spec j i); [contradiction|]. now left.
  Qed.
  Lemma in_pairs gs i (ds : dict X Geom) : NoDup (dkeys gs) -> In (i, ds) (intersections_with_neighbors sh gs) <->
    exists a, dget gs i = Some a /\ ds = fold_left (fun d j => match dget gs j with Some b => dset d j (intersection sh a b) | None => d end) (near gs a i) [].
  Proof.
    intro ND. unfold intersections_with_neighbors, neighboring_geometries. rewrite map_map, in_map_iff. cbn [fst snd]. split.
    - intros ([i' a] & [= -> <-] & Hin). cbn [fst snd]. apply In_dget in Hin; [|exact ND]. exists a. split; [exact Hin|]. unfold near. now rewrite Hin.
    - intros (a & Ha & ->). exists (i, a). cbn [fst snd]. split; [|now apply dget_In]. f_equal. unfold near. now rewrite Ha.
  Qed.
  Lemma pairs_keys gs : map fst (intersections_with_neighbors sh gs) = dkeys gs.
  Proof. unfold intersections_with_neighbors, neighboring_geometries. rewrite !map_map. reflexivity. Qed.
  Lemma in_intersection gs i (ds : dict X Geom) j x : NoDup (dkeys gs) -> In (i, ds) (intersections_with_neighbors sh gs) -> In (j, x) ds <->
    exists a b, dget gs i = Some a /\ dget gs j = Some b /\ In j (near gs a i) /\ x = intersection sh a b.
  Proof.
    intros ND Hin. apply in_pairs in Hin; [|exact ND]. destruct Hin as (a & Ha & ->).
    rewrite <- (dget_iff _ _ _ (nd_fold gs (fun b a => intersection sh a b) a (near gs a i) [] (NoDup_nil _))), (dget_fold gs (fun b a => intersection sh a b) a (near gs a i) [] j x). cbn [dget]. split.
    - intros [[H1 (b & H2 & ->)]|[_ H]]; [|discriminate]. exists a, b. auto.
    - intros (a' & b & H1 & H2 & H3 & ->). rewrite Ha in H1. injection H1 as <-. left. eauto.
  Qed.
  Lemma near_complete gs a i j b : geometry_laws sh positive -> NoDup (dkeys gs) -> i <> j -> dget gs j = Some b -> is_empty sh (intersection sh a b) = false -> In j (near gs a i).
  Proof.
    intros Lw ND Hij Hb He. apply in_near; [exact ND|]. split; [congruence|]. apply dget_In in Hb. apply In_nth_error in Hb. destruct Hb as [p Hp]. exists p, b. split; [|split; [exact Hp|]].
    - apply (query_complete _ _ Lw) with b; [|exact He]. rewrite nth_error_map, Hp. reflexivity.
    - destruct (is_empty sh b) eqn:E; [|reflexivity]. apply (meets_empty _ _ Lw a) in E. congruence.
  Qed.
  Lemma queen_keys gs : dkeys (queen sh gs) = dkeys gs.
  Proof. unfold queen, dkeys. rewrite map_map. cbn [fst]. apply pairs_keys. Qed.
  Lemma rook_keys gs : dkeys (rook sh positive gs) = dkeys gs.
  Proof. unfold rook, dkeys. rewrite map_map. cbn [fst]. apply queen_keys. Qed.
  Lemma queen_entries gs i j w : NoDup (dkeys gs) -> In ((i, j), w) (entries (queen sh gs)) <->
    exists a b, dget gs i = Some a /\ dget gs j = Some b /\ In j (near gs a i) /\ is_empty sh (intersection sh a b) = false /\ w = len sh (intersection sh a b).
  Proof.
    intro ND. unfold entries. rewrite in_flat_map. split.
    - intros ([i' ws] & Hin & H). cbn [fst snd] in H. apply in_map_iff in H. destruct H as ([j' w'] & [= -> -> ->] & H). unfold queen in Hin. apply in_map_iff in Hin. destruct Hin as ([i2 ds] & [= -> <-] & Hin). cbn [fst snd] in *.
      apply in_map_iff in H. destruct H as ([j2 x] & [= -> <-] & H). apply filter_In in H. destruct H as [H He]. cbn [fst snd] in *. apply (in_intersection gs i ds j x ND Hin) in H. destruct H as (a & b & H1 & H2 & H3 & ->). exists a, b. apply negb_true_iff in He. auto.
    - intros (a & b & Ha & Hb & Hn & He & ->). set (ds := fold_left (fun d j => match dget gs j with Some b => dset d j (intersection sh a b) | None => d end) (near gs a i) []).
      assert (Hin : In (i, ds) (intersections_with_neighbors sh gs)) by (apply in_pairs; eauto).
      exists (i, map (fun jg => (fst jg, len sh (snd jg))) (filter (fun jg => negb (is_empty sh (snd jg))) ds)). split; [unfold queen; apply in_map_iff; exists (i, ds); auto|]. cbn [fst snd].
      apply in_map_iff. exists (j, len sh (intersection sh a b)). split; [reflexivity|]. apply in_map_iff. exists (j, intersection sh a b). split; [reflexivity|]. apply filter_In. cbn [snd]. rewrite He. split; [|reflexivity]. apply (in_intersection gs i ds j _ ND Hin). exists a, b. auto.
  Qed.
  Lemma rook_entries gs i j w : In ((i, j), w) (entries (rook sh positive gs)) <-> In ((i, j), w) (entries (queen sh gs)) /\ positive w = true.
  Proof.
    unfold entries. rewrite !in_flat_map. split.
    - intros ([i' ws] & Hin & H). unfold rook in Hin. apply in_map_iff in Hin. destruct Hin as ([i2 ws2] & [= -> <-] & Hin). cbn [fst snd] in *. apply in_map_iff in H. destruct H as ([j' w'] & [= -> -> ->] & H). apply filter_In in H. destruct H as [H Hp]. cbn [snd] in Hp. split; [|exact Hp].
      exists (i, ws2). split; [exact Hin|]. cbn [fst snd]. apply in_map_iff. exists (j, w). auto.
    - intros [([i' ws] & Hin & H) Hp]. cbn [fst snd] in H. apply in_map_iff in H. destruct H as ([j' w'] & [= -> -> ->] & H). exists (i, filter (fun jw => positive (snd jw)) ws). split; [unfold rook; apply in_map_iff; exists (i, ws); auto|]. cbn [fst snd]. apply in_map_iff. exists (j, w). split; [reflexivity|]. apply filter_In. auto.
  Qed.
  (** Both adjacencies give entries between distinct known units. *)
  Lemma neighbors_cases gs adjacency a : geo_neighbors sh positive gs adjacency = Ok a -> (adjacency = "rook" /\ a = rook sh positive gs) \/ (adjacency = "queen" /\ a = queen sh gs).
  Proof. unfold geo_neighbors. destruct (eqb_spec adjacency "rook") as [->|]; [intros [= <-]; auto|]. destruct (eqb_spec adjacency "queen") as [->|]; [intros [= <-]; auto|discriminate]. Qed.
  Lemma neighbors_good gs adjacency a : NoDup (dkeys gs) -> geo_neighbors sh positive gs adjacency = Ok a ->
    dkeys a = dkeys gs /\ forall u v w, In ((u, v), w) (entries a) -> In u (dkeys a) /\ In v (dkeys a) /\ u <> v.
  Proof.
    intros ND H. apply neighbors_cases in H.
    assert (Q : forall u v w, In ((u, v), w) (entries (queen sh gs)) -> In u (dkeys gs) /\ In v (dkeys gs) /\ u <> v).
    { intros u v w Hw. apply queen_entries in Hw; [|exact ND]. destruct Hw as (a0 & b & Ha & Hb & Hn & _). apply in_near in Hn; [|exact ND]. split; [now apply dget_Some_key in Ha|]. split; [now apply dget_Some_key in Hb|]. intuition congruence. }
    destruct H as [[_ ->]|[_ ->]].
    - split; [apply rook_keys|]. rewrite rook_keys. intros u v w Hw. apply rook_entries in Hw. now apply (Q u v w).
    - split; [apply queen_keys|]. rewrite queen_keys. exact Q.
  Qed.

  (** ** C81 *)

  (** The graph made with queen adjacency connects exactly the pairs whose
      intersection is not empty, and stores its length. *)
  Theorem C81_queen : forall gs, geometry_laws sh positive -> is_dict gs ->
    let g := graph_of_dicts (queen sh gs) in
    pg_nodes g = dkeys gs /\ wf_graph (plain g) /\
    (forall i j, adj (plain g) i j <-> related gs (fun x => is_empty sh x = false) i j) /\
    (forall i j a b, adj (plain g) i j -> dget gs i = Some a -> dget gs j = Some b -> shared g (i, j) = len sh (intersection sh a b)).
  Proof.
    intros gs Lw ND g. destruct (neighbors_good gs "queen" (queen sh gs) ND eq_refl) as [Ka Ga]. assert (NDa : NoDup (dkeys (queen sh gs))) by now rewrite Ka.
    split; [unfold g; now rewrite (good_nodes _ NDa Ga)|]. split; [apply (good_wf _ NDa Ga)|]. split.
    - intros i j. unfold g. rewrite (good_adj _ NDa Ga). split.
      + intros [w [H|H]]; pose proof (Ga _ _ _ H) as (_ & _ & Hij); apply queen_entries in H; try exact ND; destruct H as (a & b & Ha & Hb & _ & He & _).
        * split; [exact Hij|]. eauto.
        * split; [congruence|]. exists b, a. rewrite (sym_empty _ _ Lw). auto.
      + intros [Hij (a & b & Ha & Hb & He)]. exists (len sh (intersection sh a b)). left. apply queen_entries; [exact ND|]. exists a, b. split; [exact Ha|]. split; [exact Hb|]. split; [eapply near_complete; eauto|auto].
    - intros i j a b H Ha Hb. pose proof (shared_value _ NDa Ga i j H) as [Hw|Hw]; apply queen_entries in Hw; try exact ND; destruct Hw as (a' & b' & Ha' & Hb' & _ & _ & Hw).
      + unfold g. rewrite Hw. congruence.
      + unfold g. rewrite Hw, (sym_length _ _ Lw). congruence.
  Qed.
  (** Rook adjacency: the pairs whose intersection has positive length. *)
  Theorem C81_rook : forall gs, geometry_laws sh positive -> is_dict gs ->
    let g := graph_of_dicts (rook sh positive gs) in
    pg_nodes g = dkeys gs /\ wf_graph (plain g) /\
    (forall i j, adj (plain g) i j <-> related gs (fun x => positive (len sh x) = true) i j) /\
    (forall i j a b, adj (plain g) i j -> dget gs i = Some a -> dget gs j = Some b -> shared g (i, j) = len sh (intersection sh a b)).
  Proof.
    intros gs Lw ND g. destruct (neighbors_good gs "rook" (rook sh positive gs) ND eq_refl) as [Ka Ga]. assert (NDa : NoDup (dkeys (rook sh positive gs))) by now rewrite Ka.
    split; [unfold g; now rewrite (good_nodes _ NDa Ga)|]. split; [apply (good_wf _ NDa Ga)|]. split.
    - intros i j. unfold g. rewrite (good_adj _ NDa Ga). split.
      + intros [w [H|H]]; pose proof (Ga _ _ _ H) as (_ & _ & Hij); apply rook_entries in H; destruct H as [H Hp]; apply queen_entries in H; try exact ND; destruct H as (a & b & Ha & Hb & _ & He & ->).
        * split; [exact Hij|]. eauto.
        * split; [congruence|]. exists b, a. rewrite (sym_length _ _ Lw). auto.
      + intros [Hij (a & b & Ha & Hb & Hp)]. exists (len sh (intersection sh a b)). left. apply rook_entries. split; [|exact Hp].
        assert (He : is_empty sh (intersection sh a b) = false) by (destruct (is_empty sh (intersection sh a b)) eqn:E; [apply (empty_length _ _ Lw) in E; congruence|reflexivity]).
        apply queen_entries; [exact ND|]. exists a, b. split; [exact Ha|]. split; [exact Hb|]. split; [eapply near_complete; eauto|auto].
    - intros i j a b H Ha Hb. pose proof (shared_value _ NDa Ga i j H) as [Hw|Hw]; apply rook_entries in Hw; destruct Hw as [Hw _]; apply queen_entries in Hw; try exact ND; destruct Hw as (a' & b' & Ha' & Hb' & _ & _ & Hw).
      + unfold g. rewrite Hw. congruence.
      + unfold g. rewrite Hw, (sym_length _ _ Lw). congruence.
  Qed.
  (** Rook edges are queen edges, even if the
      geometry library breaks the laws above. *)
  Theorem C81_contained : forall gs i j, is_dict gs ->
    adj (plain (graph_of_dicts (rook sh positive gs))) i j -> adj (plain (graph_of_dicts (queen sh gs))) i j.
  Proof.
    intros gs i j ND. destruct (neighbors_good gs "rook" (rook sh positive gs) ND eq_refl) as [Kr Gr]. destruct (neighbors_good gs "queen" (queen sh gs) ND eq_refl) as [Kq Gq].
    rewrite (good_adj _ (eq_ind_r (@NoDup X) ND Kr) Gr), (good_adj _ (eq_ind_r (@NoDup X) ND Kq) Gq). intros [w H]. exists w. rewrite !rook_entries in H. tauto.
  Qed.
  Theorem C81_kinds : forall gs adjacency,
    (adjacency = "rook" -> geo_neighbors sh positive gs adjacency = Ok (rook sh positive gs)) /\
    (adjacency = "queen" -> geo_neighbors sh positive gs adjacency = Ok (queen sh gs)) /\
    (adjacency <> "rook" -> adjacency <> "queen" -> geo_neighbors sh positive gs adjacency = Err ValueError).
  Proof.
    intros gs adjacency. unfold geo_neighbors. split; [intros ->; reflexivity|]. split; [intros ->; reflexivity|]. intros H1 H2. destruct (eqb_spec adjacency "rook"); [contradiction|]. destruct (eqb_spec adjacency "queen"); [contradiction|]. reflexivity.
  Qed.
  (** The overlap warning names exactly the pairs whose intersection has
      positive area. *)
  Theorem C81_overlaps : forall gs i j, geometry_laws sh positive -> is_dict gs ->
    In (i, j) (overlaps sh positive (intersections_with_neighbors sh gs)) <-> leb i j = true /\ related gs (fun x => positive (area sh x) = true) i j.
  Proof.
    intros gs i j Lw ND. unfold overlaps. rewrite In_set_of, in_flat_map. split.
    - intros ([i' ds] & Hin & H). cbn [fst snd] in H. apply in_map_iff in H. destruct H as ([j' x] & Hs & H). apply filter_In in H. destruct H as [H Hp]. cbn [fst snd] in *. apply (in_intersection gs i' ds j' x ND Hin) in H. destruct H as (a & b & Ha & Hb & Hn & ->). apply in_near in Hn; [|exact ND]. destruct Hn as [Hn _].
      unfold sorted_pair in Hs. destruct (leb i' j') eqn:El; injection Hs as <- <-.
      + split; [exact El|]. split; [congruence|]. eauto.
      + split; [destruct (leb_total i' j'); congruence|]. split; [exact Hn|]. exists b, a. rewrite (sym_area _ _ Lw). auto.
    - intros [Hle [Hij (a & b & Ha & Hb & Hp)]]. assert (He : is_empty sh (intersection sh a b) = false) by (destruct (is_empty sh (intersection sh a b)) eqn:E; [apply (empty_area _ _ Lw) in E; congruence|reflexivity]).
      set (ds := fold_left (fun d j => match dget gs j with Some b => dset d j (intersection sh a b) | None => d end) (near gs a i) []).
      assert (Hin : In (i, ds) (intersections_with_neighbors sh gs)) by (apply in_pairs; eauto). exists (i, ds). split; [exact Hin|]. cbn [fst snd]. apply in_map_iff. exists (j, intersection sh a b). cbn [fst snd]. split; [unfold sorted_pair; now rewrite Hle|]. apply filter_In. split; [|exact Hp].
      apply (in_intersection gs i ds j _ ND Hin). exists a, b. split; [exact Ha|]. split; [exact Hb|]. split; [eapply near_complete; eauto|reflexivity].
  Qed.
  (** Islands are the units with no neighbour. *)
  Theorem C81_islands : forall gs adjacency a n, is_dict gs -> geo_neighbors sh positive gs adjacency = Ok a ->
    In n (islands (graph_of_dicts a)) <-> In n (dkeys gs) /\ forall m, ~ adj (plain (graph_of_dicts a)) n m.
  Proof.
    intros gs adjacency a n ND Hn. destruct (neighbors_good gs adjacency a ND Hn) as [Ka Ga]. assert (NDa : NoDup (dkeys a)) by now rewrite Ka. unfold islands. rewrite filter_In, (good_nodes _ NDa Ga), Ka, Nat.eqb_eq. apply and_iff_compat_l.
    unfold degree, adj. cbn [plain g_edges]. induction (pg_edges (graph_of_dicts a)) as [|[[u v] w] l IH]; cbn [map fst snd].
    - change (list_sum []) with 0. split; [intros _ m [[]|[]]|reflexivity].
    - match goal with |- list_sum (?x :: ?l) = 0 <-> _ => change (list_sum (x :: l)) with (x + list_sum l) end. cbn [In]. destruct (eqb_spec u n) as [->|Hu]; [split; [lia|intro H; exfalso; apply (H v); auto]|]. destruct (eqb_spec v n) as [->|Hv]; [split; [lia|intro H; exfalso; apply (H u); auto]|].
      assert (E : forall y, 0 + 0 + y = 0 <-> y = 0) by (intro; lia). rewrite E, IH. split; intros H m Hm; apply (H m); intuition congruence.
  Qed.

  (** ** C82 *)
  Lemma fold_each {D : Type} (step : dict X D -> X -> res (dict X D)) (upd : X -> D -> D) (ns : list X) : NoDup ns ->
    (forall s n d, In n ns -> dget s n = Some d -> step s n = Ok (dset s n (upd n d))) ->
    forall s, (forall n, In n ns -> In n (dkeys s)) ->
    exists s', foldM step ns s = Ok s' /\ dkeys s' = dkeys s /\
      forall n, dget s' n = if mem n ns then option_map (upd n) (dget s n) else dget s n.
  Proof.
    intros ND. induction ND as [|n0 ns Hn ND IH]; intros Hs s Hk; cbn [foldM].
    - exists s. split; [reflexivity|]. split; [reflexivity|]. reflexivity.
    - destruct (proj1 (dget_key _ _) (Hk n0 (or_introl eq_refl))) as [d0 Hd0]. rewrite (Hs s n0 d0 (or_introl eq_refl) Hd0). cbn [bind].
      assert (Ks : dkeys (dset s n0 (upd n0 d0)) = dkeys s) by (apply dkeys_dset_mem; now apply dget_Some_key in Hd0).
      destruct (IH (fun s n d H => Hs s n d (or_intror H)) (dset s n0 (upd n0 d0))) as (s' & E & K & Hg); [intros n H; rewrite Ks; apply Hk; now right|].
      exists s'. split; [exact E|]. split; [congruence|]. intro n. rewrite Hg, dget_dset. assert (Em : mem n (n0 :: ns) = eqb n n0 || mem n ns).
      { destruct (eqb_spec n n0) as [->|Hne]; cbn [orb]; [apply mem_In; now left|]. destruct (mem n ns) eqn:E1; [apply mem_In; right; now apply mem_In|]. destruct (mem n (n0 :: ns)) eqn:E2; [|reflexivity]. apply mem_In in E2. destruct E2 as [E2|E2]; [congruence|]. apply mem_In in E2. congruence. }
      rewrite Em. clear Em. destruct (eqb_spec n n0) as [E0|Hne]; cbn [orb]; [|reflexivity]. rewrite E0. rewrite Hd0. destruct (mem n0 ns) eqn:E1; [apply mem_In in E1; contradiction|reflexivity].
  Qed.

  Variable xbool : bool -> X.
  Variable xnum : V -> X.
  Definition on_boundary gs (a : Geom) : bool := intersects sh (boundary sh (unary_union sh (map snd gs))) (boundary sh a).
  Definition no_attributes (g : pgraph X V) : dict X (dict string X) := map (fun n => (n, [])) (pg_nodes g).

  (** Every unit learns whether it is on the boundary; for a boundary unit the
      exterior length and the lengths shared with its neighbours make up its
      perimeter; other units get no exterior length. *)
  Theorem C82_unit : forall gs adjacency a, is_dict gs -> geo_neighbors sh positive gs adjacency = Ok a ->
    let g := graph_of_dicts a in
    exists s, add_boundary_perimeters sh xbool xnum g gs (no_attributes g) = Ok s /\ dkeys s = dkeys gs /\
      forall n unit, dget gs n = Some unit -> exists d, dget s n = Some d /\
        dget d "boundary_node" = Some (xbool (on_boundary gs unit)) /\
        (on_boundary gs unit = true -> exists x y, dget d "boundary_perim" = Some (xnum x) /\
           sums_to (fun m => shared g (n, m)) (fun m => adj (plain g) n m) y /\ cadd x y = len sh (boundary sh unit)) /\
        (on_boundary gs unit = false -> dget d "boundary_perim" = None).
  Proof.
    intros gs adjacency a ND Hn g. destruct (neighbors_good gs adjacency a ND Hn) as [Ka Ga]. assert (NDa : NoDup (dkeys a)) by now rewrite Ka. assert (Nn : pg_nodes g = dkeys gs) by (unfold g; now rewrite (good_nodes _ NDa Ga)).
    set (upd := fun n (d : dict string X) => match dget gs n with
      | Some u => if on_boundary gs u then dset (dset d "boundary_node" (xbool true)) "boundary_perim" (xnum (csub (len sh (boundary sh u)) (shared_perimeter g n))) else dset d "boundary_node" (xbool false)
      | None => d end).
    assert (K0 : dkeys (no_attributes g) = pg_nodes g) by (unfold no_attributes, dkeys; rewrite map_map; apply map_id).
    destruct (fold_each (fun s n => b <- boundary_unit sh gs n ;; d <- of_option KeyError (dget s n) ;;
      let d1 := dset d "boundary_node" (xbool b) in if b then x <- exterior_perimeter sh g gs n ;; Ok (dset s n (dset d1 "boundary_perim" (xnum x))) else Ok (dset s n d1)) upd (pg_nodes g)) with (s := no_attributes g) as (s & Es & Ks & Hg).
    - now rewrite Nn.
    - intros s n d Hin Hd. rewrite Nn in Hin. destruct (proj1 (dget_key _ _) Hin) as [u Hu]. unfold boundary_unit, exterior_perimeter, total_perimeter, upd. rewrite Hu. cbn [of_option bind]. fold (on_boundary gs u). rewrite Hd. cbn [of_option bind]. destruct (on_boundary gs u); reflexivity.
    - intros n Hin. now rewrite K0.
    - exists s. split; [exact Es|]. split; [congruence|]. intros n u Hu. assert (Hin : In n (pg_nodes g)) by (rewrite Nn; now apply dget_Some_key in Hu). exists (upd n []).
      assert (E0 : dget (no_attributes g) n = Some []). { apply In_dget; [rewrite K0, Nn; exact ND|]. unfold no_attributes. apply in_map_iff. eauto. }
      rewrite Hg, E0. rewrite (proj2 (mem_In n (pg_nodes g)) Hin). cbn [option_map]. split; [reflexivity|]. unfold upd. rewrite Hu. destruct (on_boundary gs u).
      + split; [reflexivity|]. split; [|discriminate]. intros _. do 2 eexists. split; [reflexivity|]. split; [apply (shared_perimeter_sum _ NDa Ga)|]. fold g. ring.
      + split; [reflexivity|]. split; [discriminate|]. reflexivity.
  Qed.

  (** The perimeter reported for a district, whatever the history of flips and
      reads: the perimeters of its units, less twice the lengths shared inside
      it, less what the neighbours of units off the boundary leave uncovered. *)
  Section District.
    Context {P L : Type} {EP : EqB P} {EL : EqB L}.
    Variables (gs : dict X Geom) (adjacency : string) (a : dict X (dict X V)).
    Variables (attr : string -> X -> option (num V)) (county : string -> X -> option L) (us : dict string (updater X P V L)).
    Notation g := (graph_of_dicts a).
    Notation E := (geo_env sh gs g attr county us).
    Definition perimeter_of n : V := match dget gs n with Some u => len sh (boundary sh u) | None => c0 end.
    Definition off_boundary n : Prop := exists u, dget gs n = Some u /\ on_boundary gs u = false.
    (** The part of a unit's perimeter not shared with a neighbour. *)
    Definition uncovered n w : Prop := exists y, sums_to (fun m => shared g (n, m)) (fun m => adj (plain g) n m) y /\ w = csub (perimeter_of n) y.
    Definition inner_edge (A : assignment X P) (p : P) (e : X * X) : Prop :=
      leb (fst e) (snd e) = true /\ adj (plain g) (fst e) (snd e) /\ district A (fst e) = Some p /\ district A (snd e) = Some p.

    Theorem C82_district : forall h b o k, is_dict gs -> geo_neighbors sh positive gs adjacency = Ok a ->
      session E h -> nth_error h b = Some o -> dget us k = Some UPerimeter -> In "cut_edges" (dkeys us) ->
      exists d, fst (read E b k h) = Ok (VNum d) /\ dkeys d = labels (o_assign o) /\
        forall p, In p (labels (o_assign o)) -> exists x total inside rest gap,
          dget d p = Some (Num x) /\
          sums_to perimeter_of (member (plain g) (o_assign o) p) total /\
          sums_to (shared g) (inner_edge (o_assign o) p) inside /\
          (forall n, uncovered n (gap n)) /\ sums_to gap (fun n => member (plain g) (o_assign o) p n /\ off_boundary n) rest /\
          cadd x (cadd (cadd inside inside) rest) = total.
    Proof.
      intros h b o k ND Hn HS Ho Hu Hc. destruct (neighbors_good gs adjacency a ND Hn) as [Ka Ga]. assert (NDa : NoDup (dkeys a)) by now rewrite Ka. assert (Nn : pg_nodes g = dkeys gs) by now rewrite (good_nodes _ NDa Ga).
      destruct (C13_perimeter E h b o k HS Ho Hu Hc) as (d & Hd & Kd & Hp). exists d. split; [exact Hd|]. split; [exact Kd|]. intros p Lp. destruct (Hp p Lp) as (ext & int & Dp & Sext & Sint). clear Hp.
      set (A := o_assign o) in *. cbn [geo_env e_graph e_bnode e_bperim e_sperim] in *.
      pose proof (session_coherent _ h b o HS Ho) as Coh. cbn [geo_env e_graph] in Coh. fold A in Coh.
      set (ms := filter (fun n => eqb (district A n) (Some p)) (dkeys gs)).
      assert (Hms : forall n, In n ms <-> member (plain g) A p n).
      { intro n. unfold ms, member. cbn [plain g_nodes]. rewrite filter_In, Nn. split; intros [H1 H2]; (split; [exact H1|]); [now apply eqb_true in H2|now apply eqb_eq]. }
      assert (Nms : NoDup ms) by now apply NoDup_filter.
      assert (Mem : forall n, mem n ms = true <-> district A n = Some p).
      { intro n. rewrite mem_In, Hms. unfold member. split; [tauto|]. intro H. split; [|exact H]. apply (coh_dom _ _ Coh). unfold district in H. now apply dget_Some_key in H. }
      set (gap := fun n => csub (perimeter_of n) (shared_perimeter g n)).
      set (onb := fun n => match boundary_unit sh gs n with Ok b => b | _ => false end) in *.
      exists (cadd ext int), (vsum (map perimeter_of ms)), (vsum (map snd (filter (fun e => mem (fst (fst e)) ms && mem (snd (fst e)) ms) (pg_edges g)))), (vsum (map gap (filter (fun n => negb (onb n)) ms))), gap.
      split; [exact Dp|]. split; [exists ms; auto|]. split.
      { eapply sums_to_ext; [|apply (sum_edges _ NDa Ga (fun e => mem (fst e) ms && mem (snd e) ms))]; [|intros u v; cbn [fst snd]; apply andb_comm].
        intros [u v]. unfold inner_edge. cbn [fst snd]. rewrite andb_true_iff, !Mem. tauto. }
      split; [intro n; exists (shared_perimeter g n); split; [apply (shared_perimeter_sum _ NDa Ga)|reflexivity]|]. split.
      { exists (filter (fun n => negb (onb n)) ms). split; [now apply NoDup_filter|]. split; [|reflexivity]. intro n. rewrite filter_In, Hms, negb_true_iff. apply and_iff_when.
        intro Hm. destruct Hm as [Hm _]. cbn [plain g_nodes] in Hm. rewrite Nn in Hm. destruct (proj1 (dget_key _ _) Hm) as [u Hu']. unfold onb, boundary_unit, off_boundary. rewrite Hu'. cbn [of_option bind]. fold (on_boundary gs u). split; [intro H; eauto|]. intros (u' & [= <-] & H). exact H. }
      assert (Eext : ext = vsum (map gap (filter onb ms))).
      { apply (sums_to_fun (fun n => match exterior_perimeter sh g gs n with Ok x => x | _ => c0 end) (fun n => In n (g_nodes (plain g)) /\ district A n = Some p /\ onb n = true)); [exact Sext|].
        exists (filter onb ms). split; [now apply NoDup_filter|]. split; [intro n; rewrite filter_In, Hms; unfold member; tauto|]. f_equal. apply map_ext_in. intros n Hin. apply filter_In in Hin. destruct Hin as [Hin _]. apply Hms in Hin. destruct Hin as [Hin _]. cbn [plain g_nodes] in Hin. rewrite Nn in Hin.
        destruct (proj1 (dget_key _ _) Hin) as [u Hu']. unfold gap, perimeter_of, exterior_perimeter, total_perimeter. now rewrite Hu'. }
      assert (Eint : int = vsum (map snd (filter (fun e => xorb (mem (fst (fst e)) ms) (mem (snd (fst e)) ms)) (pg_edges g)))).
      { eapply sums_to_fun; [exact Sint|]. eapply sums_to_ext; [|apply (sum_edges _ NDa Ga (fun e => xorb (mem (fst e) ms) (mem (snd e) ms)))]; [|intros u v; cbn [fst snd]; apply xorb_comm].
        intros [u v]. unfold cut_edge_of, cut_edge. cbn [fst snd]. destruct (mem u ms) eqn:Eu, (mem v ms) eqn:Ev; cbn [xorb]; rewrite ?Mem in *.
        - split; [intuition discriminate|]. intros [[_ [_ H]] _]. congruence.
        - assert (Ev' : district A v <> Some p) by (intro H; apply Mem in H; congruence). split; [|tauto]. intros (H1 & H2 & _). split; [|auto]. split; [exact H1|]. split; [exact H2|congruence].
        - assert (Eu' : district A u <> Some p) by (intro H; apply Mem in H; congruence). split; [|tauto]. intros (H1 & H2 & _). split; [|auto]. split; [exact H1|]. split; [exact H2|congruence].
        - assert (Eu' : district A u <> Some p) by (intro H; apply Mem in H; congruence). assert (Ev' : district A v <> Some p) by (intro H; apply Mem in H; congruence). split; [intuition discriminate|tauto]. }
      pose proof (shared_over _ NDa Ga ms Nms) as Sh. rewrite <- Eint in Sh.
      assert (Split : cadd (vsum (map gap (filter onb ms))) (vsum (map gap (filter (fun n => negb (onb n)) ms))) = csub (vsum (map perimeter_of ms)) (vsum (map (shared_perimeter g) ms))).
      { rewrite !vsum_filter. rewrite <- vsum_plus. clear. unfold gap. induction ms as [|n l IH]; [cbn; ring|]. cbn [map]. rewrite !vsum_cons, IH. destruct (onb n); cbn [negb]; ring. }
      rewrite Sh in Split. rewrite Eext. clear - Split.
      match type of Split with cadd ?a ?b = csub ?t (cadd ?i (cadd ?i ?c)) => transitivity (cadd (cadd a b) (cadd i (cadd i c))); [ring|]; rewrite Split; ring end.
    Qed.
    (** So, when units off the boundary are surrounded by neighbours, the
        reported perimeter is the length of the district's outline. *)
    Theorem C82_outline : forall h b o k, is_dict gs -> geo_neighbors sh positive gs adjacency = Ok a ->
      session E h -> nth_error h b = Some o -> dget us k = Some UPerimeter -> In "cut_edges" (dkeys us) ->
      (forall n, off_boundary n -> uncovered n c0) ->
      exists d, fst (read E b k h) = Ok (VNum d) /\ dkeys d = labels (o_assign o) /\
        forall p, In p (labels (o_assign o)) -> exists x total inside,
          dget d p = Some (Num x) /\ sums_to perimeter_of (member (plain g) (o_assign o) p) total /\
          sums_to (shared g) (inner_edge (o_assign o) p) inside /\ x = csub total (cadd inside inside).
    Proof.
      intros h b o k ND Hn HS Ho Hu Hc Hoff. destruct (C82_district h b o k ND Hn HS Ho Hu Hc) as (d & Hd & Kd & Hp). exists d. split; [exact Hd|]. split; [exact Kd|]. intros p Lp. destruct (Hp p Lp) as (x & total & inside & rest & gap & H1 & H2 & H3 & H4 & H5 & H6). exists x, total, inside. split; [exact H1|]. split; [exact H2|]. split; [exact H3|].
      assert (rest = c0) as ->.
      { destruct H5 as (l & _ & I5 & ->). rewrite <- (vsum_zero l). f_equal. apply map_ext_in. intros n Hin. apply I5 in Hin. destruct Hin as [_ Hin]. destruct (Hoff n Hin) as (y & Sy & Ey). destruct (H4 n) as (y' & Sy' & ->). rewrite (sums_to_fun _ _ _ _ Sy' Sy). now symmetry. }
      rewrite <- H6. ring.
    Qed.
  End District.
End Geo.

(** ** Concrete case: geometries are sets of boundary segments (bit masks, with
    segment number k of length 2^k); segments shared by two units cancel in
    the union.  Three units in a row: the middle one is off the boundary. *)
Definition segments : shapely N Z := {|
  is_empty := N.eqb 0; area := fun _ => 0%Z; len := Z.of_N; intersection := N.land; boundary := fun a => a;
  unary_union := fun l => fold_left N.lxor l 0%N; intersects := fun a b => negb (N.eqb 0 (N.land a b)); is_valid := fun _ => true;
  query := fun l _ => seq 0 (List.length l) |}.
Definition three_units : dict nat N := [(1, 3%N); (2, 6%N); (3, 12%N)].
Example C81_nonvacuous : geometry_laws segments (Z.ltb 0) /\ is_dict three_units /\
  graph_of_dicts (rook segments (Z.ltb 0) three_units) = mkPG [1; 2; 3] [((1, 2), 2%Z); ((2, 3), 4%Z)].
Proof.
  split; [|split; [unfold is_dict; cbn; repeat constructor; cbn; intuition discriminate|reflexivity]]. split.
  - intros l a p b H _. cbn. apply in_seq. assert (p < List.length l) by (apply nth_error_Some; congruence). lia.
  - intros a b H. destruct b; [|discriminate]. change (N.eqb 0 (N.land a 0) = true). now rewrite N.land_0_r.
  - intros a H. destruct a; [reflexivity|discriminate].
  - reflexivity.
  - intros a b. change (N.eqb 0 (N.land a b) = N.eqb 0 (N.land b a)). now rewrite N.land_comm.
  - intros a b. cbn. now rewrite N.land_comm.
  - reflexivity.
Qed.
Definition three_graph : pgraph nat Z := mkPG [1; 2; 3] [((1, 2), 2%Z); ((2, 3), 4%Z)].
Definition three_env : env nat nat Z nat :=
  geo_env segments three_units three_graph (fun _ _ => None) (fun _ _ => None) [("perimeter", UPerimeter); ("exterior_boundaries", UExterior); ("interior_boundaries", UInterior); ("boundary_nodes", UBoundaryNodes);
     ("cut_edges", UCutEdges); ("cut_edges_by_part", UCutEdgesByPart)].
Definition three_run : heap nat nat Z nat :=
  match root three_env [(1, 0); (2, 1); (3, 1)] with Ok h => exec three_env [OGet 0 "perimeter"; OFlip 0 [(2, 0)]] h | _ => [] end.
Example C82_nonvacuous : session three_env three_run /\ List.length three_run = 2 /\
  fst (read three_env 1 "perimeter" three_run) = Ok (VNum [(0, Num 5%Z); (1, Num 12%Z)]) /\
  off_boundary segments three_units 2 /\ uncovered segments three_units (rook segments (Z.ltb 0) three_units) 2 0%Z.
Proof.
  split; [|split; [vm_compute; reflexivity|split; [vm_compute; reflexivity|split]]].
  - split; [split|split].
    + split; cbn; [repeat constructor; cbn; intuition discriminate|repeat constructor; cbn; intuition discriminate| |]; intros u v H; repeat destruct H as [[= <- <-]|H]; try contradiction; [auto..| |]; intros H'; repeat destruct H' as [H'|H']; try contradiction; congruence.
    + intros k ps al H. apply dget_In in H. cbn in H. repeat destruct H as [H|H]; try discriminate; contradiction.
    + intros k u H k' u' Hr. apply dget_In in H. cbn in H. repeat destruct H as [H|H]; try contradiction; injection H as <- <-; cbn in Hr; repeat destruct Hr as [Hr|Hr]; try contradiction; injection Hr as <- <-; reflexivity.
    + exists [(1, 0); (2, 1); (3, 1)]. eexists. exists [OGet 0 "perimeter"; OFlip 0 [(2, 0)]]. split; [|split; [vm_compute; reflexivity|split; [|reflexivity]]].
      * unfold is_dict. cbn. repeat constructor; cbn; intuition discriminate.
      * constructor; [exact I|]. constructor; [|constructor]. cbn. unfold is_dict. cbn. constructor; [intros []|constructor].
  - exists 6%N. split; reflexivity.
  - exists 6%Z. split; [|reflexivity]. exists [1; 3]. split; [repeat constructor; cbn; intuition discriminate|]. split; [|reflexivity].
    intro m. unfold adj. cbn. split; [intros [<-|[<-|[]]]; auto|]. intros [[H|[H|[]]]|[H|[H|[]]]]; injection H; intros; subst; auto; discriminate.
Qed.

Print Assumptions C81_queen.
Print Assumptions C81_rook.
Print Assumptions C81_contained.
Print Assumptions C81_kinds.
Print Assumptions C81_overlaps.
Print Assumptions C81_islands.
Print Assumptions C82_unit.
Print Assumptions C82_district.
Print Assumptions C82_outline.
