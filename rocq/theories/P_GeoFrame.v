(** C96: Graph.from_geodataframe: when it refuses geometries and what it
    stores. *)
From Coq Require Import String List Bool Arith ZArith Lia ZifyBool ZifyNat.
From Verif Require Import Base M_Graph M_Partition S_Partition M_Machine S_Machine M_GraphData P_GraphData M_Geo L_Geo P_Geo.
Import ListNotations.
Local Open Scope string_scope.
Local Open Scope nat_scope.
Local Open Scope list_scope.

Section Frame.
  Context {X Geom V : Type} {EX : EqB X} {OX : Ord X} {RV : CRing V}.
  Variable sh : shapely Geom V.
  Variable positive : V -> bool.
  Variables (xbool : bool -> X) (xnum : V -> X) (geom : X -> Geom).
  Notation table := (@frame string X).
  Variable to_utm : table -> X -> X.
  Implicit Types (df : table) (n : X).
  Notation from_df := (from_geodataframe sh positive xbool xnum geom to_utm).

  (** ** Specification *)
  (** Row [n] holds the geometry value [x]. *)
  Definition row_geometry df n x : Prop :=
    exists p col, dget (f_columns df) "geometry" = Some col /\ nth_error (f_index df) p = Some n /\ nth_error col p = Some x.
  Definition invalid_before df : Prop := exists n x, row_geometry df n x /\ is_valid sh (geom x) = false.
  Definition invalid_after df : Prop := exists n x, row_geometry df n x /\ is_valid sh (geom (to_utm df x)) = false.
  (** The geometry used for a row. *)
  Definition unit_geometry df (reproject : bool) x : Geom := geom (if reproject then to_utm df x else x).
  (** The table the node data comes from. *)
  Definition used df (reproject : bool) : table := if reproject then reprojected to_utm df else df.

  (** ** Lemmas *)
  Lemma reprojected_get df c : dget (f_columns (reprojected to_utm df)) c =
    match dget (f_columns df) c with Some xs => Some (if eqb c "geometry" then map (to_utm df) xs else xs) | None => None end.
  Proof.
    unfold reprojected. cbn [f_columns]. induction (f_columns df) as [|[c0 xs] l IH]; [reflexivity|]. cbn [map fst snd].
    destruct (eqb_spec c0 "geometry") as [Hg|Hn]; cbn [dget]; (destruct (eqb_spec c c0) as [Hc|Hc]; [subst c0|exact IH]).
    - subst. reflexivity.
    - destruct (eqb_spec c "geometry"); [congruence|reflexivity].
  Qed.
  Lemma reprojected_keys df : dkeys (f_columns (reprojected to_utm df)) = dkeys (f_columns df).
  Proof. unfold reprojected, dkeys. cbn [f_columns]. rewrite map_map. apply map_ext. intros [c xs]. cbn [fst]. now destruct (eqb c "geometry"). Qed.
  Lemma used_index df r : f_index (used df r) = f_index df.
  Proof. now destruct r. Qed.
  Lemma used_keys df r : dkeys (f_columns (used df r)) = dkeys (f_columns df).
  Proof. destruct r; [apply reprojected_keys|reflexivity]. Qed.
  Lemma used_wf df r : wf_frame df -> wf_frame (used df r).
  Proof.
    intros [W1 W2]. destruct r; [|now split]. split; cbn [used]; [now rewrite reprojected_keys|]. intros c xs. rewrite reprojected_get. destruct (dget (f_columns df) c) as [ys|] eqn:E; [|discriminate]. intro H. assert (Hx : xs = if eqb c "geometry" then map (to_utm df) ys else ys) by congruence. rewrite Hx. specialize (W2 c ys E). destruct (eqb c "geometry"); rewrite ?map_length; exact W2.
  Qed.
  Lemma in_combine_nth {A B} (l : list A) (m : list B) x y : In (x, y) (combine l m) <-> exists p, nth_error l p = Some x /\ nth_error m p = Some y.
  Proof.
    revert m. induction l as [|a l IH]; intros [|b m]; cbn [combine In].
    - split; [intros []|]. intros ([|p] & H & _); discriminate.
    - split; [intros []|]. intros ([|p] & H & _); discriminate.
    - split; [intros []|]. intros ([|p] & _ & H); discriminate.
    - rewrite IH. split.
      + intros [[= <- <-]|(p & H1 & H2)]; [exists 0; auto|exists (S p); auto].
      + intros ([|p] & H1 & H2); cbn in *; [left; congruence|right; eauto].
  Qed.
  Definition units df (col : list X) (r : bool) : dict X Geom := combine (f_index df) (map (unit_geometry df r) col).
  Lemma geometry_used df col r : dget (f_columns df) "geometry" = Some col -> geometry geom (used df r) = Ok (units df col r).
  Proof.
    intro Hc. unfold geometry, units, unit_geometry. destruct r; cbn [used].
    - rewrite reprojected_get, Hc. cbn [of_option bind]. change (eqb "geometry" "geometry") with true. cbv iota. cbn [reprojected f_index]. now rewrite map_map.
    - rewrite Hc. reflexivity.
  Qed.
  Lemma units_in df col r n u : dget (f_columns df) "geometry" = Some col -> In (n, u) (units df col r) <-> exists x, row_geometry df n x /\ u = unit_geometry df r x.
  Proof.
    intro Hc. unfold units. rewrite in_combine_nth. split.
    - intros (p & H1 & H2). rewrite nth_error_map in H2. destruct (nth_error col p) as [x|] eqn:E; [|discriminate]. injection H2 as <-. exists x. split; [exists p, col; auto|reflexivity].
    - intros (x & (p & col' & H1 & H2 & H3) & ->). rewrite Hc in H1. injection H1 as <-. exists p. split; [exact H2|]. now rewrite nth_error_map, H3.
  Qed.
  Lemma units_keys df col r : wf_frame df -> dget (f_columns df) "geometry" = Some col -> dkeys (units df col r) = f_index df.
  Proof.
    intros W Hc. pose proof (wf_lengths df W _ _ Hc) as Hl. unfold units, dkeys. assert (G : forall (l : list X) (m : list Geom), List.length l = List.length m -> map fst (combine l m) = l) by (induction l as [|a l IH]; intros [|b m]; cbn; try discriminate; auto; intro H; f_equal; apply IH; lia). apply G. now rewrite map_length.
  Qed.
  Lemma invalid_spec df col r : dget (f_columns df) "geometry" = Some col ->
    exists l, invalid_geometries sh geom (used df r) = Ok l /\ (Nat.ltb 0 (List.length l) = true <-> exists n x, row_geometry df n x /\ is_valid sh (unit_geometry df r x) = false).
  Proof.
    intro Hc. unfold invalid_geometries. rewrite (geometry_used df col r Hc). cbn [bind]. eexists. split; [reflexivity|]. rewrite map_length. set (bad := filter _ _).
    assert (B : forall n u, In (n, u) bad <-> In (n, u) (units df col r) /\ is_valid sh u = false) by (intros n u; unfold bad; rewrite filter_In; cbn [snd]; now rewrite negb_true_iff).
    destruct bad as [|[n u] rest].
    - split; [discriminate|]. intros (n & x & Hx & Hv). exfalso. apply (proj2 (B n (unit_geometry df r x))). split; [|exact Hv]. apply units_in; eauto.
    - split; [|reflexivity]. intros _. destruct (proj1 (B n u) (or_introl eq_refl)) as [H1 H2]. apply (units_in df col r n u Hc) in H1. destruct H1 as (x & H1 & ->). eauto.
  Qed.
  Lemma areas_spec (gs : dict X Geom) : NoDup (dkeys gs) -> forall s, dkeys (add_areas sh xnum gs s) = dkeys s /\
    forall n, dget (add_areas sh xnum gs s) n = match dget s n, dget gs n with Some d, Some u => Some (dset d "area" (xnum (area sh u))) | Some d, None => Some d | None, _ => None end.
  Proof.
    unfold add_areas. induction gs as [|[n0 u0] gs IH]; intros ND s; cbn [fold_left fst snd].
    - split; [reflexivity|]. intro n. cbn. now destruct (dget s n).
    - inversion ND as [|? ? Hn ND']; subst. destruct (dget s n0) as [d0|] eqn:E0.
      + destruct (IH ND' (dset s n0 (dset d0 "area" (xnum (area sh u0))))) as [K G]. split; [rewrite K; apply dkeys_dset_mem; now apply dget_Some_key in E0|]. intro n. rewrite G, dget_dset. cbn [dget]. destruct (eqb_spec n n0) as [->|Hne]; [|reflexivity].
        rewrite E0. assert (E : dget gs n0 = None) by (apply dget_None; exact Hn). now rewrite E.
      + destruct (IH ND' s) as [K G]. split; [exact K|]. intro n. rewrite G. cbn [dget]. destruct (eqb_spec n n0) as [->|Hne]; [now rewrite E0|reflexivity].
  Qed.
  (** After the checks. *)
  Definition build df adjacency cols : res (pgraph X V * dict X (dict string X)) :=
    gs <- geometry geom df ;;
    a <- geo_neighbors sh positive gs adjacency ;;
    let g := graph_of_dicts a in
    s1 <- add_boundary_perimeters sh xbool xnum g gs (map (fun n => (n, [])) (pg_nodes g)) ;;
    s2 <- add_data (add_areas sh xnum gs s1) df cols ;;
    Ok (g, s2).
  Lemma from_checks df adjacency cols reproject ignore col : dget (f_columns df) "geometry" = Some col ->
    ((ignore = false /\ invalid_before df \/ ignore = true /\ reproject = true /\ invalid_after df) /\ from_df df adjacency cols reproject ignore = Err GeometryError) \/
    (~ (ignore = false /\ invalid_before df \/ ignore = true /\ reproject = true /\ invalid_after df) /\ from_df df adjacency cols reproject ignore = build (used df reproject) adjacency cols).
  Proof.
    intro Hc. unfold from_geodataframe. destruct (invalid_spec df col false Hc) as (l0 & E0 & I0), (invalid_spec df col true Hc) as (l1 & E1 & I1). cbn [used] in E0, E1. change (exists n x, row_geometry df n x /\ is_valid sh (unit_geometry df false x) = false) with (invalid_before df) in I0. change (exists n x, row_geometry df n x /\ is_valid sh (unit_geometry df true x) = false) with (invalid_after df) in I1.
    destruct ignore; cbn [negb bind].
    - destruct reproject; cbn [bind].
      + rewrite E1. cbn [bind]. destruct (Nat.ltb 0 (List.length l1)) eqn:El; cbn [bind].
        * left. split; [|reflexivity]. right. split; [reflexivity|]. split; [reflexivity|]. now apply I1.
        * right. split; [|reflexivity]. intros [[H _]|(_ & _ & H)]; [discriminate|]. apply I1 in H. discriminate.
      + right. split; [|reflexivity]. intros [[H _]|(_ & H & _)]; discriminate.
    - rewrite E0. cbn [bind]. destruct (Nat.ltb 0 (List.length l0)) eqn:El; cbn [bind].
      + left. split; [|reflexivity]. left. split; [reflexivity|]. now apply I0.
      + right. split; [|destruct reproject; reflexivity]. intros [[_ H]|(H & _)]; [|discriminate]. apply I0 in H. discriminate.
  Qed.
  Lemma build_spec df adjacency cols r col : wf_frame df -> NoDup (f_index df) -> dget (f_columns df) "geometry" = Some col ->
    (adjacency <> "rook" -> adjacency <> "queen" -> build (used df r) adjacency cols = Err ValueError) /\
    (adjacency = "rook" \/ adjacency = "queen" ->
      (forall cs c, cols = Some cs -> In c cs -> In c (dkeys (f_columns df))) ->
      exists a s1 s, geo_neighbors sh positive (units df col r) adjacency = Ok a /\ add_boundary_perimeters sh xbool xnum (graph_of_dicts a) (units df col r) (no_attributes (graph_of_dicts a)) = Ok s1 /\
        add_data (add_areas sh xnum (units df col r) s1) (used df r) cols = Ok s /\ build (used df r) adjacency cols = Ok (graph_of_dicts a, s)) /\
    (forall cs c, cols = Some cs -> In c cs -> ~ In c (dkeys (f_columns df)) -> adjacency = "rook" \/ adjacency = "queen" -> build (used df r) adjacency cols = Err KeyError).
  Proof.
    intros W ND Hc. pose proof (units_keys df col r W Hc) as Ku. assert (Du : is_dict (units df col r)) by (unfold is_dict; now rewrite Ku).
    pose proof (C81_kinds sh positive (units df col r) adjacency) as (K1 & K2 & K3). unfold build. rewrite (geometry_used df col r Hc). cbn [bind].
    assert (Found : adjacency = "rook" \/ adjacency = "queen" -> exists a, geo_neighbors sh positive (units df col r) adjacency = Ok a) by (intros [H|H]; [rewrite K1 by exact H|rewrite K2 by exact H]; eauto).
    split; [|split].
    - intros H1 H2. now rewrite K3.
    - intros Hadj Hcols. destruct (Found Hadj) as [a Ea]. destruct (C82_unit sh positive xbool xnum (units df col r) adjacency a Du Ea) as (s1 & E1 & _). unfold no_attributes in E1.
      destruct (C80_add_data_defined (add_areas sh xnum (units df col r) s1) (used df r) cols) as [D _]; [intros cs c Hcs Hin; rewrite used_keys; eauto|]. destruct D as [s Es]; [now rewrite used_index|]. exists a, s1, s. split; [exact Ea|]. split; [exact E1|]. split; [exact Es|]. rewrite Ea. cbn [bind]. rewrite E1. cbn [bind]. now rewrite Es.
    - intros cs c -> Hin Hno Hadj. destruct (Found Hadj) as [a Ea]. destruct (C82_unit sh positive xbool xnum (units df col r) adjacency a Du Ea) as (s1 & E1 & _). unfold no_attributes in E1. rewrite Ea. cbn [bind]. rewrite E1. cbn [bind].
      assert (Es : select cs (used df r) = Err KeyError); [|unfold add_data; now rewrite Es].
      unfold select. destruct (mapM_err (fun c => xs <- of_option KeyError (dget (f_columns (used df r)) c) ;; Ok (c, xs)) KeyError cs) as [[kvs E]|E]; [|exfalso|now rewrite E].
      + intros c' _. destruct (dget (f_columns (used df r)) c'); [left; eexists; reflexivity|now right].
      + destruct (mapM_elem _ _ _ E _ Hin) as (b & Hb & _). destruct (dget (f_columns (used df r)) c) eqn:Eg; [|discriminate]. apply dget_Some_key in Eg. rewrite used_keys in Eg. contradiction.
  Qed.

  (** ** Theorems *)

  (** Geometries are refused exactly when errors are not ignored and some
      geometry is invalid before reprojection, or errors ARE ignored and some
      geometry is invalid after it. *)
  Theorem C96_refused : forall df adjacency cols reproject ignore, wf_frame df -> NoDup (f_index df) -> In "geometry" (dkeys (f_columns df)) ->
    from_df df adjacency cols reproject ignore = Err GeometryError <->
    (ignore = false /\ invalid_before df) \/ (ignore = true /\ reproject = true /\ invalid_after df).
  Proof.
    intros df adjacency cols reproject ignore W ND Hk. destruct (proj1 (dget_key _ _) Hk) as [col Hc]. destruct (from_checks df adjacency cols reproject ignore col Hc) as [[H E]|[H E]]; rewrite E; [tauto|]. split; [|tauto]. intro B. exfalso.
    destruct (build_spec df adjacency cols reproject col W ND Hc) as (B1 & B2 & B3). destruct (string_dec adjacency "rook") as [Hr|Hr]; [|destruct (string_dec adjacency "queen") as [Hq|Hq]; [|rewrite (B1 Hr Hq) in B; discriminate]].
    all: assert (Hadj : adjacency = "rook" \/ adjacency = "queen") by auto;
      (destruct cols as [cs|]; [|destruct B2 as (a & s1 & s & _ & _ & _ & E2); [auto|discriminate|congruence]]);
      (assert (Hall : (forall c, In c cs -> In c (dkeys (f_columns df))) \/ exists c, In c cs /\ ~ In c (dkeys (f_columns df)));
       [clear; induction cs as [|c cs IH]; [left; intros c []|]; destruct (in_dec string_dec c (dkeys (f_columns df))) as [Hi|Hi]; [|right; exists c; split; [now left|exact Hi]]; destruct IH as [IH|(c' & H1 & H2)]; [left; intros c' [<-|H']; auto|right; exists c'; split; [now right|exact H2]]
       |destruct Hall as [Hall|(c & H1 & H2)]; [destruct B2 as (a & s1 & s & _ & _ & _ & E2); [auto|intros cs' c [= <-]; apply Hall|congruence]|rewrite (B3 cs c eq_refl H1 H2 Hadj) in B; discriminate]]).
  Qed.
  (** Otherwise: the adjacency must be known, then the requested columns. *)
  Theorem C96_outcome : forall df adjacency cols reproject ignore, wf_frame df -> NoDup (f_index df) -> In "geometry" (dkeys (f_columns df)) ->
    from_df df adjacency cols reproject ignore <> Err GeometryError ->
    (adjacency <> "rook" -> adjacency <> "queen" -> from_df df adjacency cols reproject ignore = Err ValueError) /\
    (adjacency = "rook" \/ adjacency = "queen" ->
      ((forall cs c, cols = Some cs -> In c cs -> In c (dkeys (f_columns df))) -> exists g s, from_df df adjacency cols reproject ignore = Ok (g, s)) /\
      (forall cs c, cols = Some cs -> In c cs -> ~ In c (dkeys (f_columns df)) -> from_df df adjacency cols reproject ignore = Err KeyError)).
  Proof.
    intros df adjacency cols reproject ignore W ND Hk Hne. destruct (proj1 (dget_key _ _) Hk) as [col Hc]. destruct (from_checks df adjacency cols reproject ignore col Hc) as [[H E]|[H E]]; [contradiction|]. rewrite E. destruct (build_spec df adjacency cols reproject col W ND Hc) as (B1 & B2 & B3).
    split; [exact B1|]. intro Hadj. split.
    - intro Hcols. destruct (B2 Hadj Hcols) as (a & s1 & s & _ & _ & _ & E2). eauto.
    - intros cs c Hcs Hin Hno. now apply (B3 cs c).
  Qed.

  (** What is stored: the nodes are the rows; every column of the table is a
      node attribute, whatever columns were asked for, and takes precedence over
      the computed attributes area, boundary_node and boundary_perim. *)
  Theorem C96_stored : forall df adjacency cols reproject ignore g s, wf_frame df -> NoDup (f_index df) -> In "geometry" (dkeys (f_columns df)) ->
    from_df df adjacency cols reproject ignore = Ok (g, s) ->
    pg_nodes g = f_index df /\ dkeys s = f_index df /\
    forall n x, row_geometry df n x -> exists d, dget s n = Some d /\
      let u := unit_geometry df reproject x in
      (forall c, In c (dkeys (f_columns df)) -> exists v, dget d c = Some v /\ table_value (used df reproject) None n c v) /\
      (~ In "area" (dkeys (f_columns df)) -> dget d "area" = Some (xnum (area sh u))) /\
      (~ In "boundary_node" (dkeys (f_columns df)) -> exists others, dget d "boundary_node" =
         Some (xbool (intersects sh (boundary sh (unary_union sh others)) (boundary sh u))) /\
         forall p y, nth_error (f_index df) p = Some y -> exists z, row_geometry df y z /\ nth_error others p = Some (unit_geometry df reproject z)).
  Proof.
    intros df adjacency cols reproject ignore g s W ND Hk H. destruct (proj1 (dget_key _ _) Hk) as [col Hc]. destruct (from_checks df adjacency cols reproject ignore col Hc) as [[_ E]|[_ E]]; rewrite E in H; [discriminate|].
    pose proof (units_keys df col reproject W Hc) as Ku. assert (Du : is_dict (units df col reproject)) by (unfold is_dict; now rewrite Ku).
    unfold build in H. rewrite (geometry_used df col reproject Hc) in H. cbn [bind] in H. destruct (geo_neighbors sh positive (units df col reproject) adjacency) as [a| |] eqn:Ea; try discriminate. cbn [bind] in H.
    destruct (C82_unit sh positive xbool xnum (units df col reproject) adjacency a Du Ea) as (s1 & E1 & K1 & U1). unfold no_attributes in E1. rewrite E1 in H. cbn [bind] in H. destruct (add_data _ _ _) as [s2| |] eqn:E2; try discriminate. injection H as <- <-.
    destruct (neighbors_good sh positive (units df col reproject) adjacency a Du Ea) as [Ka Ga]. destruct (areas_spec (units df col reproject) Du s1) as [K2 G2]. destruct (C80_add_data _ _ _ _ (used_wf df reproject W) E2) as [K3 G3].
    split; [rewrite (good_nodes a); [congruence|now rewrite Ka|exact Ga]|]. split; [congruence|]. intros n x Hx. set (u := unit_geometry df reproject x).
    assert (Hu : dget (units df col reproject) n = Some u) by (apply In_dget; [exact Du|]; apply units_in; [exact Hc|]; exists x; auto).
    destruct (U1 n u Hu) as (d1 & Hd1 & Bn & Bp). assert (Hd2 : dget (add_areas sh xnum (units df col reproject) s1) n = Some (dset d1 "area" (xnum (area sh u)))) by now rewrite G2, Hd1, Hu.
    destruct (G3 n _ Hd2) as (d & Hd & Cw & Co). exists d. split; [exact Hd|]. rewrite used_keys, used_index in *. assert (Hin : In n (f_index df)) by (destruct Hx as (p & c & _ & Hp & _); eapply nth_error_In; eauto).
    cbn zeta. split; [intros c Hcc; apply Cw; auto|]. split.
    - intro Hno. rewrite Co by tauto. apply dget_dset_eq.
    - intro Hno. exists (map snd (units df col reproject)). split; [rewrite Co by tauto; rewrite dget_dset_neq by discriminate; exact Bn|].
      intros p y Hy. assert (Hz : exists z, nth_error col p = Some z). { destruct (nth_error col p) eqn:Ez; [eauto|]. apply nth_error_None in Ez. pose proof (wf_lengths df W _ _ Hc). assert (p < List.length (f_index df)) by (apply nth_error_Some; congruence). lia. }
      destruct Hz as [z Hz]. exists z. split; [exists p, col; auto|]. unfold units. clear - Hy Hz. revert p Hy Hz. generalize (unit_geometry df reproject). intro f. revert col. induction (f_index df) as [|i l IH]; intros [|c col] [|p]; cbn; try discriminate; [congruence|]. intros H1 H2. now apply IH.
  Qed.
End Frame.

(** ** Findings, on a table with labels 1 and 2: geometry value 9 is invalid,
    reprojection turns 8 into 9. *)
Definition nines : shapely nat Z := {|
  is_empty := fun g => Nat.eqb g 0; area := fun g => Z.of_nat g; len := fun _ => 0%Z; intersection := fun _ _ => 0; boundary := fun g => g;
  unary_union := fun _ => 0; intersects := fun _ _ => true; is_valid := fun g => negb (Nat.eqb g 9); query := fun _ _ => [] |}.
Definition nine_df (x : nat) : @frame string nat := mkFrame [1; 2] [("geometry", [3; x]); ("area", [100; 200])].
Definition nine_from := from_geodataframe nines (Z.ltb 0) (fun b : bool => if b then 1 else 0) Z.to_nat (fun x : nat => x) (fun _ x => S x).
Lemma nine_wf x : wf_frame (nine_df x) /\ NoDup (f_index (nine_df x)) /\ In "geometry" (dkeys (f_columns (nine_df x))).
Proof.
  split; [split; [repeat constructor; cbn; intuition discriminate|]|split; [repeat constructor; cbn; intuition discriminate|cbn; auto]].
  intros c xs H. apply dget_In in H. cbn in H. destruct H as [[= <- <-]|[[= <- <-]|[]]]; reflexivity.
Qed.
(** "ignore_errors: Whether to ignore all invalid geometries": with it an
    invalid reprojected geometry is refused, without it it is accepted. *)
Theorem C96_ignore_errors_refuted : exists df, wf_frame df /\
  nine_from df "rook" None true true = Err GeometryError /\
  exists g s, nine_from df "rook" None true false = Ok (g, s) /\ invalid_after nines (fun x => x) (fun _ x => S x) df.
Proof.
  exists (nine_df 8). split; [apply nine_wf|]. split; [reflexivity|]. do 2 eexists. split; [reflexivity|]. exists 2, 8. split; [|reflexivity]. exists 1, [3; 8]. auto.
Qed.
(** "The areas of the polygons are included as node attributes (with key
    area)": a column of that name, even one not asked for, replaces them. *)
Theorem C96_area_refuted : exists df g s d, wf_frame df /\ nine_from df "rook" (Some ["geometry"]) false false = Ok (g, s) /\
  row_geometry df 1 3 /\ dget s 1 = Some d /\ dget d "area" = Some 100 /\ area nines 3 <> 100%Z.
Proof.
  exists (nine_df 4). do 3 eexists. split; [apply nine_wf|]. split; [reflexivity|]. split; [exists 0, [3; 4]; auto|]. split; [reflexivity|]. split; [reflexivity|discriminate].
Qed.

Print Assumptions C96_refused.
Print Assumptions C96_outcome.
Print Assumptions C96_stored.
Print Assumptions C96_ignore_errors_refuted.
Print Assumptions C96_area_refuted.
