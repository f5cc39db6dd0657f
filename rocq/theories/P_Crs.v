(** C117: the coordinate reference system a graph records, crs_override and
    from_file.  C118: the warnings of from_geodataframe. *)
From Coq Require Import String List Bool Arith ZArith NArith Lia ZifyBool ZifyNat.
From Verif Require Import Base M_Graph M_Partition S_Partition M_Machine S_Machine M_GraphData P_GraphData M_Geo L_Geo P_Geo P_GeoFrame M_Crs.
Import ListNotations.
Local Open Scope string_scope.
Local Open Scope nat_scope.
Local Open Scope list_scope.

Section Crs.
  Context {X Geom V C : Type} {EX : EqB X} {OX : Ord X} {RV : CRing V} {EC : EqB C}.
  Variable sh : shapely Geom V.
  Variable positive : V -> bool.
  Variables (xbool : bool -> X) (xnum : V -> X) (geom : X -> Geom).
  Variable isna : X -> bool.
  Notation table := (@frame string X).
  Variable utm_crs : C -> table -> res C.
  Variable to_utm : C -> table -> X -> X.
  Implicit Types (df : geoframe X C) (t : table) (cols : option (list string)) (override : option C) (ws : list (warning X)) (g : geograph X V C).
  Notation from_df := (from_geodataframe_crs sh positive xbool xnum geom isna utm_crs to_utm).
  Notation from_path := (from_file sh positive xbool xnum geom isna utm_crs to_utm).
  (** The function of C96, which knows no coordinate reference systems; [c] is
      the one the geometries are given in. *)
  Notation from_plain c := (from_geodataframe sh positive xbool xnum geom (to_utm c)).
  Notation made := (made_from sh positive xbool xnum geom isna).

  (** ** Lemmas *)
  Lemma made_ok df adjacency cols override g df2 ws : made df adjacency cols override = Ok (g, df2, ws) ->
    exists gs a, geometry geom (gf_table df) = Ok gs /\ geo_neighbors sh positive gs adjacency = Ok a /\ gg_graph g = graph_of_dicts a /\
      build sh positive xbool xnum geom (gf_table df) adjacency cols = Ok (gg_graph g, gg_attrs g) /\
      match override with Some c => set_crs c df | None => Ok df end = Ok df2 /\ gg_crs g = gf_crs df2 /\
      exists chosen, select (match cols with Some cs => cs | None => dkeys (f_columns (gf_table df)) end) (gf_table df) = Ok chosen /\
        ws = overlap_warnings sh positive gs ++ issue_warnings (graph_of_dicts a) ++ check_dataframe isna chosen ++ crs_warnings df2.
  Proof.
    unfold made_from, build. destruct (geometry geom (gf_table df)) as [gs| |]; try discriminate. cbn [bind].
    destruct (geo_neighbors sh positive gs adjacency) as [a| |] eqn:Ea0; try discriminate. cbn [bind].
    destruct (add_boundary_perimeters _ _ _ _ _ _) as [s1| |]; try discriminate. cbn [bind].
    destruct (add_data _ _ _) as [s2| |]; try discriminate. cbn [bind]. unfold add_data_warnings.
    destruct (select _ _) as [chosen| |] eqn:Es0; try discriminate. cbn [bind].
    destruct (match override with Some c => set_crs c df | None => Ok df end) as [d2| |] eqn:E; try discriminate. cbn [bind]. intros [= <- <- <-].
    exists gs, a. cbn [gg_graph gg_attrs gg_crs]. do 6 (split; [first [reflexivity | assumption]|]). exists chosen. split; [first [reflexivity | assumption]|reflexivity].
  Qed.
  Lemma made_build df adjacency cols override gs' s : build sh positive xbool xnum geom (gf_table df) adjacency cols = Ok (gs', s) ->
    match match override with Some c => set_crs c df | None => Ok df end with
    | Ok df2 => exists ws, made df adjacency cols override = Ok (mkGG gs' s (gf_crs df2), df2, ws)
    | Err e => made df adjacency cols override = Err e
    | NoFuel => False
    end.
  Proof.
    unfold made_from, build. destruct (geometry geom (gf_table df)) as [gs| |]; try discriminate. cbn [bind].
    destruct (geo_neighbors sh positive gs adjacency) as [a| |]; try discriminate. cbn [bind].
    destruct (add_boundary_perimeters _ _ _ _ _ _) as [s1| |]; try discriminate. cbn [bind].
    destruct (add_data _ _ _) as [s2| |] eqn:Ea; try discriminate. cbn [bind]. intros [= <- <-]. unfold add_data_warnings. unfold add_data in Ea.
    destruct (select _ _) as [chosen| |]; try discriminate. cbn [bind].
    destruct override as [c|]; [unfold set_crs; destruct (gf_crs df) as [c0|]; [destruct (eqb c0 c)|]|]; cbn [bind]; eauto.
  Qed.
  Lemma plain_run (f : table -> X -> X) df adjacency cols reproject ignore :
    from_geodataframe sh positive xbool xnum geom f (gf_table df) adjacency cols reproject ignore =
    (_ <- (if negb ignore then checked sh geom df else Ok tt) ;;
     _ <- (if reproject then if ignore then checked (C := C) sh geom (mkGF (reprojected f (gf_table df)) None) else Ok tt else Ok tt) ;;
     build sh positive xbool xnum geom (used f (gf_table df) reproject) adjacency cols).
  Proof.
    unfold from_geodataframe, checked, used, build. cbn [gf_table]. destruct ignore; cbn [negb bind].
    - destruct reproject; [|reflexivity]. destruct (invalid_geometries sh geom (reprojected f (gf_table df))) as [l| |]; try reflexivity. cbn [bind]. destruct (Nat.ltb 0 (List.length l)); reflexivity.
    - destruct (invalid_geometries sh geom (gf_table df)) as [l| |]; try reflexivity. cbn [bind]. destruct (Nat.ltb 0 (List.length l)); [reflexivity|]. destruct reproject; reflexivity.
  Qed.
  (** The table that is used, if there is one. *)
  Definition used_frame df (reproject : bool) : res (geoframe X C) := if reproject then reprojected_frame utm_crs to_utm df else Ok df.
  Lemma run_ok df adjacency cols reproject ignore override g ws df' : from_df df adjacency cols reproject ignore override = (Ok (g, ws), df') ->
    exists u df2, used_frame df reproject = Ok u /\ made u adjacency cols override = Ok (g, df2, ws) /\ df' = (if reproject then df else df2) /\
      (if negb ignore then checked sh geom df else Ok tt) = Ok tt /\ (if reproject then if ignore then checked sh geom u else Ok tt else Ok tt) = Ok tt.
  Proof.
    unfold from_geodataframe_crs, used_frame. destruct (if negb ignore then checked sh geom df else Ok tt) as [[]| |]; cbn [bind]; try discriminate.
    destruct reproject; cbn [bind].
    - destruct (reprojected_frame utm_crs to_utm df) as [u| |]; cbn [bind]; try discriminate. destruct (if ignore then checked sh geom u else Ok tt) as [[]| |] eqn:E; cbn [bind]; try discriminate.
      destruct (made u adjacency cols override) as [[[g0 df2] ws0]| |] eqn:Em; try discriminate. intros [= <- <- <-]. exists u, df2. destruct ignore; auto.
    - destruct (made df adjacency cols override) as [[[g0 df2] ws0]| |] eqn:Em; try discriminate. intros [= <- <- <-]. exists df, df2. auto.
  Qed.
  Lemma used_ok df reproject u c : used_frame df reproject = Ok u -> (reproject = true -> gf_crs df = Some c) ->
    gf_table u = used (to_utm c) (gf_table df) reproject /\
    if reproject then exists k, utm_crs c (gf_table df) = Ok k /\ gf_crs u = Some k else u = df.
  Proof.
    unfold used_frame, used. destruct reproject; [|intros [= ->]; auto]. intros H Hc. unfold reprojected_frame in H. rewrite (Hc eq_refl) in H. cbn [of_option bind] in H.
    destruct (utm_crs c (gf_table df)) as [k| |] eqn:E; try discriminate. injection H as <-. cbn. eauto.
  Qed.
  Lemma used_needs df u : used_frame df true = Ok u -> exists c, gf_crs df = Some c.
  Proof. unfold used_frame, reprojected_frame. destruct (gf_crs df) as [c|]; [eauto|discriminate]. Qed.
  Lemma checked_table df df' : gf_table df = gf_table df' -> checked sh geom df = checked sh geom df'.
  Proof. unfold checked. now intros ->. Qed.

  (** ** C117 *)

  (** The coordinate reference system changes nothing else: the graph and the
      node attributes are those of C96, for the table as given or in UTM. *)
  Theorem C117_same_graph : forall df adjacency cols reproject ignore override g ws df' c,
    from_df df adjacency cols reproject ignore override = (Ok (g, ws), df') -> (reproject = true -> gf_crs df = Some c) ->
    from_plain c (gf_table df) adjacency cols reproject ignore = Ok (gg_graph g, gg_attrs g).
  Proof.
    intros df adjacency cols reproject ignore override g ws df' c H Hc. destruct (run_ok _ _ _ _ _ _ _ _ _ H) as (u & df2 & Eu & Em & _ & K1 & K2). destruct (used_ok df reproject u c Eu Hc) as [Et _]. destruct (made_ok _ _ _ _ _ _ _ Em) as (gs & a & _ & _ & _ & Eb & _).
    rewrite (plain_run (to_utm c) df). rewrite K1. cbn [bind]. rewrite <- Et, Eb. destruct reproject; [|reflexivity]. destruct ignore; [|reflexivity]. rewrite (checked_table _ u), K2; [reflexivity|]. now rewrite Et.
  Qed.

  (** What is recorded, and what happens to the caller's table.  Reprojected:
      the UTM system, and the caller's table is as before.  Otherwise the
      table's own system or the override, which is also written into the
      caller's table. *)
  Theorem C117_recorded : forall df adjacency cols reproject ignore override g ws df',
    from_df df adjacency cols reproject ignore override = (Ok (g, ws), df') ->
    gf_table df' = gf_table df /\
    if reproject then
      df' = df /\ exists c u, gf_crs df = Some c /\ utm_crs c (gf_table df) = Ok u /\ gg_crs g = Some u /\ (override = None \/ override = Some u)
    else
      gg_crs g = gf_crs df' /\
      match override with
      | None => df' = df
      | Some c => gf_crs df' = Some c /\ (gf_crs df = None \/ gf_crs df = Some c)
      end.
  Proof.
    intros df adjacency cols reproject ignore override g ws df' H. destruct (run_ok _ _ _ _ _ _ _ _ _ H) as (u & df2 & Eu & Em & -> & _). destruct (made_ok _ _ _ _ _ _ _ Em) as (gs & a & _ & _ & _ & _ & Eo & Ec & _). destruct reproject.
    - split; [reflexivity|]. split; [reflexivity|]. destruct (used_needs df u Eu) as [c Hc]. destruct (used_ok df true u c Eu (fun _ => Hc)) as [_ (k & Ek & Ku)]. exists c, k. split; [exact Hc|]. split; [exact Ek|]. rewrite Ec.
      destruct override as [o|]; [|injection Eo as <-; auto]. unfold set_crs in Eo. rewrite Ku in Eo. destruct (eqb_spec k o) as [Eko|]; [|discriminate]. injection Eo as <-. rewrite Ku, Eko. auto.
    - injection Eu as <-. destruct override as [o|]; [|injection Eo as <-; auto]. unfold set_crs in Eo. destruct (gf_crs df) as [c0|] eqn:E0.
      + destruct (eqb_spec c0 o) as [Eco|]; [|discriminate]. injection Eo as <-. rewrite E0, Eco in *. auto.
      + injection Eo as <-. auto.
  Qed.
  (** A call that fails leaves the caller's table as it was. *)
  Theorem C117_failure : forall df adjacency cols reproject ignore override r df',
    from_df df adjacency cols reproject ignore override = (r, df') -> (forall gw, r <> Ok gw) -> df' = df.
  Proof.
    intros df adjacency cols reproject ignore override r df' H Hr. unfold from_geodataframe_crs in H. match type of H with match ?x with _ => _ end = _ => destruct x as [[[g0 df2] ws0]| |] end; injection H as <- <-; try reflexivity. now destruct (Hr (g0, ws0)).
  Qed.
  (** When it works: wherever the function of C96 works, this one does too,
      unless an override differs from the system of the table that is used. *)
  Theorem C117_outcome : forall df adjacency cols reproject ignore override c gr s,
    (reproject = true -> gf_crs df = Some c /\ exists u, utm_crs c (gf_table df) = Ok u) ->
    from_plain c (gf_table df) adjacency cols reproject ignore = Ok (gr, s) ->
    let clash := exists o k, override = Some o /\ o <> k /\ (if reproject then utm_crs c (gf_table df) = Ok k else gf_crs df = Some k) in
    (clash -> from_df df adjacency cols reproject ignore override = (Err ValueError, df)) /\
    (~ clash -> exists g ws df', from_df df adjacency cols reproject ignore override = (Ok (g, ws), df') /\ gg_graph g = gr /\ gg_attrs g = s).
  Proof.
    intros df adjacency cols reproject ignore override c gr s Hc H clash. rewrite (plain_run (to_utm c) df) in H.
    destruct (if negb ignore then checked sh geom df else Ok tt) as [[]| |] eqn:K1; try discriminate. cbn [bind] in H.
    assert (exists u, used_frame df reproject = Ok u /\ gf_table u = used (to_utm c) (gf_table df) reproject /\ (if reproject then Ok (gf_crs u) = (k <- utm_crs c (gf_table df) ;; Ok (Some k)) else gf_crs u = gf_crs df) /\ (reproject = false -> u = df)) as (u & Eu & Et & Ek & Ed).
    { destruct reproject; [|exists df; auto]. destruct (Hc eq_refl) as [Hc0 (k & Hk)]. unfold used_frame, reprojected_frame. rewrite Hc0. cbn [of_option bind]. rewrite Hk. cbn [bind]. eexists. split; [reflexivity|]. cbn. split; [reflexivity|]. split; [reflexivity|discriminate]. }
    assert (K2 : (if reproject then if ignore then checked sh geom u else Ok tt else Ok tt) = Ok tt /\ build sh positive xbool xnum geom (gf_table u) adjacency cols = Ok (gr, s)).
    { rewrite Et. destruct reproject; [|auto]. destruct ignore; [|auto]. rewrite (checked_table u (mkGF (reprojected (to_utm c) (gf_table df)) None)) by exact Et. revert H; destruct (checked sh geom (mkGF (reprojected (to_utm c) (gf_table df)) None)) as [[]| |]; cbn [bind]; intro H; [auto|discriminate H|discriminate H]. }
    destruct K2 as [K2 Hb]. pose proof (made_build u adjacency cols override gr s Hb) as M.
    assert (Run : from_df df adjacency cols reproject ignore override = match made u adjacency cols override with Ok (g, used, ws) => (Ok (g, ws), if reproject then df else used) | Err e => (Err e, df) | NoFuel => (NoFuel, df) end).
    { unfold from_geodataframe_crs. rewrite K1. cbn [bind]. unfold used_frame in Eu. destruct reproject; [|injection Eu as <-; reflexivity]. rewrite Eu. cbn [bind]. destruct ignore; [rewrite K2|]; reflexivity. }
    assert (Clash : clash <-> exists o k, override = Some o /\ o <> k /\ gf_crs u = Some k).
    { unfold clash. destruct reproject; [|rewrite Ek; reflexivity]. destruct (Hc eq_refl) as [_ (k & Hk)]. rewrite Hk in *. cbn [bind] in Ek. injection Ek as Ek. rewrite Ek. split; intros (o & k' & H1 & H2 & H3); exists o, k'; (split; [exact H1|]); (split; [exact H2|]); congruence. }
    rewrite Clash, Run. split.
    - intros (o & k & -> & Hne & Hk). unfold set_crs in M. rewrite Hk in M. destruct (eqb_spec k o) as [Eko|_]; [congruence|]. now rewrite M.
    - intro Hno. destruct override as [o|].
      + unfold set_crs in M. destruct (gf_crs u) as [k|] eqn:Ek0.
        * destruct (eqb_spec k o) as [Eko|Hne]; [|exfalso; apply Hno; exists o, k; auto]. destruct M as [ws M]. rewrite M. do 3 eexists. split; [reflexivity|]. auto.
        * destruct M as [ws M]. rewrite M. do 3 eexists. split; [reflexivity|]. auto.
      + destruct M as [ws M]. rewrite M. do 3 eexists. split; [reflexivity|]. auto.
  Qed.
  (** Without a coordinate reference system a table cannot be reprojected,
      crs_override or not: it comes too late. *)
  Theorem C117_reproject_without : forall df adjacency cols ignore override, gf_crs df = None ->
    In "geometry" (dkeys (f_columns (gf_table df))) -> (ignore = true \/ ~ invalid_before sh geom (gf_table df)) ->
    from_df df adjacency cols true ignore override = (Err ValueError, df).
  Proof.
    intros df adjacency cols ignore override Hn Hg Hi. unfold from_geodataframe_crs.
    assert (K1 : (if negb ignore then checked sh geom df else Ok tt) = Ok tt).
    { destruct ignore; [reflexivity|]. destruct Hi as [Hi|Hi]; [discriminate|]. cbn [negb]. unfold checked. destruct (proj1 (dget_key _ _) Hg) as [col Hcol]. destruct (invalid_spec sh geom (fun _ x => x) (gf_table df) col false Hcol) as (l & E & I). cbn [used] in E. rewrite E. cbn [bind]. destruct (Nat.ltb 0 (List.length l)) eqn:El; [|reflexivity]. exfalso. apply Hi. now apply I. }
    rewrite K1. cbn [bind]. unfold reprojected_frame. rewrite Hn. reflexivity.
  Qed.

  (** from_file: the same graph, but the system recorded is always the file's;
      a file without one is refused with an AttributeError after all the work
      is done, although from_geodataframe accepts the same table. *)
  Theorem C117_file : forall df adjacency cols reproject ignore,
    (forall e, fst (from_df df adjacency cols reproject ignore None) = Err e -> from_path df adjacency cols reproject ignore = Err e) /\
    (forall g ws, fst (from_df df adjacency cols reproject ignore None) = Ok (g, ws) ->
      (gf_crs df = None -> from_path df adjacency cols reproject ignore = Err AttributeError) /\
      (forall c, gf_crs df = Some c -> exists g', from_path df adjacency cols reproject ignore = Ok (g', ws) /\
         gg_graph g' = gg_graph g /\ gg_attrs g' = gg_attrs g /\ gg_crs g' = Some c)).
  Proof.
    intros df adjacency cols reproject ignore. unfold from_file. destruct (from_df df adjacency cols reproject ignore None) as [r df'] eqn:E. cbn [fst]. split.
    - intros e ->. reflexivity.
    - intros g ws ->. cbn [bind]. assert (df' = df) as -> by (destruct (C117_recorded _ _ _ _ _ _ _ _ _ E) as [_ H]; destruct reproject; tauto). split; [intros ->; reflexivity|]. intros c ->. cbn [of_option bind fst snd]. eexists. split; [reflexivity|]. auto.
  Qed.

  (** ** C118 *)

  (** The table used. *)
  Notation in_table reproject df c := (used (to_utm c) (gf_table df) reproject).
  Definition asked cols t (col : string) : Prop := match cols with Some cs => In col cs | None => In col (dkeys (f_columns t)) end.
  Definition has_missing t (col : string) : Prop := exists xs x, dget (f_columns t) col = Some xs /\ In x xs /\ isna x = true.

  Lemma in_check t cs chosen col : select cs t = Ok chosen -> In (Missing col) (check_dataframe isna chosen) <-> In col cs /\ has_missing t col.
  Proof.
    unfold select. destruct (mapM _ cs) as [kvs| |] eqn:E; try discriminate. cbn [bind]. intros [= <-]. unfold check_dataframe. cbn [f_columns]. revert kvs E. induction cs as [|c cs IH]; intros kvs E.
    - injection E as <-. cbn. tauto.
    - cbn [mapM] in E. destruct (dget (f_columns t) c) as [xs|] eqn:Ec; cbn [of_option bind] in E; try discriminate. destruct (mapM _ cs) as [r| |]; cbn [bind] in E; try discriminate. injection E as <-. cbn [flat_map fst snd]. rewrite in_app_iff, (IH r eq_refl). cbn [In].
      assert (Hm : In (@Missing X col) (if existsb isna xs then [Missing c] else []) <-> c = col /\ existsb isna xs = true) by (destruct (existsb isna xs); cbn; [split; [intros [[= ->]|[]]; auto|intros [-> _]; auto]|split; [tauto|intros [_ [=]]]]).
      rewrite Hm, existsb_exists. unfold has_missing. split.
      + intros [[<- (x & H1 & H2)]|[H1 H2]]; [|auto]. split; [auto|]. exists xs, x. auto.
      + intros [[<-|H] (ys & x & H1 & H2 & H3)]; [left; split; [reflexivity|]; exists x; rewrite Ec in H1; injection H1 as ->; auto|right; split; [exact H|]; exists ys, x; auto].
  Qed.
  Lemma check_only t w : In w (check_dataframe isna t) -> exists col, w = Missing col.
  Proof. unfold check_dataframe. rewrite in_flat_map. intros ([c xs] & _ & H). cbn [fst snd] in H. destruct (existsb isna xs); [|destruct H]. destruct H as [<-|[]]. eauto. Qed.

  (** The warnings of a call that works: islands are named exactly if there are
      any; a column is named exactly if it was asked for and misses a value;
      a missing coordinate reference system is reported exactly if the graph
      ends up without one. *)
  Theorem C118_warnings : forall df adjacency cols reproject ignore override g ws df' c, NoDup (f_index (gf_table df)) -> wf_frame (gf_table df) ->
    from_df df adjacency cols reproject ignore override = (Ok (g, ws), df') -> (reproject = true -> gf_crs df = Some c) ->
    (forall l, In (Islands l) ws -> l <> [] /\ forall n, In n l <-> In n (f_index (gf_table df)) /\ forall m, ~ adj (plain (gg_graph g)) n m) /\
    (forall n, In n (f_index (gf_table df)) -> (forall m, ~ adj (plain (gg_graph g)) n m) -> exists l, In (Islands l) ws) /\
    (forall col, In (Missing col) ws <-> asked cols (gf_table df) col /\ has_missing (in_table reproject df c) col) /\
    (In NoCrs ws <-> gg_crs g = None).
  Proof.
    intros df adjacency cols reproject ignore override g ws df' c ND W H Hc. destruct (run_ok _ _ _ _ _ _ _ _ _ H) as (u & df2 & Eu & Em & _). destruct (used_ok df reproject u c Eu Hc) as [Et _].
    destruct (made_ok _ _ _ _ _ _ _ Em) as (gs & a & Eg & Ea & Egg & _ & _ & Ec & chosen & Es & ->). rewrite Egg, Ec. rewrite Et in Eg, Es.
    assert (Kg : dkeys gs = f_index (gf_table df)).
    { unfold geometry in Eg. destruct (dget (f_columns (in_table reproject df c)) "geometry") as [col|] eqn:Eco; try discriminate. cbn [of_option bind] in Eg. injection Eg as <-. rewrite <- (used_index (to_utm c) (gf_table df) reproject). unfold dkeys. pose proof (wf_lengths _ (used_wf (to_utm c) (gf_table df) reproject W) _ _ Eco) as Hl. clear - Hl. revert Hl. rewrite <- (map_length geom col). generalize (map geom col). generalize (f_index (in_table reproject df c)). induction l as [|i l IH]; intros [|y ys]; cbn; try discriminate; [reflexivity|]. intros [= Hl]. now rewrite IH. }
    assert (Du : is_dict gs) by (unfold is_dict; now rewrite Kg).
    assert (Isl : forall n, In n (islands (graph_of_dicts a)) <-> In n (f_index (gf_table df)) /\ forall m, ~ adj (plain (graph_of_dicts a)) n m) by (intro n; rewrite (C81_islands sh positive gs adjacency a n Du Ea), Kg; reflexivity).
    assert (NotIn : forall w (K : forall col, w <> Missing col), ~ In w (check_dataframe isna chosen)) by (intros w K Hw; destruct (check_only _ _ Hw) as [col ->]; now apply (K col)).
    assert (Pos : forall w, In w (overlap_warnings sh positive gs) -> exists l, w = Overlaps l) by (intro w; unfold overlap_warnings; destruct (overlaps _ _ _); [intros []|intros [<-|[]]; eauto]).
    assert (Crs : forall w, In w (crs_warnings df2) -> w = NoCrs) by (intro w; unfold crs_warnings; destruct (gf_crs df2); [intros []|intros [<-|[]]; reflexivity]).
    assert (Isw : forall w, In w (issue_warnings (graph_of_dicts a)) <-> exists l, w = Islands l /\ l = islands (graph_of_dicts a) /\ l <> []).
    { intro w. unfold issue_warnings. destruct (islands (graph_of_dicts a)) as [|i l]; [split; [intros []|intros (l & _ & -> & Hl); congruence]|]. split; [intros [<-|[]]; eexists; split; [reflexivity|]; split; [reflexivity|discriminate]|intros (l' & -> & -> & _); now left]. }
    split; [|split; [|split]].
    - intros l Hl. rewrite !in_app_iff in Hl. destruct Hl as [Hl|[Hl|[Hl|Hl]]]; [destruct (Pos _ Hl) as [l' E]; discriminate| |exfalso; revert Hl; apply NotIn; discriminate|apply Crs in Hl; discriminate]. apply Isw in Hl. destruct Hl as (l' & [= <-] & -> & Hne). auto.
    - intros n Hn Hm. assert (Hi : In n (islands (graph_of_dicts a))) by (apply Isl; auto). exists (islands (graph_of_dicts a)). rewrite !in_app_iff. right. left. apply Isw. eexists. split; [reflexivity|]. split; [reflexivity|]. intro E. now rewrite E in Hi.
    - intro col. rewrite !in_app_iff, (in_check _ _ chosen col Es). split.
      + intros [Hl|[Hl|[[Ha Hl]|Hl]]]; [destruct (Pos _ Hl) as [l' E]; discriminate|apply Isw in Hl; destruct Hl as (l' & E & _); discriminate| |apply Crs in Hl; discriminate]. split; [|exact Hl]. destruct cols; [exact Ha|]. cbn. now rewrite used_keys in Ha.
      + intros [Ha Hl]. right. right. left. split; [|exact Hl]. destruct cols; [exact Ha|]. cbn in Ha. now rewrite used_keys.
    - rewrite !in_app_iff. split.
      + intros [Hl|[Hl|[Hl|Hl]]]; [destruct (Pos _ Hl) as [l' E]; discriminate|apply Isw in Hl; destruct Hl as (l' & E & _); discriminate|exfalso; revert Hl; apply NotIn; discriminate|]. unfold crs_warnings in Hl. destruct (gf_crs df2); [destruct Hl|reflexivity].
      + intro E. do 3 right. unfold crs_warnings. rewrite E. now left.
  Qed.
  (** Overlaps are named exactly if there are any: the pairs of rows, smaller
      label first, whose geometries share some area. *)
  Theorem C118_overlaps : forall df adjacency cols reproject ignore override g ws df' c, geometry_laws sh positive ->
    NoDup (f_index (gf_table df)) -> wf_frame (gf_table df) ->
    from_df df adjacency cols reproject ignore override = (Ok (g, ws), df') -> (reproject = true -> gf_crs df = Some c) ->
    let overlap i j := i <> j /\ exists x y, row_geometry (gf_table df) i x /\ row_geometry (gf_table df) j y /\
      positive (area sh (intersection sh (unit_geometry geom (to_utm c) (gf_table df) reproject x) (unit_geometry geom (to_utm c) (gf_table df) reproject y))) = true in
    (forall l, In (Overlaps l) ws -> l <> [] /\ forall i j, In (i, j) l <-> leb i j = true /\ overlap i j) /\
    (forall i j, overlap i j -> exists l, In (Overlaps l) ws).
  Proof.
    intros df adjacency cols reproject ignore override g ws df' c Lw ND W H Hc overlap. destruct (run_ok _ _ _ _ _ _ _ _ _ H) as (u & df2 & Eu & Em & _). destruct (used_ok df reproject u c Eu Hc) as [Et _].
    destruct (made_ok _ _ _ _ _ _ _ Em) as (gs & a & Eg & Ea & Egg & _ & _ & Ec & chosen & Es & ->). rewrite Et in Eg.
    assert (Hcol : exists col, dget (f_columns (gf_table df)) "geometry" = Some col).
    { unfold geometry in Eg. destruct (dget (f_columns (in_table reproject df c)) "geometry") as [col|] eqn:Eco; try discriminate. apply dget_Some_key in Eco. rewrite used_keys in Eco. now apply dget_key in Eco. }
    destruct Hcol as [col Hcol]. rewrite (geometry_used geom (to_utm c) (gf_table df) col reproject Hcol) in Eg. injection Eg as <-.
    pose proof (units_keys xbool geom (to_utm c) (gf_table df) col reproject W Hcol) as Ku. assert (Du : is_dict (units geom (to_utm c) (gf_table df) col reproject)) by (unfold is_dict; now rewrite Ku).
    set (gs := units geom (to_utm c) (gf_table df) col reproject) in *.
    assert (Ov : forall i j, In (i, j) (overlaps sh positive (intersections_with_neighbors sh gs)) <-> leb i j = true /\ overlap i j).
    { intros i j. rewrite (C81_overlaps sh positive gs i j Lw Du). apply and_iff_compat_l. unfold related, overlap. apply and_iff_compat_l. split.
      - intros (x & y & Hx & Hy & Hp). apply dget_In in Hx, Hy. apply (units_in geom (to_utm c) (gf_table df) col reproject i x Hcol) in Hx. apply (units_in geom (to_utm c) (gf_table df) col reproject j y Hcol) in Hy. destruct Hx as (x' & Hx & ->), Hy as (y' & Hy & ->). exists x', y'. auto.
      - intros (x & y & Hx & Hy & Hp). do 2 eexists. split; [apply In_dget; [exact Du|]; apply (units_in geom (to_utm c) (gf_table df) col reproject i _ Hcol); exists x; split; [exact Hx|reflexivity]|]. split; [apply In_dget; [exact Du|]; apply (units_in geom (to_utm c) (gf_table df) col reproject j _ Hcol); exists y; split; [exact Hy|reflexivity]|]. exact Hp. }
    assert (Only : forall l, In (Overlaps l) (overlap_warnings sh positive gs ++ issue_warnings (graph_of_dicts a) ++ check_dataframe isna chosen ++ crs_warnings df2) <-> l = overlaps sh positive (intersections_with_neighbors sh gs) /\ l <> []).
    { intro l. rewrite !in_app_iff. split.
      - intros [Hl|[Hl|[Hl|Hl]]].
        + unfold overlap_warnings in Hl. destruct (overlaps _ _ _) as [|p r]; [destruct Hl|]. destruct Hl as [[= <-]|[]]. split; [reflexivity|discriminate].
        + unfold issue_warnings in Hl. destruct (islands _); [destruct Hl|]. destruct Hl as [Hl|[]]; discriminate.
        + destruct (check_only _ _ Hl) as [? ?]; discriminate.
        + unfold crs_warnings in Hl. destruct (gf_crs df2); [destruct Hl|]. destruct Hl as [Hl|[]]; discriminate.
      - intros [-> Hne]. left. unfold overlap_warnings. destruct (overlaps _ _ _); [congruence|now left]. }
    split.
    - intros l Hl. apply Only in Hl. destruct Hl as [-> Hne]. auto.
    - intros i j Hij. exists (overlaps sh positive (intersections_with_neighbors sh gs)). apply Only. split; [reflexivity|]. intro E.
      assert (Hs : overlap j i). { destruct Hij as [Hne (x & y & Hx & Hy & Hp)]. split; [congruence|]. exists y, x. rewrite (sym_area _ _ Lw). auto. }
      destruct (leb_total i j) as [Hl|Hl]; [assert (Hin : In (i, j) []) by (rewrite <- E; apply Ov; auto)|assert (Hin : In (j, i) []) by (rewrite <- E; apply Ov; auto)]; destruct Hin.
  Qed.
End Crs.

(** ** Findings, on tables with labels 1 and 2 whose geometries are numbers
    equal to their area; reprojecting adds one; 0 is a missing value; systems
    are numbers, and UTM is 32. *)
Definition plots : shapely nat Z := {|
  is_empty := fun g => Nat.eqb g 0; area := fun g => Z.of_nat g; len := fun _ => 0%Z; intersection := fun _ _ => 0; boundary := fun g => g;
  unary_union := fun _ => 0; intersects := fun _ _ => true; is_valid := fun _ => true; query := fun _ _ => [] |}.
Definition plot_table : @frame string nat := mkFrame [1; 2] [("geometry", [3; 7]); ("pop", [5; 0])].
Definition plot_df (crs : option nat) : geoframe nat nat := mkGF plot_table crs.
Definition plot_from := from_geodataframe_crs plots (Z.ltb 0) (fun b : bool => if b then 1 else 0) Z.to_nat (fun x : nat => x) (Nat.eqb 0)
  (fun _ _ => Ok 32) (fun (_ : nat) _ x => S x).
Definition plot_file := from_file plots (Z.ltb 0) (fun b : bool => if b then 1 else 0) Z.to_nat (fun x : nat => x) (Nat.eqb 0)
  (fun _ _ => Ok 32) (fun (_ : nat) _ x => S x).
Lemma plot_wf : wf_frame plot_table /\ NoDup (f_index plot_table) /\ In "geometry" (dkeys (f_columns plot_table)).
Proof.
  split; [split; [repeat constructor; cbn; intuition discriminate|]|split; [repeat constructor; cbn; intuition discriminate|cbn; auto]].
  intros c xs H. apply dget_In in H. cbn in H. destruct H as [[= <- <-]|[[= <- <-]|[]]]; reflexivity.
Qed.
(** from_file(..., reproject=True) records the system of the file, though the
    areas and geometries in the graph are in UTM. *)
Theorem C117_file_refuted : exists df g g' ws d, wf_frame (gf_table df) /\ gf_crs df = Some 4 /\
  plot_from df "rook" None true false None = (Ok (g, ws), df) /\ gg_crs g = Some 32 /\
  plot_file df "rook" None true false = Ok (g', ws) /\ gg_crs g' = Some 4 /\
  dget (gg_attrs g') 1 = Some d /\ dget d "geometry" = Some 4 /\ dget d "area" = Some 4 /\ row_geometry (gf_table df) 1 3.
Proof.
  exists (plot_df (Some 4)). do 4 eexists. split; [apply plot_wf|]. split; [reflexivity|]. split; [reflexivity|]. split; [reflexivity|]. split; [reflexivity|]. split; [reflexivity|]. split; [reflexivity|]. split; [reflexivity|]. split; [reflexivity|]. exists 0, [3; 7]. auto.
Qed.
(** A table without a system: accepted by from_geodataframe, not by from_file. *)
Theorem C117_file_without_refuted : exists df g ws, wf_frame (gf_table df) /\
  plot_from df "rook" None false false None = (Ok (g, ws), df) /\ gg_crs g = None /\ plot_file df "rook" None false false = Err AttributeError.
Proof. exists (plot_df None). do 2 eexists. split; [apply plot_wf|]. split; [reflexivity|]. split; reflexivity. Qed.
(** "crs_override: Value to override the CRS of the GeoDataFrame": a table that
    has a system is refused instead, and so is one that has none if it is to be
    reprojected. *)
Theorem C117_override_refuted : exists df df0, wf_frame (gf_table df) /\ wf_frame (gf_table df0) /\ gf_crs df = Some 4 /\ gf_crs df0 = None /\
  (exists g ws, plot_from df "rook" None false false None = (Ok (g, ws), df)) /\
  plot_from df "rook" None false false (Some 5) = (Err ValueError, df) /\
  plot_from df0 "rook" None true false (Some 5) = (Err ValueError, df0).
Proof. exists (plot_df (Some 4)), (plot_df None). split; [apply plot_wf|]. split; [apply plot_wf|]. split; [reflexivity|]. split; [reflexivity|]. split; [do 2 eexists; reflexivity|]. split; reflexivity. Qed.
(** The override is written into the caller's table. *)
Theorem C117_caller_refuted : exists df df' g ws, wf_frame (gf_table df) /\
  plot_from df "rook" None false false (Some 5) = (Ok (g, ws), df') /\ gg_crs g = Some 5 /\ gf_crs df = None /\ gf_crs df' = Some 5.
Proof. exists (plot_df None). do 3 eexists. split; [apply plot_wf|]. split; [reflexivity|]. split; [reflexivity|]. split; reflexivity. Qed.
(** A column that was not asked for is stored, missing values and all, and
    nothing is said about it; asked for, it is reported. *)
Theorem C118_unasked_refuted : exists df g ws d ws', wf_frame (gf_table df) /\
  plot_from df "rook" (Some ["geometry"]) false false None = (Ok (g, ws), df) /\ (forall col, ~ In (Missing col) ws) /\
  dget (gg_attrs g) 2 = Some d /\ dget d "pop" = Some 0 /\ Nat.eqb 0 0 = true /\
  plot_from df "rook" (Some ["pop"]) false false None = (Ok (g, ws'), df) /\ In (Missing "pop") ws'.
Proof.
  exists (plot_df (Some 4)). do 4 eexists. split; [apply plot_wf|]. split; [reflexivity|]. split; [intros col H; repeat destruct H as [H|H]; try discriminate; exact H|]. split; [reflexivity|]. split; [reflexivity|]. split; [reflexivity|]. split; [reflexivity|]. cbn. auto.
Qed.
(** The overlap clause is met by units with area: intervals of a line given by
    a set of unit cells. *)
Definition cells : shapely N Z := {|
  is_empty := N.eqb 0; area := Z.of_N; len := Z.of_N; intersection := N.land; boundary := fun a => a;
  unary_union := fun l => fold_left N.lor l 0%N; intersects := fun a b => negb (N.eqb 0 (N.land a b)); is_valid := fun _ => true;
  query := fun l _ => seq 0 (List.length l) |}.
Definition cell_df : geoframe nat nat := mkGF (mkFrame [1; 2; 3] [("geometry", [3; 6; 8]); ("pop", [5; 0; 1])]) None.
Example C118_nonvacuous : geometry_laws cells (Z.ltb 0) /\ wf_frame (gf_table cell_df) /\ NoDup (f_index (gf_table cell_df)) /\
  exists g, from_geodataframe_crs cells (Z.ltb 0) (fun b : bool => if b then 1 else 0) Z.to_nat N.of_nat (Nat.eqb 0)
    (fun _ _ => Ok 32) (fun (_ : nat) _ x => S x) cell_df "rook" None false false None
    = (Ok (g, [Overlaps [(1, 2)]; Islands [3]; Missing "pop"; NoCrs]), cell_df).
Proof.
  split; [|split; [split; [repeat constructor; cbn; intuition discriminate|]|split; [repeat constructor; cbn; intuition discriminate|]]].
  - split.
    + intros l a p b H _. cbn. apply in_seq. assert (p < List.length l) by (apply nth_error_Some; congruence). lia.
    + intros a b H. destruct b; [|discriminate]. change (N.eqb 0 (N.land a 0) = true). now rewrite N.land_0_r.
    + intros a H. destruct a; [reflexivity|discriminate].
    + intros a H. destruct a; [reflexivity|discriminate].
    + intros a b. change (N.eqb 0 (N.land a b) = N.eqb 0 (N.land b a)). now rewrite N.land_comm.
    + intros a b. cbn. now rewrite N.land_comm.
    + intros a b. cbn. now rewrite N.land_comm.
  - intros c xs H. apply dget_In in H. cbn in H. destruct H as [[= <- <-]|[[= <- <-]|[]]]; reflexivity.
  - eexists. vm_compute. reflexivity.
Qed.

Print Assumptions C117_same_graph.
Print Assumptions C117_recorded.
Print Assumptions C117_failure.
Print Assumptions C117_outcome.
Print Assumptions C117_reproject_without.
Print Assumptions C117_file.
Print Assumptions C117_file_refuted.
Print Assumptions C117_file_without_refuted.
Print Assumptions C117_override_refuted.
Print Assumptions C117_caller_refuted.
Print Assumptions C118_warnings.
Print Assumptions C118_overlaps.
Print Assumptions C118_unasked_refuted.
