(** C75, C77: locality and region scores. *)
From Coq Require Import String List Bool Arith ZArith Lia ZifyBool ZifyNat.
From Verif Require Import Base M_Graph M_Partition S_Partition L_Partition M_Machine S_Machine L_Cuts P_Partition M_Contiguity S_Contiguity L_Search P_Contiguity
  M_Locality L_Locality.
Import ListNotations.
Local Open Scope nat_scope.
Local Open Scope list_scope.

Section Locality.
  Context {N P L : Type} {EN : EqB N} {EP : EqB P} {EL : EqB L} {ON : Ord N}.
  Variable none : L.
  Variable q : lplan N P L.
  Variable loc : N -> L.
  Notation g := (lp_graph q).
  Notation A := (lp_assign q).

  (** ** Specification *)

  (** The nodes of the graph have the localities [loc], the assignment covers
      the graph, and the cut edges are the cut edges. *)
  Record scored : Prop := {
    sc_wf : wf_graph g;
    sc_coh : coherent (g_nodes g) A;
    sc_loc : forall n, In n (g_nodes g) -> lp_loc q n = Some (loc n);
    sc_cut_nodup : NoDup (lp_cuts q);
    sc_cuts : forall e, In e (lp_cuts q) <-> cut_edge g A e
  }.
  Definition within (l : L) (n : N) : Prop := In n (g_nodes g) /\ loc n = l.
  (** District [p] meets locality [l]. *)
  Definition meets (l : L) (p : P) : Prop := exists n, within l n /\ district A n = Some p.
  (** Locality [l] meets two districts. *)
  Definition split (l : L) : Prop := exists p p', p <> p' /\ meets l p /\ meets l p'.
  (** Neighbours in the same locality and district. *)
  Definition together (a b : N) : Prop := adj g a b /\ loc a = loc b /\ district A a = district A b.

  Hypothesis Sc : scored.
  Lemma node_district n : In n (g_nodes g) -> exists p, district A n = Some p.
  Proof. apply has_district. apply Sc. Qed.
  Lemma district_is_node n p : district A n = Some p -> In n (g_nodes g).
  Proof. apply district_node. apply Sc. Qed.
  Lemma dget_locality_dict n : In n (g_nodes g) -> dget (locality_dict none q) n = Some (loc n).
  Proof.
    intro Hn. apply In_dget.
    - unfold dkeys, locality_dict. rewrite map_map. cbn. rewrite map_id. apply Sc.
    - apply in_map_iff. exists n. now rewrite (sc_loc Sc n Hn).
  Qed.

  (** ** What the counters contain *)
  Lemma part_nodes p s n : dget (a_parts A) p = Some s -> In n s <-> district A n = Some p.
  Proof. intro E. apply (district_nodes g A p s); auto. apply Sc. Qed.
  Lemma part_In p s : In (p, s) (a_parts A) -> dget (a_parts A) p = Some s.
  Proof. apply In_dget. apply (coh_part_keys _ _ (sc_coh Sc)). Qed.
  Lemma splits_ok : exists sp, locality_splits (locality_dict none q) q = Ok sp /\ dkeys sp = labels A /\
    forall p c, dget sp p = Some c -> exists s, dget (a_parts A) p = Some s /\ c = counter (map loc s).
  Proof.
    exists (map (fun kd => (fst kd, counter (map loc (snd kd)))) (a_parts A)). split; [|split].
    - unfold locality_splits. apply mapM_all_Ok. intros [p s] Hin. cbn [fst snd]. apply part_In in Hin.
      rewrite (mapM_all_Ok _ loc); [reflexivity|]. intros n Hn. rewrite dget_locality_dict; [reflexivity|]. apply (district_is_node n p). now apply (part_nodes p s n).
    - unfold dkeys, labels. now rewrite map_map.
    - intros p c E. change (map _ (a_parts A)) with (dmap (fun (_ : P) s => counter (map loc s)) (a_parts A)) in E. rewrite dget_dmap in E.
      destruct (dget (a_parts A) p) as [s|]; [|discriminate]. injection E as <-. exists s. auto.
  Qed.
  Lemma sp_nodup {X} (sp : dict P X) : dkeys sp = labels A -> NoDup (dkeys sp).
  Proof. intros ->. apply (coh_part_keys _ _ (sc_coh Sc)). Qed.
  Lemma meets_count (sp : dict P (dict L nat)) p c l : (forall p c, dget sp p = Some c -> exists s, dget (a_parts A) p = Some s /\ c = counter (map loc s)) ->
    dget sp p = Some c -> (In l (dkeys c) <-> meets l p).
  Proof.
    intros H E. destruct (H p c E) as (s & Es & ->). rewrite counter_keys, in_map_iff. split.
    - intros (n & <- & Hn). exists n. assert (Hd : district A n = Some p) by now apply (part_nodes p s n). split; [|exact Hd]. split; auto. eapply district_is_node; eauto.
    - intros (n & [Hn <-] & Hd). exists n. split; auto. now apply (part_nodes p s n).
  Qed.
  Lemma meets_label l p : meets l p -> In p (labels A).
  Proof. intros (n & _ & Hd). eapply (in_district_label g); [apply Sc|exact Hd]. Qed.

  (** ** Theorems *)

  (** num_parts is the number of locality-district pairs that meet. *)
  Theorem C75_num_parts : exists sp, locality_splits (locality_dict none q) q = Ok sp /\
    numbers (fun lp : L * P => meets (fst lp) (snd lp)) (num_parts sp).
  Proof.
    destruct splits_ok as (sp & E & K & S). exists sp. split; auto.
    exists (flat_map (fun kv => map (fun l => (l, fst kv)) (dkeys (snd kv))) sp). split; [|split].
    - assert (Nd := sp_nodup sp K). assert (Ni : forall p c, dget sp p = Some c -> NoDup (dkeys c)).
      { intros p c Ec. destruct (S p c Ec) as (s & _ & ->). apply counter_spec. }
      assert (Ni' : forall p c, In (p, c) sp -> NoDup (dkeys c)) by (intros p c Hin; apply (Ni p), In_dget; auto). clear - Nd Ni'.
      induction sp as [|[p c] sp IH]; cbn; [constructor|]. cbn in Nd. inversion Nd as [|? ? Np Nd']; subst. apply NoDup_app_iff. split; [|split].
      + apply FinFun.Injective_map_NoDup; [intros x y [= ->]; auto|]. apply (Ni' p). now left.
      + apply IH; auto. intros p' c' Hin. apply (Ni' p'). now right.
      + intros [l p'] H1 H2. apply in_map_iff in H1. destruct H1 as (l1 & [= <- <-] & _). apply in_flat_map in H2. destruct H2 as ([p2 c2] & Hin & H2).
        apply in_map_iff in H2. destruct H2 as (l2 & [= _ <-] & _). apply Np. now apply (in_map fst) in Hin.
    - intros [l p]. cbn. rewrite in_flat_map. split.
      + intros ([p' c] & Hin & Hl). apply in_map_iff in Hl. destruct Hl as (l' & [= <- <-] & Hl). cbn in *. apply (meets_count sp p' c); auto. apply In_dget; auto. now apply sp_nodup.
      + intro M. assert (Hl := meets_label l p M). rewrite <- K in Hl. apply dget_key in Hl. destruct Hl as [c Ec]. exists (p, c). split; [now apply dget_In|].
        apply in_map_iff. exists l. split; auto. now apply (meets_count sp p c l S Ec).
    - unfold num_parts. symmetry. etransitivity; [|apply Nat.add_0_l].
      rewrite <- (fold_add_length (fun kv : P * dict L nat => map (fun l => (l, fst kv)) (dkeys (snd kv))) sp 0).
      clear. generalize 0. induction sp as [|x sp IH]; intro k; cbn [fold_left]; auto.
      replace (k + length (map (fun l => (l, fst x)) (dkeys (snd x)))) with (k + length (snd x)); [apply IH|]. unfold dkeys. now rewrite !map_length.
  Qed.
  (** num_split_localities is the number of localities meeting two districts. *)
  Theorem C75_num_split_localities : exists sp, locality_splits (locality_dict none q) q = Ok sp /\
    numbers split (num_split_localities (invert sp)).
  Proof.
    destruct splits_ok as (sp & E & K & S). exists sp. split; auto.
    destruct (invert_spec sp) as [[N1 N2] G].
    { now apply sp_nodup. } { intros p c Ec. destruct (S p c Ec) as (s & _ & ->). apply counter_spec. }
    assert (M : forall l d p, dget (invert sp) l = Some d -> (In p (dkeys d) <-> meets l p)).
    { intros l d p Ed. specialize (G l p). unfold get2 in G. rewrite Ed in G. rewrite dget_key, G. split.
      - intros (k & Ek). destruct (dget sp p) as [c|] eqn:Ec; [|discriminate]. apply (meets_count sp p c l S Ec). eapply dget_Some_key; eauto.
      - intro Hm. assert (Hl := meets_label l p Hm). rewrite <- K in Hl. apply dget_key in Hl. destruct Hl as [c Ec]. rewrite Ec.
        apply (meets_count sp p c l S Ec) in Hm. now apply dget_key in Hm. }
    assert (M2 : forall l p, meets l p -> exists d, dget (invert sp) l = Some d).
    { intros l p Hm. specialize (G l p). unfold get2 in G. destruct (dget (invert sp) l) as [d|]; eauto.
      assert (Hl := meets_label l p Hm). rewrite <- K in Hl. apply dget_key in Hl. destruct Hl as [c Ec]. rewrite Ec in G.
      apply (meets_count sp p c l S Ec) in Hm. apply dget_key in Hm. destruct Hm; congruence. }
    exists (dkeys (filter (fun v => Nat.ltb 1 (length (snd v))) (invert sp))). split; [|split].
    - now apply NoDup_keys_filter.
    - intro l. unfold dkeys. rewrite in_map_iff. split.
      + intros ([l' d] & <- & Hx). cbn. apply filter_In in Hx. destruct Hx as [Hin Hlen]. cbn in Hlen. apply In_dget in Hin; auto. destruct (N2 _ _ Hin) as [Nd _].
        destruct d as [|[p c] [|[p' c'] d]]; try discriminate. exists p, p'. split; [|split].
        * cbn in Nd. inversion Nd; subst. intros ->. apply H1. now left.
        * apply (M l' _ p Hin). now left.
        * apply (M l' _ p' Hin). right. now left.
      + intros (p & p' & Hne & H1 & H2). destruct (M2 l p H1) as [d Ed]. exists (l, d). split; auto. apply filter_In. split; [now apply dget_In|]. cbn.
        apply (M l d p Ed) in H1. apply (M l d p' Ed) in H2. unfold dkeys in H1, H2. destruct d as [|x [|y d]]; cbn in H1, H2; try tauto; try reflexivity.
        exfalso. destruct H1 as [<-|[]], H2 as [H2|[]]. now apply Hne.
    - unfold num_split_localities. rewrite fold_count. unfold dkeys. now rewrite map_length.
  Qed.
  (** naked_boundary is the number of cut edges inside a locality. *)
  Theorem C75_naked_boundary :
    numbers (fun e => cut_edge g A e /\ loc (fst e) = loc (snd e)) (naked_boundary (locality_dict none q) q).
  Proof.
    unfold naked_boundary. rewrite fold_count. cbn [Nat.add]. eexists. split; [|split; [|reflexivity]].
    - apply NoDup_filter. apply Sc.
    - intro e. rewrite filter_In, (sc_cuts Sc). split; intros [H1 H2]; split; auto.
      + destruct H1 as (_ & Ha & _). destruct (adj_nodes g _ _ (sc_wf Sc) Ha) as [Ha1 Ha2]. rewrite !dget_locality_dict in H2 by auto. apply eqb_true in H2. congruence.
      + destruct H1 as (_ & Ha & _). destruct (adj_nodes g _ _ (sc_wf Sc) Ha) as [Ha1 Ha2]. rewrite !dget_locality_dict by auto. rewrite H2. apply eqb_refl.
  Qed.

  (** ** num_pieces *)
  Lemma intersections_fold ns : incl ns (g_nodes g) -> forall d, NoDup (dkeys d) -> (forall l s, dget d l = Some s -> NoDup s) ->
    exists d', foldM (fun d n => l <- of_option KeyError (lp_loc q n) ;; p <- of_option KeyError (dget (a_map A) n) ;; Ok (dset d l (sadd p (dget_or [] d l)))) ns d = Ok d' /\
      NoDup (dkeys d') /\ (forall l s, dget d' l = Some s -> NoDup s) /\
      forall l p, In p (dget_or [] d' l) <-> In p (dget_or [] d l) \/ exists n, In n ns /\ loc n = l /\ district A n = Some p.
  Proof.
    induction ns as [|n ns IH]; intros I d N1 N2; cbn [foldM].
    - exists d. split; [reflexivity|]. split; [exact N1|]. split; [exact N2|]. intros l p. split; [now left|]. intros [Hp|(n & [] & _)]. exact Hp.
    - assert (Hn : In n (g_nodes g)) by (apply I; now left). rewrite (sc_loc Sc n Hn). cbn [of_option bind]. destruct (node_district n Hn) as [p Ep]. unfold district in Ep.
      rewrite Ep. cbn [of_option bind].
      assert (No : forall l, NoDup (dget_or [] d l)) by (intro l; unfold dget_or; destruct (dget d l) eqn:E; [eauto|constructor]).
      destruct (IH (fun x Hx => I x (or_intror Hx)) (dset d (loc n) (sadd p (dget_or [] d (loc n))))) as (d' & E' & N1' & N2' & H').
      + now apply NoDup_dset.
      + intros l s. rewrite dget_dset. destruct (eqb l (loc n)); [intros [= <-]; apply NoDup_sadd, No|apply N2].
      + exists d'. split; [exact E'|]. split; [exact N1'|]. split; [exact N2'|]. intros l p'. rewrite H'. unfold dget_or at 1. rewrite dget_dset.
        destruct (eqb_spec l (loc n)) as [->|Hne].
        * rewrite In_sadd. split.
          -- intros [[->|Hp]|(m & Hm & K)]; [right; exists n; split; [now left|]; split; [reflexivity|exact Ep]|now left|right; exists m; split; [now right|exact K]].
          -- intros [Hp|(m & [<-|Hm] & Hl & Hd)]; [left; now right| |].
             ++ unfold district in Hd. left. left. congruence.
             ++ right. exists m. auto.
        * fold (dget_or [] d l). split.
          -- intros [Hp|(m & Hm & K)]; [now left|right; exists m; split; [now right|exact K]].
          -- intros [Hp|(m & [<-|Hm] & Hl & Hd)]; [now left|congruence|right; exists m; auto].
  Qed.
  Definition classes (cs : list (list N)) (D : N -> Prop) : Prop :=
    NoDup (concat cs) /\ (forall n, In n (concat cs) <-> D n) /\ forall c, In c cs -> exists v, In v c /\ forall w, In w c <-> reach together v w.
  Lemma concat_In {X} (cs : list (list X)) x : In x (concat cs) <-> exists c, In c cs /\ In x c.
  Proof. rewrite in_concat. reflexivity. Qed.
  Lemma together_stays a b : reach together a b -> loc a = loc b /\ district A a = district A b.
  Proof. induction 1 as [|v w _ [I1 I2] (_ & H1 & H2)]; [auto|]. split; congruence. Qed.
  Lemma pieces_ok l p : meets l p -> exists cs, pieces_of q l p = Ok (length cs) /\ classes cs (fun n => In n (g_nodes g) /\ loc n = l /\ district A n = Some p).
  Proof.
    intro M. assert (Hl := meets_label l p M). apply dget_key in Hl. destruct Hl as [s Es]. unfold pieces_of. rewrite Es. cbn [of_option bind].
    rewrite (mapM_all_Ok _ (fun n => (n, loc n))).
    2:{ intros n Hn. assert (Hg : In n (g_nodes g)) by (apply (district_is_node n p), (part_nodes p s n Es); auto). rewrite (sc_loc Sc n Hg). reflexivity. }
    cbn [bind]. set (t := map fst _).
    assert (Ht : forall n, In n t <-> district A n = Some p /\ loc n = l).
    { intro n. unfold t. rewrite in_map_iff. split.
      - intros ([m x] & <- & Hm). apply filter_In in Hm. destruct Hm as [Hm Hx]. apply in_map_iff in Hm. destruct Hm as (k & [= <- <-] & Hk). cbn in *.
        split; [now apply (part_nodes p s k Es)|now apply eqb_true].
      - intros [Hd <-]. exists (n, loc n). split; auto. apply filter_In. split; [apply in_map_iff; exists n; split; auto; now apply (part_nodes p s n Es)|apply eqb_refl]. }
    destruct (components_spec (subgraph g t) (wf_subgraph g t (sc_wf Sc))) as (cs & Ecs & H1 & H2 & H3). rewrite Ecs. cbn [bind]. exists cs. split; [reflexivity|].
    split; [exact H3|]. split.
    - intro n. rewrite concat_In, <- H1, subgraph_nodes, Ht. split; [intros (K1 & K2 & K3); auto|intros (K1 & K2 & K3); auto].
    - intros c Hc. destruct (H2 c Hc) as (_ & v & Hv & Hr). exists v. split; [exact Hv|]. intro w. rewrite Hr.
      assert (Hvt : district A v = Some p /\ loc v = l).
      { assert (Hvn : In v (g_nodes (subgraph g t))) by (apply H1; eauto). apply subgraph_nodes in Hvn. now apply Ht. }
      split; intro R.
      + eapply reach_mono; [|exact R]. intros a b E. apply adj_subgraph in E. destruct E as (Ea & Ea1 & Ea2).
        apply Ht in Ea1. apply Ht in Ea2. destruct Ea1, Ea2. split; [exact Ea|]. split; congruence.
      + clear Hr. induction R as [|a b R IH T]; [constructor|]. eapply reach_step; [exact IH|]. destruct (together_stays _ _ R) as [T1 T2]. destruct T as (Ta & Tl & Td).
        apply adj_subgraph. destruct Hvt. split; [exact Ta|]. split; apply Ht; split; congruence.
  Qed.
  Lemma classes_app cs ds (D E : N -> Prop) : (forall n, D n -> E n -> False) -> classes cs D -> classes ds E -> classes (cs ++ ds) (fun n => D n \/ E n).
  Proof.
    intros Hd (C1 & C2 & C3) (D1 & D2 & D3). split; [|split].
    - rewrite concat_app. apply NoDup_app_iff. split; [exact C1|]. split; [exact D1|]. intros x Hx Hy. apply (Hd x); [now apply C2|now apply D2].
    - intro n. rewrite concat_app, in_app_iff, C2, D2. reflexivity.
    - intros c Hc. apply in_app_iff in Hc. destruct Hc; auto.
  Qed.
  Lemma classes_ext cs (D E : N -> Prop) : (forall n, D n <-> E n) -> classes cs D -> classes cs E.
  Proof. intros H (C1 & C2 & C3). split; [exact C1|]. split; [|exact C3]. intro n. now rewrite C2. Qed.
  Lemma inner_pieces l ps : NoDup ps -> (forall p, In p ps -> meets l p) -> forall k,
    exists cs, foldM (fun k p => c <- pieces_of q l p ;; Ok (k + c)) ps k = Ok (k + length cs) /\
      classes cs (fun n => In n (g_nodes g) /\ loc n = l /\ exists p, In p ps /\ district A n = Some p).
  Proof.
    induction ps as [|p ps IH]; intros Nd M k; cbn [foldM].
    - exists []. split; [cbn; f_equal; lia|]. split; [constructor|]. split; [|intros c []]. intro n. cbn. split; [intros []|intros (_ & _ & p & [] & _)].
    - inversion Nd; subst. destruct (pieces_ok l p (M p (or_introl eq_refl))) as (cs & Ecs & Ccs). rewrite Ecs. cbn [bind].
      destruct (IH H2 (fun x Hx => M x (or_intror Hx)) (k + length cs)) as (ds & Eds & Cds). exists (cs ++ ds). split; [rewrite Eds, app_length; f_equal; lia|].
      eapply classes_ext; [|apply (classes_app _ _ _ _) with (2 := Ccs) (3 := Cds)].
      + intro n. cbn. split.
        * intros [(K1 & K2 & K3)|(K1 & K2 & p' & K3 & K4)]; split; auto; split; auto; [exists p; auto|exists p'; auto].
        * intros (K1 & K2 & p' & [<-|K3] & K4); [now left|right; split; auto; split; auto; exists p'; auto].
      + intros n (_ & _ & K1) (_ & _ & p' & K2 & K3). apply H1. replace p with p' by congruence. exact K2.
  Qed.
  Lemma outer_pieces d : NoDup (dkeys d) -> (forall l s, In (l, s) d -> NoDup s /\ forall p, In p s <-> meets l p) -> forall k,
    exists cs, foldM (fun k lps => foldM (fun k p => c <- pieces_of q (fst lps) p ;; Ok (k + c)) (snd lps) k) d k = Ok (k + length cs) /\
      classes cs (fun n => In n (g_nodes g) /\ In (loc n) (dkeys d)).
  Proof.
    induction d as [|[l s] d IH]; intros Nd M k; cbn [foldM].
    - exists []. split; [cbn; f_equal; lia|]. split; [constructor|]. split; [|intros c []]. intro n. cbn. split; [intros []|intros (_ & [])].
    - cbn [dkeys map] in Nd. inversion Nd; subst. destruct (M l s (or_introl eq_refl)) as [Ns Ms]. destruct (inner_pieces l s Ns (fun p Hp => proj1 (Ms p) Hp) k) as (cs & Ecs & Ccs).
      cbn [fst snd]. rewrite Ecs. cbn [bind]. destruct (IH H2 (fun l' s' Hx => M l' s' (or_intror Hx)) (k + length cs)) as (ds & Eds & Cds). exists (cs ++ ds).
      split; [rewrite Eds, app_length; f_equal; lia|]. eapply classes_ext; [|apply (classes_app _ _ _ _) with (2 := Ccs) (3 := Cds)].
      + intro n. cbn. split.
        * intros [(K1 & K2 & _)|(K1 & K2)]; split; auto.
        * intros (K1 & [K2|K2]); [left|now right]. split; auto. split; auto. destruct (node_district n K1) as [p Ep]. exists p. split; [|exact Ep]. apply Ms. exists n. split; [split; auto|exact Ep].
      + intros n (_ & K1 & _) (_ & K2). apply H1. rewrite <- K1. exact K2.
  Qed.
  (** num_pieces is the number of classes of nodes joined by paths that stay in
      one locality and one district. *)
  Theorem C75_num_pieces : exists cs, num_pieces q = Ok (length cs) /\ NoDup (concat cs) /\
    (forall n, In n (g_nodes g) <-> exists c, In c cs /\ In n c) /\
    forall c, In c cs -> exists v, In v c /\ forall w, In w c <-> reach together v w.
  Proof.
    unfold num_pieces, locality_intersections. destruct (intersections_fold (g_nodes g) (incl_refl _) [] (NoDup_nil _)) as (d & Ed & N1 & N2 & H); [discriminate|].
    rewrite Ed. cbn [bind]. destruct (outer_pieces d N1) with (k := 0) as (cs & Ecs & C1 & C2 & C3).
    - intros l s Hin. apply In_dget in Hin; auto. split; [now apply (N2 l)|]. intro p. specialize (H l p). unfold dget_or at 1 in H. rewrite Hin in H. rewrite H. unfold dget_or. cbn. split.
      + intros [[]|(n & K1 & K2 & K3)]. exists n. split; [split|]; auto.
      + intros (n & [K1 K2] & K3). right. exists n. auto.
    - exists cs. split; [exact Ecs|]. split; [exact C1|]. split; [|exact C3]. intro n. rewrite <- concat_In, C2. split; [|tauto]. intro Hn. split; auto.
      destruct (node_district n Hn) as [p Ep]. specialize (H (loc n) p). assert (Hp : In p (dget_or [] d (loc n))) by (apply H; right; exists n; auto).
      unfold dget_or in Hp. destruct (dget d (loc n)) eqn:E; [|destruct Hp]. eapply dget_Some_key; eauto.
  Qed.

  (** ** C77 *)
  Definition cut_inside (l : L) : Prop := exists e, cut_edge g A e /\ loc (fst e) = l /\ loc (snd e) = l.
  Lemma reg_fold es : (forall e, In e es -> cut_edge g A e) -> forall split, NoDup (dkeys split) -> (forall n, In n (g_nodes g) -> In (loc n) (dkeys split)) ->
    exists split', foldM (fun split e =>
      a <- of_option KeyError (dget (a_map A) (fst e)) ;; b <- of_option KeyError (dget (a_map A) (snd e)) ;;
      if eqb a b then Ok split
      else
        l <- of_option KeyError (lp_loc q (fst e)) ;; m <- of_option KeyError (lp_loc q (snd e)) ;;
        if eqb l m then
          x <- of_option KeyError (dget split l) ;;
          let split := dset split l (S x) in
          y <- of_option KeyError (dget split m) ;; Ok (dset split m (S y))
        else Ok split) es split = Ok split' /\ dkeys split' = dkeys split /\
      forall l, 0 < dget_or 0 split' l <-> 0 < dget_or 0 split l \/ exists e, In e es /\ loc (fst e) = l /\ loc (snd e) = l.
  Proof.
    induction es as [|e es IH]; intros Hc split Nd Hk; cbn [foldM].
    - exists split. split; [reflexivity|]. split; [reflexivity|]. intro l. split; [now left|]. intros [K|(e & [] & _)]. exact K.
    - assert (Ce := Hc e (or_introl eq_refl)). destruct Ce as (_ & Ha & Hd). destruct (adj_nodes g _ _ (sc_wf Sc) Ha) as [Ha1 Ha2].
      destruct (node_district _ Ha1) as [p1 E1]. destruct (node_district _ Ha2) as [p2 E2]. unfold district in *. rewrite E1, E2. cbn [of_option bind].
      destruct (eqb_spec p1 p2) as [->|Hp]; [congruence|]. rewrite (sc_loc Sc _ Ha1), (sc_loc Sc _ Ha2). cbn [of_option bind].
      assert (Hc' : forall x, In x es -> cut_edge g A x) by (intros x Hx; apply Hc; now right).
      destruct (eqb_spec (loc (fst e)) (loc (snd e))) as [El|El].
      + assert (Hin := Hk _ Ha1). apply dget_key in Hin. destruct Hin as [x Ex]. rewrite Ex. cbn [of_option bind]. rewrite <- El, dget_dset_eq. cbn [of_option bind].
        set (l0 := loc (fst e)) in *. set (s1 := dset (dset split l0 (S x)) l0 (S (S x))).
        assert (K1 : dkeys s1 = dkeys split).
        { assert (K0 : dkeys (dset split l0 (S x)) = dkeys split) by (apply dkeys_dset_mem; eapply dget_Some_key; eauto).
          unfold s1. rewrite dkeys_dset_mem; rewrite K0; auto. eapply dget_Some_key; eauto. }
        destruct (IH Hc' s1) as (s' & Es' & Ks' & Hs'); [now rewrite K1|intros n Hn; rewrite K1; auto|].
        exists s'. split; [exact Es'|]. split; [congruence|]. intro l. rewrite Hs'. unfold dget_or at 1, s1. rewrite !dget_dset.
        destruct (eqb_spec l l0) as [->|Hn]; [|fold (dget_or 0 split l)].
        * split; [intros _; right; exists e; split; [now left|]; split; [reflexivity|auto]|intros _; left; lia].
        * split.
          -- intros [K|(e' & K2 & K3)]; [now left|right; exists e'; split; [now right|exact K3]].
          -- intros [K|(e' & [<-|K2] & K3 & K4)]; [now left|congruence|right; exists e'; auto].
      + destruct (IH Hc' split Nd Hk) as (s' & Es' & Ks' & Hs'). exists s'. split; [exact Es'|]. split; [exact Ks'|]. intro l. rewrite Hs'. split.
        * intros [K|(e' & K2 & K3)]; [now left|right; exists e'; split; [now right|exact K3]].
        * intros [K|(e' & [<-|K2] & K3 & K4)]; [now left|congruence|right; exists e'; auto].
  Qed.
  (** The number of regions with a cut edge inside. *)
  Theorem C77_counts_cut_regions : exists k, total_reg_splits q = Ok k /\ numbers cut_inside k.
  Proof.
    unfold total_reg_splits. rewrite (mapM_all_Ok _ loc) by (intros n Hn; now rewrite (sc_loc Sc n Hn)). cbn [bind].
    set (sp0 := map (fun l : L => (l, 0)) (set_of (map loc (g_nodes g)))).
    assert (K0 : dkeys sp0 = set_of (map loc (g_nodes g))) by (unfold sp0, dkeys; rewrite map_map; apply map_id).
    destruct (reg_fold (lp_cuts q) (fun e => proj1 (sc_cuts Sc e)) sp0) as (s' & Es' & Ks' & Hs').
    { rewrite K0. apply NoDup_set_of. } { intros n Hn. rewrite K0. apply In_set_of. now apply in_map. }
    match goal with |- context [bind ?x _] => assert (E2 : x = Ok s') by exact Es' end.
    rewrite E2. cbn [bind]. eexists. split; [reflexivity|]. exists (dkeys (filter (fun lc => Nat.ltb 0 (snd lc)) s')).
    assert (Nd : NoDup (dkeys s')) by (rewrite Ks', K0; apply NoDup_set_of). split; [|split].
    - now apply NoDup_keys_filter.
    - intro l. assert (Z : dget_or 0 sp0 l = 0).
      { unfold dget_or. destruct (dget sp0 l) eqn:E; auto. apply dget_In in E. unfold sp0 in E. apply in_map_iff in E. destruct E as (x & [= _ <-] & _). reflexivity. }
      specialize (Hs' l). rewrite Z in Hs'. transitivity (0 < dget_or 0 s' l).
      + unfold dkeys. rewrite in_map_iff. split.
        * intros ([l' c] & <- & Hx). apply filter_In in Hx. destruct Hx as [Hin Hc]. cbn in *. apply In_dget in Hin; auto. unfold dget_or. rewrite Hin. now apply Nat.ltb_lt.
        * unfold dget_or. destruct (dget s' l) as [c|] eqn:E; [|lia]. intro Hc. exists (l, c). split; auto. apply filter_In. split; [now apply dget_In|now apply Nat.ltb_lt].
      + rewrite Hs'. unfold cut_inside. split.
        * intros [K|(e & K1 & K2)]; [lia|]. exists e. split; [now apply (sc_cuts Sc)|exact K2].
        * intros (e & K1 & K2). right. exists e. split; [now apply (sc_cuts Sc)|exact K2].
    - unfold dkeys. now rewrite map_length.
  Qed.
  Lemma cut_inside_split l : cut_inside l -> split l.
  Proof.
    intros (e & (_ & Ha & Hd) & E1 & E2). destruct (adj_nodes g _ _ (sc_wf Sc) Ha) as [Ha1 Ha2]. destruct (node_district _ Ha1) as [p1 P1]. destruct (node_district _ Ha2) as [p2 P2].
    exists p1, p2. split; [congruence|]. split; [exists (fst e)|exists (snd e)]; (split; [split|]); auto.
  Qed.
  Lemma connected_split l : connected_on g (within l) -> split l -> cut_inside l.
  Proof.
    intros C (p & p' & Hp & (n & Hn & Dn) & (m & Hm & Dm)). assert (R := C n m Hn Hm).
    assert (G : forall v, reach (fun a b => adj g a b /\ within l a /\ within l b) n v -> district A v = Some p \/ cut_inside l).
    { induction 1 as [|a b _ IH (Ha & Wa & Wb)]; [now left|]. destruct IH as [IH|IH]; [|now right].
      destruct (eqb_spec (district A b) (Some p)) as [E|E]; [now left|]. right. destruct (sort2_cases (a, b)) as [Es|Es].
      - exists (a, b). split; [|split; [apply Wa|apply Wb]]. split; [rewrite <- Es; apply sort2_leb|]. split; [exact Ha|]. cbn. congruence.
      - cbn in Es. exists (b, a). split; [|split; [apply Wb|apply Wa]]. split; [rewrite <- Es; apply sort2_leb|]. split; [now apply adj_sym|]. cbn. congruence. }
    destruct (G m R) as [K|K]; [congruence|exact K].
  Qed.
  (** When every region is connected this is the number of split regions. *)
  Theorem C77_split_regions : (forall l, connected_on g (within l)) -> exists k, total_reg_splits q = Ok k /\ numbers split k.
  Proof.
    intro C. destruct C77_counts_cut_regions as (k & E & H). exists k. split; [exact E|]. eapply numbers_ext; [|exact H]. intro l. split; [apply cut_inside_split|apply connected_split, C].
  Qed.
  (** Otherwise it is a lower bound. *)
  Theorem C77_lower_bound : forall k k', total_reg_splits q = Ok k -> numbers split k' -> k <= k'.
  Proof.
    intros k k' E H. destruct C77_counts_cut_regions as (k0 & E0 & H0). assert (k0 = k) by congruence. subst. eapply numbers_le; [|exact H0|exact H]. apply cut_inside_split.
  Qed.
End Locality.

Section Updater.
  Context {N P L : Type} {EN : EqB N} {EP : EqB P} {EL : EqB L} {ON : Ord N}.
  (** The plan [q] with the regions of another column. *)
  Definition with_column (q : lplan N P L) (c : N -> option L) : lplan N P L := mkLplan (lp_graph q) c (lp_pop q) (lp_assign q) (lp_cuts q).
  (** The updater: without cut_edges ValueError; otherwise one count for every
      column asked for. *)
  Theorem C77_updater (q : lplan N P L) (column : string -> N -> option L) (loc : string -> N -> L) names :
    (forall a, In a names -> scored (with_column q (column a)) (loc a)) ->
    tally_region_splits false column names q = Err ValueError /\
    exists d, tally_region_splits true column names q = Ok d /\ (forall a, In a (dkeys d) <-> In a names) /\
      forall a, In a names -> exists k, dget d a = Some k /\ numbers (cut_inside (with_column q (column a)) (loc a)) k.
  Proof.
    intro H. split; [reflexivity|]. unfold tally_region_splits.
    assert (G : forall l d0, (forall a, In a l -> In a names) ->
      (forall a k, dget d0 a = Some k -> In a names /\ numbers (cut_inside (with_column q (column a)) (loc a)) k) ->
      exists d, foldM (fun d a => k <- total_reg_splits (mkLplan (lp_graph q) (column a) (lp_pop q) (lp_assign q) (lp_cuts q)) ;; Ok (dset d a k)) l d0 = Ok d /\
        (forall a, In a (dkeys d) <-> In a (dkeys d0) \/ In a l) /\
        (forall a k, dget d a = Some k -> In a names /\ numbers (cut_inside (with_column q (column a)) (loc a)) k)).
    { induction l as [|a l IH]; intros d0 Hl H0; cbn [foldM].
      - exists d0. split; [reflexivity|]. split; [intro a; cbn; tauto|exact H0].
      - assert (Ha : In a names) by (apply Hl; now left).
        destruct (C77_counts_cut_regions (with_column q (column a)) (loc a) (H a Ha)) as (k & E & Hk). unfold with_column in E. rewrite E. cbn [bind].
        destruct (IH (dset d0 a k)) as (d & Ed & Kd & Hd).
        + intros b Hb. apply Hl. now right.
        + intros b k'. rewrite dget_dset. destruct (eqb_spec b a) as [->|]; [|apply H0]. intros [= <-]. auto.
        + exists d. split; [exact Ed|]. split; [|exact Hd]. intro b. rewrite Kd, In_dkeys_dset. cbn. split; intuition (auto; congruence). }
    destruct (G names [] (fun a Ha => Ha)) as (d & Ed & Kd & Hd); [intros a k; discriminate|].
    exists d. split; [exact Ed|]. split; [intro a; rewrite Kd; cbn; tauto|].
    intros a Ha. destruct (dget d a) as [k|] eqn:E; [|apply dget_None in E; elim E; apply Kd; now right]. exists k. split; auto. now apply Hd.
  Qed.
End Updater.

(** ** Concrete cases *)

(** Three nodes in a row; the outer two belong to region 0, the middle one to
    region 1; the last node is a district of its own. *)
Definition row3 : graph nat := mkGraph [0; 1; 2] [(0, 1); (1, 2)].
Definition row3_plan (loc : nat -> nat) : lplan nat nat nat :=
  mkLplan row3 (fun n => Some (loc n)) (fun _ => Some 1%Z) (plan_of row3 [(0, 1); (1, 1); (2, 2)]) [(1, 2)].
Lemma wf_row3 : wf_graph row3. Proof. wfg. Qed.
Lemma row3_scored loc : scored (row3_plan loc) loc.
Proof.
  split.
  - exact wf_row3.
  - eapply plan_of_coherent; [nodup|vm_compute; reflexivity].
  - reflexivity.
  - repeat constructor. intros [].
  - intros [a b]. cbn. unfold cut_edge. cbn. split.
    + intros [[= <- <-]|[]]. split; [reflexivity|]. split; [left; cbn; auto|discriminate].
    + intros (Hle & Ha & Hd). unfold adj in Ha. cbn in Ha. destruct Ha as [[[= <- <-]|[[= <- <-]|[]]]|[[= <- <-]|[[= <- <-]|[]]]]; try discriminate; auto; exfalso; now apply Hd.
Qed.
(** Region 0 meets two districts, yet no region is counted. *)
Theorem C77_disconnected_refuted : exists (q : lplan nat nat nat) (loc : nat -> nat), scored q loc /\ total_reg_splits q = Ok 0 /\ split q loc 0.
Proof.
  exists (row3_plan (fun n => Nat.modulo n 2)), (fun n => Nat.modulo n 2). split; [apply row3_scored|]. split; [reflexivity|].
  exists 1, 2. split; [discriminate|]. split; [exists 0|exists 2]; (split; [split; cbn; auto|reflexivity]).
Qed.
(** With one region everywhere the hypotheses of all theorems hold and the
    counts are one split region, two parts, two pieces, one naked edge. *)
Example C75_nonvacuous : scored (row3_plan (fun _ => 0)) (fun _ => 0) /\
  (forall l, connected_on row3 (within (row3_plan (fun _ => 0)) (fun _ => 0) l)) /\
  total_reg_splits (row3_plan (fun _ => 0)) = Ok 1 /\ num_pieces (row3_plan (fun _ => 0)) = Ok 2 /\
  naked_boundary (locality_dict 0 (row3_plan (fun _ => 0))) (row3_plan (fun _ => 0)) = 1.
Proof.
  split; [apply row3_scored|]. split; [|split; [reflexivity|split; reflexivity]].
  intros l u v [Hu <-] [Hv _]. cbn in *.
  assert (E01 : adj row3 0 1) by (left; cbn; auto). assert (E12 : adj row3 1 2) by (left; cbn; auto).
  assert (W : forall x, In x [0; 1; 2] -> within (row3_plan (fun _ => 0)) (fun _ => 0) 0 x) by (intros x Hx; split; auto).
  assert (R : forall x, In x [0; 1; 2] -> reach (fun a b => adj row3 a b /\ within (row3_plan (fun _ => 0)) (fun _ => 0) 0 a /\ within (row3_plan (fun _ => 0)) (fun _ => 0) 0 b) 0 x).
  { assert (R1 : reach (fun a b => adj row3 a b /\ within (row3_plan (fun _ => 0)) (fun _ => 0) 0 a /\ within (row3_plan (fun _ => 0)) (fun _ => 0) 0 b) 0 1)
      by (eapply reach_step; [constructor|]; split; [exact E01|split; apply W; cbn; auto]).
    intros x [<-|[<-|[<-|[]]]]; [constructor|exact R1|]. eapply reach_step; [exact R1|]. split; [exact E12|]. split; apply W; cbn; auto. }
  eapply reach_trans; [|apply R; exact Hv]. apply reach_sym; [|apply R; exact Hu]. intros a b (H1 & H2 & H3). split; [now apply adj_sym|auto].
Qed.

Print Assumptions C75_num_parts.
Print Assumptions C75_num_split_localities.
Print Assumptions C75_naked_boundary.
Print Assumptions C75_num_pieces.
Print Assumptions C77_counts_cut_regions.
Print Assumptions C77_split_regions.
Print Assumptions C77_lower_bound.
Print Assumptions C77_disconnected_refuted.
(** Two columns on the row of three nodes, one asked for twice. *)
Example C77_updater_nonvacuous : let column := fun a n => if String.eqb a "county" then Some (Nat.eqb n 1) else Some true in
  (forall a, In a ["county"; "city"; "county"]%string ->
     scored (with_column (mkLplan row3 (fun _ => None) (fun _ => Some 1%Z) (plan_of row3 [(0, 1); (1, 1); (2, 2)]) [(1, 2)]) (column a))
            (fun n => if String.eqb a "county" then Nat.eqb n 1 else true)) /\
  tally_region_splits true column ["county"; "city"; "county"]%string (mkLplan row3 (fun _ => None) (fun _ => Some 1%Z) (plan_of row3 [(0, 1); (1, 1); (2, 2)]) [(1, 2)]) =
    Ok [("county"%string, 0); ("city"%string, 1)].
Proof.
  split; [|reflexivity]. intros a _. destruct (row3_scored (fun n => n)) as [S1 S2 S3 S4 S5]. split; auto. intros n _. cbn. now destruct (String.eqb a "county").
Qed.
Print Assumptions C77_updater.
