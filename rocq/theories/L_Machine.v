(** The invariant of plan objects: whatever is read, flipped or erased, every
    cached value is correct for its plan. *)
From Coq Require Import String List Bool Arith Ring_theory Ring Permutation Lia.
From Verif Require Import Base M_Graph M_Partition S_Partition L_Partition
  M_Machine S_Machine L_Sums L_Cuts L_Tally L_Updaters.
Import ListNotations.
Local Open Scope list_scope.
Local Open Scope string_scope.

Lemma nth_set_nth {A} (f : A -> A) a b : forall l,
  nth_error (set_nth a f l) b =
  if Nat.eqb b a then option_map f (nth_error l b) else nth_error l b.
Proof.
  revert b. induction a as [|a IH]; intros b [|x l]; simpl.
  - destruct b; reflexivity.
  - destruct b; reflexivity.
  - destruct b; simpl; auto. destruct (Nat.eqb b a); reflexivity.
  - destruct b; simpl; auto.
Qed.

Lemma map_set_nth {A B} (f : A -> A) (k : A -> B) a : forall l,
  (forall x, k (f x) = k x) -> map k (set_nth a f l) = map k l.
Proof.
  intros l H. revert l. induction a as [|a IH]; intros [|x l]; simpl; auto.
  - now rewrite H.
  - now rewrite IH.
Qed.

Lemma length_set_nth {A} (f : A -> A) a : forall l, List.length (set_nth a f l) = List.length l.
Proof. induction a; intros [|x l]; simpl; auto. Qed.

Section Inv.
  Context {N P V L : Type} {EN : EqB N} {EP : EqB P} {EL : EqB L} {ON : Ord N} {RV : CRing V}.
  Variable E : env N P V L.
  Notation g := (e_graph E).
  Notation obj := (pobj N P V L).
  Notation upd := (updater N P V L).
  Notation val := (value N P V L).

  (** An object without its cache. *)
  Definition skel (o : obj) : obj :=
    mkObj (o_assign o) (o_parent o) (o_flips o) (o_flows o) (o_eflows o) [].

  Definition step_ok (po o : obj) (flips : dict N P) : Prop :=
    o_flips o = Some flips /\
    labels (o_assign o) = labels (o_assign po) /\
    flows_spec (a_map (o_assign po)) flips (o_flows o) /\
    flipped (o_assign po) flips (o_assign o) /\
    (if dmem (e_updaters E) "cut_edges"
     then exists ef, o_eflows o = Some ef /\ eflows_spec g (o_assign po) (o_assign o) ef
     else o_eflows o = None).

  Definition wf_sk (sk : list obj) : Prop :=
    forall a o, nth_error sk a = Some o ->
      coherent (g_nodes g) (o_assign o) /\
      forall q, o_parent o = Some q ->
        q < a /\ exists po flips, nth_error sk q = Some po /\ step_ok po o flips.

  Definition cache_ok (o : obj) : Prop :=
    forall k v, dget (o_cache o) k = Some v ->
      exists u, dget (e_updaters E) k = Some u /\ correct E o u v.

  Definition Inv (sk : list obj) (h : heap N P V L) : Prop :=
    map skel h = sk /\ forall a o, nth_error h a = Some o -> cache_ok o.

  Lemma correct_skel (o o' : obj) u v :
    o_assign o = o_assign o' -> o_flips o = o_flips o' -> correct E o u v -> correct E o' u v.
  Proof. intros H1 H2. destruct u; simpl; rewrite <- ?H1, <- ?H2; auto. Qed.

  Lemma extends_refl {X} (dflt : X) (d : dict P X) : extends dflt d d.
  Proof. split; auto. congruence. Qed.

  Lemma extends_trans {X} (dflt : X) (d d' d'' : dict P X) :
    extends dflt d d' -> extends dflt d' d'' -> extends dflt d d''.
  Proof.
    intros [A1 A2] [B1 B2]. split; auto. intros p x Hn Hx.
    destruct (dget d' p) as [y|] eqn:Ey.
    - rewrite (B1 p y Ey) in Hx. injection Hx as <-. eauto.
    - eauto.
  Qed.

  Lemma unchanged_refl (v : val) : unchanged v v.
  Proof. destruct v; simpl; auto; apply extends_refl. Qed.

  Lemma unchanged_trans (v v' v'' : val) : unchanged v v' -> unchanged v' v'' -> unchanged v v''.
  Proof.
    destruct v, v', v''; simpl; intros H1 H2; try discriminate; try congruence;
      try (eapply extends_trans; eauto).
  Qed.

  Lemma same_refl u (v : val) : same_answer u v v.
  Proof. destruct u; simpl; auto; apply unchanged_refl. Qed.

  Lemma same_trans u (v v' v'' : val) :
    same_answer u v v' -> same_answer u v' v'' -> same_answer u v v''.
  Proof. destruct u; simpl; try congruence; apply unchanged_trans. Qed.

  Lemma touch_same u ps (v : val) :
    u = UCutEdgesByPart \/ u = UExteriorSet \/ u = UExterior ->
    same_answer u v (touch_value ps v).
  Proof.
    intro Hu. assert (H : unchanged v (touch_value ps v)).
    { destruct v; simpl; auto; split; intros p x H; try (now apply add_defaults_get).
      - intro Hx. destruct (add_defaults_get [] ps d p) as [G _].
        unfold dget_or in G. rewrite H, Hx in G. auto.
      - intro Hx. destruct (add_defaults_get (Num c0) ps d p) as [G _].
        unfold dget_or in G. rewrite H, Hx in G. auto.
      - intro Hx. destruct (add_defaults_get [] ps d p) as [G _].
        unfold dget_or in G. rewrite H, Hx in G. auto. }
    destruct Hu as [-> | [-> | -> ]]; exact H.
  Qed.

  Definition rank (u : upd) : nat :=
    match u with
    | UPerimeter => 2
    | UInterior | UExterior | UExteriorSet => 1
    | _ => 0
    end.
  Definition measure (a : nat) (u : upd) : nat := 3 * a + rank u.
  Lemma rank_le u : rank u <= 2.
  Proof. destruct u; simpl; lia. Qed.

  Definition cached (h : heap N P V L) (a : nat) (k : string) (v : val) : Prop :=
    exists o, nth_error h a = Some o /\ dget (o_cache o) k = Some v.

  (** Cached values stay; new ones have measure below [B]. *)
  Definition grows (B : nat) (h h' : heap N P V L) : Prop :=
    (forall a k u v, dget (e_updaters E) k = Some u -> cached h a k v ->
       exists v', cached h' a k v' /\ same_answer u v v') /\
    (forall a k u v', dget (e_updaters E) k = Some u -> cached h' a k v' ->
       (exists v, cached h a k v) \/ measure a u < B).

  Lemma grows_refl B h : grows B h h.
  Proof.
    split.
    - intros a k u v _ H. exists v. split; auto. apply same_refl.
    - intros a k u v _ H. left. eauto.
  Qed.
  Lemma grows_trans B h h' h'' : grows B h h' -> grows B h' h'' -> grows B h h''.
  Proof.
    intros [A1 A2] [B1 B2]. split.
    - intros a k u v Hu H. destruct (A1 a k u v Hu H) as (v' & H' & S).
      destruct (B1 a k u v' Hu H') as (v'' & H'' & S'). exists v''. split; auto.
      eapply same_trans; eauto.
    - intros a k u v Hu H. destruct (B2 a k u v Hu H) as [[v' H']|]; auto. eauto.
  Qed.
  Lemma grows_weaken B B' h h' : B <= B' -> grows B h h' -> grows B' h h'.
  Proof.
    intros HB [A1 A2]. split; auto. intros a k u v Hu H.
    destruct (A2 a k u v Hu H) as [|]; auto. right. lia.
  Qed.

  (** [s] is a condition under which the computation cannot raise. *)
  Definition tri (sk : list obj) (B : nat) {A} (s : Prop) (m : M A) (Q : A -> Prop) : Prop :=
    forall h, Inv sk h ->
      Inv sk (snd (m h)) /\ grows B h (snd (m h)) /\
      match fst (m h) with
      | Ok x => Q x
      | Err _ => ~ s
      | NoFuel => False
      end.

  Section Rules.
    Variable sk : list obj.

    Lemma tri_ret {A} {B} (s : Prop) (x : A) (Q : A -> Prop) : Q x -> tri sk B s (ret x) Q.
    Proof. intros H h I. simpl. split; auto. split; auto. apply grows_refl. Qed.

    Lemma tri_lift {A} {B} (s : Prop) (r : res A) (Q : A -> Prop) :
      (forall x, r = Ok x -> Q x) -> (s -> exists x, r = Ok x) -> r <> NoFuel ->
      tri sk B s (lift r) Q.
    Proof.
      intros H1 H2 H3 h I. simpl. split; auto. split; [apply grows_refl|].
      destruct r as [x|e|]; auto.
      intro Hs. destruct (H2 Hs); discriminate.
    Qed.

    Lemma tri_bind {A C} {B} (s : Prop) (m : M A) (f : A -> M C) (R : A -> Prop) (Q : C -> Prop) :
      tri sk B s m R -> (forall x, R x -> tri sk B s (f x) Q) -> tri sk B s (bindM m f) Q.
    Proof.
      intros Hm Hf h I. specialize (Hm h I). unfold bindM.
      destruct (m h) as [[x|e|] h'] eqn:Em; simpl in *; auto.
      destruct Hm as (I' & G & Hx). destruct (Hf x Hx h' I') as (I2 & G2 & H2).
      split; auto. split; auto. eapply grows_trans; eauto.
    Qed.

    Lemma tri_weaken {A} {B B'} (s s' : Prop) (m : M A) (R Q : A -> Prop) :
      tri sk B s m R -> B <= B' -> (s' -> s) -> (forall x, R x -> Q x) -> tri sk B' s' m Q.
    Proof.
      intros H HB Hs HQ h I. destruct (H h I) as (I' & G & Hx). split; auto.
      split; [eapply grows_weaken; eauto|].
      destruct (fst (m h)); auto.
    Qed.

    Lemma tri_get_obj {B} (s : Prop) a so :
      nth_error sk a = Some so ->
      tri sk B s (get_obj a) (fun o => skel o = so /\ cache_ok o).
    Proof.
      intros Ha h [I1 I2]. unfold get_obj. rewrite <- I1 in Ha.
      rewrite nth_error_map in Ha. destruct (nth_error h a) as [o|] eqn:Eo; [|discriminate].
      injection Ha as Ha. simpl. split; [split; auto|]. split; [apply grows_refl|]. split; auto. eauto.
    Qed.

    Lemma Inv_cache h a f :
      Inv sk h -> (forall o, nth_error h a = Some o -> cache_ok (with_cache f o)) ->
      Inv sk (set_nth a (with_cache f) h).
    Proof.
      intros [I1 I2] Hf. split.
      - rewrite map_set_nth; auto.
      - intros b o. rewrite nth_set_nth. destruct (Nat.eqb_spec b a) as [->|]; [|apply I2].
        destruct (nth_error h a) as [o'|] eqn:Eo; simpl; [|discriminate].
        intros [= <-]. auto.
    Qed.

    Lemma cache_with f (o : obj) :
      (forall k v, dget (f (o_cache o)) k = Some v ->
         exists u, dget (e_updaters E) k = Some u /\ correct E o u v) ->
      cache_ok (with_cache f o).
    Proof.
      intros H k v Hk. simpl in Hk. destruct (H k v Hk) as (u & Hu & Hc). exists u. split; [exact Hu|].
      eapply correct_skel; [| |exact Hc]; reflexivity.
    Qed.

    Lemma cached_set_nth h a f b k v :
      cached (set_nth a (with_cache f) h) b k v <->
      exists o, nth_error h b = Some o /\
        dget (if Nat.eqb b a then f (o_cache o) else o_cache o) k = Some v.
    Proof.
      unfold cached. rewrite nth_set_nth. destruct (Nat.eqb b a).
      - destruct (nth_error h b) as [o|]; simpl.
        + split; intros (o' & [= <-] & H); eauto.
        + split; intros (o' & H & _); discriminate.
      - split; auto.
    Qed.

    Lemma tri_touch {B} (s : Prop) a k ps u :
      dget (e_updaters E) k = Some u ->
      u = UCutEdgesByPart \/ u = UExteriorSet \/ u = UExterior ->
      tri sk B s (touch a k ps) (fun _ => True).
    Proof.
      intros Hu Hk h I. unfold touch. simpl. split; [|split; auto].
      - apply Inv_cache; auto.
        intros o Ho. pose proof (proj2 I a o Ho) as C. apply cache_with.
        intros k' v' Hv'. destruct (dget (o_cache o) k) as [v|] eqn:Ev; [|now apply C].
        rewrite dget_dset in Hv'. destruct (eqb_spec k' k) as [->|]; [|now apply C].
        injection Hv' as <-. exists u. split; auto. apply touch_correct; auto.
        destruct (C k v Ev) as (u' & Hu' & Hc). congruence.
      - split.
        + intros b k' u' v' Hu' (o & Ho & Hv).
          assert (Case : (exists ps', b = a /\ k' = k /\ ps' = ps) \/
                         (b <> a \/ k' <> k)).
          { destruct (Nat.eq_dec b a); [|tauto]. destruct (eq_dec_of k' k); [|tauto]. eauto. }
          destruct Case as [(ps' & -> & -> & ->)|Case].
          * assert (u' = u) by congruence. subst u'. exists (touch_value ps v'). split.
            -- apply cached_set_nth. exists o. split; auto. rewrite Nat.eqb_refl, Hv.
               apply dget_dset_eq.
            -- now apply touch_same.
          * exists v'. split; [|apply same_refl]. apply cached_set_nth. exists o. split; auto.
            destruct (Nat.eqb_spec b a); auto. destruct Case as [|Case]; [congruence|].
            destruct (dget (o_cache o) k); auto. rewrite dget_dset_neq; auto.
        + intros b k' u' v' Hu' Hc. left. apply cached_set_nth in Hc.
          destruct Hc as (o & Ho & Hv). destruct (Nat.eqb_spec b a) as [->|].
          * destruct (dget (o_cache o) k) as [v|] eqn:Ev.
            -- rewrite dget_dset in Hv. destruct (eqb_spec k' k) as [->|].
               ++ exists v, o. auto.
               ++ exists v', o. auto.
            -- exists v', o. auto.
          * exists v', o. auto.
    Qed.
  End Rules.

  (** ** Conditions under which reading cannot fail *)
  Definition full_plan (o : obj) : Prop := no_empty E (o_assign o).
  Definition ready (sk : list obj) (u : upd) : Prop :=
    match u with
    | UTally fields _ => (forall o, In o sk -> full_plan o) /\
                         forall f, In f fields -> exists w, data_is g (e_attr E f) w
    | UDataTally data _ => (forall o, In o sk -> full_plan o) /\ exists w, data_is g data w
    | UElection parties _ => (forall o, In o sk -> full_plan o) /\
                             forall c data, In (c, data) parties -> exists w, data_is g data w
    | UCounty field _ => forall n, In n (g_nodes g) -> exists c, e_county E field n = Some c
    | UCutEdgesByPart | UInterior | UPerimeter => dmem (e_updaters E) "cut_edges" = true
    | _ => True
    end.

  Notation wf_env := (S_Machine.wf_env E).

  Ltac step_bind := eapply tri_bind.

  Lemma not_nofuel_bind {A B} (r : res A) (f : A -> res B) :
    r <> NoFuel -> (forall x, f x <> NoFuel) -> bind r f <> NoFuel.
  Proof. intros H1 H2. destruct r; simpl; auto; try discriminate. Qed.
  Lemma not_nofuel_opt {A} e (o : option A) : of_option e o <> NoFuel.
  Proof. destruct o; discriminate. Qed.
  Lemma not_nofuel_foldM {A B} (f : B -> A -> res B) l : forall b,
    (forall b x, f b x <> NoFuel) -> foldM f l b <> NoFuel.
  Proof.
    induction l as [|x l IH]; simpl; intros b H; [discriminate|].
    apply not_nofuel_bind; auto.
  Qed.
  Lemma not_nofuel_mapM {A B} (f : A -> res B) l :
    (forall x, f x <> NoFuel) -> mapM f l <> NoFuel.
  Proof.
    intro H. induction l as [|x l IH]; simpl; [discriminate|].
    apply not_nofuel_bind; auto. intro y. apply not_nofuel_bind; auto. discriminate.
  Qed.
  Ltac nofuel := repeat (first
    [ discriminate
    | apply not_nofuel_opt
    | apply not_nofuel_mapM; intro
    | apply not_nofuel_foldM; intros
    | apply not_nofuel_bind; [|intro]
    | progress simpl
    | progress unfold scratch_cut_edges, new_cuts, obsolete_cuts, crosses_parts, put_edges,
        scratch_tally, field_sum, flow_sum, tally_step, data_step, scratch_ext_set, scratch_ext,
        scratch_county, county_step, county_update, elec_totals, elec_scratch, elec_step in *
    ]).

  Section RunOk.
    Variable sk : list obj.
    Hypothesis WS : wf_sk sk.
    Hypothesis WE : wf_env.
    Hypothesis REG : registered E.
    Variable rec : nat -> string -> @M N P V L val.
    Variables (a : nat) (o : obj) (so : obj) (k : string) (u : upd).
    Hypothesis Hso : nth_error sk a = Some so.
    Hypothesis Ho : skel o = so.
    Hypothesis Hu : dget (e_updaters E) k = Some u.
    Hypothesis Hrec : forall q k' u' qo,
      measure q u' < measure a u -> dget (e_updaters E) k' = Some u' ->
      nth_error sk q = Some qo -> tri sk (S (measure q u')) (ready sk u') (rec q k') (correct E qo u').

    Lemma so_assign : o_assign o = o_assign so. Proof. now rewrite <- Ho. Qed.
    Lemma so_parent : o_parent o = o_parent so. Proof. now rewrite <- Ho. Qed.
    Lemma so_flips : o_flips o = o_flips so. Proof. now rewrite <- Ho. Qed.
    Lemma so_flows : o_flows o = o_flows so. Proof. now rewrite <- Ho. Qed.
    Lemma so_eflows : o_eflows o = o_eflows so. Proof. now rewrite <- Ho. Qed.

    Lemma Hcoh : coherent (g_nodes g) (o_assign so).
    Proof. apply (WS a so Hso). Qed.

    Lemma in_reads k' u' : In (k', u') (reads u) -> dget (e_updaters E) k' = Some u'.
    Proof. eapply REG; eauto. Qed.

    (** What is known about the parent. *)
    Definition parent_facts (q : nat) (po : obj) (flips : dict N P) : Prop :=
      q < a /\ nth_error sk q = Some po /\ step_ok po so flips /\
      coherent (g_nodes g) (o_assign po).

    Lemma parent_ok q : o_parent so = Some q -> exists po flips, parent_facts q po flips.
    Proof.
      intro H. destruct (proj2 (WS a so Hso) q H) as (Hq & po & flips & H1 & H2).
      exists po, flips. split; auto. split; auto. split; auto. apply (WS q po H1).
    Qed.

    Lemma measure_parent q u' : q < a -> measure q u' < measure a u.
    Proof. unfold measure. pose proof (rank_le u'). lia. Qed.

    Lemma tri_rec_parent (s : Prop) q po flips k' u' :
      parent_facts q po flips -> dget (e_updaters E) k' = Some u' -> (s -> ready sk u') ->
      tri sk (measure a u) s (rec q k') (correct E po u').
    Proof.
      intros (H1 & H2 & _) Hu' Hs. eapply tri_weaken; [| |exact Hs|intros x Hx; exact Hx].
      - apply Hrec; eauto. now apply measure_parent.
      - now apply measure_parent.
    Qed.

    Lemma tri_rec_self (s : Prop) k' u' :
      rank u' < rank u -> dget (e_updaters E) k' = Some u' -> (s -> ready sk u') ->
      tri sk (measure a u) s (rec a k') (correct E so u').
    Proof.
      intros H1 Hu' Hs. eapply tri_weaken; [| |exact Hs|intros x Hx; exact Hx].
      - apply Hrec; eauto. unfold measure. lia.
      - unfold measure. lia.
    Qed.

    Lemma tri_truthy (s : Prop) :
      tri sk (measure a u) s (truthy_parent o)
        (fun tp => match tp with
                   | None => True
                   | Some q => exists po flips, parent_facts q po flips
                   end).
    Proof.
      unfold truthy_parent. rewrite so_parent.
      destruct (o_parent so) as [q|] eqn:Eq; [|now apply tri_ret].
      destruct (parent_ok q Eq) as (po & flips & F). pose proof F as (F1 & F2 & _).
      step_bind; [now apply tri_get_obj; eauto|]. intros x _.
      apply tri_ret. destruct (a_parts (o_assign x)); eauto.
    Qed.

    Lemma run_ok : tri sk (measure a u) (ready sk u) (run E rec a o u) (correct E so u).
    Proof.
      pose proof Hcoh as C. pose proof (proj1 WE) as W.
      assert (exists u0, u = u0) as [u0 Eu] by eauto.
      replace (tri sk (measure a u) (ready sk u) (run E rec a o u) (correct E so u))
        with (tri sk (measure a u) (ready sk u0) (run E rec a o u0) (correct E so u0)) by (now rewrite Eu).
      destruct u0 as [ | | fields al | data al | parties al | | | | | | | field al | f];
        unfold run; rewrite ?so_assign, ?so_flips, ?so_flows, ?so_eflows.
      - (* cut edges *)
        step_bind; [apply tri_truthy|]. intros [q|] Hq.
        + destruct Hq as (po & flips & F). pose proof F as (F1 & F2 & (S1 & S2 & S3 & S4 & S5) & Cp).
          rewrite S1. simpl.
          destruct (new_obsolete_spec E (o_assign po) flips (o_assign so) W Cp C)
            as (new & obs & En & Eo & Hn & Hob).
          step_bind; [now apply tri_get_obj; eauto|]. intros x [Hx _].
          assert (Ex : o_assign x = o_assign po) by (now rewrite <- Hx).
          step_bind; [now apply tri_ret with (Q := fun y => y = flips)|]. intros y ->.
          rewrite En.
          step_bind; [now apply tri_ret with (Q := fun y => y = new)|]. intros y ->.
          rewrite Ex, Eo.
          step_bind; [now apply tri_ret with (Q := fun y => y = obs)|]. intros y ->.
          step_bind.
          { apply (tri_rec_parent _ q po flips "cut_edges" UCutEdges F); [|auto].
            apply in_reads. rewrite Eu. simpl. auto. }
          intros v (s & -> & ND & Hs). simpl.
          step_bind; [now apply tri_ret with (Q := fun y => y = s)|]. intros y ->.
          apply tri_ret. eexists. split; [reflexivity|]. split.
          * apply NoDup_sdiff, NoDup_sunion, ND.
          * eapply cut_edges_incremental; eauto.
        + destruct (scratch_cut_edges_spec E (o_assign so) W C) as (s & Es & ND & Hs).
          rewrite Es. step_bind; [now apply tri_ret with (Q := fun y => y = s)|]. intros y ->.
          apply tri_ret. eexists. split; [reflexivity|]. auto.
      - (* cut edges by part *)
        step_bind; [apply tri_truthy|]. intros [q|] Hq.
        + destruct Hq as (po & flips & F). pose proof F as (F1 & F2 & (S1 & S2 & S3 & S4 & S5) & Cp).
          step_bind.
          { apply tri_lift with (Q := fun ef => eflows_spec g (o_assign po) (o_assign so) ef).
            - intros ef Hef. destruct (dmem (e_updaters E) "cut_edges").
              + destruct S5 as (ef' & Hef' & HS). rewrite Hef' in Hef. simpl in Hef. congruence.
              + rewrite S5 in Hef. discriminate.
            - simpl. intro R. rewrite R in S5. destruct S5 as (ef' & -> & _). simpl. eauto.
            - apply not_nofuel_opt. }
          intros ef Hef. step_bind.
          { apply (tri_rec_parent _ q po flips "cut_edges_by_part" UCutEdgesByPart F); [|auto].
            apply in_reads. rewrite Eu. simpl. auto. }
          intros v (d & -> & ND & Hd). simpl.
          step_bind; [now apply tri_ret with (Q := fun y => y = d)|]. intros y ->.
          step_bind.
          { apply tri_touch with (u := UCutEdgesByPart); auto.
            apply in_reads. rewrite Eu. simpl. auto. }
          intros [] _. apply tri_ret. eexists. split; [reflexivity|].
          eapply by_part_incremental; eauto.
        + destruct (scratch_cut_edges_spec E (o_assign so) W C) as (s & Es & ND & Hs).
          rewrite Es. step_bind; [now apply tri_ret with (Q := fun y => y = s)|]. intros y ->.
          destruct (put_edges_spec (o_assign so) s) as (d & Ed & NDd & Hd); auto.
          { intros e He. apply Hs in He. destruct He as (_ & Ha & _).
            destruct (adj_nodes g _ _ W Ha) as [H1 H2].
            destruct (has_district g _ _ C H1) as [p1 Hp1].
            destruct (has_district g _ _ C H2) as [p2 Hp2]. eauto. }
          rewrite Ed. step_bind; [now apply tri_ret with (Q := fun y => y = d)|]. intros y ->.
          apply tri_ret. eexists. split; [reflexivity|]. split; auto.
          intro p. destruct (Hd p) as [H1 H2]. split; auto. intro e. rewrite H2, Hs.
          unfold cut_edge_of. tauto.
      - (* tally *)
        rewrite so_parent. destruct (o_parent so) as [q|] eqn:Eq.
        + destruct (parent_ok q Eq) as (po & flips & F).
          pose proof F as (F1 & F2 & (S1 & S2 & S3 & S4 & S5) & Cp).
          step_bind.
          { apply (tri_rec_parent _ q po flips al (UTally fields al) F); [|auto].
            apply in_reads. rewrite Eu. simpl. auto. }
          intros v (d & -> & ND & LI & Hd). simpl.
          step_bind; [now apply tri_ret with (Q := fun y => y = d)|]. intros y ->.
          step_bind.
          { apply tri_lift with (Q := fun d' => tally_step E fields (o_flows so) d = Ok d'); auto.
            - intros [R1 R2].
              assert (exists w : string -> N -> V, forall f, In f fields -> data_is g (e_attr E f) (w f))
                as [w Hw].
              { exists (fun f n => match e_attr E f n with Some (Num v) => v | _ => c0 end).
                intros f Hf n Hn. destruct (R2 f Hf) as [w Hw]. rewrite (Hw n Hn). reflexivity. }
              eapply tally_step_ok; eauto.
              + intros f Hf n Hn. destruct (R2 f Hf) as [w' Hw']. rewrite (Hw' n Hn). eauto.
              + intros p Hp.
                apply (tally_full E (o_assign po) _ d (R1 po (nth_error_In _ _ F2)) (Hd w Hw)).
                exact (flow_labels g _ flips _ _ Cp C S2 S3 S4 p Hp).
            - nofuel. }
          intros d' Hd'. apply tri_ret. exists d'. split; auto.
          destruct (tally_step_spec E _ flips _ _ _ _ _ Cp C S2 S3 S4 Hd' ND LI) as (T1 & T2 & T3).
          split; auto. split; auto. intros w Hw. apply (T3 w Hw). exact (Hd w Hw).
        + step_bind.
          { apply tri_lift with (Q := fun d' => scratch_tally (o_assign so) (field_sum E fields) = Ok d'); auto.
            - intros [R1 R2]. eapply scratch_tally_ok; eauto. intros n Hn.
              eapply field_sum_ok; eauto. intros f Hf n' Hn'.
              destruct (R2 f Hf) as [w Hw]. rewrite (Hw n' Hn'). eauto.
            - nofuel; try (destruct (is_nan _); discriminate). }
          intros d' Hd'. apply tri_ret. exists d'. split; auto.
          destruct (scratch_tally_spec E _ _ _ C Hd') as (T1 & T2 & T3).
          split; auto. split; auto. intros w Hw. apply T3. intros n Hn.
          now apply field_sum_num.
      - (* data tally *)
        rewrite so_parent. destruct (o_parent so) as [q|] eqn:Eq.
        + destruct (parent_ok q Eq) as (po & flips & F).
          pose proof F as (F1 & F2 & (S1 & S2 & S3 & S4 & S5) & Cp).
          step_bind.
          { apply (tri_rec_parent _ q po flips al (UDataTally data al) F); [|auto].
            apply in_reads. rewrite Eu. simpl. auto. }
          intros v (d & -> & ND & LI & Hd). simpl.
          step_bind; [now apply tri_ret with (Q := fun y => y = d)|]. intros y ->.
          step_bind.
          { apply tri_lift with (Q := fun d' => data_step data (o_flows so) d = Ok d'); auto.
            - intros [R1 [w Hw]]. eapply (data_step_ok E); eauto.
              + intros n Hn. rewrite (Hw n Hn). eauto.
              + intros p Hp.
                apply (tally_full E (o_assign po) _ d (R1 po (nth_error_In _ _ F2)) (Hd w Hw)).
                exact (flow_labels g _ flips _ _ Cp C S2 S3 S4 p Hp).
            - nofuel. }
          intros d' Hd'. apply tri_ret. exists d'. split; auto.
          destruct (data_step_spec E _ flips _ _ _ _ _ Cp C S2 S3 S4 Hd' ND LI) as (T1 & T2 & T3).
          split; auto.
        + step_bind.
          { apply tri_lift with (Q := fun d' => scratch_tally (o_assign so)
                 (fun n => of_option KeyError (data n)) = Ok d'); auto.
            - intros [R1 [w Hw]]. eapply scratch_tally_ok; eauto. intros n Hn.
              rewrite (Hw n Hn). simpl. eauto.
            - nofuel; try (destruct (is_nan _); discriminate). }
          intros d' Hd'. apply tri_ret. exists d'. split; auto.
          destruct (scratch_tally_spec E _ _ _ C Hd') as (T1 & T2 & T3).
          split; auto. split; auto. intros w Hw. apply T3. intros n Hn.
          rewrite (Hw n Hn). reflexivity.
      - (* election *)
        assert (NDp : NoDup (dkeys parties)).
        { apply (proj2 WE k parties al). now rewrite Hu, Eu. }
        eapply tri_bind with (R := counts_ok E (o_assign so) parties).
        { rewrite so_parent. destruct (o_parent so) as [q|] eqn:Eq.
          - destruct (parent_ok q Eq) as (po & flips & F).
            pose proof F as (F1 & F2 & (S1 & S2 & S3 & S4 & S5) & Cp).
            step_bind.
            { apply (tri_rec_parent _ q po flips al (UElection parties al) F); [|auto].
              apply in_reads. rewrite Eu. simpl. auto. }
            intros v (cs & ts & -> & K1 & K2 & K3 & _). simpl.
            step_bind; [now apply tri_ret with (Q := fun y => y = cs)|]. intros y ->.
            assert (Ok0 : counts_ok E (o_assign po) parties cs) by (split; auto).
            apply tri_lift.
            + intros d Hd. eapply elec_step_spec; [exact Cp|exact C| | | | | |]; eauto.
            + intros [R1 R2]. exact (elec_step_ok E _ flips _ _ parties cs Cp C S2 S3 S4
                       (R1 po (nth_error_In _ _ F2)) Ok0 R2).
            + nofuel.
          - apply tri_lift.
            + intros d Hd. eapply elec_scratch_spec; eauto.
            + intros [R1 R2]. eapply elec_scratch_ok; eauto.
            + nofuel; try (destruct (is_nan _); discriminate). }
        intros counts Hc. step_bind.
        { apply tri_lift with (Q := fun t => elec_totals (o_assign so) counts = Ok t); auto.
          - intros [R1 R2]. exact (elec_totals_ok E _ parties counts (R1 so (nth_error_In _ _ Hso)) NDp Hc R2).
          - nofuel. }
        intros totals Ht. apply tri_ret. exists counts, totals. split; auto.
        destruct (elec_totals_spec E _ _ _ _ C NDp Hc W Ht) as (T1 & T2).
        destruct Hc as (K1 & K2 & K3). split; auto.
      - (* boundary nodes *)
        step_bind; [apply tri_truthy|]. intros [q|] Hq.
        + destruct Hq as (po & flips & F).
          eapply tri_weaken; [apply (tri_rec_parent (ready sk UBoundaryNodes) q po flips "boundary_nodes" UBoundaryNodes F)| | |].
          * apply in_reads. rewrite Eu. simpl. auto.
          * auto.
          * auto.
          * auto.
          * intros v H. exact H.
        + apply tri_ret. eexists. split; [reflexivity|]. apply scratch_boundary_spec.
      - (* exterior as set *)
        assert (Hb : dget (e_updaters E) "boundary_nodes" = Some UBoundaryNodes).
        { apply in_reads. rewrite Eu. simpl. auto. }
        assert (Hx : dget (e_updaters E) "exterior_boundaries_as_a_set" = Some UExteriorSet).
        { apply in_reads. rewrite Eu. simpl. auto. }
        rewrite so_parent. destruct (o_parent so) as [q|] eqn:Eq.
        + destruct (parent_ok q Eq) as (po & flips & F).
          pose proof F as (F1 & F2 & (S1 & S2 & S3 & S4 & S5) & Cp).
          step_bind.
          { apply (tri_rec_parent _ q po flips _ UExteriorSet F Hx); auto. }
          intros v (d & -> & ND & Hd). simpl.
          step_bind; [now apply tri_ret with (Q := fun y => y = d)|]. intros y ->.
          destruct (o_flows so) as [|pf fl] eqn:Ef.
          * apply tri_ret. exists d. split; auto. split; auto. intro p.
            destruct (Hd p) as [H1 H2]. split; auto. intro n. rewrite H2.
            destruct (member_change g _ flips _ _ Cp S3 S4 p) as (_ & _ & M3).
            rewrite M3. unfold inset, outset. simpl. tauto.
          * step_bind; [apply tri_touch with (u := UExteriorSet); auto|]. intros [] _.
            step_bind; [apply tri_rec_self with (u' := UBoundaryNodes); auto; first [intros _; exact I | rewrite Eu; simpl; lia]|].
            intros v (bs & -> & NDb & Hbs). simpl.
            step_bind; [now apply tri_ret with (Q := fun y => y = bs)|]. intros y ->.
            apply tri_ret. eexists. split; [reflexivity|].
            exact (ext_set_incremental E (o_assign po) flips (o_assign so) (pf :: fl) bs d Cp S3 S4 Hbs ND Hd).
        + step_bind; [apply tri_rec_self with (u' := UBoundaryNodes); auto; first [intros _; exact I | rewrite Eu; simpl; lia]|].
          intros v (bs & -> & NDb & Hbs). simpl.
          step_bind; [now apply tri_ret with (Q := fun y => y = bs)|]. intros y ->.
          destruct (scratch_ext_set_spec E (o_assign so) bs C NDb Hbs) as (d & Ed & Hd).
          rewrite Ed. step_bind; [now apply tri_ret with (Q := fun y => y = d)|]. intros y ->.
          apply tri_ret. exists d. auto.
      - (* exterior *)
        assert (Hb : dget (e_updaters E) "boundary_nodes" = Some UBoundaryNodes).
        { apply in_reads. rewrite Eu. simpl. auto. }
        assert (Hx : dget (e_updaters E) "exterior_boundaries" = Some UExterior).
        { apply in_reads. rewrite Eu. simpl. auto. }
        rewrite so_parent. destruct (o_parent so) as [q|] eqn:Eq.
        + destruct (parent_ok q Eq) as (po & flips & F).
          pose proof F as (F1 & F2 & (S1 & S2 & S3 & S4 & S5) & Cp).
          step_bind.
          { apply (tri_rec_parent _ q po flips _ UExterior F Hx); auto. }
          intros v (d & -> & ND & Hd). simpl.
          step_bind; [now apply tri_ret with (Q := fun y => y = d)|]. intros y ->.
          destruct (o_flows so) as [|pf fl] eqn:Ef.
          * apply tri_ret. exists d. split; auto. split; auto. intro p.
            destruct (Hd p) as (y & H1 & H2). exists y. split; auto.
            eapply sums_to_ext; [|exact H2]. intro n.
            destruct (member_change g _ flips _ _ Cp S3 S4 p) as (_ & _ & M3).
            rewrite M3. unfold inset, outset. simpl. tauto.
          * step_bind; [apply tri_touch with (u := UExterior); auto|]. intros [] _.
            step_bind; [apply tri_rec_self with (u' := UBoundaryNodes); auto; first [intros _; exact I | rewrite Eu; simpl; lia]|].
            intros v (bs & -> & NDb & Hbs). simpl.
            step_bind; [now apply tri_ret with (Q := fun y => y = bs)|]. intros y ->.
            apply tri_ret. eexists. split; [reflexivity|].
            exact (ext_incremental E (o_assign po) flips (o_assign so) (pf :: fl) bs d Cp S3 S4 Hbs ND Hd).
        + step_bind; [apply tri_rec_self with (u' := UBoundaryNodes); auto; first [intros _; exact I | rewrite Eu; simpl; lia]|].
          intros v (bs & -> & NDb & Hbs). simpl.
          step_bind; [now apply tri_ret with (Q := fun y => y = bs)|]. intros y ->.
          destruct (scratch_ext_spec E (o_assign so) bs C NDb Hbs) as (d & Ed & Hd).
          rewrite Ed. step_bind; [now apply tri_ret with (Q := fun y => y = d)|]. intros y ->.
          apply tri_ret. exists d. auto.
      - (* interior *)
        assert (Hb : dget (e_updaters E) "cut_edges_by_part" = Some UCutEdgesByPart).
        { apply in_reads. rewrite Eu. simpl. auto. }
        assert (Hx : dget (e_updaters E) "interior_boundaries" = Some UInterior).
        { apply in_reads. rewrite Eu. simpl. auto. }
        step_bind; [apply tri_truthy|]. intros [q|] Hq.
        + destruct Hq as (po & flips & F). pose proof F as (F1 & F2 & (S1 & S2 & S3 & S4 & S5) & Cp).
          step_bind.
          { apply tri_lift with (Q := fun ef => eflows_spec g (o_assign po) (o_assign so) ef).
            - intros ef Hef. destruct (dmem (e_updaters E) "cut_edges").
              + destruct S5 as (ef' & Hef' & HS). rewrite Hef' in Hef. simpl in Hef. congruence.
              + rewrite S5 in Hef. discriminate.
            - simpl. intro R. rewrite R in S5. destruct S5 as (ef' & -> & _). simpl. eauto.
            - apply not_nofuel_opt. }
          intros ef Hef. step_bind.
          { apply (tri_rec_parent _ q po flips _ UInterior F Hx); auto. }
          intros v (d & -> & ND & LI & Hd). simpl.
          step_bind; [now apply tri_ret with (Q := fun y => y = d)|]. intros y ->.
          step_bind.
          { apply tri_lift with (Q := fun d' => foldM (fun d0 pf =>
                 x <- of_option KeyError (dget d (fst pf)) ;;
                 Ok (dset d0 (fst pf) (nsub (nadd x (shared_sum E (f_in (snd pf))))
                                           (shared_sum E (f_out (snd pf)))))) ef d = Ok d'); auto.
            - intros _. apply foldM_progress with (Inv := fun _ _ => True); auto.
              intros pre [p f] acc _ Hf. simpl.
              assert (Hp : In p (dkeys d)).
              { apply LI. rewrite <- S2.
                assert (Hp : In p (dkeys ef)) by (change p with (fst (p, f)); now apply in_map).
                apply (wff_live _ (es_wf _ _ _ _ Hef)) in Hp. destruct Hp as (e & [He|He]).
                - apply (es_in _ _ _ _ Hef) in He. destruct He as [[_ [H|H]] _];
                    exact (proj2 (district_node g _ _ _ C H)).
                - rewrite S2. apply (es_out _ _ _ _ Hef) in He. destruct He as [[_ [H|H]] _];
                    exact (proj2 (district_node g _ _ _ Cp H)). }
              apply dget_key in Hp. destruct Hp as [x ->]. simpl. eauto.
            - nofuel. }
          intros d' Hd'. apply tri_ret. exists d'. split; auto.
          exact (interior_incremental E (o_assign po) (o_assign so) ef d d' Hef S2 ND LI Hd Hd').
        + destruct (dkeys (a_parts (o_assign so))) as [|p0 ps] eqn:Ep.
          * apply tri_ret. exists []. split; auto. split; [constructor|]. split.
            -- intro p. unfold labels. rewrite Ep. auto.
            -- discriminate.
          * rewrite <- Ep in *.
            step_bind; [apply tri_rec_self with (u' := UCutEdgesByPart); auto; first [intros _; exact I | rewrite Eu; simpl; lia]|].
            intros v (d & -> & ND & Hd). simpl.
            step_bind; [now apply tri_ret with (Q := fun y => y = d)|]. intros y ->.
            step_bind; [apply tri_touch with (u := UCutEdgesByPart); auto|]. intros [] _.
            apply tri_ret. eexists. split; [reflexivity|].
            assert (K : dkeys (map (fun p => (p, shared_sum E (dget_or [] d p)))
                                   (dkeys (a_parts (o_assign so)))) = labels (o_assign so)).
            { unfold dkeys at 1. rewrite map_map. apply map_id. }
            rewrite K. split; [apply C|]. split; auto.
            intros p x Hx'. apply dget_In in Hx'. apply in_map_iff in Hx'.
            destruct Hx' as (p' & [= -> <-] & _). rewrite shared_sum_num.
            eexists. split; [reflexivity|]. destruct (Hd p) as [H1 H2].
            eapply sums_to_ext; [|apply sums_to_list; exact H1]. exact H2.
      - (* perimeter *)
        assert (Hb : dget (e_updaters E) "exterior_boundaries" = Some UExterior).
        { apply in_reads. rewrite Eu. simpl. auto. }
        assert (Hx : dget (e_updaters E) "interior_boundaries" = Some UInterior).
        { apply in_reads. rewrite Eu. simpl. auto. }
        destruct (dkeys (a_parts (o_assign so))) as [|p0 ps] eqn:Ep.
        + apply tri_ret. exists []. split; auto. split.
          * unfold labels. rewrite Ep. auto.
          * discriminate.
        + rewrite <- Ep in *.
          step_bind; [apply tri_rec_self with (u' := UExterior); auto; first [intros _; exact I | rewrite Eu; simpl; lia]|].
          intros v (d & -> & ND & Hd). simpl.
          step_bind; [now apply tri_ret with (Q := fun y => y = d)|]. intros y ->.
          step_bind; [apply tri_touch with (u := UExterior); auto|]. intros [] _.
          step_bind; [apply tri_rec_self with (u' := UInterior); auto; first [intros _; exact I | rewrite Eu; simpl; lia]|].
          intros v (d2 & -> & ND2 & LI2 & Hd2). simpl.
          step_bind; [now apply tri_ret with (Q := fun y => y = d2)|]. intros y ->.
          step_bind.
          { apply tri_lift with (Q := fun r => mapM (fun p =>
                 x <- of_option KeyError (dget d2 p) ;;
                 Ok (p, nadd (dget_or (Num c0) d p) x)) (dkeys (a_parts (o_assign so))) = Ok r); auto.
            - intros _. apply mapM_progress. intros p Hp.
              apply LI2 in Hp. apply dget_key in Hp. destruct Hp as [x ->]. simpl. eauto.
            - nofuel. }
          intros r Hr. apply tri_ret. exists r. split; auto. split.
          * unfold labels. rewrite <- (map_id (dkeys (a_parts (o_assign so)))). revert Hr.
            apply mapM_keys. intros p y Hy. apply bind_Ok in Hy.
            destruct Hy as (t & _ & [= <-]). reflexivity.
          * intros p x Hx'. apply dget_In in Hx'.
            destruct (mapM_In _ _ _ _ Hr Hx') as (p' & _ & Hy). apply bind_Ok in Hy.
            destruct Hy as (t & Ht & [= -> <-]).
            destruct (dget d2 p) as [t'|] eqn:Et; [|discriminate]. injection Ht as ->.
            destruct (Hd2 p t Et) as (z & -> & Hz).
            destruct (Hd p) as (y & Ey & Hy). rewrite Ey. exists y, z. auto.
      - (* flips *)
        apply tri_ret. reflexivity.
      - (* county *)
        step_bind; [apply tri_truthy|]. intros [q|] Hq.
        + destruct Hq as (po & flips & F). pose proof F as (F1 & F2 & (S1 & S2 & S3 & S4 & S5) & Cp).
          step_bind.
          { apply (tri_rec_parent _ q po flips al (UCounty field al) F); [|auto].
            apply in_reads. rewrite Eu. simpl. auto. }
          intros v (d & -> & ND & K & Hd). simpl.
          step_bind; [now apply tri_ret with (Q := fun y => y = d)|]. intros y ->.
          step_bind.
          { apply tri_lift with (Q := fun d' => county_update (o_assign so) d = Ok d'); auto.
            - intros _. eapply (county_update_ok E (o_assign po)); eauto.
            - nofuel. }
          intros d' Hd'. apply tri_ret. exists d'. split; auto.
          destruct (county_update_spec E _ _ _ _ _ Hd Hd') as [K' Hc].
          rewrite K'. auto.
        + step_bind.
          { apply tri_lift with (Q := fun d' => scratch_county E (o_assign so) field = Ok d'); auto.
            - intro R. eapply scratch_county_ok; eauto.
            - nofuel. }
          intros d' Hd'. apply tri_ret. exists d'. split; auto.
          destruct (scratch_county_spec E _ _ _ W C Hd') as (T1 & T2 & T3).
          split; auto. split; auto. intros c i Hi. now apply T3.
      - (* user function *)
        apply tri_ret. reflexivity.
    Qed.
  End RunOk.

  Lemma getitem_eq fuel a k h o :
    nth_error h a = Some o ->
    getitem E (S fuel) a k h =
    match dget (o_cache o) k with
    | Some v => (Ok v, h)
    | None =>
      match dget (e_updaters E) k with
      | None => (Err KeyError, h)
      | Some u =>
        match run E (getitem E fuel) a o u h with
        | (Ok v, h') => (Ok v, set_nth a (with_cache (fun c => dset c k v)) h')
        | (Err e, h') => (Err e, h')
        | (NoFuel, h') => (NoFuel, h')
        end
      end
    end.
  Proof.
    intro Eo. simpl. unfold bindM, get_obj. rewrite Eo.
    destruct (dget (o_cache o) k); [reflexivity|].
    destruct (dget (e_updaters E) k); reflexivity.
  Qed.

  Lemma getitem_ok sk (WS : wf_sk sk) (WE : wf_env) (REG : registered E) : forall fuel a k u so,
    measure a u < fuel -> dget (e_updaters E) k = Some u -> nth_error sk a = Some so ->
    tri sk (S (measure a u)) (ready sk u) (getitem E fuel a k) (correct E so u).
  Proof.
    induction fuel as [|fuel IH]; intros a k u so Hm Hu Hso; [lia|].
    intros h I. pose proof I as [I1 I2].
    assert (Ha : nth_error (map skel h) a = Some so) by (now rewrite I1).
    rewrite nth_error_map in Ha. destruct (nth_error h a) as [o|] eqn:Eo; [|discriminate].
    injection Ha as Ha. rewrite (getitem_eq _ _ _ _ _ Eo).
    destruct (dget (o_cache o) k) as [v|] eqn:Ev.
    - simpl. split; auto. split; [apply grows_refl|].
      destruct (I2 a o Eo k v Ev) as (u' & Hu' & Hc). rewrite Hu in Hu'.
      injection Hu' as <-. eapply correct_skel; [| |exact Hc]; now rewrite <- Ha.
    - rewrite Hu.
      assert (T : tri sk (measure a u) (ready sk u) (run E (getitem E fuel) a o u) (correct E so u)).
      { eapply run_ok; eauto. intros q k' u' qo Hlt Hu' Hq. apply (IH q k' u' qo); auto. lia. }
      destruct (T h I) as (J & G & R).
      destruct (run E (getitem E fuel) a o u h) as [[v|e|] h']; simpl in *.
      + assert (NC : forall w, ~ cached h' a k w).
        { intros w Hw. destruct (proj2 G a k u w Hu Hw) as [(v0 & o0 & H0 & H1)|H]; [|lia].
          rewrite Eo in H0. injection H0 as <-. congruence. }
        split; [|split; auto].
        * apply Inv_cache; auto.
          intros o' Ho'. pose proof (proj2 J a o' Ho') as C'. apply cache_with.
          intros k' v' Hv'. rewrite dget_dset in Hv'.
          destruct (eqb_spec k' k) as [->|]; [|now apply C'].
          injection Hv' as <-. exists u. split; auto.
          assert (Hs : skel o' = so).
          { pose proof (proj1 J) as J1. rewrite <- J1, nth_error_map, Ho' in Hso.
            simpl in Hso. congruence. }
          eapply correct_skel; [| |exact R]; now rewrite <- Hs.
        * eapply grows_trans; [eapply grows_weaken; [|exact G]; lia|]. split.
          -- intros b k' u' v' Hu' (o' & Ho' & Hv'). exists v'. split; [|apply same_refl].
             apply cached_set_nth. exists o'. split; auto.
             destruct (Nat.eqb_spec b a) as [->|]; auto.
             destruct (eq_dec_of k' k) as [->|Hk].
             ++ exfalso. apply (NC v'). exists o'. auto.
             ++ rewrite dget_dset_neq; auto.
          -- intros b k' u' v' Hu' Hc. apply cached_set_nth in Hc. destruct Hc as (o' & Ho' & Hv').
             destruct (Nat.eqb_spec b a) as [->|].
             ++ rewrite dget_dset in Hv'. destruct (eqb_spec k' k) as [->|].
                ** right. assert (u' = u) by congruence. subst. lia.
                ** left. exists v', o'. auto.
             ++ left. exists v', o'. auto.
      + split; auto. split; auto. eapply grows_weaken; [|exact G]. lia.
      + destruct R.
  Qed.

  (** ** Heaps *)
  Definition wf_heap (h : heap N P V L) : Prop :=
    wf_sk (map skel h) /\ forall a o, nth_error h a = Some o -> cache_ok o.

  Lemma wf_heap_Inv h : wf_heap h -> Inv (map skel h) h.
  Proof. intros [_ H]. split; auto. Qed.

  Lemma read_spec h a k :
    wf_env -> registered E -> wf_heap h ->
    let r := read E a k h in
    wf_heap (snd r) /\ map skel (snd r) = map skel h /\
    (exists B, grows B h (snd r)) /\
    (forall v, fst r = Ok v -> cached (snd r) a k v) /\
    (forall u o, dget (e_updaters E) k = Some u -> nth_error h a = Some o ->
       match fst r with
       | Ok v => correct E o u v
       | Err _ => ~ ready h u
       | NoFuel => False
       end).
  Proof.
    intros WE REG W r. pose proof (wf_heap_Inv h W) as I. destruct W as [W1 W2].
    unfold r, read. clear r.
    destruct (nth_error h a) as [o|] eqn:Ea.
    - destruct (dget (e_updaters E) k) as [u|] eqn:Ek.
      + assert (Hm : measure a u < S (3 * List.length h)).
        { unfold measure. pose proof (rank_le u).
          assert (a < List.length h) by (apply nth_error_Some; congruence). lia. }
        assert (Hs : nth_error (map skel h) a = Some (skel o)).
        { rewrite nth_error_map, Ea. reflexivity. }
        pose proof (getitem_ok (map skel h) W1 WE REG _ a k u (skel o) Hm Ek Hs h I) as T.
        assert (Cd : forall v, fst (getitem E (S (3 * List.length h)) a k h) = Ok v ->
                     cached (snd (getitem E (S (3 * List.length h)) a k h)) a k v).
        { intros v. rewrite (getitem_eq _ _ _ _ _ Ea), Ek.
          destruct (dget (o_cache o) k) as [v0|] eqn:Ev.
          - simpl. intros [= <-]. exists o. auto.
          - assert (T' : tri (map skel h) (measure a u) (ready (map skel h) u)
                     (run E (getitem E (3 * List.length h)) a o u) (correct E (skel o) u)).
            { eapply run_ok; eauto. intros q k' u' qo Hlt Hu' Hq.
              apply (getitem_ok (map skel h) W1 WE REG _ q k' u' qo); auto. lia. }
            destruct (T' h I) as ([J1 J2] & _ & _).
            destruct (run E (getitem E (3 * List.length h)) a o u h) as [[v0|e|] h'];
              simpl in *; try discriminate.
            intros [= <-]. apply cached_set_nth.
            rewrite <- J1, nth_error_map in Hs. destruct (nth_error h' a) as [o'|]; [|discriminate].
            exists o'. split; auto. rewrite Nat.eqb_refl. apply dget_dset_eq. }
        destruct (getitem E (S (3 * List.length h)) a k h) as [[v|e|] h']; simpl in *.
        * destruct T as [[T1 T2] [G T3]]. split; [split; [rewrite T1; auto|auto]|]. split; auto.
          split; [eauto|]. split; [auto|].
          intros u' o' [= <-] [= <-]. eapply correct_skel; [| |exact T3]; reflexivity.
        * destruct T as [[T1 T2] [G T3]]. split; [split; [rewrite T1; auto|auto]|]. split; auto.
          split; [eauto|]. split; [auto|].
          intros u' o' [= <-] [= <-] R. apply T3. clear - R.
          assert (X : (forall o, In o h -> full_plan o) ->
                      forall o, In o (map skel h) -> full_plan o).
          { intros H o Ho. apply in_map_iff in Ho. destruct Ho as (o' & <- & Ho). exact (H o' Ho). }
          destruct u; simpl in *; auto; destruct R; split; auto.
        * destruct T as (_ & _ & []).
      + rewrite (getitem_eq _ _ _ _ _ Ea).
        destruct (dget (o_cache o) k) as [v|] eqn:Ev.
        * destruct (W2 a o Ea k v Ev) as (u & Hu & _). congruence.
        * rewrite Ek. simpl. split; [split; auto|]. split; auto.
          split; [exists 0; apply grows_refl|]. split; discriminate.
    - simpl. unfold bindM, get_obj. rewrite Ea. simpl. split; [split; auto|]. split; auto.
      split; [exists 0; apply grows_refl|]. split; discriminate.
  Qed.

  Lemma read_read h a k v : fst (read E a k h) = Ok v ->
    exists o, nth_error h a = Some o.
  Proof.
    unfold read. simpl. unfold bindM, get_obj. destruct (nth_error h a); eauto. discriminate.
  Qed.

  Lemma erase_spec h a : wf_heap h -> wf_heap (erase a h).
  Proof.
    intros [W1 W2]. unfold erase. split.
    - intros b o Hb. rewrite nth_error_map, nth_set_nth in Hb.
      destruct (nth_error h b) as [o0|] eqn:Eb.
      2:{ destruct (Nat.eqb b a); discriminate. }
      assert (Hb0 : nth_error (map skel h) b = Some (skel o0)) by (rewrite nth_error_map, Eb; auto).
      destruct (W1 b _ Hb0) as [C Pq].
      assert (Look : forall q po, nth_error (map skel h) q = Some po ->
        exists po', nth_error (map skel (set_nth a without_parent h)) q = Some po' /\
                    o_assign po' = o_assign po).
      { intros q po Hq. rewrite nth_error_map in Hq. rewrite nth_error_map, nth_set_nth.
        destruct (nth_error h q) as [x|]; [|discriminate]. injection Hq as <-.
        destruct (Nat.eqb q a); simpl; eexists; split; reflexivity. }
      assert (Keep : forall q, o_parent (skel o0) = Some q -> q < b /\
        exists po flips, nth_error (map skel (set_nth a without_parent h)) q = Some po /\
                         step_ok po (skel o0) flips).
      { intros q Hq. destruct (Pq q Hq) as (Hlt & po & flips & Hpo & S). split; auto.
        destruct (Look q po Hpo) as (po' & Hpo' & Ea). exists po', flips. split; auto.
        unfold step_ok in *. rewrite Ea. exact S. }
      destruct (Nat.eqb_spec b a) as [->|]; simpl in Hb; injection Hb as <-; split; auto.
      intros q Hq. discriminate.
    - intros b o Hb. rewrite nth_set_nth in Hb. destruct (Nat.eqb_spec b a) as [->|]; [|eauto].
      destruct (nth_error h a) as [o0|] eqn:Ea; [|discriminate]. injection Hb as <-.
      intros k v Hv. destruct (W2 a o0 Ea k v Hv) as (u & Hu & Hc). exists u. split; [exact Hu|].
      eapply correct_skel; [| |exact Hc]; reflexivity.
  Qed.

  Lemma flip_heap_cases h a flips :
    (snd (flip E a flips h) = h /\ forall b, fst (flip E a flips h) <> Ok b) \/
    exists o o' , nth_error h a = Some o /\ flip E a flips h = (Ok (List.length h), (h ++ [o'])%list) /\
      o_parent o' = Some a /\ o_flips o' = Some flips /\ o_cache o' = [] /\
      flows_from_changes (a_map (o_assign o)) flips = Ok (o_flows o') /\
      update_flows (o_assign o) (o_flows o') = Ok (o_assign o') /\
      (if dmem (e_updaters E) "cut_edges"
       then exists ef, o_eflows o' = Some ef /\
            compute_edge_flows g (a_map (o_assign o)) (a_map (o_assign o')) flips = Ok ef
       else o_eflows o' = None).
  Proof.
    unfold flip. destruct (nth_error h a) as [o|] eqn:Ea; [|left; split; [auto|discriminate]].
    match goal with |- context [match ?r with Ok _ => _ | Err _ => _ | NoFuel => _ end] =>
      destruct r as [o'|e|] eqn:Er end.
    - right. exists o, o'. split; auto. split; auto.
      apply bind_Ok in Er. destruct Er as (fl & Hfl & Er).
      apply bind_Ok in Er. destruct Er as (A & HA & Er).
      apply bind_Ok in Er. destruct Er as (ef & Hef & [= <-]). simpl.
      split; auto. split; auto. split; auto. split; auto. split; auto.
      destruct (dmem (e_updaters E) "cut_edges").
      + apply bind_Ok in Hef. destruct Hef as (ef' & Hef' & [= <-]). eauto.
      + injection Hef as <-. reflexivity.
    - left. split; [auto|discriminate].
    - left. split; [auto|discriminate].
  Qed.

  Lemma flip_spec h a flips :
    wf_env -> is_dict flips -> wf_heap h -> wf_heap (snd (flip E a flips h)).
  Proof.
    intros WE D W. destruct (flip_heap_cases h a flips) as [[-> _]|H]; auto.
    destruct H as (o & o' & Ea & -> & P1 & P2 & P3 & P4 & P5 & P6). simpl.
    destruct W as [W1 W2].
    assert (Ha : nth_error (map skel h) a = Some (skel o)) by (rewrite nth_error_map, Ea; auto).
    destruct (W1 a _ Ha) as [C _]. change (o_assign (skel o)) with (o_assign o) in C.
    assert (Hf : flip_assignment (o_assign o) flips = Ok (o_assign o')).
    { unfold flip_assignment. rewrite P4. simpl. exact P5. }
    pose proof (flip_coherent _ _ _ _ C D Hf) as C'.
    assert (Fl : flipped (o_assign o) flips (o_assign o')).
    { exact (flip_district _ _ _ _ C D Hf). }
    split.
    - intros b x Hb. rewrite map_app in Hb. simpl in Hb.
      assert (Look : forall q po, nth_error (map skel h) q = Some po ->
                nth_error (map skel (h ++ [o'])%list) q = Some po).
      { intros q po Hq. rewrite map_app. rewrite nth_error_app1; auto.
        apply nth_error_Some. congruence. }
      destruct (lt_dec b (List.length (map skel h))) as [Hlt|Hge].
      + rewrite nth_error_app1 in Hb by auto. destruct (W1 b x Hb) as [Cx Px]. split; auto.
        intros q Hq. destruct (Px q Hq) as (H1 & po & f & H2 & H3). split; auto.
        exists po, f. split; auto.
      + rewrite nth_error_app2 in Hb by lia.
        destruct (b - List.length (map skel h)) as [|j] eqn:Ej; [|destruct j; discriminate].
        injection Hb as <-. split; [exact C'|]. simpl. rewrite P1. intros q [= <-]. split.
        * rewrite map_length in *. assert (a < List.length h) by (apply nth_error_Some; congruence). lia.
        * exists (skel o), flips. split; [now apply Look|]. unfold step_ok. simpl.
          split; auto. split; [exact (flip_labels _ _ _ D Hf)|]. split.
          { now apply flows_from_changes_spec. }
          split; auto.
          destruct (dmem (e_updaters E) "cut_edges"); auto.
          destruct P6 as (ef & E1 & E2). exists ef. split; auto.
          destruct (compute_edge_flows_spec g _ flips _ (proj1 WE) C C' Fl) as (ef' & E3 & S).
          congruence.
    - intros b x Hb. destruct (lt_dec b (List.length h)) as [Hlt|Hge].
      + rewrite nth_error_app1 in Hb by auto. eauto.
      + rewrite nth_error_app2 in Hb by lia.
        destruct (b - List.length h) as [|j] eqn:Ej; [|destruct j; discriminate].
        injection Hb as <-. intros k v. rewrite P3. discriminate.
  Qed.

  Lemma first_coherent (gr : graph N) (d : dict N P) A :
    is_dict d -> first_time_assignment gr d = Ok A ->
    coherent (g_nodes gr) A /\ (forall n, district A n = dget d n) /\
    (forall p, In p (labels A) -> exists n, In n (g_nodes gr) /\ district A n = Some p).
  Proof.
    intros D H. destruct (from_dict_spec d D) as (A' & E1 & C & R & Lb & _).
    unfold first_time_assignment in H. rewrite E1 in H. simpl in H.
    destruct (seteqb (dkeys (a_map A')) (g_nodes gr)) eqn:Es; [|discriminate].
    injection H as <-. rewrite seteqb_spec in Es.
    assert (C' : coherent (g_nodes gr) A').
    { destruct C as [c1 c2 c3 c4 c5]. split; auto. }
    split; auto. split; auto. intros p Hp. apply Lb in Hp. destruct Hp as [n Hn].
    rewrite <- R in Hn. exists n. split; auto. eapply (coh_dom _ _ C').
    eapply dget_Some_key; exact Hn.
  Qed.

  Lemma root_spec d h : is_dict d -> root E d = Ok h -> wf_heap h.
  Proof.
    intros D H. unfold root in H. apply bind_Ok in H. destruct H as (A & HA & [= <-]).
    split.
    - intros b o Hb. destruct b as [|b]; [|destruct b; discriminate]. injection Hb as <-.
      split; [|discriminate]. simpl. eapply first_coherent; eauto.
    - intros b o Hb. destruct b as [|b]; [|destruct b; discriminate]. injection Hb as <-.
      intros k v. discriminate.
  Qed.

  Lemma look_spec h a k p : wf_heap h ->
    wf_heap (look E a k p h) /\ map skel (look E a k p h) = map skel h /\
    exists B, grows B h (look E a k p h).
  Proof.
    intro W. unfold look. destruct (dget (e_updaters E) k) as [u|] eqn:Eu.
    2:{ split; auto. split; auto. exists 0. apply grows_refl. }
    destruct (has_default u) eqn:Ed.
    2:{ split; auto. split; auto. exists 0. apply grows_refl. }
    pose proof (wf_heap_Inv h W) as I.
    assert (Hd : u = UCutEdgesByPart \/ u = UExteriorSet \/ u = UExterior).
    { destruct u; simpl in Ed; try discriminate; auto. }
    destruct (tri_touch (B := 0) (map skel h) True a k [p] u Eu Hd h I) as ([J1 J2] & G & _).
    split; [|split; auto; exists 0; exact G]. split; [|exact J2]. rewrite J1. exact (proj1 W).
  Qed.

  Lemma step_wf h x : wf_env -> registered E -> wf_op x -> wf_heap h -> wf_heap (step E h x).
  Proof.
    intros WE REG Wx W. destruct x as [a f|a k|a k p|a]; simpl in *.
    - now apply flip_spec.
    - now apply read_spec.
    - now apply look_spec.
    - now apply erase_spec.
  Qed.

  Lemma exec_wf ops : forall h,
    wf_env -> registered E -> Forall wf_op ops -> wf_heap h -> wf_heap (exec E ops h).
  Proof.
    unfold exec. induction ops as [|x ops IH]; simpl; intros h WE REG F W; auto.
    inversion F; subst. apply IH; auto. now apply step_wf.
  Qed.

  (** ** What a plan keeps forever: its districts and the answers it gave *)
  Definition persists (h h' : heap N P V L) : Prop :=
    (forall a o, nth_error h a = Some o ->
       exists o', nth_error h' a = Some o' /\ o_assign o' = o_assign o /\
                  o_flips o' = o_flips o /\
                  (forall q, o_parent o' = Some q -> o_parent o = Some q)) /\
    (forall a k u v, dget (e_updaters E) k = Some u -> cached h a k v ->
       exists v', cached h' a k v' /\ same_answer u v v').

  Lemma persists_refl h : persists h h.
  Proof.
    split.
    - intros a o Ho. exists o. auto.
    - intros a k u v _ H. exists v. split; auto. apply same_refl.
  Qed.

  Lemma persists_trans h h' h'' : persists h h' -> persists h' h'' -> persists h h''.
  Proof.
    intros [A1 A2] [B1 B2]. split.
    - intros a o Ho. destruct (A1 a o Ho) as (o' & H1 & H2 & H3 & H4).
      destruct (B1 a o' H1) as (o'' & K1 & K2 & K3 & K4). exists o''.
      split; auto. split; [congruence|]. split; [congruence|]. auto.
    - intros a k u v Hu H. destruct (A2 a k u v Hu H) as (v' & H' & S).
      destruct (B2 a k u v' Hu H') as (v'' & H'' & S'). exists v''. split; auto.
      eapply same_trans; eauto.
  Qed.

  Lemma skel_persists h h' : map skel h' = map skel h -> forall a o, nth_error h a = Some o ->
    exists o', nth_error h' a = Some o' /\ skel o' = skel o.
  Proof.
    intros H a o Ho. assert (X : nth_error (map skel h') a = Some (skel o)).
    { rewrite H, nth_error_map, Ho. reflexivity. }
    rewrite nth_error_map in X. destruct (nth_error h' a) as [o'|]; [|discriminate].
    exists o'. split; auto. simpl in X. congruence.
  Qed.

  Lemma flip_persists h a f : persists h (snd (flip E a f h)).
  Proof.
    destruct (flip_heap_cases h a f) as [[-> _]|H]; [apply persists_refl|].
    destruct H as (o & o' & _ & -> & _). simpl.
    assert (K : forall b x, nth_error h b = Some x -> nth_error (h ++ [o'])%list b = Some x).
    { intros b x Hb. rewrite nth_error_app1; auto. apply nth_error_Some. congruence. }
    split.
    - intros b x Hb. exists x. auto.
    - intros b k u v _ (x & Hx & Hv). exists v. split; [|apply same_refl]. exists x. auto.
  Qed.

  Lemma erase_persists h a : persists h (erase a h).
  Proof.
    unfold erase. split.
    - intros b o Hb. rewrite nth_set_nth, Hb. destruct (Nat.eqb b a); simpl.
      + exists (without_parent o). simpl. split; auto. split; auto. split; auto. discriminate.
      + exists o. auto.
    - intros b k u v _ (o & Ho & Hv). exists v. split; [|apply same_refl].
      unfold cached. rewrite nth_set_nth, Ho. destruct (Nat.eqb b a); simpl; eauto.
  Qed.

  Lemma read_persists h a k : wf_env -> registered E -> wf_heap h ->
    persists h (snd (read E a k h)).
  Proof.
    intros WE REG W. destruct (read_spec h a k WE REG W) as (_ & S & (B & G) & _). split.
    - intros b o Hb. destruct (skel_persists _ _ S b o Hb) as (o' & Ho' & Es).
      exists o'. injection Es as E1 E2 E3 E4 E5. split; auto. split; auto. split; auto. congruence.
    - exact (proj1 G).
  Qed.

  Lemma look_persists h a k p : wf_heap h -> persists h (look E a k p h).
  Proof.
    intros W. destruct (look_spec h a k p W) as (_ & S & (B & G)). split.
    - intros b o Hb. destruct (skel_persists _ _ S b o Hb) as (o' & Ho' & Es).
      exists o'. injection Es as E1 E2 E3 E4 E5. split; auto. split; auto. split; auto. congruence.
    - exact (proj1 G).
  Qed.

  Lemma exec_persists ops : forall h, wf_env -> registered E -> Forall wf_op ops -> wf_heap h ->
    persists h (exec E ops h).
  Proof.
    unfold exec. induction ops as [|x ops IH]; simpl; intros h WE REG F W; [apply persists_refl|].
    inversion F; subst. eapply persists_trans; [|apply IH; auto; now apply step_wf].
    destruct x as [a f|a k|a k p|a]; simpl.
    - apply flip_persists.
    - now apply read_persists.
    - now apply look_persists.
    - apply erase_persists.
  Qed.

  Lemma read_cached h a k v : cached h a k v -> read E a k h = (Ok v, h).
  Proof.
    intros (o & Ho & Hv). unfold read. now rewrite (getitem_eq _ _ _ _ _ Ho), Hv.
  Qed.
End Inv.
