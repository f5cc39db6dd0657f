(** The value an updater returns does not depend on what was read before. *)
From Coq Require Import String List Bool Arith Lia.
From Verif Require Import Base M_Graph M_Partition S_Partition L_Partition
  M_Machine S_Machine S_Reads L_Sums L_Cuts L_Tally L_Updaters L_Machine L_Answers.
Import ListNotations.
Local Open Scope list_scope.
Local Open Scope string_scope.

Section Reads.
  Context {N P V L : Type} {EN : EqB N} {EP : EqB P} {EL : EqB L} {ON : Ord N} {RV : CRing V}.
  Notation val := (value N P V L).
  Notation obj := (pobj N P V L).
  Notation upd := (updater N P V L).
  Notation M := (@M N P V L).

  Notation alike := (@same_entries N P V L EP RV).
  Definition veq (u : upd) (v v' : val) : Prop :=
    if has_default u then alike v v' else v = v'.
  Lemma veq_same u v v' : veq u v v' <-> same_value u v v'.
  Proof. destruct u; simpl; tauto. Qed.

  Lemma alike_refl v : alike v v.
  Proof. destruct v; simpl; auto. Qed.
  Lemma alike_sym v v' : alike v v' -> alike v' v.
  Proof. destruct v, v'; simpl; auto; try congruence. Qed.
  Lemma alike_trans v v' v'' : alike v v' -> alike v' v'' -> alike v v''.
  Proof. destruct v, v', v''; simpl; intros; try congruence; try discriminate. Qed.
  Lemma veq_refl u v : veq u v v.
  Proof. unfold veq. destruct (has_default u); auto using alike_refl. Qed.
  Lemma veq_sym u v v' : veq u v v' -> veq u v' v.
  Proof. unfold veq. destruct (has_default u); auto using alike_sym. Qed.
  Lemma veq_trans u v v' v'' : veq u v v' -> veq u v' v'' -> veq u v v''.
  Proof. unfold veq. destruct (has_default u); [apply alike_trans|congruence]. Qed.

  Definition req {X} (Q : X -> X -> Prop) (r r' : res X) : Prop :=
    match r, r' with
    | Ok x, Ok x' => Q x x'
    | Err e, Err e' => e = e'
    | NoFuel, NoFuel => True
    | _, _ => False
    end.
  Lemma req_refl {X} (Q : X -> X -> Prop) r : (forall x, Q x x) -> req Q r r.
  Proof. intro H. destruct r; simpl; auto. Qed.
  Lemma req_sym {X} (Q : X -> X -> Prop) r r' : (forall x y, Q x y -> Q y x) -> req Q r r' -> req Q r' r.
  Proof. intro H. destruct r, r'; simpl; auto. Qed.
  Lemma req_trans {X} (Q : X -> X -> Prop) r r' r'' : (forall x y z, Q x y -> Q y z -> Q x z) ->
    req Q r r' -> req Q r' r'' -> req Q r r''.
  Proof. intro H. destruct r, r', r''; simpl; try congruence; try tauto. apply H. Qed.
  Lemma req_impl {X} (Q R : X -> X -> Prop) r r' : (forall x y, Q x y -> R x y) -> req Q r r' -> req R r r'.
  Proof. intro H. destruct r, r'; simpl; auto. Qed.

  Lemma touch_alike ps (v : val) : alike v (touch_value ps v).
  Proof.
    destruct v; simpl; auto; intro p; symmetry; apply add_defaults_get.
  Qed.

  Variable E : env N P V L.
  Variable h0 : heap N P V L.
  Hypothesis REG : registered E.
  Hypothesis W0 : wf_heap E h0.

  Definition F0 := S (3 * List.length h0).

  (** Heaps with the plans of [h0] whose caches hold what [h0] would answer. *)
  Definition above (h : heap N P V L) : Prop :=
    (forall a o0, nth_error h0 a = Some o0 ->
       exists o, nth_error h a = Some o /\ skel o = skel o0) /\
    (forall a k u v, dget (e_updaters E) k = Some u -> cached h0 a k v ->
       exists v', cached h a k v' /\ veq u v v') /\
    (forall a k v, a < List.length h0 -> cached h a k v -> exists u, dget (e_updaters E) k = Some u /\
       req (veq u) (fst (getitem E F0 a k h0)) (Ok v)).

  Lemma above_refl : above h0.
  Proof.
    split; [intros a o Ho; exists o; auto|]. split.
    - intros a k u v _ H. exists v. split; auto. apply veq_refl.
    - intros a k v _ (o & Ho & Hv). destruct (proj2 W0 a o Ho k v Hv) as (u & Hu & _).
      exists u. split; auto. unfold F0. rewrite (getitem_eq E _ _ _ _ _ Ho), Hv. simpl. apply veq_refl.
  Qed.

  Definition rel {X} (m1 m2 : M X) (Q : X -> X -> Prop) : Prop :=
    forall h1 h2, above h1 -> above h2 ->
      req Q (fst (m1 h1)) (fst (m2 h2)) /\ above (snd (m1 h1)) /\ above (snd (m2 h2)).

  Lemma rel_ret {X} (x y : X) (Q : X -> X -> Prop) : Q x y -> rel (ret x) (ret y) Q.
  Proof. intros H h1 h2 A1 A2. simpl. auto. Qed.
  Lemma rel_lift {X} (r r' : res X) (Q : X -> X -> Prop) : req Q r r' -> rel (lift r) (lift r') Q.
  Proof. intros H h1 h2 A1 A2. simpl. auto. Qed.
  Lemma rel_bind {X Y} (m1 m2 : M X) (f1 f2 : X -> M Y) (R : X -> X -> Prop) (Q : Y -> Y -> Prop) :
    rel m1 m2 R -> (forall x y, R x y -> rel (f1 x) (f2 y) Q) -> rel (bindM m1 f1) (bindM m2 f2) Q.
  Proof.
    intros Hm Hf h1 h2 A1 A2. destruct (Hm h1 h2 A1 A2) as (R1 & B1 & B2). unfold bindM.
    destruct (m1 h1) as [[x|e|] h1'], (m2 h2) as [[y|e'|] h2']; simpl in *; try tauto.
    apply Hf; auto.
  Qed.
  Lemma rel_get_obj a : a < List.length h0 ->
    rel (get_obj a) (get_obj a) (fun o o' => skel o = skel o').
  Proof.
    intros Ha h1 h2 A1 A2. unfold get_obj.
    destruct (nth_error h0 a) as [o0|] eqn:E0; [|apply nth_error_None in E0; lia].
    destruct (proj1 A1 a o0 E0) as (o1 & -> & S1). destruct (proj1 A2 a o0 E0) as (o2 & -> & S2).
    cbn [fst snd req]. rewrite S1, S2. auto.
  Qed.

  Lemma above_touch a k ps u h : dget (e_updaters E) k = Some u -> has_default u = true -> above h ->
    above (snd (touch a k ps h)).
  Proof.
    intros Hu Hd (S & A1 & A2). unfold touch. simpl. split; [|split].
    - intros b o0 Hb. destruct (S b o0 Hb) as (o & Ho & Hs). rewrite nth_set_nth, Ho.
      destruct (Nat.eqb b a); eexists; split; try reflexivity; exact Hs.
    - intros b k' u' v Hu' Hc. destruct (A1 b k' u' v Hu' Hc) as (v' & (o & Ho & Hv') & Q).
      destruct (Nat.eq_dec b a) as [->|Hb].
      + destruct (eq_dec_of k' k) as [->|Hk].
        * exists (touch_value ps v'). split.
          { apply cached_set_nth. exists o. split; auto. rewrite Nat.eqb_refl, Hv'. apply dget_dset_eq. }
          assert (u' = u) by congruence. subst u'. unfold veq in *. rewrite Hd in *.
          eapply alike_trans; [exact Q|apply touch_alike].
        * exists v'. split; auto. apply cached_set_nth. exists o. split; auto. rewrite Nat.eqb_refl.
          destruct (dget (o_cache o) k); auto. rewrite dget_dset_neq; auto.
      + exists v'. split; auto. apply cached_set_nth. exists o. split; auto.
        destruct (Nat.eqb_spec b a); [congruence|auto].
    - intros b k' v Hb Hc. apply cached_set_nth in Hc. destruct Hc as (o & Ho & Hv).
      destruct (Nat.eqb_spec b a) as [->|]; [|apply A2; auto; exists o; auto].
      destruct (dget (o_cache o) k) as [v0|] eqn:E0; [|apply A2; auto; exists o; auto].
      rewrite dget_dset in Hv. destruct (eqb_spec k' k) as [->|]; [|apply A2; auto; exists o; auto].
      injection Hv as <-. destruct (A2 a k v0) as (u' & Hu' & Q); [auto|exists o; auto|].
      exists u'. split; auto. assert (u' = u) by congruence. subst u'.
      destruct (fst (getitem E F0 a k h0)); simpl in *; auto.
      unfold veq in *. rewrite Hd in *. eapply alike_trans; [exact Q|apply touch_alike].
  Qed.
  Lemma rel_touch a k ps ps' u : dget (e_updaters E) k = Some u -> has_default u = true ->
    rel (touch a k ps) (touch a k ps') (fun _ _ => True).
  Proof.
    intros Hu Hd h1 h2 A1 A2. split; [simpl; auto|]. split; eapply above_touch; eauto.
  Qed.
  Lemma req_eq {X} (r : res X) : req eq r r.
  Proof. destruct r; simpl; auto. Qed.

  Lemma as_edges_by_req v v' : alike v v' ->
    req (fun d d' => forall p, dget_or [] d p = dget_or [] d' p) (as_edges_by v) (as_edges_by v').
  Proof. destruct v, v'; simpl; try discriminate; auto. Qed.
  Lemma as_nodes_by_req v v' : alike v v' ->
    req (fun d d' => forall p, dget_or [] d p = dget_or [] d' p) (as_nodes_by v) (as_nodes_by v').
  Proof. destruct v, v'; simpl; try discriminate; auto. Qed.
  Lemma as_num_req v v' : alike v v' ->
    req (fun d d' => forall p, dget_or (Num c0) d p = dget_or (Num c0) d' p) (as_num v) (as_num v').
  Proof. destruct v, v'; simpl; try discriminate; auto. Qed.

  Lemma dset_alike {X} (dflt : X) (d d' : dict P X) q x :
    (forall p, dget_or dflt d p = dget_or dflt d' p) ->
    forall p, dget_or dflt (dset d q x) p = dget_or dflt (dset d' q x) p.
  Proof.
    intros H p. unfold dget_or in *. rewrite !dget_dset. destruct (eqb_spec p q); auto.
  Qed.
  Lemma fold_alike {X Y} (dflt : X) (F G : P * Y -> X) (fl : dict P Y) : forall d d',
    (forall pf, F pf = G pf) -> (forall p, dget_or dflt d p = dget_or dflt d' p) ->
    forall p, dget_or dflt (fold_left (fun d pf => dset d (fst pf) (F pf)) fl d) p =
              dget_or dflt (fold_left (fun d pf => dset d (fst pf) (G pf)) fl d') p.
  Proof.
    induction fl as [|pf fl IH]; simpl; intros d d' HF H p; auto.
    apply IH; auto. rewrite HF. now apply dset_alike.
  Qed.

  Section Run.
    Variables rec1 rec2 : nat -> string -> M val.
    Variables (a : nat) (so : obj) (k : string) (u : upd).
    Hypothesis Hso : nth_error (map skel h0) a = Some so.
    Hypothesis Hu : dget (e_updaters E) k = Some u.
    Hypothesis Hrec : forall q k' u', q < List.length h0 -> measure q u' < measure a u -> dget (e_updaters E) k' = Some u' ->
      rel (rec1 q k') (rec2 q k') (veq u').

    Lemma parent_there q : o_parent so = Some q -> q < List.length h0.
    Proof.
      intro Hq. destruct (proj1 W0 a so Hso) as [_ H]. destruct (H q Hq) as (_ & po & _ & Hpo & _).
      rewrite <- (map_length skel h0). apply nth_error_Some. congruence.
    Qed.
    Lemma below q (u' : upd) : o_parent so = Some q -> measure q u' < measure a u.
    Proof.
      intro Hq. destruct (proj1 W0 a so Hso) as [_ H]. destruct (H q Hq) as [Hlt _].
      unfold measure. pose proof (rank_le u'). lia.
    Qed.
    Lemma rec_parent q k' (u' : upd) : o_parent so = Some q -> In (k', u') (reads u) ->
      rel (rec1 q k') (rec2 q k') (veq u').
    Proof.
      intros Hq Hin. apply Hrec; [now apply parent_there|now apply below|]. exact (REG k u Hu k' u' Hin).
    Qed.
    Lemma rec_self k' (u' : upd) : rank u' < rank u -> In (k', u') (reads u) ->
      rel (rec1 a k') (rec2 a k') (veq u').
    Proof.
      intros Hlt Hin. apply Hrec; [rewrite <- (map_length skel h0); apply nth_error_Some; congruence|unfold measure; lia|]. exact (REG k u Hu k' u' Hin).
    Qed.
    Lemma rel_truthy_so : rel (truthy_parent so) (truthy_parent so)
      (fun x y => x = y /\ forall q, x = Some q -> o_parent so = Some q).
    Proof.
      unfold truthy_parent. destruct (o_parent so) as [q|] eqn:Eq; [|apply rel_ret; split; auto; discriminate].
      eapply rel_bind; [apply rel_get_obj, parent_there; exact Eq|]. intros x y Hxy. apply rel_ret.
      replace (o_assign y) with (o_assign x).
      2:{ change (o_assign (skel x) = o_assign (skel y)). now rewrite Hxy. }
      split; auto. destruct (a_parts (o_assign x)); [discriminate|auto].
    Qed.

    Lemma run_rel : rel (run E rec1 a so u) (run E rec2 a so u) (veq u).
    Proof.
      assert (exists u0, u = u0) as [u0 Eu] by eauto.
      assert (RP : forall q k' u', o_parent so = Some q -> In (k', u') (reads u0) ->
                   rel (rec1 q k') (rec2 q k') (veq u')).
      { rewrite <- Eu. apply rec_parent. }
      assert (RS : forall k' u', rank u' < rank u0 -> In (k', u') (reads u0) ->
                   rel (rec1 a k') (rec2 a k') (veq u')).
      { rewrite <- Eu. apply rec_self. }
      assert (IN : forall k' u', In (k', u') (reads u0) -> dget (e_updaters E) k' = Some u').
      { rewrite <- Eu. exact (REG k u Hu). }
      rewrite Eu. clear Eu.
      destruct u0 as [ | | fields al | data al | parties al | | | | | | | field al | f]; unfold run.
      - eapply rel_bind; [apply rel_truthy_so|]. intros [q|] y [<- Hq].
        + eapply rel_bind; [apply rel_get_obj, parent_there, Hq; reflexivity|]. intros po po' Hpo.
          assert (Ea : o_assign po' = o_assign po).
          { change (o_assign (skel po') = o_assign (skel po)). now rewrite Hpo. }
          rewrite Ea.
          eapply rel_bind; [apply rel_lift, req_eq|]. intros fl y <-.
          eapply rel_bind; [apply rel_lift, req_eq|]. intros new y <-.
          eapply rel_bind; [apply rel_lift, req_eq|]. intros obs y <-.
          eapply rel_bind; [apply (RP q "cut_edges" UCutEdges); [auto|simpl; auto]|].
          unfold veq; simpl. intros v y <-.
          eapply rel_bind; [apply rel_lift, req_eq|]. intros prev y <-.
          now apply rel_ret.
        + eapply rel_bind; [apply rel_lift, req_eq|]. intros s y <-. now apply rel_ret.
      - eapply rel_bind; [apply rel_truthy_so|]. intros [q|] y [<- Hq].
        + eapply rel_bind; [apply rel_lift, req_eq|]. intros ef y <-.
          eapply rel_bind; [apply (RP q "cut_edges_by_part" UCutEdgesByPart); [auto|simpl; auto]|].
          unfold veq; simpl. intros v v' Hv.
          eapply rel_bind; [apply rel_lift, (as_edges_by_req _ _ Hv)|]. intros d d' Hd.
          eapply rel_bind; [apply (rel_touch _ _ _ _ UCutEdgesByPart); [apply IN; simpl; auto|reflexivity]|].
          intros _ _ _. apply rel_ret. simpl. apply fold_alike; auto. intros [p fl]. simpl. now rewrite Hd.
        + eapply rel_bind; [apply rel_lift, req_eq|]. intros s y <-.
          eapply rel_bind; [apply rel_lift, req_eq|]. intros d y <-. apply rel_ret, veq_refl.
      - destruct (o_parent so) as [q|] eqn:Eq.
        + eapply rel_bind; [apply (RP q al (UTally fields al)); [auto|simpl; auto]|].
          unfold veq; simpl. intros v y <-.
          eapply rel_bind; [apply rel_lift, req_eq|]. intros d y <-.
          eapply rel_bind; [apply rel_lift, req_eq|]. intros d' y <-. now apply rel_ret.
        + eapply rel_bind; [apply rel_lift, req_eq|]. intros d y <-. now apply rel_ret.
      - destruct (o_parent so) as [q|] eqn:Eq.
        + eapply rel_bind; [apply (RP q al (UDataTally data al)); [auto|simpl; auto]|].
          unfold veq; simpl. intros v y <-.
          eapply rel_bind; [apply rel_lift, req_eq|]. intros d y <-.
          eapply rel_bind; [apply rel_lift, req_eq|]. intros d' y <-. now apply rel_ret.
        + eapply rel_bind; [apply rel_lift, req_eq|]. intros d y <-. now apply rel_ret.
      - eapply rel_bind with (R := eq).
        + destruct (o_parent so) as [q|] eqn:Eq.
          * eapply rel_bind; [apply (RP q al (UElection parties al)); [auto|simpl; auto]|].
            unfold veq; simpl. intros v y <-.
            eapply rel_bind; [apply rel_lift, req_eq|]. intros d y <-. apply rel_lift, req_eq.
          * apply rel_lift, req_eq.
        + intros c y <-. eapply rel_bind; [apply rel_lift, req_eq|]. intros t y <-. now apply rel_ret.
      - eapply rel_bind; [apply rel_truthy_so|]. intros [q|] y [<- Hq].
        + apply (RP q "boundary_nodes" UBoundaryNodes); [auto|simpl; auto].
        + now apply rel_ret.
      - destruct (o_parent so) as [q|] eqn:Eq.
        + eapply rel_bind; [apply (RP q "exterior_boundaries_as_a_set" UExteriorSet); [auto|simpl; auto]|].
          unfold veq at 1; simpl. intros v v' Hv.
          eapply rel_bind; [apply rel_lift, (as_nodes_by_req _ _ Hv)|]. intros d d' Hd.
          destruct (o_flows so) as [|f0 fl] eqn:Ef; [apply rel_ret; exact Hd|].
          eapply rel_bind; [apply (rel_touch _ _ _ _ UExteriorSet); [apply IN; simpl; auto|reflexivity]|].
          intros _ _ _.
          eapply rel_bind; [apply (RS "boundary_nodes" UBoundaryNodes); simpl; auto|].
          unfold veq at 1; simpl. intros w y <-.
          eapply rel_bind; [apply rel_lift, req_eq|]. intros bs y <-.
          apply rel_ret. unfold veq; cbn [has_default alike]. cbn beta in Hd.
          apply fold_alike; [intros [p fw]; simpl; now rewrite Hd|].
          first [exact Hd|rewrite Hd; now apply dset_alike].
        + eapply rel_bind; [apply (RS "boundary_nodes" UBoundaryNodes); simpl; auto|].
          unfold veq at 1; simpl. intros w y <-.
          eapply rel_bind; [apply rel_lift, req_eq|]. intros bs y <-.
          eapply rel_bind; [apply rel_lift, req_eq|]. intros d y <-. apply rel_ret, veq_refl.
      - destruct (o_parent so) as [q|] eqn:Eq.
        + eapply rel_bind; [apply (RP q "exterior_boundaries" UExterior); [auto|simpl; auto]|].
          unfold veq at 1; simpl. intros v v' Hv.
          eapply rel_bind; [apply rel_lift, (as_num_req _ _ Hv)|]. intros d d' Hd.
          destruct (o_flows so) as [|f0 fl] eqn:Ef; [apply rel_ret; exact Hd|].
          eapply rel_bind; [apply (rel_touch _ _ _ _ UExterior); [apply IN; simpl; auto|reflexivity]|].
          intros _ _ _.
          eapply rel_bind; [apply (RS "boundary_nodes" UBoundaryNodes); simpl; auto|].
          unfold veq at 1; simpl. intros w y <-.
          eapply rel_bind; [apply rel_lift, req_eq|]. intros bs y <-.
          apply rel_ret. unfold veq; cbn [has_default alike]. cbn beta in Hd.
          apply fold_alike; [intros [p fw]; simpl; now rewrite Hd|].
          first [exact Hd|rewrite Hd; now apply dset_alike].
        + eapply rel_bind; [apply (RS "boundary_nodes" UBoundaryNodes); simpl; auto|].
          unfold veq at 1; simpl. intros w y <-.
          eapply rel_bind; [apply rel_lift, req_eq|]. intros bs y <-.
          eapply rel_bind; [apply rel_lift, req_eq|]. intros d y <-. apply rel_ret, veq_refl.
      - eapply rel_bind; [apply rel_truthy_so|]. intros [q|] y [<- Hq].
        + eapply rel_bind; [apply rel_lift, req_eq|]. intros ef y <-.
          eapply rel_bind; [apply (RP q "interior_boundaries" UInterior); [auto|simpl; auto]|].
          unfold veq at 1; simpl. intros v y <-.
          eapply rel_bind; [apply rel_lift, req_eq|]. intros d y <-.
          eapply rel_bind; [apply rel_lift, req_eq|]. intros d' y <-. now apply rel_ret.
        + destruct (dkeys (a_parts (o_assign so))) as [|p0 ps] eqn:Ep; [now apply rel_ret|].
          eapply rel_bind; [apply (RS "cut_edges_by_part" UCutEdgesByPart); simpl; auto|].
          unfold veq at 1; simpl. intros v v' Hv.
          eapply rel_bind; [apply rel_lift, (as_edges_by_req _ _ Hv)|]. intros d d' Hd.
          eapply rel_bind; [apply (rel_touch _ _ _ _ UCutEdgesByPart); [apply IN; simpl; auto|reflexivity]|].
          intros _ _ _. apply rel_ret. unfold veq; cbn [has_default]. cbn beta in Hd.
          rewrite (Hd p0). do 2 f_equal. apply map_ext. intro p. now rewrite Hd.
      - destruct (dkeys (a_parts (o_assign so))) as [|p0 ps] eqn:Ep; [now apply rel_ret|].
        eapply rel_bind; [apply (RS "exterior_boundaries" UExterior); simpl; auto|].
        unfold veq at 1; simpl. intros v v' Hv.
        eapply rel_bind; [apply rel_lift, (as_num_req _ _ Hv)|]. intros d d' Hd.
        eapply rel_bind; [apply (rel_touch _ _ _ _ UExterior); [apply IN; simpl; auto|reflexivity]|].
        intros _ _ _.
        eapply rel_bind; [apply (RS "interior_boundaries" UInterior); simpl; auto|].
        unfold veq at 1; simpl. intros w y <-.
        eapply rel_bind; [apply rel_lift, req_eq|]. intros i y <-.
        eapply rel_bind with (R := eq).
        + apply rel_lift.
          assert (X : forall l, mapM (fun p => x <- of_option KeyError (dget i p) ;;
                       Ok (p, nadd (dget_or (Num c0) d p) x)) l =
                     mapM (fun p => x <- of_option KeyError (dget i p) ;;
                       Ok (p, nadd (dget_or (Num c0) d' p) x)) l).
          { induction l as [|p l IH]; auto. cbn [mapM]. now rewrite IH, Hd. }
          cbn beta in Hd. rewrite (Hd p0), X. apply req_eq.
        + intros x y <-. now apply rel_ret.
      - now apply rel_ret.
      - eapply rel_bind; [apply rel_truthy_so|]. intros [q|] y [<- Hq].
        + eapply rel_bind; [apply (RP q al (UCounty field al)); [auto|simpl; auto]|].
          unfold veq; simpl. intros v y <-.
          eapply rel_bind; [apply rel_lift, req_eq|]. intros d y <-.
          eapply rel_bind; [apply rel_lift, req_eq|]. intros d' y <-. now apply rel_ret.
        + eapply rel_bind; [apply rel_lift, req_eq|]. intros s y <-. now apply rel_ret.
      - now apply rel_ret.
    Qed.
  End Run.

  Lemma run_skel rec a (o : obj) u : run E rec a o u = run E rec a (skel o) u.
  Proof. destruct u; reflexivity. Qed.

  Lemma above_store h a k (u : upd) v : dget (e_updaters E) k = Some u -> above h ->
    (forall w, ~ cached h0 a k w) -> req (veq u) (fst (getitem E F0 a k h0)) (Ok v) ->
    above (set_nth a (with_cache (fun c => dset c k v)) h).
  Proof.
    intros Hu (S & A1 & A2) NC R. split; [|split].
    - intros b o0 Hb. destruct (S b o0 Hb) as (o & Ho & Hs). rewrite nth_set_nth, Ho.
      destruct (Nat.eqb b a); eexists; split; try reflexivity; exact Hs.
    - intros b k' u' w Hu' Hc. destruct (A1 b k' u' w Hu' Hc) as (w' & (o & Ho & Hw) & Q).
      exists w'. split; auto. apply cached_set_nth. exists o. split; auto.
      destruct (Nat.eqb_spec b a) as [->|]; auto.
      destruct (eq_dec_of k' k) as [->|]; [now elim (NC w)|]. rewrite dget_dset_neq; auto.
    - intros b k' w Hb Hc. apply cached_set_nth in Hc. destruct Hc as (o & Ho & Hw).
      destruct (Nat.eqb_spec b a) as [->|]; [|apply A2; auto; exists o; auto].
      rewrite dget_dset in Hw. destruct (eqb_spec k' k) as [->|]; [|apply A2; auto; exists o; auto].
      injection Hw as <-. exists u. auto.
  Qed.

  (** What [h] answers is what [h0] answers. *)
  Lemma getitem_above : forall n a k (u : upd) f h,
    a < List.length h0 ->
    measure a u < n -> measure a u < f -> dget (e_updaters E) k = Some u -> above h ->
    req (veq u) (fst (getitem E F0 a k h0)) (fst (getitem E f a k h)) /\
    above (snd (getitem E f a k h)).
  Proof.
    induction n as [|n IH]; intros a k u f h Hlen Hn Hf Hu Ab; [lia|].
    destruct f as [|f]; [lia|]. pose proof Ab as (S & A1 & A2).
    destruct (nth_error h0 a) as [o0|] eqn:Ho0; [|apply nth_error_None in Ho0; lia].
    destruct (S a o0 Ho0) as (o & Ho & Hs).
    assert (Ho' : nth_error (map skel h0) a = Some (skel o0)) by (now rewrite nth_error_map, Ho0).
    rewrite (getitem_eq E _ _ _ _ _ Ho).
    destruct (dget (o_cache o) k) as [v|] eqn:Ev.
    { simpl. split; auto. destruct (A2 a k v Hlen) as (u' & Hu' & R); [exists o; auto|].
      assert (u' = u) by congruence. now subst u'. }
    assert (NC : forall w, ~ cached h0 a k w).
    { intros w Hw. destruct (A1 a k u w Hu Hw) as (w' & (o1 & Ho1 & Hw') & _). congruence. }
    assert (RR : rel (run E (getitem E (3 * List.length h0)) a (skel o0) u)
                     (run E (getitem E f) a (skel o0) u) (veq u)).
    { eapply run_rel; eauto. intros q k' u' Hql Hlt Hu' h1 h2 B1 B2.
      assert (M1 : measure q u' < 3 * List.length h0).
      { unfold measure in *. pose proof (rank_le u). lia. }
      destruct (IH q k' u' (3 * List.length h0) h1) as [R1 C1]; auto; [lia|].
      destruct (IH q k' u' f h2) as [R2 C2]; auto; [lia|lia|].
      split; auto. eapply req_trans; [apply veq_trans| |exact R2].
      apply req_sym; [apply veq_sym|exact R1]. }
    destruct (RR h0 h above_refl Ab) as (R & _ & B).
    assert (D : fst (getitem E F0 a k h0) = fst (run E (getitem E (3 * List.length h0)) a (skel o0) u h0)).
    { unfold F0. rewrite (getitem_eq E _ _ _ _ _ Ho0).
      destruct (dget (o_cache o0) k) as [w|] eqn:Ew; [elim (NC w); exists o0; auto|].
      rewrite Hu, <- run_skel.
      destruct (run E (getitem E (3 * List.length h0)) a o0 u h0) as [[w|e|] h']; reflexivity. }
    rewrite Hu, (run_skel _ _ o), Hs.
    destruct (run E (getitem E f) a (skel o0) u h) as [[v|e|] h'] eqn:Er; cbn [fst snd] in R, B |- *.
    - rewrite D. split; auto. eapply above_store; eauto. now rewrite D.
    - rewrite D. auto.
    - rewrite D. auto.
  Qed.

  Lemma above_len h : above h -> List.length h0 <= List.length h.
  Proof.
    intros (S & _). destruct (List.length h0) as [|n] eqn:En; [lia|].
    destruct (nth_error h0 n) as [o0|] eqn:E0; [|apply nth_error_None in E0; lia].
    destruct (S n o0 E0) as (o & Ho & _). assert (n < List.length h) by (apply nth_error_Some; congruence). lia.
  Qed.

  Lemma read_above a k h : a < List.length h0 -> above h ->
    (forall u, dget (e_updaters E) k = Some u -> req (veq u) (fst (read E a k h0)) (fst (read E a k h))) /\
    (dget (e_updaters E) k = None -> fst (read E a k h0) = fst (read E a k h)) /\
    above (snd (read E a k h)).
  Proof.
    intros Hlen Ab. pose proof (above_len h Ab) as Hle. unfold read.
    change (S (3 * List.length h0)) with F0. pose proof Ab as (S & A1 & A2).
    destruct (nth_error h0 a) as [o0|] eqn:Ho0; [|apply nth_error_None in Ho0; lia].
    destruct (S a o0 Ho0) as (o & Ho & Hs).
    destruct (dget (e_updaters E) k) as [u|] eqn:Hu.
    - assert (Hm : measure a u < F0). { unfold measure, F0. pose proof (rank_le u). lia. }
      destruct (getitem_above (Datatypes.S (measure a u)) a k u (Datatypes.S (3 * List.length h)) h) as [R B]; auto.
      { unfold F0 in Hm. lia. }
      split; [now intros u' [= <-]|]. split; [discriminate|auto].
    - split; [discriminate|]. unfold F0. rewrite (getitem_eq E _ _ _ _ _ Ho), (getitem_eq E _ _ _ _ _ Ho0), Hu.
      destruct (dget (o_cache o) k) as [v|] eqn:Ev.
      { destruct (A2 a k v Hlen) as (u & Hu' & _); [exists o; auto|congruence]. }
      destruct (dget (o_cache o0) k) as [v|] eqn:Ev0; [|simpl; auto].
      destruct (proj2 W0 a o0 Ho0 k v Ev0) as (u & Hu' & _). congruence.
  Qed.

  Lemma look_above a k p h : above h -> above (look E a k p h).
  Proof.
    intro Ab. unfold look. destruct (dget (e_updaters E) k) as [u|] eqn:Hu; auto.
    destruct (has_default u) eqn:Hd; auto. eapply above_touch; eauto.
  Qed.

  Lemma app_above (t : heap N P V L) : above (h0 ++ t)%list.
  Proof.
    pose proof above_refl as (S & A1 & A2).
    assert (X : forall a o, nth_error h0 a = Some o -> nth_error (h0 ++ t)%list a = Some o).
    { intros a o Ho. rewrite nth_error_app1; auto. apply nth_error_Some. congruence. }
    split; [|split].
    - intros a o0 Ho. exists o0. auto.
    - intros a k u v Hu (o & Ho & Hv). exists v. split; [exists o; auto|apply veq_refl].
    - intros a k v Ha (o & Ho & Hv). apply A2; auto. exists o. split; auto.
      rewrite nth_error_app1 in Ho; auto.
  Qed.

  Lemma read_none a k h : nth_error h a = None -> read E a k h = (Err AttributeError, h).
  Proof. intro H. unfold read. simpl. unfold bindM, get_obj. now rewrite H. Qed.

  Lemma step_above x : no_erasure x -> above (step E h0 x).
  Proof.
    destruct x as [b f|b k|b k p|b]; simpl; try tauto; intros _.
    - destruct (flip_heap_cases E h0 b f) as [[-> _]|(o & o' & _ & -> & _)]; [apply above_refl|apply app_above].
    - destruct (nth_error h0 b) as [o|] eqn:Eb.
      + apply read_above; [apply nth_error_Some; congruence|apply above_refl].
      + rewrite read_none by auto. apply above_refl.
    - apply look_above, above_refl.
  Qed.
End Reads.

Section Sessions.
  Context {N P V L : Type} {EN : EqB N} {EP : EqB P} {EL : EqB L} {ON : Ord N} {RV : CRing V}.
  Variable E : env N P V L.

  Lemma exec_reply ops : forall h a k u, session E h -> Forall wf_op ops -> Forall no_erasure ops ->
    a < List.length h -> dget (e_updaters E) k = Some u ->
    req (veq u) (fst (read E a k h)) (fst (read E a k (exec E ops h))).
  Proof.
    induction ops as [|x ops IH]; intros h a k u S F G Ha Hu.
    - apply req_refl. intro. apply veq_refl.
    - inversion F as [|? ? Fx F']; subst. inversion G as [|? ? Gx G']; subst.
      change (exec E (x :: ops) h) with (exec E ops (step E h x)).
      pose proof (session_wf E h S) as W. pose proof S as (WE & REG & _).
      pose proof (step_above E h REG W x Gx) as Ab.
      destruct (read_above E h REG W a k _ Ha Ab) as (R & _ & _).
      eapply req_trans; [apply veq_trans|apply (R u Hu)|].
      apply IH; auto.
      + apply (session_exec E h [x] S). now constructor.
      + pose proof (above_len E h _ Ab). lia.
  Qed.
End Sessions.
