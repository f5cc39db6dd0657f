(** C02 (parent side), C08-C18, C33: what plan objects answer after any
    interleaving of flips, reads and erasures of parent links. *)
From Coq Require Import String List Bool Arith ZArith Lia.
From Verif Require Import Base M_Graph M_Partition S_Partition L_Partition
  M_Machine S_Machine L_Sums L_Cuts L_Tally L_Updaters L_Machine L_Answers P_Partition.
Import ListNotations.
Local Open Scope list_scope.

Section Theorems.
  Context {N P V L : Type} {EN : EqB N} {EP : EqB P} {EL : EqB L} {ON : Ord N} {RV : CRing V}.
  Variable E : env N P V L.
  Notation g := (e_graph E).
  Implicit Types (h : heap N P V L) (o : pobj N P V L) (a b : nat) (k : string).

  (** C02, second half.  A flip only appends a plan (or nothing, when it
      raises); every plan that existed keeps its districts through any further
      operations. *)
  Theorem C02_parent_untouched : forall h a flips ops b o,
    session E h -> is_dict flips -> Forall wf_op ops -> nth_error h b = Some o ->
    (exists new, snd (flip E a flips h) = h ++ new) /\
    exists o', nth_error (exec E ops (snd (flip E a flips h))) b = Some o' /\
               o_assign o' = o_assign o.
  Proof.
    intros h a flips ops b o S D F Ho. split.
    - destruct (flip_heap_cases E h a flips) as [[-> _]|H].
      + exists []. now rewrite app_nil_r.
      + destruct H as (x & o' & _ & -> & _). simpl. eauto.
    - pose proof (session_flip E h a flips S D) as S'. pose proof (session_wf E _ S') as W.
      destruct S' as (WE & REG & _).
      pose proof (persists_trans E _ _ _ (flip_persists E h a flips) (exec_persists E ops _ WE REG F W)) as Pp.
      destruct (proj1 Pp b o Ho) as (o' & H1 & H2 & _). eauto.
  Qed.

  (** C02. The new plan of a successful flip: districts changed as requested. *)
  Theorem C02_child_districts : forall h a o flips b h',
    session E h -> is_dict flips -> nth_error h a = Some o -> flip E a flips h = (Ok b, h') ->
    exists o', nth_error h' b = Some o' /\ o_parent o' = Some a /\
      (forall n p, dget flips n = Some p -> district (o_assign o') n = Some p) /\
      (forall n, ~ In n (dkeys flips) -> district (o_assign o') n = district (o_assign o) n).
  Proof.
    intros h a o flips b h' S D Ho Hf.
    destruct (flip_heap_cases E h a flips) as [[_ H]|H].
    - rewrite Hf in H. simpl in H. now elim (H b).
    - destruct H as (x & o' & Ea & Hf' & P1 & P2 & P3 & P4 & P5 & _).
      rewrite Hf in Hf'. injection Hf' as -> ->. assert (x = o) by congruence. subst x.
      exists o'. split.
      { rewrite nth_error_app2 by lia. now rewrite Nat.sub_diag. }
      split; auto.
      assert (Hfa : flip_assignment (o_assign o) flips = Ok (o_assign o')).
      { unfold flip_assignment. rewrite P4. simpl. exact P5. }
      pose proof (flip_district _ _ _ _ (session_coherent E h a o S Ho) D Hfa) as Fl.
      split.
      + intros n p Hn. rewrite (Fl n). unfold overridden. now rewrite Hn.
      + intros n Hn. rewrite (Fl n). unfold overridden. apply dget_None in Hn. now rewrite Hn.
  Qed.

  Lemma C02_child_districts_aux : forall h a flips b h',
    session E h -> is_dict flips -> flip E a flips h = (Ok b, h') ->
    exists o', nth_error h' b = Some o' /\ o_parent o' = Some a.
  Proof.
    intros h a flips b h' S D Hf. destruct (nth_error h a) as [o|] eqn:Ho.
    - destruct (C02_child_districts h a o flips b h' S D Ho Hf) as (o' & H1 & H2 & _). eauto.
    - unfold flip in Hf. rewrite Ho in Hf. discriminate.
  Qed.

  (** C08. *)
  Theorem C08_cut_edges : forall h a o k,
    session E h -> nth_error h a = Some o -> dget (e_updaters E) k = Some UCutEdges ->
    exists s, fst (read E a k h) = Ok (VEdges s) /\ NoDup s /\
      forall x y, In (x, y) s <->
        leb x y = true /\ adj g x y /\ district (o_assign o) x <> district (o_assign o) y.
  Proof.
    intros h a o k S Ho Hu. destruct (session_answer E h a o k _ S Ho Hu) as (_ & H & _).
    destruct (H I) as (v & Hv & s & -> & ND & Hs). exists s. split; auto. split; auto.
    intros x y. rewrite Hs. reflexivity.
  Qed.

  (** C09.  The read cannot fail when 'cut_edges' is registered too (it always
      is: partition.py:40). *)
  Theorem C09_cut_edges_by_part : forall h a o k,
    session E h -> nth_error h a = Some o -> dget (e_updaters E) k = Some UCutEdgesByPart ->
    In "cut_edges"%string (dkeys (e_updaters E)) ->
    exists d, fst (read E a k h) = Ok (VEdgesBy d) /\
      forall p, NoDup (dget_or [] d p) /\ forall x y, In (x, y) (dget_or [] d p) <->
        leb x y = true /\ adj g x y /\ district (o_assign o) x <> district (o_assign o) y /\
        (district (o_assign o) x = Some p \/ district (o_assign o) y = Some p).
  Proof.
    intros h a o k S Ho Hu Hc. destruct (session_answer E h a o k _ S Ho Hu) as (_ & H & _).
    destruct (H (proj2 (dmem_In _ _) Hc)) as (v & Hv & d & -> & ND & Hs).
    exists d. split; auto. intro p. destruct (Hs p) as [H1 H2]. split; auto.
    intros x y. rewrite H2. unfold cut_edge_of, cut_edge. simpl. tauto.
  Qed.

  (** C10.  Tally: whatever is returned is right ... *)
  Theorem C10_tally : forall h a o k fields al w v,
    session E h -> nth_error h a = Some o -> dget (e_updaters E) k = Some (UTally fields al) ->
    (forall f, In f fields -> data_is g (e_attr E f) (w f)) ->
    fst (read E a k h) = Ok v ->
    exists d, v = VNum d /\ NoDup (dkeys d) /\
      (forall p x, dget d p = Some x ->
         exists y, x = Num y /\
           sums_to (fun n => vsum (map (fun f => w f n) fields))
                   (fun n => In n (g_nodes g) /\ district (o_assign o) n = Some p) y) /\
      (forall n p, In n (g_nodes g) -> district (o_assign o) n = Some p -> In p (dkeys d)).
  Proof.
    intros h a o k fields al w v S Ho Hu Hw Hv.
    destruct (session_answer E h a o k _ S Ho Hu) as (H & _ & _).
    destruct (H v Hv) as (d & -> & ND & LI & T). destruct (T w Hw) as [T1 T2].
    exists d. split; auto. split; auto. split; auto.
    intros n p Hn Hp. apply (T2 p n). split; auto.
  Qed.

  (** ... and something is returned as long as no plan has an empty district. *)
  Theorem C10_tally_total : forall h a o k fields al w,
    session E h -> nth_error h a = Some o -> dget (e_updaters E) k = Some (UTally fields al) ->
    (forall f, In f fields -> data_is g (e_attr E f) (w f)) ->
    (forall o, In o h -> no_empty_district g (o_assign o)) ->
    exists v, fst (read E a k h) = Ok v.
  Proof.
    intros h a o k fields al w S Ho Hu Hw NE.
    destruct (session_answer E h a o k _ S Ho Hu) as (_ & H & _).
    destruct H as (v & Hv & _); eauto. split; eauto.
  Qed.

  Theorem C10_data_tally : forall h a o k data al w v,
    session E h -> nth_error h a = Some o -> dget (e_updaters E) k = Some (UDataTally data al) ->
    data_is g data w ->
    fst (read E a k h) = Ok v ->
    exists d, v = VNum d /\ NoDup (dkeys d) /\
      (forall p x, dget d p = Some x ->
         exists y, x = Num y /\
           sums_to w (fun n => In n (g_nodes g) /\ district (o_assign o) n = Some p) y) /\
      (forall n p, In n (g_nodes g) -> district (o_assign o) n = Some p -> In p (dkeys d)).
  Proof.
    intros h a o k data al w v S Ho Hu Hw Hv.
    destruct (session_answer E h a o k _ S Ho Hu) as (H & _ & _).
    destruct (H v Hv) as (d & -> & ND & LI & T). destruct (T w Hw) as [T1 T2].
    exists d. split; auto. split; auto. split; auto.
    intros n p Hn Hp. apply (T2 p n). split; auto.
  Qed.

  Theorem C10_data_tally_total : forall h a o k data al w,
    session E h -> nth_error h a = Some o -> dget (e_updaters E) k = Some (UDataTally data al) ->
    data_is g data w ->
    (forall o, In o h -> no_empty_district g (o_assign o)) ->
    exists v, fst (read E a k h) = Ok v.
  Proof.
    intros h a o k data al w S Ho Hu Hw NE.
    destruct (session_answer E h a o k _ S Ho Hu) as (_ & H & _).
    destruct H as (v & Hv & _); eauto. split; eauto.
  Qed.

  (** A vanished district that still has an entry has entry 0 ... *)
  Theorem C10_vanished_entry_is_zero : forall h a o k data al w d p x,
    session E h -> nth_error h a = Some o -> dget (e_updaters E) k = Some (UDataTally data al) ->
    data_is g data w -> fst (read E a k h) = Ok (VNum d) ->
    (forall n, district (o_assign o) n <> Some p) -> dget d p = Some x -> x = Num c0.
  Proof.
    intros h a o k data al w d p x S Ho Hu Hw Hv Hp Hx.
    destruct (C10_data_tally h a o k data al w _ S Ho Hu Hw Hv) as (d' & [= <-] & _ & T & _).
    destruct (T p x Hx) as (y & -> & Sy). f_equal. eapply sums_to_fun; [exact Sy|].
    apply sums_to_empty. intros n [_ Hn]. now apply (Hp n).
  Qed.

  Lemma run_data_child rec b o q data k :
    o_parent o = Some q ->
    run E rec b o (UDataTally data k) = bindM (rec q k) (fun v => bindM (lift (as_num v)) (fun old =>
       bindM (lift (data_step data (o_flows o) old)) (fun d => ret (VNum d)))).
  Proof. intro Hq. simpl. now rewrite Hq. Qed.
  Lemma run_tally_child rec b o q fields k :
    o_parent o = Some q ->
    run E rec b o (UTally fields k) = bindM (rec q k) (fun v => bindM (lift (as_num v)) (fun old =>
       bindM (lift (tally_step E fields (o_flows o) old)) (fun d => ret (VNum d)))).
  Proof. intro Hq. simpl. now rewrite Hq. Qed.

  (** ... it keeps its entry when the tally is carried over from the parent:
      every district with an entry in the parent's answer has one in the
      child's ... *)
  Theorem C10_carried_over_entries : forall h b o q po k data d d',
    session E h -> nth_error h b = Some o -> o_parent o = Some q -> nth_error h q = Some po ->
    dget (e_updaters E) k = Some (UDataTally data k) ->
    dget (o_cache o) k = None -> dget (o_cache po) k = Some (VNum d) ->
    fst (read E b k h) = Ok (VNum d') ->
    forall p, In p (dkeys d) -> In p (dkeys d').
  Proof.
    intros h b o q po k data d d' S Ho Hq Hpo Hu Hc Hcp Hv p Hp.
    destruct (child_num E h b o q po k _ (data_step data (o_flows o)) S Ho Hq Hpo Hu Hc)
      as [(old & _ & Cr & Cc & Hr)|(e & _ & Hr)].
    - intros v (d0 & -> & _). eauto.
    - intro rec. now apply run_data_child.
    - assert (old = d) by (specialize (Cc _ Hcp); congruence). subst old.
      rewrite Hr in Hv. unfold num_res in Hv.
      destruct (data_step data (o_flows o) d) as [d1|e|] eqn:Ed; simpl in Hv; try discriminate.
      injection Hv as ->. destruct Cr as (d0 & [= <-] & ND & LI & _).
      destruct (session_parent E h b o q S Ho Hq) as (_ & _ & po' & flips & Hpo' & _ & HL & FS & Fl).
      assert (po' = po) by congruence. subst po'.
      set (F := fun pf : P * flow N =>
        prev <- of_option KeyError (dget d (fst pf)) ;;
        inn <- mapM (fun n => of_option KeyError (data n)) (f_in (snd pf)) ;;
        out <- mapM (fun n => of_option KeyError (data n)) (f_out (snd pf)) ;;
        Ok (nsub (nadd prev (nsum inn)) (nsum out))).
      assert (H' : foldM (fun d pf => x <- F pf ;; Ok (dset d (fst pf) x)) (o_flows o) d = Ok d').
      { rewrite <- Ed. apply foldM_ext. intros c pf _. unfold F.
        destruct (dget d (fst pf)); simpl; auto.
        destruct (mapM (fun n => of_option KeyError (data n)) (f_in (snd pf))); simpl; auto.
        destruct (mapM (fun n => of_option KeyError (data n)) (f_out (snd pf))); simpl; auto. }
      destruct (foldM_dset F _ _ _ (wff_keys _ (fs_wf _ _ _ FS)) H') as (_ & _ & _ & D4).
      apply D4. now left.
    - congruence.
  Qed.

  (** ... and has none when the plan has no parent and is tallied for the first
      time: the entries are then exactly the non-empty districts. *)
  Theorem C10_recomputed_entries : forall h a o k data w d,
    session E h -> nth_error h a = Some o -> dget (e_updaters E) k = Some (UDataTally data k) ->
    data_is g data w -> o_parent o = None -> dget (o_cache o) k = None ->
    fst (read E a k h) = Ok (VNum d) ->
    forall p, In p (dkeys d) <-> exists n, In n (g_nodes g) /\ district (o_assign o) n = Some p.
  Proof.
    intros h a o k data w d S Ho Hu Hw Hq Hc Hv p.
    rewrite (read_first E h a o k _ Ho Hc Hu) in Hv. simpl in Hv. rewrite Hq in Hv.
    unfold bindM, lift in Hv.
    destruct (scratch_tally (o_assign o) (fun n => of_option KeyError (data n))) as [d0|e|] eqn:Ed;
      simpl in Hv; try discriminate. injection Hv as ->.
    destruct (scratch_tally_nan E (o_assign o) (fun n => Num (w n)) _ d w
                (session_coherent E h a o S Ho) Ed) as [_ K].
    - intros n Hn. now rewrite (Hw n Hn).
    - auto.
    - rewrite K. split; intros (n & Hn).
      + exists n. exact (proj1 Hn).
      + exists n. split; [exact Hn|discriminate].
  Qed.

  (** In that case a flip into the vanished district makes the read raise
      KeyError (Tally and DataTally). *)
  Theorem C10_flip_into_missing_keyerror : forall h a o k u data w flips n p b h',
    session E h -> nth_error h a = Some o -> dget (e_updaters E) k = Some u ->
    (u = UDataTally data k /\ data_is g data w \/
     exists f, u = UTally [f] k /\ data_is g (e_attr E f) w) ->
    o_parent o = None -> dget (o_cache o) k = None ->
    (forall m, district (o_assign o) m <> Some p) ->
    is_dict flips -> dget flips n = Some p -> flip E a flips h = (Ok b, h') ->
    fst (read E b k h') = Err KeyError.
  Proof.
    intros h a o k u data w flips n p b h' S Ho Hu Hd Hq Hc Hp D Hn Hf.
    destruct (C02_child_districts h a o flips b h' S D Ho Hf) as (o' & Ho' & Hpar & _).
    pose proof (session_flip E h a flips S D) as S'. rewrite Hf in S'. simpl in S'.
    assert (Hnew : dget (o_cache o') k = None /\ nth_error h' a = Some o).
    { destruct (flip_heap_cases E h a flips) as [[_ X]|X].
      - rewrite Hf in X. now elim (X b).
      - destruct X as (x & x' & Ea & Hf' & _ & _ & X3 & _). rewrite Hf in Hf'.
        injection Hf' as -> ->. rewrite nth_error_app2, Nat.sub_diag in Ho' by lia.
        injection Ho' as <-. rewrite X3. split; auto.
        rewrite nth_error_app1; auto. apply nth_error_Some. congruence. }
    destruct Hnew as [Hc' Hoa].
    destruct (session_parent E h' b o' a S' Ho' Hpar) as (Hlt & Hlen & po & fl' & Hpo & Hfl' & HL & FS & Fl).
    assert (po = o) by congruence. subst po.
    assert (Efl : fl' = flips).
    { destruct (flip_heap_cases E h a flips) as [[_ X]|X].
      - rewrite Hf in X. now elim (X b).
      - destruct X as (x & x' & Ea & Hf' & _ & X2 & _). rewrite Hf in Hf'.
        injection Hf' as -> ->. rewrite nth_error_app2, Nat.sub_diag in Ho' by lia.
        injection Ho' as <-. congruence. }
    subst fl'.
    assert (Hn' : exists s, district (o_assign o) n = Some s).
    { assert (In n (dkeys flips)) as Hk by (eapply dget_Some_key; eauto).
      apply (fs_dom _ _ _ FS) in Hk. apply dget_key in Hk. exact Hk. }
    destruct Hn' as [s Hs].
    destruct (moved_flows (o_assign o) flips (o_flows o') n s p FS Hs Hn) as [(f & Hin & _) _].
    { intros ->. now apply (Hp n). }
    pose proof (session_coherent E h' a o S' Hoa) as C.
    assert (Hm : exists j, 3 * List.length h' = Datatypes.S j).
    { exists (3 * List.length h' - 1). lia. }
    destruct Hm as [j Hj].
    destruct Hd as [[-> Hw]|(fd & -> & Hw)].
    - destruct (child_num E h' b o' a o k _ (data_step data (o_flows o')) S' Ho' Hpar Hoa Hu Hc')
        as [(old & Hg & Cr & _ & Hr)|(e & Hg & Hr)].
      + intros v (d0 & -> & _). eauto.
      + intro rec. now apply run_data_child.
      + rewrite Hr. rewrite Hj, (getitem_eq E _ _ _ _ _ Hoa), Hc, Hu in Hg. simpl in Hg.
        rewrite Hq in Hg. unfold bindM, lift in Hg.
        destruct (scratch_tally (o_assign o) (fun n => of_option KeyError (data n))) as [d0|e|] eqn:Ed;
          simpl in Hg; try discriminate. injection Hg as ->.
        destruct (scratch_tally_nan E (o_assign o) (fun n => Num (w n)) _ old w C Ed) as [_ K].
        * intros m Hm. now rewrite (Hw m Hm).
        * auto.
        * rewrite (data_step_missing (data) (o_flows o') old p f Hin); auto.
          apply dget_None. rewrite K. intros (m & [_ Hm] & _). now apply (Hp m).
      + exfalso. rewrite Hj, (getitem_eq E _ _ _ _ _ Hoa), Hc, Hu in Hg. simpl in Hg.
        rewrite Hq in Hg. unfold bindM, lift in Hg.
        destruct (scratch_tally_ok E (o_assign o) (fun n => of_option KeyError (data n)) C) as [d0 Hd0].
        { intros m Hm. rewrite (Hw m Hm). simpl. eauto. }
        rewrite Hd0 in Hg. discriminate.
    - assert (Fs : forall m, In m (g_nodes g) -> field_sum E [fd] m = Ok (Num (cadd c0 (w m)))).
      { intros m Hm. unfold field_sum. simpl. rewrite (Hw m Hm). reflexivity. }
      destruct (child_num E h' b o' a o k _ (tally_step E [fd] (o_flows o')) S' Ho' Hpar Hoa Hu Hc')
        as [(old & Hg & Cr & _ & Hr)|(e & Hg & Hr)].
      + intros v (d0 & -> & _). eauto.
      + intro rec. now apply run_tally_child.
      + rewrite Hr. rewrite Hj, (getitem_eq E _ _ _ _ _ Hoa), Hc, Hu in Hg. simpl in Hg.
        rewrite Hq in Hg. unfold bindM, lift in Hg.
        destruct (scratch_tally (o_assign o) (field_sum E [fd])) as [d0|e|] eqn:Ed;
          simpl in Hg; try discriminate. injection Hg as ->.
        destruct (scratch_tally_nan E (o_assign o) (fun n => Num (cadd c0 (w n))) _ old
                   (fun n => cadd c0 (w n)) C Ed) as [_ K]; auto.
        rewrite (tally_step_missing E [fd] (o_flows o') old p f Hin); auto.
        apply dget_None. rewrite K. intros (m & [_ Hm] & _). now apply (Hp m).
      + exfalso. rewrite Hj, (getitem_eq E _ _ _ _ _ Hoa), Hc, Hu in Hg. simpl in Hg.
        rewrite Hq in Hg. unfold bindM, lift in Hg.
        destruct (scratch_tally_ok E (o_assign o) (field_sum E [fd]) C) as [d0 Hd0].
        { intros m Hm. rewrite (Fs m Hm). eauto. }
        rewrite Hd0 in Hg. discriminate.
  Qed.

  (** C11. The entries of a tally add up to the total over all nodes, the same
      for every plan of the session. *)
  Theorem C11_total_conserved : forall h a o k fields al w d,
    session E h -> nth_error h a = Some o -> dget (e_updaters E) k = Some (UTally fields al) ->
    (forall f, In f fields -> data_is g (e_attr E f) (w f)) ->
    fst (read E a k h) = Ok (VNum d) ->
    nsum (dvals d) = Num (vsum (map (fun n => vsum (map (fun f => w f n) fields)) (g_nodes g))).
  Proof.
    intros h a o k fields al w d S Ho Hu Hw Hv.
    destruct (C10_tally h a o k fields al w _ S Ho Hu Hw Hv) as (d' & [= <-] & ND & T1 & T2).
    apply (tally_total E (o_assign o)); auto.
    - destruct S as ((WG & _) & _). apply WG.
    - eapply session_coherent; eauto.
    - split; auto. intros p n [Hn Hp]. eauto.
  Qed.

  Theorem C11_data_total_conserved : forall h a o k data al w d,
    session E h -> nth_error h a = Some o -> dget (e_updaters E) k = Some (UDataTally data al) ->
    data_is g data w -> fst (read E a k h) = Ok (VNum d) ->
    nsum (dvals d) = Num (vsum (map w (g_nodes g))).
  Proof.
    intros h a o k data al w d S Ho Hu Hw Hv.
    destruct (C10_data_tally h a o k data al w _ S Ho Hu Hw Hv) as (d' & [= <-] & ND & T1 & T2).
    apply (tally_total E (o_assign o)); auto.
    - destruct S as ((WG & _) & _). apply WG.
    - eapply session_coherent; eauto.
    - split; auto. intros p n [Hn Hp]. eauto.
  Qed.

  (** C12. The first tally of a plan without parent sums the non-NaN nodes. *)
  Theorem C12_first_tally_skips_nan : forall h a o k data (w : N -> V) v,
    session E h -> nth_error h a = Some o -> dget (e_updaters E) k = Some (UDataTally data k) ->
    (forall n, In n (g_nodes g) -> data n = Some NaN \/ data n = Some (Num (w n))) ->
    o_parent o = None -> dget (o_cache o) k = None -> fst (read E a k h) = Ok v ->
    exists d, v = VNum d /\ forall p x, dget d p = Some x -> exists y, x = Num y /\
      sums_to w (fun n => In n (g_nodes g) /\ district (o_assign o) n = Some p /\
                          data n <> Some NaN) y.
  Proof.
    intros h a o k data w v S Ho Hu Hw Hq Hc Hv.
    rewrite (read_first E h a o k _ Ho Hc Hu) in Hv. simpl in Hv. rewrite Hq in Hv.
    unfold bindM, lift in Hv.
    destruct (scratch_tally (o_assign o) (fun n => of_option KeyError (data n))) as [d|e|] eqn:Ed;
      simpl in Hv; try discriminate. injection Hv as <-. exists d. split; auto.
    set (dt := fun n => if mem n (g_nodes g) then match data n with Some x => x | None => NaN end else Num (w n)).
    destruct (scratch_tally_nan E (o_assign o) dt _ d w (session_coherent E h a o S Ho) Ed) as [K _].
    - intros n Hn. unfold dt. rewrite (proj2 (mem_In n _) Hn). destruct (Hw n Hn) as [-> | ->]; auto.
    - intros n. unfold dt. destruct (mem_spec n (g_nodes g)) as [Hn|]; auto.
      destruct (Hw n Hn) as [-> | ->]; congruence.
    - intros p x Hx. destruct (K p x Hx) as (y & -> & Sy). exists y. split; auto.
      eapply sums_to_ext; [|exact Sy]. intro n. unfold member. simpl. split.
      + intros [[H1 H2] H3]. split; auto. split; auto. intro X. apply H3. unfold dt.
        rewrite (proj2 (mem_In n _) H1), X. reflexivity.
      + intros (H1 & H2 & H3). split; auto. unfold dt. rewrite (proj2 (mem_In n _) H1).
        destruct (Hw n H1) as [X|X]; rewrite X in *; congruence.
  Qed.

  (** C12. Moving a NaN node turns the entries of both districts into NaN, for
      every plan and every such move. *)
  Theorem C12_moving_nan_poisons : forall h a o k u flips n p q b h' d,
    session E h -> nth_error h a = Some o -> dget (e_updaters E) k = Some u ->
    ((exists data, u = UDataTally data k /\ data n = Some NaN) \/
     (exists fields f, u = UTally fields k /\ In f fields /\ e_attr E f n = Some NaN)) ->
    is_dict flips -> district (o_assign o) n = Some p -> dget flips n = Some q -> p <> q ->
    flip E a flips h = (Ok b, h') -> fst (read E b k h') = Ok (VNum d) ->
    dget d p = Some NaN /\ dget d q = Some NaN.
  Proof.
    intros h a o k u flips n p q b h' d S Ho Hu Hd D Hp Hq Hne Hf Hv.
    destruct (C02_child_districts h a o flips b h' S D Ho Hf) as (o' & Ho' & Hpar & _).
    pose proof (session_flip E h a flips S D) as S'. rewrite Hf in S'. simpl in S'.
    assert (Hnew : dget (o_cache o') k = None /\ nth_error h' a = Some o /\ o_flips o' = Some flips).
    { destruct (flip_heap_cases E h a flips) as [[_ X]|X].
      - rewrite Hf in X. now elim (X b).
      - destruct X as (x & x' & Ea & Hf' & _ & X2 & X3 & _). rewrite Hf in Hf'.
        injection Hf' as -> ->. rewrite nth_error_app2, Nat.sub_diag in Ho' by lia.
        injection Ho' as <-. rewrite X3. split; auto. split; auto.
        rewrite nth_error_app1; auto. apply nth_error_Some. congruence. }
    destruct Hnew as (Hc' & Hoa & Hfl).
    destruct (session_parent E h' b o' a S' Ho' Hpar) as (_ & _ & po & fl' & Hpo & Hfl' & HL & FS & Fl).
    assert (po = o) by congruence. subst po. assert (fl' = flips) by congruence. subst fl'.
    destruct (moved_flows (o_assign o) flips (o_flows o') n p q FS Hp Hq Hne)
      as [(f1 & F1 & F1') (f2 & F2 & F2')].
    pose proof (wff_keys _ (fs_wf _ _ _ FS)) as NDf.
    destruct Hd as [(data & -> & Hn)|(fields & f & -> & Hin & Hn)].
    - destruct (child_num E h' b o' a o k _ (data_step data (o_flows o')) S' Ho' Hpar Hoa Hu Hc')
        as [(old & _ & _ & _ & Hr)|(e & _ & Hr)].
      + intros v (d0 & -> & _). eauto.
      + intro rec. now apply run_data_child.
      + rewrite Hr in Hv. unfold num_res in Hv.
        destruct (data_step data (o_flows o') old) as [d1|e|] eqn:Ed; simpl in Hv; try discriminate.
        injection Hv as ->. split.
        * eapply data_step_nan; [exact NDf|exact F2|right; exact F2'|exact Hn|exact Ed].
        * eapply data_step_nan; [exact NDf|exact F1|left; exact F1'|exact Hn|exact Ed].
      + congruence.
    - destruct (child_num E h' b o' a o k _ (tally_step E fields (o_flows o')) S' Ho' Hpar Hoa Hu Hc')
        as [(old & _ & _ & _ & Hr)|(e & _ & Hr)].
      + intros v (d0 & -> & _). eauto.
      + intro rec. now apply run_tally_child.
      + rewrite Hr in Hv. unfold num_res in Hv.
        destruct (tally_step E fields (o_flows o') old) as [d1|e|] eqn:Ed; simpl in Hv; try discriminate.
        injection Hv as ->. split.
        * eapply tally_step_nan; [exact NDf|exact F2|right; exact F2'|exact Hin|exact Hn|exact Ed].
        * eapply tally_step_nan; [exact NDf|exact F1|left; exact F1'|exact Hin|exact Hn|exact Ed].
      + congruence.
  Qed.

  (** C13. *)
  Theorem C13_exterior_boundaries : forall h a o k,
    session E h -> nth_error h a = Some o -> dget (e_updaters E) k = Some UExterior ->
    exists d, fst (read E a k h) = Ok (VNum d) /\
      forall p, exists y, dget_or (Num c0) d p = Num y /\
        sums_to (e_bperim E) (fun n => In n (g_nodes g) /\ district (o_assign o) n = Some p /\
                                       e_bnode E n = true) y.
  Proof.
    intros h a o k S Ho Hu. destruct (session_answer E h a o k _ S Ho Hu) as (_ & H & _).
    destruct (H I) as (v & Hv & d & -> & _ & Hd). exists d. split; auto. intro p.
    destruct (Hd p) as (y & Hy & Sy). exists y. split; auto.
    eapply sums_to_ext; [|exact Sy]. intro n. unfold member. tauto.
  Qed.

  Theorem C13_exterior_boundaries_as_a_set : forall h a o k,
    session E h -> nth_error h a = Some o -> dget (e_updaters E) k = Some UExteriorSet ->
    exists d, fst (read E a k h) = Ok (VNodesBy d) /\
      forall p, NoDup (dget_or [] d p) /\ forall n, In n (dget_or [] d p) <->
        In n (g_nodes g) /\ district (o_assign o) n = Some p /\ e_bnode E n = true.
  Proof.
    intros h a o k S Ho Hu. destruct (session_answer E h a o k _ S Ho Hu) as (_ & H & _).
    destruct (H I) as (v & Hv & d & -> & _ & Hd). exists d. split; auto. intro p.
    destruct (Hd p) as (ND & Hn). split; auto. intro n. rewrite Hn. unfold member. tauto.
  Qed.

  Theorem C13_interior_boundaries : forall h a o k,
    session E h -> nth_error h a = Some o -> dget (e_updaters E) k = Some UInterior ->
    In "cut_edges"%string (dkeys (e_updaters E)) ->
    exists d, fst (read E a k h) = Ok (VNum d) /\
      forall p, In p (labels (o_assign o)) -> exists y, dget d p = Some (Num y) /\
        sums_to (e_sperim E) (cut_edge_of g (o_assign o) p) y.
  Proof.
    intros h a o k S Ho Hu Hc. destruct (session_answer E h a o k _ S Ho Hu) as (_ & H & _).
    destruct (H (proj2 (dmem_In _ _) Hc)) as (v & Hv & d & -> & _ & Hk & Hd).
    exists d. split; auto. intros p Hp. apply Hk, dget_key in Hp. destruct Hp as [x Hx].
    destruct (Hd p x Hx) as (y & -> & Sy). eauto.
  Qed.

  Theorem C13_perimeter : forall h a o k,
    session E h -> nth_error h a = Some o -> dget (e_updaters E) k = Some UPerimeter ->
    In "cut_edges"%string (dkeys (e_updaters E)) ->
    exists d, fst (read E a k h) = Ok (VNum d) /\ dkeys d = labels (o_assign o) /\
      forall p, In p (labels (o_assign o)) -> exists ext int,
        dget d p = Some (Num (cadd ext int)) /\
        sums_to (e_bperim E) (fun n => In n (g_nodes g) /\ district (o_assign o) n = Some p /\
                                       e_bnode E n = true) ext /\
        sums_to (e_sperim E) (cut_edge_of g (o_assign o) p) int.
  Proof.
    intros h a o k S Ho Hu Hc. destruct (session_answer E h a o k _ S Ho Hu) as (_ & H & _).
    destruct (H (proj2 (dmem_In _ _) Hc)) as (v & Hv & d & -> & Hk & Hd).
    exists d. split; auto. split; auto. intros p Hp. rewrite <- Hk in Hp.
    apply dget_key in Hp. destruct Hp as [x Hx].
    destruct (Hd p x Hx) as (y & z & -> & Sy & Sz). exists y, z. split; auto. split; auto.
    eapply sums_to_ext; [|exact Sy]. intro n. unfold member. tauto.
  Qed.

  (** C14. Two reads of the same updater of the same plan give the same answer
      ([same_answer]: equal, except that the three defaultdict updaters may
      have gained default entries), whatever happened in between; a read
      changes no plan's districts. *)
  Theorem C14_repeatable_reads : forall h a k u v ops,
    session E h -> dget (e_updaters E) k = Some u -> Forall wf_op ops ->
    fst (read E a k h) = Ok v ->
    exists v', fst (read E a k (exec E ops (snd (read E a k h)))) = Ok v' /\ same_answer u v v'.
  Proof.
    intros h a k u v ops S Hu F Hv. pose proof (session_wf E h S) as W. destruct S as (WE & REG & _).
    destruct (read_spec E h a k WE REG W) as (W' & _ & _ & Hc & _). specialize (Hc v Hv).
    pose proof (exec_persists E ops _ WE REG F W') as Pp.
    destruct (proj2 Pp a k u v Hu Hc) as (v' & Hc' & Sm). exists v'. split; auto.
    now rewrite (read_cached E _ _ _ _ Hc').
  Qed.

  Theorem C14_reads_change_no_assignment : forall h a k b o,
    session E h -> nth_error h b = Some o ->
    exists o', nth_error (snd (read E a k h)) b = Some o' /\ o_assign o' = o_assign o /\
               o_parent o' = o_parent o.
  Proof.
    intros h a k b o S Ho. pose proof (session_wf E h S) as W. destruct S as (WE & REG & _).
    destruct (read_spec E h a k WE REG W) as (_ & Sk & _).
    destruct (skel_persists h _ Sk b o Ho) as (o' & H1 & H2). injection H2 as E1 E2 _ _ _. eauto.
  Qed.

  (** C15. *)
  Theorem C15_county_splits_content : forall h a o k field,
    session E h -> nth_error h a = Some o -> dget (e_updaters E) k = Some (UCounty field k) ->
    (forall n, In n (g_nodes g) -> exists c, e_county E field n = Some c) ->
    exists d, fst (read E a k h) = Ok (VCounty d) /\ NoDup (dkeys d) /\
      (forall c, In c (dkeys d) <-> exists n, In n (g_nodes g) /\ e_county E field n = Some c) /\
      forall c i, dget d c = Some i ->
        (forall n, In n (ci_nodes i) <-> In n (g_nodes g) /\ e_county E field n = Some c) /\
        NoDup (ci_nodes i) /\
        (forall p, In p (ci_seen i) <-> exists n, In n (g_nodes g) /\ e_county E field n = Some c /\
                                                  district (o_assign o) n = Some p) /\
        (ci_split i = NotSplit <-> ~ county_is_split g (o_assign o) (e_county E field) c).
  Proof.
    intros h a o k field S Ho Hu Hc. destruct (session_answer E h a o k _ S Ho Hu) as (_ & H & _).
    destruct (H Hc) as (v & Hv & d & -> & ND & Hk & Hd). exists d. split; auto. split; auto.
    split; auto. intros c i Hi. pose proof (Hd c i Hi) as Hok.
    pose proof (county_flag E _ _ c i (session_coherent E h a o S Ho) Hok) as Fl.
    destruct Hok as (K1 & K2 & K3 & _). split; auto. split; auto. split; auto.
    intro p. rewrite K3. unfold meets. split; intros (n & Hn & Hp).
    - apply K1 in Hn. exists n. tauto.
    - exists n. rewrite K1. tauto.
  Qed.

  (** C16. Flags of a plan without parent, read for the first time: OLD_SPLIT
      when split, NOT_SPLIT otherwise; never NEW_SPLIT. *)
  Theorem C16_flags_without_parent : forall h a o k field d c i,
    session E h -> nth_error h a = Some o -> dget (e_updaters E) k = Some (UCounty field k) ->
    o_parent o = None -> dget (o_cache o) k = None ->
    fst (read E a k h) = Ok (VCounty d) -> dget d c = Some i ->
    (county_is_split g (o_assign o) (e_county E field) c -> ci_split i = OldSplit) /\
    (~ county_is_split g (o_assign o) (e_county E field) c -> ci_split i = NotSplit).
  Proof.
    intros h a o k field d c i S Ho Hu Hq Hc Hv Hi.
    pose proof (session_coherent E h a o S Ho) as C.
    rewrite (read_first E h a o k _ Ho Hc Hu) in Hv. simpl in Hv. unfold truthy_parent in Hv.
    rewrite Hq in Hv. unfold bindM, lift in Hv. simpl in Hv.
    destruct (scratch_county E (o_assign o) field) as [d0|e|] eqn:Ed; simpl in Hv; try discriminate.
    injection Hv as ->. pose proof S as ((WG & _) & _).
    destruct (scratch_county_spec E _ _ _ WG C Ed) as (_ & _ & Hd).
    destruct (Hd c i Hi) as [Hok Hnew]. pose proof (county_flag E _ _ c i C Hok) as Fl.
    split; [|tauto]. intro Sp. destruct (ci_split i) eqn:Es; auto.
    - exfalso. apply (proj1 Fl); auto.
    - now elim Hnew.
  Qed.

  (** C16. The rule followed by the code, for a plan whose parent has been read:
      a split county is OLD_SPLIT exactly when the parent reports OLD_SPLIT. *)
  Theorem C16_flag_rule : forall h b o q po k field d d',
    session E h -> nth_error h b = Some o -> o_parent o = Some q -> nth_error h q = Some po ->
    dget (e_updaters E) k = Some (UCounty field k) ->
    dget (o_cache o) k = None -> dget (o_cache po) k = Some (VCounty d) ->
    fst (read E b k h) = Ok (VCounty d') ->
    forall c i', dget d' c = Some i' -> exists i, dget d c = Some i /\
      (~ county_is_split g (o_assign o) (e_county E field) c -> ci_split i' = NotSplit) /\
      (county_is_split g (o_assign o) (e_county E field) c ->
         ci_split i' = match ci_split i with OldSplit => OldSplit | _ => NewSplit end).
  Proof.
    intros h b o q po k field d d' S Ho Hq Hpo Hu Hc Hcp Hv c i' Hi'.
    pose proof (session_coherent E h b o S Ho) as C.
    destruct (child_county E h b o q po k field S Ho Hq Hpo Hu Hc _ Hv)
      as (old & d0 & [= <-] & Cc & Cr & Hst).
    specialize (Cc _ Hcp). injection Cc as <-.
    destruct (Hst c i' Hi') as (i & Hi & Hs). exists i. split; auto.
    destruct Cr as (d1 & [= <-] & _ & _ & Cr).
    pose proof (county_ok_step E _ _ _ _ _ _ (Cr c i Hi) Hs) as Hok'.
    pose proof (county_flag E _ _ c i' C Hok') as Fl.
    destruct (county_step_spec E _ _ _ Hs) as (_ & _ & _ & _ & Old).
    split; [tauto|]. intro Sp.
    assert (Ns : ci_split i' <> NotSplit) by tauto.
    destruct (ci_split i) eqn:Ei.
    - destruct (ci_split i') eqn:Ei'; auto; [congruence|]. destruct (proj1 Old eq_refl); congruence.
    - destruct (ci_split i') eqn:Ei'; auto; [congruence|]. destruct (proj1 Old eq_refl); congruence.
    - apply Old. auto.
  Qed.

  (** A lineage of plans read in order: each plan is read under [k] right after
      its creation, then anything may happen; county [c] is split in each. *)
  Inductive split_lineage (k field : string) (c : L)
    : heap N P V L -> nat -> heap N P V L -> nat -> Prop :=
  | SL_start : forall h a, split_lineage k field c h a h a
  | SL_next : forall h a h1 b1 flips b h2 o v ops,
      split_lineage k field c h a h1 b1 ->
      is_dict flips -> flip E b1 flips h1 = (Ok b, h2) ->
      nth_error h2 b = Some o -> county_is_split g (o_assign o) (e_county E field) c ->
      fst (read E b k h2) = Ok v -> Forall wf_op ops ->
      split_lineage k field c h a (exec E ops (snd (read E b k h2))) b.

  (** C16. NEW_SPLIT sticks: if plan [a] reports county [c] as NEW_SPLIT, so does
      every later plan of such a lineage, although the county was already split
      in its parent. *)
  Theorem C16_new_split_sticks : forall k field c h a h' b d i,
    session E h -> dget (e_updaters E) k = Some (UCounty field k) ->
    fst (read E a k h) = Ok (VCounty d) -> dget d c = Some i -> ci_split i = NewSplit ->
    split_lineage k field c (snd (read E a k h)) a h' b ->
    exists d' i', fst (read E b k h') = Ok (VCounty d') /\ dget d' c = Some i' /\
                  ci_split i' = NewSplit.
  Proof.
    intros k field c h a h' b d i S Hu Hv Hi Hf HL.
    assert (G : session E h' /\ exists d' i', cached h' b k (VCounty d') /\
              dget d' c = Some i' /\ ci_split i' = NewSplit).
    { remember (snd (read E a k h)) as h0 eqn:Eh0. remember a as a0 eqn:Ea0.
      revert Eh0 Ea0. induction HL as [h1 a1|h1 a1 h2 b1 flips b h3 o v ops HL IH D Hfl Ho Hsp Hr F];
        intros -> ->.
      - split; [now apply session_read|].
        pose proof (session_wf E h S) as W. destruct S as (WE & REG & _).
        destruct (read_spec E h a k WE REG W) as (_ & _ & _ & Hc & _). exists d, i. auto.
      - destruct (IH Hv eq_refl eq_refl) as (S2 & d1 & i1 & Hc1 & Hi1 & Hf1).
        pose proof (session_flip E h2 b1 flips S2 D) as S3. rewrite Hfl in S3. simpl in S3.
        pose proof (session_read E h3 b k S3) as S4.
        split; [now apply session_exec|].
        destruct Hc1 as (po & Hpo & Hcp).
        destruct (flip_heap_cases E h2 b1 flips) as [[_ X]|X].
        { rewrite Hfl in X. now elim (X b). }
        destruct X as (x & x' & Ea & Hf' & X1 & X2 & X3 & _). rewrite Hfl in Hf'.
        injection Hf' as -> ->. assert (x = po) by congruence. subst x.
        rewrite nth_error_app2, Nat.sub_diag in Ho by lia. injection Ho as <-.
        assert (Ho' : nth_error (h2 ++ [x']) (List.length h2) = Some x').
        { rewrite nth_error_app2, Nat.sub_diag by lia. reflexivity. }
        assert (Hpo' : nth_error (h2 ++ [x']) b1 = Some po).
        { rewrite nth_error_app1; auto. apply nth_error_Some. congruence. }
        assert (Hc' : dget (o_cache x') k = None) by (now rewrite X3).
        destruct (session_answer E _ _ x' k _ S3 Ho' Hu) as (An & _ & _).
        destruct (An v Hr) as (d' & -> & _ & Hkeys & _).
        assert (Hk' : exists i', dget d' c = Some i').
        { apply dget_key, Hkeys.
          destruct Hsp as (m & _ & Hm & _ & Cm & _). eauto. }
        destruct Hk' as [i' Hi'].
        destruct (C16_flag_rule _ _ x' b1 po k field d1 d' S3 Ho' X1 Hpo' Hu Hc' Hcp Hr c i' Hi')
          as (i0 & Hi0 & _ & Rule).
        assert (i0 = i1) by congruence. subst i0. specialize (Rule Hsp). rewrite Hf1 in Rule.
        pose proof (session_wf E _ S3) as W3. pose proof (session_wf E _ S4) as W4.
        destruct S3 as (WE & REG & _).
        destruct (read_spec E _ (List.length h2) k WE REG W3) as (_ & _ & _ & Hcc & _).
        pose proof (exec_persists E ops _ WE REG F W4) as Pp.
        destruct (proj2 Pp _ k _ _ Hu (Hcc _ Hr)) as (v' & Hv' & Sm). simpl in Sm. subst v'.
        exists d', i'. auto. }
    destruct G as (_ & d' & i' & Hc & Hi' & Hf'). exists d', i'. split; auto.
    now rewrite (read_cached E _ _ _ _ Hc).
  Qed.

  (** C17. One validated step: the child is read for the first time while it
      still has its parent. *)
  Lemma refuse_step : forall h b o q po k field,
    session E h -> nth_error h b = Some o -> o_parent o = Some q -> nth_error h q = Some po ->
    dget (e_updaters E) k = Some (UCounty field k) -> dget (o_cache o) k = None ->
    fst (refuse_new_splits E k b h) = Ok true ->
    forall c, county_is_split g (o_assign o) (e_county E field) c ->
              county_is_split g (o_assign po) (e_county E field) c.
  Proof.
    intros h b o q po k field S Ho Hq Hpo Hu Hc Hr c Sp.
    pose proof (session_coherent E h b o S Ho) as C.
    pose proof (session_coherent E h q po S Hpo) as Cp.
    unfold refuse_new_splits in Hr. rewrite fst_bindM in Hr.
    destruct (read E b k h) as [[v|e|] h1] eqn:Er; try discriminate.
    assert (Hv : fst (read E b k h) = Ok v) by (now rewrite Er).
    destruct (child_county E h b o q po k field S Ho Hq Hpo Hu Hc v Hv)
      as (old & d & -> & _ & Cr & Hst).
    rewrite fst_bindM in Hr. simpl in Hr. injection Hr as Hr. apply negb_true_iff in Hr.
    destruct (session_answer E h b o k _ S Ho Hu) as (An & _ & _).
    destruct (An _ Hv) as (d0 & [= <-] & ND & Hk & Hok).
    assert (Hi : exists i, dget d c = Some i).
    { apply dget_key, Hk. destruct Sp as (m & _ & Hm & _ & Cm & _). eauto. }
    destruct Hi as [i' Hi']. destruct (Hst c i' Hi') as (i & Hi & Hs).
    destruct Cr as (d1 & [= <-] & _ & _ & Crr).
    pose proof (county_flag E _ _ c i Cp (Crr c i Hi)) as Fp.
    pose proof (county_flag E _ _ c i' C (Hok c i' Hi')) as Fl.
    destruct (county_step_spec E _ _ _ Hs) as (_ & _ & _ & _ & Old).
    assert (Nn : ci_split i' <> NewSplit).
    { intro X. assert (existsb (fun ci : L * county_info N P => is_new (ci_split (snd ci))) d = true).
      { apply existsb_exists. exists (c, i'). split; [now apply dget_In|]. simpl. now rewrite X. }
      congruence. }
    assert (O' : ci_split i' = OldSplit).
    { destruct (ci_split i') eqn:Ei'; auto; [|congruence]. exfalso. apply (proj1 Fl); auto. }
    destruct (proj1 Old O') as [O _].
    (* the parent's flag says it is split; decide it *)
    assert (K : ~ ~ county_is_split g (o_assign po) (e_county E field) c).
    { intro X. apply Fp in X. congruence. }
    pose proof (Crr c i Hi) as (K1 & K2 & K3 & K4).
    (* constructively: find two nodes with different districts *)
    destruct (ci_nodes i) as [|n0 ns] eqn:En.
    - exfalso. apply K. intros (m & _ & Hm & _ & Cm & _). now apply (proj2 (K1 m)).
    - destruct (existsb (fun n => negb (eqb (district (o_assign po) n) (district (o_assign po) n0)))
                  (n0 :: ns)) eqn:Ex.
      + apply existsb_exists in Ex. destruct Ex as (n & Hn & Hne).
        apply negb_true_iff in Hne.
        assert (Hne' : district (o_assign po) n <> district (o_assign po) n0) by (now apply eqb_neq).
        apply K1 in Hn. destruct (proj1 (K1 n0) (or_introl eq_refl)) as [H1 H2].
        exists n, n0. tauto.
      + exfalso. apply K. intros (m & n & Hm & Hn & Cm & Cn & Hd). apply Hd.
        assert (Same : forall x, In x (n0 :: ns) -> district (o_assign po) x = district (o_assign po) n0).
        { intros x Hx. destruct (eqb_spec (district (o_assign po) x) (district (o_assign po) n0)); auto.
          exfalso. assert (X : existsb (fun n => negb (eqb (district (o_assign po) n) (district (o_assign po) n0)))
                  (n0 :: ns) = true); [|congruence].
          apply existsb_exists. exists x. split; auto. apply negb_true_iff, eqb_neq. auto. }
        rewrite (Same m), (Same n); auto; apply K1; auto.
  Qed.

  (** A history of plans each of which passed the check [chk] when it was
      created from its parent.  Anything may happen before and after; between
      the flip and the check links of other plans may be erased, as
      MarkovChain does. *)
  Inductive checked_lineage (chk : nat -> heap N P V L -> res bool * heap N P V L)
    : heap N P V L -> nat -> heap N P V L -> nat -> Prop :=
  | CL_start : forall h a, checked_lineage chk h a h a
  | CL_next : forall h a h1 b1 flips b h2 erased ops,
      checked_lineage chk h a h1 b1 ->
      is_dict flips -> flip E b1 flips h1 = (Ok b, h2) ->
      ~ In b erased ->
      let h3 := exec E (map OErase erased) h2 in
      fst (chk b h3) = Ok true -> Forall wf_op ops ->
      checked_lineage chk h a (exec E ops (snd (chk b h3))) b.

  Lemma erase_many : forall es (h : heap N P V L) b o, nth_error h b = Some o -> ~ In b es ->
    nth_error (exec E (map OErase es) h) b = Some o.
  Proof.
    induction es as [|e es IH]; intros h b o Ho Hn; auto.
    simpl in Hn. change (exec E (map OErase (e :: es)) h) with (exec E (map OErase es) (erase e h)).
    apply IH; [|tauto]. unfold erase. rewrite nth_set_nth.
    destruct (Nat.eqb_spec b e) as [->|]; [tauto|auto].
  Qed.

  Lemma refuse_heap : forall k b h, session E h ->
    snd (refuse_new_splits E k b h) = snd (read E b k h).
  Proof.
    intros k b h _. unfold refuse_new_splits. unfold bindM at 1.
    destruct (read E b k h) as [[v|e|] h1]; auto. unfold bindM, lift.
    destruct (as_county v); reflexivity.
  Qed.

  Theorem C17_no_new_splits_ever : forall k field h a o h' b o' c,
    session E h -> dget (e_updaters E) k = Some (UCounty field k) ->
    nth_error h a = Some o -> checked_lineage (refuse_new_splits E k) h a h' b -> nth_error h' b = Some o' ->
    county_is_split g (o_assign o') (e_county E field) c ->
    county_is_split g (o_assign o) (e_county E field) c.
  Proof.
    intros k field h a o h' b o' c S Hu Ho HL Ho' Sp.
    assert (G : session E h' /\ forall o', nth_error h' b = Some o' ->
              county_is_split g (o_assign o') (e_county E field) c ->
              county_is_split g (o_assign o) (e_county E field) c).
    { clear o' Ho' Sp. revert S Ho. induction HL as [h a|h a h1 b1 flips b h2 er ops HL IH D Hf Hne h3 Hr F];
        intros S Ho.
      - split; auto. intros o' Ho'. assert (o' = o) by congruence. now subst.
      - destruct (IH S Ho) as [S1 K1].
        pose proof (session_flip E h1 b1 flips S1 D) as S2. rewrite Hf in S2. simpl in S2.
        assert (S3 : session E h3).
        { apply session_exec; auto. apply Forall_forall. intros x Hx. apply in_map_iff in Hx.
          destruct Hx as (e & <- & _). exact I. }
        assert (S4 : session E (snd (refuse_new_splits E k b h3))).
        { rewrite refuse_heap; auto. now apply session_read. }
        split; [now apply session_exec|].
        destruct (flip_heap_cases E h1 b1 flips) as [[_ X]|X].
        { rewrite Hf in X. now elim (X b). }
        destruct X as (x & x' & Ea & Hf' & X1 & X2 & X3 & _). rewrite Hf in Hf'.
        injection Hf' as -> ->.
        assert (Hb2 : nth_error (h1 ++ [x']) (List.length h1) = Some x').
        { rewrite nth_error_app2, Nat.sub_diag by lia. reflexivity. }
        assert (Hb1 : nth_error (h1 ++ [x']) b1 = Some x).
        { rewrite nth_error_app1; auto. apply nth_error_Some. congruence. }
        assert (Hb3 : nth_error h3 (List.length h1) = Some x') by (now apply erase_many).
        assert (P3 : persists E (h1 ++ [x']) h3).
        { pose proof (session_wf E _ S2) as W2. destruct S2 as (WE & REG & _).
          apply exec_persists; auto. apply Forall_forall. intros y Hy. apply in_map_iff in Hy.
          destruct Hy as (e & <- & _). exact I. }
        destruct (proj1 P3 b1 x Hb1) as (xq & Hq & Eq & _).
        assert (P4 : persists E h3 (exec E ops (snd (refuse_new_splits E k (List.length h1) h3)))).
        { pose proof (session_wf E _ S3) as W3. pose proof (session_wf E _ S4) as W4.
          destruct S3 as (WE & REG & S3').
          eapply persists_trans; [|apply exec_persists; auto].
          rewrite refuse_heap; [now apply read_persists|]. split; auto. }
        intros o' Ho' Sp. destruct (proj1 P4 _ _ Hb3) as (y & Hy & Ey & _).
        assert (y = o') by congruence. subst y. rewrite Ey in Sp.
        apply (K1 x Ea). rewrite <- Eq.
        apply (refuse_step h3 (List.length h1) x' b1 xq k field); auto. now rewrite X3. }
    destruct G as [_ G]. eauto.
  Qed.

  (** C18. *)
  Theorem C18_election : forall h a o k parties al w v,
    session E h -> nth_error h a = Some o -> dget (e_updaters E) k = Some (UElection parties al) ->
    (forall c data, In (c, data) parties -> data_is g data (w c)) ->
    fst (read E a k h) = Ok v ->
    exists counts totals, v = VElec counts totals /\ dkeys counts = dkeys parties /\
      (forall c d p x, In (c, d) counts -> dget d p = Some x -> exists y, x = Num y /\
         sums_to (w c) (fun n => In n (g_nodes g) /\ district (o_assign o) n = Some p) y) /\
      (forall c d n p, In (c, d) counts -> In n (g_nodes g) -> district (o_assign o) n = Some p ->
         In p (dkeys d)) /\
      dkeys totals = labels (o_assign o) /\
      (forall p x, dget totals p = Some x -> exists y, x = Num y /\
         sums_to (fun n => vsum (map (fun c => w c n) (dkeys parties)))
                 (fun n => In n (g_nodes g) /\ district (o_assign o) n = Some p) y).
  Proof.
    intros h a o k parties al w v S Ho Hu Hw Hv.
    destruct (session_answer E h a o k _ S Ho Hu) as (H & _ & _).
    destruct (H v Hv) as (counts & totals & -> & K1 & K2 & K3 & K4 & K5).
    exists counts, totals. split; auto. split; auto.
    assert (X : forall c d, In (c, d) counts -> exists data, In (c, data) parties).
    { intros c d Hcd. apply (in_map fst) in Hcd. simpl in Hcd.
      change (map fst counts) with (dkeys counts) in Hcd. rewrite K1 in Hcd.
      apply in_map_iff in Hcd. destruct Hcd as ([c' data] & Hc & Hin). simpl in Hc. subst. eauto. }
    split; [|split; [|split; auto]].
    - intros c d p x Hcd Hx. destruct (X c d Hcd) as [data Hdata].
      exact (proj1 (K3 c data d (w c) Hdata Hcd (Hw c data Hdata)) p x Hx).
    - intros c d n p Hcd Hn Hp. destruct (X c d Hcd) as [data Hdata].
      apply (proj2 (K3 c data d (w c) Hdata Hcd (Hw c data Hdata)) p n). split; auto.
    - exact (K5 w Hw).
  Qed.

  Theorem C18_election_total : forall h a o k parties al w,
    session E h -> nth_error h a = Some o -> dget (e_updaters E) k = Some (UElection parties al) ->
    (forall c data, In (c, data) parties -> data_is g data (w c)) ->
    (forall o, In o h -> no_empty_district g (o_assign o)) ->
    exists v, fst (read E a k h) = Ok v.
  Proof.
    intros h a o k parties al w S Ho Hu Hw NE.
    destruct (session_answer E h a o k _ S Ho Hu) as (_ & H & _).
    destruct H as (v & Hv & _); eauto. split; eauto.
  Qed.

  (** C33. no_vanishing_districts accepts a plan exactly when none of its
      districts is empty, or it has no parent. *)
  Theorem C33_no_vanishing_districts : forall h a o,
    session E h -> nth_error h a = Some o ->
    exists r, fst (no_vanishing_districts a h) = Ok r /\
      (r = true <-> o_parent o = None \/ no_empty_district g (o_assign o)).
  Proof.
    intros h a o S Ho. pose proof (session_coherent E h a o S Ho) as C.
    unfold no_vanishing_districts. rewrite fst_bindM. unfold get_obj at 1. rewrite Ho.
    rewrite fst_bindM. unfold truthy_parent.
    assert (Iff : forallb (fun ps : P * list N => negb (Nat.eqb (List.length (snd ps)) 0))
                    (a_parts (o_assign o)) = true <-> no_empty_district g (o_assign o)).
    { rewrite forallb_forall. unfold no_empty_district, labels. split.
      - intros H p Hp. apply in_map_iff in Hp. destruct Hp as ([p' s] & Hps & Hin). simpl in Hps. subst p'.
        specialize (H _ Hin). simpl in H. apply negb_true_iff, Nat.eqb_neq in H.
        destruct s as [|n s]; [now elim H|].
        assert (Hl : listed (o_assign o) p n).
        { exists (n :: s). split; [|now left]. apply In_dget; auto. apply C. }
        apply (coh_agree _ _ C) in Hl. exists n. split; auto.
        apply (coh_dom _ _ C). eapply dget_Some_key; exact Hl.
      - intros H [p s] Hin. apply negb_true_iff, Nat.eqb_neq. simpl.
        assert (Hg : dget (a_parts (o_assign o)) p = Some s) by (apply In_dget; auto; apply C).
        destruct (H p) as (n & _ & Hn); [eapply dget_Some_key; eauto|].
        apply (coh_agree _ _ C) in Hn. destruct Hn as (s' & Hs' & Hn'). destruct s; [|discriminate].
        assert (s' = []) by congruence. subst. destruct Hn'. }
    destruct (o_parent o) as [q|] eqn:Eq.
    - destruct (session_parent E h a o q S Ho Eq) as (_ & _ & po & flips & Hpo & _ & HL & _).
      unfold bindM at 1. unfold get_obj. rewrite Hpo. simpl.
      destruct (a_parts (o_assign po)) as [|ps rest] eqn:Eps.
      + simpl. exists true. split; auto. split; auto. intros _. right.
        intros p Hp. rewrite HL in Hp. unfold labels in Hp. rewrite Eps in Hp. destruct Hp.
      + simpl. eexists. split; [reflexivity|]. rewrite Iff. split; auto. intros [|]; [discriminate|auto].
    - simpl. exists true. split; auto. split; auto.
  Qed.

  Lemma no_vanishing_heap : forall h a, snd (no_vanishing_districts a h) = h.
  Proof.
    intros h a. unfold no_vanishing_districts, bindM, get_obj, truthy_parent.
    destruct (nth_error h a) as [o|]; auto. destruct (o_parent o) as [q|]; auto.
    unfold bindM, get_obj. destruct (nth_error h q) as [po|]; auto. simpl.
    destruct (a_parts (o_assign po)); reflexivity.
  Qed.

  (** C33. Hence no plan of a history checked this way has an empty district. *)
  Theorem C33_no_empty_district_ever : forall h a o h' b o',
    session E h -> nth_error h a = Some o -> no_empty_district g (o_assign o) ->
    checked_lineage no_vanishing_districts h a h' b -> nth_error h' b = Some o' ->
    no_empty_district g (o_assign o').
  Proof.
    intros h a o h' b o' S Ho NE HL. revert o'.
    assert (G : session E h' /\ forall o', nth_error h' b = Some o' -> no_empty_district g (o_assign o')).
    { revert S Ho. induction HL as [h a|h a h1 b1 flips b h2 er ops HL IH D Hf Hne h3 Hr F]; intros S Ho.
      - split; auto. intros o' Ho'. assert (o' = o) by congruence. now subst.
      - destruct (IH S Ho) as [S1 _].
        pose proof (session_flip E h1 b1 flips S1 D) as S2. rewrite Hf in S2. simpl in S2.
        destruct (C02_child_districts_aux h1 b1 flips b h2 S1 D Hf) as (x & Hx & Hpar).
        assert (Fe : Forall (@wf_op N P) (map OErase er)).
        { apply Forall_forall. intros y Hy. apply in_map_iff in Hy. destruct Hy as (e & <- & _). exact I. }
        assert (S3 : session E h3) by (now apply session_exec).
        rewrite no_vanishing_heap. split; [now apply session_exec|].
        assert (Hb3 : nth_error h3 b = Some x) by (now apply erase_many).
        destruct (C33_no_vanishing_districts h3 b x S3 Hb3) as (r & Hr' & Iff).
        assert (r = true) by congruence. apply Iff in H. destruct H as [H|H]; [congruence|].
        intros o' Ho'. pose proof (session_wf E _ S3) as W3. destruct S3 as (WE & REG & _).
        destruct (proj1 (exec_persists E ops _ WE REG F W3) _ _ Hb3) as (y & Hy & Ey & _).
        assert (y = o') by congruence. subst y. now rewrite Ey. }
    exact (proj2 G).
  Qed.
End Theorems.

(** ** A concrete session: the path 0-1-2-3 with all updaters registered *)

Local Open Scope string_scope.
Definition ex_g : graph nat := mkGraph [0; 1; 2; 3] [(0, 1); (1, 2); (2, 3)].
Definition ex_pop (n : nat) : Z := nth n [5; 7; 11; 13]%Z 0%Z.
Definition ex_data (n : nat) : option (num Z) := if Nat.ltb n 4 then Some (Num (ex_pop n)) else None.
(** Node 1 has no data (NaN). *)
Definition ex_nan (n : nat) : option (num Z) := if Nat.eqb n 1 then Some NaN else ex_data n.
Definition ex_cnty (n : nat) : option nat :=
  match n with 0 | 1 => Some 100 | 2 | 3 => Some 200 | _ => None end.
Definition ex_updaters : dict string (updater nat nat Z nat) :=
  [("cut_edges", UCutEdges); ("cut_edges_by_part", UCutEdgesByPart);
   ("population", UTally ["POP"] "population"); ("votes", UDataTally ex_data "votes");
   ("nan", UDataTally ex_nan "nan");
   ("election", UElection [("D", ex_data); ("R", ex_data)] "election");
   ("boundary_nodes", UBoundaryNodes);
   ("exterior_boundaries_as_a_set", UExteriorSet); ("exterior_boundaries", UExterior);
   ("interior_boundaries", UInterior); ("perimeter", UPerimeter);
   ("county", UCounty "COUNTY" "county")].
Definition ex_E : env nat nat Z nat :=
  mkEnv ex_g (fun f n => if String.eqb f "POP" then ex_data n else None)
        (fun n => Nat.eqb n 0 || Nat.eqb n 3) ex_pop (fun e => Z.of_nat (fst e + 1))
        (fun f n => if String.eqb f "COUNTY" then ex_cnty n else None) ex_updaters.

Lemma ex_wf : wf_env ex_E.
Proof.
  split.
  - constructor; simpl.
    + nodup.
    + nodup.
    + intros u v H. repeat destruct H as [H|H]; try injection H as <- <-; simpl; auto 8.
    + intros u v H H'.
      repeat destruct H as [H|H]; try injection H as <- <-;
      repeat destruct H' as [H'|H']; try discriminate; tauto.
  - intros k ps al H. apply dget_In in H. simpl in H.
    repeat destruct H as [H|H]; try discriminate; try contradiction.
    injection H as <- <- <-. nodup.
Qed.
Lemma ex_registered : registered ex_E.
Proof.
  intros k u H k' u' H'. apply dget_In in H. simpl in H.
  repeat destruct H as [H|H]; try contradiction; injection H as <- <-; simpl in H';
  repeat destruct H' as [H'|H']; try contradiction; injection H' as <- <-; reflexivity.
Qed.

Definition ex_run (d : dict nat nat) (ops : list (op nat nat)) : heap nat nat Z nat :=
  match root ex_E d with Ok h => exec ex_E ops h | _ => [] end.
Definition ex_plan : dict nat nat := [(0, 1); (1, 1); (2, 2); (3, 2)].

Lemma ex_session d ops h0 :
  is_dict d -> root ex_E d = Ok h0 -> Forall wf_op ops -> session ex_E (ex_run d ops).
Proof.
  intros D R F. split; [exact ex_wf|]. split; [exact ex_registered|].
  exists d, h0, ops. unfold ex_run. rewrite R. auto.
Qed.
Ltac ex_session := eapply ex_session; [nodup|vm_compute; reflexivity|
  repeat (constructor; [first [exact I|nodup]|]); try constructor].

(** A session with two flips, reads of everything, an erasure in between. *)
Definition ex_ops : list (op nat nat) :=
  [OGet 0 "population"; OFlip 0 [(1, 2)]; OGet 1 "perimeter"; OGet 1 "county"; OErase 1;
   OFlip 1 [(2, 1); (0, 2)]; OGet 2 "election"].

Example session_nonvacuous :
  session ex_E (ex_run ex_plan ex_ops) /\ List.length (ex_run ex_plan ex_ops) = 3.
Proof. split; [ex_session|vm_compute; reflexivity]. Qed.

Example C08_nonvacuous :
  let h := ex_run ex_plan ex_ops in
  fst (read ex_E 0 "cut_edges" h) = Ok (VEdges [(1, 2)]) /\
  fst (read ex_E 1 "cut_edges" h) = Ok (VEdges [(0, 1)]) /\
  fst (read ex_E 2 "cut_edges" h) = Ok (VEdges [(1, 2); (2, 3)]) /\
  fst (read ex_E 2 "cut_edges_by_part" h) = Ok (VEdgesBy [(1, [(1, 2); (2, 3)]); (2, [(1, 2); (2, 3)])]).
Proof. vm_compute. auto. Qed.

Example C10_nonvacuous :
  let h := ex_run ex_plan ex_ops in
  fst (read ex_E 0 "population" h) = Ok (VNum [(1, Num 12%Z); (2, Num 24%Z)]) /\
  fst (read ex_E 2 "population" h) = Ok (VNum [(1, Num 11%Z); (2, Num 25%Z)]) /\
  fst (read ex_E 2 "votes" h) = Ok (VNum [(1, Num 11%Z); (2, Num 25%Z)]) /\
  data_is ex_g ex_data ex_pop.
Proof.
  split; [vm_compute; reflexivity|]. split; [vm_compute; reflexivity|].
  split; [vm_compute; reflexivity|].
  intros n H. simpl in H. repeat destruct H as [<-|H]; try reflexivity; contradiction.
Qed.

(** Three districts, then district 1 is emptied: the carried-over tally keeps
    the key 1 with 0; read after the link is erased, the key is missing and a
    later flip into district 1 raises KeyError. *)
Definition ex_three : dict nat nat := [(0, 1); (1, 2); (2, 2); (3, 3)].
Example C10_vanished_nonvacuous :
  let h := ex_run ex_three [OGet 0 "votes"; OFlip 0 [(0, 2)]] in
  let h2 := ex_run ex_three [OFlip 0 [(0, 2)]; OErase 1] in
  let h3 := ex_run ex_three [OFlip 0 [(0, 2)]; OErase 1; OFlip 1 [(1, 1)]] in
  session ex_E h /\ session ex_E h2 /\ session ex_E h3 /\
  fst (read ex_E 1 "votes" h) = Ok (VNum [(1, Num 0%Z); (2, Num 23%Z); (3, Num 13%Z)]) /\
  fst (read ex_E 1 "votes" h2) = Ok (VNum [(2, Num 23%Z); (3, Num 13%Z)]) /\
  flip ex_E 1 [(1, 1)] h2 = (Ok 2, h3) /\
  fst (read ex_E 2 "votes" h3) = Err KeyError /\
  fst (read ex_E 2 "population" h3) = Err KeyError.
Proof.
  split; [ex_session|]. split; [ex_session|]. split; [ex_session|]. vm_compute. repeat split.
Qed.

Example C12_nonvacuous :
  let h := ex_run ex_plan [OGet 0 "nan"; OFlip 0 [(1, 2)]] in
  session ex_E h /\
  fst (read ex_E 0 "nan" h) = Ok (VNum [(1, Num 5%Z); (2, Num 24%Z)]) /\
  fst (read ex_E 1 "nan" h) = Ok (VNum [(1, NaN); (2, NaN)]).
Proof. split; [ex_session|]. vm_compute. auto. Qed.

(** C12. Hence carrying over and recomputing disagree when data is missing: the
    same districts, different answers. *)
Theorem C12_carried_over_equals_recomputed_refuted :
  exists h1 h2 o1 o2, session ex_E h1 /\ session ex_E h2 /\
    nth_error h1 1 = Some o1 /\ nth_error h2 1 = Some o2 /\ o_assign o1 = o_assign o2 /\
    fst (read ex_E 1 "nan" h1) <> fst (read ex_E 1 "nan" h2).
Proof.
  exists (ex_run ex_plan [OFlip 0 [(1, 2)]]), (ex_run ex_plan [OFlip 0 [(1, 2)]; OErase 1]).
  eexists. eexists. split; [ex_session|]. split; [ex_session|].
  split; [vm_compute; reflexivity|]. split; [vm_compute; reflexivity|].
  split; [vm_compute; reflexivity|]. vm_compute. discriminate.
Qed.

(** C14. The three defaultdict-valued answers are not literally stable: after
    reading the interior boundaries of a plan with one district, reading its
    cut_edges_by_part again gives a dictionary with one more key. *)
Theorem C14_literal_equality_refuted :
  exists h v v', session ex_E h /\
    fst (read ex_E 0 "cut_edges_by_part" h) = Ok v /\
    fst (read ex_E 0 "cut_edges_by_part"
           (exec ex_E [OGet 0 "interior_boundaries"] (snd (read ex_E 0 "cut_edges_by_part" h)))) = Ok v' /\
    v <> v'.
Proof.
  exists (ex_run [(0, 1); (1, 1); (2, 1); (3, 1)] []). eexists. eexists.
  split; [ex_session|]. split; [vm_compute; reflexivity|]. split; [vm_compute; reflexivity|].
  vm_compute. discriminate.
Qed.

Example C13_nonvacuous :
  let h := ex_run ex_plan ex_ops in
  fst (read ex_E 1 "perimeter" h) = Ok (VNum [(1, Num 6%Z); (2, Num 14%Z)]) /\
  fst (read ex_E 2 "perimeter" h) = Ok (VNum [(1, Num 5%Z); (2, Num 23%Z)]) /\
  In "cut_edges" (dkeys (e_updaters ex_E)).
Proof. split; [vm_compute; reflexivity|]. split; [vm_compute; reflexivity|]. simpl. auto. Qed.

Example C15_nonvacuous :
  forall n, In n (g_nodes ex_g) -> exists c, e_county ex_E "COUNTY" n = Some c.
Proof. intros n H. simpl in H. repeat destruct H as [<-|H]; try (eexists; reflexivity); contradiction. Qed.

(** C16. The documented meaning of NEW_SPLIT ("split now, not split in the
    parent") is false of the code: county 100 is split in plan 1 already, and
    plan 2, obtained from it, still reports NEW_SPLIT. *)
Theorem C16_new_split_means_unsplit_before_refuted :
  exists h o1 o2 d i, session ex_E h /\
    nth_error h 1 = Some o1 /\ nth_error h 2 = Some o2 /\ o_parent o2 = Some 1 /\
    county_is_split ex_g (o_assign o1) (e_county ex_E "COUNTY") 100 /\
    fst (read ex_E 2 "county" h) = Ok (VCounty d) /\ dget d 100 = Some i /\ ci_split i = NewSplit.
Proof.
  exists (ex_run ex_plan [OGet 0 "county"; OFlip 0 [(1, 2)]; OGet 1 "county"; OFlip 1 [(2, 1)]]).
  do 4 eexists. split; [ex_session|]. do 3 (split; [vm_compute; reflexivity|]).
  split; [|split; [vm_compute; reflexivity|split; vm_compute; reflexivity]].
  exists 0, 1. simpl. repeat split; auto. discriminate.
Qed.

(** C16. And whether a county that the flip has just split is reported NEW or
    OLD depends on whether the parent link was erased before the first read. *)
Theorem C16_flag_depends_on_erasure_refuted :
  exists h1 h2 o1 o2 d1 d2 i1 i2, session ex_E h1 /\ session ex_E h2 /\
    nth_error h1 1 = Some o1 /\ nth_error h2 1 = Some o2 /\ o_assign o1 = o_assign o2 /\
    fst (read ex_E 1 "county" h1) = Ok (VCounty d1) /\
    fst (read ex_E 1 "county" h2) = Ok (VCounty d2) /\
    dget d1 100 = Some i1 /\ dget d2 100 = Some i2 /\
    ci_split i1 = NewSplit /\ ci_split i2 = OldSplit.
Proof.
  exists (ex_run ex_plan [OFlip 0 [(1, 2)]]), (ex_run ex_plan [OFlip 0 [(1, 2)]; OErase 1]).
  do 6 eexists. split; [ex_session|]. split; [ex_session|].
  do 8 (split; [vm_compute; reflexivity|]). vm_compute. reflexivity.
Qed.

(** A lineage of two flips as required by [C16_new_split_sticks]. *)
Example C16_nonvacuous :
  let h := ex_run ex_plan [OFlip 0 [(1, 2)]] in
  session ex_E h /\ (exists d i, fst (read ex_E 1 "county" h) = Ok (VCounty d) /\
     dget d 100 = Some i /\ ci_split i = NewSplit) /\
  exists h', split_lineage ex_E "county" "COUNTY" 100 (snd (read ex_E 1 "county" h)) 1 h' 2.
Proof.
  split; [ex_session|]. split; [do 2 eexists; split; [vm_compute; reflexivity|split; vm_compute; reflexivity]|].
  eexists. eapply SL_next with (flips := [(2, 1)]) (ops := []).
  - apply SL_start.
  - nodup.
  - vm_compute. reflexivity.
  - vm_compute. reflexivity.
  - exists 0, 1. simpl. repeat split; auto. discriminate.
  - vm_compute. reflexivity.
  - constructor.
Qed.

(** Two accepted steps that keep county 100 whole: flip 2 into district 1, then
    back (county 200 is split from the start in the first plan). *)
Example C17_nonvacuous :
  let h := ex_run [(0, 1); (1, 1); (2, 1); (3, 2)] [] in
  session ex_E h /\ exists h' o', checked_lineage ex_E (refuse_new_splits ex_E "county") h 0 h' 2 /\
    nth_error h' 2 = Some o' /\
    county_is_split ex_g (o_assign o') (e_county ex_E "COUNTY") 200.
Proof.
  split; [ex_session|]. eexists. eexists. split.
  - eapply CL_next with (flips := [(2, 1); (3, 2)]) (erased := [1]) (ops := []).
    + eapply CL_next with (flips := [(2, 2); (3, 1)]) (erased := [0]) (ops := [OErase 0]).
      * apply CL_start.
      * nodup.
      * vm_compute. reflexivity.
      * simpl. intuition discriminate.
      * vm_compute. reflexivity.
      * constructor; [exact I|constructor].
    + nodup.
    + vm_compute. reflexivity.
    + simpl. intuition discriminate.
    + vm_compute. reflexivity.
    + constructor.
  - split; [vm_compute; reflexivity|]. exists 2, 3. simpl. repeat split; auto. discriminate.
Qed.

(** C17. Without reading the flags before the link of the checked plan is
    erased, refuse_new_splits lets a new split through. *)
Theorem C17_check_after_erasure_refuted :
  exists h o o0, session ex_E h /\ nth_error h 0 = Some o0 /\ nth_error h 1 = Some o /\
    fst (refuse_new_splits ex_E "county" 1 h) = Ok true /\
    county_is_split ex_g (o_assign o) (e_county ex_E "COUNTY") 100 /\
    ~ county_is_split ex_g (o_assign o0) (e_county ex_E "COUNTY") 100.
Proof.
  exists (ex_run ex_plan [OFlip 0 [(1, 2)]; OErase 1]). do 2 eexists. split; [ex_session|].
  do 3 (split; [vm_compute; reflexivity|]). split.
  - exists 0, 1. simpl. repeat split; auto. discriminate.
  - intros (m & n & Hm & Hn & Cm & Cn & D). simpl in Hm, Hn.
    repeat destruct Hm as [<-|Hm]; try discriminate; try contradiction;
    repeat destruct Hn as [<-|Hn]; try discriminate; try contradiction; now apply D.
Qed.

Example C18_nonvacuous :
  let h := ex_run ex_plan ex_ops in
  fst (read ex_E 2 "election" h) =
    Ok (VElec [("D", [(1, Num 11%Z); (2, Num 25%Z)]); ("R", [(1, Num 11%Z); (2, Num 25%Z)])]
              [(1, Num 22%Z); (2, Num 50%Z)]).
Proof. vm_compute. reflexivity. Qed.

(** C18. The hypothesis that no district is empty matters: with an emptied
    district and an erased link, the election raises KeyError. *)
Theorem C18_empty_district_refuted :
  exists h, session ex_E h /\ fst (read ex_E 1 "election" h) = Err KeyError.
Proof.
  exists (ex_run ex_three [OFlip 0 [(0, 2)]; OErase 1]). split; [ex_session|]. vm_compute. reflexivity.
Qed.

Example C33_nonvacuous :
  let h := ex_run ex_three [OFlip 0 [(0, 2)]] in
  session ex_E h /\ fst (no_vanishing_districts 1 h) = Ok false /\
  fst (no_vanishing_districts 0 h) = Ok true /\
  exists h', checked_lineage ex_E no_vanishing_districts (ex_run ex_three []) 0 h' 1.
Proof.
  split; [ex_session|]. split; [vm_compute; reflexivity|]. split; [vm_compute; reflexivity|].
  eexists. eapply CL_next with (flips := [(2, 3)]) (erased := [0]) (ops := [OGet 1 "votes"]).
  - apply CL_start.
  - nodup.
  - vm_compute. reflexivity.
  - simpl. intuition discriminate.
  - vm_compute. reflexivity.
  - constructor; [exact I|constructor].
Qed.

Print Assumptions C02_parent_untouched.
Print Assumptions C02_child_districts.
Print Assumptions C08_cut_edges.
Print Assumptions C09_cut_edges_by_part.
Print Assumptions C10_tally.
Print Assumptions C10_data_tally.
Print Assumptions C10_vanished_entry_is_zero.
Print Assumptions C10_carried_over_entries.
Print Assumptions C10_recomputed_entries.
Print Assumptions C10_flip_into_missing_keyerror.
Print Assumptions C11_total_conserved.
Print Assumptions C11_data_total_conserved.
Print Assumptions C12_first_tally_skips_nan.
Print Assumptions C12_moving_nan_poisons.
Print Assumptions C13_exterior_boundaries.
Print Assumptions C13_exterior_boundaries_as_a_set.
Print Assumptions C13_interior_boundaries.
Print Assumptions C13_perimeter.
Print Assumptions C14_repeatable_reads.
Print Assumptions C14_reads_change_no_assignment.
Print Assumptions C14_literal_equality_refuted.
Print Assumptions C15_county_splits_content.
Print Assumptions C16_flags_without_parent.
Print Assumptions C16_flag_rule.
Print Assumptions C16_new_split_sticks.
Print Assumptions C16_new_split_means_unsplit_before_refuted.
Print Assumptions C17_no_new_splits_ever.
Print Assumptions C18_election.
Print Assumptions C18_election_total.
Print Assumptions C33_no_vanishing_districts.
Print Assumptions C33_no_empty_district_ever.
