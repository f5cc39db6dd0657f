(** Lemmas behind P_Machine.v: sessions, first reads, NaN, missing entries and
    totals. *)
From Coq Require Import String List Bool Arith Ring_theory Ring Permutation Lia.
From Verif Require Import Base M_Graph M_Partition S_Partition L_Partition
  M_Machine S_Machine L_Sums L_Cuts L_Tally L_Updaters L_Machine.
Import ListNotations.
Local Open Scope list_scope.

Section Answers.
  Context {N P V L : Type} {EN : EqB N} {EP : EqB P} {EL : EqB L} {ON : Ord N} {RV : CRing V}.
  Add Ring VR5 : (@cring V RV).
  Variable E : env N P V L.
  Notation g := (e_graph E).
  Implicit Types (A : assignment N P) (h : heap N P V L) (o : pobj N P V L).

  Lemma session_wf h : session E h -> wf_heap E h.
  Proof.
    intros (WE & REG & d & h0 & ops & D & R & F & ->). apply exec_wf; auto.
    eapply root_spec; eauto.
  Qed.

  Lemma session_exec h ops : session E h -> Forall wf_op ops -> session E (exec E ops h).
  Proof.
    intros (WE & REG & d & h0 & ops0 & D & R & F & ->) F'. split; auto. split; auto.
    exists d, h0, (ops0 ++ ops). split; auto. split; auto. split.
    - apply Forall_app. auto.
    - unfold exec. now rewrite fold_left_app.
  Qed.

  Lemma session_read h a k : session E h -> session E (snd (read E a k h)).
  Proof. intro S. apply (session_exec h [OGet a k] S). repeat constructor. Qed.
  Lemma session_flip h a f : session E h -> is_dict f -> session E (snd (flip E a f h)).
  Proof. intros S D. apply (session_exec h [OFlip a f] S). repeat constructor. exact D. Qed.
  Lemma session_erase h a : session E h -> session E (erase a h).
  Proof. intro S. apply (session_exec h [OErase a] S). repeat constructor. Qed.

  Lemma session_coherent h a o : session E h -> nth_error h a = Some o ->
    coherent (g_nodes g) (o_assign o).
  Proof.
    intros S Ho. destruct (session_wf h S) as [W _].
    destruct (W a (skel o)) as [C _]; [now rewrite nth_error_map, Ho|]. exact C.
  Qed.

  (** What a read of a registered updater of an existing plan can give. *)
  Lemma session_answer h a o k u :
    session E h -> nth_error h a = Some o -> dget (e_updaters E) k = Some u ->
    (forall v, fst (read E a k h) = Ok v -> correct E o u v) /\
    (ready E h u -> exists v, fst (read E a k h) = Ok v /\ correct E o u v) /\
    fst (read E a k h) <> NoFuel.
  Proof.
    intros S Ho Hu. pose proof (session_wf h S) as W. destruct S as (WE & REG & _).
    destruct (read_spec E h a k WE REG W) as (_ & _ & _ & _ & H). specialize (H u o Hu Ho).
    destruct (fst (read E a k h)) as [v|e|].
    - split; [now intros v' [= <-]|]. split; [eauto|discriminate].
    - split; [discriminate|]. split; [intro R; now elim H|discriminate].
    - destruct H.
  Qed.

  (** The first read of an updater runs it. *)
  Lemma read_first h a o k u :
    nth_error h a = Some o -> dget (o_cache o) k = None -> dget (e_updaters E) k = Some u ->
    fst (read E a k h) = fst (run E (getitem E (3 * List.length h)) a o u h).
  Proof.
    intros Ho Hc Hu. unfold read. rewrite (getitem_eq E _ _ _ _ _ Ho), Hc, Hu.
    destruct (run E (getitem E (3 * List.length h)) a o u h) as [[v|e|] h']; reflexivity.
  Qed.

  Lemma fst_bindM {X Y} (m : @M N P V L X) (f : X -> @M N P V L Y) h :
    fst (bindM m f h) =
    match m h with (Ok a, h') => fst (f a h') | (Err e, _) => Err e | (NoFuel, _) => NoFuel end.
  Proof. unfold bindM. destruct (m h) as [[a|e|] h']; reflexivity. Qed.

  (** Nested reads behave as reads. *)
  Lemma nested h fuel q qo k u :
    session E h -> nth_error h q = Some qo -> dget (e_updaters E) k = Some u ->
    measure q u < fuel ->
    (forall v h', getitem E fuel q k h = (Ok v, h') ->
       correct E qo u v /\
       (forall v0, dget (o_cache qo) k = Some v0 -> v0 = v) /\
       (forall b o, nth_error h b = Some o -> exists o', nth_error h' b = Some o' /\ o_assign o' = o_assign o)) /\
    (ready E h u -> exists v h', getitem E fuel q k h = (Ok v, h')).
  Proof.
    intros S Hq Hu Hm. pose proof (session_wf h S) as W. destruct S as (WE & REG & _).
    pose proof (wf_heap_Inv E h W) as I. destruct W as [W1 W2].
    assert (Hs : nth_error (map skel h) q = Some (skel qo)) by (now rewrite nth_error_map, Hq).
    pose proof (getitem_ok E (map skel h) W1 WE REG fuel q k u (skel qo) Hm Hu Hs h I) as T.
    assert (Cch : forall v h', getitem E fuel q k h = (Ok v, h') ->
              forall v0, dget (o_cache qo) k = Some v0 -> v0 = v).
    { intros v h' Hg v0 Hv0. destruct fuel as [|fuel]; [lia|].
      rewrite (getitem_eq E _ _ _ _ _ Hq), Hv0 in Hg. congruence. }
    destruct (getitem E fuel q k h) as [[v|e|] h']; simpl in T.
    - destruct T as ((J & _) & _ & Cr). split.
      + intros v1 h1 [= <- <-]. split; [eapply correct_skel; [| |exact Cr]; reflexivity|].
        split; [eapply Cch; eauto|].
        intros b o Hb. destruct (skel_persists h h' J b o Hb) as (o' & H1 & H2).
        exists o'. split; auto. now injection H2.
      + eauto.
    - destruct T as (_ & _ & R). split; [discriminate|]. intro Rd. exfalso. apply R.
      assert (X : (forall o, In o h -> full_plan E o) ->
                  forall o, In o (map skel h) -> full_plan E o).
      { intros H o Ho. apply in_map_iff in Ho. destruct Ho as (o' & <- & Ho). exact (H o' Ho). }
      destruct u; simpl in *; auto; destruct Rd; split; auto.
    - destruct T as (_ & _ & []).
  Qed.

  Lemma session_parent h b o q :
    session E h -> nth_error h b = Some o -> o_parent o = Some q ->
    q < b /\ b < List.length h /\
    exists po flips, nth_error h q = Some po /\ o_flips o = Some flips /\
      labels (o_assign o) = labels (o_assign po) /\
      flows_spec (a_map (o_assign po)) flips (o_flows o) /\
      flipped (o_assign po) flips (o_assign o).
  Proof.
    intros S Ho Hq. destruct (session_wf h S) as [W _].
    destruct (W b (skel o)) as [_ Pq]; [now rewrite nth_error_map, Ho|].
    destruct (Pq q Hq) as (Hlt & po & flips & Hpo & St). split; auto. split.
    { apply nth_error_Some. congruence. }
    rewrite nth_error_map in Hpo. destruct (nth_error h q) as [po'|]; [|discriminate].
    injection Hpo as <-. destruct St as (S1 & S2 & S3 & S4 & _).
    exists po', flips. auto 8.
  Qed.

  (** All plans of a session have the same district labels. *)
  Lemma session_labels h : session E h ->
    exists ls, forall a o, nth_error h a = Some o -> labels (o_assign o) = ls.
  Proof.
    intros (WE & REG & d & h0 & ops & D & R & F & ->).
    induction ops as [|x ops IH] using rev_ind.
    - unfold root in R. destruct (first_time_assignment g d) as [A|e|]; try discriminate.
      injection R as <-. exists (labels A). intros [|a] o H; simpl in H.
      + injection H as <-. reflexivity.
      + destruct a; discriminate.
    - apply Forall_app in F. destruct F as [F Fx]. destruct (IH F) as [ls Hls].
      set (h := exec E ops h0) in *.
      assert (S : session E h).
      { split; auto. split; auto. exists d, h0, ops. auto. }
      unfold exec. rewrite fold_left_app. fold (exec E ops h0). fold h. simpl.
      exists ls. inversion Fx as [|? ? Hx _]; subst. destruct x as [a f|a k|a k p|a]; simpl.
      + destruct (flip_heap_cases E h a f) as [[-> _]|H]; auto.
        destruct H as (x & o' & Ea & Hf & P1 & _). rewrite Hf. simpl. intros b o Hb.
        pose proof (session_flip h a f S Hx) as S'. rewrite Hf in S'. simpl in S'.
        destruct (Nat.lt_ge_cases b (List.length h)) as [Hlt|Hge].
        * rewrite nth_error_app1 in Hb by auto. eauto.
        * rewrite nth_error_app2 in Hb by auto.
          destruct (b - List.length h) as [|m] eqn:Em; [|destruct m; discriminate].
          injection Hb as <-. assert (b = List.length h) by lia. subst b.
          assert (Ho' : nth_error (h ++ [o']) (List.length h) = Some o').
          { rewrite nth_error_app2, Nat.sub_diag by lia. reflexivity. }
          destruct (session_parent _ _ o' a S' Ho' P1) as (_ & _ & po & fl & Hpo & _ & Lb & _).
          rewrite Lb. rewrite nth_error_app1 in Hpo; [eauto|]. apply nth_error_Some. congruence.
      + intros b o Hb. destruct (read_spec E h a k WE REG (session_wf h S)) as (_ & Sk & _).
        destruct (skel_persists _ _ (eq_sym Sk) b o Hb) as (o' & H1 & H2).
        specialize (Hls b o' H1). rewrite <- Hls. unfold skel in H2. congruence.
      + intros b o Hb. destruct (look_spec E h a k p (session_wf h S)) as (_ & Sk & _).
        destruct (skel_persists _ _ (eq_sym Sk) b o Hb) as (o' & H1 & H2).
        specialize (Hls b o' H1). rewrite <- Hls. unfold skel in H2. congruence.
      + intros b o Hb. unfold erase in Hb. rewrite nth_set_nth in Hb.
        destruct (Nat.eqb_spec b a) as [->|]; [|eauto].
        destruct (nth_error h a) as [o'|] eqn:Eo; [|discriminate]. injection Hb as <-. simpl. eauto.
  Qed.

  (** ** The first read of a plan that still has its parent *)
  Definition num_res (r : res (dict P (num V))) : res (value N P V L) :=
    d <- r ;; Ok (VNum d).

  (** The value a plan gives its children. *)
  Lemma child_num h b o q po k u (step : dict P (num V) -> res (dict P (num V))) :
    session E h -> nth_error h b = Some o -> o_parent o = Some q -> nth_error h q = Some po ->
    dget (e_updaters E) k = Some u -> dget (o_cache o) k = None ->
    (forall v, correct E po u v -> exists d, v = VNum d) ->
    (forall rec, run E rec b o u = bindM (rec q k) (fun v => bindM (lift (as_num v)) (fun old =>
       bindM (lift (step old)) (fun d => ret (VNum d))))) ->
    (exists old, fst (getitem E (3 * List.length h) q k h) = Ok (VNum old) /\
       correct E po u (VNum old) /\
       (forall v0, dget (o_cache po) k = Some v0 -> v0 = VNum old) /\
       fst (read E b k h) = num_res (step old)) \/
    (exists e, fst (getitem E (3 * List.length h) q k h) = Err e /\ fst (read E b k h) = Err e).
  Proof.
    intros S Ho Hq Hpo Hu Hc Hnum Hrun.
    destruct (session_parent h b o q S Ho Hq) as (Hlt & Hlen & _).
    assert (Hm : measure q u < 3 * List.length h).
    { unfold measure. pose proof (rank_le u). lia. }
    destruct (nested h _ q po k u S Hpo Hu Hm) as [H1 _].
    assert (NF : fst (getitem E (3 * List.length h) q k h) <> NoFuel).
    { pose proof (session_wf h S) as W. destruct S as (WE & REG & _).
      pose proof (wf_heap_Inv E h W) as I. destruct W as [W1 W2].
      assert (Hs : nth_error (map skel h) q = Some (skel po)) by (now rewrite nth_error_map, Hpo).
      pose proof (getitem_ok E (map skel h) W1 WE REG _ q k u (skel po) Hm Hu Hs h I) as (_ & _ & T).
      destruct (fst (getitem E (3 * List.length h) q k h)); try discriminate. destruct T. }
    rewrite (read_first h b o k u Ho Hc Hu), Hrun, fst_bindM.
    destruct (getitem E (3 * List.length h) q k h) as [[v|e|] h'] eqn:Eg.
    - left. destruct (H1 v h' eq_refl) as (Cr & Cc & _). destruct (Hnum v Cr) as [old ->].
      exists old. split; auto. split; auto. split; auto.
      rewrite fst_bindM. simpl. unfold bindM, lift, num_res. simpl.
      destruct (step old); reflexivity.
    - right. exists e. auto.
    - now elim NF.
  Qed.

  (** ** First tallies, NaN included *)
  Lemma scratch_tally_nan A (data : N -> num V) (w : N -> res (num V)) d (v : N -> V) :
    coherent (g_nodes g) A -> scratch_tally A w = Ok d ->
    (forall n, In n (g_nodes g) -> w n = Ok (data n)) ->
    (forall n, data n <> NaN -> data n = Num (v n)) ->
    (forall p x, dget d p = Some x -> exists y, x = Num y /\
        sums_to v (fun n => member g A p n /\ data n <> NaN) y) /\
    (forall p, In p (dkeys d) <-> exists n, member g A p n /\ data n <> NaN).
  Proof.
    intros C H Hw Hv. unfold scratch_tally in H.
    match type of H with foldM ?f _ _ = _ => set (F := f) in H end.
    assert (G : forall pre d, foldM F pre [] = Ok d -> NoDup (dkeys pre) ->
      (forall n p, In (n, p) pre -> In n (g_nodes g)) ->
        (forall p x, dget d p = Some x -> exists y, x = Num y /\
            sums_to v (fun n => In (n, p) pre /\ data n <> NaN) y) /\
        (forall p, In p (dkeys d) <-> exists n, In (n, p) pre /\ data n <> NaN)).
    { clear H d. induction pre as [|[n p] pre IH] using rev_ind; intros d H ND Hd.
      - injection H as <-. split; [discriminate|]. intros p. split; [intros []|intros (n & [] & _)].
      - rewrite foldM_app in H. destruct (foldM F pre []) as [d0| |] eqn:E0; simpl in H;
          try discriminate.
        assert (ND' : NoDup (dkeys pre) /\ ~ In n (dkeys pre)).
        { unfold dkeys in ND. rewrite map_app in ND. simpl in ND.
          apply NoDup_remove in ND. rewrite app_nil_r in ND. exact ND. }
        destruct ND' as [ND1 NI].
        destruct (IH d0 eq_refl ND1) as (S1 & S2).
        { intros n' p' H'. apply (Hd n' p'). apply in_or_app. auto. }
        assert (Nn : In n (g_nodes g)).
        { apply (Hd n p). apply in_or_app. simpl. auto. }
        assert (NIp : forall q, ~ In (n, q) pre).
        { intros q Hc. apply NI. change n with (fst (n, q)). now apply in_map. }
        unfold F in H at 1. simpl in H. rewrite (Hw n Nn) in H. simpl in H.
        destruct (data n) as [x|] eqn:Dx; simpl in H; injection H as <-.
        + assert (Dn : data n <> NaN) by congruence.
          assert (Vx : x = v n) by (specialize (Hv n Dn); congruence). subst x. split.
          * intros q x. rewrite dget_dset. destruct (eqb_spec q p) as [->|Nq].
            -- intros [= <-]. unfold dget_or.
               assert (Ext : forall z, (In (z, p) (pre ++ [(n, p)]) /\ data z <> NaN) <->
                             (In (z, p) pre /\ data z <> NaN) \/ z = n).
               { intro z. rewrite in_app_iff. simpl. split.
                 - intros [[|[[= ->]|[]]] Hz]; auto.
                 - intros [[] | ->]; auto. }
               destruct (dget d0 p) as [x0|] eqn:Ex0.
               ++ destruct (S1 p x0 Ex0) as (y & -> & Sy). exists (cadd y (v n)). split; auto.
                  eapply sums_to_add; [exact Sy| |exact Ext]. intros [Hc _]. now apply (NIp p).
               ++ exists (cadd c0 (v n)). split; auto.
                  eapply sums_to_add with (Pr := fun z => In (z, p) pre /\ data z <> NaN);
                    [| |exact Ext].
                  ** apply sums_to_empty. intros z Hz.
                     assert (In p (dkeys d0)) as Hk by (apply S2; eauto). apply dget_key in Hk.
                     destruct Hk; congruence.
                  ** intros [Hc _]. now apply (NIp p).
            -- intro Hx. destruct (S1 q x Hx) as (y & -> & Sy). exists y. split; auto.
               eapply sums_to_ext; [|exact Sy]. intro z. rewrite in_app_iff. simpl. split.
               ++ intros [? ?]; auto.
               ++ intros [[|[[= -> ->]|[]]] ?]; auto. congruence.
          * intros q. rewrite In_dkeys_dset, S2. split.
            -- intros [->|(z & Hz & Dz)].
               ++ exists n. rewrite in_app_iff. simpl. auto.
               ++ exists z. rewrite in_app_iff. auto.
            -- intros (z & Hz & Dz). rewrite in_app_iff in Hz. simpl in Hz.
               destruct Hz as [Hz|[[= -> ->]|[]]]; eauto.
        + split.
          * intros q x Hx. destruct (S1 q x Hx) as (y & -> & Sy). exists y. split; auto.
            eapply sums_to_ext; [|exact Sy]. intro z. rewrite in_app_iff. simpl. split.
            -- intros [? ?]; auto.
            -- intros [[|[[= -> ->]|[]]] ?]; auto. congruence.
          * intros q. rewrite S2. split; intros (z & Hz & Dz); exists z; split; auto.
            -- apply in_or_app. auto.
            -- apply in_app_or in Hz. destruct Hz as [|[[= -> ->]|[]]]; auto. congruence. }
    destruct (G (a_map A) d H (coh_map_keys _ _ C)) as (S1 & S2).
    { intros n p Hp. apply (coh_dom _ _ C). change n with (fst (n, p)). now apply in_map. }
    assert (Mb : forall n p, In (n, p) (a_map A) <-> member g A p n).
    { intros n p. unfold member, district. rewrite (dget_iff _ n p (coh_map_keys _ _ C)).
      split; [|tauto]. intro Hn. split; auto. apply (coh_dom _ _ C).
      change n with (fst (n, p)). now apply in_map. }
    split.
    - intros p x Hx. destruct (S1 p x Hx) as (y & -> & Sy). exists y. split; auto.
      eapply sums_to_ext; [|exact Sy]. intro n. simpl. rewrite Mb. tauto.
    - intro p. rewrite S2. split; intros (n & Hn & Dn); exists n; (split; [now apply Mb|auto]).
  Qed.

  (** ** Missing entries *)
  Definition ok_or_key {X} (r : res X) : Prop := (exists x, r = Ok x) \/ r = Err KeyError.

  Lemma mapM_key {X} (f : X -> option (num V)) l :
    ok_or_key (mapM (fun n => of_option KeyError (f n)) l).
  Proof.
    unfold ok_or_key. induction l as [|n l IH]; simpl; eauto.
    destruct (f n); simpl; auto. destruct IH as [(xs & ->)| ->]; simpl; eauto.
  Qed.

  Lemma flow_sum_key fields ns : ok_or_key (flow_sum E fields ns).
  Proof.
    unfold flow_sum.
    destruct (mapM_key (fun nf => e_attr E (snd nf) (fst nf))
                (flat_map (fun n => map (fun f => (n, f)) fields) ns)) as [(xs & Hx)|Hx];
      rewrite Hx; simpl; [left; eauto|now right].
  Qed.

  Lemma foldM_dset_key {X W} (F : P * X -> res W) (fl : dict P X) : forall old,
    (forall pf, In pf fl -> ok_or_key (F pf)) ->
    (exists pf, In pf fl /\ F pf = Err KeyError) ->
    foldM (fun d pf => x <- F pf ;; Ok (dset d (fst pf) x)) fl old = Err KeyError.
  Proof.
    induction fl as [|pf fl IH]; intros old H (pf0 & Hin & He); [destruct Hin|]. simpl.
    destruct (H pf (or_introl eq_refl)) as [(x & Hx)|Hx]; rewrite Hx; simpl; auto.
    apply IH.
    - intros pf' Hp. apply H. now right.
    - destruct Hin as [->|Hin]; [congruence|eauto].
  Qed.

  Lemma tally_step_missing fields fl old p f :
    In (p, f) fl -> dget old p = None -> tally_step E fields fl old = Err KeyError.
  Proof.
    intros Hf Hn.
    rewrite <- (foldM_dset_key (fun pf : P * flow N =>
       out <- flow_sum E fields (f_out (snd pf)) ;;
       inn <- flow_sum E fields (f_in (snd pf)) ;;
       prev <- of_option KeyError (dget old (fst pf)) ;;
       Ok (nadd (nsub prev out) inn)) fl old).
    - unfold tally_step. apply foldM_ext. intros b pf _.
      destruct (flow_sum E fields (f_out (snd pf))); simpl; auto.
      destruct (flow_sum E fields (f_in (snd pf))); simpl; auto.
      destruct (dget old (fst pf)); simpl; auto.
    - intros pf _. destruct (flow_sum_key fields (f_out (snd pf))) as [(x & ->)| ->]; simpl; [|now right].
      destruct (flow_sum_key fields (f_in (snd pf))) as [(y & ->)| ->]; simpl; [|now right].
      destruct (dget old (fst pf)); simpl; [left; eauto|now right].
    - exists (p, f). split; auto. simpl.
      destruct (flow_sum_key fields (f_out f)) as [(x & ->)| ->]; simpl; auto.
      destruct (flow_sum_key fields (f_in f)) as [(y & ->)| ->]; simpl; auto.
      now rewrite Hn.
  Qed.

  Lemma data_step_missing (data : N -> option (num V)) (fl : dict P (flow N)) (old : dict P (num V)) p f :
    In (p, f) fl -> dget old p = None -> data_step data fl old = Err KeyError.
  Proof.
    intros Hf Hn.
    rewrite <- (foldM_dset_key (fun pf : P * flow N =>
       prev <- of_option KeyError (dget old (fst pf)) ;;
       inn <- mapM (fun n => of_option KeyError (data n)) (f_in (snd pf)) ;;
       out <- mapM (fun n => of_option KeyError (data n)) (f_out (snd pf)) ;;
       Ok (nsub (nadd prev (nsum inn)) (nsum out))) fl old).
    - unfold data_step. apply foldM_ext. intros b pf _.
      destruct (dget old (fst pf)); simpl; auto.
      destruct (mapM (fun n => of_option KeyError (data n)) (f_in (snd pf))); simpl; auto.
      destruct (mapM (fun n => of_option KeyError (data n)) (f_out (snd pf))); simpl; auto.
    - intros pf _. destruct (dget old (fst pf)); simpl; [|now right].
      destruct (mapM_key data (f_in (snd pf))) as [(x & ->)| ->]; simpl; [|now right].
      destruct (mapM_key data (f_out (snd pf))) as [(y & ->)| ->]; simpl; [left; eauto|now right].
    - exists (p, f). split; auto. simpl. now rewrite Hn.
  Qed.

  (** ** NaN is contagious *)
  Lemma fold_nadd_NaN l : fold_left nadd l (@NaN V) = NaN.
  Proof. induction l as [|x l IH]; simpl; auto. Qed.
  Lemma nsum_NaN l : In NaN l -> nsum l = @NaN V.
  Proof.
    unfold nsum. generalize (Num (@c0 V RV)). induction l as [|x l IH]; simpl; intros y []; subst.
    - destruct y; apply fold_nadd_NaN.
    - auto.
  Qed.
  Lemma nadd_NaN_r (x : num V) : nadd x NaN = NaN.
  Proof. destruct x; reflexivity. Qed.
  Lemma nsub_NaN_r (x : num V) : nsub x NaN = NaN.
  Proof. destruct x; reflexivity. Qed.

  Lemma mapM_NaN {X} (f : X -> option (num V)) l xs n :
    In n l -> f n = Some NaN -> mapM (fun n => of_option KeyError (f n)) l = Ok xs -> nsum xs = NaN.
  Proof.
    intros Hn Hf H. apply nsum_NaN. revert xs H. induction l as [|m l IH]; intros xs H; [destruct Hn|].
    simpl in H. destruct (f m) as [x|] eqn:Em; simpl in H; [|discriminate].
    destruct (mapM (fun n => of_option KeyError (f n)) l) as [ys| |] eqn:El; simpl in H; try discriminate.
    injection H as <-. destruct Hn as [->|Hn]; [left; congruence|right; auto].
  Qed.

  Lemma flow_sum_NaN fields ns n f x :
    In n ns -> In f fields -> e_attr E f n = Some NaN -> flow_sum E fields ns = Ok x -> x = NaN.
  Proof.
    intros Hn Hf He H. unfold flow_sum in H. apply bind_Ok in H. destruct H as (xs & Hx & [= <-]).
    refine (mapM_NaN (fun nf => e_attr E (snd nf) (fst nf)) _ xs (n, f) _ He Hx).
    apply in_flat_map. exists n. split; auto. apply in_map_iff. eauto.
  Qed.

  Lemma tally_step_nan fields fl old d p fw n f :
    NoDup (dkeys fl) -> In (p, fw) fl -> In n (f_in fw) \/ In n (f_out fw) ->
    In f fields -> e_attr E f n = Some NaN ->
    tally_step E fields fl old = Ok d -> dget d p = Some NaN.
  Proof.
    intros ND Hp Hn Hf He H.
    set (F := fun pf : P * flow N =>
       out <- flow_sum E fields (f_out (snd pf)) ;;
       inn <- flow_sum E fields (f_in (snd pf)) ;;
       prev <- of_option KeyError (dget old (fst pf)) ;;
       Ok (nadd (nsub prev out) inn)).
    assert (H' : foldM (fun d pf => x <- F pf ;; Ok (dset d (fst pf) x)) fl old = Ok d).
    { rewrite <- H. apply foldM_ext. intros b pf _. unfold F.
      destruct (flow_sum E fields (f_out (snd pf))); simpl; auto.
      destruct (flow_sum E fields (f_in (snd pf))); simpl; auto.
      destruct (dget old (fst pf)); simpl; auto. }
    destruct (foldM_dset F fl old d ND H') as (D1 & _).
    destruct (D1 p fw Hp) as (x & Hx & ->). f_equal. unfold F in Hx. simpl in Hx.
    apply bind_Ok in Hx. destruct Hx as (out & Ho & Hx).
    apply bind_Ok in Hx. destruct Hx as (inn & Hi & Hx).
    apply bind_Ok in Hx. destruct Hx as (prev & _ & [= <-]).
    destruct Hn as [Hn|Hn].
    - rewrite (flow_sum_NaN fields _ n f inn Hn Hf He Hi). apply nadd_NaN_r.
    - rewrite (flow_sum_NaN fields _ n f out Hn Hf He Ho). now rewrite nsub_NaN_r.
  Qed.

  Lemma data_step_nan (data : N -> option (num V)) (fl : dict P (flow N)) (old : dict P (num V)) d p fw n :
    NoDup (dkeys fl) -> In (p, fw) fl -> In n (f_in fw) \/ In n (f_out fw) ->
    data n = Some NaN ->
    data_step data fl old = Ok d -> dget d p = Some NaN.
  Proof.
    intros ND Hp Hn He H.
    set (F := fun pf : P * flow N =>
       prev <- of_option KeyError (dget old (fst pf)) ;;
       inn <- mapM (fun n => of_option KeyError (data n)) (f_in (snd pf)) ;;
       out <- mapM (fun n => of_option KeyError (data n)) (f_out (snd pf)) ;;
       Ok (nsub (nadd prev (nsum inn)) (nsum out))).
    assert (H' : foldM (fun d pf => x <- F pf ;; Ok (dset d (fst pf) x)) fl old = Ok d).
    { rewrite <- H. apply foldM_ext. intros b pf _. unfold F.
      destruct (dget old (fst pf)); simpl; auto.
      destruct (mapM (fun n => of_option KeyError (data n)) (f_in (snd pf))); simpl; auto.
      destruct (mapM (fun n => of_option KeyError (data n)) (f_out (snd pf))); simpl; auto. }
    destruct (foldM_dset F fl old d ND H') as (D1 & _).
    destruct (D1 p fw Hp) as (x & Hx & ->). f_equal. unfold F in Hx. simpl in Hx.
    apply bind_Ok in Hx. destruct Hx as (prev & _ & Hx).
    apply bind_Ok in Hx. destruct Hx as (inn & Hi & Hx).
    apply bind_Ok in Hx. destruct Hx as (out & Ho & [= <-]).
    destruct Hn as [Hn|Hn].
    - rewrite (mapM_NaN data _ inn n Hn He Hi). now rewrite nadd_NaN_r.
    - rewrite (mapM_NaN data _ out n Hn He Ho). apply nsub_NaN_r.
  Qed.

  (** ** Which districts flow *)
  Lemma moved_flows A flips (fl : dict P (flow N)) n p q :
    flows_spec (a_map A) flips fl -> district A n = Some p -> dget flips n = Some q -> p <> q ->
    (exists f, In (q, f) fl /\ In n (f_in f)) /\ (exists f, In (p, f) fl /\ In n (f_out f)).
  Proof.
    intros FS Hp Hq Hne.
    assert (Hin : In n (inset fl q)) by (apply (fs_in _ _ _ FS); split; auto; unfold district in Hp; congruence).
    assert (Hout : In n (outset fl p)).
    { apply (fs_out _ _ _ FS). split; auto. exists q. auto. }
    pose proof (fs_wf _ _ _ FS) as W. split.
    - assert (K : In q (dkeys fl)) by (apply (wff_live _ W); eauto).
      apply dget_key in K. destruct K as [f Hf]. apply dget_In in Hf. exists f. split; auto.
      destruct (In_fl_inset fl q f (wff_keys _ W) Hf) as [Ei _]. now rewrite <- Ei.
    - assert (K : In p (dkeys fl)) by (apply (wff_live _ W); eauto).
      apply dget_key in K. destruct K as [f Hf]. apply dget_In in Hf. exists f. split; auto.
      destruct (In_fl_inset fl p f (wff_keys _ W) Hf) as [_ Eo]. now rewrite <- Eo.
  Qed.

  (** ** Counties *)
  Lemma county_flag A (county : N -> option L) c i :
    coherent (g_nodes g) A -> county_ok g A county c i ->
    (ci_split i = NotSplit <-> ~ county_is_split g A county c).
  Proof.
    intros C (K1 & _ & _ & K2). rewrite K2. split.
    - intros H (m & n & Hm & Hn & Cm & Cn & Hd). apply Hd.
      assert (D : forall x, In x (g_nodes g) -> exists p, district A x = Some p).
      { intros x Hx. apply (coh_dom _ _ C) in Hx. apply dget_key in Hx. exact Hx. }
      destruct (D m Hm) as [p Hp], (D n Hn) as [q Hq]. rewrite Hp, Hq. f_equal.
      apply H; [exists m|exists n]; split; auto; apply K1; auto.
    - intros H p q (m & Hm & Dm) (n & Hn & Dn). apply K1 in Hm, Hn.
      destruct (eq_dec_of p q) as [|Ne]; auto. exfalso. apply H. exists m, n.
      destruct Hm, Hn. repeat (split; [assumption|]). rewrite Dm, Dn. congruence.
  Qed.

  Lemma child_county h b o q po k field :
    session E h -> nth_error h b = Some o -> o_parent o = Some q -> nth_error h q = Some po ->
    dget (e_updaters E) k = Some (UCounty field k) -> dget (o_cache o) k = None ->
    forall v, fst (read E b k h) = Ok v ->
    exists old d, v = VCounty d /\
      (forall v0, dget (o_cache po) k = Some v0 -> v0 = VCounty old) /\
      correct E po (UCounty field k) (VCounty old) /\
      forall c i', dget d c = Some i' ->
        exists i, dget old c = Some i /\ county_step (o_assign o) i = Ok i'.
  Proof.
    intros S Ho Hq Hpo Hu Hc v Hv.
    destruct (session_parent h b o q S Ho Hq) as (Hlt & Hlen & po' & flips & Hpo' & _ & HL & _).
    assert (po' = po) by congruence. subst po'.
    assert (Hm : measure q (UCounty field k : updater N P V L) < 3 * List.length h).
    { unfold measure. simpl. lia. }
    destruct (nested h _ q po k _ S Hpo Hu Hm) as [H1 Hr].
    pose proof (session_coherent h b o S Ho) as C.
    rewrite (read_first h b o k _ Ho Hc Hu) in Hv. simpl in Hv.
    rewrite fst_bindM in Hv. unfold truthy_parent in Hv. rewrite Hq in Hv.
    unfold bindM at 1 in Hv. unfold get_obj in Hv. rewrite Hpo in Hv.
    destruct (a_parts (o_assign po)) as [|ps rest] eqn:Eps.
    - (* a plan without districts: the graph has no nodes *)
      assert (G0 : g_nodes g = []).
      { destruct (g_nodes g) as [|n ns] eqn:En; auto. exfalso.
        assert (Hn : In n (g_nodes g)) by (rewrite En; now left).
        rewrite <- En in C. apply (coh_dom _ _ C) in Hn. apply dget_key in Hn. destruct Hn as [p Hp].
        destruct (district_node g (o_assign o) n p C Hp) as [_ Lp].
        rewrite HL in Lp. unfold labels in Lp. rewrite Eps in Lp. destruct Lp. }
      simpl in Hv. unfold bindM, lift in Hv. unfold scratch_county in Hv. rewrite G0 in Hv.
      simpl in Hv. injection Hv as <-.
      destruct Hr as (v0 & h0 & Hg).
      { simpl. rewrite G0. intros n []. }
      destruct (H1 v0 h0 Hg) as (Cr & Cc & _). destruct Cr as (old & -> & Cr).
      exists old, []. split; auto. split; auto. split; [exists old; auto|]. discriminate.
    - simpl in Hv. rewrite fst_bindM in Hv.
      change (List.length h + (List.length h + (List.length h + 0))) with (3 * List.length h) in Hv.
      destruct (getitem E (3 * List.length h) q k h) as [[v0|e|] h0] eqn:Eg; try discriminate.
      destruct (H1 v0 h0 eq_refl) as (Cr & Cc & _). pose proof Cr as Cr'.
      destruct Cr as (old & -> & _).
      rewrite fst_bindM in Hv. simpl in Hv. unfold bindM, lift in Hv.
      destruct (county_update (o_assign o) old) as [d|e|] eqn:Ed; simpl in Hv; try discriminate.
      injection Hv as <-. exists old, d. split; auto. split; auto. split; auto.
      exact (proj2 (county_update_get _ _ _ Ed)).
  Qed.

  (** ** Totals *)
  Lemma tally_total A (w : N -> V) d :
    NoDup (g_nodes g) -> coherent (g_nodes g) A -> NoDup (dkeys d) -> tally_ok g A w d ->
    nsum (dvals d) = Num (vsum (map w (g_nodes g))).
  Proof.
    intros NDn C ND [T1 T2].
    assert (Gen : forall (d0 : dict P (num V)) (S : list N), NoDup (dkeys d0) -> NoDup S ->
      incl S (g_nodes g) ->
      (forall p x, dget d0 p = Some x -> exists y, x = Num y /\ sums_to w (member g A p) y) ->
      (forall n, In n S <-> In n (g_nodes g) /\ exists p, In p (dkeys d0) /\ district A n = Some p) ->
      nsum (dvals d0) = Num (vsum (map w S))).
    { induction d0 as [|[p x] d0 IH]; intros S ND0 NDS Inc H1 H2.
      - destruct S as [|n S]; [reflexivity|]. exfalso.
        destruct (proj1 (H2 n) (or_introl eq_refl)) as (_ & p & [] & _).
      - inversion ND0 as [|? ? Np ND0']; subst.
        set (S1 := filter (fun n => negb (eqb (district A n) (Some p))) S).
        set (S2 := filter (fun n => eqb (district A n) (Some p)) S).
        assert (IH' : nsum (dvals d0) = Num (vsum (map w S1))).
        { apply IH; auto.
          - now apply NoDup_filter.
          - intros n Hn. apply filter_In in Hn. apply Inc. tauto.
          - intros q y Hy. apply H1. simpl. destruct (eqb_spec q p) as [->|]; auto.
            exfalso. apply Np. eapply dget_Some_key; eauto.
          - intro n. unfold S1. rewrite filter_In, H2, negb_true_iff, eqb_neq. simpl. split.
            + intros [[Hn (q & [<-|Hq] & Hd)] Hne]; [congruence|]. split; auto. eauto.
            + intros [Hn (q & Hq & Hd)]. split; [split; auto; eauto|]. rewrite Hd. intros [= ->].
              now apply Np. }
        destruct (H1 p x) as (y & -> & Sy).
        { simpl. now rewrite eqb_refl. }
        assert (Ey : y = vsum (map w S2)).
        { eapply sums_to_fun; [exact Sy|]. exists S2. split; [now apply NoDup_filter|]. split; auto.
          intro n. unfold S2. rewrite filter_In, H2, eqb_eq. unfold member. simpl. split.
          - tauto.
          - intros [Hn Hd]. split; auto. split; auto. exists p. auto. }
        assert (Es : vsum (map w S) = cadd (vsum (map w S2)) (vsum (map w S1))).
        { rewrite <- vsum_app, <- map_app. apply vsum_same; auto.
          - apply NoDup_app_iff. split; [now apply NoDup_filter|]. split; [now apply NoDup_filter|].
            intros n Ha Hb. unfold S1, S2 in *. rewrite filter_In in Ha, Hb.
              destruct Ha as [_ Ha], Hb as [_ Hb]. rewrite Ha in Hb. discriminate.
          - intro n. rewrite in_app_iff. unfold S1, S2. rewrite !filter_In.
            destruct (eqb (district A n) (Some p)); simpl; intuition congruence. }
        rewrite Es, <- Ey. unfold dvals in *. simpl.
        assert (Nm : exists vs, map snd d0 = map Num vs).
        { clear - H1 Np ND0'. assert (K : forall q z, In (q, z) d0 -> exists y, z = Num y).
          { intros q z Hz. destruct (H1 q z) as (y0 & -> & _); eauto.
            simpl. destruct (eqb_spec q p) as [->|].
            - exfalso. apply Np. change p with (fst (p, z)). now apply in_map.
            - now apply In_dget. }
          clear H1 Np ND0'. induction d0 as [|[q z] d0 IH]; [exists []; auto|].
          destruct IH as (vs & Hvs); [intros; eapply K; right; eauto|].
          destruct (K q z (or_introl eq_refl)) as (y0 & ->). exists (y0 :: vs). simpl. now rewrite Hvs. }
        destruct Nm as (vs & Hvs). rewrite Hvs in *. rewrite nsum_Num in IH'. injection IH' as IH'.
        change (Num y :: map Num vs) with (map (@Num V) (y :: vs)). rewrite nsum_Num, vsum_cons.
        now rewrite IH'. }
    apply (Gen d (g_nodes g)); auto.
    - intros n Hn; exact Hn.
    - intro n. split; [|tauto]. intro Hn. split; auto.
      destruct (dget (a_map A) n) as [p|] eqn:Ep.
      + exists p. split; auto. apply (T2 p n). split; auto.
      + exfalso. apply dget_None in Ep. apply Ep. now apply (coh_dom _ _ C).
  Qed.
End Answers.
