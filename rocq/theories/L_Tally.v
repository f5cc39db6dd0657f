(** Lemmas about tallies, boundaries, county splits and elections. *)
From Coq Require Import String List Bool Arith Ring_theory Ring Permutation Lia.
From Verif Require Import Base M_Graph M_Partition S_Partition L_Partition
  M_Machine S_Machine L_Sums L_Cuts.
Import ListNotations.
Local Open Scope list_scope.

Section Flow.
  Context {N P : Type} {EN : EqB N} {EP : EqB P}.
  Implicit Types (A : assignment N P) (g : graph N).

  (** How membership in a district changes. *)
  Lemma member_change g A flips A' fl :
    coherent (g_nodes g) A -> flows_spec (a_map A) flips fl -> flipped A flips A' ->
    forall p,
      (forall n, In n (outset fl p) -> member g A p n) /\
      (forall n, In n (inset fl p) -> ~ member g A p n /\ In n (g_nodes g)) /\
      (forall n, member g A' p n <-> (member g A p n /\ ~ In n (outset fl p)) \/ In n (inset fl p)).
  Proof.
    intros C [W D I O] F p. split; [|split].
    - intros n H. apply O in H. destruct H as [H _]. split; auto.
      eapply district_node; eauto.
    - intros n H. apply I in H. destruct H as [H1 H2]. split.
      + intros [_ H3]. apply H2. exact H3.
      + apply (coh_dom _ _ C). apply D. eapply dget_Some_key; eauto.
    - intro n. unfold member. rewrite F. unfold overridden. rewrite I, O.
      unfold district. split.
      + intros [Hn Hd]. destruct (dget flips n) as [t|] eqn:Et.
        * injection Hd as ->. destruct (eqb_spec (dget (a_map A) n) (Some p)) as [E|E]; auto.
          left. split; auto. intros (_ & t & H1 & H2). congruence.
        * left. split; auto. intros (_ & t & H1 & H2). congruence.
      + intros [[[Hn Hd] Ho]|[H1 H2]].
        * split; auto. destruct (dget flips n) as [t|] eqn:Et; auto.
          destruct (eqb_spec t p) as [->|Ne]; auto. exfalso. apply Ho. eauto.
        * rewrite H1. split; auto. apply (coh_dom _ _ C). apply D. eapply dget_Some_key; eauto.
  Qed.

  Lemma flow_labels g A flips A' fl :
    coherent (g_nodes g) A -> coherent (g_nodes g) A' ->
    labels A' = labels A ->
    flows_spec (a_map A) flips fl -> flipped A flips A' ->
    incl (dkeys fl) (labels A).
  Proof.
    intros C C' L FS F p Hp. pose proof FS as [W D I O].
    apply (wff_live _ W) in Hp. destruct Hp as (n & [H|H]).
    - destruct (member_change g A flips A' fl C FS F p) as (_ & _ & M).
      assert (member g A' p n) as [_ Hm] by (apply M; auto).
      rewrite <- L. eapply district_node; eauto.
    - apply O in H. destruct H as [H _]. eapply (district_node g A); eauto.
  Qed.
End Flow.

Section Tally.
  Context {N P V L : Type} {EN : EqB N} {EP : EqB P} {EL : EqB L} {ON : Ord N} {RV : CRing V}.
  Add Ring VR2 : (@cring V RV).
  Variable E : env N P V L.
  Notation g := (e_graph E).
  Implicit Types (A : assignment N P).

  (** ** From scratch *)

  Lemma scratch_tally_spec A (w : N -> res (num V)) d :
    coherent (g_nodes g) A -> scratch_tally A w = Ok d ->
    NoDup (dkeys d) /\ incl (dkeys d) (labels A) /\
    forall v, (forall n, In n (g_nodes g) -> w n = Ok (Num (v n))) -> tally_ok g A v d.
  Proof.
    intros C H. unfold scratch_tally in H.
    match type of H with foldM ?f _ _ = _ => set (F := f) in H end.
    assert (G : forall pre d, foldM F pre [] = Ok d -> NoDup (dkeys pre) ->
      (forall n p, In (n, p) pre -> district A n = Some p) ->
      NoDup (dkeys d) /\ incl (dkeys d) (labels A) /\
      forall v, (forall n, In n (g_nodes g) -> w n = Ok (Num (v n))) ->
        (forall p x, dget d p = Some x -> exists y, x = Num y /\
            sums_to v (fun n => In (n, p) pre) y) /\
        (forall p n, In (n, p) pre -> In p (dkeys d))).
    { clear H d. induction pre as [|[n p] pre IH] using rev_ind; intros d H ND Hd.
      - injection H as <-. split; [constructor|]. split; [intros x []|].
        intros v Hv. split; [discriminate|]. intros p n [].
      - rewrite foldM_app in H. destruct (foldM F pre []) as [d0| |] eqn:E0; simpl in H;
          try discriminate.
        assert (ND' : NoDup (dkeys pre) /\ ~ In n (dkeys pre)).
        { unfold dkeys in ND. rewrite map_app in ND. simpl in ND.
          apply NoDup_remove in ND. rewrite app_nil_r in ND. exact ND. }
        destruct ND' as [ND1 NI].
        destruct (IH d0 eq_refl ND1) as (K & Li & S).
        { intros n' p' H'. apply Hd. apply in_or_app. auto. }
        assert (Dn : district A n = Some p).
        { apply Hd. apply in_or_app. simpl. auto. }
        destruct (district_node g A n p C Dn) as [Nn Lp].
        unfold F in H at 1. simpl in H. destruct (w n) as [x| |] eqn:Ew; simpl in H; try discriminate.
        destruct x as [x|]; simpl in H; injection H as <-.
        + split; [now apply NoDup_dset|]. split.
          { intros q Hq. apply In_dkeys_dset in Hq. destruct Hq as [->|Hq]; auto. }
          intros v Hv. destruct (S v Hv) as [S1 S2].
          rewrite (Hv n Nn) in Ew. injection Ew as <-. split.
          * intros q x. rewrite dget_dset. destruct (eqb_spec q p) as [->|Nq].
            -- intros [= <-]. unfold dget_or. destruct (dget d0 p) as [x0|] eqn:Ex0.
               ++ destruct (S1 p x0 Ex0) as (y & -> & Sy). exists (cadd y (v n)). split; auto.
                  eapply sums_to_add; eauto.
                  ** intro Hc. apply NI. change n with (fst (n, p)). now apply in_map.
                  ** intro z. rewrite in_app_iff. simpl. split.
                     --- intros [|[[= ->]|[]]]; auto.
                     --- intros [| ->]; auto.
               ++ exists (cadd c0 (v n)). split; auto.
                  eapply sums_to_add with (Pr := fun z => In (z, p) pre).
                  ** apply sums_to_empty. intros z Hz. apply S2 in Hz. apply dget_key in Hz.
                     destruct Hz; congruence.
                  ** intro Hc. apply NI. change n with (fst (n, p)). now apply in_map.
                  ** intro z. rewrite in_app_iff. simpl. split.
                     --- intros [|[[= ->]|[]]]; auto.
                     --- intros [| ->]; auto.
            -- intro Hx. destruct (S1 q x Hx) as (y & -> & Sy). exists y. split; auto.
               eapply sums_to_ext; [|exact Sy]. intro z. rewrite in_app_iff. simpl. split; auto.
               intros [|[[= -> ->]|[]]]; congruence.
          * intros q z. rewrite in_app_iff, In_dkeys_dset. simpl.
            intros [Hz|[[= <- <-]|[]]]; eauto.
        + split; auto. split; auto. intros v Hv. rewrite (Hv n Nn) in Ew. discriminate. }
    destruct (G (a_map A) d H (coh_map_keys _ _ C)) as (K & Li & S).
    { intros n p Hp. apply In_dget; auto. apply C. }
    split; auto. split; auto. intros v Hv. destruct (S v Hv) as [S1 S2]. split.
    - intros p x Hx. destruct (S1 p x Hx) as (y & -> & Sy). exists y. split; auto.
      eapply sums_to_ext; [|exact Sy]. intro n. unfold member. simpl.
      rewrite <- (dget_iff _ n p (coh_map_keys _ _ C)). split; [|tauto].
      intro Hn. split; auto. exact (proj1 (district_node g A n p C Hn)).
    - intros p n [_ Hn]. apply (S2 p n). apply dget_In. exact Hn.
  Qed.

  Lemma scratch_tally_ok A (w : N -> res (num V)) :
    coherent (g_nodes g) A -> (forall n, In n (g_nodes g) -> exists x, w n = Ok x) ->
    exists d, scratch_tally A w = Ok d.
  Proof.
    intros C H. unfold scratch_tally. apply foldM_progress with (Inv := fun _ _ => True); auto.
    intros pre [n p] acc _ Hn. simpl.
    destruct (H n) as [x ->].
    - apply (coh_dom _ _ C). change n with (fst (n, p)). now apply in_map.
    - simpl. eauto.
  Qed.

  Lemma mapM_data (data : N -> option (num V)) (v : N -> V) ns :
    data_is g data v -> incl ns (g_nodes g) ->
    mapM (fun n => of_option KeyError (data n)) ns = Ok (map Num (map v ns)).
  Proof.
    intros D H. rewrite map_map. apply mapM_all_Ok. intros n Hn.
    rewrite (D n) by auto. reflexivity.
  Qed.

  Definition fields_val (w : string -> N -> V) (fields : list string) (n : N) : V :=
    vsum (map (fun f => w f n) fields).

  Lemma field_sum_num fields w n :
    (forall f, In f fields -> data_is g (e_attr E f) (w f)) -> In n (g_nodes g) ->
    field_sum E fields n = Ok (Num (fields_val w fields n)).
  Proof.
    intros D Hn. unfold field_sum.
    rewrite mapM_all_Ok with (g := fun f => Num (w f n)).
    - simpl. unfold fields_val. rewrite <- nsum_Num, map_map. reflexivity.
    - intros f Hf. rewrite (D f Hf n Hn). reflexivity.
  Qed.

  Lemma flow_sum_num fields w ns :
    (forall f, In f fields -> data_is g (e_attr E f) (w f)) -> incl ns (g_nodes g) ->
    flow_sum E fields ns = Ok (Num (vsum (map (fields_val w fields) ns))).
  Proof.
    intros D Hn. unfold flow_sum.
    rewrite mapM_all_Ok with (g := fun nf => Num (w (snd nf) (fst nf))).
    - simpl. f_equal. rewrite <- (map_map (fun nf => w (snd nf) (fst nf)) Num), nsum_Num.
      f_equal. unfold fields_val. rewrite flat_map_concat_map, concat_map, map_map.
      rewrite <- flat_map_concat_map, vsum_flat. f_equal. apply map_ext. intro n.
      now rewrite map_map.
    - intros [n f] H. apply in_flat_map in H. destruct H as (n' & H1 & H2).
      apply in_map_iff in H2. destruct H2 as (f' & [= -> ->] & H2). simpl.
      rewrite (D f H2 n) by auto. reflexivity.
  Qed.

  (** ** The incremental tallies *)

  Lemma tally_entries (g0 : graph N) A flips A' fl (v : N -> V) old d (F : P * flow N -> res (num V)) :
    coherent (g_nodes g0) A -> coherent (g_nodes g0) A' -> labels A' = labels A ->
    flows_spec (a_map A) flips fl -> flipped A flips A' ->
    foldM (fun d pf => x <- F pf ;; Ok (dset d (fst pf) x)) fl old = Ok d ->
    NoDup (dkeys old) -> incl (dkeys old) (labels A) ->
    NoDup (dkeys d) /\ incl (dkeys d) (labels A') /\
    (tally_ok g0 A v old ->
     (forall p f prev x, In (p, f) fl -> dget old p = Some (Num prev) -> F (p, f) = Ok x ->
        x = Num (cadd (csub prev (vsum (map v (f_out f)))) (vsum (map v (f_in f))))) ->
     (forall p f x, In (p, f) fl -> F (p, f) = Ok x -> In p (dkeys old)) ->
     tally_ok g0 A' v d).
  Proof.
    intros C C' HL FS Fl H ND LI.
    pose proof (fs_wf _ _ _ FS) as W.
    destruct (foldM_dset F fl old d (wff_keys _ W) H) as (D1 & D2 & D3 & D4).
    split; [auto|]. split.
    { intros p Hp. rewrite HL. apply D4 in Hp. destruct Hp as [Hp|Hp]; auto.
      eapply flow_labels; eauto. }
    intros [T1 T2] HF HK. split.
    - intros p x Hx. destruct (member_change g0 A flips A' fl C FS Fl p) as (M1 & M2 & M3).
      destruct (In_dec_of p (dkeys fl)) as [Hp|Hp].
      + apply dget_key in Hp. destruct Hp as [f Hf]. apply dget_In in Hf.
        destruct (D1 p f Hf) as (x' & Ex' & Hd). assert (x' = x) by congruence. subst x'.
        pose proof (HK p f x Hf Ex') as Hk. apply dget_key in Hk. destruct Hk as [prev Hprev].
        destruct (T1 p prev Hprev) as (y & -> & Sy).
        rewrite (HF p f y x Hf Hprev Ex'). eexists. split; [reflexivity|].
        destruct (In_fl_inset fl p f (wff_keys _ W) Hf) as [Ei Eo]. rewrite <- Ei, <- Eo.
        eapply sums_to_step; eauto; try apply W; try (intros n Hn; now apply M2).
      + rewrite D2 in Hx by auto. destruct (T1 p x Hx) as (y & -> & Sy). exists y. split; auto.
        eapply sums_to_ext; [|exact Sy]. intro n. rewrite M3.
        destruct (dead_inset fl p W Hp n). tauto.
    - intros p n Hn. destruct (member_change g0 A flips A' fl C FS Fl p) as (M1 & M2 & M3).
      apply D4. apply M3 in Hn. destruct Hn as [[Hn _]|Hn]; [left; eauto|].
      right. apply (wff_live _ W). eauto.
  Qed.

  Lemma tally_step_spec A flips A' fl fields old d :
    coherent (g_nodes g) A -> coherent (g_nodes g) A' -> labels A' = labels A ->
    flows_spec (a_map A) flips fl -> flipped A flips A' ->
    tally_step E fields fl old = Ok d ->
    NoDup (dkeys old) -> incl (dkeys old) (labels A) ->
    NoDup (dkeys d) /\ incl (dkeys d) (labels A') /\
    forall w, (forall f, In f fields -> data_is g (e_attr E f) (w f)) ->
      tally_ok g A (fields_val w fields) old -> tally_ok g A' (fields_val w fields) d.
  Proof.
    intros C C' HL FS Fl H ND LI.
    set (F := fun pf : P * flow N =>
       out <- flow_sum E fields (f_out (snd pf)) ;;
       inn <- flow_sum E fields (f_in (snd pf)) ;;
       prev <- of_option KeyError (dget old (fst pf)) ;;
       Ok (nadd (nsub prev out) inn)).
    assert (H' : foldM (fun d pf => x <- F pf ;; Ok (dset d (fst pf) x)) fl old = Ok d).
    { rewrite <- H. apply foldM_ext. intros b pf _. unfold F.
      destruct (flow_sum E fields (f_out (snd pf))); simpl; auto.
      destruct (flow_sum E fields (f_in (snd pf))); simpl; auto.
      destruct (dget old (fst pf)); simpl; auto. }
    assert (Inn : forall p f, In (p, f) fl -> incl (f_in f) (g_nodes g) /\ incl (f_out f) (g_nodes g)).
    { intros p f Hf. destruct (member_change g A flips A' fl C FS Fl p) as (M1 & M2 & _).
      destruct (In_fl_inset fl p f (wff_keys _ (fs_wf _ _ _ FS)) Hf) as [Ei Eo].
      rewrite <- Ei, <- Eo. split; intros n Hn; [now apply M2|now apply M1]. }
    destruct (tally_entries g A flips A' fl (fun _ => c0) old d F C C' HL FS Fl H' ND LI)
      as (A1 & A2 & _). split; auto. split; auto.
    intros w Hw T.
    destruct (tally_entries g A flips A' fl (fields_val w fields) old d F C C' HL FS Fl H' ND LI)
      as (_ & _ & A3).
    apply A3; auto.
    - intros p f prev x Hf Hprev Hx. unfold F in Hx. simpl in Hx.
      destruct (Inn p f Hf) as [I1 I2].
      rewrite (flow_sum_num fields w _ Hw I1), (flow_sum_num fields w _ Hw I2) in Hx.
      simpl in Hx. rewrite Hprev in Hx. simpl in Hx. injection Hx as <-. reflexivity.
    - intros p f x Hf Hx. unfold F in Hx. simpl in Hx.
      destruct (flow_sum E fields (f_out f)); simpl in Hx; try discriminate.
      destruct (flow_sum E fields (f_in f)); simpl in Hx; try discriminate.
      destruct (dget old p) eqn:Ep; simpl in Hx; try discriminate.
      eapply dget_Some_key; eauto.
  Qed.

  Lemma data_step_spec A flips A' fl data old d :
    coherent (g_nodes g) A -> coherent (g_nodes g) A' -> labels A' = labels A ->
    flows_spec (a_map A) flips fl -> flipped A flips A' ->
    data_step data fl old = Ok d ->
    NoDup (dkeys old) -> incl (dkeys old) (labels A) ->
    NoDup (dkeys d) /\ incl (dkeys d) (labels A') /\
    forall w, data_is g data w -> tally_ok g A w old -> tally_ok g A' w d.
  Proof.
    intros C C' HL FS Fl H ND LI.
    set (F := fun pf : P * flow N =>
       prev <- of_option KeyError (dget old (fst pf)) ;;
       inn <- mapM (fun n => of_option KeyError (data n)) (f_in (snd pf)) ;;
       out <- mapM (fun n => of_option KeyError (data n)) (f_out (snd pf)) ;;
       Ok (nsub (nadd prev (nsum inn)) (nsum out))).
    assert (H' : foldM (fun d pf => x <- F pf ;; Ok (dset d (fst pf) x)) fl old = Ok d).
    { rewrite <- H. apply foldM_ext. intros b pf _. unfold F.
      destruct (dget old (fst pf)); simpl; auto.
      destruct (mapM (fun n => of_option KeyError (data n)) (f_in (snd pf))); simpl; auto.
      destruct (mapM (fun n => of_option KeyError (data n)) (f_out (snd pf))); simpl; auto. }
    assert (Inn : forall p f, In (p, f) fl -> incl (f_in f) (g_nodes g) /\ incl (f_out f) (g_nodes g)).
    { intros p f Hf. destruct (member_change g A flips A' fl C FS Fl p) as (M1 & M2 & _).
      destruct (In_fl_inset fl p f (wff_keys _ (fs_wf _ _ _ FS)) Hf) as [Ei Eo].
      rewrite <- Ei, <- Eo. split; intros n Hn; [now apply M2|now apply M1]. }
    destruct (tally_entries g A flips A' fl (fun _ => c0) old d F C C' HL FS Fl H' ND LI)
      as (A1 & A2 & _). split; auto. split; auto.
    intros w Hw T.
    destruct (tally_entries g A flips A' fl w old d F C C' HL FS Fl H' ND LI) as (_ & _ & A3).
    apply A3; auto.
    - intros p f prev x Hf Hprev Hx. unfold F in Hx. simpl in Hx.
      destruct (Inn p f Hf) as [I1 I2].
      rewrite Hprev in Hx. simpl in Hx.
      rewrite (mapM_data data w _ Hw I1), (mapM_data data w _ Hw I2) in Hx.
      simpl in Hx. rewrite !nsum_Num in Hx. simpl in Hx. injection Hx as <-. f_equal. ring.
    - intros p f x Hf Hx. unfold F in Hx. simpl in Hx.
      destruct (dget old p) eqn:Ep; simpl in Hx; try discriminate.
      eapply dget_Some_key; eauto.
  Qed.

  (** Progress: with defined data and an entry for every flowing district. *)
  Definition defined_on (data : N -> option (num V)) : Prop :=
    forall n, In n (g_nodes g) -> exists x, data n = Some x.

  Lemma mapM_defined data ns :
    defined_on data -> incl ns (g_nodes g) ->
    exists xs, mapM (fun n => of_option KeyError (data n)) ns = Ok xs.
  Proof.
    intros D. induction ns as [|n ns IH]; simpl; intro H; eauto.
    destruct (D n) as [x ->]; [apply H; now left|]. simpl.
    destruct IH as [xs ->]; [intros z Hz; apply H; now right|]. simpl. eauto.
  Qed.

  Lemma field_sum_ok fields n :
    (forall f, In f fields -> defined_on (e_attr E f)) -> In n (g_nodes g) ->
    exists x, field_sum E fields n = Ok x.
  Proof.
    intros D Hn. unfold field_sum.
    assert (exists xs, mapM (fun f => of_option KeyError (e_attr E f n)) fields = Ok xs) as [xs ->].
    { induction fields as [|f fields IH]; simpl; eauto.
      destruct (D f (or_introl eq_refl) n Hn) as [x ->]. simpl.
      destruct IH as [xs ->]; [intros; apply D; now right|]. simpl. eauto. }
    simpl. eauto.
  Qed.

  Lemma flow_sum_ok fields ns :
    (forall f, In f fields -> defined_on (e_attr E f)) -> incl ns (g_nodes g) ->
    exists x, flow_sum E fields ns = Ok x.
  Proof.
    intros D Hn. unfold flow_sum.
    set (l := flat_map (fun n => map (fun f => (n, f)) fields) ns).
    assert (Hl : forall nf, In nf l -> In (fst nf) (g_nodes g) /\ In (snd nf) fields).
    { intros [n f] H. apply in_flat_map in H. destruct H as (n' & H1 & H2).
      apply in_map_iff in H2. destruct H2 as (f' & [= -> ->] & H2). simpl. auto. }
    assert (exists xs, mapM (fun nf : N * string => of_option KeyError (e_attr E (snd nf) (fst nf))) l = Ok xs)
      as [xs ->].
    { clearbody l. induction l as [|nf l IH]; simpl; eauto.
      destruct (Hl nf (or_introl eq_refl)) as [H1 H2].
      destruct (D _ H2 _ H1) as [x ->]. simpl.
      destruct IH as [xs ->]; [intros; apply Hl; now right|]. simpl. eauto. }
    simpl. eauto.
  Qed.

  Lemma tally_step_ok A flips A' fl fields old :
    coherent (g_nodes g) A -> flows_spec (a_map A) flips fl -> flipped A flips A' ->
    (forall f, In f fields -> defined_on (e_attr E f)) ->
    incl (dkeys fl) (dkeys old) ->
    exists d, tally_step E fields fl old = Ok d.
  Proof.
    intros C FS Fl D K. unfold tally_step.
    apply foldM_progress with (Inv := fun _ _ => True); auto.
    intros pre [p f] acc _ Hf. simpl.
    destruct (member_change g A flips A' fl C FS Fl p) as (M1 & M2 & _).
    destruct (In_fl_inset fl p f (wff_keys _ (fs_wf _ _ _ FS)) Hf) as [Ei Eo].
    destruct (flow_sum_ok fields (f_out f) D) as [x ->].
    { rewrite <- Eo. intros n Hn. now apply M1. }
    destruct (flow_sum_ok fields (f_in f) D) as [y ->].
    { rewrite <- Ei. intros n Hn. now apply M2. }
    simpl. assert (Hp : In p (dkeys old)).
    { apply K. change p with (fst (p, f)). now apply in_map. }
    apply dget_key in Hp. destruct Hp as [z ->]. simpl. eauto.
  Qed.

  Lemma data_step_ok A flips A' fl data old :
    coherent (g_nodes g) A -> flows_spec (a_map A) flips fl -> flipped A flips A' ->
    defined_on data -> incl (dkeys fl) (dkeys old) ->
    exists d, data_step data fl old = Ok d.
  Proof.
    intros C FS Fl D K. unfold data_step.
    apply foldM_progress with (Inv := fun _ _ => True); auto.
    intros pre [p f] acc _ Hf. simpl.
    destruct (member_change g A flips A' fl C FS Fl p) as (M1 & M2 & _).
    destruct (In_fl_inset fl p f (wff_keys _ (fs_wf _ _ _ FS)) Hf) as [Ei Eo].
    assert (Hp : In p (dkeys old)).
    { apply K. change p with (fst (p, f)). now apply in_map. }
    apply dget_key in Hp. destruct Hp as [z ->]. simpl.
    destruct (mapM_defined data (f_in f) D) as [x ->].
    { rewrite <- Ei. intros n Hn. now apply M2. }
    destruct (mapM_defined data (f_out f) D) as [y ->].
    { rewrite <- Eo. intros n Hn. now apply M1. }
    simpl. eauto.
  Qed.

  (** ** Boundaries *)

  Lemma scratch_boundary_spec :
    NoDup (scratch_boundary E) /\
    forall n, In n (scratch_boundary E) <-> In n (g_nodes g) /\ e_bnode E n = true.
  Proof.
    unfold scratch_boundary. split; [apply NoDup_set_of|].
    intro n. now rewrite In_set_of, filter_In.
  Qed.

  Lemma scratch_ext_set_spec A bs :
    coherent (g_nodes g) A -> NoDup bs ->
    (forall n, In n bs <-> In n (g_nodes g) /\ e_bnode E n = true) ->
    exists d, scratch_ext_set A bs = Ok d /\ NoDup (dkeys d) /\
      forall p, NoDup (dget_or [] d p) /\
        forall n, In n (dget_or [] d p) <-> member g A p n /\ e_bnode E n = true.
  Proof.
    intros C ND Hb. unfold scratch_ext_set.
    match goal with |- context [foldM ?f _ _] => set (F := f) end.
    assert (H : forall l acc, incl l bs -> NoDup (dkeys acc) ->
      (forall p, NoDup (dget_or [] acc p)) ->
      exists d, foldM F l acc = Ok d /\ NoDup (dkeys d) /\
        forall p, NoDup (dget_or [] d p) /\
          forall n, In n (dget_or [] d p) <-> In n (dget_or [] acc p) \/
                  In n l /\ district A n = Some p).
    { induction l as [|n l IH]; simpl; intros acc Hl Hk Hn.
      - exists acc. split; auto. split; auto. intro p. split; auto. intro n. tauto.
      - assert (In n bs) as Hn1 by (apply Hl; now left). apply Hb in Hn1.
        destruct (has_district g A n C (proj1 Hn1)) as [p Hp].
        unfold F at 1. unfold district in Hp. rewrite Hp. simpl.
        match goal with |- context [foldM F l ?x] => set (acc' := x) end.
        assert (G : forall r, dget_or [] acc' r =
           if eqb r p then sadd n (dget_or [] acc p) else dget_or [] acc r).
        { intro r. unfold acc', dget_or. rewrite !dget_dset. destruct (eqb_spec r p); auto. }
        destruct (IH acc') as (d & Ed & Nd & Sd).
        { intros z Hz. apply Hl. now right. }
        { unfold acc'. now apply NoDup_dset. }
        { intro r. rewrite G. destruct (eqb r p); auto. now apply NoDup_sadd. }
        exists d. split; auto. split; auto. intro r. destruct (Sd r) as [Nr Ir]. split; auto.
        intro z. rewrite Ir, G. unfold district in *.
        destruct (eqb_spec r p) as [->|Np].
        + rewrite In_sadd. split; [|intros [H|[[<-|H] H2]]; tauto].
          intros [[->|H]|H]; try tauto.
        + split; [tauto|]. intros [H|[[<-|H] H2]]; try tauto; congruence. }
    destruct (H bs [] (incl_refl _) (NoDup_nil _)) as (d & Ed & Nd & Sd).
    { intro p. constructor. }
    exists d. split; auto. split; auto. intro p. destruct (Sd p) as [Np Ip]. split; auto.
    intro n. rewrite Ip, Hb. unfold dget_or, member. simpl. tauto.
  Qed.

  Lemma scratch_ext_spec A bs :
    coherent (g_nodes g) A -> NoDup bs ->
    (forall n, In n bs <-> In n (g_nodes g) /\ e_bnode E n = true) ->
    exists d, scratch_ext E A bs = Ok d /\ NoDup (dkeys d) /\
      forall p, exists y, dget_or (Num c0) d p = Num y /\
        sums_to (e_bperim E) (fun n => member g A p n /\ e_bnode E n = true) y.
  Proof.
    intros C ND Hb. unfold scratch_ext.
    match goal with |- context [foldM ?f _ _] => set (F := f) end.
    assert (H : forall l, incl l bs -> NoDup l ->
      exists d, foldM F l [] = Ok d /\ NoDup (dkeys d) /\
        forall p, exists y, dget_or (Num c0) d p = Num y /\
          sums_to (e_bperim E) (fun n => In n l /\ district A n = Some p) y).
    { induction l as [|n l IH] using rev_ind; intros Hl Hn.
      - exists []. split; auto. split; [constructor|]. intro p. exists c0.
        split; auto. apply sums_to_empty. intros y [[] _].
      - destruct IH as (d & Ed & Nd & Sd).
        { intros z Hz. apply Hl. apply in_or_app. auto. }
        { apply NoDup_app_iff in Hn. tauto. }
        assert (Hni : ~ In n l).
        { apply NoDup_remove_2 in Hn. now rewrite app_nil_r in Hn. }
        assert (In n bs) as Hn1 by (apply Hl; apply in_or_app; simpl; auto). apply Hb in Hn1.
        destruct (has_district g A n C (proj1 Hn1)) as [p Hp].
        rewrite foldM_app, Ed. simpl. unfold F at 1. unfold district in Hp. rewrite Hp. simpl.
        eexists. split; [reflexivity|]. split; [now apply NoDup_dset|].
        intro r. unfold dget_or at 1. rewrite dget_dset. destruct (eqb_spec r p) as [->|Nr].
        + destruct (Sd p) as (y & Ey & Sy). rewrite Ey. simpl. eexists. split; [reflexivity|].
          eapply sums_to_add; [exact Sy| |].
          * tauto.
          * intro z. rewrite in_app_iff. simpl. split.
            -- intros [[Hz|[<-|[]]] Hd]; auto.
            -- intros [[Hz Hd]| ->]; auto.
        + destruct (Sd r) as (y & Ey & Sy). exists y. split; auto.
          eapply sums_to_ext; [|exact Sy]. intro z. rewrite in_app_iff. simpl.
          unfold district. split; [tauto|]. intros [[Hz|[<-|[]]] Hd]; auto. congruence. }
    destruct (H bs (incl_refl _) ND) as (d & Ed & Nd & Sd).
    exists d. split; auto. split; auto. intro p. destruct (Sd p) as (y & Ey & Sy).
    exists y. split; auto. eapply sums_to_ext; [|exact Sy].
    intro n. specialize (Hb n). unfold member. tauto.
  Qed.

  Lemma perim_sum_num (f : N -> V) ns : perim_sum f ns = Num (vsum (map f ns)).
  Proof. unfold perim_sum. rewrite <- map_map. apply nsum_Num. Qed.

  Lemma shared_sum_num es : shared_sum E es = Num (vsum (map (e_sperim E) es)).
  Proof. unfold shared_sum. rewrite <- map_map. apply nsum_Num. Qed.

  Lemma ext_set_incremental A flips A' fl bs prev :
    coherent (g_nodes g) A -> flows_spec (a_map A) flips fl -> flipped A flips A' ->
    (forall n, In n bs <-> In n (g_nodes g) /\ e_bnode E n = true) ->
    NoDup (dkeys prev) ->
    (forall p, NoDup (dget_or [] prev p) /\
       forall n, In n (dget_or [] prev p) <-> member g A p n /\ e_bnode E n = true) ->
    let d := fold_left (fun d pf => dset d (fst pf)
               (sdiff (sunion (dget_or [] prev (fst pf)) (sinter (f_in (snd pf)) bs)) (f_out (snd pf))))
               fl prev in
    NoDup (dkeys d) /\
    forall p, NoDup (dget_or [] d p) /\
      forall n, In n (dget_or [] d p) <-> member g A' p n /\ e_bnode E n = true.
  Proof.
    intros C FS Fl Hb ND Hp d. pose proof (fs_wf _ _ _ FS) as W.
    destruct (fold_left_dset (fun pf : P * flow N =>
        sdiff (sunion (dget_or [] prev (fst pf)) (sinter (f_in (snd pf)) bs)) (f_out (snd pf)))
                fl prev (wff_keys _ W)) as (D1 & D2 & D3 & _).
    fold d in D1, D2, D3. split; [auto|]. intro p.
    destruct (member_change g A flips A' fl C FS Fl p) as (M1 & M2 & M3).
    destruct (In_dec_of p (dkeys fl)) as [Hk|Hk].
    - apply dget_key in Hk. destruct Hk as [f Hf]. apply dget_In in Hf.
      destruct (In_fl_inset fl p f (wff_keys _ W) Hf) as [Ei Eo].
      unfold dget_or at 1 2. rewrite (D1 p f Hf). simpl. split.
      + apply NoDup_sdiff, NoDup_sunion, Hp.
      + intro n. rewrite In_sdiff, In_sunion, In_sinter, <- Ei, <- Eo, Hb, M3.
        destruct (Hp p) as [_ ->]. split.
        * intros [[[H1 H2]|[H1 [H2 H3]]] H4]; tauto.
        * intros [[[H1 H2]|H1] H3].
          -- tauto.
          -- destruct (M2 n H1) as [H4 H5]. split; [tauto|]. intro H6. apply M1 in H6. tauto.
    - unfold dget_or at 1 2. rewrite (D2 p Hk).
      change (match dget prev p with Some v => v | None => [] end) with (dget_or [] prev p).
      split; [apply Hp|]. intro n. destruct (Hp p) as [_ ->]. rewrite M3.
      destruct (dead_inset fl p W Hk n). tauto.
  Qed.

  Lemma ext_incremental A flips A' fl bs prev :
    coherent (g_nodes g) A -> flows_spec (a_map A) flips fl -> flipped A flips A' ->
    (forall n, In n bs <-> In n (g_nodes g) /\ e_bnode E n = true) ->
    NoDup (dkeys prev) ->
    (forall p, exists y, dget_or (Num c0) prev p = Num y /\
        sums_to (e_bperim E) (fun n => member g A p n /\ e_bnode E n = true) y) ->
    let d := fold_left (fun d pf => dset d (fst pf)
               (nsub (nadd (dget_or (Num c0) prev (fst pf))
                           (perim_sum (e_bperim E) (sinter (f_in (snd pf)) bs)))
                     (perim_sum (e_bperim E) (sinter (f_out (snd pf)) bs)))) fl prev in
    NoDup (dkeys d) /\
    forall p, exists y, dget_or (Num c0) d p = Num y /\
        sums_to (e_bperim E) (fun n => member g A' p n /\ e_bnode E n = true) y.
  Proof.
    intros C FS Fl Hb ND Hp d. pose proof (fs_wf _ _ _ FS) as W.
    destruct (fold_left_dset (fun pf : P * flow N =>
        (nsub (nadd (dget_or (Num c0) prev (fst pf))
                           (perim_sum (e_bperim E) (sinter (f_in (snd pf)) bs)))
                     (perim_sum (e_bperim E) (sinter (f_out (snd pf)) bs))))
                fl prev (wff_keys _ W)) as (D1 & D2 & D3 & _).
    fold d in D1, D2, D3. split; [auto|]. intro p.
    destruct (member_change g A flips A' fl C FS Fl p) as (M1 & M2 & M3).
    destruct (Hp p) as (y & Ey & Sy).
    destruct (In_dec_of p (dkeys fl)) as [Hk|Hk].
    - apply dget_key in Hk. destruct Hk as [f Hf]. apply dget_In in Hf.
      destruct (In_fl_inset fl p f (wff_keys _ W) Hf) as [Ei Eo].
      unfold dget_or at 1. rewrite (D1 p f Hf). simpl. rewrite Ey, !perim_sum_num. simpl.
      eexists. split; [reflexivity|].
      eapply sums_to_step'; [exact Sy| | | | |].
      + apply NoDup_sinter. rewrite <- Ei. apply W.
      + apply NoDup_sinter. rewrite <- Eo. apply W.
      + intros n. rewrite In_sinter, Hb, <- Eo. intros [H1 H2]. split; [now apply M1|tauto].
      + intros n. rewrite In_sinter, <- Ei. intros [H1 H2] [H3 _]. now apply (M2 n).
      + intro n. rewrite M3, !In_sinter, Hb, <- Ei, <- Eo. split.
        * intros [[[H1 H2]|H1] H3].
          -- left. tauto.
          -- right. destruct (M2 n H1). tauto.
        * intros [[[H1 H2] H3]|[H1 [H2 H3]]]; [|tauto].
          split; auto. left. split; auto. intro H4. apply H3. split; auto. destruct H1. auto.
    - unfold dget_or at 1. rewrite (D2 p Hk).
      change (match dget prev p with Some v => v | None => Num c0 end)
        with (dget_or (Num c0) prev p). rewrite Ey. exists y. split; auto.
      eapply sums_to_ext; [|exact Sy]. intro n. rewrite M3.
      destruct (dead_inset fl p W Hk n). tauto.
  Qed.

  Lemma interior_incremental A A' ef prev d :
    eflows_spec g A A' ef -> labels A' = labels A ->
    NoDup (dkeys prev) -> (forall p, In p (labels A) -> In p (dkeys prev)) ->
    (forall p x, dget prev p = Some x -> exists y, x = Num y /\
        sums_to (e_sperim E) (cut_edge_of g A p) y) ->
    foldM (fun d pf =>
       x <- of_option KeyError (dget prev (fst pf)) ;;
       Ok (dset d (fst pf) (nsub (nadd x (shared_sum E (f_in (snd pf))))
                                 (shared_sum E (f_out (snd pf)))))) ef prev = Ok d ->
    NoDup (dkeys d) /\ (forall p, In p (labels A') -> In p (dkeys d)) /\
    (forall p x, dget d p = Some x -> exists y, x = Num y /\
        sums_to (e_sperim E) (cut_edge_of g A' p) y).
  Proof.
    intros [W I O] HL ND LI Hp H.
    set (F := fun pf : P * flow (N * N) =>
       x <- of_option KeyError (dget prev (fst pf)) ;;
       Ok (nsub (nadd x (shared_sum E (f_in (snd pf)))) (shared_sum E (f_out (snd pf))))).
    assert (H' : foldM (fun d pf => x <- F pf ;; Ok (dset d (fst pf) x)) ef prev = Ok d).
    { rewrite <- H. apply foldM_ext. intros b pf _. unfold F.
      destruct (dget prev (fst pf)); simpl; auto. }
    destruct (foldM_dset F ef prev d (wff_keys _ W) H') as (D1 & D2 & D3 & D4).
    split; auto. split.
    { intros p Hl. apply D4. left. apply LI. now rewrite <- HL. }
    intros p x Hx. destruct (In_dec_of p (dkeys ef)) as [Hk|Hk].
    - apply dget_key in Hk. destruct Hk as [f Hf]. apply dget_In in Hf.
      destruct (D1 p f Hf) as (x' & Ex' & Hd). assert (x' = x) by congruence. subst x'.
      unfold F in Ex'. simpl in Ex'. destruct (dget prev p) as [x0|] eqn:E0; simpl in Ex';
        [|discriminate].
      destruct (Hp p x0 E0) as (y & -> & Sy). rewrite !shared_sum_num in Ex'. simpl in Ex'.
      injection Ex' as <-. eexists. split; [reflexivity|].
      destruct (In_fl_inset ef p f (wff_keys _ W) Hf) as [Ei Eo]. rewrite <- Ei, <- Eo.
      eapply sums_to_step'; [exact Sy| | | | |].
      + apply W.
      + apply W.
      + intros e He. apply O in He. tauto.
      + intros e He. apply I in He. tauto.
      + intro e. rewrite I, O. destruct (cut_of_dec g A p e), (cut_of_dec g A' p e); tauto.
    - rewrite D2 in Hx by auto. destruct (Hp p x Hx) as (y & -> & Sy). exists y. split; auto.
      eapply sums_to_ext; [|exact Sy]. intro e.
      destruct (dead_inset ef p W Hk e) as [H1 H2]. rewrite I in H1. rewrite O in H2.
      destruct (cut_of_dec g A p e), (cut_of_dec g A' p e); tauto.
  Qed.
End Tally.
