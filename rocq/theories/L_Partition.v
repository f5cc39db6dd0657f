(** Lemmas about assignments and flips. *)
From Coq Require Import List Bool Arith Lia Permutation.
From Verif Require Import Base M_Graph M_Partition S_Partition.
Import ListNotations.

(** ** foldM *)

Lemma foldM_app {A B} (f : B -> A -> res B) l1 l2 b :
  foldM f (l1 ++ l2) b = (x <- foldM f l1 b ;; foldM f l2 x).
Proof.
  revert b. induction l1 as [|x l1 IH]; simpl; intro b; auto.
  destruct (f b x); simpl; auto.
Qed.

Lemma foldM_inv {A B} (f : B -> A -> res B) (Inv : list A -> B -> Prop) l b r :
  (forall pre x acc acc', Inv pre acc -> In x l -> f acc x = Ok acc' -> Inv (pre ++ [x]) acc') ->
  Inv [] b -> foldM f l b = Ok r -> Inv l r.
Proof.
  intros Hs. assert (forall l' pre b, incl l' l -> Inv pre b ->
                       foldM f l' b = Ok r -> Inv (pre ++ l') r) as H.
  { induction l' as [|x l' IH]; simpl; intros pre b0 Hl Hb Hf.
    - injection Hf as <-. now rewrite app_nil_r.
    - destruct (f b0 x) eqn:E; simpl in Hf; try discriminate.
      replace (pre ++ x :: l') with ((pre ++ [x]) ++ l') by now rewrite <- app_assoc.
      eapply IH; eauto.
      + intros y Hy. apply Hl. now right.
      + eapply Hs; eauto. apply Hl. now left. }
  intros H0 Hf. now apply (H l [] b (incl_refl _)).
Qed.

Lemma foldM_progress {A B} (f : B -> A -> res B) (Inv : list A -> B -> Prop) l b :
  (forall pre x acc, Inv pre acc -> In x l ->
     exists acc', f acc x = Ok acc' /\ Inv (pre ++ [x]) acc') ->
  Inv [] b -> exists r, foldM f l b = Ok r.
Proof.
  intros Hs. assert (forall l' pre b, incl l' l -> Inv pre b ->
                       exists r, foldM f l' b = Ok r) as H.
  { induction l' as [|x l' IH]; simpl; intros pre b0 Hl Hb; eauto.
    destruct (Hs pre x b0 Hb) as (acc' & E & I); [apply Hl; now left|].
    rewrite E. simpl. eapply IH; eauto. intros y Hy. apply Hl. now right. }
  intro H0. now apply (H l [] b (incl_refl _)).
Qed.

Lemma foldM_err {A B} (f : B -> A -> res B) e l b :
  (forall acc x, match f acc x with Ok _ => True | Err e' => e' = e | NoFuel => False end) ->
  match foldM f l b with Ok _ => True | Err e' => e' = e | NoFuel => False end.
Proof.
  intro Hf. revert b. induction l as [|x l IH]; simpl; intro b; auto.
  specialize (Hf b x). destruct (f b x); simpl; auto. apply IH.
Qed.

(** ** Flows *)

Section Flows.
  Context {N P : Type} {EN : EqB N} {EP : EqB P}.

  Definition inset {X} (fl : dict P (flow X)) p := f_in (dget_or create_flow fl p).
  Definition outset {X} (fl : dict P (flow X)) p := f_out (dget_or create_flow fl p).

  Section Any.
    Context {X : Type} {EX : EqB X}.
    Implicit Types (fl : dict P (flow X)) (x y : X).

    Lemma inset_add_in p x fl q :
      forall y, In y (inset (add_in p x fl) q) <-> (q = p /\ y = x) \/ In y (inset fl q).
    Proof.
      intro y. unfold inset, add_in, dget_or at 1. rewrite dget_dset.
      destruct (eqb_spec q p); simpl.
      - subst. rewrite In_sadd. tauto.
      - change (match dget fl q with Some v => v | None => create_flow end)
          with (dget_or create_flow fl q). tauto.
    Qed.

    Lemma outset_add_in p x fl q : outset (add_in p x fl) q = outset fl q.
    Proof.
      unfold outset, add_in, dget_or at 1. rewrite dget_dset.
      destruct (eqb_spec q p); simpl; auto. now subst.
    Qed.

    Lemma outset_add_out p x fl q :
      forall y, In y (outset (add_out p x fl) q) <-> (q = p /\ y = x) \/ In y (outset fl q).
    Proof.
      intro y. unfold outset, add_out, dget_or at 1. rewrite dget_dset.
      destruct (eqb_spec q p); simpl.
      - subst. rewrite In_sadd. tauto.
      - change (match dget fl q with Some v => v | None => create_flow end)
          with (dget_or create_flow fl q). tauto.
    Qed.

    Lemma inset_add_out p x fl q : inset (add_out p x fl) q = inset fl q.
    Proof.
      unfold inset, add_out, dget_or at 1. rewrite dget_dset.
      destruct (eqb_spec q p); simpl; auto. now subst.
    Qed.

    Record wf_flows fl : Prop := {
      wff_keys : NoDup (dkeys fl);
      wff_in : forall p, NoDup (inset fl p);
      wff_out : forall p, NoDup (outset fl p);
      wff_live : forall p, In p (dkeys fl) <-> exists x, In x (inset fl p) \/ In x (outset fl p)
    }.

    Lemma wf_flows_nil : wf_flows [].
    Proof.
      constructor; simpl; intros; try constructor.
      - tauto.
      - intros (x & [[]|[]]).
    Qed.

    Lemma dead_key fl p x : (In x (inset fl p) \/ In x (outset fl p)) -> In p (dkeys fl).
    Proof.
      unfold inset, outset, dget_or. rewrite dget_key.
      destruct (dget fl p); simpl; [eauto|tauto].
    Qed.

    Lemma wf_add_in p x fl : wf_flows fl -> wf_flows (add_in p x fl).
    Proof.
      intros [K I O L]. constructor.
      - unfold add_in. now apply NoDup_dset.
      - intro q. unfold inset, add_in, dget_or at 1. rewrite dget_dset.
        destruct (eqb_spec q p); simpl; [|apply I]. apply NoDup_sadd. apply I.
      - intro q. rewrite outset_add_in. apply O.
      - intro q. split; [|intros (y & Hy); eapply dead_key; eauto].
        unfold add_in at 1. rewrite In_dkeys_dset. intros [->|H].
        + exists x. left. apply inset_add_in. auto.
        + apply L in H. destruct H as (y & [H|H]); exists y.
          * left. apply inset_add_in. auto.
          * right. now rewrite outset_add_in.
    Qed.

    Lemma wf_add_out p x fl : wf_flows fl -> wf_flows (add_out p x fl).
    Proof.
      intros [K I O L]. constructor.
      - unfold add_out. now apply NoDup_dset.
      - intro q. rewrite inset_add_out. apply I.
      - intro q. unfold outset, add_out, dget_or at 1. rewrite dget_dset.
        destruct (eqb_spec q p); simpl; [|apply O]. apply NoDup_sadd. apply O.
      - intro q. split; [|intros (y & Hy); eapply dead_key; eauto].
        unfold add_out at 1. rewrite In_dkeys_dset. intros [->|H].
        + exists x. right. apply outset_add_out. auto.
        + apply L in H. destruct H as (y & [H|H]); exists y.
          * left. now rewrite inset_add_out.
          * right. apply outset_add_out. auto.
    Qed.
  End Any.

  Implicit Types (a : assignment N P) (flips : dict N P) (nodes : list N).

  (** What flows_from_changes computes. *)
  Record flows_spec (old flips : dict N P) (fl : dict P (flow N)) : Prop := {
    fs_wf : wf_flows fl;
    fs_dom : forall n, In n (dkeys flips) -> In n (dkeys old);
    fs_in : forall p n, In n (inset fl p) <->
              dget flips n = Some p /\ dget old n <> Some p;
    fs_out : forall p n, In n (outset fl p) <->
              dget old n = Some p /\ exists t, dget flips n = Some t /\ t <> p
  }.

  Lemma flows_from_changes_spec old flips fl :
    is_dict flips -> flows_from_changes old flips = Ok fl -> flows_spec old flips fl.
  Proof.
    intros D H.
    assert (H1 : wf_flows fl /\
      (forall n, In n (dkeys flips) -> In n (dkeys old)) /\
      (forall p n, In n (inset fl p) <-> In (n, p) flips /\ dget old n <> Some p) /\
      (forall p n, In n (outset fl p) <->
          dget old n = Some p /\ exists t, In (n, t) flips /\ t <> p)).
    { refine (foldM_inv (flow_step old) (fun pre fl =>
        wf_flows fl /\
        (forall n, In n (dkeys pre) -> In n (dkeys old)) /\
        (forall p n, In n (inset fl p) <-> In (n, p) pre /\ dget old n <> Some p) /\
        (forall p n, In n (outset fl p) <->
          dget old n = Some p /\ exists t, In (n, t) pre /\ t <> p)) flips [] fl _ _ H).
      - intros pre [x t] acc acc' (W & Dm & I & O) _ E. unfold flow_step in E. simpl in E.
        destruct (dget old x) as [s|] eqn:Es; simpl in E; [|discriminate].
        assert (Dm' : forall n, In n (dkeys (pre ++ [(x, t)])) -> In n (dkeys old)).
        { unfold dkeys. intro n. rewrite map_app, in_app_iff. simpl.
          intros [Hn|[<-|[]]]; [now apply Dm|]. eapply dget_Some_key; eauto. }
        destruct (eqb_spec s t) as [->|Ne]; injection E as <-.
        + split; [auto|]. split; [auto|]. split.
          * intros p n. rewrite I, in_app_iff. simpl. split; [tauto|].
            intros [[H0|[[= -> ->]|[]]] H2]; [auto|congruence].
          * intros p n. rewrite O. split.
            -- intros (H0 & t' & Ht & Hn). split; auto. exists t'.
               split; auto. apply in_or_app. auto.
            -- intros (H0 & t' & Ht & Hn). split; auto.
               rewrite in_app_iff in Ht. destruct Ht as [Ht|[[= -> ->]|[]]]; [eauto|congruence].
        + split; [|split; [auto|split]].
          * now apply wf_add_out, wf_add_in.
          * intros p n. rewrite inset_add_out, inset_add_in, I, in_app_iff. simpl.
            split.
            -- intros [[-> ->]|[H1 H2]]; [|tauto]. split; auto. rewrite Es. congruence.
            -- intros [[H1|[[= -> ->]|[]]] H2]; auto.
          * intros p n. rewrite outset_add_out, outset_add_in, O. split.
            -- intros [[-> ->]|(H1 & t' & H2 & H3)].
               ++ split; auto. exists t. split; auto. apply in_or_app. simpl. auto.
               ++ split; auto. exists t'. split; auto. apply in_or_app. auto.
            -- intros (H1 & t' & H2 & H3). rewrite in_app_iff in H2.
               destruct H2 as [H2|[[= -> ->]|[]]]; [right; eauto|].
               left. split; congruence.
      - split; [apply wf_flows_nil|]. split; [simpl; tauto|]. split.
        + simpl. tauto.
        + simpl. intros p n. split; [tauto|]. intros (_ & t & [] & _). }
    destruct H1 as (W & Dm & I & O). constructor; auto.
    - intros p n. rewrite I. rewrite (dget_iff flips n p D). tauto.
    - intros p n. rewrite O. split; intros (H1 & t & H2 & H3); split; auto; exists t;
        split; auto; [now apply In_dget | now apply dget_In].
  Qed.

  Lemma flows_from_changes_ok old flips :
    (forall n, In n (dkeys flips) -> In n (dkeys old)) ->
    exists fl, flows_from_changes old flips = Ok fl.
  Proof.
    intro Hd. unfold flows_from_changes.
    apply foldM_progress with (Inv := fun _ _ => True); auto.
    intros _ [x t] acc _ Hx. unfold flow_step. simpl.
    assert (In x (dkeys old)) as Hk.
    { apply Hd. change x with (fst (x, t)). now apply in_map. }
    apply dget_key in Hk. destruct Hk as [s ->]. simpl.
    destruct (eqb s t); eauto.
  Qed.

  Lemma flows_from_changes_err old flips :
    match flows_from_changes old flips with
    | Ok _ => True | Err e => e = KeyError | NoFuel => False end.
  Proof.
    apply foldM_err. intros acc [x t]. unfold flow_step. simpl.
    destruct (dget old x); simpl; auto. destruct (eqb p t); auto.
  Qed.

  (** ** update_flows *)

  Lemma fold_dset_const (l : list N) (p : P) : forall (m : dict N P) n,
    dget (fold_left (fun m n => dset m n p) l m) n =
    if mem n l then Some p else dget m n.
  Proof.
    induction l as [|x l IH]; simpl; intros m n; auto.
    rewrite IH, dget_dset. unfold mem. simpl.
    destruct (eqb_spec n x); simpl; auto.
    destruct (existsb (eqb n) l); auto.
  Qed.

  Lemma fold_dset_keys (l : list N) (p : P) : forall (m : dict N P),
    (forall n, In n l -> In n (dkeys m)) ->
    dkeys (fold_left (fun m n => dset m n p) l m) = dkeys m.
  Proof.
    induction l as [|x l IH]; simpl; intros m H; auto.
    rewrite IH.
    - apply dkeys_dset_mem. auto.
    - intros n Hn. apply In_dkeys_dset. auto.
  Qed.

  Lemma fold_dset_NoDup (l : list N) (p : P) : forall (m : dict N P),
    NoDup (dkeys m) -> NoDup (dkeys (fold_left (fun m n => dset m n p) l m)).
  Proof.
    induction l as [|x l IH]; simpl; intros m H; auto. apply IH. now apply NoDup_dset.
  Qed.

  Definition new_part (fl : dict P (flow N)) (p : P) (cur : list N) : list N :=
    if mem p (dkeys fl) then sunion (sdiff cur (outset fl p)) (inset fl p) else cur.

  (** Effect of update_flows, entry by entry. *)
  Lemma update_flows_effect a fl a' :
    wf_flows fl -> update_flows a fl = Ok a' ->
    dkeys (a_parts a') = dkeys (a_parts a) /\
    (forall p, In p (dkeys fl) -> In p (dkeys (a_parts a))) /\
    (forall p, dget (a_parts a') p = option_map (new_part fl p) (dget (a_parts a) p)) /\
    (forall n, (forall p, ~ In n (inset fl p)) -> dget (a_map a') n = dget (a_map a) n) /\
    (forall n p, In n (inset fl p) -> (forall q, In n (inset fl q) -> q = p) ->
        dget (a_map a') n = Some p) /\
    (NoDup (dkeys (a_map a)) -> NoDup (dkeys (a_map a'))) /\
    ((forall n p, In n (inset fl p) -> In n (dkeys (a_map a))) ->
       dkeys (a_map a') = dkeys (a_map a)).
  Proof.
    intros W H.
    pose (sub := fun (pre : dict P (flow N)) => forall p f, In (p, f) pre -> dget fl p = Some f).
    assert (HI : forall pre acc, NoDup (dkeys pre) -> sub pre ->
       foldM update_flow_step pre a = Ok acc ->
       dkeys (a_parts acc) = dkeys (a_parts a) /\
       (forall p, In p (dkeys pre) -> In p (dkeys (a_parts a))) /\
       (forall p, dget (a_parts acc) p = option_map (new_part pre p) (dget (a_parts a) p)) /\
       (forall n, (forall p, In p (dkeys pre) -> ~ In n (inset fl p)) ->
           dget (a_map acc) n = dget (a_map a) n) /\
       (forall n p, In p (dkeys pre) -> In n (inset fl p) ->
           (forall q, In n (inset fl q) -> q = p) -> dget (a_map acc) n = Some p) /\
       (NoDup (dkeys (a_map a)) -> NoDup (dkeys (a_map acc))) /\
       ((forall n p, In n (inset fl p) -> In n (dkeys (a_map a))) ->
          dkeys (a_map acc) = dkeys (a_map a))).
    { induction pre as [|[p f] pre IH] using rev_ind; intros acc ND SB HF.
      - simpl in HF. injection HF as <-. split; [auto|]. split; [simpl; tauto|].
        split; [|split; [|split; [|split]]]; simpl; auto; try tauto.
        intro p. unfold new_part. simpl. destruct (dget (a_parts a) p); auto.
      - rewrite foldM_app in HF. destruct (foldM update_flow_step pre a) as [b| |] eqn:Eb;
          simpl in HF; try discriminate.
        assert (ND' : NoDup (dkeys pre) /\ ~ In p (dkeys pre)).
        { unfold dkeys in ND. rewrite map_app in ND. simpl in ND.
          apply NoDup_remove in ND. rewrite app_nil_r in ND. exact ND. }
        destruct ND' as [ND1 NI].
        assert (SB1 : sub pre). { intros q f' Hq. apply SB. apply in_or_app. auto. }
        assert (Ef : dget fl p = Some f). { apply SB. apply in_or_app. simpl. auto. }
        assert (Ein : inset fl p = f_in f). { unfold inset, dget_or. now rewrite Ef. }
        assert (Eout : outset fl p = f_out f). { unfold outset, dget_or. now rewrite Ef. }
        destruct (IH b ND1 SB1 eq_refl) as (K & KI & V & M0 & M1 & MN & MK). clear IH.
        unfold update_flow_step in HF. simpl in HF.
        destruct (dget (a_parts b) p) as [cur|] eqn:Ec; simpl in HF; [|discriminate].
        injection HF as <-. simpl.
        assert (Kp : In p (dkeys (a_parts b))) by (eapply dget_Some_key; eauto).
        assert (Dk : forall q, In q (dkeys (pre ++ [(p, f)])) <-> In q (dkeys pre) \/ q = p).
        { intro q. unfold dkeys. rewrite map_app, in_app_iff. simpl. intuition. }
        split; [now rewrite dkeys_dset_mem|].
        split; [intros q Hq; apply Dk in Hq; destruct Hq as [Hq| ->]; [auto|congruence]|].
        split; [|split; [|split; [|split]]].
        + intro q. rewrite dget_dset. destruct (eqb_spec q p) as [->|Nq].
          * rewrite V in Ec. destruct (dget (a_parts a) p) as [c0|]; simpl in *; [|discriminate].
            f_equal. unfold new_part in *.
            destruct (mem_spec p (dkeys pre)); [tauto|]. injection Ec as <-.
            destruct (mem_spec p (dkeys (pre ++ [(p, f)]))) as [_|NN].
            2: { exfalso. apply NN. apply Dk. auto. }
            assert (Eg : dget (pre ++ [(p, f)]) p = Some f).
            { apply In_dget; auto. apply in_or_app. simpl. auto. }
            unfold outset, inset, dget_or. now rewrite Eg.
          * rewrite V. f_equal. unfold new_part.
            assert (Eg : dget (pre ++ [(p, f)]) q = dget pre q).
            { clear - Nq. induction pre as [|[k v] pre IHp]; simpl.
              - destruct (eqb_spec q p); congruence.
              - destruct (eqb q k); auto. }
            destruct (mem_spec q (dkeys pre)) as [Hq|Hq];
              destruct (mem_spec q (dkeys (pre ++ [(p, f)]))) as [Hq'|Hq']; auto.
            -- unfold outset, inset, dget_or. now rewrite Eg.
            -- exfalso. apply Hq'. apply Dk. auto.
            -- exfalso. apply Dk in Hq'. tauto.
        + intros n Hn. rewrite fold_dset_const. rewrite <- Ein.
          destruct (mem_spec n (inset fl p)) as [Hi|Hi].
          * exfalso. apply (Hn p); auto. apply Dk. auto.
          * apply M0. intros q Hq. apply Hn. apply Dk. auto.
        + intros n q Hq Hn Hu. rewrite fold_dset_const. rewrite <- Ein.
          destruct (mem_spec n (inset fl p)) as [Hi|Hi].
          * f_equal. now apply Hu.
          * apply Dk in Hq. destruct Hq as [Hq| ->]; [|tauto]. now apply M1.
        + intro Hm. apply fold_dset_NoDup. auto.
        + intro Hm. rewrite fold_dset_keys; auto.
          intros n Hn. rewrite MK by auto. apply (Hm n p). now rewrite Ein. }
    destruct W as [K I O L].
    assert (SB : sub fl). { intros p f Hp. now apply In_dget. }
    destruct (HI fl a' K SB H) as (A1 & A2 & A3 & A4 & A5 & A6 & A7).
    split; [exact A1|]. split; [exact A2|]. split; [exact A3|].
    split; [|split; [|split; [exact A6|exact A7]]].
    - intros n Hn. apply A4. intros p _. apply Hn.
    - intros n p Hn Hu. apply A5; auto. apply L. eauto.
  Qed.

  Lemma update_flows_ok a fl :
    (forall p, In p (dkeys fl) -> In p (dkeys (a_parts a))) ->
    exists a', update_flows a fl = Ok a'.
  Proof.
    intro Hk. unfold update_flows.
    apply foldM_progress with (Inv := fun _ b => dkeys (a_parts b) = dkeys (a_parts a)); auto.
    intros pre [p f] acc K Hx. unfold update_flow_step. simpl.
    assert (Hp : In p (dkeys (a_parts acc))).
    { rewrite K. apply Hk. change p with (fst (p, f)). now apply in_map. }
    pose proof Hp as Hp'. apply dget_key in Hp'. destruct Hp' as [cur ->]. simpl.
    eexists. split; [reflexivity|]. simpl. now rewrite dkeys_dset_mem.
  Qed.

  Lemma update_flows_err a fl :
    match update_flows a fl with
    | Ok _ => True | Err e => e = KeyError | NoFuel => False end.
  Proof.
    apply foldM_err. intros acc [p f]. unfold update_flow_step. simpl.
    destruct (dget (a_parts acc) p); simpl; auto.
  Qed.

  (** ** One flip *)

  Lemma flip_inv a flips a' :
    flip_assignment a flips = Ok a' ->
    exists fl, flows_from_changes (a_map a) flips = Ok fl /\ update_flows a fl = Ok a'.
  Proof. intro H. inv_bind H. eauto. Qed.

  Definition overridden (old flips : dict N P) (n : N) : option P :=
    match dget flips n with Some p => Some p | None => dget old n end.

  Theorem flip_district nodes a flips a' :
    coherent nodes a -> is_dict flips -> flip_assignment a flips = Ok a' ->
    forall n, district a' n = overridden (a_map a) flips n.
  Proof.
    intros C D H n. apply flip_inv in H. destruct H as (fl & Hf & Hu).
    apply flows_from_changes_spec in Hf; auto. destruct Hf as [W Dm I O].
    apply update_flows_effect in Hu; auto.
    destruct Hu as (_ & _ & _ & M0 & M1 & _ & _).
    unfold district, overridden.
    destruct (dget flips n) as [p|] eqn:Ep.
    - destruct (eqb_spec (dget (a_map a) n) (Some p)) as [E1|E1].
      + rewrite M0; auto. intros q Hq. apply I in Hq. destruct Hq. congruence.
      + apply (M1 n p); [apply I; auto|]. intros q Hq. apply I in Hq. destruct Hq. congruence.
    - apply M0. intros q Hq. apply I in Hq. destruct Hq. congruence.
  Qed.

  Theorem flip_labels a flips a' :
    is_dict flips -> flip_assignment a flips = Ok a' -> labels a' = labels a.
  Proof.
    intros D H. apply flip_inv in H. destruct H as (fl & Hf & Hu).
    apply flows_from_changes_spec in Hf; auto. destruct Hf as [W _ _ _].
    apply update_flows_effect in Hu; auto. unfold labels. tauto.
  Qed.

  Lemma flip_map_keys nodes a flips a' :
    coherent nodes a -> is_dict flips -> flip_assignment a flips = Ok a' ->
    dkeys (a_map a') = dkeys (a_map a).
  Proof.
    intros C D H. apply flip_inv in H. destruct H as (fl & Hf & Hu).
    apply flows_from_changes_spec in Hf; auto. destruct Hf as [W Dm I O].
    apply update_flows_effect in Hu; auto.
    destruct Hu as (_ & _ & _ & _ & _ & _ & MK). apply MK.
    intros n p Hn. apply Dm. apply I in Hn. destruct Hn as [Hn _].
    eapply dget_Some_key; eauto.
  Qed.

  Theorem flip_coherent nodes a flips a' :
    coherent nodes a -> is_dict flips -> flip_assignment a flips = Ok a' ->
    coherent nodes a'.
  Proof.
    intros C D H.
    pose proof (flip_district _ _ _ _ C D H) as HD.
    pose proof (flip_labels _ _ _ D H) as HL.
    pose proof (flip_map_keys _ _ _ _ C D H) as HK.
    apply flip_inv in H. destruct H as (fl & Hf & Hu).
    apply flows_from_changes_spec in Hf; auto. destruct Hf as [W Dm I O].
    apply update_flows_effect in Hu; auto.
    destruct Hu as (_ & KF & V & _ & _ & MN & _).
    destruct C as [C1 C2 C3 C4 C5].
    assert (V' : forall p s', dget (a_parts a') p = Some s' ->
              exists s, dget (a_parts a) p = Some s /\ NoDup s' /\
                forall n, In n s' <-> (In n s /\ ~ In n (outset fl p)) \/ In n (inset fl p)).
    { intros p s' Hs. rewrite V in Hs. destruct (dget (a_parts a) p) as [s|] eqn:Es;
        simpl in Hs; [|discriminate]. injection Hs as <-. exists s.
      unfold new_part. destruct (mem_spec p (dkeys fl)) as [Hp|Hp].
      - split; auto. split.
        + apply NoDup_sunion. apply NoDup_sdiff. eauto.
        + intro n. rewrite In_sunion, In_sdiff. tauto.
      - split; auto. split; [eauto|]. intro n.
        assert (~ In n (outset fl p)) by (intro; apply Hp; apply (wff_live _ W); eauto).
        assert (~ In n (inset fl p)) by (intro; apply Hp; apply (wff_live _ W); eauto).
        tauto. }
    constructor.
    - auto.
    - now rewrite HL.
    - intro n. now rewrite HK.
    - intros n p. rewrite HD. split.
      + intro Hn. unfold listed.
        assert (In p (dkeys (a_parts a))) as Hp.
        { unfold overridden in Hn. destruct (dget flips n) as [t|] eqn:Et.
          - injection Hn as ->. destruct (eqb_spec (dget (a_map a) n) (Some p)) as [E1|E1].
            + change (district a n = Some p) in E1. apply C4 in E1. destruct E1 as (s & E1 & _).
              eapply dget_Some_key; eauto.
            + apply KF. apply (wff_live _ W). exists n. left. apply I. auto.
          - apply C4 in Hn. destruct Hn as (s & E1 & _). eapply dget_Some_key; eauto. }
        change (dkeys (a_parts a)) with (labels a) in Hp. rewrite <- HL in Hp.
        apply dget_key in Hp. destruct Hp as [s' Hs']. exists s'. split; auto.
        destruct (V' p s' Hs') as (s & Es & _ & Hi). apply Hi.
        unfold overridden in Hn. destruct (dget flips n) as [t|] eqn:Et.
        * injection Hn as ->. destruct (eqb_spec (dget (a_map a) n) (Some p)) as [E1|E1].
          -- left. split.
             ++ apply C4 in E1. destruct E1 as (s1 & E1 & E2). congruence.
             ++ rewrite O. intros (_ & t & Ht & Hne). congruence.
          -- right. apply I. auto.
        * left. split.
          -- apply C4 in Hn. destruct Hn as (s1 & E1 & E2). congruence.
          -- rewrite O. intros (_ & t & Ht & Hne). congruence.
      + intros (s' & Hs' & Hn). destruct (V' p s' Hs') as (s & Es & _ & Hi).
        apply Hi in Hn. unfold overridden. destruct Hn as [[Hn No]|Hn].
        * assert (Hd : district a n = Some p) by (apply C4; exists s; auto).
          unfold district in Hd.
          destruct (dget flips n) as [t|] eqn:Et; auto.
          destruct (eqb_spec t p) as [->|Ne]; auto.
          exfalso. apply No. apply O. eauto.
        * apply I in Hn. destruct Hn as [-> _]. auto.
    - intros p s' Hs'. destruct (V' p s' Hs') as (s & _ & Hn & _). auto.
  Qed.

  Theorem flip_outcome nodes a flips :
    coherent nodes a -> is_dict flips ->
    ((forall n p, dget flips n = Some p -> In n nodes /\ In p (labels a)) ->
       exists a', flip_assignment a flips = Ok a') /\
    ((exists n p, dget flips n = Some p /\ (~ In n nodes \/ ~ In p (labels a))) ->
       flip_assignment a flips = Err KeyError).
  Proof.
    intros C D. split.
    - intro Hall. unfold flip_assignment.
      destruct (flows_from_changes_ok (a_map a) flips) as [fl Hf].
      { intros n Hn. apply (coh_dom _ _ C). apply dget_key in Hn. destruct Hn as [p Hp].
        now destruct (Hall n p Hp). }
      rewrite Hf. simpl. apply update_flows_ok.
      apply flows_from_changes_spec in Hf; auto. destruct Hf as [W Dm I O].
      intros p Hp. apply (wff_live _ W) in Hp. destruct Hp as (n & [Hn|Hn]).
      + apply I in Hn. destruct Hn as [Hn _]. now destruct (Hall n p Hn).
      + apply O in Hn. destruct Hn as [Hn _].
        apply (coh_agree _ _ C) in Hn. destruct Hn as (s & Hs & _).
        eapply dget_Some_key; eauto.
    - intros (n & p & Hp & Hbad).
      pose proof (flows_from_changes_err (a_map a) flips) as E1.
      unfold flip_assignment.
      destruct (flows_from_changes (a_map a) flips) as [fl|e|] eqn:Hf; simpl; [|congruence|tauto].
      pose proof (update_flows_err a fl) as E2.
      destruct (update_flows a fl) as [a'|e|] eqn:Hu; [exfalso|congruence|tauto].
      apply flows_from_changes_spec in Hf; auto. destruct Hf as [W Dm I O].
      apply update_flows_effect in Hu; auto. destruct Hu as (_ & KF & _).
      destruct Hbad as [Hn|Hq].
      + apply Hn. apply (coh_dom _ _ C). apply Dm. eapply dget_Some_key; eauto.
      + apply Hq. destruct (eqb_spec (dget (a_map a) n) (Some p)) as [E3|E3].
        * change (district a n = Some p) in E3. apply (coh_agree _ _ C) in E3.
          destruct E3 as (s & Hs & _). eapply dget_Some_key; eauto.
        * apply KF. apply (wff_live _ W). exists n. left. apply I. auto.
  Qed.

  (** ** Histories *)

  Lemma history_coherent nodes hist : forall a a',
    coherent nodes a -> Forall is_dict hist -> flip_history a hist = Ok a' ->
    coherent nodes a' /\ labels a' = labels a.
  Proof.
    induction hist as [|f hist IH]; simpl; intros a a' C D H.
    - injection H as <-. auto.
    - inversion D; subst. unfold flip_history in H. simpl in H.
      destruct (flip_assignment a f) as [b| |] eqn:Eb; simpl in H; try discriminate.
      pose proof (flip_coherent _ _ _ _ C H2 Eb) as Cb.
      destruct (IH b a' Cb H3 H) as [A1 A2]. split; auto.
      rewrite A2. eapply flip_labels; eauto.
  Qed.
End Flows.

(** ** Building assignments *)

Section Build.
  Context {N P : Type} {EN : EqB N} {EP : EqB P}.

  Lemma level_sets_spec (d : dict N P) :
    is_dict d ->
    NoDup (dkeys (level_sets d)) /\
    (forall p, In p (dkeys (level_sets d)) <-> exists n, dget d n = Some p) /\
    (forall p s, dget (level_sets d) p = Some s -> NoDup s /\ s <> []) /\
    (forall p n, In n (dget_or [] (level_sets d) p) <-> dget d n = Some p).
  Proof.
    intro D.
    assert (H : forall (pre : dict N P), let sets := level_sets pre in
      NoDup (dkeys sets) /\
      (forall p, In p (dkeys sets) <-> exists n, In (n, p) pre) /\
      (forall p s, dget sets p = Some s -> NoDup s /\ s <> []) /\
      (forall p n, In n (dget_or [] sets p) <-> In (n, p) pre)).
    { induction pre as [|[x t] pre IH] using rev_ind; cbv zeta in *.
      - unfold level_sets. simpl. split; [constructor|]. split; [|split]; simpl.
        + intro p. split; [tauto|]. intros (n & []).
        + discriminate.
        + tauto.
      - unfold level_sets in *. rewrite fold_left_app. simpl.
        match goal with |- context [fold_left ?f pre []] =>
          set (sets := fold_left f pre []) in * end. destruct IH as (A & B & C & E).
        split; [now apply NoDup_dset|]. split; [|split].
        + intro p. rewrite In_dkeys_dset, B. split.
          * intros [->|(n & Hn)]; [exists x|exists n]; apply in_or_app; simpl; auto.
          * intros (n & Hn). rewrite in_app_iff in Hn. simpl in Hn.
            destruct Hn as [Hn|[[= -> ->]|[]]]; eauto.
        + intros p s. rewrite dget_dset. destruct (eqb_spec p t) as [->|Np].
          * intros [= <-]. split.
            -- apply NoDup_sadd. unfold dget_or. destruct (dget sets t) eqn:E1; [|constructor].
               eapply C; eauto.
            -- unfold sadd. intro E2.
               assert (In x (sadd x (dget_or [] sets t))) as E3 by (apply In_sadd; auto).
               unfold sadd in E3. rewrite E2 in E3. destruct E3.
          * apply C.
        + intros p n. unfold dget_or at 1. rewrite dget_dset, in_app_iff. simpl.
          destruct (eqb_spec p t) as [->|Np].
          * rewrite In_sadd, E. split.
            -- intros [->|]; auto.
            -- intros [|[[= ->]|[]]]; auto.
          * change (match dget sets p with Some v => v | None => [] end)
              with (dget_or [] sets p). rewrite E. split; auto.
            intros [|[[= -> ->]|[]]]; congruence. }
    destruct (H d) as (A & B & C & E). split; auto. split; [|split]; auto.
    - intro p. rewrite B. split; intros (n & Hn); exists n;
        [now apply In_dget | now apply dget_In].
    - intros p n. rewrite E. symmetry. now apply dget_iff.
  Qed.

  Lemma NoDup_length_concat (ls : list (list N)) :
    (forall l, In l ls -> NoDup l) ->
    List.length (set_of (concat ls)) = list_sum (map (@List.length N) ls) <->
    NoDup (concat ls).
  Proof.
    intro H. assert (E : list_sum (map (@List.length N) ls) = List.length (concat ls)).
    { clear H. induction ls as [|l ls IH]; simpl; auto. rewrite app_length. lia. }
    rewrite E. split.
    - intro Hl. apply NoDup_incl_NoDup with (l := set_of (concat ls)).
      + apply NoDup_set_of.
      + lia.
      + intros x Hx. now apply (proj1 (In_set_of x (concat ls))).
    - intro ND. now rewrite set_of_NoDup_id.
  Qed.

  Definition parts_disjoint (parts : dict P (list N)) : Prop :=
    forall p q s t n, dget parts p = Some s -> dget parts q = Some t ->
      In n s -> In n t -> p = q.

  Lemma NoDup_app_iff {A} (l1 l2 : list A) :
    NoDup (l1 ++ l2) <-> NoDup l1 /\ NoDup l2 /\ (forall x, In x l1 -> ~ In x l2).
  Proof.
    induction l1 as [|a l1 IH]; simpl.
    - split; [intro H; split; [constructor|split; auto]|tauto].
    - rewrite !NoDup_cons_iff, IH, in_app_iff. split.
      + intros (A1 & A2 & A3 & A4). split; [tauto|]. split; [auto|].
        intros x [<-|Hx]; auto.
      + intros ((A1 & A2) & A3 & A4). split; [|split; [auto|split; [auto|]]].
        * intros [H|H]; [tauto|]. apply (A4 a); auto.
        * intros x Hx. apply A4. auto.
  Qed.

  Lemma concat_NoDup_disjoint (parts : dict P (list N)) :
    NoDup (dkeys parts) -> (forall p s, dget parts p = Some s -> NoDup s) ->
    (NoDup (concat (dvals parts)) <-> parts_disjoint parts).
  Proof.
    intros K S. induction parts as [|[p s] parts IH]; simpl.
    - split; [intros _ p q s t n H; discriminate | constructor].
    - inversion K; subst.
      assert (S' : forall q t, dget parts q = Some t -> NoDup t).
      { intros q t Hq. apply (S q). simpl. destruct (eqb_spec q p); auto. subst.
        exfalso. apply H1. eapply dget_Some_key; eauto. }
      specialize (IH H2 S'). rewrite NoDup_app_iff, IH. split.
      + intros (A & B & C) q1 q2 s1 s2 n. simpl.
        destruct (eqb_spec q1 p), (eqb_spec q2 p); subst; auto.
        * intros [= <-] E2 I1 I2. exfalso. apply (C n I1).
          apply in_concat. exists s2. split; auto. apply dget_In in E2.
          now apply (in_map snd) in E2.
        * intros E1 [= <-] I1 I2. exfalso. apply (C n I2).
          apply in_concat. exists s1. split; auto. apply dget_In in E1.
          now apply (in_map snd) in E1.
        * apply B.
      + intro Dj. split; [|split].
        * apply (S p). simpl. now rewrite eqb_refl.
        * intros q1 q2 s1 s2 n E1 E2. apply Dj; simpl.
          -- destruct (eqb_spec q1 p); auto. subst. exfalso. apply H1. eapply dget_Some_key; eauto.
          -- destruct (eqb_spec q2 p); auto. subst. exfalso. apply H1. eapply dget_Some_key; eauto.
        * intros x Hx Hc. apply in_concat in Hc. destruct Hc as (t & Ht & Hxt).
          unfold dvals in Ht. apply in_map_iff in Ht. destruct Ht as ([q t'] & <- & Hq).
          simpl in Hxt. apply H1. replace p with q.
          -- change q with (fst (q, t')). now apply in_map.
          -- symmetry. apply (Dj p q s t' x); auto; simpl.
             ++ now rewrite eqb_refl.
             ++ destruct (eqb_spec q p); [subst|now apply In_dget].
                exfalso. apply H1. change p with (fst (p, t')). now apply in_map.
  Qed.

  Lemma mapping_of_parts_spec (parts : dict P (list N)) :
    NoDup (dkeys parts) -> parts_disjoint parts ->
    NoDup (dkeys (mapping_of_parts parts)) /\
    forall n p, dget (mapping_of_parts parts) n = Some p <->
                exists s, dget parts p = Some s /\ In n s.
  Proof.
    intros K Dj.
    assert (H : forall (pre : dict P (list N)) (m : dict N P), NoDup (dkeys m) ->
      let r := fold_left (fun m pn => fold_left (fun m n => dset m n (fst pn)) (snd pn) m) pre m in
      NoDup (dkeys r) /\
      (forall n p, dget r n = Some p ->
         (exists s, In (p, s) pre /\ In n s) \/ dget m n = Some p) /\
      (forall n, (exists p s, In (p, s) pre /\ In n s) -> exists p, dget r n = Some p) /\
      (forall n p, dget m n = Some p -> exists p', dget r n = Some p')).
    { induction pre as [|[p s] pre IH]; simpl; intros m Hm.
      - split; auto. split; auto. split; eauto. intros n (p & s & [] & _).
      - destruct (IH (fold_left (fun m n => dset m n p) s m)) as (A & B & C & E).
        { now apply fold_dset_NoDup. }
        split; auto. split; [|split].
        + intros n q Hq. apply B in Hq. destruct Hq as [(t & H1 & H2)|Hq].
          * left. exists t. auto.
          * rewrite fold_dset_const in Hq. destruct (mem_spec n s).
            -- injection Hq as <-. left. exists s. auto.
            -- auto.
        + intros n (q & t & [[= <- <-]|H1] & H2).
          * apply (E n p). rewrite fold_dset_const. now destruct (mem_spec n s).
          * apply C. eauto.
        + intros n q Hq. destruct (mem_spec n s) as [Hs|Hs].
          * apply (E n p). rewrite fold_dset_const. now destruct (mem_spec n s).
          * apply (E n q). rewrite fold_dset_const. now destruct (mem_spec n s). }
    destruct (H parts [] (NoDup_nil _)) as (A & B & C & E). split; auto.
    intros n p. unfold mapping_of_parts. split.
    - intro Hn. apply B in Hn. destruct Hn as [(s & H1 & H2)|Hn]; [|discriminate].
      exists s. split; auto. now apply In_dget.
    - intros (s & H1 & H2). destruct (C n) as (q & Hq).
      { exists p, s. split; auto. now apply dget_In. }
      rewrite Hq. f_equal. apply B in Hq. destruct Hq as [(t & H3 & H4)|Hq]; [|discriminate].
      eapply Dj; eauto. now apply In_dget.
  Qed.

  Theorem assignment_init_spec (parts : dict P (list N)) :
    is_dict parts -> (forall p s, dget parts p = Some s -> NoDup s) ->
    (parts_disjoint parts ->
       exists a, assignment_init parts = Ok a /\ a_parts a = parts /\
         (forall n p, district a n = Some p <-> listed a p n) /\
         NoDup (dkeys (a_map a))) /\
    (~ parts_disjoint parts -> assignment_init parts = Err ValueError).
  Proof.
    intros K S. unfold assignment_init, parts_len.
    assert (E : map (fun pn => List.length (snd pn)) parts =
                map (@List.length N) (dvals parts)).
    { unfold dvals. now rewrite map_map. }
    rewrite E.
    assert (HS : forall l, In l (dvals parts) -> NoDup l).
    { intros l Hl. unfold dvals in Hl. apply in_map_iff in Hl.
      destruct Hl as ([p s] & <- & Hp). simpl. apply (S p). now apply In_dget. }
    pose proof (NoDup_length_concat (dvals parts) HS) as HC.
    pose proof (concat_NoDup_disjoint parts K S) as HD.
    destruct (Nat.eqb_spec (list_sum (map (@List.length N) (dvals parts)))
                      (List.length (set_of (concat (dvals parts))))) as [Heq|Hne].
    - assert (Dj : parts_disjoint parts) by (apply HD, HC; auto).
      split; [intros _|tauto].
      eexists. split; [reflexivity|]. simpl. split; auto.
      destruct (mapping_of_parts_spec parts K Dj) as [A B]. split; auto.
    - split; auto. intro Dj. exfalso. apply Hne. symmetry. apply HC, HD, Dj.
  Qed.

  Theorem from_dict_spec (d : dict N P) :
    is_dict d ->
    exists a, from_dict d = Ok a /\ coherent (dkeys d) a /\
      (forall n, district a n = dget d n) /\
      (forall p, In p (labels a) <-> exists n, dget d n = Some p) /\
      (forall p s, dget (a_parts a) p = Some s -> s <> []).
  Proof.
    intro D. destruct (level_sets_spec d D) as (K & L & S & E).
    destruct (assignment_init_spec (level_sets d)) as [A _]; auto.
    { intros p s Hs. now apply (S p s). }
    destruct A as (a & Ha & Hp & Hag & Hn).
    { intros p q s t n H1 H2 I1 I2.
      assert (dget d n = Some p) by (apply E; unfold dget_or; now rewrite H1).
      assert (dget d n = Some q) by (apply E; unfold dget_or; now rewrite H2).
      congruence. }
    assert (HD : forall n p, district a n = Some p <-> dget d n = Some p).
    { intros n p. rewrite Hag. unfold listed. rewrite Hp. split.
      - intros (s & H1 & H2). apply E. unfold dget_or. now rewrite H1.
      - intro Hd. apply E in Hd. unfold dget_or in Hd.
        destruct (dget (level_sets d) p) as [s|]; [eauto|destruct Hd]. }
    assert (HD' : forall n, district a n = dget d n).
    { intro n. destruct (district a n) as [p|] eqn:E1.
      - symmetry. now apply HD.
      - destruct (dget d n) as [p|] eqn:E2; auto. apply HD in E2. congruence. }
    exists a. split; auto. split; [|split; [auto|split]].
    - constructor; auto.
      + unfold labels. now rewrite Hp.
      + intro n. rewrite !dget_key. change (dget (a_map a) n) with (district a n).
        rewrite HD'. tauto.
      + intros p s. rewrite Hp. intro Hs. now apply (S p s).
    - intro p. unfold labels. rewrite Hp. apply L.
    - intros p s. rewrite Hp. intro Hs. now apply (S p s).
  Qed.

  Lemma coherent_total nodes (a : assignment N P) :
    NoDup nodes -> coherent nodes a -> parts_len (a_parts a) = List.length nodes.
  Proof.
    intros ND C. unfold parts_len.
    assert (E : map (fun pn => List.length (snd pn)) (a_parts a) =
                map (@List.length N) (dvals (a_parts a))).
    { unfold dvals. now rewrite map_map. }
    rewrite E.
    assert (E2 : list_sum (map (@List.length N) (dvals (a_parts a))) =
                 List.length (concat (dvals (a_parts a)))).
    { generalize (dvals (a_parts a)). induction l as [|l ls IH]; simpl; auto.
      rewrite app_length. lia. }
    rewrite E2. apply Permutation.Permutation_length.
    apply NoDup_Permutation; auto.
    - apply concat_NoDup_disjoint; try apply C.
      intros p q s t n H1 H2 I1 I2.
      assert (district a n = Some p) by (apply (coh_agree _ _ C); exists s; auto).
      assert (district a n = Some q) by (apply (coh_agree _ _ C); exists t; auto).
      congruence.
    - intro x. rewrite in_concat. rewrite <- (coh_dom _ _ C). split.
      + intros (l & Hl & Hx). unfold dvals in Hl. apply in_map_iff in Hl.
        destruct Hl as ([p s] & <- & Hp). simpl in Hx.
        assert (district a x = Some p) as Hd.
        { apply (coh_agree _ _ C). exists s. split; auto. apply In_dget; auto. apply C. }
        eapply dget_Some_key; eauto.
      + intro Hx. apply dget_key in Hx. destruct Hx as [p Hp].
        apply (coh_agree _ _ C) in Hp. destruct Hp as (s & Hs & Hx).
        exists s. split; auto. apply dget_In in Hs. now apply (in_map snd) in Hs.
  Qed.

  (** A finite table of parts either has an overlap or is disjoint. *)
  Lemma overlap_or_disjoint (parts : dict P (list N)) :
    is_dict parts ->
    parts_disjoint parts \/
    exists p q s t n, In (p, s) parts /\ In (q, t) parts /\ p <> q /\ In n s /\ In n t.
  Proof.
    intro D.
    assert (X : forall l1 l2 : dict P (list N),
      (exists p q s t n, In (p, s) l1 /\ In (q, t) l2 /\ p <> q /\ In n s /\ In n t) \/
      (forall p q s t n, In (p, s) l1 -> In (q, t) l2 -> In n s -> In n t -> p = q)).
    { induction l1 as [|[p s] l1 IH]; intro l2.
      - right. intros p q s t n [].
      - destruct (IH l2) as [(p' & q & s' & t & n & I & J)|IH1].
        + left. exists p', q, s', t, n. simpl. tauto.
        + assert (Y : forall l2 : dict P (list N),
            (exists q t n, In (q, t) l2 /\ p <> q /\ In n s /\ In n t) \/
            (forall q t n, In (q, t) l2 -> In n s -> In n t -> p = q)).
          { clear - EN EP. induction l2 as [|[q t] l2 IH].
            - right. intros q t n [].
            - destruct IH as [(q' & t' & n & I)|IH].
              + left. exists q', t', n. simpl. tauto.
              + destruct (eqb_spec p q) as [->|Ne].
                * right. intros q' t' n [[= <- <-]|I]; eauto.
                * destruct (existsb (fun n => mem n t) s) eqn:Ex.
                  -- apply existsb_exists in Ex. destruct Ex as (n & I & J).
                     apply mem_In in J. left. exists q, t, n. simpl. auto.
                  -- right. intros q' t' n [[= <- <-]|I] I1 I2; eauto.
                     exfalso. assert (existsb (fun n => mem n t) s = true); [|congruence].
                     apply existsb_exists. exists n. split; auto. now apply mem_In. }
          destruct (Y l2) as [(q & t & n & I)|Y1].
          * left. exists p, q, s, t, n. simpl. tauto.
          * right. intros p' q s' t n [[= <- <-]|I] J I1 I2; eauto. }
    destruct (X parts parts) as [B|B]; auto.
    left. intros p q s t n E1 E2 I1 I2.
    apply (B p q s t n); auto; now apply dget_In.
  Qed.

  Theorem first_time_spec (g : graph N) (d : dict N P) :
    is_dict d ->
    ((forall n, In n (dkeys d) <-> In n (g_nodes g)) ->
       exists a, first_time_assignment g d = Ok a /\ from_dict d = Ok a) /\
    (~ (forall n, In n (dkeys d) <-> In n (g_nodes g)) ->
       first_time_assignment g d = Err KeyError).
  Proof.
    intro D. destruct (from_dict_spec d D) as (a & Ha & C & _).
    unfold first_time_assignment. rewrite Ha. simpl.
    assert (E : seteqb (dkeys (a_map a)) (g_nodes g) = true <->
                (forall n, In n (dkeys d) <-> In n (g_nodes g))).
    { rewrite seteqb_spec. split; intros H n.
      - rewrite <- (coh_dom _ _ C). apply H.
      - rewrite (coh_dom _ _ C). apply H. }
    destruct (seteqb (dkeys (a_map a)) (g_nodes g)) eqn:E1.
    - split; [eauto|]. intro Hn. exfalso. apply Hn. now apply E.
    - split; auto. intro H. apply E in H. discriminate.
  Qed.
End Build.
