(** C113: chains of recombination steps. *)
From Coq Require Import String List Bool Arith ZArith QArith Qabs Lqa Lia ZifyBool ZifyNat.
From Verif Require Import Base M_Graph M_Partition S_Partition L_Partition M_Machine S_Machine L_Sums
  L_Cuts L_Machine L_Answers S_Contiguity L_Search P_Partition P_Machine M_Constraints P_Constraints M_Chain P_Chain
  M_Election L_Order M_Proposals S_Proposals M_Contiguity
  M_Tree S_Tree S_TreeCuts L_Tree P_Tree P_Contiguity P_Spanning P_Proposals P_Bipartition M_Recursive P_Recursive
  M_Recom P_Recom P_Reversible M_Script.
Import ListNotations.
Local Open Scope nat_scope.
Local Open Scope list_scope.

Section Chain.
  Context {N P V L R : Type} {EN : EqB N} {EP : EqB P} {EL : EqB L} {ON : Ord N} {OP : Ord P} {RV : CRing V}.
  Variable E : env N P V L.
  Notation g := (e_graph E).
  Notation W := (heap N P V L * R)%type.
  Variable pop : dict N Z.

  (** ** Specification *)
  (** District [p] has the same nodes in both plans. *)
  Definition same_district (A A' : assignment N P) (p : P) : Prop :=
    forall n, district A' n = Some p <-> district A n = Some p.
  (** District [p] has a population within [eps] of [target]. *)
  Definition in_balance (A : assignment N P) (target eps : Q) (p : P) : Prop :=
    balanced_set (popn pop) target eps (in_district A p).

  (** ** What one proposal of recom preserves *)
  Section Step.
    Hypothesis Hpop : covers pop g.
    Hypothesis Hu : dget (e_updaters E) "cut_edges"%string = Some UCutEdges.
    Variables (target eps : Q).

    Lemma flip_kept a f (h : heap N P V L) : kept h (snd (flip E a f h)).
    Proof.
      destruct (flip_heap_cases E h a f) as [[-> _]|(x & o' & _ & -> & _)].
      - apply kept_refl.
      - simpl. apply kept_app.
    Qed.
    Lemma recom_kept method draws fuel a o h : session E h -> nth_error h a = Some o ->
      kept h (snd (recom E pop method draws target eps fuel a h)).
    Proof.
      intros S Ho.
      destruct (recom_start E pop h a o S Ho method draws target eps Hu) as (cuts & h1 & S1 & K & _ & _ & Er).
      rewrite Er. unfold bindM, lift.
      destruct (recom_loop _ _ _ _ _ _ _ _ _ _ _ _ _) as [f|x|]; [|exact K|exact K].
      pose proof (flip_kept a f h1) as K2. destruct (flip E a f h1) as [b h2]. eapply kept_trans; eauto.
    Qed.

    Lemma balanced_nonempty A p : (0 < target)%Q -> (eps < 1)%Q -> in_balance A target eps p ->
      exists n, in_district A p n.
    Proof.
      intros T Ep (x & (s & ND & Hs & ->) & B). destruct s as [|n s].
      - exfalso. unfold S_Tree.balanced in B. cbn [map] in B.
        change (vsum (@nil Z)) with 0%Z in B. rewrite Qabs_Qminus in B.
        assert (Y : (target - inject_Z 0 == target)%Q) by (change (inject_Z 0) with 0%Q; ring). rewrite Y in B.
        rewrite Qabs_pos in B by lra. nra.
      - exists n. apply Hs. now left.
    Qed.

    (** What is preserved: connectedness, and each district is one of the first
        plan or in balance. *)
    Definition preserved (A0 A : assignment N P) : Prop :=
      (contiguous_plan g A0 -> contiguous_plan g A) /\
      (forall p, In p (labels A0) -> same_district A0 A p \/ in_balance A target eps p).

    (** Proposal [b] is the plan [a] itself, or a plan that redraws two districts
        of it and leaves both connected and in balance. *)
    Definition redraws (a : nat) (o : pobj N P V L) (h : heap N P V L) (b : nat) (h' : heap N P V L) : Prop :=
      session E h' /\ kept h h' /\
      (b = a \/ exists o' p q, nth_error h' b = Some o' /\ redrawn (o_assign o) p q (o_assign o') /\
         forall x, x = p \/ x = q -> connected_on g (in_district (o_assign o') x) /\ in_balance (o_assign o') target eps x).

    Lemma redraws_preserved a o h b h' A0 :
      (0 < target)%Q -> (eps < 1)%Q ->
      nth_error h a = Some o -> labels (o_assign o) = labels A0 ->
      preserved A0 (o_assign o) -> redraws a o h b h' ->
      exists o', nth_error h' b = Some o' /\ labels (o_assign o') = labels A0 /\ preserved A0 (o_assign o').
    Proof.
      intros T Ep Ho Lab [P1 P2] (S' & K & Cs).
      destruct (K a o Ho) as (o1 & Ho1 & E1 & _).
      destruct Cs as [->|(o' & p & q & Ho' & [Rd1 Rd2] & Good)].
      { exists o1. rewrite E1. split; auto. split; auto. split; auto. }
      destruct (session_labels E h' S') as [ls Hls].
      assert (Lab' : labels (o_assign o') = labels A0).
      { rewrite (Hls b o' Ho'), <- (Hls a o1 Ho1), E1. exact Lab. }
      destruct (Good p (or_introl eq_refl)) as [C1 B1]. destruct (Good q (or_intror eq_refl)) as [C2 B2].
      assert (Other : forall x, x <> p -> x <> q -> same_district (o_assign o) (o_assign o') x).
      { intros x X1 X2 n. destruct (district (o_assign o) n) as [y|] eqn:Dn.
        - destruct (eqb_spec y p) as [->|Y1]; [|destruct (eqb_spec y q) as [->|Y2]].
          + destruct (Rd2 n (or_introl Dn)) as [-> | ->]; split; congruence.
          + destruct (Rd2 n (or_intror Dn)) as [-> | ->]; split; congruence.
          + rewrite Rd1; [|congruence|congruence]. now rewrite Dn.
        - rewrite Rd1; [|congruence|congruence]. now rewrite Dn. }
      exists o'. split; auto. split; auto. split.
      - intros C0 x Hx. rewrite Lab' in Hx. rewrite <- Lab in Hx.
        destruct (eqb_spec x p) as [->|X1]; [|destruct (eqb_spec x q) as [->|X2]].
        + split; [|exact C1]. eapply balanced_nonempty; eauto.
        + split; [|exact C2]. eapply balanced_nonempty; eauto.
        + destruct (P1 C0 x Hx) as [(n & Hn) Cx]. split.
          * exists n. apply Other; auto.
          * eapply connected_on_ext; [|exact Cx]. intro m. symmetry. apply Other; auto.
      - intros x Hx. destruct (eqb_spec x p) as [->|X1]; [now right|].
        destruct (eqb_spec x q) as [->|X2]; [now right|].
        destruct (P2 x Hx) as [D|D].
        + left. intro n. rewrite (Other x X1 X2 n). apply D.
        + right. eapply balanced_set_ext; [|exact D]. intro n. symmetry. apply Other; auto.
    Qed.

    Lemma recom_redraws method draws fuel a o h b h' :
      inside method -> splits_connected method ->
      session E h -> nth_error h a = Some o ->
      recom E pop method draws target eps fuel a h = (Ok b, h') ->
      redraws a o h b h' /\ exists o', nth_error h' b = Some o' /\ o_parent o' = Some a.
    Proof.
      intros Ins Spl S Ho H.
      destruct (C46_sound E pop Hpop h a o S Ho method draws target eps Hu fuel b h' H)
        as (o' & p & q & S' & Ho' & Par & Npq & Ad & Rd & B1 & B2 & Con).
      destruct (Con Ins Spl) as [C1 C2].
      pose proof (recom_kept method draws fuel a o h S Ho) as K. rewrite H in K. cbn [snd] in K.
      split; [|exists o'; auto]. split; auto. split; auto. right. exists o', p, q. split; auto. split; auto.
      intros x [-> | ->]; auto.
    Qed.

    Lemma reversible_redraws balance tree weights draws fuel max repeat bound r1 r2 r3 u a o h b h' :
      cut_search balance ->
      (forall nodes p q, (forall n, In n nodes <-> district (o_assign o) n = Some p \/ district (o_assign o) n = Some q) ->
         samples (subgraph g nodes) (tree (subgraph g nodes))) ->
      session E h -> nth_error h a = Some o ->
      reversible_recom E pop balance tree target eps weights draws fuel max repeat bound r1 r2 r3 u a h = (Ok b, h') ->
      redraws a o h b h'.
    Proof.
      intros HB HS S Ho H.
      assert (Self : (Ok b, h') = (Ok a, h) -> redraws a o h b h').
      { intros [= -> ->]. split; auto. split; [apply kept_refl|now left]. }
      destruct (choice r1 (list_prod (labels (o_assign o)) (labels (o_assign o)))) as [[p q]|x|] eqn:Hc.
      - destruct (eqb_spec p q) as [Epq|Npq].
        { apply Self. rewrite <- H. eapply C48_self_loop; eauto. }
        destruct (dist_pair_edges E (o_assign o) p q) as [|e l] eqn:Hd.
        { apply Self. rewrite <- H. eapply C48_self_loop; eauto. right. rewrite <- (seam_some E weights draws fuel (o_assign o) p q). congruence. }
        assert (Ad : adjacent g (o_assign o) p q) by (apply (seam_some E weights draws fuel (o_assign o) p q); congruence).
        destruct (C48_outcome E pop Hpop balance tree target eps weights draws fuel max repeat bound h a o S Ho r1 r2 r3 u p q HB
                    (fun nodes Hn => HS nodes p q Hn) Hc Npq Ad) as (nodes & _ & _ & Out).
        destruct (found E pop balance tree target eps weights draws fuel max repeat nodes) as [cuts|x|].
        + destruct cuts as [|c0 cuts]; [apply Self; now rewrite <- H|].
          destruct (Nat.ltb bound (List.length (c0 :: cuts))); [rewrite H in Out; discriminate|].
          destruct Out as (b1 & h1 & o' & c & x & seam & prob & _ & _ & _ & S1 & K1 & Ho1 & _ & Rd & Good & _ & _ & _ & _ & Y & Z).
          destruct (Qlt_le_dec u prob) as [U|U].
          * rewrite (Y U) in H. injection H as <- <-. split; auto. split; auto. right. exists o', p, q. auto.
          * rewrite (Z U) in H. injection H as <- <-. split; auto.
        + rewrite H in Out. discriminate.
        + rewrite H in Out. discriminate.
      - exfalso. unfold reversible_recom in H. rewrite (get_bind h a o) in H by exact Ho. cbn zeta in H.
        unfold labels in Hc. rewrite Hc in H. discriminate.
      - exfalso. unfold reversible_recom in H. rewrite (get_bind h a o) in H by exact Ho. cbn zeta in H.
        unfold labels in Hc. rewrite Hc in H. discriminate.
    Qed.
  End Step.

  (** C113. From a connected plan recom only proposes plans that the constraint
      [contiguous] accepts. *)
  Theorem C113_contiguous_passes : forall target eps method draws fuel a o h b h',
    covers pop g -> dget (e_updaters E) "cut_edges"%string = Some UCutEdges ->
    (0 < target)%Q -> (eps < 1)%Q -> inside method -> splits_connected method ->
    session E h -> nth_error h a = Some o -> contiguous_plan g (o_assign o) ->
    recom E pop method draws target eps fuel a h = (Ok b, h') ->
    contiguous_at E b h' = Ok true.
  Proof.
    intros target eps method draws fuel a o h b h' Hpop Hu T Ep Ins Spl S Ho Cg H.
    destruct (recom_redraws Hpop Hu target eps method draws fuel a o h b h' Ins Spl S Ho H) as (Rd & o' & Ho' & Par).
    destruct (redraws_preserved target eps a o h b h' (o_assign o) T Ep Ho eq_refl) as (o2 & Ho2 & _ & Pc & _); auto.
    { split; auto. intros p _. left. intro n. reflexivity. }
    destruct Rd as (S' & K & _). destruct (K a o Ho) as (o1 & Ho1 & E1 & _).
    rewrite Ho' in Ho2. injection Ho2 as <-.
    apply (C29_contiguous_object E h' b o' a o1 S' Ho' Par Ho1); [now rewrite E1|auto].
  Qed.

  (** ** Along a chain *)
  Section Run.
    Variables (target eps : Q).
    Hypothesis Ht : (0 < target)%Q.
    Hypothesis He : (eps < 1)%Q.
    Variable proposal : nat -> W -> res nat * W.
    Hypothesis proposes : forall a o (w : W) b w', session E (fst w) -> nth_error (fst w) a = Some o ->
      proposal a w = (Ok b, w') -> redraws target eps a o (fst w) b (fst w').
    Variable accept : nat -> W -> res pyval * W.
    Variable cs : list (constraint nat W).
    Variable body : nat -> W -> W.
    Hypothesis accept_ok : forall a, well_behaved E (accept a).
    Hypothesis cs_ok : forall c a, In c cs -> well_behaved E (c a).
    Hypothesis body_ok : forall a, well_behaved E (fun w => (tt, body a w)).

    Definition kept_shape (A0 : assignment N P) (h : heap N P V L) (a : nat) : Prop :=
      exists o, nth_error h a = Some o /\ labels (o_assign o) = labels A0 /\
                preserved target eps A0 (o_assign o).

    Lemma exec_keeps_shape A0 h a ops : session E h -> Forall wf_op ops ->
      kept_shape A0 h a -> kept_shape A0 (exec E ops h) a.
    Proof.
      clear. intros S F (o & Ho & Hl & Hp). pose proof (session_wf E h S) as Wf. destruct S as (WE & REG & _).
      destruct (proj1 (exec_persists E ops h WE REG F Wf) a o Ho) as (o' & H1 & H2 & _).
      exists o'. rewrite H2. auto.
    Qed.

    Lemma proposal_keeps A0 a (w : W) b w' : good E (kept_shape A0) w a -> proposal a w = (Ok b, w') ->
      good E (kept_shape A0) w' a /\ good E (kept_shape A0) w' b.
    Proof.
      intros [S (o & Ho & Hl & Hp)] H. pose proof (proposes a o w b w' S Ho H) as Rd.
      destruct (redraws_preserved target eps a o (fst w) b (fst w') A0 Ht He Ho Hl Hp Rd) as (o' & Ho' & L' & P').
      destruct Rd as (S' & K & _).
      destruct (K a o Ho) as (o1 & Ho1 & E1 & _). split; (split; [exact S'|]).
      - exists o1. rewrite E1. auto.
      - exists o'. auto.
    Qed.

    Lemma erase_keeps A0 a x (w : W) : good E (kept_shape A0) w x -> good E (kept_shape A0) (erase_link a w) x.
    Proof.
      clear. intros [S K]. split; [now apply session_erase|].
      apply (exec_keeps_shape A0 (fst w) x [OErase a] S); [repeat constructor|exact K].
    Qed.

    Lemma step_keeps A0 a w b w' : step proposal accept erase_link cs a w b w' ->
      good E (kept_shape A0) w a -> good E (kept_shape A0) w' b.
    Proof.
      induction 1 as [w y w1 w2 x' w' Hp Hr _ IH|w y w1 w2 v w' Hp Hv Ha _|w y w1 w2 v w' Hp Hv Ha _]; intro G;
        destruct (proposal_keeps A0 a w y w1 G Hp) as [Ga Gy];
        apply (erase_keeps A0 a) in Ga; apply (erase_keeps A0 a) in Gy.
      - apply IH. eapply (rejected_keeps E cs cs_ok); eauto. apply exec_keeps_shape.
      - replace w' with (snd (accept y w2)) by (now rewrite Ha). apply wb_keeps; auto; [apply exec_keeps_shape|].
        eapply (all_true_keeps E cs cs_ok); eauto; [apply exec_keeps_shape|apply incl_refl].
      - replace w' with (snd (accept y w2)) by (now rewrite Ha). apply wb_keeps; auto; [apply exec_keeps_shape|].
        eapply (all_true_keeps E cs cs_ok); eauto; [apply exec_keeps_shape|apply incl_refl].
    Qed.

    Lemma run_keeps n fuel ch w ys en ch' w' o0 :
      ch_valid ch = Reusable cs -> session E (fst w) -> nth_error (fst w) (ch_initial ch) = Some o0 ->
      for_loop proposal accept erase_link n fuel body ch w = (ys, en, ch', w') ->
      forall a v, In (a, v) ys -> good E (kept_shape (o_assign o0)) v a.
    Proof.
      intros Hv S Ho Hl a v Hi.
      destruct (C37_steps proposal accept erase_link n fuel body ch w ys en ch' w' cs Hv Hl) as [->|(rest & -> & HL)].
      { destruct Hi. }
      assert (G0 : good E (kept_shape (o_assign o0)) w (ch_initial ch)).
      { split; auto. exists o0. split; auto. split; auto. split; auto. intros p _. left. intro n0. reflexivity. }
      assert (Main : forall rest x w, linked proposal accept erase_link cs body (x, w) rest ->
                good E (kept_shape (o_assign o0)) w x ->
                forall a v, In (a, v) rest -> good E (kept_shape (o_assign o0)) v a).
      { clear - accept_ok cs_ok body_ok proposes Ht He.
        induction rest as [|[y u] rest IH]; intros x w HL G a v Hj; [destruct Hj|].
        inversion HL; subst.
        assert (G1 : good E (kept_shape (o_assign o0)) (body x w) x).
        { apply (wb_keeps E (kept_shape (o_assign o0)) (fun w => (tt, body x w)) w x
                   (exec_keeps_shape (o_assign o0)) (body_ok x) G). }
        assert (G2 : good E (kept_shape (o_assign o0)) u y) by (eapply step_keeps; eauto).
        destruct Hj as [[= <- <-]|Hj]; eauto. }
      destruct Hi as [[= <- <-]|Hi]; eauto.
    Qed.

    Lemma run_preserved n fuel ch w ys en ch' w' o0 :
      ch_valid ch = Reusable cs -> session E (fst w) -> nth_error (fst w) (ch_initial ch) = Some o0 ->
      for_loop proposal accept erase_link n fuel body ch w = (ys, en, ch', w') ->
      forall a v, In (a, v) ys -> exists o, nth_error (fst v) a = Some o /\
        labels (o_assign o) = labels (o_assign o0) /\
        (contiguous_plan g (o_assign o0) -> contiguous_plan g (o_assign o)) /\
        (forall p, In p (labels (o_assign o0)) ->
           same_district (o_assign o0) (o_assign o) p \/ in_balance (o_assign o) target eps p).
    Proof.
      intros Hv S Ho Hl a v Hi.
      destruct (run_keeps n fuel ch w ys en ch' w' o0 Hv S Ho Hl a v Hi) as [_ (o & H1 & H2 & H3 & H4)].
      exists o. auto.
    Qed.

    (** In particular a balanced plan stays balanced without a population
        constraint. *)
    Lemma run_balanced n fuel ch w ys en ch' w' o0 :
      ch_valid ch = Reusable cs -> session E (fst w) -> nth_error (fst w) (ch_initial ch) = Some o0 ->
      (forall p, In p (labels (o_assign o0)) -> in_balance (o_assign o0) target eps p) ->
      for_loop proposal accept erase_link n fuel body ch w = (ys, en, ch', w') ->
      forall a v, In (a, v) ys -> exists o, nth_error (fst v) a = Some o /\
        forall p, In p (labels (o_assign o)) -> in_balance (o_assign o) target eps p.
    Proof.
      intros Hv S Ho Hb Hl a v Hi.
      destruct (run_preserved n fuel ch w ys en ch' w' o0 Hv S Ho Hl a v Hi) as (o & H1 & H2 & _ & H4).
      exists o. split; auto. intros p Hp. rewrite H2 in Hp. destruct (H4 p Hp) as [D|D]; auto.
      eapply balanced_set_ext; [|exact (Hb p Hp)]. intro n0. symmetry. apply D.
    Qed.
  End Run.

  (** ** The two kinds of recombination chains *)
  Section Chains.
    Hypothesis Hpop : covers pop g.
    Variables (target eps : Q).
    Hypothesis Ht : (0 < target)%Q.
    Hypothesis He : (eps < 1)%Q.
    Variable accept : nat -> W -> res pyval * W.
    Variable cs : list (constraint nat W).
    Variable body : nat -> W -> W.
    Hypothesis accept_ok : forall a, well_behaved E (accept a).
    Hypothesis cs_ok : forall c a, In c cs -> well_behaved E (c a).
    Hypothesis body_ok : forall a, well_behaved E (fun w => (tt, body a w)).

    Section ReCom.
    Hypothesis Hu : dget (e_updaters E) "cut_edges"%string = Some UCutEdges.
    Variable input : nat -> R -> @method_fn N * (nat -> nat) * nat * R.
    (** Every method used meets the contracts of a bipartition method
        (bipartition_tree does, C56_bipartition_tree). *)
    Hypothesis methods : forall a r, inside (fst (fst (fst (input a r)))) /\
                                     splits_connected (fst (fst (fst (input a r)))).
    Lemma recom_proposes a o (w : W) b w' : session E (fst w) -> nth_error (fst w) a = Some o ->
      recom_proposal E pop input target eps a w = (Ok b, w') -> redraws target eps a o (fst w) b (fst w').
    Proof.
      intros S Ho H. unfold recom_proposal in H. pose proof (methods a (snd w)) as [Ins Spl].
      destruct (input a (snd w)) as [[[m d] fuel] r]. cbn [fst] in Ins, Spl.
      destruct (recom E pop m d target eps fuel a (fst w)) as [b' h'] eqn:Er. injection H as -> <-. cbn [fst].
      now apply (recom_redraws Hpop Hu target eps m d fuel a o (fst w) b h' Ins Spl S Ho).
    Qed.

    (** C113. Whatever the constraints, the acceptance function and the user's
        code do: every plan a recom chain yields has the districts' labels of
        the initial plan; if all districts of the initial plan are connected so
        are all of its; and each of its districts is one of the initial plan's,
        untouched, or within the tolerance. *)
    Theorem C113_recom_chain : forall n fuel ch w ys en ch' w' o0,
      ch_valid ch = Reusable cs -> session E (fst w) -> nth_error (fst w) (ch_initial ch) = Some o0 ->
      for_loop (recom_proposal E pop input target eps) accept erase_link n fuel body ch w = (ys, en, ch', w') ->
      forall a v, In (a, v) ys -> exists o, nth_error (fst v) a = Some o /\
        labels (o_assign o) = labels (o_assign o0) /\
        (contiguous_plan g (o_assign o0) -> contiguous_plan g (o_assign o)) /\
        (forall p, In p (labels (o_assign o0)) ->
           same_district (o_assign o0) (o_assign o) p \/ in_balance (o_assign o) target eps p).
    Proof. intros n fuel ch w ys en ch' w' o0. refine (run_preserved target eps Ht He _ _ accept cs body accept_ok cs_ok body_ok n fuel ch w ys en ch' w' o0). exact recom_proposes. Qed.

    (** In particular a balanced plan stays balanced without a population
        constraint. *)
    Theorem C113_stays_balanced : forall n fuel ch w ys en ch' w' o0,
      ch_valid ch = Reusable cs -> session E (fst w) -> nth_error (fst w) (ch_initial ch) = Some o0 ->
      (forall p, In p (labels (o_assign o0)) -> in_balance (o_assign o0) target eps p) ->
      for_loop (recom_proposal E pop input target eps) accept erase_link n fuel body ch w = (ys, en, ch', w') ->
      forall a v, In (a, v) ys -> exists o, nth_error (fst v) a = Some o /\
        forall p, In p (labels (o_assign o)) -> in_balance (o_assign o) target eps p.
    Proof. intros n fuel ch w ys en ch' w' o0. refine (run_balanced target eps Ht He _ _ accept cs body accept_ok cs_ok body_ok n fuel ch w ys en ch' w' o0). exact recom_proposes. Qed.
    End ReCom.

    Section Reversible.
    Variable spins : nat -> R -> @spin N * R.
    Variables (balance : @balance_fn N) (max : option nat) (repeat : bool) (bound : nat).
    (** The search finds only balanced cuts (both searches of the code do, C53)
        of a spanning tree of what it is given. *)
    Hypothesis searches : cut_search balance.
    Hypothesis trees : forall a r nodes, samples (subgraph g nodes) (sp_tree (fst (spins a r)) (subgraph g nodes)).

    (** C113. The same for chains of reversible_recom. *)
    Theorem C113_reversible_chain : forall n fuel ch w ys en ch' w' o0,
      ch_valid ch = Reusable cs -> session E (fst w) -> nth_error (fst w) (ch_initial ch) = Some o0 ->
      for_loop (reversible_proposal E pop spins balance max repeat bound target eps) accept erase_link n fuel body ch w = (ys, en, ch', w') ->
      forall a v, In (a, v) ys -> exists o, nth_error (fst v) a = Some o /\
        labels (o_assign o) = labels (o_assign o0) /\
        (contiguous_plan g (o_assign o0) -> contiguous_plan g (o_assign o)) /\
        (forall p, In p (labels (o_assign o0)) ->
           same_district (o_assign o0) (o_assign o) p \/ in_balance (o_assign o) target eps p).
    Proof.
      intros n fuel ch w ys en ch' w' o0. refine (run_preserved target eps Ht He _ _ accept cs body accept_ok cs_ok body_ok n fuel ch w ys en ch' w' o0).
      intros a o w0 b w1 S Ho H. unfold reversible_proposal in H. pose proof (trees a (snd w0)) as Tr.
      destruct (spins a (snd w0)) as [s r]. cbn [fst] in Tr.
      destruct (reversible_recom _ _ _ _ _ _ _ _ _ _ _ _ _ _ _ _ _ _) as [b' h'] eqn:Er. injection H as -> <-. cbn [fst].
      refine (reversible_redraws Hpop target eps balance _ _ _ _ max repeat bound _ _ _ _ a o (fst w0) b h' searches _ S Ho Er).
      intros nodes p q _. apply Tr.
    Qed.
    End Reversible.
  End Chains.
End Chain.

(** ** The population constraint *)
Section Population.
  Context {N P L : Type} {EN : EqB N} {EP : EqB P} {EL : EqB L} {ON : Ord N}.
  Variable E : env N P Z L.
  Notation g := (e_graph E).
  Variable pop : dict N Z.

  (** C113. The constraint within_percent_of_ideal_population, made from any plan
      without empty districts, accepts every plan whose districts are within
      [eps] of the ideal population, if eps <= percent.  So it never rejects a
      proposal of a recom chain that starts from a balanced plan. *)
  Theorem C113_population_passes : forall h0 a0 o0 key fields al (w : string -> N -> Z) percent bnd target eps h a o r,
    session E h0 -> nth_error h0 a0 = Some o0 -> no_empty_district g (o_assign o0) ->
    dget (e_updaters E) key = Some (UTally fields al) ->
    (forall f, In f fields -> data_is g (e_attr E f) (w f)) ->
    (forall n, In n (g_nodes g) -> popn pop n = vsum (map (fun f => w f n) fields)) ->
    fst (within_percent E key percent a0 h0) = Ok bnd ->
    (target * inject_Z (Z.of_nat (List.length (labels (o_assign o0)))) == total E (popn pop))%Q ->
    (0 <= target)%Q -> (eps <= percent)%Q ->
    session E h -> nth_error h a = Some o ->
    (forall p, In p (labels (o_assign o)) -> in_balance pop (o_assign o) target eps p) ->
    fst (population_ok E key bnd a h) = Ok r -> r = true.
  Proof.
    intros h0 a0 o0 key fields al w percent bnd target eps h a o r S0 Ho0 NE0 Hu Hw Hpw Hb Htot Ht Hpe S Ho Hbal Hr.
    unfold within_percent in Hb. rewrite fst_bindM in Hb.
    destruct (tally_values E key a0 h0) as [[vs0|e|] h1] eqn:E0; try discriminate. cbn [lift fst] in Hb.
    destruct (read_pop E h0 a0 o0 key fields al w S0 Ho0 Hu Hw vs0 ltac:(now rewrite E0))
      as (d0 & zs0 & Hd0 & Ez0 & -> & ND0 & _ & K0 & Tot).
    assert (Len : List.length (map inject_Z zs0) = List.length (labels (o_assign o0))).
    { rewrite map_length, <- (map_length Num zs0), <- Ez0.
      assert (X : List.length (dvals d0) = List.length (dkeys d0)) by (unfold dkeys, dvals; now rewrite !map_length).
      rewrite X. destruct (session_answer E h0 a0 o0 key _ S0 Ho0 Hu) as (An & _ & _).
      destruct (An _ Hd0) as (d' & [= <-] & _ & Inc & _).
      apply Nat.le_antisymm; apply NoDup_incl_length; auto.
      - apply (coh_part_keys _ _ (session_coherent E h0 a0 o0 S0 Ho0)).
      - intros p Hp. destruct (NE0 p Hp) as (n & Hn & Dn). eapply K0; eauto. }
    unfold ideal_bounds, py_div in Hb. rewrite Len in Hb.
    set (k := inject_Z (Z.of_nat (List.length (labels (o_assign o0))))) in *.
    destruct (Qeq_bool k 0) eqn:Eb; cbn [bind] in Hb; try discriminate.
    apply Qeq_bool_neq in Eb. injection Hb as <-.
    assert (TT : (M_Constraints.qsum (map inject_Z zs0) == total E (popn pop))%Q).
    { rewrite Tot. unfold total. apply inject_Z_injective. f_equal.
      apply map_ext_in. intros n Hn. symmetry. now apply Hpw. }
    assert (Id : (M_Constraints.qsum (map inject_Z zs0) / k == target)%Q).
    { rewrite TT, <- Htot. field. exact Eb. }
    set (ideal := (M_Constraints.qsum (map inject_Z zs0) / k)%Q) in *. clearbody ideal.
    unfold population_ok in Hr. rewrite fst_bindM in Hr.
    destruct (tally_values E key a h) as [[vs|e|] h2] eqn:E2; try discriminate. cbn [lift fst snd] in Hr.
    destruct (read_pop E h a o key fields al w S Ho Hu Hw vs ltac:(now rewrite E2))
      as (d & zs & Hd & Ez & -> & ND & Sum & _ & _).
    destruct (C25_bounds ((1 - percent) * ideal)%Q ((1 + percent) * ideal)%Q (map inject_Z zs)) as [B0 B1].
    assert (NE : map inject_Z zs <> []) by (intro X; rewrite (B0 X) in Hr; discriminate).
    destruct (B1 NE) as (r' & Hr' & Iff). rewrite Hr' in Hr. injection Hr as ->. apply Iff.
    intros v Hv. apply in_map_iff in Hv. destruct Hv as (z & <- & Hz).
    assert (Hin : In (Num z) (dvals d)) by (rewrite Ez; now apply in_map).
    unfold dvals in Hin. apply in_map_iff in Hin. destruct Hin as ([p x] & Hx & Hpx). cbn [snd] in Hx. subst x.
    apply In_dget in Hpx; auto. destruct (Sum p (Num z) Hpx) as (y & [= <-] & Sm).
    destruct (session_answer E h a o key _ S Ho Hu) as (An & _ & _).
    destruct (An _ Hd) as (d' & [= <-] & _ & Inc & _).
    assert (Lp : In p (labels (o_assign o))) by (apply Inc; eapply dget_Some_key; eauto).
    destruct (Hbal p Lp) as (x & Sx & Bx).
    assert (z = x).
    { destruct Sm as (s1 & N1 & I1 & ->). destruct Sx as (s2 & N2 & I2 & ->).
      assert (I12 : forall n, In n s1 <-> In n s2).
      { intro n. rewrite I1, I2. unfold in_district. split; [tauto|]. intro D. split; auto.
        apply (coh_dom _ _ (session_coherent E h a o S Ho)). eapply dget_Some_key; exact D. }
      transitivity (vsum (map (popn pop) s1)).
      - f_equal. apply map_ext_in. intros n Hn. symmetry. apply Hpw. now apply I1.
      - apply vsum_perm. apply Permutation.Permutation_map. now apply Permutation.NoDup_Permutation. }
    subst x. unfold S_Tree.balanced in Bx. apply Qabs_Qle_condition in Bx. rewrite Id. nra.
  Qed.
End Population.

(** A recom chain on the path of four nodes with populations 5, 7, 11, 13, the
    constraints [contiguous] and within_percent_of_ideal_population, and
    tolerance 1/3: every hypothesis holds, and the chain moves from {0,1}, {2,3}
    to {0,1,2}, {3}. *)
Definition real_pop : dict nat Z := [(0, 5%Z); (1, 7%Z); (2, 11%Z); (3, 13%Z)].
Definition real_method : @method_fn nat :=
  tree_method find_cuts_memoization (fun _ g _ => lookup_tree four_trees g) real_pop
    (fun _ _ e => Qn (fst e)) (fun _ i => i) 4 (Some 4) 1 true (fun _ => max_weight_choice).
Lemma real_contracts : inside real_method /\ splits_connected real_method.
Proof.
  assert (H : inside real_method /\ splits_connected real_method /\ tolerant real_pop real_method); [|tauto].
  apply C56_bipartition_tree.
  - apply C53_memoization_search.
  - intros i g. exact (lookup_samples four_trees g 0 four_trees_ok).
  - intros _ cuts c H. destruct cuts as [|c0 l]; [discriminate|].
    destruct (C62_max_weight (c0 :: l)) as (c' & E & I & _); [discriminate|]. congruence.
Qed.
Definition real_input (a : nat) (r : unit) : @method_fn nat * (nat -> nat) * nat * unit :=
  (real_method, (fun i => i), 2, r).
Definition population_constraint : constraint nat (heap nat nat Z nat * unit) := fun a w =>
  let '(r, h) := population_ok ex_E "population" (12, 24)%Q a (fst w) in (b <- r ;; Ok (PBool b), (h, snd w)).
Definition real_constraints := [contiguous_constraint ex_E; population_constraint].
Definition anything (a : nat) (w : heap nat nat Z nat * unit) : res pyval * (heap nat nat Z nat * unit) :=
  (Ok (PBool true), w).
Lemma real_well_behaved :
  (forall c a, In c real_constraints -> well_behaved ex_E (c a)) /\
  (forall a, well_behaved ex_E (anything a)) /\
  forall a : nat, well_behaved ex_E (fun w : heap nat nat Z nat * unit => (tt, w)).
Proof.
  split; [|split; [|intros _]]; try (intros; intro w; exists []; split; [constructor|reflexivity]).
  intros c a [<-|[<-|[]]] w.
  - exists []. split; [constructor|reflexivity].
  - exists [OGet a "population"%string]. split; [repeat constructor|].
    unfold population_constraint. cbn [exec fold_left M_Machine.step].
    unfold population_ok, tally_values, bindM.
    destruct (read ex_E a "population" (fst w)) as [[v|e|] h]; cbn [fst snd]; [|reflexivity|reflexivity].
    unfold lift. destruct (as_num v) as [d|e|]; cbn [fst snd]; [|reflexivity|reflexivity].
    destruct (mapM as_Q (dvals d)) as [l|e|]; reflexivity.
Qed.
Lemma in_balance_check (A : assignment nat nat) target eps p (s : list nat) :
  coherent [0; 1; 2; 3] A -> dget (a_parts A) p = Some s ->
  S_Tree.balanced target eps (vsum (map (popn real_pop) s)) -> in_balance real_pop A target eps p.
Proof.
  intros C Hs B. exists (vsum (map (popn real_pop) s)). split; auto. exists s.
  split; [exact (coh_parts_nodup _ _ C p s Hs)|]. split; auto.
  intro n. unfold in_district. rewrite (coh_agree _ _ C). unfold listed. split; [eauto|].
  intros (s' & H1 & H2). congruence.
Qed.
Example C113_nonvacuous :
  let w := (ex_run ex_plan [], tt) in
  exists ys ch' w' h1 o0 o1,
    for_loop (recom_proposal ex_E real_pop real_input 18 (1 # 3)) anything erase_link 5 5 (fun _ w => w)
      (mkChain (Reusable real_constraints) 3 0 0 None) w = (ys, Finished, ch', w') /\
    session ex_E (fst w) /\ covers real_pop (e_graph ex_E) /\ nth_error (fst w) 0 = Some o0 /\
    contiguous_plan (e_graph ex_E) (o_assign o0) /\ no_empty_district (e_graph ex_E) (o_assign o0) /\
    (forall p, In p (labels (o_assign o0)) -> in_balance real_pop (o_assign o0) 18 (1 # 3) p) /\
    nth_error ys 1 = Some (1, (h1, tt)) /\ nth_error h1 1 = Some o1 /\
    a_map (o_assign o1) = [(0, 1); (1, 1); (2, 1); (3, 2)] /\
    (exists b, fst (within_percent ex_E "population" (1 # 3) 0 (fst w)) = Ok b /\
       (fst b == 12)%Q /\ (snd b == 24)%Q) /\
    (18 * inject_Z (Z.of_nat (List.length (labels (o_assign o0)))) == total ex_E (popn real_pop))%Q.
Proof.
  cbn zeta. do 6 eexists. split; [vm_compute; reflexivity|].
  assert (Ss : session ex_E (ex_run ex_plan [])) by ex_session. split; [exact Ss|].
  split; [split; [nodup|intro n; cbn; tauto]|].
  split; [vm_compute; reflexivity|].
  pose proof (session_coherent ex_E (ex_run ex_plan []) 0 _ Ss eq_refl) as C.
  assert (Cp : contiguous_plan (e_graph ex_E) (o_assign (nth 0 (ex_run ex_plan []) (mkObj (mkAssignment [] []) None None [] None [])))).
  { apply yes_contiguous; [apply ex_wf|exact C|vm_compute; reflexivity]. }
  split; [exact Cp|]. split.
  { intros p Hp. destruct (Cp p Hp) as ((n & Hn) & _). exists n. split; auto.
    apply (proj1 (coh_dom _ _ C n)). eapply dget_Some_key; exact Hn. }
  split.
  { intros p Hp. vm_compute in Hp. destruct Hp as [<-|[<-|[]]].
    - eapply in_balance_check; [exact C|vm_compute; reflexivity|vm_compute; discriminate].
    - eapply in_balance_check; [exact C|vm_compute; reflexivity|vm_compute; discriminate]. }
  split; [vm_compute; reflexivity|]. split; [vm_compute; reflexivity|]. split; [vm_compute; reflexivity|].
  split; [|vm_compute; reflexivity]. eexists. split; [vm_compute; reflexivity|]. split; vm_compute; reflexivity.
Qed.

(** A chain of reversible_recom from a plan with districts of 3 and 1: the second
    plan it yields has 2 and 2. *)
Definition four_spins (a : nat) (r : unit) : @spin nat * unit :=
  (mkSpin (fun g _ => lookup_tree four_trees g) (fun _ _ => 0%Q) (fun i => i) 4 1 0 0 (1 # 4), r).
Example C113_reversible_nonvacuous :
  let w := (ex_run lopsided [], tt) in
  exists ys ch' w' h1 o0 o1,
    for_loop (reversible_proposal ex_E four_pop four_spins find_cuts_memoization (Some 4) true 2 2 0) anything erase_link 5 5
      (fun _ w => w) (mkChain (Reusable real_constraints) 2 0 0 None) w = (ys, Finished, ch', w') /\
    session ex_E (fst w) /\ covers four_pop (e_graph ex_E) /\
    (forall a r nodes, samples (subgraph (e_graph ex_E) nodes) (sp_tree (fst (four_spins a r)) (subgraph (e_graph ex_E) nodes))) /\
    nth_error (fst w) 0 = Some o0 /\ a_map (o_assign o0) = lopsided /\
    nth_error ys 1 = Some (1, (h1, tt)) /\ nth_error h1 1 = Some o1 /\
    a_map (o_assign o1) = [(0, 1); (1, 1); (2, 2); (3, 2)].
Proof.
  cbn zeta. do 6 eexists. split; [vm_compute; reflexivity|]. split; [ex_session|]. split; [exact four_covers|].
  split; [intros a r nodes; exact (lookup_samples four_trees (subgraph (e_graph ex_E) nodes) 0 four_trees_ok)|].
  repeat split; vm_compute; reflexivity.
Qed.

Print Assumptions C113_recom_chain.
Print Assumptions C113_reversible_chain.
Print Assumptions C113_stays_balanced.
Print Assumptions C113_contiguous_passes.
Print Assumptions C113_population_passes.
