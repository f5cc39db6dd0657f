(** What every step of a proposal preserves holds along a whole chain; and a
    chain without constraints goes wherever single proposals can go. *)
From Coq Require Import String List Bool Arith ZArith Lia ZifyBool ZifyNat.
From Verif Require Import Base M_Graph M_Partition S_Partition L_Partition M_Machine S_Machine
  L_Cuts L_Machine L_Answers P_Partition P_Machine M_Constraints P_Constraints M_Chain P_Chain
  M_Election L_Order M_Proposals S_Proposals P_Proposals M_Recursive M_Recom M_Script.
Import ListNotations.
Local Open Scope nat_scope.
Local Open Scope list_scope.

Section Run.
  Context {N P V L R : Type} {EN : EqB N} {EP : EqB P} {EL : EqB L} {ON : Ord N} {RV : CRing V}.
  Variable E : env N P V L.
  Notation W := (heap N P V L * R)%type.
  Variable proposal : nat -> W -> res nat * W.
  Variable accept : nat -> W -> res pyval * W.
  Variable cs : list (constraint nat W).
  Variable body : nat -> W -> W.
  Hypothesis accept_ok : forall a, well_behaved E (accept a).
  Hypothesis cs_ok : forall c a, In c cs -> well_behaved E (c a).
  Hypothesis body_ok : forall a, well_behaved E (fun w => (tt, body a w)).

  Section Invariant.
    Variable Pr : assignment N P -> Prop.
    Hypothesis proposes : forall a o (w : W) b w', session E (fst w) -> nth_error (fst w) a = Some o ->
      proposal a w = (Ok b, w') ->
      session E (fst w') /\ kept (fst w) (fst w') /\
      exists o', nth_error (fst w') b = Some o' /\ (Pr (o_assign o) -> Pr (o_assign o')).

    Definition holds (h : heap N P V L) (a : nat) : Prop := exists o, nth_error h a = Some o /\ Pr (o_assign o).

    Lemma exec_holds h a ops : session E h -> Forall wf_op ops -> holds h a -> holds (exec E ops h) a.
    Proof.
      clear. intros S F (o & Ho & Hp). pose proof (session_wf E h S) as Wf. destruct S as (WE & REG & _).
      destruct (proj1 (exec_persists E ops h WE REG F Wf) a o Ho) as (o' & H1 & H2 & _).
      exists o'. rewrite H2. auto.
    Qed.
    Lemma proposal_holds a (w : W) b w' : good E holds w a -> proposal a w = (Ok b, w') ->
      good E holds w' a /\ good E holds w' b.
    Proof.
      intros [S (o & Ho & Hp)] H. destruct (proposes a o w b w' S Ho H) as (S' & K & o' & Ho' & Hp').
      destruct (K a o Ho) as (o1 & Ho1 & E1 & _). split; (split; [exact S'|]).
      - exists o1. rewrite E1. auto.
      - exists o'. auto.
    Qed.
    Lemma erase_holds a x (w : W) : good E holds w x -> good E holds (erase_link a w) x.
    Proof.
      clear. intros [S K]. split; [now apply session_erase|].
      apply (exec_holds (fst w) x [OErase a] S); [repeat constructor|exact K].
    Qed.
    Lemma step_holds a w b w' : step proposal accept erase_link cs a w b w' ->
      good E holds w a -> good E holds w' b.
    Proof.
      induction 1 as [w y w1 w2 x' w' Hp Hr _ IH|w y w1 w2 v w' Hp Hv Ha _|w y w1 w2 v w' Hp Hv Ha _]; intro G;
        destruct (proposal_holds a w y w1 G Hp) as [Ga Gy];
        apply (erase_holds a) in Ga; apply (erase_holds a) in Gy.
      - apply IH. eapply (rejected_keeps E cs cs_ok); eauto. apply exec_holds.
      - replace w' with (snd (accept y w2)) by (now rewrite Ha). apply wb_keeps; auto; [apply exec_holds|].
        eapply (all_true_keeps E cs cs_ok); eauto; [apply exec_holds|apply incl_refl].
      - replace w' with (snd (accept y w2)) by (now rewrite Ha). apply wb_keeps; auto; [apply exec_holds|].
        eapply (all_true_keeps E cs cs_ok); eauto; [apply exec_holds|apply incl_refl].
    Qed.
    Lemma linked_holds rest : forall x (w : W), linked proposal accept erase_link cs body (x, w) rest ->
      good E holds w x -> forall a v, In (a, v) rest -> good E holds v a.
    Proof.
      induction rest as [|[y u] rest IH]; intros x w HL G a v Hj; [destruct Hj|].
      inversion HL; subst.
      assert (G1 : good E holds (body x w) x).
      { apply (wb_keeps E holds (fun w => (tt, body x w)) w x exec_holds (body_ok x) G). }
      assert (G2 : good E holds u y) by (eapply step_holds; eauto).
      destruct Hj as [[= <- <-]|Hj]; eauto.
    Qed.
  End Invariant.

  Hypothesis proposes : forall a o (w : W) b w', session E (fst w) -> nth_error (fst w) a = Some o ->
    proposal a w = (Ok b, w') ->
    session E (fst w') /\ kept (fst w) (fst w') /\ exists o', nth_error (fst w') b = Some o'.

  (** Every yielded plan is there, and what every proposal preserves passes from
      a yielded plan to all later ones. *)
  Lemma run_invariant : forall n fuel ch w ys en ch' w' o0,
    ch_valid ch = Reusable cs -> session E (fst w) -> nth_error (fst w) (ch_initial ch) = Some o0 ->
    for_loop proposal accept erase_link n fuel body ch w = (ys, en, ch', w') ->
    (forall a v, In (a, v) ys -> session E (fst v) /\ exists o, nth_error (fst v) a = Some o) /\
    forall (Pr : assignment N P -> Prop),
      (forall a o (w : W) b w' o', session E (fst w) -> nth_error (fst w) a = Some o ->
         proposal a w = (Ok b, w') -> nth_error (fst w') b = Some o' -> Pr (o_assign o) -> Pr (o_assign o')) ->
      forall i j a v b u o o', i <= j -> nth_error ys i = Some (a, v) -> nth_error ys j = Some (b, u) ->
        nth_error (fst v) a = Some o -> nth_error (fst u) b = Some o' -> Pr (o_assign o) -> Pr (o_assign o').
  Proof.
    intros n fuel ch w ys en ch' w' o0 Hv S Ho Hl.
    destruct (C37_steps proposal accept erase_link n fuel body ch w ys en ch' w' cs Hv Hl) as [->|(rest & -> & HL)].
    { split; [intros a v []|]. intros Pr _ i j a v b u o o' _ H. destruct i; discriminate. }
    assert (Ex : forall x (w : W), linked proposal accept erase_link cs body (x, w) rest ->
      session E (fst w) -> (exists o, nth_error (fst w) x = Some o) ->
      forall a v, In (a, v) ((x, w) :: rest) -> session E (fst v) /\ exists o, nth_error (fst v) a = Some o).
    { clear - proposes accept_ok cs_ok body_ok. intros x w HL Sw (ow & How) a v [[= <- <-]|Hi]; [eauto|].
      assert (G : good E (holds (fun _ => True)) v a).
      { eapply (linked_holds (fun _ => True)); [|exact HL| |exact Hi].
        - intros a0 o0 w0 b0 w1 S0 H0 H1. destruct (proposes a0 o0 w0 b0 w1 S0 H0 H1) as (S' & K & o' & Ho'). eauto 6.
        - split; auto. exists ow. auto. }
      destruct G as [S' (o & Ho & _)]. eauto. }
    split; [intros a v Hi; eapply Ex; eauto|].
    intros Pr HPr i j a v b u o o' Hij Hi Hj Hov Hou.
    (* the run from the i-th yield on *)
    assert (Sub : forall l x (w : W), linked proposal accept erase_link cs body (x, w) l ->
      session E (fst w) -> (exists o, nth_error (fst w) x = Some o) ->
      forall i a v, nth_error ((x, w) :: l) i = Some (a, v) ->
        session E (fst v) /\ exists l', linked proposal accept erase_link cs body (a, v) l' /\
          forall k y, nth_error ((x, w) :: l) (i + k) = Some y -> nth_error ((a, v) :: l') k = Some y).
    { clear - proposes accept_ok cs_ok body_ok. induction l as [|[y u] l IH]; intros x w HL Sw Ow i a v Hi.
      - destruct i as [|i]; [|destruct i; discriminate]. injection Hi as <- <-. split; auto. exists []. split; auto.
      - destruct i as [|i]; [injection Hi as <- <-; split; auto; exists ((y, u) :: l); auto|].
        assert (Gu : good E (holds (fun _ => True)) u y).
        { eapply (linked_holds (fun _ => True)); [|exact HL| |now left].
          - intros a0 o0 w0 b0 w1 S0 H0 H1. destruct (proposes a0 o0 w0 b0 w1 S0 H0 H1) as (S' & K & o' & Ho'). eauto 6.
          - split; auto. destruct Ow as (o & Ho). exists o. auto. }
        inversion HL; subst. destruct Gu as [Su (ou & Hou & _)].
        apply (IH y u H5 Su (ex_intro _ ou Hou) i a v Hi). }
    destruct (Sub rest (ch_initial ch) w HL S (ex_intro _ o0 Ho) i a v Hi) as (Sv & l' & HL' & Hk).
    specialize (Hk (j - i) (b, u)). replace (i + (j - i)) with j in Hk by lia. specialize (Hk Hj).
    intro HP. destruct (j - i) as [|k].
    - injection Hk as -> ->. congruence.
    - cbn [nth_error] in Hk. apply nth_error_In in Hk.
      destruct (linked_holds Pr) with (rest := l') (x := a) (w := v) (a := b) (v := u) as [_ (o1 & Ho1 & HP1)]; auto.
      + intros a0 o1 w0 b0 w1 S0 H0 H1. destruct (proposes a0 o1 w0 b0 w1 S0 H0 H1) as (S' & K & o2 & Ho2). eauto 7.
      + split; auto. exists o. auto.
      + congruence.
  Qed.
End Run.

(** ** Chains without constraints *)
Section Free.
  Context {N P V L D : Type} {EN : EqB N} {EP : EqB P} {EL : EqB L} {ON : Ord N} {RV : CRing V}.
  Variable E : env N P V L.
  Notation W := (heap N P V L * list D)%type.
  Variable d0 : D.
  Variable prop : D -> nat -> heap N P V L -> res nat * heap N P V L.
  Definition yes_accept (a : nat) (w : W) : res pyval * W := (Ok (PBool true), w).
  Definition free_chain (k : nat) (a : nat) : chain nat W := mkChain (Reusable []) (Z.of_nat (S k)) a a None.

  (** [lead A B]: some draws turn plan [A] into a plan with districts [B]. *)
  Variable Inv : assignment N P -> Prop.
  Variable lead : (N -> option P) -> (N -> option P) -> Prop.
  Hypothesis can : forall h a o B, session E h -> nth_error h a = Some o -> Inv (o_assign o) -> lead (district (o_assign o)) B ->
    exists d c h' o', prop d a h = (Ok c, h') /\ session E h' /\ nth_error h' c = Some o' /\ Inv (o_assign o') /\
      forall n, In n (g_nodes (e_graph E)) -> district (o_assign o') n = B n.

  (** A path of plans, each reached from any object with the districts of the
      one before. *)
  Fixpoint path (A : N -> option P) (l : list (N -> option P)) : Prop :=
    match l with
    | [] => True
    | B :: l' => (forall A', (forall n, In n (g_nodes (e_graph E)) -> A' n = A n) -> lead A' B) /\ path B l'
    end.

  Lemma loop_reaches l : forall A h a o k i, path A l -> session E h -> nth_error h a = Some o -> Inv (o_assign o) ->
    (forall n, In n (g_nodes (e_graph E)) -> district (o_assign o) n = A n) -> (1 <= k)%Z ->
    exists ds, List.length ds = List.length l /\ exists ys ch' w',
      loop (fed d0 prop) yes_accept erase_link (S (List.length l)) 1 (fun _ w => w)
        (mkChain (Reusable []) (k + Z.of_nat (List.length l)) i a (Some k)) (h, ds) = (ys, Finished, ch', w') /\
      List.length ys = List.length l /\
      forall j B, nth_error l j = Some B -> exists c v o', nth_error ys j = Some (c, v) /\ session E (fst v) /\
        nth_error (fst v) c = Some o' /\ forall n, In n (g_nodes (e_graph E)) -> district (o_assign o') n = B n.
  Proof.
    induction l as [|B l IH]; intros A h a o k i Hp Ss Ho HI HA Hk.
    - exists []. split; auto. cbn [List.length loop next]. unfold next. cbn [ch_counter].
      destruct (Z.eqb_spec k 0) as [|_]; [lia|]. cbn [advance ch_total]. rewrite (proj2 (Z.ltb_ge _ _)) by lia.
      do 3 eexists. split; [reflexivity|]. split; auto. intros j B H. destruct j; discriminate.
    - destruct Hp as [H1 H2]. destruct (can h a o B Ss Ho HI (H1 _ HA)) as (d & c & h' & o' & Hc & S' & Ho' & HI' & HB).
      assert (S2 : session E (erase a h')) by now apply session_erase.
      assert (exists o2, nth_error (erase a h') c = Some o2 /\ o_assign o2 = o_assign o') as (o2 & Ho2 & E2).
      { pose proof (session_wf E h' S') as Wf. destruct S' as (WE & REG & _).
        destruct (proj1 (exec_persists E [OErase a] h' WE REG ltac:(repeat constructor) Wf) c o' Ho') as (o2 & X1 & X2 & _). eauto. }
      destruct (IH B (erase a h') c o2 (k + 1)%Z i H2 S2 Ho2) as (ds & Hl & ys & ch' & w' & Hloop & Hlen & Hys).
      { now rewrite E2. } { intros n Hn. rewrite E2. auto. } { lia. }
      exists (d :: ds). split; [cbn [List.length]; lia|].
      change (List.length (B :: l)) with (S (List.length l)). remember (S (List.length l)) as m eqn:Em.
      cbn [loop]. unfold next at 1. cbn [ch_counter]. destruct (Z.eqb_spec k 0) as [|_]; [lia|].
      cbn [advance ch_total ch_state]. rewrite (proj2 (Z.ltb_lt _ _)) by lia.
      unfold fed at 1. cbn [fst snd hd tl]. rewrite Hc. cbn [ch_valid].
      unfold erase_link at 1. cbn [fst snd].
      change (validator (Reusable []) c (erase a h', ds)) with (Ok true, (erase a h', ds), Reusable (@nil (constraint nat W))).
      cbv beta iota. unfold yes_accept at 1. cbn [truthy ch_initial].
      replace (k + Z.of_nat m)%Z with (k + 1 + Z.of_nat (List.length l))%Z by lia.
      rewrite Hloop. do 3 eexists. split; [reflexivity|]. split; [cbn [List.length]; lia|].
      intros j B' Hj. destruct j as [|j].
      + injection Hj as <-. exists c, (erase a h', ds), o2. split; [reflexivity|]. split; auto. split; auto.
        intros n Hn. rewrite E2. auto.
      + cbn [nth_error] in *. apply Hys. exact Hj.
  Qed.

  (** The chain without constraints that accepts everything can walk along any
      path. *)
  Lemma free_reaches l h a o : path (district (o_assign o)) l -> session E h -> nth_error h a = Some o -> Inv (o_assign o) ->
    exists ds, List.length ds = List.length l /\ exists ys ch' w',
      for_loop (fed d0 prop) yes_accept erase_link (S (S (List.length l))) 1 (fun _ w => w)
        (free_chain (List.length l) a) (h, ds) = (ys, Finished, ch', w') /\
      List.length ys = S (List.length l) /\
      forall j B, nth_error l j = Some B -> exists c v o', nth_error ys (S j) = Some (c, v) /\ session E (fst v) /\
        nth_error (fst v) c = Some o' /\ forall n, In n (g_nodes (e_graph E)) -> district (o_assign o') n = B n.
  Proof.
    intros Hp Ss Ho HI. destruct (loop_reaches l _ h a o 1 a Hp Ss Ho HI) as (ds & Hl & ys & ch' & w' & Hloop & Hlen & Hys); auto; [lia|].
    exists ds. split; auto. unfold for_loop, iter, free_chain. cbn [ch_valid ch_total ch_initial].
    remember (S (List.length l)) as m eqn:Em. cbn [loop]. unfold next at 1. cbn [ch_counter Z.eqb ch_state ch_valid ch_total ch_initial].
    replace (Z.of_nat m) with (1 + Z.of_nat (List.length l))%Z by lia. rewrite Hloop.
    do 3 eexists. split; [reflexivity|]. split; [cbn [List.length]; lia|]. intros j B Hj. cbn [nth_error]. auto.
  Qed.
End Free.
