(** C116: a read that is cut short at any moment leaves nothing wrong behind. *)
From Coq Require Import String List Bool Arith ZArith Lia.
From Verif Require Import Base M_Graph M_Partition S_Partition L_Partition P_Partition
  M_Machine S_Machine S_Reads L_Machine L_Answers P_Machine L_Reads P_Reads M_Abort L_Abort.
Import ListNotations.
Local Open Scope nat_scope.
Local Open Scope string_scope.
Local Open Scope list_scope.

Section Abort.
  Context {N P V L : Type} {EN : EqB N} {EP : EqB P} {EL : EqB L} {ON : Ord N} {RV : CRing V}.
  Variable E : env N P V L.
  Notation heap := (heap N P V L).

  Definition only_reads (x : op N P) : Prop :=
    match x with OGet _ _ | OLook _ _ _ => True | _ => False end.
  Lemma only_reads_wf ops : Forall only_reads ops -> Forall wf_op ops /\ Forall no_erasure ops.
  Proof.
    intro F. split; eapply Forall_impl; try exact F; intros [| | |]; simpl; tauto.
  Qed.

  Lemma perform_exec es : forall h, exists ops, Forall only_reads ops /\ snd (perform E es h) = exec E ops h.
  Proof.
    induction es as [|[b k|b k p] es IH]; intro h.
    - exists []. auto.
    - cbn [perform]. destruct (read E b k h) as [r h'] eqn:Er.
      assert (H' : h' = step E h (OGet b k)) by (simpl; now rewrite Er).
      destruct r as [v|e|]; cbn [snd].
      + destruct (IH h') as (ops & F & Eq). exists (OGet b k :: ops). split; [constructor; simpl; auto|].
        rewrite Eq, H'. reflexivity.
      + exists [OGet b k]. split; [repeat constructor|]. now rewrite H'.
      + exists [OGet b k]. split; [repeat constructor|]. now rewrite H'.
    - cbn [perform]. destruct (IH (look E b k p h)) as (ops & F & Eq). exists (OLook b k p :: ops).
      split; [constructor; simpl; auto|]. now rewrite Eq.
  Qed.

  Lemma aborted_exec m : forall a k h, exists ops, Forall only_reads ops /\ aborted E m a k h = exec E ops h.
  Proof.
    induction m as [|n m IH]; intros a k h; [exists []; auto|]. cbn [aborted].
    destruct (nth_error h a) as [o|]; [|exists []; auto].
    destruct (dget (o_cache o) k); [exists []; auto|].
    destruct (dget (e_updaters E) k) as [u|]; [|exists []; auto].
    destruct (perform_exec (firstn n (effects a o u h)) h) as (ops & F & Eq).
    destruct (perform E (firstn n (effects a o u h)) h) as [[|] h']; cbn [snd] in Eq; [|eauto].
    destruct (nth_error (effects a o u h) n) as [[b k'|b k' p]|]; eauto.
    destruct (IH b k' h') as (ops' & F' & Eq'). exists (ops ++ ops'). split; [now apply Forall_app|].
    unfold exec in *. now rewrite fold_left_app, <- Eq.
  Qed.

  Definition wf_event (x : event N P) : Prop := match x with Does x => wf_op x | CutShort _ _ _ => True end.

  (** Whatever reads are cut short, and at whatever moments, the plans are those
      of an ordinary session: all that is proved about sessions goes on holding. *)
  Theorem C116_session_goes_on : forall h xs,
    session E h -> Forall wf_event xs -> session E (live E xs h).
  Proof.
    intros h xs S. revert h S. induction xs as [|x xs IH]; intros h S F; auto.
    inversion F as [|? ? Fx F']; subst. apply IH; auto. destruct x as [x|m a k]; simpl.
    - apply (session_exec E h [x] S). now constructor.
    - destruct (aborted_exec m a k h) as (ops & Fo & ->). apply session_exec; auto. now apply only_reads_wf.
  Qed.

  (** A read cut short changes no plan and no answer given before, and makes or
      destroys no plan. *)
  Theorem C116_plans_untouched : forall h m a k,
    session E h ->
    List.length (aborted E m a k h) = List.length h /\
    (forall b o, nth_error h b = Some o ->
       exists o', nth_error (aborted E m a k h) b = Some o' /\ o_assign o' = o_assign o /\
                  o_parent o' = o_parent o /\ o_flips o' = o_flips o) /\
    (forall b k' u v, dget (e_updaters E) k' = Some u -> fst (read E b k' h) = Ok v ->
       (exists o, nth_error h b = Some o /\ dget (o_cache o) k' = Some v) ->
       exists v', fst (read E b k' (aborted E m a k h)) = Ok v' /\ same_answer u v v').
  Proof.
    intros h m a k S. destruct (aborted_exec m a k h) as (ops & F & ->).
    assert (SK : forall h, session E h -> map skel (exec E ops h) = map skel h).
    { clear h S. induction ops as [|x ops IH]; intros h S; auto. inversion F; subst.
      change (exec E (x :: ops) h) with (exec E ops (exec E [x] h)).
      assert (S1 : session E (exec E [x] h)).
      { apply session_exec; auto. constructor; auto. destruct x; simpl in *; tauto. }
      rewrite IH; auto. pose proof (session_wf E h S) as W. destruct S as (WE & REG & _).
      unfold exec. cbn [fold_left]. destruct x as [|b k'|b k' p|]; simpl in *; try tauto.
      - now apply read_spec.
      - now apply look_spec. }
    specialize (SK h S). destruct (only_reads_wf ops F) as [Fw _].
    pose proof (session_wf E h S) as W. destruct S as (WE & REG & _).
    split; [rewrite <- (map_length skel (exec E ops h)), SK; apply map_length|]. split.
    - intros b o Hb. destruct (skel_persists _ _ SK b o Hb) as (o' & Ho' & Es).
      exists o'. injection Es as E1 E2 E3 E4 E5. auto.
    - intros b k' u v Hu _ Hc.
      destruct (proj2 (exec_persists E ops h WE REG Fw W) b k' u v Hu Hc) as (v' & Hc' & Sa).
      exists v'. split; auto. now rewrite (read_cached E _ _ _ _ Hc').
  Qed.

  (** Reading again, the same updater or any other, gives the reply that would
      have been given had nobody tried. *)
  Theorem C116_retry : forall h m a k b k' u,
    session E h -> b < List.length h -> dget (e_updaters E) k' = Some u ->
    same_reply u (fst (read E b k' h)) (fst (read E b k' (aborted E m a k h))).
  Proof.
    intros h m a k b k' u S Hb Hu. destruct (aborted_exec m a k h) as (ops & F & ->).
    destruct (only_reads_wf ops F). now apply C115_reply_stays.
  Qed.

  (** ** Nothing is stored for the read that was cut short *)
  Definition effect_below (B : nat) (e : effect P) : Prop :=
    match e with
    | FGet b k => exists u, dget (e_updaters E) k = Some u /\ measure b u < B
    | FLook _ _ _ => True
    end.

  Lemma effects_below h a o k (u : updater N P V L) : session E h -> nth_error h a = Some o -> dget (e_updaters E) k = Some u ->
    Forall (effect_below (measure a u)) (effects a o u h).
  Proof.
    intros S Ho Hu. pose proof (session_wf E h S) as W. destruct S as (WE & REG & _).
    assert (Hs : nth_error (map skel h) a = Some (skel o)) by (now rewrite nth_error_map, Ho).
    assert (Par : forall q (u' : updater N P V L), o_parent o = Some q -> measure q u' < measure a u).
    { intros q u' Hq. destruct (proj1 W a _ Hs) as [_ H]. destruct (H q Hq) as [Hlt _].
      unfold measure. pose proof (rank_le u'). lia. }
    assert (Tru : forall q, parent_if_true o h = Some q -> o_parent o = Some q).
    { intro q. unfold parent_if_true. destruct (o_parent o) as [q'|]; [|discriminate].
      destruct (nth_error h q'); [|discriminate]. destruct (a_parts (o_assign p)); [discriminate|auto]. }
    assert (G : forall q k' (u' : updater N P V L), o_parent o = Some q -> In (k', u') (reads u) ->
                effect_below (measure a u) (FGet q k')).
    { intros q k' u' Hq Hin. exists u'. split; [exact (REG k u Hu k' u' Hin)|now apply Par]. }
    assert (Gs : forall k' (u' : updater N P V L), rank u' < rank u -> In (k', u') (reads u) ->
                effect_below (measure a u) (FGet a k')).
    { intros k' u' Hlt Hin. exists u'. split; [exact (REG k u Hu k' u' Hin)|unfold measure; lia]. }
    assert (FM : forall q k' (ps : list P), Forall (effect_below (measure a u)) (map (FLook q k') ps)).
    { intros q k' ps. apply Forall_forall. intros e He. apply in_map_iff in He. destruct He as (p & <- & _). exact I. }
    clear Hs Par Hu W. 
    destruct u as [ | | fields al | data al | parties al | | | | | | | field al | f]; cbn [effects].
    - destruct (parent_if_true o h) as [q|]; repeat constructor. eapply G; [auto|simpl; auto].
    - destruct (parent_if_true o h) as [q|]; [|constructor]. destruct (o_eflows o); [|constructor].
      constructor; [eapply G; [auto|simpl; auto]|apply FM].
    - destruct (o_parent o) as [q|]; repeat constructor. eapply G; [auto|simpl; auto].
    - destruct (o_parent o) as [q|]; repeat constructor. eapply G; [auto|simpl; auto].
    - destruct (o_parent o) as [q|]; repeat constructor. eapply G; [auto|simpl; auto].
    - destruct (parent_if_true o h) as [q|]; repeat constructor. eapply G; [auto|simpl; auto].
    - destruct (o_parent o) as [q|].
      + constructor; [eapply G; [auto|simpl; auto]|]. apply Forall_forall. intros e He.
        apply in_flat_map in He. destruct He as (p & _ & [<-|[<-|[]]]); [exact I|].
        eapply (Gs _ UBoundaryNodes); simpl; auto.
      + repeat constructor. eapply (Gs _ UBoundaryNodes); simpl; auto.
    - destruct (o_parent o) as [q|].
      + constructor; [eapply G; [auto|simpl; auto]|]. apply Forall_forall. intros e He.
        apply in_flat_map in He. destruct He as (p & _ & [<-|[<-|[]]]); [exact I|].
        eapply (Gs _ UBoundaryNodes); simpl; auto.
      + repeat constructor. eapply (Gs _ UBoundaryNodes); simpl; auto.
    - destruct (parent_if_true o h) as [q|].
      + constructor; [eapply G; [auto|simpl; auto]|]. destruct (o_eflows o); [apply FM|constructor].
      + apply Forall_forall. intros e He.
        apply in_flat_map in He. destruct He as (p & _ & [<-|[<-|[]]]); [|exact I].
        eapply (Gs _ UCutEdgesByPart); simpl; auto.
    - apply Forall_forall. intros e He.
      apply in_flat_map in He. destruct He as (p & _ & [<-|[<-|[<-|[<-|[]]]]]); try exact I.
      + eapply (Gs _ UExterior); simpl; auto.
      + eapply (Gs _ UInterior); simpl; auto.
    - constructor.
    - destruct (parent_if_true o h) as [q|]; repeat constructor. eapply G; [auto|simpl; auto].
    - constructor.
  Qed.

  Lemma read_grows h b k u : session E h -> dget (e_updaters E) k = Some u ->
    grows E (S (measure b u)) h (snd (read E b k h)).
  Proof.
    intros S Hu. pose proof (session_wf E h S) as W. destruct S as (WE & REG & _).
    destruct (nth_error h b) as [o|] eqn:Ho.
    - unfold read.
      assert (Hm : measure b u < Datatypes.S (3 * List.length h)).
      { unfold measure. pose proof (rank_le u). assert (b < List.length h) by (apply nth_error_Some; congruence). lia. }
      assert (Hs : nth_error (map skel h) b = Some (skel o)) by (now rewrite nth_error_map, Ho).
      destruct (getitem_ok E (map skel h) (proj1 W) WE REG _ b k u (skel o) Hm Hu Hs h (wf_heap_Inv E h W))
        as (_ & G & _). exact G.
    - rewrite read_none by auto. apply grows_refl.
  Qed.
  Lemma look_grows h b k p B : wf_heap E h -> grows E B h (look E b k p h).
  Proof.
    intro W. unfold look. destruct (dget (e_updaters E) k) as [u|] eqn:Eu; [|apply grows_refl].
    destruct (has_default u) eqn:Ed; [|apply grows_refl].
    assert (Hd : u = UCutEdgesByPart \/ u = UExteriorSet \/ u = UExterior).
    { destruct u; simpl in Ed; try discriminate; auto. }
    destruct (tri_touch E (B := B) (map skel h) True b k [p] u Eu Hd h (wf_heap_Inv E h W)) as (_ & G & _).
    exact G.
  Qed.

  Lemma perform_grows B es : forall h, session E h -> Forall (effect_below B) es ->
    grows E B h (snd (perform E es h)) /\ session E (snd (perform E es h)).
  Proof.
    induction es as [|[b k|b k p] es IH]; intros h S F; [split; [apply grows_refl|auto]| |];
      inversion F as [|? ? Fx F']; subst; cbn [perform].
    - destruct Fx as (u & Hu & Hm). pose proof (read_grows h b k u S Hu) as G.
      pose proof (session_read E h b k S) as S'.
      destruct (read E b k h) as [[v|e|] h'] eqn:Er; cbn [snd] in *.
      + destruct (IH h' S' F') as [G' S'']. split; auto.
        eapply grows_trans; [eapply grows_weaken; [|exact G]; lia|exact G'].
      + split; auto. eapply grows_weaken; [|exact G]. lia.
      + split; auto. eapply grows_weaken; [|exact G]. lia.
    - pose proof (look_grows h b k p B (session_wf E h S)) as G.
      assert (S' : session E (look E b k p h)).
      { apply (session_exec E h [OLook b k p] S). repeat constructor. }
      destruct (IH _ S' F') as [G' S'']. split; auto. eapply grows_trans; eauto.
  Qed.

  Lemma aborted_grows m : forall h a k u, session E h -> dget (e_updaters E) k = Some u ->
    grows E (measure a u) h (aborted E m a k h).
  Proof.
    induction m as [|n m IH]; intros h a k u S Hu; [apply grows_refl|]. cbn [aborted].
    destruct (nth_error h a) as [o|] eqn:Ho; [|apply grows_refl].
    destruct (dget (o_cache o) k); [apply grows_refl|]. rewrite Hu.
    pose proof (effects_below h a o k u S Ho Hu) as Fb.
    assert (Fn : Forall (effect_below (measure a u)) (firstn n (effects a o u h))).
    { rewrite <- (firstn_skipn n (effects a o u h)) in Fb. now apply Forall_app in Fb. }
    destruct (perform_grows _ _ h S Fn) as [G S'].
    destruct (perform E (firstn n (effects a o u h)) h) as [[|] h'] eqn:Ep; cbn [snd] in *; auto.
    destruct (nth_error (effects a o u h) n) as [[b k'|b k' p]|] eqn:En; auto.
    pose proof (nth_error_In _ _ En) as Hin. rewrite Forall_forall in Fb.
    destruct (Fb _ Hin) as (u' & Hu' & Hm).
    eapply grows_trans; [exact G|]. eapply grows_weaken; [|apply IH; eauto]. lia.
  Qed.

  (** The value of the read that was cut short is not stored: unless it was
      stored before, the next read computes it anew. *)
  Theorem C116_nothing_stored : forall h m a k o,
    session E h -> nth_error h a = Some o -> dget (o_cache o) k = None ->
    exists o', nth_error (aborted E m a k h) a = Some o' /\ dget (o_cache o') k = None.
  Proof.
    intros h m a k o S Ho Hc.
    destruct (C116_plans_untouched h m a k S) as (_ & H & _).
    destruct (H a o Ho) as (o' & Ho' & _). exists o'. split; auto.
    destruct (dget (o_cache o') k) as [v|] eqn:Ev; auto. exfalso.
    destruct (dget (e_updaters E) k) as [u|] eqn:Hu.
    - destruct (proj2 (aborted_grows m h a k u S Hu) a k u v Hu) as [(v0 & o0 & H0 & H1)|X]; [exists o'; auto| |lia].
      congruence.
    - destruct m as [|n m]; cbn [aborted] in Ho'; [congruence|]. rewrite Ho, Hc, Hu in Ho'. congruence.
  Qed.

  (** The moments listed are all there are: cut short at its last moment, a read
      that would have gone through has made every change it makes except storing
      its own value. *)
  Theorem C116_last_moment : forall h a k o u v,
    session E h -> nth_error h a = Some o -> dget (o_cache o) k = None ->
    dget (e_updaters E) k = Some u -> fst (read E a k h) = Ok v ->
    exists n, snd (read E a k h) =
              set_nth a (with_cache (fun c => dset c k v)) (aborted E [n] a k h).
  Proof.
    intros h a k o u v S Ho Hc Hu Hr. exists (List.length (effects a o u h)).
    cbn [aborted]. rewrite Ho, Hc, Hu, firstn_all.
    rewrite (proj2 (nth_error_None _ _) (le_n _)).
    destruct (run E (getitem E (3 * List.length h)) a o u h) as [r h'] eqn:Er.
    assert (Hq : read E a k h = match r with
                                | Ok w => (Ok w, set_nth a (with_cache (fun c => dset c k w)) h')
                                | Err e => (Err e, h') | NoFuel => (NoFuel, h') end).
    { unfold read. cbn [getitem]. unfold bindM, get_obj, lift. rewrite Ho, Hc, Hu. cbn [of_option].
      rewrite Er. destruct r; reflexivity. }
    rewrite Hq in Hr |- *. destruct r as [w|e|]; try discriminate. injection Hr as ->.
    now rewrite (run_effects E h a o k u v h' S Ho Hu Er).
  Qed.
End Abort.

(** Non-vacuity: a plan whose perimeters are being read for the first time.  Cut
    short inside the third change (the interior boundaries, after reading the
    parent's), the plan keeps its exterior boundaries but has no perimeters,
    and the next read gives what it would have given. *)
Example C116_nonvacuous :
  let h := ex_run ex_plan [OFlip 0 [(1, 2)]] in
  let h' := aborted ex_E [2; 1] 1 "perimeter" h in
  session ex_E h /\ h' <> h /\
  fst (read ex_E 1 "perimeter" h) = Ok (VNum [(1, Num 6%Z); (2, Num 14%Z)]) /\
  (exists o, nth_error h' 1 = Some o /\ dkeys (o_cache o) = ["boundary_nodes"; "exterior_boundaries"]) /\
  (exists o, nth_error h' 0 = Some o /\
     dkeys (o_cache o) = ["boundary_nodes"; "exterior_boundaries"; "cut_edges_by_part"; "interior_boundaries"]) /\
  fst (read ex_E 1 "perimeter" h') = Ok (VNum [(1, Num 6%Z); (2, Num 14%Z)]).
Proof.
  split; [ex_session|]. split; [vm_compute; discriminate|].
  split; [vm_compute; reflexivity|].
  split; [eexists; split; vm_compute; reflexivity|].
  split; [eexists; split; vm_compute; reflexivity|]. vm_compute. reflexivity.
Qed.

Print Assumptions C116_session_goes_on.
Print Assumptions C116_plans_untouched.
Print Assumptions C116_retry.
Print Assumptions C116_nothing_stored.
Print Assumptions C116_last_moment.
