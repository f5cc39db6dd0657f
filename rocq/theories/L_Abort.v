(** Lemmas behind C116: the changes listed by [effects] are exactly those of a
    read that runs to its end. *)
From Coq Require Import String List Bool Arith Lia.
From Verif Require Import Base M_Graph M_Partition S_Partition L_Partition
  M_Machine S_Machine L_Sums L_Cuts L_Tally L_Updaters L_Machine L_Answers L_Reads M_Abort.
Import ListNotations.
Local Open Scope string_scope.
Local Open Scope list_scope.

Lemma dset_swap {K X} {EK : EqB K} (c : dict K X) k1 k2 x1 x2 w :
  dget c k1 = Some w -> k1 <> k2 -> dset (dset c k1 x1) k2 x2 = dset (dset c k2 x2) k1 x1.
Proof.
  intros H Hne. induction c as [|[k v] c IH]; [discriminate|]. simpl in H |- *.
  destruct (eqb_spec k1 k) as [->|H1].
  - simpl. destruct (eqb_spec k2 k) as [->|H2]; [congruence|]. simpl. now rewrite eqb_refl.
  - simpl. destruct (eqb_spec k2 k) as [->|H2]; simpl.
    + destruct (eqb_spec k1 k); [congruence|reflexivity].
    + destruct (eqb_spec k1 k); [congruence|]. now rewrite IH.
Qed.
Lemma set_nth_swap {X} (f g : X -> X) a b : forall l,
  (forall x, f (g x) = g (f x)) -> set_nth a f (set_nth b g l) = set_nth b g (set_nth a f l).
Proof.
  intros l H. revert b l. induction a as [|a IH]; intros [|b] [|x l]; simpl; auto.
  - now rewrite H.
  - now rewrite IH.
Qed.
Lemma set_nth_neq {X} (f g : X -> X) a b : forall l, a <> b ->
  set_nth a f (set_nth b g l) = set_nth b g (set_nth a f l).
Proof.
  intros l. revert b l. induction a as [|a IH]; intros [|b] [|x l] H; simpl; auto; try congruence.
  rewrite IH; auto.
Qed.
Lemma set_nth_twice {X} (f g h : X -> X) a : (forall x, f (g x) = h x) -> forall l,
  set_nth a f (set_nth a g l) = set_nth a h l.
Proof. intro H. induction a as [|a IH]; intros [|x l]; simpl; auto; now rewrite ?H, ?IH. Qed.
Lemma set_nth_same {X} (f : X -> X) a : (forall x, f x = x) -> forall l, set_nth a f l = l.
Proof. intro H. induction a as [|a IH]; intros [|x l]; simpl; auto; now rewrite ?H, ?IH. Qed.

Section Complete.
  Context {N P V L : Type} {EN : EqB N} {EP : EqB P} {EL : EqB L} {ON : Ord N} {RV : CRing V}.
  Notation val := (value N P V L).
  Notation obj := (pobj N P V L).
  Notation upd := (updater N P V L).
  Notation M := (@M N P V L).
  Notation heap := (heap N P V L).
  Variable E : env N P V L.

  (** ** Reads do not depend on the fuel *)
  Section Fuel.
    Variable sk : list obj.
    Hypothesis WS : wf_sk E sk.
    Hypothesis REG : registered E.
    Definition eqr {X} (m1 m2 : M X) : Prop :=
      forall h, map skel h = sk -> m1 h = m2 h /\ map skel (snd (m1 h)) = sk.
    Lemma eqr_pure {X} (r : res X) : eqr (lift r) (lift r).
    Proof. intros h H. simpl. auto. Qed.
    Lemma eqr_ret {X} (x : X) : eqr (ret x) (ret x).
    Proof. intros h H. simpl. auto. Qed.
    Lemma eqr_bind {X Y} (m1 m2 : M X) (f1 f2 : X -> M Y) :
      eqr m1 m2 -> (forall x, eqr (f1 x) (f2 x)) -> eqr (bindM m1 f1) (bindM m2 f2).
    Proof.
      intros Hm Hf h H. destruct (Hm h H) as [E1 S1]. unfold bindM. rewrite <- E1.
      destruct (m1 h) as [[x|e|] h']; simpl in *; auto. apply Hf; auto.
    Qed.
    Lemma eqr_get a : eqr (get_obj a) (get_obj a).
    Proof. intros h H. unfold get_obj. destruct (nth_error h a); auto. Qed.
    Lemma eqr_touch a k ps : eqr (touch a k ps) (touch a k ps).
    Proof. intros h H. split; auto. unfold touch. simpl. rewrite map_set_nth; auto. Qed.
    Lemma eqr_truthy o : eqr (truthy_parent o) (truthy_parent o).
    Proof.
      unfold truthy_parent. destruct (o_parent o); [|apply eqr_ret].
      apply eqr_bind; [apply eqr_get|]. intro. apply eqr_ret.
    Qed.
    Lemma truthy_is (o : obj) q h h' : truthy_parent o h = (Ok (Some q), h') -> o_parent o = Some q.
    Proof.
      unfold truthy_parent. destruct (o_parent o) as [q'|]; [|discriminate]. unfold bindM, get_obj.
      destruct (nth_error h q') as [po|]; [|discriminate]. destruct (a_parts (o_assign po)); [discriminate|].
      intros [= -> _]. reflexivity.
    Qed.
    Lemma eqr_bind_truthy {Y} o (f1 f2 : option nat -> M Y) :
      (forall q, o_parent o = Some q -> eqr (f1 (Some q)) (f2 (Some q))) -> eqr (f1 None) (f2 None) ->
      eqr (bindM (truthy_parent o) f1) (bindM (truthy_parent o) f2).
    Proof.
      intros Hs Hn h H. destruct (eqr_truthy o h H) as [_ S1]. unfold bindM.
      destruct (truthy_parent o h) as [[[q|]|e|] h'] eqn:Et; simpl in *; auto.
      apply Hs; auto. eapply truthy_is; eauto.
    Qed.

    Section Run.
      Variables rec1 rec2 : nat -> string -> M val.
      Variables (a : nat) (so : obj) (k : string) (u : upd).
      Hypothesis Hso : nth_error sk a = Some so.
      Hypothesis Hu : dget (e_updaters E) k = Some u.
      Hypothesis Hrec : forall q k' u', q < List.length sk -> measure q u' < measure a u ->
        dget (e_updaters E) k' = Some u' -> eqr (rec1 q k') (rec2 q k').
      Lemma run_eqr : eqr (run E rec1 a so u) (run E rec2 a so u).
      Proof.
        assert (exists u0, u = u0) as [u0 Eu] by eauto.
        assert (RP : forall q k' u', o_parent so = Some q -> In (k', u') (reads u0) -> eqr (rec1 q k') (rec2 q k')).
        { rewrite <- Eu. intros q k' u' Hq Hin. destruct (WS a so Hso) as [_ H].
          destruct (H q Hq) as (Hlt & po & _ & Hpo & _). apply (Hrec q k' u').
          - apply nth_error_Some. congruence.
          - unfold measure. pose proof (rank_le u'). lia.
          - exact (REG k u Hu k' u' Hin). }
        assert (RS : forall k' (u' : upd), rank u' < rank u0 -> In (k', u') (reads u0) -> eqr (rec1 a k') (rec2 a k')).
        { rewrite <- Eu. intros k' u' Hlt Hin. apply (Hrec a k' u').
          - apply nth_error_Some. congruence.
          - unfold measure. lia.
          - exact (REG k u Hu k' u' Hin). }
        rewrite Eu. clear Eu.
        destruct u0; unfold run;
          repeat first
            [ apply eqr_ret | apply eqr_pure | apply eqr_touch
            | apply eqr_get
            | apply eqr_bind_truthy; [intros|]
            | apply eqr_bind; [|intro]
            | eapply RP; [first [eassumption|reflexivity]|simpl; auto; fail]
            | eapply RS; [|simpl; auto; fail]; simpl; auto; fail
            | match goal with
              | |- eqr (match o_parent so with _ => _ end) _ => destruct (o_parent so) eqn:?
              | |- eqr (match o_flows so with _ => _ end) _ => destruct (o_flows so)
              | |- eqr (match dkeys (a_parts (o_assign so)) with _ => _ end) _ =>
                  destruct (dkeys (a_parts (o_assign so)))
              end ].
      Qed.
    End Run.

    Lemma getitem_eqr : forall n a k u f f', a < List.length sk ->
      measure a u < n -> measure a u < f -> measure a u < f' -> dget (e_updaters E) k = Some u ->
      eqr (getitem E f a k) (getitem E f' a k).
    Proof.
      induction n as [|n IH]; intros a k u f f' Ha Hn Hf Hf' Hu; [lia|].
      destruct f as [|f]; [lia|]. destruct f' as [|f']; [lia|]. intros h Hs.
      destruct (nth_error h a) as [o|] eqn:Ho.
      2:{ apply nth_error_None in Ho. rewrite <- Hs, map_length in Ha. lia. }
      rewrite !(getitem_eq E _ _ _ _ _ Ho). destruct (dget (o_cache o) k); [simpl; auto|]. rewrite Hu.
      assert (Hso : nth_error sk a = Some (skel o)) by (now rewrite <- Hs, nth_error_map, Ho).
      assert (R : eqr (run E (getitem E f) a (skel o) u) (run E (getitem E f') a (skel o) u)).
      { eapply run_eqr; eauto. intros q k' u' Hq Hlt Hu'. apply (IH q k' u'); auto; lia. }
      destruct (R h Hs) as [E1 S1]. rewrite !(run_skel E _ _ o), <- E1.
      destruct (run E (getitem E f) a (skel o) u h) as [[v|e|] h']; simpl in *; auto.
      split; auto. rewrite map_set_nth; auto.
    Qed.
  End Fuel.

  (** ** Look-ups in exterior boundaries commute with the other reads *)
  Section Commute.
    Hypothesis REG : registered E.
    Variables (b : nat) (kx : string) (ux : upd) (ps : list P).
    Hypothesis Hux : dget (e_updaters E) kx = Some ux.
    Hypothesis Hex : ux = UExterior \/ ux = UExteriorSet.
    Definition T (h : heap) : heap := snd (touch b kx ps h).
    Definition sim {X} (m1 m2 : M X) (Q : X -> X -> Prop) : Prop :=
      forall h, req Q (fst (m1 (T h))) (fst (m2 h)) /\ snd (m1 (T h)) = T (snd (m2 h)).
    Lemma sim_ret {X} (x y : X) (Q : X -> X -> Prop) : Q x y -> sim (ret x) (ret y) Q.
    Proof. intros H h. simpl. auto. Qed.
    Lemma sim_lift {X} (r : res X) : sim (lift r) (lift r) eq.
    Proof. intros h. simpl. split; auto. apply req_eq. Qed.
    Lemma sim_bind {X Y} (m1 m2 : M X) (f1 f2 : X -> M Y) R Q :
      sim m1 m2 R -> (forall x y, R x y -> sim (f1 x) (f2 y) Q) -> sim (bindM m1 f1) (bindM m2 f2) Q.
    Proof.
      intros Hm Hf h. destruct (Hm h) as [H1 H2]. unfold bindM.
      destruct (m1 (T h)) as [[x|e|] h1], (m2 h) as [[y|e'|] h2]; simpl in *; try tauto.
      subst h1. apply Hf; auto.
    Qed.
    Lemma T_nth h a : nth_error (T h) a =
      if Nat.eqb a b then option_map (with_cache (fun c =>
        match dget c kx with Some v => dset c kx (touch_value ps v) | None => c end)) (nth_error h a)
      else nth_error h a.
    Proof. unfold T, touch. simpl. apply nth_set_nth. Qed.
    Definition nearly (o o' : obj) : Prop :=
      skel o = skel o' /\ forall k, k <> kx -> dget (o_cache o) k = dget (o_cache o') k.
    Lemma sim_get a : sim (get_obj a) (get_obj a) nearly.
    Proof.
      intro h. unfold get_obj. rewrite T_nth. destruct (Nat.eqb a b).
      - destruct (nth_error h a) as [o|]; simpl; auto. split; auto. split; [reflexivity|].
        intros k Hk. simpl. destruct (dget (o_cache o) kx); auto. apply dget_dset_neq; auto.
      - destruct (nth_error h a) as [o|]; simpl; auto. split; auto. split; auto.
    Qed.
    Lemma sim_truthy (o : obj) : sim (truthy_parent o) (truthy_parent o) eq.
    Proof.
      unfold truthy_parent. destruct (o_parent o) as [q|]; [|now apply sim_ret].
      eapply sim_bind; [apply sim_get|]. intros x y [Hs _]. apply sim_ret.
      replace (o_assign y) with (o_assign x); auto.
      change (o_assign (skel x) = o_assign (skel y)). now rewrite Hs.
    Qed.
    Lemma sim_touch a k qs : k <> kx -> sim (touch a k qs) (touch a k qs) eq.
    Proof.
      intros Hk h. unfold T, touch. simpl. split; auto.
      destruct (Nat.eq_dec a b) as [->|Hab]; [|apply set_nth_neq; exact Hab].
      apply set_nth_swap. intro o. unfold with_cache. simpl. f_equal.
      destruct (dget (o_cache o) kx) as [w|] eqn:E1; destruct (dget (o_cache o) k) as [x|] eqn:E2.
      all: rewrite ?dget_dset_neq by auto; rewrite ?E1, ?E2; try reflexivity.
      eapply dset_swap; eauto.
    Qed.
    Lemma sim_store a k v (r : res val) : k <> kx ->
      sim (fun h => (r, set_nth a (with_cache (fun c => dset c k v)) h))
          (fun h => (r, set_nth a (with_cache (fun c => dset c k v)) h)) eq.
    Proof.
      intros Hk h. unfold T, touch. simpl. split; [apply req_eq|].
      destruct (Nat.eq_dec a b) as [->|Hab]; [|apply set_nth_neq; exact Hab].
      apply set_nth_swap. intro o. unfold with_cache. simpl. f_equal.
      rewrite dget_dset_neq by auto. destruct (dget (o_cache o) kx) as [w|] eqn:E1; auto.
      eapply dset_swap; eauto.
    Qed.

    Definition inner (u : upd) : Prop := u = UBoundaryNodes \/ u = UCutEdgesByPart \/ u = UInterior.
    Lemma inner_key k u : dget (e_updaters E) k = Some u -> inner u -> k <> kx.
    Proof. intros Hk Hi ->. destruct Hex as [-> | ->], Hi as [-> | [-> | ->]]; congruence. Qed.

    Lemma getitem_sim : forall f a k u, dget (e_updaters E) k = Some u -> inner u ->
      sim (getitem E f a k) (getitem E f a k) eq.
    Proof.
      induction f as [|f IH]; intros a k u Hu Hi; [apply sim_lift|]. cbn [getitem].
      pose proof (inner_key k u Hu Hi) as Hk.
      eapply sim_bind; [apply sim_get|]. intros o o' [Hs Hc]. rewrite (Hc k Hk).
      destruct (dget (o_cache o') k) as [v|]; [now apply sim_ret|]. rewrite Hu.
      eapply sim_bind with (R := fun x y => x = u /\ y = u); [now apply sim_ret|]. intros x y [-> ->].
      eapply sim_bind with (R := eq).
      2:{ intros v y <-. now apply sim_store. }
      rewrite (run_skel E _ _ o), (run_skel E _ _ o'), Hs. generalize (skel o'). clear o o' Hs Hc. intro o.
      assert (Sub : forall q k' u', In (k', u') (reads u) -> inner u' -> sim (getitem E f q k') (getitem E f q k') eq).
      { intros q k' u' Hin Hi'. apply (IH q k' u'); [exact (REG k u Hu k' u' Hin)|exact Hi']. }
      assert (Key : forall k' u', In (k', u') (reads u) -> inner u' -> k' <> kx).
      { intros k' u' Hin Hi'. apply (inner_key k' u'); [exact (REG k u Hu k' u' Hin)|exact Hi']. }
      destruct Hi as [-> | [-> | ->]]; unfold run; (eapply sim_bind; [apply sim_truthy|]); intros [q|] y <-.
      - eapply Sub; simpl; [left; reflexivity|red; auto].
      - now apply sim_ret.
      - eapply sim_bind; [apply sim_lift|]. intros ef y <-.
        eapply sim_bind; [eapply Sub; simpl; [left; reflexivity|red; auto]|]. intros v y <-.
        eapply sim_bind; [apply sim_lift|]. intros d y <-.
        eapply sim_bind; [apply sim_touch; eapply Key; simpl; [left; reflexivity|red; auto]|]. intros _ _ _.
        now apply sim_ret.
      - eapply sim_bind; [apply sim_lift|]. intros s y <-.
        eapply sim_bind; [apply sim_lift|]. intros d y <-. now apply sim_ret.
      - eapply sim_bind; [apply sim_lift|]. intros ef y <-.
        eapply sim_bind; [eapply Sub; simpl; [right; left; reflexivity|red; auto]|]. intros v y <-.
        eapply sim_bind; [apply sim_lift|]. intros d y <-.
        eapply sim_bind; [apply sim_lift|]. intros d' y <-. now apply sim_ret.
      - destruct (dkeys (a_parts (o_assign o))); [now apply sim_ret|].
        eapply sim_bind; [eapply Sub; simpl; [left; reflexivity|red; auto]|]. intros v y <-.
        eapply sim_bind; [apply sim_lift|]. intros d y <-.
        eapply sim_bind; [apply sim_touch; eapply Key; simpl; [left; reflexivity|red; auto]|]. intros _ _ _.
        now apply sim_ret.
    Qed.

    Lemma T_length h : List.length (T h) = List.length h.
    Proof. unfold T, touch. simpl. apply length_set_nth. Qed.
    Lemma read_commutes a k u h : dget (e_updaters E) k = Some u -> inner u ->
      read E a k (T h) = (fst (read E a k h), T (snd (read E a k h))).
    Proof.
      intros Hu Hi. unfold read. rewrite T_length.
      destruct (getitem_sim (S (3 * List.length h)) a k u Hu Hi h) as [H1 H2].
      rewrite (surjective_pairing (getitem E (S (3 * List.length h)) a k (T h))), H2. f_equal.
      destruct (fst (getitem E (S (3 * List.length h)) a k (T h))),
        (fst (getitem E (S (3 * List.length h)) a k h)); simpl in H1; try tauto; congruence.
    Qed.
  End Commute.

  (** ** A read that runs to its end makes exactly the listed changes *)
  Lemma bindM_Ok {X Y} (m : M X) (f : X -> M Y) h y h' : bindM m f h = (Ok y, h') ->
    exists x h1, m h = (Ok x, h1) /\ f x h1 = (Ok y, h').
  Proof. unfold bindM. destruct (m h) as [[x|e|] h1]; try discriminate. eauto. Qed.
  Lemma lift_Ok {X} (r : res X) (h : heap) x h' : lift r h = (Ok x, h') -> r = Ok x /\ h' = h.
  Proof. unfold lift. intros [= -> ->]. auto. Qed.
  Lemma truthy_Ok (o : obj) (h : heap) tp h' : truthy_parent o h = (Ok tp, h') ->
    tp = parent_if_true o h /\ h' = h.
  Proof.
    unfold truthy_parent, parent_if_true. destruct (o_parent o) as [q|].
    - unfold bindM, get_obj. destruct (nth_error h q) as [po|]; [|discriminate].
      unfold ret. intros [= <- <-]. destruct (a_parts (o_assign po)); auto.
    - unfold ret. intros [= <- <-]. auto.
  Qed.

  Lemma dset_twice {K X} {EK : EqB K} (c : dict K X) k x y : dset (dset c k x) k y = dset c k y.
  Proof.
    induction c as [|[k' v] c IH]; simpl; [now rewrite eqb_refl|].
    destruct (eqb k k') eqn:Ek; simpl; rewrite Ek; auto. now rewrite IH.
  Qed.
  Lemma touch_more b k p ps (h : heap) :
    snd (touch b k ps (snd (touch b k [p] h))) = snd (touch b k (p :: ps) h).
  Proof.
    unfold touch. cbn [snd]. apply set_nth_twice. intro o. unfold with_cache. cbn. f_equal.
    destruct (dget (o_cache o) k) as [v|] eqn:Ev; [|now rewrite Ev].
    rewrite dget_dset_eq, dset_twice. f_equal. destruct v; reflexivity.
  Qed.
  Lemma touch_none b k (h : heap) : snd (touch b k [] h) = h.
  Proof.
    unfold touch. cbn [snd]. apply set_nth_same. intros [A q f fl ef c]. unfold with_cache. cbn. f_equal.
    destruct (dget c k) as [v|] eqn:Ev; auto.
    assert (X : touch_value [] v = v) by (destruct v; reflexivity). rewrite X. clear X.
    revert Ev. clear. induction c as [|[k' w] c IH]; cbn [dget dset]; [discriminate|].
    destruct (eqb k k') eqn:Ek; intro H; [injection H as ->; auto|]. now rewrite IH.
  Qed.
  Lemma perform_looks q k u ps : dget (e_updaters E) k = Some u -> has_default u = true -> forall h,
    perform E (map (FLook q k) ps) h = (true, snd (touch q k ps h)).
  Proof.
    intros Hu Hd. induction ps as [|p ps IH]; intro h; [cbn [map perform]; now rewrite touch_none|].
    cbn [map perform]. rewrite IH. unfold look. rewrite Hu, Hd. now rewrite touch_more.
  Qed.
  Lemma perform_looks_nothing q k u ps : dget (e_updaters E) k = Some u -> has_default u = false -> forall h,
    perform E (map (FLook q k) ps) h = (true, h).
  Proof.
    intros Hu Hd. induction ps as [|p ps IH]; intro h; auto.
    cbn [map perform]. unfold look. rewrite Hu, Hd. apply IH.
  Qed.

  Lemma read_again h a k v h' : session E h -> read E a k h = (Ok v, h') -> read E a k h' = (Ok v, h').
  Proof.
    intros S Hr. pose proof (session_wf E h S) as W. destruct S as (WE & REG & _).
    destruct (read_spec E h a k WE REG W) as (_ & _ & _ & C & _). rewrite Hr in C. cbn [fst snd] in C.
    apply read_cached. auto.
  Qed.
  Lemma read_touched h a k v b k' ps : read E a k h = (Ok v, h) -> cached h a k v -> k <> k' ->
    read E a k (snd (touch b k' ps h)) = (Ok v, snd (touch b k' ps h)) /\
    cached (snd (touch b k' ps h)) a k v.
  Proof.
    intros _ (o & Ho & Hv) Hk.
    assert (C : cached (snd (touch b k' ps h)) a k v).
    { unfold touch. cbn [snd]. apply cached_set_nth. exists o. split; auto.
      destruct (Nat.eqb a b); auto. destruct (dget (o_cache o) k') eqn:E'; auto.
      rewrite dget_dset_neq; auto. }
    split; auto. now apply read_cached.
  Qed.
  Lemma read_stays_cached h a k v : session E h -> read E a k h = (Ok v, snd (read E a k h)) ->
    cached (snd (read E a k h)) a k v.
  Proof.
    intros S Hr. pose proof (session_wf E h S) as W. destruct S as (WE & REG & _).
    destruct (read_spec E h a k WE REG W) as (_ & _ & _ & C & _). apply C. now rewrite Hr.
  Qed.

  (** The loop of the exterior boundaries: a look-up and a read per turn. *)
  Lemma loop_exterior q kx ux a kb ub w ps : registered E ->
    dget (e_updaters E) kx = Some ux -> ux = UExterior \/ ux = UExteriorSet ->
    dget (e_updaters E) kb = Some ub -> inner ub -> ps <> [] -> forall h, session E h ->
    fst (read E a kb h) = Ok w ->
    perform E (flat_map (fun p => [FLook q kx p; FGet a kb]) ps) h =
      (true, snd (touch q kx ps (snd (read E a kb h)))).
  Proof.
    intros REG Hx Hex Hb Hi. assert (Hd : has_default ux = true) by (destruct Hex as [-> | ->]; reflexivity).
    assert (Hne : kb <> kx) by (eapply inner_key; eauto).
    induction ps as [|p ps IH]; intros Hps h S Hw; [congruence|].
    cbn [flat_map app perform]. unfold look. rewrite Hx, Hd.
    pose proof (read_commutes REG q kx ux [p] Hx Hex a kb ub h Hb Hi) as Cm. unfold T in Cm.
    rewrite Cm, Hw. destruct ps as [|p' ps]; [reflexivity|].
    assert (S1 : session E (snd (read E a kb h))) by (now apply session_read).
    assert (C1 : cached (snd (read E a kb h)) a kb w).
    { apply read_stays_cached; auto. now rewrite (surjective_pairing (read E a kb h)), Hw at 1. }
    assert (S2 : session E (snd (touch q kx [p] (snd (read E a kb h))))).
    { pose proof (session_exec E _ [OLook q kx p] S1) as X. unfold exec in X. cbn [fold_left step] in X.
      unfold look in X. rewrite Hx, Hd in X. apply X. repeat constructor. }
    destruct (read_touched _ a kb w q kx [p] (read_cached E _ _ _ _ C1) C1 Hne) as [R2 C2].
    rewrite IH; [|discriminate|exact S2|now rewrite R2].
    rewrite R2. cbn [snd]. now rewrite touch_more.
  Qed.

  (** The loop of the perimeter. *)
  Lemma loop_perimeter a kx ux kb ub w ps : registered E ->
    dget (e_updaters E) kx = Some ux -> ux = UExterior \/ ux = UExteriorSet ->
    dget (e_updaters E) kb = Some ub -> inner ub -> has_default ub = false -> ps <> [] ->
    forall h, session E h -> (exists v, cached h a kx v) -> fst (read E a kb h) = Ok w ->
    perform E (flat_map (fun p => [FGet a kx; FLook a kx p; FGet a kb; FLook a kb p]) ps) h =
      (true, snd (touch a kx ps (snd (read E a kb h)))).
  Proof.
    intros REG Hx Hex Hb Hi Hbd. assert (Hd : has_default ux = true) by (destruct Hex as [-> | ->]; reflexivity).
    assert (Hne : kb <> kx) by (eapply inner_key; eauto).
    induction ps as [|p ps IH]; intros Hps h S (v & Cx) Hw; [congruence|].
    cbn [flat_map app perform]. rewrite (read_cached E _ _ _ _ Cx). unfold look. rewrite Hx, Hd, Hb, Hbd.
    pose proof (read_commutes REG a kx ux [p] Hx Hex a kb ub h Hb Hi) as Cm. unfold T in Cm.
    rewrite Cm, Hw. destruct ps as [|p' ps]; [reflexivity|].
    assert (S1 : session E (snd (read E a kb h))) by (now apply session_read).
    assert (C1 : cached (snd (read E a kb h)) a kb w).
    { apply read_stays_cached; auto. now rewrite (surjective_pairing (read E a kb h)), Hw at 1. }
    assert (S2 : session E (snd (touch a kx [p] (snd (read E a kb h))))).
    { pose proof (session_exec E _ [OLook a kx p] S1) as X. unfold exec in X. cbn [fold_left step] in X.
      unfold look in X. rewrite Hx, Hd in X. apply X. repeat constructor. }
    destruct (read_touched _ a kb w a kx [p] (read_cached E _ _ _ _ C1) C1 Hne) as [R2 C2].
    rewrite IH; [|discriminate|exact S2| |now rewrite R2].
    - rewrite R2. cbn [snd]. now rewrite touch_more.
    - pose proof (session_wf E h S) as W. destruct S as (WE & REG' & _).
      destruct (proj2 (exec_persists E [OGet a kb; OLook a kx p] h WE REG' ltac:(repeat constructor) W)
                  a kx ux v Hx Cx) as (v' & C' & _).
      exists v'. unfold exec in C'. cbn [fold_left step] in C'. unfold look in C'. now rewrite Hx, Hd in C'.
  Qed.

  (** The loop of the interior boundaries of a plan without parent. *)
  Lemma loop_interior a k u ps : dget (e_updaters E) k = Some u -> has_default u = true ->
    forall h, session E h -> (exists v, cached h a k v) ->
    perform E (flat_map (fun p => [FGet a k; FLook a k p]) ps) h = (true, snd (touch a k ps h)).
  Proof.
    intros Hu Hd. induction ps as [|p ps IH]; intros h S (v & C); [cbn [flat_map perform]; now rewrite touch_none|].
    cbn [flat_map app perform]. rewrite (read_cached E _ _ _ _ C). unfold look. rewrite Hu, Hd.
    assert (S2 : session E (snd (touch a k [p] h))).
    { pose proof (session_exec E _ [OLook a k p] S) as X. unfold exec in X. cbn [fold_left step] in X.
      unfold look in X. rewrite Hu, Hd in X. apply X. repeat constructor. }
    rewrite IH; auto; [now rewrite touch_more|].
    destruct C as (o & Ho & Hv). exists (touch_value [p] v). unfold touch. cbn [snd]. apply cached_set_nth.
    exists o. split; auto. rewrite Nat.eqb_refl, Hv. apply dget_dset_eq.
  Qed.

  Lemma run_effects h a o k u v h' : session E h -> nth_error h a = Some o ->
    dget (e_updaters E) k = Some u ->
    run E (getitem E (3 * List.length h)) a o u h = (Ok v, h') ->
    perform E (effects a o u h) h = (true, h').
  Proof.
    intros S Ho Hu Hr. pose proof (session_wf E h S) as W. pose proof S as (WE & REG & _).
    assert (Hs : nth_error (map skel h) a = Some (skel o)) by (now rewrite nth_error_map, Ho).
    assert (Ha : a < List.length h) by (apply nth_error_Some; congruence).
    assert (Nest : forall q k' u' h1, q < List.length h -> measure q u' < measure a u ->
               dget (e_updaters E) k' = Some u' -> map skel h1 = map skel h ->
               getitem E (3 * List.length h) q k' h1 = read E q k' h1).
    { intros q k' u' h1 Hq Hm Hu' Hk. unfold read.
      assert (El : List.length h1 = List.length h) by (rewrite <- (map_length skel h1), Hk; apply map_length).
      rewrite El. assert (measure a u < Datatypes.S (3 * List.length h)).
      { unfold measure. pose proof (rank_le u). lia. }
      apply (getitem_eqr (map skel h) (proj1 W) REG (Datatypes.S (measure q u')) q k' u'); auto; try lia.
      rewrite map_length. lia. }
    assert (Par : forall q k' u' h1, o_parent o = Some q -> In (k', u') (reads u) -> map skel h1 = map skel h ->
               getitem E (3 * List.length h) q k' h1 = read E q k' h1).
    { intros q k' u' h1 Hq Hin Hk. destruct (proj1 W a _ Hs) as [_ H].
      destruct (H q Hq) as (Hlt & _). apply (Nest q k' u'); auto; [lia| |exact (REG k u Hu k' u' Hin)].
      unfold measure. pose proof (rank_le u'). lia. }
    assert (Self : forall k' (u' : upd) h1, rank u' < rank u -> In (k', u') (reads u) -> map skel h1 = map skel h ->
               getitem E (3 * List.length h) a k' h1 = read E a k' h1).
    { intros k' u' h1 Hlt Hin Hk. apply (Nest a k' u'); auto; [|exact (REG k u Hu k' u' Hin)]. unfold measure. lia. }
    assert (Reg : forall k' u', In (k', u') (reads u) -> dget (e_updaters E) k' = Some u').
    { exact (REG k u Hu). }
    assert (SkR : forall b k' h1, session E h1 -> map skel (snd (read E b k' h1)) = map skel h1).
    { intros b k' h1 S1. apply (read_spec E h1 b k' WE REG (session_wf E h1 S1)). }
    assert (SkT : forall b k' ps (h1 : heap), map skel (snd (touch b k' ps h1)) = map skel h1).
    { intros b k' ps h1. unfold touch. cbn [snd]. rewrite map_set_nth; auto. }
    assert (Tru : forall q, parent_if_true o h = Some q -> o_parent o = Some q).
    { intro q. unfold parent_if_true. destruct (o_parent o) as [q'|]; [|discriminate].
      destruct (nth_error h q'); [|discriminate]. destruct (a_parts (o_assign p)); [discriminate|auto]. }
    assert (One : forall q k' v1 h1, read E q k' h = (Ok v1, h1) -> perform E [FGet q k'] h = (true, h1)).
    { intros q k' v1 h1 H. cbn [perform]. now rewrite H. }
    clear Nest Hs Ha.
    assert (exists u0, u = u0) as [u0 Eu] by eauto. rewrite Eu in *. clear Eu.
    destruct u0 as [ | | fields al | data al | parties al | | | | | | | field al | f]; cbn [effects]; unfold run in Hr.
    - apply bindM_Ok in Hr. destruct Hr as (tp & h1 & Ht & Hr). apply truthy_Ok in Ht. destruct Ht as [-> ->].
      destruct (parent_if_true o h) as [q|].
      + apply bindM_Ok in Hr. destruct Hr as (po & h1 & Hg & Hr).
        assert (h1 = h) as ->. { unfold get_obj in Hg. destruct (nth_error h q); congruence. }
        do 3 (apply bindM_Ok in Hr; destruct Hr as (? & ? & Hl & Hr); apply lift_Ok in Hl; destruct Hl as [_ ->]).
        apply bindM_Ok in Hr. destruct Hr as (v1 & h1 & H1 & Hr).
        apply bindM_Ok in Hr; destruct Hr as (? & ? & Hl & Hr); apply lift_Ok in Hl; destruct Hl as [_ ->].
        injection Hr as _ <-. rewrite (Par q "cut_edges" UCutEdges) in H1; simpl; auto. eauto.
      + apply bindM_Ok in Hr; destruct Hr as (? & ? & Hl & Hr); apply lift_Ok in Hl; destruct Hl as [_ ->].
        injection Hr as _ <-. reflexivity.
    - apply bindM_Ok in Hr. destruct Hr as (tp & h1 & Ht & Hr). apply truthy_Ok in Ht. destruct Ht as [-> ->].
      destruct (parent_if_true o h) as [q|].
      + apply bindM_Ok in Hr; destruct Hr as (ef & ? & Hl & Hr); apply lift_Ok in Hl; destruct Hl as [Hef ->].
        destruct (o_eflows o) as [ef'|]; [|discriminate]. injection Hef as ->.
        apply bindM_Ok in Hr. destruct Hr as (v1 & h1 & H1 & Hr).
        apply bindM_Ok in Hr; destruct Hr as (? & ? & Hl & Hr); apply lift_Ok in Hl; destruct Hl as [_ ->].
        apply bindM_Ok in Hr. destruct Hr as ([] & h2 & H2 & Hr). injection Hr as _ <-.
        rewrite (Par q "cut_edges_by_part" UCutEdgesByPart) in H1; simpl; auto.
        cbn [perform]. rewrite H1.
        rewrite (perform_looks _ _ UCutEdgesByPart); [|apply Reg; simpl; auto|reflexivity]. now rewrite H2.
      + do 2 (apply bindM_Ok in Hr; destruct Hr as (? & ? & Hl & Hr); apply lift_Ok in Hl; destruct Hl as [_ ->]).
        injection Hr as _ <-. reflexivity.
    - destruct (o_parent o) as [q|] eqn:Eq.
      + apply bindM_Ok in Hr. destruct Hr as (v1 & h1 & H1 & Hr).
        do 2 (apply bindM_Ok in Hr; destruct Hr as (? & ? & Hl & Hr); apply lift_Ok in Hl; destruct Hl as [_ ->]).
        injection Hr as _ <-. rewrite (Par q al (UTally fields al)) in H1; simpl; auto. eauto.
      + apply bindM_Ok in Hr; destruct Hr as (? & ? & Hl & Hr); apply lift_Ok in Hl; destruct Hl as [_ ->].
        injection Hr as _ <-. reflexivity.
    - destruct (o_parent o) as [q|] eqn:Eq.
      + apply bindM_Ok in Hr. destruct Hr as (v1 & h1 & H1 & Hr).
        do 2 (apply bindM_Ok in Hr; destruct Hr as (? & ? & Hl & Hr); apply lift_Ok in Hl; destruct Hl as [_ ->]).
        injection Hr as _ <-. rewrite (Par q al (UDataTally data al)) in H1; simpl; auto. eauto.
      + apply bindM_Ok in Hr; destruct Hr as (? & ? & Hl & Hr); apply lift_Ok in Hl; destruct Hl as [_ ->].
        injection Hr as _ <-. reflexivity.
    - apply bindM_Ok in Hr. destruct Hr as (c & h0 & Hc & Hr).
      apply bindM_Ok in Hr; destruct Hr as (? & ? & Hl & Hr); apply lift_Ok in Hl; destruct Hl as [_ ->].
      injection Hr as _ <-.
      destruct (o_parent o) as [q|] eqn:Eq.
      + apply bindM_Ok in Hc. destruct Hc as (v1 & h1 & H1 & Hr).
        apply bindM_Ok in Hr; destruct Hr as (? & ? & Hl & Hr); apply lift_Ok in Hl; destruct Hl as [_ ->].
        apply lift_Ok in Hr. destruct Hr as [_ ->].
        rewrite (Par q al (UElection parties al)) in H1; simpl; auto. eauto.
      + apply lift_Ok in Hc. destruct Hc as [_ ->]. reflexivity.
    - apply bindM_Ok in Hr. destruct Hr as (tp & h1 & Ht & Hr). apply truthy_Ok in Ht. destruct Ht as [-> ->].
      destruct (parent_if_true o h) as [q|].
      + rewrite (Par q "boundary_nodes" UBoundaryNodes) in Hr; simpl; auto. eauto.
      + injection Hr as _ <-. reflexivity.
    - destruct (o_parent o) as [q|] eqn:Eq.
      + apply bindM_Ok in Hr. destruct Hr as (v1 & h1 & H1 & Hr).
        apply bindM_Ok in Hr; destruct Hr as (? & ? & Hl & Hr); apply lift_Ok in Hl; destruct Hl as [_ ->].
        rewrite (Par q "exterior_boundaries_as_a_set" UExteriorSet) in H1; simpl; auto.
        cbn [perform]. rewrite H1.
        destruct (o_flows o) as [|f0 fl] eqn:Ef; [injection Hr as _ <-; reflexivity|].
        apply bindM_Ok in Hr. destruct Hr as ([] & h2 & H2 & Hr).
        apply bindM_Ok in Hr. destruct Hr as (v3 & h3 & H3 & Hr).
        apply bindM_Ok in Hr; destruct Hr as (? & ? & Hl & Hr); apply lift_Ok in Hl; destruct Hl as [_ ->].
        injection Hr as _ <-.
        assert (S1 : session E h1). { pose proof (session_read E h q "exterior_boundaries_as_a_set" S) as X. now rewrite H1 in X. }
        assert (K1 : map skel h1 = map skel h). { pose proof (SkR q "exterior_boundaries_as_a_set" h S) as X. now rewrite H1 in X. }
        assert (H2' : h2 = snd (touch q "exterior_boundaries_as_a_set" (dkeys (f0 :: fl)) h1)) by (now rewrite H2).
        rewrite (Self "boundary_nodes" UBoundaryNodes) in H3; [|simpl; auto|simpl; auto|now rewrite H2', SkT].
        pose proof (read_commutes REG q "exterior_boundaries_as_a_set" UExteriorSet (dkeys (f0 :: fl))
                      (Reg _ _ (or_intror (or_introl eq_refl))) (or_intror eq_refl) a "boundary_nodes" UBoundaryNodes h1
                      (Reg _ _ (or_introl eq_refl)) (or_introl eq_refl)) as Cm.
        unfold T in Cm. rewrite <- H2' in Cm. rewrite Cm in H3. pose proof (f_equal snd H3) as H3'. apply (f_equal fst) in H3. cbn [fst snd] in H3, H3'.
        rewrite (loop_exterior q _ UExteriorSet a _ UBoundaryNodes v3); auto; [now rewrite H3'| | |left; auto|discriminate].
        * apply Reg. simpl. auto.
        * apply Reg. simpl. auto.
      + apply bindM_Ok in Hr. destruct Hr as (v1 & h1 & H1 & Hr).
        do 2 (apply bindM_Ok in Hr; destruct Hr as (? & ? & Hl & Hr); apply lift_Ok in Hl; destruct Hl as [_ ->]).
        injection Hr as _ <-. rewrite (Self "boundary_nodes" UBoundaryNodes) in H1; simpl; auto. eauto.
    - destruct (o_parent o) as [q|] eqn:Eq.
      + apply bindM_Ok in Hr. destruct Hr as (v1 & h1 & H1 & Hr).
        apply bindM_Ok in Hr; destruct Hr as (? & ? & Hl & Hr); apply lift_Ok in Hl; destruct Hl as [_ ->].
        rewrite (Par q "exterior_boundaries" UExterior) in H1; simpl; auto.
        cbn [perform]. rewrite H1.
        destruct (o_flows o) as [|f0 fl] eqn:Ef; [injection Hr as _ <-; reflexivity|].
        apply bindM_Ok in Hr. destruct Hr as ([] & h2 & H2 & Hr).
        apply bindM_Ok in Hr. destruct Hr as (v3 & h3 & H3 & Hr).
        apply bindM_Ok in Hr; destruct Hr as (? & ? & Hl & Hr); apply lift_Ok in Hl; destruct Hl as [_ ->].
        injection Hr as _ <-.
        assert (S1 : session E h1). { pose proof (session_read E h q "exterior_boundaries" S) as X. now rewrite H1 in X. }
        assert (K1 : map skel h1 = map skel h). { pose proof (SkR q "exterior_boundaries" h S) as X. now rewrite H1 in X. }
        assert (H2' : h2 = snd (touch q "exterior_boundaries" (dkeys (f0 :: fl)) h1)) by (now rewrite H2).
        rewrite (Self "boundary_nodes" UBoundaryNodes) in H3; [|simpl; auto|simpl; auto|now rewrite H2', SkT].
        pose proof (read_commutes REG q "exterior_boundaries" UExterior (dkeys (f0 :: fl))
                      (Reg _ _ (or_intror (or_introl eq_refl))) (or_introl eq_refl) a "boundary_nodes" UBoundaryNodes h1
                      (Reg _ _ (or_introl eq_refl)) (or_introl eq_refl)) as Cm.
        unfold T in Cm. rewrite <- H2' in Cm. rewrite Cm in H3. pose proof (f_equal snd H3) as H3'. apply (f_equal fst) in H3. cbn [fst snd] in H3, H3'.
        rewrite (loop_exterior q _ UExterior a _ UBoundaryNodes v3); auto; [now rewrite H3'| | |left; auto|discriminate].
        * apply Reg. simpl. auto.
        * apply Reg. simpl. auto.
      + apply bindM_Ok in Hr. destruct Hr as (v1 & h1 & H1 & Hr).
        do 2 (apply bindM_Ok in Hr; destruct Hr as (? & ? & Hl & Hr); apply lift_Ok in Hl; destruct Hl as [_ ->]).
        injection Hr as _ <-. rewrite (Self "boundary_nodes" UBoundaryNodes) in H1; simpl; auto. eauto.
    - apply bindM_Ok in Hr. destruct Hr as (tp & h1 & Ht & Hr). apply truthy_Ok in Ht. destruct Ht as [-> ->].
      destruct (parent_if_true o h) as [q|].
      + apply bindM_Ok in Hr; destruct Hr as (ef & ? & Hl & Hr); apply lift_Ok in Hl; destruct Hl as [Hef ->].
        destruct (o_eflows o) as [ef'|]; [|discriminate].
        apply bindM_Ok in Hr. destruct Hr as (v1 & h1 & H1 & Hr).
        do 2 (apply bindM_Ok in Hr; destruct Hr as (? & ? & Hl & Hr); apply lift_Ok in Hl; destruct Hl as [_ ->]).
        injection Hr as _ <-. rewrite (Par q "interior_boundaries" UInterior) in H1; simpl; auto.
        cbn [perform]. rewrite H1. apply (perform_looks_nothing _ _ UInterior); [apply Reg; simpl; auto|reflexivity].
      + destruct (dkeys (a_parts (o_assign o))) as [|p0 ps] eqn:Ep; [injection Hr as _ <-; reflexivity|].
        apply bindM_Ok in Hr. destruct Hr as (v1 & h1 & H1 & Hr).
        apply bindM_Ok in Hr; destruct Hr as (? & ? & Hl & Hr); apply lift_Ok in Hl; destruct Hl as [_ ->].
        apply bindM_Ok in Hr. destruct Hr as ([] & h2 & H2 & Hr). injection Hr as _ <-.
        rewrite (Self "cut_edges_by_part" UCutEdgesByPart) in H1; simpl; auto.
        assert (S1 : session E h1). { pose proof (session_read E h a "cut_edges_by_part" S) as X. now rewrite H1 in X. }
        assert (C1 : cached h1 a "cut_edges_by_part" v1).
        { pose proof (read_stays_cached h a "cut_edges_by_part" v1 S) as X. rewrite H1 in X. now apply X. }
        pose proof (loop_interior a "cut_edges_by_part" UCutEdgesByPart (p0 :: ps) (Reg _ _ (or_introl eq_refl)) eq_refl h1 S1
                      (ex_intro _ v1 C1)) as LI.
        cbn [flat_map app perform] in LI |- *. rewrite (read_cached E _ _ _ _ C1) in LI. rewrite H1, LI. now rewrite H2.
    - destruct (dkeys (a_parts (o_assign o))) as [|p0 ps] eqn:Ep; [injection Hr as _ <-; reflexivity|].
      apply bindM_Ok in Hr. destruct Hr as (v1 & h1 & H1 & Hr).
      apply bindM_Ok in Hr; destruct Hr as (? & ? & Hl & Hr); apply lift_Ok in Hl; destruct Hl as [_ ->].
      apply bindM_Ok in Hr. destruct Hr as ([] & h2 & H2 & Hr).
      apply bindM_Ok in Hr. destruct Hr as (v3 & h3 & H3 & Hr).
      do 2 (apply bindM_Ok in Hr; destruct Hr as (? & ? & Hl & Hr); apply lift_Ok in Hl; destruct Hl as [_ ->]).
      injection Hr as _ <-.
      rewrite (Self "exterior_boundaries" UExterior) in H1; simpl; auto.
      assert (S1 : session E h1). { pose proof (session_read E h a "exterior_boundaries" S) as X. now rewrite H1 in X. }
      assert (K1 : map skel h1 = map skel h). { pose proof (SkR a "exterior_boundaries" h S) as X. now rewrite H1 in X. }
      assert (C1 : cached h1 a "exterior_boundaries" v1).
      { pose proof (read_stays_cached h a "exterior_boundaries" v1 S) as X. rewrite H1 in X. now apply X. }
      assert (H2' : h2 = snd (touch a "exterior_boundaries" (p0 :: ps) h1)) by (now rewrite H2).
      rewrite (Self "interior_boundaries" UInterior) in H3; [|simpl; auto|simpl; auto|now rewrite H2', SkT].
      pose proof (read_commutes REG a "exterior_boundaries" UExterior (p0 :: ps)
                    (Reg _ _ (or_introl eq_refl)) (or_introl eq_refl) a "interior_boundaries" UInterior h1
                    (Reg _ _ (or_intror (or_introl eq_refl))) (or_intror (or_intror eq_refl))) as Cm.
      unfold T in Cm. rewrite <- H2' in Cm. rewrite Cm in H3. pose proof (f_equal snd H3) as H3'. apply (f_equal fst) in H3. cbn [fst snd] in H3, H3'.
      pose proof (loop_perimeter a "exterior_boundaries" UExterior "interior_boundaries" UInterior v3 (p0 :: ps) REG
                    (Reg _ _ (or_introl eq_refl)) (or_introl eq_refl) (Reg _ _ (or_intror (or_introl eq_refl)))
                    (or_intror (or_intror eq_refl)) eq_refl ltac:(discriminate) h1 S1 (ex_intro _ v1 C1) H3) as LP.
      rewrite <- H3', <- LP. cbn [flat_map app perform]. now rewrite H1, (read_cached E _ _ _ _ C1).
    - injection Hr as _ <-. reflexivity.
    - apply bindM_Ok in Hr. destruct Hr as (tp & h1 & Ht & Hr). apply truthy_Ok in Ht. destruct Ht as [-> ->].
      destruct (parent_if_true o h) as [q|].
      + apply bindM_Ok in Hr. destruct Hr as (v1 & h1 & H1 & Hr).
        do 2 (apply bindM_Ok in Hr; destruct Hr as (? & ? & Hl & Hr); apply lift_Ok in Hl; destruct Hl as [_ ->]).
        injection Hr as _ <-. rewrite (Par q al (UCounty field al)) in H1; simpl; auto. eauto.
      + apply bindM_Ok in Hr; destruct Hr as (? & ? & Hl & Hr); apply lift_Ok in Hl; destruct Hl as [_ ->].
        injection Hr as _ <-. reflexivity.
    - injection Hr as _ <-. reflexivity.
  Qed.
End Complete.
