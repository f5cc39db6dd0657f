(** Theorems about FrozenGraph and SubgraphView (C108, C109). *)
From Coq Require Import List Bool Arith Lia.
From Verif Require Import Base M_Graph M_Partition S_Partition L_Partition P_Partition M_Assignment P_Assignment M_Frozen.
Import ListNotations.

Section LruFacts.
  Context {K X : Type} {EK : EqB K}.
  Implicit Types (c : list (K * X)) (k : K).
  Lemma dget_firstn c m k x : dget (firstn m c) k = Some x -> dget c k = Some x.
  Proof.
    revert m. induction c as [|[k' x'] c IH]; intros [|m]; cbn [firstn dget]; try discriminate.
    destruct (eqb k k'); [auto|apply IH].
  Qed.
  Lemma dget_without c k k' : dget (without k c) k' = if eqb k' k then None else dget c k'.
  Proof.
    induction c as [|[q x] c IH]; cbn [without filter dget fst]; [now destruct (eqb k' k)|].
    fold (without k c). destruct (eqb_spec q k) as [->|Nq]; cbn [negb].
    - rewrite IH. destruct (eqb_spec k' k); reflexivity.
    - cbn [dget]. rewrite IH. destruct (eqb_spec k' q) as [->|]; [|reflexivity]. destruct (eqb_spec q k); [contradiction|reflexivity].
  Qed.
  (** A cache that only holds good values still does after a call, and the
      call returns a good value. *)
  Lemma lru_good cap k compute c (Q : K -> X -> Prop) : (forall k' x, dget c k' = Some x -> Q k' x) -> (forall x, compute = Ok x -> Q k x) ->
    (forall x, fst (lru_call cap k compute c) = Ok x -> Q k x) /\ (forall k' x, dget (snd (lru_call cap k compute c)) k' = Some x -> Q k' x).
  Proof.
    intros Hc Hk. unfold lru_call. destruct (dget c k) as [y|] eqn:E.
    - cbn [fst snd]. split; [intros x [= <-]; now apply Hc|]. intros k' x. cbn [dget]. destruct (eqb_spec k' k) as [->|]; [intros [= <-]; now apply Hc|].
      rewrite dget_without. destruct (eqb_spec k' k); [contradiction|]. apply Hc.
    - destruct compute as [y|e|]; cbn [fst snd]; [|split; [intros ? [=]|exact Hc]|split; [intros ? [=]|exact Hc]].
      split; [intros x [= <-]; now apply Hk|]. intros k' x. cbn [dget]. destruct (eqb_spec k' k) as [->|]; [intros [= <-]; now apply Hk|]. intro H. apply Hc. eapply dget_firstn; eauto.
  Qed.
  Lemma lru_miss cap k compute c : dget c k = None -> fst (lru_call cap k compute c) = compute.
  Proof. intro E. unfold lru_call. rewrite E. now destruct compute. Qed.
  Lemma lru_err cap k compute c e : fst (lru_call cap k compute c) = Err e -> compute = Err e /\ dget c k = None.
  Proof. unfold lru_call. destruct (dget c k); [intros [=]|]. destruct compute; cbn; intros [=]; subst; auto. Qed.
  (** What is in the cache stays the answer. *)
  Lemma lru_hit cap k compute c x : dget c k = Some x -> fst (lru_call cap k compute c) = Ok x.
  Proof. intro E. unfold lru_call. now rewrite E. Qed.
  (** The key [k] is safe as long as fewer than [cap] other keys are used. *)
  Definition safe (ks : list K) k x c : Prop :=
    exists pre post, c = pre ++ (k, x) :: post /\ NoDup (map fst pre) /\ (forall k', In k' (map fst pre) -> k' <> k /\ In k' ks).
  Lemma safe_dget ks k x c : safe ks k x c -> dget c k = Some x.
  Proof.
    intros (pre & post & -> & _ & H). induction pre as [|[q y] pre IH]; cbn [app dget]; [now rewrite eqb_refl|].
    destruct (eqb_spec k q) as [->|]; [exfalso; now apply (H q (or_introl eq_refl))|]. apply IH. intros k' Hk. apply H. now right.
  Qed.
  Lemma without_app k c d : without k (c ++ d) = without k c ++ without k d.
  Proof. apply filter_app. Qed.
  Lemma without_fst k c k' : In k' (map fst (without k c)) <-> In k' (map fst c) /\ k' <> k.
  Proof.
    unfold without. rewrite !in_map_iff. split.
    - intros ([q y] & <- & H). apply filter_In in H. cbn in H. destruct H as [H E]. split; [exists (q, y); auto|]. intro Hq. cbn in Hq. subst q. now rewrite eqb_refl in E.
    - intros [([q y] & <- & H) Ne]. exists (q, y). split; [reflexivity|]. apply filter_In. split; [exact H|]. cbn in *. destruct (eqb_spec q k); [contradiction|reflexivity].
  Qed.
  Lemma without_nodup k c : NoDup (map fst c) -> NoDup (map fst (without k c)).
  Proof.
    induction c as [|[q y] c IH]; intro H; [constructor|]. inversion H as [|? ? H1 H2]; subst. unfold without. cbn [filter fst]. fold (without k c).
    destruct (negb (eqb q k)); [|now apply IH]. cbn [map fst]. constructor; [|now apply IH]. intro X0. apply without_fst in X0. now apply H1.
  Qed.
  Lemma safe_call cap ks k x c k' compute : List.length ks < cap -> NoDup ks -> In k' ks \/ k' = k -> safe ks k x c -> safe ks k x (snd (lru_call cap k' compute c)).
  Proof.
    intros Hcap Nk Hk S. assert (G := safe_dget _ _ _ _ S). destruct S as (pre & post & Ec & Np & Hp). unfold lru_call.
    destruct (eqb_spec k' k) as [->|Ne].
    - rewrite G. cbn [snd]. exists [], (without k c). split; [reflexivity|]. split; [constructor|intros ? []].
    - destruct Hk as [Hk|Hk]; [|contradiction].
      assert (Len : ~ In k' (map fst pre) -> List.length pre + 2 <= cap).
      { intro Hn. assert (X0 : List.length (k' :: map fst pre) <= List.length ks). { apply NoDup_incl_length; [now constructor|]. intros y [<-|Hy]; [exact Hk|now apply Hp]. } cbn in X0. rewrite map_length in X0. lia. }
      destruct (dget c k') as [y|] eqn:E.
      + cbn [snd]. exists ((k', y) :: without k' pre), (without k' post). split; [|split].
        * rewrite Ec, without_app. cbn [app]. f_equal. f_equal. unfold without at 1. cbn [filter fst]. destruct (eqb_spec k k'); [congruence|]. reflexivity.
        * cbn [map fst]. constructor; [|now apply without_nodup]. intro X0. apply without_fst in X0. tauto.
        * intros q [<-|Hq]; [auto|]. apply without_fst in Hq. now apply Hp.
      + destruct compute as [y|e|]; cbn [snd]; [|exists pre, post; auto|exists pre, post; auto].
        assert (Hn : ~ In k' (map fst pre)). { intro Hin. apply dget_None in E. apply E. unfold dkeys. rewrite Ec, map_app. apply in_app_iff. now left. }
        specialize (Len Hn). exists ((k', y) :: pre), (firstn (cap - 1 - List.length pre - 1) post). split; [|split].
        * rewrite Ec, firstn_app. rewrite firstn_all2 by lia. cbn [app]. f_equal. f_equal. destruct (cap - 1 - List.length pre) as [|r] eqn:Er; [lia|]. replace (S r - 1) with r by lia. reflexivity.
        * cbn [map fst]. now constructor.
        * intros q [<-|Hq]; [auto|now apply Hp].
  Qed.
  (** After [cap] different other keys the key [k] is gone. *)
  Definition heads (ks : list K) c : Prop := exists post, map fst c = ks ++ post.
  Lemma heads_call cap ks k' c compute : List.length ks < cap -> ~ In k' ks -> heads ks c -> (exists z, compute = Ok z) -> heads (k' :: ks) (snd (lru_call cap k' compute c)).
  Proof.
    intros Hcap Hn [post Hh] [z ->]. unfold lru_call. destruct (dget c k') as [u|] eqn:E; cbn [snd].
    - assert (W : forall (l : list (K * X)) post, map fst l = ks ++ post -> exists p, map fst (without k' l) = ks ++ p).
      { clear - Hn. induction ks as [|q ks IH]; intros l post E; [exists (map fst (without k' l)); reflexivity|]. destruct l as [|[q' u] l]; [discriminate|]. cbn in E. injection E as -> E.
        destruct (IH (fun X0 => Hn (or_intror X0)) l post E) as [p Hp]. exists p. unfold without. cbn [filter fst]. destruct (eqb_spec q k') as [->|]; [exfalso; apply Hn; now left|]. cbn [negb map fst app]. fold (without k' l). now rewrite Hp. }
      destruct (W c post Hh) as [p Hp]. exists p. cbn [map fst app]. now rewrite Hp.
    - exists (firstn (cap - 1 - List.length ks) post). cbn [map fst app]. f_equal. rewrite <- firstn_map, Hh, firstn_app. f_equal. apply firstn_all2. lia.
  Qed.
  Lemma length_without k c : List.length (without k c) <= List.length c.
  Proof. unfold without. induction c as [|a c IH]; cbn; [lia|]. destruct (negb (eqb (fst a) k)); cbn; lia. Qed.
  Lemma lru_length cap k compute c : 0 < cap -> NoDup (map fst c) -> List.length c <= cap -> List.length (snd (lru_call cap k compute c)) <= cap /\ NoDup (map fst (snd (lru_call cap k compute c))).
  Proof.
    intros Hcap Nc Hl. unfold lru_call. destruct (dget c k) as [x|] eqn:E; cbn [snd].
    - split.
      + cbn [List.length]. assert (X0 : S (List.length (without k c)) <= List.length c); [|lia].
        clear - E. induction c as [|[q y] c IH]; [discriminate|]. cbn [dget] in E. unfold without. cbn [filter fst]. fold (without k c). destruct (eqb_spec k q) as [->|Ne].
        * rewrite eqb_refl. cbn. assert (X0 := length_without q c). lia.
        * destruct (eqb_spec q k); [congruence|]. cbn. specialize (IH E). lia.
      + cbn [map fst]. constructor; [|now apply without_nodup]. intro X0. apply without_fst in X0. tauto.
    - destruct compute as [x|e|]; cbn [snd]; [|auto|auto]. split.
      + cbn [List.length]. rewrite firstn_length. lia.
      + cbn [map fst]. constructor.
        * intro X0. apply dget_None in E. apply E. unfold dkeys. rewrite <- firstn_map in X0. rewrite <- (firstn_skipn (cap - 1) (map fst c)). apply in_app_iff. now left.
        * rewrite <- firstn_map. rewrite <- (firstn_skipn (cap - 1) (map fst c)) in Nc. apply NoDup_app_iff in Nc. tauto.
  Qed.
End LruFacts.

Section FrozenFacts.
  Context {N F V P : Type} {EN : EqB N} {EF : EqB F} {EP : EqB P}.
  Variables cn cd cl : nat.
  Implicit Types (w : world N F V P) (c : fcmd N F V P) (o : gobj N F V) (g : graph N).
  Notation step := (fstep cn cd cl).
  Notation run := (frun cn cd cl).

  (** A program that wants to change the nodes, edges or, by add_data or join,
      the data of graph [i]. *)
  Definition changes (i : nat) c : bool :=
    match c with
    | AddNode i' _ | AddEdge i' _ _ | RemoveNode i' _ | RemoveEdge i' _ _ | AddData i' _ => Nat.eqb i' i
    | _ => false
    end.
  (** It writes to attribute [f] of node [n] of graph [i]. *)
  Definition writes (i : nat) (n : N) (f : F) c : bool :=
    match c with SetAttr i' n' f' _ => Nat.eqb i' i && eqb n' n && eqb f' f | _ => false end.

  Lemma nth_upd_same {A} (l : list A) i x : i < List.length l -> nth_error (upd l i x) i = Some x.
  Proof. revert i. induction l as [|y l IH]; intros [|i] H; cbn in *; try lia; auto. apply IH. lia. Qed.
  Lemma nth_upd_other {A} (l : list A) i j x : i <> j -> nth_error (upd l i x) j = nth_error l j.
  Proof. revert i j. induction l as [|y l IH]; intros [|i] [|j] H; cbn; auto; try lia. Qed.
  Lemma nth_app_left {A} (l r : list A) i x : nth_error l i = Some x -> nth_error (l ++ r) i = Some x.
  Proof. intro H. rewrite nth_error_app1; auto. apply nth_error_Some. congruence. Qed.

  (** One statement and one graph. *)
  Lemma step_graph c w i o : nth_error (w_graphs w) i = Some o ->
    exists o', nth_error (w_graphs (snd (step c w))) i = Some o' /\
      (go_frozen o = true -> go_graph o' = go_graph o /\ go_frozen o' = true /\
         forall n f, writes i n f c = false -> attribute o' n f = attribute o n f).
  Proof.
    intro Hi. assert (Li : i < List.length (w_graphs w)) by (apply nth_error_Some; congruence).
    assert (Same : forall w', w_graphs w' = w_graphs w -> exists o', nth_error (w_graphs w') i = Some o' /\ (go_frozen o = true -> go_graph o' = go_graph o /\ go_frozen o' = true /\ forall n f, writes i n f c = false -> attribute o' n f = attribute o n f)).
    { intros w' ->. exists o. split; [exact Hi|]. auto. }
    assert (New : forall w' x, w_graphs w' = w_graphs w ++ x -> exists o', nth_error (w_graphs w') i = Some o' /\ (go_frozen o = true -> go_graph o' = go_graph o /\ go_frozen o' = true /\ forall n f, writes i n f c = false -> attribute o' n f = attribute o n f)).
    { intros w' x ->. exists o. split; [now apply nth_app_left|]. auto. }
    assert (Mut : forall i' fn, exists o', nth_error (w_graphs (snd (mutate w i' fn))) i = Some o' /\ (go_frozen o = true -> go_graph o' = go_graph o /\ go_frozen o' = true /\ forall n f, writes i n f c = false -> attribute o' n f = attribute o n f)).
    { intros i' fn. unfold mutate. destruct (nth_error (w_graphs w) i') as [o1|] eqn:E; [|now apply Same]. destruct (go_frozen o1) eqn:Fz; [now apply Same|]. destruct (fn o1) as [o2|e|]; [|now apply Same|now apply Same].
      cbn [snd with_graph w_graphs]. destruct (Nat.eq_dec i' i) as [->|Ne].
      - exists o2. split; [now apply nth_upd_same|]. intro Ft. congruence.
      - exists o. split; [now rewrite nth_upd_other|]. auto. }
    destruct c; cbn [fstep]; try (apply Mut); try (now apply Same); try (eapply New; reflexivity).
    - destruct (nth_error (w_graphs w) i0); [|now apply Same]. eapply New; reflexivity.
    - destruct (nth_error (w_graphs w) i0) as [o1|] eqn:E; [|now apply Same]. destruct (mem n (g_nodes (go_graph o1))) eqn:Em; [|now apply Same].
      cbn [snd with_graph w_graphs]. destruct (Nat.eq_dec i0 i) as [->|Ne].
      + rewrite Hi in E. injection E as <-. eexists. split; [now apply nth_upd_same|]. intro Ft. cbn [go_graph go_frozen]. split; [reflexivity|]. split; [exact Ft|].
        intros n' f' Hw. unfold attribute. cbn [go_graph go_data]. destruct (mem n' (g_nodes (go_graph o))) eqn:Em'; [|reflexivity].
        unfold dget_or at 1. rewrite dget_dset. cbn [writes] in Hw. rewrite Nat.eqb_refl in Hw. cbn [andb] in Hw. destruct (eqb_spec n' n) as [->|Nn]; [|reflexivity].
        rewrite dget_dset. rewrite eqb_refl in Hw. cbn [andb] in Hw. destruct (eqb_spec f' f) as [->|]; [now rewrite eqb_refl in Hw|reflexivity].
      + exists o. split; [now rewrite nth_upd_other|]. auto.
    - destruct (nth_error (w_graphs w) i0) as [o1|] eqn:E; [|now apply Same]. cbn [snd w_graphs with_graph]. destruct (Nat.eq_dec i0 i) as [->|Ne].
      + rewrite Hi in E. injection E as <-. eexists. split; [now apply nth_upd_same|]. cbn. auto.
      + exists o. split; [now rewrite nth_upd_other|]. auto.
    - destruct (nth_error (w_frozen w) j); [|now apply Same]. destruct (behind w j) as [[? ?]|]; now apply Same.
    - destruct (behind w j) as [[? ?]|]; now apply Same.
    - destruct (behind w j) as [[? ?]|]; now apply Same.
    - destruct (behind w j) as [[? ?]|]; now apply Same.
    - destruct (nth_error (w_frozen w) j); now apply Same.
    - destruct (nth_error (w_views w) a) as [vv|]; [|now apply Same]. destruct (dget (v_cache vv) p); [now apply Same|]. destruct (dget (v_parts vv) p); [|now apply Same].
      destruct (nth_error (w_frozen w) (v_obj vv)); [|now apply Same]. destruct (behind w (v_obj vv)) as [[? ?]|]; now apply Same.
    - destruct (nth_error (w_views w) a); now apply Same.
  Qed.
  (** FrozenGraph objects are only added. *)
  Lemma step_objs c w : exists l, w_frozen (snd (step c w)) = w_frozen w ++ l.
  Proof.
    assert (Same : forall w', w_frozen w' = w_frozen w -> exists l, w_frozen w' = w_frozen w ++ l) by (intros w' ->; exists []; symmetry; apply app_nil_r).
    assert (Mut : forall i' fn, exists l, w_frozen (snd (mutate w i' fn)) = w_frozen w ++ l).
    { intros i' fn. unfold mutate. destruct (nth_error (w_graphs w) i') as [o1|]; [|now apply Same]. destruct (go_frozen o1); [now apply Same|]. destruct (fn o1); now apply Same. }
    destruct c; cbn [fstep]; try (apply Mut); try (now apply Same).
    - destruct (nth_error (w_graphs w) i); now apply Same.
    - destruct (nth_error (w_graphs w) i) as [o1|]; [|now apply Same]. destruct (mem n (g_nodes (go_graph o1))); now apply Same.
    - destruct (nth_error (w_graphs w) i); [|now apply Same]. eexists. reflexivity.
    - destruct (nth_error (w_frozen w) j); [|now apply Same]. destruct (behind w j) as [[? ?]|]; [|now apply Same]. eexists. reflexivity.
    - destruct (behind w j) as [[? ?]|]; now apply Same.
    - destruct (behind w j) as [[? ?]|]; now apply Same.
    - destruct (behind w j) as [[? ?]|]; now apply Same.
    - destruct (nth_error (w_frozen w) j); now apply Same.
    - destruct (nth_error (w_views w) a) as [vv|]; [|now apply Same]. destruct (dget (v_cache vv) p); [now apply Same|]. destruct (dget (v_parts vv) p); [|now apply Same].
      destruct (nth_error (w_frozen w) (v_obj vv)); [|now apply Same]. destruct (behind w (v_obj vv)) as [[? ?]|]; [|now apply Same]. eexists. reflexivity.
    - destruct (nth_error (w_views w) a); now apply Same.
  Qed.
  Lemma step_obj c w j fo : nth_error (w_frozen w) j = Some fo -> nth_error (w_frozen (snd (step c w))) j = Some fo.
  Proof. intro H. destruct (step_objs c w) as [l ->]. now apply nth_app_left. Qed.
  (** New FrozenGraphs hold a graph that is frozen. *)
  Definition held w : Prop := forall j fo, nth_error (w_frozen w) j = Some fo -> exists o, nth_error (w_graphs w) (fo_graph fo) = Some o /\ go_frozen o = true.
  Lemma step_held c w : held w -> held (snd (step c w)).
  Proof.
    intros H j fo Hj. destruct (nth_error (w_frozen w) j) as [fo'|] eqn:E.
    - rewrite (step_obj c w j fo' E) in Hj. injection Hj as <-. destruct (H j fo' E) as (o & Ho & Hf). destruct (step_graph c w _ o Ho) as (o' & Ho' & Hs). exists o'. split; [exact Ho'|]. now apply Hs.
    - assert (Lj : List.length (w_frozen w) <= j) by now apply nth_error_None.
      assert (Dead : forall w', w_frozen w' = w_frozen w -> nth_error (w_frozen w') j = Some fo -> False) by (intros w' ->; congruence).
      assert (Mut : forall i' fn, nth_error (w_frozen (snd (mutate w i' fn))) j = Some fo -> False).
      { intros i' fn. unfold mutate. destruct (nth_error (w_graphs w) i') as [o1|]; [|now apply Dead]. destruct (go_frozen o1); [now apply Dead|]. destruct (fn o1); now apply Dead. }
      assert (One : forall x, nth_error (w_frozen w ++ [x]) j = Some fo -> fo = x).
      { intros x Hx. rewrite nth_error_app2 in Hx by exact Lj. destruct (j - List.length (w_frozen w)) as [|[|r]]; cbn in Hx; congruence. }
      revert Hj. destruct c; cbn [fstep]; intro Hj; try (exfalso; now apply Mut in Hj); try (exfalso; now apply Dead in Hj).
      + exfalso. destruct (nth_error (w_graphs w) i); now apply Dead in Hj.
      + exfalso. destruct (nth_error (w_graphs w) i) as [o1|]; [|now apply Dead in Hj]. destruct (mem n (g_nodes (go_graph o1))); now apply Dead in Hj.
      + destruct (nth_error (w_graphs w) i) as [o1|] eqn:Ei; [|exfalso; now apply Dead in Hj]. cbn [snd w_frozen] in Hj. apply One in Hj. subst fo. cbn [snd w_graphs with_graph fo_graph]. eexists. split; [apply nth_upd_same; apply nth_error_Some; congruence|reflexivity].
      + destruct (nth_error (w_frozen w) j0) as [f0|] eqn:E0; [|exfalso; now apply Dead in Hj]. destruct (behind w j0) as [[? ?]|]; [|exfalso; now apply Dead in Hj]. cbn [snd w_frozen] in Hj. apply One in Hj. subst fo. cbn [snd w_graphs fo_graph]. exact (H j0 f0 E0).
      + exfalso. destruct (behind w j0) as [[? ?]|]; now apply Dead in Hj.
      + exfalso. destruct (behind w j0) as [[? ?]|]; now apply Dead in Hj.
      + exfalso. destruct (behind w j0) as [[? ?]|]; now apply Dead in Hj.
      + exfalso. destruct (nth_error (w_frozen w) j0); now apply Dead in Hj.
      + destruct (nth_error (w_views w) a) as [vv|]; [|exfalso; now apply Dead in Hj]. destruct (dget (v_cache vv) p); [exfalso; now apply Dead in Hj|]. destruct (dget (v_parts vv) p); [|exfalso; now apply Dead in Hj].
        destruct (nth_error (w_frozen w) (v_obj vv)) as [f0|] eqn:E0; [|exfalso; now apply Dead in Hj]. destruct (behind w (v_obj vv)) as [[? ?]|]; [|exfalso; now apply Dead in Hj]. cbn [snd w_frozen] in Hj. apply One in Hj. subst fo. cbn [snd w_graphs fo_graph]. exact (H _ f0 E0).
      + exfalso. destruct (nth_error (w_views w) a); now apply Dead in Hj.
  Qed.
  Lemma run_held cs : held (run cs no_world).
  Proof.
    assert (G : forall cs w, held w -> held (run cs w)) by (induction cs0 as [|c cs0 IH]; intros w H; [exact H|apply IH; now apply step_held]).
    apply G. intros [|j] fo; discriminate.
  Qed.
  Lemma run_app cs1 cs2 w : run (cs1 ++ cs2) w = run cs2 (run cs1 w).
  Proof. apply fold_left_app. Qed.

  (** ** C108: the structure cannot change *)
  Theorem C108_frozen : forall before i after, let w := run before no_world in let w' := run after (snd (step (Freeze i) w)) in
    i < List.length (w_graphs w) ->
    exists o o', nth_error (w_graphs w) i = Some o /\ nth_error (w_graphs w') i = Some o' /\
      go_graph o' = go_graph o /\
      (forall c, changes i c = true -> step c w' = (Err NetworkXError, w')) /\
      (forall n f x, In n (g_nodes (go_graph o)) -> exists w2 o2, step (SetAttr i n f x) w' = (Ok ADone, w2) /\ nth_error (w_graphs w2) i = Some o2 /\ attribute o2 n f = Some x) /\
      (forall n f x, ~ In n (g_nodes (go_graph o)) -> step (SetAttr i n f x) w' = (Err KeyError, w')) /\
      (forall n f, Forall (fun c => writes i n f c = false) after -> attribute o' n f = attribute o n f).
  Proof.
    intros before i after w w' Li. destruct (nth_error (w_graphs w) i) as [o|] eqn:E; [|apply nth_error_None in E; lia].
    assert (G : forall cs w1 o1, nth_error (w_graphs w1) i = Some o1 -> go_frozen o1 = true -> exists o2, nth_error (w_graphs (run cs w1)) i = Some o2 /\ go_graph o2 = go_graph o1 /\ go_frozen o2 = true /\
      forall n f, Forall (fun c => writes i n f c = false) cs -> attribute o2 n f = attribute o1 n f).
    { induction cs as [|c cs IH]; intros w1 o1 H1 F1; [exists o1; auto|]. destruct (step_graph c w1 i o1 H1) as (o2 & H2 & S2). destruct (S2 F1) as (A & B & C). destruct (IH _ o2 H2 B) as (o3 & H3 & A3 & B3 & C3).
      exists o3. split; [exact H3|]. split; [congruence|]. split; [exact B3|]. intros n f Fa. inversion Fa; subst. rewrite C3 by assumption. now apply C. }
    assert (H1 : nth_error (w_graphs (snd (step (Freeze i) w))) i = Some (mkG (go_graph o) (go_data o) true)).
    { cbn [fstep]. rewrite E. cbn [snd w_graphs with_graph]. now apply nth_upd_same. }
    destruct (G after _ _ H1 eq_refl) as (o' & H' & A & B & C). fold w' in H'. cbn [go_graph] in A.
    exists o, o'. split; [reflexivity|]. split; [exact H'|]. split; [exact A|]. split; [|split; [|split]].
    - intros c Hc. destruct c; cbn [changes] in Hc; try discriminate; apply Nat.eqb_eq in Hc; subst; cbn [fstep]; unfold mutate; now rewrite H', B.
    - intros n f x Hn. cbn [fstep]. rewrite H'. rewrite A. rewrite (proj2 (mem_In n (g_nodes (go_graph o))) Hn). eexists. eexists. split; [reflexivity|]. cbn [with_graph w_graphs]. split; [apply nth_upd_same; apply nth_error_Some; congruence|].
      unfold attribute. cbn [go_graph go_data]. rewrite (proj2 (mem_In n (g_nodes (go_graph o))) Hn). unfold dget_or at 1. rewrite dget_dset, eqb_refl, dget_dset, eqb_refl. reflexivity.
    - intros n f x Hn. cbn [fstep]. rewrite H', A. destruct (mem n (g_nodes (go_graph o))) eqn:Em; [|reflexivity]. apply mem_In in Em. contradiction.
    - intros n f Fa. rewrite (C n f Fa). reflexivity.
  Qed.

  (** A statement about graph [i]. *)
  Definition targets (i : nat) c : bool :=
    changes i c || match c with SetAttr i' _ _ _ | Freeze i' => Nat.eqb i' i | _ => false end.
  Lemma step_untargeted c w i o : nth_error (w_graphs w) i = Some o -> targets i c = false -> nth_error (w_graphs (snd (step c w))) i = Some o.
  Proof.
    intros Hi Ht. unfold targets in Ht.
    assert (Same : forall w', w_graphs w' = w_graphs w -> nth_error (w_graphs w') i = Some o) by (intros w' ->; exact Hi).
    assert (New : forall w' x, w_graphs w' = w_graphs w ++ x -> nth_error (w_graphs w') i = Some o) by (intros w' x ->; now apply nth_app_left).
    assert (Mut : forall i' fn, Nat.eqb i' i = false -> nth_error (w_graphs (snd (mutate w i' fn))) i = Some o).
    { intros i' fn Ne. apply Nat.eqb_neq in Ne. unfold mutate. destruct (nth_error (w_graphs w) i') as [o1|] eqn:E; [|now apply Same]. destruct (go_frozen o1) eqn:Fz; [now apply Same|]. destruct (fn o1) as [o2|e|]; [|now apply Same|now apply Same].
      cbn [snd with_graph w_graphs]. now rewrite nth_upd_other. }
    destruct c; cbn [fstep]; cbn [changes] in Ht; try (apply Mut; now rewrite orb_false_r in Ht); try (now apply Same); try (eapply New; reflexivity); cbn [orb] in Ht.
    - destruct (nth_error (w_graphs w) i0); [|now apply Same]. eapply New; reflexivity.
    - destruct (nth_error (w_graphs w) i0) as [o1|] eqn:E; [|now apply Same]. destruct (mem n (g_nodes (go_graph o1))) eqn:Em; [|now apply Same]. cbn [snd with_graph w_graphs]. apply Nat.eqb_neq in Ht. now rewrite nth_upd_other.
    - destruct (nth_error (w_graphs w) i0) as [o1|] eqn:E; [|now apply Same]. cbn [snd w_graphs with_graph]. apply Nat.eqb_neq in Ht. now rewrite nth_upd_other.
    - destruct (nth_error (w_frozen w) j); [|now apply Same]. destruct (behind w j) as [[? ?]|]; now apply Same.
    - destruct (behind w j) as [[? ?]|]; now apply Same.
    - destruct (behind w j) as [[? ?]|]; now apply Same.
    - destruct (behind w j) as [[? ?]|]; now apply Same.
    - destruct (nth_error (w_frozen w) j); now apply Same.
    - destruct (nth_error (w_views w) a) as [vv|]; [|now apply Same]. destruct (dget (v_cache vv) p); [now apply Same|]. destruct (dget (v_parts vv) p); [|now apply Same].
      destruct (nth_error (w_frozen w) (v_obj vv)); [|now apply Same]. destruct (behind w (v_obj vv)) as [[? ?]|]; now apply Same.
    - destruct (nth_error (w_views w) a); now apply Same.
  Qed.
  (** A copy of a graph can be changed even if the graph is frozen, and what is
      done to one of the two does not show in the other. *)
  Theorem C108_copy : forall before i after, let w := run before no_world in let k := List.length (w_graphs w) in let w1 := snd (step (CopyGraph i) w) in
    i < k -> exists o, nth_error (w_graphs w) i = Some o /\ nth_error (w_graphs w1) k = Some (mkG (go_graph o) (go_data o) false) /\
      (Forall (fun c => targets i c = false) after -> nth_error (w_graphs (run after w1)) i = Some o) /\
      (Forall (fun c => targets k c = false) after -> nth_error (w_graphs (run after w1)) k = Some (mkG (go_graph o) (go_data o) false)) /\
      forall n, step (AddNode k n) w1 = (Ok ADone, with_graph w1 k (mkG (add_node n (go_graph o)) (go_data o) false)).
  Proof.
    intros before i after w k w1 Li. destruct (nth_error (w_graphs w) i) as [o|] eqn:E; [|apply nth_error_None in E; lia].
    exists o. split; [reflexivity|].
    assert (Hk : nth_error (w_graphs w1) k = Some (mkG (go_graph o) (go_data o) false)).
    { unfold w1. cbn [fstep]. rewrite E. cbn [snd w_graphs]. rewrite nth_error_app2 by lia. unfold k. now rewrite Nat.sub_diag. }
    assert (Hi : nth_error (w_graphs w1) i = Some o) by (apply step_untargeted; [exact E|reflexivity]).
    assert (G : forall cs w2 i2 o2, nth_error (w_graphs w2) i2 = Some o2 -> Forall (fun c => targets i2 c = false) cs -> nth_error (w_graphs (run cs w2)) i2 = Some o2).
    { induction cs as [|c cs IH]; intros w2 i2 o2 H2 Fa; [exact H2|]. inversion Fa; subst. apply IH; [|assumption]. now apply step_untargeted. }
    split; [exact Hk|]. split; [now apply G|]. split; [now apply G|]. intro n. cbn [fstep]. unfold mutate. rewrite Hk. reflexivity.
  Qed.

  Lemma behind_step c w j o g : held w -> behind w j = Some (o, g) -> exists o', behind (snd (step c w)) j = Some (o', g) /\
    (forall n f i keep, nth_error (w_frozen w) j = Some (mkF i keep) -> writes i n f c = false -> attribute o' n f = attribute o n f).
  Proof.
    intros H B. unfold behind in B. destruct (nth_error (w_frozen w) j) as [fo|] eqn:E; [|discriminate]. destruct (nth_error (w_graphs w) (fo_graph fo)) as [o1|] eqn:Eo; [|discriminate]. injection B as -> <-.
    destruct (H j fo E) as (o2 & Ho2 & Ft). rewrite Eo in Ho2. injection Ho2 as <-. destruct (step_graph c w _ o Eo) as (o' & Ho' & S'). destruct (S' Ft) as (A & _ & C).
    exists o'. split.
    - unfold behind. rewrite (step_obj c w j fo E), Ho'. f_equal. f_equal. unfold shown. now rewrite A.
    - intros n f i keep [= ->] Hw. now apply C.
  Qed.
  (** The caches hold what the graphs say. *)
  Definition right_caches w : Prop :=
    (forall j n l, dget (w_neighbors w) (j, n) = Some l -> exists o g, behind w j = Some (o, g) /\ mem n (g_nodes g) = true /\ l = neighbors g n) /\
    (forall j n k, dget (w_degree w) (j, n) = Some k -> exists o g, behind w j = Some (o, g) /\ k = degree_in g n) /\
    (forall j n f x, dget (w_lookup w) (j, (n, f)) = Some x -> exists o g, behind w j = Some (o, g) /\ mem n (g_nodes g) = true).
  Lemma mutate_caches w i fn : w_neighbors (snd (mutate w i fn)) = w_neighbors w /\ w_degree (snd (mutate w i fn)) = w_degree w /\ w_lookup (snd (mutate w i fn)) = w_lookup w.
  Proof. unfold mutate. destruct (nth_error (w_graphs w) i) as [o1|]; [|auto]. destruct (go_frozen o1); [auto|]. destruct (fn o1); auto. Qed.
  (** Which caches a statement can touch. *)
  Lemma step_caches c w : match c with Neighbors _ _ | Degree _ _ | Lookup _ _ _ => True | _ =>
    w_neighbors (snd (step c w)) = w_neighbors w /\ w_degree (snd (step c w)) = w_degree w /\ w_lookup (snd (step c w)) = w_lookup w end.
  Proof.
    destruct c; cbn [fstep]; try exact I; try (apply mutate_caches); auto.
    - destruct (nth_error (w_graphs w) i); auto.
    - destruct (nth_error (w_graphs w) i) as [o1|]; [|auto]. destruct (mem n (g_nodes (go_graph o1))); auto.
    - destruct (nth_error (w_graphs w) i); auto.
    - destruct (nth_error (w_frozen w) j); [|auto]. destruct (behind w j) as [[? ?]|]; auto.
    - destruct (nth_error (w_frozen w) j); auto.
    - destruct (nth_error (w_views w) a) as [vv|]; [|auto]. destruct (dget (v_cache vv) p); [auto|]. destruct (dget (v_parts vv) p); [|auto].
      destruct (nth_error (w_frozen w) (v_obj vv)); [|auto]. destruct (behind w (v_obj vv)) as [[? ?]|]; auto.
    - destruct (nth_error (w_views w) a); auto.
  Qed.
  Lemma step_right c w : held w -> right_caches w -> right_caches (snd (step c w)).
  Proof.
    intros H (R1 & R2 & R3).
    assert (U1 : forall j n l, dget (w_neighbors w) (j, n) = Some l -> exists o g, behind (snd (step c w)) j = Some (o, g) /\ mem n (g_nodes g) = true /\ l = neighbors g n).
    { intros j n l D. destruct (R1 j n l D) as (o & g & B & X). destruct (behind_step c w j o g H B) as (o' & B' & _). exists o', g. auto. }
    assert (U2 : forall j n k, dget (w_degree w) (j, n) = Some k -> exists o g, behind (snd (step c w)) j = Some (o, g) /\ k = degree_in g n).
    { intros j n l D. destruct (R2 j n l D) as (o & g & B & X). destruct (behind_step c w j o g H B) as (o' & B' & _). exists o', g. auto. }
    assert (U3 : forall j n f x, dget (w_lookup w) (j, (n, f)) = Some x -> exists o g, behind (snd (step c w)) j = Some (o, g) /\ mem n (g_nodes g) = true).
    { intros j n f x D. destruct (R3 j n f x D) as (o & g & B & X). destruct (behind_step c w j o g H B) as (o' & B' & _). exists o', g. auto. }
    assert (SC := step_caches c w).
    destruct c; try (destruct SC as (E1 & E2 & E3); unfold right_caches; rewrite E1, E2, E3; auto; fail).
    - cbn [fstep] in *. destruct (behind w j) as [[o g]|] eqn:B; [|exact (conj R1 (conj R2 R3))]. split; [|split; [exact U2|exact U3]]. cbn [snd w_neighbors] in *.
      intros j' n' l D.
      refine (proj2 (lru_good cn (j, n) _ (w_neighbors w) (fun k x => exists o g, behind _ (fst k) = Some (o, g) /\ mem (snd k) (g_nodes g) = true /\ x = neighbors g (snd k)) _ _) (j', n') l D).
      + intros [j1 n1] x D1. exact (U1 j1 n1 x D1).
      + intro x. destruct (mem n (g_nodes g)) eqn:Em; [intros [= <-]|intros [=]]. exists o, g. cbn [fst snd]. split; [exact B|auto].
    - cbn [fstep] in *. destruct (behind w j) as [[o g]|] eqn:B; [|exact (conj R1 (conj R2 R3))]. split; [exact U1|split; [|exact U3]]. cbn [snd w_degree] in *.
      intros j' n' l D.
      refine (proj2 (lru_good cd (j, n) _ (w_degree w) (fun k x => exists o g, behind _ (fst k) = Some (o, g) /\ x = degree_in g (snd k)) _ _) (j', n') l D).
      + intros [j1 n1] x D1. exact (U2 j1 n1 x D1).
      + intros x [= <-]. exists o, g. split; [exact B|reflexivity].
    - cbn [fstep] in *. destruct (behind w j) as [[o g]|] eqn:B; [|exact (conj R1 (conj R2 R3))]. split; [exact U1|split; [exact U2|]]. cbn [snd w_lookup] in *.
      intros j' n' f' x D.
      refine (proj2 (lru_good cl (j, (n, f)) _ (w_lookup w) (fun k x => exists o g, behind _ (fst k) = Some (o, g) /\ mem (fst (snd k)) (g_nodes g) = true) _ _) (j', (n', f')) x D).
      + intros [j1 [n1 f1]] y D1. exact (U3 j1 n1 f1 y D1).
      + intro y. destruct (mem n (g_nodes g)) eqn:Em; [|intros [=]]. intros _. exists o, g. split; [exact B|exact Em].
  Qed.
  Lemma run_right cs : right_caches (run cs no_world).
  Proof.
    assert (G : forall cs w, held w -> right_caches w -> right_caches (run cs w)) by (induction cs0 as [|c cs0 IH]; intros w H R; [exact R|apply IH; [now apply step_held|now apply step_right]]).
    apply G; [intros [|j] fo; discriminate|]. repeat split; intros; discriminate.
  Qed.
  (** neighbors and degree of a FrozenGraph are those of the graph it shows,
      whatever has been read, evicted and tried before. *)
  Theorem C108_reads : forall cs j o g n, let w := run cs no_world in behind w j = Some (o, g) ->
    fst (step (Neighbors j n) w) = (if mem n (g_nodes g) then Ok (ANodes (neighbors g n)) else Err NetworkXError) /\
    fst (step (Degree j n) w) = Ok (ADegree (degree_in g n)).
  Proof.
    intros cs j o g n w B. assert (R := run_right cs). fold w in R. destruct R as (R1 & R2 & _). cbn [fstep]. rewrite B. cbn [fst]. split.
    - destruct (dget (w_neighbors w) (j, n)) as [l|] eqn:E.
      + rewrite (lru_hit _ _ _ _ _ E). destruct (R1 j n l E) as (o' & g' & B' & Em & ->). rewrite B in B'. injection B' as <- <-. now rewrite Em.
      + rewrite (lru_miss _ _ _ _ E). now destruct (mem n (g_nodes g)).
    - destruct (dget (w_degree w) (j, n)) as [l|] eqn:E.
      + rewrite (lru_hit _ _ _ _ _ E). destruct (R2 j n l E) as (o' & g' & B' & ->). rewrite B in B'. now injection B' as <- <-.
      + now rewrite (lru_miss _ _ _ _ E).
  Qed.
  (** The graph that a FrozenGraph shows never changes. *)
  Theorem C108_shown : forall before after j o g, behind (run before no_world) j = Some (o, g) -> exists o', behind (run (before ++ after) no_world) j = Some (o', g).
  Proof.
    intros before after j o g B. rewrite run_app. assert (H := run_held before). revert o B H. generalize (run before no_world). induction after as [|c cs IH]; intros w o B H; [eauto|].
    destruct (behind_step c w j o g H B) as (o' & B' & _). apply (IH (snd (step c w)) o' B'). now apply step_held.
  Qed.

  (** ** A graph that is not frozen *)
  (** What each statement that changes a graph does to it. *)
  Definition edited (c : fcmd N F V P) (g g' : graph N) : Prop :=
    match c with
    | AddNode _ n => (forall m, In m (g_nodes g') <-> In m (g_nodes g) \/ m = n) /\ forall x y, adj g' x y <-> adj g x y
    | AddEdge _ u v => (forall m, In m (g_nodes g') <-> In m (g_nodes g) \/ m = u \/ m = v) /\
                       forall x y, adj g' x y <-> adj g x y \/ (x = u /\ y = v) \/ (x = v /\ y = u)
    | RemoveNode _ n => (forall m, In m (g_nodes g') <-> In m (g_nodes g) /\ m <> n) /\
                        forall x y, adj g' x y <-> adj g x y /\ x <> n /\ y <> n
    | RemoveEdge _ u v => (forall m, In m (g_nodes g') <-> In m (g_nodes g)) /\
                          forall x y, adj g' x y <-> adj g x y /\ ~ (x = u /\ y = v) /\ ~ (x = v /\ y = u)
    | _ => g' = g
    end.
  (** Removing what is not there is an error. *)
  Definition editable (c : fcmd N F V P) (g : graph N) : Prop :=
    match c with RemoveNode _ n => In n (g_nodes g) | RemoveEdge _ u v => adj g u v | _ => True end.
  Lemma same_edge_iff u v (e : N * N) : same_edge u v e = true <-> e = (u, v) \/ e = (v, u).
  Proof.
    destruct e as [a b]. unfold same_edge. cbn [fst snd]. rewrite orb_true_iff, !andb_true_iff, !eqb_eq.
    split; (intros [H|H]; [left|right]); intuition congruence.
  Qed.
  Lemma has_edge u v (g : graph N) : existsb (same_edge u v) (g_edges g) = true <-> adj g u v.
  Proof.
    rewrite existsb_exists. unfold adj. split.
    - intros (e & He & Hs). apply same_edge_iff in Hs. destruct Hs as [-> | ->]; auto.
    - intros [H|H]; eexists; (split; [exact H|]); apply same_edge_iff; auto.
  Qed.
  Lemma edited_ok c i o : changes i c = true ->
    match c with
    | AddNode _ n => edited c (go_graph o) (add_node n (go_graph o))
    | AddEdge _ u v => edited c (go_graph o) (add_edge u v (go_graph o))
    | RemoveNode _ n => edited c (go_graph o) (remove_node n (go_graph o))
    | RemoveEdge _ u v => edited c (go_graph o) (remove_edge u v (go_graph o))
    | _ => True
    end.
  Proof.
    intros _. destruct o as [g d fr]. cbn [go_graph].
    destruct c as [| |j n|j u v|j n|j u v| | | | | | | | | |]; auto; cbn [edited].
    - split; [|reflexivity]. intro m. cbn. rewrite In_sadd. tauto.
    - unfold add_edge. set (g' := add_node v (add_node u g)).
      assert (Nd : forall m, In m (g_nodes g') <-> In m (g_nodes g) \/ m = u \/ m = v).
      { intro m. cbn. rewrite !In_sadd. tauto. }
      assert (Ed : g_edges g' = g_edges g) by reflexivity. clearbody g'.
      destruct (existsb (same_edge u v) (g_edges g')) eqn:Ee.
      + split; [exact Nd|]. intros x y. apply has_edge in Ee. unfold adj in *. rewrite Ed in *.
        split; [tauto|]. intros [H|[[-> ->]|[-> ->]]]; tauto.
      + split; [exact Nd|]. intros x y. unfold adj. cbn. rewrite !in_app_iff. cbn. rewrite Ed.
        split.
        * intros [[H|[H|[]]]|[H|[H|[]]]]; auto; injection H as -> ->; auto.
        * intros [H|[[-> ->]|[-> ->]]]; tauto.
    - split.
      + intro m. cbn. rewrite filter_In, negb_true_iff, eqb_neq. tauto.
      + intros x y. unfold adj. cbn. rewrite !filter_In. cbn [fst snd]. rewrite !andb_true_iff, !negb_true_iff, !eqb_neq. tauto.
    - split; [reflexivity|]. intros x y. unfold adj. cbn. rewrite !filter_In, !negb_true_iff.
      assert (Q : forall e, same_edge u v e = false <-> e <> (u, v) /\ e <> (v, u)).
      { intro e. pose proof (same_edge_iff u v e) as H. destruct (same_edge u v e); split; intro K; try congruence.
        - exfalso. destruct (proj1 H eq_refl); tauto.
        - split; intros ->; [destruct H as [_ H]; specialize (H (or_introl eq_refl))|destruct H as [_ H]; specialize (H (or_intror eq_refl))]; congruence. }
      rewrite !Q. split.
      + intros [(H & A & B)|(H & A & B)]; (split; [tauto|]); split; intros [-> ->]; auto.
      + intros ([H|H] & A & B); [left|right]; (split; [exact H|]); split; intros [= -> ->]; tauto.
  Qed.

  (** The statements that change a graph do their work on one that is not frozen;
      removing what is not there raises and changes nothing. *)
  Theorem C108_unfrozen : forall w i o c, nth_error (w_graphs w) i = Some o -> go_frozen o = false -> changes i c = true ->
    (editable c (go_graph o) -> exists w' o', step c w = (Ok ADone, w') /\ nth_error (w_graphs w') i = Some o' /\
       go_frozen o' = false /\ edited c (go_graph o) (go_graph o') /\
       (forall i', i' <> i -> nth_error (w_graphs w') i' = nth_error (w_graphs w) i')) /\
    (~ editable c (go_graph o) -> step c w = (Err NetworkXError, w)).
  Proof.
    intros w i o c Ho Hf Hc.
    assert (Li : i < List.length (w_graphs w)) by (apply nth_error_Some; congruence).
    assert (M : forall f o', f o = Ok o' -> go_frozen o' = false -> edited c (go_graph o) (go_graph o') ->
              exists w' o'', mutate w i f = (Ok ADone, w') /\ nth_error (w_graphs w') i = Some o'' /\
                go_frozen o'' = false /\ edited c (go_graph o) (go_graph o'') /\
                (forall i', i' <> i -> nth_error (w_graphs w') i' = nth_error (w_graphs w) i')).
    { intros f o' E1 E2 E3. unfold mutate. rewrite Ho, Hf, E1. eexists. exists o'. split; [reflexivity|].
      cbn [w_graphs with_graph]. split; [now apply nth_upd_same|]. split; [auto|]. split; [auto|].
      intros i' Hi. apply nth_upd_other. auto. }
    assert (X : forall f, f o = Err NetworkXError -> mutate w i f = (Err NetworkXError, w)).
    { intros f E1. unfold mutate. now rewrite Ho, Hf, E1. }
    pose proof (edited_ok c i o Hc) as Ok1.
    destruct c as [| |j n|j u v|j n|j u v|j rows| | | | | | | | |]; try discriminate;
      apply Nat.eqb_eq in Hc; subst j; cbn [fstep editable].
    - split; [intros _|tauto]. eapply M; [reflexivity|reflexivity|exact Ok1].
    - split; [intros _|tauto]. eapply M; [reflexivity|reflexivity|exact Ok1].
    - split; intro H.
      + eapply M; [apply mem_In in H; now rewrite H|reflexivity|exact Ok1].
      + apply X. destruct (mem n (g_nodes (go_graph o))) eqn:E; [|reflexivity]. apply mem_In in E. tauto.
    - split; intro H.
      + eapply M; [apply has_edge in H; now rewrite H|reflexivity|exact Ok1].
      + apply X. destruct (existsb (same_edge u v) (g_edges (go_graph o))) eqn:E; [|reflexivity]. apply has_edge in E. tauto.
    - split; [intros _|tauto]. eapply M; reflexivity.
  Qed.

  (** The last value that a list of (key, value) pairs holds for a key. *)
  Definition last_value {A B : Type} (k : A) (x : B) (l : list (A * B)) : Prop :=
    exists l1 l2, l = l1 ++ (k, x) :: l2 /\ ~ In k (map fst l2).
  (** All that the rows of a table hold for the attributes of node [n]. *)
  Definition held_for (n : N) (rows : list (N * list (F * V))) : list (F * V) :=
    flat_map (fun row => if eqb (fst row) n then snd row else []) rows.
  (** What the statements do to the attributes of the nodes: add_data and join
      write the last value given for a node and an attribute; the others leave
      the attributes of the nodes that stay alone. *)
  Definition stored (c : fcmd N F V P) (old new : N -> F -> option V) (nodes : list N) : Prop :=
    match c with
    | AddData _ rows => forall n f, In n nodes ->
        (forall x, last_value f x (held_for n rows) -> new n f = Some x) /\
        ((forall x, ~ last_value f x (held_for n rows)) -> new n f = old n f)
    | _ => forall n f, In n nodes -> new n f = old n f
    end.
  Lemma last_value_none {B} (k : F) (l : list (F * B)) : (forall x, ~ last_value k x l) <-> ~ In k (map fst l).
  Proof.
    split.
    - intros H K. induction l as [|[k' x] l IH] using rev_ind; [destruct K|].
      rewrite map_app, in_app_iff in K. destruct K as [K|[K|[]]].
      + apply IH; auto. intros y (l1 & l2 & -> & Hn).
        destruct (eqb_spec k' k) as [-> |Hk]; [apply (H x); exists (l1 ++ (k, y) :: l2), []; split; [reflexivity|cbn; tauto]|].
        apply (H y). exists l1, (l2 ++ [(k', x)]). split; [now rewrite <- app_assoc|]. rewrite map_app, in_app_iff. cbn. intros [Q|[Q|[]]]; congruence || tauto.
      + cbn in K. subst k'. apply (H x). exists l, []. split; [reflexivity|cbn; tauto].
    - intros H x (l1 & l2 & -> & _). apply H. rewrite map_app, in_app_iff. cbn. tauto.
  Qed.
  Lemma fold_dset (f : F) (vs : list (F * V)) : forall r,
    (forall x, last_value f x vs -> dget (fold_left (fun r fv => dset r (fst fv) (snd fv)) vs r) f = Some x) /\
    (~ In f (map fst vs) -> dget (fold_left (fun r fv => dset r (fst fv) (snd fv)) vs r) f = dget r f).
  Proof.
    assert (A : forall vs r, ~ In f (map fst vs) -> dget (fold_left (fun r (fv : F * V) => dset r (fst fv) (snd fv)) vs r) f = dget r f).
    { clear vs. induction vs as [|[k x] vs IH]; intros r Hn; [reflexivity|]. cbn [fold_left fst snd]. cbn [map fst In] in Hn. rewrite IH by tauto. apply dget_dset_neq. intro; subst; tauto. }
    intro r. split; [|apply A]. intros x (l1 & l2 & -> & Hn). rewrite fold_left_app. cbn [fold_left fst snd]. rewrite A by exact Hn. apply dget_dset_eq.
  Qed.
  Lemma fold_rows g n f : In n (g_nodes g) -> forall rows d,
    let out := dget (dget_or [] (fold_left (add_row g) rows d) n) f in
    (forall x, last_value f x (held_for n rows) -> out = Some x) /\
    (~ In f (map fst (held_for n rows)) -> out = dget (dget_or [] d n) f).
  Proof.
    intro Hn.
    assert (G : forall rows d, dget (dget_or [] (fold_left (add_row g) rows d) n) f =
                dget (fold_left (fun r fv => dset r (fst fv) (snd fv)) (held_for n rows) (dget_or [] d n)) f).
    { induction rows as [|[m vs] rows IH]; intro d; [reflexivity|]. cbn [fold_left held_for flat_map fst snd]. fold (held_for n rows). rewrite IH. f_equal.
      unfold add_row. cbn [fst snd]. destruct (eqb_spec m n) as [-> |Hm].
      - apply mem_In in Hn. rewrite Hn. rewrite fold_left_app. unfold dget_or at 1. rewrite dget_dset_eq. reflexivity.
      - cbn [app]. f_equal. destruct (mem m (g_nodes g)); [|reflexivity]. unfold dget_or. rewrite dget_dset_neq; auto. }
    intros rows d. cbv zeta. rewrite G. apply fold_dset.
  Qed.
  Lemma dget_dropped (d : dict N (dict F V)) m n : dget (filter (fun kv => negb (eqb (fst kv) n)) d) m = if eqb m n then None else dget d m.
  Proof. exact (dget_without d n m). Qed.
  Theorem C108_attributes : forall w i o c w', nth_error (w_graphs w) i = Some o -> go_frozen o = false -> changes i c = true ->
    step c w = (Ok ADone, w') -> exists o', nth_error (w_graphs w') i = Some o' /\
      stored c (attribute o) (attribute o') (filter (fun n => mem n (g_nodes (go_graph o'))) (g_nodes (go_graph o))) /\
      forall n f, ~ In n (g_nodes (go_graph o')) -> attribute o' n f = None.
  Proof.
    intros w i o c w' Ho Hf Hc St.
    assert (Li : i < List.length (w_graphs w)) by (apply nth_error_Some; congruence).
    assert (M : forall f, mutate w i f = (Ok ADone, w') -> exists o', f o = Ok o' /\ nth_error (w_graphs w') i = Some o').
    { intros f E. unfold mutate in E. rewrite Ho, Hf in E. destruct (f o) as [o'| |]; try discriminate. injection E as <-. exists o'. split; [reflexivity|]. cbn [w_graphs with_graph]. now apply nth_upd_same. }
    assert (Out : forall (o' : gobj N F V) n f, ~ In n (g_nodes (go_graph o')) -> attribute o' n f = None).
    { intros o' n f Hn. unfold attribute. destruct (mem n _) eqn:E; [|reflexivity]. apply mem_In in E. contradiction. }
    assert (At : forall (o' : gobj N F V) n f, In n (g_nodes (go_graph o')) -> attribute o' n f = dget (dget_or [] (go_data o') n) f).
    { intros o' n f Hn. unfold attribute. apply mem_In in Hn. now rewrite Hn. }
    assert (K : forall (o' : gobj N F V) n, In n (filter (fun n => mem n (g_nodes (go_graph o'))) (g_nodes (go_graph o))) -> In n (g_nodes (go_graph o)) /\ In n (g_nodes (go_graph o'))).
    { intros o' n H. apply filter_In in H. destruct H as [H1 H2]. apply mem_In in H2. auto. }
    destruct c as [| |j n|j u v|j n|j u v|j rows| | | | | | | | |]; try discriminate;
      apply Nat.eqb_eq in Hc; subst j; cbn [fstep] in St; destruct (M _ St) as (o' & E & Hn'); exists o'; (split; [exact Hn'|]); (split; [|apply Out]).
    - injection E as <-. intros m f Hm. apply K in Hm. rewrite !At by tauto. reflexivity.
    - injection E as <-. intros m f Hm. apply K in Hm. rewrite !At by tauto. reflexivity.
    - destruct (mem n (g_nodes (go_graph o))) eqn:En; [|discriminate]. injection E as <-. intros m f Hm. apply K in Hm. destruct Hm as [H1 H2].
      rewrite !At by assumption. cbn in H2. apply filter_In in H2. destruct H2 as [_ H2]. apply negb_true_iff in H2.
      cbn [go_data]. unfold dget_or. rewrite dget_dropped, H2. reflexivity.
    - destruct (existsb _ _); [|discriminate]. injection E as <-. intros m f Hm. apply K in Hm. rewrite !At by tauto. reflexivity.
    - injection E as <-. intros m f Hm. apply K in Hm. destruct Hm as [H1 H2]. rewrite !At by assumption. cbn [go_data].
      destruct (fold_rows (go_graph o) m f H1 rows (go_data o)) as [A B]. split; [exact A|]. intro Q. apply B. now apply last_value_none.
  Qed.

  (** A node that is removed takes its attributes along: they do not come back
      with a node of that name. *)
  Theorem C108_removed : forall w i o r w1 w2, nth_error (w_graphs w) i = Some o -> go_frozen o = false ->
    step (RemoveNode i r) w = (Ok ADone, w1) -> step (AddNode i r) w1 = (Ok ADone, w2) ->
    exists o2, nth_error (w_graphs w2) i = Some o2 /\ In r (g_nodes (go_graph o2)) /\ forall f, attribute o2 r f = None.
  Proof.
    intros w i o r w1 w2 Ho Hf S1 S2.
    assert (Li : i < List.length (w_graphs w)) by (apply nth_error_Some; congruence).
    cbn [fstep] in S1. unfold mutate in S1. rewrite Ho, Hf in S1. destruct (mem r (g_nodes (go_graph o))); [|discriminate]. injection S1 as <-.
    cbn [fstep] in S2. unfold mutate in S2. cbn [w_graphs with_graph] in S2. rewrite nth_upd_same in S2 by exact Li. cbn [go_frozen go_graph go_data] in S2. injection S2 as <-.
    eexists. split; [cbn [w_graphs with_graph]; apply nth_upd_same; rewrite length_upd; exact Li|].
    cbn [go_graph add_node g_nodes]. split; [apply In_sadd; auto|]. intro f. unfold attribute. cbn [go_graph go_data].
    destruct (mem _ _); [|reflexivity]. unfold dget_or. now rewrite dget_dropped, eqb_refl.
  Qed.

  (** ** Attributes *)
  (** The value of attribute [f] of node [n] in the graph that FrozenGraph [j] shows. *)
  Definition current w (j : nat) (n : N) (f : F) : option V :=
    match behind w j with Some (o, g) => if mem n (g_nodes g) then attribute o n f else None | None => None end.
  (** The FrozenGraph [j] exists after statement [c] but not before. *)
  Definition makes c w (j : nat) : Prop := nth_error (w_frozen w) j = None /\ nth_error (w_frozen (snd (step c w))) j <> None.
  Lemma held_behind w j : held w -> nth_error (w_frozen w) j <> None -> exists o g, behind w j = Some (o, g).
  Proof. intros H X. destruct (nth_error (w_frozen w) j) as [fo|] eqn:L; [|contradiction]. unfold behind. rewrite L. destruct (H j fo L) as (o & -> & _). eauto. Qed.
  Lemma lookup_call w j n f o g : behind w j = Some (o, g) ->
    step (Lookup j n f) w = (x <- fst (lru_call cl (j, (n, f)) (of_option KeyError (current w j n f)) (w_lookup w)) ;; Ok (AVal x),
      mkW (w_graphs w) (w_frozen w) (w_views w) (w_neighbors w) (w_degree w) (snd (lru_call cl (j, (n, f)) (of_option KeyError (current w j n f)) (w_lookup w)))).
  Proof. intro B. cbn [fstep]. unfold current. rewrite B. reflexivity. Qed.
  Lemma made_uncached cs c j n f : makes c (run cs no_world) j -> dget (w_lookup (snd (step c (run cs no_world)))) (j, (n, f)) = None.
  Proof.
    intros [H1 H2]. set (w := run cs no_world) in *. assert (R : right_caches w) by apply run_right. destruct R as (_ & _ & R3).
    assert (E : w_lookup (snd (step c w)) = w_lookup w).
    { assert (SC := step_caches c w). assert (No : forall w', w_frozen w' = w_frozen w -> nth_error (w_frozen w') j <> None -> False) by (intros w' -> ?; contradiction).
      destruct c; try (now destruct SC as (_ & _ & E3)); exfalso; cbn [fstep] in H2; destruct (behind w j0) as [[? ?]|]; now apply No in H2. }
    rewrite E. destruct (dget (w_lookup w) (j, (n, f))) as [x|] eqn:D; [|reflexivity]. destruct (R3 j n f x D) as (o & g & B & _). unfold behind in B. rewrite H1 in B. discriminate.
  Qed.
  (** A statement leaves the current value alone unless it writes to it. *)
  Lemma current_step c w j n f i keep : held w -> nth_error (w_frozen w) j = Some (mkF i keep) -> writes i n f c = false -> current (snd (step c w)) j n f = current w j n f.
  Proof.
    intros H Hj Hw. destruct (held_behind w j H) as (o & g & B); [congruence|]. destruct (behind_step c w j o g H B) as (o' & B' & A). unfold current. rewrite B, B'. destruct (mem n (g_nodes g)); [|reflexivity]. now apply (A n f i keep).
  Qed.
  (** How a statement changes the lookup cache. *)
  Lemma lookup_step c w j n f x : held w -> dget (w_lookup (snd (step c w))) (j, (n, f)) = Some x ->
    dget (w_lookup w) (j, (n, f)) = Some x \/ (c = Lookup j n f /\ current w j n f = Some x).
  Proof.
    intros H D. assert (SC := step_caches c w).
    destruct c; try (destruct SC as (_ & _ & E3); rewrite E3 in D; now left).
    - left. cbn [fstep] in D. destruct (behind w j0) as [[? ?]|]; exact D.
    - left. cbn [fstep] in D. destruct (behind w j0) as [[? ?]|]; exact D.
    - destruct (behind w j0) as [[o g]|] eqn:B; [|left; cbn [fstep] in D; rewrite B in D; exact D]. rewrite (lookup_call w j0 n0 f0 o g B) in D. cbn [snd w_lookup] in D.
      revert D. unfold lru_call. destruct (dget (w_lookup w) (j0, (n0, f0))) as [y|] eqn:E.
      + cbn [snd dget]. destruct (eqb_spec (j, (n, f)) (j0, (n0, f0))) as [[= -> -> ->]|Ne]; [intros [= ->]; now left|]. rewrite dget_without. destruct (eqb_spec (j, (n, f)) (j0, (n0, f0))); [contradiction|]. now left.
      + destruct (current w j0 n0 f0) as [y|] eqn:C; cbn [of_option snd]; [|now left]. cbn [dget]. destruct (eqb_spec (j, (n, f)) (j0, (n0, f0))) as [[= -> -> ->]|Ne]; [intros [= ->]; right; auto|]. intro D. left. eapply dget_firstn; eauto.
  Qed.
  (** lookup returns a value that the attribute had at some time since the
      FrozenGraph was made, and raises KeyError only if it has none now. *)
  Theorem C108_lookup : forall before c after j n f, let w0 := run before no_world in let w1 := snd (step c w0) in let w := run after w1 in makes c w0 j ->
    (exists x past rest, fst (step (Lookup j n f) w) = Ok (AVal x) /\ after = past ++ rest /\ current (run past w1) j n f = Some x) \/
    (fst (step (Lookup j n f) w) = Err KeyError /\ current w j n f = None).
  Proof.
    intros before c after j n f w0 w1 w M. assert (H0 : held w0) by apply run_held. assert (H1 : held w1) by now apply step_held.
    assert (Past : forall cs x, dget (w_lookup (run cs w1)) (j, (n, f)) = Some x -> exists past rest, cs = past ++ rest /\ current (run past w1) j n f = Some x).
    { intro cs. induction cs as [|c' cs IH] using rev_ind; intros x D.
      - cbn in D. unfold w1, w0 in D. rewrite (made_uncached before c j n f M) in D. discriminate.
      - rewrite run_app in D. cbn [frun fold_left] in D. assert (Hh : held (run cs w1)). { clear - H1. revert H1. generalize w1. induction cs as [|d cs IH]; intros w2 H2; [exact H2|]. apply IH. now apply step_held. }
        destruct (lookup_step c' (run cs w1) j n f x Hh D) as [D'|[_ C]].
        + destruct (IH x D') as (past & rest & -> & C). exists past, (rest ++ [c']). rewrite app_assoc. auto.
        + exists cs, [c']. auto. }
    assert (Hw : held w). { unfold w. clear - H1. revert H1. generalize w1. induction after as [|d cs IH]; intros w2 H2; [exact H2|]. apply IH. now apply step_held. }
    assert (Hj : nth_error (w_frozen w) j <> None). { destruct M as [_ M]. fold w1 in M. unfold w. clear - M. revert M. generalize w1. induction after as [|d cs IH]; intros w2 H2; [exact H2|]. apply IH. destruct (nth_error (w_frozen w2) j) as [fo|] eqn:E; [|contradiction]. rewrite (step_obj d w2 j fo E). discriminate. }
    destruct (held_behind w j Hw Hj) as (o & g & B). rewrite (lookup_call w j n f o g B). cbn [fst].
    destruct (dget (w_lookup w) (j, (n, f))) as [x|] eqn:E.
    - left. destruct (Past after x E) as (past & rest & X & Y). exists x, past, rest. rewrite (lru_hit _ _ _ _ _ E). auto.
    - rewrite (lru_miss _ _ _ _ E). destruct (current w j n f) as [x|] eqn:C; [left|right; auto]. exists x, after, []. rewrite app_nil_r. auto.
  Qed.
  (** So it is the current value if nobody wrote to the attribute since. *)
  Theorem C108_lookup_unwritten : forall before c after j n f i keep, let w0 := run before no_world in let w1 := snd (step c w0) in let w := run after w1 in makes c w0 j ->
    nth_error (w_frozen w1) j = Some (mkF i keep) -> Forall (fun c' => writes i n f c' = false) after ->
    fst (step (Lookup j n f) w) = match current w j n f with Some x => Ok (AVal x) | None => Err KeyError end.
  Proof.
    intros before c after j n f i keep w0 w1 w M Hj Fa. assert (H1 : held w1) by apply step_held, run_held.
    assert (Same : forall past rest, after = past ++ rest -> current (run past w1) j n f = current w1 j n f).
    { intro past. induction past as [|d past IH] using rev_ind; intros rest E; [reflexivity|]. rewrite run_app. cbn [frun fold_left].
      assert (Hh : held (run past w1) /\ nth_error (w_frozen (run past w1)) j = Some (mkF i keep)).
      { clear - H1 Hj. revert H1 Hj. generalize w1. induction past as [|d past IH]; intros w2 H2 H3; [auto|]. apply IH; [now apply step_held|now apply step_obj]. }
      rewrite (current_step d (run past w1) j n f i keep); [|apply Hh|apply Hh|].
      - apply (IH (d :: rest)). rewrite E, <- app_assoc. reflexivity.
      - rewrite Forall_forall in Fa. apply Fa. rewrite E. apply in_app_iff. left. apply in_app_iff. right. now left. }
    destruct (C108_lookup before c after j n f M) as [(x & past & rest & L & E & C)|[L C]]; fold w0 w1 w in L, C.
    - rewrite L. rewrite (Same past rest E) in C. unfold w. rewrite (Same after [] (eq_sym (app_nil_r after))). now rewrite C.
    - rewrite L, C. reflexivity.
  Qed.
  (** Once read, a value sticks, whatever is written, as long as fewer than
      [cl] other attributes are looked up. *)
  Theorem C108_lookup_sticks : forall (before after : list (fcmd N F V P)) j n f x ks, let w := run before no_world in let w1 := snd (step (Lookup j n f) w) in
    fst (step (Lookup j n f) w) = Ok (AVal x) -> NoDup ks -> List.length ks < cl ->
    (forall j' n' f', In (Lookup j' n' f') after -> In (j', (n', f')) ks \/ (j', (n', f')) = (j, (n, f))) ->
    fst (step (Lookup j n f) (run after w1)) = Ok (AVal x).
  Proof.
    intros before after j n f x ks w w1 L Nk Hk Ha. assert (H : held w) by apply run_held.
    assert (B : exists o g, behind w j = Some (o, g)). { cbn [fstep] in L. destruct (behind w j) as [[o g]|]; [eauto|discriminate]. } destruct B as (o & g & B).
    assert (S1 : safe ks (j, (n, f)) x (w_lookup w1)).
    { unfold w1. rewrite (lookup_call w j n f o g B) in *. cbn [snd w_lookup fst] in *. revert L. unfold lru_call. destruct (dget (w_lookup w) (j, (n, f))) as [y|].
      - cbn [fst snd bind]. intros [= ->]. eexists [], _. split; [reflexivity|]. split; [constructor|intros ? []].
      - destruct (current w j n f) as [y|]; cbn [of_option fst snd bind]; [|discriminate]. intros [= ->]. eexists [], _. split; [reflexivity|]. split; [constructor|intros ? []]. }
    assert (B1 : exists o1 g1, behind w1 j = Some (o1, g1)) by (destruct (behind_step (Lookup j n f) w j o g H B) as (o' & B' & _); eauto).
    assert (H1 : held w1) by now apply step_held.
    clearbody w1. clear L B o g H w before. revert w1 S1 B1 H1. induction after as [|c after IH]; intros w1 S1 (o & g & B) H1.
    - cbn [frun fold_left]. rewrite (lookup_call w1 j n f o g B). cbn [fst]. now rewrite (lru_hit _ _ _ _ _ (safe_dget _ _ _ _ S1)).
    - cbn [frun fold_left]. apply IH.
      + intros j' n' f' Hin. apply Ha. now right.
      + assert (SC := step_caches c w1). destruct c; try (destruct SC as (_ & _ & E3); rewrite E3; exact S1); cbn [fstep].
        * destruct (behind w1 j0) as [[? ?]|]; exact S1.
        * destruct (behind w1 j0) as [[? ?]|]; exact S1.
        * destruct (behind w1 j0) as [[o0 g0]|]; [|exact S1]. cbn [snd w_lookup]. apply safe_call; auto. apply Ha. now left.
      + destruct (behind_step c w1 j o g H1 B) as (o' & B' & _). eauto.
      + now apply step_held.
  Qed.
  (** After [cl] other attributes have been looked up the value is forgotten:
      the next lookup reads the graph again. *)
  Theorem C108_lookup_evicted : forall (before : list (fcmd N F V P)) j n f ks, let w := run before no_world in
    0 < cl -> nth_error (w_frozen w) j <> None -> NoDup ks -> List.length ks = cl -> ~ In (j, (n, f)) ks ->
    (forall j' n' f', In (j', (n', f')) ks -> current w j' n' f' <> None) ->
    let w' := run (map (fun k => Lookup (fst k) (fst (snd k)) (snd (snd k))) ks) w in
    fst (step (Lookup j n f) w') = match current w j n f with Some x => Ok (AVal x) | None => Err KeyError end.
  Proof.
    intros before j n f ks w Hcl Hj Nk Hl Hn Hc w'. assert (H : held w) by apply run_held.
    assert (Sized : List.length (w_lookup w) <= cl /\ NoDup (map fst (w_lookup w))).
    { assert (G : forall cs w2, List.length (w_lookup w2) <= cl /\ NoDup (map fst (w_lookup w2)) -> List.length (w_lookup (run cs w2)) <= cl /\ NoDup (map fst (w_lookup (run cs w2)))).
      { induction cs as [|c cs IH]; intros w2 S2; [exact S2|]. apply IH. assert (SC := step_caches c w2). destruct c; try (destruct SC as (_ & _ & E3); rewrite E3; exact S2); cbn [fstep].
        - destruct (behind w2 j0) as [[? ?]|]; exact S2.
        - destruct (behind w2 j0) as [[? ?]|]; exact S2.
        - destruct (behind w2 j0) as [[? ?]|]; [|exact S2]. cbn [snd w_lookup]. apply lru_length; tauto. }
      apply G. cbn. split; [lia|constructor]. }
    assert (G : forall l done w2, NoDup (rev l ++ done) -> List.length (rev l ++ done) <= cl -> w_graphs w2 = w_graphs w -> w_frozen w2 = w_frozen w -> heads done (w_lookup w2) -> List.length (w_lookup w2) <= cl -> NoDup (map fst (w_lookup w2)) ->
      (forall j' n' f', In (j', (n', f')) l -> current w j' n' f' <> None) ->
      let w3 := run (map (fun k => Lookup (fst k) (fst (snd k)) (snd (snd k))) l) w2 in
      w_graphs w3 = w_graphs w /\ w_frozen w3 = w_frozen w /\ heads (rev l ++ done) (w_lookup w3) /\ List.length (w_lookup w3) <= cl).
    { induction l as [|[j' [n' f']] l IH]; intros done w2 Nd Hld Eg Ef Hh Hs Hnd Hcur; [cbn; auto|].
      cbn [map frun fold_left fst snd]. cbn [rev] in *. rewrite <- app_assoc in Nd, Hld |- *. cbn [app] in *.
      assert (Cur : current w2 j' n' f' = current w j' n' f') by (unfold current, behind; now rewrite Eg, Ef).
      assert (Hk := Hcur j' n' f' (or_introl eq_refl)). assert (Bw : exists o g, behind w2 j' = Some (o, g)). { unfold current, behind in Hk |- *. rewrite Eg, Ef. destruct (nth_error (w_frozen w) j') as [fo|]; [|contradiction]. destruct (nth_error (w_graphs w) (fo_graph fo)) as [o1|]; [eauto|contradiction]. }
      destruct Bw as (o & g & Bw). rewrite (lookup_call w2 j' n' f' o g Bw). apply IH; cbn [w_graphs w_frozen w_lookup snd]; auto.
      - apply heads_call; auto.
        + rewrite app_length in Hld. cbn in Hld. lia.
        + apply NoDup_remove_2 in Nd. intro X. apply Nd. apply in_app_iff. now right.
        + rewrite Cur. destruct (current w j' n' f') as [y|]; [exists y; reflexivity|contradiction].
      - apply lru_length; auto.
      - apply lru_length; auto.
      - intros j1 n1 f1 Hin. apply Hcur. now right. }
    destruct (G ks [] w) as (Eg & Ef & [post Hh] & Hs); auto; try tauto.
    { rewrite app_nil_r. now apply NoDup_rev. } { rewrite app_nil_r, rev_length. lia. } { exists (map fst (w_lookup w)). reflexivity. }
    fold w' in Eg, Ef, Hh, Hs. rewrite app_nil_r in Hh.
    assert (Post : post = []). { apply (f_equal (@List.length _)) in Hh. rewrite map_length, app_length, rev_length in Hh. destruct post; [reflexivity|cbn in Hh; lia]. }
    subst post. rewrite app_nil_r in Hh.
    assert (Cur : current w' j n f = current w j n f) by (unfold current, behind; now rewrite Eg, Ef).
    destruct (held_behind w j H Hj) as (o & g & B). assert (B' : behind w' j = Some (o, g)) by (unfold behind in *; now rewrite Eg, Ef).
    rewrite (lookup_call w' j n f o g B'). cbn [fst]. rewrite lru_miss.
    - rewrite Cur. now destruct (current w j n f).
    - apply dget_None. unfold dkeys. rewrite Hh. rewrite <- in_rev. exact Hn.
  Qed.

  (** ** C109: subgraphs *)
  (** [g'] is the subgraph of [g] induced by the nodes in [s]. *)
  Definition induced g (s : list N) g' : Prop :=
    (forall n, In n (g_nodes g') <-> In n (g_nodes g) /\ In n s) /\
    (forall u v, In (u, v) (g_edges g') <-> In (u, v) (g_edges g) /\ In u s /\ In v s).
  Lemma shown_induced o keep s : wf_graph (shown o keep) -> induced (shown o keep) s (shown o (Some (filter (fun n => mem n (g_nodes (shown o keep))) s))).
  Proof.
    intro W. set (g := shown o keep) in *. assert (Ends : forall u v, In (u, v) (g_edges g) -> In u (g_nodes g) /\ In v (g_nodes g)) by (intros u v Hu; exact (wfg_ends g W u v Hu)).
    split.
    - intro n. cbn [shown subgraph g_nodes]. rewrite filter_In, mem_In, filter_In, mem_In. split; [tauto|]. intros [Hg Hs]. split; [|auto]. subst g. destruct keep as [t|]; cbn [shown subgraph g_nodes] in Hg; [apply filter_In in Hg; tauto|exact Hg].
    - intros u v. cbn [shown subgraph g_edges]. rewrite filter_In, andb_true_iff, !mem_In, !filter_In, !mem_In. cbn [fst snd]. split.
      + intros [He [[Hu Gu] [Hv Gv]]]. split; [|auto]. subst g. destruct keep as [t|]; [|exact He]. cbn [shown subgraph g_edges g_nodes] in *. apply filter_In in Gu, Gv. apply filter_In. cbn [fst snd]. rewrite andb_true_iff. tauto.
      + intros [He [Hu Hv]]. destruct (Ends u v He) as [Eu Ev]. split; [|auto]. subst g. destruct keep as [t|]; [|exact He]. cbn [shown subgraph g_edges] in He. apply filter_In in He. tauto.
  Qed.
  (** Statement [c] writes to the parts of view [a]. *)
  Definition rewrites (a : nat) c : bool := match c with SetPartOf a' _ _ => Nat.eqb a' a | _ => false end.
  Lemma mutate_views w i fn : w_views (snd (mutate w i fn)) = w_views w.
  Proof. unfold mutate. destruct (nth_error (w_graphs w) i) as [o1|]; [|auto]. destruct (go_frozen o1); [auto|]. destruct (fn o1); auto. Qed.
  (** What a statement does to a view. *)
  Lemma step_view c w a vv : nth_error (w_views w) a = Some vv ->
    exists v', nth_error (w_views (snd (step c w))) a = Some v' /\ v_obj v' = v_obj vv /\ (rewrites a c = false -> v_parts v' = v_parts vv) /\
      forall p, dget (v_cache v') p = dget (v_cache vv) p \/
        (dget (v_cache vv) p = None /\ exists s fo o g, dget (v_parts vv) p = Some s /\ nth_error (w_frozen w) (v_obj vv) = Some fo /\ behind w (v_obj vv) = Some (o, g) /\
           dget (v_cache v') p = Some (List.length (w_frozen w)) /\ nth_error (w_frozen (snd (step c w))) (List.length (w_frozen w)) = Some (mkF (fo_graph fo) (Some (filter (fun n => mem n (g_nodes g)) s)))).
  Proof.
    intro Ha. assert (La : a < List.length (w_views w)) by (apply nth_error_Some; congruence).
    assert (Same : forall w', w_views w' = w_views w -> exists v', nth_error (w_views w') a = Some v' /\ v_obj v' = v_obj vv /\ (rewrites a c = false -> v_parts v' = v_parts vv) /\
      forall p, dget (v_cache v') p = dget (v_cache vv) p \/
        (dget (v_cache vv) p = None /\ exists s fo o g, dget (v_parts vv) p = Some s /\ nth_error (w_frozen w) (v_obj vv) = Some fo /\ behind w (v_obj vv) = Some (o, g) /\
           dget (v_cache v') p = Some (List.length (w_frozen w)) /\ nth_error (w_frozen w') (List.length (w_frozen w)) = Some (mkF (fo_graph fo) (Some (filter (fun n => mem n (g_nodes g)) s))))).
    { intros w' E. exists vv. rewrite E. auto. }
    destruct c; cbn [fstep]; try (apply Same; apply mutate_views); try (now apply Same).
    - destruct (nth_error (w_graphs w) i); now apply Same.
    - destruct (nth_error (w_graphs w) i) as [o1|]; [|now apply Same]. destruct (mem n (g_nodes (go_graph o1))); now apply Same.
    - destruct (nth_error (w_graphs w) i); now apply Same.
    - destruct (nth_error (w_frozen w) j); [|now apply Same]. destruct (behind w j) as [[? ?]|]; now apply Same.
    - destruct (behind w j) as [[? ?]|]; now apply Same.
    - destruct (behind w j) as [[? ?]|]; now apply Same.
    - destruct (behind w j) as [[? ?]|]; now apply Same.
    - destruct (nth_error (w_frozen w) j); [|now apply Same]. exists vv. split; [now apply nth_app_left|]. auto.
    - destruct (nth_error (w_views w) a0) as [v1|] eqn:E1; [|now apply Same]. destruct (dget (v_cache v1) p) eqn:Ec; [now apply Same|]. destruct (dget (v_parts v1) p) as [s|] eqn:Ep; [|now apply Same].
      destruct (nth_error (w_frozen w) (v_obj v1)) as [fo|] eqn:Ef; [|now apply Same]. destruct (behind w (v_obj v1)) as [[o g]|] eqn:B; [|now apply Same].
      cbn [snd w_views w_frozen]. destruct (Nat.eq_dec a0 a) as [->|Ne].
      + rewrite Ha in E1. injection E1 as <-. eexists. split; [now apply nth_upd_same|]. cbn [v_obj v_parts v_cache]. split; [reflexivity|]. split; [reflexivity|].
        intro q. rewrite dget_dset. destruct (eqb_spec q p) as [->|]; [|now left]. right. split; [exact Ec|]. exists s, fo, o, g. split; [exact Ep|]. split; [exact Ef|]. split; [exact B|]. split; [reflexivity|].
        rewrite nth_error_app2 by lia. now rewrite Nat.sub_diag.
      + exists vv. split; [now rewrite nth_upd_other|]. auto.
    - destruct (nth_error (w_views w) a0) as [v1|] eqn:E1; [|now apply Same]. cbn [snd w_views w_frozen]. destruct (Nat.eq_dec a0 a) as [->|Ne].
      + rewrite Ha in E1. injection E1 as <-. eexists. split; [now apply nth_upd_same|]. cbn [v_obj v_parts v_cache rewrites]. split; [reflexivity|]. rewrite Nat.eqb_refl. split; [discriminate|now left].
      + exists vv. split; [now rewrite nth_upd_other|]. auto.
  Qed.
  (** Reading district [p] of a view gives, whatever happens in between, the
      subgraph induced by the nodes of the district, always the same object;
      KeyError exactly if there is no such district. *)
  Theorem C109_subgraphs : forall before j parts after p, let w0 := run before no_world in let a := List.length (w_views w0) in let w := run after (snd (step (NewView j parts) w0)) in
    forall o g, behind w0 j = Some (o, g) -> wf_graph g -> Forall (fun c => rewrites a c = false) after ->
    match dget parts p with
    | None => step (ViewGet a p) w = (Err KeyError, w)
    | Some s => exists k w' o' g', step (ViewGet a p) w = (Ok (AFrozen k), w') /\ behind w' k = Some (o', g') /\ induced g s g' /\ step (ViewGet a p) w' = (Ok (AFrozen k), w')
    end.
  Proof.
    intros before j parts after p w0 a w o g B W Fa. set (w1 := snd (step (NewView j parts) w0)) in *. assert (H0 : held w0) by apply run_held.
    assert (Fj : exists fo, nth_error (w_frozen w0) j = Some fo) by (unfold behind in B; destruct (nth_error (w_frozen w0) j) as [fo|]; [eauto|discriminate]). destruct Fj as [fo Fj].
    assert (G : forall cs w2 o2 v2, held w2 -> nth_error (w_frozen w2) j = Some fo -> behind w2 j = Some (o2, g) -> nth_error (w_views w2) a = Some v2 -> v_obj v2 = j -> v_parts v2 = parts ->
      (forall q k, dget (v_cache v2) q = Some k -> exists s, dget parts q = Some s /\ nth_error (w_frozen w2) k = Some (mkF (fo_graph fo) (Some (filter (fun n => mem n (g_nodes g)) s)))) ->
      Forall (fun c => rewrites a c = false) cs -> exists o3 v3, held (run cs w2) /\ nth_error (w_frozen (run cs w2)) j = Some fo /\ behind (run cs w2) j = Some (o3, g) /\ nth_error (w_views (run cs w2)) a = Some v3 /\ v_obj v3 = j /\ v_parts v3 = parts /\
      (forall q k, dget (v_cache v3) q = Some k -> exists s, dget parts q = Some s /\ nth_error (w_frozen (run cs w2)) k = Some (mkF (fo_graph fo) (Some (filter (fun n => mem n (g_nodes g)) s))))).
    { induction cs as [|c cs IH]; intros w2 o2 v2 H2 F2 B2 V2 Ob Pa Ca Fr; [exists o2, v2; auto 8|]. inversion Fr as [|? ? Fc Fr']; subst.
      destruct (behind_step c w2 _ o2 g H2 B2) as (o3 & B3 & _). destruct (step_view c w2 a v2 V2) as (v3 & V3 & O3 & P3 & C3). specialize (P3 Fc).
      apply (IH _ o3 v3); auto; [now apply step_held|now apply step_obj|]. intros q k Dq. destruct (C3 q) as [E|(_ & s & f1 & o1 & g1 & X1 & X2 & X3 & X4 & X5)].
      - rewrite E in Dq. destruct (Ca q k Dq) as (s & Y1 & Y2). exists s. split; [exact Y1|now apply step_obj].
      - rewrite X4 in Dq. injection Dq as <-. rewrite F2 in X2. injection X2 as <-. rewrite B2 in X3. injection X3 as _ <-. exists s. auto. }
    destruct (G after w1 o (mkV j parts [])) as (o3 & v3 & Hw & Fw & Bw & Vw & Ow & Pw & Cw); auto.
    { now apply step_held. } { now apply step_obj. } { unfold w1. cbn [fstep]. rewrite Fj. cbn [snd]. exact B. }
    { unfold w1. cbn [fstep]. rewrite Fj. cbn [snd w_views]. rewrite nth_error_app2 by (unfold a; lia). unfold a. now rewrite Nat.sub_diag. }
    { intros q k [=]. }
    fold w in Hw, Fw, Bw, Vw, Cw.
    assert (Show : forall w2 o2, nth_error (w_frozen w2) j = Some fo -> behind w2 j = Some (o2, g) -> g = shown o2 (fo_keep fo) /\ nth_error (w_graphs w2) (fo_graph fo) = Some o2).
    { intros w2 o2 F2 B2. unfold behind in B2. rewrite F2 in B2. destruct (nth_error (w_graphs w2) (fo_graph fo)); [|discriminate]. injection B2 as -> <-. auto. }
    destruct (dget parts p) as [s|] eqn:Ep.
    - destruct (dget (v_cache v3) p) as [k|] eqn:Ec.
      + destruct (Cw p k Ec) as (s' & Es & Fk). rewrite Ep in Es. injection Es as <-. destruct (Show w o3 Fw Bw) as [Sg Gw].
        exists k, w, o3, (shown o3 (Some (filter (fun n => mem n (g_nodes g)) s))). assert (St : step (ViewGet a p) w = (Ok (AFrozen k), w)) by (cbn [fstep]; rewrite Vw, Ec; reflexivity).
        split; [exact St|]. split; [unfold behind; rewrite Fk; cbn [fo_graph fo_keep]; now rewrite Gw|]. split; [|exact St]. rewrite Sg. apply shown_induced. rewrite <- Sg. exact W.
      + assert (St : step (ViewGet a p) w = (Ok (AFrozen (List.length (w_frozen w))), mkW (w_graphs w) (w_frozen w ++ [mkF (fo_graph fo) (Some (filter (fun n => mem n (g_nodes g)) s))]) (upd (w_views w) a (mkV j parts (dset (v_cache v3) p (List.length (w_frozen w))))) (w_neighbors w) (w_degree w) (w_lookup w))).
        { cbn [fstep]. rewrite Vw, Ec, Pw, Ep, Ow, Fw, Bw. reflexivity. }
        destruct (Show w o3 Fw Bw) as [Sg Gw]. eexists. eexists. exists o3, (shown o3 (Some (filter (fun n => mem n (g_nodes g)) s))). split; [exact St|]. split; [|split].
        * unfold behind. cbn [w_frozen w_graphs]. rewrite nth_error_app2 by lia. rewrite Nat.sub_diag. cbn [nth_error fo_graph fo_keep]. now rewrite Gw.
        * rewrite Sg. apply shown_induced. rewrite <- Sg. exact W.
        * cbn [fstep w_views]. rewrite nth_upd_same by (apply nth_error_Some; congruence). cbn [v_cache]. rewrite dget_dset, eqb_refl. reflexivity.
    - cbn [fstep]. rewrite Vw. destruct (dget (v_cache v3) p) as [k|] eqn:Ec; [destruct (Cw p k Ec) as (s' & Es & _); congruence|]. rewrite Pw, Ep. reflexivity.
  Qed.
  (** Once read, the same object comes back, even if the parts are rewritten. *)
  Theorem C109_sticks : forall w after a p k, fst (step (ViewGet a p) w) = Ok (AFrozen k) -> let w' := run after (snd (step (ViewGet a p) w)) in step (ViewGet a p) w' = (Ok (AFrozen k), w').
  Proof.
    intros w after a p k Hk w'.
    assert (Hit : forall w2 v2, nth_error (w_views w2) a = Some v2 -> dget (v_cache v2) p = Some k -> step (ViewGet a p) w2 = (Ok (AFrozen k), w2)) by (intros w2 v2 V2 C2; cbn [fstep]; now rewrite V2, C2).
    assert (S1 : exists v1, nth_error (w_views (snd (step (ViewGet a p) w))) a = Some v1 /\ dget (v_cache v1) p = Some k).
    { cbn [fstep] in *. destruct (nth_error (w_views w) a) as [vv|] eqn:E; [|discriminate]. destruct (dget (v_cache vv) p) as [k'|] eqn:Ec.
      - cbn [fst snd] in *. injection Hk as ->. exists vv. auto.
      - destruct (dget (v_parts vv) p); [|discriminate]. destruct (nth_error (w_frozen w) (v_obj vv)); [|discriminate]. destruct (behind w (v_obj vv)) as [[? ?]|]; [|discriminate]. cbn [fst snd w_views] in *. injection Hk as <-.
        eexists. split; [apply nth_upd_same; apply nth_error_Some; congruence|]. cbn [v_cache]. now rewrite dget_dset, eqb_refl. }
    assert (S2 : exists v2, nth_error (w_views w') a = Some v2 /\ dget (v_cache v2) p = Some k).
    { unfold w'. revert S1. generalize (snd (step (ViewGet a p) w)). induction after as [|c cs IH]; intros w1 (v1 & V1 & C1); [eauto|]. apply IH. destruct (step_view c w1 a v1 V1) as (v2 & V2 & _ & _ & C2). exists v2. split; [exact V2|]. destruct (C2 p) as [E|(E & _)]; [now rewrite E|congruence]. }
    destruct S2 as (v2 & V2 & C2). eapply Hit; eauto.
  Qed.
End FrozenFacts.

(** ** Where lookup and the graph differ *)
(** After a read, writing to the node's data does not show in lookup. *)
Theorem C108_stale_refuted : forall cn cd cl, exists (cs : list (fcmd nat nat nat nat)), let w := frun cn cd cl cs no_world in
  current w 0 0 0 = Some 2 /\ fst (fstep cn cd cl (Lookup 0 0 0) w) = Ok (AVal 1).
Proof.
  intros cn cd cl. exists [NewGraph (mkGraph [0; 1] [(0, 1)]) [(0, [(0, 1)]); (1, [(0, 5)])]; Freeze 0; Lookup 0 0 0; SetAttr 0 0 0 2]. cbn. split; reflexivity.
Qed.
(** Two reads of the same attribute with nothing but other reads in between can
    give different values, whatever the size of the cache. *)
Theorem C108_flicker_refuted : forall cn cd cl, 0 < cl -> exists (cs reads : list (fcmd nat nat nat nat)),
  Forall (fun c => exists n, c = Lookup 0 n 0) reads /\
  fst (fstep cn cd cl (Lookup 0 0 0) (frun cn cd cl cs no_world)) = Ok (AVal 1) /\
  fst (fstep cn cd cl (Lookup 0 0 0) (frun cn cd cl (cs ++ reads) no_world)) = Ok (AVal 2).
Proof.
  intros cn cd cl Hcl. set (nodes := seq 0 (S cl)). set (data := map (fun n => (n, [(0, 1)])) nodes : dict nat (dict nat nat)).
  set (pre := [NewGraph (mkGraph nodes []) data; Freeze 0; Lookup 0 0 0] : list (fcmd nat nat nat nat)). set (before := pre ++ [SetAttr 0 0 0 2]).
  set (ks := map (fun n => (0, (n, 0))) (seq 1 cl)). exists before, (map (fun k => Lookup (fst k) (fst (snd k)) (snd (snd k))) ks).
  assert (Rd : Forall (fun c => exists n, c = Lookup 0 n 0) (map (fun k => Lookup (fst k) (fst (snd k)) (snd (snd k))) ks : list (fcmd nat nat nat nat))).
  { rewrite Forall_forall. intros c Hc. apply in_map_iff in Hc. destruct Hc as (k & <- & Hk). apply in_map_iff in Hk. destruct Hk as (n & <- & _). exists n. reflexivity. }
  split; [exact Rd|].
  assert (M0 : forall n, n <= cl -> mem n nodes = true) by (intros n Hn; apply mem_In, in_seq; lia).
  assert (D0 : forall n, n <= cl -> dget data n = Some [(0, 1)]).
  { intros n Hn. apply In_dget; [unfold dkeys, data; rewrite map_map; cbn [fst]; rewrite map_id; unfold nodes; apply seq_NoDup|]. apply in_map_iff. exists n. split; [reflexivity|apply in_seq; lia]. }
  assert (R1 : frun cn cd cl pre no_world = mkW [mkG (mkGraph nodes []) data true] [mkF 0 None] [] [] [] [((0, (0, 0)), 1)]).
  { unfold pre. cbn [frun fold_left]. cbn [fstep no_world w_graphs w_frozen w_views w_neighbors w_degree w_lookup snd app nth_error with_graph upd go_graph go_data List.length]. unfold behind. cbn [w_graphs w_frozen nth_error fo_graph fo_keep shown go_graph g_nodes]. unfold attribute. cbn [go_graph g_nodes go_data]. rewrite M0 by lia. unfold dget_or. rewrite D0 by lia. cbn. now rewrite firstn_nil. }
  assert (R2 : frun cn cd cl before no_world = mkW [mkG (mkGraph nodes []) (dset data 0 [(0, 2)]) true] [mkF 0 None] [] [] [] [((0, (0, 0)), 1)]).
  { unfold before. rewrite run_app, R1. cbn [frun fold_left fstep w_graphs nth_error go_graph g_nodes]. rewrite M0 by lia. cbn [snd with_graph upd w_graphs w_frozen w_views w_neighbors w_degree w_lookup go_data go_frozen]. unfold dget_or. rewrite D0 by lia. reflexivity. }
  split; [rewrite R2; reflexivity|].
  assert (Cur : forall n, n <= cl -> current (frun cn cd cl before no_world) 0 n 0 = Some (if Nat.eqb n 0 then 2 else 1)).
  { intros n Hn. rewrite R2. unfold current, behind. cbn [w_graphs w_frozen nth_error fo_graph fo_keep shown go_graph g_nodes]. rewrite M0 by lia. unfold attribute. cbn [go_graph g_nodes go_data]. rewrite M0 by lia. unfold dget_or. rewrite dget_dset. change (eqb n 0) with (Nat.eqb n 0). destruct (Nat.eqb n 0); [reflexivity|]. now rewrite D0 by lia. }
  rewrite run_app. rewrite (C108_lookup_evicted cn cd cl before 0 0 0 ks Hcl); [now rewrite Cur by lia| | | | |].
  - rewrite R2. discriminate.
  - apply FinFun.Injective_map_NoDup; [intros x y [=]; auto|apply seq_NoDup].
  - unfold ks. now rewrite map_length, seq_length.
  - intro X. apply in_map_iff in X. destruct X as (n & [= ->] & Hn). apply in_seq in Hn. lia.
  - intros j' n' f' X. apply in_map_iff in X. destruct X as (n & [= <- <- <-] & Hn). apply in_seq in Hn. rewrite Cur by lia. discriminate.
Qed.
(** Writing to the parts after a district was read leaves its subgraph behind. *)
Theorem C109_stale_refuted : forall cn cd cl, exists (cs : list (fcmd nat nat nat nat)) vv k w' o g, let w := frun cn cd cl cs no_world in
  nth_error (w_views w) 0 = Some vv /\ dget (v_parts vv) 1 = Some [1; 2] /\ fstep cn cd cl (ViewGet 0 1) w = (Ok (AFrozen k), w') /\ behind w' k = Some (o, g) /\ g_nodes g = [0].
Proof.
  intros cn cd cl. exists [NewGraph (mkGraph [0; 1; 2] [(0, 1); (1, 2)]) []; Freeze 0; NewView 0 [(1, [0]); (2, [1; 2])]; ViewGet 0 1; SetPartOf 0 1 [1; 2]].
  do 5 eexists. split; [reflexivity|]. split; [reflexivity|]. split; [reflexivity|]. split; reflexivity.
Qed.

(** ** The hypotheses can be met *)
Example C108_nonvacuous : let cs := [NewGraph (mkGraph [0; 1; 2] [(0, 1); (1, 2)]) [(0, [(7, 1)]); (1, [(7, 5)])]] : list (fcmd nat nat nat nat) in
  let w := frun 2 2 2 cs no_world in let w1 := snd (fstep 2 2 2 (Freeze 0) w) in
  0 < List.length (w_graphs w) /\ makes 2 2 2 (Freeze 0) w 0 /\ nth_error (w_frozen w1) 0 = Some (mkF 0 None) /\
  Forall (fun c : fcmd nat nat nat nat => writes 0 0 7 c = false) [Lookup 0 0 7; SetAttr 0 1 7 9; AddNode 0 4; Subgraph 0 [0; 1]; Degree 1 1] /\
  fst (fstep 2 2 2 (Lookup 0 0 7) w1) = Ok (AVal 1) /\
  fst (fstep 2 2 2 (Degree 1 1) (frun 2 2 2 [Degree 0 1; AddNode 0 4; Subgraph 0 [0; 1]] w1)) = Ok (ADegree (Some 1)) /\
  changes 0 (AddNode 0 4 : fcmd nat nat nat nat) = true.
Proof. repeat split; try (cbn; lia); try discriminate. repeat constructor. Qed.
(** Two rows for node 1 and one for a node that does not exist. *)
Example C108_attributes_nonvacuous :
  let w := frun 2 2 2 [NewGraph (mkGraph [0; 1; 2] [(0, 1); (1, 2)]) [(0, [(7, 1)]); (1, [(7, 5)])]] no_world : world nat nat nat nat in
  exists o w' o', nth_error (w_graphs w) 0 = Some o /\ go_frozen o = false /\
    fstep 2 2 2 (AddData 0 [(1, [(7, 6); (8, 3)]); (9, [(7, 4)]); (1, [(7, 2)])]) w = (Ok ADone, w') /\ nth_error (w_graphs w') 0 = Some o' /\
    last_value 7 2 (held_for 1 [(1, [(7, 6); (8, 3)]); (9, [(7, 4)]); (1, [(7, 2)])]) /\
    attribute o' 1 7 = Some 2 /\ attribute o' 1 8 = Some 3 /\ attribute o' 0 7 = Some 1 /\ attribute o' 9 7 = None /\
    exists w1 w2, fstep 2 2 2 (RemoveNode 0 1) w = (Ok ADone, w1) /\ fstep 2 2 2 (AddNode 0 1) w1 = (Ok ADone, w2).
Proof.
  do 3 eexists. repeat (split; [reflexivity|]). split; [exists [(7, 6); (8, 3)], []; split; [reflexivity|intros []]|].
  repeat (split; [reflexivity|]). do 2 eexists. split; reflexivity.
Qed.
Example C109_nonvacuous : let cs := [NewGraph (mkGraph [0; 1; 2] [(0, 1); (1, 2)]) []; Freeze 0] : list (fcmd nat nat nat nat) in
  exists o g, behind (frun 2 2 2 cs no_world) 0 = Some (o, g) /\ wf_graph g /\ Forall (fun c : fcmd nat nat nat nat => rewrites 0 c = false) [ViewGet 0 2; Neighbors 0 1; SetAttr 0 1 1 1] /\
  exists k w' o' g', fstep 2 2 2 (ViewGet 0 2) (frun 2 2 2 [NewView 0 [(1, [0]); (2, [1; 2])]] (frun 2 2 2 cs no_world)) = (Ok (AFrozen k), w') /\ behind w' k = Some (o', g') /\ g_edges g' = [(1, 2)].
Proof.
  do 2 eexists. split; [reflexivity|]. split.
  - constructor; cbn.
    + nodup. + nodup.
    + intros u v H. repeat destruct H as [H|H]; try contradiction; injection H as <- <-; auto 6.
    + intros u v H H'. repeat destruct H as [H|H]; try contradiction; injection H as <- <-; repeat destruct H' as [H'|H']; try discriminate; contradiction.
  - split; [repeat constructor|]. do 4 eexists. split; [reflexivity|]. split; reflexivity.
Qed.
Print Assumptions C108_frozen.
Print Assumptions C108_copy.
Print Assumptions C108_reads.
Print Assumptions C108_shown.
Print Assumptions C108_unfrozen.
Print Assumptions C108_attributes.
Print Assumptions C108_removed.
Print Assumptions C108_lookup.
Print Assumptions C108_lookup_unwritten.
Print Assumptions C108_lookup_sticks.
Print Assumptions C108_lookup_evicted.
Print Assumptions C108_stale_refuted.
Print Assumptions C108_flicker_refuted.
Print Assumptions C109_subgraphs.
Print Assumptions C109_sticks.
Print Assumptions C109_stale_refuted.
