(** C74: what the diversity statistics count. *)
From Coq Require Import List Bool Arith Lia Permutation.
From Verif Require Import Base M_Graph M_Partition S_Partition L_Partition P_Partition M_Machine S_Machine M_Contiguity S_Contiguity L_Search P_Contiguity M_Diversity.
Import ListNotations.

(** ** Specification *)
(** [k] is the number of members of [l] up to [R]: [l] has [k] members no two
    of which are related, and every member is related to one of them. *)
Definition distinct_up_to {X} (R : X -> X -> Prop) (l : list X) (k : nat) : Prop :=
  exists reps, length reps = k /\ incl reps l /\ ForallOrdPairs (fun x y => ~ R x y) reps /\
    forall x, In x l -> exists y, In y reps /\ R x y.
Definition same_set {X} (l m : list X) : Prop := forall x, In x l <-> In x m.
(** The same districts, whatever their labels. *)
Definition same_districts {N P} {EN : EqB N} {EP : EqB P} (g : graph N) (A B : assignment N P) : Prop :=
  forall u v, In u (g_nodes g) -> In v (g_nodes g) -> (district A u = district A v <-> district B u = district B v).

(** ** Lemmas: sorting *)
Section Sorting.
  Context {A : Type} {OA : Ord A}.
  Lemma place_perm (x : A) l : Permutation (x :: l) (place x l).
  Proof. induction l as [|y l IH]; cbn [place]; [reflexivity|]. destruct (leb x y); [reflexivity|]. rewrite perm_swap. now rewrite IH. Qed.
  Lemma sorted_perm (l : list A) : Permutation l (sorted l).
  Proof. induction l as [|x l IH]; cbn; [reflexivity|]. rewrite <- place_perm. now rewrite <- IH. Qed.
  Inductive incr : list A -> Prop :=
  | incr_nil : incr []
  | incr_cons : forall x l, (forall y, In y l -> leb x y = true) -> incr l -> incr (x :: l).
  Lemma place_incr x l : incr l -> incr (place x l).
  Proof.
    intro H. induction H as [|y l Hy Hl IH]; cbn [place]; [constructor; [intros y []|constructor]|].
    destruct (leb x y) eqn:E.
    - constructor; [|now constructor]. intros z [<-|Hz]; [exact E|]. eapply leb_trans; [exact E|]. now apply Hy.
    - constructor; [|exact IH]. intros z Hz. apply (Permutation_in z (Permutation_sym (place_perm x l))) in Hz. destruct Hz as [<-|Hz]; [|now apply Hy].
      destruct (leb_total x y) as [H|H]; [congruence|exact H].
  Qed.
  Lemma sorted_incr (l : list A) : incr (sorted l).
  Proof. induction l; cbn; [constructor|]. now apply place_incr. Qed.
  Lemma incr_unique (l m : list A) : incr l -> incr m -> Permutation l m -> l = m.
  Proof.
    intro Hl. revert m. induction Hl as [|x l Hx Hl IH]; intros m Hm HP.
    - symmetry. now apply Permutation_nil.
    - destruct Hm as [|y m Hy Hm]; [symmetry in HP; now apply Permutation_nil in HP|].
      assert (x = y).
      { assert (I1 : In x (y :: m)) by (eapply Permutation_in; [exact HP|now left]).
        assert (I2 : In y (x :: l)) by (eapply Permutation_in; [symmetry; exact HP|now left]).
        destruct I1 as [->|I1]; [reflexivity|]. destruct I2 as [->|I2]; [reflexivity|]. apply leb_antisym; auto. }
      subst y. f_equal. apply IH; [exact Hm|]. eapply Permutation_cons_inv. exact HP.
  Qed.
  Lemma sorted_same (l m : list A) : NoDup l -> NoDup m -> (sorted l = sorted m <-> same_set l m).
  Proof.
    intros Nl Nm. split.
    - intros E x. split; intro H; (eapply Permutation_in; [symmetry; apply sorted_perm|]); [rewrite <- E|rewrite E]; (eapply Permutation_in; [apply sorted_perm|exact H]).
    - intro H. apply incr_unique; try apply sorted_incr. rewrite <- !sorted_perm. now apply NoDup_Permutation.
  Qed.
End Sorting.

(** ** Lemmas: the count *)
Section Counting.
  Context {X Y : Type} (R : X -> X -> Prop) (key : X -> Y).
  (** [keys] are the keys of the members seen so far, one per class. *)
  Definition tracks (l : list X) (keys : list Y) : Prop :=
    NoDup keys /\ forall k, In k keys <-> exists x, In x l /\ key x = k.
  Lemma tracks_count l keys : (forall x y, In x l -> In y l -> (key x = key y <-> R x y)) -> tracks l keys -> distinct_up_to R l (length keys).
  Proof.
    intros HR [ND I].
    assert (G : forall ks, NoDup ks -> incl ks keys -> exists reps, map key reps = ks /\ incl reps l /\ ForallOrdPairs (fun x y => ~ R x y) reps).
    { induction ks as [|k ks IH]; intros Nk Hk; [exists []; repeat split; [intros x []|constructor]|]. inversion Nk as [|? ? Hn Nk']; subst.
      destruct IH as (reps & E & Il & F); [exact Nk'|intros x Hx; apply Hk; now right|]. destruct (proj1 (I k) (Hk k (or_introl eq_refl))) as (x & Hx & Ek).
      exists (x :: reps). split; [cbn; now rewrite Ek, E|]. split; [intros y [<-|Hy]; auto|]. constructor; [|exact F].
      apply Forall_forall. intros y Hy K. apply HR in K; auto. apply Hn. rewrite <- Ek, K, <- E. now apply in_map. }
    destruct (G keys ND (incl_refl _)) as (reps & E & Il & F). exists reps. split; [rewrite <- E; now rewrite map_length|]. split; [exact Il|]. split; [exact F|].
    intros x Hx. assert (K : In (key x) keys) by (apply I; eauto). rewrite <- E in K. apply in_map_iff in K. destruct K as (y & Ey & Hy). exists y. split; [exact Hy|]. apply HR; auto.
  Qed.
  Lemma tracks_old l keys x : tracks l keys -> In (key x) keys -> tracks (x :: l) keys.
  Proof.
    intros [ND I] H. split; [exact ND|]. intro k. rewrite I. split.
    - intros (y & Hy & E). exists y. split; [now right|exact E].
    - intros (y & [<-|Hy] & E); [apply I in H; destruct H as (z & Hz & Ez); exists z; split; [exact Hz|congruence]|eauto].
  Qed.
  Lemma tracks_new l keys x : tracks l keys -> ~ In (key x) keys -> tracks (x :: l) (key x :: keys).
  Proof.
    intros [ND I] H. split; [now constructor|]. intro k. cbn [In]. rewrite I. split.
    - intros [<-|(y & Hy & E)]; [exists x; auto|exists y; auto].
    - intros (y & [<-|Hy] & E); [now left|right; eauto].
  Qed.
  Lemma tracks_ext l m keys : (forall x, In x l <-> In x m) -> tracks l keys -> tracks m keys.
  Proof. intros H [ND I]. split; [exact ND|]. intro k. rewrite I. split; intros (x & Hx & E); exists x; (split; [apply H; exact Hx|exact E]). Qed.
End Counting.

Section Diversity.
  Context {N P : Type} {EN : EqB N} {ON : Ord N} {EP : EqB P}.
  Notation plan := (assignment N P * list (N * N))%type.
  Implicit Types (chain : list plan).

  (** All districts of the plans of a chain. *)
  Definition districts_of chain : list (list N) := flat_map (fun plan => map snd (a_parts (fst plan))) chain.
  Definition tracked (ds : list (list N)) (cs : list (list (N * N))) (k : nat) (s : seen (N := N)) : Prop :=
    tracks sorted ds (seen_districts s) /\ unique_districts (now_stats s) = length (seen_districts s) /\
    tracks sorted cs (seen_plans s) /\ unique_plans (now_stats s) = length (seen_plans s) /\ steps_taken (now_stats s) = k.
  Lemma see_district_tracked ds cs k s d : tracked ds cs k s -> tracked (d :: ds) cs k (see_district s d).
  Proof.
    intros (T1 & C1 & T2 & C2 & K). unfold see_district. destruct (mem (sorted d) (seen_districts s)) eqn:E.
    - apply mem_In in E. split; [now apply tracks_old|split; [exact C1|split; [exact T2|split; [exact C2|exact K]]]].
    - assert (Hn : ~ In (sorted d) (seen_districts s)) by (intro H; apply mem_In in H; congruence).
      split; [now apply tracks_new|split; [cbn; lia|split; [exact T2|split; [exact C2|exact K]]]].
  Qed.
  Lemma see_districts_tracked l : forall ds cs k s, tracked ds cs k s -> tracked (rev l ++ ds) cs k (fold_left see_district l s).
  Proof.
    induction l as [|d l IH]; intros ds cs k s H; cbn [fold_left rev app]; [exact H|]. rewrite <- app_assoc. apply IH. now apply see_district_tracked.
  Qed.
  Lemma see_plan_tracked ds cs k s c : tracked ds cs k s -> tracked ds (c :: cs) k (see_plan s c).
  Proof.
    intros (T1 & C1 & T2 & C2 & K). unfold see_plan. destruct (mem (sorted c) (seen_plans s)) eqn:E.
    - apply mem_In in E. split; [exact T1|split; [exact C1|split; [now apply tracks_old|split; [exact C2|exact K]]]].
    - assert (Hn : ~ In (sorted c) (seen_plans s)) by (intro H; apply mem_In in H; congruence).
      split; [exact T1|split; [exact C1|split; [now apply tracks_new|split; [cbn; lia|exact K]]]].
  Qed.
  Lemma visit_tracked ds cs k s (pl : plan) : tracked ds cs k s -> tracked (rev (map snd (a_parts (fst pl))) ++ ds) (snd pl :: cs) (S k) (visit s pl).
  Proof.
    intro H. unfold visit. apply see_plan_tracked, see_districts_tracked. destruct H as (T1 & C1 & T2 & C2 & K). split; [exact T1|split; [exact C1|split; [exact T2|split; [exact C2|cbn; lia]]]].
  Qed.
  Lemma collect_tracked chain : forall ds cs k s i st, tracked ds cs k s -> nth_error (collect s chain) i = Some st ->
    exists s', now_stats s' = st /\ tracked (rev (districts_of (firstn (S i) chain)) ++ ds) (rev (map snd (firstn (S i) chain)) ++ cs) (S i + k) s'.
  Proof.
    induction chain as [|pl chain IH]; intros ds cs k s i st H E; [destruct i; discriminate|]. apply (visit_tracked _ _ _ _ pl) in H. cbn [collect] in E.
    destruct i as [|i]; cbn [nth_error] in E.
    - injection E as <-. exists (visit s pl). split; [reflexivity|]. cbn [firstn districts_of flat_map map rev app]. rewrite app_nil_r. exact H.
    - destruct (IH _ _ _ _ _ _ H E) as (s' & E' & T). exists s'. split; [exact E'|]. cbn [firstn]. cbn [districts_of flat_map map].
      change (flat_map (fun plan : plan => map snd (a_parts (fst plan))) (firstn (S i) chain)) with (districts_of (firstn (S i) chain)) in *.
      rewrite rev_app_distr, <- app_assoc. cbn [rev]. rewrite <- app_assoc. cbn [app]. replace (S (S i) + k) with (S i + S k) by lia. exact T.
  Qed.
  Lemma start_tracked : tracked [] [] 0 start.
  Proof.
    assert (T : forall X (f : X -> X), tracks f [] []) by (intros X f; split; [constructor|intro k; split; [intros []|intros (x & [] & _)]]).
    split; [apply T|split; [reflexivity|split; [apply T|split; reflexivity]]].
  Qed.
  Lemma collect_length chain : forall s, length (collect s chain) = length chain.
  Proof. induction chain as [|pl chain IH]; intro s; cbn; auto. Qed.
  Lemma in_firstn {X} (x : X) n l : In x (firstn n l) -> In x l.
  Proof. revert n. induction l as [|y l IH]; intros [|n]; cbn; auto; [tauto|]. intros [H|H]; eauto. Qed.

  Section Chain.
    Variable g : graph N.
    (** The value of the "cut_edges" updater (C12, C13). *)
    Definition cuts_right (pl : plan) : Prop := NoDup (snd pl) /\ forall e, In e (snd pl) <-> cut_edge g (fst pl) e.
    Definition good_plan (pl : plan) : Prop := coherent (g_nodes g) (fst pl) /\ cuts_right pl.

    Lemma cuts_groups (a b : plan) : wf_graph g -> good_plan a -> good_plan b -> same_districts g (fst a) (fst b) -> same_set (snd a) (snd b).
    Proof.
      intros W [_ [_ Ca]] [_ [_ Cb]] H [u v]. rewrite Ca, Cb. unfold cut_edge. cbn [fst snd]. split; intros (H1 & H2 & H3); (split; [exact H1|]; split; [exact H2|]); intro K; apply H3;
        destruct (adj_nodes g u v W H2); apply (H u v); assumption.
    Qed.
    Lemma cuts_contiguous (a b : plan) : wf_graph g -> good_plan a -> good_plan b -> contiguous_plan g (fst a) -> same_set (snd a) (snd b) ->
      forall u v, In u (g_nodes g) -> In v (g_nodes g) -> district (fst a) u = district (fst a) v -> district (fst b) u = district (fst b) v.
    Proof.
      intros W [Coha [_ Ca]] [Cohb [_ Cb]] Con Hs u v Hu Hv E.
      assert (Ed : exists p, district (fst a) u = Some p /\ In p (labels (fst a))).
      { assert (Hk : In u (dkeys (a_map (fst a)))) by now apply (coh_dom _ _ Coha). apply dget_key in Hk. destruct Hk as [p Hp]. exists p. split; [exact Hp|].
        apply (coh_agree _ _ Coha) in Hp. destruct Hp as (s & Hs' & _). now apply dget_Some_key in Hs'. }
      destruct Ed as (p & Dp & Lp). destruct (Con p Lp) as [_ C]. specialize (C u v Dp). unfold in_district in C. rewrite E in Dp. specialize (C Dp).
      clear - EP C Ca Cb Hs. induction C as [|v w _ IH (Hadj & Dv & Dw)]; [reflexivity|]. rewrite IH. clear IH.
      destruct (eq_dec_of (district (fst b) v) (district (fst b) w)) as [H|H]; [exact H|]. exfalso.
      assert (G : forall x y, adj g x y -> district (fst a) x = district (fst a) y -> district (fst b) x <> district (fst b) y -> leb x y = true -> False).
      { intros x y Hxy Hda Hdb Hle. assert (I : In (x, y) (snd b)) by (apply Cb; repeat split; assumption). apply Hs in I. apply Ca in I. destruct I as (_ & _ & K). now apply K. }
      destruct (leb_total v w) as [Hl|Hl]; [apply (G v w)|apply (G w v)]; auto; try congruence. apply (adj_sym g v w Hadj).
    Qed.

    Variable chain : list plan.
    Hypothesis W : wf_graph g.
    Hypothesis good : forall pl, In pl chain -> good_plan pl.

    Lemma plan_keys i : forall c d, In c (map snd (firstn i chain)) -> In d (map snd (firstn i chain)) -> (sorted c = sorted d <-> same_set c d).
    Proof.
      intros c d Hc Hd. apply in_map_iff in Hc. apply in_map_iff in Hd. destruct Hc as (a & <- & Ha), Hd as (b & <- & Hb). apply in_firstn in Ha, Hb. apply sorted_same; [apply (good a Ha)|apply (good b Hb)].
    Qed.
    Lemma district_keys i : forall c d, In c (districts_of (firstn i chain)) -> In d (districts_of (firstn i chain)) -> (sorted c = sorted d <-> same_set c d).
    Proof.
      assert (H : forall c, In c (districts_of (firstn i chain)) -> NoDup c).
      { intros c Hc. unfold districts_of in Hc. apply in_flat_map in Hc. destruct Hc as (pl & Hpl & Hc). apply in_firstn in Hpl. destruct (good pl Hpl) as [Coh _].
        apply in_map_iff in Hc. destruct Hc as ([p s] & <- & Hps). apply (coh_parts_nodup _ _ Coh p). apply In_dget; [apply Coh|exact Hps]. }
      intros c d Hc Hd. apply sorted_same; auto.
    Qed.

    (** After every step: the number of steps, of distinct districts and of
        distinct cut sets so far. *)
    Theorem C74_counts : forall i st, nth_error (collect_diversity_stats chain) i = Some st ->
      steps_taken st = S i /\
      distinct_up_to same_set (districts_of (firstn (S i) chain)) (unique_districts st) /\
      distinct_up_to same_set (map snd (firstn (S i) chain)) (unique_plans st).
    Proof.
      intros i st E. destruct (collect_tracked chain _ _ _ _ _ _ start_tracked E) as (s & <- & T1 & C1 & T2 & C2 & K). rewrite app_nil_r in T1, T2. rewrite C1, C2, K. split; [lia|]. split.
      - apply (tracks_count same_set sorted); [apply district_keys|]. eapply tracks_ext; [intro x; symmetry; apply in_rev|exact T1].
      - apply (tracks_count same_set sorted); [apply plan_keys|]. eapply tracks_ext; [intro x; symmetry; apply in_rev|exact T2].
    Qed.
    Theorem C74_length : length (collect_diversity_stats chain) = length chain.
    Proof. clear. apply collect_length. Qed.
    (** Contiguous plans are counted up to relabelling. *)
    Theorem C74_contiguous : (forall pl, In pl chain -> contiguous_plan g (fst pl)) -> forall i st, nth_error (collect_diversity_stats chain) i = Some st ->
      distinct_up_to (same_districts g) (map fst (firstn (S i) chain)) (unique_plans st).
    Proof.
      intros Con i st E. destruct (C74_counts i st E) as (_ & _ & reps & El & Ii & F & Cov).
      assert (G : forall rs, incl rs (map snd (firstn (S i) chain)) -> ForallOrdPairs (fun x y => ~ same_set x y) rs -> exists pls, map snd pls = rs /\ incl pls (firstn (S i) chain)).
      { induction rs as [|c rs IH]; intros Hi Fo; [exists []; split; [reflexivity|intros x []]|]. inversion Fo; subst. destruct IH as (pls & E1 & E2); [intros x Hx; apply Hi; now right|assumption|].
        destruct (proj1 (in_map_iff _ _ _) (Hi c (or_introl eq_refl))) as (pl & Ec & Hpl). exists (pl :: pls). split; [cbn; now rewrite Ec, E1|]. intros x [<-|Hx]; auto. }
      destruct (G reps Ii F) as (pls & <- & Ip). rewrite map_length in El. exists (map fst pls). split; [now rewrite map_length|]. split; [intros x Hx; apply in_map_iff in Hx; destruct Hx as (pl & <- & Hpl); apply in_map; auto|].
      assert (Sm : forall a b, In a (firstn (S i) chain) -> In b (firstn (S i) chain) -> same_districts g (fst a) (fst b) <-> same_set (snd a) (snd b)).
      { intros a b Ha Hb. apply in_firstn in Ha, Hb. split; [apply cuts_groups; auto|]. intros Hs u v Hu Hv. split.
        - apply cuts_contiguous; auto.
        - apply cuts_contiguous; auto. intro x. symmetry. apply Hs. }
      split.
      - clear - F Ip Sm. induction pls as [|a pls IH]; cbn [map]; [constructor|]. cbn [map] in F. inversion F as [|? ? F1 F2]; subst. constructor; [|apply IH; [exact F2|intros x Hx; apply Ip; now right]].
        apply Forall_forall. intros B HB K. apply in_map_iff in HB. destruct HB as (b & <- & Hb). apply Sm in K; [|apply Ip; now left|apply Ip; now right]. rewrite Forall_forall in F1. apply (F1 (snd b)); [now apply in_map|exact K].
      - intros A HA. apply in_map_iff in HA. destruct HA as (a & <- & Ha). destruct (Cov (snd a) (in_map snd _ _ Ha)) as (c & Hc & Hs). apply in_map_iff in Hc. destruct Hc as (b & <- & Hb). exists (fst b). split; [now apply in_map|]. apply Sm; auto.
    Qed.
    (** In general plans are never over-counted. *)
    Theorem C74_at_most : forall i st k, nth_error (collect_diversity_stats chain) i = Some st ->
      distinct_up_to (same_districts g) (map fst (firstn (S i) chain)) k -> unique_plans st <= k.
    Proof.
      intros i st k E (reps' & <- & Ir & _ & Cov'). destruct (C74_counts i st E) as (_ & _ & reps & <- & Ii & F & _).
      (* every cut set of [reps] belongs to a plan related to some member of [reps'] *)
      assert (H : forall c, In c reps -> exists A, In A reps' /\ exists pl, In pl chain /\ snd pl = c /\ same_districts g (fst pl) A).
      { intros c Hc. apply Ii, in_map_iff in Hc. destruct Hc as (pl & Ec & Hpl). destruct (Cov' (fst pl) (in_map fst _ _ Hpl)) as (A & HA & HS). exists A. split; [exact HA|]. exists pl. split; [now apply in_firstn in Hpl|auto]. }
      assert (Good' : forall A, In A reps' -> exists pl, In pl chain /\ fst pl = A).
      { intros A HA. apply Ir, in_map_iff in HA. destruct HA as (pl & Ea & Hpl). exists pl. split; [now apply in_firstn in Hpl|exact Ea]. }
      clear - H F Good' W good. revert reps' H Good'. induction F as [|c reps Fc F IH]; intros reps' H Good'; [cbn; lia|].
      destruct (H c (or_introl eq_refl)) as (A & HA & pl & Hpl & Ec & HS). apply in_split in HA. destruct HA as (r1 & r2 & ->).
      specialize (IH (r1 ++ r2)). rewrite app_length in *. cbn [length]. enough (length reps <= length r1 + length r2) by lia. apply IH.
      - intros c' Hc'. destruct (H c' (or_intror Hc')) as (A' & HA' & pl' & Hpl' & Ec' & HS'). exists A'. split; [|exists pl'; auto]. apply in_app_iff in HA'. apply in_app_iff. destruct HA' as [HA'|[<-|HA']]; auto. exfalso.
        rewrite Forall_forall in Fc. apply (Fc c' Hc'). rewrite <- Ec, <- Ec'. apply cuts_groups; auto. intros u v Hu Hv. rewrite (HS u v Hu Hv). symmetry. apply HS'; assumption.
      - intros A' HA'. apply Good'. apply in_app_iff in HA'. apply in_app_iff. cbn. tauto.
    Qed.
  End Chain.
End Diversity.

(** Plans that are not contiguous may differ and have the same cut edges. *)
Definition path3 : graph nat := mkGraph [0; 1; 2] [(0, 1); (1, 2)].
Definition outer_together : assignment nat nat := plan_of path3 [(0, 5); (1, 6); (2, 5)].
Definition all_apart : assignment nat nat := plan_of path3 [(0, 5); (1, 6); (2, 7)].
Definition two_plans : list (assignment nat nat * list (nat * nat)) := [(outer_together, [(0, 1); (1, 2)]); (all_apart, [(1, 2); (0, 1)])].
Lemma two_plans_good : wf_graph path3 /\ forall pl, In pl two_plans -> good_plan path3 pl.
Proof.
  split; [wfg|]. intros pl Hpl. unfold two_plans in Hpl. cbn [In] in Hpl.
  assert (Co : coherent (g_nodes path3) outer_together) by (eapply plan_of_coherent; [nodup|vm_compute; reflexivity]).
  assert (Ca : coherent (g_nodes path3) all_apart) by (eapply plan_of_coherent; [nodup|vm_compute; reflexivity]).
  assert (Q : forall A : assignment nat nat, district A 0 <> district A 1 -> district A 1 <> district A 2 -> forall e : nat * nat, cut_edge path3 A e <-> e = (0, 1) \/ e = (1, 2)).
  { intros A H1 H2 [x y]. unfold cut_edge, adj. cbn [fst snd g_edges path3 In]. split.
    - intros (Hl & Ha & Hd). destruct Ha as [[E|[E|[]]]|[E|[E|[]]]]; injection E as <- <-; auto; discriminate Hl.
    - intros [E|E]; injection E as -> ->; repeat split; auto. }
  destruct Hpl as [<-|[<-|[]]]; (split; [assumption|]; split; [nodup|]); intro e; cbn [fst snd]; (rewrite Q; [|discriminate|discriminate]); cbn; split; intuition congruence.
Qed.
Theorem C74_not_contiguous_refuted : exists st, wf_graph path3 /\ (forall pl, In pl two_plans -> good_plan path3 pl) /\
  nth_error (collect_diversity_stats two_plans) 1 = Some st /\ unique_plans st = 1 /\ ~ same_districts path3 outer_together all_apart.
Proof.
  exists (mkStats 1 4 2). split; [apply two_plans_good|]. split; [apply two_plans_good|]. split; [reflexivity|]. split; [reflexivity|].
  intro H. specialize (H 0 2). destruct H as [H _]; cbn; auto. discriminate (H eq_refl).
Qed.
Example C74_nonvacuous : wf_graph path3 /\ (forall pl, In pl two_plans -> good_plan path3 pl) /\ contiguous_plan path3 all_apart.
Proof.
  split; [apply two_plans_good|]. split; [apply two_plans_good|]. intros p Hp. cbn in Hp.
  assert (D : forall n q, district all_apart n = Some q -> (n = 0 /\ q = 5) \/ (n = 1 /\ q = 6) \/ (n = 2 /\ q = 7)).
  { intros n q H. destruct n as [|[|[|n]]]; cbn in H; try discriminate; injection H as <-; auto. }
  split.
  - destruct Hp as [<-|[<-|[<-|[]]]]; [exists 0|exists 1|exists 2]; reflexivity.
  - intros u v Hu Hv. apply D in Hu, Hv. assert (u = v) as -> by lia. constructor.
Qed.

Print Assumptions C74_counts.
Print Assumptions C74_length.
Print Assumptions C74_contiguous.
Print Assumptions C74_at_most.
Print Assumptions C74_not_contiguous_refuted.
