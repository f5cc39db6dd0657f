(** C122: the pieces a LocalitySplits updater allows each locality. *)
From Coq Require Import String List Bool Arith ZArith QArith Qround Reals Lra Lia ZifyBool ZifyNat.
From Verif Require Import Base M_Graph M_Partition S_Partition L_Partition P_Partition M_Machine S_Machine L_Cuts L_Updaters M_Contiguity S_Contiguity P_Contiguity M_Election
  M_Locality L_Locality P_Locality P_LocalityObject.
Import ListNotations.
Local Open Scope nat_scope.
Local Open Scope list_scope.

(** The people of some nodes. *)
Definition people {N} (pop : N -> Z) (ns : list N) : Z := fold_right Z.add 0%Z (map pop ns).
Lemma fold_people l : forall a, fold_left Z.add l a = (a + fold_right Z.add 0 l)%Z.
Proof. induction l as [|x l IH]; intro a; cbn [fold_left fold_right]; [lia|]. rewrite IH. lia. Qed.

Section Allowed.
  Context {N P L : Type} {EN : EqB N} {EP : EqB P} {EL : EqB L}.
  Variable none : L.
  Variable str : L -> L.
  Variable alpha : R.
  Notation call := (call none str alpha).

  (** ** Specification *)
  (** [k] is the least number of districts of average size that hold [x] of
      [total] people, with [m] districts: k - 1 < x / (total / m) <= k. *)
  Definition least_districts (total x : Z) (m : nat) (k : Z) : Prop :=
    (0 < total -> (k - 1) * total < x * Z.of_nat m <= k * total)%Z.
  (** [al] are the numbers of pieces of the plan [q] for the localities of the
      plan [first]. *)
  Definition pieces_of (first q : lplan N P L) (al : dict L Z) : Prop :=
    exists pop loc,
      (forall n, In n (g_nodes (lp_graph q)) -> lp_pop q n = Some (pop n)) /\
      (al <> [] -> forall n, In n (g_nodes (lp_graph q)) -> lp_loc q n = Some (loc n)) /\
      (forall l, In l (dkeys al) <-> exists n, In n (g_nodes (lp_graph first)) /\ match lp_loc first n with Some l' => l' | None => none end = l) /\
      (forall l k, In (l, k) al ->
         people pop (g_nodes (lp_graph q)) <> 0%Z /\ labels (lp_assign q) <> [] /\
         least_districts (people pop (g_nodes (lp_graph q)))
           (people pop (filter (fun n => eqb (loc n) l) (g_nodes (lp_graph q))))
           (length (labels (lp_assign q))) k).

  (** ** Lemmas *)
  Lemma mapM_option {X Y} (f : X -> option Y) (y0 : Y) l r : mapM (fun x => of_option KeyError (f x)) l = Ok r ->
    exists v, (forall x, In x l -> f x = Some (v x)) /\ r = map v l.
  Proof.
    intro H. exists (fun x => match f x with Some y => y | None => y0 end). apply mapM_Ok in H. induction H as [|x y l r Hx _ (I1 & I2)]; [split; [intros x []|reflexivity]|].
    destruct (f x) as [z|] eqn:E; [|discriminate]. cbn in Hx. injection Hx as <-. split.
    - intros x' [<-|Hin]; [now rewrite E|now apply I1].
    - cbn [map]. rewrite E. now f_equal.
  Qed.
  Lemma mapM_pairs {X Y} (f : X -> option Y) l r : mapM (fun x => y <- of_option KeyError (f x) ;; Ok (x, y)) l = Ok r ->
    map fst r = l /\ forall x y, In (x, y) r -> f x = Some y.
  Proof.
    intro H. apply mapM_Ok in H. induction H as [|x y l r Hx _ (I1 & I2)]; [split; [reflexivity|intros x y []]|].
    destruct (f x) as [z|] eqn:E; [|discriminate]. cbn in Hx. injection Hx as <-. split; [cbn; now f_equal|].
    intros x' y' [[= <- <-]|Hin]; [exact E|now apply I2].
  Qed.
  Lemma ceiling_least (T x : Z) (m : nat) s y : qdiv (inject_Z T) (inject_Z (Z.of_nat m)) = Ok s -> qdiv (inject_Z x) s = Ok y ->
    T <> 0%Z /\ m <> 0 /\ least_districts T x m (Qceiling y).
  Proof.
    unfold qdiv. intros H1 H2.
    destruct (Qeq_bool (inject_Z (Z.of_nat m)) 0) eqn:Em; [discriminate|]. injection H1 as <-.
    destruct (Qeq_bool (inject_Z T / inject_Z (Z.of_nat m)) 0) eqn:Es; [discriminate|]. injection H2 as <-.
    apply Qeq_bool_neq in Em. apply Qeq_bool_neq in Es.
    assert (Hm : m <> 0) by (intros ->; now apply Em).
    assert (HT : T <> 0%Z) by (intros ->; apply Es; unfold Qdiv; now rewrite Qmult_0_l).
    split; [exact HT|]. split; [exact Hm|]. intro Tp.
    set (y := (inject_Z x / (inject_Z T / inject_Z (Z.of_nat m)))%Q).
    assert (Ey : (y * inject_Z T == inject_Z (x * Z.of_nat m))%Q).
    { unfold y. rewrite inject_Z_mult. field. split; [exact Em|]. intro A. apply HT. unfold Qeq in A. cbn in A. lia. }
    assert (Tq : (0 < inject_Z T)%Q) by (unfold Qlt; cbn; lia).
    pose proof (Qle_ceiling y) as C1. pose proof (Qceiling_lt y) as C2. fold y.
    split.
    - apply (Qmult_lt_r _ _ _ Tq) in C2. rewrite Ey, <- inject_Z_mult in C2. rewrite Zlt_Qlt. exact C2.
    - apply (Qmult_le_r _ _ _ Tq) in C1. rewrite Ey, <- inject_Z_mult in C1. rewrite Zle_Qle. exact C1.
  Qed.

  Lemma allowed_spec first q al : allowed_pieces (set_of (dvals (locality_dict none first))) q = Ok al -> pieces_of first q al.
  Proof.
    unfold allowed_pieces. intro H. apply bind_Ok in H. destruct H as (pops & Hp & H).
    apply (mapM_option _ 0%Z) in Hp. destruct Hp as (pop & Hp & ->).
    set (ns := g_nodes (lp_graph q)) in *. set (locs := set_of _) in *.
    assert (K : dkeys al = locs).
    { unfold dkeys. rewrite <- (map_id locs). eapply mapM_keys; [|exact H]. cbv beta. intros l y Hy.
      apply bind_Ok in Hy. destruct Hy as (ls & _ & Hy). apply bind_Ok in Hy. destruct Hy as (ps & _ & Hy).
      apply bind_Ok in Hy. destruct Hy as (sh & _ & Hy). apply bind_Ok in Hy. destruct Hy as (z & _ & [= <-]). reflexivity. }
    unfold pieces_of. fold ns. exists pop, (fun n => match lp_loc q n with Some l => l | None => none end). split; [exact Hp|]. split; [|split].
    - intros Hal n Hn. destruct al as [|[l k] al]; [contradiction|].
      destruct (mapM_In _ _ _ _ H (or_introl eq_refl)) as (l0 & _ & Hy). apply bind_Ok in Hy. destruct Hy as (ls & Hls & _).
      apply mapM_pairs in Hls. destruct Hls as [Hf Hv]. fold ns in Hf. rewrite <- Hf in Hn. apply in_map_iff in Hn. destruct Hn as ([n' y] & <- & Hn). cbn [fst]. rewrite (Hv _ _ Hn). reflexivity.
    - intro l. rewrite K. unfold locs. rewrite In_set_of. unfold dvals, locality_dict. rewrite map_map, in_map_iff. cbn [snd]. split; intros (n & A & B); eauto.
    - intros l k Hin. destruct (mapM_In _ _ _ _ H Hin) as (l0 & _ & Hy). apply bind_Ok in Hy. destruct Hy as (ls & Hls & Hy).
      apply bind_Ok in Hy. destruct Hy as (ps & Hps & Hy). apply bind_Ok in Hy. destruct Hy as (sh & Hsh & Hy). apply bind_Ok in Hy. destruct Hy as (z & Hz & [= -> <-]).
      apply mapM_pairs in Hls. destruct Hls as [Hf Hv]. fold ns in Hf.
      assert (Eps : ps = map pop (filter (fun n => eqb match lp_loc q n with Some l => l | None => none end l) ns)).
      { apply mapM_Ok in Hps. clear - Hps Hf Hv Hp EL. revert ps Hps. rewrite <- Hf in Hp |- *. clear Hf. induction ls as [|[n y] ls IH]; cbn [filter map fst snd]; intros ps Hps; [inversion Hps; reflexivity|].
        rewrite (Hv n y (or_introl eq_refl)). assert (IH' := IH (fun n Hn => Hp n (or_intror Hn)) (fun x y Hx => Hv x y (or_intror Hx))). cbn [snd] in Hps.
        destruct (eqb y l); [|now apply IH']. inversion Hps as [|? x ? ps' Hx Hps']; subst. cbn [fst] in Hx. rewrite (Hp n (or_introl eq_refl)) in Hx. injection Hx as <-. cbn [map]. f_equal. now apply IH'. }
      rewrite fold_people in Hsh, Hz. rewrite Z.add_0_l in Hsh, Hz. rewrite Eps in Hz.
      destruct (ceiling_least _ _ _ _ _ Hsh Hz) as (B1 & B2 & B3). unfold people. split; [exact B1|].
      assert (El : length (labels (lp_assign q)) = length (a_parts (lp_assign q))) by (unfold labels, dkeys; apply map_length).
      split; [|rewrite El; exact B3]. intro A. apply B2. rewrite <- El, A. reflexivity.
  Qed.

  (** ** Theorems *)
  Variable plans : nat -> lplan N P L.
  Notation read_all := (read_all none str alpha plans).
  Notation read_plan := (read_plan none str alpha plans).
  Notation start names := (mkReads (new_splits names) []).

  Lemma call_allowed i0 o j : (bound none plans i0 o \/ (so_locs o = None /\ j = i0)) ->
    so_allowed (snd (call o (plans j))) = so_allowed o \/
    (so_allowed o = [] /\ pieces_of (plans i0) (plans j) (so_allowed (snd (call o (plans j))))).
  Proof.
    intro Hb. unfold M_Locality.call.
    assert (E : match so_locs o with None => (locality_dict none (plans j), set_of (dvals (locality_dict none (plans j)))) | Some locs => (so_dict o, locs) end
                = (locality_dict none (plans i0), set_of (dvals (locality_dict none (plans i0))))).
    { destruct Hb as [[B1 B2]|[B1 ->]]; [rewrite B2, B1; reflexivity|now rewrite B1]. }
    rewrite E. destruct (locality_splits _ (plans j)) as [sp|e|]; cbn [bind]; [|now left|now left].
    destruct (so_allowed o) as [|x r] eqn:Ea.
    - destruct (allowed_pieces _ (plans j)) as [al|e|] eqn:Eal; cbn [bind]; [|now left|now left].
      right. split; [reflexivity|]. destruct (fill _ _) as [y sc]. cbn [snd so_allowed]. now apply allowed_spec.
    - left. cbn [bind]. destruct (fill _ _) as [y sc]. reflexivity.
  Qed.
  Lemma read_allowed i0 w j : (bound none plans i0 (w_obj w) \/ (so_locs (w_obj w) = None /\ j = i0)) ->
    so_allowed (w_obj (snd (read_plan w j))) = so_allowed (w_obj w) \/
    (so_allowed (w_obj w) = [] /\ pieces_of (plans i0) (plans j) (so_allowed (w_obj (snd (read_plan w j))))).
  Proof.
    intro Hb. unfold M_Locality.read_plan. destruct (mem j (w_done w)); [now left|]. destruct (call_allowed i0 (w_obj w) j Hb) as [C|C];
      destruct (call (w_obj w) (plans j)) as [[[]|e|] o]; cbn [snd w_obj] in *; auto.
  Qed.

  (** Whatever is read, and also after reads that raised: the numbers are those
      of one plan that was read, for the localities of the very first. *)
  Theorem C122_pieces : forall names i0 l, let al := so_allowed (w_obj (read_all (start names) (i0 :: l))) in
    al = [] \/ exists j, In j (i0 :: l) /\ pieces_of (plans i0) (plans j) al.
  Proof.
    intros names i0 l al. unfold al. clear al. induction l as [|j l IH] using rev_ind.
    - unfold M_Locality.read_all. cbn [fold_left]. destruct (read_allowed i0 (start names) i0) as [C|[_ C]]; [right; split; reflexivity| |right; exists i0; split; [now left|exact C]].
      left. rewrite C. reflexivity.
    - assert (E : read_all (start names) (i0 :: l ++ [j]) = snd (read_plan (read_all (start names) (i0 :: l)) j)).
      { unfold M_Locality.read_all. rewrite app_comm_cons, fold_left_app. reflexivity. }
      rewrite E. destruct (all_inv none str alpha plans i0 names l) as (B & _). set (w := read_all _ _) in *.
      destruct (read_allowed i0 w j (or_introl B)) as [C|[_ C]].
      + rewrite C. destruct IH as [A|(j' & A & A')]; [now left|]. right. exists j'. split; [|exact A']. rewrite app_comm_cons, in_app_iff. now left.
      + right. exists j. split; [|exact C]. rewrite app_comm_cons, in_app_iff. right. now left.
  Qed.
  (** Once there, they are never computed again, not even for a plan with
      another number of districts. *)
  Theorem C122_once : forall names i0 l l', let al := so_allowed (w_obj (read_all (start names) (i0 :: l))) in
    al <> [] -> so_allowed (w_obj (read_all (start names) (i0 :: l ++ l'))) = al.
  Proof.
    intros names i0 l l' al Hal. unfold al in *. clear al. induction l' as [|j l' IH] using rev_ind; [now rewrite app_nil_r|].
    assert (E : read_all (start names) (i0 :: l ++ l' ++ [j]) = snd (read_plan (read_all (start names) (i0 :: l ++ l')) j)).
    { unfold M_Locality.read_all. rewrite (app_assoc l), (app_comm_cons (l ++ l')), fold_left_app. reflexivity. }
    rewrite E. destruct (all_inv none str alpha plans i0 names (l ++ l')) as (B & _). set (w := read_all _ (i0 :: l ++ l')) in *.
    destruct (read_allowed i0 w j (or_introl B)) as [C|[C _]]; congruence.
  Qed.
End Allowed.

Section Needs.
  Context {N P L : Type} {EN : EqB N} {EP : EqB P} {EL : EqB L} {ON : Ord N}.
  Variable none : L.
  Variable str : L -> L.
  Variable alpha : R.
  Variable q : lplan N P L.
  Variable loc : N -> L.
  Notation call := (call none str alpha).

  (** The first read of any score, even one that has nothing to do with people:
      it raises KeyError if a node has no population, and ZeroDivisionError if
      the graph has nodes and no people; otherwise the numbers are there. *)
  Theorem C122_first : forall names, scored q loc -> g_nodes (lp_graph q) <> [] ->
    ((exists n, In n (g_nodes (lp_graph q)) /\ lp_pop q n = None) -> fst (call (new_splits names) q) = Err KeyError) /\
    (forall pop, (forall n, In n (g_nodes (lp_graph q)) -> lp_pop q n = Some (pop n)) ->
       (people pop (g_nodes (lp_graph q)) = 0%Z -> fst (call (new_splits names) q) = Err ZeroDivisionError) /\
       (people pop (g_nodes (lp_graph q)) <> 0%Z -> so_allowed (snd (call (new_splits names) q)) <> [])).
  Proof.
    intros names Sc Hne. unfold M_Locality.call. cbn [new_splits so_locs so_allowed].
    destruct (splits_ok none q loc Sc) as (sp & Esp & _). rewrite Esp. cbn [bind].
    set (ns := g_nodes (lp_graph q)) in *. set (locs := set_of _).
    assert (Hl : locs <> []).
    { intro A. destruct ns as [|n r] eqn:En; [contradiction|]. assert (In (match lp_loc q n with Some l => l | None => none end) locs).
      { unfold locs. rewrite In_set_of. unfold dvals, locality_dict. rewrite map_map. apply in_map_iff. exists n. split; [reflexivity|]. fold ns. rewrite En. now left. }
      rewrite A in H. destruct H. }
    split.
    - intros (n & Hn & Hp). unfold allowed_pieces. fold ns.
      assert (E : mapM (fun n => of_option KeyError (lp_pop q n)) ns = Err KeyError).
      { clear - Hn Hp. induction ns as [|n0 r IH]; [destruct Hn|]. cbn [mapM]. destruct (lp_pop q n0) as [z|] eqn:E0; [|reflexivity]. destruct Hn as [->|Hn]; [congruence|]. cbn [of_option bind]. now rewrite (IH Hn). }
      rewrite E. reflexivity.
    - intros pop Hpop.
      assert (E : allowed_pieces locs q = mapM (fun l =>
        share <- qdiv (inject_Z (people pop ns)) (inject_Z (Z.of_nat (length (a_parts (lp_assign q))))) ;;
        x <- qdiv (inject_Z (people pop (filter (fun n => eqb (loc n) l) ns))) share ;; Ok (l, Qceiling x)) locs).
      { unfold allowed_pieces. fold ns. rewrite (mapM_all_Ok _ pop) by (intros n Hn; now rewrite Hpop). cbn [bind].
        clear - Sc Hpop EL. induction locs as [|l r IH]; [reflexivity|]. cbn [mapM]. rewrite IH. clear IH.
        rewrite (mapM_all_Ok _ (fun n => (n, loc n))) by (intros n Hn; now rewrite (sc_loc q loc Sc n Hn)). cbn [bind].
        rewrite (mapM_all_Ok _ (fun nl => pop (fst nl))).
        2: { intros [n y] Hn. apply filter_In in Hn. destruct Hn as [Hn _]. apply in_map_iff in Hn. destruct Hn as (n' & [= -> _] & Hn). cbn [fst]. now rewrite Hpop. }
        cbn [bind]. rewrite !fold_people, !Z.add_0_l.
        assert (Ef : map (fun nl : N * L => pop (fst nl)) (filter (fun nl => eqb (snd nl) l) (map (fun n => (n, loc n)) ns)) = map pop (filter (fun n => eqb (loc n) l) ns)).
        { clear. induction ns as [|n ns IH]; [reflexivity|]. cbn [map filter snd]. destruct (eqb (loc n) l); cbn [map fst]; now rewrite IH. }
        rewrite Ef. reflexivity. }
      rewrite E. destruct locs as [|l r] eqn:El; [contradiction|]. cbn [mapM].
      assert (Hm : length (a_parts (lp_assign q)) <> 0).
      { destruct ns as [|n ns'] eqn:En; [contradiction|]. destruct (sc_coh q loc Sc) as [C1 C2 C3 C4 C5].
        assert (In n (dkeys (a_map (lp_assign q)))) as Hin by (apply C3; fold ns; rewrite En; now left).
        apply dget_key in Hin. destruct Hin as [p Hp]. apply C4 in Hp. destruct Hp as (s & As & _). destruct (a_parts (lp_assign q)); [discriminate As|discriminate]. }
      assert (Em : Qeq_bool (inject_Z (Z.of_nat (length (a_parts (lp_assign q))))) 0 = false).
      { destruct (Qeq_bool _ 0) eqn:Ez; [|reflexivity]. apply Qeq_bool_iff in Ez. unfold Qeq in Ez. cbn in Ez. lia. }
      split.
      + intro T0. rewrite T0. unfold qdiv at 1. rewrite Em. cbn [bind]. unfold qdiv.
        assert (Es : Qeq_bool (inject_Z 0 / inject_Z (Z.of_nat (length (a_parts (lp_assign q))))) 0 = true) by (apply Qeq_bool_iff; unfold Qdiv; apply Qmult_0_l).
        rewrite Es. reflexivity.
      + intro T0.
        assert (Hq : forall l0, exists y, (share <- qdiv (inject_Z (people pop ns)) (inject_Z (Z.of_nat (length (a_parts (lp_assign q))))) ;;
          x <- qdiv (inject_Z (people pop (filter (fun n => eqb (loc n) l0) ns))) share ;; Ok (l0, Qceiling x)) = Ok y).
        { intro l0. unfold qdiv at 1. rewrite Em. cbn [bind]. unfold qdiv.
          assert (Es : Qeq_bool (inject_Z (people pop ns) / inject_Z (Z.of_nat (length (a_parts (lp_assign q))))) 0 = false).
          { destruct (Qeq_bool (inject_Z (people pop ns) / inject_Z (Z.of_nat (length (a_parts (lp_assign q))))) 0) eqn:Ez; [|reflexivity]. apply Qeq_bool_iff in Ez. exfalso. apply T0.
            assert (Hz : (inject_Z (people pop ns) == 0)%Q).
            { rewrite <- (Qmult_div_r (inject_Z (people pop ns)) (inject_Z (Z.of_nat (length (a_parts (lp_assign q)))))) by (apply Qeq_bool_neq; exact Em). rewrite Ez. apply Qmult_0_r. }
            unfold Qeq in Hz. cbn in Hz. lia. }
          rewrite Es. eexists. reflexivity. }
        destruct (Hq l) as [y ->]. cbn [bind].
        destruct (mapM_progress (fun l => share <- qdiv (inject_Z (people pop ns)) (inject_Z (Z.of_nat (length (a_parts (lp_assign q))))) ;;
          x <- qdiv (inject_Z (people pop (filter (fun n => eqb (loc n) l) ns))) share ;; Ok (l, Qceiling x)) r (fun l0 _ => Hq l0)) as [ys ->].
        cbn [bind]. destruct (fill _ _) as [z sc]. discriminate.
  Qed.
End Needs.

(** ** Concrete cases *)

(** Plans of three nodes: two districts, one district with another locality,
    and a plan whose graph has no people. *)
Definition budget_plans (i : nat) : lplan nat nat nat :=
  match i with
  | 0 => row3_plan (fun n => Nat.div2 n)
  | 1 => mkLplan row3 (fun n => Some 7) (fun _ => Some 1%Z) (plan_of row3 [(0, 1); (1, 1); (2, 1)]) []
  | _ => mkLplan row3 (fun n => Some (Nat.div2 n)) (fun _ => Some 0%Z) (plan_of row3 [(0, 1); (1, 1); (2, 2)]) [(1, 2)]
  end.
Notation budget l := (so_allowed (w_obj (read_all 0 (fun x => x) 0%R budget_plans (mkReads (new_splits [NumParts]) []) l))).
(** The locality of two nodes may be split in two, the other may not; the plan
    without people leaves nothing behind, and the later plan changes nothing. *)
Example C122_nonvacuous : budget [0] = [(0, 2%Z); (1, 1%Z)] /\ budget [0; 1] = budget [0] /\ budget [2] = [] /\ budget [2; 0] = budget [0] /\
  fst (read_plan 0 (fun x => x) 0%R budget_plans (mkReads (new_splits [NumParts]) []) 2) = Err ZeroDivisionError.
Proof. repeat split; reflexivity. Qed.
Example C122_hypotheses : scored (budget_plans 0) (fun n => Nat.div2 n) /\ g_nodes (lp_graph (budget_plans 0)) <> [] /\ people (fun _ : nat => 1%Z) (g_nodes (lp_graph (budget_plans 0))) = 3%Z.
Proof. split; [apply row3_scored|]. split; [discriminate|reflexivity]. Qed.
(** The numbers are not those of the plan that is read: one district of three
    nodes could hold every locality, yet two pieces are allowed. *)
Theorem C122_current_plan_refuted : exists l k, In (l, k) (budget [0; 1]) /\
  ~ least_districts (people (fun _ : nat => 1%Z) (g_nodes (lp_graph (budget_plans 1)))) (people (fun _ : nat => 1%Z) [0; 1]) (length (labels (lp_assign (budget_plans 1)))) k.
Proof. exists 0, 2%Z. split; [left; reflexivity|]. intro A. unfold least_districts, people in A. cbn in A. lia. Qed.

Print Assumptions C122_pieces.
Print Assumptions C122_once.
Print Assumptions C122_first.
Print Assumptions C122_current_plan_refuted.
