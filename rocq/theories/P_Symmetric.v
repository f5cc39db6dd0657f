(** C94: the symmetric entropy score of localities. *)
From Coq Require Import String List Bool Arith ZArith Reals Lra Lia ZifyBool ZifyNat Permutation.
From Verif Require Import Base M_Graph M_Partition S_Partition L_Partition M_Machine S_Machine L_Cuts M_Contiguity S_Contiguity P_Contiguity
  M_Locality L_Locality P_Locality P_Entropy.
Import ListNotations.
Local Open Scope nat_scope.
Local Open Scope list_scope.

Definition zsum (l : list Z) : Z := fold_right Z.add 0%Z l.
Lemma fold_zsum l : forall a, fold_left Z.add l a = (a + zsum l)%Z.
Proof. unfold zsum. induction l as [|x l IH]; intro a; cbn [fold_left fold_right]; [lia|]. rewrite IH. lia. Qed.
Lemma zsum_perm l l' : Permutation l l' -> zsum l = zsum l'.
Proof. unfold zsum. induction 1; cbn [fold_right]; lia. Qed.
Lemma rsum_perm l l' : Permutation l l' -> rsum l = rsum l'.
Proof. unfold rsum. induction 1; cbn [fold_right]; lra. Qed.
Lemma zsum_nonneg l : (forall x, In x l -> 0 <= x)%Z -> (0 <= zsum l)%Z.
Proof. unfold zsum. induction l as [|x l IH]; intro H; cbn [fold_right]; [lia|]. assert (0 <= x)%Z by (apply H; now left). assert (0 <= fold_right Z.add 0 l)%Z by (apply IH; intros; apply H; now right). lia. Qed.
Lemma zsum_ge l x : (forall x, In x l -> 0 <= x)%Z -> In x l -> (x <= zsum l)%Z.
Proof.
  unfold zsum. induction l as [|y l IH]; intros H []; cbn [fold_right].
  - subst. assert (0 <= zsum l)%Z by (apply zsum_nonneg; intros; apply H; now right). unfold zsum in *. lia.
  - assert (0 <= y)%Z by (apply H; now left). assert (x <= fold_right Z.add 0 l)%Z by (apply IH; auto; intros; apply H; now right). lia.
Qed.
Lemma IZR_zsum {X} (F : X -> Z) l : IZR (zsum (map F l)) = rsum (map (fun x => IZR (F x)) l).
Proof. unfold zsum, rsum. induction l as [|x l IH]; cbn [map fold_right]; [reflexivity|]. now rewrite plus_IZR, IH. Qed.

(** One side of the score: rows with their totals. *)
Definition side {X Y} (F : X -> Y -> Z) (xs : list X) (ys : list Y) : R :=
  rsum (map (fun x => let T := zsum (map (F x) ys) in (IZR T * rsum (map (fun y => sqrt (IZR (F x y) / IZR T)) ys))%R) xs).
Lemma sqrt_ge x : (0 <= x <= 1)%R -> (x <= sqrt x)%R /\ (sqrt x = x <-> x = 0%R \/ x = 1%R).
Proof.
  intro H. assert (E := sqrt_sqrt x (proj1 H)). assert (P := sqrt_pos x). assert (U : (sqrt x <= 1)%R).
  { destruct (Rle_lt_dec (sqrt x) 1); auto. assert (1 * 1 < sqrt x * sqrt x)%R by (apply Rmult_le_0_lt_compat; lra). lra. }
  split.
  - rewrite <- E at 1. rewrite <- (Rmult_1_r (sqrt x)) at 3. apply Rmult_le_compat_l; auto.
  - split.
    + intro K. rewrite K in E. assert (x * (x - 1) = 0)%R by lra. apply Rmult_integral in H0. destruct H0; [left|right]; lra.
    + intros [-> | ->]; [apply sqrt_0|apply sqrt_1].
Qed.
(** A side is at least the total, with equality when every row has only one
    entry. *)
Lemma side_bound {X Y} (F : X -> Y -> Z) xs ys : (forall x y, In x xs -> In y ys -> (0 <= F x y)%Z) -> (forall x, In x xs -> (0 < zsum (map (F x) ys))%Z) ->
  (IZR (zsum (map (fun x => zsum (map (F x) ys)) xs)) <= side F xs ys)%R /\
  (side F xs ys = IZR (zsum (map (fun x => zsum (map (F x) ys)) xs)) <-> forall x y, In x xs -> In y ys -> F x y = 0%Z \/ F x y = zsum (map (F x) ys)).
Proof.
  intros Hn Hp. rewrite IZR_zsum. unfold side.
  assert (Row : forall x, In x xs -> let T := zsum (map (F x) ys) in
    ((0 <= IZR T * rsum (map (fun y => sqrt (IZR (F x y) / IZR T)) ys) - IZR T)%R /\
     ((IZR T * rsum (map (fun y => sqrt (IZR (F x y) / IZR T)) ys) - IZR T)%R = 0%R <-> forall y, In y ys -> F x y = 0%Z \/ F x y = T))).
  { intros x Hx T. assert (HT : (0 < IZR T)%R) by (apply (IZR_lt 0); now apply Hp).
    assert (Sh : forall y, In y ys -> (0 <= IZR (F x y) / IZR T <= 1)%R).
    { intros y Hy. assert (0 <= IZR (F x y))%R by (apply (IZR_le 0); auto). assert (IZR (F x y) <= IZR T)%R.
      { apply IZR_le. apply zsum_ge; [|now apply (in_map (F x))]. intros z Hz. apply in_map_iff in Hz. destruct Hz as (y' & <- & Hy'). auto. }
      split; [apply Rmult_le_pos; auto; apply Rlt_le, Rinv_0_lt_compat; auto|]. apply (Rmult_le_reg_r (IZR T)); auto. unfold Rdiv. rewrite Rmult_assoc, Rinv_l by lra. lra. }
    assert (E1 : (IZR T * rsum (map (fun y => sqrt (IZR (F x y) / IZR T)) ys) - IZR T = IZR T * rsum (map (fun y => sqrt (IZR (F x y) / IZR T) - IZR (F x y) / IZR T) ys))%R).
    { rewrite <- rsum_minus. assert (rsum (map (fun y => IZR (F x y) / IZR T) ys) = 1)%R; [|rewrite H; lra].
      transitivity (/ IZR T * rsum (map (fun y => IZR (F x y)) ys))%R.
      - rewrite rsum_scale. apply rsum_ext. intros y _. unfold Rdiv. apply Rmult_comm.
      - rewrite <- IZR_zsum. apply Rinv_l. fold T. lra. }
    rewrite E1. assert (Nn : forall y, In y ys -> (0 <= sqrt (IZR (F x y) / IZR T) - IZR (F x y) / IZR T)%R) by (intros y Hy; destruct (sqrt_ge _ (Sh y Hy)); lra).
    split; [apply Rmult_le_pos; [lra|now apply rsum_nonneg]|].
    transitivity (rsum (map (fun y => sqrt (IZR (F x y) / IZR T) - IZR (F x y) / IZR T)%R ys) = 0%R).
    { split; intro H; [apply Rmult_integral in H; destruct H; [lra|auto]|rewrite H; lra]. }
    rewrite rsum_zero by exact Nn. split; intros H y Hy; specialize (H y Hy); destruct (sqrt_ge _ (Sh y Hy)) as [_ K].
    - assert (K1 : sqrt (IZR (F x y) / IZR T) = (IZR (F x y) / IZR T)%R) by lra. apply K in K1.
      assert (E2 : (IZR (F x y) = IZR (F x y) / IZR T * IZR T)%R) by (unfold Rdiv; rewrite Rmult_assoc, Rinv_l by lra; lra).
      destruct K1 as [K1|K1]; rewrite K1 in E2; [left|right]; apply eq_IZR; lra.
    - assert (K1 : sqrt (IZR (F x y) / IZR T) = (IZR (F x y) / IZR T)%R); [|lra]. apply K. destruct H as [H|H]; rewrite H; [left; unfold Rdiv; lra|right; unfold Rdiv; apply Rinv_r; lra]. }
  split.
  - assert (0 <= rsum (map (fun x => IZR (zsum (map (F x) ys)) * rsum (map (fun y => sqrt (IZR (F x y) / IZR (zsum (map (F x) ys)))) ys)) xs) - rsum (map (fun x => IZR (zsum (map (F x) ys))) xs))%R; [|cbv zeta; lra].
    rewrite rsum_minus. apply rsum_nonneg. intros x Hx. apply (Row x Hx).
  - transitivity (rsum (map (fun x => (IZR (zsum (map (F x) ys)) * rsum (map (fun y => sqrt (IZR (F x y) / IZR (zsum (map (F x) ys)))) ys)) - IZR (zsum (map (F x) ys)))%R xs) = 0%R).
    { rewrite <- rsum_minus. cbv zeta. split; intro; lra. }
    rewrite rsum_zero by (intros x Hx; apply (Row x Hx)). split.
    + intros H x y Hx Hy. apply (proj2 (Row x Hx)); auto.
    + intros H x Hx. apply (proj2 (Row x Hx)). auto.
Qed.

Section Symmetric.
  Context {N P L : Type} {EN : EqB N} {EP : EqB P} {EL : EqB L} {ON : Ord N}.
  Variable none : L.
  Variable q : lplan N P L.
  Variable loc : N -> L.
  Variable pop : N -> Z.
  Notation g := (lp_graph q).
  Notation A := (lp_assign q).
  Notation localities := (localities q loc).

  (** ** Specification: the people of locality [l] in district [p]. *)
  Definition people (p : P) (l : L) : Z := zsum (map pop (filter (fun n => eqb (district A n) (Some p) && eqb (loc n) l) (g_nodes g))).
  Definition district_people (p : P) : Z := zsum (map (people p) localities).
  Definition locality_people (l : L) : Z := zsum (map (fun p => people p l) (labels A)).
  Definition symmetric : R := (side people (labels A) localities + side (fun l p => people p l) localities (labels A))%R.

  Hypothesis Sc : scored q loc.
  Hypothesis Pop : forall n, In n (g_nodes g) -> lp_pop q n = Some (pop n).
  Hypothesis Pos : forall n, In n (g_nodes g) -> (0 <= pop n)%Z.

  (** ** Lemmas *)
  Lemma pops_fold s : incl s (g_nodes g) -> forall d, (forall n, In n s -> In (loc n) (dkeys d)) ->
    exists d', foldM (fun d v => l <- of_option KeyError (dget (locality_dict none q) v) ;; old <- of_option KeyError (dget d l) ;;
        x <- of_option KeyError (lp_pop q v) ;; Ok (dset d l (old + x)%Z)) s d = Ok d' /\ dkeys d' = dkeys d /\
      forall l, In l (dkeys d) -> dget d' l = Some (dget_or 0%Z d l + zsum (map pop (filter (fun n => eqb (loc n) l) s)))%Z.
  Proof.
    induction s as [|n s IH]; intros I d Hk; cbn [foldM].
    - exists d. split; [reflexivity|]. split; [reflexivity|]. intros l Hl. cbn. unfold dget_or. apply dget_key in Hl. destruct Hl as [v ->]. f_equal. lia.
    - assert (Hn : In n (g_nodes g)) by (apply I; now left). rewrite (dget_locality_dict none q loc Sc n Hn). cbn [of_option bind].
      assert (Hln := Hk n (or_introl eq_refl)). assert (Hln' := Hln). apply dget_key in Hln'. destruct Hln' as [old Eo]. rewrite Eo. cbn [of_option bind]. rewrite (Pop n Hn). cbn [of_option bind].
      assert (Kd : dkeys (dset d (loc n) (old + pop n)%Z) = dkeys d) by now apply dkeys_dset_mem.
      destruct (IH (fun x Hx => I x (or_intror Hx)) (dset d (loc n) (old + pop n)%Z)) as (d' & E' & K' & H').
      { intros m Hm. rewrite Kd. apply Hk. now right. }
      exists d'. split; [exact E'|]. split; [congruence|]. intros l Hl. rewrite H' by (rewrite Kd; auto). unfold dget_or. rewrite dget_dset. cbn [filter].
      destruct (eqb_spec l (loc n)) as [->|Hne].
      + rewrite eqb_refl. cbn [map zsum fold_right]. rewrite Eo. f_equal. unfold zsum. lia.
      + destruct (eqb_spec (loc n) l); [congruence|]. reflexivity.
  Qed.
  Lemma dict_is {K V} {EK : EqB K} (d : dict K V) ks (F : K -> V) : NoDup ks -> dkeys d = ks -> (forall k, In k ks -> dget d k = Some (F k)) -> d = map (fun k => (k, F k)) ks.
  Proof.
    revert ks. induction d as [|[k v] d IH]; intros ks Nd Kk H; cbn in Kk; subst ks; [reflexivity|]. cbn [map]. inversion Nd; subst. f_equal.
    - specialize (H k (or_introl eq_refl)). cbn in H. rewrite eqb_refl in H. congruence.
    - apply IH; auto. intros k' Hk'. specialize (H k' (or_intror Hk')). cbn in H. destruct (eqb_spec k' k); [congruence|auto].
  Qed.
  Lemma populations_ok : district_populations (locality_dict none q) localities q = Ok (map (fun p => (p, map (fun l => (l, people p l)) localities)) (labels A)).
  Proof.
    unfold district_populations. assert (Nl : NoDup localities) by apply NoDup_set_of.
    rewrite (mapM_all_Ok _ (fun ps => (fst ps, map (fun l => (l, people (fst ps) l)) localities))).
    - f_equal. unfold labels, dkeys. rewrite map_map. reflexivity.
    - intros [p s] Hin. cbn [fst snd]. apply (part_In q loc Sc) in Hin.
      assert (Is : incl s (g_nodes g)) by (intros n Hn; apply (district_is_node q loc Sc n p); now apply (part_nodes q loc Sc p s n)).
      assert (K0 : dkeys (map (fun l => (l, 0%Z)) localities) = localities) by (unfold dkeys; rewrite map_map; apply map_id).
      destruct (pops_fold s Is (map (fun l => (l, 0%Z)) localities)) as (d' & E' & K' & H').
      { intros n Hn. rewrite K0. unfold P_Entropy.localities. apply In_set_of. now apply in_map, Is. }
      match goal with |- bind ?x _ = _ => assert (E2 : x = Ok d') by exact E' end. rewrite E2. cbn [bind]. rewrite K0 in *. f_equal. f_equal. apply dict_is; auto.
      intros l Hl. rewrite H' by auto. f_equal.
      replace (dget_or 0%Z (map (fun l => (l, 0%Z)) localities) l) with 0%Z.
      + unfold people. rewrite Z.add_0_l. apply zsum_perm. apply Permutation_map. apply NoDup_Permutation.
        * apply NoDup_filter. apply (coh_parts_nodup _ _ (sc_coh q loc Sc) p s Hin).
        * apply NoDup_filter. apply (wfg_nodes _ (sc_wf q loc Sc)).
        * intro n. rewrite !filter_In, (part_nodes q loc Sc p s n Hin), andb_true_iff. split.
          -- intros [H1 H2]. split; [eapply district_is_node; eauto|]. split; auto. rewrite H1. apply eqb_refl.
          -- intros (H1 & H2 & H3). split; auto. now apply eqb_true in H2.
      + unfold dget_or. destruct (dget (map (fun l => (l, 0%Z)) localities) l) eqn:E; auto. apply dget_In in E. apply in_map_iff in E. destruct E as (x & [= _ <-] & _). reflexivity.
  Qed.
  Lemma people_nonneg p l : (0 <= people p l)%Z.
  Proof. unfold people. apply zsum_nonneg. intros x Hx. apply in_map_iff in Hx. destruct Hx as (n & <- & Hn). apply filter_In in Hn. apply Pos. tauto. Qed.

  (** Rows of a dictionary of dictionaries that all have the same columns. *)
  Lemma row_total {X Y} {EX : EqB X} {EY : EqB Y} (row : dict Y Z) (F : Y -> Z) ys : NoDup (dkeys row) -> NoDup ys -> (forall y, dget row y = if mem y ys then Some (F y) else None) -> Permutation (dvals row) (map F ys).
  Proof.
    intros N1 N2 H. assert (K : Permutation (dkeys row) ys).
    { apply NoDup_Permutation; auto. intro y. rewrite dget_key, H, <- mem_In. destruct (mem y ys); split; intro K; eauto; try discriminate. destruct K; discriminate. }
    replace (dvals row) with (map F (dkeys row)); [now apply Permutation_map|]. unfold dkeys, dvals. rewrite map_map. apply map_ext_in. intros [y z] Hin. cbn.
    apply In_dget in Hin; auto. rewrite H in Hin. destruct (mem y ys); congruence.
  Qed.
  Lemma row_ok (cs : list Z) T : (forall c, In c cs -> (0 <= c)%Z) -> (0 < T)%Z -> foldM (fun f c => r <- sqrt_ratio c T ;; Ok (f + r)%R) cs 0%R = Ok (rsum (map (fun c => sqrt (IZR c / IZR T)) cs)).
  Proof.
    intros Hc HT. rewrite (foldM_rsum _ (fun c => sqrt (IZR c / IZR T))).
    - f_equal. apply Rplus_0_l.
    - intros a c Hin. unfold sqrt_ratio, zratio. destruct (Z.eqb_spec T 0); [lia|]. cbn [bind]. specialize (Hc c Hin). destruct (Z.ltb_spec (c * T) 0); [nia|]. reflexivity.
  Qed.
  Lemma score_ok {X Y} {EX : EqB X} {EY : EqB Y} (d : dict X (dict Y Z)) (F : X -> Y -> Z) xs ys start : NoDup ys ->
    (forall x y, (0 <= F x y)%Z) -> (forall x, In x xs -> (0 < zsum (map (F x) ys))%Z) -> Permutation (dkeys d) xs ->
    (forall x row, In (x, row) d -> NoDup (dkeys row) /\ forall y, dget row y = if mem y ys then Some (F x y) else None) ->
    sqrt_score d start = Ok (start + side F xs ys)%R.
  Proof.
    intros Ny Hn Hp Hk Hd. unfold sqrt_score. rewrite (foldM_rsum _ (fun kv => let T := zsum (map (F (fst kv)) ys) in (IZR T * rsum (map (fun y => sqrt (IZR (F (fst kv) y) / IZR T)) ys))%R)).
    - f_equal. f_equal. unfold side. apply rsum_perm. rewrite <- (map_map fst (fun x => let T := zsum (map (F x) ys) in (IZR T * rsum (map (fun y => sqrt (IZR (F x y) / IZR T)) ys))%R)). now apply Permutation_map.
    - intros a [x row] Hin. cbn [fst snd]. destruct (Hd x row Hin) as [N1 H1]. assert (Pm := row_total row (F x) ys N1 Ny H1).
      rewrite fold_zsum, Z.add_0_l, (zsum_perm _ _ Pm). assert (Hx : In x xs) by (apply (Permutation_in _ Hk); apply (in_map fst) in Hin; exact Hin).
      rewrite row_ok; [|intros c Hc; apply (Permutation_in _ Pm) in Hc; apply in_map_iff in Hc; destruct Hc as (y & <- & _); auto|now apply Hp].
      cbn [bind]. f_equal. f_equal. f_equal. rewrite (rsum_perm _ _ (Permutation_map _ Pm)), map_map. reflexivity.
  Qed.
  Lemma dget_map_keys {X Y} {EX : EqB X} (F : X -> Y) xs x : dget (map (fun x => (x, F x)) xs) x = if mem x xs then Some (F x) else None.
  Proof. induction xs as [|y xs IH]; [reflexivity|]. cbn. destruct (eqb_spec x y) as [->|]; auto. Qed.
  Lemma keys_map_keys {X Y} (F : X -> Y) xs : dkeys (map (fun x => (x, F x)) xs) = xs.
  Proof. unfold dkeys. rewrite map_map. apply map_id. Qed.
  Notation table := (map (fun p => (p, map (fun l => (l, people p l)) localities)) (labels A)).
  Lemma inverted : (labels A <> [] \/ localities = []) -> neat (invert table) /\ Permutation (dkeys (invert table)) localities /\
    forall l row, In (l, row) (invert table) -> NoDup (dkeys row) /\ forall p, dget row p = if mem p (labels A) then Some (people p l) else None.
  Proof.
    intro Hne. assert (Nl : NoDup localities) by apply NoDup_set_of. assert (Na : NoDup (labels A)) by apply (coh_part_keys _ _ (sc_coh q loc Sc)).
    destruct (invert_spec table) as [Hn Hg].
    { now rewrite keys_map_keys. } { intros p c. rewrite dget_map_keys. destruct (mem p (labels A)); [intros [= <-]; now rewrite keys_map_keys|discriminate]. }
    assert (Hg' : forall l p, get2 (invert table) l p = if mem p (labels A) then if mem l localities then Some (people p l) else None else None).
    { intros l p. rewrite Hg. unfold get2. rewrite dget_map_keys. destruct (mem p (labels A)); auto. apply dget_map_keys. }
    split; [exact Hn|]. destruct Hn as [N1 N2].
    assert (Ke : forall l, In l (dkeys (invert table)) <-> In l localities).
    { intro l. split.
      - intro Hl. apply dget_key in Hl. destruct Hl as [c Ec]. destruct (N2 l c Ec) as [_ Hc]. destruct c as [|[p z] c]; [contradiction|]. specialize (Hg' l p). unfold get2 in Hg'. rewrite Ec in Hg'. cbn in Hg'.
        rewrite eqb_refl in Hg'. destruct (mem p (labels A)); [|discriminate]. destruct (mem_spec l localities); [auto|discriminate].
      - intro Hl. destruct Hne as [Hne|Hne]; [|rewrite Hne in Hl; contradiction]. destruct (labels A) as [|p ps] eqn:El; [contradiction|]. specialize (Hg' l p). cbn [mem existsb] in Hg'. rewrite eqb_refl in Hg'. cbn [orb] in Hg'.
        fold (mem l localities) in Hg'. apply mem_In in Hl. rewrite Hl in Hg'. unfold get2 in Hg'. destruct (dget (invert _) l) eqn:E; [|discriminate]. eapply dget_Some_key; eauto. }
    split; [now apply NoDup_Permutation|]. intros l row Hin. assert (Hl : In l localities) by (apply Ke; apply (in_map fst) in Hin; exact Hin). apply In_dget in Hin; auto.
    split; [apply (N2 l row Hin)|]. intro p. specialize (Hg' l p). unfold get2 in Hg'. rewrite Hin in Hg'. rewrite Hg'. apply mem_In in Hl. rewrite Hl. reflexivity.
  Qed.

  (** ** Theorems *)

  (** The value of the score. *)
  Theorem C94_symmetric : (forall p, In p (labels A) -> (0 < district_people p)%Z) -> (forall l, In l localities -> (0 < locality_people l)%Z) ->
    symmetric_entropy (locality_dict none q) (set_of (dvals (locality_dict none q))) q = Ok symmetric.
  Proof.
    intros Hd Hl. rewrite (locs_ok none q loc Sc). unfold symmetric_entropy. rewrite populations_ok. cbn [bind].
    assert (Nl : NoDup localities) by apply NoDup_set_of. assert (Na : NoDup (labels A)) by apply (coh_part_keys _ _ (sc_coh q loc Sc)).
    rewrite (score_ok table people (labels A) localities 0%R Nl people_nonneg Hd).
    2:{ rewrite keys_map_keys. apply Permutation_refl. }
    2:{ intros p row Hin. apply in_map_iff in Hin. destruct Hin as (p' & [= <- <-] & Hp). rewrite keys_map_keys. split; [exact Nl|]. intro l. apply dget_map_keys. }
    cbn [bind]. assert (Hne : labels A <> [] \/ localities = []).
    { destruct localities as [|l r] eqn:E; [now right|left]. intro Z. specialize (Hl l (or_introl eq_refl)). unfold locality_people in Hl. rewrite Z in Hl. cbn in Hl. lia. }
    destruct (inverted Hne) as (_ & Pk & Hr). rewrite (score_ok (invert table) (fun l p => people p l) localities (labels A) _ Na); auto.
    - f_equal. unfold symmetric. lra.
    - intros. apply people_nonneg.
  Qed.
  (** It is at least twice the number of people, and equal to it exactly when no
      district has people of two localities and no locality people in two
      districts. *)
  Lemma total_people : zsum (map locality_people localities) = zsum (map district_people (labels A)).
  Proof.
    unfold locality_people, district_people, zsum. generalize localities as ls. generalize (labels A) as ps. intros ps ls.
    assert (Z : forall (F : L -> Z) (G : L -> Z), fold_right Z.add 0%Z (map (fun l => (F l + G l)%Z) ls) = (fold_right Z.add 0%Z (map F ls) + fold_right Z.add 0%Z (map G ls))%Z).
    { intros F G. induction ls as [|l ls IH]; cbn [map fold_right]; lia. }
    induction ps as [|p ps IH]; cbn [map fold_right].
    - clear Z. induction ls as [|l ls IH]; cbn [map fold_right]; [reflexivity|]. rewrite IH. reflexivity.
    - rewrite Z, IH. reflexivity.
  Qed.
  Theorem C94_symmetric_bound : (forall p, In p (labels A) -> (0 < district_people p)%Z) -> (forall l, In l localities -> (0 < locality_people l)%Z) ->
    let total := zsum (map district_people (labels A)) in
    (2 * IZR total <= symmetric)%R /\
    (symmetric = (2 * IZR total)%R <-> forall p l, In p (labels A) -> In l localities -> people p l = 0%Z \/ (people p l = district_people p /\ people p l = locality_people l)).
  Proof.
    intros Hd Hl total. destruct (side_bound people (labels A) localities) as [B1 E1]; [intros; apply people_nonneg|exact Hd|].
    destruct (side_bound (fun l p => people p l) localities (labels A)) as [B2 E2]; [intros; apply people_nonneg|exact Hl|].
    change (zsum (map (fun p => zsum (map (people p) localities)) (labels A))) with total in *.
    assert (T2 : zsum (map (fun l => zsum (map (fun p => people p l) (labels A))) localities) = total) by apply total_people. rewrite T2 in *. unfold symmetric. split; [lra|]. split.
    - intros E p l Hp Hll. assert (K1 : side people (labels A) localities = IZR total) by lra. assert (K2 : side (fun l p => people p l) localities (labels A) = IZR total) by lra.
      destruct (proj1 E1 K1 p l Hp Hll) as [Z|Z]; [now left|]. destruct (proj1 E2 K2 l p Hll Hp) as [Z'|Z']; [now left|]. right. split; auto.
    - intro H. assert (K1 : side people (labels A) localities = IZR total). { apply E1. intros p l Hp Hll. destruct (H p l Hp Hll) as [Z|[Z _]]; auto. }
      assert (K2 : side (fun l p => people p l) localities (labels A) = IZR total). { apply E2. intros l p Hll Hp. destruct (H p l Hp Hll) as [Z|[_ Z]]; auto. } lra.
  Qed.
  (** A district without people makes the score fail. *)
  Lemma row_fails (cs : list Z) : cs <> [] -> foldM (fun f c => r <- sqrt_ratio c 0 ;; Ok (f + r)%R) cs 0%R = Err ZeroDivisionError.
  Proof. destruct cs; [contradiction|]. reflexivity. Qed.
  Theorem C94_symmetric_empty_district : forall p, In p (labels A) -> district_people p = 0%Z -> g_nodes g <> [] ->
    symmetric_entropy (locality_dict none q) (set_of (dvals (locality_dict none q))) q = Err ZeroDivisionError.
  Proof.
    intros p Hp Hz Hne. rewrite (locs_ok none q loc Sc). unfold symmetric_entropy. rewrite populations_ok. cbn [bind].
    assert (Hl : localities <> []).
    { destruct (g_nodes g) as [|n ns] eqn:En; [contradiction|]. intro Z. assert (Hin : In (loc n) localities) by (unfold P_Entropy.localities; apply In_set_of; rewrite En; now left). rewrite Z in Hin. contradiction. }
    assert (G : sqrt_score table 0%R = Err ZeroDivisionError); [|rewrite G; reflexivity].
    unfold sqrt_score. generalize 0%R at 2 as s. clear Sc Pop. induction (labels A) as [|p' ps IH]; [destruct Hp|]. intro s. cbn [map foldM fst snd].
    assert (Ev : dvals (map (fun l => (l, people p' l)) localities) = map (people p') localities) by (unfold dvals; rewrite map_map; reflexivity). rewrite Ev, fold_zsum, Z.add_0_l.
    fold (district_people p'). destruct (Z.eq_dec (district_people p') 0) as [E|E].
    - rewrite E, row_fails; [reflexivity|]. now destruct localities.
    - destruct Hp as [<-|Hp]; [congruence|]. rewrite row_ok.
      + cbn [bind]. apply IH. exact Hp.
      + intros c Hc. apply in_map_iff in Hc. destruct Hc as (l & <- & _). apply people_nonneg.
      + assert (0 <= district_people p')%Z by (unfold district_people; apply zsum_nonneg; intros c Hc; apply in_map_iff in Hc; destruct Hc as (l & <- & _); apply people_nonneg). lia.
  Qed.
End Symmetric.
