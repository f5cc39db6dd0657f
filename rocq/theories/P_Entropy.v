(** C76, C94: the entropy scores of localities. *)
From Coq Require Import String List Bool Arith ZArith Reals Lra Lia ZifyBool ZifyNat Permutation.
From Verif Require Import Base M_Graph M_Partition S_Partition L_Partition M_Machine S_Machine L_Cuts M_Contiguity S_Contiguity P_Contiguity
  M_Locality L_Locality P_Locality.
Import ListNotations.
Local Open Scope nat_scope.
Local Open Scope list_scope.

(** ** Sums of reals *)
Definition rsum (l : list R) : R := fold_right Rplus 0%R l.
Lemma foldM_rsum {X} (f : R -> X -> res R) (F : X -> R) l : (forall a x, In x l -> f a x = Ok (a + F x)%R) -> forall a, foldM f l a = Ok (a + rsum (map F l))%R.
Proof.
  induction l as [|x l IH]; intros H a; cbn [foldM map rsum fold_right].
  - f_equal. lra.
  - rewrite H by now left. cbn [bind]. rewrite IH by (intros b y Hy; apply H; now right). f_equal. unfold rsum. lra.
Qed.
Lemma rsum_ext {X} (F G : X -> R) l : (forall x, In x l -> F x = G x) -> rsum (map F l) = rsum (map G l).
Proof. intro H. f_equal. now apply map_ext_in. Qed.
Lemma rsum_nonneg {X} (F : X -> R) l : (forall x, In x l -> 0 <= F x)%R -> (0 <= rsum (map F l))%R.
Proof.
  induction l as [|x l IH]; intro H; cbn; [lra|]. assert (0 <= F x)%R by (apply H; now left). assert (0 <= rsum (map F l))%R by (apply IH; intros; apply H; now right). unfold rsum in *. lra.
Qed.
Lemma rsum_zero {X} (F : X -> R) l : (forall x, In x l -> 0 <= F x)%R -> (rsum (map F l) = 0%R <-> forall x, In x l -> F x = 0%R).
Proof.
  induction l as [|x l IH]; intro H; cbn; [split; [intros _ x []|auto]|].
  assert (Hx : (0 <= F x)%R) by (apply H; now left). assert (Hl : (0 <= rsum (map F l))%R) by (apply rsum_nonneg; intros; apply H; now right).
  assert (IH' := IH (fun y Hy => H y (or_intror Hy))). unfold rsum in *. split.
  - intros E y [<-|Hy]; [lra|]. apply IH'; auto. lra.
  - intro Z. rewrite (Z x) by now left. assert (fold_right Rplus 0 (map F l) = 0)%R by (apply IH'; intros y Hy; apply Z; now right). lra.
Qed.
Lemma rsum_minus {X} (F G : X -> R) l : (rsum (map F l) - rsum (map G l) = rsum (map (fun x => F x - G x) l))%R.
Proof. unfold rsum. induction l as [|x l IH]; cbn; [lra|]. rewrite <- IH. lra. Qed.
Lemma rsum_plus {X} (F G : X -> R) l : (rsum (map F l) + rsum (map G l) = rsum (map (fun x => F x + G x) l))%R.
Proof. unfold rsum. induction l as [|x l IH]; cbn; [lra|]. rewrite <- IH. lra. Qed.
Lemma rsum_scale {X} (F : X -> R) k l : (k * rsum (map F l) = rsum (map (fun x => k * F x) l))%R.
Proof. unfold rsum. induction l as [|x l IH]; cbn; [lra|]. rewrite <- IH. lra. Qed.
Lemma rsum_INR {X} (F : X -> nat) l : rsum (map (fun x => INR (F x)) l) = INR (list_sum (map F l)).
Proof. unfold rsum. induction l as [|x l IH]; cbn [map fold_right list_sum]; [reflexivity|]. rewrite IH, <- plus_INR. reflexivity. Qed.

Section Entropy.
  Context {N P L : Type} {EN : EqB N} {EP : EqB P} {EL : EqB L} {ON : Ord N}.
  Variable none : L.
  Variable str : L -> L.
  Variable q : lplan N P L.
  Variable loc : N -> L.
  Notation g := (lp_graph q).
  Notation A := (lp_assign q).

  (** ** Specification *)

  (** The localities of the plan, the number of nodes of a locality, and of a
      locality in a district. *)
  Definition localities : list L := set_of (map loc (g_nodes g)).
  Definition size (l : L) : nat := length (filter (fun n => eqb (loc n) l) (g_nodes g)).
  Definition inter (l : L) (p : P) : nat := length (filter (fun n => eqb (loc n) l && eqb (district A n) (Some p)) (g_nodes g)).
  (** Share of the state's nodes in [l]; share of [l]'s nodes in [p]. *)
  Definition weight (l : L) : R := (INR (size l) / INR (length (g_nodes g)))%R.
  Definition share (l : L) (p : P) : R := (INR (inter l p) / INR (size l))%R.
  Definition over_parts (term : R -> R) (l : L) : R := rsum (map (fun p => if Nat.eqb (inter l p) 0 then 0%R else term (share l p)) (labels A)).

  Hypothesis Sc : scored q loc.

  (** ** Counting lemmas *)
  Lemma list_sum_cons {X} (F : X -> nat) x l : list_sum (map F (x :: l)) = F x + list_sum (map F l).
  Proof. reflexivity. Qed.
  Lemma sum_once {X} {EX : EqB X} (x : X) l : NoDup l -> In x l -> list_sum (map (fun y => if eqb y x then 1 else 0) l) = 1.
  Proof.
    assert (Z : forall m, ~ In x m -> list_sum (map (fun y => if eqb y x then 1 else 0) m) = 0).
    { induction m as [|y m IH]; intro Hn; [reflexivity|]. rewrite list_sum_cons. destruct (eqb_spec y x); [exfalso; apply Hn; now left|]. rewrite IH; auto. intro; apply Hn; now right. }
    induction l as [|y l IH]; intros Nd Hin; [destruct Hin|]. inversion Nd; subst. rewrite list_sum_cons. destruct (eqb_spec y x) as [->|Hn].
    - rewrite Z by auto. reflexivity.
    - rewrite IH; auto. destruct Hin; [congruence|auto].
  Qed.
  Lemma sum_districts (f : N -> bool) ns : incl ns (g_nodes g) ->
    list_sum (map (fun p => length (filter (fun n => f n && eqb (district A n) (Some p)) ns)) (labels A)) = length (filter f ns).
  Proof.
    induction ns as [|n ns IH]; intro I.
    - cbn. induction (labels A); cbn; auto.
    - cbn [filter]. assert (IH' := IH (fun x Hx => I x (or_intror Hx))). assert (Hn : In n (g_nodes g)) by (apply I; now left).
      destruct (node_district q loc Sc n Hn) as [p Ep]. destruct (f n) eqn:Ef; cbn [andb]; [|exact IH'].
      transitivity (list_sum (map (fun p' => (if eqb p' p then 1 else 0) + length (filter (fun n => f n && eqb (district A n) (Some p')) ns)) (labels A))).
      + f_equal. apply map_ext. intro p'. rewrite Ep. destruct (eqb_spec (Some p) (Some p')) as [He|Hne]; destruct (eqb_spec p' p); cbn [length]; try congruence; auto.
      + transitivity (list_sum (map (fun p' => if eqb p' p then 1 else 0) (labels A)) + list_sum (map (fun p => length (filter (fun n => f n && eqb (district A n) (Some p)) ns)) (labels A))).
        * clear. induction (labels A) as [|y l IH]; [reflexivity|]. rewrite !list_sum_cons, IH. lia.
        * rewrite IH', sum_once; [reflexivity|apply (coh_part_keys _ _ (sc_coh q loc Sc))|].
          eapply (in_district_label g); [apply Sc|exact Ep].
  Qed.
  Lemma part_perm p s : dget (a_parts A) p = Some s -> Permutation s (filter (fun n => eqb (district A n) (Some p)) (g_nodes g)).
  Proof.
    intro E. apply NoDup_Permutation.
    - apply (coh_parts_nodup _ _ (sc_coh q loc Sc) p s E).
    - apply NoDup_filter. apply (wfg_nodes _ (sc_wf q loc Sc)).
    - intro n. rewrite filter_In, (part_nodes q loc Sc p s n E). split.
      + intro Hd. split; [eapply district_is_node; eauto|]. rewrite Hd. apply eqb_refl.
      + intros [_ H]. now apply eqb_true in H.
  Qed.
  Lemma filter_perm {X} (f : X -> bool) l l' : Permutation l l' -> Permutation (filter f l) (filter f l').
  Proof.
    induction 1; cbn; auto.
    - destruct (f x); auto.
    - destruct (f x), (f y); auto. apply perm_swap.
    - etransitivity; eauto.
  Qed.
  Lemma filter_filter {X} (f h : X -> bool) l : filter f (filter h l) = filter (fun x => f x && h x) l.
  Proof. induction l as [|x l IH]; cbn; auto. destruct (h x); cbn; [rewrite andb_true_r; destruct (f x); now rewrite IH|now rewrite andb_false_r]. Qed.
  Lemma cnt_inter p s l : dget (a_parts A) p = Some s -> cnt l (map loc s) = inter l p.
  Proof.
    intro E. unfold inter. rewrite <- filter_filter, <- (Permutation_length (filter_perm _ _ _ (part_perm p s E))). unfold cnt.
    clear. induction s as [|n s IH]; cbn; auto. destruct (eqb_spec l (loc n)), (eqb_spec (loc n) l); try congruence; cbn; auto.
  Qed.
  Lemma sum_inter l : list_sum (map (inter l) (labels A)) = size l.
  Proof. apply (sum_districts (fun n => eqb (loc n) l) (g_nodes g) (incl_refl _)). Qed.

  (** The counters of the plan. *)
  Definition counters (sp : dict P (dict L nat)) : Prop :=
    sp = map (fun ps => (fst ps, counter (map loc (snd ps)))) (a_parts A).
  Lemma counters_ok : exists sp, locality_splits (locality_dict none q) q = Ok sp /\ counters sp.
  Proof.
    eexists. split; [|reflexivity]. unfold locality_splits. apply mapM_all_Ok. intros [p s] Hin. cbn [fst snd]. apply (part_In q loc Sc) in Hin.
    rewrite (mapM_all_Ok _ loc); [reflexivity|]. intros n Hn. rewrite (dget_locality_dict none q loc Sc); [reflexivity|]. apply (district_is_node q loc Sc n p). now apply (part_nodes q loc Sc p s n).
  Qed.
  Lemma locs_ok : set_of (dvals (locality_dict none q)) = localities.
  Proof.
    unfold localities. f_equal. unfold dvals, locality_dict. rewrite map_map. apply map_ext_in. intros n Hn. cbn. now rewrite (sc_loc q loc Sc n Hn).
  Qed.
  Lemma entry sp p c : counters sp -> In (p, c) sp -> In p (labels A) /\ forall l, dget c l = if Nat.eqb (inter l p) 0 then None else Some (inter l p).
  Proof.
    intros -> Hin. apply in_map_iff in Hin. destruct Hin as ([p' s] & [= <- <-] & Hin). split; [apply (in_map fst) in Hin; exact Hin|].
    apply (part_In q loc Sc) in Hin. intro l. destruct (counter_spec (map loc s)) as [_ H]. rewrite H, (cnt_inter p' s l Hin).
    destruct (mem_spec l (map loc s)) as [Hm|Hm].
    - destruct (Nat.eqb_spec (inter l p') 0) as [Z|]; auto. exfalso. rewrite <- (cnt_inter p' s l Hin) in Z. unfold cnt in Z. apply length_zero_iff_nil in Z.
      assert (In l (filter (eqb l) (map loc s))) by (apply filter_In; split; auto; apply eqb_refl). rewrite Z in *. contradiction.
    - replace (inter l p') with 0; [reflexivity|]. rewrite <- (cnt_inter p' s l Hin). unfold cnt. symmetry. apply length_zero_iff_nil.
      destruct (filter (eqb l) (map loc s)) as [|x r] eqn:Ef; auto. exfalso. assert (Hx : In x (filter (eqb l) (map loc s))) by (rewrite Ef; now left).
      apply filter_In in Hx. destruct Hx as [Hx1 Hx2]. apply eqb_true in Hx2. subst. contradiction.
  Qed.
  Lemma counters_keys sp : counters sp -> map fst sp = labels A.
  Proof. intros ->. unfold labels, dkeys. now rewrite map_map. Qed.
  Lemma fold_sum {X} (f : nat -> X -> nat) (F : X -> nat) l : (forall a x, In x l -> f a x = a + F x) -> forall a, fold_left f l a = a + list_sum (map F l).
  Proof.
    induction l as [|x l IH]; intros H a; cbn [fold_left]; [cbn; lia|]. rewrite H by now left. rewrite IH by (intros b y Hy; apply H; now right). rewrite list_sum_cons. lia.
  Qed.
  Lemma vtds sp l : counters sp -> locality_vtds sp l = size l.
  Proof.
    intro C. unfold locality_vtds. rewrite (fold_sum _ (fun kv => inter l (fst kv))).
    - rewrite <- (map_map fst (inter l)), (counters_keys sp C), sum_inter. reflexivity.
    - intros a [p c] Hin. cbn. rewrite (proj2 (entry sp p c C Hin)). destruct (Nat.eqb_spec (inter l p) 0); lia.
  Qed.
  Lemma sum_dset (c : dict L nat) x : list_sum (dvals (dset c x (S (dget_or 0 c x)))) = S (list_sum (dvals c)).
  Proof.
    unfold dvals, dget_or. induction c as [|[k v] c IH]; [reflexivity|]. cbn [dget dset]. destruct (eqb x k); cbn [map snd list_sum fold_right].
    - unfold list_sum. cbn. reflexivity.
    - unfold list_sum in *. cbn [fold_right]. rewrite IH. lia.
  Qed.
  Lemma sum_counter l : forall c, list_sum (dvals (fold_left (fun c x => dset c x (S (dget_or 0 c x))) l c)) = list_sum (dvals (c : dict L nat)) + length l.
  Proof. induction l as [|x l IH]; intro c; cbn [fold_left length]; [lia|]. rewrite IH, sum_dset. lia. Qed.
  Lemma total sp : counters sp -> total_vtds sp = length (g_nodes g).
  Proof.
    intro C. unfold total_vtds. rewrite (fold_sum _ (fun kv => list_sum (dvals (snd kv)))).
    - rewrite C, map_map. cbn [Nat.add fst snd].
      transitivity (list_sum (map (fun p => length (filter (fun n => true && eqb (district A n) (Some p)) (g_nodes g))) (labels A))).
      + unfold labels, dkeys. rewrite map_map. f_equal. apply map_ext_in. intros [p s] Hin. cbn [fst snd]. unfold counter. rewrite sum_counter. cbn [dvals map list_sum Nat.add fold_right].
        rewrite map_length. apply (part_In q loc Sc) in Hin. rewrite (Permutation_length (part_perm p s Hin)). reflexivity.
      + rewrite (sum_districts (fun _ => true) (g_nodes g) (incl_refl _)). f_equal. clear. induction (g_nodes g); cbn; congruence.
    - intros a [p c] _. cbn [snd]. clear. generalize (dvals c) as l. intro l. revert a. induction l as [|x l IH]; intro a; cbn [fold_left]; [cbn; lia|]. rewrite IH. unfold list_sum. cbn. lia.
  Qed.
  Lemma size_pos l : In l localities -> 0 < size l.
  Proof.
    unfold localities. rewrite In_set_of, in_map_iff. intros (n & <- & Hn). unfold size. assert (In n (filter (fun m => eqb (loc m) (loc n)) (g_nodes g))) by (apply filter_In; split; auto; apply eqb_refl).
    destruct (filter _ (g_nodes g)); [contradiction|cbn; lia].
  Qed.
  Lemma size_le l : size l <= length (g_nodes g).
  Proof. unfold size. induction (g_nodes g) as [|n ns IH]; cbn; auto. destruct (eqb (loc n) l); cbn; lia. Qed.
  Lemma inter_le l p : inter l p <= size l.
  Proof.
    unfold inter, size. induction (g_nodes g) as [|n ns IH]; [cbn; lia|]. cbn [filter]. destruct (eqb (loc n) l); cbn [andb]; [|exact IH].
    destruct (eqb (district A n) (Some p)); cbn [length]; lia.
  Qed.
  Lemma inter_meets l p : 0 < inter l p <-> meets q loc l p.
  Proof.
    unfold inter, meets, within. split.
    - intro H. destruct (filter _ (g_nodes g)) as [|n r] eqn:E; [cbn in H; lia|].
      assert (Hn : In n (n :: r)) by now left. rewrite <- E in Hn. apply filter_In in Hn. destruct Hn as [Hn Hb]. apply andb_true_iff in Hb. destruct Hb as [H1 H2].
      exists n. split; [split; [exact Hn|now apply eqb_true]|now apply eqb_true in H2].
    - intros (n & [Hn Hl] & Hd). assert (Hf : In n (filter (fun n => eqb (loc n) l && eqb (district A n) (Some p)) (g_nodes g))).
      { apply filter_In. split; auto. rewrite Hl, Hd, !eqb_refl. reflexivity. }
      destruct (filter _ (g_nodes g)); [contradiction|cbn; lia].
  Qed.
  Lemma ratio_ok a b : b <> 0 -> ratio a b = Ok (INR a / INR b)%R.
  Proof. intro H. unfold ratio. destruct (Nat.eqb_spec b 0); [contradiction|reflexivity]. Qed.

  (** ** C76 *)
  (** If no locality's str is a locality of the plan, both entropies raise. *)
  Lemma inner_fails term sp l tot : counters sp -> tot <> 0 -> In l localities -> (forall n, In n (g_nodes g) -> loc n <> str l) -> inner_sum str term sp l tot = Err KeyError.
  Proof.
    intros C Ht Hl Hs. unfold inner_sum.
    assert (Hx : exists kv, In kv sp /\ dget (snd kv) l <> None).
    { assert (Hl' := Hl). unfold localities in Hl'. apply (proj1 (In_set_of _ _)) in Hl'. apply in_map_iff in Hl'. destruct Hl' as (n & <- & Hn). destruct (node_district q loc Sc n Hn) as [p Ep].
      assert (Hp : In p (map fst sp)) by (rewrite (counters_keys sp C); eapply (in_district_label g); [apply Sc|exact Ep]). apply in_map_iff in Hp. destruct Hp as ([p' c] & <- & Hin).
      exists (p', c). split; auto. cbn. rewrite (proj2 (entry sp p' c C Hin)). assert (H : 0 < inter (loc n) p') by (apply inter_meets; exists n; split; [split; auto|exact Ep]).
      destruct (Nat.eqb_spec (inter (loc n) p') 0); [lia|discriminate]. }
    assert (Hz : forall kv, In kv sp -> dget (snd kv) (str l) = None).
    { intros [p c] Hin. cbn. rewrite (proj2 (entry sp p c C Hin)). destruct (Nat.eqb_spec (inter (str l) p) 0) as [|Hn]; auto. exfalso.
      assert (Hm : 0 < inter (str l) p) by lia. apply inter_meets in Hm. destruct Hm as (n & [Hn1 Hn2] & _). now apply (Hs n). }
    clear C. revert Hx Hz. generalize 0%R as a. induction sp as [|kv sp IH]; intros a (kv' & Hin & Hne) Hz; [destruct Hin|]. cbn [foldM].
    destruct (dget (snd kv) l) eqn:E.
    - rewrite (Hz kv) by now left. reflexivity.
    - cbn [bind]. apply IH; [|intros x Hx; apply Hz; now right]. destruct Hin as [<-|Hin]; [contradiction|]. exists kv'. auto.
  Qed.
  Theorem C76_non_string : g_nodes g <> [] -> (forall n m, In n (g_nodes g) -> In m (g_nodes g) -> loc n <> str (loc m)) ->
    exists sp, locality_splits (locality_dict none q) q = Ok sp /\
      let locs := set_of (dvals (locality_dict none q)) in
      shannon_entropy str locs sp = Err KeyError /\ forall alpha, power_entropy str alpha locs sp = Err KeyError.
  Proof.
    intros Hne Hs. destruct counters_ok as (sp & Esp & C). exists sp. split; [exact Esp|]. cbn. rewrite locs_ok.
    assert (Hl : exists l r, localities = l :: r).
    { destruct (localities) as [|l r] eqn:E; [|eauto]. exfalso. destruct (g_nodes g) as [|n ns] eqn:En; [contradiction|].
      assert (In (loc n) localities) by (unfold localities; apply In_set_of; rewrite En; now left). rewrite E in *. contradiction. }
    destruct Hl as (l & r & El). assert (Hl : In l localities) by (rewrite El; now left). assert (Hsz := size_pos l Hl). assert (Hle := size_le l).
    assert (Hstr : forall n, In n (g_nodes g) -> loc n <> str l).
    { intros n Hn. unfold localities in Hl. apply (proj1 (In_set_of _ _)) in Hl. apply in_map_iff in Hl. destruct Hl as (m & <- & Hm). now apply Hs. }
    unfold shannon_entropy, power_entropy. rewrite El. cbn [foldM]. rewrite (vtds sp l C), (total sp C). split; [|intro alpha].
    - rewrite ratio_ok by lia. cbn [bind]. rewrite inner_fails; auto. lia.
    - rewrite ratio_ok by lia. cbn [bind]. rewrite inner_fails; auto. lia.
  Qed.

  (** ** C94 *)
  Lemma inner_ok term sp l : counters sp -> In l localities -> str l = l -> inner_sum str term sp l (size l) = Ok (over_parts term l).
  Proof.
    intros C Hl Hs. assert (Hsz := size_pos l Hl). unfold inner_sum, over_parts. rewrite Hs.
    rewrite (foldM_rsum _ (fun kv => if Nat.eqb (inter l (fst kv)) 0 then 0%R else term (share l (fst kv)))).
    - rewrite Rplus_0_l. f_equal. rewrite <- (counters_keys sp C), map_map. reflexivity.
    - intros a [p c] Hin. cbn [fst snd]. rewrite (proj2 (entry sp p c C Hin)). destruct (Nat.eqb_spec (inter l p) 0) as [E|E]; [f_equal; lra|].
      cbn [of_option bind]. rewrite ratio_ok by lia. cbn [bind]. destruct (Nat.eqb_spec (inter l p) 0); [contradiction|]. reflexivity.
  Qed.
  (** With string localities, shannon_entropy is the average entropy of the
      localities' shares, weighted by the number of nodes. *)
  Theorem C94_shannon : (forall l, In l localities -> str l = l) -> exists sp, locality_splits (locality_dict none q) q = Ok sp /\
    shannon_entropy str (set_of (dvals (locality_dict none q))) sp =
      Ok (rsum (map (fun l => weight l * over_parts (fun x => x * ln (1 / x)) l) localities))%R.
  Proof.
    intro Hs. destruct counters_ok as (sp & Esp & C). exists sp. split; [exact Esp|]. rewrite locs_ok. unfold shannon_entropy.
    rewrite (foldM_rsum _ (fun l => weight l * over_parts (fun x => x * ln (1 / x)) l)%R).
    - f_equal. apply Rplus_0_l.
    - intros a l Hl. rewrite (vtds sp l C), (total sp C). assert (Hsz := size_pos l Hl). assert (Hle := size_le l). rewrite ratio_ok by lia. cbn [bind].
      rewrite inner_ok; auto.
  Qed.
  Theorem C94_power : forall alpha, (forall l, In l localities -> str l = l) -> exists sp, locality_splits (locality_dict none q) q = Ok sp /\
    power_entropy str alpha (set_of (dvals (locality_dict none q))) sp =
      Ok (rsum (map (fun l => 1 / weight l * (over_parts (fun x => Rpower x (1 - alpha)) l - 1)) localities))%R.
  Proof.
    intros alpha Hs. destruct counters_ok as (sp & Esp & C). exists sp. split; [exact Esp|]. rewrite locs_ok. unfold power_entropy.
    rewrite (foldM_rsum _ (fun l => 1 / weight l * (over_parts (fun x => Rpower x (1 - alpha)) l - 1))%R).
    - f_equal. apply Rplus_0_l.
    - intros a l Hl. rewrite (vtds sp l C), (total sp C). assert (Hsz := size_pos l Hl). assert (Hle := size_le l). rewrite ratio_ok by lia. cbn [bind].
      rewrite inner_ok; auto. cbn [bind]. destruct (Nat.eqb_spec (size l) 0); [lia|]. reflexivity.
  Qed.

  (** Both are non-negative, and zero exactly when no locality is split. *)
  Lemma share_range l p : In l localities -> inter l p <> 0 -> (0 < share l p <= 1)%R.
  Proof.
    intros Hl Hi. assert (Hsz := size_pos l Hl). assert (Hle := inter_le l p). assert (0 < INR (size l))%R by (apply lt_0_INR; lia). assert (0 < INR (inter l p))%R by (apply lt_0_INR; lia).
    assert (INR (inter l p) <= INR (size l))%R by (apply le_INR; lia). unfold share. split.
    - now apply Rdiv_lt_0_compat.
    - apply (Rmult_le_reg_r (INR (size l))); auto. unfold Rdiv. rewrite Rmult_assoc, Rinv_l, Rmult_1_r by lra. lra.
  Qed.
  Lemma share_one l p : In l localities -> (share l p = 1%R <-> inter l p = size l).
  Proof.
    intro Hl. assert (Hsz := size_pos l Hl). assert (0 < INR (size l))%R by (apply lt_0_INR; lia). unfold share. split; intro E.
    - apply INR_eq. apply (f_equal (fun x => x * INR (size l))%R) in E. unfold Rdiv in E. rewrite Rmult_assoc, Rinv_l in E by lra. lra.
    - rewrite E. unfold Rdiv. apply Rinv_r. lra.
  Qed.
  Lemma sum_share l : In l localities -> rsum (map (share l) (labels A)) = 1%R.
  Proof.
    intro Hl. assert (Hsz := size_pos l Hl). assert (0 < INR (size l))%R by (apply lt_0_INR; lia).
    transitivity (/ INR (size l) * rsum (map (fun p => INR (inter l p)) (labels A)))%R.
    - rewrite rsum_scale. apply rsum_ext. intros p _. unfold share, Rdiv. apply Rmult_comm.
    - rewrite rsum_INR, sum_inter. apply Rinv_l. lra.
  Qed.
  Lemma list_sum_ge {X} (F : X -> nat) l x y : In x l -> In y l -> x <> y -> F x + F y <= list_sum (map F l).
  Proof.
    assert (G : forall l x, In x l -> F x <= list_sum (map F l)).
    { induction l0 as [|z l0 IH]; intros w []; rewrite list_sum_cons; [subst; lia|]. specialize (IH w H). lia. }
    induction l as [|z l IH]; intros H1 H2 Hn; [destruct H1|]. rewrite list_sum_cons. destruct H1 as [->|H1], H2 as [->|H2]; try congruence.
    - specialize (G l y H2). lia.
    - specialize (G l x H1). lia.
    - specialize (IH H1 H2 Hn). lia.
  Qed.
  Lemma whole_or_split l : In l localities -> ((forall p, inter l p <> 0 -> inter l p = size l) <-> ~ split q loc l).
  Proof.
    intro Hl. assert (Hsz := size_pos l Hl). split.
    - intros H (p & p' & Hne & M1 & M2). assert (L1 := meets_label q loc Sc l p M1). assert (L2 := meets_label q loc Sc l p' M2).
      apply inter_meets in M1. apply inter_meets in M2. assert (E1 := H p ltac:(lia)). assert (E2 := H p' ltac:(lia)).
      assert (G := list_sum_ge (inter l) (labels A) p p' L1 L2 Hne). rewrite sum_inter in G. lia.
    - intros H p Hp. rewrite <- sum_inter. assert (Hm : meets q loc l p) by (apply inter_meets; lia). assert (Lp := meets_label q loc Sc l p Hm).
      assert (Z : forall p', p' <> p -> inter l p' = 0).
      { intros p' Hn. destruct (Nat.eq_dec (inter l p') 0); auto. exfalso. apply H. exists p, p'. split; [congruence|]. split; [exact Hm|]. apply inter_meets. lia. }
      assert (Nd : NoDup (labels A)) by apply (coh_part_keys _ _ (sc_coh q loc Sc)). clear - Lp Nd Z EP.
      induction (labels A) as [|x ps IH]; [destruct Lp|]. inversion Nd; subst. rewrite list_sum_cons. destruct Lp as [->|Lp].
      + replace (list_sum (map (inter l) ps)) with 0; [lia|]. clear - Z H1. induction ps as [|y ps IH]; [reflexivity|]. rewrite list_sum_cons, (Z y) by (intros ->; apply H1; now left).
        apply IH. intro Hin. apply H1. now right.
      + rewrite (Z x) by (intros ->; contradiction). apply IH; auto.
  Qed.
  Lemma split_locality l : split q loc l -> In l localities.
  Proof. intros (p & _ & _ & (n & [Hn <-] & _) & _). unfold localities. apply In_set_of. now apply in_map. Qed.
  (** A sum of a term that is at least [base] and only at 1 equal to it. *)
  Lemma over_parts_zero term base l : In l localities -> (forall x, 0 < x <= 1 -> base x <= term x)%R -> (forall x, 0 < x <= 1 -> term x = base x <-> x = 1)%R ->
    (0 <= over_parts term l - over_parts base l)%R /\ ((over_parts term l - over_parts base l)%R = 0%R <-> ~ split q loc l).
  Proof.
    intros Hl Hb He. unfold over_parts. rewrite rsum_minus.
    assert (Nn : forall p, In p (labels A) -> (0 <= (if Nat.eqb (inter l p) 0 then 0 else term (share l p)) - (if Nat.eqb (inter l p) 0 then 0 else base (share l p)))%R).
    { intros p _. destruct (Nat.eqb_spec (inter l p) 0) as [|E]; [lra|]. specialize (Hb _ (share_range l p Hl E)). lra. }
    split; [now apply rsum_nonneg|]. rewrite rsum_zero by exact Nn. rewrite <- whole_or_split by auto. split.
    - intros H p Hp. apply (share_one l p Hl), (He _ (share_range l p Hl Hp)). assert (Hm : meets q loc l p) by (apply inter_meets; lia).
      specialize (H p (meets_label q loc Sc l p Hm)). destruct (Nat.eqb_spec (inter l p) 0); [contradiction|]. lra.
    - intros H p _. destruct (Nat.eqb_spec (inter l p) 0) as [|E]; [lra|]. specialize (H p E). apply (share_one l p Hl), (He _ (share_range l p Hl E)) in H. lra.
  Qed.
  Lemma weight_pos l : In l localities -> (0 < weight l)%R.
  Proof.
    intro Hl. assert (Hsz := size_pos l Hl). assert (Hle := size_le l). unfold weight. apply Rdiv_lt_0_compat; apply lt_0_INR; lia.
  Qed.
  Lemma weighted_zero (F W : L -> R) : (forall l, In l localities -> 0 < W l)%R -> (forall l, In l localities -> (0 <= F l)%R /\ (F l = 0%R <-> ~ split q loc l)) ->
    (0 <= rsum (map (fun l => W l * F l) localities))%R /\ (rsum (map (fun l => W l * F l)%R localities) = 0%R <-> forall l, ~ split q loc l).
  Proof.
    intros HW HF. assert (Nn : forall l, In l localities -> (0 <= W l * F l)%R) by (intros l Hl; apply Rmult_le_pos; [apply Rlt_le, HW|apply HF]; auto).
    split; [now apply rsum_nonneg|]. rewrite rsum_zero by exact Nn. split.
    - intros H l Hsp. assert (Hl := split_locality l Hsp). specialize (H l Hl). apply Rmult_integral in H. specialize (HW l Hl). destruct H as [H|H]; [lra|]. now apply (proj2 (HF l Hl)) in H.
    - intros H l Hl. replace (F l) with 0%R; [lra|]. symmetry. now apply (proj2 (HF l Hl)).
  Qed.
  Theorem C94_shannon_zero : let e := rsum (map (fun l => weight l * over_parts (fun x => x * ln (1 / x)) l)%R localities) in
    (0 <= e)%R /\ (e = 0%R <-> forall l, ~ split q loc l).
  Proof.
    cbv zeta. apply weighted_zero; [exact weight_pos|]. intros l Hl.
    assert (Hln : forall x, (0 < x <= 1)%R -> (0 <= ln (1 / x))%R /\ (ln (1 / x) = 0%R <-> x = 1%R)).
    { intros x Hx. assert (E : (ln (1 / x) = - ln x)%R) by (unfold Rdiv; rewrite Rmult_1_l; apply ln_Rinv; lra). rewrite E. destruct (Rle_lt_or_eq_dec x 1) as [Hlt| ->]; [lra| |].
      - assert (ln x < ln 1)%R by (apply ln_increasing; lra). rewrite ln_1 in *. split; [lra|]. split; intro; lra.
      - rewrite ln_1. split; [lra|]. split; intro; lra. }
    destruct (over_parts_zero (fun x => x * ln (1 / x))%R (fun _ => 0%R) l Hl) as [H1 H2].
    - intros x Hx. destruct (Hln x Hx) as [K _]. apply Rmult_le_pos; lra.
    - intros x Hx. destruct (Hln x Hx) as [_ K]. rewrite <- K. split; intro H; [|rewrite H; lra]. apply Rmult_integral in H. destruct H; [lra|auto].
    - assert (Z : over_parts (fun _ => 0%R) l = 0%R).
      { unfold over_parts. apply rsum_zero; intros p _; destruct (Nat.eqb (inter l p) 0); lra. }
      rewrite Z, Rminus_0_r in *. auto.
  Qed.
  Theorem C94_power_zero : forall alpha, (0 < alpha)%R -> let e := rsum (map (fun l => 1 / weight l * (over_parts (fun x => Rpower x (1 - alpha)) l - 1))%R localities) in
    (0 <= e)%R /\ (e = 0%R <-> forall l, ~ split q loc l).
  Proof.
    intros alpha Ha. cbv zeta. apply weighted_zero.
    - intros l Hl. apply Rdiv_lt_0_compat; [lra|now apply weight_pos].
    - intros l Hl. destruct (over_parts_zero (fun x => Rpower x (1 - alpha)) (fun x => x) l Hl) as [H1 H2].
      + intros x Hx. rewrite <- (exp_ln x) at 1 by lra. unfold Rpower. assert (ln x <= 0)%R.
        { destruct (Rle_lt_or_eq_dec x 1) as [Hlt| ->]; [lra| |rewrite ln_1; lra]. rewrite <- ln_1. apply Rlt_le, ln_increasing; lra. }
        destruct (Rle_lt_or_eq_dec (ln x) ((1 - alpha) * ln x)) as [Hlt|He]; [nra|apply Rlt_le, exp_increasing, Hlt|rewrite <- He; lra].
      + intros x Hx. split; intro H.
        * destruct (Rle_lt_or_eq_dec x 1) as [Hlt|He]; [lra| |exact He]. exfalso. assert (ln x < 0)%R by (rewrite <- ln_1; apply ln_increasing; lra).
          assert (exp (ln x) < Rpower x (1 - alpha))%R by (unfold Rpower; apply exp_increasing; nra). rewrite exp_ln in * by lra. lra.
        * subst x. unfold Rpower. rewrite ln_1, Rmult_0_r. apply exp_0.
      + assert (Z : over_parts (fun x => x) l = 1%R).
        { rewrite <- (sum_share l Hl). unfold over_parts. apply rsum_ext. intros p _. destruct (Nat.eqb_spec (inter l p) 0) as [E|]; auto. unfold share. rewrite E. cbn. lra. }
        rewrite Z in *. auto.
  Qed.
End Entropy.
