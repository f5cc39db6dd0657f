(** The matrix tree theorem for weighted graphs: a minor of the Laplacian is
    the weighted sum over all spanning forests rooted at the removed nodes. *)
From Coq Require Import List Bool Arith ZArith Lia Permutation.
From Verif Require Import Base M_Graph M_Partition S_Partition M_Machine S_Machine L_Partition L_Sums S_Contiguity L_Search M_SpanningCount L_Det.
Import ListNotations.
Local Open Scope Z_scope.

Lemma vsum_total (l : list Z) : vsum l = total l.
Proof. induction l as [|x l IH]; [reflexivity|]. rewrite vsum_cons, IH. reflexivity. Qed.
Lemma total_app a b : total (a ++ b) = total a + total b.
Proof. induction a as [|x a IH]; cbn [app total]; lia. Qed.
Lemma total_perm a b : Permutation a b -> total a = total b.
Proof. induction 1; cbn [total]; lia. Qed.
Lemma total_scale {X} k (f : X -> Z) l : total (map (fun x => k * f x) l) = k * total (map f l).
Proof. induction l as [|x l IH]; cbn [map total]; lia. Qed.
Lemma total_add {X} (f g : X -> Z) l : total (map (fun x => f x + g x) l) = total (map f l) + total (map g l).
Proof. induction l as [|x l IH]; cbn [map total]; lia. Qed.
Lemma total_swap {X Y} (f : X -> Y -> Z) l m : total (map (fun x => total (map (f x) m)) l) = total (map (fun y => total (map (fun x => f x y) l)) m).
Proof.
  induction l as [|x l IH]; cbn [map total].
  - symmetry. now apply total_zero.
  - rewrite IH, <- total_add. reflexivity.
Qed.

Section Tree.
  Context {N : Type} {EN : EqB N}.
  Variable w : N * N -> Z.

  Definition linked (T : list (N * N)) (a b : N) : Prop := In (a, b) T \/ In (b, a) T.
  Definition spans (S U : list N) (T : list (N * N)) : Prop := forall u, In u U -> exists s, In s S /\ reach (linked T) u s.
  (** [T] is a sublist of [E]. *)
  Definition sub (E T : list (N * N)) : Prop := T = filter (fun e => mem e T) E.
  Definition forest (S U : list N) (E T : list (N * N)) : Prop := sub E T /\ spans S U T /\ length T = length U.
  Fixpoint prod (T : list (N * N)) : Z := match T with [] => 1 | e :: r => w e * prod r end.

  Definition inc (e : N * N) (x : N) : Z := (if eqb (fst e) x then 1 else 0) - (if eqb (snd e) x then 1 else 0).
  Definition lap (E : list (N * N)) (u v : N) : Z := total (map (fun e => w e * (inc e u * inc e v)) E).

  Lemma prod_perm a b : Permutation a b -> prod a = prod b.
  Proof. induction 1; cbn [prod]; [reflexivity|now rewrite IHPermutation|ring|congruence]. Qed.
  Lemma sub_incl E T e : sub E T -> In e T -> In e E.
  Proof. intros H He. rewrite H in He. apply filter_In in He. tauto. Qed.
  Lemma sub_NoDup E T : NoDup E -> sub E T -> NoDup T.
  Proof. intros ND ->. now apply NoDup_filter. Qed.
  Lemma sub_nil E : sub E [].
  Proof. unfold sub. induction E; cbn; auto. Qed.
  Lemma sub_filter E (f : N * N -> bool) : sub E (filter f E).
  Proof.
    unfold sub. apply filter_ext_in. intros e He. destruct (f e) eqn:Ef.
    - symmetry. apply mem_In. now apply filter_In.
    - symmetry. destruct (mem_spec e (filter f E)) as [H|H]; [|reflexivity]. apply filter_In in H. destruct H. congruence.
  Qed.
  Lemma sub_ext E T T' : sub E T -> sub E T' -> (forall e, In e T <-> In e T') -> T = T'.
  Proof.
    intros H H' Hi. rewrite H, H'. apply filter_ext_in. intros e _. destruct (mem_spec e T), (mem_spec e T'); try reflexivity; exfalso; rewrite Hi in *; contradiction.
  Qed.

  Section Step.
    Variables (E : list (N * N)) (e : N * N) (S r1 r2 : list N) (v s : N).
    Hypothesis NDE : NoDup E.
    Hypothesis He : In e E.
    Hypothesis Hs : In s S.
    Hypothesis Hend : e = (s, v) \/ e = (v, s).
    Hypothesis Hv : ~ In v (r1 ++ r2).
    Notation E' := (filter (fun x => negb (eqb x e)) E).

    Lemma In_E' x : In x E' <-> In x E /\ x <> e.
    Proof. rewrite filter_In. destruct (eqb_spec x e); cbn; intuition congruence. Qed.
    Lemma NDE' : NoDup E'. Proof. now apply NoDup_filter. Qed.
    Definition ins (T : list (N * N)) : list (N * N) := filter (fun x => mem x (e :: T)) E.
    Lemma In_ins T x : sub E' T -> In x (ins T) <-> x = e \/ In x T.
    Proof.
      intro HT. unfold ins. rewrite filter_In, mem_In. cbn [In]. split.
      - intros [_ [->|H]]; auto.
      - intros [->|H]; [auto|]. split; [|auto]. apply (sub_incl _ _ _ HT) in H. now apply In_E' in H.
    Qed.
    Lemma not_in T : sub E' T -> ~ In e T.
    Proof. intros H Hc. apply (sub_incl _ _ _ H) in Hc. apply In_E' in Hc. now destruct Hc. Qed.
    Lemma ins_perm T : sub E' T -> Permutation (ins T) (e :: T).
    Proof.
      intro H. apply NoDup_Permutation.
      - unfold ins. now apply NoDup_filter.
      - constructor; [now apply not_in|]. eapply sub_NoDup; [apply NDE'|exact H].
      - intro x. rewrite (In_ins T x H). cbn [In]. intuition congruence.
    Qed.
    Lemma sub_without T : sub E T -> ~ In e T -> sub E' T.
    Proof.
      intros H Hn. unfold sub. etransitivity; [exact H|]. clear H He. induction E as [|x l IH]; [reflexivity|]. cbn [filter].
      assert (G : filter (fun e0 => mem e0 T) l = filter (fun e0 => mem e0 T) (filter (fun x0 => negb (eqb x0 e)) l)).
      { clear - Hn. induction l as [|y l IH]; [reflexivity|]. cbn [filter]. destruct (eqb_spec y e) as [->|]; cbn [negb].
        - destruct (mem_spec e T); [contradiction|exact IH].
        - cbn [filter]. destruct (mem y T); [now rewrite IH|exact IH]. }
      destruct (eqb_spec x e) as [->|Hne]; cbn [negb].
      - destruct (mem_spec e T); [contradiction|exact G].
      - cbn [filter]. destruct (mem x T); [now rewrite G|exact G].
    Qed.
    Lemma sub_with T : sub E' T -> sub E T.
    Proof.
      intro H. unfold sub. etransitivity; [exact H|]. pose proof (not_in T H) as Hn. clear - Hn. induction E as [|y l IH]; [reflexivity|]. cbn [filter]. destruct (eqb_spec y e) as [->|]; cbn [negb].
      - destruct (mem_spec e T); [contradiction|exact IH].
      - cbn [filter]. destruct (mem y T); [now rewrite IH|exact IH].
    Qed.

    (** Removing the edge and making its far end a root. *)
    Lemma linked_e T : In e T -> linked T s v.
    Proof. intro H. destruct Hend as [E0|E0]; rewrite E0 in H; [now left|now right]. Qed.
    Lemma spans_down T T' : (forall x, In x T -> x = e \/ In x T') -> spans S (r1 ++ v :: r2) T -> spans (v :: S) (r1 ++ r2) T'.
    Proof.
      intros Hi Sp u Hu. destruct (Sp u) as (t & Ht & Hr); [apply in_app_iff; apply in_app_iff in Hu; cbn [In]; tauto|].
      assert (G : forall a, reach (linked T) a t -> exists y, In y (v :: S) /\ reach (linked T') a y).
      { intros a Ha. apply (reach_sym (linked T)) in Ha; [|intros x y [H|H]; [now right|now left]].
        induction Ha as [|b c Hb IH Hbc]; [exists t; split; [now right|constructor]|].
        destruct IH as (y & Hy & Hby).
        assert (Hc : In c (v :: S) \/ linked T' c b).
        { destruct Hbc as [H|H].
          - destruct (Hi _ H) as [H0|H0]; [left; rewrite <- H0 in *; destruct Hend as [H1|H1]; injection H1 as -> ->; cbn; auto|right; now right].
          - destruct (Hi _ H) as [H0|H0]; [left; rewrite <- H0 in *; destruct Hend as [H1|H1]; injection H1 as -> ->; cbn; auto|right; now left]. }
        destruct Hc as [Hc|Hc]; [exists c; split; [exact Hc|constructor]|]. exists y. split; [exact Hy|]. eapply reach_head; eauto. }
      now apply G.
    Qed.
    Lemma spans_up T T' : In e T -> (forall x, In x T' -> In x T) -> spans (v :: S) (r1 ++ r2) T' -> spans S (r1 ++ v :: r2) T.
    Proof.
      intros HeT Hi Sp u Hu. assert (Hvs : reach (linked T) v s) by (apply reach_one; destruct (linked_e T HeT); [now right|now left]).
      assert (M : forall a b, linked T' a b -> linked T a b) by (intros a b [H|H]; [left|right]; auto).
      assert (C : u = v \/ In u (r1 ++ r2)) by (apply in_app_iff in Hu; cbn [In] in Hu; rewrite in_app_iff; intuition congruence).
      destruct C as [->|Hu']; [eauto|]. destruct (Sp u Hu') as (y & [<-|Hy] & Hr).
      - exists s. split; [exact Hs|]. eapply reach_trans; [|exact Hvs]. eapply reach_mono; [exact M|exact Hr].
      - exists y. split; [exact Hy|]. eapply reach_mono; [exact M|exact Hr].
    Qed.
    Lemma forest_without T : ~ In e T -> forest S (r1 ++ v :: r2) E T <-> forest S (r1 ++ v :: r2) E' T.
    Proof.
      intro Hn. split; intros (H1 & H2 & H3); (split; [|split; assumption]).
      - now apply sub_without.
      - now apply sub_with.
    Qed.
    Lemma forest_with T : forest (v :: S) (r1 ++ r2) E' T -> forest S (r1 ++ v :: r2) E (ins T) /\ In e (ins T) /\ prod (ins T) = w e * prod T.
    Proof.
      intros (H1 & H2 & H3). split; [split; [|split]|split].
      - apply sub_filter.
      - apply (spans_up (ins T) T); [apply In_ins; auto|intros x Hx; apply In_ins; auto|exact H2].
      - rewrite (Permutation_length (ins_perm T H1)). cbn [length]. rewrite H3, !app_length. cbn [length]. lia.
      - apply In_ins; auto.
      - rewrite (prod_perm _ _ (ins_perm T H1)). reflexivity.
    Qed.
    Lemma forest_strip T : forest S (r1 ++ v :: r2) E T -> In e T -> exists T', forest (v :: S) (r1 ++ r2) E' T' /\ T = ins T'.
    Proof.
      intros (H1 & H2 & H3) HeT. set (T' := filter (fun x => mem x T) E'). exists T'.
      assert (I : forall x, In x T' <-> In x T /\ x <> e).
      { intro x. unfold T'. rewrite filter_In, mem_In, In_E'. split; [tauto|]. intros [Hx Hn]. split; [split; [|exact Hn]|exact Hx]. eapply sub_incl; eauto. }
      assert (S' : sub E' T') by apply sub_filter.
      assert (Eq : T = ins T').
      { apply (sub_ext E); [exact H1|apply sub_filter|]. intro x. rewrite (In_ins T' x S'), I. destruct (eqb_spec x e) as [->|]; tauto. }
      split; [|exact Eq]. split; [exact S'|split].
      - apply (spans_down T); [|exact H2]. intros x Hx. destruct (eqb_spec x e) as [->|Hne]; [now left|right; now apply I].
      - rewrite Eq, (Permutation_length (ins_perm T' S')) in H3. cbn [length] in H3. rewrite !app_length in *. cbn [length] in *. lia.
    Qed.
    Lemma forest_step x y : sums_to prod (forest S (r1 ++ v :: r2) E') x -> sums_to prod (forest (v :: S) (r1 ++ r2) E') y ->
      sums_to prod (forest S (r1 ++ v :: r2) E) (x + w e * y).
    Proof.
      intros (l1 & N1 & I1 & ->) (l2 & N2 & I2 & ->). exists (l1 ++ map ins l2).
      assert (Sub1 : forall T, In T l1 -> ~ In e T) by (intros T HT; apply I1 in HT; destruct HT; now apply not_in).
      assert (Sub2 : forall T, In T l2 -> sub E' T) by (intros T HT; apply I2 in HT; now destruct HT).
      split; [|split].
      - apply NoDup_app_iff. split; [exact N1|]. split.
        + clear I2 N1 I1 Sub1. induction N2 as [|T l Hn N2 IH]; cbn [map]; constructor.
          * intro Hc. apply in_map_iff in Hc. destruct Hc as (T' & Eq & HT'). apply Hn.
            replace T with T'; [exact HT'|]. apply (sub_ext E'); [apply Sub2; now right|apply Sub2; now left|]. intro z.
            assert (SA : sub E' T) by (apply Sub2; now left). assert (SB : sub E' T') by (apply Sub2; now right).
            pose proof (In_ins T z SA) as A. pose proof (In_ins T' z SB) as B. rewrite Eq in B. pose proof (not_in T SA). pose proof (not_in T' SB).
            destruct (eqb_spec z e) as [->|]; [tauto|]. tauto.
          * apply IH. intros T' HT'. apply Sub2. now right.
        + intros T HT Hc. apply in_map_iff in Hc. destruct Hc as (T' & <- & HT'). apply (Sub1 _ HT). apply In_ins; auto.
      - intro T. rewrite in_app_iff, in_map_iff. split.
        + intros [HT|(T' & <- & HT')]; [apply forest_without; [auto|now apply I1]|]. apply forest_with. now apply I2.
        + intro HT. destruct (mem_spec e T) as [Hin|Hin].
          * right. destruct (forest_strip T HT Hin) as (T' & HT' & ->). exists T'. split; [reflexivity|now apply I2].
          * left. apply I1. now apply forest_without.
      - rewrite !vsum_total, map_app, total_app, map_map. f_equal. rewrite <- total_scale. f_equal. apply map_ext_in. intros T HT. symmetry. apply forest_with. now apply I2.
    Qed.
  End Step.

  (** ** The Laplacian *)
  Lemma inc_none e x : fst e <> x -> snd e <> x -> inc e x = 0.
  Proof. intros H1 H2. unfold inc. destruct (eqb_spec (fst e) x); [contradiction|]. destruct (eqb_spec (snd e) x); [contradiction|reflexivity]. Qed.
  Lemma inc_total e l : NoDup l -> In (fst e) l -> In (snd e) l -> total (map (inc e) l) = 0.
  Proof.
    intros ND H1 H2. assert (G : forall x, In x l -> total (map (fun y => if eqb x y then 1 else 0) l) = 1).
    { clear H1 H2. induction ND as [|y l Hn ND IH]; [intros x []|]. intros x [->|Hx]; cbn [map total].
      - rewrite eqb_refl. rewrite total_zero; [reflexivity|]. intros z Hz. destruct (eqb_spec x z) as [->|]; [contradiction|reflexivity].
      - rewrite (IH x Hx). destruct (eqb_spec x y) as [->|]; [contradiction|reflexivity]. }
    unfold inc. transitivity (total (map (fun y => (if eqb (fst e) y then 1 else 0) + (-1) * (if eqb (snd e) y then 1 else 0)) l)).
    - apply (f_equal total), map_ext. intro y. destruct (eqb (snd e) y); lia.
    - rewrite total_add, total_scale, (G _ H1), (G _ H2). reflexivity.
  Qed.
  Lemma lap_remove E e u x : NoDup E -> In e E -> lap E u x = w e * (inc e u * inc e x) + lap (filter (fun y => negb (eqb y e)) E) u x.
  Proof.
    intros ND He. unfold lap. rewrite (total_perm _ (map (fun e => w e * (inc e u * inc e x)) (e :: filter (fun y => negb (eqb y e)) E))); [reflexivity|].
    apply Permutation_map. apply NoDup_Permutation; [exact ND| |].
    - constructor; [|now apply NoDup_filter]. rewrite filter_In, eqb_refl. intros [_ H]. discriminate.
    - intro y. cbn [In]. rewrite filter_In. destruct (eqb_spec y e) as [->|]; cbn [negb]; intuition congruence.
  Qed.
  (** Rows of the Laplacian sum to zero over any set of nodes that no edge leaves. *)
  Lemma lap_row E U u : NoDup U -> In u U -> (forall e, In e E -> (In (fst e) U /\ In (snd e) U) \/ (~ In (fst e) U /\ ~ In (snd e) U)) ->
    total (map (lap E u) U) = 0.
  Proof.
    intros ND Hu H. unfold lap. rewrite total_swap. apply total_zero. intros e He. destruct (H e He) as [[H1 H2]|[H1 H2]].
    - transitivity (total (map (fun x => (w e * inc e u) * inc e x) U)); [f_equal; apply map_ext; intro; ring|]. rewrite total_scale, inc_total by assumption. ring.
    - apply total_zero. intros x Hx. rewrite (inc_none e x); [ring| |]; intro Hq; subst x; contradiction.
  Qed.

  Definition columns (E : list (N * N)) (U : list N) : list (N -> Z) := map (fun v u => lap E u v) U.
  Definition crossing (S U : list N) (e : N * N) : bool := (mem (fst e) S && mem (snd e) U) || (mem (snd e) S && mem (fst e) U).

  Theorem matrix_tree n : forall E S U, length E = n -> NoDup E -> NoDup (S ++ U) -> (forall a b, In (a, b) E -> In a (S ++ U) /\ In b (S ++ U)) ->
    sums_to prod (forest S U E) (D U (columns E U)).
  Proof.
    induction n as [n IH] using lt_wf_ind. intros E S U Hl NDE ND Hends.
    pose proof ND as ND0. apply NoDup_app_iff in ND0. destruct ND0 as (NDS & NDU & Disj).
    destruct (find (crossing S U) E) as [e|] eqn:Ef.
    - apply find_some in Ef. destruct Ef as [He Hc].
      assert (G : exists s v, In s S /\ In v U /\ (e = (s, v) \/ e = (v, s))).
      { unfold crossing in Hc. apply orb_true_iff in Hc. rewrite !andb_true_iff, !mem_In in Hc. destruct e as [a b]. cbn [fst snd] in Hc. destruct Hc as [[]|[]]; [exists a, b|exists b, a]; auto. }
      destruct G as (s & v & Hs & Hv & Hend). apply in_split in Hv. destruct Hv as (r1 & r2 & ->).
      assert (Hv : ~ In v (r1 ++ r2)) by (now apply NoDup_remove_2 in NDU).
      assert (HsU : ~ In s (r1 ++ v :: r2)) by (apply Disj; exact Hs).
      set (E' := filter (fun x => negb (eqb x e)) E).
      assert (Hlen : (length E' < n)%nat).
      { rewrite <- Hl. unfold E'. clear - He. induction E as [|x l IHl]; [destruct He|]. cbn [filter length].
        assert (L : (length (filter (fun x => negb (eqb x e)) l) <= length l)%nat) by (clear; induction l as [|y l IH]; cbn [filter length]; [lia|]; destruct (negb (eqb y e)); cbn [length]; lia).
        destruct He as [->|He]; [rewrite eqb_refl; cbn [negb]; lia|]. specialize (IHl He). destruct (negb (eqb x e)); cbn [length]; lia. }
      assert (NDE' : NoDup E') by now apply NoDup_filter.
      assert (Sub : forall x, In x E' -> In x E) by (intros x Hx; unfold E' in Hx; apply filter_In in Hx; tauto).
      assert (X : D (r1 ++ v :: r2) (columns E (r1 ++ v :: r2)) = D (r1 ++ v :: r2) (columns E' (r1 ++ v :: r2)) + w e * D (r1 ++ r2) (columns E' (r1 ++ r2))).
      { set (unit := fun u : N => if eqb u v then 1 else 0).
        assert (Inc : forall u, In u (r1 ++ v :: r2) -> inc e u = (if eqb u v then inc e v else 0)).
        { intros u Hu. destruct (eqb_spec u v) as [->|Hne]; [reflexivity|]. apply inc_none; destruct Hend as [-> | ->]; cbn [fst snd]; intros ->; contradiction. }
        assert (Iv : inc e v * inc e v = 1).
        { assert (s <> v) by (intros ->; apply HsU, in_elt). unfold inc. destruct Hend as [-> | ->]; cbn [fst snd]; destruct (eqb_spec s v); try contradiction; destruct (eqb_spec v v); try contradiction; reflexivity. }
        rewrite (D_ext (r1 ++ v :: r2) (columns E (r1 ++ v :: r2)) (columns E' r1 ++ (fun u => 1 * lap E' u v + w e * unit u) :: columns E' r2)).
        - rewrite D_linear. f_equal.
          + unfold columns. rewrite map_app. cbn [map]. lia.
          + f_equal. rewrite D_unit.
            * unfold columns. rewrite map_length, sgn_add, sgn_sq, map_app. lia.
            * intros r Hr. unfold unit. destruct (eqb_spec r v) as [->|]; [contradiction|reflexivity].
            * unfold unit. now rewrite eqb_refl.
        - assert (O : forall l, (forall x, In x l -> In x (r1 ++ v :: r2) /\ x <> v) -> Forall2 (fun c c' => forall r, In r (r1 ++ v :: r2) -> c r = c' r) (columns E l) (columns E' l)).
          { clear - Inc NDE He. intro l. induction l as [|x l IHl]; intro Hx; cbn [columns map]; constructor.
            - intros u Hu. rewrite (lap_remove E e u x NDE He). destruct (Hx x (or_introl eq_refl)) as [H1 H2]. rewrite (Inc x H1). destruct (eqb_spec x v); [contradiction|]. fold E'. ring.
            - apply IHl. intros y Hy. apply Hx. now right. }
          unfold columns at 1. rewrite map_app. cbn [map]. apply Forall2_app; [|constructor].
          + apply O. intros x Hx. split; [apply in_app_iff; now left|]. intros ->. apply Hv, in_app_iff. now left.
          + intros u Hu. rewrite (lap_remove E e u v NDE He). rewrite (Inc u Hu). unfold unit. fold E'. destruct (eqb u v); [rewrite Iv|]; ring.
          + apply O. intros x Hx. split; [apply in_app_iff; right; now right|]. intros ->. apply Hv, in_app_iff. now right. }
      rewrite X. apply (forest_step E e S r1 r2 v s); try assumption.
      + apply (IH (length E')); [exact Hlen|reflexivity|exact NDE'|exact ND|]. intros a b Hab. apply Hends. now apply Sub.
      + apply (IH (length E')); [exact Hlen|reflexivity|exact NDE'| |].
        * cbn [app]. constructor.
          -- rewrite in_app_iff. intros [Hc'|Hc']; [|contradiction]. apply (Disj v Hc'). apply in_elt.
          -- apply NoDup_app_iff. split; [exact NDS|]. split; [now apply NoDup_remove_1 in NDU|]. intros x Hx Hx'. apply (Disj x Hx). apply in_app_iff in Hx'. apply in_app_iff. cbn [In]. tauto.
        * intros a b Hab. destruct (Hends a b (Sub _ Hab)) as [Ha Hb].
          assert (R : forall x, In x (S ++ r1 ++ v :: r2) -> In x ((v :: S) ++ r1 ++ r2)).
          { intros x. cbn [app In]. rewrite !in_app_iff. cbn [In]. rewrite ?in_app_iff. intuition congruence. }
          split; now apply R.
    - assert (NC : forall e, In e E -> crossing S U e = false) by (apply find_none; exact Ef).
      assert (Cl : forall e, In e E -> (In (fst e) U /\ In (snd e) U) \/ (~ In (fst e) U /\ ~ In (snd e) U)).
      { intros [a b] He. specialize (NC _ He). destruct (Hends a b He) as [Ha Hb]. unfold crossing in NC. cbn [fst snd] in *. apply orb_false_iff in NC. rewrite !andb_false_iff in NC.
        rewrite in_app_iff in Ha, Hb. destruct (mem_spec a U) as [Ua|Ua], (mem_spec b U) as [Ub|Ub]; [left; auto| | |right; auto]; exfalso.
        - destruct Hb as [Hb|Hb]; [|contradiction]. apply mem_In in Hb. rewrite Hb in NC. destruct NC as [_ [|]]; discriminate.
        - destruct Ha as [Ha|Ha]; [|contradiction]. apply mem_In in Ha. rewrite Ha in NC. destruct NC as [[|] _]; discriminate. }
      destruct U as [|u U].
      + cbn [columns map D]. exists [[]]. split; [constructor; [intros []|constructor]|]. split; [|reflexivity].
        intro T. cbn [In]. split.
        * intros [<-|[]]. split; [apply sub_nil|]. split; [intros x []|reflexivity].
        * intros (_ & _ & Hlen). left. destruct T; [reflexivity|discriminate].
      + assert (HZ : D (u :: U) (columns E (u :: U)) = 0).
        { cbn [columns map]. apply D_dependent. intros r Hr. rewrite map_map. pose proof (lap_row E (u :: U) r NDU Hr Cl) as H. cbn [map total] in H. change (lap E r u = - total (map (lap E r) U)). lia. }
        rewrite HZ. apply (sums_to_empty (V := Z) (RV := CRing_Z) prod (forest S (u :: U) E)). intros T (HT & Sp & _). destruct (Sp u (or_introl eq_refl)) as (s & Hs & Hr).
        assert (In s (u :: U)).
        { apply (reach_closed (linked T) (fun x => In x (u :: U)) u s); [now left| |exact Hr]. intros a b Ha [H|H]; apply (sub_incl _ _ _ HT) in H; destruct (Cl _ H) as [[]|[]]; cbn [fst snd] in *; tauto. }
        now apply (Disj s).
  Qed.
End Tree.
