(** Lemmas about rooted trees given as lists of (parent, child) edges in an
    order in which parents come first. *)
From Coq Require Import List Bool Arith ZArith Lia ZifyBool ZifyNat Permutation.
From Verif Require Import Base M_Graph M_Partition S_Partition L_Partition M_Machine S_Machine L_Sums
  S_Contiguity L_Search M_Election M_Proposals M_Tree S_Tree.
Import ListNotations.
Local Open Scope nat_scope.

Section Rooted.
  Context {N : Type} {EN : EqB N}.
  Implicit Types (es : list (N * N)) (x y p c r : N).

  Inductive rooted r : list (N * N) -> Prop :=
  | rooted_nil : rooted r []
  | rooted_snoc : forall es p c, rooted r es -> In p (r :: map snd es) -> ~ In c (r :: map snd es) ->
      rooted r (es ++ [(p, c)]).

  Definition nodes_of r es : list N := r :: map snd es.
  Definition kids es x : list N := map snd (filter (fun e => eqb (fst e) x) es).
  Definition grow_sub (acc : list N) (e : N * N) : list N := if mem (fst e) acc then acc ++ [snd e] else acc.
  Definition sub es x : list N := fold_left grow_sub es [x].

  Lemma nodes_snoc r es p c : nodes_of r (es ++ [(p, c)]) = nodes_of r es ++ [c].
  Proof. unfold nodes_of. now rewrite map_app. Qed.
  Lemma rooted_nodup r es : rooted r es -> NoDup (nodes_of r es).
  Proof.
    induction 1 as [|es p c R IH Hp Hc]; [repeat constructor; intros []|].
    rewrite nodes_snoc. now apply NoDup_app_single.
  Qed.
  Lemma In_kids es x y : In y (kids es x) <-> In (x, y) es.
  Proof.
    unfold kids. rewrite in_map_iff. split.
    - intros ([a b] & <- & H). apply filter_In in H. destruct H as [H E]. apply eqb_true in E. simpl in *. now subst.
    - intro H. exists (x, y). split; auto. apply filter_In. split; auto. apply eqb_refl.
  Qed.
  Lemma kids_snoc es p c x : kids (es ++ [(p, c)]) x = if eqb p x then kids es x ++ [c] else kids es x.
  Proof.
    unfold kids. rewrite filter_app, map_app. simpl. destruct (eqb p x); simpl; auto. now rewrite app_nil_r.
  Qed.
  Lemma sub_snoc es p c x : sub (es ++ [(p, c)]) x = if mem p (sub es x) then sub es x ++ [c] else sub es x.
  Proof. unfold sub. rewrite fold_left_app. reflexivity. Qed.
  Lemma sub_nil x : sub [] x = [x]. Proof. reflexivity. Qed.

  Lemma parent_in r es x y : rooted r es -> In (x, y) es -> In x (nodes_of r es) /\ In y (map snd es) /\ y <> r.
  Proof.
    induction 1 as [|es p c R IH Hp Hc]; [intros []|]. rewrite in_app_iff, nodes_snoc, map_app, !in_app_iff.
    intros [H|[H|[]]].
    - destruct (IH H) as (A & B & D). auto.
    - injection H as -> ->. split; auto. split; [right; simpl; auto|]. intros ->. apply Hc. now left.
  Qed.
  Lemma sub_root r es x : rooted r es -> In x (sub es x).
  Proof.
    induction 1 as [|es p c R IH Hp Hc]; [now left|]. rewrite sub_snoc. destruct (mem p (sub es x)); auto.
    apply in_app_iff. auto.
  Qed.
  Lemma sub_in r es x y : rooted r es -> In y (sub es x) -> y = x \/ In y (map snd es).
  Proof.
    induction 1 as [|es p c R IH Hp Hc]; [intros [<-|[]]; auto|]. rewrite sub_snoc, map_app, in_app_iff.
    destruct (mem p (sub es x)).
    - rewrite in_app_iff. intros [H|[<-|[]]]; [apply IH in H; tauto|]. right. right. simpl. auto.
    - intro H. apply IH in H. tauto.
  Qed.
  (** A node that is not in the tree has no descendants. *)
  Lemma sub_fresh r es x : rooted r es -> ~ In x (nodes_of r es) -> sub es x = [x].
  Proof.
    induction 1 as [|es p c R IH Hp Hc]; auto. rewrite nodes_snoc, in_app_iff. intro Hn.
    rewrite sub_snoc, IH by tauto. simpl. destruct (eqb_spec p x) as [->|]; simpl; auto. elim Hn. left. exact Hp.
  Qed.
  Lemma kids_fresh r es x : rooted r es -> ~ In x (nodes_of r es) -> kids es x = [].
  Proof.
    intros R Hn. destruct (kids es x) as [|y l] eqn:E; auto. exfalso. apply Hn.
    apply (parent_in r es x y R). apply In_kids. rewrite E. now left.
  Qed.
  Lemma sub_nodup r es x : rooted r es -> NoDup (sub es x).
  Proof.
    induction 1 as [|es p c R IH Hp Hc]; [repeat constructor; intros []|]. rewrite sub_snoc.
    destruct (mem_spec p (sub es x)) as [Hm|Hm]; auto. apply NoDup_app_single; auto. intro H.
    destruct (sub_in r es x c R H) as [->|H1]; [|apply Hc; now right].
    rewrite (sub_fresh r es x R Hc) in Hm. destruct Hm as [<-|[]]. apply Hc. exact Hp.
  Qed.
  Lemma sub_child r es x y z : rooted r es -> In y (sub es x) -> In (y, z) es -> In z (sub es x).
  Proof.
    induction 1 as [|es p c R IH Hp Hc]; [intros _ []|]. rewrite sub_snoc, in_app_iff.
    destruct (mem_spec p (sub es x)) as [Hm|Hm].
    - rewrite !in_app_iff. intros [Hy|[<-|[]]] [He|[He|[]]]; auto.
      + injection He as -> ->. right. now left.
      + apply (parent_in r es _ _ R) in He. destruct He as [He _]. contradiction.
      + injection He as -> ->. right. now left.
    - intros Hy [He|[He|[]]]; auto. injection He as -> ->. contradiction.
  Qed.
  Lemma sub_parent r es x z : rooted r es -> In z (sub es x) -> z <> x ->
    exists y, In (y, z) es /\ In y (sub es x).
  Proof.
    induction 1 as [|es p c R IH Hp Hc]; [intros [<-|[]] H; congruence|]. rewrite sub_snoc.
    destruct (mem_spec p (sub es x)) as [Hm|Hm].
    - rewrite in_app_iff. intros [Hz|[<-|[]]] Hx.
      + destruct (IH Hz Hx) as (y & H1 & H2). exists y. rewrite !in_app_iff. auto.
      + exists p. rewrite !in_app_iff. split; auto. right. now left.
    - intros Hz Hx. destruct (IH Hz Hx) as (y & H1 & H2). exists y. rewrite !in_app_iff. auto.
  Qed.
  Lemma parent_unique r es x y z : rooted r es -> In (x, z) es -> In (y, z) es -> x = y.
  Proof.
    induction 1 as [|es p c R IH Hp Hc]; [intros []|]. rewrite !in_app_iff.
    intros [H1|[H1|[]]] [H2|[H2|[]]]; auto.
    - injection H2 as -> ->. elim Hc. right. apply (in_map snd) in H1. exact H1.
    - injection H1 as -> ->. elim Hc. right. apply (in_map snd) in H2. exact H2.
    - congruence.
  Qed.
  (** A parent is not below its child. *)
  Lemma parent_not_below r es p c : rooted r es -> In (p, c) es -> ~ In p (sub es c).
  Proof.
    induction 1 as [|es q d R IH Hq Hd]; [intros []|]. rewrite in_app_iff, sub_snoc. intros [He|[He|[]]].
    - specialize (IH He). destruct (mem_spec q (sub es c)) as [Hm|Hm]; auto.
      rewrite in_app_iff. intros [H|[H|[]]]; auto. subst. apply Hd. apply (parent_in r es p c R He).
    - injection He as -> ->. rewrite (sub_fresh r es c R Hd). simpl.
      destruct (eqb_spec p c) as [->|Hn]; [contradiction|]. simpl. intros [<-|[]]. contradiction.
  Qed.
  Lemma kids_nodup r es x : rooted r es -> NoDup (kids es x).
  Proof.
    intro R. apply rooted_nodup in R. unfold nodes_of in R. inversion R as [|? ? _ R']; subst. clear R.
    unfold kids. induction es as [|[a b] es IH]; simpl in *; [constructor|]. inversion R'; subst.
    destruct (eqb a x); auto. simpl. constructor; auto. intro H. apply H1. apply in_map_iff in H.
    destruct H as (e & <- & H). apply filter_In in H. now apply in_map.
  Qed.

  Lemma flat_map_ext_in {X Y} (f g : X -> list Y) l : (forall a, In a l -> f a = g a) -> flat_map f l = flat_map g l.
  Proof. induction l as [|a l IH]; intro H; auto. simpl. rewrite H by now left. f_equal. apply IH. intros. apply H. now right. Qed.

  Lemma nodup_app_r {X} (l l' : list X) : NoDup (l ++ l') -> NoDup l'.
  Proof. induction l as [|a l IH]; auto. simpl. intro H. inversion H; auto. Qed.
  Lemma nodup_app_l {X} (l l' : list X) : NoDup (l ++ l') -> NoDup l.
  Proof.
    induction l as [|a l IH]; simpl; intro H; [constructor|]. inversion H; subst. constructor; auto.
    intro Hi. apply H2. apply in_app_iff. auto.
  Qed.
  Lemma nodup_app_disj {X} (l l' : list X) a : NoDup (l ++ l') -> In a l -> In a l' -> False.
  Proof.
    induction l as [|b l IH]; simpl; [intros _ []|]. intros H [->|Ha] Hb; inversion H; subst; auto.
    apply H2. apply in_app_iff. auto.
  Qed.

  (** A subtree is its root and the subtrees of its children. *)
  Lemma sub_split r es x : rooted r es -> Permutation (sub es x) (x :: flat_map (sub es) (kids es x)).
  Proof.
    induction 1 as [|es p c R IH Hp Hc]; [apply Permutation_refl|].
    assert (Fr : sub (es ++ [(p, c)]) c = [c]).
    { rewrite sub_snoc, (sub_fresh r es c R Hc). simpl. destruct (eqb_spec p c) as [->|]; [contradiction|reflexivity]. }
    assert (ND := sub_nodup r es x R). rewrite sub_snoc, kids_snoc.
    destruct (mem_spec p (sub es x)) as [Hm|Hm].
    - destruct (eqb_spec p x) as [->|Hpx].
      + (* the new leaf hangs below x itself *)
        rewrite flat_map_app. simpl. rewrite Fr, app_nil_r.
        rewrite (flat_map_ext_in (sub (es ++ [(x, c)])) (sub es)).
        * change (x :: flat_map (sub es) (kids es x) ++ [c]) with ((x :: flat_map (sub es) (kids es x)) ++ [c]).
          now apply Permutation_app_tail.
        * intros k Hk. apply In_kids in Hk. rewrite sub_snoc.
          destruct (mem_spec x (sub es k)) as [H|]; auto. elim (parent_not_below r es x k R Hk H).
      + assert (Hin : In p (flat_map (sub es) (kids es x))).
        { apply (Permutation_in _ IH) in Hm. destruct Hm as [->|Hm]; [congruence|auto]. }
        assert (ND2 : NoDup (flat_map (sub es) (kids es x))).
        { apply (Permutation_NoDup IH) in ND. now inversion ND. }
        assert (G : forall l, NoDup (flat_map (sub es) l) -> In p (flat_map (sub es) l) ->
                    Permutation (flat_map (sub es) l ++ [c]) (flat_map (sub (es ++ [(p, c)])) l)).
        { clear - EN. induction l as [|k l IHl]; simpl; intros ND Hin; [destruct Hin|].
          rewrite sub_snoc. destruct (mem_spec p (sub es k)) as [Hk|Hk].
          - rewrite (flat_map_ext_in (sub (es ++ [(p, c)])) (sub es)).
            + rewrite <- !app_assoc. apply Permutation_app_head. apply Permutation_app_comm.
            + intros k' Hk'. rewrite sub_snoc. destruct (mem_spec p (sub es k')) as [H|]; auto. exfalso.
              assert (Hin2 : In p (flat_map (sub es) l)) by (apply in_flat_map; eauto).
              apply in_split in Hk. destruct Hk as (l1 & l2 & E). rewrite E in ND. rewrite <- app_assoc in ND. simpl in ND.
              apply NoDup_remove_2 in ND. apply ND. rewrite !in_app_iff. auto.
          - apply in_app_or in Hin. destruct Hin as [Hin|Hin]; [contradiction|].
            rewrite <- app_assoc. apply Permutation_app_head. apply IHl; auto.
            eapply nodup_app_r; eauto. }
        rewrite IH at 1. simpl. constructor. now apply G.
    - assert (Hpx : p <> x) by (intros ->; apply Hm; eapply sub_root; eauto).
      destruct (eqb_spec p x) as [|_]; [contradiction|].
      rewrite (flat_map_ext_in (sub (es ++ [(p, c)])) (sub es)); auto.
      intros k Hk. rewrite sub_snoc. destruct (mem_spec p (sub es k)) as [H|]; auto. exfalso. apply Hm.
      apply (Permutation_in _ (Permutation_sym IH)). right. apply in_flat_map. eauto.
  Qed.
  Lemma sub_smaller r es x k : rooted r es -> In k (kids es x) -> List.length (sub es k) < List.length (sub es x).
  Proof.
    intros R Hk. rewrite (Permutation_length (sub_split r es x R)). simpl.
    apply in_split in Hk. destruct Hk as (l1 & l2 & ->). rewrite flat_map_app. simpl. rewrite !app_length. lia.
  Qed.
  (** Induction from the leaves up. *)
  Lemma kids_ind r es (Pr : N -> Prop) : rooted r es ->
    (forall x, (forall k, In k (kids es x) -> Pr k) -> Pr x) -> forall x, Pr x.
  Proof.
    intros R H x. remember (List.length (sub es x)) as n eqn:E. revert x E.
    induction n as [n IH] using lt_wf_ind. intros x ->. apply H. intros k Hk.
    eapply IH; [|reflexivity]. eapply sub_smaller; eauto.
  Qed.
  (** Siblings have disjoint subtrees. *)
  Lemma kids_disjoint r es x : rooted r es -> NoDup (x :: flat_map (sub es) (kids es x)).
  Proof. intro R. eapply Permutation_NoDup; [eapply sub_split; eauto|eapply sub_nodup; eauto]. Qed.
  (** The root's subtree is everything. *)
  Lemma sub_all r es : rooted r es -> sub es r = nodes_of r es.
  Proof.
    induction 1 as [|es p c R IH Hp Hc]; auto. rewrite sub_snoc, nodes_snoc, IH.
    rewrite (proj2 (mem_In _ _) Hp). reflexivity.
  Qed.
End Rooted.

(** ** The breadth-first search *)
Section Bfs.
  Context {N : Type} {EN : EqB N}.
  Definition group : Type := N * list N.
  Definition flatten (gs : list group) : list (N * N) := flat_map (fun g => map (pair (fst g)) (snd g)) gs.

  Lemma rooted_app r (acc : list (N * N)) p new : rooted r acc -> In p (nodes_of r acc) -> NoDup new ->
    (forall c, In c new -> ~ In c (nodes_of r acc)) -> rooted r (acc ++ map (pair p) new).
  Proof.
    revert acc. induction new as [|c new IH]; intros acc R Hp ND Hn; simpl; [now rewrite app_nil_r|].
    inversion ND; subst.
    replace (acc ++ (p, c) :: map (pair p) new) with ((acc ++ [(p, c)]) ++ map (pair p) new) by (rewrite <- app_assoc; reflexivity).
    apply IH; auto.
    - constructor; auto. apply Hn. now left.
    - rewrite nodes_snoc, in_app_iff. auto.
    - intros d Hd. rewrite nodes_snoc, in_app_iff. intros [H|[H|[]]]; [apply (Hn d); auto; now right|]. subst. contradiction.
  Qed.
  Lemma nodes_app r (acc : list (N * N)) p new : nodes_of r (acc ++ map (pair p) new) = nodes_of r acc ++ new.
  Proof. unfold nodes_of. rewrite map_app, map_map. simpl. now rewrite map_id. Qed.

  Lemma nodes_app_gen r (acc l : list (N * N)) : nodes_of r (acc ++ l) = nodes_of r acc ++ map snd l.
  Proof. unfold nodes_of. now rewrite map_app. Qed.

  Lemma bfs_edges_spec (nbrs : N -> list N) (U : list N) (r : N) :
    (forall u v, In u U -> In v (nbrs u) -> In v U) -> (forall u, NoDup (nbrs u)) ->
    forall fuel visited queue acc,
      visited = nodes_of r acc -> rooted r acc -> incl visited U -> NoDup queue -> incl queue visited ->
      (forall x y, In x visited -> ~ In x queue -> In y (nbrs x) -> In y visited) ->
      List.length queue + List.length U <= fuel + List.length visited ->
      exists gs, bfs_edges fuel nbrs visited queue = Ok (flatten gs) /\ rooted r (acc ++ flatten gs) /\
        incl (nodes_of r (acc ++ flatten gs)) U /\
        (forall x y, In x (nodes_of r (acc ++ flatten gs)) -> In y (nbrs x) -> In y (nodes_of r (acc ++ flatten gs))) /\
        (forall p c, In (p, c) (flatten gs) -> In c (nbrs p)) /\
        NoDup (map fst gs) /\
        (forall q, In q (map fst gs) -> In q queue \/ In q (map snd (flatten gs))) /\
        match queue with [] => gs = [] | q :: _ => exists new gs', gs = (q, new) :: gs' end.
  Proof.
    intros HU HN. induction fuel as [|fuel IH]; intros visited queue acc Ev R IV NQ IQ Cl Hf.
    - destruct queue as [|p q].
      + exists []. change (flatten []) with (@nil (N * N)). rewrite app_nil_r, <- Ev. split; [reflexivity|]. split; [exact R|]. split; [exact IV|].
        split; [intros x y Hx; apply Cl; auto|]. split; [intros ? ? []|]. split; [constructor|]. split; [intros ? []|reflexivity].
      + exfalso. assert (ND : NoDup visited) by (rewrite Ev; now apply rooted_nodup).
        assert (List.length visited <= List.length U) by (apply NoDup_incl_length; auto). simpl in Hf. lia.
    - destruct queue as [|p q].
      + exists []. change (flatten []) with (@nil (N * N)). rewrite app_nil_r, <- Ev. split; [reflexivity|]. split; [exact R|]. split; [exact IV|].
        split; [intros x y Hx; apply Cl; auto|]. split; [intros ? ? []|]. split; [constructor|]. split; [intros ? []|reflexivity].
      + cbn [bfs_edges]. set (new := filter (fun c => negb (mem c visited)) (nbrs p)).
        assert (Hnew : forall c, In c new <-> In c (nbrs p) /\ ~ In c visited).
        { intro c. unfold new. rewrite filter_In, negb_true_iff, mem_notIn. tauto. }
        assert (Pv : In p visited) by (apply IQ; now left).
        assert (NDn : NoDup new) by (apply NoDup_filter; auto). inversion NQ as [|? ? Npq NQ']; subst x l.
        assert (R' : rooted r (acc ++ map (pair p) new)).
        { apply rooted_app; auto; [now rewrite <- Ev|]. intros c Hc. rewrite <- Ev. now apply Hnew. }
        clearbody new.
        destruct (IH (visited ++ new) (q ++ new) (acc ++ map (pair p) new)) as (gs & H1 & H2 & H3 & H4 & H5 & H6 & H7 & H8).
        * rewrite nodes_app. now rewrite Ev.
        * exact R'.
        * intros x Hx. apply in_app_iff in Hx. destruct Hx as [Hx|Hx]; auto. apply Hnew in Hx. eapply HU; [|apply Hx]. auto.
        * apply NoDup_app_iff. split; auto. split; auto. intros x Hx Hy. apply Hnew in Hy. apply Hy. apply IQ. now right.
        * intros x Hx. apply in_app_iff in Hx. apply in_app_iff. destruct Hx as [Hx|Hx]; auto. left. apply IQ. now right.
        * intros x y Hx Hq Hy. rewrite in_app_iff in Hx, Hq. apply in_app_iff.
          destruct Hx as [Hx|Hx]; [|tauto]. destruct (eq_dec_of x p) as [->|Hxp].
          -- destruct (In_dec_of y visited); auto. right. apply Hnew. auto.
          -- left. apply (Cl x y Hx); auto. intros [->|H]; [congruence|tauto].
        * rewrite !app_length. simpl in Hf. lia.
        * rewrite H1. cbn [bind]. exists ((p, new) :: gs). unfold flatten in *. cbn [flat_map fst snd].
          rewrite <- app_assoc in H2, H3, H4. split; [reflexivity|]. split; [exact H2|]. split; [exact H3|]. split; [exact H4|].
          assert (ND := rooted_nodup r _ H2). 
          split; [|split; [|split; [|eauto]]].
          -- intros a c Hc. apply in_app_iff in Hc. destruct Hc as [Hc|Hc]; [|eauto].
             apply in_map_iff in Hc. destruct Hc as (c' & E & Hc). injection E as <- <-. now apply Hnew.
          -- cbn [map fst]. constructor; auto. intro Hp. apply H7 in Hp. rewrite in_app_iff in Hp.
             destruct Hp as [[Hp|Hp]|Hp]; [contradiction|apply Hnew in Hp; tauto|].
             rewrite nodes_app_gen in ND. rewrite <- Ev in ND. eapply nodup_app_disj; [exact ND|exact Pv|].
             rewrite map_app, in_app_iff. auto.
          -- cbn [map fst]. intros x [<-|Hx]; [left; now left|]. apply H7 in Hx. rewrite in_app_iff in Hx.
             rewrite map_app, in_app_iff, map_map. cbn [snd]. rewrite map_id.
             destruct Hx as [[Hx|Hx]|Hx]; [left; now right|auto|auto].
  Qed.
End Bfs.

(** ** Searches of trees *)
Section Search.
  Context {N : Type} {EN : EqB N}.

  Record search_of (T : graph N) (r : N) (es : list (N * N)) : Prop := {
    so_rooted : rooted r es;
    so_nodes : forall x, In x (nodes_of r es) <-> In x (g_nodes T);
    so_adj : forall p c, In (p, c) es -> adj T p c;
    so_all : forall u v, adj T u v -> In (u, v) es \/ In (v, u) es
  }.

  Lemma rooted_es_nodup r (es : list (N * N)) : rooted r es -> NoDup es.
  Proof.
    intro R. apply rooted_nodup in R. unfold nodes_of in R. inversion R; subst. eapply NoDup_map_inv; eauto.
  Qed.
  Lemma rooted_no_swap r (es : list (N * N)) a b : rooted r es -> In (a, b) es -> In (b, a) es -> False.
  Proof.
    intros R H1 H2. eapply (parent_not_below r es a b); eauto.
    eapply sub_child; [eauto| |exact H2]. eapply sub_root; eauto.
  Qed.

  Theorem bfs_tree (T : graph N) (r : N) : is_tree T -> In r (g_nodes T) ->
    exists gs, bfs T r = Ok (flatten gs) /\ search_of T r (flatten gs) /\ NoDup (map fst gs) /\
      exists new gs', gs = (r, new) :: gs'.
  Proof.
    intros HT Hr. destruct (tree_wf T HT) as [W1 W2 W3 W4].
    destruct (bfs_edges_spec (neighbors T) (g_nodes T) r) with (fuel := S (List.length (g_nodes T)))
      (visited := [r]) (queue := [r]) (acc := @nil (N * N)) as (gs & H1 & H2 & H3 & H4 & H5 & H6 & _ & H8).
    - intros u v _ Hv. apply In_neighbors in Hv. apply (adj_nodes T u v (tree_wf T HT) Hv).
    - intro u. apply NoDup_neighbors.
    - reflexivity.
    - constructor.
    - intros x [<-|[]]; auto.
    - repeat constructor; intros [].
    - intros x Hx; exact Hx.
    - intros x y Hx Hx'. contradiction.
    - simpl. lia.
    - simpl app in *. exists gs. split; [exact H1|]. split; [|split; [exact H6|exact H8]].
      assert (Hn : forall x, In x (nodes_of r (flatten gs)) <-> In x (g_nodes T)).
      { intro x. split; [apply H3|]. intro Hx.
        assert (Hreach := tree_connected T HT r x Hr Hx).
        apply (reach_closed (adj T) (fun y => In y (nodes_of r (flatten gs))) r); auto; [now left|].
        intros a b Ha Hab. eapply H4; eauto. now apply In_neighbors. }
      assert (Ha : forall p c, In (p, c) (flatten gs) -> adj T p c).
      { intros p c Hc. apply H5 in Hc. now apply In_neighbors. }
      constructor; auto.
      (* counting *)
      set (es := flatten gs) in *. clearbody es.
      set (norm := fun e : N * N => if mem e (g_edges T) then e else (snd e, fst e)).
      assert (Hnorm : forall e, In e es -> In (norm e) (g_edges T)).
      { intros [p c] He. unfold norm. destruct (mem_spec (p, c) (g_edges T)) as [Hm|Hm]; auto.
        destruct (Ha p c He) as [H|H]; [contradiction|exact H]. }
      assert (Hback : forall e, norm e = e \/ norm e = (snd e, fst e)).
      { intro e. unfold norm. destruct (mem e (g_edges T)); auto. }
      assert (NDn : NoDup (map norm es)).
      { assert (G : forall l, incl l es -> NoDup l -> NoDup (map norm l)).
        { induction l as [|[a b] l IH]; intros Hl ND; [constructor|]. inversion ND as [|? ? Hn1 ND1]; subst. simpl.
          constructor; [|apply IH; auto; intros z Hz; apply Hl; now right].
          intro Hin. apply in_map_iff in Hin. destruct Hin as ([c d] & E & Hin).
          assert (Hc : (c, d) = (a, b) \/ (c, d) = (b, a)).
          { destruct (Hback (c, d)) as [E1|E1], (Hback (a, b)) as [E2|E2]; rewrite E1, E2 in E; simpl in E;
              injection E as -> ->; auto. }
          destruct Hc as [Hc|Hc]; rewrite Hc in Hin; [contradiction|].
          eapply (rooted_no_swap r es a b H2); [apply Hl; now left|apply Hl; now right]. }
        apply G; [apply incl_refl|]. eapply rooted_es_nodup; eauto. }
      assert (Len : List.length es = List.length (g_edges T)).
      { assert (L1 : List.length (nodes_of r es) = List.length (g_nodes T)).
        { apply Nat.le_antisymm; apply NoDup_incl_length; auto; try (intros x Hx; apply Hn; exact Hx).
          now apply rooted_nodup. }
        unfold nodes_of in L1. simpl in L1. rewrite map_length in L1. assert (Z := tree_size T HT). lia. }
      assert (Inc : incl (g_edges T) (map norm es)).
      { apply NoDup_length_incl; auto; [rewrite map_length; lia|].
        intros e He. apply in_map_iff in He. destruct He as (e' & <- & He). auto. }
      assert (Each : forall u v, In (u, v) (g_edges T) -> In (u, v) es \/ In (v, u) es).
      { intros u v He. apply Inc in He. apply in_map_iff in He. destruct He as ([a b] & E & He).
        destruct (Hback (a, b)) as [E1|E1]; rewrite E1 in E; simpl in E; injection E as -> ->; auto. }
      intros u v [He|He]; apply Each in He; tauto.
  Qed.

  Lemma search_sym_all (T : graph N) r es u v : search_of T r es ->
    (adj T u v <-> In (u, v) es \/ In (v, u) es).
  Proof.
    intro S. split; [apply (so_all T r es S)|]. intros [H|H]; apply (so_adj T r es S) in H; auto. now apply adj_sym.
  Qed.
  Lemma search_loopless (T : graph N) r es u : search_of T r es -> ~ adj T u u.
  Proof.
    intros S H. apply (so_all T r es S) in H.
    assert (He : In (u, u) es) by tauto. eapply (rooted_no_swap r es u u (so_rooted T r es S)); eauto.
  Qed.

  Lemma sub_reach r (es : list (N * N)) c x : rooted r es -> In x (sub es c) ->
    reach (fun a b => In (a, b) es /\ In a (sub es c)) c x.
  Proof.
    intro R. revert x. induction R as [|es q d R IH Hq Hd]; intros x; [intros [<-|[]]; constructor|].
    rewrite sub_snoc. destruct (mem_spec q (sub es c)) as [Hm|Hm].
    - assert (G : forall y, In y (sub es c) -> reach (fun a b => In (a, b) (es ++ [(q, d)]) /\ In a (sub es c ++ [d])) c y).
      { intros y Hy. eapply reach_mono; [|apply IH; exact Hy]. cbn beta. intros a b [H1 H2]. rewrite !in_app_iff. auto. }
      rewrite in_app_iff. intros [Hx|[<-|[]]]; auto. eapply reach_step; [apply G; exact Hm|]. rewrite !in_app_iff. simpl. auto.
    - intro Hx. eapply reach_mono; [|apply IH; exact Hx]. cbn beta. intros a b [H1 H2]. rewrite in_app_iff. auto.
  Qed.
  Lemma rest_reach r (es : list (N * N)) c x : rooted r es -> In x (nodes_of r es) -> ~ In x (sub es c) ->
    reach (fun a b => In (a, b) es /\ ~ In a (sub es c) /\ ~ In b (sub es c)) r x.
  Proof.
    intro R. revert x. induction R as [|es q d R IH Hq Hd]; intros x; [intros [<-|[]] _; constructor|].
    rewrite nodes_snoc. intros Hx Hn.
    assert (Sub : forall y, In y (nodes_of r es) -> ~ In y (sub es c) -> ~ In y (sub (es ++ [(q, d)]) c)).
    { intros y Hy Hny. rewrite sub_snoc. destruct (mem q (sub es c)); auto. rewrite in_app_iff.
      intros [H|[H|[]]]; auto. subst. contradiction. }
    assert (Inc : incl (sub es c) (sub (es ++ [(q, d)]) c)).
    { intros y Hy. rewrite sub_snoc. destruct (mem q (sub es c)); auto. apply in_app_iff. auto. }
    assert (G : forall y, In y (nodes_of r es) -> ~ In y (sub es c) ->
      reach (fun a b => In (a, b) (es ++ [(q, d)]) /\ ~ In a (sub (es ++ [(q, d)]) c) /\ ~ In b (sub (es ++ [(q, d)]) c)) r y).
    { intros y Hy Hny. eapply reach_mono; [|apply IH; auto]. cbn beta. intros a b (H1 & H2 & H3).
      destruct (parent_in r es a b R H1) as (P1 & P2 & _). split; [apply in_app_iff; auto|].
      split; apply Sub; auto. now right. }
    apply in_app_iff in Hx. destruct Hx as [Hx|[<-|[]]]; [apply G; auto|].
    assert (Hnq : ~ In q (sub es c)).
    { intro H. apply Hn. rewrite sub_snoc, (proj2 (mem_In _ _) H). apply in_app_iff. right. now left. }
    eapply reach_step; [apply G; [exact Hq|exact Hnq]|]. split; [apply in_app_iff; right; now left|].
    split; [apply Sub; auto|exact Hn].
  Qed.

  (** The subtree below a tree edge is one side of it, the rest the other. *)
  Lemma side_below (T : graph N) r es p c x : search_of T r es -> In (p, c) es ->
    In x (sub es c) <-> side T c p x.
  Proof.
    intros S He. assert (R := so_rooted T r es S). split.
    - intro Hx. unfold side. eapply reach_mono; [|eapply sub_reach; eauto]. cbn beta. intros a b [H1 H2].
      split; [apply (so_adj T r es S); auto|]. split.
      + intros [-> ->]. eapply rooted_no_swap; eauto.
      + intros [-> ->]. eapply parent_not_below; eauto.
    - intro Hx. eapply (reach_closed (adj_without T c p) (fun y => In y (sub es c))); [| |exact Hx].
      + eapply sub_root; eauto.
      + intros a b Ha (Ab & N1 & N2). apply (so_all T r es S) in Ab. destruct Ab as [Ab|Ab].
        * eapply sub_child; eauto.
        * destruct (eq_dec_of a c) as [->|Hne].
          -- elim N1. split; auto. eapply parent_unique; eauto.
          -- destruct (sub_parent r es c a R Ha Hne) as (y & Y1 & Y2).
             rewrite (parent_unique r es b y a R Ab Y1). exact Y2.
  Qed.
  Lemma side_above (T : graph N) r es p c x : search_of T r es -> In (p, c) es ->
    (In x (g_nodes T) /\ ~ In x (sub es c)) <-> side T p c x.
  Proof.
    intros S He. assert (R := so_rooted T r es S). split.
    - intros [Hx Hn]. apply (so_nodes T r es S) in Hx. unfold side.
      assert (Hp : In p (nodes_of r es) /\ ~ In p (sub es c)).
      { split; [apply (parent_in r es p c R He)|eapply parent_not_below; eauto]. }
      assert (M : forall y, In y (nodes_of r es) -> ~ In y (sub es c) -> reach (adj_without T p c) r y).
      { intros y Hy Hny. eapply reach_mono; [|eapply rest_reach; eauto]. cbn beta. intros a b (H1 & H2 & H3).
        split; [apply (so_adj T r es S); auto|]. split.
        - intros [-> ->]. apply H3. eapply sub_root; eauto.
        - intros [-> ->]. apply H2. eapply sub_root; eauto. }
      eapply reach_trans; [apply reach_sym; [|apply M; apply Hp]|apply M; auto].
      intros a b (H1 & H2 & H3). split; [now apply adj_sym|]. tauto.
    - intro Hx. eapply (reach_closed (adj_without T p c) (fun y => In y (g_nodes T) /\ ~ In y (sub es c))); [| |exact Hx].
      + split; [apply (so_nodes T r es S); apply (parent_in r es p c R He)|eapply parent_not_below; eauto].
      + intros a b [Ha Hn] (Ab & N1 & N2). apply (so_all T r es S) in Ab. split.
        * apply (so_nodes T r es S). destruct Ab as [Ab|Ab]; apply (parent_in r es _ _ R) in Ab.
          -- right. apply Ab.
          -- apply Ab.
        * intro Hb. destruct Ab as [Ab|Ab].
          -- destruct (eq_dec_of b c) as [->|Hne].
             ++ apply N1. split; auto. eapply parent_unique; eauto.
             ++ destruct (sub_parent r es c b R Hb Hne) as (y & Y1 & Y2).
                rewrite (parent_unique r es a y b R Ab Y1) in Hn. contradiction.
          -- apply Hn. eapply sub_child; eauto.
  Qed.

  (** ** The dictionaries built from a search *)
  Lemma dget_fold_new {K V : Type} {EK : EqB K} (l : list (K * V)) : forall d, NoDup (dkeys d ++ map fst l) ->
    fold_left (fun d e => dset d (fst e) (snd e)) l d = d ++ l.
  Proof.
    induction l as [|[k v] l IH]; intros d ND; simpl; [now rewrite app_nil_r|].
    assert (Hk : ~ In k (dkeys d)).
    { intro H. eapply nodup_app_disj; [exact ND|exact H|]. now left. }
    rewrite dset_new by auto. rewrite IH.
    - now rewrite <- app_assoc.
    - unfold dkeys in *. rewrite map_app. simpl. rewrite <- app_assoc. exact ND.
  Qed.
  Lemma pred_spec r es c p : rooted r es -> dget (predecessors es) c = Some p <-> In (p, c) es.
  Proof.
    intro R. unfold predecessors.
    assert (E : fold_left (fun d e => dset d (snd e) (fst e)) es ([] : dict N N) = map (fun e => (snd e, fst e)) es).
    { rewrite <- (app_nil_l (map _ es)). rewrite <- dget_fold_new.
      - generalize ([] : dict N N). clear. induction es as [|e es IH]; intro d; simpl; auto.
      - simpl. rewrite map_map. simpl. apply rooted_nodup in R. unfold nodes_of in R. inversion R; auto. }
    rewrite E. rewrite dget_iff.
    - rewrite in_map_iff. split.
      + intros ([a b] & H & Hin). simpl in H. injection H as -> ->. exact Hin.
      + intro H. exists (p, c). auto.
    - unfold dkeys. rewrite map_map. simpl. apply rooted_nodup in R. unfold nodes_of in R. inversion R; auto.
  Qed.
  Definition busy (g : N * list N) : bool := match snd g with [] => false | _ => true end.
  Lemma absorb p cs rest : forall children, bfs_successors p children (map (pair p) cs ++ rest) = bfs_successors p (children ++ cs) rest.
  Proof.
    induction cs as [|c cs IH]; intro children; simpl; [now rewrite app_nil_r|]. rewrite eqb_refl, IH, <- app_assoc. reflexivity.
  Qed.
  Lemma bfs_successors_groups (gs : list (@group N)) : forall p children, NoDup (p :: map fst gs) ->
    bfs_successors p children (flatten gs) = (p, children) :: filter busy gs.
  Proof.
    induction gs as [|[q cs] gs IH]; intros p children ND; [reflexivity|].
    simpl in ND. inversion ND as [|? ? H1 ND1]; subst. inversion ND1 as [|? ? H2 ND2]; subst.
    unfold flatten. cbn [flat_map fst snd]. change (flat_map _ gs) with (flatten gs).
    destruct cs as [|c cs]; cbn [map app filter busy snd].
    - apply IH. constructor; auto. intro H. apply H1. now right.
    - cbn [bfs_successors]. destruct (eqb_spec q p) as [->|_]; [elim H1; now left|].
      rewrite absorb. cbn [app]. rewrite IH; auto.
  Qed.
  Lemma kids_app (l1 l2 : list (N * N)) x : kids (l1 ++ l2) x = kids l1 x ++ kids l2 x.
  Proof. unfold kids. now rewrite filter_app, map_app. Qed.
  Lemma flatten_cons q cs (gs : list (@group N)) : flatten ((q, cs) :: gs) = map (pair q) cs ++ flatten gs.
  Proof. reflexivity. Qed.
  Lemma kids_pairs (q : N) (cs : list N) x : kids (map (pair q) cs) x = if eqb q x then cs else [].
  Proof.
    unfold kids. induction cs as [|c cs IH]; simpl; [now destruct (eqb q x)|].
    destruct (eqb q x) eqn:E; simpl; [|exact IH]. now f_equal.
  Qed.
  Lemma kids_none (gs : list (@group N)) x : ~ In x (map fst gs) -> kids (flatten gs) x = [].
  Proof.
    induction gs as [|[q cs] gs IH]; intro H; [reflexivity|]. simpl in H.
    rewrite flatten_cons, kids_app, kids_pairs, IH by tauto. destruct (eqb_spec q x) as [->|]; [tauto|reflexivity].
  Qed.
  Lemma kids_flatten (gs : list (@group N)) x : NoDup (map fst gs) ->
    forall cs, In (x, cs) gs -> kids (flatten gs) x = cs.
  Proof.
    induction gs as [|[q cs] gs IH]; intros ND cs0 Hin; [destruct Hin|]. simpl in ND. inversion ND; subst.
    rewrite flatten_cons, kids_app, kids_pairs. destruct Hin as [Hin|Hin].
    - injection Hin as -> ->. rewrite eqb_refl, kids_none by auto. now rewrite app_nil_r.
    - assert (Hx : In x (map fst gs)) by (apply (in_map fst) in Hin; exact Hin).
      rewrite (IH H2 cs0 Hin). destruct (eqb_spec q x) as [->|]; [contradiction|reflexivity].
  Qed.
  Lemma succ_spec r new (gs' : list (@group N)) x :
    let gs := (r, new) :: gs' in
    NoDup (map fst gs) ->
    dget (successors r (flatten gs)) x =
      match kids (flatten gs) x with [] => if eqb x r then Some [] else None | l => Some l end.
  Proof.
    intros gs ND. unfold successors.
    assert (E : bfs_successors r [] (flatten gs) = (r, new) :: filter busy gs').
    { unfold gs. rewrite flatten_cons, absorb. simpl app. now apply bfs_successors_groups. }
    rewrite E. assert (ND2 : NoDup (map fst ((r, new) :: filter busy gs'))).
    { cbn [map fst]. unfold gs in ND. cbn [map fst] in ND. inversion ND as [|? ? H1 H2]; subst. constructor.
      - intro H. apply H1. apply in_map_iff in H. destruct H as (g & E1 & H). apply filter_In in H. rewrite <- E1. now apply in_map.
      - clear - H2. induction gs' as [|g gs IH]; simpl in *; [constructor|]. inversion H2; subst.
        destruct (busy g); auto. simpl. constructor; auto. intro H. apply H1. apply in_map_iff in H.
        destruct H as (g' & E1 & H). apply filter_In in H. rewrite <- E1. now apply in_map. }
    rewrite dget_fold_new by exact ND2. rewrite app_nil_l.
    destruct (dget ((r, new) :: filter busy gs') x) as [l|] eqn:D.
    - apply dget_In in D. assert (Hin : In (x, l) gs).
      { destruct D as [D|D]; [left; exact D|]. right. apply filter_In in D. apply D. }
      rewrite (kids_flatten gs x ND l Hin). destruct l as [|y l]; auto.
      destruct D as [D|D]; [injection D as -> _; now rewrite eqb_refl|]. apply filter_In in D. destruct D as [_ D]. discriminate.
    - apply dget_None in D. cbn [dkeys map fst] in D.
      assert (Hx : x <> r) by (intros ->; apply D; now left).
      assert (K : kids (flatten gs) x = []).
      { destruct (In_dec_of x (map fst gs)) as [Hin|Hin]; [|now apply kids_none].
        apply in_map_iff in Hin. destruct Hin as ([q l] & E1 & Hin). simpl in E1. subst q.
        rewrite (kids_flatten gs x ND l Hin). destruct Hin as [Hin|Hin]; [injection Hin as -> _; congruence|].
        destruct l as [|y l]; auto. exfalso. apply D. right. apply (in_map fst (filter busy gs') (x, y :: l)).
        apply filter_In. split; auto. }
      rewrite K. destruct (eqb_spec x r); congruence.
  Qed.
End Search.
