(** Lemmas about contracting leaves, tree.py:243-286. *)
From Coq Require Import List Bool Arith ZArith QArith Lia ZifyBool ZifyNat Permutation.
From Verif Require Import Base M_Graph M_Partition S_Partition L_Partition M_Machine S_Machine L_Sums
  S_Contiguity L_Search M_Election M_Proposals M_Tree S_Tree S_TreeCuts L_Tree L_TreeCuts.
Import ListNotations.
Local Open Scope nat_scope.

Section Degree.
  Context {N : Type} {EN : EqB N}.
  Lemma degree_kids (T : graph N) r es x : wf_graph T -> search_of T r es -> In x (g_nodes T) ->
    degree T x = List.length (kids es x) + (if eqb x r then 0 else 1).
  Proof.
    intros WF So Hx. assert (R := so_rooted T r es So). unfold degree.
    assert (Up : exists up, List.length up = (if eqb x r then 0 else 1) /\ NoDup up /\ forall p, In p up <-> In (p, x) es).
    { apply (so_nodes _ _ _ So) in Hx. destruct (eqb_spec x r) as [->|Hr].
      - exists []. split; auto. split; [constructor|]. intro p. split; [intros []|]. intro H.
        apply (parent_in r es p r R) in H. tauto.
      - destruct Hx as [->|Hx]; [congruence|]. apply in_map_iff in Hx. destruct Hx as ([p x'] & Ex & He). simpl in Ex. subst x'.
        exists [p]. split; auto. split; [repeat constructor; intros []|]. intro q. split.
        + intros [<-|[]]. exact He.
        + intro H. left. eapply (parent_unique r es); eauto. }
    destruct Up as (up & Lu & NDu & Iu). rewrite <- Lu, <- app_length. apply Permutation_length.
    apply NoDup_Permutation.
    - now apply NoDup_neighbors.
    - apply NoDup_app_iff. split; [eapply kids_nodup; eauto|]. split; auto. intros y H1 H2. apply In_kids in H1. apply Iu in H2.
      eapply (rooted_no_swap r es); eauto.
    - intro y. rewrite In_neighbors, in_app_iff, In_kids, Iu, (search_sym_all T r es x y So). tauto.
  Qed.
End Degree.

Section Contract.
  Context {N : Type} {EN : EqB N}.
  Variables (h : populated N) (one_sided : bool) (r : N) (es : list (N * N)).
  Hypothesis In_h : cut_input h.
  Hypothesis So : search_of (h_tree h) r es.
  Hypothesis Deg : 1 < degree (h_tree h) r.
  Let T := h_tree h.
  Let R : rooted r es := so_rooted T r es So.
  Notation Wt := (W es (h_pop h)).
  Notation pf := (popf (h_pop h)).

  Definition cont_keep (y : N) : bool := has_ideal_population h one_sided (Wt y).
  Definition gone (C : list N) x := filter (fun k => mem k C) (kids es x).
  Definition left_ (C : list N) x := filter (fun k => negb (mem k C)) (kids es x).
  Record inv (C : list N) (s : contracting N) : Prop := {
    i_nodup : NoDup C;
    i_in : forall x, In x C -> In x (map snd es);
    i_closed : forall p c, In (p, c) es -> In p C -> In c C;
    i_pop : forall x, In x (g_nodes T) -> dget (k_pop s) x = Some (pf x + vsum (map Wt (gone C x)))%Z;
    i_sub : forall x, In x (g_nodes T) -> exists l, dget (k_subsets s) x = Some l /\ NoDup l /\
      forall y, In y l <-> y = x \/ In y (flat_map (sub es) (gone C x));
    i_deg : forall x, In x (g_nodes T) -> dget (k_deg s) x = Some (List.length (left_ C x) + (if eqb x r then 0 else 1));
    i_leaves : NoDup (k_leaves s);
    i_leaf : forall x, In x (k_leaves s) <-> In x (map snd es) /\ ~ In x C /\ (forall k, In k (kids es x) -> In k C);
    i_cuts : found h es cont_keep C (fun y x => In x (sub es y)) (k_cuts s)
  }.

  Lemma filter_none {X} (f : X -> bool) l : (forall x, In x l -> f x = false) -> filter f l = [].
  Proof. induction l as [|a l IH]; intro H; auto. simpl. rewrite H by now left. apply IH. intros. apply H. now right. Qed.
  Lemma filter_empty {X} (f : X -> bool) l : filter f l = [] -> forall x, In x l -> f x = false.
  Proof.
    intros H x Hx. destruct (f x) eqn:F; auto. assert (In x (filter f l)) by (now apply filter_In). rewrite H in *. contradiction.
  Qed.
  Lemma node_es p c : In (p, c) es -> In p (g_nodes T) /\ In c (g_nodes T).
  Proof.
    intro He. destruct (parent_in r es p c R He) as (A & B & _). split; apply (so_nodes _ _ _ So); auto. now right.
  Qed.

  (** One more contracted child. *)
  Lemma gone_other C x y : ~ In (y, x) es -> gone (C ++ [x]) y = gone C y.
  Proof.
    intro H. apply filter_ext_in. intros k Hk. destruct (mem_spec k (C ++ [x])) as [H1|H1], (mem_spec k C) as [H2|H2]; auto; rewrite in_app_iff in H1; simpl in H1.
    - destruct H1 as [H1|[<-|[]]]; [tauto|]. elim H. now apply In_kids.
    - tauto.
  Qed.
  Lemma left_other C x y : ~ In (y, x) es -> left_ (C ++ [x]) y = left_ C y.
  Proof.
    intro H. apply filter_ext_in. intros k Hk. f_equal. destruct (mem_spec k (C ++ [x])) as [H1|H1], (mem_spec k C) as [H2|H2]; auto; rewrite in_app_iff in H1; simpl in H1.
    - destruct H1 as [H1|[<-|[]]]; [tauto|]. elim H. now apply In_kids.
    - tauto.
  Qed.
  Lemma gone_parent C x p : In (p, x) es -> ~ In x C -> Permutation (gone (C ++ [x]) p) (x :: gone C p).
  Proof.
    intros He Hx. apply NoDup_Permutation.
    - apply NoDup_filter. eapply kids_nodup. exact R.
    - constructor; [|apply NoDup_filter; eapply kids_nodup; exact R]. intro H. apply filter_In in H. rewrite mem_In in H. tauto.
    - intro y. simpl. unfold gone. rewrite !filter_In, !mem_In, in_app_iff. simpl. split.
      + intros [H1 [H2|[H2|[]]]]; auto.
      + intros [<-|[H1 H2]]; auto. split; auto. now apply In_kids.
  Qed.
  Lemma left_parent C x p : In (p, x) es -> ~ In x C -> Permutation (left_ C p) (x :: left_ (C ++ [x]) p).
  Proof.
    intros He Hx. apply NoDup_Permutation.
    - apply NoDup_filter. eapply kids_nodup. exact R.
    - constructor; [|apply NoDup_filter; eapply kids_nodup; exact R]. intro H. apply filter_In in H. rewrite negb_true_iff, mem_notIn, in_app_iff in H. simpl in H. tauto.
    - intro y. simpl. unfold left_. rewrite !filter_In, !negb_true_iff, !mem_notIn, in_app_iff. simpl. split.
      + intros [H1 H2]. destruct (eq_dec_of x y) as [->|Hn]; auto. right. split; auto. intros [H|[H|[]]]; auto.
      + intros [<-|[H1 H2]]; [|tauto]. split; auto. now apply In_kids.
  Qed.

  Lemma inv_start : inv [] (mkContracting (h_pop h) (map (fun n => (n, [n])) (g_nodes T))
    (map (fun n => (n, degree T n)) (g_nodes T)) (filter (fun x => Nat.eqb (degree T x) 1) (g_nodes T)) []).
  Proof.
    assert (WF := tree_wf _ (ci_tree h In_h)). assert (NDn := wfg_nodes _ WF).
    assert (G0 : forall x, gone [] x = []) by (intro x; now apply filter_none).
    assert (L0 : forall x, left_ [] x = kids es x) by (intro x; now apply filter_all).
    assert (Dm : forall (X : Type) (f : N -> X) l x, In x l -> dget (map (fun n => (n, f n)) l) x = Some (f x)).
    { intros X f l x. induction l as [|a l IH]; intros Hx; [destruct Hx|]. cbn [map dget].
      destruct (eqb_spec x a) as [->|Hn]; auto. apply IH. destruct Hx; congruence. }
    constructor; cbn.
    - constructor.
    - intros x [].
    - intros p c _ [].
    - intros x Hx. rewrite G0. apply (ci_pop h In_h), dget_key in Hx. destruct Hx as (v & Hv). rewrite Hv. unfold popf, dget_or. rewrite Hv. cbn. f_equal. lia.
    - intros x Hx. exists [x]. split; [now apply (Dm _ (fun n => [n]))|]. split; [repeat constructor; intros []|].
      intro y. rewrite G0. simpl. split; [intros [H|[]]; auto|intros [H|[]]; auto].
    - intros x Hx. rewrite (Dm _ (degree T)) by auto. rewrite L0. f_equal. now apply degree_kids.
    - apply NoDup_filter. exact NDn.
    - intro x. rewrite filter_In, Nat.eqb_eq. split.
      + intros [Hx Hd]. rewrite (degree_kids T r es x WF So Hx) in Hd. destruct (eqb_spec x r) as [->|Hr].
        * rewrite (degree_kids _ r es r WF So Hx) in Deg. rewrite eqb_refl in Deg. lia.
        * split; [|split; auto].
          -- apply (so_nodes _ _ _ So) in Hx. destruct Hx as [->|Hx]; [congruence|exact Hx].
          -- intros k Hk. destruct (kids es x); [destruct Hk|simpl in Hd; lia].
      + intros (Hx & _ & Hk). assert (Hxn : In x (g_nodes T)) by (apply (so_nodes _ _ _ So); now right). split; auto.
        rewrite (degree_kids T r es x WF So Hxn).
        destruct (eqb_spec x r) as [->|Hr].
        * assert (ND' := rooted_nodup r es R). inversion ND'; subst. contradiction.
        * destruct (kids es x) as [|k l]; auto. elim (Hk k). now left.
    - constructor; cbn; [constructor| |]; [intros c []|intros p y _ []].
  Qed.

  Lemma inv_step C s leaf rest : inv C s -> k_leaves s = leaf :: rest ->
    exists s', contract_leaf h one_sided r (predecessors es) leaf rest s = Ok s' /\ inv (C ++ [leaf]) s'.
  Proof.
    intros I Lv. assert (Hleaf : In leaf (k_leaves s)) by (rewrite Lv; now left).
    apply (i_leaf _ _ I) in Hleaf. destruct Hleaf as (Hl & HlC & Hk).
    apply in_map_iff in Hl. destruct Hl as ([p l'] & El & He). simpl in El. subst l'.
    destruct (node_es p leaf He) as [Hpn Hln].
    assert (Gall : gone C leaf = kids es leaf).
    { apply filter_all. intros k Hkk. apply mem_In. now apply Hk. }
    assert (Px : dget (k_pop s) leaf = Some (Wt leaf)).
    { rewrite (i_pop _ _ I leaf Hln). f_equal. rewrite Gall, (W_split r es R). apply Z.add_comm. }
    destruct (i_sub _ _ I leaf Hln) as (sl & Sx & NDsl & Isl).
    destruct (i_sub _ _ I p Hpn) as (sp & Sp & NDsp & Isp).
    assert (Isl' : forall y, In y sl <-> In y (sub es leaf)).
    { intro y. rewrite Isl, Gall. assert (P := sub_split r es leaf R). split.
      - intro H. apply (Permutation_in _ (Permutation_sym P)). destruct H as [->|H]; [now left|now right].
      - intro H. apply (Permutation_in _ P) in H. destruct H as [<-|H]; auto. }
    assert (HpC : ~ In p C).
    { intro H. apply HlC. eapply (i_closed _ _ I); eauto. }
    assert (Hpl : p <> leaf) by (intros ->; eapply (rooted_no_swap r es); eauto).
    assert (Lp := left_parent C leaf p He HlC). assert (Gp := gone_parent C leaf p He HlC).
    assert (Dp := i_deg _ _ I p Hpn).
    assert (pd : List.length (left_ C p) + (if eqb p r then 0 else 1) - 1 =
                 List.length (left_ (C ++ [leaf]) p) + (if eqb p r then 0 else 1)).
    { rewrite (Permutation_length Lp). cbn [List.length]. destruct (eqb p r); lia. }
    assert (Other : forall y, y <> p -> ~ In (y, leaf) es) by (intros y Hy H; apply Hy; eapply (parent_unique r es); eauto).
    unfold contract_leaf. rewrite Px, Sx, (proj2 (pred_spec r es leaf p R) He). cbn [bind of_option].
    rewrite (i_pop _ _ I p Hpn), Sp, Dp. cbn [bind of_option]. rewrite pd.
    eexists. split; [reflexivity|].
    assert (Hlr : leaf <> r) by apply (parent_in r es p leaf R He).
    assert (Ndl : ~ In leaf rest /\ NoDup rest).
    { assert (ND := i_leaves _ _ I). rewrite Lv in ND. inversion ND; auto. }
    assert (Rest : forall x, In x rest <-> x <> leaf /\ In x (map snd es) /\ ~ In x C /\ (forall k, In k (kids es x) -> In k C)).
    { intro x. assert (L := i_leaf _ _ I x). rewrite Lv in L. simpl in L. split.
      - intro H. split; [intros ->; tauto|]. apply L. auto.
      - intros [H1 H2]. apply L in H2. destruct H2; [congruence|auto]. }
    assert (AllGone : List.length (left_ (C ++ [leaf]) p) = 0 <-> forall k, In k (kids es p) -> In k (C ++ [leaf])).
    { split.
      - intros H k Hkk. apply length_zero_iff_nil in H. eapply filter_empty in H; [|exact Hkk]. apply negb_false_iff in H. now apply mem_In.
      - intro H. unfold left_. rewrite filter_none; auto. intros k Hkk. apply negb_false_iff, mem_In. auto. }
    assert (LeafIff : forall x, x <> p -> (In x rest <-> In x (map snd es) /\ ~ In x (C ++ [leaf]) /\ (forall k, In k (kids es x) -> In k (C ++ [leaf])))).
    { intros x Hxp. rewrite Rest, in_app_iff. simpl. split.
      - intros (H1 & H2 & H3 & H4). split; auto. split; [intros [H|[H|[]]]; auto|]. intros k Hkk. apply in_app_iff. auto.
      - intros (H1 & H2 & H3). split; [intros ->; tauto|]. split; auto. split; [tauto|]. intros k Hkk.
        specialize (H3 k Hkk). apply in_app_iff in H3. destruct H3 as [H3|[<-|[]]]; auto. apply In_kids in Hkk. elim (Other x Hxp Hkk). }
    assert (HpRest : ~ In p rest).
    { intro H. apply Rest in H. apply HlC. apply H. now apply In_kids. }
    constructor; cbn.
    - apply NoDup_app_single; auto. apply (i_nodup _ _ I).
    - intros x Hx. apply in_app_iff in Hx. destruct Hx as [Hx|[<-|[]]]; [now apply (i_in _ _ I)|]. apply in_map_iff. now exists (p, leaf).
    - intros a b Hab Ha. apply in_app_iff in Ha. apply in_app_iff. left. destruct Ha as [Ha|[<-|[]]].
      + eapply (i_closed _ _ I); eauto.
      + apply Hk. now apply In_kids.
    - intros x Hx. rewrite dget_dset. destruct (eqb_spec x p) as [->|Hxp].
      + f_equal. rewrite (vsum_perm _ _ (Permutation_map Wt Gp)). cbn [map]. rewrite vsum_cons. change (cadd ?a ?b) with (Z.add a b). lia.
      + rewrite gone_other by auto. now apply (i_pop _ _ I).
    - intros x Hx. rewrite dget_dset. destruct (eqb_spec x p) as [->|Hxp].
      + exists (sunion sp sl). split; auto. split; [now apply NoDup_sunion|]. intro y. rewrite In_sunion, Isp, Isl'.
        assert (PF := Permutation_flat_map (sub es) Gp). cbn [flat_map] in PF. split.
        * intros [[H|H]|H]; auto; right; apply (Permutation_in _ (Permutation_sym PF)), in_app_iff; auto.
        * intros [H|H]; auto. apply (Permutation_in _ PF), in_app_iff in H. tauto.
      + rewrite gone_other by auto. now apply (i_sub _ _ I).
    - intros x Hx. rewrite dget_dset. destruct (eqb_spec x p) as [->|Hxp]; auto.
      rewrite left_other by auto. now apply (i_deg _ _ I).
    - destruct Ndl as [N1 N2]. destruct (Nat.eqb _ 1 && negb (eqb p r)); auto. now apply NoDup_app_single.
    - intro x. destruct (eqb_spec p r) as [Epr|Hpr].
      + rewrite andb_false_r. destruct (eq_dec_of x p) as [->|Hxp]; [|now apply LeafIff].
        split; [contradiction|]. intros (H & _). rewrite Epr in H. assert (ND' := rooted_nodup r es R). inversion ND'; subst. contradiction.
      + rewrite andb_true_r. destruct (eq_dec_of x p) as [->|Hxp].
        * destruct (Nat.eqb_spec (List.length (left_ (C ++ [leaf]) p) + 1) 1) as [E|E].
          -- rewrite in_app_iff. split; [intros _|simpl; auto]. split.
             ++ apply (so_nodes _ _ _ So) in Hpn. destruct Hpn as [<-|H]; [congruence|exact H].
             ++ split; [rewrite in_app_iff; simpl; intros [H|[H|[]]]; auto|]. apply AllGone. lia.
          -- split; [contradiction|]. intros (_ & _ & H). apply AllGone in H. lia.
        * rewrite <- LeafIff by auto. destruct (Nat.eqb _ 1); [|tauto]. rewrite in_app_iff. simpl. split; [intros [H|[H|[]]]; auto; congruence|auto].
    - assert (F := i_cuts _ _ I).
      assert (Same : forall q y, In (q, y) es -> In y (C ++ [leaf]) -> cont_keep y = true -> y <> leaf -> exists c, In c (k_cuts s) /\ cut_edge c = (y, q)).
      { intros q y Hq Hy K Hyl. apply in_app_iff in Hy. destruct Hy as [Hy|[<-|[]]]; [|congruence]. eapply (fo_complete _ _ _ _ _ _ F); eauto. }
      change (has_ideal_population h one_sided (Wt leaf)) with (cont_keep leaf).
      destruct (cont_keep leaf) eqn:K; constructor.
      + rewrite map_app. cbn [map cut_edge fst]. apply NoDup_app_single; [apply (fo_once _ _ _ _ _ _ F)|].
        intro H. apply in_map_iff in H. destruct H as (c & Ec & Hc). destruct (fo_sound _ _ _ _ _ _ F c Hc) as (q & y & _ & Hy & _ & Ec' & _).
        rewrite Ec' in Ec. simpl in Ec. congruence.
      + intros c Hc. apply in_app_iff in Hc. destruct Hc as [Hc|[<-|[]]].
        * destruct (fo_sound _ _ _ _ _ _ F c Hc) as (q & y & A1 & A2 & A3). exists q, y. split; auto. split; auto. apply in_app_iff. auto.
        * exists p, leaf. cbn. split; auto. split; [apply in_app_iff; simpl; auto|]. auto.
      + intros q y Hq Hy Ky. destruct (eq_dec_of y leaf) as [->|Hyl].
        * assert (q = p) by (eapply (parent_unique r es); eauto). subst q. eexists. split; [apply in_app_iff; right; now left|reflexivity].
        * destruct (Same q y Hq Hy Ky Hyl) as (c & Hc & Ec). exists c. split; auto. apply in_app_iff. auto.
      + apply (fo_once _ _ _ _ _ _ F).
      + intros c Hc. destruct (fo_sound _ _ _ _ _ _ F c Hc) as (q & y & A1 & A2 & A3). exists q, y. split; auto. split; auto. apply in_app_iff. auto.
      + intros q y Hq Hy Ky. apply (Same q y); auto. intros ->. congruence.
  Qed.

  Lemma inv_loop fuel : forall C s, inv C s -> List.length (map snd es) <= List.length C + fuel ->
    exists cuts, contract_loop fuel h one_sided r (predecessors es) s = Ok cuts /\
      found h es cont_keep (map snd es) (fun y x => In x (sub es y)) cuts.
  Proof.
    induction fuel as [|fuel IH]; intros C s I Lf.
    - assert (Full : forall x, In x (map snd es) -> In x C).
      { apply (NoDup_length_incl (i_nodup _ _ I)); [lia|]. exact (i_in _ _ I). }
      assert (k_leaves s = []).
      { destruct (k_leaves s) as [|x l] eqn:E; auto. assert (H : In x (k_leaves s)) by (rewrite E; now left).
        apply (i_leaf _ _ I) in H. destruct H as (H1 & H2 & _). elim H2. auto. }
      exists (k_cuts s). cbn [contract_loop]. rewrite H. split; auto. assert (F := i_cuts _ _ I). constructor.
      + apply (fo_once _ _ _ _ _ _ F).
      + intros c Hc. destruct (fo_sound _ _ _ _ _ _ F c Hc) as (q & y & A1 & A2 & A3). exists q, y. split; auto. split; auto. now apply (i_in _ _ I).
      + intros q y Hq Hy Ky. apply (fo_complete _ _ _ _ _ _ F); auto.
    - cbn [contract_loop]. destruct (k_leaves s) as [|leaf rest] eqn:E.
      + exists (k_cuts s). split; auto.
        assert (Full : forall x, In x (map snd es) -> In x C).
        { intro x. apply (kids_ind r es (fun x => In x (map snd es) -> In x C) R). clear x. intros x IHx Hx.
          destruct (In_dec_of x C) as [H|H]; auto.
          assert (HL : In x (k_leaves s)).
          { apply (i_leaf _ _ I). split; auto. split; auto. intros k Hk. apply IHx; auto. apply In_kids in Hk. apply (parent_in r es x k R Hk). }
          rewrite E in HL. destruct HL. }
        assert (F := i_cuts _ _ I). constructor.
        * apply (fo_once _ _ _ _ _ _ F).
        * intros c Hc. destruct (fo_sound _ _ _ _ _ _ F c Hc) as (q & y & A1 & A2 & A3). exists q, y. split; auto. split; auto. now apply (i_in _ _ I).
        * intros q y Hq Hy Ky. apply (fo_complete _ _ _ _ _ _ F); auto.
      + destruct (inv_step C s leaf rest I E) as (s' & Es & I'). rewrite Es. cbn [bind].
        apply (IH (C ++ [leaf])); auto. rewrite app_length. simpl. lia.
  Qed.
End Contract.
