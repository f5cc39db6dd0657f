(** C29-C32, C90, C91: connectivity checks. *)
From Coq Require Import String List Bool Arith ZArith Lia ZifyBool ZifyNat.
From Verif Require Import Base M_Graph M_Partition S_Partition L_Partition M_Machine S_Machine L_Cuts
  L_Machine L_Answers P_Partition P_Machine M_Constraints P_Constraints M_Chain P_Chain
  M_Contiguity S_Contiguity L_Search.
Import ListNotations.
Local Open Scope list_scope.

Section Pure.
  Context {N P : Type} {EN : EqB N} {EP : EqB P}.
  Variable g : graph N.
  Hypothesis Wg : wf_graph g.
  Implicit Types (A B : assignment N P) (p q : P) (f : dict N P).

  (** ** Districts as subgraphs *)
  Definition same_elements {X} (l1 l2 : list X) : Prop := forall x, In x l1 <-> In x l2.

  Lemma district_nodes A p s : coherent (g_nodes g) A -> dget (a_parts A) p = Some s ->
    forall n, In n s <-> in_district A p n.
  Proof.
    intros C Hs n. unfold in_district. rewrite (coh_agree _ _ C). unfold listed. split.
    - intro H. exists s. auto.
    - intros (s' & Hs' & H). congruence.
  Qed.
  Lemma in_district_node A p n : coherent (g_nodes g) A -> in_district A p n -> In n (g_nodes g).
  Proof.
    intros C H. apply (coh_dom _ _ C). apply dget_key. exists p. exact H.
  Qed.
  Lemma in_district_label A p n : coherent (g_nodes g) A -> in_district A p n -> In p (labels A).
  Proof.
    intros C H. apply (coh_agree _ _ C) in H. destruct H as (s & Hs & _). eapply dget_Some_key; eauto.
  Qed.
  Lemma subgraph_district A p s : coherent (g_nodes g) A -> dget (a_parts A) p = Some s ->
    (forall n, In n (g_nodes (subgraph g s)) <-> in_district A p n) /\
    (forall u v, adj (subgraph g s) u v <-> adj g u v /\ in_district A p u /\ in_district A p v).
  Proof.
    intros C Hs. pose proof (district_nodes A p s C Hs) as D. split.
    - intro n. rewrite subgraph_nodes, D. split; [tauto|]. intro H. split; auto. eapply in_district_node; eauto.
    - intros u v. now rewrite adj_subgraph, !D.
  Qed.

  (** What a connectivity test on one district must say. *)
  Definition tests (test : P -> res bool) (empty : exn) A : Prop := forall p,
    (~ In p (labels A) -> test p = Err KeyError) /\
    (In p (labels A) -> ~ (exists n, in_district A p n) -> test p = Err empty) /\
    (In p (labels A) -> (exists n, in_district A p n) ->
       exists b, test p = Ok b /\ (b = true <-> connected_on g (in_district A p))).

  Lemma nx_tests A : coherent (g_nodes g) A ->
    tests (fun p => s <- district_graph g A p ;; is_connected s) PointlessConcept A.
  Proof.
    intros C p. unfold district_graph. split; [|split].
    - intro Hn. assert (dget (a_parts A) p = None) as -> by (now apply dget_None). reflexivity.
    - intros Hl Hne. apply dget_key in Hl. destruct Hl as [s Hs]. rewrite Hs. cbn [bind of_option].
      destruct (subgraph_district A p s C Hs) as [D1 _].
      pose proof (is_connected_spec (subgraph g s) (wf_subgraph g s Wg)) as H.
      destruct (g_nodes (subgraph g s)) as [|n r]; auto. exfalso. apply Hne. exists n. apply D1. now left.
    - intros Hl (n & Hn). apply dget_key in Hl. destruct Hl as [s Hs]. rewrite Hs. cbn [bind of_option].
      destruct (subgraph_district A p s C Hs) as [D1 D2].
      pose proof (is_connected_spec (subgraph g s) (wf_subgraph g s Wg)) as H.
      assert (Hne : g_nodes (subgraph g s) <> []).
      { intro E0. apply D1 in Hn. rewrite E0 in Hn. destruct Hn. }
      assert (H' : exists b, is_connected (subgraph g s) = Ok b /\
             (b = true <-> forall u v, In u (g_nodes (subgraph g s)) -> In v (g_nodes (subgraph g s)) ->
                             reach (adj (subgraph g s)) u v)).
      { revert H. destruct (g_nodes (subgraph g s)); [contradiction|auto]. }
      destruct H' as (b & Hb & Sp). exists b. split; auto. rewrite Sp. unfold connected_on. split.
      + intros K u v Hu Hv. apply D1 in Hu, Hv. specialize (K u v Hu Hv).
        revert K. apply reach_mono. intros x y. apply D2.
      + intros K u v Hu Hv. apply D1 in Hu, Hv. specialize (K u v Hu Hv).
        revert K. apply reach_mono. intros x y. apply D2.
  Qed.

  Lemma bfs_spec (h : graph N) : wf_graph h ->
    match g_nodes h with
    | [] => bfs h = Err StopIteration
    | _ => exists b, bfs h = Ok b /\
             (b = true <-> forall u v, In u (g_nodes h) -> In v (g_nodes h) -> reach (adj h) u v)
    end.
  Proof.
    intro W. unfold bfs. destruct (g_nodes h) as [|s r] eqn:En; auto.
    pose proof (wfg_nodes h W) as ND. rewrite En in ND.
    destruct (Nat.leb_spec (List.length (s :: r)) 1) as [Hle|Hgt].
    - exists true. split; auto. split; auto. intros _ u v Hu Hv.
      destruct r as [|? ?]; [|simpl in Hle; lia]. destruct Hu as [<-|[]]. destruct Hv as [<-|[]]. constructor.
    - destruct (bfs_loop_spec (neighbors h) (s :: r) s) with (fuel := 2 + List.length (s :: r)) (q := [s]) (visited := @nil N)
        as (c & Hc & NDc & Ic & Rc & Cc); auto.
      + intros u v _ Hv. apply In_neighbors in Hv. rewrite <- En. apply (adj_nodes h u v W Hv).
      + now left.
      + intros x [].
      + constructor.
      + intros x Hx. exact Hx.
      + intros x [].
      + intros x y [<-|[]] H. exfalso. apply H. now left.
      + simpl. lia.
      + rewrite Hc. cbn [bind of_option]. eexists. split; [reflexivity|]. rewrite Nat.eqb_eq.
        assert (Mono : forall u v, reach (fun a b => In b (neighbors h a)) u v <-> reach (adj h) u v).
        { intros u v. split; apply reach_mono; intros x y; apply In_neighbors. }
        split.
        * intros Hlen u v Hu Hv. assert (Inc : incl (s :: r) c) by (apply NoDup_length_incl; auto; lia).
          apply reach_trans with s.
          -- apply reach_sym; [intros; now apply adj_sym|]. apply Mono, Rc, Inc, Hu.
          -- apply Mono, Rc, Inc, Hv.
        * intro H. assert (Inc : incl (s :: r) c).
          { assert (Cl : forall x, reach (adj h) s x -> x = s \/ In x c).
            { intros x Hx. induction Hx as [|x y Hx IH Hxy]; auto. right.
              apply (Cc x y); [|now apply In_neighbors]. destruct IH as [->|]; [now left|now right]. }
            assert (Hall : forall x, In x (s :: r) -> x = s \/ In x c).
            { intros x Hx. apply Cl, H; auto. now left. }
            assert (Hs : In s c).
            { destruct r as [|x r]; [simpl in Hgt; lia|].
              assert (Hx : In x c).
              { destruct (Hall x) as [->|]; auto; [now right; left|].
                inversion ND as [|? ? Hn _]. exfalso. apply Hn. now left. }
              destruct (reach_first (adj h) s x) as [->|(y & Hy & _)].
              - apply H; [now left|now right; left].
              - exact Hx.
              - assert (Hyn : In y (neighbors h s)) by (now apply In_neighbors).
                assert (Hyc : In y c) by (apply (Cc s y); [now left|exact Hyn]).
                apply (Cc y s); [now right|]. apply In_neighbors. now apply adj_sym. }
            intros x Hx. destruct (Hall x Hx) as [->|]; auto. }
          pose proof (NoDup_incl_length ND Inc). pose proof (NoDup_incl_length NDc Ic). lia.
  Qed.

  Lemma bfs_tests A : coherent (g_nodes g) A ->
    tests (fun p => s <- district_graph g A p ;; bfs s) StopIteration A.
  Proof.
    intros C p. unfold district_graph. split; [|split].
    - intro Hn. assert (dget (a_parts A) p = None) as -> by (now apply dget_None). reflexivity.
    - intros Hl Hne. apply dget_key in Hl. destruct Hl as [s Hs]. rewrite Hs. cbn [bind of_option].
      destruct (subgraph_district A p s C Hs) as [D1 _].
      pose proof (bfs_spec (subgraph g s) (wf_subgraph g s Wg)) as H.
      destruct (g_nodes (subgraph g s)) as [|n r]; auto. exfalso. apply Hne. exists n. apply D1. now left.
    - intros Hl (n & Hn). apply dget_key in Hl. destruct Hl as [s Hs]. rewrite Hs. cbn [bind of_option].
      destruct (subgraph_district A p s C Hs) as [D1 D2].
      pose proof (bfs_spec (subgraph g s) (wf_subgraph g s Wg)) as H.
      assert (Hne : g_nodes (subgraph g s) <> []).
      { intro E0. apply D1 in Hn. rewrite E0 in Hn. destruct Hn. }
      assert (H' : exists b, bfs (subgraph g s) = Ok b /\
             (b = true <-> forall u v, In u (g_nodes (subgraph g s)) -> In v (g_nodes (subgraph g s)) ->
                             reach (adj (subgraph g s)) u v)).
      { revert H. destruct (g_nodes (subgraph g s)); [contradiction|auto]. }
      destruct H' as (b & Hb & Sp). exists b. split; auto. rewrite Sp. unfold connected_on. split.
      + intros K u v Hu Hv. apply D1 in Hu, Hv. specialize (K u v Hu Hv).
        revert K. apply reach_mono. intros x y. apply D2.
      + intros K u v Hu Hv. apply D1 in Hu, Hv. specialize (K u v Hu Hv).
        revert K. apply reach_mono. intros x y. apply D2.
  Qed.

  Lemma all_pass_spec (test : P -> res bool) : forall ps,
    (all_pass test ps = Ok true <-> forall p, In p ps -> test p = Ok true) /\
    (all_pass test ps = Ok false -> exists p, In p ps /\ test p = Ok false) /\
    (forall e, all_pass test ps = Err e -> exists p, In p ps /\ test p = Err e) /\
    (all_pass test ps = NoFuel -> exists p, In p ps /\ test p = NoFuel).
  Proof.
    induction ps as [|p ps (I1 & I2 & I3 & I4)]; simpl.
    - split; [split; [intros _ p []|auto]|]. split; [discriminate|]. split; discriminate.
    - destruct (test p) as [[|]|e|] eqn:Et; simpl.
      + split; [|split; [|split]].
        * rewrite I1. split; [intros H q [<-|Hq]; auto|intros H q Hq; auto].
        * intro H. destruct (I2 H) as (q & ? & ?). eauto.
        * intros e H. destruct (I3 e H) as (q & ? & ?). eauto.
        * intro H. destruct (I4 H) as (q & ? & ?). eauto.
      + split; [split; [discriminate|intro H; rewrite H in Et; [discriminate|auto]]|].
        split; [eauto|]. split; discriminate.
      + split; [split; [discriminate|intro H; rewrite H in Et; [discriminate|auto]]|].
        split; [discriminate|]. split; [|discriminate]. intros e' [= <-]. eauto.
      + split; [split; [discriminate|intro H; rewrite H in Et; [discriminate|auto]]|].
        split; [discriminate|]. split; [discriminate|]. eauto.
  Qed.

  (** The result of a check of the districts [ps]. *)
  Definition verdict_on (empty : exn) A ps (r : res bool) : Prop :=
    (r = Ok true <-> forall p, In p ps -> district_ok g A p) /\
    (r = Ok false -> exists p, In p ps /\ (exists n, in_district A p n) /\ ~ connected_on g (in_district A p)) /\
    (forall e, r = Err e -> e = empty /\ exists p, In p ps /\ ~ exists n, in_district A p n) /\
    r <> NoFuel.

  Lemma all_pass_verdict test empty A ps : tests test empty A -> incl ps (labels A) ->
    (forall p, In p (labels A) -> (exists n, in_district A p n) \/ ~ exists n, in_district A p n) ->
    verdict_on empty A ps (all_pass test ps).
  Proof.
    intros T I Dec. destruct (all_pass_spec test ps) as (A1 & A2 & A3 & A4).
    assert (T' : forall p, In p ps -> (exists n, in_district A p n) ->
              exists b, test p = Ok b /\ (b = true <-> connected_on g (in_district A p))).
    { intros p Hp. apply T. now apply I. }
    assert (T2 : forall p, In p ps -> ~ (exists n, in_district A p n) -> test p = Err empty).
    { intros p Hp. apply T. now apply I. }
    split; [|split; [|split]].
    - rewrite A1. split; intros H p Hp; specialize (H p Hp).
      + destruct (Dec p (I p Hp)) as [Hx|Hx].
        * destruct (T' p Hp Hx) as (b & Hb & Sp). split; auto. apply Sp. congruence.
        * rewrite (T2 p Hp Hx) in H. discriminate.
      + destruct H as [Hx Hc]. destruct (T' p Hp Hx) as (b & Hb & Sp). rewrite Hb. f_equal. now apply Sp.
    - intro H. destruct (A2 H) as (p & Hp & Ht). exists p. split; auto.
      destruct (Dec p (I p Hp)) as [Hx|Hx].
      + destruct (T' p Hp Hx) as (b & Hb & Sp). split; auto. intro Hc. apply Sp in Hc. congruence.
      + rewrite (T2 p Hp Hx) in Ht. discriminate.
    - intros e H. destruct (A3 e H) as (p & Hp & Ht). destruct (Dec p (I p Hp)) as [Hx|Hx].
      + destruct (T' p Hp Hx) as (b & Hb & Sp). congruence.
      + rewrite (T2 p Hp Hx) in Ht. split; [congruence|]. eauto.
    - intro H. destruct (A4 H) as (p & Hp & Ht). destruct (Dec p (I p Hp)) as [Hx|Hx].
      + destruct (T' p Hp Hx) as (b & Hb & Sp). congruence.
      + rewrite (T2 p Hp Hx) in Ht. congruence.
  Qed.

  Lemma empty_dec A p : coherent (g_nodes g) A -> In p (labels A) ->
    (exists n, in_district A p n) \/ ~ exists n, in_district A p n.
  Proof.
    intros C Hl. apply dget_key in Hl. destruct Hl as [s Hs].
    pose proof (district_nodes A p s C Hs) as D. destruct s as [|n s].
    - right. intros (n & Hn). apply D in Hn. destruct Hn.
    - left. exists n. apply D. now left.
  Qed.

  (** ** Affected districts *)
  Lemma flip_child B f A : coherent (g_nodes g) B -> is_dict f -> flip_assignment B f = Ok A ->
    coherent (g_nodes g) A /\ labels A = labels B /\ flipped B f A.
  Proof.
    intros C D H. split; [eapply flip_coherent; eauto|]. split; [eapply flip_labels; eauto|].
    intro n. eapply flip_district; eauto.
  Qed.

  Lemma affected_spec B f A : coherent (g_nodes g) B -> coherent (g_nodes g) A -> labels A = labels B ->
    is_dict f -> flipped B f A ->
    exists aff, affected_parts A (Some f) (Some B) = Ok aff /\ incl aff (labels A) /\
      forall p, ~ In p aff -> forall n, in_district A p n <-> in_district B p n.
  Proof.
    intros CB CA Lb D Fl. unfold affected_parts.
    assert (Hin : forall n p, In (n, p) f -> in_district A p n).
    { intros n p H. unfold in_district. rewrite Fl. unfold overridden. now rewrite (In_dget f n p D H). }
    assert (Hold : forall n p, In (n, p) f -> exists q, dget (a_map B) n = Some q).
    { intros n p H. apply dget_key, (coh_dom _ _ CB). eapply in_district_node; eauto. }
    assert (G : forall l acc, (forall n p, In (n, p) l -> In (n, p) f) -> incl acc (labels A) ->
      exists aff, foldM (fun acc np => old <- of_option KeyError (dget (a_map B) (fst np)) ;;
           Ok (sadd old (sadd (snd np) acc))) l acc = Ok aff /\ incl aff (labels A) /\
        (forall p, In p aff <-> In p acc \/ exists n q, In (n, q) l /\ (p = q \/ dget (a_map B) n = Some p))).
    { induction l as [|[n p] l IH]; intros acc Hl Ha.
      - exists acc. split; [reflexivity|]. split; auto. intro p. split; auto. intros [|(n & q & [] & _)]. auto.
      - destruct (Hold n p (Hl n p (or_introl eq_refl))) as [q Hq]. simpl. rewrite Hq. simpl.
        destruct (IH (sadd q (sadd p acc))) as (aff & -> & I1 & I2).
        + intros m r H. apply Hl. now right.
        + intros r Hr. rewrite !In_sadd in Hr. destruct Hr as [->|[->|Hr]]; auto.
          * rewrite Lb. eapply in_district_label; eauto.
          * eapply in_district_label; eauto. apply Hin, Hl. now left.
        + exists aff. split; auto. split; auto. intro r. rewrite I2, !In_sadd. split.
          * intros [[->|[->|Hr]]|(m & t & H & K)]; auto.
            -- right. exists n, p. split; [now left|]. auto.
            -- right. exists n, p. split; [now left|]. auto.
            -- right. exists m, t. split; [now right|]. auto.
          * intros [Hr|(m & t & [[= <- <-]|H] & K)]; auto.
            -- destruct K as [->|K]; auto. left. left. congruence.
            -- right. exists m, t. auto. }
    destruct (G f []) as (aff & -> & I1 & I2); auto. { intros p []. }
    exists aff. split; auto. split; auto. intros p Hp n.
    unfold in_district. rewrite Fl. unfold overridden, district. destruct (dget f n) as [q|] eqn:Ef; [|tauto].
    apply dget_In in Ef. split.
    - intros [= ->]. exfalso. apply Hp, I2. right. exists n, p. auto.
    - intro Hd. exfalso. apply Hp, I2. right. exists n, q. auto.
  Qed.

  Lemma connected_on_ext (S1 S2 : N -> Prop) : (forall n, S1 n <-> S2 n) -> connected_on g S1 -> connected_on g S2.
  Proof.
    intros H C u v Hu Hv. apply H in Hu, Hv. specialize (C u v Hu Hv). revert C. apply reach_mono.
    intros a b (H1 & H2 & H3). split; auto. split; now apply H.
  Qed.

  Lemma affected_enough B f A aff : contiguous_plan g B -> labels A = labels B ->
    incl aff (labels A) ->
    (forall p, ~ In p aff -> forall n, in_district A p n <-> in_district B p n) ->
    (forall p, In p aff -> district_ok g A p) <-> contiguous_plan g A.
  Proof.
    intros CB Lb I U. split.
    - intros H p Hp. destruct (In_dec_of p aff) as [Ha|Ha]; auto.
      rewrite Lb in Hp. destruct (CB p Hp) as [(n & Hn) Hc]. split.
      + exists n. now apply U.
      + apply connected_on_ext with (in_district B p); auto. intro m. symmetry. now apply U.
    - intros H p Hp. apply H, I, Hp.
  Qed.

  (** C29. On a child of a contiguous plan the check of the affected districts,
      in any order, accepts exactly the contiguous plans, answers False only if
      some district is disconnected, and raises only if a district is empty. *)
  Definition decides_contiguity (empty : exn) A (r : res bool) : Prop :=
    (r = Ok true <-> contiguous_plan g A) /\
    (r = Ok false -> exists p, In p (labels A) /\ (exists n, in_district A p n) /\
                               ~ connected_on g (in_district A p)) /\
    (forall e, r = Err e -> e = empty /\ exists p, In p (labels A) /\ ~ exists n, in_district A p n) /\
    r <> NoFuel.

  Lemma verdict_decides empty A aff ps r : same_elements ps aff -> incl aff (labels A) ->
    ((forall p, In p aff -> district_ok g A p) <-> contiguous_plan g A) ->
    verdict_on empty A ps r -> decides_contiguity empty A r.
  Proof.
    intros Se I En (V1 & V2 & V3 & V4). split; [|split; [|split]]; auto.
    - rewrite V1, <- En. split; intros H p Hp; apply H, Se, Hp.
    - intro H. destruct (V2 H) as (p & Hp & K). exists p. split; auto. apply I, Se, Hp.
    - intros e H. destruct (V3 e H) as [-> (p & Hp & K)]. split; auto. exists p. split; auto. apply I, Se, Hp.
  Qed.

  Lemma child_decides B f A : coherent (g_nodes g) B -> coherent (g_nodes g) A -> labels A = labels B ->
    is_dict f -> flipped B f A -> contiguous_plan g B ->
    exists aff, affected_parts A (Some f) (Some B) = Ok aff /\
      forall ps, same_elements ps aff ->
        decides_contiguity PointlessConcept A (contiguous_on g A ps) /\
        decides_contiguity StopIteration A (contiguous_bfs_on g A ps).
  Proof.
    intros CB CA Lb D Fl Cg. destruct (affected_spec B f A CB CA Lb D Fl) as (aff & Ha & I & U).
    exists aff. split; auto. intros ps Se.
    assert (Ip : incl ps (labels A)) by (intros p Hp; apply I, Se, Hp).
    pose proof (affected_enough B f A aff Cg Lb I U) as En.
    split; eapply verdict_decides; eauto; apply all_pass_verdict; auto.
    - now apply nx_tests.
    - intros. now apply empty_dec.
    - now apply bfs_tests.
    - intros. now apply empty_dec.
  Qed.

  Theorem C29_contiguous_child : forall B f A,
    coherent (g_nodes g) B -> is_dict f -> flip_assignment B f = Ok A -> contiguous_plan g B ->
    exists aff, affected_parts A (Some f) (Some B) = Ok aff /\
      contiguous g A (Some f) (Some B) = contiguous_on g A aff /\
      forall ps, same_elements ps aff ->
        decides_contiguity PointlessConcept A (contiguous_on g A ps).
  Proof.
    intros B f A CB D Hf Cg. destruct (flip_child B f A CB D Hf) as (CA & Lb & Fl).
    destruct (child_decides B f A CB CA Lb D Fl Cg) as (aff & Ha & H). exists aff. split; auto.
    split; [unfold contiguous; now rewrite Ha|]. intros ps Se. now apply H.
  Qed.

  (** C29. On a plan that is not a flip of another one all districts are checked. *)
  Theorem C29_contiguous_root : forall A parent, coherent (g_nodes g) A ->
    decides_contiguity PointlessConcept A (contiguous g A None parent).
  Proof.
    intros A parent CA. unfold contiguous. cbn [bind of_option].
    apply (verdict_decides _ _ (labels A) (labels A)); [red; tauto|apply incl_refl|unfold contiguous_plan; tauto|].
    apply all_pass_verdict; [now apply nx_tests|apply incl_refl|intros; now apply empty_dec].
  Qed.

  (** C30. The same for contiguous_bfs, which raises StopIteration. *)
  Theorem C30_contiguous_bfs_child : forall B f A,
    coherent (g_nodes g) B -> is_dict f -> flip_assignment B f = Ok A -> contiguous_plan g B ->
    exists aff, affected_parts A (Some f) (Some B) = Ok aff /\
      contiguous_bfs g A (Some f) (Some B) = contiguous_bfs_on g A aff /\
      forall ps, same_elements ps aff ->
        decides_contiguity StopIteration A (contiguous_bfs_on g A ps).
  Proof.
    intros B f A CB D Hf Cg. destruct (flip_child B f A CB D Hf) as (CA & Lb & Fl).
    destruct (child_decides B f A CB CA Lb D Fl Cg) as (aff & Ha & H). exists aff. split; auto.
    split; [unfold contiguous_bfs; now rewrite Ha|]. intros ps Se. now apply H.
  Qed.
  Theorem C30_contiguous_bfs_root : forall A parent, coherent (g_nodes g) A ->
    decides_contiguity StopIteration A (contiguous_bfs g A None parent).
  Proof.
    intros A parent CA. unfold contiguous_bfs. cbn [bind of_option].
    apply (verdict_decides _ _ (labels A) (labels A)); [red; tauto|apply incl_refl|unfold contiguous_plan; tauto|].
    apply all_pass_verdict; [now apply bfs_tests|apply incl_refl|intros; now apply empty_dec].
  Qed.
  (** C30. An affected empty district makes contiguous_bfs raise StopIteration,
      unless a disconnected one is met before. *)
  Theorem C30_empty_district_raises : forall A parent p, coherent (g_nodes g) A ->
    In p (labels A) -> ~ (exists n, in_district A p n) ->
    contiguous_bfs g A None parent = Err StopIteration \/ contiguous_bfs g A None parent = Ok false.
  Proof.
    intros A parent p CA Hp Hn. destruct (C30_contiguous_bfs_root A parent CA) as (D1 & D2 & D3 & D4).
    destruct (contiguous_bfs g A None parent) as [[|]|e|].
    - exfalso. apply Hn. now apply (proj1 D1 eq_refl).
    - auto.
    - left. f_equal. now apply (D3 e).
    - congruence.
  Qed.

  (** ** C31: single flips *)
  Variable pick : N -> list N -> N.
  Hypothesis pick_ok : forall x l, l <> [] -> In (pick x l) l.

  Lemma mapM_districts A : coherent (g_nodes g) A -> forall l, (forall n, In n l -> In n (g_nodes g)) ->
    exists nds, mapM (fun n => p <- of_option KeyError (dget (a_map A) n) ;; Ok (n, p)) l = Ok nds /\
      forall q x, In x (map fst (filter (fun np => eqb (snd np) q) nds)) <-> In x l /\ in_district A q x.
  Proof.
    intros CA. induction l as [|n l IH]; intro H.
    - exists []. split; auto. intros q x. simpl. tauto.
    - destruct IH as (nds & Hm & Sp); [intros; apply H; now right|].
      assert (Hn : In n (dkeys (a_map A))) by (apply (coh_dom _ _ CA), H; now left).
      apply dget_key in Hn. destruct Hn as [p Hp]. simpl. rewrite Hp. cbn [bind of_option]. rewrite Hm. cbn [bind of_option].
      exists ((n, p) :: nds). split; auto. intros q x. simpl.
      destruct (eqb_spec p q) as [->|Hne]; simpl; rewrite Sp.
      + split.
        * intros [<-|[? ?]]; auto.
        * intros [[<-|?] ?]; auto.
      + split.
        * intros [? ?]; auto.
        * intros [[<-|?] Hd]; auto. unfold in_district, district in Hd. congruence.
  Qed.

  (** Edges inside a district. *)
  Definition inner A p (a b : N) : Prop := adj g a b /\ in_district A p a /\ in_district A p b.

  Lemma flip_keeps_spec A B x p : coherent (g_nodes g) A -> In x (g_nodes g) ->
    in_district B p x ->
    exists b, flip_keeps g pick A B x = Ok b /\
      (b = true <-> (exists n, adj g x n /\ in_district A p n) /\
                    forall m n, adj g x m -> in_district A p m -> adj g x n -> in_district A p n ->
                                reach (inner A p) m n).
  Proof.
    intros CA Hx Hp. unfold flip_keeps. unfold in_district, district in Hp. rewrite Hp. cbn [bind of_option].
    destruct (mapM_districts A CA (neighbors g x)) as (nds & -> & Sp).
    { intros n Hn. apply In_neighbors in Hn. apply (adj_nodes g x n Wg Hn). }
    cbn [bind of_option]. set (old := map fst (filter (fun np : N * P => eqb (snd np) p) nds)).
    assert (Old : forall n, In n old <-> adj g x n /\ in_district A p n).
    { intro n. unfold old. rewrite Sp, In_neighbors. tauto. }
    destruct old as [|n0 old'] eqn:Eo.
    - exists false. split; auto. split; [discriminate|]. intros [(n & Hn) _]. exfalso. apply (proj2 (Old n)). tauto.
    - set (s := pick x (n0 :: old')). assert (Hs : In s (n0 :: old')) by (apply pick_ok; discriminate).
      pose proof (proj1 (Old s) Hs) as [Hs1 Hs2].
      destruct (are_reachable_spec g Wg (fun u v => negb (eqb (dget (a_map A) u) (dget (a_map A) v))) s (n0 :: old'))
        as (b & -> & Hb).
      { apply (adj_nodes g x s Wg Hs1). }
      exists b. split; auto.
      assert (Ro : forall t, reach (open_edge g (fun u v => negb (eqb (dget (a_map A) u) (dget (a_map A) v)))) s t <->
                             reach (inner A p) s t).
      { intro t. split; intro H.
        - assert (K : reach (inner A p) s t /\ in_district A p t).
          { induction H as [|u w H IH [Hadj Hop]]; [split; [constructor|auto]|]. destruct IH as [IH Hu].
            apply negb_false_iff in Hop. apply eqb_true in Hop.
            assert (Hw : in_district A p w) by (unfold in_district, district in *; congruence).
            split; auto. eapply reach_step; eauto. split; auto. }
          apply K.
        - revert H. apply reach_mono. intros u w (H1 & H2 & H3). split; auto.
          unfold in_district, district in *. rewrite H2, H3. now rewrite eqb_refl. }
      rewrite Hb. split.
      + intro H. split; [exists s; auto|]. intros m n Hm1 Hm2 Hn1 Hn2.
        apply reach_trans with s.
        * apply reach_sym; [intros a c (H1 & H2 & H3); split; [now apply adj_sym|auto]|].
          apply Ro, H, Old. auto.
        * apply Ro, H, Old. auto.
      + intros [_ H] t Ht. apply Ro. apply Old in Ht. apply H; tauto.
  Qed.

  Theorem C31_single_flip : forall B x q A,
    coherent (g_nodes g) B -> contiguous_plan g B ->
    flip_assignment B [(x, q)] = Ok A ->
    ~ in_district B q x -> (exists y, adj g x y /\ in_district B q y) ->
    exists b, single_flip_contiguous g pick A (Some [(x, q)]) (Some B) = Ok b /\
      (b = true <-> contiguous_plan g A).
  Proof.
    intros B x q A CB Cg Hf Hne (y & Hxy & Hy).
    assert (D : is_dict [(x, q)]) by (repeat constructor; auto).
    destruct (flip_child B _ A CB D Hf) as (CA & Lb & Fl).
    assert (Fx : forall n, district A n = if eqb x n then Some q else district B n).
    { intro n. rewrite Fl. unfold overridden, district. simpl. destruct (eqb_spec n x), (eqb_spec x n); congruence || auto. }
    destruct (adj_nodes g x y Wg Hxy) as [Hx _].
    assert (Hxd : exists p, in_district B p x).
    { apply dget_key, (coh_dom _ _ CB). exact Hx. }
    destruct Hxd as [p Hp].
    assert (Hpq : p <> q) by (intros ->; contradiction).
    assert (Hyx : y <> x) by (intros ->; contradiction).
    destruct (flip_keeps_spec A B x p CA Hx Hp) as (b & Hb & Sp).
    assert (Hparts : a_parts B <> []).
    { intro E0. apply in_district_label in Hy; auto. unfold labels in Hy. rewrite E0 in Hy. destruct Hy. }
    unfold single_flip_contiguous. destruct (a_parts B) as [|pp pr]; [contradiction|]. simpl.
    rewrite Hb. cbn [bind of_option]. exists b. split; [now destruct b|]. rewrite Sp. clear Hb Sp b.
    (* districts other than p and q are untouched *)
    assert (Ax : in_district A q x). { unfold in_district. rewrite Fx. now rewrite eqb_refl. }
    assert (Sm : forall n r, n <> x -> (in_district A r n <-> in_district B r n)).
    { intros n r Hn. unfold in_district. rewrite Fx. destruct (eqb_spec x n); [congruence|tauto]. }
    assert (Ap : forall n, in_district A p n -> n <> x).
    { intros n Hn ->. unfold in_district in *. congruence. }
    split.
    - intros [(n0 & Hn0 & An0) Hall] r Hr. rewrite Lb in Hr.
      destruct (Cg r Hr) as [(m & Hm) Cr].
      destruct (eq_dec_of r p) as [->|Hrp]; [|destruct (eq_dec_of r q) as [->|Hrq]].
      + split; [exists n0; auto|].
        assert (K : forall v, in_district B p v -> v <> x -> reach (inner A p) n0 v).
        { intros v Hv Hvx. specialize (Cr x v Hp Hv). revert Hvx.
          induction Cr as [|v w Hv' IH (E1 & E2 & E3)]; [congruence|]. intro Hw.
          destruct (eq_dec_of v x) as [->|Hvx].
          - apply Hall; auto. now apply Sm.
          - apply reach_step with v.
            + apply IH; auto.
            + split; auto. split; now apply Sm. }
        intros u v Hu Hv. pose proof (Ap u Hu) as Hux. pose proof (Ap v Hv) as Hvx.
        apply Sm in Hu; auto. apply Sm in Hv; auto.
        apply reach_trans with n0; [|now apply K].
        apply reach_sym; [intros a c (H1 & H2 & H3); split; [now apply adj_sym|auto]|]. now apply K.
      + split; [exists x; auto|].
        assert (K : forall v, in_district A q v -> reach (inner A q) x v).
        { intros v Hv. destruct (eq_dec_of v x) as [->|Hvx]; [constructor|].
          apply Sm in Hv; auto. specialize (Cr y v Hy Hv).
          assert (Hyv : reach (inner A q) y v).
          { revert Cr. apply reach_mono. intros a c (H1 & H2 & H3).
            assert (a <> x) by (intros ->; contradiction). assert (c <> x) by (intros ->; contradiction).
            split; auto. split; now apply Sm. }
          apply reach_head with y; auto. split; auto. split; auto. now apply Sm. }
        intros u v Hu Hv. apply reach_trans with x; [|now apply K].
        apply reach_sym; [intros a c (H1 & H2 & H3); split; [now apply adj_sym|auto]|]. now apply K.
      + assert (Eq : forall n, in_district B r n <-> in_district A r n).
        { intro n. destruct (eq_dec_of n x) as [->|Hn]; [|symmetry; now apply Sm].
          unfold in_district in *. rewrite Ax, Hp. split; congruence. }
        split; [exists m; now apply Eq|]. apply connected_on_ext with (in_district B r); auto.
    - intro H. assert (Hpl : In p (labels A)) by (rewrite Lb; eapply in_district_label; eauto).
      destruct (H p Hpl) as [(m & Hm) Cm]. split.
      + pose proof (Ap m Hm) as Hmx. pose proof Hm as Hm'. apply Sm in Hm'; auto.
        rewrite Lb in Hpl. destruct (Cg p Hpl) as [_ Cb]. specialize (Cb x m Hp Hm').
        assert (K : m = x \/ exists n, n <> x /\ adj g x n /\ in_district B p n).
        { clear Hm Hm' Hmx. induction Cb as [|v w Hv IH (E1 & E2 & E3)]; auto.
          destruct IH as [->|IH]; auto. destruct (eq_dec_of w x); auto. right. exists w. auto. }
        destruct K as [|(n & Hn1 & Hn2 & Hn3)]; [contradiction|]. exists n. split; auto. now apply Sm.
      + intros u v _ Hu _ Hv. exact (Cm u v Hu Hv).
  Qed.

  (** Without flips it tests every district; with an empty dictionary of flips
      it accepts, whatever the plan. *)
  Theorem C31_no_flips : forall A parent, coherent (g_nodes g) A ->
    decides_contiguity PointlessConcept A (single_flip_contiguous g pick A None parent) /\
    single_flip_contiguous g pick A (Some []) parent = Ok true.
  Proof.
    intros A parent CA. split.
    - exact (C29_contiguous_root A parent CA).
    - unfold single_flip_contiguous, contiguous, affected_parts. now destruct parent.
  Qed.

  (** ** C90, C91 *)

  (** C91. number_of_contiguous_parts counts the connected districts. *)
  Theorem C91_number_of_contiguous_parts : forall A, coherent (g_nodes g) A ->
    (forall p, In p (labels A) -> exists n, in_district A p n) ->
    exists good, number_of_contiguous_parts g A = Ok (List.length good) /\ NoDup good /\
      forall p, In p good <-> In p (labels A) /\ connected_on g (in_district A p).
  Proof.
    clear pick pick_ok.
    intros A CA NE. unfold number_of_contiguous_parts. change (dkeys (a_parts A)) with (labels A).
    assert (G : forall ps acc, NoDup ps -> incl ps (labels A) ->
      exists good, foldM (fun k p => s <- district_graph g A p ;; b <- is_connected s ;;
                     Ok (if b then S k else k)) ps acc = Ok (List.length good + acc) /\ NoDup good /\
        forall p, In p good <-> In p ps /\ connected_on g (in_district A p)).
    { induction ps as [|p ps IH]; intros acc ND I.
      - exists []. simpl. split; auto. split; [constructor|]. intro p. tauto.
      - inversion ND as [|? ? Hn ND']; subst.
        destruct (nx_tests A CA p) as (_ & _ & T).
        destruct T as (b & Hb & Sp); [apply I; now left|apply NE, I; now left|].
        simpl. destruct (district_graph g A p) as [s|e|]; simpl in *; try discriminate. rewrite Hb. simpl.
        destruct (IH (if b then S acc else acc) ND') as (good & -> & NG & Gd); [intros r Hr; apply I; now right|].
        destruct b.
        + exists (p :: good). split; [simpl; f_equal; lia|]. split.
          * constructor; auto. intro H. apply Gd in H. tauto.
          * intro r. simpl. rewrite Gd. split.
            -- intros [<-|[H1 H2]]; auto. split; auto. now apply Sp.
            -- intros [[<-|H1] H2]; auto.
        + exists good. split; auto. split; auto. intro r. rewrite Gd. simpl. split.
          * intros [H1 H2]. auto.
          * intros [[<-|H1] H2]; auto. apply Sp in H2. discriminate. }
    destruct (G (labels A) 0) as (good & H & NG & Gd).
    - apply (coh_part_keys _ _ CA).
    - apply incl_refl.
    - exists good. split; [rewrite H; f_equal; lia|auto].
  Qed.

  Lemma components_spec (h : graph N) : wf_graph h ->
    exists cs, connected_components h = Ok cs /\
      (forall v, In v (g_nodes h) <-> exists c, In c cs /\ In v c) /\
      (forall c, In c cs -> NoDup c /\ exists v, In v c /\ forall w, In w c <-> reach (adj h) v w) /\
      NoDup (concat cs).
  Proof.
    clear pick pick_ok.
    intro W. unfold connected_components.
    set (f := fun st v => let '(seen, comps) := st in
            if mem v seen then Ok st
            else c <- plain_bfs (S (List.length (g_nodes h))) (neighbors h) [v] [v] ;;
                 Ok (sunion seen c, comps ++ [c])).
    assert (G : forall l seen comps, incl l (g_nodes h) ->
      (forall v, In v seen <-> exists c, In c comps /\ In v c) ->
      (forall c, In c comps -> NoDup c /\ incl c (g_nodes h) /\ exists v, In v c /\ forall w, In w c <-> reach (adj h) v w) ->
      NoDup (concat comps) ->
      exists seen' comps', foldM f l (seen, comps) = Ok (seen', comps') /\
        (forall v, In v seen \/ In v l -> exists c, In c comps' /\ In v c) /\
        (forall c, In c comps' -> NoDup c /\ incl c (g_nodes h) /\ exists v, In v c /\ forall w, In w c <-> reach (adj h) v w) /\
        NoDup (concat comps')).
    { induction l as [|v l IH]; intros seen comps I Sn Cm Nd.
      - exists seen, comps. split; [reflexivity|]. split; [|split; auto]. intros v [H|[]]. now apply Sn.
      - cbn [foldM]. unfold f at 1. destruct (mem_spec v seen) as [Hm|Hm]; cbn [bind].
        + destruct (IH seen comps) as (seen' & comps' & H1 & H2 & H3); auto; [intros x Hx; apply I; now right|].
          exists seen', comps'. split; auto. split; auto. intros x [Hx|[<-|Hx]]; apply H2; auto.
        + assert (Hv : In v (g_nodes h)) by (apply I; now left).
          destruct (plain_bfs_spec (neighbors h) (g_nodes h) v) with (fuel := S (List.length (g_nodes h)))
            (seen := [v]) (level := [v]) as (c & Hc & NDc & Ic & Spc).
          * intros a b _ Hb. apply In_neighbors in Hb. apply (adj_nodes h a b W Hb).
          * apply (wfg_nodes h W).
          * intros x [<-|[]]. auto.
          * constructor; [auto|constructor].
          * apply incl_refl.
          * now left.
          * intros x [<-|[]]. constructor.
          * intros x y [<-|[]] H. exfalso. apply H. now left.
          * simpl. lia.
          * rewrite Hc. cbn [bind of_option].
            assert (Spc' : forall w, In w c <-> reach (adj h) v w).
            { intro w. rewrite Spc. split; apply reach_mono; intros a b; apply In_neighbors. }
            destruct (IH (sunion seen c) (comps ++ [c])) as (seen' & comps' & H1 & H2 & H3 & H4).
            -- intros x Hx. apply I. now right.
            -- intro x. rewrite In_sunion, Sn. split.
               ++ intros [(d & H1 & H2)|H1].
                  ** exists d. split; auto. apply in_or_app. auto.
                  ** exists c. split; auto. apply in_or_app. right. now left.
               ++ intros (d & H1 & H2). apply in_app_or in H1. destruct H1 as [H1|[<-|[]]]; eauto.
            -- intros d Hd. apply in_app_or in Hd. destruct Hd as [Hd|[<-|[]]]; auto.
               split; auto. split; auto. exists v. split; [apply Spc'; constructor|auto].
            -- rewrite concat_app. simpl. rewrite app_nil_r. apply NoDup_app_iff. split; auto. split; auto.
               intros x Hx Hxc. apply Hm, Sn. apply in_concat in Hx. destruct Hx as (d & Hd & Hxd).
               exists d. split; auto. destruct (Cm d Hd) as (_ & _ & v' & Hv' & Spd).
               apply Spd. apply reach_trans with x; [now apply Spd|].
               apply reach_sym; [intros; now apply adj_sym|]. now apply Spc'.
            -- exists seen', comps'. split; auto. split; auto. intros x [Hx|[<-|Hx]]; apply H2; auto.
               ++ left. apply In_sunion. auto.
               ++ left. apply In_sunion. right. apply Spc'. constructor. }
    destruct (G (g_nodes h) [] []) as (seen' & comps' & H1 & H2 & H3 & H4).
    - apply incl_refl.
    - intro v. split; [intros []|intros (c & [] & _)].
    - intros c [].
    - constructor.
    - rewrite H1. simpl. exists comps'. split; auto. split; [|split; auto].
      + intro v. split; auto. intros (c & Hc & Hv). destruct (H3 c Hc) as (_ & Ic & _). auto.
      + intros c Hc. destruct (H3 c Hc) as (K1 & _ & K2). auto.
  Qed.

  (** C90. contiguous_components splits every district into maximal connected
      sets of nodes: they cover the district, do not overlap, each is connected
      inside the district, and no edge of the district joins two of them. *)
  Theorem C90_contiguous_components : forall A, coherent (g_nodes g) A ->
    exists d, contiguous_components g A = Ok d /\ dkeys d = labels A /\
      forall p cs, dget d p = Some cs ->
        (forall n, in_district A p n <-> exists c, In c cs /\ In n c) /\ NoDup (concat cs) /\
        forall c, In c cs -> c <> [] /\ connected_on g (fun n => In n c) /\
          forall u v, In u c -> adj g u v -> in_district A p v -> In v c.
  Proof.
    clear pick pick_ok.
    intros A CA. unfold contiguous_components. change (dkeys (a_parts A)) with (labels A).
    assert (G : forall ps, incl ps (labels A) ->
      exists d, mapM (fun p => s <- district_graph g A p ;; cs <- connected_components s ;; Ok (p, cs)) ps = Ok d /\
        dkeys d = ps /\ forall p cs, In (p, cs) d -> exists s, dget (a_parts A) p = Some s /\
          connected_components (subgraph g s) = Ok cs).
    { induction ps as [|p ps IH]; intro I.
      - exists []. split; [reflexivity|]. split; [reflexivity|]. intros p cs [].
      - assert (Hp : In p (dkeys (a_parts A))) by (apply I; now left). apply dget_key in Hp. destruct Hp as [s Hs].
        destruct IH as (d & Hd & Hk & Hc); [intros q Hq; apply I; now right|].
        destruct (components_spec (subgraph g s) (wf_subgraph g s Wg)) as (cs & Hcs & _).
        simpl. unfold district_graph at 1. rewrite Hs. cbn [bind of_option]. rewrite Hcs. cbn [bind of_option]. rewrite Hd. cbn [bind of_option].
        exists ((p, cs) :: d). split; auto. split; [simpl; now rewrite Hk|].
        intros q cs' [[= <- <-]|Hq]; eauto. }
    destruct (G (labels A) (incl_refl _)) as (d & Hd & Hk & Hc). exists d. split; auto. split; auto.
    intros p cs Hp. apply dget_In in Hp. destruct (Hc p cs Hp) as (s & Hs & Hcs).
    destruct (subgraph_district A p s CA Hs) as [D1 D2].
    destruct (components_spec (subgraph g s) (wf_subgraph g s Wg)) as (cs' & Hcs' & S1 & S2 & S3).
    assert (cs' = cs) by congruence. subst cs'.
    split; [intro n; rewrite <- D1; apply S1|]. split; auto. intros c Hcc.
    destruct (S2 c Hcc) as (NDc & v & Hv & Sp). split; [intros ->; destruct Hv|]. split.
    - assert (K : forall w, In w c -> reach (fun a b => adj g a b /\ In a c /\ In b c) v w).
      { intros w Hw. apply Sp in Hw. induction Hw as [|a b Ha IH Hab]; [constructor|].
        apply reach_step with a; auto. apply D2 in Hab as Hab'. split; [tauto|]. split; apply Sp; auto.
        eapply reach_step; eauto. }
      intros a b Ha Hb. apply reach_trans with v; [|now apply K].
      apply reach_sym; [intros x y (E1 & E2 & E3); split; [now apply adj_sym|auto]|]. now apply K.
    - intros a b Ha Hab Hb. apply Sp. apply Sp in Ha as Ha'. apply reach_step with a; auto.
      apply D2. split; auto. split; auto. apply D1, S1. eauto.
  Qed.
End Pure.

(** C32. are_reachable terminates and decides reachability along edges that are
    not avoided. *)
Theorem C32_are_reachable : forall {N : Type} {EN : EqB N} (g : graph N) (avoid : N -> N -> bool) source targets,
  wf_graph g -> In source (g_nodes g) ->
  exists b, are_reachable g source avoid targets = Ok b /\
    (b = true <-> forall t, In t targets ->
       reach (fun u v => adj g u v /\ avoid u v = false) source t).
Proof. intros N EN g avoid source targets Wg Hs. exact (are_reachable_spec g Wg avoid source targets Hs). Qed.

(** ** C29: chains with [contiguous] among the constraints *)
Section Chain.
  Context {N P V L R : Type} {EN : EqB N} {EP : EqB P} {EL : EqB L} {ON : Ord N} {RV : CRing V}.
  Variable E : env N P V L.
  Notation g := (e_graph E).
  Notation W := (heap N P V L * R)%type.

  Lemma session_flips_dict h : session E h -> forall a o f,
    nth_error h a = Some o -> o_flips o = Some f -> is_dict f.
  Proof.
    intros (WE & REG & d & h0 & ops & D & Rt & F & ->).
    induction ops as [|x ops IH] using rev_ind.
    - unfold root in Rt. destruct (first_time_assignment g d) as [A|e|]; try discriminate.
      injection Rt as <-. intros [|a] o f H Hf; simpl in H.
      + injection H as <-. discriminate.
      + destruct a; discriminate.
    - apply Forall_app in F. destruct F as [F Fx]. specialize (IH F).
      set (h := exec E ops h0) in *.
      assert (S : session E h).
      { split; auto. split; auto. exists d, h0, ops. auto. }
      unfold exec. rewrite fold_left_app. fold (exec E ops h0). fold h. simpl.
      inversion Fx as [|? ? Hx _]; subst. destruct x as [a f|a k|a k p|a]; simpl; intros b o f' Hb Hf'.
      + destruct (flip_heap_cases E h a f) as [[Eq _]|H]; [rewrite Eq in Hb; eauto|].
        destruct H as (x & o' & Ea & Hf & P1 & P2 & _). rewrite Hf in Hb. simpl in Hb.
        destruct (Nat.lt_ge_cases b (List.length h)) as [Hlt|Hge].
        * rewrite nth_error_app1 in Hb by auto. eauto.
        * rewrite nth_error_app2 in Hb by auto.
          destruct (b - List.length h) as [|m] eqn:Em; [|destruct m; discriminate].
          injection Hb as <-. rewrite P2 in Hf'. injection Hf' as <-. exact Hx.
      + destruct (read_spec E h a k WE REG (session_wf E h S)) as (_ & Sk & _).
        destruct (skel_persists _ _ (eq_sym Sk) b o Hb) as (o' & H1 & H2).
        apply (IH b o' f' H1). rewrite <- Hf'. change (o_flips (skel o') = o_flips (skel o)). now rewrite H2.
      + destruct (look_spec E h a k p (session_wf E h S)) as (_ & Sk & _).
        destruct (skel_persists _ _ (eq_sym Sk) b o Hb) as (o' & H1 & H2).
        apply (IH b o' f' H1). rewrite <- Hf'. change (o_flips (skel o') = o_flips (skel o)). now rewrite H2.
      + unfold erase in Hb. rewrite nth_set_nth in Hb.
        destruct (Nat.eqb_spec b a) as [->|]; [|eauto].
        destruct (nth_error h a) as [o'|] eqn:Eo; [|discriminate]. injection Hb as <-. simpl in Hf'. eauto.
  Qed.

  (** C29 for plan objects: as long as a plan still has its parent, and the
      parent is contiguous, [contiguous] decides contiguity. *)
  Theorem C29_contiguous_object : forall h a o q po,
    session E h -> nth_error h a = Some o -> o_parent o = Some q -> nth_error h q = Some po ->
    contiguous_plan g (o_assign po) ->
    decides_contiguity g PointlessConcept (o_assign o) (contiguous_at E a h).
  Proof.
    intros h a o q po S Ho Hq Hpo Cg. unfold contiguous_at, parent_assignment. rewrite Ho, Hq, Hpo. cbn [option_map].
    destruct (session_parent E h a o q S Ho Hq) as (_ & _ & po' & f & Hpo' & Hf & Lb & _ & Fl).
    assert (po' = po) by congruence. subst po'.
    pose proof (session_coherent E h a o S Ho) as CA. pose proof (session_coherent E h q po S Hpo) as CB.
    assert (Wg : wf_graph g) by (destruct S as (WE & _); apply WE).
    destruct (child_decides g Wg (o_assign po) f (o_assign o) CB CA Lb (session_flips_dict h S a o f Ho Hf) Fl Cg)
      as (aff & Ha & H).
    rewrite Hf. unfold contiguous. rewrite Ha. cbn [bind]. apply H. red. tauto.
  Qed.

  (** [contiguous] as a constraint of a chain. *)
  Definition contiguous_constraint : constraint nat W := fun a w =>
    (b <- contiguous_at E a (fst w) ;; Ok (PBool b), w).

  (** Operations that leave all parent links alone. *)
  Definition keeps_links (x : op N P) : Prop := match x with OErase _ => False | _ => True end.
  Definition gentle {A} (m : W -> A * W) : Prop :=
    forall w, exists ops, Forall wf_op ops /\ Forall keeps_links ops /\ fst (snd (m w)) = exec E ops (fst w).

  Definition has_parent (q : nat) (h : heap N P V L) (a : nat) : Prop :=
    exists o, nth_error h a = Some o /\ o_parent o = Some q.
  Definition contiguous_object (h : heap N P V L) (a : nat) : Prop :=
    exists o, nth_error h a = Some o /\ contiguous_plan g (o_assign o).

  Lemma exec_keeps_contiguous h a ops : session E h -> Forall wf_op ops ->
    contiguous_object h a -> contiguous_object (exec E ops h) a.
  Proof.
    intros S F (o & Ho & Hc). pose proof (session_wf E h S) as Wf. destruct S as (WE & REG & _).
    destruct (proj1 (exec_persists E ops h WE REG F Wf) a o Ho) as (o' & H1 & H2 & _).
    exists o'. split; auto. now rewrite H2.
  Qed.
  Lemma exec_keeps_links q a ops : forall h, session E h -> Forall wf_op ops -> Forall keeps_links ops ->
    has_parent q h a -> has_parent q (exec E ops h) a.
  Proof.
    induction ops as [|x ops IH]; intros h S F K H; auto.
    inversion F as [|? ? Fx F']; subst. inversion K as [|? ? Kx K']; subst.
    change (exec E (x :: ops) h) with (exec E ops (exec E [x] h)).
    apply IH; auto; [apply session_exec; auto|]. destruct H as (o & Ho & Hp).
    unfold exec. simpl. destruct x as [b f|b k|b k p|b]; simpl; [| | |destruct Kx].
    - destruct (flip_heap_cases E h b f) as [[-> _]|(x & o' & Ea & -> & _)].
      + exists o. auto.
      + exists o. split; auto. simpl. rewrite nth_error_app1; auto. apply nth_error_Some. congruence.
    - pose proof (session_wf E h S) as Wf. destruct S as (WE & REG & _).
      destruct (read_spec E h b k WE REG Wf) as (_ & Sk & _).
      destruct (skel_persists _ _ Sk a o Ho) as (o' & H1 & H2). exists o'. split; auto.
      rewrite <- Hp. change (o_parent (skel o') = o_parent (skel o)). now rewrite H2.
    - pose proof (session_wf E h S) as Wf. destruct S as (WE & REG & _).
      destruct (look_spec E h b k p Wf) as (_ & Sk & _).
      destruct (skel_persists _ _ Sk a o Ho) as (o' & H1 & H2). exists o'. split; auto.
      rewrite <- Hp. change (o_parent (skel o') = o_parent (skel o)). now rewrite H2.
  Qed.

  Variable proposal : nat -> W -> res nat * W.
  Variable accept : nat -> W -> res pyval * W.
  Variable cs : list (constraint nat W).
  Variable body : nat -> W -> W.
  Hypothesis proposal_ok : forall a, well_behaved E (proposal a).
  Hypothesis proposal_flips : forall a w b w', proposal a w = (Ok b, w') ->
    b = a \/ exists o, nth_error (fst w') b = Some o /\ o_parent o = Some a.
  Hypothesis accept_ok : forall a, well_behaved E (accept a).
  (** Constraints read updaters but do not cut plans off from their parents. *)
  Hypothesis cs_ok : forall c a, In c cs -> gentle (c a).
  Hypothesis body_ok : forall a, well_behaved E (fun w => (tt, body a w)).
  Hypothesis checked : In contiguous_constraint cs.

  Lemma gentle_wb {A} (m : W -> A * W) : gentle m -> well_behaved E m.
  Proof. intros H w. destruct (H w) as (ops & F & _ & Eq). eauto. Qed.

  Lemma all_true_links q cs' y w w' : incl cs' cs -> all_true cs' y w w' ->
    session E (fst w) -> has_parent q (fst w) y -> session E (fst w') /\ has_parent q (fst w') y.
  Proof.
    intros I H. induction H as [x w|c cs' x w v w1 w2 Hc _ _ IH]; intros S Hp; auto.
    destruct (cs_ok c x (I c (or_introl eq_refl)) w) as (ops & F & K & Eq).
    rewrite Hc in Eq. simpl in Eq.
    apply IH; [intros d Hd; apply I; now right| |]; rewrite Eq.
    - now apply session_exec.
    - now apply exec_keeps_links.
  Qed.

  Lemma all_true_at (cs' : list (constraint nat W)) y w w' c : all_true cs' y w w' -> In c cs' ->
    exists pre post v v1 w1, cs' = pre ++ c :: post /\ all_true pre y w v /\ c y v = (Ok v1, w1) /\ is_true v1.
  Proof.
    intro H. induction H as [x w|d cs' x w v w1 w2 Hc Ht _ IH]; [intros []|intros [<-|Hin]].
    - exists [], cs', w, v, w1. split; auto. split; [constructor|auto].
    - destruct (IH Hin) as (pre & post & v' & v1 & w1' & -> & H1 & H2).
      exists (d :: pre), post, v', v1, w1'. split; auto. split; auto. econstructor; eauto.
  Qed.

  Lemma step_contiguous a w b w' :
    step proposal accept erase_link cs a w b w' ->
    good E contiguous_object w a -> good E contiguous_object w' b.
  Proof.
    assert (cs_wb : forall c a, In c cs -> well_behaved E (c a)) by (intros; now apply gentle_wb, cs_ok).
    assert (Er : forall (v : W) x, good E contiguous_object v x -> good E contiguous_object (erase_link a v) x).
    { intros v x [S K]. split; [now apply session_erase|].
      apply (exec_keeps_contiguous (fst v) x [OErase a] S); [repeat constructor|exact K]. }
    induction 1 as [w y w1 w2 x' w' Hp Hr _ IH|w y w1 w2 v w' Hp Hv Ha _|w y w1 w2 v w' Hp Hv Ha _]; intro G.
    - assert (G1 : good E contiguous_object w1 a).
      { replace w1 with (snd (proposal a w)) by (now rewrite Hp). apply wb_keeps; auto. apply exec_keeps_contiguous. }
      apply IH. eapply rejected_keeps; eauto. apply exec_keeps_contiguous.
    - assert (G1 : good E contiguous_object w1 a).
      { replace w1 with (snd (proposal a w)) by (now rewrite Hp). apply wb_keeps; auto. apply exec_keeps_contiguous. }
      assert (G2 : good E contiguous_object w2 a).
      { eapply all_true_keeps; eauto; [apply exec_keeps_contiguous|apply incl_refl]. }
      replace w' with (snd (accept y w2)) by (now rewrite Ha).
      apply wb_keeps; auto. apply exec_keeps_contiguous.
    - assert (G1 : good E contiguous_object w1 a).
      { replace w1 with (snd (proposal a w)) by (now rewrite Hp). apply wb_keeps; auto. apply exec_keeps_contiguous. }
      assert (G2 : good E contiguous_object w2 y).
      { destruct (Nat.eq_dec y a) as [->|Hne].
        { eapply all_true_keeps; eauto; [apply exec_keeps_contiguous|apply incl_refl]. }
        destruct (proposal_flips a w y w1 Hp) as [|(o & Ho & Hq)]; [contradiction|].
        assert (Hp1 : has_parent a (fst (erase_link a w1)) y).
        { exists o. split; auto. simpl. unfold erase. rewrite nth_set_nth.
          destruct (Nat.eqb_spec y a); [contradiction|auto]. }
        destruct (all_true_at cs y _ _ _ Hv checked) as (pre & post & u & v1 & u1 & Ecs & Hpre & Hc & Ht).
        assert (Ipre : incl pre cs) by (intros d Hd; rewrite Ecs; apply in_or_app; now left).
        destruct (all_true_links a pre y _ _ Ipre Hpre (proj1 (Er _ _ G1)) Hp1) as [Su (oy & Hoy & Hqy)].
        assert (Gu : good E contiguous_object u a).
        { eapply all_true_keeps; eauto. apply exec_keeps_contiguous. }
        destruct Gu as [_ (oa & Hoa & Ca)].
        pose proof (C29_contiguous_object (fst u) y oy a oa Su Hoy Hqy Hoa Ca) as [D _].
        unfold contiguous_constraint in Hc.
        destruct (contiguous_at E y (fst u)) as [bb|e|]; simpl in Hc; try discriminate.
        injection Hc as <- <-.
        assert (bb = true) by (destruct bb; auto; destruct Ht; discriminate). subst bb.
        assert (Cu : contiguous_object (fst u) y) by (exists oy; split; auto; now apply D).
        (* the assignment of y is the same in w2 *)
        assert (Gy : good E exists_plan w2 y).
        { eapply (all_true_keeps E cs cs_wb exists_plan cs); eauto.
          - apply exists_keeps.
          - apply incl_refl.
          - split; [apply (Er _ _ G1)|]. destruct Hp1 as (o1 & H1 & _). exists o1. auto. }
        assert (Hsame : forall cs' v v', incl cs' cs -> all_true cs' y v v' -> session E (fst v) ->
                  forall x ox, nth_error (fst v) x = Some ox ->
                  session E (fst v') /\ exists ox', nth_error (fst v') x = Some ox' /\ o_assign ox' = o_assign ox).
        { clear - cs_wb. intros cs' v v' I H. induction H as [x w|c cs' x w v w1 w2 Hc _ _ IH]; intros S z oz Hz; eauto.
          destruct (cs_wb c x (I c (or_introl eq_refl)) w) as (ops & F & Eq). rewrite Hc in Eq. simpl in Eq.
          pose proof (session_wf E _ S) as Wf. pose proof S as (WE & REG & _).
          destruct (proj1 (exec_persists E ops _ WE REG F Wf) z oz Hz) as (oz' & H1 & H2 & _).
          rewrite <- Eq in H1.
          destruct (IH (fun d Hd => I d (or_intror Hd))) with (x := z) (ox := oz') as [S' (oz2 & K1 & K2)]; auto.
          - rewrite Eq. now apply session_exec.
          - split; auto. exists oz2. split; auto. congruence. }
        destruct (Hsame pre _ _ Ipre Hpre (proj1 (Er _ _ G1)) y) with (ox := o) as [_ (oy' & Hoy' & Ey)].
        { simpl. unfold erase. rewrite nth_set_nth. destruct (Nat.eqb_spec y a); [contradiction|auto]. }
        assert (oy' = oy) by congruence. subst oy'.
        destruct (Hsame cs _ _ (incl_refl _) Hv (proj1 (Er _ _ G1)) y) with (ox := o) as [S2 (o2 & Ho2 & Ey2)].
        { simpl. unfold erase. rewrite nth_set_nth. destruct (Nat.eqb_spec y a); [contradiction|auto]. }
        split; auto. exists o2. split; auto. destruct Cu as (o3 & Ho3 & C3).
        rewrite Ey2, <- Ey. assert (o3 = oy) by congruence. now subst o3. }
      replace w' with (snd (accept y w2)) by (now rewrite Ha).
      apply wb_keeps; auto. apply exec_keeps_contiguous.
  Qed.

  (** C29. A chain with [contiguous] among its constraints that starts from a
      contiguous plan only ever yields contiguous plans. *)
  Theorem C29_chain_stays_contiguous : forall n fuel ch w ys en ch' w',
    ch_valid ch = Reusable cs -> session E (fst w) ->
    (exists o, nth_error (fst w) (ch_initial ch) = Some o /\ contiguous_plan g (o_assign o)) ->
    for_loop proposal accept erase_link n fuel body ch w = (ys, en, ch', w') ->
    forall a v, In (a, v) ys -> exists o, nth_error (fst v) a = Some o /\ contiguous_plan g (o_assign o).
  Proof.
    intros n fuel ch w ys en ch' w' Hv S Ho Hl a v Hi.
    destruct (C37_steps proposal accept erase_link n fuel body ch w ys en ch' w' cs Hv Hl) as [->|(rest & -> & HL)].
    { destruct Hi. }
    assert (G0 : good E contiguous_object w (ch_initial ch)) by (split; auto).
    assert (Main : forall rest x w, linked proposal accept erase_link cs body (x, w) rest ->
              good E contiguous_object w x -> forall a v, In (a, v) rest -> good E contiguous_object v a).
    { clear - accept_ok cs_ok body_ok proposal_ok proposal_flips checked.
      induction rest as [|[y u] rest IH]; intros x w HL G a v Hj; [destruct Hj|].
      inversion HL; subst.
      assert (G1 : good E contiguous_object (body x w) x).
      { apply (wb_keeps E contiguous_object (fun w => (tt, body x w)) w x exec_keeps_contiguous (body_ok x) G). }
      assert (G2 : good E contiguous_object u y) by (eapply step_contiguous; eauto).
      destruct Hj as [[= <- <-]|Hj]; eauto. }
    destruct Hi as [[= <- <-]|Hi]; [exact Ho|].
    destruct (Main rest _ _ HL G0 a v Hi) as [_ K]. exact K.
  Qed.
End Chain.

(** ** Where the checks are wrong *)

(** Concrete plans. *)
Definition plan_of (g : graph nat) (d : dict nat nat) : assignment nat nat :=
  match first_time_assignment g d with Ok A => A | _ => mkAssignment [] [] end.
Lemma plan_of_coherent g d A : is_dict d ->
  first_time_assignment g d = Ok A -> coherent (g_nodes g) (plan_of g d).
Proof. intros D H. unfold plan_of. rewrite H. now apply (first_coherent g d A D H). Qed.
Lemma yes_contiguous (g : graph nat) (A : assignment nat nat) : wf_graph g -> coherent (g_nodes g) A ->
  contiguous g A None None = Ok true -> contiguous_plan g A.
Proof. intros Wg C H. now apply (C29_contiguous_root g Wg A None C). Qed.
Lemma not_contiguous (g : graph nat) (A : assignment nat nat) : wf_graph g -> coherent (g_nodes g) A ->
  contiguous g A None None = Ok false -> ~ contiguous_plan g A.
Proof. intros Wg C H K. apply (C29_contiguous_root g Wg A None C) in K. congruence. Qed.
Ltac wfg := constructor; simpl;
  [nodup|nodup
  |intros u v H; repeat destruct H as [H|H]; try injection H as <- <-; simpl; auto 12
  |intros u v H H'; repeat destruct H as [H|H]; try injection H as <- <-;
   repeat destruct H' as [H'|H']; try discriminate; tauto].

(** The star with centre 1: districts {0, 1, 2} and {3}; node 1 leaves. *)
Definition star : graph nat := mkGraph [0; 1; 2; 3] [(0, 1); (1, 2); (1, 3)].
Lemma wf_star : wf_graph star. Proof. wfg. Qed.
Definition star_d : dict nat nat := [(0, 1); (1, 1); (2, 1); (3, 2)].
Lemma star_coherent : coherent (g_nodes star) (plan_of star star_d).
Proof. eapply plan_of_coherent; [nodup|vm_compute; reflexivity]. Qed.

(** C29. Once the parent link is gone (every plan of a chain except the current
    one, and the current one after the next proposal) [contiguous] looks at
    the target districts only, and accepts a plan with a broken district. *)
Theorem C29_erased_parent_refuted :
  exists (g : graph nat) (B A : assignment nat nat) f,
    wf_graph g /\ coherent (g_nodes g) B /\ contiguous_plan g B /\ is_dict f /\
    flip_assignment B f = Ok A /\
    contiguous g A (Some f) None = Ok true /\ contiguous g A (Some f) (Some B) = Ok false /\
    ~ contiguous_plan g A.
Proof.
  exists star, (plan_of star star_d). eexists. exists [(1, 2)].
  split; [apply wf_star|]. split; [apply star_coherent|].
  split; [apply yes_contiguous; [apply wf_star|apply star_coherent|vm_compute; reflexivity]|].
  assert (D : is_dict [(1, 2)]) by nodup. split; [exact D|]. split; [vm_compute; reflexivity|].
  split; [vm_compute; reflexivity|]. split; [vm_compute; reflexivity|].
  apply not_contiguous; [apply wf_star| |vm_compute; reflexivity].
  apply (flip_child star (plan_of star star_d) [(1, 2)]); [apply star_coherent|exact D|vm_compute; reflexivity].
Qed.

(** One old neighbour is always "reachable from itself". *)
Lemma flip_keeps_one (g : graph nat) pick (A B : assignment nat nat) x p nds n :
  (forall x l, l <> [] -> In (pick x l) l) ->
  dget (a_map B) x = Some p ->
  mapM (fun n => q <- of_option KeyError (dget (a_map A) n) ;; Ok (n, q)) (neighbors g x) = Ok nds ->
  map fst (filter (fun np => eqb (snd np) p) nds) = [n] ->
  flip_keeps g pick A B x = Ok true.
Proof.
  intros Hp Hx Hm Hf. unfold flip_keeps. rewrite Hx. cbn [bind of_option]. rewrite Hm. cbn [bind].
  rewrite Hf. assert (Hn : pick x [n] = n).
  { specialize (Hp x [n]). destruct Hp as [H|[]]; [discriminate|auto]. }
  rewrite Hn. unfold are_reachable.
  assert (K : all_seen [(n, 0)] [n] = true).
  { unfold all_seen, dmem. simpl. now rewrite Nat.eqb_refl. }
  cbn [plus reach_loop]. now rewrite K.
Qed.

(** C31. [single_flip_contiguous] accepts a plan in which the node moved to a
    district it does not touch, ... *)
Definition path4 : graph nat := mkGraph [0; 1; 2; 3] [(0, 1); (1, 2); (2, 3)].
Lemma wf_path4 : wf_graph path4. Proof. wfg. Qed.
Theorem C31_not_adjacent_refuted :
  exists (g : graph nat) (B A : assignment nat nat) x q,
    wf_graph g /\ coherent (g_nodes g) B /\ contiguous_plan g B /\
    flip_assignment B [(x, q)] = Ok A /\ ~ contiguous_plan g A /\
    forall pick, (forall x l, l <> [] -> In (pick x l) l) ->
      single_flip_contiguous g pick A (Some [(x, q)]) (Some B) = Ok true.
Proof.
  set (B := plan_of path4 [(0, 1); (1, 1); (2, 2); (3, 2)]).
  assert (CB : coherent (g_nodes path4) B) by (eapply plan_of_coherent; [nodup|vm_compute; reflexivity]).
  exists path4, B. eexists. exists 0, 2.
  split; [apply wf_path4|]. split; [exact CB|].
  split; [apply yes_contiguous; [apply wf_path4|exact CB|vm_compute; reflexivity]|].
  split; [vm_compute; reflexivity|]. split.
  - apply not_contiguous; [apply wf_path4| |vm_compute; reflexivity].
    apply (flip_child path4 B [(0, 2)]); [exact CB|nodup|vm_compute; reflexivity].
  - intros pick Hp. unfold single_flip_contiguous. cbn [flips_keep dkeys map fst].
    erewrite flip_keeps_one; [|exact Hp|vm_compute; reflexivity|vm_compute; reflexivity|vm_compute; reflexivity].
    reflexivity.
Qed.

(** ... a plan in which two nodes moved at once, each leaving its old
    neighbours in one piece, ... *)
Definition kite : graph nat := mkGraph [0; 1; 2; 3; 4] [(0, 1); (1, 2); (2, 3); (1, 4); (2, 4)].
Lemma wf_kite : wf_graph kite. Proof. wfg. Qed.
Theorem C31_two_flips_refuted :
  exists (g : graph nat) (B A : assignment nat nat) f,
    wf_graph g /\ coherent (g_nodes g) B /\ contiguous_plan g B /\ is_dict f /\
    flip_assignment B f = Ok A /\ ~ contiguous_plan g A /\
    (forall x q, In (x, q) f -> exists y, adj g x y /\ in_district B q y) /\
    forall pick, (forall x l, l <> [] -> In (pick x l) l) ->
      single_flip_contiguous g pick A (Some f) (Some B) = Ok true.
Proof.
  set (B := plan_of kite [(0, 1); (1, 1); (2, 1); (3, 1); (4, 2)]).
  assert (CB : coherent (g_nodes kite) B) by (eapply plan_of_coherent; [nodup|vm_compute; reflexivity]).
  exists kite, B. eexists. exists [(1, 2); (2, 2)].
  split; [apply wf_kite|]. split; [exact CB|].
  split; [apply yes_contiguous; [apply wf_kite|exact CB|vm_compute; reflexivity]|].
  split; [nodup|]. split; [vm_compute; reflexivity|]. split; [|split].
  - apply not_contiguous; [apply wf_kite| |vm_compute; reflexivity].
    apply (flip_child kite B [(1, 2); (2, 2)]); [exact CB|nodup|vm_compute; reflexivity].
  - intros x q [H|[H|[]]]; injection H as <- <-; exists 4; (split; [|vm_compute; reflexivity]).
    + left. simpl. auto 8.
    + left. simpl. auto 8.
  - intros pick Hp. unfold single_flip_contiguous. cbn [flips_keep dkeys map fst].
    erewrite flip_keeps_one; [|exact Hp|vm_compute; reflexivity|vm_compute; reflexivity|vm_compute; reflexivity].
    cbn [bind].
    erewrite flip_keeps_one; [|exact Hp|vm_compute; reflexivity|vm_compute; reflexivity|vm_compute; reflexivity].
    reflexivity.
Qed.

(** ... and rejects a contiguous plan when a one-node district is "moved" to
    itself. *)
Theorem C31_no_op_flip_refuted :
  exists (g : graph nat) (B A : assignment nat nat) x q,
    wf_graph g /\ coherent (g_nodes g) B /\ contiguous_plan g B /\
    flip_assignment B [(x, q)] = Ok A /\ contiguous_plan g A /\
    forall pick, single_flip_contiguous g pick A (Some [(x, q)]) (Some B) = Ok false.
Proof.
  set (B := plan_of path4 [(0, 1); (1, 2); (2, 2); (3, 2)]).
  assert (CB : coherent (g_nodes path4) B) by (eapply plan_of_coherent; [nodup|vm_compute; reflexivity]).
  exists path4, B. eexists. exists 0, 1.
  split; [apply wf_path4|]. split; [exact CB|].
  split; [apply yes_contiguous; [apply wf_path4|exact CB|vm_compute; reflexivity]|].
  split; [vm_compute; reflexivity|]. split.
  - apply yes_contiguous; [apply wf_path4|exact CB|vm_compute; reflexivity].
  - intro pick. vm_compute. reflexivity.
Qed.

(** ** Non-vacuity *)
Example C29_nonvacuous :
  let B := plan_of star star_d in
  wf_graph star /\ coherent (g_nodes star) B /\ contiguous_plan star B /\
  (exists A, flip_assignment B [(0, 2)] = Ok A /\ contiguous star A (Some [(0, 2)]) (Some B) = Ok false) /\
  (exists A, flip_assignment B [(3, 1)] = Ok A /\
     contiguous star A (Some [(3, 1)]) (Some B) = Err PointlessConcept /\
     contiguous_bfs star A (Some [(3, 1)]) (Some B) = Err StopIteration) /\
  (exists A, flip_assignment B [(1, 2); (0, 2)] = Ok A /\
     contiguous star A (Some [(1, 2); (0, 2)]) (Some B) = Ok true /\
     contiguous_bfs star A (Some [(1, 2); (0, 2)]) (Some B) = Ok true).
Proof.
  intro B. split; [apply wf_star|]. split; [apply star_coherent|].
  split; [apply yes_contiguous; [apply wf_star|apply star_coherent|vm_compute; reflexivity]|].
  repeat split; eexists; repeat split; vm_compute; reflexivity.
Qed.
(** A single flip to an adjacent district, accepted and rejected. *)
Example C31_nonvacuous :
  let B := plan_of star star_d in
  let pick := fun (_ : nat) (l : list nat) => hd 0 l in
  (forall x l, l <> [] -> In (pick x l) l) /\
  ~ in_district B 2 1 /\ (exists y, adj star 1 y /\ in_district B 2 y) /\
  (exists A, flip_assignment B [(1, 2)] = Ok A /\
     single_flip_contiguous star pick A (Some [(1, 2)]) (Some B) = Ok false) /\
  let B' := plan_of star [(0, 1); (1, 1); (2, 2); (3, 1)] in
  ~ in_district B' 1 2 /\ (exists y, adj star 2 y /\ in_district B' 1 y) /\
  (exists A, flip_assignment (plan_of star [(0, 1); (1, 1); (2, 2); (3, 2)]) [(3, 1)] = Ok A).
Proof.
  intros B pick. split; [intros x [|y l] H; [contradiction|now left]|].
  split; [vm_compute; discriminate|].
  split; [exists 3; split; [left; simpl; auto|vm_compute; reflexivity]|].
  split; [eexists; split; vm_compute; reflexivity|].
  split; [vm_compute; discriminate|].
  split; [exists 1; split; [right; simpl; auto|vm_compute; reflexivity]|].
  eexists. vm_compute. reflexivity.
Qed.
Example C32_nonvacuous :
  are_reachable star 0 (fun u v => Nat.eqb v 2) [3; 1] = Ok true /\
  are_reachable star 0 (fun u v => Nat.eqb v 1) [3] = Ok false.
Proof. split; vm_compute; reflexivity. Qed.
Example C90_nonvacuous :
  let A := plan_of star [(0, 1); (1, 2); (2, 1); (3, 2)] in
  coherent (g_nodes star) A /\
  contiguous_components star A = Ok [(1, [[0]; [2]]); (2, [[1; 3]])] /\
  number_of_contiguous_parts star A = Ok 1.
Proof.
  intro A. split; [eapply plan_of_coherent; [nodup|vm_compute; reflexivity]|].
  split; vm_compute; reflexivity.
Qed.

(** A chain of single flips with [contiguous] as its only constraint: the
    proposal takes the flips to try from the world; the second one would cut
    district 2 in two and is skipped. *)
Definition ex_walk (a : nat) (w : heap nat nat Z nat * list (nat * nat))
  : res nat * (heap nat nat Z nat * list (nat * nat)) :=
  match snd w with
  | [] => (Err IndexError, w)
  | f :: r => let '(b, h) := flip ex_E a [f] (fst w) in (b, (h, r))
  end.
Example C29_chain_nonvacuous :
  let cs := [@contiguous_constraint nat nat Z nat (list (nat * nat)) _ _ ex_E] in
  let w := (ex_run ex_plan [], [(1, 2); (2, 1); (1, 1)]) in
  (forall a, well_behaved ex_E (ex_walk a)) /\
  (forall a w b w', ex_walk a w = (Ok b, w') ->
     b = a \/ exists o, nth_error (fst w') b = Some o /\ o_parent o = Some a) /\
  (forall c a, In c cs -> gentle ex_E (c a)) /\
  session ex_E (fst w) /\
  (exists o, nth_error (fst w) 0 = Some o /\ contiguous_plan (e_graph ex_E) (o_assign o)) /\
  exists ys ch' w', for_loop ex_walk (fun _ w => (Ok (PBool true), w)) erase_link 9 9 (fun _ w => w)
      (mkChain (Reusable cs) 3 0 0 None) w = (ys, Finished, ch', w') /\ map fst ys = [0; 1; 3].
Proof.
  intros cs w. split; [|split; [|split; [|split; [|split]]]].
  - intros a v. unfold ex_walk. destruct (snd v) as [|f r].
    + exists []. split; [constructor|reflexivity].
    + exists [OFlip a [f]]. split.
      * constructor; [|constructor]. simpl. red. simpl. constructor; [intros []|constructor].
      * unfold exec. simpl. destruct (flip ex_E a [f] (fst v)) as [b h]. reflexivity.
  - intros a v b v' H. unfold ex_walk in H. destruct (snd v) as [|f r]; [discriminate|].
    destruct (flip_heap_cases ex_E (fst v) a [f]) as [[_ Hn]|(o & o' & Ho & Hf & Hp & _)].
    + destruct (flip ex_E a [f] (fst v)) as [b' h']. injection H as -> _. exfalso. now apply (Hn b).
    + rewrite Hf in H. injection H as <- <-. right. exists o'. split; auto. simpl.
      rewrite nth_error_app2, Nat.sub_diag by lia. reflexivity.
  - intros c a [<-|[]] v. exists []. split; [constructor|]. split; [constructor|reflexivity].
  - ex_session.
  - eexists. split; [vm_compute; reflexivity|]. apply yes_contiguous; [apply ex_wf| |vm_compute; reflexivity].
    eapply (session_coherent ex_E (ex_run ex_plan []) 0); [ex_session|vm_compute; reflexivity].
  - do 3 eexists. split; vm_compute; reflexivity.
Qed.

Print Assumptions C29_contiguous_child.
Print Assumptions C29_contiguous_root.
Print Assumptions C29_contiguous_object.
Print Assumptions C29_chain_stays_contiguous.
Print Assumptions C29_erased_parent_refuted.
Print Assumptions C30_contiguous_bfs_child.
Print Assumptions C30_contiguous_bfs_root.
Print Assumptions C30_empty_district_raises.
Print Assumptions C31_single_flip.
Print Assumptions C31_no_flips.
Print Assumptions C31_not_adjacent_refuted.
Print Assumptions C31_two_flips_refuted.
Print Assumptions C31_no_op_flip_refuted.
Print Assumptions C32_are_reachable.
Print Assumptions C90_contiguous_components.
Print Assumptions C91_number_of_contiguous_parts.
