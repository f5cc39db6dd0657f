(** Lemmas about cut edges: from scratch, by flips, and by part. *)
From Coq Require Import String List Bool Arith Lia.
From Verif Require Import Base M_Graph M_Partition S_Partition L_Partition M_Machine S_Machine.
Import ListNotations.
Local Open Scope list_scope.

(** ** Generic folds *)

Lemma fold_collect {X Y} {EY : EqB Y} (f : X -> res bool) (fb : X -> bool) (h : X -> Y) l :
  (forall x, In x l -> f x = Ok (fb x)) ->
  exists s, foldM (fun acc x => b <- f x ;; Ok (if b then sadd (h x) acc else acc)) l [] = Ok s /\
    NoDup s /\ forall y, In y s <-> exists x, In x l /\ fb x = true /\ y = h x.
Proof.
  intro Hf.
  assert (H : forall l' acc, incl l' l -> NoDup acc ->
    exists s, foldM (fun acc x => b <- f x ;; Ok (if b then sadd (h x) acc else acc)) l' acc = Ok s /\
      NoDup s /\ forall y, In y s <-> In y acc \/ exists x, In x l' /\ fb x = true /\ y = h x).
  { induction l' as [|x l' IH]; simpl; intros acc Hl Ha.
    - exists acc. split; auto. split; auto. intro y. split; auto. intros [|(x & [] & _)]; auto.
    - rewrite Hf by (apply Hl; now left). simpl.
      destruct (IH (if fb x then sadd (h x) acc else acc)) as (s & Es & Ns & Is).
      { intros z Hz. apply Hl. now right. }
      { destruct (fb x); auto. now apply NoDup_sadd. }
      exists s. split; auto. split; auto. intro y. rewrite Is. split.
      + intros [Hy|(z & Hz & Hb & ->)].
        * destruct (fb x) eqn:Ex; auto. apply In_sadd in Hy. destruct Hy as [->|Hy]; auto.
          right. exists x. auto.
        * right. exists z. auto.
      + intros [Hy|(z & [->|Hz] & Hb & ->)].
        * left. destruct (fb x); auto. apply In_sadd. auto.
        * left. rewrite Hb. apply In_sadd. auto.
        * right. exists z. auto. }
  destruct (H l [] (incl_refl _) (NoDup_nil _)) as (s & Es & Ns & Is).
  exists s. split; auto. split; auto. intro y. rewrite Is. simpl. tauto.
Qed.

Lemma foldM_dset {K X W} {EK : EqB K} (F : K * X -> res W) (fl : dict K X) : forall (old d : dict K W),
  NoDup (dkeys fl) ->
  foldM (fun d pf => x <- F pf ;; Ok (dset d (fst pf) x)) fl old = Ok d ->
  (forall p f, In (p, f) fl -> exists x, F (p, f) = Ok x /\ dget d p = Some x) /\
  (forall p, ~ In p (dkeys fl) -> dget d p = dget old p) /\
  (NoDup (dkeys old) -> NoDup (dkeys d)) /\
  (forall p, In p (dkeys d) <-> In p (dkeys old) \/ In p (dkeys fl)).
Proof.
  induction fl as [|[k f] fl IH]; simpl; intros old d ND H.
  - injection H as <-. split; [intros p f []|]. split; auto. split; auto. intro p. tauto.
  - inversion ND; subst. destruct (F (k, f)) as [x| |] eqn:Ex; simpl in H; try discriminate.
    destruct (IH _ _ H3 H) as (A & B & C & D). split; [|split; [|split]].
    + intros p f' [[= <- <-]|Hp]; auto. exists x. split; auto.
      rewrite B by auto. apply dget_dset_eq.
    + intros p Hp. rewrite B by tauto. apply dget_dset_neq. intro; subst; tauto.
    + intro Ho. apply C. now apply NoDup_dset.
    + intro p. rewrite D, In_dkeys_dset. intuition.
Qed.

Lemma foldM_dset_ok {K X W} {EK : EqB K} (F : K * X -> res W) (fl : dict K X) : forall (old : dict K W),
  (forall p f, In (p, f) fl -> exists x, F (p, f) = Ok x) ->
  exists d, foldM (fun d pf => x <- F pf ;; Ok (dset d (fst pf) x)) fl old = Ok d.
Proof.
  induction fl as [|[k f] fl IH]; simpl; intros old H; eauto.
  destruct (H k f (or_introl eq_refl)) as (x & ->). simpl. apply IH. intros. apply H. auto.
Qed.

Lemma fold_left_foldM {K X W} {EK : EqB K} (F : K * X -> W) (fl : dict K X) : forall (old : dict K W),
  foldM (fun d pf => x <- Ok (F pf) ;; Ok (dset d (fst pf) x)) fl old =
  Ok (fold_left (fun d pf => dset d (fst pf) (F pf)) fl old).
Proof. induction fl as [|kf fl IH]; simpl; intro old; auto. Qed.

Lemma foldM_ext {A B} (f f' : B -> A -> res B) l : forall b,
  (forall b x, In x l -> f b x = f' b x) -> foldM f l b = foldM f' l b.
Proof.
  induction l as [|x l IH]; simpl; intros b H; auto.
  rewrite H by auto. destruct (f' b x); simpl; auto.
Qed.

Lemma fold_left_dset {K X W} {EK : EqB K} (F : K * X -> W) (fl : dict K X) (old : dict K W) :
  NoDup (dkeys fl) ->
  let d := fold_left (fun d pf => dset d (fst pf) (F pf)) fl old in
  (forall p f, In (p, f) fl -> dget d p = Some (F (p, f))) /\
  (forall p, ~ In p (dkeys fl) -> dget d p = dget old p) /\
  (NoDup (dkeys old) -> NoDup (dkeys d)) /\
  (forall p, In p (dkeys d) <-> In p (dkeys old) \/ In p (dkeys fl)).
Proof.
  intros ND d. pose proof (foldM_dset (fun pf => Ok (F pf)) fl old d ND) as H.
  destruct H as (A & B & C & D); [apply fold_left_foldM|].
  split; auto. intros p f Hp. destruct (A p f Hp) as (x & [= <-] & E). auto.
Qed.

(** ** Graph facts *)

Section Cuts.
  Context {N P : Type} {EN : EqB N} {EP : EqB P} {ON : Ord N}.
  Implicit Types (A : assignment N P) (g : graph N) (e : N * N).

  Lemma adj_sym g u v : adj g u v -> adj g v u.
  Proof. unfold adj. tauto. Qed.

  Lemma In_neighbors g u v : In v (neighbors g u) <-> adj g u v.
  Proof.
    unfold neighbors. rewrite In_set_of, in_flat_map. unfold adj. split.
    - intros ((a & b) & Hab & H). unfold nbrs_in_edge in H. rewrite in_app_iff in H. simpl in H.
      destruct H as [H|H].
      + destruct (eqb_spec a u); [|destruct H]. destruct H as [<-|[]]. subst. auto.
      + destruct (eqb_spec b u); [|destruct H]. destruct H as [<-|[]]. subst. auto.
    - unfold nbrs_in_edge. intros [H|H]; [exists (u, v)|exists (v, u)]; split; auto;
        rewrite in_app_iff; simpl; rewrite eqb_refl; simpl; auto.
  Qed.

  Lemma NoDup_neighbors g u : NoDup (neighbors g u).
  Proof. apply NoDup_set_of. Qed.

  Lemma sort2_leb e : leb (fst (sort2 e)) (snd (sort2 e)) = true.
  Proof.
    unfold sort2. destruct (leb (fst e) (snd e)) eqn:H; auto. simpl.
    destruct (leb_total (fst e) (snd e)); congruence.
  Qed.

  Lemma sort2_cases e : sort2 e = e \/ sort2 e = (snd e, fst e).
  Proof. unfold sort2. destruct (leb (fst e) (snd e)); auto. Qed.

  Lemma sort2_sorted u v : leb u v = true -> sort2 (u, v) = (u, v) /\ sort2 (v, u) = (u, v).
  Proof.
    intro H. unfold sort2. simpl. rewrite H. split; auto.
    destruct (leb v u) eqn:H2; auto. now rewrite (leb_antisym _ _ H H2).
  Qed.

  Lemma adj_sort2 g e : adj g (fst e) (snd e) <-> adj g (fst (sort2 e)) (snd (sort2 e)).
  Proof.
    destruct (sort2_cases e) as [->| ->]; simpl; [tauto|]. split; apply adj_sym.
  Qed.

  Lemma adj_nodes g u v : wf_graph g -> adj g u v -> In u (g_nodes g) /\ In v (g_nodes g).
  Proof.
    intros W [H|H]; apply (wfg_ends _ W) in H; tauto.
  Qed.

  Lemma In_neighbor_flips g (flips : dict N P) e :
    In e (neighbor_flips g flips) <->
    leb (fst e) (snd e) = true /\ adj g (fst e) (snd e) /\
    (In (fst e) (dkeys flips) \/ In (snd e) (dkeys flips)).
  Proof.
    unfold neighbor_flips. rewrite In_set_of, in_flat_map. split.
    - intros (n & Hn & H). apply in_map_iff in H. destruct H as (nb & <- & H).
      apply In_neighbors in H. split; [apply sort2_leb|]. split.
      + apply (adj_sort2 g (n, nb)). auto.
      + destruct (sort2_cases (n, nb)) as [->| ->]; simpl; auto.
    - destruct e as [u v]. simpl. intros (Hl & Ha & [H|H]).
      + exists u. split; auto. apply in_map_iff. exists v. split; [now apply sort2_sorted|].
        now apply In_neighbors.
      + exists v. split; auto. apply in_map_iff. exists u. split; [now apply sort2_sorted|].
        now apply In_neighbors, adj_sym.
  Qed.

  Lemma NoDup_neighbor_flips g (flips : dict N P) : NoDup (neighbor_flips g flips).
  Proof. apply NoDup_set_of. Qed.

  (** ** crosses_parts *)

  Definition crossb A e : bool := negb (eqb (district A (fst e)) (district A (snd e))).

  Lemma crossb_spec A e : crossb A e = true <-> district A (fst e) <> district A (snd e).
  Proof.
    unfold crossb. rewrite negb_true_iff. apply eqb_neq.
  Qed.

  Lemma has_district g A n : coherent (g_nodes g) A -> In n (g_nodes g) ->
    exists p, district A n = Some p.
  Proof. intros C H. apply (coh_dom _ _ C) in H. now apply dget_key in H. Qed.

  Lemma district_node g A n p : coherent (g_nodes g) A -> district A n = Some p ->
    In n (g_nodes g) /\ In p (labels A).
  Proof.
    intros C H. split.
    - apply (coh_dom _ _ C). eapply dget_Some_key; eauto.
    - apply (coh_agree _ _ C) in H. destruct H as (s & H & _). eapply dget_Some_key; eauto.
  Qed.

  Lemma crosses_ok g A e :
    coherent (g_nodes g) A -> In (fst e) (g_nodes g) -> In (snd e) (g_nodes g) ->
    crosses_parts (a_map A) e = Ok (crossb A e).
  Proof.
    intros C H1 H2. unfold crosses_parts, crossb.
    destruct (has_district g A _ C H1) as [p Hp]. destruct (has_district g A _ C H2) as [q Hq].
    rewrite Hp, Hq. unfold district in *. rewrite Hp, Hq. reflexivity.
  Qed.

  Lemma cut_edge_alt g A e :
    cut_edge g A e <-> exists e0, In e0 (g_edges g) /\ crossb A e0 = true /\ e = sort2 e0.
  Proof.
    unfold cut_edge. split.
    - destruct e as [u v]. simpl. intros (Hl & [Ha|Ha] & Hd).
      + exists (u, v). split; auto. split; [now apply crossb_spec|].
        symmetry. apply (proj1 (sort2_sorted u v Hl)).
      + exists (v, u). split; auto. split; [apply crossb_spec; simpl; congruence|].
        symmetry. apply (proj2 (sort2_sorted u v Hl)).
    - intros (e0 & He & Hc & ->). apply crossb_spec in Hc.
      split; [apply sort2_leb|]. split.
      + apply (proj1 (adj_sort2 g e0)). destruct e0. left. auto.
      + destruct (sort2_cases e0) as [->| ->]; simpl; congruence.
  Qed.

  Lemma scratch_cut_edges_spec {V L} {EL : EqB L} (E : env N P V L) A :
    wf_graph (e_graph E) -> coherent (g_nodes (e_graph E)) A ->
    exists s, scratch_cut_edges E A = Ok s /\ NoDup s /\
              forall e, In e s <-> cut_edge (e_graph E) A e.
  Proof.
    intros W C. unfold scratch_cut_edges.
    destruct (fold_collect (crosses_parts (a_map A)) (crossb A) sort2 (g_edges (e_graph E)))
      as (s & Es & Ns & Is).
    { intros [u v] H. destruct (wfg_ends _ W _ _ H). eapply crosses_ok; eauto. }
    exists s. split; auto. split; auto. intro e. rewrite Is, cut_edge_alt. tauto.
  Qed.

  (** ** Incremental cut edges *)

  (** [A'] is [A] after [flips]. *)
  Definition flipped A (flips : dict N P) A' : Prop :=
    forall n, district A' n = overridden (a_map A) flips n.

  Lemma flipped_same A flips A' n :
    flipped A flips A' -> ~ In n (dkeys flips) -> district A' n = district A n.
  Proof.
    intros H Hn. rewrite H. unfold overridden. apply dget_None in Hn. now rewrite Hn.
  Qed.

  Lemma cut_changes g A flips A' e :
    flipped A flips A' -> leb (fst e) (snd e) = true -> adj g (fst e) (snd e) ->
    ~ In e (neighbor_flips g flips) ->
    district A' (fst e) = district A (fst e) /\ district A' (snd e) = district A (snd e).
  Proof.
    intros F Hl Ha Hn. rewrite In_neighbor_flips in Hn.
    split; eapply flipped_same; eauto; tauto.
  Qed.

  Lemma new_obsolete_spec {V L} {EL : EqB L} (E : env N P V L) A flips A' :
    wf_graph (e_graph E) -> coherent (g_nodes (e_graph E)) A ->
    coherent (g_nodes (e_graph E)) A' ->
    exists new obs, new_cuts E A' flips = Ok new /\ obsolete_cuts E A A' flips = Ok obs /\
      (forall e, In e new <-> In e (neighbor_flips (e_graph E) flips) /\ cut_edge (e_graph E) A' e) /\
      (forall e, In e obs <-> In e (neighbor_flips (e_graph E) flips) /\
                   cut_edge (e_graph E) A e /\ ~ cut_edge (e_graph E) A' e).
  Proof.
    intros W C C'. unfold new_cuts, obsolete_cuts.
    assert (Hin : forall e, In e (neighbor_flips (e_graph E) flips) ->
              In (fst e) (g_nodes (e_graph E)) /\ In (snd e) (g_nodes (e_graph E))).
    { intros e He. apply In_neighbor_flips in He. destruct He as (_ & Ha & _).
      eapply adj_nodes; eauto. }
    destruct (fold_collect (crosses_parts (a_map A')) (crossb A') (fun e => e)
                (neighbor_flips (e_graph E) flips)) as (new & En & _ & In_).
    { intros e He. destruct (Hin e He). eapply crosses_ok; eauto. }
    destruct (fold_collect (fun e => b <- crosses_parts (a_map A) e ;;
                                     c <- crosses_parts (a_map A') e ;; Ok (b && negb c))
                (fun e => crossb A e && negb (crossb A' e)) (fun e => e)
                (neighbor_flips (e_graph E) flips)) as (obs & Eo & _ & Io).
    { intros e He. destruct (Hin e He).
      rewrite (crosses_ok (e_graph E) A), (crosses_ok (e_graph E) A'); auto. }
    exists new, obs. split; auto. split; [|split].
    - rewrite <- Eo. apply foldM_ext. intros b e He. destruct (Hin e He).
      rewrite (crosses_ok (e_graph E) A), (crosses_ok (e_graph E) A'); auto.
    - intro e. rewrite In_. split.
      + intros (e0 & H1 & H2 & ->). split; auto. apply crossb_spec in H2.
        apply In_neighbor_flips in H1. unfold cut_edge. tauto.
      + intros (H1 & H2). exists e. split; auto. split; auto. apply crossb_spec. apply H2.
    - intro e. rewrite Io. split.
      + intros (e0 & H1 & H2 & ->). split; auto. apply andb_true_iff in H2.
        destruct H2 as [H2 H3]. apply crossb_spec in H2. apply negb_true_iff in H3.
        apply In_neighbor_flips in H1. split.
        * unfold cut_edge. tauto.
        * intros (_ & _ & H4). apply crossb_spec in H4. congruence.
      + intros (H1 & H2 & H3). exists e. split; auto. split; auto.
        apply andb_true_iff. split; [apply crossb_spec; apply H2|].
        apply negb_true_iff. destruct (crossb A' e) eqn:Ec; auto. exfalso. apply H3.
        apply crossb_spec in Ec. apply In_neighbor_flips in H1. unfold cut_edge. tauto.
  Qed.

  Lemma cut_edges_incremental g A flips A' prev new obs :
    flipped A flips A' ->
    (forall e, In e prev <-> cut_edge g A e) ->
    (forall e, In e new <-> In e (neighbor_flips g flips) /\ cut_edge g A' e) ->
    (forall e, In e obs <-> In e (neighbor_flips g flips) /\ cut_edge g A e /\ ~ cut_edge g A' e) ->
    forall e, In e (sdiff (sunion prev new) obs) <-> cut_edge g A' e.
  Proof.
    intros F Hp Hn Ho e. rewrite In_sdiff, In_sunion, Hp, Hn, Ho.
    destruct (In_dec_of e (neighbor_flips g flips)) as [Hi|Hi].
    - destruct (In_dec_of e new) as [Hc|Hc]; rewrite Hn in Hc; [tauto|].
      split; [|tauto]. intros [[H|H] H2]; [|tauto]. exfalso. apply H2. tauto.
    - assert (Heq : cut_edge g A e <-> cut_edge g A' e).
      { unfold cut_edge. split; intros (H1 & H2 & H3); split; auto; split; auto;
          destruct (cut_changes g A flips A' e F H1 H2 Hi) as [E1 E2]; congruence. }
      rewrite Heq. tauto.
  Qed.

  (** ** put_edges *)

  Lemma put_edges_spec A edges :
    (forall e, In e edges -> exists p q, district A (fst e) = Some p /\ district A (snd e) = Some q) ->
    NoDup edges ->
    exists d, put_edges A edges = Ok d /\ NoDup (dkeys d) /\
      forall p, NoDup (dget_or [] d p) /\
        forall e, In e (dget_or [] d p) <->
                  In e edges /\ (district A (fst e) = Some p \/ district A (snd e) = Some p).
  Proof.
    intros Hd ND. unfold put_edges.
    match goal with |- context [foldM ?f _ _] => set (F := f) end.
    assert (H : forall l acc, incl l edges -> NoDup (dkeys acc) ->
      (forall p, NoDup (dget_or [] acc p)) ->
      exists d, foldM F l acc = Ok d /\ NoDup (dkeys d) /\
        forall p, NoDup (dget_or [] d p) /\
          forall e, In e (dget_or [] d p) <-> In e (dget_or [] acc p) \/
                  In e l /\ (district A (fst e) = Some p \/ district A (snd e) = Some p)).
    { induction l as [|e l IH]; simpl; intros acc Hl Hk Hn.
      - exists acc. split; auto. split; auto. intro p. split; auto. intro e. tauto.
      - destruct (Hd e) as (p & q & Hp & Hq); [apply Hl; now left|].
        unfold F at 1. unfold district in Hp, Hq. rewrite Hp, Hq. simpl.
        match goal with |- context [foldM F l ?x] => set (acc' := x) end.
        assert (G : forall r, dget_or [] acc' r =
           if eqb r q then sadd e (if eqb q p then sadd e (dget_or [] acc p) else dget_or [] acc q)
           else if eqb r p then sadd e (dget_or [] acc p) else dget_or [] acc r).
        { intro r. unfold acc', dget_or. rewrite !dget_dset.
          destruct (eqb_spec r q), (eqb_spec r p), (eqb_spec q p); subst; try congruence; auto. }
        destruct (IH acc') as (d & Ed & Nd & Sd).
        { intros z Hz. apply Hl. now right. }
        { unfold acc'. now apply NoDup_dset, NoDup_dset. }
        { intro r. rewrite G. destruct (eqb r q).
          - apply NoDup_sadd. destruct (eqb q p); auto. now apply NoDup_sadd.
          - destruct (eqb r p); auto. now apply NoDup_sadd. }
        exists d. split; auto. split; auto. intro r. destruct (Sd r) as [Nr Ir]. split; auto.
        intro e'. rewrite Ir, G. unfold district in *.
        destruct (eqb_spec r q) as [->|Nq].
        + rewrite In_sadd. destruct (eqb_spec q p) as [->|Nqp]; rewrite ?In_sadd.
          * split; [|intros [H|[[<-|H] H2]]; tauto].
            intros [[->|[->|H]]|H]; try tauto; right; split; auto.
          * split; [|intros [H|[[<-|H] H2]]; tauto].
            intros [[->|H]|H]; try tauto; right; split; auto.
        + destruct (eqb_spec r p) as [->|Np].
          * rewrite In_sadd. split; [|intros [H|[[<-|H] H2]]; tauto].
            intros [[->|H]|H]; try tauto; right; split; auto.
          * split; [tauto|]. intros [H|[[<-|H] [H2|H2]]]; try tauto; congruence. }
    destruct (H edges [] (incl_refl _) (NoDup_nil _)) as (d & Ed & Nd & Sd).
    { intro p. constructor. }
    exists d. split; auto. split; auto. intro p. destruct (Sd p) as [Np Ip]. split; auto.
    intro e. rewrite Ip. unfold dget_or. simpl. tauto.
  Qed.

  (** ** Edge flows *)

  Record eflows_spec g A A' (ef : dict P (flow (N * N))) : Prop := {
    es_wf : wf_flows ef;
    es_in : forall p e, In e (inset ef p) <-> cut_edge_of g A' p e /\ ~ cut_edge_of g A p e;
    es_out : forall p e, In e (outset ef p) <-> cut_edge_of g A p e /\ ~ cut_edge_of g A' p e
  }.

  Lemma fold_add_out_spec (e : N * N) ps : forall (fl : dict P (flow (N * N))),
    let fl' := fold_left (fun fl p => add_out p e fl) ps fl in
    (wf_flows fl -> wf_flows fl') /\
    (forall p x, In x (inset fl' p) <-> In x (inset fl p)) /\
    (forall p x, In x (outset fl' p) <-> (In p ps /\ x = e) \/ In x (outset fl p)).
  Proof.
    induction ps as [|q ps IH]; simpl; intro fl.
    - split; auto. split; intros; tauto.
    - destruct (IH (add_out q e fl)) as (W & I & O). split; [|split].
      + intro H. apply W. now apply wf_add_out.
      + intros p x. rewrite I, inset_add_out. tauto.
      + intros p x. rewrite O, outset_add_out. split; [|intros [[[->|H1] H2]|H]; auto].
        intros [[H1 H2]|[[H1 H2]|H]]; auto.
  Qed.

  Lemma fold_add_in_spec (e : N * N) ps : forall (fl : dict P (flow (N * N))),
    let fl' := fold_left (fun fl p => add_in p e fl) ps fl in
    (wf_flows fl -> wf_flows fl') /\
    (forall p x, In x (outset fl' p) <-> In x (outset fl p)) /\
    (forall p x, In x (inset fl' p) <-> (In p ps /\ x = e) \/ In x (inset fl p)).
  Proof.
    induction ps as [|q ps IH]; simpl; intro fl.
    - split; auto. split; intros; tauto.
    - destruct (IH (add_in q e fl)) as (W & I & O). split; [|split].
      + intro H. apply W. now apply wf_add_in.
      + intros p x. rewrite I, outset_add_in. tauto.
      + intros p x. rewrite O, inset_add_in. split; [|intros [[[->|H1] H2]|H]; auto].
        intros [[H1 H2]|[[H1 H2]|H]]; auto.
  Qed.

  Definition touchp (s t p : P) : Prop := s <> t /\ (p = s \/ p = t).

  Lemma edge_flow_step_spec (old new : dict N P) fl e os ot ns nt :
    dget old (fst e) = Some os -> dget old (snd e) = Some ot ->
    dget new (fst e) = Some ns -> dget new (snd e) = Some nt ->
    exists fl', edge_flow_step old new fl e = Ok fl' /\
      (wf_flows fl -> wf_flows fl') /\
      (forall p x, In x (inset fl' p) <->
         (x = e /\ touchp ns nt p /\ ~ touchp os ot p) \/ In x (inset fl p)) /\
      (forall p x, In x (outset fl' p) <->
         (x = e /\ touchp os ot p /\ ~ touchp ns nt p) \/ In x (outset fl p)).
  Proof.
    intros E1 E2 E3 E4. unfold edge_flow_step. rewrite E1, E2, E3, E4. simpl. unfold touchp.
    destruct (eqb_spec ns nt) as [Hn|Hn], (eqb_spec os ot) as [Ho|Ho]; simpl.
    - exists fl. split; auto. split; auto. split; intros p x; split; tauto.
    - eexists. split; [reflexivity|]. split; [|split].
      + intro W. now apply wf_add_out, wf_add_out.
      + intros p x. rewrite !inset_add_out. tauto.
      + intros p x. rewrite !outset_add_out. split.
        * intros [[-> ->]|[[-> ->]|H]]; tauto.
        * intros [(-> & (_ & [->| ->]) & _)|H]; auto.
    - eexists. split; [reflexivity|]. split; [|split].
      + intro W. now apply wf_add_in, wf_add_in.
      + intros p x. rewrite !inset_add_in. split.
        * intros [[-> ->]|[[-> ->]|H]]; tauto.
        * intros [(-> & (_ & [->| ->]) & _)|H]; auto.
      + intros p x. rewrite !outset_add_in. tauto.
    - eexists. split; [reflexivity|].
      match goal with |- context [fold_left (fun fl p => add_in p e fl) ?ni
                                   (fold_left (fun fl p => add_out p e fl) ?no fl)] =>
        destruct (fold_add_out_spec e no fl) as (W1 & I1 & O1);
        destruct (fold_add_in_spec e ni (fold_left (fun fl p => add_out p e fl) no fl))
          as (W2 & O2 & I2) end.
      cbv zeta in *. split; [auto|]. split.
      + intros p x. rewrite I2, I1, In_sdiff, In_set_of. simpl. split.
        * intros [[(H1 & H2) ->]|H]; auto. left. split; auto.
          assert (p = ns \/ p = nt) by (destruct H1 as [<-|[<-|[]]]; auto).
          assert (p <> os) by (intro; apply H2; auto).
          assert (p <> ot) by (intro; apply H2; auto). tauto.
        * intros [(-> & (_ & H1) & H2)|H]; auto. left. split; auto. split.
          -- destruct H1; subst; auto.
          -- intros [<-|[<-|[]]]; apply H2; auto.
      + intros p x. rewrite O2, O1, In_sdiff, In_set_of. simpl. split.
        * intros [[(H1 & H2) ->]|H]; auto. left. split; auto.
          assert (p = os \/ p = ot) by (destruct H1 as [<-|[<-|[]]]; auto).
          assert (p <> ns) by (intro; apply H2; auto).
          assert (p <> nt) by (intro; apply H2; auto). tauto.
        * intros [(-> & (_ & H1) & H2)|H]; auto. left. split; auto. split.
          -- destruct H1; subst; auto.
          -- intros [<-|[<-|[]]]; apply H2; auto.
  Qed.

  Lemma cut_of_labels g A p e s t :
    leb (fst e) (snd e) = true -> adj g (fst e) (snd e) ->
    district A (fst e) = Some s -> district A (snd e) = Some t ->
    (cut_edge_of g A p e <-> touchp s t p).
  Proof.
    intros Hl Ha Hs Ht. unfold cut_edge_of, cut_edge, touchp. rewrite Hs, Ht. split.
    - intros ((_ & _ & H1) & H2). split; [congruence|]. destruct H2; [left|right]; congruence.
    - intros (H1 & H2). split; [split; auto; split; auto; congruence|].
      destruct H2; [left|right]; congruence.
  Qed.

  Lemma compute_edge_flows_spec g A flips A' :
    wf_graph g -> coherent (g_nodes g) A -> coherent (g_nodes g) A' -> flipped A flips A' ->
    exists ef, compute_edge_flows g (a_map A) (a_map A') flips = Ok ef /\ eflows_spec g A A' ef.
  Proof.
    intros W C C' F. unfold compute_edge_flows.
    assert (H : forall l acc, incl l (neighbor_flips g flips) -> wf_flows acc ->
      exists ef, foldM (edge_flow_step (a_map A) (a_map A')) l acc = Ok ef /\ wf_flows ef /\
        (forall p e, In e (inset ef p) <->
           In e (inset acc p) \/ (In e l /\ cut_edge_of g A' p e /\ ~ cut_edge_of g A p e)) /\
        (forall p e, In e (outset ef p) <->
           In e (outset acc p) \/ (In e l /\ cut_edge_of g A p e /\ ~ cut_edge_of g A' p e))).
    { induction l as [|e l IH]; simpl; intros acc Hl Ha.
      - exists acc. split; auto. split; auto. split; intros; tauto.
      - assert (He : In e (neighbor_flips g flips)) by (apply Hl; now left).
        apply In_neighbor_flips in He. destruct He as (Le & Ae & _).
        destruct (adj_nodes g _ _ W Ae) as [N1 N2].
        destruct (has_district g A _ C N1) as [os Eos].
        destruct (has_district g A _ C N2) as [ot Eot].
        destruct (has_district g A' _ C' N1) as [ns Ens].
        destruct (has_district g A' _ C' N2) as [nt Ent].
        destruct (edge_flow_step_spec (a_map A) (a_map A') acc e os ot ns nt Eos Eot Ens Ent)
          as (fl' & Ef & Wf & If_ & Of).
        rewrite Ef. simpl.
        destruct (IH fl') as (ef & Eef & Wef & Ief & Oef).
        { intros z Hz. apply Hl. now right. }
        { auto. }
        exists ef. split; auto. split; auto.
        pose proof (fun p => cut_of_labels g A p e os ot Le Ae Eos Eot) as K.
        pose proof (fun p => cut_of_labels g A' p e ns nt Le Ae Ens Ent) as K'.
        split; intros p x.
        + rewrite Ief, If_. split.
          * intros [[(-> & H1)|H]|H]; try tauto. right. rewrite K, K'. tauto.
          * intros [H|[[<-|H] H2]]; try tauto. rewrite K, K' in H2. tauto.
        + rewrite Oef, Of. split.
          * intros [[(-> & H1)|H]|H]; try tauto. right. rewrite K, K'. tauto.
          * intros [H|[[<-|H] H2]]; try tauto. rewrite K, K' in H2. tauto. }
    destruct (H (neighbor_flips g flips) [] (incl_refl _) wf_flows_nil)
      as (ef & Eef & Wef & Ief & Oef).
    exists ef. split; auto. constructor; auto.
    - intros p e. rewrite Ief. unfold inset at 1, dget_or at 1. simpl. split; [tauto|].
      intros (H1 & H2). right. split; auto.
      destruct (In_dec_of e (neighbor_flips g flips)) as [|Hn]; auto. exfalso. apply H2.
      destruct H1 as ((Hl & Ha & Hc) & Ht).
      destruct (cut_changes g A flips A' e F Hl Ha Hn) as [E1 E2].
      unfold cut_edge_of, cut_edge. rewrite <- E1, <- E2. auto.
    - intros p e. rewrite Oef. unfold outset at 1, dget_or at 1. simpl. split; [tauto|].
      intros (H1 & H2). right. split; auto.
      destruct (In_dec_of e (neighbor_flips g flips)) as [|Hn]; auto. exfalso. apply H2.
      destruct H1 as ((Hl & Ha & Hc) & Ht).
      destruct (cut_changes g A flips A' e F Hl Ha Hn) as [E1 E2].
      unfold cut_edge_of, cut_edge. rewrite E1, E2. auto.
  Qed.

  Lemma In_fl_inset {X} (fl : dict P (flow X)) p f :
    NoDup (dkeys fl) -> In (p, f) fl -> inset fl p = f_in f /\ outset fl p = f_out f.
  Proof.
    intros ND H. unfold inset, outset, dget_or. apply In_dget in H; auto. now rewrite H.
  Qed.

  Lemma dead_inset {X} {EX : EqB X} (fl : dict P (flow X)) p :
    wf_flows fl -> ~ In p (dkeys fl) -> forall x, ~ In x (inset fl p) /\ ~ In x (outset fl p).
  Proof.
    intros W H x. split; intro Hx; apply H; apply (wff_live _ W); eauto.
  Qed.

  Lemma cut_of_dec g A p e : cut_edge_of g A p e \/ ~ cut_edge_of g A p e.
  Proof.
    unfold cut_edge_of, cut_edge.
    destruct (leb (fst e) (snd e)); [|right; intros ((H & _) & _); discriminate].
    destruct (In_dec_of (snd e) (neighbors g (fst e))) as [H|H]; rewrite In_neighbors in H;
      [|right; tauto].
    destruct (eqb_spec (district A (fst e)) (district A (snd e))); [right; tauto|].
    destruct (eqb_spec (district A (fst e)) (Some p)); [left; tauto|].
    destruct (eqb_spec (district A (snd e)) (Some p)); [left; tauto|right; tauto].
  Qed.

  Lemma by_part_incremental g A A' ef prev :
    eflows_spec g A A' ef ->
    NoDup (dkeys prev) ->
    (forall p, NoDup (dget_or [] prev p) /\ forall e, In e (dget_or [] prev p) <-> cut_edge_of g A p e) ->
    let d := fold_left (fun d pf =>
       dset d (fst pf) (sdiff (sunion (dget_or [] prev (fst pf)) (f_in (snd pf))) (f_out (snd pf))))
       ef prev in
    NoDup (dkeys d) /\
    forall p, NoDup (dget_or [] d p) /\ forall e, In e (dget_or [] d p) <-> cut_edge_of g A' p e.
  Proof.
    intros [W I O] ND Hp d.
    destruct (fold_left_dset (fun pf : P * flow (N * N) => sdiff (sunion (dget_or [] prev (fst pf)) (f_in (snd pf))) (f_out (snd pf)))
                ef prev (wff_keys _ W)) as (D1 & D2 & D3 & _).
    fold d in D1, D2, D3. split; [auto|]. intro p.
    destruct (In_dec_of p (dkeys ef)) as [Hk|Hk].
    - apply dget_key in Hk. destruct Hk as [f Hf]. apply dget_In in Hf.
      destruct (In_fl_inset ef p f (wff_keys _ W) Hf) as [Ei Eo].
      unfold dget_or at 1 2. rewrite (D1 p f Hf). simpl. split.
      + apply NoDup_sdiff, NoDup_sunion, Hp.
      + intro e. rewrite In_sdiff, In_sunion, <- Ei, <- Eo, I, O.
        destruct (Hp p) as [_ ->].
        destruct (cut_of_dec g A p e), (cut_of_dec g A' p e); tauto.
    - unfold dget_or at 1 2. rewrite (D2 p Hk).
      change (match dget prev p with Some v => v | None => [] end) with (dget_or [] prev p).
      split; [apply Hp|]. intro e. destruct (Hp p) as [_ ->].
      destruct (dead_inset ef p W Hk e) as [H1 H2]. rewrite I in H1. rewrite O in H2.
      destruct (cut_of_dec g A p e), (cut_of_dec g A' p e); tauto.
  Qed.
End Cuts.
