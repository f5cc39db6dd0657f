(** C42-C45, C49, C92: proposals, the metagraph and acceptance. *)
From Coq Require Import String List Bool Arith ZArith QArith Lqa Lia ZifyBool ZifyNat.
From Verif Require Import Base M_Graph M_Partition S_Partition L_Partition M_Machine S_Machine
  L_Cuts L_Machine L_Answers P_Partition P_Machine M_Election L_Order M_Proposals S_Proposals.
Import ListNotations.
Local Open Scope nat_scope.
Local Open Scope list_scope.

Lemma choice_In {X} r (l : list X) x : choice r l = Ok x -> In x l.
Proof.
  unfold choice. destruct (nth_error l (r mod List.length l)) eqn:Hn; simpl; intro H; [|discriminate].
  injection H as <-. eapply nth_error_In; eauto.
Qed.
Lemma choice_ok {X} r (l : list X) : l <> [] -> exists x, choice r l = Ok x /\ In x l.
Proof.
  intro H. assert (Hl : List.length l <> 0) by (destruct l; [contradiction|simpl; lia]).
  pose proof (Nat.mod_upper_bound r (List.length l) Hl) as Hb.
  destruct (nth_error l (r mod List.length l)) as [x|] eqn:Hn; [|apply nth_error_None in Hn; lia].
  exists x. unfold choice. rewrite Hn. split; auto. eapply nth_error_In; eauto.
Qed.
Lemma choice_nil {X} r : choice r (@nil X) = Err IndexError.
Proof. unfold choice. destruct (r mod List.length (@nil X)); reflexivity. Qed.
(** Every element can be drawn. *)
Lemma choice_any {X} (l : list X) x : In x l -> exists r, choice r l = Ok x.
Proof.
  intro H. destruct (In_nth_error l x H) as [i Hi]. exists i. unfold choice.
  assert (i < List.length l) by (apply nth_error_Some; congruence).
  rewrite Nat.mod_small by auto. now rewrite Hi.
Qed.

Section Proposals.
  Context {N P V L : Type} {EN : EqB N} {EP : EqB P} {EL : EqB L} {ON : Ord N} {RV : CRing V}.
  Variable E : env N P V L.
  Notation g := (e_graph E).
  Implicit Types (A : assignment N P) (h : heap N P V L) (o : pobj N P V L) (a : nat).

  Lemma bindM_ok {X Y} (m : @M N P V L X) (f : X -> @M N P V L Y) h x h' :
    m h = (Ok x, h') -> bindM m f h = f x h'.
  Proof. intro H. unfold bindM. now rewrite H. Qed.
  Lemma bindM_err {X Y} (m : @M N P V L X) (f : X -> @M N P V L Y) h e h' :
    m h = (Err e, h') -> bindM m f h = (Err e, h').
  Proof. intro H. unfold bindM. now rewrite H. Qed.
  Lemma lift_bind {X Y} (x : X) (f : X -> @M N P V L Y) h : bindM (lift (Ok x)) f h = f x h.
  Proof. reflexivity. Qed.
  Lemma get_bind {Y} h a o (f : pobj N P V L -> @M N P V L Y) :
    nth_error h a = Some o -> bindM (get_obj a) f h = f o h.
  Proof. intro H. unfold bindM, get_obj. now rewrite H. Qed.

  (** Plans other than new ones are as before. *)
  Definition kept h h' : Prop :=
    forall a o, nth_error h a = Some o ->
      exists o', nth_error h' a = Some o' /\ o_assign o' = o_assign o /\ o_flips o' = o_flips o /\
                 o_parent o' = o_parent o.
  Lemma kept_refl h : kept h h.
  Proof. intros a o H. exists o. auto. Qed.
  Lemma kept_trans h1 h2 h3 : kept h1 h2 -> kept h2 h3 -> kept h1 h3.
  Proof.
    intros H1 H2 a o Ho. destruct (H1 a o Ho) as (o1 & E1 & E2 & E3 & E4).
    destruct (H2 a o1 E1) as (o2 & F1 & F2 & F3 & F4). exists o2. repeat split; congruence.
  Qed.
  Lemma kept_app h l : kept h (h ++ l).
  Proof.
    intros a o Ho. exists o. split; auto. rewrite nth_error_app1; auto. apply nth_error_Some. congruence.
  Qed.

  Lemma read_kept h a k : session E h -> kept h (snd (read E a k h)).
  Proof.
    intros S b o Ho. pose proof (session_wf E h S) as W. destruct S as (WE & REG & _).
    destruct (read_spec E h a k WE REG W) as (_ & Sk & _).
    destruct (skel_persists _ _ Sk b o Ho) as (o' & Ho' & Es). exists o'. injection Es as E1 E2 E3 E4 E5. auto.
  Qed.

  (** Reading the cut edges. *)
  Lemma cuts_ok h a o : session E h -> nth_error h a = Some o ->
    dget (e_updaters E) "cut_edges"%string = Some UCutEdges ->
    exists s h', cut_edges_of E a h = (Ok s, h') /\ NoDup s /\
      (forall e, In e s <-> cut_edge g (o_assign o) e) /\ session E h' /\ kept h h'.
  Proof.
    intros S Ho Hu. destruct (session_answer E h a o _ _ S Ho Hu) as (_ & H & _).
    destruct (H I) as (v & Hv & Cr). simpl in Cr. destruct Cr as (s & -> & ND & Sp).
    exists s, (snd (read E a "cut_edges"%string h)). unfold cut_edges_of, bindM.
    pose proof (session_read E h a "cut_edges"%string S) as S'. pose proof (read_kept h a "cut_edges"%string S) as K.
    destruct (read E a "cut_edges"%string h) as [r h']. simpl in *. subst r. auto.
  Qed.

  (** Flips of existing nodes to existing districts succeed. *)
  Lemma flip_ok h a o f : session E h -> nth_error h a = Some o -> is_dict f ->
    (forall n p, dget f n = Some p -> In n (g_nodes g) /\ In p (labels (o_assign o))) ->
    exists o', flip E a f h = (Ok (List.length h), h ++ [o']) /\ o_parent o' = Some a /\
      o_flips o' = Some f /\ flip_assignment (o_assign o) f = Ok (o_assign o') /\
      (forall n, district (o_assign o') n = match dget f n with Some p => Some p | None => district (o_assign o) n end) /\
      session E (h ++ [o']) /\ nth_error (h ++ [o']) (List.length h) = Some o'.
  Proof.
    intros S Ho D Hall. pose proof (session_coherent E h a o S Ho) as C.
    destruct (flip_outcome _ _ f C D) as [Fo _]. destruct (Fo Hall) as [A' HA'].
    pose proof (flip_coherent _ _ _ _ C D HA') as C'.
    pose proof (flip_district _ _ _ _ C D HA') as Fl.
    pose proof (session_flip E h a f S D) as S'.
    destruct (flip_heap_cases E h a f) as [[_ H]|H].
    - exfalso. unfold flip in H. rewrite Ho in H. unfold flip_assignment in HA'.
      destruct (flows_from_changes (a_map (o_assign o)) f) as [fl|e|] eqn:Ef; try discriminate. cbn [bind] in *.
      rewrite HA' in H. cbn [bind] in H.
      destruct S as (WE & _). destruct (compute_edge_flows_spec g _ f _ (proj1 WE) C C' Fl) as (ef & E3 & _).
      rewrite E3 in H. destruct (dmem (e_updaters E) "cut_edges"%string); cbn [bind] in H; now apply (H (List.length h)).
    - destruct H as (x & o' & Ea & Hf & P1 & P2 & P3 & P4 & P5 & _).
      assert (x = o) by congruence. subst x. rewrite Hf in S'. simpl in S'.
      exists o'. split; auto. split; auto. split; auto.
      assert (HB : flip_assignment (o_assign o) f = Ok (o_assign o')).
      { unfold flip_assignment. rewrite P4. exact P5. }
      split; auto. split.
      { intro n. assert (A' = o_assign o') by congruence. subst A'. rewrite (Fl n). reflexivity. }
      split; auto. rewrite nth_error_app2, Nat.sub_diag by lia. reflexivity.
  Qed.

  Section Plan.
    Variables (h : heap N P V L) (a : nat) (o : pobj N P V L).
    Hypothesis S : session E h.
    Hypothesis Ho : nth_error h a = Some o.
    Hypothesis Hu : dget (e_updaters E) "cut_edges"%string = Some UCutEdges.
    Notation A := (o_assign o).

    Lemma Coh : coherent (g_nodes g) A. Proof. eapply session_coherent; eauto. Qed.
    Lemma wfg : wf_graph g. Proof. apply S. Qed.
    Lemma adj_node u v : adj g u v -> In u (g_nodes g) /\ In v (g_nodes g).
    Proof. intros [H|H]; apply (wfg_ends _ wfg) in H; tauto. Qed.
    Lemma adj_sym u v : adj g u v -> adj g v u. Proof. unfold adj. tauto. Qed.
    Lemma part_ok n : In n (g_nodes g) -> exists p, part_of A n = Ok p /\ district A n = Some p /\ In p (labels A).
    Proof.
      intro H. destruct (has_district g A n Coh H) as [p Hp]. exists p. unfold part_of.
      rewrite (Hp : dget (a_map A) n = Some p). split; auto. split; auto. eapply district_node; eauto. apply Coh.
    Qed.
    Lemma cut_edge_iff u v : (cut_edge g A (u, v) \/ cut_edge g A (v, u)) <->
      adj g u v /\ district A u <> district A v.
    Proof.
      unfold cut_edge. simpl. split.
      - intros [(_ & H1 & H2)|(_ & H1 & H2)]; split; auto. now apply adj_sym.
      - intros [H1 H2]. destruct (leb_total u v); [left|right]; repeat split; auto. now apply adj_sym.
    Qed.
    Lemma orient_cut b e : cut_edge g A e ->
      let no := orient b e in adj g (fst no) (snd no) /\ district A (fst no) <> district A (snd no).
    Proof.
      intros (_ & H1 & H2). destruct b; simpl; split; auto. now apply adj_sym.
    Qed.

    Lemma single_flip h' n p : session E h' -> kept h h' -> In n (g_nodes g) -> In p (labels A) ->
      exists c h'' o', flip E a [(n, p)] h' = (Ok c, h'') /\ session E h'' /\ kept h h'' /\
        nth_error h'' c = Some o' /\ o_parent o' = Some a /\ moved A n p (o_assign o') /\
        o_flips o' = Some [(n, p)].
    Proof.
      intros S' K Hn Hp. destruct (K a o Ho) as (o1 & H1 & E1 & _).
      destruct (flip_ok h' a o1 [(n, p)] S' H1) as (o' & F1 & F2 & F3 & _ & F4 & F5 & F6).
      { repeat constructor. intros []. }
      { intros m q Hm. simpl in Hm. destruct (eqb_spec m n) as [->|]; [|discriminate].
        injection Hm as <-. rewrite E1. auto. }
      exists (List.length h'), (h' ++ [o']), o'. split; auto. split; auto. split.
      { eapply kept_trans; [exact K|apply kept_app]. }
      split; auto. split; auto. split; auto. split.
      - rewrite F4. simpl. now rewrite eqb_refl.
      - intros x Hx. rewrite F4. simpl. destruct (eqb_spec x n); [contradiction|]. now rewrite E1.
    Qed.

    (** ** C42 *)
    Theorem C42_no_cut_edges : ~ has_cut g A -> forall r b,
      fst (propose_random_flip E r b a h) = Ok a.
    Proof.
      intros NC r b. unfold propose_random_flip. rewrite (get_bind h a o) by exact Ho.
      destruct (cuts_ok h a o S Ho Hu) as (s & h' & Hc & ND & Sp & _). rewrite (bindM_ok _ _ _ _ _ Hc).
      destruct s as [|e s]; [reflexivity|]. exfalso. apply NC.
      assert (He : cut_edge g A e) by (apply Sp; now left). destruct He as (_ & H1 & H2). exists (fst e), (snd e). auto.
    Qed.
    Theorem C42_random_flip : has_cut g A -> forall r b,
      exists c h' o' n q, propose_random_flip E r b a h = (Ok c, h') /\ session E h' /\
        nth_error h' c = Some o' /\ o_parent o' = Some a /\
        boundary_move g A n q /\ moved A n q (o_assign o').
    Proof.
      intros (u & v & Huv) r b. unfold propose_random_flip. rewrite (get_bind h a o) by exact Ho.
      destruct (cuts_ok h a o S Ho Hu) as (s & h' & Hc & ND & Sp & S' & K). rewrite (bindM_ok _ _ _ _ _ Hc).
      assert (Hs : s <> []).
      { intros ->. apply cut_edge_iff in Huv. destruct Huv as [Huv|Huv]; apply Sp in Huv; destruct Huv. }
      destruct (Nat.eqb_spec (List.length s) 0) as [H0|_]; [destruct s; [contradiction|discriminate]|].
      destruct (choice_ok r s Hs) as (e & He & Hin). rewrite He, lift_bind.
      destruct (orient_cut b e (proj1 (Sp e) Hin)) as [Ad Dn]. destruct (orient b e) as [n m]. simpl in Ad, Dn. cbn [fst snd].
      destruct (part_ok m (proj2 (adj_node _ _ Ad))) as (p & Pp & Dp & Lp). rewrite Pp, lift_bind.
      destruct (single_flip h' n p S' K (proj1 (adj_node _ _ Ad)) Lp) as (c & h'' & o' & F1 & F2 & F3 & F4 & F5 & F6 & _).
      exists c, h'', o', n, p. split; auto. split; auto. split; auto. split; auto. split; auto.
      exists m. split; auto. split; auto. congruence.
    Qed.
    (** Every boundary move is proposed for some draw. *)
    Theorem C42_every_move_possible : forall n q, boundary_move g A n q ->
      exists r b c h' o', propose_random_flip E r b a h = (Ok c, h') /\
        nth_error h' c = Some o' /\ moved A n q (o_assign o').
    Proof.
      intros n q (m & Ad & Dm & Dn).
      destruct (cuts_ok h a o S Ho Hu) as (s & h' & Hc & ND & Sp & S' & K).
      assert (Hd : district A n <> district A m) by congruence.
      destruct (proj2 (cut_edge_iff n m) (conj Ad Hd)) as [He|He]; apply Sp in He;
        destruct (choice_any s _ He) as [r Hr];
        destruct (single_flip h' n q S' K (proj1 (adj_node _ _ Ad)) ltac:(eapply district_node; [apply Coh|exact Dm]))
          as (c & h'' & o' & F1 & F2 & F3 & F4 & F5 & F6 & _);
        exists r; [exists true|exists false]; exists c, h'', o'; (split; [|auto]);
        unfold propose_random_flip; rewrite (get_bind h a o) by exact Ho;
        rewrite (bindM_ok _ _ _ _ _ Hc);
        (destruct (Nat.eqb_spec (List.length s) 0) as [H0|_]; [destruct s; [destruct He|discriminate]|]);
        rewrite Hr, lift_bind; cbn [orient fst snd]; unfold part_of; rewrite (Dm : dget (a_map A) m = Some q);
        cbn [of_option]; rewrite lift_bind; exact F1.
    Qed.

    (** ** C92: propose_any_node_flip *)
    Theorem C92_any_node_flip : g_nodes g <> [] -> forall r1 r2,
      exists c h' o' n q, propose_any_node_flip E r1 r2 a h = (Ok c, h') /\ session E h' /\
        nth_error h' c = Some o' /\ o_parent o' = Some a /\
        In n (g_nodes g) /\ In q (labels A) /\ moved A n q (o_assign o').
    Proof.
      intros Hne r1 r2. unfold propose_any_node_flip. rewrite (get_bind h a o) by exact Ho.
      destruct (choice_ok r1 _ Hne) as (n & Hn & In1). rewrite Hn, lift_bind.
      destruct (part_ok n In1) as (p & _ & _ & Lp).
      assert (Hl : labels A <> []) by (intro X; rewrite X in Lp; destruct Lp).
      destruct (choice_ok r2 (dkeys (a_parts A)) Hl) as (q & Hq & In2). rewrite Hq, lift_bind.
      destruct (single_flip h n q S (kept_refl h) In1 In2) as (c & h'' & o' & F1 & F2 & F3 & F4 & F5 & F6 & _).
      exists c, h'', o', n, q. auto 8.
    Qed.

    (** ** C43 *)
    Lemma neighbors_adj x y : In y (neighbors g x) <-> adj g x y.
    Proof.
      unfold neighbors. rewrite In_set_of, in_flat_map. unfold nbrs_in_edge, adj. split.
      - intros ([u v] & He & Hy). apply in_app_iff in Hy. simpl in Hy.
        destruct (eqb_spec u x) as [->|], (eqb_spec v x) as [->|]; simpl in Hy; intuition (subst; auto).
      - intros [He|He]; [exists (x, y)|exists (y, x)]; (split; [exact He|]); simpl; rewrite eqb_refl;
          apply in_app_iff; [left|right]; now left.
    Qed.
    Lemma chunk_spec v p : In v (g_nodes g) -> district A v = Some p ->
      exists f, chunk_flips E A v = Ok f /\ is_dict f /\
        forall x q, dget f x = Some q <-> q = p /\ adj g v x /\ district A x <> Some p.
    Proof.
      intros Hv Dv. unfold chunk_flips.
      assert (G : forall l f0, (forall x, In x l -> In x (g_nodes g)) -> is_dict f0 ->
        exists f, foldM (fun flips nbr => q <- part_of A nbr ;; p <- part_of A v ;;
                     Ok (if eqb q p then flips else dset flips nbr p)) l f0 = Ok f /\ is_dict f /\
          forall x, dget f x = if mem x l && negb (eqb (district A x) (Some p)) then Some p else dget f0 x).
      { induction l as [|y l IH]; intros f0 Hl D0.
        - exists f0. split; auto.
        - cbn [foldM]. destruct (part_ok y (Hl y (or_introl eq_refl))) as (q & Hq & Dq & _).
          rewrite Hq. cbn [bind]. unfold part_of at 1. rewrite (Dv : dget (a_map A) v = Some p). cbn [bind of_option].
          destruct (IH (if eqb q p then f0 else dset f0 y p)) as (f & Hf & Df & Sp).
          { intros x Hx. apply Hl. now right. }
          { destruct (eqb q p); auto. now apply NoDup_dset. }
          exists f. split; auto. split; auto. intro x. rewrite Sp. change (mem x (y :: l)) with (eqb x y || mem x l).
          destruct (eqb_spec x y) as [->|Hxy]; simpl orb.
          + rewrite Dq. simpl. destruct (eqb_spec q p) as [->|Hqp]; simpl; rewrite ?andb_false_r; auto.
            rewrite !andb_true_r. rewrite dget_dset_eq. destruct (mem y l); auto.
          + destruct (eqb q p); auto. rewrite dget_dset_neq by congruence. reflexivity. }
      destruct (G (neighbors g v) []) as (f & Hf & Df & Sp).
      { intros x Hx. apply neighbors_adj in Hx. apply (adj_node v x Hx). }
      { constructor. }
      exists f. split; auto. split; auto. intros x q. rewrite Sp. cbn [dget].
      destruct (mem_spec x (neighbors g v)) as [Hm|Hm]; cbn [andb].
      - apply neighbors_adj in Hm. destruct (eqb_spec (district A x) (Some p)) as [He|He]; cbn [negb].
        + split; [discriminate|]. intros (_ & _ & H). contradiction.
        + split; [intros [= <-]; auto|]. intros (-> & _). reflexivity.
      - split; [discriminate|]. intros (_ & H & _). apply neighbors_adj in H. contradiction.
    Qed.
    (** C43. A chunk flip picks a boundary node [v] and moves exactly its
        neighbours in other districts, all to the district of [v]; [v] itself
        stays. *)
    Theorem C43_chunk_flip : has_cut g A -> forall r b,
      exists c h' o' v m p, propose_chunk_flip E r b a h = (Ok c, h') /\ session E h' /\
        nth_error h' c = Some o' /\ o_parent o' = Some a /\
        adj g v m /\ district A v = Some p /\ district A m <> Some p /\
        (forall x, adj g v x -> district (o_assign o') x = Some p) /\
        (forall x, ~ adj g v x -> district (o_assign o') x = district A x) /\
        district (o_assign o') v = Some p.
    Proof.
      intros (u & w & Huv) r b. unfold propose_chunk_flip. rewrite (get_bind h a o) by exact Ho.
      destruct (cuts_ok h a o S Ho Hu) as (s & h' & Hc & ND & Sp & S' & K). rewrite (bindM_ok _ _ _ _ _ Hc).
      assert (Hs : s <> []).
      { intros ->. apply cut_edge_iff in Huv. destruct Huv as [Huv|Huv]; apply Sp in Huv; destruct Huv. }
      destruct (choice_ok r s Hs) as (e & He & Hin). rewrite He, lift_bind.
      destruct (orient_cut b e (proj1 (Sp e) Hin)) as [Ad Dn]. destruct (orient b e) as [v m]. simpl in Ad, Dn. cbn [fst snd].
      destruct (adj_node _ _ Ad) as [Nv Nm].
      destruct (part_ok v Nv) as (p & _ & Dv & Lp).
      destruct (chunk_spec v p Nv Dv) as (f & Hf & Df & Fs). rewrite Hf, lift_bind.
      destruct (K a o Ho) as (o1 & H1 & E1 & _).
      destruct (flip_ok h' a o1 f S' H1 Df) as (o' & F1 & F2 & F3 & _ & F4 & F5 & F6).
      { intros x q Hx. apply Fs in Hx. destruct Hx as (-> & Ax & _). rewrite E1. split; auto. apply (adj_node v x Ax). }
      exists (List.length h'), (h' ++ [o']), o', v, m, p. split; auto. split; auto. split; auto. split; auto.
      split; auto. split; auto. split; [congruence|].
      assert (Same : forall x, dget f x = None -> district (o_assign o') x = district A x).
      { intros x Hx. rewrite F4, Hx. now rewrite E1. }
      assert (G : forall x, adj g v x -> district (o_assign o') x = Some p).
      { intros x Ax. destruct (eq_dec_of (district A x) (Some p)) as [He1|He1].
        - destruct (dget f x) as [q|] eqn:Eq; [|rewrite Same; auto].
          apply Fs in Eq. tauto.
        - rewrite F4, (proj2 (Fs x p)); auto. }
      split; auto.
      assert (G2 : forall x, ~ adj g v x -> district (o_assign o') x = district A x).
      { intros x Nx. apply Same. destruct (dget f x) as [q|] eqn:Eq; auto. apply Fs in Eq. tauto. }
      split; auto.
      destruct (dget f v) as [q|] eqn:Eq; [apply Fs in Eq; tauto|]. rewrite Same; auto.
    Qed.
    Theorem C43_chunk_no_cut_edges : ~ has_cut g A -> forall r b,
      fst (propose_chunk_flip E r b a h) = Err IndexError.
    Proof.
      intros NC r b. unfold propose_chunk_flip. rewrite (get_bind h a o) by exact Ho.
      destruct (cuts_ok h a o S Ho Hu) as (s & h' & Hc & ND & Sp & _). rewrite (bindM_ok _ _ _ _ _ Hc).
      destruct s as [|e s]; [now rewrite choice_nil|]. exfalso. apply NC.
      assert (He : cut_edge g A e) by (apply Sp; now left). destruct He as (_ & H1 & H2). exists (fst e), (snd e). auto.
    Qed.

    Lemma every_spec draws : forall sets i f0,
      (forall s e, In s sets -> In e s -> cut_edge g A e) -> is_dict f0 ->
      (forall x q, dget f0 x = Some q -> boundary_move g A x q) ->
      (forall f, every_district_flips A draws i sets f0 = Ok f ->
        is_dict f /\ forall x q, dget f x = Some q -> boundary_move g A x q) /\
      (~ In [] sets -> exists f, every_district_flips A draws i sets f0 = Ok f) /\
      (In [] sets -> every_district_flips A draws i sets f0 = Err IndexError).
    Proof.
      induction sets as [|s sets IH]; intros i f0 Hs D0 B0; cbn [every_district_flips].
      - split; [intros f [= <-]; auto|]. split; [eauto|intros []].
      - destruct s as [|e0 s'].
        + rewrite choice_nil. cbn [bind]. split; [discriminate|]. split; [intro H; elim H; now left|auto].
        + destruct (choice_ok (fst (draws i)) (e0 :: s') ltac:(discriminate)) as (e & He & Hin). rewrite He. cbn [bind].
          destruct (orient_cut (snd (draws i)) e (Hs _ e (or_introl eq_refl) Hin)) as [Ad Dn].
          destruct (orient (snd (draws i)) e) as [n m]. simpl in Ad, Dn. cbn [fst snd].
          destruct (part_ok m (proj2 (adj_node _ _ Ad))) as (p & Pp & Dp & Lp). rewrite Pp. cbn [bind].
          destruct (IH (Datatypes.S i) (dset f0 n p)) as (I1 & I2 & I3).
          { intros s e1 H1 H2. eapply Hs; [right|]; eauto. }
          { now apply NoDup_dset. }
          { intros x q Hx. rewrite dget_dset in Hx. destruct (eqb_spec x n) as [->|]; [|auto].
            injection Hx as <-. exists m. split; auto. split; auto. congruence. }
          split; auto. split.
          * intro H. apply I2. intro X. apply H. now right.
          * intros [H|H]; [discriminate|auto].
    Qed.
    Hypothesis Hbp : dget (e_updaters E) "cut_edges_by_part"%string = Some UCutEdgesByPart.
    (** C43. Every node moved by propose_flip_every_district goes to the
        district (of the plan before) of one of its neighbours; the proposal
        can only fail with IndexError, and only if some district label has no
        cut edge. *)
    Theorem C43_every_district : forall draws,
      let r := propose_flip_every_district E draws a h in
      session E (snd r) /\
      (forall c, fst r = Ok c -> exists o', nth_error (snd r) c = Some o' /\ o_parent o' = Some a /\
         forall x, district (o_assign o') x = district A x \/
                   exists q, district (o_assign o') x = Some q /\ boundary_move g A x q) /\
      (forall e, fst r = Err e -> e = IndexError /\
         exists p, forall x y, adj g x y -> district A x = Some p -> district A y = Some p) /\
      fst r <> NoFuel.
    Proof.
      intros draws r. unfold r, propose_flip_every_district. rewrite (get_bind h a o) by exact Ho.
      destruct (session_answer E h a o _ _ S Ho Hbp) as (_ & H & _).
      assert (Rd : ready E h UCutEdgesByPart) by (simpl; unfold dmem; now rewrite Hu).
      destruct (H Rd) as (v & Hv & Cr). simpl in Cr. destruct Cr as (d & -> & NDd & Sp).
      pose proof (session_read E h a "cut_edges_by_part"%string S) as S'.
      pose proof (read_kept h a "cut_edges_by_part"%string S) as K.
      destruct (read E a "cut_edges_by_part"%string h) as [rr h'] eqn:Er. simpl in Hv, S', K. subst rr.
      rewrite (bindM_ok _ _ _ _ _ Er). cbn [as_edges_by]. rewrite lift_bind.
      assert (Dv : forall s, In s (dvals d) -> exists p, dget d p = Some s).
      { intros s Hs. apply in_map_iff in Hs. destruct Hs as ([p s'] & <- & Hs). exists p. now apply In_dget. }
      destruct (every_spec draws (dvals d) 0 []) as (G1 & G2 & G3).
      { intros s e Hs He. destruct (Dv s Hs) as [p Hp]. destruct (Sp p) as [_ Sp']. unfold dget_or in Sp'.
        rewrite Hp in Sp'. apply Sp' in He. apply He. }
      { constructor. }
      { discriminate. }
      destruct (In_dec (fun x y : list (N * N) => list_eq_dec (@eq_dec_of _ EqB_pair) x y) [] (dvals d)) as [Hnil|Hnil].
      - rewrite (G3 Hnil). cbn [lift bindM fst snd]. split; auto. split; [discriminate|]. split; [|discriminate].
        intros e [= <-]. split; auto. destruct (Dv [] Hnil) as [p Hp]. exists p. intros x y Ad Dx.
        destruct (eq_dec_of (district A y) (Some p)) as [|Dy]; auto. exfalso.
        destruct (Sp p) as [_ Sp']. unfold dget_or in Sp'. rewrite Hp in Sp'.
        assert (Hd : district A x <> district A y) by congruence.
        destruct (proj2 (cut_edge_iff x y) (conj Ad Hd)) as [He|He];
          [exact (proj2 (Sp' (x, y)) (conj He (or_introl Dx)))|exact (proj2 (Sp' (y, x)) (conj He (or_intror Dx)))].
      - destruct (G2 Hnil) as [f Hf]. rewrite Hf, lift_bind. destruct (G1 f Hf) as [Df Bf].
        destruct (K a o Ho) as (o1 & H1 & E1 & _).
        destruct (flip_ok h' a o1 f S' H1 Df) as (o' & F1 & F2 & F3 & _ & F4 & F5 & F6).
        { intros x q Hx. apply Bf in Hx. destruct Hx as (m & Ad & Dm & _). rewrite E1. split; [apply (adj_node _ _ Ad)|].
          eapply district_node; [apply Coh|exact Dm]. }
        rewrite F1. cbn [fst snd]. split; auto. split; [|split; discriminate].
        intros c [= <-]. exists o'. split; auto. split; auto. intro x. rewrite F4.
        destruct (dget f x) as [q|] eqn:Eq; [right; eauto|left; now rewrite E1].
    Qed.

    (** ** C44 *)
    Lemma reversible_spec s : (forall e, In e s <-> cut_edge g A e) ->
      exists mv, reversible_moves A s = Ok mv /\ NoDup mv /\
        forall n q, In (n, q) mv <-> boundary_move g A n q.
    Proof.
      intro Sp. unfold reversible_moves.
      assert (Dx : forall n, In n (g_nodes g) -> exists p, part_of A n = Ok p /\ district A n = Some p).
      { intros n Hn. destruct (part_ok n Hn) as (p & H1 & H2 & _). eauto. }
      set (pt := fun n => match dget (a_map A) n with Some p => Some p | None => None end).
      assert (G : forall (f1 f2 : N * N -> N) l,
        (forall e, In e l -> In (f2 e) (g_nodes g)) ->
        exists ys, mapM (fun e => p <- part_of A (f2 e) ;; Ok (f1 e, p)) l = Ok ys /\
          forall n q, In (n, q) ys <-> exists e, In e l /\ f1 e = n /\ district A (f2 e) = Some q).
      { intros f1 f2 l Hl. induction l as [|e l IH].
        - exists []. split; auto. intros n q. split; [intros []|intros (e & [] & _)].
        - destruct IH as (ys & Hys & Iy); [intros x Hx; apply Hl; now right|].
          destruct (Dx (f2 e) (Hl e (or_introl eq_refl))) as (p & Pp & Dp). cbn [mapM]. rewrite Pp. cbn [bind].
          rewrite Hys. cbn [bind]. exists ((f1 e, p) :: ys). split; auto. intros n q. simpl. rewrite Iy. split.
          + intros [[= <- <-]|(e1 & H1 & H2)]; [exists e; auto|exists e1; tauto].
          + intros (e1 & [<-|H1] & H2 & H3); [left; congruence|right; eauto]. }
      assert (Ends : forall e, In e s -> In (fst e) (g_nodes g) /\ In (snd e) (g_nodes g)).
      { intros e He. apply Sp in He. destruct He as (_ & Ad & _). now apply adj_node. }
      destruct (G fst snd s) as (l1 & H1 & I1); [intros e He; now apply Ends|].
      destruct (G snd fst s) as (l2 & H2 & I2); [intros e He; now apply Ends|].
      rewrite H1. cbn [bind]. rewrite H2. cbn [bind]. eexists. split; [reflexivity|].
      split; [apply NoDup_sunion, NoDup_set_of|].
      intros n q. rewrite In_sunion, !In_set_of, I1, I2. split.
      - intros [([u v] & He & <- & Dq)|([u v] & He & <- & Dq)]; apply Sp in He; destruct He as (_ & Ad & Dn); simpl in *.
        + exists v. split; auto. split; auto. congruence.
        + exists u. split; [now apply adj_sym|]. split; auto. congruence.
      - intros (m & Ad & Dm & Dn). assert (Hd : district A n <> district A m) by congruence.
        destruct (proj2 (cut_edge_iff n m) (conj Ad Hd)) as [He|He]; [left|right]; [exists (n, m)|exists (m, n)];
          (split; [now apply Sp|auto]).
    Qed.
    (** C44. The proposal draws from a list of all single moves across the
        boundary in which each move occurs once. *)
    Theorem C44_moves : exists mv, NoDup mv /\ (forall n q, In (n, q) mv <-> boundary_move g A n q) /\
      forall r,
        match choice r mv with
        | Ok (n, q) => exists c h' o', slow_reversible_propose E r a h = (Ok c, h') /\ session E h' /\
            nth_error h' c = Some o' /\ o_parent o' = Some a /\ moved A n q (o_assign o')
        | Err e => fst (slow_reversible_propose E r a h) = Err IndexError /\ mv = []
        | NoFuel => False
        end.
    Proof.
      destruct (cuts_ok h a o S Ho Hu) as (s & h' & Hc & ND & Sp & S' & K).
      destruct (reversible_spec s Sp) as (mv & Hm & NDm & Im). exists mv. split; auto. split; auto. intro r.
      unfold slow_reversible_propose.
      destruct mv as [|m0 mv'] eqn:Em.
      - rewrite choice_nil. split; auto. rewrite (get_bind h a o) by exact Ho. rewrite (bindM_ok _ _ _ _ _ Hc), Hm, lift_bind.
        now rewrite choice_nil.
      - destruct (choice_ok r (m0 :: mv') ltac:(discriminate)) as ((n & q) & Hr & Hin). rewrite Hr.
        rewrite (get_bind h a o) by exact Ho. rewrite (bindM_ok _ _ _ _ _ Hc), Hm, lift_bind, Hr, lift_bind.
        apply Im in Hin. destruct Hin as (m & Ad & Dm & Dn).
        destruct (single_flip h' n q S' K (proj1 (adj_node _ _ Ad)) ltac:(eapply district_node; [apply Coh|exact Dm]))
          as (c & h'' & o' & F1 & F2 & F3 & F4 & F5 & F6 & _). exists c, h'', o'. auto 8.
    Qed.
  End Plan.

  (** C44. If a node moves from [p] to [q] and keeps a neighbour in [p], then the
      reverse move is among the moves of the new plan, and leads back. *)
  Theorem C44_reversible : forall A n p q A', district A n = Some p -> boundary_move g A n q ->
    moved A n q A' -> (exists m, m <> n /\ adj g n m /\ district A m = Some p) ->
    boundary_move g A' n p /\ forall A'', moved A' n p A'' -> same_plan A A''.
  Proof.
    intros A n p q A' Dn B (M1 & M2) (m & Hm & Ad & Dm). split.
    - exists m. split; auto. split; [rewrite M2; auto|]. rewrite M1. destruct B as (m' & _ & _ & H). congruence.
    - intros A'' (R1 & R2) x. destruct (eq_dec_of x n) as [->|Hx]; [congruence|]. rewrite R2, M2; auto.
  Qed.

  Section PlanBi.
    Variables (h : heap N P V L) (a : nat) (o : pobj N P V L).
    Hypothesis S : session E h.
    Hypothesis Ho : nth_error h a = Some o.
    Hypothesis Hu : dget (e_updaters E) "cut_edges"%string = Some UCutEdges.
    Notation A := (o_assign o).
    (** C44. slow_reversible_propose_bi draws a boundary node (each once); it
        moves it to a neighbouring district if the node has a neighbour in its
        own district, and raises ValueError otherwise. *)
    Theorem C44_bi : exists bs, NoDup bs /\ (forall n, In n bs <-> exists q, boundary_move g A n q) /\
      forall r1 r2,
        match choice r1 bs with
        | Ok n =>
          ((exists m, adj g n m /\ district A m = district A n) ->
             exists c h' o' q, propose_bi E r1 r2 a h = (Ok c, h') /\ session E h' /\
               nth_error h' c = Some o' /\ o_parent o' = Some a /\
               boundary_move g A n q /\ moved A n q (o_assign o')) /\
          ((forall m, adj g n m -> district A m <> district A n) ->
             fst (propose_bi E r1 r2 a h) = Err ValueError)
        | _ => fst (propose_bi E r1 r2 a h) = Err IndexError /\ bs = []
        end.
    Proof.
      destruct (cuts_ok h a o S Ho Hu) as (s & h' & Hc & ND & Sp & S' & K).
      set (bs := sunion (set_of (map fst s)) (set_of (map snd s))). exists bs.
      assert (Ib : forall n, In n bs <-> exists q, boundary_move g A n q).
      { intro n. unfold bs. rewrite In_sunion, !In_set_of, !in_map_iff. split.
        - intros [([u v] & <- & He)|([u v] & <- & He)]; apply Sp in He; destruct He as (_ & Ad & Dn); simpl in *;
            destruct (adj_node h S _ _ Ad) as [Nu Nv].
          + destruct (part_ok h a o S Ho v Nv) as (q & _ & Dv & _). exists q, v. split; auto. split; auto. congruence.
          + destruct (part_ok h a o S Ho u Nu) as (q & _ & Du & _). exists q, u. split; [now apply adj_sym|]. split; auto. congruence.
        - intros (q & m & Ad & Dm & Dn). assert (Hd : district A n <> district A m) by congruence.
          destruct (proj2 (cut_edge_iff o n m) (conj Ad Hd)) as [He|He]; apply Sp in He; [left|right]; eexists; (split; [|exact He]); auto. }
      split; [apply NoDup_sunion, NoDup_set_of|]. split; auto. intros r1 r2.
      assert (Pre : forall Y (f : list (N * N) -> @M N P V L Y), bindM (cut_edges_of E a) f h = f s h')
        by (intros; now apply bindM_ok).
      unfold propose_bi. rewrite (get_bind h a o) by exact Ho. rewrite Pre. fold bs.
      destruct bs as [|b0 bs'] eqn:Eb.
      - rewrite choice_nil. auto.
      - destruct (choice_ok r1 (b0 :: bs') ltac:(discriminate)) as (n & Hr & Hin). rewrite Hr.
        rewrite lift_bind. apply Ib in Hin. destruct Hin as (q0 & m0 & Ad0 & Dm0 & Dn0).
        assert (Nn : In n (g_nodes g)) by (apply (adj_node h S _ _ Ad0)).
        destruct (part_ok h a o S Ho n Nn) as (p & Pp & Dp & Lp).
        assert (Gp : exists ps, mapM (part_of A) (neighbors g n) = Ok ps /\
                  forall q, In q ps <-> exists m, adj g n m /\ district A m = Some q).
        { assert (Gl : forall l, (forall x, In x l -> In x (g_nodes g)) ->
            exists ps, mapM (part_of A) l = Ok ps /\ forall q, In q ps <-> exists m, In m l /\ district A m = Some q).
          { induction l as [|x l IH]; intro Hl; [exists []; split; auto; intro q; split; [intros []|intros (m & [] & _)]|].
            destruct IH as (ps & Hps & Ip); [intros y Hy; apply Hl; now right|].
            destruct (part_ok h a o S Ho x (Hl x (or_introl eq_refl))) as (px & P1 & P2 & _).
            cbn [mapM]. rewrite P1. cbn [bind]. rewrite Hps. cbn [bind]. exists (px :: ps). split; auto.
            intro q. simpl. rewrite Ip. split.
            - intros [<-|(m & H1 & H2)]; [exists x; auto|exists m; auto].
            - intros (m & [<-|H1] & H2); [left; congruence|right; eauto]. }
          destruct (Gl (neighbors g n)) as (ps & Hps & Ip).
          { intros x Hx. apply neighbors_adj in Hx. apply (adj_node h S _ _ Hx). }
          exists ps. split; auto. intro q. rewrite Ip. split; intros (m & H1 & H2); exists m; split; auto; now apply neighbors_adj. }
        destruct Gp as (ps & Hps & Ip). rewrite Hps, lift_bind, Pp, lift_bind. split.
        + intros (m & Ad & Dm).
          assert (Hown : mem p (set_of ps) = true).
          { apply mem_In, In_set_of, Ip. exists m. split; auto. congruence. }
          rewrite Hown, lift_bind.
          assert (Hne : sdiff (set_of ps) [p] <> []).
          { assert (Hin : In q0 (sdiff (set_of ps) [p])).
            { apply In_sdiff. split; [apply In_set_of, Ip; eauto|]. intros [<-|[]]. congruence. }
            intro X. rewrite X in Hin. destruct Hin. }
          destruct (choice_ok r2 _ Hne) as (q & Hq & Hin). rewrite Hq, lift_bind.
          apply In_sdiff in Hin. destruct Hin as [H1 H2]. apply In_set_of, Ip in H1. destruct H1 as (m1 & Ad1 & Dm1).
          destruct (single_flip h a o Ho h' n q S' K Nn (proj2 (district_node g A m1 q (Coh h a o S Ho) Dm1)))
            as (c & h'' & o' & F1 & F2 & F3 & F4 & F5 & F6 & _).
          exists c, h'', o', q. split; auto. split; auto. split; auto. split; auto. split; auto.
          exists m1. split; auto. split; auto. intro X. apply H2. left. congruence.
        + intro Hno.
          assert (Hown : mem p (set_of ps) = false).
          { apply mem_notIn. intro X. apply In_set_of, Ip in X. destruct X as (m & Ad & Dm).
            apply (Hno m Ad). congruence. }
          rewrite Hown. reflexivity.
    Qed.

    (** ** C45 *)
    Definition is_cut_pair A (d : N * N) : Prop := adj g (fst d) (snd d) /\ district A (fst d) <> district A (snd d).
    (** The flip belonging to an ordered pair of nodes: the first moves to the
        district of the second. *)
    Definition pair_flip A (d : N * N) : option (dict N P) :=
      option_map (fun q => [(fst d, q)]) (district A (snd d)).

    Lemma mapM_pairs D : (forall d, In d D -> is_cut_pair A d) ->
      exists fs, mapM (fun d => p <- part_of A (snd d) ;; Ok [(fst d, p)]) D = Ok fs /\
        map Some fs = map (pair_flip A) D /\
        Forall2 (fun d f => exists q, f = [(fst d, q)] /\ district A (snd d) = Some q /\ In q (labels A)) D fs.
    Proof.
      induction D as [|d D IH]; intro HD; [exists []; auto|].
      destruct IH as (fs & H1 & H2 & H3); [intros x Hx; apply HD; now right|].
      destruct (HD d (or_introl eq_refl)) as [Ad _].
      destruct (part_ok h a o S Ho (snd d) (proj2 (adj_node h S _ _ Ad))) as (q & P1 & P2 & P3).
      cbn [mapM]. rewrite P1. cbn [bind]. rewrite H1. cbn [bind]. exists ([(fst d, q)] :: fs). split; auto. split.
      - cbn [map]. rewrite H2. f_equal. unfold pair_flip. now rewrite P2.
      - constructor; auto. exists q. auto.
    Qed.

    (** One flip for every ordered pair of adjacent nodes in different
        districts. *)
    Theorem C45_all_cut_edge_flips :
      exists D fs h', NoDup D /\ (forall d, In d D <-> is_cut_pair A d) /\
        all_cut_edge_flips E a h = (Ok fs, h') /\ map Some fs = map (pair_flip A) D /\
        session E h' /\ kept h h' /\
        Forall2 (fun d f => exists q, f = [(fst d, q)] /\ district A (snd d) = Some q /\ In q (labels A)) D fs.
    Proof.
      destruct (cuts_ok h a o S Ho Hu) as (s & h' & Hc & ND & Sp & S' & K).
      set (D := flat_map (fun e => [orient true e; orient false e]) s). exists D.
      assert (ID : forall d, In d D <-> is_cut_pair A d).
      { intros [u v]. unfold D. rewrite in_flat_map. unfold is_cut_pair. cbn [fst snd]. rewrite <- cut_edge_iff. split.
        - intros ([x y] & He & [Hd|[Hd|[]]]); injection Hd as <- <-; apply Sp in He; auto.
        - intros [He|He]; apply Sp in He; eexists; (split; [exact He|]); simpl; auto. }
      assert (NDD : NoDup D).
      { unfold D. assert (Cs : forall e, In e s -> cut_edge g A e) by (intros; now apply Sp). clear - ND Cs EN EP ON.
        induction s as [|e s IH]; [constructor|]. inversion ND as [|? ? Hn ND']; subst.
        assert (Ce : cut_edge g A e) by (apply Cs; now left).
        specialize (IH ND' (fun x Hx => Cs x (or_intror Hx))).
        assert (Gx : forall b d, In d (flat_map (fun e => [orient true e; orient false e]) s) -> d = orient b e -> False).
        { intros b d Hd ->. apply in_flat_map in Hd. destruct Hd as (e1 & He1 & Hd).
          assert (Ce1 : cut_edge g A e1) by (apply Cs; now right).
          destruct e as [u v], e1 as [u1 v1]. destruct Ce as (L1 & _ & D1), Ce1 as (L2 & _ & D2). simpl in *.
          assert (Heq : (u = u1 /\ v = v1) \/ (u = v1 /\ v = u1)).
          { destruct b; simpl in Hd; destruct Hd as [Hd|[Hd|[]]]; injection Hd as -> ->; auto. }
          destruct Heq as [[-> ->]|[-> ->]]; [contradiction|]. apply D2. now rewrite (leb_antisym _ _ L1 L2). }
        simpl. constructor; [|constructor; [intro Hd; exact (Gx false _ Hd eq_refl)|exact IH]].
        intros [Hd|Hd]; [|exact (Gx true _ Hd eq_refl)].
        destruct e as [u v]. simpl in Hd. injection Hd as H1 H2. destruct Ce as (_ & _ & D1). simpl in D1. congruence. }
      destruct (mapM_pairs D) as (fs & H1 & H2 & H3); [intros d Hd; now apply ID|].
      exists fs, h'. split; auto. split; auto. split; [|auto].
      unfold all_cut_edge_flips. rewrite (get_bind h a o) by exact Ho. rewrite (bindM_ok _ _ _ _ _ Hc).
      match goal with |- lift ?x _ = _ => assert (Hx : x = Ok fs); [|now rewrite Hx] end.
      rewrite <- H1. unfold D. clear. induction s as [|e s IH]; auto.
      cbn [flat_map app mapM fst snd]. now rewrite IH.
    Qed.
    (** Sound and complete: a flip is listed iff it is a boundary move. *)
    Theorem C45_flips_are_boundary_moves :
      exists fs h', all_cut_edge_flips E a h = (Ok fs, h') /\
        forall f, In f fs <-> exists n q, f = [(n, q)] /\ boundary_move g A n q.
    Proof.
      destruct C45_all_cut_edge_flips as (D & fs & h' & ND & ID & H1 & H2 & _ & _ & F2).
      exists fs, h'. split; auto. intro f. split.
      - intro Hf. assert (X : exists d, In d D /\ exists q, f = [(fst d, q)] /\ district A (snd d) = Some q).
        { clear - F2 Hf. induction F2 as [|d f' D fs (q & H1 & H2 & _) _ IH]; [destruct Hf|].
          destruct Hf as [<-|Hf]; [exists d; split; [now left|eauto]|].
          destruct (IH Hf) as (d' & Hd & Hq). exists d'. split; [now right|auto]. }
        destruct X as (d & Hd & q & -> & Dq). apply ID in Hd. destruct Hd as [Ad Dn].
        exists (fst d), q. split; auto. exists (snd d). split; auto. split; auto. congruence.
      - intros (n & q & -> & m & Ad & Dm & Dn).
        assert (Hd : In (n, m) D) by (apply ID; split; [exact Ad|simpl; congruence]).
        apply (in_map (pair_flip A)) in Hd. rewrite <- H2 in Hd. unfold pair_flip in Hd. cbn [fst snd] in Hd.
        rewrite Dm in Hd. simpl in Hd. apply in_map_iff in Hd. destruct Hd as (f & Hf & Hin). congruence.
    Qed.

    (** Constraints that depend on the plan only and leave the plans alone. *)
    Section Constraint.
      Variable is_valid : nat -> @M N P V L bool.
      Variable ok : assignment N P -> bool.
      Hypothesis decides : forall h1 b ob, session E h1 -> nth_error h1 b = Some ob ->
        exists h2, is_valid b h1 = (Ok (ok (o_assign ob)), h2) /\ session E h2 /\ kept h1 h2.
      (** The plan after the flip of a pair satisfies the constraints. *)
      Definition good_pair A (d : N * N) : bool :=
        match pair_flip A d with
        | Some f => match flip_assignment A f with Ok A' => ok A' | _ => false end
        | None => false
        end.

      Lemma states_ok D fs : (forall d, In d D -> is_cut_pair A d) ->
        Forall2 (fun d f => exists q, f = [(fst d, q)] /\ district A (snd d) = Some q /\ In q (labels A)) D fs ->
        forall h1, session E h1 -> kept h h1 ->
        exists bs h2, valid_states E is_valid a fs h1 = (Ok bs, h2) /\ session E h2 /\ kept h1 h2 /\
          Forall2 (fun d b => exists ob f, pair_flip A d = Some f /\ nth_error h2 b = Some ob /\
             o_parent ob = Some a /\ o_flips ob = Some f /\
             flip_assignment A f = Ok (o_assign ob)) (filter (good_pair A) D) bs.
      Proof.
        intros HD F. revert HD. induction F as [|d f D fs (q & -> & Dq & Lq) _ IH]; intros HD h1 S1 K1.
        - exists [], h1. split; [reflexivity|]. split; auto. split; [apply kept_refl|]. constructor.
        - destruct (HD d (or_introl eq_refl)) as [Ad Dn]. destruct (K1 a o Ho) as (o1 & Ho1 & E1 & _).
          destruct (flip_ok h1 a o1 [(fst d, q)] S1 Ho1) as (o' & F1 & F2 & F3 & F4 & _ & F5 & F6).
          { repeat constructor. intros []. }
          { intros m p Hm. simpl in Hm. destruct (eqb_spec m (fst d)) as [->|]; [|discriminate].
            injection Hm as <-. rewrite E1. split; auto. apply (adj_node h S _ _ Ad). }
          rewrite E1 in F4.
          cbn [valid_states]. rewrite (bindM_ok _ _ _ _ _ F1).
          destruct (decides _ _ _ F5 F6) as (h2 & V1 & S2 & K2). rewrite (bindM_ok _ _ _ _ _ V1).
          assert (K3 : kept h h2).
          { eapply kept_trans; [exact K1|]. eapply kept_trans; [apply kept_app|exact K2]. }
          destruct (IH (fun x Hx => HD x (or_intror Hx)) h2 S2 K3) as (bs & h3 & V2 & S3 & K4 & F').
          rewrite (bindM_ok _ _ _ _ _ V2). eexists _, h3. split; [reflexivity|]. split; auto. split.
          { eapply kept_trans; [apply kept_app|]. eapply kept_trans; [exact K2|exact K4]. }
          assert (Pf : pair_flip A d = Some [(fst d, q)]) by (unfold pair_flip; now rewrite Dq).
          cbn [filter]. assert (Gp : good_pair A d = ok (o_assign o')) by (unfold good_pair; now rewrite Pf, F4).
          rewrite Gp. destruct (ok (o_assign o')); auto. constructor; auto.
          destruct (K2 _ _ F6) as (o2 & Q1 & Q2 & Q3 & Q4). destruct (K4 _ _ Q1) as (o3 & R1 & R2 & R3 & R4).
          exists o3, [(fst d, q)]. split; auto. split; auto. split; [congruence|]. split; congruence.
      Qed.
      (** C45. The valid neighbours are, one for every ordered pair of adjacent
          nodes in different districts whose flip satisfies the constraints,
          the plans after these flips; the degree is the number of such pairs. *)
      Theorem C45_metagraph : exists D, NoDup D /\
        (forall d, In d D <-> is_cut_pair A d /\ good_pair A d = true) /\
        (exists bs h', all_valid_states_one_flip_away E is_valid a h = (Ok bs, h') /\
           Forall2 (fun d b => exists ob f, pair_flip A d = Some f /\ nth_error h' b = Some ob /\
             o_parent ob = Some a /\ o_flips ob = Some f /\
             flip_assignment A f = Ok (o_assign ob)) D bs) /\
        fst (all_valid_flips E is_valid a h) = Ok (map (pair_flip A) D) /\
        fst (metagraph_degree E is_valid a h) = Ok (List.length D).
      Proof.
        destruct C45_all_cut_edge_flips as (D & fs & h1 & ND & ID & H1 & H2 & S1 & K1 & F2).
        destruct (states_ok D fs (fun d Hd => proj1 (ID d) Hd) F2 h1 S1 K1) as (bs & h2 & HV & S2 & K2 & F).
        exists (filter (good_pair A) D). split; [now apply NoDup_filter|].
        split; [intro d; rewrite filter_In, ID; reflexivity|].
        assert (Hall : all_valid_states_one_flip_away E is_valid a h = (Ok bs, h2)).
        { unfold all_valid_states_one_flip_away. rewrite (bindM_ok _ _ _ _ _ H1). exact HV. }
        split; [eauto|]. split.
        - unfold all_valid_flips. rewrite (bindM_ok _ _ _ _ _ Hall).
          assert (Gf : flips_of bs h2 = (Ok (map (pair_flip A) (filter (good_pair A) D)), h2)).
          { clear - F. induction F as [|d b D' bs' (ob & f & G1 & G2 & G3 & G4 & G5) _ IH]; [reflexivity|].
            cbn [flips_of]. rewrite (get_bind h2 b ob) by exact G2. rewrite (bindM_ok _ _ _ _ _ IH).
            unfold ret. cbn [map]. now rewrite G1, G4. }
          now rewrite Gf.
        - unfold metagraph_degree. rewrite (bindM_ok _ _ _ _ _ Hall). unfold ret. simpl. f_equal.
          apply Forall2_len in F. auto.
      Qed.
    End Constraint.

    (** ** C49 *)
    Theorem C49_root : o_parent o = None -> forall u, (u < 1)%Q -> fst (cut_edge_accept E u a h) = Ok true.
    Proof.
      intros Hp u Hlt. unfold cut_edge_accept. rewrite (get_bind h a o) by exact Ho. rewrite Hp. simpl. f_equal. now apply qlt_spec.
    Qed.
    Theorem C49_cut_edge_accept : forall q po before now u,
      o_parent o = Some q -> nth_error h q = Some po -> (0 <= u < 1)%Q ->
      NoDup before -> (forall e, In e before <-> cut_edge g (o_assign po) e) ->
      NoDup now -> (forall e, In e now <-> cut_edge g A e) ->
      let m := List.length before in
      let n := List.length now in
      (n = 0 -> fst (cut_edge_accept E u a h) = Err ZeroDivisionError) /\
      (n <> 0 -> exists b, fst (cut_edge_accept E u a h) = Ok b /\
         (b = true <-> n <= m \/ (u < inject_Z (Z.of_nat m) / inject_Z (Z.of_nat n))%Q)).
    Proof.
      intros q po before now u Hp Hq Hb N1 I1 N2 I2 m n. unfold cut_edge_accept. rewrite (get_bind h a o) by exact Ho. rewrite Hp.
      destruct (cuts_ok h q po S Hq Hu) as (s & h1 & Hc & ND & Sp & S1 & K1). rewrite (bindM_ok _ _ _ _ _ Hc).
      destruct (K1 a o Ho) as (o1 & Ho1 & E1 & _).
      destruct (cuts_ok h1 a o1 S1 Ho1 Hu) as (s2 & h2 & Hc2 & ND2 & Sp2 & S2 & K2). rewrite (bindM_ok _ _ _ _ _ Hc2).
      rewrite E1 in Sp2.
      assert (Lm : List.length s = m).
      { apply Nat.le_antisymm; apply NoDup_incl_length; auto; intros x Hx; [apply I1, Sp|apply Sp, I1]; auto. }
      assert (Ln : List.length s2 = n).
      { apply Nat.le_antisymm; apply NoDup_incl_length; auto; intros x Hx; [apply I2, Sp2|apply Sp2, I2]; auto. }
      rewrite Lm, Ln. split; intro Hn.
      - rewrite Hn. rewrite qdiv_zero by reflexivity. reflexivity.
      - assert (Pn : (0 < inject_Z (Z.of_nat n))%Q) by (change 0%Q with (inject_Z 0); rewrite <- Zlt_Qlt; lia).
        rewrite qdiv_ok by lra. rewrite lift_bind. eexists. split; [reflexivity|].
        set (x := (inject_Z (Z.of_nat m) / inject_Z (Z.of_nat n))%Q).
        assert (Hx : (x <= 1)%Q <-> m <= n).
        { unfold x. split; intro H.
          - assert (inject_Z (Z.of_nat m) <= inject_Z (Z.of_nat n))%Q; [|rewrite <- Zle_Qle in *; lia].
            assert (Ex : (inject_Z (Z.of_nat m) == inject_Z (Z.of_nat m) / inject_Z (Z.of_nat n) * inject_Z (Z.of_nat n))%Q) by (field; lra).
            rewrite Ex. nra.
          - apply div_le; auto. assert (inject_Z (Z.of_nat m) <= inject_Z (Z.of_nat n))%Q by (rewrite <- Zle_Qle; lia). lra. }
        assert (Hx1 : n <= m -> (1 <= x)%Q).
        { intro H. unfold x. apply le_div; auto.
          assert (inject_Z (Z.of_nat n) <= inject_Z (Z.of_nat m))%Q by (rewrite <- Zle_Qle; lia). lra. }
        rewrite qlt_spec. destruct (Qle_bool x 1) eqn:Ex.
        + apply Qle_bool_iff in Ex. split; [auto|]. intros [H|H]; auto. specialize (Hx1 H). lra.
        + assert (Hm : ~ m <= n) by (intro H; apply Hx in H; apply Qle_bool_iff in H; congruence).
          split; [left; lia|]. intros _. lra.
    Qed.
  End PlanBi.
End Proposals.

(** ** Concrete cases *)
Definition ex_alt : dict nat nat := [(0, 2); (1, 1); (2, 2); (3, 1)].
Definition one_flip (n q : nat) : list (op nat nat) := [OFlip 0 [(n, q)]].

(** The hypotheses of the theorems about a plan hold of plan 1 of a session
    with one flip, and draws select different moves. *)
Example C42_nonvacuous :
  let h := ex_run ex_plan (one_flip 1 2) in
  session ex_E h /\ dget (e_updaters ex_E) "cut_edges"%string = Some UCutEdges /\
  exists o, nth_error h 1 = Some o /\ has_cut ex_g (o_assign o) /\
    boundary_move ex_g (o_assign o) 0 2 /\ boundary_move ex_g (o_assign o) 1 1 /\
    (exists o1, nth_error (snd (propose_random_flip ex_E 0 true 1 h)) 2 = Some o1 /\
       a_map (o_assign o1) = [(0, 2); (1, 2); (2, 2); (3, 2)]) /\
    (exists o1, nth_error (snd (propose_random_flip ex_E 0 false 1 h)) 2 = Some o1 /\
       a_map (o_assign o1) = [(0, 1); (1, 1); (2, 2); (3, 2)]).
Proof.
  split; [ex_session|]. split; [reflexivity|]. eexists. split; [vm_compute; reflexivity|].
  split; [exists 0, 1; split; [left; simpl; auto|vm_compute; discriminate]|].
  split; [exists 1; repeat split; [left; simpl; auto|vm_compute; discriminate]|].
  split; [exists 0; repeat split; [right; simpl; auto|vm_compute; discriminate]|].
  split; eexists; (split; [vm_compute; reflexivity|vm_compute; reflexivity]).
Qed.

(** The documentation of propose_chunk_flip says that the drawn node changes
    its district; it keeps it, and its neighbours move. *)
Theorem C43_chosen_node_moves_refuted :
  exists h o o', session ex_E h /\ nth_error h 0 = Some o /\
    nth_error (snd (propose_chunk_flip ex_E 0 true 0 h)) 1 = Some o' /\
    fst (propose_chunk_flip ex_E 0 true 0 h) = Ok 1 /\
    fst (cut_edges_of ex_E 0 h) = Ok [(1, 2)] /\
    district (o_assign o') 1 = district (o_assign o) 1 /\
    district (o_assign o) 2 = Some 2 /\ district (o_assign o') 2 = Some 1.
Proof.
  exists (ex_run ex_plan []). do 2 eexists. split; [ex_session|]. do 6 (split; [vm_compute; reflexivity|]).
  vm_compute. reflexivity.
Qed.

(** propose_flip_every_district depends on the history of the plan: once the
    flips have merged everything into district 2, the same districts raise
    IndexError when the parent had cut edges and give a plan when the link to
    the parent was erased before the first read. *)
Theorem C43_every_district_history_refuted :
  exists h1 h2 o1 o2 draws, session ex_E h1 /\ session ex_E h2 /\
    nth_error h1 1 = Some o1 /\ nth_error h2 1 = Some o2 /\ o_assign o1 = o_assign o2 /\
    fst (propose_flip_every_district ex_E draws 1 h1) = Err IndexError /\
    fst (propose_flip_every_district ex_E draws 1 h2) = Ok 2.
Proof.
  exists (ex_run [(0, 1); (1, 2); (2, 3); (3, 3)] [OGet 0 "cut_edges_by_part"; OFlip 0 [(0, 2)]]).
  exists (ex_run [(0, 1); (1, 2); (2, 3); (3, 3)] [OFlip 0 [(0, 2)]; OErase 1]).
  do 2 eexists. exists (fun _ => (0, true)). split; [ex_session|]. split; [ex_session|].
  do 4 (split; [vm_compute; reflexivity|]). vm_compute. reflexivity.
Qed.

(** slow_reversible_propose_bi fails on a node without neighbours in its own
    district, and succeeds on another draw. *)
Theorem C44_bi_fails_refuted :
  exists h o, session ex_E h /\ nth_error h 0 = Some o /\ has_cut ex_g (o_assign o) /\
    fst (propose_bi ex_E 0 0 0 h) = Err ValueError /\ fst (propose_bi ex_E 1 0 0 h) = Ok 1.
Proof.
  exists (ex_run [(0, 1); (1, 2); (2, 2); (3, 2)] []). eexists. split; [ex_session|].
  split; [vm_compute; reflexivity|].
  split; [exists 0, 1; split; [left; simpl; auto|vm_compute; discriminate]|].
  split; vm_compute; reflexivity.
Qed.
Example C44_nonvacuous :
  let h := ex_run ex_plan [] in
  fst (bindM (get_obj 0) (fun o => bindM (cut_edges_of ex_E 0) (fun c => lift (reversible_moves (o_assign o) c))) h)
    = Ok [(1, 2); (2, 1)].
Proof. vm_compute. reflexivity. Qed.

(** The degree counts a move once for every neighbour in the target district. *)
Theorem C45_degree_counts_distinct_plans_refuted :
  exists h fs, session ex_E h /\
    fst (all_valid_flips ex_E (fun _ => ret true) 0 h) = Ok fs /\
    fst (metagraph_degree ex_E (fun _ => ret true) 0 h) = Ok (List.length fs) /\
    ~ NoDup fs.
Proof.
  exists (ex_run ex_alt []). eexists. split; [ex_session|]. split; [vm_compute; reflexivity|].
  split; [vm_compute; reflexivity|].
  intro H. inversion H as [|? ? H1 H2]; subst. inversion H2 as [|? ? H3 H4]; subst. apply H3. simpl. auto.
Qed.
(** A constraint as required by [C45_metagraph]: no district may vanish. *)
Example C45_nonvacuous :
  forall h1 b ob, session ex_E h1 -> nth_error h1 b = Some ob ->
    exists h2, bindM (get_obj b) (fun o => ret (mem 1 (labels (o_assign o)))) h1
        = (Ok (mem 1 (labels (o_assign ob))), h2) /\ session ex_E h2 /\ kept h1 h2.
Proof.
  intros h1 b ob S Hb. exists h1. rewrite (get_bind h1 b ob) by exact Hb. split; [reflexivity|].
  split; auto. apply kept_refl.
Qed.

(** The documented acceptance rule (always accept when the number of cut edges
    grows) is refuted: from 1 to 3 cut edges, rejected when the draw is 1/2. *)
Theorem C49_growth_always_accepted_refuted :
  exists h, session ex_E h /\
    fst (cut_edges_of ex_E 0 h) = Ok [(1, 2)] /\
    (exists s, fst (cut_edges_of ex_E 1 h) = Ok s /\ List.length s = 3) /\
    fst (cut_edge_accept ex_E (1 # 2) 1 h) = Ok false /\
    fst (cut_edge_accept ex_E (1 # 4) 1 h) = Ok true.
Proof.
  exists (ex_run ex_plan [OFlip 0 [(1, 2); (2, 1)]]). split; [ex_session|]. split; [vm_compute; reflexivity|].
  split; [eexists; split; vm_compute; reflexivity|]. split; vm_compute; reflexivity.
Qed.
(** And a step to a plan with no cut edges raises ZeroDivisionError. *)
Theorem C49_zero_cut_edges_refuted :
  exists h, session ex_E h /\ fst (cut_edge_accept ex_E (1 # 2) 1 h) = Err ZeroDivisionError.
Proof.
  exists (ex_run [(0, 1); (1, 2); (2, 2); (3, 2)] (one_flip 0 2)). split; [ex_session|]. vm_compute. reflexivity.
Qed.

Print Assumptions C42_no_cut_edges.
Print Assumptions C42_random_flip.
Print Assumptions C42_every_move_possible.
Print Assumptions C92_any_node_flip.
Print Assumptions C43_chunk_flip.
Print Assumptions C43_chunk_no_cut_edges.
Print Assumptions C43_every_district.
Print Assumptions C43_chosen_node_moves_refuted.
Print Assumptions C43_every_district_history_refuted.
Print Assumptions C44_moves.
Print Assumptions C44_reversible.
Print Assumptions C44_bi.
Print Assumptions C44_bi_fails_refuted.
Print Assumptions C45_all_cut_edge_flips.
Print Assumptions C45_flips_are_boundary_moves.
Print Assumptions C45_metagraph.
Print Assumptions C45_degree_counts_distinct_plans_refuted.
Print Assumptions C49_root.
Print Assumptions C49_cut_edge_accept.
Print Assumptions C49_growth_always_accepted_refuted.
Print Assumptions C49_zero_cut_edges_refuted.
