(** C102: how likely the flip proposals are to propose a given plan. *)
From Coq Require Import String List Bool Arith ZArith QArith Lqa Lia ZifyBool ZifyNat.
From Verif Require Import Base M_Graph M_Partition S_Partition L_Partition M_Machine S_Machine
  L_Cuts L_Machine L_Answers P_Partition P_Machine M_Election L_Order M_Proposals S_Proposals P_Proposals
  L_Locality M_Recursive P_Uniform.
Import ListNotations.
Local Open Scope nat_scope.
Local Open Scope list_scope.

Lemma numbers_same {X Y} (A : X -> Prop) (B : Y -> Prop) (R : X -> Y -> Prop) j k :
  (forall x, A x -> exists y, B y /\ R x y) -> (forall y, B y -> exists x, A x /\ R x y) ->
  (forall x x' y, R x y -> R x' y -> x = x') -> (forall x y y', R x y -> R x y' -> y = y') ->
  numbers A j -> numbers B k -> j = k.
Proof.
  intros H1 H2 U1 U2 HA HB. apply Nat.le_antisymm.
  - exact (numbers_rel A B R j k H1 U1 HA HB).
  - exact (numbers_rel B A (fun y x => R x y) k j H2 (fun x x' y => U2 y x x') HB HA).
Qed.
(** The positions of a duplicate-free list. *)
Lemma choice_unique {X} (l : list X) r r' x : NoDup l -> r < List.length l -> r' < List.length l ->
  choice r l = Ok x -> choice r' l = Ok x -> r = r'.
Proof.
  intros ND H H'. unfold choice. rewrite !Nat.mod_small by auto. intros E E'. apply (proj1 (NoDup_nth_error l) ND r r' H).
  destruct (nth_error l r), (nth_error l r'); cbn in *; congruence.
Qed.
Lemma choice_below {X} (l : list X) x : In x l -> exists r, r < List.length l /\ choice r l = Ok x.
Proof.
  intro H. destruct (In_nth_error l x H) as [i Hi]. assert (i < List.length l) by (apply nth_error_Some; congruence).
  exists i. split; auto. unfold choice. rewrite Nat.mod_small by auto. now rewrite Hi.
Qed.
Lemma NoDup_prod {X Y} (l : list X) (m : list Y) : NoDup l -> NoDup m -> NoDup (list_prod l m).
Proof.
  intros N1 N2. induction N1 as [|x l Hx N1 IH]; [constructor|]. cbn [list_prod]. apply NoDup_app_iff.
  split; [apply FinFun.Injective_map_NoDup; [intros u v [= ->]; reflexivity|exact N2]|]. split; [exact IH|].
  intros [u v] H1 H2. apply in_map_iff in H1. destruct H1 as (w & [= <- <-] & _). apply in_prod_iff in H2. tauto.
Qed.
Lemma numbers_pair {X Y} (A : X -> Prop) (B : Y -> Prop) j k : numbers A j -> numbers B k ->
  numbers (fun xy => A (fst xy) /\ B (snd xy)) (j * k).
Proof.
  intros (l & N1 & I1 & <-) (m & N2 & I2 & <-). exists (list_prod l m). split; [now apply NoDup_prod|].
  split; [intros [x y]; rewrite in_prod_iff; cbn [fst snd]; rewrite I1, I2; reflexivity|apply prod_length].
Qed.
Lemma numbers_below m : numbers (fun j => j < m) m.
Proof. exists (seq 0 m). split; [apply seq_NoDup|]. split; [intro x; rewrite in_seq; lia|apply seq_length]. Qed.
Lemma numbers_one {X} (A : X -> Prop) x : A x -> (forall y, A y -> y = x) -> numbers A 1.
Proof.
  intros H U. exists [x]. split; [constructor; [intros []|constructor]|]. split; [|reflexivity].
  intro y. cbn. split; [intros [<-|[]]; exact H|]. intro Hy. left. symmetry. now apply U.
Qed.

Section FlipLaw.
  Context {N P V L : Type} {EN : EqB N} {EP : EqB P} {EL : EqB L} {ON : Ord N} {RV : CRing V}.
  Variable E : env N P V L.
  Notation g := (e_graph E).
  Implicit Types (A B : assignment N P) (h : heap N P V L) (o : pobj N P V L).

  (** ** Specification *)

  (** The call [m] on the plans [h] returns a plan that agrees with [B] on every node. *)
  Definition proposes (m : M nat) h B : Prop :=
    exists c h' o', m h = (Ok c, h') /\ nth_error h' c = Some o' /\ same_plan B (o_assign o').
  (** The same, and cut_edge_accept with the number [u] accepts the proposal. *)
  Definition accepts (m : M nat) h B (u : Q) : Prop :=
    exists c h' o', m h = (Ok c, h') /\ nth_error h' c = Some o' /\ same_plan B (o_assign o') /\
      fst (cut_edge_accept E u c h') = Ok true.
  (** The neighbours of [n] in district [q]. *)
  Definition contact A (n : N) (q : P) (m : N) : Prop := adj g n m /\ district A m = Some q.
  (** The calls of propose_random_flip, by their two draws. *)
  Definition flip_draws h a B (k : nat) (rb : nat * bool) : Prop :=
    fst rb < k /\ proposes (propose_random_flip E (fst rb) (snd rb) a) h B.
  (** The same followed by cut_edge_accept with [j / M] for random.random(). *)
  Definition accept_draws h a B (k M : nat) (rbj : nat * bool * nat) : Prop :=
    fst (fst rbj) < k /\ snd rbj < M /\
    accepts (propose_random_flip E (fst (fst rbj)) (snd (fst rbj)) a) h B (Qn (snd rbj) / Qn M).

  (** ** Lemmas *)
  Lemma moved_same A n q B B' : moved A n q B -> moved A n q B' -> same_plan B B'.
  Proof. intros [H1 H2] [K1 K2] x. destruct (eq_dec_of x n) as [->|Hx]; [congruence|]. rewrite H2, K2; auto. Qed.
  Lemma moved_inj A n q n' q' B B' : district A n <> Some q -> moved A n q B -> moved A n' q' B' -> same_plan B B' -> n' = n /\ q' = q.
  Proof.
    intros D [H1 H2] [K1 K2] Sm. destruct (eq_dec_of n' n) as [->|Hx].
    - split; auto. specialize (Sm n). congruence.
    - exfalso. apply D. rewrite <- H1, <- (Sm n). symmetry. apply K2. congruence.
  Qed.

  Section Plan.
    Variables (h : heap N P V L) (a : nat) (o : pobj N P V L).
    Hypothesis S : session E h.
    Hypothesis Ho : nth_error h a = Some o.
    Hypothesis Hu : dget (e_updaters E) "cut_edges"%string = Some UCutEdges.
    Notation A := (o_assign o).

    (** What a call of propose_random_flip does. *)
    Lemma flip_call : exists s h1, cut_edges_of E a h = (Ok s, h1) /\ NoDup s /\ (forall e, In e s <-> cut_edge g A e) /\
      forall r b e, choice r s = Ok e -> exists c h' o' q, propose_random_flip E r b a h = (Ok c, h') /\ session E h' /\ kept h h' /\
        nth_error h' c = Some o' /\ o_parent o' = Some a /\ district A (snd (orient b e)) = Some q /\ moved A (fst (orient b e)) q (o_assign o') /\
        adj g (fst (orient b e)) (snd (orient b e)) /\ district A (fst (orient b e)) <> Some q.
    Proof.
      destruct (cuts_ok E h a o S Ho Hu) as (s & h' & Hc & ND & Sp & S' & K). exists s, h'. split; auto. split; auto. split; auto.
      intros r b e He. pose proof (choice_In r s e He) as Hin. unfold propose_random_flip. rewrite (get_bind h a o) by exact Ho. rewrite (bindM_ok _ _ _ _ _ Hc).
      destruct (Nat.eqb_spec (List.length s) 0) as [H0|_]; [destruct s; [destruct Hin|discriminate]|]. rewrite He, lift_bind.
      destruct (orient_cut E o b e (proj1 (Sp e) Hin)) as [Ad Dn]. destruct (orient b e) as [n m]. simpl in Ad, Dn. cbn [fst snd].
      destruct (part_ok E h a o S Ho m (proj2 (adj_node E h S _ _ Ad))) as (p & Pp & Dp & Lp). rewrite Pp, lift_bind.
      destruct (single_flip E h a o Ho h' n p S' K (proj1 (adj_node E h S _ _ Ad)) Lp) as (c & h'' & o' & F1 & F2 & F3 & F4 & F5 & F6 & _).
      exists c, h'', o', p. repeat (split; [assumption || congruence|]). congruence.
    Qed.
    Definition hit (s : list (N * N)) (n : N) (q : P) (rb : nat * bool) : bool :=
      match choice (fst rb) s with
      | Ok e => eqb (fst (orient (snd rb) e)) n && eqb (district A (snd (orient (snd rb) e))) (Some q)
      | _ => false
      end.
    Lemma hits_count s n q d : NoDup s -> (forall e, In e s <-> cut_edge g A e) -> district A n <> Some q ->
      numbers (contact A n q) d -> numbers (fun rb => fst rb < List.length s /\ hit s n q rb = true) d.
    Proof.
      intros ND Sp Dn Hd. set (l := filter (hit s n q) (list_prod (seq 0 (List.length s)) [true; false])).
      assert (Il : forall rb, In rb l <-> fst rb < List.length s /\ hit s n q rb = true).
      { intros [r b]. unfold l. rewrite filter_In, in_prod_iff, in_seq. cbn [fst]. destruct b; cbn; intuition lia. }
      assert (Nl : numbers (fun rb => fst rb < List.length s /\ hit s n q rb = true) (List.length l)).
      { exists l. split; [|split; [exact Il|reflexivity]]. apply NoDup_filter, NoDup_prod; [apply seq_NoDup|].
        repeat constructor; cbn; intuition discriminate. }
      enough (List.length l = d) by (subst d; exact Nl).
      refine (numbers_same _ _ (fun rb m => fst rb < List.length s /\ contact A n q m /\ exists e, choice (fst rb) s = Ok e /\ orient (snd rb) e = (n, m)) _ _ _ _ _ _ Nl Hd).
      - intros [r b] [Hr Hh]. unfold hit in Hh. cbn [fst snd] in *. destruct (choice r s) as [e| |] eqn:Ec; try discriminate.
        apply andb_true_iff in Hh. destruct Hh as [H1 H2]. apply (proj1 (eqb_eq _ _)) in H1. apply (proj1 (eqb_eq _ _)) in H2.
        destruct (orient_cut E o b e (proj1 (Sp e) (choice_In _ _ _ Ec))) as [Ad _]. exists (snd (orient b e)). rewrite H1 in Ad.
        assert (C : contact A n q (snd (orient b e))) by (split; assumption). split; [exact C|]. split; [exact Hr|]. split; [exact C|].
        exists e. split; [reflexivity|]. rewrite <- H1. destruct (orient b e); reflexivity.
      - intros m [Ad Dm]. assert (Hd' : district A n <> district A m) by congruence.
        destruct (proj2 (cut_edge_iff E o n m) (conj Ad Hd')) as [He|He]; apply Sp in He; destruct (choice_below s _ He) as (r & Hr & Hc);
          [exists (r, true)|exists (r, false)]; cbn [fst snd]; (split; [split; [exact Hr|]|split; [exact Hr|split; [split; assumption|eexists; split; [exact Hc|reflexivity]]]]);
          unfold hit; cbn [fst snd]; rewrite Hc; cbn [orient fst snd]; rewrite eqb_refl; cbn [andb]; apply (proj2 (eqb_eq _ _)); exact Dm.
      - intros [r b] [r' b'] m (Hr & [Ad Dm] & e & He & Oe) (Hr' & _ & e' & He' & Oe'). cbn [fst snd] in *.
        assert (Ce := proj1 (Sp e) (choice_In _ _ _ He)). assert (Ce' := proj1 (Sp e') (choice_In _ _ _ He')).
        destruct Ce as (Le & _), Ce' as (Le' & _). assert (nm : n <> m) by congruence.
        destruct e as [u v], e' as [u' v'], b, b'; cbn in *; injection Oe as -> ->; injection Oe' as -> ->;
          try (exfalso; apply nm; apply leb_antisym; assumption); f_equal; exact (choice_unique s r r' _ ND Hr Hr' He He').
      - intros rb m m' (_ & _ & e & He & Oe) (_ & _ & e' & He' & Oe'). congruence.
    Qed.
    Lemma hit_iff s h1 n q B : cut_edges_of E a h = (Ok s, h1) -> NoDup s -> (forall e, In e s <-> cut_edge g A e) -> moved A n q B -> district A n <> Some q ->
      forall rb, fst rb < List.length s -> hit s n q rb = true <-> proposes (propose_random_flip E (fst rb) (snd rb) a) h B.
    Proof.
      intros Hc ND Sp Mv Dn [r b] Hr. cbn [fst snd] in *. destruct flip_call as (s' & h1' & Hc' & _ & _ & F). rewrite Hc in Hc'. injection Hc' as <- <-.
      destruct (choice_ok r s ltac:(destruct s; [cbn in Hr; lia|discriminate])) as (e & He & _).
      destruct (F r b e He) as (c & h' & o' & p & G1 & _ & _ & G2 & _ & G3 & G4 & _). unfold hit. cbn [fst snd]. rewrite He. rewrite G3. split.
      - intro H. apply andb_true_iff in H. destruct H as [H1 H2]. apply (proj1 (eqb_eq _ _)) in H1. apply (proj1 (eqb_eq _ _)) in H2. injection H2 as ->.
        rewrite H1 in G4. exists c, h', o'. split; [exact G1|]. split; [exact G2|]. exact (moved_same A n q _ _ Mv G4).
      - intros (c' & h'' & o'' & X1 & X2 & X3). rewrite G1 in X1. injection X1 as <- <-. rewrite G2 in X2. injection X2 as <-.
        destruct (moved_inj _ _ _ _ _ _ _ Dn Mv G4 X3) as [-> ->]. now rewrite !eqb_refl.
    Qed.
    Lemma cuts_number s k : NoDup s -> (forall e, In e s <-> cut_edge g A e) -> numbers (cut_edge g A) k -> List.length s = k.
    Proof. intros ND Sp H. apply (numbers_unique (cut_edge g A)); [exists s; auto|exact H]. Qed.

    (** ** C102 *)

    (** Of the 2k draws of propose_random_flip, as many propose to move [n] to
        [q] as [n] has neighbours in [q]. *)
    Theorem C102_random_flip : forall n q B k d, moved A n q B -> district A n <> Some q ->
      numbers (cut_edge g A) k -> numbers (contact A n q) d -> numbers (flip_draws h a B k) d.
    Proof.
      intros n q B k d Mv Dn Hk Hd. destruct flip_call as (s & h1 & Hc & ND & Sp & _). rewrite <- (cuts_number s k ND Sp Hk).
      refine (numbers_ext _ _ d _ (hits_count s n q d ND Sp Dn Hd)). intro rb. unfold flip_draws. split; intros [H1 H2]; (split; [exact H1|]);
        now apply (hit_iff s h1 n q B).
    Qed.

    (** Followed by cut_edge_accept. *)
    Lemma Qn_less j m : j < m -> (Qn j < Qn m)%Q.
    Proof. intro H. unfold Qn, inject_Z, Qlt. cbn [Qnum Qden]. lia. Qed.
    Lemma qdiv_lt j k k' M : 0 < k' -> 0 < M -> (Qn j / Qn M < Qn k / Qn k')%Q <-> j * k' < k * M.
    Proof.
      intros H1 H2. unfold Qn, Qlt, Qdiv, Qmult, Qinv, inject_Z. cbn. destruct (Z.of_nat M) eqn:EM, (Z.of_nat k') eqn:Ek; cbn; try lia.
    Qed.
    Theorem C102_accepted : forall n q B k k' d t, moved A n q B -> district A n <> Some q ->
      numbers (cut_edge g A) k -> numbers (cut_edge g B) k' -> 0 < k' -> 0 < t -> numbers (contact A n q) d ->
      numbers (accept_draws h a B k (t * k')) (d * (t * Nat.min k k')).
    Proof.
      intros n q B k k' d t Mv Dn Hk Hk' Pk Pt Hd. destruct flip_call as (s & h1 & Hc & ND & Sp & F). assert (Ls := cuts_number s k ND Sp Hk).
      assert (C := numbers_pair _ _ _ _ (hits_count s n q d ND Sp Dn Hd) (numbers_below (t * Nat.min k k'))).
      refine (numbers_ext _ _ _ _ C). intros [[r b] j]. unfold accept_draws. cbn [fst snd]. rewrite Ls.
      assert (M0 : 0 < t * k') by nia.
      assert (Acc : r < k -> j < t * k' -> forall c h' o', propose_random_flip E r b a h = (Ok c, h') -> nth_error h' c = Some o' -> same_plan B (o_assign o') ->
        (fst (cut_edge_accept E (Qn j / Qn (t * k')) c h') = Ok true <-> j < t * Nat.min k k')).
      { intros Hr Hj c h' o' X1 X2 X3. destruct (choice_ok r s ltac:(destruct s; [cbn in Ls; lia|discriminate])) as (e & He & _).
        destruct (F r b e He) as (c' & h'' & o'' & p & G1 & GS & GK & G2 & GP & _). rewrite X1 in G1. injection G1 as <- <-. rewrite X2 in G2. injection G2 as <-.
        destruct (GK a o Ho) as (po & Hpo & Epo & _). destruct Hk' as (now & Nn & In' & Ln).
        destruct (C49_cut_edge_accept E h' c o' GS X2 Hu a po s now (Qn j / Qn (t * k')) GP Hpo) as [_ Cl]; auto.
        - split.
          + apply Qle_shift_div_l; [now apply (Qn_less 0)|]. rewrite Qmult_0_l. unfold Qn, inject_Z, Qle. cbn. lia.
          + apply Qlt_shift_div_r; [now apply (Qn_less 0)|]. rewrite Qmult_1_l. now apply Qn_less.
        - intro x. rewrite Epo. apply Sp.
        - intro x. rewrite In'. unfold cut_edge. rewrite !X3. reflexivity.
        - rewrite Ls, Ln in Cl. destruct (Cl ltac:(lia)) as (bb & Hbb & Ibb). fold (Qn k) (Qn k') in Ibb. rewrite qdiv_lt in Ibb by auto.
          rewrite Hbb. split.
          + intros [= ->]. destruct (proj1 Ibb eq_refl) as [H|H]; nia.
          + intro H. f_equal. apply Ibb. destruct (Nat.le_gt_cases k' k); [left; auto|right; nia]. }
      split.
      - intros [[Hr Hh] Hj]. split; [exact Hr|]. assert (Hj' : j < t * k') by nia. split; [exact Hj'|].
        apply (hit_iff s h1 n q B Hc ND Sp Mv Dn (r, b)) in Hh; [|cbn [fst]; lia]. destruct Hh as (c & h' & o' & X1 & X2 & X3). cbn [fst snd] in X1.
        exists c, h', o'. repeat (split; [assumption|]). now apply (Acc Hr Hj' c h' o' X1 X2 X3).
      - intros (Hr & Hj & c & h' & o' & X1 & X2 & X3 & X4). split.
        + split; [exact Hr|]. apply (hit_iff s h1 n q B Hc ND Sp Mv Dn (r, b)); [cbn [fst]; lia|]. exists c, h', o'. auto.
        + now apply (Acc Hr Hj c h' o' X1 X2 X3).
    Qed.

    (** slow_reversible_propose: of its draws, one for each boundary move,
        exactly one proposes a given move. *)
    Theorem C102_slow : forall n q B k, moved A n q B -> boundary_move g A n q ->
      numbers (fun nq => boundary_move g A (fst nq) (snd nq)) k ->
      numbers (fun r => r < k /\ proposes (slow_reversible_propose E r a) h B) 1.
    Proof.
      intros n q B k Mv Bm Hk. destruct (C44_moves E h a o S Ho Hu) as (mv & ND & Im & F).
      assert (Lm : List.length mv = k).
      { apply (numbers_unique (fun nq => boundary_move g A (fst nq) (snd nq))); [|exact Hk]. exists mv. split; auto. split; auto. intros [x y]. apply Im. }
      assert (Dn : district A n <> Some q) by (destruct Bm as (m & _ & _ & H); exact H).
      destruct (choice_below mv (n, q) (proj2 (Im n q) Bm)) as (r & Hr & Cr). apply (numbers_one _ r).
      - split; [lia|]. specialize (F r). rewrite Cr in F. destruct F as (c & h' & o' & F1 & _ & F2 & _ & F3).
        exists c, h', o'. split; auto. split; auto. exact (moved_same A n q _ _ Mv F3).
      - intros r' [Hr' (c & h' & o' & X1 & X2 & X3)]. specialize (F r').
        destruct (choice_ok r' mv ltac:(destruct mv; [cbn in Hr; lia|discriminate])) as ([n' q'] & Cr' & _). rewrite Cr' in F.
        destruct F as (c' & h'' & o'' & F1 & _ & F2 & _ & F3). rewrite X1 in F1. injection F1 as <- <-. rewrite X2 in F2. injection F2 as <-.
        destruct (moved_inj _ _ _ _ _ _ _ Dn Mv F3 X3) as [-> ->]. exact (choice_unique mv r' r _ ND ltac:(lia) Hr Cr' Cr).
    Qed.
    (** slow_reversible_propose_bi on two districts: of its draws, one for each
        boundary node, exactly one proposes a given move, whatever the second
        draw; the node must have a neighbour in its own district. *)
    Theorem C102_bi : forall n p q B k, moved A n q B -> boundary_move g A n q -> (forall x y, district A x = Some y -> y = p \/ y = q) ->
      district A n = Some p -> (exists m, contact A n p m) ->
      numbers (fun x => exists y, boundary_move g A x y) k ->
      forall r2, numbers (fun r1 => r1 < k /\ proposes (propose_bi E r1 r2 a) h B) 1.
    Proof.
      intros n p q B k Mv Bm Two Dp (m0 & Am & Dm) Hk r2. destruct (C44_bi E h a o S Ho Hu) as (bs & ND & Ib & F).
      assert (Lm : List.length bs = k) by (apply (numbers_unique (fun x => exists y, boundary_move g A x y)); [exists bs; auto|exact Hk]).
      assert (Dn : district A n <> Some q) by (destruct Bm as (m & _ & _ & H); exact H).
      destruct (choice_below bs n (proj2 (Ib n) (ex_intro _ q Bm))) as (r & Hr & Cr). apply (numbers_one _ r).
      - split; [lia|]. specialize (F r r2). rewrite Cr in F. destruct F as [F _].
        destruct (F (ex_intro _ m0 (conj Am (eq_trans Dm (eq_sym Dp))))) as (c & h' & o' & q' & F1 & _ & F2 & _ & (m & Ax & Dx & Dq) & F3).
        assert (q' = q) by (destruct (Two m q' Dx) as [-> | ->]; [contradiction|reflexivity]). subst q'.
        exists c, h', o'. split; auto. split; auto. exact (moved_same A n q _ _ Mv F3).
      - intros r' [Hr' (c & h' & o' & X1 & X2 & X3)]. specialize (F r' r2).
        destruct (choice_ok r' bs ltac:(destruct bs; [cbn in Hr; lia|discriminate])) as (n' & Cr' & Hin). rewrite Cr' in F. destruct F as [F F'].
        assert (Dec : (exists m, adj g n' m /\ district A m = district A n') \/ (forall m, adj g n' m -> district A m <> district A n')).
        { destruct (existsb (fun m => eqb (district A m) (district A n')) (neighbors g n')) eqn:Ex.
          - left. apply existsb_exists in Ex. destruct Ex as (m & Hm & He). exists m. apply (neighbors_adj E) in Hm. split; [exact Hm|].
            now apply (proj1 (eqb_eq _ _)) in He.
          - right. intros m Hm He. apply not_true_iff_false in Ex. apply Ex. apply existsb_exists. exists m. split; [now apply (neighbors_adj E)|].
            now apply (proj2 (eqb_eq _ _)). }
        destruct Dec as [H|H]; [|rewrite X1 in F'; cbn in F'; discriminate (F' H)].
        destruct (F H) as (c' & h'' & o'' & q' & F1 & _ & F2 & _ & _ & F3). rewrite X1 in F1. injection F1 as <- <-. rewrite X2 in F2. injection F2 as <-.
        destruct (moved_inj _ _ _ _ _ _ _ Dn Mv F3 X3) as [-> _]. exact (choice_unique bs r' r _ ND ltac:(lia) Hr Cr' Cr).
    Qed.
    (** propose_any_node_flip: exactly one pair of draws proposes a given move. *)
    Theorem C102_any_node : forall n q B, moved A n q B -> In n (g_nodes g) -> In q (labels A) -> district A n <> Some q ->
      numbers (fun rr => fst rr < List.length (g_nodes g) /\ snd rr < List.length (labels A) /\
                         proposes (propose_any_node_flip E (fst rr) (snd rr) a) h B) 1.
    Proof.
      intros n q B Mv Hn Hq Dn. assert (N1 := wfg_nodes _ (wfg E h S)). assert (N2 := coh_part_keys _ _ (Coh E h a o S Ho)).
      assert (Call : forall r1 r2 x y, choice r1 (g_nodes g) = Ok x -> choice r2 (labels A) = Ok y ->
        exists c h' o', propose_any_node_flip E r1 r2 a h = (Ok c, h') /\ nth_error h' c = Some o' /\ moved A x y (o_assign o')).
      { intros r1 r2 x y C1 C2. unfold propose_any_node_flip. rewrite (get_bind h a o) by exact Ho. rewrite C1, lift_bind.
        unfold labels in C2. rewrite C2, lift_bind.
        destruct (single_flip E h a o Ho h x y S (kept_refl h) (choice_In _ _ _ C1) (choice_In _ _ _ C2)) as (c & h'' & o' & F1 & F2 & F3 & F4 & F5 & F6 & _).
        eauto 8. }
      destruct (choice_below _ _ Hn) as (r1 & H1 & C1). destruct (choice_below _ _ Hq) as (r2 & H2 & C2).
      apply (numbers_one _ (r1, r2)).
      - cbn [fst snd]. split; auto. split; auto. destruct (Call r1 r2 n q C1 C2) as (c & h' & o' & F1 & F2 & F3).
        exists c, h', o'. split; auto. split; auto. exact (moved_same A n q _ _ Mv F3).
      - intros [s1 s2] (K1 & K2 & c & h' & o' & X1 & X2 & X3). cbn [fst snd] in *.
        destruct (choice_ok s1 (g_nodes g) ltac:(intro X; rewrite X in K1; cbn in K1; lia)) as (x & D1 & _).
        destruct (choice_ok s2 (labels A) ltac:(intro X; rewrite X in K2; cbn in K2; lia)) as (y & D2 & _).
        destruct (Call s1 s2 x y D1 D2) as (c' & h'' & o'' & F1 & F2 & F3). rewrite X1 in F1. injection F1 as <- <-. rewrite X2 in F2. injection F2 as <-.
        destruct (moved_inj _ _ _ _ _ _ _ Dn Mv F3 X3) as [-> ->]. f_equal; [exact (choice_unique _ s1 r1 _ N1 K1 H1 D1 C1)|exact (choice_unique _ s2 r2 _ N2 K2 H2 D2 C2)].
    Qed.
  End Plan.

  Lemma moved_back A n p q A' : district A n = Some p -> moved A n q A' -> moved A' n p A.
  Proof. intros D [H1 H2]. split; [exact D|]. intros x Hx. symmetry. now apply H2. Qed.
  Lemma Qn_times j k : (Qn (j * k) == Qn j * Qn k)%Q.
  Proof. unfold Qn. rewrite Nat2Z.inj_mul, inject_Z_mult. reflexivity. Qed.
  Lemma Qn_nonzero k : 0 < k -> ~ (Qn k == 0)%Q.
  Proof. intros H X. assert (0 < Qn k)%Q by now apply (Qn_less 0). lra. Qed.
  Lemma Qn_inj j k : (Qn j == Qn k)%Q <-> j = k.
  Proof. unfold Qn, inject_Z, Qeq. cbn. lia. Qed.
  Lemma ratio_eq (x y u v : Q) : ~ (u == 0)%Q -> ~ (v == 0)%Q -> (x / u == y / v <-> x * v == y * u)%Q.
  Proof.
    intros Hu Hv. split; intro H.
    - setoid_replace (x * v)%Q with (x / u * u * v)%Q by (field; exact Hu). rewrite H. field. exact Hv.
    - setoid_replace (x / u)%Q with (x * v / (u * v))%Q by (field; auto). rewrite H. field. auto.
  Qed.

  Section Two.
    (** Two plans that differ in the district of one node. *)
    Variables (h h' : heap N P V L) (a a' : nat) (o o' : pobj N P V L) (n : N) (p q : P).
    Hypothesis S : session E h.
    Hypothesis S' : session E h'.
    Hypothesis Ho : nth_error h a = Some o.
    Hypothesis Ho' : nth_error h' a' = Some o'.
    Hypothesis Hu : dget (e_updaters E) "cut_edges"%string = Some UCutEdges.
    Hypothesis Dn : district (o_assign o) n = Some p.
    Hypothesis pq : p <> q.
    Hypothesis Mv : moved (o_assign o) n q (o_assign o').
    Notation A := (o_assign o).
    Notation A' := (o_assign o').

    (** Flips with cut_edge_accept: the probability of a step from one plan to
        the other is [d * min(k, k') / (2 * k * k')], so the steps are in
        balance with the uniform distribution iff the node has as many
        neighbours in the new district as in the old one. *)
    Theorem C102_metropolis : forall k k' d d' t c c', 0 < k -> 0 < k' -> 0 < t ->
      numbers (cut_edge g A) k -> numbers (cut_edge g A') k' ->
      numbers (contact A n q) d -> numbers (contact A' n p) d' ->
      numbers (accept_draws h a A' k (t * k * k')) c -> numbers (accept_draws h' a' A k' (t * k * k')) c' ->
      (Qn c / Qn (2 * k * (t * k * k')) == Qn (d * Nat.min k k') / Qn (2 * k * k'))%Q /\
      (Qn c' / Qn (2 * k' * (t * k * k')) == Qn (d' * Nat.min k k') / Qn (2 * k * k'))%Q /\
      ((Qn c / Qn (2 * k * (t * k * k')) == Qn c' / Qn (2 * k' * (t * k * k')))%Q <-> d = d').
    Proof.
      intros k k' d d' t c c' Pk Pk' Pt Hk Hk' Hd Hd' Hc Hc'.
      assert (Ec : c = d * (t * k * Nat.min k k')).
      { refine (numbers_unique _ _ _ Hc _). apply (C102_accepted h a o S Ho Hu n q A' k k' d (t * k) Mv); auto; [congruence|nia]. }
      assert (Ec' : c' = d' * (t * k' * Nat.min k k')).
      { refine (numbers_unique _ _ _ Hc' _). replace (t * k * k') with (t * k' * k) by lia. rewrite (Nat.min_comm k k').
        apply (C102_accepted h' a' o' S' Ho' Hu n p A k' k d' (t * k') (moved_back _ _ _ _ _ Dn Mv)); auto; [|nia].
        destruct Mv as [M1 _]. congruence. }
      assert (F1 : (Qn c / Qn (2 * k * (t * k * k')) == Qn (d * Nat.min k k') / Qn (2 * k * k'))%Q).
      { apply ratio_eq; [apply Qn_nonzero; nia|apply Qn_nonzero; nia|]. rewrite <- !Qn_times. apply Qn_inj. subst c. ring. }
      assert (F2 : (Qn c' / Qn (2 * k' * (t * k * k')) == Qn (d' * Nat.min k k') / Qn (2 * k * k'))%Q).
      { apply ratio_eq; [apply Qn_nonzero; nia|apply Qn_nonzero; nia|]. rewrite <- !Qn_times. apply Qn_inj. subst c'. ring. }
      split; [exact F1|]. split; [exact F2|]. rewrite F1, F2. rewrite ratio_eq by (apply Qn_nonzero; nia). rewrite <- !Qn_times, Qn_inj.
      split; [|intros ->; reflexivity]. intro X. apply Nat.mul_cancel_r in X; [|nia]. apply Nat.mul_cancel_r in X; [exact X|lia].
    Qed.
    (** slow_reversible_propose is in balance with the number of boundary moves
        of the plan, and with the uniform distribution only between plans with
        the same number of them. *)
    Theorem C102_slow_balance : forall k k' c c', boundary_move g A n q -> boundary_move g A' n p ->
      numbers (fun nq => boundary_move g A (fst nq) (snd nq)) k -> numbers (fun nq => boundary_move g A' (fst nq) (snd nq)) k' ->
      numbers (fun r => r < k /\ proposes (slow_reversible_propose E r a) h A') c ->
      numbers (fun r => r < k' /\ proposes (slow_reversible_propose E r a') h' A) c' ->
      (Qn k * (Qn c / Qn k) == Qn k' * (Qn c' / Qn k'))%Q /\ ((Qn c / Qn k == Qn c' / Qn k')%Q <-> k = k').
    Proof.
      intros k k' c c' B1 B2 Hk Hk' Hc Hc'.
      assert (Ec := numbers_unique _ _ _ Hc (C102_slow h a o S Ho Hu n q A' k Mv B1 Hk)).
      assert (Ec' := numbers_unique _ _ _ Hc' (C102_slow h' a' o' S' Ho' Hu n p A k' (moved_back _ _ _ _ _ Dn Mv) B2 Hk')). subst c c'.
      assert (Pos : forall (Pr : N * P -> Prop) j x, Pr x -> numbers Pr j -> 0 < j).
      { intros Pr j x Hx Hj. destruct j; [|lia]. exfalso. exact (proj1 (numbers_zero Pr) Hj x Hx). }
      assert (P1 := Pos _ _ (n, q) B1 Hk). assert (P2 := Pos _ _ (n, p) B2 Hk'). clear Pos.
      split; [field; split; apply Qn_nonzero; assumption|]. rewrite ratio_eq by (apply Qn_nonzero; assumption).
      rewrite <- !Qn_times, Qn_inj. lia.
    Qed.
  End Two.
End FlipLaw.

(** ** Cases that meet the hypotheses, and the refuted uniform distribution *)

(** A node joined to a pair of neighbours and to a third one. *)
Definition kite : env nat nat Z nat :=
  mkEnv (mkGraph [0; 1; 2; 3] [(0, 1); (1, 2); (1, 3); (2, 3)]) (fun _ _ => None) (fun _ => false) (fun _ => 0%Z) (fun _ => 0%Z)
        (fun _ _ => None) [("cut_edges"%string, UCutEdges)].
Lemma kite_wf : wf_env kite.
Proof.
  split.
  - constructor; simpl.
    + nodup.
    + nodup.
    + intros u v H. repeat destruct H as [H|H]; try injection H as <- <-; simpl; auto 8.
    + intros u v H H'. repeat destruct H as [H|H]; try injection H as <- <-; repeat destruct H' as [H'|H']; try discriminate; tauto.
  - intros k ps al H. apply dget_In in H. simpl in H. repeat destruct H as [H|H]; try discriminate; contradiction.
Qed.
Lemma kite_registered : registered kite.
Proof.
  intros k u H k' u' H'. apply dget_In in H. simpl in H. repeat destruct H as [H|H]; try contradiction; injection H as <- <-; simpl in H';
  repeat destruct H' as [H'|H']; try contradiction; injection H' as <- <-; reflexivity.
Qed.
Lemma kite_session d ops h0 : is_dict d -> root kite d = Ok h0 -> Forall wf_op ops -> session kite (exec kite ops h0).
Proof. intros D R F. split; [exact kite_wf|]. split; [exact kite_registered|]. exists d, h0, ops. auto. Qed.
Definition kite_at (d : dict nat nat) : heap nat nat Z nat := match root kite d with Ok h => h | _ => [] end.
Definition kite_1 : dict nat nat := [(0, 1); (1, 1); (2, 2); (3, 2)].
Definition kite_2 : dict nat nat := [(0, 1); (1, 2); (2, 2); (3, 2)].
Lemma kite_s1 : session kite (kite_at kite_1).
Proof. apply (kite_session kite_1 [] (kite_at kite_1)); [nodup|vm_compute; reflexivity|constructor]. Qed.
Lemma kite_s2 : session kite (kite_at kite_2).
Proof. apply (kite_session kite_2 [] (kite_at kite_2)); [nodup|vm_compute; reflexivity|constructor]. Qed.

Definition kite_plan (d : dict nat nat) : pobj nat nat Z nat := nth 0 (kite_at d) (mkObj (mkAssignment [] []) None None [] None []).
Notation K1 := (o_assign (kite_plan kite_1)).
Notation K2 := (o_assign (kite_plan kite_2)).
Lemma kite_o1 : nth_error (kite_at kite_1) 0 = Some (kite_plan kite_1). Proof. vm_compute. reflexivity. Qed.
Lemma kite_o2 : nth_error (kite_at kite_2) 0 = Some (kite_plan kite_2). Proof. vm_compute. reflexivity. Qed.
Lemma kite_d1 x : district K1 x = dget kite_1 x.
Proof. replace K1 with (mkAssignment [(1, [0; 1]); (2, [2; 3])] kite_1) by (vm_compute; reflexivity). reflexivity. Qed.
Lemma kite_d2 x : district K2 x = dget kite_2 x.
Proof. replace K2 with (mkAssignment [(1, [0]); (2, [1; 2; 3])] kite_2) by (vm_compute; reflexivity). reflexivity. Qed.
Lemma kite_moved : moved K1 1 2 K2.
Proof.
  split; [rewrite kite_d2; reflexivity|]. intros x Hx. rewrite kite_d1, kite_d2. unfold kite_1, kite_2. cbn [dget].
  destruct (eqb_spec x 0); [reflexivity|]. destruct (eqb_spec x 1); [contradiction|reflexivity].
Qed.
Ltac kite_adj H := unfold adj in H; cbn in H; destruct H as [H|H]; repeat destruct H as [H|H]; try contradiction; injection H as <- <-.
Ltac kite_adj1 H := unfold adj in H; cbn in H; destruct H as [H|H]; repeat destruct H as [H|H]; try contradiction; injection H; intros; subst; try discriminate.
Lemma kite_cuts1 : numbers (cut_edge (e_graph kite) K1) 2.
Proof.
  exists [(1, 2); (1, 3)]. split; [nodup|]. split; [|reflexivity]. intros [u v]. unfold cut_edge. cbn [fst snd]. rewrite !kite_d1. split.
  - intros [[= <- <-]|[[= <- <-]|[]]]; (split; [reflexivity|split; [left; cbn; auto|discriminate]]).
  - intros (Hl & Had & Hd). kite_adj Had; cbn in *; auto; try discriminate; contradiction Hd; reflexivity.
Qed.
Lemma kite_cuts2 : numbers (cut_edge (e_graph kite) K2) 1.
Proof.
  exists [(0, 1)]. split; [nodup|]. split; [|reflexivity]. intros [u v]. unfold cut_edge. cbn [fst snd]. rewrite !kite_d2. split.
  - intros [[= <- <-]|[]]; (split; [reflexivity|split; [left; cbn; auto|discriminate]]).
  - intros (Hl & Had & Hd). kite_adj Had; cbn in *; auto; try discriminate; contradiction Hd; reflexivity.
Qed.
Lemma kite_contact1 : numbers (contact kite K1 1 2) 2.
Proof.
  exists [2; 3]. split; [nodup|]. split; [|reflexivity]. intro m. unfold contact. rewrite kite_d1. split.
  - intros [<-|[<-|[]]]; (split; [left; cbn; auto|reflexivity]).
  - intros [Had Hd]. kite_adj1 Had; cbn in *; auto; discriminate.
Qed.
Lemma kite_contact2 : numbers (contact kite K2 1 1) 1.
Proof.
  exists [0]. split; [nodup|]. split; [|reflexivity]. intro m. unfold contact. rewrite kite_d2. split.
  - intros [<-|[]]; (split; [right; cbn; auto|reflexivity]).
  - intros [Had Hd]. kite_adj1 Had; cbn in *; auto; discriminate.
Qed.
(** On the kite the node in the middle moves with probability 1/2 one way and
    1/4 the other way, so flips with cut_edge_accept do not leave the uniform
    distribution in balance. *)
Theorem C102_uniform_refuted : exists (E : env nat nat Z nat) h h' a a' o o' n q k k' M c c',
  session E h /\ session E h' /\ nth_error h a = Some o /\ nth_error h' a' = Some o' /\
  dget (e_updaters E) "cut_edges"%string = Some UCutEdges /\ moved (o_assign o) n q (o_assign o') /\
  numbers (cut_edge (e_graph E) (o_assign o)) k /\ numbers (cut_edge (e_graph E) (o_assign o')) k' /\
  numbers (accept_draws E h a (o_assign o') k M) c /\ numbers (accept_draws E h' a' (o_assign o) k' M) c' /\
  (Qn c / Qn (2 * k * M) == 1 # 2)%Q /\ (Qn c' / Qn (2 * k' * M) == 1 # 4)%Q.
Proof.
  exists kite, (kite_at kite_1), (kite_at kite_2), 0, 0, (kite_plan kite_1), (kite_plan kite_2), 1, 2, 2, 1, 2, 4, 1.
  split; [apply kite_s1|]. split; [apply kite_s2|]. split; [apply kite_o1|]. split; [apply kite_o2|]. split; [reflexivity|]. split; [apply kite_moved|].
  split; [apply kite_cuts1|]. split; [apply kite_cuts2|]. split.
  { apply (C102_accepted kite _ 0 _ kite_s1 kite_o1 eq_refl 1 2 K2 2 1 2 2 kite_moved); [rewrite kite_d1; discriminate|apply kite_cuts1|apply kite_cuts2|lia|lia|apply kite_contact1]. }
  split.
  { apply (C102_accepted kite _ 0 _ kite_s2 kite_o2 eq_refl 1 1 K1 1 2 1 1); [apply (moved_back _ _ 1 _ _ (kite_d1 1) kite_moved)|rewrite kite_d2; discriminate|apply kite_cuts2|apply kite_cuts1|lia|lia|apply kite_contact2]. }
  split; reflexivity.
Qed.
Lemma kite_moves1 : numbers (fun nq => boundary_move (e_graph kite) K1 (fst nq) (snd nq)) 3.
Proof.
  exists [(1, 2); (2, 1); (3, 1)]. split; [nodup|]. split; [|reflexivity]. intros [x y]. unfold boundary_move. cbn [fst snd]. split.
  - intros [[= <- <-]|[[= <- <-]|[[= <- <-]|[]]]]; [exists 2|exists 1|exists 1]; rewrite !kite_d1; (split; [first [left; cbn; solve [auto]|right; cbn; auto]|split; [reflexivity|discriminate]]).
  - intros (m & Had & Hm & Hx). rewrite kite_d1 in Hm, Hx. kite_adj Had; cbn in *; injection Hm as <-; auto; contradiction Hx; reflexivity.
Qed.
Lemma kite_moves2 : numbers (fun nq => boundary_move (e_graph kite) K2 (fst nq) (snd nq)) 2.
Proof.
  exists [(0, 2); (1, 1)]. split; [nodup|]. split; [|reflexivity]. intros [x y]. unfold boundary_move. cbn [fst snd]. split.
  - intros [[= <- <-]|[[= <- <-]|[]]]; [exists 1|exists 0]; rewrite !kite_d2; (split; [first [left; cbn; solve [auto]|right; cbn; auto]|split; [reflexivity|discriminate]]).
  - intros (m & Had & Hm & Hx). rewrite kite_d2 in Hm, Hx. kite_adj Had; cbn in *; injection Hm as <-; auto; contradiction Hx; reflexivity.
Qed.
Lemma kite_b1 : boundary_move (e_graph kite) K1 1 2.
Proof. exists 2. rewrite !kite_d1. split; [left; cbn; auto|]. split; [reflexivity|discriminate]. Qed.
Lemma kite_b2 : boundary_move (e_graph kite) K2 1 1.
Proof. exists 0. rewrite !kite_d2. split; [right; cbn; auto|]. split; [reflexivity|discriminate]. Qed.
(** Nor does slow_reversible_propose: 1/3 one way and 1/2 the other way. *)
Theorem C102_slow_uniform_refuted : exists (E : env nat nat Z nat) h h' a a' o o' n q k k' c c',
  session E h /\ session E h' /\ nth_error h a = Some o /\ nth_error h' a' = Some o' /\ moved (o_assign o) n q (o_assign o') /\
  numbers (fun nq => boundary_move (e_graph E) (o_assign o) (fst nq) (snd nq)) k /\ numbers (fun nq => boundary_move (e_graph E) (o_assign o') (fst nq) (snd nq)) k' /\
  numbers (fun r => r < k /\ proposes (slow_reversible_propose E r a) h (o_assign o')) c /\
  numbers (fun r => r < k' /\ proposes (slow_reversible_propose E r a') h' (o_assign o)) c' /\
  (Qn c / Qn k == 1 # 3)%Q /\ (Qn c' / Qn k' == 1 # 2)%Q.
Proof.
  exists kite, (kite_at kite_1), (kite_at kite_2), 0, 0, (kite_plan kite_1), (kite_plan kite_2), 1, 2, 3, 2, 1, 1.
  split; [apply kite_s1|]. split; [apply kite_s2|]. split; [apply kite_o1|]. split; [apply kite_o2|]. split; [apply kite_moved|].
  split; [apply kite_moves1|]. split; [apply kite_moves2|].
  split; [exact (C102_slow kite _ 0 _ kite_s1 kite_o1 eq_refl 1 2 K2 3 kite_moved kite_b1 kite_moves1)|].
  split; [exact (C102_slow kite _ 0 _ kite_s2 kite_o2 eq_refl 1 1 K1 2 (moved_back _ _ 1 _ _ (kite_d1 1) kite_moved) kite_b2 kite_moves2)|].
  split; reflexivity.
Qed.
(** The kite also meets the hypotheses of the other theorems. *)
Example C102_nonvacuous :
  numbers (flip_draws kite (kite_at kite_1) 0 K2 2) 2 /\
  (forall r2, numbers (fun r1 => r1 < 3 /\ proposes (propose_bi kite r1 r2 0) (kite_at kite_1) K2) 1) /\
  numbers (fun rr => fst rr < 4 /\ snd rr < 2 /\ proposes (propose_any_node_flip kite (fst rr) (snd rr) 0) (kite_at kite_1) K2) 1 /\
  (exists c c', (Qn 3 * (Qn c / Qn 3) == Qn 2 * (Qn c' / Qn 2))%Q /\ c = 1 /\ c' = 1).
Proof.
  assert (D : district K1 1 <> Some 2) by (rewrite kite_d1; discriminate).
  split; [exact (C102_random_flip kite _ 0 _ kite_s1 kite_o1 eq_refl 1 2 K2 2 2 kite_moved D kite_cuts1 kite_contact1)|]. split.
  - intro r2. apply (C102_bi kite _ 0 _ kite_s1 kite_o1 eq_refl 1 1 2 K2 3 kite_moved kite_b1).
    + intros x y. rewrite kite_d1. unfold kite_1. cbn [dget]. destruct (eqb_spec x 0), (eqb_spec x 1), (eqb_spec x 2), (eqb_spec x 3); intro H; injection H as <- || discriminate; auto.
    + apply kite_d1.
    + exists 0. split; [right; cbn; auto|apply kite_d1].
    + exists [1; 2; 3]. split; [nodup|]. split; [|reflexivity]. destruct kite_moves1 as (l & _ & Il & _). intro x. split.
      * intros [<-|[<-|[<-|[]]]]; [exists 2|exists 1|exists 1]; [exact kite_b1| |]; exists 1; rewrite !kite_d1; (split; [right; cbn; auto|split; [reflexivity|discriminate]]).
      * intros (y & m & Had & Hm & Hx). rewrite kite_d1 in Hm, Hx. kite_adj Had; cbn in *; injection Hm as <-; auto; contradiction Hx; reflexivity.
  - split; [apply (C102_any_node kite _ 0 _ kite_s1 kite_o1 1 2 K2 kite_moved); [cbn; auto|vm_compute; auto|exact D]|].
    exists 1, 1. split; [|auto].
    apply (C102_slow_balance kite _ _ 0 0 _ _ 1 1 2 kite_s1 kite_s2 kite_o1 kite_o2 eq_refl (kite_d1 1) kite_moved 3 2 1 1 kite_b1 kite_b2 kite_moves1 kite_moves2);
      [exact (C102_slow kite _ 0 _ kite_s1 kite_o1 eq_refl 1 2 K2 3 kite_moved kite_b1 kite_moves1)|
       exact (C102_slow kite _ 0 _ kite_s2 kite_o2 eq_refl 1 1 K1 2 (moved_back _ _ 1 _ _ (kite_d1 1) kite_moved) kite_b2 kite_moves2)].
Qed.
Print Assumptions C102_random_flip.
Print Assumptions C102_accepted.
Print Assumptions C102_metropolis.
Print Assumptions C102_slow.
Print Assumptions C102_slow_balance.
Print Assumptions C102_bi.
Print Assumptions C102_any_node.
Print Assumptions C102_uniform_refuted.
Print Assumptions C102_slow_uniform_refuted.
