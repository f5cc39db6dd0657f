(** C128: what a chain of slow_reversible_propose with cut_edge_accept samples. *)
From Coq Require Import String List Bool Arith ZArith QArith Qabs Lqa Lia ZifyBool ZifyNat Permutation.
From Verif Require Import Base M_Graph M_Partition S_Partition L_Partition M_Machine S_Machine
  L_Cuts L_Machine L_Answers P_Partition P_Machine M_Constraints M_Chain P_Chain M_Diversity L_Order M_Proposals S_Proposals P_Proposals
  L_Locality M_Recursive S_Contiguity P_Uniform P_FlipLaw P_ChainLaw.
From Verif Require Import P_DetailedBalance P_Stationary L_Converge L_Average P_LongRun P_Histogram P_AnyNode P_Slow.
Import ListNotations.
Local Open Scope nat_scope.
Local Open Scope list_scope.

(** ** Two choices from one number *)
Lemma shift_seq a n : forall s, seq (a + s) n = map (fun j => a + j) (seq s n).
Proof. induction n as [|n IH]; intro s; [reflexivity|]. cbn [seq map]. f_equal. rewrite <- IH. f_equal. lia. Qed.
Lemma seq_product D M : seq 0 (D * M) = flat_map (fun i => map (fun j => i * M + j) (seq 0 M)) (seq 0 D).
Proof.
  induction D as [|D IH]; [reflexivity|]. replace (S D * M) with (D * M + M) by lia. rewrite seq_app, IH, seq_S, flat_map_app. f_equal. cbn [flat_map Nat.add]. rewrite app_nil_r.
  rewrite <- (Nat.add_0_r (D * M)) at 1. apply shift_seq.
Qed.
Lemma split_number i j M : j < M -> (i * M + j) / M = i /\ (i * M + j) mod M = j.
Proof. intro H. split; [rewrite Nat.div_add_l by lia; rewrite Nat.div_small by lia; lia|rewrite Nat.add_comm, Nat.mod_add by lia; now apply Nat.mod_small]. Qed.
Lemma sum_flat {X Y} (f : Y -> nat) (u : X -> list Y) l : list_sum (map f (flat_map u l)) = list_sum (map (fun x => list_sum (map f (u x))) l).
Proof. induction l as [|x l IH]; [reflexivity|]. cbn [flat_map map list_sum fold_right]. now rewrite map_app, list_sum_app, IH. Qed.
Lemma sum_product (F : nat -> nat -> nat) D M :
  list_sum (map (fun d => F (d / M) (d mod M)) (seq 0 (D * M))) = list_sum (map (fun i => list_sum (map (F i) (seq 0 M))) (seq 0 D)).
Proof.
  rewrite seq_product, sum_flat. f_equal. apply map_ext. intro i. rewrite map_map. f_equal. apply map_ext_in. intros j Hj. apply in_seq in Hj. destruct (split_number i j M ltac:(lia)) as [-> ->]. reflexivity.
Qed.
Lemma count_sum {Y} (f : Y -> bool) l : List.length (filter f l) = list_sum (map (fun y => if f y then 1 else 0) l).
Proof. induction l as [|y l IH]; [reflexivity|]; cbn [filter map list_sum fold_right]; destruct (f y); cbn [List.length]; rewrite IH; reflexivity. Qed.
Lemma count_product (f g : nat -> bool) D M :
  List.length (filter (fun d => f (d / M) && g (d mod M)) (seq 0 (D * M))) = List.length (filter f (seq 0 D)) * List.length (filter g (seq 0 M)).
Proof.
  rewrite !count_sum. rewrite (sum_product (fun i j => if f i && g j then 1 else 0)).
  induction (seq 0 D) as [|i l IH]; [reflexivity|]. cbn [map list_sum fold_right]. fold (list_sum (map (fun y => if f y then 1 else 0) l)). unfold list_sum in *. rewrite IH, Nat.mul_add_distr_r. f_equal.
  destruct (f i); cbn [andb]; [now rewrite Nat.mul_1_l|]. clear. induction (seq 0 M); [reflexivity|assumption].
Qed.
Lemma count_below (b M : nat) : b <= M -> List.length (filter (fun j => Nat.ltb j b) (seq 0 M)) = b.
Proof.
  intro H. eapply (numbers_unique (fun j => j < b)); [|exists (seq 0 b); split; [apply seq_NoDup|split; [intro j; rewrite in_seq; lia|apply seq_length]]].
  eexists. split; [apply NoDup_filter, seq_NoDup|]. split; [|reflexivity]. intro j. rewrite filter_In, in_seq, Nat.ltb_lt. lia.
Qed.

Lemma NoDup_map_in {X Y} (f : X -> Y) l : NoDup l -> (forall x y, In x l -> In y l -> f x = f y -> x = y) -> NoDup (map f l).
Proof.
  induction 1 as [|x l Hx Hl IH]; intro I; [constructor|]. cbn [map]. constructor.
  - intro Hi. apply in_map_iff in Hi. destruct Hi as (y & Ey & Hy). apply Hx. rewrite (I x y); auto; [now left|now right].
  - apply IH. intros a b Ha Hb. apply I; now right.
Qed.

Section Metropolis.
  Context {N P V L : Type} {EN : EqB N} {EP : EqB P} {EL : EqB L} {ON : Ord N} {RV : CRing V}.
  Variable E : env N P V L.
  Notation g := (e_graph E).
  Notation nodes := (g_nodes g).
  Variable labs : list P.
  Notation plan := (plan (N := N) (P := P)).
  Notation objects := (objects (N := N) (P := P) (V := V) (L := L)).

  (** ** Specification *)

  (** An edge between two districts of the plan. *)
  Definition cut_in (x : plan) (e : N * N) : Prop := In e (g_edges g) /\ forall p, ~ (In (fst e, Some p) x /\ In (snd e, Some p) x).
  (** The draws to come are listed after the last number drawn.  One number
      serves a step: divided by [M] it chooses the move, and the rest over [M]
      is the value of random.random(). *)
  Variable M : nat.
  Definition slow_step (a : nat) (w : objects) : res nat * objects :=
    match snd w with
    | _ :: d :: r => let '(b, h) := slow_reversible_propose E (d / M) a (fst w) in (b, (h, d :: r))
    | _ => (NoFuel, w)
    end.
  Definition cut_accept (b : nat) (w : objects) : res pyval * objects :=
    match snd w with
    | d :: _ => let '(v, h) := cut_edge_accept E (Qn (d mod M) / Qn M) b (fst w) in
                (match v with Ok t => Ok (PBool t) | Err e => Err e | NoFuel => NoFuel end, (h, snd w))
    | [] => (NoFuel, w)
    end.
  (** Constraints do not touch the links between plans. *)
  Variable cs : list (constraint nat objects).
  Variable passes : constraint nat objects -> plan -> bool.
  Definition links : Prop := forall c a h ds b o, In c cs -> session E h -> nth_error h b = Some o ->
    exists o', nth_error (fst (snd (c a (h, ds)))) b = Some o' /\ o_parent o' = o_parent o.
  Notation allowed := (allowed cs passes).
  Variable body : nat -> objects -> objects.
  Definition metro_shows (D : nat) (A : list plan -> Prop) (ch : chain nat objects) (h : heap N P V L) (k n : nat) (ds : list nat) : Prop :=
    List.length ds = n /\ Forall (fun d => d < D * M) ds /\
    exists ys en ch' w', for_loop slow_step cut_accept erase_link k (S n) body ch (h, 0 :: ds) = (ys, en, ch', w') /\ List.length ys = k /\ A (map (read E) ys).
  Definition most_metro (D : nat) (A : list plan -> Prop) (ch : chain nat objects) (h : heap N P V L) (k : nat) (p : Q) : Prop :=
    forall eps, (0 < eps)%Q -> exists n0, forall n, n0 <= n -> exists c, numbers (metro_shows D A ch h k n) c /\ (p - eps <= Qn c / Qn ((D * M) ^ n))%Q.
  (** [M] is a common multiple of the numbers [c] of cut edges. *)
  Definition resolved (plans : list plan) (c : plan -> nat) : Prop := 0 < M /\ forall x, In x plans -> numbers (cut_in x) (c x) /\ exists t, M = t * c x.
  (** The share of a plan with [w] allowed moves and [c] cut edges. *)
  Definition ratio (plans : list plan) (w c : plan -> nat) (y : plan) : Q := ((Qn (w y) / Qn (c y)) / qsum plans (fun x => Qn (w x) / Qn (c x)))%Q.

  (** ** One attempt *)
  Hypothesis WG : wf_graph g.
  Hypothesis Hu : dget (e_updaters E) "cut_edges"%string = Some UCutEdges.
  Lemma cuts_count h a x s k : is_plan E labs h a x -> (exists o, nth_error h a = Some o /\ NoDup s /\ forall e, In e s <-> cut_edge g (o_assign o) e) -> numbers (cut_in x) k -> List.length s = k.
  Proof.
    intros (S & o' & Ho' & Ll & Hx) (o & Ho & NDs & Is) (l & Nl & Il & <-). rewrite Ho in Ho'. injection Ho' as <-. pose proof (session_coherent E h a o S Ho) as C.
    assert (In_plan : forall m q, In (m, Some q) x <-> In m nodes /\ district (o_assign o) m = Some q).
    { intros m q. rewrite <- Hx. unfold plan_of. rewrite in_map_iff. split; [intros (m' & [= -> Hd] & Hi); auto|intros [Hi Hd]; exists m; rewrite Hd; auto]. }
    assert (Df : forall u v, In u nodes -> In v nodes -> ((forall p, ~ (In (u, Some p) x /\ In (v, Some p) x)) <-> district (o_assign o) u <> district (o_assign o) v)).
    { intros u v Hu' Hv. split.
      - intros H Eq. assert (Du : exists p, district (o_assign o) u = Some p) by (eapply has_district; eassumption). destruct Du as (p & Du). apply (H p). rewrite !In_plan. rewrite <- Eq. auto.
      - intros H p [A1 A2]. apply In_plan in A1, A2. destruct A1, A2. congruence. }
    set (or := fun e : N * N => if leb (fst e) (snd e) then e else (snd e, fst e)).
    assert (Ends : forall e, In e (g_edges g) -> In (fst e) nodes /\ In (snd e) nodes) by (intros [u v] He; now apply (wfg_ends _ WG)).
    assert (Nm : NoDup (map or l)).
    { apply NoDup_map_in; [exact Nl|]. intros [u v] [u' v'] H1 H2 Eq. apply Il in H1, H2. destruct H1 as [H1 _], H2 as [H2 _]. unfold or in Eq. cbn [fst snd] in Eq.
      destruct (leb u v), (leb u' v'); injection Eq; intros; subst; auto; [pose proof (wfg_once _ WG _ _ H1 H2)|pose proof (wfg_once _ WG _ _ H1 H2)]; now subst. }
    rewrite <- (map_length or l). apply Nat.le_antisymm; apply NoDup_incl_length; auto.
    - intros [u v] He. apply Is in He. destruct He as (Hl & Ha & Hd). cbn [fst snd] in *. apply in_map_iff. destruct Ha as [Ha|Ha]; [exists (u, v)|exists (v, u)].
      + split; [unfold or; cbn [fst snd]; now rewrite Hl|]. apply Il. split; [exact Ha|]. cbn [fst snd]. destruct (Ends _ Ha). now apply Df.
      + split.
        * unfold or. cbn [fst snd]. destruct (leb v u) eqn:El; [|reflexivity]. rewrite (leb_antisym _ _ Hl El). reflexivity.
        * apply Il. split; [exact Ha|]. cbn [fst snd]. destruct (Ends _ Ha). apply Df; auto.
    - intros e He. apply in_map_iff in He. destruct He as ([u v] & <- & He). apply Il in He. destruct He as [Ha Hd]. cbn [fst snd] in Hd. destruct (Ends _ Ha) as [H1 H2]. cbn [fst snd] in H1, H2. apply Df in Hd; auto. apply Is. unfold or, cut_edge. cbn [fst snd].
      destruct (leb u v) eqn:El; cbn [fst snd]; [split; [exact El|split; [now left|exact Hd]]|]. destruct (leb_total u v) as [X|X]; [congruence|]. split; [exact X|]. split; [now right|auto].
  Qed.
  Variable plans : list plan.
  Hypothesis J : steady E labs cs passes.
  Hypothesis Lk : links.
  Hypothesis Hb : calm E body.
  Hypothesis Co : slow_component E labs cs passes plans.
  Variable D : nat.
  Hypothesis Fa : fair E plans D.
  Hypothesis NL : NoDup labs.
  Variable c : plan -> nat.
  Hypothesis Rs : resolved plans c.

  Lemma loop_links l : incl l cs -> forall a h x ds b o, is_plan E labs h a x -> nth_error h b = Some o ->
    exists o', nth_error (fst (snd (fst (validate_loop l a (h, ds))))) b = Some o' /\ o_parent o' = o_parent o.
  Proof.
    induction l as [|k l IH]; intros I a h x ds b o Hp Ho; cbn [validate_loop]; [cbn [fst snd]; eauto|].
    destruct (J k a h x (I k (or_introl eq_refl)) Hp) as (h' & Kp & Ec). pose proof (Lk k a h ds b o (I k (or_introl eq_refl)) (proj1 Hp) Ho) as (o1 & H1 & P1). rewrite Ec in *. cbn [fst snd] in H1. unfold verdict. cbn [coerce].
    destruct (passes k x); [|cbn [fst snd]; eauto]. destruct (IH (fun y Hy => I y (or_intror Hy)) a h' x ds b o1 (plan_keeps E labs h h' a x Hp Kp) H1) as (o2 & H2 & P2). exists o2. split; [exact H2|congruence].
  Qed.
  Lemma erase_other (h : heap N P V L) a b : a <> b -> nth_error (erase a h) b = nth_error h b.
  Proof.
    unfold erase. revert a b. induction h as [|o h IH]; intros [|a] [|b] Hab; cbn [set_nth nth_error]; try reflexivity; try contradiction. apply IH. congruence.
  Qed.
  Lemma attempt h a x : is_plan E labs h a x -> In x plans ->
    exists mv, NoDup mv /\ (forall nq, In nq mv <-> edge_move E x nq) /\ mv <> [] /\
      forall i, exists nq, choice i mv = Ok nq /\
        exists b h1 h2 h3, slow_reversible_propose E i a h = (Ok b, h1) /\
          (forall r, validator (Reusable cs) b (erase a h1, r) = (Ok (mem (place (fst nq) (snd nq) x) plans), (h2, r), Reusable cs)) /\
          keeps E h h2 /\ is_plan E labs h2 b (place (fst nq) (snd nq) x) /\
          (In (place (fst nq) (snd nq) x) plans -> keeps E h2 h3 /\ forall j, j < M -> cut_edge_accept E (Qn j / Qn M) b h2 = (Ok (Nat.ltb (j * c (place (fst nq) (snd nq) x)) (M * c x)), h3)).
  Proof.
    intros Hp Hx. pose proof Hp as (S & o & Ho & Ll & Ex). pose proof (session_coherent E h a o S Ho) as C. destruct (cuts_ok E h a o S Ho Hu) as (s & h0 & Hc & NDs & Sp & S1 & K1).
    destruct (reversible_spec E h a o S Ho s Sp) as (mv & Hm & NDm & Im). exists mv. split; [exact NDm|].
    destruct (moves_plan E labs body WG h a x Hu Hp) as (mv' & NDm' & Im' & Fm). 
    assert (Ed : forall nq, In nq mv <-> edge_move E x nq).
    { intros [n q]. rewrite Im. unfold boundary_move, edge_move. cbn [fst snd].
      assert (In_plan : forall m q, In (m, Some q) x <-> In m nodes /\ district (o_assign o) m = Some q).
      { intros m q'. rewrite <- Ex. unfold plan_of. rewrite in_map_iff. split; [intros (m' & [= -> Hd] & Hi); auto|intros [Hi Hd]; exists m; rewrite Hd; auto]. }
      split; intros (m & Ha & Hq & Hn); exists m; (split; [exact Ha|]); assert (Hnm : In n nodes /\ In m nodes) by (destruct Ha as [Ha|Ha]; apply (wfg_ends _ WG) in Ha; tauto).
      - split; [apply In_plan; tauto|]. rewrite In_plan. tauto.
      - rewrite In_plan in Hq, Hn. tauto. }
    split; [exact Ed|].
    assert (Hne : mv <> []).
    { intro E0. destruct (moves_length E labs cs passes WG plans Co D Fa NL x Hx) as (t & _ & Hne & _). apply Hne. destruct (moves_of E labs x) as [|m l] eqn:Em; [reflexivity|]. pose proof Co as (_ & H1 & _).
      assert (Hi : edge_move E x m) by (apply (moves_of_iff E labs WG x m); [now apply H1|rewrite Em; now left]). apply Ed in Hi. rewrite E0 in Hi. destruct Hi. }
    split; [exact Hne|]. intro i. destruct (choice_ok i mv Hne) as ([n q] & Hd & Hi). exists (n, q). split; [exact Hd|]. cbn [fst snd].
    pose proof (proj1 (Im n q) Hi) as Bm. assert (Ln : In n nodes /\ In q labs).
    { destruct Bm as (m & Ha & Hq & _). split; [destruct Ha as [Ha|Ha]; apply (wfg_ends _ WG) in Ha; tauto|]. rewrite <- Ll. eapply district_node; [exact C|exact Hq]. }
    destruct (K1 a o Ho) as (o1 & H1 & E1 & _).
    destruct (flip_ok E h0 a o1 [(n, q)] S1 H1) as (o' & F1 & F2 & F3 & F4 & F5 & F6 & F7).
    { repeat constructor. intros []. }
    { intros m p Hp'. cbn [dget] in Hp'. destruct (eqb_spec m n) as [->|]; [|discriminate]. injection Hp' as <-. rewrite E1, Ll. exact Ln. }
    set (b := List.length h0) in *. set (h1 := h0 ++ [o']) in *.
    assert (Hs : slow_reversible_propose E i a h = (Ok b, h1)).
    { unfold slow_reversible_propose. rewrite (get_bind h a o) by exact Ho. rewrite (bindM_ok _ _ _ _ _ Hc), Hm, lift_bind, Hd, lift_bind. exact F1. }
    assert (Kp1 : keeps E h h1).
    { split; [exact F6|]. intros b' o2 Hb'. destruct (K1 b' o2 Hb') as (o3 & H3 & E3 & _). exists o3. split; [|exact E3]. unfold h1. rewrite nth_error_app1; [exact H3|]. apply nth_error_Some. congruence. }
    assert (P1 : is_plan E labs h1 b (place n q x)).
    { split; [exact F6|]. exists o'. split; [exact F7|]. split; [rewrite <- Ll, <- E1; eapply flip_labels; [|exact F4]; repeat constructor; intros []|].
      rewrite <- Ex. unfold plan_of, place. rewrite map_map. apply map_ext. intro m. cbn [fst]. rewrite F5, E1. cbn [dget]. destruct (eqb_spec m n) as [->|]; reflexivity. }
    assert (Kp2 := erase_keeps E h1 a (proj1 Kp1)). assert (Pe := plan_keeps E labs _ _ _ _ P1 Kp2).
    destruct (steady_all E labs cs passes b (erase a h1) _ J Pe) as (h2 & Kp3 & Ev).
    assert (Kh : keeps E h h2) by (apply keeps_trans with h1; [exact Kp1|now apply keeps_trans with (erase a h1)]). assert (P2 := plan_keeps E labs _ _ _ _ Pe Kp3).
    assert (Hab : a <> b) by (assert (a < List.length h0) by (apply nth_error_Some; congruence); unfold b; lia).
    assert (Par : exists o2, nth_error h2 b = Some o2 /\ o_parent o2 = Some a).
    { assert (He : nth_error (erase a h1) b = Some o') by now rewrite erase_other. destruct (loop_links cs (incl_refl cs) b (erase a h1) _ [] b o' Pe He) as (o2 & H2 & Pp).
      specialize (Ev []). unfold validator in Ev. destruct (validate_loop cs b (erase a h1, [])) as [[r0 w0] i0]. cbn [fst snd] in H2. injection Ev as _ -> . cbn [fst] in H2. exists o2. split; [exact H2|congruence]. }
    destruct Par as (o2 & Ho2 & Pa). pose proof (proj2 Kh a o Ho) as (oa & Hoa & Ea). pose proof (proj1 Kh) as S2.
    destruct (cuts_ok E h2 a oa S2 Hoa Hu) as (sa & h3 & Hca & NDa & Spa & S3 & K3). destruct (K3 b o2 Ho2) as (o3 & Ho3 & E3 & _).
    destruct (cuts_ok E h3 b o3 S3 Ho3 Hu) as (sb & h4 & Hcb & NDb & Spb & S4 & K4).
    exists b, h1, h2, h4. split; [exact Hs|]. split.
    { intro r. rewrite Ev. pose proof (allowed_mem E labs cs passes plans Co x (n, q) Hx (proj1 (Ed (n, q)) Hi)) as Am. cbn [fst snd] in Am. now rewrite Am. }
    split; [exact Kh|]. split; [exact P2|]. intro Hy. split.
    { split; [exact S4|]. intros b' o5 Hb'. destruct (K3 b' o5 Hb') as (o6 & H6 & E6 & _). destruct (K4 b' o6 H6) as (o7 & H7 & E7 & _). exists o7. split; [exact H7|congruence]. }
    intros j Hj. destruct Rs as [M0 R1]. destruct (R1 x Hx) as (Cx & tx & Mx). destruct (R1 _ Hy) as (Cy & ty & My).
    assert (La : List.length sa = c x) by (apply (cuts_count h2 a x sa (c x)); [now apply plan_keeps with h|eauto|exact Cx]).
    assert (Lb : List.length sb = c (place n q x)) by (apply (cuts_count h2 b (place n q x) sb _ P2); [exists o2; split; [exact Ho2|split; [exact NDb|intro e; rewrite <- E3; apply Spb]]|exact Cy]).
    unfold cut_edge_accept. rewrite (get_bind h2 b o2) by exact Ho2. rewrite Pa. rewrite (bindM_ok _ _ _ _ _ Hca), (bindM_ok _ _ _ _ _ Hcb). rewrite La, Lb.
    set (kx := c x) in *. set (ky := c (place n q x)) in *. assert (Py : 0 < ky) by (destruct ky; lia).
    rewrite qdiv_ok by (fold (Qn ky); pose proof (pos_Qn _ Py); lra). rewrite lift_bind. fold (Qn kx) (Qn ky). unfold ret. f_equal. f_equal. apply eq_true_iff_eq. rewrite qlt_spec, Nat.ltb_lt.
    assert (QM := pos_Qn _ M0). assert (Qy := pos_Qn _ Py). assert (u1 : (Qn j / Qn M < 1)%Q) by (apply Qlt_shift_div_r; [exact QM|rewrite Qmult_1_l; unfold Qn; rewrite <- Zlt_Qlt; lia]).
    pose proof (qdiv_lt j kx ky M Py M0) as Lt. destruct (Qle_bool (Qn kx / Qn ky) 1) eqn:Eb.
    - rewrite Lt. lia.
    - split; [intros _|intros _; exact u1]. assert (X : ~ (Qn kx / Qn ky <= 1)%Q) by (intro X; apply Qle_bool_iff in X; congruence).
      assert (ky <= kx); [|nia]. destruct (Nat.le_gt_cases ky kx) as [|G]; [assumption|]. exfalso. apply X. apply Qle_shift_div_r; [exact Qy|]. rewrite Qmult_1_l. unfold Qn. rewrite <- Zle_Qle. lia.
  Qed.

  (** ** The chain on plans *)
  Definition prop_of (x : plan) (d : nat) : plan := proposes_of E labs x (d / M).
  Definition agree (x y : plan) (d : nat) : bool := Nat.ltb ((d mod M) * c y) (M * c x).
  Notation inside := [belongs plans].
  Notation insidep := (belongsp plans).
  Notation trailb := (trailb prop_of agree inside insidep).
  Notation cntp := (cntp prop_of agree (D * M) inside insidep).
  Fixpoint crun (k : nat) (a : nat) (h : heap N P V L) (x : plan) (A : list plan -> bool) (ds : list nat) : bool :=
    match k with
    | 0 => A [x]
    | S k' =>
      match ds with
      | [] => false
      | d :: r =>
        match slow_reversible_propose E (d / M) a h with
        | (Ok b, h1) =>
          match validator (Reusable cs) b (erase a h1, d :: r) with
          | (Ok true, (h2, _), _) =>
            match cut_edge_accept E (Qn (d mod M) / Qn M) b h2 with
            | (Ok v, h3) =>
              let s := if v then b else a in
              let h4 := fst (body s (h3, d :: r)) in
              crun k' s h4 (read E (s, (h4, r))) (fun l => A (x :: l)) r
            | _ => false
            end
          | (Ok false, (h2, _), _) => crun k a h2 x A r
          | _ => false
          end
        | _ => false
        end
      end
    end.
  Lemma trailb_S k x A d r : trailb (S k) x A (d :: r) =
    if mem (prop_of x d) plans then trailb k (if agree x (prop_of x d) d then prop_of x d else x) (fun l => A (x :: l)) r else trailb (S k) x A r.
  Proof.
    unfold P_Histogram.trailb. cbn [trail P_LongRun.cut]. unfold P_ChainLaw.outcome. rewrite valid_mem. destruct (mem (prop_of x d) plans); [|reflexivity]. destruct (trail _ _ _ _ k _ r); reflexivity.
  Qed.
  Lemma crun_count n : forall k a h x A, is_plan E labs h a x -> In x plans -> List.length (filter (crun k a h x A) (words (D * M) n)) = cntp k x A n.
  Proof.
    induction n as [|n IH]; intros k a h x A Hp Hx.
    - unfold P_Histogram.cntp. cbn [words]. destruct k; reflexivity.
    - destruct k as [|k].
      + unfold P_Histogram.cntp. f_equal. apply filter_ext. intro ds. destruct ds; reflexivity.
      + unfold P_Histogram.cntp. cbn [words]. rewrite !(filter_words _ (seq 0 (D * M)) (fun d => d)).
        destruct (attempt h a x Hp Hx) as (mv & NDm & Im & Hne & F). destruct (moves_length E labs cs passes WG plans Co D Fa NL x Hx) as (t & Dt & Hne' & _). pose proof (moves_perm E labs cs passes WG plans Co x mv Hx NDm Im NL) as Pm.
        set (G := fun nq j => let y := place (fst nq) (snd nq) x in if mem y plans then cntp k (if Nat.ltb (j * c y) (M * c x) then y else x) (fun l => A (x :: l)) n else cntp (S k) x A n).
        destruct Rs as [M0 _]. assert (Mm : forall d, d mod M < M) by (intro d; apply Nat.mod_upper_bound; lia).
        assert (E1 : forall d, List.length (filter (fun r => crun (S k) a h x A (d :: r)) (words (D * M) n)) = match choice (d / M) mv with Ok m => G m (d mod M) | _ => 0 end).
        { intro d. destruct (F (d / M)) as (nq & Hd & b & h1 & h2 & h3 & Hs & Hv & K2 & P2 & Acc). rewrite Hd. unfold G. cbn zeta. destruct (mem (place (fst nq) (snd nq) x) plans) eqn:Em.
          - apply mem_In in Em. destruct (Acc Em) as [K3 Ac]. specialize (Ac (d mod M) (Mm d)). set (v := Nat.ltb (d mod M * c (place (fst nq) (snd nq) x)) (M * c x)) in *.
            set (s := if v then b else a) in *. set (z := if v then place (fst nq) (snd nq) x else x) in *.
            assert (Ps : is_plan E labs h3 s z) by (unfold s, z; destruct v; apply plan_keeps with h2; auto; now apply plan_keeps with h).
            assert (Hz : In z plans) by (unfold z; now destruct v).
            destruct (Hb s h3 (proj1 K3)) as (h4 & K4 & Eb). pose proof (plan_keeps E labs _ _ _ _ Ps K4) as P4.
            rewrite <- (IH k s h4 z (fun l => A (x :: l)) P4 Hz). f_equal. apply filter_ext. intro r. cbn [crun]. rewrite Hs, Hv, Ac. fold s. cbn zeta. rewrite Eb. cbn [fst]. now rewrite (read_plan E labs h4 s _ r P4).
          - rewrite <- (IH (S k) a h2 x A (plan_keeps E labs _ _ _ _ Hp K2) Hx). f_equal. apply filter_ext. intro r. cbn [crun]. rewrite Hs, Hv. reflexivity. }
        assert (E2 : forall d, List.length (filter (fun r => trailb (S k) x A (d :: r)) (words (D * M) n)) = match choice (d / M) (moves_of E labs x) with Ok m => G m (d mod M) | _ => 0 end).
        { intro d. destruct (choice_ok (d / M) (moves_of E labs x) Hne') as (nq & Hd & _). rewrite Hd. unfold G, P_Histogram.cntp. cbn zeta.
          assert (Ep : prop_of x d = place (fst nq) (snd nq) x) by (unfold prop_of, proposes_of; now rewrite Hd).
          rewrite (filter_ext (fun r => trailb (S k) x A (d :: r)) (fun r => if mem (place (fst nq) (snd nq) x) plans then trailb k (if agree x (place (fst nq) (snd nq) x) d then place (fst nq) (snd nq) x else x) (fun l => A (x :: l)) r else trailb (S k) x A r)) by (intro r; rewrite trailb_S, Ep; reflexivity).
          unfold agree. now destruct (mem (place (fst nq) (snd nq) x) plans). }
        rewrite (map_ext _ _ E1), (map_ext _ _ E2).
        set (Gs := fun m => list_sum (map (G m) (seq 0 M))).
        assert (Sw : forall l : list (N * P), l <> [] -> list_sum (map (fun d => match choice (d / M) l with Ok m => G m (d mod M) | _ => 0 end) (seq 0 (D * M))) = list_sum (map (fun i => match choice i l with Ok m => Gs m | _ => 0 end) (seq 0 D))).
        { intros l Hl. rewrite (sum_product (fun i j => match choice i l with Ok m => G m j | _ => 0 end)). f_equal. apply map_ext. intro i. destruct (choice_ok i l Hl) as (m & -> & _). reflexivity. }
        rewrite !Sw by assumption. rewrite Dt at 2. rewrite (sum_cycle Gs (moves_of E labs x) 0 t Hne'). rewrite Dt. rewrite <- (Permutation_length Pm). rewrite (sum_cycle Gs mv 0 t Hne). f_equal. now apply Permutation_list_sum, Permutation_map.
  Qed.
  Lemma advance_run x k ds : In x plans -> forall n h p ch, ch_valid ch = Reusable cs -> is_plan E labs h (ch_state ch) x -> (k < ch_total ch)%Z -> List.length ds < n ->
    (exists s h3 d r z, advance slow_step cut_accept erase_link n k ch (h, p :: ds) = (Ok s, mkChain (Reusable cs) (ch_total ch) (ch_initial ch) s (Some (k + 1)%Z), (h3, d :: r)) /\
       List.length r < List.length ds /\ In z plans /\ is_plan E labs h3 s z /\
       forall j A h4, body s (h3, d :: r) = (h4, d :: r) -> keeps E h3 h4 -> crun (S j) (ch_state ch) h x A ds = crun j s h4 z (fun l => A (x :: l)) r) \/
    (exists ch' w', advance slow_step cut_accept erase_link n k ch (h, p :: ds) = (NoFuel, ch', w') /\ forall j A, crun (S j) (ch_state ch) h x A ds = false).
  Proof.
    intros Hx. destruct Rs as [M0 _]. assert (Mm : forall d, d mod M < M) by (intro d; apply Nat.mod_upper_bound; lia).
    induction ds as [|d ds IH]; intros [|n] h p ch Hv Hp Hk Hlen; cbn [List.length] in Hlen; try lia; cbn [advance].
    - right. rewrite (proj2 (Z.ltb_lt _ _) Hk). cbn. eauto.
    - rewrite (proj2 (Z.ltb_lt _ _) Hk). destruct (attempt h (ch_state ch) x Hp Hx) as (mv & _ & _ & _ & F). destruct (F (d / M)) as (nq & _ & b & h1 & h2 & h3 & Hs & Hval & K2 & P2 & Acc). clear F.
      assert (Ea : slow_step (ch_state ch) (h, p :: d :: ds) = (Ok b, (h1, d :: ds))) by (unfold slow_step; cbn [fst snd]; now rewrite Hs). rewrite Ea.
      change (erase_link (ch_state ch) (h1, d :: ds)) with (erase (ch_state ch) h1, d :: ds). rewrite Hv, Hval. destruct (mem (place (fst nq) (snd nq) x) plans) eqn:Em.
      + left. apply mem_In in Em. destruct (Acc Em) as [K3 Ac]. specialize (Ac (d mod M) (Mm d)). set (v := Nat.ltb (d mod M * c (place (fst nq) (snd nq) x)) (M * c x)) in *.
        assert (Eac : cut_accept b (h2, d :: ds) = (Ok (PBool v), (h3, d :: ds))) by (unfold cut_accept; cbn [fst snd]; now rewrite Ac). rewrite Eac. cbn [truthy].
        set (s := if v then b else ch_state ch) in *. set (z := if v then place (fst nq) (snd nq) x else x).
        assert (Ps : is_plan E labs h3 s z) by (unfold s, z; destruct v; apply plan_keeps with h2; auto; now apply plan_keeps with h).
        exists s, h3, d, ds, z. split; [reflexivity|]. split; [cbn; lia|]. split; [unfold z; now destruct v|]. split; [exact Ps|].
        intros j A h4 Eb K4. cbn [crun]. rewrite Hs, Hval, Ac. fold s. cbn zeta. rewrite Eb. cbn [fst]. now rewrite (read_plan E labs h4 s _ ds (plan_keeps E labs _ _ _ _ Ps K4)).
      + destruct (IH n h2 d (with_valid ch (Reusable cs)) eq_refl (plan_keeps E labs _ _ _ _ Hp K2) Hk ltac:(lia)) as [(s & h' & d' & r & z & Ed & Lr & Hz & Pz & Cr)|(ch' & w' & Ed & Cr)].
        * left. exists s, h', d', r, z. split; [exact Ed|]. split; [cbn; lia|]. split; [exact Hz|]. split; [exact Pz|]. intros j A h4 Eb K4. cbn [crun]. rewrite Hs, Hval. exact (Cr j A h4 Eb K4).
        * right. exists ch', w'. split; [exact Ed|]. intros j A. cbn [crun]. rewrite Hs, Hval. exact (Cr j A).
  Qed.
  Lemma loop_run k : forall n h p ch x ds z A, In x plans -> ch_valid ch = Reusable cs -> is_plan E labs h (ch_state ch) x -> ch_counter ch = Some z -> (0 < z)%Z ->
    (z + Z.of_nat k <= ch_total ch)%Z -> List.length ds < n ->
    exists ys en ch' w', loop slow_step cut_accept erase_link k n body ch (h, p :: ds) = (ys, en, ch', w') /\
      ((List.length ys = k /\ crun k (ch_state ch) h x A ds = A (x :: map (read E) ys)) \/ (List.length ys < k /\ crun k (ch_state ch) h x A ds = false)).
  Proof.
    induction k as [|k IH]; intros n h p ch x ds zc A Hx Hv Hp Hc C0 Ht Hlen.
    - do 4 eexists. split; [reflexivity|]. left. split; [reflexivity|]. destruct ds; reflexivity.
    - cbn [loop]. unfold next. rewrite Hc. replace (zc =? 0)%Z with false by lia.
      destruct (advance_run x zc ds Hx n h p ch Hv Hp ltac:(lia) Hlen) as [(s & h3 & d & r & z & Ed & Lr & Hz & Pz & Cr)|(ch' & w' & Ed & Cr)]; rewrite Ed.
      + destruct (Hb s h3 (proj1 Pz)) as (h4 & K4 & Eb). rewrite Eb.
        destruct (IH n h4 d (mkChain (Reusable cs) (ch_total ch) (ch_initial ch) s (Some (zc + 1)%Z)) z r (zc + 1)%Z (fun l => A (x :: l)) Hz eq_refl (plan_keeps E labs _ _ _ _ Pz K4) eq_refl ltac:(lia) ltac:(cbn [ch_total]; lia) ltac:(lia)) as (ys & en & ch' & w' & El & Hj).
        rewrite El. do 4 eexists. split; [reflexivity|]. rewrite (Cr k A h4 (Eb (d :: r)) K4). cbn [ch_state] in Hj. cbn [map List.length].
        assert (Rd : read E (s, (h3, d :: r)) = z) by now apply (read_plan E labs).
        destruct Hj as [[H1 H2]|[H1 H2]]; [left; split; [lia|rewrite H2]|right; split; [lia|exact H2]]. change (A (x :: z :: map (read E) ys) = A (x :: read E (s, (h3, d :: r)) :: map (read E) ys)). now rewrite Rd.
      + do 4 eexists. split; [reflexivity|]. right. split; [cbn; lia|apply Cr].
  Qed.
  Lemma metro_iff (A : list plan -> Prop) (Ab : list plan -> bool) h ch k x n : (forall l, A l <-> Ab l = true) -> In x plans ->
    ch_valid ch = Reusable cs -> is_plan E labs h (ch_initial ch) x -> (Z.of_nat k < ch_total ch)%Z ->
    numbers (metro_shows D A ch h (S k) n) (cntp k x Ab n).
  Proof.
    intros HA Hx Hv Hp Hk. destruct (Hb (ch_initial ch) h (proj1 Hp)) as (h' & Kb & Eb). pose proof (plan_keeps E labs _ _ _ _ Hp Kb) as Hp'.
    rewrite <- (crun_count n k (ch_initial ch) h' x Ab Hp' Hx). apply numbers_words. intro ds.
    assert (G : List.length ds = n -> exists ys en ch' w', for_loop slow_step cut_accept erase_link (S k) (S n) body ch (h, 0 :: ds) = (ys, en, ch', w') /\
                ((List.length ys = S k /\ crun k (ch_initial ch) h' x Ab ds = Ab (map (read E) ys)) \/ (List.length ys < S k /\ crun k (ch_initial ch) h' x Ab ds = false))).
    { intro Hlen. unfold for_loop. cbn [loop]. unfold next, iter. cbn [ch_counter]. change (0 =? 0)%Z with true. cbn [ch_state ch_valid ch_total ch_initial]. rewrite Hv, Eb.
      destruct (loop_run k (S n) h' 0 (mkChain (Reusable cs) (ch_total ch) (ch_initial ch) (ch_initial ch) (Some 1%Z)) x ds 1%Z Ab Hx eq_refl Hp' eq_refl ltac:(lia) ltac:(cbn [ch_total]; lia) ltac:(lia)) as (ys & en & ch' & w' & El & Hj).
      rewrite El. do 4 eexists. split; [reflexivity|]. cbn [ch_state] in Hj. assert (Rd : read E (ch_initial ch, (h, 0 :: ds)) = x) by now apply (read_plan E labs).
      destruct Hj as [[H1 H2]|[H1 H2]]; [left; split; [cbn; lia|rewrite H2]|right; split; [cbn; lia|exact H2]]. change (Ab (x :: map (read E) ys) = Ab (read E (ch_initial ch, (h, 0 :: ds)) :: map (read E) ys)). now rewrite Rd. }
    unfold metro_shows. split.
    - intros (Hlen & Hd & ys & en & ch' & w' & El & Hy & Ha). split; auto. destruct (G Hlen) as (ys2 & en2 & ch2 & w2 & E2 & Hg). rewrite El in E2. injection E2 as <- _ _ _. destruct Hg as [[_ Hg]|[Hg _]]; [|lia]. rewrite Hg. now apply HA.
    - intros ((Hlen & Hd) & Cr). split; auto. split; auto. destruct (G Hlen) as (ys2 & en2 & ch2 & w2 & E2 & Hg). exists ys2, en2, ch2, w2. split; auto. destruct Hg as [[Hg1 Hg]|[_ Hg]]; [|congruence]. split; [exact Hg1|]. apply HA. congruence.
  Qed.

  (** ** Balance *)
  Definition load (x : plan) : Q := (size E labs x / Qn (c x))%Q.
  Lemma c_pos x : In x plans -> 0 < c x.
  Proof. intro Hx. destruct Rs as [M0 R]. destruct (R x Hx) as (_ & t & Mt). destruct (c x); lia. Qed.
  Lemma accepted_count x y : In x plans -> In y plans -> List.length (filter (fun j => Nat.ltb (j * c y) (M * c x)) (seq 0 M)) * c y = M * Nat.min (c x) (c y).
  Proof.
    intros Hx Hy. destruct Rs as [M0 R]. destruct (R y Hy) as (_ & t & Mt). pose proof (c_pos y Hy) as Py.
    assert (Lt : t * Nat.min (c x) (c y) <= M) by (rewrite Mt; apply Nat.mul_le_mono_l; lia).
    rewrite (filter_ext_in _ (fun j => Nat.ltb j (t * Nat.min (c x) (c y)))).
    - rewrite (count_below _ _ Lt). rewrite Mt. nia.
    - intros j Hj. apply in_seq in Hj. apply eq_true_iff_eq. rewrite !Nat.ltb_lt. rewrite Mt. destruct (Nat.le_gt_cases (c x) (c y)).
      + rewrite Nat.min_l by lia. split; intro; nia.
      + rewrite Nat.min_r by lia. split; intro; nia.
  Qed.
  Lemma draws_number x y : numbers (P_ChainLaw.move_draws prop_of agree (D * M) x y)
    (List.length (filter (fun i => eqb (proposes_of E labs x i) y) (seq 0 D)) * List.length (filter (fun j => Nat.ltb (j * c y) (M * c x)) (seq 0 M))).
  Proof.
    rewrite <- (count_product (fun i => eqb (proposes_of E labs x i) y) (fun j => Nat.ltb (j * c y) (M * c x))).
    eexists. split; [apply NoDup_filter, seq_NoDup|]. split; [|reflexivity]. intro d. rewrite filter_In, in_seq, andb_true_iff, eqb_eq. unfold P_ChainLaw.move_draws, prop_of, agree. split; intros; intuition lia.
  Qed.
  Lemma old_draws x y : numbers (P_ChainLaw.move_draws (proposes_of E labs) yes D x y) (List.length (filter (fun i => eqb (proposes_of E labs x i) y) (seq 0 D))).
  Proof. apply P_Slow.draws_number. Qed.
  Lemma metro_balanced : undoable E cs passes plans -> P_ChainLaw.balanced prop_of agree (D * M) inside insidep load.
  Proof.
    intros Un x y a b Vx Vy Hxy Ha Hc. pose proof Vx as Vx'. pose proof Vy as Vy'. rewrite valid_mem in Vx, Vy. apply mem_In in Vx, Vy.
    assert (Ea := numbers_unique _ _ _ Ha (draws_number x y)). assert (Eb := numbers_unique _ _ _ Hc (draws_number y x)).
    assert (Ba : (size E labs x * Qn (List.length (filter (fun i => eqb (proposes_of E labs x i) y) (seq 0 D))) == size E labs y * Qn (List.length (filter (fun i => eqb (proposes_of E labs y i) x) (seq 0 D))))%Q).
    { apply (slow_balanced E labs cs passes WG plans Co D Fa NL Un x y); auto; apply old_draws. }
    pose proof (accepted_count x y Vx Vy) as Ca. pose proof (accepted_count y x Vy Vx) as Cb. rewrite Nat.min_comm in Cb. subst a b. unfold load.
    set (m1 := List.length (filter (fun i => eqb (proposes_of E labs x i) y) (seq 0 D))) in *. set (m2 := List.length (filter (fun i => eqb (proposes_of E labs y i) x) (seq 0 D))) in *.
    set (n1 := List.length (filter (fun j => Nat.ltb (j * c y) (M * c x)) (seq 0 M))) in *. set (n2 := List.length (filter (fun j => Nat.ltb (j * c x) (M * c y)) (seq 0 M))) in *.
    rewrite !Qn_times. pose proof (pos_Qn _ (c_pos x Vx)) as Px. pose proof (pos_Qn _ (c_pos y Vy)) as Py.
    assert (Eq : (Qn n1 * Qn (c y) == Qn n2 * Qn (c x))%Q) by (rewrite <- !Qn_times, Ca, Cb; reflexivity).
    assert (R1 : (Qn n1 / Qn (c x) == Qn n2 / Qn (c y))%Q).
    { apply (Qmult_inj_r _ _ (Qn (c x) * Qn (c y))); [intro Z; apply Qmult_integral in Z; lra|]. setoid_replace (Qn n1 / Qn (c x) * (Qn (c x) * Qn (c y)))%Q with (Qn n1 * Qn (c y))%Q by (field; lra). rewrite Eq. field. lra. }
    setoid_replace (size E labs x / Qn (c x) * (Qn m1 * Qn n1))%Q with ((size E labs x * Qn m1) * (Qn n1 / Qn (c x)))%Q by (unfold Qdiv; ring). rewrite Ba, R1. unfold Qdiv. ring.
  Qed.
  Definition goods (x : plan) : nat := good_draws E labs plans D x * M.
  Lemma goods_number x : numbers (P_ChainLaw.valid_draws prop_of (D * M) inside insidep x) (goods x).
  Proof.
    assert (T : M = List.length (filter (fun _ : nat => true) (seq 0 M))) by (rewrite <- (seq_length M 0) at 1; f_equal; induction (seq 0 M) as [|j l IH]; [reflexivity|cbn [filter]; now rewrite <- IH]).
    assert (G : goods x = List.length (filter (fun d => mem (proposes_of E labs x (d / M)) plans && true) (seq 0 (D * M)))).
    { rewrite (count_product (fun i => mem (proposes_of E labs x i) plans) (fun _ => true)). unfold goods, good_draws. now rewrite <- T. }
    rewrite G.
    eexists. split; [apply NoDup_filter, seq_NoDup|]. split; [|reflexivity]. intro d. rewrite filter_In, in_seq, andb_true_r. unfold P_ChainLaw.valid_draws. rewrite valid_mem. unfold prop_of. intuition lia.
  Qed.
  Variable w : plan -> nat.
  Hypothesis Hw : forall x, In x plans -> numbers (slow_options E cs passes x) (w x) /\ 0 < w x.
  Lemma goods_options x : In x plans -> (load x * Qn (goods x) == Qn (D * M) * (Qn (w x) / Qn (c x)))%Q.
  Proof.
    intro Hx. pose proof (good_options E labs cs passes WG plans Co D Fa NL x (w x) Hx (proj1 (Hw x Hx))) as G. unfold load, goods. rewrite !Qn_times. pose proof (pos_Qn _ (c_pos x Hx)).
    setoid_replace (size E labs x / Qn (c x) * (Qn (good_draws E labs plans D x) * Qn M))%Q with ((size E labs x * Qn (good_draws E labs plans D x)) * (Qn M / Qn (c x)))%Q by (unfold Qdiv; ring). rewrite G. unfold Qdiv. ring.
  Qed.
  Lemma metro_closed : closed prop_of (D * M) inside insidep plans.
  Proof.
    destruct (slow_closed E labs cs passes WG plans Co D Fa NL w Hw) as (Np & H1 & H2). destruct Rs as [M0 _]. split; [exact Np|]. split.
    - intros x Hx. destruct (H1 x Hx) as (Vx & d & Hd & Vd). split; [exact Vx|]. exists (d * M + 0). split; [nia|]. unfold prop_of. destruct (split_number d 0 M M0) as [-> _]. exact Vd.
    - intros x d Hx Hd Vd. rewrite valid_mem in Vd. now apply mem_In.
  Qed.
  Lemma metro_connected : connected prop_of agree (D * M) plans.
  Proof.
    intros x y Hx Hy. pose proof (slow_connected E labs cs passes WG plans Co D Fa NL x y Hx Hy) as R. destruct Rs as [M0 _]. induction R as [|b z R IH (Ha & Hz & d & Hd & Ed & _)]; [constructor|]. econstructor; [now apply IH|]. split; [exact Ha|]. split; [exact Hz|].
    exists (d * M + 0). destruct (split_number d 0 M M0) as [E1 E2]. split; [nia|]. split; [unfold prop_of; now rewrite E1|]. unfold agree. rewrite E2. apply Nat.ltb_lt. pose proof (c_pos b Ha). nia.
  Qed.
  Lemma load_pos x : In x plans -> (0 < load x)%Q.
  Proof.
    intro Hx. apply Qlt_shift_div_l; [apply pos_Qn, c_pos, Hx|]. rewrite Qmult_0_l. apply pos_Qn. destruct (moves_length E labs cs passes WG plans Co D Fa NL x Hx) as (t & _ & Hne & _). destruct (moves_of E labs x); [contradiction|cbn; lia].
  Qed.
  Lemma metro_ratio y : In y plans -> (share plans load goods y == ratio plans w c y)%Q.
  Proof.
    intro Hy. unfold share, ratio. assert (E0 : (qsum plans (fun x => load x * Qn (goods x)) == Qn (D * M) * qsum plans (fun x => Qn (w x) / Qn (c x)))%Q).
    { rewrite <- qsum_scale. apply qsum_ext. intros x Hx. now apply goods_options. }
    rewrite E0, (goods_options y Hy). destruct Rs as [M0 _]. assert (D0 : 0 < D * M) by (pose proof (proj1 Fa); nia). pose proof (pos_Qn _ D0) as Q0. unfold Qdiv at 1 4. rewrite Qinv_mult_distr.
    assert (I : (Qn (D * M) * / Qn (D * M) == 1)%Q) by (apply Qmult_inv_r; lra). set (T := (/ qsum plans (fun x => Qn (w x) / Qn (c x)))%Q). set (R := (Qn (w y) / Qn (c y))%Q).
    setoid_replace (Qn (D * M) * R * (/ Qn (D * M) * T))%Q with ((Qn (D * M) * / Qn (D * M)) * (R * T))%Q by ring. rewrite I. ring.
  Qed.
  Lemma metro_transfer (A : list plan -> Prop) (Ab : list plan -> bool) h ch x k p : (forall l, A l <-> Ab l = true) ->
    ch_valid ch = Reusable cs -> In x plans -> is_plan E labs h (ch_initial ch) x -> (Z.of_nat k < ch_total ch)%Z ->
    at_least prop_of agree (D * M) A (mkChain (Reusable inside) (ch_total ch) x x None) (S k) p -> most_metro D A ch h (S k) p.
  Proof.
    intros HA Hv Hx Hp Hk H eps He. destruct (H eps He) as (n0 & H0). exists n0. intros n Hle. destruct (H0 n Hle) as (m & Nc & B). exists m. split; [|exact B].
    assert (Ec : m = cntp k x Ab n); [|rewrite Ec; now apply metro_iff]. eapply numbers_unique; [exact Nc|]. apply numbers_words. intro ds.
    exact (shows_iff prop_of agree (D * M) inside insidep A Ab (mkChain (Reusable inside) (ch_total ch) x x None) k x n ds HA (belongs_pure plans) eq_refl eq_refl Hk).
  Qed.
End Metropolis.

Section Theorems.
  Context {N P V L : Type} {EN : EqB N} {EP : EqB P} {EL : EqB L} {ON : Ord N} {RV : CRing V}.
  Variable E : env N P V L.
  Notation g := (e_graph E).
  Notation plan := (plan (N := N) (P := P)).
  Notation objects := (objects (N := N) (P := P) (V := V) (L := L)).
  (** C128.  Averages over a long run are close to the mean in which a plan
      weighs its number of allowed moves over its number of cut edges. *)
  Theorem C128_averages labs cs passes body plans D M w c (f : plan -> Q) : setting E labs cs passes body plans D w -> links E cs -> resolved E M plans c ->
    forall eps, (0 < eps)%Q -> exists k0, forall k, k0 <= k -> forall h ch x, ch_valid ch = Reusable cs -> In x plans -> is_plan E labs h (ch_initial ch) x -> (Z.of_nat k <= ch_total ch)%Z ->
      most_metro E M body D (fun l => Qabs (average f l - qsum plans (fun y => ratio plans w c y * f y)) <= eps)%Q ch h k (1 - eps).
  Proof.
    intros (WG & Hu & NL & J & Hb & Co & Un & Fa & Hw) Lk Rs eps He.
    destruct (C125_averages (prop_of E labs M) (agree M c) (D * M) [belongs plans] (belongsp plans) plans (load E labs c) (goods E labs M plans D) f (belongs_pure plans)
      ltac:(eapply metro_closed; eassumption) ltac:(eapply metro_connected; eassumption) ltac:(eapply metro_balanced; eassumption)
      ltac:(intros x Hx; eapply load_pos; eassumption) ltac:(intros x _; apply goods_number) eps He) as (k0 & Hk).
    exists (S k0). intros [|k] Hle h ch x Vch Hx Px Tch; [lia|].
    assert (E0 : (qsum plans (fun y => ratio plans w c y * f y) == qsum plans (fun y => share plans (load E labs c) (goods E labs M plans D) y * f y))%Q).
    { apply qsum_ext. intros y Hy. assert (Eq : (share plans (load E labs c) (goods E labs M plans D) y == ratio plans w c y)%Q) by (eapply metro_ratio; eassumption). now rewrite Eq. }
    eapply (metro_transfer E labs M cs passes body WG Hu plans J Lk Hb Co D Fa NL c Rs _ (fun l => Qle_bool (Qabs (average f l - qsum plans (fun y => ratio plans w c y * f y))) eps)%Q h ch x); auto; try lia.
    - intro l. symmetry. apply Qle_bool_iff.
    - intros e He'. destruct (Hk (S k) ltac:(lia) (mkChain (Reusable [belongs plans]) (ch_total ch) x x None) eq_refl Hx Tch e He') as (n0 & Hn). exists n0. intros n Hl. destruct (Hn n Hl) as (m & (l & N1 & I1 & L1) & B). exists m. split; [|exact B]. exists l. split; [exact N1|]. split; [|exact L1].
      intro ds. rewrite I1. unfold shows. split; intros (H1 & H2 & ys & en & ch' & w' & H3 & H4 & H5); (split; [exact H1|]; split; [exact H2|]; exists ys, en, ch', w'; split; [exact H3|]; split; [exact H4|]); [rewrite E0|rewrite <- E0]; exact H5.
  Qed.
  (** C128.  In particular each plan makes up that share of a long run. *)
  Theorem C128_histogram labs cs passes body plans D M w c y : setting E labs cs passes body plans D w -> links E cs -> resolved E M plans c -> In y plans ->
    forall eps, (0 < eps)%Q -> exists k0, forall k, k0 <= k -> forall h ch x, ch_valid ch = Reusable cs -> In x plans -> is_plan E labs h (ch_initial ch) x -> (Z.of_nat k <= ch_total ch)%Z ->
      most_metro E M body D (fun l => Qabs (portion y l - ratio plans w c y) <= eps)%Q ch h k (1 - eps).
  Proof.
    intros (WG & Hu & NL & J & Hb & Co & Un & Fa & Hw) Lk Rs Hy eps He.
    destruct (C125_histogram (prop_of E labs M) (agree M c) (D * M) [belongs plans] (belongsp plans) plans (load E labs c) (goods E labs M plans D) y (belongs_pure plans)
      ltac:(eapply metro_closed; eassumption) ltac:(eapply metro_connected; eassumption) ltac:(eapply metro_balanced; eassumption)
      ltac:(intros x Hx; eapply load_pos; eassumption) ltac:(intros x _; apply goods_number) Hy eps He) as (k0 & Hk).
    exists (S k0). intros [|k] Hle h ch x Vch Hx Px Tch; [lia|].
    assert (E0 : (share plans (load E labs c) (goods E labs M plans D) y == ratio plans w c y)%Q) by (eapply metro_ratio; eassumption).
    eapply (metro_transfer E labs M cs passes body WG Hu plans J Lk Hb Co D Fa NL c Rs _ (fun l => Qle_bool (Qabs (portion y l - ratio plans w c y)) eps)%Q h ch x); auto; try lia.
    - intro l. symmetry. apply Qle_bool_iff.
    - intros e He'. destruct (Hk (S k) ltac:(lia) (mkChain (Reusable [belongs plans]) (ch_total ch) x x None) eq_refl Hx Tch e He') as (n0 & Hn). exists n0. intros n Hl. destruct (Hn n Hl) as (m & (l & N1 & I1 & L1) & B). exists m. split; [|exact B]. exists l. split; [exact N1|]. split; [|exact L1].
      intro ds. rewrite I1. unfold shows. split; intros (H1 & H2 & ys & en & ch' & w' & H3 & H4 & H5); (split; [exact H1|]; split; [exact H2|]; exists ys, en, ch', w'; split; [exact H3|]; split; [exact H4|]); [rewrite <- E0|rewrite E0]; exact H5.
  Qed.
End Theorems.
Print Assumptions C128_averages.
Print Assumptions C128_histogram.

(** ** The kite: a triangle with a tail *)
(** The tail alone is a district or the tail with the node it hangs on. *)
Definition tail_2 : plan := cut_plan [1; 1; 2; 2].
Definition tail_1 : plan := cut_plan [1; 2; 2; 2].
Definition tails : list (plan (N := nat) (P := nat)) := [tail_2; tail_1].
Definition tail : constraint nat (objects (N := nat) (P := nat) (V := Z) (L := nat)) :=
  fun a w => (Ok (PBool (mem (match nth_error (fst w) a with Some o => plan_of kite (o_assign o) | None => [] end) tails)), w).
Definition tailp (k : constraint nat (objects (N := nat) (P := nat) (V := Z) (L := nat))) (x : plan) : bool := mem x tails.
Definition tail_w (x : plan (N := nat) (P := nat)) : nat := 1.
Definition tail_c (x : plan (N := nat) (P := nat)) : nat := if eqb x tail_2 then 2 else 1.
Lemma tail_complete x : In x tails -> complete kite [1; 2] x.
Proof. intro Hx. apply shaped_iff. destruct Hx as [<-|[<-|[]]]; reflexivity. Qed.
Lemma tail_moves x nq : In x tails -> edge_move kite x nq <-> In nq (moves_of kite [1; 2] x).
Proof. intro Hx. symmetry. apply moves_of_iff; [apply kite_wf|now apply tail_complete]. Qed.
Lemma tail_options x nq : In x tails -> slow_options kite [tail] tailp x nq <->
  In nq (filter (fun nq => mem (place (fst nq) (snd nq) x) tails) (moves_of kite [1; 2] x)).
Proof.
  intro Hx. rewrite filter_In, <- (tail_moves x nq Hx). unfold slow_options, P_AnyNode.allowed, tailp. cbn [forallb]. now rewrite andb_true_r.
Qed.
Lemma tail_steady : steady kite [1; 2] [tail] tailp.
Proof.
  intros k a h x [<-|[]] (S & o & Ho & _ & Hx). exists h. split; [split; [exact S|eauto]|]. intro ds. unfold tail, tailp. cbn [fst]. now rewrite Ho, Hx.
Qed.
Lemma tail_calm : calm kite (fun _ w => w).
Proof. intros a h S. exists h. split; [split; [exact S|eauto]|reflexivity]. Qed.
Lemma tail_there : slow_options kite [tail] tailp tail_2 (1, 2) /\ place 1 2 tail_2 = tail_1.
Proof. split; [apply tail_options; [cbn; auto|vm_compute; auto]|reflexivity]. Qed.
Lemma tail_back : slow_options kite [tail] tailp tail_1 (1, 1) /\ place 1 1 tail_1 = tail_2.
Proof. split; [apply tail_options; [cbn; auto|vm_compute; auto]|reflexivity]. Qed.
Lemma tail_only x nq : In x tails -> slow_options kite [tail] tailp x nq -> (x = tail_2 /\ nq = (1, 2)) \/ (x = tail_1 /\ nq = (1, 1)).
Proof.
  intros Hx Ho. apply tail_options in Ho; [|exact Hx]. destruct Hx as [<-|[<-|[]]]; vm_compute in Ho; destruct Ho as [<-|[]]; auto.
Qed.
Lemma tail_component : slow_component kite [1; 2] [tail] tailp tails.
Proof.
  split; [nodup|]. split; [intros x Hx; split; [now apply tail_complete|destruct Hx as [<-|[<-|[]]]; reflexivity]|]. split.
  - intros x nq Hx Ho. destruct (tail_only x nq Hx Ho) as [[-> ->]|[-> ->]]; cbn; auto.
  - assert (R1 : reach (fun a b => In a tails /\ exists nq, slow_options kite [tail] tailp a nq /\ b = place (fst nq) (snd nq) a) tail_2 tail_1).
    { econstructor; [constructor|]. split; [cbn; auto|]. exists (1, 2). destruct tail_there as [A B]. split; [exact A|now symmetry]. }
    assert (R2 : reach (fun a b => In a tails /\ exists nq, slow_options kite [tail] tailp a nq /\ b = place (fst nq) (snd nq) a) tail_1 tail_2).
    { econstructor; [constructor|]. split; [cbn; auto|]. exists (1, 1). destruct tail_back as [A B]. split; [exact A|now symmetry]. }
    intros x y Hx Hy. destruct Hx as [<-|[<-|[]]], Hy as [<-|[<-|[]]]; auto; constructor.
Qed.
Lemma tail_undoable : undoable kite [tail] tailp tails.
Proof.
  intros x nq Hx Ho. destruct (tail_only x nq Hx Ho) as [[-> ->]|[-> ->]]; cbn [fst snd].
  - exists (1, 1). destruct tail_there as [_ ->]. destruct tail_back as [[A _] B]. auto.
  - exists (1, 2). destruct tail_back as [_ ->]. destruct tail_there as [[A _] B]. auto.
Qed.
Lemma tail_nodup x : NoDup (moves_of kite [1; 2] x).
Proof. apply NoDup_filter, NoDup_prod; vm_compute; nodup. Qed.
Lemma tail_fair : fair kite tails 6.
Proof.
  split; [lia|]. intros x Hx. destruct Hx as [<-|[<-|[]]].
  - exists 3, 2. split; [|reflexivity]. exists (moves_of kite [1; 2] tail_2). split; [apply tail_nodup|]. split; [intro nq; symmetry; apply tail_moves; cbn; auto|vm_compute; reflexivity].
  - exists 2, 3. split; [|reflexivity]. exists (moves_of kite [1; 2] tail_1). split; [apply tail_nodup|]. split; [intro nq; symmetry; apply tail_moves; cbn; auto|vm_compute; reflexivity].
Qed.
Lemma tail_setting : setting kite [1; 2] [tail] tailp (fun _ w => w) tails 6 tail_w.
Proof.
  split; [apply kite_wf|]. split; [reflexivity|]. split; [nodup|]. split; [apply tail_steady|]. split; [apply tail_calm|]. split; [apply tail_component|]. split; [apply tail_undoable|]. split; [apply tail_fair|].
  intros x Hx. split; [|unfold tail_w; lia]. exists (filter (fun nq => mem (place (fst nq) (snd nq) x) tails) (moves_of kite [1; 2] x)).
  split; [apply NoDup_filter, tail_nodup|]. split; [intro nq; symmetry; now apply tail_options|]. destruct Hx as [<-|[<-|[]]]; vm_compute; reflexivity.
Qed.
Lemma tail_links : links kite [tail].
Proof. intros k a h ds b o [<-|[]] _ Ho. exists o. auto. Qed.
Lemma tail_resolved : resolved kite 2 tails tail_c.
Proof.
  split; [lia|]. intros x Hx. split.
  - exists (filter (fun e => negb (existsb (fun p => mem (fst e, Some p) x && mem (snd e, Some p) x) [1; 2])) (g_edges (e_graph kite))). split; [apply NoDup_filter, kite_wf|]. split; [|destruct Hx as [<-|[<-|[]]]; vm_compute; reflexivity].
    intro e. rewrite filter_In, negb_true_iff. unfold cut_in. split; intros [H1 H2]; (split; [exact H1|]).
    + intros p [A B]. assert (X : existsb (fun p => mem (fst e, Some p) x && mem (snd e, Some p) x) [1; 2] = true); [|congruence]. apply existsb_exists. exists p. split; [|rewrite andb_true_iff, !mem_In; auto].
      destruct (proj2 (tail_complete x Hx) _ _ A) as (q & [= ->] & Hq). exact Hq.
    + destruct (existsb _ _) eqn:Ex; [|reflexivity]. apply existsb_exists in Ex. destruct Ex as (p & _ & Hp). apply andb_true_iff in Hp. rewrite !mem_In in Hp. exfalso. exact (H2 p Hp).
  - destruct Hx as [<-|[<-|[]]]; [exists 1|exists 2]; reflexivity.
Qed.
Definition tail_runs (A : list (plan (N := nat) (P := nat)) -> Prop) (k : nat) (p : Q) : Prop :=
  most_metro kite 2 (fun _ w => w) 6 A (mkChain (Reusable [tail]) (Z.of_nat k) 0 0 None) (kite_at kite_1) k p.
Lemma tail_start : is_plan kite [1; 2] (kite_at kite_1) 0 tail_2.
Proof. split; [apply kite_s1|]. eexists. split; [apply kite_o1|]. split; vm_compute; reflexivity. Qed.
Lemma tail_share y v : In y tails -> (ratio tails tail_w tail_c y == v)%Q -> forall eps, (0 < eps)%Q -> exists k0, forall k, k0 <= k ->
  tail_runs (fun l => Qabs (portion y l - v) <= eps)%Q k (1 - eps).
Proof.
  intros Hy Hc eps He. destruct (C128_histogram kite [1; 2] [tail] tailp (fun _ w => w) tails 6 2 tail_w tail_c y tail_setting tail_links tail_resolved Hy eps He) as (k0 & Hk).
  exists k0. intros k Hle e He'. destruct (Hk k Hle (kite_at kite_1) (mkChain (Reusable [tail]) (Z.of_nat k) 0 0 None) tail_2 eq_refl ltac:(cbn; auto) tail_start ltac:(cbn; lia) e He') as (n0 & Hn).
  exists n0. intros n Hl. destruct (Hn n Hl) as (m & (l & N1 & I1 & L1) & B). exists m. split; [|exact B]. exists l. split; [exact N1|]. split; [|exact L1]. intro ds. rewrite I1. unfold metro_shows.
  split; intros (H1 & H2 & ys & en & ch' & w' & H3 & H4 & H5); (split; [exact H1|]; split; [exact H2|]; exists ys, en, ch', w'; split; [exact H3|]; split; [exact H4|]); [rewrite <- Hc|rewrite Hc]; exact H5.
Qed.
(** The plan with one cut edge is two thirds of a long run, the plan with two
    cut edges one third. *)
Example C128_nonvacuous : forall eps, (0 < eps)%Q -> exists k0, forall k, k0 <= k ->
  tail_runs (fun l => Qabs (portion tail_1 l - (2 # 3)) <= eps)%Q k (1 - eps) /\ tail_runs (fun l => Qabs (portion tail_2 l - (1 # 3)) <= eps)%Q k (1 - eps).
Proof.
  intros eps He. destruct (tail_share tail_1 (2 # 3)%Q ltac:(cbn; auto) ltac:(vm_compute; reflexivity) eps He) as (k1 & H1). destruct (tail_share tail_2 (1 # 3)%Q ltac:(cbn; auto) ltac:(vm_compute; reflexivity) eps He) as (k2 & H2).
  exists (Nat.max k1 k2). intros k Hle. split; [apply H1|apply H2]; lia.
Qed.
(** C128.  slow_reversible_propose with cut_edge_accept does not sample the
    allowed plans uniformly: here are two of them, and the share of one does not
    come near 1/2. *)
Theorem C128_uniform_refuted : exists (E : env nat nat Z nat) labs cs passes plans D M w c h x y,
  setting E labs cs passes (fun _ w => w) plans D w /\ links E cs /\ resolved E M plans c /\ is_plan E labs h 0 x /\ In x plans /\ In y plans /\
  ~ (forall eps, (0 < eps)%Q -> exists k0, forall k, k0 <= k ->
      most_metro E M (fun _ w => w) D (fun l => Qabs (portion y l - 1 / Qn (List.length plans)) <= eps)%Q (mkChain (Reusable cs) (Z.of_nat k) 0 0 None) h k (1 - eps)).
Proof.
  exists kite, [1; 2], [tail], tailp, tails, 6, 2, tail_w, tail_c, (kite_at kite_1), tail_2, tail_2. split; [apply tail_setting|]. split; [apply tail_links|]. split; [apply tail_resolved|]. split; [apply tail_start|]. split; [cbn; auto|]. split; [cbn; auto|].
  intro H. destruct (H (1 # 50)%Q eq_refl) as (k1 & H1). destruct (tail_share tail_2 (1 # 3)%Q ltac:(cbn; auto) ltac:(vm_compute; reflexivity) (1 # 50)%Q eq_refl) as (k2 & H2).
  specialize (H1 (Nat.max k1 k2) ltac:(lia) (1 # 50)%Q eq_refl). specialize (H2 (Nat.max k1 k2) ltac:(lia) (1 # 50)%Q eq_refl). destruct H1 as (n1 & H1). destruct H2 as (n2 & H2).
  destruct (H1 (Nat.max n1 n2) ltac:(lia)) as (a & (la & Na & Ia & <-) & Ba). destruct (H2 (Nat.max n1 n2) ltac:(lia)) as (b & (lb & Nb & Ib & <-) & Bb). set (n := Nat.max n1 n2) in *. change (6 * 2) with 12 in *.
  assert (U : List.length (la ++ lb) <= List.length (words 12 n)).
  { apply NoDup_incl_length.
    - apply NoDup_app_iff. split; [exact Na|]. split; [exact Nb|]. intros ds Hda Hdb. apply Ia in Hda. apply Ib in Hdb. destruct Hda as (_ & _ & ys & en & ch' & w' & E1 & _ & A1). destruct Hdb as (_ & _ & ys2 & en2 & ch2 & w2 & E2 & _ & A2).
      rewrite E1 in E2. injection E2 as <- _ _ _. change (1 / Qn (List.length tails))%Q with (1 # 2)%Q in A1. apply Qabs_Qle_condition in A1, A2. lra.
    - intros ds Hd. apply in_app_or in Hd. apply In_words. destruct Hd as [Hd|Hd]; [apply Ia in Hd|apply Ib in Hd]; (split; apply Hd). }
  rewrite app_length, length_words in U. assert (D0 : (0 < Qn (12 ^ n))%Q) by (apply pos_Qn, Nat.neq_0_lt_0, Nat.pow_nonzero; lia).
  assert (Us : (Qn (List.length la) / Qn (12 ^ n) + Qn (List.length lb) / Qn (12 ^ n) <= 1)%Q).
  { setoid_replace (Qn (List.length la) / Qn (12 ^ n) + Qn (List.length lb) / Qn (12 ^ n))%Q with (Qn (List.length la + List.length lb) / Qn (12 ^ n))%Q by (rewrite Qn_plus; field; lra).
    apply Qle_shift_div_r; [exact D0|]. rewrite Qmult_1_l. unfold Qn. rewrite <- Zle_Qle. lia. }
  lra.
Qed.
Print Assumptions C128_uniform_refuted.
