(** C103: Polsby-Popper scores and the constraints built on them. *)
From Coq Require Import String List Bool Arith ZArith Reals Lra Lia ZifyBool ZifyNat.
From Verif Require Import Base M_Graph M_Partition S_Partition L_Partition P_Partition M_Machine S_Machine L_Sums L_Machine L_Answers
  P_Machine M_Proposals S_Proposals P_Proposals L_Locality M_Grid P_Grid P_GridPerimeter L_Isoperimetric M_Compact.
Import ListNotations.
Local Open Scope string_scope.
Local Open Scope nat_scope.
Local Open Scope list_scope.

(** ** Specification *)

(** [s] is the score of a district with area [x] and perimeter [y]: the ratio
    of the area to the area of the disc with that perimeter, undefined for
    perimeter zero. *)
Definition score_of (x y : R) (s : num R) : Prop :=
  (y = 0%R /\ s = NaN) \/ (y <> 0%R /\ exists q, s = Num q /\ (q * (y * y) = 4 * PI * x)%R).

Section Scores.
  Context {N P V L : Type} {EN : EqB N} {EP : EqB P} {EL : EqB L} {ON : Ord N} {RV : CRing V}.
  Variable E : env N P V L.
  Variable inj : V -> R.
  Notation g := (e_graph E).
  (** The quantities behind the score of district [p]. *)
  Definition measures (A : assignment N P) (w : N -> V) (p : P) (area perim : V) : Prop :=
    sums_to w (member g A p) area /\
    exists ext int, perim = cadd ext int /\
      sums_to (e_bperim E) (fun n => In n (g_nodes g) /\ district A n = Some p /\ e_bnode E n = true) ext /\
      sums_to (e_sperim E) (cut_edge_of g A p) int.

  Lemma compute_score x y : score_of x y (compute_polsby_popper (Num x) (Num y)).
  Proof.
    unfold compute_polsby_popper, score_of. destruct (Req_EM_T (y ^ 2) 0) as [H|H].
    - left. split; [|reflexivity]. cbn in H. rewrite Rmult_1_r in H. apply Rmult_integral in H. tauto.
    - right. assert (y <> 0%R) by (intro X; apply H; rewrite X; ring). split; [assumption|]. eexists. split; [reflexivity|]. field. assumption.
  Qed.
  Lemma read_assigns (h : heap N P V L) a k : session E h ->
    session E (snd (read E a k h)) /\ map (@o_assign N P V L) (snd (read E a k h)) = map (@o_assign N P V L) h.
  Proof.
    intro HS. split; [now apply session_read|]. pose proof (session_wf E h HS) as W. destruct HS as (WE & REG & _).
    destruct (read_spec E h a k WE REG W) as (_ & Sk & _). apply (f_equal (map (@o_assign N P V L))) in Sk. rewrite !map_map in Sk. exact Sk.
  Qed.
  Section Plan.
    Variables (h : heap N P V L) (a : nat) (o : pobj N P V L) (field : string) (w : N -> V).
    Hypothesis HS : session E h.
    Hypothesis Ho : nth_error h a = Some o.
    Hypothesis Ha : dget (e_updaters E) "area" = Some (UTally [field] "area").
    Hypothesis Hp : dget (e_updaters E) "perimeter" = Some UPerimeter.
    Hypothesis Hc : In "cut_edges" (dkeys (e_updaters E)).
    Hypothesis Hw : data_is g (e_attr E field) w.
    Notation A := (o_assign o).
    Definition like (h' : heap N P V L) : Prop := session E h' /\ map (@o_assign N P V L) h' = map (@o_assign N P V L) h.
    Lemma like_at h' : like h' -> exists o', nth_error h' a = Some o' /\ o_assign o' = A.
    Proof.
      intros [_ H]. assert (X : nth_error (map (@o_assign N P V L) h') a = Some A) by (rewrite H; apply map_nth_error; exact Ho).
      rewrite nth_error_map in X. destruct (nth_error h' a) as [o'|]; [|discriminate]. injection X as X. eauto.
    Qed.
    Definition loop_ok (parts : list P) (h1 : heap N P V L) (r : res (dict P (num R)) * heap N P V L) : Prop :=
      like (snd r) /\
      (forall d, fst r = Ok d -> dkeys d = parts /\ forall p, In p parts -> exists s x y, dget d p = Some s /\ measures A w p x y /\ score_of (inj x) (inj y) s) /\
      ((forall o1, In o1 h1 -> no_empty_district g (o_assign o1)) -> exists d, fst r = Ok d).
    Lemma score_loop parts : incl parts (labels A) -> NoDup parts -> forall h1, like h1 -> loop_ok parts h1 (score_parts E inj a parts h1).
    Proof.
      induction parts as [|p parts IH]; intros Hin ND h1 L1; cbn [score_parts].
      - unfold loop_ok. split; [exact L1|]. split; [intros d [= <-]; split; [reflexivity|intros p []]|eexists; reflexivity].
      - inversion ND as [|? ? Hnp ND']; subst. destruct (like_at h1 L1) as (o1 & Ho1 & A1). destruct L1 as [S1 M1].
        destruct (read_assigns h1 a "area" S1) as [S2 M2]. unfold bindM at 1.
        assert (Spec := C10_tally E h1 a o1 "area" [field] "area" (fun _ => w)).
        assert (Tot := C10_tally_total E h1 a o1 "area" [field] "area" (fun _ => w) S1 Ho1 Ha).
        assert (Hw' : forall f, In f [field] -> data_is g (e_attr E f) w) by (intros f [<-|[]]; exact Hw). specialize (Tot Hw').
        destruct (read E a "area" h1) as [rv h2] eqn:R1. cbn [fst snd] in *. assert (L2 : like h2) by (split; [exact S2|congruence]).
        destruct rv as [v|e|]; cbn [fst snd].
        2:{ unfold loop_ok. cbn [fst snd]. split; [exact L2|]. split; [intros ? [=]|]. intro NE. destruct (Tot NE) as [v Hv]. discriminate. }
        2:{ unfold loop_ok. cbn [fst snd]. split; [exact L2|]. split; [intros ? [=]|]. intro NE. destruct (Tot NE) as [v Hv]. discriminate. }
        destruct (Spec v S1 Ho1 Ha Hw' eq_refl) as (areas & -> & NDa & Sa & Ia). cbn [as_num]. rewrite lift_bind. rewrite A1 in Sa, Ia.
        destruct (like_at h2 L2) as (o2 & Ho2 & A2).
        destruct (dget areas p) as [x|] eqn:Dx.
        2:{ unfold loop_ok. cbn. split; [exact L2|]. split; [intros ? [=]|]. intro NE. exfalso. destruct (NE o1 (nth_error_In _ _ Ho1) p) as (n & Hn & Dn); [rewrite A1; apply Hin; now left|].
            rewrite A1 in Dn. apply Ia in Dn; [|exact Hn]. apply dget_key in Dn. destruct Dn; congruence. }
        cbn [of_option]. rewrite lift_bind. destruct (Sa p x Dx) as (ar & -> & Sar).
        destruct (read_assigns h2 a "perimeter" S2) as [S3 M3].
        destruct (C13_perimeter E h2 a o2 "perimeter" S2 Ho2 Hp Hc) as (perims & Rp & Kp & Pp). rewrite A2 in Kp, Pp.
        unfold bindM at 1. destruct (read E a "perimeter" h2) as [ru h3] eqn:R2. cbn [fst snd] in *. subst ru. cbn [as_num]. rewrite lift_bind.
        destruct (Pp p (Hin p (or_introl eq_refl))) as (ext & int & Dy & Se & Si). rewrite Dy. cbn [of_option]. rewrite lift_bind.
        assert (L3 : like h3) by (split; [exact S3|rewrite M3; apply L2]).
        specialize (IH (fun q Hq => Hin q (or_intror Hq)) ND' h3 L3). unfold bindM at 1. destruct (score_parts E inj a parts h3) as [rd h4]. cbn [fst snd] in IH. unfold loop_ok in IH; cbn [fst snd] in IH.
        destruct IH as (I1 & I2 & I3). unfold loop_ok, ret. destruct rd as [d|e|]; cbn [fst snd].
        + split; [exact I1|]. destruct (I2 d eq_refl) as [Kd Sd]. split; [|intros _; eexists; reflexivity]. intros d' [= <-]. split; [change (p :: dkeys d = p :: parts); now rewrite Kd|].
          intros q [<-|Hq].
          * exists (compute_polsby_popper (as_real inj (Num ar)) (as_real inj (Num (cadd ext int)))), ar, (cadd ext int). split; [cbn [dget]; now rewrite eqb_refl|].
            split; [|cbn [as_real]; apply compute_score]. split; [|exists ext, int; auto].
            destruct Sar as (s & N1 & I4 & E4). exists s. split; [exact N1|]. split; [exact I4|]. rewrite E4. f_equal. apply map_ext. intro z. cbn [map]. unfold vsum. cbn. 
            destruct RV as [r0 r1 ra rm rs ro cr]. cbn. apply (Ring_theory.Radd_0_l cr).
          * destruct (Sd q Hq) as (s & x & y & Ds & Hm & Hs). exists s, x, y. split; [|auto]. cbn [dget]. destruct (eqb_spec q p) as [->|]; [contradiction|exact Ds].
        + split; [exact I1|]. split; [intros ? [=]|]. intro NE. destruct I3 as [d Hd]; [|discriminate].
          intros o3 H3. assert (X : In (o_assign o3) (map (@o_assign N P V L) h1)) by (rewrite M1, <- (proj2 L3); now apply in_map).
          apply in_map_iff in X. destruct X as (o4 & <- & H4). now apply NE.
        + split; [exact I1|]. split; [intros ? [=]|]. intro NE. destruct I3 as [d Hd]; [|discriminate].
          intros o3 H3. assert (X : In (o_assign o3) (map (@o_assign N P V L) h1)) by (rewrite M1, <- (proj2 L3); now apply in_map).
          apply in_map_iff in X. destruct X as (o4 & <- & H4). now apply NE.
    Qed.

    (** ** C103 *)

    (** Every district gets the score of its area and perimeter, whatever the
        history; the call succeeds if no district is empty. *)
    Theorem C103_scores : let r := polsby_popper E inj a h in
      (forall d, fst r = Ok d -> dkeys d = labels A /\
         forall p, In p (labels A) -> exists s x y, dget d p = Some s /\ measures A w p x y /\ score_of (inj x) (inj y) s) /\
      ((forall o1, In o1 h -> no_empty_district g (o_assign o1)) -> exists d, fst r = Ok d).
    Proof.
      unfold polsby_popper. rewrite (get_bind h a o) by exact Ho.
      assert (C := session_coherent E h a o HS Ho).
      destruct (score_loop (labels A) (incl_refl _) (coh_part_keys _ _ C) h (conj HS eq_refl)) as (_ & H1 & H2). split; [exact H1|exact H2].
    Qed.
  End Plan.
End Scores.

(** ** Grids *)
Section GridScores.
  Context {P L : Type} {EP : EqB P} {EL : EqB L}.
  Variables (m n : nat) (diag : bool) (given : dict string (updater cell P Z L)).
  Notation E := (grid_env m n diag given).
  Lemma ones_sum (s : list cell) : forall z, fold_left Z.add (map (fun _ => 1%Z) s) z = (z + Z.of_nat (List.length s))%Z.
  Proof. induction s as [|c s IH]; intro z; cbn [map fold_left List.length]; [lia|]. rewrite IH. lia. Qed.

  (** On a grid every district scores at most [PI / 4], with equality exactly
      for squares. *)
  Theorem C103_grid : forall h a o, 2 <= m -> 2 <= n -> session E h -> nth_error h a = Some o ->
    (forall o1, In o1 h -> no_empty_district (e_graph E) (o_assign o1)) ->
    exists d, fst (polsby_popper E IZR a h) = Ok d /\ dkeys d = labels (o_assign o) /\
      forall p, In p (labels (o_assign o)) -> exists q, dget d p = Some (Num q) /\ (0 < q <= PI / 4)%R /\
        (q = (PI / 4)%R <-> exists i0 j0 w, 0 < w /\ square_at (fun c => district (o_assign o) c = Some p) i0 j0 w).
  Proof.
    intros h a o Hm Hn HS Ho NE. set (A := o_assign o).
    assert (Hp : dget (e_updaters E) "perimeter" = Some UPerimeter) by (apply C78_updaters; left; reflexivity).
    assert (Ha : dget (e_updaters E) "area" = Some (UTally ["area"] "area")) by (apply C78_updaters; left; reflexivity).
    assert (Hc : In "cut_edges" (dkeys (e_updaters E))) by (apply dget_key; exists UCutEdges; apply C78_updaters; left; reflexivity).
    assert (Hw : data_is (e_graph E) (e_attr E "area") (fun _ => 1%Z)).
    { intros c Hin. cbn [e_attr grid_env]. unfold grid_attr. change (g_nodes (e_graph E)) with (cells m n) in Hin. apply mem_In in Hin. rewrite Hin. reflexivity. }
    destruct (C103_scores E IZR h a o "area" (fun _ => 1%Z) HS Ho Ha Hp Hc Hw) as [Sc Tot].
    destruct (Tot NE) as [d Hd]. destruct (Sc d Hd) as [Kd Sd]. exists d. split; [exact Hd|]. split; [exact Kd|]. intros p Lp.
    destruct (Sd p Lp) as (s & x & y & Ds & Ms & Ss). destruct Ms as ((D & ND & ID & Ex) & ext & int & Ey & Se & Si).
    destruct (C79_perimeter m n diag given h a o Hm Hn HS Ho) as (pd & Rp & _ & Pk). destruct (Pk p Lp) as (k & Dk & Hk).
    destruct (C13_perimeter E h a o "perimeter" HS Ho Hp Hc) as (pd' & Rp' & _ & Pk'). rewrite Rp in Rp'. injection Rp' as <-.
    destruct (Pk' p Lp) as (ext' & int' & Dk' & Se' & Si'). rewrite Dk in Dk'. injection Dk' as Ek.
    assert (ext' = ext) by (eapply sums_to_fun; eassumption). assert (int' = int) by (eapply sums_to_fun; eassumption). subst ext' int'. assert (Ey2 : y = Z.of_nat k) by (rewrite Ek; exact Ey). clear Ey. subst y. clear Se Si Se' Si'.
    assert (Ex' : x = Z.of_nat (List.length D)) by (rewrite Ex; unfold vsum; change (@cadd Z _) with Z.add; change (@c0 Z _) with 0%Z; rewrite ones_sum; lia). clear Ex. subst x.
    assert (Coh := session_coherent _ h a o HS Ho). fold A in Coh, ID, Hk.
    assert (ID' : forall c, In c D <-> district A c = Some p).
    { intro c. rewrite ID. unfold member. split; [tauto|]. intro H. split; [|exact H]. apply (coh_dom _ _ Coh). unfold district in H. now apply dget_Some_key in H. }
    assert (HkD : numbers (exposed D) k).
    { refine (numbers_ext _ _ k _ Hk). intro cs. unfold outline, exposed. rewrite ID'. split; intros [H1 H2]; (split; [exact H1|]); intros d0 Hd0; specialize (H2 d0 Hd0); rewrite ID' in *; exact H2. }
    assert (NED : D <> []).
    { destruct (NE o (nth_error_In _ _ Ho) p Lp) as (c & Hc0 & Dc). intro X. assert (In c D) by (apply ID'; exact Dc). rewrite X in H. destruct H. }
    assert (Iso := iso_ineq D ND k HkD). assert (LD : 0 < List.length D) by (apply Nat.neq_0_lt_0; intro X; apply length_zero_iff_nil in X; contradiction).
    assert (Hk0 : 0 < k) by nia.
    set (aR := INR (List.length D)). set (kR := INR k).
    assert (RA : IZR (Z.of_nat (List.length D)) = aR) by (symmetry; apply INR_IZR_INZ). assert (RK : IZR (Z.of_nat k) = kR) by (symmetry; apply INR_IZR_INZ).
    rewrite RA, RK in Ss. assert (K0 : (0 < kR)%R) by (now apply lt_0_INR). assert (A0 : (0 < aR)%R) by (now apply lt_0_INR).
    assert (IsoR : (16 * aR <= kR * kR)%R). { unfold aR, kR. rewrite <- mult_INR. replace 16%R with (INR 16) by (cbn; lra). rewrite <- mult_INR. now apply le_INR. }
    assert (EqR : (16 * aR = kR * kR)%R <-> 16 * List.length D = k * k).
    { unfold aR, kR. rewrite <- mult_INR. replace 16%R with (INR 16) by (cbn; lra). rewrite <- mult_INR. split; [apply INR_eq|now intros ->]. }
    destruct Ss as [[X _]|(_ & q & -> & Eq)]; [lra|]. exists q. split; [exact Ds|]. assert (PP := PI_RGT_0).
    assert (KK : (0 < kR * kR)%R) by (now apply Rmult_lt_0_compat).
    assert (Hq : q = (4 * PI * aR / (kR * kR))%R) by (rewrite <- Eq; field; lra). split; [split|].
    - rewrite Hq. apply Rdiv_lt_0_compat; [|exact KK]. apply Rmult_lt_0_compat; lra.
    - apply (Rmult_le_reg_r (kR * kR)); [exact KK|]. rewrite Eq. apply (Rmult_le_compat_l (PI / 4)) in IsoR; lra.
    - assert (Q : q = (PI / 4)%R <-> (16 * aR = kR * kR)%R).
      { split; intro H.
        - rewrite H in Eq. apply (Rmult_eq_reg_l (PI / 4)); lra.
        - rewrite Hq, <- H. field. lra. }
      rewrite Q, EqR. split.
      + intro H. destruct (iso_eq D ND NED k HkD H) as (i0 & j0 & w & Hw0 & Sq). exists i0, j0, w. split; [exact Hw0|]. intros i j. rewrite <- ID'. apply Sq.
      + intros (i0 & j0 & w & Hw0 & Sq). apply (square_eq D i0 j0 w k ND Hw0); [|exact HkD]. intros i j. rewrite ID'. apply Sq.
  Qed.
End GridScores.

(** ** Norms *)
Definition rsum (l : list R) : R := fold_right Rplus 0%R l.
Definition all_pos (l : list R) : Prop := forall x, In x l -> (0 < x)%R.
Section Norms.
  Local Open Scope R_scope.
  Lemma rsum_fold l : forall s, fold_left radd (map Num l) (Num s) = Num (s + rsum l).
  Proof. induction l as [|x l IH]; intro s; cbn; [f_equal; ring|]. rewrite IH. f_equal. unfold rsum. ring. Qed.
  Lemma recip_fold l : all_pos l -> forall s, foldM (fun s v => r <- rdiv (Num 1) v ;; Ok (radd s r)) (map Num l) (Num s) = Ok (Num (s + rsum (map (fun x => / x) l))).
  Proof.
    induction l as [|x l IH]; intros Hp s; cbn; [do 2 f_equal; ring|]. assert (0 < x) by (apply Hp; now left).
    destruct (Req_EM_T x 0); [lra|]. cbn. rewrite IH by (intros y Hy; apply Hp; now right). do 2 f_equal. unfold rsum. field. exact n.
  Qed.
  Lemma rsum_pos l : all_pos l -> l <> [] -> 0 < rsum l.
  Proof.
    intros Hp. assert (G : forall l, all_pos l -> 0 <= rsum l).
    { clear. induction l as [|x l IH]; intro Hp; cbn; [lra|]. assert (0 < x) by (apply Hp; now left). assert (0 <= rsum l) by (apply IH; intros y Hy; apply Hp; now right). unfold rsum in *. lra. }
    destruct l as [|x l]; [contradiction|]. intros _. cbn. assert (0 < x) by (apply Hp; now left). assert (0 <= rsum l) by (apply G; intros y Hy; apply Hp; now right). unfold rsum in *. lra.
  Qed.
  Lemma inv_pos l : all_pos l -> all_pos (map (fun x => / x) l).
  Proof. intros Hp y Hy. apply in_map_iff in Hy. destruct Hy as (x & <- & Hx). apply Rinv_0_lt_compat. now apply Hp. Qed.
  Lemma rsum_ge l x : all_pos l -> In x l -> x <= rsum l.
  Proof.
    induction l as [|y l IH]; intros Hp Hin; [destruct Hin|]. destruct Hin as [->|H]; cbn.
    - destruct l as [|z l]; [cbn; lra|]. assert (0 < rsum (z :: l)) by (apply rsum_pos; [intros u Hu; apply Hp; now right|discriminate]). unfold rsum in *. lra.
    - assert (0 < y) by (apply Hp; now left). specialize (IH (fun u Hu => Hp u (or_intror Hu)) H). unfold rsum in *. lra.
  Qed.
  (** (x + ...) (1/x + ...) >= n^2, from x/y + y/x >= 2. *)
  Lemma ratio_two x y : 0 < x -> 0 < y -> 2 <= x * / y + y * / x.
  Proof.
    intros Hx Hy. assert (E : x * / y + y * / x - 2 = (x - y) * (x - y) * (/ x * / y)) by (field; lra).
    assert (0 <= (x - y) * (x - y) * (/ x * / y)).
    { apply Rmult_le_pos; [apply Rle_0_sqr|]. apply Rmult_le_pos; left; now apply Rinv_0_lt_compat. }
    lra.
  Qed.
  Lemma cross_ge x l : 0 < x -> all_pos l -> 2 * INR (List.length l) <= x * rsum (map (fun y => / y) l) + / x * rsum l.
  Proof.
    intros Hx. induction l as [|y l IH]; intro Hp; [cbn; lra|]. change (List.length (y :: l)) with (S (List.length l)). rewrite S_INR. cbn [map rsum fold_right].
    fold (rsum (map (fun z => / z) l)) (rsum l). specialize (IH (fun u Hu => Hp u (or_intror Hu))).
    assert (T := ratio_two x y Hx (Hp y (or_introl eq_refl))). lra.
  Qed.
  Lemma hm_am l : all_pos l -> INR (List.length l) * INR (List.length l) <= rsum l * rsum (map (fun x => / x) l).
  Proof.
    induction l as [|x l IH]; intro Hp; [cbn; lra|]. change (List.length (x :: l)) with (S (List.length l)). rewrite S_INR. cbn [map rsum fold_right].
    fold (rsum (map (fun z => / z) l)) (rsum l). specialize (IH (fun u Hu => Hp u (or_intror Hu))).
    assert (Hx : 0 < x) by (apply Hp; now left). assert (C := cross_ge x l Hx (fun u Hu => Hp u (or_intror Hu))).
    assert (X : x * / x = 1) by (field; lra). set (r := rsum (map (fun z => / z) l)) in *. set (s := rsum l) in *. set (n := INR (List.length l)) in *.
    replace ((x + s) * (/ x + r)) with (x * / x + (x * r + / x * s) + s * r) by ring. rewrite X. replace ((n + 1) * (n + 1)) with (n * n + 2 * n + 1) by ring. lra.
  Qed.
  Lemma squares_le l : all_pos l -> rsum (map (fun x => x ^ 2) l) <= rsum l * rsum l.
  Proof.
    induction l as [|x l IH]; intro Hp; [cbn; lra|]. cbn [map rsum fold_right]. fold (rsum (map (fun x => x ^ 2) l)) (rsum l).
    assert (Hx : 0 < x) by (apply Hp; now left). specialize (IH (fun u Hu => Hp u (or_intror Hu))).
    assert (0 <= rsum l). { destruct l as [|z l]; [cbn; lra|]. left. apply rsum_pos; [intros u Hu; apply Hp; now right|discriminate]. }
    assert (0 <= x * rsum l) by (apply Rmult_le_pos; lra).
    replace ((x + rsum l) * (x + rsum l)) with (x ^ 2 + 2 * (x * rsum l) + rsum l * rsum l) by ring. lra.
  Qed.
  Lemma cauchy_step x l : 2 * x * rsum l <= INR (List.length l) * x ^ 2 + rsum (map (fun y => y ^ 2) l).
  Proof.
    induction l as [|y l IH]; [cbn; lra|]. change (List.length (y :: l)) with (S (List.length l)). rewrite S_INR. cbn [map rsum fold_right].
    fold (rsum (map (fun y => y ^ 2) l)) (rsum l). assert (Q : 0 <= (x - y) * (x - y)) by apply Rle_0_sqr.
    replace ((x - y) * (x - y)) with (x ^ 2 - 2 * x * y + y ^ 2) in Q by ring. lra.
  Qed.
  Lemma cauchy l : rsum l * rsum l <= INR (List.length l) * rsum (map (fun x => x ^ 2) l).
  Proof.
    induction l as [|x l IH]; [cbn; lra|]. change (List.length (x :: l)) with (S (List.length l)). rewrite S_INR. cbn [map rsum fold_right].
    fold (rsum (map (fun y => y ^ 2) l)) (rsum l). assert (C := cauchy_step x l).
    replace ((x + rsum l) * (x + rsum l)) with (x ^ 2 + 2 * x * rsum l + rsum l * rsum l) by ring. lra.
  Qed.
  Lemma squares_nonneg l : 0 <= rsum (map (fun x => x ^ 2) l).
  Proof. induction l as [|x l IH]; cbn; [lra|]. unfold rsum in *. assert (0 <= x * x) by apply Rle_0_sqr. cbn in *. lra. Qed.

  (** The four norms of positive scores, and how they compare: the L(-1) norm
      is the harmonic mean, at most the arithmetic mean; every single score is
      at least one over the reciprocal norm. *)
  Theorem C103_norms : forall l, all_pos l -> l <> [] ->
    let n := INR (List.length l) in
    exists recip l1 l2 lm, L1_reciprocal (map Num l) = Ok (Num recip) /\ L1_norm (map Num l) = Num l1 /\
      L2_norm (map Num l) = Num l2 /\ L_minus_1 (List.length l) (map Num l) = Ok (Num lm) /\
      recip = rsum (map (fun x => / x) l) /\ l1 = rsum l /\ l2 * l2 = rsum (map (fun x => x ^ 2) l) /\ 0 <= l2 /\
      lm * recip = n /\ 0 < lm <= l1 / n /\ l2 <= l1 <= sqrt n * l2 /\
      (forall x, In x l -> / recip <= x).
  Proof.
    intros l Hp NE n. assert (Rp := rsum_pos _ (inv_pos l Hp) ltac:(destruct l; [contradiction|discriminate])). assert (Lp := rsum_pos l Hp NE).
    assert (n0 : 0 < n) by (unfold n; apply lt_0_INR; destruct l; [contradiction|cbn; lia]).
    set (recip := rsum (map (fun x => / x) l)) in *.
    assert (E1 : L1_reciprocal (map Num l) = Ok (Num recip)) by (unfold L1_reciprocal; rewrite recip_fold by exact Hp; do 2 f_equal; unfold recip; ring).
    exists recip, (rsum l), (sqrt (rsum (map (fun x => x ^ 2) l))), (n / recip). split; [exact E1|].
    split; [unfold L1_norm; rewrite rsum_fold; f_equal; ring|]. split.
    { unfold L2_norm. rewrite map_map. replace (map (fun x : R => Num (x ^ 2)) l) with (map Num (map (fun y => y ^ 2) l)) by apply map_map. rewrite rsum_fold. do 2 f_equal. ring. }
    split. { unfold L_minus_1. rewrite E1. cbn. destruct (Req_EM_T recip 0); [lra|]. reflexivity. }
    split; [reflexivity|]. split; [reflexivity|]. split; [apply sqrt_sqrt, squares_nonneg|]. split; [apply sqrt_pos|]. split; [field; lra|]. split; [split|split].
    - apply Rdiv_lt_0_compat; assumption.
    - assert (H := hm_am l Hp). fold n recip in H. apply (Rmult_le_reg_r (n * recip)); [now apply Rmult_lt_0_compat|].
      replace (n / recip * (n * recip)) with (n * n) by (field; lra). replace (rsum l / n * (n * recip)) with (rsum l * recip) by (field; lra). exact H.
    - split.
      + rewrite <- (sqrt_square (rsum l)) by lra. apply sqrt_le_1_alt. now apply squares_le.
      + rewrite <- sqrt_mult_alt by lra. rewrite <- (sqrt_square (rsum l)) at 1 by lra. apply sqrt_le_1_alt. apply cauchy.
    - intros x Hx. assert (x0 := Hp x Hx). assert (H : / x <= recip) by (apply rsum_ge; [apply inv_pos, Hp|apply in_map_iff; eauto]).
      rewrite <- (Rinv_inv x). apply Rinv_le_contravar; [now apply Rinv_0_lt_compat|exact H].
  Qed.
  (** A score of zero raises ZeroDivisionError; otherwise a score that is NaN
      makes the norms NaN. *)
  Lemma recip_zero : forall l s, In (Num 0) l -> foldM (fun s v => r <- rdiv (Num 1) v ;; Ok (radd s r)) l s = Err ZeroDivisionError.
  Proof.
    induction l as [|v l IH]; intros s Hin; [destruct Hin|]. destruct Hin as [->|H]; cbn.
    - destruct (Req_EM_T 0 0); [reflexivity|contradiction].
    - destruct v as [x|]; cbn; [destruct (Req_EM_T x 0); [reflexivity|]|]; cbn; now apply IH.
  Qed.
  Lemma recip_nan : forall l s, ~ In (Num 0) l -> s = NaN \/ In NaN l -> foldM (fun s v => r <- rdiv (Num 1) v ;; Ok (radd s r)) l s = Ok NaN.
  Proof.
    induction l as [|v l IH]; intros s NZ [->|H]; cbn; [reflexivity|destruct H| |].
    - destruct v as [x|]; cbn; [destruct (Req_EM_T x 0); [exfalso; apply NZ; left; now f_equal|]|]; cbn; (apply IH; [intro; apply NZ; now right|now left]).
    - destruct H as [->|H]; cbn.
      + apply IH; [intro; apply NZ; now right|]. left. destruct s; reflexivity.
      + destruct v as [x|]; cbn; [destruct (Req_EM_T x 0); [exfalso; apply NZ; left; now f_equal|]|]; cbn; (apply IH; [intro; apply NZ; now right|now right]).
  Qed.
  Theorem C103_undefined : forall l n,
    (In (Num 0) l -> L1_reciprocal l = Err ZeroDivisionError /\ L_minus_1 n l = Err ZeroDivisionError) /\
    (~ In (Num 0) l -> In NaN l -> L1_reciprocal l = Ok NaN /\ L_minus_1 n l = Ok NaN).
  Proof.
    intros l n. unfold L_minus_1, L1_reciprocal. split.
    - intro H. rewrite recip_zero by exact H. auto.
    - intros H1 H2. rewrite recip_nan by auto. auto.
  Qed.
End Norms.

(** ** Constraints *)
Section Bounds.
  Local Open Scope R_scope.
  Context {X : Type}.
  Lemma upper_set f r : r <> 0 -> forall plans : list X, (forall x, In x plans -> exists v, f x = Ok v) ->
    calls upper_call f (Some (Num r)) plans = map (fun x => match f x with Ok v => Ok (le_num v (Num r)) | Err e => Err e | NoFuel => NoFuel end) plans.
  Proof.
    intros Hr plans. induction plans as [|x l IH]; intro Hok; [reflexivity|]. cbn [calls map]. destruct (Hok x (or_introl eq_refl)) as [v Ev]. rewrite Ev. unfold upper_call.
    cbn [unset]. destruct (Req_EM_T r 0); [contradiction|]. cbn. f_equal. apply IH. intros y Hy. apply Hok. now right.
  Qed.
  Lemma lower_set eps f b : b <> 0 -> forall plans : list X, (forall x, In x plans -> exists v, f x = Ok v) ->
    calls (lower_call eps) f (Some (Num b)) plans = map (fun x => match f x with Ok v => Ok (le_num (Num b) v) | Err e => Err e | NoFuel => NoFuel end) plans.
  Proof.
    intros Hr plans. induction plans as [|x l IH]; intro Hok; [reflexivity|]. cbn [calls map]. destruct (Hok x (or_introl eq_refl)) as [v Ev]. rewrite Ev. unfold lower_call.
    cbn [unset]. destruct (Req_EM_T b 0); [contradiction|]. cbn [unset]. f_equal. apply IH. intros y Hy. apply Hok. now right.
  Qed.
  Lemma le_num_iff a b : le_num (Num a) (Num b) = true <-> a <= b.
  Proof. cbn. destruct (Rle_dec a b); split; intro; try assumption; try reflexivity; try discriminate; contradiction. Qed.

  (** The verdict on the [i]-th plan the constraint is called on is whether its
      sum of reciprocal scores is at most that of the first one, and then no
      district scores below one over that bound. *)
  Theorem C103_no_worse : forall (scores : X -> list R) x0 xs,
    (forall x, In x (x0 :: xs) -> all_pos (scores x) /\ scores x <> []) ->
    let recip x := rsum (map (fun q => / q) (scores x)) in
    exists verdicts, calls upper_call (fun x => L1_reciprocal (map Num (scores x))) None (x0 :: xs) = map Ok verdicts /\
      List.length verdicts = S (List.length xs) /\
      forall i x b, nth_error (x0 :: xs) i = Some x -> nth_error verdicts i = Some b ->
        (b = true <-> recip x <= recip x0) /\ (b = true -> forall q, In q (scores x) -> / recip x0 <= q).
  Proof.
    intros scores x0 xs Hs recip. set (f := fun x => L1_reciprocal (map Num (scores x))).
    assert (Hf : forall x, In x (x0 :: xs) -> f x = Ok (Num (recip x)) /\ 0 < recip x /\ forall q, In q (scores x) -> / recip x <= q).
    { intros x Hx. destruct (Hs x Hx) as [Hp NE]. destruct (C103_norms (scores x) Hp NE) as (r & l1 & l2 & lm & E1 & _ & _ & _ & Er & _ & _ & _ & _ & _ & _ & Hq).
      fold (recip x) in Er. subst r. split; [exact E1|]. split; [|exact Hq]. apply rsum_pos; [now apply inv_pos|]. destruct (scores x); [contradiction|discriminate]. }
    destruct (Hf x0 (or_introl eq_refl)) as (E0 & P0 & _).
    exists (map (fun x => le_num (Num (recip x)) (Num (recip x0))) (x0 :: xs)). split; [|split].
    - cbn [calls]. rewrite E0. unfold upper_call at 1. cbn [unset]. cbn iota. rewrite upper_set; [|lra|intros x Hx; destruct (Hf x (or_intror Hx)) as [Ex _]; eauto].
      cbn [map]. f_equal. rewrite map_map. apply map_ext_in. intros x Hx. destruct (Hf x (or_intror Hx)) as [-> _]. reflexivity.
    - now rewrite map_length.
    - intros i x b Ix Ib. rewrite nth_error_map, Ix in Ib. injection Ib as <-. split; [apply le_num_iff|]. intros Hb q Hq. apply le_num_iff in Hb.
      destruct (Hf x (nth_error_In _ _ Ix)) as (_ & Px & Hx). apply Rle_trans with (/ recip x); [apply Rinv_le_contravar; assumption|now apply Hx].
  Qed.

  (** On plans with one number of districts the two constraints agree in one
      direction: what the reciprocal bound accepts, the bound on the harmonic
      mean accepts too, unless its bound comes out as zero and is reset. *)
  Theorem C103_implied : forall (scores : X -> list R) n eps x0 xs,
    (forall x, In x (x0 :: xs) -> all_pos (scores x) /\ List.length (scores x) = S n) -> 0 <= eps ->
    INR (S n) / rsum (map (fun q => / q) (scores x0)) <> eps ->
    let up := calls upper_call (fun x => L1_reciprocal (map Num (scores x))) None (x0 :: xs) in
    let low := calls (lower_call eps) (fun x => L_minus_1 (List.length (scores x)) (map Num (scores x))) None (x0 :: xs) in
    List.length up = List.length low /\
    forall i, nth_error up i = Some (Ok true) -> nth_error low i = Some (Ok true).
  Proof.
    intros scores n eps x0 xs Hs He Hne up low.
    set (recip := fun x => rsum (map (fun q => / q) (scores x))).
    assert (Hf : forall x, In x (x0 :: xs) -> L1_reciprocal (map Num (scores x)) = Ok (Num (recip x)) /\ 0 < recip x /\
              L_minus_1 (List.length (scores x)) (map Num (scores x)) = Ok (Num (INR (S n) / recip x))).
    { intros x Hx. destruct (Hs x Hx) as [Hp Ln]. assert (NE : scores x <> []) by (intro Z; rewrite Z in Ln; discriminate).
      destruct (C103_norms (scores x) Hp NE) as (r & l1 & l2 & lm & E1 & _ & _ & E4 & Er & _ & _ & _ & Elm & _).
      assert (Px : 0 < recip x) by (apply rsum_pos; [now apply inv_pos|]; destruct (scores x); [contradiction|discriminate]).
      fold (recip x) in Er. subst r. split; [exact E1|]. split; [exact Px|]. rewrite E4. do 2 f_equal. rewrite Ln in Elm. rewrite <- Elm. field. lra. }
    destruct (Hf x0 (or_introl eq_refl)) as (E0 & P0 & F0). fold (recip x0) in Hne. set (m0 := INR (S n) / recip x0) in *.
    assert (HU : up = map (fun x => Ok (le_num (Num (recip x)) (Num (recip x0)))) (x0 :: xs)).
    { unfold up. cbn [calls]. rewrite E0. unfold upper_call at 1. cbn [unset]. cbn iota. rewrite upper_set; [|lra|intros x Hx; destruct (Hf x (or_intror Hx)) as [Ex _]; eauto].
      cbn [map]. f_equal. apply map_ext_in. intros x Hx. destruct (Hf x (or_intror Hx)) as [-> _]. reflexivity. }
    assert (HL : low = map (fun x => Ok (le_num (Num (m0 + - eps)) (Num (INR (S n) / recip x)))) (x0 :: xs)).
    { unfold low. cbn [calls]. rewrite F0. unfold lower_call at 1. cbn [unset radd]. cbn iota. rewrite lower_set; [|lra|intros x Hx; destruct (Hf x (or_intror Hx)) as (_ & _ & Ex); eauto].
      cbn [map]. f_equal. apply map_ext_in. intros x Hx. destruct (Hf x (or_intror Hx)) as (_ & _ & ->). reflexivity. }
    rewrite HU, HL. split; [now rewrite !map_length|]. intros i Hi. rewrite nth_error_map in *. destruct (nth_error (x0 :: xs) i) as [x|] eqn:Ix; [|discriminate].
    cbn [option_map] in *. injection Hi as Hi. do 2 f_equal. apply le_num_iff. destruct (Rle_dec (recip x) (recip x0)) as [Hle|]; [|discriminate].
    destruct (Hf x (nth_error_In _ _ Ix)) as (_ & Px & _). apply Rle_trans with m0; [lra|]. unfold m0, Rdiv. apply Rmult_le_compat_l; [apply pos_INR|]. now apply Rinv_le_contravar.
  Qed.

  (** A first plan with a district of undefined score (its norm is NaN) makes
      both constraints reject every plan, that one included, for ever and
      without an error; later plans of that kind are rejected too. *)
  Theorem C103_nan : forall f eps x0 (xs : list X), (forall x, In x (x0 :: xs) -> exists v, f x = Ok v) ->
    (f x0 = Ok NaN -> calls upper_call f None (x0 :: xs) = map (fun _ => Ok false) (x0 :: xs) /\
                      calls (lower_call eps) f None (x0 :: xs) = map (fun _ => Ok false) (x0 :: xs)) /\
    (forall i x, nth_error (x0 :: xs) i = Some x -> f x = Ok NaN ->
       nth_error (calls upper_call f None (x0 :: xs)) i = Some (Ok false) /\ nth_error (calls (lower_call eps) f None (x0 :: xs)) i = Some (Ok false)).
  Proof.
    intros f eps x0 xs Hok. split.
    - intro E0. split; cbn [calls map]; rewrite E0; [unfold upper_call at 1|unfold lower_call at 1]; cbn [unset radd le_num]; cbn iota; f_equal.
      + assert (G : forall x, In x xs -> exists v, f x = Ok v) by (intros; apply Hok; now right). clear -G. induction xs as [|x l IH]; [reflexivity|]. cbn [calls map].
        destruct (G x (or_introl eq_refl)) as [v ->]. unfold upper_call at 1. cbn [unset]. f_equal; [now destruct v|apply IH; intros; apply G; now right].
      + assert (G : forall x, In x xs -> exists v, f x = Ok v) by (intros; apply Hok; now right). clear -G. induction xs as [|x l IH]; [reflexivity|]. cbn [calls map].
        destruct (G x (or_introl eq_refl)) as [v ->]. unfold lower_call at 1. cbn [unset]. f_equal; apply IH; intros; apply G; now right.
    - generalize (@None (num R)). clear -Hok. revert Hok. generalize (x0 :: xs). clear x0 xs. intros l. induction l as [|y l IH]; intros Hok b i x Ix Ex; [destruct i; discriminate|].
      cbn [calls]. destruct (upper_call b (f y)) as [u bu] eqn:Eu. destruct (lower_call eps b (f y)) as [w bw] eqn:Ew. destruct i as [|i]; cbn [nth_error] in *.
      + injection Ix as ->. rewrite Ex in Eu, Ew. cbn in Eu, Ew. injection Eu as <- _. injection Ew as <- _. split.
        * destruct (unset b); [reflexivity|]. destruct b; reflexivity.
        * destruct (unset b); [reflexivity|]. destruct b as [[r|]|]; reflexivity.
      + split; [apply (IH (fun z Hz => Hok z (or_intror Hz)) bu i x Ix Ex)|apply (IH (fun z Hz => Hok z (or_intror Hz)) bw i x Ix Ex)].
  Qed.
End Bounds.

(** The constraints are objects of the module: the bound is the score of the
    first plan they were called on in the process, not of the initial plan of
    the chain they are used in.  A second chain can have its own initial plan
    rejected. *)
Theorem C103_process_refuted :
  ~ (forall (scores : bool -> list R) (before : list bool) (x0 : bool), (forall x, all_pos (scores x) /\ scores x <> []) ->
       nth_error (calls upper_call (fun x => L1_reciprocal (map Num (scores x))) None (before ++ [x0])) (List.length before) = Some (Ok true)).
Proof.
  intro H. set (scores := fun b : bool => if b then [(/ 2)%R] else [1%R]).
  assert (HP : forall x, all_pos (scores x) /\ scores x <> []).
  { intros []; (split; [|discriminate]); intros q [<-|[]]; lra. }
  specialize (H scores [false] true HP). destruct (C103_no_worse scores false [true]) as (vs & E & Lv & Hv); [intros; apply HP|].
  cbn [app] in H. rewrite E in H. cbn [List.length] in *. rewrite nth_error_map in H. destruct (nth_error vs 1) as [b|] eqn:Eb; [|discriminate]. injection H as ->.
  destruct (Hv 1%nat true true eq_refl Eb) as [[A _] _]. specialize (A eq_refl). cbn in A. lra.
Qed.

(** ** Concrete cases *)
Example C103_scores_case : exists scores : nat -> list R, (forall x, In x [0; 1; 2] -> all_pos (scores x) /\ List.length (scores x) = 2) /\
  calls upper_call (fun x => L1_reciprocal (map Num (scores x))) None [0; 1; 2] = [Ok true; Ok true; Ok false].
Proof.
  exists (fun x => match x with 0 => [(/ 2)%R; (/ 2)%R] | 1 => [(/ 3)%R; 1%R] | _ => [(/ 5)%R; 1%R] end).
  assert (HP : forall x, In x [0; 1; 2] -> all_pos (match x with 0 => [(/ 2)%R; (/ 2)%R] | 1 => [(/ 3)%R; 1%R] | _ => [(/ 5)%R; 1%R] end)).
  { intros x [<-|[<-|[<-|[]]]] q [<-|[<-|[]]]; lra. }
  split; [intros x Hx; split; [now apply HP|]; destruct Hx as [<-|[<-|[<-|[]]]]; reflexivity|].
  set (sc := fun x => match x with 0 => [(/ 2)%R; (/ 2)%R] | 1 => [(/ 3)%R; 1%R] | _ => [(/ 5)%R; 1%R] end) in *.
  destruct (C103_no_worse sc 0 [1; 2]) as (vs & E & Lv & Hv); [intros x Hx; split; [now apply HP|]; destruct Hx as [<-|[<-|[<-|[]]]]; discriminate|].
  change (fun x : nat => L1_reciprocal (map Num (match x with 0 => [(/ 2)%R; (/ 2)%R] | 1 => [(/ 3)%R; 1%R] | _ => [(/ 5)%R; 1%R] end))) with (fun x => L1_reciprocal (map Num (sc x))).
  rewrite E. destruct vs as [|a [|b [|c [|]]]]; try discriminate.
  assert (Ha := proj1 (Hv 0 0 a eq_refl eq_refl)). assert (Hb := proj1 (Hv 1 1 b eq_refl eq_refl)). assert (Hc := proj1 (Hv 2 2 c eq_refl eq_refl)). cbn in Ha, Hb, Hc.
  replace a with true by (symmetry; apply Ha; lra). replace b with true by (symmetry; apply Hb; lra).
  destruct c; [|reflexivity]. exfalso. assert (H := proj1 Hc eq_refl). lra.
Qed.

Lemma check_occupied (g : graph cell) (h : heap cell nat Z nat) :
  forallb (fun A => forallb (fun p => existsb (fun c => match district A c with Some q => Nat.eqb q p | None => false end) (g_nodes g)) (labels A))
    (map (@o_assign cell nat Z nat) h) = true -> forall o1, In o1 h -> no_empty_district g (o_assign o1).
Proof.
  intros K o1 H1 p Hp. rewrite forallb_forall in K. specialize (K (o_assign o1) (in_map _ _ _ H1)). cbv beta in K. rewrite forallb_forall in K. specialize (K p Hp). cbv beta in K.
  apply existsb_exists in K. destruct K as (c & Hc & Ec). exists c. split; [exact Hc|]. destruct (district (o_assign o1) c) as [q|]; [|discriminate]. apply Nat.eqb_eq in Ec. now rewrite Ec.
Qed.
Lemma grid_case (h : heap cell nat Z nat) o : session grid33 h -> nth_error h 1 = Some o ->
  (forall o1, In o1 h -> no_empty_district (e_graph grid33) (o_assign o1)) ->
  exists d, fst (polsby_popper grid33 IZR 1 h) = Ok d /\ dkeys d = labels (o_assign o).
Proof.
  intros HS Ho NE. assert (L3 : 2 <= 3) by lia. destruct (C103_grid 3 3 true [] h 1 o L3 L3 HS Ho NE) as (d & Hd & Kd & _). exists d. split; [exact Hd|exact Kd].
Qed.
(** The 3x3 grid of C79 after moving one cell: every hypothesis of C103_grid
    holds. *)
Example C103_grid_case : session grid33 grid33_run /\
  (forall o1, In o1 grid33_run -> no_empty_district (e_graph grid33) (o_assign o1)) /\
  option_map (fun o => labels (o_assign o)) (nth_error grid33_run 1) = Some [0; 2; 1; 3].
Proof.
  split; [exact (proj1 C79_nonvacuous)|]. split; [apply check_occupied; vm_compute; reflexivity|vm_compute; reflexivity].
Qed.

Print Assumptions C103_scores.
Print Assumptions C103_grid.
Print Assumptions C103_norms.
Print Assumptions C103_undefined.
Print Assumptions C103_no_worse.
Print Assumptions C103_implied.
Print Assumptions C103_nan.
Print Assumptions C103_process_refuted.
