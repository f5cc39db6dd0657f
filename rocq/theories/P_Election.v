(** C19, C20, C71-C73: election results and partisan metrics. *)
From Coq Require Import String List Bool Arith ZArith QArith Qabs Lqa Lia Permutation ZifyBool ZifyNat.
From Verif Require Import Base M_Graph M_Partition M_Machine M_Election S_Election L_Order.
Import ListNotations.
Local Open Scope nat_scope.
Local Open Scope list_scope.

Section Election.
  Context {K P : Type} {EK : EqB K} {EP : EqB P}.
  Implicit Types (c o : K) (r : P).

  Lemma mapM_total {X Y} (f : X -> res Y) (h : X -> Y) l :
    (forall x, In x l -> f x = Ok (h x)) -> mapM f l = Ok (map h l).
  Proof.
    induction l as [|x l IH]; simpl; intro H; auto.
    rewrite (H x (or_introl eq_refl)). cbn [bind]. rewrite IH by auto. reflexivity.
  Qed.
  Lemma dget_map {X} (f : P -> X) l r : In r l -> dget (map (fun r => (r, f r)) l) r = Some (f r).
  Proof.
    induction l as [|x l IH]; simpl; [intros []|]. intros H. destruct (eqb_spec r x) as [->|Hn]; auto.
    apply IH. destruct H; congruence.
  Qed.
  Lemma dget_map' {X} (f : K -> X) l c : In c l -> dget (map (fun c => (c, f c)) l) c = Some (f c).
  Proof.
    induction l as [|x l IH]; simpl; [intros []|]. intros H. destruct (eqb_spec c x) as [->|Hn]; auto.
    apply IH. destruct H; congruence.
  Qed.

  Section Table.
    Variables (parties : list K) (counts : dict K (dict P Q)) (regions : list P).
    Hypothesis C : complete parties regions counts.

    Definition share c r : num Q :=
      if qlt 0 (turnout parties counts r) then Num (vote counts c r / turnout parties counts r)%Q else NaN.

    Lemma votes_in_ok c r : In c parties -> In r regions -> votes_in counts c r = Ok (vote counts c r).
    Proof.
      intros Hc Hr. destruct C as (_ & _ & H). destruct (H c Hc) as (d & Hd & Hv). destruct (Hv r Hr) as [v Hr'].
      unfold votes_in, vote. rewrite Hd. cbn [bind of_option]. now rewrite Hr'.
    Qed.

    Definition the_results : results K P :=
      mkResults parties counts regions
        (map (fun r => (r, turnout parties counts r)) regions)
        (map (fun c => (c, map (fun r => (r, share c r)) regions)) parties).

    Lemma make_results_ok : make_results parties counts regions = Ok the_results.
    Proof.
      unfold make_results.
      rewrite (mapM_total _ (fun r => (r, turnout parties counts r))).
      - cbn [bind]. rewrite (mapM_total _ (fun c => (c, map (fun r => (r, share c r)) regions))); [reflexivity|].
        intros c Hc. destruct C as (_ & _ & H). destruct (H c Hc) as (d & Hd & Hv). rewrite Hd. cbn [bind of_option].
        unfold get_percents.
        rewrite (mapM_total _ (fun rt => (fst rt, share c (fst rt)))).
        + cbn [bind]. now rewrite map_map.
        + intros [r t] Hrt. apply in_map_iff in Hrt. destruct Hrt as (r' & [= -> <-] & Hr). cbn [fst snd].
          unfold share. destruct (qlt 0 (turnout parties counts r)) eqn:E; auto.
          destruct (Hv r Hr) as [v Hr']. rewrite Hr'. cbn [bind of_option]. apply qlt_spec in E.
          rewrite qdiv_ok by lra. cbn [bind]. unfold vote. rewrite Hd, Hr'. reflexivity.
      - intros r Hr. rewrite (mapM_total _ (fun c => vote counts c r)); [reflexivity|].
        intros c Hc. now apply votes_in_ok.
    Qed.

    Variable R : results K P.
    Hypothesis HR : make_results parties counts regions = Ok R.
    Lemma R_eq : R = the_results.
    Proof. rewrite make_results_ok in HR. congruence. Qed.

    Lemma counts_ok c : In c parties -> counts_of R c = Ok (map (vote counts c) regions).
    Proof. intro Hc. rewrite R_eq. unfold counts_of. apply mapM_total. intros r Hr. now apply votes_in_ok. Qed.
    Lemma percents_ok c : In c parties -> percents R c = Ok (map (share c) regions).
    Proof.
      intro Hc. rewrite R_eq. unfold percents. simpl er_percents.
      rewrite (dget_map' (fun c => map (fun r => (r, share c r)) regions)) by auto. cbn [bind of_option].
      apply mapM_total. intros r Hr. now rewrite (dget_map (share c)).
    Qed.

    (** ** C19 *)
    Lemma beats_all_spec c r ops : In c parties -> In r regions -> incl ops parties ->
      exists b, beats_all R c r ops = Ok b /\
        (b = true <-> forall o, In o ops -> o <> c -> (vote counts o r < vote counts c r)%Q).
    Proof.
      intros Hc Hr. rewrite R_eq. induction ops as [|o ops IH]; intro I.
      - exists true. split; auto. split; auto. intros _ o [].
      - destruct IH as (b & Hb & Sp); [intros x Hx; apply I; now right|]. cbn [beats_all].
        destruct (eqb_spec o c) as [->|Hn].
        + exists b. split; auto. rewrite Sp. split; [intros H x [<-|Hx] Hne; [contradiction|auto]|].
          intros H x Hx. apply H. now right.
        + simpl er_counts in *. rewrite !votes_in_ok; auto; [|apply I; now left]. cbn [bind].
          destruct (qlt (vote counts o r) (vote counts c r)) eqn:E.
          * apply qlt_spec in E. exists b. split; auto. rewrite Sp. split.
            -- intros H x [<-|Hx] Hne; auto.
            -- intros H x Hx. apply H. now right.
          * apply qlt_false in E. exists false. split; auto. split; [discriminate|].
            intro H. specialize (H o (or_introl eq_refl) Hn). lra.
    Qed.

    (** C19. A party wins a district iff it strictly beats every other party. *)
    Theorem C19_won : forall c r, In c parties -> In r regions ->
      exists b, won R c r = Ok b /\ (b = true <-> beats_others parties counts c r).
    Proof.
      intros c r Hc Hr. destruct (beats_all_spec c r parties Hc Hr (incl_refl _)) as (b & Hb & Sp).
      exists b. split; [|exact Sp]. unfold won. rewrite R_eq in *. exact Hb.
    Qed.
    Theorem C19_at_most_one_winner : forall c1 c2 r, In c1 parties -> In c2 parties -> In r regions ->
      won R c1 r = Ok true -> won R c2 r = Ok true -> c1 = c2.
    Proof.
      intros c1 c2 r H1 H2 Hr W1 W2.
      destruct (C19_won c1 r H1 Hr) as (b1 & E1 & S1). destruct (C19_won c2 r H2 Hr) as (b2 & E2 & S2).
      assert (B1 : beats_others parties counts c1 r) by (apply S1; congruence).
      assert (B2 : beats_others parties counts c2 r) by (apply S2; congruence).
      destruct (eqb_spec c1 c2) as [|Hn]; auto. exfalso.
      specialize (B1 c2 H2 (fun e => Hn (eq_sym e))). specialize (B2 c1 H1 Hn). lra.
    Qed.
    (** C19. There is a winner iff the maximum is attained by one party only;
        in particular a tie for the maximum elects nobody. *)
    Theorem C19_winner_iff_unique_maximum : forall r, In r regions ->
      ((exists c, In c parties /\ won R c r = Ok true) <->
       exists c, In c parties /\ forall o, In o parties ->
         (vote counts o r <= vote counts c r)%Q /\ ((vote counts o r == vote counts c r)%Q -> o = c)).
    Proof.
      intros r Hr. split; intros (c & Hc & H); exists c; split; auto.
      - destruct (C19_won c r Hc Hr) as (b & E1 & S1).
        assert (B : beats_others parties counts c r) by (apply S1; congruence).
        intros o Ho. destruct (eqb_spec o c) as [->|Hn]; [split; [lra|auto]|].
        specialize (B o Ho Hn). split; [lra|]. intro. lra.
      - destruct (C19_won c r Hc Hr) as (b & E1 & S1). rewrite E1. f_equal. apply S1.
        intros o Ho Hn. destruct (H o Ho) as [H1 H2].
        apply Qle_lteq in H1. destruct H1 as [|H1]; auto. elim Hn. auto.
    Qed.
    Theorem C19_tie_elects_nobody : forall c1 c2 r, In c1 parties -> In c2 parties -> c1 <> c2 -> In r regions ->
      (vote counts c1 r == vote counts c2 r)%Q ->
      (forall o, In o parties -> (vote counts o r <= vote counts c1 r)%Q) ->
      forall c, In c parties -> won R c r = Ok false.
    Proof.
      intros c1 c2 r H1 H2 Hn Hr He Hmax c Hc. destruct (C19_won c r Hc Hr) as (b & E1 & S1). rewrite E1. f_equal.
      destruct b; auto. exfalso. assert (B : beats_others parties counts c r) by (now apply S1).
      destruct (eqb_spec c1 c) as [->|Hd].
      - specialize (B c2 H2 (fun e => Hn (eq_sym e))). lra.
      - specialize (B c1 H1 Hd). specialize (Hmax c Hc). lra.
    Qed.

    Definition winsb c r : bool := match won R c r with Ok b => b | _ => false end.
    Lemma seats_ok c : In c parties ->
      seats R c = Ok (List.length (filter (winsb c) regions)).
    Proof.
      intro Hc. unfold seats. replace (er_regions R) with regions by (now rewrite R_eq).
      assert (G : forall l acc, incl l regions ->
        foldM (fun k r => b <- won R c r ;; Ok (if b then S k else k)) l acc =
        Ok (acc + List.length (filter (winsb c) l))).
      { induction l as [|r l IH]; intros acc I; simpl; [f_equal; lia|].
        destruct (C19_won c r Hc (I r (or_introl eq_refl))) as (b & Hb & _).
        unfold winsb at 1. rewrite Hb. cbn [bind].
        rewrite IH by (intros x Hx; apply I; now right). destruct b; simpl; f_equal; lia. }
      now rewrite G by apply incl_refl.
    Qed.
    (** C19. Seats count the districts won, and over all parties there are not
        more seats than districts. *)
    Theorem C19_seats : forall c, In c parties -> exists l, seats R c = Ok (List.length l) /\ NoDup l /\
      forall r, In r l <-> In r regions /\ beats_others parties counts c r.
    Proof.
      intros c Hc. exists (filter (winsb c) regions). split; [now apply seats_ok|].
      split; [apply NoDup_filter, C|]. intro r. rewrite filter_In. unfold winsb.
      split; intros [Hr H]; split; auto; destruct (C19_won c r Hc Hr) as (b & Hb & Sp).
      - rewrite Hb in H. now apply Sp.
      - rewrite Hb. now apply Sp.
    Qed.
    Theorem C19_seats_bounded : exists ss, mapM (seats R) parties = Ok ss /\ list_sum ss <= List.length regions.
    Proof.
      exists (map (fun c => List.length (filter (winsb c) regions)) parties).
      split; [apply mapM_total; intros c Hc; now apply seats_ok|].
      assert (G : forall l, incl l regions ->
        list_sum (map (fun c => List.length (filter (winsb c) l)) parties) <= List.length l).
      { induction l as [|r l IH]; intro I.
        - simpl. assert (H : forall ps : list K, list_sum (map (fun _ => 0) ps) = 0) by (induction ps; auto).
          rewrite H. auto.
        - specialize (IH (fun x Hx => I x (or_intror Hx))).
          assert (E : forall ps, list_sum (map (fun c => List.length (filter (winsb c) (r :: l))) ps) =
                    List.length (filter (fun c => winsb c r) ps) +
                    list_sum (map (fun c => List.length (filter (winsb c) l)) ps)).
          { induction ps as [|c ps IHp]; auto. simpl in *. rewrite IHp. destruct (winsb c r); simpl; lia. }
          rewrite E.
          assert (U : List.length (filter (fun c => winsb c r) parties) <= 1).
          { assert (ND : NoDup (filter (fun c => winsb c r) parties)) by (apply NoDup_filter, C).
            destruct (filter (fun c => winsb c r) parties) as [|c1 [|c2 rest]] eqn:Ef; simpl; try lia.
            exfalso. assert (I1 : In c1 (filter (fun c => winsb c r) parties)) by (rewrite Ef; now left).
            assert (I2 : In c2 (filter (fun c => winsb c r) parties)) by (rewrite Ef; right; now left).
            apply filter_In in I1, I2. destruct I1 as [P1 W1], I2 as [P2 W2]. unfold winsb in W1, W2.
            assert (c1 = c2); [|subst; inversion ND as [|? ? Hn _]; apply Hn; now left].
            apply (C19_at_most_one_winner c1 c2 r P1 P2 (I r (or_introl eq_refl))).
            - destruct (won R c1 r) as [[|]|e|]; congruence.
            - destruct (won R c2 r) as [[|]|e|]; congruence. }
          simpl. lia. }
      apply G, incl_refl.
    Qed.

    (** ** C20 *)
    Lemma percent_ok c r : In c parties -> In r regions -> percent R c (Some r) = Ok (share c r).
    Proof.
      intros Hc Hr. rewrite R_eq. unfold percent. simpl er_percents.
      rewrite (dget_map' (fun c => map (fun r => (r, share c r)) regions)) by auto. cbn [bind of_option].
      now rewrite (dget_map (share c)).
    Qed.
    (** C20. In a district with votes the shares are votes over turnout, they
        are not negative and add up to one; without votes they are NaN. *)
    Theorem C20_shares : nonnegative parties regions counts -> forall r, In r regions ->
      (0 < turnout parties counts r)%Q ->
      exists xs, mapM (fun c => percent R c (Some r)) parties = Ok (map Num xs) /\
        Forall2 (fun c x => (x * turnout parties counts r == vote counts c r)%Q) parties xs /\
        Forall (fun x => (0 <= x <= 1)%Q) xs /\ (qsum xs == 1)%Q.
    Proof.
      intros NN r Hr Ht. set (t := turnout parties counts r) in *.
      exists (map (fun c => vote counts c r / t)%Q parties).
      assert (Sh : forall c, share c r = Num (vote counts c r / t)%Q).
      { intro c. unfold share. fold t. assert (qlt 0 t = true) as -> by (now apply qlt_spec). reflexivity. }
      split; [|split; [|split]].
      - rewrite map_map. apply mapM_total. intros c Hc. rewrite percent_ok by auto. now rewrite Sh.
      - clearbody t. clear - Ht. induction parties as [|c ps IH]; simpl; constructor; auto. field. lra.
      - apply Forall_forall. intros x Hx. apply in_map_iff in Hx. destruct Hx as (c & <- & Hc).
        assert (Hle : (vote counts c r <= t)%Q).
        { unfold t, turnout. clear - NN Hc Hr. revert NN Hc. generalize parties. intro ps.
          induction ps as [|d ps IH]; intros NN Hc; [destruct Hc|]. simpl.
          assert (Hs : (0 <= fold_right Qplus 0 (map (fun c => vote counts c r) ps))%Q).
          { apply (qsum_nonneg (map (fun c => vote counts c r) ps)). intros x Hx. apply in_map_iff in Hx.
            destruct Hx as (e & <- & He). apply NN; auto. now right. }
          destruct Hc as [->|Hc]; [lra|].
          assert (0 <= vote counts d r)%Q by (apply NN; auto; now left).
          assert (vote counts c r <= fold_right Qplus 0 (map (fun c => vote counts c r) ps))%Q; [|lra].
          apply IH; auto. intros e s He Hs'. apply NN; auto. now right. }
        specialize (NN c r Hc Hr). split; [apply le_div; lra|apply div_le; lra].
      - assert (E : (qsum (map (fun c => vote counts c r / t) parties) ==
                    / t * qsum (map (fun c => vote counts c r) parties))%Q).
        { rewrite <- qsum_map_scale. apply qsum_map_eq. intros c _. field. lra. }
        rewrite E. change (qsum (map (fun c => vote counts c r) parties)) with t. field. lra.
    Qed.
    Theorem C20_no_votes_nan : forall c r, In c parties -> In r regions ->
      (turnout parties counts r <= 0)%Q -> percent R c (Some r) = Ok NaN.
    Proof.
      intros c r Hc Hr Ht. rewrite percent_ok by auto. unfold share.
      assert (qlt 0 (turnout parties counts r) = false) as -> by (now apply qlt_false). reflexivity.
    Qed.
    Lemma total_ok c : In c parties -> percent R c None =
      (x <- qdiv (party_total regions counts c) (all_votes parties regions counts) ;; Ok (Num x)).
    Proof.
      intro Hc. unfold percent. rewrite counts_ok by auto. cbn [bind]. rewrite R_eq. simpl er_regions. simpl er_totals.
      rewrite (mapM_total _ (turnout parties counts)); [reflexivity|].
      intros r Hr. now rewrite (dget_map (turnout parties counts)).
    Qed.
    (** C20. The overall share is total votes over total turnout and lies
        between any bounds on the shares in the districts that have votes. *)
    Theorem C20_overall_share : nonnegative parties regions counts -> forall c, In c parties ->
      (0 < all_votes parties regions counts)%Q ->
      exists x, percent R c None = Ok (Num x) /\
        (x * all_votes parties regions counts == party_total regions counts c)%Q /\
        forall lo hi,
          (forall r y, In r regions -> percent R c (Some r) = Ok (Num y) -> (lo <= y <= hi)%Q) ->
          (lo <= x <= hi)%Q.
    Proof.
      intros NN c Hc Ht. rewrite total_ok by auto. rewrite qdiv_ok by lra. cbn [bind].
      eexists. split; [reflexivity|]. split; [field; lra|]. intros lo hi Hb.
      assert (D : forall r, In r regions -> (lo * turnout parties counts r <= vote counts c r)%Q /\
                    (vote counts c r <= hi * turnout parties counts r)%Q).
      { intros r Hr. assert (Tn : (0 <= turnout parties counts r)%Q).
        { apply (qsum_nonneg (map (fun c => vote counts c r) parties)). intros x Hx.
          apply in_map_iff in Hx. destruct Hx as (d & <- & Hd). now apply NN. }
        assert (Vn : (0 <= vote counts c r <= turnout parties counts r)%Q).
        { split; [now apply NN|]. unfold turnout. clear - NN Hc Hr. revert NN Hc. generalize parties. intro ps.
          induction ps as [|d ps IH]; intros NN Hc; [destruct Hc|]. simpl.
          assert (Hs : (0 <= fold_right Qplus 0 (map (fun c => vote counts c r) ps))%Q).
          { apply (qsum_nonneg (map (fun c => vote counts c r) ps)). intros x Hx. apply in_map_iff in Hx.
            destruct Hx as (e & <- & He). apply NN; auto. now right. }
          destruct Hc as [->|Hc]; [lra|].
          assert (0 <= vote counts d r)%Q by (apply NN; auto; now left).
          assert (vote counts c r <= fold_right Qplus 0 (map (fun c => vote counts c r) ps))%Q; [|lra].
          apply IH; auto. intros e s He Hs'. apply NN; auto. now right. }
        destruct (qlt 0 (turnout parties counts r)) eqn:E.
        - apply qlt_spec in E. specialize (Hb r (vote counts c r / turnout parties counts r)%Q Hr).
          rewrite percent_ok in Hb by auto. unfold share in Hb. apply qlt_spec in E. rewrite E in Hb.
          apply qlt_spec in E. destruct (Hb eq_refl) as [H1 H2]. split.
          + apply Qmult_le_r with (z := (/ turnout parties counts r)%Q); [now apply Qinv_lt_0_compat|].
            setoid_replace (lo * turnout parties counts r * / turnout parties counts r)%Q with lo by (field; lra). exact H1.
          + apply Qmult_le_r with (z := (/ turnout parties counts r)%Q); [now apply Qinv_lt_0_compat|].
            setoid_replace (hi * turnout parties counts r * / turnout parties counts r)%Q with hi by (field; lra). exact H2.
        - apply qlt_false in E. assert (E0 : (turnout parties counts r == 0)%Q) by lra.
          assert (V0 : (vote counts c r == 0)%Q) by lra. rewrite E0, V0. split; lra. }
      split.
      - apply le_div; auto. unfold all_votes, party_total.
        change (lo * qsum (map (turnout parties counts) regions) <= qsum (map (vote counts c) regions))%Q.
        rewrite <- qsum_map_scale. apply qsum_map_le. intros r Hr. now apply D.
      - apply div_le; auto. unfold all_votes, party_total.
        change (qsum (map (vote counts c) regions) <= hi * qsum (map (turnout parties counts) regions))%Q.
        rewrite <- qsum_map_scale. apply qsum_map_le. intros r Hr. now apply D.
    Qed.
    Theorem C20_no_votes_at_all : forall c, In c parties ->
      (all_votes parties regions counts == 0)%Q -> percent R c None = Err ZeroDivisionError.
    Proof. intros c Hc Ht. rewrite total_ok by auto. now rewrite qdiv_zero. Qed.
  End Table.
End Election.

(** ** Metrics *)
Lemma all_num_map l : all_num (map Num l) = Some l.
Proof. induction l as [|x l IH]; simpl; auto. now rewrite IH. Qed.
Lemma combine_map {X A B} (f : X -> A) (h : X -> B) l :
  combine (map f l) (map h l) = map (fun x => (f x, h x)) l.
Proof. induction l; simpl; congruence. Qed.
Lemma combine_seq {A B} (dA : A) (dB : B) : forall (l1 : list A) (l2 : list B),
  List.length l1 = List.length l2 ->
  combine l1 l2 = map (fun i => (nth i l1 dA, nth i l2 dB)) (seq 0 (List.length l1)).
Proof.
  induction l1 as [|a l1 IH]; destruct l2 as [|b l2]; simpl; intro H; try discriminate; auto.
  injection H as H. rewrite (IH l2 H). f_equal. rewrite <- seq_shift, map_map. reflexivity.
Qed.
Lemma list_seq {A} (d : A) (l : list A) : l = map (fun i => nth i l d) (seq 0 (List.length l)).
Proof. induction l as [|a l IH]; simpl; auto. rewrite <- seq_shift, map_map. congruence. Qed.

(** C71. The wasted votes of the two parties add up to half the votes, and
    neither is negative. *)
Theorem C71_wasted_votes : forall v1 v2, (0 <= v1)%Q -> (0 <= v2)%Q ->
  let w := wasted_votes v1 v2 in
  (fst w + snd w == (v1 + v2) / 2)%Q /\ (0 <= fst w)%Q /\ (0 <= snd w)%Q.
Proof.
  intros v1 v2 H1 H2 w. unfold w, wasted_votes.
  assert (Hd : forall x, (x / 2 == x * (1 # 2))%Q) by (intro x; field).
  destruct (qlt v2 v1) eqn:E; cbn [fst snd]; rewrite !Hd.
  - apply qlt_spec in E. split; [lra|split; lra].
  - apply qlt_false in E. split; [lra|split; lra].
Qed.

(** Pairwise reflected deviations, the terms of the Gini score. *)
Definition dev (o : Q) (s : list Q) (i : nat) : Q :=
  Qabs (2 * o - nth i s 0%Q - nth (List.length s - 1 - i) s 0%Q).
Lemma gini_eq o l : l <> [] ->
  (gini_of o l == qsum (map (dev o (isort l)) (seq 0 (List.length l)))
                  / inject_Z (Z.of_nat (List.length l)))%Q.
Proof.
  intro Hne. unfold gini_of. rewrite rev_length, isort_length.
  set (s := isort l). assert (Ls : List.length s = List.length l) by apply isort_length.
  set (sv := map (fun r : Q => (o - r + (1 # 2))%Q) (rev s)).
  assert (Lsv : List.length sv = List.length l) by (unfold sv; rewrite map_length, rev_length; auto).
  rewrite (combine_seq 0%Q 0%Q) by (rewrite rev_length, map_length; auto).
  rewrite map_map, Lsv.
  assert (E : (qsum (map (fun i => Qabs (fst (nth i sv 0%Q, nth i (rev (map (fun s => 1 - s)%Q sv)) 0%Q) -
                 snd (nth i sv 0%Q, nth i (rev (map (fun s => 1 - s)%Q sv)) 0%Q))) (seq 0 (List.length l))) ==
               qsum (map (dev o s) (seq 0 (List.length l))))%Q).
  { apply qsum_map_eq. intros i Hi. apply in_seq in Hi. cbn [fst snd]. unfold dev. rewrite Ls.
    assert (Hn : forall j, j < List.length l -> nth j sv 0%Q = (o - nth (List.length l - 1 - j) s 0%Q + (1 # 2))%Q).
    { intros j Hj. unfold sv. rewrite (nth_indep _ 0%Q (o - 0 + (1 # 2))%Q) by (rewrite map_length, rev_length; lia).
      rewrite (map_nth (fun r : Q => (o - r + (1 # 2))%Q)). rewrite rev_nth by lia. rewrite Ls.
      replace (List.length l - S j) with (List.length l - 1 - j) by lia. reflexivity. }
    rewrite rev_nth by (rewrite map_length; lia). rewrite map_length, Lsv.
    rewrite (nth_indep (map (fun s => 1 - s)%Q sv) 0%Q (1 - 0)%Q) by (rewrite map_length; lia).
    rewrite (map_nth (fun s => 1 - s)%Q). rewrite Hn by lia. rewrite Hn by lia.
    replace (List.length l - 1 - (List.length l - S i)) with i by lia.
    apply Qabs_wd. lra. }
  rewrite E. reflexivity.
Qed.

Lemma Qdiv_half x : (x / 2 == x * (1 # 2))%Q. Proof. field. Qed.

Section TwoParties.
  Context {K P : Type} {EK : EqB K} {EP : EqB P}.
  Variables (a b : K) (counts : dict K (dict P Q)) (regions : list P).
  Hypothesis C : complete [a; b] regions counts.
  Notation T := (turnout [a; b] counts).
  Lemma C' : complete [b; a] regions counts.
  Proof.
    destruct C as (N1 & N2 & H). split; [|split; auto].
    - inversion N1 as [|? ? Hn N1']; subst. constructor; [|repeat constructor; intros []].
      intros [->|[]]. apply Hn. now left.
    - intros c Hc. apply H. simpl in *. tauto.
  Qed.
  Lemma turnout_two r : (T r == vote counts a r + vote counts b r)%Q.
  Proof. unfold turnout. simpl. lra. Qed.
  Lemma turnout_swap r : (turnout [b; a] counts r == T r)%Q.
  Proof. unfold turnout. simpl. lra. Qed.
  Lemma all_two : (all_votes [a; b] regions counts ==
                   party_total regions counts a + party_total regions counts b)%Q.
  Proof.
    unfold all_votes, party_total. change (fold_right Qplus 0%Q) with qsum.
    rewrite <- qsum_map_plus. apply qsum_map_eq. intros r _. apply turnout_two.
  Qed.
  Lemma all_swap : (all_votes [b; a] regions counts == all_votes [a; b] regions counts)%Q.
  Proof.
    unfold all_votes. change (fold_right Qplus 0%Q) with qsum. apply qsum_map_eq. intros r _. apply turnout_swap.
  Qed.

  Variables R R' : results K P.
  Hypothesis HR : make_results [a; b] counts regions = Ok R.
  (** The same election with the parties listed the other way round. *)
  Hypothesis HR' : make_results [b; a] counts regions = Ok R'.

  (** *** Efficiency gap *)
  Definition gap_term (x y : K) (r : P) : Q :=
    let w := wasted_votes (vote counts x r) (vote counts y r) in (snd w - fst w)%Q.
  Lemma gap_ok x y Rx : complete [x; y] regions counts -> make_results [x; y] counts regions = Ok Rx ->
    efficiency_gap Rx = qdiv (qsum (map (gap_term x y) regions)) (total_votes Rx) /\
    (total_votes Rx == all_votes [x; y] regions counts)%Q.
  Proof.
    intros Cx Hx. pose proof (counts_ok _ _ _ Cx Rx Hx) as Hc. pose proof (R_eq _ _ _ Cx Rx Hx) as Eq. split.
    - unfold efficiency_gap. replace (er_parties Rx) with [x; y] by (now rewrite Eq). cbn [mapM].
      rewrite (Hc x), (Hc y) by (simpl; auto). cbn [bind].
      rewrite combine_map, !map_map. reflexivity.
    - unfold total_votes. rewrite Eq. simpl er_totals. unfold dvals. rewrite map_map. cbn [snd].
      unfold all_votes. change (fold_right Qplus 0%Q) with qsum. rewrite map_id || idtac.
      apply qsum_map_eq. intros. lra.
  Qed.

  (** C71. The efficiency gap is between -1/2 and 1/2. *)
  Theorem C71_efficiency_gap : nonnegative [a; b] regions counts ->
    (0 < all_votes [a; b] regions counts)%Q ->
    exists x, efficiency_gap R = Ok x /\ (- (1 # 2) <= x <= 1 # 2)%Q.
  Proof.
    intros NN Ht. destruct (gap_ok a b R C HR) as [-> E]. rewrite qdiv_ok by lra.
    eexists. split; [reflexivity|].
    assert (Tr : forall r, In r regions -> (gap_term a b r <= (1 # 2) * T r)%Q /\ (- (1 # 2) * T r <= gap_term a b r)%Q).
    { intros r Hr. pose proof (turnout_two r).
      assert (Ha : (0 <= vote counts a r)%Q) by (apply NN; simpl; auto).
      assert (Hb : (0 <= vote counts b r)%Q) by (apply NN; simpl; auto).
      destruct (C71_wasted_votes _ _ Ha Hb) as (W1 & W2 & W3). unfold gap_term.
      rewrite Qdiv_half in W1. split; lra. }
    assert (U : (qsum (map (gap_term a b) regions) <= (1 # 2) * all_votes [a; b] regions counts)%Q).
    { unfold all_votes. change (fold_right Qplus 0%Q) with qsum. rewrite <- qsum_map_scale.
      apply qsum_map_le. intros r Hr. now apply Tr. }
    assert (Lo : (- (1 # 2) * all_votes [a; b] regions counts <= qsum (map (gap_term a b) regions))%Q).
    { unfold all_votes. change (fold_right Qplus 0%Q) with qsum. rewrite <- qsum_map_scale.
      apply qsum_map_le. intros r Hr. now apply Tr. }
    split; [apply le_div|apply div_le]; rewrite ?E; auto.
  Qed.

  (** C71. Without tied districts, exchanging the parties changes its sign. *)
  Theorem C71_antisymmetric :
    (forall r, In r regions -> ~ (vote counts a r == vote counts b r)%Q) ->
    ~ (all_votes [a; b] regions counts == 0)%Q ->
    exists x x', efficiency_gap R = Ok x /\ efficiency_gap R' = Ok x' /\ (x' == - x)%Q.
  Proof.
    intros NT Ht. destruct (gap_ok a b R C HR) as [-> E]. destruct (gap_ok b a R' C' HR') as [-> E'].
    rewrite all_swap in E'. rewrite !qdiv_ok by lra.
    do 2 eexists. split; [reflexivity|]. split; [reflexivity|].
    assert (S : (qsum (map (gap_term b a) regions) == - qsum (map (gap_term a b) regions))%Q).
    { setoid_replace (- qsum (map (gap_term a b) regions))%Q with (-1 * qsum (map (gap_term a b) regions))%Q by ring.
      rewrite <- qsum_map_scale. apply qsum_map_eq. intros r Hr. specialize (NT r Hr).
      unfold gap_term, wasted_votes.
      destruct (qlt (vote counts b r) (vote counts a r)) eqn:E1, (qlt (vote counts a r) (vote counts b r)) eqn:E2;
        cbn [fst snd]; rewrite ?Qdiv_half; try lra.
      - apply qlt_spec in E1, E2. lra.
      - apply qlt_false in E1, E2. exfalso. apply NT. lra. }
    rewrite S, E, E'. field. auto.
  Qed.

  (** C71. With equal turnout the gap is the seat margin minus twice the vote
      margin of the first party. *)
  Theorem C71_equal_turnout : forall t, regions <> [] -> (0 < t)%Q ->
    (forall r, In r regions -> (T r == t)%Q) ->
    exists x s v, efficiency_gap R = Ok x /\ seats R a = Ok s /\ percent R a None = Ok (Num v) /\
      (x == (inject_Z (Z.of_nat s) / inject_Z (Z.of_nat (List.length regions)) - (1 # 2)) - 2 * (v - (1 # 2)))%Q.
  Proof.
    intros t Hne Ht Heq. set (n := inject_Z (Z.of_nat (List.length regions))).
    assert (Hn : (0 < n)%Q) by (now apply len_pos).
    assert (Ea : (all_votes [a; b] regions counts == n * t)%Q).
    { unfold all_votes, n. change (fold_right Qplus 0%Q) with qsum. rewrite <- qsum_const.
      apply qsum_map_eq. exact Heq. }
    assert (Pos : (0 < n * t)%Q) by nra.
    destruct (gap_ok a b R C HR) as [-> E].
    rewrite qdiv_ok by (rewrite E, Ea; lra).
    eexists. eexists. eexists. split; [reflexivity|].
    split; [apply (seats_ok _ _ _ C R HR); simpl; auto|].
    split; [rewrite (total_ok _ _ _ C R HR) by (simpl; auto); rewrite qdiv_ok by (rewrite Ea; lra); reflexivity|].
    set (s := inject_Z (Z.of_nat (List.length (filter (winsb R a) regions)))).
    assert (G : (qsum (map (gap_term a b) regions) ==
                 party_total regions counts b - party_total regions counts a + t * s - (1 # 2) * (n * t))%Q).
    { unfold s, n, party_total. change (fold_right Qplus 0%Q) with qsum. clear s n Hn Ea Pos Hne.
      assert (G : forall l, incl l regions ->
        (qsum (map (gap_term a b) l) == qsum (map (vote counts b) l) - qsum (map (vote counts a) l) +
           t * inject_Z (Z.of_nat (List.length (filter (winsb R a) l)))
           - (1 # 2) * (inject_Z (Z.of_nat (List.length l)) * t))%Q); [|apply G, incl_refl].
      induction l as [|r l IH]; intro I; [simpl; change (inject_Z (Z.of_nat 0)) with 0%Q; ring|].
      assert (Hr : In r regions) by (apply I; now left).
      specialize (IH (fun x Hx => I x (or_intror Hx))). specialize (Heq r Hr). rewrite turnout_two in Heq.
      simpl map. simpl qsum. rewrite IH. simpl filter.
      destruct (C19_won _ _ _ C R HR a r (or_introl eq_refl) Hr) as (bb & Hb & Sp).
      assert (Ew : winsb R a r = bb) by (unfold winsb; now rewrite Hb). rewrite Ew. unfold gap_term, wasted_votes.
      assert (Hw : qlt (vote counts b r) (vote counts a r) = bb).
      { destruct bb.
        - apply qlt_spec. apply Sp; auto; [simpl; auto|]. destruct C as (N1 & _). inversion N1 as [|? ? Hx _]; subst.
          intros ->. apply Hx. now left.
        - apply qlt_false. apply Qnot_lt_le. intro K1.
          assert (false = true); [|discriminate]. apply Sp. intros o [<-|[<-|[]]] Ho; [contradiction|exact K1]. }
      rewrite Hw. destruct bb; cbn [fst snd]; simpl List.length; rewrite ?Nat2Z.inj_succ; unfold Z.succ;
        rewrite ?inject_Z_plus, ?Qdiv_half; change (inject_Z 1) with 1%Q; lra. }
    rewrite G, E, Ea. pose proof all_two as A2. rewrite Ea in A2.
    setoid_replace (party_total regions counts b) with (n * t - party_total regions counts a)%Q by lra.
    field. split; lra.
  Qed.

  (** *** Shares *)
  Definition sh (c : K) (r : P) : Q := (vote counts c r / T r)%Q.
  Lemma shares_num x y Rx : complete [x; y] regions counts -> make_results [x; y] counts regions = Ok Rx ->
    (forall r, In r regions -> (0 < turnout [x; y] counts r)%Q) ->
    percents Rx x = Ok (map Num (map (fun r => vote counts x r / turnout [x; y] counts r)%Q regions)).
  Proof.
    intros Cx Hx Pos. rewrite (percents_ok _ _ _ Cx Rx Hx) by (simpl; auto). f_equal. rewrite map_map.
    apply map_ext_in. intros r Hr. unfold share.
    assert (qlt 0 (turnout [x; y] counts r) = true) as -> by (apply qlt_spec; auto). reflexivity.
  Qed.
  Hypothesis Pos : forall r, In r regions -> (0 < T r)%Q.
  Definition shares_a : list Q := map (sh a) regions.
  Definition shares_b : list Q := map (fun r => vote counts b r / turnout [b; a] counts r)%Q regions.
  Lemma percents_a : percents R a = Ok (map Num shares_a).
  Proof. apply (shares_num a b); auto. Qed.
  Lemma percents_b : percents R' b = Ok (map Num shares_b).
  Proof.
    apply (shares_num b a); auto; [exact C'|]. intros r Hr. rewrite turnout_swap. auto.
  Qed.
  Lemma shares_reflect : Forall2 Qeq shares_b (map (fun x => 1 - x)%Q shares_a).
  Proof.
    unfold shares_a, shares_b, sh. rewrite map_map.
    assert (G : forall l, incl l regions -> Forall2 Qeq (map (fun r => vote counts b r / turnout [b; a] counts r)%Q l)
                  (map (fun r => 1 - vote counts a r / T r)%Q l)).
    { induction l as [|r l IH]; intro I; simpl; constructor.
      - rewrite turnout_swap. pose proof (turnout_two r). specialize (Pos r (I r (or_introl eq_refl))).
        setoid_replace (vote counts b r) with (T r - vote counts a r)%Q by lra. field. lra.
      - apply IH. intros x Hx. apply I. now right. }
    apply G, incl_refl.
  Qed.
  Lemma shares_range : nonnegative [a; b] regions counts -> forall x, In x shares_a -> (0 <= x <= 1)%Q.
  Proof.
    intros NN x Hx. apply in_map_iff in Hx. destruct Hx as (r & <- & Hr). specialize (Pos r Hr). unfold sh.
    pose proof (turnout_two r).
    assert (0 <= vote counts a r)%Q by (apply NN; simpl; auto).
    assert (0 <= vote counts b r)%Q by (apply NN; simpl; auto).
    split; [apply le_div; lra|apply div_le; lra].
  Qed.
  Lemma parties_a : first_party R = Ok a.
  Proof. rewrite (R_eq _ _ _ C R HR). reflexivity. Qed.
  Lemma parties_b : first_party R' = Ok b.
  Proof. rewrite (R_eq _ _ _ C' R' HR'). reflexivity. Qed.

  Lemma np_mean_map l : l <> [] -> np_mean (map Num l) = Num (mean l).
  Proof. intro H. destruct l as [|x l]; [contradiction|]. unfold np_mean. simpl. now rewrite all_num_map. Qed.
  Lemma np_median_map l : l <> [] -> np_median (map Num l) = Num (median l).
  Proof. intro H. destruct l as [|x l]; [contradiction|]. unfold np_median. simpl. now rewrite all_num_map. Qed.

  Hypothesis Hne : regions <> [].
  Lemma shares_a_ne : shares_a <> [].
  Proof. unfold shares_a. destruct regions; [contradiction|discriminate]. Qed.
  Lemma shares_b_ne : shares_b <> [].
  Proof. unfold shares_b. destruct regions; [contradiction|discriminate]. Qed.

  (** *** Partisan Gini *)
  Lemma gini_ok : (0 < all_votes [a; b] regions counts)%Q ->
    partisan_gini R = Ok (Num (gini_of (party_total regions counts a / all_votes [a; b] regions counts) shares_a)) /\
    partisan_gini R' = Ok (Num (gini_of (party_total regions counts b / all_votes [b; a] regions counts) shares_b)).
  Proof.
    intro Ht. split; unfold partisan_gini.
    - rewrite parties_a. cbn [bind]. rewrite (total_ok _ _ _ C R HR) by (simpl; auto). rewrite qdiv_ok by lra. cbn [bind].
      rewrite percents_a. cbn [bind]. rewrite all_num_map. pose proof shares_a_ne. destruct shares_a; [contradiction|reflexivity].
    - rewrite parties_b. cbn [bind]. rewrite (total_ok _ _ _ C' R' HR') by (simpl; auto).
      rewrite qdiv_ok by (rewrite all_swap; lra). cbn [bind].
      rewrite percents_b. cbn [bind]. rewrite all_num_map. pose proof shares_b_ne. destruct shares_b; [contradiction|reflexivity].
  Qed.
  Lemma votes_pos : (0 < all_votes [a; b] regions counts)%Q.
  Proof.
    unfold all_votes. destruct regions as [|r l]; [contradiction|]. simpl.
    assert (0 <= fold_right Qplus 0 (map T l))%Q.
    { apply (qsum_nonneg (map T l)). intros x Hx. apply in_map_iff in Hx. destruct Hx as (r' & <- & Hr).
      apply Qlt_le_weak, Pos. now right. }
    specialize (Pos r (or_introl eq_refl)). lra.
  Qed.

  Theorem C72_gini_range : nonnegative [a; b] regions counts ->
    exists x, partisan_gini R = Ok (Num x) /\ (0 <= x < 2)%Q.
  Proof.
    intro NN. pose proof votes_pos as Ht. destruct (gini_ok Ht) as [-> _]. eexists. split; [reflexivity|].
    destruct (C20_overall_share _ _ _ C R HR NN a (or_introl eq_refl) Ht) as (o & Ho & Hv & Hb).
    set (o' := (party_total regions counts a / all_votes [a; b] regions counts)%Q).
    assert (Eo : (o == o')%Q) by (unfold o'; rewrite <- Hv; field; lra).
    rewrite (gini_eq o' shares_a shares_a_ne).
    set (s := isort shares_a). assert (Ls : List.length s = List.length shares_a) by apply isort_length.
    pose proof shares_a_ne as Hs. set (n := List.length shares_a) in *.
    assert (Hn0 : 0 < n) by (unfold n; destruct shares_a; [contradiction|simpl; lia]).
    assert (Hn : (0 < inject_Z (Z.of_nat n))%Q) by (now apply len_pos).
    assert (Rs : forall i, i < n -> (0 <= nth i s 0 <= 1)%Q).
    { intros i Hi. apply shares_range; auto. apply (Permutation_in _ (isort_perm shares_a)). apply nth_In.
      change (i < List.length s). lia. }
    (* the overall share lies between the extreme district shares *)
    assert (Sb : forall x, In x shares_a -> (nth 0 s 0 <= x <= nth (n - 1) s 0)%Q).
    { intros x Hx. apply (Permutation_in _ (Permutation_sym (isort_perm shares_a))) in Hx. fold s in Hx.
      destruct (In_nth s x 0%Q Hx) as (i & Hi & <-). rewrite Ls in Hi.
      assert (Mono : forall i j, i <= j -> j < n -> (nth i s 0 <= nth j s 0)%Q).
      { pose proof (isort_sorted shares_a) as So. fold s in So. clear - So Ls. rewrite <- Ls. clear Ls.
        induction So as [|y l Hy _ IH]; simpl; intros i j Hij Hj; [lia|].
        destruct i as [|i], j as [|j]; try lia; try lra.
        - apply Hy, nth_In. lia.
        - apply IH; lia. }
      split; apply Mono; lia. }
    assert (Ob : (nth 0 s 0 <= o' <= nth (n - 1) s 0)%Q).
    { rewrite <- Eo. apply Hb. intros r y Hr Hp. apply Sb.
      rewrite (percent_ok _ _ _ C R HR) in Hp by (simpl; auto). injection Hp as Hp. unfold share in Hp.
      assert (qlt 0 (T r) = true) as E1 by (apply qlt_spec; auto). rewrite E1 in Hp. injection Hp as <-.
      unfold shares_a. apply in_map_iff. exists r. auto. }
    assert (R0 := Rs 0 Hn0). assert (R1 := Rs (n - 1) ltac:(lia)).
    split.
    - apply le_div; auto. assert (0 <= qsum (map (dev o' s) (seq 0 n)))%Q; [|lra].
      apply qsum_nonneg. intros x Hx. apply in_map_iff in Hx. destruct Hx as (i & <- & _). apply Qabs_nonneg.
    - apply Qlt_shift_div_r; auto.
      assert (Tm : forall i, i < n -> (dev o' s i <= 2)%Q).
      { intros i Hi. unfold dev. rewrite Ls. apply Qabs_case; intros _.
        - pose proof (Rs i Hi). pose proof (Rs (n - 1 - i) ltac:(lia)). lra.
        - pose proof (Rs i Hi). pose proof (Rs (n - 1 - i) ltac:(lia)). lra. }
      assert (T0 : (dev o' s 0 <= 1)%Q).
      { unfold dev. rewrite Ls. replace (n - 1 - 0) with (n - 1) by lia. apply Qabs_case; intros _; lra. }
      destruct n as [|m] eqn:En; [lia|]. cbn [seq map]. simpl qsum.
      assert (Q1 : (qsum (map (dev o' s) (seq 1 m)) <= inject_Z (Z.of_nat m) * 2)%Q).
      { rewrite <- (seq_length m 1) at 2. rewrite <- qsum_const. apply qsum_map_le.
        intros i Hi. apply in_seq in Hi. apply Tm. lia. }
      rewrite Nat2Z.inj_succ. unfold Z.succ. rewrite inject_Z_plus. change (inject_Z 1) with 1%Q. lra.
  Qed.

  (** C72. Exchanging the parties leaves the score unchanged. *)
  Theorem C72_gini_symmetric :
    exists x x', partisan_gini R = Ok (Num x) /\ partisan_gini R' = Ok (Num x') /\ (x == x')%Q.
  Proof.
    pose proof votes_pos as Ht. destruct (gini_ok Ht) as [-> ->]. do 2 eexists. split; [reflexivity|]. split; [reflexivity|].
    rewrite (gini_eq _ shares_a shares_a_ne), (gini_eq _ shares_b shares_b_ne).
    assert (El : List.length shares_b = List.length shares_a) by (unfold shares_a, shares_b; now rewrite !map_length).
    rewrite El.
    assert (E : (qsum (map (dev (party_total regions counts a / all_votes [a; b] regions counts) (isort shares_a)) (seq 0 (List.length shares_a))) ==
                 qsum (map (dev (party_total regions counts b / all_votes [b; a] regions counts) (isort shares_b)) (seq 0 (List.length shares_a))))%Q).
    { apply qsum_map_eq. intros i Hi. apply in_seq in Hi. unfold dev. rewrite !isort_length, El.
      rewrite (sort_reflect shares_a shares_b i shares_reflect) by lia.
      rewrite (sort_reflect shares_a shares_b (List.length shares_a - 1 - i) shares_reflect) by lia.
      replace (List.length shares_a - 1 - (List.length shares_a - 1 - i)) with i by lia.
      rewrite all_swap. pose proof all_two as A2.
      setoid_replace (party_total regions counts b) with (all_votes [a; b] regions counts - party_total regions counts a)%Q by lra.
      rewrite <- Qabs_opp. apply Qabs_wd. field. lra. }
    rewrite E. reflexivity.
  Qed.

  (** C72. With equal turnout it is at most 1. *)
  Theorem C72_gini_equal_turnout : nonnegative [a; b] regions counts -> forall t,
    (forall r, In r regions -> (T r == t)%Q) ->
    exists x, partisan_gini R = Ok (Num x) /\ (x <= 1)%Q.
  Proof.
    intros NN t Heq. pose proof votes_pos as Ht. destruct (gini_ok Ht) as [-> _]. eexists. split; [reflexivity|].
    rewrite (gini_eq _ shares_a shares_a_ne).
    set (o := (party_total regions counts a / all_votes [a; b] regions counts)%Q).
    set (s := isort shares_a). assert (Ls : List.length s = List.length shares_a) by apply isort_length.
    pose proof shares_a_ne as Hs. set (n := List.length shares_a) in *.
    assert (Hn0 : 0 < n) by (unfold n; destruct shares_a; [contradiction|simpl; lia]).
    assert (Hn : (0 < inject_Z (Z.of_nat n))%Q) by (now apply len_pos).
    assert (Hnr : n = List.length regions) by (unfold n, shares_a; now rewrite map_length).
    assert (Htp : (0 < t)%Q).
    { destruct regions as [|r0 l]; [contradiction|].
      rewrite <- (Heq r0 (or_introl eq_refl)). apply Pos. now left. }
    assert (Rs : forall i, i < n -> (0 <= nth i s 0 <= 1)%Q).
    { intros i Hi. apply shares_range; auto. apply (Permutation_in _ (isort_perm shares_a)). apply nth_In.
      change (i < List.length s). lia. }
    assert (Eo : (o * inject_Z (Z.of_nat n) == qsum shares_a)%Q).
    { assert (Ev : (all_votes [a; b] regions counts == inject_Z (Z.of_nat n) * t)%Q).
      { unfold all_votes. change (fold_right Qplus 0%Q) with qsum. rewrite Hnr, <- qsum_const. apply qsum_map_eq. exact Heq. }
      assert (Es : (party_total regions counts a == t * qsum shares_a)%Q).
      { unfold party_total, shares_a. change (fold_right Qplus 0%Q) with qsum. rewrite <- qsum_map_scale.
        apply qsum_map_eq. intros r Hr. unfold sh. rewrite (Heq r Hr). field. lra. }
      unfold o. rewrite Ev, Es. field. split; lra. }
    assert (S1 : (qsum (map (fun i => nth i s 0%Q) (seq 0 n)) == qsum shares_a)%Q).
    { rewrite <- (qsum_perm _ _ (isort_perm shares_a)). fold s.
      replace (map (fun i => nth i s 0%Q) (seq 0 n)) with s by (rewrite <- Ls; apply list_seq). reflexivity. }
    assert (S2 : (qsum (map (fun i => nth (n - 1 - i) s 0%Q) (seq 0 n)) == qsum shares_a)%Q).
    { rewrite <- (qsum_perm _ _ (isort_perm shares_a)). fold s. rewrite <- (qsum_rev s).
      rewrite (list_seq 0%Q (rev s)), rev_length, Ls. apply qsum_map_eq. intros i Hi. apply in_seq in Hi.
      rewrite rev_nth by lia. rewrite Ls. replace (n - S i) with (n - 1 - i) by lia. reflexivity. }
    set (p := fun i => (nth i s 0 + nth (n - 1 - i) s 0)%Q).
    assert (Sp : (qsum (map p (seq 0 n)) == 2 * o * inject_Z (Z.of_nat n))%Q).
    { unfold p. rewrite qsum_map_plus, S1, S2. lra. }
    assert (Ob : (0 <= o <= 1)%Q).
    { split.
      - apply le_div; auto. assert (0 <= party_total regions counts a)%Q; [|lra].
        apply (qsum_nonneg (map (vote counts a) regions)). intros x Hx. apply in_map_iff in Hx.
        destruct Hx as (r & <- & Hr). apply NN; simpl; auto.
      - apply div_le; auto. pose proof all_two.
        assert (0 <= party_total regions counts b)%Q; [|lra].
        apply (qsum_nonneg (map (vote counts b) regions)). intros x Hx. apply in_map_iff in Hx.
        destruct Hx as (r & <- & Hr). apply NN; simpl; auto. }
    (* pointwise chord bound *)
    assert (Ch : (qsum (map (dev o s) (seq 0 n)) <= qsum (map (fun i => 2 * o + (1 - 2 * o) * p i) (seq 0 n)))%Q).
    { apply qsum_map_le. intros i Hi. apply in_seq in Hi. unfold dev, p. rewrite Ls.
      pose proof (Rs i ltac:(lia)) as [A1 A2]. pose proof (Rs (n - 1 - i) ltac:(lia)) as [B1 B2].
      revert A1 A2 B1 B2. generalize (nth i s 0%Q) (nth (n - 1 - i) s 0%Q). intros u v A1 A2 B1 B2.
      apply Qabs_case; intros _; nra. }
    apply div_le; auto. eapply Qle_trans; [exact Ch|].
    rewrite qsum_map_plus, (qsum_map_scale p (1 - 2 * o)%Q), Sp, qsum_const, seq_length.
    revert Hn. generalize (inject_Z (Z.of_nat n)) o. clear. intros N o HN.
    assert (Hsq : (0 <= (1 - 2 * o) * (1 - 2 * o))%Q) by (generalize (1 - 2 * o)%Q; intro q; nra).
    pose proof (Qmult_le_0_compat N _ (Qlt_le_weak _ _ HN) Hsq) as Hp. lra.
  Qed.

  (** *** Mean-median, mean-thirdian, bias *)

  (** The median splits the list in two halves. *)
  Theorem C73_median_splits : forall l, l <> [] ->
    List.length l <= 2 * List.length (filter (fun x => Qle_bool x (median l)) l) /\
    List.length l <= 2 * List.length (filter (fun x => Qle_bool (median l) x) l).
  Proof.
    intros l Hl. assert (Hn : 0 < List.length l) by (destruct l; [contradiction|simpl; lia]).
    assert (Cnt : forall v, List.length (filter (fun x => Qle_bool v x) l) = List.length l - below v l).
    { intro v. unfold below. clear. induction l as [|x l IH]; auto. cbn [filter].
      assert (B : List.length (filter (fun x => qlt x v) l) <= List.length l).
      { clear. induction l as [|y l IH]; simpl; auto. destruct (qlt y v); simpl; lia. }
      assert (Eq : qlt x v = negb (Qle_bool v x)) by reflexivity. rewrite Eq.
      destruct (Qle_bool v x); cbn [negb List.length]; lia. }
    rewrite Cnt. fold (upto (median l) l). unfold median. destruct (Nat.odd (List.length l)) eqn:Eo.
    - assert (Hk : List.length l / 2 < List.length l) by (apply Nat.div_lt; lia).
      destruct (ranked_sort l (List.length l / 2) Hk) as [H1 H2].
      apply Nat.odd_spec in Eo. destruct Eo as [k Ek]. rewrite Ek in *.
      replace ((2 * k + 1) / 2) with k in * by (rewrite Nat.mul_comm, Nat.div_add_l; simpl; lia). lia.
    - assert (Ev : Nat.even (List.length l) = true) by (rewrite <- Nat.negb_odd, Eo; auto).
      apply Nat.even_spec in Ev. destruct Ev as [k Ek].
      assert (Ed : List.length l / 2 = k) by (rewrite Ek, Nat.mul_comm; apply Nat.div_mul; lia).
      rewrite Ed. set (u := nth (k - 1) (isort l) 0%Q). set (v := nth k (isort l) 0%Q).
      destruct (ranked_sort l (k - 1) ltac:(lia)) as [U1 U2]. destruct (ranked_sort l k ltac:(lia)) as [V1 V2].
      fold u in U1, U2. fold v in V1, V2.
      assert (Huv : (u <= v)%Q).
      { apply Qnot_lt_le. intro Hlt. assert (upto v l <= below u l); [|lia].
        apply filter_le. intros x _ Hx. apply Qle_bool_iff in Hx. apply qlt_spec. lra. }
      assert (M1 : (u <= (u + v) / 2)%Q) by (rewrite Qdiv_half; lra).
      assert (M2 : ((u + v) / 2 <= v)%Q) by (rewrite Qdiv_half; lra).
      assert (upto u l <= upto ((u + v) / 2)%Q l).
      { apply filter_le. intros x _ Hx. apply Qle_bool_iff in Hx. apply Qle_bool_iff. lra. }
      assert (below ((u + v) / 2)%Q l <= below v l).
      { apply filter_le. intros x _ Hx. apply qlt_spec in Hx. apply qlt_spec. lra. }
      lia.
  Qed.

  Lemma median_reflect : (median shares_b == 1 - median shares_a)%Q.
  Proof.
    assert (El : List.length shares_b = List.length shares_a) by (unfold shares_a, shares_b; now rewrite !map_length).
    pose proof shares_a_ne as Hs. assert (Hn : 0 < List.length shares_a) by (destruct shares_a; [contradiction|simpl; lia]).
    unfold median. rewrite El. destruct (Nat.odd (List.length shares_a)) eqn:Eo.
    - rewrite (sort_reflect shares_a shares_b) by (apply shares_reflect || (apply Nat.div_lt; lia)).
      apply Nat.odd_spec in Eo. destruct Eo as [k Ek]. rewrite Ek.
      replace ((2 * k + 1) / 2) with k by (rewrite Nat.mul_comm, Nat.div_add_l; simpl; lia).
      replace (2 * k + 1 - 1 - k) with k by lia. reflexivity.
    - assert (Ev : Nat.even (List.length shares_a) = true) by (rewrite <- Nat.negb_odd, Eo; auto).
      apply Nat.even_spec in Ev. destruct Ev as [k Ek].
      assert (Ed : List.length shares_a / 2 = k) by (rewrite Ek, Nat.mul_comm; apply Nat.div_mul; lia).
      rewrite Ed. rewrite (sort_reflect shares_a shares_b (k - 1) shares_reflect) by lia.
      rewrite (sort_reflect shares_a shares_b k shares_reflect) by lia. rewrite Ek.
      replace (2 * k - 1 - (k - 1)) with k by lia. replace (2 * k - 1 - k) with (k - 1) by lia. field.
  Qed.
  Lemma mean_reflect : (mean shares_b == 1 - mean shares_a)%Q.
  Proof.
    assert (El : List.length shares_b = List.length shares_a) by (unfold shares_a, shares_b; now rewrite !map_length).
    unfold mean. rewrite El. pose proof (len_pos shares_a shares_a_ne) as Hn.
    assert (E : (qsum shares_b == inject_Z (Z.of_nat (List.length shares_a)) - qsum shares_a)%Q).
    { pose proof shares_reflect as F. clear - F.
      revert F. generalize shares_b. induction shares_a as [|x l IH]; intros l' F; inversion F; subst; simpl qsum.
      - change (inject_Z (Z.of_nat (List.length (@nil Q)))) with 0%Q. lra.
      - simpl List.length. rewrite Nat2Z.inj_succ. unfold Z.succ. rewrite inject_Z_plus. change (inject_Z 1) with 1%Q.
        match goal with H : Forall2 Qeq ?t _ |- _ => pose proof (IH t H) as IH' end. lra. }
    rewrite E. field. lra.
  Qed.
  (** C73. Exchanging the parties changes the sign of the mean-median score. *)
  Theorem C73_mean_median_antisymmetric :
    exists x x', mean_median R = Ok (Num x) /\ mean_median R' = Ok (Num x') /\ (x' == - x)%Q /\
      (x == median shares_a - mean shares_a)%Q.
  Proof.
    unfold mean_median. rewrite parties_a, parties_b. cbn [bind]. rewrite percents_a, percents_b. cbn [bind].
    rewrite !np_mean_map, !np_median_map by (apply shares_a_ne || apply shares_b_ne). cbn [nsubq].
    do 2 eexists. split; [reflexivity|]. split; [reflexivity|]. rewrite median_reflect, mean_reflect. split; lra.
  Qed.

  (** C73. The thirdian is the share of rank [k], [k] being the integer
      nearest to a third of the number of districts. *)
  Theorem C73_mean_thirdian :
    exists x v k, mean_thirdian R = Ok (Num x) /\ (x == v - mean shares_a)%Q /\
      3 * k <= List.length regions + 1 /\ List.length regions <= 3 * k + 1 /\
      List.length (filter (fun y => qlt y v) shares_a) <= k /\
      k < List.length (filter (fun y => Qle_bool y v) shares_a).
  Proof.
    assert (Lr : List.length shares_a = List.length regions) by (unfold shares_a; now rewrite map_length).
    assert (Hn : 0 < List.length regions) by (destruct regions; [contradiction|simpl; lia]).
    set (k := round_third (List.length regions)).
    assert (K1 : 3 * k <= List.length regions + 1).
    { unfold k, round_third. pose proof (Nat.div_mod (2 * List.length regions + 3) 6 ltac:(lia)). lia. }
    assert (K2 : List.length regions <= 3 * k + 1).
    { unfold k, round_third. pose proof (Nat.div_mod (2 * List.length regions + 3) 6 ltac:(lia)).
      pose proof (Nat.mod_upper_bound (2 * List.length regions + 3) 6 ltac:(lia)). lia. }
    unfold mean_thirdian. rewrite parties_a. cbn [bind]. rewrite percents_a. cbn [bind].
    rewrite map_length, Lr, all_num_map. fold k.
    assert (Nat.ltb k (List.length regions) = true) as -> by (apply Nat.ltb_lt; lia).
    rewrite Lr. fold k. exists (nth k (isort shares_a) 0 - mean shares_a)%Q, (nth k (isort shares_a) 0%Q), k.
    split; [reflexivity|]. split; [reflexivity|]. split; auto. split; auto. apply ranked_sort. lia.
  Qed.

  (** C73. The bias is the fraction of districts above the mean, less a half;
      it is below 1/2. *)
  Theorem C73_partisan_bias :
    exists x, partisan_bias R = Ok x /\ (- (1 # 2) <= x < 1 # 2)%Q /\
      (x == inject_Z (Z.of_nat (List.length (filter (fun y => qlt (mean shares_a) y) shares_a)))
            / inject_Z (Z.of_nat (List.length regions)) - (1 # 2))%Q.
  Proof.
    assert (Lr : List.length shares_a = List.length regions) by (unfold shares_a; now rewrite map_length).
    pose proof (len_pos shares_a shares_a_ne) as Hn. pose proof shares_a_ne as Hs.
    unfold partisan_bias. rewrite parties_a. cbn [bind]. rewrite percents_a. cbn [bind].
    rewrite np_mean_map by exact Hs. rewrite map_length.
    set (m := mean shares_a).
    assert (E : List.length (filter (fun x => num_gt x (Num m)) (map Num shares_a)) =
                List.length (filter (fun y => qlt m y) shares_a)).
    { generalize shares_a. intro l. induction l as [|x l IH]; auto. simpl. destruct (qlt m x); simpl; congruence. }
    rewrite E. rewrite qdiv_ok by lra. cbn [bind]. eexists. split; [reflexivity|].
    set (c := List.length (filter (fun y => qlt m y) shares_a)).
    assert (Hc : c < List.length shares_a).
    { assert (Le : forall l, List.length (filter (fun y => qlt m y) l) <= List.length l).
      { induction l as [|x l IH]; simpl; auto. destruct (qlt m x); simpl; lia. }
      assert (Cs : c = List.length shares_a -> forall x, In x shares_a -> (m < x)%Q).
      { unfold c. generalize shares_a. intro l. induction l as [|x l IH]; simpl; [intros _ y []|].
        destruct (qlt m x) eqn:Ex; simpl; intro Hl.
        - intros y [<-|Hy]; [now apply qlt_spec|]. apply IH; auto.
        - specialize (Le l). lia. }
      pose proof (Le shares_a). fold c in H. destruct (Nat.eq_dec c (List.length shares_a)) as [Ec|]; [|lia].
      exfalso. specialize (Cs Ec).
      assert (G : forall l, l <> [] -> (forall x, In x l -> (m < x)%Q) -> (inject_Z (Z.of_nat (List.length l)) * m < qsum l)%Q).
      { induction l as [|x l IH]; intros Hl Hx; [contradiction|]. simpl List.length. simpl qsum.
        rewrite Nat2Z.inj_succ. unfold Z.succ. rewrite inject_Z_plus. change (inject_Z 1) with 1%Q.
        pose proof (Hx x (or_introl eq_refl)). destruct l as [|y l].
        - change (inject_Z (Z.of_nat (List.length (@nil Q)))) with 0%Q. simpl. lra.
        - specialize (IH ltac:(discriminate) (fun z Hz => Hx z (or_intror Hz))). lra. }
      specialize (G shares_a Hs Cs). unfold m, mean in G.
      assert (Eq : (inject_Z (Z.of_nat (List.length shares_a)) * (qsum shares_a / inject_Z (Z.of_nat (List.length shares_a)))
                   == qsum shares_a)%Q) by (field; lra). lra. }
    assert (Q0 : (0 <= inject_Z (Z.of_nat c))%Q) by (change 0%Q with (inject_Z 0); rewrite <- Zle_Qle; lia).
    assert (Q1 : (inject_Z (Z.of_nat c) < inject_Z (Z.of_nat (List.length shares_a)))%Q) by (rewrite <- Zlt_Qlt; lia).
    split; [split|rewrite Lr; reflexivity].
    - assert (0 <= inject_Z (Z.of_nat c) / inject_Z (Z.of_nat (List.length shares_a)))%Q; [|lra]. apply le_div; lra.
    - assert (inject_Z (Z.of_nat c) / inject_Z (Z.of_nat (List.length shares_a)) < 1)%Q; [|lra].
      apply Qlt_shift_div_r; lra.
  Qed.
End TwoParties.

Lemma all_num_nan (l : list (num Q)) : In NaN l -> all_num l = None.
Proof.
  induction l as [|[x|] l IH]; simpl; auto; [intros []|].
  intros [H|H]; [discriminate|]. now rewrite IH.
Qed.

Lemma np_mean_nan (l : list (num Q)) : In NaN l -> np_mean l = NaN.
Proof.
  intro H. destruct l as [|x l]; [destruct H|]. unfold np_mean. now rewrite (all_num_nan (x :: l) H).
Qed.

(** C73. As soon as one district has no votes the mean-median score is NaN and
    the bias is -1/2, whatever happened in the other districts. *)
Theorem C73_empty_district {K P} {EK : EqB K} {EP : EqB P} (a : K) others counts (regions : list P) R r :
  complete (a :: others) regions counts -> make_results (a :: others) counts regions = Ok R ->
  In r regions -> (turnout (a :: others) counts r <= 0)%Q ->
  mean_median R = Ok NaN /\ exists x, partisan_bias R = Ok x /\ (x == - (1 # 2))%Q.
Proof.
  intros C HR Hr Ht. pose proof (percents_ok _ _ _ C R HR a (or_introl eq_refl)) as Hp.
  assert (Hf : first_party R = Ok a) by (now rewrite (R_eq _ _ _ C R HR)).
  set (l := map (share (a :: others) counts a) regions) in *.
  assert (Hin : In NaN l).
  { apply in_map_iff. exists r. split; auto. unfold share.
    assert (qlt 0 (turnout (a :: others) counts r) = false) as -> by (now apply qlt_false). reflexivity. }
  assert (Hm : np_mean l = NaN) by (now apply np_mean_nan).
  unfold mean_median, partisan_bias. rewrite Hf. cbn [bind]. rewrite Hp. cbn [bind]. rewrite Hm. split.
  - destruct (np_median l); reflexivity.
  - assert (E : filter (fun x => num_gt x NaN) l = []).
    { generalize l. clear. intro l. induction l as [|x l IH]; auto. simpl. destruct x; exact IH. }
    rewrite E. assert (Hl : l <> []) by (intro El; rewrite El in Hin; destruct Hin).
    pose proof (len_pos l Hl) as Hn. rewrite qdiv_ok by lra. cbn [bind]. eexists. split; [reflexivity|].
    simpl List.length. change (inject_Z (Z.of_nat 0)) with 0%Q. field. lra.
Qed.

(** C71. The efficiency gap is defined for exactly two parties and only if
    somebody voted. *)
Theorem C71_not_two_parties {K P} {EK : EqB K} {EP : EqB P} (parties : list K) counts (regions : list P) R :
  complete parties regions counts -> make_results parties counts regions = Ok R ->
  List.length parties <> 2 -> efficiency_gap R = Err ValueError.
Proof.
  intros C HR Hl. unfold efficiency_gap.
  replace (er_parties R) with parties by (now rewrite (R_eq _ _ _ C R HR)).
  rewrite (mapM_total _ (fun c => map (vote counts c) regions)) by (intros c Hc; apply (counts_ok _ _ _ C R HR); auto).
  cbn [bind]. destruct parties as [|x [|y [|z l]]]; simpl in *; auto. lia.
Qed.
Theorem C71_nobody_voted {K P} {EK : EqB K} {EP : EqB P} (a b : K) counts (regions : list P) R :
  complete [a; b] regions counts -> make_results [a; b] counts regions = Ok R ->
  (all_votes [a; b] regions counts == 0)%Q -> efficiency_gap R = Err ZeroDivisionError.
Proof.
  intros C HR Hz. destruct (gap_ok counts regions a b R C HR) as [-> E]. apply qdiv_zero. lra.
Qed.

(** C72. So is the partisan Gini score, for any parties. *)
Theorem C72_gini_nobody_voted {K P} {EK : EqB K} {EP : EqB P} (a : K) (parties : list K) counts (regions : list P) R :
  complete (a :: parties) regions counts -> make_results (a :: parties) counts regions = Ok R ->
  (all_votes (a :: parties) regions counts == 0)%Q -> partisan_gini R = Err ZeroDivisionError.
Proof.
  intros C HR Hz. unfold partisan_gini, first_party.
  replace (er_parties R) with (a :: parties) by (now rewrite (R_eq _ _ _ C R HR)). cbn [nth_error of_option bind].
  now rewrite (C20_no_votes_at_all _ _ _ C R HR a (or_introl eq_refl) Hz).
Qed.

(** ** Concrete elections *)
(** Parties 0 and 1, districts numbered from 0. *)
Definition table (va vb : list Q) : dict nat (dict nat Q) :=
  [(0, combine (seq 0 (List.length va)) va); (1, combine (seq 0 (List.length vb)) vb)].
Definition two : list nat := [0; 1].
Definition three : list nat := [0; 1; 2].
Definition tab3 := table [6; 2; 1]%Q [2; 6; 7]%Q.
Ltac tab :=
  unfold two, three;
  repeat match goal with
  | |- complete _ _ _ => split; [|split; [|let c := fresh in let Hc := fresh in intros c Hc]]
  | |- NoDup [] => constructor
  | |- NoDup (_ :: _) => constructor; [simpl; intuition discriminate|]
  | H : In _ (_ :: _) |- _ => destruct H as [<-|H]
  | H : In _ [] |- _ => destruct H
  | |- exists d, dget _ _ = Some d /\ _ => eexists; split; [reflexivity|let r := fresh in let Hr := fresh in intros r Hr]
  | |- exists v, dget _ _ = Some v => eexists; reflexivity
  | |- nonnegative _ _ _ => let c := fresh in let r := fresh in let Hc := fresh in let Hr := fresh in intros c r Hc Hr
  end; try (vm_compute; congruence).

Lemma tab3_complete : complete two three tab3. Proof. tab. Qed.
Lemma tab3_nonneg : nonnegative two three tab3. Proof. tab. Qed.
Definition results_of va vb : results nat nat :=
  match make_results two (table va vb) (seq 0 (List.length va)) with
  | Ok R => R
  | _ => mkResults [] [] [] [] []
  end.
(** C19, C20: party 1 wins two of three districts. *)
Example C19_example : seats (results_of [6; 2; 1]%Q [2; 6; 7]%Q) 1 = Ok 2 /\
  won (results_of [6; 2; 1]%Q [2; 6; 7]%Q) 0 0 = Ok true /\
  won (results_of [6; 4]%Q [2; 4]%Q) 0 1 = Ok false /\ won (results_of [6; 4]%Q [2; 4]%Q) 1 1 = Ok false.
Proof. repeat split; reflexivity. Qed.
Example C20_example : exists x, percent (results_of [6; 2; 1]%Q [2; 6; 7]%Q) 0 None = Ok (Num x) /\ (x == 3 # 8)%Q.
Proof. eexists. split; [vm_compute; reflexivity|]. reflexivity. Qed.
(** C71: the hypotheses of the theorems on the efficiency gap, met by the table
    of three districts with eight voters each. *)
Example C71_example :
  complete two three tab3 /\ nonnegative two three tab3 /\
  (0 < all_votes two three tab3)%Q /\
  (forall r, In r three -> (turnout two tab3 r == 8)%Q) /\
  (forall r, In r three -> ~ (vote tab3 0%nat r == vote tab3 1%nat r)%Q) /\
  exists x, efficiency_gap (results_of [6; 2; 1]%Q [2; 6; 7]%Q) = Ok x /\ (x == 1 # 12)%Q.
Proof.
  split; [apply tab3_complete|]. split; [apply tab3_nonneg|]. split; [reflexivity|].
  split; [intros r [<-|[<-|[<-|[]]]]; reflexivity|].
  split; [intros r [<-|[<-|[<-|[]]]]; vm_compute; discriminate|].
  eexists. split; [vm_compute; reflexivity|reflexivity].
Qed.

(** C71. A tied district counts as won by the second party, so exchanging the
    parties does not change the sign if there are ties: here the gap is the
    same both times, and not zero. *)
Theorem C71_tie_refuted : exists counts R R' x x',
  complete two two counts /\ nonnegative two two counts /\
  make_results two counts two = Ok R /\ make_results [1; 0] counts two = Ok R' /\
  efficiency_gap R = Ok x /\ efficiency_gap R' = Ok x' /\ (x' == x)%Q /\ ~ (x == 0)%Q.
Proof.
  exists (table [5; 3]%Q [5; 3]%Q). do 4 eexists.
  split; [tab|]. split; [tab|].
  split; [vm_compute; reflexivity|]. split; [vm_compute; reflexivity|].
  split; [vm_compute; reflexivity|]. split; [vm_compute; reflexivity|].
  split; [reflexivity|vm_compute; discriminate].
Qed.

(** C72. Without equal turnout the score can exceed 1. *)
Theorem C72_gini_above_one_refuted : exists counts R x,
  complete two three counts /\ nonnegative two three counts /\
  (forall r, In r three -> (0 < turnout two counts r)%Q) /\
  make_results two counts three = Ok R /\ partisan_gini R = Ok (Num x) /\ (1 < x)%Q.
Proof.
  exists (table [12; 0; 0]%Q [0; 1; 1]%Q). do 2 eexists.
  split; [tab|]. split; [tab|]. split; [intros r [<-|[<-|[<-|[]]]]; reflexivity|].
  split; [vm_compute; reflexivity|]. split; [vm_compute; reflexivity|reflexivity].
Qed.
Example C72_example : exists x, partisan_gini (results_of [6; 2; 1]%Q [2; 6; 7]%Q) = Ok (Num x) /\ (x == 1 # 6)%Q.
Proof. eexists. split; [vm_compute; reflexivity|reflexivity]. Qed.
Example C73_example :
  (forall r, In r three -> (0 < turnout two tab3 r)%Q) /\
  (exists x, mean_median (results_of [6; 2; 1]%Q [2; 6; 7]%Q) = Ok (Num x) /\ (x == - (1 # 8))%Q) /\
  (exists x, mean_thirdian (results_of [6; 2; 1]%Q [2; 6; 7]%Q) = Ok (Num x) /\ (x == - (1 # 8))%Q) /\
  (exists x, partisan_bias (results_of [6; 2; 1]%Q [2; 6; 7]%Q) = Ok x /\ (x == - (1 # 6))%Q) /\
  (exists x, partisan_bias (results_of [6; 2; 0]%Q [2; 6; 0]%Q) = Ok x /\ (x == - (1 # 2))%Q).
Proof.
  split; [intros r [<-|[<-|[<-|[]]]]; reflexivity|].
  split; [eexists; split; [vm_compute; reflexivity|reflexivity]|].
  split; [eexists; split; [vm_compute; reflexivity|reflexivity]|].
  split; [eexists; split; [vm_compute; reflexivity|reflexivity]|].
  eexists; split; [vm_compute; reflexivity|reflexivity].
Qed.

Print Assumptions C19_won.
Print Assumptions C19_at_most_one_winner.
Print Assumptions C19_winner_iff_unique_maximum.
Print Assumptions C19_tie_elects_nobody.
Print Assumptions C19_seats.
Print Assumptions C19_seats_bounded.
Print Assumptions C20_shares.
Print Assumptions C20_no_votes_nan.
Print Assumptions C20_overall_share.
Print Assumptions C20_no_votes_at_all.
Print Assumptions C71_wasted_votes.
Print Assumptions C71_efficiency_gap.
Print Assumptions C71_antisymmetric.
Print Assumptions C71_equal_turnout.
Print Assumptions C72_gini_nobody_voted.
Print Assumptions C72_gini_range.
Print Assumptions C72_gini_symmetric.
Print Assumptions C72_gini_equal_turnout.
Print Assumptions C73_median_splits.
Print Assumptions C73_mean_median_antisymmetric.
Print Assumptions C73_mean_thirdian.
Print Assumptions C73_partisan_bias.
Print Assumptions C73_empty_district.
Print Assumptions C71_not_two_parties.
Print Assumptions C71_nobody_voted.
Print Assumptions C71_tie_refuted.
Print Assumptions C72_gini_above_one_refuted.
