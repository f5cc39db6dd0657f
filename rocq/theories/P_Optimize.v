(** C63-C66: the runs of the optimizer. *)
From Coq Require Import List Bool Arith ZArith QArith Lia ZifyBool ZifyNat.
From Verif Require Import Base M_Constraints P_Constraints M_Chain P_Chain M_Election M_Optimize.
Import ListNotations.
Local Open Scope nat_scope.
Local Open Scope list_scope.

Section Optimizer.
  Context {X W V : Type} {SV : Scores V}.
  Variable proposal : X -> W -> res X * W.
  Variable accept : X -> W -> res pyval * W.
  Variable erase : X -> W -> W.
  Variable named : constraint X W -> bool.
  Variable score : X -> W -> res V * W.
  Variable maximize : bool.
  Notation next := (next proposal accept erase).
  Notation drive := (drive proposal accept erase score).
  Notation burst := (burst proposal accept erase named score).
  Notation bursts := (bursts proposal accept erase named score maximize).
  Notation short_bursts := (short_bursts proposal accept erase named score maximize).
  Notation single_run := (single_run proposal accept erase named score maximize).
  Notation variable_loop := (variable_loop proposal accept erase named score maximize).
  Notation variable_length_short_bursts := (variable_length_short_bursts proposal accept erase named score maximize).
  Notation point := (@point X W V).
  Notation progress := (@progress X V).
  Implicit Types (x y : X) (w : W) (s t : V) (ys : list point) (p : progress) (ch : chain X W) (a : constraints_arg X W).

  (** ** Specification *)

  (** [s] is at least as good as [t]: at least when maximising, at most when
      minimising. *)
  Definition good (s t : V) : Prop := if maximize then sle t s = true else sle s t = true.
  (** Among the initial plan and the plans of [ys] that have been scored,
      [best] is the last one with the best score, and [sc] is that score. *)
  Definition leader (x0 : X) (s0 : V) (ys : list point) (best : X) (sc : V) : Prop :=
    (best = x0 /\ sc = s0 /\ forall pt s, In pt ys -> y_scored pt = Some s -> ~ good s sc) \/
    (exists l1 pt l2, ys = l1 ++ pt :: l2 /\ y_plan pt = best /\ y_scored pt = Some sc /\ good sc s0 /\
       (forall q s, In q l1 -> y_scored q = Some s -> good sc s) /\
       (forall q s, In q l2 -> y_scored q = Some s -> ~ good s sc)).
  (** At every yield best_part and best_score are those of the plans scored
      before. *)
  Definition led (x0 : X) (s0 : V) (ys : list point) : Prop :=
    forall before pt after, ys = before ++ pt :: after -> leader x0 s0 before (y_best pt) (y_score pt).

  (** ** Lemmas *)
  Lemma improvement_iff s t : is_improvement maximize s t = true <-> good s t.
  Proof. unfold is_improvement, good. destruct maximize; reflexivity. Qed.
  Lemma good_refl s : good s s.
  Proof. unfold good. destruct maximize; destruct (sle_total s s); auto. Qed.
  Lemma good_total s t : good s t \/ good t s.
  Proof. unfold good. destruct maximize; destruct (sle_total s t); auto. Qed.
  Lemma good_trans s t u : good s t -> good t u -> good s u.
  Proof. unfold good. destruct maximize; intros; eapply sle_trans; eauto. Qed.

  Lemma leader_best x0 s0 ys best sc : leader x0 s0 ys best sc ->
    good sc s0 /\ forall pt s, In pt ys -> y_scored pt = Some s -> good sc s.
  Proof.
    intros [(-> & -> & H)|(l1 & q & l2 & -> & Hb & Hs & H0 & H1 & H2)].
    - split; [apply good_refl|]. intros pt s Hp Hs. destruct (good_total s s0) as [G|G]; auto. now destruct (H pt s Hp Hs).
    - split; auto. intros pt s Hp E. apply in_app_iff in Hp. destruct Hp as [Hp|[<-|Hp]]; [now apply (H1 pt)| |].
      + rewrite Hs in E. injection E as ->. apply good_refl.
      + destruct (good_total s sc) as [G|G]; auto. exfalso. now apply (H2 pt s Hp E).
  Qed.
  Lemma leader_add x0 s0 ys best sc pt : leader x0 s0 ys best sc ->
    (forall s, y_scored pt = Some s -> if is_improvement maximize s sc then False else True) -> leader x0 s0 (ys ++ [pt]) best sc.
  Proof.
    intros H Hw. assert (W_ : forall s, y_scored pt = Some s -> ~ good s sc).
    { intros s Hs G. specialize (Hw s Hs). apply improvement_iff in G. now rewrite G in Hw. }
    destruct H as [(-> & -> & H)|(l1 & q & l2 & -> & Hb & Hs & H0 & H1 & H2)].
    - left. split; auto. split; auto. intros q s Hq. apply in_app_iff in Hq. destruct Hq as [Hq|[<-|[]]]; eauto.
    - right. exists l1, q, (l2 ++ [pt]). rewrite <- app_assoc. split; [reflexivity|]. do 4 (split; [auto|]).
      intros r s Hr. apply in_app_iff in Hr. destruct Hr as [Hr|[<-|[]]]; eauto.
  Qed.
  Lemma leader_new x0 s0 ys best sc pt s : leader x0 s0 ys best sc -> y_scored pt = Some s -> good s sc -> leader x0 s0 (ys ++ [pt]) (y_plan pt) s.
  Proof.
    intros H Hs G. apply leader_best in H. destruct H as [H0 H1]. right. exists ys, pt, []. split; auto. split; auto. split; auto.
    split; [eapply good_trans; eauto|]. split; [intros; eapply good_trans; eauto|intros q u []].
  Qed.

  (** Both ways of processing a score update the best plan alike. *)
  Definition updates (process : progress -> X -> V -> progress * bool) : Prop :=
    forall p x s, (p_best (fst (process p x s)), p_score (fst (process p x s))) =
                  if is_improvement maximize s (p_score p) then (x, s) else (p_best p, p_score p).
  Lemma keep_best_updates : updates (keep_best maximize).
  Proof. intros p x s. unfold keep_best. cbn [fst]. now destruct (is_improvement _ _ _). Qed.
  Lemma keep_count_updates n : updates (keep_count maximize n).
  Proof. intros p x s. unfold keep_count. cbn [fst]. now destruct (is_improvement _ _ _). Qed.

  Lemma led_app x0 s0 pre pt ys : led x0 s0 pre -> leader x0 s0 pre (y_best pt) (y_score pt) ->
    led x0 s0 (pre ++ [pt]).
  Proof.
    intros H1 H2 before q after E. destruct after as [|z l] using rev_ind.
    - apply app_inj_tail in E. destruct E as [-> ->]. auto.
    - rewrite app_comm_cons, app_assoc in E. apply app_inj_tail in E. destruct E as [E _]. eapply H1; eauto.
  Qed.
  Lemma led_nil x0 s0 : led x0 s0 [].
  Proof. intros [|b before] pt after E; discriminate. Qed.

  Lemma drive_led n fuel user process x0 s0 : updates process -> forall pre ch p w ys en p' ch' w',
    led x0 s0 pre -> leader x0 s0 pre (p_best p) (p_score p) ->
    drive n fuel user process ch p w = (ys, en, p', ch', w') ->
    led x0 s0 (pre ++ ys) /\ leader x0 s0 (pre ++ ys) (p_best p') (p_score p').
  Proof.
    intro U. induction n as [|n IH]; intros pre ch p w ys en p' ch' w' Hl Hp H; cbn [M_Optimize.drive] in H.
    - injection H as <- <- <- <- <-. rewrite app_nil_r. auto.
    - destruct (next fuel ch w) as [[[x|ex|] ch1] w1].
      + destruct (score x (user x w1)) as [[s|ex|] w2].
        * specialize (U p x s). destruct (process p x s) as [p1 stop]. cbn [fst] in U.
          set (pt := mkPoint x w1 (p_best p) (p_score p) (Some s)) in *.
          assert (Hl1 : led x0 s0 (pre ++ [pt])) by (apply led_app; auto).
          assert (Hp1 : leader x0 s0 (pre ++ [pt]) (p_best p1) (p_score p1)).
          { destruct (is_improvement maximize s (p_score p)) eqn:Ei; injection U as -> ->.
            - apply improvement_iff in Ei. change x with (y_plan pt). eapply leader_new; eauto.
            - apply leader_add; auto. intros s' Hs'. cbn in Hs'. injection Hs' as <-. now rewrite Ei. }
          destruct stop.
          -- injection H as <- <- <- <- <-. auto.
          -- destruct (drive n fuel user process ch1 p1 w2) as [[[[ys2 en2] p2] ch2] w3] eqn:Ed. injection H as <- <- <- <- <-.
             change (pt :: ys2) with ([pt] ++ ys2). rewrite app_assoc. eapply IH; eauto.
        * injection H as <- <- <- <- <-. split; [apply led_app; auto|]. apply leader_add; auto. discriminate.
        * injection H as <- <- <- <- <-. split; [apply led_app; auto|]. apply leader_add; auto. discriminate.
      + assert (ys = [] /\ p' = p) as [-> ->] by (destruct ex; injection H as <- <- <- <- <-; auto). rewrite app_nil_r. auto.
      + injection H as <- <- <- <- <-. rewrite app_nil_r. auto.
  Qed.
  Lemma burst_led n fuel user process a len x0 s0 : updates process -> forall pre p w ys en p' a' w',
    led x0 s0 pre -> leader x0 s0 pre (p_best p) (p_score p) ->
    burst n fuel user process a len p w = (ys, en, p', a', w') ->
    led x0 s0 (pre ++ ys) /\ leader x0 s0 (pre ++ ys) (p_best p') (p_score p').
  Proof.
    intros U pre p w ys en p' a' w' Hl Hp H. unfold M_Optimize.burst in H. destruct (construct named a (p_best p) (Z.of_nat len) w) as [[ch|ex|] w1].
    - destruct (drive n fuel user process (iter ch) p w1) as [[[[ys1 en1] p1] ch1] w2] eqn:Ed. injection H as <- <- <- <- <-. eapply drive_led; eauto.
    - injection H as <- <- <- <- <-. rewrite app_nil_r. auto.
    - injection H as <- <- <- <- <-. rewrite app_nil_r. auto.
  Qed.
  Lemma bursts_led k : forall n fuel user a len x0 s0 pre p w ys en p' w',
    led x0 s0 pre -> leader x0 s0 pre (p_best p) (p_score p) ->
    bursts k n fuel user a len p w = (ys, en, p', w') ->
    led x0 s0 (pre ++ ys) /\ leader x0 s0 (pre ++ ys) (p_best p') (p_score p').
  Proof.
    induction k as [|k IH]; intros n fuel user a len x0 s0 pre p w ys en p' w' Hl Hp H; cbn [M_Optimize.bursts] in H.
    - injection H as <- <- <- <-. rewrite app_nil_r. auto.
    - destruct (burst n fuel user (keep_best maximize) a len p w) as [[[[ys1 en1] p1] a1] w1] eqn:Eb.
      destruct (burst_led _ _ _ _ _ _ _ _ keep_best_updates _ _ _ _ _ _ _ _ Hl Hp Eb) as [Hl1 Hp1].
      destruct en1.
      + destruct (bursts k n fuel user a1 len p1 w1) as [[[zs en2] p2] w2] eqn:E2. injection H as <- <- <- <-.
        rewrite app_assoc. eapply IH; eauto.
      + injection H as <- <- <- <-. auto.
      + injection H as <- <- <- <-. auto.
  Qed.
  Lemma variable_led k : forall n fuel user a num_steps stuck_buffer len x0 s0 pre p w ys en p' w',
    led x0 s0 pre -> leader x0 s0 pre (p_best p) (p_score p) ->
    variable_loop k n fuel user a num_steps stuck_buffer len p w = (ys, en, p', w') ->
    led x0 s0 (pre ++ ys) /\ leader x0 s0 (pre ++ ys) (p_best p') (p_score p').
  Proof.
    induction k as [|k IH]; intros n fuel user a num_steps stuck_buffer len x0 s0 pre p w ys en p' w' Hl Hp H; cbn [M_Optimize.variable_loop] in H;
      destruct (Nat.ltb (p_i p) num_steps); try (injection H as <- <- <- <-; rewrite app_nil_r; auto; fail).
    destruct (burst n fuel user (keep_count maximize num_steps) a len p w) as [[[[ys1 en1] p1] a1] w1] eqn:Eb.
    destruct (burst_led _ _ _ _ _ _ _ _ (keep_count_updates num_steps) _ _ _ _ _ _ _ _ Hl Hp Eb) as [Hl1 Hp1].
    destruct en1.
    + destruct (variable_loop k n fuel user a1 num_steps stuck_buffer _ p1 w1) as [[[zs en2] p2] w2] eqn:E2. injection H as <- <- <- <-.
      rewrite app_assoc. eapply IH; eauto.
    + injection H as <- <- <- <-. auto.
    + injection H as <- <- <- <-. auto.
  Qed.
  Lemma leader_start x0 s0 : leader x0 s0 [] x0 s0.
  Proof. left. split; [reflexivity|]. split; [reflexivity|]. intros pt s []. Qed.

  (** ** C63 *)
  (** [run] has scored the initial plan first; then at every yield and at the
      end the best plan is the last one with the best score. *)
  Definition tracks_best (initial : X) (run : list point * ending * option progress * W) : Prop :=
    forall ys en p w', run = (ys, en, Some p, w') ->
    exists s0 w0 w1, score initial w0 = (Ok s0, w1) /\ led initial s0 ys /\ leader initial s0 ys (p_best p) (p_score p).
  Theorem C63_short_bursts n fuel user a burst_length num_bursts initial w :
    tracks_best initial (short_bursts n fuel user a burst_length num_bursts initial w).
  Proof.
    intros ys en p w' H. unfold M_Optimize.short_bursts, started in H. destruct (score initial w) as [[s0|ex|] w1] eqn:Es; try discriminate.
    destruct (bursts _ _ _ _ _ _ _ _) as [[[zs en1] p1] w2] eqn:Eb. injection H as <- <- <- <-. exists s0, w, w1. split; auto.
    exact (bursts_led _ _ _ _ _ _ initial s0 [] (mkProgress initial s0 0 0) _ _ _ _ _ (led_nil _ _) (leader_start _ _) Eb).
  Qed.
  Theorem C63_single_run n fuel user a num_steps initial w :
    tracks_best initial (single_run n fuel user a num_steps initial w).
  Proof.
    intros ys en p w' H. unfold M_Optimize.single_run, started in H. destruct (construct named a initial _ w) as [[ch|ex|] w0]; try discriminate.
    destruct (score initial w0) as [[s0|ex|] w1] eqn:Es; try discriminate.
    destruct (drive _ _ _ _ _ _ _) as [[[[zs en1] p1] ch1] w2] eqn:Eb. injection H as <- <- <- <-. exists s0, w0, w1. split; auto.
    exact (drive_led _ _ _ _ initial s0 keep_best_updates [] _ (mkProgress initial s0 0 0) _ _ _ _ _ _ (led_nil _ _) (leader_start _ _) Eb).
  Qed.
  Theorem C63_variable_length n fuel user k a num_steps stuck_buffer initial w :
    tracks_best initial (variable_length_short_bursts k n fuel user a num_steps stuck_buffer initial w).
  Proof.
    intros ys en p w' H. unfold M_Optimize.variable_length_short_bursts, started in H. destruct (score initial w) as [[s0|ex|] w1] eqn:Es; try discriminate.
    destruct (variable_loop _ _ _ _ _ _ _ _ _ _) as [[[zs en1] p1] w2] eqn:Eb. injection H as <- <- <- <-. exists s0, w, w1. split; auto.
    exact (variable_led _ _ _ _ _ _ _ _ initial s0 [] (mkProgress initial s0 0 0) _ _ _ _ _ (led_nil _ _) (leader_start _ _) Eb).
  Qed.
  (** Hence best_score is at least as good as the initial score and every
      score computed before, and it never gets worse. *)
  Theorem C63_never_worse x0 s0 ys : led x0 s0 ys -> forall before pt middle pt' after,
    ys = before ++ pt :: middle ++ pt' :: after -> good (y_score pt') (y_score pt).
  Proof.
    intros H before pt middle pt' after E. assert (L1 := H _ _ _ E).
    rewrite app_comm_cons, app_assoc in E. assert (L2 := H _ _ _ E). apply leader_best in L2. destruct L2 as [G0 G].
    destruct L1 as [(_ & -> & _)|(l1 & q & l2 & -> & _ & Hs & _)]; auto.
    apply (G q); auto. rewrite !in_app_iff. cbn. auto.
  Qed.
  Theorem C63_best_of_all x0 s0 ys best sc : leader x0 s0 ys best sc ->
    good sc s0 /\ (forall pt s, In pt ys -> y_scored pt = Some s -> good sc s) /\
    ((best = x0 /\ sc = s0) \/ exists pt, In pt ys /\ y_plan pt = best /\ y_scored pt = Some sc).
  Proof.
    intro H. destruct (leader_best _ _ _ _ _ H) as [G1 G2]. split; auto. split; auto.
    destruct H as [(H1 & H2 & _)|(l1 & q & l2 & -> & Hb & Hs & _)]; auto. right. exists q. split; [apply in_elt|]. auto.
  Qed.

  (** ** C64 *)
  Notation loop := (loop proposal accept erase).
  (** A loop of the optimizer that ends is a loop over the chain. *)
  Definition body (user : X -> W -> W) (x : X) (w : W) : W := snd (score x (user x w)).
  Lemma drive_loop n fuel user : forall ch p w ys p' ch' w',
    drive n fuel user (keep_best maximize) ch p w = (ys, Finished, p', ch', w') ->
    loop n fuel (body user) ch w = (map (fun pt => (y_plan pt, y_world pt)) ys, Finished, ch', w').
  Proof.
    induction n as [|n IH]; intros ch p w ys p' ch' w' H; cbn [M_Optimize.drive] in H; [discriminate|]. cbn [M_Chain.loop].
    destruct (next fuel ch w) as [[[x|ex|] ch1] w1].
    - destruct (score x (user x w1)) as [[s|ex|] w2] eqn:Es; try discriminate.
      assert (St : snd (keep_best maximize p x s) = false) by reflexivity. destruct (keep_best maximize p x s) as [p1 stop]. cbn [snd] in St. subst stop.
      destruct (drive n fuel user (keep_best maximize) ch1 p1 w2) as [[[[ys2 en2] p2] ch2] w3] eqn:Ed. injection H as <- -> <- <- <-.
      apply IH in Ed. assert (Hb : body user x w1 = w2) by (unfold body; now rewrite Es). rewrite Hb. rewrite Ed. reflexivity.
    - destruct ex; try discriminate. injection H as <- <- <- <-. reflexivity.
    - discriminate.
  Qed.
  (** The chain's constraints and length stay as they are. *)
  Lemma drive_fixed n fuel user process cs : forall ch p w ys en p' ch' w', ch_valid ch = Reusable cs ->
    drive n fuel user process ch p w = (ys, en, p', ch', w') -> ch_valid ch' = Reusable cs.
  Proof.
    induction n as [|n IH]; intros ch p w ys en p' ch' w' Hv H; cbn [M_Optimize.drive] in H; [injection H as _ _ _ <- _; auto|].
    destruct (next fuel ch w) as [[r ch1] w1] eqn:En. destruct (next_fixed proposal accept erase _ _ _ _ Hv _ _ _ En) as (Hv1 & _).
    destruct r as [x|ex|].
    - destruct (score x (user x w1)) as [[s|ex|] w2]; try (injection H as _ _ _ <- _; auto; fail).
      destruct (process p x s) as [p1 [|]]; [injection H as _ _ _ <- _; auto|].
      destruct (drive n fuel user process ch1 p1 w2) as [[[[ys2 en2] p2] ch2] w3] eqn:Ed. injection H as _ _ _ <- _. eapply IH; eauto.
    - destruct ex; injection H as _ _ _ <- _; auto.
    - injection H as _ _ _ <- _; auto.
  Qed.
  Lemma construct_ok a cs x total w ch w' : make_validator a = Reusable cs -> construct named a x total w = (Ok ch, w') ->
    ch = mkChain (Reusable cs) total x x None.
  Proof.
    intros Ha H. unfold construct in H. rewrite Ha in H. destruct (check_initial named (Reusable cs) x w) as [[i|ex|] w1] eqn:Ec; try discriminate.
    injection H as <- _. destruct (check_initial_ok _ _ _ _ _ _ Ec) as [_ Hi]. now rewrite (Hi cs eq_refl).
  Qed.
  Lemma left_over_ok a cs ch : make_validator a = Reusable cs -> ch_valid ch = Reusable cs -> make_validator (left_over a ch) = Reusable cs.
  Proof. destruct a as [c|i]; cbn; auto. Qed.

  Lemma next_count fuel ch w x ch' w' k : ch_counter ch = Some k -> next fuel ch w = (Ok x, ch', w') ->
    ch_total ch' = ch_total ch /\ ch_counter ch' = Some (k + 1)%Z /\ (k = 0 \/ k < ch_total ch)%Z.
  Proof.
    intros Hk H. unfold M_Chain.next in H. rewrite Hk in H. destruct (Z.eqb_spec k 0) as [->|N0].
    - injection H as _ <- _. cbn. auto.
    - revert ch Hk w H. induction fuel as [|fuel IH]; intros ch Hk w H; cbn [advance] in H; [discriminate|].
      destruct (Z.ltb_spec k (ch_total ch)) as [Hl|Hl]; [|discriminate].
      destruct (proposal (ch_state ch) w) as [[y|ex|] w1]; try discriminate.
      destruct (validator (ch_valid ch) y (erase (ch_state ch) w1)) as [[[[|]|ex|] w3] i]; try discriminate.
      + destruct (accept y w3) as [[v|ex|] w4]; try discriminate. injection H as _ <- _. cbn. auto.
      + apply IH in H; auto.
  Qed.
  Lemma next_done fuel ch w k : ch_counter ch = Some k -> (0 < k)%Z -> (ch_total ch <= k)%Z ->
    next fuel ch w = (Err StopIteration, ch, w) \/ next fuel ch w = (NoFuel, ch, w).
  Proof.
    intros Hk H0 Hl. unfold M_Chain.next. rewrite Hk. destruct (Z.eqb_spec k 0) as [->|N0]; [lia|].
    destruct fuel; cbn [advance]; [auto|]. destruct (Z.ltb_spec k (ch_total ch)); [lia|auto].
  Qed.
  Lemma burst_spec n fuel user a cs len p w ys p' a' w' : make_validator a = Reusable cs -> quiet proposal accept cs ->
    burst n fuel user (keep_best maximize) a len p w = (ys, Finished, p', a', w') ->
    make_validator a' = Reusable cs /\ List.length ys = max 1 len /\
    exists pt rest, ys = pt :: rest /\ y_plan pt = p_best p /\ y_best pt = p_best p.
  Proof.
    intros Ha Q H. unfold M_Optimize.burst in H. destruct (construct named a (p_best p) (Z.of_nat len) w) as [[ch|ex|] w1] eqn:Ec; try discriminate.
    apply (construct_ok a cs) in Ec; auto. destruct (drive n fuel user (keep_best maximize) (iter ch) p w1) as [[[[ys1 en1] p1] ch1] w2] eqn:Ed.
    injection H as <- -> <- <- <-. assert (Hv : ch_valid ch = Reusable cs) by now rewrite Ec.
    split; [apply left_over_ok; auto; eapply (drive_fixed _ _ _ _ cs); [|exact Ed]; exact Hv|].
    assert (Dl := drive_loop _ _ _ _ _ _ _ _ _ _ Ed). change (loop n fuel (body user) (iter ch) w1) with (for_loop proposal accept erase n fuel (body user) ch w1) in Dl.
    destruct (C35_chain_length proposal accept erase _ _ _ _ _ _ _ _ cs Hv Q Dl) as [Hl _]. rewrite map_length in Hl.
    split. { rewrite Hl, Ec. cbn [ch_total]. lia. }
    destruct n as [|n]; cbn [M_Optimize.drive] in Ed; [discriminate|]. unfold M_Chain.next in Ed. cbn [iter ch_counter Z.eqb ch_state] in Ed.
    destruct (score _ _) as [[s|ex|] w3]; try discriminate.
    assert (St : snd (keep_best maximize p (ch_initial ch) s) = false) by reflexivity. destruct (keep_best maximize p (ch_initial ch) s) as [q1 stop]. cbn [snd] in St. subst stop.
    match type of Ed with (match ?d with _ => _ end) = _ => destruct d as [[[[ys2 en2] p2] ch2] w4] eqn:Ed2 end. injection Ed as <- _ _ _ _.
    eexists _, ys2. split; [reflexivity|]. cbn. now rewrite Ec.
  Qed.
  Theorem C64_short_bursts n fuel user a cs burst_length num_bursts initial w ys op w' :
    make_validator a = Reusable cs -> quiet proposal accept cs ->
    short_bursts n fuel user a burst_length num_bursts initial w = (ys, Finished, op, w') ->
    List.length ys = max 1 burst_length * num_bursts /\
    forall k, k < num_bursts -> exists pt, nth_error ys (max 1 burst_length * k) = Some pt /\ y_plan pt = y_best pt.
  Proof.
    intros Ha Q H. unfold M_Optimize.short_bursts, started in H. destruct (score initial w) as [[s0|ex|] w1]; try discriminate.
    destruct (bursts num_bursts n fuel user a burst_length (mkProgress initial s0 0 0) w1) as [[[zs en1] p1] w2] eqn:Eb. injection H as <- -> _ _.
    revert Eb Ha. generalize (mkProgress initial s0 0 0). clear s0 initial w. revert a w1 zs p1 w2. induction num_bursts as [|k IH]; intros a w1 zs p1 w2 p0 Eb Ha; cbn [M_Optimize.bursts] in Eb.
    - injection Eb as <- _ _. split; [cbn; lia|]. intros k Hk. lia.
    - destruct (burst n fuel user (keep_best maximize) a burst_length p0 w1) as [[[[ys1 en1] p2] a1] w3] eqn:E1.
      destruct en1; try discriminate. destruct (burst_spec _ _ _ _ cs _ _ _ _ _ _ _ Ha Q E1) as (Ha1 & Hl1 & pt & rest & Ey & Y1 & Y2).
      destruct (bursts k n fuel user a1 burst_length p2 w3) as [[[zs2 en2] p3] w4] eqn:E2. injection Eb as <- -> <- <-.
      destruct (IH _ _ _ _ _ _ E2 Ha1) as [Hl Hk]. rewrite app_length. split; [rewrite Hl1, Hl; lia|].
      intros [|j] Hj.
      + rewrite Nat.mul_0_r. exists pt. rewrite Ey. split; [reflexivity|congruence].
      + destruct (Hk j ltac:(lia)) as (q & Hq & Eq). exists q. split; auto. rewrite nth_error_app2 by (rewrite Hl1; lia).
        rewrite Hl1. replace (max 1 burst_length * Datatypes.S j - max 1 burst_length) with (max 1 burst_length * j) by lia. exact Hq.
  Qed.
  Theorem C64_single_run n fuel user a cs num_steps initial w ys op w' :
    make_validator a = Reusable cs -> quiet proposal accept cs ->
    single_run n fuel user a num_steps initial w = (ys, Finished, op, w') ->
    List.length ys = max 1 num_steps /\ exists pt rest, ys = pt :: rest /\ y_plan pt = initial.
  Proof.
    intros Ha Q H. unfold M_Optimize.single_run, started in H. destruct (construct named a initial (Z.of_nat num_steps) w) as [[ch|ex|] w0] eqn:Ec; try discriminate.
    destruct (score initial w0) as [[s0|ex|] w1]; try discriminate.
    apply (construct_ok a cs) in Ec; auto.
    destruct (drive n fuel user (keep_best maximize) (iter ch) (mkProgress initial s0 0 0) w1) as [[[[ys1 en1] p1] ch1] w2] eqn:Ed. injection H as <- -> _ _.
    assert (Hv : ch_valid ch = Reusable cs) by now rewrite Ec.
    assert (Dl := drive_loop _ _ _ _ _ _ _ _ _ _ Ed). change (loop n fuel (body user) (iter ch) w1) with (for_loop proposal accept erase n fuel (body user) ch w1) in Dl.
    destruct (C35_chain_length proposal accept erase _ _ _ _ _ _ _ _ cs Hv Q Dl) as [Hl (rest & Hr)]. rewrite map_length in Hl.
    split; [rewrite Hl, Ec; cbn [ch_total]; lia|]. destruct ys1 as [|pt ys1]; [discriminate|]. exists pt, ys1. split; [reflexivity|].
    cbn in Hr. injection Hr as Hr _. rewrite Hr, Ec. reflexivity.
  Qed.

  Lemma construct_start a x total w ch w' : construct named a x total w = (Ok ch, w') ->
    ch_initial ch = x /\ ch_total ch = total /\ (forall cs, make_validator a = Reusable cs -> ch_valid ch = Reusable cs).
  Proof.
    unfold construct. intro H. destruct (check_initial named (make_validator a) x w) as [[i|ex|] w1] eqn:Ec; try discriminate.
    injection H as <- _. destruct (check_initial_ok _ _ _ _ _ _ Ec) as [_ Hi]. cbn. auto.
  Qed.
  (** The runs do end when nothing raises and every plan is valid. *)
  Definition cannot_fail (cs : list (constraint X W)) : Prop :=
    (forall x w, exists y w', proposal x w = (Ok y, w')) /\ (forall x w, exists v w', accept x w = (Ok v, w')) /\
    (forall x w, exists w', all_true cs x w w') /\ (forall x w, exists s w', score x w = (Ok s, w')).
  Lemma valid_total cs x w : cannot_fail cs -> exists w', validator (Reusable cs) x w = (Ok true, w', Reusable cs).
  Proof.
    intros (_ & _ & C & _). destruct (C x w) as (w' & A). exists w'. pose proof (C24_validator cs x w) as (V1 & _). pose proof (validator_reusable cs x w) as Vi.
    apply V1 in A. destruct (validator (Reusable cs) x w) as [b i]. cbn in *. congruence.
  Qed.
  Lemma next_total cs fuel ch w k : cannot_fail cs -> ch_valid ch = Reusable cs -> ch_counter ch = Some k -> (0 <= k)%Z -> (k = 0 \/ k < ch_total ch)%Z ->
    exists x ch1 w1, next (Datatypes.S fuel) ch w = (Ok x, ch1, w1).
  Proof.
    intros C Hv Hk H0 Hl. unfold M_Chain.next. rewrite Hk. destruct (Z.eqb_spec k 0) as [|N0]; [eauto|]. cbn [advance].
    destruct (Z.ltb_spec k (ch_total ch)); [|lia]. assert (C' := C). destruct C' as (P1 & P2 & P3 & P4).
    destruct (P1 (ch_state ch) w) as (y & w1 & ->). rewrite Hv. destruct (valid_total cs y (erase (ch_state ch) w1) C) as (w2 & ->).
    destruct (P2 y w2) as (v & w3 & ->). eauto.
  Qed.
  Lemma drive_total cs fuel user process : cannot_fail cs -> forall n ch p w k, ch_valid ch = Reusable cs -> ch_counter ch = Some k -> (0 <= k)%Z ->
    (Z.to_nat (Z.max 1 (ch_total ch) - k) < n)%nat -> exists ys p' ch' w', drive n (Datatypes.S fuel) user process ch p w = (ys, Finished, p', ch', w').
  Proof.
    intro C. induction n as [|n IH]; intros ch p w k Hv Hk H0 Hn; [lia|]. cbn [M_Optimize.drive].
    assert (D : (k = 0 \/ k < ch_total ch)%Z \/ (0 < k /\ ch_total ch <= k)%Z) by lia. destruct D as [D|[D1 D2]].
    - destruct (next_total cs fuel ch w k C Hv Hk H0 D) as (x & ch1 & w1 & En). rewrite En.
      destruct (next_fixed proposal accept erase _ _ _ _ Hv _ _ _ En) as (Hv1 & _). destruct (next_count _ _ _ _ _ _ _ Hk En) as (T1 & K1 & _).
      assert (C' := C). destruct C' as (_ & _ & _ & Sc). destruct (Sc x (user x w1)) as (s & w2 & ->). destruct (process p x s) as [p1 [|]]; [eauto 10|].
      destruct (IH ch1 p1 w2 (k + 1)%Z Hv1 K1) as (ys & p' & ch' & w' & ->); [lia|rewrite T1; lia|]. eauto 10.
    - unfold M_Chain.next. rewrite Hk. destruct (Z.eqb_spec k 0) as [|N0]; [lia|]. cbn [advance].
      destruct (Z.ltb_spec k (ch_total ch)); [lia|]. eauto 10.
  Qed.
  Lemma construct_total cs a x total w : cannot_fail cs -> make_validator a = Reusable cs -> exists ch w', construct named a x total w = (Ok ch, w').
  Proof. intros C Ha. unfold construct, check_initial. rewrite Ha. destruct (valid_total cs x w C) as (w2 & ->). eauto. Qed.
  Lemma burst_total cs n fuel user process a len p w : cannot_fail cs -> make_validator a = Reusable cs -> max 1 len < n ->
    exists ys p' a' w', burst n (Datatypes.S fuel) user process a len p w = (ys, Finished, p', a', w') /\ make_validator a' = Reusable cs.
  Proof.
    intros C Ha Hn. unfold M_Optimize.burst. destruct (construct_total cs a (p_best p) (Z.of_nat len) w C Ha) as (ch & w1 & Ec). rewrite Ec.
    destruct (construct_start _ _ _ _ _ _ Ec) as (_ & Et & Ev). specialize (Ev cs Ha).
    destruct (drive_total cs fuel user process C n (iter ch) p w1 0%Z Ev eq_refl (Z.le_refl 0)) as (ys & p' & ch' & w' & Ed).
    { change (ch_total (iter ch)) with (ch_total ch). rewrite Et. lia. }
    rewrite Ed. do 4 eexists. split; [reflexivity|]. apply left_over_ok; auto. eapply (drive_fixed _ _ _ _ cs); [|exact Ed]. exact Ev.
  Qed.
  Theorem C64_finishes cs n fuel user a burst_length num_bursts initial w : cannot_fail cs -> make_validator a = Reusable cs ->
    max 1 burst_length < n -> 0 < fuel ->
    (exists ys p w', short_bursts n fuel user a burst_length num_bursts initial w = (ys, Finished, Some p, w')) /\
    (exists ys p w', single_run n fuel user a burst_length initial w = (ys, Finished, Some p, w')).
  Proof.
    intros C Ha Hn Hf. destruct fuel as [|fuel]; [lia|]. split.
    - unfold M_Optimize.short_bursts, started. assert (C' := C). destruct C' as (_ & _ & _ & Sc). destruct (Sc initial w) as (s & w1 & ->).
      assert (G : forall k a p w, make_validator a = Reusable cs -> exists ys p' w', bursts k n (Datatypes.S fuel) user a burst_length p w = (ys, Finished, p', w')).
      { clear - C Hn. induction k as [|k IH]; intros a p w Ha; cbn [M_Optimize.bursts]; [eauto|].
        destruct (burst_total cs n fuel user (keep_best maximize) a burst_length p w C Ha Hn) as (ys & p' & a' & w' & -> & Ha').
        destruct (IH a' p' w' Ha') as (zs & p2 & w2 & ->). eauto. }
      destruct (G num_bursts a (mkProgress initial s 0 0) w1 Ha) as (ys & p & w2 & ->). eauto.
    - unfold M_Optimize.single_run. destruct (construct_total cs a initial (Z.of_nat burst_length) w C Ha) as (ch & w1 & Ec). rewrite Ec. unfold started.
      destruct (construct_start _ _ _ _ _ _ Ec) as (_ & Et & Ev). specialize (Ev cs Ha). assert (C' := C). destruct C' as (_ & _ & _ & Sc). destruct (Sc initial w1) as (s & w2 & ->).
      destruct (drive_total cs fuel user (keep_best maximize) C n (iter ch) (mkProgress initial s 0 0) w2 0%Z Ev eq_refl (Z.le_refl 0)) as (ys & p' & ch' & w' & Ed).
      { change (ch_total (iter ch)) with (ch_total ch). rewrite Et. lia. }
      rewrite Ed. eauto.
  Qed.

  (** ** C65 *)
  (** A score that depends on the plan only. *)
  Definition depends_on_plan (f : X -> V) : Prop := forall x w s w', score x w = (Ok s, w') -> s = f x.

  Lemma count_i n p x s : p_i (fst (keep_count maximize n p x s)) = Datatypes.S (p_i p).
  Proof. unfold keep_count. destruct (is_improvement maximize s (p_score p)); reflexivity. Qed.
  Lemma count_stop n p x s : snd (keep_count maximize n p x s) = Nat.leb n (Datatypes.S (p_i p)).
  Proof. unfold keep_count. destruct (is_improvement maximize s (p_score p)); reflexivity. Qed.
  Lemma drive_i n fuel user num : forall ch p w ys p' ch' w' en, p_i p < num ->
    drive n fuel user (keep_count maximize num) ch p w = (ys, en, p', ch', w') -> en = Finished ->
    p_i p' = p_i p + List.length ys /\ p_i p' <= num.
  Proof.
    induction n as [|n IH]; intros ch p w ys p' ch' w' en Hp H Hf; cbn [M_Optimize.drive] in H; [congruence|].
    destruct (next fuel ch w) as [[[x|ex|] ch1] w1].
    - destruct (score x (user x w1)) as [[s|ex|] w2]; try congruence.
      assert (I := count_i num p x s). assert (St := count_stop num p x s). destruct (keep_count maximize num p x s) as [p1 stop]. cbn [fst snd] in I, St.
      destruct stop.
      + injection H as <- <- <- <- <-. cbn. lia.
      + destruct (drive n fuel user (keep_count maximize num) ch1 p1 w2) as [[[[ys2 en2] p2] ch2] w3] eqn:Ed. injection H as <- <- <- <- <-.
        symmetry in St. apply Nat.leb_gt in St. assert (Hp1 : p_i p1 < num) by (rewrite I; exact St). destruct (IH _ _ _ _ _ _ _ _ Hp1 Ed Hf) as [H1 H2]. cbn. lia.
    - destruct ex; try congruence. injection H as <- <- <- <- <-. cbn. lia.
    - congruence.
  Qed.
  Theorem C65_count k n fuel user a num_steps stuck_buffer initial w ys op w' :
    variable_length_short_bursts k n fuel user a num_steps stuck_buffer initial w = (ys, Finished, op, w') -> List.length ys = num_steps.
  Proof.
    intro H. unfold M_Optimize.variable_length_short_bursts, started in H. destruct (score initial w) as [[s0|ex|] w1]; try discriminate.
    destruct (variable_loop k n fuel user a num_steps stuck_buffer 2 (mkProgress initial s0 0 0) w1) as [[[zs en1] p1] w2] eqn:Eb. injection H as <- -> _ _.
    assert (G : forall k a len p w ys p' w', p_i p <= num_steps -> variable_loop k n fuel user a num_steps stuck_buffer len p w = (ys, Finished, p', w') ->
      p_i p + List.length ys = num_steps).
    { clear. induction k as [|k IH]; intros a len p w ys p' w' Hp H; cbn [M_Optimize.variable_loop] in H;
        (destruct (Nat.ltb_spec (p_i p) num_steps) as [Hl|Hl]; [|injection H as <- _ _; cbn; lia]); [discriminate|].
      destruct (burst n fuel user (keep_count maximize num_steps) a len p w) as [[[[ys1 en1] p1] a1] w1] eqn:Eb. destruct en1; try discriminate.
      destruct (variable_loop k n fuel user a1 num_steps stuck_buffer _ p1 w1) as [[[zs en2] p2] w2] eqn:E2. injection H as <- -> <- <-.
      unfold M_Optimize.burst in Eb. destruct (construct named a (p_best p) (Z.of_nat len) w) as [[ch|ex|] w3]; try discriminate.
      destruct (drive n fuel user (keep_count maximize num_steps) (iter ch) p w3) as [[[[ys3 en3] p3] ch3] w4] eqn:Ed. injection Eb as <- -> <- <- <-.
      destruct (drive_i _ _ _ _ _ _ _ _ _ _ _ _ Hl Ed eq_refl) as [H1 H2]. apply IH in E2; auto. rewrite app_length. lia. }
    apply G in Eb; cbn; [cbn in Eb; exact Eb|lia].
  Qed.
  (** A burst of length two starts from the best plan, whose score is at least
      as good as itself: the count of plans without improvement is set to zero. *)
  Lemma burst_two f n fuel user a num p w ys p' a' w' : depends_on_plan f -> p_score p = f (p_best p) ->
    burst n fuel user (keep_count maximize num) a 2 p w = (ys, Finished, p', a', w') ->
    p_stuck p' <= 1 /\ p_score p' = f (p_best p') /\
    (exists pt rest, ys = pt :: rest /\ y_plan pt = p_best p /\ y_best pt = p_best p) /\
    (forall cs, make_validator a = Reusable cs -> make_validator a' = Reusable cs /\ (quiet proposal accept cs -> List.length ys = 2 \/ num <= p_i p')).
  Proof.
    intros D Hp H. unfold M_Optimize.burst in H. destruct (construct named a (p_best p) (Z.of_nat 2) w) as [[ch|ex|] w1] eqn:Ec; try discriminate.
    apply construct_start in Ec. destruct Ec as (Ei & Et & Ev). destruct (drive n fuel user (keep_count maximize num) (iter ch) p w1) as [[[[ys1 en1] p1] ch1] w2] eqn:Ed.
    injection H as <- -> <- <- <-.
    assert (Q0 : forall cs, make_validator a = Reusable cs -> make_validator (left_over a ch1) = Reusable cs).
    { intros cs Hc. apply left_over_ok; auto. eapply (drive_fixed _ _ _ _ cs); [|exact Ed]. exact (Ev cs Hc). }
    destruct n as [|n]; cbn [M_Optimize.drive] in Ed; [discriminate|].
    destruct (next fuel (iter ch) w1) as [[[x|ex|] chA] wA] eqn:EA; try (destruct ex; discriminate); try discriminate.
    assert (CA := next_count _ (iter ch) _ _ _ _ 0%Z eq_refl EA). destruct CA as (TA & KA & _). change (ch_total (iter ch)) with (ch_total ch) in TA.
    assert (Ex : x = p_best p). { unfold M_Chain.next in EA. cbn in EA. injection EA as <- _ _. exact Ei. }
    destruct (score x (user x wA)) as [[s|ex|] wB] eqn:EB; try discriminate. assert (Es := D _ _ _ _ EB).
    assert (EK : keep_count maximize num p x s = (mkProgress x s 0 (Datatypes.S (p_i p)), Nat.leb num (Datatypes.S (p_i p)))).
    { unfold keep_count. replace (is_improvement maximize s (p_score p)) with true; [reflexivity|]. symmetry. apply improvement_iff. rewrite Es, Hp, Ex. apply good_refl. }
    rewrite EK in Ed. destruct (Nat.leb_spec num (Datatypes.S (p_i p))) as [Hn|Hn].
    { injection Ed as <- <- <- _. cbn. split; [lia|]. split; [exact Es|]. split; [eexists _, []; split; [reflexivity|]; cbn; auto|]. intros cs Hc. split; auto. }
    set (p2 := mkProgress x s 0 (Datatypes.S (p_i p))) in *.
    destruct (drive n fuel user (keep_count maximize num) chA p2 wB) as [[[[ys2 en2] p3] ch2] w3] eqn:Ed2. injection Ed as <- -> <- -> ->.
    assert (G : p_stuck p3 <= 1 /\ p_score p3 = f (p_best p3) /\ forall cs, ch_valid chA = Reusable cs -> quiet proposal accept cs -> List.length ys2 = 1 \/ num <= p_i p3).
    2:{ destruct G as (G1 & G2 & G3). split; auto. split; auto. split; [eexists _, ys2; split; [reflexivity|]; cbn; auto|].
        intros cs Hc. split; auto. intro Hq. destruct (next_fixed proposal accept erase _ _ _ _ (Ev cs Hc : ch_valid (iter ch) = Reusable cs) _ _ _ EA) as (HvA & _).
        destruct (G3 cs HvA Hq); cbn; auto. }
    destruct n as [|n]; cbn [M_Optimize.drive] in Ed2; [discriminate|].
    destruct (next fuel chA wB) as [[[x2|ex|] chC] wC] eqn:EC; try discriminate.
    - destruct (next_count _ _ _ _ _ _ _ KA EC) as (TC & KC & _).
      destruct (score x2 (user x2 wC)) as [[s2|ex|] wD] eqn:ED; try discriminate. assert (Es2 := D _ _ _ _ ED).
      assert (G : p_stuck (fst (keep_count maximize num p2 x2 s2)) <= 1 /\
                  p_score (fst (keep_count maximize num p2 x2 s2)) = f (p_best (fst (keep_count maximize num p2 x2 s2)))).
      { unfold keep_count. destruct (is_improvement maximize s2 (p_score p2)); cbn; split; try lia; auto. }
      assert (I := count_i num p2 x2 s2). assert (St := count_stop num p2 x2 s2).
      destruct (keep_count maximize num p2 x2 s2) as [p4 stop]. cbn [fst snd] in *. destruct G as [G1 G2]. destruct stop.
      + injection Ed2 as <- <- <- _. cbn. auto.
      + destruct n as [|n]; cbn [M_Optimize.drive] in Ed2; [discriminate|].
        destruct (next_done fuel chC wD (0 + 1 + 1)%Z KC) as [E|E]; [lia|rewrite TC, TA, Et; lia| |]; rewrite E in Ed2.
        * injection Ed2 as <- <- _ _. cbn. auto.
        * discriminate.
    - destruct ex; try discriminate. injection Ed2 as <- <- _ _. cbn. split; [lia|]. split; [exact Es|].
      intros cs Hc Hq. exfalso. unfold M_Chain.next in EC. rewrite KA in EC. cbn [Z.add Z.eqb] in EC.
      apply (advance_stop proposal accept erase _ _ _ _ _ _ cs) in EC; auto. rewrite TA, Et in EC. lia.
  Qed.
  Lemma variable_two f k n fuel user num stuck : depends_on_plan f -> 1 <= stuck -> forall a p w, p_score p = f (p_best p) ->
    variable_loop k n fuel user a num stuck 2 p w = variable_loop k n fuel user a num 1 2 p w /\
    forall cs ys p' w', make_validator a = Reusable cs -> quiet proposal accept cs -> variable_loop k n fuel user a num stuck 2 p w = (ys, Finished, p', w') ->
      forall j pt, nth_error ys (2 * j) = Some pt -> y_plan pt = y_best pt.
  Proof.
    intros D Hs. induction k as [|k IH]; intros a p w Hp; cbn [M_Optimize.variable_loop]; destruct (Nat.ltb_spec (p_i p) num) as [Hl|Hl].
    - split; [reflexivity|discriminate].
    - split; [reflexivity|]. intros cs ys p' w' _ _ E [|j] pt; injection E as <- _ _; discriminate.
    - destruct (burst n fuel user (keep_count maximize num) a 2 p w) as [[[[ys1 en1] p1] a1] w1] eqn:Eb.
      destruct en1; try (split; [reflexivity|discriminate]).
      destruct (burst_two f _ _ _ _ _ _ _ _ _ _ _ D Hp Eb) as (B1 & B2 & (pt & rest & Ey & Y1 & Y2) & B3).
      replace (Nat.leb (stuck * 2) (p_stuck p1)) with false by (symmetry; apply Nat.leb_gt; lia).
      replace (Nat.leb (1 * 2) (p_stuck p1)) with false by (symmetry; apply Nat.leb_gt; lia).
      destruct (IH a1 p1 w1 B2) as [E1 E2]. rewrite <- E1. split; [reflexivity|].
      destruct (variable_loop k n fuel user a1 num stuck 2 p1 w1) as [[[zs en2] p2] w2] eqn:Ev.
      intros cs ys p' w' Hc Hq E. injection E as <- -> -> ->. destruct (B3 cs Hc) as [Hc1 Hlen]. intros [|j] q Hj.
      + rewrite Ey in Hj. injection Hj as <-. congruence.
      + destruct (Hlen Hq) as [H2|Hn].
        * rewrite nth_error_app2 in Hj by lia. apply (E2 cs zs p' w' Hc1 Hq eq_refl j q).
          replace (2 * j) with (2 * Datatypes.S j - List.length ys1) by lia. exact Hj.
        * assert (zs = []). { destruct k; cbn [M_Optimize.variable_loop] in Ev; destruct (Nat.ltb_spec (p_i p1) num); try lia; now injection Ev as <- _ _. }
          subst zs. rewrite app_nil_r in Hj. assert (List.length ys1 <= 2).
          { unfold M_Optimize.burst in Eb. destruct (construct named a (p_best p) (Z.of_nat 2) w) as [[ch|ex|] w3] eqn:Ec; try discriminate.
            destruct (drive n fuel user (keep_count maximize num) (iter ch) p w3) as [[[[ys3 en3] p3] ch3] w4] eqn:Ed. injection Eb as -> -> -> _ _.
            destruct (construct_start _ _ _ _ _ _ Ec) as (_ & Et & _).
            clear - Ed Et. assert (G : forall n ch p w ys en p' ch' w' k, ch_counter ch = Some k -> (0 <= k)%Z -> ch_total ch = 2%Z ->
              drive n fuel user (keep_count maximize num) ch p w = (ys, en, p', ch', w') -> (Z.of_nat (List.length ys) <= Z.max 0 (2 - k))%Z).
            { clear. induction n as [|n IH]; intros ch p w ys en p' ch' w' k Hk H0 Ht H; cbn [M_Optimize.drive] in H; [injection H as <- _ _ _ _; cbn; lia|].
              destruct (next fuel ch w) as [[[x|ex|] ch1] w1] eqn:En.
              - destruct (next_count _ _ _ _ _ _ _ Hk En) as (T1 & K1 & B). assert (B' : (k < 2)%Z) by lia.
                destruct (score x (user x w1)) as [[s|ex|] w2]; try (injection H as <- _ _ _ _; cbn [List.length]; lia).
                destruct (keep_count maximize num p x s) as [p1 [|]]; [injection H as <- _ _ _ _; cbn [List.length]; lia|].
                destruct (drive n fuel user (keep_count maximize num) ch1 p1 w2) as [[[[ys2 en2] p2] ch2] w3] eqn:Ed. injection H as <- _ _ _ _.
                assert (T2 : ch_total ch1 = 2%Z) by lia. assert (K2 : (0 <= k + 1)%Z) by lia.
                assert (I := IH _ _ _ _ _ _ _ _ _ K1 K2 T2 Ed). cbn [List.length]. lia.
              - destruct ex; injection H as <- _ _ _ _; cbn [List.length]; lia.
              - injection H as <- _ _ _ _; cbn [List.length]; lia. }
            assert (I := G _ (iter ch) _ _ _ _ _ _ _ 0%Z eq_refl (Z.le_refl 0) Et Ed). lia. }
          assert (nth_error ys1 (2 * Datatypes.S j) = None) by (apply nth_error_None; lia). congruence.
    - split; [reflexivity|]. intros cs ys p' w' _ _ E [|j] pt; injection E as <- _ _; discriminate.
  Qed.

  (** The bursts never get longer: whatever the buffer, the run is the one with
      a buffer of one, and every second plan is the best plan so far, from which
      the burst restarts. *)
  Theorem C65_never_longer f k n fuel user a num_steps stuck_buffer initial w : depends_on_plan f -> 1 <= stuck_buffer ->
    variable_length_short_bursts k n fuel user a num_steps stuck_buffer initial w =
    variable_length_short_bursts k n fuel user a num_steps 1 initial w /\
    forall cs ys op w', make_validator a = Reusable cs -> quiet proposal accept cs ->
      variable_length_short_bursts k n fuel user a num_steps stuck_buffer initial w = (ys, Finished, op, w') ->
      forall j pt, nth_error ys (2 * j) = Some pt -> y_plan pt = y_best pt.
  Proof.
    intros D Hs. unfold M_Optimize.variable_length_short_bursts, started. destruct (score initial w) as [[s0|ex|] w1] eqn:E0; try (split; [reflexivity|discriminate]).
    assert (Hp : p_score (mkProgress initial s0 0 0) = f (p_best (mkProgress initial s0 0 0))) by (cbn; eauto).
    destruct (variable_two f k n fuel user num_steps stuck_buffer D Hs a _ w1 Hp) as [E1 E2]. rewrite <- E1. split; [reflexivity|].
    intros cs ys op w' Hc Hq. destruct (variable_loop k n fuel user a num_steps stuck_buffer 2 (mkProgress initial s0 0 0) w1) as [[[zs en] p1] w2].
    intro E. injection E as <- -> _ _. eapply E2; eauto.
  Qed.

  (** A burst of [len] plans, cut short only by the total number of steps. *)
  Lemma drive_full n fuel user num cs : quiet proposal accept cs -> forall ch p w ys p' ch' w' c len,
    ch_counter ch = Some c -> (0 <= c)%Z -> ch_total ch = Z.of_nat len -> (c <= Z.of_nat len)%Z -> 1 <= len -> ch_valid ch = Reusable cs ->
    drive n fuel user (keep_count maximize num) ch p w = (ys, Finished, p', ch', w') ->
    (Z.of_nat (List.length ys) <= Z.of_nat len - c)%Z /\ ((Z.of_nat (List.length ys) = Z.of_nat len - c)%Z \/ num <= p_i p').
  Proof.
    intro Hq. induction n as [|n IH]; intros ch p w ys p' ch' w' c len Hk H0 Ht Hc Hl Hv H; cbn [M_Optimize.drive] in H; [discriminate|].
    destruct (next fuel ch w) as [[[x|ex|] ch1] w1] eqn:En.
    - destruct (next_count _ _ _ _ _ _ _ Hk En) as (T1 & K1 & B). destruct (next_fixed proposal accept erase _ _ _ _ Hv _ _ _ En) as (Hv1 & _).
      destruct (score x (user x w1)) as [[s|ex|] w2]; try discriminate.
      assert (I := count_i num p x s). assert (St := count_stop num p x s).
      destruct (keep_count maximize num p x s) as [p1 [|]]; cbn [fst snd] in *.
      + injection H as <- <- _ _. apply eq_sym, Nat.leb_le in St. cbn [List.length]. lia.
      + destruct (drive n fuel user (keep_count maximize num) ch1 p1 w2) as [[[[ys2 en2] p2] ch2] w3] eqn:Ed. injection H as <- -> <- _ _.
        assert (T2 : ch_total ch1 = Z.of_nat len) by lia. assert (K2 : (0 <= c + 1)%Z) by lia. assert (K3 : (c + 1 <= Z.of_nat len)%Z) by lia.
        destruct (IH _ _ _ _ _ _ _ _ _ K1 K2 T2 K3 Hl Hv1 Ed) as [G1 G2]. cbn [List.length]. lia.
    - destruct ex; try discriminate. injection H as <- <- _ _. cbn [List.length]. split; [lia|]. left.
      unfold M_Chain.next in En. rewrite Hk in En. destruct (Z.eqb_spec c 0) as [->|N]; [discriminate|].
      apply (advance_stop proposal accept erase _ _ _ _ _ _ cs) in En; auto. lia.
    - discriminate.
  Qed.
  Lemma burst_full f n fuel user num a len p w ys p' a' w' cs : depends_on_plan f -> p_score p = f (p_best p) -> 1 <= len ->
    make_validator a = Reusable cs -> quiet proposal accept cs ->
    burst n fuel user (keep_count maximize num) a len p w = (ys, Finished, p', a', w') ->
    p_score p' = f (p_best p') /\ make_validator a' = Reusable cs /\
    (exists pt rest, ys = pt :: rest /\ y_plan pt = y_best pt) /\
    List.length ys <= len /\ (List.length ys = len \/ num <= p_i p').
  Proof.
    intros D Hp Hl Hcs Hq H. unfold M_Optimize.burst in H. destruct (construct named a (p_best p) (Z.of_nat len) w) as [[ch|ex|] w1] eqn:Ec; try discriminate.
    apply construct_start in Ec. destruct Ec as (Ei & Et & Ev). destruct (drive n fuel user (keep_count maximize num) (iter ch) p w1) as [[[[ys1 en1] p1] ch1] w2] eqn:Ed.
    injection H as <- -> <- <- <-.
    assert (L := drive_full n fuel user num cs Hq (iter ch) p w1 ys1 p1 ch1 w2 0%Z len eq_refl (Z.le_refl 0) Et ltac:(lia) Hl (Ev cs Hcs) Ed).
    assert (Hs : p_score p1 = f (p_best p1)).
    { clear - D Hp Ed. revert Hp Ed. generalize (iter ch) p w1 ys1. induction n as [|n IH]; intros ch0 p0 w0 ys0 Hp Ed; cbn [M_Optimize.drive] in Ed; [discriminate|].
      destruct (next fuel ch0 w0) as [[[x|ex|] chA] wA]; try discriminate.
      - destruct (score x (user x wA)) as [[s|ex|] wB] eqn:EB; try discriminate. apply D in EB.
        assert (G : p_score (fst (keep_count maximize num p0 x s)) = f (p_best (fst (keep_count maximize num p0 x s)))).
        { unfold keep_count. destruct (is_improvement maximize s (p_score p0)); cbn; auto. }
        destruct (keep_count maximize num p0 x s) as [p2 [|]]; cbn [fst] in G; [injection Ed as _ <- _ _; exact G|].
        destruct (drive n fuel user (keep_count maximize num) chA p2 wB) as [[[[ys2 en2] p3] ch2] w3] eqn:E2. injection Ed as _ -> <- -> ->. exact (IH _ _ _ _ G E2).
      - destruct ex; try discriminate. injection Ed as _ <- _ _. exact Hp. }
    split; [exact Hs|]. split.
    { apply left_over_ok; auto. eapply (drive_fixed _ _ _ _ cs); [|exact Ed]. exact (Ev cs Hcs). }
    split; [|lia].
    destruct n as [|n]; cbn [M_Optimize.drive] in Ed; [discriminate|].
    destruct (next fuel (iter ch) w1) as [[[x|ex|] chA] wA] eqn:EA; try (destruct ex; discriminate); try discriminate.
    - assert (Ex : x = p_best p). { unfold M_Chain.next in EA. cbn in EA. injection EA as <- _ _. exact Ei. }
      destruct (score x (user x wA)) as [[s|ex|] wB] eqn:EB; try discriminate. assert (Es := D _ _ _ _ EB).
      destruct (keep_count maximize num p x s) as [p2 [|]].
      + injection Ed as <- _ _ _. eexists _, []. split; [reflexivity|exact Ex].
      + destruct (drive n fuel user (keep_count maximize num) chA p2 wB) as [[[[ys2 en2] p3] ch2] w3]. injection Ed as <- _ _ _ _. eexists _, ys2. split; [reflexivity|exact Ex].
  Qed.
  (** Only a buffer of zero lengthens the bursts: burst number j then has
      2^(j+1) plans, so that it starts from the best plan at position
      2*(2^j-1). *)
  Theorem C65_zero_buffer f k n fuel user a num_steps initial w ys op w' cs : depends_on_plan f ->
    make_validator a = Reusable cs -> quiet proposal accept cs ->
    variable_length_short_bursts k n fuel user a num_steps 0 initial w = (ys, Finished, op, w') ->
    forall j pt, nth_error ys (2 * (2 ^ j - 1)) = Some pt -> y_plan pt = y_best pt.
  Proof.
    intros D Hcs Hq. unfold M_Optimize.variable_length_short_bursts, started. destruct (score initial w) as [[s0|ex|] w1] eqn:E0; try discriminate.
    assert (Hp : p_score (mkProgress initial s0 0 0) = f (p_best (mkProgress initial s0 0 0))) by (cbn; eauto).
    assert (G : forall k a len p w ys p' w', p_score p = f (p_best p) -> 1 <= len -> make_validator a = Reusable cs ->
      variable_loop k n fuel user a num_steps 0 len p w = (ys, Finished, p', w') ->
      forall j pt, nth_error ys (len * (2 ^ j - 1)) = Some pt -> y_plan pt = y_best pt).
    { clear - D Hq. induction k as [|k IH]; intros a len p w ys p' w' Hp Hl Hcs H j pt Hj; cbn [M_Optimize.variable_loop] in H;
        (destruct (Nat.ltb_spec (p_i p) num_steps) as [Hn|Hn]; [|injection H as <- _ _; destruct (len * (2 ^ j - 1)); discriminate]); [discriminate|].
      destruct (burst n fuel user (keep_count maximize num_steps) a len p w) as [[[[ys1 en1] p1] a1] w2] eqn:Eb. destruct en1; try discriminate.
      destruct (burst_full f _ _ _ _ _ _ _ _ _ _ _ _ _ D Hp Hl Hcs Hq Eb) as (B1 & B2 & (pt0 & rest & Ey & Y1) & B3 & B4).
      cbn [Nat.mul Nat.leb] in H.
      destruct (variable_loop k n fuel user a1 num_steps 0 (len * 2) p1 w2) as [[[zs en2] p2] w3] eqn:Ev. injection H as <- -> -> ->.
      destruct j as [|j].
      { rewrite Nat.mul_0_r, Ey in Hj. injection Hj as <-. exact Y1. }
      assert (Hpow : 1 <= 2 ^ j) by (clear; induction j; cbn; lia).
      assert (Hi : len * (2 ^ Datatypes.S j - 1) = len + len * 2 * (2 ^ j - 1)) by (cbn [Nat.pow]; nia).
      rewrite Hi in Hj. destruct B4 as [B4|B4].
      - rewrite nth_error_app2 in Hj by (rewrite B4; apply Nat.le_add_r). rewrite B4, Nat.add_comm, Nat.add_sub in Hj.
        refine (IH a1 (len * 2) p1 w2 zs p' w' B1 _ B2 Ev j pt Hj). lia.
      - assert (zs = []). { destruct k; cbn [M_Optimize.variable_loop] in Ev; destruct (Nat.ltb_spec (p_i p1) num_steps); try lia; now injection Ev as <- _ _. }
        subst zs. rewrite app_nil_r in Hj. assert (nth_error ys1 (len + len * 2 * (2 ^ j - 1)) = None) by (apply nth_error_None; eapply Nat.le_trans; [exact B3|apply Nat.le_add_r]). congruence. }
    destruct (variable_loop k n fuel user a num_steps 0 2 (mkProgress initial s0 0 0) w1) as [[[zs en] p1] w2] eqn:Ev.
    intros E j pt Hj. injection E as <- -> _ _. refine (G _ _ 2 _ _ _ _ _ Hp _ Hcs Ev j pt Hj); lia.
  Qed.

  (** ** C66 *)
  Theorem C66_tilted parent random prob x w y s t w1 w2 : parent x w = Some y -> score x w = (Ok s, w1) -> score y w1 = (Ok t, w2) ->
    (good s t -> tilted_accept score maximize parent random prob x w = (Ok (PBool true), w2)) /\
    (~ good s t -> exists b, tilted_accept score maximize parent random prob x w = (Ok (PBool b), snd (random w2)) /\
                             (b = true <-> (fst (random w2) < prob)%Q)).
  Proof.
    intros Hp Hs Ht. unfold tilted_accept. rewrite Hp, Hs, Ht. split; intro G.
    - apply improvement_iff in G. now rewrite G.
    - destruct (is_improvement maximize s t) eqn:E; [now apply improvement_iff in E|]. destruct (random w2) as [u w3]. cbn [fst snd].
      eexists. split; [reflexivity|]. unfold qlt. rewrite negb_true_iff. split; intro H.
      + apply Qnot_le_lt. rewrite <- Qle_bool_iff. congruence.
      + apply not_true_is_false. rewrite Qle_bool_iff. now apply Qlt_not_le.
  Qed.
  Theorem C66_tilted_root parent random prob x w : parent x w = None ->
    tilted_accept score maximize parent random prob x w = (Ok (PBool true), w).
  Proof. intro H. unfold tilted_accept. now rewrite H. Qed.
  Theorem C66_tilted_raises parent random prob x w y e : parent x w = Some y ->
    (forall w1, score x w = (Err e, w1) -> tilted_accept score maximize parent random prob x w = (Err e, w1)) /\
    (forall s w1 w2, score x w = (Ok s, w1) -> score y w1 = (Err e, w2) -> tilted_accept score maximize parent random prob x w = (Err e, w2)).
  Proof. intro H. unfold tilted_accept. rewrite H. split; [intros w1 E; now rewrite E|intros s w1 w2 E1 E2; now rewrite E1, E2]. Qed.
End Optimizer.

(** ** Tilted runs *)
Section Tilted.
  Context {X W V : Type} {SV : Scores V}.
  Variable proposal : X -> W -> res X * W.
  Variable erase : X -> W -> W.
  Variable named : constraint X W -> bool.
  Variable score : X -> W -> res V * W.
  Variable maximize : bool.
  Variable parent : X -> W -> option X.
  Variable random : W -> Q * W.
  (** C63, C64. The tilted runs keep track of the best plan and have the same
      number of plans and the same restarts as the plain runs. *)
  Theorem C63_tilted prob n fuel user a len num initial w :
    tracks_best score maximize initial (tilted_short_bursts proposal erase named score maximize parent random prob n fuel user a len num initial w) /\
    tracks_best score maximize initial (tilted_run proposal erase named score maximize parent random prob n fuel user a len initial w).
  Proof. split; [apply C63_short_bursts|apply C63_single_run]. Qed.
  Theorem C64_tilted prob n fuel user a cs len num initial w : make_validator a = Reusable cs ->
    quiet proposal (tilted_accept score maximize parent random prob) cs ->
    (forall ys op w', tilted_short_bursts proposal erase named score maximize parent random prob n fuel user a len num initial w = (ys, Finished, op, w') ->
      List.length ys = max 1 len * num /\
      forall k, k < num -> exists pt, nth_error ys (max 1 len * k) = Some pt /\ y_plan pt = y_best pt) /\
    (forall ys op w', tilted_run proposal erase named score maximize parent random prob n fuel user a len initial w = (ys, Finished, op, w') ->
      List.length ys = max 1 len /\ exists pt rest, ys = pt :: rest /\ y_plan pt = initial).
  Proof. intros Ha Hq. split; intros ys op w' H; [eapply C64_short_bursts; eauto|eapply C64_single_run; eauto]. Qed.
End Tilted.

(** ** Concrete cases *)

(** Plans are numbers, the proposal adds one, the score of a plan is [f] of it. *)
Definition up (x : nat) (w : unit) : res nat * unit := (Ok (x + 1), w).
Definition yes (x : nat) (w : unit) : res pyval * unit := (Ok (PBool true), w).
Definition kept (x : nat) (w : unit) : unit := w.
Definition scored (f : nat -> Q) (x : nat) (w : unit) : res Q * unit := (Ok (f x), w).
Definition below (x : nat) : Q := inject_Z (Z.of_nat x).
Definition above (x : nat) : Q := inject_Z (- Z.of_nat x).

(** The initial plan is the best one and nothing after it improves on it. *)
Example C63_nonvacuous : exists ys p,
  short_bursts up yes kept (fun _ => true) (scored below) true 9 9 kept (Collection (Reusable [])) 2 2 5 tt = (ys, Finished, Some p, tt) /\
  map y_plan ys = [5; 6; 6; 7] /\ map y_best ys = [5; 5; 6; 6] /\ p_best p = 7.
Proof. eexists _, _. vm_compute. repeat split. Qed.
(** When a plan has been handed out, the best score may not count it yet. *)
Theorem C63_during_the_run_refuted : exists ys p pt s,
  short_bursts up yes kept (fun _ => true) (scored below) true 9 9 kept (Collection (Reusable [])) 2 2 5 tt = (ys, Finished, Some p, tt) /\
  In pt ys /\ scored below (y_plan pt) tt = (Ok s, tt) /\ ~ good true (y_score pt) s.
Proof.
  eexists _, _, _, _. split; [vm_compute; reflexivity|]. split; [right; left; reflexivity|]. split; [reflexivity|].
  vm_compute. discriminate.
Qed.
Example C64_nonvacuous : cannot_fail up yes (scored below) [] /\ quiet up yes [] /\ make_validator (Collection (Reusable (@nil (constraint nat unit)))) = Reusable [].
Proof.
  split; [|split; [|reflexivity]].
  - repeat split; try (intros; eexists _, _; reflexivity). intros x w. exists w. constructor.
  - repeat split; try (intros; discriminate). intros c x w [].
Qed.
(** No burst ever improves, and with a buffer of one the bursts still have
    length two after sixteen of them. *)
Theorem C65_doubling_refuted : exists ys p,
  variable_length_short_bursts up yes kept (fun _ => true) (scored above) true 40 9 9 kept (Collection (Reusable [])) 32 1 5 tt = (ys, Finished, Some p, tt) /\
  map y_plan ys = concat (repeat [5; 6] 16) /\ (forall pt, In pt ys -> y_best pt = 5) /\ p_best p = 5.
Proof.
  eexists _, _. split; [vm_compute; reflexivity|]. split; [reflexivity|]. split; [|reflexivity].
  intros pt H. cbn [In] in H. repeat (destruct H as [<-|H]; [reflexivity|]). destruct H.
Qed.
Example C65_nonvacuous : depends_on_plan (scored above) above.
Proof. intros x w s w' [= <- _]. reflexivity. Qed.
Example C65_zero_buffer_nonvacuous : exists ys p,
  variable_length_short_bursts up yes kept (fun _ => true) (scored above) true 40 40 9 kept (Collection (Reusable [])) 14 0 5 tt = (ys, Finished, Some p, tt) /\
  map y_plan ys = [5; 6; 5; 6; 7; 8; 5; 6; 7; 8; 9; 10; 11; 12] /\ (forall pt, nth_error ys (2 * (2 ^ 2 - 1)) = Some pt -> y_best pt = 5).
Proof.
  eexists _, _. split; [vm_compute; reflexivity|]. split; [reflexivity|]. intros pt H. injection H as <-. reflexivity.
Qed.
Example C66_tilted_nonvacuous : exists b, tilted_accept (scored above) true (fun x _ => Some (x - 1)) (fun w => ((1 # 4)%Q, w)) (1 # 2) 6 tt = (Ok (PBool b), tt) /\ b = true.
Proof. eexists. vm_compute. auto. Qed.

Example C64_tilted_nonvacuous : exists ys p,
  tilted_short_bursts up kept (fun _ => true) (scored above) true (fun x _ => Some (x - 1)) (fun w => ((1 # 4)%Q, w)) (1 # 2)
    9 9 kept (Collection (Reusable [])) 2 2 5 tt = (ys, Finished, Some p, tt) /\ map y_plan ys = [5; 6; 5; 6] /\
  quiet up (tilted_accept (scored above) true (fun x _ => Some (x - 1)) (fun w => ((1 # 4)%Q, w)) (1 # 2)) [].
Proof.
  eexists _, _. split; [vm_compute; reflexivity|]. split; [reflexivity|].
  split; [discriminate|]. split; [|intros c x w []]. intros x w. unfold tilted_accept, scored. cbn [fst]. destruct (is_improvement true _ _); discriminate.
Qed.

Print Assumptions C63_short_bursts.
Print Assumptions C63_single_run.
Print Assumptions C63_tilted.
Print Assumptions C64_tilted.
Print Assumptions C63_variable_length.
Print Assumptions C63_never_worse.
Print Assumptions C63_best_of_all.
Print Assumptions C64_short_bursts.
Print Assumptions C64_single_run.
Print Assumptions C64_finishes.
Print Assumptions C65_count.
Print Assumptions C65_never_longer.
Print Assumptions C65_zero_buffer.
Print Assumptions C66_tilted.
Print Assumptions C66_tilted_root.
Print Assumptions C66_tilted_raises.
Print Assumptions C63_during_the_run_refuted.
Print Assumptions C65_doubling_refuted.
