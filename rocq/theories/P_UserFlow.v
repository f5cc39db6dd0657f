(** C131: updaters written with on_flow and on_edge_flow. *)
From Coq Require Import String List Bool Arith ZArith Lia Permutation.
From Verif Require Import Base M_Graph M_Partition S_Partition L_Partition S_Machine L_Cuts L_Machine P_Partition P_Contiguity M_Machine L_Sums M_UserFlow.
Import ListNotations.
Local Open Scope nat_scope.
Local Open Scope list_scope.

Section UserFlow.
  Context {N P X : Type} {EN : EqB N} {EP : EqB P} {ON : Ord N}.
  Variable g : graph N.
  Notation assignment := (assignment N P).
  Notation uobj := (uobj N P X).
  Notation uheap := (uheap N P X).

  (** ** Specification *)

  (** The user's idea of the right value for a part with contents [S]. *)
  Definition meaning (Y : Type) : Type := P -> (Y -> Prop) -> X -> Prop.
  (** It depends on the contents as a set. *)
  Definition of_sets {Y} (R : meaning Y) : Prop := forall p S S' x, (forall y, S y <-> S' y) -> R p S x -> R p S' x.
  (** The values of an updater are right for the plan [A]: one for every part. *)
  Definition right {Y} (R : meaning Y) (inside : assignment -> P -> Y -> Prop) (A : assignment) (d : dict P X) : Prop :=
    NoDup (dkeys d) /\ (forall p, In p (dkeys d) <-> In p (labels A)) /\ forall p x, dget d p = Some x -> R p (inside A p) x.
  (** The initializer is right for [A]. *)
  Definition starts {Y} (R : meaning Y) inside (init : assignment -> res (dict P X)) (A : assignment) : Prop := exists d, init A = Ok d /\ right R inside A d.
  (** The user's function turns the right value for the old contents of a part
      into the right value for the new contents, told what came and what left. *)
  Definition follows {Y} (R : meaning Y) (inside : assignment -> P -> Y -> Prop) (f : assignment -> X -> list Y -> list Y -> res X) : Prop :=
    forall A p S x ins outs, coherent (g_nodes g) A -> R p S x -> NoDup ins -> NoDup outs ->
      (forall y, In y outs -> S y) -> (forall y, In y ins -> ~ S y) -> (forall y, inside A p y <-> (S y /\ ~ In y outs) \/ In y ins) ->
      exists x', f A x ins outs = Ok x' /\ R p (inside A p) x'.
  Definition node_of (A : assignment) (p : P) (n : N) : Prop := district A n = Some p.
  Definition edge_of (A : assignment) (p : P) (e : N * N) : Prop := cut_edge_of g A p e.

  (** What a user does with plans: build one, flip any plan, read the updater of
      any plan, and let a chain drop the parent of a plan.  [G] says for which plans
      the initializer may be asked: a plan loses its parent only if its value was
      read before, or if it is one of these. *)
  Inductive history (cuts : bool) (G : assignment -> Prop) (rd : nat -> uheap -> nat -> res (dict P X) * uheap) : uheap -> Prop :=
  | h_start d A : is_dict d -> first_time_assignment g d = Ok A -> G A -> history cuts G rd [uroot A]
  | h_flip h a flips h' : history cuts G rd h -> is_dict flips -> uflip g cuts h a flips = Ok h' -> history cuts G rd h'
  | h_read h fuel a : history cuts G rd h -> history cuts G rd (snd (rd fuel h a))
  | h_erase h a : history cuts G rd h -> (forall o, nth_error h a = Some o -> u_cache o <> None \/ G (u_assign o)) -> history cuts G rd (uerase h a).

  (** ** Heaps *)
  Lemma put_length (h : uheap) a o : List.length (put h a o) = List.length h.
  Proof. revert a. induction h as [|x h IH]; intros [|a]; cbn; auto. Qed.
  Lemma put_same (h : uheap) a o : a < List.length h -> nth_error (put h a o) a = Some o.
  Proof. revert a. induction h as [|x h IH]; intros [|a] H; cbn in *; try lia; auto. apply IH. lia. Qed.
  Lemma put_other (h : uheap) a b o : a <> b -> nth_error (put h a o) b = nth_error h b.
  Proof. revert a b. induction h as [|x h IH]; intros [|a] [|b] H; cbn; auto; try congruence. Qed.
  Lemma put_cases (h : uheap) a o b q : nth_error (put h a o) b = Some q -> (b = a /\ q = o) \/ (b <> a /\ nth_error h b = Some q).
  Proof.
    destruct (Nat.eq_dec b a) as [->|Hn]; [|rewrite put_other by congruence; auto]. intro H. left. split; auto.
    assert (a < List.length h) by (rewrite <- (put_length h a o); apply nth_error_Some; congruence). rewrite put_same in H by auto. congruence.
  Qed.

  (** ** One kind of updater *)
  Section Kind.
    Context {Y : Type}.
    Variable R : meaning Y.
    Variable inside : assignment -> P -> Y -> Prop.
    Variable changes : uobj -> option (dict P (flow Y)).
    Variable f : assignment -> X -> list Y -> list Y -> res X.
    Variable init : assignment -> res (dict P X).
    Variables (key : string) (cuts by_truth : bool) (G : assignment -> Prop).
    Variable update : uobj -> dict P X -> res (dict P X).
    Hypothesis HU : forall o fl prev, changes o = Some fl -> update o prev = replaced f (u_assign o) fl prev.
    Hypothesis Rx : of_sets R.
    Hypothesis HG : forall A, coherent (g_nodes g) A -> G A -> starts R inside init A.
    Hypothesis HF : follows R inside f.
    Hypothesis Hl : forall A p y, coherent (g_nodes g) A -> inside A p y -> In p (labels A).
    Hypothesis Hdec : forall A p y, coherent (g_nodes g) A -> inside A p y \/ ~ inside A p y.
    Hypothesis Hne : by_truth = true -> g_nodes g <> [].
    Notation rd := (uread key key init update by_truth).

    Definition moved_ok (A A' : assignment) (fl : dict P (flow Y)) : Prop :=
      wf_flows fl /\ labels A' = labels A /\ (forall p y, In y (inset fl p) <-> inside A' p y /\ ~ inside A p y) /\ (forall p y, In y (outset fl p) <-> inside A p y /\ ~ inside A' p y).
    Hypothesis Hflip : forall A flips fl A' ef a, coherent (g_nodes g) A -> is_dict flips ->
      flows_from_changes (a_map A) flips = Ok fl -> update_flows A fl = Ok A' ->
      (if cuts then e <- compute_edge_flows g (a_map A) (a_map A') flips ;; Ok (Some e) else Ok None) = Ok ef ->
      exists ch, changes (mkUobj A' (Some a) fl ef None) = Some ch /\ moved_ok A A' ch.
    Hypothesis Hch : forall A p fl ef c c' p', changes (mkUobj A p fl ef c) = changes (mkUobj A p' fl ef c').

    Definition sound (h : uheap) : Prop := forall a o, nth_error h a = Some o ->
      coherent (g_nodes g) (u_assign o) /\
      (forall p, u_parent o = Some p -> p < a /\ exists q ch, nth_error h p = Some q /\ changes o = Some ch /\ moved_ok (u_assign q) (u_assign o) ch) /\
      (forall d, u_cache o = Some d -> right R inside (u_assign o) d) /\
      (u_parent o = None -> u_cache o <> None \/ G (u_assign o)).

    Lemma replaced_right A A' fl d : coherent (g_nodes g) A -> coherent (g_nodes g) A' -> moved_ok A A' fl -> right R inside A d ->
      exists d', replaced f A' fl d = Ok d' /\ right R inside A' d'.
    Proof.
      intros C C' (W & Ll & I & O) (ND & K & V).
      set (F := fun pf : P * flow Y => pv <- of_option KeyError (dget d (fst pf)) ;; f A' pv (f_in (snd pf)) (f_out (snd pf))).
      assert (In_fl : forall p fw, In (p, fw) fl -> f_in fw = inset fl p /\ f_out fw = outset fl p).
      { intros p fw Hi. unfold inset, outset, dget_or. rewrite (In_dget fl p fw (wff_keys _ W) Hi). auto. }
      assert (Step : forall p fw, In (p, fw) fl -> exists x, F (p, fw) = Ok x /\ R p (inside A' p) x).
      { intros p fw Hi. unfold F. cbn [fst snd]. assert (Hk : In p (dkeys fl)) by (apply in_map_iff; exists (p, fw); auto).
        assert (Lp : In p (labels A)). { apply (wff_live _ W) in Hk. destruct Hk as (y & [Hy|Hy]); [apply I in Hy; rewrite <- Ll; eapply Hl; [exact C'|apply Hy]|apply O in Hy; eapply Hl; [exact C|apply Hy]]. }
        apply K in Lp. apply dget_key in Lp. destruct Lp as (pv & Hpv). rewrite Hpv. cbn [of_option bind]. destruct (In_fl p fw Hi) as [-> ->].
        apply (HF A' p (inside A p) pv); [exact C'|now apply V|apply W|apply W|intros y Hy; now apply O in Hy|intros y Hy; now apply I in Hy|].
        intro y. rewrite O, I. destruct (Hdec A p y C), (Hdec A' p y C'); tauto. }
      destruct (foldM_dset_ok F fl d) as (d' & Ed); [intros p fw Hi; destruct (Step p fw Hi) as (x & E & _); eauto|].
      exists d'. split; [exact Ed|]. destruct (foldM_dset F fl d d' (wff_keys _ W) Ed) as (D1 & D2 & D3 & D4).
      assert (Kfl : forall p, In p (dkeys fl) -> In p (labels A)).
      { intros p Hk. apply (wff_live _ W) in Hk. destruct Hk as (y & [Hy|Hy]); [apply I in Hy; rewrite <- Ll; eapply Hl; [exact C'|apply Hy]|apply O in Hy; eapply Hl; [exact C|apply Hy]]. }
      split; [now apply D3|]. split.
      - intro p. rewrite D4, K, Ll. split; [intros [H|H]; auto|auto].
      - intros p x Hx. assert (Dk : In p (dkeys fl) \/ ~ In p (dkeys fl)) by (destruct (dget fl p) eqn:Ek; [left; eapply dget_Some_key; exact Ek|right; now apply dget_None]). destruct Dk as [Hk|Hk].
        + apply in_map_iff in Hk. destruct Hk as ([p' fw] & Ep & Hi). cbn in Ep. subst p'. destruct (D1 p fw Hi) as (x' & E1 & E2). destruct (Step p fw Hi) as (x2 & E3 & E4). congruence.
        + rewrite D2 in Hx by exact Hk. apply (Rx p (inside A p)); [|now apply V]. intro y. split; intro Hy.
          * destruct (Hdec A' p y C') as [H|H]; [exact H|]. exfalso. apply Hk. apply (wff_live _ W). exists y. right. apply O. auto.
          * destruct (Hdec A p y C) as [H|H]; [exact H|]. exfalso. apply Hk. apply (wff_live _ W). exists y. left. apply I. auto.
    Qed.
    Lemma sound_put h a o d : sound h -> nth_error h a = Some o -> right R inside (u_assign o) d -> sound (put h a (mkUobj (u_assign o) (u_parent o) (u_flows o) (u_eflows o) (Some d))).
    Proof.
      intros S Ho Hr b q Hb. assert (La : a < List.length h) by (apply nth_error_Some; congruence).
      assert (Par : forall p q0, nth_error h p = Some q0 -> exists q1, nth_error (put h a (mkUobj (u_assign o) (u_parent o) (u_flows o) (u_eflows o) (Some d))) p = Some q1 /\ u_assign q1 = u_assign q0).
      { intros p q0 Hp. destruct (Nat.eq_dec a p) as [<-|Hn]; [rewrite put_same by exact La; eexists; split; [reflexivity|]; cbn; congruence|rewrite put_other by exact Hn; eauto]. }
      apply put_cases in Hb. destruct Hb as [[-> ->]|[Hn Hb]].
      - destruct (S a o Ho) as (S1 & S2 & S3 & S4). cbn [u_assign u_parent u_cache]. split; [exact S1|]. split; [|split; [intros d' [= <-]; exact Hr|left; discriminate]].
        intros p Hp. destruct (S2 p Hp) as (Lp & q & ch & Hq & Hc & Hm). split; [exact Lp|]. destruct (Par p q Hq) as (q1 & H1 & E1). exists q1, ch. split; [exact H1|]. rewrite E1. split; [|exact Hm]. rewrite <- Hc. destruct o. apply Hch.
      - destruct (S b q Hb) as (S1 & S2 & S3 & S4). split; [exact S1|]. split; [|split; [exact S3|exact S4]]. intros p Hp. destruct (S2 p Hp) as (Lp & q0 & ch & Hq & Hc & Hm). split; [exact Lp|]. destruct (Par p q0 Hq) as (q1 & H1 & E1). exists q1, ch. rewrite E1. auto.
    Qed.
    Lemma parent_kept h o a p : sound h -> nth_error h a = Some o -> u_parent o = Some p -> parent_of by_truth h o = Some p.
    Proof.
      intros S Ho Hp. destruct (S a o Ho) as (_ & S2 & _). destruct (S2 p Hp) as (_ & q & _ & Hq & _). unfold parent_of. rewrite Hp, Hq. destruct by_truth eqn:Eb; [|reflexivity]. cbn [andb].
      destruct (Nat.eqb_spec (List.length (a_parts (u_assign q))) 0) as [Z0|]; [|reflexivity]. exfalso. destruct (g_nodes g) as [|n ns] eqn:En; [now apply Hne|]. destruct (S p q Hq) as (C & _). rewrite En in C.
      assert (Hn : In n (dkeys (a_map (u_assign q)))) by (apply (coh_dom _ _ C); now left). apply dget_key in Hn. destruct Hn as (l & Hd). apply (coh_agree _ _ C) in Hd. destruct Hd as (s & Hs & _). destruct (a_parts (u_assign q)); [discriminate|discriminate].
    Qed.
    Lemma read_right fuel : forall h a, sound h ->
      (forall o, nth_error h a = Some o -> a < fuel -> exists d, fst (rd fuel h a) = Ok d /\ right R inside (u_assign o) d) /\
      sound (snd (rd fuel h a)) /\ forall b q, nth_error h b = Some q -> exists q', nth_error (snd (rd fuel h a)) b = Some q' /\ u_assign q' = u_assign q /\ u_parent q' = u_parent q /\ u_flows q' = u_flows q /\ u_eflows q' = u_eflows q.
    Proof.
      induction fuel as [|fuel IH]; intros h a S; [split; [lia|split; [exact S|cbn; eauto 9]]|]. cbn [uread].
      destruct (nth_error h a) as [o|] eqn:Eo; [|split; [discriminate|split; [exact S|eauto 9]]].
      destruct (u_cache o) as [d|] eqn:Ec; [split; [intros o' [= <-] _; exists d; split; [reflexivity|now apply (S a o Eo)]|split; [exact S|cbn; eauto 9]]|].
      destruct (S a o Eo) as (S1 & S2 & S3 & S4).
      assert (La : a < List.length h) by (apply nth_error_Some; congruence).
      assert (Fin : forall r h', sound h' -> (forall b q, nth_error h b = Some q -> exists q', nth_error h' b = Some q' /\ u_assign q' = u_assign q /\ u_parent q' = u_parent q /\ u_flows q' = u_flows q /\ u_eflows q' = u_eflows q) ->
        (forall d, r = Ok d -> right R inside (u_assign o) d) -> (a < Datatypes.S fuel -> exists d, r = Ok d) ->
        let z := match r with Ok d => (Ok d, put h' a (mkUobj (u_assign o) (u_parent o) (u_flows o) (u_eflows o) (Some d))) | Err e => (Err e, h') | NoFuel => (NoFuel, h') end in
        (forall o', Some o = Some o' -> a < Datatypes.S fuel -> exists d, fst z = Ok d /\ right R inside (u_assign o') d) /\ sound (snd z) /\
        forall b q, nth_error h b = Some q -> exists q', nth_error (snd z) b = Some q' /\ u_assign q' = u_assign q /\ u_parent q' = u_parent q /\ u_flows q' = u_flows q /\ u_eflows q' = u_eflows q).
      { intros r h' S' Kp Hr Hok z. destruct (Kp a o Eo) as (o1 & Ho1 & A1 & P1 & F1 & E1). split; [|split].
        - intros o' [= <-] Hlt. destruct (Hok Hlt) as (d & ->). exists d. split; [reflexivity|now apply Hr].
        - destruct r as [d| |]; cbn [z snd]; [|exact S'|exact S']. rewrite <- A1, <- P1, <- F1, <- E1. apply sound_put; [exact S'|exact Ho1|]. rewrite A1. now apply Hr.
        - intros b q Hb. destruct (Kp b q Hb) as (q' & Hq' & Q). destruct r as [d| |]; cbn [z snd]; [|eauto|eauto]. destruct (Nat.eq_dec a b) as [<-|Hn].
          + rewrite put_same by (apply nth_error_Some; congruence). eexists. split; [reflexivity|]. cbn. replace q with o by congruence. auto.
          + rewrite put_other by exact Hn. eauto. }
      destruct (u_parent o) as [p|] eqn:Ep.
      - rewrite (parent_kept h o a p S Eo Ep), String.eqb_refl. destruct (S2 p eq_refl) as (Lp & q & ch & Hq & Hc & Hm). destruct (IH h p S) as (R1 & R2 & R3). destruct (rd fuel h p) as [r h'] eqn:Er. cbn [fst snd] in R1, R2, R3.
        destruct (S p q Hq) as (Cq & _).
        apply Fin; [exact R2|exact R3| |].
        + intros d Hd. destruct r as [pv| |]; [|discriminate|discriminate]. cbn [bind] in Hd. rewrite (HU o ch pv Hc) in Hd.
          destruct fuel as [|k]; [cbn in Er; discriminate|].
          assert (Rp : right R inside (u_assign q) pv).
          { destruct (R3 p q Hq) as (q' & Hq' & Aq & _). cbn [uread] in Er. rewrite Hq in Er. destruct (u_cache q) as [d0|] eqn:Ecq; [injection Er as <- _; now apply (S p q Hq)|].
            destruct (match parent_of by_truth h q with None => (init (u_assign q), h) | Some p0 => if (key =? key)%string then let '(r, h'0) := rd k h p0 in (previous <- r ;; update q previous, h'0) else (Err KeyError, h) end) as [r0 h0] eqn:Em. destruct r0 as [d1| |]; [|discriminate|discriminate]. injection Er as <- <-.
            assert (Lp' : p < List.length h0). { rewrite <- (put_length h0 p (mkUobj (u_assign q) (u_parent q) (u_flows q) (u_eflows q) (Some d1))). apply nth_error_Some. congruence. }
            destruct (R2 p (mkUobj (u_assign q) (u_parent q) (u_flows q) (u_eflows q) (Some d1)) (put_same _ _ _ Lp')) as (_ & _ & Z & _). now apply Z. }
          destruct (replaced_right (u_assign q) (u_assign o) ch pv Cq S1 Hm Rp) as (d' & E1 & E2). congruence.
        + intro Hlt. destruct (R1 q Hq ltac:(lia)) as (pv & -> & Rp). cbn [bind]. rewrite (HU o ch pv Hc). destruct (replaced_right (u_assign q) (u_assign o) ch pv Cq S1 Hm Rp) as (d' & E1 & _). eauto.
      - unfold parent_of. rewrite Ep. destruct (S4 eq_refl) as [Z|HGo]; [now elim Z|]. destruct (HG _ S1 HGo) as (d & Ed & Hr). apply Fin; [exact S|eauto 9| |].
        + intros d' Hd'. congruence.
        + intros _. eauto.
    Qed.
    Lemma history_sound h : history cuts G rd h -> sound h.
    Proof.
      induction 1 as [d A D F HA|h a flips h' Hh S D F|h fuel a Hh S|h a Hh S He].
      - intros [|a] o Ho; cbn in Ho; [|destruct a; discriminate]. injection Ho as <-. cbn. split; [now apply (first_coherent g d A)|]. split; [discriminate|]. split; [discriminate|auto].
      - unfold uflip in F. destruct (nth_error h a) as [o|] eqn:Eo; [|discriminate]. cbn [of_option bind] in F. destruct (flows_from_changes (a_map (u_assign o)) flips) as [fl| |] eqn:Ef; [|discriminate|discriminate]. cbn [bind] in F. destruct (update_flows (u_assign o) fl) as [A| |] eqn:Eu; [|discriminate|discriminate]. cbn [bind] in F.
        destruct (if cuts then e <- compute_edge_flows g (a_map (u_assign o)) (a_map A) flips ;; Ok (Some e) else Ok None) as [ef| |] eqn:Ee; [|discriminate|discriminate]. cbn [bind] in F. injection F as <-.
        assert (La : a < List.length h) by (apply nth_error_Some; congruence). destruct (S a o Eo) as (Co & _). assert (Fa : flip_assignment (u_assign o) flips = Ok A) by (unfold flip_assignment; rewrite Ef; exact Eu).
        intros b q Hb. destruct (Nat.lt_ge_cases b (List.length h)) as [Lb|Lb].
        + rewrite nth_error_app1 in Hb by exact Lb. destruct (S b q Hb) as (S1 & S2 & S3 & S4). split; [exact S1|]. split; [|auto]. intros p Hp. destruct (S2 p Hp) as (Lp & q0 & ch & Hq & Hc). split; [exact Lp|]. exists q0, ch. split; [|exact Hc]. rewrite nth_error_app1; [exact Hq|]. apply nth_error_Some. congruence.
        + assert (b = List.length h). { assert (b < List.length (h ++ [mkUobj A (Some a) fl ef None])) by (apply nth_error_Some; congruence). rewrite app_length in *. cbn in *. lia. } subst b. rewrite nth_error_app2, Nat.sub_diag in Hb by lia. injection Hb as <-. cbn [u_assign u_parent u_cache].
          split; [now apply (flip_coherent _ (u_assign o) flips)|]. split; [|split; discriminate]. intros p [= <-]. split; [exact La|]. destruct (Hflip (u_assign o) flips fl A ef a Co D Ef Eu Ee) as (ch & Hc & Hm). exists o, ch. split; [rewrite nth_error_app1; auto|]. auto.
      - apply (read_right fuel h a S).
      - unfold uerase. destruct (nth_error h a) as [o|] eqn:Eo; [|exact S]. assert (La : a < List.length h) by (apply nth_error_Some; congruence).
        assert (Par : forall p q0, nth_error h p = Some q0 -> exists q1, nth_error (put h a (mkUobj (u_assign o) None (u_flows o) (u_eflows o) (u_cache o))) p = Some q1 /\ u_assign q1 = u_assign q0).
        { intros p q0 Hp. destruct (Nat.eq_dec a p) as [<-|Hn]; [rewrite put_same by exact La; eexists; split; [reflexivity|]; cbn; congruence|rewrite put_other by exact Hn; eauto]. }
        intros b q Hb. apply put_cases in Hb. destruct Hb as [[-> ->]|[Hn Hb]].
        + destruct (S a o Eo) as (S1 & S2 & S3 & S4). cbn. split; [exact S1|]. split; [discriminate|]. split; [exact S3|]. intros _. now apply He.
        + destruct (S b q Hb) as (S1 & S2 & S3 & S4). split; [exact S1|]. split; [|auto]. intros p Hp. destruct (S2 p Hp) as (Lp & q0 & ch & Hq & Hc & Hm). split; [exact Lp|]. destruct (Par p q0 Hq) as (q1 & H1 & E1). exists q1, ch. rewrite E1. auto.
    Qed.
    Lemma kind_right h a o fuel : history cuts G rd h -> nth_error h a = Some o -> a < fuel -> exists d, fst (rd fuel h a) = Ok d /\ right R inside (u_assign o) d.
    Proof. intros Hh Ho Hf. now apply (read_right fuel h a (history_sound h Hh)). Qed.
  End Kind.

  (** ** The two decorators *)
  Lemma inside_label A p n : coherent (g_nodes g) A -> node_of A p n -> In p (labels A).
  Proof. intros C H. apply (coh_agree _ _ C) in H. destruct H as (s & Hs & _). eapply dget_Some_key. exact Hs. Qed.
  Lemma node_dec (A : assignment) p n : node_of A p n \/ ~ node_of A p n.
  Proof. unfold node_of. destruct (eqb_spec (district A n) (Some p)); auto. Qed.
  Lemma node_moves A flips fl A' : coherent (g_nodes g) A -> is_dict flips -> flows_from_changes (a_map A) flips = Ok fl -> update_flows A fl = Ok A' -> moved_ok node_of A A' fl.
  Proof.
    intros C D Ef Eu. assert (Fa : flip_assignment A flips = Ok A') by (unfold flip_assignment; rewrite Ef; exact Eu). pose proof (flip_district (g_nodes g) A flips A') as FD. destruct (flows_from_changes_spec _ _ _ D Ef) as [W Dm I O].
    assert (Ov : forall n, district A' n = overridden (a_map A) flips n) by (intro n; eapply FD; eauto).
    split; [exact W|]. split; [eapply flip_labels; eauto|]. unfold node_of. split; intros p n; rewrite Ov; unfold overridden, district; [rewrite I|rewrite O].
    - destruct (dget flips n) as [t|] eqn:Et; [split; intros [H1 H2]; split; congruence|]. split; [intros [H _]; discriminate|tauto].
    - destruct (dget flips n) as [t|] eqn:Et; [|split; [intros (_ & t & H & _); discriminate|tauto]]. split; [intros (H & t' & [= <-] & H2); split; [exact H|congruence]|intros [H H2]; split; [exact H|]; exists t; split; [reflexivity|congruence]].
  Qed.
  Lemma edge_moves A flips fl A' e : wf_graph g -> coherent (g_nodes g) A -> is_dict flips -> flows_from_changes (a_map A) flips = Ok fl -> update_flows A fl = Ok A' -> compute_edge_flows g (a_map A) (a_map A') flips = Ok e -> moved_ok edge_of A A' e.
  Proof.
    intros WG C D Ef Eu Ee. assert (Fa : flip_assignment A flips = Ok A') by (unfold flip_assignment; rewrite Ef; exact Eu).
    destruct (compute_edge_flows_spec g A flips A' WG C) as (e' & E1 & [W I O]); [eapply flip_coherent; eauto|intro n; eapply flip_district; eauto|]. assert (e' = e) by congruence. subst e'.
    split; [exact W|]. split; [eapply flip_labels; eauto|]. split; assumption.
  Qed.

  (** An updater made with on_flow: whatever the user means by the right value of
      a district, if the initializer is right and the function follows what came
      and what left, every read of every plan in every history is right, for every
      district, and none raises. *)
  Theorem C131_on_flow (R : meaning N) f init key cuts (G : assignment -> Prop) h a o fuel :
    of_sets R -> follows R node_of f -> (forall A, coherent (g_nodes g) A -> G A -> starts R node_of init A) ->
    history cuts G (uread key key init (on_flow f) false) h -> nth_error h a = Some o -> a < fuel ->
    exists d, fst (uread key key init (on_flow f) false fuel h a) = Ok d /\ right R node_of (u_assign o) d.
  Proof.
    intros Rx HF HG Hh Ho Hf. apply (kind_right R node_of (fun o => Some (u_flows o)) f init key cuts false G (on_flow f)) with (h := h); try assumption; try discriminate.
    - intros o' fl prev [= <-]. reflexivity.
    - apply inside_label.
    - intros. apply node_dec.
    - intros A flips fl A' ef b C D Ef Eu _. exists fl. split; [reflexivity|]. now apply (node_moves A flips).
    - reflexivity.
  Qed.

  (** The same for on_edge_flow and the cut edges of each district, if "cut_edges"
      is among the updaters. *)
  Theorem C131_on_edge_flow (R : meaning (N * N)) f init key (G : assignment -> Prop) h a o fuel :
    wf_graph g -> g_nodes g <> [] ->
    of_sets R -> follows R edge_of f -> (forall A, coherent (g_nodes g) A -> G A -> starts R edge_of init A) ->
    history true G (uread key key init (on_edge_flow f) true) h -> nth_error h a = Some o -> a < fuel ->
    exists d, fst (uread key key init (on_edge_flow f) true fuel h a) = Ok d /\ right R edge_of (u_assign o) d.
  Proof.
    intros WG NE Rx HF HG Hh Ho Hf. apply (kind_right R edge_of (@u_eflows N P X) f init key true true G (on_edge_flow f)) with (h := h); try assumption.
    - intros o' fl prev E. unfold on_edge_flow. rewrite E. reflexivity.
    - intros A p e C [_ [H|H]]; eapply inside_label; eauto.
    - intros A p e _. apply cut_of_dec.
    - auto.
    - intros A flips fl A' ef b C D Ef Eu Ee. cbn iota in Ee. destruct (compute_edge_flows g (a_map A) (a_map A') flips) as [e| |] eqn:Ec; [|discriminate|discriminate]. cbn [bind] in Ee. injection Ee as <-. exists e. split; [reflexivity|]. now apply (edge_moves A flips fl).
    - reflexivity.
  Qed.

  (** ** What the user's function is not asked about *)
  Lemma replaced_other {Y} (inside : assignment -> P -> Y -> Prop) (f : assignment -> X -> list Y -> list Y -> res X) A A' fl (d d' : dict P X) p : moved_ok inside A A' fl -> replaced f A' fl d = Ok d' -> (forall y, inside A p y <-> inside A' p y) -> dget d' p = dget d p.
  Proof.
    intros (W & _ & I & O) E Hs. unfold replaced in E. destruct (foldM_dset (fun pf : P * flow Y => pv <- of_option KeyError (dget d (fst pf)) ;; f A' pv (f_in (snd pf)) (f_out (snd pf))) fl d d' (wff_keys _ W) E) as (_ & D2 & _).
    apply D2. intro Hk. apply (wff_live _ W) in Hk. destruct Hk as (y & [Hy|Hy]); [apply I in Hy|apply O in Hy]; rewrite Hs in Hy; tauto.
  Qed.
  (** A district that neither gained nor lost anything keeps the value of the
      plan before, whatever the user's functions do. *)
  Theorem C131_untouched f init key cuts (h : uheap) a o flips h' fuel (d0 d : dict P X) p :
    nth_error h a = Some o -> coherent (g_nodes g) (u_assign o) -> is_dict flips -> uflip g cuts h a flips = Ok h' ->
    fst (uread key key init (on_flow f) false fuel h' a) = Ok d0 -> fst (uread key key init (on_flow f) false (S fuel) h' (List.length h)) = Ok d ->
    (forall A', nth_error (map u_assign h') (List.length h) = Some A' -> forall n, district (u_assign o) n = Some p <-> district A' n = Some p) -> dget d p = dget d0 p.
  Proof.
    intros Ho C D F E0 E1 Hs. assert (La : a < List.length h) by (apply nth_error_Some; congruence). unfold uflip in F. rewrite Ho in F. cbn [of_option bind] in F.
    destruct (flows_from_changes (a_map (u_assign o)) flips) as [fl| |] eqn:Ef; [|discriminate|discriminate]. cbn [bind] in F. destruct (update_flows (u_assign o) fl) as [A| |] eqn:Eu; [|discriminate|discriminate]. cbn [bind] in F.
    match type of F with (x <- ?r ;; _) = _ => destruct r as [ef| |]; [|discriminate|discriminate] end. cbn [bind] in F. injection F as <-.
    cbn [uread] in E1. rewrite nth_error_app2, Nat.sub_diag in E1 by lia. cbn [nth_error u_cache parent_of u_parent] in E1. unfold parent_of in E1. cbn [u_parent] in E1. rewrite nth_error_app1, Ho in E1 by exact La. cbn [andb] in E1. rewrite String.eqb_refl in E1.
    destruct (uread key key init (on_flow f) false fuel (h ++ [mkUobj A (Some a) fl ef None]) a) as [r h1]. cbn [fst] in E0. subst r. cbn [bind] in E1.
    destruct (on_flow f (mkUobj A (Some a) fl ef None) d0) as [d1| |] eqn:Er; [|discriminate|discriminate]. cbn [fst] in E1. injection E1 as <-.
    unfold on_flow in Er. cbn [u_assign u_flows] in Er. apply (replaced_other node_of f (u_assign o) A fl d0 d1 p); [now apply (node_moves _ flips)|exact Er|]. apply Hs. rewrite map_app, nth_error_app2, map_length, Nat.sub_diag by (rewrite map_length; lia). reflexivity.
  Qed.

  (** The same for on_edge_flow. *)
  Theorem C131_untouched_edges f init key (h : uheap) a o flips h' fuel (d0 d : dict P X) p :
    wf_graph g -> nth_error h a = Some o -> a_parts (u_assign o) <> [] -> coherent (g_nodes g) (u_assign o) -> is_dict flips -> uflip g true h a flips = Ok h' ->
    fst (uread key key init (on_edge_flow f) true fuel h' a) = Ok d0 -> fst (uread key key init (on_edge_flow f) true (S fuel) h' (List.length h)) = Ok d ->
    (forall A', nth_error (map u_assign h') (List.length h) = Some A' -> forall e, cut_edge_of g (u_assign o) p e <-> cut_edge_of g A' p e) -> dget d p = dget d0 p.
  Proof.
    intros WG Ho Np C D F E0 E1 Hs. assert (La : a < List.length h) by (apply nth_error_Some; congruence). unfold uflip in F. rewrite Ho in F. cbn [of_option bind] in F.
    destruct (flows_from_changes (a_map (u_assign o)) flips) as [fl| |] eqn:Ef; [|discriminate|discriminate]. cbn [bind] in F. destruct (update_flows (u_assign o) fl) as [A| |] eqn:Eu; [|discriminate|discriminate]. cbn [bind] in F.
    destruct (compute_edge_flows g (a_map (u_assign o)) (a_map A) flips) as [ef| |] eqn:Ee; [|discriminate|discriminate]. cbn [bind] in F. injection F as <-.
    cbn [uread] in E1. rewrite nth_error_app2, Nat.sub_diag in E1 by lia. cbn [nth_error u_cache] in E1. unfold parent_of in E1. cbn [u_parent] in E1. rewrite nth_error_app1, Ho in E1 by exact La.
    destruct (Nat.eqb_spec (List.length (a_parts (u_assign o))) 0) as [Z0|_]; [destruct (a_parts (u_assign o)); [now elim Np|discriminate]|]. cbn [andb] in E1. rewrite String.eqb_refl in E1.
    destruct (uread key key init (on_edge_flow f) true fuel (h ++ [mkUobj A (Some a) fl (Some ef) None]) a) as [r h1]. cbn [fst] in E0. subst r. cbn [bind] in E1.
    destruct (on_edge_flow f (mkUobj A (Some a) fl (Some ef) None) d0) as [d1| |] eqn:Er; [|discriminate|discriminate]. cbn [fst] in E1. injection E1 as <-.
    unfold on_edge_flow in Er. cbn [u_assign u_eflows of_option bind] in Er. apply (replaced_other edge_of f (u_assign o) A ef d0 d1 p); [now apply (edge_moves _ flips fl)|exact Er|]. apply Hs. rewrite map_app, nth_error_app2, map_length, Nat.sub_diag by (rewrite map_length; lia). reflexivity.
  Qed.

  (** ** What goes wrong *)
  (** A wrong alias: the initial plan can be read, no plan that was flipped from
      another can. *)
  Theorem C131_alias key alias init update by_truth fuel (h : uheap) a o : alias <> key -> nth_error h a = Some o -> u_cache o = None -> parent_of by_truth h o <> None ->
    uread key alias init update by_truth (S fuel) h a = (Err KeyError, h).
  Proof. intros Hn Ho Hc Hp. cbn [uread]. rewrite Ho, Hc. destruct (parent_of by_truth h o); [|now elim Hp]. apply String.eqb_neq in Hn. now rewrite Hn. Qed.
  (** on_edge_flow without a "cut_edges" updater: a plan that was flipped from
      another is never given a value. *)
  Theorem C131_no_cut_edges f init key (h : uheap) a flips h' fuel d : uflip g false h a flips = Ok h' -> (forall o, nth_error h a = Some o -> a_parts (u_assign o) <> []) ->
    fst (uread key key init (on_edge_flow f) true fuel h' (List.length h)) <> Ok d.
  Proof.
    intros F Hp E. unfold uflip in F. destruct (nth_error h a) as [o|] eqn:Ho; [|discriminate]. cbn [of_option bind] in F. assert (La : a < List.length h) by (apply nth_error_Some; congruence).
    destruct (flows_from_changes (a_map (u_assign o)) flips) as [fl| |] eqn:Ef; [|discriminate|discriminate]. cbn [bind] in F. destruct (update_flows (u_assign o) fl) as [A| |] eqn:Eu; [|discriminate|discriminate]. cbn [bind] in F. injection F as <-.
    destruct fuel as [|fuel]; [discriminate|]. cbn [uread] in E. rewrite nth_error_app2, Nat.sub_diag in E by lia. cbn [nth_error u_cache] in E. unfold parent_of in E. cbn [u_parent] in E. rewrite nth_error_app1, Ho in E by exact La. specialize (Hp o eq_refl). destruct (a_parts (u_assign o)) as [|x xs]; [now elim Hp|]. cbn [List.length Nat.eqb andb] in E. rewrite String.eqb_refl in E.
    destruct (uread key key init (on_edge_flow f) true fuel (h ++ [mkUobj A (Some a) fl None None]) a) as [r h1]. destruct r as [pv| |]; discriminate.
  Qed.
End UserFlow.

(** ** Counting: for every graph the hypotheses can be met *)
Section Counting.
  Context {N P : Type} {EN : EqB N} {EP : EqB P} {ON : Ord N}.
  Variable g : graph N.
  Notation assignment := (assignment N P).
  (** The number of items. *)
  Definition count_of {Y} : @meaning P nat Y := fun _ S k => exists l, NoDup l /\ List.length l = k /\ forall y, In y l <-> S y.
  Definition tally {Y} (A : assignment) (x : nat) (ins outs : list Y) : res nat := Ok (x + List.length ins - List.length outs).
  Lemma count_sets {Y} : of_sets (@count_of Y).
  Proof. intros p S S' x H (l & D & L & I). exists l. split; [exact D|]. split; [exact L|]. intro y. now rewrite I. Qed.
  Lemma count_follows {Y} {EY : EqB Y} (inside : assignment -> P -> Y -> Prop) : follows g count_of inside tally.
  Proof.
    intros A p S x ins outs C (l & D & L & I) Di Do Ho Hi Ha. unfold tally. eexists. split; [reflexivity|].
    exists (filter (fun y => negb (existsb (eqb y) outs)) l ++ ins).
    assert (B : forall y, negb (existsb (eqb y) outs) = true <-> ~ In y outs).
    { intro y. rewrite negb_true_iff, <- not_true_iff_false, existsb_exists. split; intros H H1; apply H; [exists y; split; [exact H1|now destruct (eqb_spec y y)]|]. destruct H1 as (z & Hz & E). destruct (eqb_spec y z); [now subst|discriminate]. }
    split; [|split].
    - apply NoDup_app_iff. split; [now apply NoDup_filter|]. split; [exact Di|]. intros y H1 H2. apply filter_In in H1. destruct H1 as [H1 _]. apply I in H1. now apply (Hi y).
    - rewrite app_length. assert (Pm : Permutation l (filter (fun y => negb (existsb (eqb y) outs)) l ++ outs)).
      { apply NoDup_Permutation; [exact D| |].
        - apply NoDup_app_iff. split; [now apply NoDup_filter|]. split; [exact Do|]. intros y H1 H2. apply filter_In in H1. destruct H1 as [_ H1]. now apply B in H1.
        - intro y. rewrite in_app_iff, filter_In, B. split; [intro H; destruct (existsb (eqb y) outs) eqn:E; [right; apply existsb_exists in E; destruct E as (z & Hz & E); destruct (eqb_spec y z); [now subst|discriminate]|left; split; [exact H|apply B; now rewrite E]]|intros [[H _]|H]; [exact H|apply I; now apply Ho]]. }
      apply Permutation_length in Pm. rewrite app_length in Pm. lia.
    - intro y. rewrite in_app_iff, filter_In, B, I, Ha. tauto.
  Qed.
  Definition count_nodes (A : assignment) : res (dict P nat) := Ok (map (fun ps => (fst ps, List.length (snd ps))) (a_parts A)).
  Definition cut_in (A : assignment) (p : P) (e : N * N) : bool :=
    negb (eqb (district A (fst e)) (district A (snd e))) && (eqb (district A (fst e)) (Some p) || eqb (district A (snd e)) (Some p)).
  Definition count_cuts (A : assignment) : res (dict P nat) := Ok (map (fun p => (p, List.length (filter (cut_in A p) (set_of (map sort2 (g_edges g)))))) (labels A)).
  Lemma sorted_edges (e : N * N) : In e (map sort2 (g_edges g)) <-> leb (fst e) (snd e) = true /\ adj g (fst e) (snd e).
  Proof.
    rewrite in_map_iff. destruct e as [u v]. cbn [fst snd]. split.
    - intros (e & E & Hi). pose proof (sort2_leb e) as Hb. rewrite E in Hb. split; [exact Hb|]. destruct e as [x y]. pose proof (proj1 (adj_sort2 g (x, y)) (or_introl Hi)) as Ha. now rewrite E in Ha.
    - intros [Hb [Hi|Hi]]; [exists (u, v)|exists (v, u)]; split; try exact Hi; now apply sort2_sorted.
  Qed.
  Lemma count_nodes_starts A : coherent (g_nodes g) A -> starts count_of node_of count_nodes A.
  Proof.
    intro C. eexists. split; [reflexivity|]. assert (K : dkeys (map (fun ps : P * list N => (fst ps, List.length (snd ps))) (a_parts A)) = labels A) by (unfold dkeys, labels; rewrite map_map; reflexivity).
    split; [rewrite K; apply C|]. split; [rewrite K; tauto|]. intros p x Hx. apply dget_In in Hx. apply in_map_iff in Hx. destruct Hx as ([p' s] & [= -> <-] & Hi). cbn [fst snd] in *.
    apply (In_dget _ _ _ (coh_part_keys _ _ C)) in Hi. exists s. split; [now apply (coh_parts_nodup _ _ C p)|]. split; [reflexivity|]. intro y. unfold node_of. rewrite (coh_agree _ _ C). split; [intro H; exists s; auto|intros (s' & H & H2); congruence].
  Qed.
  Lemma count_cuts_starts A : wf_graph g -> coherent (g_nodes g) A -> starts count_of (edge_of g) count_cuts A.
  Proof.
    intros WG C. eexists. split; [reflexivity|]. assert (K : dkeys (map (fun p => (p, List.length (filter (cut_in A p) (set_of (map sort2 (g_edges g)))))) (labels A)) = labels A) by (unfold dkeys; rewrite map_map; apply map_id).
    split; [rewrite K; apply C|]. split; [rewrite K; tauto|]. intros p x Hx. apply dget_In in Hx. apply in_map_iff in Hx. destruct Hx as (p' & [= -> <-] & Hi).
    exists (filter (cut_in A p) (set_of (map sort2 (g_edges g)))). split; [apply NoDup_filter; apply NoDup_set_of|]. split; [reflexivity|]. intro e. rewrite filter_In, In_set_of, sorted_edges. unfold edge_of, cut_edge_of, S_Machine.cut_edge, cut_in. rewrite andb_true_iff, negb_true_iff, orb_true_iff.
    destruct (eqb_spec (district A (fst e)) (district A (snd e))), (eqb_spec (district A (fst e)) (Some p)), (eqb_spec (district A (snd e)) (Some p)); tauto || intuition (try congruence; try discriminate).
  Qed.
  (** A counter of nodes and a counter of cut edges, written with the decorators,
      are right on every plan, also after a chain has dropped parents at any time. *)
  Theorem C131_count_nodes key cuts h a (o : uobj N P nat) fuel : history g cuts (fun _ => True) (uread key key count_nodes (on_flow tally) false) h -> nth_error h a = Some o -> a < fuel ->
    exists d, fst (uread key key count_nodes (on_flow tally) false fuel h a) = Ok d /\ right count_of node_of (u_assign o) d.
  Proof. apply C131_on_flow; [apply count_sets|apply count_follows|intros; now apply count_nodes_starts]. Qed.
  Theorem C131_count_cuts key h a (o : uobj N P nat) fuel : wf_graph g -> g_nodes g <> [] -> history g true (fun _ => True) (uread key key count_cuts (on_edge_flow tally) true) h -> nth_error h a = Some o -> a < fuel ->
    exists d, fst (uread key key count_cuts (on_edge_flow tally) true fuel h a) = Ok d /\ right count_of (edge_of g) (u_assign o) d.
  Proof. intros WG NE. apply C131_on_edge_flow; [exact WG|exact NE|apply count_sets|apply count_follows|intros; now apply count_cuts_starts]. Qed.
End Counting.

(** ** Sums: the user's own tally *)
Section Adding.
  Context {N P V : Type} {EN : EqB N} {EP : EqB P} {ON : Ord N} {RV : CRing V}.
  Variable g : graph N.
  Notation assignment := (assignment N P).
  (** The sum of [w] over the items. *)
  Definition sum_of {Y} (w : Y -> V) : @meaning P V Y := fun _ S x => sums_to w S x.
  Definition add_up {Y} (w : Y -> V) (A : assignment) (x : V) (ins outs : list Y) : res V := Ok (csub (cadd x (vsum (map w ins))) (vsum (map w outs))).
  Lemma sum_sets {Y} {EY : EqB Y} (w : Y -> V) : of_sets (sum_of w).
  Proof. intros p S S' x H Hx. now apply (sums_to_ext w S). Qed.
  Lemma sum_follows {Y} {EY : EqB Y} (w : Y -> V) (inside : assignment -> P -> Y -> Prop) : follows g (sum_of w) inside (add_up w).
  Proof. intros A p S x ins outs C Hx Di Do Ho Hi Ha. eexists. split; [reflexivity|]. now apply (sums_to_step' w S). Qed.
  Definition sum_nodes (w : N -> V) (A : assignment) : res (dict P V) := Ok (map (fun ps => (fst ps, vsum (map w (snd ps)))) (a_parts A)).
  Definition sum_cuts (w : N * N -> V) (A : assignment) : res (dict P V) := Ok (map (fun p => (p, vsum (map w (filter (cut_in A p) (set_of (map sort2 (g_edges g))))))) (labels A)).
  Lemma sum_nodes_starts w A : coherent (g_nodes g) A -> starts (sum_of w) node_of (sum_nodes w) A.
  Proof.
    intro C. eexists. split; [reflexivity|]. assert (K : dkeys (map (fun ps : P * list N => (fst ps, vsum (map w (snd ps)))) (a_parts A)) = labels A) by (unfold dkeys, labels; rewrite map_map; reflexivity).
    split; [rewrite K; apply C|]. split; [rewrite K; tauto|]. intros p x Hx. apply dget_In in Hx. apply in_map_iff in Hx. destruct Hx as ([p' s] & [= -> <-] & Hi). cbn [fst snd] in *.
    apply (In_dget _ _ _ (coh_part_keys _ _ C)) in Hi. exists s. split; [now apply (coh_parts_nodup _ _ C p)|]. split; [|reflexivity]. intro y. unfold node_of. rewrite (coh_agree _ _ C). split; [intro H; exists s; auto|intros (s' & H & H2); congruence].
  Qed.
  Lemma sum_cuts_starts w A : coherent (g_nodes g) A -> starts (sum_of w) (edge_of g) (sum_cuts w) A.
  Proof.
    intros C. eexists. split; [reflexivity|]. assert (K : dkeys (map (fun p => (p, vsum (map w (filter (cut_in A p) (set_of (map sort2 (g_edges g))))))) (labels A)) = labels A) by (unfold dkeys; rewrite map_map; apply map_id).
    split; [rewrite K; apply C|]. split; [rewrite K; tauto|]. intros p x Hx. apply dget_In in Hx. apply in_map_iff in Hx. destruct Hx as (p' & [= -> <-] & Hi).
    exists (filter (cut_in A p) (set_of (map sort2 (g_edges g)))). split; [apply NoDup_filter, NoDup_set_of|]. split; [|reflexivity]. intro e. rewrite filter_In, In_set_of, sorted_edges. unfold edge_of, cut_edge_of, S_Machine.cut_edge, cut_in. rewrite andb_true_iff, negb_true_iff, orb_true_iff.
    destruct (eqb_spec (district A (fst e)) (district A (snd e))), (eqb_spec (district A (fst e)) (Some p)), (eqb_spec (district A (snd e)) (Some p)); tauto || intuition (try congruence; try discriminate).
  Qed.
  (** A sum over the nodes, or over the cut edges, of each district, written with
      the decorators, is right on every plan, also after a chain has dropped
      parents at any time. *)
  Theorem C131_sum_nodes w key cuts h a (o : uobj N P V) fuel : history g cuts (fun _ => True) (uread key key (sum_nodes w) (on_flow (add_up w)) false) h -> nth_error h a = Some o -> a < fuel ->
    exists d, fst (uread key key (sum_nodes w) (on_flow (add_up w)) false fuel h a) = Ok d /\ right (sum_of w) node_of (u_assign o) d.
  Proof. apply C131_on_flow; [apply sum_sets|apply sum_follows|intros; now apply sum_nodes_starts]. Qed.
  Theorem C131_sum_cuts w key h a (o : uobj N P V) fuel : wf_graph g -> g_nodes g <> [] -> history g true (fun _ => True) (uread key key (sum_cuts w) (on_edge_flow (add_up w)) true) h -> nth_error h a = Some o -> a < fuel ->
    exists d, fst (uread key key (sum_cuts w) (on_edge_flow (add_up w)) true fuel h a) = Ok d /\ right (sum_of w) (edge_of g) (u_assign o) d.
  Proof. intros WG NE. apply C131_on_edge_flow; [exact WG|exact NE|apply sum_sets|apply sum_follows|intros; now apply sum_cuts_starts]. Qed.
End Adding.

(** ** A literal history *)
Definition path4 : graph nat := mkGraph [1; 2; 3; 4] [(1, 2); (2, 3); (3, 4)].
Definition halves : dict nat nat := [(1, 0); (2, 0); (3, 1); (4, 1)].
Definition ucounter := uread "n" "n" (@count_nodes nat nat) (on_flow (tally (N := nat))) false.
Definition ucuts := uread "c" "c" (@count_cuts nat nat _ _ _ path4) (on_edge_flow (tally (N := nat))) true.

Definition first_plan : assignment nat nat := match first_time_assignment path4 halves with Ok A => A | _ => mkAssignment [] [] end.
(** Node 3 moves to district 0, then node 2 to district 1. *)
Definition two_flips : uheap nat nat nat :=
  match uflip path4 true [uroot first_plan] 0 [(3, 0)] with
  | Ok h => match uflip path4 true h 1 [(2, 1)] with Ok h => h | _ => [] end
  | _ => []
  end.
Lemma two_flips_history (G : assignment nat nat -> Prop) rd : G first_plan -> history path4 true G rd two_flips.
Proof.
  intro H. apply (h_flip path4 true G rd) with (h := match uflip path4 true [uroot first_plan] 0 [(3, 0)] with Ok h => h | _ => [] end) (a := 1) (flips := [(2, 1)]); [|nodup|reflexivity].
  apply (h_flip path4 true G rd) with (h := [uroot first_plan]) (a := 0) (flips := [(3, 0)]); [|nodup|reflexivity].
  apply (h_start path4 true G rd) with (d := halves); [nodup|reflexivity|exact H].
Qed.
(** Read in any order, and after the parent was dropped. *)
Example C131_nonvacuous :
  history path4 true (fun _ => True) ucounter (uerase (snd (ucounter 3 two_flips 2)) 2) /\
  fst (ucounter 3 two_flips 2) = Ok [(0, 2); (1, 2)] /\ fst (ucounter 3 two_flips 1) = Ok [(0, 3); (1, 1)] /\
  fst (ucounter 3 (uerase two_flips 1) 1) = Ok [(0, 3); (1, 1)] /\
  history path4 true (fun _ => True) ucuts (uerase two_flips 1) /\ fst (ucuts 3 two_flips 2) = Ok [(0, 3); (1, 3)] /\ fst (ucuts 3 two_flips 1) = Ok [(0, 1); (1, 1)] /\
  wf_graph path4.
Proof.
  split; [apply h_erase; [apply h_read; now apply two_flips_history|auto]|]. split; [reflexivity|]. split; [reflexivity|]. split; [reflexivity|]. split; [apply h_erase; [now apply two_flips_history|auto]|]. split; [reflexivity|]. split; [reflexivity|wfg].
Qed.

Example C131_sums_nonvacuous :
  let w n := Z.of_nat n in let we e := Z.of_nat (fst e * snd e) in
  let rn := uread "s" "s" (sum_nodes w) (on_flow (add_up w)) false in let re := uread "s" "s" (sum_cuts path4 we) (on_edge_flow (add_up we)) true in
  exists h : uheap nat nat Z, history path4 true (fun _ => True) rn h /\ history path4 true (fun _ => True) re h /\
    fst (rn 2 h 1) = Ok [(0, 6%Z); (1, 4%Z)] /\ fst (re 2 h 1) = Ok [(0, 12%Z); (1, 12%Z)].
Proof.
  cbn zeta. exists (match uflip path4 true [uroot first_plan] 0 [(3, 0)] with Ok h => h | _ => [] end). split; [|split; [|split; reflexivity]];
  (eapply (h_flip path4 true) with (h := [uroot first_plan]) (a := 0) (flips := [(3, 0)]); [|nodup|reflexivity]; eapply (h_start path4 true) with (d := halves); [nodup|reflexivity|exact I]).
Qed.

(** An initializer that is right for the first plan only: read before its parent
    is dropped a flipped plan has the right value; a plan that is first read
    after its parent was dropped is given to the initializer, and its value is
    wrong. *)
Theorem C131_first_only_refuted : exists init : assignment nat nat -> res (dict nat nat),
  starts count_of node_of init first_plan /\
  (exists o d, nth_error two_flips 1 = Some o /\ fst (uread "n" "n" init (on_flow (tally (N := nat))) false 2 two_flips 1) = Ok d /\ right count_of node_of (u_assign o) d) /\
  (exists o d, nth_error (uerase two_flips 1) 1 = Some o /\ fst (uread "n" "n" init (on_flow (tally (N := nat))) false 2 (uerase two_flips 1) 1) = Ok d /\ ~ right count_of node_of (u_assign o) d).
Proof.
  assert (C : coherent (g_nodes path4) first_plan) by (apply (first_coherent path4 halves); [nodup|reflexivity]).
  assert (S0 : starts count_of node_of (fun _ => Ok [(0, 2); (1, 2)]) first_plan) by exact (count_nodes_starts path4 first_plan C).
  exists (fun _ => Ok [(0, 2); (1, 2)]). split; [exact S0|]. split.
  - assert (K : exists d, fst (uread "n" "n" (fun _ => Ok [(0, 2); (1, 2)]) (on_flow (tally (N := nat))) false 2 two_flips 1) = Ok d /\ right count_of node_of (u_assign (nth 1 two_flips (uroot first_plan))) d).
    { apply (C131_on_flow path4 count_of tally (fun _ => Ok [(0, 2); (1, 2)]) "n" true (fun A => A = first_plan)); [apply count_sets|exact (count_follows path4 node_of)|intros A _ ->; exact S0|now apply two_flips_history|reflexivity|lia]. }
    destruct K as (d & E & Hr). exists (nth 1 two_flips (uroot first_plan)), d. split; [reflexivity|]. split; assumption.
  - eexists. exists [(0, 2); (1, 2)]. split; [reflexivity|]. split; [reflexivity|]. intros (_ & _ & H). destruct (H 1 2 eq_refl) as (l & D & L & I).
    assert (Hi : incl l [4]). { intros y Hy. apply I in Hy. unfold node_of, district in Hy. apply dget_In in Hy. cbn in Hy. cbn. intuition congruence. }
    apply NoDup_incl_length in Hi; [|exact D]. cbn in Hi. lia.
Qed.
(** Three districts: the third is left alone by a flip between the other two. *)
Definition thirds : assignment nat nat := match first_time_assignment path4 [(1, 0); (2, 0); (3, 1); (4, 2)] with Ok A => A | _ => mkAssignment [] [] end.
Example C131_untouched_nonvacuous : exists h',
  uflip path4 true [uroot thirds] 0 [(2, 1)] = Ok h' /\ coherent (g_nodes path4) thirds /\ a_parts thirds <> [] /\
  fst (ucounter 1 h' 0) = Ok [(0, 2); (1, 1); (2, 1)] /\ fst (ucounter 2 h' 1) = Ok [(0, 1); (1, 2); (2, 1)] /\
  fst (ucuts 1 h' 0) = Ok [(0, 1); (1, 2); (2, 1)] /\ fst (ucuts 2 h' 1) = Ok [(0, 1); (1, 2); (2, 1)].
Proof.
  eexists. split; [reflexivity|]. split; [apply (first_coherent path4 [(1, 0); (2, 0); (3, 1); (4, 2)]); [nodup|reflexivity]|]. split; [discriminate|]. repeat split; reflexivity.
Qed.
(** A wrong alias and a missing "cut_edges" updater, on the same history. *)
Example C131_failures_nonvacuous :
  fst (uread "n" "m" (@count_nodes nat nat) (on_flow (tally (N := nat))) false 3 two_flips 1) = Err KeyError /\
  exists h, uflip path4 false [uroot first_plan] 0 [(3, 0)] = Ok h /\ fst (ucuts 3 h 1) = Err KeyError /\ fst (ucuts 3 h 0) = Ok [(0, 1); (1, 1)].
Proof. split; [reflexivity|]. eexists. split; [reflexivity|]. split; reflexivity. Qed.
Print Assumptions C131_on_flow.
Print Assumptions C131_on_edge_flow.
Print Assumptions C131_untouched.
Print Assumptions C131_untouched_edges.
Print Assumptions C131_alias.
Print Assumptions C131_no_cut_edges.
Print Assumptions C131_count_nodes.
Print Assumptions C131_count_cuts.
Print Assumptions C131_sum_nodes.
Print Assumptions C131_sum_cuts.
Print Assumptions C131_first_only_refuted.
