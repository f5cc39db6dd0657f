(** C105: what Assignment objects share.  C106: update_parts.  C107: reading
    an assignment and building a plan from one. *)
From Coq Require Import String List Bool Arith Permutation Lia.
From Verif Require Import Base M_Graph M_Partition S_Partition L_Partition P_Partition M_Assignment.
Import ListNotations.

Lemma nth_upd {A} (l : list A) i x j : nth_error (upd l i x) j = if Nat.eqb i j then (match nth_error l j with Some _ => Some x | None => None end) else nth_error l j.
Proof. revert i j. induction l as [|y l IH]; intros [|i] [|j]; cbn; try reflexivity; [now destruct (Nat.eqb i j)|apply IH]. Qed.
Lemma nth_app_old {A} (l : list A) x j y : nth_error l j = Some y -> nth_error (l ++ [x]) j = Some y.
Proof. intro H. rewrite nth_error_app1; auto. apply nth_error_Some. congruence. Qed.
Lemma nth_app_new {A} (l : list A) x : nth_error (l ++ [x]) (List.length l) = Some x.
Proof. rewrite nth_error_app2 by lia. now rewrite Nat.sub_diag. Qed.
Lemma length_upd {A} (l : list A) i x : List.length (upd l i x) = List.length l.
Proof. revert i. induction l as [|y l IH]; intros [|i]; cbn; auto. Qed.
Lemma nth_app_inv {A} (l : list A) x j y : nth_error (l ++ [x]) j = Some y -> nth_error l j = Some y \/ (j = List.length l /\ y = x).
Proof.
  intro H. destruct (Nat.lt_ge_cases j (List.length l)) as [L|L].
  - left. now rewrite nth_error_app1 in H by exact L.
  - right. rewrite nth_error_app2 in H by exact L. destruct (j - List.length l) as [|k] eqn:E; cbn in H; [injection H as <-; split; [lia|reflexivity]|destruct k; discriminate].
Qed.

Section Sharing.
  Context {N P : Type} {EN : EqB N} {EP : EqB P}.

  Implicit Types (st : store N P) (v : assignment N P) (c : cmd N P).

  (** ** Specification *)
  (** Statement [c] works on the dictionary [p] (a parts dictionary), on the
      dictionary [m] (a mapping) or on the object [a] other than by copying it. *)
  Definition touches (a p m : nat) (c : cmd N P) : Prop :=
    match c with
    | Construct p' m' _ => p' = p \/ m' = Some m
    | UpdateFlows b _ | UpdateParts b _ => b = a
    | SetPart p' _ _ => p' = p
    | SetNode m' _ _ => m' = m
    | NewParts _ | NewMap _ | FromDict _ | Copy _ => False
    end.
  (** No other object refers to the dictionaries [p], [m] of object [a]. *)
  Definition private (st : store N P) (a p m : nat) : Prop :=
    nth_error (st_objs st) a = Some (p, m) /\ p < List.length (st_parts st) /\ m < List.length (st_maps st) /\
    forall b p' m', b <> a -> nth_error (st_objs st) b = Some (p', m') -> p' <> p /\ m' <> m.
  Definition in_range (st : store N P) : Prop :=
    forall b p m, nth_error (st_objs st) b = Some (p, m) -> p < List.length (st_parts st) /\ m < List.length (st_maps st).

  Lemma slots_inv st a p m dp dm : slots st a = Some (p, m, dp, dm) ->
    nth_error (st_objs st) a = Some (p, m) /\ nth_error (st_parts st) p = Some dp /\ nth_error (st_maps st) m = Some dm.
  Proof.
    unfold slots. destruct (nth_error (st_objs st) a) as [[p0 m0]|]; [|discriminate].
    destruct (nth_error (st_parts st) p0) eqn:E1; [|discriminate]. destruct (nth_error (st_maps st) m0) eqn:E2; [|discriminate].
    intros [= <- <- <- <-]. auto.
  Qed.
  Lemma slots_intro st a p m dp dm : nth_error (st_objs st) a = Some (p, m) -> nth_error (st_parts st) p = Some dp -> nth_error (st_maps st) m = Some dm ->
    slots st a = Some (p, m, dp, dm).
  Proof. intros H1 H2 H3. unfold slots. now rewrite H1, H2, H3. Qed.

  Lemma step_range c st : in_range st -> in_range (snd (step c st)).
  Proof.
    intros R.
    assert (Old : forall X Y, in_range (mkStore (st_parts st ++ X) (st_maps st ++ Y) (st_objs st))).
    { intros X Y b p m H. cbn in *. apply R in H. rewrite !app_length. lia. }
    assert (New : forall X Y p m, p < List.length (st_parts st ++ X) -> m < List.length (st_maps st ++ Y) ->
      in_range (mkStore (st_parts st ++ X) (st_maps st ++ Y) (st_objs st ++ [(p, m)]))).
    { intros X Y p m Hp Hm b p' m' H. cbn in *. apply nth_app_inv in H. destruct H as [H|[_ [= -> ->]]]; [apply R in H; rewrite !app_length; lia|auto]. }
    assert (Upd : forall p m dp dm, in_range (mkStore (upd (st_parts st) p dp) (upd (st_maps st) m dm) (st_objs st))).
    { intros p m dp dm b p' m' H. cbn in *. rewrite !length_upd. now apply R in H. }
    assert (UpdP : forall p dp, in_range (mkStore (upd (st_parts st) p dp) (st_maps st) (st_objs st))).
    { intros p dp b p' m' H. cbn in *. rewrite !length_upd. now apply R in H. }
    assert (UpdM : forall m dm, in_range (mkStore (st_parts st) (upd (st_maps st) m dm) (st_objs st))).
    { intros m dm b p' m' H. cbn in *. rewrite !length_upd. now apply R in H. }
    assert (K1 := fun Y p m => New [] Y p m). assert (K2 := fun p m => New [] [] p m). assert (K3 := fun X => Old X []). assert (K4 := fun Y => Old [] Y).
    rewrite ?app_nil_r in *. clear New Old.
    assert (New : forall X Y p m, p < List.length (st_parts st ++ X) -> m < List.length (st_maps st ++ Y) ->
      in_range (mkStore (st_parts st ++ X) (st_maps st ++ Y) (st_objs st ++ [(p, m)]))).
    { intros X Y p m Hp Hm b p' m' H. cbn in *. apply nth_app_inv in H. destruct H as [H|[_ [= -> ->]]]; [apply R in H; rewrite !app_length; lia|auto]. }
    destruct c as [d|d|p m v|d|a|a fl|a np|p k s|m n k]; cbn [step].
    - exact (K3 [d]).
    - exact (K4 [d]).
    - destruct (nth_error (st_parts st) p) as [dp|] eqn:E; [|exact R]. destruct (v && negb (valid_parts dp)); [exact R|].
      assert (Hp : p < List.length (st_parts st)) by (apply nth_error_Some; congruence).
      assert (Fr : in_range (mkStore (st_parts st) (st_maps st ++ [mapping_of_parts dp]) (st_objs st ++ [(p, List.length (st_maps st))]))).
      { apply K1; [exact Hp|rewrite app_length; cbn; lia]. }
      destruct m as [r|]; [|exact Fr]. destruct (nth_error (st_maps st) r) as [[|x dm]|] eqn:E2; [exact Fr| |exact R].
      apply K2; [exact Hp|apply nth_error_Some; congruence].
    - destruct (valid_parts (level_sets d)); [|exact R]. apply New; rewrite app_length; cbn; lia.
    - destruct (slots st a) as [[[[p m] dp] dm]|]; [|exact R]. apply New; rewrite app_length; cbn; lia.
    - destruct (slots st a) as [[[[p m] dp] dm]|]; [|exact R]. apply Upd.
    - destruct (slots st a) as [[[[p m] dp] dm]|]; [|exact R]. apply Upd.
    - destruct (nth_error (st_parts st) p); [apply UpdP|exact R].
    - destruct (nth_error (st_maps st) m); [apply UpdM|exact R].
  Qed.
  Lemma run_range cs st : in_range st -> in_range (run cs st).
  Proof. revert st. induction cs as [|c cs IH]; intros st R; [exact R|]. apply IH, step_range, R. Qed.
  Lemma empty_range : in_range empty_store.
  Proof. intros [|b] p m H; discriminate. Qed.

  Lemma step_frame c st a p m : private st a p m -> ~ touches a p m c ->
    private (snd (step c st)) a p m /\ value (snd (step c st)) a = value st a.
  Proof.
    intros (Ha & Lp & Lm & Pr) T.
    assert (Hv : exists dp dm, slots st a = Some (p, m, dp, dm)).
    { destruct (nth_error (st_parts st) p) as [dp|] eqn:E1; [|apply nth_error_None in E1; lia]. destruct (nth_error (st_maps st) m) as [dm|] eqn:E2; [|apply nth_error_None in E2; lia].
      exists dp, dm. now apply slots_intro. }
    destruct Hv as (dp & dm & Hs). destruct (slots_inv _ _ _ _ _ _ Hs) as (_ & Hp & Hm).
    assert (Id : private st a p m /\ value st a = value st a) by (repeat split; auto; apply (Pr _ _ _ H H0)).
    assert (Gen : forall st', nth_error (st_objs st') a = Some (p, m) -> nth_error (st_parts st') p = Some dp -> nth_error (st_maps st') m = Some dm ->
      (forall b p' m', b <> a -> nth_error (st_objs st') b = Some (p', m') -> p' <> p /\ m' <> m) -> private st' a p m /\ value st' a = value st a).
    { intros st' G1 G2 G3 G4. split; [|unfold value; now rewrite Hs, (slots_intro st' a p m dp dm)]. split; [exact G1|]. split; [apply nth_error_Some; congruence|]. split; [apply nth_error_Some; congruence|exact G4]. }
    assert (New : forall X Y p' m', p' <> p -> m' <> m -> private (mkStore (st_parts st ++ X) (st_maps st ++ Y) (st_objs st ++ [(p', m')])) a p m /\
      value (mkStore (st_parts st ++ X) (st_maps st ++ Y) (st_objs st ++ [(p', m')])) a = value st a).
    { intros X Y p' m' Np Nm. apply Gen; cbn.
      - now apply nth_app_old.
      - rewrite nth_error_app1 by exact Lp. exact Hp.
      - rewrite nth_error_app1 by exact Lm. exact Hm.
      - intros b q r Hb H. apply nth_app_inv in H. destruct H as [H|[_ [= -> ->]]]; [exact (Pr b q r Hb H)|auto]. }
    assert (Nupd : forall {A} (l : list A) i j x, i <> j -> nth_error (upd l i x) j = nth_error l j).
    { intros A l i j x Hn. rewrite nth_upd. now destruct (Nat.eqb_spec i j). }
    destruct c as [d|d|q r v|d|b|b fl|b np|q k s|r n k]; cbn [step touches] in *.
    - cbn [snd]. apply Gen; cbn; auto. now apply nth_app_old.
    - cbn [snd]. apply Gen; cbn; auto. now apply nth_app_old.
    - destruct (nth_error (st_parts st) q) as [dq|] eqn:E; [|exact Id]. destruct (v && negb (valid_parts dq)); [exact Id|].
      assert (Nq : q <> p) by tauto.
      assert (Fr := New [] [mapping_of_parts dq] q (List.length (st_maps st)) Nq ltac:(lia)). rewrite app_nil_r in Fr.
      destruct r as [r|]; [|exact Fr]. destruct (nth_error (st_maps st) r) as [[|x dr]|] eqn:E2; [exact Fr| |exact Id].
      assert (Nr : r <> m) by (intros ->; tauto). assert (G := New [] [] q r Nq Nr). rewrite !app_nil_r in G. exact G.
    - destruct (valid_parts (level_sets d)); [|exact Id]. apply New; lia.
    - destruct (slots st b) as [[[[q r] dq] dr]|]; [|exact Id]. apply New; lia.
    - destruct (slots st b) as [[[[q r] dq] dr]|] eqn:Eb; [|exact Id]. destruct (slots_inv _ _ _ _ _ _ Eb) as (B1 & _). destruct (Pr b q r T B1) as [Nq Nr].
      cbn [snd]. apply Gen; cbn; auto; rewrite Nupd; auto.
    - destruct (slots st b) as [[[[q r] dq] dr]|] eqn:Eb; [|exact Id]. destruct (slots_inv _ _ _ _ _ _ Eb) as (B1 & _). destruct (Pr b q r T B1) as [Nq Nr].
      cbn [snd]. apply Gen; cbn; auto; rewrite Nupd; auto.
    - destruct (nth_error (st_parts st) q); [|exact Id]. cbn [snd]. apply Gen; cbn; auto. rewrite Nupd; auto.
    - destruct (nth_error (st_maps st) r); [|exact Id]. cbn [snd]. apply Gen; cbn; auto. rewrite Nupd; auto.
  Qed.

  (** The object a statement creates. *)
  Definition creates (c : cmd N P) : bool := match c with FromDict _ | Copy _ => true | _ => false end.
  Lemma created c st : in_range st -> creates c = true -> fst (step c st) = Ok tt ->
    private (snd (step c st)) (List.length (st_objs st)) (List.length (st_parts st)) (List.length (st_maps st)).
  Proof.
    intros R Hc Hok.
    assert (G : forall dp dm, private (mkStore (st_parts st ++ [dp]) (st_maps st ++ [dm]) (st_objs st ++ [(List.length (st_parts st), List.length (st_maps st))]))
      (List.length (st_objs st)) (List.length (st_parts st)) (List.length (st_maps st))).
    { intros dp dm. split; [apply nth_app_new|]. cbn. rewrite !app_length. cbn. split; [lia|]. split; [lia|]. intros b p m Hb H. apply nth_app_inv in H. destruct H as [H|[H _]]; [apply R in H; lia|contradiction]. }
    destruct c; try discriminate; cbn [step] in *.
    - destruct (valid_parts _); [apply G|discriminate].
    - destruct (slots st a) as [[[[p m] dp] dm]|]; [apply G|discriminate].
  Qed.

  (** ** C105 *)
  (** Whatever happened before: an Assignment made by from_dict or copy is not
      changed by any later statements, as long as these neither update it nor
      are given its own two dictionaries. *)
  Theorem C105_frame : forall before c after, let st := run before empty_store in
    creates c = true -> fst (step c st) = Ok tt ->
    let a := List.length (st_objs st) in let p := List.length (st_parts st) in let m := List.length (st_maps st) in
    Forall (fun c' => ~ touches a p m c') after ->
    exists v, value (snd (step c st)) a = Some v /\ value (run after (snd (step c st))) a = Some v.
  Proof.
    intros before c after st Hc Hok a p m Fa.
    assert (Pr : private (snd (step c st)) a p m) by (apply created; auto; apply run_range, empty_range).
    assert (G : forall cs st', private st' a p m -> Forall (fun c' => ~ touches a p m c') cs -> value (run cs st') a = value st' a).
    { induction cs as [|c' cs IH]; intros st' Pr' F; [reflexivity|]. inversion F as [|? ? F1 F2]; subst. destruct (step_frame c' st' a p m Pr' F1) as [Pr2 Ev].
      cbn [run fold_left]. unfold run in IH. rewrite (IH _ Pr2 F2). exact Ev. }
    rewrite (G after _ Pr Fa). destruct Pr as (Ha & Lp & Lm & _).
    destruct (nth_error (st_parts (snd (step c st))) p) as [dp|] eqn:E1; [|apply nth_error_None in E1; lia].
    destruct (nth_error (st_maps (snd (step c st))) m) as [dm|] eqn:E2; [|apply nth_error_None in E2; lia].
    exists (mkAssignment dp dm). unfold value. now rewrite (slots_intro _ a p m dp dm).
  Qed.

  Lemma flows_run_value fl : forall v, fst (flows_run fl (a_parts v, a_map v)) = Ok tt ->
    update_flows v fl = Ok (mkAssignment (fst (snd (flows_run fl (a_parts v, a_map v)))) (snd (snd (flows_run fl (a_parts v, a_map v))))).
  Proof.
    induction fl as [|[p f] fl IH]; intros [dp dm]; cbn [flows_run a_parts a_map fst snd]; [reflexivity|].
    unfold update_flows. cbn [foldM]. unfold update_flow_step at 1. cbn [fst snd a_parts a_map]. destruct (dget dp p) as [cur|]; cbn [of_option bind]; [|discriminate].
    intro H. apply (IH (mkAssignment _ _)), H.
  Qed.
  Lemma flows_run_err fl : forall v e, fst (flows_run fl (a_parts v, a_map v)) = Err e -> update_flows v fl = Err e.
  Proof.
    induction fl as [|[p f] fl IH]; intros [dp dm] e; cbn [flows_run a_parts a_map fst snd]; [discriminate|].
    unfold update_flows. cbn [foldM]. unfold update_flow_step at 1. cbn [fst snd a_parts a_map]. destruct (dget dp p) as [cur|]; cbn [of_option bind]; [|intros [= <-]; reflexivity].
    intro H. apply (IH (mkAssignment _ _) e), H.
  Qed.
  Lemma flows_run_total (fl : dict P (flow N)) : forall pm : dict P (list N) * dict N P, fst (flows_run fl pm) <> NoFuel.
  Proof. induction fl as [|[p f] fl IH]; intro pm; cbn [flows_run]; [discriminate|]. destruct (dget (fst pm) p); [apply IH|discriminate]. Qed.

  (** The two views of an assignment agree. *)
  Definition consistent (v : assignment N P) : Prop := forall n p, district v n = Some p <-> listed v p n.

  Lemma copy_value st a v : value st a = Some v -> is_dict (a_parts v) -> consistent v ->
    fst (step (Copy a) st) = Ok tt /\ value (snd (step (Copy a) st)) (List.length (st_objs st)) = Some v.
  Proof.
    unfold value at 1. destruct (slots st a) as [[[[p m] dp] dm]|] eqn:E; [|discriminate]. intros [= <-] D C. cbn [step]. rewrite E. split; [reflexivity|]. cbn [snd].
    assert (Em : match dm with [] => mapping_of_parts dp | _ => dm end = dm).
    { destruct dm as [|x dm]; [|reflexivity].
      assert (Z : forall q s, In (q, s) dp -> s = []).
      { intros q s Hq. destruct s as [|n s]; [reflexivity|]. exfalso.
        assert (X : district (mkAssignment dp []) n = Some q); [|discriminate]. apply C. exists (n :: s). split; [|now left]. cbn. now apply In_dget. }
      unfold mapping_of_parts. clear - Z. induction dp as [|[q s] dp IH]; [reflexivity|]. cbn [fold_left fst snd]. rewrite (Z q s) by now left. cbn [fold_left]. apply IH. intros q' s' H. apply (Z q'). now right. }
    rewrite Em. unfold value. rewrite (slots_intro _ _ (List.length (st_parts st)) (List.length (st_maps st)) dp dm); cbn; try reflexivity; apply nth_app_new.
  Qed.

  (** Flipping nodes of a plan, that is copying its assignment and updating the
      copy, does to the copy what the value model says, raises what it says,
      and changes no object there was before. *)
  Theorem C105_flip : forall before a v flips fl, let st := run before empty_store in
    value st a = Some v -> is_dict (a_parts v) -> consistent v -> flows_from_changes (a_map v) flips = Ok fl ->
    let n := List.length (st_objs st) in let st1 := snd (step (Copy a) st) in let r := step (UpdateFlows n fl) st1 in
    (forall v', flip_assignment v flips = Ok v' -> fst r = Ok tt /\ value (snd r) n = Some v') /\
    (forall e, flip_assignment v flips = Err e -> fst r = Err e) /\
    (forall b w, value st b = Some w -> value (snd r) b = Some w).
  Proof.
    intros before a v flips fl st Hv D C Hfl n st1 r.
    assert (R : in_range st) by apply run_range, empty_range.
    destruct (copy_value st a v Hv D C) as [Ok1 V1]. fold n st1 in V1.
    assert (Pr : private st1 n (List.length (st_parts st)) (List.length (st_maps st))) by (apply created; auto).
    unfold value in V1. destruct (slots st1 n) as [[[[p m] dp] dm]|] eqn:E; [|discriminate]. injection V1 as V1.
    destruct (slots_inv _ _ _ _ _ _ E) as (I1 & I2 & I3). destruct Pr as (Ha & Lp & Lm & Pr). rewrite I1 in Ha. injection Ha as -> ->.
    assert (Er : r = (fst (flows_run fl (dp, dm)), mkStore (upd (st_parts st1) (List.length (st_parts st)) (fst (snd (flows_run fl (dp, dm)))))
      (upd (st_maps st1) (List.length (st_maps st)) (snd (snd (flows_run fl (dp, dm))))) (st_objs st1))) by (unfold r; cbn [step]; now rewrite E).
    assert (Fv : flip_assignment v flips = update_flows v fl) by (unfold flip_assignment; now rewrite Hfl).
    assert (Eq : a_parts v = dp /\ a_map v = dm) by (rewrite <- V1; auto). destruct Eq as [Ep Em].
    split; [|split].
    - intros v' Hv'. rewrite Er. cbn [fst snd]. assert (T := flows_run_total fl (dp, dm)). rewrite Fv in Hv'. assert (X := flows_run_value fl v). assert (Y := flows_run_err fl v). rewrite Ep, Em in X, Y.
      destruct (fst (flows_run fl (dp, dm))) as [[]|e|]; [|rewrite (Y e eq_refl) in Hv'; discriminate|contradiction].
      split; [reflexivity|]. rewrite (X eq_refl) in Hv'. injection Hv' as <-. unfold value.
      rewrite (slots_intro _ n (List.length (st_parts st)) (List.length (st_maps st)) (fst (snd (flows_run fl (dp, dm)))) (snd (snd (flows_run fl (dp, dm))))); [reflexivity|exact I1| |]; cbn [st_parts st_maps].
      + rewrite nth_upd, Nat.eqb_refl, I2. reflexivity.
      + rewrite nth_upd, Nat.eqb_refl, I3. reflexivity.
    - intros e He. rewrite Er. cbn [fst snd]. rewrite Fv in He. assert (X := flows_run_value fl v). assert (Y := flows_run_err fl v). rewrite Ep, Em in X, Y. assert (T := flows_run_total fl (dp, dm)).
      destruct (fst (flows_run fl (dp, dm))) as [[]|e'|]; [rewrite (X eq_refl) in He; discriminate|rewrite (Y e' eq_refl) in He; congruence|contradiction].
    - intros b w Hb. rewrite Er. cbn [snd]. unfold value in Hb. destruct (slots st b) as [[[[q s] dq] ds]|] eqn:Eb; [|discriminate]. injection Hb as <-.
      destruct (slots_inv _ _ _ _ _ _ Eb) as (B1 & B2 & B3). destruct (R b q s B1) as [Lq Ls].
      assert (Es : exists dp0 dm0, st1 = mkStore (st_parts st ++ [dp0]) (st_maps st ++ [dm0]) (st_objs st ++ [(List.length (st_parts st), List.length (st_maps st))])).
      { unfold st1. cbn [step]. destruct (slots st a) as [[[[p0 m0] dp0] dm0]|] eqn:Ea; [do 2 eexists; reflexivity|]. unfold value in Hv. rewrite Ea in Hv. discriminate Hv. }
      destruct Es as (dp0 & dm0 & Es). unfold value. rewrite Es. rewrite (slots_intro _ b q s dq ds); [reflexivity| | |]; cbn.
      + now apply nth_app_old.
      + rewrite nth_upd. destruct (Nat.eqb_spec (List.length (st_parts st)) q); [lia|]. now apply nth_app_old.
      + rewrite nth_upd. destruct (Nat.eqb_spec (List.length (st_maps st)) s); [lia|]. now apply nth_app_old.
  Qed.
End Sharing.

(** ** C106 *)
Section Update.
  Context {N P : Type} {EN : EqB N} {EP : EqB P}.
  Implicit Types (v : assignment N P) (np : dict P (list N)).
  Definition updated v np : assignment N P := mkAssignment (fst (parts_run np (a_parts v, a_map v))) (snd (parts_run np (a_parts v, a_map v))).
  (** [n] is in one of the new sets. *)
  Definition placed np (n : N) : Prop := exists p s, In (p, s) np /\ In n s.
  (** [p] is the last part whose new set contains [n]. *)
  Definition placed_last np (n : N) (p : P) : Prop :=
    exists pre s post, np = pre ++ (p, s) :: post /\ In n s /\ ~ placed post n.

  Lemma parts_run_eq np : forall pm, parts_run np pm =
    (fold_left (fun d pn => dset d (fst pn) (set_of (snd pn))) np (fst pm), fold_left (fun m pn => fold_left (fun m n => dset m n (fst pn)) (snd pn) m) np (snd pm)).
  Proof. induction np as [|pn np IH]; intros [dp dm]; [reflexivity|]. cbn [fold_left fst snd]. unfold parts_run in *. cbn [fold_left fst snd]. rewrite IH. reflexivity. Qed.
  Lemma new_parts np : is_dict np -> forall (d : dict P (list N)) p,
    dget (fold_left (fun d pn => dset d (fst pn) (set_of (snd pn))) np d) p = match dget np p with Some s => Some (set_of s) | None => dget d p end.
  Proof.
    induction np as [|[q s] np IH]; intros D d p; [reflexivity|]. inversion D as [|? ? D1 D2]; subst. cbn [fold_left fst snd dget]. rewrite (IH D2), dget_dset.
    destruct (eqb_spec p q) as [->|Hn]; [|destruct (eqb_spec q p); [congruence|reflexivity]]. rewrite (proj2 (dget_None np q) D1). reflexivity.
  Qed.
  Lemma new_keys np : forall d : dict P (list N), NoDup (dkeys d) -> NoDup (dkeys (fold_left (fun d pn => dset d (fst pn) (set_of (snd pn))) np d)).
  Proof. induction np as [|pn np IH]; intros d D; [exact D|]. apply IH. now apply NoDup_dset. Qed.
  Lemma new_map np n : (forall p, placed_last np n p -> forall m : dict N P, dget (fold_left (fun m pn => fold_left (fun m n => dset m n (fst pn)) (snd pn) m) np m) n = Some p) /\
    (~ placed np n -> forall m : dict N P, dget (fold_left (fun m pn => fold_left (fun m n => dset m n (fst pn)) (snd pn) m) np m) n = dget m n) /\
    (placed np n -> exists p, placed_last np n p).
  Proof.
    induction np as [|[q s] np (IH1 & IH2 & IH3)].
    - split; [|split].
      + intros p ([|x pre] & s & post & H & _); discriminate.
      + reflexivity.
      + intros (p & s & [] & _).
    - split; [|split].
      + intros p ([|x pre] & s' & post & H & Hn & Hp) m; cbn [app] in H.
        * injection H as -> -> ->. cbn [fold_left fst snd]. rewrite (IH2 Hp), fold_dset_const. now rewrite (proj2 (mem_In n s') Hn).
        * injection H as _ E2. cbn [fold_left fst snd]. apply IH1. exists pre, s', post. auto.
      + intros Hn m. cbn [fold_left fst snd]. rewrite IH2, fold_dset_const.
        * rewrite (proj2 (mem_notIn n s)); [reflexivity|]. intro X. apply Hn. exists q, s. split; [now left|exact X].
        * intros (p & s' & X & Y). apply Hn. exists p, s'. split; [now right|exact Y].
      + intros (p & s' & X & Y). destruct (existsb (fun pn => mem n (snd pn)) np) eqn:Ex.
        * apply existsb_exists in Ex. destruct Ex as ([p2 s2] & X2 & Y2). apply mem_In in Y2. destruct IH3 as (p3 & pre & s3 & post & -> & Z1 & Z2); [exists p2, s2; auto|].
          exists p3, ((q, s) :: pre), s3, post. auto.
        * assert (No : ~ placed np n).
          { intros (p2 & s2 & X2 & Y2). assert (T : existsb (fun pn => mem n (snd pn)) np = true) by (apply existsb_exists; exists (p2, s2); split; [exact X2|now apply mem_In]). congruence. }
          destruct X as [[= -> ->]|X]; [exists p, [], s', np; auto|]. contradiction No. exists p, s'. auto.
  Qed.

  (** What update_parts does, consistent or not: the listed parts get the given
      sets, the other parts keep theirs; a node is in the last listed part it is
      given to, and a node that is given to none keeps its district, even if
      it was removed from the set of that district. *)
  Theorem C106_effect v np : is_dict np ->
    (forall p s, In (p, s) np -> exists s', dget (a_parts (updated v np)) p = Some s' /\ NoDup s' /\ forall n, In n s' <-> In n s) /\
    (forall p, ~ In p (dkeys np) -> dget (a_parts (updated v np)) p = dget (a_parts v) p) /\
    (forall n p, placed_last np n p -> district (updated v np) n = Some p) /\
    (forall n, ~ placed np n -> district (updated v np) n = district v n).
  Proof.
    intro D. unfold updated, district. rewrite parts_run_eq. cbn [a_parts a_map fst snd]. split; [|split; [|split]].
    - intros p s Hp. rewrite new_parts by exact D. rewrite (In_dget _ _ _ D Hp). exists (set_of s). split; [reflexivity|]. split; [apply NoDup_set_of|]. intro n. apply In_set_of.
    - intros p Hp. rewrite new_parts by exact D. now rewrite (proj2 (dget_None np p) Hp).
    - intros n p Hp. now apply (proj1 (new_map np n)).
    - intros n Hp. now apply (proj1 (proj2 (new_map np n))).
  Qed.

  (** The two views of the assignment still agree after update_parts exactly
      if no node is given to two parts, no node is taken from a part that is
      not listed, and no node of a listed part is left out. *)
  Theorem C106_consistent v np : is_dict np -> consistent v ->
    (consistent (updated v np) <->
      (forall n p q s s', In (p, s) np -> In (q, s') np -> In n s -> In n s' -> p = q) /\
      (forall n q, placed np n -> district v n = Some q -> In q (dkeys np)) /\
      (forall n q, district v n = Some q -> In q (dkeys np) -> placed np n)).
  Proof.
    intros D C. destruct (C106_effect v np D) as (E1 & E2 & E3 & E4).
    assert (Ls : forall p s n, In (p, s) np -> In n s -> listed (updated v np) p n).
    { intros p s n Hp Hn. destruct (E1 p s Hp) as (s' & X & _ & Y). exists s'. split; [exact X|now apply Y]. }
    assert (Key : forall p, In p (dkeys np) -> exists s, In (p, s) np) by (intros p Hp; apply dget_key in Hp; destruct Hp as [s Hs]; exists s; now apply dget_In).
    split.
    - intro C'. split; [|split].
      + intros n p q s s' Hp Hq X Y. assert (A := proj2 (C' n p) (Ls p s n Hp X)). assert (B := proj2 (C' n q) (Ls q s' n Hq Y)). congruence.
      + intros n q (p & s & Hp & X) Hd. destruct (In_dec_of q (dkeys np)) as [Hq|Hq]; [exact Hq|exfalso].
        assert (A := proj2 (C' n p) (Ls p s n Hp X)). apply C in Hd. destruct Hd as (s' & X1 & X2).
        assert (B : listed (updated v np) q n) by (exists s'; rewrite E2 by exact Hq; auto). apply C' in B. apply Hq. replace q with p by congruence. change p with (fst (p, s)). now apply in_map.
      + intros n q Hd Hq. destruct (Key q Hq) as [s Hs].
        destruct (existsb (fun pn => mem n (snd pn)) np) eqn:Ex; [apply existsb_exists in Ex; destruct Ex as ([p2 s2] & X2 & Y2); apply mem_In in Y2; exists p2, s2; auto|exfalso].
        assert (No : ~ placed np n).
        { intros (p2 & s2 & X2 & Y2). assert (T : existsb (fun pn => mem n (snd pn)) np = true) by (apply existsb_exists; exists (p2, s2); split; [exact X2|now apply mem_In]). congruence. }
        rewrite <- (E4 n No) in Hd. apply C' in Hd. destruct Hd as (s' & X1 & X2). destruct (E1 q s Hs) as (s2 & Y1 & _ & Y2). rewrite X1 in Y1. injection Y1 as <-. apply No. exists q, s. split; [exact Hs|now apply Y2].
    - intros (H1 & H2 & H3) n p.
      destruct (existsb (fun pn => mem n (snd pn)) np) eqn:Ex.
      + assert (Pl : placed np n) by (apply existsb_exists in Ex; destruct Ex as ([p2 s2] & X2 & Y2); apply mem_In in Y2; exists p2, s2; auto).
        destruct (proj2 (proj2 (new_map np n)) Pl) as [q Hq]. rewrite (E3 n q Hq). destruct Hq as (pre & s & post & Hnp & Hn & _).
        assert (Hqs : In (q, s) np) by (rewrite Hnp; apply in_or_app; right; now left). split.
        * intros [= <-]. apply (Ls q s n); auto.
        * intros (s' & X1 & X2). destruct (In_dec_of p (dkeys np)) as [Hp|Hp].
          -- destruct (Key p Hp) as [sp Hsp]. destruct (E1 p sp Hsp) as (s2 & Y1 & _ & Y2). rewrite X1 in Y1. injection Y1 as <-. f_equal. apply (H1 n q p s sp); auto. now apply Y2.
          -- rewrite E2 in X1 by exact Hp. exfalso. apply Hp, (H2 n); [exact Pl|]. apply C. exists s'. auto.
      + assert (No : ~ placed np n).
        { intros (p2 & s2 & X2 & Y2). assert (T : existsb (fun pn => mem n (snd pn)) np = true) by (apply existsb_exists; exists (p2, s2); split; [exact X2|now apply mem_In]). congruence. }
        rewrite (E4 n No). destruct (In_dec_of p (dkeys np)) as [Hp|Hp].
        * split; [intro Hd; contradiction No; now apply (H3 n p)|]. intros (s' & X1 & X2). destruct (Key p Hp) as [sp Hsp]. destruct (E1 p sp Hsp) as (s2 & Y1 & _ & Y2). rewrite X1 in Y1. injection Y1 as <-.
          contradiction No. exists p, sp. split; [exact Hsp|now apply Y2].
        * rewrite (C n p). unfold listed. now rewrite E2 by exact Hp.
  Qed.

  (** If they agree, the updated object is a proper assignment of the nodes it
      had and the nodes it was given. *)
  Theorem C106_coherent nodes v np : coherent nodes v -> is_dict np -> consistent (updated v np) ->
    forall nodes', (forall n, In n nodes' <-> In n nodes \/ placed np n) -> coherent nodes' (updated v np).
  Proof.
    intros C D C' nodes' Hn. destruct (C106_effect v np D) as (E1 & E2 & E3 & E4).
    assert (Sp : forall n, placed np n \/ ~ placed np n).
    { intro n. destruct (existsb (fun pn => mem n (snd pn)) np) eqn:Ex.
      - left. apply existsb_exists in Ex. destruct Ex as ([p2 s2] & X2 & Y2). apply mem_In in Y2. exists p2, s2. auto.
      - right. intros (p2 & s2 & X2 & Y2). assert (T : existsb (fun pn => mem n (snd pn)) np = true) by (apply existsb_exists; exists (p2, s2); split; [exact X2|now apply mem_In]). congruence. }
    constructor.
    - unfold updated. rewrite parts_run_eq. cbn [a_map snd]. assert (G : forall l (m : dict N P), NoDup (dkeys m) -> NoDup (dkeys (fold_left (fun m pn => fold_left (fun m n => dset m n (fst pn)) (snd pn) m) l m))).
      { induction l as [|[q s] l IH]; intros m Hm; [exact Hm|]. apply IH. now apply (@fold_dset_NoDup N P EN s q m). }
      apply G, C.
    - unfold updated, labels. rewrite parts_run_eq. cbn [a_parts fst]. apply new_keys, C.
    - intro n. rewrite Hn. destruct (Sp n) as [X|X].
      + destruct (proj2 (proj2 (new_map np n)) X) as [q Hq]. apply E3 in Hq. apply dget_Some_key in Hq. tauto.
      + assert (E := E4 n X). unfold district in E. rewrite <- (coh_dom _ _ C n). rewrite !dget_key, E. tauto.
    - exact C'.
    - intros p s Hs. destruct (In_dec_of p (dkeys np)) as [Hp|Hp].
      + apply dget_key in Hp. destruct Hp as [sp Hsp]. destruct (E1 p sp (dget_In _ _ Hsp)) as (s2 & Y1 & Y2 & _). congruence.
      + rewrite E2 in Hs by exact Hp. apply (coh_parts_nodup _ _ C p s Hs).
  Qed.
End Update.

(** ** C107 *)
Section Reading.
  Context {N P : Type} {EN : EqB N} {EP : EqB P}.
  Implicit Types (v w : assignment N P).

  Lemma length_keys {K W} (d : dict K W) : List.length (dkeys d) = List.length d.
  Proof. unfold dkeys. apply map_length. Qed.

  (** Iterating, len, membership and to_series agree with the districts. *)
  Theorem C107_reads nodes v : NoDup nodes -> coherent nodes v ->
    Permutation (a_iter v) nodes /\ a_len v = List.length nodes /\
    (forall n, a_contains v n = true <-> In n nodes) /\
    (forall n, In n nodes -> exists p, a_getitem v n = Ok p /\ listed v p n) /\ (forall n, ~ In n nodes -> a_getitem v n = Err KeyError) /\
    (to_series v = Err ValueError <-> labels v = []) /\
    (labels v <> [] -> exists rows, to_series v = Ok rows /\ Permutation rows (to_dict v)).
  Proof.
    intros ND C.
    assert (In1 : forall n, In n nodes -> exists p, district v n = Some p) by (intros n Hn; apply (coh_dom _ _ C) in Hn; now apply dget_key in Hn).
    assert (Out : forall n, ~ In n nodes -> district v n = None) by (intros n Hn; apply dget_None; intro X; now apply Hn, (coh_dom _ _ C)).
    split; [apply NoDup_Permutation; [apply C|exact ND|apply (coh_dom _ _ C)]|]. split; [now apply coherent_total|].
    split; [|split; [|split; [|split]]].
    - intro n. unfold a_contains, a_getitem. fold (district v n). destruct (In_dec_of n nodes) as [Hn|Hn].
      + destruct (In1 n Hn) as [p ->]. cbn. tauto.
      + rewrite (Out n Hn). cbn. split; [discriminate|contradiction].
    - intros n Hn. destruct (In1 n Hn) as [p Hp]. exists p. unfold a_getitem. fold (district v n). rewrite Hp. split; [reflexivity|now apply (coh_agree _ _ C)].
    - intros n Hn. unfold a_getitem. fold (district v n). now rewrite (Out n Hn).
    - unfold to_series, labels. destruct (a_parts v) as [|x l]; cbn; split; congruence.
    - intro Hl. unfold to_series, labels in *. destruct (a_parts v) as [|x l] eqn:E; [contradiction|]. rewrite <- E in *. eexists. split; [reflexivity|].
      assert (Nk : NoDup (dkeys (a_parts v))) by apply C.
      apply NoDup_Permutation.
      + assert (G : forall d : dict P (list N), NoDup (dkeys d) -> (forall p s, In (p, s) d -> NoDup s) -> NoDup (flat_map (fun pn => map (fun n => (n, fst pn)) (snd pn)) d)).
        { induction d as [|[p s] d IH]; intros Kd Sd; [constructor|]. inversion Kd as [|? ? K1 K2]; subst. cbn [flat_map fst snd]. apply NoDup_app_iff. split; [|split].
          - apply FinFun.Injective_map_NoDup; [intros a b [=]; auto|]. apply (Sd p). now left.
          - apply IH; auto. intros q t Hq. apply (Sd q). now right.
          - intros [n q] X Y. apply in_map_iff in X. destruct X as (n' & [= <- <-] & _). apply in_flat_map in Y. destruct Y as ([q t] & Y1 & Y2). apply in_map_iff in Y2. cbn in Y2. destruct Y2 as (n2 & [= <- <-] & _).
            apply K1. change q with (fst (q, t)). now apply in_map. }
        apply G; [exact Nk|]. intros p s Hp. apply (coh_parts_nodup _ _ C p). now apply In_dget.
      + assert (Km := coh_map_keys _ _ C). unfold dkeys in Km. eapply NoDup_map_inv; eauto.
      + intros [n p]. rewrite in_flat_map. unfold to_dict. rewrite <- (dget_iff (a_map v) n p) by apply C. fold (district v n). rewrite (coh_agree _ _ C). unfold listed. split.
        * intros ([q s] & X & Y). apply in_map_iff in Y. cbn in Y. destruct Y as (n' & [= <- <-] & Y). exists s. split; [now apply In_dget|exact Y].
        * intros (s & X & Y). exists (p, s). split; [now apply dget_In|]. cbn. apply in_map_iff. eauto.
  Qed.

  (** Two assignments compare equal exactly if every node has the same district
      in both: districts without nodes do not count. *)
  Theorem C107_equal v w : is_dict (a_map v) -> is_dict (a_map w) -> (a_eq v w = true <-> forall n, district v n = district w n).
  Proof.
    intros Dv Dw. unfold a_eq, dict_eqb, district. rewrite andb_true_iff, Nat.eqb_eq, forallb_forall. split.
    - intros [Hl Ha].
      assert (Sub : forall n p, dget (a_map v) n = Some p -> dget (a_map w) n = Some p).
      { intros n p Hp. apply dget_In in Hp. assert (X := Ha _ Hp). cbn in X. destruct (dget (a_map w) n) as [q|]; [|discriminate]. apply (proj1 (eqb_eq p q)) in X. now subst. }
      intro n. destruct (dget (a_map v) n) as [p|] eqn:E; [symmetry; now apply Sub|].
      destruct (dget (a_map w) n) as [q|] eqn:E2; [exfalso|reflexivity].
      assert (Inc : incl (dkeys (a_map w)) (dkeys (a_map v))).
      { apply NoDup_length_incl; [exact Dv|rewrite !length_keys; lia|]. intros m Hm. apply dget_key in Hm. destruct Hm as [p Hp]. apply Sub in Hp. eapply dget_Some_key; eauto. }
      apply dget_None in E. apply E, Inc. eapply dget_Some_key; eauto.
    - intro H. split.
      + rewrite <- !length_keys. apply Permutation_length, NoDup_Permutation; auto. intro n. rewrite !dget_key. now rewrite H.
      + intros [n p] Hp. cbn. rewrite <- H. rewrite (In_dget _ _ _ Dv Hp). apply eqb_refl.
  Qed.

  (** What get_assignment makes of its argument. *)
  Theorem C107_sources node_data g s : wf_graph g ->
    match s with
    | Attribute k =>
      get_assignment node_data None s = Err TypeError /\
      (get_assignment node_data (Some g) s = Err KeyError <-> exists n, In n (g_nodes g) /\ node_data n k = None) /\
      ((forall n, In n (g_nodes g) -> node_data n k <> None) -> exists v, get_assignment node_data (Some g) s = Ok v /\ coherent (g_nodes g) v /\
         forall n, In n (g_nodes g) -> district v n = node_data n k)
    | Mapping d => forall og, is_dict d -> exists v, get_assignment node_data og s = Ok v /\ coherent (dkeys d) v /\ forall n, district v n = dget d n
    | Object w => forall og, is_dict (a_map w) -> exists v, get_assignment node_data og s = Ok v /\ coherent (a_iter w) v /\ (forall n, district v n = district w n) /\
        forall p, In p (labels v) <-> exists n, district w n = Some p
    | Other => forall og, get_assignment node_data og s = Err TypeError
    end.
  Proof.
    intro WF. destruct s as [k|d|w|].
    - split; [reflexivity|]. cbn [get_assignment].
      assert (Cases : (exists n, In n (g_nodes g) /\ node_data n k = None) \/ (forall n, In n (g_nodes g) -> node_data n k <> None)).
      { induction (g_nodes g) as [|n l IH]; [right; intros n []|]. destruct (node_data n k) eqn:E; [|left; exists n; split; [now left|exact E]].
        destruct IH as [(m & X & Y)|IH]; [left; exists m; split; [now right|exact Y]|right; intros m [<-|X]; [congruence|now apply IH]]. }
      assert (Good : (forall n, In n (g_nodes g) -> node_data n k <> None) -> exists v, (d <- mapM (fun n => x <- of_option KeyError (node_data n k) ;; Ok (n, x)) (g_nodes g) ;; from_dict d) = Ok v /\ coherent (g_nodes g) v /\
         forall n, In n (g_nodes g) -> district v n = node_data n k).
      { intro H. assert (E : exists d : dict N P, mapM (fun n => x <- of_option KeyError (node_data n k) ;; Ok (n, x)) (g_nodes g) = Ok d /\ dkeys d = g_nodes g /\ forall n p, In (n, p) d -> node_data n k = Some p).
        { clear WF Cases. revert H. induction (g_nodes g) as [|n l IH]; intro H; [exists []; split; [reflexivity|]; split; [reflexivity|intros n p []]|].
          destruct (IH (fun m Hm => H m (or_intror Hm))) as (d & E1 & E2 & E3). cbn [mapM]. destruct (node_data n k) as [x|] eqn:E; [|exfalso; now apply (H n (or_introl eq_refl))].
          cbn [of_option bind]. rewrite E1. exists ((n, x) :: d). split; [reflexivity|]. split; [cbn; now f_equal|]. intros m p [[= <- <-]|X]; auto. }
        destruct E as (d & -> & Kd & Vd). cbn [bind]. assert (D : is_dict d) by (unfold is_dict; rewrite Kd; apply WF).
        destruct (from_dict_spec d D) as (v & E & C & R & _). exists v. split; [exact E|]. split; [rewrite <- Kd; exact C|]. intros n Hn. rewrite R. rewrite <- Kd in Hn. apply dget_key in Hn. destruct Hn as [p Hp]. rewrite Hp. symmetry. apply Vd. now apply dget_In. }
      split; [|exact Good]. split.
      + intro E. destruct Cases as [X|X]; [exact X|]. destruct (Good X) as (v & Ev & _). congruence.
      + intros (n & Hn & Hk). clear Good Cases WF. assert (E : mapM (fun n => x <- of_option KeyError (node_data n k) ;; Ok (n, x)) (g_nodes g) = Err KeyError); [|now rewrite E].
        revert Hn. induction (g_nodes g) as [|m l IH]; intro Hn; [destruct Hn|]. cbn [mapM]. destruct (node_data m k) as [x|] eqn:E; [|reflexivity]. cbn [of_option bind]. destruct Hn as [->|Hn]; [congruence|]. now rewrite (IH Hn).
    - intros og D. destruct (from_dict_spec d D) as (v & E & C & R & _). exists v. auto.
    - intros og D. destruct (from_dict_spec (a_map w) D) as (v & E & C & R & L & _). exists v. auto.
    - reflexivity.
  Qed.

  (** A plan built from the assignment of a plan has the same districts and
      compares equal; flips to districts that have nodes do the same to both.
      But a district without nodes is lost: a flip into it, which the old plan
      allows, raises KeyError on the new one. *)
  Theorem C107_rebuild node_data g v : wf_graph g -> coherent (g_nodes g) v ->
    exists w, new_plan node_data g (Object v) = Ok w /\ coherent (g_nodes g) w /\ a_eq w v = true /\
      (forall p, In p (labels w) <-> exists n, district v n = Some p) /\
      (forall flips v', is_dict flips -> (forall n p, In (n, p) flips -> exists m, district v m = Some p) -> flip_assignment v flips = Ok v' ->
         exists w', flip_assignment w flips = Ok w' /\ forall n, district w' n = district v' n) /\
      (forall n p, In n (g_nodes g) -> In p (labels v) -> (forall m, district v m <> Some p) ->
         (exists v', flip_assignment v [(n, p)] = Ok v') /\ flip_assignment w [(n, p)] = Err KeyError).
  Proof.
    intros WF C. assert (S := C107_sources node_data g (Object v) WF). destruct (S (Some g) (coh_map_keys _ _ C)) as (w & E & Cw & R & L).
    assert (Cg : coherent (g_nodes g) w).
    { destruct Cw as [A1 A2 A3 A4 A5]. constructor; auto. intro n. rewrite A3. apply (coh_dom _ _ C). }
    exists w. split; [|split; [exact Cg|split; [|split; [exact L|split]]]].
    - unfold new_plan. rewrite E. cbn [bind]. rewrite (proj2 (seteqb_spec (a_iter w) (g_nodes g))); [reflexivity|]. apply (coh_dom _ _ Cg).
    - apply C107_equal; [apply Cg|apply C|exact R].
    - intros flips v' D Hf Hv'. destruct (flip_outcome _ w flips Cg D) as [G _]. destruct G as [w' Hw'].
      + intros n p Hp. split.
        * destruct (In_dec_of n (g_nodes g)) as [X|X]; [exact X|exfalso]. destruct (flip_outcome _ v flips C D) as [_ B]. rewrite B in Hv'; [discriminate|]. exists n, p. auto.
        * apply L. apply (Hf n p). now apply dget_In.
      + exists w'. split; [exact Hw'|]. intro n. rewrite (flip_district _ _ _ _ Cg D Hw' n), (flip_district _ _ _ _ C D Hv' n). unfold overridden. destruct (dget flips n); [reflexivity|]. apply R.
    - intros n p Hn Hp He. assert (D : is_dict [(n, p)]) by (constructor; [intros []|constructor]). split.
      + apply (proj1 (flip_outcome _ v [(n, p)] C D)). intros m q H. cbn in H. destruct (eqb_spec m n); [|discriminate]. injection H as <-. subst. auto.
      + apply (proj2 (flip_outcome _ w [(n, p)] Cg D)). exists n, p. split; [cbn; now rewrite eqb_refl|]. right. rewrite L. intros (m & Hm). now apply (He m).
  Qed.

  (** from_districtr_file: a plan in which every node has the district that the
      file gives to its id; TypeError if a node lacks the id column; KeyError
      if the file lacks the column name, the assignment or the id of a node. *)
  Theorem C107_districtr (ident : N -> string -> option string) g idcol (plan : option (dict string P)) : wf_graph g ->
    (forall k ds, idcol = Some k -> plan = Some ds -> (forall n, In n (g_nodes g) -> exists i, ident n k = Some i /\ In i (dkeys ds)) ->
       exists v, from_districtr ident g idcol plan = Ok v /\ coherent (g_nodes g) v /\ forall n i, In n (g_nodes g) -> ident n k = Some i -> district v n = dget ds i) /\
    (forall k ds n, idcol = Some k -> plan = Some ds -> In n (g_nodes g) -> ident n k = None -> from_districtr ident g idcol plan = Err TypeError) /\
    (forall k ds n i, idcol = Some k -> plan = Some ds -> (forall m, In m (g_nodes g) -> ident m k <> None) -> In n (g_nodes g) -> ident n k = Some i -> ~ In i (dkeys ds) ->
       from_districtr ident g idcol plan = Err KeyError) /\
    (idcol = None \/ plan = None -> from_districtr ident g idcol plan = Err KeyError).
  Proof.
    intro WF.
    assert (Ids : forall k, (forall n, In n (g_nodes g) -> ident n k <> None) -> exists ids : list (N * string), mapM (fun n => x <- of_option TypeError (ident n k) ;; Ok (n, x)) (g_nodes g) = Ok ids /\
      map fst ids = g_nodes g /\ forall n i, In (n, i) ids -> ident n k = Some i).
    { intros k. clear WF. induction (g_nodes g) as [|n l IH]; intro H; [exists []; split; [reflexivity|]; split; [reflexivity|intros n i []]|].
      destruct (IH (fun m Hm => H m (or_intror Hm))) as (d & E1 & E2 & E3). cbn [mapM]. destruct (ident n k) as [x|] eqn:E; [|exfalso; now apply (H n (or_introl eq_refl))].
      cbn [of_option bind]. rewrite E1. exists ((n, x) :: d). split; [reflexivity|]. split; [cbn; now f_equal|]. intros m p [[= <- <-]|X]; auto. }
    split; [|split; [|split]].
    - intros k ds -> -> H. destruct (Ids k) as (ids & E1 & E2 & E3); [intros n Hn; destruct (H n Hn) as (i & -> & _); discriminate|].
      unfold from_districtr. cbn [of_option bind]. rewrite E1. cbn [bind].
      assert (X : exists d : dict N P, mapM (fun nx => z <- of_option KeyError (dget ds (snd nx)) ;; Ok (fst nx, z)) ids = Ok d /\ dkeys d = map fst ids /\ forall n p, In (n, p) d -> exists i, In (n, i) ids /\ dget ds i = Some p).
      { assert (Hi : forall n i, In (n, i) ids -> In i (dkeys ds)).
        { intros n i Hni. assert (Hn : In n (g_nodes g)) by (rewrite <- E2; change n with (fst (n, i)); now apply in_map). destruct (H n Hn) as (j & J1 & J2). rewrite (E3 n i Hni) in J1. congruence. }
        clear E1 E2 E3. induction ids as [|[n i] ids IH]; [exists []; split; [reflexivity|]; split; [reflexivity|intros n p []]|].
        destruct (IH (fun m j Hm => Hi m j (or_intror Hm))) as (d & F1 & F2 & F3). cbn [mapM snd fst]. assert (Hk := Hi n i (or_introl eq_refl)). apply dget_key in Hk. destruct Hk as [z Hz]. rewrite Hz. cbn [of_option bind].
        rewrite F1. exists ((n, z) :: d). split; [reflexivity|]. split; [cbn; now f_equal|]. intros m p [[= <- <-]|X]; [exists i; split; [now left|exact Hz]|]. destruct (F3 m p X) as (j & J1 & J2). exists j. split; [now right|exact J2]. }
      destruct X as (d & -> & Kd & Vd). cbn [bind]. assert (D : is_dict d) by (unfold is_dict; rewrite Kd, E2; apply WF).
      unfold new_plan. cbn [get_assignment]. destruct (from_dict_spec d D) as (v & E & C & R & _). rewrite E. cbn [bind].
      assert (Kg : dkeys d = g_nodes g) by congruence. rewrite Kg in C. rewrite (proj2 (seteqb_spec (a_iter v) (g_nodes g)) (coh_dom _ _ C)). exists v. split; [reflexivity|]. split; [exact C|].
      intros n i Hn Hi. rewrite R. rewrite <- Kg in Hn. apply dget_key in Hn. destruct Hn as [p Hp]. rewrite Hp. destruct (Vd n p (dget_In _ _ Hp)) as (j & J1 & J2). apply E3 in J1. congruence.
    - intros k ds n -> -> Hn Hi. unfold from_districtr. cbn [of_option bind]. assert (E : mapM (fun n => x <- of_option TypeError (ident n k) ;; Ok (n, x)) (g_nodes g) = Err TypeError); [|now rewrite E].
      clear Ids WF. revert Hn. induction (g_nodes g) as [|m l IH]; intro Hn; [destruct Hn|]. cbn [mapM]. destruct (ident m k) as [x|] eqn:E; [|reflexivity]. cbn [of_option bind]. destruct Hn as [->|Hn]; [congruence|]. now rewrite (IH Hn).
    - intros k ds n i -> -> H Hn Hi Hk. destruct (Ids k H) as (ids & E1 & E2 & E3). unfold from_districtr. cbn [of_option bind]. rewrite E1. cbn [bind].
      assert (E : mapM (fun nx => z <- of_option KeyError (dget ds (snd nx)) ;; Ok (fst nx, z)) ids = Err KeyError); [|now rewrite E].
      rewrite <- E2 in Hn. clear - Hn E3 Hi Hk. induction ids as [|[m j] l IH]; [destruct Hn|]. cbn [mapM snd fst]. destruct (dget ds j) as [z|] eqn:E; [|reflexivity]. cbn [of_option bind]. destruct Hn as [Hm|Hn].
      + cbn in Hm. subst m. assert (X := E3 n j (or_introl eq_refl)). exfalso. apply Hk. replace i with j by congruence. eapply dget_Some_key; eauto.
      + rewrite IH; auto. intros a b Hab. apply E3. now right.
    - intros [->| ->]; unfold from_districtr; cbn [of_option bind]; [reflexivity|]. destruct idcol; reflexivity.
  Qed.
End Reading.

(** ** Where sharing and update_parts go wrong *)
(** Two Assignments made from one parts dictionary share it: moving a node in
    the first puts the second at odds with itself. *)
Theorem C105_shared_refuted : exists (cs : list (cmd nat nat)) v0 v1, let st := run cs empty_store in
  value st 0 = Some v0 /\ value st 1 = Some v1 /\ consistent v0 /\ consistent v1 /\
  exists fl v1', fst (step (UpdateFlows 0 fl) st) = Ok tt /\ value (snd (step (UpdateFlows 0 fl) st)) 1 = Some v1' /\ ~ consistent v1'.
Proof.
  assert (Cn : consistent (mkAssignment [(1, [0]); (2, [1])] [(0, 1); (1, 2)])).
  { intros n p. unfold district, listed. cbn [a_map a_parts dget]. split.
    - destruct (eqb_spec n 0) as [->|]; [intros [= <-]; exists [0]; cbn; auto|]. destruct (eqb_spec n 1) as [->|]; [intros [= <-]; exists [1]; cbn; auto|discriminate].
    - intros (s & Hs & Hn). destruct (eqb_spec p 1) as [->|]; [injection Hs as <-; destruct Hn as [<-|[]]; reflexivity|]. destruct (eqb_spec p 2) as [->|]; [injection Hs as <-; destruct Hn as [<-|[]]; reflexivity|discriminate]. }
  exists [NewParts [(1, [0]); (2, [1])]; Construct 0 None true; Construct 0 None true]. eexists. eexists. split; [reflexivity|]. split; [reflexivity|].
  split; [exact Cn|]. split; [exact Cn|]. exists [(1, mkFlow [] [0]); (2, mkFlow [0] [])]. eexists. split; [reflexivity|]. split; [reflexivity|].
  intro C. assert (X := proj1 (C 0 1) eq_refl). destruct X as (s & Hs & Hn). vm_compute in Hs. injection Hs as <-. destruct Hn.
Qed.
(** to_dict returns the assignment's own dictionary: writing to it changes the
    plan, and only one of its two views. *)
Theorem C105_to_dict_refuted : exists (cs : list (cmd nat nat)) v v' p m n k, let st := run cs empty_store in
  value st 0 = Some v /\ consistent v /\ nth_error (st_objs st) 0 = Some (p, m) /\
  value (snd (step (SetNode m n k) st)) 0 = Some v' /\ district v' n <> district v n /\ a_parts v' = a_parts v /\ ~ consistent v'.
Proof.
  exists [FromDict [(0, 1); (1, 2)]]. eexists. eexists. exists 0, 0, 0, 2. split; [reflexivity|]. split; [|split; [reflexivity|split; [reflexivity|split; [discriminate|split; [reflexivity|]]]]].
  - intros n p. unfold district, listed. cbn [a_map a_parts]. change (mapping_of_parts _) with [(0, 1); (1, 2)]. change (level_sets _) with [(1, [0]); (2, [1])]. cbn [dget]. split.
    + destruct (eqb_spec n 0) as [->|]; [intros [= <-]; exists [0]; cbn; auto|]. destruct (eqb_spec n 1) as [->|]; [intros [= <-]; exists [1]; cbn; auto|discriminate].
    + intros (s & Hs & Hn). destruct (eqb_spec p 1) as [->|]; [injection Hs as <-; destruct Hn as [<-|[]]; reflexivity|]. destruct (eqb_spec p 2) as [->|]; [injection Hs as <-; destruct Hn as [<-|[]]; reflexivity|discriminate].
  - intro C. assert (X := proj1 (C 0 2) eq_refl). destruct X as (s & Hs & Hn). vm_compute in Hs. injection Hs as <-. destruct Hn as [Hn|[]]. discriminate.
Qed.
(** update_parts with a set that leaves a node out: the node is in no part any
    more but is still reported to be in its district. *)
Theorem C106_orphan_refuted : exists (v : assignment nat nat) np n p, coherent [0; 1; 2] v /\ is_dict np /\
  district (updated v np) n = Some p /\ (forall q, ~ listed (updated v np) q n) /\ a_len (updated v np) <> List.length (a_iter (updated v np)).
Proof.
  assert (D : is_dict [(0, 1); (1, 1); (2, 2)]) by nodup. destruct (from_dict_spec [(0, 1); (1, 1); (2, 2)] D) as (v & E & C & _). vm_compute in E. injection E as <-.
  eexists. exists [(1, [1])], 0, 1. split; [exact C|]. split; [nodup|]. split; [reflexivity|]. split; [|vm_compute; discriminate].
  intros q (s & Hs & Hn). apply dget_In in Hs. vm_compute in Hs. destruct Hs as [[= <- <-]|[[= <- <-]|[]]]; cbn in Hn; repeat destruct Hn as [Hn|Hn]; try discriminate; contradiction.
Qed.

(** ** The hypotheses can be met *)
Example C105_nonvacuous : let st := run [FromDict [(0, 1); (1, 1); (2, 2)]; NewParts [(1, [0])]] (@empty_store nat nat) in
  creates (N:=nat) (P:=nat) (Copy 0) = true /\ fst (step (Copy 0) st) = Ok tt /\
  Forall (fun c => ~ touches 1 2 1 c) [UpdateFlows 0 [(1, mkFlow [] [0]); (2, mkFlow [0] [])]; SetPart 1 1 [5]; SetNode 0 1 2; Construct 1 None true; UpdateParts 2 [(1, [7])]] /\
  exists v fl, value st 0 = Some v /\ is_dict (a_parts v) /\ consistent v /\ flows_from_changes (a_map v) [(0, 2)] = Ok fl /\ exists v', flip_assignment v [(0, 2)] = Ok v'.
Proof.
  assert (D : is_dict [(0, 1); (1, 1); (2, 2)]) by nodup. destruct (from_dict_spec [(0, 1); (1, 1); (2, 2)] D) as (v & E & C & _). vm_compute in E. injection E as <-.
  split; [reflexivity|]. split; [reflexivity|]. split; [repeat constructor; cbn; intuition discriminate|]. eexists. eexists. split; [reflexivity|]. split; [exact (coh_part_keys _ _ C)|]. split; [exact (coh_agree _ _ C)|].
  split; [reflexivity|]. eexists. reflexivity.
Qed.
Example C106_nonvacuous : exists v : assignment nat nat, coherent [0; 1; 2] v /\ is_dict [(1, [0; 2]); (2, [1])] /\ consistent (updated v [(1, [0; 2]); (2, [1])]).
Proof.
  assert (D : is_dict [(0, 1); (1, 1); (2, 2)]) by nodup. destruct (from_dict_spec [(0, 1); (1, 1); (2, 2)] D) as (v & E & C & R & _).
  exists v. split; [exact C|]. assert (D2 : is_dict [(1, [0; 2]); (2, [1])]) by nodup. split; [exact D2|]. apply C106_consistent; [exact D2|exact (coh_agree _ _ C)|]. split; [|split].
  - intros n p q s s' [[= <- <-]|[[= <- <-]|[]]] [[= <- <-]|[[= <- <-]|[]]] Hn Hn'; auto; cbn in Hn, Hn'; lia.
  - intros n q _ Hd. rewrite R in Hd. apply dget_In in Hd. destruct Hd as [[= <- <-]|[[= <- <-]|[[= <- <-]|[]]]]; cbn; auto.
  - intros n q Hd _. rewrite R in Hd. apply dget_In in Hd. destruct Hd as [[= <- <-]|[[= <- <-]|[[= <- <-]|[]]]]; [exists 1, [0; 2]|exists 2, [1]|exists 1, [0; 2]]; cbn; auto.
Qed.
(** A plan with an empty district, and a districtr file. *)
Example C107_nonvacuous : exists (g : graph nat) (v : assignment nat nat), wf_graph g /\ coherent (g_nodes g) v /\ In 1 (labels v) /\ (forall m, district v m <> Some 1) /\
  exists w, from_districtr (fun n _ => if Nat.eqb n 0 then Some "a"%string else Some "b"%string) g (Some "id"%string) (Some [("a"%string, 7); ("b"%string, 8)]) = Ok w /\ district w 1 = Some 8.
Proof.
  set (g := mkGraph [0; 1; 2] [(0, 1); (1, 2)]). assert (WF : wf_graph g).
  { constructor; cbn; [nodup|nodup| |]; intros u w H; [|intro H']; repeat destruct H as [H|H]; try contradiction; injection H as <- <-; cbn; auto 6. repeat destruct H' as [H'|H']; try discriminate; contradiction. repeat destruct H' as [H'|H']; try discriminate; contradiction. }
  assert (D : is_dict [(0, 1); (1, 2); (2, 2)]) by nodup. destruct (from_dict_spec [(0, 1); (1, 2); (2, 2)] D) as (v & E & C & R & L & _).
  assert (D2 : is_dict [(0, 2)]) by nodup. destruct (proj1 (flip_outcome _ v [(0, 2)] C D2)) as [v' Hv'].
  { intros n p H. apply dget_In in H. destruct H as [[= <- <-]|[]]. split; [cbn; auto|]. apply L. exists 1. reflexivity. }
  exists g, v'. split; [exact WF|]. split; [exact (flip_coherent _ _ _ _ C D2 Hv')|]. split; [rewrite (flip_labels _ _ _ D2 Hv'); apply L; exists 0; reflexivity|]. split.
  - intros m H. rewrite (flip_district _ _ _ _ C D2 Hv' m) in H. unfold overridden in H. specialize (R m). unfold district in R. rewrite R in H. destruct m as [|[|[|m]]]; cbn in H; discriminate.
  - eexists. split; [vm_compute; reflexivity|reflexivity].
Qed.
Print Assumptions C105_frame.
Print Assumptions C105_flip.
Print Assumptions C105_shared_refuted.
Print Assumptions C105_to_dict_refuted.
Print Assumptions C106_effect.
Print Assumptions C106_consistent.
Print Assumptions C106_coherent.
Print Assumptions C106_orphan_refuted.
Print Assumptions C107_reads.
Print Assumptions C107_equal.
Print Assumptions C107_sources.
Print Assumptions C107_rebuild.
Print Assumptions C107_districtr.
