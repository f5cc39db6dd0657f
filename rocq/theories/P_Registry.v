(** C21, C70: dictionaries of updaters shared by plans. *)
From Coq Require Import List Bool Arith Lia ZifyBool ZifyNat.
From Verif Require Import Base M_Registry.
Import ListNotations.
Local Open Scope list_scope.

Section Registry.
  Context {K F V : Type} `{EqB K}.
  Variable eval : F -> nat -> V.
  Variable classes : list (dict K F).
  Notation op := (op K F).
  Notation registry := (registry K F V).
  Notation history := (history eval classes).
  Notation perform := (perform eval).
  Implicit Types (w : registry) (k : K) (f : F) (us : dict K F) (ops : list op).

  (** ** Specification *)

  (** Plans sharing their updaters: those of a class built with the default
      updaters, or the [j]-th plan built without them; each with everything
      derived from it. *)
  Inductive family := Class (c : nat) | Own (j : nat).
  Definition same (a b : family) : bool :=
    match a, b with Class c, Class d => Nat.eqb c d | Own i, Own j => Nat.eqb i j | _, _ => false end.
  (** What a family knows under the name [k]: the families of the plans so far,
      the number of plans built without default updaters, and the updater. *)
  Record known := mkKnown { members : list family; owns : nat; meaning : option F }.
  Definition unless (a b : option F) : option F := match a with Some f => Some f | None => b end.
  Definition learn (fam : family) (k : K) (s : known) (o : op) : known :=
    let mine p := match nth_error (members s) p with Some g => same g fam | None => false end in
    match o with
    | Construct c us true =>
      mkKnown (members s ++ [Class c]) (owns s) (if same (Class c) fam then unless (dget us k) (meaning s) else meaning s)
    | Construct c us false =>
      mkKnown (members s ++ [Own (owns s)]) (S (owns s)) (if same (Own (owns s)) fam then dget us k else meaning s)
    | ConstructGrid c us =>
      mkKnown (members s ++ [Class c]) (owns s) (if same (Class c) fam then unless (meaning s) (dget us k) else meaning s)
    | Derive p => mkKnown (match nth_error (members s) p with Some g => members s ++ [g] | None => members s end) (owns s) (meaning s)
    | Register p k' f => mkKnown (members s) (owns s) (if mine p && eqb k k' then Some f else meaning s)
    | RegisterNew p k' f => mkKnown (members s) (owns s) (if mine p && eqb k k' then unless (meaning s) (Some f) else meaning s)
    | Read _ _ => s
    end.
  Definition at_import (fam : family) (k : K) : option F := match fam with Class c => dget (nth c classes []) k | Own _ => None end.
  Definition lesson (fam : family) (k : K) (ops : list op) : known := fold_left (learn fam k) ops (mkKnown [] 0 (at_import fam k)).
  (** Dictionaries have distinct keys and classes exist. *)
  Definition proper (o : op) : Prop :=
    match o with
    | Construct c us _ | ConstructGrid c us => NoDup (dkeys us) /\ c < length classes
    | _ => True
    end.

  (** ** Lemmas *)
  Lemma same_iff a b : same a b = true <-> a = b.
  Proof. destruct a, b; cbn; try (split; [discriminate|congruence]); rewrite Nat.eqb_eq; split; congruence. Qed.
  Definition addr (g : family) : nat := match g with Class c => c | Own j => length classes + j end.
  Lemma nth_put {A} (l : list A) i x d : forall j, nth j (put l i x) d = if Nat.eqb j i && Nat.ltb i (length l) then x else nth j l d.
  Proof.
    revert i. induction l as [|y l IH]; intros [|i] [|j]; cbn [put nth length Nat.eqb]; try reflexivity; try (now rewrite andb_false_r).
    rewrite IH. reflexivity.
  Qed.
  Lemma put_length {A} (l : list A) : forall i x, length (put l i x) = length l.
  Proof. induction l; intros [|i] x; cbn; auto. Qed.
  Lemma nth_error_put {A} (l : list A) i x : forall j, nth_error (put l i x) j = if Nat.eqb j i && Nat.ltb i (length l) then Some x else nth_error l j.
  Proof.
    revert i. induction l as [|y l IH]; intros [|i] [|j]; cbn [put nth_error length Nat.eqb]; try reflexivity; try (now rewrite andb_false_r).
    rewrite IH. reflexivity.
  Qed.
  Lemma dget_update w r us k s : NoDup (dkeys us) -> r < length (dicts w) ->
    dget (dict_at (update_at w r us) s) k = if Nat.eqb s r then unless (dget us k) (dget (dict_at w r) k) else dget (dict_at w s) k.
  Proof.
    intros N Hr. unfold update_at, dict_at at 1. cbn [dicts]. rewrite nth_put. replace (Nat.ltb r (length (dicts w))) with true by (symmetry; now apply Nat.ltb_lt).
    rewrite andb_true_r. destruct (Nat.eqb_spec s r) as [->|]; [|reflexivity]. rewrite dget_dupdate by auto. unfold unless. reflexivity.
  Qed.
  Record inv (ms : list family) (n : nat) w : Prop := {
    i_plans : map updaters (plans w) = map addr ms;
    i_dicts : length (dicts w) = length classes + n;
    i_valid : forall g, In g ms -> match g with Class c => c < length classes | Own j => j < n end;
    i_nodup : forall r, NoDup (dkeys (dict_at w r))
  }.
  Lemma addr_same a b n : match a with Class c => c < length classes | Own j => j < n end -> match b with Class c => c < length classes | Own j => True end ->
    Nat.eqb (addr b) (addr a) = same a b.
  Proof.
    intros Ha Hb. apply Bool.eq_iff_eq_true. rewrite Nat.eqb_eq, same_iff. destruct a, b; cbn in *; split; intro E; try congruence; try lia.
    f_equal. lia.
  Qed.
  Lemma inv_nth ms n w p : inv ms n w -> option_map updaters (nth_error (plans w) p) = option_map addr (nth_error ms p).
  Proof. intro I. rewrite <- !nth_error_map. now rewrite (i_plans _ _ _ I). Qed.
  Lemma nodup_update w r us : NoDup (dkeys us) -> (forall s, NoDup (dkeys (dict_at w s))) -> forall s, NoDup (dkeys (dict_at (update_at w r us) s)).
  Proof.
    intros N Hw s. unfold update_at, dict_at at 1. cbn [dicts]. rewrite nth_put. destruct (Nat.eqb s r && _); [|apply Hw]. apply NoDup_dupdate. apply Hw.
  Qed.
  Lemma inv_update ms n w r us : NoDup (dkeys us) -> inv ms n w -> inv ms n (update_at w r us).
  Proof.
    intros N [I1 I2 I3 I4]. split.
    - exact I1.
    - cbn. now rewrite put_length.
    - exact I3.
    - now apply nodup_update.
  Qed.
  Lemma inv_add ms n w g : match g with Class c => c < length classes | Own j => j < n end -> inv ms n w -> inv (ms ++ [g]) n (add_plan w (addr g)).
  Proof.
    intros Hg [I1 I2 I3 I4]. split.
    - cbn. now rewrite !map_app, I1.
    - exact I2.
    - intros x Hx. apply in_app_iff in Hx. destruct Hx as [Hx|[<-|[]]]; auto. now apply I3.
    - exact I4.
  Qed.
  Definition exists_family (fam : family) : Prop := match fam with Class c => c < length classes | Own _ => True end.
  Lemma dict_fresh w r : length (dicts w) <= r -> dict_at w r = [].
  Proof. intro Hl. apply nth_overflow. auto. Qed.
  Lemma learn_step fam k w s o : exists_family fam -> proper o -> inv (members s) (owns s) w -> dget (dict_at w (addr fam)) k = meaning s ->
    inv (members (learn fam k s o)) (owns (learn fam k s o)) (perform w o) /\ dget (dict_at (perform w o) (addr fam)) k = meaning (learn fam k s o).
  Proof.
    intros Hf Hp I M. assert (I' := I). destruct I' as [I1 I2 I3 I4].
    assert (Get : forall p o, nth_error (plans w) p = Some o -> exists g, nth_error (members s) p = Some g /\ updaters o = addr g /\ addr g < length (dicts w) /\
        match g with Class c => c < length classes | Own j => j < owns s end).
    { intros p x E. assert (N := inv_nth _ _ _ p I). rewrite E in N. cbn in N. destruct (nth_error (members s) p) as [g|] eqn:Eg; [|discriminate]. injection N as N.
      exists g. split; auto. split; auto. assert (Hg := I3 g (nth_error_In _ _ Eg)). split; auto. rewrite I2. destruct g; cbn; lia. }
    assert (No : forall p, nth_error (plans w) p = None -> nth_error (members s) p = None).
    { intros p E. assert (N := inv_nth _ _ _ p I). rewrite E in N. cbn in N. destruct (nth_error (members s) p); [discriminate|auto]. }
    destruct o as [c us [|]|c us|p|p k' f|p k' f|p k']; cbn [M_Registry.perform learn members owns meaning].
    - destruct Hp as [N Hc]. unfold construct. split.
      + apply (inv_add _ _ _ (Class c)); [exact Hc|]. now apply inv_update.
      + change (dict_at (add_plan (update_at w c us) c) (addr fam)) with (dict_at (update_at w c us) (addr fam)). rewrite dget_update; auto; [|lia].
        assert (Ea := addr_same (Class c) fam 0 Hc Hf). cbn [addr] in Ea. rewrite Ea. destruct (same (Class c) fam) eqn:E; auto. apply same_iff in E. subst fam. cbn [addr] in M. now rewrite M.
    - destruct Hp as [N Hc]. unfold construct. set (w1 := mkRegistry (dicts w ++ [[]]) (plans w)).
      assert (In1 : inv (members s) (S (owns s)) w1).
      { split; auto.
        - cbn. rewrite app_length, I2. cbn. lia.
        - intros g Hg. apply I3 in Hg. destruct g; lia.
        - intro r. unfold dict_at. cbn. destruct (Nat.lt_ge_cases r (length (dicts w))) as [Hl|Hl].
          + rewrite app_nth1 by auto. apply I4.
          + rewrite app_nth2 by auto. destruct (r - length (dicts w)) as [|[|j]]; constructor. }
      assert (Ea : length (dicts w) = addr (Own (owns s))) by (cbn; lia).
      split.
      + rewrite Ea. apply inv_add; [lia|]. now apply inv_update.
      + change (dict_at (add_plan (update_at w1 (length (dicts w)) us) (length (dicts w))) (addr fam)) with (dict_at (update_at w1 (length (dicts w)) us) (addr fam)).
        rewrite dget_update; auto; [|cbn; rewrite app_length; cbn; lia]. rewrite Ea. rewrite (addr_same (Own (owns s)) fam (S (owns s))); [|lia|exact Hf].
        destruct (same (Own (owns s)) fam) eqn:E.
        * unfold dict_at, w1. cbn [dicts]. rewrite <- Ea, app_nth2, Nat.sub_diag by lia. cbn. now destruct (dget us k).
        * rewrite <- M. unfold dict_at, w1. cbn [dicts]. destruct (Nat.lt_ge_cases (addr fam) (length (dicts w))) as [Hl|Hl].
          -- now rewrite app_nth1.
          -- rewrite app_nth2 by auto. rewrite (nth_overflow (dicts w)) by auto. now destruct (addr fam - length (dicts w)) as [|[|j]].
    - destruct Hp as [N Hc]. unfold construct_grid, construct.
      assert (N2 : NoDup (dkeys (dupdate us (dict_at w c)))) by (now apply NoDup_dupdate).
      split.
      + apply (inv_add _ _ _ (Class c)); [exact Hc|]. now apply inv_update.
      + change (dict_at (add_plan (update_at w c (dupdate us (dict_at w c))) c) (addr fam)) with (dict_at (update_at w c (dupdate us (dict_at w c))) (addr fam)).
        rewrite dget_update; auto; [|lia]. assert (Ea := addr_same (Class c) fam 0 Hc Hf). cbn [addr] in Ea. rewrite Ea. destruct (same (Class c) fam) eqn:E; auto. apply same_iff in E. subst fam. cbn [addr] in M.
        rewrite dget_dupdate by auto. rewrite M. destruct (meaning s); cbn; auto. now destruct (dget us k).
    - unfold derive. destruct (nth_error (plans w) p) as [x|] eqn:E.
      + destruct (Get _ _ E) as (g & Eg & Eu & _ & Hg). rewrite Eg, Eu. split; [now apply inv_add|exact M].
      + rewrite (No _ E). auto.
    - unfold register. destruct (nth_error (plans w) p) as [x|] eqn:E.
      + destruct (Get _ _ E) as (g & Eg & Eu & Hl & Hg). rewrite Eg, Eu. assert (Nk : NoDup (dkeys [(k', f)])) by (repeat constructor; intros []).
        split; [now apply inv_update|]. rewrite dget_update; auto. rewrite (addr_same g fam _ Hg Hf). cbn [dget]. destruct (same g fam) eqn:Es; cbn [andb]; auto.
        apply same_iff in Es. subst g. destruct (eqb k k'); cbn; auto.
      + rewrite (No _ E). auto.
    - unfold register_new. destruct (nth_error (plans w) p) as [x|] eqn:E.
      + destruct (Get _ _ E) as (g & Eg & Eu & Hl & Hg). rewrite Eg, Eu. assert (Nk : NoDup (dkeys [(k', f)])) by (repeat constructor; intros []).
        destruct (same g fam) eqn:Es; cbn [andb].
        * apply same_iff in Es. subst g. unfold dmem. destruct (eqb_spec k k') as [<-|Nkk].
          -- rewrite M. destruct (meaning s) as [m|] eqn:Em; [split; auto|]. split; [now apply inv_update|]. rewrite dget_update, Nat.eqb_refl by auto. cbn. now rewrite eqb_refl.
          -- destruct (dget (dict_at w (addr fam)) k'); [split; auto|]. split; [now apply inv_update|]. rewrite dget_update, Nat.eqb_refl by auto. cbn.
             destruct (eqb_spec k k'); [contradiction|]. exact M.
        * destruct (dmem (dict_at w (addr g)) k'); [split; auto|]. split; [now apply inv_update|]. rewrite dget_update by auto. rewrite (addr_same g fam _ Hg Hf), Es. exact M.
      + rewrite (No _ E). auto.
    - unfold read. destruct (nth_error (plans w) p) as [x|] eqn:E; [|auto]. destruct (dget (cache x) k'); [auto|]. destruct (dget (dict_at w (updaters x)) k'); [|auto].
      cbn [snd]. split; [|exact M]. split; auto. cbn [plans]. rewrite <- I1. clear - E. apply nth_ext with (d := 0) (d' := 0); [now rewrite !map_length, put_length|].
      intros i Hi. rewrite !(nth_indep _ 0 (updaters x)) by (rewrite map_length in *; rewrite ?put_length in *; auto). rewrite !map_nth, nth_put.
      destruct (Nat.eqb_spec i p) as [->|]; cbn [andb]; auto. destruct (Nat.ltb p (length (plans w))); auto. now rewrite (nth_error_nth _ _ _ E).
  Qed.
  Hypothesis distinct : forall d, In d classes -> NoDup (dkeys d).
  Lemma history_inv fam k ops : exists_family fam -> Forall proper ops ->
    inv (members (lesson fam k ops)) (owns (lesson fam k ops)) (history ops) /\ dget (dict_at (history ops) (addr fam)) k = meaning (lesson fam k ops).
  Proof.
    intros Hf. induction ops as [|o ops IH] using rev_ind; intro Hp.
    - cbn. split; [split|].
      + reflexivity.
      + cbn. lia.
      + intros g [].
      + intro r. unfold dict_at. cbn. destruct (nth_in_or_default r classes []) as [Hin|E0]; [now apply distinct|]. setoid_rewrite E0. constructor.
      + destruct fam; cbn; auto. unfold dict_at. cbn. now rewrite nth_overflow by lia.
    - apply Forall_app in Hp. destruct Hp as [Hp Ho]. inversion Ho; subst. destruct (IH Hp) as [I M].
      unfold M_Registry.history, lesson in *. rewrite !fold_left_app. cbn [fold_left]. now apply learn_step.
  Qed.

  (** ** Theorems *)

  (** The updater a plan uses for a name is the one its family knows: the last
      one anybody of the family has given under that name. *)
  Theorem C21_updaters fam k ops p : exists_family fam -> Forall proper ops -> nth_error (members (lesson fam k ops)) p = Some fam ->
    exists o, nth_error (plans (history ops)) p = Some o /\ dget (dict_at (history ops) (updaters o)) k = meaning (lesson fam k ops).
  Proof.
    intros Hf Hp E. destruct (history_inv fam k ops Hf Hp) as [I M]. assert (N := inv_nth _ _ _ p I). rewrite E in N.
    destruct (nth_error (plans (history ops)) p) as [o|]; [|discriminate]. cbn in N. injection N as N. exists o. split; auto. now rewrite N.
  Qed.
  (** Updaters passed to a new plan are seen by every plan of the class. *)
  Theorem C21_leak c us ops p k f : Forall proper ops -> NoDup (dkeys us) -> c < length classes ->
    nth_error (members (lesson (Class c) k ops)) p = Some (Class c) -> dget us k = Some f ->
    exists o, nth_error (plans (history (ops ++ [Construct c us true]))) p = Some o /\
              dget (dict_at (history (ops ++ [Construct c us true])) (updaters o)) k = Some f.
  Proof.
    intros Hp N Hc E Ek. assert (Hp' : Forall proper (ops ++ [Construct c us true])) by (apply Forall_app; split; auto; constructor; auto; cbn; auto).
    destruct (C21_updaters (Class c) k (ops ++ [Construct c us true]) p Hc Hp') as (o & Eo & Ed).
    - unfold lesson in *. rewrite fold_left_app. cbn [fold_left]. set (s := fold_left _ ops _) in *. clearbody s. cbn. rewrite nth_error_app1; auto.
      apply nth_error_Some. now rewrite E.
    - exists o. split; auto. rewrite Ed. unfold lesson. rewrite fold_left_app. cbn. rewrite Nat.eqb_refl, Ek. reflexivity.
  Qed.
  Lemma meaning_stays fam k ops ops' : meaning (lesson fam k ops) <> None ->
    (forall j, fam = Own j -> j < owns (lesson fam k ops)) -> meaning (lesson fam k (ops ++ ops')) <> None.
  Proof.
    intros Hm Ho. unfold lesson in *. rewrite fold_left_app. set (s := fold_left (learn fam k) ops _) in *. clearbody s. revert s Hm Ho.
    induction ops' as [|o ops' IH]; intros s Hm Ho; cbn [fold_left]; auto. apply IH.
    - destruct o as [c us [|]|c us|p|p k' f|p k' f|p k']; cbn; auto.
      + destruct (match fam with Class d => Nat.eqb c d | Own _ => false end); auto. destruct (dget us k); cbn; auto. discriminate.
      + destruct fam as [d|j]; auto. specialize (Ho j eq_refl). destruct (Nat.eqb_spec (owns s) j); [lia|auto].
      + destruct (match fam with Class d => Nat.eqb c d | Own _ => false end); auto. destruct (meaning s); cbn; auto.
      + destruct (_ && _); auto. discriminate.
      + destruct (_ && _); auto. destruct (meaning s); cbn; auto.
    - intros j Ej. specialize (Ho j Ej). destruct o as [c us [|]|c us|p|p k' f|p k' f|p k']; cbn; lia.
  Qed.
  Lemma members_stay fam k ops ops' p g : nth_error (members (lesson fam k ops)) p = Some g -> nth_error (members (lesson fam k (ops ++ ops'))) p = Some g.
  Proof.
    unfold lesson. rewrite fold_left_app. generalize (fold_left (learn fam k) ops (mkKnown [] 0 (at_import fam k))).
    induction ops' as [|o ops' IH]; intros s Hs; cbn [fold_left]; auto. apply IH.
    assert (X : p < length (members s)) by (apply nth_error_Some; congruence).
    destruct o as [c us [|]|c us|q|q k' f|q k' f|q k']; cbn [learn members]; try (rewrite nth_error_app1 by exact X); try exact Hs.
    destruct (nth_error (members s) q); auto. rewrite nth_error_app1; auto.
  Qed.
  Lemma own_counted fam k ops j : In (Own j) (members (lesson fam k ops)) -> j < owns (lesson fam k ops).
  Proof.
    unfold lesson. induction ops as [|o l IH] using rev_ind; [intros []|]. rewrite fold_left_app. cbn [fold_left].
    set (s := fold_left _ l _) in *. clearbody s.
    destruct o as [c us [|]|c us|q|q k' f|q k' f|q k']; cbn [learn members owns]; auto.
    - intro Hin. apply in_app_iff in Hin. destruct Hin as [Hin|[Hin|[]]]; [auto|discriminate].
    - intro Hin. apply in_app_iff in Hin. destruct Hin as [Hin|[[= ->]|[]]]; [apply IH in Hin|]; lia.
    - intro Hin. apply in_app_iff in Hin. destruct Hin as [Hin|[Hin|[]]]; [auto|discriminate].
    - destruct (nth_error (members s) q) as [g|] eqn:Eq; auto. intro Hin. apply in_app_iff in Hin. destruct Hin as [Hin|[->|[]]]; auto. apply nth_error_In in Eq. auto.
  Qed.
  (** Names are never forgotten: a plan that knows a name knows it after any
      further history. *)
  Theorem C21_union fam k ops ops' p o : exists_family fam -> Forall proper (ops ++ ops') ->
    nth_error (members (lesson fam k ops)) p = Some fam -> nth_error (plans (history ops)) p = Some o ->
    dget (dict_at (history ops) (updaters o)) k <> None ->
    exists o', nth_error (plans (history (ops ++ ops'))) p = Some o' /\ dget (dict_at (history (ops ++ ops')) (updaters o')) k <> None.
  Proof.
    intros Hf Hp E Ho Hk. assert (Hp1 := Hp). apply Forall_app in Hp1. destruct Hp1 as [Hp1 _].
    destruct (C21_updaters fam k ops p Hf Hp1 E) as (o1 & Eo & Ed). assert (o1 = o) by congruence. subst o1. rewrite Ed in Hk.
    destruct (C21_updaters fam k (ops ++ ops') p Hf Hp (members_stay fam k ops ops' p fam E)) as (o2 & Eo2 & Ed2).
    exists o2. split; auto. rewrite Ed2. apply meaning_stays; auto. intros j ->. apply own_counted. eapply nth_error_In; exact E.
  Qed.
  Definition touches (ms : list family) (fam : family) (o : op) : Prop :=
    match o with Register p _ _ | RegisterNew p _ _ => nth_error ms p = Some fam | _ => False end.
  Lemma meaning_isolated j k ops o : j < owns (lesson (Own j) k ops) -> ~ touches (members (lesson (Own j) k ops)) (Own j) o ->
    meaning (lesson (Own j) k (ops ++ [o])) = meaning (lesson (Own j) k ops).
  Proof.
    intros Hj Ht. unfold lesson in *. rewrite fold_left_app. cbn [fold_left]. set (s := fold_left (learn (Own j) k) ops _) in *. clearbody s.
    destruct o as [c us [|]|c us|p|p k' f|p k' f|p k']; cbn in *; auto.
    - destruct (Nat.eqb_spec (owns s) j); [lia|auto].
    - destruct (nth_error (members s) p) as [g|]; auto. destruct (same g (Own j)) eqn:E; auto. apply same_iff in E. subst. contradiction.
    - destruct (nth_error (members s) p) as [g|]; auto. destruct (same g (Own j)) eqn:E; auto. apply same_iff in E. subst. contradiction.
  Qed.

  (** A plan built without the default updaters is isolated: no construction,
      derivation, read or registration changes what a name means to it, except a
      registration on the plan itself or on a plan derived from it. *)
  Theorem C21_isolated j k ops o p a : Forall proper (ops ++ [o]) ->
    nth_error (members (lesson (Own j) k ops)) p = Some (Own j) -> ~ touches (members (lesson (Own j) k ops)) (Own j) o ->
    nth_error (plans (history ops)) p = Some a ->
    exists a', nth_error (plans (history (ops ++ [o]))) p = Some a' /\
      dget (dict_at (history (ops ++ [o])) (updaters a')) k = dget (dict_at (history ops) (updaters a)) k.
  Proof.
    intros Hp E Ht Ha. assert (Hp1 := Hp). apply Forall_app in Hp1. destruct Hp1 as [Hp1 _].
    destruct (C21_updaters (Own j) k ops p I Hp1 E) as (o1 & Eo & Ed). assert (o1 = a) by congruence. subst o1.
    destruct (C21_updaters (Own j) k (ops ++ [o]) p I Hp (members_stay (Own j) k ops [o] p (Own j) E)) as (o2 & Eo2 & Ed2).
    exists o2. split; auto. rewrite Ed, Ed2. apply meaning_isolated; auto. apply own_counted. eapply nth_error_In; exact E.
  Qed.

  (** ** C70 *)

  (** What a plan of the family answers if it has not been asked before. *)
  Lemma read_fresh fam k ops p f : exists_family fam -> Forall proper ops -> nth_error (members (lesson fam k ops)) p = Some fam ->
    meaning (lesson fam k ops) = Some f ->
    (forall o, nth_error (plans (history ops)) p = Some o -> dget (cache o) k = None) -> fst (read eval p k (history ops)) = Ok (eval f p).
  Proof.
    intros Hf Hp E Em Hc. destruct (C21_updaters fam k ops p Hf Hp E) as (o & Eo & Ed). unfold read. rewrite Eo, (Hc o Eo), Ed, Em. reflexivity.
  Qed.
  (** Two Gingleators on plans of one family, with the same name for their
      auxiliary updaters: plans not scored before are scored with the updater
      of the second, whichever Gingleator asks. *)
  Theorem C70_interference fam k ops p1 f1 p2 f2 q : exists_family fam -> Forall proper ops ->
    nth_error (members (lesson fam k ops)) p1 = Some fam -> nth_error (members (lesson fam k ops)) p2 = Some fam -> nth_error (members (lesson fam k ops)) q = Some fam ->
    (forall o, nth_error (plans (history ops)) q = Some o -> dget (cache o) k = None) ->
    fst (read eval q k (history (ops ++ [Register p1 k f1]))) = Ok (eval f1 q) /\
    fst (read eval q k (history (ops ++ [Register p1 k f1; Register p2 k f2]))) = Ok (eval f2 q).
  Proof.
    intros Hf Hp E1 E2 Eq Hc.
    assert (Same : same fam fam = true) by now apply same_iff.
    assert (Pl : forall w p k' f, plans (register (V := V) p k' f w) = plans w) by (intros w p k' f; unfold register; destruct (nth_error (plans w) p); reflexivity).
    split.
    - apply (read_fresh fam); auto.
      + apply Forall_app. split; auto. repeat constructor.
      + unfold lesson in *. rewrite fold_left_app. cbn. exact Eq.
      + unfold lesson in *. rewrite fold_left_app. cbn. rewrite E1, Same, eqb_refl. reflexivity.
      + intros o Ho. unfold M_Registry.history in *. rewrite fold_left_app in Ho. cbn in Ho. rewrite Pl in Ho. auto.
    - apply (read_fresh fam); auto.
      + apply Forall_app. split; auto. repeat constructor.
      + unfold lesson in *. rewrite fold_left_app. cbn. exact Eq.
      + unfold lesson in *. rewrite fold_left_app. cbn. rewrite E2, Same, eqb_refl. reflexivity.
      + intros o Ho. unfold M_Registry.history in *. rewrite fold_left_app in Ho. cbn in Ho. rewrite !Pl in Ho. auto.
  Qed.
  (** With another name, or on plans of another family, the first one's scores
      stay. *)
  Theorem C70_no_interference fam k ops p1 f1 p2 k2 f2 q : exists_family fam -> Forall proper ops ->
    nth_error (members (lesson fam k ops)) p1 = Some fam -> nth_error (members (lesson fam k ops)) q = Some fam ->
    (k2 <> k \/ nth_error (members (lesson fam k ops)) p2 <> Some fam) ->
    (forall o, nth_error (plans (history ops)) q = Some o -> dget (cache o) k = None) ->
    fst (read eval q k (history (ops ++ [Register p1 k f1; Register p2 k2 f2]))) = Ok (eval f1 q).
  Proof.
    intros Hf Hp E1 Eq Hd Hc. assert (Same : same fam fam = true) by now apply same_iff.
    assert (Pl : forall w p k' f, plans (register (V := V) p k' f w) = plans w) by (intros w p k' f; unfold register; destruct (nth_error (plans w) p); reflexivity).
    apply (read_fresh fam); auto.
    - apply Forall_app. split; auto. repeat constructor.
    - unfold lesson in *. rewrite fold_left_app. cbn. exact Eq.
    - unfold lesson in *. rewrite fold_left_app. cbn. rewrite E1, Same, eqb_refl. cbn. destruct (nth_error _ p2) as [g|]; auto.
      destruct (same g fam) eqn:Es; cbn; auto. apply same_iff in Es. subst g. destruct Hd as [Hd|Hd]; [|congruence]. destruct (eqb_spec k k2); congruence.
    - intros o Ho. unfold M_Registry.history in *. rewrite fold_left_app in Ho. cbn in Ho. rewrite !Pl in Ho. auto.
  Qed.
  (** A plan that has been asked keeps its answer, whatever happens afterwards. *)
  Lemma cache_step w o p k v x : nth_error (plans w) p = Some x -> dget (cache x) k = Some v ->
    exists y, nth_error (plans (perform w o)) p = Some y /\ dget (cache y) k = Some v.
  Proof.
    intros E C.
    assert (Pl : p < length (plans w)) by (apply nth_error_Some; congruence).
    assert (Add : forall w' r, plans w' = plans w -> exists y, nth_error (plans (add_plan w' r)) p = Some y /\ dget (cache y) k = Some v).
    { intros w' r E'. exists x. cbn. rewrite nth_error_app1, E' by (now rewrite E'). auto. }
    destruct o as [c us [|]|c us|q|q k' f|q k' f|q k']; cbn [M_Registry.perform].
    - now apply Add.
    - now apply Add.
    - now apply Add.
    - unfold derive. destruct (nth_error (plans w) q); [now apply Add|eauto].
    - unfold register. destruct (nth_error (plans w) q); eauto.
    - unfold register_new. destruct (nth_error (plans w) q); eauto. destruct (dmem _ _); eauto.
    - unfold read. destruct (nth_error (plans w) q) as [z|] eqn:Eq; [|eauto]. destruct (dget (cache z) k') eqn:Ck; [eauto|].
      destruct (dget (dict_at w (updaters z)) k') as [f|]; [|eauto]. cbn [snd plans]. rewrite nth_error_put.
      destruct (Nat.eqb_spec p q) as [->|]; cbn [andb]; [|eauto].
      rewrite (proj2 (Nat.ltb_lt _ _) Pl). eexists. split; [reflexivity|]. cbn [cache]. assert (z = x) by congruence. subst z.
      destruct (eqb_spec k k') as [->|Hn]; [congruence|]. now rewrite dget_dset_neq by auto.
  Qed.
  Theorem C70_scored_stays ops ops' p k v : fst (read eval p k (history ops)) = Ok v ->
    fst (read eval p k (history (ops ++ Read p k :: ops'))) = Ok v.
  Proof.
    intro R. unfold M_Registry.history in *. rewrite fold_left_app. cbn [fold_left M_Registry.perform]. set (w := fold_left _ ops _) in *. clearbody w.
    assert (C : exists y, nth_error (plans (snd (read eval p k w))) p = Some y /\ dget (cache y) k = Some v).
    { unfold read in *. destruct (nth_error (plans w) p) as [x|] eqn:E; [|discriminate]. destruct (dget (cache x) k) as [v'|] eqn:Ck.
      - injection R as ->. cbn [snd]. eauto.
      - destruct (dget (dict_at w (updaters x)) k) as [f|]; [|discriminate]. injection R as <-. cbn [snd plans]. rewrite nth_error_put, Nat.eqb_refl.
        assert (Pl : p < length (plans w)) by (apply nth_error_Some; congruence). rewrite (proj2 (Nat.ltb_lt _ _) Pl). eexists. split; [reflexivity|]. cbn. apply dget_dset_eq. }
    revert C. generalize (snd (read eval p k w)). clear. intros w C. revert w C.
    induction ops' as [|o ops' IH]; intros w (y & E & C); cbn [fold_left].
    - unfold read. now rewrite E, C.
    - apply IH. eapply cache_step; eauto.
  Qed.
End Registry.

(** ** Concrete cases *)

(** One class with one updater; names and updaters are numbers, an updater
    answers its own number. *)
Notation answers ops := (history (fun f _ => f) [[(0, 100)]] ops).
(** The first plan was built without updaters of its own, but answers to the
    second plan's name 7. *)
Theorem C21_isolation_refuted :
  fst (read (fun f _ => f) 0 7 (answers [Construct 0 [] true])) = Err KeyError /\
  fst (read (fun f _ => f) 0 7 (answers [Construct 0 [] true; Construct 0 [(7, 5)] true])) = Ok 5.
Proof. split; reflexivity. Qed.
(** In a Grid the older updater wins over the one just passed. *)
Theorem C21_grid_ignores_new_updater_refuted :
  fst (read (fun f _ => f) 1 7 (answers [ConstructGrid 0 [(7, 5)]; ConstructGrid 0 [(7, 6)]])) = Ok 5.
Proof. reflexivity. Qed.
(** The first Gingleator (updater 5 under the name 9) on plan 0 and the second
    (updater 6) on plan 1: plan 0 is then scored with updater 6. *)
Theorem C70_first_gingleator_refuted :
  fst (read (fun f _ => f) 0 9 (answers [Construct 0 [] true; Construct 0 [] true; Register 0 9 5])) = Ok 5 /\
  fst (read (fun f _ => f) 0 9 (answers [Construct 0 [] true; Construct 0 [] true; Register 0 9 5; Register 1 9 6])) = Ok 6.
Proof. split; reflexivity. Qed.
(** ... but not if it had been scored before. *)
Example C70_scored_stays_nonvacuous :
  fst (read (fun f _ => f) 0 9 (answers [Construct 0 [] true; Register 0 9 5])) = Ok 5 /\
  fst (read (fun f _ => f) 0 9 (answers ([Construct 0 [] true; Register 0 9 5] ++ Read 0 9 :: [Register 0 9 6]))) = Ok 5.
Proof. split; reflexivity. Qed.
Example C21_nonvacuous :
  Forall (proper (F := nat) [[(0, 100)]]) [Construct 0 [] true; Construct 0 [(7, 5)] false; Derive 1] /\
  members (lesson [[(0, 100)]] (Own 0) 7 [Construct 0 [] true; Construct 0 [(7, 5)] false; Derive 1]) = [Class 0; Own 0; Own 0] /\
  meaning (lesson [[(0, 100)]] (Own 0) 7 [Construct 0 [] true; Construct 0 [(7, 5)] false; Derive 1]) = Some 5.
Proof.
  split; [|split; reflexivity]. repeat (apply Forall_cons; [cbn; repeat split; try lia; repeat constructor; intros []|]). constructor.
Qed.

Print Assumptions C21_updaters.
Print Assumptions C21_leak.
Print Assumptions C21_union.
Print Assumptions C21_isolated.
Print Assumptions C70_interference.
Print Assumptions C70_no_interference.
Print Assumptions C70_scored_stays.
Print Assumptions C21_isolation_refuted.
Print Assumptions C21_grid_ignores_new_updater_refuted.
Print Assumptions C70_first_gingleator_refuted.
