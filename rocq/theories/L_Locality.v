(** Lemmas on counters, inverted dictionaries and sums for the locality scores. *)
From Coq Require Import String List Bool Arith ZArith Lia ZifyBool ZifyNat.
From Verif Require Import Base M_Graph M_Partition S_Partition M_Contiguity M_Locality.
Import ListNotations.
Local Open Scope nat_scope.
Local Open Scope list_scope.

(** [k] is the number of things with property [Pr]. *)
Definition numbers {X} (Pr : X -> Prop) (k : nat) : Prop :=
  exists l, NoDup l /\ (forall x, In x l <-> Pr x) /\ length l = k.
Lemma numbers_ext {X} (Pr Pr' : X -> Prop) k : (forall x, Pr x <-> Pr' x) -> numbers Pr k -> numbers Pr' k.
Proof. intros H (l & H1 & H2 & H3). exists l. split; [exact H1|]. split; [|exact H3]. intro x. now rewrite H2. Qed.
Lemma numbers_unique {X} (Pr : X -> Prop) j k : numbers Pr j -> numbers Pr k -> j = k.
Proof.
  intros (l & H1 & H2 & H3) (l' & H1' & H2' & H3'). subst. apply Nat.le_antisymm; apply NoDup_incl_length; auto; intros x Hx.
  - now apply H2', H2.
  - now apply H2, H2'.
Qed.
Lemma numbers_le {X} (Pr Pr' : X -> Prop) j k : (forall x, Pr x -> Pr' x) -> numbers Pr j -> numbers Pr' k -> j <= k.
Proof.
  intros H (l & H1 & H2 & H3) (l' & H1' & H2' & H3'). subst. apply NoDup_incl_length; auto. intros x Hx. now apply H2', H, H2.
Qed.
Lemma numbers_zero {X} (Pr : X -> Prop) : numbers Pr 0 <-> forall x, ~ Pr x.
Proof.
  split.
  - intros (l & _ & H & E) x Hx. destruct l; [|discriminate]. now apply H in Hx.
  - intro H. exists []. split; [constructor|]. split; [|reflexivity]. intro x. split; [intros []|intro Hx; now apply H in Hx].
Qed.

Lemma fold_add_length {A B} (f : A -> list B) l : forall c, fold_left (fun c x => c + length (f x)) l c = c + length (flat_map f l).
Proof. induction l as [|x l IH]; intro c; cbn; [lia|]. rewrite IH, app_length. lia. Qed.
Lemma fold_count {A} (f : A -> bool) l : forall c, fold_left (fun c x => if f x then S c else c) l c = c + length (filter f l).
Proof. induction l as [|x l IH]; intro c; cbn; [lia|]. rewrite IH. destruct (f x); cbn; lia. Qed.
Lemma Forall2_keys {K V W} (d : list (K * V)) (e : list (K * W)) : Forall2 (fun a b => fst a = fst b) d e -> dkeys d = dkeys e.
Proof. unfold dkeys. induction 1; cbn; congruence. Qed.
Lemma NoDup_keys_filter {K V} (f : K * V -> bool) (d : list (K * V)) : NoDup (dkeys d) -> NoDup (dkeys (filter f d)).
Proof.
  unfold dkeys. induction d as [|x d IH]; cbn [filter map]; auto. intro Nd. inversion Nd; subst. destruct (f x); cbn [map]; auto. constructor; auto.
  intro Hin. apply H1. apply in_map_iff in Hin. destruct Hin as (y & <- & Hy). apply filter_In in Hy. apply in_map. tauto.
Qed.

Section Counters.
  Context {L : Type} {EL : EqB L}.
  Definition cnt (x : L) (l : list L) : nat := length (filter (eqb x) l).
  Lemma counter_fold l : forall c, NoDup (dkeys c) ->
    NoDup (dkeys (fold_left (fun c x => dset c x (S (dget_or 0 c x))) l c)) /\
    forall x, dget (fold_left (fun c x => dset c x (S (dget_or 0 c x))) l c) x = if mem x l then Some (dget_or 0 c x + cnt x l) else dget c x.
  Proof.
    induction l as [|y l IH]; intros c Nd; cbn [fold_left].
    - split; auto.
    - destruct (IH (dset c y (S (dget_or 0 c y)))) as [H1 H2]; [now apply NoDup_dset|]. split; auto.
      intro x. rewrite H2. unfold cnt. cbn [mem existsb filter]. fold (mem x l). unfold dget_or at 1. rewrite dget_dset.
      destruct (eqb_spec x y) as [->|Hn]; cbn [orb length].
      + destruct (mem y l) eqn:Em; f_equal; cbn [length]; [lia|].
        replace (length (filter (eqb y) l)) with 0; [lia|]. symmetry. apply length_zero_iff_nil.
        destruct (filter (eqb y) l) as [|z r] eqn:E; auto. exfalso. assert (Hz : In z (filter (eqb y) l)) by (rewrite E; now left).
        apply filter_In in Hz. destruct Hz as [Hz1 Hz2]. apply eqb_true in Hz2. subst z. apply mem_In in Hz1. congruence.
      + unfold dget_or. destruct (mem x l); auto.
  Qed.
  Lemma counter_spec l : NoDup (dkeys (counter l)) /\ forall x, dget (counter l) x = if mem x l then Some (cnt x l) else None.
  Proof. unfold counter. destruct (counter_fold l [] (NoDup_nil _)) as [H1 H2]. split; auto. Qed.
  Lemma counter_keys l x : In x (dkeys (counter l)) <-> In x l.
  Proof.
    rewrite dget_key. destruct (counter_spec l) as [_ H]. rewrite H. rewrite <- mem_In. destruct (mem x l); split; intro H1; eauto; try discriminate.
    destruct H1; discriminate.
  Qed.
End Counters.

Section Invert.
  Context {P L X : Type} {EP : EqB P} {EL : EqB L}.
  Definition get2 {A B} {EA : EqB A} {EB : EqB B} (d : dict A (dict B X)) (a : A) (b : B) : option X :=
    match dget d a with Some c => dget c b | None => None end.
  Definition neat {A B} {EA : EqB A} {EB : EqB B} (d : dict A (dict B X)) : Prop :=
    NoDup (dkeys d) /\ forall a c, dget d a = Some c -> NoDup (dkeys c) /\ c <> [].
  Definition put1 (p : P) (inv : dict L (dict P X)) (lc : L * X) : dict L (dict P X) :=
    dset inv (fst lc) (dset (dget_or [] inv (fst lc)) p (snd lc)).
  Lemma dset_nonempty {K V} {EK : EqB K} (d : dict K V) k v : dset d k v <> [].
  Proof. destruct d as [|[k' v'] d]; cbn; [discriminate|]. destruct (eqb k k'); discriminate. Qed.
  Lemma put1_spec p inv lc : neat inv -> neat (put1 p inv lc) /\
    forall l p', get2 (put1 p inv lc) l p' = if eqb l (fst lc) && eqb p' p then Some (snd lc) else get2 inv l p'.
  Proof.
    intros [N1 N2]. unfold put1. split; [split|].
    - now apply NoDup_dset.
    - intros a c. rewrite dget_dset. destruct (eqb_spec a (fst lc)); [|apply N2]. intros [= <-]. split; [|apply dset_nonempty].
      apply NoDup_dset. unfold dget_or. match goal with |- context [match ?x with _ => _ end] => destruct x eqn:E end; [exact (proj1 (N2 _ _ E))|constructor].
    - intros l p'. unfold get2. rewrite dget_dset. destruct (eqb_spec l (fst lc)) as [->|]; cbn [andb]; [|reflexivity].
      rewrite dget_dset. destruct (eqb p' p); auto. unfold dget_or. match goal with |- context [match ?x with Some v => v | None => [] end] => destruct x eqn:E end; unfold dict in *; rewrite E; reflexivity.
  Qed.
  Lemma put_all p c : forall inv, neat inv -> NoDup (dkeys c) -> neat (fold_left (put1 p) c inv) /\
    forall l p', get2 (fold_left (put1 p) c inv) l p' = if eqb p' p && dmem c l then dget c l else get2 inv l p'.
  Proof.
    induction c as [|[k v] c IH]; intros inv Hn Nd; cbn [fold_left].
    - split; auto. intros l p'. unfold dmem. cbn. now rewrite andb_false_r.
    - destruct (put1_spec p inv (k, v) Hn) as [Hn' Hg]. cbn [dkeys map] in Nd. inversion Nd; subst. destruct (IH (put1 p inv (k, v)) Hn') as [H3 H4]; auto. split; auto.
      intros l p'. rewrite H4, Hg. cbn [fst snd]. unfold dmem. cbn [dget]. destruct (eqb_spec l k) as [->|]; cbn [andb].
      + replace (dget c k) with (@None X) by (symmetry; now apply dget_None). rewrite andb_false_r, andb_true_r. reflexivity.
      + reflexivity.
  Qed.
  Lemma invert_spec (sp : dict P (dict L X)) : NoDup (dkeys sp) -> (forall p c, dget sp p = Some c -> NoDup (dkeys c)) ->
    neat (invert sp) /\ forall l p, get2 (invert sp) l p = get2 sp p l.
  Proof.
    unfold invert. change (fun inv0 kv => fold_left (fun inv lc => dset inv (fst lc) (dset (dget_or [] inv (fst lc)) (fst kv) (snd lc))) (snd kv) inv0)
      with (fun (inv : dict L (dict P X)) (kv : P * dict L X) => fold_left (put1 (fst kv)) (snd kv) inv).
    induction sp as [|[p c] sp IH] using rev_ind; intros Nd Ni.
    - cbn. split; [split; [constructor|discriminate]|]. reflexivity.
    - unfold dkeys in Nd. rewrite map_app in Nd. cbn in Nd. apply NoDup_remove in Nd. rewrite app_nil_r in Nd. destruct Nd as [Nd Np].
      assert (G : forall p' , dget (sp ++ [(p, c)]) p' = match dget sp p' with Some x => Some x | None => if eqb p' p then Some c else None end).
      { clear. intro p'. induction sp as [|[k v] sp IHs]; cbn; auto. destruct (eqb p' k); auto. }
      assert (Hp : dget sp p = None) by (now apply dget_None).
      destruct IH as [H1 H2]; auto.
      { intros p' c' E. apply (Ni p'). rewrite G, E. reflexivity. }
      rewrite fold_left_app. cbn [fold_left fst snd]. destruct (put_all p c _ H1) as [H3 H4].
      { apply (Ni p). rewrite G, Hp, eqb_refl. reflexivity. }
      split; auto. intros l p'. rewrite H4, H2. unfold get2. rewrite G. destruct (eqb_spec p' p) as [->|].
      + rewrite Hp. cbn. unfold dmem. destruct (dget c l) eqn:E; auto.
      + cbn. now destruct (dget sp p').
  Qed.
End Invert.
