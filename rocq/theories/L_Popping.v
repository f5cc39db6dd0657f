(** Cycle popping: the combinatorics behind Wilson's algorithm.  Every node has
    a stack of successors; popping a cycle of the current successors removes
    the top of the stack of each of its nodes.  The order does not matter. *)
From Coq Require Import List Bool Arith Lia ZifyBool ZifyNat.
From Verif Require Import Base M_Graph M_Partition S_Partition L_Partition.
Import ListNotations.
Local Open Scope nat_scope.

Section Popping.
  Context {N : Type} {EN : EqB N}.
  Variables (r : N) (U : list N).

  Record cycle (f : N -> N) (C : list N) : Prop := {
    cy_some : C <> [];
    cy_root : ~ In r C;
    cy_in : incl C U;
    cy_closed : forall x, In x C -> In (f x) C;
    cy_link : forall x y, In x C -> In y C -> exists n, Nat.iter n f x = y
  }.
  Definition cur (S : N -> nat -> N) (k : N -> nat) (x : N) : N := S x (k x).
  Definition pop (S : N -> nat -> N) (k : N -> nat) (C : list N) (k' : N -> nat) : Prop :=
    cycle (cur S k) C /\ forall x, k' x = k x + (if mem x C then 1 else 0).
  Inductive pops (S : N -> nat -> N) : nat -> (N -> nat) -> (N -> nat) -> Prop :=
  | pops_nil : forall k k', (forall x, k x = k' x) -> pops S 0 k k'
  | pops_cons : forall m k C k1 k', pop S k C k1 -> pops S m k1 k' -> pops S (Datatypes.S m) k k'.
  Definition acyclic (f : N -> N) : Prop := forall C, ~ cycle f C.

  Lemma iter_in f C x n : cycle f C -> In x C -> In (Nat.iter n f x) C.
  Proof. intros H Hx. induction n as [|n IH]; [exact Hx|]. change (In (f (Nat.iter n f x)) C). now apply (cy_closed f C H). Qed.
  Lemma iter_agree f f' C x n : cycle f C -> (forall y, In y C -> f y = f' y) -> In x C -> Nat.iter n f x = Nat.iter n f' x.
  Proof. intros H Eq Hx. induction n as [|n IH]; [reflexivity|]. change (f (Nat.iter n f x) = f' (Nat.iter n f' x)). rewrite <- IH. apply Eq. now apply iter_in. Qed.
  Lemma cycle_agree f f' C : (forall x, In x C -> f x = f' x) -> cycle f C -> cycle f' C.
  Proof.
    intros Eq H. constructor; try apply H.
    - intros x Hx. rewrite <- Eq by exact Hx. now apply H.
    - intros x y Hx Hy. destruct (cy_link f C H x y Hx Hy) as (n & Hn). exists n. now rewrite <- (iter_agree f f' C).
  Qed.
  Lemma cycles_meet f C C' x : cycle f C -> cycle f C' -> In x C -> In x C' -> forall y, In y C -> In y C'.
  Proof. intros H H' Hx Hx' y Hy. destruct (cy_link f C H x y Hx Hy) as (n & <-). now apply iter_in. Qed.
  Lemma pops_ext S m k k1 K : (forall x, k x = k1 x) -> pops S m k K -> pops S m k1 K.
  Proof.
    intros Eq H. inversion H as [? ? Eq'|? ? C k2 ? Hp Hr]; subst.
    - constructor. intro x. now rewrite <- Eq, Eq'.
    - apply pops_cons with C k2; auto. destruct Hp as [Hc Hk]. split.
      + eapply cycle_agree; [|exact Hc]. intros x _. unfold cur. now rewrite Eq.
      + intro x. now rewrite Hk, Eq.
  Qed.
  Lemma pops_le S m k K : pops S m k K -> forall x, k x <= K x.
  Proof. induction 1 as [k k' Eq|m k C k1 k' [_ Hk] _ IH]; intro x; [now rewrite Eq|]. specialize (IH x). rewrite Hk in IH. lia. Qed.
  Lemma pops_root S m k K : pops S m k K -> K r = k r.
  Proof. induction 1 as [k k' Eq|m k C k1 k' [Hc Hk] _ IH]; [auto|]. rewrite IH, Hk. rewrite (proj2 (mem_notIn r C) (cy_root _ _ Hc)). lia. Qed.
  Lemma pops_outside S m k K x : ~ In x U -> pops S m k K -> K x = k x.
  Proof.
    intro Hx. induction 1 as [k k' Eq|m k C k1 k' [Hc Hk] _ IH]; [auto|]. rewrite IH, Hk.
    rewrite (proj2 (mem_notIn x C)); [lia|]. intro X. now apply Hx, (cy_in _ _ Hc).
  Qed.
  Lemma pops_snoc S m k k1 C K : pops S m k k1 -> pop S k1 C K -> pops S (Datatypes.S m) k K.
  Proof.
    induction 1 as [k k' Eq|m k C' k2 k' Hp Hr IH]; intro H.
    - apply pops_cons with C K; [|constructor; auto]. destruct H as [Hc Hk]. split.
      + eapply cycle_agree; [|exact Hc]. intros x _. unfold cur. now rewrite Eq.
      + intro x. now rewrite Hk, Eq.
    - apply pops_cons with C' k2; auto.
  Qed.

  (** Popping one cycle first shortens any complete popping by one. *)
  Lemma pop_first S K m : acyclic (cur S K) -> forall k C k1, pops S m k K -> pop S k C k1 -> exists m', m = Datatypes.S m' /\ pops S m' k1 K.
  Proof.
    intro Ac. induction m as [|m IH]; intros k C k1 H [Hc Hk].
    - inversion H as [? ? Eq|]; subst. exfalso. apply (Ac C). eapply cycle_agree; [|exact Hc]. intros x _. unfold cur. now rewrite Eq.
    - inversion H as [|? ? C' k' ? [Hc' Hk'] Hr]; subst. exists m. split; auto.
      destruct (existsb (fun x => mem x C') C) eqn:Meet.
      + apply existsb_exists in Meet. destruct Meet as (x & Hx & Hx'). apply mem_In in Hx'.
        assert (Same : forall y, mem y C = mem y C').
        { intro y. destruct (mem y C') eqn:Y; [apply mem_In; apply mem_In in Y; apply (cycles_meet _ C' C x Hc' Hc Hx' Hx y Y)|].
          apply mem_notIn. apply mem_notIn in Y. intro Z. apply Y, (cycles_meet _ C C' x Hc Hc' Hx Hx' y Z). }
        apply pops_ext with k'; auto. intro y. now rewrite Hk, Hk', Same.
      + assert (Apart : forall y, In y C -> In y C' -> False).
        { intros y Y1 Y2. assert (X : existsb (fun x => mem x C') C = true) by (apply existsb_exists; exists y; split; auto; now apply mem_In). congruence. }
        pose (k2 := fun x => k' x + (if mem x C then 1 else 0)).
        assert (P1 : pop S k' C k2).
        { split; [|reflexivity]. eapply cycle_agree; [|exact Hc]. intros x Hx. unfold cur. rewrite Hk', (proj2 (mem_notIn x C')) by eauto. now rewrite Nat.add_0_r. }
        assert (P2 : pop S k1 C' k2).
        { split.
          - eapply cycle_agree; [|exact Hc']. intros x Hx. unfold cur. rewrite Hk, (proj2 (mem_notIn x C)) by eauto. now rewrite Nat.add_0_r.
          - intro x. unfold k2. rewrite Hk, Hk'. lia. }
        destruct (IH k' C k2 Hr P1) as (m' & -> & R). apply pops_cons with C' k2; auto.
  Qed.
  Lemma pops_complete S K m j : acyclic (cur S K) -> forall k k1, pops S m k K -> pops S j k k1 -> exists m', m = j + m' /\ pops S m' k1 K.
  Proof.
    intro Ac. revert m. induction j as [|j IH]; intros m k k1 H H1.
    - inversion H1; subst. exists m. split; auto. eapply pops_ext; eauto.
    - inversion H1 as [|? ? C k2 ? Hp Hr]; subst. destruct (pop_first S K m Ac k C k2 H Hp) as (m' & -> & H2).
      destruct (IH m' k2 k1 H2 Hr) as (m'' & -> & H3). exists m''. split; auto.
  Qed.
  (** Complete poppings end in the same place. *)
  Lemma pops_end S K K' m j : acyclic (cur S K) -> acyclic (cur S K') -> forall k, pops S m k K -> pops S j k K' -> forall x, K x = K' x.
  Proof.
    intros Ac Ac' k H H' x. destruct (pops_complete S K m j Ac k K' H H') as (m' & _ & R).
    inversion R as [? ? Eq|? ? C ? ? [Hc _] _]; subst; [auto|]. elim (Ac' C Hc).
  Qed.
  (** Only the popped part of the stacks matters. *)
  Lemma pops_agree S S' m k K : pops S m k K -> (forall x j, j < K x -> S x j = S' x j) -> pops S' m k K.
  Proof.
    induction 1 as [k k' Eq|m k C k1 k' [Hc Hk] Hr IH]; intro Ag; [now constructor|].
    apply pops_cons with C k1; auto. split; auto. eapply cycle_agree; [|exact Hc]. intros x Hx. unfold cur. apply Ag.
    assert (L := pops_le _ _ _ _ Hr x). rewrite Hk, (proj2 (mem_In x C) Hx) in L. lia.
  Qed.
End Popping.
