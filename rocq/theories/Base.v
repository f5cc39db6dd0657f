(** Common ground of all model files: Python outcomes, labels, sets and
    dictionaries.  Nothing here models a function of /repo; it models the
    Python data types the code uses.

    - A Python [set] is a duplicate-free list; only membership is ever used
      in specifications.
    - A Python [dict] is an association list in insertion order with
      duplicate-free keys. *)
From Coq Require Import List Bool Arith ZArith Lia String.
Import ListNotations.
Set Implicit Arguments.

(** ** Outcomes *)

Inductive exn :=
| KeyError | IndexError | ValueError | TypeError | ZeroDivisionError
| StopIteration | AttributeError | RuntimeError | OverflowError | PointlessConcept
| ReselectException | BalanceError | PopulationBalanceError
| MetagraphError | ReversibilityError | GeometryError | NetworkXError.

(** [NoFuel] is not a Python outcome: it says that the bound given to a model
    of an unbounded loop was too small. *)
Inductive res (A : Type) :=
| Ok (a : A)
| Err (e : exn)
| NoFuel.
Arguments Ok {A}. Arguments Err {A}. Arguments NoFuel {A}.

Definition bind {A B} (r : res A) (f : A -> res B) : res B :=
  match r with Ok a => f a | Err e => Err e | NoFuel => NoFuel end.
Notation "x <- e ;; f" := (bind e (fun x => f))
  (at level 61, e at next level, right associativity).

Definition of_option {A} (e : exn) (o : option A) : res A :=
  match o with Some a => Ok a | None => Err e end.

Fixpoint mapM {A B} (f : A -> res B) (l : list A) : res (list B) :=
  match l with
  | [] => Ok []
  | x :: r => y <- f x ;; ys <- mapM f r ;; Ok (y :: ys)
  end.

Fixpoint foldM {A B} (f : B -> A -> res B) (l : list A) (b : B) : res B :=
  match l with
  | [] => Ok b
  | x :: r => b' <- f b x ;; foldM f r b'
  end.

(** ** Labels *)

Class EqB (A : Type) := {
  eqb : A -> A -> bool;
  eqb_eq : forall x y, eqb x y = true <-> x = y
}.

Class Ord (A : Type) := {
  leb : A -> A -> bool;
  leb_total : forall x y, leb x y = true \/ leb y x = true;
  leb_antisym : forall x y, leb x y = true -> leb y x = true -> x = y;
  leb_trans : forall x y z, leb x y = true -> leb y z = true -> leb x z = true
}.

Lemma eqb_spec {A} {E : EqB A} (x y : A) : reflect (x = y) (eqb x y).
Proof.
  destruct (eqb x y) eqn:H; constructor.
  - now apply eqb_eq.
  - intro E1. apply eqb_eq in E1. congruence.
Qed.

Lemma eqb_true {A} {E : EqB A} (x y : A) : eqb x y = true -> x = y.
Proof. apply eqb_eq. Qed.

Lemma eqb_refl {A} {E : EqB A} (x : A) : eqb x x = true.
Proof. now apply eqb_eq. Qed.

Lemma eqb_neq {A} {E : EqB A} (x y : A) : eqb x y = false <-> x <> y.
Proof.
  destruct (eqb_spec x y); split; congruence.
Qed.

Lemma eq_dec_of {A} {E : EqB A} (x y : A) : {x = y} + {x <> y}.
Proof. destruct (eqb_spec x y); [now left | now right]. Defined.

Lemma leb_refl {A} {O : Ord A} (x : A) : leb x x = true.
Proof. destruct (leb_total x x); auto. Qed.

#[export] Instance EqB_nat : EqB nat :=
  {| eqb := Nat.eqb; eqb_eq := Nat.eqb_eq |}.
#[export] Instance EqB_Z : EqB Z :=
  {| eqb := Z.eqb; eqb_eq := Z.eqb_eq |}.
#[export] Instance EqB_bool : EqB bool :=
  {| eqb := Bool.eqb; eqb_eq := Bool.eqb_true_iff |}.
#[export] Instance EqB_string : EqB string :=
  {| eqb := String.eqb; eqb_eq := String.eqb_eq |}.

Definition pair_eqb {A B} {EA : EqB A} {EB : EqB B} (p q : A * B) : bool :=
  eqb (fst p) (fst q) && eqb (snd p) (snd q).
Lemma pair_eqb_eq {A B} {EA : EqB A} {EB : EqB B} (p q : A * B) :
  pair_eqb p q = true <-> p = q.
Proof.
  destruct p as [a b], q as [c d]. unfold pair_eqb. simpl.
  rewrite andb_true_iff, !eqb_eq. split; [intros [-> ->]|intros [= -> ->]]; auto.
Qed.
#[export] Instance EqB_pair {A B} {EA : EqB A} {EB : EqB B} : EqB (A * B) :=
  {| eqb := pair_eqb; eqb_eq := pair_eqb_eq |}.

Definition option_eqb {A} {EA : EqB A} (p q : option A) : bool :=
  match p, q with
  | Some a, Some b => eqb a b
  | None, None => true
  | _, _ => false
  end.
Lemma option_eqb_eq {A} {EA : EqB A} (p q : option A) :
  option_eqb p q = true <-> p = q.
Proof.
  destruct p, q; simpl; try rewrite eqb_eq; split; congruence.
Qed.
#[export] Instance EqB_option {A} {EA : EqB A} : EqB (option A) :=
  {| eqb := option_eqb; eqb_eq := option_eqb_eq |}.

#[export] Program Instance Ord_nat : Ord nat := {| leb := Nat.leb |}.
Next Obligation. rewrite !Nat.leb_le. lia. Qed.
Next Obligation. rewrite !Nat.leb_le in *. lia. Qed.
Next Obligation. rewrite !Nat.leb_le in *. lia. Qed.

#[export] Program Instance Ord_Z : Ord Z := {| leb := Z.leb |}.
Next Obligation. rewrite !Z.leb_le. lia. Qed.
Next Obligation. rewrite !Z.leb_le in *. lia. Qed.
Next Obligation. rewrite !Z.leb_le in *. lia. Qed.

(** Tuples compare lexicographically, as in Python. *)
Definition pair_leb {A B} {EA : EqB A} {OA : Ord A} {OB : Ord B} (p q : A * B) : bool :=
  if eqb (fst p) (fst q) then leb (snd p) (snd q) else leb (fst p) (fst q).
#[export] Program Instance Ord_pair {A B} {EA : EqB A} {OA : Ord A} {OB : Ord B}
  : Ord (A * B) := {| leb := pair_leb |}.
Next Obligation.
  unfold pair_leb; simpl.
  destruct (eqb_spec a0 a), (eqb_spec a a0); try congruence;
    subst; apply leb_total.
Qed.
Next Obligation.
  unfold pair_leb in *; simpl in *.
  destruct (eqb_spec a0 a), (eqb_spec a a0); try congruence; subst.
  - f_equal. now apply leb_antisym.
  - exfalso. apply n. now apply leb_antisym.
Qed.
Next Obligation.
  unfold pair_leb in *; simpl in *.
  destruct (eqb_spec a1 a0), (eqb_spec a0 a), (eqb_spec a1 a); subst; try congruence.
  - eapply leb_trans; eauto.
  - exfalso. apply n. now apply leb_antisym.
  - eapply leb_trans; eauto.
Qed.

(** ** Sets as duplicate-free lists *)

Section Sets.
  Context {A : Type} {E : EqB A}.

  Definition mem (x : A) (l : list A) : bool := existsb (eqb x) l.
  Definition sadd (x : A) (s : list A) : list A := if mem x s then s else s ++ [x].
  Definition sunion (s t : list A) : list A := fold_left (fun acc x => sadd x acc) t s.
  Definition sdiff (s t : list A) : list A := filter (fun x => negb (mem x t)) s.
  Definition sinter (s t : list A) : list A := filter (fun x => mem x t) s.
  Definition set_of (l : list A) : list A := sunion [] l.
  Definition subsetb (s t : list A) : bool := forallb (fun x => mem x t) s.
  Definition seteqb (s t : list A) : bool := subsetb s t && subsetb t s.

  Lemma mem_In x l : mem x l = true <-> In x l.
  Proof.
    unfold mem. rewrite existsb_exists. split.
    - intros (y & Hy & E1). apply eqb_true in E1. now subst.
    - intro H. exists x. split; auto. apply eqb_refl.
  Qed.

  Lemma mem_notIn x l : mem x l = false <-> ~ In x l.
  Proof. rewrite <- mem_In. destruct (mem x l); split; congruence. Qed.

  Lemma mem_spec x l : reflect (In x l) (mem x l).
  Proof.
    destruct (mem x l) eqn:H; constructor.
    - now apply mem_In.
    - now apply mem_notIn.
  Qed.

  Lemma In_dec_of (x : A) l : {In x l} + {~ In x l}.
  Proof. destruct (mem_spec x l); [now left | now right]. Defined.

  Lemma In_sadd x y s : In x (sadd y s) <-> x = y \/ In x s.
  Proof.
    unfold sadd. destruct (mem_spec y s) as [i|i].
    - split; [auto|]. intros [-> |]; auto.
    - rewrite in_app_iff. simpl. split.
      + intros [|[|[]]]; auto.
      + intros [|]; auto.
  Qed.

  Lemma NoDup_app_single (s : list A) x : NoDup s -> ~ In x s -> NoDup (s ++ [x]).
  Proof.
    intros ND NI. induction s as [|a s IH]; simpl.
    - constructor; auto.
    - inversion ND; subst. constructor.
      + rewrite in_app_iff. simpl. intros [H|[H|[]]]; auto. subst. apply NI. now left.
      + apply IH; auto. intro. apply NI. now right.
  Qed.

  Lemma NoDup_sadd x s : NoDup s -> NoDup (sadd x s).
  Proof.
    unfold sadd. destruct (mem_spec x s); auto. intros. now apply NoDup_app_single.
  Qed.

  Lemma In_sunion x t : forall s, In x (sunion s t) <-> In x s \/ In x t.
  Proof.
    unfold sunion. induction t as [|a t IH]; simpl; intro s.
    - tauto.
    - rewrite IH, In_sadd. intuition congruence.
  Qed.

  Lemma NoDup_sunion t : forall s, NoDup s -> NoDup (sunion s t).
  Proof.
    unfold sunion. induction t as [|a t IH]; simpl; intros s H; auto.
    apply IH. now apply NoDup_sadd.
  Qed.

  Lemma In_set_of x l : In x (set_of l) <-> In x l.
  Proof. unfold set_of. rewrite In_sunion. simpl. tauto. Qed.

  Lemma NoDup_set_of l : NoDup (set_of l).
  Proof. apply NoDup_sunion. constructor. Qed.

  Lemma In_sdiff x s t : In x (sdiff s t) <-> In x s /\ ~ In x t.
  Proof.
    unfold sdiff. rewrite filter_In, negb_true_iff, mem_notIn. tauto.
  Qed.

  Lemma NoDup_sdiff s t : NoDup s -> NoDup (sdiff s t).
  Proof. apply NoDup_filter. Qed.

  Lemma In_sinter x s t : In x (sinter s t) <-> In x s /\ In x t.
  Proof. unfold sinter. now rewrite filter_In, mem_In. Qed.

  Lemma NoDup_sinter s t : NoDup s -> NoDup (sinter s t).
  Proof. apply NoDup_filter. Qed.

  Lemma subsetb_spec s t : subsetb s t = true <-> incl s t.
  Proof.
    unfold subsetb. rewrite forallb_forall. unfold incl.
    split; intros H x Hx; apply mem_In; auto.
  Qed.

  Lemma seteqb_spec s t : seteqb s t = true <-> (forall x, In x s <-> In x t).
  Proof.
    unfold seteqb. rewrite andb_true_iff, !subsetb_spec. unfold incl. firstorder.
  Qed.

  Lemma set_of_NoDup_id l : NoDup l -> set_of l = l.
  Proof.
    unfold set_of, sunion.
    assert (forall t s, NoDup (s ++ t) ->
              fold_left (fun acc x => sadd x acc) t s = s ++ t) as H.
    { induction t as [|a t IH]; simpl; intros s H.
      - now rewrite app_nil_r.
      - unfold sadd at 2. destruct (mem_spec a s) as [i|i].
        + exfalso. apply NoDup_remove_2 in H. apply H. apply in_or_app. now left.
        + rewrite IH; rewrite <- app_assoc; auto. }
    intro ND. now apply (H l []).
  Qed.
End Sets.

(** ** Dictionaries *)

Section Dict.
  Context {K V : Type} {E : EqB K}.
  Definition dict := list (K * V).

  Fixpoint dget (d : dict) (k : K) : option V :=
    match d with
    | [] => None
    | (k', v) :: r => if eqb k k' then Some v else dget r k
    end.

  (** [d[k] = v]: overwrite in place, or append. *)
  Fixpoint dset (d : dict) (k : K) (v : V) : dict :=
    match d with
    | [] => [(k, v)]
    | (k', v') :: r => if eqb k k' then (k', v) :: r else (k', v') :: dset r k v
    end.

  Definition dkeys (d : dict) : list K := map fst d.
  Definition dvals (d : dict) : list V := map snd d.
  Definition dmem (d : dict) (k : K) : bool :=
    match dget d k with Some _ => true | None => false end.
  Definition dget_or (dflt : V) (d : dict) (k : K) : V :=
    match dget d k with Some v => v | None => dflt end.
  (** [d.update(e)] *)
  Definition dupdate (d e : dict) : dict :=
    fold_left (fun acc kv => dset acc (fst kv) (snd kv)) e d.

  Lemma dget_dset_eq d k v : dget (dset d k v) k = Some v.
  Proof.
    induction d as [|[k' v'] d IH]; simpl.
    - now rewrite eqb_refl.
    - destruct (eqb_spec k k'); simpl.
      + subst. now rewrite eqb_refl.
      + destruct (eqb_spec k k'); congruence.
  Qed.

  Lemma dget_dset_neq d k k' v : k <> k' -> dget (dset d k v) k' = dget d k'.
  Proof.
    intro N. induction d as [|[k1 v1] d IH]; simpl.
    - destruct (eqb_spec k' k); congruence.
    - destruct (eqb_spec k k1); simpl; destruct (eqb_spec k' k1); congruence.
  Qed.

  Lemma dget_dset d k v k' :
    dget (dset d k v) k' = if eqb k' k then Some v else dget d k'.
  Proof.
    destruct (eqb_spec k' k).
    - subst. apply dget_dset_eq.
    - apply dget_dset_neq. congruence.
  Qed.

  Lemma dget_In d k v : dget d k = Some v -> In (k, v) d.
  Proof.
    induction d as [|[k' v'] d IH]; simpl; [congruence|].
    destruct (eqb_spec k k'); [intros [= ->]; left; congruence|auto].
  Qed.

  Lemma In_dget d k v : NoDup (dkeys d) -> In (k, v) d -> dget d k = Some v.
  Proof.
    induction d as [|[k' v'] d IH]; simpl; [tauto|].
    intros ND [H|H]; inversion ND; subst.
    - injection H as -> ->. now rewrite eqb_refl.
    - destruct (eqb_spec k k').
      + subst. exfalso. apply H2. change k' with (fst (k', v)). now apply in_map.
      + auto.
  Qed.

  Lemma dget_iff d k v : NoDup (dkeys d) -> dget d k = Some v <-> In (k, v) d.
  Proof. split; [apply dget_In | now apply In_dget]. Qed.

  Lemma dget_None d k : dget d k = None <-> ~ In k (dkeys d).
  Proof.
    induction d as [|[k' v'] d IH]; simpl; [tauto|].
    destruct (eqb_spec k k').
    - subst. split; [congruence | intro H; exfalso; apply H; now left].
    - rewrite IH. intuition congruence.
  Qed.

  Lemma dget_Some_key d k v : dget d k = Some v -> In k (dkeys d).
  Proof. intro H. apply dget_In in H. now apply (in_map fst) in H. Qed.

  Lemma dget_key d k : In k (dkeys d) <-> exists v, dget d k = Some v.
  Proof.
    split.
    - intro H. destruct (dget d k) eqn:E1; eauto. apply dget_None in E1. tauto.
    - intros [v H]. eapply dget_Some_key; eauto.
  Qed.

  Lemma dmem_In d k : dmem d k = true <-> In k (dkeys d).
  Proof.
    unfold dmem. rewrite dget_key. destruct (dget d k); split; eauto; try congruence.
    intros [v H]; congruence.
  Qed.

  Lemma In_dkeys_dset d k v x : In x (dkeys (dset d k v)) <-> x = k \/ In x (dkeys d).
  Proof.
    rewrite !dget_key. rewrite dget_dset. destruct (eqb_spec x k).
    - subst. split; [now left | intros _; eauto].
    - intuition.
  Qed.

  Lemma dkeys_dset_mem d k v : In k (dkeys d) -> dkeys (dset d k v) = dkeys d.
  Proof.
    induction d as [|[k' v'] d IH]; simpl; [tauto|].
    intro H. destruct (eqb_spec k k'); simpl; auto. f_equal. apply IH. intuition congruence.
  Qed.

  Lemma dkeys_dset_new d k v : ~ In k (dkeys d) -> dkeys (dset d k v) = dkeys d ++ [k].
  Proof.
    induction d as [|[k' v'] d IH]; simpl; auto.
    intro H. destruct (eqb_spec k k'); simpl.
    - subst. tauto.
    - f_equal. apply IH. tauto.
  Qed.

  Lemma dset_new d k v : ~ In k (dkeys d) -> dset d k v = d ++ [(k, v)].
  Proof.
    induction d as [|[k' v'] d IH]; simpl; auto.
    intro H. destruct (eqb_spec k k'); simpl.
    - subst. tauto.
    - f_equal. apply IH. tauto.
  Qed.

  Lemma NoDup_dset d k v : NoDup (dkeys d) -> NoDup (dkeys (dset d k v)).
  Proof.
    intro ND. destruct (In_dec_of k (dkeys d)) as [H|H].
    - now rewrite dkeys_dset_mem.
    - rewrite dkeys_dset_new by auto. now apply NoDup_app_single.
  Qed.

  Lemma NoDup_dupdate e : forall d, NoDup (dkeys d) -> NoDup (dkeys (dupdate d e)).
  Proof.
    unfold dupdate. induction e as [|[k v] e IH]; simpl; auto.
    intros d H. apply IH. now apply NoDup_dset.
  Qed.

  Lemma dget_dupdate e : forall d k, NoDup (dkeys e) ->
    dget (dupdate d e) k = match dget e k with Some v => Some v | None => dget d k end.
  Proof.
    unfold dupdate. induction e as [|[k' v'] e IH]; simpl; auto.
    intros d k ND. inversion ND; subst. rewrite IH by auto. rewrite dget_dset.
    destruct (eqb_spec k k'); auto. subst.
    destruct (dget e k') eqn:E1; auto. apply dget_Some_key in E1. tauto.
  Qed.
End Dict.
Arguments dict : clear implicits.

(** [dict.copy()] and comprehension over values keep keys. *)
Definition dmap {K V W} (f : K -> V -> W) (d : dict K V) : dict K W :=
  map (fun kv => (fst kv, f (fst kv) (snd kv))) d.

Lemma dkeys_dmap {K V W} (f : K -> V -> W) d : dkeys (dmap f d) = dkeys d.
Proof. unfold dmap, dkeys. rewrite map_map. reflexivity. Qed.

Lemma dget_dmap {K V W} {E : EqB K} (f : K -> V -> W) d k :
  dget (dmap f d) k = option_map (f k) (dget d k).
Proof.
  induction d as [|[k' v] d IH]; simpl; auto.
  destruct (eqb_spec k k'); subst; auto.
Qed.

(** ** mapM / foldM facts *)

Lemma mapM_Ok {A B} (f : A -> res B) l ys :
  mapM f l = Ok ys -> Forall2 (fun x y => f x = Ok y) l ys.
Proof.
  revert ys. induction l as [|x l IH]; simpl; intros ys H.
  - injection H as <-. constructor.
  - destruct (f x) eqn:E1; simpl in H; try discriminate.
    destruct (mapM f l) eqn:E2; simpl in H; try discriminate.
    injection H as <-. constructor; auto.
Qed.

Lemma mapM_all_Ok {A B} (f : A -> res B) (g : A -> B) l :
  (forall x, In x l -> f x = Ok (g x)) -> mapM f l = Ok (map g l).
Proof.
  induction l as [|x l IH]; simpl; intro H; auto.
  rewrite H by auto. simpl. rewrite IH by auto. reflexivity.
Qed.

Lemma bind_Ok {A B} (r : res A) (f : A -> res B) b :
  bind r f = Ok b -> exists a, r = Ok a /\ f a = Ok b.
Proof. destruct r; simpl; intro H; try discriminate. eauto. Qed.

Ltac inv_bind H :=
  let a := fresh "a" in let H1 := fresh H in
  apply bind_Ok in H; destruct H as (a & H1 & H).
