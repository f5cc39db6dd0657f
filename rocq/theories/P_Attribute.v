(** What attributes of a plan give (C111). *)
From Coq Require Import String List Bool Arith Lia.
From Verif Require Import Base M_Attribute.
Import ListNotations.
Local Open Scope string_scope.
Local Open Scope list_scope.

Section AttributeP.
  Context (V : Type) (parts_of : V -> V) (call : nat -> nat -> res V) (inherited : list string).
  Notation getattr := (getattr V parts_of call inherited).
  Notation getitem := (getitem V parts_of call inherited).
  Notation hasattr := (hasattr V parts_of call inherited).
  Notation getattr_default := (getattr_default V parts_of call inherited).

  (** The names that are not left to the updaters *)
  Definition reserved (o : pobj V) (name : string) : Prop :=
    In name (["_cache"; "updaters"; "parts"] ++ plain_slots ++ class_names inherited ++ dkeys (ob_dict V o)).
  (** A finished plan with updaters [us] and cached values [c] *)
  Definition ready (o : pobj V) (us : dict string nat) (c : dict string V) : Prop := ob_updaters V o = Some us /\ ob_cache V o = Some c.

  Lemma free_split o name : ~ reserved o name ->
    eqb name "_cache" = false /\ eqb name "updaters" = false /\ mem name plain_slots = false /\ eqb name "parts" = false /\ dget (ob_dict V o) name = None /\ mem name (class_names inherited) = false.
  Proof.
    unfold reserved. rewrite !in_app_iff. intros H.
    assert (forall s, s <> name -> eqb name s = false) as F by (intros s n; destruct (eqb_spec name s); congruence).
    repeat split.
    - apply F. intros E. apply H. left. rewrite E. cbn. tauto.
    - apply F. intros E. apply H. left. rewrite E. cbn. tauto.
    - apply mem_notIn. tauto.
    - apply F. intros E. apply H. left. rewrite E. cbn. tauto.
    - apply dget_None. tauto.
    - apply mem_notIn. tauto.
  Qed.
  Lemma attr_cache n o us c : ready o us c -> getattr (S n) o "_cache" = (Ok (SCache V), o).
  Proof. intros [U C]. unfold M_Attribute.getattr. cbn [access]. rewrite eqb_refl, C. reflexivity. Qed.
  Lemma attr_updaters n o us c : ready o us c -> getattr (S n) o "updaters" = (Ok (SUpdaters V), o).
  Proof. intros [U C]. unfold M_Attribute.getattr. cbn [access]. change (eqb "updaters" "_cache") with false. cbn iota. rewrite eqb_refl, U. reflexivity. Qed.

  (** What [p[name]] gives on a finished plan *)
  Lemma item_ready n o us c name : ready o us c ->
    getitem (S (S n)) o name =
    match dget c name with
    | Some v => (Ok (SVal V v), o)
    | None => match dget us name with
              | Some u => match call u (ob_calls V o) with
                          | Ok v => (Ok (SVal V v), mkObj V (ob_slots V o) (Some us) (Some (dset c name v)) (ob_dict V o) (S (ob_calls V o)))
                          | Err e => (Err e, mkObj V (ob_slots V o) (Some us) (Some c) (ob_dict V o) (S (ob_calls V o)))
                          | NoFuel => (NoFuel, o)
                          end
              | None => (Err KeyError, o)
              end
    end.
  Proof.
    intros R. pose proof R as [U C]. unfold M_Attribute.getitem. remember (S n) as m. cbn [access]. subst m.
    pose proof (attr_cache n o us c R) as E1. unfold M_Attribute.getattr in E1. rewrite E1, C. clear E1.
    destruct (dget c name); auto. pose proof (attr_updaters n o us c R) as E2. unfold M_Attribute.getattr in E2. rewrite E2, U.
    destruct (dget us name); auto. destruct (call _ _); rewrite ?U, ?C; auto.
  Qed.

  (** C111: on a finished plan, a name that is not reserved gives as attribute
      what it gives as item, with the same effect on the plan. *)
  Theorem C111_attribute_is_item n o us c name : ready o us c -> ~ reserved o name ->
    getattr (S (S (S n))) o name = getitem (S (S n)) o name.
  Proof.
    intros R F. destruct (free_split o name F) as (f1 & f2 & f3 & f4 & f5 & f6). unfold M_Attribute.getattr at 1, M_Attribute.getitem.
    remember (S (S n)) as m. cbn [access]. rewrite f1, f2, f3, f4, f5, f6. reflexivity.
  Qed.

  (** C111: the item is the cached value if there is one; otherwise the updater
      of that name is called once, and if it gives a value that value is what
      this and every later read give, as item and as attribute. *)
  Theorem C111_item n o us c name u v : ready o us c -> dget c name = None -> dget us name = Some u -> call u (ob_calls V o) = Ok v ->
    exists o', getitem (S (S n)) o name = (Ok (SVal V v), o') /\ ready o' us (dset c name v) /\ ob_calls V o' = S (ob_calls V o) /\
      (forall m, getitem (S (S m)) o' name = (Ok (SVal V v), o')) /\
      (forall m, ~ reserved o name -> getattr (S (S (S m))) o' name = (Ok (SVal V v), o')).
  Proof.
    intros R C U E. rewrite (item_ready n o us c name R), C, U, E. eexists. split; [reflexivity|]. set (o' := mkObj V _ _ _ _ _).
    assert (ready o' us (dset c name v)) as R' by (split; reflexivity). split; auto. split; auto.
    assert (forall m, getitem (S (S m)) o' name = (Ok (SVal V v), o')) as I by (intros m; rewrite (item_ready m o' us _ name R'), dget_dset_eq; reflexivity).
    split; auto. intros m F. rewrite (C111_attribute_is_item m o' us _ name R' F). apply I.
  Qed.

  (** C111: a name that is neither reserved nor an updater raises KeyError, as
      item and as attribute, so hasattr, and getattr with a default, raise
      KeyError too.  Python's copy.deepcopy asks for __deepcopy__ in this way. *)
  Theorem C111_missing n o us c name d : ready o us c -> ~ reserved o name -> dget c name = None -> dget us name = None ->
    getitem (S (S (S n))) o name = (Err KeyError, o) /\ getattr (S (S (S n))) o name = (Err KeyError, o) /\
    hasattr (S (S (S n))) o name = Err KeyError /\ getattr_default (S (S (S n))) o name d = Err KeyError.
  Proof.
    intros R F C U. assert (forall m, getitem (S (S m)) o name = (Err KeyError, o)) as I by (intros m; rewrite (item_ready m o us c name R), C, U; reflexivity).
    assert (getattr (S (S (S n))) o name = (Err KeyError, o)) as A by (rewrite (C111_attribute_is_item n o us c name R F); apply I).
    repeat split; auto; unfold M_Attribute.hasattr, M_Attribute.getattr_default; rewrite A; reflexivity.
  Qed.

  (** C111: an updater with the name of a slot that is set, or of a method, is
      reached as item only: the attribute is the slot or the method, whatever
      the updaters are. *)
  Theorem C111_shadowed n o name v :
    (In name plain_slots -> dget (ob_slots V o) name = Some v -> getattr (S n) o name = (Ok (SVal V v), o)) /\
    (In name (class_names inherited) -> ~ In name (["_cache"; "updaters"; "parts"] ++ plain_slots) -> dget (ob_dict V o) name = None -> getattr (S n) o name = (Ok (SClass V name), o)) /\
    (dget (ob_slots V o) "assignment" = Some v -> getattr (S (S n)) o "parts" = (Ok (SVal V (parts_of v)), o)).
  Proof.
    assert (forall m w, In name plain_slots -> dget (ob_slots V o) name = Some w -> getattr (S m) o name = (Ok (SVal V w), o)) as A.
    { intros m w I G. unfold M_Attribute.getattr. cbn [access].
      assert (eqb name "_cache" = false /\ eqb name "updaters" = false) as [-> ->] by (cbn in I; intuition; subst; split; reflexivity).
      rewrite (proj2 (mem_In name plain_slots) I), G. reflexivity. }
    split; [apply A|]. split.
    - intros I nI G. unfold M_Attribute.getattr. cbn [access]. rewrite in_app_iff in nI. assert (forall s, In s ["_cache"; "updaters"; "parts"] -> eqb name s = false) as F by (intros s Is; destruct (eqb_spec name s); [subst; tauto|reflexivity]).
      rewrite !F by (cbn; tauto). rewrite (proj2 (mem_notIn name plain_slots)) by tauto. rewrite G. rewrite (proj2 (mem_In name (class_names inherited)) I). reflexivity.
    - intros G. unfold M_Attribute.getattr. remember (S n) as m. cbn [access]. change (eqb "parts" "_cache") with false. change (eqb "parts" "updaters") with false. change (mem "parts" plain_slots) with false. cbn iota. rewrite eqb_refl.
      subst m. cbn [access]. change (eqb "assignment" "_cache") with false. change (eqb "assignment" "updaters") with false. change (mem "assignment" plain_slots) with true. cbn iota. rewrite G. reflexivity.
  Qed.

  (** C111: on an object whose cache is not set yet, such as the one that copy
      and pickle create first, every name that the class does not define is
      looked for without end; so is every slot that is not set. *)
  Theorem C111_blank_diverges o name fuel : ob_cache V o = None ->
    (~ reserved o name \/ name = "_cache" \/ (In name plain_slots /\ dget (ob_slots V o) name = None)) ->
    fst (getattr fuel o name) = NoFuel /\ fst (getitem fuel o name) = NoFuel /\ hasattr fuel o name = NoFuel.
  Proof.
    intros C H.
    assert (forall fuel, fst (access V parts_of call inherited fuel false o "_cache") = NoFuel /\ snd (access V parts_of call inherited fuel false o "_cache") = o /\
                         forall nm, fst (access V parts_of call inherited fuel true o nm) = NoFuel /\ snd (access V parts_of call inherited fuel true o nm) = o) as D.
    { induction fuel0 as [|k (I1 & I2 & I3)]; [cbn; auto|]. cbn [access]. rewrite eqb_refl, C.
      split; [apply I3|]. split; [apply I3|]. intros nm. destruct (access V parts_of call inherited k false o "_cache") as [[x|e|] o1]; cbn in *; try discriminate. auto. }
    assert (fst (getattr fuel o name) = NoFuel) as A.
    { destruct fuel as [|k]; auto. destruct H as [F|[->|[I G]]].
      - destruct (free_split o name F) as (f1 & f2 & f3 & f4 & f5 & f6). unfold M_Attribute.getattr. cbn [access]. rewrite f1, f2, f3, f4, f5, f6. apply D.
      - apply D.
      - unfold M_Attribute.getattr. cbn [access]. assert (eqb name "_cache" = false /\ eqb name "updaters" = false) as [-> ->] by (cbn in I; intuition; subst; split; reflexivity).
        rewrite (proj2 (mem_In name plain_slots) I), G. apply D. }
    split; auto. split; [apply D|]. unfold M_Attribute.hasattr. now rewrite A.
  Qed.

  (** C111: edge_flows is None on a first plan.  On a plan made by flip it is
      the edge flows if there is an updater cut_edges; otherwise it is what the
      item edge_flows is: KeyError unless an updater has that name. *)
  Theorem C111_edge_flows n none graph assignment subgraphs us o parent flips flows ef :
    getattr (S n) (first_plan V none graph assignment subgraphs us) "edge_flows" = (Ok (SVal V none), first_plan V none graph assignment subgraphs us) /\
    let p := flipped_plan V o parent flips flows ef graph assignment subgraphs us in
    (In "cut_edges" (dkeys us) -> getattr (S n) p "edge_flows" = (Ok (SVal V ef), p)) /\
    (~ In "cut_edges" (dkeys us) -> getattr (S n) p "edge_flows" = getitem n p "edge_flows") /\
    (~ In "cut_edges" (dkeys us) -> ~ In "edge_flows" (dkeys us) -> getattr (S (S (S n))) p "edge_flows" = (Err KeyError, p)).
  Proof.
    split; [reflexivity|]. cbn zeta.
    assert (forall m, ~ In "cut_edges" (dkeys us) -> getattr (S m) (flipped_plan V o parent flips flows ef graph assignment subgraphs us) "edge_flows" = getitem m (flipped_plan V o parent flips flows ef graph assignment subgraphs us) "edge_flows") as A.
    { intros m H. unfold flipped_plan. rewrite (proj2 (mem_notIn _ _) H). reflexivity. }
    split; [intros H; unfold flipped_plan; rewrite (proj2 (mem_In _ _) H); reflexivity|]. split; [apply A|].
    intros H1 H2. rewrite (A _ H1), (item_ready n _ us []) by (split; reflexivity). cbn [dget]. rewrite (proj2 (dget_None us _) H2). reflexivity.
  Qed.
End AttributeP.

(** ** Findings and non-vacuity *)
(** Values are numbers; the updaters are population (0), flips (1) and flip (2). *)
Definition ex_call (u k : nat) : res nat := Ok (100 * u + 7 + k).
Definition ex_object_names : list string := ["__class__"; "__reduce_ex__"; "__hash__"; "__eq__"].
Definition ex_plan : pobj nat := first_plan nat 0 1 2 3 [("population", 0); ("flips", 1); ("flip", 2)].
Lemma ex_ready : ready nat ex_plan [("population", 0); ("flips", 1); ("flip", 2)] [].
Proof. split; reflexivity. Qed.
Lemma ex_free : ~ reserved nat ex_object_names ex_plan "population" /\ ~ reserved nat ex_object_names ex_plan "__deepcopy__" /\ ~ reserved nat ex_object_names (blank nat) "__setstate__".
Proof. repeat split; (intros H; cbn in H; repeat (destruct H as [H|H]; [discriminate|]); exact H). Qed.
(** The updater called flips is not the attribute flips, and the updater called
    flip is not the attribute flip. *)
Theorem C111_keys_as_attributes_refuted : exists (o : pobj nat) us, ready nat o us [] /\ In "flips" (dkeys us) /\ In "flip" (dkeys us) /\
  fst (getattr nat S ex_call ex_object_names 3 o "flips") = Ok (SVal nat 0) /\ fst (getitem nat S ex_call ex_object_names 3 o "flips") = Ok (SVal nat 107) /\
  fst (getattr nat S ex_call ex_object_names 3 o "flip") = Ok (SClass nat "flip") /\ fst (getitem nat S ex_call ex_object_names 3 o "flip") = Ok (SVal nat 207).
Proof. exists ex_plan. eexists. split; [exact ex_ready|]. repeat split; cbn; auto. Qed.
(** copy.deepcopy asks every plan for __deepcopy__ with a default, and gets
    KeyError; pickle and copy ask the blank object for __setstate__ with a
    default, and the look-up has no end. *)
Theorem C111_copy_refuted : exists o : pobj nat, (exists us, ready nat o us []) /\
  (forall n d, getattr_default nat S ex_call ex_object_names (S (S (S n))) o "__deepcopy__" d = Err KeyError) /\
  (forall n d, getattr_default nat S ex_call ex_object_names n (blank nat) "__setstate__" d = NoFuel).
Proof.
  exists ex_plan. split; [eexists; exact ex_ready|]. split.
  - intros n d. apply (C111_missing nat S ex_call ex_object_names n ex_plan _ _ "__deepcopy__" d ex_ready); [apply ex_free|reflexivity|reflexivity].
  - intros n d. unfold getattr_default. destruct (C111_blank_diverges nat S ex_call ex_object_names (blank nat) "__setstate__" n) as (E & _); [reflexivity|left; apply ex_free|]. now rewrite E.
Qed.
Example C111_nonvacuous : fst (getattr nat S ex_call ex_object_names 3 ex_plan "population") = Ok (SVal nat 7) /\ fst (getattr nat S ex_call ex_object_names 3 ex_plan "parts") = Ok (SVal nat 3).
Proof. split; reflexivity. Qed.

Print Assumptions C111_attribute_is_item.
Print Assumptions C111_item.
Print Assumptions C111_missing.
Print Assumptions C111_shadowed.
Print Assumptions C111_blank_diverges.
Print Assumptions C111_edge_flows.
Print Assumptions C111_keys_as_attributes_refuted.
Print Assumptions C111_copy_refuted.
