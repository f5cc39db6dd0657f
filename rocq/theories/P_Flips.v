(** C121: a plan keeps the dictionary given to flip, not a copy.  What stays
    right, and for how long, when the caller goes on changing it. *)
From Coq Require Import String List Bool Arith ZArith Permutation Lia.
From Verif Require Import Base M_Graph M_Partition S_Partition L_Partition M_Machine S_Machine
  L_Sums L_Cuts L_Tally L_Updaters L_Machine M_Frozen P_Frozen M_Flips.
Import ListNotations.
Local Open Scope nat_scope.
Local Open Scope string_scope.
Local Open Scope list_scope.

Section Flips.
  Context {N P V L : Type} {EN : EqB N} {EP : EqB P} {EL : EqB L} {ON : Ord N} {RV : CRing V}.
  Variable E : env N P V L.
  Notation g := (e_graph E).
  Notation world := (M_Flips.world N P V).
  Notation plan := (M_Flips.plan N P V).
  Notation cmd := (M_Flips.cmd N P).
  Notation act := (@M_Flips.act N P V).
  Implicit Types (w : world) (p : plan).

  (** ** Specification *)

  (** [s] is the set of cut edges of a plan with assignment [A]. *)
  Definition right_cuts (A : assignment N P) (s : list (N * N)) : Prop :=
    NoDup s /\ forall e, In e s <-> cut_edge g A e.
  (** [d] is the tally of [fields] of a plan with assignment [A]. *)
  Definition right_tally (fields : list string) (A : assignment N P) (d : dict P (num V)) : Prop :=
    NoDup (dkeys d) /\ incl (dkeys d) (labels A) /\
    forall data : string -> N -> V,
      (forall f, In f fields -> data_is g (e_attr E f) (data f)) ->
      tally_ok g A (fun n => vsum (map (fun f => data f n) fields)) d.

  (** The dictionary a command changes. *)
  Definition writes_to (c : cmd) : option nat :=
    match c with Write i _ _ => Some i | Delete i _ => Some i | _ => None end.
  Definition dict_cmd (c : cmd) : Prop := match c with NewDict d => is_dict d | _ => True end.
  Definition is_flip (c : cmd) : bool := match c with Flip _ _ => true | _ => false end.

  (** No command changes a dictionary that a plan was made with. *)
  Fixpoint untouched (cs : list cmd) (w : world) : Prop :=
    match cs with
    | [] => True
    | c :: r => (forall i x p, writes_to c = Some i -> plan_at w x = Some p -> pl_flips p <> Some i) /\
                untouched r (step E w c)
    end.

  (** [w] is where a program stands: it made a plan of [d], then did [cs]. *)
  Definition reached (w : world) : Prop :=
    exists d w0 cs, is_dict d /\ start E d = Ok w0 /\ Forall dict_cmd cs /\ w = perform E cs w0.

  (** ** Basic facts *)

  Lemma plan_at_with x f w y :
    plan_at (with_plan x f w) y = if Nat.eqb y x then option_map f (plan_at w y) else plan_at w y.
  Proof.
    unfold plan_at, with_plan. cbn [w_plans]. rewrite nth_set_nth. destruct (Nat.eqb y x); [|reflexivity].
    destruct (nth_error (w_plans w) y) as [[q|]|]; reflexivity.
  Qed.
  Lemma plan_at_lt w x p : plan_at w x = Some p -> x < List.length (w_plans w).
  Proof. unfold plan_at. intro H. apply nth_error_Some. destruct (nth_error (w_plans w) x); [discriminate|discriminate H]. Qed.
  Lemma plan_at_add q w x : plan_at (add_plan q w) x =
    if Nat.eqb x (List.length (w_plans w)) then q else plan_at w x.
  Proof.
    unfold plan_at, add_plan. cbn [w_plans]. destruct (Nat.eqb_spec x (List.length (w_plans w))) as [->|Hx].
    - rewrite nth_error_app2, Nat.sub_diag by lia. cbn. now destruct q.
    - destruct (lt_dec x (List.length (w_plans w))).
      + now rewrite nth_error_app1.
      + replace (nth_error (w_plans w) x) with (@None (option plan)) by (symmetry; apply nth_error_None; lia).
        rewrite nth_error_app2 by lia. destruct (x - List.length (w_plans w)) as [|[|k]] eqn:Ek; [lia|reflexivity|reflexivity].
  Qed.

  (** What a read may change: caches, and the values kept by plans up to [b]. *)
  Definition extends_plan (p p' : plan) : Prop :=
    pl_assign p' = pl_assign p /\ pl_parent p' = pl_parent p /\ pl_flips p' = pl_flips p /\
    (forall s, pl_cuts p = Some s -> pl_cuts p' = Some s) /\
    (forall k d, dget (pl_tallies p) k = Some d -> dget (pl_tallies p') k = Some d).
  Definition reads (b : nat) w w' : Prop :=
    w_dicts w' = w_dicts w /\ List.length (w_plans w') = List.length (w_plans w) /\
    (forall y, b <= y -> plan_at w' y = plan_at w y) /\
    (forall y, match plan_at w y, plan_at w' y with
               | Some p, Some p' => extends_plan p p'
               | None, None => True
               | _, _ => False
               end).
  Lemma extends_refl p : extends_plan p p.
  Proof. repeat split; auto. Qed.
  Lemma extends_trans p p' p'' : extends_plan p p' -> extends_plan p' p'' -> extends_plan p p''.
  Proof. intros (A1 & A2 & A3 & A4 & A5) (B1 & B2 & B3 & B4 & B5). repeat split; try congruence; eauto. Qed.
  Lemma reads_refl b w : reads b w w.
  Proof. repeat split; auto. intro y. destruct (plan_at w y); auto using extends_refl. Qed.
  Lemma reads_trans b w w' w'' : reads b w w' -> reads b w' w'' -> reads b w w''.
  Proof.
    intros (A1 & A2 & A3 & A4) (B1 & B2 & B3 & B4). split; [congruence|]. split; [congruence|]. split.
    - intros y Hy. rewrite B3, A3; auto.
    - intro y. specialize (A4 y). specialize (B4 y). destruct (plan_at w y), (plan_at w' y), (plan_at w'' y); try tauto.
      eapply extends_trans; eassumption.
  Qed.
  Lemma reads_weaken b b' w w' : b <= b' -> reads b w w' -> reads b' w w'.
  Proof. intros Hb (A1 & A2 & A3 & A4). repeat split; auto. intros y Hy. apply A3. lia. Qed.
  Lemma reads_plan b w w' x p : reads b w w' -> plan_at w x = Some p -> exists p', plan_at w' x = Some p' /\ extends_plan p p'.
  Proof. intros (_ & _ & _ & A) Hx. specialize (A x). rewrite Hx in A. destruct (plan_at w' x) as [p'|]; [|contradiction]. eauto. Qed.
  Lemma reads_back b w w' x p' : reads b w w' -> plan_at w' x = Some p' -> exists p, plan_at w x = Some p /\ extends_plan p p'.
  Proof. intros (_ & _ & _ & A) Hx. specialize (A x). rewrite Hx in A. destruct (plan_at w x) as [p|]; [|contradiction]. eauto. Qed.

  Lemma nf_call_reads b x i w : reads b w (snd (nf_call E x i w)).
  Proof. unfold nf_call. destruct (lru_call 2 x _ (w_nf w)). apply (reads_refl b w). Qed.
  Lemma fc_call_reads b q A x i w : reads b w (snd (fc_call q A x i w)).
  Proof. unfold fc_call. destruct (lru_call 2 (q, x) _ (w_fc w)). apply (reads_refl b w). Qed.

  (** ** The invariant of every session *)
  Record sound w : Prop := {
    s_dicts : Forall is_dict (w_dicts w);
    s_coh : forall x p, plan_at w x = Some p -> coherent (g_nodes g) (pl_assign p);
    s_par : forall x p q, plan_at w x = Some p -> pl_parent p = Some q -> q < x;
    s_nf : forall x es, dget (w_nf w) x = Some es -> x < List.length (w_plans w);
    s_fc : forall q x fl, dget (w_fc w) (q, x) = Some fl -> q < x < List.length (w_plans w) }.

  Lemma sound_reads b w w' : sound w -> reads b w w' ->
    (forall x es, dget (w_nf w') x = Some es -> x < List.length (w_plans w')) ->
    (forall q x fl, dget (w_fc w') (q, x) = Some fl -> q < x < List.length (w_plans w')) -> sound w'.
  Proof.
    intros [S1 S2 S3 _ _] R H4 H5. split; auto.
    - now rewrite (proj1 R).
    - intros x p' Hx. destruct (reads_back _ _ _ _ _ R Hx) as (p & Hp & (-> & _)). eauto.
    - intros x p' q Hx Hq. destruct (reads_back _ _ _ _ _ R Hx) as (p & Hp & (_ & Ep & _)). apply (S3 x p q Hp). congruence.
  Qed.

  Lemma nf_call_sound x i w : sound w -> x < List.length (w_plans w) -> sound (snd (nf_call E x i w)).
  Proof.
    intros S Hx. apply (sound_reads 0 w _ S (nf_call_reads 0 x i w)); unfold nf_call;
      match goal with |- context [lru_call 2 x ?c (w_nf w)] => pose proof (lru_good 2 x c (w_nf w) (fun k _ => k < List.length (w_plans w)) (s_nf w S) (fun _ _ => Hx)) as [_ G]; destruct (lru_call 2 x c (w_nf w)) as [r cc] end; cbn in *.
    - exact G.
    - exact (s_fc w S).
  Qed.
  Lemma fc_call_sound q A x i w : sound w -> q < x < List.length (w_plans w) -> sound (snd (fc_call q A x i w)).
  Proof.
    intros S Hx. apply (sound_reads 0 w _ S (fc_call_reads 0 q A x i w)); unfold fc_call;
      match goal with |- context [lru_call 2 (q, x) ?c (w_fc w)] => pose proof (lru_good 2 (q, x) c (w_fc w) (fun k _ => fst k < snd k < List.length (w_plans w)) (fun k v Hk => match k return dget (w_fc w) k = Some v -> fst k < snd k < _ with (q', x') => s_fc w S q' x' v end Hk) (fun _ _ => Hx)) as [_ G]; destruct (lru_call 2 (q, x) c (w_fc w)) as [r cc] end; cbn in *.
    - exact (s_nf w S).
    - intros q' x' fl D. exact (G (q', x') fl D).
  Qed.

  (** Running [m] from a sound world with more than [l] plans leaves a sound world
      and changes only what a read may change. *)
  Definition tame {A} (b l : nat) (m : act A) : Prop :=
    forall w, l < List.length (w_plans w) -> sound w -> sound (snd (m w)) /\ reads b w (snd (m w)).
  Lemma tame_just {A} b l (r : res A) : tame b l (just r).
  Proof. intros w _ S. split; [exact S|apply reads_refl]. Qed.
  Lemma tame_done {A} b l (x : A) : tame b l (done x).
  Proof. intros w _ S. split; [exact S|apply reads_refl]. Qed.
  Lemma tame_then {A B} b l (m : act A) (f : A -> act B) : tame b l m -> (forall x, tame b l (f x)) -> tame b l (andthen m f).
  Proof.
    intros Hm Hf w Hb S. unfold andthen. destruct (Hm w Hb S) as [S1 R1]. destruct (m w) as [[x|e|] w']; cbn [snd] in *; try (split; assumption).
    destruct (Hf x w') as [S2 R2]; [rewrite (proj1 (proj2 R1)); exact Hb|exact S1|]. split; [exact S2|exact (reads_trans _ _ _ _ R1 R2)].
  Qed.
  Lemma tame_plan b l x : tame b l (the_plan (N := N) (P := P) (V := V) x).
  Proof. intros w _ S. split; [exact S|apply reads_refl]. Qed.
  Lemma tame_nf b x i : tame b x (nf_call E x i).
  Proof. intros w Hb S. split; [apply nf_call_sound; [exact S|lia]|apply nf_call_reads]. Qed.
  Lemma tame_fc b q A x i : q < x -> tame b x (fc_call q A x i).
  Proof. intros Hq w Hb S. split; [apply fc_call_sound; [exact S|lia]|apply fc_call_reads]. Qed.

  Lemma reads_store x f w p : plan_at w x = Some p -> extends_plan p (f p) -> reads (S x) w (with_plan x f w).
  Proof.
    intros Hx He. split; [reflexivity|]. split; [unfold with_plan; cbn [w_plans]; apply length_set_nth|]. split.
    - intros y Hy. rewrite plan_at_with. destruct (Nat.eqb_spec y x); [lia|reflexivity].
    - intro y. rewrite plan_at_with. destruct (Nat.eqb_spec y x) as [->|].
      + rewrite Hx. exact He.
      + destruct (plan_at w y); auto using extends_refl.
  Qed.
  Lemma store_sound x f w p : plan_at w x = Some p -> extends_plan p (f p) -> sound w -> sound (with_plan x f w).
  Proof.
    intros Hx He S. apply (sound_reads (Datatypes.S x) w _ S (reads_store x f w p Hx He)); unfold with_plan; cbn [w_nf w_fc w_plans]; rewrite length_set_nth.
    - exact (s_nf w S).
    - exact (s_fc w S).
  Qed.

  (** The value of "cut_edges" before it is kept. *)
  Definition cuts_body (rec : nat -> act (list (N * N))) (x : nat) (p : plan) : act (list (N * N)) :=
    match pl_parent p with
    | None => just (scratch_cut_edges E (pl_assign p))
    | Some q =>
      andthen (the_plan q) (fun po =>
      match a_parts (pl_assign po) with
      | [] => just (scratch_cut_edges E (pl_assign p))
      | _ =>
        andthen (nf_call E x (pl_flips p)) (fun es =>
        andthen (just (new_among (pl_assign p) es)) (fun new =>
        andthen (nf_call E x (pl_flips p)) (fun es' =>
        andthen (just (gone_among (pl_assign po) (pl_assign p) es')) (fun gone =>
        andthen (rec q) (fun prev => done (sdiff (sunion prev new) gone))))))
      end)
    end.
  Lemma read_cuts_eq fuel x w : read_cuts E (S fuel) x w =
    match plan_at w x with
    | None => (Err IndexError, w)
    | Some p =>
      match pl_cuts p with
      | Some s => (Ok s, w)
      | None => andthen (cuts_body (read_cuts E fuel) x p) (fun s w => (Ok s, with_plan x (keep_cuts s) w)) w
      end
    end.
  Proof.
    cbn [read_cuts]. unfold andthen at 1. unfold the_plan at 1. destruct (plan_at w x) as [p|]; cbn [of_option]; [|reflexivity].
    destruct (pl_cuts p) as [s|]; reflexivity.
  Qed.
  Definition tally_body (rec : nat -> string -> act (dict P (num V))) (fields : list string) (alias : string) (x : nat) (p : plan) : act (dict P (num V)) :=
    match pl_parent p with
    | None => just (scratch_tally (pl_assign p) (field_sum E fields))
    | Some q =>
      andthen (the_plan q) (fun po =>
      andthen (rec q alias) (fun old =>
      andthen (fc_call q (pl_assign po) x (pl_flips p)) (fun fl =>
      just (tally_step E fields fl old))))
    end.
  Lemma read_tally_eq fuel x k w : read_tally E (S fuel) x k w =
    match plan_at w x with
    | None => (Err IndexError, w)
    | Some p =>
      match dget (pl_tallies p) k with
      | Some d => (Ok d, w)
      | None =>
        match dget (e_updaters E) k with
        | Some (UTally fields alias) =>
          andthen (tally_body (read_tally E fuel) fields alias x p) (fun d w => (Ok d, with_plan x (keep_tally k d) w)) w
        | _ => (Err KeyError, w)
        end
      end
    end.
  Proof.
    cbn [read_tally]. unfold andthen at 1. unfold the_plan at 1. destruct (plan_at w x) as [p|]; cbn [of_option]; [|reflexivity].
    destruct (dget (pl_tallies p) k) as [s|]; [reflexivity|]. destruct (dget (e_updaters E) k) as [u|]; [|reflexivity]. destruct u; reflexivity.
  Qed.

  Lemma cuts_body_tame rec x p : (forall q, pl_parent p = Some q -> tame x x (rec q)) -> tame x x (cuts_body rec x p).
  Proof.
    intro Hr. unfold cuts_body. destruct (pl_parent p) as [q|]; [|apply tame_just].
    apply tame_then; [apply tame_plan|]. intro po. destruct (a_parts (pl_assign po)); [apply tame_just|].
    apply tame_then; [apply tame_nf|]. intro es. apply tame_then; [apply tame_just|]. intro new.
    apply tame_then; [apply tame_nf|]. intro es'. apply tame_then; [apply tame_just|]. intro gone.
    apply tame_then; [now apply Hr|]. intro prev. apply tame_done.
  Qed.
  Lemma tally_body_tame rec fields alias x p : (forall q, pl_parent p = Some q -> q < x) -> (forall q, pl_parent p = Some q -> tame x x (rec q alias)) -> tame x x (tally_body rec fields alias x p).
  Proof.
    intros Hlt Hr. unfold tally_body. destruct (pl_parent p) as [q|]; [|apply tame_just].
    apply tame_then; [apply tame_plan|]. intro po. apply tame_then; [now apply Hr|]. intro old.
    apply tame_then; [apply tame_fc; now apply Hlt|]. intro fl. apply tame_just.
  Qed.

  Lemma read_cuts_tame fuel : forall x w, sound w ->
    sound (snd (read_cuts E fuel x w)) /\ reads (S x) w (snd (read_cuts E fuel x w)).
  Proof.
    induction fuel as [|fuel IH]; intros x w S; [split; [exact S|apply reads_refl]|].
    rewrite read_cuts_eq. destruct (plan_at w x) as [p|] eqn:Ex; [|split; [exact S|apply reads_refl]].
    destruct (pl_cuts p) as [s|] eqn:Ec; [split; [exact S|apply reads_refl]|].
    destruct (cuts_body_tame (read_cuts E fuel) x p) with (w := w) as [S1 R1]; [|exact (plan_at_lt _ _ _ Ex)|exact S|].
    { intros q Hq v _ Sv. destruct (IH q v Sv) as [Sq Rq]. split; [exact Sq|]. apply (reads_weaken (Datatypes.S q)); [|exact Rq]. exact (s_par w S x p q Ex Hq). }
    unfold andthen. destruct (cuts_body (read_cuts E fuel) x p w) as [[s|e|] w1]; cbn [snd] in *; try (split; [exact S1|apply (reads_weaken x); [lia|exact R1]]).
    assert (Ex1 : plan_at w1 x = Some p). { rewrite <- Ex. apply R1. lia. }
    assert (Hk : extends_plan p (keep_cuts s p)). { repeat split; auto. cbn. intros s' Hs. congruence. }
    split; [exact (store_sound _ _ _ _ Ex1 Hk S1)|]. apply (reads_trans _ _ w1); [apply (reads_weaken x); [lia|exact R1]|exact (reads_store _ _ _ _ Ex1 Hk)].
  Qed.
  Lemma read_tally_tame fuel : forall x k w, sound w ->
    sound (snd (read_tally E fuel x k w)) /\ reads (S x) w (snd (read_tally E fuel x k w)).
  Proof.
    induction fuel as [|fuel IH]; intros x k w S; [split; [exact S|apply reads_refl]|].
    rewrite read_tally_eq. destruct (plan_at w x) as [p|] eqn:Ex; [|split; [exact S|apply reads_refl]].
    destruct (dget (pl_tallies p) k) as [d|] eqn:Ec; [split; [exact S|apply reads_refl]|].
    destruct (dget (e_updaters E) k) as [u|]; [|split; [exact S|apply reads_refl]].
    destruct u as [| |fields alias| | | | | | | | | |]; try (split; [exact S|apply reads_refl]).
    destruct (tally_body_tame (read_tally E fuel) fields alias x p) with (w := w) as [S1 R1]; [intros q Hq; exact (s_par w S x p q Ex Hq)| |exact (plan_at_lt _ _ _ Ex)|exact S|].
    { intros q Hq v _ Sv. destruct (IH q alias v Sv) as [Sq Rq]. split; [exact Sq|]. apply (reads_weaken (Datatypes.S q)); [|exact Rq]. exact (s_par w S x p q Ex Hq). }
    unfold andthen. destruct (tally_body (read_tally E fuel) fields alias x p w) as [[d|e|] w1]; cbn [snd] in *; try (split; [exact S1|apply (reads_weaken x); [lia|exact R1]]).
    assert (Ex1 : plan_at w1 x = Some p). { rewrite <- Ex. apply R1. lia. }
    assert (Hk : extends_plan p (keep_tally k d p)).
    { repeat split; auto. cbn [keep_tally pl_tallies]. intros k' d' Hd. destruct (eqb_spec k' k) as [Ek|Nk]; [congruence|]. rewrite dget_dset_neq; [exact Hd|congruence]. }
    split; [exact (store_sound _ _ _ _ Ex1 Hk S1)|]. apply (reads_trans _ _ w1); [apply (reads_weaken x); [lia|exact R1]|exact (reads_store _ _ _ _ Ex1 Hk)].
  Qed.

  (** ** Flips *)
  Lemma fc_fresh q x w : sound w -> List.length (w_plans w) <= x -> dget (w_fc w) (q, x) = None.
  Proof. intros S Hx. destruct (dget (w_fc w) (q, x)) as [fl|] eqn:D; [|reflexivity]. apply (s_fc w S) in D. lia. Qed.
  Lemma nf_fresh x w : sound w -> List.length (w_plans w) <= x -> dget (w_nf w) x = None.
  Proof. intros S Hx. destruct (dget (w_nf w) x) as [es|] eqn:D; [|reflexivity]. apply (s_nf w S) in D. lia. Qed.

  Definition flip_ok (w : world) (a i : nat) (pa : plan) (d : dict N P) (fl : dict P (flow N)) (A : assignment N P) (w' : world) : Prop :=
    let x := List.length (w_plans w) in
    plan_at w a = Some pa /\ nth_error (w_dicts w) i = Some d /\
    flows_from_changes (a_map (pl_assign pa)) d = Ok fl /\ update_flows (pl_assign pa) fl = Ok A /\
    flip E a i w = (Ok x, w') /\
    w' = mkWorld (w_dicts w) (w_plans w ++ [Some (mkPlan A (Some a) (Some i) None [])])
           (if dmem (e_updaters E) "cut_edges" then (x, neighbor_flips g d) :: firstn 1 (w_nf w) else w_nf w)
           (((a, x), fl) :: firstn 1 (w_fc w)).
  Definition flip_fails (w : world) (a i : nat) (w' : world) : Prop :=
    let x := List.length (w_plans w) in
    (exists r, flip E a i w = (r, w') /\ forall n, r <> Ok n) /\
    (forall pa d A, plan_at w a = Some pa -> nth_error (w_dicts w) i = Some d -> flip_assignment (pl_assign pa) d <> Ok A) /\
    exists c, w' = mkWorld (w_dicts w) (w_plans w ++ [None]) (w_nf w) c /\
      (c = w_fc w \/ a < x /\ exists fl, c = ((a, x), fl) :: firstn 1 (w_fc w)).

  Lemma flip_cases w a i : wf_graph g -> sound w ->
    (exists pa d fl A w', flip_ok w a i pa d fl A w') \/ (exists w', flip_fails w a i w').
  Proof.
    intros W S. set (x := List.length (w_plans w)).
    destruct (plan_at w a) as [pa|] eqn:Ea.
    2:{ right. exists (add_plan None w). split; [|split].
        - unfold flip, build, andthen, the_plan. rewrite Ea. cbn. eexists. split; [reflexivity|discriminate].
        - congruence.
        - exists (w_fc w). split; [reflexivity|now left]. }
    destruct (nth_error (w_dicts w) i) as [d|] eqn:Ei.
    2:{ right. exists (add_plan None w). split; [|split].
        - unfold flip, build, andthen, the_plan. fold x. rewrite Ea. cbn [of_option]. unfold fc_call, lru_call. cbn [content of_option bind]. rewrite Ei. cbn [of_option bind].
          rewrite (fc_fresh a x w S (le_n _)). cbn. destruct w. eexists. split; [reflexivity|discriminate].
        - congruence.
        - exists (w_fc w). split; [reflexivity|now left]. }
    pose proof (s_coh w S a pa Ea) as C.
    assert (Dd : is_dict d). { apply (proj1 (Forall_forall _ _) (s_dicts w S)). eapply nth_error_In; exact Ei. }
    destruct (flows_from_changes (a_map (pl_assign pa)) d) as [fl|e|] eqn:Ef.
    2:{ right. exists (add_plan None w). split; [|split].
        - unfold flip, build, andthen, the_plan. fold x. rewrite Ea. cbn [of_option]. unfold fc_call, lru_call. cbn [content of_option bind]. rewrite Ei. cbn [of_option bind].
          rewrite (fc_fresh a x w S (le_n _)). rewrite Ef. cbn. destruct w. eexists. split; [reflexivity|discriminate].
        - intros pa' d' A H1 H2. replace pa' with pa by congruence. replace d' with d by congruence. unfold flip_assignment. rewrite Ef. discriminate.
        - exists (w_fc w). split; [reflexivity|now left]. }
    2:{ right. exists (add_plan None w). split; [|split].
        - unfold flip, build, andthen, the_plan. fold x. rewrite Ea. cbn [of_option]. unfold fc_call, lru_call. cbn [content of_option bind]. rewrite Ei. cbn [of_option bind].
          rewrite (fc_fresh a x w S (le_n _)). rewrite Ef. cbn. destruct w. eexists. split; [reflexivity|discriminate].
        - intros pa' d' A H1 H2. replace pa' with pa by congruence. replace d' with d by congruence. unfold flip_assignment. rewrite Ef. discriminate.
        - exists (w_fc w). split; [reflexivity|now left]. }
    pose (w1 := mkWorld (w_dicts w) (w_plans w) (w_nf w) (((a, x), fl) :: firstn 1 (w_fc w))).
    destruct (update_flows (pl_assign pa) fl) as [A|e|] eqn:EA.
    2:{ right. exists (add_plan None w1). split; [|split].
        - unfold flip, build, andthen, the_plan. fold x. rewrite Ea. cbn [of_option]. unfold fc_call, lru_call. cbn [content of_option bind]. rewrite Ei. cbn [of_option bind].
          rewrite (fc_fresh a x w S (le_n _)). rewrite Ef. cbn [fst snd just]. rewrite EA. eexists. split; [reflexivity|discriminate].
        - intros pa' d' A H1 H2. replace pa' with pa by congruence. replace d' with d by congruence. unfold flip_assignment. rewrite Ef. cbn [bind]. rewrite EA. discriminate.
        - exists (w_fc w1). split; [reflexivity|right; split; [exact (plan_at_lt _ _ _ Ea)|exists fl; reflexivity]]. }
    2:{ right. exists (add_plan None w1). split; [|split].
        - unfold flip, build, andthen, the_plan. fold x. rewrite Ea. cbn [of_option]. unfold fc_call, lru_call. cbn [content of_option bind]. rewrite Ei. cbn [of_option bind].
          rewrite (fc_fresh a x w S (le_n _)). rewrite Ef. cbn [fst snd just]. rewrite EA. eexists. split; [reflexivity|discriminate].
        - intros pa' d' A H1 H2. replace pa' with pa by congruence. replace d' with d by congruence. unfold flip_assignment. rewrite Ef. cbn [bind]. rewrite EA. discriminate.
        - exists (w_fc w1). split; [reflexivity|right; split; [exact (plan_at_lt _ _ _ Ea)|exists fl; reflexivity]]. }
    left. assert (Hf : flip_assignment (pl_assign pa) d = Ok A). { unfold flip_assignment. rewrite Ef. cbn [bind]. exact EA. }
    pose proof (flip_coherent _ _ _ _ C Dd Hf) as C'.
    pose proof (flip_district _ _ _ _ C Dd Hf) as Fl.
    destruct (compute_edge_flows_spec g _ d _ W C C' Fl) as (ef & Eef & _).
    assert (Known : forallb (fun n => mem n (g_nodes g)) (dkeys d) = true).
    { apply forallb_forall. intros n Hn. apply mem_In. apply (coh_dom _ _ C). apply (fs_dom _ _ _ (flows_from_changes_spec _ _ _ Dd Ef)). exact Hn. }
    exists pa, d, fl, A. eexists. unfold flip_ok. split; [exact Ea|]. split; [exact Ei|]. split; [exact Ef|]. split; [exact EA|]. split; [|reflexivity].
    unfold flip, build, andthen, the_plan. fold x. rewrite Ea. cbn [of_option]. unfold fc_call, lru_call. cbn [content of_option bind]. rewrite Ei. cbn [of_option bind].
    rewrite (fc_fresh a x w S (le_n _)). rewrite Ef. cbn [fst snd just]. rewrite EA.
    destruct (dmem (e_updaters E) "cut_edges"); [|reflexivity].
    unfold nf_call, lru_call. cbn [content of_option bind w_dicts w_nf w_plans w_fc]. rewrite Ei. cbn [of_option bind]. rewrite Known.
    rewrite (nf_fresh x w S (le_n _)). cbn [just]. unfold compute_edge_flows in Eef. rewrite Eef. reflexivity.
  Qed.

  (** ** Whole programs *)
  Definition later w w' : Prop :=
    forall x p, plan_at w x = Some p -> exists p', plan_at w' x = Some p' /\
      pl_assign p' = pl_assign p /\ pl_flips p' = pl_flips p /\
      (forall s, pl_cuts p = Some s -> pl_cuts p' = Some s) /\
      (forall k d, dget (pl_tallies p) k = Some d -> dget (pl_tallies p') k = Some d).
  Lemma later_refl w : later w w.
  Proof. intros x p Hx. exists p. auto. Qed.
  Lemma later_trans w w' w'' : later w w' -> later w' w'' -> later w w''.
  Proof.
    intros H1 H2 x p Hx. destruct (H1 x p Hx) as (p1 & Hx1 & A1 & A2 & A3 & A4).
    destruct (H2 x p1 Hx1) as (p2 & Hx2 & B1 & B2 & B3 & B4). exists p2. repeat split; eauto; congruence.
  Qed.
  Lemma later_reads b w w' : reads b w w' -> later w w'.
  Proof. intros R x p Hx. destruct (reads_plan _ _ _ _ _ R Hx) as (p' & Hx' & A1 & A2 & A3 & A4 & A5). exists p'. auto. Qed.
  Lemma later_add q w w' : later w w' -> later w (add_plan q w').
  Proof.
    intros H x p Hx. destruct (H x p Hx) as (p' & Hx' & R). exists p'. split; [|exact R].
    rewrite plan_at_add. pose proof (plan_at_lt _ _ _ Hx'). destruct (Nat.eqb_spec x (List.length (w_plans w'))); [lia|exact Hx'].
  Qed.

  Lemma dict_dset (d : dict N P) n q : is_dict d -> is_dict (dset d n q).
  Proof. apply NoDup_dset. Qed.
  Lemma dict_without (d : dict N P) n : is_dict d -> is_dict (without n d).
  Proof. apply without_nodup. Qed.
  Lemma Forall_set_nth {A} (Q : A -> Prop) f i : (forall a, Q a -> Q (f a)) -> forall l, Forall Q l -> Forall Q (set_nth i f l).
  Proof. intro Hf. induction i as [|i IH]; intros [|a l] H; cbn; auto; inversion H; subst; constructor; auto. Qed.

  Lemma plan_at_plans w w' x : w_plans w' = w_plans w -> plan_at w' x = plan_at w x.
  Proof. intro H. unfold plan_at. now rewrite H. Qed.

  Lemma sound_plans w w' : sound w -> Forall is_dict (w_dicts w') -> w_plans w' = w_plans w -> w_nf w' = w_nf w -> w_fc w' = w_fc w -> sound w'.
  Proof.
    intros [S1 S2 S3 S4 S5] D Ep En Ef. split; auto.
    - intros x p. rewrite (plan_at_plans _ _ _ Ep). apply S2.
    - intros x p q. rewrite (plan_at_plans _ _ _ Ep). apply S3.
    - rewrite En, Ep. exact S4.
    - rewrite Ef, Ep. exact S5.
  Qed.

  Lemma dget_head {K X} {EK : EqB K} (k k' : K) (u v : X) c : dget ((k, u) :: firstn 1 c) k' = Some v -> k' = k \/ dget c k' = Some v.
  Proof.
    cbn [dget]. destruct (eqb_spec k' k) as [Ek|Nk]; [auto|]. intro H. right. destruct c as [|[k2 u2] c]; [discriminate|]. cbn [firstn dget] in *. destruct (eqb k' k2); [exact H|discriminate].
  Qed.

  Lemma flip_sound w a i : wf_graph g -> sound w -> sound (snd (flip E a i w)) /\ later w (snd (flip E a i w)).
  Proof.
    intros W S. destruct (flip_cases w a i W S) as [(pa & d & fl & A & w' & Ea & Ei & Ef & EA & Hflip & Ew)|(w' & (r & Hflip & _) & _ & c & Ew & Hc)]; rewrite Hflip; cbn [snd].
    - pose proof (s_coh w S a pa Ea) as C.
      assert (Dd : is_dict d). { apply (proj1 (Forall_forall _ _) (s_dicts w S)). eapply nth_error_In; exact Ei. }
      assert (Hf : flip_assignment (pl_assign pa) d = Ok A). { unfold flip_assignment. rewrite Ef. cbn [bind]. exact EA. }
      pose proof (flip_coherent _ _ _ _ C Dd Hf) as C'.
      assert (PA : forall x, plan_at w' x = if Nat.eqb x (List.length (w_plans w)) then Some (mkPlan A (Some a) (Some i) None []) else plan_at w x).
      { intro x. rewrite Ew. rewrite <- (plan_at_add (Some (mkPlan A (Some a) (Some i) None [])) w x). reflexivity. }
      split.
      + split.
        * rewrite Ew. exact (s_dicts w S).
        * intros x p. rewrite PA. destruct (Nat.eqb_spec x (List.length (w_plans w))); [intros [= <-]; exact C'|apply (s_coh w S)].
        * intros x p q. rewrite PA. destruct (Nat.eqb_spec x (List.length (w_plans w))) as [->|]; [intros [= <-] [= <-]; exact (plan_at_lt _ _ _ Ea)|apply (s_par w S)].
        * rewrite Ew. cbn [w_nf w_plans]. rewrite app_length. cbn [List.length]. intros x es D.
          destruct (dmem (e_updaters E) "cut_edges").
          -- apply dget_head in D. destruct D as [->|D]; [lia|]. apply (s_nf w S) in D. lia.
          -- apply (s_nf w S) in D. lia.
        * rewrite Ew. cbn [w_fc w_plans]. rewrite app_length. cbn [List.length]. intros q x f D.
          apply dget_head in D. destruct D as [D|D]; [injection D as -> ->; pose proof (plan_at_lt _ _ _ Ea); lia|]. apply (s_fc w S) in D. lia.
      + intros x p Hx. exists p. split; [|auto]. rewrite PA. pose proof (plan_at_lt _ _ _ Hx). destruct (Nat.eqb_spec x (List.length (w_plans w))); [lia|exact Hx].
    - assert (PA : forall x, plan_at w' x = if Nat.eqb x (List.length (w_plans w)) then None else plan_at w x).
      { intro x. rewrite Ew. rewrite <- (plan_at_add None w x). reflexivity. }
      split.
      + split.
        * rewrite Ew. exact (s_dicts w S).
        * intros x p. rewrite PA. destruct (Nat.eqb_spec x (List.length (w_plans w))); [discriminate|apply (s_coh w S)].
        * intros x p q. rewrite PA. destruct (Nat.eqb_spec x (List.length (w_plans w))); [discriminate|apply (s_par w S)].
        * rewrite Ew. cbn [w_nf w_plans]. rewrite app_length. intros x es D. apply (s_nf w S) in D. lia.
        * rewrite Ew. cbn [w_fc w_plans]. rewrite app_length. cbn [List.length]. intros q x f D. destruct Hc as [->|(La & fl & ->)].
          -- apply (s_fc w S) in D. lia.
          -- apply dget_head in D. destruct D as [D|D]; [injection D as -> ->; cbn in La; lia|]. apply (s_fc w S) in D. lia.
      + intros x p Hx. exists p. split; [|auto]. rewrite PA. pose proof (plan_at_lt _ _ _ Hx). destruct (Nat.eqb_spec x (List.length (w_plans w))); [lia|exact Hx].
  Qed.

  Lemma step_sound w c : wf_graph g -> sound w -> dict_cmd c -> sound (step E w c) /\ later w (step E w c).
  Proof.
    intros W S Hc. destruct c as [d|i n q|i n|a i|x|x k|x]; cbn [step].
    - split; [|intros x p Hx; exists p; auto]. apply (sound_plans w); auto. cbn [w_dicts]. apply Forall_app. split; [exact (s_dicts w S)|auto].
    - split; [|intros x p Hx; exists p; auto]. apply (sound_plans w); auto. cbn [with_dict w_dicts]. apply Forall_set_nth; [intros d; apply dict_dset|exact (s_dicts w S)].
    - split; [|intros x p Hx; exists p; auto]. apply (sound_plans w); auto. cbn [with_dict w_dicts]. apply Forall_set_nth; [intros d; apply dict_without|exact (s_dicts w S)].
    - now apply flip_sound.
    - unfold cuts. destruct (dmem (e_updaters E) "cut_edges"); [|split; [exact S|apply later_refl]].
      destruct (read_cuts_tame (Datatypes.S (List.length (w_plans w))) x w S) as [S' R]. split; [exact S'|exact (later_reads _ _ _ R)].
    - unfold tallied. destruct (read_tally_tame (Datatypes.S (List.length (w_plans w))) x k w S) as [S' R]. split; [exact S'|exact (later_reads _ _ _ R)].
    - assert (PA : forall y, plan_at (with_plan x drop_parent w) y = if Nat.eqb y x then option_map drop_parent (plan_at w y) else plan_at w y) by (intro; apply plan_at_with).
      split.
      + split.
        * exact (s_dicts w S).
        * intros y p. rewrite PA. destruct (Nat.eqb y x); [|apply (s_coh w S)]. destruct (plan_at w y) as [p0|] eqn:Ey; [|discriminate]. intros [= <-]. exact (s_coh w S y p0 Ey).
        * intros y p q. rewrite PA. destruct (Nat.eqb y x); [|apply (s_par w S)]. destruct (plan_at w y) as [p0|] eqn:Ey; [|discriminate]. intros [= <-]. discriminate.
        * unfold with_plan. cbn [w_nf w_plans]. rewrite length_set_nth. exact (s_nf w S).
        * unfold with_plan. cbn [w_fc w_plans]. rewrite length_set_nth. exact (s_fc w S).
      + intros y p Hy. rewrite PA, Hy. destruct (Nat.eqb y x); [exists (drop_parent p)|exists p]; auto.
  Qed.
  Lemma perform_sound cs : forall w, wf_graph g -> sound w -> Forall dict_cmd cs -> sound (perform E cs w) /\ later w (perform E cs w).
  Proof.
    induction cs as [|c cs IH]; intros w W S Hc; [split; [exact S|apply later_refl]|]. inversion Hc; subst.
    destruct (step_sound w c W S) as [S1 L1]; [assumption|]. destruct (IH (step E w c) W S1) as [S2 L2]; [assumption|].
    cbn [perform fold_left] in *. split; [exact S2|exact (later_trans _ _ _ L1 L2)].
  Qed.
  Lemma start_sound d w : is_dict d -> start E d = Ok w -> sound w.
  Proof.
    intros D H. unfold start in H. apply bind_Ok in H. destruct H as (A & HA & [= <-]). destruct (first_coherent g d A D HA) as [C _].
    split; try discriminate.
    - constructor.
    - intros [|x] p Hx; [|destruct x; discriminate Hx]. injection Hx as <-. exact C.
    - intros [|x] p q Hx; [|destruct x; discriminate Hx]. injection Hx as <-. discriminate.
  Qed.
  Lemma reached_sound w : wf_graph g -> reached w -> sound w.
  Proof. intros W (d & w0 & cs & D & H0 & Hc & ->). apply perform_sound; auto. eapply start_sound; eassumption. Qed.

  (** ** Reading one plan *)
  Definition nf_comp (i : option nat) w : res (list (N * N)) :=
    d <- content w i ;; if forallb (fun n => mem n (g_nodes g)) (dkeys d) then Ok (neighbor_flips g d) else Err NetworkXError.
  Lemma nf_eq x i w : nf_call E x i w = (fst (lru_call 2 x (nf_comp i w) (w_nf w)),
    mkWorld (w_dicts w) (w_plans w) (snd (lru_call 2 x (nf_comp i w) (w_nf w))) (w_fc w)).
  Proof. unfold nf_call. fold (nf_comp i w). now destruct (lru_call 2 x (nf_comp i w) (w_nf w)). Qed.
  Definition fc_comp (A : assignment N P) (i : option nat) w : res (dict P (flow N)) :=
    d <- content w i ;; flows_from_changes (a_map A) d.
  Lemma fc_eq q A x i w : fc_call q A x i w = (fst (lru_call 2 (q, x) (fc_comp A i w) (w_fc w)),
    mkWorld (w_dicts w) (w_plans w) (w_nf w) (snd (lru_call 2 (q, x) (fc_comp A i w) (w_fc w)))).
  Proof. unfold fc_call. fold (fc_comp A i w). now destruct (lru_call 2 (q, x) (fc_comp A i w) (w_fc w)). Qed.
  Lemma lru_kept {K X} {EK : EqB K} cap (k : K) (compute : res X) c v : fst (lru_call cap k compute c) = Ok v -> dget (snd (lru_call cap k compute c)) k = Some v.
  Proof.
    intro H. unfold lru_call in *. destruct (dget c k) as [y|]; cbn [fst snd] in *.
    - injection H as ->. cbn [dget]. now rewrite eqb_refl.
    - destruct compute; cbn [fst snd] in *; try discriminate H. injection H as ->. cbn [dget]. now rewrite eqb_refl.
  Qed.
  Lemma nf_twice x i w es : fst (nf_call E x i w) = Ok es -> fst (nf_call E x i (snd (nf_call E x i w))) = Ok es.
  Proof.
    rewrite (nf_eq x i w). cbn [fst snd]. intro H. apply lru_kept in H. rewrite nf_eq. cbn [fst w_nf]. now apply lru_hit.
  Qed.

  Lemma among_eq A old es (d : dict N P) : es = neighbor_flips g d -> new_among A es = new_cuts E A d /\ gone_among old A es = obsolete_cuts E old A d.
  Proof. intros ->. split; reflexivity. Qed.

  Lemma cuts_body_right rec x p w :
    wf_graph g -> coherent (g_nodes g) (pl_assign p) ->
    (forall q, pl_parent p = Some q -> exists po d,
       plan_at w q = Some po /\ coherent (g_nodes g) (pl_assign po) /\ flipped (pl_assign po) d (pl_assign p) /\
       fst (nf_call E x (pl_flips p) w) = Ok (neighbor_flips g d) /\
       exists s, fst (rec q (snd (nf_call E x (pl_flips p) (snd (nf_call E x (pl_flips p) w))))) = Ok s /\ right_cuts (pl_assign po) s) ->
    exists s, fst (cuts_body rec x p w) = Ok s /\ right_cuts (pl_assign p) s.
  Proof.
    intros W C H. unfold cuts_body. destruct (pl_parent p) as [q|].
    2:{ destruct (scratch_cut_edges_spec E (pl_assign p) W C) as (s & Es & ND & Hs). exists s. split; [exact Es|split; assumption]. }
    destruct (H q eq_refl) as (po & d & Eq & Co & Fl & Hnf & s & Hrec & ND & Hs).
    unfold andthen at 1. unfold the_plan. rewrite Eq. cbn [of_option].
    destruct (a_parts (pl_assign po)) as [|pt rest].
    { destruct (scratch_cut_edges_spec E (pl_assign p) W C) as (s' & Es & ND' & Hs'). exists s'. split; [exact Es|split; assumption]. }
    destruct (new_obsolete_spec E (pl_assign po) d (pl_assign p) W Co C) as (new & obs & En & Eo & Hn & Hob).
    unfold andthen. pose proof (nf_twice _ _ _ _ Hnf) as Hnf2.
    destruct (nf_call E x (pl_flips p) w) as [r1 w1]. cbn [fst snd] in *. subst r1.
    cbn [just]. destruct (among_eq (pl_assign p) (pl_assign po) _ d eq_refl) as [E1 E2]. rewrite E1, En.
    destruct (nf_call E x (pl_flips p) w1) as [r2 w2]. cbn [fst snd] in *. subst r2. cbn [just]. rewrite E2, Eo.
    destruct (rec q w2) as [r3 w3]. cbn [fst] in Hrec. subst r3. cbn [done fst].
    eexists. split; [reflexivity|]. split; [apply NoDup_sdiff, NoDup_sunion, ND|]. eapply cut_edges_incremental; eauto.
  Qed.

  (** What can be said of a tally that is read: it is right, and it is there when
      the data is and no district involved is empty. *)
  Definition tally_answer fields (A : assignment N P) (ready : Prop) (r : res (dict P (num V))) : Prop :=
    r <> NoFuel /\ (forall d, r = Ok d -> right_tally fields A d) /\ (ready -> exists d, r = Ok d).
  Definition has_data (fields : list string) : Prop := forall f, In f fields -> exists data, data_is g (e_attr E f) data.

  Lemma scratch_answer fields A : coherent (g_nodes g) A -> tally_answer fields A (has_data fields) (scratch_tally A (field_sum E fields)).
  Proof.
    intro C. split; [|split].
    - apply not_nofuel_foldM. intros b np. apply not_nofuel_bind; [|discriminate]. unfold field_sum. apply not_nofuel_bind; [|discriminate]. apply not_nofuel_mapM. intro f. apply not_nofuel_opt.
    - intros d Hd. destruct (scratch_tally_spec E _ _ _ C Hd) as (T1 & T2 & T3). split; [exact T1|]. split; [exact T2|]. intros data Hw. apply T3. intros n Hn. now apply field_sum_num.
    - intro R. eapply scratch_tally_ok; eauto. intros n Hn. eapply field_sum_ok; eauto. intros f Hf n' Hn'. destruct (R f Hf) as [data Hw]. rewrite (Hw n' Hn'). eauto.
  Qed.
  Lemma step_answer fields A d fl A' old :
    coherent (g_nodes g) A -> coherent (g_nodes g) A' -> is_dict d -> flip_assignment A d = Ok A' ->
    flows_from_changes (a_map A) d = Ok fl -> right_tally fields A old ->
    tally_answer fields A' (has_data fields /\ no_empty_district g A) (tally_step E fields fl old).
  Proof.
    intros C C' D Hf Hfl (ND & LI & Hold).
    pose proof (flows_from_changes_spec _ _ _ D Hfl) as FS.
    pose proof (flip_district _ _ _ _ C D Hf) as Fl. pose proof (flip_labels _ _ _ D Hf) as HL.
    split; [|split].
    - apply not_nofuel_foldM. intros b np. unfold flow_sum.
      repeat first [apply not_nofuel_bind | discriminate | apply not_nofuel_mapM; intro | apply not_nofuel_opt | intro].
    - intros d' Hd'. destruct (tally_step_spec E _ d _ _ _ _ _ C C' HL FS Fl Hd' ND LI) as (T1 & T2 & T3). split; [exact T1|]. split; [exact T2|]. intros data Hw. apply (T3 data Hw). exact (Hold data Hw).
    - intros [R NE]. apply (tally_step_ok E A d A' fl fields old C FS Fl).
      + intros f Hfi n Hn. destruct (R f Hfi) as [data Hw]. rewrite (Hw n Hn). eauto.
      + intros q Hq. assert (exists data : string -> N -> V, forall f, In f fields -> data_is g (e_attr E f) (data f)) as [data Hdata].
        { clear - R RV EN EP EL ON. induction fields as [|f fields IH]; [exists (fun _ _ => c0); intros f []|].
          destruct IH as [data Hd]; [intros f' Hf'; apply R; now right|]. destruct (R f (or_introl eq_refl)) as [df Hdf].
          exists (fun f' => if eqb f' f then df else data f'). intros f' Hf'. destruct (eqb_spec f' f) as [->|Nf]; [exact Hdf|]. destruct Hf' as [->|Hf']; [contradiction|]. now apply Hd. }
        apply (tally_full E A _ old NE (Hold data Hdata)). exact (flow_labels g _ d _ _ C C' HL FS Fl q Hq).
  Qed.

  (** ** The districts never change; the dictionary shown is the caller's *)
  Lemma plan_added w w' c f p : w' = mkWorld (w_dicts w) (w_plans w ++ [Some p]) c f -> plan_at w' (List.length (w_plans w)) = Some p.
  Proof. intros ->. unfold plan_at. cbn [w_plans]. rewrite nth_error_app2, Nat.sub_diag by lia. reflexivity. Qed.

  Theorem C121_districts_fixed : forall w a i x w' cs,
    wf_graph g -> reached w -> flip E a i w = (Ok x, w') -> Forall dict_cmd cs ->
    exists pa d p p', plan_at w a = Some pa /\ nth_error (w_dicts w) i = Some d /\
      plan_at w' x = Some p /\ plan_at (perform E cs w') x = Some p' /\
      (forall n, district (pl_assign p) n = match dget d n with Some q => Some q | None => district (pl_assign pa) n end) /\
      pl_assign p' = pl_assign p /\
      flips_of (perform E cs w') x = nth_error (w_dicts (perform E cs w')) i.
  Proof.
    intros w a i x w' cs W R Hflip Hcs. pose proof (reached_sound w W R) as S.
    destruct (flip_cases w a i W S) as [(pa & d & fl & A & w1 & Ea & Ei & Ef & EA & Hflip' & Ew)|(w1 & (r & Hflip' & Hr) & _)].
    2:{ rewrite Hflip in Hflip'. injection Hflip' as <- <-. exfalso. exact (Hr x eq_refl). }
    rewrite Hflip in Hflip'. injection Hflip' as -> ->.
    pose proof (plan_added _ _ _ _ _ Ew) as Hp. exists pa, d, (mkPlan A (Some a) (Some i) None []).
    assert (S1 : sound w1). { pose proof (proj1 (flip_sound w a i W S)) as X. rewrite Hflip in X. exact X. }
    destruct (perform_sound cs w1 W S1 Hcs) as [_ Lt]. destruct (Lt _ _ Hp) as (p' & Hp' & A1 & A2 & _).
    exists p'. split; [exact Ea|]. split; [exact Ei|]. split; [exact Hp|]. split; [exact Hp'|]. split; [|split; [exact A1|]].
    - assert (Dd : is_dict d). { apply (proj1 (Forall_forall _ _) (s_dicts w S)). eapply nth_error_In; exact Ei. }
      assert (Hf : flip_assignment (pl_assign pa) d = Ok A). { unfold flip_assignment. rewrite Ef. cbn [bind]. exact EA. }
      exact (flip_district _ _ _ _ (s_coh w S a pa Ea) Dd Hf).
    - unfold flips_of. rewrite Hp', A2. reflexivity.
  Qed.

  (** ** A value that was read stays *)
  Lemma read_cuts_stored fuel x w s : sound w -> fst (read_cuts E fuel x w) = Ok s ->
    exists p, plan_at (snd (read_cuts E fuel x w)) x = Some p /\ pl_cuts p = Some s.
  Proof.
    destruct fuel as [|fuel]; intros S H; [discriminate H|]. rewrite read_cuts_eq in *.
    destruct (plan_at w x) as [p|] eqn:Ex; [|discriminate H]. destruct (pl_cuts p) as [s0|] eqn:Ec.
    - injection H as ->. exists p. auto.
    - unfold andthen in *. destruct (cuts_body_tame (read_cuts E fuel) x p) with (w := w) as [_ R1]; [|exact (plan_at_lt _ _ _ Ex)|exact S|].
      { intros q Hq v _ Sv. destruct (read_cuts_tame fuel q v Sv) as [Sq Rq]. split; [exact Sq|]. apply (reads_weaken (Datatypes.S q)); [|exact Rq]. exact (s_par w S x p q Ex Hq). }
      destruct (cuts_body (read_cuts E fuel) x p w) as [[s1|e|] w1]; try discriminate H. cbn [fst snd] in *. injection H as ->.
      exists (keep_cuts s p). split; [|reflexivity]. rewrite plan_at_with, Nat.eqb_refl. replace (plan_at w1 x) with (Some p); [reflexivity|].
      rewrite <- Ex. symmetry. apply R1. lia.
  Qed.
  Lemma read_tally_stored fuel x k w d : sound w -> fst (read_tally E fuel x k w) = Ok d ->
    exists p, plan_at (snd (read_tally E fuel x k w)) x = Some p /\ dget (pl_tallies p) k = Some d.
  Proof.
    destruct fuel as [|fuel]; intros S H; [discriminate H|]. rewrite read_tally_eq in *.
    destruct (plan_at w x) as [p|] eqn:Ex; [|discriminate H]. destruct (dget (pl_tallies p) k) as [d0|] eqn:Ec.
    - injection H as ->. exists p. auto.
    - destruct (dget (e_updaters E) k) as [u|]; [|discriminate H].
      destruct u as [| |fields alias| | | | | | | | | |]; try discriminate H.
      unfold andthen in *. destruct (tally_body_tame (read_tally E fuel) fields alias x p) with (w := w) as [_ R1]; [intros q Hq; exact (s_par w S x p q Ex Hq)| |exact (plan_at_lt _ _ _ Ex)|exact S|].
      { intros q Hq v _ Sv. destruct (read_tally_tame fuel q alias v Sv) as [Sq Rq]. split; [exact Sq|]. apply (reads_weaken (Datatypes.S q)); [|exact Rq]. exact (s_par w S x p q Ex Hq). }
      destruct (tally_body (read_tally E fuel) fields alias x p w) as [[d1|e|] w1]; try discriminate H. cbn [fst snd] in *. injection H as ->.
      exists (keep_tally k d p). split; [|cbn [keep_tally pl_tallies]; apply dget_dset_eq]. rewrite plan_at_with, Nat.eqb_refl. replace (plan_at w1 x) with (Some p); [reflexivity|].
      rewrite <- Ex. symmetry. apply R1. lia.
  Qed.

  Theorem C121_values_kept : forall w x cs,
    wf_graph g -> reached w -> Forall dict_cmd cs ->
    (forall s, fst (cuts E x w) = Ok s -> fst (cuts E x (perform E cs (snd (cuts E x w)))) = Ok s) /\
    (forall k d, fst (tallied E x k w) = Ok d -> fst (tallied E x k (perform E cs (snd (tallied E x k w)))) = Ok d).
  Proof.
    intros w x cs W R Hcs. pose proof (reached_sound w W R) as S. split.
    - intros s H. unfold cuts in *. destruct (dmem (e_updaters E) "cut_edges"); [|discriminate H].
      destruct (read_cuts_stored _ _ _ _ S H) as (p & Hp & Hc).
      destruct (read_cuts_tame (Datatypes.S (List.length (w_plans w))) x w S) as [S1 _].
      destruct (perform_sound cs _ W S1 Hcs) as [_ Lt]. destruct (Lt _ _ Hp) as (p' & Hp' & _ & _ & A3 & _).
      rewrite read_cuts_eq, Hp', (A3 s Hc). reflexivity.
    - intros k d H. unfold tallied in *.
      destruct (read_tally_stored _ _ _ _ _ S H) as (p & Hp & Hc).
      destruct (read_tally_tame (Datatypes.S (List.length (w_plans w))) x k w S) as [S1 _].
      destruct (perform_sound cs _ W S1 Hcs) as [_ Lt]. destruct (Lt _ _ Hp) as (p' & Hp' & _ & _ & _ & A4).
      rewrite read_tally_eq, Hp', (A4 k d Hc). reflexivity.
  Qed.

  (** ** Shortly after a flip *)
  (** The program writes to dictionaries and makes at most one more plan. *)
  Definition quiet_cmd (c : cmd) : bool := match c with NewDict _ | Write _ _ _ | Delete _ _ | Flip _ _ => true | _ => false end.
  Definition brief (cs : list cmd) : Prop := forallb quiet_cmd cs = true /\ List.length (filter is_flip cs) <= 1.

  Section Window.
    Variables (a x : nat) (pa p : plan) (es : list (N * N)) (fl : dict P (flow N)).
    Hypothesis W : wf_graph g.
    Notation cut := (dmem (e_updaters E) "cut_edges").
    Definition window (m : nat) (w : world) : Prop :=
      sound w /\ plan_at w a = Some pa /\ plan_at w x = Some p /\
      (m = 1 -> (cut = true -> exists c, w_nf w = (x, es) :: c) /\ exists c, w_fc w = ((a, x), fl) :: c) /\
      (cut = true -> dget (w_nf w) x = Some es) /\ dget (w_fc w) (a, x) = Some fl.
    Lemma window_second {K X} {EK : EqB K} (k k' : K) (u v : X) c : k' <> k -> dget ((k, u) :: firstn 1 ((k', v) :: c)) k' = Some v.
    Proof. intro Hk. cbn [firstn dget]. destruct (eqb_spec k' k) as [Ek|_]; [contradiction|]. now rewrite eqb_refl. Qed.
    Lemma window_step m w c : window m w -> dict_cmd c -> quiet_cmd c = true -> (is_flip c = true -> m = 1) ->
      window (if is_flip c then 0 else m) (step E w c).
    Proof.
      intros (S & Ha & Hx & H1 & H2 & H3) Hd Hq Hf. pose proof (proj1 (step_sound w c W S Hd)) as S'.
      destruct c as [d|i n q|i n|b j|y|y k|y]; try discriminate Hq; cbn [is_flip] in *.
      - split; [exact S'|]. split; [exact Ha|]. split; [exact Hx|]. split; [exact H1|]. split; [exact H2|exact H3].
      - split; [exact S'|]. split; [exact Ha|]. split; [exact Hx|]. split; [exact H1|]. split; [exact H2|exact H3].
      - split; [exact S'|]. split; [exact Ha|]. split; [exact Hx|]. split; [exact H1|]. split; [exact H2|exact H3].
      - destruct (H1 (Hf eq_refl)) as [Hn1 (cf & Hf1)]. split; [exact S'|]. cbn [step].
        pose proof (plan_at_lt _ _ _ Ha) as La. pose proof (plan_at_lt _ _ _ Hx) as Lx.
        destruct (flip_cases w b j W S) as [(pb & d & fl' & A & w' & Eb & Ej & Ef & EA & Hflip & Ew)|(w' & (r & Hflip & _) & _ & c & Ew & Hc)]; rewrite Hflip; cbn [snd].
        + assert (PA : forall y, y < List.length (w_plans w) -> plan_at w' y = plan_at w y).
          { intros y Hy. rewrite Ew.
            unfold plan_at. cbn [w_plans]. now rewrite nth_error_app1. }
          rewrite !PA by assumption. split; [exact Ha|]. split; [exact Hx|]. split; [discriminate|]. rewrite Ew. cbn [w_nf w_fc]. split.
          * intro Hc. rewrite Hc. destruct (Hn1 Hc) as (cn & ->). apply window_second. lia.
          * rewrite Hf1. apply window_second. intros [= _ Hy]. lia.
        + assert (PA : forall y, y < List.length (w_plans w) -> plan_at w' y = plan_at w y).
          { intros y Hy. rewrite Ew. unfold plan_at. cbn [w_plans]. now rewrite nth_error_app1. }
          rewrite !PA by assumption. split; [exact Ha|]. split; [exact Hx|]. split; [discriminate|]. rewrite Ew. cbn [w_nf w_fc]. split; [exact H2|].
          destruct Hc as [->|(_ & f' & ->)]; [exact H3|]. rewrite Hf1. apply window_second. intros [= _ Hy]. lia.
    Qed.
    Lemma window_run cs : forall m w, window m w -> Forall dict_cmd cs -> forallb quiet_cmd cs = true -> List.length (filter is_flip cs) <= m -> m <= 1 ->
      window 0 (perform E cs w).
    Proof.
      induction cs as [|c cs IH]; intros m w Hw Hd Hq Hl Hm.
      - destruct Hw as (S & Ha & Hx & _ & H2 & H3). cbn. split; [exact S|]. split; [exact Ha|]. split; [exact Hx|]. split; [discriminate|]. split; [exact H2|exact H3].
      - inversion Hd; subst. cbn [forallb] in Hq. apply andb_true_iff in Hq. destruct Hq as [Hq1 Hq2]. cbn [filter] in Hl.
        cbn [perform fold_left]. apply (IH (if is_flip c then 0 else m)); auto.
        + apply window_step; auto. intro Hc. rewrite Hc in Hl. cbn in Hl. lia.
        + destruct (is_flip c); cbn in Hl; lia.
        + destruct (is_flip c); lia.
    Qed.
  End Window.

  Theorem C121_window : forall w a i x w1 cs pa p,
    wf_graph g -> reached w -> flip E a i w = (Ok x, w1) -> plan_at w a = Some pa -> plan_at w1 x = Some p ->
    Forall dict_cmd cs -> brief cs ->
    (dmem (e_updaters E) "cut_edges" = true ->
     forall s, pl_cuts pa = Some s -> right_cuts (pl_assign pa) s ->
     exists s', fst (cuts E x (perform E cs w1)) = Ok s' /\ right_cuts (pl_assign p) s') /\
    (forall k fields d, dget (e_updaters E) k = Some (UTally fields k) ->
     dget (pl_tallies pa) k = Some d -> right_tally fields (pl_assign pa) d ->
     tally_answer fields (pl_assign p) (has_data fields /\ no_empty_district g (pl_assign pa))
       (fst (tallied E x k (perform E cs w1)))).
  Proof.
    intros w a i x w1 cs pa p W R Hflip Ha Hp Hcs [Hq Hb]. pose proof (reached_sound w W R) as S.
    destruct (flip_cases w a i W S) as [(pa' & d & fl & A & w' & Ea & Ei & Ef & EA & Hflip' & Ew)|(w' & (r & Hflip' & Hr) & _)].
    2:{ rewrite Hflip in Hflip'. injection Hflip' as <- <-. exfalso. exact (Hr x eq_refl). }
    rewrite Hflip in Hflip'. injection Hflip' as -> ->. replace pa' with pa in * by congruence. clear pa' Ea.
    rewrite (plan_added _ _ _ _ _ Ew) in Hp. injection Hp as <-. cbn [pl_assign].
    pose proof (plan_at_lt _ _ _ Ha) as La. set (x := List.length (w_plans w)) in *.
    assert (S1 : sound w'). { pose proof (proj1 (flip_sound w a i W S)) as X. rewrite Hflip in X. exact X. }
    assert (Win : window a x pa (mkPlan A (Some a) (Some i) None []) (neighbor_flips g d) fl 1 w').
    { split; [exact S1|]. split; [rewrite Ew; unfold plan_at; cbn [w_plans]; rewrite nth_error_app1 by exact La; exact Ha|].
      split; [exact (plan_added _ _ _ _ _ Ew)|]. rewrite Ew. cbn [w_nf w_fc]. split; [|split].
      - intros _. split; [|eexists; reflexivity]. intros ->. eexists. reflexivity.
      - intros ->. cbn [dget]. now rewrite eqb_refl.
      - cbn [dget]. now rewrite eqb_refl. }
    destruct (window_run a x _ _ _ _ W cs 1 w' Win Hcs Hq Hb (le_n _)) as (S2 & Ha2 & Hx2 & _ & Hnf & Hfc).
    set (w2 := perform E cs w') in *.
    assert (Dd : is_dict d). { apply (proj1 (Forall_forall _ _) (s_dicts w S)). eapply nth_error_In; exact Ei. }
    assert (Hfa : flip_assignment (pl_assign pa) d = Ok A). { unfold flip_assignment. rewrite Ef. cbn [bind]. exact EA. }
    pose proof (s_coh w S a pa Ha) as C. pose proof (flip_coherent _ _ _ _ C Dd Hfa) as C'.
    assert (exists f, List.length (w_plans w2) = Datatypes.S f) as [f Hlen].
    { pose proof (plan_at_lt _ _ _ Ha2). destruct (List.length (w_plans w2)); [lia|eauto]. }
    split.
    - intros Hc s Hs Rs. unfold cuts. rewrite Hc, Hlen, read_cuts_eq, Hx2. cbn [pl_cuts]. unfold andthen.
      destruct (cuts_body_right (read_cuts E (Datatypes.S f)) x (mkPlan A (Some a) (Some i) None []) w2 W C') as (s' & Hs' & Rs').
      { intros q [= <-]. exists pa, d. split; [exact Ha2|]. split; [exact C|]. split; [exact (flip_district _ _ _ _ C Dd Hfa)|]. split.
        - rewrite nf_eq. cbn [fst]. apply lru_hit. exact (Hnf Hc).
        - exists s. split; [|exact Rs]. rewrite read_cuts_eq. rewrite !nf_eq. cbn [snd].
          unfold plan_at. cbn [w_plans]. fold (plan_at w2 a). rewrite Ha2, Hs. reflexivity. }
      exists s'. destruct (cuts_body (read_cuts E (Datatypes.S f)) x _ w2) as [r3 w3]. cbn [fst] in Hs'. subst r3. split; [reflexivity|exact Rs'].
    - intros k fields t Hk Ht Rt. unfold tallied. rewrite Hlen, read_tally_eq, Hx2. cbn [pl_tallies dget]. rewrite Hk.
      unfold andthen at 1. unfold tally_body. cbn [pl_parent pl_flips]. unfold andthen at 1. unfold the_plan at 1. rewrite Ha2. cbn [of_option].
      unfold andthen at 1. rewrite read_tally_eq, Ha2, Ht. unfold andthen. rewrite fc_eq, (lru_hit _ _ _ _ _ Hfc). cbn [just].
      pose proof (step_answer fields (pl_assign pa) d fl A t C C' Dd Hfa Ef Rt) as (T0 & T1 & T2).
      destruct (tally_step E fields fl t) as [t'|e|] eqn:Et; cbn [fst].
      + split; [discriminate|]. split; [intros d' [= <-]; now apply T1|eauto].
      + split; [discriminate|]. split; [discriminate|intro H; destruct (T2 H) as [d' Hd']; discriminate Hd'].
      + exfalso. now apply T0.
  Qed.

  (** ** Programs that leave the dictionaries of their plans alone *)
  Record good w : Prop := {
    gd_sound : sound w;
    gd_par : forall x p q, plan_at w x = Some p -> pl_parent p = Some q ->
      exists pq d, plan_at w q = Some pq /\ content w (pl_flips p) = Ok d /\ is_dict d /\ flip_assignment (pl_assign pq) d = Ok (pl_assign p);
    gd_nf : forall x es p d, dget (w_nf w) x = Some es -> plan_at w x = Some p -> content w (pl_flips p) = Ok d -> es = neighbor_flips g d;
    gd_fc : forall q x fl p pq d, dget (w_fc w) (q, x) = Some fl -> plan_at w x = Some p -> plan_at w q = Some pq -> content w (pl_flips p) = Ok d ->
      flows_from_changes (a_map (pl_assign pq)) d = Ok fl;
    gd_cuts : forall x p s, plan_at w x = Some p -> pl_cuts p = Some s -> right_cuts (pl_assign p) s;
    gd_tally : forall x p k d fields, plan_at w x = Some p -> dget (pl_tallies p) k = Some d -> dget (e_updaters E) k = Some (UTally fields k) ->
      right_tally fields (pl_assign p) d;
    gd_ref : forall x p j, plan_at w x = Some p -> pl_flips p = Some j -> exists d, content w (Some j) = Ok d }.

  Lemma good_nf x p w : good w -> plan_at w x = Some p -> good (snd (nf_call E x (pl_flips p) w)).
  Proof.
    intros G Hx. assert (S' := nf_call_sound x (pl_flips p) w (gd_sound w G) (plan_at_lt _ _ _ Hx)). rewrite nf_eq in *. cbn [snd] in *.
    destruct G as [G0 G1 G2 G3 G4 G5 G6]. split; [exact S'|exact G1| |exact G3|exact G4|exact G5|exact G6].
    intros y es py d D Hy Hd.
    refine (proj2 (lru_good 2 x (nf_comp (pl_flips p) w) (w_nf w) (fun k v => forall pk dk, plan_at w k = Some pk -> content w (pl_flips pk) = Ok dk -> v = neighbor_flips g dk) _ _) y es D py d Hy Hd).
    - intros k v Dk pk dk Hk Hdk. exact (G2 k v pk dk Dk Hk Hdk).
    - intros v Hv pk dk Hk Hdk. replace pk with p in Hdk by congruence. unfold nf_comp in Hv. rewrite Hdk in Hv. cbn [bind] in Hv. destruct (forallb _ _); [congruence|discriminate].
  Qed.
  Lemma good_fc q x pq p w : good w -> q < x -> plan_at w x = Some p -> plan_at w q = Some pq -> good (snd (fc_call q (pl_assign pq) x (pl_flips p) w)).
  Proof.
    intros G Lq Hx Hq. assert (S' := fc_call_sound q (pl_assign pq) x (pl_flips p) w (gd_sound w G) (conj Lq (plan_at_lt _ _ _ Hx))). rewrite fc_eq in *. cbn [snd] in *.
    destruct G as [G0 G1 G2 G3 G4 G5 G6]. split; [exact S'|exact G1|exact G2| |exact G4|exact G5|exact G6].
    intros r y fl py pr d D Hy Hr Hd.
    refine (proj2 (lru_good 2 (q, x) (fc_comp (pl_assign pq) (pl_flips p) w) (w_fc w) (fun k v => forall pk pr dk, plan_at w (snd k) = Some pk -> plan_at w (fst k) = Some pr -> content w (pl_flips pk) = Ok dk -> flows_from_changes (a_map (pl_assign pr)) dk = Ok v) _ _) (r, y) fl D py pr d Hy Hr Hd).
    - intros [k1 k2] v Dk pk pr' dk Hk Hk' Hdk. exact (G3 k1 k2 v pk pr' dk Dk Hk Hk' Hdk).
    - cbn [fst snd]. intros v Hv pk pr' dk Hk Hk' Hdk. replace pk with p in Hdk by congruence. replace pr' with pq by congruence. unfold fc_comp in Hv. rewrite Hdk in Hv. exact Hv.
  Qed.

  Lemma good_store x f p w : good w -> plan_at w x = Some p -> extends_plan p (f p) ->
    (forall s, pl_cuts (f p) = Some s -> right_cuts (pl_assign p) s) ->
    (forall k d fields, dget (pl_tallies (f p)) k = Some d -> dget (e_updaters E) k = Some (UTally fields k) -> right_tally fields (pl_assign p) d) ->
    good (with_plan x f w).
  Proof.
    intros G Hx He Hc Ht. pose proof (reads_store x f w p Hx He) as R.
    pose proof (store_sound x f w p Hx He (gd_sound w G)) as S'. destruct G as [G0 G1 G2 G3 G4 G5 G6].
    assert (Cn : forall i, content (with_plan x f w) i = content w i) by (intros [i|]; reflexivity).
    split; [exact S'| | | | | |].
    - intros y p' q Hy Hq. destruct (reads_back _ _ _ _ _ R Hy) as (py & Hpy & A1 & A2 & A3 & _). rewrite A2 in Hq.
      destruct (G1 y py q Hpy Hq) as (pq & d & Hpq & Hd & Dd & Hf). destruct (reads_plan _ _ _ _ _ R Hpq) as (pq' & Hpq' & B1 & _).
      exists pq', d. split; [exact Hpq'|]. rewrite Cn, A3, A1, B1. auto.
    - intros y es p' d D Hy Hd. destruct (reads_back _ _ _ _ _ R Hy) as (py & Hpy & A1 & A2 & A3 & _). rewrite Cn, A3 in Hd. exact (G2 y es py d D Hpy Hd).
    - intros q y fl p' pq' d D Hy Hq Hd. destruct (reads_back _ _ _ _ _ R Hy) as (py & Hpy & A1 & A2 & A3 & _). destruct (reads_back _ _ _ _ _ R Hq) as (pq & Hpq & B1 & _).
      rewrite Cn, A3 in Hd. rewrite B1. exact (G3 q y fl py pq d D Hpy Hpq Hd).
    - intros y p' s Hy Hs. rewrite plan_at_with in Hy. destruct (Nat.eqb_spec y x) as [->|]; [|exact (G4 y p' s Hy Hs)].
      rewrite Hx in Hy. injection Hy as <-. rewrite (proj1 He). now apply Hc.
    - intros y p' k d fields Hy Hs Hk. rewrite plan_at_with in Hy. destruct (Nat.eqb_spec y x) as [->|]; [|exact (G5 y p' k d fields Hy Hs Hk)].
      rewrite Hx in Hy. injection Hy as <-. rewrite (proj1 He). eapply Ht; eassumption.
    - intros y p' j Hy Hj. destruct (reads_back _ _ _ _ _ R Hy) as (py & Hpy & A1 & A2 & A3 & _). rewrite Cn. apply (G6 y py j Hpy). congruence.
  Qed.

  Lemma good_known w x p q : good w -> plan_at w x = Some p -> pl_parent p = Some q ->
    exists pq d fl, plan_at w q = Some pq /\ content w (pl_flips p) = Ok d /\ is_dict d /\ flip_assignment (pl_assign pq) d = Ok (pl_assign p) /\
      flows_from_changes (a_map (pl_assign pq)) d = Ok fl /\
      fst (nf_call E x (pl_flips p) w) = Ok (neighbor_flips g d) /\ fst (fc_call q (pl_assign pq) x (pl_flips p) w) = Ok fl.
  Proof.
    intros G Hx Hq. destruct (gd_par w G x p q Hx Hq) as (pq & d & Hpq & Hd & Dd & Hf).
    pose proof Hf as Hf'. unfold flip_assignment in Hf'. apply bind_Ok in Hf'. destruct Hf' as (fl & Hfl & _).
    exists pq, d, fl. repeat (split; [assumption|]). split.
    - rewrite nf_eq. cbn [fst]. unfold lru_call. destruct (dget (w_nf w) x) as [es|] eqn:D.
      + cbn [fst]. f_equal. exact (gd_nf w G x es p d D Hx Hd).
      + unfold nf_comp. rewrite Hd. cbn [bind].
        replace (forallb (fun n => mem n (g_nodes g)) (dkeys d)) with true; [reflexivity|]. symmetry. apply forallb_forall. intros n Hn. apply mem_In.
        apply (coh_dom _ _ (s_coh w (gd_sound w G) q pq Hpq)). apply (fs_dom _ _ _ (flows_from_changes_spec _ _ _ Dd Hfl)). exact Hn.
    - rewrite fc_eq. cbn [fst]. unfold lru_call. destruct (dget (w_fc w) (q, x)) as [fl'|] eqn:D.
      + cbn [fst]. rewrite <- Hfl. symmetry. exact (gd_fc w G q x fl' p pq d D Hx Hpq Hd).
      + unfold fc_comp. rewrite Hd. cbn [bind]. rewrite Hfl. reflexivity.
  Qed.

  Lemma read_cuts_good (W : wf_graph g) fuel : forall x w p, good w -> plan_at w x = Some p -> x < fuel ->
    (exists s, fst (read_cuts E fuel x w) = Ok s /\ right_cuts (pl_assign p) s) /\ good (snd (read_cuts E fuel x w)).
  Proof.
    induction fuel as [|fuel IH]; intros x w p G Hx Hl; [lia|]. rewrite read_cuts_eq, Hx.
    destruct (pl_cuts p) as [s|] eqn:Ec; [split; [exists s; split; [reflexivity|exact (gd_cuts w G x p s Hx Ec)]|exact G]|].
    pose proof (gd_sound w G) as S. pose proof (s_coh w S x p Hx) as C.
    pose (wn := fun v => snd (nf_call E x (pl_flips p) v)).
    assert (Gn : forall v, good v -> plan_at v x = Some p -> good (wn v)) by (intros v Gv Hv; now apply good_nf).
    assert (Pn : forall v y, plan_at (wn v) y = plan_at v y) by (intros v y; unfold wn; rewrite nf_eq; reflexivity).
    assert (Hrec : forall q, pl_parent p = Some q -> exists pq, plan_at w q = Some pq /\
              (exists s, fst (read_cuts E fuel q (wn (wn w))) = Ok s /\ right_cuts (pl_assign pq) s) /\ good (snd (read_cuts E fuel q (wn (wn w))))).
    { intros q Hq. destruct (gd_par w G x p q Hx Hq) as (pq & d & Hpq & _). exists pq. split; [exact Hpq|].
      apply IH; [|now rewrite !Pn|pose proof (s_par w S x p q Hx Hq); lia]. apply Gn; [|now rewrite Pn]. now apply Gn. }
    destruct (cuts_body_right (read_cuts E fuel) x p w W C) as (s & Hs & Rs).
    { intros q Hq. destruct (good_known w x p q G Hx Hq) as (pq & d & fl & Hpq & Hd & Dd & Hf & _ & Hnf & _).
      destruct (Hrec q Hq) as (pq' & Hpq' & (s & Hs & Rs) & _). replace pq' with pq in Rs by congruence.
      exists pq, d. split; [exact Hpq|]. split; [exact (s_coh w S q pq Hpq)|]. split; [exact (flip_district _ _ _ _ (s_coh w S q pq Hpq) Dd Hf)|]. split; [exact Hnf|]. exists s. split; assumption. }
    assert (Gb : good (snd (cuts_body (read_cuts E fuel) x p w))).
    { clear Hs. unfold cuts_body. destruct (pl_parent p) as [q|] eqn:Eq; [|exact G].
      destruct (Hrec q eq_refl) as (pq & Hpq & _ & Gr). unfold andthen at 1. unfold the_plan. rewrite Hpq. cbn [of_option].
      destruct (a_parts (pl_assign pq)); [exact G|]. unfold wn in Gr, Gn, Pn. unfold andthen.
      pose proof (Gn w G Hx) as G1. pose proof (Pn w x) as P1. destruct (nf_call E x (pl_flips p) w) as [r1 w1]. cbn [snd] in *. rewrite Hx in P1.
      destruct r1 as [es|e|]; [|exact G1|exact G1]. cbn [just]. destruct (new_among (pl_assign p) es) as [new|e|]; [|exact G1|exact G1].
      pose proof (Gn w1 G1 P1) as G2. destruct (nf_call E x (pl_flips p) w1) as [r2 w2]. cbn [snd] in *.
      destruct r2 as [es'|e|]; [|exact G2|exact G2]. destruct (gone_among (pl_assign pq) (pl_assign p) es') as [gone|e|]; [|exact G2|exact G2].
      destruct (read_cuts E fuel q w2) as [[prev|e|] w3]; exact Gr. }
    destruct (cuts_body_tame (read_cuts E fuel) x p) with (w := w) as [_ R1]; [|exact (plan_at_lt _ _ _ Hx)|exact S|].
    { intros q Hq v _ Sv. destruct (read_cuts_tame fuel q v Sv) as [Sq Rq]. split; [exact Sq|]. apply (reads_weaken (Datatypes.S q)); [|exact Rq]. exact (s_par w S x p q Hx Hq). }
    unfold andthen. destruct (cuts_body (read_cuts E fuel) x p w) as [r w1]. cbn [fst snd] in *. subst r. cbn [fst snd].
    assert (Hx1 : plan_at w1 x = Some p). { rewrite <- Hx. apply R1. lia. }
    split; [exists s; split; [reflexivity|exact Rs]|].
    apply (good_store x (keep_cuts s) p w1 Gb Hx1).
    - repeat split; auto. cbn. intros s' Hs. congruence.
    - cbn [keep_cuts pl_cuts]. intros s' [= <-]. exact Rs.
    - cbn [keep_cuts pl_tallies]. intros k d fields. apply (gd_tally w1 Gb x p k d fields Hx1).
  Qed.

  (** No plan of the world has an empty district. *)
  Definition all_inhabited w : Prop := forall x p, plan_at w x = Some p -> no_empty_district g (pl_assign p).
  Lemma answer_weaken fields A (R R' : Prop) r : (R' -> R) -> tally_answer fields A R r -> tally_answer fields A R' r.
  Proof. intros H (T0 & T1 & T2). split; [exact T0|]. split; [exact T1|auto]. Qed.

  Lemma read_tally_good k fields (Hk : dget (e_updaters E) k = Some (UTally fields k)) fuel : forall x w p, good w -> plan_at w x = Some p -> x < fuel ->
    tally_answer fields (pl_assign p) (has_data fields /\ all_inhabited w) (fst (read_tally E fuel x k w)) /\ good (snd (read_tally E fuel x k w)).
  Proof.
    induction fuel as [|fuel IH]; intros x w p G Hx Hl; [lia|]. rewrite read_tally_eq, Hx.
    destruct (dget (pl_tallies p) k) as [t|] eqn:Ec.
    { split; [|exact G]. split; [discriminate|]. split; [|intros _; exists t; reflexivity]. intros d [= <-]. exact (gd_tally w G x p k t fields Hx Ec Hk). }
    rewrite Hk. pose proof (gd_sound w G) as S. pose proof (s_coh w S x p Hx) as C.
    assert (B : tally_answer fields (pl_assign p) (has_data fields /\ all_inhabited w) (fst (tally_body (read_tally E fuel) fields k x p w)) /\ good (snd (tally_body (read_tally E fuel) fields k x p w))).
    { unfold tally_body. destruct (pl_parent p) as [q|] eqn:Eq.
      2:{ split; [|exact G]. apply (answer_weaken _ _ (has_data fields)); [tauto|]. exact (scratch_answer fields (pl_assign p) C). }
      destruct (gd_par w G x p q Hx Eq) as (pq & d0 & Hpq & _). pose proof (s_par w S x p q Hx Eq) as Lq.
      destruct (IH q w pq G Hpq ltac:(lia)) as [(T0 & T1 & T2) G1]. destruct (read_tally_tame fuel q k w S) as [S1 R1].
      unfold andthen at 1 4. unfold the_plan. rewrite Hpq. cbn [of_option]. unfold andthen.
      destruct (read_tally E fuel q k w) as [[old|e|] w1]; cbn [fst snd] in *.
      2:{ split; [|exact G1]. split; [discriminate|]. split; [discriminate|]. intro H. destruct (T2 H) as [d Hd]. discriminate Hd. }
      2:{ exfalso. now apply T0. }
      assert (Hx1 : plan_at w1 x = Some p). { rewrite <- Hx. apply R1. lia. }
      destruct (good_known w1 x p q G1 Hx1 Eq) as (pq1 & d & fl & Hpq1 & Hd & Dd & Hf & Hfl & _ & Hfc).
      assert (EA : pl_assign pq1 = pl_assign pq). { destruct (reads_back _ _ _ _ _ R1 Hpq1) as (pq' & Hpq' & A1 & _). congruence. }
      rewrite EA in *. pose proof (good_fc q x pq1 p w1 G1 Lq Hx1 Hpq1) as G2. rewrite EA in G2.
      destruct (fc_call q (pl_assign pq) x (pl_flips p) w1) as [r2 w2]. cbn [fst snd] in *. subst r2. cbn [just fst snd]. split; [|exact G2].
      apply (answer_weaken _ _ (has_data fields /\ no_empty_district g (pl_assign pq))).
      { intros [H1 H2]. split; [exact H1|exact (H2 q pq Hpq)]. }
      exact (step_answer fields (pl_assign pq) d fl (pl_assign p) old (s_coh w S q pq Hpq) C Dd Hf Hfl (T1 old eq_refl)). }
    destruct (tally_body_tame (read_tally E fuel) fields k x p) with (w := w) as [_ R1]; [intros q Hq; exact (s_par w S x p q Hx Hq)| |exact (plan_at_lt _ _ _ Hx)|exact S|].
    { intros q Hq v _ Sv. destruct (read_tally_tame fuel q k v Sv) as [Sq Rq]. split; [exact Sq|]. apply (reads_weaken (Datatypes.S q)); [|exact Rq]. exact (s_par w S x p q Hx Hq). }
    destruct B as [(T0 & T1 & T2) Gb]. unfold andthen. destruct (tally_body (read_tally E fuel) fields k x p w) as [[t|e|] w1]; cbn [fst snd] in *.
    2:{ split; [|exact Gb]. split; [exact T0|]. split; [exact T1|exact T2]. }
    2:{ exfalso. now apply T0. }
    assert (Hx1 : plan_at w1 x = Some p). { rewrite <- Hx. apply R1. lia. }
    split; [split; [exact T0|split; [exact T1|exact T2]]|].
    apply (good_store x (keep_tally k t) p w1 Gb Hx1).
    - repeat split; auto. cbn [keep_tally pl_tallies]. intros k' d' Hd. destruct (eqb_spec k' k) as [Ek|Nk]; [congruence|]. rewrite dget_dset_neq; [exact Hd|congruence].
    - cbn [keep_tally pl_cuts]. intros s. apply (gd_cuts w1 Gb x p s Hx1).
    - cbn [keep_tally pl_tallies]. intros k' d fields' Hd Hk'. destruct (eqb_spec k' k) as [Ek|Nk].
      + subst k'. rewrite dget_dset_eq in Hd. injection Hd as <-. rewrite Hk in Hk'. injection Hk' as <-. now apply T1.
      + rewrite dget_dset_neq in Hd by congruence. exact (gd_tally w1 Gb x p k' d fields' Hx1 Hd Hk').
  Qed.

  (** Every Tally is registered under its alias. *)
  Definition tallies_registered : Prop := forall k fields alias, dget (e_updaters E) k = Some (UTally fields alias) -> alias = k.

  Lemma cuts_good x w : wf_graph g -> good w -> good (snd (cuts E x w)).
  Proof.
    intros W G. unfold cuts. destruct (dmem (e_updaters E) "cut_edges"); [|exact G]. destruct (plan_at w x) as [p|] eqn:Hx.
    - apply (read_cuts_good W _ x w p G Hx). pose proof (plan_at_lt _ _ _ Hx). lia.
    - rewrite read_cuts_eq, Hx. exact G.
  Qed.
  Lemma tallied_good x k w : tallies_registered -> good w -> good (snd (tallied E x k w)).
  Proof.
    intros Reg G. unfold tallied. destruct (plan_at w x) as [p|] eqn:Hx.
    - destruct (dget (e_updaters E) k) as [u|] eqn:Hk.
      + destruct u as [| |fields alias| | | | | | | | | |];
          try (rewrite read_tally_eq, Hx, Hk; destruct (dget (pl_tallies p) k); exact G).
        rewrite (Reg k fields alias Hk) in Hk. apply (read_tally_good k fields Hk _ x w p G Hx). pose proof (plan_at_lt _ _ _ Hx). lia.
      + rewrite read_tally_eq, Hx, Hk. destruct (dget (pl_tallies p) k); exact G.
    - rewrite read_tally_eq, Hx. exact G.
  Qed.

  (** Changing dictionaries that no plan uses. *)
  Lemma good_dicts w w' : good w -> Forall is_dict (w_dicts w') -> w_plans w' = w_plans w -> w_nf w' = w_nf w -> w_fc w' = w_fc w ->
    (forall x p d, plan_at w x = Some p -> (content w (pl_flips p) = Ok d <-> content w' (pl_flips p) = Ok d)) -> good w'.
  Proof.
    intros [G0 G1 G2 G3 G4 G5 G6] D Ep En Ef Hc. pose proof (fun y => plan_at_plans w w' y Ep) as PA.
    split.
    - apply (sound_plans w); assumption.
    - intros x p q Hx Hq. rewrite PA in Hx. destruct (G1 x p q Hx Hq) as (pq & d & H1 & H2 & H3). exists pq, d. rewrite PA. split; [exact H1|]. split; [now apply (Hc x p d Hx)|exact H3].
    - intros x es p d H1 H2 H3. rewrite En in H1. rewrite PA in H2. apply (G2 x es p d H1 H2). now apply (Hc x p d H2).
    - intros q x fl p pq d H1 H2 H3 H4. rewrite Ef in H1. rewrite PA in H2, H3. apply (G3 q x fl p pq d H1 H2 H3). now apply (Hc x p d H2).
    - intros x p s Hx. rewrite PA in Hx. exact (G4 x p s Hx).
    - intros x p k d f Hx. rewrite PA in Hx. exact (G5 x p k d f Hx).
    - intros x p j Hx Hj. rewrite PA in Hx. destruct (G6 x p j Hx Hj) as [d Hd]. exists d. rewrite <- Hj in *. now apply (Hc x p d Hx).
  Qed.
  Lemma content_dicts w w' i : (forall j, i = Some j -> nth_error (w_dicts w') j = nth_error (w_dicts w) j) -> content w' i = content w i.
  Proof. intro H. destruct i as [j|]; [|reflexivity]. unfold content. cbn [of_option bind]. now rewrite (H j eq_refl). Qed.

  Lemma flip_good a i w : wf_graph g -> good w -> good (snd (flip E a i w)).
  Proof.
    intros W G. pose proof (gd_sound w G) as S. pose proof (proj1 (flip_sound w a i W S)) as S'.
    destruct (flip_cases w a i W S) as [(pa & d & fl & A & w' & Ea & Ei & Ef & EA & Hflip & Ew)|(w' & (r & Hflip & _) & _ & c & Ew & Hc)]; rewrite Hflip in *; cbn [snd] in *; clear Hflip.
    - set (np := mkPlan A (Some a) (Some i) None []) in *. set (nx := List.length (w_plans w)) in *.
      assert (PA : forall y, plan_at w' y = if Nat.eqb y nx then Some np else plan_at w y).
      { intro y. rewrite Ew. exact (plan_at_add (Some np) w y). }
      assert (Cn : forall j, content w' j = content w j) by (rewrite Ew; intros [j|]; reflexivity).
      assert (Dd : is_dict d). { apply (proj1 (Forall_forall _ _) (s_dicts w S)). eapply nth_error_In; exact Ei. }
      assert (Hf : flip_assignment (pl_assign pa) d = Ok A). { unfold flip_assignment. rewrite Ef. cbn [bind]. exact EA. }
      assert (Cd : content w (Some i) = Ok d) by (unfold content; cbn [of_option bind]; rewrite Ei; reflexivity).
      pose proof (plan_at_lt _ _ _ Ea) as La. fold nx in La.
      destruct G as [G0 G1 G2 G3 G4 G5 G6]. split; [exact S'| | | | | |].
      + intros y p q Hy Hq. rewrite Cn. rewrite PA in Hy. destruct (Nat.eqb_spec y nx) as [Ey|Ny].
        * injection Hy as <-. injection Hq as <-. exists pa, d. rewrite PA. destruct (Nat.eqb_spec a nx); [lia|]. auto.
        * destruct (G1 y p q Hy Hq) as (pq & dq & H1 & H2). exists pq, dq. rewrite PA. pose proof (plan_at_lt _ _ _ H1) as Lq. fold nx in Lq. destruct (Nat.eqb_spec q nx); [lia|]. auto.
      + intros y es p dy D Hy Hd. rewrite Cn in Hd. rewrite PA in Hy. destruct (Nat.eqb_spec y nx) as [Ey|Ny].
        * injection Hy as <-. cbn [np pl_flips] in Hd. replace dy with d by congruence. subst y. rewrite Ew in D. cbn [w_nf] in D. destruct (dmem (e_updaters E) "cut_edges").
          -- cbn [dget] in D. rewrite eqb_refl in D. congruence.
          -- apply (s_nf w S) in D. fold nx in D. lia.
        * apply (G2 y es p dy); [|exact Hy|exact Hd]. rewrite Ew in D. cbn [w_nf] in D. destruct (dmem (e_updaters E) "cut_edges"); [|exact D]. apply dget_head in D. destruct D as [D|D]; [contradiction|exact D].
      + intros q y fl' p pq dy D Hy Hq Hd. rewrite Cn in Hd. rewrite Ew in D. cbn [w_fc] in D. rewrite PA in Hy, Hq. destruct (Nat.eqb_spec y nx) as [Ey|Ny].
        * injection Hy as <-. cbn [np pl_flips] in Hd. replace dy with d by congruence. subst y. destruct (Nat.eqb_spec q nx) as [Eq|Nq].
          -- pose proof D as D'. apply dget_head in D'. destruct D' as [D'|D']; [injection D' as Hqa; lia|]. apply (s_fc w S) in D'. fold nx in D'. lia.
          -- cbn [dget] in D. destruct (eqb_spec (q, nx) (a, nx)) as [Eqa|Nqa].
             ++ injection D as <-. injection Eqa as ->. replace pq with pa by congruence. exact Ef.
             ++ exfalso. assert (D' : dget (w_fc w) (q, nx) = Some fl'). { clear - D. destruct (w_fc w) as [|[k v] cc]; [discriminate D|]. cbn [firstn dget] in *. destruct (eqb (q, nx) k); [exact D|discriminate D]. } apply (s_fc w S) in D'. fold nx in D'. lia.
        * destruct (Nat.eqb_spec q nx) as [Eq|Nq].
          -- exfalso. pose proof (plan_at_lt _ _ _ Hy) as Ly. fold nx in Ly. apply dget_head in D. destruct D as [D|D]; [injection D as D1 D2; lia|].
             apply (s_fc w S) in D. fold nx in D. lia.
          -- apply (G3 q y fl' p pq dy); auto. apply dget_head in D. destruct D as [D|D]; [congruence|exact D].
      + intros y p s Hy Hs. rewrite PA in Hy. destruct (Nat.eqb y nx); [injection Hy as <-; discriminate Hs|exact (G4 y p s Hy Hs)].
      + intros y p k t f Hy Hs. rewrite PA in Hy. destruct (Nat.eqb y nx); [injection Hy as <-; discriminate Hs|exact (G5 y p k t f Hy Hs)].
      + intros y p j Hy Hj. rewrite Cn. rewrite PA in Hy. destruct (Nat.eqb y nx); [injection Hy as <-; injection Hj as <-; eauto|exact (G6 y p j Hy Hj)].
    - set (nx := List.length (w_plans w)) in *.
      assert (PA : forall y, plan_at w' y = if Nat.eqb y nx then None else plan_at w y).
      { intro y. rewrite Ew. exact (plan_at_add None w y). }
      assert (Cn : forall j, content w' j = content w j) by (rewrite Ew; intros [j|]; reflexivity).
      destruct G as [G0 G1 G2 G3 G4 G5 G6]. split; [exact S'| | | | | |].
      + intros y p q Hy Hq. rewrite Cn. rewrite PA in Hy. destruct (Nat.eqb_spec y nx) as [Ey|Ny]; [discriminate|].
        destruct (G1 y p q Hy Hq) as (pq & dq & H1 & H2). exists pq, dq. rewrite PA. pose proof (plan_at_lt _ _ _ H1) as Lq. fold nx in Lq. destruct (Nat.eqb_spec q nx); [lia|]. auto.
      + intros y es p dy D Hy Hd. rewrite Cn in Hd. rewrite PA in Hy. destruct (Nat.eqb_spec y nx) as [Ey|Ny]; [discriminate|].
        apply (G2 y es p dy); [|exact Hy|exact Hd]. rewrite Ew in D. exact D.
      + intros q y fl' p pq dy D Hy Hq Hd. rewrite Cn in Hd. rewrite Ew in D. cbn [w_fc] in D. rewrite PA in Hy, Hq. destruct (Nat.eqb_spec y nx) as [Ey|Ny]; [discriminate|].
        destruct (Nat.eqb_spec q nx) as [Eq|Nq]; [discriminate|]. apply (G3 q y fl' p pq dy); auto.
        destruct Hc as [->|(_ & f' & ->)]; [exact D|]. apply dget_head in D. destruct D as [D|D]; [congruence|exact D].
      + intros y p s Hy Hs. rewrite PA in Hy. destruct (Nat.eqb y nx); [discriminate|exact (G4 y p s Hy Hs)].
      + intros y p k t f Hy Hs. rewrite PA in Hy. destruct (Nat.eqb y nx); [discriminate|exact (G5 y p k t f Hy Hs)].
      + intros y p j Hy Hj. rewrite Cn. rewrite PA in Hy. destruct (Nat.eqb y nx); [discriminate|exact (G6 y p j Hy Hj)].
  Qed.

  Lemma step_good w c : wf_graph g -> tallies_registered -> good w -> dict_cmd c ->
    (forall i x p, writes_to c = Some i -> plan_at w x = Some p -> pl_flips p <> Some i) -> good (step E w c).
  Proof.
    intros W Reg G Hd Hu. pose proof (proj1 (step_sound w c W (gd_sound w G) Hd)) as S'.
    destruct c as [d|i n q|i n|a i|x|x k|x]; cbn [step writes_to] in *.
    - apply (good_dicts w); auto; [exact (s_dicts _ S')|]. intros x p d' Hx.
      rewrite (content_dicts w (mkWorld (w_dicts w ++ [d]) (w_plans w) (w_nf w) (w_fc w))); [reflexivity|].
      intros j Hj. destruct (gd_ref w G x p j Hx Hj) as [dj Hdj]. cbn [w_dicts]. apply nth_error_app1. apply nth_error_Some.
      unfold content in Hdj. cbn [of_option bind] in Hdj. destruct (nth_error (w_dicts w) j); [discriminate|discriminate Hdj].
    - apply (good_dicts w); auto; [exact (s_dicts _ S')|]. intros x p d' Hx. rewrite (content_dicts w (with_dict i (fun d => dset d n q) w)); [reflexivity|].
      intros j Hj. cbn [with_dict w_dicts]. rewrite nth_set_nth. destruct (Nat.eqb_spec j i) as [->|]; [|reflexivity]. exfalso. exact (Hu i x p eq_refl Hx Hj).
    - apply (good_dicts w); auto; [exact (s_dicts _ S')|]. intros x p d' Hx. rewrite (content_dicts w (with_dict i (without n) w)); [reflexivity|].
      intros j Hj. cbn [with_dict w_dicts]. rewrite nth_set_nth. destruct (Nat.eqb_spec j i) as [->|]; [|reflexivity]. exfalso. exact (Hu i x p eq_refl Hx Hj).
    - now apply flip_good.
    - now apply cuts_good.
    - now apply tallied_good.
    - assert (PA : forall y, plan_at (with_plan x drop_parent w) y = if Nat.eqb y x then option_map drop_parent (plan_at w y) else plan_at w y) by (intro; apply plan_at_with).
      assert (Cn : forall j, content (with_plan x drop_parent w) j = content w j) by (intros [j|]; reflexivity).
      assert (Bk : forall y p, plan_at (with_plan x drop_parent w) y = Some p -> exists p0, plan_at w y = Some p0 /\ pl_assign p = pl_assign p0 /\ pl_flips p = pl_flips p0 /\ pl_cuts p = pl_cuts p0 /\ pl_tallies p = pl_tallies p0 /\ forall q, pl_parent p = Some q -> pl_parent p0 = Some q).
      { intros y p Hy. rewrite PA in Hy. destruct (Nat.eqb y x); [|exists p; auto 10]. destruct (plan_at w y) as [p0|]; [|discriminate]. injection Hy as <-. exists p0. repeat split; auto. discriminate. }
      destruct G as [G0 G1 G2 G3 G4 G5 G6]. split; [exact S'| | | | | |].
      + intros y p q Hy Hq. destruct (Bk y p Hy) as (p0 & Hy0 & B1 & B2 & B3 & B4 & B5). destruct (G1 y p0 q Hy0 (B5 q Hq)) as (pq & d & H1 & H2 & H3 & H4).
        rewrite Cn, B1, B2, PA, H1. destruct (Nat.eqb q x); [exists (drop_parent pq), d|exists pq, d]; auto.
      + intros y es p d D Hy Hdd. destruct (Bk y p Hy) as (p0 & Hy0 & B1 & B2 & _). rewrite Cn, B2 in Hdd. exact (G2 y es p0 d D Hy0 Hdd).
      + intros q y fl p pq d D Hy Hq Hdd. destruct (Bk y p Hy) as (p0 & Hy0 & B1 & B2 & _). destruct (Bk q pq Hq) as (pq0 & Hq0 & C1 & _). rewrite Cn, B2 in Hdd. rewrite C1. exact (G3 q y fl p0 pq0 d D Hy0 Hq0 Hdd).
      + intros y p s Hy Hs. destruct (Bk y p Hy) as (p0 & Hy0 & B1 & B2 & B3 & _). rewrite B1. rewrite B3 in Hs. exact (G4 y p0 s Hy0 Hs).
      + intros y p k t f Hy Hs. destruct (Bk y p Hy) as (p0 & Hy0 & B1 & B2 & B3 & B4 & _). rewrite B1. rewrite B4 in Hs. exact (G5 y p0 k t f Hy0 Hs).
      + intros y p j Hy Hj. destruct (Bk y p Hy) as (p0 & Hy0 & B1 & B2 & _). rewrite Cn. apply (G6 y p0 j Hy0). congruence.
  Qed.

  Lemma perform_good cs : forall w, wf_graph g -> tallies_registered -> good w -> Forall dict_cmd cs -> untouched cs w -> good (perform E cs w).
  Proof.
    induction cs as [|c cs IH]; intros w W Reg G Hd Hu; [exact G|]. inversion Hd; subst. destruct Hu as [Hu1 Hu2].
    cbn [perform fold_left]. apply IH; auto. now apply step_good.
  Qed.
  Lemma start_good d w : is_dict d -> start E d = Ok w -> good w.
  Proof.
    intros D H. pose proof (start_sound d w D H) as S. unfold start in H. apply bind_Ok in H. destruct H as (A & HA & [= <-]).
    split; [exact S| | | | | |]; try discriminate.
    - intros [|x] p q Hx; [|destruct x; discriminate Hx]. injection Hx as <-. discriminate.
    - intros [|x] p q Hx; [|destruct x; discriminate Hx]. injection Hx as <-. discriminate.
    - intros [|x] p q t f Hx; [|destruct x; discriminate Hx]. injection Hx as <-. discriminate.
    - intros [|x] p q Hx; [|destruct x; discriminate Hx]. injection Hx as <-. discriminate.
  Qed.

  (** If the dictionaries of plans are left alone, every answer is right: the two
      caches and the sharing cannot be seen. *)
  Theorem C121_untouched : forall d w0 cs w x p,
    wf_graph g -> tallies_registered -> is_dict d -> start E d = Ok w0 -> Forall dict_cmd cs -> untouched cs w0 ->
    w = perform E cs w0 -> plan_at w x = Some p ->
    (dmem (e_updaters E) "cut_edges" = true -> exists s, fst (cuts E x w) = Ok s /\ right_cuts (pl_assign p) s) /\
    (forall k fields, dget (e_updaters E) k = Some (UTally fields k) ->
       tally_answer fields (pl_assign p) (has_data fields /\ all_inhabited w) (fst (tallied E x k w))).
  Proof.
    intros d w0 cs w x p W Reg D H0 Hd Hu -> Hx. pose proof (perform_good cs w0 W Reg (start_good d w0 D H0) Hd Hu) as G.
    pose proof (plan_at_lt _ _ _ Hx) as Lx. split.
    - intro Hc. unfold cuts. rewrite Hc. apply (read_cuts_good W _ x _ p G Hx). lia.
    - intros k fields Hk. unfold tallied. apply (read_tally_good k fields Hk _ x _ p G Hx). lia.
  Qed.
End Flips.
Print Assumptions C121_districts_fixed.
Print Assumptions C121_values_kept.
Print Assumptions C121_window.
Print Assumptions C121_untouched.

(** ** Examples *)
Definition fl_graph : graph nat := mkGraph [0; 1; 2; 3] [(0, 1); (1, 2); (2, 3)].
Definition fl_data (n : nat) : Z := nth n [5; 7; 11; 13]%Z 0%Z.
Definition fl_env : env nat nat Z nat :=
  mkEnv fl_graph (fun f n => if String.eqb f "POP" then Some (Num (fl_data n)) else None)
    (fun _ => false) (fun _ => 0%Z) (fun _ => 0%Z) (fun _ _ => None)
    [("cut_edges", UCutEdges); ("POP", UTally ["POP"] "POP")].
Definition fl_start : dict nat nat := [(0, 0); (1, 0); (2, 1); (3, 1)].
(** One dictionary is used for three flips and nothing is read in between. *)
Definition fl_reuse : list (cmd nat nat) :=
  [NewDict [(1, 1)]; Flip 0 0; Delete 0 1; Write 0 3 0; Flip 1 0; Delete 0 3; Write 0 2 0; Flip 2 0].
(** After the values of the first plan were read and one plan was made: a change
    of its dictionary, two more plans. *)
Definition fl_before : list (cmd nat nat) := [NewDict [(1, 1)]; NewDict []; ReadCuts 0; ReadTally 0 "POP"].
Definition fl_after : list (cmd nat nat) := [Delete 0 1; Flip 0 1; Flip 0 1].
(** Each flip with a dictionary of its own; dictionaries are only changed before. *)
Definition fl_clean : list (cmd nat nat) :=
  [NewDict [(1, 1)]; NewDict []; Flip 0 0; Write 1 3 0; Flip 1 1; NewDict [(2, 0)]; Flip 2 2; Forget 1; Flip 0 2].
Definition fl_world (cs : list (cmd nat nat)) : world nat nat Z :=
  match start fl_env fl_start with Ok w => perform fl_env cs w | _ => mkWorld [] [] [] [] end.

Lemma fl_wf : wf_graph fl_graph.
Proof.
  split; cbn.
  - repeat constructor; cbn; intuition discriminate.
  - repeat constructor; cbn; intuition discriminate.
  - intros u v H. repeat destruct H as [H|H]; try (injection H as <- <-; auto 10); contradiction.
  - intros u v H H'. repeat destruct H as [H|H]; try (injection H as <- <-; repeat destruct H' as [H'|H']; discriminate || contradiction); contradiction.
Qed.

Lemma fl_data_nonneg n : (0 <= fl_data n)%Z.
Proof. destruct n as [|[|[|[|n]]]]; cbn; try lia. destruct n; cbn; lia. Qed.
Lemma fl_sum_nonneg s : (0 <= vsum (map (fun n => vsum (map (fun _ : string => fl_data n) ["POP"])) s))%Z.
Proof.
  induction s as [|n s IH]; [cbn; lia|]. cbn [map] in *. rewrite !vsum_cons in *. pose proof (fl_data_nonneg n). change (@vsum Z _ []) with 0%Z. cbn [cadd CRing_Z] in *. lia.
Qed.
Lemma fl_reached cs : Forall dict_cmd cs -> reached fl_env (fl_world cs).
Proof.
  intro H. eexists fl_start, _, cs. split; [repeat constructor; cbn; intuition discriminate|]. split; [reflexivity|]. split; [exact H|reflexivity].
Qed.

Lemma fl_registered : tallies_registered fl_env.
Proof. intros k f al. cbn [fl_env e_updaters dget]. destruct (eqb_spec k "cut_edges"); [discriminate|]. destruct (eqb_spec k "POP") as [->|]; [|discriminate]. now intros [= _ <-]. Qed.
Lemma fl_dict : is_dict fl_start.
Proof. repeat constructor; cbn; intuition discriminate. Qed.

(** Reusing one dictionary without reading: the last plan's own dictionary is
    what it was made with, and its cut edges and tally are wrong. *)
Theorem C121_reuse_refuted : exists w x p s t,
  reached fl_env w /\ w = fl_world fl_reuse /\ plan_at w x = Some p /\
  flips_of w x = Some [(2, 0)] /\ map (fun n => district (pl_assign p) n) [0; 1; 2; 3] = [Some 0; Some 1; Some 0; Some 0] /\
  fst (cuts fl_env x w) = Ok s /\ ~ right_cuts fl_env (pl_assign p) s /\
  fst (tallied fl_env x "POP" w) = Ok t /\ ~ right_tally fl_env ["POP"] (pl_assign p) t.
Proof.
  exists (fl_world fl_reuse), 3. eexists. eexists. eexists. split; [|split; [reflexivity|]].
  - apply fl_reached. repeat constructor; cbn; intuition discriminate.
  - split; [vm_compute; reflexivity|]. split; [vm_compute; reflexivity|]. split; [vm_compute; reflexivity|]. split; [vm_compute; reflexivity|]. split; [|split; [vm_compute; reflexivity|]].
    + intros [_ H]. assert (X : In (0, 1) [(1, 2)]). { apply H. split; [reflexivity|]. split; [left; cbn; auto|vm_compute; discriminate]. } cbn in X. intuition discriminate.
    + intros (_ & _ & H). destruct (H (fun _ => fl_data)) as [H1 _].
      { intros f [<-|[]] n _. reflexivity. }
      destruct (H1 1 (Num (-9)%Z) eq_refl) as (y & [= Ey] & s & _ & _ & Hs). pose proof (fl_sum_nonneg s). lia.
Qed.

(** The bound of one more plan is sharp: with two, both answers are wrong. *)
Theorem C121_window_sharp_refuted : exists w a i x w1 cs pa p s t,
  reached fl_env w /\ flip fl_env a i w = (Ok x, w1) /\ plan_at w a = Some pa /\ plan_at w1 x = Some p /\
  forallb quiet_cmd cs = true /\ Forall dict_cmd cs /\ List.length (filter is_flip cs) = 2 /\
  pl_cuts pa = Some [(1, 2)] /\ right_cuts fl_env (pl_assign pa) [(1, 2)] /\ dget (pl_tallies pa) "POP" = Some [(0, Num 12%Z); (1, Num 24%Z)] /\
  right_tally fl_env ["POP"] (pl_assign pa) [(0, Num 12%Z); (1, Num 24%Z)] /\
  fst (cuts fl_env x (perform fl_env cs w1)) = Ok s /\ ~ right_cuts fl_env (pl_assign p) s /\
  fst (tallied fl_env x "POP" (perform fl_env cs w1)) = Ok t /\ ~ right_tally fl_env ["POP"] (pl_assign p) t.
Proof.
  exists (fl_world fl_before), 0, 0. eexists. eexists. exists fl_after. eexists. eexists. eexists. eexists.
  assert (Dc : Forall (@dict_cmd nat nat) fl_before). { repeat constructor; cbn; intuition discriminate. }
  split; [apply fl_reached; exact Dc|].
  split; [vm_compute; reflexivity|]. split; [vm_compute; reflexivity|]. split; [vm_compute; reflexivity|]. split; [reflexivity|].
  split; [repeat constructor|]. split; [reflexivity|]. split; [reflexivity|].
  assert (U := C121_untouched fl_env fl_start _ fl_before (fl_world fl_before) 0 _ fl_wf fl_registered fl_dict eq_refl Dc ltac:(cbn [untouched fl_before writes_to]; repeat split; discriminate) eq_refl eq_refl).
  destruct U as [U1 U2]. destruct (U1 eq_refl) as (s0 & Hs0 & Rs0). vm_compute in Hs0. injection Hs0 as <-.
  destruct (U2 "POP" ["POP"] eq_refl) as (_ & U3 & _). assert (Rt0 := U3 [(0, Num 12%Z); (1, Num 24%Z)] eq_refl).
  split; [exact Rs0|]. split; [reflexivity|]. split; [exact Rt0|].
  split; [vm_compute; reflexivity|]. split; [|split; [vm_compute; reflexivity|]].
  - intros [_ H]. assert (X : In (0, 1) [(1, 2)]). { apply H. split; [reflexivity|]. split; [left; cbn; auto|vm_compute; discriminate]. } cbn in X. intuition discriminate.
  - intros (_ & _ & H). destruct (H (fun _ => fl_data)) as [H1 _].
    { intros f [<-|[]] n _. reflexivity. }
    destruct (H1 0 (Num 12%Z) eq_refl) as (y & [= Ey] & s & Ns & Is & Hs).
    assert (Perm : Permutation s [0]).
    { apply NoDup_Permutation; [exact Ns|repeat constructor; intros []|]. intro n. rewrite Is. split.
      - intros [Hn Hd]. cbn in Hn. destruct Hn as [<-|[<-|[<-|[<-|[]]]]]; vm_compute in Hd; try discriminate; now left.
      - intros [<-|[]]. split; [cbn; auto|reflexivity]. }
    apply Permutation_sym, Permutation_length_1_inv in Perm. subst s. subst y. discriminate Hs.
Qed.

(** The hypotheses of C121_untouched hold of a program that changes dictionaries
    before they are used, makes four plans and drops a parent. *)
Example C121_untouched_example :
  Forall dict_cmd fl_clean /\
  (exists w0, start fl_env fl_start = Ok w0 /\ untouched fl_env fl_clean w0) /\
  fst (cuts fl_env 3 (fl_world fl_clean)) = Ok [(0, 1); (1, 2)] /\
  fst (tallied fl_env 3 "POP" (fl_world fl_clean)) = Ok [(0, Num 29%Z); (1, Num 7%Z)].
Proof.
  split; [repeat constructor; cbn; intuition discriminate|]. split; [|split; vm_compute; reflexivity].
  eexists. split; [reflexivity|].
  repeat match goal with |- untouched _ (_ :: _) _ => split; [try discriminate|] | |- untouched _ [] _ => exact I | |- untouched _ ?l _ => unfold fl_clean end.
  intros i x p [= <-]. unfold plan_at. vm_compute. destruct x as [|[|x]]; [intros [= <-]; discriminate|intros [= <-]; discriminate|destruct x; discriminate].
Qed.
(** The hypotheses of C121_window hold: after the program of the sharpness
    theorem a plan is made, its dictionary is changed, one more plan is made. *)
Example C121_window_example : exists x w1,
  flip fl_env 0 0 (fl_world fl_before) = (Ok x, w1) /\ brief [Delete 0 1; Write 0 3 0; Flip 0 0] /\
  fst (cuts fl_env x (perform fl_env [Delete 0 1; Write 0 3 0; Flip 0 0] w1)) = Ok [(0, 1)].
Proof. eexists. eexists. split; [vm_compute; reflexivity|]. split; [split; [reflexivity|cbn; lia]|vm_compute; reflexivity]. Qed.
Print Assumptions C121_reuse_refuted.
Print Assumptions C121_window_sharp_refuted.
