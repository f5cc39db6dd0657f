(** C01-C07: assignments, flips and plan construction. *)
From Coq Require Import List Bool Arith Lia Permutation.
From Verif Require Import Base M_Graph M_Partition S_Partition L_Partition.
Import ListNotations.

Section Theorems.
  Context {N P : Type} {EN : EqB N} {EP : EqB P}.
  Implicit Types (d : dict N P) (a : assignment N P) (flips : dict N P).

  (** C01. From any initial dictionary through any history of flips: the two
      views of the plan agree, every original node is listed under exactly one
      district, nothing else is, and the number of assigned nodes is
      unchanged. *)
  Theorem C01_history_consistent : forall d hist a0 a,
    is_dict d -> Forall is_dict hist ->
    from_dict d = Ok a0 -> flip_history a0 hist = Ok a ->
    (forall n p, district a n = Some p <-> listed a p n) /\
    (forall n, In n (dkeys d) -> exists p, listed a p n /\ forall q, listed a q n -> q = p) /\
    (forall n, (exists p, listed a p n) <-> In n (dkeys d)) /\
    parts_len (a_parts a) = length d.
  Proof.
    intros d hist a0 a D H E F.
    destruct (from_dict_spec d D) as (a1 & E1 & C & _).
    assert (a1 = a0) by congruence. subst a1.
    destruct (history_coherent _ _ _ _ C H F) as [C' _].
    split; [apply C'|]. split; [|split].
    - intros n Hn. apply (coh_dom _ _ C') in Hn. apply dget_key in Hn.
      destruct Hn as [p Hp]. exists p. split; [now apply C'|].
      intros q Hq. apply C' in Hq. unfold district in Hq. congruence.
    - intro n. rewrite <- (coh_dom _ _ C'), dget_key. split; intros [p Hp]; exists p;
        now apply (coh_agree _ _ C').
    - erewrite coherent_total; [|exact D|exact C']. unfold dkeys. now rewrite map_length.
  Qed.

  (** C02. The flipped plan sends flipped nodes to the requested district and
      all others where they were.  (That the parent is untouched is stated on
      the object machine, see P_Machine.v.) *)
  Theorem C02_flip_effect : forall nodes a flips a',
    coherent nodes a -> is_dict flips -> flip_assignment a flips = Ok a' ->
    (forall n p, dget flips n = Some p -> district a' n = Some p) /\
    (forall n, ~ In n (dkeys flips) -> district a' n = district a n) /\
    coherent nodes a'.
  Proof.
    intros nodes a flips a' C D H.
    pose proof (flip_district _ _ _ _ C D H) as E. unfold overridden in E.
    split; [|split].
    - intros n p Hp. rewrite E, Hp. reflexivity.
    - intros n Hn. apply dget_None in Hn. rewrite E, Hn. reflexivity.
    - eapply flip_coherent; eauto.
  Qed.

  (** C03. *)
  Theorem C03_flip_keyerror_iff : forall nodes a flips,
    coherent nodes a -> is_dict flips ->
    (flip_assignment a flips = Err KeyError <->
       exists n p, In (n, p) flips /\ (~ In n nodes \/ ~ In p (labels a))) /\
    ((exists a', flip_assignment a flips = Ok a') \/ flip_assignment a flips = Err KeyError).
  Proof.
    intros nodes a flips C D. destruct (flip_outcome nodes a flips C D) as [H1 H2].
    assert (Dec : (exists n p, In (n, p) flips /\ (~ In n nodes \/ ~ In p (labels a))) \/
                  (forall n p, dget flips n = Some p -> In n nodes /\ In p (labels a))).
    { assert (X : forall l : dict N P,
         (exists n p, In (n, p) l /\ (~ In n nodes \/ ~ In p (labels a))) \/
         (forall n p, In (n, p) l -> In n nodes /\ In p (labels a))).
      { induction l as [|[n p] l IH].
        - right. intros n p [].
        - destruct (In_dec_of n nodes) as [A|A]; [|left; exists n, p; simpl; auto].
          destruct (In_dec_of p (labels a)) as [B|B]; [|left; exists n, p; simpl; auto].
          destruct IH as [(n' & p' & I & J)|IH].
          + left. exists n', p'. simpl. auto.
          + right. intros n' p' [[= <- <-]|I]; auto. }
      destruct (X flips) as [A|A]; [auto|]. right. intros n p Hp. apply A. now apply dget_In. }
    split.
    - split.
      + intro HE. destruct Dec as [A|A]; auto. destruct (H1 A) as [a' Ha]. congruence.
      + intros (n & p & I & J). apply H2. exists n, p. split; auto. now apply In_dget.
    - destruct Dec as [(n & p & I & J)|A].
      + right. apply H2. exists n, p. split; auto. now apply In_dget.
      + left. auto.
  Qed.

  (** C04. *)
  Theorem C04_labels_constant : forall nodes a hist a',
    coherent nodes a -> Forall is_dict hist -> flip_history a hist = Ok a' ->
    labels a' = labels a /\
    (forall p, In p (labels a) -> (forall n, district a' n <> Some p) ->
       dget (a_parts a') p = Some []).
  Proof.
    intros nodes a hist a' C D H. destruct (history_coherent _ _ _ _ C D H) as [C' L].
    split; auto. intros p Hp He. rewrite <- L in Hp. apply dget_key in Hp.
    destruct Hp as [s Hs]. destruct s as [|n s]; auto.
    exfalso. apply (He n). apply C'. exists (n :: s). simpl. auto.
  Qed.

  (** C05. *)
  Theorem C05_from_dict_roundtrip : forall d,
    is_dict d ->
    exists a, from_dict d = Ok a /\
      (forall n, district a n = dget d n) /\
      Permutation (a_map a) d /\
      (forall p, In p (labels a) <-> exists n, In (n, p) d) /\
      (forall p n, listed a p n <-> In (n, p) d) /\
      (forall p s, dget (a_parts a) p = Some s -> s <> []) /\
      parts_len (a_parts a) = length d.
  Proof.
    intros d D. destruct (from_dict_spec d D) as (a & E & C & R & L & NE).
    exists a. split; auto. split; auto. split; [|split; [|split; [|split; auto]]].
    - apply NoDup_Permutation.
      + pose proof (coh_map_keys _ _ C) as K. unfold dkeys in K. eapply NoDup_map_inv; eauto.
      + eapply NoDup_map_inv; exact D.
      + intros [n p]. rewrite <- !dget_iff; [|apply D|apply C].
        unfold district in R. now rewrite R.
    - intro p. rewrite L. split; intros [n Hn]; exists n; [now apply dget_In|now apply In_dget].
    - intros p n. rewrite <- (coh_agree _ _ C), R. now apply dget_iff.
    - erewrite coherent_total; [|exact D|exact C]. unfold dkeys. now rewrite map_length.
  Qed.

  (** C06. *)
  Theorem C06_init_rejects_exactly_overlaps : forall (parts : dict P (list N)),
    is_dict parts -> (forall p s, In (p, s) parts -> NoDup s) ->
    (assignment_init parts = Err ValueError <->
       exists p q s t n, In (p, s) parts /\ In (q, t) parts /\ p <> q /\ In n s /\ In n t) /\
    (forall a, assignment_init parts = Ok a ->
       a_parts a = parts /\
       forall n p, district a n = Some p <-> exists s, In (p, s) parts /\ In n s).
  Proof.
    intros parts D S.
    assert (S' : forall p s, dget parts p = Some s -> NoDup s).
    { intros p s H. apply (S p). now apply dget_In. }
    destruct (assignment_init_spec parts D S') as [H1 H2].
    pose proof (overlap_or_disjoint parts D) as Dec.
    split; [split|].
    - intro HE. destruct Dec as [A|A]; auto. destruct (H1 A) as (a & Ha & _). congruence.
    - intros (p & q & s & t & n & I1 & I2 & Ne & J1 & J2). apply H2. intro A.
      apply Ne. apply (A p q s t n); auto; now apply In_dget.
    - intros a Ha. destruct Dec as [A|(p & q & s & t & n & I1 & I2 & Ne & J1 & J2)].
      2: { rewrite H2 in Ha; [discriminate|]. intro A. apply Ne.
           apply (A p q s t n); auto; now apply In_dget. }
      destruct (H1 A) as (a' & Ha' & E & R & _). assert (a' = a) by congruence. subst a'.
      split; auto. intros n p. rewrite R. unfold listed. rewrite E.
      split; intros (s & I & J); exists s; split; auto; [now apply dget_In|now apply In_dget].
  Qed.

  (** C07. *)
  Theorem C07_labels_exactly_the_nodes : forall (g : graph N) d,
    is_dict d ->
    (first_time_assignment g d = Err KeyError <->
       ~ (forall n, In n (dkeys d) <-> In n (g_nodes g))) /\
    ((forall n, In n (dkeys d) <-> In n (g_nodes g)) ->
       exists a, first_time_assignment g d = Ok a /\ coherent (g_nodes g) a /\
                 forall n, district a n = dget d n).
  Proof.
    intros g d D. destruct (first_time_spec g d D) as [H1 H2].
    split; [split; auto|].
    - intros HE HA. destruct (H1 HA) as (a & Ha & _). congruence.
    - intro HA. destruct (H1 HA) as (a & Ha & Hf). exists a. split; auto.
      destruct (from_dict_spec d D) as (a' & E & C & R & _).
      assert (a' = a) by congruence. subst a'. split; auto.
      destruct C as [C1 C2 C3 C4 C5]. constructor; auto.
      intro n. rewrite C3. apply HA.
  Qed.
End Theorems.

(** ** Non-vacuity: a concrete plan with three districts and two flips, one of
    which empties a district. *)
Definition ex_d : dict nat nat := [(0, 10); (1, 10); (2, 20); (3, 30)].
Definition ex_hist : list (dict nat nat) := [[(1, 20)]; [(2, 10); (3, 20)]].

Ltac nodup := repeat (constructor; [simpl; intuition discriminate|]); try constructor.

Example C01_nonvacuous : exists a0 a,
  is_dict ex_d /\ Forall is_dict ex_hist /\
  from_dict ex_d = Ok a0 /\ flip_history a0 ex_hist = Ok a /\
  coherent (dkeys ex_d) a0 /\ labels a = [10; 20; 30] /\
  dget (a_parts a) 30 = Some [] /\ district a 1 = Some 20 /\ district a 2 = Some 10.
Proof.
  assert (D : is_dict ex_d) by nodup.
  destruct (from_dict_spec ex_d D) as (a0 & E & C & _).
  vm_compute in E. injection E as <-.
  eexists. eexists. split; [exact D|]. split; [|split; [vm_compute; reflexivity|]].
  - repeat constructor; simpl; intuition discriminate.
  - split; [vm_compute; reflexivity|]. split; [exact C|]. vm_compute. auto.
Qed.

Example C03_nonvacuous :
  exists a, from_dict ex_d = Ok a /\ coherent (dkeys ex_d) a /\
    flip_assignment a [(1, 99)] = Err KeyError /\
    flip_assignment a [(7, 10)] = Err KeyError /\
    (exists a', flip_assignment a [(1, 30)] = Ok a').
Proof.
  assert (D : is_dict ex_d) by nodup.
  destruct (from_dict_spec ex_d D) as (a0 & E & C & _).
  vm_compute in E. injection E as <-.
  eexists. split; [vm_compute; reflexivity|]. split; [exact C|].
  split; [vm_compute; reflexivity|]. split; [vm_compute; reflexivity|].
  eexists. vm_compute. reflexivity.
Qed.

Example C06_nonvacuous :
  assignment_init [(1, [0; 1]); (2, [1; 2])] = Err ValueError /\
  exists a : assignment nat nat, assignment_init [(1, [0; 1]); (2, [2])] = Ok a.
Proof. split; [reflexivity|]. eexists. vm_compute. reflexivity. Qed.

Example C07_nonvacuous :
  first_time_assignment (mkGraph [0; 1; 2] [(0, 1); (1, 2)]) [(0, 1); (1, 1)] = Err KeyError /\
  exists a, first_time_assignment (mkGraph [0; 1; 2; 3] [(0, 1)]) ex_d = Ok a.
Proof. split; [reflexivity|]. eexists. vm_compute. reflexivity. Qed.

Print Assumptions C01_history_consistent.
Print Assumptions C02_flip_effect.
Print Assumptions C03_flip_keyerror_iff.
Print Assumptions C04_labels_constant.
Print Assumptions C05_from_dict_roundtrip.
Print Assumptions C06_init_rejects_exactly_overlaps.
Print Assumptions C07_labels_exactly_the_nodes.
