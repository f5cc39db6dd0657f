(** C119: reversible_recom leaves the spanning tree distribution on plans
    invariant. *)
From Coq Require Import String List Bool Arith ZArith QArith Qabs Lqa Permutation Lia ZifyBool ZifyNat.
From Verif Require Import Base M_Graph M_Partition S_Partition L_Partition M_Machine S_Machine L_Sums
  L_Cuts L_Machine L_Answers S_Contiguity L_Search P_Partition P_Machine M_Election L_Order M_Proposals S_Proposals
  M_Tree S_Tree S_TreeCuts L_Tree P_Tree P_Contiguity P_Spanning P_Proposals P_Bipartition M_Recursive P_Recursive
  M_Recom P_Recom P_Reversible L_Locality M_SpanningCount L_MatrixTree P_SpanningCount L_Seam M_Diversity P_DetailedBalance L_Pieces.
From Verif Require P_FlipLaw.
Import ListNotations.
Local Open Scope nat_scope.
Local Open Scope list_scope.

(** ** Probabilities *)
(** [v] is the probability that [Ev u] holds for [u] uniform in [0, 1), for an
    event that holds below some point or from some point on. *)
Definition likelihood (Ev : Q -> Prop) (v : Q) : Prop :=
  (0 <= v <= 1)%Q /\
  ((forall u, (0 <= u < 1)%Q -> (Ev u <-> (u < v)%Q)) \/ (forall u, (0 <= u < 1)%Q -> (Ev u <-> (1 - v <= u)%Q))).
Definition average {X} (l : list X) (f : X -> Q) : Q := (qsum l f / Qn (List.length l))%Q.

Lemma likelihood_unique Ev Ev' v v' : (forall u, (0 <= u < 1)%Q -> (Ev u <-> Ev' u)) -> likelihood Ev v -> likelihood Ev' v' -> (v == v')%Q.
Proof.
  intros Eq [B H] [B' H'].
  assert (Low : forall F v v', (0 <= v <= 1)%Q -> (0 <= v' <= 1)%Q -> (forall u, (0 <= u < 1)%Q -> (F u <-> (u < v)%Q)) -> (forall u, (0 <= u < 1)%Q -> (F u <-> (u < v')%Q)) -> ~ (v < v')%Q).
  { clear. intros F v v' B B' H H' X. assert (U : (0 <= v < 1)%Q) by lra. assert (Y := proj1 (H v U) (proj2 (H' v U) X)). lra. }
  assert (High : forall F v v', (0 <= v <= 1)%Q -> (0 <= v' <= 1)%Q -> (forall u, (0 <= u < 1)%Q -> (F u <-> (1 - v <= u)%Q)) -> (forall u, (0 <= u < 1)%Q -> (F u <-> (1 - v' <= u)%Q)) -> ~ (v < v')%Q).
  { clear. intros F v v' B B' H H' X. assert (U : (0 <= 1 - v' < 1)%Q) by lra. assert (Y := proj1 (H _ U) (proj2 (H' _ U) ltac:(lra))). lra. }
  assert (Mix : forall F v v', (0 <= v <= 1)%Q -> (0 <= v' <= 1)%Q -> (forall u, (0 <= u < 1)%Q -> (F u <-> (u < v)%Q)) -> (forall u, (0 <= u < 1)%Q -> (F u <-> (1 - v' <= u)%Q)) -> (v == v')%Q).
  { clear. intros F v v' B B' H H'. assert (Z := H 0%Q ltac:(lra)). assert (Z' := H' 0%Q ltac:(lra)). destruct (Qlt_le_dec 0 v) as [X|X].
    - assert (Y : (1 - v' <= 0)%Q) by tauto. destruct (Qlt_le_dec v 1) as [W|W]; [|lra]. exfalso. assert (U : (0 <= v < 1)%Q) by lra. assert (T := proj1 (H v U) (proj2 (H' v U) ltac:(lra))). lra.
    - destruct (Qlt_le_dec 0 v') as [W|W]; [|lra]. exfalso. assert (U : (0 <= 1 - v' < 1)%Q) by lra. assert (T := proj1 (H _ U) (proj2 (H' _ U) ltac:(lra))). lra. }
  destruct H as [H|H], H' as [H'|H'];
    (assert (H2 := fun u U => iff_trans (Eq u U) (H' u U)); clear H'; rename H2 into H').
  - destruct (Q_dec v v') as [[X|X]|X]; auto; exfalso; [exact (Low Ev v v' B B' H H' X)|exact (Low Ev v' v B' B H' H X)].
  - exact (Mix Ev v v' B B' H H').
  - symmetry. exact (Mix Ev v' v B' B H' H).
  - destruct (Q_dec v v') as [[X|X]|X]; auto; exfalso; [exact (High Ev v v' B B' H H' X)|exact (High Ev v' v B' B H' H X)].
Qed.
(** Two outcomes, one below [c] and one from [c] on. *)
Lemma likelihood_two (Ev : Q -> Prop) c (b b' : bool) : (0 <= c <= 1)%Q ->
  (forall u, (0 <= u < 1)%Q -> (u < c)%Q -> (Ev u <-> b = true)) -> (forall u, (0 <= u < 1)%Q -> (c <= u)%Q -> (Ev u <-> b' = true)) ->
  likelihood Ev ((if b then c else 0) + (if b' then 1 - c else 0)).
Proof.
  intros B L R. assert (X : forall u, (0 <= u < 1)%Q -> (Ev u <-> ((u < c)%Q /\ b = true) \/ ((c <= u)%Q /\ b' = true))).
  { intros u U. destruct (Qlt_le_dec u c) as [Y|Y]; [rewrite (L u U Y)|rewrite (R u U Y)]; split; auto; intros [Z|Z]; try tauto; exfalso; lra. }
  split; [destruct b, b'; lra|]. destruct b, b'.
  - left. intros u U. rewrite (X u U). destruct (Qlt_le_dec u c); split; intro; try lra; auto.
  - left. intros u U. rewrite (X u U). split; [intros [Y|Y]; [lra|destruct Y; discriminate]|intro; left; split; auto; lra].
  - right. intros u U. rewrite (X u U). split; [intros [Y|Y]; [destruct Y; discriminate|lra]|intro; right; split; auto; lra].
  - left. intros u U. rewrite (X u U). split; [intros [Y|Y]; destruct Y; discriminate|lra].
Qed.

Lemma finite_choice {X Y} {EX : EqB X} (y0 : Y) (R : X -> Y -> Prop) l : (forall x, In x l -> exists y, R x y) -> exists f, forall x, In x l -> R x (f x).
Proof.
  induction l as [|x l IH]; intro H; [exists (fun _ => y0); intros x []|]. destruct (H x (or_introl eq_refl)) as [y Hy]. destruct IH as [f Hf]; [intros; apply H; now right|].
  exists (fun z => if eqb z x then y else f z). intros z Hz. destruct (eqb_spec z x) as [E|E]; [now rewrite E|]. destruct Hz as [Hz|Hz]; [congruence|auto].
Qed.

Lemma qsum_cons {X} (x : X) l f : qsum (x :: l) f = (f x + qsum l f)%Q. Proof. reflexivity. Qed.
Lemma qsum_scale {X} (l : list X) f z : (qsum l (fun x => z * f x) == z * qsum l f)%Q.
Proof. induction l as [|x l IH]; [unfold qsum; cbn; ring|]. rewrite !qsum_cons, IH. ring. Qed.
Lemma qsum_plus {X} (l : list X) f f' : (qsum l (fun x => f x + f' x) == qsum l f + qsum l f')%Q.
Proof. induction l as [|x l IH]; [unfold qsum; cbn; ring|]. rewrite !qsum_cons, IH. ring. Qed.
Lemma qsum_swap {X Y} (l : list X) (m : list Y) f : (qsum l (fun x => qsum m (fun y => f x y)) == qsum m (fun y => qsum l (fun x => f x y)))%Q.
Proof.
  induction l as [|x l IH]; [cbn [qsum fold_right]; symmetry; apply qsum_zero|]. rewrite qsum_cons, IH. rewrite <- qsum_plus. apply qsum_ext. intros y _. reflexivity.
Qed.
Lemma average_ext {X} (l : list X) f f' : (forall x, In x l -> (f x == f' x)%Q) -> (average l f == average l f')%Q.
Proof. intro H. unfold average. now rewrite (qsum_ext _ _ _ H). Qed.
Lemma average_const {X} (l : list X) z : l <> [] -> (average l (fun _ => z) == z)%Q.
Proof.
  intro H. unfold average. assert (X1 : (qsum l (fun _ => z) == Qn (List.length l) * z)%Q).
  { clear H. induction l as [|x l IH]; [unfold qsum, Qn; cbn; ring|]. rewrite qsum_cons, IH. cbn [List.length]. unfold Qn. rewrite Nat2Z.inj_succ, <- Z.add_1_l, inject_Z_plus. ring. }
  rewrite X1. assert (Hn : ~ (Qn (List.length l) == 0)%Q) by (destruct l; [congruence|unfold Qn, Qeq; cbn; lia]). now field.
Qed.
Lemma average_sum {X Y} (l : list X) (m : list Y) f : (qsum m (fun y => average l (fun x => f x y)) == average l (fun x => qsum m (fun y => f x y)))%Q.
Proof.
  unfold average. rewrite qsum_swap. unfold Qdiv. rewrite Qmult_comm, <- qsum_scale. apply qsum_ext. intros y _. ring.
Qed.
Lemma qsum_indicator {X} {EX : EqB X} (l : list X) x z : NoDup l -> In x l -> (qsum l (fun y => if eqb y x then z else 0) == z)%Q.
Proof.
  intros ND H. rewrite (qsum_count (fun y => eqb y x)). assert (E : filter (fun y => eqb y x) l = [x]).
  { induction ND as [|y l Hn ND IH]; [destruct H|]. cbn [filter]. destruct (eqb_spec y x) as [Ey|Ny].
    - rewrite Ey in *. f_equal. clear IH H. induction l as [|w l IH]; auto. cbn [filter]. destruct (eqb_spec w x) as [Ew|Nw]; [exfalso; apply Hn; now left|]. apply IH; [intro; apply Hn; now right|now inversion ND].
    - apply IH. destruct H; [congruence|auto]. }
  rewrite E. cbn [List.length]. unfold Qn. cbn [Z.of_nat Pos.of_succ_nat]. ring.
Qed.

(** ** Connected sets *)
Section Connected.
  Context {N : Type} {EN : EqB N}.
  Variable g : graph N.
  Lemma reach_mono (R R' : N -> N -> Prop) u v : (forall a b, R a b -> R' a b) -> reach R u v -> reach R' u v.
  Proof. intros I H. induction H; econstructor; eauto. Qed.
  Lemma reach_cat (R : N -> N -> Prop) u v w : reach R u v -> reach R v w -> reach R u w.
  Proof. intros H H'. induction H'; [auto|]. econstructor; eauto. Qed.
  Lemma union_connected (A B : N -> Prop) u v : connected_on g A -> connected_on g B -> A u -> B v -> adj g u v -> connected_on g (fun n => A n \/ B n).
  Proof.
    intros CA CB Hu Hv Ad x y Hx Hy. set (R := fun a b => adj g a b /\ (A a \/ B a) /\ (A b \/ B b)).
    assert (RA : forall x y, A x -> A y -> reach R x y) by (intros a b Ha Hb; apply (reach_mono _ _ _ _ (fun a b (W : adj g a b /\ A a /\ A b) => conj (proj1 W) (conj (or_introl (proj1 (proj2 W))) (or_introl (proj2 (proj2 W))))) (CA a b Ha Hb))).
    assert (RB : forall x y, B x -> B y -> reach R x y) by (intros a b Ha Hb; apply (reach_mono _ _ _ _ (fun a b (W : adj g a b /\ B a /\ B b) => conj (proj1 W) (conj (or_intror (proj1 (proj2 W))) (or_intror (proj2 (proj2 W))))) (CB a b Ha Hb))).
    assert (UV : reach R u v) by (econstructor; [constructor|]; split; auto). assert (VU : reach R v u) by (econstructor; [constructor|]; split; [destruct Ad; [right|left]; auto|auto]).
    destruct Hx as [Hx|Hx], Hy as [Hy|Hy]; auto; [apply reach_cat with v; auto; apply reach_cat with u; auto|apply reach_cat with u; auto; apply reach_cat with v; auto].
  Qed.
  Lemma crossing (A B : N -> Prop) (x y : N) : connected_on g (fun n => A n \/ B n) -> A x -> B y -> (forall n, A n -> B n -> False) -> exists u v, adj g u v /\ A u /\ B v.
  Proof.
    intros C Hx Hy Dj. assert (R := C x y (or_introl Hx) (or_intror Hy)). cbn beta in R. revert Hy. induction R as [|v w R IH St]; intro Hy; [exfalso; eauto|]. destruct St as (Ad & Hv & _). destruct Hv as [Hv|Hv]; [eauto|auto].
  Qed.
End Connected.

Section Stationary.
  Context {N P V L : Type} {EN : EqB N} {EP : EqB P} {EL : EqB L} {ON : Ord N} {RV : CRing V}.
  Variable E : env N P V L.
  Notation g := (e_graph E).
  Variable pop : dict N Z.
  Hypothesis Hpop : covers pop g.
  Variables (balance : @balance_fn N) (t e : Q) (bound k : nat).
  Hypothesis Hbal : balance = find_cuts_memoization \/ balance = find_cuts_contraction.

  (** ** Specification *)
  (** A plan with [k] districts, each with a node, connected and balanced. *)
  Definition valid (A : assignment N P) : Prop :=
    List.length (labels A) = k /\
    forall z, In z (labels A) -> (exists n, district A n = Some z) /\
      connected_on g (fun n => district A n = Some z) /\ balanced_set (popn pop) t e (fun n => district A n = Some z).

  (** A plan to call reversible_recom on, with what the call is given besides
      the draws of the pair of districts, the tree, the cut and the final
      number: edge weights, roots of the cut search, attempts and the draw of
      the edge.  [s_trees r] are the trees that may be drawn after [r] has drawn
      the pair. *)
  Record start := mkStart {
    s_heap : heap N P V L; s_at : nat; s_obj : pobj N P V L;
    s_weights : nat -> N * N -> Q; s_root : list (N * N) -> nat -> nat; s_fuel : nat; s_max : nat; s_edge : nat;
    s_trees : nat -> list (list (N * N)) }.
  Notation plan x := (o_assign (s_obj x)).
  Definition run (x : start) (r : nat) (T : list (N * N)) (i : nat) (u : Q) : res nat * heap N P V L :=
    call E pop balance t e bound (s_weights x) (s_root x) (s_fuel x) (s_max x) r (s_edge x) (s_at x) (s_heap x) T i u.
  (** The nodes of the two districts drawn by [r]. *)
  Definition drawn (x : start) (r : nat) : list N :=
    match choice r (list_prod (labels (plan x)) (labels (plan x))) with
    | Ok (p, q) => filter (fun n => eqb (district (plan x) n) (Some p) || eqb (district (plan x) n) (Some q)) (g_nodes g)
    | _ => []
    end.
  Definition ready (x : start) : Prop :=
    session E (s_heap x) /\ nth_error (s_heap x) (s_at x) = Some (s_obj x) /\ valid (plan x) /\
    (forall r, r < k * k -> s_trees x r <> []) /\
    forall r p q, r < k * k -> choice r (list_prod (labels (plan x)) (labels (plan x))) = Ok (p, q) -> p <> q -> adjacent g (plan x) p q ->
      3 <= List.length (drawn x r) /\ lists_trees (subgraph g (drawn x r)) (s_trees x r) /\
      forall T, In T (s_trees x r) -> cuts_of E pop balance t e (s_weights x) (s_root x) (drawn x r) T <= bound.
  (** How many cuts there are to draw from, 1 if none. *)
  Definition options (x : start) (r : nat) (T : list (N * N)) : nat := Nat.max 1 (cuts_of E pop balance t e (s_weights x) (s_root x) (drawn x r) T).
  (** [v] is the probability that the call ends in a plan with property [Pr], if
      the pair, the tree, the cut and the final number are drawn uniformly. *)
  Definition law (x : start) (Pr : assignment N P -> Prop) (v : Q) : Prop :=
    exists f : nat -> list (N * N) -> nat -> Q,
      (forall r T i, r < k * k -> In T (s_trees x r) -> i < options x r T -> likelihood (fun u => ends_in (run x r T i u) Pr) (f r T i)) /\
      (v == average (seq 0 (k * k)) (fun r => average (s_trees x r) (fun T => average (seq 0 (options x r T)) (fun i => f r T i))))%Q.

  Notation same := (same_districts (g_nodes g)).

  (** ** One draw *)
  Lemma threshold tree weights draws fuel max repeat r1 r2 r3 a (h : heap N P V L) : exists c X Y, forall u,
    reversible_recom E pop balance tree t e weights draws fuel max repeat bound r1 r2 r3 u a h = if qlt u c then X else Y.
  Proof using.
    set (thr := fun (m : Q -> M nat) (h : heap N P V L) => exists c X Y, forall u, m u h = if qlt u c then X else Y).
    assert (Const : forall (m : M nat) h, thr (fun _ => m) h) by (intros m h0; exists 0%Q, (m h0), (m h0); intro u; destruct (qlt u 0); reflexivity).
    assert (Bind : forall A (m : M A) (f : Q -> A -> M nat) h, (forall x h', thr (fun u => f u x) h') -> thr (fun u => bindM m (f u)) h).
    { intros A m f h0 H. destruct (m h0) as [r h'] eqn:Em. destruct r as [x|x|].
      - destruct (H x h') as (c & X & Y & Hc). exists c, X, Y. intro u. unfold bindM. rewrite Em. apply Hc.
      - exists 0%Q, (Err x, h'), (Err x, h'). intro u. unfold bindM. rewrite Em. destruct (qlt u 0); reflexivity.
      - exists 0%Q, (NoFuel, h'), (NoFuel, h'). intro u. unfold bindM. rewrite Em. destruct (qlt u 0); reflexivity. }
    change (thr (fun u => reversible_recom E pop balance tree t e weights draws fuel max repeat bound r1 r2 r3 u a) h).
    unfold reversible_recom. apply Bind. intros o h1. apply Bind. intros pr h2. destruct (eqb (fst pr) (snd pr) || _); [apply Const|].
    apply Bind. intros ed h3. apply Bind. intros p h4. apply Bind. intros q h5. apply Bind. intros ns h6. apply Bind. intros cuts h7. destruct cuts as [|c0 cuts]; [apply Const|].
    apply Bind. intros c h8. apply Bind. intros b h9. apply Bind. intros o' h10. apply Bind. intros prob h11. destruct (qlt 1 prob); [apply Const|].
    exists prob, (Ok b, h11), (Ok a, h11). intro u. destruct (qlt u prob); reflexivity.
  Qed.

  Section Start.
    Variable x : start.
    Hypothesis Rx : ready x.
    Notation A := (plan x).
    Let S : session E (s_heap x) := proj1 Rx.
    Let Ho : nth_error (s_heap x) (s_at x) = Some (s_obj x) := proj1 (proj2 Rx).
    Let Vx : valid A := proj1 (proj2 (proj2 Rx)).
    Lemma ready_proper : proper (g_nodes g) A.
    Proof using Rx. split; [exact (Coh E _ _ _ S Ho)|]. intros z Hz. apply (proj2 Vx z Hz). Qed.
    Lemma pairs_length : List.length (list_prod (labels A) (labels A)) = k * k.
    Proof using Rx. rewrite prod_length, (proj1 Vx). reflexivity. Qed.
    Lemma in_drawn r p q n : choice r (list_prod (labels A) (labels A)) = Ok (p, q) -> In n (drawn x r) <-> district A n = Some p \/ district A n = Some q.
    Proof using Rx.
      intro Hc. unfold drawn. rewrite Hc, filter_In, orb_true_iff. pose proof ready_proper as Px. split.
      - intros [_ [X|X]]; apply eqb_true in X; auto.
      - intros X. split; [destruct X as [X|X]; eapply (in_node (g_nodes g) A n _ Px X)|]. destruct X as [X|X]; [left|right]; rewrite X; apply eqb_refl.
    Qed.
    Lemma drawn_sub r : g_nodes (subgraph g (drawn x r)) = drawn x r.
    Proof using.
      unfold drawn. destruct (choice _ _) as [[p q]| |]; try (cbn; clear; induction (g_nodes g); cbn; auto; fail).
      cbn [subgraph g_nodes]. apply filter_ext_in. intros n Hn.
      destruct (eqb (district A n) (Some p) || eqb (district A n) (Some q)) eqn:Eq.
      - apply mem_In, filter_In. auto.
      - apply mem_notIn. rewrite filter_In. intros [_ X]. congruence.
    Qed.
    Lemma choice_pair r : r < k * k -> exists p q, choice r (list_prod (labels A) (labels A)) = Ok (p, q) /\ In p (labels A) /\ In q (labels A).
    Proof using Rx.
      intro Hr. assert (Ne : list_prod (labels A) (labels A) <> []) by (intro X; pose proof pairs_length as Y; rewrite X in Y; cbn in Y; lia).
      destruct (choice_ok r _ Ne) as ([p q] & Hc & Hi). exists p, q. split; [exact Hc|]. now apply in_prod_iff in Hi.
    Qed.
    (** Below [c] a new plan, from [c] on the old one. *)
    Definition outcome r T i c (B : assignment N P) : Prop :=
      (0 <= c <= 1)%Q /\ valid B /\ coherent (g_nodes g) B /\ (exists h' b o', session E h' /\ nth_error h' b = Some o' /\ B = o_assign o') /\
      forall Pr u, (0 <= u < 1)%Q -> ((u < c)%Q -> (ends_in (run x r T i u) Pr <-> Pr B)) /\ ((c <= u)%Q -> (ends_in (run x r T i u) Pr <-> Pr A)).
    Lemma stays (h' : heap N P V L) Pr : kept (s_heap x) h' -> ends_in (Ok (s_at x), h') Pr <-> Pr A.
    Proof using Rx.
      intro K. destruct (K _ _ Ho) as (o' & H1 & H2 & _). split.
      - intros (b & o2 & X1 & X2 & X3). cbn [fst snd] in *. injection X1 as <-. rewrite H1 in X2. injection X2 as <-. now rewrite H2 in X3.
      - intro X. exists (s_at x), o'. cbn [fst snd]. rewrite H2. auto.
    Qed.
    Lemma ends_new (h' : heap N P V L) b o' Pr : nth_error h' b = Some o' -> ends_in (Ok b, h') Pr <-> Pr (o_assign o').
    Proof using.
      intro H. split; [intros (b' & o2 & X1 & X2 & X3); cbn [fst snd] in *; injection X1 as <-; congruence|]. intro X. exists b, o'. auto.
    Qed.
    Lemma outcome_stay r T i : (forall u, run x r T i u = (Ok (s_at x), s_heap x)) -> outcome r T i 0 A.
    Proof using Rx.
      intro H. split; [lra|]. split; [exact Vx|]. split; [exact (Coh E _ _ _ S Ho)|]. split; [exists (s_heap x), (s_at x), (s_obj x); auto|].
      intros Pr u U. rewrite H, (stays _ Pr (kept_refl _)). split; intros _; reflexivity.
    Qed.
    Lemma draw r T i p q : r < k * k -> In T (s_trees x r) -> choice r (list_prod (labels A) (labels A)) = Ok (p, q) ->
      exists c B, outcome r T i c B /\ (B = A \/ (p <> q /\ adjacent g A p q /\ redrawn A p q B /\ labels B = labels A)) /\
        (cuts_of E pop balance t e (s_weights x) (s_root x) (drawn x r) T = 0 -> B = A).
    Proof using Rx Hpop Hbal.
      intros Hr HT Hc.
      assert (Self : p = q \/ ~ adjacent g A p q -> exists c B, outcome r T i c B /\ (B = A \/ (p <> q /\ adjacent g A p q /\ redrawn A p q B /\ labels B = labels A)) /\
        (cuts_of E pop balance t e (s_weights x) (s_root x) (drawn x r) T = 0 -> B = A)).
      { intro H. exists 0%Q, A. split; [|auto]. apply outcome_stay. intro u. apply (C48_self_loop E pop balance _ t e _ _ _ _ false bound _ _ _ Ho r _ i u p q Hc H). }
      destruct (eqb_spec p q) as [Epq|Npq]; [apply Self; auto|].
      destruct (dist_pair_edges E A p q) as [|e0 es] eqn:Ed.
      { apply Self. right. intro X. apply (proj2 (seam_some E (s_weights x) (s_root x T) 0 A p q)) in X. contradiction. }
      assert (Ad : adjacent g A p q) by (apply (proj1 (seam_some E (s_weights x) (s_root x T) 0 A p q)); rewrite Ed; discriminate).
      destruct (proj2 (proj2 (proj2 (proj2 Rx))) r p q Hr Hc Npq Ad) as (L3 & Lt & Few).
      assert (TT : tree_of (subgraph g (drawn x r)) T) by (apply Lt; exact HT).
      assert (Hd : forall n, In n (drawn x r) <-> district A n = Some p \/ district A n = Some q) by (intro n; now apply in_drawn).
      assert (Sm : forall nodes', (forall n, In n nodes' <-> district A n = Some p \/ district A n = Some q) ->
          samples (subgraph g nodes') (fun _ => Ok (mkGraph (g_nodes (subgraph g nodes')) T))).
      { intros nodes' X j T' Y. assert (Eg : subgraph g nodes' = subgraph g (drawn x r)) by (apply subgraph_ext; intro n; now rewrite X, Hd). rewrite Eg in *. assert (Y' : mkGraph (g_nodes (subgraph g (drawn x r))) T = T') by congruence. rewrite <- Y'. apply TT. }
      assert (I : cut_input (mkPopulated (mkGraph (g_nodes (subgraph g (drawn x r))) T) (restrict pop (drawn x r)) t e (s_weights x 0))).
      { apply (covers_input (subgraph g (drawn x r))); [apply TT|apply covers_restrict; auto]. intros n Hn. apply Hd in Hn. destruct Hn as [Hn|Hn]; eapply (in_node (g_nodes g) A n _ ready_proper Hn). }
      destruct (two_sided balance Hbal _ (s_root x T 0) I) as (cuts & Eb & _ & _); [cbn [h_tree g_nodes]; change (3 <= List.length (g_nodes (subgraph g (drawn x r)))); now rewrite drawn_sub|].
      assert (Nc : cuts_of E pop balance t e (s_weights x) (s_root x) (drawn x r) T = List.length cuts) by (unfold cuts_of; now rewrite Eb).
      specialize (Few T HT). rewrite Nc in *.
      assert (Out := fun u => C48_outcome E pop Hpop balance (fun H _ => Ok (mkGraph (g_nodes H) T)) t e (s_weights x) (s_root x T) (Datatypes.S (s_fuel x)) (Some (Datatypes.S (s_max x))) false bound
          _ _ _ S Ho r (s_edge x) i u p q (cuts_search balance Hbal) Sm Hc Npq Ad).
      assert (Out' : forall u, match cuts with [] => run x r T i u = (Ok (s_at x), s_heap x) | _ => exists b h' o' prob,
          session E h' /\ kept (s_heap x) h' /\ nth_error h' b = Some o' /\ redrawn A p q (o_assign o') /\
          (forall z, z = p \/ z = q -> connected_on g (fun n => district (o_assign o') n = Some z) /\ balanced_set (popn pop) t e (fun n => district (o_assign o') n = Some z)) /\
          adjacent g (o_assign o') p q /\ (0 < prob <= 1)%Q /\ ((u < prob)%Q -> run x r T i u = (Ok b, h')) /\ ((prob <= u)%Q -> run x r T i u = (Ok (s_at x), h')) end).
      { intro u. destruct (Out u) as (nodes' & _ & Hn' & Res). rewrite (found_cuts E pop balance t e (drawn x r)) in Res by (intro n; now rewrite Hn', Hd). rewrite Eb in Res.
        destruct cuts as [|c0 cuts0]; [exact Res|]. rewrite (proj2 (Nat.ltb_ge _ _) Few) in Res.
        destruct Res as (b & h' & o' & c' & z & sm & prob & _ & _ & _ & S' & K & Hb & _ & R & CB & ND & Hs & Hp & Bp & Acc & Rej).
        exists b, h', o', prob. assert (Adj' : adjacent g (o_assign o') p q); [|unfold run, call; auto 12].
        apply (proj1 (seam_some E (s_weights x) (s_root x T) 0 (o_assign o') p q)). intro X. destruct sm as [|e1 sm]; [change (Qn (List.length (@nil (N * N)))) with 0%Q in Hp; rewrite Hp in Bp; unfold Qdiv in Bp; rewrite Qmult_0_r in Bp; unfold Qinv in Bp; cbn in Bp; lra|].
        assert (Y : In e1 (dist_pair_edges E (o_assign o') p q)) by (apply seam_iff, Hs; now left). rewrite X in Y. destruct Y. }
      clear Out. destruct cuts as [|c0 cuts0].
      { exists 0%Q, A. split; [now apply outcome_stay|auto]. }
      destruct (threshold (fun H _ => Ok (mkGraph (g_nodes H) T)) (s_weights x) (s_root x T) (Datatypes.S (s_fuel x)) (Some (Datatypes.S (s_max x))) false r (s_edge x) i (s_at x) (s_heap x)) as (c & X & Y & Hthr).
      change (forall u, run x r T i u = if qlt u c then X else Y) in Hthr.
      destruct (Out' 0%Q) as (b & h0 & o0 & pr0 & S0 & K0 & Hb0 & R0 & CB0 & Ad0 & Bp0 & Acc0 & _). specialize (Acc0 ltac:(lra)).
      destruct (Out' 1%Q) as (b1 & h1 & o1 & pr1 & S1 & K1 & Hb1 & R1 & CB1 & Ad1 & Bp1 & _ & Rej1). specialize (Rej1 ltac:(lra)).
      assert (Lb : labels (o_assign o0) = labels A).
      { destruct (session_labels E h0 S0) as (ls & Hls). destruct (K0 _ _ Ho) as (o2 & Z1 & Z2 & _). rewrite (Hls _ _ Hb0), <- Z2. symmetry. exact (Hls _ _ Z1). }
      assert (V0 : valid (o_assign o0)).
      { split; [rewrite Lb; apply Vx|]. rewrite Lb. intros z Hz. destruct (eqb_spec z p) as [Zp|Zp]; [|destruct (eqb_spec z q) as [Zq|Zq]].
        - split; [destruct Ad0 as (u & v & _ & D & _); rewrite Zp; eauto|apply CB0; auto].
        - split; [destruct Ad0 as (u & v & _ & _ & D); rewrite Zq; eauto|apply CB0; auto].
        - assert (Same : forall n, district A n = Some z <-> district (o_assign o0) n = Some z).
          { intro n. destruct R0 as [Ra Rb]. destruct (eqb_spec (district A n) (Some p)) as [Z1|Z1]; [|destruct (eqb_spec (district A n) (Some q)) as [Z2|Z2]].
            - destruct (Rb n (or_introl Z1)) as [W|W]; rewrite W, Z1; split; congruence.
            - destruct (Rb n (or_intror Z2)) as [W|W]; rewrite W, Z2; split; congruence.
            - now rewrite (Ra n Z1 Z2). }
          destruct (proj2 Vx z Hz) as ((n & Hn) & Cz & Bz). split; [exists n; now apply Same|]. split; [eapply P_Contiguity.connected_on_ext; [exact Same|exact Cz]|eapply balanced_set_ext; [exact Same|exact Bz]]. }
      assert (Coh0 := Coh E h0 b o0 S0 Hb0).
      assert (Lt0 : forall u c, qlt u c = true <-> (u < c)%Q).
      { intros u d. unfold qlt. destruct (Qle_bool d u) eqn:Eq; cbn [negb]; split; try discriminate; auto; [apply Qle_bool_iff in Eq; lra|]. intros _. destruct (Qlt_le_dec u d) as [W|W]; auto. apply Qle_bool_iff in W. congruence. }
      assert (Lt1 : forall u c, qlt u c = false <-> (c <= u)%Q).
      { intros u d. specialize (Lt0 u d). destruct (qlt u d); split; try discriminate; auto; intro W; [exfalso; assert (Y' := proj1 Lt0 eq_refl); lra|]. destruct (Qlt_le_dec u d) as [Z|Z]; auto. apply Lt0 in Z. discriminate. }
      destruct (Qlt_le_dec 0 c) as [C0|C0].
      - assert (EX : X = (Ok b, h0)) by (rewrite <- Acc0, (Hthr 0%Q), (proj2 (Lt0 _ _) C0); reflexivity).
        destruct (Qlt_le_dec 1 c) as [C1|C1].
        + exists 1%Q, (o_assign o0). split; [|split; [right; auto|discriminate]]. split; [lra|]. split; auto. split; auto. split; [exists h0, b, o0; auto|].
          intros Pr u U. split; [intros _|intro; exfalso; lra]. rewrite (Hthr u), (proj2 (Lt0 u c)) by lra. rewrite EX. now apply ends_new.
        + assert (EY : Y = (Ok (s_at x), h1)) by (rewrite <- Rej1, (Hthr 1%Q), (proj2 (Lt1 _ _) C1); reflexivity).
          exists c, (o_assign o0). split; [|split; [right; auto|discriminate]]. split; [lra|]. split; auto. split; auto. split; [exists h0, b, o0; auto|].
          intros Pr u U. split; intro W; rewrite (Hthr u).
          * rewrite (proj2 (Lt0 u c) W), EX. now apply ends_new.
          * rewrite (proj2 (Lt1 u c) W), EY. now apply stays.
      - exists 0%Q, A. split; [|auto]. split; [lra|]. split; [exact Vx|]. split; [exact (Coh E _ _ _ S Ho)|]. split; [exists (s_heap x), (s_at x), (s_obj x); auto|].
        intros Pr u U. split; [intro; exfalso; lra|intros _]. rewrite (Hthr u), (proj2 (Lt1 u c)) by lra.
        assert (EY : Y = (Ok (s_at x), h1)) by (rewrite <- Rej1, (Hthr 1%Q), (proj2 (Lt1 1%Q c)) by lra; reflexivity). rewrite EY. now apply stays.
    Qed.
  End Start.
  (** C119.  There is at most one such number. *)
  Theorem C119_unique x Pr v v' : law x Pr v -> law x Pr v' -> (v == v')%Q.
  Proof using.
    intros (f & Hf & ->) (f' & Hf' & ->). apply average_ext. intros r Hr. apply in_seq in Hr. apply average_ext. intros T HT. apply average_ext. intros i Hi. apply in_seq in Hi.
    eapply likelihood_unique; [|apply Hf|apply Hf']; auto; try lia. reflexivity.
  Qed.
  Lemma likelihood_of x r T i c B Pr (b b' : bool) : outcome x r T i c B -> (Pr B <-> b = true) -> (Pr (plan x) <-> b' = true) ->
    likelihood (fun u => ends_in (run x r T i u) Pr) ((if b then c else 0) + (if b' then 1 - c else 0)).
  Proof using.
    intros (Hc & _ & _ & _ & O) Hb Hb'. apply likelihood_two; auto; intros u U W; destruct (O Pr u U) as [O1 O2]; [rewrite (O1 W)|rewrite (O2 W)]; assumption.
  Qed.
  Lemma options_pos x r T : seq 0 (options x r T) <> [].
  Proof using. unfold options. destruct (Nat.max 1 _) eqn:X; [lia|discriminate]. Qed.

  (** C119.  Every event on the plan that a call ends in has a probability. *)
  Theorem C119_defined x Pr : ready x -> (forall A, Pr A \/ ~ Pr A) -> exists v, law x Pr v.
  Proof using Hpop Hbal.
    intros Rx Dec. pose (draws := flat_map (fun r => flat_map (fun T => map (fun i => (r, T, i)) (seq 0 (options x r T))) (s_trees x r)) (seq 0 (k * k))).
    assert (Hd : forall r T i, r < k * k -> In T (s_trees x r) -> i < options x r T -> In (r, T, i) draws).
    { intros r T i Hr HT Hi. apply in_flat_map. exists r. split; [apply in_seq; lia|]. apply in_flat_map. exists T. split; auto. apply in_map_iff. exists i. split; auto. apply in_seq. lia. }
    destruct (finite_choice 0%Q (fun d v => let '(r, T, i) := d in r < k * k -> In T (s_trees x r) -> i < options x r T -> likelihood (fun u => ends_in (run x r T i u) Pr) v) draws) as [f Hf].
    { intros [[r T] i] Hi. apply in_flat_map in Hi. destruct Hi as (r' & Hr & Hi). apply in_seq in Hr. apply in_flat_map in Hi. destruct Hi as (T' & HT & Hi). apply in_map_iff in Hi. destruct Hi as (i' & [= -> -> ->] & _).
      destruct (choice_pair x Rx r ltac:(lia)) as (p & q & Hc & _). destruct (draw x Rx r T i p q ltac:(lia) HT Hc) as (c & B & O & _).
      assert (D : forall A, exists b : bool, Pr A <-> b = true) by (intro A; destruct (Dec A) as [Y|Y]; [exists true|exists false]; split; auto; try contradiction; discriminate).
      destruct (D B) as [b Hb], (D (plan x)) as [b' Hb']. eexists. intros _ _ _. exact (likelihood_of x r T i c B Pr b b' O Hb Hb'). }
    eexists. exists (fun r T i => f (r, T, i)). split; [|reflexivity]. intros r T i Hr HT Hi. exact (Hf (r, T, i) (Hd r T i Hr HT Hi) Hr HT Hi).
  Qed.

  Lemma same_dec (A B : assignment N P) : same A B \/ ~ same A B.
  Proof using EP.
    clear Hbal. destruct (forallb (fun n => forallb (fun m => Bool.eqb (eqb (district A n) (district A m)) (eqb (district B n) (district B m))) (g_nodes g)) (g_nodes g)) eqn:X.
    - left. intros n m Hn Hm. rewrite forallb_forall in X. specialize (X n Hn). rewrite forallb_forall in X. specialize (X m Hm). apply Bool.eqb_prop in X.
      destruct (eqb_spec (district A n) (district A m)), (eqb_spec (district B n) (district B m)); try discriminate; tauto.
    - right. intro Sm. assert (Y : forallb (fun n => forallb (fun m => Bool.eqb (eqb (district A n) (district A m)) (eqb (district B n) (district B m))) (g_nodes g)) (g_nodes g) = true); [|congruence].
      apply forallb_forall. intros n Hn. apply forallb_forall. intros m Hm. specialize (Sm n m Hn Hm).
      destruct (eqb_spec (district A n) (district A m)), (eqb_spec (district B n) (district B m)); try reflexivity; exfalso; tauto.
  Qed.

  Section Pair.
    Variables x y : start.
    Hypothesis Rx : ready x.
    Hypothesis Ry : ready y.
    Hypothesis Ne : ~ same (plan x) (plan y).
    Notation A := (plan x).
    Notation B := (plan y).
    Notation gn := (g_nodes g).
    Let PA : proper gn A := ready_proper x Rx.
    Let PB : proper gn B := ready_proper y Ry.
    Lemma len_eq : List.length (labels A) = List.length (labels B).
    Proof using Rx Ry. transitivity k; [|symmetry]; [apply (proj1 (proj2 (proj2 Rx)))|apply (proj1 (proj2 (proj2 Ry)))]. Qed.
    Lemma outcome_proper r T i c D : outcome x r T i c D -> proper gn D.
    Proof using. intros (_ & Vd & Cd & _). split; [exact Cd|]. intros z Hz. apply (proj2 Vd z Hz). Qed.
    (** A row of draws that cannot lead to [y]. *)
    Lemma row_zero r f p q : r < k * k -> choice r (list_prod (labels A) (labels A)) = Ok (p, q) -> ~ (differ gn A B p q /\ adjacent g A p q) ->
      (forall T i, In T (s_trees x r) -> i < options x r T -> likelihood (fun u => ends_in (run x r T i u) (fun D => same D B)) (f T i)) ->
      (average (s_trees x r) (fun T => average (seq 0 (options x r T)) (fun i => f T i)) == 0)%Q.
    Proof using Rx Ry Ne Hpop Hbal.
      intros Hr Hc No Hf. transitivity (average (s_trees x r) (fun _ => 0%Q)); [|apply average_const; apply (proj1 (proj2 (proj2 (proj2 Rx)))), Hr].
      apply average_ext. intros T HT. transitivity (average (seq 0 (options x r T)) (fun _ => 0%Q)); [|apply average_const, options_pos].
      apply average_ext. intros i Hi. apply in_seq in Hi. destruct (draw x Rx r T i p q Hr HT Hc) as (c & D & O & Hd & _).
      assert (Nd : ~ same D B).
      { destruct Hd as [->|(Npq & Ad & R & Lb)]; [exact Ne|]. intro Sm. apply No. split; [|exact Ad].
        destruct (choice_pair x Rx r Hr) as (p' & q' & Hc' & Lp & Lq). rewrite Hc in Hc'. injection Hc' as <- <-.
        exact (move_differs gn A B D p q PA PB (outcome_proper _ _ _ _ _ O) len_eq Lb Npq Lp Lq R Ne Sm). }
      assert (Lk := likelihood_of x r T i c D (fun D => same D B) false false O ltac:(split; [contradiction|discriminate]) ltac:(split; [contradiction|discriminate])).
      rewrite (likelihood_unique _ _ _ _ (fun u _ => iff_refl _) (Hf T i HT ltac:(lia)) Lk). ring.
    Qed.
    (** A row of draws that may. *)
    Lemma row_move r f p q p' q' kA kB : r < k * k -> choice r (list_prod (labels A) (labels A)) = Ok (p, q) -> differ gn A B p q -> adjacent g A p q ->
      differ gn B A p' q' -> (forall n, (In n (piece gn A p) \/ In n (piece gn A q)) <-> (In n (piece gn B p') \/ In n (piece gn B q'))) ->
      numbers (tree_of (subgraph g (piece gn B p'))) kA -> numbers (tree_of (subgraph g (piece gn B q'))) kB ->
      (forall T i, In T (s_trees x r) -> i < options x r T -> likelihood (fun u => ends_in (run x r T i u) (fun D => same D B)) (f T i)) ->
      (average (s_trees x r) (fun T => average (seq 0 (options x r T)) (fun i => f T i)) == Qn kA * Qn kB / (Qn bound * Qn (List.length (s_trees x r))))%Q.
    Proof using Rx Ry Ne Hpop Hbal.
      intros Hr Hc Df Ad Df' Un NA NB Hf. destruct (proj2 (proj2 (proj2 (proj2 Rx))) r p q Hr Hc (proj1 Df) Ad) as (L3 & Lt & Few).
      set (SA := piece gn B p') in *. set (SB := piece gn B q') in *.
      assert (NS : SA <> SB) by (intro X; apply (proj1 Df'); exact (piece_inj gn B p' q' PB (proj1 (proj2 Df')) X)).
      assert (HO : forall c, In c (only (pieces gn B) (pieces gn A)) <-> c = SA \/ c = SB) by apply (proj2 (proj2 (proj2 Df'))).
      assert (Sp : forall D, proper gn D -> labels D = labels A -> redrawn A p q D -> same D B <-> split_as D p q SA SB).
      { intros D PD Lb R. exact (move_split gn A B D p q PA PB PD len_eq Lb (proj1 (proj2 Df)) (proj1 (proj2 (proj2 Df))) R SA SB HO NS Df). }
      assert (New : ~ split_as A p q SA SB) by (intro X; apply Ne; apply (Sp A PA eq_refl); [split; auto|exact X]).
      assert (Ch := C98_chance E pop Hpop balance t e bound Hbal (s_heap x) (s_at x) (s_obj x) (proj1 Rx) (proj1 (proj2 Rx)) p q (proj1 Df) Ad (drawn x r) (fun n => in_drawn x Rx r p q n Hc)
        ltac:(rewrite drawn_sub; exact L3) SA SB).
      destruct (fun Cov Dis BA BB => Ch Cov Dis BA BB New (s_weights x) (s_root x) (s_fuel x) (s_max x) r (s_edge x) Hc (s_trees x r) kA kB Lt NA NB Few) as (pr & Hpr & ->).
      - intro n. rewrite (in_drawn x Rx r p q n Hc), <- !(in_piece gn A _ n PA). apply Un.
      - intros n H1 H2. apply NS. exact (pieces_apart gn B SA SB n PB (proj1 (proj1 (in_only _ _ _) (proj2 (HO SA) (or_introl eq_refl)))) (proj1 (proj1 (in_only _ _ _) (proj2 (HO SB) (or_intror eq_refl)))) H1 H2).
      - pose proof (proj1 (proj2 (proj2 Ry))) as Vy. eapply balanced_set_ext; [|apply (proj2 Vy p' (proj1 (proj2 Df')))]. intro n. symmetry. exact (in_piece gn B p' n PB).
      - pose proof (proj1 (proj2 (proj2 Ry))) as Vy. eapply balanced_set_ext; [|apply (proj2 Vy q' (proj1 (proj2 (proj2 Df'))))]. intro n. symmetry. exact (in_piece gn B q' n PB).
      - unfold average at 1. apply Qmult_comp; [|reflexivity]. apply qsum_ext. intros T HT.
        destruct (cuts_of E pop balance t e (s_weights x) (s_root x) (drawn x r) T) as [|m] eqn:Ec.
        + cbn [seq qsum fold_right]. transitivity (average (seq 0 (options x r T)) (fun _ => 0%Q)); [|apply average_const, options_pos].
          apply average_ext. intros i Hi. apply in_seq in Hi. destruct (draw x Rx r T i p q Hr HT Hc) as (c & D & O & _ & Hd). rewrite (Hd Ec) in O.
          assert (Lk := likelihood_of x r T i c A (fun D => same D B) false false O ltac:(split; [contradiction|discriminate]) ltac:(split; [contradiction|discriminate])).
          rewrite (likelihood_unique _ _ _ _ (fun u _ => iff_refl _) (Hf T i HT ltac:(lia)) Lk). ring.
        + assert (Eo : options x r T = S m) by (unfold options; rewrite Ec; lia). unfold average. rewrite Eo, seq_length. unfold Qdiv at 1. rewrite Qmult_comm, <- qsum_scale.
          apply qsum_ext. intros i Hi. apply in_seq in Hi. rewrite Qmult_comm. apply Qmult_comp; [|reflexivity].
          specialize (Hpr T i HT ltac:(lia)). eapply likelihood_unique; [|apply (Hf T i HT); lia|split; [exact (proj1 Hpr)|left; exact (proj2 Hpr)]].
          intros u U. cbn beta. change (call _ _ _ _ _ _ _ _ _ _ _ _ _ _ T i u) with (run x r T i u).
          destruct (draw x Rx r T i p q Hr HT Hc) as (c & D & O & Hd & _). pose proof O as (Hc01 & _ & _ & _ & OO).
          assert (ED : same D B <-> split_as D p q SA SB).
          { destruct Hd as [->|(Npq & _ & R & Lb)]; [split; intro; contradiction|]. apply Sp; auto. exact (outcome_proper _ _ _ _ _ O). }
          assert (EA : same A B <-> split_as A p q SA SB) by (split; intro; contradiction).
          destruct (OO (fun D => same D B) u U) as [O1 O2]. destruct (OO (fun D => split_as D p q SA SB) u U) as [O3 O4].
          destruct (Qlt_le_dec u c) as [W|W]; [rewrite (O1 W), (O3 W)|rewrite (O2 W), (O4 W)]; assumption.
    Qed.
    Lemma value_zero v : law x (fun D => same D B) v -> (forall p q, differ gn A B p q -> ~ adjacent g A p q) -> (v == 0)%Q.
    Proof using Rx Ry Ne Hpop Hbal.
      intros (f & Hf & ->) No. destruct (Nat.eq_dec (k * k) 0) as [K0|K0].
      { rewrite K0. unfold average. cbn. reflexivity. }
      transitivity (average (seq 0 (k * k)) (fun _ => 0%Q)); [|apply average_const; destruct (k * k); [congruence|discriminate]].
      apply average_ext. intros r Hr. apply in_seq in Hr. destruct (choice_pair x Rx r ltac:(lia)) as (p & q & Hc & _).
      apply (row_zero r (f r) p q); auto; [lia|intros [X Y]; exact (No p q X Y)|intros; apply Hf; auto; lia].
    Qed.
    Lemma value_move v p q p' q' kA kB tn U : law x (fun D => same D B) v -> differ gn A B p q -> adjacent g A p q -> differ gn B A p' q' ->
      (forall n, (In n (piece gn A p) \/ In n (piece gn A q)) <-> (In n (piece gn B p') \/ In n (piece gn B q'))) ->
      numbers (tree_of (subgraph g (piece gn B p'))) kA -> numbers (tree_of (subgraph g (piece gn B q'))) kB ->
      (forall n, In n U <-> In n (piece gn A p) \/ In n (piece gn A q)) -> numbers (tree_of (subgraph g U)) tn ->
      (v == 2 * (Qn kA * Qn kB / (Qn bound * Qn tn)) / Qn (k * k))%Q.
    Proof using Rx Ry Ne Hpop Hbal.
      intros (f & Hf & ->) Df Ad Df' Un NA NB HU NT. unfold average at 1. rewrite seq_length. apply Qmult_comp; [|reflexivity].
      set (z := (Qn kA * Qn kB / (Qn bound * Qn tn))%Q). set (pairs := list_prod (labels A) (labels A)).
      assert (Lp : List.length pairs = k * k) by (apply pairs_length; exact Rx).
      assert (Cnt : List.length (filter (differb gn A B) pairs) = 2).
      { destruct (differ_count gn A B PA) as [(p0 & q0 & D0 & Hpq)|No]; [|exfalso; exact (No p q Df)].
        assert (N2 : NoDup [(p0, q0); (q0, p0)]) by (constructor; [intros [X|[]]; injection X as X1 X2; apply (proj1 D0); congruence|constructor; [intros []|constructor]]).
        assert (NF : NoDup (filter (differb gn A B) pairs)).
        { apply NoDup_filter, P_FlipLaw.NoDup_prod; exact (coh_part_keys _ _ (proj1 PA)). }
        change 2 with (List.length [(p0, q0); (q0, p0)]). apply Nat.le_antisymm; apply NoDup_incl_length; auto; intros c Hc; [apply Hpq in Hc; destruct Hc as [->| ->]; cbn; auto|apply Hpq; destruct Hc as [<-|[<-|[]]]; auto]. }
      transitivity (qsum (seq 0 (k * k)) (fun r => if differb gn A B (nth (r - 0) pairs (p, q)) then z else 0))%Q.
      - apply qsum_ext. intros r Hr. apply in_seq in Hr. assert (Hr' : r < k * k) by lia. rewrite Nat.sub_0_r. destruct (choice_pair x Rx r Hr') as (p1 & q1 & Hc & _).
        assert (En : nth r pairs (p, q) = (p1, q1)).
        { pose proof Hc as Hc'. unfold choice in Hc'. fold pairs in Hc'. rewrite Nat.mod_small in Hc' by lia. rewrite (nth_error_nth' pairs (p, q)) in Hc' by lia. cbn in Hc'. destruct pairs; [cbn in Lp; lia|]. congruence. }
        rewrite En. destruct (differb gn A B (p1, q1)) eqn:Db.
        + apply differb_spec in Db. assert (Ad1 : adjacent g A p1 q1) by (destruct (differ_pair gn A B p q p1 q1 PA Df Db) as [[-> ->]|[-> ->]]; [exact Ad|now apply adjacent_sym]).
          assert (Un1 : forall n, (In n (piece gn A p1) \/ In n (piece gn A q1)) <-> (In n (piece gn A p) \/ In n (piece gn A q))) by (intro n; destruct (differ_pair gn A B p q p1 q1 PA Df Db) as [[-> ->]|[-> ->]]; tauto).
          rewrite (row_move r (f r) p1 q1 p' q' kA kB Hr' Hc Db Ad1 Df' (fun n => iff_trans (Un1 n) (Un n)) NA NB (fun T i HT Hi => Hf r T i Hr' HT Hi)).
          destruct (proj2 (proj2 (proj2 (proj2 Rx))) r p1 q1 Hr' Hc (proj1 Db) Ad1) as (_ & [Lt1 Lt2] & _).
          assert (Eg : subgraph g (drawn x r) = subgraph g U) by (apply subgraph_ext; intro n; rewrite HU, <- Un1, (in_drawn x Rx r p1 q1 n Hc), !(in_piece gn A _ n PA); reflexivity).
          assert (El : List.length (s_trees x r) = tn) by (eapply numbers_unique; [|exact NT]; exists (s_trees x r); rewrite <- Eg; auto). rewrite El. reflexivity.
        + apply (row_zero r (f r) p1 q1 Hr' Hc); [|intros; apply Hf; auto]. intros [X _]. apply differb_spec in X. congruence.
      - rewrite <- Lp, (qsum_nth (fun pq => if differb gn A B pq then z else 0%Q)), qsum_count, Cnt. reflexivity.
    Qed.
  End Pair.
  Lemma adj_dec (A : assignment N P) p q : adjacent g A p q \/ ~ adjacent g A p q.
  Proof using EP EN.
    clear Hbal. pose proof (seam_some E (fun _ _ => 0%Q) (fun _ => 0) 0 A p q) as X. destruct (dist_pair_edges E A p q) as [|e0 l]; [right; intro Y; now apply X in Y|left; apply X; discriminate].
  Qed.
  Lemma adj_back x y p q p' q' : ready x -> ready y -> differ (g_nodes g) (plan x) (plan y) p q -> adjacent g (plan x) p q -> differ (g_nodes g) (plan y) (plan x) p' q' ->
    (forall n, (In n (piece (g_nodes g) (plan x) p) \/ In n (piece (g_nodes g) (plan x) q)) <-> (In n (piece (g_nodes g) (plan y) p') \/ In n (piece (g_nodes g) (plan y) q'))) ->
    adjacent g (plan y) p' q'.
  Proof using EP EN.
    intros Rx Ry Df (u & v & Ad & Du & Dv) Df' Un. pose proof (ready_proper x Rx) as PA. pose proof (ready_proper y Ry) as PB. pose proof (proj1 (proj2 (proj2 Rx))) as Vx. pose proof (proj1 (proj2 (proj2 Ry))) as Vy.
    destruct (proj2 Vx p (proj1 (proj2 Df))) as (_ & Cp & _). destruct (proj2 Vx q (proj1 (proj2 (proj2 Df)))) as (_ & Cq & _).
    destruct (proj2 Vy p' (proj1 (proj2 Df'))) as ((n & Hn) & _). destruct (proj2 Vy q' (proj1 (proj2 (proj2 Df')))) as ((m & Hm) & _).
    assert (C := union_connected g _ _ u v Cp Cq Du Dv Ad).
    assert (C' : connected_on g (fun n => district (plan y) n = Some p' \/ district (plan y) n = Some q')).
    { eapply P_Contiguity.connected_on_ext; [|exact C]. intro w. cbn beta. rewrite <- !(in_piece _ (plan x) _ w PA), <- !(in_piece _ (plan y) _ w PB). apply Un. }
    destruct (crossing g _ _ n m C' Hn Hm) as (u' & v' & H); [intros w H1 H2; apply (proj1 Df'); congruence|]. exists u', v'. exact H.
  Qed.

  Notation prod f l := (fold_right Nat.mul 1 (map f l)).
  Lemma prod_filter {X} (f : X -> bool) (m : X -> nat) l : prod m l = prod m (filter f l) * prod m (filter (fun c => negb (f c)) l).
  Proof using. clear. induction l as [|c l IH]; [reflexivity|]. cbn [map fold_right filter]. rewrite IH. destruct (f c); cbn [negb map fold_right]; lia. Qed.
  Lemma weight_pieces A w (phi : list N -> nat) : proper (g_nodes g) A -> tree_product E A w ->
    (forall c, In c (pieces (g_nodes g) A) -> numbers (tree_of (subgraph g c)) (phi c)) -> w = prod phi (pieces (g_nodes g) A).
  Proof using.
    intros PA (f & ls & ND & Hl & Hf & ->) Hphi. unfold pieces. rewrite map_map. apply P_DetailedBalance.prod_perm; auto.
    - apply (coh_part_keys _ _ (proj1 PA)).
    - intro z. rewrite Hl. split; [intros (n & Hn); eapply (in_node (g_nodes g) A n z PA Hn)|apply (proj2 PA)].
    - intros z Hz. eapply numbers_unique; [apply (Hf z (piece (g_nodes g) A z) Hz); intro n; now apply in_piece|]. apply Hphi, in_pieces. exists z. split; [|reflexivity].
      apply Hl in Hz. destruct Hz as (n & Hn). eapply (in_node (g_nodes g) A n z PA Hn).
  Qed.
  Lemma piece_numbers A w c : proper (g_nodes g) A -> tree_product E A w -> In c (pieces (g_nodes g) A) -> exists m, numbers (tree_of (subgraph g c)) m.
  Proof using.
    intros PA (f & ls & ND & Hl & Hf & _) Hc. apply in_pieces in Hc. destruct Hc as (z & Hz & ->). exists (f z). apply Hf; [apply Hl, (proj2 PA), Hz|]. intro n. now apply in_piece.
  Qed.

  (** C119.  The flows between two different plans are equal. *)
  Theorem C119_balance x y wx wy vxy vyx : ready x -> ready y -> ~ same (plan x) (plan y) ->
    tree_product E (plan x) wx -> tree_product E (plan y) wy ->
    law x (fun D => same D (plan y)) vxy -> law y (fun D => same D (plan x)) vyx -> (Qn wx * vxy == Qn wy * vyx)%Q.
  Proof using Hpop Hbal.
    intros Rx Ry Ne Wx Wy Lx Ly. set (gn := g_nodes g). pose proof (ready_proper x Rx) as PA. pose proof (ready_proper y Ry) as PB. fold gn in PA, PB.
    assert (Ne' : ~ same (plan y) (plan x)) by (intro X; apply Ne, same_districts_sym, X). pose proof (len_eq x y Rx Ry) as K.
    assert (Dec : (exists p q, differ gn (plan x) (plan y) p q /\ adjacent g (plan x) p q) \/ (forall p q, differ gn (plan x) (plan y) p q -> ~ adjacent g (plan x) p q)).
    { destruct (differ_count gn (plan x) (plan y) PA) as [(p & q & D & _)|No]; [|right; intros p q D; destruct (No p q D)]. destruct (adj_dec (plan x) p q) as [Ad|Ad]; [left; eauto|]. right. intros p1 q1 D1 Ad1. apply Ad.
      destruct (differ_pair gn _ _ p q p1 q1 PA D D1) as [[-> ->]|[-> ->]]; [exact Ad1|now apply adjacent_sym]. }
    destruct Dec as [(p & q & D & Ad)|No].
    - destruct (differ_back gn _ _ p q PA PB K D) as (p' & q' & D' & Un). assert (Ad' := adj_back x y p q p' q' Rx Ry D Ad D' Un).
      destruct (finite_choice 0 (fun c m => numbers (tree_of (subgraph g c)) m) (pieces gn (plan x) ++ pieces gn (plan y))) as [phi Hphi].
      { intros c Hc. apply in_app_iff in Hc. destruct Hc as [Hc|Hc]; [eapply (piece_numbers (plan x)); eauto|eapply (piece_numbers (plan y)); eauto]. }
      assert (In1 : forall z, In z (labels (plan x)) -> numbers (tree_of (subgraph g (piece gn (plan x) z))) (phi (piece gn (plan x) z))) by (intros z Hz; apply Hphi, in_app_iff; left; apply in_pieces; eauto).
      assert (In2 : forall z, In z (labels (plan y)) -> numbers (tree_of (subgraph g (piece gn (plan y) z))) (phi (piece gn (plan y) z))) by (intros z Hz; apply Hphi, in_app_iff; right; apply in_pieces; eauto).
      assert (Tn : exists tn, numbers (tree_of (subgraph g (piece gn (plan x) p ++ piece gn (plan x) q))) tn).
      { assert (Hl : In (p, q) (list_prod (labels (plan x)) (labels (plan x)))) by (apply in_prod; apply D). destruct (P_FlipLaw.choice_below _ _ Hl) as (r & Hr & Hc). rewrite (pairs_length x Rx) in Hr.
        destruct (proj2 (proj2 (proj2 (proj2 Rx))) r p q Hr Hc (proj1 D) Ad) as (_ & [L1 L2] & _). exists (List.length (s_trees x r)), (s_trees x r). split; auto. split; auto. intro T. rewrite L2.
        rewrite (subgraph_ext g (drawn x r) (piece gn (plan x) p ++ piece gn (plan x) q)); [reflexivity|]. intro n. rewrite in_app_iff, (in_drawn x Rx r p q n Hc), !(in_piece gn (plan x) _ n PA). reflexivity. }
      destruct Tn as (tn & Tn). set (U := piece gn (plan x) p ++ piece gn (plan x) q) in *.
      assert (HU : forall n, In n U <-> In n (piece gn (plan x) p) \/ In n (piece gn (plan x) q)) by (intro n; apply in_app_iff).
      rewrite (value_move x y Rx Ry Ne vxy p q p' q' _ _ tn U Lx D Ad D' Un (In2 p' (proj1 (proj2 D'))) (In2 q' (proj1 (proj2 (proj2 D')))) HU Tn).
      rewrite (value_move y x Ry Rx Ne' vyx p' q' p q _ _ tn U Ly D' Ad' D (fun n => iff_sym (Un n)) (In1 p (proj1 (proj2 D))) (In1 q (proj1 (proj2 (proj2 D)))) (fun n => iff_trans (HU n) (Un n)) Tn).
      assert (Wt : forall A B p q w, proper gn A -> proper gn B -> differ gn A B p q -> tree_product E A w -> (forall c, In c (pieces gn A) -> numbers (tree_of (subgraph g c)) (phi c)) ->
        w = prod phi (filter (fun c => mem c (pieces gn B)) (pieces gn A)) * (phi (piece gn A p) * phi (piece gn A q))).
      { clear - EP EN. intros A B p q w PA PB D W Hf. rewrite (weight_pieces A w phi PA W Hf). fold gn. rewrite (prod_filter (fun c => mem c (pieces gn B))). f_equal. change (filter _ (pieces gn A)) with (only (pieces gn A) (pieces gn B)).
        assert (N2 : NoDup [piece gn A p; piece gn A q]) by (constructor; [intros [X|[]]; apply (proj1 D); symmetry; apply (piece_inj gn A q p PA (proj1 (proj2 (proj2 D))) X)|constructor; [intros []|constructor]]).
        rewrite (P_DetailedBalance.prod_perm phi phi (only (pieces gn A) (pieces gn B)) [piece gn A p; piece gn A q]); auto; [cbn [map fold_right]; lia|apply NoDup_filter, pieces_nodup, PA|].
        intro c. rewrite (proj2 (proj2 (proj2 D)) c). cbn [In]. split; intros [X|X]; auto; destruct X as [X|X]; auto; destruct X. }
      rewrite (Wt (plan x) (plan y) p q wx PA PB D Wx) by (intros c Hc; apply Hphi, in_app_iff; auto).
      rewrite (Wt (plan y) (plan x) p' q' wy PB PA D' Wy) by (intros c Hc; apply Hphi, in_app_iff; auto).
      assert (Cm : prod phi (filter (fun c => mem c (pieces gn (plan y))) (pieces gn (plan x))) = prod phi (filter (fun c => mem c (pieces gn (plan x))) (pieces gn (plan y)))).
      { apply P_DetailedBalance.prod_perm; auto; try (apply NoDup_filter, pieces_nodup; assumption). intro c. rewrite !filter_In, !mem_In. split; intros [X Y]; auto. }
      rewrite Cm. assert (Qn_mul : forall i j, (Qn (i * j) == Qn i * Qn j)%Q) by (intros; unfold Qn; rewrite Nat2Z.inj_mul, inject_Z_mult; reflexivity).
      rewrite !Qn_mul. unfold Qdiv. ring.
    - rewrite (value_zero x y Rx Ry Ne vxy Lx No). rewrite (value_zero y x Ry Rx Ne' vyx Ly); [ring|]. intros p' q' D' Ad'.
      destruct (differ_back gn _ _ p' q' PB PA (eq_sym K) D') as (p & q & D & Un). apply (No p q D). exact (adj_back y x p' q' p q Ry Rx D' Ad' D Un).
  Qed.

  (** Away from the districts [p] and [q] of [A], [A] and [B] have the same
      districts. *)
  Definition elsewhere (A B : assignment N P) (p q : P) : Prop :=
    forall n m, In n (g_nodes g) -> In m (g_nodes g) -> district A n <> Some p -> district A n <> Some q -> district A m <> Some p -> district A m <> Some q ->
      (district A n = district A m <-> district B n = district B m).
  Lemma differ_elsewhere A B p q : proper (g_nodes g) A -> proper (g_nodes g) B -> differ (g_nodes g) A B p q -> elsewhere A B p q.
  Proof using.
    clear. intros PA PB D n m Hn Hm Np Nq Mp Mq. destruct (node_in _ A n PA Hn) as (z & Hz). assert (Hc : In (piece (g_nodes g) A z) (pieces (g_nodes g) B)).
    { destruct (mem (piece (g_nodes g) A z) (pieces (g_nodes g) B)) eqn:X; [now apply mem_In|]. exfalso. apply mem_notIn in X.
      assert (Lz : In z (labels A)) by (eapply (in_node _ A n z PA Hz)).
      assert (Y : In (piece (g_nodes g) A z) (only (pieces (g_nodes g) A) (pieces (g_nodes g) B))) by (apply in_only; split; [apply in_pieces; eauto|exact X]).
      apply D in Y. destruct Y as [Y|Y]; apply piece_inj in Y; auto; congruence. }
    apply in_pieces in Hc. destruct Hc as (z' & _ & Ec).
    assert (Q : forall w, district A w = Some z <-> district B w = Some z') by (intro w; rewrite <- (in_piece _ A z w PA), <- (in_piece _ B z' w PB), Ec; reflexivity).
    rewrite Hz, (proj1 (Q n) Hz). split; intro W; symmetry; apply Q; now symmetry.
  Qed.
  Lemma elsewhere_differ A B p q p' q' : proper (g_nodes g) A -> proper (g_nodes g) B -> List.length (labels A) = List.length (labels B) -> ~ same A B ->
    p <> q -> In p (labels A) -> In q (labels A) ->
    (forall n, (district A n = Some p \/ district A n = Some q) <-> (district B n = Some p' \/ district B n = Some q')) -> elsewhere A B p q -> differ (g_nodes g) A B p q.
  Proof using.
    clear. intros PA PB K Ne Npq Lp Lq Un El. destruct (FG _ A B PA PB K) as (NF & NG & _).
    assert (I : incl (only (pieces (g_nodes g) A) (pieces (g_nodes g) B)) [piece (g_nodes g) A p; piece (g_nodes g) A q]).
    { intros c Hc. apply in_only in Hc. destruct Hc as [Hc Hno]. apply in_pieces in Hc. destruct Hc as (z & Hz & ->). destruct (eqb_spec z p) as [Zp|Zp]; [left; now rewrite Zp|]. destruct (eqb_spec z q) as [Zq|Zq]; [right; left; now rewrite Zq|]. exfalso. apply Hno.
      destruct (proj2 PA z Hz) as (n & Hn). pose proof (proj1 (in_node _ A n z PA Hn)) as Gn. destruct (node_in _ B n PB Gn) as (z' & Hz').
      assert (Out : district B n <> Some p' /\ district B n <> Some q') by (split; intro W; assert (W' := proj2 (Un n)); rewrite Hn in W'; destruct W'; auto; congruence).
      apply in_pieces. exists z'. split; [eapply (in_node _ B n z' PB Hz')|]. apply piece_ext; auto. intro m. split; intro Hm.
      - rewrite <- Hz'. symmetry. apply El; try congruence; auto. apply (in_node _ A m z PA Hm).
      - rewrite <- Hn. symmetry. assert (Om : district A m <> Some p /\ district A m <> Some q) by (split; intro W; assert (W' := proj1 (Un m)); destruct W'; auto; destruct Out; congruence).
        apply El; try tauto; try congruence. apply (in_node _ B m z' PB Hm). }
    assert (N2 : NoDup [piece (g_nodes g) A p; piece (g_nodes g) A q]) by (constructor; [intros [W|[]]; apply Npq; symmetry; apply (piece_inj _ A q p PA Lq W)|constructor; [intros []|constructor]]).
    pose proof (only_two _ A B PA PB K Ne) as L2.
    assert (I' : incl [piece (g_nodes g) A p; piece (g_nodes g) A q] (only (pieces (g_nodes g) A) (pieces (g_nodes g) B))) by (apply NoDup_length_incl; [apply NoDup_filter, NF|exact L2|exact I]).
    split; [exact Npq|]. split; [exact Lp|]. split; [exact Lq|]. intro c. split; [intro Hc; apply I in Hc; destruct Hc as [<-|[<-|[]]]; auto|]. intros [->| ->]; apply I'; cbn; auto.
  Qed.
  (** C119.  If the other plan splits two adjacent districts differently and
      agrees elsewhere, the probability to get there is twice the number of
      spanning trees of its two districts, over the number of pairs, the bound
      and the number of spanning trees of the two districts together. *)
  Theorem C119_moves x y v p q p' q' U SA SB kA kB tn : ready x -> ready y -> ~ same (plan x) (plan y) ->
    p <> q -> p' <> q' -> In p' (labels (plan y)) -> In q' (labels (plan y)) -> adjacent g (plan x) p q ->
    (forall n, In n U <-> district (plan x) n = Some p \/ district (plan x) n = Some q) ->
    (forall n, In n SA <-> district (plan y) n = Some p') -> (forall n, In n SB <-> district (plan y) n = Some q') ->
    (forall n, In n U <-> In n SA \/ In n SB) -> elsewhere (plan x) (plan y) p q ->
    numbers (tree_of (subgraph g U)) tn -> numbers (tree_of (subgraph g SA)) kA -> numbers (tree_of (subgraph g SB)) kB ->
    law x (fun D => same D (plan y)) v -> (v == 2 * Qn kA * Qn kB / (Qn (k * k) * Qn bound * Qn tn))%Q.
  Proof using Hpop Hbal.
    intros Rx Ry Ne Npq Npq' Lp' Lq' Ad HU HA HB Un El Tn Ka Kb Lx. pose proof (ready_proper x Rx) as PA. pose proof (ready_proper y Ry) as PB. pose proof (len_eq x y Rx Ry) as K.
    assert (Un1 : forall n, (district (plan x) n = Some p \/ district (plan x) n = Some q) <-> (district (plan y) n = Some p' \/ district (plan y) n = Some q')) by (intro n; rewrite <- HU, Un, HA, HB; reflexivity).
    assert (Lp : In p (labels (plan x))) by (destruct Ad as (u & w & _ & D & _); eapply (in_node _ (plan x) u p PA D)).
    assert (Lq : In q (labels (plan x))) by (destruct Ad as (u & w & _ & _ & D); eapply (in_node _ (plan x) w q PA D)).
    assert (D := elsewhere_differ (plan x) (plan y) p q p' q' PA PB K Ne Npq Lp Lq Un1 El).
    assert (D' : differ (g_nodes g) (plan y) (plan x) p' q').
    { apply (elsewhere_differ (plan y) (plan x) p' q' p q PB PA (eq_sym K)); auto.
      - intro W. apply Ne, same_districts_sym, W.
      - intro n. symmetry. apply Un1.
      - intros n m Hn Hm N1 N2 M1 M2. symmetry. apply El; auto; intro W; [destruct (proj1 (Un1 n) (or_introl W))|destruct (proj1 (Un1 n) (or_intror W))|destruct (proj1 (Un1 m) (or_introl W))|destruct (proj1 (Un1 m) (or_intror W))]; contradiction. }
    assert (Sub : forall z s m, (forall n, In n s <-> district (plan y) n = Some z) -> numbers (tree_of (subgraph g s)) m -> numbers (tree_of (subgraph g (piece (g_nodes g) (plan y) z))) m).
    { intros z s m Hs Hm. rewrite (subgraph_ext g _ s); [exact Hm|]. intro n. rewrite Hs. now apply in_piece. }
    rewrite (value_move x y Rx Ry Ne v p q p' q' kA kB tn U Lx D Ad D').
    - assert (Inv : forall a b c d : Q, (2 * (a / (b * c)) / d == 2 * a / (d * b * c))%Q) by (intros a b c d; unfold Qdiv; rewrite !Qinv_mult_distr; ring). rewrite Inv. unfold Qdiv. ring.
    - intro n. rewrite !(in_piece _ (plan x) _ n PA), !(in_piece _ (plan y) _ n PB). apply Un1.
    - exact (Sub p' SA kA HA Ka).
    - exact (Sub q' SB kB HB Kb).
    - intro n. rewrite !(in_piece _ (plan x) _ n PA). apply HU.
    - exact Tn.
  Qed.
  (** C119.  Otherwise it is 0. *)
  Theorem C119_never x y v : ready x -> ready y -> ~ same (plan x) (plan y) ->
    (forall p q, p <> q -> adjacent g (plan x) p q -> ~ elsewhere (plan x) (plan y) p q) -> law x (fun D => same D (plan y)) v -> (v == 0)%Q.
  Proof using Hpop Hbal.
    intros Rx Ry Ne No Lx. apply (value_zero x y Rx Ry Ne v Lx). intros p q D Ad. apply (No p q (proj1 D) Ad). apply differ_elsewhere; auto; now apply ready_proper.
  Qed.

  (** ** All plans *)
  Section Chain.
    Context {X : Type} {EX : EqB X}.
    Variable states : list X.
    Variable at_ : X -> start.
    Hypothesis ND : NoDup states.
    Hypothesis Ready : forall x, In x states -> ready (at_ x).
    Hypothesis Distinct : forall x y, In x states -> In y states -> same (plan (at_ x)) (plan (at_ y)) -> x = y.
    Hypothesis Complete : forall h a o, session E h -> nth_error h a = Some o -> valid (o_assign o) -> exists x, In x states /\ same (plan (at_ x)) (o_assign o).
    Variable K : X -> X -> Q.
    Hypothesis HK : forall x y, In x states -> In y states -> law (at_ x) (fun D => same D (plan (at_ y))) (K x y).

    (** C119.  A call ends in one of the plans. *)
    Theorem C119_total x : k <> 0 -> In x states -> (qsum states (K x) == 1)%Q.
    Proof using EX Hpop Hbal ND Ready Distinct Complete HK.
      intros K0 Hx. pose proof (Ready x Hx) as Rx.
      destruct (finite_choice (fun _ _ _ => 0%Q) (fun y (f : nat -> list (N * N) -> nat -> Q) =>
        (forall r T i, r < k * k -> In T (s_trees (at_ x) r) -> i < options (at_ x) r T -> likelihood (fun u => ends_in (run (at_ x) r T i u) (fun D => same D (plan (at_ y)))) (f r T i)) /\
        (K x y == average (seq 0 (k * k)) (fun r => average (s_trees (at_ x) r) (fun T => average (seq 0 (options (at_ x) r T)) (fun i => f r T i))))%Q) states) as [F HF].
      { intros y Hy. exact (HK x y Hx Hy). }
      rewrite (qsum_ext _ _ _ (fun y Hy => proj2 (HF y Hy))). rewrite average_sum.
      transitivity (average (seq 0 (k * k)) (fun _ => 1%Q)); [|apply average_const; destruct k; [congruence|discriminate]].
      apply average_ext. intros r Hr. apply in_seq in Hr. rewrite average_sum. transitivity (average (s_trees (at_ x) r) (fun _ => 1%Q)); [|apply average_const, (proj1 (proj2 (proj2 (proj2 Rx)))); lia].
      apply average_ext. intros T HT. rewrite average_sum. transitivity (average (seq 0 (options (at_ x) r T)) (fun _ => 1%Q)); [|apply average_const, options_pos].
      apply average_ext. intros i Hi. apply in_seq in Hi. destruct (choice_pair (at_ x) Rx r ltac:(lia)) as (p & q & Hc & _).
      destruct (draw (at_ x) Rx r T i p q ltac:(lia) HT Hc) as (c & B & O & _). pose proof O as (_ & VB & _ & (h' & b & o' & S' & Hb & EB) & _). rewrite EB in VB.
      destruct (Complete h' b o' S' Hb VB) as (z & Hz & Sz). rewrite <- EB in Sz.
      transitivity (qsum states (fun y => (if eqb y z then c else 0) + (if eqb y x then 1 - c else 0))%Q).
      - apply qsum_ext. intros y Hy. eapply likelihood_unique; [|apply (proj1 (HF y Hy) r T i); auto; lia|apply (likelihood_of (at_ x) r T i c B (fun D => same D (plan (at_ y))) _ _ O)]; [intros u _; reflexivity| |].
        + destruct (eqb_spec y z) as [Eyz|Nyz]; [rewrite Eyz; split; auto; intros _; now apply same_districts_sym|]. split; [|discriminate]. intro Sm. exfalso. apply Nyz. apply Distinct; auto. apply same_districts_sym. eapply same_districts_trans; eauto.
        + destruct (eqb_spec y x) as [Eyx|Nyx]; [rewrite Eyx; split; auto; intros _; apply same_districts_refl|]. split; [|discriminate]. intro Sm. exfalso. apply Nyx. apply Distinct; auto. now apply same_districts_sym.
      - rewrite qsum_plus, !qsum_indicator by auto. ring.
    Qed.

    Variable weight : X -> nat.
    Hypothesis Hweight : forall x, In x states -> tree_product E (plan (at_ x)) (weight x).
    (** C119.  The spanning tree distribution is stationary. *)
    Theorem C119_stationary y : k <> 0 -> In y states -> (qsum states (fun x => Qn (weight x) * K x y) == Qn (weight y))%Q.
    Proof using EX Hpop Hbal ND Ready Distinct Complete HK Hweight.
      intros K0 Hy. transitivity (qsum states (fun x => Qn (weight y) * K y x)%Q).
      - apply qsum_ext. intros x Hx. destruct (eqb_spec x y) as [Exy|Nxy]; [rewrite Exy; reflexivity|].
        apply (C119_balance (at_ x) (at_ y)); auto.
      - rewrite qsum_scale, (C119_total y K0 Hy). ring.
    Qed.
    (** The distribution after [n] steps. *)
    Fixpoint after (n : nat) (d : X -> Q) : X -> Q :=
      match n with 0 => d | S n => fun y => qsum states (fun x => after n d x * K x y)%Q end.
    Theorem C119_forever n y : k <> 0 -> In y states -> (after n (fun x => Qn (weight x) / qsum states (fun z => Qn (weight z))) y == Qn (weight y) / qsum states (fun z => Qn (weight z)))%Q.
    Proof using EX Hpop Hbal ND Ready Distinct Complete HK Hweight.
      intro K0. revert y. induction n as [|n IH]; intros y Hy; cbn [after]; [reflexivity|]. set (Z0 := qsum states (fun z => Qn (weight z))) in *.
      transitivity (qsum states (fun x => / Z0 * (Qn (weight x) * K x y)))%Q; [apply qsum_ext; intros x Hx; rewrite (IH x Hx); unfold Qdiv; ring|].
      rewrite qsum_scale, (C119_stationary y K0 Hy). unfold Qdiv. ring.
    Qed.
  End Chain.
End Stationary.

(** ** The 4-cycle with its two balanced plans *)
Section Square.
  Let pop := flat_pop 4 1.
  Lemma popn_flat n : n < 4 -> popn pop n = 1%Z.
  Proof. intros Hn. do 4 (destruct n as [|n]; [reflexivity|]). lia. Qed.
  Lemma square_adj u v : adj square u v -> (u = 0 /\ (v = 1 \/ v = 3)) \/ (u = 1 /\ (v = 0 \/ v = 2)) \/ (u = 2 /\ (v = 1 \/ v = 3)) \/ (u = 3 /\ (v = 0 \/ v = 2)).
  Proof. intros [H|H]; cbn in H; repeat destruct H as [H|H]; try contradiction; injection H as <- <-; lia. Qed.
  Lemma pair_connected (Pr : nat -> Prop) u v : (forall n, Pr n <-> n = u \/ n = v) -> adj square u v -> connected_on square Pr.
  Proof.
    intros Hp Ad x y Hx Hy. assert (Pu : Pr u) by (apply Hp; auto). assert (Pv : Pr v) by (apply Hp; auto). apply Hp in Hx, Hy.
    assert (UV : reach (fun a b => adj square a b /\ Pr a /\ Pr b) u v) by (econstructor; [constructor|auto]).
    assert (VU : reach (fun a b => adj square a b /\ Pr a /\ Pr b) v u) by (econstructor; [constructor|split; auto; destruct Ad; [right|left]; assumption]).
    destruct Hx as [->| ->], Hy as [->| ->]; auto; constructor.
  Qed.
  (** Every valid plan is one of the two. *)
  Lemma square_complete h a o : session square_E h -> nth_error h a = Some o -> valid square_E pop 2 0 2 (o_assign o) ->
    (forall n m, n < 4 -> m < 4 -> district (o_assign o) n = district (o_assign o) m <-> dget across n = dget across m) \/
    (forall n m, n < 4 -> m < 4 -> district (o_assign o) n = district (o_assign o) m <-> dget along n = dget along m).
  Proof.
    intros S Ho [Len Val]. set (A := o_assign o) in *. pose proof (Coh square_E h a o S Ho) as C. fold A in C.
    assert (Dom : forall n, n < 4 -> exists z, district A n = Some z /\ In z (labels A)).
    { intros n Hn. assert (X : In n (g_nodes (e_graph square_E))) by (cbn; lia). apply (coh_dom _ _ C) in X. apply dget_key in X. destruct X as (z & Hz). exists z. split; [exact Hz|]. exact (label_of square_E h a o S Ho n z Hz). }
    assert (Inv : forall n z, district A n = Some z -> n < 4).
    { intros n z Hz. assert (X : In n (g_nodes (e_graph square_E))) by (apply (coh_dom _ _ C); eapply dget_Some_key; exact Hz). cbn in X. lia. }
    destruct (Dom 0 ltac:(lia)) as (z0 & D0 & L0), (Dom 1 ltac:(lia)) as (z1 & D1 & L1), (Dom 2 ltac:(lia)) as (z2 & D2 & L2), (Dom 3 ltac:(lia)) as (z3 & D3 & L3).
    assert (Two : forall y z, In y (labels A) -> In z (labels A) -> y <> z0 -> z <> z0 -> y = z).
    { intros y z Hy Hz Ny Nz. destruct (labels A) as [|a1 [|a2 [|a3 l]]] eqn:El; try discriminate. cbn [In] in *. intuition congruence. }
    destruct (Val z0 L0) as (_ & Con & (s & (l & NDl & Hl & Hs) & Bal)).
    assert (Ls : s = Z.of_nat (List.length l)).
    { rewrite Hs. assert (F : Forall (fun n => n < 4) l) by (apply Forall_forall; intros n Hn; apply Hl in Hn; exact (Inv n z0 Hn)). clear - F. induction F as [|n l Hn F IH]; [reflexivity|]. cbn [map List.length]. rewrite vsum_cons, IH, (popn_flat n Hn). change (1 + Z.of_nat (List.length l) = Z.of_nat (Datatypes.S (List.length l)))%Z. lia. }
    assert (L2' : List.length l = 2).
    { unfold S_Tree.balanced in Bal. rewrite Ls in Bal. assert (X : (Qabs (inject_Z (Z.of_nat (List.length l)) - 2) <= 0)%Q) by (rewrite Qmult_0_r in Bal; exact Bal).
      apply Qabs_Qle_condition in X. destruct X as [X1 X2]. unfold Qle, inject_Z in X1, X2. cbn in X1, X2. lia. }
    assert (Count : List.length (filter (fun n => eqb (district A n) (Some z0)) [0; 1; 2; 3]) = 2).
    { transitivity (List.length l); [|exact L2']. assert (ND4 : NoDup [0; 1; 2; 3]) by nodup. apply Nat.le_antisymm; [apply (NoDup_incl_length (NoDup_filter _ ND4))|apply (NoDup_incl_length NDl)]; intros n Hn.
      - apply filter_In in Hn. destruct Hn as [_ Hn]. apply eqb_true in Hn. apply Hl, Hn.
      - apply Hl in Hn. apply filter_In. pose proof (Inv n z0 Hn). split; [cbn; lia|]. rewrite Hn. apply eqb_refl. }
    cbn [filter] in Count. rewrite D0, D1, D2, D3 in Count. rewrite eqb_refl in Count.
    assert (N02 : z2 = z0 -> z1 <> z0 -> z3 <> z0 -> False).
    { intros E2 N1 N3. assert (R := Con 0 2 D0 (eq_trans D2 (f_equal Some E2))). cbn beta in R.
      assert (Only : forall n, district A n = Some z0 -> n = 0 \/ n = 2) by (intros n Hn; pose proof (Inv n z0 Hn); do 4 (destruct n as [|n]; [auto; try congruence|]); lia).
      inversion R as [|v w R' (Ad & Dv & _)]; subst. apply Only in Dv. apply square_adj in Ad. lia. }
    destruct (eqb_spec (Some z1) (Some z0)) as [E1|N1], (eqb_spec (Some z2) (Some z0)) as [E2|N2], (eqb_spec (Some z3) (Some z0)) as [E3|N3]; cbn [List.length] in Count; try discriminate.
    - left. assert (E23 : z2 = z3) by (apply Two; auto; congruence). injection E1 as E1.
      intros n m Hn Hm. do 4 (destruct n as [|n]; [do 4 (destruct m as [|m]; [rewrite ?D0, ?D1, ?D2, ?D3; cbn [dget across eqb EqB_nat Nat.eqb]; split; intro; congruence|]); lia|]); lia.
    - exfalso. apply N02; congruence.
    - right. assert (E12 : z1 = z2) by (apply Two; auto; congruence). injection E3 as E3.
      intros n m Hn Hm. do 4 (destruct n as [|n]; [do 4 (destruct m as [|m]; [rewrite ?D0, ?D1, ?D2, ?D3; cbn [dget along eqb EqB_nat Nat.eqb]; split; intro; congruence|]); lia|]); lia.
  Qed.
End Square.
Definition square_start (d : dict nat nat) : @start nat nat Z nat :=
  mkStart (square_run d) 0 (nth 0 (square_run d) (mkObj (mkAssignment [] []) None None [] None [])) (fun _ _ => 0%Q) (fun _ _ => 0) 0 0 0 (fun _ => square_trees).
Definition square_at (b : bool) : @start nat nat Z nat := square_start (if b then across else along).
Lemma square_ready b : ready square_E (flat_pop 4 1) find_cuts_memoization 2 0 1 2 (square_at b).
Proof.
  set (A := o_assign (s_obj (square_at b))).
  assert (D : forall z n, district A n = Some z <-> if b then (z = 1 /\ (n = 0 \/ n = 1)) \/ (z = 2 /\ (n = 2 \/ n = 3)) else (z = 1 /\ (n = 0 \/ n = 3)) \/ (z = 2 /\ (n = 1 \/ n = 2))).
  { intros z n. unfold A, district. destruct b; (do 4 (destruct n as [|n]; [vm_compute dget; split; [intros [= <-]; lia|intro; f_equal; lia]|])); (split; [discriminate|lia]). }
  assert (Lb : labels A = [1; 2]) by (unfold A; destruct b; vm_compute; reflexivity).
  split; [|split; [|split; [|split]]].
  - destruct b; (eapply square_session; [nodup|vm_compute; reflexivity]).
  - destruct b; vm_compute; reflexivity.
  - split; [change (List.length (labels A) = 2); now rewrite Lb|]. change (o_assign (s_obj (square_at b))) with A. rewrite Lb. intros z Hz.
    assert (Pr : exists u v, u < 4 /\ v < 4 /\ u <> v /\ adj square u v /\ forall n, district A n = Some z <-> n = u \/ n = v).
    { destruct Hz as [<-|[<-|[]]], b; [exists 0, 1|exists 0, 3|exists 2, 3|exists 1, 2]; (split; [lia|split; [lia|split; [lia|split; [left; cbn; tauto|intro n; rewrite D; lia]]]]). }
    destruct Pr as (u & v & Hu & Hv & Nuv & Ad & Hd). split; [exists u; apply Hd; auto|]. split; [now apply (pair_connected _ u v)|now apply (pair_balanced u v)].
  - intros r _. discriminate.
  - intros r p q Hr Hc Npq _.
    assert (Ed : drawn square_E (square_at b) r = [0; 1; 2; 3]).
    { do 4 (destruct r as [|r]; [destruct b; vm_compute in Hc; injection Hc as <- <-; try congruence; vm_compute; reflexivity|]). lia. }
    rewrite Ed. split; [cbn; lia|]. split; [exact square_lists|]. intros T HT. unfold square_trees in HT. destruct b; repeat destruct HT as [HT|HT]; try contradiction; subst T; vm_compute; lia.
Qed.
(** All the hypotheses of [C119_stationary] hold of the two plans, and a call
    moves from each to the other with probability 1/8. *)
Example C119_nonvacuous :
  (forall b, ready square_E (flat_pop 4 1) find_cuts_memoization 2 0 1 2 (square_at b)) /\
  (forall b b', same_districts [0; 1; 2; 3] (o_assign (s_obj (square_at b))) (o_assign (s_obj (square_at b'))) -> b = b') /\
  (forall h a o, session square_E h -> nth_error h a = Some o -> valid square_E (flat_pop 4 1) 2 0 2 (o_assign o) ->
    exists b, In b [true; false] /\ same_districts [0; 1; 2; 3] (o_assign (s_obj (square_at b))) (o_assign o)) /\
  (forall b, tree_product square_E (o_assign (s_obj (square_at b))) 1) /\
  exists K : bool -> bool -> Q, (forall b b', law square_E (flat_pop 4 1) find_cuts_memoization 2 0 1 2 (square_at b)
    (fun D => same_districts [0; 1; 2; 3] D (o_assign (s_obj (square_at b')))) (K b b')) /\
    (K true false == 1 # 8)%Q /\ (K false true == 1 # 8)%Q /\ (K true true == 7 # 8)%Q.
Proof.
  assert (Dis : forall b b', same_districts [0; 1; 2; 3] (o_assign (s_obj (square_at b))) (o_assign (s_obj (square_at b'))) -> b = b').
  { intros b b' H. assert (X := H 0 1 ltac:(cbn; auto) ltac:(cbn; auto)). destruct b, b'; auto; exfalso; vm_compute in X; destruct X as [X1 X2]; [specialize (X1 eq_refl)|specialize (X2 eq_refl)]; discriminate. }
  assert (Comp : forall h a o, session square_E h -> nth_error h a = Some o -> valid square_E (flat_pop 4 1) 2 0 2 (o_assign o) ->
    exists b, In b [true; false] /\ same_districts [0; 1; 2; 3] (o_assign (s_obj (square_at b))) (o_assign o)).
  { intros h a o S Ho V0. assert (I4 : forall n, In n [0; 1; 2; 3] -> n < 4) by (intros n Hn; cbn in Hn; lia).
    assert (De : forall b n, n < 4 -> district (o_assign (s_obj (square_at b))) n = dget (if b then across else along) n) by (intros b n Hn; destruct b; do 4 (destruct n as [|n]; [vm_compute; reflexivity|]); lia).
    destruct (square_complete h a o S Ho V0) as [H|H]; [exists true|exists false]; (split; [cbn; auto|]); intros n m Hn Hm; rewrite (H n m (I4 n Hn) (I4 m Hm)), !De by auto; reflexivity. }
  assert (Tp : forall b, tree_product square_E (o_assign (s_obj (square_at b))) 1).
  { intro b. set (A := o_assign (s_obj (square_at b))).
    assert (D : forall z n, district A n = Some z <-> if b then (z = 1 /\ (n = 0 \/ n = 1)) \/ (z = 2 /\ (n = 2 \/ n = 3)) else (z = 1 /\ (n = 0 \/ n = 3)) \/ (z = 2 /\ (n = 1 \/ n = 2))).
    { intros z n. unfold A, district. destruct b; (do 4 (destruct n as [|n]; [vm_compute dget; split; [intros [= <-]; lia|intro; f_equal; lia]|])); (split; [discriminate|lia]). }
    exists (fun _ => 1), [1; 2]. split; [nodup|]. split; [|split; [|reflexivity]].
    - intro z. split; [intros [<-|[<-|[]]]; [exists 0|exists 2]; apply D; destruct b; lia|]. intros (n & Hn). apply D in Hn. cbn. destruct b; lia.
    - intros z s Hz Hs. destruct Hz as [<-|[<-|[]]], b; [apply (pair_tree s 0 1)|apply (pair_tree s 0 3)|apply (pair_tree s 2 3)|apply (pair_tree s 1 2)]; try (cbn; tauto); intro n; rewrite Hs, D; lia. }
  assert (Cv : covers (flat_pop 4 1) (e_graph square_E)) by (split; [nodup|intro n; reflexivity]).
  split; [exact square_ready|]. split; [exact Dis|]. split; [exact Comp|]. split; [exact Tp|].
  assert (Ex : forall b b', exists v, law square_E (flat_pop 4 1) find_cuts_memoization 2 0 1 2 (square_at b) (fun D => same_districts [0; 1; 2; 3] D (o_assign (s_obj (square_at b')))) v).
  { intros b b'. apply (C119_defined square_E (flat_pop 4 1) Cv find_cuts_memoization 2 0 1 2 (or_introl eq_refl) (square_at b)); [apply square_ready|]. intro A. exact (same_dec square_E A (o_assign (s_obj (square_at b')))). }
  destruct (Ex true true) as (v11 & H11), (Ex true false) as (v12 & H12), (Ex false true) as (v21 & H21), (Ex false false) as (v22 & H22).
  set (K := fun b b' : bool => if b then (if b' then v11 else v12) else (if b' then v21 else v22)).
  assert (HK : forall b b', law square_E (flat_pop 4 1) find_cuts_memoization 2 0 1 2 (square_at b) (fun D => same_districts [0; 1; 2; 3] D (o_assign (s_obj (square_at b')))) (K b b')) by (intros [] []; [exact H11|exact H12|exact H21|exact H22]).
  exists K. split; [exact HK|].
  assert (Move : forall b, (K b (negb b) == 1 # 8)%Q).
  { intro b. assert (Ne : ~ same_districts [0; 1; 2; 3] (o_assign (s_obj (square_at b))) (o_assign (s_obj (square_at (negb b))))) by (intro X; apply Dis in X; destruct b; discriminate).
    assert (T4 : numbers (tree_of (subgraph square [0; 1; 2; 3])) 4) by (exists square_trees; split; [apply square_lists|split; [apply square_lists|reflexivity]]).
    assert (DfA : forall b, differ [0; 1; 2; 3] (o_assign (s_obj (square_at b))) (o_assign (s_obj (square_at (negb b)))) 1 2) by (intros b'; apply differb_spec; destruct b'; vm_compute; reflexivity).
    assert (DfB := DfA (negb b)). rewrite negb_involutive in DfB.
    rewrite (value_move square_E (flat_pop 4 1) Cv find_cuts_memoization 2 0 1 2 (or_introl eq_refl) (square_at b) (square_at (negb b)) (square_ready b) (square_ready (negb b)) Ne (K b (negb b))
      1 2 1 2 1 1 4 [0; 1; 2; 3] (HK b (negb b)) (DfA b)); [vm_compute; reflexivity|..].
    - destruct b; [exists 1, 2|exists 0, 1]; (split; [left; cbn; tauto|]); split; reflexivity.
    - exact DfB.
    - intro n. destruct b; vm_compute; intuition.
    - destruct b; [apply (pair_tree _ 0 3)|apply (pair_tree _ 0 1)]; try (cbn; tauto); intro n; vm_compute; intuition.
    - destruct b; [apply (pair_tree _ 1 2)|apply (pair_tree _ 2 3)]; try (cbn; tauto); intro n; vm_compute; intuition.
    - intro n. destruct b; vm_compute; intuition.
    - exact T4. }
  split; [exact (Move true)|]. split; [exact (Move false)|].
  assert (Tot := C119_total square_E (flat_pop 4 1) Cv find_cuts_memoization 2 0 1 2 (or_introl eq_refl) [true; false] square_at ltac:(nodup) (fun b _ => square_ready b) (fun b b' _ _ => Dis b b') Comp K (fun b b' _ _ => HK b b') true ltac:(discriminate) ltac:(cbn; auto)).
  rewrite !qsum_cons in Tot. cbn [qsum fold_right] in Tot. assert (M := Move true). cbn [negb] in M. rewrite M in Tot. rewrite Qplus_0_r in Tot. lra.
Qed.

Print Assumptions C119_defined.
Print Assumptions C119_unique.
Print Assumptions C119_moves.
Print Assumptions C119_never.
Print Assumptions C119_balance.
Print Assumptions C119_total.
Print Assumptions C119_stationary.
Print Assumptions C119_forever.
