(** C130: the order in which sets are listed. *)
From Coq Require Import String List Bool Arith ZArith QArith Qabs Lqa Lia ZifyBool ZifyNat Permutation FinFun.
From Verif Require Import Base M_Graph M_Partition S_Partition L_Partition M_Machine S_Machine
  L_Cuts L_Machine L_Answers P_Partition P_Machine M_Constraints M_Chain P_Chain M_Diversity L_Order M_Proposals S_Proposals P_Proposals
  L_Locality M_Tree M_Recursive M_Recom M_Orders S_Contiguity P_Uniform P_FlipLaw P_ChainLaw.
From Verif Require Import P_DetailedBalance P_Stationary L_Converge L_Average P_LongRun P_Histogram P_AnyNode P_Slow P_Bi.
Import ListNotations.
Local Open Scope nat_scope.
Local Open Scope list_scope.

(** ** Specification *)

(** A way to list the elements of a set. *)
Definition lists {X} (f : list X -> list X) : Prop := forall l, Permutation l (f l).
(** [D] is a multiple of [c]: a number below [D] makes a uniform choice among [c]
    things. *)
Definition multiple (D c : nat) : Prop := exists t, D = t * c.
(** The numbers below [D] under other names. *)
Definition renames (D : nat) (s : nat -> nat) : Prop := (forall d, d < D -> s d < D) /\ forall d d', d < D -> d' < D -> s d = s d' -> d = d'.

(** ** Choices *)
Lemma renamed_choice {X} (l l' : list X) D : Permutation l l' -> multiple D (List.length l) -> exists s, renames D s /\ forall d, d < D -> choice d l' = choice (s d) l.
Proof.
  intros Pl (t & Dt). apply Permutation_nth_error in Pl. destruct Pl as (Ll & f & If & Hf). set (c := List.length l) in *.
  assert (Fb : forall i, i < c -> f i < c).
  { intros i Hi. apply nth_error_Some. rewrite <- Hf. apply nth_error_Some. lia. }
  exists (fun d => c * (d / c) + f (d mod c)). destruct (Nat.eq_dec c 0) as [C0|C0]; [assert (D0 : D = 0) by (rewrite Dt, C0; lia); split; [split|]; intros; lia|].
  assert (Md : forall d, (c * (d / c) + f (d mod c)) mod c = f (d mod c)).
  { intro d. rewrite Nat.add_comm, Nat.mul_comm, Nat.mod_add by exact C0. apply Nat.mod_small, Fb, Nat.mod_upper_bound, C0. }
  assert (Dv : forall d, (c * (d / c) + f (d mod c)) / c = d / c).
  { intro d. rewrite Nat.add_comm, Nat.mul_comm, Nat.div_add by exact C0. rewrite Nat.div_small; [reflexivity|]. apply Fb, Nat.mod_upper_bound, C0. }
  split; [split|].
  - intros d Hd. assert (d / c < t) by (apply Nat.div_lt_upper_bound; [exact C0|lia]). pose proof (Fb (d mod c) (Nat.mod_upper_bound d c C0)). nia.
  - intros d d' _ _ Es. assert (E1 : d / c = d' / c) by (rewrite <- (Dv d), <- (Dv d'), Es; reflexivity). assert (E2 : d mod c = d' mod c) by (apply If; rewrite <- (Md d), <- (Md d'), Es; reflexivity).
    rewrite (Nat.div_mod d c C0), (Nat.div_mod d' c C0), E1, E2. reflexivity.
  - intros d _. unfold choice. rewrite <- Ll. fold c. rewrite Md, Hf. reflexivity.
Qed.
Lemma mapM_perm {X Y} (f : X -> res Y) l l' : Permutation l l' -> forall r, mapM f l = Ok r -> exists r', mapM f l' = Ok r' /\ Permutation r r'.
Proof.
  intro H. induction H as [|x l l' H IH|x y l|l l1 l2 H1 IH1 H2 IH2]; intros r Hr.
  - exists r. auto.
  - cbn [mapM] in *. destruct (f x) as [y| |]; [|discriminate|discriminate]. cbn [bind] in *. destruct (mapM f l) as [ys| |]; [|discriminate|discriminate]. cbn [bind] in Hr. injection Hr as <-. destruct (IH ys eq_refl) as (r' & -> & Pr). exists (y :: r'). split; [reflexivity|now constructor].
  - cbn [mapM] in *. destruct (f y) as [fy| |]; [|discriminate|discriminate]. cbn [bind] in *. destruct (f x) as [fx| |]; [|discriminate|discriminate]. cbn [bind] in *. destruct (mapM f l) as [ys| |]; [|discriminate|discriminate]. cbn [bind] in *. injection Hr as <-. exists (fx :: fy :: ys). split; [reflexivity|constructor].
  - destruct (IH1 r Hr) as (r1 & E1 & Q1). destruct (IH2 r1 E1) as (r2 & E2 & Q2). exists r2. split; [exact E2|now transitivity r1].
Qed.
Lemma sets_perm {X} {EX : EqB X} (l1 l2 k1 k2 : list X) : Permutation l1 k1 -> Permutation l2 k2 -> Permutation (sunion (set_of l1) (set_of l2)) (sunion (set_of k1) (set_of k2)).
Proof.
  intros H1 H2. apply NoDup_Permutation; [apply NoDup_sunion, NoDup_set_of|apply NoDup_sunion, NoDup_set_of|]. intro x. rewrite !In_sunion, !In_set_of. split; intros [H|H]; [left|right|left|right]; eauto using Permutation_in, Permutation_sym.
Qed.

Section Orders.
  Context {N P V L : Type} {EN : EqB N} {EP : EqB P} {EL : EqB L} {ON : Ord N} {OP : Ord P} {RV : CRing V}.
  Variable E : env N P V L.
  Notation g := (e_graph E).

  Lemma get_cases {Y} h a (f f' : pobj N P V L -> @M N P V L Y) : (forall o, nth_error h a = Some o -> f o h = f' o h) -> bindM (get_obj a) f h = bindM (get_obj a) f' h.
  Proof. intro H. unfold bindM, get_obj. destruct (nth_error h a) as [o|]; [now apply H|reflexivity]. Qed.
  (** [part_of] for every node of a list. *)
  Lemma parts_In (A : assignment N P) ns ps : mapM (part_of A) ns = Ok ps -> forall q, In q ps <-> exists m, In m ns /\ dget (a_map A) m = Some q.
  Proof.
    revert ps. induction ns as [|n ns IH]; intros ps Hp q; cbn [mapM] in Hp; [injection Hp as <-; split; [intros []|intros (m & [] & _)]|]. unfold part_of at 1 in Hp. destruct (dget (a_map A) n) as [p|] eqn:Ep; [|discriminate]. cbn [of_option bind] in Hp. destruct (mapM _ ns) as [qs| |]; [|discriminate|discriminate]. cbn [bind] in Hp. injection Hp as <-. cbn [In]. rewrite (IH qs eq_refl q). split.
    - intros [<-|(m & Hm & Hd)]; [exists n; auto|exists m; auto].
    - intros (m & [<-|Hm] & Hd); [left; congruence|right; eauto].
  Qed.

  (** ** One call *)
  (** Listing the sets a proposal chooses from in another order renames the
      numbers drawn: with uniform draws below [D], every result is as likely as
      before, and the objects are left in the same state. *)
  Theorem C130_random_flip oe D h a cuts h' : lists oe -> cut_edges_of E a h = (Ok cuts, h') -> multiple D (List.length cuts) ->
    exists s, renames D s /\ forall r b, r < D -> random_flip_in E oe r b a h = propose_random_flip E (s r) b a h.
  Proof.
    intros Ho Hc HD. destruct (renamed_choice cuts (oe cuts) D (Ho cuts) HD) as (s & Hs & Es). exists s. split; [exact Hs|]. intros r b Hr. unfold random_flip_in, propose_random_flip. apply get_cases. intros o _.
    rewrite !(bindM_ok _ _ _ _ _ Hc). destruct (Nat.eqb _ 0); [reflexivity|]. now rewrite (Es r Hr).
  Qed.
  Theorem C130_chunk_flip oe D h a cuts h' : lists oe -> cut_edges_of E a h = (Ok cuts, h') -> multiple D (List.length cuts) ->
    exists s, renames D s /\ forall r b, r < D -> chunk_flip_in E oe r b a h = propose_chunk_flip E (s r) b a h.
  Proof.
    intros Ho Hc HD. destruct (renamed_choice cuts (oe cuts) D (Ho cuts) HD) as (s & Hs & Es). exists s. split; [exact Hs|]. intros r b Hr. unfold chunk_flip_in, propose_chunk_flip. apply get_cases. intros o _.
    rewrite !(bindM_ok _ _ _ _ _ Hc). now rewrite (Es r Hr).
  Qed.
  (** Here there is one renaming per district. *)
  Lemma every_renamed oe D (A : assignment N P) sets : lists oe -> (forall s, In s sets -> multiple D (List.length s)) ->
    forall i, exists s : nat -> nat -> nat, (forall j, renames D (s j)) /\ forall draws flips, (forall j, fst (draws j) < D) ->
      every_district_flips A draws i (map oe sets) flips = every_district_flips A (fun j => (s j (fst (draws j)), snd (draws j))) i sets flips.
  Proof.
    intros Ho. induction sets as [|c sets IH]; intros HD i.
    - exists (fun _ d => d). split; [intro j; split; auto|reflexivity].
    - destruct (IH (fun s Hs => HD s (or_intror Hs)) (S i)) as (s & Hs & Es). destruct (renamed_choice c (oe c) D (Ho c) (HD c (or_introl eq_refl))) as (s0 & Hs0 & Es0).
      exists (fun j => if Nat.eqb j i then s0 else s j). split; [intro j; now destruct (Nat.eqb j i)|]. intros draws flips Hd. cbn [map every_district_flips fst snd]. rewrite Nat.eqb_refl, (Es0 _ (Hd i)). destruct (choice _ c) as [e| |]; [|reflexivity|reflexivity]. cbn [bind]. destruct (part_of A _) as [p| |]; [|reflexivity|reflexivity]. cbn [bind]. rewrite (Es draws _ Hd).
      assert (Later : forall l k fl (dr dr' : nat -> nat * bool), (forall j, k <= j -> dr j = dr' j) -> every_district_flips A dr k l fl = every_district_flips A dr' k l fl).
      { clear. induction l as [|e l IH]; intros k fl dr dr' H; [reflexivity|]. cbn [every_district_flips]. rewrite (H k (le_n k)). destruct (choice _ e) as [x| |]; [|reflexivity|reflexivity]. cbn [bind]. destruct (part_of A _); [|reflexivity|reflexivity]. cbn [bind]. apply IH. intros j Hj. apply H. lia. }
      apply Later. intros j Hj. assert (Ej : Nat.eqb j i = false) by (apply Nat.eqb_neq; lia). now rewrite Ej.
  Qed.
  Theorem C130_every_district oe D h a v d h' : lists oe -> M_Machine.read E a "cut_edges_by_part"%string h = (Ok v, h') -> as_edges_by v = Ok d ->
    (forall s, In s (dvals d) -> multiple D (List.length s)) ->
    exists s : nat -> nat -> nat, (forall i, renames D (s i)) /\ forall draws, (forall i, fst (draws i) < D) ->
      every_district_in E oe draws a h = propose_flip_every_district E (fun i => (s i (fst (draws i)), snd (draws i))) a h.
  Proof.
    intros Ho Hv Hd HD. destruct (nth_error h a) as [o|] eqn:Eo.
    - destruct (every_renamed oe D (o_assign o) (dvals d) Ho HD 0) as (s & Hs & Es). exists s. split; [exact Hs|]. intros draws Hr. unfold every_district_in, propose_flip_every_district. rewrite !(get_bind h a o _ Eo), !(bindM_ok _ _ _ _ _ Hv), Hd, !lift_bind. now rewrite (Es draws [] Hr).
    - exists (fun _ r => r). split; [intro i; split; auto|]. intros draws _. apply get_cases. congruence.
  Qed.
  Theorem C130_slow oe om D h a o cuts h' mv : lists oe -> lists om -> nth_error h a = Some o -> cut_edges_of E a h = (Ok cuts, h') ->
    reversible_moves (o_assign o) cuts = Ok mv -> multiple D (List.length mv) ->
    exists s, renames D s /\ forall r, r < D -> slow_in E oe om r a h = slow_reversible_propose E (s r) a h.
  Proof.
    intros He Hm Ho Hc Hv HD. assert (R : exists mv', reversible_moves (o_assign o) (oe cuts) = Ok mv' /\ Permutation mv mv').
    { unfold reversible_moves in *. destruct (mapM _ cuts) as [l1| |] eqn:E1 in Hv; [|discriminate|discriminate]. cbn [bind] in Hv. destruct (mapM _ cuts) as [l2| |] eqn:E2 in Hv; [|discriminate|discriminate]. cbn [bind] in Hv. injection Hv as <-.
      destruct (mapM_perm _ _ _ (He cuts) _ E1) as (k1 & F1 & Q1). destruct (mapM_perm _ _ _ (He cuts) _ E2) as (k2 & F2 & Q2). rewrite F1. cbn [bind]. rewrite F2. cbn [bind]. eexists. split; [reflexivity|now apply sets_perm]. }
    destruct R as (mv' & Hv' & Pm). destruct (renamed_choice mv (om mv') D (perm_trans Pm (Hm mv')) HD) as (s & Hs & Es). exists s. split; [exact Hs|]. intros r Hr. unfold slow_in, slow_reversible_propose. rewrite !(get_bind h a o _ Ho), !(bindM_ok _ _ _ _ _ Hc), Hv, Hv', !lift_bind. now rewrite (Es r Hr).
  Qed.
  (** The draw for the district is renamed depending on the node. *)
  Theorem C130_bi oe on op B h a o cuts h' : lists oe -> lists on -> lists op -> nth_error h a = Some o -> cut_edges_of E a h = (Ok cuts, h') ->
    (forall c, numbers (fun n => exists m, In (n, m) cuts \/ In (m, n) cuts) c -> multiple B c) ->
    (forall n c, (exists m, In (n, m) cuts \/ In (m, n) cuts) -> numbers (fun q => (exists m, In m (neighbors g n) /\ dget (a_map (o_assign o)) m = Some q) /\ dget (a_map (o_assign o)) n <> Some q) c -> multiple B c) ->
    exists (s : nat -> nat) (t : nat -> nat -> nat), renames B s /\ (forall r, renames B (t r)) /\
      forall r1 r2, r1 < B -> r2 < B -> bi_in E oe on op r1 r2 a h = propose_bi E (s r1) (t r1 r2) a h.
  Proof.
    intros He Hn Hp Ho Hc H1 H2. set (bs := sunion (set_of (map fst cuts)) (set_of (map snd cuts))). set (bs' := on (sunion (set_of (map fst (oe cuts))) (set_of (map snd (oe cuts))))).
    assert (Pb : Permutation bs bs') by (eapply perm_trans; [|apply Hn]; apply sets_perm; apply Permutation_map, He).
    assert (Ib : forall n, In n bs <-> exists m, In (n, m) cuts \/ In (m, n) cuts).
    { intro n. unfold bs. rewrite In_sunion, !In_set_of, !in_map_iff. split.
      - intros [([u v] & <- & Hi)|([u v] & <- & Hi)]; [exists v|exists u]; auto.
      - intros (m & [Hi|Hi]); [left; exists (n, m)|right; exists (m, n)]; auto. }
    assert (Mb : multiple B (List.length bs)) by (apply H1; exists bs; split; [apply NoDup_sunion, NoDup_set_of|]; split; [exact Ib|reflexivity]).
    destruct (renamed_choice bs bs' B Pb Mb) as (s & Hs & Es). exists s. set (A := o_assign o) in *.
    (* the districts to choose from *)
    set (rest := fun (f : list P -> list P) n => ps <- mapM (part_of A) (neighbors g n) ;; own <- part_of A n ;; if mem own (f (set_of ps)) then Ok (sdiff (f (set_of ps)) [own]) else Err ValueError).
    assert (T : forall r1, exists t, renames B t /\ forall n, choice r1 bs' = Ok n -> forall r2, r2 < B ->
              (q <- (l <- rest op n ;; choice r2 l) ;; Ok q) = (q <- (l <- rest (fun l => l) n ;; choice (t r2) l) ;; Ok q)).
    { intro r1. destruct (choice r1 bs') as [n| |] eqn:Ec; [|exists (fun r => r); split; [split; auto|discriminate]|exists (fun r => r); split; [split; auto|discriminate]].
      unfold rest. destruct (mapM (part_of A) (neighbors g n)) as [ps| |] eqn:Em; cbn [bind]; [|exists (fun r => r); split; [split; auto|intros ? [= <-]; now rewrite Em]|exists (fun r => r); split; [split; auto|intros ? [= <-]; now rewrite Em]].
      destruct (part_of A n) as [own| |] eqn:Eo; cbn [bind]; [|exists (fun r => r); split; [split; auto|intros ? [= <-]; now rewrite Em, Eo]|exists (fun r => r); split; [split; auto|intros ? [= <-]; now rewrite Em, Eo]].
      assert (Pp : Permutation (sdiff (set_of ps) [own]) (sdiff (op (set_of ps)) [own])).
      { apply NoDup_Permutation; [apply NoDup_sdiff, NoDup_set_of|apply NoDup_sdiff; eapply Permutation_NoDup; [apply Hp|apply NoDup_set_of]|]. intro q. rewrite !In_sdiff. split; intros [X1 X2]; (split; [|exact X2]); [eapply Permutation_in; [apply Hp|exact X1]|eapply Permutation_in; [apply Permutation_sym, Hp|exact X1]]. }
      destruct (renamed_choice _ _ B Pp) as (t & Ht & Et).
      - apply (H2 n); [apply Ib; eapply Permutation_in; [apply Permutation_sym, Pb|]; eapply choice_In; exact Ec|]. exists (sdiff (set_of ps) [own]). split; [apply NoDup_sdiff, NoDup_set_of|]. split; [|reflexivity]. intro q. rewrite In_sdiff, In_set_of, (parts_In A _ _ Em q). unfold part_of in Eo. fold A. destruct (dget (a_map A) n) as [p|]; [|discriminate]. cbn in Eo. injection Eo as ->. cbn [In]. split; intros [X1 X2]; (split; [exact X1|]); [intros [= ->]; apply X2; auto|intros [->|[]]; now apply X2].
      - exists t. split; [exact Ht|]. intros n' [= <-] r2 Hr. rewrite Em. cbn [bind]. rewrite Eo. cbn [bind]. assert (Mm : mem own (op (set_of ps)) = mem own (set_of ps)).
        { destruct (mem own (set_of ps)) eqn:M1; [apply mem_In; apply mem_In in M1; eapply Permutation_in; [apply Hp|exact M1]|]. destruct (mem own (op (set_of ps))) eqn:M2; [|reflexivity]. apply mem_In in M2. apply (Permutation_in _ (Permutation_sym (Hp _))) in M2. apply mem_In in M2. congruence. }
        rewrite Mm. destruct (mem own (set_of ps)); [|reflexivity]. cbn [bind]. now rewrite (Et r2 Hr). }
    assert (T' : exists t : nat -> nat -> nat, (forall r, renames B (t r)) /\ forall r1, r1 < B -> forall n, choice r1 bs' = Ok n -> forall r2, r2 < B ->
              (q <- (l <- rest op n ;; choice r2 l) ;; Ok q) = (q <- (l <- rest (fun l => l) n ;; choice (t r1 r2) l) ;; Ok q)).
    { clear - T. assert (Go : forall m, exists t : nat -> nat -> nat, (forall r, renames B (t r)) /\ forall r1, r1 < m -> forall n, choice r1 bs' = Ok n -> forall r2, r2 < B ->
              (q <- (l <- rest op n ;; choice r2 l) ;; Ok q) = (q <- (l <- rest (fun l => l) n ;; choice (t r1 r2) l) ;; Ok q)); [|apply Go].
      induction m as [|m (t & Ht & Et)]; [exists (fun _ r => r); split; [intro; split; auto|intros r1 Hr; lia]|]. destruct (T m) as (u & Hu & Eu). exists (fun r => if Nat.eqb r m then u else t r). split; [intro r; now destruct (Nat.eqb r m)|].
      intros r1 Hr n Hn r2 Hr2. destruct (Nat.eqb_spec r1 m) as [->|Hd]; [now apply Eu|apply Et; auto; lia]. }
    destruct T' as (t & Ht & Et). exists t. split; [exact Hs|]. split; [exact Ht|]. intros r1 r2 R1 R2. unfold bi_in, propose_bi. rewrite !(get_bind h a o _ Ho), !(bindM_ok _ _ _ _ _ Hc). fold bs bs'. specialize (Et r1 R1). rewrite (Es r1 R1) in *. destruct (choice (s r1) bs) as [n| |]; [|reflexivity|reflexivity]. rewrite !lift_bind. specialize (Et n eq_refl r2 R2). unfold rest in Et. fold A.
    unfold bindM, lift. destruct (mapM (part_of A) (neighbors g n)) as [ps| |]; [|reflexivity|reflexivity]. cbn [bind] in Et. destruct (part_of A n) as [own| |]; [|reflexivity|reflexivity]. cbn [bind] in Et.
    destruct (mem own (op (set_of ps))), (mem own (set_of ps)); cbn [bind] in Et; try reflexivity.
    - destruct (choice r2 _) as [q| |], (choice (t r1 r2) _) as [q'| |]; cbn [bind] in Et; try discriminate; try reflexivity; injection Et as ->; reflexivity.
    - destruct (choice r2 _) as [q| |]; cbn [bind] in Et; try discriminate; injection Et as ->; reflexivity.
    - destruct (choice (t r1 r2) _) as [q| |]; cbn [bind] in Et; try discriminate; injection Et as <-; reflexivity.
  Qed.
  Theorem C130_recom oe D pop method target eps fuel h a cuts h' : lists oe -> cut_edges_of E a h = (Ok cuts, h') -> multiple D (List.length cuts) ->
    exists s, renames D s /\ forall draws, (forall k, draws k < D) ->
      recom_in E oe pop method draws target eps fuel a h = recom E pop method (fun k => s (draws k)) target eps fuel a h.
  Proof.
    intros Ho Hc HD. destruct (renamed_choice cuts (oe cuts) D (Ho cuts) HD) as (s & Hs & Es). exists s. split; [exact Hs|]. intros draws Hd. unfold recom_in, recom. apply get_cases. intros o _. set (n := List.length (a_parts (o_assign o))).
    assert (Loop : forall f bad k j cuts', (cuts' = cuts \/ (cuts' = [] /\ n * (n - 1) = 0)) -> recom_loop E pop method draws target eps f (o_assign o) (oe cuts') n bad k j = recom_loop E pop method (fun k => s (draws k)) target eps f (o_assign o) cuts' n bad k j).
    { induction f as [|f IH]; intros bad k j cuts' Hc'; [reflexivity|]. cbn [recom_loop]. destruct (Nat.ltb_spec (2 * List.length bad) (n * (n - 1))) as [Hl|]; [|reflexivity]. destruct Hc' as [->|[_ Hz]]; [|lia].
      rewrite (Es (draws k) (Hd k)). destruct (choice (s (draws k)) cuts) as [e| |]; [|reflexivity|reflexivity]. cbn [bind]. destruct (part_of (o_assign o) (fst e)) as [p| |]; [|reflexivity|reflexivity]. cbn [bind]. destruct (part_of (o_assign o) (snd e)) as [q| |]; [|reflexivity|reflexivity]. cbn [bind].
      destruct (mem (sorted_pair p q) bad); [apply IH; auto|]. destruct (merged _ _ _) as [ns| |]; [|reflexivity|reflexivity]. cbn [bind]. destruct (epsilon_tree_bipartition _ _ _ _ _ _) as [x|[]|]; try reflexivity. apply IH; auto. }
    destruct (Nat.ltb_spec 0 (n * (n - 1))) as [Hl|Hl].
    - rewrite !(bindM_ok _ _ _ _ _ Hc). now rewrite (Loop fuel [] 0 0 cuts) by auto.
    - unfold bindM, ret, lift. now rewrite (Loop fuel [] 0 0 []) by (right; split; [reflexivity|now apply Nat.le_0_r]).
  Qed.
  (** The draw for the edge is renamed depending on the pair of districts. *)
  Theorem C130_reversible oe D pop balance tree target eps weights draws fuel max repeat bound h a o : lists oe -> nth_error h a = Some o ->
    (forall p q, dist_pair_edges E (o_assign o) p q <> [] -> multiple D (List.length (dist_pair_edges E (o_assign o) p q))) ->
    exists s : nat -> nat -> nat, (forall r1, renames D (s r1)) /\ forall r1 r2 r3 u, r2 < D ->
      reversible_in E oe pop balance tree target eps weights draws fuel max repeat bound r1 r2 r3 u a h =
      reversible_recom E pop balance tree target eps weights draws fuel max repeat bound r1 (s r1 r2) r3 u a h.
  Proof.
    intros He Ho HD. set (pairs := list_prod (dkeys (a_parts (o_assign o))) (dkeys (a_parts (o_assign o)))).
    assert (Ex : forall pq : P * P, exists s, renames D s /\ (dist_pair_edges E (o_assign o) (fst pq) (snd pq) <> [] -> forall d, d < D ->
      choice d (oe (dist_pair_edges E (o_assign o) (fst pq) (snd pq))) = choice (s d) (dist_pair_edges E (o_assign o) (fst pq) (snd pq)))).
    { intros [p q]. cbn [fst snd]. destruct (dist_pair_edges E (o_assign o) p q) as [|e l] eqn:El; [exists (fun d => d); split; [split; auto|contradiction]|].
      destruct (renamed_choice (e :: l) (oe (e :: l)) D (He _)) as (s & Hs & Es); [rewrite <- El; apply HD; rewrite El; discriminate|]. exists s. split; [exact Hs|]. intros _. exact Es. }
    assert (Fin : forall ps : list (P * P), exists s : nat -> nat -> nat, (forall i, renames D (s i)) /\ forall i pq, nth_error ps i = Some pq ->
      dist_pair_edges E (o_assign o) (fst pq) (snd pq) <> [] -> forall d, d < D -> choice d (oe (dist_pair_edges E (o_assign o) (fst pq) (snd pq))) = choice (s i d) (dist_pair_edges E (o_assign o) (fst pq) (snd pq))).
    { induction ps as [|pq ps (s & Hs & Es)]; [exists (fun _ d => d); split; [intro; split; auto|intros [|i] pq; discriminate]|]. destruct (Ex pq) as (s0 & H0 & E0).
      exists (fun i => match i with 0 => s0 | S i => s i end). split; [intros [|i]; auto|]. intros [|i] pq' Hi; cbn in Hi; [injection Hi as <-; exact E0|now apply Es]. }
    destruct (Fin pairs) as (s & Hs & Es). exists (fun r1 => s (r1 mod List.length pairs)). split; [intro; apply Hs|]. intros r1 r2 r3 u Hr. unfold reversible_in, reversible_recom. rewrite !(get_bind h a o _ Ho). cbv zeta. fold pairs.
    destruct (choice r1 pairs) as [pq| |] eqn:Ec; [|reflexivity|reflexivity]. rewrite !lift_bind. destruct (eqb (fst pq) (snd pq)); [reflexivity|]. cbn [orb]. destruct (Nat.eqb_spec (List.length (dist_pair_edges E (o_assign o) (fst pq) (snd pq))) 0) as [Z0|Z0]; [reflexivity|].
    assert (Hn : nth_error pairs (r1 mod List.length pairs) = Some pq).
    { unfold choice in Ec. destruct (nth_error pairs (r1 mod List.length pairs)); [|discriminate]. cbn in Ec. now injection Ec as ->. }
    rewrite (Es _ _ Hn) by (try exact Hr; intro X; rewrite X in Z0; now apply Z0). reflexivity.
  Qed.
End Orders.

Lemma renamed_sum (f : nat -> nat) D s : renames D s -> list_sum (map (fun d => f (s d)) (seq 0 D)) = list_sum (map f (seq 0 D)).
Proof.
  intros [H1 H2]. rewrite <- (map_map s f). apply Permutation_list_sum, Permutation_map. apply NoDup_Permutation_bis.
  - assert (G : forall l, NoDup l -> (forall d, In d l -> d < D) -> NoDup (map s l)).
    { induction 1 as [|d l Hn ND IH]; intro Hl; [constructor|]. cbn [map]. constructor; [|apply IH; intros; apply Hl; now right]. intro Hi. apply in_map_iff in Hi. destruct Hi as (d' & Ed & Hi). apply Hn. rewrite (H2 d d'); auto; [apply Hl; now left|apply Hl; now right]. }
    apply G; [apply seq_NoDup|]. intros d Hd. apply in_seq in Hd. lia.
  - now rewrite map_length.
  - intros d Hd. apply in_map_iff in Hd. destruct Hd as (d' & <- & Hd). apply in_seq in Hd. apply in_seq. split; [lia|]. apply H1. lia.
Qed.

(** ** Runs *)
Section Runs.
  Context {N P V L : Type} {EN : EqB N} {EP : EqB P} {EL : EqB L} {ON : Ord N} {RV : CRing V}.
  Variable E : env N P V L.
  Notation g := (e_graph E).
  Variable labs : list P.
  Notation plan := (plan (N := N) (P := P)).
  Notation objects := (objects (N := N) (P := P) (V := V) (L := L)).
  Notation is_plan := (is_plan E labs).
  (** One number per call for a proposal [prop]. *)
  Definition drawing (prop : nat -> nat -> heap N P V L -> res nat * heap N P V L) (a : nat) (w : objects) : res nat * objects :=
    match snd w with [] => (NoFuel, w) | d :: r => let '(b, h) := prop d a (fst w) in (b, (h, r)) end.
  (** With the draws [ds] a loop over the chain yields [k] plans, and they are as
      [A] says. *)
  Definition run_shows prop (body : nat -> objects -> objects) (D : nat) (A : list plan -> Prop) (ch : chain nat objects) (h : heap N P V L) (k n : nat) (ds : list nat) : Prop :=
    List.length ds = n /\ Forall (fun d => d < D) ds /\
    exists ys en ch' w', for_loop (drawing prop) always erase_link k (S n) body ch (h, ds) = (ys, en, ch', w') /\ List.length ys = k /\ A (map (read E) ys).

  Variable prop : nat -> nat -> heap N P V L -> res nat * heap N P V L.
  Notation drawn := (drawing prop).
  Variable cs : list (constraint nat objects).
  Variable body : nat -> objects -> objects.
  Variable plans : list plan.
  Variable D : nat.
  Notation shows_in := (run_shows prop body D).
  Variable tgt : plan -> nat -> option (N * P).
  Definition to (x : plan) (d : nat) : plan := match tgt x d with Some nq => place (fst nq) (snd nq) x | None => x end.
  Notation belongs := (belongs plans).
  Notation belongsp := (belongsp plans).
  Notation trailb := (trailb to yes [belongs] belongsp).
  Notation cntp D := (cntp to yes D [belongs] belongsp).
  Fixpoint crun (k : nat) (a : nat) (h : heap N P V L) (x : plan) (A : list plan -> bool) (ds : list nat) : bool :=
    match k with
    | 0 => A [x]
    | S k' =>
      match ds with
      | [] => false
      | d :: r =>
        match prop d a h with
        | (Ok b, h1) =>
          match validator (Reusable cs) b (erase a h1, r) with
          | (Ok true, (h2, _), _) => let h3 := fst (body b (h2, r)) in
              crun k' b h3 (read E (b, (h3, r))) (fun l => A (x :: l)) r
          | (Ok false, (h2, _), _) => crun k a h2 x A r
          | _ => false
          end
        | _ => false
        end
      end
    end.


  Hypothesis Hb : calm E body.
  Definition draws_well : Prop := forall h a x, is_plan h a x -> In x plans ->
    exists F : nat -> option (N * P),
      (forall G, list_sum (map (fun d => match F d with Some m => G m | None => 0 end) (seq 0 D)) =
                 list_sum (map (fun d => match tgt x d with Some m => G m | None => 0 end) (seq 0 D))) /\
      forall d, d < D -> exists nq, F d = Some nq /\
        exists b h1 h2, prop d a h = (Ok b, h1) /\
          (forall r, validator (Reusable cs) b (erase a h1, r) = (Ok (mem (place (fst nq) (snd nq) x) plans), (h2, r), Reusable cs)) /\
          keeps E h h2 /\ is_plan h2 b (place (fst nq) (snd nq) x).
  Hypothesis one_draw : draws_well.
  Hypothesis tgt_some : forall x d, In x plans -> d < D -> exists nq, tgt x d = Some nq.
  Lemma trail_S k x A d r : trailb (S k) x A (d :: r) =
    if mem (to x d) plans then trailb k (to x d) (fun l => A (x :: l)) r else trailb (S k) x A r.
  Proof.
    unfold P_Histogram.trailb. cbn [trail P_LongRun.cut]. unfold P_ChainLaw.outcome. rewrite valid_mem. destruct (mem (to x d) plans); [|reflexivity]. unfold yes. destruct (trail _ _ _ _ k (to x d) r); reflexivity.
  Qed.
  Lemma crun_count n : forall k a h x A, is_plan h a x -> In x plans -> List.length (filter (crun k a h x A) (words D n)) = cntp D k x A n.
  Proof.
    induction n as [|n IH]; intros k a h x A Hp Hx.
    - unfold P_Histogram.cntp. cbn [words]. destruct k; reflexivity.
    - destruct k as [|k].
      + unfold P_Histogram.cntp. f_equal. apply filter_ext. intro ds. destruct ds; reflexivity.
      + unfold P_Histogram.cntp. cbn [words]. rewrite !(filter_words _ (seq 0 D) (fun d => d)).
        destruct (one_draw h a x Hp Hx) as (F & Sum & Fd).
        set (G := fun nq => if mem (place (fst nq) (snd nq) x) plans then cntp D k (place (fst nq) (snd nq) x) (fun l => A (x :: l)) n else cntp D (S k) x A n).
        assert (E1 : forall d, In d (seq 0 D) -> List.length (filter (fun r => crun (S k) a h x A (d :: r)) (words D n)) = match F d with Some m => G m | None => 0 end).
        { intros d Hlt. apply in_seq in Hlt. destruct (Fd d ltac:(lia)) as (nq & Hd & b & h1 & h2 & Hs & Hv & K2 & P2). rewrite Hd. unfold G. destruct (mem (place (fst nq) (snd nq) x) plans) eqn:Em.
          - destruct (Hb b h2 (proj1 K2)) as (h3 & K3 & Eb). pose proof (plan_keeps E labs _ _ _ _ P2 K3) as P3.
            rewrite <- (IH k b h3 (place (fst nq) (snd nq) x) (fun l => A (x :: l)) P3 (proj1 (mem_In _ _) Em)). f_equal. apply filter_ext. intro r. cbn [crun]. rewrite Hs, Hv, Eb. cbn [fst]. now rewrite (read_plan E labs h3 b _ r P3).
          - rewrite <- (IH (S k) a h2 x A (plan_keeps E labs _ _ _ _ Hp K2) Hx). f_equal. apply filter_ext. intro r. cbn [crun]. rewrite Hs, Hv. reflexivity. }
        assert (E2 : forall d, In d (seq 0 D) -> List.length (filter (fun r => trailb (S k) x A (d :: r)) (words D n)) = match tgt x d with Some m => G m | None => 0 end).
        { intros d Hlt. apply in_seq in Hlt. destruct (tgt_some x d Hx ltac:(lia)) as (nq & Hd). rewrite Hd. unfold G, P_Histogram.cntp.
          assert (Ep : to x d = place (fst nq) (snd nq) x) by (unfold to; now rewrite Hd).
          rewrite (filter_ext (fun r => trailb (S k) x A (d :: r)) (fun r => if mem (place (fst nq) (snd nq) x) plans then trailb k (place (fst nq) (snd nq) x) (fun l => A (x :: l)) r else trailb (S k) x A r)) by (intro r; rewrite trail_S, Ep; reflexivity).
          now destruct (mem (place (fst nq) (snd nq) x) plans). }
        rewrite (map_ext_in _ _ _ E1), (map_ext_in _ _ _ E2). apply Sum.
  Qed.
  Lemma advance_run x k ds : In x plans -> Forall (fun d => d < D) ds -> forall n h ch, ch_valid ch = Reusable cs -> is_plan h (ch_state ch) x -> (k < ch_total ch)%Z -> List.length ds < n ->
    (exists b h2 r z, advance drawn always erase_link n k ch (h, ds) = (Ok b, mkChain (Reusable cs) (ch_total ch) (ch_initial ch) b (Some (k + 1)%Z), (h2, r)) /\
       List.length r < List.length ds /\ Forall (fun d => d < D) r /\ In z plans /\ is_plan h2 b z /\
       forall j A h3, body b (h2, r) = (h3, r) -> keeps E h2 h3 -> crun (S j) (ch_state ch) h x A ds = crun j b h3 z (fun l => A (x :: l)) r) \/
    (exists ch' w', advance drawn always erase_link n k ch (h, ds) = (NoFuel, ch', w') /\ forall j A, crun (S j) (ch_state ch) h x A ds = false).
  Proof.
    intros Hx. induction ds as [|d ds IH]; intros Fo [|n] h ch Hv Hp Hk Hlen; cbn [List.length] in Hlen; try lia; cbn [advance].
    - right. rewrite (proj2 (Z.ltb_lt _ _) Hk). cbn. eauto.
    - rewrite (proj2 (Z.ltb_lt _ _) Hk). destruct (one_draw h (ch_state ch) x Hp Hx) as (F & _ & Fd). inversion Fo as [|? ? Hlt Fo']; subst; destruct (Fd d Hlt) as (nq & _ & b & h1 & h2 & Hs & Hval & K2 & P2). clear Fd F.
      assert (Ea : drawn (ch_state ch) (h, d :: ds) = (Ok b, (h1, ds))) by (unfold drawing; cbn [fst snd]; now rewrite Hs). rewrite Ea.
      change (erase_link (ch_state ch) (h1, ds)) with (erase (ch_state ch) h1, ds). rewrite Hv, Hval. destruct (mem (place (fst nq) (snd nq) x) plans) eqn:Em.
      + left. unfold always, always_accept. cbn [ret fst snd truthy]. exists b, h2, ds, (place (fst nq) (snd nq) x). split; [reflexivity|]. split; [cbn; lia|]. split; [exact Fo'|]. split; [now apply mem_In|]. split; [exact P2|].
        intros j A h3 Eb K3. cbn [crun]. rewrite Hs, Hval, Eb. cbn [fst]. now rewrite (read_plan E labs h3 b _ ds (plan_keeps E labs _ _ _ _ P2 K3)).
      + destruct (IH Fo' n h2 (with_valid ch (Reusable cs)) eq_refl (plan_keeps E labs _ _ _ _ Hp K2) Hk ltac:(lia)) as [(b' & h' & r & z & Ed & Lr & Fr & Hz & Pz & Cr)|(ch' & w' & Ed & Cr)].
        * left. exists b', h', r, z. split; [exact Ed|]. split; [cbn; lia|]. split; [exact Fr|]. split; [exact Hz|]. split; [exact Pz|]. intros j A h3 Eb K3. cbn [crun]. rewrite Hs, Hval. exact (Cr j A h3 Eb K3).
        * right. exists ch', w'. split; [exact Ed|]. intros j A. cbn [crun]. rewrite Hs, Hval. exact (Cr j A).
  Qed.
  Lemma loop_run k : forall n h ch x ds c A, In x plans -> Forall (fun d => d < D) ds -> ch_valid ch = Reusable cs -> is_plan h (ch_state ch) x -> ch_counter ch = Some c -> (0 < c)%Z ->
    (c + Z.of_nat k <= ch_total ch)%Z -> List.length ds < n ->
    exists ys en ch' w', loop drawn always erase_link k n body ch (h, ds) = (ys, en, ch', w') /\
      ((List.length ys = k /\ crun k (ch_state ch) h x A ds = A (x :: map (read E) ys)) \/ (List.length ys < k /\ crun k (ch_state ch) h x A ds = false)).
  Proof.
    induction k as [|k IH]; intros n h ch x ds c A Hx Fo Hv Hp Hc C0 Ht Hlen.
    - do 4 eexists. split; [reflexivity|]. left. split; [reflexivity|]. destruct ds; reflexivity.
    - cbn [loop]. unfold next. rewrite Hc. replace (c =? 0)%Z with false by lia.
      destruct (advance_run x c ds Hx Fo n h ch Hv Hp ltac:(lia) Hlen) as [(b & h2 & r & z & Ed & Lr & Fr & Hz & Pz & Cr)|(ch' & w' & Ed & Cr)]; rewrite Ed.
      + destruct (Hb b h2 (proj1 Pz)) as (h3 & K3 & Eb). rewrite Eb.
        destruct (IH n h3 (mkChain (Reusable cs) (ch_total ch) (ch_initial ch) b (Some (c + 1)%Z)) z r (c + 1)%Z (fun l => A (x :: l)) Hz Fr eq_refl (plan_keeps E labs _ _ _ _ Pz K3) eq_refl ltac:(lia) ltac:(cbn [ch_total]; lia) ltac:(lia)) as (ys & en & ch' & w' & El & Hj).
        rewrite El. do 4 eexists. split; [reflexivity|]. rewrite (Cr k A h3 (Eb r) K3). cbn [ch_state] in Hj. cbn [map List.length].
        assert (Rd : read E (b, (h2, r)) = z) by now apply (read_plan E labs).
        destruct Hj as [[H1 H2]|[H1 H2]]; [left; split; [lia|rewrite H2]|right; split; [lia|exact H2]]. change (A (x :: z :: map (read E) ys) = A (x :: read E (b, (h2, r)) :: map (read E) ys)). now rewrite Rd.
      + do 4 eexists. split; [reflexivity|]. right. split; [cbn; lia|apply Cr].
  Qed.
  Lemma in_iff (A : list plan -> Prop) (Ab : list plan -> bool) h ch k x n : (forall l, A l <-> Ab l = true) -> In x plans ->
    ch_valid ch = Reusable cs -> is_plan h (ch_initial ch) x -> (Z.of_nat k < ch_total ch)%Z ->
    numbers (shows_in A ch h (S k) n) (cntp D k x Ab n).
  Proof.
    intros HA Hx Hv Hp Hk. destruct (Hb (ch_initial ch) h (proj1 Hp)) as (h' & Kb & Eb). pose proof (plan_keeps E labs _ _ _ _ Hp Kb) as Hp'.
    rewrite <- (crun_count n k (ch_initial ch) h' x Ab Hp' Hx). apply numbers_words. intro ds.
    assert (G : List.length ds = n -> Forall (fun d => d < D) ds -> exists ys en ch' w', for_loop drawn always erase_link (S k) (S n) body ch (h, ds) = (ys, en, ch', w') /\
                ((List.length ys = S k /\ crun k (ch_initial ch) h' x Ab ds = Ab (map (read E) ys)) \/ (List.length ys < S k /\ crun k (ch_initial ch) h' x Ab ds = false))).
    { intros Hlen Fo. unfold for_loop. cbn [loop]. unfold next, iter. cbn [ch_counter]. change (0 =? 0)%Z with true. cbn [ch_state ch_valid ch_total ch_initial]. rewrite Hv, Eb.
      destruct (loop_run k (S n) h' (mkChain (Reusable cs) (ch_total ch) (ch_initial ch) (ch_initial ch) (Some 1%Z)) x ds 1%Z Ab Hx Fo eq_refl Hp' eq_refl ltac:(lia) ltac:(cbn [ch_total]; lia) ltac:(lia)) as (ys & en & ch' & w' & El & Hj).
      rewrite El. do 4 eexists. split; [reflexivity|]. cbn [ch_state] in Hj. assert (Rd : read E (ch_initial ch, (h, ds)) = x) by now apply (read_plan E labs).
      destruct Hj as [[H1 H2]|[H1 H2]]; [left; split; [cbn; lia|rewrite H2]|right; split; [cbn; lia|exact H2]]. change (Ab (x :: map (read E) ys) = Ab (read E (ch_initial ch, (h, ds)) :: map (read E) ys)). now rewrite Rd. }
    unfold run_shows. split.
    - intros (Hlen & Hd & ys & en & ch' & w' & El & Hy & Ha). split; auto. destruct (G Hlen Hd) as (ys2 & en2 & ch2 & w2 & E2 & Hg). rewrite El in E2. injection E2 as <- _ _ _. destruct Hg as [[_ Hg]|[Hg _]]; [|lia]. rewrite Hg. now apply HA.
    - intros ((Hlen & Hd) & Cr). split; auto. split; auto. destruct (G Hlen Hd) as (ys2 & en2 & ch2 & w2 & E2 & Hg). exists ys2, en2, ch2, w2. split; auto. destruct Hg as [[Hg1 Hg]|[_ Hg]]; [|congruence]. split; [exact Hg1|]. apply HA. congruence.
  Qed.


End Runs.
Section Same.
  Context {N P V L : Type} {EN : EqB N} {EP : EqB P} {EL : EqB L} {ON : Ord N} {RV : CRing V}.
  Variable E : env N P V L.
  Notation g := (e_graph E).
  Notation plan := (plan (N := N) (P := P)).
  Notation objects := (objects (N := N) (P := P) (V := V) (L := L)).
  Lemma renamed_well labs prop prop' cs plans D tgt : draws_well E labs prop cs plans D tgt ->
    (forall h a x, is_plan E labs h a x -> In x plans -> exists s, renames D s /\ forall d, d < D -> prop' d a h = prop (s d) a h) ->
    draws_well E labs prop' cs plans D tgt.
  Proof.
    intros Hw Hr h a x Hp Hx. destruct (Hw h a x Hp Hx) as (F & Sum & Fd). destruct (Hr h a x Hp Hx) as (s & Hs & Es). exists (fun d => F (s d)). split.
    - intro G. rewrite <- Sum. apply (renamed_sum (fun d => match F d with Some m => G m | None => 0 end) D s Hs).
    - intros d Hd. rewrite (Es d Hd). apply Fd. now apply Hs.
  Qed.
  Lemma same_numbers labs prop prop' cs body plans D tgt (A : list plan -> Prop) (Ab : list plan -> bool) h ch k x n :
    calm E body -> draws_well E labs prop cs plans D tgt ->
    (forall h a x, is_plan E labs h a x -> In x plans -> exists s, renames D s /\ forall d, d < D -> prop' d a h = prop (s d) a h) ->
    (forall x d, In x plans -> d < D -> exists nq, tgt x d = Some nq) ->
    (forall l, A l <-> Ab l = true) -> In x plans -> ch_valid ch = Reusable cs -> is_plan E labs h (ch_initial ch) x -> (Z.of_nat k < ch_total ch)%Z ->
    exists c, numbers (run_shows E prop body D A ch h (S k) n) c /\ numbers (run_shows E prop' body D A ch h (S k) n) c.
  Proof.
    intros Hb Hw Hr Ht HA Hx Hv Hp Hk. eexists. split.
    - exact (in_iff E labs prop cs body plans D tgt Hb Hw Ht A Ab h ch k x n HA Hx Hv Hp Hk).
    - exact (in_iff E labs prop' cs body plans D tgt Hb (renamed_well labs prop prop' cs plans D tgt Hw Hr) Ht A Ab h ch k x n HA Hx Hv Hp Hk).
  Qed.
  Lemma plan_cuts labs h a x : wf_graph g -> dget (e_updaters E) "cut_edges"%string = Some UCutEdges -> is_plan E labs h a x ->
    exists o cuts h', session E h /\ nth_error h a = Some o /\ cut_edges_of E a h = (Ok cuts, h') /\ (forall e, In e cuts <-> S_Machine.cut_edge g (o_assign o) e) /\
      forall n q, boundary_move g (o_assign o) n q <-> edge_move E x (n, q).
  Proof.
    intros WG Hu (S & o & Ho & Ll & Hx). destruct (cuts_ok E h a o S Ho Hu) as (s & h1 & Hc & NDs & Sp & S1 & K1). exists o, s, h1. split; [exact S|]. split; [exact Ho|]. split; [exact Hc|]. split; [exact Sp|].
    assert (In_plan : forall m q, In (m, Some q) x <-> In m (g_nodes g) /\ district (o_assign o) m = Some q).
    { intros m q. rewrite <- Hx. unfold plan_of. rewrite in_map_iff. split; [intros (m' & [= -> Hd] & Hi); auto|intros [Hi Hd]; exists m; rewrite Hd; auto]. }
    intros n q. unfold boundary_move, edge_move. cbn [fst snd]. split; intros (m & Ha & Hq & Hn); exists m; (split; [exact Ha|]); assert (Hnm : In n (g_nodes g) /\ In m (g_nodes g)) by (destruct Ha as [Ha|Ha]; apply (wfg_ends _ WG) in Ha; tauto).
    - split; [apply In_plan; tauto|]. rewrite In_plan. tauto.
    - rewrite In_plan in Hq, Hn. tauto.
  Qed.
  (** slow_reversible_propose with sets of edges and of pairs listed by [oe] and
      [om], which may depend on the partition and on everything that happened. *)
  Definition slow_ordered (oe : nat -> heap N P V L -> list (N * N) -> list (N * N)) (om : nat -> heap N P V L -> list (N * P) -> list (N * P)) (d a : nat) (h : heap N P V L) : res nat * heap N P V L :=
    slow_in E (oe a h) (om a h) d a h.
  Theorem C130_slow_runs labs cs passes body plans D w oe om (A : list plan -> Prop) (Ab : list plan -> bool) h ch k x n : setting E labs cs passes body plans D w ->
    (forall a h, lists (oe a h)) -> (forall a h, lists (om a h)) -> (forall l, A l <-> Ab l = true) ->
    In x plans -> ch_valid ch = Reusable cs -> is_plan E labs h (ch_initial ch) x -> (Z.of_nat k < ch_total ch)%Z ->
    exists c, numbers (slow_shows E body D A ch h (S k) n) c /\ numbers (run_shows E (slow_ordered oe om) body D A ch h (S k) n) c.
  Proof.
    intros (WG & Hu & NL & J & Hb & Co & Un & Fa & Hw) He Hm HA Hx Hv Hp Hk.
    refine (same_numbers labs (fun d a h => slow_reversible_propose E d a h) (slow_ordered oe om) cs body plans D
      (fun x d => match choice d (moves_of E labs x) with Ok nq => Some nq | _ => None end) A Ab h ch k x n Hb _ _ _ HA Hx Hv Hp Hk).
    - intros h0 a x0 Hp0 Hx0. destruct (P_Slow.one_draw E labs cs passes body WG plans Hu J Co D Fa h0 a x0 Hp0 Hx0) as (mv & NDm & Im & Hne & Fd).
      exists (fun d => match choice d mv with Ok nq => Some nq | _ => None end). split.
      + intro G. destruct (moves_length E labs cs passes WG plans Co D Fa NL x0 Hx0) as (t & Dt & _).
        destruct (renamed_choice (moves_of E labs x0) mv D (Permutation_sym (moves_perm E labs cs passes WG plans Co x0 mv Hx0 NDm Im NL)) (ex_intro _ t Dt)) as (s & Hs & Es).
        rewrite <- (renamed_sum (fun d => match (match choice d (moves_of E labs x0) with Ok nq => Some nq | _ => None end) with Some m => G m | None => 0 end) D s Hs). f_equal. apply map_ext_in. intros d Hd. apply in_seq in Hd. rewrite (Es d) by lia. reflexivity.
      + intros d Hd. destruct (Fd d) as (nq & Hc & Rest). exists nq. split; [now rewrite Hc|exact Rest].
    - intros h0 a x0 Hp0 Hx0. destruct (plan_cuts labs h0 a x0 WG Hu Hp0) as (o & cuts & h' & Se & Ho & Hc & Sp & BM). destruct (reversible_spec E h0 a o Se Ho cuts Sp) as (mv & Hmv & NDm & Im).
      apply (C130_slow E (oe a h0) (om a h0) D h0 a o cuts h' mv (He a h0) (Hm a h0) Ho Hc Hmv).
      destruct (proj2 Fa x0 Hx0) as (c & t & Hn & Dt). exists t. rewrite Dt. f_equal. apply (numbers_unique (edge_move E x0)); [exact Hn|]. exists mv. split; [exact NDm|]. split; [|reflexivity]. intros [u q]. rewrite Im. apply BM.
    - intros x0 d Hx0 Hd. destruct (moves_length E labs cs passes WG plans Co D Fa NL x0 Hx0) as (t & Dt & Hne & _). destruct (choice_ok d _ Hne) as (nq & Hq & _). exists nq. now rewrite Hq.
  Qed.
  Lemma pairs_renamed B s (t : nat -> nat -> nat) : renames B s -> (forall r, renames B (t r)) -> renames (B * B) (fun d => s (d / B) * B + t (d / B) (d mod B)).
  Proof.
    intros [S1 S2] Ht. split.
    - intros d Hd. assert (B0 : B <> 0) by (destruct B; lia). assert (Hq : d / B < B) by (apply Nat.div_lt_upper_bound; lia). pose proof (S1 _ Hq) as H1. pose proof (proj1 (Ht (d / B)) (d mod B) (Nat.mod_upper_bound d B B0)) as H2. nia.
    - intros d d' Hd Hd' Eq. assert (B0 : B <> 0) by (destruct B; lia). assert (Hq : d / B < B) by (apply Nat.div_lt_upper_bound; lia). assert (Hq' : d' / B < B) by (apply Nat.div_lt_upper_bound; lia).
      pose proof (Nat.mod_upper_bound d B B0) as M1. pose proof (Nat.mod_upper_bound d' B B0) as M2.
      pose proof (proj1 (Ht (d / B)) _ M1) as H1. pose proof (proj1 (Ht (d' / B)) _ M2) as H2.
      assert (Es : s (d / B) = s (d' / B)) by nia. apply S2 in Es; [|exact Hq|exact Hq']. rewrite Es in Eq, H1.
      assert (Et : t (d' / B) (d mod B) = t (d' / B) (d' mod B)) by lia. apply (proj2 (Ht (d' / B))) in Et; [|exact M1|exact M2].
      rewrite (Nat.div_mod d B B0), (Nat.div_mod d' B B0), Es, Et. reflexivity.
  Qed.
  (** slow_reversible_propose_bi likewise. *)
  Definition bi_ordered (B : nat) (oe : nat -> heap N P V L -> list (N * N) -> list (N * N)) (on : nat -> heap N P V L -> list N -> list N) (op : nat -> heap N P V L -> list P -> list P) (d a : nat) (h : heap N P V L) : res nat * heap N P V L :=
    bi_in E (oe a h) (on a h) (op a h) (d / B) (d mod B) a h.
  Theorem C130_bi_runs labs cs passes body plans B w oe on op (A : list plan -> Prop) (Ab : list plan -> bool) h ch k x n : bi_setting E labs cs passes body plans B w ->
    (forall a h, lists (oe a h)) -> (forall a h, lists (on a h)) -> (forall a h, lists (op a h)) -> (forall l, A l <-> Ab l = true) ->
    In x plans -> ch_valid ch = Reusable cs -> is_plan E labs h (ch_initial ch) x -> (Z.of_nat k < ch_total ch)%Z ->
    exists c, numbers (bi_shows E body B A ch h (S k) n) c /\ numbers (run_shows E (bi_ordered B oe on op) body (B * B) A ch h (S k) n) c.
  Proof.
    intros (WG & Hu & NL & J & Hb & Co & St & Fa & Hw) He Hn Hq HA Hx Hv Hp Hk.
    refine (same_numbers labs (fun d a h => propose_bi E (d / B) (d mod B) a h) (bi_ordered B oe on op) cs body plans (B * B)
      (fun x d => pick B (movers E labs x) (dests E labs x) d) A Ab h ch k x n Hb _ _ _ HA Hx Hv Hp Hk).
    - intros h0 a x0 Hp0 Hx0. destruct (P_Bi.one_draw E labs cs passes body WG plans B Hu J Co St Fa NL h0 a x0 Hp0 Hx0) as (F & Sum & Fd). exists F. split; [exact Sum|]. intros d _. apply Fd.
    - intros h0 a x0 Hp0 Hx0. destruct (plan_cuts labs h0 a x0 WG Hu Hp0) as (o & cuts & h' & Se & Ho & Hc & Sp & BM).
      assert (Ib : forall n, (exists m, In (n, m) cuts \/ In (m, n) cuts) <-> exists q, edge_move E x0 (n, q)).
      { intro u. split.
        - intros (v & [Hi|Hi]); apply Sp in Hi; destruct Hi as (_ & Ad & Dn); simpl in Ad, Dn; destruct (adj_node E h0 Se _ _ Ad) as [Nu Nv].
          + destruct (part_ok E h0 a o Se Ho v Nv) as (q & _ & Dv & _). exists q. apply BM. exists v. split; auto. split; auto. congruence.
          + destruct (part_ok E h0 a o Se Ho v Nu) as (q & _ & Dv & _). exists q. apply BM. exists v. split; [now apply (adj_sym E)|]. split; auto. congruence.
        - intros (q & Hm). apply BM in Hm. destruct Hm as (v & Ad & Dm & Dn). exists v. assert (Hd : district (o_assign o) u <> district (o_assign o) v) by congruence.
          destruct (proj2 (cut_edge_iff E o u v) (conj Ad Hd)) as [Hi|Hi]; apply Sp in Hi; auto. }
      destruct (proj2 Fa x0 Hx0) as [(c1 & t1 & Hc1 & Bt1) F2].
      destruct (C130_bi E (oe a h0) (on a h0) (op a h0) B h0 a o cuts h' (He a h0) (Hn a h0) (Hq a h0) Ho Hc) as (s & t & Hs & Ht & Eq).
      + intros c Hnc. exists t1. rewrite Bt1. f_equal. apply (numbers_unique (fun n => exists q, edge_move E x0 (n, q))); [exact Hc1|]. destruct Hnc as (l & ND & Il & Ll). exists l. split; [exact ND|]. split; [|exact Ll]. intro u. rewrite Il. apply Ib.
      + intros u c Hu' Hnc. apply Ib in Hu'. destruct Hu' as (q0 & Hq0). destruct (F2 u q0 Hq0) as (c2 & t2 & Hc2 & Bt2). exists t2. rewrite Bt2. f_equal. apply (numbers_unique (fun r => edge_move E x0 (u, r))); [exact Hc2|]. destruct Hnc as (l & ND & Il & Ll). exists l. split; [exact ND|]. split; [|exact Ll].
        intro q. rewrite Il, <- BM. unfold boundary_move, district. split.
        * intros ((m & Hm & Dm) & Dn). exists m. split; [now apply (neighbors_adj E)|]. auto.
        * intros (m & Hm & Dm & Dn). split; [|exact Dn]. exists m. split; [now apply (neighbors_adj E)|exact Dm].
      + exists (fun d => s (d / B) * B + t (d / B) (d mod B)). split; [now apply pairs_renamed|]. intros d Hd. assert (B0 : B <> 0) by (destruct B; lia). assert (Hqd : d / B < B) by (apply Nat.div_lt_upper_bound; lia). pose proof (Nat.mod_upper_bound d B B0) as M1.
        pose proof (proj1 (Ht (d / B)) _ M1) as H1. unfold bi_ordered. rewrite (Eq _ _ Hqd M1). f_equal.
        * rewrite Nat.add_comm, Nat.div_add by exact B0. rewrite (Nat.div_small _ _ H1). reflexivity.
        * rewrite Nat.add_comm, Nat.mod_add by exact B0. symmetry. now apply Nat.mod_small.
    - intros x0 d Hx0 _. destruct (P_Bi.pick_some E labs cs passes WG plans B Co St Fa NL x0 d Hx0) as (nq & H & _). eauto.
  Qed.
End Same.

(** ** Runs of propose_random_flip *)
Section Flips.
  Context {N P V L : Type} {EN : EqB N} {EP : EqB P} {EL : EqB L} {ON : Ord N} {RV : CRing V}.
  Variable E : env N P V L.
  Notation g := (e_graph E).
  Notation nodes := (g_nodes g).
  Notation plan := (plan (N := N) (P := P)).
  Notation objects := (objects (N := N) (P := P) (V := V) (L := L)).
  (** An edge between two districts of a plan. *)
  Definition crosses (x : plan) (e : N * N) : Prop := leb (fst e) (snd e) = true /\ adj g (fst e) (snd e) /\ forall p, In (fst e, Some p) x -> ~ In (snd e, Some p) x.
  (** [D] is a multiple of the number of cut edges of every plan. *)
  Definition flip_fair (plans : list plan) (D : nat) : Prop := 0 < D /\ forall x, In x plans -> exists c t, numbers (crosses x) c /\ D = t * c.
  (** One number below [2 * D] per call: an edge and an end of it. *)
  Definition flip_plain (d a : nat) (h : heap N P V L) : res nat * heap N P V L := propose_random_flip E (d / 2) (Nat.even d) a h.
  Definition flip_ordered (oe : nat -> heap N P V L -> list (N * N) -> list (N * N)) (d a : nat) (h : heap N P V L) : res nat * heap N P V L :=
    random_flip_in E (oe a h) (d / 2) (Nat.even d) a h.

  Definition crossesb (labs : list P) (x : plan) (e : N * N) : bool :=
    leb (fst e) (snd e) && (mem (fst e, snd e) (g_edges g) || mem (snd e, fst e) (g_edges g)) && forallb (fun p => negb (mem (fst e, Some p) x && mem (snd e, Some p) x)) labs.
  Definition crossing (labs : list P) (x : plan) : list (N * N) := filter (crossesb labs x) (list_prod nodes nodes).
  Definition ends (labs : list P) (x : plan) (b : bool) (e : N * N) : option (N * P) :=
    match find (fun p => mem (snd (orient b e), Some p) x) labs with Some p => Some (fst (orient b e), p) | None => None end.
  Lemma crossing_iff labs x e : wf_graph g -> complete E labs x -> In e (crossing labs x) <-> crosses x e.
  Proof.
    intros WG [_ C]. unfold crossing, crossesb, crosses. rewrite filter_In, !andb_true_iff, orb_true_iff, !mem_In, forallb_forall. destruct e as [u v]. cbn [fst snd]. rewrite in_prod_iff. split.
    - intros (_ & (H1 & H2) & H3). split; [exact H1|]. split; [exact H2|]. intros p Hu Hv. destruct (C u _ Hu) as (q & [= <-] & Hq). specialize (H3 p Hq). apply mem_In in Hu. apply mem_In in Hv. rewrite Hu, Hv in H3. discriminate.
    - intros (H1 & H2 & H3). split; [destruct H2 as [Ha|Ha]; apply (wfg_ends _ WG) in Ha; tauto|]. split; [split; [exact H1|exact H2]|]. intros p _. destruct (mem (u, Some p) x) eqn:Eu; [|reflexivity]. destruct (mem (v, Some p) x) eqn:Ev; [|reflexivity]. apply mem_In in Eu. apply mem_In in Ev. now elim (H3 p Eu).
  Qed.
  Lemma flip_plan labs h a x : wf_graph g -> dget (e_updaters E) "cut_edges"%string = Some UCutEdges -> is_plan E labs h a x ->
    exists cuts h', cut_edges_of E a h = (Ok cuts, h') /\ NoDup cuts /\ (forall e, In e cuts <-> crosses x e) /\
      forall r b e, choice r cuts = Ok e -> exists n q c h2, ends labs x b e = Some (n, q) /\ edge_move E x (n, q) /\
        propose_random_flip E r b a h = (Ok c, h2) /\ keeps E h h2 /\ is_plan E labs h2 c (place n q x).
  Proof.
    intros WG Hu (S & o & Ho & Ll & Hx). pose proof (session_coherent E h a o S Ho) as C. destruct (cuts_ok E h a o S Ho Hu) as (s & h1 & Hc & NDs & Sp & S1 & K1). exists s, h1. split; [exact Hc|]. split; [exact NDs|].
    assert (In_plan : forall m q, In (m, Some q) x <-> In m nodes /\ district (o_assign o) m = Some q).
    { intros m q. rewrite <- Hx. unfold plan_of. rewrite in_map_iff. split; [intros (m' & [= -> Hd] & Hi); auto|intros [Hi Hd]; exists m; rewrite Hd; auto]. }
    split.
    { intros [u v]. rewrite Sp. unfold S_Machine.cut_edge, crosses. cbn [fst snd]. split; intros (H1 & H2 & H3); (split; [exact H1|]; split; [exact H2|]).
      - intros p Hp Hq. apply In_plan in Hp. apply In_plan in Hq. destruct Hp as [_ Hp], Hq as [_ Hq]. congruence.
      - intro Eq. destruct (adj_node E h S _ _ H2) as [Nu Nv]. destruct (part_ok E h a o S Ho u Nu) as (q & _ & Dq & _). apply (H3 q); apply In_plan; split; auto. congruence. }
    intros r b e He. pose proof (proj1 (Sp e) (P_Proposals.choice_In r s e He)) as Ce.
    assert (Ad : adj g (fst (orient b e)) (snd (orient b e)) /\ district (o_assign o) (fst (orient b e)) <> district (o_assign o) (snd (orient b e))).
    { destruct Ce as (_ & H1 & H2). destruct b; cbn [orient fst snd]; split; auto. now apply (adj_sym E). }
    destruct Ad as [Ad Dn]. destruct (adj_node E h S _ _ Ad) as [Nn Nm]. destruct (part_ok E h a o S Ho _ Nm) as (q & Pq & Dq & Lq).
    set (n := fst (orient b e)) in *. set (m := snd (orient b e)) in *. exists n, q.
    assert (Hends : ends labs x b e = Some (n, q)).
    { unfold ends. fold n m. destruct (find (fun p => mem (m, Some p) x) labs) as [p|] eqn:Ef.
      - apply find_some in Ef. destruct Ef as [_ Ef]. apply mem_In in Ef. apply In_plan in Ef. destruct Ef as [_ Ef]. congruence.
      - exfalso. rewrite Ll in Lq. pose proof (find_none _ _ Ef q Lq) as X. cbn beta in X. assert (Y : mem (m, Some q) x = true) by (apply mem_In, In_plan; auto). congruence. }
    destruct (K1 a o Ho) as (o1 & H1 & E1 & _).
    destruct (flip_ok E h1 a o1 [(n, q)] S1 H1) as (o' & F1 & F2 & F3 & F4 & F5 & F6 & F7).
    { repeat constructor. intros []. }
    { intros m' p Hp. cbn [dget] in Hp. destruct (eqb_spec m' n) as [->|]; [|discriminate]. injection Hp as <-. rewrite E1. split; [exact Nn|exact Lq]. }
    exists (List.length h1), (h1 ++ [o']). split; [exact Hends|]. split.
    { exists m. cbn [fst snd]. split; [exact Ad|]. split; [apply In_plan; auto|]. rewrite In_plan. intros [_ X]. congruence. }
    split.
    { unfold propose_random_flip. rewrite (get_bind h a o) by exact Ho. rewrite (bindM_ok _ _ _ _ _ Hc). destruct (Nat.eqb_spec (List.length s) 0) as [Z0|_]; [destruct s; [apply P_Proposals.choice_In in He; destruct He|discriminate]|].
      rewrite He, lift_bind. fold n m. cbv zeta. rewrite Pq, lift_bind. exact F1. }
    split.
    - split; [exact F6|]. intros b' o2 Hb. destruct (K1 b' o2 Hb) as (o3 & H3 & E3 & _). exists o3. split; [|exact E3]. rewrite nth_error_app1; [exact H3|]. apply nth_error_Some. congruence.
    - split; [exact F6|]. exists o'. split; [exact F7|]. split; [rewrite <- Ll, <- E1; eapply flip_labels; [|exact F4]; repeat constructor; intros []|].
      rewrite <- Hx. unfold plan_of, place. rewrite map_map. apply map_ext. intro m'. cbn [fst]. rewrite F5, E1. cbn [dget]. destruct (eqb_spec m' n) as [->|]; reflexivity.
  Qed.
  Lemma twice_renamed D s : renames D s -> renames (2 * D) (fun d => 2 * s (d / 2) + d mod 2).
  Proof.
    intros [S1 S2]. assert (H2 : forall d, d < 2 * D -> d / 2 < D) by (intros d Hd; apply Nat.div_lt_upper_bound; lia). split.
    - intros d Hd. pose proof (S1 _ (H2 d Hd)). pose proof (Nat.mod_upper_bound d 2 ltac:(lia)). lia.
    - intros d d' Hd Hd' Eq. pose proof (Nat.mod_upper_bound d 2 ltac:(lia)). pose proof (Nat.mod_upper_bound d' 2 ltac:(lia)). assert (Es : s (d / 2) = s (d' / 2)) by lia. apply S2 in Es; [|now apply H2|now apply H2]. pose proof (Nat.div_mod d 2 ltac:(lia)). pose proof (Nat.div_mod d' 2 ltac:(lia)). lia.
  Qed.
  Lemma twice_half s d : (2 * s + d mod 2) / 2 = s /\ Nat.even (2 * s + d mod 2) = Nat.even d.
  Proof.
    pose proof (Nat.mod_upper_bound d 2 ltac:(lia)) as M. split.
    - rewrite Nat.mul_comm, Nat.add_comm, Nat.div_add by lia. rewrite Nat.div_small by exact M. reflexivity.
    - pose proof (Nat.div_mod d 2 ltac:(lia)) as Ed. rewrite Nat.add_comm, Nat.even_add_mul_2. pose proof (Nat.even_add_mul_2 (d mod 2) (d / 2)) as X. rewrite Nat.add_comm, <- Ed in X. now symmetry.
  Qed.
  (** The number of lists of draws that show [A] does not depend on the order in
      which the cut edges are listed. *)
  Theorem C130_flip_runs labs cs passes body plans D oe (A : list plan -> Prop) (Ab : list plan -> bool) h ch k x n :
    wf_graph g -> dget (e_updaters E) "cut_edges"%string = Some UCutEdges -> NoDup labs -> steady E labs cs passes -> calm E body ->
    slow_component E labs cs passes plans -> flip_fair plans D ->
    (forall a h, lists (oe a h)) -> (forall l, A l <-> Ab l = true) ->
    In x plans -> ch_valid ch = Reusable cs -> is_plan E labs h (ch_initial ch) x -> (Z.of_nat k < ch_total ch)%Z ->
    exists c, numbers (run_shows E flip_plain body (2 * D) A ch h (S k) n) c /\ numbers (run_shows E (flip_ordered oe) body (2 * D) A ch h (S k) n) c.
  Proof.
    intros WG Hu NL J Hb Co Fa He HA Hx Hv Hp Hk.
    assert (Cx : forall y, In y plans -> complete E labs y) by (intros y Hy; now apply (proj1 (proj2 Co) y Hy)).
    assert (Mu : forall y cuts, In y plans -> NoDup cuts -> (forall e, In e cuts <-> crosses y e) -> cuts <> [] /\ multiple D (List.length cuts)).
    { intros y cuts Hy ND Ic. destruct Fa as [D0 F0]. destruct (F0 y Hy) as (c & t & Hc & Dt). assert (Lc : c = List.length cuts) by (apply (numbers_unique (crosses y)); [exact Hc|]; exists cuts; auto). subst c. split; [intro Z0; rewrite Z0 in Dt; cbn in Dt; lia|]. now exists t. }
    assert (NDc : forall y, NoDup (crossing labs y)) by (intro y; apply NoDup_filter, NoDup_prod; apply WG).
    refine (same_numbers E labs flip_plain (flip_ordered oe) cs body plans (2 * D)
      (fun y d => match choice (d / 2) (crossing labs y) with Ok e => ends labs y (Nat.even d) e | _ => None end) A Ab h ch k x n Hb _ _ _ HA Hx Hv Hp Hk).
    - intros h0 a y Hp0 Hy. destruct (flip_plan labs h0 a y WG Hu Hp0) as (cuts & h' & Hc & ND & Ic & Fl). destruct (Mu y cuts Hy ND Ic) as [Hne HD].
      assert (Pc : Permutation (crossing labs y) cuts) by (apply NoDup_Permutation; [apply NDc|exact ND|]; intro e; rewrite Ic; now apply crossing_iff, Cx).
      exists (fun d => match choice (d / 2) cuts with Ok e => ends labs y (Nat.even d) e | _ => None end). split.
      + intro G. destruct (renamed_choice (crossing labs y) cuts D Pc) as (s & Hs & Es); [now rewrite (Permutation_length Pc)|].
        rewrite <- (renamed_sum (fun d => match (match choice (d / 2) (crossing labs y) with Ok e => ends labs y (Nat.even d) e | _ => None end) with Some m => G m | None => 0 end) (2 * D) _ (twice_renamed D s Hs)).
        f_equal. apply map_ext_in. intros d Hd. apply in_seq in Hd. destruct (twice_half (s (d / 2)) d) as [-> ->]. rewrite (Es (d / 2)) by (apply Nat.div_lt_upper_bound; lia). reflexivity.
      + intros d Hd. destruct (choice_ok (d / 2) cuts Hne) as (e & He0 & Hi). rewrite He0. destruct (Fl (d / 2) (Nat.even d) e He0) as (u & q & c & h2 & En & Mv & Hf & K1 & P1). exists (u, q). split; [exact En|]. cbn [fst snd].
        assert (K2 := erase_keeps E h2 a (proj1 K1)). destruct (steady_all E labs cs passes c (erase a h2) _ J (plan_keeps E labs _ _ _ _ P1 K2)) as (h3 & K3 & Ev). exists c, h2, h3. split; [exact Hf|]. split.
        * intro r. rewrite Ev. pose proof (allowed_mem E labs cs passes plans Co y (u, q) Hy Mv) as Am. cbn [fst snd] in Am. now rewrite Am.
        * split; [apply (keeps_trans E) with h2; [exact K1|now apply (keeps_trans E) with (erase a h2)]|]. now apply (plan_keeps E labs) with (erase a h2); [apply (plan_keeps E labs) with h2|].
    - intros h0 a y Hp0 Hy. destruct (flip_plan labs h0 a y WG Hu Hp0) as (cuts & h' & Hc & ND & Ic & _). destruct (Mu y cuts Hy ND Ic) as [_ HD].
      destruct (C130_random_flip E (oe a h0) D h0 a cuts h' (He a h0) Hc HD) as (s & Hs & Es). exists (fun d => 2 * s (d / 2) + d mod 2). split; [now apply twice_renamed|]. intros d Hd. unfold flip_ordered, flip_plain. destruct (twice_half (s (d / 2)) d) as [-> ->]. apply Es. apply Nat.div_lt_upper_bound; lia.
    - intros y d Hy Hd. destruct (Mu y (crossing labs y) Hy (NDc y)) as [Hne _]; [intro e; now apply crossing_iff, Cx|]. destruct (choice_ok (d / 2) _ Hne) as (e & He0 & Hi). rewrite He0. apply (crossing_iff labs y e WG (Cx y Hy)) in Hi. destruct Hi as (_ & Ad & _).
      unfold ends. assert (Hm : In (snd (orient (Nat.even d) e)) nodes) by (destruct (Nat.even d); cbn [orient fst snd]; destruct Ad as [Ad|Ad]; apply (wfg_ends _ WG) in Ad; tauto).
      destruct (Cx y Hy) as [Cn Cv]. rewrite <- Cn in Hm. apply in_map_iff in Hm. destruct Hm as ([m v] & Em & Hm). cbn [fst] in Em. destruct (Cv m v Hm) as (q & -> & Lq). destruct (find _ labs) eqn:Ef; [eauto|]. pose proof (find_none _ _ Ef q Lq) as X. cbn beta in X. rewrite <- Em in X. apply mem_In in Hm. congruence.
  Qed.
End Flips.
Print Assumptions C130_flip_runs.

(** ** Long runs *)
Section Long.
  Context {N P V L : Type} {EN : EqB N} {EP : EqB P} {EL : EqB L} {ON : Ord N} {RV : CRing V}.
  Variable E : env N P V L.
  Notation plan := (plan (N := N) (P := P)).
  (** Of the lists of draws, a part of at least nearly [p] leads to a run as [A]
      says. *)
  Definition most_in prop body (D : nat) (A : list plan -> Prop) ch (h : heap N P V L) (k : nat) (p : Q) : Prop :=
    forall eps, (0 < eps)%Q -> exists n0, forall n, n0 <= n -> exists c, numbers (run_shows E prop body D A ch h k n) c /\ (p - eps <= Qn c / Qn (D ^ n))%Q.
  (** The averages of C127 and C129 come out whatever the order is. *)
  Theorem C130_slow_averages labs cs passes body plans D w oe om (f : plan -> Q) : setting E labs cs passes body plans D w -> (forall a h, lists (oe a h)) -> (forall a h, lists (om a h)) ->
    forall eps, (0 < eps)%Q -> exists k0, forall k, k0 <= k -> forall h ch x, ch_valid ch = Reusable cs -> In x plans -> is_plan E labs h (ch_initial ch) x -> (Z.of_nat k <= ch_total ch)%Z ->
      most_in (slow_ordered E oe om) body D (fun l => Qabs (average f l - P_DetailedBalance.qsum plans (fun y => quota plans w y * f y)) <= eps)%Q ch h k (1 - eps).
  Proof.
    intros St He Hm eps Hp. destruct (C127_averages E labs cs passes body plans D w f St eps Hp) as (k0 & Hk). exists (S k0). intros [|k] Hle h ch x Hv Hx Hi Ht; [lia|].
    intros e He'. destruct (Hk (S k) ltac:(lia) h ch x Hv Hx Hi Ht e He') as (n0 & Hn). exists n0. intros n Hl. destruct (Hn n Hl) as (c & Hc & Bd).
    destruct (C130_slow_runs E labs cs passes body plans D w oe om (fun l => Qabs (average f l - P_DetailedBalance.qsum plans (fun y => quota plans w y * f y)) <= eps)%Q
      (fun l => Qle_bool (Qabs (average f l - P_DetailedBalance.qsum plans (fun y => quota plans w y * f y)))%Q eps) h ch k x n St He Hm ltac:(intro l; symmetry; apply Qle_bool_iff) Hx Hv Hi ltac:(lia)) as (c' & H1 & H2).
    exists c'. split; [exact H2|]. now rewrite <- (numbers_unique _ _ _ Hc H1).
  Qed.
  Theorem C130_bi_averages labs cs passes body plans B w oe on op (f : plan -> Q) : bi_setting E labs cs passes body plans B w -> (forall a h, lists (oe a h)) -> (forall a h, lists (on a h)) -> (forall a h, lists (op a h)) ->
    forall eps, (0 < eps)%Q -> exists k0, forall k, k0 <= k -> forall h ch x, ch_valid ch = Reusable cs -> In x plans -> is_plan E labs h (ch_initial ch) x -> (Z.of_nat k <= ch_total ch)%Z ->
      most_in (bi_ordered E B oe on op) body (B * B) (fun l => Qabs (average f l - P_DetailedBalance.qsum plans (fun y => fraction plans w y * f y)) <= eps)%Q ch h k (1 - eps).
  Proof.
    intros St He Hn Hq eps Hp. destruct (C129_averages E labs cs passes body plans B w f St eps Hp) as (k0 & Hk). exists (S k0). intros [|k] Hle h ch x Hv Hx Hi Ht; [lia|].
    intros e He'. destruct (Hk (S k) ltac:(lia) h ch x Hv Hx Hi Ht e He') as (n0 & Hn0). exists n0. intros n Hl. destruct (Hn0 n Hl) as (c & Hc & Bd).
    destruct (C130_bi_runs E labs cs passes body plans B w oe on op (fun l => Qabs (average f l - P_DetailedBalance.qsum plans (fun y => fraction plans w y * f y)) <= eps)%Q
      (fun l => Qle_bool (Qabs (average f l - P_DetailedBalance.qsum plans (fun y => fraction plans w y * f y)))%Q eps) h ch k x n St He Hn Hq ltac:(intro l; symmetry; apply Qle_bool_iff) Hx Hv Hi ltac:(lia)) as (c' & H1 & H2).
    exists c'. split; [exact H2|]. now rewrite <- (numbers_unique _ _ _ Hc H1).
  Qed.
End Long.
Print Assumptions C130_random_flip.
Print Assumptions C130_chunk_flip.
Print Assumptions C130_every_district.
Print Assumptions C130_slow.
Print Assumptions C130_bi.
Print Assumptions C130_recom.
Print Assumptions C130_reversible.
Print Assumptions C130_slow_runs.
Print Assumptions C130_bi_runs.
Print Assumptions C130_slow_averages.
Print Assumptions C130_bi_averages.

(** ** One seed, two orders *)
Lemma lists_id {X} : lists (fun l : list X => l). Proof. intro l. apply Permutation_refl. Qed.
Lemma lists_rev {X} : lists (@rev X). Proof. intro l. apply Permutation_rev. Qed.
(** C130. The same draws do not give the same plans: on the path of four nodes cut
    in the middle, where every set is listed forwards or backwards, one draw leads
    to one plan or to the other, in a run whose setting is that of C127. *)
Theorem C130_reproducible_refuted : exists (E : env nat nat Z nat) labs cs passes body plans D w h ch x om om' ds l l',
  setting E labs cs passes body plans D w /\ In x plans /\ ch_valid ch = Reusable cs /\ is_plan E labs h (ch_initial ch) x /\
  lists om /\ lists om' /\ l <> l' /\
  run_shows E (slow_ordered E (fun _ _ s => s) (fun _ _ => om)) body D (fun ys => ys = l) ch h 2 1 ds /\
  run_shows E (slow_ordered E (fun _ _ s => s) (fun _ _ => om')) body D (fun ys => ys = l') ch h 2 1 ds.
Proof.
  exists ex_E, [1; 2], [beginning], beginningp, (fun _ w => w), cut_plans, 2, cut_w, (ex_run ex_plan []), (mkChain (Reusable [beginning]) 2%Z 0 0 None), cut_2, (fun s => s), (@rev (nat * nat)), [0].
  eexists _, _. split; [exact cut_setting|]. split; [cbn; auto|]. split; [reflexivity|]. split; [exact cut_start|]. split; [apply lists_id|]. split; [apply lists_rev|].
  split; [|split; (split; [reflexivity|]; split; [repeat constructor|]; do 4 eexists; split; [vm_compute; reflexivity|]; split; [reflexivity|]; vm_compute; reflexivity)]. vm_compute. discriminate.
Qed.
Print Assumptions C130_reproducible_refuted.

(** The hypotheses are met: a partition with cut edges whose number divides the
    number of possible draws, orders that change between calls, and the settings
    of C127 and C129. *)
Definition in_turn {X} (a : nat) (h : heap nat nat Z nat) : list X -> list X := if Nat.even (a + List.length h) then fun l => l else @rev X.
Lemma lists_in_turn {X} a h : lists (@in_turn X a h). Proof. unfold in_turn. destruct (Nat.even _); [apply lists_id|apply lists_rev]. Qed.
Example C130_nonvacuous :
  (exists cuts h', cut_edges_of tri 0 tri_heap = (Ok cuts, h') /\ List.length cuts = 2 /\ multiple 12 (List.length cuts)) /\
  (exists s, renames 12 s /\ s 0 <> 0 /\ forall r b, r < 12 -> random_flip_in tri (@rev (nat * nat)) r b 0 tri_heap = propose_random_flip tri (s r) b 0 tri_heap) /\
  (flip_fair tri tri_plans 2 /\ forall k n, exists c, numbers (run_shows tri (flip_plain tri) (fun _ w => w) 4 (fun l => mem tri_4 l = true) (mkChain (Reusable [known]) (Z.of_nat (S k)) 0 0 None) tri_heap (S k) n) c /\
    numbers (run_shows tri (flip_ordered tri in_turn) (fun _ w => w) 4 (fun l => mem tri_4 l = true) (mkChain (Reusable [known]) (Z.of_nat (S k)) 0 0 None) tri_heap (S k) n) c) /\
  (forall eps, (0 < eps)%Q -> exists k0, forall k, k0 <= k ->
    most_in ex_E (slow_ordered ex_E in_turn in_turn) (fun _ w => w) 2 (fun l => Qabs (average (fun y => if eqb y cut_2 then 1 else 0) l - P_DetailedBalance.qsum cut_plans (fun y => quota cut_plans cut_w y * (if eqb y cut_2 then 1 else 0))) <= eps)%Q
      (mkChain (Reusable [beginning]) (Z.of_nat k) 0 0 None) (ex_run ex_plan []) k (1 - eps)) /\
  (forall eps, (0 < eps)%Q -> exists k0, forall k, k0 <= k ->
    most_in tri (bi_ordered tri 12 in_turn in_turn in_turn) (fun _ w => w) (12 * 12) (fun l => Qabs (average (fun y => if eqb y tri_2 then 1 else 0) l - P_DetailedBalance.qsum tri_plans (fun y => fraction tri_plans tri_w y * (if eqb y tri_2 then 1 else 0))) <= eps)%Q
      (mkChain (Reusable [known]) (Z.of_nat k) 0 0 None) tri_heap k (1 - eps)).
Proof.
  split; [|split; [|split; [|split]]].
  - do 2 eexists. split; [vm_compute; reflexivity|]. split; [reflexivity|]. exists 6. reflexivity.
  - assert (Hc : exists cuts h', cut_edges_of tri 0 tri_heap = (Ok cuts, h') /\ multiple 12 (List.length cuts)) by (do 2 eexists; split; [vm_compute; reflexivity|]; exists 6; reflexivity).
    destruct Hc as (cuts & h' & Hc & HD). destruct (C130_random_flip tri (@rev (nat * nat)) 12 tri_heap 0 cuts h' lists_rev Hc HD) as (s & Hs & Es). exists s. split; [exact Hs|]. split; [|exact Es].
    intro Z0. specialize (Es 0 true ltac:(lia)). rewrite Z0 in Es. vm_compute in Es. discriminate.
  - assert (Fa : flip_fair tri tri_plans 2).
    { split; [lia|]. intros x Hx. exists (List.length (crossing tri [1; 2; 3] x)), 1. split; [exists (crossing tri [1; 2; 3] x); split; [apply NoDup_filter, NoDup_prod; apply tri_wf|]; split; [|reflexivity]; intro e; apply crossing_iff; [apply tri_wf|now apply tri_complete]|].
      destruct Hx as [<-|[<-|[<-|[<-|[]]]]]; vm_compute; reflexivity. }
    split; [exact Fa|]. intros k n. apply (C130_flip_runs tri [1; 2; 3] [known] knownp (fun _ w => w) tri_plans 2 in_turn (fun l => mem tri_4 l = true) (mem tri_4) tri_heap _ k tri_1 n);
      [apply tri_wf|reflexivity|nodup|apply tri_steady|apply tri_calm|apply tri_component|exact Fa|apply lists_in_turn|reflexivity|cbn; auto|reflexivity|exact tri_start|cbn [ch_total]; lia].
  - intros eps He. destruct (C130_slow_averages ex_E [1; 2] [beginning] beginningp (fun _ w => w) cut_plans 2 cut_w in_turn in_turn (fun y => if eqb y cut_2 then 1%Q else 0%Q) cut_setting lists_in_turn lists_in_turn eps He) as (k0 & Hk).
    exists k0. intros k Hle. apply (Hk k Hle) with cut_2; [reflexivity|cbn; auto|exact cut_start|cbn; lia].
  - intros eps He. destruct (C130_bi_averages tri [1; 2; 3] [known] knownp (fun _ w => w) tri_plans 12 tri_w in_turn in_turn in_turn (fun y => if eqb y tri_2 then 1%Q else 0%Q) tri_setting lists_in_turn lists_in_turn lists_in_turn eps He) as (k0 & Hk).
    exists k0. intros k Hle. apply (Hk k Hle) with tri_1; [reflexivity|cbn; auto|exact tri_start|cbn; lia].
Qed.
