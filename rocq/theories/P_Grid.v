(** C78: the structure of grids. *)
From Coq Require Import String List Bool Arith ZArith Lia ZifyBool ZifyNat.
From Verif Require Import Base M_Graph M_Partition S_Partition L_Partition P_Partition M_Machine S_Machine L_Sums L_Machine L_Answers P_Machine M_Contiguity S_Contiguity L_Search P_Contiguity L_Locality M_Grid.
Import ListNotations.
Local Open Scope string_scope.
Local Open Scope nat_scope.
Local Open Scope list_scope.

(** ** Specification: cells that share a side, cells that share only a corner. *)
Definition next_number (i k : nat) : Prop := i = S k \/ k = S i.
Definition share_side (c d : cell) : Prop :=
  (fst c = fst d /\ next_number (snd c) (snd d)) \/ (snd c = snd d /\ next_number (fst c) (fst d)).
Definition share_corner (c d : cell) : Prop := next_number (fst c) (fst d) /\ next_number (snd c) (snd d).
Definition inside (m n : nat) (c : cell) : Prop := fst c < m /\ snd c < n.

(** ** Lemmas *)
Lemma NoDup_app_intro {X} (a b : list X) : NoDup a -> NoDup b -> (forall x, In x a -> In x b -> False) -> NoDup (a ++ b).
Proof.
  intros Na Nb H. induction Na as [|x a Hx Na IH]; [exact Nb|]. cbn [app]. constructor.
  - intro Hin. apply in_app_iff in Hin. destruct Hin as [Hin|Hin]; [contradiction|]. apply (H x); [now left|exact Hin].
  - apply IH. intros y Hy. apply H. now right.
Qed.
Lemma NoDup_pairs {X} (f : nat -> nat -> X) l1 l2 : NoDup l1 -> NoDup l2 -> (forall i j k l, f i j = f k l -> i = k /\ j = l) ->
  NoDup (flat_map (fun i => map (f i) l2) l1).
Proof.
  intros N1 N2 Inj. induction N1 as [|i l1 Hi N1 IH]; cbn [flat_map]; [constructor|]. apply NoDup_app_intro; [| exact IH|].
  - clear - N2 Inj. induction N2 as [|j l2 Hj N2 IH]; cbn; constructor; [|exact IH]. intro H. apply in_map_iff in H. destruct H as (k & E & Hk). apply Inj in E. destruct E as [_ ->]. contradiction.
  - intros x Hx Hy. apply in_map_iff in Hx. destruct Hx as (j & <- & Hj). apply in_flat_map in Hy. destruct Hy as (k & Hk & Hy). apply in_map_iff in Hy. destruct Hy as (l & E & Hl). apply Inj in E. destruct E as [-> _]. contradiction.
Qed.
Lemma in_pairs {X} (f : nat -> nat -> X) a b x : In x (flat_map (fun i => map (f i) (seq 0 b)) (seq 0 a)) <-> exists i j, i < a /\ j < b /\ x = f i j.
Proof.
  rewrite in_flat_map. split.
  - intros (i & Hi & H). apply in_map_iff in H. destruct H as (j & <- & Hj). apply in_seq in Hi, Hj. exists i, j. repeat split; lia.
  - intros (i & j & Hi & Hj & ->). exists i. split; [apply in_seq; lia|]. apply in_map_iff. exists j. split; [reflexivity|apply in_seq; lia].
Qed.
Lemma length_pairs {X} (f : nat -> nat -> X) a b : length (flat_map (fun i => map (f i) (seq 0 b)) (seq 0 a)) = a * b.
Proof.
  generalize 0 at 2. induction a as [|a IH]; intro s; [reflexivity|]. cbn [seq flat_map]. rewrite app_length, map_length, seq_length, IH. reflexivity.
Qed.
Lemma in_cells m n c : In c (cells m n) <-> inside m n c.
Proof.
  unfold cells. rewrite (in_pairs (fun i j => (i, j))). unfold inside. split.
  - intros (i & j & Hi & Hj & ->). cbn. lia.
  - destruct c as [i j]. cbn. intros [Hi Hj]. exists i, j. auto.
Qed.
Lemma in_row m n c d : In (c, d) (row_edges m n) <-> inside m n d /\ d = (S (fst c), snd c).
Proof.
  unfold row_edges. rewrite (in_pairs (fun i j => ((i, j), (S i, j)))). unfold inside. destruct c as [i j], d as [k l]. cbn. split.
  - intros (x & y & Hx & Hy & [= -> -> -> ->]). split; [lia|reflexivity].
  - intros [H [= -> ->]]. exists i, j. repeat split; try lia.
Qed.
Lemma in_column m n c d : In (c, d) (column_edges m n) <-> inside m n d /\ d = (fst c, S (snd c)).
Proof.
  unfold column_edges. rewrite (in_pairs (fun i j => ((i, j), (i, S j)))). unfold inside. destruct c as [i j], d as [k l]. cbn. split.
  - intros (x & y & Hx & Hy & [= -> -> -> ->]). split; [lia|reflexivity].
  - intros [H [= -> ->]]. exists i, j. repeat split; try lia.
Qed.
Lemma in_diagonal m n c d : In (c, d) (diagonal_edges m n) <-> inside m n c /\ inside m n d /\ fst d = S (fst c) /\ next_number (snd c) (snd d).
Proof.
  unfold diagonal_edges. rewrite in_app_iff, (in_pairs (fun i j => ((i, j), (S i, S j)))), (in_pairs (fun i j => ((i, S j), (S i, j)))). unfold inside, next_number. destruct c as [i j], d as [k l]. cbn. split.
  - intros [(x & y & Hx & Hy & [= -> -> -> ->])|(x & y & Hx & Hy & [= -> -> -> ->])]; lia.
  - intros (H1 & H2 & -> & [->| ->]); [right; exists i, l|left; exists i, j]; repeat split; lia.
Qed.
Definition ascending (c d : cell) : Prop := fst c < fst d \/ (fst c = fst d /\ snd c < snd d).
Lemma edge_shape m n diag c d : In (c, d) (g_edges (create_grid_graph m n diag)) <->
  inside m n c /\ inside m n d /\ ascending c d /\ (share_side c d \/ (diag = true /\ share_corner c d)).
Proof.
  unfold create_grid_graph. cbn [g_edges]. rewrite !in_app_iff, in_row, in_column. unfold inside, ascending, share_side, share_corner, next_number. destruct c as [i j], d as [k l]. cbn. split.
  - intros [[H [= -> ->]]|[[H [= -> ->]]|H]]; [lia|lia|]. destruct diag; [|destruct H]. apply in_diagonal in H. unfold inside, next_number in H. cbn in H. intuition lia.
  - intros (H1 & H2 & H3 & H4). destruct (Nat.eq_dec i k) as [->|Hik].
    + right. left. split; [lia|]. f_equal. lia.
    + destruct (Nat.eq_dec j l) as [->|Hjl]; [left; split; [lia|]; f_equal; lia|]. right. right. destruct H4 as [H4|[-> H4]]; [lia|]. apply in_diagonal. unfold inside, next_number. cbn. lia.
Qed.

(** ** Theorems *)

(** The nodes: one for each pair of coordinates. *)
Theorem C78_nodes : forall m n diag, let g := create_grid_graph m n diag in
  length (g_nodes g) = m * n /\ forall i j, In (i, j) (g_nodes g) <-> i < m /\ j < n.
Proof.
  intros m n diag. split; [apply (length_pairs (fun i j => (i, j)))|]. intros i j. apply (in_cells m n (i, j)).
Qed.
(** The edges. *)
Theorem C78_edges : forall m n diag c d, let g := create_grid_graph m n diag in
  adj g c d <-> In c (g_nodes g) /\ In d (g_nodes g) /\ (share_side c d \/ (diag = true /\ share_corner c d)).
Proof.
  intros m n diag c d. cbn zeta. change (g_nodes (create_grid_graph m n diag)) with (cells m n). rewrite !in_cells.
  unfold adj. rewrite !(edge_shape m n diag). unfold inside, ascending, share_side, share_corner, next_number. destruct c as [i j], d as [k l]. cbn. destruct diag; intuition lia.
Qed.
Theorem C78_graph : forall m n diag, wf_graph (create_grid_graph m n diag).
Proof.
  intros m n diag. split.
  - apply (NoDup_pairs (fun i j => (i, j))); try apply seq_NoDup. intros i j k l [= -> ->]. auto.
  - cbn [g_edges create_grid_graph]. apply NoDup_app_intro; [|apply NoDup_app_intro|].
    + apply (NoDup_pairs (fun i j => ((i, j), (S i, j)))); try apply seq_NoDup. intros i j k l [= -> ->]. auto.
    + apply (NoDup_pairs (fun i j => ((i, j), (i, S j)))); try apply seq_NoDup. intros i j k l [= -> ->]. auto.
    + destruct diag; [|constructor]. apply NoDup_app_intro.
      * apply (NoDup_pairs (fun i j => ((i, j), (S i, S j)))); try apply seq_NoDup. intros i j k l [= -> ->]. auto.
      * apply (NoDup_pairs (fun i j => ((i, S j), (S i, j)))); try apply seq_NoDup. intros i j k l [= -> ->]. auto.
      * intros x Hx Hy. apply (in_pairs (fun i j => ((i, j), (S i, S j)))) in Hx. apply (in_pairs (fun i j => ((i, S j), (S i, j)))) in Hy. destruct Hx as (i & j & _ & _ & ->), Hy as (k & l & _ & _ & E). injection E. lia.
    + intros [c d] Hx Hy. apply in_column in Hx. destruct Hx as [_ ->]. destruct diag; [|destruct Hy]. apply in_diagonal in Hy. cbn in Hy. lia.
    + intros [c d] Hx Hy. apply in_row in Hx. destruct Hx as [_ ->]. apply in_app_iff in Hy. destruct Hy as [Hy|Hy].
      * apply in_column in Hy. destruct Hy as [_ E]. injection E. lia.
      * destruct diag; [|destruct Hy]. apply in_diagonal in Hy. unfold next_number in Hy. cbn in Hy. lia.
  - intros u v H. apply edge_shape in H. split; apply in_cells; tauto.
  - intros u v H H'. apply edge_shape in H, H'. unfold ascending in *. destruct H as (_ & _ & H & _), H' as (_ & _ & H' & _). lia.
Qed.
Theorem C78_edge_number : forall m n diag,
  length (g_edges (create_grid_graph m n diag)) = (m - 1) * n + m * (n - 1) + if diag then 2 * ((m - 1) * (n - 1)) else 0.
Proof.
  intros m n diag. cbn [g_edges create_grid_graph]. rewrite !app_length. unfold row_edges, column_edges.
  rewrite (length_pairs (fun i j => ((i, j), (S i, j)))), (length_pairs (fun i j => ((i, j), (i, S j)))).
  destruct diag; cbn [length]; [|lia]. unfold diagonal_edges. rewrite app_length, (length_pairs (fun i j => ((i, j), (S i, S j)))), (length_pairs (fun i j => ((i, S j), (S i, j)))). lia.
Qed.

(** ** The default plan *)
Definition quadrant (m n i j : nat) : nat :=
  match Nat.ltb i (Nat.div2 m), Nat.ltb j (Nat.div2 n) with
  | true, true => 0 | false, true => 1 | true, false => 2 | false, false => 3
  end.
Theorem C78_default_assignment : forall m n i j given, given = None \/ given = Some [] -> i < m -> j < n ->
  dget (grid_assignment m n given) (i, j) = Some (quadrant m n i j).
Proof.
  intros m n i j given Hg Hi Hj.
  assert (E : grid_assignment m n given = map (fun c => (c, color_quadrants c (Nat.div2 m, Nat.div2 n))) (cells m n)) by (destruct Hg as [-> | ->]; reflexivity).
  rewrite E. apply In_dget.
  - unfold dkeys. rewrite map_map. cbn. rewrite map_id. apply (C78_graph m n true).
  - apply in_map_iff. exists (i, j). split; [|apply in_cells; split; assumption]. f_equal. unfold color_quadrants, quadrant. cbn [fst snd]. destruct (Nat.ltb i (Nat.div2 m)), (Nat.ltb j (Nat.div2 n)); reflexivity.
Qed.
Theorem C78_given_assignment : forall m n d, d <> [] -> grid_assignment m n (Some d) = d.
Proof. intros m n [|x d] H; [contradiction|reflexivity]. Qed.
Theorem C78_color_half : forall i j t, color_half (i, j) t = 0 <-> i <= t.
Proof. intros. unfold color_half. cbn [fst]. destruct (Nat.leb_spec i t); split; intro; try discriminate; try lia. Qed.

(** Rectangles are connected. *)
Lemma rectangle_connected m n diag (a b c d : nat) : b <= m -> d <= n ->
  connected_on (create_grid_graph m n diag) (fun x => (a <= fst x < b) /\ (c <= snd x < d)).
Proof.
  intros Hb Hd. set (g := create_grid_graph m n diag). set (In_ := fun x : cell => (a <= fst x < b) /\ (c <= snd x < d)).
  assert (St : forall x y, In_ x -> In_ y -> share_side x y -> adj g x y /\ In_ x /\ In_ y).
  { intros x y Hx Hy Hs. split; [|split; assumption]. apply C78_edges. unfold In_ in *. change (g_nodes (create_grid_graph m n diag)) with (cells m n). rewrite !in_cells. unfold inside. repeat split; try lia. now left. }
  set (R := fun x y => adj g x y /\ In_ x /\ In_ y).
  assert (Sy : forall x y, R x y -> R y x) by (intros x y (H1 & H2 & H3); split; [now apply adj_sym|split; assumption]).
  assert (H1 : forall k i j, In_ (i, j) -> In_ (i + k, j) -> reach R (i, j) (i + k, j)).
  { induction k as [|k IH]; intros i j Hi Hk; [rewrite Nat.add_0_r; constructor|]. eapply reach_step; [apply IH; [exact Hi|]|apply St]; unfold In_, share_side, next_number in *; cbn in *; lia. }
  assert (H2 : forall k i j, In_ (i, j) -> In_ (i, j + k) -> reach R (i, j) (i, j + k)).
  { induction k as [|k IH]; intros i j Hi Hk; [rewrite Nat.add_0_r; constructor|]. eapply reach_step; [apply IH; [exact Hi|]|apply St]; unfold In_, share_side, next_number in *; cbn in *; lia. }
  assert (B : In_ (a, c) \/ ~ In_ (a, c)) by (unfold In_; cbn; lia).
  destruct B as [B|B].
  - assert (G : forall x, In_ x -> reach R (a, c) x).
    { intros [i j] Hx. eapply reach_trans; [apply (H1 (i - a) a c B)|].
      - unfold In_ in *; cbn in *; lia.
      - replace (a + (i - a)) with i by (unfold In_ in *; cbn in *; lia). replace j with (c + (j - c)) by (unfold In_ in *; cbn in *; lia). apply H2; unfold In_ in *; cbn in *; lia. }
    intros u v Hu Hv. change (reach R u v). eapply reach_trans; [apply reach_sym; [exact Sy|apply G, Hu]|apply G, Hv].
  - intros u v Hu Hv. exfalso. apply B. unfold In_ in *. cbn in *. lia.
Qed.
(** With at least two rows and columns the default plan has four districts,
    all of them contiguous. *)
Theorem C78_default_contiguous : forall m n diag A, 2 <= m -> 2 <= n ->
  first_time_assignment (create_grid_graph m n diag) (grid_assignment m n None) = Ok A ->
  contiguous_plan (create_grid_graph m n diag) A /\ forall p, In p (labels A) <-> p < 4.
Proof.
  intros m n diag A Hm Hn H.
  assert (D : is_dict (grid_assignment m n None)) by (unfold is_dict, dkeys; cbn; rewrite map_map; cbn; rewrite map_id; apply (C78_graph m n true)).
  destruct (first_coherent _ _ _ D H) as (Coh & Dis & Ne).
  assert (Q : forall i j p, district A (i, j) = Some p <-> i < m /\ j < n /\ p = quadrant m n i j).
  { intros i j p. rewrite Dis. split.
    - intro E. assert (In (i, j) (cells m n)).
      { apply dget_Some_key in E. unfold dkeys in E. cbn in E. rewrite map_map in E. cbn in E. now rewrite map_id in E. }
      apply in_cells in H0. destruct H0 as [H1 H2]. cbn in H1, H2. pose proof (C78_default_assignment m n i j None (or_introl eq_refl) H1 H2) as E'. assert (E2 : Some p = Some (quadrant m n i j)) by (etransitivity; [symmetry; exact E|exact E']). injection E2 as ->. auto.
    - intros (Hi & Hj & ->). apply C78_default_assignment; auto. }
  assert (Two : 1 <= Nat.div2 m /\ Nat.div2 m < m /\ 1 <= Nat.div2 n /\ Nat.div2 n < n).
  { rewrite !Nat.div2_div. repeat split; try (apply Nat.div_lt; lia); apply (Nat.div_le_lower_bound); lia. }
  assert (NE : forall p, p < 4 -> exists c, district A c = Some p).
  { intros p Hp. destruct p as [|[|[|[|p]]]]; [exists (0, 0)|exists (Nat.div2 m, 0)|exists (0, Nat.div2 n)|exists (Nat.div2 m, Nat.div2 n)|lia];
      apply Q; unfold quadrant; repeat split; try lia;
      repeat match goal with |- context [Nat.ltb ?a ?b] => destruct (Nat.ltb_spec a b); try lia end. }
  assert (Lab : forall p, In p (labels A) <-> p < 4).
  { intro p. split.
    - intro Hp. destruct (Ne p Hp) as ([i j] & _ & Hn'). apply Q in Hn'. destruct Hn' as (_ & _ & ->). unfold quadrant. destruct (Nat.ltb i (Nat.div2 m)), (Nat.ltb j (Nat.div2 n)); lia.
    - intro Hp. destruct (NE p Hp) as [c Hc]. apply (coh_agree _ _ Coh) in Hc. destruct Hc as (s & Hs & _). now apply dget_Some_key in Hs. }
  split; [|exact Lab]. intros p Hp. apply Lab in Hp. split; [destruct (NE p Hp) as [c Hc]; exists c; exact Hc|].
  set (a := if Nat.even p then 0 else Nat.div2 m). set (b := if Nat.even p then Nat.div2 m else m). set (c := if Nat.ltb p 2 then 0 else Nat.div2 n). set (d := if Nat.ltb p 2 then Nat.div2 n else n).
  assert (Sh : forall x, in_district A p x <-> (a <= fst x < b) /\ (c <= snd x < d)).
  { intros [i j]. unfold in_district. rewrite Q. unfold quadrant, a, b, c, d. cbn [fst snd].
    destruct (Nat.ltb_spec i (Nat.div2 m)), (Nat.ltb_spec j (Nat.div2 n)); destruct p as [|[|[|[|p]]]]; cbn [Nat.even Nat.ltb Nat.leb]; lia. }
  intros u v Hu Hv. apply Sh in Hu, Hv. eapply reach_mono; [|apply (rectangle_connected m n diag a b c d); [| |exact Hu|exact Hv]].
  - intros x y (H1 & H2 & H3). split; [exact H1|]. split; apply Sh; assumption.
  - unfold b. destruct (Nat.even p); lia.
  - unfold d. destruct (Nat.ltb p 2); lia.
Qed.

(** ** Updaters and data *)
Section Updaters.
  Context {P L : Type} {EP : EqB P} {EL : EqB L}.
  (** The defaults replace updaters of the same name given by the user. *)
  Theorem C78_updaters : forall (given : dict string (updater cell P Z L)) k u,
    dget (grid_updaters given) k = Some u <->
    dget default_updaters k = Some u \/ (dget (default_updaters (P := P) (L := L)) k = None /\ dget given k = Some u).
  Proof.
    intros given k u. unfold grid_updaters.
    assert (G : forall (l d : dict string (updater cell P Z L)), NoDup (dkeys l) -> dget (fold_left (fun d kv => dset d (fst kv) (snd kv)) l d) k = match dget l k with Some v => Some v | None => dget d k end).
    { induction l as [|[x v] l IH]; intros d ND; [reflexivity|]. inversion ND as [|? ? Hn ND']; subst. cbn [fold_left fst snd]. rewrite (IH _ ND'). cbn [dget]. destruct (eqb_spec k x) as [->|Hne].
      - assert (E : dget l x = None) by (apply dget_None; exact Hn). rewrite E. apply dget_dset_eq.
      - rewrite dget_dset_neq by congruence. reflexivity. }
    rewrite G; [|vm_compute; repeat constructor; cbn; intuition discriminate]. destruct (dget default_updaters k); split; try tauto; intuition congruence.
  Qed.
  Theorem C78_user_updater_refuted : exists (given : dict string (updater cell P Z L)) k f,
    dget given k = Some (UFun f) /\ dget (grid_updaters given) k = Some UCutEdges.
  Proof. exists [("cut_edges", UFun (fun _ => VOther 7%nat))], "cut_edges", (fun _ => VOther 7%nat). split; reflexivity. Qed.

  (** The population and the area of a district are its number of cells. *)
  Theorem C78_population : forall m n diag (given : dict string (updater cell P Z L)) h a o k v, In k ["population"; "area"] ->
    session (grid_env m n diag given) h -> nth_error h a = Some o ->
    fst (read (grid_env m n diag given) a k h) = Ok v ->
    exists d, v = VNum d /\ forall p x, dget d p = Some x ->
      exists j, x = Num (Z.of_nat j) /\ numbers (fun c => In c (cells m n) /\ district (o_assign o) c = Some p) j.
  Proof.
    intros m n diag given h a o k v Hk HS Ho Hv.
    assert (Hu : dget (e_updaters (grid_env m n diag given)) k = Some (UTally [k] k)) by (apply C78_updaters; left; destruct Hk as [<-|[<-|[]]]; reflexivity).
    destruct (C10_tally _ h a o k [k] k (fun _ _ => 1%Z) v HS Ho Hu) as (d & -> & _ & T & _).
    - intros f [<-|[]] c Hc. cbn [e_attr grid_env]. unfold grid_attr. change (In c (cells m n)) in Hc. apply mem_In in Hc. rewrite Hc. destruct Hk as [<-|[<-|[]]]; reflexivity.
    - exact Hv.
    - exists d. split; [reflexivity|]. intros p x Hx. destruct (T p x Hx) as (y & -> & s & ND & I & Ey). exists (length s). split; [|exists s; auto]. f_equal. rewrite Ey. clear.
      induction s as [|c s IH]; [reflexivity|]. rewrite map_cons, vsum_cons, IH. change (1 + Z.of_nat (length s) = Z.of_nat (S (length s)))%Z. lia.
  Qed.

  (** They can be read at any point of a run in which no district is ever
      empty, and then every district has an entry. *)
  Theorem C78_population_total : forall m n diag (given : dict string (updater cell P Z L)) h a o k, In k ["population"; "area"] ->
    session (grid_env m n diag given) h -> nth_error h a = Some o ->
    (forall o, In o h -> no_empty_district (create_grid_graph m n diag) (o_assign o)) ->
    exists d, fst (read (grid_env m n diag given) a k h) = Ok (VNum d) /\
      forall p, In p (labels (o_assign o)) -> exists j, dget d p = Some (Num (Z.of_nat j)) /\ (0 < j)%nat /\
        numbers (fun c => In c (cells m n) /\ district (o_assign o) c = Some p) j.
  Proof.
    intros m n diag given h a o k Hk HS Ho NE.
    assert (Hu : dget (e_updaters (grid_env m n diag given)) k = Some (UTally [k] k)) by (apply C78_updaters; left; destruct Hk as [<-|[<-|[]]]; reflexivity).
    assert (Dt : forall f, In f [k] -> data_is (e_graph (grid_env m n diag given)) (e_attr (grid_env m n diag given) f) (fun _ : cell => 1%Z)).
    { intros f [<-|[]] c Hc. cbn [e_attr grid_env]. unfold grid_attr. change (In c (cells m n)) in Hc. apply mem_In in Hc. rewrite Hc. destruct Hk as [<-|[<-|[]]]; reflexivity. }
    destruct (C10_tally_total _ h a o k [k] k (fun _ _ => 1%Z) HS Ho Hu Dt NE) as [v Hv].
    destruct (C10_tally _ h a o k [k] k (fun _ _ => 1%Z) v HS Ho Hu Dt Hv) as (d0 & -> & _ & _ & K).
    destruct (C78_population m n diag given h a o k _ Hk HS Ho Hv) as (d & [= <-] & T).
    exists d0. split; [exact Hv|]. intros p Lp.
    destruct (NE o (nth_error_In _ _ Ho) p Lp) as (c & Hc & Hp).
    destruct (proj1 (dget_key d0 p) (K c p Hc Hp)) as [x Hx].
    destruct (T p x Hx) as (j & -> & Nj). exists j. split; [exact Hx|]. split; [|exact Nj].
    destruct Nj as (s & _ & I & <-). destruct s as [|y s]; [|cbn; lia]. exfalso. apply (proj2 (I c)). split; [exact Hc|exact Hp].
  Qed.

  (** as_list_of_lists: row [j], column [i] holds the district of (i, j). *)
  Theorem C78_rows : forall m n diag (A : assignment cell P), coherent (g_nodes (create_grid_graph m n diag)) A ->
    exists rows, as_list_of_lists m n A = Ok rows /\ length rows = n /\
      forall j row, nth_error rows j = Some row -> length row = m /\ forall i, i < m -> nth_error row i = district A (i, j).
  Proof.
    intros m n diag A Coh.
    assert (T : forall i j, i < m -> j < n -> exists p, dget (a_map A) (i, j) = Some p).
    { intros i j Hi Hj. apply dget_key. apply (coh_dom _ _ Coh). apply (in_cells m n (i, j)). split; assumption. }
    assert (Row : forall j, j < n -> forall b s, s + b <= m -> exists row, mapM (fun i => match dget (a_map A) (i, j) with Some p => Ok p | None => Err KeyError end) (seq s b) = Ok row /\ length row = b /\ forall i, i < b -> nth_error row i = district A (s + i, j)).
    { intros j Hj. induction b as [|b IH]; intros s Hs; cbn [seq mapM]; [exists []; split; [reflexivity|]; split; [reflexivity|]; intros; lia|]. destruct (T s j) as [p Hp]; [lia|exact Hj|]. rewrite Hp. cbn [bind].
      destruct (IH (S s)) as (row & -> & Hl & Hr); [lia|]. exists (p :: row). split; [reflexivity|]. split; [cbn; lia|]. intros [|i] Hi; cbn [nth_error]; [rewrite Nat.add_0_r; symmetry; exact Hp|]. rewrite Hr by lia. f_equal. f_equal. lia. }
    assert (All : forall b s, s + b <= n -> exists rows, mapM (fun j => mapM (fun i => match dget (a_map A) (i, j) with Some p => Ok p | None => Err KeyError end) (seq 0 m)) (seq s b) = Ok rows /\ length rows = b /\
      forall j row, nth_error rows j = Some row -> length row = m /\ forall i, i < m -> nth_error row i = district A (i, s + j)).
    { induction b as [|b IH]; intros s Hs; cbn [seq mapM]; [exists []; split; [reflexivity|]; split; [reflexivity|]; intros [|j] row; discriminate|].
      destruct (Row s ltac:(lia) m 0 ltac:(lia)) as (row & -> & Hl & Hr). cbn [bind]. destruct (IH (S s)) as (rows & -> & Hl' & Hr'); [lia|]. exists (row :: rows). split; [reflexivity|]. split; [cbn; lia|].
      intros [|j] r E; cbn [nth_error] in E.
      - injection E as <-. split; [exact Hl|]. intros i Hi. rewrite Nat.add_0_r. apply Hr, Hi.
      - destruct (Hr' j r E) as [H1 H2]. split; [exact H1|]. intros i Hi. rewrite H2 by exact Hi. f_equal. f_equal. lia. }
    destruct (All n 0 ltac:(lia)) as (rows & E & Hl & Hr). exists rows. split; [exact E|]. split; [exact Hl|]. exact Hr.
  Qed.
End Updaters.
(** The documentation promises the district of (i, j) in row i, column j. *)
Theorem C78_documented_rows_refuted : exists A rows, first_time_assignment (create_grid_graph 2 2 false) (grid_assignment 2 2 None) = Ok A /\
  as_list_of_lists 2 2 A = Ok rows /\ exists row x, nth_error rows 0 = Some row /\ nth_error row 1 = Some x /\ district A (0, 1) <> Some x.
Proof. do 2 eexists. split; [vm_compute; reflexivity|]. split; [vm_compute; reflexivity|]. do 2 eexists. split; [reflexivity|]. split; [reflexivity|]. vm_compute. discriminate. Qed.
Theorem C78_documented_shape_refuted : exists A rows, first_time_assignment (create_grid_graph 2 3 false) (grid_assignment 2 3 None) = Ok A /\
  as_list_of_lists 2 3 A = Ok rows /\ length rows <> 2.
Proof. do 2 eexists. split; [vm_compute; reflexivity|]. split; [vm_compute; reflexivity|]. discriminate. Qed.
(** A grid with one row has two default districts only. *)
Theorem C78_one_row_default_refuted : exists A, first_time_assignment (create_grid_graph 1 4 false) (grid_assignment 1 4 None) = Ok A /\ labels A = [1; 3].
Proof. eexists. split; vm_compute; reflexivity. Qed.

(** ** Concrete case *)
Example C78_nonvacuous : exists A, first_time_assignment (create_grid_graph 4 3 true) (grid_assignment 4 3 None) = Ok A /\ length (g_edges (create_grid_graph 4 3 true)) = 29.
Proof. eexists. split; vm_compute; reflexivity. Qed.

Print Assumptions C78_nodes.
Print Assumptions C78_edges.
Print Assumptions C78_graph.
Print Assumptions C78_edge_number.
Print Assumptions C78_default_assignment.
Print Assumptions C78_given_assignment.
Print Assumptions C78_color_half.
Print Assumptions C78_default_contiguous.
Print Assumptions C78_updaters.
Print Assumptions C78_user_updater_refuted.
Print Assumptions C78_population.
Print Assumptions C78_population_total.
Print Assumptions C78_rows.
Print Assumptions C78_documented_rows_refuted.
Print Assumptions C78_documented_shape_refuted.
Print Assumptions C78_one_row_default_refuted.
