(** C79: perimeters on grids are lengths of outlines. *)
From Coq Require Import String List Bool Arith ZArith Lia ZifyBool ZifyNat.
From Verif Require Import Base M_Graph M_Partition S_Partition L_Partition P_Partition M_Machine S_Machine L_Sums L_Machine L_Answers P_Machine M_Contiguity S_Contiguity L_Search P_Contiguity L_Locality M_Grid P_Grid.
Import ListNotations.
Local Open Scope string_scope.
Local Open Scope nat_scope.
Local Open Scope list_scope.

(** ** Specification: the four sides of a cell and the cell behind each, if
    the coordinates exist. *)
Inductive side := Up | Down | Left | Right.
Definition across (c : cell) (s : side) : option cell :=
  match s, c with
  | Up, (i, j) => Some (S i, j)
  | Down, (S i, j) => Some (i, j)
  | Right, (i, j) => Some (i, S j)
  | Left, (i, S j) => Some (i, j)
  | _, _ => None
  end.
(** A side of a cell of district [p] with something else, or nothing, behind. *)
Definition outline {P} {EP : EqB P} (A : assignment cell P) (p : P) (cs : cell * side) : Prop :=
  district A (fst cs) = Some p /\ forall d, across (fst cs) (snd cs) = Some d -> district A d <> Some p.
(** A side of a cell with nothing behind. *)
Definition leaves_grid (m n : nat) (cs : cell * side) : Prop :=
  forall d, across (fst cs) (snd cs) = Some d -> ~ inside m n d.

(** ** Lemmas *)
Definition leaves (m n : nat) (c : cell) (s : side) : bool :=
  match across c s with Some d => negb (Nat.ltb (fst d) m && Nat.ltb (snd d) n) | None => true end.
Lemma leaves_spec m n c s : leaves m n c s = true <-> leaves_grid m n (c, s).
Proof.
  unfold leaves, leaves_grid, inside. cbn [fst snd]. destruct (across c s) as [d|].
  - rewrite negb_true_iff. split.
    + intros H d' [= <-] [H1 H2]. lia.
    + intro H. specialize (H d eq_refl). lia.
  - split; [intros _ d; discriminate|reflexivity].
Qed.
Definition sides : list side := [Up; Down; Left; Right].
Lemma sides_all s : In s sides. Proof. destruct s; cbn; auto. Qed.
Lemma sides_NoDup : NoDup sides. Proof. unfold sides. repeat constructor; cbn; intuition discriminate. Qed.
Lemma mem2 (x a b : nat) : mem x [a; b] = Nat.eqb x a || Nat.eqb x b.
Proof. cbn. now rewrite orb_false_r. Qed.
Lemma mem_corner (c : cell) l : mem c l = existsb (fun d => Nat.eqb (fst c) (fst d) && Nat.eqb (snd c) (snd d)) l.
Proof. induction l as [|d l IH]; [reflexivity|]. cbn [mem existsb]. rewrite <- IH. destruct c, d; reflexivity. Qed.
Lemma boundary_leaves m n c : inside m n c -> boundary_node m n c = existsb (leaves m n c) sides.
Proof.
  destruct c as [i j]. unfold inside, boundary_node. cbn [fst snd]. intros [Hi Hj]. rewrite !mem2. cbn [existsb sides]. unfold leaves.
  destruct i as [|i], j as [|j]; cbn [across fst snd]; lia.
Qed.
Lemma perim_leaves m n c : 2 <= m -> 2 <= n -> inside m n c -> get_boundary_perim m n c = Z.of_nat (length (filter (leaves m n c) sides)).
Proof.
  destruct c as [i j]. unfold inside, get_boundary_perim. intros Hm Hn [Hi Hj]. rewrite mem_corner, !mem2. cbn [existsb fst snd] in *. cbn [filter sides]. unfold leaves.
  destruct i as [|i], j as [|j]; cbn [across fst snd];
    repeat match goal with |- context [Nat.ltb ?a ?b] => destruct (Nat.ltb_spec a b) end;
    repeat match goal with |- context [Nat.eqb ?a ?b] => destruct (Nat.eqb_spec a b) end; cbn [andb orb negb length]; lia.
Qed.
Lemma numbers_flat {X Y} (s : list X) (f : X -> list Y) : NoDup s -> (forall x, In x s -> NoDup (f x)) -> (forall x x' y, In x s -> In x' s -> In y (f x) -> In y (f x') -> x = x') ->
  numbers (fun y => exists x, In x s /\ In y (f x)) (length (flat_map f s)).
Proof.
  intros N1 N2 Dis. exists (flat_map f s). split; [|split; [intro y; apply in_flat_map|reflexivity]].
  induction N1 as [|x s Hx N1 IH]; cbn [flat_map]; [constructor|]. apply NoDup_app_intro.
  - apply N2. now left.
  - apply IH; [intros; apply N2; now right|]. intros a b y Ha Hb. apply Dis; now right.
  - intros y Hy Hin. apply in_flat_map in Hin. destruct Hin as (x' & Hx' & Hy'). assert (x = x') by (apply (Dis x x' y); auto; [now left|now right]). subst x'. contradiction.
Qed.
Lemma vsum_flat {X Y} (w : X -> Z) (f : X -> list Y) s : (forall x, In x s -> w x = Z.of_nat (length (f x))) -> vsum (map w s) = Z.of_nat (length (flat_map f s)).
Proof.
  induction s as [|x s IH]; intro H; [reflexivity|]. cbn [map flat_map]. rewrite vsum_cons, app_length, IH by (intros; apply H; now right). rewrite (H x (or_introl eq_refl)). change (Z.of_nat (length (f x)) + Z.of_nat (length (flat_map f s)) = Z.of_nat (length (f x) + length (flat_map f s)))%Z. lia.
Qed.
Lemma numbers_split {X} (Pr : X -> Prop) (f : X -> Prop) j k : numbers (fun x => Pr x /\ f x) j -> numbers (fun x => Pr x /\ ~ f x) k -> (forall x, f x \/ ~ f x) -> numbers Pr (j + k).
Proof.
  intros (a & Na & Ia & <-) (b & Nb & Ib & <-) D. exists (a ++ b). split; [|split; [|apply app_length]].
  - apply NoDup_app_intro; auto. intros x Hx Hy. apply Ia in Hx. apply Ib in Hy. tauto.
  - intro x. rewrite in_app_iff, Ia, Ib. destruct (D x); tauto.
Qed.
Lemma across_side c s d : across c s = Some d -> share_side c d.
Proof. unfold share_side, next_number. destruct c as [[|i] [|j]], s; cbn; intros [= <-]; cbn; lia. Qed.
Lemma side_across c d : share_side c d -> exists s, across c s = Some d.
Proof.
  unfold share_side, next_number. destruct c as [i j], d as [k l]. cbn. intros [[-> [->| ->]]|[-> [->| ->]]]; [exists Left|exists Right|exists Down|exists Up]; reflexivity.
Qed.
Lemma across_inj c s s' d : across c s = Some d -> across c s' = Some d -> s = s'.
Proof. destruct c as [[|i] [|j]], s, s'; cbn; intros [= <-] E; try reflexivity; try discriminate; injection E; lia. Qed.

Section Perimeter.
  Context {P L : Type} {EP : EqB P} {EL : EqB L}.
  Variables (m n : nat) (diag : bool).
  Notation g := (create_grid_graph m n diag).

  (** The sides of [p]'s cells that lie on the edge [e]. *)
  Definition on_edge (A : assignment cell P) (p : P) (e : cell * cell) : list (cell * side) :=
    flat_map (fun uv => if eqb (district A (fst uv)) (Some p) then
                          map (pair (fst uv)) (filter (fun s => eqb (across (fst uv) s) (Some (snd uv))) sides) else [])
      [e; (snd e, fst e)].
  Lemma in_on_edge A p e cs : In cs (on_edge A p e) <->
    district A (fst cs) = Some p /\ exists d, across (fst cs) (snd cs) = Some d /\ (e = (fst cs, d) \/ e = (d, fst cs)).
  Proof.
    unfold on_edge. rewrite in_flat_map. split.
    - intros (uv & Huv & H). destruct (eqb_spec (district A (fst uv)) (Some p)) as [Hd|]; [|destruct H]. apply in_map_iff in H. destruct H as (s & <- & Hs). apply filter_In in Hs. destruct Hs as [_ Hs]. apply eqb_true in Hs.
      cbn [fst snd]. split; [exact Hd|]. exists (snd uv). split; [exact Hs|]. destruct Huv as [<-|[<-|[]]]; [left; now destruct e|right; cbn; now destruct e].
    - destruct cs as [c s]. cbn [fst snd]. intros (Hd & d & Ha & He). exists (c, d). split; [destruct He as [->| ->]; cbn; auto|]. cbn [fst snd]. rewrite Hd, eqb_refl. apply in_map, filter_In. split; [apply sides_all|]. rewrite Ha. apply eqb_refl.
  Qed.
  Lemma shared_spec c d : adj g c d -> shared_perim m n diag (c, d) = 1%Z /\ share_side c d \/ shared_perim m n diag (c, d) = 0%Z /\ ~ share_side c d.
  Proof.
    intro H. apply C78_edges in H. destruct H as (Hc & Hd & H). change (In c (cells m n)) in Hc. change (In d (cells m n)) in Hd. apply in_cells in Hc, Hd.
    unfold shared_perim. cbn [fst snd].
    assert (Dg : mem (c, d) (diagonal_edges m n) || mem (d, c) (diagonal_edges m n) = true <-> share_corner c d).
    { rewrite orb_true_iff, !mem_In, !in_diagonal. unfold share_corner, next_number. intuition lia. }
    assert (X : share_side c d -> share_corner c d -> False) by (unfold share_side, share_corner, next_number; intros; lia).
    destruct (mem (c, d) (diagonal_edges m n) || mem (d, c) (diagonal_edges m n)).
    - pose proof (proj1 Dg eq_refl) as Sc. destruct H as [H|[-> H]]; [destruct (X H Sc)|]. right. split; [reflexivity|]. intro Hs. exact (X Hs Sc).
    - left. split; [now rewrite andb_false_r|]. destruct H as [H|[_ H]]; [exact H|]. apply Dg in H. discriminate.
  Qed.
  Lemma on_edge_length A p e : cut_edge_of g A p e -> Z.of_nat (length (on_edge A p e)) = shared_perim m n diag e.
  Proof.
    intros [(_ & Hadj & Hne) He]. destruct e as [u v]. cbn [fst snd] in *. unfold on_edge. cbn [flat_map fst snd]. rewrite app_nil_r.
    assert (One : forall x y, share_side x y -> length (filter (fun s => eqb (across x s) (Some y)) sides) = 1).
    { intros x y Hs. destruct (side_across x y Hs) as [s0 H0]. assert (E : filter (fun s => eqb (across x s) (Some y)) sides = [s0]); [|now rewrite E].
      assert (Q : forall s, eqb (across x s) (Some y) = true <-> s = s0).
      { intro s. split; [intro H; apply eqb_true in H; eapply across_inj; eauto|intros ->; apply eqb_eq; exact H0]. }
      assert (K : forall s, eqb (across x s) (Some y) = match s, s0 with Up, Up | Down, Down | Left, Left | Right, Right => true | _, _ => false end).
      { intro s. destruct (eqb (across x s) (Some y)) eqn:E; [apply Q in E; subst s; now destruct s0|]. destruct s, s0; try reflexivity; (rewrite <- E; apply Q; reflexivity). }
      unfold sides. cbn [filter]. rewrite !K. now destruct s0. }
    assert (Zero : forall x y, ~ share_side x y -> length (filter (fun s => eqb (across x s) (Some y)) sides) = 0).
    { intros x y Hs. assert (E : filter (fun s => eqb (across x s) (Some y)) sides = []); [|now rewrite E]. assert (F : forall s, eqb (across x s) (Some y) = false) by (intro s; apply eqb_neq; intro H; apply Hs; eapply across_side; eauto). unfold sides. cbn [filter]. now rewrite !F. }
    assert (Sym : share_side v u <-> share_side u v) by (unfold share_side, next_number; lia).
    destruct (shared_spec u v Hadj) as [[-> Hs]|[-> Hs]];
      (destruct (eqb_spec (district A u) (Some p)) as [Hu|Hu]; destruct (eqb_spec (district A v) (Some p)) as [Hv|Hv]; [congruence| | |tauto]);
      rewrite ?app_length, ?map_length; cbn [length];
      first [rewrite One by tauto|rewrite Zero by tauto]; reflexivity.
  Qed.

  (** The perimeter reported for a district of a grid with at least two rows
      and columns is the number of sides on its outline, whatever the history
      of flips and reads. *)
  Theorem C79_perimeter : forall (given : dict string (updater cell P Z L)) h a o, 2 <= m -> 2 <= n ->
    session (grid_env m n diag given) h -> nth_error h a = Some o ->
    exists d, fst (read (grid_env m n diag given) a "perimeter" h) = Ok (VNum d) /\ dkeys d = labels (o_assign o) /\
      forall p, In p (labels (o_assign o)) -> exists k, dget d p = Some (Num (Z.of_nat k)) /\ numbers (outline (o_assign o) p) k.
  Proof.
    intros given h a o Hm Hn HS Ho.
    assert (Hu : dget (e_updaters (grid_env m n diag given)) "perimeter" = Some UPerimeter) by (apply C78_updaters; left; reflexivity).
    assert (Hc : In "cut_edges" (dkeys (e_updaters (grid_env m n diag given)))).
    { apply dget_key. exists UCutEdges. apply C78_updaters. left. reflexivity. }
    destruct (C13_perimeter _ h a o "perimeter" HS Ho Hu Hc) as (d & Hd & Kd & Hp). exists d. split; [exact Hd|]. split; [exact Kd|]. intros p Lp.
    destruct (Hp p Lp) as (ext & int & Dp & (s1 & N1 & I1 & E1) & (s2 & N2 & I2 & E2)). cbn [e_graph e_bnode e_bperim e_sperim grid_env] in *.
    pose proof (session_coherent _ h a o HS Ho) as Coh. cbn [e_graph grid_env] in Coh. set (A := o_assign o) in *.
    assert (Dom : forall c q, district A c = Some q -> inside m n c).
    { intros c q Hq. apply in_cells. apply (coh_dom _ _ Coh). unfold district in Hq. now apply dget_Some_key in Hq. }
    assert (Cell : forall c, In c (g_nodes g) <-> inside m n c) by (intro c; apply in_cells).
    (* sides on the outer boundary *)
    set (f1 := fun c : cell => map (pair c) (filter (leaves m n c) sides)).
    assert (K1 : numbers (fun cs => outline A p cs /\ leaves_grid m n cs) (length (flat_map f1 s1))).
    { eapply numbers_ext; [|apply (numbers_flat s1 f1 N1)].
      - intros [c s]. unfold f1. split.
        + intros (x & Hx & Hin). apply in_map_iff in Hin. destruct Hin as (s' & [= -> ->] & Hs). apply filter_In in Hs. destruct Hs as [_ Hs]. apply leaves_spec in Hs. apply I1 in Hx. split; [|exact Hs]. split; [tauto|].
          intros d' Hd' K. apply (Hs d' Hd'). eapply Dom. exact K.
        + intros [[Hd1 Hd2] Hl]. cbn [fst snd] in *. exists c. assert (Hin : inside m n c) by (eapply Dom; exact Hd1). split.
          * apply I1. split; [now apply Cell|]. split; [exact Hd1|]. rewrite (boundary_leaves m n c Hin). apply existsb_exists. exists s. split; [apply sides_all|now apply leaves_spec].
          * apply in_map, filter_In. split; [apply sides_all|now apply leaves_spec].
      - intros c _. unfold f1. apply FinFun.Injective_map_NoDup; [intros x y [= ->]; reflexivity|]. apply NoDup_filter, sides_NoDup.
      - intros x x' y _ _ H1 H2. unfold f1 in *. apply in_map_iff in H1. apply in_map_iff in H2. destruct H1 as (s & <- & _), H2 as (s' & [= -> _] & _). reflexivity. }
    (* sides between two cells *)
    assert (K2 : numbers (fun cs => outline A p cs /\ ~ leaves_grid m n cs) (length (flat_map (on_edge A p) s2))).
    { eapply numbers_ext; [|apply (numbers_flat s2 (on_edge A p) N2)].
      - intros [c s]. split.
        + intros (e & He & Hin). apply in_on_edge in Hin. cbn [fst snd] in Hin. destruct Hin as (Hd1 & d' & Ha & Hee). apply I2 in He. destruct He as [(_ & Hadj & Hne) _].
          assert (Hin : inside m n d' /\ district A c <> district A d').
          { apply adj_nodes in Hadj; [|apply C78_graph]. rewrite !Cell in Hadj. destruct Hee as [-> | ->]; cbn [fst snd] in *; split; try tauto; congruence. }
          split; [split|]; cbn [fst snd]; [exact Hd1| |].
          * intros d2 Hd2. rewrite Ha in Hd2. injection Hd2 as <-. destruct Hin as [_ Hin]. congruence.
          * intro Hl. apply (Hl d' Ha). tauto.
        + intros [[Hd1 Hd2] Hl]. cbn [fst snd] in *.
          destruct (across c s) as [d'|] eqn:Ha; [|exfalso; apply Hl; intros d' Hd'; cbn in Hd'; congruence].
          assert (Hin : inside m n d').
          { destruct (leaves m n c s) eqn:El; [exfalso; apply Hl; now apply leaves_spec|]. unfold leaves in El. rewrite Ha in El. unfold inside. lia. }
          assert (Hadj : adj g c d') by (apply C78_edges; rewrite !Cell; split; [eapply Dom; exact Hd1|]; split; [exact Hin|]; left; eapply across_side; exact Ha).
          specialize (Hd2 d' eq_refl). assert (Hne : district A c <> district A d') by congruence.
          destruct (leb_total c d') as [Hle|Hle]; [exists (c, d')|exists (d', c)]; (split; [apply I2|apply in_on_edge; cbn [fst snd]; split; [exact Hd1|]; exists d'; split; [exact Ha|auto]]).
          * split; [split; [exact Hle|split; [exact Hadj|exact Hne]]|left; exact Hd1].
          * split; [split; [exact Hle|split; [now apply adj_sym|cbn; congruence]]|right; exact Hd1].
      - intros e _. unfold on_edge. destruct e as [u v]. destruct (eq_dec_of u v) as [->|Huv].
        + assert (E : filter (fun s => eqb (across v s) (Some v)) sides = []).
          { assert (F : forall s, eqb (across v s) (Some v) = false) by (intro s; apply eqb_neq; intro H; apply across_side in H; unfold share_side, next_number in H; lia). unfold sides. cbn [filter]. now rewrite !F. }
          cbn [flat_map fst snd]. rewrite E. destruct (eqb (district A v) (Some p)); constructor.
        + assert (Nf : forall x y, NoDup (map (pair x) (filter (fun s => eqb (across x s) (Some y)) sides))) by (intros x y; apply FinFun.Injective_map_NoDup; [intros s s' [= ->]; reflexivity|apply NoDup_filter, sides_NoDup]).
          cbn [flat_map fst snd]. rewrite app_nil_r. apply NoDup_app_intro.
          * destruct (eqb (district A u) (Some p)); [apply Nf|constructor].
          * destruct (eqb (district A v) (Some p)); [apply Nf|constructor].
          * intros x H1 H2. destruct (eqb (district A u) (Some p)); [|destruct H1]. destruct (eqb (district A v) (Some p)); [|destruct H2]. apply in_map_iff in H1, H2. destruct H1 as (s & <- & _), H2 as (s' & [= E _] & _). congruence.
      - intros e e' cs He He' H1 H2. apply in_on_edge in H1, H2. destruct H1 as (_ & d1 & Ha1 & He1), H2 as (_ & d2 & Ha2 & He2). rewrite Ha1 in Ha2. injection Ha2 as <-.
        apply I2 in He, He'. destruct He as [(Hle & _ & Hne) _], He' as [(Hle' & _ & _) _].
        destruct He1 as [-> | ->], He2 as [-> | ->]; try reflexivity; cbn [fst snd] in *; exfalso; apply Hne; f_equal; now apply leb_antisym. }
    exists (length (flat_map f1 s1) + length (flat_map (on_edge A p) s2)). split.
    - rewrite Dp. f_equal. f_equal. rewrite E1, E2. rewrite (vsum_flat _ f1), (vsum_flat _ (on_edge A p)).
      + change (Z.of_nat (length (flat_map f1 s1)) + Z.of_nat (length (flat_map (on_edge A p) s2)) = Z.of_nat (length (flat_map f1 s1) + length (flat_map (on_edge A p) s2)))%Z. lia.
      + intros e He. symmetry. apply on_edge_length. now apply I2.
      + intros c Hin. unfold f1. rewrite map_length. apply perim_leaves; auto. apply I1 in Hin. apply Cell. tauto.
    - apply (numbers_split _ (leaves_grid m n)); auto. intros [c s]. destruct (leaves m n c s) eqn:El; [left; now apply leaves_spec|right; intro H; apply leaves_spec in H; congruence].
  Qed.
End Perimeter.

(** In a grid with a single row or column the stored length of the outer
    boundary is too small for every cell. *)
Theorem C79_one_row_refuted : forall m n c k, m = 1 \/ n = 1 -> inside m n c ->
  numbers (fun s => leaves_grid m n (c, s)) k -> (get_boundary_perim m n c < Z.of_nat k)%Z.
Proof.
  intros m n [i j] k Hmn Hin Hk.
  assert (k = length (filter (leaves m n (i, j)) sides)) as ->.
  { apply (numbers_unique _ _ _ Hk). exists (filter (leaves m n (i, j)) sides). split; [apply NoDup_filter, sides_NoDup|]. split; [|reflexivity]. intro s. rewrite filter_In, leaves_spec. split; [tauto|]. intro H. split; [apply sides_all|exact H]. }
  unfold inside, get_boundary_perim in *. rewrite mem_corner, !mem2. cbn [existsb fst snd] in *. cbn [filter sides]. unfold leaves.
  destruct i as [|i], j as [|j]; cbn [across fst snd];
    repeat match goal with |- context [Nat.ltb ?a ?b] => destruct (Nat.ltb_spec a b) end;
    repeat match goal with |- context [Nat.eqb ?a ?b] => destruct (Nat.eqb_spec a b) end; cbn [andb orb negb length]; lia.
Qed.

(** The numbers a cell carries: population and area 1 everywhere, the length of
    the outer boundary on the cells that touch it and on no other. *)
Theorem C79_attributes : forall m n c,
  (forall f, ~ inside m n c -> grid_attr m n f c = None) /\
  (inside m n c ->
   grid_attr m n "population" c = Some (Num 1%Z) /\ grid_attr m n "area" c = Some (Num 1%Z) /\
   (boundary_node m n c = true <-> exists s, leaves_grid m n (c, s)) /\
   (grid_attr m n "boundary_perim" c = None <-> ~ exists s, leaves_grid m n (c, s)) /\
   (2 <= m -> 2 <= n -> forall x, grid_attr m n "boundary_perim" c = Some x ->
      exists k, x = Num (Z.of_nat k) /\ numbers (fun s => leaves_grid m n (c, s)) k)).
Proof.
  intros m n c. split.
  { intros f H. unfold grid_attr. destruct (mem c (cells m n)) eqn:E; [|reflexivity]. exfalso. apply H. destruct c as [i j]. apply mem_In in E. apply (C78_nodes m n true) in E. exact E. }
  intro H. assert (B : boundary_node m n c = true <-> exists s, leaves_grid m n (c, s)).
  { rewrite boundary_leaves by exact H. rewrite existsb_exists. split.
    - intros (s & _ & Hs). exists s. now apply leaves_spec.
    - intros (s & Hs). exists s. split; [apply sides_all|now apply leaves_spec]. }
  assert (M : mem c (cells m n) = true). { apply mem_In. destruct c as [i j]. apply (C78_nodes m n true). exact H. }
  unfold grid_attr. rewrite M.
  change (mem "population" ["population"; "area"]) with true. change (mem "area" ["population"; "area"]) with true.
  change (mem "boundary_perim" ["population"; "area"]) with false. change (eqb "boundary_perim" "boundary_perim") with true. cbn [andb].
  split; [reflexivity|]. split; [reflexivity|]. split; [exact B|]. split.
  - rewrite <- B. destruct (boundary_node m n c); split; intro; congruence.
  - intros Hm Hn x Hx. destruct (boundary_node m n c); [|discriminate]. injection Hx as <-.
    exists (length (filter (leaves m n c) sides)). split; [f_equal; now apply perim_leaves|].
    exists (filter (leaves m n c) sides). split; [apply NoDup_filter, sides_NoDup|]. split; [|reflexivity]. intro s. rewrite filter_In, leaves_spec. split; [tauto|]. intro Hs. split; [apply sides_all|exact Hs].
Qed.

(** ** Concrete case: a 3 by 3 grid after one flip. *)
Definition grid33 : env cell nat Z nat := grid_env 3 3 true [].
Definition grid33_run : heap cell nat Z nat :=
  match root grid33 (grid_assignment 3 3 None) with Ok h => exec grid33 [OGet 0 "perimeter"; OFlip 0 [((1, 1), 0)]] h | _ => [] end.
Example C79_nonvacuous : session grid33 grid33_run /\ length grid33_run = 2 /\
  fst (read grid33 1 "perimeter" grid33_run) = Ok (VNum [(0, Num 8%Z); (2, Num 6%Z); (1, Num 6%Z); (3, Num 8%Z)]).
Proof.
  split; [|split; vm_compute; reflexivity]. split; [split; [apply C78_graph|]|split].
  - intros k ps al H. apply C78_updaters in H. destruct H as [H|[_ H]]; [|discriminate]. apply dget_In in H. cbn in H. repeat destruct H as [H|H]; try discriminate; contradiction.
  - intros k u H k' u' Hr. apply C78_updaters in H. destruct H as [H|[_ H]]; [|discriminate]. apply dget_In in H. cbn in H.
    repeat destruct H as [H|H]; try contradiction; injection H as <- <-; cbn in Hr; repeat destruct Hr as [Hr|Hr]; try contradiction; injection Hr as <- <-; reflexivity.
  - exists (grid_assignment 3 3 None). eexists. exists [OGet 0 "perimeter"; OFlip 0 [((1, 1), 0)]]. split; [|split; [vm_compute; reflexivity|split; [|reflexivity]]].
    + unfold is_dict, dkeys. cbn. nodup.
    + constructor; [exact I|]. constructor; [|constructor]. cbn. unfold is_dict. cbn. constructor; [intros []|constructor].
Qed.

Print Assumptions C79_perimeter.
Print Assumptions C79_one_row_refuted.
Print Assumptions C79_attributes.
