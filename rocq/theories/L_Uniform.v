(** Wilson's algorithm on given stacks ends where cycle popping ends, and the
    last draws of the nodes can be exchanged. *)
From Coq Require Import List Bool Arith ZArith Lia ZifyBool ZifyNat Permutation.
From Verif Require Import Base M_Graph M_Partition S_Partition L_Partition M_Machine S_Machine
  S_Contiguity L_Search M_Election M_Proposals M_Tree S_Tree L_Tree L_Wilson L_Popping L_WilsonRuns.
Import ListNotations.
Local Open Scope nat_scope.

Section Existence.
  Context {N : Type} {EN : EqB N}.
  Variable g : graph N.
  Hypothesis WF : wf_graph g.
  Hypothesis Nbr : forall x, In x (g_nodes g) -> neighbors g x <> [].
  Definition sumd (d : N -> nat) (l : list N) : nat := list_sum (map d l).
  Lemma sumd_bump_out d u l : ~ In u l -> sumd (bump d u) l = sumd d l.
  Proof using.
    induction l as [|x l IH]; intro H; [reflexivity|]. unfold sumd in *. cbn [map list_sum fold_right]. 
    change (bump d u x + list_sum (map (bump d u) l) = d x + list_sum (map d l)). rewrite IH by (intro X; apply H; now right).
    unfold bump. rewrite (proj2 (eqb_neq x u)); [now rewrite Nat.add_0_r|]. intros ->. apply H. now left.
  Qed.
  Lemma sumd_bump d u l : NoDup l -> In u l -> sumd (bump d u) l = S (sumd d l).
  Proof using.
    induction l as [|x l IH]; intros ND H; [destruct H|]. inversion ND as [|? ? Hx NDl]; subst.
    change (bump d u x + sumd (bump d u) l = S (d x + sumd d l)). destruct (eq_dec_of x u) as [->|Hn].
    - rewrite sumd_bump_out by exact Hx. unfold bump. rewrite eqb_refl. ring.
    - destruct H as [H|H]; [congruence|]. rewrite IH by auto. unfold bump. rewrite (proj2 (eqb_neq x u) Hn). ring.
  Qed.
  Lemma sumd_le d d' l : (forall x, In x l -> d x <= d' x) -> sumd d l <= sumd d' l.
  Proof using. induction l as [|x l IH]; intro H; [constructor|]. change (d x + sumd d l <= d' x + sumd d' l). apply Nat.add_le_mono; [apply H; now left|apply IH; intros; apply H; now right]. Qed.

  Variables (root : N) (W : N -> nat -> nat) (K : N -> nat).
  Hypothesis HK : reached g root W K.
  Hypothesis Ac : acyclic root (g_nodes g) (cur (tops g W) K).

  Lemma reached_le k : reached g root W k -> forall x, k x <= K x.
  Proof using HK Ac.
    intros (j & Hj) x. destruct HK as (m & Hm). destruct (pops_complete root (g_nodes g) _ K m j Ac _ _ Hm Hj) as (m' & _ & R). apply (pops_le _ _ _ _ _ _ R).
  Qed.
  Lemma walks_exist M : forall tree next a l u d k, winv g root W tree next a l u d k ->
    sumd (fun x => S (K x)) (g_nodes g) <= sumd d (g_nodes g) + M ->
    exists tr next', walks g tree next u tr next' /\ reads W d tr.
  Proof using WF Nbr HK Ac.
    induction M as [|M IH]; intros tree next a l u d k I HM; (destruct (In_dec_of u tree) as [Hu|Hu]; [exists [], next; split; [now constructor|exact Logic.I]|]);
      pose proof (wi_un _ _ _ _ _ _ _ _ _ _ I) as Hun; destruct (choice_of (W u (d u)) (neighbors g u) (Nbr u Hun)) as (v & Ev & _);
      destruct (winv_step g WF root W tree next a l u d k v I Hu Ev) as (l1 & k1 & I1);
      assert (Le : sumd (bump d u) (g_nodes g) <= sumd (fun x => S (K x)) (g_nodes g))
        by (apply sumd_le; intros x _; pose proof (reached_le k1 (wi_reach _ _ _ _ _ _ _ _ _ _ I1) x);
            destruct (In_dec_of x l1) as [H1|H1]; [destruct (wi_on _ _ _ _ _ _ _ _ _ _ I1 x (or_introl H1)); lia|];
            destruct (In_dec_of x tree) as [H2|H2]; [destruct (eq_dec_of x root) as [H3|H3]|];
            [rewrite (wi_off _ _ _ _ _ _ _ _ _ _ I1 x H1) by tauto; lia
            |destruct (wi_on _ _ _ _ _ _ _ _ _ _ I1 x (or_intror (conj H2 H3))); lia
            |rewrite (wi_off _ _ _ _ _ _ _ _ _ _ I1 x H1) by tauto; lia]);
      pose proof (sumd_bump d u (g_nodes g) (wfg_nodes g WF) Hun) as Eb.
    - exfalso. lia.
    - destruct (IH _ _ _ _ _ _ _ I1) as (tr & next' & Hw & R); [lia|]. exists ((u, W u (d u)) :: tr), next'. split; [econstructor; eauto|]. split; auto.
  Qed.
  Lemma grows_exist nodes : forall tree next d k es, binv g root W tree next d k es -> incl nodes (g_nodes g) ->
    exists tr tree' next', grows g tree next nodes tr tree' next' /\ reads W d tr.
  Proof using WF Nbr HK Ac.
    induction nodes as [|u nodes IH]; intros tree next d k es B Hn.
    - exists [], tree, next. split; [constructor|exact Logic.I].
    - assert (Hu : In u (g_nodes g)) by (apply Hn; now left).
      destruct (walks_exist (sumd (fun x => S (K x)) (g_nodes g)) tree next u [] u d k (binv_start g root W _ _ _ _ _ u B Hu)) as (t1 & next1 & W1 & R1); [lia|].
      destruct (binv_walks g WF root W _ _ _ _ _ _ _ _ B Hu W1 R1) as (tree1 & k1 & es1 & Er & B1 & _ & _).
      destruct (IH tree1 next1 (after d t1) k1 es1 B1) as (t2 & tree2 & next2 & G2 & R2); [intros x Hx; apply Hn; now right|].
      exists (t1 ++ t2), tree2, next2. split; [econstructor; eauto|]. apply reads_app. auto.
  Qed.
  (** The run on the stacks [W] pops exactly [K]. *)
  Lemma run_exists : In root (g_nodes g) -> exists tr tree next k es,
    grows g [root] [(root, None)] (g_nodes g) tr tree next /\ reads W (fun _ => 0) tr /\
    binv g root W tree next (after (fun _ => 0) tr) k es /\ incl (g_nodes g) tree /\ forall x, k x = K x.
  Proof using WF Nbr HK Ac.
    intro Hr. destruct (grows_exist (g_nodes g) _ _ _ _ _ (binv_init g root W Hr) (incl_refl _)) as (tr & tree & next & G & R).
    destruct (binv_grows g WF root W _ _ _ _ _ _ G _ _ _ (binv_init g root W Hr) (incl_refl _) R) as (k & es & B & H1 & _).
    exists tr, tree, next, k, es. split; [exact G|]. split; [exact R|]. split; [exact B|]. split; [exact H1|].
    destruct HK as (m & Hm). destruct (bi_reach _ _ _ _ _ _ _ _ B) as (j & Hj).
    intro x. symmetry. apply (pops_end root (g_nodes g) (tops g W) K k m j Ac (binv_acyclic g root W _ _ _ _ _ B H1) _ Hm Hj x).
  Qed.
End Existence.

Section Parents.
  Context {N : Type} {EN : EqB N}.
  (** A rooted list is determined by its undirected edges. *)
  Lemma rooted_unique r (es es' : list (N * N)) : rooted r es -> rooted r es' ->
    (forall x, In x (nodes_of r es) -> In x (nodes_of r es')) ->
    (forall p c, In (p, c) es -> In (p, c) es' \/ In (c, p) es') -> forall p c, In (p, c) es -> In (p, c) es'.
  Proof.
    intros R R' Hn He.
    assert (X : forall es0, rooted r es0 -> forall rest, es = es0 ++ rest -> forall p c, In (p, c) es0 -> In (p, c) es').
    { induction 1 as [|es0 p c R0 IH Hp Hc]; intros rest E q d Hin; [destruct Hin|]. rewrite <- app_assoc in E.
      apply in_app_iff in Hin. destruct Hin as [Hin|[Hin|[]]]; [now apply (IH _ E)|]. injection Hin as <- <-.
      assert (Hpc : In (p, c) es) by (rewrite E; apply in_app_iff; right; now left).
      destruct (He p c Hpc) as [H|H]; auto. exfalso.
      destruct Hp as [<-|Hp].
      - destruct (parent_in r es' c r R' H) as (_ & _ & X). now elim X.
      - apply in_map_iff in Hp. destruct Hp as ([p' p0] & E0 & Hp). cbn in E0. subst p0.
        assert (Hp' := IH _ E p' p Hp). rewrite (parent_unique r es' p' c p R' Hp' H) in Hp.
        apply (rooted_no_swap r es p c R Hpc). rewrite E. apply in_app_iff. auto. }
    intros p c. apply (X es R []). now rewrite app_nil_r.
  Qed.
  Definition par (es : list (N * N)) (x : N) : N := match find (fun e => eqb (snd e) x) es with Some e => fst e | None => x end.
  Lemma par_in r es p c : rooted r es -> In (p, c) es -> par es c = p.
  Proof.
    intros R H. unfold par. destruct (find (fun e => eqb (snd e) c) es) as [[q c']|] eqn:E.
    - apply find_some in E. destruct E as [E1 E2]. cbn in E2. destruct (eqb_spec c' c) as [->|]; [|discriminate E2]. cbn. now apply (parent_unique r es q p c R).
    - apply (find_none _ _ E) in H. cbn in H. rewrite eqb_refl in H. discriminate H.
  Qed.
  Fixpoint index (v : N) (l : list N) : nat := match l with [] => 0 | x :: r => if eqb x v then 0 else S (index v r) end.
  Lemma index_nth v l : In v l -> nth_error l (index v l) = Some v /\ index v l < List.length l.
  Proof.
    induction l as [|x l IH]; intros H; [destruct H|]. cbn [index]. destruct (eqb_spec x v) as [->|Hn].
    - cbn. split; auto. lia.
    - destruct H as [H|H]; [congruence|]. destruct (IH H). cbn. split; auto. lia.
  Qed.
  (** The draw leading to [v] that lies in the same block as [w]. *)
  Definition swap (v : N) (l : list N) (w : nat) : nat := w - w mod List.length l + index v l.
  Lemma swap_eq v l w : l <> [] -> swap v l w = List.length l * (w / List.length l) + index v l.
  Proof.
    intro H. assert (L : List.length l <> 0) by (destruct l; cbn; congruence). unfold swap. pose proof (Nat.div_mod w (List.length l) L) as E. pose proof (Nat.mod_le w (List.length l) L) as Le. set (q := List.length l * (w / List.length l)) in *. set (m := w mod List.length l) in *. lia.
  Qed.
  Lemma swap_choice v l w : In v l -> choice (swap v l w) l = Ok v.
  Proof.
    intro H. destruct (index_nth v l H) as [H1 H2]. assert (NE : l <> []) by (destruct l; [destruct H|congruence]).
    unfold choice. rewrite swap_eq by exact NE. rewrite Nat.add_comm, Nat.mul_comm, Nat.mod_add by lia. rewrite Nat.mod_small by exact H2.
    now rewrite H1.
  Qed.
  Lemma swap_lt v l w D : In v l -> Nat.divide (List.length l) D -> w < D -> swap v l w < D.
  Proof.
    intros H [c ->] Hw. destruct (index_nth v l H) as [_ H2]. assert (NE : l <> []) by (destruct l; [destruct H|congruence]). rewrite swap_eq by exact NE.
    assert (w / List.length l < c) by (apply Nat.div_lt_upper_bound; [lia|]; rewrite Nat.mul_comm; exact Hw). nia.
  Qed.
  Lemma swap_inj v v' l w1 w2 : NoDup l -> In v' l -> choice w1 l = Ok v -> choice w2 l = Ok v -> swap v' l w1 = swap v' l w2 -> w1 = w2.
  Proof.
    intros ND H C1 C2 E. assert (NE : l <> []) by (destruct l; [destruct H|congruence]). rewrite !swap_eq in E by exact NE.
    assert (L : List.length l <> 0) by (destruct l; cbn; congruence).
    unfold choice in C1, C2. destruct (nth_error l (w1 mod List.length l)) as [a|] eqn:E1; [|discriminate C1].
    destruct (nth_error l (w2 mod List.length l)) as [b|] eqn:E2; [|discriminate C2]. injection C1 as ->. injection C2 as ->.
    assert (M : w1 mod List.length l = w2 mod List.length l).
    { apply (proj1 (NoDup_nth_error l) ND); [now apply Nat.mod_upper_bound|congruence]. }
    assert (Q : w1 / List.length l = w2 / List.length l) by nia.
    rewrite (Nat.div_mod w1 (List.length l) L), (Nat.div_mod w2 (List.length l) L). congruence.
  Qed.
End Parents.

Section Exchange.
  Context {N : Type} {EN : EqB N}.
  Variable g : graph N.
  Hypothesis WF : wf_graph g.
  Hypothesis Nbr : forall x, In x (g_nodes g) -> neighbors g x <> [].
  Variable root : N.
  Hypothesis Hroot : In root (g_nodes g).

  Definition start (tr : list (N * nat)) (tree : list N) (next : dict N (option N)) : Prop :=
    grows g [root] [(root, None)] (g_nodes g) tr tree next.
  Definition own (tr : list (N * nat)) (x : N) (j : nat) : nat := nth j (drawsat x tr) 0.
  Lemma own_reads tr : reads (own tr) (fun _ => 0) tr.
  Proof using. apply reads_own. intros x j. reflexivity. Qed.

  (** What a complete run looks like. *)
  Record done (tr : list (N * nat)) (tree : list N) (next : dict N (option N)) (k : N -> nat) (es : list (N * N)) : Prop := {
    do_binv : binv g root (own tr) tree next (after (fun _ => 0) tr) k es;
    do_all : incl (g_nodes g) tree
  }.
  Lemma start_done tr tree next : start tr tree next -> exists k es, done tr tree next k es.
  Proof using WF Hroot.
    intro G. destruct (binv_grows g WF root (own tr) _ _ _ _ _ _ G _ _ _ (binv_init g root (own tr) Hroot) (incl_refl _) (own_reads tr)) as (k & es & B & H1 & _).
    exists k, es. now constructor.
  Qed.
  Lemma done_count tr tree next k es x : done tr tree next k es -> In x (g_nodes g) -> x <> root ->
    List.length (drawsat x tr) = S (k x) /\ step_to g (own tr x (k x)) x = par es x.
  Proof using.
    intros Dn Hx Hr. assert (Hxt := do_all _ _ _ _ _ Dn x Hx). destruct (bi_on _ _ _ _ _ _ _ _ (do_binv _ _ _ _ _ Dn) x Hxt Hr) as [H1 H2].
    rewrite after_count in H1. cbn in H1. split; [exact H1|].
    assert (G := bi_grown _ _ _ _ _ _ _ _ (do_binv _ _ _ _ _ Dn)). apply (gr_nodes _ _ _ _ _ G) in Hxt. destruct Hxt as [H|H]; [congruence|].
    apply in_map_iff in H. destruct H as ([p x'] & E & H). cbn in E. subst x'. rewrite (par_in root es p x (gr_rooted _ _ _ _ _ G) H).
    destruct (gr_next _ _ _ _ _ G p x H) as [H3 _]. unfold cur, tops in H2. congruence.
  Qed.
  Lemma done_none tr tree next k es x : done tr tree next k es -> x = root \/ ~ In x (g_nodes g) -> drawsat x tr = [].
  Proof using.
    intros Dn Hx. assert (B := do_binv _ _ _ _ _ Dn). destruct (bi_reach _ _ _ _ _ _ _ _ B) as (m & Hm).
    assert (E : after (fun _ => 0) tr x = k x).
    { apply (bi_off _ _ _ _ _ _ _ _ B). intros [H1 H2]. destruct Hx as [Hx|Hx]; [contradiction|]. apply Hx, (gr_in _ _ _ _ _ (bi_grown _ _ _ _ _ _ _ _ B)), H1. }
    assert (Z : k x = 0). { destruct Hx as [->|Hx]; [apply (pops_root _ _ _ _ _ _ Hm)|apply (pops_outside _ _ _ _ _ _ x Hx Hm)]. }
    rewrite after_count in E. cbn in E. destruct (drawsat x tr); [reflexivity|]. cbn in E. congruence.
  Qed.

  (** The exchange: [es'] is another tree with the same root. *)
  Lemma exchange tr tree next k es es' : done tr tree next k es -> rooted root es' ->
    (forall x, In x (nodes_of root es') <-> In x (g_nodes g)) -> (forall p c, In (p, c) es' -> adj g p c) ->
    exists tr' tree' next' k', start tr' tree' next' /\ done tr' tree' next' k' es' /\
      (forall x, List.length (drawsat x tr') = List.length (drawsat x tr)) /\
      (forall x, In x (g_nodes g) -> x <> root -> forall j, j < List.length (drawsat x tr) ->
         own tr' x j = if Nat.eqb (S j) (List.length (drawsat x tr)) then swap (par es' x) (neighbors g x) (own tr x j) else own tr x j).
  Proof using WF Nbr Hroot.
    intros Dn R' Hn' Ha'. set (W' := fun x j => if Nat.eqb j (k x) then swap (par es' x) (neighbors g x) (own tr x j) else own tr x j).
    assert (B := do_binv _ _ _ _ _ Dn). destruct (bi_reach _ _ _ _ _ _ _ _ B) as (m & Hm).
    assert (HK : reached g root W' k).
    { exists m. eapply pops_agree; [exact Hm|]. intros x j Hj. unfold tops, W'. replace (Nat.eqb j (k x)) with false; [reflexivity|]. symmetry. apply Nat.eqb_neq. lia. }
    assert (Cur : forall p c, In (p, c) es' -> cur (tops g W') k c = p).
    { intros p c H. unfold cur, tops, W', step_to. rewrite Nat.eqb_refl, (par_in root es' p c R' H), swap_choice; [reflexivity|]. apply In_neighbors. apply adj_sym. auto. }
    assert (Ac : acyclic root (g_nodes g) (cur (tops g W') k)).
    { apply rooted_acyclic with es'; auto. intros x Hx. now apply Hn'. }
    destruct (run_exists g WF Nbr root W' k HK Ac Hroot) as (tr' & tree' & next' & k' & es1 & G' & R1 & B' & Hall & Ek).
    assert (Len : forall x, List.length (drawsat x tr') = List.length (drawsat x tr)).
    { intro x. assert (A1 := after_count tr' (fun _ => 0) x). assert (A2 := after_count tr (fun _ => 0) x). cbn in A1, A2. rewrite <- A1, <- A2.
      destruct (In_dec_of x (g_nodes g)) as [Hx|Hx]; [destruct (eq_dec_of x root) as [->|Hr]|].
      - rewrite (bi_off _ _ _ _ _ _ _ _ B') by tauto. rewrite (bi_off _ _ _ _ _ _ _ _ B) by tauto. apply Ek.
      - destruct (bi_on _ _ _ _ _ _ _ _ B' x (Hall x Hx) Hr) as [-> _]. destruct (bi_on _ _ _ _ _ _ _ _ B x (do_all _ _ _ _ _ Dn x Hx) Hr) as [-> _]. now rewrite Ek.
      - assert (Gin := gr_in _ _ _ _ _ (bi_grown _ _ _ _ _ _ _ _ B)). assert (Gin' := gr_in _ _ _ _ _ (bi_grown _ _ _ _ _ _ _ _ B')).
        rewrite (bi_off _ _ _ _ _ _ _ _ B') by (intros [H _]; auto). rewrite (bi_off _ _ _ _ _ _ _ _ B) by (intros [H _]; auto). apply Ek. }
    destruct (start_done tr' tree' next' G') as (k2 & es2 & Dn2).
    assert (Own : forall x j, j < List.length (drawsat x tr) -> own tr' x j = W' x j).
    { intros x j Hj. unfold own. rewrite (reads_nth W' tr' _ R1 x j); [reflexivity|]. now rewrite Len. }
    assert (Same : forall p c, In (p, c) es1 <-> In (p, c) es').
    { assert (G1 := bi_grown _ _ _ _ _ _ _ _ B').
      assert (I1 : forall p c, In (p, c) es1 -> In (p, c) es').
      { intros p c H. destruct (parent_in root es1 p c (gr_rooted _ _ _ _ _ G1) H) as (_ & H2 & H3).
        assert (Hct : In c tree') by (apply (gr_nodes _ _ _ _ _ G1); now right).
        destruct (bi_on _ _ _ _ _ _ _ _ B' c Hct H3) as [_ H4]. destruct (gr_next _ _ _ _ _ G1 p c H) as [H5 _].
        assert (E : cur (tops g W') k c = p) by (rewrite H4 in H5; unfold cur in *; rewrite <- Ek; congruence).
        assert (Hcn : In c (nodes_of root es')) by (apply Hn', (gr_in _ _ _ _ _ G1), Hct). destruct Hcn as [Hcn|Hcn]; [congruence|].
        apply in_map_iff in Hcn. destruct Hcn as ([q c'] & Ec & Hq). cbn in Ec. subst c'. rewrite (Cur q c Hq) in E. now subst q. }
      intros p c. split; [apply I1|]. intro H. destruct (parent_in root es' p c R' H) as (_ & H2 & H3).
      assert (Hct : In c (nodes_of root es1)). { apply (gr_nodes _ _ _ _ _ G1), Hall, Hn'. now right. }
      destruct Hct as [Hct|Hct]; [congruence|]. apply in_map_iff in Hct. destruct Hct as ([q c'] & Ec & Hq). cbn in Ec. subst c'.
      assert (H' := I1 _ _ Hq). now rewrite <- (parent_unique root es' q p c R' H' H). }
    exists tr', tree', next', k. split; [exact G'|]. split; [|split; [exact Len|]].
    - constructor; [|exact Hall]. 
      assert (Bq : binv g root (own tr') tree' next' (after (fun _ => 0) tr') k2 es2) by apply Dn2.
      assert (K2 : forall x, k2 x = k x).
      { intro x. rewrite <- Ek. destruct (In_dec_of x tree') as [Hx|Hx]; [destruct (eq_dec_of x root) as [->|Hr]|].
        - rewrite <- (bi_off _ _ _ _ _ _ _ _ B') by tauto. rewrite <- (bi_off _ _ _ _ _ _ _ _ Bq) by tauto. reflexivity.
        - destruct (bi_on _ _ _ _ _ _ _ _ B' x Hx Hr) as [E1 _]. destruct (bi_on _ _ _ _ _ _ _ _ Bq x Hx Hr) as [E2 _]. congruence.
        - rewrite <- (bi_off _ _ _ _ _ _ _ _ B') by tauto. rewrite <- (bi_off _ _ _ _ _ _ _ _ Bq) by tauto. reflexivity. }
      assert (G2 := bi_grown _ _ _ _ _ _ _ _ Bq). assert (G1 := bi_grown _ _ _ _ _ _ _ _ B').
      constructor.
      + destruct (bi_reach _ _ _ _ _ _ _ _ Bq) as (j & Hj). exists j. clear -Hj K2. revert Hj. generalize (fun _ : N => 0). intros k0 Hj.
        induction Hj as [a b E|j a C b c Hp Hr IH]; [constructor; intro; now rewrite E|]. eapply pops_cons; eauto.
      + intros x Hx Hr. rewrite <- K2. unfold cur. rewrite <- K2. apply (bi_on _ _ _ _ _ _ _ _ Bq x Hx Hr).
      + intros x Hx. rewrite <- K2. apply (bi_off _ _ _ _ _ _ _ _ Bq x Hx).
      + constructor; try apply G1.
        * exact R'.
        * intro x. rewrite Hn'. split; [apply (gr_in _ _ _ _ _ G1)|apply Hall].
        * intros p c H. apply (gr_next _ _ _ _ _ G1). now apply Same.
    - intros x Hx Hr j Hj. rewrite (Own x j Hj). unfold W'. destruct (done_count _ _ _ _ _ x Dn Hx Hr) as [-> _].
      destruct (Nat.eqb_spec j (k x)), (Nat.eqb_spec (S j) (S (k x))); try lia; reflexivity.
  Qed.
End Exchange.
