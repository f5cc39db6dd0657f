(** Seed plans from recursive_seed_part (C59). *)
From Coq Require Import String List Bool Arith ZArith QArith Qabs Lqa Lia ZifyBool ZifyNat Permutation.
From Verif Require Import Base M_Graph M_Partition S_Partition L_Partition M_Machine S_Machine L_Sums
  S_Contiguity L_Search M_Election L_Order M_Proposals M_Tree S_Tree S_TreeCuts L_Tree L_TreeCuts L_Kruskal M_Recursive
  P_Partition P_Contiguity P_Tree P_Spanning P_Bipartition P_Prime P_Recursive.
Import ListNotations.
Local Open Scope nat_scope.
Local Open Scope list_scope.

(** The method returns a non-empty set and leaves a non-empty rest. *)
Definition proper {N} {EN : EqB N} (method : @method_fn N) : Prop :=
  forall i g t e os s, method i g t e os = Ok (Some s) -> s <> [] /\ exists n, outside g s n.

Section Sets.
  Context {N : Type} {EN : EqB N}.
  (** [sets] are disjoint and cover exactly [A]. *)
  Definition divides (A : N -> Prop) (sets : list (list N)) : Prop :=
    NoDup (concat sets) /\ forall n, In n (concat sets) <-> A n.

  Lemma NoDup_member (l : list N) cs : NoDup (concat cs) -> In l cs -> NoDup l.
  Proof.
    induction cs as [|a cs IH]; intros ND Hl; [destruct Hl|]. cbn [concat] in ND. apply NoDup_app_iff in ND. destruct Hl as [<-|Hl]; tauto.
  Qed.
  Lemma dvals_NoDup {K} {EK : EqB K} (d : dict K (list N)) : NoDup (dkeys d) ->
    (forall k s, dget d k = Some s -> NoDup s) ->
    (forall k k' s s' n, dget d k = Some s -> dget d k' = Some s' -> In n s -> In n s' -> k = k') ->
    NoDup (concat (dvals d)).
  Proof.
    induction d as [|[k s] d IH]; intros NDk Hn Hd; [constructor|]. unfold dvals, dkeys in *. cbn [map concat fst snd] in *.
    inversion NDk as [|? ? Nk NDk']; subst.
    assert (Hget : forall k', k' <> k -> dget ((k, s) :: d) k' = dget d k').
    { intros k' Ne. cbn [dget]. destruct (eqb_spec k' k); [contradiction|reflexivity]. }
    assert (Hk : dget ((k, s) :: d) k = Some s) by (cbn [dget]; now rewrite eqb_refl).
    assert (Hne : forall k' s', dget d k' = Some s' -> k' <> k).
    { intros k' s' E ->. apply dget_Some_key in E. contradiction. }
    apply NoDup_app_iff. split; [eapply Hn; eauto|]. split.
    - apply IH; auto.
      + intros k' s' E. apply (Hn k'). rewrite Hget; eauto.
      + intros k1 k2 s1 s2 n E1 E2. apply Hd; rewrite Hget; eauto.
    - intros n H1 H2. apply in_concat in H2. destruct H2 as (s' & H2 & H3). apply in_map_iff in H2. destruct H2 as ([k' s2] & E & H2). cbn in E. subst s2.
      assert (E : dget d k' = Some s') by (apply In_dget; auto).
      assert (k = k'); [|subst k'; eapply Hne; eauto]. eapply (Hd k k' s s' n); auto. rewrite Hget; eauto.
  Qed.
  Lemma level_sets_divide (f : dict N nat) : NoDup (dkeys f) ->
    divides (fun n => In n (dkeys f)) (dvals (level_sets f)) /\
    (forall s, In s (dvals (level_sets f)) -> exists i, NoDup s /\ forall n, In n s <-> dget f n = Some i) /\
    (forall c, (forall i, (exists n, dget f n = Some i) <-> i < c) -> List.length (dvals (level_sets f)) = c).
  Proof.
    intro ND. destruct (level_sets_spec f ND) as (K & L & S & E).
    assert (G : forall p s, dget (level_sets f) p = Some s -> forall n, In n s <-> dget f n = Some p).
    { intros p s H n. rewrite <- E. unfold dget_or. now rewrite H. }
    split; [split|split].
    - apply dvals_NoDup; auto.
      + intros p s H. now apply (S p s).
      + intros k k' s s' n H1 H2 I1 I2. apply (G _ _ H1) in I1. apply (G _ _ H2) in I2. congruence.
    - intro n. rewrite in_concat. split.
      + intros (s & H1 & H2). apply in_map_iff in H1. destruct H1 as ([k s'] & Es & H1). cbn in Es. subst s'.
        apply In_dget in H1; auto. apply (G _ _ H1) in H2. apply dget_In_keys. eauto.
      + intro H. apply dget_In_keys in H. destruct H as (p & H). assert (Hp : In p (dkeys (level_sets f))) by (apply L; eauto).
        apply dget_In_keys in Hp. destruct Hp as (s & Hs). exists s. split; [|now apply (G _ _ Hs)].
        apply in_map_iff. exists (p, s). split; auto. now apply dget_In.
    - intros s H. apply in_map_iff in H. destruct H as ([k s'] & Es & H). cbn in Es. subst s'. apply In_dget in H; auto.
      exists k. split; [now apply (S k s)|]. now apply G.
    - intros c H. unfold dvals. rewrite map_length. transitivity (List.length (dkeys (level_sets f))); [unfold dkeys; now rewrite map_length|].
      rewrite <- (seq_length c 0). apply Permutation_length, NoDup_Permutation; auto; [apply seq_NoDup|].
      intro i. rewrite L, H, in_seq. lia.
  Qed.
End Sets.

Section Seed.
  Context {N : Type} {EN : EqB N}.
  Variables (method : @method_fn N) (pop : dict N Z) (t e : Q).
  Hypothesis Hin : inside method.
  Hypothesis Hprop : proper method.
  (** The assumptions for balance. *)
  Definition exact_method : Prop := tolerant pop method /\ (0 < t)%Q /\ (0 <= e)%Q.

  Section Chunks.
    Variable g : graph N.
    Hypothesis Hwf : wf_graph g.
    Hypothesis Hkeys : incl (g_nodes g) (dkeys pop).
    Variables (tt ee : Q) (last : nat).
    Definition chunk_ok (A : N -> Prop) : Prop :=
      (exact_method -> balanced_set (popn pop) tt ee A) /\ (splits_connected method -> connected_on g A).
    Record cinv (part : nat) (remaining : list N) (f : dict N nat) : Prop := {
      ci_nodup : NoDup remaining;
      ci_incl : incl remaining (g_nodes g);
      ci_dict : NoDup (dkeys f);
      ci_start : part = 0 -> f = [] /\ incl (g_nodes g) remaining;
      ci_conn : 0 < part -> splits_connected method -> connected_on g (fun n => In n remaining);
      ci_nodes : 0 < part -> remaining <> [] /\ forall n, In n (dkeys f) <-> In n (g_nodes g);
      ci_rest : forall n i, dget f n = Some i -> In n remaining -> i = last;
      ci_done : forall n i, dget f n = Some i -> ~ In n remaining -> i < part;
      ci_chunks : forall i, i < part -> (exists n, dget f n = Some i) /\ chunk_ok (fun n => dget f n = Some i)
    }.
    Lemma paint_painted nodes p (f : dict N nat) : paint nodes p f = painted p nodes f.
    Proof. reflexivity. Qed.
    Lemma chunk_off_spec todo : forall k part remaining f k' rem' f', part + todo = last -> cinv part remaining f ->
      chunk_off method todo k g part last tt ee remaining f = Ok (k', rem', f') -> cinv last rem' f'.
    Proof.
      induction todo as [|todo IH]; intros k part remaining f k' rem' f' Hl C H; cbn [chunk_off] in H.
      - injection H as _ <- <-. replace last with part by lia. exact C.
      - destruct (method k (subgraph g remaining) tt ee true) as [[s|]| |] eqn:Em; try discriminate. cbn [bind] in H.
        rewrite !paint_painted in H. eapply IH; [|clear H|exact H]; [lia|].
        assert (Inc : incl (set_of s) remaining).
        { intros n Hn. rewrite Base.In_set_of in Hn. apply (Hin _ _ _ _ _ _ Em) in Hn. apply subgraph_nodes in Hn. tauto. }
        destruct (Hprop _ _ _ _ _ _ Em) as [NE (m & Hm & Nm)]. apply subgraph_nodes in Hm.
        set (rest := sdiff remaining (set_of s)). set (f1 := painted last rest (painted part (set_of s) f)).
        assert (Get : forall n, dget f1 n = if mem n rest then Some last else if mem n (set_of s) then Some part else dget f n).
        { intro n. unfold f1. rewrite dget_painted. destruct (mem n rest); auto. apply dget_painted. }
        assert (Rest : forall n, In n rest <-> In n remaining /\ ~ In n (set_of s)) by (intro n; apply In_sdiff).
        assert (Old : forall n i, dget f1 n = Some i -> ~ In n remaining -> dget f n = Some i).
        { intros n i Hi Hn. rewrite Get in Hi. destruct (mem n rest) eqn:E1; [apply mem_In, Rest in E1; tauto|].
          destruct (mem n (set_of s)) eqn:E2; [apply mem_In, Inc in E2; tauto|exact Hi]. }
        constructor.
        + apply NoDup_sdiff. apply C.
        + intros n Hn. apply Rest in Hn. now apply (ci_incl _ _ _ C).
        + unfold f1. apply painted_nodup, painted_nodup. apply C.
        + lia.
        + intros _ Sp. destruct (Sp _ _ _ _ _ _ (wf_subgraph g remaining Hwf) Em) as [_ C1]. eapply connected_sub. eapply connected_on_ext; [|exact C1].
          intro n. unfold outside. rewrite subgraph_nodes, Rest, Base.In_set_of. split; [tauto|]. intros [H1 H2]. split; [|exact H2]. split; [|exact H1]. now apply (ci_incl _ _ _ C).
        + intros _. split.
          * intro X. assert (Hr : In m rest) by (apply Rest; rewrite Base.In_set_of; tauto). rewrite X in Hr. destruct Hr.
          * intro n. unfold f1. rewrite !keys_painted, Rest. destruct part as [|part].
            -- destruct (ci_start _ _ _ C eq_refl) as [-> Hs]. cbn [dkeys map In]. split.
               ++ intros [[Hn _]|[Hn|[]]]; apply (ci_incl _ _ _ C); auto.
               ++ intro Hn. destruct (In_dec_of n (set_of s)); auto.
            -- destruct (ci_nodes _ _ _ C ltac:(lia)) as [_ Hk]. rewrite Hk. split; auto. intros [[Hn _]|[Hn|Hn]]; auto; apply (ci_incl _ _ _ C); auto.
        + intros n i Hi Hn. rewrite Get, (proj2 (mem_In n rest) Hn) in Hi. congruence.
        + intros n i Hi Hn. destruct (In_dec_of n remaining) as [Hr|Hr].
          * assert (Hs : In n (set_of s)) by (destruct (In_dec_of n (set_of s)); auto; elim Hn; apply Rest; auto).
            rewrite Get, (proj2 (mem_notIn n rest) Hn), (proj2 (mem_In n _) Hs) in Hi. injection Hi as <-. lia.
          * assert (X := ci_done _ _ _ C n i (Old n i Hi Hr) Hr). lia.
        + intros i Hi. destruct (Nat.eq_dec i part) as [->|Ne].
          * assert (Eq : forall n, dget f1 n = Some part <-> In n (set_of s)).
            { intro n. rewrite Get. destruct (mem n rest) eqn:E1.
              - apply mem_In, Rest in E1. split; [intro X; injection X as X; lia|tauto].
              - destruct (mem n (set_of s)) eqn:E2; [apply mem_In in E2; tauto|]. apply mem_notIn in E1, E2.
                split; [|tauto]. intro X. exfalso. destruct (In_dec_of n remaining) as [Hr|Hr]; [apply E1, Rest; auto|].
                assert (Y := ci_done _ _ _ C n part X Hr). lia. }
            split.
            -- destruct s as [|n s]; [congruence|]. exists n. apply Eq, Base.In_set_of. now left.
            -- split; [|intro Sp; destruct (Sp _ _ _ _ _ _ (wf_subgraph g remaining Hwf) Em) as [C1 _]; eapply connected_sub; eapply connected_on_ext; [|exact C1]; intro n; rewrite Eq; symmetry; apply Base.In_set_of].
               intros (Tol & _). destruct (Tol _ _ _ _ _ _ (wf_subgraph g remaining Hwf) ltac:(intros n Hn; apply Hkeys; apply subgraph_nodes in Hn; tauto) Em) as [B _].
               eapply balanced_set_ext; [|exact B]. intro n. rewrite Eq. symmetry. apply Base.In_set_of.
          * assert (Hi' : i < part) by lia. destruct (ci_chunks _ _ _ C i Hi') as [(n & Hn) [Ck Ck2]].
            assert (Eq : forall n, dget f1 n = Some i <-> dget f n = Some i).
            { intro n'. split; intro X.
              - destruct (In_dec_of n' remaining) as [Hr|Hr]; [|now apply Old]. exfalso. rewrite Get in X.
                destruct (mem n' rest) eqn:E1; [injection X as X; lia|]. destruct (mem n' (set_of s)) eqn:E2; [injection X as X; lia|].
                apply mem_notIn in E1, E2. apply E1, Rest. auto.
              - assert (Nr : ~ In n' remaining).
                { intro Hr. assert (Y := ci_rest _ _ _ C n' i X Hr). lia. }
                rewrite Get, (proj2 (mem_notIn n' rest)), (proj2 (mem_notIn n' (set_of s))); auto. intro Y. apply Rest in Y. tauto. }
            split; [exists n; now apply Eq|]. split; [|intro Sp; eapply connected_on_ext; [|exact (Ck2 Sp)]; intro n'; symmetry; apply Eq]. intro Ex. eapply balanced_set_ext; [|exact (Ck Ex)]. intro n'. symmetry. apply Eq.
    Qed.
    Lemma cinv_start : cinv 0 (g_nodes g) [].
    Proof.
      constructor; try (apply incl_refl || apply (wfg_nodes g Hwf) || lia).
      - constructor.
      - intros _. split; [reflexivity|apply incl_refl].
      - intros n i H. discriminate.
      - intros n i H. discriminate.
    Qed.
  End Chunks.

  Lemma pop_sum_ok l : incl l (dkeys pop) -> pop_sum pop l = Ok (psum pop l).
  Proof. intro I. unfold pop_sum. rewrite total_ok by exact I. f_equal. Qed.

  Lemma chunk_loop_spec (g : graph N) c left chunk_pop : wf_graph g -> incl (g_nodes g) (dkeys pop) -> 2 <= c ->
    forall fuel k new_eps k' f, (0 <= new_eps)%Q /\ (new_eps <= e)%Q \/ ~ (exact_method /\ left = 1) ->
    chunk_loop method pop fuel k g c left chunk_pop t e new_eps = Ok (k', f) ->
    NoDup (dkeys f) /\ (forall n, In n (dkeys f) <-> In n (g_nodes g)) /\ (forall i, (exists n, dget f n = Some i) <-> i < c) /\
    (exact_method -> left = 1 -> forall i, i < c -> balanced_set (popn pop) t e (fun n => dget f n = Some i)) /\
    (splits_connected method -> forall i, i < c -> connected_on g (fun n => dget f n = Some i)).
  Proof.
    intros WF Hk Hc. induction fuel as [|fuel IH]; intros k new_eps k' f Hn H; cbn [chunk_loop] in H; [discriminate|].
    set (tt := (inject_Z chunk_pop / Qn c)%Q) in *. unfold qdiv at 1 in H. destruct (Qeq_bool (Qn c) 0); try discriminate. cbn [bind] in H. fold tt in H.
    unfold qdiv at 1 in H. destruct (Qeq_bool tt 0) eqn:Ett; try discriminate. cbn [bind] in H.
    set (hi := (t * (1 + new_eps) * Qn left)%Q) in *. set (lo := (t * (1 - new_eps) * Qn left)%Q) in *.
    set (ee := (qmin (hi - tt) (tt - lo) / tt)%Q) in *.
    destruct (chunk_off _ _ _ _ _ _ _ _ _ _) as [[[k1 rem] f1]| |] eqn:Eo; try discriminate. cbn [bind] in H.
    assert (C : cinv g tt ee (c - 1) (c - 1) rem f1).
    { eapply (chunk_off_spec g WF Hk); [|apply cinv_start; exact WF|exact Eo]. lia. }
    destruct (ci_nodes _ _ _ _ _ _ _ C ltac:(lia)) as [Rne Keys].
    assert (Ir := ci_incl _ _ _ _ _ _ _ C).
    rewrite pop_sum_ok in H by (intros n Hn'; apply Hk; now apply Ir). cbn [bind] in H.
    unfold qdiv in H. destruct (Qeq_bool (Qn left) 0) eqn:El; try discriminate. cbn [bind] in H.
    destruct (_ || _) eqn:Echk.
    - eapply IH; [|exact H]. destruct Hn as [[Hn1 Hn2]|Hn]; [left|right; exact Hn].
      assert (X : (new_eps / 2 == new_eps * (1 # 2))%Q) by field. rewrite X. split; lra.
    - injection H as _ <-. split; [apply C|]. split; [exact Keys|].
      assert (Lab : forall n i, dget f1 n = Some i -> (In n rem /\ i = c - 1) \/ (~ In n rem /\ i < c - 1)).
      { intros n i Hi. destruct (In_dec_of n rem) as [Hr|Hr]; [left|right]; split; auto.
        - eapply (ci_rest _ _ _ _ _ _ _ C); eauto.
        - eapply (ci_done _ _ _ _ _ _ _ C); eauto. }
      assert (Rl : forall n, In n rem <-> dget f1 n = Some (c - 1)).
      { intro n. split; intro Hr.
        - assert (Hkn : In n (dkeys f1)) by (apply Keys; auto). apply dget_In_keys in Hkn. destruct Hkn as (i & Hi).
          destruct (Lab n i Hi) as [[_ ->]|[X _]]; [exact Hi|contradiction].
        - destruct (Lab n _ Hr) as [[X _]|[_ X]]; [exact X|lia]. }
      split.
      + intro i. split.
        * intros (n & Hi). destruct (Lab n i Hi) as [[_ ->]|[_ X]]; lia.
        * intro Hi. destruct (Nat.eq_dec i (c - 1)) as [->|Ne].
          -- destruct rem as [|n rem]; [congruence|]. exists n. apply Rl. now left.
          -- apply (ci_chunks _ _ _ _ _ _ _ C i). lia.
      + split; [|intros Sp i Hi; destruct (Nat.eq_dec i (c - 1)) as [->|Ne];
          [eapply connected_on_ext; [exact Rl|]; apply (ci_conn _ _ _ _ _ _ _ C); [lia|exact Sp]|apply (ci_chunks _ _ _ _ _ _ _ C i); [lia|exact Sp]]].
        intros Ex Hl i Hi. destruct Hn as [[Hn1 Hn2]|Hn]; [|tauto]. assert (Ex' := Ex). destruct Ex' as (_ & Ht & He0).
        assert (Ql : (Qn left == 1)%Q) by (rewrite Hl; reflexivity).
        destruct (Nat.eq_dec i (c - 1)) as [->|Ne].
        * exists (psum pop rem). split; [eapply sums_to_ext; [exact Rl|]; apply sums_list; apply C|].
          rewrite Hl in Echk. cbn [Nat.eqb] in Echk. apply orb_false_iff in Echk. destruct Echk as [E1 E2].
          set (ad := (inject_Z (psum pop rem) / Qn 1)%Q) in *. assert (Ead : (ad == inject_Z (psum pop rem))%Q) by (unfold ad, Qn; cbn [Z.of_nat Pos.of_succ_nat]; field).
          assert (Ea : (Qabs e == e)%Q) by (apply Qabs_pos; exact He0).
          assert (F1 : (t * (1 - Qabs e) <= ad)%Q) by (apply Qnot_lt_le; intro X; apply qlt_spec in X; congruence).
          assert (F2 : (ad <= t * (1 + Qabs e))%Q) by (apply Qnot_lt_le; intro X; apply qlt_spec in X; congruence).
          rewrite Ea in F1, F2. unfold balanced. apply Qabs_Qle_condition. split; lra.
        * destruct (ci_chunks _ _ _ _ _ _ _ C i ltac:(lia)) as [_ [B _]]. destruct (B Ex) as (x & S & Bx). exists x. split; auto.
          unfold balanced in *. assert (Ntt : ~ (tt == 0)%Q) by (intro X; apply Qeq_bool_iff in X; congruence).
          assert (Eee : (tt * ee == qmin (hi - tt) (tt - lo))%Q) by (unfold ee; field; exact Ntt).
          assert (Q1 : (qmin (hi - tt) (tt - lo) <= hi - tt)%Q /\ (qmin (hi - tt) (tt - lo) <= tt - lo)%Q).
          { unfold qmin. destruct (Qle_bool (hi - tt) (tt - lo)) eqn:Eq.
            - apply Qle_bool_iff in Eq. split; [apply Qle_refl|exact Eq].
            - split; [|apply Qle_refl]. apply Qlt_le_weak, Qnot_le_lt. intro X. apply Qle_bool_iff in X. congruence. }
          apply Qabs_Qle_condition in Bx. destruct Bx as [B1 B2].
          assert (Hhi : (hi == t + t * new_eps)%Q) by (unfold hi; rewrite Ql; ring).
          assert (Hlo : (lo == t - t * new_eps)%Q) by (unfold lo; rewrite Ql; ring).
          assert (Hte : (t * new_eps <= t * e)%Q) by nra.
          apply Qabs_Qle_condition. split; lra.
  Qed.

  Lemma chunks_spec fuel k (g : graph N) c nd k' chunks : wf_graph g -> incl (g_nodes g) (dkeys pop) -> 2 <= c ->
    get_seed_chunks method pop fuel k g c nd t e = Ok (k', chunks) ->
    divides (fun n => In n (g_nodes g)) chunks /\ List.length chunks = c /\ (forall s, In s chunks -> s <> []) /\
    (exact_method -> nd / c = 1 -> forall s, In s chunks -> balanced t e (psum pop s)) /\
    (splits_connected method -> forall s, In s chunks -> connected_on g (fun n => In n s)).
  Proof.
    intros WF Hk Hc H. unfold get_seed_chunks in H. destruct (Nat.eqb c 0); try discriminate.
    set (left := nd / c) in *. unfold qdiv in H. destruct (Qeq_bool _ 0); try discriminate. cbn [bind] in H.
    rewrite pop_sum_ok in H by exact Hk. cbn [bind] in H.
    destruct (chunk_loop _ _ _ _ _ _ _ _ _ _ _) as [[k1 f]| |] eqn:E; try discriminate. cbn [bind fst snd] in H. injection H as _ <-.
    assert (Hn : (0 <= (if Nat.eqb left 1 then e else e / Qn (left * c)))%Q /\ ((if Nat.eqb left 1 then e else e / Qn (left * c)) <= e)%Q \/ ~ (exact_method /\ left = 1)).
    { destruct (Nat.eqb_spec left 1) as [El|El]; [|right; tauto]. destruct (Qlt_le_dec e 0) as [X|X].
      - right. intros [(_ & _ & Y) _]. lra.
      - left. split; lra. }
    destruct (chunk_loop_spec g c left _ WF Hk Hc _ _ _ _ _ Hn E) as (ND & Keys & Lab & Bal & Con).
    destruct (level_sets_divide f ND) as ([D1 D2] & D3 & D4). split; [split; [exact D1|intro n; now rewrite D2]|]. split; [now apply D4|].
    assert (Ne : forall s, In s (dvals (level_sets f)) -> s <> []).
    { intros s Hs X. subst s. destruct (level_sets_spec f ND) as (K & _ & S & _). apply in_map_iff in Hs. destruct Hs as ([q s'] & Es & Hs). cbn in Es. subst s'.
      apply In_dget in Hs; auto. destruct (S _ _ Hs). congruence. }
    split; [exact Ne|]. split; [|intros Sp s Hs; destruct (D3 s Hs) as (i & NDs & Hi); assert (Ns := Ne s Hs);
      eapply connected_on_ext; [intro m; symmetry; apply Hi|]; apply Con; [exact Sp|apply Lab; destruct s as [|m s]; [congruence|exists m; apply Hi; now left]]].
    intros Ex Hl s Hs. destruct (D3 s Hs) as (i & NDs & Hi).
    apply balanced_psum; auto. destruct (Nat.ltb_spec i c) as [Hic|Hic].
    - eapply balanced_set_ext; [|exact (Bal Ex Hl i Hic)]. intro n. symmetry. apply Hi.
    - exfalso. assert (Hs' := Ne s Hs).
      destruct s as [|n s]; [congruence|]. assert (X : i < c) by (apply Lab; exists n; apply Hi; now left). lia.
  Qed.

  Lemma choose_chunks_spec nd n ceil c : 1 <= nd -> choose_chunks nd n ceil = Ok (Some c) -> 2 <= c.
  Proof.
    unfold choose_chunks. intros Hnd H. assert (X : forall cl, get_max_prime_factor_less_than nd cl = Ok (Some c) -> 2 <= c).
    { intros cl E. destruct (C58_largest_prime_factor nd cl Hnd) as (r & Er & Hr & _). assert (HH : largest_factor nd cl c) by (apply Hr; congruence). destruct HH as [[[HH _] _] _]. exact HH. }
    destruct n as [m|].
    - destruct (Nat.ltb_spec 1 m); try discriminate. injection H as <-. lia.
    - destruct ceil as [cl|]; [|eauto]. destruct (Nat.leb 2 cl); try discriminate. eauto.
  Qed.
  Lemma set_of_id (l : list N) : NoDup l -> forall n, In n (set_of l) <-> In n l.
  Proof. intros _ n. apply Base.In_set_of. Qed.

  Lemma inner_spec n ceil fuel : forall k (g : graph N) nd k' sets, wf_graph g -> incl (g_nodes g) (dkeys pop) -> 1 <= nd ->
    recursive_seed_part_inner method pop fuel k g nd t e n ceil = Ok (k', sets) ->
    divides (fun n => In n (g_nodes g)) sets /\ List.length sets = nd /\ (g_nodes g <> [] -> forall s, In s sets -> s <> []) /\
    (nd = 1 -> forall s, In s sets -> forall n, In n s <-> In n (g_nodes g)) /\
    (exact_method -> 2 <= nd -> forall s, In s sets -> balanced t e (psum pop s)) /\
    (splits_connected method -> 2 <= nd -> forall s, In s sets -> connected_on g (fun n => In n s)).
  Proof.
    induction fuel as [|fuel IH]; intros k g nd k' sets WF Hk Hnd H; cbn [recursive_seed_part_inner] in H; [discriminate|].
    destruct (choose_chunks nd n ceil) as [nc| |] eqn:Ec; try discriminate. cbn [bind] in H.
    destruct (Nat.eqb_spec nd 1) as [E1|E1].
    { injection H as _ <-. split; [split|split; [|split; [|split]]].
      - cbn [concat]. rewrite app_nil_r. apply NoDup_set_of.
      - intro m. cbn [concat]. rewrite app_nil_r. apply Base.In_set_of.
      - cbn. lia.
      - intros Gn s [<-|[]] X. destruct (g_nodes g) as [|a l] eqn:Eg; [congruence|]. assert (Y : In a (set_of (a :: l))) by (apply Base.In_set_of; now left). rewrite X in Y. destruct Y.
      - intros _ s [<-|[]] m. apply Base.In_set_of.
      - split; lia. }
    destruct (Nat.eqb_spec nd 2) as [E2|E2].
    { destruct (method k g t e false) as [[s|]| |] eqn:Em; try discriminate. cbn [bind] in H. injection H as _ <-.
      assert (Inc : incl (set_of s) (g_nodes g)) by (intros m Hm; rewrite Base.In_set_of in Hm; apply (Hin _ _ _ _ _ _ Em); exact Hm).
      assert (NDr : NoDup (sdiff (set_of (g_nodes g)) (set_of s))) by (apply NoDup_sdiff, NoDup_set_of).
      split; [split|split; [|split; [|split]]].
      - cbn [concat]. rewrite app_nil_r. apply NoDup_app_iff. split; [apply NoDup_set_of|]. split; [exact NDr|].
        intros m H1 H2. apply In_sdiff in H2. tauto.
      - intro m. cbn [concat]. rewrite app_nil_r, in_app_iff, In_sdiff, (Base.In_set_of m (g_nodes g)). destruct (In_dec_of m (set_of s)) as [X|X]; [|tauto].
        split; auto.
      - cbn. lia.
      - intros _ s' Hs' X. subst s'. destruct (Hprop _ _ _ _ _ _ Em) as [Ns (m & Hm & Nm)]. destruct Hs' as [X|[X|[]]].
        + destruct s as [|a s]; [congruence|]. assert (Y : In a (set_of (a :: s))) by (apply Base.In_set_of; now left). rewrite X in Y. destruct Y.
        + assert (Y : In m (sdiff (set_of (g_nodes g)) (set_of s))) by (apply In_sdiff; rewrite !Base.In_set_of; auto). rewrite X in Y. destruct Y.
      - lia.
      - split; [|intros Sp _ s' Hs'; destruct (Sp _ _ _ _ _ _ WF Em) as [C1 C2]; destruct Hs' as [<-|[<-|[]]];
          [eapply connected_on_ext; [|exact C1]; intro m; symmetry; apply Base.In_set_of
          |eapply connected_on_ext; [|exact C2]; intro m; unfold outside; rewrite In_sdiff, !Base.In_set_of; tauto]].
        intros (Tol & _) _ s' Hs'. destruct (Tol _ _ _ _ _ _ WF Hk Em) as [B1 B2]. specialize (B2 eq_refl). destruct Hs' as [<-|[<-|[]]].
        + apply balanced_psum; [apply NoDup_set_of|]. eapply balanced_set_ext; [|exact B1]. intro m. symmetry. apply Base.In_set_of.
        + apply balanced_psum; [exact NDr|]. eapply balanced_set_ext; [|exact B2]. intro m. unfold outside. rewrite In_sdiff, !Base.In_set_of. tauto. }
    destruct (match nc with None => true | Some c => negb (Nat.eqb (nd mod c) 0) end) eqn:Eb.
    { set (rem := set_of (g_nodes g)) in *. destruct (method k (subgraph g rem) t e true) as [[s|]| |] eqn:Em; try discriminate. cbn [bind] in H.
      destruct (recursive_seed_part_inner _ _ _ _ _ _ _ _ _ _) as [[k2 rest]| |] eqn:Er; try discriminate. cbn [bind fst snd] in H. injection H as _ <-.
      assert (Inc : incl (set_of s) (g_nodes g)).
      { intros m Hm. rewrite Base.In_set_of in Hm. apply (Hin _ _ _ _ _ _ Em) in Hm. apply subgraph_nodes in Hm. tauto. }
      assert (Hrem : forall m, In m rem <-> In m (g_nodes g)) by (intro m; apply Base.In_set_of).
      assert (Sub : forall m, In m (g_nodes (subgraph g (sdiff rem (set_of s)))) <-> In m (g_nodes g) /\ ~ In m (set_of s)).
      { intro m. rewrite subgraph_nodes, In_sdiff, Hrem. tauto. }
      assert (Hnd' : 1 <= nd - 1) by lia.
      destruct (IH _ _ _ _ _ (wf_subgraph g _ WF) ltac:(intros m Hm; apply Sub in Hm; now apply Hk) Hnd' Er) as ([D1 D2] & L & Nn & _ & B & Con).
      split; [split|split; [|split; [|split]]].
      - cbn [concat]. apply NoDup_app_iff. split; [apply NoDup_set_of|]. split; [exact D1|]. intros m H1 H2. apply D2, Sub in H2. tauto.
      - intro m. cbn [concat]. rewrite in_app_iff, D2, Sub. destruct (In_dec_of m (set_of s)) as [X|X]; [|tauto]. split; auto.
      - cbn [List.length]. lia.
      - intros _ s' [Hs'|Hs'] X.
        + subst s'. destruct (Hprop _ _ _ _ _ _ Em) as [Ns _]. destruct s as [|a s]; [congruence|]. assert (Y : In a (set_of (a :: s))) by (apply Base.In_set_of; now left). rewrite X in Y. destruct Y.
        + revert X. apply Nn; auto. intro X. destruct (Hprop _ _ _ _ _ _ Em) as [_ (m & Hm & Nm)]. apply subgraph_nodes in Hm. apply in_nil with (a := m). rewrite <- X. apply Sub. rewrite Base.In_set_of. tauto.
      - lia.
      - split; [|intros Sp _ s' [<-|Hs']; [|eapply connected_sub; apply Con; auto; lia];
          destruct (Sp _ _ _ _ _ _ (wf_subgraph g rem WF) Em) as [C1 _]; eapply connected_sub; eapply connected_on_ext; [|exact C1]; intro m; symmetry; apply Base.In_set_of].
        intros Ex _ s' [<-|Hs']; [|apply B; auto; lia]. destruct Ex as (Tol & _).
        destruct (Tol _ _ _ _ _ _ (wf_subgraph g rem WF) ltac:(intros m Hm; apply subgraph_nodes in Hm; apply Hk; tauto) Em) as [B1 _].
        apply balanced_psum; [apply NoDup_set_of|]. eapply balanced_set_ext; [|exact B1]. intro m. symmetry. apply Base.In_set_of. }
    destruct nc as [c|]; [|discriminate]. apply negb_false_iff, Nat.eqb_eq in Eb.
    assert (Hc := choose_chunks_spec nd n ceil c Hnd Ec).
    destruct (get_seed_chunks _ _ _ _ _ _ _ _ _) as [[k2 chunks]| |] eqn:Eg; try discriminate. cbn [bind fst snd] in H.
    destruct (chunks_spec fuel k g c nd k2 chunks WF Hk Hc Eg) as ([D1 D2] & L & Nc & B & Con).
    assert (Hdiv : nd = c * (nd / c)) by (apply Nat.div_exact; lia).
    assert (Hq : 1 <= nd / c) by (destruct (nd / c); lia).
    (* the loop over the chunks *)
    assert (Loop : forall (cs : list (list N)) acc r, (forall s, In s cs -> s <> []) -> NoDup (concat (snd acc) ++ concat cs) -> incl (concat cs) (g_nodes g) ->
      foldM (fun acc chunk => r <- recursive_seed_part_inner method pop fuel (fst acc) (subgraph g chunk) (nd / c) t e n ceil ;; Ok (fst r, snd acc ++ snd r)) cs acc = Ok r ->
      NoDup (concat (snd r)) /\ (forall m, In m (concat (snd r)) <-> In m (concat (snd acc)) \/ In m (concat cs)) /\
      List.length (snd r) = List.length (snd acc) + List.length cs * (nd / c) /\
      (forall s, In s (snd r) -> In s (snd acc) \/ s <> [] /\ ((exact_method -> 2 <= nd / c -> balanced t e (psum pop s)) /\ (splits_connected method -> 2 <= nd / c -> connected_on g (fun n => In n s)) /\
        (nd / c = 1 -> exists chunk, In chunk cs /\ forall m, In m s <-> In m chunk)))).
    { clear H. induction cs as [|chunk cs IHc]; intros acc r Nec ND Inc Hr; cbn [foldM] in Hr.
      - injection Hr as <-. cbn [concat List.length]. rewrite app_nil_r in ND. split; auto. split; [intro m; cbn; tauto|]. split; [lia|auto].
      - destruct (recursive_seed_part_inner _ _ _ _ _ _ _ _ _ _) as [[k3 sets3]| |] eqn:Er; try discriminate. cbn [bind fst snd] in Hr.
        cbn [concat] in ND, Inc.
        assert (Ic : incl chunk (g_nodes g)) by (intros m Hm; apply Inc, in_app_iff; auto).
        assert (Sub : forall m, In m (g_nodes (subgraph g chunk)) <-> In m chunk) by now apply sub_nodes.
        destruct (IH _ _ _ _ _ (wf_subgraph g chunk WF) ltac:(intros m Hm; apply Hk, Ic; now apply Sub) Hq Er) as ([E3 E4] & L3 & N3 & B31 & B32 & B33).
        apply IHc in Hr; clear IHc.
        + cbn [fst snd] in Hr. destruct Hr as (R1 & R2 & R3 & R4). split; auto. split.
          * intro m. rewrite R2. rewrite concat_app, in_app_iff, E4, Sub. cbn [concat]. rewrite in_app_iff. tauto.
          * split; [rewrite R3, app_length; cbn [List.length]; lia|]. intros s Hs. apply R4 in Hs. destruct Hs as [Hs|Hs].
            -- apply in_app_iff in Hs. destruct Hs as [Hs|Hs]; [auto|]. right. split.
               { apply N3; auto. intro X. apply (Nec chunk); [now left|]. destruct chunk as [|a l]; auto. exfalso. apply in_nil with (a := a). rewrite <- X. apply Sub. now left. }
               split; [intros Ex H2; now apply B32|]. split; [intros Sp H2; eapply connected_sub; now apply B33|].
               intro H1. exists chunk. split; [now left|]. intro m. rewrite (B31 H1 s Hs m). apply Sub.
            -- right. destruct Hs as [Hs0 Hs]. split; auto. destruct Hs as (H1 & H1' & H2). split; auto. split; auto. intro H3. destruct (H2 H3) as (ch & Hch & Hm). exists ch. split; [now right|auto].
        + intros s Hs. apply Nec. now right.
        + cbn [snd]. rewrite concat_app. rewrite app_assoc in ND. apply NoDup_app_iff in ND. destruct ND as (N1 & N2 & N4).
          apply NoDup_app_iff in N1. destruct N1 as (N11 & N12 & N13). apply NoDup_app_iff. split; [|split; auto].
          * apply NoDup_app_iff. split; auto. split; auto. intros m H1 H2. apply E4, Sub in H2. eapply N13; eauto.
          * intros m H1 H2. apply (N4 m); auto. apply in_app_iff. apply in_app_iff in H1. destruct H1 as [H1|H1]; auto. right. now apply Sub, E4.
        + intros m Hm. apply Inc, in_app_iff. auto. }
    apply Loop in H; [|exact Nc|cbn [snd concat app]; exact D1|intros m Hm; now apply D2]. cbn [snd concat List.length] in H. destruct H as (R1 & R2 & R3 & R4).
    split; [split; [exact R1|]|split; [|split; [|split]]].
    - intro m. rewrite R2, D2. cbn. tauto.
    - rewrite R3, L. cbn. lia.
    - intros _ s Hs. destruct (R4 s Hs) as [[]|[X _]]. exact X.
    - lia.
    - split; [|intros Sp _ s Hs; destruct (R4 s Hs) as [[]|[_ (_ & H1 & H2)]]; destruct (Nat.eq_dec (nd / c) 1) as [X|X]; [|apply H1; auto; lia];
        destruct (H2 X) as (ch & Hch & Hm); eapply connected_on_ext; [intro m; symmetry; apply Hm|]; now apply Con].
      intros Ex _ s Hs. destruct (R4 s Hs) as [[]|[_ (H1 & _ & H2)]]. destruct (Nat.eq_dec (nd / c) 1) as [X|X]; [|apply H1; auto; lia].
      destruct (H2 X) as (ch & Hch & Hm). assert (Bc := B Ex X ch Hch). assert (Es : psum pop s = psum pop ch).
      { unfold psum. apply vsum_same; [exact (NoDup_member _ _ R1 Hs)|exact (NoDup_member _ _ D1 Hch)|exact Hm]. }
      now rewrite Es.
  Qed.
End Seed.

(** ** The labels *)
Section Labels.
  Context {N P : Type} {EN : EqB N} {EP : EqB P}.
  Lemma label_one (parts : list P) i (s : list N) : forall f f',
    foldM (fun f node => p <- of_option IndexError (nth_error parts i) ;; Ok (dset f node p)) s f = Ok f' ->
    (NoDup (dkeys f) -> NoDup (dkeys f')) /\ (forall n, In n (dkeys f') <-> In n s \/ In n (dkeys f)) /\
    (forall n, In n s -> dget f' n = nth_error parts i) /\ (forall n, ~ In n s -> dget f' n = dget f n).
  Proof.
    induction s as [|a s IH]; intros f f' H; cbn [foldM] in H.
    - injection H as <-. split; auto. split; [intro; cbn; tauto|]. split; [intros n []|auto].
    - destruct (nth_error parts i) as [p|] eqn:Ep; try discriminate. cbn [of_option bind] in H.
      destruct (IH _ _ H) as (A & B & C & D). clear IH H.
      split; [intro X; apply A; now apply NoDup_dset|]. split; [|split].
      + intro n. rewrite B, In_dkeys_dset. cbn [In]. split; [intros [X|[X|X]]|intros [[X|X]|X]]; auto.
      + intros n [<-|X]; [|now rewrite C]. destruct (In_dec_of a s) as [Y|Y]; [now rewrite C|]. rewrite D by exact Y. apply dget_dset_eq.
      + intros n X. rewrite D by (intro; apply X; now right). apply dget_dset_neq. intro; apply X; left; congruence.
  Qed.
  Lemma label_sets_spec (parts : list P) (sets : list (list N)) : forall i f f', NoDup (concat sets) ->
    label_sets parts i sets f = Ok f' ->
    (NoDup (dkeys f) -> NoDup (dkeys f')) /\ (forall n, In n (dkeys f') <-> In n (concat sets) \/ In n (dkeys f)) /\
    (forall j s n, nth_error sets j = Some s -> In n s -> dget f' n = nth_error parts (i + j)) /\
    (forall n, ~ In n (concat sets) -> dget f' n = dget f n).
  Proof.
    induction sets as [|s sets IH]; intros i f f' ND H; cbn [label_sets] in H.
    - injection H as <-. split; auto. split; [intro; cbn; tauto|]. split; [intros [|j]; discriminate|auto].
    - destruct (foldM _ s f) as [f1| |] eqn:E; try discriminate. cbn [bind] in H. destruct (label_one _ _ _ _ _ E) as (A & B & C & D).
      cbn [concat] in ND. apply NoDup_app_iff in ND. destruct ND as (N1 & N2 & N3). destruct (IH _ _ _ N2 H) as (A' & B' & C' & D').
      split; [auto|]. split; [|split].
      + intro n. rewrite B', B. cbn [concat]. rewrite in_app_iff. tauto.
      + intros [|j] s' n Hs Hn; cbn [nth_error] in Hs.
        * injection Hs as <-. rewrite D', C by eauto. f_equal. lia.
        * rewrite (C' _ _ _ Hs Hn). f_equal. lia.
      + intros n Hn. cbn [concat] in Hn. rewrite in_app_iff in Hn. rewrite D', D by tauto. reflexivity.
  Qed.
End Labels.

Section Final.
  Context {N P : Type} {EN : EqB N} {EP : EqB P}.
  (** C59.  For every graph with known populations, every list of distinct
      labels and every method that returns a non-empty set of nodes of the graph
      it is given and leaves some: if recursive_seed_part returns, every node of
      the graph and nothing else has one label, and every label is used.  With
      at least two labels and a method that keeps to the tolerance it is asked
      for, every label's population is within epsilon of the target; with a method
      whose two sides are connected every label's nodes are connected. *)
  Theorem C59_sound fuel (method : @method_fn N) (pop : dict N Z) (g : graph N) (parts : list P) (t e : Q) n ceil f :
    wf_graph g -> incl (g_nodes g) (dkeys pop) -> NoDup parts -> parts <> [] -> inside method -> proper method ->
    recursive_seed_part method pop fuel g parts t e n ceil = Ok f ->
    (NoDup (dkeys f) /\ (forall m, In m (dkeys f) <-> In m (g_nodes g)) /\
     (forall m p, given f p m -> In p parts) /\
     (g_nodes g <> [] -> forall p, In p parts -> exists m, given f p m)) /\
    (tolerant pop method -> (0 < t)%Q -> (0 <= e)%Q -> 2 <= List.length parts -> good_plan g pop parts t e f) /\
    (splits_connected method -> 2 <= List.length parts -> forall p, In p parts -> connected_on g (given f p)).
  Proof.
    intros WF Hk ND Ne Hin Hprop H. unfold recursive_seed_part in H.
    destruct (recursive_seed_part_inner _ _ _ _ _ _ _ _ _ _) as [[k sets]| |] eqn:E; try discriminate. cbn [bind snd] in H.
    assert (L1 : 1 <= List.length parts) by (destruct parts; [congruence|cbn; lia]).
    destruct (inner_spec method pop t e Hin Hprop n ceil fuel _ _ _ _ _ WF Hk L1 E) as ([D1 D2] & L & Nn & _ & B & Con).
    destruct (label_sets_spec parts sets 0 [] f D1 H) as (A1 & A2 & A3 & _). specialize (A1 (NoDup_nil _)). cbn [Nat.add] in A3.
    assert (Keys : forall m, In m (dkeys f) <-> In m (g_nodes g)) by (intro m; rewrite A2, D2; cbn; tauto).
    assert (Lab : forall m p, given f p m -> exists j s, nth_error sets j = Some s /\ In m s /\ nth_error parts j = Some p).
    { intros m p Hp. assert (Hm : In m (concat sets)) by (apply D2, Keys, dget_In_keys; eauto). apply in_concat in Hm. destruct Hm as (s & Hs & Hm).
      apply In_nth_error in Hs. destruct Hs as (j & Hj). exists j, s. split; auto. split; auto. rewrite <- (A3 _ _ _ Hj Hm). exact Hp. }
    assert (Labels : forall m p, given f p m -> In p parts).
    { intros m p Hp. destruct (Lab m p Hp) as (j & s & _ & _ & X). eapply nth_error_In; eauto. }
    assert (Get : forall p, In p parts -> exists s, In s sets /\ NoDup s /\ forall m, In m s <-> given f p m).
    { intros p Hp. apply In_nth_error in Hp. destruct Hp as (j & Hj). assert (Hl : j < List.length sets) by (rewrite L; apply nth_error_Some; congruence).
      destruct (nth_error sets j) as [s|] eqn:Es; [|apply nth_error_None in Es; lia]. exists s. split; [eapply nth_error_In; eauto|]. split.
      - assert (Hs : In s sets) by (eapply nth_error_In; eauto). eapply NoDup_member; eauto.
      - intro m. split; intro Hm.
        + unfold given. rewrite (A3 _ _ _ Es Hm). exact Hj.
        + destruct (Lab m p Hm) as (j' & s' & E1 & E2 & E3). assert (j' = j).
          { eapply (proj1 (NoDup_nth_error parts) ND); [apply nth_error_Some|]; congruence. }
          subst j'. congruence. }
    split.
    - split; [exact A1|]. split; [exact Keys|]. split; [exact Labels|]. intros Gn p Hp. destruct (Get p Hp) as (s & Hs & _ & Hm).
      assert (X := Nn Gn s Hs). destruct s as [|m s]; [congruence|]. exists m. apply Hm. now left.
    - split; [|intros Sp L2 p Hp; destruct (Get p Hp) as (s & Hs & NDs & Hm); eapply connected_on_ext; [exact Hm|]; now apply Con].
      intros Tol Ht He L2. constructor; auto. intros p Hp. destruct (Get p Hp) as (s & Hs & NDs & Hm).
      exists (psum pop s). split; [|apply B; auto; split; auto]. eapply sums_to_ext; [exact Hm|]. now apply sums_list.
  Qed.
  (** With one label everything gets it. *)
  Theorem C59_one_part fuel (method : @method_fn N) (pop : dict N Z) (g : graph N) (p : P) (t e : Q) :
    recursive_seed_part method pop (S fuel) g [p] t e None None = Ok (map (fun m => (m, p)) (set_of (g_nodes g))).
  Proof.
    unfold recursive_seed_part. cbn [List.length recursive_seed_part_inner choose_chunks].
    change (get_max_prime_factor_less_than 1 1) with (@Ok (option nat) None). cbn [bind Nat.eqb snd label_sets nth_error of_option].
    assert (G : forall l (f : dict N P), NoDup (dkeys f ++ l) -> foldM (fun f node => Ok (dset f node p)) l f = Ok (f ++ map (fun m => (m, p)) l)).
    { induction l as [|a l IH]; intros f ND; cbn [foldM map]; [now rewrite app_nil_r|]. cbn [bind].
      assert (Ha : ~ In a (dkeys f)) by (intro X; apply NoDup_app_iff in ND; destruct ND as (_ & _ & Y); apply (Y a X); now left).
      rewrite dset_new by exact Ha. rewrite IH.
      - now rewrite <- app_assoc.
      - unfold dkeys in *. rewrite map_app. cbn [map fst]. now rewrite <- app_assoc. }
    rewrite G by apply NoDup_set_of. reflexivity.
  Qed.
End Final.

(** bipartition_tree meets the contract [proper] too. *)
Theorem C59_bipartition_tree {N} {EN : EqB N} balance tree (pop : dict N Z) weights draws fuel max k reselect pick :
  cut_search balance -> (forall i g, samples g (tree i g)) ->
  (forall i cuts c, pick i cuts = Ok c -> In c cuts) ->
  proper (tree_method balance tree pop weights draws fuel max k reselect pick).
Proof.
  intros Bal Smp Pick i g t e os s H. unfold tree_method in H. destruct (populations pop g) as [p| |] eqn:Ep; try discriminate. cbn [bind] in H.
  destruct (bipartition_tree_call _ _ _ _ _ _ _ _ _ _ _ _ _ _) as [s1| |] eqn:E; try discriminate. cbn [bind] in H. injection H as <-.
  destruct (populations_inv pop g p Ep) as (K1 & K2 & _).
  assert (S : good_split g p t e (negb os) s1).
  { eapply (C53_sound balance (tree i g) g p t e os (weights i) (draws i) fuel max k reselect None (pick i)); [exact Bal|apply Smp|discriminate|split; [exact K1|exact K2]|apply Pick|exact E]. }
  split; [apply (gs_some _ _ _ _ _ _ S)|apply (gs_rest _ _ _ _ _ _ S)].
Qed.

(** Six units on a path and three districts; the whole cut in one go. *)
Example C59_nonvacuous :
  wf_graph six /\ incl (g_nodes six) (dkeys (flat_pop 6 1)) /\ inside six_method /\ proper six_method /\ tolerant (flat_pop 6 1) six_method /\
  recursive_seed_part six_method (flat_pop 6 1) 4 six [7; 8; 9] 2 (1 # 4) None None =
    Ok [(4, 7); (5, 7); (0, 8); (1, 8); (2, 9); (3, 9)].
Proof.
  destruct six_wf as [W C]. destruct six_contracts as (I1 & I2 & I3).
  split; [exact W|]. split; [intros n Hn; now apply C|]. split; [exact I1|]. split.
  - apply C59_bipartition_tree.
    + apply C53_memoization_search.
    + intros i g. exact (lookup_samples trees_of_six g 0 trees_of_six_ok).
    + intros _ cuts c H. destruct cuts as [|c0 l]; [discriminate|]. destruct (C62_max_weight (c0 :: l)) as (c' & E & I & _); [discriminate|]. congruence.
  - split; [exact I3|]. vm_compute. reflexivity.
Qed.
Print Assumptions C59_sound.
Print Assumptions C59_one_part.
Print Assumptions C59_bipartition_tree.
