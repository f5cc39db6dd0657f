(** Lemmas about graphs built from dictionaries of dictionaries. *)
From Coq Require Import String List Bool Arith Ring Permutation Lia.
From Verif Require Import Base M_Graph M_Partition S_Partition M_Machine S_Machine L_Sums M_GraphData M_Geo.
Import ListNotations.
Local Open Scope list_scope.

Section Build.
  Context {X V : Type} {EX : EqB X} {OX : Ord X} {RV : CRing V}.
  Add Ring VRg : (@cring V RV).
  Implicit Types (u v n : X) (w : V) (g : pgraph X V) (l : list ((X * X) * V)).

  Lemma same_edge_spec u v (e : (X * X) * V) : same_edge u v e = true <-> fst e = (u, v) \/ fst e = (v, u).
  Proof.
    destruct e as [[a b] w]. unfold same_edge. cbn [fst snd]. rewrite orb_true_iff, !andb_true_iff, !eqb_eq. split.
    - intros [[-> ->]|[-> ->]]; auto.
    - intros [[= -> ->]|[= -> ->]]; auto.
  Qed.
  Lemma NoDup_app_one {A} (l : list A) x : NoDup l -> ~ In x l -> NoDup (l ++ [x]).
  Proof. intros ND H. apply (Permutation_NoDup (Permutation_cons_append l x)). now constructor. Qed.
  Lemma in_add_node ns n x : In x (add_node ns n) <-> x = n \/ In x ns.
  Proof.
    unfold add_node. destruct (mem n ns) eqn:E.
    - apply mem_In in E. split; [auto|]. intros [->|H]; auto.
    - rewrite in_app_iff. cbn. intuition congruence.
  Qed.
  Lemma add_node_id ns n : In n ns -> add_node ns n = ns.
  Proof. intro H. unfold add_node. apply mem_In in H. now rewrite H. Qed.
  Lemma add_nodes_fresh (ks : list X) : forall ns, NoDup (ns ++ ks) -> fold_left add_node ks ns = ns ++ ks.
  Proof.
    induction ks as [|k ks IH]; intros ns ND; cbn [fold_left]; [now rewrite app_nil_r|].
    assert (E : mem k ns = false). { destruct (mem k ns) eqn:E; [|reflexivity]. apply mem_In in E. apply NoDup_remove_2 in ND. exfalso. apply ND. apply in_or_app. now left. }
    unfold add_node at 2. rewrite E. rewrite IH; [now rewrite <- app_assoc|]. now rewrite <- app_assoc.
  Qed.

  (** What is known after the entries [l] have been added to the nodes [ns]. *)
  Record built (ns : list X) l g : Prop := {
    b_nodes : pg_nodes g = ns;
    b_nodup : NoDup (map fst (pg_edges g));
    b_once : forall u v, In (u, v) (map fst (pg_edges g)) -> In (v, u) (map fst (pg_edges g)) -> u = v;
    b_value : forall u v w, In ((u, v), w) (pg_edges g) -> In ((u, v), w) l \/ In ((v, u), w) l;
    b_there : forall u v w, In ((u, v), w) l -> In (u, v) (map fst (pg_edges g)) \/ In (v, u) (map fst (pg_edges g))
  }.
  Lemma built_step ns l g u v w : In u ns -> In v ns -> built ns l g -> built ns (l ++ [((u, v), w)]) (add_edge g ((u, v), w)).
  Proof.
    intros Hu Hv [B1 B2 B3 B4 B5]. unfold add_edge. set (es := pg_edges g) in *.
    assert (Keys : map fst (set_edge es u v w) = map fst es /\ existsb (same_edge u v) es = true \/ map fst (set_edge es u v w) = map fst es ++ [(u, v)] /\ (forall e, In e es -> fst e <> (u, v) /\ fst e <> (v, u))).
    { unfold set_edge. destruct (existsb (same_edge u v) es) eqn:E.
      - left. split; [|reflexivity]. rewrite map_map. apply map_ext. intro e. now destruct (same_edge u v e).
      - right. split; [now rewrite map_app|]. intros e He. assert (N : same_edge u v e <> true) by (intro K; assert (existsb (same_edge u v) es = true) by (apply existsb_exists; eauto); congruence). rewrite same_edge_spec in N. tauto. }
    split; cbn [pg_nodes pg_edges].
    - rewrite B1. now rewrite (add_node_id ns u Hu), (add_node_id ns v Hv).
    - destruct Keys as [[-> _]|[-> Hno]]; [exact B2|]. apply NoDup_app_one; [exact B2|]. intro H. apply in_map_iff in H. destruct H as (e & He & Hin). destruct (Hno e Hin); congruence.
    - intros a b. destruct Keys as [[-> _]|[-> Hno]]; [apply B3|]. assert (N1 : ~ In (u, v) (map fst es) /\ ~ In (v, u) (map fst es)) by (split; intro H; apply in_map_iff in H; destruct H as (e & He & Hin); destruct (Hno e Hin); congruence).
      destruct N1 as [N1 N2]. rewrite !in_app_iff. cbn [In]. intros [H1|[H1|[]]] [H2|[H2|[]]].
      + now apply B3.
      + injection H2 as -> ->. contradiction.
      + injection H1 as -> ->. contradiction.
      + congruence.
    - intros a b x H. unfold set_edge in H. destruct (existsb (same_edge u v) es) eqn:E.
      + apply in_map_iff in H. destruct H as ([[a' b'] x'] & He & Hin). destruct (same_edge u v (a', b', x')) eqn:Es.
        * injection He as -> -> <-. apply same_edge_spec in Es. cbn [fst] in Es. rewrite !in_app_iff. cbn [In]. destruct Es as [[= -> ->]|[= -> ->]]; auto.
        * injection He as -> -> ->. rewrite !in_app_iff. destruct (B4 _ _ _ Hin); auto.
      + apply in_app_iff in H. rewrite !in_app_iff. destruct H as [H|[[= <- <- <-]|[]]]; [destruct (B4 _ _ _ H); auto|]. left. right. now left.
    - intros a b x H. apply in_app_iff in H. destruct H as [H|[[= -> -> ->]|[]]].
      + destruct Keys as [[-> _]|[-> _]]; [now apply (B5 a b x)|]. rewrite !in_app_iff. destruct (B5 a b x H); auto.
      + destruct Keys as [[-> He]|[-> _]]; [|left; apply in_app_iff; right; now left]. apply existsb_exists in He. destruct He as (e & Hin & Hs). apply same_edge_spec in Hs. destruct Hs as [Hs|Hs]; [left|right]; rewrite <- Hs; now apply in_map.
  Qed.
  Lemma built_all ns l0 : (forall u v w, In ((u, v), w) l0 -> In u ns /\ In v ns) -> built ns l0 (fold_left add_edge l0 (mkPG ns [])).
  Proof.
    intro H. assert (G : forall todo done g, (forall u v w, In ((u, v), w) todo -> In u ns /\ In v ns) -> built ns done g -> built ns (done ++ todo) (fold_left add_edge todo g)).
    { induction todo as [|[[u v] w] todo IH]; intros done g Ht B; cbn [fold_left]; [now rewrite app_nil_r|].
      replace (done ++ (u, v, w) :: todo) with ((done ++ [(u, v, w)]) ++ todo) by now rewrite <- app_assoc. apply IH; [intros; eapply Ht; right; eauto|]. destruct (Ht u v w (or_introl eq_refl)). now apply built_step. }
    apply (G l0 [] (mkPG ns [])); [exact H|]. split; cbn; try tauto; constructor.
  Qed.

  (** ** Graphs whose entries connect distinct known nodes *)
  Section Good.
    Variable a : dict X (dict X V).
    Hypothesis Ha : NoDup (dkeys a).
    Hypothesis Hends : forall u v w, In ((u, v), w) (entries a) -> In u (dkeys a) /\ In v (dkeys a) /\ u <> v.
    Notation G := (graph_of_dicts a).

    Lemma good_built : built (dkeys a) (entries a) G.
    Proof. unfold graph_of_dicts. rewrite (add_nodes_fresh (dkeys a) []) by exact Ha. apply built_all. intros u v w H. destruct (Hends u v w H) as (H1 & H2 & _). auto. Qed.
    Lemma good_nodes : pg_nodes G = dkeys a.
    Proof. apply good_built. Qed.
    Lemma good_edge u v w : In ((u, v), w) (pg_edges G) -> In u (dkeys a) /\ In v (dkeys a) /\ u <> v.
    Proof. intro H. apply (b_value _ _ _ good_built) in H. destruct H as [H|H]; apply Hends in H; intuition congruence. Qed.
    Lemma good_wf : wf_graph (plain G).
    Proof.
      pose proof good_built as B. split; cbn [plain g_nodes g_edges].
      - now rewrite good_nodes.
      - apply B.
      - intros u v H. apply in_map_iff in H. destruct H as ([[u' v'] w] & [= -> ->] & H). rewrite good_nodes. apply good_edge in H. tauto.
      - apply B.
    Qed.
    Lemma good_adj u v : adj (plain G) u v <-> exists w, In ((u, v), w) (entries a) \/ In ((v, u), w) (entries a).
    Proof.
      pose proof good_built as B. unfold adj. cbn [plain g_edges]. split.
      - intros [H|H]; apply in_map_iff in H; destruct H as ([[u' v'] w] & [= -> ->] & H); exists w; apply (b_value _ _ _ B) in H; tauto.
      - intros [w [H|H]]; apply (b_there _ _ _ B) in H; tauto.
    Qed.
    Lemma good_loopfree u v : adj (plain G) u v -> u <> v.
    Proof. intro H. apply good_adj in H. destruct H as [w [H|H]]; apply Hends in H; intuition congruence. Qed.
    Lemma shared_entry u v w : In ((u, v), w) (pg_edges G) -> shared G (u, v) = w /\ shared G (v, u) = w.
    Proof.
      intro H. pose proof good_built as B.
      assert (Uniq : forall e, In e (pg_edges G) -> fst e = (u, v) \/ fst e = (v, u) -> e = ((u, v), w)).
      { intros e He Hf. assert (Hk : fst e = (u, v)).
        { destruct Hf as [Hf|Hf]; [exact Hf|]. exfalso. assert (u = v); [|apply good_edge in H; tauto]. apply (b_once _ _ _ B); [change (u, v) with (fst ((u, v), w)); now apply in_map|]. rewrite <- Hf. now apply in_map. }
        pose proof (b_nodup _ _ _ B) as ND. clear - ND He H Hk. induction (pg_edges G) as [|x l IH]; [destruct He|]. cbn [map] in ND. inversion ND as [|? ? Hn ND']; subst.
        destruct He as [->|He], H as [->|H]; auto; exfalso; apply Hn.
        - rewrite Hk. change (u, v) with (fst ((u, v), w)). now apply in_map.
        - cbn [fst]. rewrite <- Hk. now apply in_map. }
      unfold shared. cbn [fst snd]. split.
      - destruct (find (same_edge u v) (pg_edges G)) as [e|] eqn:E.
        + apply find_some in E. destruct E as [E1 E2]. apply same_edge_spec in E2. now rewrite (Uniq e E1 E2).
        + exfalso. eapply find_none in E; [|exact H]. assert (same_edge u v (u, v, w) = true) by (apply same_edge_spec; now left). congruence.
      - destruct (find (same_edge v u) (pg_edges G)) as [e|] eqn:E.
        + apply find_some in E. destruct E as [E1 E2]. apply same_edge_spec in E2. now rewrite (Uniq e E1 (proj1 (or_comm _ _) E2)).
        + exfalso. eapply find_none in E; [|exact H]. assert (same_edge v u (u, v, w) = true) by (apply same_edge_spec; now right). congruence.
    Qed.
    Lemma shared_value u v : adj (plain G) u v -> In ((u, v), shared G (u, v)) (entries a) \/ In ((v, u), shared G (u, v)) (entries a).
    Proof.
      intro H. pose proof good_built as B. unfold adj in H. cbn [plain g_edges] in H. destruct H as [H|H]; apply in_map_iff in H; destruct H as ([[u' v'] w] & [= -> ->] & H); destruct (shared_entry _ _ _ H) as [E1 E2].
      - rewrite E1. now apply (b_value _ _ _ B).
      - rewrite E2. apply (b_value _ _ _ B) in H. tauto.
    Qed.

    (** A unit's shared perimeter is the sum over its neighbours. *)
    Lemma shared_perimeter_sum n : sums_to (fun m => shared G (n, m)) (fun m => adj (plain G) n m) (shared_perimeter G n).
    Proof.
      pose proof good_built as B. set (inc := fun e : (X * X) * V => eqb (fst (fst e)) n || eqb (snd (fst e)) n). set (other := fun e : (X * X) * V => if eqb (fst (fst e)) n then snd (fst e) else fst (fst e)).
      exists (map other (filter inc (pg_edges G))).
      assert (Case : forall e, In e (filter inc (pg_edges G)) -> (fst e = (n, other e) \/ fst e = (other e, n)) /\ snd e = shared G (n, other e)).
      { intros [[u v] w] He. apply filter_In in He. destruct He as [He Hi]. unfold inc, other in *. cbn [fst snd] in *. destruct (shared_entry u v w He) as [E1 E2]. destruct (eqb_spec u n) as [->|Hun]; cbn [orb] in Hi.
        - split; [now left|now symmetry].
        - apply eqb_true in Hi. subst v. split; [now right|now symmetry]. }
      split; [|split].
      - assert (Nd : NoDup (filter inc (pg_edges G))) by (apply NoDup_filter; eapply NoDup_map_inv; apply B).
        assert (Inj : forall e e', In e (filter inc (pg_edges G)) -> In e' (filter inc (pg_edges G)) -> other e = other e' -> e = e').
        { intros e e' He He' Ho. destruct (Case e He) as [C1 S1], (Case e' He') as [C2 S2]. rewrite <- Ho in C2, S2. clear Ho. revert C1 S1 C2 S2. generalize (other e). intros o C1 S1 C2 S2.
          apply filter_In in He, He'. destruct He as [He _], He' as [He' _]. apply (in_map fst) in He, He'. destruct e as [k w], e' as [k' w']. cbn [fst snd] in *.
          assert (k = k'); [|congruence]. assert (n = o -> (n, o) = (o, n)) by congruence.
          destruct C1, C2; subst k k'; try reflexivity; [|symmetry]; apply H; apply (b_once _ _ _ B); assumption. }
        clear - Nd Inj. induction (filter inc (pg_edges G)) as [|e l IH]; cbn [map]; [constructor|]. inversion Nd as [|? ? Hn Nd']; subst. constructor.
        + intro H. apply in_map_iff in H. destruct H as (e' & He & Hin). apply Hn. rewrite (Inj e e'); [exact Hin|now left|now right|congruence].
        + apply IH; [exact Nd'|]. intros; apply Inj; auto; now right.
      - intro m. rewrite in_map_iff. unfold adj. cbn [plain g_edges]. split.
        + intros (e & <- & He). destruct (Case e He) as [C _]. apply filter_In in He. destruct He as [He _]. destruct C as [C|C]; [left|right]; rewrite <- C; now apply in_map.
        + intros [H|H]; apply in_map_iff in H; destruct H as ([[u v] w] & [= -> ->] & H); eexists; (split; [|apply filter_In; split; [exact H|]]).
          * unfold other. cbn [fst snd]. now rewrite eqb_refl.
          * unfold inc. cbn [fst snd]. now rewrite eqb_refl.
          * unfold other. cbn [fst snd]. destruct (eqb_spec m n) as [->|]; reflexivity.
          * unfold inc. cbn [fst snd]. rewrite eqb_refl. apply orb_true_r.
      - unfold shared_perimeter. rewrite map_map. f_equal. apply map_ext_in. intros e He. now apply Case.
    Qed.

    (** Sums over edges, each in sorted orientation. *)
    Lemma sum_edges (q : X * X -> bool) : (forall u v, q (u, v) = q (v, u)) ->
      sums_to (shared G) (fun e => leb (fst e) (snd e) = true /\ adj (plain G) (fst e) (snd e) /\ q e = true) (vsum (map snd (filter (fun e => q (fst e)) (pg_edges G)))).
    Proof.
      intro Sq. pose proof good_built as B. set (srt := fun e : (X * X) * V => sorted_pair (fst (fst e)) (snd (fst e))). set (fs := filter (fun e => q (fst e)) (pg_edges G)).
      assert (Sp : forall u v, sorted_pair u v = (u, v) \/ sorted_pair u v = (v, u)) by (intros u v; unfold sorted_pair; destruct (leb u v); auto).
      exists (map srt fs). split; [|split].
      - assert (Nd : NoDup fs) by (apply NoDup_filter; eapply NoDup_map_inv; apply B).
        assert (Inj : forall e e', In e fs -> In e' fs -> srt e = srt e' -> e = e').
        { intros [[u v] w] [[u' v'] w'] He He' Hs. unfold fs in *. apply filter_In in He, He'. destruct He as [He _], He' as [He' _]. unfold srt in Hs. cbn [fst snd] in Hs.
          assert (K : (u, v) = (u', v') \/ (u, v) = (v', u')) by (destruct (Sp u v) as [E|E], (Sp u' v') as [E'|E']; rewrite E, E' in Hs; injection Hs as -> ->; auto).
          destruct K as [[= -> ->]|[= -> ->]].
          - destruct (shared_entry _ _ _ He), (shared_entry _ _ _ He'). congruence.
          - assert (u' = v'); [|apply good_edge in He; intuition congruence]. apply (b_once _ _ _ B); [change (u', v') with (fst ((u', v'), w'))|change (v', u') with (fst ((v', u'), w))]; now apply in_map. }
        clear - Nd Inj. induction fs as [|e l IH]; cbn [map]; [constructor|]. inversion Nd as [|? ? Hn Nd']; subst. constructor.
        + intro H. apply in_map_iff in H. destruct H as (e' & He & Hin). apply Hn. rewrite (Inj e e'); [exact Hin|now left|now right|congruence].
        + apply IH; [exact Nd'|]. intros; apply Inj; auto; now right.
      - intros [u v]. cbn [fst snd]. rewrite in_map_iff. unfold adj. cbn [plain g_edges]. split.
        + intros ([[a0 b0] w] & Hs & He). unfold fs in He. apply filter_In in He. destruct He as [He Hq]. unfold srt, sorted_pair in Hs. cbn [fst snd] in *. apply (in_map fst) in He. cbn [fst] in He.
          destruct (leb a0 b0) eqn:El; injection Hs as <- <-; [split; [exact El|]; auto|]. split; [destruct (leb_total a0 b0); congruence|]. split; [auto|]. now rewrite Sq.
        + intros (Hle & Hadj & Hq). destruct Hadj as [H|H]; apply in_map_iff in H; destruct H as ([[a0 b0] w] & [= -> ->] & H).
          * exists ((u, v), w). split; [unfold srt, sorted_pair; cbn [fst snd]; now rewrite Hle|]. apply filter_In. auto.
          * exists ((v, u), w). split; [|apply filter_In; split; [exact H|cbn [fst]; now rewrite Sq]]. unfold srt, sorted_pair. cbn [fst snd]. destruct (leb v u) eqn:El; [|reflexivity]. assert (u = v) by now apply leb_antisym. congruence.
      - rewrite map_map. f_equal. apply map_ext_in. intros [[u v] w] He. unfold fs in He. apply filter_In in He. destruct He as [He _]. destruct (shared_entry _ _ _ He) as [E1 E2]. unfold srt. cbn [fst snd]. destruct (Sp u v) as [-> | ->]; now symmetry.
    Qed.

    Lemma vsum_filter {Y} (q : Y -> bool) (f : Y -> V) (l : list Y) : vsum (map f (filter q l)) = vsum (map (fun y => if q y then f y else c0) l).
    Proof. induction l as [|y l IH]; [reflexivity|]. cbn [filter map]. destruct (q y); cbn [map]; rewrite !vsum_cons, IH; ring. Qed.
    Lemma vsum_one (ms : list X) u w : NoDup ms -> vsum (map (fun n => if eqb u n then w else c0) ms) = if mem u ms then w else c0.
    Proof.
      intro ND. induction ND as [|m ms Hm ND IH]; [reflexivity|]. cbn [map]. rewrite vsum_cons, IH. destruct (eqb_spec u m) as [->|Hn].
      - destruct (mem m ms) eqn:E; [apply mem_In in E; contradiction|]. assert (E' : mem m (m :: ms) = true) by (apply mem_In; now left). rewrite E'. ring.
      - assert (E' : mem u (m :: ms) = mem u ms). { destruct (mem u ms) eqn:E; [apply mem_In; right; now apply mem_In|]. destruct (mem u (m :: ms)) eqn:E2; [|reflexivity]. apply mem_In in E2. destruct E2 as [->|E2]; [congruence|]. apply mem_In in E2. congruence. }
        rewrite E'. ring.
    Qed.
    (** Summed over a set of units, shared perimeters count the edges inside
        twice and the edges leaving it once. *)
    Lemma shared_over (ms : list X) : NoDup ms ->
      vsum (map (shared_perimeter G) ms) =
      cadd (vsum (map snd (filter (fun e => mem (fst (fst e)) ms && mem (snd (fst e)) ms) (pg_edges G))))
     (cadd (vsum (map snd (filter (fun e => mem (fst (fst e)) ms && mem (snd (fst e)) ms) (pg_edges G))))
           (vsum (map snd (filter (fun e => xorb (mem (fst (fst e)) ms) (mem (snd (fst e)) ms)) (pg_edges G))))).
    Proof.
      intro ND. unfold shared_perimeter.
      rewrite (map_ext _ (fun n => vsum (map (fun e => if eqb (fst (fst e)) n || eqb (snd (fst e)) n then snd e else c0) (pg_edges G)))) by (intro n; apply vsum_filter).
      rewrite (vsum_swap (fun n (e : (X * X) * V) => if eqb (fst (fst e)) n || eqb (snd (fst e)) n then snd e else c0)). rewrite !vsum_filter, <- !vsum_plus. f_equal. apply map_ext_in. intros [[u v] w] He. cbn [fst snd]. apply good_edge in He. destruct He as (_ & _ & Huv).
      rewrite (map_ext _ (fun n => cadd (if eqb u n then w else c0) (if eqb v n then w else c0))).
      - rewrite vsum_plus, !vsum_one by exact ND. destruct (mem u ms), (mem v ms); cbn [andb xorb]; ring.
      - intro n. destruct (eqb_spec u n) as [->|]; cbn [orb]; [|destruct (eqb v n); ring]. destruct (eqb_spec v n); [congruence|ring].
    Qed.
  End Good.
End Build.
