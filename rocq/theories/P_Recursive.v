(** Building plans by repeated splitting (C55, C56, C57, C61). *)
From Coq Require Import String List Bool Arith ZArith QArith Qabs Lqa Lia ZifyBool ZifyNat Permutation.
From Verif Require Import Base M_Graph M_Partition S_Partition L_Partition M_Machine S_Machine L_Sums
  S_Contiguity L_Search M_Election L_Order M_Proposals M_Tree S_Tree S_TreeCuts L_Tree L_TreeCuts L_Kruskal M_Recursive
  P_Partition P_Contiguity P_Tree P_Spanning P_Bipartition.
Import ListNotations.
Local Open Scope nat_scope.
Local Open Scope list_scope.

(** ** Specification *)
Section Spec.
  Context {N P : Type} {EN : EqB N} {EP : EqB P}.
  (** The nodes given the label [p]. *)
  Definition given (f : dict N P) (p : P) (n : N) : Prop := dget f n = Some p.
  (** [f] assigns every node of [g], and nothing else, to one of [parts], and
      every part gets a set of balanced population. *)
  Record good_plan (g : graph N) (pop : dict N Z) (parts : list P) (target eps : Q) (f : dict N P) : Prop := {
    gp_dict : NoDup (dkeys f);
    gp_nodes : forall n, In n (dkeys f) <-> In n (g_nodes g);
    gp_labels : forall n p, given f p n -> In p parts;
    gp_balanced : forall p, In p parts -> balanced_set (popn pop) target eps (given f p)
  }.
  (** Contracts of a bipartition method: it returns nodes of the graph it is
      given; *)
  Definition inside (method : @method_fn N) : Prop :=
    forall i g t e os s, method i g t e os = Ok (Some s) -> incl s (g_nodes g).
  (** the nodes it returns and the rest are connected; *)
  Definition splits_connected (method : @method_fn N) : Prop :=
    forall i g t e os s, wf_graph g -> method i g t e os = Ok (Some s) ->
      connected_on g (fun n => In n s) /\ connected_on g (outside g s).
  (** the nodes it returns are balanced, and unless the cut is one-sided so is
      the rest. *)
  Definition tolerant (pop : dict N Z) (method : @method_fn N) : Prop :=
    forall i g t e os s, wf_graph g -> incl (g_nodes g) (dkeys pop) -> method i g t e os = Ok (Some s) ->
      balanced_set (popn pop) t e (fun n => In n s) /\
      (os = false -> balanced_set (popn pop) t e (outside g s)).
End Spec.

Section Facts.
  Context {N P : Type} {EN : EqB N} {EP : EqB P}.
  Variables (method : @method_fn N) (pop : dict N Z).
  Implicit Types (f : dict N P).

  Definition psum (l : list N) : Z := vsum (map (popn pop) l).
  Lemma psum_cons n l : psum (n :: l) = (popn pop n + psum l)%Z.
  Proof. unfold psum. cbn [map]. now rewrite vsum_cons. Qed.
  Lemma popn_some n x : dget pop n = Some x -> popn pop n = x.
  Proof. unfold popn, dget_or. now intros ->. Qed.

  Definition painted (p : P) (nodes : list N) f : dict N P := fold_left (fun f n => dset f n p) nodes f.
  Lemma dget_painted p nodes : forall f n, dget (painted p nodes f) n = if mem n nodes then Some p else dget f n.
  Proof.
    induction nodes as [|a nodes IH]; intros f n; [reflexivity|]. cbn [painted fold_left].
    change (fold_left _ nodes (dset f a p)) with (painted p nodes (dset f a p)). rewrite IH, dget_dset.
    unfold mem. cbn [existsb]. destruct (eqb_spec n a); cbn [orb]; auto. now destruct (existsb (eqb n) nodes).
  Qed.
  Lemma painted_nodup p nodes : forall f, NoDup (dkeys f) -> NoDup (dkeys (painted p nodes f)).
  Proof. induction nodes as [|a nodes IH]; intros f H; auto. cbn [painted fold_left]. apply IH. now apply NoDup_dset. Qed.
  Lemma dget_In_keys {X Y} {EX : EqB X} (d : dict X Y) n : In n (dkeys d) <-> exists v, dget d n = Some v.
  Proof.
    split; [|intros (v & H); eapply dget_Some_key; eauto]. intro H. destruct (dget d n) eqn:E; eauto.
    apply dget_None in E. contradiction.
  Qed.

  Lemma assign_ok p nodes : forall f z, incl nodes (dkeys pop) ->
    foldM (fun acc node => p <- Ok p ;; x <- of_option KeyError (dget pop node) ;; Ok (dset (fst acc) node p, (snd acc + x)%Z)) nodes (f, z) =
    Ok (painted p nodes f, (z + psum nodes)%Z).
  Proof.
    induction nodes as [|a nodes IH]; intros f z I.
    - cbn [foldM painted fold_left]. f_equal. f_equal. unfold psum. cbn [map]. rewrite vsum_nil. cbn. lia.
    - cbn [foldM bind]. destruct (proj1 (dget_In_keys pop a) (I a (or_introl eq_refl))) as (x & E). rewrite E. cbn [of_option bind fst snd].
      rewrite IH by (intros n Hn; apply I; now right). cbn [painted fold_left]. f_equal. f_equal. rewrite psum_cons, (popn_some _ _ E). lia.
  Qed.
  Lemma assign_inv label nodes : forall f z r,
    foldM (fun acc node => p <- label ;; x <- of_option KeyError (dget pop node) ;; Ok (dset (fst acc) node p, (snd acc + x)%Z)) nodes (f, z) = Ok r ->
    (nodes = [] /\ r = (f, z)) \/
    (exists p, label = Ok p /\ nodes <> [] /\ incl nodes (dkeys pop) /\ r = (painted p nodes f, (z + psum nodes)%Z)).
  Proof.
    induction nodes as [|a nodes IH]; intros f z r H.
    - cbn [foldM] in H. injection H as <-. auto.
    - right. cbn [foldM] in H. destruct label as [p| |] eqn:El; try discriminate. cbn [bind] in H.
      destruct (dget pop a) as [x|] eqn:E; try discriminate. cbn [of_option bind fst snd] in H.
      exists p. split; auto. split; [discriminate|]. assert (Ia : In a (dkeys pop)) by (apply dget_In_keys; eauto).
      apply IH in H. destruct H as [(-> & ->)|(p' & Ep & _ & Inc & ->)].
      + split; [intros n [<-|[]]; auto|]. cbn [painted fold_left]. rewrite psum_cons, (popn_some _ _ E). unfold psum. cbn [map]. rewrite vsum_nil.
        f_equal. change (@c0 Z _) with 0%Z. lia.
      + injection Ep as <-. split; [intros n [<-|Hn]; auto|]. cbn [painted fold_left]. rewrite psum_cons, (popn_some _ _ E). f_equal. lia.
  Qed.
  Lemma assign_err label nodes : forall f z e, incl nodes (dkeys pop) ->
    foldM (fun acc node => p <- label ;; x <- of_option KeyError (dget pop node) ;; Ok (dset (fst acc) node p, (snd acc + x)%Z)) nodes (f, z) = Err e ->
    label = Err e.
  Proof.
    intros f z e I H. destruct label as [p|e'|].
    - rewrite assign_ok in H by auto. discriminate.
    - destruct nodes; cbn [foldM bind] in H; congruence.
    - destruct nodes; cbn [foldM bind] in H; discriminate.
  Qed.
  Lemma check_spec target eps x : check_pop target eps x = true <-> balanced target eps x.
  Proof.
    unfold check_pop, balanced. rewrite andb_true_iff, !Qle_bool_iff, Qabs_Qle_condition. split; intros [H1 H2]; split; lra.
  Qed.
  Lemma sums_list l : NoDup l -> sums_to (popn pop) (fun n => In n l) (psum l).
  Proof. intro H. now apply sums_to_list. Qed.

  Variables (g : graph N) (target eps : Q).
  Hypothesis Hcov : covers pop g.
  Hypothesis Hwf : wf_graph g.
  (** What is known of every finished district. *)
  Variable D : (N -> Prop) -> Prop.
  Hypothesis D_ext : forall A B, (forall n, A n <-> B n) -> D A -> D B.

  Record state (done : list P) (remaining : list N) f : Prop := {
    st_rem : NoDup remaining;
    st_dict : NoDup (dkeys f);
    st_all : forall n, In n (g_nodes g) <-> In n remaining \/ In n (dkeys f);
    st_disj : forall n, In n remaining -> ~ In n (dkeys f);
    st_lab : forall n p, given f p n -> In p done;
    st_good : forall p, In p done -> D (given f p)
  }.
  Lemma state_start : state [] (g_nodes g) [].
  Proof.
    constructor.
    - apply (wfg_nodes g Hwf).
    - constructor.
    - intro n. cbn. tauto.
    - intros n _ [].
    - intros n p H. discriminate.
    - intros p [].
  Qed.
  Lemma keys_painted p nodes f n : In n (dkeys (painted p nodes f)) <-> In n nodes \/ In n (dkeys f).
  Proof.
    rewrite !dget_In_keys. setoid_rewrite dget_painted. destruct (mem n nodes) eqn:E.
    - apply mem_In in E. split; eauto.
    - apply mem_notIn in E. split; [intros (v & H); right; eauto|]. intros [H|H]; [contradiction|exact H].
  Qed.
  Lemma state_step done remaining f p nodes : state done remaining f -> ~ In p done -> NoDup nodes -> incl nodes remaining ->
    D (fun n => In n nodes) -> state (done ++ [p]) (sdiff remaining nodes) (painted p nodes f).
  Proof.
    intros [A B C E F G] Hp ND Inc Dn. constructor.
    - now apply NoDup_sdiff.
    - now apply painted_nodup.
    - intro n. rewrite keys_painted, In_sdiff, C. destruct (In_dec_of n nodes) as [H|H]; [|tauto]. split; [|intros _; left]; auto.
    - intros n Hn. apply In_sdiff in Hn. rewrite keys_painted. destruct Hn as [H1 H2]. intros [H|H]; [auto|]. now apply (E n).
    - intros n q H. unfold given in H. rewrite dget_painted in H. apply in_app_iff. destruct (mem n nodes).
      + injection H as <-. right. now left.
      + left. eapply F; eauto.
    - intros q Hq. apply in_app_iff in Hq. destruct Hq as [Hq|[<-|[]]].
      + eapply D_ext; [|exact (G q Hq)]. intro n. unfold given. rewrite dget_painted. destruct (mem n nodes) eqn:Em; [|tauto].
        apply mem_In in Em. split; intro H.
        * exfalso. apply (E n (Inc n Em)). apply dget_In_keys. eauto.
        * injection H as <-. contradiction.
      + eapply D_ext; [|exact Dn]. intro n. unfold given. rewrite dget_painted. destruct (mem n nodes) eqn:Em.
        * apply mem_In in Em. tauto.
        * apply mem_notIn in Em. split; [contradiction|]. intro H. elim Hp. eapply F; eauto.
  Qed.
  Lemma state_nodes done remaining f : state done remaining f -> incl remaining (g_nodes g).
  Proof. intros S n Hn. apply (st_all _ _ _ S). now left. Qed.
  Lemma sub_nodes remaining : incl remaining (g_nodes g) -> forall n, In n (g_nodes (subgraph g remaining)) <-> In n remaining.
  Proof. intros H n. rewrite subgraph_nodes. split; [tauto|]. intro; auto. Qed.

  Lemma take_inv i remaining tt ee os label f nodes f' x :
    take method pop i g remaining target eps tt ee os label f = Ok (nodes, f', x) ->
    exists s, method i (subgraph g remaining) tt ee os = Ok (Some s) /\ nodes = set_of s /\ balanced target eps x /\ x = psum nodes /\
      incl nodes (dkeys pop) /\ ((nodes = [] /\ f' = f) \/ exists p, label = Ok p /\ f' = painted p nodes f).
  Proof.
    unfold take, assign_nodes. intro H. destruct (method i (subgraph g remaining) tt ee os) as [[s|]| |]; try discriminate. cbn [bind] in H.
    destruct (foldM _ _ _) as [[f1 x1]| |] eqn:E; try discriminate. cbn [bind fst snd] in H.
    destruct (check_pop target eps x1) eqn:C; try discriminate. injection H as <- <- <-. exists s. split; auto. split; auto.
    apply check_spec in C. split; auto. apply assign_inv in E. destruct E as [(E1 & E2)|(p & E1 & E2 & E3 & E4)].
    - injection E2 as -> ->. rewrite E1. split; [reflexivity|]. split; [intros n []|auto].
    - injection E4 as -> ->. split; [lia|]. split; auto. right. eauto.
  Qed.
  Lemma sdiff_nil {X} {EX : EqB X} (l : list X) : sdiff l [] = l.
  Proof. unfold sdiff. induction l as [|a l IH]; auto. cbn in *. now rewrite IH. Qed.

  (** The set taken in one step is a finished district. *)
  Hypothesis D_take : forall i remaining tt ee os s, NoDup remaining -> incl remaining (g_nodes g) ->
    method i (subgraph g remaining) tt ee os = Ok (Some s) ->
    balanced_set (popn pop) target eps (fun n => In n (set_of s)) ->
    incl (set_of s) remaining /\ D (fun n => In n (set_of s)).
  Hypothesis D_rest : forall i remaining tt ee os s, NoDup remaining -> incl remaining (g_nodes g) ->
    method i (subgraph g remaining) tt ee os = Ok (Some s) ->
    balanced_set (popn pop) target eps (fun n => In n (sdiff remaining (set_of s))) ->
    D (fun n => In n (sdiff remaining (set_of s))).

  Lemma take_state i done remaining tt ee os p f nodes f' x : state done remaining f -> ~ In p done ->
    take method pop i g remaining target eps tt ee os (Ok p) f = Ok (nodes, f', x) ->
    state (done ++ [p]) (sdiff remaining nodes) f'.
  Proof.
    intros S Hp H. apply take_inv in H. destruct H as (s & E & -> & B & -> & Ik & F).
    assert (ND := NoDup_set_of s).
    destruct (D_take i remaining tt ee os s (st_rem _ _ _ S) (state_nodes _ _ _ S) E) as [Inc Ds].
    { exists (psum (set_of s)). split; auto. now apply sums_list. }
    assert (X : state (done ++ [p]) (sdiff remaining (set_of s)) (painted p (set_of s) f)) by now apply state_step.
    destruct F as [(E1 & ->)|(p' & E1 & ->)]; [|injection E1 as <-; exact X]. rewrite E1 in *. exact X.
  Qed.
  Lemma part_off_state todo : forall i done remaining debt f rest j f', state done remaining f -> NoDup (done ++ todo) ->
    part_off method pop i g todo target eps remaining debt f = (rest, Ok (j, f')) ->
    state (done ++ todo) rest f'.
  Proof.
    induction todo as [|p todo IH]; intros i done remaining debt f rest j f' S ND H; cbn [part_off] in H.
    - injection H as <- _ <-. now rewrite app_nil_r.
    - destruct (window target eps debt) as [[tt ee]| |]; try (cbn [bind] in H; discriminate). cbn [bind fst snd] in H.
      destruct (take _ _ _ _ _ _ _ _ _ _ _ _) as [[[nodes f1] x]| |] eqn:E; try discriminate.
      replace (done ++ p :: todo) with ((done ++ [p]) ++ todo) in * by now rewrite <- app_assoc.
      eapply IH; [|exact ND|exact H]. eapply take_state; eauto.
      rewrite <- app_assoc in ND. apply NoDup_remove_2 in ND. intro X. apply ND. apply in_app_iff. now left.
  Qed.
  Lemma last_two_state i parts done p q remaining f rest f' : state done remaining f -> NoDup (done ++ [p; q]) ->
    from_end 2 parts = Ok p -> from_end 1 parts = Ok q ->
    last_two method pop i g parts target eps remaining f = (rest, Ok f') ->
    state (done ++ [p; q]) [] f' /\ forall n, In n rest <-> given f' q n.
  Proof.
    intros S ND E2 E1 H. unfold last_two in H. rewrite E2 in H.
    destruct (take _ _ _ _ _ _ _ _ _ _ _ _) as [[[nodes f1] x]| |] eqn:E; try discriminate. injection H as <- H.
    assert (Np : ~ In p done).
    { apply NoDup_remove_2 in ND. intro X. apply ND. apply in_app_iff. now left. }
    assert (S1 : state (done ++ [p]) (sdiff remaining nodes) f1) by (eapply take_state; eauto).
    apply take_inv in E. destruct E as (s & Em & -> & _ & _ & _ & _).
    unfold finish, assign_nodes in H. rewrite E1 in H.
    assert (Ik : incl (sdiff remaining (set_of s)) (dkeys pop)).
    { intros n Hn. apply Hcov. eapply state_nodes; eauto. }
    rewrite assign_ok in H by exact Ik. cbn [bind fst snd] in H.
    destruct (check_pop target eps _) eqn:C; try discriminate. injection H as <-. apply check_spec in C. rewrite Z.add_0_l in C.
    assert (Nq : ~ In q (done ++ [p])).
    { replace (done ++ [p; q]) with ((done ++ [p]) ++ [q]) in ND by now rewrite <- app_assoc.
      apply NoDup_remove_2 in ND. now rewrite app_nil_r in ND. }
    assert (NDr := st_rem _ _ _ S1).
    assert (Ds : D (fun n => In n (sdiff remaining (set_of s)))).
    { eapply D_rest; eauto using st_rem, state_nodes. exists (psum (sdiff remaining (set_of s))). split; auto. now apply sums_list. }
    assert (X := state_step _ _ _ q _ S1 Nq NDr (incl_refl _) Ds).
    replace ((done ++ [p]) ++ [q]) with (done ++ [p; q]) in X by now rewrite <- app_assoc.
    replace (sdiff (sdiff remaining (set_of s)) (sdiff remaining (set_of s))) with (@nil N) in X.
    2: { symmetry. destruct (sdiff (sdiff remaining (set_of s)) (sdiff remaining (set_of s))) as [|a l] eqn:Ea; auto.
         assert (Ha : In a (a :: l)) by now left. rewrite <- Ea in Ha. apply In_sdiff in Ha. tauto. }
    split; [exact X|]. intro n. unfold given. rewrite dget_painted. destruct (mem n (sdiff remaining (set_of s))) eqn:Em'.
    - apply mem_In in Em'. tauto.
    - apply mem_notIn in Em'. split; [contradiction|]. intro Hn. elim Nq. eapply (st_lab _ _ _ S1); eauto.
  Qed.
End Facts.

Section Theorems.
  Context {N P : Type} {EN : EqB N} {EP : EqB P}.
  Implicit Types (f : dict N P).

  (** District predicate used below. *)
  Definition fine (g : graph N) pop target eps (conn : Prop) (A : N -> Prop) : Prop :=
    balanced_set (popn pop) target eps A /\ (conn -> connected_on g A).
  Lemma fine_ext g pop target eps conn A B : (forall n, A n <-> B n) -> fine g pop target eps conn A -> fine g pop target eps conn B.
  Proof. intros H [F1 F2]. split; [eapply balanced_set_ext; eauto|]. intro C. eapply connected_on_ext; eauto. Qed.
  Lemma connected_sub (g : graph N) s (A : N -> Prop) : connected_on (subgraph g s) A -> connected_on g A.
  Proof. apply connected_on_super. intros u v H. apply adj_subgraph in H. tauto. Qed.
  Lemma In_set_of {X} {EX : EqB X} (l : list X) x : In x (set_of l) <-> In x l.
  Proof. apply Base.In_set_of. Qed.

  Lemma fine_take (method : @method_fn N) pop (g : graph N) target eps : wf_graph g -> inside method ->
    forall i remaining tt ee os s, NoDup remaining -> incl remaining (g_nodes g) ->
    method i (subgraph g remaining) tt ee os = Ok (Some s) ->
    balanced_set (popn pop) target eps (fun n => In n (set_of s)) ->
    incl (set_of s) remaining /\ fine g pop target eps (splits_connected method) (fun n => In n (set_of s)).
  Proof.
    intros WF Ins i remaining tt ee os s ND Inc E B. split.
    - intros n Hn. rewrite In_set_of in Hn. apply (Ins _ _ _ _ _ _ E) in Hn. apply subgraph_nodes in Hn. tauto.
    - split; auto. intro C. destruct (C _ _ _ _ _ _ (wf_subgraph _ _ WF) E) as [C1 _]. eapply connected_sub. eapply connected_on_ext; [|exact C1].
      intro n. now rewrite In_set_of.
  Qed.
  Lemma fine_rest (method : @method_fn N) pop (g : graph N) target eps : wf_graph g ->
    forall i remaining tt ee os s, NoDup remaining -> incl remaining (g_nodes g) ->
    method i (subgraph g remaining) tt ee os = Ok (Some s) ->
    balanced_set (popn pop) target eps (fun n => In n (sdiff remaining (set_of s))) ->
    fine g pop target eps (splits_connected method) (fun n => In n (sdiff remaining (set_of s))).
  Proof.
    intros WF i remaining tt ee os s ND Inc E B. split; auto.
    intro C. destruct (C _ _ _ _ _ _ (wf_subgraph _ _ WF) E) as [_ C1]. eapply connected_sub. eapply connected_on_ext; [|exact C1].
    intro n. unfold outside. rewrite subgraph_nodes, In_sdiff, In_set_of. split; [tauto|]. intros [H1 H2]. auto.
  Qed.
  Lemma state_plan (g : graph N) pop target eps conn parts f : state g (fine g pop target eps conn) parts [] f ->
    good_plan g pop parts target eps f /\ (conn -> forall p, In p parts -> connected_on g (given f p)).
  Proof.
    intros [A B C E F G]. split; [|intros K p Hp; now apply (G p Hp)]. constructor; auto.
    - intro n. rewrite C. cbn. tauto.
    - intros p Hp. apply (G p Hp).
  Qed.
  Lemma from_end_spec (l : list P) p q : from_end 2 (l ++ [p; q]) = Ok p /\ from_end 1 (l ++ [p; q]) = Ok q.
  Proof. unfold from_end. rewrite rev_app_distr. split; reflexivity. Qed.
  Lemma last_two_split (parts : list P) : 2 <= List.length parts ->
    exists p q, parts = firstn (List.length parts - 2) parts ++ [p; q].
  Proof.
    intro H. assert (E := firstn_skipn (List.length parts - 2) parts). assert (L := skipn_length (List.length parts - 2) parts).
    destruct (skipn (List.length parts - 2) parts) as [|p [|q [|r l]]] eqn:Es; cbn in L; try lia. exists p, q. now rewrite E.
  Qed.

  (** epsilon_tree_bipartition, for every method at all. *)
  Theorem C55_sound (method : @method_fn N) pop (g : graph N) p q target eps f :
    wf_graph g -> covers pop g -> p <> q ->
    epsilon_tree_bipartition method pop g [p; q] target eps = Ok f ->
    good_plan g pop [p; q] target eps f.
  Proof.
    intros WF Cov Npq H.
    unfold epsilon_tree_bipartition, epsilon_tree_bipartition_on in H. cbn [List.length Nat.eqb negb] in H.
    destruct (last_two method pop 0 g [p; q] target eps (g_nodes g) []) as [rest r] eqn:E. cbn [snd] in H. subst r.
    assert (E' := E). unfold last_two in E'. destruct (take _ _ _ _ _ _ _ _ _ _ _ _) as [[[nodes f1] x]| |] eqn:Et; try discriminate.
    apply take_inv in Et. destruct Et as (s & Em & -> & _ & _ & Ik & _).
    (* a method that returns the same sets but only on this graph *)
    set (D := fun A => balanced_set (popn pop) target eps A).
    set (m' := fun (i : nat) (g' : graph N) (tt ee : Q) (os : bool) => match method i g' tt ee os with
      | Ok (Some s) => if subsetb (set_of s) (g_nodes g') then Ok (Some s) else Err KeyError | r => r end).
    assert (Hsub : subsetb (set_of s) (g_nodes (subgraph g (g_nodes g))) = true).
    { apply subsetb_spec. intros n Hn. apply subgraph_nodes. split; apply Cov; auto. }
    assert (Hm : m' 0 (subgraph g (g_nodes g)) target eps false = Ok (Some s)) by (unfold m'; rewrite Em, Hsub; reflexivity).
    assert (Heq : last_two m' pop 0 g [p; q] target eps (g_nodes g) [] = (rest, Ok f)).
    { rewrite <- E. unfold last_two, take. rewrite Hm, Em. reflexivity. }
    destruct (last_two_state (P:=P) m' pop g target eps Cov D) with (i := 0) (parts := [p; q]) (done := @nil P) (p := p) (q := q)
      (remaining := g_nodes g) (f := @nil (N * P)) (rest := rest) (f' := f) as [S _]; auto.
    - intros A B HAB. now apply balanced_set_ext.
    - intros i remaining tt ee os s' _ Inc Es B. split; auto. unfold m' in Es. destruct (method i (subgraph g remaining) tt ee os) as [[s1|]| |]; try discriminate.
      destruct (subsetb (set_of s1) _) eqn:Es1; try discriminate. injection Es as <-. apply subsetb_spec in Es1.
      intros n Hn. apply Es1 in Hn. apply subgraph_nodes in Hn. tauto.
    - now apply state_start.
    - cbn [app]. constructor; [intros [X|[]]; congruence|]. constructor; [intros []|constructor].
    - cbn [app] in S. destruct S as [A B C E0 F G]. constructor; auto. intro n. rewrite C. cbn. tauto.
  Qed.
  (** It raises ValueError whenever the number of labels is not 2; otherwise
      its errors are those of the method, BalanceError for None,
      PopulationBalanceError, and KeyError for a foreign node. *)
  Theorem C55_errors (method : @method_fn N) pop (g : graph N) (parts : list P) target eps :
    (List.length parts <> 2 -> epsilon_tree_bipartition method pop g parts target eps = Err ValueError) /\
    (List.length parts = 2 -> forall e, epsilon_tree_bipartition method pop g parts target eps = Err e ->
      let call := method 0 (subgraph g (g_nodes g)) target eps false in
      call = Err e \/ (call = Ok None /\ e = BalanceError) \/
      exists s, call = Ok (Some s) /\ (e = PopulationBalanceError \/ e = KeyError)).
  Proof.
    unfold epsilon_tree_bipartition, epsilon_tree_bipartition_on. split.
    - intro H. rewrite (proj2 (Nat.eqb_neq _ _) H). reflexivity.
    - intros H e. rewrite H. cbn [Nat.eqb negb]. destruct parts as [|p [|q [|r l]]]; cbn in H; try lia.
      unfold last_two, take. destruct (method 0 (subgraph g (g_nodes g)) target eps false) as [[s|]|e'|]; cbn [bind].
      + assert (Fe : forall lab nodes (a : dict N P * Z), (exists p', lab = Ok p') -> forall e', foldM (fun acc node => p0 <- lab ;; x <- of_option KeyError (dget pop node) ;;
          Ok (dset (fst acc) node p0, (snd acc + x)%Z)) nodes a = Err e' -> e' = KeyError).
        { intros lab nodes a (p' & ->). revert a. induction nodes as [|n nodes IH]; intros a e'; cbn [foldM]; [discriminate|]. cbn [bind].
          destruct (dget pop n); cbn [of_option bind]; [apply IH|congruence]. }
        unfold assign_nodes at 1. destruct (foldM _ (set_of s) _) as [[f1 x1]|e1|] eqn:E1; cbn [bind fst snd].
        * destruct (check_pop target eps x1); cbn [snd].
          -- unfold finish, assign_nodes. destruct (foldM _ (sdiff _ _) _) as [[f2 x2]|e2|] eqn:E2; cbn [bind fst snd].
             ++ destruct (check_pop target eps x2); intro X; [discriminate|]. injection X as <-. right. right. eauto.
             ++ intro X. injection X as <-. right. right. exists s. split; auto. right. eapply Fe; [|exact E2]. exists q. reflexivity.
             ++ discriminate.
          -- intro X. injection X as <-. right. right. eauto.
        * intro X. injection X as <-. right. right. exists s. split; auto. right. eapply Fe; [|exact E1]. exists p. reflexivity.
        * discriminate.
      + cbn [snd]. intro X. injection X as <-. right. left. auto.
      + cbn [snd]. intro X. injection X as <-. now left.
      + discriminate.
  Qed.

  (** recursive_tree_part, for every method that returns nodes of the graph it
      is given. *)
  Theorem C56_sound (method : @method_fn N) pop (g : graph N) (parts : list P) target eps f :
    wf_graph g -> covers pop g -> NoDup parts -> 2 <= List.length parts -> inside method ->
    recursive_tree_part method pop g parts target eps = Ok f ->
    good_plan g pop parts target eps f /\
    (splits_connected method -> forall p, In p parts -> connected_on g (given f p)).
  Proof.
    intros WF Cov ND L2 Ins H. destruct (last_two_split parts L2) as (p & q & Ep).
    unfold recursive_tree_part, recursive_tree_part_on in H.
    set (pre := firstn (List.length parts - 2) parts) in *.
    destruct (part_off method pop 0 g pre target eps (g_nodes g) 0 []) as [rest r] eqn:E.
    destruct r as [[i f1]| |]; try discriminate. rewrite Ep in H.
    destruct (last_two method pop i g (pre ++ [p; q]) target eps rest f1) as [rest' r'] eqn:E2. cbn [snd] in H. subst r'.
    set (D := fine g pop target eps (splits_connected method)).
    assert (De : forall A B, (forall n, A n <-> B n) -> D A -> D B) by apply fine_ext.
    assert (S1 : state g D ([] ++ pre) rest f1).
    { eapply part_off_state; [exact De|exact (fine_take method pop g target eps WF Ins)|apply state_start; exact WF| |exact E].
      cbn [app]. rewrite Ep in ND. now apply NoDup_app_iff in ND. }
    cbn [app] in S1. apply state_plan. rewrite Ep.
    eapply last_two_state with (method := method) (pop := pop) (D := D);
      [exact Cov|exact De|exact (fine_take method pop g target eps WF Ins)|exact (fine_rest method pop g target eps WF)|exact S1| | | |exact E2].
    - now rewrite <- Ep.
    - apply from_end_spec.
    - apply from_end_spec.
  Qed.
  (** With fewer than two labels it cannot succeed: whenever the method returns
      a non-empty set, IndexError is raised. *)
  Theorem C56_one_part_refuted (method : @method_fn N) pop (g : graph N) (parts : list P) target eps n s :
    List.length parts < 2 ->
    method 0 (subgraph g (g_nodes g)) target eps false = Ok (Some (n :: s)) ->
    recursive_tree_part method pop g parts target eps = Err IndexError.
  Proof.
    intros L E. unfold recursive_tree_part, recursive_tree_part_on.
    replace (List.length parts - 2) with 0 by lia. cbn [firstn part_off]. unfold last_two, take. rewrite E. cbn [bind].
    assert (X : from_end 2 parts = Err IndexError) by (destruct parts as [|a [|b l]]; cbn in L; try lia; reflexivity).
    rewrite X. unfold assign_nodes. destruct (set_of (n :: s)) as [|a l] eqn:Es; [|reflexivity].
    assert (Hn : In n (set_of (n :: s))) by (apply In_set_of; now left). rewrite Es in Hn. destruct Hn.
  Qed.
End Theorems.

(** ** The population debt (C57) *)
Section Debt.
  Context {N P : Type} {EN : EqB N} {EP : EqB P}.
  Variables (pop : dict N Z) (g : graph N) (t e : Q).
  Hypothesis Hwf : wf_graph g.
  Hypothesis Hcov : covers pop g.
  Hypothesis Ht : (0 < t)%Q.
  Hypothesis He : (0 <= e)%Q /\ (e <= 1)%Q.

  (** What holds of the [i]-th call of the method when [K] districts are drawn:
      the window of populations passed is inside the tolerance of the plan and
      at least half as wide, and if [t] is the exact average, what is left for
      the remaining [K - i] districts is within [t * e] of [K - i] targets. *)
  Record call_ok (K i : nat) (g' : graph N) (tt ee : Q) (one_sided : bool) : Prop := {
    co_nodes : incl (g_nodes g') (g_nodes g);
    co_target : (0 < tt)%Q;
    co_eps : (0 <= ee)%Q;
    co_low : (t * (1 - e) <= tt * (1 - ee))%Q;
    co_high : (tt * (1 + ee) <= t * (1 + e))%Q;
    co_width : (t * e <= tt * (1 + ee) - tt * (1 - ee))%Q;
    co_step : if one_sided then i + 2 < K else i + 2 = K /\ tt = t /\ ee = e;
    co_left : forall total x, sums_to (popn pop) (fun n => In n (g_nodes g)) total ->
      (inject_Z total == Qn K * t)%Q ->
      sums_to (popn pop) (fun n => In n (g_nodes g')) x ->
      (Qabs (inject_Z x - Qn (K - i) * t) <= t * e)%Q
  }.

  Lemma te_le : (0 <= t * e)%Q /\ (t * e <= t)%Q.
  Proof. destruct He. split; nra. Qed.
  Lemma window_spec debt : (Qabs debt <= t * e)%Q ->
    exists tt ee, window t e debt = Ok (tt, ee) /\ (0 < tt)%Q /\ (0 <= ee)%Q /\
      (t * (1 - e) <= tt * (1 - ee))%Q /\ (tt * (1 + ee) <= t * (1 + e))%Q /\
      (t * e <= tt * (1 + ee) - tt * (1 - ee))%Q /\
      forall x, balanced tt ee x -> balanced t e x /\ (Qabs (debt + (inject_Z x - t)) <= t * e)%Q.
  Proof.
    intro Hd. apply Qabs_Qle_condition in Hd. destruct Hd as [D1 D2]. destruct te_le as [T1 T2].
    unfold window. set (lo := qmax _ _). set (hi := qmin _ _).
    assert (Hlo : (t - t * e <= lo /\ t - t * e - debt <= lo)%Q /\ (lo == t - t * e \/ lo == t - t * e - debt)%Q).
    { unfold lo, qmax. destruct (Qle_bool (t * (1 - e)) (t * (1 - e) - debt)) eqn:E.
      - apply Qle_bool_iff in E. split; [split; lra|right; ring].
      - assert (X : (t * (1 - e) - debt < t * (1 - e))%Q) by (apply Qnot_le_lt; intro X; apply Qle_bool_iff in X; congruence).
        split; [split; lra|left; ring]. }
    assert (Hhi : (hi <= t + t * e /\ hi <= t + t * e - debt)%Q /\ (hi == t + t * e \/ hi == t + t * e - debt)%Q).
    { unfold hi, qmin. destruct (Qle_bool (t * (1 + e)) (t * (1 + e) - debt)) eqn:E.
      - apply Qle_bool_iff in E. split; [split; lra|left; ring].
      - assert (X : (t * (1 + e) - debt < t * (1 + e))%Q) by (apply Qnot_le_lt; intro X; apply Qle_bool_iff in X; congruence).
        split; [split; lra|right; ring]. }
    clearbody lo hi.
    assert (W : (t * e <= hi - lo)%Q) by (destruct Hlo as [[L1 L2] [X|X]], Hhi as [[H1 H2] [Y|Y]]; lra).
    assert (Sm : (t <= hi + lo)%Q) by (destruct Hlo as [[L1 L2] [X|X]], Hhi as [[H1 H2] [Y|Y]]; lra).
    set (tt := ((lo + hi) / 2)%Q). assert (Ett : (tt == (lo + hi) * (1 # 2))%Q) by (unfold tt; field).
    assert (Pt : (0 < tt)%Q) by lra.
    unfold qdiv. destruct (Qeq_bool (2 * tt) 0) eqn:Ez; [apply Qeq_bool_iff in Ez; lra|]. cbn [bind].
    set (ee := ((hi - lo) / (2 * tt))%Q). assert (Em : (tt * ee == (hi - lo) * (1 # 2))%Q) by (unfold ee; field; lra).
    exists tt, ee. split; auto. split; auto. split.
    { unfold ee. apply Qle_shift_div_l; lra. }
    clearbody ee. split; [destruct Hlo; lra|]. split; [destruct Hhi; lra|]. split; [lra|].
    intros x Bx. unfold balanced in *. apply Qabs_Qle_condition in Bx. destruct Bx as [B1 B2].
    assert (X1 : (lo <= inject_Z x)%Q) by lra. assert (X2 : (inject_Z x <= hi)%Q) by lra.
    destruct Hlo as [[L1 L2] _], Hhi as [[H1 H2] _].
    split; apply Qabs_Qle_condition; split; lra.
  Qed.

  Variable method : @method_fn N.
  Hypothesis Hin : inside method.
  Hypothesis Htol : tolerant pop method.
  Implicit Types (f : dict N P).

  Lemma psum_sums l x : NoDup l -> sums_to (popn pop) (fun n => In n l) x -> x = psum pop l.
  Proof. intros ND S. eapply sums_to_fun; [exact S|]. now apply sums_to_list. Qed.
  Lemma balanced_psum t' e' l : NoDup l -> balanced_set (popn pop) t' e' (fun n => In n l) -> balanced t' e' (psum pop l).
  Proof. intros ND (x & S & B). now rewrite <- (psum_sums l x ND S). Qed.
  Lemma psum_sdiff remaining nodes : NoDup remaining -> NoDup nodes -> incl nodes remaining ->
    psum pop (sdiff remaining nodes) = (psum pop remaining - psum pop nodes)%Z.
  Proof.
    intros ND1 ND2 I. assert (E : psum pop remaining = (psum pop nodes + psum pop (sdiff remaining nodes))%Z); [|lia].
    unfold psum. transitivity (vsum (map (popn pop) (nodes ++ sdiff remaining nodes))); [|rewrite map_app, vsum_app; reflexivity].
    apply vsum_same; auto.
    - apply NoDup_app_iff. split; auto. split; [now apply NoDup_sdiff|]. intros n H1 H2. apply In_sdiff in H2. tauto.
    - intro n. rewrite in_app_iff, In_sdiff. destruct (In_dec_of n nodes); [|tauto]. split; auto.
  Qed.
  Lemma take_ok i remaining tt ee os p f s : incl remaining (g_nodes g) ->
    method i (subgraph g remaining) tt ee os = Ok (Some s) -> balanced t e (psum pop (set_of s)) ->
    take method pop i g remaining t e tt ee os (Ok p) f = Ok (set_of s, painted p (set_of s) f, psum pop (set_of s)) /\ incl (set_of s) remaining.
  Proof.
    intros I E B. assert (Inc : incl (set_of s) remaining).
    { intros n Hn. rewrite In_set_of in Hn. apply (Hin _ _ _ _ _ _ E) in Hn. apply subgraph_nodes in Hn. tauto. }
    split; auto. unfold take. rewrite E. cbn [bind]. unfold assign_nodes. rewrite assign_ok.
    - cbn [bind fst snd]. rewrite Z.add_0_l, (proj2 (check_spec t e _) B). reflexivity.
    - intros n Hn. apply Hcov. auto.
  Qed.
  Lemma sub_keys remaining : incl (g_nodes (subgraph g remaining)) (dkeys pop).
  Proof. intros n Hn. apply Hcov. apply subgraph_nodes in Hn. tauto. Qed.
  Lemma sub_sum remaining x : NoDup remaining -> incl remaining (g_nodes g) ->
    sums_to (popn pop) (fun n => In n (g_nodes (subgraph g remaining))) x -> x = psum pop remaining.
  Proof. intros ND I S. apply psum_sums; auto. eapply sums_to_ext; [|exact S]. intro n. apply (sub_nodes g remaining I). Qed.

  (** The accumulated deviation [debt] after [i] districts. *)
  Record owes (i : nat) (remaining : list N) (debt : Q) : Prop := {
    ow_nodup : NoDup remaining;
    ow_incl : incl remaining (g_nodes g);
    ow_debt : (Qabs debt <= t * e)%Q;
    ow_pop : (inject_Z (psum pop remaining) == inject_Z (psum pop (g_nodes g)) - Qn i * t - debt)%Q
  }.
  Lemma Qn_S i : (Qn (S i) == Qn i + 1)%Q.
  Proof. unfold Qn. rewrite Nat2Z.inj_succ. unfold Z.succ. rewrite inject_Z_plus. reflexivity. Qed.
  Lemma Qn_sub K i : i <= K -> (Qn (K - i) == Qn K - Qn i)%Q.
  Proof. intro H. unfold Qn. rewrite Nat2Z.inj_sub by lia. unfold Zminus. rewrite inject_Z_plus, inject_Z_opp. reflexivity. Qed.
  Lemma owes_call K i remaining debt tt ee os : owes i remaining debt -> i <= K ->
    (0 < tt)%Q -> (0 <= ee)%Q -> (t * (1 - e) <= tt * (1 - ee))%Q -> (tt * (1 + ee) <= t * (1 + e))%Q ->
    (t * e <= tt * (1 + ee) - tt * (1 - ee))%Q -> (if os : bool then i + 2 < K else i + 2 = K /\ tt = t /\ ee = e) ->
    call_ok K i (subgraph g remaining) tt ee os.
  Proof.
    intros [A B C D] Hi H1 H2 H3 H4 H5 H6. constructor; auto.
    - intros n Hn. apply subgraph_nodes in Hn. tauto.
    - intros total x S1 E S2. apply (sub_sum remaining x A B) in S2. subst x.
      apply (psum_sums (g_nodes g) total (wfg_nodes g Hwf)) in S1. subst total.
      rewrite D, E, (Qn_sub K i Hi). apply Qabs_Qle_condition in C. destruct C as [C1 C2].
      apply Qabs_Qle_condition. split; lra.
  Qed.
  Lemma part_off_owes K (m' : @method_fn N) :
    (forall i g' tt ee os, call_ok K i g' tt ee os -> m' i g' tt ee os = method i g' tt ee os) ->
    forall todo i remaining debt f, owes i remaining debt -> i + List.length todo + 2 = K ->
    let r := part_off method pop i g todo t e remaining debt f in
    part_off m' pop i g todo t e remaining debt f = r /\
    (forall rest j f', r = (rest, Ok (j, f')) -> j + 2 = K /\ exists debt', owes j rest debt') /\
    (forall rest x, r = (rest, Err x) -> x = BalanceError \/
      exists i g' tt ee os, call_ok K i g' tt ee os /\ method i g' tt ee os = Err x).
  Proof.
    intro Ag. induction todo as [|p todo IH]; intros i remaining debt f O HK; cbn [part_off]; cbn zeta.
    - split; auto. split.
      + intros rest j f' H. injection H as <- <- <-. cbn in HK. split; [lia|eauto].
      + intros rest x H. discriminate.
    - destruct (window_spec debt (ow_debt _ _ _ O)) as (tt & ee & Ew & W1 & W2 & W3 & W4 & W5 & W6).
      rewrite Ew. cbn [bind fst snd]. cbn [List.length] in HK.
      assert (C : call_ok K i (subgraph g remaining) tt ee true) by (apply (owes_call K i remaining debt); auto; lia).
      assert (Tk : take m' pop i g remaining t e tt ee true (Ok p) f = take method pop i g remaining t e tt ee true (Ok p) f)
        by (unfold take; now rewrite (Ag _ _ _ _ _ C)).
      rewrite Tk.
      destruct (method i (subgraph g remaining) tt ee true) as [[s|]|x|] eqn:Em.
      + destruct (Htol _ _ _ _ _ _ (wf_subgraph g remaining Hwf) (sub_keys remaining) Em) as [B _].
        assert (Bs : balanced tt ee (psum pop (set_of s))).
        { apply balanced_psum; [apply NoDup_set_of|]. eapply balanced_set_ext; [|exact B]. intro n. now rewrite In_set_of. }
        destruct (W6 _ Bs) as [Bt Db].
        destruct (take_ok i remaining tt ee true p f s (ow_incl _ _ _ O) Em Bt) as [Et Inc]. rewrite Et.
        apply IH; [|lia].
        assert (NDs := NoDup_set_of s). assert (Sd := psum_sdiff remaining (set_of s) (ow_nodup _ _ _ O) NDs Inc).
        constructor.
        * apply NoDup_sdiff, O.
        * intros n Hn. apply In_sdiff in Hn. apply (ow_incl _ _ _ O). tauto.
        * exact Db.
        * rewrite Sd. unfold Zminus. rewrite inject_Z_plus, inject_Z_opp, (ow_pop _ _ _ O), Qn_S. ring.
      + unfold take. rewrite Em. cbn [bind]. split; auto. split; [intros; discriminate|]. intros rest x H. injection H as _ <-. now left.
      + unfold take. rewrite Em. cbn [bind]. split; auto. split; [intros; discriminate|]. intros rest x' H. injection H as _ <-. right. eauto 8.
      + unfold take. rewrite Em. cbn [bind]. split; auto. split; intros; discriminate.
  Qed.

  (** With a tolerant method, (1) only calls as in [call_ok] are made: any
      other method that agrees on those calls gives the same result; (2) the
      only errors are those of such calls and BalanceError for None, so the
      population checks never fail. *)
  Theorem C57_debt (parts : list P) : 2 <= List.length parts ->
    (forall m', (forall i g' tt ee os, call_ok (List.length parts) i g' tt ee os -> m' i g' tt ee os = method i g' tt ee os) ->
      recursive_tree_part m' pop g parts t e = recursive_tree_part method pop g parts t e) /\
    (forall x, recursive_tree_part method pop g parts t e = Err x -> x = BalanceError \/
      exists i g' tt ee os, call_ok (List.length parts) i g' tt ee os /\ method i g' tt ee os = Err x).
  Proof.
    intro L2. set (K := List.length parts). destruct (last_two_split parts L2) as (p & q & Ep). fold K in L2, Ep.
    assert (O0 : owes 0 (g_nodes g) 0).
    { constructor; [apply (wfg_nodes g Hwf)|apply incl_refl| |].
      - rewrite Qabs_pos by lra. apply te_le.
      - unfold Qn. cbn [Z.of_nat]. change (inject_Z 0) with 0%Q. ring. }
    assert (Lp : 0 + List.length (firstn (K - 2) parts) + 2 = K) by (rewrite firstn_length; fold K; lia).
    assert (Last : forall m' i rest debt f, (forall i g' tt ee os, call_ok K i g' tt ee os -> m' i g' tt ee os = method i g' tt ee os) ->
      owes i rest debt -> i + 2 = K ->
      last_two m' pop i g parts t e rest f = last_two method pop i g parts t e rest f /\
      forall x, snd (last_two method pop i g parts t e rest f) = Err x -> x = BalanceError \/ method i (subgraph g rest) t e false = Err x /\ call_ok K i (subgraph g rest) t e false).
    { intros m' i rest debt f Ag O Hi. destruct te_le as [T1 T2].
      assert (C : call_ok K i (subgraph g rest) t e false) by (apply (owes_call K i rest debt); auto; try lra; lia).
      unfold last_two. split.
      - unfold take. now rewrite (Ag _ _ _ _ _ C).
      - rewrite Ep. destruct (from_end_spec (firstn (K - 2) parts) p q) as [-> ->].
        intros x. destruct (method i (subgraph g rest) t e false) as [[s|]|x'|] eqn:Em.
        + destruct (Htol _ _ _ _ _ _ (wf_subgraph g rest Hwf) (sub_keys rest) Em) as [B B2]. specialize (B2 eq_refl).
          assert (Bs : balanced t e (psum pop (set_of s))).
          { apply balanced_psum; [apply NoDup_set_of|]. eapply balanced_set_ext; [|exact B]. intro n. now rewrite In_set_of. }
          destruct (take_ok i rest t e false p f s (ow_incl _ _ _ O) Em Bs) as [Et Inc]. rewrite Et. cbn [snd].
          unfold finish, assign_nodes. rewrite assign_ok.
          * cbn [bind fst snd]. rewrite Z.add_0_l. rewrite (proj2 (check_spec t e _)); [discriminate|].
            apply balanced_psum; [apply NoDup_sdiff, O|]. eapply balanced_set_ext; [|exact B2]. intro n. unfold outside.
            rewrite In_sdiff, In_set_of, (sub_nodes g rest (ow_incl _ _ _ O)). tauto.
          * intros n Hn. apply In_sdiff in Hn. apply Hcov. apply (ow_incl _ _ _ O). tauto.
        + unfold take. rewrite Em. cbn [bind snd]. intro H. injection H as <-. now left.
        + unfold take. rewrite Em. cbn [bind snd]. intro H. injection H as <-. right. auto.
        + unfold take. rewrite Em. cbn [bind snd]. discriminate. }
    unfold recursive_tree_part, recursive_tree_part_on. fold K. split.
    - intros m' Ag. destruct (part_off_owes K m' Ag (firstn (K - 2) parts) 0 (g_nodes g) 0 [] O0 Lp) as (E & E2 & _). rewrite E.
      destruct (part_off method pop 0 g (firstn (K - 2) parts) t e (g_nodes g) 0 []) as [rest [[j f']|x|]]; auto.
      destruct (E2 _ _ _ eq_refl) as (Hj & debt' & O). destruct (Last m' j rest debt' f' Ag O Hj) as [El _]. now rewrite El.
    - intros x. destruct (part_off_owes K method (fun _ _ _ _ _ _ => eq_refl) (firstn (K - 2) parts) 0 (g_nodes g) 0 [] O0 Lp) as (_ & E2 & E3).
      destruct (part_off method pop 0 g (firstn (K - 2) parts) t e (g_nodes g) 0 []) as [rest [[j f']|x'|]].
      + destruct (E2 _ _ _ eq_refl) as (Hj & debt' & O). intro H.
        destruct (proj2 (Last method j rest debt' f' (fun _ _ _ _ _ _ => eq_refl) O Hj) x H) as [X|[X1 X2]]; eauto 9.
      + cbn [snd]. intro H. injection H as <-. eapply E3; eauto.
      + discriminate.
  Qed.
End Debt.

(** ** bipartition_tree as the method *)
Section Library.
  Context {N : Type} {EN : EqB N}.
  Variables (balance : @balance_fn N) (tree : nat -> graph N -> nat -> res (graph N)) (pop : dict N Z)
            (weights : nat -> nat -> N * N -> Q) (draws : nat -> nat -> nat).
  Lemma populations_inv g p : populations pop g = Ok p ->
    NoDup (dkeys p) /\ (forall n, In n (dkeys p) <-> In n (g_nodes g)) /\ forall n, In n (g_nodes g) -> popn p n = popn pop n.
  Proof.
    unfold populations. intro H. assert (X : forall l p, mapM (fun n => x <- of_option KeyError (dget pop n) ;; Ok (n, x)) l = Ok p ->
      dkeys p = l /\ forall n, In n l -> dget p n = dget pop n).
    { clear. induction l as [|a l IH]; intros p H; cbn [mapM] in H.
      - injection H as <-. split; [reflexivity|]. intros n [].
      - destruct (dget pop a) as [x|] eqn:E; try discriminate. cbn [of_option bind] in H.
        destruct (mapM _ l) as [p1| |] eqn:E1; try discriminate. cbn [bind] in H. injection H as <-.
        destruct (IH p1 eq_refl) as [I1 I2]. split; [cbn [dkeys map fst]; unfold dkeys in I1; now rewrite I1|].
        intros n [<-|Hn]; cbn [dget].
        + now rewrite eqb_refl, E.
        + destruct (eqb_spec n a) as [->|Ne]; [auto|]. now apply I2. }
    destruct (X _ _ H) as [K D]. split; [rewrite K; apply NoDup_set_of|]. split; [intro n; rewrite K; apply Base.In_set_of|].
    intros n Hn. unfold popn, dget_or. rewrite D; [reflexivity|]. now apply Base.In_set_of.
  Qed.
  Lemma balanced_w (p p' : N -> Z) t e (A : N -> Prop) : (forall n, A n -> p n = p' n) -> balanced_set p t e A -> balanced_set p' t e A.
  Proof. intros H (x & S & B). exists x. split; auto. eapply sums_to_w; eauto. Qed.

  (** It meets the contracts, for every sampler of spanning trees, cut search
      and cut choice. *)
  Theorem C56_bipartition_tree fuel max k reselect pick :
    cut_search balance -> (forall i g, samples g (tree i g)) ->
    (forall i cuts c, pick i cuts = Ok c -> In c cuts) ->
    let m := tree_method balance tree pop weights draws fuel max k reselect pick in
    inside m /\ splits_connected m /\ tolerant pop m.
  Proof.
    intros Bal Smp Pick m.
    assert (G : forall i g t e os s, m i g t e os = Ok (Some s) -> exists p, populations pop g = Ok p /\ good_split g p t e (negb os) s).
    { intros i g t e os s H. unfold m, tree_method in H. destruct (populations pop g) as [p| |] eqn:Ep; try discriminate. cbn [bind] in H.
      destruct (bipartition_tree_call _ _ _ _ _ _ _ _ _ _ _ _ _ _) as [s1| |] eqn:E; try discriminate. cbn [bind] in H. injection H as <-.
      exists p. split; auto. destruct (populations_inv _ _ Ep) as (K1 & K2 & _).
      eapply (C53_sound balance (tree i g) g p t e os (weights i) (draws i) fuel max k reselect None (pick i)); [exact Bal|apply Smp|discriminate|split; [exact K1|exact K2]|apply Pick|exact E]. }
    split; [|split].
    - intros i g t e os s H. destruct (G _ _ _ _ _ _ H) as (p & _ & S). apply (gs_incl _ _ _ _ _ _ S).
    - intros i g t e os s _ H. destruct (G _ _ _ _ _ _ H) as (p & _ & S). split; [apply (gs_connected _ _ _ _ _ _ S)|apply (gs_complement _ _ _ _ _ _ S)].
    - intros i g t e os s _ _ H. destruct (G _ _ _ _ _ _ H) as (p & Ep & S). destruct (populations_inv _ _ Ep) as (_ & _ & K3). split.
      + eapply balanced_w; [|exact (gs_balanced _ _ _ _ _ _ S)]. intros n Hn. apply K3. now apply (gs_incl _ _ _ _ _ _ S).
      + intros ->. eapply balanced_w; [|exact (gs_both _ _ _ _ _ _ S eq_refl)]. intros n [Hn _]. now apply K3.
  Qed.
End Library.

(** ** Node sets of frozen graphs (C61) *)
Section FrozenSets.
  Context {N P : Type} {EN : EqB N} {EP : EqB P}.
  (** A plain graph is not changed. *)
  Theorem C61_plain (method : @method_fn N) pop (g : graph N) (parts : list P) target eps :
    let r := recursive_tree_part_object method pop Plain g parts target eps in
    fst r = Plain /\ node_indices (fst r) g = g_nodes g /\ snd r = recursive_tree_part method pop g parts target eps.
  Proof. cbn. auto. Qed.
  (** A frozen graph is left with the nodes of the last district only. *)
  Theorem C61_frozen (method : @method_fn N) pop (g : graph N) (pre : list P) p q target eps f :
    wf_graph g -> covers pop g -> NoDup (pre ++ [p; q]) -> inside method ->
    let r := recursive_tree_part_object method pop (Frozen None) g (pre ++ [p; q]) target eps in
    snd r = Ok f -> forall n, In n (node_indices (fst r) g) <-> given f q n.
  Proof.
    intros WF Cov ND Ins r. unfold r, recursive_tree_part_object. cbn [node_indices fst snd after]. unfold recursive_tree_part_on.
    replace (List.length (pre ++ [p; q]) - 2) with (List.length pre) by (rewrite app_length; cbn; lia).
    rewrite firstn_app, firstn_all, Nat.sub_diag. cbn [firstn]. rewrite app_nil_r.
    destruct (part_off method pop 0 g pre target eps (g_nodes g) 0 []) as [rest x] eqn:E. destruct x as [[i f1]| |]; try discriminate.
    destruct (last_two method pop i g (pre ++ [p; q]) target eps rest f1) as [rest' x'] eqn:E2. cbn [fst snd]. intro; subst x'.
    set (D := fine g pop target eps (splits_connected method)).
    assert (De : forall A B, (forall n, A n <-> B n) -> D A -> D B) by apply fine_ext.
    assert (S1 : state g D ([] ++ pre) rest f1).
    { eapply part_off_state; [exact De|exact (fine_take method pop g target eps WF Ins)|apply state_start; exact WF| |exact E].
      cbn [app]. now apply NoDup_app_iff in ND. }
    cbn [app] in S1.
    eapply last_two_state with (method := method) (pop := pop) (D := D);
      [exact Cov|exact De|exact (fine_take method pop g target eps WF Ins)|exact (fine_rest method pop g target eps WF)|exact S1|exact ND| | |exact E2];
      apply from_end_spec.
  Qed.
End FrozenSets.
Section FromRandom.
  Context {N : Type} {EN : EqB N}.
  Lemma total_ok pop l : incl l (dkeys pop) -> forall z,
    foldM (fun acc n => x <- of_option KeyError (dget pop n) ;; Ok (acc + x)%Z) l z = Ok (z + psum (N := N) pop l)%Z.
  Proof.
    induction l as [|a l IH]; intros I z; cbn [foldM].
    - unfold psum. cbn [map]. rewrite vsum_nil. change (@c0 Z _) with 0%Z. f_equal. lia.
    - destruct (proj1 (dget_In_keys pop a) (I a (or_introl eq_refl))) as (x & E). rewrite E. cbn [of_option bind].
      rewrite IH by (intros n Hn; apply I; now right). f_equal. rewrite psum_cons, (popn_some _ _ _ E). lia.
  Qed.
  Lemma seq_split k : 2 <= k -> seq 0 k = seq 0 (k - 2) ++ [k - 2; k - 1].
  Proof.
    intro H. replace k with (k - 2 + 2) at 1 by lia. rewrite seq_app. cbn [seq]. f_equal. f_equal. f_equal. lia.
  Qed.
  (** from_random_assignment with a plain graph succeeds whenever
      recursive_tree_part does, and gives its plan. *)
  Theorem C61_random_plain (method : @method_fn N) pop (g : graph N) k eps f :
    wf_graph g -> covers pop g -> inside method -> 2 <= k ->
    recursive_tree_part method pop g (seq 0 k) (inject_Z (psum pop (g_nodes g)) / Qn k) eps = Ok f ->
    from_random_assignment method pop Plain g k eps = (Plain, Ok f).
  Proof.
    intros WF Cov Ins Hk E. unfold from_random_assignment. cbn [node_indices].
    rewrite total_ok by (intros n Hn; now apply Cov). cbn [bind]. rewrite Z.add_0_l.
    unfold qdiv. replace (Qeq_bool (Qn k) 0) with false.
    2: { symmetry. apply not_true_iff_false. intro X. apply Qeq_bool_iff in X. unfold Qn, inject_Z, Qeq in X. cbn in X. lia. }
    unfold recursive_tree_part_object. cbn [node_indices fst snd after]. fold (recursive_tree_part method pop g (seq 0 k) (inject_Z (psum pop (g_nodes g)) / Qn k) eps).
    rewrite E. cbn [bind].
    destruct (C56_sound method pop g (seq 0 k) _ eps f WF Cov (seq_NoDup k 0) ltac:(rewrite seq_length; lia) Ins E) as [G _].
    replace (seteqb (dkeys f) (g_nodes g)) with true; auto. symmetry. apply seteqb_spec. intro n. apply (gp_nodes _ _ _ _ _ _ G).
  Qed.
  (** With a frozen graph it never succeeds with two or more districts and a
      method that never returns an empty set: it raises KeyError whenever
      recursive_tree_part succeeds. *)
  Theorem C61_random_frozen_refuted (method : @method_fn N) pop (g : graph N) k eps f :
    wf_graph g -> covers pop g -> inside method -> (forall i g' t e os s, method i g' t e os = Ok (Some s) -> s <> []) -> 2 <= k ->
    recursive_tree_part method pop g (seq 0 k) (inject_Z (psum pop (g_nodes g)) / Qn k) eps = Ok f ->
    snd (from_random_assignment method pop (Frozen None) g k eps) = Err KeyError.
  Proof.
    intros WF Cov Ins NE Hk E. unfold from_random_assignment. cbn [node_indices].
    rewrite total_ok by (intros n Hn; now apply Cov). cbn [bind]. rewrite Z.add_0_l.
    unfold qdiv. replace (Qeq_bool (Qn k) 0) with false.
    2: { symmetry. apply not_true_iff_false. intro X. apply Qeq_bool_iff in X. unfold Qn, inject_Z, Qeq in X. cbn in X. lia. }
    set (t := (inject_Z (psum pop (g_nodes g)) / Qn k)%Q) in *. cbn [snd].
    assert (Sp := seq_split k Hk). assert (NDs := seq_NoDup k 0).
    assert (Es : snd (recursive_tree_part_object method pop (Frozen None) g (seq 0 k) t eps) = Ok f) by exact E.
    assert (Fr : forall n, In n (node_indices (fst (recursive_tree_part_object method pop (Frozen None) g (seq 0 k) t eps)) g) <-> given f (k - 1) n).
    { rewrite Sp in *. eapply C61_frozen; eauto. }
    rewrite Es. cbn [bind].
    destruct (C56_sound method pop g (seq 0 k) t eps f WF Cov NDs ltac:(rewrite seq_length; lia) Ins E) as [G _].
    (* the district before the last is not empty *)
    assert (Ex : exists n, given f (k - 2) n).
    { clear Es Fr G. unfold recursive_tree_part, recursive_tree_part_on in E. rewrite seq_length in E.
      replace (firstn (k - 2) (seq 0 k)) with (seq 0 (k - 2)) in E.
      2: { rewrite Sp. rewrite firstn_app, seq_length, Nat.sub_diag. cbn [firstn]. rewrite app_nil_r. symmetry. rewrite <- (seq_length (k - 2) 0) at 1. apply firstn_all. }
      destruct (part_off method pop 0 g (seq 0 (k - 2)) t eps (g_nodes g) 0 []) as [rest x]. destruct x as [[i f1]| |]; try discriminate.
      unfold last_two in E. assert (F2 : from_end 2 (seq 0 k) = Ok (k - 2)) by (rewrite Sp; apply from_end_spec).
      assert (F1 : from_end 1 (seq 0 k) = Ok (k - 1)) by (rewrite Sp; apply from_end_spec). rewrite F1, F2 in E.
      destruct (take _ _ _ _ _ _ _ _ _ _ _ _) as [[[nodes f2] x2]| |] eqn:Et; try discriminate. cbn [snd] in E.
      apply take_inv in Et. destruct Et as (s & Em & -> & _ & _ & _ & F). assert (Hs := NE _ _ _ _ _ _ Em). destruct s as [|n s]; [congruence|].
      assert (Hn : In n (set_of (n :: s))) by (apply Base.In_set_of; now left).
      destruct F as [(X & _)|(p' & X & ->)]; [rewrite X in Hn; destruct Hn|]. injection X as <-.
      exists n. unfold finish in E. destruct (assign_nodes _ _ _ _) as [[f3 x3]| |] eqn:Ea; try discriminate. cbn [bind fst snd] in E.
      destruct (check_pop t eps x3); try discriminate. injection E as <-. unfold assign_nodes in Ea. apply assign_inv in Ea. unfold given.
      assert (Dn : dget (painted (k - 2) (set_of (n :: s)) f1) n = Some (k - 2)) by (rewrite dget_painted, (proj2 (mem_In n _) Hn); reflexivity).
      destruct Ea as [(_ & Ea)|(p2 & Ep & _ & _ & Ea)].
      - injection Ea as -> _. exact Dn.
      - injection Ea as -> _. rewrite dget_painted. destruct (mem n (sdiff rest (set_of (n :: s)))) eqn:Em'; [|exact Dn].
        apply mem_In, In_sdiff in Em'. tauto. }
    destruct Ex as (n & Hn).
    replace (seteqb (dkeys f) _) with false; auto. symmetry. apply not_true_iff_false. intro X.
    assert (Y : In n (dkeys f)) by (apply dget_In_keys; unfold given in Hn; eauto).
    apply (proj1 (seteqb_spec _ _) X) in Y. apply Fr in Y. unfold given in *. rewrite Hn in Y. injection Y as Y. lia.
  Qed.
End FromRandom.

(** ** Examples and refutations *)
(** A sampler that looks the tree up in a list. *)
Definition lookup_tree (known : list (graph nat)) (g : graph nat) : res (graph nat) :=
  of_option KeyError (find (fun T => seteqb (g_nodes T) (g_nodes g) && subsetb (g_edges T) (g_edges g)) known).
Lemma lookup_samples known g (j : nat) : Forall is_tree known -> samples g (fun _ => lookup_tree known g).
Proof.
  intros F i T H. unfold lookup_tree in H. destruct (find _ known) as [T'|] eqn:E; try discriminate. injection H as ->.
  apply find_some in E. destruct E as [E1 E2]. apply andb_true_iff in E2. destruct E2 as [E2 E3].
  rewrite Forall_forall in F. split; [auto|]. split; [intro n; apply (proj1 (seteqb_spec _ _) E2)|].
  apply subsetb_spec in E3. intros u v [A|A]; [left|right]; now apply E3.
Qed.
Definition six : graph nat := path_tree 6.
Definition trees_of_six : list (graph nat) :=
  [path_tree 6; mkGraph [2; 3; 4; 5] [(2, 3); (3, 4); (4, 5)]; path_tree 4].
Lemma trees_of_six_ok : Forall is_tree trees_of_six.
Proof. unfold trees_of_six. repeat (apply Forall_cons; [apply is_connected_tree; [wfg|reflexivity|vm_compute; reflexivity]|]). apply Forall_nil. Qed.
Definition six_method : @method_fn nat :=
  tree_method find_cuts_memoization (fun _ g _ => lookup_tree trees_of_six g) (flat_pop 6 1)
    (fun _ _ _ => 0%Q) (fun _ i => i) 4 (Some 4) 1 false (fun _ => max_weight_choice).
Lemma six_contracts : inside six_method /\ splits_connected six_method /\ tolerant (flat_pop 6 1) six_method.
Proof.
  apply C56_bipartition_tree.
  - apply C53_memoization_search.
  - intros i g. exact (lookup_samples trees_of_six g 0 trees_of_six_ok).
  - intros _ cuts c H. destruct cuts as [|c0 l]; [discriminate|]. destruct (C62_max_weight (c0 :: l)) as (c' & E & I & _); [discriminate|]. congruence.
Qed.
Lemma six_wf : wf_graph six /\ covers (flat_pop 6 1) six.
Proof. split; [wfg|]. split; [nodup|]. intro n. cbn. tauto. Qed.
Example C56_nonvacuous :
  wf_graph six /\ covers (flat_pop 6 1) six /\ inside six_method /\ splits_connected six_method /\ tolerant (flat_pop 6 1) six_method /\
  recursive_tree_part six_method (flat_pop 6 1) six [7; 8; 9] 2 0 =
    Ok [(4, 7); (5, 7); (0, 8); (1, 8); (2, 9); (3, 9)].
Proof.
  destruct six_wf as [W C]. destruct six_contracts as (I1 & I2 & I3).
  do 5 (split; [assumption|]). vm_compute. reflexivity.
Qed.
Example C55_nonvacuous :
  epsilon_tree_bipartition six_method (flat_pop 6 1) six [7; 8] 3 (1 # 4) = Ok [(0, 7); (1, 7); (2, 7); (3, 8); (4, 8); (5, 8)] /\
  epsilon_tree_bipartition six_method (flat_pop 6 1) six [7] 3 (1 # 4) = Err ValueError /\
  epsilon_tree_bipartition six_method (flat_pop 6 1) six [7; 8] 2 (1 # 4) = Err RuntimeError.
Proof. split; [|split]; vm_compute; reflexivity. Qed.
(** C61 on the same graph: the frozen graph keeps two of its six nodes. *)
Theorem C61_preserved_refuted :
  exists (g : graph nat) method pop parts target eps f,
    wf_graph g /\ covers pop g /\ inside method /\
    snd (recursive_tree_part_object method pop (Frozen None) g parts target eps) = Ok f /\
    exists n : nat, In n (g_nodes g) /\ ~ In n (node_indices (fst (recursive_tree_part_object (P := nat) method pop (Frozen None) g parts target eps)) g).
Proof.
  exists six, six_method, (flat_pop 6 1), [7; 8; 9], 2%Q, 0%Q. eexists. destruct six_wf as [W C]. destruct six_contracts as (I1 & _).
  split; auto. split; auto. split; auto. split; [vm_compute; reflexivity|].
  exists 0. split; [now left|]. vm_compute. intros [X|[X|[]]]; discriminate.
Qed.
Example C61_nonvacuous :
  from_random_assignment six_method (flat_pop 6 1) Plain six 3 0 = (Plain, Ok [(4, 0); (5, 0); (0, 1); (1, 1); (2, 2); (3, 2)]) /\
  from_random_assignment six_method (flat_pop 6 1) (Frozen None) six 3 0 = (Frozen (Some [2; 3]), Err KeyError).
Proof. split; vm_compute; reflexivity. Qed.
(** C54: epsilon_tree_bipartition, and so ReCom, can fail with
    PopulationBalanceError with bipartition_tree_random on a tree that has a
    balanced cut, which bipartition_tree finds. *)
Theorem C54_recom_refuted :
  exists (g : graph nat) (tree : nat -> graph nat -> nat -> res (graph nat)) pop target eps,
    wf_graph g /\ covers pop g /\ (forall i g', samples g' (tree i g')) /\
    epsilon_tree_bipartition (P := nat)
      (tree_random_method find_cuts_memoization tree pop (fun _ _ _ => 0%Q) (fun _ i => i) 1 (Some 1) 1 true (fun _ => 0))
      pop g [0; 1] target eps = Err PopulationBalanceError /\
    exists f, epsilon_tree_bipartition
      (tree_method find_cuts_memoization tree pop (fun _ _ _ => 0%Q) (fun _ i => i) 1 (Some 1) 1 false (fun _ => max_weight_choice))
      pop g [0; 1] target eps = Ok f /\ good_plan g pop [0; 1] target eps f.
Proof.
  exists square, (fun _ g _ => lookup_tree [path_tree 4] g), (flat_pop 4 4), 10%Q, (1 # 5).
  split; [exact square_wf|]. split; [exact square_covers|]. split.
  { intros i g'. apply (lookup_samples [path_tree 4] g' 0). constructor; [|constructor]. exact (proj1 path_spans_square). }
  split; [vm_compute; reflexivity|]. eexists.
  assert (E : epsilon_tree_bipartition
      (tree_method find_cuts_memoization (fun _ g _ => lookup_tree [path_tree 4] g) (flat_pop 4 4) (fun _ _ _ => 0%Q) (fun _ i => i) 1 (Some 1) 1 false (fun _ => max_weight_choice))
      (flat_pop 4 4) square [0; 1] 10 (1 # 5) = Ok [(0, 0); (1, 0); (2, 1); (3, 1)]) by (vm_compute; reflexivity).
  split; [exact E|]. eapply C55_sound; [exact square_wf|exact square_covers|discriminate|exact E].
Qed.

Print Assumptions C55_sound.
Print Assumptions C55_errors.
Print Assumptions C56_sound.
Print Assumptions C56_one_part_refuted.
Print Assumptions C56_bipartition_tree.
Print Assumptions C57_debt.
Print Assumptions C61_plain.
Print Assumptions C61_frozen.
Print Assumptions C61_preserved_refuted.
Print Assumptions C61_random_plain.
Print Assumptions C61_random_frozen_refuted.
Print Assumptions C54_recom_refuted.
