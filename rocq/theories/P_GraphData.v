(** C80: what join and add_data write. *)
From Coq Require Import List Bool Arith Lia ZifyBool ZifyNat.
From Verif Require Import Base S_Partition L_Updaters M_GraphData.
Import ListNotations.
Local Open Scope nat_scope.
Local Open Scope list_scope.

Section Data.
  Context {F X : Type} {EF : EqB F} {EX : EqB X}.
  Notation frame := (@frame F X).
  Notation store := (@store F X).
  Implicit Types (s : store) (df : frame) (c : F) (n k v x : X) (left right : option F) (columns : option (list F)).

  (** ** Specification *)
  Record wf_frame df : Prop := {
    wf_names : NoDup (dkeys (f_columns df));
    wf_lengths : forall c xs, dget (f_columns df) c = Some xs -> length xs = length (f_index df)
  }.
  (** The last row with label [k]. *)
  Definition last_row (labels : list X) k (i : nat) : Prop :=
    nth_error labels i = Some k /\ forall j, i < j -> nth_error labels j <> Some k.
  (** The labels rows are matched by. *)
  Definition labels_of df right : option (list X) :=
    match right with None => Some (f_index df) | Some r => dget (f_columns df) r end.
  (** The value of column [c] in the row with label [k]. *)
  Definition table_value df right k c v : Prop :=
    exists labels xs i, labels_of df right = Some labels /\ dget (f_columns df) c = Some xs /\ last_row labels k i /\ nth_error xs i = Some v.
  (** What node [n] is matched by. *)
  Definition node_key s left n k : Prop :=
    match left with
    | None => k = n /\ In n (dkeys s)
    | Some l => exists d, dget s n = Some d /\ dget d l = Some k
    end.
  (** The columns that are joined: the requested ones or all, except the one
      rows are matched by. *)
  Definition joined df columns right c : Prop :=
    In c (dkeys (f_columns df)) /\ right <> Some c /\ match columns with Some cs => In c cs | None => True end.

  (** ** Lemmas *)
  Lemma dget_app {K V} {EK : EqB K} (a b : dict K V) (k0 : K) : dget (a ++ b) k0 = match dget a k0 with Some w => Some w | None => dget b k0 end.
  Proof. induction a as [|[k1 w1] a IH]; cbn [app dget]; [reflexivity|]. now destruct (eqb k0 k1). Qed.
  Lemma update_rev {K V} {EK : EqB K} (e : dict K V) : forall d (k0 : K), dget (update d e) k0 = match dget (rev e) k0 with Some w => Some w | None => dget d k0 end.
  Proof.
    unfold update. induction e as [|[k1 w1] e IH]; intros d k0; [reflexivity|]. cbn [fold_left fst snd rev]. rewrite IH, dget_app. destruct (dget (rev e) k0); [reflexivity|]. cbn [dget].
    rewrite dget_dset. destruct (eqb_spec k1 k0) as [->|Hn]; [now rewrite eqb_refl|]. destruct (eqb_spec k0 k1); [congruence|reflexivity].
  Qed.
  Lemma update_spec {K V} {EK : EqB K} (d e : dict K V) (k0 : K) :
    (exists w, In (k0, w) e /\ dget (update d e) k0 = Some w) \/ (~ In k0 (dkeys e) /\ dget (update d e) k0 = dget d k0).
  Proof.
    rewrite update_rev. destruct (dget (rev e) k0) as [w|] eqn:E.
    - left. exists w. split; [|reflexivity]. apply in_rev. now apply dget_In in E.
    - right. split; [|reflexivity]. apply dget_None in E. intro H. apply E. unfold dkeys in *. rewrite map_rev. now apply -> in_rev.
  Qed.
  Lemma column_last (labels xs : list X) k v : length labels = length xs ->
    dget (column_dict labels xs) k = Some v <-> exists i, last_row labels k i /\ nth_error xs i = Some v.
  Proof.
    unfold column_dict. rewrite update_rev. cbn [dget]. revert xs. induction labels as [|l labels IH]; intros [|x xs] Hl; try discriminate.
    - cbn. split; [discriminate|]. intros (i & [H _] & _). destruct i; discriminate.
    - cbn [combine rev]. rewrite dget_app. specialize (IH xs ltac:(cbn in Hl; lia)). cbn [dget].
      destruct (dget (rev (combine labels xs)) k) as [w|] eqn:E.
      + split.
        * intros [= <-]. destruct (proj1 IH eq_refl) as (i & [H1 H2] & H3). exists (S i). split; [|exact H3]. split; [exact H1|]. intros [|j] Hj; [lia|]. apply H2. lia.
        * intros (i & [H1 H2] & H3). destruct i as [|i].
          -- exfalso. apply dget_In, in_rev, in_combine_l in E. apply In_nth_error in E. destruct E as [j Hj]. apply (H2 (S j)); [lia|exact Hj].
          -- apply IH. exists i. split; [|exact H3]. split; [exact H1|]. intros j Hj. apply (H2 (S j)). lia.
      + assert (No : forall j, nth_error labels j <> Some k).
        { intros j Hj. assert (j < length labels) by (apply nth_error_Some; congruence). apply dget_None in E. apply E. unfold dkeys. rewrite map_rev. apply -> in_rev.
          assert (Hx : exists y, nth_error xs j = Some y) by (destruct (nth_error xs j) eqn:En; [eauto|]; apply nth_error_None in En; cbn in Hl; lia). destruct Hx as [y Hy].
          apply in_map_iff. exists (k, y). split; [reflexivity|]. clear - Hj Hy. revert xs j Hj Hy. induction labels as [|l labels IH]; intros [|x xs] [|j]; cbn; try discriminate; [intros [= ->] [= ->]; now left|]. intros H1 H2. right. eapply IH; eauto. }
        destruct (eqb_spec k l) as [->|Hn]; split.
        * intros [= ->]. exists 0. split; [|reflexivity]. split; [reflexivity|]. intros [|j] Hj; [lia|]. apply No.
        * intros (i & [H1 _] & H3). destruct i as [|i]; [exact H3|]. destruct (No i H1).
        * discriminate.
        * intros (i & [H1 _] & _). destruct i as [|i]; [cbn in H1; congruence|]. destruct (No i H1).
  Qed.
  Lemma last_exists (labels : list X) k : In k labels <-> exists i, last_row labels k i.
  Proof.
    split.
    - induction labels as [|l labels IH]; [intros []|]. intro H. destruct (mem k labels) eqn:E.
      + apply mem_In in E. destruct (IH E) as (i & H1 & H2). exists (S i). split; [exact H1|]. intros [|j] Hj; [lia|]. apply H2. lia.
      + destruct H as [->|H]; [|apply mem_In in H; congruence]. exists 0. split; [reflexivity|]. intros [|j] Hj Hk; [lia|]. cbn in Hk. apply nth_error_In in Hk. apply mem_In in Hk. congruence.
    - intros (i & H & _). eapply nth_error_In; eauto.
  Qed.
  Lemma set_attributes s (values : dict X (dict F X)) : NoDup (dkeys values) ->
    dkeys (set_node_attributes s values) = dkeys s /\
    forall n, dget (set_node_attributes s values) n =
      match dget s n with None => None | Some d => match dget values n with Some e => Some (update d e) | None => Some d end end.
  Proof.
    unfold set_node_attributes. revert s. induction values as [|[a e] values IH]; intros s ND; cbn [fold_left fst snd].
    - split; [reflexivity|]. intro n. now destruct (dget s n).
    - inversion ND as [|? ? Hn ND']; subst. destruct (dget s a) as [d|] eqn:E.
      + destruct (IH (dset s a (update d e)) ND') as [H1 H2]. split.
        * rewrite H1. apply dkeys_dset_mem. now apply dget_Some_key in E.
        * intro n. rewrite H2, dget_dset. cbn [dget]. destruct (eqb_spec a n) as [<-|Hne].
          -- rewrite E, eqb_refl. assert (K : dget values a = None) by (apply dget_None; exact Hn). now rewrite K.
          -- destruct (eqb_spec n a); [congruence|reflexivity].
      + destruct (IH s ND') as [H1 H2]. split; [exact H1|]. intro n. rewrite H2. cbn [dget]. destruct (eqb_spec n a) as [->|]; [now rewrite E|reflexivity].
  Qed.
  Lemma attributes_key s l n k : NoDup (dkeys s) -> In (n, k) (get_node_attributes s l) <-> node_key s (Some l) n k.
  Proof.
    intro ND. unfold get_node_attributes. rewrite in_flat_map. cbn [node_key]. split.
    - intros ([n' d] & Hin & H). cbn [fst snd] in H. destruct (dget d l) as [x|] eqn:E; [|destruct H]. destruct H as [[= <- <-]|[]]. exists d. split; [|exact E]. now apply In_dget.
    - intros (d & Hd & Hk). exists (n, d). split; [now apply dget_In|]. cbn [fst snd]. rewrite Hk. now left.
  Qed.
  Lemma attributes_nodup s l : NoDup (dkeys s) -> NoDup (dkeys (get_node_attributes s l)).
  Proof.
    unfold get_node_attributes, dkeys. induction s as [|[n d] s IH]; cbn [flat_map map fst]; intro ND; [constructor|]. inversion ND as [|? ? Hn ND']; subst.
    destruct (dget (snd (n, d)) l) as [x|]; [|now apply IH]. cbn [app map fst]. constructor; [|now apply IH]. intro H. apply Hn. apply in_map_iff in H. destruct H as ([n' x'] & <- & H). apply in_flat_map in H. destruct H as ([n2 d2] & H1 & H2).
    cbn [fst snd] in *. destruct (dget d2 l); [|destruct H2]. destruct H2 as [[= <- <-]|[]]. apply in_map_iff. exists (n2, d2). auto.
  Qed.
  Definition ids_of s left : dict X X := match left with Some l => get_node_attributes s l | None => map (fun n => (n, n)) (dkeys s) end.
  Lemma ids_key s left n k : NoDup (dkeys s) -> In (n, k) (ids_of s left) <-> node_key s left n k.
  Proof.
    intro ND. destruct left as [l|]; cbn [ids_of]; [now apply attributes_key|]. cbn [node_key]. rewrite in_map_iff. split.
    - intros (m & [= <- <-] & H). auto.
    - intros [-> H]. exists n. auto.
  Qed.
  Lemma ids_nodup s left : NoDup (dkeys s) -> NoDup (dkeys (ids_of s left)).
  Proof. intro ND. destruct left as [l|]; cbn [ids_of]; [now apply attributes_nodup|]. unfold dkeys. rewrite map_map. cbn. now rewrite map_id. Qed.
  (** The table [join] works with. *)
  Definition table df columns right : res frame :=
    df1 <- match right with Some r => set_index r df | None => Ok df end ;;
    match columns with Some cs => select cs df1 | None => Ok df1 end.
  Lemma select_spec cs df df' : select cs df = Ok df' -> f_index df' = f_index df /\ dkeys (f_columns df') = cs /\ forall c xs, In (c, xs) (f_columns df') <-> In c cs /\ dget (f_columns df) c = Some xs.
  Proof.
    unfold select. destruct (mapM _ cs) as [kvs| |] eqn:E; try discriminate. intros [= <-]. cbn [f_index f_columns]. split; [reflexivity|]. revert kvs E. induction cs as [|c0 cs IH]; intros kvs E.
    - injection E as <-. split; [reflexivity|]. intros c xs. split; [intros []|intros [[] _]].
    - cbn [mapM] in E. destruct (dget (f_columns df) c0) as [xs0|] eqn:E0; [|discriminate]. cbn [of_option bind] in E. destruct (mapM _ cs) as [r| |] eqn:Er; try discriminate. injection E as <-. destruct (IH r eq_refl) as [H1 H2]. split; [unfold dkeys in *; cbn [map fst]; now rewrite H1|].
      intros c xs. cbn [In]. rewrite H2. split.
      + intros [[= <- <-]|[Hc Hx]]; auto.
      + intros [[<-|Hc] Hx]; [left; congruence|auto].
  Qed.
  Lemma table_spec df columns right df2 : wf_frame df -> table df columns right = Ok df2 ->
    exists labels, labels_of df right = Some labels /\ f_index df2 = labels /\ length labels = length (f_index df) /\
      (forall c xs, In (c, xs) (f_columns df2) <-> joined df columns right c /\ dget (f_columns df) c = Some xs).
  Proof.
    intros W H. unfold table in H.
    assert (H1 : exists df1 labels, match right with Some r => set_index r df | None => Ok df end = Ok df1 /\ labels_of df right = Some labels /\ f_index df1 = labels /\ length labels = length (f_index df) /\
      (NoDup (dkeys (f_columns df1)) /\ forall c xs, In (c, xs) (f_columns df1) <-> right <> Some c /\ dget (f_columns df) c = Some xs)).
    { destruct right as [r|].
      - unfold set_index in *. cbn [labels_of]. destruct (dget (f_columns df) r) as [xs|] eqn:E; [|discriminate]. do 2 eexists. split; [reflexivity|]. split; [reflexivity|]. split; [reflexivity|]. split; [eapply wf_lengths; eauto|]. split.
        + unfold dkeys. cbn [f_columns]. pose proof (wf_names df W) as ND. unfold dkeys in ND. clear - ND. induction (f_columns df) as [|[c xs] l IH]; cbn [filter map fst]; [constructor|]. inversion ND as [|? ? Hn ND']; subst. destruct (negb (eqb c r)); cbn [map fst]; [|now apply IH]. constructor; [|now apply IH].
          intro H. apply Hn. apply in_map_iff in H. destruct H as (y & <- & Hy). apply filter_In in Hy. apply in_map. tauto.
        + intros c ys. cbn [f_columns]. rewrite filter_In. cbn [fst]. rewrite negb_true_iff, eqb_neq. rewrite <- (dget_iff _ _ _ (wf_names df W)). split; intros [H1 H2]; split; auto; congruence.
      - do 2 eexists. split; [reflexivity|]. split; [reflexivity|]. split; [reflexivity|]. split; [reflexivity|]. split; [apply W|]. intros c xs. rewrite <- (dget_iff _ _ _ (wf_names df W)). split; [intro E; split; [discriminate|exact E]|tauto]. }
    destruct H1 as (df1 & labels & E1 & Lb & Ix & Ln & ND & Cols). rewrite E1 in H. cbn [bind] in H. exists labels. split; [exact Lb|].
    destruct columns as [cs|].
    - apply select_spec in H. destruct H as (Hi & _ & Hc). split; [congruence|]. split; [exact Ln|]. intros c xs. rewrite Hc. rewrite (dget_iff _ _ _ ND), Cols. unfold joined. split.
      + intros (H1 & H2 & H3). split; [|exact H3]. split; [now apply dget_Some_key in H3|auto].
      + intros ((H1 & H2 & H3) & H4). auto.
    - injection H as <-. split; [exact Ix|]. split; [exact Ln|]. intros c xs. rewrite Cols. unfold joined. split.
      + intros (H2 & H3). split; [|exact H3]. split; [now apply dget_Some_key in H3|auto].
      + intros ((H1 & H2 & H3) & H4). auto.
  Qed.
  Lemma join_table s df columns left right : join s df columns left right =
    (df2 <- table df columns right ;;
     attrs <- mapM (fun nk => vals <- mapM (fun cv => x <- of_option KeyError (dget (snd cv) (snd nk)) ;; Ok (fst cv, x)) (to_dict df2) ;;
                             Ok (fst nk, vals)) (ids_of s left) ;;
     Ok (set_node_attributes s attrs)).
  Proof. unfold join, table, ids_of. destruct right as [r|]; [destruct (set_index r df)|]; cbn [bind]; reflexivity. Qed.
  Lemma mapM_all {A B} (f : A -> res B) l : (forall a, In a l -> exists b, f a = Ok b) -> exists bs, mapM f l = Ok bs.
  Proof.
    induction l as [|a l IH]; intro H; [exists []; reflexivity|]. destruct (H a (or_introl eq_refl)) as [b Hb]. destruct IH as [bs Hbs]; [intros; apply H; now right|]. exists (b :: bs). cbn [mapM]. now rewrite Hb, Hbs.
  Qed.
  Lemma mapM_err {A B} (f : A -> res B) e0 l : (forall a, In a l -> (exists b, f a = Ok b) \/ f a = Err e0) -> (exists bs, mapM f l = Ok bs) \/ mapM f l = Err e0.
  Proof.
    induction l as [|a l IH]; intro H; [left; exists []; reflexivity|]. cbn [mapM]. destruct (H a (or_introl eq_refl)) as [[b ->]| ->]; [|now right]. cbn [bind]. destruct IH as [[bs ->]| ->]; [intros; apply H; now right| |now right]. left. eexists. reflexivity.
  Qed.
  Lemma mapM_elem {A B} (f : A -> res B) l bs : mapM f l = Ok bs -> forall a, In a l -> exists b, f a = Ok b /\ In b bs.
  Proof.
    revert bs. induction l as [|a0 l IH]; intros bs H a Ha; [destruct Ha|]. cbn [mapM] in H. destruct (f a0) as [b0| |] eqn:E; try discriminate. cbn [bind] in H. destruct (mapM f l) as [r| |] eqn:Er; try discriminate. injection H as <-.
    destruct Ha as [<-|Ha]; [exists b0; split; [exact E|now left]|]. destruct (IH r eq_refl a Ha) as (b & H1 & H2). exists b. split; [exact H1|now right].
  Qed.
  Lemma mapM_back {A B} (f : A -> res B) l bs : mapM f l = Ok bs -> forall b, In b bs -> exists a, In a l /\ f a = Ok b.
  Proof.
    revert bs. induction l as [|a0 l IH]; intros bs H b Hb; [injection H as <-; destruct Hb|]. cbn [mapM] in H. destruct (f a0) as [b0| |] eqn:E; try discriminate. cbn [bind] in H. destruct (mapM f l) as [r| |] eqn:Er; try discriminate. injection H as <-.
    destruct Hb as [<-|Hb]; [exists a0; split; [now left|exact E]|]. destruct (IH r eq_refl b Hb) as (a & H1 & H2). exists a. split; [now right|exact H2].
  Qed.
  Lemma mapM_same_keys {A K B} (f : K * A -> res (K * B)) l bs : mapM f l = Ok bs -> (forall a b, f a = Ok b -> fst b = fst a) -> dkeys bs = dkeys l.
  Proof.
    intros H Hf. revert bs H. unfold dkeys. induction l as [|a l IH]; intros bs H; [injection H as <-; reflexivity|]. cbn [mapM] in H. destruct (f a) as [b| |] eqn:E; try discriminate. cbn [bind] in H. destruct (mapM f l) as [r| |] eqn:Er; try discriminate. injection H as <-. cbn [map]. now rewrite (Hf _ _ E), (IH r eq_refl).
  Qed.

  (** ** Theorems *)

  (** What join writes, and that it leaves everything else alone. *)
  Theorem C80_join : forall s df columns left right s', is_dict s -> wf_frame df -> join s df columns left right = Ok s' ->
    dkeys s' = dkeys s /\
    forall n d, dget s n = Some d -> exists d', dget s' n = Some d' /\
      (forall k c, node_key s left n k -> joined df columns right c -> exists v, dget d' c = Some v /\ table_value df right k c v) /\
      (forall c, (forall k, node_key s left n k -> ~ joined df columns right c) -> dget d' c = dget d c).
  Proof.
    intros s df columns left right s' Ds W H. rewrite join_table in H. destruct (table df columns right) as [df2| |] eqn:Et; try discriminate. cbn [bind] in H.
    destruct (table_spec df columns right df2 W Et) as (labels & Lb & Ix & Ln & Cols). set (row_of := fun nk : X * X => _) in H. destruct (mapM row_of (ids_of s left)) as [attrs| |] eqn:Ea; try discriminate. injection H as <-.
    assert (Ka : dkeys attrs = dkeys (ids_of s left)).
    { apply (mapM_same_keys row_of); [exact Ea|]. intros a b. unfold row_of. destruct (mapM _ (to_dict df2)); try discriminate. intros [= <-]. reflexivity. }
    assert (Na : NoDup (dkeys attrs)) by (rewrite Ka; now apply ids_nodup).
    destruct (set_attributes s attrs Na) as [K1 K2]. split; [exact K1|]. intros n d Hd. rewrite K2, Hd.
    assert (Row : forall k vals, row_of (n, k) = Ok (n, vals) -> forall c, (joined df columns right c -> exists v, In (c, v) vals) /\ forall v, In (c, v) vals -> joined df columns right c /\ table_value df right k c v).
    { intros k vals Hr c. unfold row_of in Hr. cbn [fst snd] in Hr. destruct (mapM _ (to_dict df2)) as [vs| |] eqn:Ev; try discriminate. cbn [bind] in Hr. injection Hr as ->. split.
      - intro Hj. destruct (proj1 (dget_key _ _) (proj1 Hj)) as [xs Hxs]. assert (Hin : In (c, xs) (f_columns df2)) by (apply Cols; auto).
        assert (Ht : In (c, column_dict labels xs) (to_dict df2)) by (unfold to_dict; apply in_map_iff; exists (c, xs); cbn; rewrite Ix; auto).
        destruct (mapM_elem _ _ _ Ev _ Ht) as (b & Hb & Hbin). cbn [fst snd] in Hb. destruct (dget (column_dict labels xs) k) as [v|]; [|discriminate]. injection Hb as <-. eauto.
      - intros v Hv. destruct (mapM_back _ _ _ Ev _ Hv) as ([c' cd] & Hcd & Hb). cbn [fst snd] in Hb. unfold to_dict in Hcd. apply in_map_iff in Hcd. destruct Hcd as ([c2 xs] & [= -> <-] & Hin). cbn [fst snd] in *. apply Cols in Hin. destruct Hin as [Hj Hxs].
        destruct (dget (column_dict (f_index df2) xs) k) as [v'|] eqn:Eg; [|discriminate]. injection Hb as <- <-. split; [exact Hj|]. rewrite Ix in Eg. apply column_last in Eg; [|rewrite Ln; symmetry; eapply wf_lengths; eauto]. destruct Eg as (i & Hi & Hx). exists labels, xs, i. auto. }
    destruct (@dget X (dict F X) _ attrs n) as [vals|] eqn:En.
    - apply dget_In in En. destruct (mapM_back _ _ _ Ea _ En) as ([n' k] & Hin & Hr). assert (n' = n) as -> by (unfold row_of in Hr; destruct (mapM _ (to_dict df2)); try discriminate; now injection Hr).
      specialize (Row k vals Hr). apply ids_key in Hin; [|exact Ds]. exists (update d vals). split; [reflexivity|].
      assert (Uk : forall k', node_key s left n k' -> k' = k).
      { intros k' Hk'. destruct left as [l|]; cbn in *; [destruct Hin as (d1 & E1 & E2), Hk' as (d2 & E3 & E4); congruence|]. destruct Hin, Hk'. congruence. }
      split.
      + intros k' c Hk' Hj. rewrite (Uk k' Hk') in *. destruct (Row c) as [R1 R2]. destruct (R1 Hj) as [v0 Hv0]. destruct (update_spec d vals c) as [(v & Hv & Ev)|[Hno _]]; [exists v; split; [exact Ev|now apply R2]|].
        exfalso. apply Hno. change c with (fst (c, v0)). now apply in_map.
      + intros c Hc. destruct (update_spec d vals c) as [(v & Hv & Ev)|[_ E]]; [|exact E]. exfalso. apply (Hc k Hin). now apply (Row c) in Hv.
    - exists d. split; [reflexivity|]. split; [|reflexivity]. intros k c Hk _. exfalso. apply dget_None in En. apply En. apply ids_key in Hk; [|exact Ds]. assert (Hm : In n (dkeys (ids_of s left))) by (change n with (fst (n, k)); now apply in_map). rewrite <- Ka in Hm. exact Hm.
  Qed.
  (** When join succeeds; otherwise it raises KeyError and nothing has been
      written. *)
  Theorem C80_join_defined : forall s df columns left right, is_dict s -> wf_frame df ->
    ((exists s', join s df columns left right = Ok s') <->
      (exists labels, labels_of df right = Some labels /\ forall n k c, node_key s left n k -> joined df columns right c -> In k labels) /\
      (forall cs c, columns = Some cs -> In c cs -> In c (dkeys (f_columns df)) /\ right <> Some c)) /\
    ((forall s', join s df columns left right <> Ok s') -> join s df columns left right = Err KeyError).
  Proof.
    intros s df columns left right Ds W. rewrite join_table.
    assert (T : (exists df2, table df columns right = Ok df2) /\ labels_of df right <> None /\ (forall cs c, columns = Some cs -> In c cs -> In c (dkeys (f_columns df)) /\ right <> Some c)
      \/ table df columns right = Err KeyError /\ ~ (labels_of df right <> None /\ (forall cs c, columns = Some cs -> In c cs -> In c (dkeys (f_columns df)) /\ right <> Some c))).
    { unfold table.
      assert (D1 : (exists df1, match right with Some r => set_index r df | None => Ok df end = Ok df1 /\ labels_of df right <> None /\ forall c, In c (dkeys (f_columns df1)) <-> In c (dkeys (f_columns df)) /\ right <> Some c) \/ match right with Some r => set_index r df | None => Ok df end = Err KeyError /\ labels_of df right = None).
      { destruct right as [r|]; cbn [labels_of].
        - unfold set_index. destruct (dget (f_columns df) r) as [xs|]; [left|right; split; reflexivity]. eexists. split; [reflexivity|]. split; [discriminate|]. intro c. cbn [f_columns]. unfold dkeys. rewrite !in_map_iff. split.
          + intros (y & <- & Hy). apply filter_In in Hy. destruct Hy as [Hy Hne]. apply negb_true_iff, eqb_neq in Hne. split; [exists y; auto|congruence].
          + intros [(y & <- & Hy) Hne]. exists y. split; [reflexivity|]. apply filter_In. split; [exact Hy|]. apply negb_true_iff, eqb_neq. congruence.
        - left. exists df. split; [reflexivity|]. split; [discriminate|]. intro c. split; [intro H; split; [exact H|discriminate]|tauto]. }
      destruct D1 as [(df1 & -> & Lb & Ks)|[-> Lb]]; [|right; split; [reflexivity|]; intros [H _]; contradiction]. cbn [bind]. destruct columns as [cs|].
      - unfold select. destruct (mapM_err (fun c => xs <- of_option KeyError (dget (f_columns df1) c) ;; Ok (c, xs)) KeyError cs) as [[kvs E]|E].
        + intros c _. destruct (dget (f_columns df1) c); [left; eexists; reflexivity|now right].
        + rewrite E. left. split; [eexists; reflexivity|]. split; [exact Lb|]. intros cs' c [= <-] Hc. apply Ks. destruct (mapM_elem _ _ _ E _ Hc) as (b & Hb & _). destruct (dget (f_columns df1) c) eqn:Eg; [now apply dget_Some_key in Eg|discriminate].
        + rewrite E. right. split; [reflexivity|]. intros [_ H]. destruct (mapM_all (fun c => xs <- of_option KeyError (dget (f_columns df1) c) ;; Ok (c, xs)) cs) as [bs Hb]; [|congruence].
          intros c Hc. destruct (proj1 (dget_key _ _) (proj2 (Ks c) (H cs c eq_refl Hc))) as [xs ->]. eexists; reflexivity.
      - left. split; [eauto|]. split; [exact Lb|]. discriminate. }
    destruct T as [((df2 & Et) & Lb & Cs)|(Et & No)].
    - rewrite Et. cbn [bind]. destruct (table_spec df columns right df2 W Et) as (labels & Lb' & Ix & Ln & Cols). set (row_of := fun nk : X * X => _).
      assert (Each : forall nk, (exists b, row_of nk = Ok b) \/ row_of nk = Err KeyError).
      { intros [n k]. unfold row_of. cbn [fst snd]. destruct (mapM_err (fun cv : F * dict X X => x <- of_option KeyError (dget (snd cv) k) ;; Ok (fst cv, x)) KeyError (to_dict df2)) as [[vs ->]| ->]; [|left; eexists; reflexivity|now right].
        intros [c cd] _. cbn [fst snd]. destruct (dget cd k); [left; eexists; reflexivity|now right]. }
      assert (Good : forall n k, (exists b, row_of (n, k) = Ok b) <-> forall c, joined df columns right c -> In k labels).
      { intros n k. unfold row_of. cbn [fst snd]. split.
        - intros [b Hb] c Hj. destruct (mapM _ (to_dict df2)) as [vs| |] eqn:Ev; try discriminate. destruct (proj1 (dget_key _ _) (proj1 Hj)) as [xs Hxs]. assert (Hin : In (c, xs) (f_columns df2)) by (apply Cols; auto).
          assert (Ht : In (c, column_dict labels xs) (to_dict df2)) by (unfold to_dict; apply in_map_iff; exists (c, xs); cbn; rewrite Ix; auto).
          destruct (mapM_elem _ _ _ Ev _ Ht) as (b' & Hb' & _). cbn [fst snd] in Hb'. destruct (dget (column_dict labels xs) k) as [v|] eqn:Eg; [|discriminate]. apply column_last in Eg; [|rewrite Ln; symmetry; eapply wf_lengths; eauto]. destruct Eg as (i & Hi & _). apply last_exists. eauto.
        - intro H. destruct (mapM_all (fun cv : F * dict X X => x <- of_option KeyError (dget (snd cv) k) ;; Ok (fst cv, x)) (to_dict df2)) as [vs ->]; [|eexists; reflexivity].
          intros [c cd] Hcd. cbn [fst snd]. unfold to_dict in Hcd. apply in_map_iff in Hcd. destruct Hcd as ([c2 xs] & [= -> <-] & Hin). cbn [fst snd] in Hin. apply Cols in Hin. destruct Hin as [Hj Hxs]. cbn [snd]. rewrite Ix.
          pose proof (wf_lengths df W c xs Hxs) as Hl. destruct (proj1 (last_exists labels k) (H c Hj)) as [i Hi].
          assert (Hx : exists v, nth_error xs i = Some v). { destruct Hi as [Hi _]. destruct (nth_error xs i) eqn:En; [eauto|]. apply nth_error_None in En. assert (i < length labels) by (apply nth_error_Some; congruence). lia. }
          destruct Hx as [v Hv]. assert (Eg : dget (column_dict labels xs) k = Some v) by (apply column_last; [lia|eauto]). rewrite Eg. eexists; reflexivity. }
      split.
      + split.
        * intros [s' Hs']. destruct (mapM row_of (ids_of s left)) as [attrs| |] eqn:Ea; try discriminate. split; [|exact Cs]. exists labels. split; [exact Lb'|]. intros n k c Hk Hj. apply ids_key in Hk; [|exact Ds].
          destruct (mapM_elem _ _ _ Ea _ Hk) as (b & Hb & _). apply (proj1 (Good n k) (ex_intro _ b Hb) c Hj).
        * intros [(labels' & Lb2 & H) _]. assert (labels' = labels) as -> by congruence. destruct (mapM_all row_of (ids_of s left)) as [attrs ->]; [|eexists; reflexivity]. intros [n k] Hk. apply Good. intros c Hj. apply (H n k c); [|exact Hj]. now apply ids_key.
      + intro Hno. destruct (mapM_err row_of KeyError (ids_of s left)) as [[attrs E]|E]; [intros nk _; apply Each| |now rewrite E]. exfalso. rewrite E in Hno. eapply Hno. reflexivity.
    - rewrite Et. cbn [bind]. split; [|reflexivity]. split; [intros [s' Hs']; discriminate|]. intros [(labels & Lb & _) Cs]. exfalso. apply No. split; [congruence|exact Cs].
  Qed.

  Lemma distinctb_spec (l : list X) : distinctb l = true <-> NoDup l.
  Proof.
    induction l as [|x l IH]; cbn [distinctb]; [split; [constructor|reflexivity]|]. rewrite andb_true_iff, negb_true_iff, IH. split.
    - intros [H1 H2]. constructor; [intro H; apply mem_In in H; congruence|exact H2].
    - intro H. inversion H as [|? ? Hn Hd]; subst. split; [|exact Hd]. destruct (mem x l) eqn:E; [apply mem_In in E; contradiction|reflexivity].
  Qed.
  Lemma in_row df i c v : In (c, v) (row df i) <-> exists xs, In (c, xs) (f_columns df) /\ nth_error xs i = Some v.
  Proof.
    unfold row. rewrite in_flat_map. split.
    - intros ([c' xs] & H1 & H2). cbn [fst snd] in H2. destruct (nth_error xs i) as [x|] eqn:E; [|destruct H2]. destruct H2 as [[= <- <-]|[]]. eauto.
    - intros (xs & H1 & H2). exists (c, xs). split; [exact H1|]. cbn [fst snd]. rewrite H2. now left.
  Qed.
  (** add_data writes every column of the table on every node with a row,
      whatever columns were asked for, and nothing else. *)
  Theorem C80_add_data : forall s df columns s', wf_frame df -> add_data s df columns = Ok s' ->
    dkeys s' = dkeys s /\
    forall n d, dget s n = Some d -> exists d', dget s' n = Some d' /\
      (forall c, In n (f_index df) -> In c (dkeys (f_columns df)) -> exists v, dget d' c = Some v /\ table_value df None n c v) /\
      (forall c, ~ (In n (f_index df) /\ In c (dkeys (f_columns df))) -> dget d' c = dget d c).
  Proof.
    intros s df columns s' W H. unfold add_data in H. destruct (select _ df) as [f0| |]; try discriminate. cbn [bind] in H. unfold to_dict_index in H. destruct (distinctb (f_index df)) eqn:Ed; [|discriminate]. cbn [bind] in H. injection H as <-. apply distinctb_spec in Ed.
    set (rows := combine (f_index df) (map (row df) (seq 0 (length (f_index df))))).
    assert (Kr : dkeys rows = f_index df).
    { unfold rows, dkeys. assert (G : forall (l : list X) (m : list (dict F X)), length l = length m -> map fst (combine l m) = l) by (induction l as [|a l IH]; intros [|b m]; cbn; try discriminate; auto; intro Hl; f_equal; apply IH; lia). apply G. now rewrite map_length, seq_length. }
    assert (Rr : forall n e, dget rows n = Some e <-> exists i, nth_error (f_index df) i = Some n /\ e = row df i).
    { intros n e. rewrite (dget_iff rows n e) by (rewrite Kr; exact Ed). unfold rows.
      assert (G : forall (l : list X) a, In (n, e) (combine l (map (row df) (seq a (length l)))) <-> exists i, nth_error l i = Some n /\ e = row df (a + i)).
      { induction l as [|x l IH]; intro a; cbn [length seq map combine In].
        - split; [intros []|intros ([|i] & Hi & _); discriminate].
        - rewrite IH. split.
          + intros [[= -> <-]|(i & Hi & ->)]; [exists 0; split; [reflexivity|now rewrite Nat.add_0_r]|]. exists (S i). split; [exact Hi|]. f_equal. lia.
          + intros ([|i] & Hi & ->); [left; cbn in Hi; rewrite Nat.add_0_r; congruence|]. right. exists i. split; [exact Hi|]. f_equal. lia. }
      apply (G (f_index df) 0). }
    destruct (set_attributes s rows) as [K1 K2]; [rewrite Kr; exact Ed|]. split; [exact K1|]. intros n d Hd. rewrite K2, Hd. destruct (dget rows n) as [e|] eqn:En.
    - pose proof (proj1 (Rr n e) En) as (i & Hi & ->). exists (update d (row df i)). split; [reflexivity|]. split.
      + intros c _ Hc. destruct (proj1 (dget_key _ _) Hc) as [xs Hxs]. pose proof (wf_lengths df W c xs Hxs) as Hl.
        assert (Hv : exists v, nth_error xs i = Some v). { destruct (nth_error xs i) eqn:E; [eauto|]. apply nth_error_None in E. assert (i < length (f_index df)) by (apply nth_error_Some; congruence). lia. }
        destruct Hv as [v Hv]. assert (Hin : In (c, v) (row df i)) by (apply in_row; exists xs; split; [now apply dget_In|exact Hv]).
        destruct (update_spec d (row df i) c) as [(v' & Hv' & Ev)|[Hno _]]; [|exfalso; apply Hno; change c with (fst (c, v)); now apply in_map].
        exists v'. split; [exact Ev|]. apply in_row in Hv'. destruct Hv' as (xs' & Hx1 & Hx2). apply In_dget in Hx1; [|apply W]. exists (f_index df), xs', i. split; [reflexivity|]. split; [exact Hx1|]. split; [|exact Hx2]. split; [exact Hi|].
        intros j Hj Hk. rewrite NoDup_nth_error in Ed. assert (i = j) by (apply Ed; [apply nth_error_Some; congruence|congruence]). lia.
      + intros c Hc. destruct (update_spec d (row df i) c) as [(v & Hv & _)|[_ E]]; [|exact E]. exfalso. apply Hc. apply in_row in Hv. destruct Hv as (xs & Hx & _). split; [eapply nth_error_In; eauto|]. change c with (fst (c, xs)). now apply in_map.
    - exists d. split; [reflexivity|]. split; [|reflexivity]. intros c Hn _. exfalso. apply dget_None in En. apply En. rewrite Kr. exact Hn.
  Qed.
  Theorem C80_add_data_defined : forall s df columns,
    (forall cs c, columns = Some cs -> In c cs -> In c (dkeys (f_columns df))) ->
    (NoDup (f_index df) -> exists s', add_data s df columns = Ok s') /\
    (~ NoDup (f_index df) -> add_data s df columns = Err ValueError).
  Proof.
    intros s df columns Hc. unfold add_data.
    assert (E : exists f0, select (match columns with Some cs => cs | None => dkeys (f_columns df) end) df = Ok f0).
    { unfold select. destruct (mapM_all (fun c => xs <- of_option KeyError (dget (f_columns df) c) ;; Ok (c, xs)) (match columns with Some cs => cs | None => dkeys (f_columns df) end)) as [kvs ->]; [|eexists; reflexivity].
      intros c Hin. assert (Hk : In c (dkeys (f_columns df))) by (destruct columns as [cs|]; [apply (Hc cs c eq_refl Hin)|exact Hin]). destruct (proj1 (dget_key _ _) Hk) as [xs ->]. eexists; reflexivity. }
    destruct E as [f0 ->]. cbn [bind]. unfold to_dict_index. destruct (distinctb (f_index df)) eqn:Ed.
    - apply distinctb_spec in Ed. split; [intros _; eexists; reflexivity|contradiction].
    - split; [|reflexivity]. intro H. apply distinctb_spec in H. congruence.
  Qed.
End Data.

(** The documentation of [columns]: "List of dataframe column names to add". *)
Definition two_columns : @frame nat nat := mkFrame [10; 11] [(1, [7; 8]); (2, [5; 6])].
Theorem C80_columns_ignored_refuted : exists (s s' : @store nat nat) d d', is_dict s /\ wf_frame two_columns /\ add_data s two_columns (Some [1]) = Ok s' /\
  dget s 10 = Some d /\ dget s' 10 = Some d' /\ dget d 2 = Some 0 /\ dget d' 2 = Some 5.
Proof.
  exists [(10, [(2, 0)]); (11, [])]. do 3 eexists. split; [repeat constructor; cbn; intuition discriminate|]. split; [|repeat (split; [reflexivity|]); reflexivity].
  split; [repeat constructor; cbn; intuition discriminate|]. intros c xs H. apply dget_In in H. cbn in H. destruct H as [[= <- <-]|[[= <- <-]|[]]]; reflexivity.
Qed.
(** ** Concrete case: join by attribute 3 with the column 1. *)
Example C80_nonvacuous : exists s', is_dict [(100, [(3, 7)]); (101, [(3, 8); (2, 1)]); (102, [])] /\ wf_frame two_columns /\
  join [(100, [(3, 7)]); (101, [(3, 8); (2, 1)]); (102, [])] two_columns None (Some 3) (Some 1) = Ok s' /\ s' = [(100, [(3, 7); (2, 5)]); (101, [(3, 8); (2, 6)]); (102, [])].
Proof.
  eexists. split; [repeat constructor; cbn; intuition discriminate|]. split; [|split; reflexivity].
  split; [repeat constructor; cbn; intuition discriminate|]. intros c xs H. apply dget_In in H. cbn in H. destruct H as [[= <- <-]|[[= <- <-]|[]]]; reflexivity.
Qed.

Print Assumptions C80_join.
Print Assumptions C80_join_defined.
Print Assumptions C80_add_data.
Print Assumptions C80_add_data_defined.
Print Assumptions C80_columns_ignored_refuted.
