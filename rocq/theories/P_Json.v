(** Saving and loading graphs (C110). *)
From Coq Require Import String List Bool Arith ZArith Lia.
From Verif Require Import Base M_Json L_Json.
Import ListNotations.
Local Open Scope list_scope.

(** ** Specification *)
(** [plain] (L_Json.v): numbers, strings, booleans, None, and lists and
    string-keyed dictionaries of these.  [simple]: a number or a string.
    [jwf]: the graph is a networkx graph. *)
(** Attributes that a JSON file can hold: named by strings other than id, with
    plain values. *)
Definition storable (a : attrs) : Prop := NoDup (dkeys a) /\ forall k v, In (k, v) a -> (exists s, k = KStr s /\ s <> "id"%string) /\ plain v.
Record clean (g : jgraph) : Prop := {
  c_nodes : forall n a, In (n, a) (j_nodes g) -> simple n /\ storable a;
  c_edges : forall u es v e, In (u, es) (j_adj g) -> In (v, e) es -> storable e;
  c_graph : forall k v, In (k, v) (j_attrs g) -> (forall i, k <> KOther i) /\ plain v }.

(** ** Lemmas *)
Lemma storable_tidy a : storable a -> tidy a = a.
Proof.
  intros [ND H]. unfold tidy.
  assert (noid a = a) as ->.
  { clear ND. induction a as [|[k v] a IH]; auto. unfold noid in *. cbn [filter]. destruct (H k v (or_introl eq_refl)) as [(s & -> & ne) _].
    unfold is_id at 1. cbn [fst]. destruct (eqb_spec (KStr s) (KStr "id")) as [[= E]|]; [contradiction|]. cbn [negb]. f_equal. apply IH. intros. apply H. now right. }
  replace (map rd a) with a; [now apply dupdate_nil|]. symmetry. transitivity (map (fun x : key * value => x) a); [|apply map_id].
  apply map_ext_in. intros [k v] I. destruct (H k v I) as [(s & -> & _) P]. unfold rd. cbn. now rewrite (proj2 (plain_dec v P)).
Qed.
Lemma plain_not_geom v : plain v -> is_geom v = false.
Proof. intros []; reflexivity. Qed.
Lemma storable_handle geo a : storable a -> handle_geometries geo a = a.
Proof.
  intros [_ H]. unfold handle_geometries. destruct geo.
  - transitivity (map (fun x : key * value => x) a); [|apply map_id]. apply map_ext_in. intros [k v] I. destruct (H k v I) as [_ []]; reflexivity.
  - induction a as [|[k v] a IH]; auto. cbn. rewrite (plain_not_geom v) by (apply (H k v); now left). cbn. f_equal. apply IH. intros. apply H. now right.
Qed.
Lemma tidy_storable a : storable (tidy a).
Proof.
  split; [apply NoDup_tidy|]. intros k v I.
  assert (Forall (fun kv : key * value => (exists s, fst kv = KStr s /\ s <> "id"%string) /\ plain (snd kv)) (tidy a)) as F.
  { unfold tidy. apply dupdate_Forall; [constructor|]. apply Forall_forall. intros [k' v'] I'. apply in_map_iff in I'. destruct I' as ([k0 v0] & [= <- <-] & I0). cbn. split; [|apply dec_plain].
    exists (text k0). split; auto. intros E. apply text_id in E. subst k0. unfold noid in I0. apply filter_In in I0. destruct I0 as [_ I0]. unfold is_id in I0. cbn [fst] in I0. rewrite eqb_refl in I0. discriminate. }
  rewrite Forall_forall in F. exact (F (k, v) I).
Qed.
Lemma described_clean geo g : (forall n, In n (dkeys (j_nodes g)) -> simple n) -> clean (described geo g).
Proof.
  intros S. constructor; cbn.
  - intros n a I. apply in_map_iff in I. destruct I as ([n0 a0] & [= <- <-] & I). cbn. split; [apply S; now apply (in_map fst) in I|apply tidy_storable].
  - intros u es v e I J. apply in_map_iff in I. destruct I as ([u0 es0] & [= <- <-] & I). cbn in J. apply in_map_iff in J. destruct J as ([v0 e0] & [= <- <-] & J). apply tidy_storable.
  - intros k v I. assert (Forall (fun kv : key * value => (forall i, fst kv <> KOther i) /\ plain (snd kv)) (dupdate [] (map (fun kv : key * value => (gk (fst kv), dec (snd kv))) (j_attrs g)))) as F.
    { apply dupdate_Forall; [constructor|]. apply Forall_forall. intros [k' v'] I'. apply in_map_iff in I'. destruct I' as ([k0 v0] & [= <- <-] & I0). cbn. split; [|apply dec_plain]. intros i. destruct k0; cbn; congruence. }
    rewrite Forall_forall in F. exact (F (k, v) I).
Qed.
Lemma clean_described geo g : jwf g -> clean g -> described geo g = g.
Proof.
  intros W C. destruct g as [ga ns adj]. unfold described. cbn [j_attrs j_nodes j_adj]. f_equal.
  - replace (map (fun kv : key * value => (gk (fst kv), dec (snd kv))) ga) with ga; [apply dupdate_nil, (w_attrs _ W)|]. symmetry. transitivity (map (fun x : key * value => x) ga); [|apply map_id].
    apply map_ext_in. intros [k v] I. destruct (c_graph _ C k v I) as [nk P]. cbn. rewrite (proj2 (plain_dec v P)). f_equal. destruct k as [| | | |i]; auto. destruct (nk i eq_refl).
  - transitivity (map (fun x : ident * attrs => x) ns); [|apply map_id]. apply map_ext_in. intros [n a] I. cbn [fst snd]. destruct (c_nodes _ C n a I) as [_ A]. now rewrite storable_handle, storable_tidy.
  - transitivity (map (fun x : ident * nbrs => x) adj); [|apply map_id]. apply map_ext_in. intros [u es] I. cbn [fst snd]. f_equal.
    transitivity (map (fun x : ident * attrs => x) es); [|apply map_id]. apply map_ext_in. intros [v e] J. cbn [fst snd]. now rewrite (storable_tidy e) by apply (c_edges _ C u es v e I J).
Qed.
Lemma mapM_exists {A B} (f : A -> res B) l : (forall x, In x l -> exists y, f x = Ok y) -> exists ys, mapM f l = Ok ys.
Proof.
  induction l as [|x l IH]; intros H; cbn; eauto. destruct (H x (or_introl eq_refl)) as [y ->]. destruct IH as [ys ->]; [intros; apply H; now right|]. cbn. eauto.
Qed.
Lemma storable_encode a x : storable a -> plain x -> exists j, encode (VDict (dset a (KStr "id") x)) = Ok j.
Proof.
  intros [ND H] P. apply (plain_dec (VDict (dset a (KStr "id") x))). constructor; [now apply NoDup_dset|]. apply Forall_forall. intros [k v] I. cbn.
  apply In_dget in I; [|now apply NoDup_dset]. rewrite dget_dset in I. destruct (eqb_spec k (KStr "id")) as [->|]; [injection I as <-; eauto|].
  apply dget_In in I. destruct (H k v I) as [(s & -> & _) Pv]. eauto.
Qed.
Lemma simple_plain n : simple n -> plain (value_of_ident n).
Proof. destruct n; cbn; intros []; constructor. Qed.
Lemma clean_saved geo g : jwf g -> clean g -> exists f, to_json geo g = Ok f.
Proof.
  intros W C. unfold to_json.
  destruct (mapM_exists encode (map (fun kv : key * value => VTuple [value_of_key (fst kv); snd kv]) (j_attrs g))) as [gs EG].
  { intros x I. apply in_map_iff in I. destruct I as ([k v] & <- & I). rewrite encode_tuple. cbn [fst snd]. destruct (c_graph _ C k v I) as [nk P].
    apply (plain_dec (VList [value_of_key k; v])). repeat constructor; auto. destruct k as [| | | |i]; try constructor. destruct (nk i eq_refl). }
  rewrite encode_list, EG. cbn [bind].
  assert (forall u es, In (u, es) (j_adj g) -> In u (dkeys (j_nodes g))) as L by (intros u es I; rewrite <- (w_adj _ W); now apply (in_map fst) in I).
  assert (forall n, In n (dkeys (j_nodes g)) -> simple n) as S by (intros n I; apply dget_key in I; destruct I as [a I]; apply dget_In in I; now apply (c_nodes _ C n a)).
  match goal with |- context [mapM ?q (j_adj g)] => destruct (mapM_exists q (j_adj g)) as [ns EN] end.
  { intros [u es] I. cbn [fst]. pose proof (L u es I) as Iu. destruct (proj1 (dget_key (j_nodes g) u) Iu) as [a Ea]. unfold dget_or. rewrite Ea. apply dget_In in Ea. destruct (c_nodes _ C u a Ea) as [Su Sa].
    destruct (storable_encode a (value_of_ident u) Sa (simple_plain u Su)) as [j Ej]. exists j.
    destruct geo; [|replace (handle_geometries false _) with (dset a (KStr "id") (value_of_ident u)); auto].
    - replace (handle_geometries true _) with (dset a (KStr "id") (value_of_ident u)); auto. symmetry. unfold handle_geometries. transitivity (map (fun x : key * value => x) (dset a (KStr "id") (value_of_ident u))); [|apply map_id].
      apply map_ext_in. intros [k v] I'. cbn. apply In_dget in I'; [|apply NoDup_dset; apply Sa]. rewrite dget_dset in I'. destruct (eqb k (KStr "id")); [injection I' as <-; destruct u; reflexivity|]. apply dget_In in I'. destruct (proj2 Sa k v I') as [_ []]; reflexivity.
    - symmetry. unfold handle_geometries.
      assert (forall k v, In (k, v) (dset a (KStr "id") (value_of_ident u)) -> is_geom v = false) as N.
      { intros k v I'. apply In_dget in I'; [|apply NoDup_dset; apply Sa]. rewrite dget_dset in I'. destruct (eqb k (KStr "id")); [injection I' as <-; apply voi_not_geom|]. apply dget_In in I'. apply plain_not_geom. apply (proj2 Sa k v I'). }
      clear -N. induction (dset a (KStr "id") (value_of_ident u)) as [|[k v] l IH]; auto. cbn. rewrite (N k v) by now left. cbn. f_equal. apply IH. intros. apply (N k0). now right. }
  rewrite EN. cbn [bind].
  match goal with |- context [mapM ?q (j_adj g)] => destruct (mapM_exists q (j_adj g)) as [es EE] end.
  { intros [u es] I. cbn [snd]. apply mapM_exists. intros [v e] J. cbn [fst snd]. apply storable_encode; [apply (c_edges _ C u es v e I J)|]. apply simple_plain, S.
    apply (w_in _ W u es v); [apply In_dget; auto; rewrite (w_adj _ W); apply (w_nodes _ W)|now apply (in_map fst) in J]. }
  rewrite EE. cbn [bind]. eauto.
Qed.

(** ** Theorems *)

(** C110: a value is read back as it was written exactly when it is plain, and
    what is read back is always plain. *)
Theorem C110_values v : ((exists j, encode v = Ok j /\ decode j = v) <-> plain v) /\ (forall j, plain (decode j)).
Proof.
  split; [|apply decode_plain]. split.
  - intros (j & _ & <-). apply decode_plain.
  - intros P. destruct (plain_dec v P) as [[j E] D]. exists j. split; auto. unfold dec in D. now rewrite E in D.
Qed.

(** C110: from_networkx and copy keep the nodes, their order and all attributes.
    Every node keeps its neighbours, but their order becomes: first those that
    precede the node, in the order of the nodes, then the others as they were.
    Doing it again changes nothing. *)
Theorem C110_rebuild g : jwf g ->
  j_attrs (from_networkx g) = j_attrs g /\ j_nodes (from_networkx g) = j_nodes g /\ dkeys (j_adj (from_networkx g)) = dkeys (j_adj g) /\
  (forall before u after es, dkeys (j_nodes g) = before ++ u :: after -> dget (j_adj g) u = Some es ->
     exists es', dget (j_adj (from_networkx g)) u = Some es' /\ (forall v, dget es' v = dget es v) /\
       dkeys es' = filter (fun x => mem x (dkeys es)) before ++ filter (fun x => negb (mem x before)) (dkeys es)) /\
  jwf (from_networkx g) /\ from_networkx (from_networkx g) = from_networkx g.
Proof.
  intros W. repeat split; auto using rebuilt_adj_keys, rebuilt_twice; try (apply rebuilt_wf; auto).
  intros before u after es H G. destruct (rebuilt_row g W u es G) as (es' & G' & A & _ & O). exists es'. repeat split; auto. apply (O before after). rewrite (w_adj _ W). exact H.
Qed.

(** C110: a graph whose nodes are numbers or strings and whose attributes are
    plain and not called id can be saved, and loading the file gives the graph
    that from_networkx gives. *)
Theorem C110_roundtrip geo g : jwf g -> clean g -> exists f, to_json geo g = Ok f /\ from_json f = Ok (from_networkx g).
Proof.
  intros W C. destruct (clean_saved geo g W C) as [f E]. exists f. split; auto. rewrite (load_saved geo g f W) by (auto; intros n I; apply dget_key in I; destruct I as [a I]; apply dget_In in I; now apply (c_nodes _ C n a)).
  now rewrite clean_described.
Qed.

Lemma mapM_fails {A B} (Q : exn -> Prop) (f : A -> res B) l : (forall x, In x l -> (exists y, f x = Ok y) \/ (exists e, f x = Err e /\ Q e)) ->
  (exists x e, In x l /\ f x = Err e) -> exists e, mapM f l = Err e /\ Q e.
Proof.
  induction l as [|x l IH]; intros H (x0 & e0 & I & E0); [destruct I|]. cbn.
  destruct (H x (or_introl eq_refl)) as [[y Ey]|(e & Ee & Qe)]; [|rewrite Ee; cbn; exists e; auto]. rewrite Ey. cbn.
  destruct I as [->|I]; [congruence|]. destruct (IH (fun x I => H x (or_intror I)) (ex_intro _ x0 (ex_intro _ e0 (conj I E0)))) as (e & -> & Qe). cbn. eauto.
Qed.
(** C110: a file with a node that is neither a number nor a string, such as the
    pairs of a grid, is written but cannot be loaded. *)
Theorem C110_other_nodes geo g f n : jwf g -> to_json geo g = Ok f -> In n (dkeys (j_nodes g)) -> ~ simple n ->
  exists e, from_json f = Err e /\ (e = TypeError \/ e = ValueError).
Proof.
  intros W. unfold to_json.
  destruct (encode (VList _)) as [gs| |] eqn:EG; try discriminate. cbn [bind].
  destruct (mapM _ (j_adj g)) as [fn| |] eqn:EN; try discriminate. cbn [bind].
  match goal with |- context [mapM ?q (j_adj g)] => destruct (mapM q (j_adj g)) as [fe| |] eqn:EE end; try discriminate. intros [= <-] I nS.
  unfold from_json. cbn [f_graph f_nodes f_adj]. rewrite (graph_attrs_read _ _ EG). cbn [bind].
  assert (forall u j, encode (VDict (handle_geometries geo (dset (dget_or [] (j_nodes g) u) (KStr "id") (value_of_ident u)))) = Ok j ->
    exists a, pop_id (decode j) = (n' <- ident_of_value (dec (value_of_ident u)) ;; Ok (n', a))) as R.
  { intros u j E. eexists. apply (node_entry geo (dget_or [] (j_nodes g) u)); auto. unfold dget_or. destruct (dget (j_nodes g) u) eqn:Ea; [|constructor]. apply (w_node_attrs _ W u _ Ea). }
  destruct (mapM_fails (fun e => e = TypeError \/ e = ValueError) (fun j => pop_id (decode j)) fn) as (e & -> & Qe); [| |cbn; eauto].
  - intros j Ij. apply mapM_Ok in EN.
    assert (exists u, encode (VDict (handle_geometries geo (dset (dget_or [] (j_nodes g) u) (KStr "id") (value_of_ident u)))) = Ok j) as [u Eu].
    { clear -EN Ij. induction EN as [|x y l ys H _ IH]; [destruct Ij|]. destruct Ij as [->|Ij]; eauto. }
    destruct (R u j Eu) as [a ->]. destruct u as [z|s|l|k].
    + left. rewrite simple_read by exact Logic.I. cbn. eauto.
    + left. rewrite simple_read by exact Logic.I. cbn. eauto.
    + right. rewrite not_simple_read by (cbn; tauto). cbn. eauto.
    + right. rewrite not_simple_read by (cbn; tauto). cbn. eauto.
  - rewrite <- (w_adj _ W) in I. apply dget_key in I. destruct I as [es G]. apply dget_In in G. apply mapM_Ok in EN.
    assert (exists j, In j fn /\ encode (VDict (handle_geometries geo (dset (dget_or [] (j_nodes g) n) (KStr "id") (value_of_ident n)))) = Ok j) as (j & Ij & Ej).
    { clear -EN G. induction EN as [|x y l ys H _ IH]; [destruct G|]. destruct G as [->|G]; [exists y; split; [now left|exact H]|]. destruct (IH G) as (j & Ij & Ej). exists j. split; auto. now right. }
    destruct (R n j Ej) as [a E]. exists j. eexists. split; auto. rewrite E, not_simple_read by auto. reflexivity.
Qed.

Lemma loaded_is geo g f h : jwf g -> to_json geo g = Ok f -> from_json f = Ok h -> (forall n, In n (dkeys (j_nodes g)) -> simple n) /\ h = from_networkx (described geo g).
Proof.
  intros W E L. assert (forall n, In n (dkeys (j_nodes g)) -> simple n) as S.
  { intros n I. assert (simple n \/ ~ simple n) as [S|nS]; auto; [destruct n; cbn; tauto|]. destruct (C110_other_nodes geo g f n W E I nS) as (e & X & _). congruence. }
  split; auto. rewrite (load_saved geo g f W S E) in L. congruence.
Qed.
Lemma rebuilt_clean g : jwf g -> clean g -> clean (from_networkx g).
Proof.
  intros W C. constructor; cbn; [apply (c_nodes _ C)| |apply (c_graph _ C)].
  intros u es v e I J. change (In (u, es) (j_adj (from_networkx g))) in I. pose proof (rebuilt_wf g W) as W'.
  apply In_dget in I; [|rewrite (w_adj _ W'); apply (w_nodes _ W')]. apply In_dget in J; [|apply (w_nbrs _ W' u es I)].
  pose proof (dget_Some_key _ _ I) as Iu. rewrite rebuilt_adj_keys in Iu by auto. destruct (proj1 (dget_key (j_adj g) u) Iu) as [es0 G0].
  destruct (rebuilt_row g W u es0 G0) as (es1 & G1 & A & _). rewrite I in G1. injection G1 as <-. rewrite A in J.
  apply (c_edges _ C u es0 v e); now apply dget_In.
Qed.

(** C110: whatever was saved, if it can be loaded then the loaded graph can be
    saved and loaded again, with or without geometries, and comes back as it is,
    down to the order of the neighbours. *)
Theorem C110_reload geo g f h : jwf g -> to_json geo g = Ok f -> from_json f = Ok h ->
  clean h /\ from_networkx h = h /\ forall geo', exists f', to_json geo' h = Ok f' /\ from_json f' = Ok h.
Proof.
  intros W E L. destruct (loaded_is geo g f h W E L) as [S ->]. pose proof (described_wf geo g W) as WD. pose proof (rebuilt_clean _ WD (described_clean geo g S)) as C.
  pose proof (rebuilt_twice _ WD) as T. split; [auto|split; [auto|]]. intros geo'. destruct (C110_roundtrip geo' _ (rebuilt_wf _ WD) C) as (f' & E' & L'). exists f'. split; auto. now rewrite T in L'.
Qed.

Lemma dget_tidy a k s v : NoDup (dkeys a) -> key_text k = Ok s -> s <> "id"%string -> dget a k = Some v -> (forall k', In k' (dkeys a) -> key_text k' = Ok s -> k' = k) ->
  (forall k', In k' (dkeys a) -> exists t, key_text k' = Ok t) -> dget (tidy a) (KStr s) = Some (dec v).
Proof.
  intros ND Ek ns G U T. unfold tidy. apply dupdate_last.
  - apply dget_In in G. assert (In (k, v) (noid a)) as I. { unfold noid. apply filter_In. split; auto. unfold is_id. cbn [fst]. destruct (eqb_spec k (KStr "id")) as [->|]; auto. cbn in Ek. congruence. }
    apply (in_map rd), (in_map fst) in I. unfold rd in I at 1. cbn in I. unfold text in I. rewrite Ek in I. exact I.
  - intros w I. apply in_map_iff in I. destruct I as ([k' v'] & [= Et Ev] & I). unfold noid in I. apply filter_In in I. destruct I as [I _].
    pose proof (in_map fst _ _ I) as Ik. cbn in Ik. destruct (T k' Ik) as [t Et']. unfold text in Et. rewrite Et' in Et. subst t. rewrite (U k' Ik Et') in I. apply In_dget in I; auto. rewrite G in I. congruence.
Qed.
Lemma dget_tidy_none a s : (forall k, In k (dkeys a) -> exists t, key_text k = Ok t /\ t <> s) \/ s = "id"%string -> dget (tidy a) (KStr s) = None.
Proof.
  intros H. unfold tidy. rewrite dupdate_none; auto. intros I. unfold dkeys in I. rewrite map_map in I. apply in_map_iff in I. destruct I as ([k v] & [= Ek] & I). unfold noid in I. apply filter_In in I. destruct I as [I N].
  destruct H as [H| ->].
  - destruct (H k) as (t & Et & nt); [now apply (in_map fst) in I|]. unfold text in Ek. rewrite Et in Ek. congruence.
  - apply text_id in Ek. subst k. unfold is_id in N. cbn [fst] in N. rewrite eqb_refl in N. discriminate.
Qed.

Lemma dget_rebuilt_adj g u es : jwf g -> dget (j_adj g) u = Some es -> exists es', dget (j_adj (from_networkx g)) u = Some es' /\ forall v, dget es' v = dget es v.
Proof. intros W G. destruct (rebuilt_row g W u es G) as (es' & G' & A & _). eauto. Qed.
Lemma save_parts geo g f : to_json geo g = Ok f ->
  (forall u es, In (u, es) (j_adj g) -> exists j, encode (VDict (handle_geometries geo (dset (dget_or [] (j_nodes g) u) (KStr "id") (value_of_ident u)))) = Ok j) /\
  (forall u es v e, In (u, es) (j_adj g) -> In (v, e) es -> exists j, encode (VDict (dset e (KStr "id") (value_of_ident v))) = Ok j).
Proof.
  unfold to_json. destruct (encode (VList _)) as [gs| |]; try discriminate. cbn [bind].
  destruct (mapM _ (j_adj g)) as [fn| |] eqn:EN; try discriminate. cbn [bind].
  match goal with |- context [mapM ?q (j_adj g)] => destruct (mapM q (j_adj g)) as [fe| |] eqn:EE end; try discriminate. intros _.
  assert (forall A B (q : A -> res B) l ys x, mapM q l = Ok ys -> In x l -> exists y, q x = Ok y) as F.
  { clear. intros A B q l ys x E I. apply mapM_Ok in E. induction E as [|x1 y l ys H _ IH]; [destruct I|]. destruct I as [->|I]; eauto. }
  split.
  - intros u es I. exact (F _ _ _ _ _ _ EN I).
  - intros u es v e I J. destruct (F _ _ _ _ _ _ EE I) as [js E]. exact (F _ _ _ _ _ _ E J).
Qed.
Lemma keys_written a x j k : encode (VDict (dset a (KStr "id") x)) = Ok j -> In k (dkeys a) -> exists t, key_text k = Ok t.
Proof.
  intros E I. assert (In k (dkeys (dset a (KStr "id") x))) as J by (apply In_dkeys_dset; auto). apply dget_key in J. destruct J as [v J]. apply dget_In in J. apply (encode_dict_in _ _ _ _ E J).
Qed.

(** C110: of a graph that was saved and loaded.  The nodes, their order and the
    edges are those saved.  No attribute is called id.  An attribute with a
    plain value comes back unchanged, unless another key of the same dictionary
    is written with the same letters (the number 1 and the string 1).  Nothing
    else appears.  Geometries of nodes come back as GeoJSON if they were asked
    for, and are gone otherwise. *)
Theorem C110_attributes geo g f h : jwf g -> to_json geo g = Ok f -> from_json f = Ok h ->
  dkeys (j_nodes h) = dkeys (j_nodes g) /\
  (forall n a, dget (j_nodes g) n = Some a -> exists a', dget (j_nodes h) n = Some a' /\
     dget a' (KStr "id") = None /\
     (forall s, In (KStr s) (dkeys a') -> exists k, In k (dkeys a) /\ key_text k = Ok s) /\
     (forall k s v, dget a k = Some v -> key_text k = Ok s -> s <> "id"%string -> (forall k', In k' (dkeys a) -> key_text k' = Ok s -> k' = k) ->
        (plain v -> dget a' (KStr s) = Some v) /\
        (forall x, v = VGeom x -> (geo = false -> dget a' (KStr s) = None) /\ (geo = true -> plain x -> dget a' (KStr s) = Some x)))) /\
  (forall u es, dget (j_adj g) u = Some es -> exists es', dget (j_adj h) u = Some es' /\ (forall v, In v (dkeys es') <-> In v (dkeys es)) /\
     forall v e, dget es v = Some e -> exists e', dget es' v = Some e' /\
       dget e' (KStr "id") = None /\
       (forall s, In (KStr s) (dkeys e') -> exists k, In k (dkeys e) /\ key_text k = Ok s) /\
       (forall k s x, dget e k = Some x -> key_text k = Ok s -> s <> "id"%string -> (forall k', In k' (dkeys e) -> key_text k' = Ok s -> k' = k) -> plain x -> dget e' (KStr s) = Some x)).
Proof.
  intros W E L. destruct (loaded_is geo g f h W E L) as [S ->]. pose proof (described_wf geo g W) as WD. destruct (save_parts geo g f E) as [EN EE].
  assert (forall a s, (forall k, In k (dkeys a) -> exists t, key_text k = Ok t) -> In (KStr s) (dkeys (tidy a)) -> exists k, In k (dkeys a) /\ key_text k = Ok s) as B.
  { intros a s T I. destruct (in_dec string_dec s (map text (dkeys a))) as [J|J].
    - apply in_map_iff in J. destruct J as (k & Ek & Ik). exists k. split; auto. destruct (T k Ik) as [t Et]. unfold text in Ek. rewrite Et in Ek. congruence.
    - exfalso. apply dget_key in I. destruct I as [v I]. rewrite (dget_tidy_none a s) in I; [discriminate|]. left. intros k Ik. destruct (T k Ik) as [t Et]. exists t. split; auto. intros ->. apply J. apply in_map_iff. exists k. split; auto. unfold text. now rewrite Et. }
  split; [cbn; unfold dkeys; now rewrite map_map|]. split.
  - intros n a G. exists (tidy (handle_geometries geo a)). split; [cbn [from_networkx j_nodes described]; rewrite (dget_map (fun _ a => tidy (handle_geometries geo a))), G; reflexivity|].
    pose proof (w_node_attrs _ W n a G) as ND.
    assert (forall k v, dget a k = Some v -> is_geom v = false \/ geo = true -> k = KStr "id" \/ exists t, key_text k = Ok t) as T0.
    { intros k v Gk Hv. destruct (eqb_spec k (KStr "id")) as [->|ne]; auto. right.
      assert (exists es, In (n, es) (j_adj g)) as [es I]. { apply dget_Some_key in G. rewrite <- (w_adj _ W) in G. apply dget_key in G. destruct G as [es G]. apply dget_In in G. eauto. }
      destruct (EN n es I) as [j Ej]. unfold dget_or in Ej. rewrite G in Ej.
      assert (exists w, In (k, w) (handle_geometries geo (dset a (KStr "id") (value_of_ident n)))) as [w Iw].
      { assert (dget (dset a (KStr "id") (value_of_ident n)) k = Some v) as Gd by (rewrite dget_dset_neq; auto). apply dget_In in Gd. unfold handle_geometries. destruct geo.
        - eexists. apply in_map_iff. exists (k, v). split; [reflexivity|auto].
        - destruct Hv as [Hv|Hv]; [|discriminate]. exists v. apply filter_In. split; auto. cbn. now rewrite Hv. }
      apply (encode_dict_in _ _ _ _ Ej Iw). }
    assert (forall k, In k (dkeys (handle_geometries geo a)) -> In k (dkeys a) /\ exists t, key_text k = Ok t) as T.
    { intros k I. apply dget_key in I. destruct I as [w I]. apply dget_In in I. unfold handle_geometries in I. destruct geo.
      - apply in_map_iff in I. destruct I as ([k0 v0] & [= -> Ew] & I). split; [now apply (in_map fst) in I|]. destruct (T0 k v0) as [->|X]; [now apply In_dget|auto|cbn; eauto|auto].
      - apply filter_In in I. destruct I as [I Hw]. split; [now apply (in_map fst) in I|]. cbn in Hw. apply negb_true_iff in Hw. destruct (T0 k w) as [->|X]; [now apply In_dget|auto|cbn; eauto|auto]. }
    split; [apply dget_tidy_none; now right|]. split.
    { intros s I. destruct (B _ s (fun k I => proj2 (T k I)) I) as (k & Ik & Ek). exists k. split; auto. now apply T. }
    intros k s v Gk Ek ns U. split.
    + intros P. rewrite (dget_tidy (handle_geometries geo a) k s v); auto; [now rewrite (proj2 (plain_dec v P))|now apply NoDup_handle| | |].
      * apply dget_handle; auto. now apply plain_not_geom.
      * intros k' I. apply U. now apply T.
      * intros k' I. now apply T.
    + intros x ->. split.
      * intros ->. apply dget_tidy_none. left. intros k' I. destruct (T k' I) as [I' [t Et]]. exists t. split; auto. intros ->. pose proof (U k' I' Et) as ->.
        apply dget_key in I. destruct I as [w I]. apply dget_In in I. unfold handle_geometries in I. apply filter_In in I. destruct I as [I Hw]. apply In_dget in I; auto. rewrite Gk in I. injection I as <-. discriminate.
      * intros -> P. rewrite (dget_tidy (handle_geometries true a) k s x); auto; [now rewrite (proj2 (plain_dec x P))|now apply NoDup_handle| | |].
        -- apply In_dget; [now apply NoDup_handle|]. apply in_map_iff. exists (k, VGeom x). split; auto. now apply dget_In.
        -- intros k' I. apply U. now apply T.
        -- intros k' I. now apply T.
  - intros u es G.
    assert (dget (j_adj (described geo g)) u = Some (map (fun ve => (fst ve, tidy (snd ve))) es)) as GD.
    { cbn [described j_adj]. rewrite (dget_map (fun _ es => map (fun ve => (fst ve, tidy (snd ve))) es)), G. reflexivity. }
    destruct (dget_rebuilt_adj _ u _ WD GD) as (es' & G' & A). exists es'. split; auto.
    assert (forall v, dget es' v = option_map tidy (dget es v)) as A' by (intros v; rewrite A; apply (dget_map (fun _ e => tidy e))).
    split.
    { intros v. rewrite !dget_key. rewrite A'. destruct (dget es v); cbn; split; intros [x X]; eauto; discriminate. }
    intros v e Ge. exists (tidy e). rewrite A', Ge. split; auto. split; [apply dget_tidy_none; now right|].
    pose proof (w_edge_attrs _ W u es v e G Ge) as ND. destruct (EE u es v e (dget_In _ _ G) (dget_In _ _ Ge)) as [j Ej].
    split; [intros s; apply B; intros k; now apply (keys_written _ _ _ _ Ej)|].
    intros k s x Gk Ek ns U P. rewrite (dget_tidy e k s x); auto; [now rewrite (proj2 (plain_dec x P))|intros k'; now apply (keys_written _ _ _ _ Ej)].
Qed.

Lemma encode_errors v : (exists j, encode v = Ok j) \/ encode v = Err TypeError.
Proof.
  induction v as [| | | | |l IH|l IH|d IH| | |] using value_ind'; cbn; eauto.
  - change ((exists j, encode (VList l) = Ok j) \/ encode (VList l) = Err TypeError). rewrite encode_list. assert ((exists js, mapM encode l = Ok js) \/ mapM encode l = Err TypeError) as [[js ->]| ->]; cbn; eauto.
    induction IH as [|x l [[j Ej]|Ej] _ IHl]; cbn; eauto; rewrite Ej; cbn; auto. destruct IHl as [[js ->]| ->]; cbn; eauto.
  - change ((exists j, encode (VList l) = Ok j) \/ encode (VList l) = Err TypeError). rewrite encode_list. assert ((exists js, mapM encode l = Ok js) \/ mapM encode l = Err TypeError) as [[js ->]| ->]; cbn; eauto.
    induction IH as [|x l [[j Ej]|Ej] _ IHl]; cbn; eauto; rewrite Ej; cbn; auto. destruct IHl as [[js ->]| ->]; cbn; eauto.
  - change ((exists j, encode (VDict d) = Ok j) \/ encode (VDict d) = Err TypeError). rewrite encode_dict. assert ((exists js, mapM enc_pair d = Ok js) \/ mapM enc_pair d = Err TypeError) as [[js ->]| ->]; cbn; eauto.
    induction IH as [|[k x] d H _ IHd]; cbn; eauto. unfold enc_pair at 1 3. cbn in *. assert ((exists t, key_text k = Ok t) \/ key_text k = Err TypeError) as [[t ->]| ->] by (destruct k as [| |[|]| |]; cbn; eauto); cbn; auto.
    destruct H as [[j ->]| ->]; cbn; auto. destruct IHd as [[js ->]| ->]; cbn; eauto.
Qed.
Lemma mapM_errors {A B} (q : A -> res B) l : (forall x, In x l -> (exists y, q x = Ok y) \/ q x = Err TypeError) -> (exists ys, mapM q l = Ok ys) \/ mapM q l = Err TypeError.
Proof.
  induction l as [|x l IH]; intros H; cbn; eauto. destruct (H x (or_introl eq_refl)) as [[y ->]| ->]; cbn; auto. destruct IH as [[ys ->]| ->]; cbn; eauto. intros. apply H. now right.
Qed.
(** C110: saving either succeeds or raises TypeError, and raises TypeError if a
    node or edge attribute has a key that is not a string, number, boolean or
    None. *)
Theorem C110_save_errors geo g :
  ((exists f, to_json geo g = Ok f) \/ to_json geo g = Err TypeError) /\
  (forall u es v e i x, In (u, es) (j_adj g) -> In (v, e) es -> NoDup (dkeys e) -> In (KOther i, x) e -> to_json geo g = Err TypeError).
Proof.
  assert ((exists f, to_json geo g = Ok f) \/ to_json geo g = Err TypeError) as A.
  { unfold to_json. destruct (encode_errors (VList (map (fun kv : key * value => VTuple [value_of_key (fst kv); snd kv]) (j_attrs g)))) as [[gs ->]| ->]; cbn [bind]; auto.
    match goal with |- context [mapM ?q (j_adj g)] => destruct (mapM_errors q (j_adj g)) as [[ns ->]| ->] end; cbn [bind]; auto; [intros; apply encode_errors|].
    match goal with |- context [mapM ?q (j_adj g)] => destruct (mapM_errors q (j_adj g)) as [[es ->]| ->] end; cbn [bind]; eauto. intros. apply mapM_errors. intros. apply encode_errors. }
  split; auto. intros u es v e i x I J ND K. destruct A as [[f E]|E]; auto. exfalso.
  destruct (proj2 (save_parts geo g f E) u es v e I J) as [j Ej].
  destruct (encode_dict_in _ _ (KOther i) x Ej) as [[t T] _]; [|discriminate].
  apply dget_In. rewrite dget_dset_neq by discriminate. now apply In_dget.
Qed.

(** ** Findings *)
Local Open Scope Z_scope.
(** Two counties and a node between them; the neighbours of node 3 are listed
    as 2, 1. *)
Definition pop (z : Z) : attrs := [(KStr "TOTPOP", VInt z); (KStr "name", VStr "a")].
Definition county : jgraph :=
  mkJ [(KStr "crs", VStr "EPSG:4326")] [(IInt 1, pop 5); (IInt 2, pop 6); (IInt 3, pop 7)]
      [(IInt 1, [(IInt 3, [(KStr "shared_perim", VFloat 4)])]); (IInt 2, [(IInt 3, [])]); (IInt 3, [(IInt 2, []); (IInt 1, [(KStr "shared_perim", VFloat 4)])])].
Ltac jwf_nodup := repeat (apply NoDup_cons; [cbn; intuition discriminate|]); apply NoDup_nil.
Ltac jcase := repeat match goal with
  | |- context [ident_eqb ?a ?b] => destruct (ident_eqb a b) eqn:?
  | H : context [ident_eqb ?a ?b] |- _ => destruct (ident_eqb a b) eqn:?
  end.
Lemma jwf_finite g : NoDup (dkeys (j_nodes g)) -> dkeys (j_adj g) = dkeys (j_nodes g) -> NoDup (dkeys (j_attrs g)) ->
  Forall (fun na => NoDup (dkeys (snd na))) (j_nodes g) ->
  Forall (fun ue => NoDup (dkeys (snd ue)) /\ incl (dkeys (snd ue)) (dkeys (j_nodes g)) /\ Forall (fun ve => NoDup (dkeys (snd ve))) (snd ue)) (j_adj g) ->
  Forall (fun ue => Forall (fun vf => dget (snd ue) (fst vf) = dget (snd vf) (fst ue)) (j_adj g)) (j_adj g) -> jwf g.
Proof.
  intros H1 H2 H3 H4 H5 H6. rewrite Forall_forall in H4, H5, H6. constructor; auto.
  - intros n a G. apply dget_In in G. apply (H4 _ G).
  - intros u es G. apply dget_In in G. apply (H5 _ G).
  - intros u es v G. apply dget_In in G. apply (H5 _ G).
  - intros u es v e G Ge. apply dget_In in G, Ge. destruct (H5 _ G) as (_ & _ & F). rewrite Forall_forall in F. apply (F _ Ge).
  - intros u v eu ev Gu Gv. apply dget_In in Gu, Gv. pose proof (H6 _ Gu) as F. rewrite Forall_forall in F. apply (F _ Gv).
Qed.
Ltac jwf_tac := apply jwf_finite; [jwf_nodup|reflexivity|jwf_nodup|repeat (apply Forall_cons; [cbn; jwf_nodup|]); apply Forall_nil
  |repeat (apply Forall_cons; [cbn; split; [jwf_nodup|split; [intros ? ?; cbn in *; tauto|repeat (apply Forall_cons; [cbn; jwf_nodup|]); apply Forall_nil]]|]); apply Forall_nil
  |repeat (apply Forall_cons; [repeat (apply Forall_cons; [reflexivity|]); apply Forall_nil|]); apply Forall_nil].
Lemma county_wf : jwf county.
Proof. jwf_tac. Qed.
Lemma county_clean : clean county.
Proof.
  assert (forall z, storable (pop z)) as P.
  { intros z. split; [jwf_nodup|]. intros k v [[= <- <-]|[[= <- <-]|[]]]; (split; [eexists; split; [reflexivity|discriminate]|constructor]). }
  assert (storable []) as N by (split; [constructor|intros k v []]).
  assert (storable [(KStr "shared_perim", VFloat 4)]) as Q.
  { split; [jwf_nodup|]. intros k v [[= <- <-]|[]]. split; [eexists; split; [reflexivity|discriminate]|constructor]. }
  constructor.
  - intros n a [[= <- <-]|[[= <- <-]|[[= <- <-]|[]]]]; split; cbn; auto.
  - intros u es v e [[= <- <-]|[[= <- <-]|[[= <- <-]|[]]]].
    + intros [[= <- <-]|[]]. exact Q.
    + intros [[= <- <-]|[]]. exact N.
    + intros [[= <- <-]|[[= <- <-]|[]]]; auto.
  - intros k v [[= <- <-]|[]]. split; [discriminate|constructor].
Qed.
(** The hypotheses of C110_roundtrip hold, and the neighbours of a node come
    back in another order: a chain with the same seed may go another way. *)
Theorem C110_order_refuted : exists g f h es es', jwf g /\ clean g /\ to_json false g = Ok f /\ from_json f = Ok h /\
  dget (j_adj g) (IInt 3) = Some es /\ dget (j_adj h) (IInt 3) = Some es' /\ dkeys es = [IInt 2; IInt 1] /\ dkeys es' = [IInt 1; IInt 2].
Proof.
  exists county. do 4 eexists. split; [apply county_wf|]. split; [apply county_clean|]. split; [vm_compute; reflexivity|]. split; [vm_compute; reflexivity|].
  split; [reflexivity|]. split; [reflexivity|]. split; reflexivity.
Qed.
(** An attribute called id is lost, values that json does not know become None
    without a warning, tuples become lists, and of the keys 1 and "1" one is
    lost. *)
Definition odd_node : attrs := [(KStr "id", VStr "35-001"); (KStr "date", VOther 0); (KStr "ij", VTuple [VInt 1; VInt 2]); (KInt 1, VInt 10); (KStr "1", VInt 11); (KStr "n", VNp 9); (KStr "geometry", VGeom (VDict []))].
Theorem C110_lossy_refuted : exists g f h, jwf g /\ to_json false g = Ok f /\ from_json f = Ok h /\
  dget (j_nodes g) (IInt 0) = Some odd_node /\ dget (j_nodes h) (IInt 0) = Some [(KStr "date", VNone); (KStr "ij", VList [VInt 1; VInt 2]); (KStr "1", VInt 11); (KStr "n", VInt 9)].
Proof.
  exists (mkJ [] [(IInt 0, odd_node)] [(IInt 0, [])]). do 2 eexists. split; [jwf_tac|]. split; [vm_compute; reflexivity|]. split; [vm_compute; reflexivity|]. split; reflexivity.
Qed.
(** The graph of a grid is saved without complaint and cannot be loaded. *)
Theorem C110_grid_refuted : exists g f, jwf g /\ dkeys (j_nodes g) = [ITuple [0; 0]; ITuple [0; 1]] /\ to_json false g = Ok f /\ from_json f = Err TypeError.
Proof.
  exists (mkJ [] [(ITuple [0; 0], []); (ITuple [0; 1], [])] [(ITuple [0; 0], [(ITuple [0; 1], [])]); (ITuple [0; 1], [(ITuple [0; 0], [])])]). eexists.
  split; [jwf_tac|]. split; [reflexivity|]. split; vm_compute; reflexivity.
Qed.

Print Assumptions C110_values.
Print Assumptions C110_rebuild.
Print Assumptions C110_roundtrip.
Print Assumptions C110_other_nodes.
Print Assumptions C110_reload.
Print Assumptions C110_attributes.
Print Assumptions C110_save_errors.
Print Assumptions C110_order_refuted.
Print Assumptions C110_lossy_refuted.
Print Assumptions C110_grid_refuted.
