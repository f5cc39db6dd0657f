(** Lemmas about saving and loading graphs. *)
From Coq Require Import String List Bool Arith ZArith Lia DecimalString DecimalPos.
From Verif Require Import Base M_Json.
Import ListNotations.
Local Open Scope list_scope.

(** ** Dictionaries *)
Lemma dset_same {K V} {E : EqB K} (d : dict K V) k v : dget d k = Some v -> dset d k v = d.
Proof.
  induction d as [|[k' v'] d IH]; cbn; [discriminate|]. destruct (eqb_spec k k').
  - intros [= ->]. subst. reflexivity.
  - intros H. rewrite IH; auto.
Qed.
Lemma dupdate_nil {K V} {E : EqB K} (e : dict K V) : NoDup (dkeys e) -> dupdate [] e = e.
Proof.
  unfold dupdate.
  assert (forall (e d : dict K V), NoDup (dkeys (d ++ e)) -> fold_left (fun acc kv => dset acc (fst kv) (snd kv)) e d = d ++ e) as G.
  { clear e. induction e as [|[k v] e IH]; intros d ND; cbn; [symmetry; apply app_nil_r|].
    rewrite dset_new; cycle 1.
    - unfold dkeys in *. rewrite map_app in ND. cbn in ND. apply NoDup_remove_2 in ND. intros H. apply ND. apply in_or_app. now left.
    - rewrite IH; rewrite <- app_assoc; auto. }
  intros ND. now apply (G e []).
Qed.
Lemma dupdate_self {K V} {E : EqB K} (e : dict K V) : NoDup (dkeys e) -> dupdate e e = e.
Proof.
  intros ND. unfold dupdate.
  assert (forall (l : dict K V), (forall k v, In (k, v) l -> dget e k = Some v) -> fold_left (fun acc kv => dset acc (fst kv) (snd kv)) l e = e) as G.
  { induction l as [|[k v] l IH]; intros H; cbn; auto. rewrite (dset_same e k v) by (apply H; now left). apply IH. intros. apply H. now right. }
  apply G. intros k v I. now apply In_dget.
Qed.
Lemma filter_dset {K V} {E : EqB K} (d : dict K V) k v i :
  filter (fun kv => negb (eqb (fst kv) i)) (dset d k v) =
  if eqb k i then filter (fun kv => negb (eqb (fst kv) i)) d else dset (filter (fun kv => negb (eqb (fst kv) i)) d) k v.
Proof.
  induction d as [|[k' v'] d IH]; cbn.
  - destruct (eqb k i); reflexivity.
  - destruct (eqb_spec k k') as [->|n]; cbn.
    + destruct (eqb_spec k' i); cbn; auto. destruct (eqb_spec k' k'); [reflexivity|congruence].
    + rewrite IH. destruct (eqb_spec k i) as [->|n1]; cbn.
      * reflexivity.
      * destruct (eqb_spec k' i); cbn; auto. destruct (eqb_spec k k'); [congruence|reflexivity].
Qed.
Lemma filter_dupdate {K V} {E : EqB K} (e : dict K V) : forall d i,
  filter (fun kv => negb (eqb (fst kv) i)) (dupdate d e) = dupdate (filter (fun kv => negb (eqb (fst kv) i)) d) (filter (fun kv => negb (eqb (fst kv) i)) e).
Proof.
  unfold dupdate. induction e as [|[k v] e IH]; intros d i; cbn; auto. rewrite IH, filter_dset. destruct (eqb k i); reflexivity.
Qed.
Lemma dget_map {K V W} {E : EqB K} (f : K -> V -> W) (d : dict K V) k : dget (map (fun kv => (fst kv, f (fst kv) (snd kv))) d) k = option_map (f k) (dget d k).
Proof. apply dget_dmap. Qed.
Lemma filter_map_swap {A B} (f : A -> B) (p : B -> bool) l : filter p (map f l) = map f (filter (fun x => p (f x)) l).
Proof. induction l as [|x l IH]; cbn; auto. destruct (p (f x)); cbn; rewrite IH; reflexivity. Qed.
Lemma filter_swap {A} (p q : A -> bool) l : filter p (filter q l) = filter q (filter p l).
Proof. induction l as [|x l IH]; cbn; auto. destruct (p x) eqn:E1, (q x) eqn:E2; cbn; rewrite ?E1, ?E2, IH; reflexivity. Qed.

(** ** Values *)
Lemma value_ind' (Q : value -> Prop) :
  Q VNone -> (forall b, Q (VBool b)) -> (forall z, Q (VInt z)) -> (forall x, Q (VFloat x)) -> (forall s, Q (VStr s)) ->
  (forall l, Forall Q l -> Q (VList l)) -> (forall l, Forall Q l -> Q (VTuple l)) -> (forall d, Forall (fun kv => Q (snd kv)) d -> Q (VDict d)) ->
  (forall z, Q (VNp z)) -> (forall x, Q x -> Q (VGeom x)) -> (forall k, Q (VOther k)) -> forall v, Q v.
Proof.
  intros q1 q2 q3 q4 q5 q6 q7 q8 q9 q10 q11. fix IH 1. intros [|b|z|x|s|l|l|d|z|x|k]; [exact q1|apply q2|apply q3|apply q4|apply q5| | | |apply q9|apply q10; apply IH|apply q11].
  - apply q6. induction l as [|x l IHl]; constructor; [apply IH|exact IHl].
  - apply q7. induction l as [|x l IHl]; constructor; [apply IH|exact IHl].
  - apply q8. induction d as [|[k x] d IHd]; constructor; [apply IH|exact IHd].
Qed.
Lemma json_ind' (Q : json -> Prop) :
  Q JNull -> (forall b, Q (JBool b)) -> (forall z, Q (JInt z)) -> (forall x, Q (JFloat x)) -> (forall s, Q (JStr s)) ->
  (forall l, Forall Q l -> Q (JArr l)) -> (forall d, Forall (fun kv => Q (snd kv)) d -> Q (JObj d)) -> forall v, Q v.
Proof.
  intros q1 q2 q3 q4 q5 q6 q7. fix IH 1. intros [|b|z|x|s|l|d]; [exact q1|apply q2|apply q3|apply q4|apply q5| | ].
  - apply q6. induction l as [|x l IHl]; constructor; [apply IH|exact IHl].
  - apply q7. induction d as [|[k x] d IHd]; constructor; [apply IH|exact IHd].
Qed.

Definition enc_pair (kx : key * value) : res (string * json) := t <- key_text (fst kx) ;; j <- encode (snd kx) ;; Ok (t, j).
Lemma encode_list l : encode (VList l) = (js <- mapM encode l ;; Ok (JArr js)).
Proof. cbn [encode]. f_equal. induction l as [|x l IH]; cbn; auto. rewrite <- IH. reflexivity. Qed.
Lemma encode_tuple l : encode (VTuple l) = encode (VList l).
Proof. reflexivity. Qed.
Lemma encode_dict d : encode (VDict d) = (js <- mapM enc_pair d ;; Ok (JObj js)).
Proof.
  cbn [encode]. f_equal. induction d as [|[k x] d IH]; cbn; auto. rewrite <- IH. unfold enc_pair. cbn.
  destruct (key_text k); cbn; auto. destruct (encode x); cbn; auto.
Qed.
Definition dec_pair (kj : string * json) : key * value := (KStr (fst kj), decode (snd kj)).
Lemma decode_obj d : decode (JObj d) = VDict (dupdate [] (map dec_pair d)).
Proof.
  cbn [decode]. f_equal. unfold dupdate. generalize (@nil (key * value)). induction d as [|[t j] d IH]; intros acc; cbn; auto.
Qed.

(** What a value and a key are read back as *)
Definition dec (v : value) : value := match encode v with Ok j => decode j | _ => VNone end.
Definition text (k : key) : string := match key_text k with Ok t => t | _ => EmptyString end.
Definition rd (kx : key * value) : key * value := (KStr (text (fst kx)), dec (snd kx)).
Lemma encode_dict_ok d j : encode (VDict d) = Ok j -> decode j = VDict (dupdate [] (map rd d)).
Proof.
  rewrite encode_dict. destruct (mapM enc_pair d) as [js| |] eqn:E; try discriminate. intros [= <-]. rewrite decode_obj. do 2 f_equal.
  apply mapM_Ok in E. induction E as [|[k x] [t j] d js H _ IH]; cbn; auto. rewrite IH. f_equal.
  unfold enc_pair in H. cbn in H. unfold rd, dec_pair, text, dec. cbn. destruct (key_text k); try discriminate. cbn in H. destruct (encode x); try discriminate. cbn in H. injection H as -> ->. reflexivity.
Qed.
Lemma encode_list_ok l j : encode (VList l) = Ok j -> decode j = VList (map dec l).
Proof.
  rewrite encode_list. destruct (mapM encode l) as [js| |] eqn:E; try discriminate. intros [= <-]. cbn. f_equal.
  apply mapM_Ok in E. induction E as [|x j l js H _ IH]; cbn; auto. rewrite IH. f_equal. unfold dec. now rewrite H.
Qed.
Lemma encode_dict_in d j k v : encode (VDict d) = Ok j -> In (k, v) d -> (exists t, key_text k = Ok t) /\ (exists j, encode v = Ok j).
Proof.
  rewrite encode_dict. destruct (mapM enc_pair d) as [js| |] eqn:E; try discriminate. intros _ I. apply mapM_Ok in E.
  induction E as [|[k1 v1] j1 d js H _ IH]; [destruct I|]. destruct I as [[= -> ->]|I]; auto.
  unfold enc_pair in H. cbn in H. destruct (key_text k); try discriminate. cbn in H. destruct (encode v); try discriminate. eauto.
Qed.

(** Values that a JSON file can hold: numbers, strings, booleans, None, lists of
    such values and dictionaries from strings to such values. *)
Inductive plain : value -> Prop :=
| plain_none : plain VNone
| plain_bool b : plain (VBool b)
| plain_int z : plain (VInt z)
| plain_float x : plain (VFloat x)
| plain_str s : plain (VStr s)
| plain_list l : Forall plain l -> plain (VList l)
| plain_dict d : NoDup (dkeys d) -> Forall (fun kv => (exists s, fst kv = KStr s) /\ plain (snd kv)) d -> plain (VDict d).

Lemma dupdate_Forall {K V} {E : EqB K} (Q : K * V -> Prop) (e : dict K V) : forall d, Forall Q d -> Forall Q e -> Forall Q (dupdate d e).
Proof.
  unfold dupdate. induction e as [|[k v] e IH]; intros d Hd He; cbn; auto. inversion He; subst. apply IH; auto.
  clear -Hd H1. induction d as [|[k' v'] d IH]; cbn; [constructor; auto|]. inversion Hd; subst. destruct (eqb_spec k k') as [->|]; constructor; auto.
Qed.
Lemma decode_plain j : plain (decode j).
Proof.
  induction j as [| | | | |l IH|d IH] using json_ind'; try (cbn; constructor; fail).
  - cbn. constructor. induction IH; cbn; constructor; auto.
  - rewrite decode_obj. constructor; [apply NoDup_dupdate; constructor|]. apply dupdate_Forall; [constructor|].
    induction IH as [|[t x] d H _ IH]; cbn; constructor; cbn; eauto.
Qed.
Lemma plain_dec v : plain v -> (exists j, encode v = Ok j) /\ dec v = v.
Proof.
  induction v as [| | | | |l IH|l IH|d IH| | |] using value_ind'; intros H; inversion H; subst; try (split; [cbn; eauto|reflexivity]; fail).
  - rewrite Forall_forall in *. assert (forall x, In x l -> (exists j, encode x = Ok j) /\ dec x = x) as G by (intros; apply IH; auto).
    clear IH H H1. assert (exists js, mapM encode l = Ok js) as [js E].
    { induction l as [|x l IH]; cbn; eauto. destruct (G x (or_introl eq_refl)) as [[j ->] _]. destruct IH as [js ->]; [intros; apply G; now right|]. cbn. eauto. }
    assert (encode (VList l) = Ok (JArr js)) as EE by (rewrite encode_list, E; reflexivity).
    split; [eauto|]. unfold dec at 1. rewrite EE. rewrite (encode_list_ok _ _ EE). f_equal. transitivity (map (fun x : value => x) l); [|apply map_id]. apply map_ext_in. intros x I. apply G, I.
  - rewrite Forall_forall in *. assert (forall k x, In (k, x) d -> (exists s, k = KStr s) /\ (exists j, encode x = Ok j) /\ dec x = x) as G.
    { intros k x I. destruct (H2 _ I) as [A B]. split; [exact A|]. apply (IH _ I). exact B. }
    clear IH H H2. assert (exists js, mapM enc_pair d = Ok js) as [js E].
    { clear H1. induction d as [|[k x] d IH]; cbn; eauto. destruct (G k x (or_introl eq_refl)) as ([s ->] & [j Ej] & _). unfold enc_pair at 1. cbn. rewrite Ej. cbn.
      destruct IH as [js ->]; [intros; apply G; now right|]. cbn. eauto. }
    assert (encode (VDict d) = Ok (JObj js)) as EE by (rewrite encode_dict, E; reflexivity).
    split; [eauto|]. unfold dec. rewrite EE. rewrite (encode_dict_ok _ _ EE). f_equal.
    replace (map rd d) with d; [apply dupdate_nil; auto|]. symmetry. transitivity (map (fun x : key * value => x) d); [|apply map_id].
    apply map_ext_in. intros [k x] I. destruct (G _ _ I) as ([s ->] & _ & Ex). unfold rd. cbn. rewrite Ex. reflexivity.
Qed.
Lemma dec_plain v : plain (dec v).
Proof. unfold dec. destruct (encode v); [apply decode_plain|constructor|constructor]. Qed.

(** ** Entries *)
Definition is_id (kv : key * value) : bool := eqb (fst kv) (KStr "id").
Definition noid (a : attrs) : attrs := filter (fun kv => negb (is_id kv)) a.
Lemma text_id k : text k = "id"%string -> k = KStr "id".
Proof.
  unfold text. destruct k as [s|z|[|]| |k]; cbn; intros H; try discriminate; [congruence|].
  exfalso. assert (NilZero.int_of_string (NilZero.string_of_int (Z.to_int z)) = None) as A by (rewrite H; reflexivity).
  rewrite NilZero.isi in A; [discriminate| |]; destruct z; cbn; try discriminate; intros [=]; eapply DecimalPos.Unsigned.to_uint_nonnil; eauto.
Qed.
Lemma is_id_rd kv : is_id (rd kv) = is_id kv.
Proof.
  destruct kv as [k v]. unfold is_id, rd. cbn [fst snd]. apply eq_iff_eq_true. rewrite !eqb_eq. split; [intros [= H]; now apply text_id|intros ->; reflexivity].
Qed.
Lemma noid_rd a : noid (map rd a) = map rd (noid a).
Proof. unfold noid. rewrite filter_map_swap. f_equal. apply filter_ext. intros kv. now rewrite is_id_rd. Qed.
Lemma noid_dset a x : noid (dset a (KStr "id") x) = noid a.
Proof. unfold noid, is_id. rewrite filter_dset, eqb_refl. reflexivity. Qed.
Lemma noid_handle geo a : noid (handle_geometries geo a) = handle_geometries geo (noid a).
Proof. unfold noid, handle_geometries. destruct geo; [|apply filter_swap]. rewrite filter_map_swap. reflexivity. Qed.
(** What the attributes [a] are read back as *)
Definition tidy (a : attrs) : attrs := dupdate [] (map rd (noid a)).
Lemma tidy_dset a x : tidy (dset a (KStr "id") x) = tidy a.
Proof. unfold tidy. now rewrite noid_dset. Qed.
Lemma tidy_handle_dset geo a x : tidy (handle_geometries geo (dset a (KStr "id") x)) = tidy (handle_geometries geo a).
Proof. unfold tidy. now rewrite !noid_handle, noid_dset. Qed.
Lemma NoDup_tidy a : NoDup (dkeys (tidy a)).
Proof. apply NoDup_dupdate. constructor. Qed.
Lemma NoDup_handle geo a : NoDup (dkeys a) -> NoDup (dkeys (handle_geometries geo a)).
Proof.
  unfold handle_geometries, dkeys. destruct geo; [rewrite map_map; auto|].
  induction a as [|[k v] a IH]; cbn; auto. intros ND. inversion ND; subst. destruct (is_geom v); cbn; auto. constructor; auto.
  intros I. apply H1. clear -I. induction a as [|[k' v'] a IH]; cbn in *; auto. destruct (is_geom v'); cbn in *; tauto.
Qed.
Lemma dupdate_last {K V} {E : EqB K} (e : dict K V) : forall d k x, In k (dkeys e) -> (forall v, In (k, v) e -> v = x) -> dget (dupdate d e) k = Some x.
Proof.
  unfold dupdate. induction e as [|[k' v'] e IH]; intros d k x I A; cbn in *; [destruct I|].
  destruct (In_dec_of k (dkeys e)) as [I'|n]; [apply IH; auto|].
  destruct I as [->|I]; [|contradiction]. rewrite (A v') by auto.
  clear -n. assert (forall (e d : dict K V), ~ In k (dkeys e) -> dget (fold_left (fun acc kv => dset acc (fst kv) (snd kv)) e d) k = dget d k) as G.
  { clear. induction e as [|[k' v'] e IH]; intros d n; cbn in *; auto. rewrite IH by tauto. apply dget_dset_neq. intuition congruence. }
  rewrite G by auto. apply dget_dset_eq.
Qed.
Lemma dupdate_none {K V} {E : EqB K} (e : dict K V) : forall d k, ~ In k (dkeys e) -> dget (dupdate d e) k = dget d k.
Proof. unfold dupdate. induction e as [|[k' v'] e IH]; intros d k n; cbn in *; auto. rewrite IH by tauto. apply dget_dset_neq. intuition congruence. Qed.
Lemma pop_id_entry a j n : NoDup (dkeys a) -> encode (VDict a) = Ok j -> dget a (KStr "id") = Some (value_of_ident n) ->
  pop_id (decode j) = (n' <- ident_of_value (dec (value_of_ident n)) ;; Ok (n', tidy a)).
Proof.
  intros ND E G. rewrite (encode_dict_ok _ _ E). cbn [pop_id].
  rewrite (dupdate_last (map rd a) [] (KStr "id") (dec (value_of_ident n))).
  - cbn [of_option bind]. destruct (ident_of_value _); cbn [bind]; auto. do 2 f_equal. unfold tidy. rewrite <- noid_rd. unfold noid, is_id. rewrite filter_dupdate. reflexivity.
  - apply dget_In in G. apply (in_map rd), (in_map fst) in G. exact G.
  - intros v I. apply in_map_iff in I. destruct I as ([k w] & [= Ek Ev] & I). apply text_id in Ek. subst k.
    apply (In_dget a) in I; auto. rewrite G in I. injection I as <-. auto.
Qed.
Definition simple (n : ident) : Prop := match n with IInt _ | IStr _ => True | _ => False end.
Lemma simple_read n : simple n -> ident_of_value (dec (value_of_ident n)) = Ok n.
Proof. destruct n; cbn; intros []; reflexivity. Qed.
Lemma not_simple_read n : ~ simple n -> ident_of_value (dec (value_of_ident n)) = Err match n with ITuple _ => TypeError | _ => ValueError end.
Proof.
  destruct n as [z|s|l|k]; cbn; intros H; try tauto. unfold dec. change (encode (VTuple (map VInt l))) with (encode (VList (map VInt l))).
  destruct (plain_dec (VList (map VInt l))) as [[j E] _].
  - constructor. apply Forall_forall. intros x I. apply in_map_iff in I. destruct I as (z & <- & _). constructor.
  - rewrite E. rewrite (encode_list_ok _ _ E). reflexivity.
Qed.
Lemma voi_not_geom n : is_geom (value_of_ident n) = false.
Proof. destruct n; reflexivity. Qed.
Lemma dget_handle geo a k v : dget a k = Some v -> is_geom v = false -> NoDup (dkeys a) -> dget (handle_geometries geo a) k = Some v.
Proof.
  intros G H ND. apply In_dget; [now apply NoDup_handle|]. apply dget_In in G. unfold handle_geometries. destruct geo.
  - apply in_map_iff. exists (k, v). split; auto. cbn. destruct v; auto. discriminate.
  - apply filter_In. split; auto. cbn. now rewrite H.
Qed.
(** A node's and an edge's entry *)
Lemma node_entry geo a n j : NoDup (dkeys a) -> encode (VDict (handle_geometries geo (dset a (KStr "id") (value_of_ident n)))) = Ok j ->
  pop_id (decode j) = (n' <- ident_of_value (dec (value_of_ident n)) ;; Ok (n', tidy (handle_geometries geo a))).
Proof.
  intros ND E. rewrite <- (tidy_handle_dset geo a (value_of_ident n)). apply pop_id_entry; auto.
  - apply NoDup_handle. now apply NoDup_dset.
  - apply dget_handle; [apply dget_dset_eq|apply voi_not_geom|]. now apply NoDup_dset.
Qed.
Lemma edge_entry a n j : NoDup (dkeys a) -> encode (VDict (dset a (KStr "id") (value_of_ident n))) = Ok j ->
  pop_id (decode j) = (n' <- ident_of_value (dec (value_of_ident n)) ;; Ok (n', tidy a)).
Proof.
  intros ND E. rewrite <- (tidy_dset a (value_of_ident n)). apply pop_id_entry; auto; [now apply NoDup_dset|apply dget_dset_eq].
Qed.
Lemma mapM_back {A B C} (f : A -> res B) (h : B -> res C) (q : A -> C) l js : mapM f l = Ok js ->
  (forall x j, In x l -> f x = Ok j -> h j = Ok (q x)) -> mapM h js = Ok (map q l).
Proof.
  intros E. apply mapM_Ok in E. induction E as [|x j l js H _ IH]; intros G; cbn; auto. rewrite (G x j (or_introl eq_refl) H). cbn. rewrite IH; auto. intros. apply (G x0); auto. now right.
Qed.

(** ** Graphs *)
(** A networkx graph: every node has attributes and neighbours; an edge is
    listed at both ends with the same attributes. *)
Record jwf (g : jgraph) : Prop := {
  w_nodes : NoDup (dkeys (j_nodes g));
  w_adj : dkeys (j_adj g) = dkeys (j_nodes g);
  w_attrs : NoDup (dkeys (j_attrs g));
  w_node_attrs : forall n a, dget (j_nodes g) n = Some a -> NoDup (dkeys a);
  w_nbrs : forall u es, dget (j_adj g) u = Some es -> NoDup (dkeys es);
  w_in : forall u es v, dget (j_adj g) u = Some es -> In v (dkeys es) -> In v (dkeys (j_nodes g));
  w_edge_attrs : forall u es v e, dget (j_adj g) u = Some es -> dget es v = Some e -> NoDup (dkeys e);
  w_sym : forall u v eu ev, dget (j_adj g) u = Some eu -> dget (j_adj g) v = Some ev -> dget eu v = dget ev u }.
Definition gk (k : key) : key := match k with KOther _ => KNone | k => k end.
(** The graph that the file describes *)
Definition described (geo : bool) (g : jgraph) : jgraph :=
  mkJ (dupdate [] (map (fun kv => (gk (fst kv), dec (snd kv))) (j_attrs g)))
      (map (fun na => (fst na, tidy (handle_geometries geo (snd na)))) (j_nodes g))
      (map (fun ue => (fst ue, map (fun ve => (fst ve, tidy (snd ve))) (snd ue))) (j_adj g)).
Lemma gk_read k : key_of_value (dec (value_of_key k)) = Ok (gk k).
Proof. destruct k; reflexivity. Qed.
Lemma graph_attrs_read l j : encode (VList (map (fun kv => VTuple [value_of_key (fst kv); snd kv]) l)) = Ok j ->
  graph_attrs (decode j) = Ok (dupdate [] (map (fun kv => (gk (fst kv), dec (snd kv))) l)).
Proof.
  intros E. rewrite (encode_list_ok _ _ E). cbn [graph_attrs]. unfold dupdate. generalize (@nil (key * value)).
  rewrite encode_list in E. destruct (mapM encode _) as [js| |] eqn:M; try discriminate. clear E j. revert js M.
  induction l as [|[k v] l IH]; intros js M acc; [reflexivity|]. cbn [map mapM fst snd] in M.
  destruct (encode (VTuple [value_of_key k; v])) as [j1| |] eqn:E1; try discriminate. cbn [bind] in M.
  destruct (mapM encode (map _ l)) as [js'| |] eqn:M'; try discriminate.
  cbn [map foldM fst snd].
  assert (dec (VTuple [value_of_key k; v]) = VList [dec (value_of_key k); dec v]) as Q.
  { unfold dec at 1. rewrite E1. rewrite encode_tuple in E1. now rewrite (encode_list_ok _ _ E1). }
  rewrite Q. rewrite gk_read. cbn [bind]. now apply (IH js').
Qed.

(** ** Rebuilding *)
Definition nbr_ends (u : ident) (p : ident * ident) : list ident :=
  (if eqb u (fst p) then [snd p] else []) ++ (if eqb u (snd p) then [fst p] else []).
Definition row (D : ident -> attrs) (ks : list ident) : nbrs := map (fun x => (x, D x)) ks.
Lemma dget_row D ks v : dget (row D ks) v = if mem v ks then Some (D v) else None.
Proof. induction ks as [|x ks IH]; auto. cbn [row map dget mem existsb]. destruct (eqb_spec v x) as [->|]; auto. Qed.
Lemma dkeys_row D ks : dkeys (row D ks) = ks.
Proof. unfold dkeys, row. rewrite map_map. apply map_id. Qed.
Lemma dset_row D ks v : dset (row D ks) v (D v) = row D (sadd v ks).
Proof.
  unfold sadd. destruct (mem_spec v ks) as [i|n].
  - apply dset_same. rewrite dget_row. now rewrite (proj2 (mem_In _ _) i).
  - rewrite dset_new by now rewrite dkeys_row. unfold row. now rewrite map_app.
Qed.
Lemma sunion_incl {A} {E : EqB A} (t : list A) : forall s, incl t s -> sunion s t = s.
Proof.
  unfold sunion. induction t as [|x t IH]; intros s I; cbn; auto. unfold sadd at 2. rewrite (proj2 (mem_In x s)) by (apply I; now left). apply IH. intros y Hy. apply I. now right.
Qed.
Lemma sunion_app {A} {E : EqB A} (s t r : list A) : sunion s (t ++ r) = sunion (sunion s t) r.
Proof. unfold sunion. apply fold_left_app. Qed.
Lemma sunion_filter {A} {E : EqB A} (t : list A) : NoDup t -> forall s, sunion s t = s ++ filter (fun x => negb (mem x s)) t.
Proof.
  unfold sunion. induction t as [|x t IH]; intros ND s; cbn; [symmetry; apply app_nil_r|]. inversion ND; subst. rewrite IH by auto. unfold sadd. destruct (mem_spec x s) as [i|n]; cbn; auto.
  rewrite <- app_assoc. cbn. do 2 f_equal. apply filter_ext_in. intros y Hy. f_equal. unfold mem. rewrite existsb_app. cbn. destruct (eqb_spec y x); [congruence|]. now rewrite !orb_false_r.
Qed.

Section Rebuild.
  Context (g : jgraph) (W : jwf g).
  Let ns := dkeys (j_adj g).
  Definition edata (u v : ident) : attrs := dget_or [] (dget_or [] (j_adj g) u) v.
  Definition state (K : ident -> list ident) : adjacency := map (fun u => (u, row (edata u) (K u))) ns.
  Definition addk (u v : ident) (K : ident -> list ident) : ident -> list ident := fun w => if eqb w u then sadd v (K w) else K w.
  Lemma ns_nodup : NoDup ns.
  Proof. unfold ns. rewrite (w_adj _ W). apply (w_nodes _ W). Qed.
  Lemma dget_state K u : In u ns -> dget (state K) u = Some (row (edata u) (K u)).
  Proof.
    intros I. apply In_dget.
    - unfold state, dkeys. rewrite map_map, map_id. apply ns_nodup.
    - unfold state. apply in_map_iff. eauto.
  Qed.
  Lemma state_ext K K' : (forall u, In u ns -> K u = K' u) -> state K = state K'.
  Proof. intros H. unfold state. apply map_ext_in. intros u I. now rewrite H. Qed.
  Lemma dset_state K u l : In u ns -> dset (state K) u (row (edata u) l) = state (fun w => if eqb w u then l else K w).
  Proof.
    unfold state. pose proof ns_nodup as ND. revert ND. induction ns as [|n r IH]; intros ND I; [destruct I|]. inversion ND; subst. cbn [map dset].
    destruct (eqb_spec u n) as [->|d].
    - rewrite eqb_refl. f_equal. apply map_ext_in. intros w Iw. destruct (eqb_spec w n); [congruence|reflexivity].
    - destruct (eqb_spec n u); [congruence|]. f_equal. apply IH; auto. destruct I; [congruence|auto].
  Qed.
  Lemma edata_sym u v : In u ns -> In v ns -> edata u v = edata v u.
  Proof.
    intros Iu Iv. destruct (proj1 (dget_key (j_adj g) u) Iu) as [eu Eu], (proj1 (dget_key (j_adj g) v) Iv) as [ev Ev]. unfold edata, dget_or. rewrite Eu, Ev. now rewrite (w_sym _ W u v eu ev).
  Qed.
  Lemma edata_nodup u v : NoDup (dkeys (edata u v)).
  Proof.
    unfold edata, dget_or. destruct (dget (j_adj g) u) as [es|] eqn:E; [|constructor]. destruct (dget es v) eqn:E2; [|constructor]. eapply w_edge_attrs; eauto.
  Qed.
  Lemma put_edge_state K u v : In u ns -> In v ns -> put_edge (state K) u v (edata u v) = state (addk v u (addk u v K)).
  Proof.
    intros Iu Iv. unfold put_edge. assert (dget_or [] (state K) u = row (edata u) (K u)) as R by (unfold dget_or; now rewrite (dget_state K u Iu)). rewrite !R.
    assert (dupdate (dget_or [] (row (edata u) (K u)) v) (edata u v) = edata u v) as ->.
    { unfold dget_or. rewrite dget_row. destruct (mem v (K u)); [apply dupdate_self|apply dupdate_nil]; apply edata_nodup. }
    assert (dset (state K) u (dset (row (edata u) (K u)) v (edata u v)) = state (addk u v K)) as ->.
    { rewrite dset_row, dset_state by auto. apply state_ext. intros w Iw. unfold addk. destruct (eqb_spec w u) as [->|]; reflexivity. }
    unfold dget_or. rewrite (dget_state _ v Iv), (edata_sym u v Iu Iv), dset_row, dset_state by auto.
    apply state_ext. intros w Iw. change (addk v u (addk u v K) w) with (if eqb w v then sadd u (addk u v K w) else addk u v K w). destruct (eqb_spec w v) as [->|]; reflexivity.
  Qed.
  Definition pairs_of (A : adjacency) : list (ident * ident) := flat_map (fun ue => map (fun v => (fst ue, v)) (dkeys (snd ue))) A.
  Definition addp (K : ident -> list ident) (p : ident * ident) : ident -> list ident := addk (snd p) (fst p) (addk (fst p) (snd p) K).
  Lemma put_edges_state u es : forall K, In u ns -> (forall v e, In (v, e) es -> In v ns /\ e = edata u v) ->
    put_edges (state K) u es = state (fold_left addp (map (fun v => (u, v)) (dkeys es)) K).
  Proof.
    unfold put_edges. induction es as [|[v e] es IH]; intros K Iu H; cbn; auto.
    destruct (H v e (or_introl eq_refl)) as [Iv ->]. rewrite put_edge_state by auto. apply IH; auto. intros v' e' I. apply H. now right.
  Qed.
  Lemma rebuild_state A : forall K, (forall u es, In (u, es) A -> In (u, es) (j_adj g)) ->
    fold_left (fun adj ue => put_edges adj (fst ue) (snd ue)) A (state K) = state (fold_left addp (pairs_of A) K).
  Proof.
    induction A as [|[u es] A IH]; intros K H; [reflexivity|]. unfold pairs_of. cbn [flat_map fold_left fst snd]. rewrite fold_left_app.
    assert (dget (j_adj g) u = Some es) as G by (apply In_dget; [apply ns_nodup|apply H; now left]).
    rewrite put_edges_state.
    - apply IH. intros. apply H. now right.
    - now apply dget_Some_key in G.
    - intros v e I. apply In_dget in I; [|now apply (w_nbrs _ W u)]. split.
      + unfold ns. rewrite (w_adj _ W). apply (w_in _ W u es); auto. now apply dget_Some_key in I.
      + unfold edata, dget_or. now rewrite G, I.
  Qed.
  Lemma addp_run ps : forall K u, fold_left addp ps K u = sunion (K u) (flat_map (nbr_ends u) ps).
  Proof.
    induction ps as [|[s t] ps IH]; intros K u; cbn [fold_left flat_map]; [reflexivity|]. rewrite IH, sunion_app. f_equal. unfold addp, addk, nbr_ends. cbn [fst snd].
    destruct (eqb_spec u s), (eqb_spec u t); subst; cbn; try rewrite eqb_refl; auto.
  Qed.
  Lemma from_networkx_state : j_adj (from_networkx g) = state (fun u => set_of (flat_map (nbr_ends u) (pairs_of (j_adj g)))).
  Proof.
    cbn. change (map (fun n => (n, [])) (dkeys (j_adj g))) with (state (fun _ => [])). rewrite rebuild_state by auto.
    apply state_ext. intros u _. apply addp_run.
  Qed.
  Lemma side_part A u es : (forall s e, In (s, e) A -> dget (j_adj g) s = Some e) -> dget (j_adj g) u = Some es -> ~ In u (dkeys A) ->
    flat_map (nbr_ends u) (pairs_of A) = filter (fun x => mem x (dkeys es)) (dkeys A).
  Proof.
    intros H G. induction A as [|[s e] A IH]; intros n; auto. unfold pairs_of. cbn [flat_map fst snd]. rewrite flat_map_app.
    cbn [dkeys map fst filter]. change (map fst A) with (dkeys A) in *. cbn in n.
    rewrite <- IH; [|intros; apply H; now right|tauto]. fold (pairs_of A).
    assert (dget (j_adj g) s = Some e) as Gs by (apply H; now left).
    assert (mem s (dkeys es) = mem u (dkeys e)) as ->.
    { apply eq_iff_eq_true. rewrite !mem_In, !dget_key. rewrite (w_sym _ W u s es e G Gs). tauto. }
    pose proof (w_nbrs _ W s e Gs) as ND. clear -n ND. assert (s <> u) as ne by tauto. clear n.
    assert (flat_map (nbr_ends u) (map (fun v => (s, v)) (dkeys e)) = if mem u (dkeys e) then [s] else []) as ->.
    { induction (dkeys e) as [|v l IH]; auto. inversion ND; subst. cbn [map flat_map]. rewrite IH by auto. unfold nbr_ends. cbn [fst snd mem existsb].
      destruct (eqb_spec u s); [congruence|]. destruct (eqb_spec u v) as [->|]; auto. cbn. fold (mem v l). rewrite (proj2 (mem_notIn v l)) by auto. reflexivity. }
    destruct (mem u (dkeys e)); reflexivity.
  Qed.
  Lemma rebuilt_keys before u es after : dget (j_adj g) u = Some es -> ns = before ++ u :: after ->
    set_of (flat_map (nbr_ends u) (pairs_of (j_adj g))) = filter (fun x => mem x (dkeys es)) before ++ filter (fun x => negb (mem x before)) (dkeys es).
  Proof.
    intros G Hns.
    assert (exists A1 A2, j_adj g = A1 ++ (u, es) :: A2 /\ dkeys A1 = before /\ dkeys A2 = after) as (A1 & A2 & HA & H1 & H2).
    { pose proof G as G'. apply dget_In, in_split in G'. destruct G' as (A1 & A2 & HA). exists A1, A2. split; auto.
      pose proof ns_nodup as ND. rewrite Hns in ND. unfold ns in Hns. rewrite HA in Hns. unfold dkeys in Hns. rewrite map_app in Hns. cbn in Hns.
      change (map fst A1) with (dkeys A1) in *. change (map fst A2) with (dkeys A2) in *.
      assert (forall (a b c d : list ident), a ++ u :: b = c ++ u :: d -> NoDup (c ++ u :: d) -> a = c /\ b = d) as U.
      { clear. induction a as [|x a IH]; intros b [|y c] d E ND; cbn in *.
        - injection E as ->. auto.
        - injection E as -> ->. inversion ND; subst. exfalso. apply H1. apply in_or_app. right. now left.
        - injection E as -> <-. inversion ND; subst. exfalso. apply H1. apply in_or_app. right. now left.
        - injection E as -> E. inversion ND; subst. destruct (IH b c d E) as [-> ->]; auto. }
      apply U in Hns; auto. }
    pose proof ns_nodup as ND. assert (~ In u before /\ ~ In u after) as [nb na].
    { rewrite Hns in ND. apply NoDup_remove_2 in ND. split; intros I; apply ND; apply in_or_app; auto. }
    assert (forall s e, In (s, e) (j_adj g) -> dget (j_adj g) s = Some e) as L by (intros s e I; apply In_dget; auto).
    assert (pairs_of (j_adj g) = pairs_of A1 ++ map (fun v => (u, v)) (dkeys es) ++ pairs_of A2) as -> by (rewrite HA; unfold pairs_of; rewrite flat_map_app; reflexivity).
    unfold set_of. rewrite !flat_map_app, !sunion_app.
    rewrite (side_part A1 u es); [|intros s e I; apply L; rewrite HA; apply in_or_app; auto|auto|now rewrite H1].
    rewrite (side_part A2 u es); [|intros s e I; apply L; rewrite HA; apply in_or_app; right; now right|auto|now rewrite H2].
    rewrite H1, H2.
    assert (NoDup before) as NDb by (rewrite Hns in ND; clear -ND; induction before as [|x l IH]; [constructor|inversion ND; subst; constructor; [intros I; apply H1; apply in_or_app; auto|auto]]).
    change (sunion [] (filter (fun x => mem x (dkeys es)) before)) with (set_of (filter (fun x => mem x (dkeys es)) before)).
    rewrite set_of_NoDup_id by now apply NoDup_filter.
    set (S := filter (fun x => mem x (dkeys es)) before).
    assert (sunion S (flat_map (nbr_ends u) (map (fun v => (u, v)) (dkeys es))) = sunion S (dkeys es)) as ->.
    { generalize S. clear. induction (dkeys es) as [|v l IH]; intros S; auto. cbn [map flat_map]. rewrite sunion_app.
      change (sunion S (v :: l)) with (sunion (sadd v S) l). rewrite <- IH. f_equal. unfold nbr_ends. cbn [fst snd]. rewrite eqb_refl.
      destruct (eqb_spec u v) as [->|]; auto. cbn. unfold sadd at 1. rewrite (proj2 (mem_In v (sadd v S))); auto. apply In_sadd. auto. }
    rewrite (sunion_incl (filter (fun x => mem x (dkeys es)) after)).
    - rewrite sunion_filter by now apply (w_nbrs _ W u). f_equal. apply filter_ext_in. intros x I. f_equal. apply eq_iff_eq_true. rewrite !mem_In. unfold S. rewrite filter_In, mem_In. tauto.
    - intros x I. apply filter_In in I. apply In_sunion. right. apply mem_In. tauto.
  Qed.
End Rebuild.

Lemma rebuilt_row g (W : jwf g) u es : dget (j_adj g) u = Some es ->
  exists es', dget (j_adj (from_networkx g)) u = Some es' /\ (forall v, dget es' v = dget es v) /\ NoDup (dkeys es') /\
    (forall before after, dkeys (j_adj g) = before ++ u :: after ->
       dkeys es' = filter (fun x => mem x (dkeys es)) before ++ filter (fun x => negb (mem x before)) (dkeys es)).
Proof.
  intros G. pose proof (dget_Some_key _ _ G) as I.
  set (ks := set_of (flat_map (nbr_ends u) (pairs_of (j_adj g)))). exists (row (edata g u) ks).
  assert (forall before after, dkeys (j_adj g) = before ++ u :: after -> ks = filter (fun x => mem x (dkeys es)) before ++ filter (fun x => negb (mem x before)) (dkeys es)) as O.
  { intros before after H. exact (rebuilt_keys g W before u es after G H). }
  split; [rewrite (from_networkx_state g W); apply (dget_state g W (fun u => set_of (flat_map (nbr_ends u) (pairs_of (j_adj g)))) u I)|].
  split; [|split; [rewrite dkeys_row; apply NoDup_set_of|intros before after H; rewrite dkeys_row; eauto]].
  intros v. rewrite dget_row. destruct (in_split _ _ I) as (before & after & H). rewrite (O before after H).
  destruct (dget es v) as [e|] eqn:Ev.
  - pose proof (dget_Some_key _ _ Ev) as Iv. rewrite (proj2 (mem_In v _)).
    + f_equal. unfold edata, dget_or. now rewrite G, Ev.
    + apply in_or_app. rewrite !filter_In, mem_In. destruct (mem_spec v before); [now left|right]. split; auto.
  - apply dget_None in Ev. rewrite (proj2 (mem_notIn v _)); auto. intros Iv. apply Ev. apply in_app_or in Iv. rewrite !filter_In, mem_In in Iv. tauto.
Qed.
Lemma rebuilt_adj_keys g : jwf g -> dkeys (j_adj (from_networkx g)) = dkeys (j_adj g).
Proof. intros W. rewrite (from_networkx_state g W). unfold state, dkeys. rewrite map_map. apply map_id. Qed.
Lemma rebuilt_wf g : jwf g -> jwf (from_networkx g).
Proof.
  intros W.
  assert (forall u es', dget (j_adj (from_networkx g)) u = Some es' -> exists es, dget (j_adj g) u = Some es /\ (forall v, dget es' v = dget es v) /\ NoDup (dkeys es')) as B.
  { intros u es' G. pose proof (dget_Some_key _ _ G) as I. rewrite rebuilt_adj_keys in I by auto. destruct (proj1 (dget_key (j_adj g) u) I) as [es E].
    destruct (rebuilt_row g W u es E) as (es2 & G2 & A & ND & _). rewrite G in G2. injection G2 as <-. eauto. }
  constructor.
  - apply (w_nodes _ W).
  - rewrite rebuilt_adj_keys by auto. apply (w_adj _ W).
  - apply (w_attrs _ W).
  - apply (w_node_attrs _ W).
  - intros u es G. destruct (B u es G) as (? & _ & _ & ND). exact ND.
  - intros u es v G I. destruct (B u es G) as (es0 & E & A & _). apply (w_in _ W u es0 v E). apply dget_key. apply dget_key in I. destruct I as [e I]. exists e. now rewrite <- A.
  - intros u es v e G Ge. destruct (B u es G) as (es0 & E & A & _). rewrite A in Ge. apply (w_edge_attrs _ W u es0 v e E Ge).
  - intros u v eu ev Gu Gv. destruct (B u eu Gu) as (eu0 & Eu & Au & _), (B v ev Gv) as (ev0 & Ev & Av & _). rewrite Au, Av. apply (w_sym _ W u v eu0 ev0 Eu Ev).
Qed.
Lemma dict_ext {K V} {E : EqB K} (d : list (K * V)) : forall e, NoDup (dkeys d) -> dkeys d = dkeys e -> (forall k, dget d k = dget e k) -> d = e.
Proof.
  induction d as [|[k v] d IH]; intros [|[k' v'] e] ND H A; cbn in *; try discriminate; auto. injection H as -> H. inversion ND; subst.
  pose proof (A k') as A1. rewrite eqb_refl in A1. injection A1 as ->. f_equal. apply IH; auto. intros x. specialize (A x). destruct (eqb_spec x k') as [E1|]; auto. rewrite E1.
  transitivity (@None V); [|symmetry]; apply dget_None; [auto|unfold dkeys in *; now rewrite <- H].
Qed.
Lemma rebuilt_twice g : jwf g -> from_networkx (from_networkx g) = from_networkx g.
Proof.
  intros W. pose proof (rebuilt_wf g W) as W'. set (h := from_networkx g) in *.
  assert (j_adj (from_networkx h) = j_adj h) as HA.
  { apply dict_ext.
    - rewrite rebuilt_adj_keys by auto. rewrite (w_adj _ W'). apply (w_nodes _ W').
    - now apply rebuilt_adj_keys.
    - intros u. destruct (dget (j_adj h) u) as [es|] eqn:G; cycle 1.
      { apply dget_None. rewrite rebuilt_adj_keys by auto. now apply dget_None. }
      destruct (rebuilt_row h W' u es G) as (es2 & G2 & A & ND & O). rewrite G2. f_equal. apply dict_ext; auto.
      pose proof (dget_Some_key _ _ G) as I. destruct (in_split _ _ I) as (before & after & H). rewrite (O _ _ H).
      unfold h in I, H. rewrite rebuilt_adj_keys in I, H by auto. destruct (proj1 (dget_key (j_adj g) u) I) as [es0 G0].
      destruct (rebuilt_row g W u es0 G0) as (es1 & G1 & A1 & _ & O1). fold h in G1. rewrite G in G1. injection G1 as <-.
      rewrite (O1 _ _ H). rewrite filter_app. rewrite <- app_assoc || idtac.
      assert (forall x, mem x (filter (fun x => mem x (dkeys es0)) before ++ filter (fun x => negb (mem x before)) (dkeys es0)) = mem x (dkeys es0)) as M.
      { intros x. apply eq_iff_eq_true. rewrite !mem_In, in_app_iff, !filter_In, mem_In, negb_true_iff. destruct (mem_spec x before); split; intuition congruence. }
      f_equal.
      + apply filter_ext. exact M.
      + replace (filter (fun x => negb (mem x before)) (filter (fun x => mem x (dkeys es0)) before)) with (@nil ident); cycle 1.
        { symmetry. rewrite filter_swap. replace (filter (fun x => negb (mem x before)) before) with (@nil ident); auto. symmetry.
          assert (forall l, incl l before -> filter (fun x => negb (mem x before)) l = []) as F; [|apply F; intros y; auto].
          induction l as [|y l IH]; intros Hl; cbn; auto. rewrite (proj2 (mem_In y before)) by (apply Hl; now left). cbn. apply IH. intros z Hz. apply Hl. now right. }
        cbn [app]. clear. induction (dkeys es0) as [|y l IH]; cbn; auto. destruct (negb (mem y before)) eqn:E; cbn; rewrite ?E, IH; auto. }
  unfold from_networkx in *. cbn in *. subst h. cbn in *. now rewrite HA.
Qed.

(** ** Loading *)
Lemma described_wf geo g : jwf g -> jwf (described geo g).
Proof.
  intros W. unfold described. constructor; cbn.
  - unfold dkeys. rewrite map_map. apply (w_nodes _ W).
  - unfold dkeys. rewrite !map_map. apply (w_adj _ W).
  - apply NoDup_dupdate. constructor.
  - intros n a G. rewrite (dget_map (fun _ a => tidy (handle_geometries geo a))) in G. destruct (dget (j_nodes g) n); [|discriminate]. injection G as <-. apply NoDup_tidy.
  - intros u es G. rewrite (dget_map (fun _ es => map (fun ve => (fst ve, tidy (snd ve))) es)) in G. destruct (dget (j_adj g) u) eqn:E; [|discriminate]. injection G as <-. unfold dkeys. rewrite map_map. apply (w_nbrs _ W u _ E).
  - intros u es v G I. rewrite (dget_map (fun _ es => map (fun ve => (fst ve, tidy (snd ve))) es)) in G. destruct (dget (j_adj g) u) eqn:E; [|discriminate]. injection G as <-. unfold dkeys in I. rewrite map_map in I. unfold dkeys. rewrite map_map. apply (w_in _ W u _ v E I).
  - intros u es v e G I. rewrite (dget_map (fun _ es => map (fun ve => (fst ve, tidy (snd ve))) es)) in G. destruct (dget (j_adj g) u) eqn:E; [|discriminate]. injection G as <-.
    rewrite (dget_map (fun _ e => tidy e)) in I. destruct (dget _ v); [|discriminate]. injection I as <-. apply NoDup_tidy.
  - intros u v eu ev Gu Gv. rewrite (dget_map (fun _ es => map (fun ve => (fst ve, tidy (snd ve))) es)) in Gu, Gv. destruct (dget (j_adj g) u) eqn:Eu; [|discriminate]. destruct (dget (j_adj g) v) eqn:Ev; [|discriminate]. injection Gu as <-. injection Gv as <-.
    rewrite !(dget_map (fun _ e => tidy e)). now rewrite (w_sym _ W u v _ _ Eu Ev).
Qed.
Lemma read_nodes_id (ns : nbrs) : NoDup (dkeys ns) -> (forall n a, In (n, a) ns -> NoDup (dkeys a)) -> read_nodes ns = ns.
Proof.
  intros ND A. unfold read_nodes.
  assert (forall (l d : nbrs), NoDup (dkeys (d ++ l)) -> (forall n a, In (n, a) l -> NoDup (dkeys a)) ->
    fold_left (fun d na => dset d (fst na) (dupdate (dget_or [] d (fst na)) (snd na))) l d = d ++ l) as F.
  { clear. induction l as [|[n a] l IH]; intros d ND A; cbn [fold_left fst snd]; [symmetry; apply app_nil_r|].
    assert (~ In n (dkeys d)) as nI. { unfold dkeys in *. rewrite map_app in ND. cbn in ND. apply NoDup_remove_2 in ND. intros H. apply ND. apply in_or_app. now left. }
    unfold dget_or. rewrite (proj2 (dget_None d n) nI), dset_new, dupdate_nil by (auto; apply (A n); now left).
    rewrite IH; [rewrite <- app_assoc; auto|rewrite <- app_assoc; auto|]. intros n' a' I. apply (A n'). now right. }
  now apply (F ns []).
Qed.
Lemma combine_map {A B C} (f : A -> B) (h : A -> C) l : combine (map f l) (map h l) = map (fun x => (f x, h x)) l.
Proof. induction l as [|x l IH]; cbn; auto. now rewrite IH. Qed.
Lemma fold_left_map {A B C} (f : A -> B -> A) (h : C -> B) l : forall a, fold_left f (map h l) a = fold_left (fun a c => f a (h c)) l a.
Proof. induction l as [|x l IH]; intros a; cbn; auto. Qed.
Lemma load_saved geo g f : jwf g -> (forall n, In n (dkeys (j_nodes g)) -> simple n) -> to_json geo g = Ok f ->
  from_json f = Ok (from_networkx (described geo g)).
Proof.
  intros W S. unfold to_json.
  destruct (encode (VList _)) as [gs| |] eqn:EG; try discriminate. cbn [bind].
  destruct (mapM _ (j_adj g)) as [fn| |] eqn:EN; try discriminate. cbn [bind].
  match goal with |- context [mapM ?q (j_adj g)] => destruct (mapM q (j_adj g)) as [fe| |] eqn:EE end; try discriminate. intros [= <-].
  assert (forall u es, In (u, es) (j_adj g) -> In u (dkeys (j_nodes g)) /\ dget (j_adj g) u = Some es) as L.
  { intros u es I. split; [rewrite <- (w_adj _ W); now apply (in_map fst) in I|]. apply In_dget; auto. rewrite (w_adj _ W). apply (w_nodes _ W). }
  unfold from_json. cbn [f_graph f_nodes f_adj]. rewrite (graph_attrs_read _ _ EG). cbn [bind].
  rewrite (mapM_back _ _ (fun nx => (fst nx, tidy (handle_geometries geo (dget_or [] (j_nodes g) (fst nx))))) _ _ EN); cycle 1.
  { intros [u es] j I E. cbn [fst] in *. destruct (L u es I) as [Iu _].
    rewrite (node_entry geo (dget_or [] (j_nodes g) u) u j); auto.
    - rewrite simple_read by auto. reflexivity.
    - unfold dget_or. destruct (dget (j_nodes g) u) eqn:Ea; [|constructor]. apply (w_node_attrs _ W u _ Ea). }
  cbn [bind].
  rewrite (mapM_back _ _ (fun nx => map (fun ve => (fst ve, tidy (snd ve))) (snd nx)) _ _ EE); cycle 1.
  { intros [u es] js I E. cbn [snd] in *. destruct (L u es I) as [Iu Gu]. refine (mapM_back _ _ (fun ve => (fst ve, tidy (snd ve))) _ _ E _).
    intros [v e] j Iv Ev. cbn [fst snd] in *. pose proof (w_nbrs _ W u es Gu) as ND. apply In_dget in Iv; auto.
    rewrite (edge_entry e v j); auto; [|apply (w_edge_attrs _ W u es v e Gu Iv)]. rewrite simple_read; [reflexivity|]. apply S. apply (w_in _ W u es v Gu). now apply dget_Some_key in Iv. }
  cbn [bind]. f_equal.
  assert (map (fun nx => (fst nx, tidy (handle_geometries geo (dget_or [] (j_nodes g) (fst nx))))) (j_adj g) = j_nodes (described geo g)) as EN'.
  { transitivity (map (fun n => (n, tidy (handle_geometries geo (dget_or [] (j_nodes g) n)))) (dkeys (j_adj g))); [unfold dkeys; now rewrite map_map|].
    rewrite (w_adj _ W). unfold dkeys. rewrite map_map. cbn. apply map_ext_in. intros [n a] I. cbn. do 3 f_equal. unfold dget_or. rewrite (In_dget (j_nodes g) n a); auto. apply (w_nodes _ W). }
  rewrite combine_map, fold_left_map. cbn [fst snd]. rewrite EN'.
  pose proof (described_wf geo g W) as WD.
  rewrite read_nodes_id; [|apply (w_nodes _ WD)|intros n a I; apply (w_node_attrs _ WD n a); apply In_dget; [apply (w_nodes _ WD)|auto]].
  transitivity (from_networkx (from_networkx (described geo g))); [|now apply rebuilt_twice].
  f_equal. unfold from_networkx at 1. f_equal. rewrite (w_adj _ WD). cbn [described j_adj]. rewrite fold_left_map. reflexivity.
Qed.
