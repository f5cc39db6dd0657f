(** C132: plans share the value objects of updaters made with on_flow and
    on_edge_flow. *)
From Coq Require Import String List Bool Arith Lia.
From Verif Require Import Base M_Graph M_Partition S_Partition L_Partition S_Machine L_Cuts L_Machine P_Partition P_Contiguity M_UserFlow P_UserFlow M_SharedValues.
Import ListNotations.
Local Open Scope nat_scope.
Local Open Scope list_scope.

Section Shared.
  Context {N P V Y : Type} {EN : EqB N} {EP : EqB P} {ON : Ord N}.
  Notation assignment := (assignment N P).
  Notation uobj := (uobj N P nat).
  Implicit Types (st : store V) (d : dict P nat) (A : assignment).
  Variable g : graph N.
  Variables (f : assignment -> V -> list Y -> list Y -> V) (init : assignment -> dict P V).
  Variables (changes : uobj -> res (dict P (flow Y))) (by_truth : bool).

  (** ** Functions that make new objects *)
  Lemma pure_replaced A fl : forall prev d st r st', shared_replaced false f A fl prev d st = (r, st') -> exists new, st' = st ++ new.
  Proof.
    induction fl as [|[p w] fl IH]; cbn [shared_replaced]; intros prev d st r st' E; [injection E as _ <-; exists []; now rewrite app_nil_r|].
    destruct (dget prev p) as [x|]; [|injection E as _ <-; exists []; now rewrite app_nil_r]. unfold user_call in E. destruct (nth_error st x) as [y|]; [|injection E as _ <-; exists []; now rewrite app_nil_r].
    apply IH in E. destruct E as (new & ->). rewrite <- app_assoc. eauto.
  Qed.
  Lemma allocate_grows (e : dict P V) : forall st d st', allocate e st = (d, st') -> exists new, st' = st ++ new.
  Proof.
    induction e as [|[p x] e IH]; cbn [allocate]; intros st d st' E; [injection E as _ <-; exists []; now rewrite app_nil_r|]. destruct (allocate e (st ++ [x])) as [d1 st1] eqn:E1. injection E as _ <-. apply IH in E1. destruct E1 as (new & ->). rewrite <- app_assoc. eauto.
  Qed.
  (** If the user's function makes a new object each time, no read of any plan
      changes an object that existed before: what was once returned stays. *)
  Theorem C132_pure fuel : forall h st a, exists new, snd (shared_read false f init changes by_truth fuel h st a) = st ++ new.
  Proof.
    induction fuel as [|fuel IH]; intros h st a; cbn [shared_read]; [exists []; cbn; now rewrite app_nil_r|].
    destruct (nth_error h a) as [o|]; [|exists []; cbn; now rewrite app_nil_r]. destruct (u_cache o); [exists []; cbn; now rewrite app_nil_r|].
    destruct (parent_of by_truth h o) as [p|].
    - specialize (IH h st p). destruct (shared_read false f init changes by_truth fuel h st p) as [[r h1] st1]. cbn [snd] in IH. destruct IH as (new & ->). destruct r as [prev| |]; [|eexists; reflexivity|eexists; reflexivity]. destruct (changes o) as [fl| |]; [|eexists; reflexivity|eexists; reflexivity].
      destruct (shared_replaced false f (u_assign o) fl prev prev (st ++ new)) as [r st2] eqn:E. apply pure_replaced in E. destruct E as (new2 & ->). exists (new ++ new2). destruct r; cbn; now rewrite app_assoc.
    - destruct (allocate (init (u_assign o)) st) as [d st1] eqn:E. apply allocate_grows in E. destruct E as (new & ->). exists new. reflexivity.
  Qed.
  Lemma nth_write st : forall r y x, nth_error (write st r y) x = if Nat.eqb x r then (if Nat.ltb r (List.length st) then Some y else None) else nth_error st x.
  Proof.
    induction st as [|z st IH]; intros [|r] y [|x]; cbn; try reflexivity; [now destruct (Nat.eqb x r)|]. rewrite IH. reflexivity.
  Qed.
  Lemma pure_refs A fl : forall prev d st d' st', NoDup (dkeys fl) -> shared_replaced false f A fl prev d st = (Ok d', st') ->
    (forall p, ~ In p (dkeys fl) -> dget d' p = dget d p) /\ (forall p, In p (dkeys fl) -> exists r, dget d' p = Some r /\ List.length st <= r < List.length st').
  Proof.
    induction fl as [|[p w] fl IH]; cbn [shared_replaced]; intros prev d st d' st' ND E; [injection E as <- <-; split; [auto|intros p []]|]. cbn in ND. apply NoDup_cons_iff in ND. destruct ND as [Nf ND].
    destruct (dget prev p) as [x|]; [|discriminate]. unfold user_call in E. destruct (nth_error st x) as [y|]; [|discriminate]. pose proof (pure_replaced _ _ _ _ _ _ _ E) as (new & Es).
    destruct (IH _ _ _ _ _ ND E) as [I1 I2]. rewrite app_length in I2. cbn [List.length] in I2. split.
    - intros q Hq. cbn in Hq. rewrite I1 by tauto. rewrite dget_dset. destruct (eqb_spec q p) as [->|]; [exfalso; auto|reflexivity].
    - intros q Hq. cbn in Hq. destruct (in_dec (fun a b => match eqb_spec a b with ReflectT _ e => left e | ReflectF _ n => Specif.right n end) q (dkeys fl)) as [Hf|Hf]; [destruct (I2 q Hf) as (r & E1 & E2); exists r; split; [exact E1|lia]|].
      destruct Hq as [->|Hq]; [|contradiction]. exists (List.length st). split; [rewrite I1 by exact Hf; apply dget_dset_eq|]. rewrite Es, !app_length. cbn. lia.
  Qed.
  (** The flip gave the new plan an object at the end of the heap. *)
  Lemma flip_new cuts (h : uheap N P nat) a o flips h' : nth_error h a = Some o -> uflip g cuts h a flips = Ok h' ->
    exists fl A ef, flows_from_changes (a_map (u_assign o)) flips = Ok fl /\ update_flows (u_assign o) fl = Ok A /\ h' = h ++ [mkUobj A (Some a) fl ef None] /\
      (if cuts then exists e, compute_edge_flows g (a_map (u_assign o)) (a_map A) flips = Ok e /\ ef = Some e else ef = None).
  Proof.
    intros Ho F. unfold uflip in F. rewrite Ho in F. cbn [of_option bind] in F.
    destruct (flows_from_changes (a_map (u_assign o)) flips) as [fl| |] eqn:Ef; [|discriminate|discriminate]. cbn [bind] in F. destruct (update_flows (u_assign o) fl) as [A| |] eqn:Eu; [|discriminate|discriminate]. cbn [bind] in F.
    destruct cuts; [destruct (compute_edge_flows g (a_map (u_assign o)) (a_map A) flips) as [e| |] eqn:Ee; [|discriminate|discriminate]|]; cbn [bind] in F; injection F as <-; exists fl, A; [exists (Some e)|exists None]; eauto 9.
  Qed.
  Lemma read_child ip (h : uheap N P nat) a o d0 A fl ef ch fuel st : nth_error h a = Some o -> u_cache o = Some d0 -> (by_truth = true -> a_parts (u_assign o) <> []) -> changes (mkUobj A (Some a) fl ef None) = Ok ch ->
    fst (fst (shared_read ip f init changes by_truth (S (S fuel)) (h ++ [mkUobj A (Some a) fl ef None]) st (List.length h))) = fst (shared_replaced ip f A ch d0 d0 st) /\
    snd (shared_read ip f init changes by_truth (S (S fuel)) (h ++ [mkUobj A (Some a) fl ef None]) st (List.length h)) = snd (shared_replaced ip f A ch d0 d0 st).
  Proof.
    intros Ho Hc Hb Hch. assert (La : a < List.length h) by (apply nth_error_Some; congruence).
    set (o' := mkUobj A (Some a) fl ef None) in *.
    assert (HP : parent_of by_truth (h ++ [o']) o' = Some a).
    { unfold parent_of. cbn [u_parent o']. rewrite nth_error_app1, Ho by exact La. destruct by_truth; [|reflexivity]. destruct (a_parts (u_assign o)); [now elim Hb|reflexivity]. }
    assert (H1 : nth_error (h ++ [o']) (List.length h) = Some o') by (rewrite nth_error_app2, Nat.sub_diag by lia; reflexivity).
    assert (H2 : nth_error (h ++ [o']) a = Some o) by (rewrite nth_error_app1 by exact La; exact Ho).
    cbn [shared_read]. rewrite H1, HP, H2, Hc, Hch. cbn [o' u_cache u_assign]. destruct (shared_replaced ip f A ch d0 d0 st) as [r st2]. destruct r; cbn; auto.
  Qed.
  Lemma shared_any (h : uheap N P nat) a o d0 A fl ef ch fuel st d h2 st2 p r y : nth_error h a = Some o -> u_cache o = Some d0 -> (by_truth = true -> a_parts (u_assign o) <> []) -> changes (mkUobj A (Some a) fl ef None) = Ok ch ->
    (forall q x, dget d0 q = Some x -> x < List.length st) -> NoDup (dkeys ch) ->
    shared_read false f init changes by_truth (S (S fuel)) (h ++ [mkUobj A (Some a) fl ef None]) st (List.length h) = (Ok d, h2, st2) -> dget d p = Some r ->
    (~ In p (dkeys ch) -> shows (write st2 r y) d0 p = Some y) /\ (In p (dkeys ch) -> forall q, shows (write st2 r y) d0 q = shows st d0 q).
  Proof.
    intros Ho Hc Hb Hch Hr ND E Hp. destruct (read_child false h a o d0 A fl ef ch fuel st Ho Hc Hb Hch) as (E1 & E2). rewrite E in E1, E2. cbn [fst snd] in E1, E2.
    destruct (shared_replaced false f A ch d0 d0 st) as [r0 st0] eqn:Er. cbn [fst snd] in E1, E2. subst r0 st0.
    destruct (pure_refs A ch d0 d0 st d st2 ND Er) as [I1 I2]. destruct (pure_replaced _ _ _ _ _ _ _ Er) as (new & ->). split.
    - intro Hs. rewrite I1 in Hp by exact Hs. unfold shows. rewrite Hp, nth_write, Nat.eqb_refl. specialize (Hr p r Hp). rewrite app_length. destruct (Nat.ltb_spec r (List.length st + List.length new)); [reflexivity|lia].
    - intros Hk q. destruct (I2 p Hk) as (r' & E3 & E4). assert (r' = r) by congruence. subst r'. unfold shows. destruct (dget d0 q) as [x|] eqn:Ex; [|reflexivity]. specialize (Hr q x Ex). rewrite nth_write. destruct (Nat.eqb_spec x r); [lia|]. now apply nth_error_app1.
  Qed.
  (** ** Functions that change the previous value in place *)
  Lemma in_place_refs A fl : forall prev d st d' st', shared_replaced true f A fl prev d st = (Ok d', st') -> (forall p, dget d p = dget prev p) -> forall p, dget d' p = dget prev p.
  Proof.
    induction fl as [|[q w] fl IH]; cbn [shared_replaced]; intros prev d st d' st' E Hd p; [injection E as <- _; apply Hd|].
    destruct (dget prev q) as [x|] eqn:Ex; [|discriminate]. unfold user_call in E. destruct (nth_error st x) as [y|]; [|discriminate]. apply (IH _ _ _ _ _ E). intro z. rewrite dget_dset. destruct (eqb_spec z q) as [->|]; [now rewrite Ex|apply Hd].
  Qed.
  Lemma in_place_any (h : uheap N P nat) a o d0 A fl ef ch fuel st d h2 st2 p : nth_error h a = Some o -> u_cache o = Some d0 -> (by_truth = true -> a_parts (u_assign o) <> []) -> changes (mkUobj A (Some a) fl ef None) = Ok ch ->
    shared_read true f init changes by_truth (S (S fuel)) (h ++ [mkUobj A (Some a) fl ef None]) st (List.length h) = (Ok d, h2, st2) -> shows st2 d0 p = shows st2 d p.
  Proof.
    intros Ho Hc Hb Hch E. destruct (read_child true h a o d0 A fl ef ch fuel st Ho Hc Hb Hch) as (E1 & _). rewrite E in E1. cbn [fst] in E1. destruct (shared_replaced true f A ch d0 d0 st) as [r0 st0] eqn:Er. cbn [fst] in E1. subst r0.
    unfold shows. now rewrite (in_place_refs A ch d0 d0 st d st0 Er (fun _ => eq_refl) p).
  Qed.
End Shared.

Section Decorators.
  Context {N P V : Type} {EN : EqB N} {EP : EqB P} {ON : Ord N}.
  Notation assignment := (assignment N P).
  Variable g : graph N.
  Lemma moved_keys {Y} (inside : assignment -> P -> Y -> Prop) A A' ch p : (forall B q z, inside B q z \/ ~ inside B q z) -> moved_ok inside A A' ch -> ((forall z, inside A p z <-> inside A' p z) <-> ~ In p (dkeys ch)).
  Proof.
    intros Dec (W & _ & I & O). split.
    - intros Hs Hk. apply (wff_live _ W) in Hk. destruct Hk as (n & [Hn|Hn]); [apply I in Hn|apply O in Hn]; rewrite (Hs n) in Hn; tauto.
    - intros Hk n. split; intro Hn; [destruct (Dec A' p n) as [H|H]|destruct (Dec A p n) as [H|H]]; try exact H; exfalso; apply Hk; apply (wff_live _ W); exists n; [right; apply O|left; apply I]; split; assumption.
  Qed.
  Lemma key_dec {W} (ch : dict P W) p : In p (dkeys ch) \/ ~ In p (dkeys ch).
  Proof. destruct (dget ch p) eqn:E; [left; eapply dget_Some_key; exact E|right; now apply dget_None]. Qed.

  Definition same_nodes (A A' : assignment) (p : P) : Prop := forall n, district A n = Some p <-> district A' n = Some p.
  Definition same_cuts (A A' : assignment) (p : P) : Prop := forall e, cut_edge_of g A p e <-> cut_edge_of g A' p e.
  (** on_flow.  A plan and the plan it was flipped from, the second read before:
      for a district whose nodes are the same both hold the same object, so that a
      caller who changes the object of the new plan changes the value of the old
      one; for a district whose nodes changed the new plan has an object of its
      own, and changing it changes nothing of the old plan. *)
  Theorem C132_shared f (init : assignment -> dict P V) cuts h a o flips h' fuel st d0 d h2 st2 A' p r y :
    nth_error h a = Some o -> coherent (g_nodes g) (u_assign o) -> u_cache o = Some d0 -> (forall q x, dget d0 q = Some x -> x < List.length st) ->
    is_dict flips -> uflip g cuts h a flips = Ok h' -> nth_error (map u_assign h') (List.length h) = Some A' ->
    shared_read false f init node_changes false (S (S fuel)) h' st (List.length h) = (Ok d, h2, st2) -> dget d p = Some r ->
    (same_nodes (u_assign o) A' p -> shows (write st2 r y) d0 p = Some y) /\
    (~ same_nodes (u_assign o) A' p -> forall q, shows (write st2 r y) d0 q = shows st d0 q).
  Proof.
    intros Ho C Hc Hr D F HA E Hp. destruct (flip_new g cuts h a o flips h' Ho F) as (fl & A & ef & Ef & Eu & -> & _).
    rewrite map_app, nth_error_app2, map_length, Nat.sub_diag in HA by (rewrite map_length; lia). injection HA as <-.
    pose proof (node_moves g (u_assign o) flips fl A C D Ef Eu) as Mv. destruct (shared_any f init node_changes false h a o d0 A fl ef fl fuel st d h2 st2 p r y Ho Hc ltac:(discriminate) eq_refl Hr (wff_keys _ (proj1 Mv)) E Hp) as [S1 S2].
    pose proof (moved_keys node_of (u_assign o) A fl p (fun B q z => node_dec B q z) Mv) as K. split; intro Hs; [apply S1; exact (proj1 K Hs)|apply S2; destruct (key_dec fl p) as [H|H]; [exact H|elim Hs; exact (proj2 K H)]].
  Qed.
  (** on_edge_flow: the same for the cut edges of a district. *)
  Theorem C132_shared_edges f (init : assignment -> dict P V) h a o flips h' fuel st d0 d h2 st2 A' p r y :
    wf_graph g -> a_parts (u_assign o) <> [] ->
    nth_error h a = Some o -> coherent (g_nodes g) (u_assign o) -> u_cache o = Some d0 -> (forall q x, dget d0 q = Some x -> x < List.length st) ->
    is_dict flips -> uflip g true h a flips = Ok h' -> nth_error (map u_assign h') (List.length h) = Some A' ->
    shared_read false f init edge_changes true (S (S fuel)) h' st (List.length h) = (Ok d, h2, st2) -> dget d p = Some r ->
    (same_cuts (u_assign o) A' p -> shows (write st2 r y) d0 p = Some y) /\
    (~ same_cuts (u_assign o) A' p -> forall q, shows (write st2 r y) d0 q = shows st d0 q).
  Proof.
    intros WG Np Ho C Hc Hr D F HA E Hp. destruct (flip_new g true h a o flips h' Ho F) as (fl & A & ef & Ef & Eu & -> & e & Ee & ->).
    rewrite map_app, nth_error_app2, map_length, Nat.sub_diag in HA by (rewrite map_length; lia). injection HA as <-.
    pose proof (edge_moves g (u_assign o) flips fl A e WG C D Ef Eu Ee) as Mv. destruct (shared_any f init edge_changes true h a o d0 A fl (Some e) e fuel st d h2 st2 p r y Ho Hc (fun _ => Np) eq_refl Hr (wff_keys _ (proj1 Mv)) E Hp) as [S1 S2].
    pose proof (moved_keys (edge_of g) (u_assign o) A e p (fun B q z => cut_of_dec g B q z) Mv) as K. split; intro Hs; [apply S1; exact (proj1 K Hs)|apply S2; destruct (key_dec e p) as [H|H]; [exact H|elim Hs; exact (proj2 K H)]].
  Qed.
  (** After the new plan was read, the old plan shows the values of the new one. *)
  Theorem C132_in_place f (init : assignment -> dict P V) cuts h a o flips h' fuel st d0 d h2 st2 p :
    nth_error h a = Some o -> u_cache o = Some d0 -> uflip g cuts h a flips = Ok h' ->
    shared_read true f init node_changes false (S (S fuel)) h' st (List.length h) = (Ok d, h2, st2) -> shows st2 d0 p = shows st2 d p.
  Proof.
    intros Ho Hc F E. destruct (flip_new g cuts h a o flips h' Ho F) as (fl & A & ef & _ & _ & -> & _). now apply (in_place_any f init node_changes false h a o d0 A fl ef fl fuel st d h2 st2 p Ho Hc ltac:(discriminate) eq_refl).
  Qed.
  Theorem C132_in_place_edges f (init : assignment -> dict P V) h a o flips h' fuel st d0 d h2 st2 p :
    nth_error h a = Some o -> a_parts (u_assign o) <> [] -> u_cache o = Some d0 -> uflip g true h a flips = Ok h' ->
    shared_read true f init edge_changes true (S (S fuel)) h' st (List.length h) = (Ok d, h2, st2) -> shows st2 d0 p = shows st2 d p.
  Proof.
    intros Ho Np Hc F E. destruct (flip_new g true h a o flips h' Ho F) as (fl & A & ef & _ & _ & -> & e & _ & ->). now apply (in_place_any f init edge_changes true h a o d0 A fl (Some e) e fuel st d h2 st2 p Ho Hc (fun _ => Np) eq_refl).
  Qed.
End Decorators.

(** ** A literal case *)
Definition tallied {Y} (A : assignment nat nat) (x : nat) (ins outs : list Y) : nat := x + List.length ins - List.length outs.
Definition nodes_in (A : assignment nat nat) : dict nat nat := map (fun ps => (fst ps, List.length (snd ps))) (a_parts A).
(** Three districts, read once; then node 2 moves from district 0 to district 1. *)
Definition read_root : uheap nat nat nat * store nat := let '(_, h, st) := shared_read false tallied nodes_in node_changes false 1 [uroot thirds] [] 0 in (h, st).
Definition after_flip : uheap nat nat nat := match uflip path4 true (fst read_root) 0 [(2, 1)] with Ok h => h | _ => [] end.
Example C132_nonvacuous : exists o d0 d h2 st2,
  nth_error (fst read_root) 0 = Some o /\ coherent (g_nodes path4) (u_assign o) /\ u_cache o = Some d0 /\ (forall q x, dget d0 q = Some x -> x < List.length (snd read_root)) /\
  uflip path4 true (fst read_root) 0 [(2, 1)] = Ok after_flip /\ shared_read false tallied nodes_in node_changes false 2 after_flip (snd read_root) 1 = (Ok d, h2, st2) /\
  map (shows st2 d0) [0; 1; 2] = [Some 2; Some 1; Some 1] /\ map (shows st2 d) [0; 1; 2] = [Some 1; Some 2; Some 1] /\
  dget d 2 = dget d0 2 /\ shows (write st2 2 9) d0 2 = Some 9.
Proof.
  eexists. exists [(0, 0); (1, 1); (2, 2)]. do 3 eexists. split; [reflexivity|]. split; [apply (first_coherent path4 [(1, 0); (2, 0); (3, 1); (4, 2)]); [nodup|reflexivity]|]. split; [reflexivity|].
  split; [intros q x H; apply dget_In in H; cbn in H; change (x < 3); intuition (try (match goal with E : (_, _) = (_, _) |- _ => injection E; intros; subst; lia end))|]. repeat split; reflexivity.
Qed.
(** The same with counts of cut edges: a plan of a triangle with a tail. *)
Definition tailed : graph nat := mkGraph [1; 2; 3; 4] [(1, 2); (2, 3); (1, 3); (3, 4)].
Definition tailed_plan : assignment nat nat := match first_time_assignment tailed [(1, 0); (2, 0); (3, 1); (4, 2)] with Ok A => A | _ => mkAssignment [] [] end.
Definition cuts_in (A : assignment nat nat) : dict nat nat := match count_cuts tailed A with Ok d => d | _ => [] end.
Example C132_edges_nonvacuous : exists h st h' o d0 d h2 st2,
  shared_read false tallied cuts_in edge_changes true 1 [uroot tailed_plan] [] 0 = (Ok d0, h, st) /\ nth_error h 0 = Some o /\ u_cache o = Some d0 /\ wf_graph tailed /\ a_parts (u_assign o) <> [] /\
  uflip tailed true h 0 [(2, 1)] = Ok h' /\ shared_read false tallied cuts_in edge_changes true 2 h' st 1 = (Ok d, h2, st2) /\
  map (shows st2 d0) [0; 1; 2] = [Some 2; Some 3; Some 1] /\ map (shows st2 d) [0; 1; 2] = [Some 2; Some 3; Some 1] /\
  dget d 2 = dget d0 2 /\ dget d 0 <> dget d0 0.
Proof. do 8 eexists. split; [vm_compute; reflexivity|]. split; [reflexivity|]. split; [reflexivity|]. split; [wfg|]. split; [discriminate|]. split; [vm_compute; reflexivity|]. split; [vm_compute; reflexivity|]. repeat split; try reflexivity. discriminate. Qed.
(** A function that changes the previous value in place and returns it: the new
    plan gets the right values, and the value of the plan before, which was right,
    becomes wrong. *)
Theorem C132_in_place_refuted : exists o d0 d h2 st2,
  nth_error (fst read_root) 0 = Some o /\ u_cache o = Some d0 /\ (forall p, shows (snd read_root) d0 p = dget (nodes_in (u_assign o)) p) /\
  uflip path4 true (fst read_root) 0 [(2, 1)] = Ok after_flip /\ shared_read true tallied nodes_in node_changes false 2 after_flip (snd read_root) 1 = (Ok d, h2, st2) /\
  (forall A', nth_error (map u_assign after_flip) 1 = Some A' -> forall p, shows st2 d p = dget (nodes_in A') p) /\
  shows st2 d0 0 <> dget (nodes_in (u_assign o)) 0.
Proof.
  eexists. exists [(0, 0); (1, 1); (2, 2)], [(0, 0); (1, 1); (2, 2)]. do 2 eexists. split; [reflexivity|]. split; [reflexivity|]. split; [intros [|[|[|p]]]; reflexivity|]. split; [reflexivity|]. split; [reflexivity|].
  split; [intros A' [= <-] [|[|[|p]]]; reflexivity|]. discriminate.
Qed.
Print Assumptions C132_pure.
Print Assumptions C132_shared.
Print Assumptions C132_shared_edges.
Print Assumptions C132_in_place.
Print Assumptions C132_in_place_edges.
Print Assumptions C132_in_place_refuted.
