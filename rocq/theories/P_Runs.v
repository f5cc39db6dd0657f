(** C120: what best_part and best_score of one optimizer report when several of
    its runs are under way, left unfinished, raise or are interrupted. *)
From Coq Require Import List Bool Arith ZArith QArith Lia ZifyBool ZifyNat.
From Verif Require Import Base M_Constraints M_Chain M_Optimize P_Optimize M_Runs.
Import ListNotations.
Local Open Scope nat_scope.
Local Open Scope list_scope.

Section Runs.
  Context {X W V : Type} {SV : Scores V}.
  Variable proposal : X -> W -> res X * W.
  Variable erase : X -> W -> W.
  Variable named : constraint X W -> bool.
  Variable score : X -> W -> res V * W.
  Variable maximize : bool.
  Variable constraints : constraints_arg X W.
  Variable initial : X.
  Notation history := (history proposal erase named score maximize constraints initial).
  Notation statement := (statement proposal erase named score maximize constraints initial).
  Notation statements := (statements proposal erase named score maximize constraints initial).
  Notation good := (good maximize).
  Notation event := (event X W V).
  Implicit Types (x : X) (s : V) (h : list event) (t : attributes X V).

  (** ** Specification *)

  (** The last of the best of a list of plans with their scores. *)
  Definition champion (l : list (X * V)) (best : X) (sc : V) : Prop :=
    exists l1 l2, l = l1 ++ (best, sc) :: l2 /\
      (forall y s, In (y, s) l1 -> good sc s) /\ (forall y s, In (y, s) l2 -> ~ good s sc).
  (** A run scores the initial plan. *)
  Definition starts (e : event) : bool := match e with Called (true, _, _) => true | _ => false end.
  (** The interrupt comes between the assignments to _best_part and
      _best_score. *)
  Definition torn (e : event) : bool :=
    match e with Cut _ (Score_first _) | Cut _ (Set_score _ _ _) => true | _ => false end.
  Definition calm (e : event) : Prop := starts e = false /\ torn e = false.
  (** The plans that runs have scored, with their scores; a score is lost if the
      interrupt comes before it has been dealt with. *)
  Definition lost (e : event) : bool :=
    match e with Cut _ (Compare _ _ _) | Cut _ (Set_part _ _ _) => true | _ => false end.
  Fixpoint scored (h : list event) : list (X * V) :=
    match h with
    | [] => []
    | Called (false, x, Some s) :: rest =>
      if match rest with e :: _ => lost e | [] => false end then scored rest else (x, s) :: scored rest
    | _ :: rest => scored rest
    end.

  (** ** Lemmas *)
  Lemma champion_one x s : champion [(x, s)] x s.
  Proof. exists [], []. split; [reflexivity|]. split; intros ? ? []. Qed.
  Lemma champion_good l best sc : champion l best sc -> forall y s, In (y, s) l -> good sc s.
  Proof.
    intros (l1 & l2 & -> & H1 & H2) y s Hi. apply in_app_or in Hi. destruct Hi as [Hi|[Hi|Hi]]; [eauto|injection Hi as <- <-; apply good_refl|].
    destruct (good_total maximize sc s) as [G|G]; auto. exfalso. eapply H2; eauto.
  Qed.
  Lemma champion_new l best sc x s : champion l best sc -> good s sc -> champion (l ++ [(x, s)]) x s.
  Proof.
    intros H G. exists l, []. split; [reflexivity|]. split; [|intros ? ? []]. intros y u Hi.
    eapply good_trans; [exact G|]. eapply champion_good; eauto.
  Qed.
  Lemma champion_old l best sc x s : champion l best sc -> ~ good s sc -> champion (l ++ [(x, s)]) best sc.
  Proof.
    intros (l1 & l2 & -> & H1 & H2) G. exists l1, (l2 ++ [(x, s)]). split; [now rewrite <- app_assoc|]. split; auto.
    intros y u Hi. apply in_app_or in Hi. destruct Hi as [Hi|[Hi|[]]]; [eauto|]. now injection Hi as <- <-.
  Qed.
  Lemma scored_app h h' : match h' with e :: _ => lost e | [] => false end = false -> scored (h ++ h') = scored h ++ scored h'.
  Proof.
    intro H. induction h as [|e h IH]; [reflexivity|]. destruct e as [[[[|] x] [s|]]| | | | |]; cbn [app scored]; auto.
    replace (match h ++ h' with e :: _ => lost e | [] => false end) with (match h with e :: _ => lost e | [] => false end).
    - destruct (match h with e :: _ => lost e | [] => false end); auto. cbn [app]. now rewrite IH.
    - destruct h; [|reflexivity]. cbn [app]. now rewrite H.
  Qed.
  Lemma snoc_split {A} (h : list A) e before c after : h ++ [e] = before ++ c :: after ->
    (after = [] /\ e = c /\ h = before) \/ (exists after', after = after' ++ [e] /\ h = before ++ c :: after').
  Proof.
    intro H. destruct after as [|z after _] using rev_ind.
    - left. apply app_inj_tail in H. destruct H; auto.
    - right. exists after. rewrite app_comm_cons, app_assoc in H. apply app_inj_tail in H. destruct H as [-> ->]. auto.
  Qed.

  (** The claim about the attributes after a history. *)
  Definition sound h t : Prop := forall before x s0 after,
    h = before ++ Called (true, x, Some s0) :: after -> Forall calm after ->
    x = initial /\ exists best sc, t = mkAttributes (Some best) (Some sc) /\ champion ((x, s0) :: scored after) best sc.

  Lemma sound_first h s : sound (h ++ [Called (true, initial, Some s)]) (mkAttributes (Some initial) (Some s)).
  Proof.
    intros before x s0 after E F. apply snoc_split in E. destruct E as [(-> & E & ->)|(after' & -> & _)].
    - injection E as <- <-. split; auto. do 2 eexists. split; [reflexivity|]. apply champion_one.
    - apply Forall_app in F. destruct F as [_ F]. inversion F as [|? ? [F1 _]]. discriminate.
  Qed.
  Lemma sound_restless h e t : ~ calm e -> (forall x s, e <> Called (true, x, Some s)) -> sound (h ++ [e]) t.
  Proof.
    intros N Ne before x s0 after E F. apply snoc_split in E. destruct E as [(-> & E & ->)|(after' & -> & _)]; [now apply Ne in E|].
    apply Forall_app in F. destruct F as [_ F]. inversion F. contradiction.
  Qed.
  Lemma sound_quiet h e t : sound h t -> starts e = false -> lost e = false -> scored [e] = [] -> sound (h ++ [e]) t.
  Proof.
    intros S Hs Hl Hc before x s0 after E F. apply snoc_split in E. destruct E as [(-> & E & ->)|(after' & -> & ->)]; [subst e; discriminate|].
    apply Forall_app in F. destruct (S _ _ _ _ eq_refl (proj1 F)) as (Hx & best & sc & -> & C). split; auto. do 2 eexists. split; [reflexivity|].
    rewrite scored_app, Hc, app_nil_r by exact Hl. exact C.
  Qed.
  Lemma sound_lost h x s e t : sound h t -> lost e = true -> sound (h ++ [Called (false, x, Some s); e]) t.
  Proof.
    intros S Hl before x0 s0 after E F.
    assert (Hs : starts e = false) by (destruct e as [[[[|] ?] ?]| | | | |]; try reflexivity; discriminate).
    assert (Hn : forall y u, e <> Called (true, y, Some u)) by (intros y u ->; discriminate).
    change [Called (false, x, Some s); e] with ([Called (false, x, Some s)] ++ [e]) in E. rewrite app_assoc in E.
    apply snoc_split in E. destruct E as [(-> & E & _)|(after1 & -> & E)]; [now apply Hn in E|].
    apply snoc_split in E. destruct E as [(_ & E & _)|(after2 & -> & ->)]; [discriminate|].
    rewrite <- app_assoc in F |- *. apply Forall_app in F. destruct (S _ _ _ _ eq_refl (proj1 F)) as (Hx & best & sc & -> & C). split; auto.
    do 2 eexists. split; [reflexivity|]. rewrite scored_app by reflexivity. cbn [app scored]. rewrite Hl.
    assert (Z : scored [e] = []) by (destruct e as [[[[|] ?] [?|]]| | | | |]; try reflexivity; discriminate).
    replace (scored after2 ++ _) with (scored after2); [exact C|]. rewrite <- (app_nil_r (scored after2)) at 1. f_equal. symmetry. exact Z.
  Qed.
  Lemma sound_scored h x s t t1 : sound h t ->
    (forall best sc, t = mkAttributes (Some best) (Some sc) ->
       (good s sc -> t1 = mkAttributes (Some x) (Some s)) /\ (~ good s sc -> t1 = t)) ->
    sound (h ++ [Called (false, x, Some s)]) t1.
  Proof.
    intros S H before x0 s0 after E F. apply snoc_split in E. destruct E as [(_ & E & _)|(after' & -> & ->)]; [discriminate|].
    apply Forall_app in F. destruct (S _ _ _ _ eq_refl (proj1 F)) as (Hx & best & sc & Ht & C). split; auto.
    rewrite scored_app by reflexivity. cbn [scored]. destruct (H _ _ Ht) as [H1 H2].
    destruct (is_improvement maximize s sc) eqn:Ei.
    - assert (G : good s sc) by now apply improvement_iff. rewrite (H1 G). do 2 eexists. split; [reflexivity|].
      rewrite app_comm_cons. eapply champion_new; eauto.
    - assert (G : ~ good s sc) by (intro G; apply improvement_iff in G; congruence). rewrite (H2 G), Ht. do 2 eexists. split; [reflexivity|].
      rewrite app_comm_cons. eapply champion_old; eauto.
  Qed.

  (** What holds inside a run. *)
  Definition here (p : spot X W V) h t : Prop :=
    match p with
    | Score_first _ => a_part t = Some initial
    | Compare _ x s => exists h', h = h' ++ [Called (false, x, Some s)] /\ sound h' t
    | Set_part _ x s => exists h', h = h' ++ [Called (false, x, Some s)] /\ sound h' t /\ forall old, a_score t = Some old -> good s old
    | Set_score _ x s => exists h' t0, h = h' ++ [Called (false, x, Some s)] /\ sound h' t0 /\ (forall old, a_score t0 = Some old -> good s old) /\ a_part t = Some x
    | _ => sound h t
    end.
  Definition waiting (p : spot X W V) : bool := match p with Begin | Yielded _ _ => true | _ => false end.

  Lemma statement_here fuel r p l t w h o t1 w1 c : here p h t -> statement fuel r p l t w = (o, t1, w1, c) ->
    match o with
    | Go p1 _ => here p1 (h ++ map Called c) t1
    | Pause x p1 _ => waiting p1 = true /\ sound (h ++ map Called c) t1
    | Stop | Throw _ => sound (h ++ map Called c) t1
    | Hang => True
    end.
  Proof.
    destruct p as [|c0|c0| |ch|ch x|ch x s|ch x s|ch x s|ch|]; cbn [here M_Runs.statement]; intros H E.
    - destruct (r_kind r) as [len num|steps|steps buffer]; try (injection E as <- <- <- <-; cbn [map]; now rewrite app_nil_r).
      destruct (construct named constraints initial (Z.of_nat steps) w) as [[ch|e|] w2]; injection E as <- <- <- <-; cbn [map thrown]; rewrite ?app_nil_r; auto.
    - injection E as <- <- <- <-. reflexivity.
    - rewrite H in E. destruct (score initial w) as [[s|e|] w2]; injection E as <- <- <- <-; cbn [map thrown]; auto.
      + destruct c0; cbn [here]; apply sound_first.
      + apply sound_restless; [intros [Q _]; discriminate|discriminate].
    - destruct (r_kind r) as [len num|steps|steps buffer].
      + destruct (l_left l) as [|n]; [injection E as <- <- <- <-; cbn [map]; now rewrite app_nil_r|].
        destruct (a_part t) as [x|]; [|injection E as <- <- <- <-; cbn [map]; now rewrite app_nil_r].
        destruct (construct named constraints x _ w) as [[ch|e|] w2]; injection E as <- <- <- <-; cbn [map thrown]; rewrite ?app_nil_r; auto.
      + injection E as <- <- <- <-; cbn [map]; now rewrite app_nil_r.
      + destruct (Nat.ltb (l_i l) steps); [|injection E as <- <- <- <-; cbn [map]; now rewrite app_nil_r].
        destruct (a_part t) as [x|]; [|injection E as <- <- <- <-; cbn [map]; now rewrite app_nil_r].
        destruct (construct named constraints x _ w) as [[ch|e|] w2]; injection E as <- <- <- <-; cbn [map thrown]; rewrite ?app_nil_r; auto.
    - destruct (next proposal (r_accept r) erase fuel ch w) as [[[x|e|] ch1] w2].
      + injection E as <- <- <- <-. cbn [map]. rewrite app_nil_r. auto.
      + destruct e; injection E as <- <- <- <-; cbn [map here]; now rewrite app_nil_r.
      + injection E as <- <- <- <-. exact I.
    - destruct (score x w) as [[s|e|] w2]; injection E as <- <- <- <-; cbn [map thrown here]; auto.
      + exists h. auto.
      + apply sound_quiet; auto.
    - destruct H as (h' & -> & S). destruct (a_score t) as [old|] eqn:Eo.
      + destruct (is_improvement maximize s old) eqn:Ei; injection E as <- <- <- <-; cbn [map here]; rewrite ?app_nil_r.
        * exists h'. split; auto. split; auto. intros o2 Ho. rewrite Ho in Eo. injection Eo as ->. now apply improvement_iff.
        * apply (sound_scored h' x s t t); auto. intros best sc Ht. split; auto. intro G. exfalso. rewrite Ht in Eo. cbn in Eo. injection Eo as ->.
          apply improvement_iff in G. congruence.
      + injection E as <- <- <- <-. cbn [map]. rewrite app_nil_r. apply (sound_scored h' x s t t); auto. intros best sc Ht. rewrite Ht in Eo. discriminate.
    - destruct H as (h' & -> & S & G). injection E as <- <- <- <-. cbn [map here a_part]. rewrite app_nil_r. exists h', t. auto.
    - destruct H as (h' & t0 & -> & S & G & Hp). injection E as <- <- <- <-. cbn [map here]. rewrite app_nil_r. rewrite Hp.
      apply (sound_scored h' x s t0); auto. intros best sc Ht. split; auto. intro N. exfalso. apply N, G. now rewrite Ht.
    - destruct (r_kind r) as [len num|steps|steps buffer]; injection E as <- <- <- <-; cbn [map]; rewrite app_nil_r; auto. destruct (Nat.leb _ _); exact H.
    - destruct (r_kind r) as [len num|steps|steps buffer]; injection E as <- <- <- <-; cbn [map]; rewrite app_nil_r; auto.
  Qed.
  Lemma statements_here n fuel r : forall p l t w h o t1 w1 c, here p h t -> statements n fuel r p l t w = (o, t1, w1, c) ->
    match o with
    | Go p1 _ => here p1 (h ++ map Called c) t1
    | Pause x p1 _ => waiting p1 = true /\ sound (h ++ map Called c) t1
    | Stop | Throw _ => sound (h ++ map Called c) t1
    | Hang => True
    end.
  Proof.
    induction n as [|n IH]; intros p l t w h o t1 w1 c H E; cbn [M_Runs.statements] in E.
    - injection E as <- <- <- <-. cbn [map]. now rewrite app_nil_r.
    - destruct (statement fuel r p l t w) as [[[o1 t2] w2] c1] eqn:E1. assert (G := statement_here _ _ _ _ _ _ _ _ _ _ _ H E1).
      destruct o1; try (injection E as <- <- <- <-; exact G).
      destruct (statements n fuel r s l0 t2 w2) as [[[o2 t3] w3] c2] eqn:E2. injection E as <- <- <- <-.
      rewrite map_app, app_assoc. eapply IH; eauto.
  Qed.
  Lemma here_cut i p h t : here p h t -> sound (h ++ [Cut i p]) t.
  Proof.
    destruct p as [|c0|c0| |ch|ch x|ch x s|ch x s|ch x s|ch|]; cbn [here]; intro H; try (apply sound_quiet; auto; fail).
    - apply sound_restless; [intros [_ Q]; discriminate|discriminate].
    - destruct H as (h' & -> & H). rewrite <- app_assoc. apply sound_lost; auto.
    - destruct H as (h' & -> & H & _). rewrite <- app_assoc. apply sound_lost; auto.
    - apply sound_restless; [intros [_ Q]; discriminate|discriminate].
  Qed.

  Definition at_rest (l : list (generator X W V)) : Prop := forall i r p v, nth_error l i = Some (r, Some (p, v)) -> waiting p = true.
  Lemma nth_put l : forall i j g, nth_error (@put X W V i g l) j = if Nat.eqb i j then (match nth_error l i with Some _ => Some g | None => None end) else nth_error l j.
  Proof. induction l as [|g' l IH]; intros [|i] [|j] g; cbn; auto. - now destruct (Nat.eqb i j). Qed.
  Lemma rest_put l i r q : at_rest l -> (forall p v, q = Some (p, v) -> waiting p = true) -> at_rest (put i (r, q) l).
  Proof.
    intros H Hq j r' p v E. rewrite nth_put in E. destruct (Nat.eqb i j); [|eauto]. destruct (nth_error l i); [|discriminate]. injection E as _ ->. eauto.
  Qed.
  Lemma put_dead l i j r r' q : nth_error (@put X W V i (r, None) l) j = Some (r', Some q) -> nth_error l j = Some (r', Some q).
  Proof. rewrite nth_put. destruct (Nat.eqb i j); auto. destruct (nth_error l i); discriminate. Qed.
  Lemma put_live l i j r r' q q' : nth_error (@put X W V i (r, Some q) l) j = Some (r', Some q') -> q' = q \/ nth_error l j = Some (r', Some q').
  Proof. rewrite nth_put. destruct (Nat.eqb i j); auto. destruct (nth_error l i); [|discriminate]. intros [= _ ->]. auto. Qed.
  Lemma waiting_here p h t : waiting p = true -> sound h t -> here p h t.
  Proof. destruct p; try discriminate; auto. Qed.

  Lemma history_sound o h o' : history o h o' -> forall h0, sound h0 (o_attributes o) -> at_rest (o_runs o) ->
    sound (h0 ++ h) (o_attributes o') /\ at_rest (o_runs o').
  Proof.
    induction 1 as [o|t l r h o H IH|t l i r p v n fuel w x p1 v1 t1 w1 c h o Hi E H IH|t l i r p v n fuel w t1 w1 c h o Hi E H IH
                   |t l i r p v n fuel w e t1 w1 c h o Hi E H IH|t l i r p v n fuel w p1 v1 t1 w1 c h o Hi E H IH]; intros h0 S R; cbn [o_attributes o_runs] in *.
    - rewrite app_nil_r. auto.
    - change (Made r :: h) with ([Made r] ++ h). rewrite app_assoc. apply IH; [apply sound_quiet; auto|].
      intros i r' p v E. destruct (Nat.lt_ge_cases i (length l)) as [G|G]; [rewrite nth_error_app1 in E by auto; eauto|].
      rewrite nth_error_app2 in E by auto. destruct (i - length l) as [|[|k]]; cbn in E; try discriminate. now injection E as <- <- <-.
    - assert (G := statements_here _ _ _ _ _ _ _ _ _ _ _ _ (waiting_here p h0 t (R _ _ _ _ Hi) S) E). destruct G as [G1 G2].
      change (Gave i x :: h) with ([Gave i x] ++ h). rewrite !app_assoc. apply IH; [apply sound_quiet; auto|]. apply rest_put; auto. intros p' v' [= <- <-]. exact G1.
    - assert (G := statements_here _ _ _ _ _ _ _ _ _ _ _ _ (waiting_here p h0 t (R _ _ _ _ Hi) S) E). cbn in G.
      change (Returned i :: h) with ([Returned i] ++ h). rewrite !app_assoc. apply IH; [apply sound_quiet; auto|]. apply rest_put; auto. discriminate.
    - assert (G := statements_here _ _ _ _ _ _ _ _ _ _ _ _ (waiting_here p h0 t (R _ _ _ _ Hi) S) E). cbn in G.
      change (Failed i e :: h) with ([Failed i e] ++ h). rewrite !app_assoc. apply IH; [apply sound_quiet; auto|]. apply rest_put; auto. discriminate.
    - assert (G := statements_here _ _ _ _ _ _ _ _ _ _ _ _ (waiting_here p h0 t (R _ _ _ _ Hi) S) E). cbn in G.
      change (Cut i p1 :: h) with ([Cut i p1] ++ h). rewrite !app_assoc. apply IH; [now apply here_cut|]. apply rest_put; auto. discriminate.
  Qed.

  (** ** Theorems *)

  (** However runs are started, interleaved, abandoned, interrupted or fail: from
      the moment a run has scored the initial plan until the next run starts or
      an interrupt falls between the two assignments, best_part is the last of
      the best plans that any of the runs has scored since, and best_score is its
      score. *)
  Theorem C120_best h o before x s0 after : history made h o ->
    h = before ++ Called (true, x, Some s0) :: after -> Forall calm after ->
    x = initial /\ exists best sc, o_attributes o = mkAttributes (Some best) (Some sc) /\ champion ((x, s0) :: scored after) best sc.
  Proof.
    intros H. destruct (history_sound _ _ _ H []) as [S _].
    - intros before' x' s' after' E _. destruct before'; discriminate.
    - intros [|i] r p v E; discriminate.
    - cbn [app] in S. apply S.
  Qed.
  (** Requesting a run does nothing, and neither does whatever happens before a
      run has begun to score the initial plan: the attributes stay None. *)
  Definition untouched (e : event) : Prop := starts e = false /\ match e with Cut _ (Score_first _) => False | _ => True end.
  Lemma statements_fresh n fuel r v w o t1 w1 c : statements n fuel r Begin v fresh w = (o, t1, w1, c) ->
    Forall (fun e : event => starts e = false) (map Called c) -> (forall q l, o <> Go (Score_first q) l) ->
    t1 = fresh /\ forall x p l, o <> Pause x p l.
  Proof.
    intros E F N. destruct n as [|n]; cbn [M_Runs.statements] in E; [injection E as <- <- <- <-; split; [reflexivity|discriminate]|].
    assert (G : forall q w0, statements n fuel r (First q) v fresh w0 = (o, t1, w1, c) -> t1 = fresh /\ forall x p l, o <> Pause x p l).
    { clear E. intros q w0 E. destruct n as [|n]; cbn [M_Runs.statements] in E; [injection E as <- <- <- <-; split; [reflexivity|discriminate]|].
      cbn [M_Runs.statement] in E. destruct n as [|n]; cbn [M_Runs.statements] in E; [injection E as <- <- <- <-; exfalso; eapply N; reflexivity|].
      cbn [M_Runs.statement a_part a_score fresh] in E. destruct (score initial w0) as [[s|e|] w2].
      - destruct (statements n _ _ _ _ _ _) as [[[o2 t3] w3] c2]. injection E as <- <- <- <-. cbn [app map] in F. inversion F. discriminate.
      - injection E as <- <- <- <-. cbn [app map] in F. inversion F. discriminate.
      - injection E as <- <- <- <-. cbn [app map] in F. inversion F. discriminate. }
    cbn [M_Runs.statement] in E. destruct (r_kind r) as [len num|steps|steps buffer].
    - destruct (statements n fuel r (First None) v fresh w) as [[[o2 t3] w3] c2] eqn:E2. apply (G None w). now rewrite E2.
    - destruct (construct named constraints initial (Z.of_nat steps) w) as [[ch|e|] w2].
      + destruct (statements n fuel r (First (Some (iter ch))) v fresh w2) as [[[o2 t3] w3] c2] eqn:E2. apply (G (Some (iter ch)) w2). now rewrite E2.
      + injection E as <- <- <- <-. split; [reflexivity|discriminate].
      + injection E as <- <- <- <-. split; [reflexivity|discriminate].
    - destruct (statements n fuel r (First None) v fresh w) as [[[o2 t3] w3] c2] eqn:E2. apply (G None w). now rewrite E2.
  Qed.
  Theorem C120_fresh h o : history made h o -> Forall untouched h -> o_attributes o = fresh.
  Proof.
    intro H. assert (G : forall o1 h o2, history o1 h o2 -> Forall untouched h -> o_attributes o1 = fresh ->
      (forall i r p v, nth_error (o_runs o1) i = Some (r, Some (p, v)) -> p = Begin) -> o_attributes o2 = fresh).
    { clear. induction 1 as [o|t l r h o H IH|t l i r p v n fuel w x p1 v1 t1 w1 c h o Hi E H IH|t l i r p v n fuel w t1 w1 c h o Hi E H IH
                   |t l i r p v n fuel w e t1 w1 c h o Hi E H IH|t l i r p v n fuel w p1 v1 t1 w1 c h o Hi E H IH]; intros F Ht R; cbn [o_attributes o_runs] in *.
      - exact Ht.
      - inversion F. apply IH; auto. intros i r' p v E. destruct (Nat.lt_ge_cases i (length l)) as [G|G]; [rewrite nth_error_app1 in E by auto; eauto|].
        rewrite nth_error_app2 in E by auto. destruct (i - length l) as [|[|k]]; cbn in E; try discriminate. now injection E as <- <- <-.
      - exfalso. apply R in Hi. subst p t. apply Forall_app in F. destruct F as [F _]. apply statements_fresh in E; [|eapply Forall_impl; [|exact F]; intros e [Q _]; exact Q|discriminate].
        destruct E as [_ E]. eapply E; reflexivity.
      - assert (Hb := R _ _ _ _ Hi). subst p t. apply Forall_app in F. destruct F as [F F2]. inversion F2. apply statements_fresh in E; [|eapply Forall_impl; [|exact F]; intros e [Q _]; exact Q|discriminate].
        apply IH; auto; [apply E|]. intros j r' p' v' Ej. apply put_dead in Ej. eauto.
      - assert (Hb := R _ _ _ _ Hi). subst p t. apply Forall_app in F. destruct F as [F F2]. inversion F2. apply statements_fresh in E; [|eapply Forall_impl; [|exact F]; intros e0 [Q _]; exact Q|discriminate].
        apply IH; auto; [apply E|]. intros j r' p' v' Ej. apply put_dead in Ej. eauto.
      - assert (Hb := R _ _ _ _ Hi). subst p t. apply Forall_app in F. destruct F as [F F2]. inversion F2 as [|? ? [_ U]]. subst. apply statements_fresh in E; [|eapply Forall_impl; [|exact F]; intros e0 [Q _]; exact Q|].
        + apply IH; auto; [apply E|]. intros j r' p' v' Ej. apply put_dead in Ej. eauto.
        + intros q l0 [= Q _]. subst p1. exact U. }
    intro F. apply (G _ _ _ H F); [reflexivity|]. intros [|i] r p v E; discriminate.
  Qed.

  (** A run that yields its first plan has reset both attributes: the plan is the
      initial plan, it has been scored once, and nothing else has been. *)
  Lemma head_yields n fuel r v t w x p v1 t1 w1 c : statements n fuel r Head v t w = (Pause x p v1, t1, w1, c) ->
    c = [] /\ t1 = t /\ a_part t = Some x.
  Proof.
    intro E. destruct n as [|n]; [discriminate|]. cbn [M_Runs.statements M_Runs.statement] in E.
    assert (G : forall y a w0 v0 q w2, construct named constraints y a w0 = (Ok q, w2) -> statements n fuel r (Ask (iter q)) v0 t w2 = (Pause x p v1, t1, w1, c) ->
      c = [] /\ t1 = t /\ y = x).
    { clear E. intros y a w0 v0 q w2 Ec E. destruct n as [|n]; [discriminate|]. cbn [M_Runs.statements M_Runs.statement] in E. unfold next, iter in E. cbn in E.
      apply construct_start in Ec. destruct Ec as (Ei & _). injection E as <- _ _ <- _ <-. auto. }
    destruct (r_kind r) as [len num|steps|steps buffer]; [|discriminate|].
    - destruct (l_left v) as [|k]; [discriminate|]. destruct (a_part t) as [y|] eqn:Ey; [|discriminate].
      destruct (construct named constraints y _ w) as [[q|e|] w2] eqn:Ec; try discriminate.
      destruct (statements n _ _ _ _ _ _) as [[[o2 t3] w3] c2] eqn:E2. injection E as -> <- <- <-. destruct (G _ _ _ _ _ _ Ec E2) as (-> & -> & ->). auto.
    - destruct (Nat.ltb (l_i v) steps); [|discriminate]. destruct (a_part t) as [y|] eqn:Ey; [|discriminate].
      destruct (construct named constraints y _ w) as [[q|e|] w2] eqn:Ec; try discriminate.
      destruct (statements n _ _ _ _ _ _) as [[[o2 t3] w3] c2] eqn:E2. injection E as -> <- <- <-. destruct (G _ _ _ _ _ _ Ec E2) as (-> & -> & ->). auto.
  Qed.
  Theorem C120_start n fuel r v t w x p v1 t1 w1 c : statements n fuel r Begin v t w = (Pause x p v1, t1, w1, c) ->
    x = initial /\ exists s, c = [(true, initial, Some s)] /\ t1 = mkAttributes (Some initial) (Some s).
  Proof.
    intro E. destruct n as [|n]; [discriminate|]. cbn [M_Runs.statements M_Runs.statement] in E.
    assert (G : forall q w0, (forall ch, q = Some ch -> ch_state ch = initial /\ ch_counter ch = Some 0%Z) ->
      statements n fuel r (First q) v t w0 = (Pause x p v1, t1, w1, c) -> x = initial /\ exists s, c = [(true, initial, Some s)] /\ t1 = mkAttributes (Some initial) (Some s)).
    { clear E. intros q w0 Hq E. destruct n as [|[|n]]; [discriminate|discriminate|]. cbn [M_Runs.statements M_Runs.statement a_part a_score] in E.
      destruct (score initial w0) as [[s|e|] w2]; try discriminate.
      destruct q as [ch|].
      - destruct n as [|n]; [discriminate|]. cbn [M_Runs.statements M_Runs.statement] in E. destruct (Hq _ eq_refl) as [H1 H2]. unfold next in E. rewrite H2 in E. cbn in E.
        injection E as <- _ _ <- _ <-. split; [exact H1|]. exists s. auto.
      - destruct (statements n fuel r Head v _ w2) as [[[o2 t3] w3] c2] eqn:E2. injection E as -> <- <- <-.
        apply head_yields in E2. destruct E2 as (-> & -> & E2). cbn in E2. injection E2 as <-. split; auto. exists s. auto. }
    destruct (r_kind r) as [len num|steps|steps buffer].
    - destruct (statements n fuel r (First None) v t w) as [[[o2 t3] w3] c2] eqn:E2. injection E as -> <- <- <-. apply (G None w); [discriminate|exact E2].
    - destruct (construct named constraints initial (Z.of_nat steps) w) as [[ch|e|] w2] eqn:Ec; try discriminate.
      destruct (statements n fuel r (First (Some (iter ch))) v t w2) as [[[o2 t3] w3] c2] eqn:E2. injection E as -> <- <- <-. apply (G (Some (iter ch)) w2); [|exact E2].
      intros ch' [= <-]. apply construct_start in Ec. destruct Ec as (Ei & _). cbn. auto.
    - destruct (statements n fuel r (First None) v t w) as [[[o2 t3] w3] c2] eqn:E2. injection E as -> <- <- <-. apply (G None w); [discriminate|exact E2].
  Qed.
  (** A burst begins with what best_part is at that moment, whichever run found
      it. *)
  Theorem C120_burst n fuel r v t w x p v1 t1 w1 c : statements n fuel r Head v t w = (Pause x p v1, t1, w1, c) ->
    a_part t1 = Some x /\ t1 = t /\ c = [].
  Proof. intro E. apply head_yields in E. destruct E as (-> & -> & E). auto. Qed.

  (** Whatever happens, best_part is the initial plan or one a run has yielded,
      and best_score is a number that the score function has returned. *)
  Definition known x h : Prop := x = initial \/ exists i, In (Gave i x) h.
  Definition returned s h : Prop := exists b x, In (Called (b, x, Some s)) h.
  Definition fair h t : Prop := (forall x, a_part t = Some x -> known x h) /\ (forall s, a_score t = Some s -> returned s h).
  Definition knows (p : spot X W V) h : Prop :=
    match p with
    | Yielded _ x => known x h
    | Compare _ x s | Set_part _ x s | Set_score _ x s => known x h /\ returned s h
    | _ => True
    end.
  Lemma known_app x h h' : known x h -> known x (h ++ h').
  Proof. intros [H|[i H]]; [left; auto|right; exists i; apply in_or_app; auto]. Qed.
  Lemma returned_app s h h' : returned s h -> returned s (h ++ h').
  Proof. intros (b & x & H). exists b, x. apply in_or_app; auto. Qed.
  Lemma fair_app h h' t : fair h t -> fair (h ++ h') t.
  Proof. intros [H1 H2]. split; intros; [apply known_app|apply returned_app]; auto. Qed.
  Lemma knows_app p h h' : knows p h -> knows p (h ++ h').
  Proof. destruct p; cbn; intuition auto using known_app, returned_app. Qed.
  Lemma statement_fair fuel r p l t w h o t1 w1 c : fair h t -> knows p h -> statement fuel r p l t w = (o, t1, w1, c) ->
    fair (h ++ map Called c) t1 /\
    match o with Go p1 _ => knows p1 (h ++ map Called c) | Pause x p1 _ => exists ch, p1 = Yielded ch x | _ => True end.
  Proof.
    intros F K E. destruct p as [|c0|c0| |ch|ch x|ch x s|ch x s|ch x s|ch|]; cbn [M_Runs.statement knows] in *.
    - destruct (r_kind r) as [len num|steps|steps buffer]; try (injection E as <- <- <- <-; cbn [map knows]; rewrite app_nil_r; auto).
      destruct (construct named constraints initial (Z.of_nat steps) w) as [[ch|e|] w2]; injection E as <- <- <- <-; cbn [map thrown knows]; rewrite ?app_nil_r; auto.
    - injection E as <- <- <- <-. cbn [map knows]. rewrite app_nil_r. split; auto. split; [|apply F]. cbn. intros x [= <-]. now left.
    - destruct (a_part t) as [x|] eqn:Ex; [|injection E as <- <- <- <-; cbn [map]; rewrite app_nil_r; auto].
      destruct (score x w) as [[s|e|] w2]; injection E as <- <- <- <-; cbn [map thrown]; (split; [|try exact I]); try (apply fair_app; exact F).
      + split; cbn [a_part a_score]; [intros y [= <-]; apply known_app, F, Ex|]. intros u [= <-]. exists true, x. apply in_or_app. right. now left.
      + destruct c0; exact I.
    - destruct (r_kind r) as [len num|steps|steps buffer].
      + destruct (l_left l) as [|n]; [injection E as <- <- <- <-; cbn [map]; rewrite app_nil_r; auto|].
        destruct (a_part t) as [x|]; [|injection E as <- <- <- <-; cbn [map]; rewrite app_nil_r; auto].
        destruct (construct named constraints x _ w) as [[ch|e|] w2]; injection E as <- <- <- <-; cbn [map thrown knows]; rewrite ?app_nil_r; auto.
      + injection E as <- <- <- <-; cbn [map]; rewrite app_nil_r; auto.
      + destruct (Nat.ltb (l_i l) steps); [|injection E as <- <- <- <-; cbn [map]; rewrite app_nil_r; auto].
        destruct (a_part t) as [x|]; [|injection E as <- <- <- <-; cbn [map]; rewrite app_nil_r; auto].
        destruct (construct named constraints x _ w) as [[ch|e|] w2]; injection E as <- <- <- <-; cbn [map thrown knows]; rewrite ?app_nil_r; auto.
    - destruct (next proposal (r_accept r) erase fuel ch w) as [[[x|e|] ch1] w2].
      + injection E as <- <- <- <-. cbn [map]. rewrite app_nil_r. eauto.
      + destruct e; injection E as <- <- <- <-; cbn [map knows]; rewrite app_nil_r; auto.
      + injection E as <- <- <- <-. cbn [map]. rewrite app_nil_r. auto.
    - destruct (score x w) as [[s|e|] w2]; injection E as <- <- <- <-; cbn [map thrown knows]; (split; [now apply fair_app|]); auto.
      split; [now apply known_app|]. exists false, x. apply in_or_app. right. now left.
    - destruct (a_score t) as [old|]; [|injection E as <- <- <- <-; cbn [map]; rewrite app_nil_r; auto].
      destruct (is_improvement maximize s old); injection E as <- <- <- <-; cbn [map knows]; rewrite app_nil_r; auto.
    - injection E as <- <- <- <-. cbn [map knows]. rewrite app_nil_r. split; auto. split; [|apply F]. cbn. intros y [= <-]. apply K.
    - injection E as <- <- <- <-. cbn [map knows]. rewrite app_nil_r. split; auto. split; [apply F|]. cbn. intros u [= <-]. apply K.
    - destruct (r_kind r) as [len num|steps|steps buffer]; injection E as <- <- <- <-; cbn [map]; rewrite app_nil_r; auto. destruct (Nat.leb _ _); cbn; auto.
    - destruct (r_kind r) as [len num|steps|steps buffer]; injection E as <- <- <- <-; cbn [map]; rewrite app_nil_r; auto.
  Qed.
  Lemma statements_fair n fuel r : forall p l t w h o t1 w1 c, fair h t -> knows p h -> statements n fuel r p l t w = (o, t1, w1, c) ->
    fair (h ++ map Called c) t1 /\
    match o with Go p1 _ => knows p1 (h ++ map Called c) | Pause x p1 _ => exists ch, p1 = Yielded ch x | _ => True end.
  Proof.
    induction n as [|n IH]; intros p l t w h o t1 w1 c F K E; cbn [M_Runs.statements] in E.
    - injection E as <- <- <- <-. cbn [map]. now rewrite app_nil_r.
    - destruct (statement fuel r p l t w) as [[[o1 t2] w2] c1] eqn:E1. assert (G := statement_fair _ _ _ _ _ _ _ _ _ _ _ F K E1).
      destruct o1; try (injection E as <- <- <- <-; exact G).
      destruct (statements n fuel r s l0 t2 w2) as [[[o2 t3] w3] c2] eqn:E2. injection E as <- <- <- <-.
      rewrite map_app, app_assoc. destruct G as [G1 G2]. exact (IH _ _ _ _ _ _ _ _ _ G1 G2 E2).
  Qed.
  Theorem C120_known h o : history made h o ->
    (forall x, a_part (o_attributes o) = Some x -> x = initial \/ exists i, In (Gave i x) h) /\
    (forall s, a_score (o_attributes o) = Some s -> exists b x, In (Called (b, x, Some s)) h).
  Proof.
    intro H. assert (G : forall o1 h o2, history o1 h o2 -> forall h0, fair h0 (o_attributes o1) ->
      (forall i r p v, nth_error (o_runs o1) i = Some (r, Some (p, v)) -> knows p h0) -> fair (h0 ++ h) (o_attributes o2)).
    { clear. induction 1 as [o|t l r h o H IH|t l i r p v n fuel w x p1 v1 t1 w1 c h o Hi E H IH|t l i r p v n fuel w t1 w1 c h o Hi E H IH
                   |t l i r p v n fuel w e t1 w1 c h o Hi E H IH|t l i r p v n fuel w p1 v1 t1 w1 c h o Hi E H IH]; intros h0 F R; cbn [o_attributes o_runs] in *.
      - now rewrite app_nil_r.
      - change (Made r :: h) with ([Made r] ++ h). rewrite app_assoc. apply IH; [now apply fair_app|].
        intros i r' p v E. destruct (Nat.lt_ge_cases i (length l)) as [G|G]; [rewrite nth_error_app1 in E by auto; apply knows_app; eauto|].
        rewrite nth_error_app2 in E by auto. destruct (i - length l) as [|[|k]]; cbn in E; try discriminate. injection E as <- <- <-. exact I.
      - destruct (statements_fair _ _ _ _ _ _ _ _ _ _ _ _ F (R _ _ _ _ Hi) E) as [G (ch & ->)].
        change (Gave i x :: h) with ([Gave i x] ++ h). rewrite !app_assoc. apply IH; [now apply fair_app|].
        intros j r' p' v' Ej. apply put_live in Ej. destruct Ej as [Ej|Ej].
        + injection Ej as -> ->. right. exists i. apply in_or_app. right. now left.
        + do 2 apply knows_app. eauto.
      - destruct (statements_fair _ _ _ _ _ _ _ _ _ _ _ _ F (R _ _ _ _ Hi) E) as [G _].
        change (Returned i :: h) with ([Returned i] ++ h). rewrite !app_assoc. apply IH; [now apply fair_app|].
        intros j r' p' v' Ej. apply put_dead in Ej. do 2 apply knows_app. eauto.
      - destruct (statements_fair _ _ _ _ _ _ _ _ _ _ _ _ F (R _ _ _ _ Hi) E) as [G _].
        change (Failed i e :: h) with ([Failed i e] ++ h). rewrite !app_assoc. apply IH; [now apply fair_app|].
        intros j r' p' v' Ej. apply put_dead in Ej. do 2 apply knows_app. eauto.
      - destruct (statements_fair _ _ _ _ _ _ _ _ _ _ _ _ F (R _ _ _ _ Hi) E) as [G _].
        change (Cut i p1 :: h) with ([Cut i p1] ++ h). rewrite !app_assoc. apply IH; [now apply fair_app|].
        intros j r' p' v' Ej. apply put_dead in Ej. do 2 apply knows_app. eauto. }
    apply (G _ _ _ H []); [split; discriminate|]. intros [|i] r p v E; discriminate.
  Qed.
End Runs.

(** ** Concrete histories *)

(** Plans are numbers and are their own scores; the proposal is what the world
    says. *)
Definition said (x w : nat) : res nat * nat := (Ok w, w).
Definition stay (x w : nat) : nat := w.
Definition worth (x w : nat) : res Q * nat := (Ok (inject_Z (Z.of_nat x)), w).
Definition always (x w : nat) : res pyval * nat := (Ok (PBool true), w).
Definition anything : constraints_arg nat nat := Collection (Reusable []).
Notation demo := (history said stay (fun _ => true) worth true anything 5).
Definition plain : run nat nat := mkRun (Single 10) always.
Definition burst2 : run nat nat := mkRun (Bursts 2 5) always.
Definition points (x : nat) : Q := inject_Z (Z.of_nat x).

(** An interrupt between the two assignments: best_part has another score than
    best_score, and then the best plan seen is lost to a plan that is worse. *)
Theorem C120_torn_refuted : exists h o h' o',
  demo made h o /\ In (Called (false, 9, Some (points 9))) h /\ o_attributes o = mkAttributes (Some 9) (Some (points 5)) /\
  demo o h' o' /\ Forall calm h' /\ o_attributes o' = mkAttributes (Some 5) (Some (points 5)).
Proof.
  do 4 eexists. split.
  { apply history_made with (r := plain). apply history_made with (r := plain).
    eapply history_gave with (i := 0) (n := 20) (fuel := 5) (w := 0); [reflexivity|vm_compute; reflexivity|].
    eapply history_gave with (i := 1) (n := 20) (fuel := 5) (w := 0); [reflexivity|vm_compute; reflexivity|].
    eapply history_gave with (i := 1) (n := 20) (fuel := 5) (w := 9); [reflexivity|vm_compute; reflexivity|].
    eapply history_cut with (i := 1) (n := 3) (fuel := 5) (w := 0); [reflexivity|vm_compute; reflexivity|]. apply history_nil. }
  split; [vm_compute; tauto|]. split; [reflexivity|]. split.
  { eapply history_gave with (i := 0) (n := 20) (fuel := 5) (w := 7); [reflexivity|vm_compute; reflexivity|]. apply history_nil. }
  split; [repeat constructor|reflexivity].
Qed.
(** The initial plan cannot be scored any more: a second run leaves the best plan
    of the first behind and keeps its score. *)
Definition once (x w : nat) : res Q * nat := if Nat.eqb w 0 then (Err KeyError, w) else worth x w.
Theorem C120_unscored_refuted : exists h o, history said stay (fun _ => true) once true anything 5 made h o /\
  (exists i, In (Failed i KeyError) h) /\ (forall e, In e h -> torn e = false) /\
  o_attributes o = mkAttributes (Some 5) (Some (points 9)).
Proof.
  do 2 eexists. split.
  { apply history_made with (r := plain). apply history_made with (r := plain).
    eapply history_gave with (i := 0) (n := 20) (fuel := 5) (w := 1); [reflexivity|vm_compute; reflexivity|].
    eapply history_gave with (i := 0) (n := 20) (fuel := 5) (w := 9); [reflexivity|vm_compute; reflexivity|].
    eapply history_gave with (i := 0) (n := 20) (fuel := 5) (w := 3); [reflexivity|vm_compute; reflexivity|].
    eapply history_failed with (i := 1) (n := 20) (fuel := 5) (w := 0); [reflexivity|vm_compute; reflexivity|]. apply history_nil. }
  split; [exists 1; vm_compute; tauto|]. split; [|reflexivity].
  vm_compute. intros e H. repeat destruct H as [<-|H]; try reflexivity. destruct H.
Qed.
(** Runs under way at the same time: best_part is not the best plan of the run
    that was resumed last, a run of short bursts goes on from a plan of another
    run, and starting a run makes best_score worse. *)
Theorem C120_shared_refuted : exists h o h' o' h'' o'',
  demo made h o /\ ~ In (Gave 0 9) h /\ o_attributes o = mkAttributes (Some 9) (Some (points 9)) /\
  demo o h' o' /\ h' = [Called (false, 6, Some (points 6)); Gave 0 9] /\ o_attributes o' = mkAttributes (Some 9) (Some (points 9)) /\
  demo o' h'' o'' /\ o_attributes o'' = mkAttributes (Some 5) (Some (points 5)).
Proof.
  do 6 eexists. split.
  { apply history_made with (r := burst2). apply history_made with (r := plain).
    eapply history_gave with (i := 0) (n := 20) (fuel := 5) (w := 0); [reflexivity|vm_compute; reflexivity|].
    eapply history_gave with (i := 1) (n := 20) (fuel := 5) (w := 0); [reflexivity|vm_compute; reflexivity|].
    eapply history_gave with (i := 1) (n := 20) (fuel := 5) (w := 9); [reflexivity|vm_compute; reflexivity|].
    eapply history_gave with (i := 1) (n := 20) (fuel := 5) (w := 4); [reflexivity|vm_compute; reflexivity|].
    eapply history_gave with (i := 0) (n := 20) (fuel := 5) (w := 6); [reflexivity|vm_compute; reflexivity|]. apply history_nil. }
  split; [vm_compute; intro H; repeat destruct H as [H|H]; try discriminate; destruct H|]. split; [reflexivity|]. split.
  { eapply history_gave with (i := 0) (n := 20) (fuel := 5) (w := 0); [reflexivity|vm_compute; reflexivity|]. apply history_nil. }
  split; [reflexivity|]. split; [reflexivity|]. split; [|].
  { apply history_made with (r := plain). eapply history_gave with (i := 2) (n := 20) (fuel := 5) (w := 0); [reflexivity|vm_compute; reflexivity|]. apply history_nil. }
  reflexivity.
Qed.
(** The hypotheses of [C120_best] are met with interleaved runs, a failure and an
    interrupt. *)
Example C120_nonvacuous : exists h o before after, demo made h o /\ h = before ++ Called (true, 5, Some (points 5)) :: after /\
  Forall calm after /\ scored after = [(5, points 5); (9, points 9); (6, points 6)] /\ (exists i p, In (Cut i p) after) /\
  o_attributes o = mkAttributes (Some 9) (Some (points 9)).
Proof.
  do 2 eexists. exists [Made plain; Made plain; Called (true, 5, Some (points 5)); Gave 0 5]. eexists. split.
  { apply history_made with (r := plain). apply history_made with (r := plain).
    eapply history_gave with (i := 0) (n := 20) (fuel := 5) (w := 0); [reflexivity|vm_compute; reflexivity|].
    eapply history_gave with (i := 1) (n := 20) (fuel := 5) (w := 0); [reflexivity|vm_compute; reflexivity|].
    eapply history_gave with (i := 0) (n := 20) (fuel := 5) (w := 9); [reflexivity|vm_compute; reflexivity|].
    eapply history_gave with (i := 0) (n := 20) (fuel := 5) (w := 6); [reflexivity|vm_compute; reflexivity|].
    eapply history_gave with (i := 0) (n := 20) (fuel := 5) (w := 8); [reflexivity|vm_compute; reflexivity|].
    eapply history_cut with (i := 0) (n := 1) (fuel := 5) (w := 0); [reflexivity|vm_compute; reflexivity|]. apply history_nil. }
  split; [reflexivity|]. split; [repeat constructor|]. split; [reflexivity|]. split; [|reflexivity].
  do 2 eexists. vm_compute. tauto.
Qed.

Print Assumptions C120_best.
Print Assumptions C120_fresh.
Print Assumptions C120_start.
Print Assumptions C120_burst.
Print Assumptions C120_known.
Print Assumptions C120_torn_refuted.
Print Assumptions C120_unscored_refuted.
Print Assumptions C120_shared_refuted.
