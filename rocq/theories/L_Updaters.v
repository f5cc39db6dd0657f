(** Lemmas about county splits, elections and the defaultdict side effect. *)
From Coq Require Import String List Bool Arith Ring_theory Ring Permutation Lia.
From Verif Require Import Base M_Graph M_Partition S_Partition L_Partition
  M_Machine S_Machine L_Sums L_Cuts L_Tally.
Import ListNotations.
Local Open Scope list_scope.

Lemma mapM_Forall2 {A B} (f : A -> res B) l : forall r,
  mapM f l = Ok r <-> Forall2 (fun x y => f x = Ok y) l r.
Proof.
  induction l as [|x l IH]; simpl; intro r.
  - split; [intros [= <-]; constructor | intro H; inversion H; reflexivity].
  - split.
    + intro H. apply bind_Ok in H. destruct H as (y & Hy & H).
      apply bind_Ok in H. destruct H as (ys & Hys & [= <-]).
      constructor; auto. now apply IH.
    + intro H. inversion H as [|? y ? ys Hy Hys]; subst. rewrite Hy. simpl.
      apply IH in Hys. rewrite Hys. reflexivity.
Qed.

Lemma mapM_keys {A B K} (f : A -> res (K * B)) (k : A -> K) l r :
  (forall x y, f x = Ok y -> fst y = k x) -> mapM f l = Ok r -> map fst r = map k l.
Proof.
  intros H Hm. apply mapM_Forall2 in Hm. induction Hm as [|x y l r Hx Hm IH]; simpl; auto.
  f_equal; auto.
Qed.

Lemma mapM_In {A B} (f : A -> res B) l r y :
  mapM f l = Ok r -> In y r -> exists x, In x l /\ f x = Ok y.
Proof.
  intro H. apply mapM_Forall2 in H. induction H as [|x z l r Hx Hm IH]; simpl; [tauto|].
  intros [->|Hy]; eauto. destruct (IH Hy) as (x' & H1 & H2). eauto.
Qed.

Lemma mapM_progress {A B} (f : A -> res B) l :
  (forall x, In x l -> exists y, f x = Ok y) -> exists r, mapM f l = Ok r.
Proof.
  induction l as [|x l IH]; simpl; intro H; eauto.
  destruct (H x (or_introl eq_refl)) as [y ->].
  destruct IH as [r ->]; [intros; apply H; now right|]. simpl. eauto.
Qed.

Lemma length_le1 {A} (l : list A) : NoDup l ->
  (List.length l <= 1 <-> forall p q, In p l -> In q l -> p = q).
Proof.
  intro ND. destruct l as [|a [|b l]]; simpl.
  - split; [intros _ p q []|lia].
  - split; [|lia]. intros _ p q [<-|[]] [<-|[]]; auto.
  - split; [lia|]. intro H. exfalso. inversion ND as [|? ? Hn _]; subst. apply Hn. left.
    symmetry. apply H; auto.
Qed.

Section County.
  Context {N P V L : Type} {EN : EqB N} {EP : EqB P} {EL : EqB L} {ON : Ord N} {RV : CRing V}.
  Variable E : env N P V L.
  Notation g := (e_graph E).
  Implicit Types (A : assignment N P).

  Lemma scratch_county_spec A field d :
    wf_graph g -> coherent (g_nodes g) A -> scratch_county E A field = Ok d ->
    NoDup (dkeys d) /\
    (forall c, In c (dkeys d) <-> exists n, In n (g_nodes g) /\ e_county E field n = Some c) /\
    (forall c i, dget d c = Some i ->
       county_ok g A (e_county E field) c i /\ ci_split i <> NewSplit).
  Proof.
    intros W C H. unfold scratch_county in H.
    match type of H with foldM ?f _ _ = _ => set (F := f) in H end.
    assert (G : forall pre d, foldM F pre [] = Ok d -> NoDup pre -> incl pre (g_nodes g) ->
      NoDup (dkeys d) /\
      (forall c, In c (dkeys d) <-> exists n, In n pre /\ e_county E field n = Some c) /\
      (forall c i, dget d c = Some i ->
        (forall n, In n (ci_nodes i) <-> In n pre /\ e_county E field n = Some c) /\
        NoDup (ci_nodes i) /\ NoDup (ci_seen i) /\
        (forall p, In p (ci_seen i) <-> meets g A (ci_nodes i) p) /\
        ci_split i = (if Nat.ltb 1 (List.length (ci_seen i)) then OldSplit else NotSplit))).
    { clear H d. induction pre as [|n pre IH] using rev_ind; intros d H ND Inc.
      - injection H as <-. split; [constructor|]. split.
        + intro c. simpl. split; [tauto|]. intros (n & [] & _).
        + discriminate.
      - rewrite foldM_app in H. destruct (foldM F pre []) as [d0| |] eqn:E0; simpl in H;
          try discriminate.
        destruct (IH d0 eq_refl) as (K & Kc & S).
        { apply NoDup_app_iff in ND. tauto. }
        { intros x Hx. apply Inc. apply in_or_app. auto. }
        assert (NI : ~ In n pre).
        { apply NoDup_remove_2 in ND. now rewrite app_nil_r in ND. }
        destruct (F d0 n) as [d1| |] eqn:E1; simpl in H; try discriminate.
        injection H as <-. unfold F in E1.
        apply bind_Ok in E1. destruct E1 as (c & Ec & E1).
        apply bind_Ok in E1. destruct E1 as (p & Ep & [= <-]).
        destruct (e_county E field n) as [c'|] eqn:Ecn; [|discriminate]. injection Ec as ->.
        destruct (dget (a_map A) n) as [p'|] eqn:Epn; [|discriminate]. injection Ep as ->.
        split; [now apply NoDup_dset|]. split.
        + intro c1. rewrite In_dkeys_dset, Kc. split.
          * intros [->|(z & Hz & Hc)].
            -- exists n. split; auto. apply in_or_app. simpl. auto.
            -- exists z. split; auto. apply in_or_app. auto.
          * intros (z & Hz & Hc). apply in_app_or in Hz. destruct Hz as [Hz|[<-|[]]]; eauto.
            left. congruence.
        + intros c1 i. rewrite dget_dset. destruct (eqb_spec c1 c) as [->|Nc].
          * intros [= <-]. simpl.
            set (i0 := dget_or (mkCounty NotSplit [] []) d0 c).
            assert (H0 : (forall z, In z (ci_nodes i0) <-> In z pre /\ e_county E field z = Some c) /\
               NoDup (ci_nodes i0) /\ NoDup (ci_seen i0) /\
               (forall q, In q (ci_seen i0) <-> meets g A (ci_nodes i0) q) /\
               ci_split i0 = (if Nat.ltb 1 (List.length (ci_seen i0)) then OldSplit else NotSplit)).
            { unfold i0, dget_or. destruct (dget d0 c) as [i|] eqn:Ei; [now apply S|].
              simpl. split.
              - intro z. split; [tauto|]. intros [Hz Hc]. apply dget_None in Ei.
                apply Ei. apply Kc. eauto.
              - split; [constructor|]. split; [constructor|]. split; auto.
                intro q. split; [intros []|]. intros (z & [] & _). }
            destruct H0 as (H1 & H2 & H3 & H4 & H5).
            split; [|split; [|split; [|split]]].
            -- intro z. rewrite !in_app_iff, H1. simpl. split.
               ++ intros [[Hz Hc]|[<-|[]]]; auto.
               ++ intros [[Hz|[<-|[]]] Hc]; auto.
            -- apply NoDup_app_single; auto. rewrite H1. tauto.
            -- now apply NoDup_sadd.
            -- intro q. rewrite In_sadd, H4. unfold meets. split.
               ++ intros [->|(z & Hz & Hd)].
                  ** exists n. split; auto. apply in_or_app. simpl. auto.
                  ** exists z. split; auto. apply in_or_app. auto.
               ++ intros (z & Hz & Hd). apply in_app_or in Hz. destruct Hz as [Hz|[<-|[]]].
                  ** right. exists z. auto.
                  ** left. unfold district in Hd. congruence.
            -- destruct (Nat.ltb_spec 1 (List.length (sadd p (ci_seen i0)))) as [Hl|Hl]; auto.
               rewrite H5. destruct (Nat.ltb_spec 1 (List.length (ci_seen i0))) as [Hm|Hm]; auto.
               exfalso. unfold sadd in Hl. destruct (mem p (ci_seen i0)); [lia|].
               rewrite app_length in Hl. lia.
          * intro Hi. destruct (S c1 i Hi) as (H1 & H2). split; auto.
            intro z. rewrite H1, in_app_iff. simpl. split; [tauto|].
            intros [[Hz|[<-|[]]] Hc]; auto. congruence. }
    destruct (G (g_nodes g) d H (wfg_nodes _ W) (incl_refl _)) as (K & Kc & S).
    split; auto. split; auto. intros c i Hi. destruct (S c i Hi) as (H1 & H2 & H3 & H4 & H5).
    split.
    - split; auto. split; auto. split; auto.
      rewrite H5. destruct (Nat.ltb_spec 1 (List.length (ci_seen i))) as [Hl|Hl].
      + split; [discriminate|]. intro Hq. exfalso.
        assert (List.length (ci_seen i) <= 1); [|lia].
        apply length_le1; auto. intros p q Hp Hp'. apply H4 in Hp, Hp'. auto.
      + split; auto. intros _ p q Hp Hp'. exact (proj1 (length_le1 _ H3) Hl p q (proj2 (H4 p) Hp) (proj2 (H4 q) Hp')).
    - rewrite H5. destruct (Nat.ltb 1 (List.length (ci_seen i))); discriminate.
  Qed.

  Lemma scratch_county_ok A field :
    coherent (g_nodes g) A ->
    (forall n, In n (g_nodes g) -> exists c, e_county E field n = Some c) ->
    exists d, scratch_county E A field = Ok d.
  Proof.
    intros C H. unfold scratch_county. apply foldM_progress with (Inv := fun _ _ => True); auto.
    intros pre n acc _ Hn. simpl. destruct (H n Hn) as [c ->]. simpl.
    destruct (has_district g A n C Hn) as [p Hp]. unfold district in Hp. rewrite Hp. simpl. eauto.
  Qed.

  (** One county after a flip. *)
  Lemma county_step_spec A (i i' : county_info N P) :
    county_step A i = Ok i' ->
    ci_nodes i' = ci_nodes i /\ NoDup (ci_seen i') /\
    (forall p, In p (ci_seen i') <-> meets g A (ci_nodes i) p) /\
    (ci_split i' = NotSplit <->
       forall p q, meets g A (ci_nodes i) p -> meets g A (ci_nodes i) q -> p = q) /\
    (ci_split i' = OldSplit <-> ci_split i = OldSplit /\ ci_split i' <> NotSplit).
  Proof.
    unfold county_step. intro H. apply bind_Ok in H. destruct H as (l & Hl & [= <-]). simpl.
    assert (S : forall p, In p (set_of l) <-> meets g A (ci_nodes i) p).
    { intro p. rewrite In_set_of. unfold meets. split.
      - intro Hp. destruct (mapM_In _ _ _ _ Hl Hp) as (n & Hn & E1). exists n. split; auto.
        unfold district. destruct (dget (a_map A) n); simpl in E1; congruence.
      - intros (n & Hn & Hd). apply mapM_Forall2 in Hl.
        clear - Hl Hn Hd. induction Hl as [|x y xs ys Hx _ IH]; simpl in *; [tauto|].
        destruct Hn as [->|Hn]; auto. left. unfold district in Hd. rewrite Hd in Hx.
        simpl in Hx. congruence. }
    pose proof (NoDup_set_of l) as ND.
    split; auto. split; auto. split; auto.
    destruct (Nat.ltb_spec 1 (List.length (set_of l))) as [Hn|Hn].
    - split.
      + split; [destruct (ci_split i); discriminate|]. intro Hq. exfalso.
        assert (List.length (set_of l) <= 1); [|lia].
        apply length_le1; auto. intros p q Hp Hp'. apply S in Hp, Hp'. auto.
      + destruct (ci_split i); split; try discriminate; try (split; [auto|discriminate]); auto;
          intros [H _]; discriminate.
    - split.
      + split; auto. intros _ p q Hp Hp'. exact (proj1 (length_le1 _ ND) Hn p q (proj2 (S p) Hp) (proj2 (S q) Hp')).
      + split; [discriminate|]. intros [_ H]. now exfalso.
  Qed.

  Lemma county_step_ok A (i : county_info N P) :
    coherent (g_nodes g) A -> incl (ci_nodes i) (g_nodes g) -> exists i', county_step A i = Ok i'.
  Proof.
    intros C H. unfold county_step.
    destruct (mapM_progress (fun n => of_option KeyError (dget (a_map A) n)) (ci_nodes i)) as [r ->].
    - intros n Hn. destruct (has_district g A n C (H n Hn)) as [p Hp]. unfold district in Hp.
      rewrite Hp. simpl. eauto.
    - simpl. eauto.
  Qed.

  Lemma county_ok_step A A' (county : N -> option L) c i i' :
    county_ok g A county c i -> county_step A' i = Ok i' -> county_ok g A' county c i'.
  Proof.
    intros (H1 & H2 & H3 & H4) H. destruct (county_step_spec A' i i' H) as (S1 & S2 & S3 & S4 & _).
    unfold county_ok. rewrite S1. split; auto.
  Qed.

  Lemma county_update_get A (d d' : dict L (county_info N P)) :
    county_update A d = Ok d' ->
    dkeys d' = dkeys d /\
    forall c i', dget d' c = Some i' -> exists i, dget d c = Some i /\ county_step A i = Ok i'.
  Proof.
    unfold county_update. intro H. apply mapM_Forall2 in H.
    induction H as [|[c i] [c' i'] d d' Hx Hm [IH1 IH2]]; simpl.
    - split; [reflexivity|discriminate].
    - simpl in Hx. apply bind_Ok in Hx. destruct Hx as (i1 & Hi1 & [= <- <-]).
      split; [now f_equal|]. intros c1 i2. destruct (eqb_spec c1 c); eauto.
      intros [= <-]. eauto.
  Qed.

  Lemma county_update_spec A A' (county : N -> option L) d d' :
    (forall c i, dget d c = Some i -> county_ok g A county c i) ->
    county_update A' d = Ok d' ->
    dkeys d' = dkeys d /\ (forall c i, dget d' c = Some i -> county_ok g A' county c i).
  Proof.
    intros H Hu. destruct (county_update_get A' d d' Hu) as [K G]. split; auto.
    intros c i' Hi'. destruct (G c i' Hi') as (i & Hi & Hs). eapply county_ok_step; eauto.
  Qed.

  Lemma county_update_ok A A' (county : N -> option L) d :
    coherent (g_nodes g) A' -> NoDup (dkeys d) ->
    (forall c i, dget d c = Some i -> county_ok g A county c i) ->
    exists d', county_update A' d = Ok d'.
  Proof.
    intros C ND H. unfold county_update. apply mapM_progress. intros [c i] Hi. simpl.
    apply In_dget in Hi; auto. destruct (H c i Hi) as (H1 & _).
    destruct (county_step_ok A' i C) as [i' ->].
    - intros n Hn. now apply H1 in Hn.
    - simpl. eauto.
  Qed.
End County.

Section Elec.
  Context {N P V L : Type} {EN : EqB N} {EP : EqB P} {EL : EqB L} {ON : Ord N} {RV : CRing V}.
  Variable E : env N P V L.
  Notation g := (e_graph E).
  Implicit Types (A : assignment N P).
  Notation parties_t := (dict string (N -> option (num V))).
  Notation counts_t := (dict string (dict P (num V))).

  (** The per-party part of the election specification. *)
  Definition counts_ok A (parties : parties_t) (counts : counts_t) : Prop :=
    dkeys counts = dkeys parties /\
    (forall c d, In (c, d) counts -> NoDup (dkeys d) /\ incl (dkeys d) (labels A)) /\
    (forall c data d w, In (c, data) parties -> In (c, d) counts -> data_is g data w ->
       tally_ok g A w d).

  Lemma elec_counts_gen A (parties : parties_t) counts (f : string * (N -> option (num V)) -> res (dict P (num V))) :
    NoDup (dkeys parties) ->
    mapM (fun pd => t <- f pd ;; Ok (fst pd, t)) parties = Ok counts ->
    (forall c data d, In (c, data) parties -> f (c, data) = Ok d ->
       NoDup (dkeys d) /\ incl (dkeys d) (labels A) /\
       forall w, data_is g data w -> tally_ok g A w d) ->
    counts_ok A parties counts.
  Proof.
    intros ND H Hf. split; [|split].
    - revert H. apply mapM_keys. intros [c data] y Hy. simpl in *.
      apply bind_Ok in Hy. destruct Hy as (t & _ & [= <-]). reflexivity.
    - intros c d Hd. destruct (mapM_In _ _ _ _ H Hd) as ([c' data] & Hin & Hy).
      apply bind_Ok in Hy. destruct Hy as (t & Ht & [= -> ->]).
      destruct (Hf c data d Hin Ht) as (H1 & H2 & _). auto.
    - intros c data d w Hp Hd Hw. destruct (mapM_In _ _ _ _ H Hd) as ([c' data'] & Hin & Hy).
      apply bind_Ok in Hy. destruct Hy as (t & Ht & [= -> ->]).
      assert (data' = data).
      { apply In_dget in Hin; auto. apply In_dget in Hp; auto. congruence. }
      subst data'. destruct (Hf c data d Hin Ht) as (_ & _ & H3). auto.
  Qed.

  Lemma elec_scratch_spec A (parties : parties_t) counts :
    coherent (g_nodes g) A -> NoDup (dkeys parties) ->
    elec_scratch A parties = Ok counts -> counts_ok A parties counts.
  Proof.
    intros C ND H. apply (elec_counts_gen A parties counts
       (fun pd => scratch_tally A (fun n => of_option KeyError (snd pd n))) ND H).
    intros c data d Hin Hd. simpl in Hd.
    destruct (scratch_tally_spec E A _ d C Hd) as (H1 & H2 & H3). split; auto. split; auto.
    intros w Hw. apply H3. intros n Hn. rewrite (Hw n Hn). reflexivity.
  Qed.

  Lemma elec_step_spec A flips A' fl (parties : parties_t) old counts :
    coherent (g_nodes g) A -> coherent (g_nodes g) A' -> labels A' = labels A ->
    flows_spec (a_map A) flips fl -> flipped A flips A' ->
    NoDup (dkeys parties) -> counts_ok A parties old ->
    elec_step parties fl old = Ok counts -> counts_ok A' parties counts.
  Proof.
    intros C C' HL FS Fl ND (O1 & O2 & O3) H.
    set (f := fun pd : string * (N -> option (num V)) =>
                prev <- of_option KeyError (dget old (fst pd)) ;; data_step (snd pd) fl prev).
    apply (elec_counts_gen A' parties counts f ND).
    - transitivity (elec_step parties fl old); [|exact H]. unfold elec_step. clear - f.
      induction parties as [|pd l IH]; simpl; auto. unfold f at 1.
      destruct (dget old (fst pd)); simpl; auto.
      destruct (data_step (snd pd) fl d); simpl; auto. now rewrite IH.
    - intros c data d Hin Hd. unfold f in Hd. simpl in Hd.
      apply bind_Ok in Hd. destruct Hd as (prev & Hp & Hd).
      destruct (dget old c) as [prev'|] eqn:Eo; [|discriminate]. injection Hp as ->.
      apply dget_In in Eo. destruct (O2 c prev Eo) as [P1 P2].
      destruct (data_step_spec E A flips A' fl data prev d C C' HL FS Fl Hd P1 P2) as (H1 & H2 & H3).
      split; auto. split; auto. intros w Hw. apply H3; auto. eapply O3; eauto.
  Qed.

  Lemma elec_totals_spec A (parties : parties_t) counts totals :
    coherent (g_nodes g) A ->
    NoDup (dkeys parties) -> counts_ok A parties counts -> wf_graph g ->
    elec_totals A counts = Ok totals ->
    dkeys totals = labels A /\
    (forall w, (forall c data, In (c, data) parties -> data_is g data (w c)) ->
       forall p x, dget totals p = Some x ->
         exists y, x = Num y /\
           sums_to (fun n => vsum (map (fun c => w c n) (dkeys parties))) (member g A p) y).
  Proof.
    intros C ND (K & _ & T) W H. unfold elec_totals in H. split.
    - unfold labels. rewrite <- (map_id (dkeys (a_parts A))). revert H. apply mapM_keys.
      intros p y Hy. apply bind_Ok in Hy. destruct Hy as (t & _ & [= <-]). reflexivity.
    - intros w Hw p x Hx. apply dget_In in Hx.
      destruct (mapM_In _ _ _ _ H Hx) as (p' & Hp & Hy).
      apply bind_Ok in Hy. destruct Hy as (xs & Hxs & [= -> <-]).
      assert (G : forall c d, In (c, d) counts -> tally_ok g A (w c) d).
      { intros c d Hd. assert (Hc : In c (dkeys parties)).
        { rewrite <- K. change c with (fst (c, d)). now apply in_map. }
        apply dget_key in Hc. destruct Hc as [data Hc]. apply dget_In in Hc. eauto. }
      assert (exists ys, xs = map Num (map snd ys) /\ map fst ys = dkeys counts /\
                forall c y, In (c, y) ys -> sums_to (w c) (member g A p) y) as (ys & -> & Y1 & Y2).
      { clear - Hxs G. apply mapM_Forall2 in Hxs.
        induction Hxs as [|[c d] x cs xs Hx _ IH]; simpl.
        - exists []. split; auto. split; auto. intros c y [].
        - destruct IH as (ys & -> & Y1 & Y2); [intros; apply G; now right|].
          simpl in Hx. destruct (dget d p) as [x'|] eqn:Ed; [|discriminate]. injection Hx as ->.
          destruct (proj1 (G c d (or_introl eq_refl)) p x Ed) as (y & -> & Sy).
          exists ((c, y) :: ys). simpl. split; auto. split; [now f_equal|].
          intros c1 y1 [[= <- <-]|H1]; auto. }
      rewrite nsum_Num. eexists. split; [reflexivity|].
      rewrite <- K. rewrite <- Y1.
      assert (ND' : NoDup (map fst ys)) by (rewrite Y1, K; auto).
      replace (map snd ys) with (map (fun c => dget_or c0 ys c) (map fst ys)).
      + apply sums_to_combine.
        * exists (filter (fun n => eqb (district A n) (Some p)) (g_nodes g)). split.
          -- apply NoDup_filter, W.
          -- intro n. rewrite filter_In. unfold member. rewrite eqb_eq. tauto.
        * intros c Hc. apply dget_key in Hc. destruct Hc as [y Hc]. unfold dget_or. rewrite Hc.
          apply Y2. now apply dget_In.
      + clear - ND'. rewrite map_map. apply map_ext_in. intros [c y] Hy. simpl.
        unfold dget_or. now rewrite (In_dget ys c y ND' Hy).
  Qed.

  (** Progress. *)
  Definition full A (d : dict P (num V)) : Prop := incl (labels A) (dkeys d).
  Definition no_empty A : Prop := forall p, In p (labels A) -> exists n, member g A p n.

  Lemma tally_full A w d : no_empty A -> tally_ok g A w d -> full A d.
  Proof. intros NE [_ T] p Hp. destruct (NE p Hp) as [n Hn]. eauto. Qed.

  Lemma elec_scratch_ok A (parties : parties_t) :
    coherent (g_nodes g) A ->
    (forall c data, In (c, data) parties -> exists w, data_is g data w) ->
    exists counts, elec_scratch A parties = Ok counts.
  Proof.
    intros C H. unfold elec_scratch. apply mapM_progress. intros [c data] Hin. simpl.
    destruct (H c data Hin) as [w Hw].
    destruct (scratch_tally_ok E A (fun n => of_option KeyError (data n)) C) as [d ->].
    - intros n Hn. rewrite (Hw n Hn). simpl. eauto.
    - simpl. eauto.
  Qed.

  Lemma elec_step_ok A flips A' fl (parties : parties_t) old :
    coherent (g_nodes g) A -> coherent (g_nodes g) A' -> labels A' = labels A ->
    flows_spec (a_map A) flips fl -> flipped A flips A' ->
    no_empty A -> counts_ok A parties old ->
    (forall c data, In (c, data) parties -> exists w, data_is g data w) ->
    exists counts, elec_step parties fl old = Ok counts.
  Proof.
    intros C C' HL FS Fl NE (O1 & O2 & O3) H. unfold elec_step. apply mapM_progress.
    intros [c data] Hin. simpl.
    assert (Hc : In c (dkeys old)).
    { rewrite O1. change c with (fst (c, data)). now apply in_map. }
    apply dget_key in Hc. destruct Hc as [prev Hp]. rewrite Hp. simpl. apply dget_In in Hp.
    destruct (H c data Hin) as [w Hw].
    destruct (data_step_ok E A flips A' fl data prev C FS Fl) as [d ->].
    - intros n Hn. rewrite (Hw n Hn). eauto.
    - intros p Hp'. eapply tally_full; [exact NE|eapply O3; eauto|].
      eapply flow_labels with (g := g); eauto.
    - simpl. eauto.
  Qed.

  Lemma elec_totals_ok A (parties : parties_t) counts :
    no_empty A -> NoDup (dkeys parties) -> counts_ok A parties counts ->
    (forall c data, In (c, data) parties -> exists w, data_is g data w) ->
    exists totals, elec_totals A counts = Ok totals.
  Proof.
    intros NE ND (K & _ & T) H. unfold elec_totals. apply mapM_progress.
    intros p Hp.
    destruct (mapM_progress (fun c => of_option KeyError (dget (snd c) p)) counts) as [xs ->];
      [|simpl; eauto].
    intros [c d] Hd. simpl.
    assert (Hc : In c (dkeys parties)).
    { rewrite <- K. change c with (fst (c, d)). now apply in_map. }
    apply dget_key in Hc. destruct Hc as [data Hc]. apply dget_In in Hc.
    destruct (H c data Hc) as [w Hw].
    assert (Hk : In p (dkeys d)) by (eapply tally_full; eauto).
    apply dget_key in Hk. destruct Hk as [x ->]. simpl. eauto.
  Qed.

  (** ** defaultdict reads *)
  Lemma add_defaults_nodup {X} (dflt : X) ps : forall (d : dict P X),
    NoDup (dkeys d) -> NoDup (dkeys (add_defaults dflt ps d)).
  Proof.
    unfold add_defaults. induction ps as [|q ps IH]; simpl; intros d ND; auto.
    apply IH. destruct (dmem d q); auto. now apply NoDup_dset.
  Qed.

  Lemma add_defaults_get {X} (dflt : X) ps : forall (d : dict P X) p,
    dget_or dflt (add_defaults dflt ps d) p = dget_or dflt d p /\
    (forall x, dget d p = Some x -> dget (add_defaults dflt ps d) p = Some x).
  Proof.
    unfold add_defaults. induction ps as [|q ps IH]; simpl; intros d p; auto.
    destruct (dmem d q) eqn:Eq.
    - apply IH.
    - destruct (IH (dset d q dflt) p) as (H1 & H2). split.
      + rewrite H1. unfold dget_or. rewrite dget_dset. destruct (eqb_spec p q) as [->|]; auto.
        unfold dmem in Eq. destruct (dget d q); congruence.
      + intros x Hx. apply H2. rewrite dget_dset. destruct (eqb_spec p q) as [->|]; auto.
        unfold dmem in Eq. rewrite Hx in Eq. discriminate.
  Qed.

  (** Only the values of the three defaultdict updaters are ever touched. *)
  Lemma touch_correct (o : pobj N P V L) u v ps :
    u = UCutEdgesByPart \/ u = UExteriorSet \/ u = UExterior ->
    correct E o u v -> correct E o u (touch_value ps v).
  Proof.
    intros [-> | [-> | -> ]] (d & -> & ND & H); simpl; eexists; (split; [reflexivity|]);
      (split; [now apply add_defaults_nodup|]); intro p.
    - destruct (add_defaults_get [] ps d p) as (-> & _). apply H.
    - destruct (add_defaults_get [] ps d p) as (-> & _). apply H.
    - destruct (add_defaults_get (Num c0) ps d p) as (-> & _). apply H.
  Qed.
End Elec.
