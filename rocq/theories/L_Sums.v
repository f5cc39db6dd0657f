(** Sums over finite sets in a commutative ring. *)
From Coq Require Import String List Bool Arith Ring_theory Ring Permutation Lia.
From Verif Require Import Base M_Graph M_Partition S_Partition M_Machine S_Machine.
Import ListNotations.

Section Sums.
  Context {V : Type} {RV : CRing V}.
  Add Ring VR : (@cring V RV).

  Local Notation "x + y" := (cadd x y).
  Local Notation "x - y" := (csub x y).

  Lemma fold_cadd l : forall x, fold_left cadd l x = x + vsum l.
  Proof.
    unfold vsum. induction l as [|a l IH]; simpl; intro x.
    - ring.
    - rewrite IH, (IH (c0 + a)). ring.
  Qed.

  Lemma vsum_cons x l : vsum (x :: l) = x + vsum l.
  Proof. unfold vsum at 1. simpl. rewrite fold_cadd. ring. Qed.

  Lemma vsum_nil : vsum (@nil V) = c0.
  Proof. reflexivity. Qed.

  Lemma vsum_app l1 l2 : vsum (l1 ++ l2) = vsum l1 + vsum l2.
  Proof.
    induction l1 as [|x l1 IH]; simpl.
    - rewrite vsum_nil. ring.
    - rewrite !vsum_cons, IH. ring.
  Qed.

  Lemma vsum_perm l1 l2 : Permutation l1 l2 -> vsum l1 = vsum l2.
  Proof.
    induction 1; auto.
    - now rewrite !vsum_cons, IHPermutation.
    - rewrite !vsum_cons. ring.
    - congruence.
  Qed.

  Lemma nadd_Num x y : nadd (Num x) (Num y) = Num (x + y).
  Proof. reflexivity. Qed.

  Lemma fold_nadd_Num l : forall x, fold_left nadd (map Num l) (Num x) = Num (x + vsum l).
  Proof.
    induction l as [|a l IH]; simpl; intro x.
    - rewrite vsum_nil. f_equal. ring.
    - rewrite IH, vsum_cons. f_equal. ring.
  Qed.

  Lemma nsum_Num l : nsum (map Num l) = Num (vsum l).
  Proof. unfold nsum. rewrite fold_nadd_Num. f_equal. ring. Qed.

  Lemma vsum_zero {X} (l : list X) : vsum (map (fun _ => c0) l) = c0.
  Proof.
    induction l as [|a l IH]; simpl; auto. rewrite vsum_cons, IH. ring.
  Qed.

  Lemma vsum_plus {X} (f f' : X -> V) l :
    vsum (map (fun x => f x + f' x) l) = vsum (map f l) + vsum (map f' l).
  Proof.
    induction l as [|a l IH]; simpl.
    - rewrite vsum_nil. ring.
    - rewrite !vsum_cons, IH. ring.
  Qed.

  Lemma vsum_swap {X Y} (f : X -> Y -> V) l m :
    vsum (map (fun x => vsum (map (fun y => f x y) m)) l) =
    vsum (map (fun y => vsum (map (fun x => f x y) l)) m).
  Proof.
    induction l as [|a l IH]; simpl.
    - now rewrite vsum_zero.
    - rewrite vsum_cons, IH, <- vsum_plus. f_equal. apply map_ext. intro y.
      now rewrite vsum_cons.
  Qed.

  Lemma vsum_flat {X} (f : X -> list V) l :
    vsum (flat_map f l) = vsum (map (fun x => vsum (f x)) l).
  Proof.
    induction l as [|a l IH]; simpl; auto. now rewrite vsum_app, vsum_cons, IH.
  Qed.

  Section Sets.
    Context {X : Type} {EX : EqB X}.
    Implicit Types (w : X -> V) (s t : list X).

    Lemma vsum_same w s t :
      NoDup s -> NoDup t -> (forall y, In y s <-> In y t) ->
      vsum (map w s) = vsum (map w t).
    Proof.
      intros. apply vsum_perm. apply Permutation_map. now apply NoDup_Permutation.
    Qed.

    Lemma sums_to_fun w Pr x y : sums_to w Pr x -> sums_to w Pr y -> x = y.
    Proof.
      intros (s & N1 & I1 & ->) (t & N2 & I2 & ->). apply vsum_same; auto.
      intro z. rewrite I1, I2. tauto.
    Qed.

    Lemma sums_to_ext w Pr Pr' x : (forall y, Pr y <-> Pr' y) -> sums_to w Pr x -> sums_to w Pr' x.
    Proof.
      intros H (s & N1 & I1 & ->). exists s. split; auto. split; auto.
      intro y. rewrite I1. apply H.
    Qed.

    Lemma sums_to_w w w' (Pr : X -> Prop) x :
      (forall y, Pr y -> w y = w' y) -> sums_to w Pr x -> sums_to w' Pr x.
    Proof.
      intros H (s & N1 & I1 & ->). exists s. split; auto. split; auto.
      f_equal. apply map_ext_in. intros y Hy. apply H. now apply I1.
    Qed.

    Lemma sums_to_list w s : NoDup s -> sums_to w (fun y => In y s) (vsum (map w s)).
    Proof. intro. exists s. split; auto. split; auto. tauto. Qed.

    Lemma sums_to_empty w (Pr : X -> Prop) : (forall y, ~ Pr y) -> sums_to w Pr c0.
    Proof.
      intro H. exists []. split; [constructor|]. split; auto.
      intro y. simpl. split; [tauto|]. apply H.
    Qed.

    (** The incremental step: remove [outs], add [ins]. *)
    Lemma sums_to_step w Pr Pr' x ins outs :
      sums_to w Pr x -> NoDup ins -> NoDup outs ->
      (forall y, In y outs -> Pr y) ->
      (forall y, In y ins -> ~ Pr y) ->
      (forall y, Pr' y <-> (Pr y /\ ~ In y outs) \/ In y ins) ->
      sums_to w Pr' (x - vsum (map w outs) + vsum (map w ins)).
    Proof.
      intros (s & N1 & I1 & ->) Ni No Ho Hi H.
      exists (sdiff s outs ++ ins). split; [|split].
      - clear - N1 Ni No Ho Hi I1 EX.
        assert (ND : NoDup (sdiff s outs)) by now apply NoDup_sdiff.
        assert (Dj : forall y, In y (sdiff s outs) -> ~ In y ins).
        { intros y Hy Hyi. apply In_sdiff in Hy. apply (Hi y Hyi). now apply I1. }
        revert ND Dj. generalize (sdiff s outs). induction l as [|a l IH]; simpl; auto.
        intros ND Dj. inversion ND; subst. constructor.
        + rewrite in_app_iff. intros [H|H]; auto. apply (Dj a); auto.
        + apply IH; auto.
      - intro y. rewrite in_app_iff, In_sdiff, I1, H. tauto.
      - rewrite map_app, vsum_app.
        assert (Hs : vsum (map w s) = vsum (map w (sdiff s outs)) + vsum (map w outs)).
        { rewrite <- vsum_app, <- map_app. apply vsum_perm, Permutation_map.
          apply NoDup_Permutation; auto.
          - assert (ND : NoDup (sdiff s outs)) by now apply NoDup_sdiff.
            assert (Dj : forall y, In y (sdiff s outs) -> ~ In y outs).
            { intros y Hy. apply In_sdiff in Hy. tauto. }
            revert ND Dj. generalize (sdiff s outs). induction l as [|a l IH]; simpl; auto.
            intros ND Dj. inversion ND; subst. constructor.
            + rewrite in_app_iff. intros [H'|H']; auto. apply (Dj a); auto.
            + apply IH; auto.
          - intro y. rewrite in_app_iff, In_sdiff. destruct (In_dec_of y outs) as [Hy|Hy].
            + split; auto. intros _. apply I1. auto.
            + tauto. }
        rewrite Hs. ring.
    Qed.

    Lemma sums_to_step' w Pr Pr' x ins outs :
      sums_to w Pr x -> NoDup ins -> NoDup outs ->
      (forall y, In y outs -> Pr y) ->
      (forall y, In y ins -> ~ Pr y) ->
      (forall y, Pr' y <-> (Pr y /\ ~ In y outs) \/ In y ins) ->
      sums_to w Pr' (x + vsum (map w ins) - vsum (map w outs)).
    Proof.
      intros. replace (x + vsum (map w ins) - vsum (map w outs))
        with (x - vsum (map w outs) + vsum (map w ins)) by ring.
      eapply sums_to_step; eauto.
    Qed.

    (** Adding one element. *)
    Lemma sums_to_add w Pr Pr' x y :
      sums_to w Pr x -> ~ Pr y -> (forall z, Pr' z <-> Pr z \/ z = y) ->
      sums_to w Pr' (x + w y).
    Proof.
      intros (s & N1 & I1 & ->) Hy H. exists (s ++ [y]). split; [|split].
      - apply NoDup_app_single; auto. intro Hs. apply Hy. now apply I1.
      - intro z. rewrite in_app_iff, H, I1. simpl. intuition.
      - rewrite map_app, vsum_app. simpl. rewrite vsum_cons, vsum_nil. ring.
    Qed.

    Lemma sums_to_combine {C} (cs : list C) (w : C -> X -> V) (x : C -> V) (Pr : X -> Prop) :
      (exists s, NoDup s /\ forall y, In y s <-> Pr y) ->
      (forall c, In c cs -> sums_to (w c) Pr (x c)) ->
      sums_to (fun n => vsum (map (fun c => w c n) cs)) Pr (vsum (map x cs)).
    Proof.
      intros (s & Ns & Is) H. exists s. split; auto. split; auto.
      rewrite vsum_swap. f_equal. apply map_ext_in. intros c Hc.
      eapply sums_to_fun; [apply H; auto|]. exists s. auto.
    Qed.
  End Sets.
End Sums.
