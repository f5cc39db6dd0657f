(** The districts of a plan as a family of sets of nodes: comparing two plans
    up to relabelling. *)
From Coq Require Import List Bool Arith Permutation Lia ZifyBool ZifyNat.
From Verif Require Import Base M_Graph M_Partition S_Partition M_Recom P_Recom M_Diversity P_DetailedBalance.
Import ListNotations.
Local Open Scope nat_scope.
Local Open Scope list_scope.

Section Families.
  Context {T : Type} {ET : EqB T}.
  Implicit Types F G : list T.
  (** The members of [F] that are not in [G]. *)
  Definition only F G : list T := filter (fun c => negb (mem c G)) F.
  Lemma in_only F G c : In c (only F G) <-> In c F /\ ~ In c G.
  Proof.
    unfold only. rewrite filter_In. apply and_iff_compat_l. destruct (mem c G) eqn:E; cbn [negb].
    - apply mem_In in E. split; [discriminate|tauto].
    - apply mem_notIn in E. tauto.
  Qed.
  Lemma filter_parts (f : T -> bool) F : length F = length (filter f F) + length (filter (fun c => negb (f c)) F).
  Proof. induction F as [|c F IH]; [reflexivity|]. cbn [filter]. destruct (f c); cbn [negb length]; lia. Qed.
  Lemma only_length F G : NoDup F -> NoDup G -> length F = length G -> length (only F G) = length (only G F).
  Proof.
    intros NF NG E. assert (C : length (filter (fun c => mem c G) F) = length (filter (fun c => mem c F) G)).
    { apply Nat.le_antisymm; apply NoDup_incl_length; try (apply NoDup_filter; assumption); intros c H; apply filter_In in H; destruct H as [H1 H2]; apply mem_In in H2; apply filter_In; split; auto; now apply mem_In. }
    pose proof (filter_parts (fun c => mem c G) F). pose proof (filter_parts (fun c => mem c F) G). unfold only. lia.
  Qed.
  Lemma only_nil F G : NoDup F -> NoDup G -> length F = length G -> only F G = [] -> forall c, In c F <-> In c G.
  Proof.
    intros NF NG E H. assert (I : forall F G, only F G = [] -> incl F G).
    { intros F0 G0 H0 c Hc. destruct (mem c G0) eqn:Em; [now apply mem_In|]. apply mem_notIn in Em. assert (X : In c (only F0 G0)) by now apply in_only. rewrite H0 in X. destruct X. }
    assert (H' : only G F = []) by (pose proof (only_length F G NF NG E) as X; rewrite H in X; destruct (only G F); [reflexivity|discriminate]).
    intro c. split; apply I; assumption.
  Qed.
End Families.

Section Pieces.
  Context {N P : Type} {EN : EqB N} {EP : EqB P}.
  Variable gn : list N.
  Hypothesis ND : NoDup gn.
  Implicit Types A B : assignment N P.

  (** Two plans with the same districts, whatever they are called. *)
  Definition same_districts A B : Prop := forall n m, In n gn -> In m gn -> (district A n = district A m <-> district B n = district B m).

  Definition proper A : Prop := coherent gn A /\ forall z, In z (labels A) -> exists n, district A n = Some z.
  Definition piece A (z : P) : list N := filter (fun n => eqb (district A n) (Some z)) gn.
  Definition pieces A : list (list N) := map (piece A) (labels A).

  Lemma in_node A n z : proper A -> district A n = Some z -> In n gn /\ In z (labels A).
  Proof.
    intros [C _] H. split; [apply (coh_dom _ _ C); eapply dget_Some_key; exact H|]. apply (coh_agree _ _ C) in H. destruct H as (s & Hs & _). eapply dget_Some_key; exact Hs.
  Qed.
  Lemma node_in A n : proper A -> In n gn -> exists z, district A n = Some z.
  Proof. intros [C _] H. apply (coh_dom _ _ C) in H. now apply dget_key in H. Qed.
  Lemma in_piece A z n : proper A -> In n (piece A z) <-> district A n = Some z.
  Proof.
    intro C. unfold piece. rewrite filter_In. destruct (eqb_spec (district A n) (Some z)) as [E|E]; [|split; [intros [_ H]; discriminate|congruence]]. split; [auto|]. intros _. split; [|reflexivity]. now apply (in_node A n z).
  Qed.
  Lemma piece_ext A B z z' : proper A -> proper B -> (forall n, district A n = Some z <-> district B n = Some z') -> piece A z = piece B z'.
  Proof.
    intros CA CB H. apply filter_ext_in. intros n _. specialize (H n). destruct (eqb_spec (district A n) (Some z)), (eqb_spec (district B n) (Some z')); tauto.
  Qed.
  Lemma in_pieces A c : In c (pieces A) <-> exists z, In z (labels A) /\ c = piece A z.
  Proof. unfold pieces. rewrite in_map_iff. split; intros (z & H1 & H2); exists z; auto. Qed.
  Lemma piece_some A z : proper A -> In z (labels A) -> exists n, In n (piece A z).
  Proof. intros C H. destruct (proj2 C z H) as [n Hn]. exists n. now apply in_piece. Qed.
  Lemma piece_inj A z z' : proper A -> In z (labels A) -> piece A z = piece A z' -> z = z'.
  Proof. intros C H E. destruct (piece_some A z C H) as [n Hn]. assert (Hn' := Hn). rewrite E in Hn'. apply (in_piece A _ n C) in Hn, Hn'. congruence. Qed.
  Lemma pieces_nodup A : proper A -> NoDup (pieces A).
  Proof.
    intro C. unfold pieces. pose proof (coh_part_keys _ _ (proj1 C)) as K. assert (I : incl (labels A) (labels A)) by (intro; auto). revert K I. generalize (labels A) at 1 2 4. induction l as [|z l IH]; cbn [map]; intros K I; [constructor|]. inversion K; subst. constructor; [|apply IH; auto; intros y Hy; apply I; now right].
    intro H. apply in_map_iff in H. destruct H as (y & E & Hy). apply piece_inj in E; [congruence|exact C|]. apply I. now right.
  Qed.
  Lemma pieces_length A : length (pieces A) = length (labels A).
  Proof. apply map_length. Qed.
  Lemma pieces_cover A n : proper A -> In n gn -> exists c, In c (pieces A) /\ In n c.
  Proof. intros C H. destruct (node_in A n C H) as [z Hz]. exists (piece A z). split; [apply in_pieces; exists z; split; [now apply (in_node A n z)|reflexivity]|now apply in_piece]. Qed.
  Lemma pieces_inside A c n : proper A -> In c (pieces A) -> In n c -> In n gn.
  Proof. intros C H Hn. apply in_pieces in H. destruct H as (z & _ & ->). apply (in_piece A z n C) in Hn. now apply (in_node A n z). Qed.
  Lemma pieces_apart A c c' n : proper A -> In c (pieces A) -> In c' (pieces A) -> In n c -> In n c' -> c = c'.
  Proof. intros C H H' Hn Hn'. apply in_pieces in H, H'. destruct H as (z & _ & ->), H' as (z' & _ & ->). apply (in_piece A _ n C) in Hn, Hn'. congruence. Qed.
  Lemma pieces_canonical A B c c' : proper A -> proper B -> In c (pieces A) -> In c' (pieces B) -> (forall n, In n c <-> In n c') -> c = c'.
  Proof.
    intros CA CB H H' E. apply in_pieces in H, H'. destruct H as (z & _ & ->), H' as (z' & _ & ->). apply piece_ext; auto. intro n. now rewrite <- !in_piece.
  Qed.
  Lemma pieces_some A c : proper A -> In c (pieces A) -> exists n, In n c.
  Proof. intros C H. apply in_pieces in H. destruct H as (z & H & ->). now apply piece_some. Qed.

  Lemma same_pieces A B : proper A -> proper B -> same_districts A B <-> forall c, In c (pieces A) <-> In c (pieces B).
  Proof.
    intros CA CB.
    assert (Half : forall A B, proper A -> proper B -> same_districts A B -> forall c, In c (pieces A) -> In c (pieces B)).
    { clear A B CA CB. intros A B CA CB S c Hc. destruct (pieces_some A c CA Hc) as [n Hn]. pose proof (pieces_inside A c n CA Hc Hn) as Gn. destruct (node_in B n CB Gn) as [z' Hz']. assert (E : c = piece B z').
      { apply in_pieces in Hc. destruct Hc as (z & _ & ->). apply (in_piece A z n CA) in Hn. apply piece_ext; auto. intro m. split; intro Hm.
        - pose proof (proj1 (in_node A m z CA Hm)) as Gm. rewrite <- Hz'. symmetry. apply (S n m Gn Gm). congruence.
        - pose proof (proj1 (in_node B m z' CB Hm)) as Gm. rewrite <- Hn. symmetry. apply (S n m Gn Gm). congruence. }
      rewrite E. apply in_pieces. exists z'. split; [|reflexivity]. now apply (in_node B n z'). }
    split.
    - intros S c. split; apply Half; auto. intros n m Hn Hm. symmetry. now apply S.
    - intros S n m Hn Hm.
      assert (Half2 : forall A B, proper A -> proper B -> (forall c, In c (pieces A) -> In c (pieces B)) -> district A n = district A m -> district B n = district B m).
      { clear - ND Hn Hm. intros A B CA CB S E. destruct (node_in A n CA Hn) as [z Hz]. assert (Hc : In (piece A z) (pieces A)) by (apply in_pieces; exists z; split; [now apply (in_node A n z)|reflexivity]). apply S, in_pieces in Hc. destruct Hc as (z' & _ & Ez).
        assert (H1 : In n (piece A z)) by now apply in_piece. assert (H2 : In m (piece A z)) by (apply in_piece; auto; congruence). rewrite Ez in H1, H2. apply (in_piece B) in H1, H2; auto. congruence. }
      split; apply Half2; auto; intros c Hc; now apply S.
  Qed.
  Lemma same_districts_refl A : same_districts A A. Proof. intros n m _ _. reflexivity. Qed.
  Lemma same_districts_sym A B : same_districts A B -> same_districts B A. Proof. intros S n m Hn Hm. symmetry. now apply S. Qed.
  Lemma same_districts_trans A B D : same_districts A B -> same_districts B D -> same_districts A D.
  Proof. intros S S' n m Hn Hm. rewrite (S n m Hn Hm). now apply S'. Qed.

  Section Two.
    Variables A B : assignment N P.
    Hypothesis CA : proper A.
    Hypothesis CB : proper B.
    Hypothesis K : length (labels A) = length (labels B).
    Notation F := (pieces A).
    Notation G := (pieces B).
    Lemma FG : NoDup F /\ NoDup G /\ length F = length G.
    Proof. split; [now apply pieces_nodup|]. split; [now apply pieces_nodup|]. now rewrite !pieces_length. Qed.
    Lemma only_union n : (exists c, In c (only F G) /\ In n c) -> exists c, In c (only G F) /\ In n c.
    Proof.
      intros (c & Hc & Hn). apply in_only in Hc. destruct Hc as [Hc Hno]. destruct (pieces_cover B n CB (pieces_inside A c n CA Hc Hn)) as (c' & Hc' & Hn'). exists c'. split; [|exact Hn']. apply in_only. split; [exact Hc'|]. intro X. apply Hno. now rewrite (pieces_apart A c c' n CA Hc X Hn Hn').
    Qed.
    Lemma only_two : ~ same_districts A B -> 2 <= length (only F G).
    Proof.
      intro D. destruct FG as (NF & NG & E). destruct (only F G) as [|c [|c2 l]] eqn:Eo; [|exfalso|cbn; lia].
      - exfalso. apply D, same_pieces; auto. now apply only_nil.
      - pose proof (only_length F G NF NG E) as El. rewrite Eo in El. destruct (only G F) as [|c' [|c3 l]] eqn:Eo'; try discriminate.
        assert (Hc : In c (only F G)) by (rewrite Eo; now left). assert (Hc' : In c' (only G F)) by (rewrite Eo'; now left).
        assert (I1 : forall n, In n c -> In n c') by (intros n Hn; destruct (only_union n) as (d & Hd & X); [eauto|]; rewrite Eo' in Hd; destruct Hd as [<-|[]]; exact X).
        apply in_only in Hc, Hc'. destruct Hc as [Hc Hno], Hc' as [Hc' Hno'].
        assert (I2 : forall n, In n c' -> In n c). { intros n Hn. destruct (pieces_cover A n CA (pieces_inside B c' n CB Hc' Hn)) as (d & Hd & X). destruct (mem d G) eqn:Em.
          - apply mem_In in Em. exfalso. apply Hno'. now rewrite (pieces_apart B c' d n CB Hc' Em Hn X).
          - apply mem_notIn in Em. assert (Y : In d (only F G)) by now apply in_only. rewrite Eo in Y. destruct Y as [<-|[]]. exact X. }
        apply Hno. rewrite (pieces_canonical A B c c'); auto. intro n. split; auto.
    Qed.
  End Two.

  (** Plan [B] differs from [A] exactly in the districts [p] and [q] of [A]. *)
  Definition differ A B (p q : P) : Prop :=
    p <> q /\ In p (labels A) /\ In q (labels A) /\ (forall c, In c (only (pieces A) (pieces B)) <-> c = piece A p \/ c = piece A q).

  Section Moves.
    Variables A B A' : assignment N P.
    Variables p q : P.
    Hypothesis CA : proper A.
    Hypothesis CB : proper B.
    Hypothesis CA' : proper A'.
    Hypothesis K : length (labels A) = length (labels B).
    Hypothesis K' : labels A' = labels A.
    Hypothesis Npq : p <> q.
    Hypothesis Lp : In p (labels A).
    Hypothesis Lq : In q (labels A).
    Hypothesis R : redrawn A p q A'.
    Lemma others z : z <> p -> z <> q -> piece A' z = piece A z.
    Proof.
      intros Hp Hq. destruct R as [R1 R2]. apply piece_ext; auto. intro n. destruct (eqb_spec (district A n) (Some p)) as [E|E]; [|destruct (eqb_spec (district A n) (Some q)) as [E'|E']].
      - destruct (R2 n (or_introl E)) as [X|X]; rewrite X, E; split; congruence.
      - destruct (R2 n (or_intror E')) as [X|X]; rewrite X, E'; split; congruence.
      - now rewrite R1.
    Qed.
    Lemma move_differs : ~ same_districts A B -> same_districts A' B -> differ A B p q.
    Proof.
      intros D S. pose proof (proj1 (same_pieces A' B CA' CB) S) as Sp. destruct (FG A B CA CB K) as (NF & NG & E).
      assert (I : incl (only (pieces A) (pieces B)) [piece A p; piece A q]).
      { intros c Hc. apply in_only in Hc. destruct Hc as [Hc Hno]. apply in_pieces in Hc. destruct Hc as (z & Hz & ->). destruct (eqb_spec z p) as [->|Zp]; [now left|]. destruct (eqb_spec z q) as [->|Zq]; [right; now left|]. exfalso. apply Hno, Sp. rewrite <- (others z Zp Zq). apply in_pieces. exists z. rewrite K'. auto. }
      assert (N2 : NoDup [piece A p; piece A q]) by (constructor; [intros [X|[]]; apply Npq; symmetry; apply (piece_inj A q p CA Lq X)|constructor; [intros []|constructor]]).
      pose proof (only_two A B CA CB K D) as L2.
      assert (I' : incl [piece A p; piece A q] (only (pieces A) (pieces B))) by (apply NoDup_length_incl; [apply NoDup_filter, NF|exact L2|exact I]).
      split; [exact Npq|]. split; [exact Lp|]. split; [exact Lq|]. intro c. split; [intro Hc; apply I in Hc; destruct Hc as [<-|[<-|[]]]; auto|]. intros [->| ->]; apply I'; cbn; auto.
    Qed.
    Variables SA SB : list N.
    Hypothesis HO : forall c, In c (only (pieces B) (pieces A)) <-> c = SA \/ c = SB.
    Hypothesis NS : SA <> SB.
    Lemma move_split : differ A B p q -> same_districts A' B <-> split_as A' p q SA SB.
    Proof.
      intros (_ & _ & _ & Df). rewrite (same_pieces A' B CA' CB).
      assert (HA : In SA (pieces B) /\ ~ In SA (pieces A)) by (apply in_only, HO; auto). assert (HB : In SB (pieces B) /\ ~ In SB (pieces A)) by (apply in_only, HO; auto).
      split.
      - intro Sp. assert (X : forall c, In c (pieces B) -> ~ In c (pieces A) -> c = piece A' p \/ c = piece A' q).
        { intros c Hc Hno. apply Sp, in_pieces in Hc. destruct Hc as (z & Hz & ->). destruct (eqb_spec z p) as [->|Zp]; auto. destruct (eqb_spec z q) as [->|Zq]; auto. exfalso. apply Hno. rewrite (others z Zp Zq). apply in_pieces. exists z. rewrite K' in Hz. auto. }
        destruct (X SA (proj1 HA) (proj2 HA)) as [E1|E1], (X SB (proj1 HB) (proj2 HB)) as [E2|E2]; try congruence; [left|right]; intro n; rewrite E1, E2, !(in_piece A') by exact CA'; tauto.
      - intro Sp. assert (E : (piece A' p = SA /\ piece A' q = SB) \/ (piece A' q = SA /\ piece A' p = SB)).
        { assert (Y : forall z c, In c (pieces B) -> In z (labels A) -> (forall n, district A' n = Some z <-> In n c) -> piece A' z = c).
          { intros z c Hc Hz Hn. apply (pieces_canonical A' B); auto; [apply in_pieces; exists z; rewrite K'; auto|]. intro n. now rewrite (in_piece A'). }
          destruct Sp as [Sp|Sp]; [left|right]; split; apply Y; try tauto; intro n; apply Sp. }
        assert (I : incl (pieces A') (pieces B)).
        { intros c Hc. apply in_pieces in Hc. destruct Hc as (z & Hz & ->). destruct (eqb_spec z p) as [->|Zp]; [destruct E as [[-> _]|[_ ->]]; tauto|]. destruct (eqb_spec z q) as [->|Zq]; [destruct E as [[_ ->]|[-> _]]; tauto|].
          rewrite (others z Zp Zq). rewrite K' in Hz. destruct (mem (piece A z) (pieces B)) eqn:Em; [now apply mem_In|]. exfalso. apply mem_notIn in Em. assert (Y : In (piece A z) (only (pieces A) (pieces B))) by (apply in_only; split; [apply in_pieces; eauto|exact Em]). apply Df in Y. destruct Y as [Y|Y]; apply piece_inj in Y; auto. }
        assert (NF : NoDup (pieces A')) by now apply pieces_nodup. intro c. split; [apply I|]. apply NoDup_length_incl; [exact NF| |exact I]. rewrite !pieces_length, K', K. lia.
    Qed.
  End Moves.

  (** The difference is symmetric. *)
  Lemma differ_back A B p q : proper A -> proper B -> length (labels A) = length (labels B) -> differ A B p q ->
    exists p' q', differ B A p' q' /\ forall n, (In n (piece A p) \/ In n (piece A q)) <-> (In n (piece B p') \/ In n (piece B q')).
  Proof.
    intros CA CB K (Npq & Lp & Lq & D). destruct (FG A B CA CB K) as (NF & NG & E). pose proof (only_length _ _ NF NG E) as El.
    assert (L2 : length (only (pieces A) (pieces B)) = 2).
    { assert (N2 : NoDup [piece A p; piece A q]) by (constructor; [intros [X|[]]; apply Npq; symmetry; apply (piece_inj A q p CA Lq X)|constructor; [intros []|constructor]]).
      change 2 with (length [piece A p; piece A q]). apply Nat.le_antisymm; apply NoDup_incl_length; auto; try (apply NoDup_filter, NF); intros c Hc; [apply D in Hc; destruct Hc as [->| ->]; cbn; auto|destruct Hc as [<-|[<-|[]]]; apply D; auto]. }
    rewrite L2 in El. assert (No : NoDup (only (pieces B) (pieces A))) by apply NoDup_filter, NG. destruct (only (pieces B) (pieces A)) as [|c [|c' [|c3 l]]] eqn:Eo; try discriminate.
    assert (Hc : In c (only (pieces B) (pieces A))) by (rewrite Eo; now left). assert (Hc' : In c' (only (pieces B) (pieces A))) by (rewrite Eo; right; now left).
    assert (Nc : c <> c') by (inversion No; subst; cbn in *; intuition). pose proof Hc as Ic. pose proof Hc' as Ic'. apply in_only in Hc, Hc'. destruct Hc as [Hc _], Hc' as [Hc' _]. apply in_pieces in Hc, Hc'. destruct Hc as (p' & Lp' & ->), Hc' as (q' & Lq' & ->). exists p', q'. split.
    - split; [congruence|]. split; [exact Lp'|]. split; [exact Lq'|]. intro d. rewrite Eo. cbn. intuition.
    - intro n. split; intros Hn.
      + assert (X : exists d, In d (only (pieces A) (pieces B)) /\ In n d) by (destruct Hn as [Hn|Hn]; [exists (piece A p)|exists (piece A q)]; split; auto; apply D; auto). apply only_union in X; auto. destruct X as (d & Hd & X). rewrite Eo in Hd. destruct Hd as [<-|[<-|[]]]; auto.
      + assert (X : exists d, In d (only (pieces B) (pieces A)) /\ In n d) by (destruct Hn as [Hn|Hn]; eauto). apply only_union in X; auto. destruct X as (d & Hd & X). apply D in Hd. destruct Hd as [->| ->]; auto.
  Qed.
  (** Only one pair of districts can differ, in either order. *)
  Lemma differ_pair A B p q p' q' : proper A -> differ A B p q -> differ A B p' q' -> (p' = p /\ q' = q) \/ (p' = q /\ q' = p).
  Proof.
    intros CA (Npq & Lp & Lq & D) (Npq' & Lp' & Lq' & D').
    assert (X : forall z, In z (labels A) -> piece A z = piece A p' \/ piece A z = piece A q' -> z = p \/ z = q).
    { intros z Hz H. apply D', D in H. destruct H as [H|H]; apply piece_inj in H; auto. }
    destruct (X p' Lp' (or_introl eq_refl)) as [->| ->], (X q' Lq' (or_intror eq_refl)) as [->| ->]; auto; congruence.
  Qed.
  Lemma differ_sym A B p q : differ A B p q -> differ A B q p.
  Proof. intros (H1 & H2 & H3 & H4). split; [congruence|]. split; auto. split; auto. intro c. rewrite H4. tauto. Qed.
  Definition differb A B (pq : P * P) : bool :=
    negb (eqb (fst pq) (snd pq)) && mem (fst pq) (labels A) && mem (snd pq) (labels A) &&
    forallb (fun c => eqb c (piece A (fst pq)) || eqb c (piece A (snd pq))) (only (pieces A) (pieces B)) &&
    mem (piece A (fst pq)) (only (pieces A) (pieces B)) && mem (piece A (snd pq)) (only (pieces A) (pieces B)).
  Lemma differb_spec A B p q : differb A B (p, q) = true <-> differ A B p q.
  Proof.
    unfold differb, differ. cbn [fst snd]. rewrite !andb_true_iff, negb_true_iff, forallb_forall, !mem_In. split.
    - intros [[[[[H1 H2] H3] H4] H5] H6]. split; [destruct (eqb_spec p q); [discriminate|assumption]|]. split; auto. split; auto. intro c. split; [|intros [->| ->]; auto]. intro Hc. apply H4 in Hc. apply orb_true_iff in Hc. destruct Hc as [Hc|Hc]; apply eqb_true in Hc; auto.
    - intros (H1 & H2 & H3 & H4). split; [split; [split; [split; [split|]|]|]|]; auto.
      + destruct (eqb_spec p q); [contradiction|reflexivity].
      + intros c Hc. apply H4 in Hc. apply orb_true_iff. destruct Hc as [->| ->]; [left|right]; apply eqb_refl.
      + apply H4. auto.
      + apply H4. auto.
  Qed.
  Lemma differ_count A B : proper A -> 
    (exists p q, differ A B p q /\ forall pq, In pq (filter (differb A B) (list_prod (labels A) (labels A))) <-> pq = (p, q) \/ pq = (q, p)) \/
    (forall p q, ~ differ A B p q).
  Proof.
    intro CA. destruct (filter (differb A B) (list_prod (labels A) (labels A))) as [|[p q] l] eqn:Ef.
    - right. intros p q D. assert (X : In (p, q) (filter (differb A B) (list_prod (labels A) (labels A)))) by (apply filter_In; split; [apply in_prod; apply D|now apply differb_spec]). rewrite Ef in X. destruct X.
    - left. exists p, q. assert (D : differ A B p q). { assert (X : In (p, q) (filter (differb A B) (list_prod (labels A) (labels A)))) by (rewrite Ef; now left). apply filter_In in X. now apply differb_spec. }
      split; [exact D|]. intros [p' q']. rewrite <- Ef, filter_In, in_prod_iff, differb_spec. split.
      + intros [_ D']. destruct (differ_pair A B p q p' q' CA D D') as [[-> ->]|[-> ->]]; auto.
      + intros [[= -> ->]|[= -> ->]]; (split; [split; apply D|]); [exact D|now apply differ_sym].
  Qed.
End Pieces.
