(** Determinants by expansion along the first row, with columns as functions of
    the row: linear and alternating in the columns. *)
From Coq Require Import List Bool Arith ZArith Lia.
From Verif Require Import Base M_SpanningCount.
Import ListNotations.
Local Open Scope Z_scope.

Fixpoint sgn (n : nat) : Z := match n with O => 1 | S k => - sgn k end.
Lemma sgn_add a b : sgn (a + b) = sgn a * sgn b.
Proof. induction a as [|a IH]; cbn [sgn Nat.add]; [lia|]. rewrite IH. lia. Qed.
Lemma sgn_sq n : sgn n * sgn n = 1.
Proof. induction n as [|n IH]; cbn [sgn]; lia. Qed.

Section Det.
  Context {X : Type}.
  Notation col := (X -> Z).

  (** The alternating sum of [f c rest] over the elements [c] of [l], where
      [rest] is [pre ++ l ++ post] without [c]. *)
  Fixpoint ex (f : col -> list col -> Z) (pre l post : list col) : Z :=
    match l with
    | [] => 0
    | c :: r => f c (pre ++ r ++ post) - ex f (pre ++ [c]) r post
    end.
  Fixpoint D (rows : list X) (cols : list col) : Z :=
    match rows with
    | [] => match cols with [] => 1 | _ => 0 end
    | r :: rows' => ex (fun c rest => c r * D rows' rest) [] cols []
    end.

  Lemma ex_app f a : forall pre b post, ex f pre (a ++ b) post = ex f pre a (b ++ post) + sgn (length a) * ex f (pre ++ a) b post.
  Proof.
    induction a as [|c a IH]; intros pre b post; cbn [ex app length sgn].
    - rewrite app_nil_r. lia.
    - rewrite IH, <- app_assoc. cbn [app]. rewrite <- (app_assoc pre [c] a). cbn [app]. lia.
  Qed.
  Lemma ex_comb f g h be ga l : forall p1 q1 p2 q2 p3 q3,
    (forall a c b, l = a ++ c :: b -> f c (p1 ++ a ++ b ++ q1) = be * g c (p2 ++ a ++ b ++ q2) + ga * h c (p3 ++ a ++ b ++ q3)) ->
    ex f p1 l q1 = be * ex g p2 l q2 + ga * ex h p3 l q3.
  Proof.
    induction l as [|c l IH]; intros p1 q1 p2 q2 p3 q3 H; cbn [ex]; [lia|].
    pose proof (H [] c l eq_refl) as H0. cbn [app] in H0. rewrite H0.
    rewrite (IH (p1 ++ [c]) q1 (p2 ++ [c]) q2 (p3 ++ [c]) q3); [lia|].
    intros a d b ->. rewrite <- !app_assoc. cbn [app]. exact (H (c :: a) d b eq_refl).
  Qed.
  Lemma ex_scale f g be l p1 q1 p2 q2 :
    (forall a c b, l = a ++ c :: b -> f c (p1 ++ a ++ b ++ q1) = be * g c (p2 ++ a ++ b ++ q2)) -> ex f p1 l q1 = be * ex g p2 l q2.
  Proof. intro H. rewrite (ex_comb f g g be 0 l p1 q1 p2 q2 p2 q2); [lia|]. intros a c b E. rewrite (H a c b E). lia. Qed.
  (** The expansion with a distinguished column. *)
  Lemma ex_mid f a x b : ex f [] (a ++ x :: b) [] = ex f [] a (x :: b) + sgn (length a) * (f x (a ++ b) - ex f (a ++ [x]) b []).
  Proof. rewrite ex_app. cbn [app ex]. now rewrite !app_nil_r. Qed.

  Lemma D_nil_mid a x b : D [] (a ++ x :: b) = 0.
  Proof. destruct a; reflexivity. Qed.
  Lemma D_linear rows : forall a x y be ga b,
    D rows (a ++ (fun r => be * x r + ga * y r) :: b) = be * D rows (a ++ x :: b) + ga * D rows (a ++ y :: b).
  Proof.
    induction rows as [|r rows IH]; intros a x y be ga b; [rewrite !D_nil_mid; lia|]. cbn [D]. rewrite !ex_mid.
    set (z := fun r => be * x r + ga * y r). set (F := fun (c : col) rest => c r * D rows rest).
    rewrite (ex_comb F F F be ga a [] (z :: b) [] (x :: b) [] (y :: b)).
    - rewrite (ex_comb F F F be ga b (a ++ [z]) [] (a ++ [x]) [] (a ++ [y]) []).
      + change (F z (a ++ b)) with ((be * x r + ga * y r) * D rows (a ++ b)). change (F x (a ++ b)) with (x r * D rows (a ++ b)). change (F y (a ++ b)) with (y r * D rows (a ++ b)). ring.
      + intros p c q ->. unfold F. rewrite !app_nil_r, <- !app_assoc. cbn [app]. unfold z. rewrite (IH a x y be ga (p ++ q)). ring.
    - intros p c q ->. unfold F. cbn [app]. rewrite !(app_assoc p q). unfold z. rewrite (IH (p ++ q) x y be ga b). ring.
  Qed.
  Lemma D_ext rows : forall cols cols', Forall2 (fun c c' => forall r, In r rows -> c r = c' r) cols cols' -> D rows cols = D rows cols'.
  Proof.
    induction rows as [|r rows IH]; intros cols cols' H; [destruct H; reflexivity|]. cbn [D].
    assert (G : forall p p' q q' l l', Forall2 (fun c c' => forall r0, In r0 (r :: rows) -> c r0 = c' r0) l l' ->
      Forall2 (fun c c' => forall r0, In r0 (r :: rows) -> c r0 = c' r0) p p' -> Forall2 (fun c c' => forall r0, In r0 (r :: rows) -> c r0 = c' r0) q q' ->
      ex (fun c rest => c r * D rows rest) p l q = ex (fun c rest => c r * D rows rest) p' l' q').
    { intros p p' q q' l l' Hl. revert p p'. induction Hl as [|c c' l l' Hc Hl IHl]; intros p p' Hp Hq; cbn [ex]; [reflexivity|].
      rewrite (Hc r (or_introl eq_refl)). rewrite (IH (p ++ l ++ q) (p' ++ l' ++ q')).
      - rewrite (IHl (p ++ [c]) (p' ++ [c'])); [reflexivity| |exact Hq]. apply Forall2_app; [exact Hp|]. constructor; [exact Hc|constructor].
      - assert (W : forall u u', Forall2 (fun c c' => forall r0, In r0 (r :: rows) -> c r0 = c' r0) u u' -> Forall2 (fun c c' : col => forall r0, In r0 rows -> c r0 = c' r0) u u').
        { intros u u' Hu. induction Hu; constructor; auto. intros r0 Hr. apply H0. now right. }
        apply W. apply Forall2_app; [exact Hp|]. apply Forall2_app; assumption. }
    apply G; auto.
  Qed.
  Lemma D_swap rows : forall a x y b, D rows (a ++ x :: y :: b) = - D rows (a ++ y :: x :: b).
  Proof.
    induction rows as [|r rows IH]; intros a x y b; [rewrite !D_nil_mid; lia|]. cbn [D].
    set (F := fun (c : col) rest => c r * D rows rest).
    assert (E : forall x y, ex F [] (a ++ x :: y :: b) [] = ex F [] a (x :: y :: b) + sgn (length a) * (x r * D rows (a ++ y :: b) - y r * D rows (a ++ x :: b) + ex F (a ++ [x; y]) b [])).
    { intros u v. rewrite ex_app. cbn [app ex]. change (F u (a ++ v :: b ++ [])) with (u r * D rows (a ++ v :: b ++ [])). change (F v ((a ++ [u]) ++ b ++ [])) with (v r * D rows ((a ++ [u]) ++ b ++ [])). rewrite !app_nil_r, <- !app_assoc. cbn [app]. ring. }
    rewrite !E. rewrite (ex_scale F F (-1) a [] (x :: y :: b) [] (y :: x :: b)).
    - rewrite (ex_scale F F (-1) b (a ++ [x; y]) [] (a ++ [y; x]) []); [ring|].
      intros p c q ->. unfold F. rewrite !app_nil_r, <- !app_assoc. cbn [app]. rewrite (IH a x y (p ++ q)). ring.
    - intros p c q ->. unfold F. cbn [app]. rewrite !(app_assoc p q). rewrite (IH (p ++ q) x y b). ring.
  Qed.
  Lemma D_move rows a : forall p x b, D rows (p ++ x :: a ++ b) = sgn (length a) * D rows (p ++ a ++ x :: b).
  Proof.
    induction a as [|c a IH]; intros p x b; cbn [app length sgn]; [lia|]. rewrite D_swap.
    replace (p ++ c :: x :: a ++ b) with ((p ++ [c]) ++ x :: a ++ b) by now rewrite <- app_assoc. rewrite IH. rewrite <- app_assoc. cbn [app]. lia.
  Qed.
  Lemma D_dup rows p x a b : D rows (p ++ x :: a ++ x :: b) = 0.
  Proof. rewrite D_move. pose proof (D_swap rows (p ++ a) x x b) as H. rewrite <- app_assoc in H. rewrite <- H || idtac. replace (D rows (p ++ a ++ x :: x :: b)) with 0 by lia. lia. Qed.
  Lemma D_zero rows a b z : (forall r, In r rows -> z r = 0) -> D rows (a ++ z :: b) = 0.
  Proof.
    intro H. rewrite (D_ext rows (a ++ z :: b) (a ++ (fun r => 0 * z r + 0 * z r) :: b)).
    - rewrite D_linear. lia.
    - apply Forall2_app; [induction a; constructor; auto|]. constructor; [intros r Hr; rewrite (H r Hr); lia|]. induction b; constructor; auto.
  Qed.
  (** A sum of columns. *)
  Lemma D_sum rows rest l : D rows ((fun r => total (map (fun d : col => d r) l)) :: rest) = total (map (fun d => D rows (d :: rest)) l).
  Proof.
    induction l as [|d l IH]; cbn [map total].
    - apply (D_zero rows [] rest). reflexivity.
    - rewrite <- IH. pose proof (D_linear rows [] d (fun r => total (map (fun d : col => d r) l)) 1 1 rest) as H. cbn [app] in H.
      etransitivity; [|etransitivity; [exact H|lia]]. apply D_ext. constructor; [intros r _; lia|]. clear. induction rest; constructor; auto.
  Qed.
  Lemma D_in rows d rest : In d rest -> D rows (d :: rest) = 0.
  Proof. intro H. apply in_split in H. destruct H as (a & b & ->). exact (D_dup rows [] d a b). Qed.
  Lemma total_zero {Y} (f : Y -> Z) l : (forall y, In y l -> f y = 0) -> total (map f l) = 0.
  Proof. induction l as [|y l IH]; cbn; intro H; [reflexivity|]. rewrite (H y), IH; auto. Qed.
  (** A column that is minus the sum of the others. *)
  Lemma D_dependent rows c rest : (forall r, In r rows -> c r = - total (map (fun d : col => d r) rest)) -> D rows (c :: rest) = 0.
  Proof.
    intro H. set (s := fun r => total (map (fun d : col => d r) rest)).
    rewrite (D_ext rows (c :: rest) ((fun r => (-1) * s r + 0 * s r) :: rest)).
    - pose proof (D_linear rows [] s s (-1) 0 rest) as L. cbn [app] in L. rewrite L. unfold s. rewrite D_sum, total_zero; [lia|]. intros d Hd. now apply D_in.
    - constructor; [intros r Hr; rewrite (H r Hr); unfold s; lia|]. clear. induction rest; constructor; auto.
  Qed.
  (** Replacing one dependent column by the other one. *)
  Lemma D_exchange rows c d rest : (forall r, In r rows -> c r = - (d r + total (map (fun d : col => d r) rest))) -> D rows (c :: rest) = - D rows (d :: rest).
  Proof.
    intro H. set (s := fun r => total (map (fun d : col => d r) rest)).
    rewrite (D_ext rows (c :: rest) ((fun r => (-1) * d r + (-1) * s r) :: rest)).
    - pose proof (D_linear rows [] d s (-1) (-1) rest) as L. cbn [app] in L. rewrite L. unfold s. rewrite D_sum, total_zero; [lia|]. intros e He. now apply D_in.
    - constructor; [intros r Hr; rewrite (H r Hr); unfold s; lia|]. clear. induction rest; constructor; auto.
  Qed.
  (** Expansion along a unit column. *)
  Lemma D_unit r1 : forall v r2 c1 z c2, (forall r, In r (r1 ++ r2) -> z r = 0) -> z v = 1 ->
    D (r1 ++ v :: r2) (c1 ++ z :: c2) = sgn (length r1 + length c1) * D (r1 ++ r2) (c1 ++ c2).
  Proof.
    induction r1 as [|r r1 IH]; intros v r2 c1 z c2 Hz Hv; cbn [app D length Nat.add].
    - rewrite ex_mid, Hv. rewrite (ex_scale _ (fun _ _ => 0) 0 c1 [] (z :: c2) [] []), (ex_scale _ (fun _ _ => 0) 0 c2 (c1 ++ [z]) [] [] []); [lia| |].
      + intros a c b ->. rewrite <- app_assoc. cbn [app]. rewrite app_nil_r. rewrite D_zero; [lia|]. exact Hz.
      + intros a c b ->. cbn [app]. rewrite app_assoc. rewrite D_zero; [lia|]. exact Hz.
    - rewrite ex_mid. rewrite (Hz r (or_introl eq_refl)). rewrite ex_app. cbn [app].
      set (F := fun (c : col) rest => c r * D (r1 ++ r2) rest).
      rewrite (ex_scale _ F (sgn (S (length r1 + length c1))) c1 [] (z :: c2) [] c2).
      + rewrite (ex_scale _ F (sgn (length r1 + length c1)) c2 (c1 ++ [z]) [] c1 []).
        * rewrite app_nil_r. cbn [sgn]. rewrite !sgn_add. fold F. pose proof (sgn_sq (length c1)). cbn [app]. ring.
        * intros a c b ->. unfold F. rewrite !app_nil_r, <- !app_assoc. cbn [app]. rewrite IH; [ring| |exact Hv]. intros r' Hr'. apply Hz. now right.
      + intros a c b ->. unfold F. cbn [app]. rewrite !app_assoc. rewrite IH; [|intros r' Hr'; apply Hz; now right|exact Hv]. rewrite !app_length. cbn [length]. rewrite <- !plus_n_Sm, ?Nat.add_succ_r. cbn [sgn]. ring.
  Qed.
End Det.

(** The model's determinant. *)
Lemma delete_map {A B} (f : A -> B) i l : delete_at i (map f l) = map f (delete_at i l).
Proof. revert i. induction l as [|x l IH]; intros [|i]; cbn; auto. now rewrite IH. Qed.
Lemma delete_app {A} (a : list A) x b : delete_at (length a) (a ++ x :: b) = a ++ b.
Proof. induction a as [|y a IH]; cbn; [reflexivity|]. now rewrite IH. Qed.
Lemma det_D {X} (rows : list X) : forall cols : list (X -> Z), length cols = length rows -> det (map (fun r => map (fun c => c r) cols) rows) = D rows cols.
Proof.
  unfold det. induction rows as [|r rows IH]; intros cols Hl.
  - destruct cols; [reflexivity|discriminate].
  - cbn [map length det_rows D]. rewrite map_length.
    assert (G : forall l p, p ++ l = cols -> alternating (fun i x => x * det_rows (length rows) (map (delete_at i) (map (fun r0 => map (fun c => c r0) cols) rows))) (length p) (map (fun c => c r) l)
      = ex (fun c rest => c r * D rows rest) p l []).
    { induction l as [|c l IHl]; intros p E; cbn [map alternating ex]; [reflexivity|]. f_equal.
      - f_equal. rewrite app_nil_r. rewrite map_map. rewrite <- (IH (p ++ l)).
        + rewrite map_length. f_equal. apply map_ext. intro r0. rewrite delete_map, <- E. now rewrite delete_app.
        + rewrite <- E in Hl. rewrite app_length in *. cbn [length] in *. lia.
      - rewrite <- (IHl (p ++ [c])).
        + rewrite app_length. cbn [length]. now rewrite Nat.add_1_r.
        + now rewrite <- app_assoc. }
    apply (G cols []). reflexivity.
Qed.
