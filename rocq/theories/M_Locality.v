(** Model of /repo/gerrychain/updaters/locality_split_scores.py and of the
    region counts in /repo/gerrychain/updaters/county_splits.py:120-161.

    Populations are integers; entropies are over the reals, without rounding.
    [none] is the label Python's None, which a node without the attribute gets
    in localitydict; [str] is Python's str. *)
From Coq Require Import String List Bool Arith ZArith QArith Qround Reals.
From Verif Require Import Base M_Graph M_Partition M_Contiguity M_Election.
Import ListNotations.
Local Open Scope nat_scope.
Local Open Scope list_scope.

Section Locality.
  Context {N P L : Type} {EN : EqB N} {EP : EqB P} {EL : EqB L}.
  Variable none : L.
  Variable str : L -> L.

  (** A plan as the scores see it: its graph with the locality and population
      attributes of the nodes, its assignment and its cut edges. *)
  Record lplan := mkLplan {
    lp_graph : graph N; lp_loc : N -> option L; lp_pop : N -> option Z;
    lp_assign : assignment N P; lp_cuts : list (N * N) }.

  (** collections.Counter of a list *)
  Definition counter (l : list L) : dict L nat :=
    fold_left (fun c x => dset c x (S (dget_or 0 c x))) l [].
  (** locality_split_scores.py:138 *)
  Definition locality_dict (q : lplan) : dict N L :=
    map (fun n => (n, match lp_loc q n with Some l => l | None => none end)) (g_nodes (lp_graph q)).
  (** locality_split_scores.py:141-145 *)
  Definition locality_splits (ld : dict N L) (q : lplan) : res (dict P (dict L nat)) :=
    mapM (fun kd => ls <- mapM (fun v => of_option KeyError (dget ld v)) (snd kd) ;;
                    Ok (fst kd, counter ls)) (a_parts (lp_assign q)).
  (** locality_split_scores.py:147-150 *)
  Definition invert {X} (sp : dict P (dict L X)) : dict L (dict P X) :=
    fold_left (fun inv kv =>
      fold_left (fun inv lc => dset inv (fst lc) (dset (dget_or [] inv (fst lc)) (fst kv) (snd lc)))
                (snd kv) inv) sp [].
  (** locality_split_scores.py:154-174: the numbers are not used by any score,
      but computing them can fail. *)
  Definition allowed_pieces (locs : list L) (q : lplan) : res (dict L Z) :=
    pops <- mapM (fun n => of_option KeyError (lp_pop q n)) (g_nodes (lp_graph q)) ;;
    let totpop := fold_left Z.add pops 0%Z in
    mapM (fun l =>
      ls <- mapM (fun n => x <- of_option KeyError (lp_loc q n) ;; Ok (n, x)) (g_nodes (lp_graph q)) ;;
      ps <- mapM (fun nl => of_option KeyError (lp_pop q (fst nl))) (filter (fun nl => eqb (snd nl) l) ls) ;;
      share <- qdiv (inject_Z totpop) (inject_Z (Z.of_nat (length (a_parts (lp_assign q))))) ;;
      x <- qdiv (inject_Z (fold_left Z.add ps 0%Z)) share ;;
      Ok (l, Qceiling x)) locs.

  (** locality_split_scores.py:200-215 *)
  Definition num_parts (sp : dict P (dict L nat)) : nat :=
    fold_left (fun c kv => c + length (snd kv)) sp 0.

  (** locality_split_scores.py:217-251 *)
  Definition locality_intersections (q : lplan) : res (dict L (list P)) :=
    foldM (fun d n =>
      l <- of_option KeyError (lp_loc q n) ;;
      p <- of_option KeyError (dget (a_map (lp_assign q)) n) ;;
      Ok (dset d l (sadd p (dget_or [] d l)))) (g_nodes (lp_graph q)) [].
  Definition pieces_of (q : lplan) (l : L) (p : P) : res nat :=
    s <- of_option KeyError (dget (a_parts (lp_assign q)) p) ;;
    ls <- mapM (fun n => x <- of_option KeyError (lp_loc q n) ;; Ok (n, x)) s ;;
    cs <- connected_components (subgraph (lp_graph q) (map fst (filter (fun nl => eqb (snd nl) l) ls))) ;;
    Ok (length cs).
  Definition num_pieces (q : lplan) : res nat :=
    d <- locality_intersections q ;;
    foldM (fun k lps => foldM (fun k p => c <- pieces_of q (fst lps) p ;; Ok (k + c)) (snd lps) k) d 0.

  (** locality_split_scores.py:253-274 *)
  Definition naked_boundary (ld : dict N L) (q : lplan) : nat :=
    fold_left (fun c e => if eqb (dget ld (fst e)) (dget ld (snd e)) then S c else c) (lp_cuts q) 0.

  (** locality_split_scores.py:414-432 *)
  Definition num_split_localities (inv : dict L (dict P nat)) : nat :=
    fold_left (fun c v => if Nat.ltb 1 (length (snd v)) then S c else c) inv 0.

  (** [a / b] on integers *)
  Definition ratio (a b : nat) : res R := if Nat.eqb b 0 then Err ZeroDivisionError else Ok (INR a / INR b)%R.
  Definition zratio (a b : Z) : res R := if (b =? 0)%Z then Err ZeroDivisionError else Ok (IZR a / IZR b)%R.
  (** locality_split_scores.py:287-290 and 330-333 *)
  Definition total_vtds (sp : dict P (dict L nat)) : nat :=
    fold_left (fun t kv => fold_left Nat.add (dvals (snd kv)) t) sp 0.
  (** locality_split_scores.py:294-299 and 337-342 *)
  Definition locality_vtds (sp : dict P (dict L nat)) (l : L) : nat :=
    fold_left (fun t kv => match dget (snd kv) l with Some c => t + c | None => t end) sp 0.
  (** locality_split_scores.py:301-315 and 344-358: the sum over the districts
      of [term] of the share [p] of the locality; the membership test is made
      with the locality, the lookup with its str. *)
  Definition inner_sum (term : R -> R) (sp : dict P (dict L nat)) (l : L) (tot : nat) : res R :=
    foldM (fun s kv =>
      match dget (snd kv) l with
      | None => Ok s
      | Some _ =>
        c <- of_option KeyError (dget (snd kv) (str l)) ;;
        p <- ratio c tot ;;
        Ok (if Nat.eqb c 0 then s else s + term p)%R
      end) sp 0%R.
  (** locality_split_scores.py:276-317; math.log(1 / p) *)
  Definition shannon_entropy (locs : list L) (sp : dict P (dict L nat)) : res R :=
    foldM (fun e l =>
      let tot := locality_vtds sp l in
      q <- ratio tot (total_vtds sp) ;;
      i <- inner_sum (fun p => p * ln (1 / p))%R sp l tot ;;
      Ok (e + q * i)%R) locs 0%R.
  (** locality_split_scores.py:319-360; [1 / q] fails if [q] is zero *)
  Definition power_entropy (alpha : R) (locs : list L) (sp : dict P (dict L nat)) : res R :=
    foldM (fun e l =>
      let tot := locality_vtds sp l in
      q <- ratio tot (total_vtds sp) ;;
      i <- inner_sum (fun p => Rpower p (1 - alpha)) sp l tot ;;
      if Nat.eqb tot 0 then Err ZeroDivisionError else Ok (e + 1 / q * (i - 1))%R) locs 0%R.

  (** math.sqrt(a / b) on integers *)
  Definition sqrt_ratio (a b : Z) : res R :=
    q <- zratio a b ;;
    if (a * b <? 0)%Z then Err ValueError else Ok (sqrt q).
  (** locality_split_scores.py:377-385 *)
  Definition district_populations (ld : dict N L) (locs : list L) (q : lplan) : res (dict P (dict L Z)) :=
    mapM (fun kd =>
      d <- foldM (fun d v =>
        l <- of_option KeyError (dget ld v) ;;
        old <- of_option KeyError (dget d l) ;;
        x <- of_option KeyError (lp_pop q v) ;;
        Ok (dset d l (old + x)%Z)) (snd kd) (map (fun l => (l, 0%Z)) locs) ;;
      Ok (fst kd, d)) (a_parts (lp_assign q)).
  (** locality_split_scores.py:393-400 and 403-410 *)
  Definition sqrt_score {K X} (d : dict K (dict X Z)) (start : R) : res R :=
    foldM (fun s kv =>
      let total := fold_left Z.add (dvals (snd kv)) 0%Z in
      f <- foldM (fun f c => r <- sqrt_ratio c total ;; Ok (f + r)%R) (dvals (snd kv)) 0%R ;;
      Ok (s + IZR total * f)%R) d start.
  (** locality_split_scores.py:362-412 *)
  Definition symmetric_entropy (ld : dict N L) (locs : list L) (q : lplan) : res R :=
    d <- district_populations ld locs q ;;
    s <- sqrt_score d 0%R ;;
    sqrt_score (invert d) s.

  (** ** The updater object *)

  Inductive score_name :=
  | NumParts | NumPieces | NakedBoundary | ShannonEntropy | PowerEntropy | SymmetricEntropy
  | NumSplitLocalities | OtherScore (s : string).
  Inductive score := SNone | SInt (n : nat) | SReal (x : R).
  (** locality_split_scores.py:112-133.  The scores dictionary has one fixed
      set of keys. *)
  Record splits_obj := mkSplits {
    so_locs : option (list L); so_dict : dict N L; so_allowed : dict L Z; so_scores : list (score_name * score) }.
  Definition new_splits (names : list score_name) : splits_obj :=
    mkSplits None [] [] (map (fun s => (s, SNone)) names).
  (** locality_split_scores.py:176-196: one score *)
  Definition compute (alpha : R) (ld : dict N L) (locs : list L) (sp : dict P (dict L nat)) (q : lplan) (s : score_name)
    : res (option score) :=
    match s with
    | NumParts => Ok (Some (SInt (num_parts sp)))
    | NumPieces => k <- num_pieces q ;; Ok (Some (SInt k))
    | NakedBoundary => Ok (Some (SInt (naked_boundary ld q)))
    | ShannonEntropy => x <- shannon_entropy locs sp ;; Ok (Some (SReal x))
    | PowerEntropy => x <- power_entropy alpha locs sp ;; Ok (Some (SReal x))
    | SymmetricEntropy => x <- symmetric_entropy ld locs q ;; Ok (Some (SReal x))
    | NumSplitLocalities => Ok (Some (SInt (num_split_localities (invert sp))))
    | OtherScore _ => Ok None
    end.
  (** locality_split_scores.py:176-196: the loop writes into the dictionary of
      the object; an exception leaves the later entries as they were. *)
  Fixpoint fill (f : score_name -> res (option score)) (sc : list (score_name * score)) : res unit * list (score_name * score) :=
    match sc with
    | [] => (Ok tt, [])
    | (s, old) :: r =>
      match f s with
      | Ok v => let '(x, r') := fill f r in (x, (s, match v with Some y => y | None => old end) :: r')
      | Err e => (Err e, sc)
      | NoFuel => (NoFuel, sc)
      end
    end.
  (** locality_split_scores.py:135-198.  The returned dictionary is that of
      the object itself, so only success or failure is returned here. *)
  Definition call (alpha : R) (o : splits_obj) (q : lplan) : res unit * splits_obj :=
    let '(ld, locs) := match so_locs o with
                       | None => (locality_dict q, set_of (dvals (locality_dict q)))
                       | Some locs => (so_dict o, locs)
                       end in
    let o1 := mkSplits (Some locs) ld (so_allowed o) (so_scores o) in
    let prepared :=
      sp <- locality_splits ld q ;;
      al <- match so_allowed o with [] => allowed_pieces locs q | _ :: _ => Ok (so_allowed o) end ;;
      Ok (sp, al) in
    match prepared with
    | Ok (sp, al) =>
      let '(x, sc) := fill (compute alpha ld locs sp q) (so_scores o) in
      (x, mkSplits (Some locs) ld al sc)
    | Err e => (Err e, o1)
    | NoFuel => (NoFuel, o1)
    end.

  (** Reading the updater on plans ([partition[name]], partition.py:197-210):
      a plan that has been read holds the dictionary of the object.  [w_done]
      are the plans that have been read successfully, by number. *)
  Record reads_world := mkReads { w_obj : splits_obj; w_done : list nat }.
  Definition read_plan (alpha : R) (plans : nat -> lplan) (w : reads_world) (i : nat) : res unit * reads_world :=
    if mem i (w_done w) then (Ok tt, w)
    else match call alpha (w_obj w) (plans i) with
         | (Ok _, o) => (Ok tt, mkReads o (w_done w ++ [i]))
         | (r, o) => (r, mkReads o (w_done w))
         end.
  Definition read_all (alpha : R) (plans : nat -> lplan) (w : reads_world) (l : list nat) : reads_world :=
    fold_left (fun w i => snd (read_plan alpha plans w i)) l w.
  (** What the value of plan [i] shows now. *)
  Definition shown (w : reads_world) (i : nat) : option (list (score_name * score)) :=
    if mem i (w_done w) then Some (so_scores (w_obj w)) else None.

  (** ** county_splits.py *)

  (** county_splits.py:145-161; the cut edges are those of the updater.
      partition.assignment[node] (assignment.py) raises KeyError. *)
  Definition total_reg_splits (q : lplan) : res nat :=
    names <- mapM (fun n => of_option KeyError (lp_loc q n)) (g_nodes (lp_graph q)) ;;
    let split := map (fun l => (l, 0)) (set_of names) in
    split <- foldM (fun split e =>
      a <- of_option KeyError (dget (a_map (lp_assign q)) (fst e)) ;;
      b <- of_option KeyError (dget (a_map (lp_assign q)) (snd e)) ;;
      if eqb a b then Ok split
      else
        l <- of_option KeyError (lp_loc q (fst e)) ;;
        m <- of_option KeyError (lp_loc q (snd e)) ;;
        if eqb l m then
          x <- of_option KeyError (dget split l) ;;
          let split := dset split l (S x) in
          y <- of_option KeyError (dget split m) ;;
          Ok (dset split m (S y))
        else Ok split) (lp_cuts q) split ;;
    Ok (length (filter (fun lc => Nat.ltb 0 (snd lc)) split)).
  (** county_splits.py:120-142 *)
  Definition tally_region_splits (has_cut_edges : bool) (column : string -> N -> option L) (names : list string) (q : lplan)
    : res (dict string nat) :=
    if has_cut_edges then
      foldM (fun d a => k <- total_reg_splits (mkLplan (lp_graph q) (column a) (lp_pop q) (lp_assign q) (lp_cuts q)) ;;
                        Ok (dset d a k)) names []
    else Err ValueError.
End Locality.
Arguments mkLplan {N P L}. Arguments lp_graph {N P L}. Arguments lp_loc {N P L}. Arguments lp_pop {N P L}.
Arguments lp_assign {N P L}. Arguments lp_cuts {N P L}.
Arguments mkSplits {N L}. Arguments so_locs {N L}. Arguments so_dict {N L}. Arguments so_allowed {N L}. Arguments so_scores {N L}.
Arguments mkReads {N L}. Arguments w_obj {N L}. Arguments w_done {N L}.
Arguments lplan : clear implicits. Arguments splits_obj : clear implicits. Arguments reads_world : clear implicits.
