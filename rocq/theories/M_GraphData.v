(** Node data: gerrychain/graph/graph.py:287-388 (lookup, add_data, join).

    A graph's node data is the dictionary of its nodes' attribute dictionaries;
    the edges take no part.  Node ids, row labels and values are objects of one
    type [X] with equality; column names have their own type [F].  A DataFrame
    is its index and its columns in order; column names are distinct and a
    column is requested once.  The NA warnings are in M_Crs.v; the attribute
    [self.data] is not modelled.  An exception leaves the graph as it
    was: all of them are raised before networkx writes. *)
From Coq Require Import List Bool Arith.
From Verif Require Import Base.
Import ListNotations.
Local Open Scope list_scope.

Section Data.
  Context {F X : Type} {EF : EqB F} {EX : EqB X}.

  Record frame := mkFrame { f_index : list X; f_columns : dict F (list X) }.
  Definition store := dict X (dict F X).

  (** graph.py:287-299 lookup *)
  Definition lookup (s : store) (n : X) (f : F) : res X :=
    d <- of_option KeyError (dget s n) ;; of_option KeyError (dget d f).
  (** dict.update *)
  Definition update {K V} {EK : EqB K} (d e : dict K V) : dict K V := fold_left (fun d kv => dset d (fst kv) (snd kv)) e d.
  (** networkx.set_node_attributes(G, values): unknown nodes are skipped. *)
  Definition set_node_attributes (s : store) (values : dict X (dict F X)) : store :=
    fold_left (fun s nd => match dget s (fst nd) with Some d => dset s (fst nd) (update d (snd nd)) | None => s end) values s.
  (** networkx.get_node_attributes(G, name) *)
  Definition get_node_attributes (s : store) (f : F) : dict X X :=
    flat_map (fun nd => match dget (snd nd) f with Some x => [(fst nd, x)] | None => [] end) s.
  (** DataFrame.set_index(column): KeyError if there is no such column. *)
  Definition set_index (c : F) (df : frame) : res frame :=
    xs <- of_option KeyError (dget (f_columns df) c) ;;
    Ok (mkFrame xs (filter (fun kv => negb (eqb (fst kv) c)) (f_columns df))).
  (** df[columns]: KeyError if one is missing. *)
  Definition select (cs : list F) (df : frame) : res frame :=
    kvs <- mapM (fun c => xs <- of_option KeyError (dget (f_columns df) c) ;; Ok (c, xs)) cs ;;
    Ok (mkFrame (f_index df) kvs).
  (** df.to_dict(): column -> row label -> value; of equal labels the last one
      counts. *)
  Definition column_dict (labels xs : list X) : dict X X := update [] (combine labels xs).
  Definition to_dict (df : frame) : dict F (dict X X) :=
    map (fun kv => (fst kv, column_dict (f_index df) (snd kv))) (f_columns df).
  (** df.to_dict("index"): row label -> column -> value; ValueError if two
      labels are equal. *)
  Fixpoint distinctb (l : list X) : bool :=
    match l with [] => true | x :: r => negb (mem x r) && distinctb r end.
  Definition row (df : frame) (i : nat) : dict F X :=
    flat_map (fun kv => match nth_error (snd kv) i with Some x => [(fst kv, x)] | None => [] end) (f_columns df).
  Definition to_dict_index (df : frame) : res (dict X (dict F X)) :=
    if distinctb (f_index df) then Ok (combine (f_index df) (map (row df) (seq 0 (length (f_index df)))))
    else Err ValueError.

  (** graph.py:309-335 add_data *)
  Definition add_data (s : store) (df : frame) (columns : option (list F)) : res store :=
    _ <- select (match columns with Some cs => cs | None => dkeys (f_columns df) end) df ;;
    rows <- to_dict_index df ;;
    Ok (set_node_attributes s rows).
  (** graph.py:337-388 join *)
  Definition join (s : store) (df : frame) (columns : option (list F)) (left right : option F) : res store :=
    df1 <- match right with Some r => set_index r df | None => Ok df end ;;
    df2 <- match columns with Some cs => select cs df1 | None => Ok df1 end ;;
    let cds := to_dict df2 in
    let ids := match left with Some l => get_node_attributes s l | None => map (fun n => (n, n)) (dkeys s) end in
    attrs <- mapM (fun nk => vals <- mapM (fun cv => x <- of_option KeyError (dget (snd cv) (snd nk)) ;; Ok (fst cv, x)) cds ;;
                             Ok (fst nk, vals)) ids ;;
    Ok (set_node_attributes s attrs).
End Data.
