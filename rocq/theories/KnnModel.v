(** Model of implicit/nearest_neighbours.h (SparseMatrixMultiplier),
    implicit/_nearest_neighbours.pyx, the ItemItemRecommender class of
    implicit/nearest_neighbours.py and _batch_call of implicit/utils.py. *)
From Coq Require Import List Arith Lia Bool ZArith.
From Verif Require Import Base Num Heap Sparse TopkModel RecommendModel.
Import ListNotations.

Section Model.
Context {T : Type} `{Num T}.

(** nearest_neighbours.h:75-79: [sums], [nonzeros] (the linked list), [head], [length].
    Index overflow is not modelled here (see C67). *)
Record acc : Type := { a_sums : list T; a_next : list Z; a_head : Z; a_len : nat }.

(** nearest_neighbours.h:43-44: the constructor. *)
Definition acc_new (n : nat) : acc :=
  {| a_sums := repeat nzero n; a_next := repeat (-1)%Z n; a_head := (-2)%Z; a_len := 0 |}.

(** nearest_neighbours.h:47-55 [add]; an index outside the vectors is UB. *)
Definition acc_add (a : acc) (index : nat) (value : T) : res acc :=
  if index <? length (a_sums a) then
    let sums := upd index (nadd (nth index (a_sums a) nzero) value) (a_sums a) in
    if (nth index (a_next a) 0 =? -1)%Z then
      Ok {| a_sums := sums; a_next := upd index (a_head a) (a_next a);
            a_head := Z.of_nat index; a_len := S (a_len a) |}
    else
      Ok {| a_sums := sums; a_next := a_next a; a_head := a_head a; a_len := a_len a |}
  else Raise UB.

(** [neighbours.sums[i] = 0] (_nearest_neighbours.pyx:87). *)
Definition acc_zero (a : acc) (index : nat) : res acc :=
  if index <? length (a_sums a) then
    Ok {| a_sums := upd index nzero (a_sums a); a_next := a_next a; a_head := a_head a; a_len := a_len a |}
  else Raise UB.

(** One iteration of the loop of [foreach] (nearest_neighbours.h:59-67): the pair
    passed to the function and the new state; following an invalid link is UB. *)
Definition acc_pop (a : acc) : res ((nat * T) * acc) :=
  if (0 <=? a_head a)%Z && (a_head a <? Z.of_nat (length (a_sums a)))%Z then
    let index := Z.to_nat (a_head a) in
    Ok ((index, nth index (a_sums a) nzero),
        {| a_sums := upd index nzero (a_sums a); a_next := upd index (-1)%Z (a_next a);
           a_head := nth index (a_next a) 0%Z; a_len := a_len a |})
  else Raise UB.

Fixpoint acc_pops (k : nat) (a : acc) : res (list (nat * T) * acc) :=
  match k with
  | O => Ok ([], a)
  | S k =>
      do ' (p, a) <- acc_pop a;
      do ' (ps, a) <- acc_pops k a;
      Ok (p :: ps, a)
  end.

(** nearest_neighbours.h:58-71 [foreach]: the sequence of calls made to the
    function argument, and the state left behind. *)
Definition acc_foreach (a : acc) : res (list (nat * T) * acc) :=
  do ' (ps, a) <- acc_pops (a_len a) a;
  Ok (ps, {| a_sums := a_sums a; a_next := a_next a; a_head := (-2)%Z; a_len := 0 |}).

Definition acc_adds (xs : list (nat * T)) (a : acc) : res acc :=
  fold_res (fun a p => acc_add a (fst p) (snd p)) xs a.
Definition acc_zeros (is_ : list nat) (a : acc) : res acc :=
  fold_res (fun a i => acc_zero a i) is_ a.

(* ---------------------------------------------------------------- *)
(** _nearest_neighbours.pyx:75-81: the additions made for a user row: for every
    liked item [i] with weight [w], its similarity row times [w].  A liked item
    outside the similarity matrix reads past [indptr] (boundscheck is off): UB. *)
Definition scorer_adds (sim : csr T) (row : list (nat * T)) : res (list (nat * T)) :=
  do parts <- map_res (fun p =>
      if fst p <? c_rows sim
      then Ok (map (fun q => (fst q, nmul (snd q) (snd p))) (csr_row sim (fst p)))
      else Raise UB) row;
  Ok (concat parts).

(** A C [int] converted to [size_t]: negative values become larger than any
    number of results, i.e. no limit ([n] results at most exist). *)
Definition size_t_limit (K : Z) (n : nat) : nat := if (K <? 0)%Z then S n else Z.to_nat K.

(** _nearest_neighbours.pyx:60-102 [NearestNeighboursScorer.recommend] on the row
    of the query; returns (ids, scores) and the accumulator left behind. *)
Definition scorer_recommend (HP : std_heap) (sim : csr T) (a : acc) (row : list (nat * T))
    (K : Z) (remove_own_likes : bool) : res (list (T * nat) * acc) :=
  do xs <- scorer_adds sim row;
  do a <- acc_adds xs a;
  do a <- (if remove_own_likes then acc_zeros (map fst row) a else Ok a);
  do ' (ps, a) <- acc_foreach a;
  do r <- topk_feed HP (size_t_limit K (length ps)) ps [];
  Ok (sort_heap HP heap_order r, a).

(* ---------------------------------------------------------------- *)
(** [users.T.tocsr()] (_nearest_neighbours.pyx:116): row [i] lists the users of
    item [i] in increasing order (entries of one user in storage order). *)
Definition transpose_row (m : csr T) (i : nat) : list (nat * T) :=
  flat_map (fun u => map (fun p => (u, snd p)) (filter (fun p => fst p =? i) (csr_row m u)))
           (seq 0 (c_rows m)).
Definition csr_transpose (m : csr T) : csr T :=
  csr_of_rows (c_rows m) (map (transpose_row m) (seq 0 (c_cols m))).

(** Lines 145-150: the additions made for item [i]. *)
Definition knn_adds (users items : csr T) (i : nat) : list (nat * T) :=
  flat_map (fun p => map (fun q => (fst q, nmul (snd q) (snd p))) (csr_row users (fst p)))
           (csr_row items i).

(** Stores into the three output arrays. *)
Record knn_writes : Type :=
  { k_rows : list (nat * nat); k_cols : list (nat * nat); k_vals : list (nat * T) }.
Definition kw_nil : knn_writes := {| k_rows := []; k_cols := []; k_vals := [] |}.
Definition kw_app (a b : knn_writes) : knn_writes :=
  {| k_rows := k_rows a ++ k_rows b; k_cols := k_cols a ++ k_cols b; k_vals := k_vals a ++ k_vals b |}.
Definition kw_concat (l : list knn_writes) : knn_writes := fold_right kw_app kw_nil l.

(** Lines 145-161: one iteration of the parallel loop, with the accumulator of
    the executing thread ([topk.results] is cleared first). *)
Definition knn_item (HP : std_heap) (users items : csr T) (K : nat) (a : acc) (i : nat)
  : res (knn_writes * acc) :=
  do a <- acc_adds (knn_adds users items i) a;
  do ' (ps, a) <- acc_foreach a;
  do r <- topk_feed HP K ps [];
  Ok ({| k_rows := row_writes (K * i) (map (fun _ => i) r);
         k_cols := row_writes (K * i) (map snd r);
         k_vals := row_writes (K * i) (map fst r) |}, a).

(** One thread: allocates its accumulator (lines 139-141) and processes the items
    handed to it by the dynamic schedule, in order. *)
Fixpoint knn_items (HP : std_heap) (users items : csr T) (K : nat) (is_ : list nat) (a : acc)
  : res (list knn_writes) :=
  match is_ with
  | [] => Ok []
  | i :: is_ =>
      do ' (w, a) <- knn_item HP users items K a i;
      do ws <- knn_items HP users items K is_ a;
      Ok (w :: ws)
  end.
Definition knn_thread (HP : std_heap) (users items : csr T) (K : nat) (is_ : list nat)
  : res (list knn_writes) :=
  knn_items HP users items K is_ (acc_new (c_rows items)).

(** The three arrays after executing some sequence of stores (lines 133-135). *)
Definition knn_arrays (n K : nat) (rows cols : list (nat * nat)) (vals : list (nat * T))
  : list nat * list nat * list T :=
  (apply_writes rows (repeat 0 (n * K)), apply_writes cols (repeat 0 (n * K)),
   apply_writes vals (repeat nzero (n * K))).

(** [coo_matrix((values, (rows, cols))).tocsr()]: row [r] holds the columns that
    occur with row [r], increasing, each with the sum of its values (explicit
    zeros are kept).  The order of summation of duplicates is storage order. *)
Definition coo_row (cols : nat) (entries : list (nat * nat * T)) (r : nat) : list (nat * T) :=
  flat_map (fun c =>
      let vs := map snd (filter (fun e => (fst (fst e) =? r) && (snd (fst e) =? c)) entries) in
      match vs with
      | [] => []
      | v :: vs => [(c, fold_left nadd vs v)]
      end) (seq 0 cols).
Definition coo_to_csr (rows cols : nat) (entries : list (nat * nat * T)) : csr T :=
  csr_of_rows cols (map (coo_row cols entries) (seq 0 rows)).

(** _nearest_neighbours.pyx:111-170 followed by [.tocsr()] (nearest_neighbours.py:35-40),
    executed by one thread in increasing order of items. *)
Definition knn_similarity_of (n : nat) (arrays : list nat * list nat * list T) : csr T :=
  let '(rows, cols, vals) := arrays in coo_to_csr n n (combine (combine rows cols) vals).
Definition all_pairs_knn (HP : std_heap) (users : csr T) (K : nat) : res (csr T) :=
  let items := csr_transpose users in
  let n := c_rows items in
  do ws <- knn_thread HP users items K (seq 0 n);
  let w := kw_concat ws in
  Ok (knn_similarity_of n (knn_arrays n K (k_rows w) (k_cols w) (k_vals w))).

(* ---------------------------------------------------------------- *)
(** [l[:N]] with a possibly negative [N]. *)
Definition py_take {A} (N : Z) (l : list A) : list A :=
  if (N <? 0)%Z then firstn (length l - Z.to_nat (- N)) l else firstn (Z.to_nat N) l.

(** [ids[np.in1d(ids, S, invert=inv)]] applied to both arrays. *)
Definition mask_in (S : list Z) (invert : bool) (r : list Z * list T) : list Z * list T :=
  let l := filter (fun p => xorb invert (memz (fst p) S)) (combine (fst r) (snd r)) in
  (map fst l, map snd l).

(** Appending the selected items that were not found (nearest_neighbours.py:100-103). *)
Definition append_missing (fmin : T) (items : list Z) (r : list Z * list T) : list Z * list T :=
  let missing := filter (fun z => negb (memz z (fst r))) items in
  (fst r ++ missing, snd r ++ map (fun _ => fmin) missing).

(** nearest_neighbours.py:43-105 [recommend] for a scalar userid.  [sim] and [a]
    are the fitted similarity and the scorer's accumulator.  A CSR matrix with no
    rows makes the scorer read past [indptr]: UB.  The two conversions of dtype
    are not modelled. *)
Definition ii_recommend1 (HP : std_heap) (fmin : T) (sim : csr T) (a : acc)
    (user_items : sparse_arg T) (N : Z) (filter_already_liked_items : bool)
    (filter_items items : option arr) : res ((list Z * list T) * acc) :=
  match user_items with
  | NotCsr => Raise ValueError
  | Csr M =>
    do N' <- (match filter_items, items with
              | Some _, Some _ => Raise ValueError
              | Some f, None => Ok (N + Z.of_nat (length (arr_list f)))%Z
              | None, Some s =>
                  do bad <- out_of_model (c_rows sim) (arr_list s);
                  if bad : bool then Raise IndexError else Ok (Z.of_nat (c_rows sim))
              | None, None => Ok N
              end);
    if c_rows M =? 0 then Raise UB else
    do ' (r, a) <- scorer_recommend HP sim a (csr_row M 0) N' filter_already_liked_items;
    let r := (map (fun p => Z.of_nat (snd p)) r, map fst r) in
    match filter_items, items with
    | Some f, _ =>
        let m := mask_in (arr_list f) true r in
        Ok ((py_take N' (fst m), py_take N' (snd m)), a)
    | None, Some s => Ok (append_missing fmin (arr_list s) (mask_in (arr_list s) false r), a)
    | None, None => Ok (r, a)
    end
  end.

(** utils.py:106-136 [_batch_call]: [f g id] is the scalar call for the [g]-th id
    (it receives row [g] of user_items); the results are cut and padded to N.
    [fmin32] is [-np.finfo(np.float32).max].  A negative N is rejected by np.zeros. *)
Definition batch_call (fmin32 : T) (f : nat -> Z -> res (list Z * list T)) (ids : list Z) (N : Z)
  : res (list (list Z) * list (list T)) :=
  if (N <? 0)%Z then Raise ValueError else
  let n := Z.to_nat N in
  do rows <- map_res (fun p =>
      do ' (bi, bs) <- f (fst p) (snd p);
      Ok (firstn n (bi ++ repeat (-1)%Z (n - length bi)),
          firstn n (bs ++ repeat fmin32 (n - length bi)))) (enum ids);
  Ok (map fst rows, map snd rows).

(** nearest_neighbours.py:43-69 with an array of userids.  The accumulator is
    threaded through the calls. *)
Fixpoint ii_batch_rows (HP : std_heap) (fmin fmin32 : T) (sim : csr T) (a : acc) (M : csr T) (N : Z)
    (fl : bool) (filter_items items : option arr) (gs : list nat)
  : res (list (list Z * list T) * acc) :=
  match gs with
  | [] => Ok ([], a)
  | g :: gs =>
      do ' (r, a) <- ii_recommend1 HP fmin sim a (Csr (csr_take_row M g)) N fl filter_items items;
      let n := Z.to_nat N in
      let row := (firstn n (fst r ++ repeat (-1)%Z (n - length (fst r))),
                  firstn n (snd r ++ repeat fmin32 (n - length (fst r)))) in
      do ' (rs, a) <- ii_batch_rows HP fmin fmin32 sim a M N fl filter_items items gs;
      Ok (row :: rs, a)
  end.

Definition ii_recommend (HP : std_heap) (fmin fmin32 : T) (sim : csr T) (a : acc)
    (userid : idarg) (user_items : sparse_arg T) (N : Z) (fl : bool)
    (filter_items items : option arr) : res (out T * acc) :=
  match user_items with
  | NotCsr => Raise ValueError
  | Csr M =>
    match userid with
    | Scalar _ =>
        do ' (r, a) <- ii_recommend1 HP fmin sim a user_items N fl filter_items items;
        Ok (OneRow (fst r) (snd r), a)
    | Batch us =>
        if negb (c_rows M =? length us) then Raise ValueError else
        if (N <? 0)%Z then Raise ValueError else
        do ' (rs, a) <- ii_batch_rows HP fmin fmin32 sim a M N fl filter_items items (seq 0 (length us));
        Ok (ManyRows (map fst rs) (map snd rs), a)
    end
  end.

(** nearest_neighbours.py:110-145 [similar_items] for a scalar itemid.  [argsort]
    is [np.argsort] (unstable: any sorting permutation).  A Python list as
    [items] cannot be indexed by a mask: TypeError. *)
Definition ii_similar1 (fmin : T) (argsort : list T -> list nat) (sim : csr T)
    (itemid N : Z) (recalculate_item : bool) (filter_items items : option arr)
  : res (list Z * list T) :=
  if recalculate_item then Raise NotImplementedError else
  match filter_items, items with
  | Some _, Some _ => Raise ValueError
  | _, _ =>
    if (Z.of_nat (c_rows sim) <=? itemid)%Z then Ok ([], []) else
    do i <- np_index (c_rows sim) itemid;
    let r := (map (fun p => Z.of_nat (fst p)) (csr_row sim i), map snd (csr_row sim i)) in
    do r <- (match filter_items, items with
             | Some f, _ => Ok (mask_in (arr_list f) true r)
             | None, Some (PyList _) => Raise TypeError
             | None, Some (NdArray s) => Ok (append_missing fmin s (mask_in s false r))
             | None, None => Ok r
             end);
    let best := py_take N (rev (argsort (snd r))) in
    Ok (map (fun p => nth p (fst r) 0%Z) best, map (fun p => nth p (snd r) nzero) best)
  end.

(** nearest_neighbours.py:110-120: scalar and batched calls. *)
Definition ii_similar (fmin fmin32 : T) (argsort : list T -> list nat) (sim : csr T)
    (itemid : idarg) (N : Z) (recalculate_item : bool) (filter_items items : option arr) : res (out T) :=
  if recalculate_item then Raise NotImplementedError else
  match itemid with
  | Scalar i =>
      do ' (ids, scores) <- ii_similar1 fmin argsort sim i N false filter_items items;
      Ok (OneRow ids scores)
  | Batch is_ =>
      do ' (ids, scores) <- batch_call fmin32 (fun _ i => ii_similar1 fmin argsort sim i N false filter_items items) is_ N;
      Ok (ManyRows ids scores)
  end.

End Model.
Arguments acc : clear implicits.
Arguments knn_writes : clear implicits.
