(** Model of implicit/nearest_neighbours.h (TopK), implicit/cpu/select.h and
    implicit/cpu/topk.pyx. *)
From Coq Require Import List Arith Lia Bool ZArith.
From Verif Require Import Base Num Heap Sparse.
Import ListNotations.

Section Model.
Context {T : Type} `{Num T}.

(** [operator<] on [std::pair<Value,Index>]: lexicographic. *)
Definition pair_ltb (p q : T * nat) : bool :=
  nltb (fst p) (fst q) || (negb (nltb (fst q) (fst p)) && (snd p <? snd q)).

(** nearest_neighbours.h:33, select.h:16: [std::greater<std::pair<T,int>> heap_order]. *)
Definition heap_order (p q : T * nat) : bool := pair_ltb q p.

(** nearest_neighbours.h:19-29 [TopK::operator()]; select.h:23-30 is the same text.
    Reading [results[0]] of an empty vector (K = 0) is [UB]. *)
Definition topk_add (H : std_heap) (K : nat) (results : list (T * nat)) (index : nat) (score : T)
  : res (list (T * nat)) :=
  do enter <- (if length results <? K then Ok true
               else match results with
                    | [] => Raise UB
                    | r0 :: _ => Ok (nltb (fst r0) score)
                    end);
  if enter : bool then
    let results :=
      if K <=? length results then removelast (pop_heap H heap_order results) else results in
    Ok (push_heap H heap_order (results ++ [(score, index)]))
  else Ok results.

(** Feeding a sequence of (index, score) pairs to the functor. *)
Definition topk_feed (H : std_heap) (K : nat) (l : list (nat * T)) (results : list (T * nat))
  : res (list (T * nat)) :=
  fold_res (fun r p => topk_add H K r (fst p) (snd p)) l results.

(** select.h:19-33: one row: scan the columns in order, then [std::sort_heap]. *)
Definition select_row (H : std_heap) (k : nat) (row : list T) : res (list (T * nat)) :=
  do r <- topk_feed H k (enum row) [];
  Ok (sort_heap H heap_order r).

(** select.h:35-38: the stores into [ids] and [distances] for one row; [base] is
    the address of the row's first cell ([row * k] plus the caller's offset).
    Only [results.size()] cells are written. *)
Definition row_writes {V} (base : nat) (vals : list V) : list (nat * V) :=
  map (fun p => (base + fst p, snd p)) (enum vals).

(** The stores performed by one run: one list per output array. *)
Record writes : Type := { w_ids : list (nat * nat); w_scores : list (nat * T) }.

Definition writes_app (a b : writes) : writes :=
  {| w_ids := w_ids a ++ w_ids b; w_scores := w_scores a ++ w_scores b |}.
Definition writes_nil : writes := {| w_ids := []; w_scores := [] |}.
Definition writes_concat (l : list writes) : writes := fold_right writes_app writes_nil l.

(** select.h:13-40; [base] is [startidx * k] of topk.pyx:67. *)
Definition select (H : std_heap) (batch : list (list T)) (k base : nat) : res writes :=
  do outs <- map_res (fun p =>
      do r <- select_row H k (snd p);
      Ok {| w_ids := row_writes (base + fst p * k) (map snd r);
            w_scores := row_writes (base + fst p * k) (map fst r) |}) (enum batch);
  Ok (writes_concat outs).

(** numpy integer indexing of an axis of length [n]: negative indices wrap. *)
Definition np_index (n : nat) (z : Z) : res nat :=
  if (0 <=? z)%Z && (z <? Z.of_nat n)%Z then Ok (Z.to_nat z)
  else if (- Z.of_nat n <=? z)%Z && (z <? 0)%Z then Ok (Z.to_nat (z + Z.of_nat n))
  else Raise IndexError.

(** [row[idxs] = v] (fancy assignment): all indices are validated. *)
Definition set_cols (idxs : list Z) (v : T) (row : list T) : res (list T) :=
  do is_ <- map_res (np_index (length row)) idxs;
  Ok (fold_left (fun r i => upd i v r) is_ row).

(** topk.pyx:47-49 [query.dot(items.T)] (ValueError if the numbers of factors
    differ), then [/ item_norms] with numpy broadcasting of a 1-d array against
    the columns.  BLAS is modelled as the inner product accumulated in index
    order. *)
Definition score_row (items : list (list T)) (norms : option (list T)) (q : list T) : res (list T) :=
  let d := map (fun y => ndot q y) items in
  if negb (forallb (fun y => length y =? length q) items) then Raise ValueError else
  match norms with
  | None => Ok d
  | Some ns =>
      if length ns =? length d then Ok (map (fun p => ndiv (fst p) (snd p)) (combine d ns))
      else match ns with
           | [n] => Ok (map (fun x => ndiv x n) d)
           | _ => Raise ValueError
           end
  end.

(** topk.pyx:45-67 [_topk_batch].  [fmin] is [-np.finfo(dtype).max].  Taking the
    address of element [0,0] of an empty output or score array is an IndexError
    (Cython bounds check, lines 58-62). *)
Definition topk_batch (H : std_heap) (fmin : T) (items query : list (list T)) (k startidx endidx : nat)
    (norms : option (list T)) (fq : option (csr T)) (fi : option (list Z)) : res writes :=
  do batch <- map_res (score_row items norms) (slice startidx endidx query);
  do batch <- (match fq with
               | None => Ok batch
               | Some m => map_res (fun p =>
                   let idx := startidx + fst p in
                   if idx <? c_rows m
                   then set_cols (map Z.of_nat (csr_row_indices m idx)) fmin (snd p)
                   else Raise IndexError) (enum batch)
               end);
  do batch <- (match fi with
               | None => Ok batch
               | Some l => map_res (set_cols l fmin) batch
               end);
  if (k =? 0) || (length items =? 0) then Raise IndexError
  else select H batch k (startidx * k).

(** topk.pyx:24-39: number and bounds of the batches. *)
Definition batch_bounds (bs rows : nat) : list (nat * nat) :=
  map (fun b => (b * bs, Nat.min (b * bs + bs) rows))
      (seq 0 (rows / bs + (if rows mod bs =? 0 then 0 else 1))).

Definition topk_batch_size : nat := 100.

(** All stores made by the batches, batch by batch (topk.pyx:31-41).  The
    single-batch shortcut of line 31 performs the same stores. *)
Definition topk_all_writes (H : std_heap) (fmin : T) (items query : list (list T)) (k : nat)
    (norms : option (list T)) (fq : option (csr T)) (fi : option (list Z)) : res (list writes) :=
  map_res (fun se => topk_batch H fmin items query k (fst se) (snd se) norms fq fi)
          (batch_bounds topk_batch_size (length query)).

(** [arr.reshape(rows, k)] of a flat array. *)
Definition reshape {V} (rows k : nat) (mem : list V) : list (list V) :=
  map (fun r => slice (r * k) (r * k + k) mem) (seq 0 rows).

(** The output arrays after executing some sequence of stores on the zeroed
    arrays of topk.pyx:20-21. *)
Definition topk_output (rows k : nat) (ids : list (nat * nat)) (scores : list (nat * T))
  : list (list nat) * list (list T) :=
  (reshape rows k (apply_writes ids (repeat 0 (rows * k))),
   reshape rows k (apply_writes scores (repeat nzero (rows * k)))).

(** topk.pyx:15-43 with the batches executed one after the other.  A negative
    [k] is rejected by np.zeros (line 20). *)
Definition topk (H : std_heap) (fmin : T) (items query : list (list T)) (k : Z)
    (norms : option (list T)) (fq : option (csr T)) (fi : option (list Z))
  : res (list (list nat) * list (list T)) :=
  if (k <? 0)%Z then Raise ValueError
  else
    do ws <- topk_all_writes H fmin items query (Z.to_nat k) norms fq fi;
    let w := writes_concat ws in
    Ok (topk_output (length query) (Z.to_nat k) (w_ids w) (w_scores w)).

End Model.
