(** Model of implicit/gpu/knn.cu and of the queries of implicit/gpu/matrix_factorization_base.py. *)
From Coq Require Import List Arith Lia Bool ZArith.
From Verif Require Import Base Num Sparse TopkModel RecommendModel.
Import ListNotations.

(* ------------------------------------------------------------ memory *)
(** Arithmetic of size_t. *)
Definition size_t (z : Z) : Z := (z mod 2 ^ 64)%Z.
(** A 32-bit int result; signed overflow is undefined. *)
Definition int32 (z : Z) : res Z := if ((- 2 ^ 31 <=? z) && (z <? 2 ^ 31))%Z then Ok z else Raise UB.
(** Sizes in the rmm pool are rounded up to 256 bytes. *)
Definition align (bytes : Z) : Z := ((bytes + 255) / 256 * 256)%Z.
Definition four_gib : Z := 4294967296.

(** implicit/gpu/knn.cu 55-74 KnnQuery: size of the pool for the argument [temp_memory] when [free] bytes of
    GPU memory are free. *)
Definition pool_size (free temp_memory : Z) : Z :=
  let t := if (temp_memory =? 0)%Z then Z.min (free / 2) four_gib else temp_memory in
  let padding := (t mod 256)%Z in
  if (padding =? 0)%Z then t else size_t (t + (256 - padding)).

(** knn.cu 137-172: the number of query rows handled at once.  The output arrays passed by KnnQuery.topk
    (_cuda.pyx 74-81) are host memory, so both device copies are allocated. *)
Definition batch_rows (pool rows k items : Z) : res Z :=
  let available := Z.min pool four_gib in
  let distances_size := size_t (rows * k * 4) in
  let available := size_t (available - distances_size) in
  let indices_size := size_t (rows * k * 4) in
  let available := size_t (available - indices_size) in
  let available := size_t (available - size_t (rows * k * 8 * 3)) in
  if (items =? 0)%Z then Raise UB      (* division by zero *)
  else Ok (Z.max (Z.min (available / (4 * items)) rows) 1).
(** Lines 148-149, 159-160, 174: the three allocations in the otherwise empty pool; a std::bad_alloc is
    given here as RuntimeError.  The blocks follow each other in the pool.  [temp_mem] holds [itemsize] bytes
    per cell but is written as float (lines 111-113 and 123-126 write CUDA_R_32F).  Writing past the block into unused
    space of the pool is given as success, writing past the end of the pool as [UB]. *)
Definition plan (pool itemsize rows k items : Z) : res Z :=
  do batch <- batch_rows pool rows k items;
  let out := align (size_t (rows * k * 4)) in
  if (pool <? out)%Z then Raise RuntimeError else
  if (pool <? out + out)%Z then Raise RuntimeError else
  if (pool <? out + out + align (size_t (itemsize * batch * items)))%Z then Raise RuntimeError else
  if (pool <? out + out + 4 * (batch * items))%Z then Raise UB else
  Ok batch.

Section Model.
Context {T : Type} {NT : Num T}.

(** implicit/gpu/matrix.h 23-95 Matrix: rows of equal length; [g_size] is itemsize (4 or 2).  Values of 16-bit
    matrices are not rounded. *)
Record gmatrix : Type := { g_size : Z; g_cols : nat; g_rows : list (list T) }.

(* ------------------------------------------------------------ one batch *)
(** knn.cu 184 and 188-203: scores of the rows of the batch, one after the other.  Cublas is modelled as the
    inner product accumulated in index order. *)
Definition gemm_row (items : list (list T)) (norms : option (list T)) (q : list T) : list T :=
  let d := map (fun y => ndot q y) items in
  match norms with
  | None => d
  | Some ns => map (fun p => ndiv (fst p) (snd p)) (combine d ns)
  end.
(** [data[i] = v] where the buffer has [cap] cells, of which [mem] are in use. *)
Definition poke (cap : Z) (v : T) (mem : list T) (i : Z) : res (list T) :=
  do i <- int32 i;
  if ((i <? 0) || (cap <=? i))%Z then Raise UB else Ok (upd (Z.to_nat i) v mem).
(** Lines 205-220: item_filter, one cell per filtered id and row, without a range check.  All threads write the
    same value, so their order does not matter. *)
Definition item_filter_cells (ncols rows : nat) (ids : list Z) : list Z :=
  map (fun i => (Z.of_nat (i / length ids) * Z.of_nat ncols + nth (i mod length ids) ids 0)%Z) (seq 0 (length ids * rows)).
(** Lines 222-236: query_filter as (row, column) pairs; rows outside the batch are skipped. *)
Definition query_filter_cells (ncols start stop : nat) (coo : list (nat * nat)) : list Z :=
  map (fun p => ((Z.of_nat (fst p) - Z.of_nat start) * Z.of_nat ncols + Z.of_nat (snd p))%Z)
      (filter (fun p => (start <=? fst p) && (fst p <? stop)) coo).
Definition batch_scores (fdist : T) (cap : Z) (items : list (list T)) (batch : list (list T)) (norms : option (list T))
    (item_filter : option (list Z)) (query_filter : option (list (nat * nat))) (start : nat) : res (list T) :=
  let mem := concat (map (gemm_row items norms) batch) in
  do mem <- (match item_filter with
             | None => Ok mem
             | Some ids => fold_res (poke cap fdist) (item_filter_cells (length items) (length batch) ids) mem
             end);
  match query_filter with
  | None => Ok mem
  | Some coo => fold_res (poke cap fdist) (query_filter_cells (length items) start (start + length batch) coo) mem
  end.

(** raft::matrix::select_k (lines 243-249, select_min=false, sorted=true): [sel row k] is an arbitrary function;
    for what it has to return see [select_k_ok]. *)
Definition select_k : Type := list T -> nat -> list (nat * T).
(** Lines 238-249: row [r] of the batch is written at [start * k + r * current_k], since the output views have
    [current_k] columns. *)
Definition cells : Type := list (option (nat * T)).
Definition store_row (base : nat) (best : list (nat * T)) (out : cells) : cells :=
  fold_left (fun o p => upd (base + fst p) (Some (snd p)) o) (enum best) out.
Definition store_batch (sel : select_k) (ncols k : nat) (start : nat) (mem : list T) (rows : nat) (out : cells) : res cells :=
  let current_k := Nat.min k ncols in
  do off <- int32 (Z.of_nat start * Z.of_nat k);
  Ok (fold_left (fun o r => store_row (Z.to_nat off + r * current_k) (sel (slice (r * ncols) (r * ncols + ncols) mem) current_k) o)
                (seq 0 rows) out).

(** knn.cu 130-264 topk_impl: the loop of lines 177-251.  Cells never written hold [None]. *)
Definition batch_starts (rows bs : nat) : list nat := map (fun b => b * bs) (seq 0 ((rows + bs - 1) / bs)).
Definition topk_impl (sel : select_k) (fdist : T) (pool itemsize : Z) (items query : list (list T)) (k : nat)
    (norms : option (list T)) (query_filter : option (list (nat * nat))) (item_filter : option (list Z)) : res cells :=
  let rows := length query in
  do batch <- plan pool itemsize (Z.of_nat rows) (Z.of_nat k) (Z.of_nat (length items));
  let bs := Z.to_nat batch in
  fold_res (fun out start =>
      let stop := Nat.min rows (start + bs) in
      do mem <- batch_scores fdist (batch * Z.of_nat (length items)) items (slice start stop query) norms item_filter query_filter start;
      store_batch sel (length items) k start mem (stop - start) out)
    (batch_starts rows bs) (repeat None (rows * k)).

(** knn.cu 76-97 KnnQuery::topk and _cuda.pyx 55-83 KnnQuery.topk.  [junk]: what never written cells hold.
    A negative k is a ValueError of np.zeros; k = 0 has no first cell to point to and is given as UB. *)
Definition knn_topk (sel : select_k) (fdist : T) (junk : nat -> Z * T) (pool : Z) (items query : gmatrix) (k : Z)
    (norms : option (list T)) (query_filter : option (list (nat * nat))) (item_filter : option (list Z))
  : res (list (list Z) * list (list T)) :=
  if (k <? 0)%Z then Raise ValueError else
  if (k =? 0)%Z then Raise UB else
  if negb (g_cols query =? g_cols items) then Raise ValueError else
  if negb (g_size query =? g_size items)%Z then Raise ValueError else
  let k := Z.to_nat k in
  do out <- topk_impl sel fdist pool (g_size items) (g_rows items) (g_rows query) k norms query_filter item_filter;
  let flat := map (fun p => match snd p with Some (i, x) => (Z.of_nat i, x) | None => junk (fst p) end) (enum out) in
  let rows := map (fun r => slice (r * k) (r * k + k) flat) (seq 0 (length (g_rows query))) in
  Ok (map (map fst) rows, map (map snd) rows).

(* ------------------------------------------------------------ python layer *)
(** ndarray.astype("int32") of an integer. *)
Definition wrap32 (z : Z) : Z := ((z + 2 ^ 31) mod 2 ^ 32 - 2 ^ 31)%Z.
(** _cuda.pyx 126-160 Matrix.__getitem__: a Python int (matrix.cu 34-40: std::invalid_argument, ValueError) or an
    array of ids. IntVector (_cuda.pyx 211-218) takes the address of the first element: IndexError when empty. *)
Definition gpu_getitem (m : gmatrix) (idx : idarg) : res gmatrix :=
  let n := Z.of_nat (length (g_rows m)) in
  let pick zs := {| g_size := g_size m; g_cols := g_cols m; g_rows := map (fun z => nth (Z.to_nat z) (g_rows m) []) zs |} in
  match idx with
  | Scalar z => if ((0 <=? z) && (z <? n))%Z then Ok (pick [z]) else Raise ValueError
  | Batch zs =>
      let zs := map wrap32 zs in
      if existsb (fun z => (z <? 0) || (n <=? z))%Z zs then Raise IndexError
      else match zs with [] => Raise IndexError | _ => Ok (pick zs) end
  end.
(** IntVector of np.array(ids, dtype="int32"); ids outside int32 are not modelled. *)
Definition int_vector (a : option arr) : res (option (list Z)) :=
  match a with
  | None => Ok None
  | Some a => match arr_list a with [] => Raise IndexError | l => Ok (Some l) end
  end.
(** [user_items.tocoo()]: the stored entries in row order. *)
Definition coo_of (M : csr T) : list (nat * nat) :=
  flat_map (fun r => map (fun p => (r, fst p)) (csr_row M r)) (seq 0 (c_rows M)).
(** [items[ids]] on a numpy array. *)
Definition np_take (items : list Z) (ids : list Z) : res (list Z) :=
  map_res (fun z => do i <- np_index (length items) z; Ok (nth i items 0%Z)) ids.
Definition gremap (items : option (list Z)) (ids : list (list Z)) : res (list (list Z)) :=
  match items with None => Ok ids | Some its => map_res (np_take its) ids end.
Definition gfinish (id : idarg) (ids : list (list Z)) (scores : list (list T)) : out T :=
  match id with
  | Scalar _ => OneRow (nth 0 ids []) (nth 0 scores [])
  | Batch _ => ManyRows ids scores
  end.

(** implicit/gpu/matrix_factorization_base.py 34-101 recommend.  [recalc] is recalculate_user.  For a scalar
    userid the first row is taken before the remap; only that row exists. *)
Definition gpu_recommend (sel : select_k) (fdist : T) (junk : nat -> Z * T) (pool : Z) (users items_m : gmatrix)
    (recalc : idarg -> csr T -> res gmatrix)
    (userid : idarg) (user_items : sparse_arg T) (N : Z) (filter_already_liked_items : bool)
    (filter_items : option arr) (recalculate_user : bool) (items : option arr) : res (out T) :=
  do _ <- (if filter_already_liked_items || recalculate_user then
             match user_items with
             | NotCsr => Raise ValueError
             | Csr M => if c_rows M =? length (id_list userid) then Ok tt else Raise ValueError
             end
           else Ok tt);
  do user <- (if recalculate_user then
                match user_items with Csr M => recalc userid M | NotCsr => Raise ValueError end
              else gpu_getitem users userid);
  do s <- (match items with
           | None => Ok (N, None, items_m)
           | Some its =>
               do b <- truthy filter_items;
               if b : bool then Raise ValueError else
               let l := sort_z (arr_list its) in
               do facs <- gpu_getitem items_m (Batch l);
               do bad <- out_of_model (length (g_rows items_m)) l;
               if bad : bool then Raise IndexError else
               Ok (Z.min N (Z.of_nat (length (arr_list its))), Some l, facs)
           end);
  let '(N, its, facs) := s in
  do item_filter <- int_vector filter_items;
  let query_filter :=
    if filter_already_liked_items then
      match user_items with
      | NotCsr => None
      | Csr M =>
          let M := match its with None => M | Some l => filter_items_from_sparse_matrix l M end in
          match coo_of M with [] => None | coo => Some coo end
      end
    else None in
  do r <- knn_topk sel fdist junk pool facs user N None query_filter item_filter;
  do ids <- gremap its (fst r);
  Ok (gfinish userid ids (snd r)).

(** implicit/gpu/matrix.cu 173-217 Matrix::calculate_norms (each norm by warp 0 of a block, see C78 and C79 for
    its inner product): zero norms are replaced by 1e-10 ([tiny]).  The launch has one thread per column; with
    more than 1024 it does not run and reports no error, so that the output keeps the zeros of cudaMemset. *)
Definition gpu_norms (norm : list T -> T) (tiny : T) (m : gmatrix) : list T :=
  if (Z.of_nat (g_cols m) <=? 1024)%Z then norms_of norm tiny (g_rows m) else map (fun _ => nzero) (g_rows m).
(** implicit/gpu/matrix_factorization_base.py 127-140 and 165-179: the rows and norms of the candidates. *)
Definition gpu_candidates (m : gmatrix) (norms : list T) (filter_items items : option arr) : res (option (list Z) * gmatrix * list T) :=
  match items with
  | None => Ok (None, m, norms)
  | Some its =>
      do b <- truthy filter_items;
      if b : bool then Raise ValueError else
      let l := arr_list its in
      match its with
      | PyList [] => Raise IndexError      (* np.array([]) has dtype float64 *)
      | _ =>
        do ns <- map_res (fun z => do i <- np_index (length norms) z; Ok (nth i norms nzero)) l;
        do facs <- gpu_getitem m (Batch l);
        do bad <- out_of_model (length (g_rows m)) l;
        if bad : bool then Raise IndexError else Ok (Some l, facs, ns)
      end
  end.
(** implicit/gpu/matrix_factorization_base.py 125-158 similar_users and 162-200 similar_items on the factors [m]
    with the cached norms [norms] of [m].  [recalc]: the recalculated query row, if asked for (similar_items
    only); the scores are still divided by the stored norm of the item. *)
Definition gpu_similar (sel : select_k) (fdist : T) (junk : nat -> Z * T) (pool : Z) (m : gmatrix) (norms : list T)
    (recalc : option (res gmatrix)) (id : idarg) (N : Z) (filter_items items : option arr) : res (out T) :=
  do s <- gpu_candidates m norms filter_items items;
  let '(its, facs, ns) := s in
  do query <- (match recalc with Some r => r | None => gpu_getitem m id end);
  do item_filter <- int_vector filter_items;
  do r <- knn_topk sel fdist junk pool facs query N (Some ns) None item_filter;
  do ids <- gremap its (fst r);
  do qn <- map_res (fun z => do i <- np_index (length norms) z; Ok (nth i norms nzero)) (id_list id);
  Ok (gfinish id ids (map (fun p => map (fun s => ndiv s (snd p)) (fst p)) (combine (snd r) qn))).
End Model.
Arguments gmatrix : clear implicits.
Arguments select_k : clear implicits.
Arguments cells : clear implicits.
