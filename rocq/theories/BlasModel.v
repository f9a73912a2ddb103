(** recommend of the factor models with the matrix product left to the BLAS library: implicit/cpu/topk.pyx:47 calls
    numpy's [dot], whose order of summation differs between libraries, machines, numbers of threads and shapes of the
    operands.  TopkModel.v and RecommendModel.v sum in the order of the factors; here the product is a parameter. *)
From Coq Require Import List Arith Lia Bool ZArith Permutation.
From Verif Require Import Base Num Heap Sparse TopkModel RecommendModel.
Import ListNotations.

Section Sums.
Context {T : Type} `{Num T}.
(** Fused multiply-add [a * b + c], rounded once. *)
Variable fma : T -> T -> T -> T.

(** [summed l s]: [s] is a way to add up the products of the pairs in [l] (at least one): in any order, in any
    number of partial sums, with or without fused multiply-add.  Adding to a zeroed accumulator is exact and therefore
    left out. *)
Inductive summed : list (T * T) -> T -> Prop :=
| sum_prod a b : summed [(a, b)] (nmul a b)
| sum_fma a b l s : summed l s -> summed ((a, b) :: l) (fma a b s)
| sum_add l l' s s' : summed l s -> summed l' s' -> summed (l ++ l') (nadd s s')
| sum_perm l l' s : Permutation l l' -> summed l s -> summed l' s.

(** A matrix product [query.dot(items.T)] of a BLAS library: right shape, and every entry adds up the right products.
    Different entries, and different calls, may add in different orders. *)
Definition blas_ok (gemm : list (list T) -> list (list T) -> list (list T)) : Prop :=
  forall Q Y, length (gemm Q Y) = length Q /\
    forall i, i < length Q -> length (nth i (gemm Q Y) []) = length Y /\
      forall j, j < length Y ->
        let l := combine (nth i Q []) (nth j Y []) in
        let s := nth j (nth i (gemm Q Y) []) nzero in
        (l = [] /\ s = nzero) \/ summed l s.
End Sums.

Section Model.
Context {T : Type} `{Num T}.
Variable gemm : list (list T) -> list (list T) -> list (list T).

(** topk.pyx:45-67 [_topk_batch] without item norms: TopkModel.topk_batch with the product of line 47 taken from
    [gemm] (ValueError if the numbers of factors differ). *)
Definition topk_batch_blas (HP : std_heap) (fmin : T) (items query : list (list T)) (k startidx endidx : nat)
    (fq : option (csr T)) (fi : option (list Z)) : res writes :=
  let q := slice startidx endidx query in
  do batch <- (if forallb (fun x => forallb (fun y => length y =? length x) items) q then Ok (gemm q items)
               else Raise ValueError);
  do batch <- (match fq with
               | None => Ok batch
               | Some m => map_res (fun p =>
                   let idx := startidx + fst p in
                   if idx <? c_rows m
                   then set_cols (map Z.of_nat (csr_row_indices m idx)) fmin (snd p)
                   else Raise IndexError) (enum batch)
               end);
  do batch <- (match fi with
               | None => Ok batch
               | Some l => map_res (set_cols l fmin) batch
               end);
  if (k =? 0) || (length items =? 0) then Raise IndexError
  else select HP batch k (startidx * k).

(** topk.pyx:15-43. *)
Definition topk_blas (HP : std_heap) (fmin : T) (items query : list (list T)) (k : Z)
    (fq : option (csr T)) (fi : option (list Z)) : res (list (list nat) * list (list T)) :=
  if (k <? 0)%Z then Raise ValueError
  else
    do ws <- map_res (fun se => topk_batch_blas HP fmin items query (Z.to_nat k) (fst se) (snd se) fq fi)
               (batch_bounds topk_batch_size (length query));
    let w := writes_concat ws in
    Ok (topk_output (length query) (Z.to_nat k) (w_ids w) (w_scores w)).

(** matrix_factorization_base.py:34-95 [recommend] without recalculate_user and without items. *)
Definition recommend_blas (HP : std_heap) (fmin : T) (m : mf T) (userid : idarg) (user_items : sparse_arg T) (N : Z)
    (filter_already_liked_items : bool) (filter_items : option arr) : res (out T) :=
  do _ <- (if filter_already_liked_items then
             match user_items with
             | NotCsr => Raise ValueError
             | Csr M => if c_rows M =? length (id_list userid) then Ok tt else Raise ValueError
             end
           else Ok tt);
  do user <- gather (user_factors m) (id_list userid);
  let fq := if filter_already_liked_items then match user_items with NotCsr => None | Csr M => Some M end else None in
  do r <- topk_blas HP fmin (item_factors m) user N fq (option_map arr_list filter_items);
  Ok (finish userid None r).
End Model.
