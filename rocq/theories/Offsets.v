(** 32-bit offsets of the CPU kernels.  C int is 32 bits, size_t and Py_ssize_t are unbounded here. *)
From Coq Require Import List ZArith Lia Bool.
From Verif Require Import Base.
Import ListNotations.
Open Scope Z_scope.

(** A value of C type int; arithmetic outside the range is undefined behaviour. *)
Definition c_int (z : Z) : res Z := if ((- 2 ^ 31 <=? z) && (z <? 2 ^ 31)) then Ok z else Raise UB.
(** Conversion of an unsigned int to int (implementation defined; two's complement on every supported compiler). *)
Definition to_int (z : Z) : Z := (z + 2 ^ 31) mod 2 ^ 32 - 2 ^ 31.
(** Product of an int and an unsigned int: unsigned, modulo 2^32. *)
Definition c_umul (a b : Z) : Z := (a * b) mod 2 ^ 32.

(** Cython memoryview access with boundscheck(False) and the default wraparound(True): a negative index gets the
    length added once; anything still outside is undefined behaviour. *)
Definition view_cell (len i : Z) : res Z :=
  let i := if i <? 0 then i + len else i in
  if (0 <=? i) && (i <? len) then Ok i else Raise UB.

(** [n] times [index2 = index2 + 1]. *)
Fixpoint c_inc (n : nat) (i : Z) : res Z :=
  match n with O => Ok i | S n' => do j <- c_inc n' i; c_int (j + 1) end.

(** implicit/_nearest_neighbours.pyx 133-135: the length of rows, cols and values, [item_count * K] with an int and
    an unsigned int. *)
Definition knn_length (item_count K : Z) : Z := c_umul item_count K.
(** implicit/_nearest_neighbours.pyx 155-161: the cell written for result [j] of item [i]. *)
Definition knn_cell (item_count K i : Z) (j : nat) : res Z :=
  do index2 <- c_inc j (to_int (c_umul K i));
  view_cell (knn_length item_count K) index2.

(** implicit/cpu/select.h 18-21, 35-37 and cpu/topk.pyx 58-67: the offsets, in the score buffer and in the
    result, used for row [row] of the batch starting at [startidx].  [row * cols + col] is computed in int; in
    [row * k + i] the product is an int and the sum a size_t. *)
Definition in_buffer (x : Z) (len : Z) : res Z := if (0 <=? x) && (x <? len) then Ok x else Raise UB.
Definition score_cell (rows cols row col : Z) : res Z :=
  do rc <- c_int (row * cols); do x <- c_int (rc + col); in_buffer x (rows * cols).
Definition topk_cell (query_rows k startidx row i : Z) : res Z :=
  do s <- c_int (startidx * k);
  do r <- c_int (row * k);
  in_buffer (s + r + i) (query_rows * k).
(** cpu/topk.pyx 23-39: the start and end of a batch of 100 queries. *)
Definition batch_size : Z := 100.
Definition batch_bounds (query_rows batch : Z) : res (Z * Z) :=
  do s <- c_int (batch * batch_size); do e <- c_int (s + batch_size); Ok (s, Z.min e query_rows).
