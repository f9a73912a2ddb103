(** What a training or query call does with the matrix object it is given: which of its
    arrays it accepts, and whether it changes the caller's object.

    A scipy matrix is taken as its format, the type of its values, and its contents
    as a csr matrix (for csc and coo: what [tocsr] returns).  Indices are
    32 bit integers throughout. *)
From Coq Require Import List Arith Bool ZArith Reals.
From Verif Require Import Base Num Heap Sparse TopkModel RVec RecommendModel BprModel LmfModel KnnModel WeightModel.
Import ListNotations.

Inductive format : Type := FCsr | FCsc | FCoo.
(** Signed integers of so many bits; single and double precision. *)
Inductive ntype : Type := NInt (bits : nat) | NF32 | NF64.
Definition ntype_eqb (a b : ntype) : bool :=
  match a, b with NInt x, NInt y => x =? y | NF32, NF32 => true | NF64, NF64 => true | _, _ => false end.

Record smat (T : Type) : Type := { s_fmt : format; s_val : ntype; s_csr : csr T }.
Arguments s_fmt {T}. Arguments s_val {T}. Arguments s_csr {T}.
Arguments Build_smat {T}.

Section InPlace.
Context {T : Type} `{Num T}.

(** A Python variable holding a matrix: the caller's object, or one made on the way. *)
Inductive var : Type := Callers | Fresh (m : smat T).
Definition deref (caller : smat T) (v : var) : smat T := match v with Callers => caller | Fresh m => m end.

(** implicit/utils.py:159-169 [check_csr]: the same object if it is a csr matrix. *)
Definition check_csr (caller : smat T) (v : var) : var :=
  let m := deref caller v in
  match s_fmt m with
  | FCsr => v
  | _ => Fresh {| s_fmt := FCsr; s_val := s_val m; s_csr := s_csr m |}
  end.
(** cpu/bpr.pyx:138-139, cpu/lmf.pyx:131-132, gpu/bpr.py:88-89: [astype] only if needed; it
    makes a new object.  Rounding to single precision is left out. *)
Definition to_float32 (caller : smat T) (v : var) : var :=
  let m := deref caller v in
  if ntype_eqb (s_val m) NF32 then v
  else Fresh {| s_fmt := s_fmt m; s_val := NF32; s_csr := s_csr m |}.
(** cpu/bpr.pyx:147-148, cpu/lmf.pyx:141-142, gpu/bpr.py:94-95:
    [if not user_items.has_sorted_indices: user_items.sort_indices()], which works in place.
    The caller's object afterwards, and the variable. *)
Definition sort_if_needed (caller : smat T) (v : var) : smat T * var :=
  let m := deref caller v in
  if has_sorted_indices (s_csr m) then (caller, v)
  else let m' := {| s_fmt := s_fmt m; s_val := s_val m; s_csr := sort_indices (s_csr m) |} in
       match v with Callers => (m', Callers) | Fresh _ => (caller, Fresh m') end.

Inductive trainer : Type := BprCpu (verify : bool) | BprGpu (verify : bool) | Lmf.
(** The beginning of fit: cpu/bpr.pyx:138-148, gpu/bpr.py:85-95, cpu/lmf.pyx:131-142.  Result:
    the caller's matrix afterwards, and the matrix used for training. *)
Definition prepare (t : trainer) (m : smat T) : smat T * smat T :=
  let v := match t with
           | BprCpu _ | Lmf => check_csr m (to_float32 m Callers)
           | BprGpu _ => to_float32 m (check_csr m Callers)
           end in
  let sorts := match t with BprCpu verify | BprGpu verify => verify | Lmf => true end in
  let '(m', v') := if sorts then sort_if_needed m v else (m, v) in
  (m', deref m' v').
End InPlace.
Arguments var : clear implicits.

(* ------------------------------------------------------------------ value types *)
(** A Cython buffer argument of one type ([int[:]], [double[:]]): ValueError "Buffer dtype
    mismatch" otherwise.  A fused one ([floating[:]]): TypeError "No matching signature found". *)
Definition buffer (want got : ntype) : res unit := if ntype_eqb want got then Ok tt else Raise ValueError.
Definition fused_floating (got : ntype) : res unit := match got with NF32 | NF64 => Ok tt | NInt _ => Raise TypeError end.

(** _nearest_neighbours.pyx:111-126 [all_pairs_knn]: [double[:]] values.  nearest_neighbours.py:30-41 [ItemItemRecommender.fit] hands it on as it is. *)
Definition ii_fit_typed (HP : std_heap) (K : nat) (m : smat R) : res (csr R) :=
  do _ <- buffer NF64 (s_val m); all_pairs_knn HP (s_csr m) K.

(** nearest_neighbours.py:43-117 [ItemItemRecommender.recommend] (KnnModel [ii_recommend]) with
    a typed matrix.  The scorer's values are [floating[:] user_data] (_nearest_neighbours.pyx:58-59);
    the checks of the call itself come before it, an empty batch never reaches it.  (If the call on the
    untyped matrix is undefined, so is this one; the real one would raise TypeError first.) *)
Definition ii_recommend_typed {T} `{Num T} (HP : std_heap) (fmin fmin32 : T) (sim : csr T) (a : @acc T) (ids : idarg)
  (m : smat T) (N : Z) (fl : bool) (fi its : option arr) :=
  match s_fmt m with
  | FCsr =>
      do r <- ii_recommend HP fmin fmin32 sim a ids (Csr (s_csr m)) N fl fi its;
      match ids with
      | Batch [] => Ok r
      | _ => do _ <- fused_floating (s_val m); Ok r
      end
  | _ => Raise ValueError
  end.

(* ------------------------------------------------------------------ squares of integers *)
(** Two's complement integers of [w] bits: what is left of [z]. *)
Definition wrap (w : nat) (z : Z) : Z :=
  let h := (2 ^ (Z.of_nat w - 1))%Z in ((z + h) mod (2 * h) - h)%Z.
Local Open Scope R_scope.
(** nearest_neighbours.py:229-234 [normalize] on a matrix of [w] bit integers:
    [X.data / sqrt(bincount(X.row, X.data**2))[X.row]].  numpy squares in the type of the
    data; [bincount] adds up in double precision; the root of a negative number is NaN. *)
Definition normalize_int (w : nat) (X : coo Z) : coo (option R) :=
  set_data (fun e =>
    match fsqrt (rsum (map (fun e' => IZR (wrap w (eval_ e' * eval_ e')%Z)) (filter (fun e' => erow e' =? erow e)%nat (o_entries X)))) with
    | None => None
    | Some s => fdiv (IZR (eval_ e)) s
    end) X.
(** nearest_neighbours.py:190-192 [CosineRecommender.fit] on such a matrix. *)
Definition cosine_weights_int (w : nat) (counts : csr Z) : option (coo R) :=
  option_map coo_T (finite (normalize_int w (coo_T (coo_of_csr counts)))).
Definition cosine_fit_int (HP : std_heap) (K : nat) (w : nat) (counts : csr Z) : option (res (csr R)) :=
  fit_weighted HP K (cosine_weights_int w counts).
