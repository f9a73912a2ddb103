(** The search of a Faiss inverted file index, as the library documents it (IndexIVFFlat with
    METRIC_INNER_PRODUCT): every row is stored in the cell nearest to it, a query looks into the
    nprobe cells nearest to it and returns the best rows found there.  The Faiss code itself
    is not part of the repository; which cells are near is an argument.  The index
    is the one that implicit/ann/faiss.py:76-130 builds ([AnnCalls]). *)
From Coq Require Import String List Arith Lia Bool ZArith.
From Verif Require Import Base Num Heap Sparse TopkModel RecommendModel KnnModel AnnModel AnnCalls.
Import ListNotations.
Local Open Scope list_scope.

Section Ivf.
Context {T : Type} `{Num T}.
Local Notation vec := (list T).
Variable E : @ann_env T.
(** The numbers of the cells, the nearest centroid first: quantizer.search. *)
Variable near : list vec -> vec -> list nat.

(** The cell a row is stored in (index.add, faiss.py:106 and 129). *)
Definition cell_of (x : ivf (T := T)) (row : vec) : nat := hd 0 (near (iv_cells x) row).
(** The numbers of the rows in one cell, in the order they were added. *)
Definition cell_rows (x : ivf (T := T)) (c : nat) : list nat := filter (fun i => cell_of x (nth i (iv_data x) []) =? c) (seq 0 (length (iv_data x))).
(** The rows a query looks at. *)
Definition probed (x : ivf (T := T)) (q : vec) : list nat := flat_map (cell_rows x) (firstn (iv_nprobe x) (near (iv_cells x) q)).
(** index.search(q, c): the c best of them by inner product, the largest first, then places with id -1. *)
Definition ivf_search (x : ivf (T := T)) : index T := fun q c =>
  let best i j := nltb (ndot q (nth i (iv_data x) [])) (ndot q (nth j (iv_data x) [])) in
  let found := firstn c (sort_by best (probed x q)) in
  map (fun i => (Z.of_nat i, ndot q (nth i (iv_data x) []))) found ++ repeat ((-1)%Z, ae_fmin32 E) (c - length found).
(** The wrapper after faiss.py:76-130: its indices answer the queries. *)
Definition faiss_wrapper (o : faiss_opts) (ix : option (ivf (T := T)) * option (ivf (T := T))) : ann T :=
  let get x := match x with Some i => ivf_search i | None => AnnModel.no_index end in
  {| a_lib := Faiss; a_approx_sim := fo_sim o; a_approx_rec := fo_rec o; a_use_gpu := fo_gpu o;
     a_sim := get (fst ix); a_rec := get (snd ix); a_max_norm := nzero |}.
End Ivf.
