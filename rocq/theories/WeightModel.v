(** Model of the weighting functions of implicit/nearest_neighbours.py and of
    the fit methods built on them.  Real arithmetic; a result that is not a
    finite number in numpy (division by zero, square root of a negative
    number) is [None]. *)
From Coq Require Import List Arith Lia Bool ZArith Reals Lra.
From Verif Require Import Base Num Heap Sparse TopkModel RVec KnnModel.
Import ListNotations.
Local Open Scope R_scope.

Definition fdiv (a b : R) : option R := if Req_EM_T b 0 then None else Some (a / b).
Definition fsqrt (a : R) : option R := if Rlt_dec a 0 then None else Some (sqrt a).
Definition fmul (a b : option R) : option R :=
  match a, b with Some a, Some b => Some (a * b) | _, _ => None end.

(** scipy [coo_matrix]: shape and the stored (row, col, value) triples, in storage
    order. *)
Record coo (T : Type) : Type := { o_rows : nat; o_cols : nat; o_entries : list (nat * nat * T) }.
Arguments o_rows {T}. Arguments o_cols {T}. Arguments o_entries {T}.

Definition erow {T} (e : nat * nat * T) : nat := fst (fst e).
Definition ecol {T} (e : nat * nat * T) : nat := snd (fst e).
Definition eval_ {T} (e : nat * nat * T) : T := snd e.

(** [coo_matrix(csr)]: storage order is row by row. *)
Definition coo_of_csr {T} (m : csr T) : coo T := {|
  o_rows := c_rows m; o_cols := c_cols m;
  o_entries := flat_map (fun u => map (fun p => (u, fst p, snd p)) (csr_row m u)) (seq 0 (c_rows m)) |}.
(** [X.T] *)
Definition coo_T {T} (X : coo T) : coo T := {|
  o_rows := o_cols X; o_cols := o_rows X;
  o_entries := map (fun e => (ecol e, erow e, eval_ e)) (o_entries X) |}.
(** [X.data = ...]: new values, same pattern. *)
Definition set_data {A B} (f : nat * nat * A -> B) (X : coo A) : coo B := {|
  o_rows := o_rows X; o_cols := o_cols X;
  o_entries := map (fun e => (erow e, ecol e, f e)) (o_entries X) |}.

(** [bincount(X.col)[c]] and [bincount(X.row, w)[r]]. *)
Definition col_count (X : coo R) (c : nat) : nat :=
  length (filter (fun e => ecol e =? c)%nat (o_entries X)).
Definition row_total (w : R -> R) (X : coo R) (r : nat) : R :=
  rsum (map (fun e => w (eval_ e)) (filter (fun e => erow e =? r)%nat (o_entries X))).

(** nearest_neighbours.py:229-234 [normalize]. *)
Definition normalize (X : coo R) : coo (option R) :=
  set_data (fun e => fdiv (eval_ e) (sqrt (row_total (fun x => x * x) X (erow e)))) X.

(** nearest_neighbours.py:221-222, 242-243: [log(N) - log1p(bincount(X.col))]. *)
Definition idf (X : coo R) (c : nat) : R :=
  ln (INR (o_rows X)) - ln (1 + INR (col_count X c)).

(** nearest_neighbours.py:216-226 [tfidf_weight]. *)
Definition tfidf_weight (X : coo R) : coo (option R) :=
  set_data (fun e => fmul (fsqrt (eval_ e)) (Some (idf X (ecol e)))) X.

(** nearest_neighbours.py:246-248: row sums, their mean over all rows, and the
    length normalisation. *)
Definition row_sums (X : coo R) : list R := map (row_total (fun x => x) X) (seq 0 (o_rows X)).
Definition length_norm (B : R) (X : coo R) (r : nat) : option R :=
  match fdiv (rsum (row_sums X)) (INR (o_rows X)) with
  | None => None
  | Some average => match fdiv (B * nth r (row_sums X) 0) average with
                    | None => None
                    | Some q => Some ((1 - B) + q)
                    end
  end.
(** nearest_neighbours.py:237-252 [bm25_weight]. *)
Definition bm25_weight (K1 B : R) (X : coo R) : coo (option R) :=
  set_data (fun e =>
    match length_norm B X (erow e) with
    | None => None
    | Some ln_ => fmul (fdiv (eval_ e * (K1 + 1)) (K1 * ln_ + eval_ e)) (Some (idf X (ecol e)))
    end) X.

(** All values finite. *)
Fixpoint sequence {A} (l : list (option A)) : option (list A) :=
  match l with
  | [] => Some []
  | Some a :: l => match sequence l with Some r => Some (a :: r) | None => None end
  | None :: _ => None
  end.
Definition finite (X : coo (option R)) : option (coo R) :=
  match sequence (map eval_ (o_entries X)) with
  | None => None
  | Some vs => Some {| o_rows := o_rows X; o_cols := o_cols X;
                       o_entries := combine (map fst (o_entries X)) vs |}
  end.

(** nearest_neighbours.py:30-41 [ItemItemRecommender.fit] on a weighted coo matrix:
    [check_csr] converts it (implicit/utils.py:159-169).  The behaviour on
    non-finite weights is not modelled ([None]). *)
Definition fit_weighted (HP : std_heap) (K : nat) (W : option (coo R)) : option (res (csr R)) :=
  match W with
  | None => None
  | Some W => Some (all_pairs_knn HP (coo_to_csr (o_rows W) (o_cols W) (o_entries W)) K)
  end.

(** nearest_neighbours.py:190-192 [CosineRecommender.fit]. *)
Definition cosine_weights (counts : csr R) : option (coo R) :=
  option_map coo_T (finite (normalize (coo_T (coo_of_csr counts)))).
Definition cosine_fit (HP : std_heap) (K : nat) (counts : csr R) : option (res (csr R)) :=
  fit_weighted HP K (cosine_weights counts).

(** nearest_neighbours.py:198-200 [TFIDFRecommender.fit]. *)
Definition tfidf_weights (counts : csr R) : option (coo R) :=
  match finite (tfidf_weight (coo_T (coo_of_csr counts))) with
  | None => None
  | Some X => option_map coo_T (finite (normalize X))
  end.
Definition tfidf_fit (HP : std_heap) (K : nat) (counts : csr R) : option (res (csr R)) :=
  fit_weighted HP K (tfidf_weights counts).

(** nearest_neighbours.py:211-213 [BM25Recommender.fit]. *)
Definition bm25_weights (K1 B : R) (counts : csr R) : option (coo R) :=
  option_map coo_T (finite (bm25_weight K1 B (coo_T (coo_of_csr counts)))).
Definition bm25_fit (HP : std_heap) (K : nat) (K1 B : R) (counts : csr R) : option (res (csr R)) :=
  fit_weighted HP K (bm25_weights K1 B counts).
