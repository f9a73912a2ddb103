(** CosineRecommender.fit in rounded arithmetic (implicit/nearest_neighbours.py:187-192, 229-234).  KnnModel.v has
    all_pairs_knn, over any numbers; here are normalize and the numbers. *)
From Coq Require Import List Arith Lia Bool ZArith Reals Lra Eqdep_dec.
From Coq Require Import Floats.SpecFloat.
From Verif Require Import Base Num Heap Sparse KnnModel WeightModel SimilarRound LossRound.
Import ListNotations.

Section Fit.
Context {T : Type} `{Num T}.
(** numpy's [sqrt] *)
Variable sqrtT : T -> T.

(** nearest_neighbours.py:229-234: [X.data / sqrt(bincount(X.row, X.data**2))[X.row]].  [bincount] adds in storage order. *)
Definition row_norm (X : coo T) (r : nat) : T :=
  sqrtT (nsum (map (fun e => nmul (eval_ e) (eval_ e)) (filter (fun e => erow e =? r) (o_entries X)))).
Definition normalize_by (X : coo T) : coo T := set_data (fun e => ndiv (eval_ e) (row_norm X (erow e))) X.

(** nearest_neighbours.py:190-192 [CosineRecommender.fit] and 30-41, on counts of type float64. *)
Definition cosine_weights_by (counts : csr T) : coo T := coo_T (normalize_by (coo_T (coo_of_csr counts))).
Definition cosine_fit_by (HP : std_heap) (K : nat) (counts : csr T) : res (csr T) :=
  let W := cosine_weights_by counts in all_pairs_knn HP (coo_to_csr (o_rows W) (o_cols W) (o_entries W)) K.
End Fit.

(** What is used of a floating point format: the rounding leaves the numbers of the format alone, zero and one are
    among them, a number and its negative are rounded alike, and the relative error is at most [u].  Overflow
    and underflow are left out. *)
Record format (rd : R -> R) (u : R) : Prop := {
  fo_idem : forall x, rd (rd x) = rd x;
  fo_zero : (rd 0 = 0)%R;
  fo_one : (rd 1 = 1)%R;
  fo_opp : forall x, (rd (- x) = - rd x)%R;
  fo_rel : forall x, (Rabs (rd x - x) <= u * Rabs x)%R;
  fo_unit : (0 <= u < 1)%R }.

(** The numbers of the format. *)
Definition fl (rd : R -> R) : Type := {x : R | rd x = x}.
Definition val {rd} (x : fl rd) : R := proj1_sig x.
Section Fl.
Variables (rd : R -> R) (u : R).
Hypothesis FO : format rd u.
Definition round (x : R) : fl rd := exist _ (rd x) (fo_idem rd u FO x).
Definition Num_fl : Num (fl rd) := {|
  nzero := exist _ 0%R (fo_zero rd u FO); none_ := exist _ 1%R (fo_one rd u FO);
  nadd := fun a b => round (val a + val b); nsub := fun a b => round (val a - val b);
  nmul := fun a b => round (val a * val b); ndiv := fun a b => round (val a / val b);
  nopp := fun a => exist _ (- val a)%R (eq_trans (fo_opp rd u FO (val a)) (f_equal Ropp (proj2_sig a)));
  nltb := fun a b => Rltb (val a) (val b) |}.
Definition sqrt_fl (x : fl rd) : fl rd := round (sqrt (val x)).
End Fl.

(** In double precision proper. *)
Definition sqrt_f64 (x : f64) : f64 := SFsqrt f64_prec f64_emax x.
