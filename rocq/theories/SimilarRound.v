(** similar_items and similar_users of the factor models (implicit/cpu/matrix_factorization_base.py:148-246) in
    rounded arithmetic.  RecommendModel.v has the functions, over any numbers; here are the numbers and the norm. *)
From Coq Require Import List Arith Lia Bool ZArith Reals Lra.
From Coq Require Import Floats.SpecFloat.
From Verif Require Import Base Num RVec MetricsModel MetricsDouble FloatModel.
Import ListNotations.
Local Open Scope R_scope.

(** IEEE 754 rounding to nearest, ties to even, with a significand of [p] bits (24 for float32, 53 for
    float64).  The exponent is not bounded: overflow and underflow are left out. *)
Definition exponent_p (p : Z) (x : R) : Z := (Int_part (log2 (Rabs x)) - (p - 1))%Z.
Definition rnd_p (p : Z) (x : R) : R :=
  if Req_EM_T x 0 then 0 else IZR (rne (x * powerRZ 2 (- exponent_p p x))) * powerRZ 2 (exponent_p p x).

(** Reals whose every operation is rounded; comparisons are exact.  topk.pyx:15-67: the products, the sums and
    the division by the norm are float32 operations (sums in the order of the factors). *)
Definition Num_rnd (rnd : R -> R) : Num R := {|
  nzero := 0; none_ := 1; nadd := fun a b => rnd (a + b); nsub := fun a b => rnd (a - b);
  nmul := fun a b => rnd (a * b); ndiv := fun a b => rnd (a / b); nopp := Ropp; nltb := Rltb |}.

(** np.linalg.norm of one vector (matrix_factorization_base.py:186, 189, 235, 243): the root of the sum of the
    squares. *)
Definition norm_rnd (rnd : R -> R) (v : list R) : R := rnd (sqrt (@ndot R (Num_rnd rnd) v v)).

(** The same in float32 proper. *)
Definition norm_f32 (v : list f32) : f32 := SFsqrt f32_prec f32_emax (ndot v v).
(** The float32 nearest to 1e-10 (lines 187, 190, 237, 245). *)
Definition tiny_f32 : f32 := S754_finite false 14411519 (-57).
