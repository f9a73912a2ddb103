(** The random numbers training starts from: implicit/cpu/als.py:143-146, implicit/cpu/bpr.pyx:158-174,
    implicit/gpu/als.py:126-136, implicit/gpu/bpr.py:105-120 and implicit/gpu/random.cu:19-32.  The generators
    themselves are not modelled: they are any numbers between 0 and 1 (numpy: 1 excluded, curand: 0 excluded). *)
From Coq Require Import List Arith Lia Bool ZArith Reals Lra.
From Coq Require Import Floats.SpecFloat.
From Verif Require Import Base Num Sparse FloatModel BprModel SimilarRound.
Import ListNotations.
Local Open Scope R_scope.

(** als.py:144, 146: [random(..., dtype=self.dtype) * 0.01]; the constant is converted to the type of the array. *)
Definition als_start (rd : R -> R) (x : R) : R := rd (x * rd (1 / 100)).
(** bpr.pyx:159-160, 167-168: [random(...) - .5], then [/= self.factors]. *)
Definition bpr_start (rd : R -> R) (factors : nat) (x : R) : R := rd (rd (x - 1 / 2) / rd (INR factors)).
(** bpr.pyx:158-174, gpu/bpr.py:105-120: the two matrices. *)
Definition bpr_start_factors (rd : R -> R) (factors : nat) (M : csr R) (xs ys : nat -> nat -> R) : bmem :=
  bpr_init factors M (fun u j => bpr_start rd factors (xs u j)) (fun i j => bpr_start rd factors (ys i j)).

Section Gpu.
Context {T : Type} `{Num T}.
Variable neqb : T -> T -> bool.
(** [a * b + c], in one operation or in two: the compiler is free to choose. *)
Variable muladd : T -> T -> T -> T.
(** random.cu:19-32 [RandomState::uniform], one number. *)
Definition gpu_uniform (low high x : T) : T :=
  if negb (neqb low nzero) || negb (neqb high none_) then muladd x (nsub high low) low else x.
End Gpu.
Definition reqb (a b : R) : bool := if Req_EM_T a b then true else false.
Definition two_roundings (rd : R -> R) (a b c : R) : R := rd (rd (a * b) + c).
Definition one_rounding (rd : R -> R) (a b c : R) : R := rd (a * b + c).
(** gpu/als.py:127-136: the bounds are computed by Python in doubles and passed as floats (_cuda.pyx:31), the numbers are
    stored in the type of the model ([store]). *)
Definition gpu_als_start (rd rd64 store : R -> R) (fused : bool) (factors : nat) (x : R) : R :=
  store (@gpu_uniform R (Num_rnd rd) reqb (if fused then one_rounding rd else two_roundings rd)
           (rd (rd64 (- (1 / 2) / INR factors))) (rd (rd64 (1 / 2 / INR factors))) x).

(** random.cu:19-32 in float32 proper. *)
Definition gpu_uniform_f32 (low high x : f32) : f32 :=
  @gpu_uniform f32 Num_f32 (fun a b => SFeqb a b) (fun a b c => nadd (nmul a b) c) low high x.
