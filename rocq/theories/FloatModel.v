(** IEEE single precision as a number type.  The scores of implicit/cpu/topk.pyx:15-67
    and implicit/cpu/select.h:13-40 are float32 (or float64); [Coq.Floats.SpecFloat] is the standard
    library's definition of IEEE arithmetic, rounding to nearest even.  A NaN has no payload. *)
From Coq Require Import ZArith Bool List.
From Coq Require Import Floats.SpecFloat.
From Verif Require Import Num.
Import ListNotations.

Definition f32 : Type := spec_float.
Definition f32_prec : Z := 24.
Definition f32_emax : Z := 128.

(** 1.0, and the largest finite number. *)
Definition f32_one : f32 := S754_finite false 8388608 (-23).
Definition f32_max : f32 := S754_finite false 16777215 104.
Definition f32_nan (x : f32) : bool := match x with S754_nan => true | _ => false end.

#[global] Instance Num_f32 : Num f32 := {|
  nzero := S754_zero false; none_ := f32_one;
  nadd := SFadd f32_prec f32_emax; nsub := SFsub f32_prec f32_emax; nmul := SFmul f32_prec f32_emax; ndiv := SFdiv f32_prec f32_emax;
  nopp := SFopp; nltb := SFltb |}.

(** The other operations with another order. *)
Definition with_order {T} (N : Num T) (lt : T -> T -> bool) : Num T := {|
  nzero := @nzero T N; none_ := @none_ T N; nadd := @nadd T N; nsub := @nsub T N; nmul := @nmul T N; ndiv := @ndiv T N;
  nopp := @nopp T N; nltb := lt |}.
