(** The inner product transform (implicit/utils.py:86-103) in rounded arithmetic. *)
From Coq Require Import List Arith Lia Bool ZArith Reals Lra.
From Coq Require Import Floats.SpecFloat.
From Verif Require Import Base Num FloatModel SimilarRound AnnModel.
Import ListNotations.

(** utils.py:96, 101: np.linalg.norm and np.sqrt with a rounding after every operation; the transform itself is
    [augment_inner_product_matrix] of AnnModel.v over these numbers.  The other fields are not used by it. *)
Definition env_rnd (rnd : R -> R) (fmin tiny : R) : ann_env R :=
  {| ae_norm := norm_rnd rnd; ae_sqrt := fun x => rnd (sqrt x); ae_fmin32 := fmin; ae_tiny := tiny |}.
(** The same in float32 proper. *)
Definition env_f32 : ann_env f32 :=
  {| ae_norm := norm_f32; ae_sqrt := SFsqrt f32_prec f32_emax; ae_fmin32 := SFopp f32_max; ae_tiny := tiny_f32 |}.
