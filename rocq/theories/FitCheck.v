(** The NaN check at the end of training. *)
From Coq Require Import List Bool Arith.
From Verif Require Import Base Num Sparse TopkModel RecommendModel AlsModel ThreadProg BprModel LmfModel.
Import ListNotations.

Section Check.
Context {T : Type} `{Num T} (isnan : T -> bool).
(** matrix_factorization_base.py:248-252 [_check_fit_errors] *)
Definition check_fit_errors (X Y : list (list T)) : res unit :=
  if existsb (existsb isnan) X || existsb (existsb isnan) Y then Raise ModelFitError else Ok tt.

(** The factor matrices in the memory of the BPR model: [users] and [items] rows, [f + 1] columns. *)
Definition bpr_rows (f users items : nat) (m : bmem (T := T)) : list (list T) * list (list T) :=
  (map (fun u => map (fun j => m (CX u j)) (seq 0 (S f))) (seq 0 users),
   map (fun i => map (fun j => m (CY i j)) (seq 0 (S f))) (seq 0 items)).
(** bpr.pyx:122-207 [fit] of an unfitted model, with the check of line 207: the factors it
    leaves, and the outcome. *)
Definition bpr_fit_checked (o : bpr_opts (T := T)) (M : csr T) rx ry inputs : option (list (list T) * list (list T) * res unit) :=
  match bpr_fit o M rx ry inputs with
  | None => None
  | Some (m, _, _) => let r := bpr_rows (b_factors o) (c_rows M) (c_cols M) m in Some (fst r, snd r, check_fit_errors (fst r) (snd r))
  end.
(** lmf.pyx:112-199 [fit] of an unfitted model, with the check of line 199; [f + 2] columns. *)
Definition lmf_rows (f n : nat) (X : nat -> nat -> T) : list (list T) := map (fun u => map (X u) (seq 0 (f + 2))) (seq 0 n).
Definition lmf_fit_checked (o : lmf_opts (T := T)) (f : nat) (M : csr T) rx ry inputs : option (list (list T) * list (list T) * res unit) :=
  match lmf_fit o f M None None rx ry inputs with
  | None => None
  | Some (X, Y, _) => let X := lmf_rows f (c_rows M) X in let Y := lmf_rows f (c_cols M) Y in Some (X, Y, check_fit_errors X Y)
  end.
End Check.

(* ---------------------------------------------------------------- IEEE division *)
Section Cg.
Context {T : Type} `{Num T}.
(** _als.pyx:211-244 once more, with the division of C under [cdivision(True)] (line 152):
    it never fails, a zero divisor gives inf or nan.  AlsModel's [cg_loop] is for exact
    numbers, where such a division has no value. *)
Fixpoint cg_loop_c (eps : T) (steps : nat) (YtY Y : mat) (row : list (nat * T)) (x r p : vec) (rsold : T) : res vec :=
  match steps with
  | O => Ok x
  | S steps' =>
      do Ap <- apply_A YtY Y row p;
      let alpha := ndiv rsold (ndot p Ap) in
      let x' := axpy alpha p x in
      let r' := axpy (nmul alpha (nopp none_)) Ap r in
      let rsnew := ndot r' r' in
      if nltb rsnew eps then Ok x' else
      cg_loop_c eps steps' YtY Y row x' r' (axpy none_ r' (scal (ndiv rsnew rsold) p)) rsnew
  end.
(** _als.pyx:180-244 *)
Definition cg_row_c (eps : T) (steps : nat) (YtY : mat) (n : nat) (Y : mat) (row : list (nat * T)) (x : vec) : res vec :=
  match row with
  | [] => Ok (zeros n)
  | _ => do r <- residual YtY Y row x;
         let rsold := ndot r r in
         if nltb rsold eps then Ok x else cg_loop_c eps steps YtY Y row x r r rsold
  end.
(** _als.pyx:145-248 *)
Definition least_squares_cg_c (eps : T) (steps : nat) (n : nat) (Cui : csr T) (X Y : mat) (reg : T) : res mat :=
  let YtY := add_diag reg (gram n Y) in
  map_res (fun ux => do row <- raw_entries Cui (fst ux); cg_row_c eps steps YtY n Y row (snd ux)) (enum X).
End Cg.
