(** Model of the ALS solvers: implicit/cpu/_als.pyx and implicit/cpu/als.py (fit,
    recalculate_*, least_squares, user_linear_equation, least_squares_cg). *)
From Coq Require Import List Arith Lia Bool ZArith.
From Verif Require Import Base Num Sparse TopkModel RecommendModel.
Import ListNotations.

Section Als.
Context {T : Type} `{Num T}.

Definition vec := list T.
Definition mat := list (list T).

(** BLAS [axpy]: y + a x (_als.pyx:19-24). *)
Fixpoint axpy (a : T) (x y : vec) : vec :=
  match x, y with
  | xi :: x', yi :: y' => nadd yi (nmul a xi) :: axpy a x' y'
  | _, _ => y
  end.
(** BLAS [scal]. *)
Definition scal (a : T) (x : vec) : vec := map (nmul a) x.
Definition zeros (n : nat) : vec := repeat nzero n.
(** BLAS [symv] with beta = 0: a A x, as the product with the full matrix.  The routine
    reads one triangle only; every matrix passed is symmetric (a Gram matrix plus a
    multiple of the identity). *)
Definition symv (a : T) (A : mat) (x : vec) : vec := map (fun row => nmul a (ndot row x)) A.

(** [np.dot(Y.T, Y)] for rows of length [n]. *)
Definition gram (n : nat) (Y : mat) : mat :=
  map (fun j => map (fun k => nsum (map (fun y => nmul (nth j y nzero) (nth k y nzero)) Y)) (seq 0 n)) (seq 0 n).
(** [A + reg * np.eye(n)] *)
Definition add_diag (reg : T) (A : mat) : mat :=
  map (fun ja => map (fun kv => if fst ja =? fst kv then nadd (snd kv) reg else snd kv) (enum (snd ja))) (enum A).

(** [Y[i, :]] under [boundscheck(False)]: out of range is undefined behaviour. *)
Definition raw_row (Y : mat) (i : nat) : res vec :=
  match nth_error Y i with Some y => Ok y | None => Raise UB end.

(** [for index in range(indptr[u], indptr[u+1])] under [boundscheck(False)]. *)
Definition raw_entries (m : csr T) (u : nat) : res (list (nat * T)) :=
  if S u <? length (c_indptr m) then Ok (csr_row m u) else Raise UB.

(** A C division under [cdivision(True)]; a zero divisor gives inf or nan in C, which
    the model reports as an error. *)
Definition c_div (a b : T) : res T := if neqb b nzero then Raise ZeroDivisionError else Ok (ndiv a b).

(** [confidence > 0] branch shared by the loops: the value of [confidence] used
    afterwards. *)
Definition conf_abs (c : T) : T := if nltb nzero c then c else nmul (nopp none_) c.

(* ---------------------------------------------------------------- Cholesky *)
(** _als.pyx:108-124: A and b of one user, entry by entry; the inner loop over [j] adds
    (confidence - 1) Y[i,j] Y[i,:] to row j of A. *)
Definition add_entry (Y : mat) (s : mat * vec) (e : nat * T) : res (mat * vec) :=
  let '(A, b) := s in
  do y <- raw_row Y (fst e);
  let b' := if nltb nzero (snd e) then axpy (snd e) y b else b in
  let c := conf_abs (snd e) in
  let A' := map (fun p => axpy (nmul (nsub c none_) (fst p)) y (snd p)) (combine y A) in
  Ok (A', b').
Definition system (initialA : mat) (n : nat) (Y : mat) (row : list (nat * T)) : res (mat * vec) :=
  fold_res (add_entry Y) row (initialA, zeros n).

(** _als.pyx:96-138, one iteration of the parallel loop: the factors stored in X[u].
    [posv A b]: LAPACK's solver, [None] when it reports an error. *)
Definition ls_row (posv : mat -> vec -> option vec) (initialA : mat) (n : nat) (Y : mat) (row : list (nat * T)) : res vec :=
  match row with
  | [] => Ok (zeros n)
  | _ => do '(A, b) <- system initialA n Y row;
         match posv A b with Some x => Ok x | None => Raise ValueError end
  end.

(** _als.pyx:75-142 [_least_squares]: [users] is X.shape[0], [n] X.shape[1]; rows in
    order (other schedules: PropAls).  On an exception the rows written so far are lost
    in this model: the callers that keep X ([fit]) are modelled as failing as a whole. *)
Definition least_squares_c (posv : mat -> vec -> option vec) (YtY : mat) (Cui : csr T) (users n : nat) (Y : mat) (reg : T) : res mat :=
  let initialA := add_diag reg YtY in
  map_res (fun u => do row <- raw_entries Cui u; ls_row posv initialA n Y row) (seq 0 users).

(** _als.pyx:67-72 [least_squares] *)
Definition least_squares posv (n : nat) (Cui : csr T) (X Y : mat) (reg : T) : res mat :=
  least_squares_c posv (gram n Y) Cui (length X) n Y reg.

(* ---------------------------------------------------------------- conjugate gradient *)
(** _als.pyx:189-203: r = b - A x. *)
Definition residual (YtY : mat) (Y : mat) (row : list (nat * T)) (x : vec) : res vec :=
  fold_res (fun r e =>
      do y <- raw_row Y (fst e);
      let t0 := if nltb nzero (snd e) then snd e else nzero in
      let t := nsub t0 (nmul (nsub (conf_abs (snd e)) none_) (ndot y x)) in
      Ok (axpy t y r)) row (symv (nopp none_) YtY x).
(** _als.pyx:212-225: A p.  Here the sign test is [confidence < 0]. *)
Definition apply_A (YtY : mat) (Y : mat) (row : list (nat * T)) (p : vec) : res vec :=
  fold_res (fun Ap e =>
      do y <- raw_row Y (fst e);
      let c := if nltb (snd e) nzero then nmul (nopp none_) (snd e) else snd e in
      Ok (axpy (nmul (nsub c none_) (ndot y p)) y Ap)) row (symv none_ YtY p).
(** _als.pyx:211-244: the loop of [cg_steps] iterations; [eps] is 1e-20. *)
Fixpoint cg_loop (eps : T) (steps : nat) (YtY Y : mat) (row : list (nat * T)) (x r p : vec) (rsold : T) : res vec :=
  match steps with
  | O => Ok x
  | S steps' =>
      do Ap <- apply_A YtY Y row p;
      do alpha <- c_div rsold (ndot p Ap);
      let x' := axpy alpha p x in
      let r' := axpy (nmul alpha (nopp none_)) Ap r in
      let rsnew := ndot r' r' in
      if nltb rsnew eps then Ok x' else
      do beta <- c_div rsnew rsold;
      cg_loop eps steps' YtY Y row x' r' (axpy none_ r' (scal beta p)) rsnew
  end.
(** _als.pyx:180-244, one iteration of the parallel loop. *)
Definition cg_row (eps : T) (steps : nat) (YtY : mat) (n : nat) (Y : mat) (row : list (nat * T)) (x : vec) : res vec :=
  match row with
  | [] => Ok (zeros n)
  | _ => do r <- residual YtY Y row x;
         let rsold := ndot r r in
         if nltb rsold eps then Ok x else cg_loop eps steps YtY Y row x r r rsold
  end.
(** _als.pyx:145-248 [least_squares_cg] *)
Definition least_squares_cg (eps : T) (steps : nat) (n : nat) (Cui : csr T) (X Y : mat) (reg : T) : res mat :=
  let YtY := add_diag reg (gram n Y) in
  map_res (fun ux => do row <- raw_entries Cui (fst ux); cg_row eps steps YtY n Y row (snd ux)) (enum X).

(* ---------------------------------------------------------------- pure python solvers *)
(** numpy [Y[i]] with a non-negative index: IndexError when out of range. *)
Definition np_row (Y : mat) (i : nat) : res vec :=
  match nth_error Y i with Some y => Ok y | None => Raise IndexError end.
(** utils.py:9-12 [nonzeros(m, row)]: [indptr[row + 1]] raises IndexError. *)
Definition np_entries (m : csr T) (u : nat) : res (list (nat * T)) :=
  if S u <? length (c_indptr m) then Ok (csr_row m u) else Raise IndexError.
(** [A += c * np.outer(y, y)] *)
Definition add_outer (c : T) (y : vec) (A : mat) : mat :=
  map (fun p => map (fun q => nadd (snd q) (nmul c (nmul (fst p) (fst q)))) (combine y (snd p))) (combine y A).
(** als.py:493-512 [user_linear_equation] *)
Definition user_linear_equation (Y YtY : mat) (row : list (nat * T)) (reg : T) (n : nat) : res (mat * vec) :=
  fold_res (fun s e =>
      do y <- np_row Y (fst e);
      let b' := if nltb nzero (snd e) then axpy (snd e) y (snd s) else snd s in
      let c := if nltb nzero (snd e) then snd e else nmul (snd e) (nopp none_) in
      Ok (add_outer (nsub c none_) y (fst s), b')) row (add_diag reg YtY, zeros n).
(** als.py:479-490, 515-518: [np.linalg.solve] is [solve] ([None]: LinAlgError). *)
Definition least_squares_py (solve : mat -> vec -> option vec) (n : nat) (Cui : csr T) (X Y : mat) (reg : T) : res mat :=
  let YtY := gram n Y in
  map_res (fun u => do row <- np_entries Cui u;
      do '(A, b) <- user_linear_equation Y YtY row reg n;
      match solve A b with Some x => Ok x | None => Raise ValueError end) (seq 0 (length X)).
(** als.py:536-542 *)
Definition residual_py (YtY : mat) (Y : mat) (row : list (nat * T)) (x : vec) : res vec :=
  fold_res (fun r e =>
      do y <- np_row Y (fst e);
      let c := snd e in
      let t := if nltb nzero c then nsub c (nmul (nsub c none_) (ndot y x))
               else nmul (nopp (nsub (nmul c (nopp none_)) none_)) (ndot y x) in
      Ok (axpy t y r)) row (symv (nopp none_) YtY x).
(** als.py:527-568 [least_squares_cg]: the loop body is that of the native version;
    there is no special case for a row without entries. *)
Definition cg_row_py (eps : T) (steps : nat) (YtY : mat) (Y : mat) (row : list (nat * T)) (x : vec) : res vec :=
  do r <- residual_py YtY Y row x;
  let rsold := ndot r r in
  if nltb rsold eps then Ok x else cg_loop eps steps YtY Y row x r r rsold.
Definition least_squares_cg_py (eps : T) (steps : nat) (n : nat) (Cui : csr T) (X Y : mat) (reg : T) : res mat :=
  let YtY := add_diag reg (gram n Y) in
  map_res (fun ux => do row <- np_entries Cui (fst ux); cg_row_py eps steps YtY Y row (snd ux)) (enum X).

(* ---------------------------------------------------------------- loss *)
(** _als.pyx:278-299: what one iteration over a user adds to (total_confidence, loss,
    user_norm). *)
Definition loss_user (YtY : mat) (Y : mat) (row : list (nat * T)) (x : vec) : res (T * T * T) :=
  do '(r, total, loss) <- fold_res (fun s e =>
      let '(r, total, loss) := s in
      do y <- raw_row Y (fst e);
      let c := conf_abs (snd e) in
      let t0 := if nltb nzero (snd e) then nmul (nopp (nadd none_ none_)) (snd e) else nzero in
      let t := nadd t0 (nmul (nsub c none_) (ndot y x)) in
      Ok (axpy t y r, nadd total c, nadd loss c)) row (symv none_ YtY x, nzero, nzero);
  Ok (total, nadd loss (ndot r x), ndot x x).
(** _als.pyx:251-308 [_calculate_loss]; [uorder] / [iorder]: the orders in which the
    OpenMP reduction adds up the per-user and per-item terms (permutations of all users,
    items).  [of_nat] converts counts; [Cui.nnz] is the last entry of indptr. *)
Definition calculate_loss (of_nat : nat -> T) (n : nat) (uorder iorder : list nat) (Cui : csr T) (X Y : mat) (reg : T) : res T :=
  let YtY := gram n Y in
  do parts <- map_res (fun u => do row <- raw_entries Cui u; do x <- raw_row X u; loss_user YtY Y row x) uorder;
  do items <- map_res (fun i => do y <- raw_row Y i; Ok (ndot y y)) iorder;
  let total := nsum (map (fun p => fst (fst p)) parts) in
  let loss := nadd (nsum (map (fun p => snd (fst p)) parts)) (nmul reg (nadd (nsum items) (nsum (map snd parts)))) in
  c_div loss (nsub (nadd total (of_nat (c_rows Cui * c_cols Cui))) (of_nat (nth (c_rows Cui) (c_indptr Cui) 0))).

(* ---------------------------------------------------------------- fit *)
(** [Cui.T.tocsr()] (als.py:136) *)
Definition transpose (m : csr T) : csr T :=
  csr_of_rows (c_rows m)
    (map (fun j => flat_map (fun u => map (fun p => (u, snd p)) (filter (fun p => fst p =? j) (csr_row m u)))
                            (seq 0 (c_rows m)))
         (seq 0 (c_cols m))).
(** [alpha * m] *)
Definition csr_scale (a : T) (m : csr T) : csr T :=
  {| c_rows := c_rows m; c_cols := c_cols m; c_indptr := c_indptr m; c_indices := c_indices m;
     c_data := map (nmul a) (c_data m) |}.
(** als.py:131-133, 226-227, 258-259, 380-381: [if self.alpha != 1.0: m = self.alpha * m] *)
Definition apply_alpha (alpha : T) (m : csr T) : csr T := if neqb alpha none_ then m else csr_scale alpha m.

(** als.py:158-196: [iterations] rounds of the two half steps. *)
Definition solver_t := csr T -> mat -> mat -> T -> res mat.
Fixpoint als_iterate (solver : solver_t) (reg : T) (Cui Ciu : csr T) (k : nat) (X Y : mat) : res (mat * mat) :=
  match k with
  | O => Ok (X, Y)
  | S k' => do X' <- solver Cui X Y reg; do Y' <- solver Ciu Y X' reg; als_iterate solver reg Cui Ciu k' X' Y'
  end.
(** als.py:417-422 [solver] *)
Record als_opts : Type := { use_cg : bool; use_native : bool; o_cg_steps : nat }.
Definition als_solver (posv solve : mat -> vec -> option vec) (eps : T) (n : nat) (o : als_opts) : solver_t :=
  if use_cg o then (if use_native o then least_squares_cg eps (o_cg_steps o) n else least_squares_cg_py eps (o_cg_steps o) n)
  else (if use_native o then least_squares posv n else least_squares_py solve n).
(** als.py:97-201 [fit] from given starting factors; the input is a float32 csr matrix.
    Progress bar, logging and the NaN check at the end are left out. *)
Definition als_fit (solver : solver_t) (alpha reg : T) (iterations : nat) (user_items : csr T) (X Y : mat) : res (mat * mat) :=
  let Cui := apply_alpha alpha user_items in
  als_iterate solver reg Cui (transpose Cui) iterations X Y.
(** gpu/als.py:80-167 [fit]: the same loop with the GPU solver, without [alpha]. *)
Definition gpu_als_fit (solver : solver_t) (alpha reg : T) (iterations : nat) (user_items : csr T) (X Y : mat) : res (mat * mat) :=
  als_iterate solver reg user_items (transpose user_items) iterations X Y.

(** als.py:203-240 [recalculate_user]; [YtY] is the cached Gram matrix. *)
Definition id_count (u : idarg) : nat := length (id_list u).
Definition recalculate_user posv (alpha reg : T) (n : nat) (YtY Y : mat) (userid : idarg) (user_items : csr T) : res mat :=
  if negb (c_rows user_items =? id_count userid) then Raise ValueError else
  least_squares_c posv YtY (apply_alpha alpha user_items) (id_count userid) n Y reg.
(** als.py:242-273 [recalculate_item]: no check of the number of rows. *)
Definition recalculate_item posv (alpha reg : T) (n : nat) (XtX X : mat) (itemid : idarg) (item_users : csr T) : res mat :=
  least_squares_c posv XtX (apply_alpha alpha item_users) (id_count itemid) n X reg.
End Als.
