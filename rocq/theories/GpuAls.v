(** Model of GPU alternating least squares: implicit/gpu/als.cu, implicit/gpu/als.py and the parts of
    implicit/gpu/matrix.cu and implicit/gpu/_cuda.pyx that they use.

    A kernel runs one thread per factor in each block.  A variable of the kernel is modelled by the list of
    its values in the threads of the block.  Values of 16-bit matrices are not rounded. *)
From Coq Require Import List Arith Lia Bool ZArith.
From Verif Require Import Base Num Sparse TopkModel RecommendModel AlsModel GpuKnn.
Import ListNotations.

Section Model.
Context {T : Type} {NT : Num T}.
Local Notation vec := (list T).
Local Notation mat := (list (list T)).

(** dot(a, b, shared) of implicit/gpu/dot.cuh as a function of the products of the threads: its value in every
    thread (GpuDot.v has the reduction itself). *)
Variable bdot : list T -> T.
(** SMALL, implicit/gpu/als.cu 20. *)
Variable eps : T.

(** The same instruction in all threads. *)
Definition lanes2 (f : T -> T -> T) (a b : vec) : vec := map (fun p => f (fst p) (snd p)) (combine a b).
Definition prods (a b : vec) : vec := lanes2 nmul a b.
(** als.cu 49-51 and 72-74, 222-226: the loop over [i], for thread [t]. *)
Definition column (A : mat) (t : nat) : vec := map (fun r => nth t r nzero) A.

(** als.cu 48-65 *)
Definition gpu_residual (n : nat) (YtY Y : mat) (row : list (nat * T)) (x : vec) : res vec :=
  let r0 := map (fun t => fold_left (fun r p => nsub r (nmul (fst p) (snd p))) (combine x (column YtY t)) nzero) (seq 0 n) in
  fold_res (fun r e =>
      do y <- raw_row Y (fst e);
      let d := bdot (prods y x) in
      let c := snd e in
      if nltb nzero c then Ok (lanes2 (fun rt yt => nadd rt (nmul (nsub c (nmul (nsub c none_) d)) yt)) r y)
      else let c := nmul c (nopp none_) in
           Ok (lanes2 (fun rt yt => nadd rt (nmul (nmul (nopp (nsub c none_)) d) yt)) r y)) row r0.
(** als.cu 72-84 *)
Definition gpu_apply (n : nat) (YtY Y : mat) (row : list (nat * T)) (p : vec) : res vec :=
  let a0 := map (fun t => fold_left (fun a q => nadd a (nmul (fst q) (snd q))) (combine p (column YtY t)) nzero) (seq 0 n) in
  fold_res (fun Ap e =>
      do y <- raw_row Y (fst e);
      let c := if nltb (snd e) nzero then nmul (snd e) (nopp none_) else snd e in
      let d := bdot (prods y p) in
      Ok (lanes2 (fun at_ yt => nadd at_ (nmul (nmul (nsub c none_) d) yt)) Ap y)) row a0.
(** als.cu 70-99, with the values after the loop stored at line 109.  The isnan test has no counterpart. *)
Fixpoint gpu_cg_loop (steps n : nat) (YtY Y : mat) (row : list (nat * T)) (x r p : vec) (rsold : T) : res vec :=
  match steps with
  | O => Ok x
  | S steps' =>
      do Ap <- gpu_apply n YtY Y row p;
      do alpha <- c_div rsold (bdot (prods p Ap));
      let x' := lanes2 (fun xt pt => nadd xt (nmul alpha pt)) x p in
      let r' := lanes2 (fun rt at_ => nsub rt (nmul alpha at_)) r Ap in
      let rsnew := bdot (prods r' r') in
      if nltb rsnew eps then Ok x' else
      do beta <- c_div rsnew rsold;
      let p' := lanes2 (fun rt pt => nadd rt (nmul beta pt)) r' p in
      gpu_cg_loop steps' n YtY Y row x' r' p' rsnew
  end.
(** als.cu 36-109 for one [u]: the row written back. *)
Definition gpu_cg_row (steps n : nat) (YtY Y : mat) (row : list (nat * T)) (x : vec) : res vec :=
  match row with
  | [] => Ok (repeat nzero n)
  | _ => do r <- gpu_residual n YtY Y row x;
         let rsold := bdot (prods r r) in
         if nltb rsold eps then Ok x else gpu_cg_loop steps n YtY Y row x r r rsold
  end.

(** The users of block [b] of a grid of [G] blocks: u = b, b + G, ... (als.cu 36, 213, 246). *)
Fixpoint stride (fuel u G count : nat) : list nat :=
  match fuel with O => [] | S f => if u <? count then u :: stride f (u + G) G count else [] end.
Definition grid (G count : nat) : list (list nat) := map (fun b => stride count b G count) (seq 0 G).

(** One user of the kernel, reading and writing row [u] of X.  Reads of indptr past its end are undefined. *)
Definition gpu_user (steps n : nat) (Cui : csr T) (YtY Y : mat) (u : nat) (x : vec) : res vec :=
  do row <- raw_entries Cui u; gpu_cg_row steps n YtY Y row x.
(** The accesses of a block to X while it handles one user: the row is read at the beginning and written at
    the end; the values in between are in registers and shared memory. *)
Inductive gpu_phase := GLoad | GStore (x : vec).
Definition gpu_task (steps n : nat) (Cui : csr T) (YtY Y : mat) (u : nat) (buf : unit) (ph : gpu_phase) (x : vec)
  : res (unit * option gpu_phase * vec) :=
  match ph with
  | GLoad => do x' <- gpu_user steps n Cui YtY Y u x; Ok (tt, Some (GStore x'), x)
  | GStore x' => Ok (tt, None, x')
  end.
(** als.cu 23-111, the users in the order [order]. *)
Definition gpu_kernel (steps n : nat) (Cui : csr T) (YtY Y : mat) (order : list nat) (X : mat) : res mat :=
  fold_res (fun X u => do x <- raw_row X u; do x' <- gpu_user steps n Cui YtY Y u x; Ok (upd u x' X)) order X.

(** A launch with one thread per factor.  A block has at most 1024 threads; a launch with more does not run,
    and reports that only through cudaGetLastError, which is not called (cudaDeviceSynchronize, lines 148, 151
    and 196, returns the errors of kernels that ran). *)
Definition launches (n : nat) : bool := (Z.of_nat n <=? 1024)%Z.

(** als.cu 113-116 and 122-152 LeastSquaresSolver::calculate_yty *)
Definition gpu_yty (Y : gmatrix T) (ytycols : nat) (reg : T) : res mat :=
  if negb (ytycols =? g_cols Y) then Raise ValueError else
  if negb ((g_size Y =? 4) || (g_size Y =? 2))%Z then Raise ValueError else
  let G := gram (g_cols Y) (g_rows Y) in
  Ok (if launches (g_cols Y) then add_diag reg G else G).
(** als.cu 154-197 LeastSquaresSolver::least_squares; [ytycols]: number of columns of [YtY]. *)
Definition gpu_least_squares (order : list nat) (Cui : csr T) (X : gmatrix T) (ytycols : nat) (YtY : mat) (Y : gmatrix T) (steps : nat) : res (gmatrix T) :=
  if negb (g_cols X =? g_cols Y) then Raise ValueError else
  if negb (g_cols X =? ytycols) then Raise ValueError else
  if length (g_rows X) <? c_rows Cui then Raise ValueError else
  if length (g_rows Y) <? c_cols Cui then Raise ValueError else
  if negb (g_size Y =? g_size X)%Z then Raise ValueError else
  if negb ((g_size Y =? 4) || (g_size Y =? 2))%Z then Raise ValueError else
  do rows <- (if launches (g_cols X) then gpu_kernel steps (g_cols X) Cui YtY (g_rows Y) order (g_rows X) else Ok (g_rows X));
  Ok {| g_size := g_size X; g_cols := g_cols X; g_rows := rows |}.

(* ---------------------------------------------------------------- loss *)
(** als.cu 213-243: one user; (total_confidence, loss, user_norm). *)
Definition gpu_loss_user (n : nat) (YtY Y : mat) (row : list (nat * T)) (x : vec) : res (T * T * T) :=
  let r0 := map (fun t => fold_left (fun r p => nadd r (nmul (fst p) (snd p))) (combine x (column YtY t)) nzero) (seq 0 n) in
  do '(r, total) <- fold_res (fun s e =>
      let '(r, total) := s in
      do y <- raw_row Y (fst e);
      let d := bdot (prods y x) in
      let c := snd e in
      if nltb nzero c then
        Ok (lanes2 (fun rt yt => nadd rt (nmul (nsub (nmul (nsub c none_) d) (nmul (nadd none_ none_) c)) yt)) r y, nadd total c)
      else let c := nmul c (nopp none_) in
        Ok (lanes2 (fun rt yt => nadd rt (nmul (nmul (nsub c none_) d) yt)) r y, nadd total c)) row (r0, nzero);
  Ok (total, nadd total (bdot (prods x r)), bdot (prods x x)).
(** als.cu 209-250: one block, what it adds to output[0] and output[1].  [loss] and [total_confidence] get the
    confidences of the users one after the other, here user by user. *)
Definition gpu_loss_block (n : nat) (Cui : csr T) (X Y YtY : mat) (reg : T) (users items : list nat) : res (T * T) :=
  do parts <- map_res (fun u => do x <- raw_row X u; do row <- raw_entries Cui u; gpu_loss_user n YtY Y row x) users;
  do norms <- map_res (fun i => do y <- raw_row Y i; Ok (bdot (prods y y))) items;
  Ok (nadd (nsum (map (fun p => snd (fst p)) parts)) (nmul reg (nadd (nsum norms) (nsum (map snd parts)))),
      nsum (map (fun p => fst (fst p)) parts)).
(** als.cu 253-281 LeastSquaresSolver::calculate_loss: [G] = 1024 blocks, whose two atomicAdd calls happen in
    the orders [ord0] and [ord1] (permutations of the blocks).  There are no checks of the shapes.  A launch
    that does not run leaves the output at 0.  The division is that of floats; a zero divisor (inf or nan) is
    written ZeroDivisionError as in [c_div]. *)
Definition gpu_calculate_loss (of_nat : nat -> T) (G : nat) (ord0 ord1 : list nat) (Cui : csr T) (X Y : gmatrix T) (reg : T) : res T :=
  let n := g_cols Y in
  do YtY <- gpu_yty Y n nzero;
  do outs <- (if launches n then
      map_res (fun us => gpu_loss_block n Cui (g_rows X) (g_rows Y) YtY reg (fst us) (snd us))
              (combine (grid G (length (g_rows X))) (grid G (length (g_rows Y))))
    else Ok []);
  let out0 := nsum (map (fun b => fst (nth b outs (nzero, nzero))) ord0) in
  let out1 := nsum (map (fun b => snd (nth b outs (nzero, nzero))) ord1) in
  c_div out0 (nsub (nadd out1 (of_nat (c_rows Cui * c_cols Cui))) (of_nat (length (c_data Cui)))).

(* ---------------------------------------------------------------- python layer *)
(** _cuda.pyx 223-235 CSRMatrix: the addresses of the first elements of indices and data are taken, which raises
    IndexError when there are none. *)
Definition csr_upload (m : csr T) : res (csr T) :=
  match c_indices m with [] => Raise IndexError | _ => Ok m end.

(** One half step of implicit/gpu/als.py 151-155 as a solver for [gpu_als_fit]; all users in the order [order]. *)
Definition gpu_solver (order : nat -> list nat) (n : nat) (size : Z) (steps : nat) : csr T -> mat -> mat -> T -> res mat :=
  fun m X Y reg =>
    let gX := {| g_size := size; g_cols := n; g_rows := X |} in
    let gY := {| g_size := size; g_cols := n; g_rows := Y |} in
    do YtY <- gpu_yty gY n reg;
    do X' <- gpu_least_squares (order (length X)) m gX n YtY gY steps;
    Ok (g_rows X').
(** implicit/gpu/als.py 80-179 fit, from given factors: the two uploads, then the iterations. *)
Definition gpu_fit (order : nat -> list nat) (n : nat) (size : Z) (steps : nat) (alpha reg : T) (iterations : nat) (user_items : csr T) (X Y : mat) : res (mat * mat) :=
  do _ <- csr_upload (transpose user_items);
  do _ <- csr_upload user_items;
  gpu_als_fit (gpu_solver order n size steps) alpha reg iterations user_items X Y.

(** The fitted model: implicit/gpu/als.py 47-80 and implicit/gpu/matrix_factorization_base.py 21-32.  The copies of
    the norms on the host are filled and cleared together with those on the device. *)
Record gals : Type := {
  ga_n : nat; ga_size : Z; ga_reg : T; ga_alpha : T;
  ga_X : gmatrix T; ga_Y : gmatrix T;
  ga_XtX : option mat; ga_YtY : option mat;
  ga_unorms : option vec; ga_inorms : option vec }.

(** als.py 284-296: the cached Gram matrices (with regularization). *)
Definition yty_value (cache : option mat) (n : nat) (Y : gmatrix T) (reg : T) : res mat :=
  match cache with Some m => Ok m | None => gpu_yty Y n reg end.
(** als.py 181-192 and 194-204: recalculate_user and recalculate_item; [other] are the item and user factors,
    [cache] is _YtY and _XtX. *)
Definition gpu_recalculate (order : list nat) (g : gals) (other : gmatrix T) (cache : option mat) (count : nat) (m : csr T) : res (gmatrix T) :=
  let m := apply_alpha (ga_alpha g) m in
  if negb ((ga_size g =? 4) || (ga_size g =? 2))%Z then Raise ValueError else
  let X := {| g_size := ga_size g; g_cols := ga_n g; g_rows := repeat (repeat nzero (ga_n g)) count |} in
  do m <- csr_upload m;
  do YtY <- yty_value cache (ga_n g) other (ga_reg g);
  gpu_least_squares order m X (ga_n g) YtY other (ga_n g).
Definition gpu_recalculate_user (order : list nat) (g : gals) (userid : idarg) (user_items : csr T) : res (gmatrix T) :=
  gpu_recalculate order g (ga_Y g) (ga_YtY g) (id_count userid) user_items.
Definition gpu_recalculate_item (order : list nat) (g : gals) (itemid : idarg) (item_users : csr T) : res (gmatrix T) :=
  gpu_recalculate order g (ga_X g) (ga_XtX g) (id_count itemid) item_users.

(** matrix.cu 98-120 Matrix::resize, to at least as many rows. *)
Definition gpu_resize (m : gmatrix T) (rows : nat) : gmatrix T :=
  {| g_size := g_size m; g_cols := g_cols m;
     g_rows := g_rows m ++ repeat (repeat nzero (g_cols m)) (rows - length (g_rows m)) |}.
(** matrix.cu 122-143 Matrix::assign_rows and _cuda.pyx 163-166: the ids as int32; then the casts of both
    matrices to float pointers (matrix.h 57-69: std::runtime_error); then one store per cell, in any order
    [cells] (a permutation of the cells of [other]).  A store outside the matrix is undefined. *)
Definition gpu_store (ids : list Z) (other : gmatrix T) (rows : mat) (i : nat) : res mat :=
  let col := i mod g_cols other in
  let k := i / g_cols other in
  let row := nth k ids 0%Z in
  if ((0 <=? row) && (row <? Z.of_nat (length rows)))%Z
  then Ok (upd (Z.to_nat row) (upd col (nth col (nth k (g_rows other) []) nzero) (nth (Z.to_nat row) rows [])) rows)
  else Raise UB.
Definition gpu_assign_rows (cells : list nat) (ids : list Z) (other : gmatrix T) (m : gmatrix T) : res (gmatrix T) :=
  match ids with [] => Raise IndexError | _ =>
  if negb (g_cols other =? g_cols m) then Raise ValueError else
  if negb (g_size other =? 4)%Z || negb (g_size m =? 4)%Z then Raise RuntimeError else
  do rows <- fold_res (gpu_store (map wrap32 ids) other) cells (g_rows m);
  Ok {| g_size := g_size m; g_cols := g_cols m; g_rows := rows |} end.

Definition set_gX g X := {| ga_n := ga_n g; ga_size := ga_size g; ga_reg := ga_reg g; ga_alpha := ga_alpha g; ga_X := X; ga_Y := ga_Y g;
  ga_XtX := ga_XtX g; ga_YtY := ga_YtY g; ga_unorms := ga_unorms g; ga_inorms := ga_inorms g |}.
Definition set_gY g Y := {| ga_n := ga_n g; ga_size := ga_size g; ga_reg := ga_reg g; ga_alpha := ga_alpha g; ga_X := ga_X g; ga_Y := Y;
  ga_XtX := ga_XtX g; ga_YtY := ga_YtY g; ga_unorms := ga_unorms g; ga_inorms := ga_inorms g |}.
Definition set_gYtY g c := {| ga_n := ga_n g; ga_size := ga_size g; ga_reg := ga_reg g; ga_alpha := ga_alpha g; ga_X := ga_X g; ga_Y := ga_Y g;
  ga_XtX := ga_XtX g; ga_YtY := c; ga_unorms := ga_unorms g; ga_inorms := ga_inorms g |}.
Definition set_gXtX g c := {| ga_n := ga_n g; ga_size := ga_size g; ga_reg := ga_reg g; ga_alpha := ga_alpha g; ga_X := ga_X g; ga_Y := ga_Y g;
  ga_XtX := c; ga_YtY := ga_YtY g; ga_unorms := ga_unorms g; ga_inorms := ga_inorms g |}.
Definition clear_user_caches g := {| ga_n := ga_n g; ga_size := ga_size g; ga_reg := ga_reg g; ga_alpha := ga_alpha g; ga_X := ga_X g; ga_Y := ga_Y g;
  ga_XtX := None; ga_YtY := ga_YtY g; ga_unorms := None; ga_inorms := ga_inorms g |}.
Definition clear_item_caches g := {| ga_n := ga_n g; ga_size := ga_size g; ga_reg := ga_reg g; ga_alpha := ga_alpha g; ga_X := ga_X g; ga_Y := ga_Y g;
  ga_XtX := ga_XtX g; ga_YtY := None; ga_unorms := ga_unorms g; ga_inorms := None |}.

Definition zmax (l : list Z) : res Z := match l with [] => Raise ValueError | a :: l' => Ok (fold_left Z.max l' a) end.
(** The object after reading the property YtY (XtX). *)
Definition fill_YtY g : gals := match yty_value (ga_YtY g) (ga_n g) (ga_Y g) (ga_reg g) with Ok v => set_gYtY g (Some v) | Raise _ => g end.
Definition fill_XtX g : gals := match yty_value (ga_XtX g) (ga_n g) (ga_X g) (ga_reg g) with Ok v => set_gXtX g (Some v) | Raise _ => g end.
(** als.py 206-239 partial_fit_users: the object afterwards and the exception, if any.  Failures before the
    factors are touched leave the object as it is (up to the cache of YtY). *)
Definition gpu_partial_fit_users (order cells : list nat) (g : gals) (userids : list Z) (user_items : csr T) : gals * res unit :=
  if negb (length userids =? c_rows user_items) then (g, Raise ValueError) else
  match gpu_recalculate_user order g (Batch userids) user_items with
  | Raise e => (g, Raise e)
  | Ok uf =>
      let g := fill_YtY g in
      match zmax userids with
      | Raise e => (g, Raise e)
      | Ok mx =>
          let g := if (Z.of_nat (length (g_rows (ga_X g))) <=? mx)%Z then set_gX g (gpu_resize (ga_X g) (Z.to_nat (mx + 1))) else g in
          match gpu_assign_rows cells userids uf (ga_X g) with
          | Raise e => (g, Raise e)
          | Ok X' => (clear_user_caches (set_gX g X'), Ok tt)
          end
      end
  end.
(** als.py 241-275 partial_fit_items *)
Definition gpu_partial_fit_items (order cells : list nat) (g : gals) (itemids : list Z) (item_users : csr T) : gals * res unit :=
  if negb (length itemids =? c_rows item_users) then (g, Raise ValueError) else
  match gpu_recalculate_item order g (Batch itemids) item_users with
  | Raise e => (g, Raise e)
  | Ok itf =>
      let g := fill_XtX g in
      match zmax itemids with
      | Raise e => (g, Raise e)
      | Ok mx =>
          let g := if (Z.of_nat (length (g_rows (ga_Y g))) <=? mx)%Z then set_gY g (gpu_resize (ga_Y g) (Z.to_nat (mx + 1))) else g in
          match gpu_assign_rows cells itemids itf (ga_Y g) with
          | Raise e => (g, Raise e)
          | Ok Y' => (clear_item_caches (set_gY g Y'), Ok tt)
          end
      end
  end.
End Model.
