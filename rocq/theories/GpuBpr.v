(** Model of BPR training on the GPU: implicit/gpu/bpr.py [fit] and implicit/gpu/bpr.cu. *)
From Coq Require Import List Arith Lia Bool ZArith.
From Verif Require Import Base Num Heap Sparse ThreadProg BprModel GpuAls.
Import ListNotations.

Section GpuBpr.
Context {T : Type} `{Num T}.
Notation bprog := (bprog (T := T)).
Notation bmem := (bmem (T := T)).
Notation bpr_opts := (bpr_opts (T := T)).

(** What the kernel gets besides the factors (bpr.cu 17-22): the number of samples, the arrays, and the
    random numbers of curand (arbitrary functions). *)
Record kernel_in : Type := {
  k_samples : nat; k_userids : list nat; k_itemids : list nat; k_indptr : list nat;
  k_likes : nat -> nat; k_dislikes : nat -> nat }.

(** bpr.cu 29-33: the user, the liked and the disliked item of sample [i]. *)
Definition sample_of (k : kernel_in) (i : nat) : event :=
  let li := k_likes k i mod k_samples k in
  let di := k_dislikes k i mod k_samples k in
  (nth li (k_userids k) 0, nth li (k_itemids k) 0, nth di (k_itemids k) 0).
(** bpr.cu 35-40: is sample [i] skipped?  thrust::binary_search is std::binary_search. *)
Definition is_skipped (o : bpr_opts) (k : kernel_in) (i : nat) : bool :=
  let '(u, _, d) := sample_of k i in b_verify o && has_non_zero (k_indptr k) (k_itemids k) u d.

(** bpr.cu 26-69, thread [j] of a block whose samples are [is]: every access to a factor is a separate step of
    the thread (a += is a read and a write).  [zs i] is the number z which this thread computes from the inner
    product of sample [i] (49-50): any number, so that nothing stated here relies on the block reduction (C78,
    C79) nor on its barriers keeping the threads of a block together.  [cols] is the argument [factors]: the
    test in line 60 is always true.  Only thread 0 adds to the statistics. *)
Fixpoint gpu_bpr_lane (o : bpr_opts) (k : kernel_in) (cols j : nat) (zs : nat -> T) (is : list nat) (correct skipped : nat) : bprog :=
  match is with
  | [] => Ret (if j =? 0 then (correct, skipped) else (0, 0))
  | i :: is' =>
      if is_skipped o k i then gpu_bpr_lane o k cols j zs is' correct (S skipped) else
      let '(u, l, d) := sample_of k i in
      Ev (u, l, d)
      (Rd (CX u j) (fun uv => Rd (CY l j) (fun lv => Rd (CY d j) (fun dv =>
       let z := zs i in
       let correct' := if nltb z half then S correct else correct in
       Rd (CY l j) (fun l0 => Wr (CY l j) (nadd l0 (nmul (b_lr o) (nsub (nmul z uv) (nmul (b_reg o) lv))))
      (Rd (CY d j) (fun d0 => Wr (CY d j) (nadd d0 (nmul (b_lr o) (nsub (nmul (nopp z) uv) (nmul (b_reg o) dv))))
      (if j <? cols then
         Rd (CX u j) (fun u0 => Wr (CX u j) (nadd u0 (nmul (b_lr o) (nsub (nmul z (nsub lv dv)) (nmul (b_reg o) uv))))
         (gpu_bpr_lane o k cols j zs is' correct' skipped))
       else gpu_bpr_lane o k cols j zs is' correct' skipped))))))))
  end.
(** All threads of a launch with [G] blocks of [cols] threads: sample i = blockIdx.x + n * gridDim.x. *)
Definition gpu_bpr_threads (o : bpr_opts) (k : kernel_in) (G cols : nat) (zs : nat -> nat -> T) : list bprog :=
  flat_map (fun is => map (fun j => gpu_bpr_lane o k cols j (zs j) is 0 0) (seq 0 cols)) (grid G (k_samples k)).
(** bpr.cu 72-137 [bpr_update]: the launch, any interleaving [sched] of its threads, and the two statistics
    (int, without wrap around: they are at most [nonzeros], C94).  A block has at most 1024 threads; a launch
    with more does not run and reports no error here (cudaDeviceSynchronize does not return launch errors;
    as in GpuAls).  [None]: the schedule ended before all threads had finished.  The checks in 77-82 hold for the
    arrays of [fit]. *)
Definition gpu_bpr_update (o : bpr_opts) (k : kernel_in) (G cols : nat) (zs : nat -> nat -> T) (sched : list nat) (m : bmem)
  : option (bmem * list event * nat * nat) :=
  if launches cols then
    let '(m', ps, log) := interleave cell_eqb sched m (gpu_bpr_threads o k G cols zs) in
    match results ps with
    | None => None
    | Some rs => Some (m', log, fold_left (fun a r => a + fst r) rs 0, fold_left (fun a r => a + snd r) rs 0)
    end
  else Some (m, [], 0, 0).

(** What differs from epoch to epoch: random numbers, inner products, schedule. *)
Record epoch_in : Type := { e_likes : nat -> nat; e_dislikes : nat -> nat; e_zs : nat -> nat -> T; e_sched : list nat }.
Definition epoch_kernel (M : csr T) (e : epoch_in) : kernel_in :=
  {| k_samples := length (c_indices M); k_userids := row_ids (c_rows M) (c_indptr M); k_itemids := c_indices M;
     k_indptr := c_indptr M; k_likes := e_likes e; k_dislikes := e_dislikes e |}.
(** gpu/bpr.py 135-158: the epochs, the trace records what the callback gets and sees. *)
Fixpoint gpu_bpr_epochs (o : bpr_opts) (M : csr T) (G : nat) (inputs : list epoch_in) (epoch : nat) (m : bmem)
  : option (bmem * list event * list (nat * nat * nat * bmem)) :=
  match inputs with
  | [] => Some (m, [], [])
  | e :: inputs' =>
      match gpu_bpr_update o (epoch_kernel M e) G (S (b_factors o)) (e_zs e) (e_sched e) m with
      | None => None
      | Some (m', log, correct, skipped) =>
          match gpu_bpr_epochs o M G inputs' (S epoch) m' with
          | None => None
          | Some (m'', log', tr) => Some (m'', log ++ log', (epoch, correct, skipped, m') :: tr)
          end
      end
  end.
(** gpu/bpr.py 69-158 [fit] of an unfitted model on a csr matrix of float32; [rx], [ry] are the random factors.
    [IntVector(userids)] (_cuda.pyx 214-215) takes the address of element 0: an IndexError if there is none. *)
Definition gpu_bpr_fit (o : bpr_opts) (user_items : csr T) (G : nat) (rx ry : nat -> nat -> T) (inputs : list epoch_in)
  : res (option (bmem * list event * list (nat * nat * nat * bmem))) :=
  let M := bpr_matrix o user_items in
  if length (c_indices M) =? 0 then Raise IndexError
  else Ok (gpu_bpr_epochs o M G inputs 0 (bpr_init (b_factors o) M rx ry)).
End GpuBpr.
