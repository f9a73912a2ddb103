(** Model of BayesianPersonalizedRanking: implicit/cpu/bpr.pyx, and the GPU kernel
    implicit/gpu/bpr.cu. *)
From Coq Require Import List Arith Lia Bool ZArith.
From Verif Require Import Base Num Heap Sparse ThreadProg.
Import ListNotations.

(** std::lower_bound on an array: [a[first .. first+len)]; the comparison is [<]. *)
Fixpoint lower_bound (fuel : nat) (a : list nat) (first len val : nat) : nat :=
  match fuel with
  | O => first
  | S fuel' =>
      if len =? 0 then first else
      let half := len / 2 in
      if nth (first + half) a 0 <? val then lower_bound fuel' a (first + half + 1) (len - half - 1) val
      else lower_bound fuel' a first half val
  end.
(** std::binary_search (libstdc++): [i != last && !(val < *i)] for the lower bound i. *)
Definition binary_search (a : list nat) (first last val : nat) : bool :=
  let i := lower_bound (S (last - first)) a first (last - first) val in
  negb (i =? last) && negb (val <? nth i a 0).
(** bpr.pyx:62-67 [has_non_zero] *)
Definition has_non_zero (indptr indices : list nat) (rowid colid : nat) : bool :=
  binary_search indices (nth rowid indptr 0) (nth (S rowid) indptr 0) colid.

(** bpr.pyx:150-153: [np.repeat(np.arange(users), np.ediff1d(indptr))] *)
Definition user_counts (users : nat) (indptr : list nat) : list nat :=
  map (fun u => nth (S u) indptr 0 - nth u indptr 0) (seq 0 users).
Definition row_ids (users : nat) (indptr : list nat) : list nat :=
  flat_map (fun u => repeat u (nth u (user_counts users indptr) 0)) (seq 0 users).
(** [np.bincount(indices, minlength=items)] *)
Definition bincount (items : nat) (indices : list nat) : list nat :=
  map (fun i => count_occ Nat.eq_dec indices i) (seq 0 items).

Section Bpr.
Context {T : Type} `{Num T}.

(** scipy [has_sorted_indices], [sort_indices()]: rows ordered by column. *)
Definition row_sorted (row : list (nat * T)) : bool :=
  forallb (fun p => fst (fst p) <=? fst (snd p)) (combine row (tl row)).
Definition has_sorted_indices (m : csr T) : bool := forallb row_sorted (csr_to_rows m).
Definition sort_indices (m : csr T) : csr T :=
  csr_of_rows (c_cols m) (map (sort_by (fun a b => fst b <? fst a)) (csr_to_rows m)).

(** A cell of user_factors / item_factors. *)
Inductive cell : Type := CX (u j : nat) | CY (i j : nat).
Definition cell_eqb (a b : cell) : bool :=
  match a, b with
  | CX u j, CX u' j' => (u =? u') && (j =? j')
  | CY u j, CY u' j' => (u =? u') && (j =? j')
  | _, _ => false
  end.
(** An update of the factors: (user, liked, disliked). *)
Definition event : Type := (nat * nat * nat)%type.
Definition bprog : Type := prog cell T event (nat * nat).

Definition half : T := ndiv none_ (nadd none_ none_).

(** bpr.pyx:284-286: the score loop.  Every occurrence of [user[j]] etc. is a separate
    read. *)
Fixpoint score_loop (u l d : nat) (js : list nat) (score : T) (k : T -> bprog) : bprog :=
  match js with
  | [] => k score
  | j :: js' =>
      Rd (CX u j) (fun uj => Rd (CY l j) (fun lj => Rd (CY d j) (fun dj =>
      score_loop u l d js' (nadd score (nmul uj (nsub lj dj))) k)))
  end.
(** bpr.pyx:293-297 *)
Fixpoint update_loop (lr reg z : T) (u l d : nat) (js : list nat) (k : bprog) : bprog :=
  match js with
  | [] => k
  | j :: js' =>
      Rd (CX u j) (fun temp =>
      (* user[j] += lr * (z * (liked[j] - disliked[j]) - reg * user[j]) *)
      Rd (CX u j) (fun u0 => Rd (CY l j) (fun lj => Rd (CY d j) (fun dj => Rd (CX u j) (fun u1 =>
      Wr (CX u j) (nadd u0 (nmul lr (nsub (nmul z (nsub lj dj)) (nmul reg u1))))
      (* liked[j] += lr * (z * temp - reg * liked[j]) *)
      (Rd (CY l j) (fun l0 => Rd (CY l j) (fun l1 =>
      Wr (CY l j) (nadd l0 (nmul lr (nsub (nmul z temp) (nmul reg l1))))
      (* disliked[j] += lr * (-z * temp - reg * disliked[j]) *)
      (Rd (CY d j) (fun d0 => Rd (CY d j) (fun d1 =>
      Wr (CY d j) (nadd d0 (nmul lr (nsub (nmul (nopp z) temp) (nmul reg d1))))
      (update_loop lr reg z u l d js' k))))))))))))
  end.
(** bpr.pyx:300-301: the item biases, column [f]. *)
Definition bias_update (lr reg z : T) (l d f : nat) (k : bprog) : bprog :=
  Rd (CY l f) (fun l0 => Rd (CY l f) (fun l1 =>
  Wr (CY l f) (nadd l0 (nmul lr (nsub z (nmul reg l1))))
  (Rd (CY d f) (fun d0 => Rd (CY d f) (fun d1 =>
  Wr (CY d f) (nadd d0 (nmul lr (nsub (nopp z) (nmul reg d1)))) k))))).

(** Hyperparameters; [b_exp] is C's exp; [b_factors] is X.shape[1] - 1. *)
Record bpr_opts : Type := { b_exp : T -> T; b_lr : T; b_reg : T; b_factors : nat; b_verify : bool }.
(** bpr.pyx:268-301, one sample: [draw] are the two random numbers.  [k correct skipped]
    is the rest of the thread. *)
Definition bpr_sample (o : bpr_opts) (userids itemids indptr : list nat) (draw : nat * nat) (correct skipped : nat)
    (k : nat -> nat -> bprog) : bprog :=
  let l := nth (fst draw) itemids 0 in
  let d := nth (snd draw) itemids 0 in
  let u := nth (fst draw) userids 0 in
  if b_verify o && has_non_zero indptr itemids u d then k correct (S skipped) else
  Ev (u, l, d)
  (score_loop u l d (seq 0 (S (b_factors o))) nzero (fun score =>
   let z := ndiv none_ (nadd none_ (b_exp o score)) in
   let correct' := if nltb z half then S correct else correct in
   update_loop (b_lr o) (b_reg o) z u l d (seq 0 (b_factors o))
     (bias_update (b_lr o) (b_reg o) z l d (b_factors o) (k correct' skipped)))).
(** The samples of one thread; it returns its share of (correct, skipped). *)
Fixpoint bpr_thread (o : bpr_opts) (userids itemids indptr : list nat) (draws : list (nat * nat)) (correct skipped : nat) : bprog :=
  match draws with
  | [] => Ret (correct, skipped)
  | dr :: draws' => bpr_sample o userids itemids indptr dr correct skipped (bpr_thread o userids itemids indptr draws')
  end.

(** bpr.pyx:249-303 [bpr_update]: [draws] are the random numbers of each thread, one
    pair per sample of its (static) share; [sched] the interleaving.  [None]: the
    schedule ended before all threads had finished. *)
Definition bmem : Type := cell -> T.
Definition bpr_update (o : bpr_opts) (userids itemids indptr : list nat) (draws : list (list (nat * nat))) (sched : list nat) (m : bmem)
  : option (bmem * list event * nat * nat) :=
  let '(m', ps, log) := interleave cell_eqb sched m (map (fun ds => bpr_thread o userids itemids indptr ds 0 0) draws) in
  match results ps with
  | None => None
  | Some rs => Some (m', log, fold_left (fun a r => a + fst r) rs 0, fold_left (fun a r => a + snd r) rs 0)
  end.

(** bpr.pyx:143-153: the matrix and the arrays used for training.  [b_verify]: the
    indices are sorted if they are not. *)
Definition bpr_matrix (o : bpr_opts) (user_items : csr T) : csr T :=
  if b_verify o && negb (has_sorted_indices user_items) then sort_indices user_items else user_items.
(** bpr.pyx:158-173: initial factors of an unfitted model from random numbers
    [rx], [ry] (already shifted and divided by factors). *)
Definition bpr_init (f : nat) (M : csr T) (rx ry : nat -> nat -> T) : bmem :=
  fun c => match c with
           | CX u j => if j =? f then none_ else if nth u (user_counts (c_rows M) (c_indptr M)) 0 =? 0 then nzero else rx u j
           | CY i j => if nth i (bincount (c_cols M) (c_indices M)) 0 =? 0 then nzero else ry i j
           end.
(** bpr.pyx:190-205: the epochs, each with its random numbers and schedule; the trace
    records what the callback gets and sees. *)
Fixpoint bpr_epochs (o : bpr_opts) (M : csr T) (inputs : list (list (list (nat * nat)) * list nat)) (epoch : nat) (m : bmem)
  : option (bmem * list event * list (nat * nat * nat * bmem)) :=
  match inputs with
  | [] => Some (m, [], [])
  | (draws, sched) :: inputs' =>
      match bpr_update o (row_ids (c_rows M) (c_indptr M)) (c_indices M) (c_indptr M) draws sched m with
      | None => None
      | Some (m', log, correct, skipped) =>
          match bpr_epochs o M inputs' (S epoch) m' with
          | None => None
          | Some (m'', log', tr) => Some (m'', log ++ log', (epoch, correct, skipped, m') :: tr)
          end
      end
  end.
(** bpr.pyx:122-207 [fit] of an unfitted model on a csr matrix (without the NaN check). *)
Definition bpr_fit (o : bpr_opts) (user_items : csr T) (rx ry : nat -> nat -> T) (inputs : list (list (list (nat * nat)) * list nat)) :=
  let M := bpr_matrix o user_items in
  bpr_epochs o M inputs 0 (bpr_init (b_factors o) M rx ry).

(* ---------------------------------------------------------------- GPU *)
(** gpu/bpr.cu:39-63, one sample of one block; thread [j] owns column [j].  [cols] is
    the kernel's argument [factors], i.e. X->cols (bpr.cu:110), the bias column
    included. *)
Definition gpu_bpr_sample (o : bpr_opts) (cols : nat) (u l d : nat) (m : bmem) : bmem :=
  let score := nsum (map (fun j => nmul (m (CX u j)) (nsub (m (CY l j)) (m (CY d j)))) (seq 0 cols)) in
  let z := ndiv none_ (nadd none_ (b_exp o score)) in
  fold_left (fun m' j =>
     let uv := m (CX u j) in let lv := m (CY l j) in let dv := m (CY d j) in
     let m1 := mset cell_eqb m' (CY l j) (nadd (m' (CY l j)) (nmul (b_lr o) (nsub (nmul z uv) (nmul (b_reg o) lv)))) in
     let m2 := mset cell_eqb m1 (CY d j) (nadd (m1 (CY d j)) (nmul (b_lr o) (nsub (nmul (nopp z) uv) (nmul (b_reg o) dv)))) in
     if j <? cols then mset cell_eqb m2 (CX u j) (nadd (m2 (CX u j)) (nmul (b_lr o) (nsub (nmul z (nsub lv dv)) (nmul (b_reg o) uv)))) else m2)
   (seq 0 cols) m.
End Bpr.
