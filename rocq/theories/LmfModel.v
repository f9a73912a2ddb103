(** Model of LogisticMatrixFactorization: implicit/cpu/lmf.pyx. *)
From Coq Require Import List Arith Lia Bool ZArith.
From Verif Require Import Base Num Heap Sparse TopkModel RecommendModel AlsModel ThreadProg BprModel.
Import ListNotations.

Section Lmf.
Context {T : Type} `{Num T}.

(** Cells of user_vectors, item_vectors and deriv_sum_sq of one [lmf_update] call. *)
Inductive lcell : Type := LU (u j : nat) | LV (i j : nat) | LD (u j : nat).
Definition lcell_eqb (a b : lcell) : bool :=
  match a, b with
  | LU u j, LU u' j' => (u =? u') && (j =? j')
  | LV u j, LV u' j' => (u =? u') && (j =? j')
  | LD u j, LD u' j' => (u =? u') && (j =? j')
  | _, _ => false
  end.
(** Event: item [i] drawn as a negative for row [u]; a thread returns the position of its
    random stream. *)
Definition lprog : Type := prog lcell T (nat * nat) nat.

(** [l_exp], [l_sqrt]: C's exp and sqrt; [l_tiny]: 1e-6; [l_n]: user_vectors.shape[1], and
    item_vectors.shape[1] (the same in both calls). *)
Record lmf_opts : Type := { l_exp : T -> T; l_sqrt : T -> T; l_tiny : T; l_lr : T; l_reg : T; l_neg : nat; l_n : nat }.
Variable o : lmf_opts.

(** lmf.pyx:220-226 *)
Definition sigmoid (x : T) : T :=
  if nleb nzero x then ndiv none_ (nadd none_ (l_exp o (nopp x)))
  else let z := l_exp o x in ndiv z (nadd none_ z).

(** Reading cells one by one. *)
Fixpoint read_cells (cs : list lcell) (k : list T -> lprog) : lprog :=
  match cs with
  | [] => k []
  | c :: cs' => Rd c (fun v => read_cells cs' (fun vs => k (v :: vs)))
  end.
Definition u_cells (u : nat) : list lcell := map (LU u) (seq 0 (l_n o)).
Definition v_cells (i : nat) : list lcell := map (LV i) (seq 0 (l_n o)).

(** lmf.pyx:259-262.  The reads of a vector are grouped; each is a step of its own. *)
Fixpoint pos_loop (row : list (nat * T)) (deriv : list T) (k : list T -> lprog) : lprog :=
  match row with
  | [] => k deriv
  | (i, c) :: row' => read_cells (v_cells i) (fun y => pos_loop row' (axpy c y deriv) k)
  end.
(** lmf.pyx:265-272 *)
Fixpoint sig_loop (u : nat) (row : list (nat * T)) (deriv : list T) (k : list T -> lprog) : lprog :=
  match row with
  | [] => k deriv
  | (i, c) :: row' =>
      read_cells (u_cells u) (fun x => read_cells (v_cells i) (fun y =>
      let z := nmul (sigmoid (ndot x y)) c in
      sig_loop u row' (axpy (nopp z) y deriv) k))
  end.
(** lmf.pyx:275-284 *)
Fixpoint neg_loop (u : nat) (items : list nat) (deriv : list T) (k : list T -> lprog) : lprog :=
  match items with
  | [] => k deriv
  | i :: items' =>
      Ev (u, i) (read_cells (u_cells u) (fun x => read_cells (v_cells i) (fun y =>
      let z := sigmoid (ndot x y) in
      neg_loop u items' (axpy (nopp z) y deriv) k)))
  end.
(** lmf.pyx:285-290 *)
Fixpoint step_loop (u : nat) (js : list nat) (deriv : list T) (k : lprog) : lprog :=
  match js with
  | [] => k
  | j :: js' =>
      Rd (LU u j) (fun x =>
      let d := nsub (nth j deriv nzero) (nmul (l_reg o) x) in
      Rd (LD u j) (fun g =>
      Wr (LD u j) (nadd g (nmul d d))
      (Rd (LD u j) (fun g' => Rd (LU u j) (fun x' =>
      Wr (LU u j) (nadd x' (nmul (ndiv (l_lr o) (l_sqrt o (nadd (l_tiny o) g'))) d))
      (step_loop u js' deriv k))))))
  end.
(** lmf.pyx:275: [n_items] is [item_vectors.shape[1]] (238), the number of columns. *)
Definition neg_count (seen : nat) : nat := Nat.min (l_n o) (seen * l_neg o).

(** lmf.pyx:252-290: the rows of one thread, in order; [stream] are its random numbers,
    from [pos] on.  (Products and counts are 32-bit ints in C: no overflow here.) *)
Fixpoint lmf_thread (M : csr T) (stream : nat -> nat) (us : list nat) (pos : nat) : lprog :=
  match us with
  | [] => Ret pos
  | u :: us' =>
      let row := csr_row M u in
      if nth u (c_indptr M) 0 =? nth (S u) (c_indptr M) 0 then lmf_thread M stream us' pos else
      let cnt := neg_count (nth (S u) (c_indptr M) 0 - nth u (c_indptr M) 0) in
      let negs := map (fun k => nth (stream (pos + k)) (c_indices M) 0) (seq 0 cnt) in
      pos_loop row (zeros (l_n o)) (fun d1 =>
      sig_loop u row d1 (fun d2 =>
      neg_loop u negs d2 (fun d3 =>
      step_loop u (seq 0 (l_n o)) d3 (lmf_thread M stream us' (pos + cnt)))))
  end.

(** lmf.pyx:229-292 [lmf_update].  [deal]: rows and random stream of each thread. *)
Definition lmem : Type := lcell -> T.
Definition lmf_mem (U V D : nat -> nat -> T) : lmem :=
  fun c => match c with LU u j => U u j | LV i j => V i j | LD u j => D u j end.
Definition lmf_threads (M : csr T) (deal : list (list nat * (nat -> nat))) : list lprog :=
  map (fun d => lmf_thread M (snd d) (fst d) 0) deal.
Definition lmf_update (M : csr T) (deal : list (list nat * (nat -> nat))) (sched : list nat) (U V D : nat -> nat -> T)
  : option ((nat -> nat -> T) * (nat -> nat -> T) * list (nat * nat)) :=
  let '(m, ps, log) := interleave lcell_eqb sched (lmf_mem U V D) (lmf_threads M deal) in
  match results ps with
  | None => None
  | Some _ => Some (fun u j => m (LU u j), fun u j => m (LD u j), log)
  end.

(** [factors[:, j] = 1.0] *)
Definition set_col (j : nat) (F : nat -> nat -> T) : nat -> nat -> T := fun u k => if k =? j then none_ else F u k.
(** lmf.pyx:139-142 *)
Definition lmf_matrix (M : csr T) : csr T := if has_sorted_indices M then M else sort_indices M.
(** lmf.pyx:153-165: initial factors of an unfitted model; [f] is factors, so that there
    are f+2 columns, -2 is column f and -1 column f+1. *)
Definition lmf_init_items (f : nat) (M : csr T) (ry : nat -> nat -> T) : nat -> nat -> T :=
  fun i j => if nth i (bincount (c_cols M) (c_indices M)) 0 =? 0 then nzero else set_col (S f) ry i j.
Definition lmf_init_users (f : nat) (M : csr T) (rx : nat -> nat -> T) : nat -> nat -> T :=
  fun u j => if nth u (user_counts (c_rows M) (c_indptr M)) 0 =? 0 then nzero else set_col f rx u j.

(** One epoch's randomness and schedules: users, then items. *)
Definition epoch_input : Type := (list (list nat * (nat -> nat)) * list nat * (list (list nat * (nat -> nat)) * list nat))%type.
(** lmf.pyx:181-197: the epochs; the trace is what the callback sees. *)
Fixpoint lmf_epochs (f : nat) (M Mt : csr T) (inputs : list epoch_input) (epoch : nat) (X Y DX DY : nat -> nat -> T)
  : option ((nat -> nat -> T) * (nat -> nat -> T) * list (nat * (nat -> nat -> T) * (nat -> nat -> T))) :=
  match inputs with
  | [] => Some (X, Y, [])
  | ((deal1, sched1), (deal2, sched2)) :: inputs' =>
      match lmf_update M deal1 sched1 X Y DX with
      | None => None
      | Some (X1, DX1, _) =>
          let X2 := set_col f X1 in
          match lmf_update Mt deal2 sched2 Y X2 DY with
          | None => None
          | Some (Y1, DY1, _) =>
              let Y2 := set_col (S f) Y1 in
              match lmf_epochs f M Mt inputs' (S epoch) X2 Y2 DX1 DY1 with
              | None => None
              | Some (X3, Y3, tr) => Some (X3, Y3, (epoch, X2, Y2) :: tr)
              end
          end
      end
  end.
(** lmf.pyx:112-199 [fit] on a csr matrix, without the NaN check; [X0], [Y0]: existing
    factors. *)
Definition lmf_fit (f : nat) (M0 : csr T) (X0 Y0 : option (nat -> nat -> T)) (rx ry : nat -> nat -> T) (inputs : list epoch_input) :=
  let M := lmf_matrix M0 in
  let Mt := lmf_matrix (transpose M0) in
  let Y := match Y0 with Some Y => Y | None => lmf_init_items f M ry end in
  let X := match X0 with Some X => X | None => lmf_init_users f M rx end in
  lmf_epochs f M Mt inputs 0 X Y (fun _ _ => nzero) (fun _ _ => nzero).
End Lmf.
