(** What ALS is supposed to compute (Hu, Koren, Volinsky 2008), over the reals and
    independently of the model: confidences, preferences, losses; and the contracts of
    the external linear solvers. *)
From Coq Require Import List Arith Lia Bool Reals Lra.
From Verif Require Import Base Num Sparse RVec.
Import ListNotations.
Local Open Scope R_scope.

(** A row of the confidence matrix: (item, value) pairs. *)
Definition entry (row : list (nat * R)) (i : nat) : option R :=
  option_map snd (find (fun p => (fst p =? i)%nat) row).
(** C_ui and P_ui *)
Definition confidence (row : list (nat * R)) (i : nat) : R :=
  match entry row i with Some c => Rabs c | None => 1 end.
Definition preference (row : list (nat * R)) (i : nat) : R :=
  match entry row i with Some c => if Rlt_dec 0 c then 1 else 0 | None => 0 end.
Definition sq (a : R) : R := a * a.

(** sum_i C_ui (P_ui - x.y_i)^2 *)
Definition row_error (Y : list (list R)) (row : list (nat * R)) (x : list R) : R :=
  rsum (map (fun i => confidence row i * sq (preference row i - rdot x (nth i Y []))) (seq 0 (length Y))).
Definition user_loss (Y : list (list R)) (reg : R) (row : list (nat * R)) (x : list R) : R :=
  row_error Y row x + reg * rdot x x.
Definition norms (X : list (list R)) : R := rsum (map (fun x => rdot x x) X).
(** The training loss over all cells of a matrix given by its rows. *)
Definition total_loss (rows : nat -> list (nat * R)) (reg : R) (X Y : list (list R)) : R :=
  rsum (map (fun u => row_error Y (rows u) (nth u X [])) (seq 0 (length X))) + reg * (norms X + norms Y).

(** Matrices as lists of rows. *)
Definition square (n : nat) (A : list (list R)) : Prop := length A = n /\ (forall r, In r A -> length r = n).
Definition symmetric (n : nat) (A : list (list R)) : Prop :=
  forall i j, (i < n)%nat -> (j < n)%nat -> nth j (nth i A []) 0 = nth i (nth j A []) 0.
Definition mv (A : list (list R)) (x : list R) : list R := map (fun r => rdot r x) A.
Definition pos_def (n : nat) (A : list (list R)) : Prop :=
  forall x, length x = n -> (exists a, In a x /\ a <> 0) -> 0 < rdot (mv A x) x.

(** LAPACK posv in exact arithmetic: solves symmetric positive definite systems and
    reports an error for symmetric matrices that are not positive definite. *)
Definition posv_ok (posv : list (list R) -> list R -> option (list R)) : Prop :=
  forall n A b, square n A -> symmetric n A -> length b = n ->
    (pos_def n A -> exists x, posv A b = Some x /\ length x = n /\ mv A x = b) /\
    (~ pos_def n A -> posv A b = None).
(** numpy.linalg.solve in exact arithmetic: what it returns solves the system, and the
    matrix was not singular. *)
Definition solve_ok (solve : list (list R) -> list R -> option (list R)) : Prop :=
  forall n A b x, square n A -> length b = n -> solve A b = Some x ->
    length x = n /\ mv A x = b /\ (forall z, length z = n -> mv A z = repeat 0 n -> z = repeat 0 n).

(** Rows of factors all have length [n]. *)
Definition mat_ok (n : nat) (Y : list (list R)) : Prop := forall y, In y Y -> length y = n.
(** Rows of the confidence matrix: no item twice, items in range. *)
Definition row_ok (m : nat) (row : list (nat * R)) : Prop :=
  NoDup (map fst row) /\ forall p, In p row -> (fst p < m)%nat.
(** Confidence matrices without repeated entries. *)
Definition canonical (m : csr R) : Prop := csr_wf m /\ forall u, (u < c_rows m)%nat -> NoDup (csr_row_indices m u).
(** [x] minimises [f] among all vectors of length [n]. *)
Definition minimises (n : nat) (f : list R -> R) (x : list R) : Prop :=
  length x = n /\ forall z, length z = n -> f x <= f z.
(** The sum of all confidences C_ui. *)
Definition total_confidence (rows : nat -> list (nat * R)) (users items : nat) : R :=
  rsum (map (fun u => rsum (map (confidence (rows u)) (seq 0 items))) (seq 0 users)).
