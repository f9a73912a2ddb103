(** ranking_metrics_at_k (implicit/evaluation.pyx:365-475) in double precision.  MetricsModel.v computes
    with exact reals; here every arithmetic operation on a [double] is followed by a rounding [rnd].
    [lg n] is the double that np.log2 returns for the integer [n].  The exponent range is not bounded:
    all values lie between 2^-60 and 2^60 or are zero, so nothing overflows or underflows. *)
From Coq Require Import List Arith Lia Bool ZArith Reals Lra.
From Verif Require Import Base Num Heap Sparse TopkModel RecommendModel RVec MetricsModel.
Import ListNotations.
Local Open Scope R_scope.

(** IEEE 754 double precision, round to nearest, ties to even: the significand has 53 bits. *)
Definition rne (y : R) : Z :=
  let f := Int_part y in
  if Rlt_dec (y - IZR f) (1 / 2) then f
  else if Rlt_dec (1 / 2) (y - IZR f) then (f + 1)%Z
  else if Z.even f then f else (f + 1)%Z.
Definition exponent (x : R) : Z := (Int_part (log2 (Rabs x)) - 52)%Z.
Definition rnd64 (x : R) : R :=
  if Req_EM_T x 0 then 0 else IZR (rne (x * powerRZ 2 (- exponent x))) * powerRZ 2 (exponent x).

(** Cython division of doubles (cdivision is off): ZeroDivisionError. *)
Definition div_d (rnd : R -> R) (a b : R) : res R :=
  if Req_EM_T b 0 then Raise ZeroDivisionError else Ok (rnd (a / b)).

(** evaluation.pyx:407-408: [cg = 1/log2(arange(2, K+2))], [cg_sum = cumsum(cg)]; np.cumsum
    adds from left to right. *)
Definition cg_d (rnd : R -> R) (lg : nat -> R) (i : nat) : R := rnd (1 / lg (i + 2)%nat).
Definition cg_sum_d (rnd : R -> R) (lg : nat -> R) (i : nat) : R :=
  fold_left (fun s j => rnd (s + cg_d rnd lg j)) (seq 1 i) (cg_d rnd lg 0).

(** Lines 449-457: one position of the ranking. *)
Definition inner_step_d (rnd : R -> R) (lg : nat -> R) (likes : list nat) (idcg : R) (s : inner) (p : nat * Z) : res inner :=
  if memz (snd p) (map Z.of_nat likes) then
    let hit := rnd (i_hit s + 1) in
    do a <- div_d rnd hit (rnd (INR (fst p + 1)));
    do g <- div_d rnd (cg_d rnd lg (fst p)) idcg;
    Ok {| i_relevant := rnd (i_relevant s + 1); i_hit := hit; i_miss := i_miss s;
          i_ap := rnd (i_ap s + a); i_ndcg := rnd (i_ndcg s + g); i_auc := i_auc s |}
  else
    Ok {| i_relevant := i_relevant s; i_hit := i_hit s; i_miss := rnd (i_miss s + 1);
          i_ap := i_ap s; i_ndcg := i_ndcg s; i_auc := rnd (i_auc s + i_hit s) |}.

(** Lines 433-462: one user. *)
Definition user_step_d (rnd : R -> R) (lg : nat -> R) (K items : nat) (likes : list nat) (ids : list Z) (t : totals) : res totals :=
  let npos := rnd (INR (length likes)) in
  let nneg := rnd (rnd (INR items) - npos) in
  let div := rnd (INR (Nat.min K (length likes))) in
  let idcg := cg_sum_d rnd lg (Nat.min K (length likes) - 1) in
  if (length ids <? K)%nat then Raise UB else
  do s <- fold_res (inner_step_d rnd lg likes idcg) (enum (firstn K ids))
            {| i_relevant := t_relevant t; i_hit := 0; i_miss := 0; i_ap := 0; i_ndcg := t_ndcg t; i_auc := 0 |};
  let auc := rnd (i_auc s + rnd (rnd (rnd (i_hit s + npos) / 2) * rnd (nneg - i_miss s))) in
  do ap <- div_d rnd (i_ap s) div;
  do a <- div_d rnd auc (rnd (npos * nneg));
  Ok {| t_relevant := i_relevant s; t_pr_div := rnd (t_pr_div t + div); t_total := rnd (t_total t + 1);
        t_map := rnd (t_map t + ap); t_ndcg := i_ndcg s; t_auc := rnd (t_auc t + a) |}.

(** Lines 430-462: one batch, and the loop over batches of [bs] users. *)
Definition batch_step_d {T} (rnd : R -> R) (lg : nat -> R) (K : nat) (test : csr T) (rec : list nat -> res (list (list Z)))
    (batch : list nat) (t : totals) : res totals :=
  do ids <- rec batch;
  if (length ids <? length batch)%nat then Raise UB else
  fold_res (fun t p => user_step_d rnd lg K (c_cols test) (likes_of test (fst p)) (snd p) t) (combine batch ids) t.
Fixpoint batch_loop_d {T} (fuel : nat) (rnd : R -> R) (lg : nat -> R) (bs K : nat) (test : csr T)
    (rec : list nat -> res (list (list Z))) (users : list nat) (t : totals) : res totals :=
  match fuel, users with
  | _, [] => Ok t
  | O, _ => Raise UB
  | S fuel, _ =>
      do t <- batch_step_d rnd lg K test rec (firstn bs users) t;
      batch_loop_d fuel rnd lg bs K test rec (skipn bs users) t
  end.

(** Lines 365-475. *)
Definition ranking_metrics_d {T} (rnd : R -> R) (lg : nat -> R) (rec : list nat -> res (list (list Z))) (test : csr T) (K : nat)
  : res metrics :=
  do t <- batch_loop_d (length (to_generate test)) rnd lg metrics_batch_size K test rec (to_generate test) totals_zero;
  do p <- div_d rnd (t_relevant t) (t_pr_div t);
  do m <- div_d rnd (t_map t) (t_total t);
  do n <- div_d rnd (t_ndcg t) (t_total t);
  do a <- div_d rnd (t_auc t) (t_total t);
  Ok {| precision := p; map_ := m; ndcg := n; auc := a |}.
