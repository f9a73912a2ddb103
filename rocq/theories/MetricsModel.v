(** Model of ranking_metrics_at_k and its wrappers (implicit/evaluation.pyx:235-475).
    Doubles are modelled by reals. *)
From Coq Require Import List Arith Lia Bool ZArith Reals Lra.
From Verif Require Import Base Num Heap Sparse TopkModel RecommendModel RVec.
Import ListNotations.
Local Open Scope R_scope.

(** Cython division (cdivision is off): ZeroDivisionError. *)
Definition cy_div (a b : R) : res R := if Req_EM_T b 0 then Raise ZeroDivisionError else Ok (a / b).

(** evaluation.pyx:407-408: [cg = 1/log2(arange(2, K+2))], [cg_sum = cumsum(cg)]. *)
Definition log2 (x : R) : R := ln x / ln 2.
Definition cg (i : nat) : R := 1 / log2 (INR i + 2).
Definition cg_sum (i : nat) : R := rsum (map cg (seq 0 (S i))).

(** [unordered_set] built by inserting the row: repeats collapse. *)
Definition likes_of {T} (test : csr T) (u : nat) : list nat := nodup Nat.eq_dec (csr_row_indices test u).

(** The variables of the inner loop (lines 441-457). *)
Record inner : Type :=
  { i_relevant : R; i_hit : R; i_miss : R; i_ap : R; i_ndcg : R; i_auc : R }.

(** Lines 449-457: one position [i] of the ranking; [relevant] and [ndcg] are the
    running totals over all users. *)
Definition inner_step (likes : list nat) (idcg : R) (s : inner) (p : nat * Z) : res inner :=
  if memz (snd p) (map Z.of_nat likes) then
    let hit := i_hit s + 1 in
    do a <- cy_div hit (INR (fst p) + 1);
    do g <- cy_div (cg (fst p)) idcg;
    Ok {| i_relevant := i_relevant s + 1; i_hit := hit; i_miss := i_miss s;
          i_ap := i_ap s + a; i_ndcg := i_ndcg s + g; i_auc := i_auc s |}
  else
    Ok {| i_relevant := i_relevant s; i_hit := i_hit s; i_miss := i_miss s + 1;
          i_ap := i_ap s; i_ndcg := i_ndcg s; i_auc := i_auc s + i_hit s |}.

(** The running totals (lines 403-412). *)
Record totals : Type :=
  { t_relevant : R; t_pr_div : R; t_total : R; t_map : R; t_ndcg : R; t_auc : R }.
Definition totals_zero : totals :=
  {| t_relevant := 0; t_pr_div := 0; t_total := 0; t_map := 0; t_ndcg := 0; t_auc := 0 |}.

(** Lines 433-462: one user; [ids] is the user's row of recommendations, of which
    the first K are read (reading past its end is UB). *)
Definition user_step (K items : nat) (likes : list nat) (ids : list Z) (t : totals) : res totals :=
  let npos := INR (length likes) in
  let nneg := INR items - npos in
  let div := INR (Nat.min K (length likes)) in
  let idcg := cg_sum (Nat.min K (length likes) - 1) in
  if (length ids <? K)%nat then Raise UB else
  do s <- fold_res (inner_step likes idcg) (enum (firstn K ids))
            {| i_relevant := t_relevant t; i_hit := 0; i_miss := 0; i_ap := 0; i_ndcg := t_ndcg t; i_auc := 0 |};
  let auc := i_auc s + ((i_hit s + npos) / 2) * (nneg - i_miss s) in
  do ap <- cy_div (i_ap s) div;
  do a <- cy_div auc (npos * nneg);
  Ok {| t_relevant := i_relevant s; t_pr_div := t_pr_div t + div; t_total := t_total t + 1;
        t_map := t_map t + ap; t_ndcg := i_ndcg s; t_auc := t_auc t + a |}.

(** Lines 424-426: the users with at least one stored test entry. *)
Definition to_generate {T} (test : csr T) : list nat :=
  filter (fun u => negb (length (csr_row test u) =? 0)%nat) (seq 0 (c_rows test)).

(** Lines 430-462: one batch. *)
Definition batch_step {T} (K : nat) (test : csr T) (rec : list nat -> res (list (list Z)))
    (batch : list nat) (t : totals) : res totals :=
  do ids <- rec batch;
  if (length ids <? length batch)%nat then Raise UB else
  fold_res (fun t p => user_step K (c_cols test) (likes_of test (fst p)) (snd p) t) (combine batch ids) t.

(** The loop of lines 430-464: batches of [bs] users; [fuel] bounds the number of
    iterations and is large enough when it is the number of users. *)
Fixpoint batch_loop {T} (fuel bs K : nat) (test : csr T) (rec : list nat -> res (list (list Z)))
    (users : list nat) (t : totals) : res totals :=
  match fuel, users with
  | _, [] => Ok t
  | O, _ => Raise UB
  | S fuel, _ =>
      do t <- batch_step K test rec (firstn bs users) t;
      batch_loop fuel bs K test rec (skipn bs users) t
  end.

Record metrics : Type := { precision : R; map_ : R; ndcg : R; auc : R }.

(** Lines 365-475.  [rec batch] is [model.recommend(batch, train_user_items[batch], N=K)],
    ids only. *)
Definition ranking_metrics_with {T} (bs : nat) (rec : list nat -> res (list (list Z))) (test : csr T) (K : nat)
  : res metrics :=
  do t <- batch_loop (length (to_generate test)) bs K test rec (to_generate test) totals_zero;
  do p <- cy_div (t_relevant t) (t_pr_div t);
  do m <- cy_div (t_map t) (t_total t);
  do n <- cy_div (t_ndcg t) (t_total t);
  do a <- cy_div (t_auc t) (t_total t);
  Ok {| precision := p; map_ := m; ndcg := n; auc := a |}.
Definition metrics_batch_size : nat := 1000.
Definition ranking_metrics_at_k {T} := @ranking_metrics_with T metrics_batch_size.

(** evaluation.pyx:235-362: the four wrappers. *)
Definition precision_at_k {T} rec (test : csr T) K := do m <- ranking_metrics_at_k rec test K; Ok (precision m).
Definition mean_average_precision_at_k {T} rec (test : csr T) K := do m <- ranking_metrics_at_k rec test K; Ok (map_ m).
Definition ndcg_at_k {T} rec (test : csr T) K := do m <- ranking_metrics_at_k rec test K; Ok (ndcg m).
Definition auc_at_k {T} rec (test : csr T) K := do m <- ranking_metrics_at_k rec test K; Ok (auc m).

(** The recommendations used for a factor model: likes of the train rows are filtered
    (default of recommend). *)
Definition mf_recommend {V} `{Num V} (HP : std_heap) (fmin : V) (m : mf V) (recalc : idarg -> csr V -> res (list (list V)))
    (train : csr V) (K : nat) (batch : list nat) : res (list (list Z)) :=
  do r <- recommend HP fmin m recalc (Batch (map Z.of_nat batch))
            (Csr (csr_of_rows (c_cols train) (map (csr_row train) batch))) (Z.of_nat K) true None false None;
  match r with ManyRows ids _ => Ok ids | OneRow ids _ => Ok [ids] end.
