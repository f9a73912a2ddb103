(** Model of train_test_split and leave_k_out_split (implicit/evaluation.pyx:14-232). *)
From Coq Require Import List Arith Lia Bool ZArith QArith.Qround QArith Permutation.
From Verif Require Import Base Num Sparse TopkModel RecommendModel WeightModel.
Import ListNotations.
Local Close Scope Q_scope.
Local Open Scope nat_scope.

(** scipy's [csr_matrix((data, (row, col)), shape)]: rows with sorted, distinct column
    indices; repeated coordinates are added up.  Zero values are stored. *)
Definition sum1 {T} `{Num T} (l : list T) : T := match l with [] => nzero | v :: l => fold_left nadd l v end.
Definition at_coord {T} (i j : nat) (es : list (nat * nat * T)) : list (nat * nat * T) :=
  filter (fun e => (erow e =? i) && (ecol e =? j)) es.
Definition has_coord {T} (es : list (nat * nat * T)) (i j : nat) : bool :=
  negb (length (at_coord i j es) =? 0).
Definition csr_of_coo {T} `{Num T} (X : coo T) : csr T :=
  csr_of_rows (o_cols X)
    (map (fun i => map (fun j => (j, sum1 (map eval_ (at_coord i j (o_entries X)))))
                       (filter (has_coord (o_entries X) i) (seq 0 (o_cols X))))
         (seq 0 (o_rows X))).
Definition with_entries {T} (X : coo T) (es : list (nat * nat * T)) : coo T :=
  {| o_rows := o_rows X; o_cols := o_cols X; o_entries := es |}.

(** [m.data[m.data < 0] = 0; m.eliminate_zeros()] *)
Definition drop_nonpos {T} `{Num T} (m : csr T) : csr T :=
  csr_of_rows (c_cols m)
    (map (fun r => filter (fun p => negb (neqb (snd p) nzero))
                     (map (fun p => if nltb (snd p) nzero then (fst p, nzero) else p) r))
         (csr_to_rows m)).

(** evaluation.pyx:14-48.  [randoms]: what [random_state.random(len(ratings.data))] returns. *)
Definition train_test_split {T U} `{Num T} `{Num U} (randoms : list U) (pct : U) (ratings : coo T) : csr T * csr T :=
  let tagged := combine (o_entries ratings) randoms in
  let train := csr_of_coo (with_entries ratings (map fst (filter (fun p => nltb (snd p) pct) tagged))) in
  let test := csr_of_coo (with_entries ratings (map fst (filter (fun p => nleb pct (snd p)) tagged))) in
  (train, drop_nonpos test).

(** numpy helpers. *)
Definition bincount (l : list nat) : list nat :=
  match l with [] => [] | _ => map (count_occ Nat.eq_dec l) (seq 0 (S (list_max l))) end.
Fixpoint cumsum (a : nat) (l : list nat) : list nat :=
  match l with [] => [] | x :: l => (a + x) :: cumsum (a + x) l end.
(** [np.unique] *)
Definition unique (l : list nat) : list nat := filter (fun u => memn u l) (seq 0 (S (list_max l))).
(** [np.setdiff1d]: sorted distinct elements of [a] outside [b]. *)
Definition setdiff1d (a b : list nat) : list nat := filter (fun x => negb (memn x b)) (unique a).
(** [np.take]: [a[idx]] for non-negative indices in range. *)
Definition take {A} (d : A) (a : list A) (idx : list nat) : list A := map (fun i => nth i a d) idx.

(** evaluation.pyx:51-74 [_choose]; [rng_choice n size] is
    [rng.choice(n, size=size, replace=False)]. *)
Definition choose (rng_choice : nat -> nat -> list nat) (n : nat) (frac : Q) : list nat :=
  rng_choice n (Nat.max 1 (Z.to_nat (Qfloor (inject_Z (Z.of_nat n) * frac)))).

(** evaluation.pyx:77-138 [_take_tails(arr, n, shuffled=True, return_complement=True)].
    [argsort] is numpy's (any sorting permutation); [noise] is the array
    [np.random.random(arr.shape)] drawn from numpy's global generator, in units of
    2^-53 (numpy draws multiples of it), so that [sorted_arr + noise] is exact:
    rounding of that sum for large ids is not modelled.  [linspace(start, end, n+1)[1:]]
    is start+1..end, ravelled user by user.  Negative positions index from the end. *)
Definition unit53 : Z := 9007199254740992%Z.
Definition take_tails (argsort : list Z -> list nat) (noise : list Z) (arr : list nat) (n : nat)
  : res (list nat * list nat) :=
  let idx := argsort (map Z.of_nat arr) in
  let sorted_arr := take 0 arr idx in
  let ends := map (fun c => Z.of_nat c - 1)%Z (cumsum 0 (bincount sorted_arr)) in
  let ranges := flat_map (fun e => map (fun k => (e - Z.of_nat n + Z.of_nat k)%Z) (seq 1 n)) ends in
  let shuffled_idx := argsort (map (fun p => (Z.of_nat (fst p) * unit53 + snd p)%Z) (combine sorted_arr noise)) in
  do tails <- map_res (fun z => do i <- np_index (length shuffled_idx) z; Ok (nth i shuffled_idx 0)) ranges;
  let heads := setdiff1d idx tails in
  Ok (take 0 idx tails, take 0 idx heads).

(** evaluation.pyx:141-232 [leave_k_out_split]. *)
Definition leave_k_out_split {T} `{Num T} (argsort : list Z -> list nat) (rng_choice : nat -> nat -> list nat)
    (noise : list Z) (ratings : coo T) (K : Z) (train_only_size : Q) : res (csr T * csr T) :=
  if (K <? 1)%Z then Raise ValueError else
  if negb (Qle_bool 0 train_only_size && negb (Qle_bool 1 train_only_size)) then Raise ValueError else
  let entries := o_entries ratings in
  let users := map erow entries in
  let unique_users := unique users in
  let train_only := if negb (Qle_bool train_only_size 0) then choose rng_choice (length unique_users) train_only_size else [] in
  let candidate u := (Z.to_nat K + 1 <? count_occ Nat.eq_dec users u) && negb (memn u train_only) in
  let unique_candidate_users := filter candidate unique_users in
  let cand := filter (fun e => memn (erow e) unique_candidate_users) entries in
  let others := filter (fun e => negb (memn (erow e) unique_candidate_users)) entries in
  let candidate_users := map erow cand in
  do '(test_idx, _) <- take_tails argsort noise candidate_users (Z.to_nat K);
  let train_idx := setdiff1d (seq 0 (length candidate_users)) test_idx in
  let get := fun i => nth_error cand i in
  let pick := fun idx => flat_map (fun i => match get i with Some e => [e] | None => [] end) idx in
  let test := csr_of_coo (with_entries ratings (pick test_idx)) in
  let train := csr_of_coo (with_entries ratings (others ++ pick train_idx)) in
  Ok (train, test).
