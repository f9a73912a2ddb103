(** The repository's own unit tests, replayed on the model.  The assertions are those of
    the test files; numbers are IEEE single precision and the heap is libstdc++'s.  The
    random initial factors come from a small generator instead of numpy's. *)
From Coq Require Import List Arith Lia Bool ZArith QArith.
From Coq Require Import Floats.SpecFloat.
From Verif Require Import Base Num Heap Sparse TopkModel RecommendModel KnnModel AlsModel AlsState ExplainModel PropExplain PropAlsState WeightModel SplitModel
  GnuHeap FloatModel FitCheck PropFloat.
Import ListNotations.
Local Open Scope nat_scope.

(* ------------------------------------------------------------------ helpers *)
Definition fq (n d : Z) : f32 := SFdiv f32_prec f32_emax (fl n) (fl d).
Definition f_sqrt (x : f32) : f32 := SFsqrt f32_prec f32_emax x.
Definition f_norm (v : list f32) : f32 := f_sqrt (ndot v v).
Definition near (a b tol : f32) : bool := SFltb (SFabs (nsub a b)) tol.
(** Pseudo random numbers in [0, 0.01). *)
Fixpoint lcg (n : nat) (s : Z) : list Z := match n with O => [] | S n => let s := (1103515245 * s + 12345) mod 2147483648 in s :: lcg n s end%Z.
Fixpoint chunks {A} (f : nat) (n : nat) (l : list A) : list (list A) := match n with O => [] | S n => firstn f l :: chunks f n (skipn f l) end.
Definition random_factors (seed : Z) (n f : nat) : list (list f32) :=
  chunks f n (map (fun s => nmul (fq (s / 256) 8388608) (fq 1 100)) (lcg (n * f) seed)).
(** Elimination, as a [posv]. *)
Fixpoint f_elim (fuel : nat) (A : list (list f32)) (b : list f32) : option (list f32) :=
  match fuel, A, b with
  | S fuel, (a :: r) :: rest, b0 :: bs =>
      if nltb nzero a then
        let M := map (fun row => axpy (nopp (ndiv (hd nzero row) a)) r (tl row)) rest in
        let bs' := map (fun p => nsub (snd p) (nmul (ndiv (hd nzero (fst p)) a) b0)) (combine rest bs) in
        match f_elim fuel M bs' with
        | Some x => Some (ndiv (nsub b0 (ndot r x)) a :: x)
        | None => None
        end
      else None
  | S _, [], [] => Some []
  | _, _, _ => None
  end.
Definition f_posv (A : list (list f32)) (b : list f32) : option (list f32) := f_elim (S (length A)) A b.
Definition dense (rows : list (list Z)) : csr f32 :=
  csr_of_rows (length (hd [] rows)) (map (fun r => map (fun p => (fst p, fl (snd p))) (filter (fun p => negb (snd p =? 0)%Z) (enum r))) rows).
(** recommender_base_test.py:21-29 *)
Definition get_checker_board (X : nat) : csr f32 :=
  csr_of_rows X (map (fun i => map (fun j => (j, fl 1)) (filter (fun j => (Nat.even i && Nat.even j || Nat.odd i && Nat.odd j) && negb (i =? j)) (seq 0 X))) (seq 0 X)).
Definition row_of (M : csr f32) (u : nat) : csr f32 := csr_take_row M u.
Inductive solver := NativeCg | NativeCholesky | PythonCg | PythonCholesky.
Definition als_env (factors iterations : nat) (reg alpha : f32) (sv : solver) : env f32 unit := {|
  e_heap := gnu_heap; e_fmin := f32_min; e_norm := f_norm; e_tiny := fq 1 10000000000; e_isnan := f32_nan; e_posv := f_posv;
  e_alpha := alpha; e_reg := reg; e_n := factors; e_iterations := iterations; e_heapq := simple_heapq; e_cho_factor := fun _ => Some tt; e_cho_solve := fun _ v => v;
  e_solver := ip (match sv with
    | NativeCg => least_squares_cg_c f32_eps 3 factors
    | NativeCholesky => least_squares f_posv factors
    | PythonCg => least_squares_cg_py f32_eps 3 factors
    | PythonCholesky => least_squares_py f_posv factors
    end)
|}.
Definition fitted (E : env f32 unit) (M : csr f32) : als_state f32 * res unit :=
  let '(s, _, r) := fit E fresh_state M (random_factors 23 (c_rows M) (e_n E)) (random_factors 42 (c_cols M) (e_n E)) None None in (s, r).

(** als_test.py:139-186 test_factorize *)
Definition factorize_counts := [[1; 1; 0; 1; 0; 0]; [0; 1; 1; 1; 0; 0]; [1; 0; 1; 0; 0; 0]; [1; 1; 0; 0; 0; 0]; [0; 0; 1; 1; 0; 1]; [0; 1; 0; 0; 0; 1]; [0; 0; 0; 0; 1; 1]]%Z.
Definition reconstruct (s : als_state f32) : list (list f32) := match sX s, sY s with Some X, Some Y => map (fun x => map (ndot x) Y) X | _, _ => [] end.
Definition all_near (tol : f32) (A : list (list f32)) (B : list (list Z)) : bool :=
  (length A =? length B) && forallb (fun p => (length (fst p) =? length (snd p)) && forallb (fun q => near (fst q) (fl (snd q)) tol) (combine (fst p) (snd p))) (combine A B).
Definition test_factorize (sv : solver) : bool :=
  let '(s, r) := fitted (als_env 6 15 nzero (fl 2) sv) (dense factorize_counts) in
  match r with Ok _ => all_near (fq 1 1000) (reconstruct s) factorize_counts | Raise _ => false end.
Example repo_test_factorize : map test_factorize [NativeCg; NativeCholesky; PythonCg; PythonCholesky] = [true; true; true; true].
Proof. vm_compute. reflexivity. Qed.

(** als_test.py:80-111 test_cg_nan (values rounded to three digits) *)
Definition cg_nan_row (k : nat) (l : list Z) : list (nat * f32) := map (fun p => (k + fst p, fq (snd p) 1000)) (enum l).
Definition cg_nan_counts : csr f32 :=
  let v := [2000; 1500; 1333; 1250; 1200]%Z in
  csr_of_rows 12 (flat_map (fun k => map (fun i => cg_nan_row (k + 1 + i) (firstn (5 - i) v)) (seq 0 6)) [0; 6]).
Definition test_cg_nan (sv : solver) : bool :=
  let '(s, r) := fitted (als_env 3 15 (fq 1 100) (fl 1) sv) cg_nan_counts in
  match r, sX s, sY s with Ok _, Some X, Some Y => negb (existsb (existsb f32_nan) (X ++ Y)) | _, _, _ => false end.
Example repo_test_cg_nan : map test_cg_nan [NativeCg; PythonCg] = [true; true].
Proof. vm_compute. reflexivity. Qed.

Definition rec1 (u : Z) (M : csr f32) (N : Z) : query f32 unit := QRecommend (Scalar u) (Csr M) N true None false None.
Definition answer_of (E : env f32 unit) (s : als_state f32) (q : query f32 unit) : res (out f32) :=
  match snd (run_query E s q) with Ok (AOut o) => Ok o | Ok _ => Raise UB | Raise x => Raise x end.
Definition ids1 (o : res (out f32)) : list Z := match o with Ok (OneRow ids _) => ids | _ => [] end.
Definition scores1 (o : res (out f32)) : list f32 := match o with Ok (OneRow _ scores) => scores | _ => [] end.
Definition first (l : list Z) : Z := hd (-1)%Z l.
Definition same_set (a b : list Z) : bool := forallb (fun x => memz x b) a && forallb (fun x => memz x a) b.

(** als_test.py:276-309 test_incremental_retrain *)
Definition E2 : env f32 unit := als_env 2 15 nzero (fl 1) NativeCg.
Definition board : csr f32 := get_checker_board 50.
Definition likes1 : csr f32 := row_of board 1.
Definition s50 : als_state f32 := Eval vm_compute in fst (fitted E2 board).
Definition retrain1 := fst (partial_fit_users E2 s50 [0%Z] likes1).
Definition retrain2 := fst (partial_fit_users E2 retrain1 [100%Z] likes1).
Definition retrain3 := fst (partial_fit_items E2 retrain2 [100%Z] likes1).
Definition retrain4 := fst (partial_fit_users E2 retrain3 [101%Z] likes1).
Definition retrain5 := fst (partial_fit_items E2 retrain4 [101%Z] likes1).
Definition test_incremental_retrain : list bool :=
  [ (first (ids1 (answer_of E2 s50 (rec1 0 (row_of board 0) 10))) =? 0)%Z;
    (first (ids1 (answer_of E2 retrain1 (rec1 0 likes1 10))) =? 1)%Z;
    (first (ids1 (answer_of E2 retrain2 (rec1 100 likes1 10))) =? 1)%Z;
    same_set (ids1 (answer_of E2 retrain3 (rec1 1 likes1 2))) [1; 100]%Z;
    same_set (ids1 (answer_of E2 retrain5 (rec1 101 likes1 3))) [1; 100; 101]%Z ].
Example repo_test_incremental_retrain : test_incremental_retrain = [true; true; true; true; true].
Proof. vm_compute. reflexivity. Qed.

(** als_test.py:250-272 test_small_nan *)
Definition E15 : env f32 unit := als_env 15 15 (fq 1 100) (fl 1) NativeCg.
Definition eye10 : csr f32 := csr_of_rows 10 (map (fun i => [(i, fl 1)]) (seq 0 10)).
Definition small_nan : res (out f32) := answer_of E15 (fst (fitted E15 eye10)) (QRecommend (Scalar 0%Z) (Csr eye10) 10%Z false None false None).
Definition test_small_nan : list bool := let r := small_nan in [negb (existsb f32_nan (scores1 r)); (first (ids1 r) =? 0)%Z].
Example repo_test_small_nan : test_small_nan = [true; true].
Proof. vm_compute. reflexivity. Qed.

(** als_test.py:312-334 test_calculate_loss_simple *)
Definition q_simple : csr Q := csr_of_rows 2 [[(0, 1%Q)]].
Definition loss_simple (reg : Q) : res Q := calculate_loss (fun n => inject_Z (Z.of_nat n)) 1 [0] [0; 1] q_simple [[1%Q]] [[0%Q]; [1%Q]] reg.
Example repo_test_calculate_loss_simple :
  match loss_simple 0, loss_simple 1 with Ok a, Ok b => Qeq_bool a 1 && Qeq_bool b 2 | _, _ => false end = true.
Proof. vm_compute. reflexivity. Qed.

(* ------------------------------------------------------------------ recommender_base_test.py, ALS *)
(** The tests common to all models, with 2 factors (the repository uses 32). *)
Definition users50 : list Z := map Z.of_nat (seq 0 50).
Definition parity (x y : Z) : bool := (x mod 2 =? y mod 2)%Z.
Definition ask (q : query f32 unit) : res (out f32) := answer_of E2 s50 q.
Definition idsN (o : res (out f32)) : list (list Z) := match o with Ok (ManyRows ids _) => ids | _ => [] end.
Definition scoresN (o : res (out f32)) : list (list f32) := match o with Ok (ManyRows _ scores) => scores | _ => [] end.
Definition failure {A} (o : res A) : option exn := match o with Ok _ => None | Raise x => Some x end.
Definition zs_eqb (a b : list Z) : bool := if list_eq_dec Z.eq_dec a b then true else false.
Definition zss_eqb (a b : list (list Z)) : bool := if list_eq_dec (list_eq_dec Z.eq_dec) a b then true else false.
Definition rows_near (tol : f32) (a b : list f32) : bool := (length a =? length b) && forallb (fun q => near (fst q) (snd q) tol) (combine a b).
Definition rows_of (M : csr f32) (us : list nat) : csr f32 := csr_of_rows (c_cols M) (map (csr_row M) us).
(** 39-64 test_recommend *)
Definition test_recommend : bool :=
  forallb (fun u => zs_eqb (ids1 (ask (rec1 (Z.of_nat u) (row_of board u) 1))) [Z.of_nat u]) (seq 0 50) &&
  negb (length (ids1 (ask (rec1 0 (row_of board 0) 1000))) =? 0) &&
  (let ids := ids1 (ask (QRecommend (Scalar 0%Z) (Csr (row_of board 0)) 1%Z true (Some (PyList [0%Z])) false None)) in (length ids =? 1) && negb (memz 0 ids)).
Example repo_test_recommend : test_recommend = true.
Proof. vm_compute. reflexivity. Qed.
(** 66-108 test_recommend_batch *)
Definition test_recommend_batch : bool :=
  zss_eqb (idsN (ask (QRecommend (Batch users50) (Csr board) 1%Z true None false None))) (map (fun u => [u]) users50) &&
  zss_eqb (idsN (ask (QRecommend (Batch [2; 3; 4]%Z) (Csr (rows_of board [2; 3; 4])) 1%Z true None false None))) [[2]; [3]; [4]]%Z &&
  (let c := idsN (ask (QRecommend (Batch [2; 3; 4]%Z) (Csr (rows_of board [2; 3; 4])) 1%Z true (Some (PyList [0%Z])) false None)) in
   (length c =? 3) && forallb (fun r => negb (memz 0 r)) c) &&
  (let r := ask (QRecommend (Batch users50) (Csr board) 5%Z false None false None) in
   forallb (fun p => let q := ask (QRecommend (Scalar (fst p)) (Csr board) 5%Z false None false None) in
     zs_eqb (ids1 q) (fst (snd p)) && rows_near (fq 1 100000) (scores1 q) (snd (snd p))) (combine users50 (combine (idsN r) (scoresN r)))
   && (length (idsN r) =? 50)).
Example repo_test_recommend_batch : test_recommend_batch = true.
Proof. vm_compute. reflexivity. Qed.
(** 110-145 test_recalculate_user *)
Definition test_recalculate_user : bool :=
  forallb (fun u => let a := ask (rec1 (Z.of_nat u) (row_of board u) 1) in let b := ask (QRecommend (Scalar 0%Z) (Csr (row_of board u)) 1%Z true None true None) in
     (length (ids1 a) =? 1) && zs_eqb (ids1 a) (ids1 b) && rows_near (fq 1 2000) (scores1 a) (scores1 b)) (seq 0 50).
Example repo_test_recalculate_user : test_recalculate_user = true.
Proof. vm_compute. reflexivity. Qed.
(** 162-172 test_similar_users, 219-238 test_similar_items *)
Definition test_similar : bool :=
  forallb (fun u => let a := ids1 (ask (QSimilarUsers (Scalar u) 10%Z None None)) in let b := ids1 (ask (QSimilarItems (Scalar u) 10%Z None None)) in
     (length a =? 10) && (length b =? 10) && forallb (parity u) a && forallb (parity u) b) users50.
Example repo_test_similar : test_similar = true.
Proof. vm_compute. reflexivity. Qed.
(** 195-217 test_similar_users_filter, 263-282 test_similar_items_filter *)
Definition fives : arr := NdArray (map (fun i => 5 * Z.of_nat i)%Z (seq 0 10)).
Definition ten : list Z := map Z.of_nat (seq 0 10).
Definition test_similar_filter : bool :=
  let a := idsN (ask (QSimilarUsers (Batch users50) 10%Z (Some fives) None)) in
  let b := idsN (ask (QSimilarUsers (Batch users50) 10%Z None (Some (NdArray ten)))) in
  let c := idsN (ask (QSimilarItems (Batch users50) 10%Z (Some fives) None)) in
  let d := idsN (ask (QSimilarItems (Batch users50) 10%Z None (Some (NdArray ten)))) in
  forallb (fun x => length x =? 50) [a; b; c; d] && forallb (forallb (fun r => negb (r mod 5 =? 0)%Z)) (a ++ c) && forallb (fun r => same_set r ten) (b ++ d).
Example repo_test_similar_filter : test_similar_filter = true.
Proof. vm_compute. reflexivity. Qed.
(** 347-392 test_rank_items, 394-409 test_rank_items_batch *)
Definition restrict (u : idarg) (M : csr f32) (N : Z) (its : arr) : res (out f32) := ask (QRecommend u (Csr M) N true None false (Some its)).
Definition test_rank_items : bool :=
  (let ids := ids1 (restrict (Scalar 0%Z) (row_of board 0) 20%Z (NdArray [1; 2; 3; 4; 5; 6]%Z)) in
   (length ids =? 6) && same_set ids [1; 2; 3; 4; 5; 6]%Z && same_set (skipn 3 ids) [2; 4; 6]%Z) &&
  (let ids := idsN (restrict (Batch users50) board 10%Z (NdArray (map (Z.mul 3) ten))) in
   (length ids =? 50) && forallb (fun r => same_set r (map (Z.mul 3) ten)) ids).
Example repo_test_rank_items : test_rank_items = true.
Proof. vm_compute. reflexivity. Qed.
Example repo_test_rank_items_errors :
  failure (restrict (Scalar 3%Z) (row_of board 3) 10%Z (PyList [7; 8; -1; -3; -5]%Z)) = Some IndexError /\
  failure (restrict (Scalar 3%Z) (row_of board 3) 10%Z (PyList [7; 8; 51; 300; 200]%Z)) = Some IndexError /\
  failure (ask (QRecommend (Scalar 0%Z) NotCsr 10%Z true None false None)) = Some ValueError.
Proof. vm_compute. auto. Qed.

(* ------------------------------------------------------------------ item-item models *)
(** knn_test.py:27-55 test_all_pairs_knn, without the weighting *)
Definition knn_counts : csr f32 := dense [[5; 1; 0; 9; 0; 0]; [0; 2; 1; 1; 0; 0]; [7; 0; 3; 0; 0; 0]; [1; 8; 0; 0; 0; 0]; [0; 0; 4; 4; 0; 0]; [0; 3; 0; 0; 0; 2]; [0; 0; 0; 0; 6; 0]]%Z.
Definition knn_sim : csr f32 := Eval vm_compute in match all_pairs_knn gnu_heap knn_counts 3 with Ok m => m | Raise _ => knn_counts end.
Definition lookup (l : list (nat * f32)) (j : nat) : f32 := match find (fun p => fst p =? j) l with Some p => snd p | None => nzero end.
Definition product (i j : nat) : f32 := fold_left nadd (map (fun u => nmul (lookup (csr_row knn_counts u) i) (lookup (csr_row knn_counts u) j)) (seq 0 7)) nzero.
Definition top_k (K i : nat) : list nat :=
  map snd (firstn K (sort_by (fun p q => nltb (fst p) (fst q)) (filter (fun p => negb (neqb (fst p) nzero)) (map (fun j => (product i j, j)) (seq 0 6))))).
Definition test_all_pairs_knn : bool :=
  forallb (fun i => forallb (fun p => near (snd p) (product i (fst p)) (fq 1 1000)) (csr_row knn_sim i) &&
    same_set (map (fun p => Z.of_nat (fst p)) (csr_row knn_sim i)) (map Z.of_nat (top_k 3 i))) (seq 0 6).
Example repo_test_all_pairs_knn : test_all_pairs_knn = true.
Proof. vm_compute. reflexivity. Qed.

(** recommender_base_test.py on an unweighted model, 20 users and items *)
Definition board20 : csr f32 := get_checker_board 20.
Definition sim20 : csr f32 := Eval vm_compute in match all_pairs_knn gnu_heap board20 50 with Ok m => m | Raise _ => board20 end.
Definition acc20 : acc f32 := acc_new 20.
Definition ii_ask (u : idarg) (M : sparse_arg f32) (N : Z) (fl : bool) (fi its : option arr) : res (out f32) :=
  match ii_recommend gnu_heap f32_min f32_min sim20 acc20 u M N fl fi its with Ok p => Ok (fst p) | Raise x => Raise x end.
Definition argsort (l : list f32) : list nat := map fst (sort_by (fun p q => nltb (snd q) (snd p)) (enum l)).
Definition ii_sim (i : idarg) (N : Z) (fi its : option arr) : res (out f32) := ii_similar f32_min f32_min argsort sim20 i N false fi its.
Definition users20 : list Z := map Z.of_nat (seq 0 20).
Definition test_item_item : list bool :=
  [ forallb (fun u => zs_eqb (ids1 (ii_ask (Scalar (Z.of_nat u)) (Csr (row_of board20 u)) 1 true None None)) [Z.of_nat u]) (seq 0 20);
    negb (length (ids1 (ii_ask (Scalar 0) (Csr (row_of board20 0)) 1000 true None None)) =? 0);
    negb (memz 0 (ids1 (ii_ask (Scalar 0) (Csr (row_of board20 0)) 1 true (Some (PyList [0%Z])) None)));
    zss_eqb (idsN (ii_ask (Batch users20) (Csr board20) 1 true None None)) (map (fun u => [u]) users20);
    forallb (fun i => let l := ids1 (ii_sim (Scalar i) 10 None None) in (length l =? 10) && forallb (parity i) l) users20;
    forallb (fun l => forallb (fun r => negb (r mod 5 =? 0)%Z) l) (idsN (ii_sim (Batch users20) 8 (Some (NdArray [0; 5; 10; 15]%Z)) None));
    (let l := idsN (ii_sim (Batch users20) 10 None (Some (NdArray ten))) in (length l =? 20) && forallb (fun r => same_set r ten) l);
    (let l := ids1 (ii_ask (Scalar 0) (Csr (row_of board20 0)) 20 true None (Some (NdArray [1; 2; 3; 4; 5; 6]%Z))) in (length l =? 6) && same_set l [1; 2; 3; 4; 5; 6]%Z);
    (let l := idsN (ii_ask (Batch users20) (Csr board20) 6 true None (Some (NdArray [0; 3; 6; 9; 12; 15]%Z))) in (length l =? 20) && forallb (fun r => same_set r [0; 3; 6; 9; 12; 15]%Z) l) ].
Example repo_test_item_item : test_item_item = [true; true; true; true; true; true; true; true; true].
Proof. vm_compute. reflexivity. Qed.
Example repo_test_item_item_errors :
  failure (ii_ask (Scalar 3%Z) (Csr (row_of board20 3)) 10%Z true None (Some (PyList [7; 8; -1; -3; -5]%Z))) = Some IndexError /\
  failure (ii_ask (Scalar 3%Z) (Csr (row_of board20 3)) 10%Z true None (Some (PyList [7; 8; 51; 300; 200]%Z))) = Some IndexError /\
  failure (ii_ask (Scalar 0%Z) NotCsr 10%Z true None None) = Some ValueError.
Proof. vm_compute. auto. Qed.

(* ------------------------------------------------------------------ evaluation_test.py *)
(** 86-107: K = 0, train_only_size = -1 and train_only_size = 1 raise ValueError *)
Example repo_test_leave_k_out_errors : forall argsort choice noise (M : coo f32),
  leave_k_out_split argsort choice noise M 0 0 = Raise ValueError /\
  leave_k_out_split argsort choice noise M 1 (-1) = Raise ValueError /\
  leave_k_out_split argsort choice noise M 1 1 = Raise ValueError.
Proof. intros. repeat split; reflexivity. Qed.
