(** C89-C92: training, recalculating, the loss and partial_fit of the GPU version of ALS. *)
From Coq Require Import List Arith Lia Bool ZArith Reals Lra Permutation.
From Verif Require Import Base Num Sparse TopkModel TopkBatch RecommendModel KnnAcc RVec SimilarBatch AlsModel AlsSpec AlsProofs AlsProofs2 AlsLoss AlsConc RowConc KnnConc CgProofs CgExact
  PosvImpl PropAls PropCg PropCgExact GpuDot GpuKnn GpuKnnProofs2 GpuAls GpuAlsProofs GpuAlsProofs2 GpuAlsProofs3.
Import ListNotations.
Local Open Scope R_scope.

(** What the theorems below ask of the inner products of the kernels, for [n] threads: the sum of the products.
    C65 proves it of one call of dot.cuh for whole warps ([block_dot_ok]); C78 and C79 say when it fails. *)
Definition sums_right (n : nat) (bdot : list R -> R) : Prop := forall l, length l = n -> bdot l = rsum l.

Example sums_right_dot_cuh : forall undef m, (1 <= m <= 32)%nat -> sums_right (m * 32) (block_dot undef).
Proof. intros. apply block_dot_ok; auto. Qed.

(* ------------------------------------------------------------------ C89 *)
(** Full statement: training on the GPU gives what conjugate gradient training on the CPU gives, for every number
    of factors and every matrix, whatever the order and interleaving of the blocks.
    Missing: matrices without any entry (refuted below), more than 1024 factors (refuted below), inner products in which a
    warp is not complete or warps overtake each other (C78, C79); the rounding of floats. *)
Theorem C89_fit_partial : forall bdot eps order n size steps alpha reg iterations m X Y u,
  sums_right n bdot -> (n <= 1024)%nat -> float_size size -> 0 < eps -> 0 <= reg -> canonical m ->
  (forall c, Permutation (order c) (seq 0 c)) -> mat_ok n X -> mat_ok n Y -> length X = c_rows m -> length Y = c_cols m ->
  (u < c_rows m)%nat -> csr_row m u <> [] ->
  gpu_fit bdot eps order n size steps alpha reg iterations m X Y = als_fit (least_squares_cg eps steps n) 1 reg iterations m X Y.
Proof.
  intros bdot eps order n size steps alpha reg iterations m X Y u DO LN FS E0 R0 C P MX MY LX LY Bu NE.
  unfold gpu_fit, gpu_als_fit, als_fit. destruct (transpose_nonempty m u C Bu NE) as [j NJ].
  rewrite (upload_ok _ j NJ), (upload_ok m u NE). cbn [bind]. rewrite apply_alpha_scale, scale_one. apply gpu_iterate_eq; auto.
Qed.

(** The blocks of the launch take every user exactly once, whatever their number. *)
Theorem C89_grid : forall G c, (0 < G)%nat -> Permutation (concat (grid G c)) (seq 0 c).
Proof. exact grid_perm. Qed.

(** Any interleaving of the blocks. *)
Theorem C89_schedule_partial : forall bdot eps n steps G reg m X Y sched,
  sums_right n bdot -> 0 < eps -> 0 <= reg -> (0 < G)%nat -> canonical m -> mat_ok n X -> mat_ok n Y -> length X = c_rows m -> length Y = c_cols m ->
  exists X' st, least_squares_cg eps steps n m X Y reg = Ok X' /\
    prun (gpu_task bdot eps steps n m (add_diag reg (gram n Y)) Y) GLoad sched (pstart X (map (fun us => (us, tt)) (grid G (length X)))) = Ok st /\
    (finished st -> fst st = X').
Proof.
  intros bdot eps n steps G reg m X Y sched DO E0 R0 HG C MX MY LX LY.
  assert (DS : descent_solver n (least_squares_cg eps steps n)) by (apply (cg_solver_descends (fun _ _ => None) (fun _ _ => None) eps n {| use_cg := true; use_native := true; o_cg_steps := steps |}); auto).
  destruct (DS m X Y reg C MX MY LX LY R0) as [X' [E D]]. exists X'.
  assert (E2 := E). unfold least_squares_cg in E2. apply (proj1 (map_res_nth _ _ _ (0%nat, []) [])) in E2. unfold enum in E2. rewrite Base.enum_from_length in E2. destruct E2 as [L V].
  destruct (schedule_all (gpu_task bdot eps steps n m (add_diag reg (gram n Y)) Y) GLoad X X' (map (fun us => (us, tt)) (grid G (length X))) sched) as [st [ES F]]; auto.
  - rewrite flat_map_concat_map, map_map. cbn [fst]. rewrite map_id. apply grid_perm; auto.
  - intros u b B. specialize (V u B). rewrite nth_enum_from in V by auto. cbn [fst snd] in V. simpl plus in V.
    destruct (normal_symmetric n Y reg MY) as [S1 S2].
    assert (EU : gpu_user bdot eps steps n m (add_diag reg (gram n Y)) Y u (nth u X []) = Ok (nth u X' [])).
    { unfold gpu_user. destruct (raw_entries m u) as [row|] eqn:ER; cbn [bind] in V |- *; [|exact V]. rewrite gpu_cg_row_eq; auto. apply mat_row; auto. }
    eapply runs_more; [cbn [gpu_task]; rewrite EU; reflexivity|]. eapply runs_end. reflexivity.
  - exists st. auto.
Qed.

(** So the objective never goes up while training on the GPU. *)
Theorem C89_descends_partial : forall bdot eps order n size steps alpha reg m X Y u,
  sums_right n bdot -> (n <= 1024)%nat -> float_size size -> 0 < eps -> 0 <= reg -> canonical m ->
  (forall c, Permutation (order c) (seq 0 c)) -> mat_ok n X -> mat_ok n Y -> length X = c_rows m -> length Y = c_cols m ->
  (u < c_rows m)%nat -> csr_row m u <> [] ->
  exists run : nat -> list (list R) * list (list R), run 0%nat = (X, Y) /\
    forall k, gpu_fit bdot eps order n size steps alpha reg k m X Y = Ok (run k) /\
      total_loss (csr_row m) reg (fst (run (S k))) (snd (run (S k))) <= total_loss (csr_row m) reg (fst (run k)) (snd (run k)).
Proof.
  intros bdot eps order n size steps alpha reg m X Y u DO LN FS E0 R0 C P MX MY LX LY Bu NE.
  set (solver := least_squares_cg eps steps n).
  assert (DS : descent_solver n solver) by (apply (cg_solver_descends (fun _ _ => None) (fun _ _ => None) eps n {| use_cg := true; use_native := true; o_cg_steps := steps |}); auto).
  set (run := fun k => match als_iterate solver reg m (transpose m) k X Y with Ok p => p | Raise _ => (X, Y) end).
  assert (ST : forall k A B, mat_ok n A -> mat_ok n B -> length A = c_rows m -> length B = c_cols m ->
     exists A1 B1 A2 B2, als_iterate solver reg m (transpose m) k A B = Ok (A1, B1) /\ als_iterate solver reg m (transpose m) (S k) A B = Ok (A2, B2) /\
       total_loss (csr_row m) reg A2 B2 <= total_loss (csr_row m) reg A1 B1).
  { induction k as [|k IH]; intros A B MA MB LA LB; destruct (descent_iteration n solver reg m A B DS C MA MB LA LB R0) as [A' [B' [E1 [E2 [D1 [D2 [M1 [M2 [L1 L2]]]]]]]]].
    - exists A, B, A', B'. cbn [als_iterate]. rewrite E1. cbn [bind]. rewrite E2. cbn [bind]. split; [auto|split; [auto|lra]].
    - destruct (IH A' B' M1 M2 L1 L2) as [A1 [B1 [A2 [B2 [F1 [F2 D]]]]]]. exists A1, B1, A2, B2. split; [|split; auto].
      + cbn [als_iterate]. rewrite E1. cbn [bind]. rewrite E2. cbn [bind]. exact F1.
      + change (als_iterate solver reg m (transpose m) (S (S k)) A B) with (do X' <- solver m A B reg; do Y' <- solver (transpose m) B X' reg; als_iterate solver reg m (transpose m) (S k) X' Y').
        rewrite E1. cbn [bind]. rewrite E2. cbn [bind]. exact F2. }
  exists run. split; [reflexivity|]. intros k. destruct (ST k X Y MX MY LX LY) as [A1 [B1 [A2 [B2 [F1 [F2 D]]]]]].
  rewrite (C89_fit_partial bdot eps order n size steps alpha reg k m X Y u) by auto. unfold als_fit. rewrite apply_alpha_scale, scale_one. fold solver.
  unfold run. rewrite F1, F2. split; [reflexivity|exact D].
Qed.

Lemma exM_entry : csr_row exM 0 <> [].
Proof. discriminate. Qed.
Example C89_example : exists X' Y', gpu_fit rsum (1/1000000) (fun c => concat (grid 1024 c)) 2 4 3 7 (1/10) 5 exM exX exY = Ok (X', Y') /\
  als_fit (least_squares_cg (1/1000000) 3 2) 1 (1/10) 5 exM exX exY = Ok (X', Y') /\
  total_loss (csr_row exM) (1/10) X' Y' <= total_loss (csr_row exM) (1/10) exX exY.
Proof.
  assert (P : forall c, Permutation (concat (grid 1024 c)) (seq 0 c)) by (intros; apply grid_perm; apply Nat.lt_0_succ).
  assert (L2 : (2 <= 1024)%nat) by (apply Nat.leb_le; reflexivity).
  destruct (C89_descends_partial rsum (1/1000000) (fun c => concat (grid 1024 c)) 2 4 3 7 (1/10) exM exX exY 0) as [run [R0 V]];
    auto using exM_canonical, exX_ok, exY_ok, exM_entry; try lra; try (left; reflexivity); try (red; auto; fail); try (cbn; lia).
  exists (fst (run 5%nat)), (snd (run 5%nat)). destruct (V 5%nat) as [E _]. rewrite E, <- surjective_pairing. split; auto. split.
  - rewrite <- E. symmetry. apply (C89_fit_partial _ _ _ _ _ _ _ _ _ _ _ _ 0%nat); auto using exM_canonical, exX_ok, exY_ok, exM_entry; try lra; try (left; reflexivity); try (red; auto; fail); try (cbn; lia).
  - assert (D : forall k, total_loss (csr_row exM) (1/10) (fst (run k)) (snd (run k)) <= total_loss (csr_row exM) (1/10) exX exY).
    { induction k as [|k IH]; [rewrite R0; cbn [fst snd]; lra|]. destruct (V k) as [_ D]. eapply Rle_trans; eauto. }
    apply D.
Qed.

(** A matrix without interactions: the CPU trains (all factors become zero), the GPU raises IndexError. *)
Theorem C89_empty_refuted : exists n m X Y reg, canonical m /\ mat_ok n X /\ mat_ok n Y /\ length X = c_rows m /\ length Y = c_cols m /\ 0 <= reg /\
  (exists X' Y', als_fit (least_squares_cg (1/1000000) 3 n) 1 reg 1 m X Y = Ok (X', Y')) /\
  forall bdot eps order size steps alpha iterations, gpu_fit bdot eps order n size steps alpha reg iterations m X Y = Raise IndexError.
Proof.
  exists 1%nat, (csr_of_rows 1 [[]]), [[1]], [[1]], 1.
  assert (C : canonical (csr_of_rows 1 [[] : list (nat * R)])).
  { split; [apply csr_of_rows_wf; intros r p Hr Hp; simpl in Hr; destruct Hr as [<-|[]]; destruct Hp|].
    intros u B. cbn in B. assert (u = 0)%nat by lia. subst u. cbn. constructor. }
  assert (M1 : mat_ok 1 [[1]]) by (intros y [<-|[]]; reflexivity).
  repeat (split; [auto; try reflexivity; try lra|]).
  - destruct (descent_total_run 1 (least_squares_cg (1/1000000) 3 1) 1 (csr_of_rows 1 [[]]) 1) with (X := [[1]]) (Y := [[1]]) as [X' [Y' [E _]]]; auto; try lra.
    { apply (cg_solver_descends (fun _ _ => None) (fun _ _ => None) _ 1 {| use_cg := true; use_native := true; o_cg_steps := 3 |}); auto; lra. }
    exists X', Y'. unfold als_fit. rewrite apply_alpha_scale, scale_one. exact E.
  - intros. reflexivity.
Qed.

(* ------------------------------------------------------------------ the limit of C89 *)
(** With more than 1024 factors nothing is trained and nothing is reported: fit returns the factors it started with. *)
Theorem C89_limit_refuted : forall bdot eps order n size steps alpha reg iterations (m : csr R) X Y u,
  (1024 < n)%nat -> float_size size -> canonical m -> length X = c_rows m -> length Y = c_cols m -> (u < c_rows m)%nat -> csr_row m u <> [] ->
  gpu_fit bdot eps order n size steps alpha reg iterations m X Y = Ok (X, Y).
Proof.
  intros bdot eps order n size steps alpha reg iterations m X Y u BN FS C LX LY Bu NE.
  unfold gpu_fit, gpu_als_fit. destruct (transpose_nonempty m u C Bu NE) as [j NJ].
  rewrite (upload_ok _ j NJ), (upload_ok m u NE). cbn [bind].
  assert (SV : forall mm A B, length A = c_rows mm -> length B = c_cols mm -> gpu_solver bdot eps order n size steps mm A B reg = Ok A).
  { intros mm A B LA LB. unfold gpu_solver, gpu_yty, gpu_least_squares. cbn [g_size g_cols g_rows]. rewrite Nat.eqb_refl. cbn [negb]. rewrite float_size_b by auto. cbn [negb].
    rewrite launches_gt by auto. cbn [bind]. replace (length A <? c_rows mm)%nat with false by (symmetry; apply Nat.ltb_ge; lia).
    replace (length B <? c_cols mm)%nat with false by (symmetry; apply Nat.ltb_ge; lia). rewrite Z.eqb_refl. reflexivity. }
  induction iterations as [|k IH]; cbn [als_iterate]; auto. rewrite SV by auto. cbn [bind]. rewrite SV by (rewrite ?transpose_rows; auto). cbn [bind]. exact IH.
Qed.
Example C89_limit_example : forall bdot order,
  gpu_fit bdot (1/1000000) order (Z.to_nat 1025) 4 3 1 (1/10) 15 exM exX exY = Ok (exX, exY).
Proof.
  intros. apply (C89_limit_refuted _ _ _ _ _ _ _ _ _ _ _ _ 0%nat); auto using exM_canonical, exM_entry; try (left; reflexivity); try (cbn; lia).
Qed.

(* ------------------------------------------------------------------ C90 *)
(** A fitted model on the device: factors of one width and type; the cached Gram matrices belong to the factors. *)
Definition gpu_model_ok (g : gals) : Prop :=
  (ga_n g <= 1024)%nat /\ 0 <= ga_reg g /\ float_size (ga_size g) /\
  g_cols (ga_X g) = ga_n g /\ g_cols (ga_Y g) = ga_n g /\ g_size (ga_X g) = ga_size g /\ g_size (ga_Y g) = ga_size g /\
  mat_ok (ga_n g) (g_rows (ga_X g)) /\ mat_ok (ga_n g) (g_rows (ga_Y g)) /\
  cache_ok (ga_YtY g) (ga_n g) (ga_Y g) (ga_reg g) /\ cache_ok (ga_XtX g) (ga_n g) (ga_X g) (ga_reg g).

(** Full statement: recalculate_user and recalculate_item on the GPU solve the normal equations of every requested
    row, with alpha applied, for every matrix with one row per id.  Missing: matrices without any entry, and the
    check of the number of rows (both refuted below); what C78 and C79 say about the inner products. *)
Theorem C90_user_partial : forall bdot eps order g ids m u,
  sums_right (ga_n g) bdot -> 0 < eps -> gpu_model_ok g -> canonical m -> (c_cols m <= length (g_rows (ga_Y g)))%nat ->
  c_rows m = id_count ids -> csr_row m u <> [] -> Permutation order (seq 0 (c_rows m)) ->
  exists X', gpu_recalculate_user bdot eps order g ids m = Ok X' /\ length (g_rows X') = id_count ids /\
    forall k, (k < id_count ids)%nat ->
      near_solution (ga_n g) (g_rows (ga_Y g)) (ga_reg g) (scale_row (ga_alpha g) (csr_row m k)) eps (nth k (g_rows X') []) /\
      (csr_row m k = [] -> nth k (g_rows X') [] = repeat 0 (ga_n g)).
Proof.
  intros bdot eps order g ids m u DO E0 [LN [R0 [FS [CX [CY [SX [SY [MX [MY [KY KX]]]]]]]]]] C LC EI NE P. unfold gpu_recalculate_user. rewrite <- EI.
  destruct (gpu_recalculate_ok bdot eps order g (ga_Y g) (ga_YtY g) m u) as [rows [E [L V]]]; auto. rewrite E. eexists. split; [reflexivity|]. auto.
Qed.
Theorem C90_item_partial : forall bdot eps order g ids m u,
  sums_right (ga_n g) bdot -> 0 < eps -> gpu_model_ok g -> canonical m -> (c_cols m <= length (g_rows (ga_X g)))%nat ->
  c_rows m = id_count ids -> csr_row m u <> [] -> Permutation order (seq 0 (c_rows m)) ->
  exists Y', gpu_recalculate_item bdot eps order g ids m = Ok Y' /\ length (g_rows Y') = id_count ids /\
    forall k, (k < id_count ids)%nat ->
      near_solution (ga_n g) (g_rows (ga_X g)) (ga_reg g) (scale_row (ga_alpha g) (csr_row m k)) eps (nth k (g_rows Y') []) /\
      (csr_row m k = [] -> nth k (g_rows Y') [] = repeat 0 (ga_n g)).
Proof.
  intros bdot eps order g ids m u DO E0 [LN [R0 [FS [CX [CY [SX [SY [MX [MY [KY KX]]]]]]]]]] C LC EI NE P. unfold gpu_recalculate_item. rewrite <- EI.
  destruct (gpu_recalculate_ok bdot eps order g (ga_X g) (ga_XtX g) m u) as [rows [E [L V]]]; auto. rewrite E. eexists. split; [reflexivity|]. auto.
Qed.
(** So the answer is close to what the CPU version (an exact solver) gives for the same factors. *)
Theorem C90_cpu_partial : forall bdot eps order g posv ids m u X',
  sums_right (ga_n g) bdot -> 0 < eps -> gpu_model_ok g -> 0 < ga_reg g -> posv_ok posv -> canonical m -> c_cols m = length (g_rows (ga_Y g)) ->
  c_rows m = id_count ids -> csr_row m u <> [] -> Permutation order (seq 0 (c_rows m)) ->
  recalculate_user posv (ga_alpha g) (ga_reg g) (ga_n g) (gram (ga_n g) (g_rows (ga_Y g))) (g_rows (ga_Y g)) ids m = Ok X' ->
  exists G', gpu_recalculate_user bdot eps order g ids m = Ok G' /\
    forall k, (k < id_count ids)%nat ->
      ga_reg g * ga_reg g * rdot (vsub (nth k X' []) (nth k (g_rows G') [])) (vsub (nth k X' []) (nth k (g_rows G') [])) <= eps.
Proof.
  intros bdot eps order g posv ids m u X' DO E0 GM RP PO C LC EI NE P E. assert (GM' := GM). destruct GM as [LN [R0 [FS [CX [CY [SX [SY [MX [MY [KY KX]]]]]]]]]].
  destruct (C90_user_partial bdot eps order g ids m u) as [G' [EG [L V]]]; auto; [lia|]. exists G'. split; auto. intros k Bk. destruct (V k Bk) as [NS _].
  assert (RO : row_ok (length (g_rows (ga_Y g))) (scale_row (ga_alpha g) (csr_row m k))).
  { rewrite <- scale_rows. rewrite <- LC. apply (canonical_row (csr_scale (ga_alpha g) m)); [apply scale_canonical; auto|cbn; lia]. }
  destruct (C88_loss eps (ga_n g) (g_rows (ga_Y g)) (ga_reg g) (scale_row (ga_alpha g) (csr_row m k)) (nth k (g_rows G') [])) as [_ Q]; auto. apply Q.
  destruct (C36_recalculate_user posv (ga_alpha g) (ga_reg g) (ga_n g) (g_rows (ga_Y g)) ids m X' PO C MY (eq_sym LC) R0 E) as [_ [_ K]]. apply K; auto.
Qed.

Definition exG (size : Z) (n : nat) (X Y : list (list R)) : gals := {| ga_n := n; ga_size := size; ga_reg := 1/10; ga_alpha := 2;
  ga_X := {| g_size := size; g_cols := n; g_rows := X |}; ga_Y := {| g_size := size; g_cols := n; g_rows := Y |};
  ga_XtX := None; ga_YtY := Some (add_diag (1/10) (gram n Y)); ga_unorms := Some []; ga_inorms := Some [] |}.
Lemma exG_ok size n X Y : float_size size -> (n <= 1024)%nat -> mat_ok n X -> mat_ok n Y -> gpu_model_ok (exG size n X Y).
Proof.
  intros FS LN MX MY. unfold gpu_model_ok, exG. cbn [ga_n ga_size ga_reg ga_alpha ga_X ga_Y ga_XtX ga_YtY g_cols g_size g_rows cache_ok].
  repeat split; auto; lra.
Qed.
Lemma two_small : (2 <= 1024)%nat.
Proof. apply Nat.leb_le. reflexivity. Qed.
Lemma one_small : (1 <= 1024)%nat.
Proof. apply Nat.leb_le. reflexivity. Qed.
Lemma rsum_right n : sums_right n rsum.
Proof. intros l _. reflexivity. Qed.
(** Three users, one of them without items, on a model with float16 factors: the rows come out in any order. *)
Example C90_example : gpu_model_ok (exG 2 2 exX exY) /\
  exists X', gpu_recalculate_user rsum (1/1000000) [2%nat; 0%nat; 1%nat] (exG 2 2 exX exY) (Batch [7%Z; 8%Z; 9%Z]) exM = Ok X' /\
    nth 1 (g_rows X') [] = [0; 0] /\
    near_solution 2 exY (1/10) [(0%nat, 2 * 5); (2%nat, 2 * -4)] (1/1000000) (nth 0 (g_rows X') []) /\
    near_solution 2 exY (1/10) [(1%nat, 2 * 2)] (1/1000000) (nth 2 (g_rows X') []).
Proof.
  assert (GM : gpu_model_ok (exG 2 2 exX exY)) by (apply exG_ok; [right; reflexivity|apply two_small|apply exX_ok|apply exY_ok]). split; auto.
  destruct (C90_user_partial rsum (1/1000000) [2%nat; 0%nat; 1%nat] (exG 2 2 exX exY) (Batch [7%Z; 8%Z; 9%Z]) exM 0%nat (rsum_right _) ltac:(lra) GM exM_canonical (le_n 3) eq_refl exM_entry) as [X' [E [L V]]].
  { apply exM_loss_ok. }
  exists X'. split; [exact E|]. split; [|split].
  - apply (V 1%nat); [cbn; lia|reflexivity].
  - apply (V 0%nat). cbn; lia.
  - apply (V 2%nat). cbn; lia.
Qed.

(** A user without items: the CPU answers with zeros, the GPU raises IndexError. *)
Theorem C90_empty_refuted : exists g m, gpu_model_ok g /\ canonical m /\ c_rows m = 1%nat /\ c_cols m = length (g_rows (ga_Y g)) /\
  (exists posv X', posv_ok posv /\ recalculate_user posv (ga_alpha g) (ga_reg g) (ga_n g) (gram (ga_n g) (g_rows (ga_Y g))) (g_rows (ga_Y g)) (Scalar 0) m = Ok X' /\ length X' = 1%nat) /\
  forall bdot eps order, gpu_recalculate_user bdot eps order g (Scalar 0) m = Raise IndexError.
Proof.
  assert (C : canonical (csr_of_rows 3 [[] : list (nat * R)])).
  { split; [apply csr_of_rows_wf; intros r p Hr Hp; simpl in Hr; destruct Hr as [<-|[]]; destruct Hp|].
    intros u B. cbn in B. assert (u = 0)%nat by lia. subst u. cbn. constructor. }
  exists (exG 4 2 exX exY), (csr_of_rows 3 [[]]). split; [apply exG_ok; [left; reflexivity|apply two_small|apply exX_ok|apply exY_ok]|].
  split; [exact C|]. split; [reflexivity|]. split; [reflexivity|]. split.
  - exists posv_elim. destruct (least_squares_c_total posv_elim 2 (csr_scale 2 (csr_of_rows 3 [[]])) exY (1/10) posv_elim_ok (scale_canonical 2 _ C) exY_ok eq_refl ltac:(lra)) as [X' E].
    exists X'. split; [apply posv_elim_ok|]. unfold recalculate_user. cbn [ga_alpha ga_reg ga_n ga_Y exG g_rows]. rewrite apply_alpha_scale. split; [exact E|].
    assert (E2 := E). unfold least_squares_c in E2. apply (proj1 (map_res_nth _ _ _ 0%nat [])) in E2. destruct E2 as [L _]. rewrite L. reflexivity.
  - intros. unfold gpu_recalculate_user, gpu_recalculate. cbn [ga_alpha ga_size exG ga_Y ga_YtY]. rewrite apply_alpha_scale. reflexivity.
Qed.

(** Fewer rows than ids: the CPU raises ValueError; the GPU reads past the end of the row pointers. *)
Theorem C90_rows_refuted : exists g m ids, gpu_model_ok g /\ canonical m /\ (c_rows m < id_count ids)%nat /\ c_cols m = length (g_rows (ga_Y g)) /\
  (forall posv G, recalculate_user posv (ga_alpha g) (ga_reg g) (ga_n g) G (g_rows (ga_Y g)) ids m = Raise ValueError) /\
  forall bdot eps order, sums_right (ga_n g) bdot -> 0 < eps -> Permutation order (seq 0 (id_count ids)) ->
    gpu_recalculate_user bdot eps order g ids m = Raise UB.
Proof.
  set (m := csr_of_rows 3 [ex_row]).
  assert (C : canonical m).
  { split; [apply csr_of_rows_wf; intros r p Hr Hp; simpl in Hr; destruct Hr as [<-|[]]; simpl in Hp; repeat (destruct Hp as [<-|Hp]; [simpl; lia|]); tauto|].
    intros u B. cbn in B. assert (u = 0)%nat by lia. subst u. exact (proj2 exM_canonical 0%nat ltac:(cbn; lia)). }
  exists (exG 4 2 exX exY), m, (Batch [0%Z; 1%Z]). split; [apply exG_ok; [left; reflexivity|apply two_small|apply exX_ok|apply exY_ok]|].
  split; [exact C|]. split; [cbn; lia|]. split; [reflexivity|]. split; [reflexivity|].
  intros bdot eps order DO E0 P. unfold gpu_recalculate_user, gpu_recalculate. cbn [ga_alpha ga_size exG ga_Y ga_YtY ga_n ga_reg id_count id_list length]. rewrite apply_alpha_scale.
  set (mm := csr_scale 2 m). change ((4 =? 4)%Z || (4 =? 2)%Z) with true. cbn [negb]. rewrite (upload_ok mm 0) by discriminate. cbn [bind yty_value].
  unfold gpu_least_squares. cbn [g_cols g_size g_rows]. rewrite Nat.eqb_refl. cbn [negb]. change (length (repeat (repeat nzero 2) 2) <? c_rows mm)%nat with false.
  change (length exY <? c_cols mm)%nat with false. change ((4 =? 4)%Z) with true. cbn [negb orb]. rewrite launches_le by apply two_small.
  assert (U1 : forall x, gpu_user bdot eps 2 2 mm (add_diag (1/10) (gram 2 exY)) exY 1 x = Raise UB) by (intros; reflexivity).
  assert (U0 : exists x', gpu_user bdot eps 2 2 mm (add_diag (1/10) (gram 2 exY)) exY 0 [nzero; nzero] = Ok x').
  { destruct (normal_symmetric 2 exY (1/10) exY_ok) as [S1 S2]. unfold gpu_user. rewrite raw_entries_ok by (try apply scale_canonical; auto; cbn; lia). cbn [bind].
    rewrite (gpu_cg_row_eq 2) by (auto; apply exY_ok). destruct (C88_residual eps 2 2 exY (1/10) (csr_row mm 0) [nzero; nzero]) as [[x' [E _]] _]; auto; try lra; [apply exY_ok| |eauto].
    apply (canonical_row mm); [apply scale_canonical; auto|cbn; lia]. }
  destruct U0 as [x' U0]. cbn [seq] in P. apply Permutation_sym, Permutation_length_2_inv in P. unfold gpu_kernel. cbn [repeat].
  destruct P as [-> | ->]; cbn [fold_res].
  - change (raw_row [[nzero; nzero]; [nzero; nzero]] 0) with (@Ok (list R) [nzero; nzero]). cbn [bind]. rewrite U0. cbn [bind upd].
    change (raw_row [x'; [nzero; nzero]] 1) with (@Ok (list R) [nzero; nzero]). cbn [bind]. rewrite U1. reflexivity.
  - change (raw_row [[nzero; nzero]; [nzero; nzero]] 1) with (@Ok (list R) [nzero; nzero]). cbn [bind]. rewrite U1. reflexivity.
Qed.

(* ------------------------------------------------------------------ C91 *)
(** Full statement: the training loss the GPU reports is the one the CPU reports for the same factors, in whatever
    order the blocks add up.  Missing: more than 1024 factors (refuted below); C78 and C79; the rounding of floats. *)
Theorem C91_partial : forall bdot G ord0 ord1 n size m X Y reg uorder iorder,
  sums_right n bdot -> (n <= 1024)%nat -> float_size size -> (0 < G)%nat -> Permutation ord0 (seq 0 G) -> Permutation ord1 (seq 0 G) ->
  loss_inputs_ok n m X Y uorder iorder -> length (c_data m) = nth (c_rows m) (c_indptr m) 0%nat ->
  gpu_calculate_loss bdot INR G ord0 ord1 m {| g_size := size; g_cols := n; g_rows := X |} {| g_size := size; g_cols := n; g_rows := Y |} reg =
  calculate_loss INR n uorder iorder m X Y reg.
Proof.
  intros bdot G ord0 ord1 n size m X Y reg uorder iorder DO LN FS HG P0 P1 [C [Z [MX [MY [LX [LY [PU PI]]]]]]] ND.
  rewrite gpu_loss_value by auto. rewrite calculate_loss_value by auto. reflexivity.
Qed.
(** So without negative entries it is the objective divided by the sum of the confidences. *)
Theorem C91_formula_partial : forall bdot G ord0 ord1 n size m X Y reg uorder iorder,
  sums_right n bdot -> (n <= 1024)%nat -> float_size size -> (0 < G)%nat -> Permutation ord0 (seq 0 G) -> Permutation ord1 (seq 0 G) ->
  loss_inputs_ok n m X Y uorder iorder -> length (c_data m) = nth (c_rows m) (c_indptr m) 0%nat ->
  (forall u p, (u < c_rows m)%nat -> In p (csr_row m u) -> 0 <= snd p) -> total_confidence (csr_row m) (c_rows m) (c_cols m) <> 0 ->
  gpu_calculate_loss bdot INR G ord0 ord1 m {| g_size := size; g_cols := n; g_rows := X |} {| g_size := size; g_cols := n; g_rows := Y |} reg =
  Ok (total_loss (csr_row m) reg X Y / total_confidence (csr_row m) (c_rows m) (c_cols m)).
Proof.
  intros bdot G ord0 ord1 n size m X Y reg uorder iorder DO LN FS HG P0 P1 IN ND NN NZ.
  rewrite (C91_partial _ _ _ _ _ _ _ _ _ _ uorder iorder) by auto. apply C37_partial; auto.
Qed.
Example C91_example : gpu_calculate_loss rsum INR 2 [1%nat; 0%nat] [0%nat; 1%nat] exM {| g_size := 4; g_cols := 2; g_rows := exX |} {| g_size := 4; g_cols := 2; g_rows := exY |} (1/10) =
  Ok ((total_loss (csr_row exM) (1/10) exX exY + negative_mass exM) / 17).
Proof.
  rewrite (C91_partial rsum 2 _ _ 2 4 exM exX exY (1/10) [2%nat; 0%nat; 1%nat] [0%nat; 1%nat; 2%nat]).
  - rewrite C37_formula; [rewrite exM_conf; reflexivity|apply exM_loss_ok|rewrite exM_conf; lra].
  - apply rsum_right.
  - apply two_small.
  - left; reflexivity.
  - lia.
  - apply perm_swap.
  - apply Permutation_refl.
  - apply exM_loss_ok.
  - reflexivity.
Qed.
(** With more than 1024 factors the reported loss is 0, whatever the factors. *)
Theorem C91_limit_refuted : forall bdot G ord0 ord1 n size (m : csr R) X Y reg, (1024 < n)%nat -> float_size size ->
  INR (c_rows m * c_cols m) <> INR (length (c_data m)) ->
  gpu_calculate_loss bdot INR G ord0 ord1 m {| g_size := size; g_cols := n; g_rows := X |} {| g_size := size; g_cols := n; g_rows := Y |} reg = Ok 0.
Proof.
  intros bdot G ord0 ord1 n size m X Y reg BN FS NZ. unfold gpu_calculate_loss, gpu_yty. cbn [g_cols g_size g_rows]. rewrite Nat.eqb_refl. cbn [negb].
  rewrite float_size_b by auto. cbn [negb]. rewrite launches_gt by auto. cbn [bind].
  assert (Zs : forall (f : R * R -> R) o, f (nzero, nzero) = 0 -> nsum (map (fun b => f (nth b (@nil (R * R)) (nzero, nzero))) o) = 0).
  { intros f o F. rewrite nsum_rsum. apply rsum_zero. intros v Hv. apply in_map_iff in Hv. destruct Hv as [b [<- _]]. destruct b; exact F. }
  rewrite (Zs fst), (Zs snd) by reflexivity. unfold c_div, neqb. simpl. unfold Rltb.
  destruct (Rlt_dec _ 0) as [L|L]; simpl; [f_equal; unfold Rdiv; ring|]. destruct (Rlt_dec 0 _) as [L2|L2]; simpl; [f_equal; unfold Rdiv; ring|]. exfalso. lra.
Qed.
Example C91_limit_example : INR (c_rows exM * c_cols exM) <> INR (length (c_data exM)).
Proof. cbn. lra. Qed.
Print Assumptions C89_fit_partial.
Print Assumptions C89_grid.
Print Assumptions C89_schedule_partial.
Print Assumptions C89_descends_partial.
Print Assumptions C89_empty_refuted.
Print Assumptions C89_limit_refuted.
Print Assumptions C90_user_partial.
Print Assumptions C90_item_partial.
Print Assumptions C90_cpu_partial.
Print Assumptions C90_empty_refuted.
Print Assumptions C90_rows_refuted.
Print Assumptions C91_partial.
Print Assumptions C91_formula_partial.
Print Assumptions C91_limit_refuted.
