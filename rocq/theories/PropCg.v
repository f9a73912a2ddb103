(** ALS with the conjugate gradient solver: property C39 of properties.jsonl (and C35 for
    this solver). *)
From Coq Require Import List Arith Lia Bool Reals Lra Permutation.
From Verif Require Import Base Num Sparse TopkModel RecommendModel RVec SimilarBatch AlsModel AlsSpec AlsProofs PosvImpl AlsProofs2
  AlsLoss RowConc AlsConc CgProofs PropAls.
Import ListNotations.
Local Open Scope R_scope.

(* ------------------------------------------------------------------ C35 for CG *)
(** The conjugate gradient code works on the normal equations too: its starting residual
    is b - A x and its matrix-vector product is A p, native and python. *)
Theorem C35_cg : forall n Y reg row A b x, mat_ok n Y -> row_ok (length Y) row -> is_normal_system n Y reg row A b -> length x = n ->
  residual (add_diag reg (gram n Y)) Y row x = Ok (vsub b (mv A x)) /\
  residual_py (add_diag reg (gram n Y)) Y row x = Ok (vsub b (mv A x)) /\
  apply_A (add_diag reg (gram n Y)) Y row x = Ok (mv A x).
Proof.
  intros n Y reg row A b x MY RO [LA [RA [Lb [EA EB]]]] Lx.
  destruct (C35_native n Y reg row MY RO) as [A' [b' [E [LA' [RA' [Lb' [EA' EB']]]]]]].
  assert (HA : A' = A).
  { apply nth_ext with (d := []) (d' := []); [congruence|]. intros j Bj. rewrite LA' in Bj.
    assert (L1 : length (nth j A' []) = n) by (apply RA', nth_In; lia). assert (L2 : length (nth j A []) = n) by (apply RA, nth_In; lia).
    apply nth_ext with (d := 0) (d' := 0); [congruence|]. intros k Bk. rewrite L1 in Bk. rewrite EA, EA' by auto. auto. }
  assert (Hb : b' = b).
  { apply nth_ext with (d := 0) (d' := 0); [congruence|]. intros j Bj. rewrite Lb' in Bj. rewrite EB, EB' by auto. auto. }
  subst A' b'. destruct (system_form n Y reg row MY RO) as [A2 [b2 [E2 [SA [_ [FA FB]]]]]]. rewrite E in E2. inversion E2; subst A2 b2.
  destruct (residual_form n Y reg row MY RO x Lx) as [r [Er [Lr Fr]]]. destruct (apply_A_form n Y reg row MY RO x Lx) as [Ap [Ep [Lp Fp]]].
  assert (Hr : r = vsub b (mv A x)).
  { apply (vec_eq n); auto; [rewrite vsub_length; rewrite ?mv_length; lia|]. intros z Lz. rewrite Fr by auto. unfold aform.
    rewrite rdot_vsub_l by (rewrite mv_length; congruence). rewrite FA, FB by auto. auto. }
  assert (Hp : Ap = mv A x).
  { apply (vec_eq n); auto; [rewrite mv_length; auto|]. intros z Lz. rewrite Fp by auto. unfold aform. rewrite FA by auto. auto. }
  rewrite (residual_py_eq n Y reg row RO x). subst. auto.
Qed.
Print Assumptions C35_cg.

(* ------------------------------------------------------------------ C39 *)
(** Any number of cg_steps, native or python, any reg >= 0, any threshold eps > 0: [fit]
    never fails (in particular no division by zero), and each iteration leaves a loss no
    larger than before. *)
Theorem C39_cg : forall posv solve eps n o alpha reg m X Y, 0 < eps -> use_cg o = true ->
  canonical m -> mat_ok n X -> mat_ok n Y -> length X = c_rows m -> length Y = c_cols m -> 0 <= reg ->
  forall k, exists XY XY',
    als_fit (als_solver posv solve eps n o) alpha reg k m X Y = Ok XY /\
    als_fit (als_solver posv solve eps n o) alpha reg (S k) m X Y = Ok XY' /\
    training_loss alpha reg m XY' <= training_loss alpha reg m XY.
Proof.
  intros posv solve eps n o alpha reg m X Y E0 CG C MX MY LX LY R0 k. unfold als_fit. rewrite apply_alpha_scale.
  set (s := als_solver posv solve eps n o). assert (DS : descent_solver n s) by (apply cg_solver_descends; auto).
  assert (CS := scale_canonical alpha m C).
  destruct (descent_total_run n s reg (csr_scale alpha m) k DS CS R0 X Y MX MY LX LY) as [Xk [Yk [E1 [M1 [M2 [L1 L2]]]]]].
  destruct (descent_iteration n s reg (csr_scale alpha m) Xk Yk DS CS M1 M2 L1 L2 R0) as [X' [Y' [S1 [S2 [D1 [D2 _]]]]]].
  exists (Xk, Yk), (X', Y'). split; auto. split.
  - rewrite als_iterate_S, E1. cbn [bind]. rewrite S1. cbn [bind]. rewrite S2. reflexivity.
  - unfold training_loss. cbn [fst snd].
    assert (TL : forall A B, total_loss (fun u => scale_row alpha (csr_row m u)) reg A B = total_loss (csr_row (csr_scale alpha m)) reg A B).
    { intros A B. unfold total_loss. f_equal. apply rsum_map_ext. intros u _. rewrite scale_rows. auto. }
    rewrite !TL. lra.
Qed.
Print Assumptions C39_cg.

(** Progress: a user with entries whose residual is not below the threshold ends up with
    a strictly smaller loss. *)
Theorem C39_progress : forall eps steps n Y reg row A b x, 0 < eps -> (0 < steps)%nat -> mat_ok n Y -> row_ok (length Y) row -> 0 <= reg ->
  is_normal_system n Y reg row A b -> length x = n -> row <> [] ->
  eps <= rdot (vsub b (mv A x)) (vsub b (mv A x)) ->
  exists x', cg_row eps steps (add_diag reg (gram n Y)) n Y row x = Ok x' /\ length x' = n /\ user_loss Y reg row x' < user_loss Y reg row x.
Proof.
  intros eps steps n Y reg row A b x E0 K MY RO R0 NS Lx NE LB. destruct (C35_cg n Y reg row A b x MY RO NS Lx) as [ER _].
  destruct (cg_start_descends n Y reg row MY RO R0 eps E0 steps x Lx) as [r [E [_ [x' [E' [L' [_ D]]]]]]].
  rewrite ER in E. inversion E; subst r. exists x'. split; [|split; auto]. unfold cg_row. destruct row as [|e row']; [congruence|].
  rewrite ER. cbn [bind]. cbv zeta. exact E'.
Qed.
Print Assumptions C39_progress.

Lemma exM_row0 : row_ok (length exY) ex_row.
Proof. apply C35_example. Qed.
(** Without regularization, and with it. *)
Example C39_example :
  (forall k, exists XY XY',
    als_fit (als_solver posv_elim solve_sym (1/1000) 2 {| use_cg := true; use_native := true; o_cg_steps := 3 |}) 2 0 k exM exX exY = Ok XY /\
    als_fit (als_solver posv_elim solve_sym (1/1000) 2 {| use_cg := true; use_native := true; o_cg_steps := 3 |}) 2 0 (S k) exM exX exY = Ok XY' /\
    training_loss 2 0 exM XY' <= training_loss 2 0 exM XY) /\
  exists A b, is_normal_system 2 exY (1/10) ex_row A b /\ 1/1000 <= rdot (vsub b (mv A [0; 0])) (vsub b (mv A [0; 0])).
Proof.
  split.
  - apply C39_cg; auto; [lra|apply exM_canonical|apply exX_ok|apply exY_ok|lra].
  - destruct (C35_native 2 exY (1/10) ex_row exY_ok exM_row0) as [A [b [E NS]]]. exists A, b. split; auto.
    destruct NS as [LA [RA [Lb [EA EB]]]]. destruct C35_example as [_ [_ [_ [_ [_ [B0 B1]]]]]].
    assert (b = [5; 10]).
    { destruct b as [|b0 [|b1 [|b2 b]]]; try discriminate. pose proof (EB 0%nat ltac:(lia)) as H0. pose proof (EB 1%nat ltac:(lia)) as H1. simpl in H0, H1. congruence. }
    subst b. assert (Z : mv A [0; 0] = [0; 0]).
    { destruct A as [|r0 [|r1 [|r2 A]]]; try discriminate. unfold mv. simpl. rewrite !(rdot_comm _ [0; 0]).
      change [0; 0] with (repeat 0 2). rewrite !rdot_repeat0. auto. }
    rewrite Z. simpl. lra.
Qed.
