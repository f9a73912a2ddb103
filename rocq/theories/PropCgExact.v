(** Conjugate gradients with at least as many steps as factors: property C88 of properties.jsonl. *)
From Coq Require Import List Arith Lia Bool Reals Lra Permutation.
From Verif Require Import Base Num Sparse TopkModel TopkBatch RecommendModel RVec SimilarBatch AlsModel AlsSpec AlsProofs PosvImpl AlsProofs2
  RowConc AlsConc CgProofs CgExact PropAls PropCg.
Import ListNotations.
Local Open Scope R_scope.

(** The squared residual of the user's normal equations is below [eps]. *)
Definition near_solution (n : nat) (Y : list (list R)) (reg : R) (row : list (nat * R)) (eps : R) (x : list R) : Prop :=
  length x = n /\ forall A b, is_normal_system n Y reg row A b -> rdot (vsub b (mv A x)) (vsub b (mv A x)) < eps.

Lemma residual_small n Y reg row eps x r : mat_ok n Y -> row_ok (length Y) row -> length x = n -> length r = n ->
  (forall z, length z = n -> rdot r z = wlin Y row z - aform Y reg row x z) -> rdot r r < eps -> near_solution n Y reg row eps x.
Proof.
  intros MY RO Lx Lr F S. split; auto. intros A b NS. destruct (C35_cg n Y reg row A b x MY RO NS Lx) as [E _].
  destruct (residual_form n Y reg row MY RO x Lx) as [r2 [E2 [L2 F2]]]. rewrite E in E2. inversion E2 as [E3]. rewrite E3.
  replace r2 with r; auto. apply (vec_eq n); auto. intros z Lz. rewrite F, F2; auto.
Qed.
Lemma near_solution_residual n Y reg row eps x : mat_ok n Y -> row_ok (length Y) row -> near_solution n Y reg row eps x ->
  exists r, length r = n /\ (forall z, length z = n -> rdot r z = wlin Y row z - aform Y reg row x z) /\ rdot r r < eps.
Proof.
  intros MY RO [Lx NS]. destruct (C35_native n Y reg row MY RO) as [A [b [_ S]]]. specialize (NS A b S).
  destruct (C35_cg n Y reg row A b x MY RO S Lx) as [E _]. destruct (residual_form n Y reg row MY RO x Lx) as [r [E2 [Lr F]]].
  rewrite E in E2. inversion E2 as [E3]. rewrite E3 in NS. exists r. auto.
Qed.

Lemma zero_form n Y reg z : wlin Y [] z - aform Y reg [] (zeros n) z = 0.
Proof.
  assert (W : wlin Y [] z = 0). { unfold wlin. apply rsum_zero. intros v Hv. apply in_map_iff in Hv. destruct Hv as [i [<- _]]. unfold preference, entry. simpl. lra. }
  assert (A : aform Y reg [] (zeros n) z = 0).
  { unfold aform, wform, zeros. simpl nzero. rewrite rdot_repeat0. rewrite rsum_zero; [lra|]. intros v Hv. apply in_map_iff in Hv. destruct Hv as [i [<- _]]. rewrite rdot_repeat0_r. lra. }
  lra.
Qed.

(** C88, one user: any starting point, any number of steps that is at least the number of factors, any
    threshold and any reg >= 0; native and python code. *)
Theorem C88_residual : forall eps steps n Y reg row x, 0 < eps -> (n <= steps)%nat -> mat_ok n Y -> row_ok (length Y) row -> 0 <= reg -> length x = n ->
  (exists x', cg_row eps steps (add_diag reg (gram n Y)) n Y row x = Ok x' /\ near_solution n Y reg row eps x') /\
  (exists x', cg_row_py eps steps (add_diag reg (gram n Y)) Y row x = Ok x' /\ near_solution n Y reg row eps x').
Proof.
  intros eps steps n Y reg row x E0 K MY RO R0 Lx.
  destruct (cg_start_exact n Y reg row MY RO R0 eps E0 steps x Lx K) as [r [Er [x' [E [L' [r' [Lr' [F' S']]]]]]]].
  assert (NS := residual_small n Y reg row eps x' r' MY RO L' Lr' F' S'). split.
  - unfold cg_row. destruct row as [|e row']; [|rewrite Er; cbn [bind]; cbv zeta; eauto].
    exists (zeros n). split; auto. apply (residual_small n Y reg [] eps _ (repeat 0 n)); auto; try apply repeat_length.
    + intros z Lz. rewrite rdot_repeat0, zero_form. auto.
    + rewrite rdot_repeat0. auto.
  - unfold cg_row_py. rewrite residual_py_eq by auto. rewrite Er. cbn [bind]. cbv zeta. eauto.
Qed.
Print Assumptions C88_residual.

(** C88, in terms of the loss and of the factors: the loss is within eps / reg of the smallest possible, and the
    factors are within sqrt(eps) / reg of the minimiser. *)
Theorem C88_loss : forall eps n Y reg row x, mat_ok n Y -> row_ok (length Y) row -> 0 < reg -> near_solution n Y reg row eps x ->
  (forall z, length z = n -> user_loss Y reg row x <= user_loss Y reg row z + eps / reg) /\
  (forall best, minimises n (user_loss Y reg row) best -> reg * reg * rdot (vsub best x) (vsub best x) <= eps).
Proof.
  intros eps n Y reg row x MY RO RP NS. destruct (near_solution_residual n Y reg row eps x MY RO NS) as [r [Lr [F S]]]. destruct NS as [Lx _].
  assert (Q : forall z, length z = n -> user_loss Y reg row x <= user_loss Y reg row z + rdot r r / reg) by (intros z Lz; apply (residual_excess n Y reg row x r); auto).
  split.
  - intros z Lz. specialize (Q z Lz). assert (rdot r r / reg <= eps / reg) by (unfold Rdiv; apply Rmult_le_compat_r; [left; apply Rinv_0_lt_compat; auto|lra]). lra.
  - intros best [Lb MB]. set (d := vsub best x). assert (Ld : length d = n) by (unfold d; rewrite vsub_length; congruence).
    assert (Eb : best = axpy 1 d x).
    { unfold d. clear -Lx Lb. revert n best Lx Lb. induction x as [|b x IH]; intros n [|a z] L1 L2; cbn in *; subst; try discriminate; auto. f_equal; [lra|]. apply (IH (length x)); lia. }
    assert (AD : reg * rdot d d <= aform Y reg row d d) by (unfold aform; pose proof (wform_nonneg Y row d); lra).
    (* best cannot be improved along d *)
    assert (OPT : forall t, user_loss Y reg row best <= user_loss Y reg row (axpy t d x)) by (intros t; apply MB; rewrite axpy_length; auto).
    assert (LL : forall t, user_loss Y reg row (axpy t d x) = user_loss Y reg row x - 2 * t * rdot r d + t * t * aform Y reg row d d) by (intros t; rewrite user_loss_axpy by congruence; rewrite <- (F d Ld); auto).
    rewrite Eb in OPT. rewrite LL in OPT. set (a := aform Y reg row d d) in *. set (g := rdot r d) in *.
    assert (EQ : g = a).
    { destruct (Req_dec g a) as [|N]; auto. exfalso.
      assert (P0 : 0 <= a) by (apply aform_nonneg; lra). destruct P0 as [P0|P0].
      - specialize (OPT (g / a)). rewrite LL in OPT. replace (user_loss Y reg row x - 2 * (g / a) * g + g / a * (g / a) * a) with (user_loss Y reg row x - g * g / a) in OPT by (field; lra).
        assert (0 < (g - a) * (g - a) / a) by (apply Rdiv_lt_0_compat; [nra|auto]). replace ((g - a) * (g - a) / a) with (g * g / a - 2 * g + a) in H by (field; lra). lra.
      - specialize (OPT (1 + g)). rewrite LL, <- P0 in OPT. assert (g <> 0) by (intros X; apply N; lra). nra. }
    assert (QQ : 0 <= rdot (axpy (- reg) d r) (axpy (- reg) d r)) by apply rdot_nonneg.
    rewrite rdot_axpy, !rdot_axpy_r in QQ by congruence. rewrite (rdot_comm d r) in QQ. fold g in QQ. rewrite EQ in QQ. nra.
Qed.
Print Assumptions C88_loss.

(** C88 for a half step of the native solver: every user. *)
Theorem C88_half_step : forall eps steps n m X Y reg, 0 < eps -> (n <= steps)%nat -> canonical m -> mat_ok n X -> mat_ok n Y ->
  length X = c_rows m -> length Y = c_cols m -> 0 <= reg ->
  exists X', least_squares_cg eps steps n m X Y reg = Ok X' /\ length X' = c_rows m /\
    forall u, (u < c_rows m)%nat -> near_solution n Y reg (csr_row m u) eps (nth u X' []).
Proof.
  intros eps steps n m X Y reg E0 K C MX MY LX LY R0.
  assert (RW : forall u, (u < c_rows m)%nat -> exists x', (do row <- raw_entries m u; cg_row eps steps (add_diag reg (gram n Y)) n Y row (nth u X [])) = Ok x' /\ near_solution n Y reg (csr_row m u) eps x').
  { intros u B. rewrite raw_entries_ok by (auto; apply C). cbn [bind]. apply C88_residual; auto; [rewrite LY; apply canonical_row; auto|apply mat_row; auto; lia]. }
  assert (G : exists X', least_squares_cg eps steps n m X Y reg = Ok X').
  { unfold least_squares_cg. assert (K2 : forall l, (forall ux, In ux l -> (fst ux < c_rows m)%nat /\ snd ux = nth (fst ux) X []) -> exists X', map_res (fun ux => do row <- raw_entries m (fst ux); cg_row eps steps (add_diag reg (gram n Y)) n Y row (snd ux)) l = Ok X').
    { induction l as [|[u x] l IH]; intros Hl; [eexists; reflexivity|]. cbn [map_res fst snd]. destruct (Hl (u, x) (or_introl eq_refl)) as [Bu Ex]. cbn [fst snd] in Bu, Ex. subst x.
      destruct (RW u Bu) as [x' [-> _]]. cbn [bind]. destruct IH as [X' ->]; [intros; apply Hl; right; auto|]. cbn [bind]. eauto. }
    apply K2. intros [u x] Hu. apply in_enum in Hu. cbn [fst snd]. split; [assert (u < length X)%nat by (apply nth_error_Some; congruence); lia|symmetry; apply nth_error_nth; auto]. }
  destruct G as [X' E]. exists X'. split; auto. unfold least_squares_cg in E. apply (proj1 (map_res_nth _ _ _ (0%nat, []) [])) in E. unfold enum in E. rewrite Base.enum_from_length in E. destruct E as [L E].
  split; [congruence|]. intros u B. specialize (E u ltac:(lia)). rewrite nth_enum_from in E by lia. simpl in E. destruct (RW u B) as [x' [E2 NS]]. rewrite E in E2. inversion E2 as [E3]. rewrite E3. exact NS.
Qed.
Print Assumptions C88_half_step.

(** Two factors, two steps, from zero; the smallest loss is approached to within 10 / 1000000. *)
Example C88_example : mat_ok 2 exY /\ row_ok (length exY) ex_row /\
  exists x', cg_row (1/1000000) 2 (add_diag (1/10) (gram 2 exY)) 2 exY ex_row [0; 0] = Ok x' /\ near_solution 2 exY (1/10) ex_row (1/1000000) x' /\
    user_loss exY (1/10) ex_row x' <= user_loss exY (1/10) ex_row [0; 1] + 1/100000.
Proof.
  split; [apply exY_ok|]. split; [apply exM_row0|].
  destruct (C88_residual (1/1000000) 2 2 exY (1/10) ex_row [0; 0]) as [[x' [E NS]] _]; auto; try lra; [apply exY_ok|apply exM_row0|].
  exists x'. split; auto. split; auto.
  destruct (C88_loss (1/1000000) 2 exY (1/10) ex_row x' exY_ok exM_row0 ltac:(lra) NS) as [L _]. specialize (L [0; 1] eq_refl). lra.
Qed.
