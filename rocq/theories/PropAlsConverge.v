(** How ALS training comes to rest: properties C134 and C135 of properties.jsonl. *)
From Coq Require Import List Arith Lia Bool Reals Lra.
From Verif Require Import Base Num Sparse TopkModel RecommendModel RVec SimilarBatch AlsModel AlsSpec AlsProofs PosvImpl AlsProofs2
  AlsLoss RowConc AlsConc CgProofs PropAls CgExact PropCg.
Import ListNotations.
Local Open Scope R_scope.

(** Squared distance of two vectors, of two factor matrices, of two models. *)
Definition vdist2 (x z : list R) : R := rdot (vsub x z) (vsub x z).
Definition mdist2 (X Z : list (list R)) : R := rsum (map (fun u => vdist2 (nth u X []) (nth u Z [])) (seq 0 (length X))).
Definition moved (a b : list (list R) * list (list R)) : R := mdist2 (fst a) (fst b) + mdist2 (snd a) (snd b).

(* ------------------------------------------------------------------ conjugate gradients: the steps are orthogonal in energy *)
Section Energy.
Variables (n : nat) (Y : list (list R)) (reg : R) (row : list (nat * R)).
Hypothesis MY : mat_ok n Y.
Hypothesis RO : row_ok (length Y) row.
Hypothesis R0 : 0 <= reg.
Variable eps : R.
Hypothesis E0 : 0 < eps.
Notation A := (aform Y reg row).

Lemma cg_energy k x0 : length x0 = n -> forall x r p rs hist, kry n Y reg row x r p rs hist ->
  rdot r x = rdot r x0 -> A p x = A p x0 -> (forall z, length z = n -> perp (r :: hist) z -> A z x = A z x0) ->
  exists x', cg_loop eps k (add_diag reg (gram n Y)) Y row x r p rs = Ok x' /\ length x' = n /\
    exists r', length r' = n /\ (forall z, length z = n -> rdot r' z = wlin Y row z - A x' z) /\ rdot r' x' = rdot r' x0.
Proof.
  intros L0. induction k as [|k IH]; intros x r p rs hist K I1 I2 I3.
  - destruct (k_inv _ _ _ _ _ _ _ _ _ K) as [Lx [Lr [Lp [F _]]]]. exists x. split; [reflexivity|]. split; [auto|]. exists r. auto.
  - pose proof (k_inv _ _ _ _ _ _ _ _ _ K) as INV. pose proof (curvature_pos n Y reg row R0 x r p rs INV) as C.
    destruct INV as [Lx [Lr [Lp [F [Err [Epr P]]]]]].
    cbn [cg_loop]. destruct (apply_A_form n Y reg row MY RO p Lp) as [Ap [EA [LA FA]]]. rewrite EA. cbn [bind]. rewrite ndot_rdot.
    assert (Ec : rdot p Ap = A p p) by (rewrite rdot_comm; apply FA; auto). rewrite Ec. set (c := A p p) in *.
    rewrite c_div_ok by lra. cbn [bind]. cbv zeta. set (a := rs / c). assert (Ea : a = rs / c) by reflexivity.
    assert (Pa : 0 < a) by (rewrite Ea; apply Rdiv_lt_0_compat; auto).
    set (x' := axpy a p x). set (r' := axpy (nmul a (nopp none_)) Ap r).
    assert (Lx' : length x' = n) by (unfold x'; rewrite axpy_length; auto). assert (Lr' : length r' = n) by (unfold r'; rewrite axpy_length; auto).
    assert (F' : forall z, length z = n -> rdot r' z = wlin Y row z - A x' z).
    { intros z Lz. unfold r', x'. rewrite rdot_axpy by congruence. rewrite aform_axpy_l by congruence. rewrite F, FA by auto. simpl. lra. }
    assert (D : forall z, length z = n -> rdot r' z = rdot r z - a * A p z).
    { intros z Lz. unfold r'. rewrite rdot_axpy by congruence. rewrite FA by auto. simpl. lra. }
    assert (Opr' : rdot p r' = 0). { rewrite rdot_comm, D by auto. rewrite (rdot_comm r p), Epr. fold c. rewrite Ea. field. lra. }
    assert (J1 : rdot r' x' = rdot r' x0).
    { unfold x' at 1. rewrite rdot_axpy_r by congruence. rewrite (rdot_comm r' p), Opr'. rewrite !D by auto. rewrite I1, I2. lra. }
    assert (Orr : forall v, In v (r :: hist) -> rdot r' v = 0).
    { intros v Hv. destruct (k_len _ _ _ _ _ _ _ _ _ K v Hv) as [Lv _]. rewrite D by auto. destruct Hv as [<-|Hv].
      - rewrite Err, (k_pr _ _ _ _ _ _ _ _ _ K). fold c. rewrite Ea. field. lra.
      - rewrite (proj1 (k_orth _ _ _ _ _ _ _ _ _ K) v Hv), (k_conj _ _ _ _ _ _ _ _ _ K v Hv). lra. }
    rewrite !ndot_rdot. destruct (nltb (rdot r' r') eps) eqn:El.
    + exists x'. split; auto. split; auto. exists r'. auto.
    + assert (P' : 0 < rdot r' r') by (simpl in El; unfold Rltb in El; destruct (Rlt_dec (rdot r' r') eps); [discriminate|lra]).
      rewrite c_div_ok by lra. cbn [bind]. set (b := rdot r' r' / rs). set (p' := axpy none_ r' (scal b p)).
      assert (Lsp : length (scal b p) = n) by (unfold scal; rewrite map_length; auto).
      assert (Lp' : length p' = n) by (unfold p'; rewrite axpy_length; auto).
      assert (Ap' : forall z, A p' z = A r' z + b * A p z).
      { intros z. unfold p'. rewrite aform_axpy_l by congruence. rewrite (aform_scal Y reg row). simpl. lra. }
      assert (Apr' : A p r' = - rdot r' r' / a). { pose proof (D r' Lr') as X. rewrite (rdot_comm r r'), (Orr r (or_introl eq_refl)) in X. apply (Rmult_eq_reg_l a); [|lra]. field_simplify; lra. }
      destruct (k_rec _ _ _ _ _ _ _ _ _ K) as [g [G1 G2]].
      assert (Pr' : perp (r :: hist) r') by (intros v Hv; rewrite rdot_comm; auto).
      assert (Hb : b * c = rdot r' r' / a) by (unfold b; rewrite Ea; field; lra).
      apply (IH x' r' p' (rdot r' r') (r :: hist)).
      * split.
        -- split; auto. split; auto. split; auto. split; auto. split; auto. split; auto. unfold p'. rewrite rdot_axpy by congruence. rewrite scal_rdot, Opr'. simpl. lra.
        -- split; [exact Orr|exact (k_orth _ _ _ _ _ _ _ _ _ K)].
        -- intros v [<-|Hv]; [auto|apply (k_len _ _ _ _ _ _ _ _ _ K v Hv)].
        -- intros v [<-|Hv].
           ++ rewrite Ap', (k_pr _ _ _ _ _ _ _ _ _ K). rewrite (aform_sym Y reg row r' r), G1, G2 by auto. rewrite Apr'. fold c. rewrite Hb. field. lra.
           ++ rewrite Ap', (k_conj _ _ _ _ _ _ _ _ _ K v Hv). rewrite aform_sym, (k_hist _ _ _ _ _ _ _ _ _ K v r' Hv) by auto. lra.
        -- assert (Z : A p' p = 0) by (rewrite Ap'; fold c; rewrite Hb, aform_sym, Apr'; field; lra).
           pose proof (Ap' p') as X. rewrite (aform_sym Y reg row p p'), Z, (aform_sym Y reg row r' p') in X. lra.
        -- intros v z [<-|Hv] Lz Pz.
           ++ rewrite G1, G2 by (auto; intros w Hw; apply Pz; right; auto). pose proof (D z Lz) as X.
              rewrite (Pz r' (or_introl eq_refl)), (Pz r (or_intror (or_introl eq_refl))) in X. assert (A p z = 0) by nra. lra.
           ++ apply (k_hist _ _ _ _ _ _ _ _ _ K v z Hv Lz). intros w Hw. apply Pz. right. auto.
        -- exists (fun z => b * A p z). split; [intros z Lz; rewrite Ap'; lra|]. intros z Lz Pz. pose proof (D z Lz) as X.
           rewrite (Pz r' (or_introl eq_refl)), (Pz r (or_intror (or_introl eq_refl))) in X. assert (A p z = 0) by nra. rewrite H. lra.
      * exact J1.
      * rewrite !Ap'. unfold x'. rewrite !(aform_axpy_r Y reg row) by congruence. rewrite (I3 r' Lr' Pr'), I2, (aform_sym Y reg row r' p), Apr'. fold c.
        assert (X : b * (A p x0 + a * c) = b * A p x0 + a * (b * c)) by ring. rewrite X, Hb. field. lra.
      * intros z Lz Pz. unfold x'. rewrite (aform_axpy_r Y reg row) by congruence. rewrite (I3 z Lz) by (intros w Hw; apply Pz; right; auto).
        pose proof (D z Lz) as X. rewrite (Pz r' (or_introl eq_refl)), (Pz r (or_intror (or_introl eq_refl))) in X.
        rewrite (aform_sym Y reg row z p). assert (A p z = 0) by nra. rewrite H. lra.
Qed.

Lemma settle x0 x r : length x0 = n -> length x = n -> length r = n -> (forall z, length z = n -> rdot r z = wlin Y row z - A x z) -> rdot r x = rdot r x0 ->
  user_loss Y reg row x + reg * vdist2 x0 x <= user_loss Y reg row x0.
Proof.
  intros L0 Lx Lr F O. unfold vdist2. set (d := vsub x0 x).
  assert (Ld : length d = n) by (unfold d; rewrite vsub_length; congruence).
  assert (Ez : x0 = axpy 1 d x).
  { unfold d. clear -Lx L0. revert n x0 Lx L0. induction x as [|b x IH]; intros n [|a z] L1 L2; cbn in *; subst; try discriminate; auto. f_equal; [lra|]. apply (IH (length x)); auto. }
  assert (RD : rdot r d = 0) by (rewrite Ez, rdot_axpy_r in O by congruence; lra).
  rewrite Ez at 1. rewrite user_loss_axpy by congruence. rewrite <- (F d Ld), RD.
  assert (AD : reg * rdot d d <= A d d) by (unfold aform; pose proof (wform_nonneg Y row d); lra). lra.
Qed.
Lemma vdist2_self x : vdist2 x x = 0.
Proof. unfold vdist2. rewrite rdot_vsub_l by auto. lra. Qed.

Lemma cg_start_settles k x : length x = n ->
  exists r, residual (add_diag reg (gram n Y)) Y row x = Ok r /\
  exists x', (if nltb (ndot r r) eps then Ok x else cg_loop eps k (add_diag reg (gram n Y)) Y row x r r (ndot r r)) = Ok x' /\ length x' = n /\
    user_loss Y reg row x' + reg * vdist2 x x' <= user_loss Y reg row x.
Proof.
  intros Lx. destruct (residual_form n Y reg row MY RO x Lx) as [r [E [Lr F]]]. exists r. split; auto. rewrite ndot_rdot.
  destruct (nltb (rdot r r) eps) eqn:El.
  - exists x. split; auto. split; auto. rewrite vdist2_self. lra.
  - assert (P : 0 < rdot r r) by (simpl in El; unfold Rltb in El; destruct (Rlt_dec (rdot r r) eps); [discriminate|lra]).
    destruct (cg_energy k x Lx x r r (rdot r r) []) as (x' & E' & L' & r' & Lr' & F' & O'); auto.
    + split.
      * split; [auto|split; [auto|split; [auto|split; auto]]].
      * split; [intros w []|exact I].
      * intros v [<-|[]]. auto.
      * intros v [].
      * reflexivity.
      * intros v z [].
      * exists (fun _ => 0). split; [intros; lra|auto].
    + exists x'. split; auto. split; auto. apply (settle x x' r'); auto.
Qed.
Lemma cg_row_py_settles k x : length x = n ->
  exists x', cg_row_py eps k (add_diag reg (gram n Y)) Y row x = Ok x' /\ length x' = n /\ user_loss Y reg row x' + reg * vdist2 x x' <= user_loss Y reg row x.
Proof.
  intros Lx. unfold cg_row_py. rewrite (residual_py_eq n Y reg row RO). destruct (cg_start_settles k x Lx) as [r [E [x' [E' [L' D]]]]]. rewrite E. cbn [bind]. cbv zeta. exists x'. split; [exact E'|auto].
Qed.
Lemma cg_row_settles k x : length x = n ->
  exists x', cg_row eps k (add_diag reg (gram n Y)) n Y row x = Ok x' /\ length x' = n /\ user_loss Y reg row x' + reg * vdist2 x x' <= user_loss Y reg row x.
Proof.
  intros Lx. unfold cg_row. destruct row as [|e row'] eqn:Er.
  - exists (zeros n). split; auto. split; [apply repeat_length|]. rewrite <- Er. unfold vdist2.
    rewrite (excess Y reg row n (zeros n) x); auto; [|apply repeat_length|].
    + pose proof (wform_nonneg Y row (vsub x (zeros n))). lra.
    + intros w Lw. rewrite Er. unfold zeros. cbn [nzero Num_R].
      assert (Z1 : wform Y [] (repeat 0 n) w = 0) by (unfold wform; apply rsum_zero; intros v Hv; apply in_map_iff in Hv; destruct Hv as [i [<- _]]; rewrite rdot_repeat0_r; lra).
      assert (Z2 : wlin Y [] w = 0) by (unfold wlin; apply rsum_zero; intros v Hv; apply in_map_iff in Hv; destruct Hv as [i [<- _]]; unfold preference, entry; cbn; lra).
      rewrite Z1, Z2, rdot_repeat0. lra.
  - rewrite <- Er in *. destruct (cg_start_settles k x Lx) as [r [E [x' [E' [L' D]]]]]. rewrite E. cbn [bind]. cbv zeta. exists x'. split; [exact E'|auto].
Qed.
End Energy.

(* ------------------------------------------------------------------ solvers *)
(** What one half of an iteration guarantees, whichever solver is configured: each row's
    loss falls by at least reg times the square of the way the row moved. *)
Definition settling (n : nat) (solver : csr R -> list (list R) -> list (list R) -> R -> res (list (list R))) : Prop :=
  forall m X Y reg X', canonical m -> mat_ok n X -> mat_ok n Y -> length X = c_rows m -> length Y = c_cols m -> 0 <= reg ->
    solver m X Y reg = Ok X' ->
    length X' = c_rows m /\ mat_ok n X' /\
    forall u, (u < c_rows m)%nat ->
      user_loss Y reg (csr_row m u) (nth u X' []) + reg * vdist2 (nth u X []) (nth u X' []) <= user_loss Y reg (csr_row m u) (nth u X []).

Lemma exact_settling n s : exact_solver n s -> settling n s.
Proof.
  intros ES m X Y reg X' C MX MY LX LY R0 E. destruct (ES m X Y reg X' C MY LX LY R0 E) as [L [M N]]. split; [auto|]. split; [auto|].
  intros u B. unfold vdist2. rewrite (excess Y reg (csr_row m u) n (nth u X' []) (nth u X [])); auto.
  - pose proof (wform_nonneg Y (csr_row m u) (vsub (nth u X []) (nth u X' []))). lra.
  - apply mat_row; auto. lia.
  - apply mat_row; auto. lia.
Qed.
Lemma cg_settling posv solve eps n o : 0 < eps -> use_cg o = true -> settling n (als_solver posv solve eps n o).
Proof.
  intros E0 CG m X Y reg Xr C MX MY LX LY R0 Er. unfold als_solver in Er. rewrite CG in Er.
  assert (RO : forall u, (u < c_rows m)%nat -> row_ok (length Y) (csr_row m u)) by (intros u B; rewrite LY; apply canonical_row; auto).
  destruct (use_native o); [unfold least_squares_cg in Er|unfold least_squares_cg_py in Er].
  - destruct (rowwise n (fun ux => do row <- raw_entries m (fst ux); cg_row eps (o_cg_steps o) (add_diag reg (gram n Y)) n Y row (snd ux))
      (fun u v => user_loss Y reg (csr_row m u) v + reg * vdist2 (nth u X []) v) X) as [X' [E [L [M D]]]].
    + intros u B. cbn [fst snd]. rewrite raw_entries_ok by (try apply C; lia). cbn [bind]. rewrite vdist2_self, Rmult_0_r, Rplus_0_r.
      apply cg_row_settles; auto; [apply RO; lia|apply mat_row; auto].
    + assert (Q := eq_trans (eq_sym Er) E). inversion Q; subst Xr. split; [congruence|]. split; auto. intros u B. specialize (D u ltac:(lia)). cbv beta in D.
      rewrite vdist2_self, Rmult_0_r, Rplus_0_r in D. exact D.
  - destruct (rowwise n (fun ux => do row <- np_entries m (fst ux); cg_row_py eps (o_cg_steps o) (add_diag reg (gram n Y)) Y row (snd ux))
      (fun u v => user_loss Y reg (csr_row m u) v + reg * vdist2 (nth u X []) v) X) as [X' [E [L [M D]]]].
    + intros u B. cbn [fst snd]. rewrite np_entries_ok by (try apply C; lia). cbn [bind]. rewrite vdist2_self, Rmult_0_r, Rplus_0_r.
      apply cg_row_py_settles; auto; [apply RO; lia|apply mat_row; auto].
    + assert (Q := eq_trans (eq_sym Er) E). inversion Q; subst Xr. split; [congruence|]. split; auto. intros u B. specialize (D u ltac:(lia)). cbv beta in D.
      rewrite vdist2_self, Rmult_0_r, Rplus_0_r in D. exact D.
Qed.
(** Every configuration of the CPU model. *)
Lemma als_settling posv solve eps n o : posv_ok posv -> solve_ok solve -> 0 < eps -> settling n (als_solver posv solve eps n o).
Proof.
  intros PO SO E0. destruct (use_cg o) eqn:CG; [apply cg_settling; auto|apply exact_settling, als_solver_exact; auto].
Qed.

Lemma half_settles n s m X Y reg X' : settling n s -> canonical m -> mat_ok n X -> mat_ok n Y -> length X = c_rows m -> length Y = c_cols m -> 0 <= reg ->
  s m X Y reg = Ok X' -> total_loss (csr_row m) reg X' Y + reg * mdist2 X X' <= total_loss (csr_row m) reg X Y.
Proof.
  intros SS C MX MY LX LY R0 E. destruct (SS m X Y reg X' C MX MY LX LY R0 E) as [L [M D]].
  rewrite !total_loss_users, L, LX. unfold mdist2. rewrite LX, <- rsum_map_scale.
  assert (Q : rsum (map (fun u => user_loss Y reg (csr_row m u) (nth u X' [])) (seq 0 (c_rows m))) +
              rsum (map (fun u => reg * vdist2 (nth u X []) (nth u X' [])) (seq 0 (c_rows m))) <=
              rsum (map (fun u => user_loss Y reg (csr_row m u) (nth u X [])) (seq 0 (c_rows m)))).
  { rewrite <- rsum_map_add. apply rsum_le. intros u Hu. apply in_seq in Hu. apply D. lia. }
  lra.
Qed.
Lemma iteration_settles n s m X Y reg X' Y' : settling n s -> canonical m -> mat_ok n X -> mat_ok n Y -> length X = c_rows m -> length Y = c_cols m -> 0 <= reg ->
  s m X Y reg = Ok X' -> s (transpose m) Y X' reg = Ok Y' ->
  total_loss (csr_row m) reg X' Y' + reg * moved (X, Y) (X', Y') <= total_loss (csr_row m) reg X Y /\
  mat_ok n X' /\ mat_ok n Y' /\ length X' = c_rows m /\ length Y' = c_cols m.
Proof.
  intros SS C MX MY LX LY R0 E1 E2. destruct (SS m X Y reg X' C MX MY LX LY R0 E1) as [L1 [M1 _]].
  assert (CT := transpose_canonical m C).
  assert (LT : length Y = c_rows (transpose m)) by (rewrite transpose_rows; auto).
  destruct (SS (transpose m) Y X' reg Y' CT MY M1 LT L1 R0 E2) as [L2 [M2 _]]. rewrite transpose_rows in L2.
  split; [|auto]. pose proof (half_settles n s m X Y reg X' SS C MX MY LX LY R0 E1) as H1.
  pose proof (half_settles n s (transpose m) Y X' reg Y' SS CT MY M1 LT L1 R0 E2) as H2.
  rewrite <- (total_loss_transpose m reg X' Y'), <- (total_loss_transpose m reg X' Y) in H2 by auto. unfold moved. cbn [fst snd]. lra.
Qed.
Lemma run_shape n s reg m k : settling n s -> canonical m -> 0 <= reg -> forall X Y Xk Yk, mat_ok n X -> mat_ok n Y ->
  length X = c_rows m -> length Y = c_cols m -> als_iterate s reg m (transpose m) k X Y = Ok (Xk, Yk) ->
  mat_ok n Xk /\ mat_ok n Yk /\ length Xk = c_rows m /\ length Yk = c_cols m.
Proof.
  intros SS C R0. induction k as [|k IH]; intros X Y Xk Yk MX MY LX LY E.
  - inversion E; subst. auto.
  - cbn [als_iterate] in E. destruct (s m X Y reg) as [X'|] eqn:E1; cbn [bind] in E; [|discriminate].
    destruct (s (transpose m) Y X' reg) as [Y'|] eqn:E2; cbn [bind] in E; [|discriminate].
    destruct (iteration_settles n s m X Y reg X' Y' SS C MX MY LX LY R0 E1 E2) as [_ [M1 [M2 [L1 L2]]]]. apply (IH X' Y'); auto.
Qed.
Lemma training_scale alpha reg m XY : training_loss alpha reg m XY = total_loss (csr_row (csr_scale alpha m)) reg (fst XY) (snd XY).
Proof. unfold training_loss, total_loss. f_equal. apply rsum_map_ext. intros u _. rewrite scale_rows. auto. Qed.

(* ------------------------------------------------------------------ C134 *)
(** Each further iteration lowers the training loss by at least reg times the squared
    distance the factors move in it. *)
Theorem C134_step : forall posv solve eps n o alpha reg m X Y k XY XY', posv_ok posv -> solve_ok solve -> 0 < eps ->
  canonical m -> mat_ok n X -> mat_ok n Y -> length X = c_rows m -> length Y = c_cols m -> 0 <= reg ->
  als_fit (als_solver posv solve eps n o) alpha reg k m X Y = Ok XY ->
  als_fit (als_solver posv solve eps n o) alpha reg (S k) m X Y = Ok XY' ->
  training_loss alpha reg m XY' + reg * moved XY XY' <= training_loss alpha reg m XY.
Proof.
  intros posv solve eps n o alpha reg m X Y k [Xk Yk] XY' PO SO E0 C MX MY LX LY R0 E1 E2. unfold als_fit in *. rewrite apply_alpha_scale in *.
  set (s := als_solver posv solve eps n o) in *. assert (SS : settling n s) by (apply als_settling; auto).
  rewrite als_iterate_S, E1 in E2. cbn [bind] in E2.
  destruct (s (csr_scale alpha m) Xk Yk reg) as [X'|] eqn:S1; cbn [bind] in E2; [|discriminate].
  destruct (s (transpose (csr_scale alpha m)) Yk X' reg) as [Y'|] eqn:S2; cbn [bind] in E2; [|discriminate]. inversion E2; subst XY'.
  assert (CS := scale_canonical alpha m C).
  destruct (run_shape n s reg (csr_scale alpha m) k SS CS R0 X Y Xk Yk MX MY LX LY E1) as [M1 [M2 [L1 L2]]].
  destruct (iteration_settles n s (csr_scale alpha m) Xk Yk reg X' Y' SS CS M1 M2 L1 L2 R0 S1 S2) as [I1 _].
  rewrite !training_scale. exact I1.
Qed.
Print Assumptions C134_step.

Lemma row_error_nonneg Y row x : 0 <= row_error Y row x.
Proof.
  unfold row_error. apply rsum_nonneg. intros v Hv. apply in_map_iff in Hv. destruct Hv as [i [<- _]].
  apply Rmult_le_pos; [unfold confidence; destruct (entry row i); [apply Rabs_pos|lra]|]. unfold sq. apply Rle_0_sqr.
Qed.
Lemma norms_nonneg X : 0 <= norms X.
Proof. unfold norms. apply rsum_nonneg. intros v Hv. apply in_map_iff in Hv. destruct Hv as [i [<- _]]. apply rdot_nonneg. Qed.
Lemma training_nonneg alpha reg m XY : 0 <= reg -> 0 <= training_loss alpha reg m XY.
Proof.
  intros R0. unfold training_loss, total_loss. pose proof (norms_nonneg (fst XY)). pose proof (norms_nonneg (snd XY)).
  assert (0 <= rsum (map (fun u => row_error (snd XY) (scale_row alpha (csr_row m u)) (nth u (fst XY) [])) (seq 0 (length (fst XY))))).
  { apply rsum_nonneg. intros v Hv. apply in_map_iff in Hv. destruct Hv as [i [<- _]]. apply row_error_nonneg. }
  assert (0 <= reg * (norms (fst XY) + norms (snd XY))) by (apply Rmult_le_pos; lra). lra.
Qed.
Lemma mdist2_nonneg X Z : 0 <= mdist2 X Z.
Proof. unfold mdist2. apply rsum_nonneg. intros v Hv. apply in_map_iff in Hv. destruct Hv as [i [<- _]]. apply rdot_nonneg. Qed.
Lemma moved_nonneg a b : 0 <= moved a b.
Proof. unfold moved. pose proof (mdist2_nonneg (fst a) (fst b)). pose proof (mdist2_nonneg (snd a) (snd b)). lra. Qed.

(** A training run: the models after 0, 1, 2, … iterations. *)
Definition run_of (solver : csr R -> list (list R) -> list (list R) -> R -> res (list (list R))) alpha reg m X Y (t : nat -> list (list R) * list (list R)) : Prop :=
  forall j, als_fit solver alpha reg j m X Y = Ok (t j).
(** How far the model travels in the first k iterations, squared step by squared step. *)
Definition travelled (t : nat -> list (list R) * list (list R)) (k : nat) : R := rsum (map (fun j => moved (t j) (t (S j))) (seq 0 k)).

Lemma rsum_app l l' : rsum (l ++ l') = rsum l + rsum l'.
Proof. induction l; simpl; lra. Qed.
Lemma travelled_S t k : travelled t (S k) = travelled t k + moved (t k) (t (S k)).
Proof. unfold travelled. rewrite seq_S, map_app, rsum_app. simpl. lra. Qed.

Theorem C134_bound : forall posv solve eps n o alpha reg m X Y t, posv_ok posv -> solve_ok solve -> 0 < eps ->
  canonical m -> mat_ok n X -> mat_ok n Y -> length X = c_rows m -> length Y = c_cols m -> 0 <= reg ->
  run_of (als_solver posv solve eps n o) alpha reg m X Y t ->
  forall k, training_loss alpha reg m (t k) + reg * travelled t k <= training_loss alpha reg m (X, Y).
Proof.
  intros posv solve eps n o alpha reg m X Y t PO SO E0 C MX MY LX LY R0 RT k. induction k as [|k IH].
  - change (travelled t 0) with 0. assert (t 0%nat = (X, Y)) as -> by (pose proof (RT 0%nat) as Z; cbn in Z; inversion Z; auto). lra.
  - rewrite travelled_S. pose proof (C134_step posv solve eps n o alpha reg m X Y k (t k) (t (S k)) PO SO E0 C MX MY LX LY R0 (RT k) (RT (S k))). lra.
Qed.
Print Assumptions C134_bound.

(** The iterations of the first k in which the model moves by more than tol. *)
Definition restless (t : nat -> list (list R) * list (list R)) (tol : R) (k : nat) : nat :=
  length (filter (fun j => if Rlt_dec tol (moved (t j) (t (S j))) then true else false) (seq 0 k)).
Lemma restless_travelled t tol k : 0 <= tol -> INR (restless t tol k) * tol <= travelled t k.
Proof.
  intros T0. unfold restless, travelled. generalize (seq 0 k). induction l as [|j l IH]; simpl; [lra|].
  pose proof (moved_nonneg (t j) (t (S j))). destruct (Rlt_dec tol (moved (t j) (t (S j)))); [|lra].
  cbn [length]. rewrite S_INR. lra.
Qed.
Theorem C134_restless : forall posv solve eps n o alpha reg m X Y t tol, posv_ok posv -> solve_ok solve -> 0 < eps ->
  canonical m -> mat_ok n X -> mat_ok n Y -> length X = c_rows m -> length Y = c_cols m -> 0 < reg -> 0 < tol ->
  run_of (als_solver posv solve eps n o) alpha reg m X Y t ->
  forall k, INR (restless t tol k) <= training_loss alpha reg m (X, Y) / (reg * tol).
Proof.
  intros posv solve eps n o alpha reg m X Y t tol PO SO E0 C MX MY LX LY R0 T0 RT k.
  pose proof (C134_bound posv solve eps n o alpha reg m X Y t PO SO E0 C MX MY LX LY ltac:(lra) RT k) as B.
  pose proof (training_nonneg alpha reg m (t k) ltac:(lra)) as NN. pose proof (restless_travelled t tol k ltac:(lra)) as RL.
  assert (P : 0 < reg * tol) by (apply Rmult_lt_0_compat; lra).
  apply (Rmult_le_reg_r (reg * tol)); auto. unfold Rdiv. rewrite Rmult_assoc, Rinv_l, Rmult_1_r by lra.
  assert (reg * (INR (restless t tol k) * tol) <= reg * travelled t k) by (apply Rmult_le_compat_l; lra). lra.
Qed.
Print Assumptions C134_restless.

(** In the limit: the loss converges, and the steps shrink to nothing. *)
Theorem C134_rest : forall posv solve eps n o alpha reg m X Y t, posv_ok posv -> solve_ok solve -> 0 < eps ->
  canonical m -> mat_ok n X -> mat_ok n Y -> length X = c_rows m -> length Y = c_cols m -> 0 < reg ->
  run_of (als_solver posv solve eps n o) alpha reg m X Y t ->
  (exists l, Un_cv (fun k => training_loss alpha reg m (t k)) l /\ 0 <= l <= training_loss alpha reg m (X, Y)) /\
  Un_cv (fun k => moved (t k) (t (S k))) 0.
Proof.
  intros posv solve eps n o alpha reg m X Y t PO SO E0 C MX MY LX LY R0 RT.
  set (f := fun k => training_loss alpha reg m (t k)).
  assert (ST : forall k, f (S k) + reg * moved (t k) (t (S k)) <= f k).
  { intros k. apply (C134_step posv solve eps n o alpha reg m X Y k); auto. lra. }
  assert (T0 : t 0%nat = (X, Y)) by (pose proof (RT 0%nat) as Z; cbn in Z; inversion Z; auto).
  assert (D : Un_decreasing f). { intros k. pose proof (ST k). pose proof (moved_nonneg (t k) (t (S k))). assert (0 <= reg * moved (t k) (t (S k))) by (apply Rmult_le_pos; lra). lra. }
  assert (NN : forall k, 0 <= f k) by (intros k; apply training_nonneg; lra).
  destruct (decreasing_cv f D) as [l Hl].
  { exists 0. intros x [k ->]. unfold opp_seq. pose proof (NN k). lra. }
  split.
  - exists l. split; auto. split.
    + destruct (Rle_dec 0 l); auto. exfalso. destruct (Hl (- l)) as [N HN]; [lra|]. specialize (HN N (Nat.le_refl _)). unfold R_dist in HN.
      pose proof (NN N). rewrite Rabs_right in HN; lra.
    + pose proof (decreasing_ineq f l D Hl 0%nat) as Z. unfold f in Z at 1. rewrite T0 in Z. exact Z.
  - intros tol Ht. assert (P : 0 < reg * tol) by (apply Rmult_lt_0_compat; lra). destruct (Hl (reg * tol) P) as [N HN].
    exists N. intros k Hk. unfold R_dist. rewrite Rminus_0_r, Rabs_right by (apply Rle_ge, moved_nonneg).
    pose proof (HN k Hk) as Z. unfold R_dist in Z. pose proof (decreasing_ineq f l D Hl k). pose proof (decreasing_ineq f l D Hl (S k)).
    rewrite Rabs_right in Z by lra. pose proof (ST k). apply (Rmult_lt_reg_l reg); lra.
Qed.
Print Assumptions C134_rest.

(* ------------------------------------------------------------------ C135 *)
(** No single user's and no single item's vector can be replaced by another one to make the
    training loss smaller by more than slack. *)
Definition no_better (n : nat) (alpha reg : R) (m : csr R) (slack : R) (X Y : list (list R)) : Prop :=
  (forall u z, (u < length X)%nat -> length z = n -> training_loss alpha reg m (X, Y) <= training_loss alpha reg m (upd u z X, Y) + slack) /\
  (forall i z, (i < length Y)%nat -> length z = n -> training_loss alpha reg m (X, Y) <= training_loss alpha reg m (X, upd i z Y) + slack).

Lemma rsum_change (f g : nat -> R) u l : NoDup l -> In u l -> (forall v, v <> u -> f v = g v) -> rsum (map f l) - f u = rsum (map g l) - g u.
Proof.
  intros ND Hu E. induction l as [|a l IH]; [destruct Hu|]. inversion ND as [|? ? NI ND']; subst. simpl. destruct Hu as [->|Hu].
  - assert (rsum (map f l) = rsum (map g l)) by (apply rsum_map_ext; intros v Hv; apply E; intros ->; auto). lra.
  - rewrite (E a) by (intros ->; auto). pose proof (IH ND' Hu). lra.
Qed.
Lemma total_loss_upd rows reg X Y u z : (u < length X)%nat ->
  total_loss rows reg (upd u z X) Y = total_loss rows reg X Y + (user_loss Y reg (rows u) z - user_loss Y reg (rows u) (nth u X [])).
Proof.
  intros B. rewrite !total_loss_users, upd_length.
  pose proof (rsum_change (fun v => user_loss Y reg (rows v) (nth v (upd u z X) [])) (fun v => user_loss Y reg (rows v) (nth v X [])) u (seq 0 (length X))) as Q.
  cbv beta in Q. rewrite nth_upd_eq in Q by auto. assert (Q' := Q (seq_NoDup _ _)). clear Q.
  assert (forall P Q : R, P = Q -> P = Q) as _ by auto.
  assert (Q2 := Q' ltac:(apply in_seq; lia) ltac:(intros v Hv; rewrite nth_upd_neq by auto; auto)). lra.
Qed.
(** The same, one row at a time. *)
Lemma no_better_rows n alpha reg m slack X Y : canonical m -> length X = c_rows m -> length Y = c_cols m ->
  (no_better n alpha reg m slack X Y <->
   (forall u z, (u < length X)%nat -> length z = n ->
      user_loss Y reg (csr_row (csr_scale alpha m) u) (nth u X []) <= user_loss Y reg (csr_row (csr_scale alpha m) u) z + slack) /\
   (forall i z, (i < length Y)%nat -> length z = n ->
      user_loss X reg (csr_row (transpose (csr_scale alpha m)) i) (nth i Y []) <= user_loss X reg (csr_row (transpose (csr_scale alpha m)) i) z + slack)).
Proof.
  intros C LX LY. assert (CS := scale_canonical alpha m C). unfold no_better.
  assert (QX : forall u z, (u < length X)%nat -> training_loss alpha reg m (upd u z X, Y) = training_loss alpha reg m (X, Y) +
     (user_loss Y reg (csr_row (csr_scale alpha m) u) z - user_loss Y reg (csr_row (csr_scale alpha m) u) (nth u X []))).
  { intros u z B. rewrite !training_scale. cbn [fst snd]. apply total_loss_upd. auto. }
  assert (QY : forall i z, (i < length Y)%nat -> training_loss alpha reg m (X, upd i z Y) = training_loss alpha reg m (X, Y) +
     (user_loss X reg (csr_row (transpose (csr_scale alpha m)) i) z - user_loss X reg (csr_row (transpose (csr_scale alpha m)) i) (nth i Y []))).
  { intros i z B. rewrite !training_scale. cbn [fst snd]. rewrite !(total_loss_transpose (csr_scale alpha m)) by (rewrite ?upd_length; auto). apply total_loss_upd. auto. }
  split; intros [H1 H2]; split.
  - intros u z B L. specialize (H1 u z B L). rewrite QX in H1 by auto. lra.
  - intros i z B L. specialize (H2 i z B L). rewrite QY in H2 by auto. lra.
  - intros u z B L. specialize (H1 u z B L). rewrite QX by auto. lra.
  - intros i z B L. specialize (H2 i z B L). rewrite QY by auto. lra.
Qed.
Lemma same_rows n (X Z : list (list R)) : mat_ok n X -> mat_ok n Z -> length X = length Z ->
  (forall u, (u < length X)%nat -> vdist2 (nth u X []) (nth u Z []) = 0) -> X = Z.
Proof.
  intros MX MZ L D. apply nth_ext with (d := []) (d' := []); auto. intros u B. apply vsub_zero; [|apply D; auto].
  rewrite (mat_row n X u), (mat_row n Z u); auto. lia.
Qed.
Lemma vdist2_nonneg x z : 0 <= vdist2 x z.
Proof. apply rdot_nonneg. Qed.
Lemma half_stays n s m X Y reg X' : settling n s -> canonical m -> mat_ok n X -> mat_ok n Y -> length X = c_rows m -> length Y = c_cols m -> 0 < reg ->
  s m X Y reg = Ok X' ->
  (forall u z, (u < length X)%nat -> length z = n -> user_loss Y reg (csr_row m u) (nth u X []) <= user_loss Y reg (csr_row m u) z + 0) -> X' = X.
Proof.
  intros SS C MX MY LX LY R0 E H. destruct (SS m X Y reg X' C MX MY LX LY ltac:(lra) E) as [L [M D]]. symmetry. apply (same_rows n); auto; [congruence|].
  intros u B. assert (B' : (u < c_rows m)%nat) by lia. specialize (D u B'). pose proof (H u (nth u X' []) B) as H'.
  assert (length (nth u X' []) = n) as L' by (apply mat_row; auto; lia). specialize (H' L').
  pose proof (vdist2_nonneg (nth u X []) (nth u X' [])). nra.
Qed.

(** A model no row of which can be improved is left alone by further training, whichever
    solver is configured. *)
Theorem C135_stays : forall posv solve eps n o alpha reg m X Y k XY, posv_ok posv -> solve_ok solve -> 0 < eps ->
  canonical m -> mat_ok n X -> mat_ok n Y -> length X = c_rows m -> length Y = c_cols m -> 0 < reg ->
  no_better n alpha reg m 0 X Y ->
  als_fit (als_solver posv solve eps n o) alpha reg k m X Y = Ok XY -> XY = (X, Y).
Proof.
  intros posv solve eps n o alpha reg m X Y k XY PO SO E0 C MX MY LX LY R0 NB E. unfold als_fit in E. rewrite apply_alpha_scale in E.
  apply no_better_rows in NB; auto. destruct NB as [NX NY]. assert (CS := scale_canonical alpha m C).
  set (s := als_solver posv solve eps n o) in *. assert (SS : settling n s) by (apply als_settling; auto).
  induction k as [|k IH]; [inversion E; auto|]. cbn [als_iterate] in E.
  destruct (s (csr_scale alpha m) X Y reg) as [X'|] eqn:S1; cbn [bind] in E; [|discriminate].
  assert (X' = X) as -> by (apply (half_stays n s (csr_scale alpha m) X Y reg X'); auto).
  destruct (s (transpose (csr_scale alpha m)) Y X reg) as [Y'|] eqn:S2; cbn [bind] in E; [|discriminate].
  assert (Y' = Y) as ->.
  { apply (half_stays n s (transpose (csr_scale alpha m)) Y X reg Y'); auto; try (apply transpose_canonical; auto); try (rewrite transpose_rows; auto). }
  apply IH. exact E.
Qed.
Print Assumptions C135_stays.

(** The exact solvers rest nowhere else. *)
Theorem C135_exact : forall posv solve eps n o alpha reg m X Y XY, posv_ok posv -> solve_ok solve -> use_cg o = false ->
  canonical m -> mat_ok n X -> mat_ok n Y -> length X = c_rows m -> length Y = c_cols m -> 0 < reg ->
  als_fit (als_solver posv solve eps n o) alpha reg 1 m X Y = Ok XY -> (XY = (X, Y) <-> no_better n alpha reg m 0 X Y).
Proof.
  intros posv solve eps n o alpha reg m X Y XY PO SO CG C MX MY LX LY R0 E. unfold als_fit in E. rewrite apply_alpha_scale in E.
  assert (CS := scale_canonical alpha m C). rewrite no_better_rows by auto.
  set (s := als_solver posv solve eps n o) in *. assert (ES : exact_solver n s) by (apply als_solver_exact; auto). assert (SS := exact_settling n s ES).
  cbn [als_iterate] in E.
  destruct (s (csr_scale alpha m) X Y reg) as [X'|] eqn:S1; cbn [bind] in E; [|discriminate].
  destruct (s (transpose (csr_scale alpha m)) Y X' reg) as [Y'|] eqn:S2; cbn [bind] in E; [|discriminate]. inversion E; subst XY. clear E.
  split.
  - intros Q. inversion Q; subst X' Y'. split; intros u z B L.
    + pose proof (ES _ _ _ _ _ CS MY LX LY (Rlt_le _ _ R0) S1) as H.
      destruct (exact_step_min n reg (csr_scale alpha m) Y X u H MY ltac:(lra) ltac:(simpl; lia)) as [[_ M] _]. specialize (M z L). lra.
    + assert (H : exact_step n reg (transpose (csr_scale alpha m)) X Y).
      { apply (ES _ Y X reg); auto; [apply transpose_canonical; auto|rewrite transpose_rows; auto|lra]. }
      destruct (exact_step_min n reg (transpose (csr_scale alpha m)) X Y u H MX ltac:(lra) ltac:(rewrite transpose_rows; simpl; lia)) as [[_ M] _]. specialize (M z L). lra.
  - intros [NX NY]. assert (X' = X) as -> by (apply (half_stays n s (csr_scale alpha m) X Y reg X'); auto).
    assert (Y' = Y) as ->; [|auto].
    apply (half_stays n s (transpose (csr_scale alpha m)) Y X reg Y'); auto; [apply transpose_canonical; auto|rewrite transpose_rows; auto].
Qed.
Print Assumptions C135_exact.

(** A further iteration that leaves the loss where it is leaves the model where it is. *)
Theorem C135_loss : forall posv solve eps n o alpha reg m X Y k XY XY', posv_ok posv -> solve_ok solve -> 0 < eps ->
  canonical m -> mat_ok n X -> mat_ok n Y -> length X = c_rows m -> length Y = c_cols m -> 0 < reg ->
  als_fit (als_solver posv solve eps n o) alpha reg k m X Y = Ok XY ->
  als_fit (als_solver posv solve eps n o) alpha reg (S k) m X Y = Ok XY' ->
  training_loss alpha reg m XY' = training_loss alpha reg m XY -> XY' = XY.
Proof.
  intros posv solve eps n o alpha reg m X Y k XY XY' PO SO E0 C MX MY LX LY R0 E1 E2 EL.
  pose proof (C134_step posv solve eps n o alpha reg m X Y k XY XY' PO SO E0 C MX MY LX LY ltac:(lra) E1 E2) as ST.
  assert (SS : settling n (als_solver posv solve eps n o)) by (apply als_settling; auto). assert (CS := scale_canonical alpha m C).
  unfold als_fit in *. rewrite apply_alpha_scale in *. destruct XY as [A B], XY' as [A' B'].
  destruct (run_shape n _ reg (csr_scale alpha m) k SS CS ltac:(lra) X Y A B MX MY LX LY E1) as [M1 [M2 [L1 L2]]].
  destruct (run_shape n _ reg (csr_scale alpha m) (S k) SS CS ltac:(lra) X Y A' B' MX MY LX LY E2) as [M1' [M2' [L1' L2']]].
  unfold moved in ST. cbn [fst snd] in ST. pose proof (mdist2_nonneg A A') as P1. pose proof (mdist2_nonneg B B') as P2.
  assert (Z1 : mdist2 A A' = 0) by nra. assert (Z2 : mdist2 B B' = 0) by nra.
  f_equal; symmetry; apply (same_rows n); auto; try congruence; intros u Bu.
  - apply (rsum_zero_terms (fun u => vdist2 (nth u A []) (nth u A' [])) (seq 0 (length A))); [intros; apply vdist2_nonneg|exact Z1|apply in_seq; lia].
  - apply (rsum_zero_terms (fun u => vdist2 (nth u B []) (nth u B' [])) (seq 0 (length B))); [intros; apply vdist2_nonneg|exact Z2|apply in_seq; lia].
Qed.
Print Assumptions C135_loss.

(** Where the conjugate gradient solver rests, no row can be improved by more than its
    threshold divided by the regularization. *)
Section Stop.
Variables (n : nat) (Y : list (list R)) (reg : R) (row : list (nat * R)).
Hypothesis MY : mat_ok n Y.
Hypothesis RO : row_ok (length Y) row.
Hypothesis R0 : 0 < reg.
Variable eps : R.
Hypothesis E0 : 0 < eps.
Lemma start_stop k x r : length x = n -> (0 < k)%nat -> residual (add_diag reg (gram n Y)) Y row x = Ok r ->
  (if nltb (ndot r r) eps then Ok x else cg_loop eps k (add_diag reg (gram n Y)) Y row x r r (ndot r r)) = Ok x ->
  forall z, length z = n -> user_loss Y reg row x <= user_loss Y reg row z + eps / reg.
Proof.
  intros Lx K E EX z Lz. destruct (cg_start_descends n Y reg row MY RO ltac:(lra) eps E0 k x Lx) as [r' [E' [F [x' [Ex [L' [D S']]]]]]].
  rewrite E in E'. inversion E'; subst r'. rewrite EX in Ex. inversion Ex; subst x'.
  destruct (residual_form n Y reg row MY RO x Lx) as [r' [E2 [Lr _]]]. rewrite E in E2. inversion E2; subst r'.
  assert (SM : rdot r r < eps) by (destruct (Rlt_dec (rdot r r) eps); auto; exfalso; assert (eps <= rdot r r) by lra; specialize (S' K H); lra).
  pose proof (residual_excess n Y reg row x r R0 Lx Lr F z Lz) as RE.
  assert (rdot r r / reg <= eps / reg) by (unfold Rdiv; apply Rmult_le_compat_r; [left; apply Rinv_0_lt_compat; auto|lra]). lra.
Qed.
Lemma row_stop k x : length x = n -> (0 < k)%nat -> cg_row eps k (add_diag reg (gram n Y)) n Y row x = Ok x ->
  forall z, length z = n -> user_loss Y reg row x <= user_loss Y reg row z + eps / reg.
Proof.
  intros Lx K EX z Lz. assert (P : 0 < eps / reg) by (apply Rdiv_lt_0_compat; auto). unfold cg_row in EX. destruct row as [|e row'] eqn:Er.
  - assert (x = zeros n) as -> by (inversion EX; auto).
    pose proof (cg_row_settles n Y reg [] MY ltac:(split; [constructor|intros p []]) ltac:(lra) eps E0 k z Lz) as [x' [E' [_ D]]].
    cbn in E'. inversion E'; subst x'. pose proof (vdist2_nonneg z (zeros n)). assert (0 <= reg * vdist2 z (zeros n)) by (apply Rmult_le_pos; lra). lra.
  - rewrite <- Er in *. destruct (residual (add_diag reg (gram n Y)) Y row x) as [r|] eqn:ER; cbn [bind] in EX; [|discriminate]. cbv zeta in EX. apply (start_stop k x r); auto.
Qed.
Lemma row_stop_py k x : length x = n -> (0 < k)%nat -> cg_row_py eps k (add_diag reg (gram n Y)) Y row x = Ok x ->
  forall z, length z = n -> user_loss Y reg row x <= user_loss Y reg row z + eps / reg.
Proof.
  intros Lx K EX. unfold cg_row_py in EX. rewrite (residual_py_eq n Y reg row RO) in EX.
  destruct (residual (add_diag reg (gram n Y)) Y row x) as [r|] eqn:ER; cbn [bind] in EX; [|discriminate]. cbv zeta in EX. apply (start_stop k x r); auto.
Qed.
End Stop.
Lemma half_stop posv solve eps n o m X Y reg : 0 < eps -> use_cg o = true -> (0 < o_cg_steps o)%nat -> canonical m -> mat_ok n X -> mat_ok n Y ->
  length X = c_rows m -> length Y = c_cols m -> 0 < reg -> als_solver posv solve eps n o m X Y reg = Ok X ->
  forall u z, (u < length X)%nat -> length z = n -> user_loss Y reg (csr_row m u) (nth u X []) <= user_loss Y reg (csr_row m u) z + eps / reg.
Proof.
  intros E0 CG K C MX MY LX LY R0 E u z B Lz. unfold als_solver in E. rewrite CG in E.
  assert (RO : row_ok (length Y) (csr_row m u)) by (rewrite LY; apply canonical_row; auto; lia).
  assert (Lu : length (nth u X []) = n) by (apply mat_row; auto).
  destruct (use_native o); [unfold least_squares_cg in E|unfold least_squares_cg_py in E];
    apply (proj1 (map_res_nth _ _ _ (0%nat, []) [])) in E; unfold enum in E; rewrite Base.enum_from_length in E; destruct E as [_ E];
    specialize (E u B); rewrite nth_enum_from in E by auto; cbn [plus fst snd Nat.add] in E.
  - rewrite raw_entries_ok in E by (try apply C; lia). cbn [bind] in E. apply (row_stop n Y reg (csr_row m u) MY RO R0 eps E0 (o_cg_steps o)); auto.
  - rewrite np_entries_ok in E by (try apply C; lia). cbn [bind] in E. apply (row_stop_py n Y reg (csr_row m u) MY RO R0 eps E0 (o_cg_steps o)); auto.
Qed.
Theorem C135_cg : forall posv solve eps n o alpha reg m X Y, 0 < eps -> use_cg o = true -> (0 < o_cg_steps o)%nat ->
  canonical m -> mat_ok n X -> mat_ok n Y -> length X = c_rows m -> length Y = c_cols m -> 0 < reg ->
  als_fit (als_solver posv solve eps n o) alpha reg 1 m X Y = Ok (X, Y) -> no_better n alpha reg m (eps / reg) X Y.
Proof.
  intros posv solve eps n o alpha reg m X Y E0 CG K C MX MY LX LY R0 E. unfold als_fit in E. rewrite apply_alpha_scale in E.
  assert (CS := scale_canonical alpha m C). apply no_better_rows; auto. cbn [als_iterate] in E.
  destruct (als_solver posv solve eps n o (csr_scale alpha m) X Y reg) as [X'|] eqn:S1; cbn [bind] in E; [|discriminate].
  destruct (als_solver posv solve eps n o (transpose (csr_scale alpha m)) Y X' reg) as [Y'|] eqn:S2; cbn [bind] in E; [|discriminate]. inversion E; subst X' Y'.
  split; [apply (half_stop posv solve eps n o); auto|].
  apply (half_stop posv solve eps n o); auto; [apply transpose_canonical; auto|rewrite transpose_rows; auto].
Qed.
Print Assumptions C135_cg.

(* ------------------------------------------------------------------ examples *)
(** Runs exist: native exact and conjugate gradients, on the example data of PropAls. *)
Definition cfg (cg : bool) := {| use_cg := cg; use_native := true; o_cg_steps := 3 |}.
Definition trajectory cg (j : nat) : list (list R) * list (list R) :=
  match als_fit (als_solver posv_elim solve_sym (1/1000) 2 (cfg cg)) 2 (1/10) j exM exX exY with Ok p => p | Raise _ => ([], []) end.
Example C134_example : forall cg, run_of (als_solver posv_elim solve_sym (1/1000) 2 (cfg cg)) 2 (1/10) exM exX exY (trajectory cg) /\
  Un_cv (fun k => moved (trajectory cg k) (trajectory cg (S k))) 0 /\
  forall k, INR (restless (trajectory cg) (1/100) k) <= 1000 * training_loss 2 (1/10) exM (exX, exY).
Proof.
  intros cg. assert (RT : run_of (als_solver posv_elim solve_sym (1/1000) 2 (cfg cg)) 2 (1/10) exM exX exY (trajectory cg)).
  { intros j. unfold trajectory.
    assert (G : exists XY, als_fit (als_solver posv_elim solve_sym (1/1000) 2 (cfg cg)) 2 (1/10) j exM exX exY = Ok XY).
    { destruct cg.
      - destruct (C39_cg posv_elim solve_sym (1/1000) 2 (cfg true) 2 (1/10) exM exX exY) with (k := j) as [XY [_ [E _]]]; auto;
          [lra|apply exM_canonical|apply exX_ok|apply exY_ok|lra|eauto].
      - apply C38_total; auto; [apply posv_elim_ok|apply solve_sym_ok|apply exM_canonical|apply exX_ok|apply exY_ok|lra]. }
    destruct G as [XY ->]. auto. }
  split; [exact RT|]. split.
  - apply (C134_rest posv_elim solve_sym (1/1000) 2 (cfg cg) 2 (1/10) exM exX exY); auto;
      [apply posv_elim_ok|apply solve_sym_ok|lra|apply exM_canonical|apply exX_ok|apply exY_ok|lra].
  - intros k. replace (1000 * training_loss 2 (1 / 10) exM (exX, exY)) with (training_loss 2 (1 / 10) exM (exX, exY) / (1/10 * (1/100))) by field.
    apply (C134_restless posv_elim solve_sym (1/1000) 2 (cfg cg) 2 (1/10) exM exX exY); auto;
      [apply posv_elim_ok|apply solve_sym_ok|lra|apply exM_canonical|apply exX_ok|apply exY_ok|lra|lra].
Qed.

(** One user, one item, one entry 4, regularization 3: the model with both factors 1/2
    cannot be improved, and training leaves it as it is.  So does it the model with both
    factors 0, whose loss is larger: a resting point need not be the best model. *)
Definition rest_M : csr R := csr_of_rows 1 [[(0%nat, 4)]].
Lemma rest_canonical : canonical rest_M.
Proof.
  split.
  - apply csr_of_rows_wf. intros r p [<-|[]] [<-|[]]. simpl. lia.
  - intros u B. assert (u = 0%nat) as -> by (unfold rest_M in B; simpl in B; lia). unfold csr_row_indices, rest_M. cbn. constructor; [intros []|constructor].
Qed.
Lemma rest_loss a b : training_loss 1 3 rest_M ([[a]], [[b]]) = 4 * ((1 - a * b) * (1 - a * b)) + 3 * (a * a + b * b).
Proof.
  unfold training_loss, total_loss, row_error, norms, confidence, preference, sq, rest_M. cbn. unfold scale_row. cbn.
  replace (1 * 4) with 4 by lra. rewrite Rabs_right by lra. destruct (Rlt_dec 0 4); [|lra]. lra.
Qed.
Example C135_example :
  no_better 1 1 3 rest_M 0 [[1/2]] [[1/2]] /\ ~ no_better 1 1 3 rest_M 0 [[1/2]] [[1/3]] /\
  no_better 1 1 3 rest_M 0 [[0]] [[0]] /\ training_loss 1 3 rest_M ([[1/2]], [[1/2]]) < training_loss 1 3 rest_M ([[0]], [[0]]) /\
  als_fit (als_solver posv_elim solve_sym (1/1000) 1 (cfg false)) 1 3 1 rest_M [[1/2]] [[1/2]] = Ok ([[1/2]], [[1/2]]) /\
  als_fit (als_solver posv_elim solve_sym (1/1000) 1 (cfg true)) 1 3 1 rest_M [[1/2]] [[1/2]] = Ok ([[1/2]], [[1/2]]).
Proof.
  assert (NB : no_better 1 1 3 rest_M 0 [[1/2]] [[1/2]]).
  { split; intros u z B L; (assert (u = 0%nat) as -> by (simpl in B; lia)); destruct z as [|z [|? ?]]; try discriminate; cbn [upd]; rewrite !rest_loss; pose proof (Rle_0_sqr (z - 1/2)) as Q; unfold Rsqr in Q; lra. }
  split; [exact NB|]. split; [|split; [|split]].
  - intros [_ H]. specialize (H 0%nat [1/2] ltac:(simpl; lia) eq_refl). cbn [upd] in H. rewrite !rest_loss in H. lra.
  - split; intros u z B L; (assert (u = 0%nat) as -> by (simpl in B; lia)); destruct z as [|z [|? ?]]; try discriminate; cbn [upd]; rewrite !rest_loss; nra.
  - rewrite !rest_loss. lra.
  - assert (OK : mat_ok 1 [[1/2]]) by (intros r [<-|[]]; auto). split.
    + destruct (C38_total posv_elim solve_sym (1/1000) 1 (cfg false) 1 3 rest_M [[1/2]] [[1/2]] 1) as [XY E]; auto;
        [apply posv_elim_ok|apply solve_sym_ok|apply rest_canonical|lra|].
      rewrite E. f_equal. apply (C135_exact posv_elim solve_sym (1/1000) 1 (cfg false) 1 3 rest_M [[1/2]] [[1/2]] XY); auto;
        [apply posv_elim_ok|apply solve_sym_ok|apply rest_canonical|lra].
    + destruct (C39_cg posv_elim solve_sym (1/1000) 1 (cfg true) 1 3 rest_M [[1/2]] [[1/2]]) with (k := 1%nat) as [XY [_ [E _]]]; auto;
        [lra|apply rest_canonical|lra|].
      rewrite E. f_equal. apply (C135_stays posv_elim solve_sym (1/1000) 1 (cfg true) 1 3 rest_M [[1/2]] [[1/2]] 1 XY); auto;
        [apply posv_elim_ok|apply solve_sym_ok|lra|apply rest_canonical|lra].
Qed.
