(** ALS: properties C35-C38, C40, C41, C46 of properties.jsonl. *)
From Coq Require Import List Arith Lia Bool Reals Lra Permutation ZArith QArith.
From Verif Require Import Base Num Sparse TopkModel RecommendModel RVec SimilarBatch AlsModel AlsSpec AlsProofs PosvImpl AlsProofs2
  AlsLoss RowConc AlsConc.
Import ListNotations.
Local Open Scope R_scope.

(* ------------------------------------------------------------------ C35 *)
(** The matrix entry sum_i C_ui y_ij y_ik + reg [j = k] and the right hand side entry
    sum_i C_ui P_ui y_ij, sums over all items. *)
Definition normal_matrix (Y : list (list R)) (reg : R) (row : list (nat * R)) (j k : nat) : R :=
  rsum (map (fun i => confidence row i * nth j (nth i Y []) 0 * nth k (nth i Y []) 0) (seq 0 (length Y))) +
  (if (j =? k)%nat then reg else 0).
Definition normal_rhs (Y : list (list R)) (row : list (nat * R)) (j : nat) : R :=
  rsum (map (fun i => confidence row i * preference row i * nth j (nth i Y []) 0) (seq 0 (length Y))).
Definition is_normal_system (n : nat) (Y : list (list R)) (reg : R) (row : list (nat * R)) (A : list (list R)) (b : list R) : Prop :=
  length A = n /\ (forall r, In r A -> length r = n) /\ length b = n /\
  (forall j k, (j < n)%nat -> (k < n)%nat -> nth k (nth j A []) 0 = normal_matrix Y reg row j k) /\
  (forall j, (j < n)%nat -> nth j b 0 = normal_rhs Y row j).

Lemma basis_basis n i j : (i < n)%nat -> (j < n)%nat -> rdot (basis n j) (basis n i) = if (i =? j)%nat then 1 else 0.
Proof.
  intros Bi Bj. rewrite rdot_basis by (auto; apply basis_length). unfold basis. rewrite nth_indep with (d' := (fun k => if (k =? j)%nat then 1 else 0) 0%nat) by (rewrite map_length, seq_length; auto).
  rewrite (map_nth (fun k => if (k =? j)%nat then 1 else 0)), seq_nth by auto. auto.
Qed.

Theorem C35_native : forall n Y reg row, mat_ok n Y -> row_ok (length Y) row ->
  exists A b, system (add_diag reg (gram n Y)) n Y row = Ok (A, b) /\ is_normal_system n Y reg row A b.
Proof.
  intros n Y reg row MY RO. destruct (system_form n Y reg row MY RO) as [A [b [E [SA [Lb [FA FB]]]]]]. exists A, b. split; auto.
  split; [apply SA|]. split; [apply SA|]. split; auto. split.
  - intros j k Bj Bk. rewrite <- (form_entry n A j k) by auto. rewrite FA by apply basis_length. unfold normal_matrix. f_equal.
    + unfold wform. apply rsum_map_ext. intros i Hi. apply in_seq in Hi.
      rewrite !rdot_basis by (auto; apply mat_row; auto; lia). lra.
    + rewrite basis_basis by auto. destruct (j =? k)%nat; lra.
  - intros j Bj. rewrite <- (rdot_basis n j b) by auto. rewrite FB by apply basis_length. unfold normal_rhs, wlin. apply rsum_map_ext.
    intros i Hi. apply in_seq in Hi. rewrite rdot_basis by (auto; apply mat_row; auto; lia). auto.
Qed.
Print Assumptions C35_native.

(** The pure python code builds the same system. *)
Theorem C35_python : forall n Y reg row, mat_ok n Y -> row_ok (length Y) row ->
  exists A b, user_linear_equation Y (gram n Y) row reg n = Ok (A, b) /\ is_normal_system n Y reg row A b.
Proof. intros n Y reg row MY RO. rewrite py_system by (auto; apply RO). apply C35_native; auto. Qed.
Print Assumptions C35_python.

Definition exY : list (list R) := [[1; 2]; [0; 1]; [3; 0]].
Definition ex_row : list (nat * R) := [(0%nat, 5); (2%nat, -4)].
Example C35_example : mat_ok 2 exY /\ row_ok (length exY) ex_row /\
  normal_matrix exY (1/10) ex_row 0 0 = 5 + 4 * 9 + 1/10 /\ normal_matrix exY (1/10) ex_row 0 1 = 10 /\
  normal_matrix exY (1/10) ex_row 1 1 = 20 + 1 + 1/10 /\ normal_rhs exY ex_row 0 = 5 /\ normal_rhs exY ex_row 1 = 10.
Proof.
  split; [intros y Hy; simpl in Hy; repeat (destruct Hy as [<-|Hy]; [reflexivity|]); tauto|].
  split; [split; [repeat constructor; simpl; intuition lia|intros p Hp; simpl in Hp; repeat (destruct Hp as [<-|Hp]; [simpl; lia|]); tauto]|].
  unfold normal_matrix, normal_rhs, confidence, preference, entry, exY, ex_row. simpl.
  rewrite (Rabs_right 5) by lra. rewrite (Rabs_left (-4)) by lra.
  destruct (Rlt_dec 0 5); [|lra]. destruct (Rlt_dec 0 (-4)); [lra|]. repeat split; lra.
Qed.

(* ------------------------------------------------------------------ C36 *)
(** [x] is the global minimiser of the user's loss, and the only one if reg > 0. *)
Definition is_minimiser (n : nat) (Y : list (list R)) (reg : R) (row : list (nat * R)) (x : list R) : Prop :=
  minimises n (user_loss Y reg row) x /\
  (0 < reg -> forall z, minimises n (user_loss Y reg row) z -> z = x).
(** A row of the matrix multiplied by alpha. *)
Definition scale_row (a : R) (row : list (nat * R)) : list (nat * R) := map (fun p => (fst p, a * snd p)) row.

Lemma exact_minimiser n reg m Y X' u : exact_step n reg m Y X' -> mat_ok n Y -> 0 <= reg -> (u < c_rows m)%nat ->
  is_minimiser n Y reg (csr_row m u) (nth u X' []).
Proof.
  intros ES MY R0 B. destruct (exact_step_min n reg m Y X' u ES MY R0 B) as [M U]. split; auto.
  intros R1 z [Lz Mz]. apply U; auto. apply Mz, M.
Qed.

Theorem C36_native : forall posv n m X Y reg X', posv_ok posv -> canonical m -> mat_ok n Y ->
  length X = c_rows m -> length Y = c_cols m -> 0 <= reg ->
  least_squares posv n m X Y reg = Ok X' ->
  length X' = c_rows m /\ forall u, (u < c_rows m)%nat -> is_minimiser n Y reg (csr_row m u) (nth u X' []).
Proof.
  intros posv n m X Y reg X' PO C MY LX LY R0 E. unfold least_squares in E. rewrite LX in E.
  assert (ES := least_squares_c_exact posv n m Y reg X' PO C MY LY R0 E). split; [apply ES|]. intros u B. apply exact_minimiser; auto.
Qed.
Print Assumptions C36_native.

(** With reg > 0 the solver never fails. *)
Theorem C36_total : forall posv n m X Y reg, posv_ok posv -> canonical m -> mat_ok n Y ->
  length X = c_rows m -> length Y = c_cols m -> 0 < reg -> exists X', least_squares posv n m X Y reg = Ok X'.
Proof. intros posv n m X Y reg PO C MY LX LY R0. unfold least_squares. rewrite LX. apply least_squares_c_total; auto. Qed.
Print Assumptions C36_total.

Theorem C36_python : forall solve n m X Y reg X', solve_ok solve -> canonical m -> mat_ok n Y ->
  length X = c_rows m -> length Y = c_cols m -> 0 <= reg ->
  least_squares_py solve n m X Y reg = Ok X' ->
  length X' = c_rows m /\ forall u, (u < c_rows m)%nat -> is_minimiser n Y reg (csr_row m u) (nth u X' []).
Proof.
  intros solve n m X Y reg X' SO C MY LX LY R0 E.
  assert (ES := least_squares_py_exact solve n m X Y reg X' SO C MY LX LY E). split; [apply ES|]. intros u B. apply exact_minimiser; auto.
Qed.
Print Assumptions C36_python.

Lemma combine_map_r {A B C} (f : B -> C) (l : list A) l' : combine l (map f l') = map (fun p => (fst p, f (snd p))) (combine l l').
Proof. revert l'. induction l as [|a l IH]; destruct l' as [|b l']; simpl; auto. f_equal. auto. Qed.
Lemma scale_rows a (m : csr R) u : csr_row (csr_scale a m) u = scale_row a (csr_row m u).
Proof. unfold csr_row, csr_scale, scale_row. cbn [c_indptr c_indices c_data]. rewrite slice_map, combine_map_r. reflexivity. Qed.
Lemma scale_one (m : csr R) : csr_scale 1 m = m.
Proof.
  destruct m as [r c p i d]. unfold csr_scale. simpl. f_equal. rewrite <- (map_id d) at 2. apply map_ext. intros; simpl; lra.
Qed.
Lemma apply_alpha_scale a (m : csr R) : apply_alpha a m = csr_scale a m.
Proof.
  unfold apply_alpha, neqb. simpl. unfold Rltb. destruct (Rlt_dec a 1); simpl; auto. destruct (Rlt_dec 1 a); simpl; auto.
  replace a with 1 by lra. symmetry. apply scale_one.
Qed.
Lemma scale_canonical a m : canonical m -> canonical (csr_scale a m).
Proof.
  intros [W ND]. split.
  - destruct W. constructor; simpl; auto. rewrite map_length. auto.
  - intros u B. unfold csr_row_indices. rewrite scale_rows. unfold scale_row. rewrite map_map. simpl. apply (ND u B).
Qed.

(** recalculate_user / recalculate_item, on the factors the cached Gram matrix belongs
    to, with alpha. *)
Theorem C36_recalculate_user : forall posv alpha reg n Y ids M X', posv_ok posv -> canonical M -> mat_ok n Y ->
  length Y = c_cols M -> 0 <= reg ->
  recalculate_user posv alpha reg n (gram n Y) Y ids M = Ok X' ->
  length X' = id_count ids /\ c_rows M = id_count ids /\
  forall k, (k < id_count ids)%nat -> is_minimiser n Y reg (scale_row alpha (csr_row M k)) (nth k X' []).
Proof.
  intros posv alpha reg n Y ids M X' PO C MY LY R0 E. unfold recalculate_user in E.
  destruct (Nat.eqb_spec (c_rows M) (id_count ids)) as [EC|]; cbn [negb] in E; [|discriminate]. rewrite apply_alpha_scale in E.
  assert (ES : exact_step n reg (csr_scale alpha M) Y X').
  { apply (least_squares_c_exact posv); auto; [apply scale_canonical; auto|]. simpl. rewrite EC. auto. }
  split; [rewrite <- EC; apply ES|]. split; auto. intros k B. rewrite <- scale_rows. apply exact_minimiser; auto. simpl. lia.
Qed.
Print Assumptions C36_recalculate_user.

(** recalculate_item does not check the number of rows (see C69); when it fits: *)
Theorem C36_recalculate_item : forall posv alpha reg n X ids M Y', posv_ok posv -> canonical M -> mat_ok n X ->
  length X = c_cols M -> c_rows M = id_count ids -> 0 <= reg ->
  recalculate_item posv alpha reg n (gram n X) X ids M = Ok Y' ->
  length Y' = id_count ids /\
  forall k, (k < id_count ids)%nat -> is_minimiser n X reg (scale_row alpha (csr_row M k)) (nth k Y' []).
Proof.
  intros posv alpha reg n X ids M Y' PO C MX LX EC R0 E. unfold recalculate_item in E. rewrite apply_alpha_scale in E.
  assert (ES : exact_step n reg (csr_scale alpha M) X Y').
  { apply (least_squares_c_exact posv); auto; [apply scale_canonical; auto|]. simpl. rewrite EC. auto. }
  split; [rewrite <- EC; apply ES|]. intros k B. rewrite <- scale_rows. apply exact_minimiser; auto. simpl. lia.
Qed.
Print Assumptions C36_recalculate_item.

Definition exM : csr R := csr_of_rows 3 [ex_row; []; [(1%nat, 2)]].
Lemma exM_canonical : canonical exM.
Proof.
  split.
  - apply csr_of_rows_wf. intros r p Hr Hp. simpl in Hr. repeat (destruct Hr as [<-|Hr]; [simpl in Hp; repeat (destruct Hp as [<-|Hp]; [simpl; lia|]); tauto|]). tauto.
  - intros u B. simpl in B. destruct u as [|[|[|u]]]; [| | |lia]; repeat constructor; simpl; intuition lia.
Qed.
Lemma exY_ok : mat_ok 2 exY.
Proof. intros y Hy; simpl in Hy; repeat (destruct Hy as [<-|Hy]; [reflexivity|]); tauto. Qed.
(** A matrix with a negative entry and an empty row: the solver succeeds. *)
Example C36_example : posv_ok posv_elim /\ solve_ok solve_sym /\ canonical exM /\
  exists X', least_squares posv_elim 2 exM [[0;0];[1;1];[0;0]] exY (1/10) = Ok X' /\
             exists X'', recalculate_user posv_elim 2 (1/10) 2 (gram 2 exY) exY (Batch [0%Z; 1%Z; 2%Z]) exM = Ok X''.
Proof.
  split; [apply posv_elim_ok|]. split; [apply solve_sym_ok|]. split; [apply exM_canonical|].
  destruct (C36_total posv_elim 2 exM [[0;0];[1;1];[0;0]] exY (1/10) posv_elim_ok exM_canonical exY_ok eq_refl eq_refl ltac:(lra)) as [X' E].
  exists X'. split; auto. unfold recalculate_user. cbn [id_count id_list length]. rewrite Nat.eqb_refl. cbn [negb]. rewrite apply_alpha_scale.
  apply (least_squares_c_total posv_elim 2 (csr_scale 2 exM) exY (1/10) posv_elim_ok (scale_canonical 2 exM exM_canonical) exY_ok eq_refl). lra.
Qed.

(* ------------------------------------------------------------------ C37 *)
(** The magnitudes of the negative entries of a matrix. *)
Definition negative_mass (m : csr R) : R :=
  rsum (map (fun u => rsum (map (fun p => if Rlt_dec (snd p) 0 then - snd p else 0) (csr_row m u))) (seq 0 (c_rows m))).
Definition loss_inputs_ok (n : nat) (m : csr R) (X Y : list (list R)) (uorder iorder : list nat) : Prop :=
  canonical m /\ nth 0 (c_indptr m) 0%nat = 0%nat /\ mat_ok n X /\ mat_ok n Y /\ length X = c_rows m /\ length Y = c_cols m /\
  Permutation uorder (seq 0 (c_rows m)) /\ Permutation iorder (seq 0 (c_cols m)).

(** What calculate_loss returns, for every schedule of the reductions: too large by the
    total magnitude of the negative entries. *)
Theorem C37_formula : forall n m X Y reg uorder iorder, loss_inputs_ok n m X Y uorder iorder ->
  total_confidence (csr_row m) (c_rows m) (c_cols m) <> 0 ->
  calculate_loss INR n uorder iorder m X Y reg =
    Ok ((total_loss (csr_row m) reg X Y + negative_mass m) / total_confidence (csr_row m) (c_rows m) (c_cols m)).
Proof.
  intros n m X Y reg uorder iorder [C [Z [MX [MY [LX [LY [PU PI]]]]]]] NZ. rewrite calculate_loss_value by auto.
  unfold c_div, neqb. simpl. unfold Rltb. destruct (Rlt_dec _ 0) as [L|L]; simpl; [|destruct (Rlt_dec 0 _) as [L2|L2]; simpl; [|exfalso; lra]];
  do 3 f_equal; unfold negative_mass; apply rsum_map_ext; intros u _; unfold neg_sum; apply rsum_map_ext; intros p _; unfold pos;
  destruct (Rlt_dec 0 (snd p)), (Rlt_dec (snd p) 0); try lra; try (rewrite Rabs_right; lra); try (rewrite Rabs_left; lra).
Qed.
Print Assumptions C37_formula.

(** The claim, for matrices without negative entries.  Missing: matrices with negative
    entries, for which it is false (C37_refuted). *)
Theorem C37_partial : forall n m X Y reg uorder iorder, loss_inputs_ok n m X Y uorder iorder ->
  (forall u p, (u < c_rows m)%nat -> In p (csr_row m u) -> 0 <= snd p) ->
  total_confidence (csr_row m) (c_rows m) (c_cols m) <> 0 ->
  calculate_loss INR n uorder iorder m X Y reg =
    Ok (total_loss (csr_row m) reg X Y / total_confidence (csr_row m) (c_rows m) (c_cols m)).
Proof.
  intros n m X Y reg uorder iorder IN NN NZ. rewrite (C37_formula n m X Y reg uorder iorder IN NZ).
  replace (negative_mass m) with 0; [rewrite Rplus_0_r; auto|]. symmetry. apply rsum_zero. intros v Hv. apply in_map_iff in Hv. destruct Hv as [u [<- Hu]].
  apply in_seq in Hu. apply rsum_zero. intros w Hw. apply in_map_iff in Hw. destruct Hw as [p [<- Hp]].
  specialize (NN u p ltac:(lia) Hp). destruct (Rlt_dec (snd p) 0); lra.
Qed.
Print Assumptions C37_partial.

Definition exX : list (list R) := [[1; 0]; [0; 2]; [1; 1]].
Lemma exX_ok : mat_ok 2 exX.
Proof. intros y Hy; simpl in Hy; repeat (destruct Hy as [<-|Hy]; [reflexivity|]); tauto. Qed.
Lemma exM_loss_ok : loss_inputs_ok 2 exM exX exY [2%nat; 0%nat; 1%nat] [0%nat; 1%nat; 2%nat].
Proof.
  split; [apply exM_canonical|]. split; auto. split; [apply exX_ok|]. split; [apply exY_ok|]. split; auto. split; auto. split.
  - simpl. apply Permutation_sym. change [2%nat; 0%nat; 1%nat] with ([2%nat] ++ [0%nat; 1%nat]).
    apply Permutation_app_comm with (l := [0%nat; 1%nat]) (l' := [2%nat]).
  - apply Permutation_refl.
Qed.
Lemma exM_conf : total_confidence (csr_row exM) (c_rows exM) (c_cols exM) = 17.
Proof.
  unfold total_confidence, confidence, entry, exM, ex_row. simpl. rewrite (Rabs_right 5), (Rabs_right 2), (Rabs_left (-4)) by lra. lra.
Qed.

(** A user with one negative entry of confidence 1 and zero factors predicts it
    perfectly, yet the reported loss is not 0. *)
Theorem C37_refuted : exists n m X Y reg uorder iorder v, loss_inputs_ok n m X Y uorder iorder /\
  calculate_loss INR n uorder iorder m X Y reg = Ok v /\
  0 < total_confidence (csr_row m) (c_rows m) (c_cols m) /\
  v <> total_loss (csr_row m) reg X Y / total_confidence (csr_row m) (c_rows m) (c_cols m).
Proof.
  exists 2%nat, exM, exX, exY, (1/10), [2%nat; 0%nat; 1%nat], [0%nat; 1%nat; 2%nat]. eexists. split; [apply exM_loss_ok|].
  split; [apply C37_formula; [apply exM_loss_ok|rewrite exM_conf; lra]|]. rewrite exM_conf. split; [lra|].
  assert (N : negative_mass exM = 4).
  { unfold negative_mass, exM, ex_row. simpl. destruct (Rlt_dec 5 0), (Rlt_dec (-4) 0), (Rlt_dec 2 0); lra. }
  rewrite N. lra.
Qed.
Print Assumptions C37_refuted.

Example C37_example : exists m uorder iorder, loss_inputs_ok 2 m exX exY uorder iorder /\
  (forall u p, (u < c_rows m)%nat -> In p (csr_row m u) -> 0 <= snd p) /\
  total_confidence (csr_row m) (c_rows m) (c_cols m) <> 0 /\ c_rows m = 3%nat.
Proof.
  exists (csr_of_rows 3 [[(0%nat, 5); (2%nat, 4)]; []; [(1%nat, 2)]]), [2%nat; 0%nat; 1%nat], [0%nat; 1%nat; 2%nat].
  split.
  - destruct exM_loss_ok as [_ [_ [MX [MY [_ [_ [PU PI]]]]]]]. split; [|split; [|split; [|split; [|split; [|split; [|split]]]]]]; auto. split.
    + apply csr_of_rows_wf. intros r p Hr Hp. simpl in Hr. repeat (destruct Hr as [<-|Hr]; [simpl in Hp; repeat (destruct Hp as [<-|Hp]; [simpl; lia|]); tauto|]). tauto.
    + intros u B. simpl in B. destruct u as [|[|[|u]]]; [| | |lia]; repeat constructor; simpl; intuition lia.
  - split; [|split; auto].
    + intros u p B Hp. simpl in B. destruct u as [|[|[|u]]]; [| | |lia]; simpl in Hp; repeat (destruct Hp as [<-|Hp]; [simpl; lra|]); tauto.
    + unfold total_confidence, confidence, entry. simpl. rewrite (Rabs_right 5), (Rabs_right 2), (Rabs_right 4) by lra. lra.
Qed.

(* ------------------------------------------------------------------ C38 *)
(** The training loss as a function of alpha: confidences are alpha times the data. *)
Definition training_loss (alpha reg : R) (m : csr R) (XY : list (list R) * list (list R)) : R :=
  total_loss (fun u => scale_row alpha (csr_row m u)) reg (fst XY) (snd XY).

Theorem C38_exact : forall posv solve eps n o alpha reg m X Y k XY XY', posv_ok posv -> solve_ok solve -> use_cg o = false ->
  canonical m -> mat_ok n X -> mat_ok n Y -> length X = c_rows m -> length Y = c_cols m -> 0 <= reg ->
  als_fit (als_solver posv solve eps n o) alpha reg k m X Y = Ok XY ->
  als_fit (als_solver posv solve eps n o) alpha reg (S k) m X Y = Ok XY' ->
  training_loss alpha reg m XY' <= training_loss alpha reg m XY.
Proof.
  intros posv solve eps n o alpha reg m X Y k [Xk Yk] XY' PO SO CG C MX MY LX LY R0 E1 E2. unfold als_fit in *. rewrite apply_alpha_scale in *.
  set (s := als_solver posv solve eps n o) in *. assert (ES : exact_solver n s) by (apply als_solver_exact; auto).
  rewrite als_iterate_S, E1 in E2. cbn [bind] in E2.
  destruct (s (csr_scale alpha m) Xk Yk reg) as [X'|] eqn:S1; cbn [bind] in E2; [|discriminate].
  destruct (s (transpose (csr_scale alpha m)) Yk X' reg) as [Y'|] eqn:S2; cbn [bind] in E2; [|discriminate]. inversion E2; subst XY'.
  assert (CS := scale_canonical alpha m C).
  destruct (als_iterate_shape n s reg (csr_scale alpha m) k X Y Xk Yk ES CS MX MY LX LY R0 E1) as [M1 [M2 [L1 L2]]].
  destruct (als_step_le n s reg (csr_scale alpha m) Xk Yk X' Y' ES CS M1 M2 L1 L2 R0 S1 S2) as [I1 [I2 _]].
  unfold training_loss. cbn [fst snd].
  assert (TL : forall A B, total_loss (fun u => scale_row alpha (csr_row m u)) reg A B = total_loss (csr_row (csr_scale alpha m)) reg A B).
  { intros A B. unfold total_loss. f_equal. apply rsum_map_ext. intros u _. rewrite scale_rows. auto. }
  rewrite !TL. lra.
Qed.
Print Assumptions C38_exact.

(** With reg > 0 the native solver never fails, so that the sequence of losses is that
    of every run. *)
Theorem C38_total : forall posv solve eps n o alpha reg m X Y k, posv_ok posv -> solve_ok solve -> use_cg o = false -> use_native o = true ->
  canonical m -> mat_ok n X -> mat_ok n Y -> length X = c_rows m -> length Y = c_cols m -> 0 < reg ->
  exists XY, als_fit (als_solver posv solve eps n o) alpha reg k m X Y = Ok XY.
Proof.
  intros posv solve eps n o alpha reg m X Y k PO SO CG NA C MX MY LX LY R0. unfold als_fit. rewrite apply_alpha_scale.
  set (s := als_solver posv solve eps n o). assert (ES : exact_solver n s) by (apply als_solver_exact; auto).
  assert (CS := scale_canonical alpha m C). revert X Y MX MY LX LY. induction k as [|k IH]; intros X Y MX MY LX LY; [eexists; reflexivity|].
  cbn [als_iterate]. destruct (C36_total posv n (csr_scale alpha m) X Y reg) as [X' E1]; auto.
  assert (S1 : s (csr_scale alpha m) X Y reg = Ok X') by (unfold s, als_solver; rewrite CG, NA; auto). rewrite S1. cbn [bind].
  destruct (ES (csr_scale alpha m) X Y reg X' CS MY LX LY ltac:(lra) S1) as [L1 [M1 _]].
  destruct (C36_total posv n (transpose (csr_scale alpha m)) Y X' reg) as [Y' E2]; auto.
  { apply transpose_canonical; auto. }
  { rewrite transpose_rows. auto. }
  assert (S2 : s (transpose (csr_scale alpha m)) Y X' reg = Ok Y') by (unfold s, als_solver; rewrite CG, NA; auto). rewrite S2. cbn [bind].
  destruct (als_step_le n s reg (csr_scale alpha m) X Y X' Y' ES CS MX MY LX LY ltac:(lra) S1 S2) as [_ [_ [M1' [M2 [L1' L2]]]]].
  apply IH; auto.
Qed.
Print Assumptions C38_total.

Example C38_example : forall k, exists XY XY',
  als_fit (als_solver posv_elim solve_sym 0 2 {| use_cg := false; use_native := true; o_cg_steps := 3 |}) 2 (1/10) k exM exX exY = Ok XY /\
  als_fit (als_solver posv_elim solve_sym 0 2 {| use_cg := false; use_native := true; o_cg_steps := 3 |}) 2 (1/10) (S k) exM exX exY = Ok XY'.
Proof.
  assert (G : forall k, exists XY, als_fit (als_solver posv_elim solve_sym 0 2 {| use_cg := false; use_native := true; o_cg_steps := 3 |}) 2 (1/10) k exM exX exY = Ok XY).
  { intros k. apply C38_total; auto; [apply posv_elim_ok|apply solve_sym_ok|apply exM_canonical|apply exX_ok|apply exY_ok|lra]. }
  intros k. destruct (G k) as [XY E]. destruct (G (S k)) as [XY' E']. exists XY, XY'. auto.
Qed.

(* ------------------------------------------------------------------ C40 *)
(** Native solvers, any number type. *)
Theorem C40_native_partial : forall {T} `{Num T} posv eps steps n m X Y reg X' u,
  (least_squares posv n m X Y reg = Ok X' \/ least_squares_cg eps steps n m X Y reg = Ok X') ->
  (u < length X)%nat -> csr_row m u = [] -> nth u X' [] = repeat nzero n.
Proof.
  intros T H posv eps steps n m X Y reg X' u [E|E] B E0.
  - unfold least_squares, least_squares_c in E. apply (proj1 (map_res_nth _ _ _ 0%nat [])) in E. rewrite seq_length in E. destruct E as [L E].
    specialize (E u B). rewrite seq_nth in E by auto. simpl plus in E. unfold raw_entries in E. destruct (_ <? _)%nat; cbn [bind] in E; [|discriminate].
    rewrite E0 in E. cbn [ls_row] in E. inversion E. auto.
  - unfold least_squares_cg in E. apply (proj1 (map_res_nth _ _ _ (0%nat, []) [])) in E. unfold enum in E. rewrite Base.enum_from_length in E. destruct E as [L E].
    specialize (E u B). rewrite nth_enum_from in E by auto. simpl in E. unfold raw_entries in E. destruct (_ <? _)%nat; cbn [bind] in E; [|discriminate].
    rewrite E0 in E. cbn [cg_row] in E. inversion E. auto.
Qed.
Print Assumptions C40_native_partial.

(** The pure python exact solver: the system is nonsingular and its right hand side
    zero. *)
Theorem C40_python_partial : forall solve n m X Y reg X' u, solve_ok solve -> canonical m -> mat_ok n Y ->
  length X = c_rows m -> length Y = c_cols m -> least_squares_py solve n m X Y reg = Ok X' ->
  (u < length X)%nat -> csr_row m u = [] -> nth u X' [] = repeat 0 n.
Proof.
  intros solve n m X Y reg X' u SO C MY LX LY E B E0. unfold least_squares_py in E.
  apply (proj1 (map_res_nth _ _ _ 0%nat [])) in E. rewrite seq_length in E. destruct E as [L E].
  specialize (E u B). rewrite seq_nth in E by auto. simpl plus in E. rewrite np_entries_ok in E by (try apply C; lia). cbn [bind] in E. rewrite E0 in E.
  cbn [user_linear_equation fold_res bind] in E. destruct (solve _ _) as [x|] eqn:ES; [|discriminate]. inversion E as [Ex].
  destruct (SO n (add_diag reg (gram n Y)) (zeros n) x) as [Lx [Em Ei]]; auto; [apply diag_shape, gram_shape|apply repeat_length|].
  rewrite Ex in *. apply Ei; auto.
Qed.
Print Assumptions C40_python_partial.

(** The pure python conjugate gradient solver (use_native=False) does not: four factors,
    the default three CG steps, a user without entries. *)
Theorem C40_refuted : exists (m : csr Q) X Y X' a, csr_wf m /\ csr_row m 0 = [] /\ length X = c_rows m /\ length Y = c_cols m /\
  als_solver (fun _ _ => None) (fun _ _ => None) (1 # 100000000000000000000)%Q 4 {| use_cg := true; use_native := false; o_cg_steps := 3 |}
    m X Y (1 # 100)%Q = Ok X' /\ In a (nth 0 X' []) /\ ~ (a == 0)%Q.
Proof.
  exists (csr_of_rows 4 [[]; [(0%nat, 2%Q)]]), [[1; 1; 1; 1]; [1; 1; 1; 1]]%Q,
    [[1; 0; 0; 0]; [0; 2; 0; 0]; [0; 0; 3; 0]; [0; 0; 0; 4]]%Q.
  eexists. eexists. split; [apply csr_of_rows_wf; intros r p Hr Hp; simpl in Hr; destruct Hr as [<-|[<-|[]]]; simpl in Hp; [tauto|destruct Hp as [<-|[]]; simpl; lia]|].
  split; [reflexivity|]. split; [reflexivity|]. split; [reflexivity|]. split; [vm_compute; reflexivity|]. split; [left; reflexivity|].
  vm_compute. discriminate.
Qed.
Print Assumptions C40_refuted.

Example C40_example : csr_row exM 1 = [] /\ exists X', least_squares posv_elim 2 exM exX exY (1/10) = Ok X'.
Proof. split; auto. apply C36_total; auto; [apply posv_elim_ok|apply exM_canonical|apply exY_ok|lra]. Qed.

(* ------------------------------------------------------------------ C41 *)
(** Any dealing of the users to threads, any private buffer contents to start with, any
    schedule: no undefined behaviour, and once all threads are finished the factors are
    those of the loop run in order. *)
Theorem C41_cholesky : forall {T} `{Num T} posv n m X Y reg X' deal sched,
  least_squares posv n m X Y reg = Ok X' -> Permutation (flat_map fst deal) (seq 0 (length X)) ->
  exists st, prun (ls_task posv (add_diag reg (gram n Y)) m n Y) LsBegin sched (pstart X deal) = Ok st /\ (finished st -> fst st = X').
Proof. intros. eapply least_squares_any_schedule; eauto. Qed.
Print Assumptions C41_cholesky.
Theorem C41_cg : forall {T} `{Num T} eps steps n m X Y reg X' deal sched,
  least_squares_cg eps steps n m X Y reg = Ok X' -> Permutation (flat_map fst deal) (seq 0 (length X)) ->
  exists st, prun (cg_task eps steps (add_diag reg (gram n Y)) m n Y) CgBegin sched (pstart X deal) = Ok st /\ (finished st -> fst st = X').
Proof. intros. eapply least_squares_cg_any_schedule; eauto. Qed.
Print Assumptions C41_cg.

(** Two threads, three users, garbage in the buffers; a schedule that interleaves two
    conjugate gradient iterations and finishes. *)
Definition exMq : csr Q := csr_of_rows 2 [[(0%nat, 3%Q); (1%nat, (-2)%Q)]; []; [(1%nat, 2%Q)]].
Example C41_example : exists X' st,
  least_squares_cg (1 # 1000000)%Q 2 2 exMq [[1; 1]; [2; 2]; [0; 1]]%Q [[1; 2]; [0; 1]]%Q (1 # 10)%Q = Ok X' /\
  prun (cg_task (1 # 1000000)%Q 2 (add_diag (1 # 10)%Q (gram 2 [[1; 2]; [0; 1]]%Q)) exMq 2 [[1; 2]; [0; 1]]%Q) CgBegin
    [0; 1; 0; 1; 0; 1; 1; 0; 1; 0; 1; 1; 0; 0; 1]%nat
    (pstart [[1; 1]; [2; 2]; [0; 1]]%Q [([2%nat], ([7]%Q, [], [1; 1; 1]%Q)); ([1%nat; 0%nat], ([], [9]%Q, []))]) = Ok st /\
  finished st /\ fst st = X'.
Proof.
  eexists. eexists. split; [vm_compute; reflexivity|]. split; [vm_compute; reflexivity|]. split; [|vm_compute; reflexivity].
  intros w Hw. vm_compute in Hw. destruct Hw as [<-|[<-|[]]]; split; reflexivity.
Qed.

(* ------------------------------------------------------------------ C46 *)
(** [m'] is [a] times [m]. *)
Definition scaled {T} `{Num T} (a : T) (m m' : csr T) : Prop :=
  c_rows m' = c_rows m /\ c_cols m' = c_cols m /\ c_indptr m' = c_indptr m /\ c_indices m' = c_indices m /\
  c_data m' = map (fun v => nmul a v) (c_data m).

Lemma scaled_eq a (m m' : csr R) : scaled a m m' -> m' = csr_scale a m.
Proof. destruct m, m'. unfold scaled, csr_scale. simpl. intros [-> [-> [-> [-> ->]]]]. auto. Qed.
Theorem C46_cpu_partial : forall solver alpha reg k (m m' : csr R) X Y, scaled alpha m m' ->
  als_fit solver alpha reg k m X Y = als_fit solver 1 reg k m' X Y.
Proof. intros solver alpha reg k m m' X Y SC. apply scaled_eq in SC. subst. unfold als_fit. rewrite !apply_alpha_scale, scale_one. auto. Qed.
Print Assumptions C46_cpu_partial.
Theorem C46_recalculate_partial : forall posv alpha reg n G F ids (m m' : csr R), scaled alpha m m' ->
  recalculate_user posv alpha reg n G F ids m = recalculate_user posv 1 reg n G F ids m' /\
  recalculate_item posv alpha reg n G F ids m = recalculate_item posv 1 reg n G F ids m'.
Proof.
  intros posv alpha reg n G F ids m m' SC. apply scaled_eq in SC. subst. unfold recalculate_user, recalculate_item.
  rewrite !apply_alpha_scale, scale_one. auto.
Qed.
Print Assumptions C46_recalculate_partial.
(** alpha matters: a one-user, one-item model. *)
Example C46_example : exists (m m' : csr Q), scaled 3%Q m m' /\
  als_fit (least_squares_cg (1 # 1000000)%Q 3 1) 3%Q (1 # 10)%Q 1 m [[1]]%Q [[1]]%Q =
  als_fit (least_squares_cg (1 # 1000000)%Q 3 1) 1%Q (1 # 10)%Q 1 m' [[1]]%Q [[1]]%Q /\
  als_fit (least_squares_cg (1 # 1000000)%Q 3 1) 3%Q (1 # 10)%Q 1 m [[1]]%Q [[1]]%Q <>
  als_fit (least_squares_cg (1 # 1000000)%Q 3 1) 1%Q (1 # 10)%Q 1 m [[1]]%Q [[1]]%Q.
Proof.
  exists (csr_of_rows 1 [[(0%nat, 2%Q)]]), (csr_of_rows 1 [[(0%nat, 6%Q)]]). split; [repeat split|]. split; [vm_compute; reflexivity|].
  vm_compute. discriminate.
Qed.

(** On the GPU [fit] ignores alpha: with the (same) conjugate gradient solver, alpha=3
    on a matrix and alpha=1 on three times the matrix give different user factors. *)
Theorem C46_gpu_refuted : exists (m m' : csr Q) alpha reg k X Y Xa Ya Xb Yb a b,
  scaled alpha m m' /\
  gpu_als_fit (least_squares_cg (1 # 1000000)%Q 3 1) alpha reg k m X Y = Ok (Xa, Ya) /\
  gpu_als_fit (least_squares_cg (1 # 1000000)%Q 3 1) 1%Q reg k m' X Y = Ok (Xb, Yb) /\
  nth_error Xa 0 = Some [a] /\ nth_error Xb 0 = Some [b] /\ ~ (a == b)%Q.
Proof.
  exists (csr_of_rows 1 [[(0%nat, 2%Q)]]), (csr_of_rows 1 [[(0%nat, 6%Q)]]), 3%Q, (1 # 10)%Q, 1%nat, [[1]]%Q, [[1]]%Q.
  eexists. eexists. eexists. eexists. eexists. eexists. split; [repeat split|]. split; [vm_compute; reflexivity|]. split; [vm_compute; reflexivity|].
  split; [reflexivity|]. split; [reflexivity|]. vm_compute. discriminate.
Qed.
Print Assumptions C46_gpu_refuted.
