(** Exact ALS solvers as a whole: half steps, transposition, the training loop. *)
From Coq Require Import List Arith Lia Bool Reals Lra Permutation.
From Verif Require Import Base Num Sparse TopkModel TopkBatch RecommendModel RVec SimilarBatch AlsModel AlsSpec AlsProofs.
Import ListNotations.
Local Open Scope R_scope.

(* ------------------------------------------------------------------ python = native system *)
Lemma outer_axpy c y A : (forall r, In r A -> length r = length y) ->
  add_outer c y A = map (fun p => axpy (nmul c (fst p)) y (snd p)) (combine y A).
Proof.
  intros R0. unfold add_outer. apply map_ext_in. intros [w r] Hp. simpl. apply in_combine_r in Hp. specialize (R0 r Hp).
  revert R0. generalize y. clear. induction r as [|a r IH]; destruct y as [|b y]; simpl; intros L; try discriminate; auto. f_equal; [lra|]. apply IH. lia.
Qed.
Lemma py_system_fold n Y row : mat_ok n Y -> (forall p, In p row -> (fst p < length Y)%nat) -> forall A b, square n A -> length b = n ->
  fold_res (fun s e =>
      do y <- np_row Y (fst e);
      let b' := if nltb nzero (snd e) then axpy (snd e) y (snd s) else snd s in
      let c := if nltb nzero (snd e) then snd e else nmul (snd e) (nopp none_) in
      Ok (add_outer (nsub c none_) y (fst s), b')) row (A, b) = fold_res (add_entry Y) row (A, b).
Proof.
  intros MY. induction row as [|[i c] row IH]; intros B A b SA Lb; auto.
  assert (Bi : (i < length Y)%nat) by (apply (B (i, c)); left; auto). cbn [fold_res]. unfold add_entry at 1. cbn [fst snd].
  rewrite np_row_ok, raw_row_ok by auto. cbn [bind]. set (y := nth i Y []).
  assert (Ly : length y = n) by (apply mat_row; auto).
  assert (Ec : (if nltb nzero c then c else nmul c (nopp none_)) = conf_abs c) by (unfold conf_abs; simpl; destruct (Rltb 0 c); lra).
  rewrite Ec. rewrite outer_axpy by (intros r Hr; destruct SA as [_ RA]; rewrite RA; auto).
  rewrite <- IH; auto.
  - intros p Hp. apply B. right; auto.
  - apply rank_one_shape; auto.
  - destruct (nltb nzero c); rewrite ?axpy_length; auto.
Qed.
Lemma py_system n Y reg row : mat_ok n Y -> (forall p, In p row -> (fst p < length Y)%nat) ->
  user_linear_equation Y (gram n Y) row reg n = system (add_diag reg (gram n Y)) n Y row.
Proof.
  intros MY B. unfold user_linear_equation, system. apply (py_system_fold n); auto; [apply diag_shape, gram_shape|apply repeat_length].
Qed.

(* ------------------------------------------------------------------ matrices of confidences *)
Lemma canonical_row m u : canonical m -> (u < c_rows m)%nat -> row_ok (c_cols m) (csr_row m u).
Proof.
  intros [W ND] B. split; [apply (ND u B)|]. intros p Hp. apply (csr_row_indices_lt m u (fst p) W). apply in_map; auto.
Qed.
Lemma raw_entries_ok {T} (m : csr T) u : csr_wf m -> (u < c_rows m)%nat -> raw_entries m u = Ok (csr_row m u).
Proof. intros W B. unfold raw_entries. rewrite (wf_indptr_len m W). destruct (Nat.ltb_spec (S u) (S (c_rows m))); auto; lia. Qed.
Lemma np_entries_ok {T} (m : csr T) u : csr_wf m -> (u < c_rows m)%nat -> np_entries m u = Ok (csr_row m u).
Proof. intros W B. unfold np_entries. rewrite (wf_indptr_len m W). destruct (Nat.ltb_spec (S u) (S (c_rows m))); auto; lia. Qed.

Lemma seq_nth_map {A} (f : nat -> A) n i d : (i < n)%nat -> nth i (map f (seq 0 n)) d = f i.
Proof. intros B. rewrite nth_indep with (d' := f 0%nat) by (rewrite map_length, seq_length; auto). rewrite map_nth, seq_nth; auto. Qed.

Lemma transpose_row {T} (m : csr T) j : (j < c_cols m)%nat -> csr_row (transpose m) j =
  flat_map (fun u => map (fun p => (u, snd p)) (filter (fun p => (fst p =? j)%nat) (csr_row m u))) (seq 0 (c_rows m)).
Proof. intros B. unfold transpose. rewrite csr_row_of_rows. rewrite seq_nth_map by auto. auto. Qed.
Lemma transpose_rows {T} (m : csr T) : c_rows (transpose m) = c_cols m.
Proof. unfold transpose. simpl. rewrite map_length, seq_length. auto. Qed.
Lemma transpose_in {T} (m : csr T) j u c : (j < c_cols m)%nat ->
  (In (u, c) (csr_row (transpose m) j) <-> (u < c_rows m)%nat /\ In (j, c) (csr_row m u)).
Proof.
  intros B. rewrite transpose_row by auto. rewrite in_flat_map. split.
  - intros [u' [Hu Hin]]. apply in_map_iff in Hin. destruct Hin as [[j' c'] [E Hp]]. apply filter_In in Hp. destruct Hp as [Hp Ej]. simpl in *.
    apply Nat.eqb_eq in Ej. inversion E; subst. apply in_seq in Hu. split; [lia|auto].
  - intros [Hu Hin]. exists u. split; [apply in_seq; lia|]. apply in_map_iff. exists (j, c). split; auto. apply filter_In. split; auto. apply Nat.eqb_refl.
Qed.
Lemma nodup_filter_eq (l : list (nat * R)) j : NoDup (map fst l) -> (length (filter (fun p => (fst p =? j)%nat) l) <= 1)%nat.
Proof.
  induction l as [|[i c] l IH]; simpl; intros ND; [lia|]. inversion ND as [|? ? N1 N2]; subst. destruct (Nat.eqb_spec i j) as [->|]; simpl; auto.
  destruct (filter (fun p => (fst p =? j)%nat) l) as [|[i' c'] l'] eqn:F; simpl; [lia|]. exfalso.
  assert (X : In (i', c') (filter (fun p => (fst p =? j)%nat) l)) by (rewrite F; left; auto). apply filter_In in X. destruct X as [X1 X2].
  simpl in X2. apply Nat.eqb_eq in X2. subst. apply N1. change j with (fst (j, c')). apply in_map; auto.
Qed.
Lemma transpose_nodup m j : canonical m -> (j < c_cols m)%nat -> NoDup (map fst (csr_row (transpose m) j)).
Proof.
  intros [W ND] B. rewrite transpose_row by auto.
  assert (G : forall us, NoDup us -> (forall u, In u us -> (u < c_rows m)%nat) ->
    NoDup (map fst (flat_map (fun u => map (fun p => (u, snd p)) (filter (fun p => (fst p =? j)%nat) (csr_row m u))) us))).
  { induction us as [|u us IH]; intros N Bu; [constructor|]. inversion N as [|? ? N1 N2]; subst. simpl. rewrite map_app. apply NoDup_app_intro.
    - rewrite map_map. simpl. pose proof (nodup_filter_eq (csr_row m u) j (ND u (Bu u (or_introl eq_refl)))) as L.
      destruct (filter _ (csr_row m u)) as [|p [|q l]]; simpl in *; [constructor|repeat constructor; simpl; tauto|lia].
    - apply IH; auto. intros; apply Bu; right; auto.
    - intros v Hv Hw. apply in_map_iff in Hv. destruct Hv as [[u' c] [<- Hv]]. apply in_map_iff in Hv. destruct Hv as [? [E _]]. inversion E; subst.
      apply in_map_iff in Hw. destruct Hw as [[u2 c2] [E2 Hw]]. simpl in E2. subst. apply in_flat_map in Hw. destruct Hw as [u3 [Hu3 Hw]].
      apply in_map_iff in Hw. destruct Hw as [? [E3 _]]. inversion E3; subst. contradiction. }
  apply G; [apply seq_NoDup|]. intros u Hu. apply in_seq in Hu. lia.
Qed.
Lemma transpose_canonical m : canonical m -> canonical (transpose m).
Proof.
  intros C. split.
  - unfold transpose. apply csr_of_rows_wf. intros r p Hr Hp. apply in_map_iff in Hr. destruct Hr as [j [<- Hj]].
    apply in_flat_map in Hp. destruct Hp as [u [Hu Hp]]. apply in_map_iff in Hp. destruct Hp as [q [<- _]]. apply in_seq in Hu. simpl. lia.
  - intros j B. rewrite transpose_rows in B. apply transpose_nodup; auto.
Qed.
Lemma entry_transpose m u j : canonical m -> (u < c_rows m)%nat -> (j < c_cols m)%nat ->
  entry (csr_row (transpose m) j) u = entry (csr_row m u) j.
Proof.
  intros C Bu Bj. assert (N1 := transpose_nodup m j C Bj). assert (N2 := proj2 C u Bu). unfold csr_row_indices in N2.
  destruct (entry (csr_row m u) j) as [c|] eqn:E.
  - apply entry_in; auto. apply transpose_in; auto. split; auto. apply entry_in; auto.
  - destruct (entry (csr_row (transpose m) j) u) as [c|] eqn:E2; auto. apply entry_in in E2; auto. apply transpose_in in E2; auto.
    destruct E2 as [_ E2]. apply entry_in in E2; auto. congruence.
Qed.

(* ------------------------------------------------------------------ total loss *)
Lemma total_loss_users rows reg X Y :
  total_loss rows reg X Y = rsum (map (fun u => user_loss Y reg (rows u) (nth u X [])) (seq 0 (length X))) + reg * norms Y.
Proof.
  unfold total_loss, user_loss. rewrite rsum_map_add, rsum_map_scale. unfold norms at 1. rewrite <- (map_nth_all (fun x => rdot x x) X []). lra.
Qed.
Lemma total_loss_transpose m reg X Y : canonical m -> length X = c_rows m -> length Y = c_cols m ->
  total_loss (csr_row m) reg X Y = total_loss (csr_row (transpose m)) reg Y X.
Proof.
  intros C LX LY. unfold total_loss. f_equal; [|lra]. unfold row_error. rewrite rsum_swap. apply rsum_map_ext. intros j Hj. apply in_seq in Hj.
  apply rsum_map_ext. intros u Hu. apply in_seq in Hu. unfold confidence, preference. rewrite entry_transpose by (auto; lia). rewrite rdot_comm. auto.
Qed.
Lemma half_step_le rows reg X X' Y n : length X' = length X -> mat_ok n X ->
  (forall u, (u < length X)%nat -> minimises n (user_loss Y reg (rows u)) (nth u X' [])) ->
  total_loss rows reg X' Y <= total_loss rows reg X Y.
Proof.
  intros L MX M. rewrite !total_loss_users, L. apply Rplus_le_compat_r. apply rsum_le. intros u Hu. apply in_seq in Hu.
  apply (M u ltac:(lia)). apply mat_row; auto. lia.
Qed.

(* ------------------------------------------------------------------ exact solvers *)
(** What an exact half step guarantees. *)
Definition exact_step (n : nat) (reg : R) (m : csr R) (Y X' : list (list R)) : Prop :=
  length X' = c_rows m /\ mat_ok n X' /\
  forall u, (u < c_rows m)%nat ->
    (forall w, length w = n -> wform Y (csr_row m u) (nth u X' []) w + reg * rdot (nth u X' []) w = wlin Y (csr_row m u) w).
Lemma nth_mat_ok n (X : list (list R)) : (forall u, (u < length X)%nat -> length (nth u X []) = n) -> mat_ok n X.
Proof. intros F y Hy. destruct (In_nth _ _ [] Hy) as [u [B <-]]. auto. Qed.

Lemma exact_step_min n reg m Y X' u : exact_step n reg m Y X' -> mat_ok n Y -> 0 <= reg -> (u < c_rows m)%nat ->
  minimises n (user_loss Y reg (csr_row m u)) (nth u X' []) /\
  (0 < reg -> forall z, length z = n -> user_loss Y reg (csr_row m u) z <= user_loss Y reg (csr_row m u) (nth u X' []) -> z = nth u X' []).
Proof.
  intros [L [M E]] MY R0 B. apply (normal_minimises Y reg (csr_row m u) n); auto. apply mat_row; auto. lia.
Qed.

Lemma least_squares_c_exact posv n m Y reg X' : posv_ok posv -> canonical m -> mat_ok n Y -> length Y = c_cols m -> 0 <= reg ->
  least_squares_c posv (gram n Y) m (c_rows m) n Y reg = Ok X' -> exact_step n reg m Y X'.
Proof.
  intros PO C MY LY R0 E. unfold least_squares_c in E. apply (proj1 (map_res_nth _ _ _ 0%nat [])) in E. rewrite seq_length in E. destruct E as [L E].
  assert (G : forall u, (u < c_rows m)%nat -> length (nth u X' []) = n /\
     forall w, length w = n -> wform Y (csr_row m u) (nth u X' []) w + reg * rdot (nth u X' []) w = wlin Y (csr_row m u) w).
  { intros u B. specialize (E u B). rewrite seq_nth in E by auto. simpl plus in E. rewrite raw_entries_ok in E by (auto; apply C). cbn [bind] in E.
    apply (ls_row_min posv n Y reg (csr_row m u)) in E; auto. rewrite LY. apply canonical_row; auto. }
  split; auto. split; [apply nth_mat_ok; rewrite L; intros; apply G; auto|]. intros u B. apply G; auto.
Qed.
Lemma least_squares_c_total posv n m Y reg : posv_ok posv -> canonical m -> mat_ok n Y -> length Y = c_cols m -> 0 < reg ->
  exists X', least_squares_c posv (gram n Y) m (c_rows m) n Y reg = Ok X'.
Proof.
  intros PO C MY LY R0. unfold least_squares_c.
  assert (G : forall us, (forall u, In u us -> (u < c_rows m)%nat) -> exists X', map_res (fun u => do row <- raw_entries m u; ls_row posv (add_diag reg (gram n Y)) n Y row) us = Ok X').
  { induction us as [|u us IH]; intros B; [eexists; reflexivity|]. cbn [map_res]. rewrite raw_entries_ok by (try apply C; apply B; left; auto). cbn [bind].
    destruct (ls_row_total posv n Y reg (csr_row m u)) as [x ->]; auto. { rewrite LY. apply canonical_row; auto. apply B; left; auto. }
    cbn [bind]. destruct IH as [X' ->]; [intros; apply B; right; auto|]. cbn [bind]. eauto. }
  apply G. intros u Hu. apply in_seq in Hu. lia.
Qed.
Lemma least_squares_py_exact solve n m X Y reg X' : solve_ok solve -> canonical m -> mat_ok n Y -> length X = c_rows m -> length Y = c_cols m ->
  least_squares_py solve n m X Y reg = Ok X' -> exact_step n reg m Y X'.
Proof.
  intros SO C MY LX LY E. unfold least_squares_py in E. rewrite LX in E. apply (proj1 (map_res_nth _ _ _ 0%nat [])) in E. rewrite seq_length in E. destruct E as [L E].
  assert (G : forall u, (u < c_rows m)%nat -> length (nth u X' []) = n /\
     forall w, length w = n -> wform Y (csr_row m u) (nth u X' []) w + reg * rdot (nth u X' []) w = wlin Y (csr_row m u) w).
  { intros u B. specialize (E u B). rewrite seq_nth in E by auto. simpl plus in E. rewrite np_entries_ok in E by (auto; apply C). cbn [bind] in E.
    assert (RO : row_ok (length Y) (csr_row m u)) by (rewrite LY; apply canonical_row; auto).
    rewrite py_system in E by (auto; apply RO). destruct (system_form n Y reg (csr_row m u) MY RO) as [A [b [ES [SA [Lb [FA FB]]]]]].
    rewrite ES in E. cbn [bind] in E. destruct (solve A b) as [x|] eqn:EP; [|discriminate]. inversion E as [Ex].
    destruct (SO n A b x SA Lb EP) as [Lx [Ex2 _]]. rewrite Ex in *. split; auto. intros w Lw. rewrite <- FA, <- FB by auto. congruence. }
  split; auto. split; [apply nth_mat_ok; rewrite L; intros; apply G; auto|]. intros u B. apply G; auto.
Qed.

(** Both exact solvers. *)
Definition exact_solver (n : nat) (solver : csr R -> list (list R) -> list (list R) -> R -> res (list (list R))) : Prop :=
  forall m X Y reg X', canonical m -> mat_ok n Y -> length X = c_rows m -> length Y = c_cols m -> 0 <= reg ->
    solver m X Y reg = Ok X' -> exact_step n reg m Y X'.
Lemma als_solver_exact posv solve eps n o : posv_ok posv -> solve_ok solve -> use_cg o = false -> exact_solver n (als_solver posv solve eps n o).
Proof.
  intros PO SO CG m X Y reg X' C MY LX LY R0 E. unfold als_solver in E. rewrite CG in E. destruct (use_native o).
  - unfold least_squares in E. rewrite LX in E. eapply least_squares_c_exact; eauto.
  - eapply least_squares_py_exact; eauto.
Qed.

Lemma als_step_le n solver reg m X Y X' Y' : exact_solver n solver -> canonical m -> mat_ok n X -> mat_ok n Y ->
  length X = c_rows m -> length Y = c_cols m -> 0 <= reg ->
  solver m X Y reg = Ok X' -> solver (transpose m) Y X' reg = Ok Y' ->
  total_loss (csr_row m) reg X' Y <= total_loss (csr_row m) reg X Y /\
  total_loss (csr_row m) reg X' Y' <= total_loss (csr_row m) reg X' Y /\
  mat_ok n X' /\ mat_ok n Y' /\ length X' = c_rows m /\ length Y' = c_cols m.
Proof.
  intros ES C MX MY LX LY R0 E1 E2.
  assert (S1 := ES m X Y reg X' C MY LX LY R0 E1). assert (L1 := proj1 S1). assert (M1 := proj1 (proj2 S1)).
  assert (CT := transpose_canonical m C).
  assert (S2 : exact_step n reg (transpose m) X' Y').
  { apply (ES (transpose m) Y X' reg Y' CT M1); auto. rewrite transpose_rows; auto. }
  assert (L2 := proj1 S2). rewrite transpose_rows in L2. assert (M2 := proj1 (proj2 S2)).
  split; [|split; [|auto]].
  - apply (half_step_le _ _ _ _ _ n); auto; [congruence|]. intros u B. apply (exact_step_min n reg m Y X' u); auto. lia.
  - rewrite (total_loss_transpose m reg X' Y'), (total_loss_transpose m reg X' Y) by auto.
    apply (half_step_le _ _ _ _ _ n); auto; [congruence|]. intros j B. apply (exact_step_min n reg (transpose m) X' Y' j); auto. rewrite transpose_rows. lia.
Qed.

Lemma als_iterate_S solver reg (m mt : csr R) k X Y : als_iterate solver reg m mt (S k) X Y =
  do '(Xk, Yk) <- als_iterate solver reg m mt k X Y;
  do X' <- solver m Xk Yk reg; do Y' <- solver mt Yk X' reg; Ok (X', Y').
Proof.
  revert X Y. induction k as [|k IH]; intros X Y.
  - cbn [als_iterate bind]. auto.
  - change (als_iterate solver reg m mt (S (S k)) X Y) with
      (do X' <- solver m X Y reg; do Y' <- solver mt Y X' reg; als_iterate solver reg m mt (S k) X' Y').
    change (als_iterate solver reg m mt (S k) X Y) with
      (do X' <- solver m X Y reg; do Y' <- solver mt Y X' reg; als_iterate solver reg m mt k X' Y').
    destruct (solver m X Y reg) as [X'|]; cbn [bind]; auto. destruct (solver mt Y X' reg) as [Y'|]; cbn [bind]; auto.
Qed.
Lemma als_iterate_shape n solver reg m k X Y Xk Yk : exact_solver n solver -> canonical m -> mat_ok n X -> mat_ok n Y ->
  length X = c_rows m -> length Y = c_cols m -> 0 <= reg ->
  als_iterate solver reg m (transpose m) k X Y = Ok (Xk, Yk) ->
  mat_ok n Xk /\ mat_ok n Yk /\ length Xk = c_rows m /\ length Yk = c_cols m.
Proof.
  intros ES C MX MY LX LY R0. revert X Y MX MY LX LY. induction k as [|k IH]; intros X Y MX MY LX LY E.
  - inversion E; subst. auto.
  - cbn [als_iterate] in E. destruct (solver m X Y reg) as [X'|] eqn:E1; cbn [bind] in E; [|discriminate].
    destruct (solver (transpose m) Y X' reg) as [Y'|] eqn:E2; cbn [bind] in E; [|discriminate].
    destruct (als_step_le n solver reg m X Y X' Y' ES C MX MY LX LY R0 E1 E2) as [_ [_ [M1 [M2 [L1 L2]]]]]. apply (IH X' Y'); auto.
Qed.
