(** The conjugate gradient solver: invariants of the loop, descent. *)
From Coq Require Import List Arith Lia Bool Reals Lra Permutation.
From Verif Require Import Base Num Sparse TopkModel TopkBatch RecommendModel RVec SimilarBatch AlsModel AlsSpec AlsProofs AlsProofs2 AlsConc.
Import ListNotations.
Local Open Scope R_scope.

(** The bilinear form of the system. *)
Definition aform (Y : list (list R)) (reg : R) (row : list (nat * R)) (x z : list R) : R := wform Y row x z + reg * rdot x z.

Lemma c_div_ok (a b : R) : b <> 0 -> c_div a b = Ok (a / b).
Proof. intros N. unfold c_div, neqb. simpl. unfold Rltb. destruct (Rlt_dec b 0); auto. destruct (Rlt_dec 0 b); auto. exfalso. lra. Qed.

Section Row.
Variables (n : nat) (Y : list (list R)) (reg : R) (row : list (nat * R)).
Hypothesis MY : mat_ok n Y.
Hypothesis RO : row_ok (length Y) row.

Lemma entry_fold (t : nat * R -> list R -> R) row0 : (forall p, In p row0 -> (fst p < length Y)%nat) -> forall r, length r = n ->
  exists r', fold_res (fun r e => do y <- raw_row Y (fst e); Ok (axpy (t e y) y r)) row0 r = Ok r' /\ length r' = n /\
  forall z, rdot r' z = rdot r z + rsum (map (fun e => t e (nth (fst e) Y []) * rdot (nth (fst e) Y []) z) row0).
Proof.
  induction row0 as [|e row0 IH]; intros B r Lr.
  - exists r. split; auto. split; auto. intros z. simpl. lra.
  - assert (Be : (fst e < length Y)%nat) by (apply B; left; auto). cbn [fold_res]. rewrite raw_row_ok by auto. cbn [bind].
    destruct (IH (fun p Hp => B p (or_intror Hp)) (axpy (t e (nth (fst e) Y [])) (nth (fst e) Y []) r)) as [r' [E [L D]]]; [rewrite axpy_length; auto|].
    exists r'. split; auto. split; auto. intros z. rewrite D, rdot_axpy by (rewrite Lr; apply mat_row; auto). simpl. lra.
Qed.

Lemma symvm1 (A : list (list R)) x z : rdot (symv (nopp none_) A x) z = - rdot (mv A x) z.
Proof.
  unfold symv, mv. revert z. induction A as [|r A IH]; intros z; simpl; [lra|]. destruct z as [|z0 z]; [lra|]. rewrite IH, ndot_rdot. lra.
Qed.
Lemma symv_one (A : list (list R)) x : symv none_ A x = mv A x.
Proof. unfold symv, mv. apply map_ext. intros r. rewrite ndot_rdot. simpl. lra. Qed.
Lemma symv_length (a : R) (A : list (list R)) x : length (symv a A x) = length A.
Proof. apply map_length. Qed.

(** r.z = b.z - a(x, z) *)
Lemma residual_form x : length x = n -> exists r, residual (add_diag reg (gram n Y)) Y row x = Ok r /\ length r = n /\
  forall z, length z = n -> rdot r z = wlin Y row z - aform Y reg row x z.
Proof.
  intros Lx. unfold residual.
  destruct (entry_fold (fun e y => nsub (if nltb nzero (snd e) then snd e else nzero) (nmul (nsub (conf_abs (snd e)) none_) (ndot y x))) row (proj2 RO)
              (symv (nopp none_) (add_diag reg (gram n Y)) x)) as [r [E [L D]]].
  { rewrite symv_length. apply (diag_shape reg n (gram n Y)). apply gram_shape. }
  exists r. split; auto. split; auto. intros z Lz. rewrite D, symvm1, initial_form by auto. unfold aform. rewrite wform_sum, wlin_sum by auto.
  replace (rsum (map _ row)) with (rsum (map (fun p => pos (snd p) * rdot (nth (fst p) Y []) z) row) -
     rsum (map (fun p => (Rabs (snd p) - 1) * (rdot (nth (fst p) Y []) x * rdot (nth (fst p) Y []) z)) row)).
  2:{ rewrite <- rsum_map_sub. apply rsum_map_ext. intros p _. rewrite conf_abs_R, ndot_rdot. simpl. unfold pos, Rltb. destruct (Rlt_dec 0 (snd p)); lra. }
  lra.
Qed.
Lemma apply_A_form p : length p = n -> exists Ap, apply_A (add_diag reg (gram n Y)) Y row p = Ok Ap /\ length Ap = n /\
  forall z, length z = n -> rdot Ap z = aform Y reg row p z.
Proof.
  intros Lp. unfold apply_A.
  destruct (entry_fold (fun e y => nmul (nsub (if nltb (snd e) nzero then nmul (nopp none_) (snd e) else snd e) none_) (ndot y p)) row (proj2 RO)
              (symv none_ (add_diag reg (gram n Y)) p)) as [r [E [L D]]].
  { rewrite symv_length. apply (diag_shape reg n (gram n Y)). apply gram_shape. }
  exists r. split; auto. split; auto. intros z Lz. rewrite D, symv_one, initial_form by auto. unfold aform. rewrite wform_sum by auto.
  replace (rsum (map _ row)) with
     (rsum (map (fun e => (Rabs (snd e) - 1) * (rdot (nth (fst e) Y []) p * rdot (nth (fst e) Y []) z)) row)).
  2:{ apply rsum_map_ext. intros e _. rewrite ndot_rdot. simpl. unfold Rltb. destruct (Rlt_dec (snd e) 0) as [N|N]; [rewrite Rabs_left by lra|rewrite Rabs_right by lra]; lra. }
  lra.
Qed.

Lemma residual_py_eq x : residual_py (add_diag reg (gram n Y)) Y row x = residual (add_diag reg (gram n Y)) Y row x.
Proof.
  unfold residual_py, residual. generalize (symv (nopp none_) (add_diag reg (gram n Y)) x). destruct RO as [_ B]. clear MY RO. revert B.
  induction row as [|e row0 IH]; intros B r; auto. cbn [fold_res].
  assert (Be : (fst e < length Y)%nat) by (apply B; left; auto). rewrite np_row_ok, raw_row_ok by auto. cbn [bind]. cbv zeta.
  rewrite IH by (intros; apply B; right; auto). f_equal. f_equal. simpl. unfold conf_abs. simpl. unfold Rltb. destruct (Rlt_dec 0 (snd e)); lra.
Qed.

Hypothesis R0 : 0 <= reg.
Lemma aform_nonneg x : 0 <= aform Y reg row x x.
Proof. unfold aform. pose proof (wform_nonneg Y row x). pose proof (rdot_nonneg x). nra. Qed.
Lemma wform_axpy_l a p x z : length p = length x -> wform Y row (axpy a p x) z = wform Y row x z + a * wform Y row p z.
Proof.
  intros L. unfold wform. rewrite <- rsum_map_scale, <- rsum_map_add. apply rsum_map_ext. intros i _. rewrite rdot_axpy_r by auto. lra.
Qed.
Lemma aform_axpy_l a p x z : length p = length x -> aform Y reg row (axpy a p x) z = aform Y reg row x z + a * aform Y reg row p z.
Proof. intros L. unfold aform. rewrite wform_axpy_l, rdot_axpy by auto. lra. Qed.
Lemma aform_sym x z : aform Y reg row x z = aform Y reg row z x.
Proof. unfold aform. rewrite wform_sym, rdot_comm. auto. Qed.
Lemma wlin_axpy a p x : length p = length x -> wlin Y row (axpy a p x) = wlin Y row x + a * wlin Y row p.
Proof. intros L. unfold wlin. rewrite <- rsum_map_scale, <- rsum_map_add. apply rsum_map_ext. intros i _. rewrite rdot_axpy_r by auto. lra. Qed.

Lemma user_loss_form x : user_loss Y reg row x = psq Y row - 2 * wlin Y row x + aform Y reg row x x.
Proof. unfold user_loss, aform. rewrite row_error_form. lra. Qed.
Lemma user_loss_axpy a p x : length p = length x ->
  user_loss Y reg row (axpy a p x) = user_loss Y reg row x - 2 * a * (wlin Y row p - aform Y reg row x p) + a * a * aform Y reg row p p.
Proof.
  intros L. rewrite !user_loss_form, wlin_axpy by auto. rewrite aform_axpy_l by auto.
  rewrite (aform_sym x (axpy a p x)), (aform_sym p (axpy a p x)), !aform_axpy_l by auto. rewrite (aform_sym p x). lra.
Qed.

(** A direction of zero curvature is orthogonal to the right hand side and to every A x. *)
Lemma rsum_zero_terms {A} (f : A -> R) l : (forall a, In a l -> 0 <= f a) -> rsum (map f l) = 0 -> forall a, In a l -> f a = 0.
Proof.
  induction l as [|b l IH]; intros N E a Ha; [destruct Ha|]. simpl in E.
  assert (0 <= f b) by (apply N; left; auto).
  assert (0 <= rsum (map f l)) by (apply rsum_nonneg; intros v Hv; apply in_map_iff in Hv; destruct Hv as [c [<- Hc]]; apply N; right; auto).
  destruct Ha as [<-|Ha]; [lra|]. apply IH; auto; [intros; apply N; right; auto|lra].
Qed.
Lemma flat_direction p x : length p = n -> length x = n -> aform Y reg row p p = 0 -> wlin Y row p - aform Y reg row x p = 0.
Proof.
  intros Lp Lx E. unfold aform in E. pose proof (wform_nonneg Y row p) as W0. pose proof (rdot_nonneg p) as P0.
  assert (Wz : wform Y row p p = 0) by nra. assert (Rz : reg * rdot p p = 0) by nra.
  assert (T : forall i, In i (seq 0 (length Y)) -> confidence row i * (rdot (nth i Y []) p * rdot (nth i Y []) p) = 0).
  { apply rsum_zero_terms; auto. intros i _. pose proof (confidence_nonneg row i). apply Rmult_le_pos; auto. nra. }
  assert (T' : forall i, In i (seq 0 (length Y)) -> confidence row i * rdot (nth i Y []) p = 0).
  { intros i Hi. specialize (T i Hi). rewrite <- Rmult_assoc in T. apply Rmult_integral in T. destruct T as [T|T]; auto. rewrite T. lra. }
  unfold aform, wlin. rewrite wform_sym. unfold wform.
  rewrite (rsum_map_ext _ (fun _ => 0) (seq 0 (length Y))).
  2:{ intros i Hi. replace (confidence row i * preference row i * rdot (nth i Y []) p) with (preference row i * (confidence row i * rdot (nth i Y []) p)) by ring. rewrite T' by auto. lra. }
  rewrite (rsum_map_ext (fun i => confidence row i * (rdot (nth i Y []) p * rdot (nth i Y []) x)) (fun _ => 0) (seq 0 (length Y))).
  2:{ intros i Hi. rewrite <- Rmult_assoc, T' by auto. lra. }
  rewrite !rsum_map_const. rewrite rdot_comm.
  assert (RX : reg * rdot p x = 0).
  { destruct (Req_dec reg 0) as [->|N]; [lra|]. assert (rdot p p = 0) by nra. rewrite rdot_all_zero; [lra|]. apply rdot_zero; auto. }
  lra.
Qed.

Variable eps : R.
Hypothesis E0 : 0 < eps.
Definition cg_inv (x r p : list R) (rs : R) : Prop :=
  length x = n /\ length r = n /\ length p = n /\ (forall z, length z = n -> rdot r z = wlin Y row z - aform Y reg row x z) /\
  rdot r r = rs /\ rdot p r = rs /\ 0 < rs.

(** One step of the loop. *)
Lemma curvature_pos x r p rs : cg_inv x r p rs -> 0 < aform Y reg row p p.
Proof.
  intros [Lx [Lr [Lp [F [Err [Epr P]]]]]]. destruct (aform_nonneg p) as [|Z]; auto. exfalso.
  symmetry in Z. pose proof (flat_direction p x Lp Lx Z) as FD. rewrite <- (F p Lp), rdot_comm, Epr in FD. lra.
Qed.

Lemma scal_rdot b x z : rdot (scal b x) z = b * rdot x z.
Proof. unfold scal. revert z. induction x as [|a x IH]; intros z; simpl; [lra|]. destruct z; [lra|]. rewrite IH. lra. Qed.

Lemma cg_loop_descends k : forall x r p rs, cg_inv x r p rs ->
  exists x', cg_loop eps k (add_diag reg (gram n Y)) Y row x r p rs = Ok x' /\ length x' = n /\
    user_loss Y reg row x' <= user_loss Y reg row x /\ ((0 < k)%nat -> user_loss Y reg row x' < user_loss Y reg row x).
Proof.
  induction k as [|k IH]; intros x r p rs INV; pose proof (curvature_pos x r p rs INV) as K; destruct INV as [Lx [Lr [Lp [F [Err [Epr P]]]]]].
  - exists x. split; auto. split; auto. split; [lra|lia].
  - cbn [cg_loop]. destruct (apply_A_form p Lp) as [Ap [EA [LA FA]]]. rewrite EA. cbn [bind]. rewrite ndot_rdot.
    assert (Ec : rdot p Ap = aform Y reg row p p) by (rewrite rdot_comm; apply FA; auto). rewrite Ec. set (c := aform Y reg row p p) in *.
    rewrite c_div_ok by lra. cbn [bind]. cbv zeta. set (a := rs / c). assert (Ea : a = rs / c) by reflexivity.
    set (x' := axpy a p x). set (r' := axpy (nmul a (nopp none_)) Ap r).
    assert (Lx' : length x' = n) by (unfold x'; rewrite axpy_length; auto). assert (Lr' : length r' = n) by (unfold r'; rewrite axpy_length; auto).
    assert (DEC : user_loss Y reg row x' < user_loss Y reg row x).
    { unfold x'. rewrite user_loss_axpy by congruence. rewrite <- (F p Lp), rdot_comm, Epr. fold c.
      assert (Hc : 0 < rs * rs / c) by (unfold Rdiv; apply Rmult_lt_0_compat; [nra|apply Rinv_0_lt_compat; auto]).
      replace (user_loss Y reg row x - 2 * a * rs + a * a * c) with (user_loss Y reg row x - rs * rs / c) by (rewrite Ea; field; lra). lra. }
    assert (F' : forall z, length z = n -> rdot r' z = wlin Y row z - aform Y reg row x' z).
    { intros z Lz. unfold r', x'. rewrite rdot_axpy by congruence. rewrite aform_axpy_l by congruence. rewrite F, FA by auto. simpl. lra. }
    assert (ORT : rdot p r' = 0).
    { rewrite rdot_comm. unfold r'. rewrite rdot_axpy by congruence. rewrite (rdot_comm r p), Epr. rewrite FA by auto. fold c. simpl. rewrite Ea. field. lra. }
    rewrite !ndot_rdot. destruct (nltb (rdot r' r') eps) eqn:El.
    + exists x'. split; auto. split; auto. split; [lra|auto].
    + assert (P' : 0 < rdot r' r') by (simpl in El; unfold Rltb in El; destruct (Rlt_dec (rdot r' r') eps); [discriminate|lra]).
      rewrite c_div_ok by lra. cbn [bind]. set (b := rdot r' r' / rs). set (p' := axpy none_ r' (scal b p)).
      assert (Lsp : length (scal b p) = n) by (unfold scal; rewrite map_length; auto).
      assert (INV' : cg_inv x' r' p' (rdot r' r')).
      { split; auto. split; auto. split; [unfold p'; rewrite axpy_length; auto|]. split; auto. split; auto. split; auto.
        unfold p'. rewrite rdot_axpy by congruence. rewrite scal_rdot, ORT. simpl. lra. }
      destruct (IH x' r' p' (rdot r' r') INV') as [x'' [E'' [L'' [D'' _]]]]. exists x''. split; auto. split; auto. split; [lra|intros; lra].
Qed.

(** From the start: the loss never increases; it decreases unless the residual is
    already below the threshold or no step is made. *)
Lemma cg_start_descends k x : length x = n ->
  exists r, residual (add_diag reg (gram n Y)) Y row x = Ok r /\ (forall z, length z = n -> rdot r z = wlin Y row z - aform Y reg row x z) /\
  exists x', (if nltb (ndot r r) eps then Ok x else cg_loop eps k (add_diag reg (gram n Y)) Y row x r r (ndot r r)) = Ok x' /\ length x' = n /\
    user_loss Y reg row x' <= user_loss Y reg row x /\ ((0 < k)%nat -> eps <= rdot r r -> user_loss Y reg row x' < user_loss Y reg row x).
Proof.
  intros Lx. destruct (residual_form x Lx) as [r [E [Lr F]]]. exists r. split; auto. split; auto. rewrite ndot_rdot.
  destruct (nltb (rdot r r) eps) eqn:El.
  - exists x. split; auto. split; auto. split; [lra|]. intros _ X. simpl in El. unfold Rltb in El. destruct (Rlt_dec (rdot r r) eps); [lra|discriminate].
  - assert (P : 0 < rdot r r) by (simpl in El; unfold Rltb in El; destruct (Rlt_dec (rdot r r) eps); [discriminate|lra]).
    assert (INV : cg_inv x r r (rdot r r)) by (split; [auto|split; [auto|split; [auto|split; auto]]]).
    destruct (cg_loop_descends k x r r (rdot r r) INV) as [x' [E' [L' [D S']]]]. exists x'. split; auto.
Qed.
Lemma cg_row_py_descends k x : length x = n ->
  exists x', cg_row_py eps k (add_diag reg (gram n Y)) Y row x = Ok x' /\ length x' = n /\ user_loss Y reg row x' <= user_loss Y reg row x.
Proof.
  intros Lx. unfold cg_row_py. rewrite residual_py_eq. destruct (cg_start_descends k x Lx) as [r [E [_ [x' [E' [L' [D _]]]]]]]. rewrite E. cbn [bind]. cbv zeta. exists x'. split; [exact E'|auto].
Qed.
Lemma cg_row_descends k x : length x = n ->
  exists x', cg_row eps k (add_diag reg (gram n Y)) n Y row x = Ok x' /\ length x' = n /\ user_loss Y reg row x' <= user_loss Y reg row x.
Proof.
  intros Lx. unfold cg_row. destruct row as [|e row'] eqn:Er.
  - exists (zeros n). split; auto. split; [apply repeat_length|]. rewrite <- Er. rewrite !user_loss_form. pose proof (aform_nonneg x) as N. rewrite Er in N.
    rewrite Er. assert (Z1 : wlin Y [] (zeros n) = 0) by (unfold wlin; apply rsum_zero; intros v Hv; apply in_map_iff in Hv; destruct Hv as [i [<- _]]; unfold zeros; simpl nzero; rewrite rdot_repeat0_r; lra).
    assert (Z2 : aform Y reg [] (zeros n) (zeros n) = 0).
    { unfold aform, wform, zeros. simpl nzero. rewrite rdot_repeat0. rewrite rsum_zero; [lra|]. intros v Hv; apply in_map_iff in Hv; destruct Hv as [i [<- _]]. rewrite rdot_repeat0_r; lra. }
    assert (Z3 : wlin Y [] x = 0).
    { unfold wlin. apply rsum_zero. intros v Hv; apply in_map_iff in Hv; destruct Hv as [i [<- _]]. unfold preference, entry. simpl. lra. }
    lra.
  - rewrite <- Er in *. destruct (cg_start_descends k x Lx) as [r [E [_ [x' [E' [L' [D _]]]]]]]. rewrite E. cbn [bind]. cbv zeta. exists x'. split; [exact E'|auto].
Qed.
End Row.

(* ------------------------------------------------------------------ half steps and training *)
Definition descent_step (n : nat) (reg : R) (m : csr R) (X Y X' : list (list R)) : Prop :=
  length X' = c_rows m /\ mat_ok n X' /\
  forall u, (u < c_rows m)%nat -> user_loss Y reg (csr_row m u) (nth u X' []) <= user_loss Y reg (csr_row m u) (nth u X []).
Lemma descent_total n reg m X Y X' : descent_step n reg m X Y X' -> length X = c_rows m ->
  total_loss (csr_row m) reg X' Y <= total_loss (csr_row m) reg X Y.
Proof.
  intros [L [M D]] LX. rewrite !total_loss_users, L, LX. apply Rplus_le_compat_r. apply rsum_le. intros u Hu. apply in_seq in Hu. apply D. lia.
Qed.

Definition descent_solver (n : nat) (solver : csr R -> list (list R) -> list (list R) -> R -> res (list (list R))) : Prop :=
  forall m X Y reg, canonical m -> mat_ok n X -> mat_ok n Y -> length X = c_rows m -> length Y = c_cols m -> 0 <= reg ->
    exists X', solver m X Y reg = Ok X' /\ descent_step n reg m X Y X'.

Lemma rowwise (n : nat) (f : nat * list R -> res (list R)) (loss : nat -> list R -> R) (X : list (list R)) :
  (forall u, (u < length X)%nat -> exists x', f (u, nth u X []) = Ok x' /\ length x' = n /\ loss u x' <= loss u (nth u X [])) ->
  exists X', map_res f (enum X) = Ok X' /\ length X' = length X /\ mat_ok n X' /\ forall u, (u < length X)%nat -> loss u (nth u X' []) <= loss u (nth u X []).
Proof.
  intros F.
  assert (G : exists X', map_res f (enum X) = Ok X').
  { assert (K : forall l, (forall ux, In ux l -> exists x', f ux = Ok x') -> exists X', map_res f l = Ok X').
    { induction l as [|ux l IH]; intros Hl; [eexists; reflexivity|]. cbn [map_res]. destruct (Hl ux (or_introl eq_refl)) as [x' ->]. cbn [bind].
      destruct IH as [X' ->]; [intros; apply Hl; right; auto|]. cbn [bind]. eauto. }
    apply K. intros ux Hux. destruct (In_nth _ _ (0%nat, []) Hux) as [u [B <-]]. unfold enum in *. rewrite Base.enum_from_length in B. rewrite nth_enum_from by auto.
    simpl. destruct (F u B) as [x' [E _]]. eauto. }
  destruct G as [X' E]. exists X'. split; auto. apply (proj1 (map_res_nth _ _ _ (0%nat, []) [])) in E. unfold enum in E. rewrite Base.enum_from_length in E. destruct E as [L E].
  assert (K : forall u, (u < length X)%nat -> length (nth u X' []) = n /\ loss u (nth u X' []) <= loss u (nth u X [])).
  { intros u B. specialize (E u B). rewrite nth_enum_from in E by auto. simpl in E. destruct (F u B) as [x' [E' [L' D]]]. rewrite E' in E. inversion E as [Ex]. rewrite <- Ex. auto. }
  split; auto. split; [apply nth_mat_ok; rewrite L; intros; apply K; auto|]. intros u B. apply K; auto.
Qed.

Lemma cg_solver_descends posv solve eps n o : 0 < eps -> use_cg o = true -> descent_solver n (als_solver posv solve eps n o).
Proof.
  intros E0 CG m X Y reg C MX MY LX LY R0. unfold als_solver. rewrite CG.
  assert (RO : forall u, (u < c_rows m)%nat -> row_ok (length Y) (csr_row m u)) by (intros u B; rewrite LY; apply canonical_row; auto).
  destruct (use_native o); [unfold least_squares_cg|unfold least_squares_cg_py].
  - destruct (rowwise n (fun ux => do row <- raw_entries m (fst ux); cg_row eps (o_cg_steps o) (add_diag reg (gram n Y)) n Y row (snd ux))
      (fun u => user_loss Y reg (csr_row m u)) X) as [X' [E [L [M D]]]].
    + intros u B. cbn [fst snd]. rewrite raw_entries_ok by (try apply C; lia). cbn [bind]. apply cg_row_descends; auto; [apply RO; lia|apply mat_row; auto].
    + exists X'. split; auto. split; [congruence|]. split; auto. intros u B. apply D. lia.
  - destruct (rowwise n (fun ux => do row <- np_entries m (fst ux); cg_row_py eps (o_cg_steps o) (add_diag reg (gram n Y)) Y row (snd ux))
      (fun u => user_loss Y reg (csr_row m u)) X) as [X' [E [L [M D]]]].
    + intros u B. cbn [fst snd]. rewrite np_entries_ok by (try apply C; lia). cbn [bind]. apply cg_row_py_descends; auto; [apply RO; lia|apply mat_row; auto].
    + exists X'. split; auto. split; [congruence|]. split; auto. intros u B. apply D. lia.
Qed.

Lemma descent_iteration n solver reg m X Y : descent_solver n solver -> canonical m -> mat_ok n X -> mat_ok n Y ->
  length X = c_rows m -> length Y = c_cols m -> 0 <= reg ->
  exists X' Y', solver m X Y reg = Ok X' /\ solver (transpose m) Y X' reg = Ok Y' /\
    total_loss (csr_row m) reg X' Y <= total_loss (csr_row m) reg X Y /\
    total_loss (csr_row m) reg X' Y' <= total_loss (csr_row m) reg X' Y /\
    mat_ok n X' /\ mat_ok n Y' /\ length X' = c_rows m /\ length Y' = c_cols m.
Proof.
  intros DS C MX MY LX LY R0. destruct (DS m X Y reg C MX MY LX LY R0) as [X' [E1 D1]]. assert (L1 := proj1 D1). assert (M1 := proj1 (proj2 D1)).
  destruct (DS (transpose m) Y X' reg) as [Y' [E2 D2]]; auto.
  { apply transpose_canonical; auto. } { rewrite transpose_rows; auto. }
  assert (L2 := proj1 D2). rewrite transpose_rows in L2. assert (M2 := proj1 (proj2 D2)).
  exists X', Y'. split; auto. split; auto. split; [apply (descent_total n); auto|]. split; [|auto].
  rewrite (total_loss_transpose m reg X' Y'), (total_loss_transpose m reg X' Y) by auto. apply (descent_total n); auto. rewrite transpose_rows. auto.
Qed.
Lemma descent_total_run n solver reg m k : descent_solver n solver -> canonical m -> 0 <= reg -> forall X Y, mat_ok n X -> mat_ok n Y ->
  length X = c_rows m -> length Y = c_cols m ->
  exists Xk Yk, als_iterate solver reg m (transpose m) k X Y = Ok (Xk, Yk) /\ mat_ok n Xk /\ mat_ok n Yk /\ length Xk = c_rows m /\ length Yk = c_cols m.
Proof.
  intros DS C R0. induction k as [|k IH]; intros X Y MX MY LX LY; [exists X, Y; auto|].
  destruct (descent_iteration n solver reg m X Y DS C MX MY LX LY R0) as [X' [Y' [E1 [E2 [_ [_ [M1 [M2 [L1 L2]]]]]]]]].
  cbn [als_iterate]. rewrite E1. cbn [bind]. rewrite E2. cbn [bind]. apply IH; auto.
Qed.
