(** GPU ALS: grids, half steps, training, the loss and recalculation. *)
From Coq Require Import List Arith Lia Bool ZArith Reals Lra Permutation.
From Verif Require Import Base Num Sparse TopkModel TopkBatch RecommendModel RVec SimilarBatch AlsModel AlsSpec AlsProofs AlsProofs2 AlsLoss AlsConc RowConc KnnConc CgProofs CgExact
  PropAls GpuDot GpuDotProofs PropGpuDot GpuKnn GpuKnnProofs2 GpuAls GpuAlsProofs.
Import ListNotations.
Local Open Scope R_scope.

(* ------------------------------------------------------------------ the grid *)
Lemma stride_in G count (HG : (0 < G)%nat) : forall fuel u v, (count <= u + fuel)%nat ->
  (In v (stride fuel u G count) <-> (v < count)%nat /\ exists k, v = (u + k * G)%nat).
Proof.
  induction fuel as [|f IH]; intros u v LE; cbn [stride].
  - split; [intros []|]. intros [B [k ->]]. lia.
  - destruct (Nat.ltb_spec u count) as [L|L].
    + cbn [In]. rewrite IH by lia. split.
      * intros [<-|[B [k ->]]]; [split; auto; exists 0%nat; lia|split; auto; exists (S k); lia].
      * intros [B [[|k] ->]]; [left; lia|right; split; auto; exists k; lia].
    + split; [intros []|]. intros [B [k ->]]. lia.
Qed.
Lemma stride_nodup G count (HG : (0 < G)%nat) : forall fuel u, (count <= u + fuel)%nat -> NoDup (stride fuel u G count).
Proof.
  induction fuel as [|f IH]; intros u LE; cbn [stride]; [constructor|]. destruct (u <? count)%nat; [|constructor].
  constructor; [|apply IH; lia]. intros X. apply stride_in in X; [|auto|lia]. destruct X as [_ [k E]]. lia.
Qed.
Lemma grid_perm G count : (0 < G)%nat -> Permutation (concat (grid G count)) (seq 0 count).
Proof.
  intros HG. unfold grid. rewrite <- flat_map_concat_map.
  apply NoDup_Permutation; [|apply seq_NoDup|].
  - assert (K : forall l, NoDup l -> (forall b, In b l -> (b < G)%nat) -> NoDup (flat_map (fun b => stride count b G count) l)).
    { induction l as [|b l IH]; intros ND B; cbn [flat_map]; [constructor|]. inversion ND; subst.
      assert (IHl := IH H2 (fun c Hc => B c (or_intror Hc))).
      assert (SD : NoDup (stride count b G count)) by (apply stride_nodup; auto; lia).
      assert (DJ : forall v, In v (stride count b G count) -> ~ In v (flat_map (fun b => stride count b G count) l)).
      { intros v Hv X. apply in_flat_map in X. destruct X as [c [Hc Hv']]. apply stride_in in Hv; [|auto|lia]. apply stride_in in Hv'; [|auto|lia].
        destruct Hv as [_ [k E]]. destruct Hv' as [_ [k' E']]. assert (Bb := B b (or_introl eq_refl)). assert (Bc := B c (or_intror Hc)).
        assert (b = c). { assert (M1 : (v mod G = b)%nat) by (rewrite E, Nat.mod_add by lia; apply Nat.mod_small; auto).
          assert (M2 : (v mod G = c)%nat) by (rewrite E', Nat.mod_add by lia; apply Nat.mod_small; auto). congruence. }
        subst c. auto. }
      revert SD DJ. generalize (stride count b G count). induction l0 as [|v l0 IH0]; intros SD DJ; auto. inversion SD; subst. cbn [app]. constructor.
      - intros X. apply in_app_or in X. destruct X as [X|X]; [auto|]. apply (DJ v (or_introl eq_refl) X).
      - apply IH0; auto. intros w Hw. apply DJ. right; auto. }
    apply K; [apply seq_NoDup|]. intros b Hb. apply in_seq in Hb. lia.
  - intros v. rewrite in_flat_map, in_seq. split.
    + intros [b [Hb Hv]]. apply stride_in in Hv; [|auto|lia]. lia.
    + intros B. exists (v mod G)%nat. split; [apply in_seq; pose proof (Nat.mod_upper_bound v G); lia|].
      apply stride_in; [auto|lia|]. split; [lia|]. exists (v / G)%nat. rewrite (Nat.div_mod v G) at 1 by lia. lia.
Qed.

(* ------------------------------------------------------------------ the kernel in any order *)
Lemma kernel_order (f : nat -> list R -> res (list R)) (X X' : list (list R)) order :
  Permutation order (seq 0 (length X)) -> map_res (fun ux => f (fst ux) (snd ux)) (enum X) = Ok X' ->
  fold_res (fun X u => do x <- raw_row X u; do x' <- f u x; Ok (upd u x' X)) order X = Ok X'.
Proof.
  intros P E. apply (proj1 (map_res_nth _ _ _ (0%nat, []) [])) in E. unfold enum in E. rewrite Base.enum_from_length in E. destruct E as [L E].
  assert (F : forall u, (u < length X)%nat -> f u (nth u X []) = Ok (nth u X' [])).
  { intros u B. specialize (E u B). rewrite nth_enum_from in E by auto. exact E. }
  assert (G : forall order Z, NoDup order -> (forall u, In u order -> (u < length X)%nat) -> length Z = length X ->
    (forall u, In u order -> nth u Z [] = nth u X []) ->
    exists Z', fold_res (fun X u => do x <- raw_row X u; do x' <- f u x; Ok (upd u x' X)) order Z = Ok Z' /\ length Z' = length X /\
      (forall u, (u < length X)%nat -> nth u Z' [] = if in_dec Nat.eq_dec u order then nth u X' [] else nth u Z [])).
  { clear order P. induction order as [|u order IH]; intros Z ND B LZ EQ; cbn [fold_res].
    - exists Z. split; auto.
    - inversion ND; subst. assert (Bu := B u (or_introl eq_refl)). rewrite raw_row_ok by lia. cbn [bind]. rewrite (EQ u (or_introl eq_refl)), F by auto. cbn [bind].
      destruct (IH (upd u (nth u X' []) Z)) as [Z' [E' [L' V]]]; auto.
      + intros v Hv. apply B. right; auto.
      + rewrite upd_length; auto.
      + intros v Hv. rewrite nth_upd_neq; [apply EQ; right; auto|]. intros ->. auto.
      + exists Z'. split; auto. split; auto. intros v Bv. rewrite V by auto.
        destruct (in_dec Nat.eq_dec v order) as [I1|I1]; destruct (in_dec Nat.eq_dec v (u :: order)) as [I2|I2]; auto.
        * exfalso. apply I2. right; auto.
        * destruct I2 as [->|I2]; [|contradiction]. apply nth_upd_eq. lia.
        * apply nth_upd_neq. intros ->. apply I2. left; auto. }
  destruct (G order X) as [Z' [E' [L' V]]]; auto.
  - eapply Permutation_NoDup; [apply Permutation_sym; exact P|apply seq_NoDup].
  - intros u Hu. apply (Permutation_in _ P) in Hu. apply in_seq in Hu. lia.
  - rewrite E'. f_equal. apply nth_ext with (d := []) (d' := []); [congruence|]. intros u B. rewrite V by lia.
    destruct (in_dec Nat.eq_dec u order) as [|N]; auto. exfalso. apply N. apply (Permutation_in _ (Permutation_sym P)). apply in_seq. lia.
Qed.

Definition float_size (z : Z) : Prop := (z = 4 \/ z = 2)%Z.
Lemma float_size_b z : float_size z -> ((z =? 4) || (z =? 2))%Z = true.
Proof. intros [->| ->]; reflexivity. Qed.
Lemma launches_le n : (n <= 1024)%nat -> launches n = true.
Proof. intros L. unfold launches. apply Z.leb_le. lia. Qed.
Lemma launches_gt n : (1024 < n)%nat -> launches n = false.
Proof. intros L. unfold launches. apply Z.leb_gt. lia. Qed.

Lemma gpu_solver_eq bdot eps order n size steps m X Y reg X' : dot_ok n bdot -> (n <= 1024)%nat -> float_size size ->
  mat_ok n X -> mat_ok n Y -> (c_rows m <= length X)%nat -> (c_cols m <= length Y)%nat -> Permutation (order (length X)) (seq 0 (length X)) ->
  least_squares_cg eps steps n m X Y reg = Ok X' -> gpu_solver bdot eps order n size steps m X Y reg = Ok X'.
Proof.
  intros DO LN FS MX MY LX LY P E. unfold gpu_solver, gpu_yty, gpu_least_squares. cbn [g_size g_cols g_rows].
  rewrite Nat.eqb_refl. cbn [negb]. rewrite float_size_b by auto. cbn [negb]. rewrite launches_le by auto. cbn [bind].
  replace (length X <? c_rows m)%nat with false by (symmetry; apply Nat.ltb_ge; auto). replace (length Y <? c_cols m)%nat with false by (symmetry; apply Nat.ltb_ge; auto).
  rewrite Z.eqb_refl. cbn [negb]. unfold gpu_kernel.
  rewrite (kernel_order (gpu_user bdot eps steps n m (add_diag reg (gram n Y)) Y) X X' (order (length X)) P); [reflexivity|].
  etransitivity; [|exact E]. unfold least_squares_cg. apply map_res_ext. intros [u x] Hux. cbn [fst snd]. unfold gpu_user. destruct (raw_entries m u) as [row|]; cbn [bind]; auto.
  destruct (normal_symmetric n Y reg MY) as [S1 S2]. apply gpu_cg_row_eq; auto. apply MX. apply in_enum in Hux. eapply nth_error_In; eauto.
Qed.

Lemma gpu_iterate_eq bdot eps order n size steps reg m k : dot_ok n bdot -> (n <= 1024)%nat -> float_size size -> 0 < eps -> 0 <= reg -> canonical m ->
  (forall c, Permutation (order c) (seq 0 c)) ->
  forall X Y, mat_ok n X -> mat_ok n Y -> length X = c_rows m -> length Y = c_cols m ->
  als_iterate (gpu_solver bdot eps order n size steps) reg m (transpose m) k X Y = als_iterate (least_squares_cg eps steps n) reg m (transpose m) k X Y.
Proof.
  intros DO LN FS E0 R0 C P. induction k as [|k IH]; intros X Y MX MY LX LY; cbn [als_iterate]; auto.
  assert (DS : descent_solver n (least_squares_cg eps steps n)) by (apply (cg_solver_descends (fun _ _ => None) (fun _ _ => None) eps n {| use_cg := true; use_native := true; o_cg_steps := steps |}); auto).
  destruct (descent_iteration n _ reg m X Y DS C MX MY LX LY R0) as [X' [Y' [E1 [E2 [_ [_ [M1 [M2 [L1 L2]]]]]]]]].
  rewrite E1. rewrite (gpu_solver_eq bdot eps order n size steps m X Y reg X') by (auto; lia). cbn [bind]. rewrite E2.
  rewrite (gpu_solver_eq bdot eps order n size steps (transpose m) Y X' reg Y'); auto; [|rewrite transpose_rows; lia|simpl; lia]. cbn [bind]. apply IH; auto.
Qed.

(** An entry somewhere means that the arrays are not empty. *)
Lemma upload_ok {T} (m : csr T) u : csr_row m u <> [] -> csr_upload m = Ok m.
Proof.
  intros N. unfold csr_upload. destruct (c_indices m) eqn:E; auto. exfalso. apply N. unfold csr_row. rewrite E.
  unfold slice. rewrite skipn_nil, firstn_nil. reflexivity.
Qed.
Lemma transpose_nonempty m u : canonical m -> (u < c_rows m)%nat -> csr_row m u <> [] -> exists j, csr_row (transpose m) j <> [].
Proof.
  intros C B N. destruct (csr_row m u) as [|[j c] row] eqn:E; [congruence|]. exists j.
  assert (Bj : (j < c_cols m)%nat). { apply (proj2 (canonical_row m u C B) (j, c)). rewrite E. left; auto. }
  intros X. assert (H : In (u, c) (csr_row (transpose m) j)) by (apply transpose_in; auto; rewrite E; split; auto; left; auto). rewrite X in H. destruct H.
Qed.

(* ------------------------------------------------------------------ the block reduction *)
Lemma block_dot_ok undef m : (1 <= m <= 32)%nat -> dot_ok (m * 32) (block_dot undef).
Proof.
  intros HM l L. apply block_sum; [lia|lia|]. intros w Hw. rewrite L, num_warps_mul in Hw. apply warp32. rewrite slice_length; lia.
Qed.
