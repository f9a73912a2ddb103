(** C161: the reported training loss, in the precisions the code uses. *)
From Coq Require Import List Arith Lia Bool ZArith Reals Lra Permutation.
From Coq Require Import Floats.SpecFloat.
From Verif Require Import Base Num Sparse RVec AlsModel AlsSpec AlsProofs AlsProofs2 AlsLoss PropAls FloatModel SimilarRound SimilarRoundProofs LossRound LossRoundProofs.
Import ListNotations.
Local Open Scope R_scope.

(** The inner product of the magnitudes. *)
Definition cross (x y : list R) : R := rsum (map (fun p => Rabs (fst p * snd p)) (combine x y)).
(** The sizes of the terms that the loss is put together from. *)
Definition loss_size (rows : nat -> list (nat * R)) (reg : R) (X Y : list (list R)) : R :=
  rsum (map (fun k => let x := nth k X [] in
      rsum (map (fun y => sq (cross y x)) Y) +
      rsum (map (fun p => let P := cross (nth (fst p) Y []) x in Rabs (snd p) * (1 + 2 * P) + (Rabs (snd p) + 1) * sq P) (rows k)))
    (seq 0 (length X))) + Rabs reg * (norms X + norms Y).
Definition stored (m : csr R) : nat := nth (c_rows m) (c_indptr m) 0%nat.
(** Growth of the relative error: in the precision of the factors ([u]) and in that of the accumulators ([v]), with
    [n] factors, [w] entries at most per user and [t] threads. *)
Definition loss_growth (u v : R) (n w t : nat) (m : csr R) : R :=
  (1 + u) ^ (c_cols m + 2 * n + 7 + w) * (1 + v) ^ (stored m + c_rows m + c_cols m + t + 3) - 1.
Definition confidence_growth (u v : R) (t : nat) (m : csr R) : R := (1 + u) * (1 + v) ^ (stored m + t + 3) - 1.
Definition confidence_size (m : csr R) : R :=
  total_confidence (csr_row m) (c_rows m) (c_cols m) + 2 * INR (stored m).

Lemma cross_rdot y x : cross y x = rdot (map Rabs y) (map Rabs x).
Proof. unfold cross. revert x. induction y; destruct x; simpl; auto. rewrite <- IHy, Rabs_mult. auto. Qed.
Lemma cross_pos y x : 0 <= cross y x.
Proof. unfold cross. apply rsum_nonneg. intros z Hz. apply in_map_iff in Hz. destruct Hz as (p & <- & _). apply Rabs_pos. Qed.

Record loss_call_ok (n : nat) (m : csr R) (X Y : list (list R)) (w : nat) : Prop := {
  lc_canonical : canonical m;
  lc_first : nth 0 (c_indptr m) 0%nat = 0%nat;
  lc_X : mat_ok n X;
  lc_Y : mat_ok n Y;
  lc_users : length X = c_rows m;
  lc_items : length Y = c_cols m;
  lc_row : forall k, (k < c_rows m)%nat -> (length (csr_row m k) <= w)%nat;
  lc_pos : forall k p, (k < c_rows m)%nat -> In p (csr_row m k) -> 0 <= snd p
}.

(** The reported loss is the quotient, rounded, of the training loss and the sum of the confidences, each up to a
    rounding error that is small compared with its terms. *)
Theorem C161_rounding_partial : forall rnd rd u v n m X Y reg sum t w,
  (forall x, Rabs (rnd x - x) <= u * Rabs x) -> (forall x, Rabs (rd x - x) <= v * Rabs x) -> 0 <= u -> 0 <= v ->
  loss_call_ok n m X Y w -> @reduction R (Num_rnd rd) t sum ->
  exists L C,
    @calculate_loss_mixed R R (Num_rnd rnd) (Num_rnd rd) (fun x => x) sum (fun k => rd (INR k)) n m X Y reg =
      (if Req_EM_T C 0 then Raise ZeroDivisionError else Ok (rd (L / C))) /\
    Rabs (L - total_loss (csr_row m) reg X Y) <= loss_growth u v n w t m * loss_size (csr_row m) reg X Y /\
    Rabs (C - total_confidence (csr_row m) (c_rows m) (c_cols m)) <= confidence_growth u v t m * confidence_size m.
Proof.
  intros rnd rd u v n m X Y reg sum t w RE RD U0 V0 [CA Z MX MY LX LY LW LP] HR.
  destruct (loss_mixed rnd rd u v RE RD U0 V0 n m X Y reg sum t w CA Z MX MY LX LY HR LW) as (L & C & E & (_ & _ & AL) & (_ & _ & AC)).
  exists L, C. split; [|split].
  - rewrite E. unfold c_div, neqb. cbn. unfold Rltb. destruct (Req_EM_T C 0) as [->|NE].
    + destruct (Rlt_dec 0 0); [lra|reflexivity].
    + destruct (Rlt_dec C 0), (Rlt_dec 0 C); try reflexivity. exfalso. lra.
  - assert (N0 : rsum (map (fun k => neg_sum (csr_row m k)) (seq 0 (c_rows m))) = 0).
    { apply rsum_zero. intros z Hz. apply in_map_iff in Hz. destruct Hz as (k & <- & Hk). apply in_seq in Hk. apply rsum_zero.
      intros z Hz. apply in_map_iff in Hz. destruct Hz as (p & <- & Hp). specialize (LP k p ltac:(lia) Hp). unfold pos. destruct (Rlt_dec 0 (snd p)); rewrite Rabs_right; lra. }
    rewrite N0, Rplus_0_r in AL. unfold loss_growth, stored. rewrite <- LX, <- LY at 1. rewrite LX, LY in AL. rewrite LX, LY.
    eapply Rle_trans; [exact AL|]. right. f_equal.
    unfold loss_size. rewrite LX. f_equal. apply rsum_map_ext. intros k _. cbv zeta. unfold row_maj, abs_sum, emaj, tmaj.
    rewrite (rsum_map_ext (fun y => sq (cross y (nth k X []))) (fun y => rdot (map Rabs y) (map Rabs (nth k X [])) * rdot (map Rabs y) (map Rabs (nth k X []))))
      by (intros y _; unfold sq; rewrite cross_rdot; auto).
    rewrite <- Rplus_assoc, (Rplus_comm (rsum (map (fun p => Rabs (snd p)) _))), Rplus_assoc. f_equal. rewrite <- rsum_map_add. apply rsum_map_ext.
    intros p _. unfold sq. rewrite cross_rdot. lra.
  - unfold confidence_growth, stored. eapply Rle_trans; [exact AC|]. right. f_equal.
    unfold confidence_size, stored. rewrite total_confidence_sum by auto. lra.
Qed.
Print Assumptions C161_rounding_partial.

Lemma total_loss_pos rows reg X Y : 0 <= reg -> 0 <= total_loss rows reg X Y.
Proof.
  intros HR. unfold total_loss, norms.
  assert (S0 : forall l, 0 <= rsum (map (fun x => rdot x x) l)).
  { intros l. apply rsum_nonneg. intros z Hz. apply in_map_iff in Hz. destruct Hz as (x & <- & _). clear. induction x; simpl; [lra|]. pose proof (Rle_0_sqr a). unfold Rsqr in *. lra. }
  assert (E0 : 0 <= rsum (map (fun u => row_error Y (rows u) (nth u X [])) (seq 0 (length X)))).
  { apply rsum_nonneg. intros z Hz. apply in_map_iff in Hz. destruct Hz as (k & <- & _). apply rsum_nonneg. intros z Hz. apply in_map_iff in Hz. destruct Hz as (i & <- & _).
    apply Rmult_le_pos; [unfold confidence; destruct (entry _ _); [apply Rabs_pos|lra]|apply Rle_0_sqr]. }
  pose proof (S0 X). pose proof (S0 Y). assert (0 <= reg * (rsum (map (fun x => rdot x x) X) + rsum (map (fun x => rdot x x) Y))) by (apply Rmult_le_pos; lra). lra.
Qed.

(** So the reported loss is not far below zero. *)
Theorem C161_sign_partial : forall rnd rd u v n m X Y reg sum t w,
  (forall x, Rabs (rnd x - x) <= u * Rabs x) -> (forall x, Rabs (rd x - x) <= v * Rabs x) -> 0 <= u -> 0 <= v <= 1 ->
  loss_call_ok n m X Y w -> @reduction R (Num_rnd rd) t sum -> 0 <= reg ->
  let least := total_confidence (csr_row m) (c_rows m) (c_cols m) - confidence_growth u v t m * confidence_size m in
  0 < least ->
  exists s, @calculate_loss_mixed R R (Num_rnd rnd) (Num_rnd rd) (fun x => x) sum (fun k => rd (INR k)) n m X Y reg = Ok s /\
    - ((1 + v) * (loss_growth u v n w t m * loss_size (csr_row m) reg X Y / least)) <= s.
Proof.
  intros rnd rd u v n m X Y reg sum t w RE RD U0 V0 OK HR R0 least LP.
  destruct (C161_rounding_partial rnd rd u v n m X Y reg sum t w RE RD U0 (proj1 V0) OK HR) as (L & C & E & EL & EC).
  pose proof (total_loss_pos (csr_row m) reg X Y R0) as TL.
  set (B := loss_growth u v n w t m * loss_size (csr_row m) reg X Y) in *.
  assert (C0 : least <= C). { unfold least. pose proof (Rle_abs (- (C - total_confidence (csr_row m) (c_rows m) (c_cols m)))) as Q. rewrite Rabs_Ropp in Q. lra. }
  assert (L0 : - B <= L). { pose proof (Rle_abs (- (L - total_loss (csr_row m) reg X Y))) as Q. rewrite Rabs_Ropp in Q. lra. }
  assert (B0 : 0 <= B) by (pose proof (Rabs_pos (L - total_loss (csr_row m) reg X Y)); lra).
  destruct (Req_EM_T C 0) as [Z|NZ]; [exfalso; lra|]. exists (rd (L / C)). split; auto.
  assert (BL : 0 <= B / least) by (apply Rmult_le_pos; [auto|apply Rlt_le, Rinv_0_lt_compat; auto]).
  specialize (RD (L / C)). pose proof (Rle_abs (- (rd (L / C) - L / C))) as Q. rewrite Rabs_Ropp in Q.
  destruct (Rle_dec 0 (L / C)) as [P|P].
  - rewrite (Rabs_right (L / C)) in RD by lra. assert (v * (L / C) <= 1 * (L / C)) by (apply Rmult_le_compat_r; lra). assert (0 <= (1 + v) * (B / least)) by (apply Rmult_le_pos; lra). lra.
  - rewrite (Rabs_left (L / C)) in RD by lra.
    assert (LB : - (B / least) <= L / C).
    { assert (B / C <= B / least) by (apply Rmult_le_compat_l; [auto|apply Rinv_le_contravar; auto]).
      assert (- (B / C) <= L / C). { unfold Rdiv. rewrite <- Ropp_mult_distr_l_reverse. apply Rmult_le_compat_r; [apply Rlt_le, Rinv_0_lt_compat; lra|auto]. } lra. }
    assert ((1 + v) * - (B / least) <= (1 + v) * (L / C)) by (apply Rmult_le_compat_l; lra). lra.
Qed.
Print Assumptions C161_sign_partial.

(** float32 factors, double accumulators: unit roundoffs 2^-24 and 2^-53, for the reductions of any threads.
    Overflow and underflow are left out. *)
Theorem C161_float32_partial : forall n m X Y reg deal t w, loss_call_ok n m X Y w -> 0 <= reg ->
  (forall l, Permutation (concat (deal l)) l /\ (length (deal l) <= t)%nat) ->
  let u := powerRZ 2 (-24) in let v := powerRZ 2 (-53) in
  let least := total_confidence (csr_row m) (c_rows m) (c_cols m) - confidence_growth u v t m * confidence_size m in
  0 < least ->
  exists s, @calculate_loss_mixed R R (Num_rnd (rnd_p 24)) (Num_rnd (rnd_p 53)) (fun x => x) (@omp_sum R (Num_rnd (rnd_p 53)) deal) (fun k => rnd_p 53 (INR k)) n m X Y reg = Ok s /\
    - ((1 + v) * (loss_growth u v n w t m * loss_size (csr_row m) reg X Y / least)) <= s.
Proof.
  intros n m X Y reg deal t w OK R0 HD u v least LP.
  apply (C161_sign_partial (rnd_p 24) (rnd_p 53) u v n m X Y reg _ t w); auto.
  - intros x. apply rnd_p_rel; lia.
  - intros x. apply rnd_p_rel; lia.
  - unfold u. apply powerRZ_le. lra.
  - unfold v. split; [apply powerRZ_le; lra|]. change (powerRZ 2 (-53)) with (/ 2 ^ 53). rewrite <- Rinv_1. apply Rinv_le_contravar; [lra|]. apply pow_R1_Rle; lra.
  - apply (@omp_reduction R (Num_rnd (rnd_p 53))). auto.
Qed.
Print Assumptions C161_float32_partial.

(** The claim without the error: false.  One user with factor 3, one item with the float32 nearest to 1/3, confidence 100,
    no regularization: the model predicts the like almost perfectly, and the reported loss is negative. *)
Definition f32_pos (x : f32) : bool := match x with S754_zero _ => true | S754_finite s _ _ => negb s | _ => false end.
Definition third : f32 := S754_finite false 11184811 (-25).
Definition three : f32 := S754_finite false 12582912 (-22).
Definition hundred : f32 := S754_finite false 13107200 (-17).
Theorem C161_refuted : exists (m : csr f32) X Y reg s,
  csr_wf m /\ Forall (fun c => f32_pos c = true) (c_data m) /\ f32_pos reg = true /\ length X = c_rows m /\ length Y = c_cols m /\
  @calculate_loss_mixed f32 f64 Num_f32 Num_f64 f64_of_f32 (@nsum f64 Num_f64) (fun k => f64_of_Z (Z.of_nat k)) 1 m X Y reg = Ok s /\
  SFltb s (S754_zero false) = true.
Proof.
  exists (csr_of_rows 1 [[(0%nat, hundred)]]), [[three]], [[third]], (S754_zero false).
  eexists. split; [|split; [|split; [|split; [|split; [|split]]]]].
  - apply csr_of_rows_wf. intros r p Hr Hp. simpl in Hr. destruct Hr as [<-|[]]. simpl in Hp. destruct Hp as [<-|[]]. simpl. lia.
  - repeat constructor.
  - reflexivity.
  - reflexivity.
  - reflexivity.
  - vm_compute. reflexivity.
  - vm_compute. reflexivity.
Qed.
Print Assumptions C161_refuted.

(** What the model computes there, and a case for the theorems: three users, three items, two threads. *)
Example C161_run : exists s,
  @calculate_loss_mixed f32 f64 Num_f32 Num_f64 f64_of_f32 (@nsum f64 Num_f64) (fun k => f64_of_Z (Z.of_nat k)) 1 (csr_of_rows 2 [[(1%nat, hundred)]; [(0%nat, three)]])
    [[three]; [third]] [[third]; [three]] third = Ok s /\ SFltb (S754_zero false) s = true /\
  f64_of_f32 hundred = f64_of_Z 100 /\ f64_of_f32 three = f64_of_Z 3 /\ f64_of_f32 (nopp three) = f64_of_Z (-3).
Proof. eexists. repeat split; vm_compute; reflexivity. Qed.
Definition ex_likes : csr R := csr_of_rows 3 [[(0%nat, 5); (2%nat, 4)]; []; [(1%nat, 2)]].
Lemma ex_likes_ok : loss_call_ok 2 ex_likes exX exY 2.
Proof.
  destruct exM_loss_ok as [_ [_ [MX [MY _]]]]. constructor; auto.
  - split.
    + apply csr_of_rows_wf. intros r p Hr Hp. simpl in Hr. repeat (destruct Hr as [<-|Hr]; [simpl in Hp; repeat (destruct Hp as [<-|Hp]; [simpl; lia|]); tauto|]). tauto.
    + intros u B. simpl in B. destruct u as [|[|[|u]]]; [| | |lia]; repeat constructor; simpl; intuition lia.
  - intros u B. simpl in B. destruct u as [|[|[|u]]]; [| | |lia]; simpl; lia.
  - intros u p B Hp. simpl in B. destruct u as [|[|[|u]]]; [| | |lia]; simpl in Hp; repeat (destruct Hp as [<-|Hp]; [simpl; lra|]); tauto.
Qed.
Example C161_example : loss_call_ok 2 ex_likes exX exY 2 /\
  (forall l : list R, Permutation (concat [firstn 2 l; skipn 2 l]) l /\ (length [firstn 2 l; skipn 2 l] <= 2)%nat) /\
  0 < total_confidence (csr_row ex_likes) (c_rows ex_likes) (c_cols ex_likes) - confidence_growth (powerRZ 2 (-24)) (powerRZ 2 (-53)) 2 ex_likes * confidence_size ex_likes.
Proof.
  split; [apply ex_likes_ok|]. split.
  - intros l. split; [|simpl; lia]. cbn [concat]. rewrite app_nil_r, firstn_skipn. apply Permutation_refl.
  - assert (T : total_confidence (csr_row ex_likes) (c_rows ex_likes) (c_cols ex_likes) = 17).
    { unfold total_confidence, confidence, entry, ex_likes. simpl. rewrite (Rabs_right 5), (Rabs_right 2), (Rabs_right 4) by lra. lra. }
    unfold confidence_size. rewrite T. change (stored ex_likes) with 3%nat. unfold confidence_growth. change (stored ex_likes) with 3%nat.
    change (powerRZ 2 (-24)) with (/ 2 ^ 24). change (powerRZ 2 (-53)) with (/ 2 ^ 53). simpl INR. simpl Nat.add. cbn [pow]. lra.
Qed.
