(** C159: inner product search through angular search, with the roundings of floating point. *)
From Coq Require Import List Arith Lia Bool ZArith Reals Lra Psatz.
From Coq Require Import Floats.SpecFloat.
From Verif Require Import Base Num Heap Sparse TopkModel RecommendModel RVec SimilarProofs PropSimilar MetricsDouble DoubleProofs FloatModel SimilarRound SimilarRoundProofs AnnModel AnnRound AnnProofs PropAnn PropFloat.
Import ListNotations.
Local Open Scope R_scope.

Lemma dot_snoc x e : forall y, length x = length y -> rdot (x ++ [e]) (y ++ [e]) = rdot x y + e * e.
Proof. induction x as [|a x IH]; intros [|b y] L; simpl in *; try discriminate; [lra|]. rewrite IH by lia. lra. Qed.
Lemma dot_snoc0 q y e : length q = length y -> rdot (q ++ [0]) (y ++ [e]) = rdot q y.
Proof. revert y. induction q as [|a q IH]; intros [|b y] L; simpl in *; try discriminate; [lra|]. rewrite IH by lia. lra. Qed.

Section A.
Variables (rnd : R -> R) (u : R).
Hypothesis RD : rounds rnd u.
Hypothesis u_range : 0 <= u < 1 / 7.
Let UR : 0 <= u < 1. Proof. lra. Qed.
Let RL := rd_rel _ _ RD.
Let Q := 1 - u.
Let h := / (1 - u).
Lemma aug_arg mx n : 0 <= n <= mx -> 0 <= rnd (rnd (mx * mx) - rnd (n * n)).
Proof.
  intros N. rewrite <- (rnd_zero rnd u RL UR). apply (rd_mono _ _ RD). assert (rnd (n * n) <= rnd (mx * mx)); [|lra]. apply (rd_mono _ _ RD). nra.
Qed.
(** The length of a transformed row. *)
Lemma aug_len f y mx : length y = f -> 0 <= norm_rnd rnd y <= mx ->
  let e := rnd (sqrt (rnd (rnd (mx * mx) - rnd (norm_rnd rnd y * norm_rnd rnd y)))) in
  Q ^ (f + 4) * mx <= rnorm (y ++ [e]) <= h ^ (f + 4) * mx.
Proof.
  intros L N e. set (n := norm_rnd rnd y) in *. set (k := (f + 2)%nat).
  pose proof (norm_err rnd u RL UR f y L) as NE. fold n in NE. fold h in NE. fold Q in NE. fold k in NE.
  pose proof (Qhn u UR) as QH. fold h in QH. fold Q in QH. pose proof (Qn_pos u UR) as QP. fold Q in QP. pose proof (hn_one u UR) as H1. fold h in H1.
  pose proof (Qn_one u UR) as Q1. fold Q in Q1.
  pose proof (aug_arg mx n N) as AP.
  destruct (rnd_fac rnd u RL UR (mx * mx)) as (s0 & S0 & E0). destruct (rnd_fac rnd u RL UR (n * n)) as (s1 & S1 & E1). fold h in S0, S1. fold Q in S0, S1.
  assert (MN : rnd (n * n) <= rnd (mx * mx)) by (apply (rd_mono _ _ RD); nra).
  set (D := rnd (mx * mx) - rnd (n * n)) in *. assert (D0 : 0 <= D) by (unfold D; lra).
  destruct (rnd_fac rnd u RL UR D) as (t1 & T1 & F1). destruct (rnd_fac rnd u RL UR (sqrt (rnd D))) as (t2 & T2 & F2). fold h in T1, T2. fold Q in T1, T2.
  pose proof (QP 1%nat) as q0. rewrite pow_1 in q0. pose proof (H1 1%nat) as h0. rewrite pow_1 in h0. pose proof (Q1 1%nat) as q1. rewrite pow_1 in q1.
  assert (EE : e * e = D * (t1 * (t2 * t2))).
  { unfold e. rewrite F2. replace (sqrt (rnd D) * t2 * (sqrt (rnd D) * t2)) with (sqrt (rnd D) * sqrt (rnd D) * (t2 * t2)) by ring. rewrite sqrt_sqrt by auto. rewrite F1. ring. }
  assert (TH : Q ^ 3 <= t1 * (t2 * t2) <= h ^ 3).
  { split; cbn [pow]; rewrite Rmult_1_r.
    - apply Rmult_le_compat; [lra|apply Rmult_le_pos; lra|lra|]. apply Rmult_le_compat; lra.
    - apply Rmult_le_compat; [lra|apply Rmult_le_pos; lra|lra|]. apply Rmult_le_compat; lra. }
  set (th := t1 * (t2 * t2)) in *.
  pose proof (rnorm_pos y) as NP. set (a := rnorm y) in *.
  assert (PK : forall i j, (i <= j)%nat -> Q ^ j <= Q ^ i /\ h ^ i <= h ^ j).
  { intros i j LE. split; [|apply Rle_pow; [lra|auto]]. replace j with (i + (j - i))%nat by lia. rewrite pow_add. pose proof (Q1 (j - i)%nat). pose proof (QP i). nra. }
  (* n^2 and a^2 *)
  assert (A1 : a * a <= h ^ (2 * k) * (n * n)).
  { assert (X : a <= h ^ k * n). { destruct NE as [L1 _]. apply (Rmult_le_compat_l (h ^ k)) in L1; [|pose proof (H1 k); lra]. rewrite <- Rmult_assoc, (Rmult_comm (h ^ k)), QH in L1. lra. }
    replace (2 * k)%nat with (k + k)%nat by lia. rewrite pow_add. replace (h ^ k * h ^ k * (n * n)) with ((h ^ k * n) * (h ^ k * n)) by ring. apply Rmult_le_compat; lra. }
  assert (A2 : Q ^ (2 * k) * (n * n) <= a * a).
  { assert (X : Q ^ k * n <= a). { destruct NE as [_ L1]. apply (Rmult_le_compat_l (Q ^ k)) in L1; [|pose proof (QP k); lra]. rewrite <- Rmult_assoc, QH in L1. lra. }
    replace (2 * k)%nat with (k + k)%nat by lia. rewrite pow_add. replace (Q ^ k * Q ^ k * (n * n)) with ((Q ^ k * n) * (Q ^ k * n)) by ring.
    apply Rmult_le_compat; try lra; apply Rmult_le_pos; try lra; pose proof (QP k); lra. }
  assert (NN : 0 <= n * n <= mx * mx) by nra.
  destruct (PK 3%nat (2 * k)%nat) as [P1 P2]; [unfold k; lia|].
  set (W := h ^ (2 * k)) in *. set (V := Q ^ (2 * k)) in *. assert (V0 : 0 < V) by apply QP. assert (W1 : 1 <= W) by apply H1.
  assert (DD : D = mx * mx * s0 - n * n * s1) by (unfold D; rewrite E0, E1; ring).
  assert (UP : a * a + e * e <= h ^ 2 * W * (mx * mx)).
  { rewrite EE. assert (X : D * th <= D * W) by (apply Rmult_le_compat_l; lra).
    assert (Y1 : mx * mx * s0 <= mx * mx * h) by (apply Rmult_le_compat_l; lra). assert (Y2 : n * n * Q <= n * n * s1) by (apply Rmult_le_compat_l; lra).
    assert (Y3 : n * n * (1 - Q) <= mx * mx * (1 - Q)) by (apply Rmult_le_compat_r; lra).
    assert (Z : n * n + D <= h ^ 2 * (mx * mx)).
    { assert (HU : h + (1 - Q) <= h * h).
      { assert (X1 : h * Q = 1) by (pose proof (QH 1%nat) as X1; rewrite !pow_1 in X1; lra). assert (X2 : h - 1 = h * (1 - Q)) by lra.
        assert (X3 : 1 - Q <= h * (1 - Q)) by nra. nra. }
      assert (X4 : (h + (1 - Q)) * (mx * mx) <= h * h * (mx * mx)) by (apply Rmult_le_compat_r; lra).
      cbn [pow]. rewrite Rmult_1_r. lra. }
    apply (Rmult_le_compat_r W) in Z; [|lra]. lra. }
  assert (LO : Q ^ 3 * V * (mx * mx) <= a * a + e * e).
  { rewrite EE. assert (X : D * V <= D * th) by (apply Rmult_le_compat_l; lra).
    assert (Y1 : mx * mx * Q <= mx * mx * s0) by (apply Rmult_le_compat_l; lra). assert (Y2 : n * n * s1 <= n * n * h) by (apply Rmult_le_compat_l; lra).
    assert (Y3 : n * n * (h - 1) <= mx * mx * (h - 1)) by (apply Rmult_le_compat_r; lra).
    assert (Z : Q ^ 3 * (mx * mx) <= n * n + D).
    { assert (HU : Q ^ 3 <= Q - (h - 1)).
      { assert (X1 : h * Q = 1) by (pose proof (QH 1%nat) as X1; rewrite !pow_1 in X1; lra).
        apply (Rmult_le_reg_r Q); auto. replace ((Q - (h - 1)) * Q) with (Q * Q + Q - h * Q) by ring. rewrite X1. cbn [pow]. unfold Q. nra. }
      assert (X4 : Q ^ 3 * (mx * mx) <= (Q - (h - 1)) * (mx * mx)) by (apply Rmult_le_compat_r; lra). lra. }
    apply (Rmult_le_compat_r V) in Z; [|lra]. lra. }
  assert (RN : rnorm (y ++ [e]) = sqrt (a * a + e * e)).
  { unfold rnorm at 1. rewrite dot_snoc by auto. f_equal. f_equal. unfold a. symmetry. apply sqrt_sqrt, rdot_nonneg. }
  assert (M0 : 0 <= mx) by lra. rewrite RN. split.
  - rewrite <- (sqrt_square (Q ^ (f + 4) * mx)) by (apply Rmult_le_pos; [pose proof (QP (f + 4)%nat); lra|auto]). apply sqrt_le_1_alt.
    eapply Rle_trans; [|exact LO]. unfold V. replace (Q ^ (f + 4) * mx * (Q ^ (f + 4) * mx)) with (Q ^ (f + 4) * Q ^ (f + 4) * (mx * mx)) by ring.
    rewrite <- !pow_add. apply Rmult_le_compat_r; [lra|]. apply PK. unfold k. lia.
  - rewrite <- (sqrt_square (h ^ (f + 4) * mx)) by (apply Rmult_le_pos; [pose proof (H1 (f + 4)%nat); lra|auto]). apply sqrt_le_1_alt.
    eapply Rle_trans; [exact UP|]. unfold W. replace (h ^ (f + 4) * mx * (h ^ (f + 4) * mx)) with (h ^ (f + 4) * h ^ (f + 4) * (mx * mx)) by ring.
    rewrite <- !pow_add. apply Rmult_le_compat_r; [lra|]. apply PK. unfold k. lia.
Qed.
End A.

(** Relative error of the lengths of the transformed rows, and of the comparison of two of them. *)
Definition len_error (f : nat) (u : R) : R := INR (f + 4) * u / (1 - INR (f + 4) * u).
Definition rank_error (f : nat) (u : R) : R := INR (2 * f + 8) * u / (1 - INR (2 * f + 8) * u).

(** No root of a negative number is taken, all transformed rows have the same length up to rounding, and an index
    that finds the largest cosine to (q, 0) among the transformed rows ranks them by inner product with q, up to the
    rounding error times the lengths of the two vectors. *)
Theorem C159_augment_partial : forall (rnd : R -> R) (u fmin tiny : R) (factors : list (list R)) (f : nat),
  (forall x y, x <= y -> rnd x <= rnd y) -> (forall x, Rabs (rnd x - x) <= u * Rabs x) -> 0 <= u -> INR (2 * f + 8) * u < 1 ->
  factors <> [] -> (forall y, In y factors -> length y = f) ->
  exists mx extra, @augment_inner_product_matrix R (Num_rnd rnd) (env_rnd rnd fmin tiny) factors = Ok (mx, extra) /\ length extra = length factors /\
    (forall i, (i < length factors)%nat -> exists d, 0 <= d /\ nth i extra [] = nth i factors [] ++ [rnd (sqrt d)]) /\
    (forall i, (i < length factors)%nat -> Rabs (spec_norm (nth i extra []) - mx) <= len_error f u * mx) /\
    (forall i, (i < length factors)%nat -> spec_norm (nth i factors []) <= mx * (1 + len_error f u)) /\
    (forall q i j ci cj, (i < length factors)%nat -> (j < length factors)%nat -> length q = f ->
       is_cosine (q ++ [0]) (nth i extra []) ci -> is_cosine (q ++ [0]) (nth j extra []) cj -> ci <= cj ->
       spec_dot q (nth i factors []) <= spec_dot q (nth j factors []) + rank_error f u * (spec_norm q * spec_norm (nth i factors []))).
Proof.
  intros rnd u fmin tiny factors f MO RE U0 U1 NE W.
  assert (UR7 : 0 <= u < 1 / 7). { split; auto. assert (8 <= INR (2 * f + 8)). { replace 8 with (INR 8) by (cbn [INR]; lra). apply le_INR. lia. } nra. }
  assert (UR : 0 <= u < 1) by lra. assert (RD : rounds rnd u) by (constructor; auto).
  assert (EM : exists mx, np_max (map (norm_rnd rnd) factors) = Ok mx) by (destruct factors; [congruence|simpl; eauto]).
  destruct EM as [mx EM]. pose proof (np_max_spec _ _ EM) as [M1 M2].
  set (ext := fun r => r ++ [rnd (sqrt (rnd (rnd (mx * mx) - rnd (norm_rnd rnd r * norm_rnd rnd r))))]).
  exists mx, (map ext factors). split; [|split; [apply map_length|]].
  { unfold augment_inner_product_matrix. change (@np_max R (Num_rnd rnd)) with (@np_max R Num_R). cbn [ae_norm env_rnd]. rewrite EM. reflexivity. }
  assert (NTH : forall i, (i < length factors)%nat -> nth i (map ext factors) [] = ext (nth i factors [])).
  { intros i Hi. rewrite (nth_indep _ [] (ext [])) by (rewrite map_length; auto). apply map_nth. }
  assert (NB : forall r, In r factors -> 0 <= norm_rnd rnd r <= mx).
  { intros r Hr. split; [|apply M2, in_map; auto]. pose proof (norm_err rnd u RE UR f r (W r Hr)) as B. pose proof (Qn_pos u UR (f + 2)). pose proof (rnorm_pos r). nra. }
  assert (AL : forall i, (i < length factors)%nat -> (1 - u) ^ (f + 4) * mx <= rnorm (nth i (map ext factors) []) <= (/ (1 - u)) ^ (f + 4) * mx).
  { intros i Hi. rewrite NTH by auto. apply (aug_len rnd u RD UR7 f); [apply W|apply NB]; apply nth_In; auto. }
  assert (MX0 : 0 <= mx). { apply in_map_iff in M1. destruct M1 as (r & <- & Hr). apply (proj1 (NB r Hr)). }
  pose proof (Qhn u UR) as QH. pose proof (Qn_pos u UR) as QP. pose proof (hn_one u UR) as H1. pose proof (Qn_one u UR) as Q1. pose proof (h_le_bound u UR) as HB.
  set (h := / (1 - u)) in *. clearbody h. set (Q := 1 - u) in *. clearbody Q.
  assert (KB : forall K, INR K * u < 1 -> h ^ K - 1 <= INR K * u / (1 - INR K * u) /\ 1 - Q ^ K <= INR K * u / (1 - INR K * u)).
  { intros K B. pose proof (HB K B) as X. set (v := INR K * u) in *. replace (v / (1 - v)) with (/ (1 - v) - 1) by (field; lra). split; [lra|].
    pose proof (QH K). pose proof (QP K). pose proof (H1 K). assert (1 - Q ^ K <= h ^ K - 1) by (assert (0 <= (h ^ K - 1) * (1 - Q ^ K)); [apply Rmult_le_pos; [lra|]; pose proof (Q1 K); lra|nra]). lra. }
  assert (U2 : INR (f + 4) * u < 1). { assert (INR (f + 4) <= INR (2 * f + 8)) by (apply le_INR; lia). nra. }
  destruct (KB (f + 4)%nat U2) as [K1 K2]. fold (len_error f u) in K1, K2. destruct (KB (2 * f + 8)%nat U1) as [K3 K4]. fold (rank_error f u) in K3, K4.
  assert (LE : forall i, (i < length factors)%nat -> Rabs (spec_norm (nth i (map ext factors) []) - mx) <= len_error f u * mx).
  { intros i Hi. rewrite spec_norm_rnorm. pose proof (AL i Hi). apply Rabs_le. nra. }
  split; [|split; [exact LE|split]].
  - intros i Hi. eexists. split; [|rewrite NTH by auto; reflexivity]. apply (aug_arg rnd u RD UR7). apply NB, nth_In; auto.
  - intros i Hi. pose proof (LE i Hi) as B. apply abs_both in B. eapply Rle_trans; [|apply Rle_trans with (spec_norm (nth i (map ext factors) [])); [apply Rle_refl|lra]].
    rewrite NTH by auto. rewrite !spec_norm_rnorm. unfold rnorm. apply sqrt_le_1_alt. unfold ext. rewrite dot_snoc by auto. match goal with |- _ <= _ + ?e * ?e => assert (0 <= e * e) by nra end. lra.
  - intros q i j ci cj Hi Hj Lq Ci Cj LC.
    assert (IC : forall x y c, is_cosine x y c -> c = cosine x y).
    { intros x y c [A B]. destruct (cosine_is_cosine x y) as [A' B']. destruct (Req_dec (spec_norm x * spec_norm y) 0) as [Z|Z]; [rewrite B, B'|rewrite A, A']; auto. }
    apply IC in Ci. apply IC in Cj. rewrite !spec_dot_rdot, !spec_norm_rnorm.
    assert (Q0 : rnorm (q ++ [0]) = rnorm q) by (unfold rnorm; rewrite dot_snoc by auto; f_equal; lra).
    assert (EQ : forall k, (k < length factors)%nat -> rdot q (nth k factors []) = cosine (q ++ [0]) (nth k (map ext factors) []) * (rnorm q * rnorm (nth k (map ext factors) []))).
    { intros k Hk. rewrite <- Q0. rewrite Rmult_comm, cosine_cases. rewrite NTH by auto. unfold ext. symmetry. apply dot_snoc0. rewrite Lq. symmetry. apply W, nth_In. auto. }
    rewrite (EQ i Hi), (EQ j Hj), <- Ci, <- Cj.
    assert (CS : Rabs (rdot q (nth i factors [])) <= rnorm q * rnorm (nth i factors [])).
    { pose proof (cauchy_schwarz q (nth i factors [])) as X. pose proof (rnorm_pos q). pose proof (rnorm_pos (nth i factors [])). apply Rsqr_incr_0_var; [|nra]. rewrite <- Rsqr_abs. unfold Rsqr.
      replace (rnorm q * rnorm (nth i factors []) * (rnorm q * rnorm (nth i factors []))) with ((rnorm q * rnorm q) * (rnorm (nth i factors []) * rnorm (nth i factors []))) by ring. rewrite !rnorm_sq. exact X. }
    rewrite (EQ i Hi), <- Ci in CS.
    pose proof (AL i Hi) as Ai. pose proof (AL j Hj) as Aj. set (a := rnorm (nth i (map ext factors) [])) in *. set (b := rnorm (nth j (map ext factors) [])) in *.
    set (nq := rnorm q) in *. pose proof (rnorm_pos q) as NQ. fold nq in NQ. set (ny := rnorm (nth i factors [])) in *. pose proof (rnorm_pos (nth i factors [])) as NY. fold ny in NY.
    assert (RE0 : 0 <= rank_error f u) by (pose proof (H1 (2 * f + 8)%nat); lra).
    destruct (Req_dec mx 0) as [Z0|Z0].
    + rewrite Z0, !Rmult_0_r in Ai, Aj. assert (A0 : a = 0) by lra. assert (B0 : b = 0) by lra. rewrite A0, B0, !Rmult_0_r. assert (0 <= nq * ny) by (apply Rmult_le_pos; lra). nra.
    + assert (MP : 0 < mx) by lra. pose proof (QP (f + 4)%nat) as qp. assert (AP : 0 < a) by nra. assert (BP : 0 < b) by nra.
      (* b / a *)
      assert (RB : Q ^ (2 * f + 8) * a <= b <= h ^ (2 * f + 8) * a).
      { replace (2 * f + 8)%nat with ((f + 4) + (f + 4))%nat by lia. rewrite (pow_add Q (f + 4) (f + 4)), (pow_add h (f + 4) (f + 4)). set (x := Q ^ (f + 4)) in *. set (y := h ^ (f + 4)) in *. pose proof (QH (f + 4)%nat) as XY. fold x in XY. fold y in XY. pose proof (H1 (f + 4)%nat) as Y1. fold y in Y1.
        split.
        - destruct Ai as [_ Ai]. destruct Aj as [Aj _]. apply (Rmult_le_compat_l (x * x)) in Ai; [|apply Rmult_le_pos; lra]. replace (x * x * (y * mx)) with (x * (x * y) * mx) in Ai by ring. rewrite XY in Ai. lra.
        - destruct Ai as [Ai _]. destruct Aj as [_ Aj]. apply (Rmult_le_compat_l (y * y)) in Ai; [|apply Rmult_le_pos; lra]. replace (y * y * (x * mx)) with (y * (x * y) * mx) in Ai by ring. rewrite XY in Ai. lra. }
      assert (DB : Rabs (a - b) <= rank_error f u * a) by (apply Rabs_le; nra).
      assert (X1 : ci * (nq * b) <= cj * (nq * b)) by (apply Rmult_le_compat_r; [apply Rmult_le_pos; lra|auto]).
      assert (X2 : ci * (nq * a) - ci * (nq * b) <= rank_error f u * (nq * ny)).
      { replace (ci * (nq * a) - ci * (nq * b)) with (ci * nq * (a - b)) by ring. eapply Rle_trans; [apply Rle_abs|]. rewrite Rabs_mult.
        apply Rle_trans with (Rabs (ci * nq) * (rank_error f u * a)); [apply Rmult_le_compat_l; [apply Rabs_pos|auto]|].
        replace (ci * (nq * a)) with (ci * nq * a) in CS by ring. rewrite Rabs_mult, (Rabs_right a) in CS by lra.
        replace (Rabs (ci * nq) * (rank_error f u * a)) with (rank_error f u * (Rabs (ci * nq) * a)) by ring. apply Rmult_le_compat_l; auto. }
      lra.
Qed.
Print Assumptions C159_augment_partial.

(** Rounding to 24 bits meets the hypotheses; with a hundred factors the error is below 0.000013. *)
Example C159_example : let u := powerRZ 2 (-24) in
  (forall x y, x <= y -> rnd_p 24 x <= rnd_p 24 y) /\ (forall x, Rabs (rnd_p 24 x - x) <= u * Rabs x) /\ 0 <= u /\ INR (2 * 100 + 8) * u < 1 /\ rank_error 100 u < 13 / 1000000.
Proof.
  cbv zeta. split; [apply rnd_p_mono; lia|]. split; [apply (rnd_p_rel 24); lia|].
  assert (U : powerRZ 2 (-24) = / 16777216) by (cbn [powerRZ]; f_equal; rewrite pow_IZR; reflexivity). rewrite U. split; [lra|].
  unfold rank_error. assert (I : INR (2 * 100 + 8) = 208) by (rewrite INR_IZR_INZ; f_equal). rewrite I. split; [lra|].
  replace (208 * / 16777216 / (1 - 208 * / 16777216)) with (208 / 16777008) by (field; lra). lra.
Qed.
(** The transform in float32. *)
Example C159_run : augment_inner_product_matrix env_f32 [[fl 3; fl 4]; [fl 0; fl 3]; [fl 0; fl 0]] = Ok (fl 5, [[fl 3; fl 4; fl 0]; [fl 0; fl 3; fl 4]; [fl 0; fl 0; fl 5]]).
Proof. vm_compute. reflexivity. Qed.

(** Large but finite factors, 2^65: the norm overflows, and the row that has it gets a NaN. *)
Theorem C159_refuted : exists (factors : list (list f32)) (row : list f32),
  (forall y v, In y factors -> In v y -> v = fl 1 \/ v = fl (2 ^ 65)) /\ (exists s m e, fl (2 ^ 65) = S754_finite s m e) /\
  augment_inner_product_matrix env_f32 factors = Ok (S754_infinity false, [row; [fl 1; S754_infinity false]]) /\ In S754_nan row.
Proof.
  exists [[fl (2 ^ 65)]; [fl 1]], [fl (2 ^ 65); S754_nan]. split.
  { intros y v Hy Hv. simpl in Hy. destruct Hy as [<-|[<-|[]]]; simpl in Hv; destruct Hv as [<-|[]]; auto. }
  split; [do 3 eexists; vm_compute; reflexivity|]. split; [vm_compute; reflexivity|right; left; reflexivity].
Qed.
Print Assumptions C159_refuted.
