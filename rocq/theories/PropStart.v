(** C163: random starting values stay in their range. *)
From Coq Require Import List Arith Lia Bool ZArith Reals Lra Psatz.
From Coq Require Import Floats.SpecFloat.
From Verif Require Import Base Num Sparse RVec MetricsModel MetricsProofs MetricsDouble DoubleProofs FloatModel BprModel SimilarRound SimilarRoundProofs StartModel PropCosineRound.
Import ListNotations.
Local Open Scope R_scope.

(** What is used of the rounding. *)
Record rounding (rd : R -> R) (u : R) : Prop := {
  ro_mono : forall x y, x <= y -> rd x <= rd y;
  ro_idem : forall x, rd (rd x) = rd x;
  ro_zero : rd 0 = 0;
  ro_one : rd 1 = 1;
  ro_opp : forall x, rd (- x) = - rd x;
  ro_two : forall x, rd (2 * x) = 2 * rd x;
  ro_rel : forall x, Rabs (rd x - x) <= u * Rabs x;
  ro_unit : 0 <= u < 1 }.
Lemma rnd_p_two p x : (1 <= p)%Z -> rnd_p p (2 * x) = 2 * rnd_p p x.
Proof.
  intros P1. assert (POS : forall y, 0 < y -> rnd_p p (2 * y) = 2 * rnd_p p y).
  { intros y PY. rewrite !rnd_p_eq by lra. assert (E : exponent_p p (2 * y) = (exponent_p p y + 1)%Z).
    { rewrite !exponent_p_eq. enough (exponent (2 * y) = exponent y + 1)%Z by lia. apply exponent_unique. pose proof (exponent_spec y PY) as B.
      replace (exponent y + 1 + 52)%Z with (exponent y + 52 + 1)%Z by lia. replace (exponent y + 1 + 53)%Z with (exponent y + 53 + 1)%Z by lia.
      rewrite (p2_add (exponent y + 52) 1), (p2_add (exponent y + 53) 1). change (powerRZ 2 1) with (2 * 1). lra. }
    rewrite E, p2_add. replace (- (exponent_p p y + 1))%Z with (- exponent_p p y + -1)%Z by lia. rewrite (p2_add (- exponent_p p y)).
    change (powerRZ 2 1) with (2 * 1). change (powerRZ 2 (-1)) with (/ (2 * 1)).
    replace (2 * y * (powerRZ 2 (- exponent_p p y) * / (2 * 1))) with (y * powerRZ 2 (- exponent_p p y)) by field. ring. }
  destruct (total_order_T x 0) as [[L| ->]|G]; [| |apply POS; auto].
  - replace (2 * x) with (- (2 * - x)) by ring. rewrite rnd_p_opp, POS by (auto; lra). rewrite rnd_p_opp by auto. ring.
  - rewrite Rmult_0_r, rnd_p_zero. ring.
Qed.
Lemma rounding_binary p : (1 <= p)%Z -> rounding (rnd_p p) (powerRZ 2 (- p)).
Proof. intros P. destruct (format_binary p P). constructor; auto. - intros; apply rnd_p_mono; auto. - intros; apply rnd_p_two; auto. Qed.

Section R.
Variables (rd : R -> R) (u : R).
Hypothesis RO : rounding rd u.
Lemma ro_half : rd (1 / 2) = 1 / 2.
Proof. pose proof (ro_two _ _ RO (1 / 2)) as E. replace (2 * (1 / 2)) with 1 in E by lra. rewrite (ro_one _ _ RO) in E. lra. Qed.
Lemma ro_nonneg x : 0 <= x -> 0 <= rd x.
Proof. intros P. rewrite <- (ro_zero _ _ RO). apply (ro_mono _ _ RO); auto. Qed.
Lemma ro_up x : 0 <= x -> rd x <= (1 + u) * x.
Proof. intros P. pose proof (ro_rel _ _ RO x) as E. rewrite (Rabs_right x) in E by lra. unfold Rabs in E. destruct (Rcase_abs (rd x - x)); lra. Qed.
Lemma ro_down x : 0 <= x -> (1 - u) * x <= rd x.
Proof. intros P. pose proof (ro_rel _ _ RO x) as E. rewrite (Rabs_right x) in E by lra. unfold Rabs in E. destruct (Rcase_abs (rd x - x)); lra. Qed.
Lemma ro_abs x b : Rabs x <= b -> Rabs (rd x) <= rd b.
Proof.
  intros B. assert (B2 : - b <= x <= b) by (revert B; unfold Rabs; destruct (Rcase_abs x); lra). apply Rabs_le. split.
  - rewrite <- (ro_opp _ _ RO). apply (ro_mono _ _ RO); lra.
  - apply (ro_mono _ _ RO); lra.
Qed.
End R.

(** CPU ALS: between 0 and the float nearest to 1/100. *)
Theorem C163_als_partial : forall rd u x, rounding rd u -> 0 <= x <= 1 -> 0 <= als_start rd x <= rd (1 / 100) /\ als_start rd x <= (1 + u) * (1 / 100).
Proof.
  intros rd u x RO X. unfold als_start. pose proof (ro_nonneg rd u RO (1 / 100) ltac:(lra)) as C. pose proof (ro_up rd u RO (1 / 100) ltac:(lra)).
  assert (L : rd (x * rd (1 / 100)) <= rd (1 / 100)) by (rewrite <- (ro_idem rd u RO (1 / 100)) at 2; apply (ro_mono rd u RO); nra).
  repeat split; auto; [|lra]. apply (ro_nonneg rd u RO). nra.
Qed.
Print Assumptions C163_als_partial.

(** BPR, on both devices: no component but the constant one of the users exceeds half a factor's share, but for rounding. *)
Theorem C163_bpr_partial : forall rd u f (M : csr R) xs ys, rounding rd u -> (0 < f)%nat ->
  (forall k j, 0 <= xs k j <= 1) -> (forall k j, 0 <= ys k j <= 1) ->
  let bound := (1 + u) / (1 - u) * (1 / (2 * INR f)) in
  (forall k j, j <> f -> Rabs (bpr_start_factors rd f M xs ys (CX k j)) <= bound) /\
  (forall k, bpr_start_factors rd f M xs ys (CX k f) = 1) /\
  (forall i j, Rabs (bpr_start_factors rd f M xs ys (CY i j)) <= bound).
Proof.
  intros rd u f M xs ys RO F HX HY bound. assert (FP : 1 <= INR f) by (apply (le_INR 1); lia). destruct (ro_unit _ _ RO) as [U0 U1].
  assert (B0 : 0 <= bound) by (unfold bound; apply Rmult_le_pos; [apply Rmult_le_pos; [lra|left; apply Rinv_0_lt_compat; lra]|apply Rmult_le_pos; [lra|left; apply Rinv_0_lt_compat; lra]]).
  assert (S : forall x, 0 <= x <= 1 -> Rabs (bpr_start rd f x) <= bound).
  { intros x X. unfold bpr_start. assert (A : Rabs (rd (x - 1 / 2)) <= 1 / 2).
    { apply Rle_trans with (rd (1 / 2)); [apply (ro_abs rd u RO); apply Rabs_le; lra|rewrite (ro_half rd u RO); lra]. }
    pose proof (ro_down rd u RO (INR f) ltac:(lra)) as D. assert (D0 : 0 < (1 - u) * INR f) by nra. set (F' := rd (INR f)) in *.
    assert (Q : Rabs (rd (x - 1 / 2) / F') <= 1 / (2 * ((1 - u) * INR f))).
    { unfold Rdiv at 1. rewrite Rabs_mult, Rabs_inv, (Rabs_right F') by lra. replace (1 / (2 * ((1 - u) * INR f))) with (1 / 2 * / ((1 - u) * INR f)) by (field; lra).
      apply Rmult_le_compat; auto; [apply Rabs_pos|left; apply Rinv_0_lt_compat; lra|apply Rinv_le_contravar; auto]. }
    eapply Rle_trans; [apply (ro_abs rd u RO _ _ Q)|]. eapply Rle_trans; [apply (ro_up rd u RO)|].
    - apply Rmult_le_pos; [lra|]. left; apply Rinv_0_lt_compat; lra.
    - unfold bound. right. field. lra. }
  unfold bpr_start_factors, bpr_init. split; [|split].
  - intros k j NE. destruct (Nat.eqb_spec j f); [congruence|]. destruct (_ =? 0)%nat; [cbn; rewrite Rabs_R0; auto|auto].
  - intros k. rewrite Nat.eqb_refl. reflexivity.
  - intros i j. destruct (_ =? 0)%nat; [cbn; rewrite Rabs_R0; auto|auto].
Qed.
Print Assumptions C163_bpr_partial.

(** GPU ALS: every starting value lies between the two bounds as the model's type has them, one rounding or two. *)
Theorem C163_gpu_partial : forall rd rd64 store u v w fused f x, rounding rd u -> rounding rd64 v -> rounding store w -> (0 < f)%nat -> 0 <= x <= 1 ->
  Rabs (gpu_als_start rd rd64 store fused f x) <= store (rd (rd64 (1 / 2 / INR f))) /\
  Rabs (gpu_als_start rd rd64 store fused f x) <= (1 + w) * (1 + u) * (1 + v) * (1 / (2 * INR f)).
Proof.
  intros rd rd64 store u v w fused f x RO R64 RS F X. assert (FP : 1 <= INR f) by (apply (le_INR 1); lia).
  assert (Q0 : 0 <= 1 / 2 / INR f) by (apply Rmult_le_pos; [lra|left; apply Rinv_0_lt_compat; lra]).
  unfold gpu_als_start. replace (- (1 / 2) / INR f) with (- (1 / 2 / INR f)) by (field; lra). rewrite (ro_opp _ _ R64), (ro_opp _ _ RO).
  set (b := rd (rd64 (1 / 2 / INR f))). assert (N64 : 0 <= rd64 (1 / 2 / INR f)) by (apply (ro_nonneg _ _ R64); auto).
  assert (B0 : 0 <= b) by (apply (ro_nonneg _ _ RO); auto). assert (BI : rd b = b) by apply (ro_idem _ _ RO).
  assert (H2 : 1 / 2 / INR f <= 1 / 2) by (unfold Rdiv at 1; rewrite <- (Rmult_1_r (1 / 2)) at 2; apply Rmult_le_compat_l; [lra|]; rewrite <- Rinv_1; apply Rinv_le_contravar; lra).
  assert (B1 : b <= 1 / 2).
  { apply Rle_trans with (rd (rd64 (1 / 2))); [apply (ro_mono _ _ RO), (ro_mono _ _ R64); auto|rewrite (ro_half rd64 v R64), (ro_half rd u RO); lra]. }
  assert (I : forall y, - b <= y <= b -> Rabs (rd y) <= b) by (intros y Y; rewrite <- BI; apply (ro_abs _ _ RO); apply Rabs_le; lra).
  assert (G : Rabs (@gpu_uniform R (Num_rnd rd) reqb (if fused then one_rounding rd else two_roundings rd) (- b) b x) <= b).
  { unfold gpu_uniform. cbn [nsub nzero none_ Num_rnd].
    assert (NE : reqb b 1 = false) by (unfold reqb; destruct (Req_EM_T b 1); auto; lra). rewrite NE. cbn [negb]. rewrite orb_true_r.
    replace (b - - b) with (2 * b) by ring. rewrite (ro_two _ _ RO), BI. destruct fused; unfold one_rounding, two_roundings.
    - apply I. nra.
    - assert (0 <= rd (x * (2 * b)) <= 2 * b); [|apply I; lra]. split; [apply (ro_nonneg _ _ RO); nra|].
      replace (2 * b) with (rd (2 * b)) at 2 by (rewrite (ro_two _ _ RO), BI; auto). apply (ro_mono _ _ RO). nra. }
  pose proof (ro_abs _ _ RS _ _ G) as L. split; [exact L|]. eapply Rle_trans; [exact L|].
  pose proof (ro_up _ _ RS b B0) as U1. pose proof (ro_up _ _ RO _ N64) as U2. pose proof (ro_up _ _ R64 _ Q0) as U3. fold b in U2.
  destruct (ro_unit _ _ RO), (ro_unit _ _ R64), (ro_unit _ _ RS).
  replace (1 / (2 * INR f)) with (1 / 2 / INR f) by (field; lra). eapply Rle_trans; [exact U1|]. rewrite !Rmult_assoc. apply Rmult_le_compat_l; [lra|].
  eapply Rle_trans; [exact U2|]. apply Rmult_le_compat_l; lra.
Qed.
Print Assumptions C163_gpu_partial.

(** RandomState.uniform with other bounds: never below the lower one; above the upper one by rounding errors at most. *)
Theorem C163_uniform_partial : forall rd u (fused : bool) low high x, rounding rd u -> rd low = low -> rd high = high -> low <= high -> 0 <= x <= 1 ->
  let y := @gpu_uniform R (Num_rnd rd) reqb (if fused then one_rounding rd else two_roundings rd) low high x in
  low <= y /\ y <= high + u * (high - low) + u * Rabs (high + u * (high - low)) /\ (rd (high - low) = high - low -> y <= high).
Proof.
  intros rd u fused low high x RO EL EH LE X y. destruct (ro_unit _ _ RO) as [U0 U1].
  set (d := rd (high - low)). assert (D0 : 0 <= d) by (apply (ro_nonneg _ _ RO); lra). assert (DI : rd d = d) by apply (ro_idem _ _ RO).
  pose proof (ro_up _ _ RO (high - low) ltac:(lra)) as DU. fold d in DU. set (M := high + u * (high - low)). assert (MD : d + low <= M) by (unfold M; lra).
  assert (UB : high <= M + u * Rabs M) by (pose proof (Rabs_pos M); unfold M at 1; nra).
  assert (K : exists t, 0 <= t <= d /\ (y = rd (t + low) \/ (y = x /\ low = 0 /\ high = 1))).
  { unfold y, gpu_uniform. cbn [nsub nzero none_ Num_rnd]. fold d. destruct (negb (reqb low 0) || negb (reqb high 1)) eqn:E.
    - destruct fused; unfold one_rounding, two_roundings.
      + exists (x * d). split; [nra|auto].
      + exists (rd (x * d)). split; [|auto]. split; [apply (ro_nonneg _ _ RO); nra|]. rewrite <- DI at 2. apply (ro_mono _ _ RO). nra.
    - exists 0. split; [lra|]. right. apply orb_false_iff in E. destruct E as [E1 E2]. unfold reqb in *. destruct (Req_EM_T low 0), (Req_EM_T high 1); try discriminate. auto. }
  destruct K as (t & T & [-> |(-> & -> & ->)]); [|split; [lra|split; [lra|lra]]].
  split; [|split].
  - rewrite <- EL at 1. apply (ro_mono _ _ RO). lra.
  - apply Rle_trans with (rd M); [apply (ro_mono _ _ RO); lra|]. pose proof (ro_rel _ _ RO M) as E. unfold Rabs in E at 1. destruct (Rcase_abs (rd M - M)); fold M; lra.
  - intros E. rewrite <- EH. apply (ro_mono _ _ RO). fold d in E. lra.
Qed.
Print Assumptions C163_uniform_partial.

(** RandomState.uniform(low=-1, high=1.5 * 2**-24) in float32: the largest number the generator can draw, 1, gives 2**-23. *)
Theorem C163_refuted : exists low high x : f32, SFltb low high = true /\ SFleb (S754_zero false) x = true /\ SFleb x none_ = true /\
  SFltb high (gpu_uniform_f32 low high x) = true.
Proof.
  exists (S754_finite true 8388608 (-23)), (S754_finite false 12582912 (-47)), (S754_finite false 8388608 (-23)). repeat split; vm_compute; reflexivity.
Qed.
Print Assumptions C163_refuted.

(** The ordinary case in float32: one eighth of the way from -1 to 3; and the numbers drawn between 0 and 1 are left alone. *)
Example C163_run : gpu_uniform_f32 (nopp f32_one) (S754_finite false 12582912 (-22)) (S754_finite false 8388608 (-26)) = S754_finite true 8388608 (-24) /\
  gpu_uniform_f32 (S754_zero false) f32_one (S754_finite false 8388608 (-26)) = S754_finite false 8388608 (-26).
Proof. split; vm_compute; reflexivity. Qed.

(** A case for the theorems: the formats the code uses, and a model of 4 factors. *)
Example C163_example : rounding (rnd_p 24) (powerRZ 2 (-24)) /\ rounding (rnd_p 53) (powerRZ 2 (-53)) /\ rounding (rnd_p 11) (powerRZ 2 (-11)) /\
  als_start (rnd_p 24) 1 = rnd_p 24 (1 / 100) /\ bpr_start (rnd_p 24) 4 (3 / 4) = 1 / 16 /\
  gpu_als_start (rnd_p 24) (rnd_p 53) (rnd_p 11) true 4 1 = 1 / 8 /\ gpu_als_start (rnd_p 24) (rnd_p 53) (rnd_p 11) false 4 0 = - (1 / 8).
Proof.
  assert (R24 : rounding (rnd_p 24) (powerRZ 2 (-24))) by (apply (rounding_binary 24); lia).
  assert (R53 : rounding (rnd_p 53) (powerRZ 2 (-53))) by (apply (rounding_binary 53); lia).
  assert (R11 : rounding (rnd_p 11) (powerRZ 2 (-11))) by (apply (rounding_binary 11); lia).
  assert (DY : forall rd u, rounding rd u -> rd (1 / 4) = 1 / 4 /\ rd (1 / 8) = 1 / 8 /\ rd (1 / 16) = 1 / 16 /\ rd 4 = 4).
  { intros rd u RO. pose proof (ro_half _ _ RO) as E. pose proof (ro_two _ _ RO (1 / 4)) as E4. pose proof (ro_two _ _ RO (1 / 8)) as E8. pose proof (ro_two _ _ RO (1 / 16)) as E16.
    pose proof (ro_two _ _ RO 2) as F4. pose proof (ro_two _ _ RO 1) as F2. rewrite (ro_one _ _ RO) in F2. replace (2 * (1 / 4)) with (1 / 2) in E4 by lra. replace (2 * (1 / 8)) with (1 / 4) in E8 by lra. replace (2 * (1 / 16)) with (1 / 8) in E16 by lra.
    replace (2 * 2) with 4 in F4 by lra. replace (2 * 1) with 2 in F2 by lra. repeat split; lra. }
  destruct (DY _ _ R24) as (A4 & A8 & A16 & A). destruct (DY _ _ R53) as (B4 & B8 & _). destruct (DY _ _ R11) as (C4 & C8 & _).
  assert (I4 : INR 4 = 4) by (cbn; lra).
  split; [exact R24|]. split; [exact R53|]. split; [exact R11|]. split; [|split; [|split]].
  - unfold als_start. rewrite Rmult_1_l. apply (ro_idem _ _ R24).
  - unfold bpr_start. rewrite I4, A. replace (3 / 4 - 1 / 2) with (1 / 4) by lra. rewrite A4. replace (1 / 4 / 4) with (1 / 16) by lra. exact A16.
  - unfold gpu_als_start. rewrite I4. replace (- (1 / 2) / 4) with (- (1 / 8)) by lra. replace (1 / 2 / 4) with (1 / 8) by lra. rewrite (ro_opp _ _ R53), (ro_opp _ _ R24), B8, A8.
    unfold gpu_uniform, one_rounding. cbn [nsub nzero none_ Num_rnd]. assert (NE : reqb (1 / 8) 1 = false) by (unfold reqb; destruct (Req_EM_T (1 / 8) 1); auto; lra). rewrite NE. cbn [negb]. rewrite orb_true_r.
    replace (1 / 8 - - (1 / 8)) with (1 / 4) by lra. rewrite A4. replace (1 * (1 / 4) + - (1 / 8)) with (1 / 8) by lra. rewrite A8. exact C8.
  - unfold gpu_als_start. rewrite I4. replace (- (1 / 2) / 4) with (- (1 / 8)) by lra. replace (1 / 2 / 4) with (1 / 8) by lra. rewrite (ro_opp _ _ R53), (ro_opp _ _ R24), B8, A8.
    unfold gpu_uniform, two_roundings. cbn [nsub nzero none_ Num_rnd]. assert (NE : reqb (1 / 8) 1 = false) by (unfold reqb; destruct (Req_EM_T (1 / 8) 1); auto; lra). rewrite NE. cbn [negb]. rewrite orb_true_r.
    rewrite Rmult_0_l, (ro_zero _ _ R24), Rplus_0_l, (ro_opp _ _ R24), A8, (ro_opp _ _ R11), C8. reflexivity.
Qed.
