(** Error analysis of the cosine scores. *)
From Coq Require Import List Arith Lia Bool ZArith Reals Lra Psatz Sorted.
From Verif Require Import Base Num Heap Sparse TopkModel TopkSpec TopkProofs TopkBatch
  RecommendModel RecommendProofs RecommendProofs2 RecommendProofs3 RVec SimilarProofs MetricsModel MetricsProofs MetricsDouble DoubleProofs SimilarRound.
Import ListNotations.
Local Open Scope R_scope.

(* ---------- rounding to p bits ---------- *)
Lemma rne_opp y : rne (- y) = (- rne y)%Z.
Proof.
  pose proof (rne_near y) as N. destruct (Rlt_dec (Rabs (y - IZR (rne y))) (1 / 2)) as [L|NL].
  - apply rne_unique. rewrite opp_IZR. replace (- y - - IZR (rne y)) with (- (y - IZR (rne y))) by ring. rewrite Rabs_Ropp. auto.
  - assert (T : Rabs (y - IZR (rne y)) = 1 / 2) by lra. apply rne_even.
    { rewrite opp_IZR. replace (- y - - IZR (rne y)) with (- (y - IZR (rne y))) by ring. rewrite Rabs_Ropp. lra. }
    rewrite Z.even_opp. revert T. unfold rne. destruct (base_Int_part y) as [A B]. set (f := Int_part y) in *.
    destruct (Rlt_dec (y - IZR f) (1 / 2)); [intros T; unfold Rabs in T; destruct (Rcase_abs (y - IZR f)); lra|].
    destruct (Rlt_dec (1 / 2) (y - IZR f)); [intros T; rewrite plus_IZR in T; unfold Rabs in T; destruct (Rcase_abs (y - (IZR f + 1))); lra|].
    destruct (Z.even f) eqn:EV; auto. intros _. rewrite Z.even_add, EV. reflexivity.
Qed.
Section P.
Variable p : Z.
Hypothesis p_pos : (1 <= p)%Z.
Lemma exponent_p_eq x : exponent_p p x = (exponent x + (53 - p))%Z.
Proof. unfold exponent_p, exponent. lia. Qed.
Lemma exponent_p_spec x : 0 < x -> powerRZ 2 (exponent_p p x + (p - 1)) <= x < powerRZ 2 (exponent_p p x + p).
Proof.
  intros P. pose proof (exponent_spec x P) as E. rewrite exponent_p_eq.
  replace (exponent x + (53 - p) + (p - 1))%Z with (exponent x + 52)%Z by lia. replace (exponent x + (53 - p) + p)%Z with (exponent x + 53)%Z by lia. exact E.
Qed.
Lemma rnd_p_zero : rnd_p p 0 = 0.
Proof. unfold rnd_p. destruct (Req_EM_T 0 0); auto; lra. Qed.
Lemma rnd_p_eq x : x <> 0 -> rnd_p p x = IZR (rne (x * powerRZ 2 (- exponent_p p x))) * powerRZ 2 (exponent_p p x).
Proof. intros P. unfold rnd_p. destruct (Req_EM_T x 0); auto; lra. Qed.
Lemma rnd_p_opp x : rnd_p p (- x) = - rnd_p p x.
Proof.
  destruct (Req_dec x 0) as [->|N]; [rewrite Ropp_0, rnd_p_zero; lra|]. rewrite !rnd_p_eq by lra.
  assert (E : exponent_p p (- x) = exponent_p p x) by (unfold exponent_p; rewrite Rabs_Ropp; auto). rewrite E.
  rewrite Ropp_mult_distr_l_reverse, rne_opp, opp_IZR. ring.
Qed.
Lemma scaled_p x : 0 < x -> powerRZ 2 (p - 1) <= x * powerRZ 2 (- exponent_p p x) < powerRZ 2 p.
Proof.
  intros P. destruct (exponent_p_spec x P) as [A B]. rewrite p2_add in A, B. pose proof (p2_neg (exponent_p p x)) as N.
  pose proof (p2_pos (- exponent_p p x)) as Q. set (a := powerRZ 2 (exponent_p p x)) in *. set (b := powerRZ 2 (- exponent_p p x)) in *. split.
  - apply (Rmult_le_compat_r b) in A; [|lra]. replace (a * powerRZ 2 (p - 1) * b) with (powerRZ 2 (p - 1) * (a * b)) in A by ring. rewrite N in A. lra.
  - apply (Rmult_lt_compat_r b) in B; [|lra]. replace (a * powerRZ 2 p * b) with (powerRZ 2 p * (a * b)) in B by ring. rewrite N in B. lra.
Qed.
Lemma rnd_p_low x : 0 < x -> powerRZ 2 (exponent_p p x + (p - 1)) <= rnd_p p x.
Proof.
  intros P. rewrite rnd_p_eq by lra. destruct (scaled_p x P) as [A _]. rewrite p2_add, Rmult_comm.
  apply Rmult_le_compat_r; [left; apply p2_pos|]. rewrite (p2_pos_int (p - 1)) in * by lia. apply IZR_le.
  rewrite <- (rne_int (2 ^ (p - 1))). apply rne_mono; auto.
Qed.
Lemma rnd_p_high x : 0 < x -> rnd_p p x <= powerRZ 2 (exponent_p p x + p).
Proof.
  intros P. rewrite rnd_p_eq by lra. destruct (scaled_p x P) as [_ A]. rewrite p2_add, (Rmult_comm (powerRZ 2 (exponent_p p x))).
  apply Rmult_le_compat_r; [left; apply p2_pos|]. rewrite (p2_pos_int p) in * by lia. apply IZR_le.
  rewrite <- (rne_int (2 ^ p)). apply rne_mono; lra.
Qed.
Lemma rnd_p_mono_pos x y : 0 <= x <= y -> rnd_p p x <= rnd_p p y.
Proof.
  intros [P L]. destruct (Req_dec x 0) as [->|NX].
  - rewrite rnd_p_zero. destruct (Req_dec y 0) as [->|NY]; [rewrite rnd_p_zero; lra|].
    pose proof (rnd_p_low y). pose proof (p2_pos (exponent_p p y + (p - 1))). lra.
  - assert (PX : 0 < x) by lra. pose proof (exponent_mono x y (conj PX L)) as E.
    destruct (Z.eq_dec (exponent x) (exponent y)) as [EE|NE].
    + rewrite !rnd_p_eq by lra. rewrite !exponent_p_eq, <- EE. apply Rmult_le_compat_r; [left; apply p2_pos|]. apply IZR_le, rne_mono.
      apply Rmult_le_compat_r; [left; apply p2_pos|auto].
    + eapply Rle_trans; [apply rnd_p_high; auto|]. eapply Rle_trans; [|apply rnd_p_low; lra]. apply p2_le. rewrite !exponent_p_eq. lia.
Qed.
Lemma rnd_p_mono x y : x <= y -> rnd_p p x <= rnd_p p y.
Proof.
  intros L. destruct (Rle_dec 0 x) as [P|N]; [apply rnd_p_mono_pos; lra|]. destruct (Rle_dec 0 y) as [Q|Q].
  - assert (A : 0 <= rnd_p p y) by (rewrite <- rnd_p_zero; apply rnd_p_mono_pos; lra).
    assert (B : 0 <= rnd_p p (- x)) by (rewrite <- rnd_p_zero; apply rnd_p_mono_pos; lra). rewrite rnd_p_opp in B. lra.
  - assert (A : rnd_p p (- y) <= rnd_p p (- x)) by (apply rnd_p_mono_pos; lra). rewrite !rnd_p_opp in A. lra.
Qed.
Lemma rnd_p_rel_pos x : 0 < x -> Rabs (rnd_p p x - x) <= powerRZ 2 (- p) * x.
Proof.
  intros PX. rewrite rnd_p_eq by lra. pose proof (rne_near (x * powerRZ 2 (- exponent_p p x))) as N. apply abs_both in N.
  set (m := IZR (rne (x * powerRZ 2 (- exponent_p p x)))) in *.
  destruct (exponent_p_spec x PX) as [A _]. replace (exponent_p p x + (p - 1))%Z with (exponent_p p x + p + -1)%Z in A by lia. rewrite !p2_add in A.
  pose proof (p2_pos (exponent_p p x)) as Q. pose proof (p2_neg (exponent_p p x)) as I. pose proof (p2_neg p) as K. pose proof (p2_pos (- p)) as KP.
  change (powerRZ 2 (-1)) with (/ (2 * 1)) in A.
  set (a := powerRZ 2 (exponent_p p x)) in *. set (q := powerRZ 2 (- exponent_p p x)) in *.
  assert (B : a / 2 <= powerRZ 2 (- p) * x).
  { apply (Rmult_le_compat_l (powerRZ 2 (- p))) in A; [|lra]. replace (powerRZ 2 (- p) * (a * powerRZ 2 p * / (2 * 1))) with (a / 2 * (powerRZ 2 p * powerRZ 2 (- p))) in A by field. rewrite K in A. lra. }
  assert (EX : x = x * q * a) by (rewrite Rmult_assoc, (Rmult_comm q), I; ring).
  assert (C : m * a <= (x * q + 1 / 2) * a) by (apply Rmult_le_compat_r; lra).
  assert (D : (x * q - 1 / 2) * a <= m * a) by (apply Rmult_le_compat_r; lra).
  rewrite Rmult_plus_distr_r in C. rewrite Rmult_minus_distr_r in D. rewrite <- EX in C, D. apply Rabs_le. lra.
Qed.
Lemma rnd_p_rel x : Rabs (rnd_p p x - x) <= powerRZ 2 (- p) * Rabs x.
Proof.
  destruct (Rtotal_order x 0) as [N|[->|P]].
  - replace (rnd_p p x - x) with (- (rnd_p p (- x) - - x)) by (rewrite rnd_p_opp; ring). rewrite Rabs_Ropp, (Rabs_left x) by lra. apply rnd_p_rel_pos. lra.
  - rewrite rnd_p_zero, Rminus_0_r, Rabs_R0. lra.
  - rewrite (Rabs_right x) by lra. apply rnd_p_rel_pos. lra.
Qed.
End P.

(* ---------- any rounding of relative error u ---------- *)
(** What is used of a rounding: it is monotone, and its relative error is at most [u]. *)
Record rounds (rnd : R -> R) (u : R) : Prop := {
  rd_mono : forall x y, x <= y -> rnd x <= rnd y;
  rd_rel : forall x, Rabs (rnd x - x) <= u * Rabs x }.
Lemma rounds_p p : (1 <= p)%Z -> rounds (rnd_p p) (powerRZ 2 (- p)).
Proof. intros P. constructor; [apply rnd_p_mono; auto|intros; apply rnd_p_rel; auto]. Qed.

Section E.
Variables (rnd : R -> R) (u : R).
Hypothesis RD : forall x, Rabs (rnd x - x) <= u * Rabs x.
Hypothesis u_range : 0 <= u < 1.
Let Q := 1 - u.
Let h := / (1 - u).
Lemma Qh : Q * h = 1. Proof. unfold Q, h. field. lra. Qed.
Lemma Q_range : 0 < Q <= 1. Proof. unfold Q. lra. Qed.
Lemma h_ge : 1 + u <= h.
Proof. unfold h. apply (Rmult_le_reg_l (1 - u)); [lra|]. rewrite Rinv_r by lra. nra. Qed.
Lemma h_one : 1 <= h. Proof. pose proof h_ge. lra. Qed.
Lemma hn_one n : 1 <= h ^ n. Proof. apply pow_R1_Rle, h_one. Qed.
Lemma Qhn n : Q ^ n * h ^ n = 1. Proof. rewrite <- Rpow_mult_distr, Qh, pow1. reflexivity. Qed.
Lemma Qn_pos n : 0 < Q ^ n. Proof. apply pow_lt. pose proof Q_range. lra. Qed.
Lemma Qn_one n : Q ^ n <= 1.
Proof. pose proof (pow_incr Q 1 n) as P. rewrite pow1 in P. apply P. pose proof Q_range. lra. Qed.
Lemma rnd_fac x : exists t, Q <= t <= h /\ rnd x = x * t.
Proof.
  pose proof (RD x) as E. destruct (Req_dec x 0) as [->|N].
  - rewrite Rabs_R0, Rmult_0_r, Rminus_0_r in E. apply abs_both in E. exists 1. pose proof h_one. pose proof Q_range. split; [lra|]. lra.
  - exists (rnd x / x). split; [|field; auto]. pose proof h_ge.
    assert (D : Rabs (rnd x / x - 1) <= u).
    { replace (rnd x / x - 1) with ((rnd x - x) * / x) by (field; auto). rewrite Rabs_mult, Rabs_inv.
      apply Rabs_pos_lt in N. apply (Rmult_le_compat_r (/ Rabs x)) in E; [|left; apply Rinv_0_lt_compat; auto].
      rewrite Rmult_assoc, Rinv_r in E by lra. lra. }
    apply abs_both in D. unfold Q. lra.
Qed.
Lemma rnd_zero : rnd 0 = 0.
Proof. destruct (rnd_fac 0) as (t & _ & E). rewrite E. ring. Qed.

Let dsum (l : list (R * R)) (s : R) : R := fold_left (fun a q => rnd (a + rnd (fst q * snd q))) l s.
Lemma rdot_dsum x y : @ndot R (Num_rnd rnd) x y = dsum (combine x y) 0.
Proof.
  unfold ndot, nsum, dsum. cbn [nadd nmul nzero Num_rnd]. generalize 0. induction (combine x y) as [|q l IH]; intros s; cbn [map fold_left]; auto.
Qed.
Let psum (l : list (R * R)) : R := rsum (map (fun q => fst q * snd q) l).
Let pabs (l : list (R * R)) : R := rsum (map (fun q => Rabs (fst q * snd q)) l).
Lemma pabs_pos l : 0 <= pabs l.
Proof. apply rsum_nonneg. intros x Hx. apply in_map_iff in Hx. destruct Hx as (q & <- & _). apply Rabs_pos. Qed.
Lemma dsum_err l : forall s, Rabs (dsum l s - (s + psum l)) <= (h ^ length l - 1) * Rabs s + (h ^ (length l + 1) - 1) * pabs l.
Proof.
  induction l as [|[a b] l IH]; intros s.
  - unfold dsum, psum, pabs. cbn. replace (s - (s + 0)) with 0 by ring. rewrite Rabs_R0. lra.
  - change (dsum ((a, b) :: l) s) with (dsum l (rnd (s + rnd (a * b)))). set (s1 := rnd (s + rnd (a * b))).
    specialize (IH s1). change (psum ((a, b) :: l)) with (a * b + psum l). change (pabs ((a, b) :: l)) with (Rabs (a * b) + pabs l).
    pose proof (RD (a * b)) as E1. pose proof (RD (s + rnd (a * b))) as E2. fold s1 in E2.
    set (t := a * b) in *. set (T := Rabs t) in *. set (S0 := Rabs s) in *. set (n := length l) in *.
    assert (T0 : 0 <= T) by apply Rabs_pos. assert (S00 : 0 <= S0) by apply Rabs_pos.
    assert (R1 : Rabs (rnd t) <= (1 + u) * T).
    { replace (rnd t) with ((rnd t - t) + t) by ring. eapply Rle_trans; [apply Rabs_triang|]. fold T. lra. }
    assert (R2 : Rabs (s + rnd t) <= S0 + (1 + u) * T) by (eapply Rle_trans; [apply Rabs_triang|]; fold S0; lra).
    assert (U2 : u * Rabs (s + rnd t) <= u * (S0 + (1 + u) * T)) by (apply Rmult_le_compat_l; lra).
    assert (D1 : Rabs (s1 - (s + t)) <= u * S0 + (2 * u + u * u) * T).
    { replace (s1 - (s + t)) with ((s1 - (s + rnd t)) + (rnd t - t)) by ring. eapply Rle_trans; [apply Rabs_triang|]. lra. }
    assert (D2 : Rabs s1 <= (1 + u) * S0 + (1 + u) * (1 + u) * T).
    { replace s1 with ((s1 - (s + rnd t)) + (s + rnd t)) by ring. eapply Rle_trans; [apply Rabs_triang|]. lra. }
    pose proof (hn_one n) as Hn. pose proof h_ge as HG. pose proof (pabs_pos l) as PP.
    assert (D3 : (h ^ n - 1) * Rabs s1 <= (h ^ n - 1) * ((1 + u) * S0 + (1 + u) * (1 + u) * T)) by (apply Rmult_le_compat_l; lra).
    replace (dsum l s1 - (s + (t + psum l))) with ((dsum l s1 - (s1 + psum l)) + (s1 - (s + t))) by ring.
    eapply Rle_trans; [apply Rabs_triang|]. cbn [length Nat.add]. fold n. rewrite (Nat.add_comm n 1) in *. cbn [Nat.add pow] in *.
    assert (A1 : h ^ n * (1 + u) <= h ^ n * h) by (apply Rmult_le_compat_l; lra).
    assert (A2 : h ^ n * ((1 + u) * (1 + u)) <= h ^ n * (h * h)) by (apply Rmult_le_compat_l; [lra|]; apply Rmult_le_compat; lra).
    assert (A3 : h ^ n * h * 1 <= h ^ n * h * h) by (apply Rmult_le_compat_l; nra).
    apply (Rmult_le_compat_r S0) in A1; [|lra]. apply (Rmult_le_compat_r T) in A2; [|lra]. apply (Rmult_le_compat_r (pabs l)) in A3; [|lra]. lra.
Qed.
Lemma dsum_pos l : forall s, 0 <= s -> (forall q, In q l -> 0 <= fst q * snd q) ->
  Q ^ length l * s + Q ^ (length l + 1) * psum l <= dsum l s <= h ^ length l * s + h ^ (length l + 1) * psum l.
Proof.
  induction l as [|[a b] l IH]; intros s Hs HP.
  - unfold dsum, psum. cbn. lra.
  - change (dsum ((a, b) :: l) s) with (dsum l (rnd (s + rnd (a * b)))). change (psum ((a, b) :: l)) with (a * b + psum l).
    assert (HT : 0 <= a * b) by (apply (HP (a, b)); left; auto). set (t := a * b) in *.
    destruct (rnd_fac t) as (t1 & B1 & E1). destruct (rnd_fac (s + t * t1)) as (t2 & B2 & E2). rewrite E1, E2.
    pose proof Q_range as QR. pose proof h_one as H1.
    assert (S1 : 0 <= (s + t * t1) * t2) by (apply Rmult_le_pos; [|lra]; assert (0 <= t * t1) by (apply Rmult_le_pos; lra); lra).
    specialize (IH ((s + t * t1) * t2) S1). destruct IH as [L U]; [intros q Hq; apply HP; right; auto|].
    assert (PP : 0 <= psum l).
    { apply rsum_nonneg. intros x Hx. apply in_map_iff in Hx. destruct Hx as (q & <- & Hq). apply HP. right. auto. }
    cbn [length Nat.add pow]. set (n := length l) in *. rewrite (Nat.add_comm n 1) in *. cbn [Nat.add pow] in *.
    pose proof (Qn_pos n) as Qn. pose proof (hn_one n) as Hn.
    assert (W1 : Q * Q <= t1 * t2) by (apply Rmult_le_compat; lra). assert (W2 : t1 * t2 <= h * h) by (apply Rmult_le_compat; lra).
    assert (V1 : t * (Q * Q) <= t * (t1 * t2)) by (apply Rmult_le_compat_l; lra). assert (V2 : t * (t1 * t2) <= t * (h * h)) by (apply Rmult_le_compat_l; lra).
    assert (V3 : s * Q <= s * t2) by (apply Rmult_le_compat_l; lra). assert (V4 : s * t2 <= s * h) by (apply Rmult_le_compat_l; lra).
    assert (X1 : Q * s + Q * Q * t <= (s + t * t1) * t2) by lra.
    assert (X2 : (s + t * t1) * t2 <= h * s + h * h * t) by lra.
    assert (Y1 : Q ^ n * (Q * s + Q * Q * t) <= Q ^ n * ((s + t * t1) * t2)) by (apply Rmult_le_compat_l; lra).
    assert (Y2 : h ^ n * ((s + t * t1) * t2) <= h ^ n * (h * s + h * h * t)) by (apply Rmult_le_compat_l; lra).
    assert (Z1 : Q * (Q * Q ^ n) * psum l <= Q * Q ^ n * psum l).
    { apply Rmult_le_compat_r; auto. rewrite <- (Rmult_1_l (Q * Q ^ n)) at 2. apply Rmult_le_compat_r; [|lra]. apply Rmult_le_pos; lra. }
    assert (Z2 : h * h ^ n * psum l <= h * (h * h ^ n) * psum l).
    { apply Rmult_le_compat_r; auto. rewrite <- (Rmult_1_l (h * h ^ n)) at 1. apply Rmult_le_compat_r; [|lra]. apply Rmult_le_pos; lra. }
    lra.
Qed.

Lemma psum_rdot x : forall y, psum (combine x y) = rdot x y.
Proof. unfold psum. induction x as [|a x IH]; intros [|b y]; simpl; auto. rewrite IH. auto. Qed.
Lemma pabs_cs x y : pabs (combine x y) <= rnorm x * rnorm y.
Proof.
  assert (E : pabs (combine x y) = rdot (map Rabs x) (map Rabs y)).
  { unfold pabs. revert y. induction x as [|a x IH]; intros [|b y]; simpl; auto. rewrite IH, Rabs_mult. auto. }
  assert (SQ : forall v, rdot (map Rabs v) (map Rabs v) = rdot v v).
  { induction v as [|a v IH]; simpl; auto. rewrite IH. f_equal. rewrite <- Rabs_mult. apply Rabs_right. nra. }
  pose proof (cauchy_schwarz (map Rabs x) (map Rabs y)) as CS. rewrite !SQ, <- E in CS. pose proof (pabs_pos (combine x y)).
  pose proof (rnorm_pos x). pose proof (rnorm_pos y). apply Rsqr_incr_0_var; [|nra]. unfold Rsqr.
  assert (Ex : rnorm x * rnorm x = rdot x x) by (apply sqrt_sqrt, rdot_nonneg). assert (Ey : rnorm y * rnorm y = rdot y y) by (apply sqrt_sqrt, rdot_nonneg).
  replace (rnorm x * rnorm y * (rnorm x * rnorm y)) with ((rnorm x * rnorm x) * (rnorm y * rnorm y)) by ring. rewrite Ex, Ey. auto.
Qed.
Lemma norm_err f v : length v = f -> Q ^ (f + 2) * rnorm v <= norm_rnd rnd v <= h ^ (f + 2) * rnorm v.
Proof.
  intros L. unfold norm_rnd. rewrite rdot_dsum.
  destruct (dsum_pos (combine v v) 0) as [A B]; [lra| |].
  { intros [a b] Hq. cbn [fst snd]. assert (a = b); [|subst; nra]. clear - Hq. induction v; simpl in Hq; [tauto|]. destruct Hq as [E|Hq]; [congruence|auto]. }
  rewrite psum_rdot in A, B. rewrite combine_length, Nat.min_id, L in A, B. set (d := dsum (combine v v) 0) in *. rewrite Rmult_0_r, Rplus_0_l in A, B.
  pose proof (rnorm_pos v) as NP. assert (Ev : rdot v v = rnorm v * rnorm v) by (symmetry; apply sqrt_sqrt, rdot_nonneg). rewrite Ev in A, B.
  set (k := (f + 1)%nat) in *. pose proof (Qn_pos k) as QP. pose proof (Qn_one k) as Q1. pose proof (hn_one k) as H1.
  assert (NN : 0 <= rnorm v * rnorm v) by nra.
  assert (D0 : 0 <= d) by nra.
  assert (S1 : Q ^ k * rnorm v <= sqrt d).
  { rewrite <- (sqrt_square (Q ^ k * rnorm v)) by nra. apply sqrt_le_1; nra. }
  assert (S2 : sqrt d <= h ^ k * rnorm v).
  { rewrite <- (sqrt_square (h ^ k * rnorm v)) by nra. apply sqrt_le_1; nra. }
  destruct (rnd_fac (sqrt d)) as (t & T & E). rewrite E. replace (f + 2)%nat with (S k) by (unfold k; lia). cbn [pow].
  pose proof Q_range. pose proof h_one. pose proof (sqrt_pos d).
  split.
  - replace (Q * Q ^ k * rnorm v) with (Q ^ k * rnorm v * Q) by ring. apply Rmult_le_compat; nra.
  - replace (h * h ^ k * rnorm v) with (h ^ k * rnorm v * h) by ring. apply Rmult_le_compat; nra.
Qed.
Lemma dot_err_rel q y f : length q = f -> length y = f ->
  Rabs (@ndot R (Num_rnd rnd) q y - rdot q y) <= (h ^ (f + 1) - 1) * (rnorm q * rnorm y).
Proof.
  intros Lq Ly. rewrite rdot_dsum. pose proof (dsum_err (combine q y) 0) as E.
  rewrite combine_length, Lq, Ly, Nat.min_id, Rabs_R0, Rmult_0_r, Rplus_0_l, Rplus_0_l in E. rewrite psum_rdot in E.
  eapply Rle_trans; [exact E|]. apply Rmult_le_compat_l; [pose proof (hn_one (f + 1)); lra|]. apply pabs_cs.
Qed.
Lemma h_le_bound K : INR K * u < 1 -> h ^ K <= / (1 - INR K * u).
Proof.
  intros B. assert (BN : forall n, 1 - INR n * u <= Q ^ n).
  { induction n as [|n IH]; [cbn; lra|]. rewrite S_INR. cbn [pow]. pose proof (Qn_one n). pose proof (Qn_pos n). unfold Q in *. pose proof (pos_INR n). nra. }
  specialize (BN K). pose proof (Qhn K) as E. pose proof (hn_one K). apply (Rmult_le_reg_l (1 - INR K * u)); [lra|]. rewrite Rinv_r by lra. nra.
Qed.
End E.

Section F.
Variables (rnd : R -> R) (u : R).
Hypothesis RD : rounds rnd u.
Hypothesis u_range : 0 <= u < 1.
Let RL := rd_rel _ _ RD.
Let h := / (1 - u).
Let Q := 1 - u.
Local Notation NR := (Num_rnd rnd).
#[local] Instance NumOrd_rnd : @NumOrd R NR.
Proof. constructor; [exact (@nltb_irrefl R Num_R NumOrd_R)|exact (@nltb_trans R Num_R NumOrd_R)|exact (@nltb_cotrans R Num_R NumOrd_R)]. Qed.

Definition snorm (tiny : R) (v : list R) : R := @safe_norm R NR (norm_rnd rnd) tiny v.
Lemma snorm_zero tiny v : rnorm v = 0 -> snorm tiny v = tiny.
Proof.
  intros E. pose proof (norm_err rnd u RL u_range _ v eq_refl) as B. rewrite E in B. rewrite !Rmult_0_r in B.
  unfold snorm, safe_norm. assert (N : norm_rnd rnd v = 0) by lra. rewrite N. change (@neqb R NR 0 nzero) with (@neqb R Num_R 0 0).
  rewrite (proj2 (neqb_R_true 0 0) eq_refl). auto.
Qed.
Lemma snorm_eq tiny v : rnorm v <> 0 -> snorm tiny v = norm_rnd rnd v.
Proof.
  intros E. pose proof (norm_err rnd u RL u_range _ v eq_refl) as B. pose proof (rnorm_pos v). pose proof (Qn_pos u u_range (length v + 2)).
  assert (N : norm_rnd rnd v <> 0) by nra. unfold snorm, safe_norm. cbv zeta.
  destruct (@neqb R NR (norm_rnd rnd v) nzero) eqn:EQ; auto. change (@neqb R Num_R (norm_rnd rnd v) 0 = true) in EQ. apply neqb_R_true in EQ. contradiction.
Qed.
Lemma snorm_pos tiny v : 0 < tiny -> 0 < snorm tiny v.
Proof.
  intros T. destruct (Req_dec (rnorm v) 0) as [Z|Z]; [rewrite snorm_zero; auto|]. rewrite snorm_eq by auto.
  pose proof (norm_err rnd u RL u_range _ v eq_refl) as B. pose proof (rnorm_pos v). pose proof (Qn_pos u u_range (length v + 2)). nra.
Qed.
Definition rscore (tiny : R) (q y : list R) : R := rnd (rnd (@ndot R NR q y / snorm tiny y) / snorm tiny q).
Lemma dot_err q y f : length q = f -> length y = f ->
  Rabs (@ndot R NR q y - rdot q y) <= (h ^ (f + 1) - 1) * (rnorm q * rnorm y).
Proof. apply (dot_err_rel rnd u RL u_range). Qed.
Lemma rscore_err tiny q y f : length q = f -> length y = f ->
  Rabs (rscore tiny q y - cosine q y) <= h ^ (3 * f + 7) - 1.
Proof.
  intros Lq Ly. pose proof (hn_one u u_range) as H1. fold h in H1. pose proof (dot_err q y f Lq Ly) as DE.
  destruct (Req_dec (rnorm q * rnorm y) 0) as [Z|NZ].
  - assert (D0 : @ndot R NR q y = rdot q y). { rewrite Z, Rmult_0_r in DE. apply abs_both in DE. lra. }
    assert (C0 : cosine q y = 0 /\ rdot q y = 0).
    { unfold cosine. apply Rmult_integral in Z. destruct (Req_EM_T (rnorm q) 0) as [Zq|Zq]; [split; auto; apply rdot_all_zero, rnorm_zero; auto|].
      destruct Z as [Z|Z]; [contradiction|]. destruct (Req_EM_T (rnorm y) 0); [|contradiction]. split; auto. rewrite rdot_comm. apply rdot_all_zero, rnorm_zero; auto. }
    destruct C0 as [-> R0]. unfold rscore. rewrite D0, R0. unfold Rdiv. rewrite Rmult_0_l, (rnd_zero rnd u RL u_range), Rmult_0_l, (rnd_zero rnd u RL u_range).
    rewrite Rminus_0_r, Rabs_R0. specialize (H1 (3 * f + 7)%nat). lra.
  - assert (NQ : rnorm q <> 0) by (intros X; rewrite X, Rmult_0_l in NZ; auto). assert (NY : rnorm y <> 0) by (intros X; rewrite X, Rmult_0_r in NZ; auto).
    pose proof (rnorm_pos q) as PQ. pose proof (rnorm_pos y) as PY.
    pose proof (cosine_range q y) as CR. assert (CE : rdot q y = cosine q y * (rnorm q * rnorm y)).
    { unfold cosine. destruct (Req_EM_T (rnorm q) 0); [contradiction|]. destruct (Req_EM_T (rnorm y) 0); [contradiction|]. field. auto. }
    set (c := cosine q y) in *. set (a := rnorm q) in *. set (b := rnorm y) in *. assert (AB : 0 < a * b) by (apply Rmult_lt_0_compat; lra).
    pose proof (norm_err rnd u RL u_range f q Lq) as Bq. pose proof (norm_err rnd u RL u_range f y Ly) as By. fold a in Bq. fold b in By. fold h in Bq, By. fold Q in Bq, By.
    unfold rscore. rewrite !snorm_eq by auto. set (d := @ndot R NR q y) in *. set (nq := norm_rnd rnd q) in *. set (ny := norm_rnd rnd y) in *.
    set (k := (f + 2)%nat) in *. pose proof (Qhn u u_range) as QH. fold h Q in QH. pose proof (Qn_pos u u_range) as QP. fold Q in QP.
    assert (Pq : 0 < nq) by (pose proof (QP k); nra). assert (Py : 0 < ny) by (pose proof (QP k); nra).
    destruct (rnd_fac rnd u RL u_range (d / ny)) as (t1 & T1 & E1). destruct (rnd_fac rnd u RL u_range (d / ny * t1 / nq)) as (t2 & T2 & E2). fold h in T1, T2. fold Q in T1, T2.
    rewrite E1, E2.
    set (e := d / (a * b) - c).
    assert (EE : Rabs e <= h ^ (f + 1) - 1).
    { unfold e. rewrite CE in DE. replace (d / (a * b) - c) with ((d - c * (a * b)) * / (a * b)) by (field; lra). rewrite Rabs_mult, Rabs_inv, (Rabs_right (a * b)) by lra.
      apply (Rmult_le_reg_r (a * b)); auto. rewrite Rmult_assoc, Rinv_l, Rmult_1_r by lra. exact DE. }
    set (w := a / nq * (b / ny) * (t1 * t2)).
    replace (d / ny * t1 / nq * t2) with ((c + e) * w) by (unfold e, w; field; repeat split; lra).
    assert (FR : forall x n, 0 < x -> 0 < n -> Q ^ k * x <= n <= h ^ k * x -> Q ^ k <= x / n <= h ^ k).
    { intros x n Px Pn [L U]. split.
      - apply (Rmult_le_reg_r n); auto. unfold Rdiv. rewrite Rmult_assoc, Rinv_l, Rmult_1_r by lra.
        apply (Rmult_le_compat_l (Q ^ k)) in U; [|pose proof (QP k); lra]. rewrite <- Rmult_assoc, QH in U. lra.
      - apply (Rmult_le_reg_r n); auto. unfold Rdiv. rewrite Rmult_assoc, Rinv_l, Rmult_1_r by lra.
        apply (Rmult_le_compat_l (h ^ k)) in L; [|pose proof (H1 k); lra]. rewrite <- Rmult_assoc, (Rmult_comm (h ^ k) (Q ^ k)), QH in L. lra. }
    assert (FQ := FR a nq ltac:(lra) Pq Bq). assert (FY := FR b ny ltac:(lra) Py By).
    pose proof (QP 1%nat) as Q1. pose proof (H1 1%nat) as h1. rewrite pow_1 in Q1, h1.
    set (m := (k + k + 2)%nat).
    assert (W1 : Q ^ m <= w).
    { unfold w, m. rewrite !pow_add. replace (Q ^ 2) with (Q * Q) by ring. pose proof (QP k).
      apply Rmult_le_compat; [nra|nra| |apply Rmult_le_compat; lra]. apply Rmult_le_compat; lra. }
    assert (W2 : w <= h ^ m).
    { unfold w, m. rewrite !pow_add. replace (h ^ 2) with (h * h) by ring. pose proof (QP k).
      apply Rmult_le_compat; [apply Rmult_le_pos; lra|apply Rmult_le_pos; lra| |apply Rmult_le_compat; lra]. apply Rmult_le_compat; lra. }
    assert (W3 : Rabs (w - 1) <= h ^ m - 1).
    { apply Rabs_le. pose proof (QH m) as X. pose proof (QP m). pose proof (H1 m).
      assert (Y : 1 - Q ^ m <= h ^ m - 1) by (assert (0 <= (h ^ m - 1) * (1 - Q ^ m)); [apply Rmult_le_pos; [lra|]; pose proof (Qn_one u u_range m) as Z1; fold Q in Z1; lra|nra]). lra. }
    replace ((c + e) * w - c) with (c * (w - 1) + e * w) by ring. eapply Rle_trans; [apply Rabs_triang|]. rewrite !Rabs_mult.
    assert (C1 : Rabs c <= 1) by (apply Rabs_le; lra). assert (W0 : 0 < w) by (pose proof (QP m); lra). rewrite (Rabs_right w) by lra.
    replace (3 * f + 7)%nat with (m + (f + 1))%nat by (unfold m, k; lia). rewrite pow_add.
    pose proof (Rabs_pos c). pose proof (Rabs_pos (w - 1)). pose proof (Rabs_pos e). pose proof (H1 (f + 1)%nat).
    assert (X1 : Rabs c * Rabs (w - 1) <= 1 * (h ^ m - 1)) by (apply Rmult_le_compat; lra).
    assert (X2 : Rabs e * w <= (h ^ (f + 1) - 1) * h ^ m) by (apply Rmult_le_compat; lra). lra.
Qed.

Lemma similar_rnd HP fmin tiny factors f id N : std_heap_ok HP -> 0 < tiny ->
  sim_wf factors f -> idx_ok (length factors) id -> (0 < N)%Z ->
  let n := length factors in
  exists ids scores,
    @similar R NR HP fmin factors (@norms_of R NR (norm_rnd rnd) tiny factors) (Scalar id) N None None =
      Ok (OneRow (map Z.of_nat (pad (Z.to_nat N) 0%nat ids)) (pad (Z.to_nat N) 0 scores)) /\
    TopN (fun j => rscore tiny (nth (wrap n id) factors []) (nth j factors [])) (seq 0 n) (Nat.min (Z.to_nat N) n) ids scores.
Proof.
  intros HC Ht W Hid HN n. unfold similar. cbn [id_list].
  assert (Ln : length (@norms_of R NR (norm_rnd rnd) tiny factors) = n) by (unfold norms_of; apply map_length).
  cbn [map_res]. rewrite Ln. unfold n at 1. rewrite np_index_ok by auto. cbn [bind]. fold n.
  unfold restrict_similar. cbn [bind]. rewrite gather_ok by (intros z [<-|[]]; auto). cbn [bind map].
  pose proof (wrap_lt _ _ Hid) as HW. fold n in HW. fold n.
  set (q := nth (wrap n id) factors []) in *.
  unfold similarity_score. cbn [option_map].
  destruct (@topk_row_topn R NR NumOrd_rnd HP HC fmin factors (Some (@norms_of R NR (norm_rnd rnd) tiny factors)) None None (Z.to_nat N) 0%nat q)
    as [r [E TN]]; auto; try lia.
  { intros y Hy. rewrite (W y Hy). symmetry. apply W. apply nth_In. auto. }
  assert (NE : factors <> []) by (intro X; unfold n in HW; rewrite X in HW; simpl in HW; lia).
  assert (ET : @topk R NR HP fmin factors [q] N (Some (@norms_of R NR (norm_rnd rnd) tiny factors)) None None =
     Ok (map (fun r => pad (Z.to_nat N) 0%nat (map snd r)) [r], map (fun r => pad (Z.to_nat N) nzero (map fst r)) [r])).
  { apply topk_ok; auto. exists [r]. split; auto. constructor; auto. }
  rewrite ET. cbn [bind finish fst snd map combine nth remap].
  assert (NN : forall i, (i < n)%nat -> nth i (@norms_of R NR (norm_rnd rnd) tiny factors) nzero = snorm tiny (nth i factors [])).
  { intros i Hi. unfold norms_of. rewrite (nth_indep _ _ (@safe_norm R NR (norm_rnd rnd) tiny [])) by (rewrite map_length; auto). apply (map_nth (@safe_norm R NR (norm_rnd rnd) tiny)). }
  rewrite NN by auto. fold q. set (c := snorm tiny q). assert (Hc : 0 < c) by (apply snorm_pos; auto).
  exists (map snd r), (map (fun s => rnd (s / c)) (map fst r)). split.
  - f_equal. f_equal. unfold pad. rewrite map_app, !map_length. change (@ndiv R NR) with (fun a b => rnd (a / b)). cbn beta. f_equal.
    induction (Z.to_nat N - length r)%nat as [|x IH]; auto. cbn [repeat map]. f_equal; auto. change (@nzero R NR) with 0. unfold Rdiv. rewrite Rmult_0_l. apply (rnd_zero rnd u RL u_range).
  - destruct TN as [L S0 ND I D B].
    assert (EQ : forall j, In j (seq 0 n) -> rnd (fscore fmin (@filtered R None None (length factors) 0) (@base_score R NR factors (Some (@norms_of R NR (norm_rnd rnd) tiny factors)) q) j / c) = rscore tiny q (nth j factors [])).
    { intros j Hj. apply in_seq in Hj. unfold fscore, filtered. cbn [orb]. unfold base_score. rewrite NN by lia. reflexivity. }
    set (sc := fscore fmin (@filtered R None None (length factors) 0) (@base_score R NR factors (Some (@norms_of R NR (norm_rnd rnd) tiny factors)) q)) in *.
    assert (M : forall x y, In x (seq 0 n) -> In y (seq 0 n) -> @nleb R NR (sc x) (sc y) = true -> @nleb R Num_R (rscore tiny q (nth x factors [])) (rscore tiny q (nth y factors [])) = true).
    { intros x y Hx Hy E1. change (@nleb R Num_R (sc x) (sc y) = true) in E1. apply nleb_R in E1. apply nleb_R. rewrite <- !EQ by auto. apply (rd_mono _ _ RD).
      unfold Rdiv. apply Rmult_le_compat_r; auto. left. apply Rinv_0_lt_compat; auto. }
    constructor; auto.
    + rewrite S0, map_map. apply map_ext_in. intros j Hj. apply EQ. apply I; auto.
    + eapply ss_map_in; [|exact D]. intros x y Hx Hy. apply M; apply I; auto.
Qed.
End F.
