(** Rounding to double precision: monotone, exact on small half-integers, relative error 2^-53. *)
From Coq Require Import List Arith Lia Bool ZArith Reals Lra Psatz.
From Verif Require Import Base RVec MetricsModel MetricsProofs MetricsDouble.
Import ListNotations.
Local Open Scope R_scope.

Lemma abs_both a b : Rabs a <= b -> - b <= a <= b.
Proof. unfold Rabs. destruct (Rcase_abs a); lra. Qed.
Lemma rne_near y : Rabs (y - IZR (rne y)) <= 1 / 2.
Proof.
  unfold rne. destruct (base_Int_part y) as [A B]. set (f := Int_part y) in *.
  destruct (Rlt_dec (y - IZR f) (1 / 2)); [|destruct (Rlt_dec (1 / 2) (y - IZR f)); [|destruct (Z.even f)]];
    rewrite ?plus_IZR; apply Rabs_le; lra.
Qed.
Lemma rne_mono x y : x <= y -> (rne x <= rne y)%Z.
Proof.
  intros L. destruct (Z_le_gt_dec (rne x) (rne y)) as [|G]; auto. exfalso.
  pose proof (rne_near x) as A. pose proof (rne_near y) as B. apply abs_both in A. apply abs_both in B.
  assert (C : IZR (rne y) + 1 <= IZR (rne x)) by (rewrite <- plus_IZR; apply IZR_le; lia).
  assert (x = y) by lra. subst y. lia.
Qed.
Lemma rne_unique y m : Rabs (y - IZR m) < 1 / 2 -> rne y = m.
Proof.
  intros A. pose proof (rne_near y) as B. apply abs_both in B. apply Rabs_def2 in A.
  assert (C : IZR (rne y - m) < 1) by (rewrite minus_IZR; lra). assert (D : -1 < IZR (rne y - m)) by (rewrite minus_IZR; lra).
  apply lt_IZR in C. apply (lt_IZR (-1)) in D. lia.
Qed.
Lemma rne_int z : rne (IZR z) = z.
Proof. apply rne_unique. rewrite Rminus_diag_eq by auto. rewrite Rabs_R0. lra. Qed.

Lemma ln2_pos : 0 < ln 2.
Proof. rewrite <- ln_1. apply ln_increasing; lra. Qed.
Lemma p2_pos e : 0 < powerRZ 2 e. Proof. apply powerRZ_lt; lra. Qed.
Lemma p2_exp e : powerRZ 2 e = exp (IZR e * ln 2).
Proof. rewrite powerRZ_Rpower by lra. reflexivity. Qed.
Lemma p2_add a b : powerRZ 2 (a + b) = powerRZ 2 a * powerRZ 2 b.
Proof. apply powerRZ_add. lra. Qed.
Lemma p2_le a b : (a <= b)%Z -> powerRZ 2 a <= powerRZ 2 b.
Proof.
  intros L. rewrite !p2_exp. pose proof ln2_pos. apply IZR_le in L.
  assert (M : IZR a * ln 2 <= IZR b * ln 2) by (apply Rmult_le_compat_r; lra).
  destruct M as [M|M]; [left; apply exp_increasing; auto|rewrite M; lra].
Qed.
Lemma p2_lt_inv a b : powerRZ 2 a < powerRZ 2 b -> (a < b)%Z.
Proof. intros L. destruct (Z_lt_le_dec a b); auto. pose proof (p2_le b a l). lra. Qed.
Lemma p2_nat n : powerRZ 2 (Z.of_nat n) = IZR (2 ^ Z.of_nat n).
Proof. rewrite <- pow_powerRZ, pow_IZR. reflexivity. Qed.
Lemma p2_pos_int z : (0 <= z)%Z -> powerRZ 2 z = IZR (2 ^ z).
Proof. intros H. rewrite <- (Z2Nat.id z) by auto. apply p2_nat. Qed.
Lemma p2_neg e : powerRZ 2 e * powerRZ 2 (- e) = 1.
Proof. rewrite <- p2_add, Z.add_opp_diag_r. reflexivity. Qed.

(** The binade of a positive number. *)
Lemma exponent_spec x : 0 < x -> powerRZ 2 (exponent x + 52) <= x < powerRZ 2 (exponent x + 53).
Proof.
  intros P. unfold exponent. rewrite (Rabs_right x) by lra.
  destruct (base_Int_part (log2 x)) as [A B]. set (k := Int_part (log2 x)) in *.
  replace (k - 52 + 52)%Z with k by lia. replace (k - 52 + 53)%Z with (k + 1)%Z by lia.
  unfold log2 in *. pose proof ln2_pos as L2. rewrite !p2_exp, plus_IZR.
  assert (E : ln x = ln x / ln 2 * ln 2) by (field; lra). split.
  - rewrite <- (exp_ln x P). rewrite E. apply (Rmult_le_compat_r (ln 2)) in A; [|lra].
    destruct A as [A|A]; [left; apply exp_increasing; auto|rewrite A; lra].
  - rewrite <- (exp_ln x P). apply exp_increasing. rewrite E. apply Rmult_lt_compat_r; lra.
Qed.
Lemma exponent_unique x e : powerRZ 2 (e + 52) <= x < powerRZ 2 (e + 53) -> exponent x = e.
Proof.
  intros [A B]. pose proof (p2_pos (e + 52)) as P. destruct (exponent_spec x) as [C D]; [lra|].
  assert (exponent x + 52 < e + 53)%Z by (apply p2_lt_inv; lra).
  assert (e + 52 < exponent x + 53)%Z by (apply p2_lt_inv; lra). lia.
Qed.
Lemma exponent_mono x y : 0 < x <= y -> (exponent x <= exponent y)%Z.
Proof.
  intros [P L]. destruct (exponent_spec x P) as [A _]. destruct (exponent_spec y) as [_ B]; [lra|].
  assert (exponent x + 52 < exponent y + 53)%Z by (apply p2_lt_inv; lra). lia.
Qed.
Lemma scaled x : 0 < x -> powerRZ 2 52 <= x * powerRZ 2 (- exponent x) < powerRZ 2 53.
Proof.
  intros P. destruct (exponent_spec x P) as [A B]. rewrite p2_add in A, B. pose proof (p2_neg (exponent x)) as N.
  pose proof (p2_pos (- exponent x)) as Q. split.
  - apply (Rmult_le_compat_r (powerRZ 2 (- exponent x))) in A; [|lra]. 
    replace (powerRZ 2 (exponent x) * powerRZ 2 52 * powerRZ 2 (- exponent x)) with (powerRZ 2 52) in A; [exact A|].
    transitivity (powerRZ 2 52 * (powerRZ 2 (exponent x) * powerRZ 2 (- exponent x))); [rewrite N|]; ring.
  - apply (Rmult_lt_compat_r (powerRZ 2 (- exponent x))) in B; [|lra]. 
    replace (powerRZ 2 (exponent x) * powerRZ 2 53 * powerRZ 2 (- exponent x)) with (powerRZ 2 53) in B; [exact B|].
    transitivity (powerRZ 2 53 * (powerRZ 2 (exponent x) * powerRZ 2 (- exponent x))); [rewrite N|]; ring.
Qed.

Lemma rnd64_zero : rnd64 0 = 0.
Proof. unfold rnd64. destruct (Req_EM_T 0 0); auto; lra. Qed.
Lemma rnd64_eq x : 0 < x -> rnd64 x = IZR (rne (x * powerRZ 2 (- exponent x))) * powerRZ 2 (exponent x).
Proof. intros P. unfold rnd64. destruct (Req_EM_T x 0); auto; lra. Qed.
Lemma rnd64_low x : 0 < x -> powerRZ 2 (exponent x + 52) <= rnd64 x.
Proof.
  intros P. rewrite rnd64_eq by auto. destruct (scaled x P) as [A _]. rewrite p2_add, Rmult_comm.
  apply Rmult_le_compat_r; [left; apply p2_pos|]. rewrite (p2_pos_int 52) in * by lia. apply IZR_le.
  rewrite <- (rne_int (2 ^ 52)). apply rne_mono; auto.
Qed.
Lemma rnd64_high x : 0 < x -> rnd64 x <= powerRZ 2 (exponent x + 53).
Proof.
  intros P. rewrite rnd64_eq by auto. destruct (scaled x P) as [_ A]. rewrite p2_add, (Rmult_comm (powerRZ 2 (exponent x))).
  apply Rmult_le_compat_r; [left; apply p2_pos|]. rewrite (p2_pos_int 53) in * by lia. apply IZR_le.
  rewrite <- (rne_int (2 ^ 53)). apply rne_mono; lra.
Qed.
Lemma rnd64_mono x y : 0 <= x <= y -> rnd64 x <= rnd64 y.
Proof.
  intros [P L]. destruct (Req_dec x 0) as [->|NX].
  - rewrite rnd64_zero. destruct (Req_dec y 0) as [->|NY]; [rewrite rnd64_zero; lra|].
    pose proof (rnd64_low y). pose proof (p2_pos (exponent y + 52)). lra.
  - assert (PX : 0 < x) by lra. pose proof (exponent_mono x y (conj PX L)) as E.
    destruct (Z.eq_dec (exponent x) (exponent y)) as [EE|NE].
    + rewrite !rnd64_eq, <- EE by lra. apply Rmult_le_compat_r; [left; apply p2_pos|]. apply IZR_le, rne_mono.
      apply Rmult_le_compat_r; [left; apply p2_pos|auto].
    + eapply Rle_trans; [apply rnd64_high; auto|]. eapply Rle_trans; [|apply rnd64_low; lra]. apply p2_le. lia.
Qed.
Definition unit_roundoff : R := / 2 ^ 53.
Lemma rnd64_rel x : 0 <= x -> (1 - unit_roundoff) * x <= rnd64 x <= (1 + unit_roundoff) * x.
Proof.
  intros P. destruct (Req_dec x 0) as [->|NX]; [rewrite rnd64_zero; lra|]. assert (PX : 0 < x) by lra.
  rewrite rnd64_eq by auto. pose proof (rne_near (x * powerRZ 2 (- exponent x))) as N. apply abs_both in N.
  set (m := IZR (rne (x * powerRZ 2 (- exponent x)))) in *.
  destruct (exponent_spec x PX) as [A _]. rewrite p2_add in A. pose proof (p2_pos (exponent x)) as Q.
  pose proof (p2_neg (exponent x)) as I. set (p := powerRZ 2 (exponent x)) in *. set (q := powerRZ 2 (- exponent x)) in *.
  assert (B : p / 2 <= unit_roundoff * x).
  { unfold unit_roundoff. rewrite (p2_pos_int 52) in A by lia. change (2 ^ 52)%Z with 4503599627370496%Z in A.
    replace (2 ^ 53) with 9007199254740992 by (rewrite pow_IZR; reflexivity).
    apply (Rmult_le_reg_l 9007199254740992); [lra|]. rewrite <- Rmult_assoc, Rinv_r by lra. lra. }
  assert (EX : x = x * q * p) by (rewrite Rmult_assoc, (Rmult_comm q), I; ring).
  assert (C : m * p <= (x * q + 1 / 2) * p) by (apply Rmult_le_compat_r; lra).
  assert (D : (x * q - 1 / 2) * p <= m * p) by (apply Rmult_le_compat_r; lra).
  rewrite Rmult_plus_distr_r in C. rewrite Rmult_minus_distr_r in D. rewrite <- EX in C, D. lra.
Qed.
Lemma rnd64_half z : (0 <= z < 2 ^ 53)%Z -> rnd64 (IZR z / 2) = IZR z / 2.
Proof.
  intros [A B]. destruct (Z.eq_dec z 0) as [->|NZ]; [replace (0 / 2) with 0 by lra; apply rnd64_zero|].
  assert (P : 0 < IZR z / 2) by (assert (0 < IZR z) by (apply (IZR_lt 0); lia); lra).
  assert (E : (exponent (IZR z / 2) <= -1)%Z).
  { destruct (exponent_spec _ P) as [C _]. assert (exponent (IZR z / 2) + 52 < 52)%Z; [|lia]. apply p2_lt_inv.
    eapply Rle_lt_trans; [exact C|]. rewrite (p2_pos_int 52) by lia. apply IZR_lt in B.
    change (2 ^ 53)%Z with (2 * 2 ^ 52)%Z in B. rewrite mult_IZR in B. lra. }
  rewrite rnd64_eq by auto. set (e := exponent (IZR z / 2)) in *.
  assert (S : IZR z / 2 * powerRZ 2 (- e) = IZR (z * 2 ^ (- e - 1))).
  { rewrite mult_IZR, <- p2_pos_int by lia. replace (- e)%Z with ((- e - 1) + 1)%Z at 1 by lia. rewrite p2_add.
    change (powerRZ 2 1) with (2 * 1). field. }
  rewrite S, rne_int, <- S, Rmult_assoc, (Rmult_comm (powerRZ 2 (- e))), p2_neg. ring.
Qed.

(** The value of a rounding, for concrete numbers. *)
Lemma rnd64_val x m e : powerRZ 2 (e + 52) <= x < powerRZ 2 (e + 53) -> Rabs (x * powerRZ 2 (- e) - IZR m) < 1 / 2 ->
  rnd64 x = IZR m * powerRZ 2 e.
Proof.
  intros A B. pose proof (p2_pos (e + 52)). rewrite rnd64_eq by lra. rewrite (exponent_unique x e A). rewrite (rne_unique _ m B). reflexivity.
Qed.
Lemma rne_even y m : Rabs (y - IZR m) <= 1 / 2 -> Z.even m = true -> rne y = m.
Proof.
  intros A EV. destruct (Rlt_dec (Rabs (y - IZR m)) (1 / 2)) as [L|NL]; [apply rne_unique; auto|].
  assert (D : y = IZR m + 1 / 2 \/ y = IZR m - 1 / 2) by (unfold Rabs in *; destruct (Rcase_abs (y - IZR m)); lra).
  destruct (base_Int_part y) as [B C]. unfold rne. destruct D as [->| ->].
  - assert (F : Int_part (IZR m + 1 / 2) = m).
    { set (f := Int_part _) in *. assert (X : IZR (f - m) < 1) by (rewrite minus_IZR; lra). assert (Y : -1 < IZR (f - m)) by (rewrite minus_IZR; lra).
      apply lt_IZR in X. apply (lt_IZR (-1)) in Y. lia. }
    rewrite F. destruct (Rlt_dec _ _); auto. destruct (Rlt_dec _ _); [lra|]. rewrite EV. auto.
  - assert (F : Int_part (IZR m - 1 / 2) = (m - 1)%Z).
    { set (f := Int_part _) in *. assert (X : IZR (f - m) < 0) by (rewrite minus_IZR; lra). assert (Y : -2 < IZR (f - m)) by (rewrite minus_IZR; lra).
      apply lt_IZR in X. apply (lt_IZR (-2)) in Y. lia. }
    rewrite F, minus_IZR. destruct (Rlt_dec _ _); [lra|]. destruct (Rlt_dec _ _); [lra|].
    replace (Z.even (m - 1)) with false; [lia|]. rewrite Z.even_sub, EV. reflexivity.
Qed.

(** Rounding a quotient of integers, by computation. *)
Definition rounds_to (a b m s : Z) : bool :=
  (0 <? b)%Z && (0 <=? s)%Z && (2 ^ 52 * b <=? a * 2 ^ s)%Z && (a * 2 ^ s <? 2 ^ 53 * b)%Z &&
  ((2 * Z.abs (a * 2 ^ s - m * b) <? b)%Z || ((2 * Z.abs (a * 2 ^ s - m * b) =? b)%Z && Z.even m)).
Lemma rnd64_q a b m s : rounds_to a b m s = true -> rnd64 (IZR a / IZR b) = IZR m / IZR (2 ^ s).
Proof.
  unfold rounds_to. rewrite !andb_true_iff, orb_true_iff, andb_true_iff. rewrite !Z.ltb_lt, !Z.leb_le, Z.eqb_eq.
  intros [[[[B S] L] H] N]. apply IZR_lt in B. apply IZR_le in L. apply IZR_lt in H. rewrite !mult_IZR in L, H.
  assert (P : 0 < IZR (2 ^ s)) by (rewrite <- p2_pos_int by auto; apply p2_pos).
  assert (I : powerRZ 2 (- s) = / IZR (2 ^ s)).
  { rewrite <- p2_pos_int by auto. pose proof (p2_neg s) as X. pose proof (p2_pos s). apply (Rmult_eq_reg_l (powerRZ 2 s)); [|lra]. rewrite X. field. lra. }
  set (x := IZR a / IZR b) in *.
  assert (XS : x * IZR (2 ^ s) * IZR b = IZR a * IZR (2 ^ s)) by (unfold x; field; lra).
  assert (R1 : powerRZ 2 (- s + 52) <= x < powerRZ 2 (- s + 53)).
  { rewrite !p2_add, !I, (p2_pos_int 52), (p2_pos_int 53) by lia. split.
    - apply (Rmult_le_reg_r (IZR (2 ^ s) * IZR b)); [apply Rmult_lt_0_compat; auto|]. rewrite <- (Rmult_assoc x), XS.
      replace (/ IZR (2 ^ s) * IZR (2 ^ 52) * (IZR (2 ^ s) * IZR b)) with (IZR (2 ^ 52) * IZR b) by (field; lra). auto.
    - apply (Rmult_lt_reg_r (IZR (2 ^ s) * IZR b)); [apply Rmult_lt_0_compat; auto|]. rewrite <- (Rmult_assoc x), XS.
      replace (/ IZR (2 ^ s) * IZR (2 ^ 53) * (IZR (2 ^ s) * IZR b)) with (IZR (2 ^ 53) * IZR b) by (field; lra). auto. }
  assert (PX : 0 < x) by (pose proof (p2_pos (- s + 52)); lra).
  rewrite rnd64_eq, (exponent_unique x (- s) R1), Z.opp_involutive, (p2_pos_int s), I by auto.
  assert (AB : 2 * Rabs (x * IZR (2 ^ s) - IZR m) * IZR b = IZR (2 * Z.abs (a * 2 ^ s - m * b))).
  { rewrite mult_IZR, abs_IZR, minus_IZR, !mult_IZR, <- XS. rewrite Rmult_assoc. f_equal.
    rewrite <- (Rabs_right (IZR b)) at 1 by lra. rewrite <- Rabs_mult. f_equal. ring. }
  replace (rne (x * IZR (2 ^ s))) with m; [reflexivity|]. symmetry. destruct N as [N|[N EV]].
  - apply rne_unique. apply IZR_lt in N. rewrite <- AB in N. 
    apply (Rmult_lt_reg_r (IZR b)); [auto|]. lra.
  - apply rne_even; auto. apply (f_equal IZR) in N. rewrite <- AB in N.
    apply (Rmult_le_reg_r (IZR b)); [auto|]. lra.
Qed.

Lemma rnd64_idem x : 0 <= x -> rnd64 (rnd64 x) = rnd64 x.
Proof.
  intros P. destruct (Req_dec x 0) as [->|NX]; [rewrite !rnd64_zero; auto|]. assert (PX : 0 < x) by lra.
  pose proof (rnd64_low x PX) as L. pose proof (rnd64_high x PX) as H. pose proof (p2_pos (exponent x + 52)) as P2.
  set (y := rnd64 x) in *. assert (PY : 0 < y) by lra. rewrite rnd64_eq by auto.
  assert (EI : exists z, y * powerRZ 2 (- exponent y) = IZR z).
  { destruct (Req_dec y (powerRZ 2 (exponent x + 53))) as [E|NE].
    - assert (EY : exponent y = (exponent x + 1)%Z).
      { apply exponent_unique. rewrite E. replace (exponent x + 1 + 52)%Z with (exponent x + 53)%Z by lia. split; [lra|].
        replace (exponent x + 1 + 53)%Z with (exponent x + 53 + 1)%Z by lia. rewrite (p2_add _ 1). pose proof (p2_pos (exponent x + 53)).
        change (powerRZ 2 1) with (2 * 1). lra. }
      exists (2 ^ 52)%Z. rewrite EY, E, <- p2_add. replace (exponent x + 53 + - (exponent x + 1))%Z with 52%Z by lia. apply p2_pos_int. lia.
    - assert (EY : exponent y = exponent x) by (apply exponent_unique; lra).
      rewrite EY. exists (rne (x * powerRZ 2 (- exponent x))). unfold y. rewrite rnd64_eq by auto. rewrite Rmult_assoc, p2_neg. ring. }
  destruct EI as [z EZ]. rewrite EZ, rne_int, <- EZ, Rmult_assoc, (Rmult_comm (powerRZ 2 (- exponent y))), p2_neg. ring.
Qed.
