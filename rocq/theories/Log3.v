(** The binary logarithm of 3 to 55 bits, from the series of ln((1+t)/(1-t)) at t = 1/17 and t = 1/7. *)
From Coq Require Import List Arith Lia Bool ZArith Reals Lra Psatz.
From Verif Require Import MetricsModel DoubleProofs.
Local Open Scope R_scope.

Fixpoint series (n : nat) (t : R) : R :=
  match n with O => 0 | S k => series k t + 2 / INR (2 * k + 1) * t ^ (2 * k + 1) end.
Fixpoint dseries (n : nat) (t : R) : R :=
  match n with O => 0 | S k => dseries k t + 2 * t ^ (2 * k) end.

Lemma deriv_eq f x a b : derivable_pt_lim f x a -> a = b -> derivable_pt_lim f x b.
Proof. intros H <-. exact H. Qed.
Lemma deriv_power k c t : derivable_pt_lim (fun x => c * x ^ k) t (c * (INR k * t ^ pred k)).
Proof. apply (derivable_pt_lim_scal (fun x => x ^ k)). apply derivable_pt_lim_pow. Qed.
Lemma deriv_term k t : derivable_pt_lim (fun x => 2 / INR (2 * k + 1) * x ^ (2 * k + 1)) t (2 * t ^ (2 * k)).
Proof.
  eapply deriv_eq; [apply deriv_power|]. replace (pred (2 * k + 1)) with (2 * k)%nat by lia.
  field. apply not_0_INR. lia.
Qed.
Lemma deriv_series n t : derivable_pt_lim (series n) t (dseries n t).
Proof.
  induction n as [|n IH]; [apply derivable_pt_lim_const|]. cbn [series dseries].
  apply (derivable_pt_lim_plus (series n)); [exact IH|apply deriv_term].
Qed.
Lemma dseries_eq n t : dseries n t * (1 - t * t) = 2 - 2 * t ^ (2 * n).
Proof.
  induction n as [|n IH]; [simpl; ring|]. cbn [dseries]. rewrite Rmult_plus_distr_r, IH.
  replace (2 * S n)%nat with (2 * n + 2)%nat by lia. rewrite pow_add. simpl. ring.
Qed.
Lemma deriv_atanh t : -1 < t < 1 -> derivable_pt_lim (fun x => ln (1 + x) - ln (1 - x)) t (2 / (1 - t * t)).
Proof.
  intros B. eapply deriv_eq.
  - apply (derivable_pt_lim_minus (fun x => ln (1 + x)) (fun x => ln (1 - x))).
    + apply (derivable_pt_lim_comp (fun x => 1 + x) ln).
      * eapply deriv_eq; [apply (derivable_pt_lim_plus (fun _ => 1) (fun x => x)); [apply derivable_pt_lim_const|apply derivable_pt_lim_id]|reflexivity].
      * apply derivable_pt_lim_ln. lra.
    + apply (derivable_pt_lim_comp (fun x => 1 - x) ln).
      * eapply deriv_eq; [apply (derivable_pt_lim_minus (fun _ => 1) (fun x => x)); [apply derivable_pt_lim_const|apply derivable_pt_lim_id]|reflexivity].
      * apply derivable_pt_lim_ln. lra.
  - field. split; [nra|lra].
Qed.
Lemma sq_lt t b : 0 <= t <= b -> b < 1 -> 0 < 1 - b * b <= 1 - t * t.
Proof. intros. split; nra. Qed.

Lemma atanh_low n t : 0 < t < 1 -> series n t <= ln (1 + t) - ln (1 - t).
Proof.
  intros B. destruct (MVT_cor2 (fun x => ln (1 + x) - ln (1 - x) - series n x)
    (fun x => 2 / (1 - x * x) - dseries n x) 0 t) as [c [E C]]; [lra| |].
  - intros c C. apply (derivable_pt_lim_minus (fun x => ln (1 + x) - ln (1 - x)) (series n)); [apply deriv_atanh; lra|apply deriv_series].
  - assert (Z : ln (1 + 0) - ln (1 - 0) - series n 0 = 0).
    { rewrite Rplus_0_r, Rminus_0_r. assert (S0 : series n 0 = 0); [|lra]. clear. induction n; cbn [series]; [auto|].
      rewrite IHn, pow_i by lia. lra. }
    rewrite Z in E. destruct (sq_lt c t) as [S1 S2]; [lra|lra|].
    assert (D : 0 <= 2 / (1 - c * c) - dseries n c).
    { apply (Rmult_le_reg_r (1 - c * c)); [lra|]. rewrite Rmult_0_l, Rmult_minus_distr_r, dseries_eq.
      unfold Rdiv. rewrite Rmult_assoc, Rinv_l by lra. pose proof (pow_le c (2 * n)). lra. }
    assert (0 <= (2 / (1 - c * c) - dseries n c) * (t - 0)) by (apply Rmult_le_pos; lra). lra.
Qed.
Lemma atanh_high n t : 0 < t < 1 ->
  ln (1 + t) - ln (1 - t) <= series n t + / (1 - t * t) * (2 / INR (2 * n + 1)) * t ^ (2 * n + 1).
Proof.
  intros B. set (w := / (1 - t * t)).
  destruct (MVT_cor2 (fun x => series n x + w * (2 / INR (2 * n + 1) * x ^ (2 * n + 1)) - (ln (1 + x) - ln (1 - x)))
    (fun x => dseries n x + w * (2 * x ^ (2 * n)) - 2 / (1 - x * x)) 0 t) as [c [E C]]; [lra| |].
  - intros c C. apply (derivable_pt_lim_minus (fun x => series n x + w * (2 / INR (2 * n + 1) * x ^ (2 * n + 1))) (fun x => ln (1 + x) - ln (1 - x)));
      [|apply deriv_atanh; lra].
    apply (derivable_pt_lim_plus (series n) (fun x => w * (2 / INR (2 * n + 1) * x ^ (2 * n + 1)))); [apply deriv_series|].
    apply (derivable_pt_lim_scal (fun x => 2 / INR (2 * n + 1) * x ^ (2 * n + 1))). apply deriv_term.
  - assert (Z : series n 0 + w * (2 / INR (2 * n + 1) * 0 ^ (2 * n + 1)) - (ln (1 + 0) - ln (1 - 0)) = 0).
    { rewrite Rplus_0_r, Rminus_0_r. rewrite (pow_i (2 * n + 1)) by lia. assert (S0 : series n 0 = 0); [|lra]. clear. induction n; cbn [series]; [auto|].
      rewrite IHn, pow_i by lia. lra. }
    cbv beta in E. rewrite Z in E. destruct (sq_lt c t) as [S1 S2]; [lra|lra|].
    assert (W : / (1 - c * c) <= w) by (apply Rinv_le_contravar; lra).
    assert (D : 0 <= dseries n c + w * (2 * c ^ (2 * n)) - 2 / (1 - c * c)).
    { assert (X : dseries n c = (2 - 2 * c ^ (2 * n)) * / (1 - c * c)) by (rewrite <- dseries_eq, Rmult_assoc, Rinv_r by lra; ring).
      rewrite X. assert (Q : 0 <= c ^ (2 * n)) by (apply pow_le; lra). unfold Rdiv.
      assert (0 <= (w - / (1 - c * c)) * (2 * c ^ (2 * n))) by (apply Rmult_le_pos; lra). lra. }
    assert (0 <= (dseries n c + w * (2 * c ^ (2 * n)) - 2 / (1 - c * c)) * (t - 0)) by (apply Rmult_le_pos; lra). lra.
Qed.

Lemma ln_9_8 : ln (1 + / 17) - ln (1 - / 17) = 2 * ln 3 - 3 * ln 2.
Proof.
  assert (E : ln ((1 + / 17) * (2 * (2 * 2))) = ln ((1 - / 17) * (3 * 3))) by (f_equal; field).
  rewrite !ln_mult in E by lra. lra.
Qed.
Lemma ln_4_3 : ln (1 + / 7) - ln (1 - / 7) = 2 * ln 2 - ln 3.
Proof.
  assert (E : ln ((1 + / 7) * 3) = ln ((1 - / 7) * (2 * 2))) by (f_equal; field).
  rewrite !ln_mult in E by lra. lra.
Qed.

(** 7138036527644008 / 2^52 lies below log2 3 by less than half a unit. *)
Lemma log2_3 : 7138036527644008 < log2 3 * 2 ^ 52 < 7138036527644008 + 1 / 2.
Proof.
  replace (2 ^ 52) with 4503599627370496 by (rewrite pow_IZR; reflexivity).
  pose proof (atanh_low 7 (/ 17)) as A1. pose proof (atanh_high 7 (/ 17)) as A2.
  pose proof (atanh_low 10 (/ 7)) as B1. pose proof (atanh_high 10 (/ 7)) as B2.
  rewrite ln_9_8 in A1, A2. rewrite ln_4_3 in B1, B2.
  specialize (A1 ltac:(lra)). specialize (A2 ltac:(lra)). specialize (B1 ltac:(lra)). specialize (B2 ltac:(lra)).
  cbn [series pow Nat.mul Nat.add INR] in A1, A2, B1, B2.
  pose proof ln2_pos as P. unfold log2, Rdiv.
  split; apply (Rmult_lt_reg_r (ln 2)); auto; rewrite (Rmult_assoc (ln 3)), (Rmult_comm (/ ln 2)), <- Rmult_assoc, Rmult_assoc, Rinv_l, Rmult_1_r by lra; lra.
Qed.
