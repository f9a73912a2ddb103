(** The evaluation loop in rounded arithmetic (C156). *)
From Coq Require Import List Arith Lia Bool ZArith Reals Lra Psatz Permutation.
From Verif Require Import Base Num Heap Sparse TopkModel RecommendModel RVec MetricsModel MetricsProofs MetricsProofs2
  MetricsDouble DoubleProofs PropMetrics.
Import ListNotations.
Local Open Scope R_scope.

(** What is used of the rounding. *)
Record rounding (rnd : R -> R) : Prop := {
  r_mono : forall x y, 0 <= x <= y -> rnd x <= rnd y;
  r_half : forall z, (0 <= z < 2 ^ 53)%Z -> rnd (IZR z / 2) = IZR z / 2;
  r_rel : forall x, 0 <= x -> (1 - unit_roundoff) * x <= rnd x <= (1 + unit_roundoff) * x }.
Lemma rounding_rnd64 : rounding rnd64.
Proof. constructor; [apply rnd64_mono|apply rnd64_half|apply rnd64_rel]. Qed.

Definition small (n : nat) : Prop := (Z.of_nat n < 2 ^ 52)%Z.

Section Rounded.
Variable rnd : R -> R.
Variable RN : rounding rnd.
Variable lg : nat -> R.
Hypothesis LP : forall n, (2 <= n)%nat -> 0 < lg n.

Lemma rnd_nat n : small n -> rnd (INR n) = INR n.
Proof.
  intros S. unfold small in S. rewrite INR_IZR_INZ. replace (IZR (Z.of_nat n)) with (IZR (2 * Z.of_nat n) / 2) by (rewrite mult_IZR; field).
  apply (r_half _ RN). lia.
Qed.
Lemma rnd_0 : rnd 0 = 0. Proof. change 0 with (INR 0). apply rnd_nat. unfold small. lia. Qed.
Lemma rnd_1 : rnd 1 = 1. Proof. change 1 with (INR 1). apply rnd_nat. unfold small. lia. Qed.
Lemma rnd_nonneg x : 0 <= x -> 0 <= rnd x.
Proof. intros P. rewrite <- rnd_0. apply (r_mono _ RN). lra. Qed.
Lemma rnd_le_nat x n : small n -> 0 <= x <= INR n -> 0 <= rnd x <= INR n.
Proof. intros S [A B]. split; [apply rnd_nonneg; auto|]. rewrite <- (rnd_nat n S). apply (r_mono _ RN). lra. Qed.
Lemma u_small : 0 < unit_roundoff < 1 / 2.
Proof. unfold unit_roundoff. replace (2 ^ 53) with 9007199254740992 by (rewrite pow_IZR; reflexivity). lra. Qed.
Lemma rnd_pos x : 0 < x -> 0 < rnd x.
Proof. intros P. destruct (r_rel _ RN x) as [A _]; [lra|]. pose proof u_small. nra. Qed.
Lemma rnd_unit a b : 0 < b -> 0 <= a <= b -> 0 <= rnd (a / b) <= 1.
Proof.
  intros Pb AB. replace 1 with (INR 1) by reflexivity. apply rnd_le_nat; [unfold small; lia|]. cbn [INR]. apply div_unit; auto.
Qed.
Lemma div_d_ok a b : b <> 0 -> div_d rnd a b = Ok (rnd (a / b)).
Proof. intros. unfold div_d. destruct (Req_EM_T b 0); auto; lra. Qed.
Lemma cg_d_pos i : 0 < cg_d rnd lg i.
Proof. unfold cg_d. apply rnd_pos. apply Rdiv_lt_0_compat; [lra|]. apply LP. lia. Qed.
Lemma cg_fold_pos l : forall s, 0 < s -> 0 < fold_left (fun s j => rnd (s + cg_d rnd lg j)) l s.
Proof. induction l as [|j l IH]; intros s P; auto. cbn [fold_left]. apply IH. apply rnd_pos. pose proof (cg_d_pos j). lra. Qed.
Lemma cg_sum_d_pos i : 0 < cg_sum_d rnd lg i.
Proof. unfold cg_sum_d. apply cg_fold_pos, cg_d_pos. Qed.

(** Sums along one ranking. *)
Fixpoint ap_d (likes : list nat) (k h : nat) (l : list Z) (acc : R) : R :=
  match l with
  | [] => acc
  | z :: l => if isrel likes z then ap_d likes (S k) (S h) l (rnd (acc + rnd (INR (S h) / INR (S k)))) else ap_d likes (S k) h l acc
  end.
Fixpoint dcg_d (likes : list nat) (idcg : R) (k : nat) (l : list Z) (acc : R) : R :=
  match l with
  | [] => acc
  | z :: l => dcg_d likes idcg (S k) l (if isrel likes z then rnd (acc + rnd (cg_d rnd lg k / idcg)) else acc)
  end.

Lemma fold_inner_d likes idcg : idcg <> 0 -> forall l k h p c q ap nd, (h <= k)%nat ->
  small (p + length l) -> small (c + length l) -> small (k + length l) -> small (q + auc_rec likes h l) ->
  fold_res (inner_step_d rnd lg likes idcg) (enum_from k l)
    {| i_relevant := INR p; i_hit := INR h; i_miss := INR c; i_ap := ap; i_ndcg := nd; i_auc := INR q |} =
  Ok {| i_relevant := INR (p + nhits likes l); i_hit := INR (h + nhits likes l); i_miss := INR (c + nmiss likes l);
        i_ap := ap_d likes k h l ap; i_ndcg := dcg_d likes idcg k l nd; i_auc := INR (q + auc_rec likes h l) |}.
Proof.
  intros HI. induction l as [|z l IH]; intros k h p c q ap nd L S1 S2 S3 S4.
  - cbn. rewrite !Nat.add_0_r. reflexivity.
  - cbn [enum_from fold_res length] in *. unfold inner_step_d. cbn [fst snd i_relevant i_hit i_miss i_ap i_ndcg i_auc].
    unfold nhits, nmiss. cbn [filter ap_d dcg_d auc_rec] in *. change (memz z (map Z.of_nat likes)) with (isrel likes z).
    unfold small in *. destruct (isrel likes z) eqn:E; cbn [negb].
    + replace (k + 1)%nat with (S k) by lia. rewrite (rnd_nat (S k)) by (unfold small; lia).
      rewrite div_d_ok by (apply not_0_INR; lia). cbn [bind]. rewrite div_d_ok by auto. cbn [bind].
      rewrite <- !S_INR. rewrite (rnd_nat (S h)), (rnd_nat (S p)) by (unfold small; lia).
      rewrite IH by (unfold small; lia). unfold nhits, nmiss. cbn [length]. do 2 f_equal; f_equal; lia.
    + cbn [bind]. rewrite <- S_INR, <- plus_INR. rewrite (rnd_nat (S c)), (rnd_nat (q + h)) by (unfold small; lia).
      rewrite IH by (unfold small; lia). unfold nhits, nmiss. cbn [length]. do 2 f_equal; f_equal; lia.
Qed.

Lemma auc_rec_le likes l : forall h, (auc_rec likes h l <= (h + nhits likes l) * nmiss likes l)%nat.
Proof.
  induction l as [|z l IH]; intros h; [cbn; lia|]. unfold nhits, nmiss. cbn [auc_rec filter]. destruct (isrel likes z); cbn [negb length].
  - specialize (IH (S h)). unfold nhits, nmiss in IH. nia.
  - specialize (IH h). unfold nhits, nmiss in IH. nia.
Qed.
Lemma nmiss_bound items likes l : NoDup likes -> (forall i, In i likes -> (i < items)%nat) -> valid_ranking items l ->
  (nmiss likes l <= items - length likes)%nat.
Proof.
  intros NL B [ND V]. pose proof (negatives_length items likes NL B) as EN.
  assert (LE : (nmiss likes l <= length (map Z.of_nat (negatives items likes)))%nat); [|rewrite map_length in LE; lia].
  unfold nmiss. apply NoDup_incl_length; [apply NoDup_filter; auto|].
  intros z Hz. apply filter_In in Hz. destruct Hz as [Hz NR]. pose proof (V z Hz) as Vz.
  apply in_map_iff. exists (Z.to_nat z). split; [lia|]. apply filter_In. split; [apply in_seq; lia|].
  destruct (memn (Z.to_nat z) likes) eqn:M; auto. exfalso. apply existsb_exists in M. destruct M as [y [Hy EY]]. apply Nat.eqb_eq in EY. subst y.
  assert (isrel likes z = true) by (apply isrel_in; exists (Z.to_nat z); split; auto; lia). rewrite H in NR. discriminate.
Qed.
Lemma rnd_half n : (Z.of_nat n < 2 ^ 53)%Z -> rnd (INR n / 2) = INR n / 2.
Proof. intros B. rewrite INR_IZR_INZ. apply (r_half _ RN). lia. Qed.
Lemma pairs_bound a b : (Z.of_nat (a + b) <= 2 ^ 26)%Z -> (Z.of_nat (a * b) <= 2 ^ 50)%Z.
Proof.
  intros B. rewrite Nat2Z.inj_mul. rewrite Nat2Z.inj_add in B. set (x := Z.of_nat a) in *. set (y := Z.of_nat b) in *.
  assert (0 <= x)%Z by (unfold x; lia). assert (0 <= y)%Z by (unfold y; lia). clearbody x y.
  change (2 ^ 26)%Z with 67108864%Z in B. change (2 ^ 50)%Z with 1125899906842624%Z.
  assert (0 <= (x - y) * (x - y))%Z by (apply Z.square_nonneg). nia.
Qed.

Definition tot (p d n : nat) (mp nd ac : R) : totals :=
  {| t_relevant := INR p; t_pr_div := INR d; t_total := INR n; t_map := mp; t_ndcg := nd; t_auc := ac |}.
Definition idcg_d (K : nat) (likes : list nat) : R := cg_sum_d rnd lg (Nat.min K (length likes) - 1).

Lemma user_step_d_ok K items likes ids p d n mp nd ac : (0 < K)%nat -> likes <> [] -> NoDup likes ->
  (forall i, In i likes -> (i < items)%nat) -> (length likes < items)%nat -> (K <= length ids)%nat ->
  valid_ranking items (firstn K ids) -> (Z.of_nat items <= 2 ^ 26)%Z -> small (p + K) -> small (d + K) -> small (S n) ->
  user_step_d rnd lg K items likes ids (tot p d n mp nd ac) =
  Ok (tot (p + nhits likes (firstn K ids)) (d + Nat.min K (length likes)) (S n)
        (rnd (mp + rnd (ap_d likes 0 0 (firstn K ids) 0 / INR (Nat.min K (length likes)))))
        (dcg_d likes (idcg_d K likes) 0 (firstn K ids) nd)
        (rnd (ac + rnd (u_auc K items likes ids)))).
Proof.
  intros HK HL NL BL HI Hlen V BI SP SD SN. unfold user_step_d, tot. cbn [t_relevant t_pr_div t_total t_map t_ndcg t_auc].
  destruct (Nat.ltb_spec (length ids) K) as [L|_]; [lia|].
  assert (PL : (0 < length likes)%nat) by (destruct likes; [tauto|simpl; lia]).
  fold (idcg_d K likes). pose proof (cg_sum_d_pos (Nat.min K (length likes) - 1)) as CP. fold (idcg_d K likes) in CP.
  pose proof (nhits_min items likes K ids NL V) as NH. pose proof (nmiss_bound items likes _ NL BL V) as NM.
  pose proof (hits_miss likes (firstn K ids)) as HM. rewrite firstn_length, Nat.min_l in HM by auto.
  pose proof (auc_rec_le likes (firstn K ids) 0) as AR. cbn [Nat.add] in AR.
  set (l := firstn K ids) in *. assert (LL : length l = K) by (unfold l; rewrite firstn_length; lia).
  set (L := length likes) in *. set (N := (items - L)%nat) in *. set (h := nhits likes l) in *. set (ms := nmiss likes l) in *.
  set (q := auc_rec likes 0 l) in *.
  assert (PB : (Z.of_nat (L * N) <= 2 ^ 50)%Z) by (apply pairs_bound; unfold N; lia).
  assert (QB : (q <= L * N)%nat) by nia.
  assert (HB : ((h + L) * (N - ms) <= 2 * (L * N))%nat) by nia.
  assert (SS : forall m, (m <= 2 * items)%nat -> small m).
  { intros m Hm. unfold small. change (2 ^ 26)%Z with 67108864%Z in BI. lia. }
  assert (SM : forall m, (m <= 3 * (L * N))%nat -> small m).
  { intros m Hm. unfold small. change (2 ^ 50)%Z with 1125899906842624%Z in PB. change (2 ^ 52)%Z with 4503599627370496%Z. lia. }
  assert (KI : (K <= items)%nat) by lia.
  unfold enum.
  change {| i_relevant := INR p; i_hit := 0; i_miss := 0; i_ap := 0; i_ndcg := nd; i_auc := 0 |}
    with {| i_relevant := INR p; i_hit := INR 0; i_miss := INR 0; i_ap := 0; i_ndcg := nd; i_auc := INR 0 |}.
  rewrite (fold_inner_d likes (idcg_d K likes)); [|lra|lia|rewrite LL; auto|rewrite LL; apply SS; lia|rewrite LL; apply SS; lia|apply SM; fold q; lia].
  cbn [bind i_relevant i_hit i_miss i_ap i_ndcg i_auc]. rewrite !Nat.add_0_l. fold h ms q.
  rewrite (rnd_nat L), (rnd_nat items), (rnd_nat (Nat.min K L)) by (apply SS; lia).
  rewrite <- (minus_INR items L) by lia. fold N. rewrite (rnd_nat N) by (apply SS; lia).
  rewrite <- (minus_INR N ms) by lia. rewrite (rnd_nat (N - ms)) by (apply SS; lia).
  rewrite <- (plus_INR h L), (rnd_nat (h + L)) by (apply SS; lia).
  rewrite <- (mult_INR L N), (rnd_nat (L * N)) by (apply SM; lia).
  rewrite (rnd_half (h + L)) by (change (2 ^ 26)%Z with 67108864%Z in BI; lia).
  replace (INR (h + L) / 2 * INR (N - ms)) with (INR ((h + L) * (N - ms)) / 2) by (rewrite mult_INR; lra).
  rewrite rnd_half by (change (2 ^ 50)%Z with 1125899906842624%Z in PB; lia).
  replace (INR q + INR ((h + L) * (N - ms)) / 2) with (INR (2 * q + (h + L) * (N - ms)) / 2)
    by (rewrite plus_INR, (mult_INR 2 q); cbn [INR]; lra).
  rewrite rnd_half by (change (2 ^ 50)%Z with 1125899906842624%Z in PB; lia).
  rewrite div_d_ok by (apply not_0_INR; lia). cbn [bind]. rewrite div_d_ok by (apply not_0_INR; unfold N; nia). cbn [bind].
  rewrite <- (plus_INR d), (rnd_nat (d + Nat.min K L)) by (unfold small in *; lia). rewrite <- S_INR, (rnd_nat (S n)) by auto.
  do 2 f_equal. f_equal. f_equal. unfold u_auc. fold l L h ms q. rewrite plus_INR, !mult_INR, (minus_INR N ms), !plus_INR by lia.
  unfold N. rewrite minus_INR by lia. cbn [INR]. f_equal. lra.
Qed.

(** The loop over batches is the loop over users. *)
Definition one_user_d {T} (K : nat) (test : csr T) (r : nat -> list Z) (t : totals) (u : nat) : res totals :=
  user_step_d rnd lg K (c_cols test) (likes_of test u) (r u) t.
Lemma fold_combine_d {T} K (test : csr T) r us : forall t,
  fold_res (fun t p => user_step_d rnd lg K (c_cols test) (likes_of test (fst p)) (snd p) t) (combine us (map r us)) t =
  fold_res (one_user_d K test r) us t.
Proof.
  induction us as [|u us IH]; intros t; auto. cbn [map combine fold_res fst snd]. unfold one_user_d at 1.
  destruct (user_step_d _ _ _ _ _ _ _); cbn [bind]; auto.
Qed.
Lemma batch_loop_d_ok {T} bs K (test : csr T) r rec : (0 < bs)%nat ->
  forall fuel us t, (length us <= fuel)%nat -> (forall b, incl b us -> b <> [] -> rec b = Ok (map r b)) ->
  batch_loop_d fuel rnd lg bs K test rec us t = fold_res (one_user_d K test r) us t.
Proof.
  intros HB. induction fuel as [|fuel IH]; intros us t L RW.
  - destruct us; [reflexivity|simpl in L; lia].
  - destruct us as [|u us']; [reflexivity|]. set (us := u :: us') in *.
    assert (I1 : incl (firstn bs us) us) by (intros x Hx; rewrite <- (firstn_skipn bs us); apply in_or_app; auto).
    assert (I2 : incl (skipn bs us) us) by (intros x Hx; rewrite <- (firstn_skipn bs us); apply in_or_app; auto).
    assert (STEP : batch_loop_d (S fuel) rnd lg bs K test rec us t =
       (do t <- batch_step_d rnd lg K test rec (firstn bs us) t; batch_loop_d fuel rnd lg bs K test rec (skipn bs us) t)) by reflexivity.
    rewrite STEP. unfold batch_step_d. rewrite RW; [|auto|destruct bs; [lia|discriminate]]. cbn [bind].
    rewrite map_length, Nat.ltb_irrefl, fold_combine_d.
    rewrite <- (firstn_skipn bs us) at 2. rewrite fold_res_app. destruct (fold_res _ (firstn bs us) t); cbn [bind]; auto.
    apply IH.
    + rewrite skipn_length. assert (length us = S (length us')) by reflexivity. lia.
    + intros b Hb NE. apply RW; auto. intros x Hx. apply I2, Hb; auto.
Qed.

(** Running sums over users. *)
Definition sum_d (f : nat -> R) (us : list nat) (a : R) : R := fold_left (fun s u => rnd (s + f u)) us a.
Fixpoint sumn (f : nat -> nat) (us : list nat) : nat := match us with [] => 0 | u :: us => f u + sumn f us end.
Lemma sumn_le f g us : (forall u, In u us -> (f u <= g u)%nat) -> (sumn f us <= sumn g us)%nat.
Proof. induction us as [|u us IH]; intros A; cbn [sumn]; [lia|]. pose proof (A u (or_introl eq_refl)). specialize (IH (fun v H => A v (or_intror H))). lia. Qed.
Lemma sumn_bound f us c : (forall u, In u us -> (f u <= c)%nat) -> (sumn f us <= length us * c)%nat.
Proof. induction us as [|u us IH]; intros A; cbn [sumn length]; [lia|]. pose proof (A u (or_introl eq_refl)). specialize (IH (fun v H => A v (or_intror H))). lia. Qed.

Lemma users_d {T} (K : nat) (test : csr T) (r : nat -> list Z) (us : list nat) : (0 < K)%nat -> csr_wf test -> (Z.of_nat (c_cols test) <= 2 ^ 26)%Z ->
  incl us (test_users test) ->
  (forall u, In u us -> (length (test_items test u) < c_cols test)%nat /\ (K <= length (r u))%nat /\ valid_ranking (c_cols test) (firstn K (r u))) ->
  forall p d n mp nd ac, small (p + length us * K) -> small (d + length us * K) -> small (n + length us) ->
  fold_res (one_user_d K test r) us (tot p d n mp nd ac) =
  Ok (tot (p + sumn (fun u => nhits (test_items test u) (firstn K (r u))) us)
        (d + sumn (fun u => Nat.min K (length (test_items test u))) us) (n + length us)
        (sum_d (fun u => rnd (ap_d (test_items test u) 0 0 (firstn K (r u)) 0 / INR (Nat.min K (length (test_items test u))))) us mp)
        (fold_left (fun s u => dcg_d (test_items test u) (idcg_d K (test_items test u)) 0 (firstn K (r u)) s) us nd)
        (sum_d (fun u => rnd (u_auc K (c_cols test) (test_items test u) (r u))) us ac)).
Proof.
  intros HK W BI. induction us as [|u us IH]; intros IN A p d n mp nd ac S1 S2 S3.
  - cbn. rewrite !Nat.add_0_r. reflexivity.
  - cbn [fold_res sumn length fold_left] in *. unfold one_user_d at 1. change (likes_of test u) with (test_items test u).
    destruct (A u (or_introl eq_refl)) as [A1 [A2 A3]]. unfold small in *.
    pose proof (test_items_pos test u (IN u (or_introl eq_refl))) as PI.
    pose proof (nhits_min _ _ K (r u) (test_items_nodup test u) A3) as NH.
    rewrite user_step_d_ok; auto; try (unfold small; nia).
    + cbn [bind]. rewrite IH; auto; try (unfold small; nia).
      * unfold tot, sum_d. cbn [fold_left]. do 2 f_equal; f_equal; lia.
      * intros x Hx. apply IN. right; auto.
      * intros v Hv. apply A. right; auto.
    + intros E. rewrite E in PI. simpl in PI. lia.
    + apply test_items_nodup.
    + intros i. apply test_items_lt; auto.
Qed.
End Rounded.
