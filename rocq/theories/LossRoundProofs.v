(** The loss in rounded arithmetic against the loss. *)
From Coq Require Import List Arith Lia Bool ZArith Reals Lra Permutation.
From Verif Require Import Base Num Sparse TopkBatch RVec AlsModel AlsSpec AlsProofs AlsProofs2 AlsLoss SimilarRound LossRound.
Import ListNotations.
Local Open Scope R_scope.

(** [w] approximates [v], which is at most [m] in size, with a relative error of [g - 1] in [m]. *)
Definition ap (g v m w : R) : Prop := 1 <= g /\ Rabs v <= m /\ Rabs (w - v) <= (g - 1) * m.
Inductive apv (g : R) : list R -> list R -> list R -> Prop :=
| apv_nil : apv g [] [] []
| apv_cons v m w vs ms ws : ap g v m w -> apv g vs ms ws -> apv g (v :: vs) (m :: ms) (w :: ws).

Lemma ap_exact v : ap 1 v (Rabs v) v.
Proof. repeat split; try lra. rewrite Rminus_eq_0, Rabs_R0. pose proof (Rabs_pos v). lra. Qed.
Lemma ap_mono g g' v m w : ap g v m w -> g <= g' -> ap g' v m w.
Proof. intros (G & A & B) L. repeat split; auto; [lra|]. pose proof (Rabs_pos v). eapply Rle_trans; [exact B|]. apply Rmult_le_compat_r; lra. Qed.
Lemma ap_le g v m m' w : ap g v m w -> m <= m' -> ap g v m' w.
Proof. intros (G & A & B) L. repeat split; auto; [lra|]. eapply Rle_trans; [exact B|]. apply Rmult_le_compat_l; lra. Qed.
Lemma ap_opp g v m w : ap g v m w -> ap g (- v) m (- w).
Proof. intros (G & A & B). repeat split; auto; [rewrite Rabs_Ropp; auto|]. replace (- w - - v) with (- (w - v)) by lra. rewrite Rabs_Ropp. auto. Qed.
Lemma ap_zero g : 1 <= g -> ap g 0 0 0.
Proof. intros G. repeat split; auto; rewrite ?Rminus_eq_0, ?Rabs_R0; lra. Qed.
Lemma apv_mono g g' vs ms ws : apv g vs ms ws -> g <= g' -> apv g' vs ms ws.
Proof. intros A L. induction A; constructor; auto. eapply ap_mono; eauto. Qed.
Lemma apv_exact xs : apv 1 xs (map Rabs xs) xs.
Proof. induction xs; constructor; auto. apply ap_exact. Qed.
Lemma apv_map {B} g (fv fm fw : B -> R) l : (forall b, In b l -> ap g (fv b) (fm b) (fw b)) -> apv g (map fv l) (map fm l) (map fw l).
Proof. induction l; intros HA; constructor; [apply HA; left; auto|]. apply IHl. intros b Hb. apply HA. right; auto. Qed.

Section Rnd.
Variables (rnd : R -> R) (u : R).
Hypothesis RE : forall x, Rabs (rnd x - x) <= u * Rabs x.
Hypothesis U0 : 0 <= u.

Lemma ap_rnd g v m w : ap g v m w -> ap (g * (1 + u)) v m (rnd w).
Proof.
  intros (G & A & B). pose proof (Rabs_pos v).
  assert (G2 : 1 <= g * (1 + u)) by (rewrite <- (Rmult_1_l 1); apply Rmult_le_compat; lra).
  repeat split; auto.
  assert (W : Rabs w <= g * m).
  { replace w with ((w - v) + v) by lra. eapply Rle_trans; [apply Rabs_triang|]. lra. }
  replace (rnd w - v) with ((rnd w - w) + (w - v)) by lra. eapply Rle_trans; [apply Rabs_triang|].
  assert (E : Rabs (rnd w - w) <= u * (g * m)) by (eapply Rle_trans; [apply RE|]; apply Rmult_le_compat_l; auto). lra.
Qed.
Lemma ap_add0 g v m w v' m' w' : ap g v m w -> ap g v' m' w' -> ap g (v + v') (m + m') (w + w').
Proof.
  intros (G & A & B) (_ & A' & B'). repeat split; auto.
  - eapply Rle_trans; [apply Rabs_triang|]. lra.
  - replace (w + w' - (v + v')) with ((w - v) + (w' - v')) by lra. eapply Rle_trans; [apply Rabs_triang|]. lra.
Qed.
Lemma ap_add g v m w v' m' w' : ap g v m w -> ap g v' m' w' -> ap (g * (1 + u)) (v + v') (m + m') (rnd (w + w')).
Proof. intros A B. apply ap_rnd, ap_add0; auto. Qed.
Lemma ap_sub g v m w v' m' w' : ap g v m w -> ap g v' m' w' -> ap (g * (1 + u)) (v - v') (m + m') (rnd (w - w')).
Proof. intros A B. apply ap_rnd. unfold Rminus. apply ap_add0; auto. apply ap_opp; auto. Qed.
Lemma ap_mul g g' v m w v' m' w' : ap g v m w -> ap g' v' m' w' -> ap (g * g' * (1 + u)) (v * v') (m * m') (rnd (w * w')).
Proof.
  intros (G & A & B) (G' & A' & B'). apply ap_rnd. pose proof (Rabs_pos v). pose proof (Rabs_pos v').
  repeat split.
  - rewrite <- (Rmult_1_l 1); apply Rmult_le_compat; lra.
  - rewrite Rabs_mult. apply Rmult_le_compat; auto.
  - replace (w * w' - v * v') with ((w - v) * (w' - v') + (w - v) * v' + v * (w' - v')) by lra.
    eapply Rle_trans; [apply Rabs_triang|]. eapply Rle_trans; [apply Rplus_le_compat_r, Rabs_triang|]. rewrite !Rabs_mult.
    assert (E1 : Rabs (w - v) * Rabs (w' - v') <= ((g - 1) * m) * ((g' - 1) * m')) by (apply Rmult_le_compat; auto; apply Rabs_pos).
    assert (E2 : Rabs (w - v) * Rabs v' <= ((g - 1) * m) * m') by (apply Rmult_le_compat; auto; apply Rabs_pos).
    assert (E3 : Rabs v * Rabs (w' - v') <= m * ((g' - 1) * m')) by (apply Rmult_le_compat; auto; apply Rabs_pos).
    lra.
Qed.

Notation NR := (Num_rnd rnd).
Notation e := (1 + u).
Lemma pow_ge k : 1 <= e ^ k. Proof. apply pow_R1_Rle. lra. Qed.
Lemma pow_mono k l : (k <= l)%nat -> e ^ k <= e ^ l. Proof. intros. apply Rle_pow; [lra|auto]. Qed.

(** Sums and inner products in order. *)
Lemma ap_fold vs ms ws : forall g, apv g vs ms ws -> forall v m w, ap g v m w ->
  ap (g * e ^ length vs) (v + rsum vs) (m + rsum ms) (fold_left (@nadd R NR) ws w).
Proof.
  revert ms ws. induction vs as [|v1 vs IH]; intros ms ws g A v m w HA; inversion A; subst.
  - simpl. rewrite Rmult_1_r, !Rplus_0_r. auto.
  - cbn [fold_left length]. assert (P := ap_add g _ _ _ _ _ _ HA H1).
    assert (G : g <= g * e) by (destruct HA as (G & _); rewrite <- (Rmult_1_r g) at 1; apply Rmult_le_compat_l; lra).
    assert (Q := IH _ _ (g * e) (apv_mono _ _ _ _ _ H4 G) _ _ _ P).
    replace (g * e ^ S (length vs)) with (g * e * e ^ length vs) by (simpl; lra).
    cbn [rsum]. rewrite <- !Rplus_assoc. exact Q.
Qed.
Lemma ap_nsum g vs ms ws : 1 <= g -> apv g vs ms ws -> ap (g * e ^ length vs) (rsum vs) (rsum ms) (@nsum R NR ws).
Proof. intros G A. pose proof (ap_fold _ _ _ _ A 0 0 0 (ap_zero g G)) as P. rewrite !Rplus_0_l in P. exact P. Qed.
Lemma apv_mul g g' a am aw : apv g a am aw -> forall b bm bw, apv g' b bm bw ->
  apv (g * g' * e) (map (fun p => fst p * snd p) (combine a b)) (map (fun p => fst p * snd p) (combine am bm))
    (map (fun p => rnd (fst p * snd p)) (combine aw bw)).
Proof.
  intros A. induction A; intros b bm bw B; [constructor|]. inversion B; subst; [constructor|]. cbn [combine map fst snd]. constructor; auto. apply ap_mul; auto.
Qed.
Lemma rdot_sum a : forall b, rdot a b = rsum (map (fun p => fst p * snd p) (combine a b)).
Proof. induction a; destruct b; simpl; auto. rewrite IHa. auto. Qed.
Lemma ap_dot g g' a am aw b bm bw : 1 <= g -> 1 <= g' -> apv g a am aw -> apv g' b bm bw ->
  ap (g * g' * e ^ S (length a)) (rdot a b) (rdot am bm) (@ndot R NR aw bw).
Proof.
  intros G G' A B. assert (G2 : 1 <= g * g' * e) by (rewrite <- (Rmult_1_l 1), <- (Rmult_1_l 1) at 1; repeat apply Rmult_le_compat; lra).
  pose proof (ap_nsum _ _ _ _ G2 (apv_mul _ _ _ _ _ A _ _ _ B)) as P. rewrite <- !rdot_sum in P. eapply ap_mono; [exact P|].
  rewrite map_length, combine_length. cbn [pow]. rewrite <- !Rmult_assoc.
  apply Rmult_le_compat_l; [lra|]. apply pow_mono. lia.
Qed.
Lemma apv_axpy g g' t tm tw y ym yw : 1 <= g' -> apv g' y ym yw -> ap g t tm tw -> forall r rm rw k, apv k r rm rw -> g * g' * e <= k ->
  apv (k * e) (axpy t y r) (axpy tm ym rm) (@axpy R NR tw yw rw).
Proof.
  intros G' A HT. assert (G : 1 <= g) by apply HT. 
  assert (G2 : 1 <= g * g' * e) by (rewrite <- (Rmult_1_l 1), <- (Rmult_1_l 1) at 1; repeat apply Rmult_le_compat; lra).
  induction A; intros r rm rw k B L.
  - cbn [axpy]. eapply apv_mono; [exact B|]. rewrite <- (Rmult_1_r k) at 1. apply Rmult_le_compat_l; lra.
  - inversion B; subst; cbn [axpy]; constructor.
    + cbn. apply ap_add; auto. eapply ap_mono; [apply ap_mul; eauto|]. auto.
    + apply IHA; auto.
Qed.
Lemma apv_length g a am aw : apv g a am aw -> length am = length a /\ length aw = length a.
Proof. intros A. induction A; simpl; intuition. Qed.

(** The Gram matrix and the first product with it. *)
Lemma nth_abs j (y : list R) : nth j (map Rabs y) 0 = Rabs (nth j y 0).
Proof. rewrite <- Rabs_R0 at 1. apply map_nth. Qed.
Lemma ap_gram_entry (Y : list (list R)) j k :
  ap (e ^ S (length Y)) (nsum (map (fun y => nth j y 0 * nth k y 0) Y)) (nsum (map (fun y => nth j y 0 * nth k y 0) (map (map Rabs) Y)))
    (@nsum R NR (map (fun y => rnd (nth j y 0 * nth k y 0)) Y)).
Proof.
  rewrite !nsum_rsum, map_map.
  assert (A : apv e (map (fun y => nth j y 0 * nth k y 0) Y) (map (fun y => nth j (map Rabs y) 0 * nth k (map Rabs y) 0) Y)
    (map (fun y => rnd (nth j y 0 * nth k y 0)) Y)).
  { apply apv_map. intros y _. rewrite !nth_abs. replace e with (1 * 1 * e) by lra. apply ap_mul; apply ap_exact. }
  assert (E1 : 1 <= e) by lra. eapply ap_mono; [apply (ap_nsum _ _ _ _ E1 A)|]. rewrite map_length. simpl. lra.
Qed.
Lemma apv_gram_row (Y : list (list R)) n j :
  apv (e ^ S (length Y)) (map (fun k => nsum (map (fun y => nth j y 0 * nth k y 0) Y)) (seq 0 n))
    (map (fun k => nsum (map (fun y => nth j y 0 * nth k y 0) (map (map Rabs) Y))) (seq 0 n))
    (map (fun k => @nsum R NR (map (fun y => rnd (nth j y 0 * nth k y 0)) Y)) (seq 0 n)).
Proof. apply (apv_map _ _ _ _ (seq 0 n)). intros k _. apply ap_gram_entry. Qed.
Lemma apv_symv n (Y : list (list R)) x : length x = n ->
  apv (e ^ (length Y + n + 3)) (mv (gram n Y) x) (mv (gram n (map (map Rabs) Y)) (map Rabs x)) (@symv R NR 1 (@gram R NR n Y) x).
Proof.
  intros Lx. unfold mv, symv, gram. rewrite !map_map. apply apv_map. intros j _.
  assert (P := ap_dot _ _ _ _ _ _ _ _ (pow_ge _) (Rle_refl 1) (apv_gram_row Y n j) (apv_exact x)).
  rewrite map_length, seq_length in P. assert (P2 := ap_mul _ _ _ _ _ _ _ _ (ap_exact 1) P).
  rewrite Rabs_R1, !Rmult_1_l in P2. cbn [nmul nzero Num_rnd Num_R]. rewrite Rmult_1_l. eapply ap_mono; [exact P2|]. rewrite Rmult_1_r.
  replace (length Y + n + 3)%nat with (S (length Y) + S n + 1)%nat by lia. rewrite !pow_add. simpl. lra.
Qed.

(** The loop over the entries of a user. *)
Definition tmaj (P : R) (c : R) : R := 2 * Rabs c + (Rabs c + 1) * P.
Lemma conf_abs_ap c : ap e (Rabs c) (Rabs c) (@conf_abs R NR c).
Proof.
  unfold conf_abs. simpl nltb. unfold Rltb. destruct (Rlt_dec 0 c).
  - rewrite (Rabs_right c) by lra. pose proof (ap_exact c) as A. rewrite Rabs_right in A by lra. eapply ap_mono; [exact A|lra].
  - simpl. assert (E : Rabs c = -1 * c) by (rewrite Rabs_left1; lra). rewrite E. replace e with (1 * e) by lra. apply ap_rnd.
    pose proof (ap_exact (-1 * c)) as A. rewrite Rabs_right in A by lra. exact A.
Qed.
Lemma temp_ap n (y x : list R) c : length y = n ->
  ap (e ^ (n + 5)) (-2 * pos c + (Rabs c - 1) * rdot y x) (tmaj (rdot (map Rabs y) (map Rabs x)) c)
    (@nadd R NR (if @nltb R NR nzero c then @nmul R NR (@nopp R NR (@nadd R NR none_ none_)) c else nzero)
       (@nmul R NR (@nsub R NR (@conf_abs R NR c) none_) (@ndot R NR y x))).
Proof.
  intros Ly. assert (D := ap_dot _ _ _ _ _ _ _ _ (Rle_refl 1) (Rle_refl 1) (apv_exact y) (apv_exact x)). rewrite Ly in D.
  assert (C1 : ap (e ^ 2) (Rabs c - 1) (Rabs c + 1) (@nsub R NR (@conf_abs R NR c) none_)).
  { simpl nsub. replace (e ^ 2) with (e * e) by (simpl; lra). apply ap_sub; [apply conf_abs_ap|]. pose proof (ap_exact 1) as A. rewrite Rabs_R1 in A. eapply ap_mono; [exact A|lra]. }
  assert (M := ap_mul _ _ _ _ _ _ _ _ C1 D).
  assert (T0 : ap (e ^ 2) (-2 * pos c) (2 * Rabs c) (if @nltb R NR nzero c then @nmul R NR (@nopp R NR (@nadd R NR none_ none_)) c else nzero)).
  { simpl nltb. unfold Rltb, pos. destruct (Rlt_dec 0 c).
    - cbn [nmul nopp nadd none_ Num_rnd]. replace (-2 * c) with (- (1 + 1) * c) by lra. replace (e ^ 2) with (1 * e * 1 * e) by (simpl; lra). apply ap_mul; [|apply ap_exact].
      replace 2 with (1 + 1) by lra. apply ap_opp. pose proof (ap_exact 1) as A. rewrite Rabs_R1 in A. exact (ap_add 1 1 1 1 1 1 1 A A).
    - rewrite Rmult_0_r. apply (ap_le _ 0 0); [apply ap_zero, pow_ge|]. pose proof (Rabs_pos c). lra. }
  unfold tmaj. replace (e ^ (n + 5)) with (e ^ (n + 4) * e) by (rewrite !pow_add; simpl; lra). apply ap_add.
  - eapply ap_mono; [exact T0|]. apply pow_mono. lia.
  - eapply ap_mono; [exact M|]. rewrite Rmult_1_r. rewrite !pow_add. simpl. pose proof (pow_ge n). lra.
Qed.

Definition emaj (Y : list (list R)) (x : list R) (p : nat * R) : R :=
  let P := rdot (map Rabs (nth (fst p) Y [])) (map Rabs x) in tmaj P (snd p) * P.
Definition entry_value (Y : list (list R)) (x : list R) (p : nat * R) : R :=
  (-2 * pos (snd p) + (Rabs (snd p) - 1) * rdot (nth (fst p) Y []) x) * rdot (nth (fst p) Y []) x.
Lemma terms_fold n Y x row : mat_ok n Y -> length x = n -> (forall p, In p row -> (fst p < length Y)%nat) ->
  forall k r rm rw cs, apv (e ^ k) r rm rw -> length r = n -> (n + 6 <= k)%nat -> exists r' rm' rw',
  fold_res (fun s en =>
      let '(r, cs) := s in
      do y <- raw_row Y (fst en);
      let c := @conf_abs R NR (snd en) in
      let t0 := if @nltb R NR nzero (snd en) then @nmul R NR (@nopp R NR (@nadd R NR none_ none_)) (snd en) else nzero in
      let t := @nadd R NR t0 (@nmul R NR (@nsub R NR c none_) (@ndot R NR y x)) in
      Ok (@axpy R NR t y r, cs ++ [c])) row (rw, cs) = Ok (rw', cs ++ map (fun p => @conf_abs R NR (snd p)) row) /\
  length r' = n /\ apv (e ^ (k + length row)) r' rm' rw' /\
  rdot r' x = rdot r x + rsum (map (entry_value Y x) row) /\
  rdot rm' (map Rabs x) = rdot rm (map Rabs x) + rsum (map (emaj Y x) row).
Proof.
  intros MY Lx. induction row as [|[i c] row IH]; intros B k r rm rw cs A Lr K.
  - exists r, rm, rw. cbn [map length rsum fold_res]. rewrite app_nil_r, Nat.add_0_r, !Rplus_0_r. auto.
  - assert (Bi : (i < length Y)%nat) by (apply (B (i, c)); left; auto). cbn [fold_res fst snd]. rewrite raw_row_ok by auto. cbn [bind]. cbv zeta.
    set (y := nth i Y []) in *. assert (Ly : length y = n) by (apply mat_row; auto).
    assert (TA := temp_ap n y x c Ly).
    match type of TA with ap _ _ _ ?w => set (tw := w) in * end. set (t := -2 * pos c + (Rabs c - 1) * rdot y x) in *. set (tm := tmaj _ c) in *.
    assert (A' := apv_axpy _ _ t tm tw _ _ _ (Rle_refl 1) (apv_exact y) TA r rm rw (e ^ k) A).
    assert (L1 : e ^ (n + 5) * 1 * e <= e ^ k).
    { rewrite Rmult_1_r. replace (e ^ (n + 5) * e) with (e ^ (n + 6)) by (rewrite !pow_add; simpl; lra). apply pow_mono; auto. }
    specialize (A' L1). replace (e ^ k * e) with (e ^ (S k)) in A' by (simpl; lra).
    destruct (IH (fun p Hp => B p (or_intror Hp)) (S k) _ _ _ (cs ++ [@conf_abs R NR c]) A' ltac:(rewrite axpy_length; auto) ltac:(lia))
      as (r' & rm' & rw' & E & L' & AP & D & DM).
    exists r', rm', rw'. split; [etransitivity; [exact E|]; cbn [map snd]; rewrite <- app_assoc; reflexivity|].
    split; [auto|]. split; [replace (k + length ((i, c) :: row))%nat with (S k + length row)%nat by (simpl; lia); auto|].
    destruct (apv_length _ _ _ _ A) as [Lm _].
    split.
    + rewrite D. cbn [map rsum]. unfold entry_value at 2. cbn [fst snd]. fold y. rewrite rdot_axpy by congruence. fold t. lra.
    + rewrite DM. cbn [map rsum]. unfold emaj at 2. cbn [fst snd]. fold y. rewrite rdot_axpy by (rewrite map_length; congruence). fold tm. lra.
Qed.

(** One user. *)
Definition row_maj (Y : list (list R)) (row : list (nat * R)) (x : list R) : R :=
  rsum (map (fun y => rdot (map Rabs y) (map Rabs x) * rdot (map Rabs y) (map Rabs x)) Y) + rsum (map (emaj Y x) row).
Lemma abs_mat_ok n Y : mat_ok n Y -> mat_ok n (map (map Rabs) Y).
Proof. intros M y Hy. apply in_map_iff in Hy. destruct Hy as (y' & <- & Hy). rewrite map_length. auto. Qed.
Lemma terms_user n Y row x : mat_ok n Y -> row_ok (length Y) row -> length x = n -> exists w,
  @loss_terms R NR (@gram R NR n Y) Y row x = Ok (map (fun p => @conf_abs R NR (snd p)) row, w, @ndot R NR x x) /\
  ap (e ^ (length Y + 2 * n + 7 + length row)) (row_error Y row x + neg_sum row - abs_sum row) (row_maj Y row x) w.
Proof.
  intros MY RO Lx. unfold loss_terms.
  destruct (terms_fold n Y x row MY Lx (proj2 RO) (length Y + n + 6) (mv (gram n Y) x) (mv (gram n (map (map Rabs) Y)) (map Rabs x))
    (@symv R NR 1 (@gram R NR n Y) x) []) as (r' & rm' & rw' & E & L' & AP & D & DM).
  { eapply apv_mono; [apply apv_symv; auto|]. apply pow_mono. lia. }
  { rewrite mv_length. apply (gram_shape n Y). }
  { lia. }
  exists (@ndot R NR rw' x). split.
  - match goal with |- bind ?F _ = _ => replace F with (Ok (rw', [] ++ map (fun p : nat * R => @conf_abs R NR (snd p)) row)) by (symmetry; exact E) end. reflexivity.
  - assert (P := ap_dot _ _ _ _ _ _ _ _ (pow_ge _) (Rle_refl 1) AP (apv_exact x)). rewrite D, DM, L' in P.
    rewrite gram_form in P by auto. rewrite gram_form in P by (rewrite ?map_length; auto using abs_mat_ok). rewrite map_map in P.
    pose proof (loss_user_value n Y row x MY RO Lx) as V. unfold loss_user in V. rewrite symv1 in V.
    destruct (loss_fold n Y x row MY Lx (proj2 RO) (mv (gram n Y) x) 0 0) as [r2 [E2 [Lr2 D2]]]; [rewrite mv_length; apply (gram_shape n Y)|].
    match goal with V : bind ?F _ = _ |- _ => replace F with (Ok (r2, 0 + abs_sum row, 0 + abs_sum row)) in V by (symmetry; exact E2) end.
    cbn [bind] in V. injection V as _ V _. rewrite ndot_rdot in V. rewrite D2, gram_form in V by auto. 
    match type of P with ap _ ?v _ _ => replace v with (row_error Y row x + neg_sum row - abs_sum row) in P end.
    2:{ rewrite <- V. simpl nadd. unfold entry_value. lra. }
    eapply ap_mono; [exact P|]. rewrite Rmult_1_r. rewrite <- pow_add. apply pow_mono. lia.
Qed.
Lemma ap_sq n x : length x = n -> ap (e ^ S n) (rdot x x) (rdot x x) (@ndot R NR x x).
Proof.
  intros Lx. assert (P := ap_dot _ _ _ _ _ _ _ _ (Rle_refl 1) (Rle_refl 1) (apv_exact x) (apv_exact x)). rewrite Lx in P.
  replace (rdot (map Rabs x) (map Rabs x)) with (rdot x x) in P.
  - eapply ap_mono; [exact P|]. lra.
  - clear. induction x; simpl; auto. rewrite IHx. f_equal. rewrite <- Rabs_mult, Rabs_right; auto. apply Rle_ge, Rle_0_sqr.
Qed.
End Rnd.

(** Reductions. *)
Lemma added_fold {D} `{Num D} l : forall d l0 s0, added d l0 s0 -> added (d + length l) (l0 ++ l) (fold_left nadd l s0).
Proof.
  induction l as [|x l IH]; intros d l0 s0 A; cbn [fold_left length].
  - rewrite app_nil_r, Nat.add_0_r. auto.
  - replace (l0 ++ x :: l) with ((l0 ++ [x]) ++ l) by (rewrite <- app_assoc; auto). replace (d + S (length l))%nat with (S (Nat.max d 0) + length l)%nat by lia.
    apply IH. apply added_two; auto. constructor.
Qed.
Lemma added_nsum {D} `{Num D} l : added (length l) l (nsum l).
Proof. apply (added_fold l 0 [] nzero). constructor. Qed.
Lemma added_parts {D} `{Num D} (parts : list (list D)) M : (forall l, In l parts -> (length l <= M)%nat) -> forall d l0 s0, added d l0 s0 ->
  exists d', (d' <= Nat.max d M + length parts)%nat /\ added d' (l0 ++ concat parts) (fold_left nadd (map nsum parts) s0).
Proof.
  induction parts as [|l parts IH]; intros B d l0 s0 A; cbn [map fold_left concat length].
  - exists d. rewrite app_nil_r. split; auto; lia.
  - destruct (IH (fun l Hl => B l (or_intror Hl)) _ _ _ (added_two _ _ _ _ _ _ A (added_nsum l))) as (d' & L & A').
    pose proof (B l (or_introl eq_refl)). exists d'. split; [lia|]. rewrite app_assoc. auto.
Qed.
Lemma part_length {A} (parts : list (list A)) l : In l parts -> (length l <= length (concat parts))%nat.
Proof. induction parts as [|p parts IH]; intros Hl; [destruct Hl|]. cbn [concat]. rewrite app_length. destruct Hl as [->|Hl]; [lia|]. specialize (IH Hl). lia. Qed.
Lemma omp_reduction {D} `{Num D} t deal : (forall l : list D, Permutation (concat (deal l)) l /\ (length (deal l) <= t)%nat) -> reduction t (omp_sum deal).
Proof.
  intros HD l. destruct (HD l) as [P L].
  destruct (added_parts (deal l) (length l)) with (d := 0%nat) (l0 := @nil D) (s0 := nzero) as (d' & Ld & A).
  - intros p Hp. rewrite <- (Permutation_length P). apply part_length; auto.
  - constructor.
  - exists d'. split; [lia|]. eapply added_perm; [exact A|exact P].
Qed.
Lemma in_order_reduction {D} `{Num D} : reduction 0 nsum.
Proof. intros l. exists (length l). split; [lia|apply added_nsum]. Qed.

Lemma map_flat {A B C} (f : B -> C) (g : A -> list B) l : map f (flat_map g l) = flat_map (fun x => map f (g x)) l.
Proof. induction l; simpl; auto. rewrite map_app, IHl. auto. Qed.
Lemma rsum_flat {A} (g : A -> list R) l : rsum (flat_map g l) = rsum (map (fun x => rsum (g x)) l).
Proof. induction l; simpl; auto. rewrite rsum_app, IHl. auto. Qed.
Lemma nnz_length {T B} (m : csr T) (f : nat * T -> B) : csr_wf m -> nth 0 (c_indptr m) 0%nat = 0%nat ->
  length (flat_map (fun u => map f (csr_row m u)) (seq 0 (c_rows m))) = nth (c_rows m) (c_indptr m) 0%nat.
Proof.
  intros W Z.
  assert (G : forall k, (k <= c_rows m)%nat -> length (flat_map (fun u => map f (csr_row m u)) (seq 0 k)) = nth k (c_indptr m) 0%nat).
  { induction k as [|k IH]; intros B0; [rewrite Z; auto|]. rewrite seq_S, flat_map_app, app_length, IH by lia. simpl plus. cbn [flat_map]. rewrite app_nil_r, map_length.
    rewrite csr_row_length by (auto; lia). pose proof (wf_indptr_mono m W k (S k)). lia. }
  apply G; auto.
Qed.

Lemma grow z v : 1 <= z -> 0 <= v -> z <= 1 * (z * (1 + v)) * (1 + v).
Proof. intros. nra. Qed.

Section Mixed.
Variables (rnd rd : R -> R) (u v : R).
Hypothesis RE : forall x, Rabs (rnd x - x) <= u * Rabs x.
Hypothesis RD : forall x, Rabs (rd x - x) <= v * Rabs x.
Hypothesis U0 : 0 <= u.
Hypothesis V0 : 0 <= v.
Notation NR := (Num_rnd rnd).
Notation ND := (Num_rnd rd).
Notation e := (1 + u).
Notation q := (1 + v).

Lemma added_ap g d ws s : @added R ND d ws s -> 1 <= g -> forall tr : list (R * R * R), map snd tr = ws ->
  (forall t, In t tr -> ap g (fst (fst t)) (snd (fst t)) (snd t)) ->
  ap (g * q ^ d) (rsum (map (fun t => fst (fst t)) tr)) (rsum (map (fun t => snd (fst t)) tr)) s.
Proof.
  intros A G. induction A as [|x|d d' l l' s s' A IHA B IHB|d l l' s A IHA P]; intros tr E HT.
  - apply map_eq_nil in E. subst tr. simpl. apply ap_zero. lra.
  - destruct tr as [|t [|]]; try discriminate. injection E as <-. cbn [map rsum pow]. rewrite !Rplus_0_r, Rmult_1_r. apply HT. left; auto.
  - apply map_eq_app in E. destruct E as (t1 & t2 & -> & E1 & E2). rewrite !map_app, !rsum_app.
    assert (MQ : forall k, (k <= Nat.max d d')%nat -> g * q ^ k <= g * q ^ Nat.max d d').
    { intros k Hk. apply Rmult_le_compat_l; [lra|]. apply Rle_pow; [lra|auto]. }
    replace (g * q ^ S (Nat.max d d')) with (g * q ^ Nat.max d d' * q) by (simpl; lra).
    apply (ap_add rd v RD V0).
    + eapply ap_mono; [apply IHA; auto; intros; apply HT, in_or_app; auto|]. apply MQ; lia.
    + eapply ap_mono; [apply IHB; auto; intros; apply HT, in_or_app; auto|]. apply MQ; lia.
  - subst l'. destruct (Permutation_map_inv _ _ P) as (tr' & E' & P').
    assert (R1 : forall f : R * R * R -> R, rsum (map f tr) = rsum (map f tr')) by (intros f; apply rsum_perm, Permutation_map; auto).
    rewrite !R1. apply IHA; auto. intros t Ht. apply HT. eapply Permutation_in; [apply Permutation_sym; exact P'|exact Ht].
Qed.
Lemma sum_ap t sum g ws M (tr : list (R * R * R)) : @reduction R ND t sum -> 1 <= g -> map snd tr = ws -> (length ws + t <= M)%nat ->
  (forall x, In x tr -> ap g (fst (fst x)) (snd (fst x)) (snd x)) ->
  ap (g * q ^ M) (rsum (map (fun x => fst (fst x)) tr)) (rsum (map (fun x => snd (fst x)) tr)) (sum ws).
Proof.
  intros HR G E L HT. destruct (HR ws) as (d & Ld & A). eapply ap_mono; [apply (added_ap g d ws _ A G tr E HT)|].
  apply Rmult_le_compat_l; [lra|]. apply Rle_pow; [lra|lia].
Qed.

Theorem loss_mixed n m X Y reg sum t w :
  canonical m -> nth 0 (c_indptr m) 0%nat = 0%nat -> mat_ok n X -> mat_ok n Y -> length X = c_rows m -> length Y = c_cols m ->
  @reduction R ND t sum -> (forall k, (k < c_rows m)%nat -> (length (csr_row m k) <= w)%nat) ->
  exists L C,
  @calculate_loss_mixed R R NR ND (fun x => x) sum (fun k => rd (INR k)) n m X Y reg = @c_div R ND L C /\
  ap (e ^ (length Y + 2 * n + 7 + w) * q ^ (nth (c_rows m) (c_indptr m) 0%nat + length X + length Y + t + 3))
    (total_loss (csr_row m) reg X Y + rsum (map (fun k => neg_sum (csr_row m k)) (seq 0 (c_rows m))))
    (rsum (map (fun k => abs_sum (csr_row m k) + row_maj Y (csr_row m k) (nth k X [])) (seq 0 (c_rows m))) + Rabs reg * (norms X + norms Y)) L /\
  ap (e * q ^ (nth (c_rows m) (c_indptr m) 0%nat + t + 3)) (total_confidence (csr_row m) (c_rows m) (c_cols m))
    (rsum (map (fun k => abs_sum (csr_row m k)) (seq 0 (c_rows m))) + INR (c_rows m * c_cols m) + INR (nth (c_rows m) (c_indptr m) 0%nat)) C.
Proof.
  intros C Z MX MY LX LY HR HW. unfold calculate_loss_mixed.
  set (K := (length Y + 2 * n + 7 + w)%nat). set (nnz := nth (c_rows m) (c_indptr m) 0%nat).
  set (wf := fun k => match @loss_terms R NR (@gram R NR n Y) Y (csr_row m k) (nth k X []) with Ok (_, x, _) => x | Raise _ => 0 end).
  assert (TU : forall k, (k < c_rows m)%nat ->
    @loss_terms R NR (@gram R NR n Y) Y (csr_row m k) (nth k X []) =
      Ok (map (fun p => @conf_abs R NR (snd p)) (csr_row m k), wf k, @ndot R NR (nth k X []) (nth k X [])) /\
    ap (e ^ K) (row_error Y (csr_row m k) (nth k X []) + neg_sum (csr_row m k) - abs_sum (csr_row m k)) (row_maj Y (csr_row m k) (nth k X [])) (wf k)).
  { intros k Hk. destruct (terms_user rnd u RE U0 n Y (csr_row m k) (nth k X [])) as (x & E & A); auto.
    - rewrite LY. apply canonical_row; auto.
    - apply mat_row; auto; lia.
    - unfold wf. rewrite E. split; auto. eapply ap_mono; [exact A|]. apply (pow_mono u U0). specialize (HW k Hk). unfold K. lia. }
  rewrite LX. erewrite (map_res_map _ (fun k => (map (fun p => @conf_abs R NR (snd p)) (csr_row m k), wf k, @ndot R NR (nth k X []) (nth k X [])))).
  2:{ intros k Hk. apply in_seq in Hk. rewrite raw_entries_ok by (try apply C; lia). cbn [bind]. rewrite raw_row_ok by lia. cbn [bind]. apply TU. lia. }
  cbn [bind]. cbv zeta.
  set (us := seq 0 (c_rows m)). set (M := (nnz + c_rows m + length Y + t)%nat).
  assert (IU : forall k, In k us -> (k < c_rows m)%nat) by (intros k Hk; apply in_seq in Hk; lia).
  assert (NZ := nnz_length m (fun p => snd p) (proj1 C) Z). fold nnz us in NZ.
  assert (EK : 1 <= e ^ K) by (apply (pow_ge u U0)).
  (* the sum of the loss *)
  match goal with |- context [sum (flat_map ?f (map ?g us))] => idtac end.
  set (l1 := flat_map (fun p : list R * R * R => map (fun x => x) (fst (fst p) ++ [snd (fst p)])) _).
  set (l2 := flat_map (fun p : list R * R * R => map (fun x => x) (fst (fst p))) _).
  assert (E1 : l1 = flat_map (fun k => map (fun p => @conf_abs R NR (snd p)) (csr_row m k) ++ [wf k]) us).
  { unfold l1. rewrite flat_map_concat_map, map_map, <- flat_map_concat_map. apply flat_map_ext. intros k. cbn [fst snd]. rewrite map_id. auto. }
  assert (E2 : l2 = flat_map (fun k => map (fun p => @conf_abs R NR (snd p)) (csr_row m k)) us).
  { unfold l2. rewrite flat_map_concat_map, map_map, <- flat_map_concat_map. apply flat_map_ext. intros k. cbn [fst snd]. rewrite map_id. auto. }
  clearbody l1 l2. subst l1 l2.
  set (tc := fun p : nat * R => (Rabs (snd p), Rabs (snd p), @conf_abs R NR (snd p))).
  assert (S1 : ap (e ^ K * q ^ M) (rsum (map (fun k => row_error Y (csr_row m k) (nth k X []) + neg_sum (csr_row m k)) us))
    (rsum (map (fun k => abs_sum (csr_row m k) + row_maj Y (csr_row m k) (nth k X [])) us))
    (sum (flat_map (fun k => map (fun p => @conf_abs R NR (snd p)) (csr_row m k) ++ [wf k]) us))).
  { set (tr := flat_map (fun k => map tc (csr_row m k) ++ [(row_error Y (csr_row m k) (nth k X []) + neg_sum (csr_row m k) - abs_sum (csr_row m k),
      row_maj Y (csr_row m k) (nth k X []), wf k)]) us).
    assert (P := sum_ap t sum (e ^ K) _ M tr HR EK eq_refl).
    assert (MS : map snd tr = flat_map (fun k => map (fun p => @conf_abs R NR (snd p)) (csr_row m k) ++ [wf k]) us).
    { unfold tr. rewrite map_flat. apply flat_map_ext. intros k. rewrite map_app, map_map. reflexivity. }
    rewrite MS in P.
    assert (V1 : rsum (map (fun x => fst (fst x)) tr) = rsum (map (fun k => row_error Y (csr_row m k) (nth k X []) + neg_sum (csr_row m k)) us)).
    { unfold tr. rewrite map_flat, rsum_flat. apply rsum_map_ext. intros k _. rewrite map_app, rsum_app, map_map. cbn [map rsum fst snd tc]. unfold abs_sum. lra. }
    assert (V2 : rsum (map (fun x => snd (fst x)) tr) = rsum (map (fun k => abs_sum (csr_row m k) + row_maj Y (csr_row m k) (nth k X [])) us)).
    { unfold tr. rewrite map_flat, rsum_flat. apply rsum_map_ext. intros k _. rewrite map_app, rsum_app, map_map. cbn [map rsum fst snd tc]. unfold abs_sum. lra. }
    rewrite V1, V2 in P. apply P.
    - assert (LL : forall ks, length (flat_map (fun k => map (fun p => @conf_abs R NR (snd p)) (csr_row m k) ++ [wf k]) ks) =
        (length (flat_map (fun k => map (fun p => snd p) (csr_row m k)) ks) + length ks)%nat).
      { induction ks; simpl; auto. rewrite !app_length, !map_length, IHks. simpl. lia. }
      rewrite LL, NZ. unfold us. rewrite seq_length. unfold M. lia.
    - intros x Hx. apply in_flat_map in Hx. destruct Hx as (k & Hk & Hx). apply in_app_or in Hx. destruct Hx as [Hx|[<-|[]]].
      + apply in_map_iff in Hx. destruct Hx as (p & <- & _). cbn [fst snd tc]. eapply ap_mono; [apply (conf_abs_ap rnd u RE U0)|].
        rewrite <- (pow_1 e) at 1. apply (pow_mono u U0). unfold K. lia.
      + cbn [fst snd]. apply TU. auto. }
  assert (S2 : ap (e * q ^ (nnz + t)) (rsum (map (fun k => abs_sum (csr_row m k)) us)) (rsum (map (fun k => abs_sum (csr_row m k)) us))
    (sum (flat_map (fun k => map (fun p => @conf_abs R NR (snd p)) (csr_row m k)) us))).
  { set (tr := flat_map (fun k => map tc (csr_row m k)) us). assert (E0 : 1 <= e) by lra.
    assert (P := sum_ap t sum e _ (nnz + t)%nat tr HR E0 eq_refl).
    assert (MS : map snd tr = flat_map (fun k => map (fun p => @conf_abs R NR (snd p)) (csr_row m k)) us).
    { unfold tr. rewrite map_flat. apply flat_map_ext. intros k. rewrite map_map. reflexivity. }
    rewrite MS in P.
    assert (V1 : rsum (map (fun x => fst (fst x)) tr) = rsum (map (fun k => abs_sum (csr_row m k)) us)).
    { unfold tr. rewrite map_flat, rsum_flat. apply rsum_map_ext. intros k _. rewrite map_map. reflexivity. }
    assert (V2 : rsum (map (fun x => snd (fst x)) tr) = rsum (map (fun k => abs_sum (csr_row m k)) us)).
    { unfold tr. rewrite map_flat, rsum_flat. apply rsum_map_ext. intros k _. rewrite map_map. reflexivity. }
    rewrite V1, V2 in P. apply P.
    - pose proof (nnz_length m (fun p => @conf_abs R NR (snd p)) (proj1 C) Z) as Q. fold us nnz in Q. rewrite Q. lia.
    - intros x Hx. apply in_flat_map in Hx. destruct Hx as (k & Hk & Hx). apply in_map_iff in Hx. destruct Hx as (p & <- & _). cbn [fst snd tc]. apply (conf_abs_ap rnd u RE U0). }
  assert (SN : forall ys, mat_ok n ys -> (length ys + t <= M)%nat -> ap (e ^ K * q ^ M) (norms ys) (norms ys) (sum (map (fun y => @ndot R NR y y) ys))).
  { intros ys MO LM. set (tr := map (fun y => (rdot y y, rdot y y, @ndot R NR y y)) ys).
    assert (P := sum_ap t sum (e ^ K) _ M tr HR EK eq_refl).
    assert (MS : map snd tr = map (fun y => @ndot R NR y y) ys) by (unfold tr; rewrite map_map; reflexivity). rewrite MS in P.
    unfold tr in P. rewrite !map_map in P. apply P; [rewrite map_length; auto|].
    intros x Hx. apply in_map_iff in Hx. destruct Hx as (y & <- & Hy). cbn [fst snd]. eapply ap_mono; [apply (ap_sq rnd u RE U0 n); auto|].
    apply (pow_mono u U0). unfold K. lia. }
  assert (SY := SN Y MY ltac:(unfold M; lia)). assert (SX := SN X MX ltac:(unfold M; lia)).
  rewrite <- (map_nth_all (fun x => @ndot R NR x x) X []), LX in SX. fold us in SX.
  exists (@nadd R ND (sum (flat_map (fun k => map (fun p => @conf_abs R NR (snd p)) (csr_row m k) ++ [wf k]) us))
    (@nmul R ND reg (@nadd R ND (sum (map (fun y => @ndot R NR y y) Y)) (sum (map (fun k => @ndot R NR (nth k X []) (nth k X [])) us))))),
   (@nsub R ND (@nadd R ND (sum (flat_map (fun k => map (fun p => @conf_abs R NR (snd p)) (csr_row m k)) us)) (rd (INR (c_rows m * c_cols m)))) (rd (INR nnz))).
  split; [|split].
  - rewrite map_map. reflexivity.
  - assert (G1 : 1 <= e ^ K * q ^ M) by (destruct S1; auto).
    assert (N1 := ap_add rd v RD V0 _ _ _ _ _ _ _ SY SX).
    assert (N2 := ap_mul rd v RD V0 _ _ _ _ _ _ _ _ (ap_exact reg) N1).
    assert (G2 : e ^ K * q ^ M <= 1 * (e ^ K * q ^ M * q) * q).
    { apply grow; auto. }
    assert (N3 := ap_add rd v RD V0 _ _ _ _ _ _ _ (ap_mono _ _ _ _ _ S1 G2) N2).
    replace (e ^ K * q ^ (M + 3)) with (1 * (e ^ K * q ^ M * q) * q * q) by (rewrite pow_add; simpl; lra).
    unfold total_loss. rewrite LX. fold us.
    match type of N3 with ap _ ?a ?b _ => match goal with |- ap _ ?a' ?b' _ => replace a' with a; [replace b' with b; [exact N3|lra]|] end end.
    rewrite rsum_map_add. lra.
  - assert (CN : forall k g, q <= g -> ap g (INR k) (INR k) (rd (INR k))).
    { intros k g Hg. pose proof (ap_rnd rd v RD V0 _ _ _ _ (ap_exact (INR k))) as A. rewrite Rabs_right in A by (apply Rle_ge, pos_INR). eapply ap_mono; [exact A|lra]. }
    set (g := e * q ^ (nnz + t + 1)).
    assert (QG : q <= g).
    { unfold g. rewrite <- (Rmult_1_l q) at 1. apply Rmult_le_compat; try lra. rewrite <- (pow_1 q) at 1. apply Rle_pow; [lra|lia]. }
    assert (GG : e * q ^ (nnz + t) <= g) by (unfold g; apply Rmult_le_compat_l; [lra|]; apply Rle_pow; [lra|lia]).
    assert (P1 := ap_add rd v RD V0 _ _ _ _ _ _ _ (ap_mono _ _ _ _ _ S2 GG) (CN (c_rows m * c_cols m)%nat g QG)).
    assert (QG2 : q <= g * q) by (rewrite <- (Rmult_1_r q) at 1; rewrite (Rmult_comm g); apply Rmult_le_compat_l; lra).
    assert (P2 := ap_sub rd v RD V0 _ _ _ _ _ _ _ P1 (CN nnz (g * q) QG2)).
    rewrite total_confidence_sum by auto. fold us nnz.
    replace (e * q ^ (nnz + t + 3)) with (g * q * q) by (unfold g; rewrite !pow_add; simpl; lra). exact P2.
Qed.
End Mixed.
