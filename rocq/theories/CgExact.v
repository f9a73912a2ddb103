(** Conjugate gradients with at least as many steps as factors: the residual falls below the threshold. *)
From Coq Require Import List Arith Lia Bool Reals Lra Psatz.
From Verif Require Import Base Num Sparse TopkModel TopkBatch RecommendModel RVec SimilarBatch AlsModel AlsSpec AlsProofs AlsProofs2 AlsConc CgProofs.
Import ListNotations.
Local Open Scope R_scope.

(** Pairwise orthogonal. *)
Fixpoint orth (vs : list (list R)) : Prop :=
  match vs with [] => True | v :: vs' => (forall w, In w vs' -> rdot v w = 0) /\ orth vs' end.

(** Bessel's inequality. *)
Lemma bessel n vs : orth vs -> (forall v, In v vs -> length v = n /\ 0 < rdot v v) -> forall w, length w = n ->
  rsum (map (fun v => rdot w v * rdot w v / rdot v v) vs) <= rdot w w.
Proof.
  induction vs as [|v vs IH]; intros O L w Lw; cbn [map rsum]; [apply rdot_nonneg|].
  destruct O as [Ov O]. destruct (L v (or_introl eq_refl)) as [Lv Pv].
  set (c := rdot w v / rdot v v). set (w' := axpy (- c) v w).
  assert (Lw' : length w' = n) by (unfold w'; rewrite axpy_length; auto).
  specialize (IH O (fun u Hu => L u (or_intror Hu)) w' Lw').
  rewrite (rsum_map_ext _ (fun v0 => rdot w v0 * rdot w v0 / rdot v0 v0)) in IH.
  2:{ intros u Hu. unfold w'. rewrite rdot_axpy by congruence. rewrite (Ov u Hu). unfold Rdiv. ring. }
  assert (E : rdot w' w' = rdot w w - rdot w v * rdot w v / rdot v v).
  { unfold w'. rewrite rdot_axpy, !rdot_axpy_r by congruence. rewrite (rdot_comm v w). unfold c. field. lra. }
  rewrite E in IH. lra.
Qed.

(** At most [n] nonzero pairwise orthogonal vectors of length [n]. *)
Lemma orth_bound n vs : orth vs -> (forall v, In v vs -> length v = n /\ 0 < rdot v v) -> (length vs <= n)%nat.
Proof.
  intros O L.
  assert (S1 : rsum (map (fun j => rsum (map (fun v => rdot (basis n j) v * rdot (basis n j) v / rdot v v) vs)) (seq 0 n)) <= rsum (map (fun _ => 1) (seq 0 n))).
  { apply rsum_le. intros j Hj. apply in_seq in Hj. eapply Rle_trans; [apply (bessel n); auto; apply basis_length|].
    rewrite rdot_basis by (try apply basis_length; lia). unfold basis. rewrite seq_nth_map by lia. rewrite Nat.eqb_refl. lra. }
  rewrite rsum_swap, rsum_map_const, seq_length in S1.
  rewrite (rsum_map_ext _ (fun _ => 1)) in S1.
  2:{ intros v Hv. destruct (L v Hv) as [Lv Pv].
      rewrite (rsum_map_ext _ (fun j => / rdot v v * (nth j v 0 * nth j v 0))).
      2:{ intros j Hj. apply in_seq in Hj. rewrite (rdot_comm (basis n j) v), rdot_basis by (auto; lia). unfold Rdiv. ring. }
      rewrite rsum_map_scale, <- (rdot_nth v v n) by auto. field. lra. }
  rewrite rsum_map_const in S1. apply INR_le. lra.
Qed.

Section Exact.
Variables (n : nat) (Y : list (list R)) (reg : R) (row : list (nat * R)).
Hypothesis MY : mat_ok n Y.
Hypothesis RO : row_ok (length Y) row.
Hypothesis R0 : 0 <= reg.
Variable eps : R.
Hypothesis E0 : 0 < eps.
Notation A := (aform Y reg row).
Notation inv := (cg_inv n Y reg row).

(** [hist]: the residuals before [r]. *)
Definition perp (vs : list (list R)) (z : list R) : Prop := forall v, In v vs -> rdot v z = 0.
Record kry (x r p : list R) (rs : R) (hist : list (list R)) : Prop := {
  k_inv : inv x r p rs;
  k_orth : orth (r :: hist);
  k_len : forall v, In v (r :: hist) -> length v = n /\ 0 < rdot v v;
  k_conj : forall v, In v hist -> A p v = 0;
  k_pr : A p r = A p p;
  k_hist : forall v z, In v hist -> length z = n -> perp (r :: hist) z -> A v z = 0;
  k_rec : exists g, (forall z, length z = n -> A r z = A p z - g z) /\ (forall z, length z = n -> perp (r :: hist) z -> g z = 0) }.

Lemma aform_axpy_r a p x z : length p = length x -> A z (axpy a p x) = A z x + a * A z p.
Proof. intros L. rewrite (aform_sym Y reg row z). rewrite aform_axpy_l by auto. rewrite (aform_sym Y reg row x), (aform_sym Y reg row p). auto. Qed.
Lemma aform_scal b p z : A (scal b p) z = b * A p z.
Proof.
  unfold aform, wform. rewrite scal_rdot. rewrite (rsum_map_ext _ (fun i => b * (confidence row i * (rdot (nth i Y []) p * rdot (nth i Y []) z)))).
  - rewrite rsum_map_scale. lra.
  - intros i _. rewrite (rdot_comm _ (scal b p)), scal_rdot, (rdot_comm p). ring.
Qed.

Lemma cg_exact k : forall x r p rs hist, kry x r p rs hist -> (n <= length hist + k)%nat ->
  exists x', cg_loop eps k (add_diag reg (gram n Y)) Y row x r p rs = Ok x' /\ length x' = n /\
    exists r', length r' = n /\ (forall z, length z = n -> rdot r' z = wlin Y row z - A x' z) /\ rdot r' r' < eps.
Proof.
  induction k as [|k IH]; intros x r p rs hist K LE.
  - exfalso. pose proof (orth_bound n (r :: hist) (k_orth _ _ _ _ _ K) (k_len _ _ _ _ _ K)) as B. cbn [length] in B. lia.
  - pose proof (k_inv _ _ _ _ _ K) as INV. pose proof (curvature_pos n Y reg row R0 x r p rs INV) as C.
    destruct INV as [Lx [Lr [Lp [F [Err [Epr P]]]]]].
    cbn [cg_loop]. destruct (apply_A_form n Y reg row MY RO p Lp) as [Ap [EA [LA FA]]]. rewrite EA. cbn [bind]. rewrite ndot_rdot.
    assert (Ec : rdot p Ap = A p p) by (rewrite rdot_comm; apply FA; auto). rewrite Ec. set (c := A p p) in *.
    rewrite c_div_ok by lra. cbn [bind]. cbv zeta. set (a := rs / c). assert (Ea : a = rs / c) by reflexivity.
    assert (Pa : 0 < a) by (rewrite Ea; apply Rdiv_lt_0_compat; auto).
    set (x' := axpy a p x). set (r' := axpy (nmul a (nopp none_)) Ap r).
    assert (Lx' : length x' = n) by (unfold x'; rewrite axpy_length; auto). assert (Lr' : length r' = n) by (unfold r'; rewrite axpy_length; auto).
    assert (F' : forall z, length z = n -> rdot r' z = wlin Y row z - A x' z).
    { intros z Lz. unfold r', x'. rewrite rdot_axpy by congruence. rewrite aform_axpy_l by congruence. rewrite F, FA by auto. simpl. lra. }
    assert (D : forall z, length z = n -> rdot r' z = rdot r z - a * A p z).
    { intros z Lz. unfold r'. rewrite rdot_axpy by congruence. rewrite FA by auto. simpl. lra. }
    assert (Orr : forall v, In v (r :: hist) -> rdot r' v = 0).
    { intros v Hv. destruct (k_len _ _ _ _ _ K v Hv) as [Lv _]. rewrite D by auto. destruct Hv as [<-|Hv].
      - rewrite Err, (k_pr _ _ _ _ _ K). fold c. rewrite Ea. field. lra.
      - rewrite (proj1 (k_orth _ _ _ _ _ K) v Hv), (k_conj _ _ _ _ _ K v Hv). lra. }
    rewrite !ndot_rdot. destruct (nltb (rdot r' r') eps) eqn:El.
    + exists x'. split; auto. split; auto. exists r'. split; auto. split; auto. cbn in El. unfold Rltb in El. destruct (Rlt_dec (rdot r' r') eps); [auto|discriminate].
    + assert (P' : 0 < rdot r' r') by (simpl in El; unfold Rltb in El; destruct (Rlt_dec (rdot r' r') eps); [discriminate|lra]).
      rewrite c_div_ok by lra. cbn [bind]. set (b := rdot r' r' / rs). set (p' := axpy none_ r' (scal b p)).
      assert (Lsp : length (scal b p) = n) by (unfold scal; rewrite map_length; auto).
      assert (Lp' : length p' = n) by (unfold p'; rewrite axpy_length; auto).
      apply (IH x' r' p' (rdot r' r') (r :: hist)); [|cbn [length]; lia].
      assert (Ap' : forall z, A p' z = A r' z + b * A p z).
      { intros z. unfold p'. rewrite aform_axpy_l by congruence. rewrite aform_scal. simpl. lra. }
      assert (Apr' : A p r' = - rdot r' r' / a). { pose proof (D r' Lr') as X. rewrite (rdot_comm r r'), (Orr r (or_introl eq_refl)) in X. apply (Rmult_eq_reg_l a); [|lra]. field_simplify; lra. }
      destruct (k_rec _ _ _ _ _ K) as [g [G1 G2]].
      assert (Pr' : perp (r :: hist) r') by (intros v Hv; rewrite rdot_comm; auto).
      assert (Hb : b * c = rdot r' r' / a) by (unfold b; rewrite Ea; field; lra).
      assert (Opr' : rdot p r' = 0). { rewrite rdot_comm, D by auto. rewrite (rdot_comm r p), Epr. fold c. rewrite Ea. field. lra. }
      split.
      * split; auto. split; auto. split; auto. split; auto. split; auto. split; auto. unfold p'. rewrite rdot_axpy by congruence. rewrite scal_rdot, Opr'. simpl. lra.
      * split; [exact Orr|exact (k_orth _ _ _ _ _ K)].
      * intros v [<-|Hv]; [auto|apply (k_len _ _ _ _ _ K v Hv)].
      * intros v [<-|Hv].
        -- rewrite Ap', (k_pr _ _ _ _ _ K). rewrite (aform_sym Y reg row r' r), G1, G2 by auto. rewrite Apr'. fold c. rewrite Hb. field. lra.
        -- rewrite Ap', (k_conj _ _ _ _ _ K v Hv). rewrite aform_sym, (k_hist _ _ _ _ _ K v r' Hv) by auto. lra.
      * assert (Z : A p' p = 0) by (rewrite Ap'; fold c; rewrite Hb, aform_sym, Apr'; field; lra).
        pose proof (Ap' p') as X. rewrite (aform_sym Y reg row p p'), Z, (aform_sym Y reg row r' p') in X. lra.
      * intros v z [<-|Hv] Lz Pz.
        -- rewrite G1, G2 by (auto; intros w Hw; apply Pz; right; auto). pose proof (D z Lz) as X.
           rewrite (Pz r' (or_introl eq_refl)), (Pz r (or_intror (or_introl eq_refl))) in X. assert (A p z = 0) by nra. lra.
        -- apply (k_hist _ _ _ _ _ K v z Hv Lz). intros w Hw. apply Pz. right. auto.
      * exists (fun z => b * A p z). split; [intros z Lz; rewrite Ap'; lra|]. intros z Lz Pz. pose proof (D z Lz) as X.
        rewrite (Pz r' (or_introl eq_refl)), (Pz r (or_intror (or_introl eq_refl))) in X. assert (A p z = 0) by nra. rewrite H. lra.
Qed.

Lemma cg_start_exact k x : length x = n -> (n <= k)%nat ->
  exists r, residual (add_diag reg (gram n Y)) Y row x = Ok r /\
  exists x', (if nltb (ndot r r) eps then Ok x else cg_loop eps k (add_diag reg (gram n Y)) Y row x r r (ndot r r)) = Ok x' /\ length x' = n /\
    exists r', length r' = n /\ (forall z, length z = n -> rdot r' z = wlin Y row z - A x' z) /\ rdot r' r' < eps.
Proof.
  intros Lx LE. destruct (residual_form n Y reg row MY RO x Lx) as [r [E [Lr F]]]. exists r. split; auto. rewrite ndot_rdot.
  destruct (nltb (rdot r r) eps) eqn:El.
  - exists x. split; auto. split; auto. exists r. split; auto. split; auto. cbn in El. unfold Rltb in El. destruct (Rlt_dec (rdot r r) eps); [auto|discriminate].
  - assert (P : 0 < rdot r r) by (simpl in El; unfold Rltb in El; destruct (Rlt_dec (rdot r r) eps); [discriminate|lra]).
    apply (cg_exact k x r r (rdot r r) []); [|cbn; lia]. split.
    + split; [auto|split; [auto|split; [auto|split; auto]]].
    + split; [intros w []|exact I].
    + intros v [<-|[]]. auto.
    + intros v [].
    + reflexivity.
    + intros v z [].
    + exists (fun _ => 0). split; [intros; lra|auto].
Qed.

(** A small residual means a small excess loss. *)
Lemma residual_excess x r : 0 < reg -> length x = n -> length r = n -> (forall z, length z = n -> rdot r z = wlin Y row z - A x z) ->
  forall z, length z = n -> user_loss Y reg row x <= user_loss Y reg row z + rdot r r / reg.
Proof.
  intros RP Lx Lr F z Lz. set (d := vsub z x).
  assert (Ld : length d = n) by (unfold d; rewrite vsub_length; congruence).
  assert (Ez : z = axpy 1 d x).
  { unfold d. clear -Lx Lz. revert n z Lx Lz. induction x as [|b x IH]; intros n [|a z] L1 L2; cbn in *; subst; try discriminate; auto. f_equal; [lra|]. apply (IH (length x)); auto. }
  rewrite Ez, user_loss_axpy by congruence. rewrite <- (F d Ld).
  assert (AD : reg * rdot d d <= A d d) by (unfold aform; pose proof (wform_nonneg Y row d); lra).
  assert (Q : 0 <= rdot (axpy (- reg) d r) (axpy (- reg) d r)) by apply rdot_nonneg.
  rewrite rdot_axpy, !rdot_axpy_r in Q by congruence. rewrite (rdot_comm d r) in Q.
  assert (Q2 : 2 * rdot r d <= rdot r r / reg + reg * rdot d d).
  { apply (Rmult_le_reg_l reg); auto. replace (reg * (rdot r r / reg + reg * rdot d d)) with (rdot r r + reg * reg * rdot d d) by (field; lra). lra. }
  lra.
Qed.
End Exact.
