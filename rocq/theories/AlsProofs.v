(** Linear algebra of the ALS model over the reals. *)
From Coq Require Import List Arith Lia Bool Reals Lra Permutation.
From Verif Require Import Base Num Sparse TopkModel RecommendModel RVec AlsModel AlsSpec.
Import ListNotations.
Local Open Scope R_scope.

Lemma axpy_length {T} `{Num T} a (x y : list T) : length (axpy a x y) = length y.
Proof. revert y; induction x; destruct y; simpl; auto. Qed.
Lemma rdot_axpy a x y z : length x = length y -> rdot (axpy a x y) z = rdot y z + a * rdot x z.
Proof.
  revert y z. induction x as [|xi x IH]; destruct y as [|yi y]; simpl; intros z L; try discriminate; [lra|].
  destruct z as [|zi z]; [lra|]. rewrite IH by congruence. lra.
Qed.
Lemma rdot_axpy_r a x y z : length x = length y -> rdot z (axpy a x y) = rdot z y + a * rdot z x.
Proof. intros L. rewrite rdot_comm, rdot_axpy by auto. rewrite (rdot_comm y), (rdot_comm x). auto. Qed.
Lemma mv_length A x : length (mv A x) = length A.
Proof. apply map_length. Qed.
Lemma rdot_cons a x b y : rdot (a :: x) (b :: y) = a * b + rdot x y.
Proof. reflexivity. Qed.

Lemma rdot_repeat0 n x : rdot (repeat 0 n) x = 0.
Proof. revert x. induction n; destruct x; simpl; auto. rewrite IHn. lra. Qed.
Lemma rdot_repeat0_r n x : rdot x (repeat 0 n) = 0.
Proof. rewrite rdot_comm. apply rdot_repeat0. Qed.

Lemma rdot_map_seq f n x : length x = n -> rdot (map f (seq 0 n)) x = rsum (map (fun k => f k * nth k x 0) (seq 0 n)).
Proof.
  intros <-. revert f. induction x as [|a x IH]; intros f; auto. simpl length. simpl seq. rewrite <- seq_shift. simpl. rewrite !map_map.
  rewrite IH. auto.
Qed.
Lemma rdot_nth x y n : length x = n -> length y = n -> rdot x y = rsum (map (fun k => nth k x 0 * nth k y 0) (seq 0 n)).
Proof.
  intros Lx Ly. rewrite <- (rdot_map_seq (fun k => nth k x 0) n y Ly). f_equal. subst n. clear.
  induction x as [|a x IH]; auto. simpl length. simpl seq. rewrite <- seq_shift. simpl. rewrite map_map. congruence.
Qed.

(** The bilinear form of the matrices the code builds. *)
Lemma rank_one k y w A x z : length w = length A -> (forall r, In r A -> length r = length y) ->
  rdot (mv (map (fun p => axpy (k * fst p) y (snd p)) (combine w A)) x) z = rdot (mv A x) z + k * rdot y x * rdot w z.
Proof.
  revert w z. induction A as [|r A IH]; destruct w as [|w0 w]; simpl; intros z L R; try discriminate; [lra|].
  destruct z as [|z0 z]; [lra|]. rewrite IH by (auto; congruence). rewrite rdot_axpy by (symmetry; apply R; auto). lra.
Qed.
Lemma rank_one_shape n k y w A : square n A -> length w = n -> square n (map (fun p => axpy (k * fst p) y (snd p)) (combine w A)).
Proof.
  intros [L R] Lw. split; [rewrite map_length, combine_length; lia|]. intros r Hr. apply in_map_iff in Hr. destruct Hr as [[w0 r0] [<- Hp]].
  rewrite axpy_length. apply R. eapply in_combine_r; eauto.
Qed.

Lemma gram_form n Y x z : mat_ok n Y -> length x = n -> length z = n ->
  rdot (mv (gram n Y) x) z = rsum (map (fun y => rdot y x * rdot y z) Y).
Proof.
  intros MY Lx Lz. unfold gram, mv. rewrite map_map. rewrite rdot_map_seq by auto.
  transitivity (rsum (map (fun j => rsum (map (fun y => nth j y 0 * nth j z 0 * rdot y x) Y)) (seq 0 n))).
  - apply rsum_map_ext. intros j _. rewrite rdot_map_seq by auto.
    transitivity (rsum (map (fun k => rsum (map (fun y => nth j y 0 * nth k y 0 * nth k x 0) Y)) (seq 0 n)) * nth j z 0).
    + f_equal. apply rsum_map_ext. intros k _. rewrite nsum_rsum. rewrite Rmult_comm, <- rsum_map_scale. apply rsum_map_ext. intros y _. simpl. lra.
    + rewrite rsum_swap. rewrite Rmult_comm, <- rsum_map_scale. apply rsum_map_ext. intros y Hy.
      rewrite (rdot_nth y x n) by auto. rewrite <- rsum_map_scale, <- rsum_map_scale. apply rsum_map_ext. intros k _. lra.
  - rewrite rsum_swap. apply rsum_map_ext. intros y Hy. rewrite (rdot_nth y z n) by auto. rewrite <- rsum_map_scale. apply rsum_map_ext. intros k _. lra.
Qed.
Lemma gram_shape n Y : square n (gram n Y).
Proof. split; [unfold gram; rewrite map_length, seq_length; auto|]. intros r Hr. apply in_map_iff in Hr. destruct Hr as [j [<- _]]. rewrite map_length, seq_length; auto. Qed.

Lemma diag_row reg j k0 r x : length r = length x ->
  rdot (map (fun kv => if (j =? fst kv)%nat then snd kv + reg else snd kv) (enum_from k0 r)) x =
  rdot r x + (if (k0 <=? j)%nat then reg * nth (j - k0) x 0 else 0).
Proof.
  revert k0 x. induction r as [|a r IH]; destruct x as [|b x]; simpl; intros L; try discriminate.
  - destruct (k0 <=? j)%nat; [destruct (j - k0)%nat|]; lra.
  - rewrite IH by congruence. destruct (Nat.eqb_spec j k0) as [->|N].
    + destruct (Nat.leb_spec (S k0) k0); [lia|]. rewrite Nat.leb_refl, Nat.sub_diag. lra.
    + destruct (Nat.leb_spec (S k0) j), (Nat.leb_spec k0 j); try lia.
      * replace (j - k0)%nat with (S (j - S k0)) by lia. lra.
      * lra.
Qed.
Lemma skipn_nth k (x : list R) : (k < length x)%nat -> skipn k x = nth k x 0 :: skipn (S k) x.
Proof. revert k. induction x as [|a x IH]; intros k L; [simpl in L; lia|]. destruct k; auto. simpl in L. change (skipn (S k) (a :: x)) with (skipn k x). rewrite IH by lia. auto. Qed.
Lemma enum_from_length {A} k (l : list A) : length (enum_from k l) = length l.
Proof. revert k; induction l; simpl; auto. Qed.
Lemma diag_form reg n A x z : square n A -> length x = n -> length z = n ->
  rdot (mv (add_diag reg A) x) z = rdot (mv A x) z + reg * rdot x z.
Proof.
  intros [LA RA] Lx Lz. unfold add_diag, mv, enum. rewrite map_map.
  assert (G : forall k0 A z, (forall r, In r A -> length r = n) -> (k0 + length A <= n)%nat -> length z = length A ->
    rdot (map (fun ja => rdot (map (fun kv => if (fst ja =? fst kv)%nat then nadd (snd kv) reg else snd kv) (enum_from 0 (snd ja))) x) (enum_from k0 A)) z =
    rdot (mv A x) z + reg * rdot (firstn (length A) (skipn k0 x)) z).
  { clear A LA RA z Lz. intros k0 A. revert k0. induction A as [|r A IH]; intros k0 z RA LK Lz; destruct z as [|z0 z]; simpl in *; try discriminate; [lra|].
    pose proof (diag_row reg k0 0 r x) as D. simpl in D. rewrite D by (rewrite RA; auto).
    rewrite IH by (auto; try lia; intros; apply RA; auto).
    assert (SK : skipn k0 x = nth k0 x 0 :: skipn (S k0) x).
    { apply skipn_nth. lia. }
    rewrite SK. rewrite Nat.sub_0_r. cbn [firstn rdot]. unfold mv. simpl. lra. }
  specialize (G 0%nat A z RA). rewrite G by lia. cbn [skipn]. rewrite LA, <- Lx, firstn_all. auto.
Qed.
Lemma diag_shape reg n A : square n A -> square n (add_diag reg A).
Proof.
  intros [LA RA]. unfold add_diag, enum. split; [rewrite map_length, enum_from_length; auto|].
  intros r Hr. apply in_map_iff in Hr. destruct Hr as [[j r0] [<- Hp]]. rewrite map_length, enum_from_length. apply RA.
  clear -Hp. revert Hp. generalize 0%nat. induction A as [|a A IH]; simpl; intros k; [tauto|]. intros [X|X]; [inversion X; auto|right; eauto].
Qed.

(** Standard basis: entries from the bilinear form. *)
Definition basis (n i : nat) : list R := map (fun k => if (k =? i)%nat then 1 else 0) (seq 0 n).
Lemma basis_length n i : length (basis n i) = n.
Proof. unfold basis. rewrite map_length, seq_length. auto. Qed.
Lemma rsum_delta n i (g : nat -> R) : (i < n)%nat -> rsum (map (fun k => (if (k =? i)%nat then 1 else 0) * g k) (seq 0 n)) = g i.
Proof.
  assert (G : forall s m, (s <= i < s + m)%nat -> rsum (map (fun k => (if (k =? i)%nat then 1 else 0) * g k) (seq s m)) = g i).
  { intros s m. revert s. induction m as [|m IH]; intros s B; [lia|]. simpl. destruct (Nat.eqb_spec s i) as [->|N].
    - rewrite rsum_zero; [lra|]. intros v Hv. apply in_map_iff in Hv. destruct Hv as [k [<- Hk]]. apply in_seq in Hk. destruct (Nat.eqb_spec k i); [lia|lra].
    - rewrite IH by lia. lra. }
  intros B. apply (G 0%nat n). lia.
Qed.
Lemma rdot_basis n i x : (i < n)%nat -> length x = n -> rdot x (basis n i) = nth i x 0.
Proof. intros B L. rewrite rdot_comm. unfold basis. rewrite rdot_map_seq by auto. apply (rsum_delta n i (fun k => nth k x 0)); auto. Qed.
Lemma mv_nth A x i : (i < length A)%nat -> nth i (mv A x) 0 = rdot (nth i A []) x.
Proof. intros B. unfold mv. rewrite nth_indep with (d' := rdot [] x) by (rewrite map_length; auto). apply (map_nth (fun r => rdot r x)). Qed.
Lemma form_entry n A i j : square n A -> (i < n)%nat -> (j < n)%nat -> rdot (mv A (basis n j)) (basis n i) = nth j (nth i A []) 0.
Proof.
  intros [LA RA] Bi Bj. rewrite rdot_basis by (rewrite ?mv_length; auto). rewrite mv_nth by lia. apply rdot_basis; auto. apply RA. apply nth_In. lia.
Qed.
Lemma vec_eq n (x y : list R) : length x = n -> length y = n -> (forall z, length z = n -> rdot x z = rdot y z) -> x = y.
Proof.
  intros Lx Ly E. apply nth_ext with (d := 0) (d' := 0); [congruence|]. intros i Bi. rewrite Lx in Bi.
  rewrite <- (rdot_basis n i x), <- (rdot_basis n i y) by auto. apply E. apply basis_length.
Qed.

(* ------------------------------------------------------------------ sparse sums *)
Lemma sparse_sum (m : nat) row (d : nat -> R) (f : R -> nat -> R) : row_ok m row ->
  rsum (map (fun i => match entry row i with Some c => f c i | None => d i end) (seq 0 m)) =
  rsum (map d (seq 0 m)) + rsum (map (fun p => f (snd p) (fst p) - d (fst p)) row).
Proof.
  induction row as [|[i0 c0] row IH]; intros [ND B].
  - simpl. rewrite Rplus_0_r. apply rsum_map_ext; auto.
  - simpl in ND. inversion ND as [|? ? N1 N2]; subst.
    transitivity (rsum (map (fun i => match entry row i with Some c => f c i | None => d i end) (seq 0 m)) + (f c0 i0 - d i0)).
    + rewrite <- (rsum_delta m i0 (fun k => f c0 k - d k)) by (apply (B (i0, c0)); left; auto).
      rewrite <- rsum_map_add. apply rsum_map_ext. intros i _. unfold entry. simpl. rewrite (Nat.eqb_sym i0 i). destruct (Nat.eqb_spec i i0) as [->|N]; simpl; [|lra].
      destruct (find (fun p => (fst p =? i0)%nat) row) as [[i1 c1]|] eqn:F; simpl; [|lra]. apply find_some in F. destruct F as [F1 F2]. simpl in F2. apply Nat.eqb_eq in F2. subst.
      exfalso. apply N1. change i0 with (fst (i0, c1)). apply in_map. auto.
    + rewrite IH by (split; [auto|intros p Hp; apply B; right; auto]). simpl. lra.
Qed.

Lemma entry_in row i c : NoDup (map fst row) -> (entry row i = Some c <-> In (i, c) row).
Proof.
  unfold entry. induction row as [|[i0 c0] row IH]; simpl; intros ND; [split; [discriminate|tauto]|].
  inversion ND as [|? ? N1 N2]; subst. destruct (Nat.eqb_spec i0 i) as [->|N]; simpl.
  - split; [intros E; inversion E; auto|]. intros [E|E]; [inversion E; auto|]. exfalso. apply N1. change i with (fst (i, c)). apply in_map; auto.
  - rewrite IH by auto. split; auto. intros [E|E]; [inversion E; congruence|auto].
Qed.
Lemma entry_none row i : entry row i = None <-> ~ In i (map fst row).
Proof.
  unfold entry. induction row as [|[i0 c0] row IH]; simpl; [tauto|]. destruct (Nat.eqb_spec i0 i) as [->|N]; simpl.
  - split; [discriminate|tauto].
  - rewrite IH. tauto.
Qed.
Lemma entry_range m row i c : row_ok m row -> entry row i = Some c -> (i < m)%nat.
Proof. intros [ND B] E. apply entry_in in E; auto. apply (B _ E). Qed.

(** The weighted forms: sums over all items. *)
Definition wform (Y : list (list R)) (row : list (nat * R)) (x z : list R) : R :=
  rsum (map (fun i => confidence row i * (rdot (nth i Y []) x * rdot (nth i Y []) z)) (seq 0 (length Y))).
Definition wlin (Y : list (list R)) (row : list (nat * R)) (z : list R) : R :=
  rsum (map (fun i => confidence row i * preference row i * rdot (nth i Y []) z) (seq 0 (length Y))).
Lemma map_nth_all {A B} (f : A -> B) l d : map (fun i => f (nth i l d)) (seq 0 (length l)) = map f l.
Proof.
  induction l as [|a l IH]; auto. simpl. rewrite <- seq_shift, map_map. f_equal. auto.
Qed.
Lemma wform_sum Y row x z : row_ok (length Y) row ->
  wform Y row x z = rsum (map (fun y => rdot y x * rdot y z) Y) +
    rsum (map (fun p => (Rabs (snd p) - 1) * (rdot (nth (fst p) Y []) x * rdot (nth (fst p) Y []) z)) row).
Proof.
  intros OK. unfold wform.
  transitivity (rsum (map (fun i => match entry row i with
      | Some c => Rabs c * (rdot (nth i Y []) x * rdot (nth i Y []) z) | None => rdot (nth i Y []) x * rdot (nth i Y []) z end) (seq 0 (length Y)))).
  - apply rsum_map_ext. intros i _. unfold confidence. destruct (entry row i); lra.
  - rewrite (sparse_sum (length Y) row (fun i => rdot (nth i Y []) x * rdot (nth i Y []) z)
      (fun c i => Rabs c * (rdot (nth i Y []) x * rdot (nth i Y []) z))) by auto.
    f_equal. { rewrite <- (map_nth_all (fun y => rdot y x * rdot y z) Y []). auto. }
    apply rsum_map_ext. intros p _. lra.
Qed.
Definition pos (c : R) : R := if Rlt_dec 0 c then c else 0.
Lemma wlin_sum Y row z : row_ok (length Y) row ->
  wlin Y row z = rsum (map (fun p => pos (snd p) * rdot (nth (fst p) Y []) z) row).
Proof.
  intros OK. unfold wlin.
  transitivity (rsum (map (fun i => match entry row i with Some c => pos c * rdot (nth i Y []) z | None => 0 end) (seq 0 (length Y)))).
  - apply rsum_map_ext. intros i _. unfold confidence, preference, pos. destruct (entry row i) as [c|]; [|lra].
    destruct (Rlt_dec 0 c); [rewrite Rabs_right by lra; lra|lra].
  - rewrite (sparse_sum (length Y) row (fun _ => 0) (fun c i => pos c * rdot (nth i Y []) z)) by auto.
    rewrite rsum_zero. { rewrite Rplus_0_l. apply rsum_map_ext. intros p _. lra. }
    intros v Hv. apply in_map_iff in Hv. destruct Hv as [? [<- _]]. auto.
Qed.
Lemma conf_abs_R c : conf_abs c = Rabs c.
Proof.
  unfold conf_abs. simpl. unfold Rltb. destruct (Rlt_dec 0 c) as [L|L]; [rewrite Rabs_right; lra|rewrite Rabs_left1; lra].
Qed.

Lemma raw_row_ok {T} (Y : list (list T)) i : (i < length Y)%nat -> raw_row Y i = Ok (nth i Y []).
Proof. intros B. unfold raw_row. destruct (nth_error Y i) eqn:E; [|apply nth_error_None in E; lia]. erewrite (nth_error_nth Y i) by eauto. auto. Qed.
Lemma np_row_ok {T} (Y : list (list T)) i : (i < length Y)%nat -> np_row Y i = Ok (nth i Y []).
Proof. intros B. unfold np_row. destruct (nth_error Y i) eqn:E; [|apply nth_error_None in E; lia]. erewrite (nth_error_nth Y i) by eauto. auto. Qed.
Lemma mat_row n (Y : list (list R)) i : mat_ok n Y -> (i < length Y)%nat -> length (nth i Y []) = n.
Proof. intros M B. apply M, nth_In, B. Qed.

(** The loop that builds A and b. *)
Lemma system_fold n Y row : mat_ok n Y -> (forall p, In p row -> (fst p < length Y)%nat) ->
  forall A b, square n A -> length b = n ->
  exists A' b', fold_res (add_entry Y) row (A, b) = Ok (A', b') /\ square n A' /\ length b' = n /\
    (forall x z, length x = n -> length z = n -> rdot (mv A' x) z = rdot (mv A x) z +
       rsum (map (fun p => (Rabs (snd p) - 1) * (rdot (nth (fst p) Y []) x * rdot (nth (fst p) Y []) z)) row)) /\
    (forall z, length z = n -> rdot b' z = rdot b z + rsum (map (fun p => pos (snd p) * rdot (nth (fst p) Y []) z) row)).
Proof.
  intros MY. induction row as [|[i c] row IH]; intros B A b SA Lb.
  - exists A, b. simpl. repeat split; auto; try apply SA; intros; lra.
  - assert (Bi : (i < length Y)%nat) by (apply (B (i, c)); left; auto). set (y := nth i Y []).
    assert (Ly : length y = n) by (apply mat_row; auto).
    cbn [fold_res]. unfold add_entry at 1. cbn [fst snd]. rewrite raw_row_ok by auto. cbn [bind]. fold y. rewrite conf_abs_R.
    set (A1 := map (fun p => axpy (nmul (nsub (Rabs c) none_) (fst p)) y (snd p)) (combine y A)).
    set (b1 := if nltb nzero c then axpy c y b else b).
    assert (S1 : square n A1) by (apply rank_one_shape; auto).
    assert (L1 : length b1 = n) by (unfold b1; destruct (nltb nzero c); rewrite ?axpy_length; auto).
    destruct (IH (fun p Hp => B p (or_intror Hp)) A1 b1 S1 L1) as [A' [b' [E [SA' [Lb' [FA FB]]]]]].
    exists A', b'. split; [exact E|]. split; auto. split; auto. split.
    + intros x z Lx Lz. rewrite FA by auto. unfold A1. pose proof (rank_one (Rabs c - 1) y y A x z) as R1. simpl in *. fold y. rewrite R1.
      * lra.
      * destruct SA; congruence.
      * destruct SA as [_ RA]. intros r Hr. rewrite RA; auto.
    + intros z Lz. rewrite FB by auto. unfold b1, pos. simpl. unfold Rltb. fold y. destruct (Rlt_dec 0 c); [rewrite rdot_axpy by congruence|]; lra.
Qed.

Lemma initial_form n Y reg x z : mat_ok n Y -> length x = n -> length z = n ->
  rdot (mv (add_diag reg (gram n Y)) x) z = rsum (map (fun y => rdot y x * rdot y z) Y) + reg * rdot x z.
Proof. intros MY Lx Lz. rewrite (diag_form reg n) by (auto; apply gram_shape). rewrite gram_form by auto. auto. Qed.

Lemma system_form n Y reg row : mat_ok n Y -> row_ok (length Y) row ->
  exists A b, system (add_diag reg (gram n Y)) n Y row = Ok (A, b) /\ square n A /\ length b = n /\
    (forall x z, length x = n -> length z = n -> rdot (mv A x) z = wform Y row x z + reg * rdot x z) /\
    (forall z, length z = n -> rdot b z = wlin Y row z).
Proof.
  intros MY OK. unfold system.
  destruct (system_fold n Y row MY (proj2 OK) (add_diag reg (gram n Y)) (zeros n)) as [A [b [E [SA [Lb [FA FB]]]]]].
  - apply diag_shape, gram_shape.
  - apply repeat_length.
  - exists A, b. split; auto. split; auto. split; auto. split.
    + intros x z Lx Lz. rewrite FA, initial_form, wform_sum by auto. lra.
    + intros z Lz. rewrite FB, wlin_sum by auto. unfold zeros. simpl. rewrite rdot_repeat0. lra.
Qed.

(* ------------------------------------------------------------------ minimisation *)
Definition psq (Y : list (list R)) (row : list (nat * R)) : R :=
  rsum (map (fun i => confidence row i * sq (preference row i)) (seq 0 (length Y))).
Lemma row_error_form Y row x : row_error Y row x = psq Y row - 2 * wlin Y row x + wform Y row x x.
Proof.
  unfold row_error, psq, wlin, wform. rewrite <- rsum_map_scale, <- rsum_map_sub, <- rsum_map_add. apply rsum_map_ext. intros i _.
  rewrite (rdot_comm x). unfold sq. lra.
Qed.
Lemma confidence_nonneg row i : 0 <= confidence row i.
Proof. unfold confidence. destruct (entry row i); [apply Rabs_pos|lra]. Qed.
Lemma wform_nonneg Y row x : 0 <= wform Y row x x.
Proof.
  apply rsum_nonneg. intros v Hv. apply in_map_iff in Hv. destruct Hv as [i [<- _]]. pose proof (confidence_nonneg row i).
  apply Rmult_le_pos; auto. nra.
Qed.
Lemma wform_sym Y row x z : wform Y row x z = wform Y row z x.
Proof. unfold wform. apply rsum_map_ext. intros i _. lra. Qed.
Lemma wform_vsub_l Y row x x' z : length x = length x' -> wform Y row (vsub x x') z = wform Y row x z - wform Y row x' z.
Proof.
  intros L. unfold wform. rewrite <- rsum_map_sub. apply rsum_map_ext. intros i _.
  rewrite (rdot_comm _ (vsub x x')), rdot_vsub_l by auto. rewrite (rdot_comm x), (rdot_comm x'). lra.
Qed.
Lemma wlin_vsub Y row x x' : length x = length x' -> wlin Y row (vsub x x') = wlin Y row x - wlin Y row x'.
Proof.
  intros L. unfold wlin. rewrite <- rsum_map_sub. apply rsum_map_ext. intros i _.
  rewrite (rdot_comm _ (vsub x x')), rdot_vsub_l by auto. rewrite (rdot_comm x), (rdot_comm x'). lra.
Qed.

(** Any solution of the normal equations: the excess loss of another vector is the
    quadratic form of the difference. *)
Lemma excess Y reg row n x z : mat_ok n Y -> length x = n -> length z = n ->
  (forall w, length w = n -> wform Y row x w + reg * rdot x w = wlin Y row w) ->
  user_loss Y reg row z = user_loss Y reg row x + wform Y row (vsub z x) (vsub z x) + reg * rdot (vsub z x) (vsub z x).
Proof.
  intros MY Lx Lz E. unfold user_loss. rewrite !row_error_form.
  assert (L : length z = length x) by congruence.
  assert (Ld : length (vsub z x) = n) by (rewrite vsub_length; auto).
  pose proof (E (vsub z x) Ld) as E1. rewrite wlin_vsub in E1 by auto.
  rewrite !(wform_vsub_l _ _ z x) by auto. rewrite (wform_sym Y row z (vsub z x)), (wform_sym Y row x (vsub z x)) in *. rewrite !(wform_vsub_l _ _ z x) in * by auto.
  rewrite rdot_vsub_l by auto. rewrite (rdot_comm z (vsub z x)), (rdot_comm x (vsub z x)) in *. rewrite !rdot_vsub_l in * by auto.
  rewrite (rdot_comm z x) in *. rewrite (wform_sym Y row z x) in *. lra.
Qed.

Lemma vsub_zero x z : length x = length z -> rdot (vsub z x) (vsub z x) = 0 -> z = x.
Proof.
  intros L E. pose proof (rdot_zero _ E) as Z. clear E. revert z L Z. induction x as [|a x IH]; destruct z as [|b z]; simpl; intros L Z; try discriminate; auto.
  f_equal; [specialize (Z (b - a) (or_introl eq_refl)); lra|]. apply IH; auto.
Qed.

Lemma normal_minimises Y reg row n x : mat_ok n Y -> 0 <= reg -> length x = n ->
  (forall w, length w = n -> wform Y row x w + reg * rdot x w = wlin Y row w) ->
  minimises n (user_loss Y reg row) x /\
  (0 < reg -> forall z, length z = n -> user_loss Y reg row z <= user_loss Y reg row x -> z = x).
Proof.
  intros MY R0 Lx E. split.
  - split; auto. intros z Lz. rewrite (excess Y reg row n x z) by auto.
    pose proof (wform_nonneg Y row (vsub z x)). pose proof (rdot_nonneg (vsub z x)). nra.
  - intros R1 z Lz LE. rewrite (excess Y reg row n x z) in LE by auto.
    pose proof (wform_nonneg Y row (vsub z x)). pose proof (rdot_nonneg (vsub z x)). apply vsub_zero; [congruence|]. nra.
Qed.

(* ------------------------------------------------------------------ solvers *)
Lemma wform_posdef n Y reg row : mat_ok n Y -> 0 < reg -> forall A, square n A ->
  (forall x z, length x = n -> length z = n -> rdot (mv A x) z = wform Y row x z + reg * rdot x z) -> pos_def n A.
Proof.
  intros MY R0 A SA F x Lx [a [Ha Na]]. rewrite F by auto. pose proof (wform_nonneg Y row x). pose proof (rdot_nonneg x).
  assert (rdot x x <> 0) by (intros E; apply Na; apply (rdot_zero x E a Ha)). nra.
Qed.
Lemma form_symmetric n A f : square n A -> (forall x z, length x = n -> length z = n -> rdot (mv A x) z = f x z) ->
  (forall x z, f x z = f z x) -> symmetric n A.
Proof.
  intros SA F FS i j Bi Bj. rewrite <- (form_entry n A i j), <- (form_entry n A j i) by auto. rewrite !F by apply basis_length. apply FS.
Qed.

Lemma posv_solves posv n A b x : posv_ok posv -> square n A -> symmetric n A -> length b = n -> posv A b = Some x ->
  length x = n /\ mv A x = b.
Proof.
  intros OK SA SY Lb E. destruct (OK n A b SA SY Lb) as [P1 P2].
  assert (D : pos_def n A \/ ~ pos_def n A) by (apply Classical_Prop.classic).
  destruct D as [D|D]; [|rewrite P2 in E; [discriminate|auto]]. destruct (P1 D) as [x' [E' [Lx Ex]]]. rewrite E in E'. inversion E'; subst. auto.
Qed.

(** One row of the native Cholesky solver. *)
Lemma ls_row_min posv n Y reg row : posv_ok posv -> mat_ok n Y -> row_ok (length Y) row -> 0 <= reg ->
  forall x, ls_row posv (add_diag reg (gram n Y)) n Y row = Ok x ->
  length x = n /\ forall w, length w = n -> wform Y row x w + reg * rdot x w = wlin Y row w.
Proof.
  intros PO MY RO R0 x E. unfold ls_row in E. destruct row as [|e row'] eqn:ER.
  - inversion E; subst. split; [apply repeat_length|]. intros w Lw. unfold zeros. simpl. rewrite rdot_repeat0.
    unfold wform, wlin. rewrite !rsum_zero; [lra| |]; intros v Hv; apply in_map_iff in Hv; destruct Hv as [i [<- _]].
    + unfold preference, entry. simpl. lra.
    + rewrite rdot_repeat0_r. lra.
  - rewrite <- ER in *. clear e row' ER. destruct (system_form n Y reg row MY RO) as [A [b [ES [SA [Lb [FA FB]]]]]].
    rewrite ES in E. cbn [bind] in E. destruct (posv A b) as [x'|] eqn:EP; [|discriminate]. inversion E; subst x'.
    assert (SY : symmetric n A).
    { apply (form_symmetric n A (fun x z => wform Y row x z + reg * rdot x z)); auto. intros x0 z0. rewrite wform_sym, rdot_comm. auto. }
    destruct (posv_solves posv n A b x PO SA SY Lb EP) as [Lx Ex]. split; auto. intros w Lw. rewrite <- FA, <- FB by auto. congruence.
Qed.
Lemma ls_row_total posv n Y reg row : posv_ok posv -> mat_ok n Y -> row_ok (length Y) row -> 0 < reg ->
  exists x, ls_row posv (add_diag reg (gram n Y)) n Y row = Ok x.
Proof.
  intros PO MY RO R0. unfold ls_row. destruct row as [|e row'] eqn:ER; [eauto|]. rewrite <- ER in *. clear e row' ER.
  destruct (system_form n Y reg row MY RO) as [A [b [ES [SA [Lb [FA FB]]]]]]. rewrite ES. cbn [bind].
  assert (SY : symmetric n A) by (apply (form_symmetric n A (fun x z => wform Y row x z + reg * rdot x z)); auto; intros x0 z0; rewrite wform_sym, rdot_comm; auto).
  destruct (PO n A b SA SY Lb) as [P1 _]. destruct (P1 (wform_posdef n Y reg row MY R0 A SA FA)) as [x [-> _]]. eauto.
Qed.
