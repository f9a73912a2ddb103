(** How the factors and scores of recalculate_user move when the regularization or the user's interactions change:
    properties C124-C126 of properties.jsonl. *)
From Coq Require Import List Arith Lia Bool Reals Lra ZArith.
From Verif Require Import Base Num Sparse RecommendModel RVec AlsModel AlsSpec AlsProofs PosvImpl AlsProofs2 PropAls.
Import ListNotations.
Local Open Scope R_scope.

(** The model's score of an item: the dot product of the user's and the item's factors. *)
Definition score_of (Y : list (list R)) (i : nat) (x : list R) : R := rdot x (nth i Y []).
(** Two rows hold the same values except possibly at [i]. *)
Definition same_but (i : nat) (row row' : list (nat * R)) : Prop := forall j, j <> i -> entry row' j = entry row j.
(** sum_i C_ui P_ui^2: the loss of the zero vector. *)
Definition liked_mass (items : nat) (row : list (nat * R)) : R :=
  rsum (map (fun i => confidence row i * preference row i) (seq 0 items)).

(* ------------------------------------------------------------------ the solutions *)
Definition normal_solution (n : nat) (Y : list (list R)) (reg : R) (row : list (nat * R)) (x : list R) : Prop :=
  length x = n /\ forall w, length w = n -> wform Y row x w + reg * rdot x w = wlin Y row w.
Lemma recalculate_solution posv alpha reg n Y ids M X' k : posv_ok posv -> canonical M -> mat_ok n Y ->
  length Y = c_cols M -> 0 <= reg -> recalculate_user posv alpha reg n (gram n Y) Y ids M = Ok X' -> (k < id_count ids)%nat ->
  normal_solution n Y reg (scale_row alpha (csr_row M k)) (nth k X' []).
Proof.
  intros PO C MY LY R0 E B. unfold recalculate_user in E.
  destruct (Nat.eqb_spec (c_rows M) (id_count ids)) as [EC|]; cbn [negb] in E; [|discriminate]. rewrite apply_alpha_scale in E.
  assert (ES : exact_step n reg (csr_scale alpha M) Y X').
  { apply (least_squares_c_exact posv); auto; [apply scale_canonical; auto|]. simpl. rewrite EC. auto. }
  destruct ES as [L [MX ES]]. simpl in L, ES. rewrite <- scale_rows. split; [apply mat_row; auto; lia|]. apply ES. lia.
Qed.
Lemma entry_scale a row j : entry (scale_row a row) j = option_map (Rmult a) (entry row j).
Proof. unfold entry, scale_row. induction row as [|p row IH]; simpl; auto. destruct (fst p =? j)%nat; auto. Qed.

Lemma sum_one (f g : nat -> R) m i : (i < m)%nat -> (forall j, j <> i -> f j = g j) ->
  rsum (map f (seq 0 m)) = rsum (map g (seq 0 m)) + (f i - g i).
Proof.
  intros B E. rewrite <- (rsum_delta m i (fun k => f k - g k)) by auto. rewrite <- rsum_map_add. apply rsum_map_ext.
  intros k _. destruct (Nat.eqb_spec k i); [subst; lra|rewrite E by auto; lra].
Qed.
(** Two losses that differ at one item. *)
Lemma loss_change Y reg row row' i x : (i < length Y)%nat -> same_but i row row' ->
  user_loss Y reg row' x = user_loss Y reg row x +
    (confidence row' i * sq (preference row' i - score_of Y i x) - confidence row i * sq (preference row i - score_of Y i x)).
Proof.
  intros B S. unfold user_loss, row_error.
  rewrite (sum_one (fun i => confidence row' i * sq (preference row' i - rdot x (nth i Y [])))
    (fun i => confidence row i * sq (preference row i - rdot x (nth i Y []))) (length Y) i B).
  - unfold score_of. lra.
  - intros j N. unfold confidence, preference. rewrite (S j N). auto.
Qed.
Lemma wform_at Y row i d : (i < length Y)%nat -> confidence row i * sq (score_of Y i d) <= wform Y row d d.
Proof.
  intros B. unfold wform, score_of.
  set (f := fun i0 => confidence row i0 * (rdot (nth i0 Y []) d * rdot (nth i0 Y []) d)).
  pose proof (rsum_delta (length Y) i f B) as D. replace (confidence row i * sq (rdot d (nth i Y []))) with (f i) by (unfold f, sq; rewrite (rdot_comm d); lra).
  rewrite <- D. apply rsum_le. intros j _. unfold f. pose proof (confidence_nonneg row j). destruct (j =? i)%nat; [lra|].
  rewrite Rmult_0_l. pose proof (Rle_0_sqr (rdot (nth j Y []) d)) as Q. unfold Rsqr in Q. apply Rmult_le_pos; auto.
Qed.
Lemma gap n Y reg row x z i : mat_ok n Y -> 0 <= reg -> (i < length Y)%nat -> normal_solution n Y reg row x -> length z = n ->
  user_loss Y reg row x + confidence row i * sq (score_of Y i z - score_of Y i x) <= user_loss Y reg row z.
Proof.
  intros MY R0 B [Lx E] Lz. rewrite (excess Y reg row n x z) by auto.
  pose proof (wform_at Y row i (vsub z x) B) as W. unfold score_of in *. rewrite rdot_vsub_l in W by congruence.
  pose proof (rdot_nonneg (vsub z x)). nra.
Qed.

(* ------------------------------------------------------------------ C124 *)
(** A larger regularization gives factors that are no longer and that fit the user no better; and the factors are never
    longer than the user's liked mass allows. *)
Theorem C124 : forall posv1 posv2 alpha reg1 reg2 n Y ids M X1 X2 k,
  posv_ok posv1 -> posv_ok posv2 -> canonical M -> mat_ok n Y -> length Y = c_cols M -> 0 <= reg1 < reg2 ->
  recalculate_user posv1 alpha reg1 n (gram n Y) Y ids M = Ok X1 ->
  recalculate_user posv2 alpha reg2 n (gram n Y) Y ids M = Ok X2 -> (k < id_count ids)%nat ->
  rdot (nth k X2 []) (nth k X2 []) <= rdot (nth k X1 []) (nth k X1 []) /\
  row_error Y (scale_row alpha (csr_row M k)) (nth k X1 []) <= row_error Y (scale_row alpha (csr_row M k)) (nth k X2 []) /\
  reg2 * rdot (nth k X2 []) (nth k X2 []) <= liked_mass (length Y) (scale_row alpha (csr_row M k)).
Proof.
  intros posv1 posv2 alpha reg1 reg2 n Y ids M X1 X2 k P1 P2 C MY LY [R1 R2] E1 E2 B.
  destruct (C36_recalculate_user _ _ _ _ _ _ _ _ P1 C MY LY R1 E1) as [_ [_ H1]]. destruct (H1 k B) as [[L1 M1] _].
  destruct (C36_recalculate_user _ _ _ _ _ _ _ _ P2 C MY LY (Rlt_le _ _ (Rle_lt_trans _ _ _ R1 R2)) E2) as [_ [_ H2]]. destruct (H2 k B) as [[L2 M2] _].
  pose proof (M1 _ L2) as A1. pose proof (M2 _ L1) as A2. pose proof (M2 (repeat 0 n) (repeat_length 0 n)) as A3.
  set (x1 := nth k X1 []) in *. set (x2 := nth k X2 []) in *. set (row := scale_row alpha (csr_row M k)) in *.
  unfold user_loss in *. rewrite rdot_repeat0 in A3.
  assert (EL : row_error Y row (repeat 0 n) = liked_mass (length Y) row).
  { unfold row_error, liked_mass. apply rsum_map_ext. intros i _. rewrite rdot_repeat0. unfold sq, preference.
    destruct (entry row i) as [c|]; [destruct (Rlt_dec 0 c)|]; lra. }
  rewrite EL in A3.
  assert (P : 0 <= row_error Y row x2).
  { unfold row_error. apply rsum_nonneg. intros v Hv. apply in_map_iff in Hv. destruct Hv as [i [<- _]].
    apply Rmult_le_pos; [apply confidence_nonneg|]. apply Rle_0_sqr. }
  repeat split; nra.
Qed.
Print Assumptions C124.

(* ------------------------------------------------------------------ C125 *)
(** Raising the weight of an item the user has interacted with brings the item's score closer to 1 (for a disliked
    item, lowering its negative weight brings the score closer to 0). *)
Theorem C125 : forall posv1 posv2 alpha reg n Y ids1 ids2 M1 M2 X1 X2 k1 k2 i c1 c2 target,
  posv_ok posv1 -> posv_ok posv2 -> canonical M1 -> canonical M2 -> mat_ok n Y -> length Y = c_cols M1 -> length Y = c_cols M2 ->
  0 <= reg -> 0 < alpha ->
  recalculate_user posv1 alpha reg n (gram n Y) Y ids1 M1 = Ok X1 ->
  recalculate_user posv2 alpha reg n (gram n Y) Y ids2 M2 = Ok X2 -> (k1 < id_count ids1)%nat -> (k2 < id_count ids2)%nat ->
  (i < length Y)%nat -> same_but i (csr_row M1 k1) (csr_row M2 k2) ->
  entry (csr_row M1 k1) i = Some c1 -> entry (csr_row M2 k2) i = Some c2 ->
  0 < c1 < c2 /\ target = 1 \/ c2 < c1 < 0 /\ target = 0 ->
  Rabs (target - score_of Y i (nth k2 X2 [])) <= Rabs (target - score_of Y i (nth k1 X1 [])).
Proof.
  intros posv1 posv2 alpha reg n Y ids1 ids2 M1 M2 X1 X2 k1 k2 i c1 c2 target P1 P2 C1 C2 MY LY1 LY2 R0 A0 E1 E2 B1 B2 Bi S V1 V2 T.
  destruct (C36_recalculate_user _ _ _ _ _ _ _ _ P1 C1 MY LY1 R0 E1) as [_ [_ H1]]. destruct (H1 k1 B1) as [[L1 m1] _].
  destruct (C36_recalculate_user _ _ _ _ _ _ _ _ P2 C2 MY LY2 R0 E2) as [_ [_ H2]]. destruct (H2 k2 B2) as [[L2 m2] _].
  pose proof (m1 _ L2) as A1. pose proof (m2 _ L1) as A2.
  set (x1 := nth k1 X1 []) in *. set (x2 := nth k2 X2 []) in *.
  assert (SB : same_but i (scale_row alpha (csr_row M1 k1)) (scale_row alpha (csr_row M2 k2))).
  { intros j N. rewrite !entry_scale, (S j N). auto. }
  rewrite !(loss_change Y reg _ _ i _ Bi SB) in A2.
  unfold confidence, preference in A2. rewrite !entry_scale, V1, V2 in A2. cbn [option_map] in A2.
  set (p1 := score_of Y i x1) in *. set (p2 := score_of Y i x2) in *. apply Rsqr_le_abs_0. unfold Rsqr. unfold sq in A2.
  destruct T as [[[T1 T2] ->]|[[T1 T2] ->]].
  - assert (0 < alpha * c1) by nra. assert (alpha * c1 < alpha * c2) by nra.
    destruct (Rlt_dec 0 (alpha * c1)); [|lra]. destruct (Rlt_dec 0 (alpha * c2)); [|lra]. rewrite !Rabs_right in A2 by lra. nra.
  - assert (alpha * c1 < 0) by nra. assert (alpha * c2 < alpha * c1) by nra.
    destruct (Rlt_dec 0 (alpha * c1)); [lra|]. destruct (Rlt_dec 0 (alpha * c2)); [lra|]. rewrite !Rabs_left in A2 by lra. nra.
Qed.
Print Assumptions C125.

(* ------------------------------------------------------------------ C126 *)
(** The direction in which a new interaction with weight alpha * c moves the score of its item: up exactly as far as
    the score was below w / (w - 1) for w > 1, above - w / (1 - w) for w < 1. *)
Theorem C126_direction : forall posv1 posv2 alpha reg n Y ids1 ids2 M1 M2 X1 X2 k1 k2 i c,
  posv_ok posv1 -> posv_ok posv2 -> canonical M1 -> canonical M2 -> mat_ok n Y -> length Y = c_cols M1 -> length Y = c_cols M2 ->
  0 <= reg -> 0 < alpha * c ->
  recalculate_user posv1 alpha reg n (gram n Y) Y ids1 M1 = Ok X1 ->
  recalculate_user posv2 alpha reg n (gram n Y) Y ids2 M2 = Ok X2 -> (k1 < id_count ids1)%nat -> (k2 < id_count ids2)%nat ->
  (i < length Y)%nat -> same_but i (csr_row M1 k1) (csr_row M2 k2) ->
  entry (csr_row M1 k1) i = None -> entry (csr_row M2 k2) i = Some c ->
  let before := score_of Y i (nth k1 X1 []) in let after := score_of Y i (nth k2 X2 []) in
  (0 <= alpha * c - (alpha * c - 1) * before -> before <= after) /\
  (alpha * c - (alpha * c - 1) * before <= 0 -> after <= before).
Proof.
  intros posv1 posv2 alpha reg n Y ids1 ids2 M1 M2 X1 X2 k1 k2 i c P1 P2 C1 C2 MY LY1 LY2 R0 Q0 E1 E2 B1 B2 Bi S V1 V2.
  assert (N1 := recalculate_solution _ _ _ _ _ _ _ _ k1 P1 C1 MY LY1 R0 E1 B1).
  assert (N2 := recalculate_solution _ _ _ _ _ _ _ _ k2 P2 C2 MY LY2 R0 E2 B2).
  assert (A1 := gap _ _ _ _ _ (nth k2 X2 []) i MY R0 Bi N1 (proj1 N2)).
  assert (A2 := gap _ _ _ _ _ (nth k1 X1 []) i MY R0 Bi N2 (proj1 N1)).
  set (x1 := nth k1 X1 []) in *. set (x2 := nth k2 X2 []) in *. set (q := alpha * c) in *.
  assert (SB : same_but i (scale_row alpha (csr_row M1 k1)) (scale_row alpha (csr_row M2 k2))).
  { intros j N. rewrite !entry_scale, (S j N). auto. }
  rewrite !(loss_change Y reg _ _ i _ Bi SB) in A2.
  unfold confidence, preference in A1, A2. rewrite !entry_scale, V1, ?V2 in A1. rewrite !entry_scale, V1, V2 in A2. cbn [option_map] in A1, A2.
  fold q in A2. destruct (Rlt_dec 0 q) as [_|]; [|lra]. rewrite !(Rabs_right q) in A2 by lra.
  cbv zeta. set (p1 := score_of Y i x1) in *. set (p2 := score_of Y i x2) in *. unfold sq in *.
  assert (K : (p2 - p1) * ((q - (q - 1) * p1) - q * (p2 - p1)) >= 0) by nra.
  set (s := q - (q - 1) * p1) in *. clearbody s. clear - K Q0.
  split; intros H.
  - destruct (Rle_dec p1 p2) as [D|D]; auto. exfalso. assert (0 < q * (p1 - p2)) by (apply Rmult_lt_0_compat; lra).
    assert (0 < (p1 - p2) * (s - q * (p2 - p1))) by (apply Rmult_lt_0_compat; lra). lra.
  - destruct (Rle_dec p2 p1) as [D|D]; auto. exfalso. assert (0 < q * (p2 - p1)) by (apply Rmult_lt_0_compat; lra).
    assert (0 < (p2 - p1) * (- (s - q * (p2 - p1)))) by (apply Rmult_lt_0_compat; lra). lra.
Qed.
Print Assumptions C126_direction.

(** The claim (for a score of at most 1), with a weight of at least 1 or a score that is not negative.  Missing: smaller
    weights with negative scores (C126_refuted). *)
Theorem C126_partial : forall posv1 posv2 alpha reg n Y ids1 ids2 M1 M2 X1 X2 k1 k2 i c,
  posv_ok posv1 -> posv_ok posv2 -> canonical M1 -> canonical M2 -> mat_ok n Y -> length Y = c_cols M1 -> length Y = c_cols M2 ->
  0 <= reg -> 0 < alpha * c ->
  recalculate_user posv1 alpha reg n (gram n Y) Y ids1 M1 = Ok X1 ->
  recalculate_user posv2 alpha reg n (gram n Y) Y ids2 M2 = Ok X2 -> (k1 < id_count ids1)%nat -> (k2 < id_count ids2)%nat ->
  (i < length Y)%nat -> same_but i (csr_row M1 k1) (csr_row M2 k2) ->
  entry (csr_row M1 k1) i = None -> entry (csr_row M2 k2) i = Some c ->
  score_of Y i (nth k1 X1 []) <= 1 -> 1 <= alpha * c \/ 0 <= score_of Y i (nth k1 X1 []) ->
  score_of Y i (nth k1 X1 []) <= score_of Y i (nth k2 X2 []).
Proof.
  intros posv1 posv2 alpha reg n Y ids1 ids2 M1 M2 X1 X2 k1 k2 i c P1 P2 C1 C2 MY LY1 LY2 R0 Q0 E1 E2 B1 B2 Bi S V1 V2 L W.
  apply (C126_direction posv1 posv2 alpha reg n Y ids1 ids2 M1 M2 X1 X2 k1 k2 i c); auto. destruct W; nra.
Qed.
Print Assumptions C126_partial.

(** A new dislike of weight at least 1 brings the score closer to 0. *)
Theorem C126_dislike_partial : forall posv1 posv2 alpha reg n Y ids1 ids2 M1 M2 X1 X2 k1 k2 i c,
  posv_ok posv1 -> posv_ok posv2 -> canonical M1 -> canonical M2 -> mat_ok n Y -> length Y = c_cols M1 -> length Y = c_cols M2 ->
  0 <= reg -> alpha * c <= - 1 ->
  recalculate_user posv1 alpha reg n (gram n Y) Y ids1 M1 = Ok X1 ->
  recalculate_user posv2 alpha reg n (gram n Y) Y ids2 M2 = Ok X2 -> (k1 < id_count ids1)%nat -> (k2 < id_count ids2)%nat ->
  (i < length Y)%nat -> same_but i (csr_row M1 k1) (csr_row M2 k2) ->
  entry (csr_row M1 k1) i = None -> entry (csr_row M2 k2) i = Some c ->
  Rabs (score_of Y i (nth k2 X2 [])) <= Rabs (score_of Y i (nth k1 X1 [])).
Proof.
  intros posv1 posv2 alpha reg n Y ids1 ids2 M1 M2 X1 X2 k1 k2 i c P1 P2 C1 C2 MY LY1 LY2 R0 Q0 E1 E2 B1 B2 Bi S V1 V2.
  assert (N1 := recalculate_solution _ _ _ _ _ _ _ _ k1 P1 C1 MY LY1 R0 E1 B1).
  assert (N2 := recalculate_solution _ _ _ _ _ _ _ _ k2 P2 C2 MY LY2 R0 E2 B2).
  assert (A1 := gap _ _ _ _ _ (nth k2 X2 []) i MY R0 Bi N1 (proj1 N2)).
  assert (A2 := gap _ _ _ _ _ (nth k1 X1 []) i MY R0 Bi N2 (proj1 N1)).
  set (x1 := nth k1 X1 []) in *. set (x2 := nth k2 X2 []) in *. set (q := alpha * c) in *.
  assert (SB : same_but i (scale_row alpha (csr_row M1 k1)) (scale_row alpha (csr_row M2 k2))).
  { intros j N. rewrite !entry_scale, (S j N). auto. }
  rewrite !(loss_change Y reg _ _ i _ Bi SB) in A2.
  unfold confidence, preference in A1, A2. rewrite !entry_scale, V1, ?V2 in A1. rewrite !entry_scale, V1, V2 in A2. cbn [option_map] in A1, A2.
  fold q in A2. destruct (Rlt_dec 0 q) as [|_]; [lra|]. rewrite !(Rabs_left q) in A2 by lra.
  set (p1 := score_of Y i x1) in *. set (p2 := score_of Y i x2) in *. apply Rsqr_le_abs_0. unfold Rsqr. unfold sq in *.
  assert (K : (- q - 1) * (p1 * p1 - p2 * p2) >= (1 - q) * ((p2 - p1) * (p2 - p1))) by nra.
  destruct (Rle_dec (p2 * p2) (p1 * p1)); auto. exfalso.
  assert (Z : 0 <= (p2 - p1) * (p2 - p1)) by apply Rle_0_sqr.
  assert (D : (p2 - p1) * (p2 - p1) = 0) by nra.
  assert (p2 - p1 = 0) by (destruct (Rmult_integral _ _ D); auto). replace p2 with p1 in * by lra. lra.
Qed.
Print Assumptions C126_dislike_partial.

(* ------------------------------------------------------------------ cases *)
Definition mono_Y : list (list R) := [[1]; [-1]].
Definition mono_M (row : list (nat * R)) : csr R := csr_of_rows 2 [row].
Lemma mono_Y_ok : mat_ok 1 mono_Y.
Proof. intros y Hy; simpl in Hy; repeat (destruct Hy as [<-|Hy]; [reflexivity|]); tauto. Qed.
Lemma mono_canonical row : row_ok 2 row -> canonical (mono_M row).
Proof.
  intros [ND B]. split.
  - apply csr_of_rows_wf. intros r p [<-|[]] Hp. apply B; auto.
  - intros u Bu. cbn in Bu. assert (u = 0%nat) by lia. subst u. unfold csr_row_indices, mono_M. rewrite csr_row_of_rows by (cbn; lia). exact ND.
Qed.
Lemma mono_row row : csr_row (mono_M row) 0 = row.
Proof. unfold mono_M. rewrite csr_row_of_rows by (cbn; lia). auto. Qed.
(** The one factor of the user. *)
Lemma mono_solve alpha reg row a b : row_ok 2 row -> 0 < reg ->
  confidence (scale_row alpha row) 0 + confidence (scale_row alpha row) 1 + reg = a ->
  confidence (scale_row alpha row) 0 * preference (scale_row alpha row) 0 - confidence (scale_row alpha row) 1 * preference (scale_row alpha row) 1 = b ->
  exists x, recalculate_user posv_elim alpha reg 1 (gram 1 mono_Y) mono_Y (Scalar 0) (mono_M row) = Ok [[x]] /\ a * x = b.
Proof.
  intros RO R0 Ea Eb.
  assert (T : exists X', recalculate_user posv_elim alpha reg 1 (gram 1 mono_Y) mono_Y (Scalar 0) (mono_M row) = Ok X').
  { unfold recalculate_user. cbn [id_count id_list length mono_M csr_of_rows c_rows Nat.eqb negb]. rewrite apply_alpha_scale.
    apply (least_squares_c_total posv_elim 1 (csr_scale alpha (mono_M row)) mono_Y reg posv_elim_ok (scale_canonical alpha _ (mono_canonical row RO)) mono_Y_ok eq_refl). lra. }
  destruct T as [X' E]. destruct (C36_recalculate_user _ _ _ _ _ _ _ _ posv_elim_ok (mono_canonical row RO) mono_Y_ok eq_refl (Rlt_le _ _ R0) E) as [LX _].
  assert (N := recalculate_solution _ _ _ _ _ _ _ _ 0%nat posv_elim_ok (mono_canonical row RO) mono_Y_ok eq_refl (Rlt_le _ _ R0) E ltac:(cbn; lia)).
  destruct X' as [|x [|]]; try discriminate. cbn [nth] in N. destruct N as [Lx N]. destruct x as [|x [|]]; try discriminate.
  exists x. split; auto. specialize (N [1] eq_refl). rewrite mono_row in N. unfold wform, wlin, mono_Y in N. cbn [length seq map nth rsum fold_right] in N.
  unfold rdot in N. simpl in N. subst a b. lra.
Qed.
Lemma row_ok_1 c : row_ok 2 [(0%nat, c)].
Proof. split; [repeat constructor; auto|intros p [<-|[]]; cbn; lia]. Qed.
Lemma row_ok_2 c d : row_ok 2 [(0%nat, c); (1%nat, d)].
Proof. split; [repeat constructor; cbn; intuition lia|intros p [<-|[<-|[]]]; cbn; lia]. Qed.
Ltac conf := unfold confidence, preference, entry, scale_row; cbn [map fst snd find Nat.eqb option_map];
  repeat match goal with |- context [Rlt_dec ?a ?b] => destruct (Rlt_dec a b); try (exfalso; lra) end;
  rewrite ?Rabs_right by lra; try reflexivity.

(** False: a new liked item of weight 1/10 lowers that item's score from -1/3 to -3/7, since an item the user never saw
    counts with weight 1. *)
Theorem C126_refuted : exists alpha reg Y M1 M2 X1 X2 c,
  0 < c /\ 0 < alpha /\ 0 < reg /\ canonical M1 /\ canonical M2 /\ mat_ok 1 Y /\ length Y = c_cols M1 /\ length Y = c_cols M2 /\
  same_but 1 (csr_row M1 0) (csr_row M2 0) /\ entry (csr_row M1 0) 1 = None /\ entry (csr_row M2 0) 1 = Some c /\
  recalculate_user posv_elim alpha reg 1 (gram 1 Y) Y (Scalar 0) M1 = Ok X1 /\
  recalculate_user posv_elim alpha reg 1 (gram 1 Y) Y (Scalar 0) M2 = Ok X2 /\
  score_of Y 1 (nth 0 X2 []) < score_of Y 1 (nth 0 X1 []) < 0.
Proof.
  destruct (mono_solve 1 1 [(0%nat, 1)] 3 1 (row_ok_1 1) ltac:(lra) ltac:(conf; lra) ltac:(conf; lra)) as [x1 [E1 S1]].
  destruct (mono_solve 1 1 [(0%nat, 1); (1%nat, 1/10)] (21/10) (9/10) (row_ok_2 1 _) ltac:(lra) ltac:(conf; lra) ltac:(conf; lra)) as [x2 [E2 S2]].
  exists 1, 1, mono_Y, (mono_M [(0%nat, 1)]), (mono_M [(0%nat, 1); (1%nat, 1/10)]), [[x1]], [[x2]], (1/10).
  repeat split; try lra; try apply mono_canonical; try apply row_ok_1; try apply row_ok_2; try apply mono_Y_ok; auto; rewrite ?mono_row; auto.
  all: try (intros j N; rewrite ?mono_row; unfold entry; destruct j as [|[|j]]; cbn; congruence).
  all: unfold score_of, mono_Y; cbn [nth]; unfold rdot; simpl. all: lra.
Qed.
Print Assumptions C126_refuted.

(** Cases meeting the hypotheses: a user who likes item 0 with weight 2. *)
Example C124_example : exists x1 x2,
  recalculate_user posv_elim 1 1 1 (gram 1 mono_Y) mono_Y (Scalar 0) (mono_M [(0%nat, 2)]) = Ok [[x1]] /\
  recalculate_user posv_elim 1 2 1 (gram 1 mono_Y) mono_Y (Scalar 0) (mono_M [(0%nat, 2)]) = Ok [[x2]] /\ x1 = 1/2 /\ x2 = 2/5.
Proof.
  destruct (mono_solve 1 1 [(0%nat, 2)] 4 2 (row_ok_1 2) ltac:(lra) ltac:(conf; lra) ltac:(conf; lra)) as [x1 [E1 S1]].
  destruct (mono_solve 1 2 [(0%nat, 2)] 5 2 (row_ok_1 2) ltac:(lra) ltac:(conf; lra) ltac:(conf; lra)) as [x2 [E2 S2]].
  exists x1, x2. repeat split; auto; lra.
Qed.
(** The weight of item 0 rises from 2 to 6: its score goes from 1/2 to 3/4; adding item 1 with weight 2 takes its score from
    -1/2 to 0. *)
Example C125_example : exists x1 x2 x3,
  recalculate_user posv_elim 2 1 1 (gram 1 mono_Y) mono_Y (Scalar 0) (mono_M [(0%nat, 1)]) = Ok [[x1]] /\
  recalculate_user posv_elim 2 1 1 (gram 1 mono_Y) mono_Y (Scalar 0) (mono_M [(0%nat, 3)]) = Ok [[x2]] /\
  recalculate_user posv_elim 2 1 1 (gram 1 mono_Y) mono_Y (Scalar 0) (mono_M [(0%nat, 1); (1%nat, 1)]) = Ok [[x3]] /\
  x1 = 1/2 /\ x2 = 3/4 /\ x3 = 0 /\ same_but 0 [(0%nat, 1)] [(0%nat, 3)] /\ same_but 1 [(0%nat, 1)] [(0%nat, 1); (1%nat, 1)].
Proof.
  destruct (mono_solve 2 1 [(0%nat, 1)] 4 2 (row_ok_1 1) ltac:(lra) ltac:(conf; lra) ltac:(conf; lra)) as [x1 [E1 S1]].
  destruct (mono_solve 2 1 [(0%nat, 3)] 8 6 (row_ok_1 3) ltac:(lra) ltac:(conf; lra) ltac:(conf; lra)) as [x2 [E2 S2]].
  destruct (mono_solve 2 1 [(0%nat, 1); (1%nat, 1)] 5 0 (row_ok_2 1 1) ltac:(lra) ltac:(conf; lra) ltac:(conf; lra)) as [x3 [E3 S3]].
  exists x1, x2, x3. repeat split; auto; try lra; intros j N; unfold entry; destruct j as [|[|j]]; cbn; congruence.
Qed.
