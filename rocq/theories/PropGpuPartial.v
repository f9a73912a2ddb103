(** C92: partial_fit_users and partial_fit_items of the GPU version of ALS. *)
From Coq Require Import List Arith Lia Bool ZArith Reals Lra Permutation.
From Verif Require Import Base Num Sparse TopkModel TopkBatch RecommendModel KnnAcc RVec SimilarBatch AlsModel AlsSpec AlsProofs AlsProofs2 AlsLoss AlsConc RowConc KnnConc CgProofs CgExact
  PosvImpl PropAls PropCg PropCgExact GpuDot GpuKnn GpuKnnProofs2 GpuAls GpuAlsProofs GpuAlsProofs2 GpuAlsProofs3 PropGpuAls.
Import ListNotations.
Local Open Scope R_scope.

Lemma zmax_nat a l : zmax (map Z.of_nat (a :: l)) = Ok (Z.of_nat (list_max (a :: l))).
Proof.
  cbn [map zmax]. f_equal. revert a. induction l as [|b l IH]; intros a; cbn [map fold_left]; [cbn [list_max fold_right]; lia|].
  rewrite <- Nat2Z.inj_max, IH. cbn [list_max fold_right]. lia.
Qed.
Lemma list_max_ge l i : In i l -> (i <= list_max l)%nat.
Proof. intros H. assert (F := proj1 (list_max_le l (list_max l)) (le_n _)). rewrite Forall_forall in F. auto. Qed.

(** What the rows of a factor matrix are afterwards, said without the model: as many rows as before or as the largest
    id needs; the named rows are [news]; the other old rows are as before; the other new rows are zero. *)
Definition rows_updated (n : nat) (ids : list nat) (news old new : list (list R)) : Prop :=
  length new = Nat.max (length old) (S (list_max ids)) /\
  (forall k, (k < length ids)%nat -> nth (nth k ids 0%nat) new [] = nth k news []) /\
  (forall i, (i < length old)%nat -> ~ In i ids -> nth i new [] = nth i old []) /\
  (forall i, (length old <= i < length new)%nat -> ~ In i ids -> nth i new [] = repeat 0 n).

Lemma store_rows n ids news M cells : NoDup ids -> ids <> [] -> length ids = length news -> mat_ok n news -> mat_ok n M ->
  (forall i, In i ids -> (Z.of_nat i < 2 ^ 31)%Z) -> Permutation cells (seq 0 (length ids * n)) ->
  let gm := {| g_size := 4; g_cols := n; g_rows := M |} in
  let gm' := if (Z.of_nat (length M) <=? Z.of_nat (list_max ids))%Z then gpu_resize gm (Z.to_nat (Z.of_nat (list_max ids) + 1)) else gm in
  exists rows, gpu_assign_rows cells (map Z.of_nat ids) {| g_size := 4; g_cols := n; g_rows := news |} gm' = Ok {| g_size := 4; g_cols := n; g_rows := rows |} /\
    rows_updated n ids news M rows.
Proof.
  intros ND NE L MO MM SM P gm gm'.
  set (M' := M ++ repeat (repeat 0 n) (S (list_max ids) - length M)).
  assert (E : gm' = {| g_size := 4; g_cols := n; g_rows := M' |}).
  { unfold gm', gm, gpu_resize, M'. cbn [g_size g_cols g_rows]. destruct (Z.leb_spec (Z.of_nat (length M)) (Z.of_nat (list_max ids))) as [B|B].
    - do 2 f_equal. f_equal. replace (Z.to_nat (Z.of_nat (list_max ids) + 1)) with (S (list_max ids)) by lia. reflexivity.
    - replace (S (list_max ids) - length M)%nat with 0%nat by lia. cbn [repeat]. rewrite app_nil_r. reflexivity. }
  assert (LM : length M' = Nat.max (length M) (S (list_max ids))) by (unfold M'; rewrite app_length, repeat_length; lia).
  rewrite E. destruct (assign_ok n ids news M') with (cells := cells) as [rows [EA [LR [V O]]]]; auto.
  - intros y Hy. unfold M' in Hy. apply in_app_or in Hy. destruct Hy as [Hy|Hy]; [apply MM; auto|]. apply repeat_spec in Hy. subst y. apply repeat_length.
  - intros i Hi. assert (B := list_max_ge ids i Hi). rewrite LM. lia.
  - exists rows. split; auto. split; [congruence|]. split; auto. split.
    + intros i B N. rewrite O by auto. unfold M'. apply app_nth1. auto.
    + intros i B N. rewrite O by auto. unfold M'. rewrite app_nth2 by lia. apply nth_repeat_lt. rewrite LR, LM in B. lia.
Qed.

(** Full statement: after partial_fit_users (items) on the GPU with one matrix row per id, the named rows solve their
    normal equations, nothing else has changed, users (items) in between are zero, and no cached value that depends
    on the changed factors is left; and when the call raises, nothing has changed.
    Missing: negative ids, float16 factors and matrices without entries (all three refuted below), repeated ids (the
    last store wins per cell, in no fixed order), ids of 2^31 and more (C67); C78 and C79. *)
Theorem C92_users_partial : forall bdot eps order cells g ids m u,
  sums_right (ga_n g) bdot -> 0 < eps -> gpu_model_ok g -> ga_size g = 4%Z -> canonical m -> (c_cols m <= length (g_rows (ga_Y g)))%nat ->
  NoDup ids -> (forall i, In i ids -> (Z.of_nat i < 2 ^ 31)%Z) -> c_rows m = length ids -> (u < c_rows m)%nat -> csr_row m u <> [] ->
  Permutation order (seq 0 (length ids)) -> Permutation cells (seq 0 (length ids * ga_n g)) ->
  exists g' news, gpu_partial_fit_users bdot eps order cells g (map Z.of_nat ids) m = (g', Ok tt) /\
    rows_updated (ga_n g) ids news (g_rows (ga_X g)) (g_rows (ga_X g')) /\
    (forall k, (k < length ids)%nat -> near_solution (ga_n g) (g_rows (ga_Y g)) (ga_reg g) (scale_row (ga_alpha g) (csr_row m k)) eps (nth k news [])) /\
    ga_Y g' = ga_Y g /\ ga_inorms g' = ga_inorms g /\ ga_unorms g' = None /\ gpu_model_ok g' /\
    ga_n g' = ga_n g /\ ga_reg g' = ga_reg g /\ ga_alpha g' = ga_alpha g.
Proof.
  intros bdot eps order cells g ids m u DO E0 GM S4 C LC ND SM EI Bu NE P PC. assert (GM' := GM).
  destruct GM as [LN [R0 [FS [CX [CY [SX [SY [MX [MY [KY KX]]]]]]]]]].
  assert (IC : id_count (Batch (map Z.of_nat ids)) = length ids) by (unfold id_count; cbn [id_list]; apply map_length).
  unfold gpu_partial_fit_users. rewrite map_length, EI, Nat.eqb_refl. cbn [negb].
  destruct (gpu_recalculate_ok bdot eps order g (ga_Y g) (ga_YtY g) m u) as [rows [E [L V]]]; auto; [rewrite EI; auto|].
  unfold gpu_recalculate_user. rewrite IC, <- EI, E.
  assert (FY : fill_YtY g = set_gYtY g (Some (add_diag (ga_reg g) (gram (ga_n g) (g_rows (ga_Y g)))))).
  { unfold fill_YtY. rewrite yty_value_ok by (auto; rewrite SY; auto). reflexivity. }
  rewrite FY. cbv zeta. destruct ids as [|a ids']; [exfalso; cbn in EI; lia|]. set (ids := a :: ids') in *. assert (ZM : zmax (map Z.of_nat ids) = Ok (Z.of_nat (list_max ids))) by apply zmax_nat. rewrite ZM.
  set (g1 := set_gYtY g _). change (ga_X g1) with (ga_X g).
  destruct (store_rows (ga_n g) ids rows (g_rows (ga_X g)) cells) as [new [EA RU]]; auto; [discriminate|congruence| |].
  { intros y Hy. destruct (In_nth _ _ [] Hy) as [k [Bk <-]]. apply (proj1 (V k ltac:(lia))). }
  assert (EX : ga_X g = {| g_size := 4; g_cols := ga_n g; g_rows := g_rows (ga_X g) |}) by (rewrite <- CX, <- S4, <- SX at 1; destruct (ga_X g); reflexivity).
  rewrite S4.
  set (resized := (Z.of_nat (length (g_rows (ga_X g))) <=? Z.of_nat (list_max ids))%Z) in *.
  assert (EG : ga_X (if resized then set_gX g1 (gpu_resize (ga_X g) (Z.to_nat (Z.of_nat (list_max ids) + 1))) else g1) =
     (if resized then gpu_resize {| g_size := 4; g_cols := ga_n g; g_rows := g_rows (ga_X g) |} (Z.to_nat (Z.of_nat (list_max ids) + 1)) else {| g_size := 4; g_cols := ga_n g; g_rows := g_rows (ga_X g) |})).
  { rewrite <- EX. destruct resized; reflexivity. }
  rewrite EG, EA. eexists _, rows. split; [reflexivity|].
  assert (MN : mat_ok (ga_n g) new).
  { intros y Hy. destruct (In_nth _ _ [] Hy) as [i [Bi <-]]. destruct RU as [LR [R1 [R2 R3]]]. destruct (in_dec Nat.eq_dec i ids) as [Hi|Ni].
    - destruct (In_nth ids i 0%nat Hi) as [k [Bk <-]]. rewrite R1 by auto. apply (proj1 (V k ltac:(lia))).
    - destruct (le_lt_dec (length (g_rows (ga_X g))) i); [rewrite R3 by (auto; lia); apply repeat_length|rewrite R2 by auto; apply MX, nth_In; auto]. }
  destruct resized; cbn [clear_user_caches set_gX set_gYtY g1 ga_X ga_Y ga_n ga_reg ga_alpha ga_inorms ga_unorms ga_XtX ga_YtY ga_size g_rows g_cols g_size];
   (split; [exact RU|]; split; [intros k Bk; apply V; lia|]; do 3 (split; [reflexivity|]); split; [|auto]; unfold gpu_model_ok;
    cbn [clear_user_caches set_gX set_gYtY g1 ga_X ga_Y ga_n ga_reg ga_alpha ga_inorms ga_unorms ga_XtX ga_YtY ga_size g_rows g_cols g_size cache_ok]; repeat split; auto).
Qed.

Theorem C92_items_partial : forall bdot eps order cells g ids m u,
  sums_right (ga_n g) bdot -> 0 < eps -> gpu_model_ok g -> ga_size g = 4%Z -> canonical m -> (c_cols m <= length (g_rows (ga_X g)))%nat ->
  NoDup ids -> (forall i, In i ids -> (Z.of_nat i < 2 ^ 31)%Z) -> c_rows m = length ids -> (u < c_rows m)%nat -> csr_row m u <> [] ->
  Permutation order (seq 0 (length ids)) -> Permutation cells (seq 0 (length ids * ga_n g)) ->
  exists g' news, gpu_partial_fit_items bdot eps order cells g (map Z.of_nat ids) m = (g', Ok tt) /\
    rows_updated (ga_n g) ids news (g_rows (ga_Y g)) (g_rows (ga_Y g')) /\
    (forall k, (k < length ids)%nat -> near_solution (ga_n g) (g_rows (ga_X g)) (ga_reg g) (scale_row (ga_alpha g) (csr_row m k)) eps (nth k news [])) /\
    ga_X g' = ga_X g /\ ga_unorms g' = ga_unorms g /\ ga_inorms g' = None /\ gpu_model_ok g' /\
    ga_n g' = ga_n g /\ ga_reg g' = ga_reg g /\ ga_alpha g' = ga_alpha g.
Proof.
  intros bdot eps order cells g ids m u DO E0 GM S4 C LC ND SM EI Bu NE P PC. assert (GM' := GM).
  destruct GM as [LN [R0 [FS [CX [CY [SX [SY [MX [MY [KY KX]]]]]]]]]].
  assert (IC : id_count (Batch (map Z.of_nat ids)) = length ids) by (unfold id_count; cbn [id_list]; apply map_length).
  unfold gpu_partial_fit_items. rewrite map_length, EI, Nat.eqb_refl. cbn [negb].
  destruct (gpu_recalculate_ok bdot eps order g (ga_X g) (ga_XtX g) m u) as [rows [E [L V]]]; auto; [rewrite EI; auto|].
  unfold gpu_recalculate_item. rewrite IC, <- EI, E.
  assert (FY : fill_XtX g = set_gXtX g (Some (add_diag (ga_reg g) (gram (ga_n g) (g_rows (ga_X g)))))).
  { unfold fill_XtX. rewrite yty_value_ok by (auto; rewrite SX; auto). reflexivity. }
  rewrite FY. cbv zeta. destruct ids as [|a ids']; [exfalso; cbn in EI; lia|]. set (ids := a :: ids') in *. assert (ZM : zmax (map Z.of_nat ids) = Ok (Z.of_nat (list_max ids))) by apply zmax_nat. rewrite ZM.
  set (g1 := set_gXtX g _). change (ga_Y g1) with (ga_Y g).
  destruct (store_rows (ga_n g) ids rows (g_rows (ga_Y g)) cells) as [new [EA RU]]; auto; [discriminate|congruence| |].
  { intros y Hy. destruct (In_nth _ _ [] Hy) as [k [Bk <-]]. apply (proj1 (V k ltac:(lia))). }
  assert (EX : ga_Y g = {| g_size := 4; g_cols := ga_n g; g_rows := g_rows (ga_Y g) |}) by (rewrite <- CY, <- S4, <- SY at 1; destruct (ga_Y g); reflexivity).
  rewrite S4.
  set (resized := (Z.of_nat (length (g_rows (ga_Y g))) <=? Z.of_nat (list_max ids))%Z) in *.
  assert (EG : ga_Y (if resized then set_gY g1 (gpu_resize (ga_Y g) (Z.to_nat (Z.of_nat (list_max ids) + 1))) else g1) =
     (if resized then gpu_resize {| g_size := 4; g_cols := ga_n g; g_rows := g_rows (ga_Y g) |} (Z.to_nat (Z.of_nat (list_max ids) + 1)) else {| g_size := 4; g_cols := ga_n g; g_rows := g_rows (ga_Y g) |})).
  { rewrite <- EX. destruct resized; reflexivity. }
  rewrite EG, EA. eexists _, rows. split; [reflexivity|].
  assert (MN : mat_ok (ga_n g) new).
  { intros y Hy. destruct (In_nth _ _ [] Hy) as [i [Bi <-]]. destruct RU as [LR [R1 [R2 R3]]]. destruct (in_dec Nat.eq_dec i ids) as [Hi|Ni].
    - destruct (In_nth ids i 0%nat Hi) as [k [Bk <-]]. rewrite R1 by auto. apply (proj1 (V k ltac:(lia))).
    - destruct (le_lt_dec (length (g_rows (ga_Y g))) i); [rewrite R3 by (auto; lia); apply repeat_length|rewrite R2 by auto; apply MY, nth_In; auto]. }
  destruct resized; cbn [clear_item_caches set_gY set_gXtX g1 ga_X ga_Y ga_n ga_reg ga_alpha ga_inorms ga_unorms ga_XtX ga_YtY ga_size g_rows g_cols g_size];
   (split; [exact RU|]; split; [intros k Bk; apply V; lia|]; do 3 (split; [reflexivity|]); split; [|auto]; unfold gpu_model_ok;
    cbn [clear_item_caches set_gY set_gXtX g1 ga_X ga_Y ga_n ga_reg ga_alpha ga_inorms ga_unorms ga_XtX ga_YtY ga_size g_rows g_cols g_size cache_ok]; repeat split; auto).
Qed.

(** Users 4, 1 and 3 of a model with three users: user 3 is new between, user 4 the largest. *)
Example C92_example : gpu_model_ok (exG 4 2 exX exY) /\
  exists g' , gpu_partial_fit_users rsum (1/1000000) [1%nat; 0%nat; 2%nat] (rev (seq 0 6)) (exG 4 2 exX exY) [5%Z; 1%Z; 4%Z] exM = (g', Ok tt) /\
    length (g_rows (ga_X g')) = 6%nat /\ nth 0 (g_rows (ga_X g')) [] = [1; 0] /\ nth 3 (g_rows (ga_X g')) [] = [0; 0] /\ ga_unorms g' = None.
Proof.
  assert (GM : gpu_model_ok (exG 4 2 exX exY)) by (apply exG_ok; [left; reflexivity|apply two_small|apply exX_ok|apply exY_ok]). split; auto.
  destruct (C92_users_partial rsum (1/1000000) [1%nat; 0%nat; 2%nat] (rev (seq 0 6)) (exG 4 2 exX exY) [5%nat; 1%nat; 4%nat] exM 0%nat) as [g' [news [E [RU [V [_ [_ [EN _]]]]]]]]; auto.
  - apply rsum_right.
  - lra.
  - apply exM_canonical.

  - repeat constructor; cbn; lia.
  - intros i Hi. cbn in Hi. lia.
  - cbn. lia.
  - apply exM_entry.
  - apply perm_swap.
  - apply Permutation_sym, Permutation_rev.
  - exists g'. split; [exact E|]. destruct RU as [L [R1 [R2 R3]]]. split; [exact L|]. split; [apply (R2 0%nat); [cbn; lia|cbn; lia]|]. split; auto.
    apply (R3 3%nat); [split; [cbn; lia|rewrite L; cbn; lia]|cbn; lia].
Qed.

Definition one_item : csr R := csr_of_rows 1 [[(0%nat, 1)]].
Lemma one_item_canonical : canonical one_item.
Proof.
  split; [apply csr_of_rows_wf; intros r p Hr Hp; simpl in Hr; destruct Hr as [<-|[]]; simpl in Hp; destruct Hp as [<-|[]]; simpl; lia|].
  intros u B. cbn in B. assert (u = 0)%nat by lia. subst u. cbn. repeat constructor. intros [].
Qed.
Lemma m1_ok : mat_ok 1 [[1]].
Proof. intros y [<-|[]]. reflexivity. Qed.

(** A negative id is written before the start of the factors (on the CPU it names a row from the end). *)
Theorem C92_negative_refuted : exists g m, gpu_model_ok g /\ ga_size g = 4%Z /\ canonical m /\ c_rows m = 1%nat /\ c_cols m = length (g_rows (ga_Y g)) /\
  forall bdot eps, sums_right (ga_n g) bdot -> 0 < eps ->
    snd (gpu_partial_fit_users bdot eps [0%nat] [0%nat] g [(-1)%Z] m) = Raise UB.
Proof.
  exists (exG 4 1 [[1]] [[1]]), one_item. assert (GM : gpu_model_ok (exG 4 1 [[1]] [[1]])) by (apply exG_ok; [left; reflexivity|apply one_small|apply m1_ok|apply m1_ok]).
  split; [exact GM|]. split; [reflexivity|]. split; [apply one_item_canonical|]. split; [reflexivity|]. split; [reflexivity|].
  intros bdot eps DO E0. unfold gpu_partial_fit_users. change (negb (length [(-1)%Z] =? c_rows one_item)) with false. cbn iota.
  destruct GM as [LN [R0 [FS [CX [CY [SX [SY [MX [MY [KY KX]]]]]]]]]].
  destruct (gpu_recalculate_ok bdot eps [0%nat] (exG 4 1 [[1]] [[1]]) (ga_Y (exG 4 1 [[1]] [[1]])) (ga_YtY (exG 4 1 [[1]] [[1]])) one_item 0) as [rows [E [L V]]];
    auto; [apply one_item_canonical|discriminate|].
  unfold gpu_recalculate_user. change (id_count (Batch [(-1)%Z])) with (c_rows one_item). rewrite E. reflexivity.
Qed.

(** float16 factors: the call always fails, and leaves the user factors with new rows but the old cached norms. *)
Theorem C92_half_refuted : exists g m, gpu_model_ok g /\ ga_size g = 2%Z /\ canonical m /\ c_rows m = 1%nat /\ c_cols m = length (g_rows (ga_Y g)) /\
  forall bdot eps, sums_right (ga_n g) bdot -> 0 < eps ->
    exists g', gpu_partial_fit_users bdot eps [0%nat] [0%nat] g [1%Z] m = (g', Raise RuntimeError) /\
      length (g_rows (ga_X g)) = 1%nat /\ length (g_rows (ga_X g')) = 2%nat /\ ga_unorms g <> None /\ ga_unorms g' = ga_unorms g.
Proof.
  exists (exG 2 1 [[1]] [[1]]), one_item. assert (GM : gpu_model_ok (exG 2 1 [[1]] [[1]])) by (apply exG_ok; [right; reflexivity|apply one_small|apply m1_ok|apply m1_ok]).
  split; [exact GM|]. split; [reflexivity|]. split; [apply one_item_canonical|]. split; [reflexivity|]. split; [reflexivity|].
  intros bdot eps DO E0. unfold gpu_partial_fit_users. change (negb (length [1%Z] =? c_rows one_item)) with false. cbn iota.
  destruct GM as [LN [R0 [FS [CX [CY [SX [SY [MX [MY [KY KX]]]]]]]]]].
  destruct (gpu_recalculate_ok bdot eps [0%nat] (exG 2 1 [[1]] [[1]]) (ga_Y (exG 2 1 [[1]] [[1]])) (ga_YtY (exG 2 1 [[1]] [[1]])) one_item 0) as [rows [E [L V]]];
    auto; [apply one_item_canonical|discriminate|].
  unfold gpu_recalculate_user. change (id_count (Batch [1%Z])) with (c_rows one_item). rewrite E. eexists. split; [reflexivity|]. split; [reflexivity|]. split; [reflexivity|]. split; [discriminate|reflexivity].
Qed.

(** New users without items cannot be added at all. *)
Theorem C92_empty_refuted : exists g (m : csr R), gpu_model_ok g /\ ga_size g = 4%Z /\ c_rows m = 1%nat /\ c_cols m = length (g_rows (ga_Y g)) /\
  forall bdot eps order cells, gpu_partial_fit_users bdot eps order cells g [1%Z] m = (g, Raise IndexError).
Proof.
  exists (exG 4 1 [[1]] [[1]]), (csr_of_rows 1 [[]]). split; [apply exG_ok; [left; reflexivity|apply one_small|apply m1_ok|apply m1_ok]|].
  split; [reflexivity|]. split; [reflexivity|]. split; [reflexivity|]. intros. unfold gpu_partial_fit_users, gpu_recalculate_user, gpu_recalculate. rewrite apply_alpha_scale. reflexivity.
Qed.
Print Assumptions C92_users_partial.
Print Assumptions C92_items_partial.
Print Assumptions C92_negative_refuted.
Print Assumptions C92_half_refuted.
Print Assumptions C92_empty_refuted.
