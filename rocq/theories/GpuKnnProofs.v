(** Lemmas about the GPU top-k. *)
From Coq Require Import List Arith Lia Bool ZArith.
From Verif Require Import Base Num Sparse TopkModel TopkSpec RecommendModel RecommendProofs GpuKnn.
Import ListNotations.

(* ------------------------------------------------------------ memory plan *)
Lemma size_t_small z : (0 <= z < 2 ^ 64)%Z -> size_t z = z.
Proof. intros. unfold size_t. apply Z.mod_small. auto. Qed.
Lemma align_ge z : (0 <= z)%Z -> (z <= align z < z + 256)%Z.
Proof. intros. unfold align. pose proof (Z.div_mod (z + 255) 256 ltac:(lia)). pose proof (Z.mod_pos_bound (z + 255) 256 ltac:(lia)). lia. Qed.

(** The available memory, in one step. *)
Definition avail (pool rows k : Z) : Z := size_t (Z.min pool four_gib - 32 * (rows * k)).
Lemma batch_rows_eq pool rows k items : (0 <= rows * k)%Z -> (rows * k * 4 < 2 ^ 47)%Z -> items <> 0%Z ->
  batch_rows pool rows k items = Ok (Z.max (Z.min (avail pool rows k / (4 * items)) rows) 1).
Proof.
  intros H0 H1 HI. unfold batch_rows. cbv zeta.
  replace (size_t (size_t (size_t (Z.min pool four_gib - size_t (rows * k * 4)) - size_t (rows * k * 4)) - size_t (rows * k * 8 * 3))) with (avail pool rows k).
  { destruct (items =? 0)%Z eqn:E; [apply Z.eqb_eq in E; lia|]. reflexivity. }
  unfold avail. rewrite (size_t_small (rows * k * 4)) by lia. rewrite (size_t_small (rows * k * 8 * 3)) by lia. unfold size_t.
  rewrite Zminus_mod_idemp_l. set (x := (Z.min pool four_gib - rows * k * 4)%Z).
  replace ((x mod 2 ^ 64 - rows * k * 4 - rows * k * 8 * 3)%Z) with ((x mod 2 ^ 64 - 28 * (rows * k))%Z) by lia.
  rewrite Zminus_mod_idemp_l. f_equal. unfold x. lia.
Qed.
Definition fits (rows k items : Z) : Prop := (0 < rows /\ 0 < k /\ 0 < items /\ rows * k * 4 < 2 ^ 47 /\ items * 4 < 2 ^ 47)%Z.
Lemma plan_ok pool rows k items b : fits rows k items -> (0 <= pool <= four_gib)%Z -> plan pool 4 rows k items = Ok b ->
  (1 <= b <= rows /\ 4 * (b * items) <= pool /\ (b = rows \/ 32 * (rows * k) <= four_gib))%Z.
Proof.
  intros (F1 & F2 & F3 & F4 & F5) HP H. unfold plan in H. rewrite batch_rows_eq in H by nia. cbn [bind] in H.
  set (B := Z.max (Z.min (avail pool rows k / (4 * items)) rows) 1) in *.
  destruct (pool <? align (size_t (rows * k * 4)))%Z eqn:E1; [discriminate H|].
  destruct (pool <? align (size_t (rows * k * 4)) + align (size_t (rows * k * 4)))%Z eqn:E2; [discriminate H|].
  destruct (pool <? align (size_t (rows * k * 4)) + align (size_t (rows * k * 4)) + align (size_t (4 * B * items)))%Z eqn:E3; [discriminate H|].
  destruct (pool <? align (size_t (rows * k * 4)) + align (size_t (rows * k * 4)) + 4 * (B * items))%Z eqn:E4; [discriminate H|].
  injection H as <-. apply Z.ltb_ge in E1, E2, E3, E4. unfold four_gib in *.
  pose proof (align_ge (size_t (rows * k * 4))) as A. rewrite size_t_small in * by nia. specialize (A ltac:(nia)).
  assert (AV : (0 <= avail pool rows k < 2 ^ 64)%Z) by (unfold avail, size_t; apply Z.mod_pos_bound; lia).
  assert (B1 : (1 <= B <= rows)%Z) by (unfold B; lia).
  split; [exact B1|]. split; [lia|].
  destruct (Z_lt_ge_dec B rows) as [L|L]; [|left; lia]. right.
  destruct (Z_le_gt_dec (32 * (rows * k)) 4294967296) as [|G]; auto. exfalso.
  assert (AE : avail pool rows k = (2 ^ 64 + pool - 32 * (rows * k))%Z).
  { unfold avail, size_t, four_gib. rewrite Z.min_l by lia. symmetry. apply Z.mod_unique with (q := (-1)%Z); lia. }
  assert (D : (avail pool rows k / (4 * items) <= B)%Z) by (unfold B; lia).
  pose proof (Z.div_mod (avail pool rows k) (4 * items) ltac:(lia)) as DM. pose proof (Z.mod_pos_bound (avail pool rows k) (4 * items) ltac:(lia)) as MB.
  assert ((avail pool rows k < 4 * items * (B + 1))%Z) by nia. nia.
Qed.
Lemma batch_starts_spec rows bs : 0 < bs -> forall s, In s (batch_starts rows bs) -> s < rows /\ (bs = rows -> s = 0).
Proof.
  intros HB s Hs. unfold batch_starts in Hs. apply in_map_iff in Hs. destruct Hs as [b [<- Hb]]. apply in_seq in Hb. destruct Hb as [_ Hb]. cbn in Hb.
  assert (b * bs < rows). { assert (b <= (rows + bs - 1) / bs - 1) by lia. pose proof (Nat.div_mod (rows + bs - 1) bs ltac:(lia)). pose proof (Nat.mod_upper_bound (rows + bs - 1) bs ltac:(lia)). nia. }
  split; auto. intros ->. destruct b; [reflexivity|nia].
Qed.
Lemma int32_ok z : (- 2 ^ 31 <= z < 2 ^ 31)%Z -> int32 z = Ok z.
Proof. intros H. unfold int32. replace ((- 2 ^ 31 <=? z)%Z) with true by (symmetry; apply Z.leb_le; lia). replace ((z <? 2 ^ 31)%Z) with true by (symmetry; apply Z.ltb_lt; lia). reflexivity. Qed.

Section Proofs.
Context {T : Type} {NT : Num T}.

(* ------------------------------------------------------------ flat rows *)
Lemma concat_uniform_length {A} (rows : list (list A)) n : Forall (fun r => length r = n) rows -> length (concat rows) = length rows * n.
Proof. induction 1; cbn; auto. rewrite app_length. lia. Qed.
Lemma nth_concat_uniform {A} (d : A) rows n : Forall (fun r => length r = n) rows -> forall r c, r < length rows -> c < n ->
  nth (r * n + c) (concat rows) d = nth c (nth r rows []) d.
Proof.
  induction 1 as [|x rows Hx HF IH]; intros r c Hr Hc; cbn in *; [lia|]. destruct r; cbn.
  - apply app_nth1. lia.
  - rewrite app_nth2 by lia. replace (n + r * n + c - length x) with (r * n + c) by lia. apply IH; lia.
Qed.
Lemma slice_concat_uniform {A} (rows : list (list A)) n : Forall (fun r => length r = n) rows -> forall r, r < length rows ->
  slice (r * n) (r * n + n) (concat rows) = nth r rows [].
Proof.
  intros HF r Hr. destruct n as [|n].
  { unfold slice. replace (r * 0 + 0 - r * 0) with 0 by lia. cbn. rewrite Forall_forall in HF. specialize (HF (nth r rows []) (nth_In _ _ Hr)). destruct (nth r rows []); [auto|discriminate]. }
  assert (LN : length (nth r rows []) = S n) by (rewrite Forall_forall in HF; apply HF, nth_In; auto).
  assert (LC : length (concat rows) = length rows * S n) by (apply concat_uniform_length; auto).
  destruct (nth r rows []) as [|d0 row0] eqn:E; [discriminate LN|]. rewrite <- E in *. clear E row0.
  apply list_ext with (d := d0).
  - rewrite slice_length; [lia|]. rewrite LC. nia.
  - intros i Hi. rewrite slice_length in Hi by (rewrite LC; nia). rewrite nth_slice by lia. apply nth_concat_uniform; auto. lia.
Qed.

(* ------------------------------------------------------------ filters *)
Lemma fold_poke cap v cells : (cap <= 2 ^ 31)%Z -> (forall z, In z cells -> (0 <= z < cap)%Z) -> forall mem,
  fold_res (poke (T := T) cap v) cells mem = Ok (fold_left (fun m i => upd i v m) (map Z.to_nat cells) mem).
Proof.
  intros HC. induction cells as [|z cells IH]; intros HZ mem; cbn [fold_res map fold_left]; auto.
  assert (Hz : (0 <= z < cap)%Z) by (apply HZ; simpl; auto).
  unfold poke at 1. rewrite int32_ok by lia. cbn [bind]. replace ((z <? 0)%Z) with false by (symmetry; apply Z.ltb_ge; lia).
  replace ((cap <=? z)%Z) with false by (symmetry; apply Z.leb_gt; lia). cbn [orb bind]. apply IH. intros; apply HZ; simpl; auto.
Qed.
Lemma item_cells_in ncols rows ids z : In z (item_filter_cells ncols rows ids) <-> exists r id, r < rows /\ In id ids /\ z = (Z.of_nat r * Z.of_nat ncols + id)%Z.
Proof.
  unfold item_filter_cells. rewrite in_map_iff. split.
  - intros [i [<- Hi]]. apply in_seq in Hi. assert (length ids <> 0) by (intros E; rewrite E in Hi; cbn in Hi; lia).
    exists (i / length ids), (nth (i mod length ids) ids 0%Z). split; [|split; auto].
    + apply Nat.div_lt_upper_bound; lia.
    + apply nth_In. apply Nat.mod_upper_bound. auto.
  - intros [r [id [Hr [Hid ->]]]]. apply In_nth with (d := 0%Z) in Hid. destruct Hid as [n [Hn <-]].
    exists (n + r * length ids). split.
    + rewrite Nat.div_add by lia. rewrite Nat.mod_add by lia. rewrite Nat.div_small by auto. rewrite Nat.mod_small by auto. reflexivity.
    + apply in_seq. nia.
Qed.
Lemma query_cells_in ncols start stop coo z : In z (query_filter_cells ncols start stop coo) <->
  exists r c, start <= r < stop /\ In (r, c) coo /\ z = (Z.of_nat (r - start) * Z.of_nat ncols + Z.of_nat c)%Z.
Proof.
  unfold query_filter_cells. rewrite in_map_iff. split.
  - intros [[r c] [<- Hi]]. apply filter_In in Hi. cbn [fst snd] in *. destruct Hi as [Hi HB]. apply andb_true_iff in HB. destruct HB as [B1 B2]. apply Nat.leb_le in B1. apply Nat.ltb_lt in B2.
    exists r, c. repeat split; auto. rewrite Nat2Z.inj_sub by auto. auto.
  - intros [r [c [Hr [Hin ->]]]]. exists (r, c). cbn [fst snd]. split; [rewrite Nat2Z.inj_sub by lia; auto|]. apply filter_In. split; auto. cbn. apply andb_true_iff. split; [apply Nat.leb_le|apply Nat.ltb_lt]; lia.
Qed.

(** Which cells are filtered. *)
Definition hidden (item_filter : option (list Z)) (query_filter : option (list (nat * nat))) (u c : nat) : bool :=
  match item_filter with None => false | Some ids => memz (Z.of_nat c) ids end ||
  match query_filter with None => false | Some coo => existsb (fun p => (fst p =? u) && (snd p =? c)) coo end.
Definition filters_ok (ncols : nat) (item_filter : option (list Z)) (query_filter : option (list (nat * nat))) : Prop :=
  (forall ids z, item_filter = Some ids -> In z ids -> (0 <= z < Z.of_nat ncols)%Z) /\
  (forall coo p, query_filter = Some coo -> In p coo -> snd p < ncols).
(** The scores of user [u] after filtering. *)
Definition user_row (fdist : T) items (norms : option (list T)) item_filter query_filter (u : nat) (q : list T) : list T :=
  map (fun p => if hidden item_filter query_filter u (fst p) then fdist else snd p) (enum (gemm_row items norms q)).
Definition norms_ok (items : list (list T)) (norms : option (list T)) : Prop := forall ns, norms = Some ns -> length ns = length items.
Lemma gemm_row_length items norms q : norms_ok items norms -> length (gemm_row items norms q) = length items.
Proof. intros HN. unfold gemm_row. destruct norms as [ns|]; rewrite ?map_length, ?combine_length, ?map_length; auto. rewrite (HN ns eq_refl). lia. Qed.
Lemma user_row_length fdist items norms fi fq u q : norms_ok items norms -> length (user_row fdist items norms fi fq u q) = length items.
Proof. intros HN. unfold user_row, enum. rewrite map_length, enum_from_length. apply gemm_row_length; auto. Qed.
Lemma nth_enum {A} (l : list A) d : forall i k, i < length l -> nth i (enum_from k l) (0, d) = (k + i, nth i l d).
Proof. induction l as [|x l IH]; intros i k Hi; cbn in *; [lia|]. destruct i; cbn; [f_equal; lia|]. rewrite IH by lia. f_equal. lia. Qed.
Lemma user_row_nth fdist items norms fi fq u q c : norms_ok items norms -> c < length items ->
  nth c (user_row fdist items norms fi fq u q) nzero = if hidden fi fq u c then fdist else nth c (gemm_row items norms q) nzero.
Proof.
  intros HN HC. unfold user_row. set (f := fun p : nat * T => _).
  rewrite (nth_indep _ nzero (f (0, nzero))) by (rewrite map_length; unfold enum; rewrite enum_from_length, gemm_row_length; auto).
  rewrite map_nth. unfold enum. rewrite nth_enum by (rewrite gemm_row_length; auto). reflexivity.
Qed.

Lemma nth_fold_upd (v : T) is_ row j d : j < length row ->
  nth j (fold_left (fun r i => upd i v r) is_ row) d = if existsb (Nat.eqb j) is_ then v else nth j row d.
Proof.
  intros Hj. rewrite fold_upd_nth by auto. reflexivity.
Qed.
Lemma div_unique_nat r c r' c' n : c < n -> c' < n -> r * n + c = r' * n + c' -> r = r' /\ c = c'.
Proof. intros. assert (r = r') by nia. subst. split; auto; lia. Qed.

Lemma fold_upd_len (v : T) is_ row : length (fold_left (fun r i => upd i v r) is_ row) = length row.
Proof. revert row; induction is_; intros; cbn; auto. rewrite IHis_, upd_length. auto. Qed.

Lemma batch_scores_ok fdist cap items batch norms fi fq start : norms_ok items norms -> filters_ok (length items) fi fq ->
  (Z.of_nat (length batch) * Z.of_nat (length items) <= cap <= 2 ^ 31)%Z ->
  batch_scores fdist cap items batch norms fi fq start =
    Ok (concat (map (fun p => user_row fdist items norms fi fq (start + fst p) (snd p)) (enum batch))).
Proof.
  intros HN [HFI HFQ] HC. unfold batch_scores. set (mem0 := concat (map (gemm_row items norms) batch)).
  assert (F0 : Forall (fun r => length r = length items) (map (gemm_row items norms) batch)).
  { apply Forall_forall. intros r Hr. apply in_map_iff in Hr. destruct Hr as [q [<- _]]. apply gemm_row_length; auto. }
  set (c1 := match fi with None => [] | Some ids => item_filter_cells (length items) (length batch) ids end).
  set (c2 := match fq with None => [] | Some coo => query_filter_cells (length items) start (start + length batch) coo end).
  assert (B1 : forall z, In z c1 -> (0 <= z < cap)%Z).
  { intros z Hz. unfold c1 in Hz. destruct fi as [ids|]; [|destruct Hz]. apply item_cells_in in Hz. destruct Hz as [r [id [Hr [Hid ->]]]]. specialize (HFI ids id eq_refl Hid). nia. }
  assert (B2 : forall z, In z c2 -> (0 <= z < cap)%Z).
  { intros z Hz. unfold c2 in Hz. destruct fq as [coo|]; [|destruct Hz]. apply query_cells_in in Hz. destruct Hz as [r [c [Hr [Hin ->]]]]. specialize (HFQ coo (r, c) eq_refl Hin). cbn in HFQ. nia. }
  transitivity (do mem <- fold_res (poke cap fdist) c1 mem0; fold_res (poke cap fdist) c2 mem).
  { unfold c1, c2. destruct fi, fq; cbn [fold_res bind]; auto; destruct (fold_res _ _ mem0); auto. }
  rewrite fold_poke by (auto; lia). cbn [bind]. rewrite fold_poke by (auto; lia). f_equal.
  set (rows' := map (fun p => user_row fdist items norms fi fq (start + fst p) (snd p)) (enum batch)).
  assert (F1 : Forall (fun r => length r = length items) rows').
  { apply Forall_forall. intros r Hr. apply in_map_iff in Hr. destruct Hr as [q [<- _]]. apply user_row_length; auto. }
  assert (L0 : length mem0 = length batch * length items) by (unfold mem0; rewrite (concat_uniform_length _ _ F0), map_length; auto).
  apply list_ext with (d := nzero).
  { rewrite !fold_upd_len, L0, (concat_uniform_length _ _ F1). unfold rows', enum. rewrite map_length, enum_from_length. auto. }
  intros i Hi. rewrite !fold_upd_len, L0 in Hi. assert (NI : length items <> 0) by nia.
  set (r := i / length items). set (c := i mod length items).
  assert (Ei : i = r * length items + c) by (unfold r, c; rewrite Nat.mul_comm; apply Nat.div_mod; auto).
  assert (Hc : c < length items) by (unfold c; apply Nat.mod_upper_bound; auto).
  assert (Hr : r < length batch) by (unfold r; apply Nat.div_lt_upper_bound; lia).
  rewrite nth_fold_upd by (rewrite fold_upd_len, L0; auto). rewrite nth_fold_upd by (rewrite L0; auto).
  rewrite Ei. rewrite (nth_concat_uniform nzero rows' _ F1) by (auto; unfold rows', enum; rewrite map_length, enum_from_length; auto).
  unfold mem0. rewrite (nth_concat_uniform nzero _ _ F0) by (auto; rewrite map_length; auto).
  set (f := fun p : nat * list T => user_row fdist items norms fi fq (start + fst p) (snd p)) in *.
  assert (ER : nth r rows' [] = f (r, nth r batch [])).
  { unfold rows'. rewrite (nth_indep _ [] (f (0, []))) by (rewrite map_length; unfold enum; rewrite enum_from_length; auto). rewrite map_nth. unfold enum. rewrite nth_enum by auto. reflexivity. }
  rewrite ER. unfold f. cbn [fst snd]. rewrite user_row_nth by auto.
  rewrite (nth_indep _ [] (gemm_row items norms [])) by (rewrite map_length; auto). rewrite map_nth.
  assert (H1 : existsb (Nat.eqb (r * length items + c)) (map Z.to_nat c1) = match fi with None => false | Some ids => memz (Z.of_nat c) ids end).
  { apply eq_true_iff_eq. rewrite existsb_exists. split.
    - intros [x [Hx Ex]]. apply Nat.eqb_eq in Ex. subst x. apply in_map_iff in Hx. destruct Hx as [z [Ez Hz]]. unfold c1 in Hz. destruct fi as [ids|]; [|destruct Hz].
      apply item_cells_in in Hz. destruct Hz as [r' [id [Hr' [Hid ->]]]]. specialize (HFI ids id eq_refl Hid).
      apply memz_spec. replace (Z.of_nat c) with id; auto.
      assert (E2 : r' * length items + Z.to_nat id = r * length items + c) by nia.
      apply div_unique_nat in E2; auto; lia.
    - intros Hm. unfold c1. destruct fi as [ids|]; [|discriminate Hm]. exists (r * length items + c). split; [|apply Nat.eqb_refl].
      apply in_map_iff. exists (Z.of_nat r * Z.of_nat (length items) + Z.of_nat c)%Z. split; [lia|]. apply item_cells_in. exists r, (Z.of_nat c). split; auto. split; auto. apply memz_spec; auto. }
  assert (H2 : existsb (Nat.eqb (r * length items + c)) (map Z.to_nat c2) = match fq with None => false | Some coo => existsb (fun p => (fst p =? start + r) && (snd p =? c)) coo end).
  { apply eq_true_iff_eq. rewrite existsb_exists. split.
    - intros [x [Hx Ex]]. apply Nat.eqb_eq in Ex. subst x. apply in_map_iff in Hx. destruct Hx as [z [Ez Hz]]. unfold c2 in Hz. destruct fq as [coo|]; [|destruct Hz].
      apply query_cells_in in Hz. destruct Hz as [r' [c' [Hr' [Hin ->]]]]. specialize (HFQ coo (r', c') eq_refl Hin). cbn in HFQ.
      assert (E2 : (r' - start) * length items + c' = r * length items + c) by nia. apply div_unique_nat in E2; auto. destruct E2 as [E2 ->].
      apply existsb_exists. exists (r', c). split; auto. cbn. apply andb_true_iff. split; apply Nat.eqb_eq; lia.
    - intros Hm. unfold c2. destruct fq as [coo|]; [|discriminate Hm]. apply existsb_exists in Hm. destruct Hm as [[r' c'] [Hin Hm]]. cbn in Hm. apply andb_true_iff in Hm. destruct Hm as [M1 M2]. apply Nat.eqb_eq in M1, M2. subst r' c'.
      exists (r * length items + c). split; [|apply Nat.eqb_refl]. apply in_map_iff. exists (Z.of_nat (start + r - start) * Z.of_nat (length items) + Z.of_nat c)%Z. split; [lia|].
      apply query_cells_in. exists (start + r), c. repeat split; auto; lia. }
  rewrite H1, H2. unfold hidden. destruct (match fi with None => false | Some ids => memz (Z.of_nat c) ids end), (match fq with None => false | Some coo => existsb _ coo end); reflexivity.
Qed.

(* ------------------------------------------------------------ stores *)
(** What select_k has to return. *)
Definition select_k_ok (sel : select_k T) : Prop := forall row k, k <= length row ->
  TopN (fun i => nth i row nzero) (seq 0 (length row)) k (map fst (sel row k)) (map snd (sel row k)).
Lemma sel_length sel row k : select_k_ok sel -> k <= length row -> length (sel row k) = k.
Proof. intros HS HK. pose proof (topn_length _ _ _ _ _ (HS row k HK)) as L. rewrite map_length in L. auto. Qed.

Lemma store_from_length best : forall i base (out : cells T), length (fold_left (fun o p => upd (base + fst p) (Some (snd p)) o) (enum_from i best) out) = length out.
Proof. induction best as [|x best IH]; intros i base out; cbn [enum_from fold_left]; auto. rewrite IH, upd_length. auto. Qed.
Lemma store_from best d : forall i base (out : cells T) c, c < length out ->
  nth c (fold_left (fun o p => upd (base + fst p) (Some (snd p)) o) (enum_from i best) out) None =
  if (base + i <=? c) && (c <? base + i + length best) then Some (nth (c - (base + i)) best d) else nth c out None.
Proof.
  induction best as [|x best IH]; intros i base out c Hc; cbn [enum_from fold_left length].
  { destruct (base + i <=? c) eqn:E1, (c <? base + i + 0) eqn:E2; cbn [andb]; auto. apply Nat.leb_le in E1. apply Nat.ltb_lt in E2. lia. }
  rewrite IH by (rewrite upd_length; auto). cbn [fst snd]. rewrite nth_upd. replace (base + S i) with (S (base + i)) by lia.
  destruct (Nat.leb_spec (S (base + i)) c), (Nat.ltb_spec c (S (base + i) + length best)), (Nat.leb_spec (base + i) c), (Nat.ltb_spec c (base + i + S (length best))),
    (Nat.eqb_spec (base + i) c); cbn [andb]; try lia; auto.
  - replace (c - (base + i)) with (S (c - S (base + i))) by lia. reflexivity.
  - replace (base + i <? length out) with true by (symmetry; apply Nat.ltb_lt; lia). replace (c - (base + i)) with 0 by lia. reflexivity.
Qed.
Lemma store_row_length base best (out : cells T) : length (store_row base best out) = length out.
Proof. apply store_from_length. Qed.
Lemma store_row_nth base best d (out : cells T) c : c < length out ->
  nth c (store_row base best out) None = if (base <=? c) && (c <? base + length best) then Some (nth (c - base) best d) else nth c out None.
Proof. intros Hc. unfold store_row, enum. rewrite (store_from best d) by auto. rewrite Nat.add_0_r. auto. Qed.

Section Fill.
Variables (rows k : nat) (F : nat -> list (nat * T)).
Hypothesis FL : forall u, u < rows -> length (F u) = k.
Definition filled (n : nat) (out : cells T) : Prop := length out = rows * k /\
  forall u j, u < n -> j < k -> nth (u * k + j) out None = Some (nth j (F u) (0, nzero)).
Lemma store_rows start n out : start + n <= rows -> filled start out ->
  filled (start + n) (fold_left (fun o r => store_row (start * k + r * k) (F (start + r)) o) (seq 0 n) out).
Proof.
  intros HN HF. enough (G : forall m j out, start + j + m <= rows -> filled (start + j) out ->
    filled (start + j + m) (fold_left (fun o r => store_row (start * k + r * k) (F (start + r)) o) (seq j m) out)).
  { specialize (G n 0 out). rewrite Nat.add_0_r in G. apply G; auto. }
  clear n out HN HF. induction m as [|m IH]; intros j out HN HF; cbn [seq fold_left]; [rewrite Nat.add_0_r; auto|].
  replace (start + j + S m) with (start + S j + m) by lia. apply IH; [lia|]. destruct HF as [HL HF]. split; [rewrite store_row_length; auto|].
  intros u i Hu Hi. rewrite (store_row_nth _ _ (0, nzero)) by (rewrite HL; nia). rewrite FL by lia.
  replace (start * k + j * k) with ((start + j) * k) by nia.
  destruct (Nat.leb_spec ((start + j) * k) (u * k + i)) as [A|A], (Nat.ltb_spec (u * k + i) ((start + j) * k + k)) as [B|B]; cbn [andb].
  - assert (u = start + j) by nia. subst u. do 2 f_equal. lia.
  - exfalso. nia.
  - apply HF; [nia|auto].
  - apply HF; [nia|auto].
Qed.
End Fill.

Lemma topk_impl_ok sel fdist pool items query k norms fq fi b :
  select_k_ok sel -> norms_ok items norms -> filters_ok (length items) fi fq -> 0 < k <= length items ->
  fits (Z.of_nat (length query)) (Z.of_nat k) (Z.of_nat (length items)) -> (0 <= pool <= four_gib)%Z ->
  plan pool 4 (Z.of_nat (length query)) (Z.of_nat k) (Z.of_nat (length items)) = Ok b ->
  exists out, topk_impl sel fdist pool 4 items query k norms fq fi = Ok out /\
    filled (length query) k (fun u => sel (user_row fdist items norms fi fq u (nth u query [])) k) (length query) out.
Proof.
  intros HS HN HF HK HFit HP HPl. pose proof (plan_ok _ _ _ _ _ HFit HP HPl) as (B1 & B2 & B3).
  unfold topk_impl. rewrite HPl. cbn [bind]. set (rows := length query) in *. set (bs := Z.to_nat b).
  set (F := fun u => sel (user_row fdist items norms fi fq u (nth u query [])) k).
  assert (FL : forall u, u < rows -> length (F u) = k).
  { intros u Hu. unfold F. apply sel_length; auto. rewrite user_row_length; auto. lia. }
  assert (HB : 0 < bs) by (unfold bs; lia).
  unfold batch_starts. set (nb := (rows + bs - 1) / bs).
  set (step := fun (out : cells T) (start : nat) => _).
  enough (G : forall n j out, j + n = nb -> filled rows k F (Nat.min rows (j * bs)) out ->
    exists out', fold_res step (map (fun b0 => b0 * bs) (seq j n)) out = Ok out' /\ filled rows k F (Nat.min rows (nb * bs)) out').
  { destruct (G nb 0 (repeat None (rows * k))) as [out' [E FF]]; [lia| |].
    { split; [apply repeat_length|]. intros u j Hu. rewrite Nat.mul_0_l in Hu. lia. }
    exists out'. split; [exact E|]. replace (Nat.min rows (nb * bs)) with rows in FF; auto. symmetry. apply Nat.min_l.
    unfold nb. pose proof (Nat.div_mod (rows + bs - 1) bs ltac:(lia)). pose proof (Nat.mod_upper_bound (rows + bs - 1) bs ltac:(lia)). nia. }
  induction n as [|n IH]; intros j out HJ HFill.
  { exists out. split; auto. replace nb with j by lia. auto. }
  cbn [seq map fold_res].
  destruct (batch_starts_spec rows bs HB (j * bs)) as [S1 S2].
  { unfold batch_starts. apply in_map_iff. exists j. split; auto. apply in_seq. fold nb. lia. }
  rewrite Nat.min_r in HFill by lia.
  assert (LS : length (slice (j * bs) (Nat.min rows (j * bs + bs)) query) = Nat.min rows (j * bs + bs) - j * bs) by (apply slice_length; fold rows; lia).
  assert (ST : step out (j * bs) = Ok (fold_left (fun o r => store_row (j * bs * k + r * k) (F (j * bs + r)) o) (seq 0 (Nat.min rows (j * bs + bs) - j * bs)) out)).
  { unfold step. rewrite batch_scores_ok; auto.
    2:{ rewrite LS. unfold four_gib in *. split; [|lia]. unfold bs. nia. }
    cbn [bind]. unfold store_batch. rewrite int32_ok.
    2:{ destruct B3 as [B3|B3]; [rewrite S2 by (unfold bs; lia); lia|]. unfold four_gib in B3. fold rows in B3. nia. }
    cbn [bind]. f_equal. rewrite (Nat.min_l k (length items)) by lia.
    set (rows' := map _ (enum (slice (j * bs) (Nat.min rows (j * bs + bs)) query))).
    assert (F1 : Forall (fun r => length r = length items) rows').
    { apply Forall_forall. intros r Hr. apply in_map_iff in Hr. destruct Hr as [q [<- _]]. apply user_row_length; auto. }
    assert (LR : length rows' = Nat.min rows (j * bs + bs) - j * bs) by (unfold rows', enum; rewrite map_length, enum_from_length; auto).
    assert (X : forall l o, (forall r, In r l -> r < Nat.min rows (j * bs + bs) - j * bs) ->
      fold_left (fun o r => store_row (Z.to_nat (Z.of_nat (j * bs) * Z.of_nat k) + r * k) (sel (slice (r * length items) (r * length items + length items) (concat rows')) k) o) l o =
      fold_left (fun o r => store_row (j * bs * k + r * k) (F (j * bs + r)) o) l o).
    { induction l as [|r l IHl]; intros o Hl; cbn [fold_left]; auto. rewrite IHl by (intros; apply Hl; simpl; auto). f_equal.
      assert (Hr : r < Nat.min rows (j * bs + bs) - j * bs) by (apply Hl; simpl; auto).
      rewrite <- Nat2Z.inj_mul, Nat2Z.id. f_equal. rewrite slice_concat_uniform by (auto; lia).
      unfold F. f_equal. unfold rows'. set (f := fun p : nat * list T => _). rewrite (nth_indep _ [] (f (0, []))) by (rewrite map_length; unfold enum; rewrite enum_from_length; lia).
      rewrite map_nth. unfold enum. rewrite nth_enum by lia. unfold f. cbn [fst snd]. rewrite Nat.add_0_l. f_equal. rewrite nth_slice by lia. auto. }
    apply X. intros r Hr. apply in_seq in Hr. lia. }
  rewrite ST. cbn [bind]. apply IH; [lia|]. replace (Nat.min rows (S j * bs)) with (j * bs + (Nat.min rows (j * bs + bs) - j * bs)) by lia.
  apply store_rows; auto. lia.
Qed.

Lemma knn_topk_ok sel fdist junk pool (items query : gmatrix T) k norms fq fi b :
  select_k_ok sel -> norms_ok (g_rows items) norms -> filters_ok (length (g_rows items)) fi fq -> (0 < k <= Z.of_nat (length (g_rows items)))%Z ->
  g_cols query = g_cols items -> g_size query = 4%Z -> g_size items = 4%Z ->
  fits (Z.of_nat (length (g_rows query))) k (Z.of_nat (length (g_rows items))) -> (0 <= pool <= four_gib)%Z ->
  plan pool 4 (Z.of_nat (length (g_rows query))) k (Z.of_nat (length (g_rows items))) = Ok b ->
  let best := map (fun u => sel (user_row fdist (g_rows items) norms fi fq u (nth u (g_rows query) [])) (Z.to_nat k)) (seq 0 (length (g_rows query))) in
  knn_topk sel fdist junk pool items query k norms fq fi = Ok (map (map (fun p => Z.of_nat (fst p))) best, map (map snd) best).
Proof.
  intros HS HN HF HK HC HQ HI HFit HP HPl best. unfold knn_topk.
  replace ((k <? 0)%Z) with false by (symmetry; apply Z.ltb_ge; lia). replace ((k =? 0)%Z) with false by (symmetry; apply Z.eqb_neq; lia).
  rewrite HC, Nat.eqb_refl, HQ, HI. cbn [Z.eqb Pos.eqb negb].
  destruct (topk_impl_ok sel fdist pool (g_rows items) (g_rows query) (Z.to_nat k) norms fq fi b) as [out [E [HL HFill]]]; auto; rewrite ?Z2Nat.id by lia; auto.
  { lia. }
  rewrite E. cbn [bind]. set (K := Z.to_nat k) in *.
  set (f := fun p : nat * option (nat * T) => match snd p with Some (i, x) => (Z.of_nat i, x) | None => junk (fst p) end).
  assert (R : map (fun r => slice (r * K) (r * K + K) (map f (enum out))) (seq 0 (length (g_rows query))) = map (map (fun p => (Z.of_nat (fst p), snd p))) best).
  { unfold best. rewrite map_map. apply map_ext_in. intros u Hu. apply in_seq in Hu. destruct Hu as [_ Hu]. cbn in Hu.
    assert (LB : length (sel (user_row fdist (g_rows items) norms fi fq u (nth u (g_rows query) [])) K) = K) by (apply sel_length; auto; rewrite user_row_length; auto; lia).
    assert (LF : length (map f (enum out)) = length (g_rows query) * K) by (rewrite map_length; unfold enum; rewrite enum_from_length; auto).
    apply list_ext with (d := (0%Z, nzero)).
    - rewrite slice_length by (rewrite LF; nia). rewrite map_length, LB. lia.
    - intros j Hj. rewrite slice_length in Hj by (rewrite LF; nia). rewrite nth_slice by lia.
      rewrite (nth_indep _ (0%Z, nzero) (f (0, None))) by (rewrite LF; nia). rewrite map_nth. unfold enum. rewrite nth_enum by nia.
      unfold f. cbn [fst snd]. rewrite HFill by lia.
      change (0%Z, nzero) with ((fun p : nat * T => (Z.of_nat (fst p), snd p)) (0, nzero)). rewrite map_nth. destruct (nth j _ _). reflexivity. }
  rewrite R. rewrite !map_map. f_equal. f_equal; apply map_ext; intros l; rewrite map_map; reflexivity.
Qed.
End Proofs.
