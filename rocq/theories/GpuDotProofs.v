(** Lemmas: the warp reduction sums its lanes. *)
From Coq Require Import List Arith Lia Bool ZArith Reals Lra.
From Verif Require Import Base Num RVec ThreadProg GpuDot.
Import ListNotations.

(* ------------------------------------------------------- a single warp *)
Lemma warp32 undef (v : list R) : length v = 32 -> lane0 (warp_reduce_sum undef v) = rsum v.
Proof.
  intros L. do 32 (destruct v as [|? v]; [discriminate L|]). destruct v; [|discriminate L]. clear L.
  cbn. ring.
Qed.
Lemma warp_partial (v : list R) : length v <= 32 -> lane0 (warp_reduce_sum (fun _ _ => 0%R) v) = rsum v.
Proof.
  intros L. do 32 (destruct v as [|? v]; [cbn; try ring; try reflexivity|]). destruct v; [|simpl in L; lia]. clear L.
  cbn. ring.
Qed.

Lemma skipn_add {A} c d (l : list A) : skipn c (skipn d l) = skipn (c + d) l.
Proof. revert l; induction d; intros l. { rewrite Nat.add_0_r. auto. } replace (c + S d) with (S (c + d)) by lia. destruct l; cbn [skipn]; auto. destruct c; auto. Qed.
Lemma rsum_chunks c m : forall (l : list R) k, length l <= k * c + m * c ->
  rsum (map (fun w => rsum (slice (w * c) (w * c + c) l)) (seq k m)) = rsum (skipn (k * c) l).
Proof.
  induction m as [|m IH]; intros l k HL; cbn [seq map rsum].
  - rewrite skipn_all2 by lia. reflexivity.
  - rewrite IH by lia. unfold slice. replace (k * c + c - k * c) with c by lia.
    replace (S k * c) with (c + k * c) by lia. rewrite <- skipn_add.
    rewrite <- rsum_app. rewrite firstn_skipn. reflexivity.
Qed.
Lemma rsum_pad (l : list R) : forall n k, rsum (map (fun i => if i <? k + length l then nth (i - k) l 0%R else 0%R) (seq k (length l + n))) = rsum l.
Proof.
  induction l as [|x l IH]; intros n k; cbn [length Nat.add].
  - cbn [rsum]. revert k. induction n as [|n IH]; intros k; cbn [seq map rsum]; auto.
    replace (k <? k + 0) with false by (symmetry; apply Nat.ltb_ge; lia). specialize (IH (S k)).
    replace (map (fun i => if i <? k + 0 then nth (i - k) [] 0%R else 0%R) (seq (S k) n)) with (map (fun i => if i <? S k + 0 then nth (i - S k) [] 0%R else 0%R) (seq (S k) n)).
    + rewrite IH. lra.
    + apply map_ext_in. intros a Ha. apply in_seq in Ha. replace (a <? S k + 0) with false by (symmetry; apply Nat.ltb_ge; lia). replace (a <? k + 0) with false by (symmetry; apply Nat.ltb_ge; lia). auto.
  - cbn [seq map rsum]. replace (k <? k + S (length l)) with true by (symmetry; apply Nat.ltb_lt; lia). rewrite Nat.sub_diag. cbn [nth].
    f_equal. rewrite <- (IH n (S k)). f_equal. apply map_ext_in. intros a Ha. apply in_seq in Ha.
    replace (k + S (length l)) with (S k + length l) by lia. destruct (a <? S k + length l); auto.
    replace (a - k) with (S (a - S k)) by lia. reflexivity.
Qed.
Lemma second_level_sum undef (shared : list R) : length shared <= 32 -> second_level undef shared = rsum shared.
Proof.
  intros L. unfold second_level. rewrite warp32 by (rewrite map_length, seq_length; reflexivity).
  transitivity (rsum (map (fun i => if i <? 0 + length shared then nth (i - 0) shared 0%R else 0%R) (seq 0 (length shared + (32 - length shared))))); [|apply (rsum_pad shared (32 - length shared) 0)].
  f_equal. replace (length shared + (32 - length shared)) with warp_size by (unfold warp_size; lia).
  apply map_ext. intros a. rewrite Nat.sub_0_r. reflexivity.
Qed.
Lemma num_warps_mul m : num_warps (m * 32) = m.
Proof. unfold num_warps, warp_size. replace (m * 32 + 32 - 1) with (31 + m * 32) by lia. rewrite Nat.div_add by lia. reflexivity. Qed.
Lemma num_warps_cover n : n <= num_warps n * 32 /\ (0 < n -> (num_warps n - 1) * 32 < n).
Proof.
  unfold num_warps, warp_size. pose proof (Nat.div_mod (n + 32 - 1) 32 ltac:(lia)) as D. pose proof (Nat.mod_upper_bound (n + 32 - 1) 32 ltac:(lia)). lia.
Qed.

(** If every warp's first level sums its lanes, the block sums all. *)
Lemma block_sum undef (prods : list R) : 0 < length prods -> length prods <= 1024 ->
  (forall w, w < num_warps (length prods) -> lane0 (warp_reduce_sum (undef w) (slice (w * 32) (w * 32 + 32) prods)) = rsum (slice (w * 32) (w * 32 + 32) prods)) ->
  block_dot undef prods = rsum prods.
Proof.
  intros P0 P1 HW. destruct (num_warps_cover (length prods)) as [N1 N2]. specialize (N2 P0).
  unfold block_dot.
  set (sh := map _ (seq 0 (num_warps (length prods)))).
  assert (ES : rsum sh = rsum prods).
  { unfold sh. transitivity (rsum (map (fun w => rsum (slice (w * 32) (w * 32 + 32) prods)) (seq 0 (num_warps (length prods))))).
    - f_equal. apply map_ext_in. intros w Hw. apply in_seq in Hw. apply HW. lia.
    - rewrite rsum_chunks by lia. reflexivity. }
  assert (EL : length sh = num_warps (length prods)) by (unfold sh; rewrite map_length, seq_length; auto).
  destruct (length prods <=? warp_size) eqn:E.
  - apply Nat.leb_le in E. unfold warp_size in E.
    assert (N : num_warps (length prods) = 1) by lia. rewrite N in EL. destruct sh as [|x [|y sh]]; try discriminate EL.
    cbn [nth]. rewrite <- ES. cbn [rsum]. lra.
  - rewrite second_level_sum; [exact ES|]. rewrite EL. lia.
Qed.
Lemma slice_length {A} s e (l : list A) : length (slice s e l) = Nat.min (e - s) (length l - s).
Proof. unfold slice. rewrite firstn_length, skipn_length. reflexivity. Qed.
