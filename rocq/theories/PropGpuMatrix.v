(** C113-C116: matrices on the GPU as containers. *)
From Coq Require Import List Arith Lia Bool ZArith.
From Verif Require Import Base Num GpuMatrix.
Import ListNotations.

(* ------------------------------------------------------------------ facts about windows *)
Section Facts.
Context {T : Type} {NT : Num T}.
Local Notation mat := (list (list T)).
Lemma slice_len {A} s n (l : list A) : s + n <= length l -> length (slice s (s + n) l) = n.
Proof. intros B. unfold slice. rewrite firstn_length, skipn_length. lia. Qed.
Lemma nth_skipn' {A} n i (l : list A) x : nth i (skipn n l) x = nth (n + i) l x.
Proof. revert l. induction n as [|n IH]; destruct l as [|a l]; simpl; auto; destruct i; auto. Qed.
Lemma nth_firstn' {A} n i (l : list A) x : i < n -> nth i (firstn n l) x = nth i l x.
Proof. revert i l. induction n as [|n IH]; intros i l L; [lia|]. destruct l; simpl; auto. destruct i; auto. apply IH. lia. Qed.
Lemma slice_nth {A} s n i (l : list A) x : i < n -> nth i (slice s (s + n) l) x = nth (s + i) l x.
Proof. intros L. unfold slice. rewrite nth_firstn' by lia. apply nth_skipn'. Qed.
Lemma slice_slice {A} a n s m (l : list A) : s + m <= n -> slice s (s + m) (slice a (a + n) l) = slice (a + s) (a + s + m) l.
Proof.
  intros L. unfold slice. replace (s + m - s) with m by lia. replace (a + n - a) with n by lia. replace (a + s + m - (a + s)) with m by lia.
  rewrite skipn_firstn_comm, firstn_firstn. replace (Nat.min m (n - s)) with m by lia. f_equal.
  revert l. induction a as [|a IH]; intros l; [reflexivity|]. destruct l; [destruct s; reflexivity|]. cbn [skipn Nat.add]. apply IH.
Qed.
Lemma seq_map_nth {A} (l : list A) x : map (fun j => nth j l x) (seq 0 (length l)) = l.
Proof. induction l as [|a l IH]; auto. cbn [length seq map nth]. f_equal. rewrite <- seq_shift, map_map. exact IH. Qed.
Lemma nth_map_seq {A} (f : nat -> A) n r x : r < n -> nth r (map f (seq 0 n)) x = f r.
Proof.
  intros L. rewrite (nth_indep (map f (seq 0 n)) x (f 0)) by (rewrite map_length, seq_length; auto). rewrite map_nth, seq_nth by auto. auto.
Qed.
Lemma window_inv (d : dev T) m (v : mat) : window d m = Ok v -> exists b, nth_error d (d_buf m) = Some (Some b) /\ d_off m + d_rows m * d_cols m <= length b /\
  v = map (fun i => @slice T (d_off m + i * d_cols m) (d_off m + i * d_cols m + d_cols m) b) (seq 0 (d_rows m)).
Proof.
  unfold window, buffer. destruct (nth_error d (d_buf m)) as [[b|]|] eqn:EN; try discriminate. cbn [bind].
  destruct (Nat.leb_spec (d_off m + d_rows m * d_cols m) (length b)); [|discriminate]. intros E. injection E as <-. exists b. auto.
Qed.
Lemma window_shape (d : dev T) m (v : mat) : window d m = Ok v -> length v = d_rows m /\ forall r, In r v -> length r = d_cols m.
Proof.
  intros E. apply window_inv in E. destruct E as (b & _ & L & ->). split; [rewrite map_length, seq_length; auto|].
  intros r Hr. apply in_map_iff in Hr. destruct Hr as (i & <- & Hi). apply in_seq in Hi. apply slice_len. nia.
Qed.
(** Matrices in other buffers keep their contents. *)
Lemma window_alloc (d : dev T) (l : list T) m (v : mat) : window d m = Ok v -> window (d ++ [Some l]) m = Ok v.
Proof.
  intros E. unfold window, buffer in *. destruct (nth_error d (d_buf m)) as [[b|]|] eqn:EN; try discriminate.
  rewrite nth_error_app1, EN; auto. apply nth_error_Some. congruence.
Qed.
Lemma window_upd (d : dev T) b x m : d_buf m <> b -> window (upd b x d) m = window d m.
Proof.
  intros NE. unfold window, buffer. replace (nth_error (upd b x d) (d_buf m)) with (nth_error d (d_buf m)); auto.
  revert NE. generalize (d_buf m). revert b. induction d as [|a d IH]; intros [|b] [|n] NE; simpl; auto; try lia.
Qed.
Lemma window_new (d : dev T) (l : list T) rows cols size : length l = rows * cols ->
  window (d ++ [Some l]) {| d_buf := length d; d_off := 0; d_rows := rows; d_cols := cols; d_size := size |} =
  Ok (map (fun i => slice (i * cols) (i * cols + cols) l) (seq 0 rows)).
Proof.
  intros L. unfold window, buffer. cbn [d_buf d_off d_rows d_cols]. rewrite nth_error_app2, Nat.sub_diag by lia. cbn [nth_error bind].
  rewrite L. rewrite (proj2 (Nat.leb_le _ _)) by lia. reflexivity.
Qed.
Lemma concat_len (v : mat) c : (forall r, In r v -> length r = c) -> length (concat v) = length v * c.
Proof. induction v as [|r v IH]; intros C; auto. cbn [concat length]. rewrite app_length, IH by (intros; apply C; right; auto). rewrite (C r) by (left; auto). auto. Qed.
Lemma slice_app_l {A} s e (l l' : list A) : e <= length l -> slice s e (l ++ l') = slice s e l.
Proof.
  intros L. unfold slice. rewrite skipn_app, firstn_app. rewrite skipn_length. replace (e - s - (length l - s)) with 0 by lia. rewrite firstn_O, app_nil_r. auto.
Qed.
Lemma concat_rows (v : mat) c l : (forall r, In r v -> length r = c) -> map (fun i => slice (i * c) (i * c + c) (concat v ++ l)) (seq 0 (length v)) = v.
Proof.
  intros C. rewrite map_ext_in with (g := fun i => nth i v []).
  - apply seq_map_nth.
  - intros i Hi. apply in_seq in Hi. destruct Hi as [_ Hi]. cbn in Hi. revert i Hi. induction v as [|r v IH]; intros i Hi; [cbn in Hi; lia|].
    assert (Lr : length r = c) by (apply C; left; auto). cbn [concat]. destruct i as [|i].
    + cbn [Nat.mul Nat.add nth]. unfold slice. rewrite Nat.sub_0_r. cbn [skipn]. rewrite <- app_assoc, firstn_app, firstn_all2 by lia. rewrite Lr, Nat.sub_diag, firstn_O, app_nil_r. auto.
    + cbn [nth]. rewrite <- (IH (fun r Hr => C r (or_intror Hr)) i) by (cbn in Hi; lia). rewrite <- app_assoc. unfold slice. rewrite skipn_app.
      rewrite (skipn_all2 r) by (cbn; lia). rewrite Lr. cbn [app Nat.mul]. replace (c + i * c - c) with (i * c) by lia. f_equal. lia.
Qed.
Lemma to_numpy_window (d : dev T) m (v : mat) : to_numpy d m = Ok v -> window d m = Ok v /\ (d_size m = 4 \/ d_size m = 2) /\ 0 < d_rows m * d_cols m.
Proof.
  unfold to_numpy. destruct (Nat.eqb_spec (d_size m) 4), (Nat.eqb_spec (d_size m) 2); cbn [orb negb]; try discriminate;
  (destruct (Nat.eqb_spec (d_rows m * d_cols m) 0); [discriminate|]); intros E; repeat split; auto; lia.
Qed.
Lemma to_numpy_ok (d : dev T) m (v : mat) : window d m = Ok v -> (d_size m = 4 \/ d_size m = 2) -> 0 < d_rows m * d_cols m -> to_numpy d m = Ok v.
Proof. intros E [S|S] P; unfold to_numpy; rewrite S; cbn [orb negb Nat.eqb]; (destruct (Nat.eqb_spec (d_rows m * d_cols m) 0); [lia|]); auto. Qed.
End Facts.

(* ------------------------------------------------------------------ C113 *)
(** The rows of a numpy array. *)
Definition harr_rows {T} `{Num T} (a : harr T) : list (list T) :=
  map (fun i => map (fun j => nth (Z.to_nat (h_off a + Z.of_nat i * h_s0 a + Z.of_nat j * h_s1 a)) (h_mem a) nzero) (seq 0 (h_cols a))) (seq 0 (h_rows a)).
(** Every element lies in the memory of the array. *)
Definition harr_ok {T} (a : harr T) : Prop := forall i j, i < h_rows a -> j < h_cols a ->
  (0 <= h_off a + Z.of_nat i * h_s0 a + Z.of_nat j * h_s1 a < Z.of_nat (length (h_mem a)))%Z.
(** Row after row without gaps. *)
Definition c_contiguous {T} (a : harr T) : Prop := h_s1 a = 1%Z /\ (h_s0 a = Z.of_nat (h_cols a) \/ h_rows a = 1).
Theorem C113_partial : forall T (NT : Num T) (d : dev T) (a : harr T),
  harr_ok a -> c_contiguous a -> h_dt a <> OtherDtype -> 0 < h_rows a -> 0 < h_cols a ->
  exists d' m, upload d a = (d', Ok m) /\ to_numpy d' m = Ok (harr_rows a) /\
    forall m' v, to_numpy d m' = Ok v -> to_numpy d' m' = Ok v.
Proof.
  intros T NT d a OK [S1 S0] DT PR PC. unfold upload.
  assert (SZ : exists size, item_size (h_dt a) = Ok size /\ (size = 4 \/ size = 2)) by (destruct (h_dt a); [exists 4|exists 2|]; cbn; auto; congruence).
  destruct SZ as (size & -> & SZ). destruct (Nat.eqb_spec (h_rows a * h_cols a) 0); [nia|].
  set (R := h_rows a) in *. set (C := h_cols a) in *.
  assert (AD : forall i j, i < R -> (h_off a + Z.of_nat i * h_s0 a + Z.of_nat j * h_s1 a = h_off a + Z.of_nat (i * C + j))%Z).
  { intros i j Hi. rewrite S1. destruct S0 as [->|S0]; [fold C; nia|]. assert (i = 0) by lia. subst i. lia. }
  pose proof (OK 0 0 ltac:(lia) ltac:(lia)) as O1. rewrite AD in O1 by lia.
  pose proof (OK (R - 1) (C - 1) ltac:(lia) ltac:(lia)) as O2. rewrite AD in O2 by lia.
  assert (EL : (R - 1) * C + (C - 1) = R * C - 1) by nia. rewrite EL in O2.
  rewrite (proj2 (Z.leb_le 0 (h_off a))) by lia. rewrite (proj2 (Z.leb_le (h_off a + Z.of_nat (R * C)) _)) by nia. cbn [andb].
  unfold alloc. eexists _, _. split; [reflexivity|]. set (l := slice _ _ (h_mem a)).
  assert (Ll : length l = R * C) by (apply slice_len; nia). split.
  - apply to_numpy_ok; [|exact SZ|cbn; nia]. rewrite window_new by exact Ll. f_equal. unfold harr_rows. fold R C. apply map_ext_in. intros i Hi. apply in_seq in Hi.
    unfold l. rewrite slice_slice by nia.
    assert (LS : length (slice (Z.to_nat (h_off a) + i * C) (Z.to_nat (h_off a) + i * C + C) (h_mem a)) = C) by (apply slice_len; nia).
    rewrite <- (seq_map_nth (slice _ _ (h_mem a)) nzero). rewrite LS. apply map_ext_in. intros j Hj. apply in_seq in Hj.
    rewrite slice_nth by lia. rewrite AD by lia. f_equal. lia.
  - intros m' v E. apply to_numpy_window in E. destruct E as (E & S & P). apply to_numpy_ok; auto. apply window_alloc. auto.
Qed.
Print Assumptions C113_partial.
Lemma nth_repeat' {A} (x y : A) n i : i < n -> nth i (repeat x n) y = x.
Proof. revert i. induction n as [|n IH]; intros [|i] L; cbn; auto; try lia. apply IH. lia. Qed.
(** [Matrix.zeros]. *)
Theorem C113_zeros : forall T (NT : Num T) (d : dev T) rows cols, 0 < rows -> 0 < cols ->
  exists d' m, zeros_matrix d rows cols = (d', Ok m) /\ to_numpy d' m = Ok (repeat (repeat nzero cols) rows) /\
    forall m' v, to_numpy d m' = Ok v -> to_numpy d' m' = Ok v.
Proof.
  intros T NT d rows cols PR PC. unfold zeros_matrix. eexists _, _. split; [reflexivity|]. split.
  - apply to_numpy_ok; [|auto|cbn; nia]. rewrite window_new by apply repeat_length. f_equal.
    apply (nth_ext _ _ [] []); [rewrite map_length, seq_length, repeat_length; reflexivity|]. rewrite map_length, seq_length. intros i Hi.
    rewrite (nth_indep _ [] (slice (0 * cols) (0 * cols + cols) (repeat nzero (rows * cols)))) by (rewrite map_length, seq_length; exact Hi).
    rewrite (map_nth (fun i => slice (i * cols) (i * cols + cols) (repeat nzero (rows * cols)))), seq_nth, nth_repeat' by exact Hi. cbn [plus].
    assert (LS : length (slice (i * cols) (i * cols + cols) (repeat nzero (rows * cols))) = cols) by (apply slice_len; rewrite repeat_length; nia).
    apply (nth_ext _ _ nzero nzero); [rewrite LS, repeat_length; reflexivity|]. rewrite LS. intros j Hj. rewrite slice_nth by lia.
    rewrite !nth_repeat. reflexivity.
  - intros m' v E. apply to_numpy_window in E. destruct E as (E & S & P). apply to_numpy_ok; auto. apply window_alloc. auto.
Qed.
Print Assumptions C113_zeros.
(** A transposed array (2 x 2, memory 1 2 3 4) arrives untransposed. *)
Theorem C113_refuted : exists (a : harr Z) m v, harr_ok a /\ h_dt a = F32 /\ 0 < h_rows a /\ 0 < h_cols a /\
  snd (upload [] a) = Ok m /\ to_numpy (fst (upload [] a)) m = Ok v /\ v <> harr_rows a.
Proof.
  exists {| h_mem := [1; 2; 3; 4]%Z; h_off := 0; h_rows := 2; h_cols := 2; h_s0 := 1; h_s1 := 2; h_dt := F32 |}.
  eexists _, _. split.
  { intros i j Hi Hj; cbn [h_rows h_cols h_off h_s0 h_s1 h_mem length] in *; lia. }
  split; [reflexivity|]. split; [cbn; lia|]. split; [cbn; lia|]. split; [reflexivity|]. split; [vm_compute; reflexivity|]. vm_compute. discriminate.
Qed.
Print Assumptions C113_refuted.
(** A reversed array ([x[::-1]]) makes the copy run past the end of the memory. *)
Theorem C113_bounds_refuted : exists a : harr Z, harr_ok a /\ h_dt a = F32 /\ 0 < h_rows a /\ 0 < h_cols a /\ snd (upload [] a) = Raise UB.
Proof.
  exists {| h_mem := [1; 2; 3; 4]%Z; h_off := 2; h_rows := 2; h_cols := 2; h_s0 := -2; h_s1 := 1; h_dt := F32 |}.
  split. { intros i j Hi Hj; cbn [h_rows h_cols h_off h_s0 h_s1 h_mem length] in *; lia. }
  repeat split; cbn; try lia.
Qed.
Print Assumptions C113_bounds_refuted.
(** Rows 1 and 2 of a larger array. *)
Example C113_example : let a := {| h_mem := [1; 2; 3; 4; 5; 6; 7; 8]%Z; h_off := 2; h_rows := 2; h_cols := 2; h_s0 := 2; h_s1 := 1; h_dt := F16 |} in
  harr_ok a /\ c_contiguous a /\ harr_rows a = [[3; 4]; [5; 6]]%Z.
Proof. cbn. split; [intros i j Hi Hj; cbn [h_rows h_cols h_off h_s0 h_s1 h_mem length] in *; lia|]. split; [split; auto|reflexivity]. Qed.

(* ------------------------------------------------------------------ C114 *)
(** What numpy returns for the same index (as rows; an int selects a single row). *)
Definition wrap_index (n : nat) (z : Z) : res nat :=
  if ((0 <=? z) && (z <? Z.of_nat n))%Z then Ok (Z.to_nat z)
  else if ((- Z.of_nat n <=? z) && (z <? 0))%Z then Ok (Z.to_nat (z + Z.of_nat n)) else Raise IndexError.
(** Python's slice.indices. *)
Definition clamp (lo hi : Z) (n : nat) (z : Z) : Z := let z := (if z <? 0 then z + Z.of_nat n else z)%Z in Z.max lo (Z.min hi z).
Fixpoint py_range (fuel : nat) (a b step : Z) : list nat :=
  match fuel with
  | O => []
  | S f => if ((0 <? step) && (a <? b) || (step <? 0) && (b <? a))%Z then Z.to_nat a :: py_range f (a + step) b step else []
  end.
Definition py_slice (n : nat) (start stop step : option Z) : res (list nat) :=
  let st := match step with Some z => z | None => 1%Z end in
  let N := Z.of_nat n in
  if (st =? 0)%Z then Raise ValueError else
  if (0 <? st)%Z then
    Ok (py_range n (match start with Some z => clamp 0 N n z | None => 0%Z end) (match stop with Some z => clamp 0 N n z | None => N end) st)
  else
    Ok (py_range n (match start with Some z => clamp (-1) (N - 1) n z | None => (N - 1)%Z end) (match stop with Some z => clamp (-1) (N - 1) n z | None => (-1)%Z end) st).
Definition np_select {T} (v : list (list T)) (ids : res (list nat)) : res (list (list T)) := do l <- ids; Ok (map (fun i => nth i v []) l).
Definition np_getitem {T} (v : list (list T)) (idx : index) : res (list (list T)) :=
  let n := length v in
  match idx with
  | IInt z => np_select v (do i <- wrap_index n z; Ok [i])
  | ISlice a b s => np_select v (py_slice n a b s)
  | IArray ids => np_select v (map_res (wrap_index n) ids)
  | IMask bs => if length bs =? n then np_select v (Ok (map fst (filter snd (combine (seq 0 n) bs)))) else Raise IndexError
  | INested => Raise IndexError
  end.

Section Index.
Context {T : Type} {NT : Num T}.
Local Notation mat := (list (list T)).
Lemma rows_view_value (d : dev T) m s e m' v : window d m = Ok v -> rows_view m s e = Ok m' ->
  d_size m' = d_size m /\ s <= e <= d_rows m /\ window d m' = Ok (slice s e v) /\ d_rows m' = e - s /\ d_cols m' = d_cols m.
Proof.
  intros E V. unfold rows_view in V. destruct (Nat.ltb_spec e s); [discriminate V|]. destruct (Nat.ltb_spec (d_rows m) e); [discriminate V|]. injection V as <-.
  cbn [d_size d_rows d_cols]. split; auto. split; [lia|]. split; [|auto]. apply window_inv in E. destruct E as (b & EB & L & ->).
  unfold window, buffer. cbn [d_buf d_off d_rows d_cols]. rewrite EB. cbn [bind].
  destruct (Nat.leb_spec (d_off m + s * d_cols m + (e - s) * d_cols m) (length b)); [|nia]. f_equal.
  replace (slice s e (map (fun i => slice (d_off m + i * d_cols m) (d_off m + i * d_cols m + d_cols m) b) (seq 0 (d_rows m))))
    with (map (fun i => slice (d_off m + i * d_cols m) (d_off m + i * d_cols m + d_cols m) b) (seq s (e - s))).
  - replace (seq s (e - s)) with (map (fun i => s + i) (seq 0 (e - s))).
    + rewrite map_map. apply map_ext_in. intros i _. f_equal; lia.
    + generalize (e - s). intros k. clear. revert s. induction k as [|k IH]; intros s; cbn [seq map]; auto. f_equal; [lia|]. rewrite <- (IH (S s)), <- seq_shift, map_map. apply map_ext. intros; lia.
  - unfold slice. rewrite skipn_map, firstn_map. f_equal.
    replace (d_rows m) with (s + ((e - s) + (d_rows m - e))) by lia. rewrite seq_app, skipn_app, seq_length, Nat.sub_diag. cbn [skipn Nat.add].
    rewrite skipn_all2 by (rewrite seq_length; lia). cbn [app]. rewrite seq_app, firstn_app, seq_length. rewrite Nat.sub_diag, firstn_O, app_nil_r.
    rewrite firstn_all2 by (rewrite seq_length; lia). auto.
Qed.
Lemma row_view_value (d : dev T) m z m' v : window d m = Ok v -> row_view m z = Ok m' ->
  d_size m' = d_size m /\ (0 <= z < Z.of_nat (d_rows m))%Z /\ window d m' = Ok [nth (Z.to_nat z) v []] /\ d_rows m' = 1 /\ d_cols m' = d_cols m.
Proof.
  intros E V. unfold row_view in V. destruct (Z.leb_spec 0 z), (Z.ltb_spec z (Z.of_nat (d_rows m))); cbn [andb] in V; try discriminate V. injection V as <-.
  assert (RV : rows_view m (Z.to_nat z) (S (Z.to_nat z)) = Ok {| d_buf := d_buf m; d_off := d_off m + Z.to_nat z * d_cols m; d_rows := 1; d_cols := d_cols m; d_size := d_size m |}).
  { unfold rows_view. destruct (Nat.ltb_spec (S (Z.to_nat z)) (Z.to_nat z)); [lia|]. destruct (Nat.ltb_spec (d_rows m) (S (Z.to_nat z))); [lia|].
    replace (S (Z.to_nat z) - Z.to_nat z) with 1 by lia. auto. }
  destruct (rows_view_value d m _ _ _ v E RV) as (A & B & C & D & F). split; auto. split; auto. split; auto. rewrite C. f_equal.
  apply window_shape in E. destruct E as [L _]. unfold slice. replace (S (Z.to_nat z) - Z.to_nat z) with 1 by lia.
  assert (Z.to_nat z < length v) by lia. revert H1. generalize (Z.to_nat z). clear. intros n. revert v. induction n as [|n IH]; intros [|r v] L; cbn in L; try lia; auto. cbn [skipn nth]. apply IH. lia.
Qed.
Lemma select_value (d : dev T) m ids v d' m' : window d m = Ok v -> (forall i, In i ids -> i < d_rows m) -> select_rows d m ids = (d', Ok m') ->
  d_size m' = d_size m /\ window d' m' = Ok (map (fun i => nth i v []) ids) /\ d_rows m' = length ids /\ d_cols m' = d_cols m /\
  d_buf m' = length d /\ (forall m2 v2, window d m2 = Ok v2 -> window d' m2 = Ok v2).
Proof.
  intros E B S. unfold select_rows in S. rewrite E in S. destruct (negb _); [discriminate S|]. unfold alloc in S. injection S as <- <-.
  cbn [d_size d_rows d_cols d_buf]. split; auto. apply window_shape in E. destruct E as [L C].
  assert (CR : forall r, In r (map (fun i => nth i v []) ids) -> length r = d_cols m).
  { intros r Hr. apply in_map_iff in Hr. destruct Hr as (i & <- & Hi). apply C, nth_In. rewrite L. auto. }
  split; [|repeat split; auto; intros; apply window_alloc; auto].
  rewrite window_new by (rewrite (concat_len _ (d_cols m)); auto; rewrite map_length; auto). f_equal.
  pose proof (concat_rows (map (fun i => nth i v []) ids) (d_cols m) [] CR) as K. rewrite app_nil_r, map_length in K. exact K.
Qed.
Lemma wrap_pos n z : (0 <= z < Z.of_nat n)%Z -> wrap_index n z = Ok (Z.to_nat z).
Proof. intros B. unfold wrap_index. rewrite (proj2 (Z.leb_le _ _)), (proj2 (Z.ltb_lt _ _)) by lia. auto. Qed.
Lemma py_range_seq (v : mat) s e : s <= e -> e <= length v -> forall fuel, e - s <= fuel ->
  map (fun i => nth i v []) (py_range fuel (Z.of_nat s) (Z.of_nat e) 1) = slice s e v.
Proof.
  intros SE EV fuel. revert s SE. induction fuel as [|f IH]; intros s SE F.
  - assert (s = e) by lia. subst. unfold slice. rewrite Nat.sub_diag. auto.
  - cbn [py_range]. destruct (Z.ltb_spec (Z.of_nat s) (Z.of_nat e)); cbn [andb orb Z.ltb Z.compare].
    + cbn [map]. rewrite Nat2Z.id. replace (Z.of_nat s + 1)%Z with (Z.of_nat (S s)) by lia. rewrite IH by lia.
      unfold slice. replace (e - s) with (S (e - S s)) by lia.
      assert (SK : skipn s v = nth s v [] :: skipn (S s) v).
      { assert (LT : s < length v) by lia. revert LT. clear. revert s. induction v as [|r v IH]; intros [|s] L; cbn in L; try lia; auto. cbn [skipn nth]. apply IH. lia. }
      rewrite SK. auto.
    + assert (s = e) by lia. subst. unfold slice. rewrite Nat.sub_diag. auto.
Qed.
End Index.

(** What an index other than a mask selects is what numpy selects, or an exception
    (steps of zero are accepted here, numpy refuses them). *)
Definition plain_index (idx : index) : Prop :=
  match idx with IMask _ => False | ISlice _ _ (Some z) => z <> 0%Z | _ => True end.
Theorem C114_partial : forall T (NT : Num T) (d d' : dev T) m m' v idx, window d m = Ok v -> plain_index idx ->
  getitem d m idx = (d', Ok m') ->
  exists v', np_getitem v idx = Ok v' /\ window d' m' = Ok v' /\ d_cols m' = d_cols m /\ d_size m' = d_size m /\
    (forall m2 v2, window d m2 = Ok v2 -> window d' m2 = Ok v2).
Proof.
  intros T NT d d' m m' v idx E PI G. pose proof (window_shape d m v E) as [LV _]. destruct idx as [z|a b s|ids|bs|]; cbn [getitem] in G.
  - injection G as <- G. unfold to_int32 in G. destruct (_ && _)%Z; [|discriminate G]. cbn [bind] in G.
    destruct (row_view_value d m z m' v E G) as (A & B & C & _ & D). exists [nth (Z.to_nat z) v []]. cbn [np_getitem]. rewrite wrap_pos by lia. cbn. auto 6.
  - injection G as <- G. assert (G' : (do s0 <- to_size (match a with Some z => z | None => 0%Z end); do e0 <- to_size (match b with Some z => z | None => Z.of_nat (d_rows m) end); rows_view m s0 e0) = Ok m' /\
        (match s with Some z => z | None => 1%Z end) = 1%Z).
    { destruct s as [z|]; [|auto]. cbn in PI. destruct (Z.eqb_spec z 0); [congruence|]. destruct (Z.eqb_spec z 1); [|discriminate G]. subst. auto. }
    destruct G' as [G' ST]. unfold to_size in G'.
    destruct (Z.leb_spec 0 (match a with Some z => z | None => 0%Z end)) as [PA|]; [|discriminate G']. cbn [bind] in G'.
    destruct (Z.leb_spec 0 (match b with Some z => z | None => Z.of_nat (d_rows m) end)) as [PB|]; [|discriminate G']. cbn [bind] in G'.
    destruct (rows_view_value d m _ _ m' v E G') as (A & B & C & _ & D). eexists. split; [|split; [exact C|auto]].
    cbn [np_getitem]. unfold py_slice. rewrite ST. cbn [Z.eqb Z.ltb Z.compare]. unfold np_select. cbn [bind]. f_equal.
    set (sa := match a with Some z => z | None => 0%Z end) in *. set (sb := match b with Some z => z | None => Z.of_nat (d_rows m) end) in *.
    replace (match a with Some z => clamp 0 (Z.of_nat (length v)) (length v) z | None => 0%Z end) with (Z.of_nat (Z.to_nat sa)).
    + replace (match b with Some z => clamp 0 (Z.of_nat (length v)) (length v) z | None => Z.of_nat (length v) end) with (Z.of_nat (Z.to_nat sb)).
      * apply py_range_seq; lia.
      * unfold sb in *. destruct b as [z|]; [|lia]. unfold clamp. destruct (Z.ltb_spec z 0); lia.
    + unfold sa in *. destruct a as [z|]; [|lia]. unfold clamp. destruct (Z.ltb_spec z 0); lia.
  - unfold by_ids in G. destruct (existsb _ ids) eqn:EX; [discriminate G|]. destruct ids as [|z0 ids0]; [discriminate G|]. set (ids := z0 :: ids0) in *.
    assert (BI : forall z, In z ids -> (0 <= z < Z.of_nat (d_rows m))%Z).
    { intros z Hz. assert (F : ((z <? 0) || (Z.of_nat (d_rows m) <=? z))%Z = false).
      { destruct ((z <? 0) || (Z.of_nat (d_rows m) <=? z))%Z eqn:Q; auto. rewrite <- EX. symmetry. apply existsb_exists. exists z. auto. }
      apply orb_false_iff in F. rewrite Z.ltb_ge, Z.leb_gt in F. lia. }
    destruct (select_value d m (map Z.to_nat ids) v d' m' E) as (A & B & C & D & _ & F); auto.
    { intros i Hi. apply in_map_iff in Hi. destruct Hi as (z & <- & Hz). specialize (BI z Hz). lia. }
    eexists. split; [|split; [exact B|auto]]. cbn [np_getitem].
    assert (MR : map_res (wrap_index (length v)) ids = Ok (map Z.to_nat ids)).
    { rewrite LV. clearbody ids. clear -BI. induction ids as [|z l IH]; cbn [map_res map]; auto. rewrite wrap_pos by (apply BI; left; auto). cbn [bind]. rewrite IH by (intros; apply BI; right; auto). auto. }
    rewrite MR. reflexivity.
  - destruct PI.
  - discriminate G.
Qed.
Print Assumptions C114_partial.
(** A boolean mask selects rows 0 and 1 over and over. *)
Definition ex_arr : harr Z := {| h_mem := [1; 2; 3; 4; 5; 6]%Z; h_off := 0; h_rows := 3; h_cols := 2; h_s0 := 2; h_s1 := 1; h_dt := F32 |}.
Definition ex_dev : dev Z := fst (upload [] ex_arr).
Definition ex_m : dmat := {| d_buf := 0; d_off := 0; d_rows := 3; d_cols := 2; d_size := 4 |}.
Theorem C114_refuted : exists (d : dev Z) m v idx m' v', window d m = Ok v /\ snd (getitem d m idx) = Ok m' /\
  to_numpy (fst (getitem d m idx)) m' = Ok v' /\ np_getitem v idx = Ok [nth 2 v []] /\ v' <> [nth 2 v []].
Proof.
  exists ex_dev, ex_m, [[1; 2]; [3; 4]; [5; 6]]%Z, (IMask [false; false; true]). eexists _, _.
  split; [vm_compute; reflexivity|]. split; [vm_compute; reflexivity|]. split; [vm_compute; reflexivity|]. split; [vm_compute; reflexivity|]. vm_compute. discriminate.
Qed.
Print Assumptions C114_refuted.
(** Indices that need no wrapping around or clamping are not refused. *)
Theorem C114_accepted : forall T (NT : Num T) (d : dev T) m v, window d m = Ok v -> d_size m = 4 \/ d_size m = 2 -> (Z.of_nat (d_rows m) <= 2147483648)%Z ->
  (forall i, i < d_rows m -> exists d' m', getitem d m (IInt (Z.of_nat i)) = (d', Ok m')) /\
  (forall a b, a <= b <= d_rows m -> exists d' m', getitem d m (ISlice (Some (Z.of_nat a)) (Some (Z.of_nat b)) None) = (d', Ok m')) /\
  (forall ids, ids <> [] -> (forall i, In i ids -> i < d_rows m) -> exists d' m', getitem d m (IArray (map Z.of_nat ids)) = (d', Ok m')).
Proof.
  intros T NT d m v E SZ R32. split; [|split].
  - intros i Hi. cbn [getitem]. unfold to_int32. rewrite (proj2 (Z.leb_le _ _)) by lia. rewrite (proj2 (Z.ltb_lt _ _)) by lia. cbn [andb bind].
    unfold row_view. rewrite (proj2 (Z.leb_le _ _)) by lia. rewrite (proj2 (Z.ltb_lt _ _)) by lia. cbn. eauto.
  - intros a b B. cbn [getitem]. unfold to_size. rewrite !(proj2 (Z.leb_le _ _)) by lia. cbn [bind]. unfold rows_view.
    rewrite !Nat2Z.id. rewrite (proj2 (Nat.ltb_ge b a)) by lia. rewrite (proj2 (Nat.ltb_ge _ b)) by lia. eauto.
  - intros ids NE B. cbn [getitem]. unfold by_ids.
    assert (EX : existsb (fun z => (z <? 0)%Z || (Z.of_nat (d_rows m) <=? z)%Z) (map Z.of_nat ids) = false).
    { apply not_true_is_false. intros X. apply existsb_exists in X. destruct X as (z & Hz & X). apply in_map_iff in Hz. destruct Hz as (i & <- & Hi).
      specialize (B i Hi). apply orb_true_iff in X. rewrite Z.ltb_lt, Z.leb_le in X. lia. }
    rewrite EX. destruct ids as [|i0 ids0]; [congruence|]. cbn [map]. unfold select_rows. rewrite E.
    assert (SB : (d_size m =? 4) || (d_size m =? 2) = true) by (destruct SZ as [-> | ->]; reflexivity). rewrite SB. cbn [negb]. unfold alloc. eauto.
Qed.
Print Assumptions C114_accepted.
Example C114_example : exists m', getitem ex_dev ex_m (ISlice (Some 1%Z) None None) = (ex_dev, Ok m') /\ to_numpy ex_dev m' = Ok [[3; 4]; [5; 6]]%Z /\
  snd (getitem ex_dev ex_m (ISlice (Some (-1)%Z) None None)) = Raise RuntimeError /\
  exists d2 m2, getitem ex_dev ex_m (IArray [2; 0; 2]%Z) = (d2, Ok m2) /\ to_numpy d2 m2 = Ok [[5; 6]; [1; 2]; [5; 6]]%Z.
Proof. eexists. split; [vm_compute; reflexivity|]. split; [vm_compute; reflexivity|]. split; [reflexivity|]. eexists _, _. split; vm_compute; reflexivity. Qed.

(* ------------------------------------------------------------------ C115 *)
Section Assign.
Context {T : Type} {NT : Num T}.
Local Notation mat := (list (list T)).
Lemma mul_add_inj C a j b k : a * C + j = b * C + k -> j < C -> k < C -> a = b /\ j = k.
Proof. intros. assert (a = b) by nia. subst. lia. Qed.
Lemma upd_same {A} n (x : A) l : n < length l -> nth_error (upd n x l) n = Some x.
Proof. revert n. induction l as [|a l IH]; intros [|n] L; cbn in *; try lia; auto. apply IH. lia. Qed.
Lemma upd_other {A} n k (x : A) l : n <> k -> nth_error (upd n x l) k = nth_error l k.
Proof. revert n k. induction l as [|a l IH]; intros [|n] [|k] NE; cbn; auto; try lia. Qed.
Lemma upd_len {A} n (x : A) l : length (upd n x l) = length l.
Proof. revert n. induction l as [|a l IH]; intros [|n]; cbn; auto. Qed.
Lemma nth_upd {A} n k (x : A) l z : nth k (upd n x l) z = if (k =? n) && (n <? length l) then x else nth k l z.
Proof.
  revert n k. induction l as [|a l IH]; intros [|n] [|k]; cbn; auto.
  - rewrite andb_false_r. auto.
  - rewrite IH. reflexivity.
Qed.
(** Writes of the cells [cells] in turn, as one function of the buffer. *)
Lemma assign_buffer (d : dev T) m ids o ob : d_buf o <> d_buf m -> nth_error d (d_buf o) = Some (Some ob) ->
  forall cells b, nth_error d (d_buf m) = Some (Some b) ->
  (forall i, In i cells -> i / d_cols m < length ids /\ d_off o + i < length ob /\ d_off m + (nth (i / d_cols m) ids 0 * d_cols m + i mod d_cols m) < length b) ->
  exists b', fold_res (store_cell m (map Z.of_nat ids) o) cells d = Ok (upd (d_buf m) (Some b') d) /\ length b' = length b /\
    forall a, (exists i, In i cells /\ a = d_off m + (nth (i / d_cols m) ids 0 * d_cols m + i mod d_cols m) /\ nth a b' nzero = nth (d_off o + i) ob nzero) \/
              ((forall i, In i cells -> a <> d_off m + (nth (i / d_cols m) ids 0 * d_cols m + i mod d_cols m)) /\ nth a b' nzero = nth a b nzero).
Proof.
  intros NE EO cells. revert d EO. induction cells as [|i cells IH]; intros d EO b EB B.
  - exists b. cbn [fold_res]. split; [|split; [reflexivity|intros a; right; split; [intros i []|reflexivity]]]. f_equal. clear -EB. revert EB. generalize (d_buf m). revert d.
    induction d as [|x d IH]; intros [|n] E; cbn in *; try discriminate; [congruence|]. f_equal. auto.
  - cbn [fold_res]. destruct (B i (or_introl eq_refl)) as (B1 & B2 & B3). unfold store_cell at 1.
    rewrite nth_error_map, (nth_error_nth' _ 0 B1). cbn [option_map]. unfold buffer. rewrite EO, EB. cbn [bind].
    set (a0 := d_off m + (nth (i / d_cols m) ids 0 * d_cols m + i mod d_cols m)) in *.
    replace (Z.of_nat (d_off m) + Z.of_nat (i mod d_cols m) + Z.of_nat (nth (i / d_cols m) ids 0%nat) * Z.of_nat (d_cols m))%Z with (Z.of_nat a0) by (unfold a0; lia).
    rewrite (proj2 (Nat.ltb_lt _ _) B2), (proj2 (Z.leb_le _ _)), (proj2 (Z.ltb_lt _ _)) by lia. cbn [andb bind]. rewrite Nat2Z.id.
    set (b1 := upd a0 (nth (d_off o + i) ob nzero) b).
    assert (LM : d_buf m < length d) by (apply nth_error_Some; congruence).
    destruct (IH (upd (d_buf m) (Some b1) d)) with (b := b1) as (b' & F & L & V).
    + rewrite upd_other; auto.
    + apply upd_same. auto.
    + intros j Hj. unfold b1. rewrite upd_len. apply B. right. auto.
    + exists b'. split; [|split].
      * rewrite F. f_equal. clear. generalize (d_buf m). induction d as [|x d IH]; intros [|n]; cbn; auto. f_equal. apply IH.
      * unfold b1 in L. rewrite upd_len in L. auto.
      * intros a. destruct (V a) as [(j & Hj & E1 & E2)|[N E]]; [left; exists j; split; [right|]; auto|].
        unfold b1 in E. rewrite nth_upd in E. destruct (Nat.eqb_spec a a0) as [->|NA].
        -- rewrite (proj2 (Nat.ltb_lt _ _) B3) in E. left. exists i. split; [left|]; auto.
        -- right. split; auto. intros j [<-|Hj]; auto.
Qed.
End Assign.
(** Writing rows: each listed row is replaced, no other row and no other matrix changes, whatever the order of the
    stores. *)
From Coq Require Import Permutation.
Theorem C115_assign : forall T (NT : Num T) (d : dev T) m o v vo ids cells,
  window d m = Ok v -> window d o = Ok vo -> d_buf o <> d_buf m -> d_cols o = d_cols m -> d_size o = 4 -> d_size m = 4 ->
  length ids = d_rows o -> ids <> [] -> NoDup ids -> (forall i, In i ids -> i < d_rows m) ->
  Permutation cells (seq 0 (d_rows o * d_cols o)) ->
  exists d', assign_rows cells d m (map Z.of_nat ids) o = Ok d' /\
    (exists v', window d' m = Ok v' /\ (forall k, k < length ids -> nth (nth k ids 0) v' [] = nth k vo []) /\
                (forall i, ~ In i ids -> nth i v' [] = nth i v [])) /\
    (forall m2 v2, d_buf m2 <> d_buf m -> window d m2 = Ok v2 -> window d' m2 = Ok v2).
Proof.
  intros T NT d m o v vo ids cells E EO NB CC SO SM LI NE ND B P.
  pose proof (window_inv d m v E) as (b & EB & Lb & Ev). pose proof (window_inv d o vo EO) as (ob & EOB & Lo & Evo).
  set (C := d_cols m) in *. rewrite CC in *.
  assert (IC : forall i, In i cells <-> i < d_rows o * C) by (intros i; split; intros H; [apply (Permutation_in _ P), in_seq in H; lia|apply (Permutation_in _ (Permutation_sym P)), in_seq; lia]).
  assert (DM : forall i, i < d_rows o * C -> i / C < d_rows o /\ i mod C < C /\ i = i / C * C + i mod C).
  { intros i Hi. assert (C <> 0) by nia. split; [apply Nat.div_lt_upper_bound; lia|]. split; [apply Nat.mod_upper_bound; auto|]. rewrite (Nat.div_mod i C) at 1 by auto. lia. }
  assert (IR : forall k, k < length ids -> nth k ids 0 < d_rows m) by (intros k Hk; apply B, nth_In; auto).
  destruct (assign_buffer d m ids o ob NB EOB cells b EB) as (b' & F & Lb' & V).
  { intros i Hi. apply IC in Hi. fold C. destruct (DM i Hi) as (D1 & D2 & D3). rewrite LI. split; [auto|]. split; [lia|].
    pose proof (IR (i / C) ltac:(lia)). nia. }
  fold C in V. exists (upd (d_buf m) (Some b') d). split.
  { unfold assign_rows. destruct ids as [|i0 ids0]; [congruence|]. cbn [map]. rewrite CC, Nat.eqb_refl, SO, SM. cbn [negb orb Nat.eqb]. exact F. }
  split.
  - exists (map (fun i => slice (d_off m + i * C) (d_off m + i * C + C) b') (seq 0 (d_rows m))). split.
    { unfold window, buffer. rewrite upd_same by (apply nth_error_Some; congruence). cbn [bind]. fold C. rewrite Lb'. rewrite (proj2 (Nat.leb_le _ _) Lb). auto. }
    assert (NTH : forall bb r, r < d_rows m -> nth r (map (fun i => @slice T (d_off m + i * C) (d_off m + i * C + C) bb) (seq 0 (d_rows m))) [] = slice (d_off m + r * C) (d_off m + r * C + C) bb).
    { intros bb r Hr. apply (nth_map_seq (fun i => slice (d_off m + i * C) (d_off m + i * C + C) bb)). auto. }
    assert (EXT : forall l1 l2 : list T, length l1 = C -> length l2 = C -> (forall j, j < C -> nth j l1 nzero = nth j l2 nzero) -> l1 = l2).
    { intros l1 l2 L1 L2 N. apply nth_ext with (d := nzero) (d' := nzero); [lia|]. intros j Hj. apply N. lia. }
    split.
    + intros k Hk. rewrite NTH by auto. rewrite Evo.
      rewrite (nth_map_seq (fun i => slice (d_off o + i * C) (d_off o + i * C + C) ob)) by lia. pose proof (IR k Hk). apply EXT; [apply slice_len; nia|apply slice_len; nia|].
      intros j Hj. rewrite !slice_nth by lia. set (a := d_off m + nth k ids 0 * C + j).
      assert (KC : k * C + j < d_rows o * C) by nia.
      assert (Q : (k * C + j) / C = k /\ (k * C + j) mod C = j).
      { split; [rewrite Nat.div_add_l by lia; rewrite Nat.div_small by lia; lia|rewrite Nat.add_comm, Nat.mod_add by lia; apply Nat.mod_small; auto]. }
      destruct (V a) as [(i & Hi & E1 & E2)|[N _]].
      * rewrite E2. f_equal. apply IC in Hi. destruct (DM i Hi) as (D1 & D2 & D3). unfold a in E1.
        assert (nth k ids 0 = nth (i / C) ids 0 /\ j = i mod C) as [Q1 Q2].
        { apply (mul_add_inj C); auto; lia. }
        apply (proj1 (NoDup_nth ids 0)) in Q1; [|auto|auto|lia]. subst k. lia.
      * exfalso. apply (N (k * C + j)); [apply IC; auto|]. destruct Q as [-> ->]. unfold a. lia.
    + intros i NI. destruct (Nat.lt_ge_cases i (d_rows m)) as [Hi|Hi]; [|rewrite !nth_overflow; auto; [rewrite Ev|]; rewrite map_length, seq_length; auto].
      rewrite NTH by auto. rewrite Ev, NTH by auto. apply EXT; [apply slice_len; nia|apply slice_len; nia|].
      intros j Hj. rewrite !slice_nth by lia. destruct (V (d_off m + i * C + j)) as [(k & Hk & E1 & _)|[_ E1]]; [|exact E1].
      exfalso. apply NI. apply IC in Hk. destruct (DM k Hk) as (D1 & D2 & D3).
      assert (H0 : i * C + j = nth (k / C) ids 0 * C + k mod C) by lia. apply mul_add_inj in H0; auto.
      replace i with (nth (k / C) ids 0) by lia. apply nth_In. lia.
  - intros m2 v2 N2 E2. rewrite window_upd; auto.
Qed.
Print Assumptions C115_assign.
(** A row or a range of rows is a view: in every later state it shows what these rows of the matrix hold then.
    A list of ids gives a copy in a buffer of its own, so (C115_assign) neither is affected by writes to the other. *)
Definition by_position (idx : index) : Prop := match idx with IInt _ => True | ISlice _ _ s => s <> Some 0%Z | _ => False end.
Theorem C115_partial : forall T (NT : Num T) (d d' : dev T) m m' v idx, window d m = Ok v -> getitem d m idx = (d', Ok m') ->
  (by_position idx -> d' = d /\ forall (d2 : dev T) v2, window d2 m = Ok v2 -> exists v3, np_getitem v2 idx = Ok v3 /\ window d2 m' = Ok v3) /\
  (forall ids, idx = IArray ids -> d_buf m' <> d_buf m).
Proof.
  intros T NT d d' m m' v idx E G. split.
  - intros BP. assert (d' = d /\ forall d2 : dev T, getitem d2 m idx = (d2, Ok m')) as [-> G2].
    { destruct idx; cbn [by_position getitem] in *; try contradiction; injection G as <- G; split; auto; intros; rewrite G; auto. }
    split; auto. intros d2 v2 E2. destruct (C114_partial T NT d2 d2 m m' v2 idx E2) as (v3 & A & B & _); auto; [|eauto].
    destruct idx as [|? ? [z|]| | |]; cbn in *; auto. congruence.
  - intros ids ->. cbn [getitem] in G. unfold by_ids, select_rows in G. destruct (existsb _ _); [discriminate G|]. destruct ids; [discriminate G|]. rewrite E in G.
    destruct (negb _); [discriminate G|]. unfold alloc in G. injection G as _ <-. cbn [d_buf]. apply window_inv in E. destruct E as (b & E & _).
    intros X. assert (d_buf m < length d) by (apply nth_error_Some; congruence). lia.
Qed.
Print Assumptions C115_partial.
(** Growing the matrix detaches its views: row 0 is written, the view of row 0 still shows the old values. *)
Theorem C115_refuted : exists (d1 d2 d3 d4 : dev Z) m view o m2, d1 = ex_dev /\ m = ex_m /\
  getitem d1 m (IInt 0) = (d1, Ok view) /\ resize d1 m 4 2 = (d2, Ok m2) /\
  upload d2 {| h_mem := [7; 8]%Z; h_off := 0; h_rows := 1; h_cols := 2; h_s0 := 2; h_s1 := 1; h_dt := F32 |} = (d3, Ok o) /\
  assign_rows [0; 1] d3 m2 [0%Z] o = Ok d4 /\
  to_numpy d4 m2 = Ok [[7; 8]; [3; 4]; [5; 6]; [0; 0]]%Z /\ to_numpy d4 view = Ok [[1; 2]]%Z.
Proof. eexists _, _, _, _, _, _, _, _. repeat split; vm_compute; reflexivity. Qed.
Print Assumptions C115_refuted.
(** [astype] to the type the matrix has already is no copy: a write to the matrix shows in the result. *)
Theorem C115_astype_refuted : exists (d2 d3 : dev Z) m2 o, astype (fun _ x => x) ex_dev ex_m F32 = (ex_dev, Ok m2) /\
  upload ex_dev {| h_mem := [7; 8]%Z; h_off := 0; h_rows := 1; h_cols := 2; h_s0 := 2; h_s1 := 1; h_dt := F32 |} = (d2, Ok o) /\
  assign_rows [1; 0] d2 ex_m [1%Z] o = Ok d3 /\ to_numpy d3 m2 = Ok [[1; 2]; [7; 8]; [5; 6]]%Z.
Proof. eexists _, _, _, _. repeat split; vm_compute; reflexivity. Qed.
Print Assumptions C115_astype_refuted.
Example C115_example : exists d2 d3 o view copy d', upload ex_dev {| h_mem := [7; 8; 9; 10]%Z; h_off := 0; h_rows := 2; h_cols := 2; h_s0 := 2; h_s1 := 1; h_dt := F32 |} = (d2, Ok o) /\
  getitem d2 ex_m (ISlice (Some 1%Z) None None) = (d2, Ok view) /\ getitem d2 ex_m (IArray [1; 2]%Z) = (d3, Ok copy) /\
  assign_rows [3; 0; 2; 1] d3 ex_m [2; 0]%Z o = Ok d' /\
  to_numpy d' ex_m = Ok [[9; 10]; [3; 4]; [7; 8]]%Z /\ to_numpy d' view = Ok [[3; 4]; [7; 8]]%Z /\ to_numpy d' copy = Ok [[3; 4]; [5; 6]]%Z.
Proof. eexists _, _, _, _, _, _. repeat split; vm_compute; reflexivity. Qed.

(* ------------------------------------------------------------------ C116 *)
(** Every live matrix that has storage lies in a live buffer that no other library owns. *)
Definition pool_ok {T} (p : pool T) : Prop :=
  (forall k m, nth k (p_mats p) None = Some (m, true) ->
     (exists b, nth_error (p_dev p) (d_buf m) = Some (Some b) /\ d_off m + d_rows m * d_cols m <= length b) /\ ~ In (d_buf m) (p_foreign p)) /\
  (forall b, In b (p_foreign p) -> b < length (p_dev p)).
Section Pool.
Context {T : Type} {NT : Num T}.
Lemma getitem_dev (d : dev T) m idx d' m' : getitem d m idx = (d', Ok m') ->
  (d' = d /\ d_buf m' = d_buf m /\ (d_off m + d_rows m * d_cols m) >= d_off m' + d_rows m' * d_cols m') \/
  (exists l, d' = d ++ [Some l] /\ d_buf m' = length d /\ d_off m' + d_rows m' * d_cols m' <= length l).
Proof.
  assert (RV : forall s e x, rows_view m s e = Ok x -> d_buf x = d_buf m /\ (d_off m + d_rows m * d_cols m) >= d_off x + d_rows x * d_cols x).
  { intros s e x V. unfold rows_view in V. destruct (Nat.ltb_spec e s); [discriminate V|]. destruct (Nat.ltb_spec (d_rows m) e); [discriminate V|]. injection V as <-. cbn. split; auto. nia. }
  assert (BI : forall ids, by_ids d m ids = (d', Ok m') -> exists l, d' = d ++ [Some l] /\ d_buf m' = length d /\ d_off m' + d_rows m' * d_cols m' <= length l).
  { intros ids G. unfold by_ids in G. destruct (existsb _ ids) eqn:EX; [discriminate G|]. destruct ids as [|z ids]; [discriminate G|]. unfold select_rows in G.
    generalize dependent (z :: ids); clear z ids; intros ids EX G. destruct (window d m) as [v|] eqn:E; [|discriminate G]. destruct (negb _); [discriminate G|]. unfold alloc in G. injection G as <- <-. eexists. split; [reflexivity|]. cbn [d_buf d_off d_rows d_cols]. split; auto.
    apply window_shape in E. destruct E as [L C]. rewrite (concat_len _ (d_cols m)); [rewrite !map_length; auto|].
    intros r Hr. apply in_map_iff in Hr. destruct Hr as (i & <- & Hi). apply C, nth_In. rewrite L. apply in_map_iff in Hi. destruct Hi as (y & <- & Hy).
    assert (F : ((y <? 0) || (Z.of_nat (d_rows m) <=? y))%Z = false).
    { destruct ((y <? 0) || (Z.of_nat (d_rows m) <=? y))%Z eqn:Q; auto. rewrite <- EX. symmetry. apply existsb_exists. exists y. auto. }
    apply orb_false_iff in F. rewrite Z.ltb_ge, Z.leb_gt in F. lia. }
  destruct idx as [z|a b s|ids|bs|]; cbn [getitem]; intros G; try discriminate G; [| |right; eauto|right; eauto].
  - injection G as <- G. left. split; auto. unfold to_int32 in G. destruct (_ && _)%Z; [|discriminate G]. cbn [bind] in G. unfold row_view in G.
    destruct (Z.leb_spec 0 z), (Z.ltb_spec z (Z.of_nat (d_rows m))); cbn [andb] in G; try discriminate G. injection G as <-. cbn. split; auto. nia.
  - injection G as <- G. left. split; auto. unfold to_size in G. destruct s as [z|]; [destruct (_ && _); [discriminate G|]|];
    repeat (match type of G with context [if ?c then _ else _] => destruct c; [|discriminate G] end; cbn [bind] in G); eauto.
Qed.
Lemma nth_app_new {A} (l : list A) x k (z : A) : nth k (l ++ [x]) z = if k =? length l then x else nth k l z.
Proof.
  destruct (Nat.eqb_spec k (length l)) as [->|NE]; [rewrite app_nth2, Nat.sub_diag by lia; auto|].
  destruct (Nat.lt_ge_cases k (length l)); [apply app_nth1; auto|]. rewrite app_nth2 by lia. rewrite (nth_overflow l) by lia. destruct (k - length l) eqn:Q; [lia|]. destruct n; auto.
Qed.
(** A new buffer leaves the pool in order. *)
Lemma pool_alloc (p : pool T) l mats : pool_ok {| p_dev := p_dev p; p_mats := mats; p_foreign := p_foreign p |} ->
  pool_ok {| p_dev := p_dev p ++ [Some l]; p_mats := mats; p_foreign := p_foreign p |}.
Proof.
  intros [A B]. split; cbn in *.
  - intros k m E. destruct (A k m E) as [(b & E1 & E2) F]. split; auto. exists b. split; auto. rewrite nth_error_app1; auto. apply nth_error_Some. congruence.
  - intros b Hb. rewrite app_length. cbn. specialize (B b Hb). lia.
Qed.
Lemma pool_add (p : pool T) m f : pool_ok p ->
  (f = true -> (exists b, nth_error (p_dev p) (d_buf m) = Some (Some b) /\ d_off m + d_rows m * d_cols m <= length b) /\ ~ In (d_buf m) (p_foreign p)) ->
  pool_ok {| p_dev := p_dev p; p_mats := p_mats p ++ [Some (m, f)]; p_foreign := p_foreign p |}.
Proof.
  intros [A B] N. split; auto. intros k m' E. cbn in E. rewrite nth_app_new in E. destruct (k =? length (p_mats p)); [|eauto]. injection E as <- ->. auto.
Qed.
Lemma pool_add_new (p : pool T) l m : pool_ok p -> d_buf m = length (p_dev p) -> d_off m + d_rows m * d_cols m <= length l -> 
  pool_ok {| p_dev := p_dev p ++ [Some l]; p_mats := p_mats p ++ [Some (m, true)]; p_foreign := p_foreign p |}.
Proof.
  intros OK EB L. apply (pool_add {| p_dev := p_dev p ++ [Some l]; p_mats := p_mats p; p_foreign := p_foreign p |}).
  - apply pool_alloc. destruct p; exact OK.
  - intros _. cbn. rewrite EB. split; [exists l; split; auto; rewrite nth_error_app2, Nat.sub_diag by lia; auto|]. intros I. apply (proj2 OK) in I. lia.
Qed.
Lemma pool_replace (p : pool T) k x : pool_ok p ->
  (forall m, x = Some (m, true) -> (exists b, nth_error (p_dev p) (d_buf m) = Some (Some b) /\ d_off m + d_rows m * d_cols m <= length b) /\ ~ In (d_buf m) (p_foreign p)) ->
  pool_ok (replace_entry p k x).
Proof.
  intros [A B] N. unfold replace_entry. split; cbn [p_dev p_mats p_foreign].
  - intros j m E.
    assert (OKm : (exists b, nth_error (p_dev p) (d_buf m) = Some (Some b) /\ d_off m + d_rows m * d_cols m <= length b) /\ ~ In (d_buf m) (p_foreign p)).
    { rewrite nth_upd in E. destruct (_ && _); eauto. }
    destruct OKm as [(b & E1 & E2) NF]. split; auto. exists b. split; auto.
    destruct (nth k (p_mats p) None) as [[m0 [|]]|]; auto. destruct (existsb _ _) eqn:EX; auto. rewrite upd_other; auto.
    intros X. rewrite <- Bool.not_true_iff_false in EX. apply EX. apply existsb_exists. exists (Some (m, true)). split.
    + rewrite <- E. apply nth_In. destruct (Nat.lt_ge_cases j (length (upd k x (p_mats p)))) as [|G]; auto. rewrite (nth_overflow _ _ G) in E. discriminate E.
    + cbn. rewrite X. apply Nat.eqb_refl.
  - intros b Hb. specialize (B b Hb). destruct (nth k (p_mats p) None) as [[m0 [|]]|]; auto. destruct (existsb _ _); auto. rewrite upd_len. auto.
Qed.
Lemma nth_error_lt {A} (l : list A) n x : nth_error l n = Some x -> n < length l.
Proof. intros E. apply nth_error_Some. congruence. Qed.
(** Stores change contents only. *)
Lemma stores_keep cells : forall (d d' : dev T) m ids o, fold_res (store_cell m ids o) cells d = Ok d' ->
  length d' = length d /\ forall n b, nth_error d n = Some (Some b) -> exists b', nth_error d' n = Some (Some b') /\ length b' = length b.
Proof.
  induction cells as [|i cells IH]; intros d d' m ids o F; cbn [fold_res] in F; [injection F as <-; split; eauto|].
  unfold store_cell at 1 in F. destruct (nth_error ids _) as [z|]; [|discriminate F]. unfold buffer in F. destruct (nth_error d (d_buf o)) as [[ob|]|]; try discriminate F. cbn [bind] in F.
  destruct (nth_error d (d_buf m)) as [[b|]|] eqn:EB; try discriminate F. cbn [bind] in F. destruct (_ && _); [|discriminate F]. cbn [bind] in F.
  apply IH in F. destruct F as [L K]. rewrite upd_len in L. split; auto. intros n b0 E0. destruct (Nat.eq_dec (d_buf m) n) as [<-|NE].
  - destruct (K (d_buf m) _ (upd_same _ _ d (nth_error_lt _ _ _ EB))) as (b' & E1 & E2). exists b'. split; auto. rewrite E2, upd_len. rewrite EB in E0. injection E0 as ->. reflexivity.
  - apply K. rewrite upd_other; auto.
Qed.
Lemma step_ok (p : pool T) (o : op T) : pool_ok p -> pool_ok (fst (step p o)).
Proof.
  intros OK. assert (ET : p = {| p_dev := p_dev p; p_mats := p_mats p; p_foreign := p_foreign p |}) by (destruct p; auto).
  destruct o as [a|rows cols|b off rows cols size|k idx|conv k t|k rows cols|cells k ids j|k|l|b]; cbn [step].
  - unfold add_entry, upload. destruct (item_size _); auto. destruct (_ =? 0); auto. match goal with |- context [if ?c then _ else _] => destruct c eqn:C end; auto.
    apply pool_add_new; auto. cbn [d_off d_rows d_cols]. apply andb_true_iff in C. rewrite !Z.leb_le in C. rewrite slice_len; lia.
  - apply pool_add_new; auto. cbn [d_off d_rows d_cols]. rewrite repeat_length. lia.
  - apply pool_add; auto. discriminate.
  - destruct (nth k (p_mats p) None) as [[m f]|] eqn:E; auto. unfold add_entry. destruct (getitem (p_dev p) m idx) as [d' [m'|]] eqn:G; auto. cbn [fst snd].
    apply getitem_dev in G. unfold shares. destruct G as [(-> & EB & L)|(l & -> & EB & L)].
    + rewrite EB, Nat.eqb_refl. apply pool_add; auto. intros ->. destruct (proj1 OK k m E) as [(b & E1 & E2) F]. rewrite EB. split; auto. exists b. split; auto. lia.
    + destruct (Nat.eqb_spec (d_buf m') (d_buf m)) as [X|]; [|apply pool_add_new; auto]. destruct f; [apply pool_add_new; auto|].
      apply (pool_add {| p_dev := p_dev p ++ [Some l]; p_mats := p_mats p; p_foreign := p_foreign p |}); [apply pool_alloc; rewrite <- ET; auto|discriminate].
  - destruct (nth k (p_mats p) None) as [[m f]|] eqn:E; auto. unfold add_entry. destruct (astype conv (p_dev p) m t) as [d' [m'|]] eqn:G; auto. cbn [fst snd].
    unfold astype in G. destruct (item_size t) as [size|]; [|discriminate G]. unfold shares. destruct (size =? d_size m).
    + injection G as <- <-. rewrite Nat.eqb_refl. apply pool_add; auto. intros ->. apply (proj1 OK k m E).
    + destruct (window (p_dev p) m) as [v|] eqn:EW; [|discriminate G]. destruct (negb _); [discriminate G|]. unfold alloc in G. injection G as <- <-. cbn [d_buf].
      assert (L : 0 + d_rows m * d_cols m <= length (map (conv size) (concat v))).
      { apply window_shape in EW. destruct EW as [L C]. rewrite map_length, (concat_len _ (d_cols m)) by auto. lia. }
      assert (d_buf m < length (p_dev p)) by (apply window_inv in EW; destruct EW as (b & EN & _); apply nth_error_Some; congruence).
      destruct (Nat.eqb_spec (length (p_dev p)) (d_buf m)); [lia|]. apply pool_add_new; auto.
  - destruct (nth k (p_mats p) None) as [[m f]|] eqn:E; auto. unfold resize. destruct (negb (cols =? d_cols m)) eqn:EC; auto. destruct (Nat.ltb_spec rows (d_rows m)); auto.
    destruct (window (p_dev p) m) as [v|] eqn:EW; auto. unfold alloc. cbn [fst]. apply pool_replace; [apply pool_alloc; rewrite <- ET; auto|].
    intros m' X. injection X as <-. cbn [p_dev d_buf d_off d_rows d_cols p_foreign]. split; [|intros I; apply (proj2 OK) in I; lia].
    eexists. rewrite nth_error_app2, Nat.sub_diag by lia. split; [reflexivity|]. apply window_shape in EW. destruct EW as [L C].
    rewrite app_length, repeat_length, (concat_len _ (d_cols m)) by auto. apply negb_false_iff, Nat.eqb_eq in EC. subst cols. nia.
  - destruct (nth k (p_mats p) None) as [[m f]|] eqn:E; auto. destruct (nth j (p_mats p) None) as [[o g]|]; auto. destruct (assign_rows _ _ _ _ _) as [d'|] eqn:EA; auto. cbn [fst].
    unfold assign_rows in EA. destruct ids; [discriminate EA|]. destruct (negb _); [discriminate EA|]. destruct (_ || _); [discriminate EA|]. apply stores_keep in EA. destruct EA as [L K].
    split; cbn [p_dev p_mats p_foreign].
    + intros i m' Em. destruct (proj1 OK i m' Em) as [(b & E1 & E2) F]. split; auto. destruct (K _ _ E1) as (b' & E3 & E4). exists b'. split; auto. lia.
    + rewrite L. apply OK.
  - destruct (nth k (p_mats p) None); auto. cbn [fst]. apply pool_replace; auto. discriminate.
  - cbn [fst]. destruct OK as [A B]. split; cbn [p_dev p_mats p_foreign].
    + intros k m E. destruct (A k m E) as [(b & E1 & E2) F]. split; [exists b; split; auto; rewrite nth_error_app1; auto; apply nth_error_Some; congruence|].
      intros I. apply in_app_or in I. destruct I as [I|[I|[]]]; auto. assert (d_buf m < length (p_dev p)) by (apply nth_error_Some; congruence). lia.
    + intros b Hb. rewrite app_length. cbn. apply in_app_or in Hb. destruct Hb as [Hb|[<-|[]]]; [specialize (B b Hb)|]; lia.
  - destruct (existsb _ _) eqn:EX; auto. cbn [fst]. apply existsb_exists in EX. destruct EX as (b' & Hb & X). apply Nat.eqb_eq in X. subst b'. destruct OK as [A B]. unfold release. split; cbn [p_dev p_mats p_foreign].
    + intros k m E. destruct (A k m E) as [(b' & E1 & E2) F]. split; auto. exists b'. split; auto. rewrite upd_other; auto. intros ->. auto.
    + intros c Hc. rewrite upd_len. auto.
Qed.
End Pool.
(** Whatever is done with any of the objects, and whatever other libraries free, a matrix with storage of its own
    (uploaded, zeros, selected by ids, resized, converted, or a view of such a matrix) can be read. *)
Theorem C116_partial : forall T (NT : Num T) (ops : list (op T)) k m,
  nth k (p_mats (steps ops no_pool)) None = Some (m, true) -> exists v, window (p_dev (steps ops no_pool)) m = Ok v.
Proof.
  intros T NT ops k m E.
  assert (OK : pool_ok (steps ops no_pool)).
  { assert (OK0 : pool_ok (@no_pool T)) by (split; [intros [|j] x X; discriminate X|intros b []]). revert OK0. unfold steps. generalize (@no_pool T). clear E.
    induction ops as [|o ops IH]; intros p OK; auto. cbn [fold_left]. apply IH, step_ok, OK. }
  destruct (proj1 OK k m E) as [(b & E1 & E2) _]. eexists. unfold window, buffer. rewrite E1. cbn [bind]. rewrite (proj2 (Nat.leb_le _ _) E2). reflexivity.
Qed.
Print Assumptions C116_partial.
(** In terms of what was called: if nothing was made from arrays of other libraries, every live matrix can be read;
    and a matrix that was resized can be read until it is dropped. *)
Lemma steps_ok {T} {NT : Num T} (ops : list (op T)) p : pool_ok p -> pool_ok (steps ops p).
Proof. revert p. unfold steps. induction ops as [|o ops IH]; intros p OK; auto. cbn [fold_left]. apply IH, step_ok, OK. Qed.
Lemma no_pool_ok {T} : pool_ok (@no_pool T).
Proof. split; [intros [|j] x X; discriminate X|intros b []]. Qed.
Definition stored {T} (p : pool T) : Prop := forall k m f, nth k (p_mats p) None = Some (m, f) -> f = true.
Lemma stored_add {T} (p : pool T) r s : stored p -> (forall m, s m = true) -> stored (fst (add_entry p r s)).
Proof.
  intros ST ES. unfold add_entry. destruct (snd r) as [m|e]; auto. intros k m' f E. cbn [fst p_mats] in E. rewrite nth_app_new in E.
  destruct (k =? length (p_mats p)); [|eauto]. injection E as _ <-. auto.
Qed.
Lemma stored_replace {T} (p : pool T) k x : stored p -> (forall m f, x = Some (m, f) -> f = true) -> stored (replace_entry p k x).
Proof. intros ST EX j m f E. cbn [replace_entry p_mats] in E. rewrite nth_upd in E. destruct (_ && _); eauto. Qed.
Definition wraps {T} (o : op T) : bool := match o with OWrap _ _ _ _ _ => true | _ => false end.
Theorem C116_own : forall T (NT : Num T) (ops : list (op T)) k m f, forallb (fun o => negb (wraps o)) ops = true ->
  nth k (p_mats (steps ops no_pool)) None = Some (m, f) -> exists v, window (p_dev (steps ops no_pool)) m = Ok v.
Proof.
  intros T NT ops k m f NW E. enough (ST : stored (steps ops no_pool)) by (rewrite (ST k m f E) in E; exact (C116_partial T NT ops k m E)).
  clear E. assert (S0 : stored (@no_pool T)) by (intros [|j] x g X; discriminate X). revert S0. unfold steps. generalize (@no_pool T).
  induction ops as [|o ops IH]; intros p ST; auto. cbn [forallb fold_left] in *. apply andb_true_iff in NW. destruct NW as [N1 N2]. apply IH; auto. clear IH N2.
  destruct o as [a|rows cols|b off rows cols size|j idx|conv j t|j rows cols|cells j ids i|j|l|b]; cbn [step]; try discriminate N1.
  - apply stored_add; auto.
  - apply stored_add; auto.
  - destruct (nth j (p_mats p) None) as [[m' g]|] eqn:E; auto. rewrite (ST j m' g E). apply stored_add; auto. intros x. unfold shares. destruct (_ =? _); auto.
  - destruct (nth j (p_mats p) None) as [[m' g]|] eqn:E; auto. rewrite (ST j m' g E). apply stored_add; auto. intros x. unfold shares. destruct (_ =? _); auto.
  - destruct (nth j (p_mats p) None) as [[m' g]|] eqn:E; auto. destruct (resize _ _ _ _) as [d' [x|]]; auto. cbn [fst]. apply stored_replace; [exact ST|congruence].
  - destruct (nth j (p_mats p) None) as [[m' g]|]; auto. destruct (nth i (p_mats p) None) as [[o g']|]; auto. destruct (assign_rows _ _ _ _ _); auto.
  - destruct (nth j (p_mats p) None); auto. apply stored_replace; auto. discriminate.
  - exact ST.
  - destruct (existsb _ _); auto.
Qed.
Print Assumptions C116_own.
Definition drops {T} (k : nat) (o : op T) : bool := match o with ODrop j => j =? k | _ => false end.
Lemma keep_add {T} (p : pool T) r s k x : nth k (p_mats p) None = Some x -> nth k (p_mats (fst (add_entry p r s))) None = Some x.
Proof.
  intros E. unfold add_entry. destruct (snd r) as [m|e]; auto. cbn [fst p_mats]. rewrite app_nth1; auto.
  destruct (Nat.lt_ge_cases k (length (p_mats p))); auto. rewrite nth_overflow in E by auto. discriminate E.
Qed.
Theorem C116_resized : forall T (NT : Num T) (ops after : list (op T)) k rows cols,
  snd (step (steps ops no_pool) (OResize k rows cols)) = Ok tt -> forallb (fun o => negb (drops k o)) after = true ->
  exists m f v, nth k (p_mats (steps (ops ++ OResize k rows cols :: after) no_pool)) None = Some (m, f) /\
    window (p_dev (steps (ops ++ OResize k rows cols :: after) no_pool)) m = Ok v.
Proof.
  intros T NT ops after k rows cols E ND.
  enough (exists m, nth k (p_mats (steps (ops ++ OResize k rows cols :: after) no_pool)) None = Some (m, true)) as [m Em].
  { destruct (C116_partial T NT _ k m Em) as [v Ev]. exists m, true, v. auto. }
  unfold steps in *. rewrite fold_left_app. cbn [fold_left]. set (p := fold_left _ ops no_pool) in *. clearbody p.
  assert (F : exists m, nth k (p_mats (fst (step p (OResize k rows cols)))) None = Some (m, true)).
  { cbn [step] in *. destruct (nth k (p_mats p) None) as [[m f]|] eqn:Ek; [|discriminate E]. destruct (resize (p_dev p) m rows cols) as [d' [m'|]]; [|discriminate E].
    exists m'. cbn [fst replace_entry p_mats]. rewrite nth_upd, Nat.eqb_refl. destruct (Nat.ltb_spec k (length (p_mats p))); auto. rewrite nth_overflow in Ek by auto. discriminate Ek. }
  revert F. generalize (fst (step p (OResize k rows cols))). clear p E. induction after as [|o after IH]; intros p [m F]; [eauto|].
  cbn [forallb fold_left] in *. apply andb_true_iff in ND. destruct ND as [N1 N2]. apply IH; auto. clear IH N2.
  destruct o as [a|rs cs|b off rs cs size|j idx|conv j t|j rs cs|cells j ids i|j|l|b]; cbn [step].
  - exists m. apply keep_add; auto.
  - exists m. apply keep_add; auto.
  - exists m. apply keep_add; auto.
  - destruct (nth j (p_mats p) None) as [[m' g]|]; [|eauto]. exists m. apply keep_add; auto.
  - destruct (nth j (p_mats p) None) as [[m' g]|]; [|eauto]. exists m. apply keep_add; auto.
  - destruct (nth j (p_mats p) None) as [[m' g]|]; [|eauto]. destruct (resize _ _ _ _) as [d' [x|]]; [|eauto]. cbn [fst replace_entry p_mats]. rewrite nth_upd. destruct (_ && _); eauto.
  - destruct (nth j (p_mats p) None) as [[m' g]|]; [|eauto]. destruct (nth i (p_mats p) None) as [[o g']|]; [|eauto]. destruct (assign_rows _ _ _ _ _); eauto.
  - cbn [drops negb] in N1. destruct (nth j (p_mats p) None); [|eauto]. exists m. cbn [fst replace_entry p_mats]. rewrite nth_upd, Nat.eqb_sym. destruct (j =? k); [discriminate N1|auto].
  - eauto.
  - destruct (existsb _ _); eauto.
Qed.
Print Assumptions C116_resized.
(** A matrix made from another library's array, resized before that array is freed. *)
Example C116_resized_example : let ops := [OForeign [1; 2; 3; 4]%Z; OWrap 0 0 2 2 4] in
  snd (step (steps ops no_pool) (OResize 0 3 2)) = Ok tt /\
  exists m f, nth 0 (p_mats (steps (ops ++ [OResize 0 3 2; OForeignFree 0]) no_pool)) None = Some (m, f) /\
    to_numpy (p_dev (steps (ops ++ [OResize 0 3 2; OForeignFree 0]) no_pool)) m = Ok [[1; 2]; [3; 4]; [0; 0]]%Z.
Proof. split; [reflexivity|]. eexists _, _. split; vm_compute; reflexivity. Qed.
(** A matrix made from a device array of another library is a live object, yet unreadable once the array is gone. *)
Theorem C116_refuted : exists (ops : list (op Z)) m, nth 0 (p_mats (steps ops no_pool)) None = Some (m, false) /\
  to_numpy (p_dev (steps (firstn 2 ops) no_pool)) m = Ok [[1; 2]; [3; 4]]%Z /\ to_numpy (p_dev (steps ops no_pool)) m = Raise UB.
Proof. exists [OForeign [1; 2; 3; 4]%Z; OWrap 0 0 2 2 4; OForeignFree 0]. eexists. repeat split; vm_compute; reflexivity. Qed.
Print Assumptions C116_refuted.
(** A view survives the matrix it was taken from; the buffer is freed with the last view. *)
Example C116_example : let ops := [OUpload ex_arr; OGetitem 0 (ISlice (Some 1%Z) None None); ODrop 0] in
  (exists m, nth 1 (p_mats (steps ops no_pool)) None = Some (m, true) /\ to_numpy (p_dev (steps ops no_pool)) m = Ok [[3; 4]; [5; 6]]%Z) /\
  p_dev (steps (ops ++ [ODrop 1]) no_pool) = [None].
Proof. cbn zeta. split; [eexists; split; vm_compute; reflexivity|vm_compute; reflexivity]. Qed.
