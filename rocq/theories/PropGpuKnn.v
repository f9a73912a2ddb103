(** C64, C80-C87: the GPU queries. *)
From Coq Require Import List Arith Lia Bool ZArith Permutation Sorted Reals Lra SpecFloat.
From Verif Require Import Base Num FloatModel Heap Sparse TopkModel TopkSpec TopkProofs RecommendModel RecommendProofs RecommendProofs2 RecommendProofs3
  RVec SimilarProofs PropTopk PropRecommend PropSimilar GpuKnn GpuKnnProofs GpuKnnProofs2 GpuKnnProofs3 GpuKnnProofs4.
Import ListNotations.

(** Inner product of the factors of user [u] and item [i]. *)
Definition gpu_score {T} `{Num T} (users items : gmatrix T) (u : Z) (i : nat) : T := ndot (nth (Z.to_nat u) (g_rows users) []) (nth i (g_rows items) []).
(** A well-formed model with 32-bit factors and a batch [us] of existing users. *)
Definition gpu_model {T} (users items : gmatrix T) (us : list Z) : Prop :=
  g_cols users = g_cols items /\ g_size users = 4%Z /\ g_size items = 4%Z /\
  (Z.of_nat (length (g_rows users)) <= 2 ^ 31)%Z /\ (Z.of_nat (length (g_rows items)) < 2 ^ 31)%Z /\
  us <> [] /\ (Z.of_nat (length us) < 2 ^ 31)%Z /\ (forall z, In z us -> (0 <= z < Z.of_nat (length (g_rows users)))%Z).
(** One row of likes per user, inside the model; filter_items not empty and in range. *)
Definition gpu_filters {T} (n B : nat) (fl : bool) (ui : sparse_arg T) (fi : option arr) : Prop :=
  (fl = true -> exists M, ui = Csr M /\ c_rows M = B /\ forall g c v, g < B -> In (c, v) (csr_row M g) -> c < n) /\
  (forall a, fi = Some a -> arr_list a <> [] /\ forall z, In z (arr_list a) -> (0 <= z < Z.of_nat n)%Z).
(** The rows of a result. *)
Definition result_rows {T} (o : out T) : list (list Z * list T) :=
  match o with OneRow ids sc => [(ids, sc)] | ManyRows ids sc => combine ids sc end.

Ltac gpu_model_tac := unfold gpu_model;
  split; [reflexivity|split; [reflexivity|split; [reflexivity|split; [vm_compute; discriminate|split; [vm_compute; reflexivity|split; [discriminate|split; [vm_compute; reflexivity|
    let z := fresh in let Hz := fresh in intros z Hz; cbn in Hz; repeat (destruct Hz as [<-|Hz]; [split; [vm_compute; discriminate|vm_compute; reflexivity]|]); destruct Hz]]]]]]].

Lemma result_row {T} (id : idarg) (idss : list (list nat)) (scs : list (list T)) g :
  length idss = length (id_list id) -> length scs = length (id_list id) -> g < length (id_list id) ->
  nth_error (result_rows (gfinish id (map (map Z.of_nat) idss) scs)) g = Some (map Z.of_nat (nth g idss []), nth g scs []).
Proof.
  intros L1 L2 Hg. unfold gfinish, result_rows. destruct id as [z|zs]; cbn [id_list] in *.
  - cbn in Hg. assert (g = 0) by lia. subst g. cbn. rewrite <- (map_nth (map Z.of_nat) idss []). reflexivity.
  - rewrite (nth_error_nth' _ ([], [])) by (rewrite combine_length, map_length; lia). f_equal. rewrite combine_nth by (rewrite map_length; lia). f_equal.
    change (@nil Z) with (map Z.of_nat []). apply (map_nth (map Z.of_nat)).
Qed.

(* ------------------------------------------------------------------ *)
(** C64: each user's own top-N, in every row, for every memory budget (a query may also run out of memory: C80).
    True for N up to the number of items. *)
Theorem C64_partial :
  forall (T : Type) (HT : Num T) (HO : NumOrd T) sel (fdist : T) junk (free : Z) (users items : gmatrix T) recalc id ui (N : Z) fl fi (excl : nat -> nat -> bool),
  select_k_ok sel -> (0 <= free)%Z ->
  let n := length (g_rows items) in let us := id_list id in
  gpu_model users items us -> gpu_filters n (length us) fl ui fi -> (1 <= N <= Z.of_nat n)%Z ->
  (forall g i, g < length us -> i < n -> excl g i = true <->
     (fl = true /\ exists M v, ui = Csr M /\ In (i, v) (csr_row M g)) \/
     (exists a, fi = Some a /\ In (Z.of_nat i) (arr_list a))) ->
  (forall g i, g < length us -> i < n -> excl g i = false -> nltb fdist (gpu_score users items (nth g us 0%Z) i) = true) ->
  gpu_recommend sel fdist junk (pool_size free 0) users items recalc id ui N fl fi false None = Raise RuntimeError \/
  exists o, gpu_recommend sel fdist junk (pool_size free 0) users items recalc id ui N fl fi false None = Ok o /\
    length (result_rows o) = length us /\
    forall g, g < length us ->
      let allowed := filter (fun i => negb (excl g i)) (seq 0 n) in
      exists good bad gs,
        nth_error (result_rows o) g = Some (map Z.of_nat (good ++ bad), gs ++ repeat fdist (length bad)) /\
        length (good ++ bad) = Z.to_nat N /\ NoDup (good ++ bad) /\
        TopN (gpu_score users items (nth g us 0%Z)) allowed (Nat.min (Z.to_nat N) (length allowed)) good gs /\
        (forall i, In i bad -> i < n /\ excl g i = true) /\ (Z.to_nat N <= length allowed -> bad = []).
Proof.
  intros T HT HO sel fdist junk free users items recalc id ui N fl fi excl HS HF n us (M1 & M2 & M3 & M4 & M5 & M6 & M7 & M8) (F1 & F2) HN HE HG.
  pose proof (pool_size_default free HF) as HP.
  destruct (gpu_recommend_ok sel fdist junk HS (pool_size free 0) users items recalc id ui N fl fi excl M1 M2 M3 M4 M5 M7 HP M6 M8 HN F1 F2 HE) as [[X _]|[idss [scs [X [L1 [L2 TN]]]]]]; [left; exact X|right].
  fold us n in L1, L2, TN. exists (gfinish id (map (map Z.of_nat) idss) scs). split; auto. split.
  { unfold us, gfinish, result_rows. destruct id; auto. rewrite combine_length, map_length. unfold us in *. lia. }
  intros g Hg allowed. specialize (TN g Hg).
  destruct (fscore_full fdist (excl g) _ _ _ _ _ TN (seq_NoDup _ _)) as [good [bad [gs [E1 [E2 [TG BB]]]]]].
  { intros j Hj Fj. apply in_seq in Hj. apply HG; auto. lia. }
  exists good, bad, gs. split; [|split; [|split; [|split; [|split]]]].
  - rewrite result_row by auto. rewrite E1, E2. auto.
  - rewrite <- E1. apply (topn_length _ _ _ _ _ TN).
  - rewrite <- E1. apply (topn_nodup _ _ _ _ _ TN).
  - exact TG.
  - intros i Hi. destruct (BB i Hi) as [X1 X2]. apply in_seq in X2. split; auto. lia.
  - intros LE. pose proof (topn_length _ _ _ _ _ TG) as LG. fold allowed in LG. rewrite Nat.min_l in LG by auto. pose proof (topn_length _ _ _ _ _ TN) as LN. rewrite E1, app_length in LN.
    assert (length bad = 0) by lia. destruct bad; auto. discriminate.
Qed.
Print Assumptions C64_partial.

Definition ex_gusers : gmatrix Z := {| g_size := 4; g_cols := 2; g_rows := [[1; 0]; [0; 1]; [1; 1]]%Z |}.
Definition ex_gitems : gmatrix Z := {| g_size := 4; g_cols := 2; g_rows := [[5; 1]; [1; 5]; [3; 3]; [-1; 7]]%Z |}.
Definition ex_glikes : csr Z := csr_of_rows 4 [[(0, 1%Z)]; []; [(3, 1%Z); (0, 1%Z)]].
Definition ex_fdist : Z := (- (2 ^ 128 - 2 ^ 104 - 2 ^ 104))%Z.
Definition no_gpu_recalc {T} : idarg -> csr T -> res (gmatrix T) := fun _ _ => Raise NotImplementedError.
Definition ex_junk : nat -> Z * Z := fun _ => (77, 77)%Z.
Example C64_example :
  gpu_recommend sel_sort ex_fdist ex_junk (pool_size 4000 0) ex_gusers ex_gitems no_gpu_recalc (Batch [2; 0; 1]%Z) (Csr ex_glikes) 2 true (Some (PyList [2]%Z)) false None =
    Ok (ManyRows [[1; 3]; [0; 1]; [1; 0]]%Z [[6; 6]; [5; 1]; [5; ex_fdist]]%Z) /\
  gpu_model ex_gusers ex_gitems [2; 0; 1]%Z /\ gpu_filters 4 3 true (Csr ex_glikes) (Some (PyList [2]%Z)) /\ select_k_ok (T:=Z) sel_sort.
Proof.
  split; [vm_compute; reflexivity|]. split; [|split; [|apply sel_sort_ok]].
  - gpu_model_tac.
  - split.
    + intros _. exists ex_glikes. split; auto. split; auto. intros g c v Hg Hc. destruct g as [|[|[|g]]]; [| | |lia]; vm_compute in Hc.
      * destruct Hc as [X|[]]; inversion X; lia.
      * destruct Hc.
      * destruct Hc as [X|[X|[]]]; inversion X; lia.
    + intros a X. injection X as <-. cbn. split; [discriminate|]. intros z [<-|[]]. lia.
Qed.

(** Refuted for larger N: every row is written with the stride of the number of items, so all rows but the first
    hold other users' items or uninitialised memory. *)
Theorem C64_refuted :
  exists (users items : gmatrix Z) (us : list Z) N, gpu_model users items us /\ (1 <= N)%Z /\
    forall junk, exists o, gpu_recommend sel_sort ex_fdist junk (pool_size (2 ^ 30) 0) users items no_gpu_recalc (Batch us) NotCsr N false None false None = Ok o /\
      nth_error (result_rows o) 1 = Some (map fst [junk 4; junk 5; junk 6; junk 7], map snd [junk 4; junk 5; junk 6; junk 7]).
Proof.
  exists {| g_size := 4; g_cols := 1; g_rows := [[1]; [-1]]%Z |}, {| g_size := 4; g_cols := 1; g_rows := [[5]; [6]]%Z |}, [0; 1]%Z, 4%Z. split; [|split; [lia|]].
  - gpu_model_tac.
  - intros junk. eexists. split; [vm_compute; reflexivity|]. reflexivity.
Qed.
Print Assumptions C64_refuted.

(* ------------------------------------------------------------------ *)
(** C80: whether a query fits in the temporary memory.  Enough for every query: room for 32 bytes per result and
    one row of scores; small results need all rows at once. *)
Theorem C80_partial :
  forall (T : Type) (HT : Num T) (HO : NumOrd T) sel (fdist : T) junk (free : Z) (users items : gmatrix T) recalc id ui (N : Z) fl fi,
  select_k_ok sel -> (0 <= free)%Z ->
  let n := length (g_rows items) in let us := id_list id in
  gpu_model users items us -> gpu_filters n (length us) fl ui fi -> (1 <= N <= Z.of_nat n)%Z ->
  let pool := pool_size free 0 in let cells := (Z.of_nat (length us) * N)%Z in
  (32 * cells + 4 * Z.of_nat n + 768 <= pool)%Z ->
  (32 <= cells \/ 4 * (Z.of_nat (length us) * Z.of_nat n) + 8 * cells + 768 <= pool)%Z ->
  exists o, gpu_recommend sel fdist junk pool users items recalc id ui N fl fi false None = Ok o.
Proof.
  intros T HT HO sel fdist junk free users items recalc id ui N fl fi HS HF n us (M1 & M2 & M3 & M4 & M5 & M6 & M7 & M8) (F1 & F2) HN pool cells H1 H2.
  pose proof (pool_size_default free HF) as HP.
  assert (R0 : (0 < Z.of_nat (length us))%Z) by (destruct us; [congruence|simpl; lia]).
  set (excl := fun g i => (fl && match ui with Csr M => memn i (csr_row_indices M g) | NotCsr => false end) || match fi with Some a => memz (Z.of_nat i) (arr_list a) | None => false end).
  destruct (gpu_recommend_ok sel fdist junk HS (pool_size free 0) users items recalc id ui N fl fi excl M1 M2 M3 M4 M5 M7 HP M6 M8 HN F1 F2) as [[_ X]|[idss [scs [X _]]]].
  - intros g i Hg Hi. unfold excl. rewrite orb_true_iff, andb_true_iff. split.
    + intros [[-> X]|X].
      * left. split; auto. destruct ui as [|M]; [discriminate X|]. apply memn_spec in X. unfold csr_row_indices in X. apply in_map_iff in X. destruct X as [[c v] [E X]]. cbn in E. subst c. exists M, v. auto.
      * right. destruct fi as [a|]; [|discriminate X]. exists a. split; auto. apply memz_spec. auto.
    + intros [[-> [M [v [-> X]]]]|[a [-> X]]].
      * left. split; auto. apply memn_spec. unfold csr_row_indices. apply in_map_iff. exists (i, v). auto.
      * right. apply memz_spec. auto.
  - exfalso. destruct (plan_enough pool (Z.of_nat (length us)) N (Z.of_nat n)) as [_ [b E]]; try lia. unfold pool, us, n in E. rewrite E in X. discriminate X.
  - eexists. exact X.
Qed.
Print Assumptions C80_partial.
Example C80_example : (32 * (3 * 2) + 4 * 4 + 768 <= pool_size 4000 0)%Z /\ (32 <= 3 * 2 \/ 4 * (3 * 4) + 8 * (3 * 2) + 768 <= pool_size 4000 0)%Z /\ pool_size 4000 0 = 2048%Z.
Proof. vm_compute. repeat split; try discriminate. right. discriminate. Qed.

(** Refuted: two users each answered alone are refused together (rounding of the three blocks is not counted) ... *)
Definition big_items (n : nat) : gmatrix Z := {| g_size := 4; g_cols := 1; g_rows := map (fun i => [Z.of_nat i]) (seq 0 n) |}.
Definition same_users (n : nat) : gmatrix Z := {| g_size := 4; g_cols := 1; g_rows := repeat [1%Z] n |}.
Theorem C80_refuted :
  exists (users items : gmatrix Z) (us : list Z) free, gpu_model users items us /\
    (forall u, In u us -> exists o, gpu_recommend sel_sort ex_fdist ex_junk (pool_size free 0) users items no_gpu_recalc (Scalar u) NotCsr 1 false None false None = Ok o) /\
    gpu_recommend sel_sort ex_fdist ex_junk (pool_size free 0) users items no_gpu_recalc (Batch us) NotCsr 1 false None false None = Raise RuntimeError.
Proof.
  exists (same_users 2), (big_items 110), [0; 1]%Z, 2048%Z. split; [|split].
  - gpu_model_tac.
  - intros u [<-|[<-|[]]]; eexists; vm_compute; reflexivity.
  - vm_compute. reflexivity.
Qed.
Print Assumptions C80_refuted.
(** ... and when 32 bytes per result exceed the budget the unsigned subtraction wraps around: the batch is not split
    at all, although one row at a time would fit. *)
Theorem C80_underflow_refuted :
  exists pool rows k items, (0 < pool <= four_gib)%Z /\ (0 < k <= items)%Z /\ (0 < rows)%Z /\
    (2 * align (rows * k * 4) + align (4 * items) <= pool)%Z /\     (* what one row at a time needs *)
    batch_rows pool rows k items = Ok rows /\ plan pool 4 rows k items = Raise RuntimeError.
Proof. exists 1024%Z, 33%Z, 1%Z, 4%Z. unfold four_gib. repeat split; try lia; vm_compute; try reflexivity. discriminate. Qed.
Print Assumptions C80_underflow_refuted.

(* ------------------------------------------------------------------ *)
(** C81: 16-bit factors.  The score buffer is allocated with 2 bytes per score and written with 4: past the end
    of the pool in this example. *)
Theorem C81_refuted :
  exists (users items : gmatrix Z) free,
    g_size users = 2%Z /\ g_size items = 2%Z /\ g_cols users = g_cols items /\ length (g_rows users) = 1 /\
    gpu_recommend sel_sort ex_fdist ex_junk (pool_size free 0) users items no_gpu_recalc (Scalar 0) NotCsr 1 false None false None = Raise UB.
Proof.
  exists {| g_size := 2; g_cols := 1; g_rows := repeat [1%Z] 1 |}, {| g_size := 2; g_cols := 1; g_rows := g_rows (big_items 100) |}, 1536%Z.
  repeat split.
Qed.
Print Assumptions C81_refuted.
(** With 32-bit factors no call of this kind writes outside its memory. *)
Theorem C81_float32_partial :
  forall (T : Type) (HT : Num T) (HO : NumOrd T) sel (fdist : T) junk (free : Z) (users items : gmatrix T) recalc id ui (N : Z) fl fi,
  select_k_ok sel -> (0 <= free)%Z ->
  gpu_model users items (id_list id) -> gpu_filters (length (g_rows items)) (length (id_list id)) fl ui fi -> (1 <= N <= Z.of_nat (length (g_rows items)))%Z ->
  gpu_recommend sel fdist junk (pool_size free 0) users items recalc id ui N fl fi false None <> Raise UB.
Proof.
  intros T HT HO sel fdist junk free users items recalc id ui N fl fi HS HF (M1 & M2 & M3 & M4 & M5 & M6 & M7 & M8) (F1 & F2) HN.
  pose proof (pool_size_default free HF) as HP.
  set (excl := fun g i => (fl && match ui with Csr M => memn i (csr_row_indices M g) | NotCsr => false end) || match fi with Some a => memz (Z.of_nat i) (arr_list a) | None => false end).
  destruct (gpu_recommend_ok sel fdist junk HS (pool_size free 0) users items recalc id ui N fl fi excl M1 M2 M3 M4 M5 M7 HP M6 M8 HN F1 F2) as [[X _]|[idss [scs [X _]]]].
  - intros g i Hg Hi. unfold excl. rewrite orb_true_iff, andb_true_iff. split.
    + intros [[-> X]|X].
      * left. split; auto. destruct ui as [|M]; [discriminate X|]. apply memn_spec in X. unfold csr_row_indices in X. apply in_map_iff in X. destruct X as [[c v] [E X]]. cbn in E. subst c. exists M, v. auto.
      * right. destruct fi as [a|]; [|discriminate X]. exists a. split; auto. apply memz_spec. auto.
    + intros [[-> [M [v [-> X]]]]|[a [-> X]]].
      * left. split; auto. apply memn_spec. unfold csr_row_indices. apply in_map_iff. exists (i, v). auto.
      * right. apply memz_spec. auto.
  - intros Y. rewrite X in Y. discriminate Y.
  - intros Y. rewrite X in Y. discriminate Y.
Qed.
Print Assumptions C81_float32_partial.

(* ------------------------------------------------------------------ *)
(** C82: likes or filter_items with an id that is not in the model: another user loses an item, or memory outside
    the buffer is written.  (In range: C64.) *)
Theorem C82_refuted :
  exists (users items : gmatrix Z) (us : list Z), gpu_model users items us /\
    let n := length (g_rows items) in
    let ask M fi := gpu_recommend sel_sort ex_fdist ex_junk (pool_size (2 ^ 30) 0) users items no_gpu_recalc (Batch us) (Csr M) 1 true fi false None in
    ask (csr_of_rows (S n) [[]; []]) None = Ok (ManyRows [[0]; [0]]%Z [[5]; [6]]%Z) /\
    ask (csr_of_rows (S n) [[(n, 1%Z)]; []]) None = Ok (ManyRows [[0]; [1]]%Z [[5]; [2]]%Z) /\
    ask (csr_of_rows (S n) [[]; [(n, 1%Z)]]) None = Raise UB /\
    ask (csr_of_rows (S n) [[]; []]) (Some (PyList [Z.of_nat n])) = Raise UB /\
    ask (csr_of_rows (S n) [[]; []]) (Some (PyList [-1]%Z)) = Raise UB.
Proof.
  exists ex_gusers, {| g_size := 4; g_cols := 2; g_rows := [[5; 1]; [1; 1]]%Z |}, [0; 2]%Z. split; [gpu_model_tac|]. vm_compute. repeat split.
Qed.
Print Assumptions C82_refuted.

(* ------------------------------------------------------------------ *)
(** C83: an explicit item list on the GPU.  Repeat-free list, likes without explicit zeros (as C08 on the CPU). *)
Theorem C83_partial :
  forall (T : Type) (HT : Num T) (HO : NumOrd T) sel (fdist : T) junk (free : Z) (users items : gmatrix T) recalc id ui (N : Z) fl its (liked : nat -> nat -> bool),
  select_k_ok sel -> (0 <= free)%Z ->
  let n := length (g_rows items) in let us := id_list id in
  gpu_model users items us -> gpu_filters n (length us) fl ui None -> (1 <= N)%Z ->
  arr_list its <> [] -> NoDup (arr_list its) -> (forall z, In z (arr_list its) -> (0 <= z < Z.of_nat n)%Z) ->
  (forall M g i v, ui = Csr M -> In (i, v) (csr_row M g) -> neqb v nzero = false) ->
  (forall g i, g < length us -> liked g i = true <-> fl = true /\ exists M v, ui = Csr M /\ In (i, v) (csr_row M g)) ->
  let cands := map Z.to_nat (arr_list its) in
  (forall g i, g < length us -> In i cands -> liked g i = false -> nltb fdist (gpu_score users items (nth g us 0%Z) i) = true) ->
  gpu_recommend sel fdist junk (pool_size free 0) users items recalc id ui N fl None false (Some its) = Raise RuntimeError \/
  exists o, gpu_recommend sel fdist junk (pool_size free 0) users items recalc id ui N fl None false (Some its) = Ok o /\
    length (result_rows o) = length us /\
    forall g, g < length us ->
      let allowed := filter (fun i => negb (liked g i)) cands in
      exists good bad gs,
        nth_error (result_rows o) g = Some (map Z.of_nat (good ++ bad), gs ++ repeat fdist (length bad)) /\
        length (good ++ bad) = Nat.min (Z.to_nat N) (length cands) /\ NoDup (good ++ bad) /\
        TopN (gpu_score users items (nth g us 0%Z)) allowed (Nat.min (Z.to_nat N) (length allowed)) good gs /\
        (forall i, In i bad -> In i cands /\ liked g i = true).
Proof.
  intros T HT HO sel fdist junk free users items recalc id ui N fl its liked HS HF n us (M1 & M2 & M3 & M4 & M5 & M6 & M7 & M8) (F1 & _) HN NE ND HI HZ HL cands HG.
  pose proof (pool_size_default free HF) as HP.
  assert (F1' : fl = true -> exists M, ui = Csr M /\ c_rows M = length (id_list id)) by (intros E; destruct (F1 E) as [M [A [B _]]]; exists M; auto).
  destruct (gpu_recommend_items_ok sel fdist junk HS (pool_size free 0) users items recalc id ui N fl its M1 M2 M3 M4 M5 M7 HP M6 M8 HN NE ND HI F1') as [[X _]|[idss [scs [X [L1 [L2 TN]]]]]]; [left; exact X|right].
  fold us in L1, L2, TN. exists (gfinish id (map (map Z.of_nat) idss) scs). split; auto. split.
  { unfold us, gfinish, result_rows. destruct id; auto. rewrite combine_length, map_length. unfold us in *. lia. }
  intros g Hg allowed. specialize (TN g Hg).
  set (lk := fun i : nat => fl && match ui with Csr M => liked_nz M g i | NotCsr => false end) in *.
  assert (LE : forall i, lk i = liked g i).
  { intros i. apply eq_true_iff_eq. rewrite HL by auto. unfold lk. rewrite andb_true_iff. split.
    - intros [-> Y]. split; auto. destruct ui as [|M]; [discriminate Y|]. unfold liked_nz in Y. apply existsb_exists in Y. destruct Y as [[c v] [Y1 Y2]]. cbn in Y2. apply andb_true_iff in Y2. destruct Y2 as [Y2 _]. apply Nat.eqb_eq in Y2. subst c. exists M, v. auto.
    - intros [-> [M [v [-> Y]]]]. split; auto. unfold liked_nz. apply existsb_exists. exists (i, v). split; auto. cbn. rewrite Nat.eqb_refl, (HZ M g i v) by auto. auto. }
  assert (NC : NoDup cands). { unfold cands. apply nodup_map_in; auto. intros x y Hx Hy. apply HI in Hx. apply HI in Hy. lia. }
  assert (FE : filter (fun i => negb (lk i)) cands = allowed) by (apply filter_ext; intros i; rewrite LE; auto).
  destruct (fscore_full fdist lk _ _ _ _ _ TN NC) as [good [bad [gs [E1 [E2 [TG BB]]]]]].
  { intros j Hj Fj. apply HG; auto. rewrite <- LE. auto. }
  exists good, bad, gs. rewrite <- E1, <- E2. split; [|split; [|split; [|split]]].
  - apply result_row; auto.
  - unfold cands. rewrite map_length. apply (topn_length _ _ _ _ _ TN).
  - apply (topn_nodup _ _ _ _ _ TN).
  - fold cands in TG. rewrite FE in TG.
    assert (length allowed <= length (arr_list its)) by (unfold allowed; etransitivity; [apply filter_len_le|]; unfold cands; rewrite map_length; auto).
    replace (Nat.min (Nat.min (Z.to_nat N) (length (arr_list its))) (length allowed)) with (Nat.min (Z.to_nat N) (length allowed)) in TG by lia. exact TG.
  - intros i Hi. destruct (BB i Hi) as [Y1 Y2]. rewrite LE in Y1. auto.
Qed.
Print Assumptions C83_partial.
Example C83_example :
  gpu_recommend sel_sort ex_fdist ex_junk (pool_size 4000 0) ex_gusers ex_gitems no_gpu_recalc (Batch [2; 0; 1]%Z) (Csr ex_glikes) 5 true None false (Some (NdArray [3; 1; 0]%Z)) =
    Ok (ManyRows [[1; 3; 0]; [0; 1; 3]; [1; 0; 3]]%Z [[6; 6; ex_fdist]; [5; 1; -1]; [5; ex_fdist; ex_fdist]]%Z).
Proof. vm_compute. reflexivity. Qed.
(** Refuted in general as on the CPU: the second copy of a repeated liked item is not filtered. *)
Theorem C83_refuted :
  exists (users items : gmatrix Z) u M its, gpu_model users items [u] /\
    (forall z, In z (arr_list its) -> (0 <= z < Z.of_nat (length (g_rows items)))%Z) /\
    (exists i v, In (i, v) (csr_row M 0) /\
      gpu_recommend sel_sort ex_fdist ex_junk (pool_size 4000 0) users items no_gpu_recalc (Scalar u) (Csr M) 1 true None false (Some its) = Ok (OneRow [Z.of_nat i] [gpu_score users items u i]) /\
      exists j, In (Z.of_nat j) (arr_list its) /\ ~ exists w, In (j, w) (csr_row M 0)).
Proof.
  exists ex_gusers, ex_gitems, 0%Z, (csr_of_rows 4 [[(0, 1%Z)]]), (NdArray [0; 0; 1]%Z). split; [|split].
  - gpu_model_tac.
  - cbn. intros z [<-|[<-|[<-|[]]]]; lia.
  - exists 0, 1%Z. split; [vm_compute; auto|]. split; [vm_compute; reflexivity|]. exists 1. split; [cbn; auto|]. intros [w Hw]. vm_compute in Hw. destruct Hw as [X|[]]. discriminate X.
Qed.
Print Assumptions C83_refuted.
(** Ids outside the model in the list are never answered, whatever the other arguments. *)
Theorem C83_items_out_of_range :
  forall (T : Type) (HT : Num T) sel (fdist : T) junk pool (users items : gmatrix T) recalc id ui N fl fi rc its o,
  (exists z, In z (arr_list its) /\ ~ (0 <= z < Z.of_nat (length (g_rows items)))%Z) ->
  gpu_recommend sel fdist junk pool users items recalc id ui N fl fi rc (Some its) <> Ok o.
Proof.
  intros T HT sel fdist junk pool users items recalc id ui N fl fi rc its o [z [Hz HB]] E. unfold gpu_recommend in E.
  do 2 match type of E with (do x <- ?e; _) = _ => destruct e; [|discriminate E]; cbn [bind] in E end.
  destruct (truthy fi) as [b|e]; [|discriminate E]. cbn [bind] in E. destruct b; [discriminate E|].
  destruct (gpu_getitem items (Batch (sort_z (arr_list its)))) as [facs|e]; [|discriminate E]. cbn [bind] in E.
  assert (Hz' : In z (sort_z (arr_list its))) by (eapply Permutation_in; [apply Permutation_sym, sort_z_perm|exact Hz]).
  unfold out_of_model in E. destruct (sort_z (arr_list its)) as [|z0 l] eqn:ES; [destruct Hz'|]. cbn [bind] in E.
  replace (existsb _ (z0 :: l)) with true in E; [discriminate E|]. symmetry. apply existsb_exists. exists z. split; auto. apply orb_true_iff. rewrite Z.leb_le, Z.ltb_lt. lia.
Qed.
Print Assumptions C83_items_out_of_range.

(* ------------------------------------------------------------------ *)
(** C84: the GPU answers like the CPU: same scores, whenever at least N items are allowed and N <= items. *)
Theorem C84_partial :
  forall (T : Type) (HT : Num T) (HO : NumOrd T) (HP : std_heap) sel (fmin fdist : T) junk (free : Z) (m : mf T) (cols : nat) recalc grecalc u ui (N : Z) fl fi (excl : nat -> bool),
  std_heap_ok HP -> select_k_ok sel -> (0 <= free)%Z -> (forall a b : T, nltb a b = false -> nltb b a = false -> a = b) ->
  let users := {| g_size := 4; g_cols := cols; g_rows := user_factors m |} in
  let items := {| g_size := 4; g_cols := cols; g_rows := item_factors m |} in
  let n := length (item_factors m) in
  call_ok m u N fl ui fi -> gpu_model users items [u] -> gpu_filters n 1 fl ui fi ->
  (forall i, i < n -> excl i = true <->
     (fl = true /\ exists M v, ui = Csr M /\ In (i, v) (csr_row M 0)) \/ (exists a, fi = Some a /\ In (Z.of_nat i) (arr_list a))) ->
  let allowed := filter (fun i => negb (excl i)) (seq 0 n) in
  (forall i, In i allowed -> nltb fmin (mf_score m u i) = true /\ nltb fdist (mf_score m u i) = true) ->
  Z.to_nat N <= length allowed ->
  exists ids ids' scores,
    recommend HP fmin m recalc (Scalar u) ui N fl fi false None = Ok (OneRow (map Z.of_nat ids) scores) /\
    TopN (mf_score m u) allowed (Z.to_nat N) ids scores /\ TopN (mf_score m u) allowed (Z.to_nat N) ids' scores /\
    (gpu_recommend sel fdist junk (pool_size free 0) users items grecalc (Scalar u) ui N fl fi false None = Raise RuntimeError \/
     gpu_recommend sel fdist junk (pool_size free 0) users items grecalc (Scalar u) ui N fl fi false None = Ok (OneRow (map Z.of_nat ids') scores)).
Proof.
  intros T HT HO HP sel fmin fdist junk free m cols recalc grecalc u ui N fl fi excl HC HS HF AS users items n CK GM GF HE allowed HG LE.
  assert (LA : length allowed <= n) by (unfold allowed; etransitivity; [apply filter_len_le|rewrite seq_length; auto]).
  assert (N1 : (1 <= N)%Z) by (destruct CK as (_ & _ & X & _); exact X).
  destruct (C03_filtered_never_outrank T HT HO HP fmin m recalc u ui N fl fi excl HC CK) as [good [bad [gs [E [TN [B BE]]]]]].
  { intros i Hi. fold n. rewrite (HE i Hi). split; (intros [X|X]; [left; exact X|right]).
    - destruct X as [a [E1 E2]]. exists a, (Z.of_nat i). auto.
    - destruct X as [a [z [E1 [E2 [E3|E3]]]]]; subst z; [exists a; auto|]. exfalso. destruct GF as [_ GF]. destruct (GF a E1) as [_ GF']. specialize (GF' _ E2). lia. }
  { intros i Hi. apply HG. exact Hi. }
  specialize (BE LE). subst bad. fold n allowed in TN, E. rewrite Nat.min_l in TN by exact LE. replace (Z.to_nat N - n) with 0 in E by lia.
  change (length (@nil nat)) with 0 in E. cbn [repeat] in E. rewrite !app_nil_r in E.
  destruct (C64_partial T HT HO sel fdist junk free users items grecalc (Scalar u) ui N fl fi (fun _ => excl) HS HF GM GF) as [X|[o [X [LO R]]]].
  - cbn. fold n. lia.
  - intros g i Hg Hi. cbn in Hg. assert (g = 0) by lia. subst g. apply HE. exact Hi.
  - intros g i Hg Hi Ei. cbn in Hg. assert (g = 0) by lia. subst g. apply (HG i). apply filter_In. rewrite Ei. split; auto. apply in_seq. cbn in Hi. fold n in Hi. lia.
  - exists good, good, gs. split; [exact E|]. auto.
  - destruct (R 0) as [good' [bad' [gs' [R1 [_ [_ [R2 [_ R3]]]]]]]]; [cbn; lia|]. cbn [nth id_list] in R2. change (g_rows items) with (item_factors m) in R2, R3. fold n in R2, R3. fold allowed in R2, R3.
    specialize (R3 LE). subst bad'. rewrite Nat.min_l in R2 by exact LE. change (gpu_score users items u) with (mf_score m u) in R2.
    assert (ES : gs' = gs) by (eapply topn_scores_unique; eauto). subst gs'. exists good, good', gs. split; [exact E|]. split; [exact TN|]. split; [exact R2|]. right. rewrite X. f_equal.
    cbn [length repeat] in R1. rewrite !app_nil_r in R1. cbn in LO.
    assert (exists a b, o = OneRow a b) as [a [b ->]].
    { clear -X. unfold gpu_recommend in X.
      repeat match type of X with (do x <- ?e; _) = _ => destruct e; [|discriminate X]; cbn [bind] in X | (let '(a, b) := ?p in _) = _ => destruct p end.
      injection X as <-. cbn. eauto. }
    cbn in R1. injection R1 as -> ->. reflexivity.
Qed.
Print Assumptions C84_partial.
(** Refuted: an empty filter_items is fine on the CPU and an IndexError on the GPU. *)
Theorem C84_refuted :
  exists (m : mf Z) u N, call_ok m u N false NotCsr (Some (PyList [])) /\ (N <= Z.of_nat (length (item_factors m)))%Z /\
    let users := {| g_size := 4; g_cols := 2; g_rows := user_factors m |} in
    let items := {| g_size := 4; g_cols := 2; g_rows := item_factors m |} in
    (exists o, recommend simple_heap fmin32 m no_recalc (Scalar u) NotCsr N false (Some (PyList [])) false None = Ok o) /\
    forall sel fdist junk pool recalc, gpu_recommend sel fdist junk pool users items recalc (Scalar u) NotCsr N false (Some (PyList [])) false None = Raise IndexError.
Proof.
  exists ex_mf, 0%Z, 2%Z. split; [|split; [cbn; lia|split]].
  - call_ok_tac 2. intros a z E. injection E as <-. intros [].
  - eexists. vm_compute. reflexivity.
  - intros. reflexivity.
Qed.
Print Assumptions C84_refuted.
Example C84_example : call_ok ex_mf 0 2 true (Csr (csr_take_row ex_likes 0)) (Some (PyList [3]%Z)) /\
  recommend simple_heap fmin32 ex_mf no_recalc (Scalar 0) (Csr (csr_take_row ex_likes 0)) 2 true (Some (PyList [3]%Z)) false None = Ok (OneRow [1; 0]%Z [2; 1]%Z) /\
  gpu_recommend sel_sort ex_fdist ex_junk (pool_size (2 ^ 30) 0) {| g_size := 4; g_cols := 2; g_rows := user_factors ex_mf |} {| g_size := 4; g_cols := 2; g_rows := item_factors ex_mf |}
    no_gpu_recalc (Scalar 0) (Csr (csr_take_row ex_likes 0)) 2 true (Some (PyList [3]%Z)) false None = Ok (OneRow [1; 0]%Z [2; 1]%Z) /\
  (forall a b : Z, nltb a b = false -> nltb b a = false -> a = b).
Proof.
  split; [|split; [vm_compute; reflexivity|split; [vm_compute; reflexivity|]]].
  - call_ok_tac 2. { intros i v [E|[]]. inversion E. lia. } intros a z E. inversion E; subst. simpl. intros [<-|[]]. lia.
  - intros a b A B. cbn in A, B. apply Z.ltb_ge in A. apply Z.ltb_ge in B. lia.
Qed.

(* ------------------------------------------------------------------ *)
(** C85: user ids that are not in the model.  A single id (Python int) and ids inside int32 are always refused ... *)
Theorem C85_partial :
  forall (T : Type) (HT : Num T) sel (fdist : T) junk pool (users items : gmatrix T) recalc id ui N fl fi its,
  (fl = true -> exists M, ui = Csr M /\ c_rows M = length (id_list id)) ->
  (exists z, In z (id_list id) /\ ~ (0 <= z < Z.of_nat (length (g_rows users)))%Z) ->
  (forall z, In z (id_list id) -> (- 2 ^ 31 <= z < 2 ^ 31)%Z) ->
  gpu_recommend sel fdist junk pool users items recalc id ui N fl fi false its =
    Raise match id with Scalar _ => ValueError | Batch _ => IndexError end.
Proof.
  intros T HT sel fdist junk pool users items recalc id ui N fl fi its HL [z [Hz HB]] HR. unfold gpu_recommend. rewrite orb_false_r.
  assert (E1 : (if fl then match ui with NotCsr => Raise ValueError | Csr M => if c_rows M =? length (id_list id) then Ok tt else Raise ValueError end else Ok tt) = Ok tt).
  { destruct fl; auto. destruct (HL eq_refl) as [M [-> ->]]. rewrite Nat.eqb_refl. auto. }
  rewrite E1. cbn [bind]. destruct id as [u|us].
  - cbn in Hz. destruct Hz as [->|[]]. unfold gpu_getitem. replace ((0 <=? z) && (z <? Z.of_nat (length (g_rows users))))%Z with false; auto.
    symmetry. apply andb_false_iff. rewrite Z.leb_gt, Z.ltb_ge. lia.
  - rewrite gpu_getitem_bad; auto. exists z. auto.
Qed.
Print Assumptions C85_partial.
(** ... but in a batch, ids are reduced modulo 2^32: user 2^32 is answered with user 0's items. *)
Theorem C85_refuted :
  exists (users items : gmatrix Z) u o, (Z.of_nat (length (g_rows users)) <= u)%Z /\
    gpu_recommend sel_sort ex_fdist ex_junk (pool_size (2 ^ 30) 0) users items no_gpu_recalc (Batch [u]) NotCsr 2 false None false None = Ok o /\
    gpu_recommend sel_sort ex_fdist ex_junk (pool_size (2 ^ 30) 0) users items no_gpu_recalc (Batch [0]%Z) NotCsr 2 false None false None = Ok o.
Proof. exists ex_gusers, ex_gitems, (2 ^ 32)%Z. eexists. split; [vm_compute; discriminate|]. split; vm_compute; reflexivity. Qed.
Print Assumptions C85_refuted.
Example C85_example :
  gpu_recommend sel_sort ex_fdist ex_junk (pool_size (2 ^ 30) 0) ex_gusers ex_gitems no_gpu_recalc (Batch [0; 3]%Z) NotCsr 2 false None false None = Raise IndexError /\
  gpu_recommend sel_sort ex_fdist ex_junk (pool_size (2 ^ 30) 0) ex_gusers ex_gitems no_gpu_recalc (Scalar (-1)%Z) NotCsr 2 false None false None = Raise ValueError.
Proof. split; vm_compute; reflexivity. Qed.

(* ------------------------------------------------------------------ *)
(** C86: GPU similar_items / similar_users rank by cosine; all candidates or an explicit repeat-free list, N at most
    the number of candidates, at most 1024 factors.  Excluded candidates keep the score [fdist / norm], below every cosine for the
    constant the code uses. *)
Theorem C86_partial :
  forall sel (fdist tiny : R) junk (free : Z) (m : gmatrix R) id (N : Z) (its fi : option arr),
  select_k_ok sel -> (0 < tiny)%R -> (0 <= free)%Z ->
  let n := length (g_rows m) in let ids := id_list id in
  let cands := match its with None => seq 0 n | Some a => map Z.to_nat (arr_list a) end in
  gpu_model m m ids -> (Z.of_nat (g_cols m) <= 1024)%Z -> (1 <= N <= Z.of_nat (length cands))%Z ->
  (forall a, its = Some a -> NoDup (arr_list a) /\ (forall z, In z (arr_list a) -> (0 <= z < Z.of_nat n)%Z) /\ fi = None) ->
  (forall a, fi = Some a -> arr_list a <> [] /\ forall z, In z (arr_list a) -> (0 <= z < Z.of_nat n)%Z) ->
  gpu_similar sel fdist junk (pool_size free 0) m (gpu_norms rnorm tiny m) None id N fi its = Raise RuntimeError \/
  exists o, gpu_similar sel fdist junk (pool_size free 0) m (gpu_norms rnorm tiny m) None id N fi its = Ok o /\
    length (result_rows o) = length ids /\
    forall g, g < length ids ->
      let q := nth (Z.to_nat (nth g ids 0%Z)) (g_rows m) [] in
      exists (cos : nat -> R) (low : R) row scores,
        nth_error (result_rows o) g = Some (map Z.of_nat row, scores) /\
        (forall j, j < n -> is_cosine q (nth j (g_rows m) []) (cos j) /\ (-1 <= cos j <= 1)%R) /\
        TopN (fun j => if match fi with Some a => memz (Z.of_nat j) (arr_list a) | None => false end then low else cos j) cands (Z.to_nat N) row scores /\
        (low * (if Req_EM_T (spec_norm q) 0 then tiny else spec_norm q) = fdist)%R.
Proof.
  intros sel fdist tiny junk free m id N its fi HS Ht HF n ids cands (M1 & M2 & M3 & M4 & M5 & M6 & M7 & M8) HC HN HI HFi.
  pose proof (pool_size_default free HF) as HP.
  destruct (gpu_similar_ok sel fdist tiny junk HS Ht (pool_size free 0) m id N its fi M2 HC M5 M7 HP M6 M8 HN HI HFi) as [[X _]|[idss [scs [X [L1 [L2 TN]]]]]]; [left; exact X|right].
  fold ids in L1, L2, TN. exists (gfinish id (map (map Z.of_nat) idss) scs). split; auto. split.
  { unfold ids, gfinish, result_rows. destruct id; auto. rewrite combine_length, map_length. unfold ids in *. lia. }
  intros g Hg q. specialize (TN g Hg). cbv zeta in TN. fold q in TN.
  exists (fun j => cosine q (nth j (g_rows m) [])), (fdist / safe_norm rnorm tiny q)%R, (nth g idss []), (nth g scs []). split; [|split; [|split]].
  - apply result_row; auto.
  - intros j Hj. split; [apply cosine_is_cosine|apply cosine_range].
  - eapply TopN_ext; [|exact TN]. intros i Hi. unfold fscore. destruct fi; auto.
  - rewrite spec_norm_rnorm. pose proof (safe_norm_pos tiny q Ht) as SP. destruct (Req_EM_T (rnorm q) 0) as [E|E].
    + assert (ES : safe_norm rnorm tiny q = tiny). { unfold safe_norm. replace (neqb (rnorm q) nzero) with true by (symmetry; apply neqb_R_true; exact E). auto. }
      rewrite ES. field. lra.
    + rewrite safe_norm_eq by auto. field. auto.
Qed.
Print Assumptions C86_partial.
Example C86_example :
  gpu_similar sel_sort (-1000)%Z ex_junk (pool_size 4000 0) {| g_size := 4; g_cols := 2; g_rows := [[1; 0]; [0; 1]; [-1; 0]]%Z |} [1; 1; 1]%Z None (Batch [0; 1]%Z) 2 (Some (PyList [0]%Z)) None =
    Ok (ManyRows [[1; 2]; [1; 2]]%Z [[0; -1]; [1; 0]]%Z) /\
  gpu_similar sel_sort (-1000)%Z ex_junk (pool_size 4000 0) {| g_size := 4; g_cols := 2; g_rows := [[1; 0]; [0; 1]; [-1; 0]]%Z |} [1; 1; 1]%Z None (Scalar 0) 2 None (Some (NdArray [2; 0]%Z)) =
    Ok (OneRow [0; 2]%Z [1; -1]%Z).
Proof. split; vm_compute; reflexivity. Qed.
(** Refuted when N exceeds an explicit list: ids are looked up with uninitialised memory. *)
Theorem C86_refuted :
  exists (m : gmatrix Z) norms id N its, gpu_model m m [id] /\ map (fun v => ndot v v) (g_rows m) = [1; 1; 1]%Z /\ norms = [1; 1; 1]%Z /\ NoDup (arr_list its) /\
    (1 <= N <= Z.of_nat (length (g_rows m)))%Z /\
    (exists junk, gpu_similar sel_sort (-1000)%Z junk (pool_size (2 ^ 30) 0) m norms None (Scalar id) N None (Some its) = Raise IndexError) /\
    (exists junk, gpu_similar sel_sort (-1000)%Z junk (pool_size (2 ^ 30) 0) m norms None (Scalar id) N None (Some its) = Ok (OneRow [1; 1]%Z [0; 55]%Z)).
Proof.
  exists {| g_size := 4; g_cols := 2; g_rows := [[1; 0]; [0; 1]; [-1; 0]]%Z |}, [1; 1; 1]%Z, 0%Z, 2%Z, (NdArray [1]%Z).
  split; [gpu_model_tac|]. split; [reflexivity|]. split; [reflexivity|]. split; [repeat constructor; intros []|]. split; [cbn; lia|]. split.
  - exists ex_junk. vm_compute. reflexivity.
  - exists (fun _ => (0, 55)%Z). vm_compute. reflexivity.
Qed.
Print Assumptions C86_refuted.
(** Refuted with more than 1024 factors: the norms stay 0, and a vector of length 1 has the similarity infinity
    with itself (in single precision). *)
Theorem C86_limit_refuted :
  exists (m : gmatrix f32) (v : list f32), gpu_model m m [0%Z] /\ g_rows m = [v] /\ ndot v v = none_ /\
    forall junk norm tiny, gpu_similar sel_sort (nopp f32_max) junk (pool_size (2 ^ 30) 0) m (gpu_norms norm tiny m) None (Scalar 0%Z) 1 None None
      = Ok (OneRow [0%Z] [S754_infinity false]).
Proof.
  exists {| g_size := 4; g_cols := 1025; g_rows := [none_ :: repeat nzero 1024] |}, (none_ :: repeat nzero 1024).
  split; [gpu_model_tac|]. split; [reflexivity|]. split; [vm_compute; reflexivity|]. intros junk norm tiny. vm_compute. reflexivity.
Qed.
Print Assumptions C86_limit_refuted.

(* ------------------------------------------------------------------ *)
(** C87: GPU similar_items(recalculate_item=True): the ranking is by cosine with the recalculated factors [v], but
    the scores are divided by the norm of the stored factors. *)
Theorem C87_partial :
  forall sel (fdist tiny : R) junk (free : Z) (m : gmatrix R) (v : list R) id (N : Z),
  select_k_ok sel -> (0 < tiny)%R -> (0 <= free)%Z ->
  let n := length (g_rows m) in
  gpu_model m m [id] -> (Z.of_nat (g_cols m) <= 1024)%Z -> (1 <= N <= Z.of_nat n)%Z -> spec_norm v <> 0%R ->
  let old := nth (Z.to_nat id) (g_rows m) [] in spec_norm old <> 0%R ->
  let r := gpu_similar sel fdist junk (pool_size free 0) m (gpu_norms rnorm tiny m) (Some (Ok {| g_size := 4; g_cols := g_cols m; g_rows := [v] |})) (Scalar id) N None None in
  r = Raise RuntimeError \/
  exists (cos : nat -> R) row scores, r = Ok (OneRow (map Z.of_nat row) scores) /\
    (forall j, j < n -> is_cosine v (nth j (g_rows m) []) (cos j)) /\
    TopN cos (seq 0 n) (Z.to_nat N) row (map cos row) /\
    scores = map (fun j => cos j * spec_norm v / spec_norm old)%R row.
Proof.
  intros sel fdist tiny junk free m v id N HS Ht HF n (M1 & M2 & M3 & M4 & M5 & M6 & M7 & M8) HC HN NV old NOld r.
  pose proof (pool_size_default free HF) as HP.
  pose proof (M8 id (or_introl eq_refl)) as Hid.
  destruct (knn_rows' sel fdist junk HS (pool_size free 0) m {| g_size := 4; g_cols := g_cols m; g_rows := [v] |} N (Some (norms_of rnorm tiny (g_rows m))) None None) as [[X _]|[idss [scs [X [L1 [L2 TN]]]]]]; auto.
  - intros ns E. injection E as <-. unfold norms_of. apply map_length.
  - split; intros ? ? E; discriminate E.
  - fold n. lia.
  - discriminate.
  - left. unfold r, gpu_similar, gpu_candidates, gpu_norms. rewrite (proj2 (Z.leb_le _ _) HC). cbn [bind int_vector]. rewrite X. reflexivity.
  - right. cbn in L1, L2. specialize (TN 0 ltac:(cbn; lia)). cbn [g_rows nth] in TN.
    exists (fun j => cosine v (nth j (g_rows m) [])), (nth 0 idss []), (map (fun s => ndiv s (safe_norm rnorm tiny old)) (nth 0 scs [])).
    fold n in TN.
    assert (NV' : rnorm v <> 0%R) by (rewrite <- spec_norm_rnorm; auto). assert (NO' : rnorm old <> 0%R) by (rewrite <- spec_norm_rnorm; auto).
    assert (PV : (0 < rnorm v)%R) by (pose proof (rnorm_pos v); lra).
    assert (TC : TopN (fun j => cosine v (nth j (g_rows m) [])) (seq 0 n) (Z.to_nat N) (nth 0 idss []) (map (fun s => ndiv s (rnorm v)) (nth 0 scs []))).
    { eapply TopN_ext; [|apply TopN_div; [exact PV|exact TN]]. intros i Hi. apply in_seq in Hi. unfold fscore, hidden, base_score. cbn [orb]. rewrite norms_nth by (auto; unfold n in Hi; lia).
      rewrite ndot_rdot. change (@ndiv R Num_R) with Rdiv. rewrite <- (safe_norm_eq tiny v NV'). apply safe_cosine; auto. }
    split; [|split; [|split]].
    + unfold r, gpu_similar, gpu_candidates, gpu_norms. rewrite (proj2 (Z.leb_le _ _) HC). cbn [bind int_vector]. rewrite X. cbn [bind gremap fst snd id_list]. rewrite norm_lookup by (auto; intros z [<-|[]]; auto). cbn [bind map]. fold old.
      destruct idss as [|i0 [|]]; [discriminate L1| |discriminate L1]. destruct scs as [|s0 [|]]; [discriminate L2| |discriminate L2]. reflexivity.
    + intros j Hj. apply cosine_is_cosine.
    + pose proof (topn_scores _ _ _ _ _ TC) as ES. rewrite ES in TC. exact TC.
    + pose proof (topn_scores _ _ _ _ _ TC) as ES. rewrite (safe_norm_eq tiny old NO'). rewrite !spec_norm_rnorm.
      assert (E2 : nth 0 scs [] = map (fun j => cosine v (nth j (g_rows m) []) * rnorm v)%R (nth 0 idss [])).
      { transitivity (map (fun s => s * rnorm v)%R (map (fun s => ndiv s (rnorm v)) (nth 0 scs []))).
        - rewrite map_map. rewrite <- (map_id (nth 0 scs [])) at 1. apply map_ext. intros s. change (@ndiv R Num_R) with Rdiv. field. auto.
        - rewrite ES, map_map. reflexivity. }
      rewrite E2, map_map. apply map_ext. intros j. reflexivity.
Qed.
Print Assumptions C87_partial.
(** So the scores are no cosines: with a recalculated row twice as long as the stored one they reach 2. *)
Theorem C87_refuted :
  exists (m : gmatrix Z) norms (v : list Z) id, gpu_model m m [id] /\ map (fun v => ndot v v) (g_rows m) = [1; 1; 1]%Z /\ norms = [1; 1; 1]%Z /\
    gpu_similar sel_sort (-1000)%Z ex_junk (pool_size (2 ^ 30) 0) m norms (Some (Ok {| g_size := 4; g_cols := 2; g_rows := [v] |})) (Scalar id) 2 None None = Ok (OneRow [0; 1]%Z [2; 0]%Z).
Proof. exists {| g_size := 4; g_cols := 2; g_rows := [[1; 0]; [0; 1]; [-1; 0]]%Z |}, [1; 1; 1]%Z, [2; 0]%Z, 0%Z. split; [gpu_model_tac|]. split; [reflexivity|]. split; [reflexivity|]. vm_compute. reflexivity. Qed.
Print Assumptions C87_refuted.
Example C87_example : exists (m : gmatrix R) v id, gpu_model m m [id] /\ spec_norm v <> 0%R /\ spec_norm (nth (Z.to_nat id) (g_rows m) []) <> 0%R /\ length (g_rows m) = 3.
Proof.
  exists {| g_size := 4; g_cols := 2; g_rows := [[1; 0]; [0; 1]; [-1; 0]]%R |}, [2; 0]%R, 0%Z. split; [gpu_model_tac|].
  assert (P : forall a, (0 < a)%R -> spec_norm [a; 0]%R <> 0%R).
  { intros a Ha E. rewrite spec_norm_rnorm in E. pose proof (rnorm_zero _ E a (or_introl eq_refl)). lra. }
  split; [apply P; lra|]. split; [apply P; lra|reflexivity].
Qed.
