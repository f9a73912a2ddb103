(** C164: the GPU models refuse what the CPU models refuse, with the same exception. *)
From Coq Require Import List Arith Lia Bool ZArith Permutation.
From Verif Require Import Base Num Heap Sparse TopkModel TopkSpec TopkProofs RecommendModel RecommendProofs RecommendProofs2 RecommendProofs3
  SimilarProofs PropTopk PropRecommend GpuKnn GpuKnnProofs GpuKnnProofs2 GpuKnnProofs3 PropGpuKnn.
Import ListNotations.

(** Rows that exist. *)
Definition known (n : nat) (ids : list Z) : Prop := forall z, In z ids -> (0 <= z < Z.of_nat n)%Z.
(** A list of things to filter that is not empty. *)
Definition filters (fi : option arr) : Prop := exists a, fi = Some a /\ match a with PyList l => l <> [] | NdArray l => 2 <= length l end.
Definition matrix_fits {T} (ids : list Z) (ui : sparse_arg T) : Prop := exists M, ui = Csr M /\ c_rows M = length ids.

(** Calls of recommend that are not meaningful, and the exceptions of the documentation and of the CPU: with [nu]
    users and [ni] items. *)
Inductive refused {T} (nu ni : nat) (id : idarg) (ui : sparse_arg T) (liked : bool) (fi : option arr) (rc : bool) (items : option arr) : exn -> Prop :=
| no_matrix : liked || rc = true -> ui = NotCsr -> refused nu ni id ui liked fi rc items ValueError
| wrong_rows M : liked || rc = true -> ui = Csr M -> c_rows M <> length (id_list id) -> refused nu ni id ui liked fi rc items ValueError
| two_lists its : rc = false -> (liked = true -> matrix_fits (id_list id) ui) -> known nu (id_list id) -> id_list id <> [] ->
    items = Some its -> filters fi -> refused nu ni id ui liked fi rc items ValueError
| unknown_item its z : rc = false -> (liked = true -> matrix_fits (id_list id) ui) -> known nu (id_list id) -> id_list id <> [] ->
    items = Some its -> fi = None -> In z (arr_list its) -> ~ (0 <= z < Z.of_nat ni)%Z -> refused nu ni id ui liked fi rc items IndexError
| no_items : rc = false -> (liked = true -> matrix_fits (id_list id) ui) -> known nu (id_list id) -> id_list id <> [] ->
    items = Some (PyList []) -> fi = None -> refused nu ni id ui liked fi rc items IndexError
| unknown_users us z : rc = false -> (liked = true -> matrix_fits (id_list id) ui) -> id = Batch us -> In z us ->
    ~ (- Z.of_nat nu <= z < Z.of_nat nu)%Z -> refused nu ni id ui liked fi rc items IndexError.

Lemma filters_truthy fi : filters fi -> truthy fi = Ok true \/ truthy fi = Raise ValueError.
Proof. intros (a & -> & L). destruct a as [l|l]; cbn; [left; destruct l; [congruence|auto]|]. destruct l as [|x [|y l]]; cbn in L; try lia. auto. Qed.

(** Ids that a 32-bit integer can hold. *)
Definition ids32 (id : idarg) (items : option arr) : Prop :=
  (forall z, In z (id_list id) -> - 2 ^ 31 <= z < 2 ^ 31)%Z /\ (forall a z, items = Some a -> In z (arr_list a) -> - 2 ^ 31 <= z < 2 ^ 31)%Z.
Theorem C164_recommend_partial : forall (T : Type) (HT : Num T) (HO : NumOrd T) HP (fmin : T) sel fdist junk pool (users items_m : gmatrix T) recalc grecalc id ui N liked fi rc items e,
  (Z.of_nat (length (g_rows users)) <= 2 ^ 31)%Z -> ids32 id items ->
  refused (length (g_rows users)) (length (g_rows items_m)) id ui liked fi rc items e ->
  recommend HP fmin {| user_factors := g_rows users; item_factors := g_rows items_m |} recalc id ui N liked fi rc items = Raise e /\
  gpu_recommend sel fdist junk pool users items_m grecalc id ui N liked fi rc items = Raise e.
Proof.
  intros T HT HO HP fmin sel fdist junk pool users items_m recalc grecalc id ui N liked fi rc items e LU [I1 I2] RF.
  set (m := {| user_factors := g_rows users; item_factors := g_rows items_m |}).
  assert (CHK : forall b : bool, (b = true -> matrix_fits (id_list id) ui) ->
    (if b || false then match ui with NotCsr => Raise ValueError | Csr M => if c_rows M =? length (id_list id) then Ok tt else Raise ValueError end else Ok tt) = Ok tt).
  { intros b HB. destruct b; auto. destruct (HB eq_refl) as (M & -> & ->). cbn. rewrite Nat.eqb_refl. auto. }
  destruct RF as [A -> | M A -> NE | its -> ML K NE -> FI | its z -> ML K NE -> -> Hz NZ | -> ML K NE -> -> | us z -> ML -> Hz NZ].
  - unfold recommend, gpu_recommend. rewrite A. auto.
  - unfold recommend, gpu_recommend. rewrite A. destruct (Nat.eqb_spec (c_rows M) (length (id_list id))); [congruence|auto].
  - unfold recommend, gpu_recommend. rewrite (CHK liked ML). cbn [bind]. unfold user_factor. rewrite gather_ok by (intros z Hz; specialize (K z Hz); unfold idx_ok; cbn; lia).
    rewrite gpu_getitem_ok by auto. cbn [bind]. unfold restrict_items. destruct (filters_truthy fi FI) as [-> | ->]; auto.
  - split; [apply (recommend_items_bad HP fmin m); auto; cbn; [intros x Hx; specialize (K x Hx); unfold idx_ok; lia|exists z; auto]|].
    unfold gpu_recommend. rewrite (CHK liked ML). cbn [bind]. rewrite gpu_getitem_ok by auto. cbn [bind truthy].
    rewrite gpu_getitem_bad; [auto| |].
    + exists z. split; auto. eapply Permutation_in; [symmetry; apply sort_z_perm|auto].
    + intros x Hx. apply (I2 its x eq_refl). eapply Permutation_in; [apply sort_z_perm|auto].
  - unfold recommend, gpu_recommend. rewrite (CHK liked ML). cbn [bind]. unfold user_factor. rewrite gather_ok by (intros z Hz; specialize (K z Hz); unfold idx_ok; cbn; lia).
    rewrite gpu_getitem_ok by auto. cbn [bind truthy]. unfold restrict_items. cbn. auto.
  - split; [apply (recommend_bad_user HP fmin m); auto; exists z; auto|].
    unfold gpu_recommend. rewrite (CHK liked ML). cbn [bind]. rewrite gpu_getitem_bad; auto. exists z. split; auto. cbn in *. lia.
Qed.
Print Assumptions C164_recommend_partial.

Lemma norms_or {T} `{Num T} (norms : list T) l : (exists q, map_res (fun z => do i <- np_index (length norms) z; Ok (nth i norms nzero)) l = Ok q) \/
  map_res (fun z => do i <- np_index (length norms) z; Ok (nth i norms nzero)) l = Raise IndexError.
Proof.
  induction l as [|x l IH]; [left; exists []; reflexivity|]. cbn [map_res].
  assert (NP : (exists i, np_index (length norms) x = Ok i) \/ np_index (length norms) x = Raise IndexError).
  { unfold np_index. destruct (_ && _); [left; eexists; reflexivity|]. destruct (_ && _); [left; eexists; reflexivity|right; reflexivity]. }
  destruct NP as [(i & ->)| ->]; cbn [bind]; [|right; reflexivity]. destruct IH as [(q & ->)| ->]; [left; eexists; reflexivity|right; reflexivity].
Qed.
(** similar_items and similar_users. *)
Inductive refused_similar (n : nat) (id : idarg) (fi items : option arr) : exn -> Prop :=
| two_lists_sim its : known n (id_list id) -> items = Some its -> filters fi -> refused_similar n id fi items ValueError
| unknown_sim its z : known n (id_list id) -> items = Some its -> fi = None -> In z (arr_list its) -> ~ (0 <= z < Z.of_nat n)%Z -> refused_similar n id fi items IndexError
| no_items_sim : known n (id_list id) -> items = Some (PyList []) -> fi = None -> refused_similar n id fi items IndexError.
Theorem C164_similar_partial : forall (T : Type) (HT : Num T) (HO : NumOrd T) HP (fmin : T) sel fdist junk pool (m : gmatrix T) norms id N fi items e,
  length norms = length (g_rows m) -> ids32 id items ->
  refused_similar (length (g_rows m)) id fi items e ->
  similar HP fmin (g_rows m) norms id N fi items = Raise e /\
  gpu_similar sel fdist junk pool m norms None id N fi items = Raise e.
Proof.
  intros T HT HO HP fmin sel fdist junk pool m norms id N fi items e LN [I1 I2] RF.
  assert (NM : forall l, known (length (g_rows m)) l -> exists q, map_res (fun z => do i <- np_index (length norms) z; Ok (nth i norms nzero)) l = Ok q).
  { intros l K. eexists. apply (map_res_map _ (fun z => nth (wrap (length norms) z) norms nzero)). intros a Ha. rewrite np_index_ok; auto. specialize (K a Ha). unfold idx_ok. lia. }
  destruct RF as [its K -> FI | its z K -> -> Hz NZ | K -> -> ].
  - unfold similar, gpu_similar, gpu_candidates, restrict_similar. destruct (NM _ K) as (q & ->). cbn [bind]. destruct (filters_truthy fi FI) as [-> | ->]; auto.
  - split; [apply similar_items_bad; auto; [intros x Hx; specialize (K x Hx); unfold idx_ok; lia|exists z; auto]|].
    assert (BAD : gpu_getitem m (Batch (arr_list its)) = Raise IndexError) by (apply gpu_getitem_bad; [exists z; auto|intros x Hx; apply (I2 its x eq_refl); exact Hx]).
    unfold gpu_similar, gpu_candidates. cbn [truthy bind]. destruct its as [[|x l]|l]; [destruct Hz| |].
    all: match goal with |- context [map_res ?f ?L] => destruct (norms_or norms L) as [(q & EQ)|EQ]; unfold arr_list in *; rewrite EQ end; cbn [bind]; auto; rewrite BAD; auto.
  - unfold similar, gpu_similar, gpu_candidates, restrict_similar. destruct (NM _ K) as (q & ->). cbn. auto.
Qed.
Print Assumptions C164_similar_partial.

(** The full claim, that the two implementations refuse the same calls with the same exception, is false: of the same
    model, one user that does not exist is an IndexError on the CPU and a ValueError on the GPU; a negative user id
    and an empty list of items to filter are answered on the CPU and refused on the GPU; an empty array of items is
    refused with different exceptions. *)
Theorem C164_refuted : exists (users items_m : gmatrix Z), forall HP,
  let cpu id fi items := recommend HP fmin32 {| user_factors := g_rows users; item_factors := g_rows items_m |} no_recalc id NotCsr 2 false fi false items in
  let gpu id fi items := gpu_recommend sel_sort ex_fdist ex_junk (pool_size 4000 0) users items_m no_gpu_recalc id NotCsr 2 false fi false items in
  (cpu (Scalar 3) None None = Raise IndexError /\ gpu (Scalar 3) None None = Raise ValueError) /\
  (cpu (Scalar 0) None (Some (NdArray [])) = Raise ValueError /\ gpu (Scalar 0) None (Some (NdArray [])) = Raise IndexError) /\
  (HP = simple_heap ->
    (exists o, cpu (Scalar (-1)) None None = Ok o) /\ gpu (Scalar (-1)) None None = Raise ValueError /\
    (exists o, cpu (Batch [-1]%Z) None None = Ok o) /\ gpu (Batch [-1]%Z) None None = Raise IndexError /\
    (exists o, cpu (Scalar 0) (Some (PyList [])) None = Ok o) /\ gpu (Scalar 0) (Some (PyList [])) None = Raise IndexError).
Proof.
  exists ex_gusers, ex_gitems. intros HP. cbv zeta. split; [split; vm_compute; reflexivity|]. split; [split; vm_compute; reflexivity|].
  intros ->. split; [eexists; vm_compute; reflexivity|]. split; [vm_compute; reflexivity|].
  split; [eexists; vm_compute; reflexivity|]. split; [vm_compute; reflexivity|].
  split; [eexists; vm_compute; reflexivity|]. vm_compute; reflexivity.
Qed.
Print Assumptions C164_refuted.

(** Calls of every refused kind. *)
Example C164_example :
  let r ui liked fi rc items e := refused 3 4 (Batch [2; 0]%Z) ui liked fi rc items e /\ ids32 (Batch [2; 0]%Z) items /\
    recommend simple_heap fmin32 {| user_factors := g_rows ex_gusers; item_factors := g_rows ex_gitems |} no_recalc (Batch [2; 0]%Z) ui 2 liked fi rc items = Raise e /\
    gpu_recommend sel_sort ex_fdist ex_junk (pool_size 4000 0) ex_gusers ex_gitems no_gpu_recalc (Batch [2; 0]%Z) ui 2 liked fi rc items = Raise e in
  r NotCsr true None false None ValueError /\ r (Csr ex_glikes) true None false None ValueError /\
  r NotCsr false (Some (PyList [1]%Z)) false (Some (NdArray [0; 1]%Z)) ValueError /\
  r NotCsr false (Some (NdArray [1; 2]%Z)) false (Some (NdArray [0; 1]%Z)) ValueError /\
  r NotCsr false None false (Some (NdArray [0; 4]%Z)) IndexError /\ r NotCsr false None false (Some (PyList [-1; 2]%Z)) IndexError /\
  r NotCsr false None false (Some (PyList [])) IndexError /\
  refused (T:=Z) 3 4 (Batch [2; 5]%Z) NotCsr false None false None IndexError /\
  refused_similar 4 (Scalar 3) (Some (PyList [1]%Z)) (Some (NdArray [0; 1]%Z)) ValueError /\ refused_similar 4 (Scalar 3) None (Some (PyList [0; 9]%Z)) IndexError.
Proof.
  assert (K : known 3 (id_list (Batch [2; 0]%Z))). { intros z Hz. cbn in *. lia. }
  assert (I32 : forall l, (forall z, In z l -> (-10 <= z <= 10)%Z) -> ids32 (Batch [2; 0]%Z) (Some (NdArray l)) /\ ids32 (Batch [2; 0]%Z) (Some (PyList l))).
  { intros l Hl. split; (split; [intros z Hz; cbn in Hz; lia|intros a z E Hz; injection E as <-; cbn in Hz; specialize (Hl z Hz); lia]). }
  assert (I0 : ids32 (Batch [2; 0]%Z) None). { split; [intros z Hz; cbn in Hz; lia|congruence]. }
  assert (NE : id_list (Batch [2; 0]%Z) <> []) by discriminate.
  assert (FF : forall ui : sparse_arg Z, false = true -> matrix_fits (id_list (Batch [2; 0]%Z)) ui) by discriminate.
  assert (B2 : forall x y : Z, (-10 <= x <= 10)%Z -> (-10 <= y <= 10)%Z -> forall z, In z [x; y] -> (-10 <= z <= 10)%Z). { intros x y X Y z [<-|[<-|[]]]; auto. }
  assert (Q : forall (A B C D : Prop), A -> B -> C /\ D -> A /\ B /\ C /\ D) by tauto.
  cbv zeta. refine (conj _ (conj _ (conj _ (conj _ (conj _ (conj _ (conj _ (conj _ (conj _ _)))))))));
    try (apply Q; [|solve [exact I0|apply I32; apply B2; lia|apply I32; intros z []]|split; vm_compute; reflexivity]).
  - apply no_matrix; reflexivity.
  - apply wrong_rows with (M := ex_glikes); [reflexivity|reflexivity|]. vm_compute. discriminate.
  - eapply two_lists; eauto. exists (PyList [1]%Z). split; auto. discriminate.
  - eapply two_lists; eauto. exists (NdArray [1; 2]%Z). split; auto.
  - eapply unknown_item with (z := 4%Z); eauto; cbn; lia.
  - eapply unknown_item with (z := (-1)%Z); eauto; cbn; lia.
  - eapply no_items; eauto.
  - eapply unknown_users with (z := 5%Z); eauto; try discriminate; cbn; lia.
  - eapply two_lists_sim; eauto; [intros z Hz; cbn in *; lia|]. exists (PyList [1]%Z). split; auto. discriminate.
  - eapply unknown_sim with (z := 9%Z); eauto; [intros z Hz; cbn in *; lia| |]; cbn; lia.
Qed.
