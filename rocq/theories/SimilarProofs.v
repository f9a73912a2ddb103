(** similar_items / similar_users over the reals. *)
From Coq Require Import List Arith Lia Bool ZArith Permutation Sorted Reals Lra Psatz.
From Verif Require Import Base Num Heap Sparse TopkModel TopkSpec TopkProofs TopkBatch
  RecommendModel RecommendProofs RecommendProofs2 RecommendProofs3 RVec.
Import ListNotations.

(** [np.linalg.norm] of a vector. *)
Definition rnorm (v : list R) : R := sqrt (rdot v v).

Lemma rnorm_pos v : (0 <= rnorm v)%R.
Proof. apply sqrt_pos. Qed.

Lemma neqb_R_true (a b : R) : neqb a b = true <-> a = b.
Proof.
  unfold neqb. change (@nltb R Num_R) with Rltb. unfold Rltb.
  destruct (Rlt_dec a b), (Rlt_dec b a); simpl; split; intros; try discriminate; try lra; auto.
Qed.

Lemma nleb_R (a b : R) : nleb a b = true <-> (a <= b)%R.
Proof.
  unfold nleb. change (@nltb R Num_R) with Rltb. unfold Rltb.
  destruct (Rlt_dec b a); simpl; split; intros; try discriminate; try lra; auto.
Qed.

Lemma safe_norm_pos tiny v : (0 < tiny)%R -> (0 < safe_norm rnorm tiny v)%R.
Proof.
  intros Ht. unfold safe_norm. destruct (neqb (rnorm v) nzero) eqn:E; auto.
  pose proof (rnorm_pos v). destruct (Req_dec (rnorm v) 0) as [Z|Z]; [|lra].
  assert (neqb (rnorm v) nzero = true) by (apply neqb_R_true; auto). congruence.
Qed.

Lemma safe_norm_eq tiny v : rnorm v <> 0%R -> safe_norm rnorm tiny v = rnorm v.
Proof.
  intros NZ. unfold safe_norm. destruct (neqb (rnorm v) nzero) eqn:E; auto.
  apply neqb_R_true in E. contradiction.
Qed.

Lemma rnorm_zero v : rnorm v = 0%R -> forall a, In a v -> a = 0%R.
Proof. intros E. apply rdot_zero. apply sqrt_eq_0; auto. apply rdot_nonneg. Qed.

(** Cosine of the angle; 0 when a vector is null. *)
Definition cosine (u v : list R) : R :=
  if Req_EM_T (rnorm u) 0 then 0 else if Req_EM_T (rnorm v) 0 then 0
  else rdot u v / (rnorm u * rnorm v).

Lemma safe_cosine tiny u v : (0 < tiny)%R ->
  (rdot u v / safe_norm rnorm tiny v / safe_norm rnorm tiny u)%R = cosine u v.
Proof.
  intros Ht. unfold cosine.
  destruct (Req_EM_T (rnorm u) 0) as [U|U].
  { rewrite (rdot_all_zero u v) by (apply rnorm_zero; auto). unfold Rdiv. ring. }
  destruct (Req_EM_T (rnorm v) 0) as [V|V].
  { rewrite rdot_comm, (rdot_all_zero v u) by (apply rnorm_zero; auto). unfold Rdiv. ring. }
  rewrite !safe_norm_eq by auto. field. auto.
Qed.

Lemma cosine_range u v : (-1 <= cosine u v <= 1)%R.
Proof.
  unfold cosine. destruct (Req_EM_T (rnorm u) 0) as [|U]; [lra|]. destruct (Req_EM_T (rnorm v) 0) as [|V]; [lra|].
  pose proof (rnorm_pos u). pose proof (rnorm_pos v). pose proof (cauchy_schwarz u v) as CS.
  assert (Eu : (rnorm u * rnorm u = rdot u u)%R) by (apply sqrt_sqrt, rdot_nonneg).
  assert (Ev : (rnorm v * rnorm v = rdot v v)%R) by (apply sqrt_sqrt, rdot_nonneg).
  set (p := (rnorm u * rnorm v)%R). assert (P : (0 < p)%R) by (unfold p; nra).
  assert (AB : (Rabs (rdot u v) <= p)%R).
  { apply Rsqr_incr_0_var; [|lra]. rewrite <- Rsqr_abs. unfold Rsqr, p. nra. }
  apply Rabs_le_inv in AB || (unfold Rabs in AB; destruct (Rcase_abs (rdot u v))).
  all: split; [apply Rmult_le_reg_r with p|apply Rmult_le_reg_r with p]; auto; unfold Rdiv; rewrite Rmult_assoc, Rinv_l by lra; lra.
Qed.

Lemma cosine_self u : rnorm u <> 0%R -> cosine u u = 1%R.
Proof.
  intros NZ. unfold cosine. destruct (Req_EM_T (rnorm u) 0); [contradiction|].
  assert (Eu : (rnorm u * rnorm u = rdot u u)%R) by (apply sqrt_sqrt, rdot_nonneg).
  rewrite <- Eu. field. auto.
Qed.

Section S.
Variables (HP : std_heap) (HC : std_heap_ok HP) (fmin tiny : R).
Hypothesis tiny_pos : (0 < tiny)%R.

Lemma TopN_div (score : nat -> R) cands n ids sc c : (0 < c)%R ->
  TopN score cands n ids sc ->
  TopN (fun i => (score i / c)%R) cands n ids (map (fun s => ndiv s c) sc).
Proof.
  intros Hc [L S N I D B].
  assert (M : forall a b : R, nleb a b = true -> nleb (a / c)%R (b / c)%R = true).
  { intros a b E. apply nleb_R in E. apply nleb_R. unfold Rdiv. apply Rmult_le_compat_r; auto.
    left. apply Rinv_0_lt_compat; auto. }
  constructor; auto.
  - rewrite S, map_map. auto.
  - eapply ss_map_in; [|exact D]. intros x y _ _. apply M.
Qed.

Definition sim_wf (factors : list (list R)) (f : nat) : Prop := forall y, In y factors -> length y = f.

Lemma norms_nth rows i : i < length rows ->
  nth i (norms_of rnorm tiny rows) nzero = safe_norm rnorm tiny (nth i rows []).
Proof.
  intros Hi. unfold norms_of.
  rewrite (nth_indep _ _ (safe_norm rnorm tiny [])) by (rewrite map_length; auto).
  apply map_nth.
Qed.

Lemma repeat_map_pad (r : list R) k c : (0 < c)%R ->
  map (fun s => ndiv s c) (pad k nzero r) = pad k nzero (map (fun s => ndiv s c) r).
Proof.
  intros Hc. unfold pad. rewrite map_app, map_length. f_equal.
  induction (k - length r); simpl; auto. f_equal; auto. change (@nzero R Num_R) with 0%R.
  change (@ndiv R Num_R) with Rdiv. unfold Rdiv. ring.
Qed.

(** Without items and filter. *)
Lemma similar_scalar factors f id N :
  sim_wf factors f -> idx_ok (length factors) id -> (0 < N)%Z ->
  let n := length factors in
  exists ids scores,
    similar HP fmin factors (norms_of rnorm tiny factors) (Scalar id) N None None =
      Ok (OneRow (map Z.of_nat (pad (Z.to_nat N) 0 ids)) (pad (Z.to_nat N) 0%R scores)) /\
    TopN (fun j => cosine (nth (wrap n id) factors []) (nth j factors []))
         (seq 0 n) (Nat.min (Z.to_nat N) n) ids scores.
Proof.
  intros W Hid HN n. unfold similar. cbn [id_list].
  assert (Ln : length (norms_of rnorm tiny factors) = n) by (unfold norms_of; apply map_length).
  cbn [map_res]. rewrite Ln. unfold n at 1. rewrite np_index_ok by auto. cbn [bind]. fold n.
  unfold restrict_similar. cbn [bind]. rewrite gather_ok by (intros z [<-|[]]; auto). cbn [bind map].
  pose proof (wrap_lt _ _ Hid) as HW. fold n in HW. fold n.
  set (q := nth (wrap n id) factors []) in *.
  unfold similarity_score. cbn [option_map].
  destruct (topk_row_topn HP HC fmin factors (Some (norms_of rnorm tiny factors)) None None (Z.to_nat N) 0 q)
    as [r [E TN]]; auto; try lia.
  { intros y Hy. rewrite (W y Hy). symmetry. apply W. apply nth_In. auto. }
  assert (NE : factors <> []) by (intro X; unfold n in HW; rewrite X in HW; simpl in HW; lia).
  assert (ET : topk HP fmin factors [q] N (Some (norms_of rnorm tiny factors)) None None =
     Ok (map (fun r => pad (Z.to_nat N) 0 (map snd r)) [r], map (fun r => pad (Z.to_nat N) nzero (map fst r)) [r])).
  { apply topk_ok; auto. exists [r]. split; auto. constructor; auto. }
  rewrite ET. cbn [bind finish fst snd map combine nth remap].
  rewrite norms_nth by auto. fold q.
  set (c := safe_norm rnorm tiny q). assert (Hc : (0 < c)%R) by (apply safe_norm_pos; auto).
  rewrite repeat_map_pad by auto.
  exists (map snd r), (map (fun s => ndiv s c) (map fst r)). split; auto.
  eapply TopN_ext; [|apply TopN_div; [exact Hc|exact TN]].
  intros j Hj. apply in_seq in Hj. unfold fscore, filtered. cbn [orb]. unfold base_score.
  rewrite norms_nth by (unfold n in Hj; lia). rewrite ndot_rdot. change (@ndiv R Num_R) with Rdiv.
  apply safe_cosine; auto.
Qed.

(** With an explicit list of items: a ranking of the positions of the list, in
    the order given, padded with position 0. *)
Lemma similar_items_positions factors f id N its :
  sim_wf factors f -> idx_ok (length factors) id -> (0 < N)%Z ->
  arr_list its <> [] -> (forall z, In z (arr_list its) -> in_model (length factors) z) ->
  let n := length factors in
  let l := arr_list its in
  exists pos scores,
    similar HP fmin factors (norms_of rnorm tiny factors) (Scalar id) N None (Some its) =
      Ok (OneRow (map (fun p => nth p l 0%Z) (pad (Z.to_nat N) 0 pos)) (pad (Z.to_nat N) 0%R scores)) /\
    TopN (fun p => cosine (nth (wrap n id) factors []) (nth (Z.to_nat (nth p l 0%Z)) factors []))
         (seq 0 (length l)) (Nat.min (Z.to_nat N) (length l)) pos scores.
Proof.
  intros W Hid HN NE B n l. unfold similar. cbn [id_list].
  assert (Ln : length (norms_of rnorm tiny factors) = n) by (unfold norms_of; apply map_length).
  cbn [map_res]. rewrite Ln. unfold n at 1. rewrite np_index_ok by auto. cbn [bind]. fold n.
  pose proof (wrap_lt _ _ Hid) as HW. fold n in HW.
  assert (BI : forall z, In z l -> idx_ok n z /\ wrap n z = Z.to_nat z /\ Z.to_nat z < n).
  { intros z Hz. specialize (B z Hz). unfold in_model in B. fold n in B. unfold idx_ok. split; [lia|].
    split; [apply wrap_nonneg; lia|lia]. }
  set (facs := map (fun z => nth (Z.to_nat z) factors []) l).
  set (ns := map (fun z => safe_norm rnorm tiny (nth (Z.to_nat z) factors [])) l).
  assert (ER : restrict_similar factors (norms_of rnorm tiny factors) None (Some its) = Ok (Some l, facs, ns)).
  { unfold restrict_similar. cbn [truthy bind]. fold n. rewrite Ln.
    assert (X : (do facs <- gather factors l;
      do ns <- map_res (fun z => do i <- np_index n z; Ok (nth i (norms_of rnorm tiny factors) nzero)) l;
      do bad <- out_of_model n l;
      if bad : bool then Raise IndexError else Ok (Some l, facs, ns)) = Ok (Some l, facs, ns)).
    { rewrite gather_ok by (intros z Hz; apply BI; auto). cbn [bind].
      rewrite (map_res_map _ (fun z => safe_norm rnorm tiny (nth (Z.to_nat z) factors []))).
      2:{ intros z Hz. destruct (BI z Hz) as [I1 [I2 I3]]. rewrite np_index_ok by auto. cbn [bind]. rewrite I2.
          rewrite norms_nth by auto. auto. }
      cbn [bind]. rewrite out_of_model_ok by auto. cbn [bind]. f_equal. f_equal. f_equal.
      apply map_ext_in. intros z Hz. destruct (BI z Hz) as [I1 [I2 I3]]. fold n. rewrite I2. auto. }
    destruct its as [[|a l0]|l0]; auto. exfalso. apply NE. auto. }
  rewrite ER. cbn [bind]. rewrite gather_ok by (intros z [<-|[]]; auto). cbn [bind map]. fold n.
  set (q := nth (wrap n id) factors []) in *.
  unfold similarity_score. cbn [option_map].
  assert (Lf : length facs = length l) by (unfold facs; apply map_length).
  destruct (topk_row_topn HP HC fmin facs (Some ns) None None (Z.to_nat N) 0 q)
    as [r [E TN]]; auto; try lia.
  { intros y Hy. unfold facs in Hy. apply in_map_iff in Hy. destruct Hy as [z [<- Hz]].
    rewrite (W (nth (Z.to_nat z) factors [])) by (apply nth_In; apply BI; auto).
    symmetry. apply W. apply nth_In. auto. }
  { unfold ns, facs. rewrite !map_length. auto. }
  assert (LP : 0 < length l) by (unfold l; destruct (arr_list its); simpl; [congruence|lia]).
  assert (NEf : facs <> []) by (destruct facs; simpl in *; [lia|discriminate]).
  assert (ET : topk HP fmin facs [q] N (Some ns) None None =
     Ok (map (fun r => pad (Z.to_nat N) 0 (map snd r)) [r], map (fun r => pad (Z.to_nat N) nzero (map fst r)) [r])).
  { apply topk_ok; auto. exists [r]. split; auto. constructor; auto. }
  rewrite ET. cbn [bind finish fst snd map combine nth remap].
  rewrite norms_nth by auto. fold q.
  set (c := safe_norm rnorm tiny q). assert (Hc : (0 < c)%R) by (apply safe_norm_pos; auto).
  rewrite repeat_map_pad by auto.
  exists (map snd r), (map (fun s => ndiv s c) (map fst r)). split; auto.
  rewrite <- Lf. eapply TopN_ext; [|apply TopN_div; [exact Hc|exact TN]].
  intros j Hj. apply in_seq in Hj. unfold fscore, filtered. cbn [orb]. unfold base_score.
  assert (E1 : nth j facs [] = nth (Z.to_nat (nth j l 0%Z)) factors []).
  { unfold facs. rewrite (nth_indep _ [] ((fun z => nth (Z.to_nat z) factors []) 0%Z)) by (rewrite map_length; lia).
    apply (map_nth (fun z => nth (Z.to_nat z) factors [])). }
  assert (E2 : nth j ns nzero = safe_norm rnorm tiny (nth (Z.to_nat (nth j l 0%Z)) factors [])).
  { unfold ns. rewrite (nth_indep _ nzero ((fun z => safe_norm rnorm tiny (nth (Z.to_nat z) factors [])) 0%Z)) by (rewrite map_length; lia).
    apply (map_nth (fun z => safe_norm rnorm tiny (nth (Z.to_nat z) factors []))). }
  rewrite E1, E2. rewrite ndot_rdot. change (@ndiv R Num_R) with Rdiv.
  apply safe_cosine; auto.
Qed.

End S.

(** Out-of-range ids in an explicit list: never a result (any number type). *)
Section Bad.
Context {T : Type} `{NumOrd T}.
Lemma similar_items_bad HP fmin (factors : list (list T)) norms id N its :
  length norms = length factors ->
  (forall z, In z (id_list id) -> idx_ok (length factors) z) ->
  (exists z, In z (arr_list its) /\ ~ in_model (length factors) z) ->
  similar HP fmin factors norms id N None (Some its) = Raise IndexError.
Proof.
  intros Ln Hid [z [Hz B]]. unfold similar.
  rewrite (map_res_map _ (fun z => nth (wrap (length factors) z) norms nzero)).
  2:{ intros a Ha. rewrite Ln, np_index_ok by auto. auto. }
  cbn [bind]. unfold restrict_similar. cbn [truthy bind].
  assert (X : (do facs <- gather factors (arr_list its);
      do ns <- map_res (fun z => do i <- np_index (length norms) z; Ok (nth i norms nzero)) (arr_list its);
      do bad <- out_of_model (length factors) (arr_list its);
      if bad : bool then Raise IndexError else Ok (Some (arr_list its), facs, ns)) = Raise IndexError).
  { destruct (forallb (fun a => (- Z.of_nat (length factors) <=? a)%Z && (a <? Z.of_nat (length factors))%Z) (arr_list its)) eqn:F.
    - rewrite forallb_forall in F.
      assert (I : forall a, In a (arr_list its) -> idx_ok (length factors) a).
      { intros a Ha. apply F in Ha. apply andb_true_iff in Ha. rewrite Z.leb_le, Z.ltb_lt in Ha. auto. }
      rewrite gather_ok by auto. cbn [bind].
      rewrite (map_res_map _ (fun z => nth (wrap (length factors) z) norms nzero)).
      2:{ intros a Ha. rewrite Ln, np_index_ok by auto. auto. }
      cbn [bind]. unfold out_of_model. destruct (arr_list its) as [|a l'] eqn:El; [destruct Hz|].
      assert (Y : existsb (fun z0 => (Z.of_nat (length factors) <=? z0)%Z || (z0 <? 0)%Z) (a :: l') = true).
      { apply existsb_exists. exists z. split; auto. apply orb_true_iff. rewrite Z.leb_le, Z.ltb_lt.
        unfold in_model in B. lia. }
      rewrite Y. auto.
    - rewrite gather_bad; auto.
      assert (Q : exists a, In a (arr_list its) /\ ((- Z.of_nat (length factors) <=? a)%Z && (a <? Z.of_nat (length factors))%Z) = false).
      { clear -F. induction (arr_list its); simpl in F; [discriminate|].
        apply andb_false_iff in F. destruct F as [F|F]; [exists a; split; [left|]; auto|].
        destruct (IHl F) as [b [Hb Eb]]. exists b. split; [right|]; auto. }
      destruct Q as [a [Ha Ea]]. exists a. split; auto. unfold idx_ok.
      apply andb_false_iff in Ea. rewrite Z.leb_gt, Z.ltb_ge in Ea. lia. }
  destruct its as [[|a l]|l]; auto.
  rewrite X. auto. rewrite X. auto.
Qed.
End Bad.
