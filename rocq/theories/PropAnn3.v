(** C56, C73-C75: similar_items of the ANN wrappers, matrices that do not match, switched-off
    approximation and batches. *)
From Coq Require Import String Ascii List Arith Lia Bool ZArith QArith Permutation Sorted Reals Lra Psatz.
From Verif Require Import Base Num Heap Sparse TopkModel TopkSpec TopkProofs RecommendModel RecommendProofs KnnModel RVec SimilarProofs PropSimilar AnnModel AnnProofs PropAnn PropAnn2.
Import ListNotations.
Local Open Scope list_scope.
Local Open Scope nat_scope.

(* ------------------------------------------------------------------ C56 *)
(** Items outside filter_items; [cosines m z cs]: cs i is the cosine of items z and i. *)
Definition unfiltered (fi : option arr) (i : nat) : bool := negb (memz (Z.of_nat i) (filter_ids fi)).
Definition cosines (m : mf R) (z : Z) (cs : nat -> R) : Prop := forall i, is_cosine (nth (Z.to_nat z) (item_factors m) []) (nth i (item_factors m) []) (cs i).
Definition nonzero (m : mf R) (i : nat) : bool := if Req_EM_T (spec_norm (nth i (item_factors m) [])) 0 then false else true.

Lemma query_item_scalar (I : inner R) (m : mf R) z iu : (0 <= z < Z.of_nat (length (item_factors m)))%Z ->
  query_item I m (Scalar z) iu false = Ok (if i_gpu I then Fresh [nth (Z.to_nat z) (item_factors m) []] else ItemRow (Z.to_nat z)).
Proof.
  intros HZ. unfold query_item, index_rows. rewrite np_index_ok by (unfold idx_ok; lia). cbn [bind]. rewrite wrap_nonneg by lia. destruct (i_has I "_item_factor"%string); auto.
Qed.
Lemma query_item_rows (I : inner R) (m : mf R) z : nd_rows m (if i_gpu I then Fresh [nth (Z.to_nat z) (item_factors m) []] else ItemRow (Z.to_nat z)) = [nth (Z.to_nat z) (item_factors m) []].
Proof. destruct (i_gpu I); auto. Qed.
Lemma fi_len (fi : option arr) : arr_len fi = length (filter_ids fi).
Proof. destruct fi; auto. Qed.

(** NMSLib over an exact index: the N most similar unfiltered items among those with
    non-zero factors, with their cosines. *)
Theorem C56_nmslib_partial : forall (B : builders R) (E : ann_env R) (I : inner R) m arec A z iu N fi cs,
  real_env E -> cosine_index B -> nmslib_fit E B (item_factors m) true arec = Ok A ->
  (0 <= z < Z.of_nat (length (item_factors m)))%Z -> nonzero m (Z.to_nat z) = true -> cosines m z cs ->
  let cands := filter (unfiltered fi) (filter (nonzero m) (seq 0 (length (item_factors m)))) in
  exists ids scores, ann_similar_items E I A m (Scalar z) N false iu fi None = (m, Ok (OneRow (map Z.of_nat ids) scores)) /\
    TopN cs cands (Nat.min N (length cands)) ids scores.
Proof.
  intros B E I m arec A z iu N fi cs (EN & _) (d & D1 & D2) HF HZ HNZ HC cands.
  set (n := length (item_factors m)) in *. set (row := fun i => nth i (item_factors m) ([] : list R)). set (idl := filter (nonzero m) (seq 0 n)).
  assert (FIT : a_lib A = NMSLib /\ a_approx_sim A = true /\ a_sim A = b_cosine B (map (fun i => (Z.of_nat i, row i)) idl)).
  { assert (NB : filter (fun p => negb (neqb (ae_norm E (snd p)) nzero)) (numbered (item_factors m)) = map (fun i => (Z.of_nat i, row i)) idl).
    { rewrite numbered_spec, filter_map_swap. unfold idl, row. f_equal. apply filter_ext. intros i. cbn [snd]. rewrite EN. unfold nonzero.
      destruct (Req_EM_T (spec_norm (nth i (item_factors m) [])) 0) as [Y|Y].
      - apply negb_false_iff. apply neqb_R_true. exact Y.
      - apply negb_true_iff. destruct (neqb (spec_norm (nth i (item_factors m) [])) nzero) eqn:EQ; auto. apply neqb_R_true in EQ. contradiction. }
    unfold nmslib_fit in HF. rewrite NB in HF. destruct arec.
    - destruct (augment_inner_product_matrix E (item_factors m)) as [[mx ex]|]; [|discriminate]. cbn [bind] in HF. injection HF as <-. auto.
    - injection HF as <-. auto. }
  destruct FIT as (AL & AS & AX). set (q := nth (Z.to_nat z) (item_factors m) []).
  assert (NDI : NoDup idl) by (apply NoDup_filter, seq_NoDup).
  set (count := N + length (filter_ids fi)).
  destruct (D2 idl row q count NDI) as (ids0 & EH & HB).
  assert (CS : forall i, In i idl -> (1 - d q (row i) = cs i)%R).
  { intros i Hi. unfold idl in Hi. apply filter_In in Hi. destruct Hi as [_ Hi]. rewrite (D1 q (row i) (cs i)); [lra| |apply HC].
    unfold nonzero in Hi, HNZ. fold q in HNZ. fold (row i) in Hi. destruct (Req_EM_T (spec_norm q) 0); [discriminate|]. destruct (Req_EM_T (spec_norm (row i)) 0); [discriminate|].
    apply Rmult_integral_contrapositive; auto. }
  set (ids := firstn N (filter (unfiltered fi) ids0)).
  assert (B2 : Best (fun i j => nleb (cs j) (cs i) = true) idl (Nat.min count (length idl)) ids0).
  { eapply best_weaken; [|exact HB]. intros i j Hi Hj Hd. cbv beta in Hd. apply nleb_R. rewrite <- (CS i), <- (CS j) by auto. lra. }
  assert (B3 : Best (fun i j => nleb (cs j) (cs i) = true) cands (Nat.min N (length cands)) ids).
  { apply (best_filter _ _ _ _ (unfiltered fi) N (map Z.to_nat (filter_ids fi)) NDI B2); [|rewrite map_length; unfold count; lia].
    intros i Hi HA. apply negb_false_iff in HA. apply memz_spec in HA. apply in_map_iff. exists (Z.of_nat i). split; [lia|auto]. }
  exists ids, (map cs ids). split; [|eapply best_topn; [|exact B3]; auto].
  unfold ann_similar_items. rewrite AL, AS. cbn [negb]. rewrite query_item_scalar by auto. cbn [bind]. rewrite query_item_rows. cbn [map bind]. rewrite AX, fi_len. fold q count.
  rewrite EH. f_equal. rewrite map_map. cbn [fst snd].
  assert (FH : (match fi with None => Ok [map (fun x => (Z.of_nat x, nsub none_ (d q (row x)))) ids0] | Some a => filter_items_from_results (Scalar z) [map (fun x => (Z.of_nat x, nsub none_ (d q (row x)))) ids0] (arr_list a) N end)
     = Ok [filter_hits (filter_ids fi) N (map (fun x => (Z.of_nat x, nsub none_ (d q (row x)))) ids0)] :> res (list (list (Z * R)))).
  { rewrite <- (opt_filter fi N count); [destruct fi; reflexivity| |].
    - intros ->. unfold count. simpl. lia.
    - rewrite map_length, (best_length _ _ _ _ HB). lia. }
  rewrite FH. cbn [bind to_out nth]. rewrite filter_hits_map. fold (unfiltered fi). fold ids. rewrite !map_map. cbn [fst snd]. f_equal. f_equal.
  apply map_ext_in. intros i Hi. apply CS. assert (Hi' : In i cands) by (apply (best_incl _ _ _ _ B3); auto). apply filter_In in Hi'. tauto.
Qed.
Print Assumptions C56_nmslib_partial.

(** Annoy over an exact index: the unfiltered items among the N most similar ones - so
    fewer than N whenever one of these is filtered. *)
Theorem C56_annoy_partial : forall (B : builders R) (E : ann_env R) (I : inner R) m arec A z iu N cs,
  real_env E -> angular_index B -> annoy_fit E B (item_factors m) true arec = Ok A ->
  (0 <= z < Z.of_nat (length (item_factors m)))%Z -> cosines m z cs ->
  exists ids scores, TopN cs (seq 0 (length (item_factors m))) (Nat.min N (length (item_factors m))) ids scores /\
    ann_similar_items E I A m (Scalar z) N false iu None None = (m, Ok (OneRow (map Z.of_nat ids) scores)) /\
    forall fi, ann_similar_items E I A m (Scalar z) N false iu fi None =
               (m, Ok (OneRow (map Z.of_nat (filter (unfiltered fi) ids)) (map cs (filter (unfiltered fi) ids)))).
Proof.
  intros B E I m arec A z iu N cs RE (d & D1 & D2) HF HZ HC.
  set (n := length (item_factors m)) in *. set (row := fun i => nth i (item_factors m) ([] : list R)). set (q := nth (Z.to_nat z) (item_factors m) []).
  assert (FIT : a_lib A = Annoy /\ a_approx_sim A = true /\ a_sim A = b_angular B (item_factors m)).
  { unfold annoy_fit in HF. destruct arec.
    - destruct (augment_inner_product_matrix E (item_factors m)) as [[mx ex]|]; [|discriminate]. cbn [bind] in HF. injection HF as <-. auto.
    - injection HF as <-. auto. }
  destruct FIT as (AL & AS & AX).
  destruct (D2 (item_factors m) q N) as (ids & EH & HB). rewrite seq_length in HB. fold n in HB.
  assert (CS : forall i, (1 - d q (row i) * d q (row i) / (1 + 1) = cs i)%R /\ (0 <= d q (row i))%R).
  { intros i. pose proof (HC i) as Hi. fold q in Hi. fold (row i) in Hi. rewrite (D1 q (row i) (cs i)) by auto. split; [|apply sqrt_pos].
    rewrite (is_cosine_unique _ _ _ _ Hi (cosine_is_cosine _ _)). pose proof (cosine_range q (row i)). rewrite sqrt_sqrt by lra. lra. }
  assert (B2 : Best (fun i j => nleb (cs j) (cs i) = true) (seq 0 n) (Nat.min N n) ids).
  { eapply best_weaken; [|exact HB]. intros i j Hi Hj Hd. cbv beta in Hd. apply nleb_R. destruct (CS i) as [<- P1]. destruct (CS j) as [<- P2]. unfold row in *. nra. }
  assert (ALL : forall fi, ann_similar_items E I A m (Scalar z) N false iu fi None =
               (m, Ok (OneRow (map Z.of_nat (filter (unfiltered fi) ids)) (map cs (filter (unfiltered fi) ids))))).
  { intros fi. unfold ann_similar_items. rewrite AL, AS. cbn [negb]. unfold annoy_similar1. rewrite query_item_scalar by auto. cbn [bind]. rewrite query_item_rows. cbn [nth]. fold q. rewrite AX.
    rewrite (opt_filter fi N N) by (auto; rewrite EH, map_length, (best_length _ _ _ _ HB); lia).
    rewrite EH, filter_hits_map. rewrite firstn_all2; [|etransitivity; [apply flen|rewrite (best_length _ _ _ _ HB); lia]].
    fold (unfiltered fi). rewrite !map_map. f_equal. f_equal. f_equal. apply map_ext. intros i. cbn [snd]. apply (CS i). }
  exists ids, (map cs ids). split; [eapply best_topn; [|exact B2]; auto|]. split; [|exact ALL].
  rewrite ALL. assert (FT : forall l, filter (unfiltered None) l = l) by (induction l; simpl; congruence). rewrite !FT. auto.
Qed.
Print Assumptions C56_annoy_partial.

(** Faiss on the CPU over an exact index: the N most similar unfiltered items with their
    cosines, then id -1 up to N. *)
Theorem C56_faiss_partial : forall (B : builders R) (E : ann_env R) (I : inner R) m arec A z iu N fi cs,
  real_env E -> inner_index (ae_fmin32 E) B -> faiss_fit E B false (item_factors m) true arec = Ok A ->
  (0 <= z < Z.of_nat (length (item_factors m)))%Z -> nonzero m (Z.to_nat z) = true -> ~ In (-1)%Z (filter_ids fi) -> cosines m z cs ->
  let cands := filter (unfiltered fi) (seq 0 (length (item_factors m))) in
  exists ids scores, snd (ann_similar_items E I A m (Scalar z) N false iu fi None) =
      Ok (OneRow (map Z.of_nat ids ++ repeat (-1)%Z (N - length cands)) (scores ++ repeat (ae_fmin32 E) (N - length cands))) /\
    TopN cs cands (Nat.min N (length cands)) ids scores.
Proof.
  intros B E I m arec A z iu N fi cs (EN & _ & ET) HX HF HZ HNZ NM HC cands.
  unfold faiss_fit in HF. injection HF as <-.
  set (n := length (item_factors m)) in *. set (row := fun i => nth i (item_factors m) ([] : list R)). set (q := nth (Z.to_nat z) (item_factors m) []).
  set (nrm := fun r : list R => map (fun x => ndiv x (safe_norm (ae_norm E) (ae_tiny E) r)) r). set (q' := map (fun x => ndiv x (ae_norm E q)) q).
  assert (QN : rnorm q <> 0%R). { unfold nonzero in HNZ. fold q in HNZ. rewrite spec_norm_rnorm in HNZ. destruct (Req_EM_T (rnorm q) 0); [discriminate|auto]. }
  assert (SAFE : forall r, safe_norm (ae_norm E) (ae_tiny E) r = safe_norm rnorm (ae_tiny E) r). { intros r. unfold safe_norm. rewrite EN, spec_norm_rnorm. auto. }
  assert (DM : forall u v a b, rdot (map (fun x => x / a)%R u) (map (fun x => x / b)%R v) = (rdot u v / a / b)%R).
  { induction u as [|x u IH]; intros v a b; [simpl; unfold Rdiv; ring|]. destruct v; [simpl; unfold Rdiv; ring|]. simpl. rewrite IH. unfold Rdiv. ring. }
  assert (CS : forall i, i < n -> spec_dot q' (nth i (map nrm (item_factors m)) []) = cs i).
  { intros i Hi. change (@nil R) with (nrm []). rewrite map_nth. fold (row i). rewrite spec_dot_rdot. unfold q', nrm. rewrite SAFE, EN, spec_norm_rnorm.
    change (fun x : R => ndiv x (rnorm q)) with (fun x => x / rnorm q)%R. change (fun x : R => ndiv x (safe_norm rnorm (ae_tiny E) (row i))) with (fun x => x / safe_norm rnorm (ae_tiny E) (row i))%R.
    rewrite DM. rewrite (is_cosine_unique _ _ _ _ (HC i) (cosine_is_cosine _ _)). fold q (row i). pose proof (cosine_cases q (row i)) as K. pose proof (safe_norm_pos (ae_tiny E) (row i) ET) as SP.
    destruct (Req_dec (rnorm (row i)) 0) as [Y|Y].
    - rewrite <- K, Y. unfold cosine. destruct (Req_EM_T (rnorm q) 0); [contradiction|]. destruct (Req_EM_T (rnorm (row i)) 0); [|contradiction]. unfold Rdiv. ring.
    - rewrite safe_norm_eq by auto. rewrite <- K. field. auto. }
  set (count := N + length (filter_ids fi)).
  destruct (HX (map nrm (item_factors m)) q' count) as (ids0 & EH & HB). rewrite map_length in EH, HB. fold n in EH, HB.
  set (ids := firstn N (filter (unfiltered fi) ids0)).
  assert (B2 : Best (fun i j => nleb (cs j) (cs i) = true) (seq 0 n) (Nat.min count (length (seq 0 n))) ids0).
  { rewrite seq_length. eapply best_weaken; [|exact HB]. intros i j Hi Hj Hd. cbv beta in Hd. apply in_seq in Hi, Hj. apply nleb_R. rewrite <- (CS i), <- (CS j) by lia. auto. }
  assert (B4 : Best (fun i j => nleb (cs j) (cs i) = true) cands (Nat.min N (length cands)) ids).
  { apply (best_filter _ _ _ _ (unfiltered fi) N (map Z.to_nat (filter_ids fi)) (seq_NoDup n 0) B2); [|rewrite map_length; unfold count; lia].
    intros i Hi HA. apply negb_false_iff in HA. apply memz_spec in HA. apply in_map_iff. exists (Z.of_nat i). split; [lia|auto]. }
  exists ids, (map cs ids). split; [|eapply best_topn; [|exact B4]; auto].
  unfold ann_similar_items. cbn [a_lib a_approx_sim negb a_use_gpu orb andb a_sim]. rewrite query_item_scalar by auto. fold q.
  assert (UPD : exists m' v', nd_update (fun r => map (fun x => ndiv x (ae_norm E r)) r) m (if i_gpu I then Fresh [q] else ItemRow (Z.to_nat z)) = (m', v') /\ nd_rows m' v' = [q']).
  { destruct (i_gpu I).
    - eexists _, _. split; [reflexivity|]. reflexivity.
    - eexists _, _. split; [reflexivity|]. cbn [nd_rows item_factors]. rewrite nth_upd_eq by (unfold n in HZ; lia). reflexivity. }
  destruct UPD as (m' & v' & -> & ->). cbn [map snd]. rewrite fi_len. fold count. change (fun r : list R => map (fun x : R => ndiv x (safe_norm (ae_norm E) (ae_tiny E) r)) r) with nrm.
  assert (LH : length (b_inner B (map nrm (item_factors m)) q' count) = count). { rewrite EH, app_length, map_length, repeat_length, (best_length _ _ _ _ HB). lia. }
  match goal with |- bind ?x ?k = _ => assert (EQ : x = Ok [filter_hits (filter_ids fi) N (b_inner B (map nrm (item_factors m)) q' count)]) end.
  { rewrite <- (opt_filter_padded fi N count); auto. intros ->. unfold count. simpl. lia. }
  rewrite EQ. cbn [bind to_out nth]. rewrite EH. assert (CN : N + length (filter_ids fi) <= count) by (unfold count; lia). rewrite (padded_filter _ _ _ n _ _ _ _ HB CN NM). fold (unfiltered fi). fold ids.
  rewrite !map_app, !map_map. cbn [fst snd]. assert (LI : N - length ids = N - length cands) by (rewrite (best_length _ _ _ _ B4); lia). rewrite LI.
  assert (R1 : forall k, map fst (repeat ((-1)%Z, ae_fmin32 E) k) = repeat (-1)%Z k) by (induction k; simpl; congruence).
  assert (R2 : forall k, map snd (repeat ((-1)%Z, ae_fmin32 E) k) = repeat (ae_fmin32 E) k) by (induction k; simpl; congruence).
  rewrite R1, R2. f_equal. f_equal. f_equal. apply map_ext_in. intros i Hi. apply CS. apply (best_incl _ _ _ _ B4) in Hi. apply filter_In in Hi. destruct Hi as [Hi _]. apply in_seq in Hi. lia.
Qed.
Print Assumptions C56_faiss_partial.

(** The claim for Annoy, and its refutation. *)
Definition C56_statement : Prop := forall (B : builders R) (E : ann_env R) (I : inner R) m arec A z iu N fi,
  real_env E -> angular_index B -> annoy_fit E B (item_factors m) true arec = Ok A -> (0 <= z < Z.of_nat (length (item_factors m)))%Z ->
  N <= length (filter (unfiltered fi) (seq 0 (length (item_factors m)))) ->
  exists ids scores, snd (ann_similar_items E I A m (Scalar z) N false iu fi None) = Ok (OneRow ids scores) /\ length ids = N.
Theorem C56_refuted : ~ C56_statement.
Proof.
  intros HS. destruct (exact_builders_ok (-1000)) as [HA _].
  set (m2 := {| user_factors := [[1]]%R; item_factors := [[1]; [1]]%R |}).
  set (A := {| a_lib := Annoy; a_approx_sim := true; a_approx_rec := false; a_use_gpu := false; a_sim := b_angular (exact_builders (-1000)) (item_factors m2); a_rec := no_index; a_max_norm := 0%R |}).
  assert (HF : annoy_fit real_env0 (exact_builders (-1000)) (item_factors m2) true false = Ok A) by reflexivity.
  destruct (C56_annoy_partial _ real_env0 (no_inner cpu_attrs) m2 false A 0%Z NotCsr 1 (fun i => cosine (nth 0 (item_factors m2) []) (nth i (item_factors m2) [])) real_env0_ok HA HF) as (ids & sc & HT & _ & HALL); [simpl; lia|intros i; apply cosine_is_cosine|].
  pose proof (topn_length _ _ _ _ _ HT) as L. pose proof (topn_incl _ _ _ _ _ HT) as HI. simpl in L, HI. destruct ids as [|x [|y ids]]; simpl in L; try lia.
  specialize (HI x (or_introl eq_refl)).
  destruct (HS _ real_env0 (no_inner cpu_attrs) m2 false A 0%Z NotCsr 1 (Some (PyList [Z.of_nat x])) real_env0_ok HA HF) as (r & s & HR & LR).
  - simpl. lia.
  - simpl. destruct HI as [<-|[<-|[]]]; simpl; lia.
  - assert (F : filter (unfiltered (Some (PyList [Z.of_nat x]))) [x] = []).
    { simpl. unfold unfiltered. simpl. rewrite Z.eqb_refl. auto. }
    rewrite HALL, F in HR. cbn [snd map] in HR. injection HR as <- _. discriminate LR.
Qed.
Print Assumptions C56_refuted.

(* ------------------------------------------------------------------ C73 *)
(** recommend for one user looks at row 0 of user_items only, however many rows there are. *)
Theorem C73_partial : forall T (NT : Num T) (E : ann_env T) (I : inner T) A m N fi,
  a_approx_rec A = true -> a_use_gpu A = false ->
  (forall u M M' liked, 1 <= c_rows M -> 1 <= c_rows M' -> csr_row_indices M 0 = csr_row_indices M' 0 ->
     ann_recommend E I A m (Scalar u) (Csr M) N liked fi false None = ann_recommend E I A m (Scalar u) (Csr M') N liked fi false None) /\
  (forall us M liked, c_rows M < length us -> (a_lib A = Faiss -> liked = true) ->
     exists e, ann_recommend E I A m (Batch us) (Csr M) N liked fi false None = (m, Raise e)).
Proof.
  intros T NT E I A m N fi HA HG.
  assert (FD : forall u M M' liked, 1 <= c_rows M -> 1 <= c_rows M' -> csr_row_indices M 0 = csr_row_indices M' 0 -> rec_filter N fi liked (Csr M) = rec_filter N fi liked (Csr M') /\ query_user I m u (Csr M) false = query_user I m u (Csr M') false).
  { intros u M M' liked H1 H2 HR. split; [|reflexivity]. unfold rec_filter. destruct (truthy fi); auto. cbn [bind]. destruct liked; auto. rewrite HR.
    destruct (c_rows M), (c_rows M'); simpl; auto; lia. }
  split.
  - intros u M M' liked H1 H2 HR. destruct (FD (Scalar u) M M' liked H1 H2 HR) as [F1 F2]. unfold ann_recommend, check_csr_arg. rewrite HA, orb_false_r.
    unfold angular_recommend1, faiss_recommend_direct. rewrite HA, HG, F1, F2. cbn [andb negb]. destruct liked; reflexivity.
  - intros us M liked HL HF. unfold ann_recommend, check_csr_arg. rewrite HA, orb_false_r. cbn [negb].
    assert (BC : forall f, (forall m0 g z e, row_arg (Csr M) g = Raise e -> f g z m0 = (m0, Raise e)) -> (forall g z m0, fst (f g z m0) = m0) -> exists e, batch_call_st E f us N m = (m, Raise e)).
    { intros f HR HM. unfold batch_call_st, enum.
      assert (G : forall l k m0, c_rows M < k + length l -> k <= c_rows M -> exists e, batch_st f (enum_from k l) m0 = (m0, Raise e)).
      { induction l as [|z l IH]; intros k m0 HK HC; simpl in HK; [lia|]. simpl enum_from. cbn [batch_st]. destruct (Nat.eq_dec k (c_rows M)) as [EK|EK].
        - rewrite (HR m0 k z IndexError); [eauto|]. unfold row_arg, take_row. destruct (Nat.ltb_spec k (c_rows M)); [lia|auto].
        - pose proof (HM k z m0) as HM0. destruct (f k z m0) as [m1 [x|e]]; simpl in HM0; subst m1; [|eauto]. destruct (IH (S k) m0) as [e ->]; [lia|lia|]. simpl. eauto. }
      destruct (G us 0 m) as [e ->]; [lia|lia|]. simpl. eauto. }
    destruct (a_lib A); [| |rewrite (HF eq_refl)];
    (match goal with |- exists e, (if ?l then _ else _) = _ => destruct l | |- exists e, match (if ?l then _ else _) with Ok _ => _ | Raise _ => _ end = _ => destruct l | _ => idtac end);
    (apply BC; [intros m0 g z e ->; reflexivity|intros g z m0; destruct (row_arg (Csr M) g); try reflexivity; unfold one_row, faiss_recommend_direct; rewrite HA; reflexivity]).
Qed.
Print Assumptions C73_partial.
(** The claim: a matrix without exactly one row per user raises ValueError. *)
Definition C73_statement : Prop := forall T (NT : Num T) (E : ann_env T) (I : inner T) A m u M N,
  a_approx_rec A = true -> c_rows M <> 1 -> snd (ann_recommend E I A m (Scalar u) (Csr M) N true None false None) = Raise ValueError.
(** User 1, who liked item 1, given the matrix of both users: item 0, liked by user 0, is
    filtered, and item 1 is recommended. *)
Theorem C73_refuted : ~ C73_statement.
Proof.
  intros HS. specialize (HS Q Num_Q q_env (no_inner cpu_attrs) (q_A Faiss) {| user_factors := [[1]; [1]]%Q; item_factors := [[3]; [2]]%Q |} 1%Z (csr_of_rows 2 [[(0, 1%Q)]; [(1, 1%Q)]]) 1 eq_refl ltac:(discriminate)).
  vm_compute in HS. discriminate HS.
Qed.
Print Assumptions C73_refuted.
Example C73_witness : snd (ann_recommend q_env (no_inner cpu_attrs) (q_A Faiss) {| user_factors := [[1]; [1]]%Q; item_factors := [[3]; [2]]%Q |} (Scalar 1%Z) (Csr (csr_of_rows 2 [[(0, 1%Q)]; [(1, 1%Q)]])) 1 true None false None)
  = Ok (OneRow [1%Z] [2%Q]).
Proof. reflexivity. Qed.

(* ------------------------------------------------------------------ C74 *)
(** With approximation switched off the wrapper answers as the wrapped model. *)
Theorem C74_partial : forall T (NT : Num T) (E : ann_env T) (I : inner T) A m id N,
  (forall recalc iu fi items, a_approx_sim A = false -> ann_similar_items E I A m id N recalc iu fi items = (m, i_similar I m id (Z.of_nat N) recalc iu fi items)) /\
  (forall ui liked fi recalc items, a_approx_rec A = false -> a_lib A <> Faiss -> (liked || recalc = true -> exists M, ui = Csr M) ->
     ann_recommend E I A m id ui N liked fi recalc items = (m, i_recommend I m id ui (Z.of_nat N) liked fi recalc items)).
Proof.
  intros T NT E I A m id N. split.
  - intros recalc iu fi items HS. unfold ann_similar_items. rewrite HS. cbn [negb orb]. destruct (a_lib A), items; auto.
  - intros ui liked fi recalc items HA HL HC. unfold ann_recommend, check_csr_arg. rewrite HA. cbn [negb].
    assert (CK : (if liked || recalc then match ui with NotCsr => Raise ValueError | Csr _ => Ok tt end else Ok tt) = Ok tt). { destruct (liked || recalc); auto. destruct (HC eq_refl) as [M ->]. auto. }
    rewrite CK. destruct items, (a_lib A); auto; congruence.
Qed.
Print Assumptions C74_partial.
(** Faiss: recommend never returns when approximate_recommend is off (non-empty input). *)
Theorem C74_faiss_never : forall T (NT : Num T) (E : ann_env T) (I : inner T) A m id ui N liked fi recalc items,
  a_lib A = Faiss -> a_approx_rec A = false -> id <> Batch [] -> exists e, ann_recommend E I A m id ui N liked fi recalc items = (m, Raise e) /\
    (forall z, id = Scalar z -> (exists M, ui = Csr M) -> e = AttributeError).
Proof.
  intros T NT E I A m id ui N liked fi recalc items HL HA HB. unfold ann_recommend.
  assert (FD : forall z u l, faiss_recommend_direct I A m z u N l fi recalc items = (m, Raise AttributeError)) by (intros; unfold faiss_recommend_direct; rewrite HA; auto).
  rewrite HA, HL. destruct (check_csr_arg liked recalc ui) eqn:EC.
  - destruct id as [z|[|z zs]]; [exists AttributeError; split; [destruct items; apply FD|auto]|congruence|].
    destruct liked; [|exists AttributeError; split; [destruct items; apply FD|discriminate]].
    assert (BC : forall f, (exists e, f 0 z m = (m, Raise e)) -> exists e, batch_call_st E f (z :: zs) N m = (m, Raise e)). { intros f [e HE]. unfold batch_call_st, enum. simpl enum_from. cbn [batch_st]. rewrite HE. simpl. eauto. }
    destruct (BC (fun g z m => match row_arg ui g with Ok r => one_row (faiss_recommend_direct I A m (Scalar z) r N true fi recalc items) | Raise e => (m, Raise e) end)) as [e HE].
    { destruct (row_arg ui 0); [unfold one_row; rewrite FD; simpl; eauto|eauto]. }
    exists e. split; [destruct items; exact HE|discriminate].
  - eexists. split; [destruct items; reflexivity|]. intros z -> [M ->]. unfold check_csr_arg in EC. destruct (liked || recalc); discriminate.
Qed.
Print Assumptions C74_faiss_never.
Definition C74_statement : Prop := forall T (NT : Num T) (E : ann_env T) (I : inner T) A m z M N,
  a_approx_rec A = false -> ann_recommend E I A m (Scalar z) (Csr M) N true None false None = (m, i_recommend I m (Scalar z) (Csr M) (Z.of_nat N) true None false None).
Theorem C74_refuted : ~ C74_statement.
Proof.
  intros HS. set (A := {| a_lib := Faiss; a_approx_sim := true; a_approx_rec := false; a_use_gpu := false; a_sim := no_index; a_rec := no_index; a_max_norm := 0%Q |}).
  specialize (HS Q Num_Q q_env (no_inner cpu_attrs) A q_m 0%Z (csr_of_rows 2 [[(0, 1%Q)]]) 1 eq_refl). vm_compute in HS. discriminate HS.
Qed.
Print Assumptions C74_refuted.

(* ------------------------------------------------------------------ C75 *)
(** A batch of similar_items is one call per item.  Annoy: padded with id -1. *)
Theorem C75_annoy_partial : forall T (NT : Num T) (E : ann_env T) (I : inner T) A m zs N fi,
  a_lib A = Annoy -> a_approx_sim A = true ->
  ann_similar_items E I A m (Batch zs) N false NotCsr fi None =
    (m, do rows <- map_res (fun z => do ' (ids, sc) <- as_row (snd (ann_similar_items E I A m (Scalar z) N false NotCsr fi None));
                                     Ok (fitted N (-1)%Z ids, firstn N (sc ++ repeat (ae_fmin32 E) (N - length ids)))) zs;
        Ok (ManyRows (map fst rows) (map snd rows))).
Proof.
  intros T NT E I A m zs N fi HL HS.
  set (r := fun z => snd (annoy_similar1 I A m z N false NotCsr fi)).
  assert (SC : forall z, as_row (snd (ann_similar_items E I A m (Scalar z) N false NotCsr fi None)) = r z).
  { intros z. unfold ann_similar_items, r. rewrite HL, HS. cbn [negb]. unfold annoy_similar1. cbn [snd]. match goal with |- context [bind ?x _] => destruct x as [[? ?]|] end; reflexivity. }
  assert (G : map_res (fun z => do ' (ids, sc) <- as_row (snd (ann_similar_items E I A m (Scalar z) N false NotCsr fi None));
                               Ok (fitted N (-1)%Z ids, firstn N (sc ++ repeat (ae_fmin32 E) (N - length ids)))) zs = do rows <- map_res r zs; Ok (map (pad_row E N) rows)).
  { induction zs as [|z zs IH]; [reflexivity|]. cbn [map_res]. rewrite IH, SC. destruct (r z) as [[ids sc]|]; cbn [bind]; auto. destruct (map_res r zs); reflexivity. }
  rewrite G. unfold ann_similar_items. rewrite HL, HS. cbn [negb]. unfold batch_call_st.
  rewrite (batch_st_pure _ (fun g z => r z)) by (intros p Hp; reflexivity). f_equal.
  assert (G2 : forall l k, map_res (fun p => r (snd p)) (enum_from k l) = map_res r l) by (induction l; intros; simpl; auto; rewrite IHl; auto).
  unfold enum. rewrite G2. destruct (map_res r zs); reflexivity.
Qed.
Print Assumptions C75_annoy_partial.
(** NMSLib and Faiss: when every single call gives exactly N results and the index
    answers all queries with equally many hits. *)
Theorem C75_partial : forall T (NT : Num T) (E : ann_env T) (I : inner T) A m zs N fi (row : Z -> list Z * list T),
  a_lib A <> Annoy -> a_approx_sim A = true -> a_use_gpu A = false -> zs <> [] -> (forall z, In z zs -> (0 <= z < Z.of_nat (length (item_factors m)))%Z) ->
  (forall q q' c, length (a_sim A q c) = length (a_sim A q' c)) ->
  (forall z, In z zs -> snd (ann_similar_items E I A m (Scalar z) N false NotCsr fi None) = Ok (OneRow (fst (row z)) (snd (row z))) /\ length (fst (row z)) = N) ->
  ann_similar_items E I A m (Batch zs) N false NotCsr fi None = (m, Ok (ManyRows (map (fun z => fst (row z)) zs) (map (fun z => snd (row z)) zs))).
Proof.
  intros T NT E I A m zs N fi row HL HS HG HNE HZ HX HR.
  assert (QB : query_item I m (Batch zs) NotCsr false = Ok (Fresh (map (fun z => nth (Z.to_nat z) (item_factors m) []) zs))).
  { unfold query_item, index_rows. rewrite gather_ok by (intros z Hz; unfold idx_ok; specialize (HZ z Hz); lia). cbn [bind].
    assert (EQ : map (fun z => nth (wrap (length (item_factors m)) z) (item_factors m) []) zs = map (fun z => nth (Z.to_nat z) (item_factors m) ([] : list T)) zs) by (apply map_ext_in; intros z Hz; rewrite wrap_nonneg by (specialize (HZ z Hz); lia); auto).
    rewrite EQ. destruct (i_has I "_item_factor"%string); auto. }
  assert (QS : forall z, In z zs -> query_item I m (Scalar z) NotCsr false = Ok (if i_gpu I then Fresh [nth (Z.to_nat z) (item_factors m) []] else ItemRow (Z.to_nat z))).
  { intros z Hz. unfold query_item, index_rows. specialize (HZ z Hz). rewrite np_index_ok by (unfold idx_ok; lia). cbn [bind]. rewrite wrap_nonneg by lia. destruct (i_has I "_item_factor"%string); auto. }
  (* what happens after the query of the index *)
  assert (FIN : forall g : Z -> list (Z * T),
    (forall z, In z zs -> (do rows <- match fi with Some a => filter_items_from_results (Scalar z) [g z] (arr_list a) N | None => Ok [g z] end; Ok (to_out (Scalar z) rows)) = Ok (OneRow (fst (row z)) (snd (row z)))) ->
    (do rows <- match fi with Some a => filter_items_from_results (Batch zs) (map g zs) (arr_list a) N | None => Ok (map g zs) end; Ok (to_out (Batch zs) rows)) = Ok (ManyRows (map (fun z => fst (row z)) zs) (map (fun z => snd (row z)) zs))).
  { intros g Hg. destruct fi as [a|].
    - unfold filter_items_from_results in *. assert (KR : forall z, In z zs -> map fst (filter_hits (arr_list a) N (g z)) = fst (row z) /\ map snd (filter_hits (arr_list a) N (g z)) = snd (row z)).
      { intros z Hz. specialize (Hg z Hz). cbn [bind to_out map nth] in Hg. injection Hg. auto. }
      assert (GM : map_res (fun r => assign_row N (filter_hits (arr_list a) N r)) (map g zs) = Ok (map (fun z => filter_hits (arr_list a) N (g z)) zs)).
      { assert (G0 : forall l, incl l zs -> map_res (fun r => assign_row N (filter_hits (arr_list a) N r)) (map g l) = Ok (map (fun z => filter_hits (arr_list a) N (g z)) l)).
        { induction l as [|z l IH]; intros HI; simpl; auto. rewrite IH by (intros y Hy; apply HI; right; auto). assert (Hz : In z zs) by (apply HI; left; auto).
          destruct (KR z Hz) as [K1 _]. destruct (HR z Hz) as [_ LN]. rewrite <- K1, map_length in LN. unfold assign_row at 1. rewrite LN, Nat.eqb_refl. auto. }
        apply G0. intros y; auto. }
      rewrite GM. cbn [bind to_out]. rewrite !map_map. f_equal. f_equal; apply map_ext_in; intros z Hz; apply (KR z Hz).
    - cbn [bind to_out] in *. rewrite !map_map. f_equal. f_equal; apply map_ext_in; intros z Hz; specialize (Hg z Hz); cbn [nth] in Hg; injection Hg; auto. }
  unfold ann_similar_items in *. rewrite HS, HG in *. cbn [negb orb andb] in *. destruct (a_lib A); [congruence| |].
  - rewrite QB. f_equal. cbn [bind nd_rows].
    assert (ST : np_stack (map (fun q => a_sim A q (N + arr_len fi)) (map (fun z => nth (Z.to_nat z) (item_factors m) []) zs)) = Ok (map (fun q => a_sim A q (N + arr_len fi)) (map (fun z => nth (Z.to_nat z) (item_factors m) []) zs))).
    { destruct zs as [|z0 zs']; [congruence|]. cbn [map np_stack]. assert (FB : forallb (fun s => length s =? length (a_sim A (nth (Z.to_nat z0) (item_factors m) []) (N + arr_len fi))) (map (fun q => a_sim A q (N + arr_len fi)) (map (fun z => nth (Z.to_nat z) (item_factors m) []) zs')) = true).
      { apply forallb_forall. intros s Hs. rewrite map_map in Hs. apply in_map_iff in Hs. destruct Hs as (z & <- & _). apply Nat.eqb_eq. apply HX. }
      rewrite FB. auto. }
    rewrite ST. cbn [bind]. rewrite !map_map.
    apply (FIN (fun z => map (fun p => (fst p, nsub none_ (snd p))) (a_sim A (nth (Z.to_nat z) (item_factors m) []) (N + arr_len fi)))).
    intros z Hz. destruct (HR z Hz) as [HR0 _]. rewrite QS in HR0 by auto. cbn [snd bind] in HR0. rewrite <- HR0. destruct (i_gpu I); reflexivity.
  - rewrite QB. cbn [nd_update nd_rows]. f_equal. rewrite !map_map.
    apply (FIN (fun z => a_sim A (map (fun x => ndiv x (ae_norm E (nth (Z.to_nat z) (item_factors m) []))) (nth (Z.to_nat z) (item_factors m) [])) (N + arr_len fi))).
    intros z Hz. destruct (HR z Hz) as [HR0 _]. rewrite QS in HR0 by auto. rewrite <- HR0. destruct (i_gpu I); [reflexivity|].
    cbn [nd_update nd_rows snd item_factors map]. rewrite nth_upd_eq by (specialize (HZ z Hz); lia). reflexivity.
Qed.
Print Assumptions C75_partial.

(** The claim, and what happens with fewer than N unfiltered items. *)
Definition C75_statement : Prop := forall T (NT : Num T) (E : ann_env T) (I : inner T) A m z N fi ids sc,
  a_approx_sim A = true -> snd (ann_similar_items E I A m (Scalar z) N false NotCsr fi None) = Ok (OneRow ids sc) ->
  exists ids' sc', snd (ann_similar_items E I A m (Batch [z]) N false NotCsr fi None) = Ok (ManyRows [ids'] [sc']) /\
    (forall k, k < length ids -> nth_error ids' k = nth_error ids k) /\ (forall k x, length ids <= k -> nth_error ids' k = Some x -> x = (-1)%Z).
(** One item left of the two asked for: NMSLib repeats it; none left: ValueError. *)
Theorem C75_refuted : ~ C75_statement.
Proof.
  intros HS. destruct (HS Q Num_Q q_env (no_inner cpu_attrs) (q_A NMSLib) q_m 0%Z 2 (Some (PyList [0%Z])) [1%Z] [0%Q] eq_refl eq_refl) as (ids & sc & HR & _ & HP).
  vm_compute in HR. injection HR as <- <-. specialize (HP 1 1%Z (le_n 1) eq_refl). discriminate HP.
Qed.
Print Assumptions C75_refuted.
Example C75_raises : forall L, L = NMSLib \/ L = Faiss -> snd (ann_similar_items q_env (no_inner cpu_attrs) (q_A L) q_m (Scalar 0%Z) 2 false NotCsr (Some (PyList [0; 1]%Z)) None) = Ok (OneRow [] []) /\
  snd (ann_similar_items q_env (no_inner cpu_attrs) (q_A L) q_m (Batch [0%Z]) 2 false NotCsr (Some (PyList [0; 1]%Z)) None) = Raise ValueError.
Proof. intros L [-> | ->]; split; reflexivity. Qed.
Example C75_repeats : snd (ann_similar_items q_env (no_inner cpu_attrs) (q_A Faiss) q_m (Batch [0%Z]) 2 false NotCsr (Some (PyList [0%Z])) None) = Ok (ManyRows [[1; 1]]%Z [[1; 1]]%Q).
Proof. reflexivity. Qed.
Example C75_ok : snd (ann_similar_items q_env (no_inner cpu_attrs) (q_A Faiss) q_m (Batch [0; 1]%Z) 1 false NotCsr (Some (PyList [0%Z])) None) = Ok (ManyRows [[1]; [1]]%Z [[1]; [1]]%Q).
Proof. reflexivity. Qed.

(* ------------------------------------------------- the hypotheses are met *)
(** Items [5], [3], [4], user [1], item 0 filtered: Annoy over the exact index recommends
    item 2 with score 4. *)
Lemma topn_one (s : nat -> R) x y ids sc : (s y < s x)%R -> x <> y -> TopN s [y; x] (Nat.min 1 2) ids sc -> ids = [x] /\ sc = [s x].
Proof.
  intros L NE [T1 T2 T3 T4 T5 T6]. simpl in T1. destruct ids as [|a [|b ids]]; simpl in T1; try lia. subst sc. assert (a = x); [|subst; auto].
  destruct (T4 a (or_introl eq_refl)) as [HA|[HA|[]]]; auto. subst a. exfalso. assert (HB : nleb (s x) (s y) = true). { apply T6; simpl; auto. intros [HE|[]]; auto. }
  apply nleb_R in HB. lra.
Qed.
Example C55_example : exists A, annoy_fit real_env0 (exact_builders (-1000)) (item_factors ex_m) true true = Ok A /\
  ann_recommend real_env0 (no_inner cpu_attrs) A ex_m (Scalar 0%Z) NotCsr 1 false (Some (PyList [0%Z])) false None = (ex_m, Ok (OneRow [2%Z] [4%R])) /\
  ann_recommend real_env0 (no_inner cpu_attrs) A ex_m (Scalar 0%Z) (Csr (csr_of_rows 3 [[(0, 1%R)]])) 1 true None false None = (ex_m, Ok (OneRow [2%Z] [4%R])).
Proof.
  destruct (exact_builders_ok (-1000)) as [HA _].
  assert (WF : Forall (fun r : list R => length r = 1) (item_factors ex_m)) by (repeat constructor).
  assert (WU : Forall (fun r : list R => length r = 1) (user_factors ex_m)) by (repeat constructor).
  destruct (C54_augment real_env0 (item_factors ex_m) 1 real_env0_ok ltac:(discriminate) WF) as (mx & extra & EA & _).
  assert (HF : forall asim, exists A, annoy_fit real_env0 (exact_builders (-1000)) (item_factors ex_m) asim true = Ok A) by (intros; unfold annoy_fit; rewrite EA; eexists; reflexivity).
  destruct (HF true) as [A HFA]. clear HF. exists A. split; [exact HFA|].
  assert (GO : forall ids sc, TopN (fun i => spec_dot [1%R] (nth i (item_factors ex_m) [])) [1; 2] (Nat.min 1 2) ids sc -> ids = [2] /\ sc = [4%R]).
  { intros ids sc HT. apply topn_one in HT; [|simpl; unfold spec_dot; simpl; lra|discriminate]. destruct HT as [-> ->]. split; auto. f_equal. unfold spec_dot. simpl. lra. }
  split.
  - destruct (C55_angular_partial Annoy _ real_env0 (no_inner cpu_attrs) ex_m 1 true A 0%Z NotCsr 1 false (Some (PyList [0%Z])) real_env0_ok (or_introl (conj eq_refl (conj HA HFA))) WU WF) as (ids & sc & HR & HT); [simpl; lia|exact I|discriminate|].
    destruct (GO ids sc HT) as [-> ->]. exact HR.
  - destruct (C55_angular_partial Annoy _ real_env0 (no_inner cpu_attrs) ex_m 1 true A 0%Z (Csr (csr_of_rows 3 [[(0, 1%R)]])) 1 true None real_env0_ok (or_introl (conj eq_refl (conj HA HFA))) WU WF) as (ids & sc & HR & HT); [simpl; lia|exact I|intros _; eexists; split; reflexivity|].
    destruct (GO ids sc HT) as [-> ->]. exact HR.
Qed.
(** NMSLib: items (1), (0), (-1), (2): the items like item 0 other than itself. *)
Example C56_example : exists A, nmslib_fit real_env0 (exact_builders (-1000)) [[1]; [0]; [-1]; [2]]%R true false = Ok A /\
  let m := {| user_factors := []; item_factors := [[1]; [0]; [-1]; [2]]%R |} in
  ann_similar_items real_env0 (no_inner cpu_attrs) A m (Scalar 0%Z) 1 false NotCsr (Some (PyList [0%Z])) None = (m, Ok (OneRow [3%Z] [1%R])).
Proof.
  destruct (exact_builders_ok (-1000)) as (_ & HC & _). eexists. split; [reflexivity|]. intros m.
  assert (NZ : forall a : R, spec_norm [a] = Rabs a). { intros a. unfold spec_norm. simpl. rewrite Rplus_0_r. apply sqrt_Rsqr_abs. }
  assert (A1 : Rabs (-1) = 1%R) by (rewrite Rabs_left; lra).
  assert (A2 : Rabs 2 = 2%R) by (apply Rabs_right; lra).
  set (cs := fun i : nat => match i with 0 => 1 | 2 => -1 | 3 => 1 | _ => 0 end%R).
  assert (HCS : cosines m 0%Z cs).
  { intros i. assert (D : forall a b, spec_dot [a] [b] = (a * b)%R) by (intros; unfold spec_dot; simpl; lra).
    destruct i as [|[|[|[|i]]]]; simpl; unfold is_cosine; rewrite ?NZ, ?D, ?Rabs_R1, ?Rabs_R0, ?A1, ?A2; (split; [intros; lra|intros; lra]) || auto.
    assert (E0 : spec_norm [] = 0%R) by (unfold spec_norm; simpl; apply sqrt_0). destruct i; rewrite E0, Rmult_0_r; split; intros; lra. }
  destruct (C56_nmslib_partial _ real_env0 (no_inner cpu_attrs) m false _ 0%Z NotCsr 1 (Some (PyList [0%Z])) cs real_env0_ok HC eq_refl) as (ids & sc & HR & HT); auto.
  - simpl. lia.
  - unfold nonzero. simpl. rewrite NZ, Rabs_R1. destruct (Req_EM_T 1 0); auto. lra.
  - assert (EC : filter (unfiltered (Some (PyList [0%Z]))) (filter (nonzero m) (seq 0 (length (item_factors m)))) = [2; 3]).
    { assert (N0 : nonzero m 0 = true) by (unfold nonzero; simpl; rewrite NZ, Rabs_R1; destruct (Req_EM_T 1 0); auto; lra).
      assert (N1 : nonzero m 1 = false) by (unfold nonzero; simpl; rewrite NZ, Rabs_R0; destruct (Req_EM_T 0 0); auto; lra).
      assert (N2 : nonzero m 2 = true) by (unfold nonzero; simpl; rewrite NZ, A1; destruct (Req_EM_T 1 0); auto; lra).
      assert (N3 : nonzero m 3 = true) by (unfold nonzero; simpl; rewrite NZ, A2; destruct (Req_EM_T 2 0); auto; lra).
      change (seq 0 (length (item_factors m))) with [0; 1; 2; 3]. cbn [filter]. rewrite N0, N1, N2, N3. reflexivity. }
    rewrite EC in HT. apply topn_one in HT; [|simpl; lra|discriminate]. destruct HT as [-> ->]. exact HR.
Qed.
