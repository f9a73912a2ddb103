(** C165: recommendations of approximate models for users without a matrix of their likes. *)
From Coq Require Import String List Arith Lia Bool ZArith QArith.
From Verif Require Import Base Num Heap Sparse TopkModel RecommendModel RecommendProofs KnnModel AnnModel AnnProofs PropAnn PropAnn2 PropAnn3.
Import ListNotations.
Local Open Scope list_scope.
Local Open Scope nat_scope.

(** Without filter_already_liked_items one user needs no matrix: the answer is the same whatever is given, and the model
    is left alone. *)
Theorem C165_one_user_partial : forall T (NT : Num T) (E : ann_env T) (I : inner T) A m u ui ui' N fi,
  a_approx_rec A = true -> a_use_gpu A = false ->
  ann_recommend E I A m (Scalar u) ui N false fi false None = ann_recommend E I A m (Scalar u) ui' N false fi false None /\
  fst (ann_recommend E I A m (Scalar u) ui N false fi false None) = m.
Proof.
  intros T NT E I A m u ui ui' N fi HA HG.
  assert (QU : forall ui : sparse_arg T, query_user I m (Scalar u) ui false = query_user I m (Scalar u) ui' false) by reflexivity.
  assert (F : forall ui : sparse_arg T, rec_filter N fi false ui = rec_filter N fi false ui') by reflexivity.
  unfold ann_recommend, check_csr_arg. cbn [orb]. rewrite HA. destruct (a_lib A); cbn [negb]; split;
    unfold angular_recommend1, faiss_recommend_direct; rewrite ?HA, ?HG; cbn [andb negb fst]; rewrite ?(QU ui), ?(F ui); reflexivity.
Qed.
Print Assumptions C165_one_user_partial.

(** A batch with any matrix of enough rows gives the answers of the single users without one, padded with id -1. *)
Theorem C165_matrix_partial : forall T (NT : Num T) (E : ann_env T) (I : inner T) A m us M N fi,
  a_lib A <> Faiss -> a_approx_rec A = true -> a_use_gpu A = false -> length us <= c_rows M ->
  ann_recommend E I A m (Batch us) (Csr M) N false fi false None =
    (m, do rows <- map_res (fun u => do ' (ids, sc) <- as_row (snd (ann_recommend E I A m (Scalar u) NotCsr N false fi false None));
                                     Ok (fitted N (-1)%Z ids, firstn N (sc ++ repeat (ae_fmin32 E) (N - length ids)))) us;
        Ok (ManyRows (map fst rows) (map snd rows))).
Proof.
  intros T NT E I A m us M N fi HL HA HG LE.
  destruct (C55_batch T NT E I A m us M N false fi false HA ltac:(congruence) LE) as (rs & -> & ->). f_equal. f_equal.
  unfold enum. generalize 0. clear LE. induction us as [|u us IH]; intros k; cbn [enum_from map_res fst snd]; auto.
  rewrite (proj1 (C165_one_user_partial T NT E I A m u (Csr (csr_take_row M k)) NotCsr N fi HA HG)). rewrite IH. reflexivity.
Qed.
Print Assumptions C165_matrix_partial.

(** Faiss: a batch without a matrix, of users that exist and get [N] items each, is answered as one by one. *)
Theorem C165_faiss_partial : forall T (NT : Num T) (E : ann_env T) (I : inner T) A m us ui N fi (row : Z -> list Z * list T),
  a_lib A = Faiss -> a_approx_rec A = true -> a_use_gpu A = false -> us <> [] -> (forall u, In u us -> (0 <= u < Z.of_nat (length (user_factors m)))%Z) ->
  (forall u, In u us -> snd (ann_recommend E I A m (Scalar u) NotCsr N false fi false None) = Ok (OneRow (fst (row u)) (snd (row u))) /\ (fi <> None -> length (fst (row u)) = N)) ->
  ann_recommend E I A m (Batch us) ui N false fi false None = (m, Ok (ManyRows (map (fun u => fst (row u)) us) (map (fun u => snd (row u)) us))).
Proof.
  intros T NT E I A m us ui N fi row HL HA HG NE HU HR.
  set (fac := fun u => nth (Z.to_nat u) (user_factors m) ([] : list T)).
  assert (QB : query_user I m (Batch us) ui false = Ok (Fresh (map fac us))).
  { unfold query_user, index_rows. rewrite gather_ok by (intros z Hz; unfold idx_ok; specialize (HU z Hz); lia). cbn [bind].
    assert (EQ : map (fun z => nth (wrap (length (user_factors m)) z) (user_factors m) []) us = map fac us) by (apply map_ext_in; intros z Hz; unfold fac; rewrite wrap_nonneg by (specialize (HU z Hz); lia); auto).
    rewrite EQ. destruct (i_has I "+_user_factor"%string); auto. }
  assert (QS : forall u, In u us -> query_user I m (Scalar u) NotCsr false = Ok (if i_gpu I then Fresh [fac u] else UserRow (Z.to_nat u))).
  { intros z Hz. unfold query_user, index_rows, fac. specialize (HU z Hz). rewrite np_index_ok by (unfold idx_ok; lia). cbn [bind]. rewrite wrap_nonneg by lia. destruct (i_has I "+_user_factor"%string); auto. }
  assert (RF : exists count flt, rec_filter N fi false ui = Ok (count, flt) /\ rec_filter N fi false (NotCsr : sparse_arg T) = Ok (count, flt) /\ (flt <> None -> fi <> None)).
  { destruct us as [|u us']; [congruence|]. destruct (HR u (or_introl eq_refl)) as [R1 _]. unfold ann_recommend, check_csr_arg in R1. cbn [orb] in R1. rewrite HL in R1.
    unfold faiss_recommend_direct in R1. rewrite HA in R1. cbn [negb snd] in R1. rewrite QS in R1 by (left; auto). cbn [bind] in R1.
    unfold rec_filter in *. destruct (truthy fi) as [b|]; [|discriminate R1]. cbn [bind]. eexists _, _. split; [reflexivity|]. split; [reflexivity|]. destruct b, fi; cbn; congruence. }
  destruct RF as (count & flt & F1 & F2 & FN).
  assert (HR' : forall u, In u us -> (do rows <- match flt with None => Ok [a_rec A (fac u) count] | Some a => filter_items_from_results (Scalar u) [a_rec A (fac u) count] (arr_list a) N end; Ok (to_out (Scalar u) rows)) = Ok (OneRow (fst (row u)) (snd (row u)))).
  { intros u Hu. destruct (HR u Hu) as [R1 _]. unfold ann_recommend, check_csr_arg in R1. cbn [orb] in R1. rewrite HL in R1.
    unfold faiss_recommend_direct in R1. rewrite HA, HG in R1. cbn [negb snd andb] in R1. rewrite QS, F2 in R1 by auto. cbn [bind] in R1. rewrite <- R1. destruct (i_gpu I); reflexivity. }
  unfold ann_recommend, check_csr_arg. cbn [orb]. rewrite HL. unfold faiss_recommend_direct. rewrite HA, HG. cbn [negb andb]. f_equal. rewrite QB, F1. cbn [bind nd_rows].
  rewrite map_map. destruct flt as [a|].
  - unfold filter_items_from_results in *. cbn [bind] in *.
    assert (KR : forall u, In u us -> map fst (filter_hits (arr_list a) N (a_rec A (fac u) count)) = fst (row u) /\ map snd (filter_hits (arr_list a) N (a_rec A (fac u) count)) = snd (row u)).
    { intros u Hu. specialize (HR' u Hu). cbn [map to_out nth] in HR'. injection HR'. auto. }
    assert (GM : forall l, incl l us -> map_res (fun r => assign_row N (filter_hits (arr_list a) N r)) (map (fun u => a_rec A (fac u) count) l) = Ok (map (fun u => filter_hits (arr_list a) N (a_rec A (fac u) count)) l)).
    { induction l as [|u l IH]; intros HI; simpl; auto. rewrite IH by (intros y Hy; apply HI; right; auto). assert (Hu : In u us) by (apply HI; left; auto).
      destruct (KR u Hu) as [K1 _]. destruct (HR u Hu) as [_ LN]. specialize (LN (FN ltac:(discriminate))). rewrite <- K1, map_length in LN. unfold assign_row at 1. rewrite LN, Nat.eqb_refl. auto. }
    rewrite GM by (intros y; auto). cbn [bind to_out]. rewrite !map_map. f_equal. f_equal; apply map_ext_in; intros u Hu; apply (KR u Hu).
  - cbn [bind to_out] in *. rewrite !map_map. f_equal. f_equal; apply map_ext_in; intros u Hu; specialize (HR' u Hu); cbn [map nth] in HR'; injection HR'; auto.
Qed.
Print Assumptions C165_faiss_partial.

(** The full claim. *)
Definition C165_statement : Prop := forall T (NT : Num T) (E : ann_env T) (I : inner T) A m u N ids sc,
  a_approx_rec A = true -> snd (ann_recommend E I A m (Scalar u) NotCsr N false None false None) = Ok (OneRow ids sc) ->
  exists o, snd (ann_recommend E I A m (Batch [u]) NotCsr N false None false None) = Ok o.
(** It is false: with Annoy and NMSLib no batch of users is answered without a matrix, whoever they are. *)
Theorem C165_never : forall T (NT : Num T) (E : ann_env T) (I : inner T) A m us N fi,
  a_lib A <> Faiss -> a_approx_rec A = true -> us <> [] -> ann_recommend E I A m (Batch us) NotCsr N false fi false None = (m, Raise TypeError).
Proof.
  intros T NT E I A m us N fi HL HA NE. unfold ann_recommend, check_csr_arg. cbn [orb]. rewrite HA. destruct us as [|u us]; [congruence|]. destruct (a_lib A); [reflexivity|reflexivity|congruence].
Qed.
Print Assumptions C165_never.
Theorem C165_refuted : ~ C165_statement.
Proof.
  intros HS. destruct (HS Q Num_Q q_env (no_inner cpu_attrs) (q_A Annoy) q_m 0%Z 1 [0%Z] _ eq_refl ltac:(vm_compute; reflexivity)) as (o & HO).
  rewrite C165_never in HO; try discriminate; reflexivity.
Qed.
Print Assumptions C165_refuted.
(** Annoy, NMSLib and Faiss: users without a matrix, one by one, in a batch with an unrelated matrix, and in a batch. *)
Example C165_example : forall L, let m := {| user_factors := [[1]; [2]]%Q; item_factors := [[3]; [2]]%Q |} in
  let ask id ui fi := snd (ann_recommend q_env (no_inner cpu_attrs) (q_A L) m id ui 2 false fi false None) in
  (exists sc, ask (Scalar 1%Z) NotCsr None = Ok (OneRow [0; 1]%Z sc) /\ length sc = 2) /\
  (exists sc, ask (Batch [1; 0]%Z) (Csr (csr_of_rows 2 [[(0, 1%Q)]; []])) None = Ok (ManyRows [[0; 1]; [0; 1]]%Z sc) /\ length sc = 2) /\
  ask (Batch [1; 0]%Z) NotCsr None = match L with Faiss => ask (Batch [1; 0]%Z) (Csr (csr_of_rows 2 [[]])) None | _ => Raise TypeError end /\
  (L = Faiss -> exists sc, ask (Batch [1; 0]%Z) NotCsr (Some (PyList [])) = Ok (ManyRows [[0; 1]; [0; 1]]%Z sc)).
Proof.
  intros L. cbv zeta. destruct L; (split; [eexists; split; [vm_compute; reflexivity|reflexivity]|]; split; [eexists; split; [vm_compute; reflexivity|reflexivity]|]; split; [vm_compute; reflexivity|]);
    try (intros E; discriminate E). intros _. eexists. vm_compute. reflexivity.
Qed.
