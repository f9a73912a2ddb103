(** GPU recommend with an explicit item list; GPU similar_items and similar_users. *)
From Coq Require Import List Arith Lia Bool ZArith Permutation Sorted Reals Lra.
From Verif Require Import Base Num Heap Sparse TopkModel TopkSpec TopkProofs RecommendModel RecommendProofs RecommendProofs2 RecommendProofs3
  RVec SimilarProofs GpuKnn GpuKnnProofs GpuKnnProofs2 GpuKnnProofs3.
Import ListNotations.

Section Rec.
Context {T : Type} {NT : Num T} {NO : NumOrd T}.
Variables (sel : select_k T) (fdist : T) (junk : nat -> Z * T).
Hypothesis HS : select_k_ok sel.

Lemma gpu_recommend_items_ok pool (users items : gmatrix T) recalc id ui N fl its :
  let n := length (g_rows items) in let B := length (id_list id) in
  let k := Nat.min (Z.to_nat N) (length (arr_list its)) in
  g_cols users = g_cols items -> g_size users = 4%Z -> g_size items = 4%Z ->
  (Z.of_nat (length (g_rows users)) <= 2 ^ 31)%Z -> (Z.of_nat n < 2 ^ 31)%Z -> (Z.of_nat B < 2 ^ 31)%Z -> (0 <= pool <= four_gib)%Z ->
  id_list id <> [] -> (forall z, In z (id_list id) -> (0 <= z < Z.of_nat (length (g_rows users)))%Z) ->
  (1 <= N)%Z -> arr_list its <> [] -> NoDup (arr_list its) -> (forall z, In z (arr_list its) -> (0 <= z < Z.of_nat n)%Z) ->
  (fl = true -> exists M, ui = Csr M /\ c_rows M = B) ->
  (gpu_recommend sel fdist junk pool users items recalc id ui N fl None false (Some its) = Raise RuntimeError /\
     plan pool 4 (Z.of_nat B) (Z.of_nat k) (Z.of_nat (length (arr_list its))) = Raise RuntimeError) \/
  exists idss scs, gpu_recommend sel fdist junk pool users items recalc id ui N fl None false (Some its) = Ok (gfinish id (map (map Z.of_nat) idss) scs) /\
    length idss = B /\ length scs = B /\
    forall g, g < B ->
      TopN (fscore fdist (fun i => fl && match ui with Csr M => liked_nz M g i | NotCsr => false end)
              (base_score (g_rows items) None (nth (Z.to_nat (nth g (id_list id) 0%Z)) (g_rows users) [])))
           (map Z.to_nat (arr_list its)) k (nth g idss []) (nth g scs []).
Proof.
  intros n B k HC HSU HSI HU HN HB HP HNE HID HK NE ND HI HL. unfold gpu_recommend. rewrite orb_false_r.
  assert (E1 : (if fl then match ui with NotCsr => Raise ValueError | Csr M => if c_rows M =? length (id_list id) then Ok tt else Raise ValueError end else Ok tt) = Ok tt).
  { destruct fl; auto. destruct (HL eq_refl) as [M [-> ->]]. unfold B. rewrite Nat.eqb_refl. auto. }
  rewrite E1. cbn [bind]. rewrite gpu_getitem_ok by auto. cbn [bind truthy].
  set (l := sort_z (arr_list its)).
  assert (P : Permutation l (arr_list its)) by apply sort_z_perm.
  assert (Ll : length l = length (arr_list its)) by (apply Permutation_length; auto).
  assert (NEl : l <> []). { intro X. rewrite X in P. apply Permutation_nil in P. auto. }
  assert (NDl : NoDup l) by (eapply Permutation_NoDup; [apply Permutation_sym; exact P|auto]).
  assert (SL : StronglySorted Z.lt l) by (apply sorted_le_lt; [apply sort_z_sorted|auto]).
  assert (Bl : forall z, In z l -> (0 <= z < Z.of_nat n)%Z) by (intros z Hz; apply HI; eapply Permutation_in; eauto).
  assert (LE : length l <= n).
  { transitivity (length (map Z.to_nat l)); [rewrite map_length; auto|]. rewrite <- (seq_length n 0). apply NoDup_incl_length.
    - apply nodup_map_in; auto. intros x y Hx Hy E. apply Bl in Hx. apply Bl in Hy. lia.
    - intros i Hi. apply in_map_iff in Hi. destruct Hi as [z [<- Hz]]. apply Bl in Hz. apply in_seq. lia. }
  rewrite gpu_getitem_ok; cbn [id_list]; auto; [|fold n; lia].
  cbn [bind]. rewrite out_of_model_ok by (auto; intros z Hz; apply Bl; auto). cbn [bind int_vector].
  set (fq := if fl then match ui with NotCsr => None | Csr M => coo_opt (filter_items_from_sparse_matrix l M) end else None).
  replace (if fl then match ui with NotCsr => None | Csr M => match coo_of (filter_items_from_sparse_matrix l M) with [] => None | coo => Some coo end end else None) with fq by reflexivity.
  set (facs := gpick items l). set (q := gpick users (id_list id)).
  assert (Lf : length (g_rows facs) = length l) by (cbn; apply map_length).
  assert (LQ : length (g_rows q) = B) by (cbn; apply map_length).
  assert (Ek : Z.min N (Z.of_nat (length (arr_list its))) = Z.of_nat k) by (unfold k; lia).
  assert (L0 : 0 < length l) by (destruct l; [congruence|simpl; lia]).
  rewrite Ek.
  assert (FO : filters_ok (length (g_rows facs)) None fq).
  { rewrite Lf. unfold fq. destruct fl; [|split; intros ? ? X; discriminate X].
    destruct (HL eq_refl) as [M [-> RM]]. apply coo_opt_ok; [intros ? ? X; discriminate X|]. intros g c Hg Hc. rewrite filter_sparse_rows in Hg. apply filter_sparse_indices in Hc; auto. tauto. }
  destruct (knn_rows' sel fdist junk HS pool facs q (Z.of_nat k) None fq None) as [[X Y]|[idss [scs [X [L1 [L2 TN]]]]]]; auto.
  - intros ns Hns. discriminate Hns.
  - rewrite Lf. unfold k. lia.
  - intros X. apply HNE. unfold q, gpick in X. cbn in X. destruct (id_list id); auto. discriminate X.
  - rewrite LQ. auto.
  - rewrite Lf. lia.
  - rewrite LQ, Lf, Ll in Y. left. rewrite X. cbn [bind]. auto.
  - rewrite LQ, Lf in *. right. rewrite X. cbn [bind fst snd].
    assert (PIN : forall l0 i, In l0 idss -> In i l0 -> i < length l).
    { intros l0 i Hl0 Hi. destruct (In_nth _ _ [] Hl0) as [g [Hg <-]]. rewrite L1 in Hg. apply (topn_incl _ _ _ _ _ (TN g Hg)) in Hi. apply in_seq in Hi. lia. }
    rewrite gremap_nat by auto. cbn [bind].
    set (f := fun p => Z.to_nat (nth p l 0%Z)).
    exists (map (map f) idss), scs. split; [|split; [rewrite map_length; auto|split; auto]].
    + f_equal. f_equal. rewrite map_map. apply map_ext_in. intros l0 Hl0. rewrite map_map. apply map_ext_in. intros i Hi. unfold f.
      rewrite Z2Nat.id; auto. apply Bl. apply nth_In. eapply PIN; eauto.
    + intros g Hg. specialize (TN g Hg).
      change (@nil nat) with (map f []). rewrite (map_nth (map f)).
      assert (INJ : forall i j, In i (seq 0 (length l)) -> In j (seq 0 (length l)) -> f i = f j -> i = j).
      { intros i j Hi Hj E. apply in_seq in Hi. apply in_seq in Hj. unfold f in E.
        assert (nth i l 0%Z = nth j l 0%Z) by (pose proof (Bl (nth i l 0%Z) ltac:(apply nth_In; lia)); pose proof (Bl (nth j l 0%Z) ltac:(apply nth_In; lia)); lia).
        apply (NoDup_nth l 0%Z) in H; auto; lia. }
      eapply TopN_cands; [|rewrite <- (Z2Nat.id (Z.of_nat k)), Nat2Z.id in TN by lia; rewrite Nat2Z.id in TN; eapply TopN_rename; [exact INJ|]; eapply TopN_ext; [|exact TN]].
      * assert (E : map f (seq 0 (length l)) = map Z.to_nat l).
        { transitivity (map Z.to_nat (map (fun p => nth p l 0%Z) (seq 0 (length l)))); [rewrite map_map; reflexivity|]. f_equal.
          clear. apply (nth_ext _ _ 0%Z 0%Z); rewrite map_length, seq_length; auto. intros i Hi. rewrite nth_map_seq by auto. auto. }
        rewrite E. intros i. split; intros Hi; (eapply Permutation_in; [|exact Hi]); apply Permutation_map; [exact P|apply Permutation_sym, P].
      * intros i Hi. apply in_seq in Hi. unfold fscore.
        assert (HH : hidden None fq g i = fl && match ui with Csr M => liked_nz M g (f i) | NotCsr => false end).
        { unfold fq. destruct fl; [|reflexivity]. destruct (HL eq_refl) as [M [-> RM]]. rewrite coo_opt_hidden by (rewrite filter_sparse_rows; lia). cbn [orb andb].
          apply eq_true_iff_eq. rewrite memn_spec, filter_sparse_indices by (auto; lia). unfold liked_nz. rewrite existsb_exists. unfold f.
          pose proof (Bl (nth i l 0%Z) ltac:(apply nth_In; lia)) as BI. split.
          - intros [_ [c [v [A1 [A2 A3]]]]]. exists (c, v). split; auto. cbn. rewrite A2, A3, Nat2Z.id, Nat.eqb_refl. auto.
          - intros [[c v] [A1 A2]]. cbn in A2. apply andb_true_iff in A2. destruct A2 as [A2 A3]. apply Nat.eqb_eq in A2. apply negb_true_iff in A3. split; [lia|].
            exists c, v. split; auto. split; auto. lia. }
        rewrite HH. destruct (fl && _); auto. unfold base_score. f_equal.
        -- unfold q, gpick. cbn [g_rows]. rewrite (nth_map_lt _ _ _ _ 0%Z) by auto. reflexivity.
        -- unfold facs, gpick. cbn [g_rows]. rewrite (nth_map_lt _ _ _ _ 0%Z) by lia. reflexivity.
Qed.
End Rec.

Section Sim.
Variables (sel : select_k R) (fdist tiny : R) (junk : nat -> Z * R).
Hypothesis HS : select_k_ok sel.
Hypothesis Ht : (0 < tiny)%R.

Lemma norm_lookup (rows : list (list R)) zs : (forall z, In z zs -> (0 <= z < Z.of_nat (length rows))%Z) ->
  map_res (fun z => do i <- np_index (length (norms_of rnorm tiny rows)) z; Ok (nth i (norms_of rnorm tiny rows) nzero)) zs =
  Ok (map (fun z => safe_norm rnorm tiny (nth (Z.to_nat z) rows [])) zs).
Proof.
  intros HZ. apply map_res_map. intros z Hz. specialize (HZ z Hz). unfold norms_of at 1. rewrite map_length.
  rewrite np_index_ok by (unfold idx_ok; lia). cbn [bind]. rewrite wrap_nonneg by lia. f_equal. apply norms_nth; auto. lia.
Qed.

(** [its]: the list of candidates, or None for all of them. *)
Lemma gpu_similar_ok pool (m : gmatrix R) id N (its : option arr) (fi : option arr) :
  let n := length (g_rows m) in let B := length (id_list id) in
  let cands := match its with None => seq 0 n | Some a => map Z.to_nat (arr_list a) end in
  g_size m = 4%Z -> (Z.of_nat (g_cols m) <= 1024)%Z -> (Z.of_nat n < 2 ^ 31)%Z -> (Z.of_nat B < 2 ^ 31)%Z -> (0 <= pool <= four_gib)%Z ->
  id_list id <> [] -> (forall z, In z (id_list id) -> (0 <= z < Z.of_nat n)%Z) ->
  (1 <= N <= Z.of_nat (length cands))%Z ->
  (forall a, its = Some a -> NoDup (arr_list a) /\ (forall z, In z (arr_list a) -> (0 <= z < Z.of_nat n)%Z) /\ fi = None) ->
  (forall a, fi = Some a -> arr_list a <> [] /\ forall z, In z (arr_list a) -> (0 <= z < Z.of_nat n)%Z) ->
  (gpu_similar sel fdist junk pool m (gpu_norms rnorm tiny m) None id N fi its = Raise RuntimeError /\
     plan pool 4 (Z.of_nat B) N (Z.of_nat (length cands)) = Raise RuntimeError) \/
  exists idss scs, gpu_similar sel fdist junk pool m (gpu_norms rnorm tiny m) None id N fi its = Ok (gfinish id (map (map Z.of_nat) idss) scs) /\
    length idss = B /\ length scs = B /\
    forall g, g < B ->
      let q := nth (Z.to_nat (nth g (id_list id) 0%Z)) (g_rows m) [] in
      TopN (fscore (fdist / safe_norm rnorm tiny q)%R (fun i => match fi with None => false | Some a => memz (Z.of_nat i) (arr_list a) end)
             (fun j => cosine q (nth j (g_rows m) [])))
           cands (Z.to_nat N) (nth g idss []) (nth g scs []).
Proof.
  intros n B cands HSZ HC HN HB HP HNE HID HK HI HF. unfold gpu_similar.
  set (l := match its with None => map Z.of_nat (seq 0 n) | Some a => arr_list a end).
  assert (EC : cands = map Z.to_nat l).
  { unfold cands, l. destruct its; auto. rewrite map_map. rewrite <- (map_id (seq 0 n)) at 1. apply map_ext. intros i. rewrite Nat2Z.id. auto. }
  assert (Lc : length cands = length l) by (rewrite EC; apply map_length).
  assert (NDl : NoDup l).
  { unfold l. destruct its as [a|]; [apply (HI a eq_refl)|]. apply nodup_map_in; [intros; lia|apply seq_NoDup]. }
  assert (Bl : forall z, In z l -> (0 <= z < Z.of_nat n)%Z).
  { unfold l. destruct its as [a|]; [apply (HI a eq_refl)|]. intros z Hz. apply in_map_iff in Hz. destruct Hz as [i [<- Hi]]. apply in_seq in Hi. lia. }
  assert (L0 : 0 < length l) by lia. assert (NEl : l <> []) by (destruct l; [simpl in L0; lia|discriminate]).
  assert (LE : length l <= n).
  { rewrite <- Lc. rewrite <- (seq_length n 0). apply NoDup_incl_length.
    - rewrite EC. apply nodup_map_in; auto. intros x y Hx Hy E. apply Bl in Hx. apply Bl in Hy. lia.
    - intros i Hi. rewrite EC in Hi. apply in_map_iff in Hi. destruct Hi as [z [<- Hz]]. apply Bl in Hz. apply in_seq. lia. }
  set (facs := gpick m l). set (ns := map (fun z => safe_norm rnorm tiny (nth (Z.to_nat z) (g_rows m) [])) l).
  unfold gpu_norms. rewrite (proj2 (Z.leb_le _ _) HC).
  assert (ES : exists its', gpu_candidates m (norms_of rnorm tiny (g_rows m)) fi its = Ok (its', facs, ns) /\
     forall pss, (forall l0 i, In l0 pss -> In i l0 -> i < length l) -> gremap its' (map (map Z.of_nat) pss) = Ok (map (map (fun p => nth p l 0%Z)) pss)).
  { unfold gpu_candidates. destruct its as [a|].
    - exists (Some l). destruct (HI a eq_refl) as [_ [_ EF]]. rewrite EF. cbn [truthy bind]. change (arr_list a) with l. rewrite norm_lookup by auto. cbn [bind]. rewrite gpu_getitem_ok; cbn [id_list]; auto; [|fold n; lia]. cbn [bind].
      rewrite out_of_model_ok by (auto; intros z Hz; apply Bl; auto). cbn [bind]. split; [|intros pss Hp; apply gremap_nat; auto].
      destruct a as [[|z0 a]|a]; auto. exfalso. apply NEl. reflexivity.
    - exists None. assert (FE : facs = m).
      { unfold facs, gpick. destruct m as [s c rows]. cbn in *. f_equal. unfold l. rewrite map_map. apply (nth_ext _ _ [] []); rewrite map_length, seq_length; auto. intros i Hi. rewrite nth_map_seq by auto. rewrite Nat2Z.id. auto. }
      assert (NE : ns = norms_of rnorm tiny (g_rows m)).
      { unfold ns, norms_of. transitivity (map (safe_norm rnorm tiny) (g_rows facs)); [unfold facs, gpick; cbn [g_rows]; rewrite map_map; reflexivity|rewrite FE; reflexivity]. }
      rewrite FE, NE. split; auto. intros pss Hp. cbn [gremap]. f_equal. apply map_ext_in. intros l0 Hl0. apply map_ext_in. intros i Hi. specialize (Hp l0 i Hl0 Hi).
      unfold l. unfold l in Hp. rewrite map_length, seq_length in Hp. rewrite (nth_map_lt _ _ _ _ 0) by (rewrite seq_length; auto). rewrite seq_nth by auto. auto. }
  destruct ES as [its' [ES GR]]. rewrite ES. clear ES. cbn [bind].
  rewrite gpu_getitem_ok by (auto; fold n; lia). cbn [bind]. set (q := gpick m (id_list id)).
  rewrite int_vector_ok by (intros a Ha; apply (HF a Ha)). cbn [bind]. set (fz := option_map arr_list fi).
  assert (Lf : length (g_rows facs) = length l) by (cbn; apply map_length).
  assert (LQ : length (g_rows q) = B) by (cbn; apply map_length).
  (* positions are items when there is an item filter *)
  assert (PF : forall a, fi = Some a -> l = map Z.of_nat (seq 0 n)).
  { intros a Ha. unfold l. destruct its as [b|]; auto. destruct (HI b eq_refl) as [_ [_ X]]. congruence. }
  assert (FO : filters_ok (length (g_rows facs)) fz None).
  { split; [|intros ? ? X; discriminate X]. intros ids z Ez Hz. rewrite Lf. unfold fz in Ez. destruct fi as [a|]; [|discriminate Ez]. injection Ez as <-.
    rewrite (PF a eq_refl), map_length, seq_length. apply (HF a eq_refl); auto. }
  destruct (knn_rows' sel fdist junk HS pool facs q N (Some ns) None fz) as [[X Y]|[idss [scs [X [L1 [L2 TN]]]]]]; auto.
  - intros ns' Hns. injection Hns as <-. unfold ns. rewrite map_length, Lf. auto.
  - rewrite Lf, <- Lc. lia.
  - intros X. apply HNE. unfold q, gpick in X. cbn in X. destruct (id_list id); auto. discriminate X.
  - rewrite LQ. auto.
  - rewrite Lf. lia.
  - rewrite LQ, Lf, <- Lc in Y. left. rewrite X. cbn [bind]. auto.
  - rewrite LQ, Lf in *. right. rewrite X. cbn [bind fst snd].
    assert (PIN : forall l0 i, In l0 idss -> In i l0 -> i < length l).
    { intros l0 i Hl0 Hi. destruct (In_nth _ _ [] Hl0) as [g [Hg <-]]. rewrite L1 in Hg. apply (topn_incl _ _ _ _ _ (TN g Hg)) in Hi. apply in_seq in Hi. lia. }
    rewrite GR by auto. cbn [bind]. rewrite norm_lookup by auto. cbn [bind].
    set (f := fun p => Z.to_nat (nth p l 0%Z)). set (qn := map (fun z => safe_norm rnorm tiny (nth (Z.to_nat z) (g_rows m) [])) (id_list id)).
    assert (Lqn : length qn = B) by (unfold qn; apply map_length).
    exists (map (map f) idss), (map (fun p => map (fun s => ndiv s (snd p)) (fst p)) (combine scs qn)). split; [|split; [rewrite map_length; auto|split]].
    + f_equal. f_equal. rewrite map_map. apply map_ext_in. intros l0 Hl0. rewrite map_map. apply map_ext_in. intros i Hi. unfold f.
      rewrite Z2Nat.id; auto. apply Bl. apply nth_In. eapply PIN; eauto.
    + rewrite map_length, combine_length, L2, Lqn. lia.
    + intros g Hg. set (qv := nth (Z.to_nat (nth g (id_list id) 0%Z)) (g_rows m) []). specialize (TN g Hg).
      change (@nil nat) with (map f []). rewrite (map_nth (map f)).
      rewrite (nth_map_lt _ _ _ _ ([], nzero)) by (rewrite combine_length, L2, Lqn; lia). rewrite combine_nth by lia. cbn [fst snd].
      assert (EQN : nth g qn nzero = safe_norm rnorm tiny qv). { unfold qn. rewrite (nth_map_lt _ _ _ _ 0%Z) by auto. reflexivity. }
      rewrite EQN. set (c := safe_norm rnorm tiny qv). assert (Hc : (0 < c)%R) by (apply safe_norm_pos; auto).
      assert (INJ : forall i j, In i (seq 0 (length l)) -> In j (seq 0 (length l)) -> f i = f j -> i = j).
      { intros i j Hi Hj E. apply in_seq in Hi. apply in_seq in Hj. unfold f in E.
        assert (nth i l 0%Z = nth j l 0%Z) by (pose proof (Bl (nth i l 0%Z) ltac:(apply nth_In; lia)); pose proof (Bl (nth j l 0%Z) ltac:(apply nth_In; lia)); lia).
        apply (NoDup_nth l 0%Z) in H; auto; lia. }
      assert (CE : map f (seq 0 (length l)) = cands).
      { rewrite EC. transitivity (map Z.to_nat (map (fun p => nth p l 0%Z) (seq 0 (length l)))); [rewrite map_map; reflexivity|]. f_equal.
        clear. apply (nth_ext _ _ 0%Z 0%Z); rewrite map_length, seq_length; auto. intros i Hi. rewrite nth_map_seq by auto. auto. }
      rewrite <- CE. eapply TopN_rename; [exact INJ|]. eapply TopN_ext; [|apply TopN_div; [exact Hc|exact TN]].
      intros i Hi. apply in_seq in Hi. unfold fscore.
      assert (HH : hidden fz None g i = match fi with None => false | Some a => memz (Z.of_nat (f i)) (arr_list a) end).
      { unfold hidden, fz. rewrite orb_false_r. destruct fi as [a|]; auto. cbn [option_map]. f_equal. unfold f. pose proof (PF a eq_refl) as PFa. rewrite PFa.
        assert (i < n) by (rewrite PFa, map_length, seq_length in Hi; lia). rewrite (nth_map_lt _ _ _ _ 0) by (rewrite seq_length; auto). rewrite seq_nth by auto. rewrite Nat2Z.id. auto. }
      rewrite HH. destruct (match fi with None => false | Some a => _ end); auto. unfold base_score.
      replace (nth i ns nzero) with (safe_norm rnorm tiny (nth (f i) (g_rows m) [])).
      2:{ unfold ns. rewrite (nth_map_lt _ _ _ _ 0%Z) by lia. reflexivity. }
      replace (nth i (g_rows facs) []) with (nth (f i) (g_rows m) []).
      2:{ unfold facs, gpick. cbn [g_rows]. rewrite (nth_map_lt _ _ _ _ 0%Z) by lia. reflexivity. }
      replace (nth g (g_rows q) []) with qv.
      2:{ unfold q, gpick. cbn [g_rows]. rewrite (nth_map_lt _ _ _ _ 0%Z) by auto. reflexivity. }
      rewrite ndot_rdot. change (@ndiv R Num_R) with Rdiv. apply safe_cosine; auto.
Qed.
End Sim.
