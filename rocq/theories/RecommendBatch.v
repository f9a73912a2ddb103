(** A batch call to [recommend] is the per-user scalar calls. *)
From Coq Require Import List Arith Lia Bool ZArith Permutation Sorted.
From Verif Require Import Base Num Heap Sparse TopkModel TopkSpec TopkProofs TopkBatch
  RecommendModel RecommendProofs RecommendProofs2.
Import ListNotations.

Section Batch.
Context {T : Type} `{NumOrd T}.
Variables (HP : std_heap) (HC : std_heap_ok HP) (fmin : T).

(** A recalculate_user method that treats the users of a batch separately. *)
Definition rowwise (recalc : idarg -> csr T -> res (list (list T))) : Prop :=
  (forall u M X, recalc (Scalar u) M = Ok X -> exists q, X = [q]) /\
  forall us M X, us <> [] -> c_rows M = length us ->
    (recalc (Batch us) M = Ok X <->
     length X = length us /\
     forall g, g < length us -> recalc (Scalar (nth g us 0%Z)) (csr_take_row M g) = Ok [nth g X []]).

Lemma no_recalc_rowwise : rowwise no_recalc.
Proof.
  split; [discriminate|]. intros us M X NE _. unfold no_recalc. split; [discriminate|].
  intros [_ E]. destruct us; [congruence|]. specialize (E 0 ltac:(simpl; lia)). discriminate.
Qed.

Lemma gather_rowwise (rows : list (list T)) us X :
  gather rows us = Ok X <->
  length X = length us /\ forall g, g < length us -> gather rows [nth g us 0%Z] = Ok [nth g X []].
Proof.
  unfold gather. rewrite map_res_ok. revert X; induction us as [|u us IH]; intros X; simpl.
  - split. { intros E; inversion E; split; auto; lia. }
    intros [L _]. destruct X; [constructor|discriminate].
  - split.
    + intros E. inversion E as [|? b ? bs E1 E2]; subst. apply IH in E2. destruct E2 as [L E2].
      split; [simpl; auto|]. intros [|g] Hg; simpl.
      * rewrite E1. auto.
      * apply E2. lia.
    + intros [L E]. destruct X as [|b bs]; [discriminate|]. constructor.
      * specialize (E 0 ltac:(lia)). simpl in E. apply bind_ok in E.
        destruct E as [y [E1 E2]]. simpl in E2. inversion E2; subst. auto.
      * apply IH. split; [simpl in L; lia|]. intros g Hg. specialize (E (S g) ltac:(lia)). auto.
Qed.

Lemma gather_single (rows : list (list T)) u X : gather rows [u] = Ok X -> exists q, X = [q].
Proof.
  unfold gather. simpl. intros E. apply bind_ok in E. destruct E as [y [_ E]]. simpl in E.
  inversion E. eauto.
Qed.

Lemma topk_row_cong items norms fq fq' fi k g g' q :
  match fq, fq' with
  | None, None => True
  | Some M, Some M' => g < c_rows M /\ g' < c_rows M' /\ csr_row M g = csr_row M' g'
  | _, _ => False
  end ->
  topk_row HP fmin items norms fq fi k g q = topk_row HP fmin items norms fq' fi k g' q.
Proof.
  intros E. unfold topk_row, row_scores.
  destruct (score_row items norms q); cbn [bind]; auto.
  destruct fq as [M|], fq' as [M'|]; try contradiction; auto.
  destruct E as [E1 [E2 E3]]. unfold csr_row_indices. rewrite E3.
  destruct (Nat.ltb_spec g (c_rows M)), (Nat.ltb_spec g' (c_rows M')); auto; lia.
Qed.

Lemma csr_take_row_rows (M : csr T) g : c_rows (csr_take_row M g) = 1.
Proof. reflexivity. Qed.

Lemma recommend_batch m recalc us M N fl fi rc items I S :
  us <> [] -> (0 < N)%Z -> item_factors m <> [] -> rowwise recalc ->
  recommend HP fmin m recalc (Batch us) (Csr M) N fl fi rc items = Ok (ManyRows I S) <->
  (fl || rc = true -> c_rows M = length us) /\ length I = length us /\ length S = length us /\
  forall g, g < length us ->
    recommend HP fmin m recalc (Scalar (nth g us 0%Z)) (Csr (csr_take_row M g)) N fl fi rc items =
      Ok (OneRow (nth g I []) (nth g S [])).
Proof.
  intros NE HN HI RW.
  assert (L0 : 0 < length us) by (destruct us; simpl; [congruence|lia]).
  set (sel := match items with
             | None => Ok (N, None, item_factors m)
             | Some its =>
                 do r <- restrict_items m fi its;
                 Ok (Z.min N (Z.of_nat (length (arr_list its))), Some (fst r), snd r)
             end).
  set (fqof := fun (its : option (list Z)) (M : csr T) => if fl then Some (match its with
                               | None => M
                               | Some l => filter_items_from_sparse_matrix l M
                               end) else None).
  assert (EB : recommend HP fmin m recalc (Batch us) (Csr M) N fl fi rc items =
    do _ <- (if fl || rc then (if c_rows M =? length us then Ok tt else Raise ValueError) else Ok tt);
    do user <- (if rc then recalc (Batch us) M else gather (user_factors m) us);
    do s <- sel;
    let '(N', its, facs) := s in
    do r <- topk HP fmin facs user N' None (fqof its M) (option_map arr_list fi);
    Ok (finish (Batch us) its r)) by reflexivity.
  assert (ES : forall g, recommend HP fmin m recalc (Scalar (nth g us 0%Z)) (Csr (csr_take_row M g)) N fl fi rc items =
    do user <- (if rc then recalc (Scalar (nth g us 0%Z)) (csr_take_row M g) else gather (user_factors m) [nth g us 0%Z]);
    do s <- sel;
    let '(N', its, facs) := s in
    do r <- topk HP fmin facs user N' None (fqof its (csr_take_row M g)) (option_map arr_list fi);
    Ok (finish (Scalar (nth g us 0%Z)) its r)).
  { intros g. unfold recommend. rewrite csr_take_row_rows. simpl id_list. simpl length.
    destruct (fl || rc); reflexivity. }
  rewrite EB. setoid_rewrite ES. clear EB ES.
  assert (GATE : forall (k : res (out T)) v,
    (do _ <- (if fl || rc then (if c_rows M =? length us then Ok tt else Raise ValueError) else Ok tt); k) = Ok v <->
    (fl || rc = true -> c_rows M = length us) /\ k = Ok v).
  { intros k v. destruct (fl || rc); cbn [bind]; [|split; [intros; split; [discriminate|auto]|tauto]]. destruct (Nat.eqb_spec (c_rows M) (length us)); cbn [bind].
    - split; auto. tauto.
    - split; [discriminate|]. intros [E _]. exfalso; auto. }
  rewrite GATE. clear GATE.
  assert (CORE : (fl || rc = true -> c_rows M = length us) ->
    ((do user <- (if rc then recalc (Batch us) M else gather (user_factors m) us);
    do s <- sel;
    let '(N', its, facs) := s in
    do r <- topk HP fmin facs user N' None (fqof its M) (option_map arr_list fi);
    Ok (finish (Batch us) its r)) = Ok (ManyRows I S) <->
    length I = length us /\ length S = length us /\
  forall g, g < length us ->
    (do user <- (if rc then recalc (Scalar (nth g us 0%Z)) (csr_take_row M g) else gather (user_factors m) [nth g us 0%Z]);
    do s <- sel;
    let '(N', its, facs) := s in
    do r <- topk HP fmin facs user N' None (fqof its (csr_take_row M g)) (option_map arr_list fi);
    Ok (finish (Scalar (nth g us 0%Z)) its r)) = Ok (OneRow (nth g I []) (nth g S [])))).
  2:{ split.
      - intros [GT E]. split; auto. apply CORE; auto.
      - intros [GT E]. split; auto. apply CORE; auto. }
  intros GT.
  (* users *)
  assert (UB : forall X, (if rc then recalc (Batch us) M else gather (user_factors m) us) = Ok X <->
     length X = length us /\ forall g, g < length us ->
     (if rc then recalc (Scalar (nth g us 0%Z)) (csr_take_row M g) else gather (user_factors m) [nth g us 0%Z]) = Ok [nth g X []]).
  { intros X. destruct rc.
    - apply RW; auto. apply GT. apply orb_true_r.
    - apply gather_rowwise. }
  set (US := fun g => (if rc then recalc (Scalar (nth g us 0%Z)) (csr_take_row M g) else gather (user_factors m) [nth g us 0%Z])) in *.
  destruct sel as [[[N' its] facs]|e] eqn:ESEL.
  2:{ cbn [bind]. split.
      - intros E. apply bind_ok in E. destruct E as [? [_ E]]. discriminate.
      - intros [_ [_ E]]. specialize (E 0 L0). apply bind_ok in E. destruct E as [? [_ E]]. discriminate. }
  cbn [bind].
  assert (SN : (0 < N')%Z /\ facs <> []).
  { unfold sel in ESEL. destruct items as [a|].
    - apply bind_ok in ESEL. destruct ESEL as [[l fs] [R X]]. cbn [fst snd] in X. inversion X; subst.
      unfold restrict_items in R. destruct (truthy fi) as [[|]|]; cbn [bind] in R; try discriminate.
      assert (R' : exists l0, arr_list a = l0 /\ (do facs <- gather (item_factors m) (sort_z l0);
    do bad <- out_of_model (length (item_factors m)) (sort_z l0);
    if bad : bool then Raise IndexError else Ok (sort_z l0, facs)) = Ok (l, facs)).
      { exists (arr_list a). split; auto. destruct a as [[|]|]; auto. discriminate. }
      destruct R' as [l0 [El0 R']]. apply bind_ok in R'. destruct R' as [f0 [G R']].
      apply bind_ok in R'. destruct R' as [b [O R']]. destruct b; [discriminate|]. inversion R'; subst.
      assert (LL : length facs = length (arr_list a)).
      { apply gather_rowwise in G. destruct G as [G _]. rewrite G. apply Permutation_length, sort_z_perm. }
      assert (LN : length (arr_list a) <> 0).
      { intro Z0. rewrite <- (Permutation_length (sort_z_perm (arr_list a))) in Z0.
        destruct (sort_z (arr_list a)); [discriminate|discriminate]. }
      split; [lia|]. intro; subst facs. simpl in LL. lia.
    - inversion ESEL; subst. auto. }
  destruct SN as [HN' HF].
  clear ESEL sel. set (fl_ := option_map arr_list fi).
  assert (TB : forall X, (do r <- topk HP fmin facs X N' None (fqof its M) fl_; Ok (finish (Batch us) its r)) = Ok (ManyRows I S) <->
     exists rs, (length X = length rs /\ forall g, g < length X ->
        topk_row' HP fmin facs None (fqof its M) fl_ (Z.to_nat N') g (nth g X []) = Ok (nth g rs [])) /\
       I = map (fun r => remap its (pad (Z.to_nat N') 0 (map snd r))) rs /\
       S = map (fun r => pad (Z.to_nat N') nzero (map fst r)) rs).
  { intros X. split.
    - intros E. apply bind_ok in E. destruct E as [[i s] [E F]]. apply topk_ok in E; auto.
      destruct E as [rs [E [-> ->]]]. apply (Forall2_enum_nth (fun g q r => topk_row' HP fmin facs None (fqof its M) fl_ (Z.to_nat N') g q = Ok r) X rs [] []) in E.
      exists rs. split; auto. simpl in F. inversion F. rewrite map_map. auto.
    - intros [rs [E [-> ->]]].
      apply (Forall2_enum_nth (fun g q r => topk_row' HP fmin facs None (fqof its M) fl_ (Z.to_nat N') g q = Ok r) X rs [] []) in E.
      assert (Y : topk HP fmin facs X N' None (fqof its M) fl_ = Ok (map (fun r => pad (Z.to_nat N') 0 (map snd r)) rs,
         map (fun r => pad (Z.to_nat N') nzero (map fst r)) rs)).
      { apply topk_ok; auto. exists rs. auto. }
      rewrite Y. simpl. rewrite map_map. auto. }
  assert (TS : forall g q i s, (do r <- topk HP fmin facs [q] N' None (fqof its (csr_take_row M g)) fl_; Ok (finish (Scalar (nth g us 0%Z)) its r)) = Ok (OneRow i s) <->
     exists r, topk_row' HP fmin facs None (fqof its (csr_take_row M g)) fl_ (Z.to_nat N') 0 q = Ok r /\
       i = remap its (pad (Z.to_nat N') 0 (map snd r)) /\
       s = pad (Z.to_nat N') nzero (map fst r)).
  { intros g q i s. split.
    - intros E. apply bind_ok in E. destruct E as [[i' s'] [E F]]. apply topk_ok in E; auto.
      destruct E as [rs [E [-> ->]]]. inversion E as [|? r ? ? E1 E2]; subst. inversion E2; subst.
      simpl in F. inversion F; subst. exists r. auto.
    - intros [r [E [-> ->]]].
      assert (Y : topk HP fmin facs [q] N' None (fqof its (csr_take_row M g)) fl_ = Ok (map (fun r => pad (Z.to_nat N') 0 (map snd r)) [r],
         map (fun r => pad (Z.to_nat N') nzero (map fst r)) [r])).
      { apply topk_ok; auto. exists [r]. split; auto. constructor; auto. }
      rewrite Y. simpl. auto. }
  assert (CG : forall g q, g < length us -> topk_row' HP fmin facs None (fqof its (csr_take_row M g)) fl_ (Z.to_nat N') 0 q =
     topk_row' HP fmin facs None (fqof its M) fl_ (Z.to_nat N') g q).
  { intros g q Hg. unfold topk_row'. apply topk_row_cong. unfold fqof. destruct fl; auto.
    assert (ER : c_rows M = length us) by (apply GT; auto).
    destruct its as [l|].
    - rewrite !filter_sparse_rows, csr_take_row_rows. split; [lia|]. split; [lia|].
      apply filter_sparse_row. lia.
    - rewrite csr_take_row_rows. split; [lia|]. split; [lia|]. apply csr_take_row_row. }
  split.
  - intros E. apply bind_ok in E. destruct E as [X [EX E]]. apply UB in EX. destruct EX as [LX EX].
    apply TB in E. destruct E as [rs [[Lr E] [-> ->]]].
    rewrite !map_length. split; [lia|]. split; [lia|]. intros g Hg.
    rewrite (EX g Hg). cbn [bind]. apply TS. exists (nth g rs []).
    rewrite CG by auto. rewrite E by lia. split; auto. split.
    + rewrite (nth_indep _ [] ((fun r : list (T * nat) => remap its (pad (Z.to_nat N') 0 (map snd r))) [])) by (rewrite map_length; lia).
      rewrite (map_nth (fun r : list (T * nat) => remap its (pad (Z.to_nat N') 0 (map snd r)))). auto.
    + rewrite (nth_indep _ [] ((fun r : list (T * nat) => pad (Z.to_nat N') nzero (map fst r)) [])) by (rewrite map_length; lia).
      rewrite (map_nth (fun r : list (T * nat) => pad (Z.to_nat N') nzero (map fst r))). auto.
  - intros [LI [LS E]].
    assert (UG : forall g, g < length us -> exists p : list T * list (T * nat), US g = Ok [fst p] /\
       topk_row' HP fmin facs None (fqof its M) fl_ (Z.to_nat N') g (fst p) = Ok (snd p) /\
       nth g I [] = remap its (pad (Z.to_nat N') 0 (map snd (snd p))) /\
       nth g S [] = pad (Z.to_nat N') nzero (map fst (snd p))).
    { intros g Hg. specialize (E g Hg). apply bind_ok in E. destruct E as [X [EX E]].
      assert (exists q, X = [q]) as [q ->].
      { unfold US in EX. destruct rc; [destruct RW as [RW1 _]; eauto|eapply gather_single; eauto]. }
      apply TS in E. destruct E as [r [E1 [E2 E3]]]. exists (q, r). cbn [fst snd].
      rewrite CG in E1 by auto. auto. }
    apply (choose_list _ _ ([], [])) in UG. destruct UG as [ps [Lp UG]].
    assert (EX : (if rc then recalc (Batch us) M else gather (user_factors m) us) = Ok (map fst ps)).
    { apply UB. rewrite map_length. split; auto. intros g Hg. 
      replace (nth g (map fst ps) []) with (fst (nth g ps ([], []))) by (symmetry; apply (map_nth fst ps ([], []))).
      apply UG; auto. }
    rewrite EX. cbn [bind]. apply TB. exists (map snd ps). rewrite !map_length. split; [split; auto|split].
    + intros g Hg. 
      replace (nth g (map fst ps) []) with (fst (nth g ps ([], []))) by (symmetry; apply (map_nth fst ps ([], []))).
      replace (nth g (map snd ps) []) with (snd (nth g ps ([], []))) by (symmetry; apply (map_nth snd ps ([], []))).
      apply UG. lia.
    + rewrite map_map. apply (list_ext _ _ []); rewrite ?map_length; [lia|]. intros g Hg.
      rewrite (nth_indep (map _ _) [] ((fun p : list T * list (T * nat) => remap its (pad (Z.to_nat N') 0 (map snd (snd p)))) ([], []))) by (rewrite map_length; lia).
      rewrite (map_nth (fun p : list T * list (T * nat) => remap its (pad (Z.to_nat N') 0 (map snd (snd p))))).
      apply UG. lia.
    + rewrite map_map. apply (list_ext _ _ []); rewrite ?map_length; [lia|]. intros g Hg.
      rewrite (nth_indep (map _ _) [] ((fun p : list T * list (T * nat) => pad (Z.to_nat N') nzero (map fst (snd p))) ([], []))) by (rewrite map_length; lia).
      rewrite (map_nth (fun p : list T * list (T * nat) => pad (Z.to_nat N') nzero (map fst (snd p)))).
      apply UG. lia.
Qed.
End Batch.
