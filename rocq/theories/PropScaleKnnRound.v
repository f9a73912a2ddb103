(** C167: item-item recommendations of rescaled users in floating point. *)
From Coq Require Import List Arith Lia Bool ZArith Permutation Sorted Reals Lra.
From Coq Require Import Floats.SpecFloat.
From Verif Require Import Base Num Heap Sparse TopkModel TopkSpec TopkProofs TopkBatch
  RecommendModel RecommendProofs RecommendProofs2 RecommendProofs3 RVec MetricsModel MetricsProofs MetricsDouble DoubleProofs FloatModel
  KnnModel KnnAcc KnnProofs KnnRec KnnConc KnnRec2 PropKnn ScaleProofs PropScale PropScaleKnn
  SimilarRound SimilarRoundProofs PropCosineRound PropStart LossRound.
Import ListNotations.
Local Open Scope R_scope.

Section F.
Variables (rd : R -> R) (c : R).
Hypothesis C : 0 < c.
Hypothesis RC : forall x, rd (c * x) = c * rd x.
Local Notation NR := (Num_rnd rd).
Let NO : @NumOrd R NR := NumOrd_rnd rd.

Lemma nsum_scale_rnd (l : list R) : @nsum R NR (map (Rmult c) l) = c * @nsum R NR l.
Proof.
  unfold nsum. assert (G : forall a, fold_left (@nadd R NR) (map (Rmult c) l) (c * a) = c * fold_left (@nadd R NR) l a).
  { induction l as [|x l' IH]; intros a; cbn [map fold_left]; auto. rewrite <- IH. f_equal. change (rd (c * a + c * x) = c * rd (a + x)).
    rewrite <- RC. f_equal. ring. }
  rewrite <- G. f_equal. change (0 = c * 0). ring.
Qed.

Lemma term_scale_rnd s w : @nmul R NR s (c * w) = c * @nmul R NR s w.
Proof. change (rd (s * (c * w)) = c * rd (s * w)). rewrite <- RC. f_equal. ring. Qed.

Lemma sadds_scale_rnd sim row : @sadds R NR sim (scale_row c row) = scale_row c (@sadds R NR sim row).
Proof.
  unfold sadds, scale_row. induction row as [|p row IH]; auto. cbn [map flat_map fst snd]. rewrite IH, map_app. f_equal.
  rewrite map_map. apply map_ext. intros q. cbn [fst snd]. f_equal. apply term_scale_rnd.
Qed.

Lemma shown_scale_rnd sim fl row j : @shown R NR sim fl (scale_row c row) j = c * @shown R NR sim fl row j.
Proof.
  unfold shown. rewrite map_fst_scale. destruct (fl && memn j (map fst row)); [change (0 = c * 0); ring|].
  unfold predict. rewrite <- nsum_scale_rnd. f_equal. unfold predict_terms, scale_row. induction row as [|p row IH]; auto.
  cbn [map flat_map fst snd]. rewrite IH, map_app. f_equal. rewrite map_map. apply map_ext. intros q. apply term_scale_rnd.
Qed.

Lemma scorer_scaled_rnd HP (HC : std_heap_ok HP) sim row K fl r a : csr_wf sim -> c_cols sim = c_rows sim -> row_ok sim row ->
  @scorer_recommend R NR HP sim (@acc_new R NR (c_rows sim)) row K fl = Ok (r, a) ->
  @scorer_recommend R NR HP sim (@acc_new R NR (c_rows sim)) (scale_row c row) K fl = Ok (map (gp (Rmult c)) r, a).
Proof.
  intros Wf Sq RO E.
  assert (RO' : row_ok sim (scale_row c row)). { unfold row_ok, scale_row in *. rewrite Forall_forall in *. intros p Hp. apply in_map_iff in Hp. destruct Hp as (q & <- & Hq). cbn [fst]. auto. }
  rewrite (@scorer_recommend_eq R NR) in * by auto.
  assert (SV : @svisited R NR sim fl (scale_row c row) = map (fun p => (fst p, c * snd p)) (@svisited R NR sim fl row)).
  { unfold svisited. rewrite sadds_scale_rnd, touch_scale, map_map. apply map_ext. intros j. cbn [fst snd]. rewrite shown_scale_rnd. reflexivity. }
  rewrite SV, map_length. set (l := @svisited R NR sim fl row) in *. set (k := size_t_limit K (length l)) in *.
  assert (FS : @feed_sort R NR HP k l = Ok r /\ a = @acc_new R NR (c_rows sim)).
  { unfold feed_sort. destruct (@topk_feed R NR HP k l []); cbn [bind] in *; [injection E as <- <-; auto|discriminate]. }
  destruct FS as [FS ->].
  assert (ND : NoDup (map fst l)). { unfold l. rewrite svisited_fst. apply touch_nodup. constructor. }
  pose proof (@feed_sort_map R NR NO (Rmult c) (fun x y => Rmult_mono c x y C) HP HC k l r ND FS) as FM.
  unfold feed_sort in FM. destruct (@topk_feed R NR HP k (map (fun p => (fst p, c * snd p)) l) []); cbn [bind] in *; [injection FM as ->; auto|discriminate].
Qed.

Lemma ii_scaled_rnd HP fmin fmin32 (sim M M' : csr R) u N fl fi items ids sc acc :
  std_heap_ok HP -> csr_wf sim -> c_cols sim = c_rows sim -> rescaled_user c M M' ->
  (forall j w, In (j, w) (csr_row M 0) -> (j < c_rows sim)%nat) ->
  @ii_recommend R NR HP fmin fmin32 sim (@acc_new R NR (c_rows sim)) (Scalar u) (Csr M) N fl fi items = Ok (OneRow ids sc, acc) ->
  exists sc', @ii_recommend R NR HP fmin fmin32 sim (@acc_new R NR (c_rows sim)) (Scalar u) (Csr M') N fl fi items = Ok (OneRow ids sc', acc) /\
    Forall2 (scores_scaled fmin c (match items with Some _ => true | None => false end)) sc sc'.
Proof.
  intros HC Wf Sq [RR RS] RO E.
  assert (RK : row_ok sim (csr_row M 0)) by (apply Forall_forall; intros [j w] Hj; eapply RO; eauto).
  unfold ii_recommend in *. apply bind_ok in E. destruct E as [[r a1] [E1 E2]]. injection E2 as <- <- <-.
  unfold ii_recommend1 in *. apply bind_ok in E1. destruct E1 as [N' [EN E1]]. rewrite EN. cbn [bind]. rewrite RR.
  destruct (c_rows M =? 0)%nat; [discriminate|]. apply bind_ok in E1. destruct E1 as [[r0 a0] [ES E1]].
  rewrite RS. fold (scale_row c (csr_row M 0)). rewrite (scorer_scaled_rnd HP HC sim (csr_row M 0) N' fl r0 a0) by auto. cbn [bind].
  assert (MM : (map (fun p : R * nat => Z.of_nat (snd p)) (map (gp (Rmult c)) r0), map fst (map (gp (Rmult c)) r0)) =
    (map (fun p : R * nat => Z.of_nat (snd p)) r0, map (Rmult c) (map fst r0))) by (rewrite !map_map; reflexivity).
  rewrite MM. set (I0 := map (fun p : R * nat => Z.of_nat (snd p)) r0) in *. set (S0 := map fst r0) in *.
  assert (FM : forall b l, Forall2 (scores_scaled fmin c b) l (map (Rmult c) l)) by (intros b l; induction l; cbn [map]; constructor; auto; left; reflexivity).
  destruct fi as [f|].
  - injection E1 as <- <-. destruct items; [discriminate|]. rewrite mask_in_scale. cbn [fst snd bind]. rewrite py_take_map.
    eexists. split; [reflexivity|]. apply FM.
  - destruct items as [s|].
    + injection E1 as <- <-. rewrite mask_in_scale. unfold append_missing. cbn [fst snd bind]. eexists. split; [reflexivity|].
      apply Forall2_app; [apply FM|]. clear. induction (filter _ _); cbn [map]; constructor; auto. right. auto.
    + injection E1 as <- <-. cbn [fst snd bind]. eexists. split; [reflexivity|]. apply FM.
Qed.
End F.

(** A rounding that commutes with doubling commutes with every power of two. *)
Lemma ro_pow rd u k x : rounding rd u -> rd (powerRZ 2 k * x) = powerRZ 2 k * rd x.
Proof.
  intros RO. assert (P : forall n y, rd (2 ^ n * y) = 2 ^ n * rd y).
  { induction n as [|n IH]; intros y; cbn [pow]; [rewrite !Rmult_1_l; auto|]. rewrite !Rmult_assoc, (ro_two _ _ RO), IH. auto. }
  destruct k as [|p|p]; cbn [powerRZ]; [rewrite !Rmult_1_l; auto|apply P|].
  assert (NZ : 2 ^ Pos.to_nat p <> 0) by (apply pow_nonzero; lra).
  apply (Rmult_eq_reg_l (2 ^ Pos.to_nat p)); auto. rewrite <- P. rewrite <- !Rmult_assoc, Rinv_r, !Rmult_1_l by auto. auto.
Qed.

(** Scaled by a power of two, in any binary floating point without overflow and underflow: the same items with exactly
    scaled scores. *)
Theorem C167_power_partial : forall rd unit HP fmin fmin32 (sim M M' : csr R) k u N fl fi items ids sc acc,
  rounding rd unit -> std_heap_ok HP -> csr_wf sim -> c_cols sim = c_rows sim -> rescaled_user (powerRZ 2 k) M M' ->
  (forall j w, In (j, w) (csr_row M 0) -> (j < c_rows sim)%nat) ->
  @ii_recommend R (Num_rnd rd) HP fmin fmin32 sim (@acc_new R (Num_rnd rd) (c_rows sim)) (Scalar u) (Csr M) N fl fi items = Ok (OneRow ids sc, acc) ->
  exists sc', @ii_recommend R (Num_rnd rd) HP fmin fmin32 sim (@acc_new R (Num_rnd rd) (c_rows sim)) (Scalar u) (Csr M') N fl fi items = Ok (OneRow ids sc', acc) /\
    Forall2 (scores_scaled fmin (powerRZ 2 k) (match items with Some _ => true | None => false end)) sc sc'.
Proof.
  intros rd unit HP fmin fmin32 sim M M' k u N fl fi items ids sc acc RO HC Wf Sq RU LT E.
  eapply (ii_scaled_rnd rd (powerRZ 2 k)); eauto. - apply powerRZ_lt; lra. - intros x. eapply ro_pow; eauto.
Qed.
Print Assumptions C167_power_partial.

(** Scaled by 7, in double precision: similarities 0.3, 0.6 and 0.9, and a user who likes items 0 and 1 equally. With
    weights 1 item 3 is recommended (0.9 against 0.8999999999999999), with weights 7 item 2 (6.300000000000001 against
    6.3). *)
Definition f64_03 : f64 := S754_finite false 5404319552844595 (-54).
Definition f64_06 : f64 := S754_finite false 5404319552844595 (-53).
Definition f64_09 : f64 := S754_finite false 8106479329266893 (-53).
Definition tie_sim : csr f64 := csr_of_rows 4 [[(2%nat, f64_03); (3%nat, f64_09)]; [(2%nat, f64_06)]; [(0%nat, f64_03); (1%nat, f64_06)]; [(0%nat, f64_09)]].
Definition tie_user (w : Z) : csr f64 := csr_of_rows 4 [[(0%nat, f64_of_Z w); (1%nat, f64_of_Z w)]].
Theorem C167_refuted : exists (sim M M' : csr f64) (c s s' : f64),
  csr_wf sim /\ c_cols sim = c_rows sim /\ c = f64_of_Z 7 /\
  csr_row M' 0 = map (fun p => (fst p, @nmul f64 Num_f64 c (snd p))) (csr_row M 0) /\
  (forall j w, In (j, w) (csr_row M 0) -> (j < c_rows sim)%nat) /\
  (forall fl fmin, @ii_recommend f64 Num_f64 simple_heap fmin fmin sim (@acc_new f64 Num_f64 4) (Scalar 0) (Csr M) 1 fl None None = Ok (OneRow [3%Z] [s], @acc_new f64 Num_f64 4)) /\
  (forall fl fmin, @ii_recommend f64 Num_f64 simple_heap fmin fmin sim (@acc_new f64 Num_f64 4) (Scalar 0) (Csr M') 1 fl None None = Ok (OneRow [2%Z] [s'], @acc_new f64 Num_f64 4)).
Proof.
  exists tie_sim, (tie_user 1), (tie_user 7), (f64_of_Z 7), f64_09, (S754_finite false 7093169413108532 (-50)).
  split. { apply csr_of_rows_wf. intros r p Hr Hp. simpl in Hr. repeat (destruct Hr as [<-|Hr]; [simpl in Hp; repeat (destruct Hp as [<-|Hp]; [simpl; lia|]); tauto|]). tauto. }
  split; [reflexivity|]. split; [reflexivity|]. split; [vm_compute; reflexivity|].
  split. { intros j w Hj. apply (in_map fst) in Hj. cbn [fst] in Hj. change (map fst (csr_row (tie_user 1) 0)) with [0%nat; 1%nat] in Hj. change (c_rows tie_sim) with 4%nat. simpl in Hj. lia. }
  split; intros [|] fmin; vm_compute; reflexivity.
Qed.
Print Assumptions C167_refuted.

(** Halved weights, in single precision. *)
Definition ex_half : csr R := csr_of_rows 3 [[(0%nat, powerRZ 2 (-1) * 1); (1%nat, powerRZ 2 (-1) * 2)]].
Example C167_example : let rd := rnd_p 24 in let sim := ex_rsim in
  rounding rd (powerRZ 2 (-24)) /\ csr_wf sim /\ c_cols sim = c_rows sim /\ rescaled_user (powerRZ 2 (-1)) ex_ruser ex_half /\
  (forall j w, In (j, w) (csr_row ex_ruser 0) -> (j < c_rows sim)%nat) /\
  exists ids sc sc', @ii_recommend R (Num_rnd rd) simple_heap (-1000) (-999) sim (@acc_new R (Num_rnd rd) 3) (Scalar 0) (Csr ex_ruser) 2 false None None = Ok (OneRow ids sc, @acc_new R (Num_rnd rd) 3) /\
    length ids = 2%nat /\
    @ii_recommend R (Num_rnd rd) simple_heap (-1000) (-999) sim (@acc_new R (Num_rnd rd) 3) (Scalar 0) (Csr ex_half) 2 false None None = Ok (OneRow ids sc', @acc_new R (Num_rnd rd) 3) /\
    Forall2 (fun s s' => s' = powerRZ 2 (-1) * s) sc sc'.
Proof.
  intros rd sim. destruct C166_example as (W & Sq & _ & RO & _).
  assert (R24 : rounding (rnd_p 24) (powerRZ 2 (-24))) by (apply (rounding_binary 24); lia).
  assert (RU : rescaled_user (powerRZ 2 (-1)) ex_ruser ex_half) by (split; reflexivity).
  split; [exact R24|]. split; [exact W|]. split; [exact Sq|]. split; [exact RU|]. split; [exact RO|].
  destruct (C18_exact R (Num_rnd rd) (NumOrd_rnd rd) simple_heap (-1000) (-999) ex_rsim ex_ruser 0 2 false simple_heap_ok W eq_refl ltac:(discriminate) RO ltac:(lia)) as (ids & sc & E & TN).
  change (c_rows ex_rsim) with 3%nat in *.
  destruct (C167_power_partial rd _ simple_heap (-1000) (-999) ex_rsim ex_ruser ex_half (-1) 0 2 false None None (map Z.of_nat ids) sc _ R24 simple_heap_ok W eq_refl RU RO E) as (sc' & E' & F).
  exists (map Z.of_nat ids), sc, sc'. split; [exact E|]. split; [rewrite map_length, (topn_length _ _ _ _ _ TN); reflexivity|]. split; [exact E'|].
  clear - F. induction F as [|s s' l l' [Q|(X & _)] F IH]; constructor; auto; discriminate.
Qed.
