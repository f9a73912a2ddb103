(** C166: item-item recommendations depend on the proportions of a user's weights only. *)
From Coq Require Import List Arith Lia Bool ZArith Permutation Sorted Reals Lra.
From Verif Require Import Base Num Heap Sparse TopkModel TopkSpec TopkProofs TopkBatch
  RecommendModel RecommendProofs RecommendProofs2 RecommendProofs3 RVec
  KnnModel KnnAcc KnnProofs KnnRec KnnConc KnnRec2 PropKnn ScaleProofs PropScale.
Import ListNotations.

(* ------------------------------------------------------------------ selection *)
Section Feed.
Context {T : Type} `{NumOrd T}.
Definition feed_sort (HP : std_heap) (K : nat) (l : list (nat * T)) : res (list (T * nat)) :=
  do r <- topk_feed HP K l []; Ok (sort_heap HP heap_order r).

(** Any two conforming heaps select the same. *)
Lemma feed_sort_unique H1 H2 (C1 : std_heap_ok H1) (C2 : std_heap_ok H2) k l : 0 < k -> NoDup (map fst l) -> feed_sort H1 k l = feed_sort H2 k l.
Proof.
  intros HK NDl.
  destruct (feed_two H1 H2 C1 C2 k l HK [] []) as [r1 [r2 [E1 [E2 [G1 [G2 [P ND]]]]]]]; auto using is_heap_nil.
  unfold feed_sort. rewrite E1, E2. simpl. f_equal.
  destruct (C1 _ _ heap_order_swo) as [_ [_ S1]]. destruct (C2 _ _ heap_order_swo) as [_ [_ S2]].
  destruct (S1 r1 G1) as [P1 T1]. destruct (S2 r2 G2) as [P2 T2].
  assert (PP : Permutation (sort_heap H1 heap_order r1) (sort_heap H2 heap_order r2)) by (rewrite P1, P2; auto).
  assert (NDs : NoDup (map snd (sort_heap H1 heap_order r1))) by (eapply Permutation_NoDup; [apply Permutation_sym, Permutation_map, P1|auto]).
  revert T1 T2 PP NDs. generalize (sort_heap H1 heap_order r1) (sort_heap H2 heap_order r2).
  clear. intros l. induction l as [|x l IH]; intros l' SL SL' P ND.
  - apply Permutation_nil in P; auto.
  - destruct l' as [|y l']; [apply Permutation_sym, Permutation_nil in P; discriminate|].
    inversion SL as [|? ? SS1 F1]; subst. inversion SL' as [|? ? SS2 F2]; subst.
    assert (x = y).
    { assert (Ha : In x (y :: l')) by (eapply Permutation_in; [exact P|left; auto]).
      assert (Hb : In y (x :: l)) by (eapply Permutation_in; [symmetry; exact P|left; auto]).
      destruct Ha as [|Ha]; auto. destruct Hb as [|Hb]; auto. exfalso.
      rewrite Forall_forall in *. specialize (F1 _ Hb). specialize (F2 _ Ha).
      pose proof (heap_order_antisym _ _ F1 F2) as E. inversion ND as [|? ? N1 N2]; subst.
      apply N1. rewrite <- E. apply in_map; auto. }
    subst. f_equal. apply IH; auto; [eapply Permutation_cons_inv; eauto|inversion ND; auto].
Qed.

Lemma feed_sort_map (g : T -> T) (mono : forall a b, nltb (g a) (g b) = nltb a b) HP (HC : std_heap_ok HP) k l r : NoDup (map fst l) ->
  feed_sort HP k l = Ok r -> feed_sort HP k (map (fun p => (fst p, g (snd p))) l) = Ok (map (gp g) r).
Proof.
  intros ND E. destruct l as [|p l].
  - unfold feed_sort, topk_feed in *. cbn [fold_res bind map] in *. injection E as <-. f_equal.
    destruct (HC (T * nat)%type heap_order heap_order_swo) as [_ [_ SO]]. destruct (SO [] (is_heap_nil _)) as [P _].
    apply Permutation_sym, Permutation_nil in P. rewrite P. reflexivity.
  - destruct k as [|k].
    { unfold feed_sort, topk_feed in E. cbn [fold_res] in E. unfold topk_add in E. cbn in E. discriminate E. }
    set (L := p :: l) in *. assert (K0 : 0 < S k) by lia.
    assert (NDg : NoDup (map fst (map (fun p => (fst p, g (snd p))) L))) by (rewrite map_map; exact ND).
    rewrite (feed_sort_unique HP simple_heap HC simple_heap_ok) in * by auto.
    unfold feed_sort in *. apply bind_ok in E. destruct E as [r0 [E1 E2]]. injection E2 as <-.
    destruct (topk_feed_map g (fun _ => True) (fun x y _ _ => mono x y) (S k) L (proj2 (Forall_forall _ _) (fun _ _ => Logic.I)) [] r0 (Forall_nil _) E1) as [Q FQ].
    cbn [map] in Q. rewrite Q. cbn [bind]. f_equal. cbn [sort_heap simple_heap].
    apply (sort_by_map _ (gp g) (Pp (fun _ => True))); auto. intros. apply (heap_order_gp g (fun _ => True)); auto.
Qed.
End Feed.

(* ------------------------------------------------------------------ the scorer *)
Local Open Scope R_scope.
Definition scale_row (c : R) (row : list (nat * R)) : list (nat * R) := map (fun p => (fst p, c * snd p)) row.

Lemma nsum_scale c (l : list R) : nsum (map (Rmult c) l) = c * nsum l.
Proof. rewrite !nsum_rsum. induction l; simpl; [ring|]. rewrite IHl. ring. Qed.

Lemma touch_scale c xs L : touch (scale_row c xs) L = touch xs L.
Proof. unfold touch, scale_row. revert L. induction xs as [|p xs IH]; intros L; cbn [map fold_left fst]; auto. Qed.

Lemma sadds_scale sim c row : sadds sim (scale_row c row) = scale_row c (sadds sim row).
Proof.
  unfold sadds, scale_row. induction row as [|p row IH]; auto. cbn [map flat_map fst snd]. rewrite IH, map_app. f_equal.
  rewrite map_map. apply map_ext. intros q. cbn [fst snd]. f_equal. change (snd q * (c * snd p) = c * (snd q * snd p)). ring.
Qed.
Lemma map_fst_scale c row : map fst (scale_row c row) = map fst row.
Proof. unfold scale_row. rewrite map_map. reflexivity. Qed.

Lemma shown_scale sim fl c row j : shown sim fl (scale_row c row) j = c * shown sim fl row j.
Proof.
  unfold shown. rewrite map_fst_scale. destruct (fl && memn j (map fst row)); [change (0 = c * 0); ring|].
  unfold predict. rewrite <- nsum_scale. f_equal. unfold predict_terms, scale_row. induction row as [|p row IH]; auto.
  cbn [map flat_map fst snd]. rewrite IH, map_app. f_equal. rewrite map_map. apply map_ext. intros q. change (snd q * (c * snd p) = c * (snd q * snd p)). ring.
Qed.

Lemma scorer_scaled HP (HC : std_heap_ok HP) sim row K fl c r a : csr_wf sim -> c_cols sim = c_rows sim -> row_ok sim row -> 0 < c ->
  scorer_recommend HP sim (acc_new (c_rows sim)) row K fl = Ok (r, a) ->
  scorer_recommend HP sim (acc_new (c_rows sim)) (scale_row c row) K fl = Ok (map (gp (Rmult c)) r, a).
Proof.
  intros Wf Sq RO C E.
  assert (RO' : row_ok sim (scale_row c row)). { unfold row_ok, scale_row in *. rewrite Forall_forall in *. intros p Hp. apply in_map_iff in Hp. destruct Hp as (q & <- & Hq). cbn [fst]. auto. }
  rewrite scorer_recommend_eq in * by auto.
  assert (SV : svisited sim fl (scale_row c row) = map (fun p => (fst p, c * snd p)) (svisited sim fl row)).
  { unfold svisited. rewrite sadds_scale, touch_scale, map_map. apply map_ext. intros j. cbn [fst snd]. rewrite shown_scale. reflexivity. }
  rewrite SV, map_length. set (l := svisited sim fl row) in *. set (k := size_t_limit K (length l)) in *.
  assert (FS : feed_sort HP k l = Ok r /\ a = acc_new (c_rows sim)).
  { unfold feed_sort. destruct (topk_feed HP k l []); cbn [bind] in *; [injection E as <- <-; auto|discriminate]. }
  destruct FS as [FS ->].
  assert (ND : NoDup (map fst l)). { unfold l. rewrite svisited_fst. apply touch_nodup. constructor. }
  pose proof (feed_sort_map (Rmult c) (fun x y => Rmult_mono c x y C) HP HC k l r ND FS) as FM.
  unfold feed_sort in FM. destruct (topk_feed HP k (map (fun p => (fst p, c * snd p)) l) []); cbn [bind] in *; [injection FM as ->; auto|discriminate].
Qed.

(* ------------------------------------------------------------------ recommend *)
Lemma mask_in_scale c S inv ids (sc : list R) : mask_in S inv (ids, map (Rmult c) sc) = (fst (mask_in S inv (ids, sc)), map (Rmult c) (snd (mask_in S inv (ids, sc)))).
Proof.
  unfold mask_in. cbn [fst snd]. revert sc. induction ids as [|i ids IH]; intros sc; [reflexivity|]. destruct sc as [|s sc]; [reflexivity|].
  cbn [map combine filter fst]. specialize (IH sc). injection IH as I1 I2. destruct (xorb inv (memz i S)); cbn [map fst snd]; rewrite I1, I2; reflexivity.
Qed.
Lemma py_take_map {A B} (f : A -> B) N l : py_take N (map f l) = map f (py_take N l).
Proof. unfold py_take. rewrite map_length. destruct (N <? 0)%Z; rewrite firstn_map; auto. Qed.

(** The weights of a user's likes multiplied by [c]. *)
Definition rescaled_user (c : R) (M M' : csr R) : Prop :=
  c_rows M' = c_rows M /\ csr_row M' 0 = map (fun p => (fst p, c * snd p)) (csr_row M 0).
(** Scores multiplied by [c], except for requested items that nothing the user likes is similar to. *)
Definition scores_scaled (fmin c : R) (requested : bool) (s s' : R) : Prop := s' = c * s \/ (requested = true /\ s = fmin /\ s' = fmin).

Theorem C166_scaled : forall HP fmin fmin32 (sim M M' : csr R) c u N fl fi items ids sc acc,
  std_heap_ok HP -> csr_wf sim -> c_cols sim = c_rows sim -> 0 < c -> rescaled_user c M M' ->
  (forall j w, In (j, w) (csr_row M 0) -> (j < c_rows sim)%nat) ->
  ii_recommend HP fmin fmin32 sim (acc_new (c_rows sim)) (Scalar u) (Csr M) N fl fi items = Ok (OneRow ids sc, acc) ->
  exists sc', ii_recommend HP fmin fmin32 sim (acc_new (c_rows sim)) (Scalar u) (Csr M') N fl fi items = Ok (OneRow ids sc', acc) /\
    Forall2 (scores_scaled fmin c (match items with Some _ => true | None => false end)) sc sc'.
Proof.
  intros HP fmin fmin32 sim M M' c u N fl fi items ids sc acc HC Wf Sq C [RR RS] RO E.
  assert (RK : row_ok sim (csr_row M 0)) by (apply Forall_forall; intros [j w] Hj; eapply RO; eauto).
  unfold ii_recommend in *. apply bind_ok in E. destruct E as [[r a1] [E1 E2]]. injection E2 as <- <- <-.
  unfold ii_recommend1 in *. apply bind_ok in E1. destruct E1 as [N' [EN E1]]. rewrite EN. cbn [bind]. rewrite RR.
  destruct (c_rows M =? 0)%nat; [discriminate|]. apply bind_ok in E1. destruct E1 as [[r0 a0] [ES E1]].
  rewrite RS. fold (scale_row c (csr_row M 0)). rewrite (scorer_scaled HP HC sim (csr_row M 0) N' fl c r0 a0) by auto. cbn [bind].
  assert (MM : (map (fun p : R * nat => Z.of_nat (snd p)) (map (gp (Rmult c)) r0), map fst (map (gp (Rmult c)) r0)) =
    (map (fun p : R * nat => Z.of_nat (snd p)) r0, map (Rmult c) (map fst r0))) by (rewrite !map_map; reflexivity).
  rewrite MM. set (I0 := map (fun p : R * nat => Z.of_nat (snd p)) r0) in *. set (S0 := map fst r0) in *.
  assert (FM : forall b l, Forall2 (scores_scaled fmin c b) l (map (Rmult c) l)) by (intros b l; induction l; cbn [map]; constructor; auto; left; reflexivity).
  destruct fi as [f|].
  - injection E1 as <- <-. destruct items; [discriminate|]. rewrite mask_in_scale. cbn [fst snd bind]. rewrite py_take_map.
    eexists. split; [reflexivity|]. apply FM.
  - destruct items as [s|].
    + injection E1 as <- <-. rewrite mask_in_scale. unfold append_missing. cbn [fst snd bind]. eexists. split; [reflexivity|].
      apply Forall2_app; [apply FM|]. clear. induction (filter _ _); cbn [map]; constructor; auto. right. auto.
    + injection E1 as <- <-. cbn [fst snd bind]. eexists. split; [reflexivity|]. apply FM.
Qed.
Print Assumptions C166_scaled.

(** A user with likes of weights 1 and 2, and of weights 3 and 6. *)
Definition ex_rsim : csr R := csr_of_rows 3 [[(0%nat, 4); (1%nat, 2)]; [(0%nat, 2); (1%nat, 5); (2%nat, 1)]; [(1%nat, 1); (2%nat, 6)]].
Definition ex_ruser : csr R := csr_of_rows 3 [[(0%nat, 1); (1%nat, 2)]].
Definition ex_ruser3 : csr R := csr_of_rows 3 [[(0%nat, 3 * 1); (1%nat, 3 * 2)]].
Example C166_example : csr_wf ex_rsim /\ c_cols ex_rsim = c_rows ex_rsim /\ rescaled_user 3 ex_ruser ex_ruser3 /\
  (forall j w, In (j, w) (csr_row ex_ruser 0) -> (j < c_rows ex_rsim)%nat) /\
  exists ids sc, ii_recommend simple_heap (-1000) (-999) ex_rsim (acc_new 3) (Scalar 0) (Csr ex_ruser) 2 false None None = Ok (OneRow ids sc, acc_new 3) /\
    length ids = 2%nat /\
    ii_recommend simple_heap (-1000) (-999) ex_rsim (acc_new 3) (Scalar 0) (Csr ex_ruser3) 2 false None None = Ok (OneRow ids (map (Rmult 3) sc), acc_new 3).
Proof.
  assert (W : csr_wf ex_rsim).
  { apply csr_of_rows_wf. intros r p Hr Hp. simpl in Hr. repeat (destruct Hr as [<-|Hr]; [simpl in Hp; repeat (destruct Hp as [<-|Hp]; [simpl; lia|]); tauto|]). tauto. }
  assert (RU : rescaled_user 3 ex_ruser ex_ruser3) by (split; reflexivity).
  assert (RO : forall j w, In (j, w) (csr_row ex_ruser 0) -> (j < c_rows ex_rsim)%nat).
  { intros j w Hj. change (csr_row ex_ruser 0) with [(0%nat, 1); (1%nat, 2)] in Hj. destruct Hj as [E|[E|[]]]; injection E as <- <-; cbn; lia. }
  split; [exact W|]. split; [reflexivity|]. split; [exact RU|]. split; [exact RO|].
  destruct (C18_exact R Num_R NumOrd_R simple_heap (-1000) (-999) ex_rsim ex_ruser 0 2 false simple_heap_ok W eq_refl ltac:(discriminate) RO ltac:(lia)) as (ids & sc & E & TN).
  change (c_rows ex_rsim) with 3%nat in *. exists (map Z.of_nat ids), sc. split; [exact E|]. split.
  - rewrite map_length, (topn_length _ _ _ _ _ TN). reflexivity.
  - destruct (C166_scaled simple_heap (-1000) (-999) ex_rsim ex_ruser ex_ruser3 3 0 2 false None None (map Z.of_nat ids) sc (acc_new 3) simple_heap_ok W eq_refl ltac:(lra) RU RO E) as (sc' & E' & F).
    change (c_rows ex_rsim) with 3%nat in *. rewrite E'. do 3 f_equal. clear - F. induction F as [|s s' l l' [Q|(X & _)] F IH]; cbn [map]; [reflexivity|rewrite Q, IH; reflexivity|discriminate].
Qed.
(** The same with whole numbers: with and without filtered, liked and requested items. *)
Example C166_run : forall c fl fi items, In (fl, fi, items) [(false, None, None); (true, None, None); (false, Some (PyList [1%Z]), None); (true, None, Some (NdArray [2; 0]%Z))] -> (c = 2 \/ c = 5)%Z ->
  let ask w1 w2 := ii_recommend simple_heap (-1000)%Z (-999)%Z ex_sim (acc_new 3) (Scalar 7) (Csr (csr_of_rows 3 (map zr [[(0, w1); (1, w2)]])))%Z 2 fl fi items in
  exists ids sc, ask 1%Z 2%Z = Ok (OneRow ids sc, acc_new 3) /\ (2 <= length ids)%nat /\ ask c (c * 2)%Z = Ok (OneRow ids (map (Z.mul c) sc), acc_new 3).
Proof.
  intros c fl fi items HI [-> | ->]; repeat (destruct HI as [E|HI]; [injection E as <- <- <-; cbv zeta; eexists _, _; split; [vm_compute; reflexivity|split; [cbn; lia|vm_compute; reflexivity]]|]); destruct HI.
Qed.
