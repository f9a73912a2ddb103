(** C136, C137: what a common positive multiple of a vector changes. *)
From Coq Require Import List Arith Lia Bool ZArith Permutation Sorted Reals Lra.
From Verif Require Import Base Num Heap Sparse TopkModel TopkSpec TopkProofs TopkBatch
  RecommendModel RecommendProofs RecommendProofs2 RecommendBatch RVec SimilarProofs SimilarBatch ScaleProofs.
Import ListNotations.
Local Open Scope R_scope.

(** [y'] is [y] multiplied by some positive number. *)
Definition same_direction (y y' : list R) : Prop := exists c, 0 < c /\ y' = map (Rmult c) y.

Lemma same_direction_sym y y' : same_direction y y' -> same_direction y' y.
Proof.
  intros [c [C ->]]. exists (/ c). split; [apply Rinv_0_lt_compat; auto|]. rewrite map_map. rewrite <- (map_id y) at 1.
  apply map_ext. intros a. field. lra.
Qed.
Lemma F2_sym {A} (Q : A -> A -> Prop) l l' : (forall x y, Q x y -> Q y x) -> Forall2 Q l l' -> Forall2 Q l' l.
Proof. intros Sy. induction 1; constructor; auto. Qed.
Lemma F2_nth {A B} (Q : A -> B -> Prop) l l' d d' : Forall2 Q l l' -> forall i, (i < length l)%nat -> Q (nth i l d) (nth i l' d').
Proof. induction 1; intros i L; simpl in L; [lia|]. destruct i; simpl; auto. apply IHForall2. lia. Qed.

Lemma gather_dir fs fs' zs X : Forall2 same_direction fs fs' -> gather fs zs = Ok X ->
  exists X', gather fs' zs = Ok X' /\ Forall2 same_direction X X'.
Proof.
  intros F. assert (L := Forall2_len _ _ _ F). revert X. unfold gather. induction zs as [|z zs IH]; intros X E.
  - simpl in *. inversion E; subst. exists []. auto.
  - cbn [map_res] in *. apply bind_ok in E. destruct E as [x [E1 E]]. apply bind_ok in E. destruct E as [xs [E2 E]]. inversion E; subst. clear E.
    apply bind_ok in E1. destruct E1 as [i [EI E1]]. inversion E1; subst. destruct (IH xs E2) as [xs' [-> F']].
    rewrite <- L, EI. cbn [bind]. exists (nth i fs' [] :: xs'). split; auto. constructor; auto. apply F2_nth; auto.
    clear - EI. unfold np_index in EI. destruct ((0 <=? z) && (z <? Z.of_nat (length fs)))%Z eqn:Q.
    + inversion EI; subst. apply andb_true_iff in Q. destruct Q as [Q1 Q2]. apply Z.leb_le in Q1. apply Z.ltb_lt in Q2. lia.
    + destruct ((- Z.of_nat (length fs) <=? z) && (z <? 0))%Z eqn:Q'; [|discriminate]. inversion EI; subst.
      apply andb_true_iff in Q'. destruct Q' as [Q1 Q2]. apply Z.leb_le in Q1. apply Z.ltb_lt in Q2. lia.
Qed.

Lemma gather_norms tiny fs zs X : gather fs zs = Ok X ->
  map_res (fun z => do i <- np_index (length (norms_of rnorm tiny fs)) z; Ok (nth i (norms_of rnorm tiny fs) nzero)) zs = Ok (norms_of rnorm tiny X).
Proof.
  unfold gather, norms_of. rewrite map_length. revert X. induction zs as [|z zs IH]; intros X E.
  - simpl in *. inversion E; subst. auto.
  - cbn [map_res] in *. apply bind_ok in E. destruct E as [x [E1 E]]. apply bind_ok in E. destruct E as [xs [E2 E]]. inversion E; subst. clear E.
    apply bind_ok in E1. destruct E1 as [i [EI E1]]. rewrite EI. inversion E1; subst. cbn [bind]. rewrite (IH xs) by auto. cbn [bind map]. f_equal. f_equal.
    rewrite (nth_indep _ nzero (safe_norm rnorm tiny [])); [apply (map_nth (safe_norm rnorm tiny))|]. rewrite map_length.
    clear - EI. unfold np_index in EI. destruct ((0 <=? z) && (z <? Z.of_nat (length fs)))%Z eqn:Q.
    + inversion EI; subst. apply andb_true_iff in Q. destruct Q as [Q1 Q2]. apply Z.leb_le in Q1. apply Z.ltb_lt in Q2. lia.
    + destruct ((- Z.of_nat (length fs) <=? z) && (z <? 0))%Z eqn:Q'; [|discriminate]. inversion EI; subst.
      apply andb_true_iff in Q'. destruct Q' as [Q1 Q2]. apply Z.leb_le in Q1. apply Z.ltb_lt in Q2. lia.
Qed.
(** The converse for lengths only: both gathers fail together. *)
Lemma gather_norms_inv tiny fs zs ns : map_res (fun z => do i <- np_index (length (norms_of rnorm tiny fs)) z; Ok (nth i (norms_of rnorm tiny fs) nzero)) zs = Ok ns ->
  exists X, gather fs zs = Ok X.
Proof.
  unfold gather, norms_of. rewrite map_length. revert ns. induction zs as [|z zs IH]; intros ns E.
  - exists []. auto.
  - cbn [map_res] in *. apply bind_ok in E. destruct E as [x [E1 E]]. apply bind_ok in E. destruct E as [xs [E2 E]].
    apply bind_ok in E1. destruct E1 as [i [EI E1]]. rewrite EI. cbn [bind]. destruct (IH _ E2) as [X ->]. cbn [bind]. eauto.
Qed.

Lemma forallb_dir n fs fs' : Forall2 same_direction fs fs' -> forallb (fun y : list R => length y =? n)%nat fs' = forallb (fun y : list R => length y =? n)%nat fs.
Proof. induction 1 as [|x y l l' [c [_ ->]] F IH]; simpl; auto. rewrite map_length, IH. auto. Qed.

(** The row of cosine-like scores of a scaled query over scaled rows. *)
Lemma score_row_dir tiny c q fs fs' row : 0 < tiny -> 0 < c -> Forall2 same_direction fs fs' ->
  score_row fs (Some (norms_of rnorm tiny fs)) q = Ok row ->
  score_row fs' (Some (norms_of rnorm tiny fs')) (map (Rmult c) q) = Ok (map (Rmult c) row).
Proof.
  intros T C F E. unfold score_row in *. rewrite map_length, (forallb_dir _ _ _ F). destruct (negb _); [discriminate|].
  unfold norms_of in *. rewrite !map_length, Nat.eqb_refl in *. inversion E; subst. clear E. f_equal.
  induction F as [|x y l l' [b [B ->]] F IH]; auto. cbn [map combine fst snd]. f_equal; [|exact IH]. clear IH F l l'.
  rewrite !ndot_rdot. change (@ndiv R Num_R) with Rdiv. apply scaled_quotient; auto.
Qed.

Lemma Rmult_mono c a b : 0 < c -> nltb (c * a) (c * b) = nltb a b.
Proof. intros C. apply (Rltb_mono (Rmult c)). split; intros; [apply Rmult_lt_compat_l; auto|apply (Rmult_lt_reg_l c); auto]. Qed.
Lemma Rmult_repeat (c : R) k : map (Rmult c) (repeat 0 k) = repeat 0 k.
Proof. induction k; simpl; auto. rewrite IHk. f_equal. ring. Qed.
Lemma pad_gp c k (r : list (R * nat)) :
  pad k 0%nat (map snd (map (gp (Rmult c)) r)) = pad k 0%nat (map snd r) /\ pad k 0 (map fst (map (gp (Rmult c)) r)) = map (Rmult c) (pad k 0 (map fst r)).
Proof.
  split.
  - rewrite map_map. reflexivity.
  - unfold pad. rewrite map_app, !map_map, !map_length, Rmult_repeat. reflexivity.
Qed.

Lemma np_empty zs X (fs : list (list R)) : fs = [] -> gather fs zs = Ok X -> zs = [].
Proof.
  intros -> E. destruct zs as [|z zs]; auto. unfold gather in E. cbn [map_res length] in E. unfold np_index in E.
  replace ((0 <=? z) && (z <? Z.of_nat 0))%Z with false in E by (symmetry; apply andb_false_iff; destruct (Z.leb_spec 0 z); auto; right; apply Z.ltb_ge; simpl; lia).
  replace ((- Z.of_nat 0 <=? z) && (z <? 0))%Z with false in E by (symmetry; apply andb_false_iff; destruct (Z.leb_spec (- Z.of_nat 0) z); auto; right; apply Z.ltb_ge; simpl in *; lia).
  discriminate.
Qed.
Lemma gather_len (fs : list (list R)) zs X : gather fs zs = Ok X -> length X = length zs.
Proof. unfold gather. intros E. apply (map_res_nth _ _ _ 0%Z []) in E. tauto. Qed.

Lemma similar_one_way HP (HC : std_heap_ok HP) fmin tiny fs fs' id N its o : 0 < tiny -> (1 <= N)%Z -> fs <> [] -> Forall2 same_direction fs fs' ->
  similar HP fmin fs (norms_of rnorm tiny fs) id N None its = Ok o ->
  similar HP fmin fs' (norms_of rnorm tiny fs') id N None its = Ok o.
Proof.
  intros T HN NE F E. unfold similar in *. apply bind_ok in E. destruct E as [nq [E1 E]]. apply bind_ok in E. destruct E as [[[l facs] ns] [E2 E]].
  apply bind_ok in E. destruct E as [Q [E3 E]]. rewrite (gather_norms _ _ _ _ E3) in E1. inversion E1; subst nq. clear E1.
  destruct (gather_dir _ _ _ _ F E3) as [Q' [E3' FQ]]. rewrite (gather_norms _ _ _ _ E3'). cbn [bind]. rewrite E3'.
  assert (SEL : exists facs', restrict_similar fs' (norms_of rnorm tiny fs') None its = Ok (l, facs', norms_of rnorm tiny facs') /\
            ns = norms_of rnorm tiny facs /\ Forall2 same_direction facs facs' /\ facs <> []).
  { unfold restrict_similar in *. destruct its as [a|]; [|inversion E2; subst; exists fs'; auto]. cbn [truthy bind] in *.
    assert (NA : arr_list a <> []) by (destruct a as [[|z zs]|[|z zs]]; simpl; try discriminate;
      exfalso; simpl in E2; discriminate).
    assert (E2' : (do facs <- gather fs (arr_list a);
      do ns <- map_res (fun z => do i <- np_index (length (norms_of rnorm tiny fs)) z; Ok (nth i (norms_of rnorm tiny fs) nzero)) (arr_list a);
      do bad <- out_of_model (length fs) (arr_list a); if bad : bool then Raise IndexError else Ok (Some (arr_list a), facs, ns)) = Ok (l, facs, ns))
      by (destruct a as [[|z zs]|[|z zs]]; auto; discriminate).
    clear E2. apply bind_ok in E2'. destruct E2' as [facs0 [G E2]]. apply bind_ok in E2. destruct E2 as [ns0 [Gn E2]].
    rewrite (gather_norms _ _ _ _ G) in Gn. inversion Gn; subst ns0. apply bind_ok in E2. destruct E2 as [bad [B E2]].
    destruct bad; [discriminate|]. inversion E2; subst. destruct (gather_dir _ _ _ _ F G) as [facs' [G' F']]. exists facs'.
    assert (SAME : (do facs <- gather fs' (arr_list a);
      do ns <- map_res (fun z => do i <- np_index (length (norms_of rnorm tiny fs')) z; Ok (nth i (norms_of rnorm tiny fs') nzero)) (arr_list a);
      do bad <- out_of_model (length fs') (arr_list a); if bad : bool then Raise IndexError else Ok (Some (arr_list a), facs, ns)) = Ok (Some (arr_list a), facs', norms_of rnorm tiny facs')).
    { rewrite G'. cbn [bind]. rewrite (gather_norms _ _ _ _ G'). cbn [bind]. rewrite <- (Forall2_len _ _ _ F), B. auto. }
    split; [|split; [auto|split; auto]].
    - destruct a as [[|z zs]|[|z zs]]; auto; exfalso; apply NA; auto.
    - intros ->. apply gather_len in G. destruct (arr_list a); [auto|discriminate]. }
  destruct SEL as [facs' [-> [-> [FF NF]]]]. cbn [bind]. clear E2.
  assert (NF' : facs' <> []) by (destruct FF; [congruence|discriminate]).
  unfold similarity_score in *. apply bind_ok in E. destruct E as [[I S] [ET E]]. inversion E; subst o. clear E.
  apply topk_ok in ET; auto; [|lia]. destruct ET as [rs [FR [-> ->]]].
  assert (TOT : exists cs, Forall2 (fun c p => (0 < c /\ (rnorm (fst p) = 0 -> c = 1)) /\ snd p = map (Rmult c) (fst p)) cs (combine Q Q')).
  { clear - FQ. induction FQ as [|x y l l' [c [C E]] F IH]; [exists []; constructor|]. destruct IH as [cs IH].
    destruct (Req_EM_T (rnorm x) 0) as [Z|Z].
    - exists (1 :: cs). constructor; auto. cbn [fst snd]. split; [split; [lra|auto]|]. subst y. apply map_ext_in. intros a Ha. rewrite (rnorm_zero x Z a Ha). ring.
    - exists (c :: cs). constructor; auto. cbn [fst snd]. split; auto. split; auto. intros; contradiction. }
  destruct TOT as [cs FC].
  assert (LQ : length Q = length Q') by (apply (Forall2_len _ _ _ FQ)).
  assert (GO : forall j Q Q' cs rs, length Q = length Q' -> Forall2 (fun c p => (0 < c /\ (rnorm (fst p) = 0 -> c = 1)) /\ snd p = map (Rmult c) (fst p)) cs (combine Q Q') ->
     Forall2 (fun p r => topk_row' HP fmin facs (Some (norms_of rnorm tiny facs)) None (option_map arr_list None) (Z.to_nat N) (fst p) (snd p) = Ok r) (enum_from j Q) rs ->
     Forall2 (fun p r => topk_row' HP fmin facs' (Some (norms_of rnorm tiny facs')) None (option_map arr_list None) (Z.to_nat N) (fst p) (snd p) = Ok r) (enum_from j Q')
        (map (fun p => map (gp (Rmult (fst p))) (snd p)) (combine cs rs)) /\
     map (fun r => pad (Z.to_nat N) 0%nat (map snd r)) (map (fun p => map (gp (Rmult (fst p))) (snd p)) (combine cs rs)) = map (fun r => pad (Z.to_nat N) 0%nat (map snd r)) rs /\
     map (fun p => map (fun s => ndiv s (snd p)) (fst p)) (combine (map (fun r => pad (Z.to_nat N) nzero (map fst r)) (map (fun p => map (gp (Rmult (fst p))) (snd p)) (combine cs rs))) (norms_of rnorm tiny Q')) =
     map (fun p => map (fun s => ndiv s (snd p)) (fst p)) (combine (map (fun r => pad (Z.to_nat N) nzero (map fst r)) rs) (norms_of rnorm tiny Q))).
  { clear - HC T HN FF. intros j Q. revert j. induction Q as [|q Q IH]; intros j Q' cs rs L FC FR.
    - destruct Q'; [|discriminate]. inversion FR; subst. inversion FC; subst. simpl. auto.
    - destruct Q' as [|q' Q']; [discriminate|]. cbn [enum_from] in *. inversion FR as [|? r ? rs0 R1 R2]; subst. cbn [combine] in FC. inversion FC as [|c ? cs0 ? [[C C1] EC] C2]; subst.
      cbn [fst snd] in *. subst q'. destruct (IH (S j) Q' cs0 rs0) as [I1 [I2 I3]]; auto.
      assert (R1' : topk_row' HP fmin facs' (Some (norms_of rnorm tiny facs')) None (option_map arr_list None) (Z.to_nat N) j (map (Rmult c) q) = Ok (map (gp (Rmult c)) r)).
      { unfold topk_row' in *. assert (R1c := R1). unfold topk_row, row_scores in R1c. apply bind_ok in R1c. destruct R1c as [s [R1c _]]. apply bind_ok in R1c. destruct R1c as [row [ER _]].
        apply (topk_row_map (Rmult c) (fun _ => True)) with (items := facs) (norms := Some (norms_of rnorm tiny facs)) (q := q) (row := row); auto; [intros; apply Rmult_mono; auto|lia|apply (score_row_dir tiny c q facs facs' row); auto|apply Forall_forall; auto]. }
      cbn [combine map fst snd]. split; [constructor; auto|]. destruct (pad_gp c (Z.to_nat N) r) as [G1 G2]. split; [rewrite G1, I2; auto|].
      cbn [norms_of map combine fst snd] in *. change (map (safe_norm rnorm tiny)) with (norms_of rnorm tiny). rewrite I3. f_equal. change (@nzero R Num_R) with 0. rewrite G2.
      clear - T C C1. rewrite map_map. apply map_ext. intros x. change (@ndiv R Num_R) with Rdiv.
      destruct (Req_EM_T (rnorm q) 0) as [Z|Z].
      + rewrite (C1 Z). replace (map (Rmult 1) q) with q by (rewrite <- (map_id q) at 1; apply map_ext; intros; ring). rewrite Rmult_1_l. auto.
      + rewrite !safe_norm_eq; auto; rewrite rnorm_scale by auto; [field; split; auto; lra|]. intros X. apply Rmult_integral in X. lra. }
  destruct (GO 0%nat Q Q' cs rs LQ FC FR) as [G1 [G2 G3]].
  set (rs' := map (fun p => map (gp (Rmult (fst p))) (snd p)) (combine cs rs)) in *.
  assert (TK : topk HP fmin facs' Q' N (Some (norms_of rnorm tiny facs')) None (option_map arr_list None) =
     Ok (map (fun r => pad (Z.to_nat N) 0%nat (map snd r)) rs', map (fun r => pad (Z.to_nat N) nzero (map fst r)) rs')).
  { apply topk_ok; auto; [lia|]. exists rs'. auto. }
  rewrite TK. cbn [bind fst snd]. f_equal. rewrite G2. rewrite G3. reflexivity.
Qed.

(* ------------------------------------------------------------------ C136 *)
(** similar_items / similar_users look at directions only: multiply every stored vector by
    its own positive number and each call, for one id or many, over all items or a given
    list, returns exactly what it returned before (and fails when it failed before). *)
Theorem C136_directions : forall HP fmin tiny fs fs' id N its o, std_heap_ok HP -> 0 < tiny -> (1 <= N)%Z -> fs <> [] ->
  Forall2 same_direction fs fs' ->
  similar HP fmin fs (norms_of rnorm tiny fs) id N None its = Ok o <->
  similar HP fmin fs' (norms_of rnorm tiny fs') id N None its = Ok o.
Proof.
  intros HP fmin tiny fs fs' id N its o HC T HN NE F. split; apply similar_one_way; auto.
  - destruct F; [congruence|discriminate].
  - apply F2_sym; auto. apply same_direction_sym.
Qed.
Print Assumptions C136_directions.

(** One query row with a floor value for filtered items. *)
Definition lift (fmin k s : R) : R := if Req_EM_T s fmin then fmin else k * s.
Lemma lift_mono fmin k a b : 0 < k -> (a = fmin \/ fmin < a /\ fmin < k * a) -> (b = fmin \/ fmin < b /\ fmin < k * b) ->
  nltb (lift fmin k a) (lift fmin k b) = nltb a b.
Proof.
  intros K A B. apply (Rltb_mono (lift fmin k)). unfold lift.
  destruct (Req_EM_T a fmin), (Req_EM_T b fmin); subst; split; intros; try lra; destruct A as [A|[A A']], B as [B|[B B']]; try lra;
    try (apply Rmult_lt_compat_l; auto); apply (Rmult_lt_reg_l k); auto.
Qed.
Lemma lift_row fmin k row : (forall s, In s row -> fmin < s) -> map (Rmult k) row = map (lift fmin k) row.
Proof. intros B. apply map_ext_in. intros s Hs. unfold lift. destruct (Req_EM_T s fmin); auto. apply B in Hs. lra. Qed.

Lemma topk_row_lift HP (HC : std_heap_ok HP) fmin k items norms items' norms' fq fi N i q q' row r :
  0 < k -> (0 < N)%nat -> score_row items norms q = Ok row -> score_row items' norms' q' = Ok (map (Rmult k) row) ->
  (forall s, In s row -> fmin < s /\ fmin < k * s) ->
  topk_row HP fmin items norms fq fi N i q = Ok r ->
  topk_row HP fmin items' norms' fq fi N i q' = Ok (map (gp (lift fmin k)) r).
Proof.
  intros K HN E E' B X. rewrite (lift_row fmin) in E' by (intros s Hs; apply B; auto).
  apply (topk_row_map (lift fmin k) (fun s => s = fmin \/ fmin < s /\ fmin < k * s)) with (items := items) (norms := norms) (q := q) (row := row); auto.
  - intros. apply lift_mono; auto.
  - right. split; auto. unfold lift. destruct (Req_EM_T fmin fmin); auto. congruence.
  - apply Forall_forall. intros s Hs. right. auto.
Qed.

Lemma cos_floor tiny fmin q y : 0 < tiny -> rnorm q < - fmin -> fmin < rdot q y / safe_norm rnorm tiny y.
Proof.
  intros T B. assert (P := rnorm_pos q). assert (PN := safe_norm_pos tiny y T).
  apply (Rmult_lt_reg_r (safe_norm rnorm tiny y)); auto. unfold Rdiv. rewrite Rmult_assoc, Rinv_l, Rmult_1_r by lra.
  assert (CS := cauchy_schwarz q y).
  destruct (safe_norm_cases tiny y) as [[Z E]|[Z E]].
  - assert (D : rdot q y = 0) by (rewrite rdot_comm; apply rdot_all_zero; apply rnorm_zero; auto). rewrite D. rewrite E in *. nra.
  - rewrite E in *. assert (Q : rnorm q * rnorm q = rdot q q) by (unfold rnorm; apply sqrt_sqrt, rdot_nonneg).
    assert (Y : rnorm y * rnorm y = rdot y y) by (unfold rnorm; apply sqrt_sqrt, rdot_nonneg).
    destruct (Rlt_le_dec (fmin * rnorm y) (rdot q y)) as [|L]; auto. exfalso.
    assert (L1 : rnorm q * rnorm y < - rdot q y) by nra.
    assert (L2 : (rnorm q * rnorm y) * (rnorm q * rnorm y) < rdot q y * rdot q y) by (assert (0 <= rnorm q * rnorm y) by (apply Rmult_le_pos; lra); nra).
    assert ((rnorm q * rnorm y) * (rnorm q * rnorm y) = rdot q q * rdot y y) by (rewrite <- Q, <- Y; ring). lra.
Qed.

(** With filter_items: the same items in the same order, and the same score for each of
    them that is not filtered out, whenever no vector is longer than the number used to
    mark filtered items (-3.4e38 in single precision). *)
Theorem C136_filtered : forall HP fmin tiny fs fs' id N fi ids sc, std_heap_ok HP -> 0 < tiny -> (1 <= N)%Z ->
  (0 <= id < Z.of_nat (length fs))%Z ->
  (forall z, In z (arr_list fi) -> (0 <= z < Z.of_nat (length fs))%Z) ->
  Forall2 same_direction fs fs' -> (forall y, In y fs \/ In y fs' -> rnorm y < - fmin) ->
  similar HP fmin fs (norms_of rnorm tiny fs) (Scalar id) N (Some fi) None = Ok (OneRow ids sc) ->
  exists sc', similar HP fmin fs' (norms_of rnorm tiny fs') (Scalar id) N (Some fi) None = Ok (OneRow ids sc') /\
    length sc' = length sc /\
    forall p, (p < length sc)%nat -> ~ In (nth p ids 0%Z) (arr_list fi) -> nth p sc' 0 = nth p sc 0.
Proof.
  intros HP fmin tiny fs fs' id N fi ids sc HC T HN Hid BF F BN E.
  assert (LF := Forall2_len _ _ _ F).
  assert (NE : fs <> []) by (intros ->; simpl in Hid; lia). assert (NE' : fs' <> []) by (intros ->; simpl in LF; destruct fs; [congruence|discriminate]).
  unfold similar in *. cbn [id_list] in *.
  assert (G : gather fs [id] = Ok [nth (Z.to_nat id) fs []]).
  { rewrite gather_ok by (intros z [<-|[]]; unfold idx_ok; lia). simpl. rewrite wrap_nonneg by lia. auto. }
  destruct (gather_dir _ _ _ _ F G) as [Q' [G' FQ]]. rewrite (gather_norms _ _ _ _ G) in E. rewrite (gather_norms _ _ _ _ G'). cbn [bind restrict_similar] in *.
  rewrite G in E. rewrite G'. cbn [bind] in *. inversion FQ as [|q0 q' ? l0 [c0 [C0 EQ0]] FN]; subst. inversion FN; subst. clear FQ FN.
  set (q := nth (Z.to_nat id) fs []) in *.
  assert (CC : exists c, (0 < c /\ (rnorm q = 0 -> c = 1)) /\ map (Rmult c0) q = map (Rmult c) q).
  { destruct (Req_EM_T (rnorm q) 0) as [Z|Z]; [exists 1|exists c0]; (split; [split; [lra|auto; intros; contradiction]|]); auto.
    apply map_ext_in. intros x Hx. rewrite (rnorm_zero q Z x Hx). ring. }
  destruct CC as [c [[C C1] EC]].
  assert (Iq : In q fs) by (apply nth_In; lia).
  assert (Iq' : In (map (Rmult c) q) fs').
  { rewrite <- EC. unfold gather in G'. apply map_res_one in G'. destruct G' as [b [Eb X]]. inversion X; subst b. apply bind_ok in Eb. destruct Eb as [i [Ei Eb]]. inversion Eb.
    rewrite np_index_ok in Ei by (unfold idx_ok; lia). inversion Ei; subst i. apply nth_In. apply wrap_lt. unfold idx_ok; lia. }
  rewrite EC in *. clear EC C0 c0 G G'.
  unfold similarity_score in *. apply bind_ok in E. destruct E as [[I0 S0] [ET E]].
  apply topk_ok in ET; auto; [|lia]. destruct ET as [rs [FR [-> ->]]]. inversion FR as [|? r ? ? R1 R2]; subst. inversion R2; subst. clear FR R2.
  cbn [norms_of map combine fst snd finish nth] in E. inversion E. clear E. subst ids sc. unfold topk_row' in R1. cbn [fst snd option_map] in R1.
  assert (R1c := R1). unfold topk_row, row_scores in R1c. apply bind_ok in R1c. destruct R1c as [s [R1c RS]]. apply bind_ok in R1c. destruct R1c as [row [ER RC]]. cbn [bind] in RC.
  assert (RV : row = map (fun y => rdot q y / safe_norm rnorm tiny y) fs).
  { unfold score_row in ER. destruct (negb _); [discriminate|]. unfold norms_of in ER. rewrite !map_length, Nat.eqb_refl in ER. inversion ER.
    clearbody q. clear. induction fs as [|y fs IH]; auto. cbn [map combine fst snd]. f_equal; [rewrite ndot_rdot; auto|exact IH]. }
  assert (FL : forall x, In x row -> fmin < x /\ fmin < c * x).
  { intros x Hx. rewrite RV in Hx. apply in_map_iff in Hx. destruct Hx as [y [<- Hy]]. split; [apply cos_floor; auto|].
    assert (CX : c * (rdot q y / safe_norm rnorm tiny y) = rdot (map (Rmult c) q) y / safe_norm rnorm tiny y).
    { replace (rdot (map (Rmult c) q) y) with (c * rdot q y); [unfold Rdiv; ring|]. clearbody q. clear. revert y; induction q as [|a q IH]; destruct y; simpl; try ring. rewrite <- IH. ring. }
    rewrite CX. apply cos_floor; auto. }
  assert (R1' := topk_row_lift HP HC fmin c fs (Some (norms_of rnorm tiny fs)) fs' (Some (norms_of rnorm tiny fs')) None (Some (arr_list fi)) (Z.to_nat N) 0 q (map (Rmult c) q) row r
     C ltac:(lia) ER (score_row_dir tiny c q fs fs' row T C F ER) FL R1).
  set (g := lift fmin c) in *.
  assert (TK : topk HP fmin fs' [map (Rmult c) q] N (Some (norms_of rnorm tiny fs')) None (option_map arr_list (Some fi)) =
     Ok (map (fun r => pad (Z.to_nat N) 0%nat (map snd r)) [map (gp g) r], map (fun r => pad (Z.to_nat N) nzero (map fst r)) [map (gp g) r])).
  { apply topk_ok; auto; [lia|]. exists [map (gp g) r]. split; auto. constructor; auto. }
  cbn [norms_of map] in TK |- *. rewrite TK. cbn [bind fst snd combine map finish nth remap].
  eexists. split; [f_equal; f_equal; rewrite map_map; reflexivity|].
  change (@nzero R Num_R) with 0. change (@ndiv R Num_R) with Rdiv. unfold pad. rewrite !map_length, !app_length, !map_length. split; auto.
  intros p Hp NI. rewrite !map_app, !map_map. cbn [gp fst snd].
  assert (QN : forall x, c * x / safe_norm rnorm tiny (map (Rmult c) q) = x / safe_norm rnorm tiny q).
  { clear - T C C1. intros x. destruct (Req_EM_T (rnorm q) 0) as [Z|Z].
    - rewrite (C1 Z). replace (map (Rmult 1) q) with q by (rewrite <- (map_id q) at 1; apply map_ext; intros; ring). rewrite Rmult_1_l. auto.
    - rewrite !safe_norm_eq; auto; rewrite rnorm_scale by auto; [field; split; auto; lra|]. intros X. apply Rmult_integral in X. lra. }
  assert (QZ : forall m, map (fun x => x / safe_norm rnorm tiny (map (Rmult c) q)) (repeat 0 m) = map (fun x => x / safe_norm rnorm tiny q) (repeat 0 m)).
  { intros m. apply map_ext_in. intros x Hx. apply repeat_spec in Hx. subst. unfold Rdiv. ring. }
  destruct (Nat.lt_ge_cases p (length r)) as [Lp|Lp].
  2:{ rewrite !app_nth2 by (rewrite map_length; lia). rewrite !map_length, QZ. auto. }
  rewrite !app_nth1 by (rewrite map_length; lia).
  set (d := nth p r (0, 0%nat)).
  assert (N1 : nth p (map (fun x : R * nat => g (fst x) / safe_norm rnorm tiny (map (Rmult c) q)) r) 0 = g (fst d) / safe_norm rnorm tiny (map (Rmult c) q)).
  { rewrite (nth_indep _ 0 ((fun x : R * nat => g (fst x) / safe_norm rnorm tiny (map (Rmult c) q)) (0, 0%nat))) by (rewrite map_length; auto). apply (map_nth (fun x : R * nat => g (fst x) / safe_norm rnorm tiny (map (Rmult c) q))). }
  assert (N2 : nth p (map (fun x : R * nat => fst x / safe_norm rnorm tiny q) r) 0 = fst d / safe_norm rnorm tiny q).
  { rewrite (nth_indep _ 0 ((fun x : R * nat => fst x / safe_norm rnorm tiny q) (0, 0%nat))) by (rewrite map_length; auto). apply (map_nth (fun x : R * nat => fst x / safe_norm rnorm tiny q)). }
  assert (N1' := N1). assert (N2' := N2). cbn [gp] in N1', N2' |- *. etransitivity; [exact N1'|]. symmetry. etransitivity; [exact N2'|]. symmetry. clear N1 N2 N1' N2'.
  unfold g, lift. destruct (Req_EM_T (fst d) fmin) as [Hf|Hf]; [|apply QN]. exfalso. apply NI.
  (* an entry at the floor is a filtered one *)
  match goal with |- In ?x _ => assert (ID : x = Z.of_nat (snd d)) end.
  { unfold remap, pad. rewrite map_app, app_nth1 by (rewrite !map_length; auto). rewrite map_map.
    rewrite (nth_indep _ 0%Z ((fun x : R * nat => Z.of_nat (snd x)) (0, 0%nat))) by (rewrite map_length; auto). apply (map_nth (fun x : R * nat => Z.of_nat (snd x))). }
  rewrite ID.
  destruct (select_row_topn HP HC (Z.to_nat N) s 0 ltac:(lia)) as [r' [RS' TN]]. rewrite RS in RS'. inversion RS'; subst r'.
  assert (Id : In d r) by (apply nth_In; auto).
  assert (Sd : (snd d < length s)%nat /\ fst d = nth (snd d) s 0).
  { assert (TI := topn_incl _ _ _ _ _ TN). assert (TS := topn_scores _ _ _ _ _ TN). split.
    - assert (In (snd d) (seq 0 (length s))) by (apply TI; apply in_map; auto). apply in_seq in H. lia.
    - clear - TS Id. revert TS Id. clearbody d. induction r as [|e r IH]; simpl; intros TS Id; [contradiction|]. injection TS as T1 T2. destruct Id as [->|Id]; auto. }
  destruct Sd as [Sd1 Sd2].
  unfold set_cols in RC. apply bind_ok in RC. destruct RC as [js [EJ RC]]. inversion RC; subst s. rewrite fold_upd_length in Sd1.
  assert (LR : length row = length fs) by (rewrite RV, map_length; auto).
  rewrite fold_upd_nth in Sd2 by auto.
  match type of Sd2 with _ = (if ?b then _ else _) => destruct b eqn:MB end.
  2:{ exfalso. assert (fmin < nth (snd d) row 0) by (apply FL, nth_In; auto). rewrite <- Sd2 in H. lra. }
  apply (map_res_nth _ _ _ 0%Z 0%nat) in EJ. destruct EJ as [LJ EJ].
  assert (IJ : In (snd d) js) by (unfold memn in MB; apply existsb_exists in MB; destruct MB as [x [Hx Ex]]; apply Nat.eqb_eq in Ex; rewrite Ex; auto).
  destruct (In_nth js (snd d) 0%nat IJ) as [t [Lt Et]]. rewrite LJ in Lt. specialize (EJ t Lt). rewrite Et in EJ.
  assert (It : In (nth t (arr_list fi) 0%Z) (arr_list fi)) by (apply nth_In; auto). assert (Bt := BF _ It).
  rewrite np_index_ok in EJ by (unfold idx_ok; lia). rewrite wrap_nonneg in EJ by lia. inversion EJ as [X]. rewrite Z2Nat.id by lia. auto.
Qed.
Print Assumptions C136_filtered.

(** Three items, one of them all zeros, each multiplied by its own number; the calls of both
    models succeed, so the equivalence is about a real answer. *)
Example C136_example :
  let fs := [[1; 1]; [0; 0]; [2; -1]] in let fs' := [[3; 3]; [0; 0]; [1; -1/2]] in
  Forall2 same_direction fs fs' /\ (forall y, In y fs \/ In y fs' -> rnorm y < - (-1000)) /\
  exists o, similar simple_heap (-1000) fs (norms_of rnorm (1/1000) fs) (Scalar 0) 3 None None = Ok o /\
    similar simple_heap (-1000) fs' (norms_of rnorm (1/1000) fs') (Scalar 0) 3 None None = Ok o.
Proof.
  set (fs := [[1; 1]; [0; 0]; [2; -1]]). set (fs' := [[3; 3]; [0; 0]; [1; -1/2]]).
  assert (F : Forall2 same_direction fs fs').
  { repeat constructor.
    - exists 3. split; [lra|]. cbn [map]. f_equal; [lra|f_equal; lra].
    - exists 7. split; [lra|]. cbn [map]. f_equal; [lra|f_equal; lra].
    - exists (1/2). split; [lra|]. cbn [map]. f_equal; [lra|f_equal; lra]. }
  split; [exact F|]. split.
  { assert (S9 : forall v, rdot v v <= 100 -> rnorm v < - (-1000)).
    { intros v L. unfold rnorm. apply Rle_lt_trans with (sqrt 100); [apply sqrt_le_1_alt; auto|].
      replace 100 with (10 * 10) by lra. rewrite sqrt_square; lra. }
    intros y [[<-|[<-|[<-|[]]]]|[<-|[<-|[<-|[]]]]]; apply S9; simpl; lra. }
  destruct (similar_scalar simple_heap simple_heap_ok (-1000) (1/1000) ltac:(lra) fs 2%nat 0%Z 3%Z) as [ids [sc [E _]]];
    [intros y [<-|[<-|[<-|[]]]]; reflexivity|unfold idx_ok; simpl; lia|lia|].
  eexists. split; [exact E|]. apply (C136_directions simple_heap (-1000) (1/1000) fs fs'); auto using simple_heap_ok; [lra|lia|discriminate].
Qed.

(* ------------------------------------------------------------------ C137 *)
(** A model in which user [u]'s vector is multiplied by [c] and all item vectors by [b]. *)
Definition rescaled (c b : R) (u : nat) (m m' : mf R) : Prop :=
  length (user_factors m') = length (user_factors m) /\
  nth u (user_factors m') [] = map (Rmult c) (nth u (user_factors m) []) /\
  item_factors m' = map (map (Rmult b)) (item_factors m).

Lemma gather_map (h : list R -> list R) fs zs X : gather fs zs = Ok X -> gather (map h fs) zs = Ok (map h X).
Proof.
  unfold gather. rewrite map_length. revert X. induction zs as [|z zs IH]; intros X E.
  - simpl in *. inversion E; subst. auto.
  - cbn [map_res] in *. apply bind_ok in E. destruct E as [x [E1 E]]. apply bind_ok in E. destruct E as [xs [E2 E]]. inversion E; subst. clear E.
    apply bind_ok in E1. destruct E1 as [i [EI E1]]. rewrite EI. inversion E1; subst. cbn [bind]. rewrite (IH xs) by auto. cbn [bind map]. f_equal. f_equal.
    rewrite (nth_indep _ [] (h [])); [apply (map_nth h)|]. rewrite map_length.
    clear - EI. unfold np_index in EI. destruct ((0 <=? z) && (z <? Z.of_nat (length fs)))%Z eqn:Q.
    + inversion EI; subst. apply andb_true_iff in Q. destruct Q as [Q1 Q2]. apply Z.leb_le in Q1. apply Z.ltb_lt in Q2. lia.
    + destruct ((- Z.of_nat (length fs) <=? z) && (z <? 0))%Z eqn:Q'; [|discriminate]. inversion EI; subst.
      apply andb_true_iff in Q'. destruct Q' as [Q1 Q2]. apply Z.leb_le in Q1. apply Z.ltb_lt in Q2. lia.
Qed.
Lemma gather_sub (fs : list (list R)) zs X : gather fs zs = Ok X -> forall y, In y X -> In y fs.
Proof.
  unfold gather. revert X. induction zs as [|z zs IH]; intros X E y Hy.
  - simpl in *. inversion E; subst. contradiction.
  - cbn [map_res] in *. apply bind_ok in E. destruct E as [x [E1 E]]. apply bind_ok in E. destruct E as [xs [E2 E]]. inversion E; subst. clear E.
    destruct Hy as [<-|Hy]; [|eapply IH; eauto]. apply bind_ok in E1. destruct E1 as [i [EI E1]]. inversion E1; subst. apply nth_In.
    clear - EI. unfold np_index in EI. destruct ((0 <=? z) && (z <? Z.of_nat (length fs)))%Z eqn:Q.
    + inversion EI; subst. apply andb_true_iff in Q. destruct Q as [Q1 Q2]. apply Z.leb_le in Q1. apply Z.ltb_lt in Q2. lia.
    + destruct ((- Z.of_nat (length fs) <=? z) && (z <? 0))%Z eqn:Q'; [|discriminate]. inversion EI; subst.
      apply andb_true_iff in Q'. destruct Q' as [Q1 Q2]. apply Z.leb_le in Q1. apply Z.ltb_lt in Q2. lia.
Qed.
Lemma score_row_scale c b q fs row : score_row fs None q = Ok row ->
  score_row (map (map (Rmult b)) fs) None (map (Rmult c) q) = Ok (map (Rmult (c * b)) row) /\ row = map (rdot q) fs.
Proof.
  intros E. unfold score_row in *. rewrite map_length.
  assert (FB : forallb (fun y : list R => length y =? length q)%nat (map (map (Rmult b)) fs) = forallb (fun y : list R => length y =? length q)%nat fs).
  { clear. induction fs; simpl; auto. rewrite map_length, IHfs. auto. }
  rewrite FB. destruct (negb _); [discriminate|]. inversion E; subst. split.
  - f_equal. rewrite !map_map. apply map_ext. intros y. rewrite !ndot_rdot. apply rdot_scale.
  - apply map_ext. intros y. apply ndot_rdot.
Qed.

(** The calls both succeed with related scores [g], for a map [g] keeping order. *)
Lemma recommend_rescaled HP (HC : std_heap_ok HP) fmin (g : R -> R) (P : R -> Prop) m m' recalc recalc' c b u ui N fl fi its ids sc :
  0 < c -> 0 < b -> (1 <= N)%Z -> item_factors m <> [] -> (0 <= u < Z.of_nat (length (user_factors m)))%Z ->
  rescaled c b (Z.to_nat u) m m' -> g 0 = 0 ->
  (forall x y, P x -> P y -> nltb (g x) (g y) = nltb x y) -> (fl = false /\ fi = None \/ P fmin /\ g fmin = fmin) ->
  (forall y, In y (item_factors m) -> let s := rdot (nth (Z.to_nat u) (user_factors m) []) y in P s /\ g s = c * b * s) ->
  recommend HP fmin m recalc (Scalar u) ui N fl fi false its = Ok (OneRow ids sc) ->
  recommend HP fmin m' recalc' (Scalar u) ui N fl fi false its = Ok (OneRow ids (map g sc)).
Proof.
  intros C B HN NE Hu [LU [EU EI]] G0 MONO FF PS E. unfold recommend in *. apply bind_ok in E. destruct E as [t [E0 E]]. rewrite E0. cbn [bind].
  unfold user_factor in *. cbn [id_list] in *. rewrite gather_ok in E by (intros z [<-|[]]; unfold idx_ok; lia).
  rewrite gather_ok by (intros z [<-|[]]; unfold idx_ok; lia). cbn [bind map] in *. rewrite wrap_nonneg in * by lia. rewrite EU.
  set (q := nth (Z.to_nat u) (user_factors m) []) in *. apply bind_ok in E. destruct E as [[[N' l] facs] [E1 E]].
  assert (SEL : (match its with None => Ok (N, None, item_factors m') | Some its => do r <- restrict_items m' fi its; Ok (Z.min N (Z.of_nat (length (arr_list its))), Some (fst r), snd r) end)
      = Ok (N', l, map (map (Rmult b)) facs) /\ (forall y, In y facs -> In y (item_factors m)) /\ facs <> [] /\ (1 <= N')%Z).
  { destruct its as [a|]; [|inversion E1; subst; rewrite EI; auto]. apply bind_ok in E1. destruct E1 as [[l0 f0] [E1 E2]]. cbn [fst snd] in E2. inversion E2; subst. clear E2.
    unfold restrict_items in *. apply bind_ok in E1. destruct E1 as [tr [E1 E2]]. rewrite E1. cbn [bind]. destruct tr; [discriminate|].
    assert (X : arr_list a <> [] /\ l0 = sort_z (arr_list a) /\ gather (item_factors m) l0 = Ok facs /\ out_of_model (length (item_factors m)) l0 = Ok false).
    { destruct a as [[|z zs]|[|z zs]]; try discriminate;
        (apply bind_ok in E2; destruct E2 as [x [Q1 E2]]; apply bind_ok in E2; destruct E2 as [bad [Q2 E2]]; destruct bad; [discriminate|]; inversion E2; subst;
         split; [simpl; discriminate|split; [reflexivity|split; [exact Q1|exact Q2]]]). }
    destruct X as [NA [EL [G1 OM]]].
    assert (GM := gather_map (map (Rmult b)) _ _ _ G1). rewrite <- EI in GM.
    assert (LM : length (item_factors m') = length (item_factors m)) by (rewrite EI, map_length; auto).
    split; [|split; [eapply gather_sub; eauto|split]].
    - destruct a as [[|z zs]|[|z zs]]; try (exfalso; apply NA; reflexivity); subst l0; rewrite GM; cbn [bind]; rewrite LM, OM; reflexivity.
    - intros ->. apply gather_len in G1. subst l0. unfold sort_z in G1. rewrite (Permutation_length (sort_by_perm _ _)) in G1. destruct (arr_list a); [auto|discriminate].
    - destruct (arr_list a); [congruence|simpl length; lia]. }
  destruct SEL as [-> [SUB [NF HN']]]. cbn [bind]. apply bind_ok in E. destruct E as [[I0 S0] [ET E]].
  apply topk_ok in ET; auto; [|lia]. destruct ET as [rs [FR [-> ->]]]. inversion FR as [|? r ? ? R1 R2]; subst. inversion R2; subst. clear FR R2.
  cbn [finish fst snd map nth] in E. inversion E; subst ids sc. clear E. unfold topk_row' in R1. cbn [fst snd] in R1.
  set (fq := if fl then match ui with NotCsr => None | Csr M => Some (match l with None => M | Some l0 => filter_items_from_sparse_matrix l0 M end) end else None) in *.
  assert (R1c := R1). unfold topk_row, row_scores in R1c. apply bind_ok in R1c. destruct R1c as [s [R1c RS]]. apply bind_ok in R1c. destruct R1c as [row [ER RC]].
  destruct (score_row_scale c b q facs row ER) as [ER' RV].
  assert (RG : map (Rmult (c * b)) row = map g row).
  { rewrite RV. rewrite !map_map. apply map_ext_in. intros y Hy. symmetry. apply PS. apply SUB. auto. }
  rewrite RG in ER'.
  assert (R1' : topk_row HP fmin (map (map (Rmult b)) facs) None fq (option_map arr_list fi) (Z.to_nat N') 0 (map (Rmult c) q) = Ok (map (gp g) r)).
  { apply (topk_row_map g P) with (items := facs) (norms := None) (q := q) (row := row); auto; [lia| |].
    - destruct FF as [[-> ->]|FF]; auto.
    - apply Forall_forall. intros x Hx. rewrite RV in Hx. apply in_map_iff in Hx. destruct Hx as [y [<- Hy]]. apply PS. auto. }
  assert (TK : topk HP fmin (map (map (Rmult b)) facs) [map (Rmult c) q] N' None fq (option_map arr_list fi) =
     Ok (map (fun r => pad (Z.to_nat N') 0%nat (map snd r)) [map (gp g) r], map (fun r => pad (Z.to_nat N') nzero (map fst r)) [map (gp g) r])).
  { apply topk_ok; auto; [lia|destruct facs; [congruence|discriminate]|]. exists [map (gp g) r]. split; auto. constructor; auto. }
  rewrite TK. cbn [bind finish fst snd map nth]. f_equal. f_equal.
  - f_equal. rewrite map_map. reflexivity.
  - unfold pad. rewrite map_app, !map_map, !map_length. f_equal. clear - G0. change (@nzero R Num_R) with 0. generalize (Z.to_nat N' - length r)%nat.
    intros k. induction k; simpl; auto. rewrite G0, <- IHk. auto.
Qed.

(** recommend for a user whose vector was multiplied by c > 0, in a model whose item vectors
    were all multiplied by b > 0: the same items in the same order, each score times c b. *)
Theorem C137_scaled : forall HP fmin m m' recalc recalc' c b u ui N its ids sc, std_heap_ok HP -> 0 < c -> 0 < b -> (1 <= N)%Z ->
  item_factors m <> [] -> (0 <= u < Z.of_nat (length (user_factors m)))%Z -> rescaled c b (Z.to_nat u) m m' ->
  recommend HP fmin m recalc (Scalar u) ui N false None false its = Ok (OneRow ids sc) ->
  recommend HP fmin m' recalc' (Scalar u) ui N false None false its = Ok (OneRow ids (map (Rmult (c * b)) sc)).
Proof.
  intros HP fmin m m' recalc recalc' c b u ui N its ids sc HC C B HN NE Hu RS E.
  apply (recommend_rescaled HP HC fmin (Rmult (c * b)) (fun _ => True) m m' recalc recalc' c b); auto.
  - ring.
  - intros. apply Rmult_mono. apply Rmult_lt_0_compat; auto.
Qed.
Print Assumptions C137_scaled.

(** With filtering (liked items, filter_items): again the same ids, including the filtered
    ones that fill up a long list; those keep the marking score, the others are multiplied.
    The marking number must be below all scores before and after. *)
Theorem C137_filtered : forall HP fmin m m' recalc recalc' c b u ui N fl fi its ids sc, std_heap_ok HP -> 0 < c -> 0 < b -> (1 <= N)%Z -> fmin < 0 ->
  item_factors m <> [] -> (0 <= u < Z.of_nat (length (user_factors m)))%Z -> rescaled c b (Z.to_nat u) m m' ->
  (forall y, In y (item_factors m) -> let s := rdot (nth (Z.to_nat u) (user_factors m) []) y in fmin < s /\ fmin < c * b * s) ->
  recommend HP fmin m recalc (Scalar u) ui N fl fi false its = Ok (OneRow ids sc) ->
  exists sc', recommend HP fmin m' recalc' (Scalar u) ui N fl fi false its = Ok (OneRow ids sc') /\
    Forall2 (fun s s' => (s = fmin /\ s' = fmin) \/ (s <> fmin /\ s' = c * b * s)) sc sc'.
Proof.
  intros HP fmin m m' recalc recalc' c b u ui N fl fi its ids sc HC C B HN F0 NE Hu RS FL E.
  assert (CB : 0 < c * b) by (apply Rmult_lt_0_compat; auto).
  exists (map (lift fmin (c * b)) sc). split.
  - apply (recommend_rescaled HP HC fmin (lift fmin (c * b)) (fun s => s = fmin \/ fmin < s /\ fmin < c * b * s) m m' recalc recalc' c b); auto.
    + unfold lift. destruct (Req_EM_T 0 fmin); lra.
    + intros. apply lift_mono; auto.
    + right. split; auto. unfold lift. destruct (Req_EM_T fmin fmin); auto; lra.
    + intros y Hy s. destruct (FL y Hy) as [F1 F2]. split; auto. unfold lift, s. destruct (Req_EM_T _ fmin) as [X|X]; auto. lra.
  - clear. induction sc; simpl; constructor; auto. unfold lift. destruct (Req_EM_T a fmin); auto.
Qed.
Print Assumptions C137_filtered.

Example C137_example :
  let m := {| user_factors := [[1; 2]; [1; 1]]; item_factors := [[1; 0]; [0; 1]; [1; 1]] |} in
  let m' := {| user_factors := [[5; 5]; [3; 3]]; item_factors := [[2; 0]; [0; 2]; [2; 2]] |} in
  rescaled 3 2 1 m m' /\
  (forall y, In y (item_factors m) -> let s := rdot (nth 1 (user_factors m) []) y in -1000 < s /\ -1000 < 3 * 2 * s) /\
  exists ids sc, recommend simple_heap (-1000) m no_recalc (Scalar 1) NotCsr 2 false (Some (PyList [2%Z])) false None = Ok (OneRow ids sc).
Proof.
  cbv zeta. split; [|split].
  - split; [reflexivity|split]; cbn [user_factors item_factors nth map]; repeat (apply f_equal2; try reflexivity; try lra).
  - cbn [item_factors user_factors nth]. intros y [<-|[<-|[<-|[]]]]; simpl; lra.
  - destruct (recommend_scalar simple_heap simple_heap_ok (-1000) {| user_factors := [[1; 2]; [1; 1]]; item_factors := [[1; 0]; [0; 1]; [1; 1]] |} 2%nat no_recalc 1%Z NotCsr 2%Z false (Some (PyList [2%Z])))
      as [ids [sc [E _]]]; [| | | | | |rewrite E; eauto].
    + split; simpl; intros y Hy; repeat (destruct Hy as [<-|Hy]; [reflexivity|]); contradiction.
    + unfold idx_ok. simpl. lia.
    + lia.
    + discriminate.
    + intros; discriminate.
    + intros l z Hl Hz. inversion Hl; subst. simpl in Hz. destruct Hz as [<-|[]]. unfold idx_ok. simpl. lia.
Qed.
