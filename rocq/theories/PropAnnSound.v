(** C155: what an approximate model answers is genuine, whatever the index finds. *)
From Coq Require Import String List Arith Lia Bool ZArith QArith Permutation Sorted Reals Lra Psatz.
From Verif Require Import Base Num Heap Sparse TopkModel TopkSpec TopkProofs RecommendModel RecommendProofs KnnModel RVec SimilarProofs PropSimilar AnnModel AnnProofs PropAnn PropAnn2 PropAnn3.
Import ListNotations.
Local Open Scope list_scope.
Local Open Scope nat_scope.

(* ---------------------------------------------------- honest indexes (spec) *)
(** An index may miss any neighbour; what it does return are at most [c] different rows out of [idl], with
    their distances, the nearest first. *)
Definition honest (d : nat -> R) (idl : list nat) (c : nat) (hits : list (Z * R)) : Prop :=
  exists ids, hits = map (fun i => (Z.of_nat i, d i)) ids /\ NoDup ids /\ incl ids idl /\ length ids <= c /\ StronglySorted (fun i j => d i <= d j)%R ids.
Definition honest_angular (B : builders R) : Prop := exists d : list R -> list R -> R,
  (forall u v c, is_cosine u v c -> d u v = sqrt (2 * (1 - c))) /\
  forall rows q c, honest (fun i => d q (nth i rows [])) (seq 0 (length rows)) c (b_angular B rows q c).
Definition honest_cosine (B : builders R) : Prop := exists d : list R -> list R -> R,
  (forall u v c, (spec_norm u * spec_norm v <> 0)%R -> is_cosine u v c -> d u v = 1 - c)%R /\
  forall idl row q c, NoDup idl -> honest (fun i => d q (row i)) idl c (b_cosine B (map (fun i => (Z.of_nat i, row i)) idl) q c).
(** Faiss: the largest inner product first, unused places at the end. *)
Definition honest_inner (fmin : R) (B : builders R) : Prop := forall rows q c, exists ids,
  b_inner B rows q c = map (fun i => (Z.of_nat i, spec_dot q (nth i rows []))) ids ++ repeat ((-1)%Z, fmin) (c - length ids) /\
  NoDup ids /\ incl ids (seq 0 (length rows)) /\ length ids <= c /\ StronglySorted (fun i j => spec_dot q (nth j rows []) <= spec_dot q (nth i rows []))%R ids.

(** At most [N] different items below [n] that are [ok], with their true scores, the best first. *)
Definition genuine (score : nat -> R) (ok : nat -> bool) (n N : nat) (ids : list nat) (scores : list R) : Prop :=
  length ids <= N /\ NoDup ids /\ (forall i, In i ids -> i < n /\ ok i = true) /\ scores = map score ids /\ StronglySorted (fun x y => y <= x)%R scores.

(** Exact indexes are honest. *)
Lemma exact_honest d idl c hits : exact_answer d idl c hits -> honest d idl c hits.
Proof. intros (ids & E & HB). destruct HB as [L ND I S _]. exists ids. repeat split; auto. lia. Qed.
Lemma exact_builders_honest fmin : honest_angular (exact_builders fmin) /\ honest_cosine (exact_builders fmin) /\ honest_inner fmin (exact_builders fmin).
Proof.
  destruct (exact_builders_ok fmin) as ((d & A1 & A2) & (d' & B1 & B2) & C). split; [|split].
  - exists d. split; auto. intros. apply exact_honest. auto.
  - exists d'. split; auto. intros. apply exact_honest. auto.
  - intros rows q c. destruct (C rows q c) as (ids & E & [L ND I S _]). exists ids. split; [|repeat split; auto; lia].
    rewrite E. f_equal. f_equal. lia.
Qed.

Lemma ss_map {A B} (P : B -> B -> Prop) (f : A -> B) l : StronglySorted (fun x y => P (f x) (f y)) l -> StronglySorted P (map f l).
Proof. induction 1 as [|x l S IH F]; constructor; auto. apply Forall_map. exact F. Qed.
Lemma ss_firstn {A} (P : A -> A -> Prop) n l : StronglySorted P l -> StronglySorted P (firstn n l).
Proof. intros HS. rewrite <- (firstn_skipn n l) in HS. apply ss_app_inv in HS. tauto. Qed.
Lemma ss_filter {A} (P : A -> A -> Prop) p (l : list A) : StronglySorted P l -> StronglySorted P (filter p l).
Proof.
  induction 1 as [|x l S IH F]; [constructor|]. simpl. destruct (p x); auto. constructor; auto.
  rewrite Forall_forall in *. intros y Hy. apply filter_In in Hy. apply F. tauto.
Qed.
Lemma in_firstn {A} n (l : list A) x : In x (firstn n l) -> In x l.
Proof. intros Hx. rewrite <- (firstn_skipn n l). apply in_or_app. auto. Qed.
(** Taking some of the found rows. *)
Lemma genuine_take (score : nat -> R) (ok : nat -> bool) n N (ids0 : list nat) : NoDup ids0 -> (forall i, In i ids0 -> i < n) ->
  StronglySorted (fun i j => score j <= score i)%R ids0 ->
  genuine score ok n N (firstn N (filter ok ids0)) (map score (firstn N (filter ok ids0))).
Proof.
  intros ND IN SS. split; [rewrite firstn_length; lia|]. split; [apply NoDup_firstn, NoDup_filter; auto|]. split.
  - intros i Hi. apply in_firstn, filter_In in Hi. destruct Hi. auto.
  - split; auto. apply ss_map. apply ss_firstn, ss_filter. auto.
Qed.
Lemma seq_bound (ids : list nat) n : incl ids (seq 0 n) -> forall i, In i ids -> i < n.
Proof. intros HI i Hi. apply HI, in_seq in Hi. lia. Qed.

(* ------------------------------------------------------------- recommend *)
(** C155, recommend of Annoy and NMSLib models. *)
Theorem C155_angular_recommend : forall (L : lib) (B : builders R) (E : ann_env R) (I : inner R) m f asim A u ui N liked fi,
  real_env E -> (L = Annoy /\ honest_angular B /\ annoy_fit E B (item_factors m) asim true = Ok A) \/ (L = NMSLib /\ honest_cosine B /\ nmslib_fit E B (item_factors m) asim true = Ok A) ->
  Forall (fun r => length r = f) (user_factors m) -> Forall (fun r => length r = f) (item_factors m) ->
  (0 <= u < Z.of_nat (length (user_factors m)))%Z -> plain_filter fi -> row_given liked ui ->
  exists ids scores, ann_recommend E I A m (Scalar u) ui N liked fi false None = (m, Ok (OneRow (map Z.of_nat ids) scores)) /\
    genuine (fun i => spec_dot (nth (Z.to_nat u) (user_factors m) []) (nth i (item_factors m) [])) (allowed fi liked ui) (length (item_factors m)) N ids scores.
Proof.
  intros L B E I m f asim A u ui N liked fi RE HF WU WI HU PF RG.
  pose proof RE as (EN & ES & _).
  assert (LL : L <> Faiss) by (destruct HF as [(-> & _)|(-> & _)]; discriminate).
  assert (NE : item_factors m <> []).
  { intro X. rewrite X in HF. destruct HF as [(_ & _ & HF)|(_ & _ & HF)]; discriminate. }
  destruct (C54_augment E (item_factors m) f RE NE WI) as (mx & extra & EA & LX & _ & (r0 & _ & MX0) & NX & SX & _).
  assert (FIT : a_lib A = L /\ a_approx_rec A = true /\ a_max_norm A = mx /\ exists d, dist_ok L d /\
    forall q c, honest (fun i => d q (nth i extra [])) (seq 0 (length extra)) c (a_rec A q c)).
  { destruct HF as [(-> & (d & D1 & D2) & HF)|(-> & (d & D1 & D2) & HF)]; unfold annoy_fit, nmslib_fit in HF; rewrite EA in HF; cbn [bind] in HF; injection HF as <-; cbn [a_lib a_approx_rec a_max_norm a_rec].
    - repeat split; auto. exists d. split; [apply angular_dist_ok; auto|]. intros. apply D2.
    - repeat split; auto. exists d. split; [apply cosine_dist_ok; auto|]. intros.
      rewrite (numbered_spec extra).  apply (D2 _ (fun i => nth i extra [])). apply seq_NoDup. }
  destruct FIT as (AL & AR & AM & d & (D1 & D2) & D3). rewrite LX in D3. clear HF.
  set (n := length (item_factors m)) in *.
  set (user := nth (Z.to_nat u) (user_factors m) []).
  assert (LU : length user = f). { rewrite Forall_forall in WU. apply WU. apply nth_In. lia. }
  destruct (query_user_scalar I m u ui HU) as (v & EV & RV). fold user in RV.
  destruct (rec_filter_spec N fi liked ui PF RG) as (count & flt & EF & HC & HK & HN & _).
  set (query := user ++ [0%R]).
  destruct (D3 query count) as (ids0 & EH & ND & IN & LE & SS). pose proof (seq_bound _ _ IN) as BD.
  set (scaling := (mx * spec_norm query)%R).
  set (score := fun i => spec_dot user (nth i (item_factors m) [])).
  assert (SC : forall i, i < n -> (scaling * conv L (d query (nth i extra [])) = score i)%R).
  { intros i Hi. unfold scaling. rewrite <- (NX i Hi), (Rmult_comm (spec_norm (nth i extra []))), D1. destruct (SX i Hi) as [e ->].
    unfold score. rewrite !spec_dot_rdot. unfold query. rewrite rdot_app; [lra|]. rewrite LU. symmetry. rewrite Forall_forall in WI. apply WI. apply nth_In. auto. }
  set (ids := firstn N (filter (allowed fi liked ui) ids0)).
  assert (SUB : forall i, In i ids -> i < n) by (intros i Hi; apply in_firstn, filter_In in Hi; apply BD; tauto).
  exists ids, (map score ids). split.
  - unfold ann_recommend. rewrite row_given_row by auto. rewrite AL, AR. cbn [negb].
    assert (GO : angular_recommend1 E I A m u ui N liked fi false = (m, Ok (map Z.of_nat ids, map score ids))).
    { unfold angular_recommend1. rewrite EV. cbn [bind]. rewrite EF. cbn [bind]. rewrite RV. cbn [nth]. change (@nzero R Num_R) with 0%R. fold query.
      rewrite (opt_filter flt N count); auto; [|rewrite EH, map_length; lia].
      rewrite EH, filter_hits_map. rewrite (filter_ext _ _ HK). fold ids. f_equal. f_equal. f_equal.
      - rewrite map_map. apply map_ext. auto.
      - rewrite map_map. apply map_ext_in. intros i Hi. cbn [snd]. rewrite <- (SC i) by auto. rewrite AM, EN, AL. fold scaling.
        unfold two. destruct L; reflexivity. }
    destruct L; [rewrite GO; reflexivity|rewrite GO; reflexivity|congruence].
  - apply (genuine_take score (allowed fi liked ui) n N ids0); auto.
    eapply ss_weaken; [|exact SS]. intros i j Hi Hj Hd. cbv beta in Hd. rewrite <- (SC i), <- (SC j) by (apply BD; auto).
    apply Rmult_le_compat_l; [|apply D2; auto]. unfold scaling. apply Rmult_le_pos; [rewrite MX0, spec_norm_rnorm; apply rnorm_pos|rewrite spec_norm_rnorm; apply rnorm_pos].
Qed.

(** The unused places of Faiss stay behind the items found. *)
Lemma pad_filter F N count (g : nat -> R) fmin ids0 : NoDup ids0 -> length ids0 <= count -> N + length F <= count ->
  let ids := firstn N (filter (fun i => negb (memz (Z.of_nat i) F)) ids0) in
  exists k, filter_hits F N (map (fun i => (Z.of_nat i, g i)) ids0 ++ repeat ((-1)%Z, fmin) (count - length ids0)) = map (fun i => (Z.of_nat i, g i)) ids ++ repeat ((-1)%Z, fmin) k /\
    length ids + k <= N /\ (~ In (-1)%Z F -> length ids + k = N).
Proof.
  intros ND LE HC ids. unfold filter_hits. rewrite filter_app, filter_map_swap. cbn [fst].
  set (K := filter (fun i => negb (memz (Z.of_nat i) F)) ids0) in *.
  assert (KL : length ids0 <= length K + length F).
  { rewrite <- (filter_length_split (fun i => negb (memz (Z.of_nat i) F)) ids0). fold K.
    apply Nat.add_le_mono_l. rewrite <- (map_length Z.to_nat F). apply NoDup_incl_length; [apply NoDup_filter; auto|].
    intros x Hx. apply filter_In in Hx. destruct Hx as [_ Hx]. rewrite negb_involutive in Hx. apply memz_spec in Hx. apply in_map_iff. exists (Z.of_nat x). split; [lia|auto]. }
  assert (LI : length ids = Nat.min N (length K)) by apply firstn_length.
  destruct (memz (-1) F) eqn:EM.
  - assert (FN : filter (fun x : Z * R => negb (memz (fst x) F)) (repeat ((-1)%Z, fmin) (count - length ids0)) = []).
    { generalize (count - length ids0). induction n as [|k IH]; [reflexivity|]. cbn [repeat filter fst]. rewrite EM. exact IH. }
    rewrite FN, app_nil_r. exists 0. rewrite firstn_map. fold ids. split; [simpl; rewrite app_nil_r; reflexivity|]. split; [lia|].
    intros C. apply memz_spec in EM. contradiction.
  - rewrite filter_repeat_true by (cbn [fst]; rewrite EM; reflexivity). rewrite firstn_app, firstn_map, map_length, firstn_repeat. fold ids.
    eexists. split; [reflexivity|]. lia.
Qed.

Lemma map_pads {A B} (f : A -> B) x k : map f (repeat x k) = repeat (f x) k.
Proof. induction k; simpl; congruence. Qed.

(** Faiss models with the index on the CPU: the same, then unused places with id -1, N places in all
    unless id -1 is itself filtered. *)
Theorem C155_faiss_recommend : forall (B : builders R) (E : ann_env R) (I : inner R) m asim A u ui N liked fi,
  honest_inner (ae_fmin32 E) B -> faiss_fit E B false (item_factors m) asim true = Ok A ->
  (0 <= u < Z.of_nat (length (user_factors m)))%Z -> plain_filter fi -> row_given liked ui ->
  exists ids scores k, ann_recommend E I A m (Scalar u) ui N liked fi false None =
      (m, Ok (OneRow (map Z.of_nat ids ++ repeat (-1)%Z k) (scores ++ repeat (ae_fmin32 E) k))) /\
    genuine (fun i => spec_dot (nth (Z.to_nat u) (user_factors m) []) (nth i (item_factors m) [])) (allowed fi liked ui) (length (item_factors m)) N ids scores /\
    length ids + k <= N /\ (~ In (-1)%Z (filter_ids fi) -> length ids + k = N).
Proof.
  intros B E I m asim A u ui N liked fi HX HF HU PF RG.
  unfold faiss_fit in HF. injection HF as <-.
  set (n := length (item_factors m)) in *. set (user := nth (Z.to_nat u) (user_factors m) []).
  destruct (query_user_scalar I m u ui HU) as (v & EV & RV). fold user in RV.
  destruct (rec_filter_spec N fi liked ui PF RG) as (count & flt & EF & HC & HK & HN & HM).
  destruct (HX (item_factors m) user count) as (ids0 & EH & ND & IN & LE & SS). fold n in IN. pose proof (seq_bound _ _ IN) as BD.
  set (score := fun i => spec_dot user (nth i (item_factors m) [])).
  destruct (pad_filter (filter_ids flt) N count score (ae_fmin32 E) ids0 ND LE HC) as (k & EK & LK & LK2).
  rewrite (filter_ext _ _ HK) in EK, LK, LK2. set (ids := firstn N (filter (allowed fi liked ui) ids0)) in *.
  exists ids, (map score ids), k. split; [|split; [apply (genuine_take score (allowed fi liked ui) n N ids0); auto|split; auto]].
  - unfold ann_recommend. rewrite row_given_row by auto. cbn [a_lib a_approx_rec]. unfold faiss_recommend_direct. cbn [a_approx_rec negb a_use_gpu andb a_rec].
    rewrite EV. cbn [bind]. rewrite EF. cbn [bind]. rewrite RV. cbn [map].
    assert (LH : length (b_inner B (item_factors m) user count) = count). { rewrite EH, app_length, map_length, repeat_length. lia. }
    f_equal.
    match goal with |- bind ?x ?k = _ => assert (EQ : x = Ok [filter_hits (filter_ids flt) N (b_inner B (item_factors m) user count)]) end.
    { rewrite <- (opt_filter_padded flt N count) by auto. destruct flt; reflexivity. }
    rewrite EQ. cbn [bind to_out nth]. rewrite EH. unfold score in EK. cbv beta in EK. rewrite EK. rewrite !map_app, !map_map, !map_pads. reflexivity.
  - intros C. apply LK2. intros X. apply HM in X. destruct X; [auto|lia].
Qed.

(* ----------------------------------------------------------- similar_items *)
Theorem C155_annoy_similar : forall (B : builders R) (E : ann_env R) (I : inner R) m arec A z iu N fi cs,
  real_env E -> honest_angular B -> annoy_fit E B (item_factors m) true arec = Ok A ->
  (0 <= z < Z.of_nat (length (item_factors m)))%Z -> cosines m z cs ->
  exists ids scores, ann_similar_items E I A m (Scalar z) N false iu fi None = (m, Ok (OneRow (map Z.of_nat ids) scores)) /\
    genuine cs (unfiltered fi) (length (item_factors m)) N ids scores.
Proof.
  intros B E I m arec A z iu N fi cs RE (d & D1 & D2) HF HZ HC.
  set (n := length (item_factors m)) in *. set (row := fun i => nth i (item_factors m) ([] : list R)). set (q := nth (Z.to_nat z) (item_factors m) []).
  assert (FIT : a_lib A = Annoy /\ a_approx_sim A = true /\ a_sim A = b_angular B (item_factors m)).
  { unfold annoy_fit in HF. destruct arec.
    - destruct (augment_inner_product_matrix E (item_factors m)) as [[mx ex]|]; [|discriminate]. cbn [bind] in HF. injection HF as <-. auto.
    - injection HF as <-. auto. }
  destruct FIT as (AL & AS & AX).
  destruct (D2 (item_factors m) q N) as (ids0 & EH & ND & IN & LE & SS). fold n in IN. pose proof (seq_bound _ _ IN) as BD.
  assert (CS : forall i, (1 - d q (row i) * d q (row i) / (1 + 1) = cs i)%R /\ (0 <= d q (row i))%R).
  { intros i. pose proof (HC i) as Hi. fold q in Hi. fold (row i) in Hi. rewrite (D1 q (row i) (cs i)) by auto. split; [|apply sqrt_pos].
    rewrite (is_cosine_unique _ _ _ _ Hi (cosine_is_cosine _ _)). pose proof (cosine_range q (row i)). rewrite sqrt_sqrt by lra. lra. }
  exists (firstn N (filter (unfiltered fi) ids0)), (map cs (firstn N (filter (unfiltered fi) ids0))). split.
  - unfold ann_similar_items. rewrite AL, AS. cbn [negb]. unfold annoy_similar1. rewrite query_item_scalar by auto. cbn [bind]. rewrite query_item_rows. cbn [nth]. fold q. rewrite AX.
    rewrite (opt_filter fi N N) by (auto; rewrite EH, map_length; lia).
    rewrite EH, filter_hits_map. fold (unfiltered fi). rewrite !map_map. f_equal. f_equal. f_equal. apply map_ext. intros i. cbn [snd]. apply (CS i).
  - apply genuine_take; auto. eapply ss_weaken; [|exact SS]. intros i j Hi Hj Hd. cbv beta in Hd.
    destruct (CS i) as [<- P1]. destruct (CS j) as [<- P2]. unfold row in *. nra.
Qed.

(** NMSLib models know the items with non-zero factors only. *)
Theorem C155_nmslib_similar : forall (B : builders R) (E : ann_env R) (I : inner R) m arec A z iu N fi cs,
  real_env E -> honest_cosine B -> nmslib_fit E B (item_factors m) true arec = Ok A ->
  (0 <= z < Z.of_nat (length (item_factors m)))%Z -> nonzero m (Z.to_nat z) = true -> cosines m z cs ->
  exists ids scores, ann_similar_items E I A m (Scalar z) N false iu fi None = (m, Ok (OneRow (map Z.of_nat ids) scores)) /\
    genuine cs (fun i => unfiltered fi i && nonzero m i) (length (item_factors m)) N ids scores.
Proof.
  intros B E I m arec A z iu N fi cs (EN & _) (d & D1 & D2) HF HZ HNZ HC.
  set (n := length (item_factors m)) in *. set (row := fun i => nth i (item_factors m) ([] : list R)). set (idl := filter (nonzero m) (seq 0 n)).
  assert (FIT : a_lib A = NMSLib /\ a_approx_sim A = true /\ a_sim A = b_cosine B (map (fun i => (Z.of_nat i, row i)) idl)).
  { assert (NB : filter (fun p => negb (neqb (ae_norm E (snd p)) nzero)) (numbered (item_factors m)) = map (fun i => (Z.of_nat i, row i)) idl).
    { rewrite numbered_spec, filter_map_swap. unfold idl, row. f_equal. apply filter_ext. intros i. cbn [snd]. rewrite EN. unfold nonzero.
      destruct (Req_EM_T (spec_norm (nth i (item_factors m) [])) 0) as [Y|Y].
      - apply negb_false_iff. apply neqb_R_true. exact Y.
      - apply negb_true_iff. destruct (neqb (spec_norm (nth i (item_factors m) [])) nzero) eqn:EQ; auto. apply neqb_R_true in EQ. contradiction. }
    unfold nmslib_fit in HF. rewrite NB in HF. destruct arec.
    - destruct (augment_inner_product_matrix E (item_factors m)) as [[mx ex]|]; [|discriminate]. cbn [bind] in HF. injection HF as <-. auto.
    - injection HF as <-. auto. }
  destruct FIT as (AL & AS & AX). set (q := nth (Z.to_nat z) (item_factors m) []).
  assert (NDI : NoDup idl) by (apply NoDup_filter, seq_NoDup).
  set (count := N + length (filter_ids fi)).
  destruct (D2 idl row q count NDI) as (ids0 & EH & ND & IN & LE & SS).
  assert (CS : forall i, In i idl -> (1 - d q (row i) = cs i)%R).
  { intros i Hi. unfold idl in Hi. apply filter_In in Hi. destruct Hi as [_ Hi]. rewrite (D1 q (row i) (cs i)); [lra| |apply HC].
    unfold nonzero in Hi, HNZ. fold q in HNZ. fold (row i) in Hi. destruct (Req_EM_T (spec_norm q) 0); [discriminate|]. destruct (Req_EM_T (spec_norm (row i)) 0); [discriminate|].
    apply Rmult_integral_contrapositive; auto. }
  set (ids := firstn N (filter (unfiltered fi) ids0)).
  exists ids, (map cs ids). split.
  - unfold ann_similar_items. rewrite AL, AS. cbn [negb]. rewrite query_item_scalar by auto. cbn [bind]. rewrite query_item_rows. cbn [map bind]. rewrite AX, fi_len. fold q count.
    rewrite EH. f_equal. rewrite map_map. cbn [fst snd].
    assert (FH : (match fi with None => Ok [map (fun x => (Z.of_nat x, nsub none_ (d q (row x)))) ids0] | Some a => filter_items_from_results (Scalar z) [map (fun x => (Z.of_nat x, nsub none_ (d q (row x)))) ids0] (arr_list a) N end)
       = Ok [filter_hits (filter_ids fi) N (map (fun x => (Z.of_nat x, nsub none_ (d q (row x)))) ids0)] :> res (list (list (Z * R)))).
    { rewrite <- (opt_filter fi N count); [destruct fi; reflexivity| |].
      - intros ->. unfold count. simpl. lia.
      - rewrite map_length. auto. }
    rewrite FH. cbn [bind to_out nth]. rewrite filter_hits_map. fold (unfiltered fi). fold ids. rewrite !map_map. cbn [fst snd]. f_equal. f_equal.
    apply map_ext_in. intros i Hi. apply CS. apply IN. apply in_firstn, filter_In in Hi. tauto.
  - assert (BD : forall i, In i ids0 -> i < n). { intros i Hi. apply IN in Hi. unfold idl in Hi. apply filter_In in Hi. destruct Hi as [Hi _]. apply in_seq in Hi. lia. }
    assert (G : genuine cs (unfiltered fi) n N ids (map cs ids)).
    { apply genuine_take; auto. eapply ss_weaken; [|exact SS]. intros i j Hi Hj Hd. cbv beta in Hd. rewrite <- (CS i), <- (CS j) by auto. lra. }
    destruct G as (G1 & G2 & G3 & G4 & G5). split; auto. split; auto. split; auto. intros i Hi. destruct (G3 i Hi) as [G6 G7]. split; auto. rewrite G7. cbn [andb].
    apply in_firstn, filter_In in Hi. destruct Hi as [Hi _]. apply IN in Hi. unfold idl in Hi. apply filter_In in Hi. tauto.
Qed.

Theorem C155_faiss_similar : forall (B : builders R) (E : ann_env R) (I : inner R) m arec A z iu N fi cs,
  real_env E -> honest_inner (ae_fmin32 E) B -> faiss_fit E B false (item_factors m) true arec = Ok A ->
  (0 <= z < Z.of_nat (length (item_factors m)))%Z -> nonzero m (Z.to_nat z) = true -> cosines m z cs ->
  exists ids scores k, snd (ann_similar_items E I A m (Scalar z) N false iu fi None) =
      Ok (OneRow (map Z.of_nat ids ++ repeat (-1)%Z k) (scores ++ repeat (ae_fmin32 E) k)) /\
    genuine cs (unfiltered fi) (length (item_factors m)) N ids scores /\
    length ids + k <= N /\ (~ In (-1)%Z (filter_ids fi) -> length ids + k = N).
Proof.
  intros B E I m arec A z iu N fi cs (EN & _ & ET) HX HF HZ HNZ HC.
  unfold faiss_fit in HF. injection HF as <-.
  set (n := length (item_factors m)) in *. set (row := fun i => nth i (item_factors m) ([] : list R)). set (q := nth (Z.to_nat z) (item_factors m) []).
  set (nrm := fun r : list R => map (fun x => ndiv x (safe_norm (ae_norm E) (ae_tiny E) r)) r). set (q' := map (fun x => ndiv x (ae_norm E q)) q).
  assert (QN : rnorm q <> 0%R). { unfold nonzero in HNZ. fold q in HNZ. rewrite spec_norm_rnorm in HNZ. destruct (Req_EM_T (rnorm q) 0); [discriminate|auto]. }
  assert (SAFE : forall r, safe_norm (ae_norm E) (ae_tiny E) r = safe_norm rnorm (ae_tiny E) r). { intros r. unfold safe_norm. rewrite EN, spec_norm_rnorm. auto. }
  assert (DM : forall u v a b, rdot (map (fun x => x / a)%R u) (map (fun x => x / b)%R v) = (rdot u v / a / b)%R).
  { induction u as [|x u IH]; intros v a b; [simpl; unfold Rdiv; ring|]. destruct v; [simpl; unfold Rdiv; ring|]. simpl. rewrite IH. unfold Rdiv. ring. }
  assert (CS : forall i, i < n -> spec_dot q' (nth i (map nrm (item_factors m)) []) = cs i).
  { intros i Hi. change (@nil R) with (nrm []). rewrite map_nth. fold (row i). rewrite spec_dot_rdot. unfold q', nrm. rewrite SAFE, EN, spec_norm_rnorm.
    change (fun x : R => ndiv x (rnorm q)) with (fun x => x / rnorm q)%R. change (fun x : R => ndiv x (safe_norm rnorm (ae_tiny E) (row i))) with (fun x => x / safe_norm rnorm (ae_tiny E) (row i))%R.
    rewrite DM. rewrite (is_cosine_unique _ _ _ _ (HC i) (cosine_is_cosine _ _)). fold q (row i). pose proof (cosine_cases q (row i)) as K. pose proof (safe_norm_pos (ae_tiny E) (row i) ET) as SP.
    destruct (Req_dec (rnorm (row i)) 0) as [Y|Y].
    - rewrite <- K, Y. unfold cosine. destruct (Req_EM_T (rnorm q) 0); [contradiction|]. destruct (Req_EM_T (rnorm (row i)) 0); [|contradiction]. unfold Rdiv. ring.
    - rewrite safe_norm_eq by auto. rewrite <- K. field. auto. }
  set (count := N + length (filter_ids fi)).
  destruct (HX (map nrm (item_factors m)) q' count) as (ids0 & EH & ND & IN & LE & SS). rewrite map_length in IN. fold n in IN. pose proof (seq_bound _ _ IN) as BD.
  assert (CN : N + length (filter_ids fi) <= count) by (unfold count; lia).
  destruct (pad_filter (filter_ids fi) N count (fun i => spec_dot q' (nth i (map nrm (item_factors m)) [])) (ae_fmin32 E) ids0 ND LE CN) as (k & EK & LK & LK2).
  fold (unfiltered fi) in EK, LK, LK2. set (ids := firstn N (filter (unfiltered fi) ids0)) in *.
  exists ids, (map cs ids), k. split; [|split; [|split; auto]].
  2:{ apply genuine_take; auto. eapply ss_weaken; [|exact SS]. intros i j Hi Hj Hd. cbv beta in Hd. rewrite <- (CS i), <- (CS j) by auto. auto. }
  unfold ann_similar_items. cbn [a_lib a_approx_sim negb a_use_gpu orb andb a_sim]. rewrite query_item_scalar by auto. fold q.
  assert (UPD : exists m' v', nd_update (fun r => map (fun x => ndiv x (ae_norm E r)) r) m (if i_gpu I then Fresh [q] else ItemRow (Z.to_nat z)) = (m', v') /\ nd_rows m' v' = [q']).
  { destruct (i_gpu I).
    - eexists _, _. split; [reflexivity|]. reflexivity.
    - eexists _, _. split; [reflexivity|]. cbn [nd_rows item_factors]. rewrite nth_upd_eq by (unfold n in HZ; lia). reflexivity. }
  destruct UPD as (m' & v' & -> & ->). cbn [map snd]. rewrite fi_len. fold count. change (fun r : list R => map (fun x : R => ndiv x (safe_norm (ae_norm E) (ae_tiny E) r)) r) with nrm.
  assert (LH : length (b_inner B (map nrm (item_factors m)) q' count) = count). { rewrite EH, app_length, map_length, repeat_length. lia. }
  match goal with |- bind ?x ?k = _ => assert (EQ : x = Ok [filter_hits (filter_ids fi) N (b_inner B (map nrm (item_factors m)) q' count)]) end.
  { rewrite <- (opt_filter_padded fi N count); auto. intros ->. unfold count. simpl. lia. }
  rewrite EQ. cbn [bind to_out nth]. rewrite EH, EK.
  rewrite !map_app, !map_map, !map_pads. cbn [fst snd]. f_equal. f_equal. f_equal. apply map_ext_in. intros i Hi. apply CS. apply in_firstn, filter_In in Hi. apply BD. tauto.
Qed.
(** An honest index that is not exact: it never finds the rows with odd numbers. *)
Definition half_blind (fmin : R) : builders R := {|
  b_angular := fun rows q c => sort_hits (fun i => sqrt (2 * (1 - cosine q (nth i rows []))))%R (filter Nat.even (seq 0 (length rows))) c;
  b_cosine := fun es q c => b_cosine (exact_builders fmin) (filter (fun e => Z.even (fst e)) es) q c;
  b_inner := fun rows q c =>
    let hits := map (fun h => (fst h, (- snd h)%R)) (sort_hits (fun i => (- spec_dot q (nth i rows []))%R) (filter Nat.even (seq 0 (length rows))) c) in
    hits ++ repeat ((-1)%Z, fmin) (c - length hits) |}.
Lemma sort_honest (s : nat -> R) idl sub c : NoDup sub -> incl sub idl -> honest s idl c (sort_hits s sub c).
Proof.
  intros ND HI. destruct (best_sort s sub c ND) as [L N I S _]. exists (firstn c (sort_by (fun i j => Rltb (s j) (s i)) sub)).
  split; [reflexivity|]. split; auto. split; [intros x Hx; auto|]. split; auto. rewrite L. lia.
Qed.
Lemma even_of_nat k : Z.even (Z.of_nat k) = Nat.even k.
Proof. induction k as [|k IH]; [reflexivity|]. rewrite Nat2Z.inj_succ, Z.even_succ, Nat.even_succ, <- Z.negb_even, <- Nat.negb_even, IH. reflexivity. Qed.
Example C155_example fmin : honest_angular (half_blind fmin) /\ honest_cosine (half_blind fmin) /\ honest_inner fmin (half_blind fmin) /\ ~ inner_index fmin (half_blind fmin).
Proof.
  assert (NDE : forall n, NoDup (filter Nat.even (seq 0 n))) by (intros; apply NoDup_filter, seq_NoDup).
  assert (INE : forall n, incl (filter Nat.even (seq 0 n)) (seq 0 n)) by (intros n x Hx; apply filter_In in Hx; tauto).
  split; [|split; [|split]].
  - exists (fun u v => sqrt (2 * (1 - cosine u v))%R). split.
    + intros u v c HC. rewrite (is_cosine_unique u v c (cosine u v)); auto. apply cosine_is_cosine.
    + intros rows q c. cbn [b_angular half_blind]. apply (sort_honest (fun i => sqrt (2 * (1 - cosine q (nth i rows [])))%R)); auto.
  - destruct (exact_builders_ok fmin) as (_ & (d & B1 & B2) & _). exists d. split; auto. intros idl row q c ND. cbn [b_cosine half_blind].
    rewrite filter_map_swap. rewrite (filter_ext _ Nat.even) by (intros k; apply even_of_nat).
    destruct (B2 (filter Nat.even idl) row q c) as (ids & E & [L N I S _]); [apply NoDup_filter; auto|]. exists ids. repeat split; auto; [|lia].
    intros x Hx. apply I, filter_In in Hx. tauto.
  - intros rows q c. cbn [b_inner half_blind]. set (s := fun i => (- spec_dot q (nth i rows []))%R).
    destruct (best_sort s (filter Nat.even (seq 0 (length rows))) c (NDE _)) as [L N I S _]. unfold sort_hits.
    exists (firstn c (sort_by (fun i j => Rltb (s j) (s i)) (filter Nat.even (seq 0 (length rows))))). rewrite !map_length, map_map. cbn [fst snd]. split.
    + f_equal. apply map_ext. intros i. unfold s. f_equal. lra.
    + split; auto. split; [intros x Hx; apply (INE (length rows)), I; auto|]. split; [rewrite L; lia|].
      eapply ss_weaken; [|exact S]. unfold s. intros. cbv beta in *. lra.
  - intros C. destruct (C [[1%R]; [2%R]] [1%R] 2) as (ids & E & [L ND I S _]). cbn in E, L.
    destruct ids as [|a [|b [|x ids]]]; try discriminate.
    injection E as E1 E2 E3 E4. subst. assert (Hb : In b [0; 1]) by (apply I; right; left; auto). destruct Hb as [<-|[<-|[]]]; discriminate.
Qed.

Print Assumptions C155_angular_recommend.
Print Assumptions C155_faiss_recommend.
Print Assumptions C155_annoy_similar.
Print Assumptions C155_nmslib_similar.
Print Assumptions C155_faiss_similar.
