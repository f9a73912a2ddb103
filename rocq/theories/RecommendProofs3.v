(** Consequences used by the property files: full description of filtered
    results, explicit item lists with repeats, errors, recommend_all. *)
From Coq Require Import List Arith Lia Bool ZArith Permutation Sorted.
From Verif Require Import Base Num Heap Sparse TopkModel TopkSpec TopkProofs TopkBatch
  RecommendModel RecommendProofs RecommendProofs2 RecommendBatch.
Import ListNotations.

Lemma ss_app_l {A} (R : A -> A -> Prop) l1 l2 : StronglySorted R (l1 ++ l2) -> StronglySorted R l1.
Proof.
  induction l1; simpl; intros S; constructor; inversion S; subst; auto.
  apply Forall_app in H2. tauto.
Qed.

Lemma ss_map_in {A} (R R' : A -> A -> Prop) l :
  (forall x y, In x l -> In y l -> R x y -> R' x y) -> StronglySorted R l -> StronglySorted R' l.
Proof.
  intros I S. induction S as [|a l S IH F]; constructor.
  - apply IH. intros x y Hx Hy. apply I; right; auto.
  - rewrite Forall_forall in *. intros x Hx. apply I; [left; auto|right; auto|auto].
Qed.

Lemma nodup_map_in {A B} (f : A -> B) l :
  (forall x y, In x l -> In y l -> f x = f y -> x = y) -> NoDup l -> NoDup (map f l).
Proof.
  induction l; simpl; intros I N; constructor; inversion N; subst.
  - intros X. apply in_map_iff in X. destruct X as [b [E Hb]].
    assert (b = a) by (apply I; auto). subst. auto.
  - apply IHl; auto.
Qed.

Section P.
Context {T : Type} `{NumOrd T}.
Variables (HP : std_heap) (HC : std_heap_ok HP) (fmin : T).

(** A filtered top-N list: first the best unfiltered candidates, then filtered
    ones (each with score [fmin]) only if the unfiltered ones are exhausted. *)
Lemma fscore_full (filt : nat -> bool) (score : nat -> T) cands n ids sc :
  TopN (fscore fmin filt score) cands n ids sc -> NoDup cands ->
  (forall j, In j cands -> filt j = false -> nltb fmin (score j) = true) ->
  exists good bad gs,
    ids = good ++ bad /\ sc = gs ++ repeat fmin (length bad) /\
    TopN score (filter (fun i => negb (filt i)) cands)
      (Nat.min n (length (filter (fun i => negb (filt i)) cands))) good gs /\
    (forall i, In i bad -> filt i = true /\ In i cands).
Proof.
  intros TN NC GT. destruct (fscore_split fmin filt score cands n ids sc TN NC GT) as [E [ALL _]].
  set (good := filter (fun i => negb (filt i)) ids) in *. set (bad := filter filt ids) in *.
  destruct TN as [L S N I D B].
  assert (GB : forall i, In i good -> filt i = false /\ In i ids).
  { intros i Hi. apply filter_In in Hi. destruct Hi as [Hi F]. apply negb_true_iff in F. auto. }
  assert (BB : forall i, In i bad -> filt i = true /\ In i ids).
  { intros i Hi. apply filter_In in Hi. tauto. }
  exists good, bad, (map score good). split; auto. split; [|split].
  - rewrite S, E, map_app. f_equal.
    + apply map_ext_in. intros i Hi. unfold fscore. destruct (GB i Hi) as [-> _]. auto.
    + clear -BB. induction bad as [|b bs IH]; simpl; auto. unfold fscore at 1.
      destruct (BB b (or_introl eq_refl)) as [-> _]. f_equal. apply IH. intros i Hi. apply BB. right; auto.
  - assert (NG : NoDup good) by (apply NoDup_filter; auto).
    assert (IG : incl good (filter (fun i => negb (filt i)) cands)).
    { intros i Hi. apply filter_In. destruct (GB i Hi) as [-> Hi']. split; auto. }
    assert (LG : length good <= length (filter (fun i => negb (filt i)) cands)).
    { apply NoDup_incl_length; auto. }
    assert (LL : n = length good + length bad). { rewrite <- L, E, app_length. auto. }
    constructor; auto.
    + destruct bad as [|b bs] eqn:EB.
      * simpl in LL. lia.
      * assert (length (filter (fun i => negb (filt i)) cands) <= length good).
        { apply NoDup_incl_length. { apply NoDup_filter; auto. }
          intros j Hj. apply filter_In in Hj. destruct Hj as [Hj F]. apply negb_true_iff in F.
          apply ALL; auto. discriminate. }
        simpl in LL. lia.
    + rewrite E in D. apply ss_app_l in D. eapply ss_map_in; [|exact D].
      intros x y Hx Hy. cbv beta. unfold fscore. destruct (GB x Hx) as [-> _]. destruct (GB y Hy) as [-> _]. auto.
    + intros i j Hi Hj Hn. apply filter_In in Hj. destruct Hj as [Hj F]. apply negb_true_iff in F.
      destruct (GB i Hi) as [Fi Hi'].
      assert (NJ : ~ In j ids). { intro X. apply Hn. apply filter_In. rewrite F. auto. }
      specialize (B i j Hi' Hj NJ). unfold fscore in B. rewrite Fi, F in B. auto.
  - intros i Hi. destruct (BB i Hi). auto.
Qed.

(** Which items the two filters of [recommend] exclude. *)
Definition excluded (n : nat) (fl : bool) (ui : sparse_arg T) (fi : option arr) (i : nat) : Prop :=
  (fl = true /\ exists M v, ui = Csr M /\ In (i, v) (csr_row M 0)) \/
  (exists a z, fi = Some a /\ In z (arr_list a) /\ (z = Z.of_nat i \/ z = Z.of_nat i - Z.of_nat n)%Z).

Lemma filtered_excluded n fl ui fi i : i < n -> fi_ok n fi ->
  filtered (liked_csr fl ui) (option_map arr_list fi) n 0 i = true <-> excluded n fl ui fi i.
Proof.
  intros Hi Hf. unfold filtered, liked_csr, excluded. rewrite orb_true_iff.
  assert (A : (match (if fl then match ui with NotCsr => None | Csr M => Some M end else None) with
     | Some m => memn i (csr_row_indices m 0) | None => false end = true) <->
     (fl = true /\ exists M v, ui = Csr M /\ In (i, v) (csr_row M 0))).
  { destruct fl; [|split; [discriminate|intros [X _]; discriminate]].
    destruct ui as [|M]; [split; [discriminate|intros [_ [M [v [X _]]]]; discriminate]|].
    rewrite memn_spec. unfold csr_row_indices. rewrite in_map_iff. split.
    - intros [[c v] [E X]]. simpl in E. subst. split; auto. exists M, v. auto.
    - intros [_ [M' [v [E X]]]]. inversion E; subst. exists (i, v). auto. }
  assert (B : (match option_map arr_list fi with Some l => memn i (map (wrap n) l) | None => false end = true) <->
     (exists a z, fi = Some a /\ In z (arr_list a) /\ (z = Z.of_nat i \/ z = Z.of_nat i - Z.of_nat n)%Z)).
  { destruct fi as [a|]; simpl; [|split; [discriminate|intros [a [z [X _]]]; discriminate]].
    rewrite memn_spec, in_map_iff. split.
    - intros [z [E X]]. exists a, z. split; auto. split; auto.
      specialize (Hf a z eq_refl X). unfold idx_ok in Hf. unfold wrap in E.
      destruct (Z.ltb_spec z 0); lia.
    - intros [a' [z [E [X Y]]]]. inversion E; subst a'. exists z. split; auto. unfold wrap.
      destruct (Z.ltb_spec z 0); lia. }
  tauto.
Qed.

Lemma filter_len_le {A} (f : A -> bool) l : length (filter f l) <= length l.
Proof. induction l; simpl; auto. destruct (f a); simpl; lia. Qed.

(** [recommend] for one user with any filters. *)
Lemma recommend_filtered m f recalc u ui N fl fi (excl : nat -> bool) :
  mf_wf m f -> idx_ok (length (user_factors m)) u -> (0 < N)%Z -> item_factors m <> [] ->
  liked_ok (length (item_factors m)) 1 fl ui -> fi_ok (length (item_factors m)) fi ->
  (forall i, i < length (item_factors m) -> excl i = true <-> excluded (length (item_factors m)) fl ui fi i) ->
  let n := length (item_factors m) in
  let score := fun i => ndot (nth (wrap (length (user_factors m)) u) (user_factors m) [])
                             (nth i (item_factors m) []) in
  let allowed := filter (fun i => negb (excl i)) (seq 0 n) in
  (forall i, In i allowed -> nltb fmin (score i) = true) ->
  exists good bad gs,
    recommend HP fmin m recalc (Scalar u) ui N fl fi false None =
      Ok (OneRow (map Z.of_nat (pad (Z.to_nat N) 0 (good ++ bad)))
                 (pad (Z.to_nat N) nzero (gs ++ repeat fmin (length bad)))) /\
    TopN score allowed (Nat.min (Z.to_nat N) (length allowed)) good gs /\
    length (good ++ bad) = Nat.min (Z.to_nat N) n /\ NoDup (good ++ bad) /\
    (forall i, In i bad -> i < n /\ excluded n fl ui fi i).
Proof.
  intros W Hu HN HI Hl Hf HE n score allowed GT.
  destruct (recommend_scalar HP HC fmin m f recalc u ui N fl fi W Hu HN HI Hl Hf) as [ids [sc [E TN]]].
  fold n in TN. fold score in TN.
  set (filt := filtered (liked_csr fl ui) (option_map arr_list fi) n 0) in *.
  assert (FE : forall i, i < n -> filt i = excl i).
  { intros i Hi. apply eq_true_iff_eq. rewrite HE by auto. apply filtered_excluded; auto. }
  assert (AE : filter (fun i => negb (filt i)) (seq 0 n) = allowed).
  { apply filter_ext_in. intros i Hi. apply in_seq in Hi. rewrite FE by lia. auto. }
  destruct (fscore_full filt score (seq 0 n) _ ids sc TN) as [good [bad [gs [E1 [E2 [TG B]]]]]].
  { apply seq_NoDup. }
  { intros j Hj F. apply GT. unfold allowed. apply filter_In. split; auto. apply in_seq in Hj.
    rewrite <- FE by lia. rewrite F. auto. }
  exists good, bad, gs. rewrite <- E1, <- E2. split; [exact E|]. rewrite AE in TG.
  assert (LA : length allowed <= n).
  { unfold allowed. etransitivity; [apply filter_len_le|]. rewrite seq_length; auto. }
  replace (Nat.min (Nat.min (Z.to_nat N) n) (length allowed)) with (Nat.min (Z.to_nat N) (length allowed)) in TG by lia.
  split; [exact TG|]. split; [apply (topn_length _ _ _ _ _ TN)|]. split; [apply (topn_nodup _ _ _ _ _ TN)|].
  intros i Hi. destruct (B i Hi) as [F X]. apply in_seq in X. split; [lia|].
  apply filtered_excluded; auto; lia.
Qed.

(** Explicit items without the liked filter, repeats allowed: a ranking of the
    positions of the sorted list. *)
Lemma recommend_items_positions m f recalc u ui N its :
  mf_wf m f -> idx_ok (length (user_factors m)) u -> (0 < N)%Z ->
  arr_list its <> [] ->
  (forall z, In z (arr_list its) -> in_model (length (item_factors m)) z) ->
  exists l pos scores,
    Permutation l (arr_list its) /\
    recommend HP fmin m recalc (Scalar u) ui N false None false (Some its) =
      Ok (OneRow (map (fun p => nth p l 0%Z) pos) scores) /\
    TopN (fun p => ndot (nth (wrap (length (user_factors m)) u) (user_factors m) [])
                        (nth (Z.to_nat (nth p l 0%Z)) (item_factors m) []))
         (seq 0 (length l)) (Nat.min (Z.to_nat N) (length l)) pos scores.
Proof.
  intros [Wu Wi] Hu HN NE B. unfold recommend. cbn [orb bind].
  unfold user_factor. simpl id_list.
  rewrite gather_ok by (intros z [<-|[]]; auto). cbn [bind map].
  set (q := nth (wrap (length (user_factors m)) u) (user_factors m) []).
  assert (Lq : length q = f). { apply Wu. apply nth_In. apply wrap_lt; auto. }
  rewrite restrict_items_ok by auto. cbn [bind fst snd].
  set (l := sort_z (arr_list its)).
  assert (P : Permutation l (arr_list its)) by apply sort_z_perm.
  assert (Ll : length l = length (arr_list its)) by (apply Permutation_length; auto).
  assert (NEl : l <> []). { intro X. rewrite X in P. apply Permutation_nil in P. auto. }
  assert (Bl : forall z, In z l -> in_model (length (item_factors m)) z).
  { intros z Hz. apply B. eapply Permutation_in; eauto. }
  set (facs := map (fun z => nth (Z.to_nat z) (item_factors m) []) l).
  assert (Lf : length facs = length l) by (unfold facs; apply map_length).
  assert (Hn : 0 < length l) by (destruct l; simpl in *; [congruence|lia]).
  set (k := Z.min N (Z.of_nat (length (arr_list its)))).
  assert (Hk : (0 < k)%Z) by (unfold k; lia).
  assert (Ek : Z.to_nat k = Nat.min (Z.to_nat N) (length l)) by (unfold k; lia).
  destruct (topk_row_topn HP HC fmin facs None None None (Z.to_nat k) 0 q) as [r [E TN]]; auto; try lia.
  { intros y Hy. rewrite Lq. unfold facs in Hy. apply in_map_iff in Hy. destruct Hy as [z [<- Hz]].
    apply Wi. apply nth_In. apply Bl in Hz. unfold in_model in Hz. lia. }
  assert (FB : facs <> []). { destruct facs; simpl in *; [lia|discriminate]. }
  assert (ET : topk HP fmin facs [q] k None None None
         = Ok (map (fun r => pad (Z.to_nat k) 0 (map snd r)) [r], map (fun r => pad (Z.to_nat k) nzero (map fst r)) [r])).
  { apply topk_ok; auto. exists [r]. split; auto. constructor; auto. }
  cbn [option_map]. rewrite ET. cbn [bind finish fst snd map nth remap].
  assert (LK : length r = Z.to_nat k).
  { pose proof (topn_length _ _ _ _ _ TN) as X. rewrite map_length in X. rewrite X, Lf. lia. }
  assert (PADi : forall V (d : V) (x : list V), length x = Z.to_nat k -> pad (Z.to_nat k) d x = x).
  { intros V d x Lx. unfold pad. rewrite Lx, Nat.sub_diag. simpl. apply app_nil_r. }
  rewrite !PADi by (rewrite map_length; auto).
  exists l, (map snd r), (map fst r). split; auto. split; auto.
  rewrite <- Ek. replace (Z.to_nat k) with (Nat.min (Z.to_nat k) (length facs)) by (rewrite Lf; lia).
  rewrite <- Lf. eapply TopN_ext; [|exact TN].
  intros p Hp. apply in_seq in Hp. rewrite Lf in Hp.
  unfold fscore, filtered. cbn [orb]. unfold base_score, facs. f_equal.
  rewrite (nth_indep _ [] ((fun z => nth (Z.to_nat z) (item_factors m) []) 0%Z)) by (rewrite map_length; lia).
  rewrite (map_nth (fun z => nth (Z.to_nat z) (item_factors m) [])). auto.
Qed.

(* ---------- errors ---------- *)
Lemma recommend_items_bad m recalc u ui N fl its fi :
  (forall z, In z (id_list u) -> idx_ok (length (user_factors m)) z) ->
  (fl = true -> exists M, ui = Csr M /\ c_rows M = length (id_list u)) ->
  truthy fi = Ok false ->
  (exists z, In z (arr_list its) /\ ~ in_model (length (item_factors m)) z) ->
  recommend HP fmin m recalc u ui N fl fi false (Some its) = Raise IndexError.
Proof.
  intros Hu Hl Tf B. unfold recommend.
  assert (G : (if fl || false then match ui with
             | NotCsr => Raise ValueError
             | Csr M => if c_rows M =? length (id_list u) then Ok tt else Raise ValueError
             end else Ok tt) = Ok tt).
  { rewrite orb_false_r. destruct fl; auto. destruct (Hl eq_refl) as [M [-> E]]. rewrite E, Nat.eqb_refl. auto. }
  rewrite G. cbn [bind]. unfold user_factor. rewrite gather_ok by auto. cbn [bind].
  rewrite restrict_items_bad by auto. auto.
Qed.

(** Whatever the other arguments, no result is returned. *)
Lemma recommend_items_bad_any m recalc u ui N fl its fi rc r :
  (exists z, In z (arr_list its) /\ ~ in_model (length (item_factors m)) z) ->
  recommend HP fmin m recalc u ui N fl fi rc (Some its) <> Ok r.
Proof.
  intros B E. unfold recommend in E. apply bind_ok in E. destruct E as [_ [_ E]].
  apply bind_ok in E. destruct E as [us [_ E]]. apply bind_ok in E. destruct E as [s [E _]].
  apply bind_ok in E. destruct E as [p [E _]].
  destruct (truthy fi) as [[|]|] eqn:Tf.
  - unfold restrict_items in E. rewrite Tf in E. discriminate.
  - rewrite restrict_items_bad in E by auto. discriminate.
  - unfold restrict_items in E. rewrite Tf in E. discriminate.
Qed.

Lemma recommend_notcsr m recalc u N fl fi rc items : fl || rc = true ->
  recommend HP fmin m recalc u NotCsr N fl fi rc items = Raise ValueError.
Proof. intros E. unfold recommend. rewrite E. auto. Qed.

Lemma recommend_rows m recalc u M N fl fi rc items : fl || rc = true ->
  c_rows M <> length (id_list u) ->
  recommend HP fmin m recalc u (Csr M) N fl fi rc items = Raise ValueError.
Proof.
  intros E NR. unfold recommend. rewrite E. destruct (Nat.eqb_spec (c_rows M) (length (id_list u))); [contradiction|]. auto.
Qed.

Lemma recommend_bad_user m recalc u ui N fl fi items :
  (fl = true -> exists M, ui = Csr M /\ c_rows M = length (id_list u)) ->
  (exists z, In z (id_list u) /\ ~ idx_ok (length (user_factors m)) z) ->
  recommend HP fmin m recalc u ui N fl fi false items = Raise IndexError.
Proof.
  intros Hl B. unfold recommend.
  assert (G : (if fl || false then match ui with
             | NotCsr => Raise ValueError
             | Csr M => if c_rows M =? length (id_list u) then Ok tt else Raise ValueError
             end else Ok tt) = Ok tt).
  { rewrite orb_false_r. destruct fl; auto. destruct (Hl eq_refl) as [M [-> E]]. rewrite E, Nat.eqb_refl. auto. }
  rewrite G. cbn [bind]. unfold user_factor. rewrite gather_bad by auto. auto.
Qed.

(** A valid call (scalar or batch) returns. *)
Lemma recommend_total m f recalc u ui N fl fi :
  mf_wf m f -> (forall z, In z (id_list u) -> idx_ok (length (user_factors m)) z) ->
  (0 < N)%Z -> item_factors m <> [] ->
  liked_ok (length (item_factors m)) (length (id_list u)) fl ui -> fi_ok (length (item_factors m)) fi ->
  exists r, recommend HP fmin m recalc u ui N fl fi false None = Ok r.
Proof.
  intros [Wu Wi] Hu HN HI Hl Hf. unfold recommend. rewrite (gate_ok fl false ui u _ _ Hl eq_refl).
  unfold user_factor. rewrite gather_ok by auto. cbn [bind].
  change (if fl then match ui with NotCsr => None | Csr M => Some M end else None) with (liked_csr fl ui).
  set (X := map _ (id_list u)).
  assert (R : forall g, g < length X -> exists r, topk_row' HP fmin (item_factors m) None (liked_csr fl ui)
     (option_map arr_list fi) (Z.to_nat N) g (nth g X []) = Ok r).
  { intros g Hg. destruct (topk_row_topn HP HC fmin (item_factors m) None (liked_csr fl ui) (option_map arr_list fi)
             (Z.to_nat N) g (nth g X [])) as [r [E _]]; auto; try lia.
    - intros y Hy. rewrite (Wi y Hy). symmetry. apply Wu.
      assert (I : In (nth g X []) X) by (apply nth_In; auto). unfold X in I at 2.
      apply in_map_iff in I. destruct I as [z [<- Hz]]. apply nth_In, wrap_lt; auto.
    - unfold liked_csr. destruct fl; auto. destruct (Hl eq_refl) as [M [-> [E B]]]. rewrite E.
      unfold X in Hg. rewrite map_length in Hg. split; auto. intros i. apply B; auto.
    - destruct fi as [a|]; simpl; auto. intros z Hz. eapply Hf; eauto.
    - eauto. }
  apply (choose_list _ _ []) in R. destruct R as [rs [L R]].
  assert (E : topk HP fmin (item_factors m) X N None (liked_csr fl ui) (option_map arr_list fi) =
     Ok (map (fun r => pad (Z.to_nat N) 0 (map snd r)) rs, map (fun r => pad (Z.to_nat N) nzero (map fst r)) rs)).
  { apply topk_ok; auto. exists rs. split; auto.
    apply (Forall2_enum_nth (fun g q r => topk_row' HP fmin (item_factors m) None (liked_csr fl ui)
       (option_map arr_list fi) (Z.to_nat N) g q = Ok r) X rs [] []). split; auto. }
  rewrite E. eexists. reflexivity.
Qed.

(* ---------- recommend_all ---------- *)
Lemma recommend_all_offset_raises m recalc M N rc fl fi offset :
  0 < offset -> fl || rc = true ->
  recommend_all HP fmin m recalc M N rc fl fi offset = Raise ValueError.
Proof.
  intros Ho E. unfold recommend_all. destruct (Nat.eqb_spec offset 0); [lia|].
  rewrite recommend_rows; auto. cbn [id_list]. rewrite map_length, seq_length.
  unfold csr_of_rows. cbn [c_rows]. rewrite app_length, repeat_length. unfold csr_to_rows.
  rewrite map_length, seq_length. lia.
Qed.

Lemma recommend_all_ids m recalc M N rc fl fi offset :
  offset = 0 \/ fl || rc = false ->
  recommend_all HP fmin m recalc M N rc fl fi offset =
  do r <- recommend HP fmin m recalc
            (Batch (map (fun i => Z.of_nat (i + offset)) (seq 0 (c_rows M)))) (Csr M) N fl fi rc None;
  match r with ManyRows ids _ => Ok ids | OneRow ids _ => Ok [ids] end.
Proof.
  intros [->|E]; unfold recommend_all; auto.
  destruct (Nat.eqb_spec offset 0); auto.
  apply orb_false_iff in E. destruct E as [-> ->]. reflexivity.
Qed.
End P.
