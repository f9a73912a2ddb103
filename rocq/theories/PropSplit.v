(** C32-C34: train/test splits. *)
From Coq Require Import List Arith Lia Bool ZArith QArith.Qround QArith Reals Lra Permutation Sorted.
From Verif Require Import Base Num Sparse TopkModel TopkBatch RecommendModel RVec KnnProofs WeightModel SplitModel SplitProofs.
Import ListNotations.
Local Close Scope Q_scope.
Local Close Scope R_scope.
Local Open Scope nat_scope.

(* ------------------------------------------------------------------ *)
(** C32. *)
Lemma stored_map_rows {T} (g : list (nat * T) -> list (nat * T)) cols (m : csr T) :
  stored (csr_of_rows cols (map g (csr_to_rows m))) =
  flat_map (fun u => map (fun p => (u, fst p, snd p)) (g (csr_row m u))) (seq 0 (c_rows m)).
Proof.
  unfold stored. cbn [c_rows csr_of_rows]. rewrite map_length. unfold csr_to_rows. rewrite map_length, seq_length.
  rewrite !flat_map_concat_map. f_equal. apply map_ext_in. intros u Hu. apply in_seq in Hu. f_equal.
  rewrite csr_row_of_rows, map_map, nth_map_seq by lia. auto.
Qed.

Lemma stored_drop {T} `{NumOrd T} (m : csr T) :
  stored (drop_nonpos m) = filter (fun e => nltb nzero (eval_ e)) (stored m).
Proof.
  unfold drop_nonpos. rewrite stored_map_rows. unfold stored.
  induction (seq 0 (c_rows m)) as [|u us IH]; auto. cbn [flat_map]. rewrite IH, filter_app. f_equal.
  induction (csr_row m u) as [|p r IHr]; auto. cbn [map filter].
  destruct (nltb (snd p) nzero) eqn:N; cbn [fst snd].
  - unfold neqb at 1. rewrite nltb_irrefl. cbn [negb andb]. unfold eval_ at 1. cbn [snd].
    destruct (nltb nzero (snd p)) eqn:P; [|auto]. exfalso. pose proof (nltb_trans _ _ _ N P) as X. rewrite nltb_irrefl in X. discriminate.
  - unfold neqb at 1. rewrite N. cbn [negb andb]. unfold eval_ at 1. cbn [snd]. rewrite negb_involutive.
    destruct (nltb nzero (snd p)); cbn [map fst snd]; rewrite IHr; auto.
Qed.

Lemma nodup_filter_map {A B} (f : A -> B) p l : NoDup (map f l) -> NoDup (map f (filter p l)).
Proof.
  induction l as [|a l IH]; simpl; intros ND; auto. inversion ND as [|? ? N1 N2]; subst.
  destruct (p a); simpl; auto. constructor; auto. intros X. apply N1. apply in_map_iff in X. destruct X as [b [<- Hb]].
  apply filter_In in Hb. apply in_map, Hb.
Qed.

Section Tagged.
Context {T U : Type} (es : list (nat * nat * T)) (rs : list U) (L : length rs = length es).
Lemma tagged_fst : map fst (combine es rs) = es.
Proof. revert rs L. induction es; destruct rs; simpl; intros; try discriminate; auto. f_equal. auto. Qed.
Lemma tagged_nodup p : NoDup (map coord es) -> NoDup (map coord (map fst (filter p (combine es rs)))).
Proof. intros ND. rewrite map_map. apply nodup_filter_map. rewrite <- map_map, tagged_fst. auto. Qed.
Lemma tagged_in p e : In e (map fst (filter p (combine es rs))) -> In e es.
Proof. intros X. apply in_map_iff in X. destruct X as [q [<- Hq]]. apply filter_In in Hq. rewrite <- tagged_fst. apply in_map, Hq. Qed.
Lemma tagged_split p : Permutation (map fst (filter p (combine es rs)) ++ map fst (filter (fun q => negb (p q)) (combine es rs))) es.
Proof.
  rewrite <- tagged_fst at 3. rewrite <- map_app. apply Permutation_map. generalize (combine es rs). clear.
  intros l. induction l as [|a l IH]; auto. simpl. destruct (p a); simpl; auto.
  rewrite <- Permutation_middle. auto.
Qed.
End Tagged.

(** Where each rating goes, for a matrix without repeated coordinates. *)
Theorem C32_destinations :
  forall (T U : Type) (HT : Num T) (HO : NumOrd T) (HU : Num U) (ratings : coo T) (randoms : list U) (pct : U) train test,
  coo_wf ratings -> NoDup (map coord (o_entries ratings)) -> length randoms = length (o_entries ratings) ->
  train_test_split randoms pct ratings = (train, test) ->
  let tagged := combine (o_entries ratings) randoms in
  Permutation (stored train) (map fst (filter (fun p => nltb (snd p) pct) tagged)) /\
  Permutation (stored test) (filter (fun e => nltb nzero (eval_ e)) (map fst (filter (fun p => negb (nltb (snd p) pct)) tagged))) /\
  c_rows train = o_rows ratings /\ c_cols train = o_cols ratings /\ c_rows test = o_rows ratings /\ c_cols test = o_cols ratings.
Proof.
  intros T U HT HO HU ratings randoms pct train test W ND L E tagged. unfold train_test_split in E. inversion E; subst train test. clear E.
  split; [|split].
  - apply (stored_perm (with_entries ratings _)).
    + intros e He. simpl in He. apply W. eapply tagged_in; eauto.
    + simpl. apply tagged_nodup; auto.
  - rewrite stored_drop. apply Permutation_filter. apply (stored_perm (with_entries ratings _)).
    + intros e He. simpl in He. apply W. eapply tagged_in; eauto.
    + simpl. apply tagged_nodup; auto.
  - repeat split; simpl; rewrite ?map_length, ?seq_length; auto. unfold csr_to_rows. rewrite map_length, seq_length. simpl.
    rewrite map_length, seq_length. auto.
Qed.
Print Assumptions C32_destinations.

(** Strongest true part: all ratings positive.  Missing: ratings that are not positive
    disappear from the test matrix, see the refutation. *)
Theorem C32_partition_partial :
  forall (T U : Type) (HT : Num T) (HO : NumOrd T) (HU : Num U) (ratings : coo T) (randoms : list U) (pct : U) train test,
  coo_wf ratings -> NoDup (map coord (o_entries ratings)) -> length randoms = length (o_entries ratings) ->
  (forall e, In e (o_entries ratings) -> nltb nzero (eval_ e) = true) ->
  train_test_split randoms pct ratings = (train, test) ->
  Permutation (stored train ++ stored test) (o_entries ratings) /\
  forall e, In e (stored train) -> ~ In (coord e) (map coord (stored test)).
Proof.
  intros T U HT HO HU ratings randoms pct train test W ND L POS E.
  destruct (C32_destinations T U HT HO HU ratings randoms pct train test W ND L E) as [P1 [P2 _]].
  assert (P : Permutation (stored train ++ stored test) (o_entries ratings)).
  { rewrite P1, P2. etransitivity; [|apply (tagged_split (o_entries ratings) randoms L (fun p => nltb (snd p) pct))].
    apply Permutation_app_head. match goal with |- Permutation (filter _ ?l) _ => assert (F : forall e, In e l -> nltb nzero (eval_ e) = true) end.
    { intros e He. apply POS. eapply tagged_in; eauto. }
    revert F. generalize (map fst (filter (fun p => negb (nltb (snd p) pct)) (combine (o_entries ratings) randoms))).
    intros l F. induction l as [|e l IH]; auto. simpl. rewrite F by (left; auto). constructor. apply IH. intros; apply F; right; auto. }
  split; auto. intros e He X. apply (Permutation_map coord) in P. apply Permutation_sym, Permutation_NoDup in P; auto.
  rewrite map_app in P. apply in_split in X. destruct X as [l1 [l2 X]]. rewrite X in P.
  assert (In (coord e) (map coord (stored train))) by (apply in_map; auto).
  rewrite app_assoc in P. apply NoDup_remove_2 in P. apply P. apply in_or_app. left. apply in_or_app. auto.
Qed.
Print Assumptions C32_partition_partial.

(** Repeated coordinates: the two matrices add up to the input (real ratings). *)
Definition value_at (es : list (nat * nat * R)) (i j : nat) : R :=
  rsum (map eval_ (filter (fun e => (erow e =? i) && (ecol e =? j)) es)).

Lemma sum1_rsum l : sum1 l = rsum l.
Proof. destruct l as [|v l]; auto. unfold sum1. rewrite fold_left_rsum. reflexivity. Qed.
Lemma value_app es es' i j : value_at (es ++ es') i j = (value_at es i j + value_at es' i j)%R.
Proof. unfold value_at. rewrite filter_app, map_app, rsum_app. auto. Qed.
Lemma value_perm es es' i j : Permutation es es' -> value_at es i j = value_at es' i j.
Proof. intros P. apply rsum_perm, Permutation_map, Permutation_filter, P. Qed.
Lemma value_stored (X : coo R) i j : coo_wf X -> value_at (stored (csr_of_coo X)) i j = value_at (o_entries X) i j.
Proof.
  intros W. unfold value_at. destruct (has_coord (o_entries X) i j) eqn:HC.
  - apply has_coord_spec in HC. set (v := sum1 (map eval_ (at_coord i j (o_entries X)))).
    assert (I : In (i, j, v) (stored (csr_of_coo X))) by (apply stored_in; auto).
    pose proof (at_coord_single _ (i, j, v) (stored_coord_nodup X) I) as E. unfold at_coord in E. cbn [erow ecol fst snd] in E.
    rewrite E. cbn [map rsum]. unfold eval_ at 1. cbn [snd]. unfold v. rewrite sum1_rsum. unfold at_coord. lra.
  - assert (N : ~ In (i, j) (map coord (o_entries X))) by (intros Y; apply has_coord_spec in Y; congruence).
    assert (Z : forall es, ~ In (i, j) (map coord es) -> filter (fun e : nat * nat * R => (erow e =? i) && (ecol e =? j)) es = []).
    { intros es. induction es as [|e es IH]; auto. simpl. intros Y. destruct (Nat.eqb_spec (erow e) i); simpl; [|apply IH; tauto].
      destruct (Nat.eqb_spec (ecol e) j); simpl; [|apply IH; tauto]. exfalso. apply Y. left. unfold coord. congruence. }
    rewrite !Z; auto. intros Y. apply N. apply stored_coords in Y; auto.
Qed.
Theorem C32_sum_partial :
  forall (U : Type) (HU : Num U) (ratings : coo R) (randoms : list U) (pct : U) train test,
  coo_wf ratings -> length randoms = length (o_entries ratings) ->
  (forall e, In e (o_entries ratings) -> (0 < eval_ e)%R) ->
  train_test_split randoms pct ratings = (train, test) ->
  forall i j, (value_at (stored train) i j + value_at (stored test) i j)%R = value_at (o_entries ratings) i j.
Proof.
  intros U HU ratings randoms pct train test W L POS E i j. unfold train_test_split in E. inversion E; subst train test. clear E.
  set (tr := map fst (filter (fun p => nltb (snd p) pct) (combine (o_entries ratings) randoms))).
  set (te := map fst (filter (fun p => nleb pct (snd p)) (combine (o_entries ratings) randoms))).
  rewrite stored_drop.
  assert (W1 : coo_wf (with_entries ratings tr)) by (intros e He; simpl in He; apply W; eapply tagged_in; eauto).
  assert (W2 : coo_wf (with_entries ratings te)) by (intros e He; simpl in He; apply W; eapply tagged_in; eauto).
  assert (PE : forall e, In e (stored (csr_of_coo (with_entries ratings te))) -> (0 < eval_ e)%R).
  { intros [[a b] v] He. apply stored_in in He; auto. destruct He as [Hc ->]. unfold eval_ at 1. cbn [snd]. rewrite sum1_rsum.
    simpl o_entries in *. assert (PO : forall e, In e (at_coord a b te) -> (0 < eval_ e)%R).
    { intros e He. apply filter_In in He. apply POS. eapply tagged_in; eauto. apply He. }
    apply has_coord_spec in Hc. unfold has_coord in Hc. destruct (at_coord a b te) as [|e l]; [discriminate|].
    cbn [map rsum]. assert (0 < eval_ e)%R by (apply PO; left; auto).
    assert (0 <= rsum (map eval_ l))%R; [|lra]. apply rsum_nonneg. intros x Hx. apply in_map_iff in Hx. destruct Hx as [y [<- Hy]].
    left. apply PO. right; auto. }
  replace (filter (fun e : nat * nat * R => nltb nzero (eval_ e)) (stored (csr_of_coo (with_entries ratings te))))
    with (stored (csr_of_coo (with_entries ratings te))).
  2:{ revert PE. generalize (stored (csr_of_coo (with_entries ratings te))). intros l PE. induction l as [|e l IH]; auto. simpl.
      unfold Rltb. destruct (Rlt_dec 0 (eval_ e)) as [|N]; [|exfalso; apply N, PE; left; auto]. f_equal. apply IH. intros; apply PE; right; auto. }
  rewrite (value_stored (with_entries ratings tr)) by auto. rewrite (value_stored (with_entries ratings te)) by auto. simpl o_entries.
  rewrite <- value_app. apply value_perm. apply (tagged_split (o_entries ratings) randoms L (fun p => nltb (snd p) pct)).
Qed.
Print Assumptions C32_sum_partial.

Definition ex_ratings : coo Z := {| o_rows := 2; o_cols := 3;
  o_entries := [(0, 1, 4%Z); (1, 0, 2%Z); (1, 2, 5%Z)] |}.
Example C32_example :
  coo_wf ex_ratings /\ NoDup (map coord (o_entries ex_ratings)) /\
  (let '(train, test) := train_test_split [10; 80; 79]%Z 80%Z ex_ratings in (stored train, stored test)) =
    ([(0, 1, 4%Z); (1, 2, 5%Z)], [(1, 0, 2%Z)]).
Proof.
  split; [|split; [|reflexivity]].
  - intros e He. simpl in He. destruct He as [<-|[<-|[<-|[]]]]; simpl; unfold erow, ecol; simpl; lia.
  - simpl. repeat constructor; simpl; unfold coord, erow, ecol; simpl; intuition congruence.
Qed.

(** A negative rating that is drawn for the test set is in neither matrix. *)
Theorem C32_partition_refuted :
  exists (ratings : coo Z) (randoms : list Z) (pct : Z) train test,
    coo_wf ratings /\ NoDup (map coord (o_entries ratings)) /\ length randoms = length (o_entries ratings) /\
    train_test_split randoms pct ratings = (train, test) /\
    In (1, 2, (-5)%Z) (o_entries ratings) /\
    ~ In (1, 2) (map coord (stored train)) /\ ~ In (1, 2) (map coord (stored test)).
Proof.
  exists {| o_rows := 2; o_cols := 3; o_entries := [(0, 1, 4%Z); (1, 2, (-5)%Z)] |}, [10; 90]%Z, 80%Z.
  eexists _, _. split; [|split; [|split; [|split; [vm_compute; reflexivity|]]]].
  - intros e He. simpl in He. destruct He as [<-|[<-|[]]]; simpl; unfold erow, ecol; simpl; lia.
  - simpl. repeat constructor; simpl; unfold coord, erow, ecol; simpl; intuition congruence.
  - reflexivity.
  - split; [simpl; auto|]. vm_compute. split; [|tauto]. intros [X|[]]; discriminate.
Qed.
Print Assumptions C32_partition_refuted.

(* ------------------------------------------------------------------ *)
(** C33. *)
(** The users kept out of the test set, as the code selects them. *)
Definition reserved {T} (rng_choice : nat -> nat -> list nat) (ratings : coo T) (size : Q) : list nat :=
  if Qle_bool size 0 then [] else choose rng_choice (length (unique (map erow (o_entries ratings)))) size.
Definition ratings_of {T} (ratings : coo T) (u : nat) : list (nat * nat * T) :=
  filter (fun e => erow e =? u) (o_entries ratings).
Definition eligible {T} (rng_choice : nat -> nat -> list nat) (ratings : coo T) (K : Z) (size : Q) (u : nat) : bool :=
  (Z.to_nat K + 1 <? length (ratings_of ratings u)) && negb (memn u (reserved rng_choice ratings size)).
(** [np.random.random] returns one number in [0,1) per rating of an eligible user. *)
Definition noise_ok {T} rng_choice (ratings : coo T) K size (noise : list Z) : Prop :=
  length noise = length (filter (fun e => eligible rng_choice ratings K size (erow e)) (o_entries ratings)) /\
  forall z, In z noise -> (0 <= z < unit53)%Z.

Lemma count_erow {T} (es : list (nat * nat * T)) u : count_occ Nat.eq_dec (map erow es) u = length (filter (fun e => erow e =? u) es).
Proof. induction es as [|e es IH]; auto. simpl. destruct (Nat.eq_dec (erow e) u), (Nat.eqb_spec (erow e) u); simpl; auto; lia. Qed.
Lemma unique_in l u : In u (unique l) <-> In u l.
Proof.
  unfold unique. rewrite filter_In, in_seq. split.
  - intros [_ M]. apply memn_spec in M. auto.
  - intros I. split; [|apply memn_spec; auto]. assert (F := proj1 (list_max_le l (list_max l)) (le_n _)). rewrite Forall_forall in F.
    apply F in I. lia.
Qed.
Lemma setdiff_in a b x : In x (setdiff1d a b) <-> In x a /\ ~ In x b.
Proof. unfold setdiff1d. rewrite filter_In, unique_in, negb_true_iff. rewrite <- memn_false. tauto. Qed.
Lemma setdiff_nodup a b : NoDup (setdiff1d a b).
Proof. apply NoDup_filter, NoDup_filter, seq_NoDup. Qed.

Definition pick {T} (cand : list (nat * nat * T)) (idx : list nat) : list (nat * nat * T) :=
  flat_map (fun i => match nth_error cand i with Some e => [e] | None => [] end) idx.
Lemma pick_in {T} (cand : list (nat * nat * T)) idx e : In e (pick cand idx) <-> exists i, In i idx /\ nth_error cand i = Some e.
Proof.
  unfold pick. rewrite in_flat_map. split; intros [i [Hi He]]; exists i; split; auto.
  - destruct (nth_error cand i); simpl in He; [destruct He as [->|[]]; auto|destruct He].
  - rewrite He. left; auto.
Qed.
Lemma pick_nodup {T} (cand : list (nat * nat * T)) idx : NoDup (map coord cand) -> NoDup idx -> NoDup (map coord (pick cand idx)).
Proof.
  intros NC. induction idx as [|i idx IH]; intros ND; [constructor|]. inversion ND as [|? ? N1 N2]; subst. unfold pick. simpl. fold (pick cand idx).
  destruct (nth_error cand i) as [e|] eqn:E; simpl; auto. constructor; auto. intros X. apply in_map_iff in X. destruct X as [e' [Ec He']].
  apply pick_in in He'. destruct He' as [i' [Hi' E']]. apply N1. replace i with i'; auto.
  assert (A1 : nth_error (map coord cand) i = Some (coord e)) by (rewrite nth_error_map, E; auto).
  assert (A2 : nth_error (map coord cand) i' = Some (coord e)) by (rewrite nth_error_map, E'; simpl; congruence).
  assert (i' < length (map coord cand)) by (apply nth_error_Some; congruence).
  apply (proj1 (NoDup_nth_error _) NC); auto. congruence.
Qed.

Lemma leave_k_out_unfold {T} `{Num T} argsort rng_choice noise (ratings : coo T) K size :
  (1 <= K)%Z -> Qle_bool 0 size = true -> Qle_bool 1 size = false ->
  let el := eligible rng_choice ratings K size in
  let cand := filter (fun e => el (erow e)) (o_entries ratings) in
  let others := filter (fun e => negb (el (erow e))) (o_entries ratings) in
  leave_k_out_split argsort rng_choice noise ratings K size =
    do '(test_idx, _) <- take_tails argsort noise (map erow cand) (Z.to_nat K);
    Ok (csr_of_coo (with_entries ratings (others ++ pick cand (setdiff1d (seq 0 (length cand)) test_idx))),
        csr_of_coo (with_entries ratings (pick cand test_idx))).
Proof.
  intros HK S0 S1 el cand others. unfold leave_k_out_split. destruct (Z.ltb_spec K 1); [lia|]. rewrite S0, S1. cbn [negb andb].
  assert (EL : forall e, In e (o_entries ratings) -> memn (erow e)
     (filter (fun u => (Z.to_nat K + 1 <? count_occ Nat.eq_dec (map erow (o_entries ratings)) u) &&
        negb (memn u (if negb (Qle_bool size 0) then choose rng_choice (length (unique (map erow (o_entries ratings)))) size else [])))
        (unique (map erow (o_entries ratings)))) = el (erow e)).
  { intros e He. unfold el, eligible, reserved, ratings_of. rewrite <- count_erow.
    replace (if negb (Qle_bool size 0) then choose rng_choice (length (unique (map erow (o_entries ratings)))) size else [])
      with (if Qle_bool size 0 then [] else choose rng_choice (length (unique (map erow (o_entries ratings)))) size) by (destruct (Qle_bool size 0); auto).
    match goal with |- memn _ (filter ?f _) = ?b => change b with (f (erow e)); set (ff := f) end.
    destruct (ff (erow e)) eqn:B.
    - apply memn_spec, filter_In. split; auto. apply unique_in, in_map; auto.
    - apply memn_false. intros X. apply filter_In in X. destruct X; congruence. }
  assert (E1 : filter (fun e => memn (erow e)
     (filter (fun u => (Z.to_nat K + 1 <? count_occ Nat.eq_dec (map erow (o_entries ratings)) u) &&
        negb (memn u (if negb (Qle_bool size 0) then choose rng_choice (length (unique (map erow (o_entries ratings)))) size else [])))
        (unique (map erow (o_entries ratings))))) (o_entries ratings) = cand) by (apply filter_ext_in; auto).
  assert (E2 : filter (fun e => negb (memn (erow e)
     (filter (fun u => (Z.to_nat K + 1 <? count_occ Nat.eq_dec (map erow (o_entries ratings)) u) &&
        negb (memn u (if negb (Qle_bool size 0) then choose rng_choice (length (unique (map erow (o_entries ratings)))) size else [])))
        (unique (map erow (o_entries ratings)))))) (o_entries ratings) = others).
  { apply filter_ext_in. intros e He. rewrite EL; auto. }
  rewrite E1, E2, map_length. reflexivity.
Qed.

(** For every matrix without repeated coordinates: the call returns; each eligible user
    has exactly K ratings in the test matrix and other users none; test coordinates are
    coordinates of the input; the train matrix is exactly the remaining ratings.  When
    the eligible users are 0..n-1 the two matrices partition the input.  Missing: the
    values in the test matrix are wrong when the eligible ids have gaps (refuted below). *)
Theorem C33_leave_k_out_partial :
  forall (T : Type) (HT : Num T) argsort rng_choice noise (ratings : coo T) (K : Z) (size : Q),
  argsort_ok argsort -> coo_wf ratings -> NoDup (map coord (o_entries ratings)) ->
  (1 <= K)%Z -> (0 <= size)%Q -> (size < 1)%Q -> noise_ok rng_choice ratings K size noise ->
  let el := eligible rng_choice ratings K size in
  exists train test,
    leave_k_out_split argsort rng_choice noise ratings K size = Ok (train, test) /\
    (forall u, length (csr_row test u) = if el u then Z.to_nat K else 0) /\
    incl (map coord (stored test)) (map coord (o_entries ratings)) /\
    Permutation (stored train) (filter (fun e => negb (has_coord (stored test) (erow e) (ecol e))) (o_entries ratings)) /\
    ((forall u u', el u = true -> u' < u -> el u' = true) ->
     Permutation (stored train ++ stored test) (o_entries ratings)).
Proof.
  intros T HT argsort rng_choice noise ratings K size AS W ND HK S0 S1 [NL NB] el.
  set (cand := filter (fun e => el (erow e)) (o_entries ratings)). set (others := filter (fun e => negb (el (erow e))) (o_entries ratings)).
  set (arr := map erow cand). set (k := Z.to_nat K).
  assert (NLA : length noise = length arr) by (unfold arr; rewrite map_length; auto).
  assert (CNT : forall u, In u arr -> k < count_occ Nat.eq_dec arr u).
  { intros u Hu. unfold arr in Hu. apply in_map_iff in Hu. destruct Hu as [e [<- He]]. apply filter_In in He. destruct He as [He B].
    unfold arr. rewrite count_erow. assert (X : length (filter (fun e0 => erow e0 =? erow e) cand) = length (ratings_of ratings (erow e))).
    { unfold ratings_of, cand. f_equal. clear -B. induction (o_entries ratings) as [|x l IH]; auto. simpl.
      destruct (Nat.eqb_spec (erow x) (erow e)) as [Q|Q].
      - rewrite Q, B. simpl. rewrite Q, Nat.eqb_refl. f_equal. auto.
      - destruct (el (erow x)); simpl; auto. destruct (Nat.eqb_spec (erow x) (erow e)); [contradiction|auto]. }
    rewrite X. unfold el, eligible in B. apply andb_true_iff in B. destruct B as [B _]. apply Nat.ltb_lt in B. fold k in B. lia. }
  assert (NDC : NoDup (map coord cand)) by (apply nodup_filter_map; auto).
  assert (S0' : Qle_bool 0 size = true) by (apply Qle_bool_iff; auto).
  assert (S1' : Qle_bool 1 size = false).
  { destruct (Qle_bool 1 size) eqn:E; auto. apply Qle_bool_iff in E. exfalso. apply (Qlt_not_le _ _ S1); auto. }
  pose proof (leave_k_out_unfold argsort rng_choice noise ratings K size HK S0' S1') as UF. cbv zeta in UF. fold el in UF. fold cand others in UF. fold arr k in UF.
  (* the held-out positions *)
  assert (HO : exists test_idx heads, take_tails argsort noise arr k = Ok (test_idx, heads) /\
     (forall t, In t test_idx <-> exists u, In u arr /\ In t (user_tail argsort noise arr k u)) /\
     ((forall w, w <= list_max arr -> arr <> [] -> In w arr) -> NoDup test_idx)).
  { destruct arr as [|x arr'] eqn:EA.
    - assert (argsort [] = []) as A0.
      { destruct (AS []) as [P _]. simpl in P. apply Permutation_sym, Permutation_nil in P. auto. }
      exists [], []. unfold take_tails. simpl. rewrite !A0. simpl. rewrite ?A0. split; auto. split; [|constructor].
      intros t. split; [intros []|intros [u [[] _]]].
    - rewrite <- EA in *. assert (NE : arr <> []) by (rewrite EA; discriminate).
      destruct (take_tails_ok argsort AS noise arr NLA k CNT NE) as [heads E].
      eexists _, heads. split; [exact E|]. split; [intros t; apply held_out_in; auto|].
      intros CONS. apply held_out_nodup; auto. }
  destruct HO as [test_idx [heads [E [TI NDT]]]]. rewrite E in UF. cbn [bind] in UF.
  set (TE := pick cand test_idx) in *. set (TR := others ++ pick cand (setdiff1d (seq 0 (length cand)) test_idx)) in *.
  exists (csr_of_coo (with_entries ratings TR)), (csr_of_coo (with_entries ratings TE)). split; auto.
  assert (CE : forall e, In e cand <-> In e (o_entries ratings) /\ el (erow e) = true) by (intros e; apply filter_In).
  assert (PE : forall idx e, In e (pick cand idx) -> In e (o_entries ratings)).
  { intros idx e He. apply pick_in in He. destruct He as [i [_ He]]. apply nth_error_In in He. apply CE in He. tauto. }
  assert (W1 : coo_wf (with_entries ratings TE)) by (intros e He; exact (W e (PE _ e He))).
  assert (W2 : coo_wf (with_entries ratings TR)).
  { intros e He. apply W. simpl in He. unfold TR in He. apply in_app_or in He. destruct He as [He|He]; [apply filter_In in He; tauto|eapply PE; eauto]. }
  assert (NTH : forall t e, nth_error cand t = Some e -> t < length arr /\ nth t arr 0 = erow e).
  { intros t e Ht. assert (t < length cand) by (apply nth_error_Some; congruence). split; [unfold arr; rewrite map_length; auto|].
    unfold arr. change 0 with (erow (0, 0, eval_ e)). rewrite map_nth. f_equal. apply nth_error_nth; auto. }
  assert (IU : forall u, In u arr -> el u = true).
  { intros u Hu. apply in_map_iff in Hu. destruct Hu as [e [<- He]]. apply CE in He. tauto. }
  (* rows of the test matrix *)
  assert (ROWS : forall u, length (csr_row (csr_of_coo (with_entries ratings TE)) u) = if el u then k else 0).
  { intros u. destruct (in_dec Nat.eq_dec u arr) as [Hu|Hu].
    - rewrite (IU u Hu). rewrite row_length. simpl o_rows. simpl o_cols. simpl o_entries.
      assert (UR : u < o_rows ratings).
      { apply in_map_iff in Hu. destruct Hu as [e [<- He]]. apply CE in He. apply W. tauto. }
      apply Nat.ltb_lt in UR. rewrite UR. apply Nat.ltb_lt in UR.
      destruct (user_tail_ok argsort AS noise arr NLA NB k CNT u Hu) as [U1 [U2 U3]].
      assert (NDU : NoDup (map coord (pick cand (user_tail argsort noise arr k u)))) by (apply pick_nodup; auto).
      assert (RU : forall e, In e (pick cand (user_tail argsort noise arr k u)) -> erow e = u).
      { intros e He. apply pick_in in He. destruct He as [t [Ht He]]. apply NTH in He. destruct He as [_ <-]. apply U3; auto. }
      assert (LU : length (pick cand (user_tail argsort noise arr k u)) = k).
      { rewrite <- U2 at 2. assert (B : forall t, In t (user_tail argsort noise arr k u) -> t < length cand).
        { intros t Ht. apply U3 in Ht. unfold arr in Ht. rewrite map_length in Ht. tauto. }
        clear -B. induction (user_tail argsort noise arr k u) as [|t l IH]; auto. unfold pick. simpl. fold (pick cand l).
        destruct (nth_error cand t) eqn:Q; [simpl; f_equal; apply IH; intros; apply B; right; auto|].
        apply nth_error_None in Q. specialize (B t (or_introl eq_refl)). lia. }
      rewrite <- LU. rewrite <- (map_length ecol (pick cand _)). apply Permutation_length. apply NoDup_Permutation.
      + apply NoDup_filter, seq_NoDup.
      + clear -NDU RU. revert NDU RU. generalize (pick cand (user_tail argsort noise arr k u)). intros l. induction l as [|e l IH]; intros N1 N2; [constructor|].
        simpl in *. inversion N1 as [|? ? M1 M2]; subst. constructor; [|apply IH; auto]. intros X. apply M1. apply in_map_iff in X.
        destruct X as [e' [Q He']]. apply in_map_iff. exists e'. split; auto. unfold coord. rewrite Q, (N2 e), (N2 e'); auto.
      + intros j. rewrite filter_In, has_coord_spec, in_seq, (in_map_iff ecol). split.
        * intros [_ X]. apply in_map_iff in X. destruct X as [e [Q He]]. unfold coord in Q. inversion Q as [[Q1 Q2]].
          unfold TE in He. apply pick_in in He. destruct He as [t [Ht He]]. apply TI in Ht. destruct Ht as [u' [Hu' Ht]].
          exists e. split; auto. apply pick_in. exists t. split; auto.
          destruct (user_tail_ok argsort AS noise arr NLA NB k CNT u' Hu') as [_ [_ V]]. assert (HV := V _ Ht). assert (HN := NTH _ _ He). destruct HV as [_ HV], HN as [_ HN].
          rewrite <- HN, HV. exact Ht.
        * intros [e [<- He]]. assert (HeT : In e TE).
          { unfold TE. apply pick_in in He. destruct He as [t [Ht He]]. apply pick_in. exists t. split; auto. apply TI. exists u; auto. }
          split; [apply W1 in HeT; simpl in HeT; lia|]. apply in_map_iff. exists e. split; auto. unfold coord. rewrite (RU e He). auto.
    - assert (EU : el u = false).
      { destruct (el u) eqn:B; auto. exfalso. apply Hu. assert (B0 := B). unfold el, eligible in B. apply andb_true_iff in B. destruct B as [B _]. apply Nat.ltb_lt in B.
        destruct (ratings_of ratings u) as [|e l] eqn:R; [simpl in B; lia|].
        assert (X : In e (ratings_of ratings u)) by (rewrite R; left; auto). apply filter_In in X. destruct X as [X1 X2]. apply Nat.eqb_eq in X2.
        apply in_map_iff. exists e. split; auto. apply CE. split; auto. rewrite X2. exact B0. }
      rewrite EU, row_length. simpl o_rows. simpl o_cols. simpl o_entries. destruct (u <? o_rows ratings); auto.
      rewrite (proj2 (length_zero_iff_nil _)); auto. destruct (filter (has_coord TE u) (seq 0 (o_cols ratings))) as [|j l] eqn:F; auto.
      assert (X : In j (filter (has_coord TE u) (seq 0 (o_cols ratings)))) by (rewrite F; left; auto).
      apply filter_In in X. destruct X as [_ X]. apply has_coord_spec in X. apply in_map_iff in X. destruct X as [e [Q He]].
      exfalso. unfold TE in He. apply pick_in in He. destruct He as [t [_ He]]. apply nth_error_In in He. apply Hu.
      unfold coord in Q. inversion Q as [[Q1 Q2]]. rewrite Q1. apply in_map_iff. exists e; auto. }
  split; auto.
  assert (SC : forall c, In c (map coord (stored (csr_of_coo (with_entries ratings TE)))) <-> In c (map coord TE)).
  { intros c. apply (stored_coords (with_entries ratings TE)); auto. }
  split; [|split].
  - intros c Hc. apply SC in Hc. apply in_map_iff in Hc. destruct Hc as [e [<- He]]. apply in_map. eapply PE; eauto.
  - assert (NDR : NoDup (map coord TR)).
    { unfold TR. rewrite map_app. apply NoDup_app_intro.
      - apply nodup_filter_map; auto.
      - apply pick_nodup; auto. apply setdiff_nodup.
      - intros c C1 C2. apply in_map_iff in C1. destruct C1 as [e1 [Q1 E1]]. apply in_map_iff in C2. destruct C2 as [e2 [Q2 E2]].
        apply filter_In in E1. apply pick_in in E2. destruct E2 as [i2 [_ E2]]. apply nth_error_In in E2. apply CE in E2.
        assert (erow e1 = erow e2) by (unfold coord in *; congruence). destruct E1 as [_ E1], E2 as [_ E2]. rewrite H, E2 in E1. discriminate. }
    etransitivity; [apply (stored_perm (with_entries ratings TR)); auto|]. simpl o_entries.
    apply NoDup_Permutation; [eapply nodup_map_nodup; eauto|apply NoDup_filter; eapply nodup_map_nodup; eauto|].
    intros e. unfold TR. rewrite in_app_iff, filter_In, pick_in. unfold others. rewrite filter_In.
    assert (HC : has_coord (stored (csr_of_coo (with_entries ratings TE))) (erow e) (ecol e) = true <-> In (coord e) (map coord TE)).
    { rewrite has_coord_spec. apply SC. }
    assert (UNI : forall i e', nth_error cand i = Some e -> nth_error cand e' = Some e -> i = e').
    { intros i i' A1 A2. assert (i < length cand) by (apply nth_error_Some; congruence).
      apply (proj1 (NoDup_nth_error _) (nodup_map_nodup _ _ NDC)); auto. congruence. }
    assert (SAME : forall e', In e' (o_entries ratings) -> In e (o_entries ratings) -> coord e' = coord e -> e' = e).
    { intros e' I1 I2 Q. destruct (In_nth_error _ _ I1) as [n1 N1], (In_nth_error _ _ I2) as [n2 N2].
      assert (n1 = n2). { apply (proj1 (NoDup_nth_error _) ND).
        - rewrite map_length. apply nth_error_Some; congruence.
        - rewrite !nth_error_map, N1, N2. simpl. congruence. }
      congruence. }
    split.
    + intros [[He B]|[i [Hi He]]].
      * split; auto. apply negb_true_iff. apply negb_true_iff in B. apply not_true_is_false. intros X. apply HC in X.
        apply in_map_iff in X. destruct X as [e' [Q He']]. unfold TE in He'. apply pick_in in He'. destruct He' as [t [_ He']].
        apply nth_error_In in He'. apply CE in He'. assert (erow e' = erow e) by (unfold coord in Q; congruence). destruct He'; congruence.
      * assert (Hec : In e cand) by (eapply nth_error_In; eauto). apply CE in Hec. split; [tauto|].
        apply setdiff_in in Hi. destruct Hi as [_ Hi]. apply negb_true_iff. apply not_true_is_false. intros X. apply HC in X.
        apply in_map_iff in X. destruct X as [e' [Q He']]. assert (e' = e) by (apply SAME; [eapply PE; eauto|tauto|auto]). subst e'.
        unfold TE in He'. apply pick_in in He'. destruct He' as [t [Ht He']]. exfalso. apply Hi. rewrite (UNI i t); auto.
    + intros [He X]. destruct (el (erow e)) eqn:B; [right|left; auto].
      assert (Hec : In e cand) by (apply CE; auto). destruct (In_nth_error _ _ Hec) as [i Hi]. exists i. split; auto.
      apply setdiff_in. split; [apply in_seq; assert (i < length cand) by (apply nth_error_Some; congruence); lia|].
      intros Ht. apply negb_true_iff in X. assert (has_coord (stored (csr_of_coo (with_entries ratings TE))) (erow e) (ecol e) = true); [|congruence].
      apply HC. apply in_map. unfold TE. apply pick_in. exists i; auto.
  - intros CONS. assert (NDTI : NoDup test_idx).
    { apply NDT. intros w Hw NE. assert (M : In (list_max arr) arr).
      { clear -NE. induction arr as [|x l IH]; [contradiction|]. simpl. destruct l as [|y l]; [simpl; left; lia|].
        assert (Z : In (list_max (y :: l)) (y :: l)) by (apply IH; discriminate).
        destruct (Nat.max_spec x (list_max (y :: l))) as [[_ ->]|[_ ->]]; auto. }
      assert (EW : el w = true).
      { destruct (Nat.eq_dec w (list_max arr)) as [->|]; [apply IU; auto|]. apply (CONS (list_max arr)); [apply IU; auto|lia]. }
      destruct (ratings_of ratings w) as [|e l] eqn:R.
      { unfold el, eligible in EW. rewrite R in EW. apply andb_true_iff in EW. destruct EW as [EW _]. apply Nat.ltb_lt in EW. simpl in EW. lia. }
      assert (X : In e (ratings_of ratings w)) by (rewrite R; left; auto). apply filter_In in X. destruct X as [X1 X2]. apply Nat.eqb_eq in X2.
      apply in_map_iff. exists e. split; auto. apply CE. split; auto. congruence. }
    assert (NDE : NoDup (map coord TE)) by (apply pick_nodup; auto).
    assert (NDR : NoDup (map coord TR)).
    { unfold TR. rewrite map_app. apply NoDup_app_intro.
      - apply nodup_filter_map; auto.
      - apply pick_nodup; auto. apply setdiff_nodup.
      - intros c C1 C2. apply in_map_iff in C1. destruct C1 as [e1 [Q1 E1]]. apply in_map_iff in C2. destruct C2 as [e2 [Q2 E2]].
        apply filter_In in E1. apply pick_in in E2. destruct E2 as [i2 [_ E2]]. apply nth_error_In in E2. apply CE in E2.
        assert (erow e1 = erow e2) by (unfold coord in *; congruence). destruct E1 as [_ E1], E2 as [_ E2]. rewrite H, E2 in E1. discriminate. }
    rewrite (stored_perm (with_entries ratings TR)), (stored_perm (with_entries ratings TE)) by auto. simpl o_entries. unfold TR, TE.
    assert (PC : Permutation (pick cand test_idx ++ pick cand (setdiff1d (seq 0 (length cand)) test_idx)) cand).
    { assert (PI : Permutation (test_idx ++ setdiff1d (seq 0 (length cand)) test_idx) (seq 0 (length cand))).
      { apply NoDup_Permutation; [|apply seq_NoDup|].
        - apply NoDup_app_intro; auto. apply setdiff_nodup. intros x Hx Hy. apply setdiff_in in Hy. tauto.
        - intros x. rewrite in_app_iff, setdiff_in. split; [|destruct (in_dec Nat.eq_dec x test_idx); tauto].
          intros [Hx|Hx]; [|tauto]. apply TI in Hx. destruct Hx as [u [Hu Hx]].
          destruct (user_tail_ok argsort AS noise arr NLA NB k CNT u Hu) as [_ [_ V]]. apply V in Hx. unfold arr in Hx. rewrite map_length in Hx.
          apply in_seq. lia. }
      replace cand with (pick cand (seq 0 (length cand))) at 4.
      - unfold pick. rewrite <- flat_map_app. apply Permutation_flat_map, PI.
      - clear. unfold pick. induction cand as [|e l IH] using rev_ind; auto. rewrite app_length. simpl. rewrite Nat.add_1_r, seq_S, flat_map_app. simpl.
        rewrite nth_error_app2, Nat.sub_diag by lia. simpl. f_equal. transitivity (flat_map (fun i => match nth_error l i with Some e0 => [e0] | None => [] end) (seq 0 (length l))); auto.
        rewrite !flat_map_concat_map. f_equal. apply map_ext_in. intros i Hi. apply in_seq in Hi. rewrite nth_error_app1 by lia. auto. }
    transitivity (others ++ cand).
    + rewrite <- app_assoc. apply Permutation_app_head. etransitivity; [apply Permutation_app_comm|exact PC].
    + unfold others, cand. clear. induction (o_entries ratings) as [|e l IH]; auto. simpl. destruct (el (erow e)); simpl; auto.
      rewrite <- Permutation_middle. auto.
Qed.
Print Assumptions C33_leave_k_out_partial.

(** A stable argsort, for concrete runs. *)
Fixpoint ins_key (key : nat -> Z) (i : nat) (l : list nat) : list nat :=
  match l with [] => [i] | j :: l' => if (key i <=? key j)%Z then i :: l else j :: ins_key key i l' end.
Definition sort_keys (keys : list Z) : list nat := fold_right (ins_key (fun i => nth i keys 0%Z)) [] (seq 0 (length keys)).
Lemma ins_key_perm key i l : Permutation (ins_key key i l) (i :: l).
Proof. induction l as [|j l IH]; simpl; auto. destruct (key i <=? key j)%Z; auto. rewrite IH. apply perm_swap. Qed.
Lemma sort_keys_ok : argsort_ok sort_keys.
Proof.
  intros keys. unfold sort_keys. set (key := fun i => nth i keys 0%Z). generalize (seq 0 (length keys)). intros l. split.
  - induction l as [|i l IH]; simpl; auto. rewrite ins_key_perm, IH. auto.
  - change (fun i => nth i keys 0%Z) with key. induction l as [|i l IH]; simpl; [constructor|].
    revert IH. generalize (fold_right (ins_key key) [] l). intros m SM. induction m as [|j m IHm]; simpl; [repeat constructor|].
    inversion SM as [|? ? S1 S2]; subst. destruct (Z.leb_spec (key i) (key j)) as [L|L]; simpl.
    + constructor; auto. constructor; auto. eapply Forall_impl; [|exact S2]. simpl. lia.
    + constructor; auto. rewrite Forall_forall. intros x Hx. apply in_map_iff in Hx. destruct Hx as [y [<- Hy]].
      apply (Permutation_in _ (ins_key_perm key i m)) in Hy. destruct Hy as [<-|Hy]; [lia|].
      rewrite Forall_forall in S2. apply S2. apply in_map; auto.
Qed.

(** Two users with three ratings each, one user with one. *)
Definition ex_users (a b : nat) : coo Z := {| o_rows := 8; o_cols := 3;
  o_entries := [(a, 0, 1%Z); (a, 1, 2%Z); (a, 2, 3%Z); (7, 0, 9%Z); (b, 0, 4%Z); (b, 1, 5%Z); (b, 2, 6%Z)] |}.
Definition no_choice (n k : nat) : list nat := [].
Definition ex_noise : list Z := [5; 3; 4; 2; 8; 7]%Z.
Lemma ex_users_ok : forall a b, a < 7 -> b < 7 -> a <> b -> coo_wf (ex_users a b) /\ NoDup (map coord (o_entries (ex_users a b))).
Proof.
  intros a b A B AB. split.
  - intros e He. simpl in He. repeat (destruct He as [<-|He]; [simpl; unfold erow, ecol; simpl; lia|]). destruct He.
  - simpl. unfold coord, erow, ecol. simpl.
    repeat (constructor; [simpl; intros X; repeat (destruct X as [X|X]; [inversion X; subst; lia|]); exact X|]). constructor.
Qed.
Example C33_example :
  argsort_ok sort_keys /\ coo_wf (ex_users 0 1) /\ NoDup (map coord (o_entries (ex_users 0 1))) /\
  noise_ok no_choice (ex_users 0 1) 1 (0 # 1) ex_noise /\
  map (eligible no_choice (ex_users 0 1) 1 (0 # 1)) (seq 0 8) = [true; true; false; false; false; false; false; false] /\
  (match leave_k_out_split sort_keys no_choice ex_noise (ex_users 0 1) 1 (0 # 1) with
   | Ok (train, test) => Some (stored train, stored test) | Raise _ => None end) =
  Some ([(0, 1, 2%Z); (0, 2, 3%Z); (1, 0, 4%Z); (1, 2, 6%Z); (7, 0, 9%Z)], [(0, 0, 1%Z); (1, 1, 5%Z)]).
Proof.
  destruct (ex_users_ok 0 1 ltac:(lia) ltac:(lia) ltac:(lia)) as [W N].
  split; [apply sort_keys_ok|]. split; auto. split; auto. split; [|split; reflexivity].
  split; [reflexivity|]. intros z Hz. unfold unit53. simpl in Hz. intuition lia.
Qed.

(** Eligible users 0 and 3: the ids between them are counted with zero ratings, their
    "tails" are user 0's again, and user 0's held-out rating is added three times over. *)
Theorem C33_gaps_refuted :
  exists argsort rng_choice noise (ratings : coo Z) train test,
    argsort_ok argsort /\ coo_wf ratings /\ NoDup (map coord (o_entries ratings)) /\
    noise_ok rng_choice ratings 1 (0 # 1) noise /\
    leave_k_out_split argsort rng_choice noise ratings 1 (0 # 1) = Ok (train, test) /\
    In (0, 0, 3%Z) (stored test) /\ In (0, 0, 1%Z) (o_entries ratings) /\
    ~ Permutation (stored train ++ stored test) (o_entries ratings).
Proof.
  exists sort_keys, no_choice, ex_noise, (ex_users 0 3). destruct (ex_users_ok 0 3 ltac:(lia) ltac:(lia) ltac:(lia)) as [W N].
  eexists _, _. split; [apply sort_keys_ok|]. split; auto. split; auto. split; [|split; [vm_compute; reflexivity|]].
  { split; [reflexivity|]. intros z Hz. unfold unit53. simpl in Hz. intuition lia. }
  split; [vm_compute; tauto|]. split; [simpl; tauto|]. intros P. apply (Permutation_in (0, 0, 3%Z)) in P; [|vm_compute; tauto].
  simpl in P. repeat (destruct P as [P|P]; [discriminate|]). exact P.
Qed.
Print Assumptions C33_gaps_refuted.

(** [train_only_size]: positions are drawn but user ids are compared with them.  Users 5
    and 6 are both in the test matrix whatever is drawn, though half of the users were to
    be kept for training only. *)
Theorem C33_train_only_refuted :
  exists (ratings : coo Z) (size : Q), coo_wf ratings /\ NoDup (map coord (o_entries ratings)) /\ (0 < size)%Q /\ (size < 1)%Q /\
    length (unique (map erow (o_entries ratings))) = 2 /\
    forall argsort rng_choice noise, argsort_ok argsort ->
      (forall n k x, In x (rng_choice n k) -> x < n) -> noise_ok rng_choice ratings 1 size noise ->
      exists train test, leave_k_out_split argsort rng_choice noise ratings 1 size = Ok (train, test) /\
        length (csr_row test 5) = 1 /\ length (csr_row test 6) = 1.
Proof.
  exists {| o_rows := 7; o_cols := 3; o_entries := [(5, 0, 1%Z); (5, 1, 2%Z); (5, 2, 3%Z); (6, 0, 4%Z); (6, 1, 5%Z); (6, 2, 6%Z)] |}, (1 # 2)%Q.
  match goal with |- context [coo_wf ?r] => set (ratings := r) end.
  assert (W : coo_wf ratings).
  { intros e He. simpl in He. repeat (destruct He as [<-|He]; [simpl; unfold erow, ecol; simpl; lia|]). destruct He. }
  assert (N : NoDup (map coord (o_entries ratings))).
  { simpl. unfold coord, erow, ecol. simpl.
    repeat (constructor; [simpl; intros X; repeat (destruct X as [X|X]; [inversion X; subst; lia|]); exact X|]). constructor. }
  split; auto. split; auto. split; [reflexivity|]. split; [reflexivity|]. split; [reflexivity|].
  intros argsort rng_choice noise AS RC NO.
  destruct (C33_leave_k_out_partial Z Num_Z argsort rng_choice noise ratings 1 (1 # 2) AS W N ltac:(lia) ltac:(discriminate) ltac:(reflexivity) NO)
    as [train [test [E [R _]]]].
  exists train, test. split; auto.
  assert (EL : forall u, u = 5 \/ u = 6 -> eligible rng_choice ratings 1 (1 # 2) u = true).
  { intros u Hu. unfold eligible. apply andb_true_iff. split; [destruct Hu as [->| ->]; reflexivity|].
    apply negb_true_iff, memn_false. intros X. unfold reserved, choose in X. simpl in X. apply RC in X. simpl in X. lia. }
  rewrite !R, !EL by auto. auto.
Qed.
Print Assumptions C33_train_only_refuted.

(* ------------------------------------------------------------------ *)
(** C34. *)
(** Which users appear in the test matrix, how many ratings each has there, does not
    depend on the global generator.  Missing: which ratings do (refuted below). *)
Theorem C34_users_partial :
  forall (T : Type) (HT : Num T) argsort rng_choice noise noise' (ratings : coo T) (K : Z) (size : Q),
  argsort_ok argsort -> coo_wf ratings -> NoDup (map coord (o_entries ratings)) ->
  (1 <= K)%Z -> (0 <= size)%Q -> (size < 1)%Q ->
  noise_ok rng_choice ratings K size noise -> noise_ok rng_choice ratings K size noise' ->
  exists train test train' test',
    leave_k_out_split argsort rng_choice noise ratings K size = Ok (train, test) /\
    leave_k_out_split argsort rng_choice noise' ratings K size = Ok (train', test') /\
    forall u, length (csr_row test u) = length (csr_row test' u).
Proof.
  intros T HT argsort rng_choice noise noise' ratings K size AS W N HK S0 S1 N1 N2.
  destruct (C33_leave_k_out_partial T HT argsort rng_choice noise ratings K size AS W N HK S0 S1 N1) as [train [test [E [R _]]]].
  destruct (C33_leave_k_out_partial T HT argsort rng_choice noise' ratings K size AS W N HK S0 S1 N2) as [train' [test' [E' [R' _]]]].
  exists train, test, train', test'. split; auto. split; auto. intros u. rewrite R, R'. auto.
Qed.
Print Assumptions C34_users_partial.

(** Same matrix, same generator passed as random_state, different state of numpy's
    global generator: a different rating is held out. *)
Theorem C34_reproducible_refuted :
  exists argsort rng_choice noise noise' (ratings : coo Z) train test train' test',
    argsort_ok argsort /\ coo_wf ratings /\ NoDup (map coord (o_entries ratings)) /\
    noise_ok rng_choice ratings 1 (0 # 1) noise /\ noise_ok rng_choice ratings 1 (0 # 1) noise' /\
    leave_k_out_split argsort rng_choice noise ratings 1 (0 # 1) = Ok (train, test) /\
    leave_k_out_split argsort rng_choice noise' ratings 1 (0 # 1) = Ok (train', test') /\
    stored test <> stored test' /\ stored train <> stored train'.
Proof.
  exists sort_keys, no_choice, ex_noise, [3; 5; 4; 2; 8; 7]%Z, (ex_users 0 1).
  destruct (ex_users_ok 0 1 ltac:(lia) ltac:(lia) ltac:(lia)) as [W N].
  eexists _, _, _, _. split; [apply sort_keys_ok|]. split; auto. split; auto.
  split; [split; [reflexivity|intros z Hz; unfold unit53; simpl in Hz; intuition lia]|].
  split; [split; [reflexivity|intros z Hz; unfold unit53; simpl in Hz; intuition lia]|].
  split; [vm_compute; reflexivity|]. split; [vm_compute; reflexivity|]. vm_compute. split; discriminate.
Qed.
Print Assumptions C34_reproducible_refuted.
