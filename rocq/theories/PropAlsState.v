(** The ALS object over time: properties C42, C43, C44, C68, C69 of properties.jsonl. *)
From Coq Require Import List Arith Lia Bool Reals Lra ZArith QArith.
From Verif Require Import Base Num Heap Sparse TopkModel RecommendModel RVec SimilarBatch AlsModel AlsSpec AlsProofs PosvImpl AlsProofs2 PropAls
  ExplainModel ExplainProofs PropExplain AlsState AlsStateProofs.
Import ListNotations.

(* ------------------------------------------------------------------ C42 *)
(** Python: index [z] into an array of [m] rows means row [r]. *)
Definition names (m : nat) (z : Z) (r : nat) : Prop := z = Z.of_nat r \/ z = (Z.of_nat r - Z.of_nat m)%Z.
(** [rows'] is [rows], grown with zero rows to cover the largest id, with the row of
    ids[k] replaced by new[k] (the last one of repeated ids). *)
Definition updated {T} `{Num T} (n : nat) (rows : list (list T)) (ids : list Z) (new rows' : list (list T)) : Prop :=
  (exists mx, In mx ids /\ (forall z, In z ids -> (z <= mx)%Z) /\ length rows' = Nat.max (length rows) (Z.to_nat (mx + 1))) /\
  (forall z, In z ids -> exists r, (r < length rows')%nat /\ names (length rows') z r) /\
  forall r, (r < length rows')%nat ->
    (exists k, (k < length ids)%nat /\ names (length rows') (nth k ids 0%Z) r /\
       (forall k', (k < k' < length ids)%nat -> ~ names (length rows') (nth k' ids 0%Z) r) /\ nth r rows' [] = nth k new []) \/
    ((forall z, In z ids -> ~ names (length rows') z r) /\
     nth r rows' [] = if (r <? length rows)%nat then nth r rows [] else repeat nzero n).

Lemma np_index_names m z r : (r < m)%nat -> (np_index m z = Ok r <-> names m z r).
Proof.
  intros B. unfold np_index, names. split.
  - destruct (Z.leb_spec 0 z), (Z.ltb_spec z (Z.of_nat m)), (Z.leb_spec (- Z.of_nat m) z), (Z.ltb_spec z 0); simpl; intros X; inversion X; lia.
  - intros X. destruct (Z.leb_spec 0 z), (Z.ltb_spec z (Z.of_nat m)), (Z.leb_spec (- Z.of_nat m) z), (Z.ltb_spec z 0); simpl; f_equal; lia.
Qed.
Lemma last_index_spec r ks : match last_index r ks with
  | Some k => (k < length ks)%nat /\ nth_error ks k = Some r /\ forall k', (k < k')%nat -> nth_error ks k' <> Some r
  | None => ~ In r ks
  end.
Proof.
  induction ks as [|a ks IH]; simpl; auto. destruct (last_index r ks) as [k|].
  - destruct IH as [A [B C]]. split; [lia|]. split; auto. intros [|k'] L; [lia|]. simpl. apply C. lia.
  - destruct (Nat.eqb_spec a r) as [->|NE].
    + split; [lia|]. split; auto. intros [|k'] L; [lia|]. simpl. intros X. apply nth_error_In in X. auto.
    + intros [X|X]; auto.
Qed.
Lemma scatter_updated {T W} `{Num T} (E : env T W) rows ids new mx rows' : max_id ids = Ok mx -> length ids = length new ->
  scatter (grow E rows mx) ids new = Ok rows' -> updated (e_n E) rows ids new rows'.
Proof.
  intros EM L ES. destruct (scatter_spec _ _ _ _ L ES) as [ks [EK [LR NR]]]. destruct (max_id_spec _ _ EM) as [I1 I2].
  rewrite map_res_nth with (d := 0%Z) (d' := 0%nat) in EK. destruct EK as [LK NK].
  split; [exists mx; split; auto; split; auto; rewrite LR; apply grow_length|]. split.
  - intros z Hz. apply (In_nth _ _ 0%Z) in Hz. destruct Hz as [k [Bk Ek]]. specialize (NK k Bk). rewrite Ek in NK.
    pose proof (np_index_cases _ _ _ NK) as [A B]. exists (nth k ks 0%nat). rewrite LR. split; auto.
  - intros r Br. rewrite LR in *. rewrite (NR r Br). pose proof (last_index_spec r ks) as LI. destruct (last_index r ks) as [k|].
    + left. destruct LI as [Bk [Ek Lk]]. exists k. rewrite LK in Bk. split; auto. split; [|split; auto].
      * apply np_index_names; auto. rewrite NK by auto. f_equal. apply nth_error_nth. auto.
      * intros k' Bk' N'. apply np_index_names in N'; auto. rewrite NK in N' by lia. assert (N1 : nth k' ks 0%nat = r) by congruence. apply (Lk k'); [lia|].
        rewrite <- N1. apply nth_error_nth'. lia.
    + right. split; [|apply grow_nth; auto]. intros z Hz N'. apply np_index_names in N'; auto. apply (In_nth _ _ 0%Z) in Hz. destruct Hz as [k [Bk Ek]].
      apply LI. specialize (NK k Bk). rewrite Ek, N' in NK. assert (N1 : nth k ks 0%nat = r) by congruence. rewrite <- N1. apply nth_In. lia.
Qed.

(** Any number type, any object state: which rows change. *)
Theorem C42_frame_users : forall T (NT : Num T) W (E : env T W) s s' X Y ids M,
  sX s = Some X -> sY s = Some Y -> partial_fit_users E s ids M = (s', Ok tt) ->
  exists new X', recalculate_user (e_posv E) (e_alpha E) (e_reg E) (e_n E) (YtY_value E s Y) Y (Batch ids) M = Ok new /\ length new = length ids /\
    sX s' = Some X' /\ sY s' = Some Y /\ updated (e_n E) X ids new X'.
Proof.
  intros T NT W E s s' X Y ids M EX EY R. unfold partial_fit_users in R.
  destruct (negb (length ids =? c_rows M)); [discriminate|]. rewrite EX, EY in R.
  destruct (recalculate_user _ _ _ _ _ _ _ _) as [new|x] eqn:ER; [|discriminate].
  destruct (max_id ids) as [mx|x] eqn:EM; [|discriminate]. destruct (scatter (grow E X mx) ids new) as [X2|x] eqn:ES; [|discriminate].
  inversion R; subst. clear R.
  assert (L : length new = length ids).
  { unfold recalculate_user, least_squares_c in ER. destruct (negb (c_rows M =? id_count (Batch ids))); [discriminate|].
    apply (proj1 (map_res_nth _ _ _ 0%nat [])) in ER. destruct ER as [ER _]. rewrite seq_length in ER. exact ER. }
  exists new, X2. split; auto. split; auto. split; auto. split; [simpl; auto|]. apply (scatter_updated E X ids new mx); auto.
Qed.
Theorem C42_frame_items : forall T (NT : Num T) W (E : env T W) s s' X Y ids M,
  sX s = Some X -> sY s = Some Y -> partial_fit_items E s ids M = (s', Ok tt) ->
  exists new Y', recalculate_item (e_posv E) (e_alpha E) (e_reg E) (e_n E) (XtX_value E s X) X (Batch ids) M = Ok new /\ length new = length ids /\
    sX s' = Some X /\ sY s' = Some Y' /\ updated (e_n E) Y ids new Y'.
Proof.
  intros T NT W E s s' X Y ids M EX EY R. unfold partial_fit_items in R.
  destruct (negb (length ids =? c_rows M)); [discriminate|]. rewrite EX, EY in R.
  destruct (recalculate_item _ _ _ _ _ _ _ _) as [new|x] eqn:ER; [|discriminate].
  destruct (max_id ids) as [mx|x] eqn:EM; [|discriminate]. destruct (scatter (grow E Y mx) ids new) as [Y2|x] eqn:ES; [|discriminate].
  inversion R; subst. clear R.
  assert (L : length new = length ids).
  { unfold recalculate_item, least_squares_c in ER. apply (proj1 (map_res_nth _ _ _ 0%nat [])) in ER. destruct ER as [ER _]. rewrite seq_length in ER. exact ER. }
  exists new, Y2. split; auto. split; auto. split; auto. split; [simpl; auto|]. apply (scatter_updated E Y ids new mx); auto.
Qed.
Print Assumptions C42_frame_users.
Print Assumptions C42_frame_items.

Local Open Scope R_scope.
(** The new rows are the minimisers for the rows of M, after any (safe, see C43)
    history. *)
Theorem C42_users : forall W (E : env R W) cs s s' X Y ids M, posv_ok (e_posv E) -> canonical M -> mat_ok (e_n E) Y -> length Y = c_cols M -> 0 <= e_reg E ->
  safe_history E fresh_state cs -> s = run E fresh_state cs ->
  sX s = Some X -> sY s = Some Y -> partial_fit_users E s ids M = (s', Ok tt) ->
  exists new X', sX s' = Some X' /\ sY s' = Some Y /\ updated (e_n E) X ids new X' /\ length new = length ids /\
    forall k, (k < length ids)%nat -> is_minimiser (e_n E) Y (e_reg E) (scale_row (e_alpha E) (csr_row M k)) (nth k new []).
Proof.
  intros W E cs s s' X Y ids M PO C MY LY R0 SH -> EX EY RR. assert (CO := history_coherent E cs _ (fresh_coherent E) SH).
  destruct (C42_frame_users R _ W E _ s' X Y ids M EX EY RR) as [new [X' [ER [L [A [B U]]]]]]. exists new, X'. repeat split; auto; try apply U.
  all: destruct (coherent_values E _ X Y CO EX EY) as [_ [_ [V3 _]]]; rewrite V3 in ER;
    destruct (C36_recalculate_user (e_posv E) (e_alpha E) (e_reg E) (e_n E) Y (Batch ids) M new PO C MY LY R0 ER) as [_ [_ MIN]]; apply MIN; auto.
Qed.
Theorem C42_items : forall W (E : env R W) cs s s' X Y ids M, posv_ok (e_posv E) -> canonical M -> mat_ok (e_n E) X -> length X = c_cols M -> 0 <= e_reg E ->
  safe_history E fresh_state cs -> s = run E fresh_state cs ->
  sX s = Some X -> sY s = Some Y -> partial_fit_items E s ids M = (s', Ok tt) ->
  exists new Y', sX s' = Some X /\ sY s' = Some Y' /\ updated (e_n E) Y ids new Y' /\ length new = length ids /\
    forall k, (k < length ids)%nat -> is_minimiser (e_n E) X (e_reg E) (scale_row (e_alpha E) (csr_row M k)) (nth k new []).
Proof.
  intros W E cs s s' X Y ids M PO C MX LX R0 SH -> EX EY RR. assert (CO := history_coherent E cs _ (fresh_coherent E) SH).
  destruct (C42_frame_items R _ W E _ s' X Y ids M EX EY RR) as [new [Y' [ER [L [A [B U]]]]]].
  assert (RM : c_rows M = id_count (Batch ids)).
  { unfold partial_fit_items in RR. destruct (Nat.eqb_spec (length ids) (c_rows M)); [simpl; auto|discriminate]. }
  exists new, Y'. repeat split; auto; try apply U.
  all: destruct (coherent_values E _ X Y CO EX EY) as [_ [_ [_ V4]]]; rewrite V4 in ER;
    destruct (C36_recalculate_item (e_posv E) (e_alpha E) (e_reg E) (e_n E) X (Batch ids) M new PO C MX LX RM R0 ER) as [_ MIN]; apply MIN; auto.
Qed.
Print Assumptions C42_users.
Print Assumptions C42_items.

(* ------------------------------------------------------------------ C43 *)
(** Whatever (safe) calls came before, failed or not, every answer is the one computed
    from norms and Gram matrices of the current factors. *)
Theorem C43_als_partial : forall T (NT : Num T) W (E : env T W) cs X Y q, safe_history E fresh_state cs ->
  sX (run E fresh_state cs) = Some X -> sY (run E fresh_state cs) = Some Y ->
  snd (run_query E (run E fresh_state cs) q) =
  answer_from E X Y (norms_of (e_norm E) (e_tiny E) X) (norms_of (e_norm E) (e_tiny E) Y) (gram (e_n E) Y) (gram (e_n E) X) q.
Proof. intros. apply query_answer; auto. apply history_coherent; auto. apply fresh_coherent. Qed.
Print Assumptions C43_als_partial.

(* ------------------------------------------------------------------ C44 *)
Theorem C44_partial : forall T (NT : Num T) W (E : env T W) cs s c x, safe_history E fresh_state cs -> s = run E fresh_state cs -> safe_call E s c ->
  (exists ids M, (c = CPartialUsers ids M /\ snd (partial_fit_users E s ids M) = Raise x) \/
                 (c = CPartialItems ids M /\ snd (partial_fit_items E s ids M) = Raise x)) ->
  sX (run_call E s c) = sX s /\ sY (run_call E s c) = sY s /\
  forall qs q, snd (run_query E (run_queries E (run_call E s c) qs) q) = snd (run_query E s q).
Proof.
  intros T NT W E cs s c x SH -> SC HC. assert (CO := history_coherent E cs _ (fresh_coherent E) SH). set (s := run E fresh_state cs) in *.
  assert (KEY : coherent E (run_call E s c) /\ sX (run_call E s c) = sX s /\ sY (run_call E s c) = sY s).
  { destruct HC as [ids [M [[-> EX]|[-> EX]]]]; simpl in *.
    - destruct (partial_users_coherent E s ids M CO SC) as [A B]. destruct (B x EX). auto.
    - destruct (partial_items_coherent E s ids M CO SC) as [A B]. destruct (B x EX). auto. }
  destruct KEY as [C1 [EX EY]]. split; auto. split; auto. intros qs q.
  destruct (queries_frame E qs (run_call E s c)) as [FX FY]. rewrite EX in FX. rewrite EY in FY.
  assert (C2 := queries_coherent E qs _ C1). destruct (sX s) as [X|] eqn:HX; [destruct (sY s) as [Y|] eqn:HY|].
  - rewrite (query_answer E _ X Y q C2 FX FY), (query_answer E s X Y q CO HX HY). auto.
  - unfold run_query. rewrite FX, FY, HX, HY. auto.
  - unfold run_query. rewrite FX, HX. auto.
Qed.
Print Assumptions C44_partial.

(* ------------------------------------------------------------------ C68 *)
(** fit calls the callback once per completed iteration, in order, with the factors that
    iteration produced; it stops early only if a solver call fails. *)
Theorem C68_als : forall T (NT : Num T) W (E : env T W) s M X0 Y0 callback fit_callback s' tr r,
  fit E s M X0 Y0 callback fit_callback = (s', tr, r) ->
  let Cui := apply_alpha (e_alpha E) M in
  let X := match sX s with Some X => X | None => X0 end in
  let Y := match sY s with Some Y => Y | None => Y0 end in
  match callback, fit_callback with
  | None, None => tr = []
  | _, _ =>
      (forall i, (i < length tr)%nat -> exists Xi Yi, rounds E Cui (transpose Cui) (S i) X Y = Some (Xi, Yi) /\ nth_error tr i = Some (i, Xi, Yi)) /\
      (length tr <= e_iterations E)%nat /\
      (r = Ok tt -> length tr = e_iterations E) /\
      ((length tr < e_iterations E)%nat -> rounds E Cui (transpose Cui) (S (length tr)) X Y = None)
  end.
Proof.
  intros T NT W E s M X0 Y0 cb fc s' tr r R Cui X Y. unfold fit in R. fold Cui in R.
  set (s1 := {| sX := _ |}) in R. set (cb' := match cb with Some _ => cb | None => fc end) in R. fold X Y in R.
  destruct (fit_loop E Cui (transpose Cui) cb' (e_iterations E) 0 s1 X Y) as [[s2 tr2] r2] eqn:EL.
  assert (tr = tr2) by (destruct r2; inversion R; auto). subst tr2.
  assert (KEY : forall f, cb' = Some f ->
    (forall i, (i < length tr)%nat -> exists Xi Yi, rounds E Cui (transpose Cui) (S i) X Y = Some (Xi, Yi) /\ nth_error tr i = Some (i, Xi, Yi)) /\
      (length tr <= e_iterations E)%nat /\
      (r = Ok tt -> length tr = e_iterations E) /\
      ((length tr < e_iterations E)%nat -> rounds E Cui (transpose Cui) (S (length tr)) X Y = None)).
  { intros f EF. rewrite EF in EL. destruct (fit_loop_events E _ _ f _ _ _ _ _ _ _ _ EL) as [L [EV [OK BAD]]]. split; auto. split; auto.
    destruct r2 as [[]|x].
    - rewrite OK by auto. split; auto. lia.
    - split; [inversion R; subst; discriminate|]. intros _. apply (BAD x eq_refl). }
  unfold cb' in KEY. destruct cb as [f|]; [destruct fc; eapply KEY; eauto|]. destruct fc as [f|]; [eapply KEY; eauto|].
  unfold cb' in EL. clear - EL. revert EL. generalize (e_iterations E) 0%nat s1 X Y. intros k. revert s2 tr r2.
  induction k as [|k IH]; intros s2 tr r2 it s0 X1 Y1 EL; [inversion EL; auto|]. cbn [fit_loop] in EL.
  destruct (e_solver E Cui X1 Y1 (e_reg E)) as [X' [ex|]]; [inversion EL; auto|].
  destruct (e_solver E (transpose Cui) Y1 X' (e_reg E)) as [Y' [ey|]]; [inversion EL; auto|]. eapply IH; eauto.
Qed.
Print Assumptions C68_als.

(* ------------------------------------------------------------------ instances *)
(** One factor, exact rational arithmetic, the real solver loop. *)
Definition posv1 (A : list (list Q)) (b : list Q) : option (list Q) :=
  match A, b with
  | [[a]], [c] => if nltb nzero a then Some [ndiv c a] else None
  | _, _ => None
  end.
Definition ip {T} (solver : csr T -> list (list T) -> list (list T) -> T -> res (list (list T))) :=
  fun C X Y (r : T) => match solver C X Y r with Ok X' => (X', None) | Raise x => (X, Some x) end.
Definition exE (iterations : nat) : env Q unit := {|
  e_heap := simple_heap; e_fmin := (-1000000 # 1); e_norm := fun v => match v with [x] => Qabs.Qabs x | _ => 0 end; e_tiny := (1 # 1000);
  e_isnan := fun _ => false; e_posv := posv1; e_alpha := 1; e_reg := 1; e_n := 1; e_iterations := iterations;
  e_heapq := simple_heapq; e_cho_factor := fun _ => Some tt; e_cho_solve := fun _ v => v;
  e_solver := ip (least_squares posv1 1)
|}%Q.
Definition exMq : csr Q := csr_of_rows 2 [[(0%nat, 2%Q); (1%nat, 3%Q)]; [(1%nat, 2%Q)]].
Definition exX0 : list (list Q) := [[1%Q]; [1%Q]].
Definition ex_fit (cb : option (nat -> list (query Q unit))) : call Q unit := CFit exMq exX0 exX0 cb None.
Definition ex_rows (ids : nat) : csr Q := csr_of_rows 2 (firstn ids [[(0%nat, 2%Q)]; [(1%nat, 1%Q)]; [(0%nat, 4%Q); (1%nat, 1%Q)]]).

(** The object after fit. *)
Definition st0 : als_state Q := Eval vm_compute in run (exE 2) fresh_state [ex_fit None].
Lemma st0_eq : run (exE 2) fresh_state [ex_fit None] = st0.
Proof. vm_compute. reflexivity. Qed.
Definition the {A} (d : A) (o : option A) : A := match o with Some a => a | None => d end.
Definition ok {A} (d : A) (r : res A) : A := match r with Ok a => a | Raise _ => d end.
Definition stX : list (list Q) := Eval vm_compute in the [] (sX st0).
Definition stY : list (list Q) := Eval vm_compute in the [] (sY st0).

(** ids 3, 0 and -1 (again row 3, the last one wins); row 2 is a gap. *)
Definition st_new : list (list Q) := Eval vm_compute in
  ok [] (recalculate_user posv1 1%Q 1%Q 1 (gram 1 stY) stY (Batch [3; 0; -1]%Z) (ex_rows 3)).
Definition st_part : als_state Q := Eval vm_compute in fst (partial_fit_users (exE 2) st0 [3; 0; -1]%Z (ex_rows 3)).
Example C42_example :
  run (exE 2) fresh_state [ex_fit None] = st0 /\ sX st0 = Some stX /\ sY st0 = Some stY /\ length stX = 2%nat /\
  recalculate_user posv1 1%Q 1%Q 1 (gram 1 stY) stY (Batch [3; 0; -1]%Z) (ex_rows 3) = Ok st_new /\
  nth 0 st_new [] <> nth 2 st_new [] /\ nth 1 st_new [] <> nth 0 stX [] /\
  partial_fit_users (exE 2) st0 [3; 0; -1]%Z (ex_rows 3) = (st_part, Ok tt) /\
  sX st_part = Some [nth 1 st_new []; nth 1 stX []; [0%Q]; nth 2 st_new []] /\ sY st_part = Some stY.
Proof.
  split; [exact st0_eq|]. split; [reflexivity|]. split; [reflexivity|]. split; [reflexivity|]. split; [vm_compute; reflexivity|].
  split; [vm_compute; discriminate|]. split; [vm_compute; discriminate|]. split; [vm_compute; reflexivity|]. split; vm_compute; reflexivity.
Qed.

(** fit, fill the caches, a failing and a succeeding partial_fit, a second fit whose
    callback queries in its last iteration: a safe history. *)
Definition safe_cb : nat -> list (query Q unit) :=
  fun i => if (i =? 1)%nat then [QRecalculateUser (Batch [0%Z]) (ex_rows 1); QSimilarUsers (Scalar 0%Z) 2%Z None None]
           else [QRecommend (Scalar 0%Z) NotCsr 2%Z false None false None].
Definition call1 : call Q unit := CQuery (QSimilarUsers (Scalar 0%Z) 2%Z None None).
Definition call2 : call Q unit := CQuery (QRecalculateItem (Batch [0%Z]) (ex_rows 1)).
Definition call3 : call Q unit := CPartialUsers [0; -7]%Z (ex_rows 2).
Definition call4 : call Q unit := CPartialUsers [4]%Z (ex_rows 1).
Definition call5 : call Q unit := CFit (csr_of_rows 2 [[(0%nat, (-1)%Q)]; []; []; [(1%nat, (-3)%Q)]; []]) [] [] (Some safe_cb) None.
Definition st1 : als_state Q := Eval vm_compute in run_call (exE 2) st0 call1.
Definition st2 : als_state Q := Eval vm_compute in run_call (exE 2) st1 call2.
Definition st3 : als_state Q := Eval vm_compute in run_call (exE 2) st2 call3.
Definition st4 : als_state Q := Eval vm_compute in run_call (exE 2) st3 call4.
Definition st5 : als_state Q := Eval vm_compute in run_call (exE 2) st4 call5.
Lemma st1_eq : run_call (exE 2) st0 call1 = st1. Proof. vm_compute. reflexivity. Qed.
Lemma st2_eq : run_call (exE 2) st1 call2 = st2. Proof. vm_compute. reflexivity. Qed.
Lemma st3_eq : run_call (exE 2) st2 call3 = st3. Proof. vm_compute. reflexivity. Qed.
Lemma st4_eq : run_call (exE 2) st3 call4 = st4. Proof. vm_compute. reflexivity. Qed.
Lemma st5_eq : run_call (exE 2) st4 call5 = st5. Proof. vm_compute. reflexivity. Qed.
Definition safe_calls : list (call Q unit) := [ex_fit None; call1; call2; call3; call4; call5].
Lemma run_fit_eq : run_call (exE 2) fresh_state (ex_fit None) = st0. Proof. vm_compute. reflexivity. Qed.
Example C43_example : safe_history (exE 2) fresh_state safe_calls /\ run (exE 2) fresh_state safe_calls = st5 /\
  (exists Y v, sY st5 = Some Y /\ s_YtY st5 = Some v /\ v = gram 1 Y) /\ s_unorm st5 <> None /\ s_unorm st3 <> None /\ s_XtX st3 <> None /\
  length (the [] (sX st5)) = 5%nat.
Proof.
  split; [|split].
  - unfold safe_calls. cbn [safe_history]. rewrite run_fit_eq, st1_eq, st2_eq, st3_eq, st4_eq. split; [exact I|]. split; [exact I|]. split; [exact I|].
    split; [|split; [|split]].
    + intros X HX mx EM. inversion HX; subst. inversion EM; subst. simpl length. intros LE z Hz; simpl in Hz; intuition lia.
    + intros X HX mx EM. inversion HX; subst. inversion EM; subst. simpl length. intros LE z Hz; simpl in Hz; intuition lia.
    + intros i B. simpl in B. assert (i = 0%nat) by lia. subst. reflexivity.
    + exact I.
  - unfold safe_calls, run. cbn [fold_left]. rewrite run_fit_eq, st1_eq, st2_eq, st3_eq, st4_eq. apply st5_eq.
  - split; [|vm_compute; repeat split; discriminate].
    exists (the [] (sY st5)), (the [] (s_YtY st5)). split; [reflexivity|]. split; [reflexivity|]. vm_compute. reflexivity.
Qed.
(** The failing call in that history is C44's case. *)
Example C44_example : snd (partial_fit_users (exE 2) st2 [0; -7]%Z (ex_rows 2)) = Raise IndexError.
Proof. vm_compute. reflexivity. Qed.
Definition ex_run := Eval vm_compute in fit (exE 2) fresh_state exMq exX0 exX0 (Some safe_cb) None.
Example C68_example : fit (exE 2) fresh_state exMq exX0 exX0 (Some safe_cb) None = ex_run /\ snd ex_run = Ok tt /\
  map (fun e => fst (fst e)) (snd (fst ex_run)) = [0%nat; 1%nat] /\ map (fun e => snd (fst e)) (snd (fst ex_run)) <> [stX; stX].
Proof. split; [vm_compute; reflexivity|]. split; [reflexivity|]. split; [reflexivity|]. vm_compute. discriminate. Qed.

(** C43 is false when a training callback asks for something cached before the last
    iteration: here recalculate_user after the first of two iterations; later calls use
    the Gram matrix of the old item factors. *)
Definition cb_recalc : nat -> list (query Q unit) := fun i => if (i =? 0)%nat then [QRecalculateUser (Batch [0%Z]) (ex_rows 1)] else [].
Theorem C43_callback_refuted : exists (E : env Q unit) cs X Y q,
  sX (run E fresh_state cs) = Some X /\ sY (run E fresh_state cs) = Some Y /\
  (forall c, In c cs -> exists M X0 Y0 cb, c = CFit M X0 Y0 (Some cb) None) /\
  snd (run_query E (run E fresh_state cs) q) <>
  answer_from E X Y (norms_of (e_norm E) (e_tiny E) X) (norms_of (e_norm E) (e_tiny E) Y) (gram (e_n E) Y) (gram (e_n E) X) q.
Proof.
  exists (exE 2), [ex_fit (Some cb_recalc)], stX, stY, (QRecalculateUser (Batch [0%Z]) (ex_rows 1)).
  split; [vm_compute; reflexivity|]. split; [vm_compute; reflexivity|].
  split; [intros c [<-|[]]; unfold ex_fit; eauto 6|]. vm_compute. discriminate.
Qed.
Print Assumptions C43_callback_refuted.

(** C44 is false when a new largest id comes with an id below the range of the grown
    array: IndexError, but the user factors have grown. *)
Theorem C44_refuted : exists (E : env Q unit) cs s ids M q x, s = run E fresh_state cs /\
  snd (partial_fit_users E s ids M) = Raise x /\
  sX (fst (partial_fit_users E s ids M)) <> sX s /\
  snd (run_query E (fst (partial_fit_users E s ids M)) q) <> snd (run_query E s q).
Proof.
  exists (exE 2), [ex_fit None], st0, [2; -9]%Z, (ex_rows 2), (QRecommend (Scalar 2%Z) NotCsr 1%Z false None false None), IndexError.
  split; [symmetry; exact st0_eq|]. split; [vm_compute; reflexivity|]. split; vm_compute; discriminate.
Qed.
Print Assumptions C44_refuted.
(** And the norms cached before it are then stale: C43. *)
Definition bad_calls : list (call Q unit) := [ex_fit None; call1; CPartialUsers [2; -9]%Z (ex_rows 2)].
Definition bad_X : list (list Q) := Eval vm_compute in the [] (sX (run (exE 2) fresh_state bad_calls)).
Theorem C43_partial_fit_refuted : exists (E : env Q unit) cs X Y q,
  sX (run E fresh_state cs) = Some X /\ sY (run E fresh_state cs) = Some Y /\
  (forall M X0 Y0 cb fc, In (CFit M X0 Y0 cb fc) cs -> cb = None /\ fc = None) /\
  snd (run_query E (run E fresh_state cs) q) <>
  answer_from E X Y (norms_of (e_norm E) (e_tiny E) X) (norms_of (e_norm E) (e_tiny E) Y) (gram (e_n E) Y) (gram (e_n E) X) q.
Proof.
  exists (exE 2), bad_calls, bad_X, stY, (QSimilarUsers (Scalar 0%Z) 2%Z None None). split; [vm_compute; reflexivity|]. split; [vm_compute; reflexivity|]. split.
  - intros M X0 Y0 cb fc [X|[X|[X|[]]]]; inversion X; auto.
  - vm_compute. discriminate.
Qed.
Print Assumptions C43_partial_fit_refuted.

(* ------------------------------------------------------------------ C69 *)
(** recalculate_user and partial_fit_* reject a matrix with the wrong number of rows;
    all of them stay inside their arrays when the matrix has no more columns than there
    are factors (recalculate_item: and no fewer rows than ids). *)
Lemma ls_no_ub posv YtY (M : csr R) users n Y reg : csr_wf M -> (users <= c_rows M)%nat -> (c_cols M <= length Y)%nat ->
  least_squares_c posv YtY M users n Y reg <> Raise UB.
Proof.
  intros WF LR LC X. unfold least_squares_c in X.
  assert (P : forall u, In u (seq 0 users) -> (do row <- raw_entries M u; ls_row posv (add_diag reg YtY) n Y row) <> Raise UB).
  { intros u Hu. apply in_seq in Hu. rewrite raw_entries_ok by (auto; lia). cbn [bind]. unfold ls_row.
    assert (IN : forall p, In p (csr_row M u) -> (fst p < length Y)%nat).
    { intros p Hp. assert (fst p < c_cols M)%nat; [|lia]. apply (csr_row_indices_lt M u (fst p) WF). apply in_map. auto. }
    destruct (csr_row M u) as [|e row] eqn:ER; [discriminate|]. rewrite <- ER in *. clear e row ER.
    assert (S : forall s, exists s', fold_res (add_entry Y) (csr_row M u) s = Ok s').
    { clear X. induction (csr_row M u) as [|e row IH]; intros [A b]; simpl; eauto. rewrite raw_row_ok by (apply IN; left; auto). cbn [bind].
      apply IH. intros p Hp. apply IN. right; auto. }
    unfold system. destruct (S (add_diag reg YtY, zeros n)) as [[A b] EA]. rewrite EA. cbn [bind]. destruct (posv A b); discriminate. }
  revert X P. generalize (seq 0 users). intros l. induction l as [|u l IH]; intros X P; [discriminate|]. cbn [map_res] in X.
  destruct (do row <- raw_entries M u; ls_row posv (add_diag reg YtY) n Y row) as [v|x] eqn:EV; cbn [bind] in X.
  - destruct (map_res _ l) as [vs|x] eqn:EL; cbn [bind] in X; [discriminate|]. inversion X; subst. apply IH; auto. intros u' Hu'. apply P. right; auto.
  - inversion X; subst. apply (P u (or_introl eq_refl)). auto.
Qed.

Theorem C69_partial : forall posv alpha reg n YtY Y ids (M : csr R), csr_wf M -> (c_cols M <= length Y)%nat ->
  (c_rows M <> id_count ids -> recalculate_user posv alpha reg n YtY Y ids M = Raise ValueError) /\
  recalculate_user posv alpha reg n YtY Y ids M <> Raise UB /\
  ((id_count ids <= c_rows M)%nat -> recalculate_item posv alpha reg n YtY Y ids M <> Raise UB).
Proof.
  intros posv alpha reg n YtY Y ids M WF LC. unfold recalculate_user, recalculate_item. rewrite apply_alpha_scale.
  assert (WS : csr_wf (csr_scale alpha M)) by (destruct WF; constructor; simpl; auto; rewrite map_length; auto).
  split; [|split].
  - intros NE. destruct (Nat.eqb_spec (c_rows M) (id_count ids)); [tauto|reflexivity].
  - destruct (Nat.eqb_spec (c_rows M) (id_count ids)) as [EQ|]; cbn [negb]; [|discriminate]. apply ls_no_ub; auto. simpl. lia.
  - intros LE. apply ls_no_ub; auto.
Qed.
Print Assumptions C69_partial.
(** recalculate_item with fewer rows than ids reads behind indptr; with more rows it
    answers without complaint; recalculate_user with more columns than items reads
    behind the item factors. *)
Definition C69_more : list (list Q) := Eval vm_compute in ok [] (recalculate_item posv1 1%Q 1%Q 1 (gram 1 exX0) exX0 (Batch [0; 1]%Z) (ex_rows 3)).
Theorem C69_refuted : exists (posv : list (list Q) -> list Q -> option (list Q)) n Y (few more wide : csr Q) ids v,
  csr_wf few /\ csr_wf more /\ csr_wf wide /\ c_cols few = length Y /\ c_cols more = length Y /\ c_rows wide = id_count ids /\
  (c_rows few < id_count ids)%nat /\ (id_count ids < c_rows more)%nat /\
  recalculate_item posv 1%Q 1%Q n (gram n Y) Y ids few = Raise UB /\
  recalculate_item posv 1%Q 1%Q n (gram n Y) Y ids more = Ok v /\
  recalculate_user posv 1%Q 1%Q n (gram n Y) Y ids wide = Raise UB.
Proof.
  exists posv1, 1%nat, exX0, (ex_rows 1), (ex_rows 3), (csr_of_rows 3 [[(0%nat, 1%Q)]; [(2%nat, 1%Q)]]), (Batch [0; 1]%Z), C69_more.
  repeat (split; [first [apply csr_of_rows_wf; intros r p Hr Hp; simpl in Hr; repeat (destruct Hr as [<-|Hr]; [simpl in Hp; repeat (destruct Hp as [<-|Hp]; [simpl; lia|]); tauto|]); tauto
    |vm_compute; reflexivity|simpl; lia]|]). vm_compute. reflexivity.
Qed.
Print Assumptions C69_refuted.
Example C69_example : csr_wf exM /\ (c_cols exM <= length exY)%nat /\ (id_count (Batch [0; 1]%Z) <= c_rows exM)%nat.
Proof. split; [apply exM_canonical|]. unfold id_count. simpl. lia. Qed.
