(** Proofs about the ALS object: caches, incremental updates, callbacks. *)
From Coq Require Import List Arith Lia Bool ZArith.
From Verif Require Import Base Num Heap Sparse TopkModel RecommendModel AlsModel ExplainModel AlsState.
Import ListNotations.

Section Proofs.
Context {T : Type} `{Num T} {W : Type}.
Variable E : env T W.
Local Notation mat := (list (list T)).

Definition coherent (s : als_state T) : Prop :=
  (forall v, s_unorm s = Some v -> exists X, sX s = Some X /\ v = norms_of (e_norm E) (e_tiny E) X) /\
  (forall v, s_inorm s = Some v -> exists Y, sY s = Some Y /\ v = norms_of (e_norm E) (e_tiny E) Y) /\
  (forall v, s_YtY s = Some v -> exists Y, sY s = Some Y /\ v = gram (e_n E) Y) /\
  (forall v, s_XtX s = Some v -> exists X, sX s = Some X /\ v = gram (e_n E) X).
Definition no_caches (s : als_state T) : Prop :=
  s_unorm s = None /\ s_inorm s = None /\ s_YtY s = None /\ s_XtX s = None.
Lemma no_caches_coherent s : no_caches s -> coherent s.
Proof. intros [A [B [C D]]]. repeat split; intros v X; congruence. Qed.
Lemma fresh_coherent : coherent fresh_state.
Proof. apply no_caches_coherent. repeat split. Qed.

Lemma coherent_values s X Y : coherent s -> sX s = Some X -> sY s = Some Y ->
  unorms_value E s X = norms_of (e_norm E) (e_tiny E) X /\ inorms_value E s Y = norms_of (e_norm E) (e_tiny E) Y /\
  YtY_value E s Y = gram (e_n E) Y /\ XtX_value E s X = gram (e_n E) X.
Proof.
  intros [A [B [C D]]] EX EY. unfold unorms_value, inorms_value, YtY_value, XtX_value. repeat split.
  - destruct (s_unorm s) as [v|] eqn:V; auto. destruct (A v eq_refl) as [X' [E1 ->]]. congruence.
  - destruct (s_inorm s) as [v|] eqn:V; auto. destruct (B v eq_refl) as [X' [E1 ->]]. congruence.
  - destruct (s_YtY s) as [v|] eqn:V; auto. destruct (C v eq_refl) as [X' [E1 ->]]. congruence.
  - destruct (s_XtX s) as [v|] eqn:V; auto. destruct (D v eq_refl) as [X' [E1 ->]]. congruence.
Qed.
Lemma query_frame s q : sX (fst (run_query E s q)) = sX s /\ sY (fst (run_query E s q)) = sY s.
Proof.
  unfold run_query. destruct (sX s) as [X|] eqn:EX; [|simpl; auto]. destruct (sY s) as [Y|] eqn:EY; [|simpl; auto]. cbn [fst].
  destruct (reads_YtY q), (reads_XtX q), (reads_unorm q), (reads_inorm E X (XtX_value E s X) q); simpl; auto.
Qed.
Lemma query_coherent s q : coherent s -> coherent (fst (run_query E s q)).
Proof.
  intros C. unfold run_query. destruct (sX s) as [X|] eqn:EX; [|exact C]. destruct (sY s) as [Y|] eqn:EY; [|exact C]. cbn [fst].
  destruct (coherent_values s X Y C EX EY) as [V1 [V2 [V3 V4]]]. rewrite V1, V2, V3, V4. destruct C as [A [B [C D]]].
  destruct (reads_YtY q), (reads_XtX q), (reads_unorm q), (reads_inorm E X (gram (e_n E) X) q);
    (split; [|split; [|split]]); simpl; rewrite ?EX, ?EY in *; auto; intros v Hv; inversion Hv; subst; eauto.
Qed.
Lemma query_answer s X Y q : coherent s -> sX s = Some X -> sY s = Some Y ->
  snd (run_query E s q) =
  answer_from E X Y (norms_of (e_norm E) (e_tiny E) X) (norms_of (e_norm E) (e_tiny E) Y) (gram (e_n E) Y) (gram (e_n E) X) q.
Proof.
  intros C EX EY. unfold run_query. rewrite EX, EY. cbn [snd]. destruct (coherent_values s X Y C EX EY) as [-> [-> [-> ->]]]. auto.
Qed.
Lemma queries_coherent qs : forall s, coherent s -> coherent (run_queries E s qs).
Proof. induction qs as [|q qs IH]; intros s C; simpl; auto. apply IH, query_coherent, C. Qed.
Lemma queries_frame qs : forall s, sX (run_queries E s qs) = sX s /\ sY (run_queries E s qs) = sY s.
Proof.
  induction qs as [|q qs IH]; intros s; simpl; auto. destruct (IH (fst (run_query E s q))) as [A B]. destruct (query_frame s q) as [C D].
  unfold run_queries in *. split; congruence.
Qed.

(** Calls that never fill a cache. *)
Definition caching (q : query T W) : bool :=
  match q with QRecommend _ _ _ _ _ rc _ => rc | QExplain _ _ _ (Some _) _ => false | _ => true end.
Lemma query_noncaching s q : caching q = false -> fst (run_query E s q) = s.
Proof.
  intros NC. unfold run_query. destruct (sX s) as [X|]; auto. destruct (sY s) as [Y|]; auto. cbn [fst].
  destruct q as [u [|M] N fl fi [|] its| | | | | |u M i [w|] N]; try discriminate NC; auto.
Qed.
Lemma queries_noncaching qs : forall s, forallb (fun q => negb (caching q)) qs = true -> run_queries E s qs = s.
Proof.
  induction qs as [|q qs IH]; intros s NC; simpl in *; auto. apply andb_prop in NC. destruct NC as [A B].
  rewrite query_noncaching by (destruct (caching q); auto; discriminate). apply IH; auto.
Qed.

(** Callbacks that fill no cache before the last iteration. *)
Definition safe_callback (iterations : nat) (cb : option (nat -> list (query T W))) : Prop :=
  match cb with None => True | Some f => forall i, (S i < iterations)%nat -> forallb (fun q => negb (caching q)) (f i) = true end.

Lemma fit_loop_coherent Cui Ciu cb k : forall it s X Y,
  match cb with None => True | Some f => forall i, (it <= i)%nat -> (S i < it + k)%nat -> forallb (fun q => negb (caching q)) (f i) = true end ->
  no_caches s -> coherent (fst (fst (fit_loop E Cui Ciu cb k it s X Y))).
Proof.
  induction k as [|k IH]; intros it s X Y SC NC; [apply no_caches_coherent; auto|]. cbn [fit_loop].
  destruct (e_solver E Cui X Y (e_reg E)) as [X' [ex|]]; [apply no_caches_coherent; exact NC|].
  destruct (e_solver E Ciu Y X' (e_reg E)) as [Y' [ey|]]; [apply no_caches_coherent; exact NC|].
  destruct cb as [f|]; [|apply IH; auto].
  set (s1 := set_Y (set_X s (Some X')) (Some Y')). assert (NC1 : no_caches s1) by exact NC.
  destruct k as [|k].
  - cbn [fit_loop fst]. apply queries_coherent, no_caches_coherent, NC1.
  - rewrite queries_noncaching by (apply SC; lia).
    assert (R := IH (S it) s1 X' Y' ltac:(intros i A B; apply SC; lia) NC1).
    destruct (fit_loop E Cui Ciu (Some f) (S k) (S it) s1 X' Y') as [[s' tr] r]. exact R.
Qed.
Lemma fit_coherent s M X0 Y0 cb fc : safe_callback (e_iterations E) (match cb with Some _ => cb | None => fc end) ->
  coherent (fst (fst (fit E s M X0 Y0 cb fc))).
Proof.
  intros SC. unfold fit. set (cb' := match cb with Some _ => cb | None => fc end) in *.
  set (s1 := {| sX := _ |}). set (X := match sX s with Some X => X | None => X0 end). set (Y := match sY s with Some Y => Y | None => Y0 end).
  set (C := apply_alpha (e_alpha E) M).
  assert (R := fit_loop_coherent C (transpose C) cb' (e_iterations E) 0 s1 X Y
    ltac:(destruct cb'; auto; intros i _ B; apply SC; lia) ltac:(repeat split)).
  destruct (fit_loop E C (transpose C) cb' (e_iterations E) 0 s1 X Y) as [[s2 tr] [u|x]]; exact R.
Qed.

(* ------------------------------------------------------------------ growing and scattering *)
Lemma max_id_spec l mx : max_id l = Ok mx -> In mx l /\ forall z, In z l -> (z <= mx)%Z.
Proof.
  destruct l as [|a l]; [discriminate|]. simpl. intros X. inversion X as [X1]. clear X mx X1. revert a. induction l as [|b l IH]; intros a; simpl.
  - split; auto. intros z [<-|[]]. lia.
  - destruct (IH (Z.max a b)) as [I L]. split.
    + destruct I as [I|I]; [|auto]. destruct (Z.max_spec a b) as [[_ X]|[_ X]]; rewrite X in *; auto.
    + intros z [<-|[<-|Hz]]; [| |apply L; right; auto]; specialize (L _ (or_introl eq_refl)); lia.
Qed.
Lemma grow_length rows mx : length (grow E rows mx) = Nat.max (length rows) (Z.to_nat (mx + 1)).
Proof. unfold grow. destruct (Z.leb_spec (Z.of_nat (length rows)) mx); rewrite ?app_length, ?repeat_length; lia. Qed.
Lemma grow_nth rows mx r : (r < length (grow E rows mx))%nat ->
  nth r (grow E rows mx) [] = if (r <? length rows)%nat then nth r rows [] else zeros (e_n E).
Proof.
  intros B. unfold grow in *. destruct (Z.leb_spec (Z.of_nat (length rows)) mx); destruct (Nat.ltb_spec r (length rows)); auto; try lia.
  - apply app_nth1; auto.
  - rewrite app_length, repeat_length in B. rewrite app_nth2 by lia. apply nth_repeat || (rewrite nth_indep with (d' := zeros (e_n E)) by (rewrite repeat_length; lia); apply nth_repeat).
Qed.

(** [factors[ids]] after the assignment: the last position that names the row. *)
Fixpoint last_index (r : nat) (ks : list nat) : option nat :=
  match ks with
  | [] => None
  | k :: ks' => match last_index r ks' with Some i => Some (S i) | None => if (k =? r)%nat then Some 0%nat else None end
  end.
Lemma scatter_fold ks : forall (new rows : mat) r, (length ks <= length new)%nat -> (r < length rows)%nat ->
  nth r (fold_left (fun m p => upd (fst p) (snd p) m) (combine ks new) rows) [] =
  match last_index r ks with Some k => nth k new [] | None => nth r rows [] end /\
  length (fold_left (fun m p => upd (fst p) (snd p) m) (combine ks new) rows) = length rows.
Proof.
  induction ks as [|k ks IH]; intros [|f new] rows r L B; simpl in *; auto; try lia.
  destruct (IH new (upd k f rows) r ltac:(lia) ltac:(rewrite upd_length; auto)) as [E1 E2]. rewrite E1, E2, upd_length. split; auto.
  destruct (last_index r ks) as [i|]; auto. destruct (Nat.eqb_spec k r) as [->|NE].
  - apply nth_upd_eq; auto.
  - apply nth_upd_neq; auto.
Qed.

Lemma scatter_spec (rows : mat) ids new rows' : length ids = length new -> scatter rows ids new = Ok rows' ->
  exists ks, map_res (np_index (length rows)) ids = Ok ks /\ length rows' = length rows /\
    forall r, (r < length rows)%nat -> nth r rows' [] = match last_index r ks with Some k => nth k new [] | None => nth r rows [] end.
Proof.
  intros L E1. unfold scatter in E1. destruct (map_res (np_index (length rows)) ids) as [ks|] eqn:EK; [|discriminate]. inversion E1; subst.
  assert (LK : length ks = length ids) by (apply map_res_ok in EK; clear -EK; induction EK; simpl; auto). exists ks. split; auto.
  split.
  - destruct rows as [|r0 rows]; [|apply (scatter_fold ks new (r0 :: rows) 0); simpl; lia].
    clear. generalize (combine ks new). intros l. induction l as [|[k v] l IH]; simpl; auto. destruct k; auto.
  - intros r B. apply scatter_fold; auto. lia.
Qed.

(* ------------------------------------------------------------------ partial_fit *)
(** Ids that numpy accepts as indices of the grown array. *)
Definition ids_fit (rows : mat) (ids : list Z) : Prop :=
  forall mx, max_id ids = Ok mx -> (Z.of_nat (length rows) <= mx)%Z -> forall z, In z ids -> (- (mx + 1) <= z)%Z.

Lemma np_index_some m z : (- Z.of_nat m <= z < Z.of_nat m)%Z -> exists i, np_index m z = Ok i.
Proof.
  intros B. unfold np_index. destruct (Z.leb_spec 0 z), (Z.ltb_spec z (Z.of_nat m)), (Z.leb_spec (- Z.of_nat m) z), (Z.ltb_spec z 0); simpl; eauto; lia.
Qed.
Lemma map_res_total {A B} (f : A -> res B) l : (forall a, In a l -> exists b, f a = Ok b) -> exists bs, map_res f l = Ok bs.
Proof.
  induction l as [|a l IH]; intros P; simpl; eauto. destruct (P a (or_introl eq_refl)) as [b ->]. simpl.
  destruct IH as [bs ->]; [intros; apply P; right; auto|]. simpl. eauto.
Qed.
Lemma failed_scatter rows ids mx new x : max_id ids = Ok mx -> ids_fit rows ids -> scatter (grow E rows mx) ids new = Raise x -> grow E rows mx = rows.
Proof.
  intros EM F ES. unfold grow. destruct (Z.leb_spec (Z.of_nat (length rows)) mx) as [G|]; auto. exfalso.
  destruct (map_res_total (np_index (length (grow E rows mx))) ids) as [ks EK].
  - intros z Hz. apply np_index_some. rewrite grow_length. pose proof (F mx EM G z Hz). pose proof (proj2 (max_id_spec _ _ EM) z Hz). lia.
  - unfold scatter in ES. rewrite EK in ES. discriminate.
Qed.

Lemma partial_users_coherent s ids M : coherent s -> (forall X, sX s = Some X -> ids_fit X ids) ->
  coherent (fst (partial_fit_users E s ids M)) /\
  (forall x, snd (partial_fit_users E s ids M) = Raise x ->
     sX (fst (partial_fit_users E s ids M)) = sX s /\ sY (fst (partial_fit_users E s ids M)) = sY s).
Proof.
  intros C F. unfold partial_fit_users. destruct (negb (length ids =? c_rows M)); [simpl; auto|].
  destruct (sX s) as [X|] eqn:EX; [|simpl; rewrite EX; auto]. destruct (sY s) as [Y|] eqn:EY; [|simpl; rewrite EX, EY; auto].
  destruct (coherent_values s X Y C EX EY) as [V1 [V2 [V3 V4]]]. rewrite V3.
  assert (C1 : coherent (set_YtY s (Some (gram (e_n E) Y)))).
  { destruct C as [A [B [C D]]]. repeat split; simpl; auto. intros v Hv. inversion Hv; subst. eauto. }
  destruct (recalculate_user _ _ _ _ _ _ _ _) as [new|x]; [|simpl; rewrite EX, EY; auto].
  destruct (max_id ids) as [mx|x] eqn:EM; [|simpl; rewrite EX, EY; auto].
  destruct (scatter (grow E X mx) ids new) as [X2|x] eqn:ES.
  - simpl. split; [|discriminate]. destruct C1 as [_ [B [C1 _]]]. repeat split; simpl; try discriminate; auto.
  - simpl. rewrite (failed_scatter X ids mx new x EM (F X eq_refl) ES). rewrite EY. split; auto.
    destruct C1 as [A [B [C1 D]]]. simpl in *. rewrite EX in *. repeat split; simpl; auto.
Qed.
Lemma partial_items_coherent s ids M : coherent s -> (forall Y, sY s = Some Y -> ids_fit Y ids) ->
  coherent (fst (partial_fit_items E s ids M)) /\
  (forall x, snd (partial_fit_items E s ids M) = Raise x ->
     sX (fst (partial_fit_items E s ids M)) = sX s /\ sY (fst (partial_fit_items E s ids M)) = sY s).
Proof.
  intros C F. unfold partial_fit_items. destruct (negb (length ids =? c_rows M)); [simpl; auto|].
  destruct (sX s) as [X|] eqn:EX; [|simpl; rewrite EX; auto]. destruct (sY s) as [Y|] eqn:EY; [|simpl; rewrite EX, EY; auto].
  destruct (coherent_values s X Y C EX EY) as [V1 [V2 [V3 V4]]]. rewrite V4.
  assert (C1 : coherent (set_XtX s (Some (gram (e_n E) X)))).
  { destruct C as [A [B [C D]]]. repeat split; simpl; auto. intros v Hv. inversion Hv; subst. eauto. }
  destruct (recalculate_item _ _ _ _ _ _ _ _) as [new|x]; [|simpl; rewrite EX, EY; auto].
  destruct (max_id ids) as [mx|x] eqn:EM; [|simpl; rewrite EX, EY; auto].
  destruct (scatter (grow E Y mx) ids new) as [Y2|x] eqn:ES.
  - simpl. split; [|discriminate]. destruct C1 as [A [_ [_ D]]]. repeat split; simpl; try discriminate; auto.
  - simpl. rewrite (failed_scatter Y ids mx new x EM (F Y eq_refl) ES). rewrite EX. split; auto.
    destruct C1 as [A [B [C1 D]]]. simpl in *. rewrite EY in *. repeat split; simpl; auto.
Qed.

(** Histories without the two dangerous kinds of calls. *)
Definition safe_call (s : als_state T) (c : call T W) : Prop :=
  match c with
  | CQuery _ => True
  | CFit _ _ _ cb fc => safe_callback (e_iterations E) (match cb with Some _ => cb | None => fc end)
  | CPartialUsers ids _ => forall X, sX s = Some X -> ids_fit X ids
  | CPartialItems ids _ => forall Y, sY s = Some Y -> ids_fit Y ids
  end.
Fixpoint safe_history (s : als_state T) (cs : list (call T W)) : Prop :=
  match cs with [] => True | c :: cs' => safe_call s c /\ safe_history (run_call E s c) cs' end.
Lemma history_coherent cs : forall s, coherent s -> safe_history s cs -> coherent (run E s cs).
Proof.
  induction cs as [|c cs IH]; intros s C S; simpl in *; auto. destruct S as [S1 S2]. apply IH; auto.
  destruct c as [q|M X0 Y0 cb fc|ids M|ids M]; simpl in *.
  - apply query_coherent; auto.
  - apply fit_coherent; auto.
  - apply partial_users_coherent; auto.
  - apply partial_items_coherent; auto.
Qed.

(* ------------------------------------------------------------------ callbacks *)
(** The factors after [k] rounds, [None] once a round has failed. *)
Fixpoint rounds (Cui Ciu : csr T) (k : nat) (X Y : mat) : option (mat * mat) :=
  match k with
  | O => Some (X, Y)
  | S k' =>
      match rounds Cui Ciu k' X Y with
      | None => None
      | Some (X1, Y1) =>
          match e_solver E Cui X1 Y1 (e_reg E) with
          | (X', None) => match e_solver E Ciu Y1 X' (e_reg E) with (Y', None) => Some (X', Y') | _ => None end
          | _ => None
          end
      end
  end.
Lemma rounds_front Cui Ciu k : forall X Y, rounds Cui Ciu (S k) X Y =
  match e_solver E Cui X Y (e_reg E) with
  | (X', None) => match e_solver E Ciu Y X' (e_reg E) with (Y', None) => rounds Cui Ciu k X' Y' | _ => None end
  | _ => None
  end.
Proof.
  induction k as [|k IH]; intros X Y; [reflexivity|].
  transitivity (match rounds Cui Ciu (S k) X Y with
      | None => None
      | Some (X1, Y1) =>
          match e_solver E Cui X1 Y1 (e_reg E) with
          | (X', None) => match e_solver E Ciu Y1 X' (e_reg E) with (Y', None) => Some (X', Y') | _ => None end
          | _ => None
          end
      end); [reflexivity|]. rewrite IH.
  destruct (e_solver E Cui X Y (e_reg E)) as [X' [ex|]]; auto. destruct (e_solver E Ciu Y X' (e_reg E)) as [Y' [ey|]]; auto.
Qed.
Lemma fit_loop_events Cui Ciu f k : forall it s X Y s' tr r, fit_loop E Cui Ciu (Some f) k it s X Y = (s', tr, r) ->
  (length tr <= k)%nat /\
  (forall i, (i < length tr)%nat -> exists Xi Yi, rounds Cui Ciu (S i) X Y = Some (Xi, Yi) /\ nth_error tr i = Some (it + i, Xi, Yi)%nat) /\
  (r = Ok tt -> length tr = k) /\
  (forall x, r = Raise x -> (length tr < k)%nat /\ rounds Cui Ciu (S (length tr)) X Y = None).
Proof.
  induction k as [|k IH]; intros it s X Y s' tr r R.
  - inversion R; subst. simpl. repeat split; auto; try discriminate. intros i B. lia.
  - cbn [fit_loop] in R. destruct (e_solver E Cui X Y (e_reg E)) as [X' [ex|]] eqn:E1.
    { inversion R; subst. simpl length. split; [lia|]. split; [intros i B; lia|]. split; [discriminate|]. intros x _. split; [lia|]. rewrite rounds_front, E1. auto. }
    destruct (e_solver E Ciu Y X' (e_reg E)) as [Y' [ey|]] eqn:E2.
    { inversion R; subst. simpl length. split; [lia|]. split; [intros i B; lia|]. split; [discriminate|]. intros x _. split; [lia|]. rewrite rounds_front, E1, E2. auto. }
    set (s1 := run_queries E (set_Y (set_X s (Some X')) (Some Y')) (f it)) in R.
    destruct (fit_loop E Cui Ciu (Some f) k (S it) s1 X' Y') as [[s2 tr2] r2] eqn:E3. inversion R; subst. clear R.
    destruct (IH _ _ _ _ _ _ _ E3) as [L [EV [OK BAD]]]. simpl length. split; [lia|]. split; [|split].
    + intros [|i] B.
      * exists X', Y'. rewrite rounds_front, E1, E2. simpl. rewrite Nat.add_0_r. auto.
      * destruct (EV i ltac:(lia)) as [Xi [Yi [A1 A2]]]. exists Xi, Yi. rewrite rounds_front, E1, E2. split; auto. simpl. rewrite A2. do 3 f_equal. lia.
    + intros ->. rewrite OK; auto.
    + intros x ->. destruct (BAD x eq_refl). split; [lia|]. rewrite rounds_front, E1, E2. auto.
Qed.
End Proofs.
