(** Proofs about GpuBpr. *)
From Coq Require Import List Arith Lia Bool ZArith Permutation.
From Verif Require Import Base Num Heap Sparse ThreadProg BprModel BprProofs BprProofs2 GpuAls GpuAlsProofs2 GpuBpr.
Import ListNotations.
Local Open Scope nat_scope.

(* ------------------------------------------------------------------ fixed events *)
(** Whatever it reads, the program emits exactly [es] and returns [a]. *)
Section Emits.
Context {Cell Val Event A : Type} (cell_eqb : Cell -> Cell -> bool).
Inductive emits (a : A) : list Event -> prog Cell Val Event A -> Prop :=
| em_ret : emits a [] (Ret a)
| em_rd es c k : (forall v, emits a es (k v)) -> emits a es (Rd c k)
| em_wr es c v k : emits a es k -> emits a es (Wr c v k)
| em_ev e es k : emits a es k -> emits a (e :: es) (Ev e k).

Lemma upd_perm (B : Type) (ess : list (list B)) t es es' e : nth_error ess t = Some es -> es = e ++ es' ->
  Permutation (concat ess) (e ++ concat (upd t es' ess)).
Proof.
  revert t. induction ess as [|x ess IH]; intros [|t] En E; simpl in *; try discriminate.
  - injection En as ->. subst. rewrite app_assoc. auto.
  - rewrite (IH t En E). rewrite !app_assoc. apply Permutation_app_tail, Permutation_app_comm.
Qed.

Lemma emits_interleave sched : forall (qs : list A) ess m ps log m' ps' log',
  Forall2 (fun q p => emits (fst q) (snd q) p) (combine qs ess) ps -> length qs = length ess ->
  fold_left (tstep cell_eqb) sched (m, ps, log) = (m', ps', log') ->
  exists ess', length ess' = length qs /\ Forall2 (fun q p => emits (fst q) (snd q) p) (combine qs ess') ps' /\
    Permutation (log ++ concat ess) (log' ++ concat ess').
Proof.
  induction sched as [|t sched IH]; intros qs ess m ps log m' ps' log' HF HL HE.
  - simpl in HE. injection HE as -> -> ->. exists ess. auto.
  - cbn [fold_left] in HE. unfold tstep at 2 in HE. destruct (nth_error ps t) as [p|] eqn:Ep; [|eapply IH; eauto].
    assert (HQ : exists q es, nth_error qs t = Some q /\ nth_error ess t = Some es /\ emits q es p).
    { clear -HF HL Ep. revert t ps ess HL HF Ep. induction qs as [|q qs IHq]; intros t ps [|es ess] HL HF Ep; simpl in *; try discriminate.
      - inversion HF; subst. destruct t; discriminate.
      - inversion HF; subst. destruct t as [|t]; simpl in *.
        + injection Ep as ->. eauto.
        + eapply IHq; eauto. }
    destruct HQ as (q & es & Eq & Ees & Em).
    assert (HU : forall es' p', emits q es' p' -> Forall2 (fun q p => emits (fst q) (snd q) p) (combine qs (upd t es' ess)) (upd t p' ps)).
    { clear -HF HL Eq Ees. revert t ps ess HL HF Eq Ees. induction qs as [|q0 qs IHq]; intros t ps [|es0 ess] HL HF Eq Ees es' p' Em'; simpl in *; try discriminate.
      - destruct t; discriminate.
      - inversion HF; subst. destruct t as [|t]; simpl in *.
        + injection Eq as ->. constructor; auto.
        + constructor; auto. }
    assert (HLU : forall es', length qs = length (upd t es' ess)) by (intros; rewrite upd_length; auto).
    destruct p as [a|c k|c v k|e k]; cbn [pstep] in HE; inversion Em; subst.
    + destruct (IH qs (upd t [] ess) _ _ _ _ _ _ (HU _ _ Em) (HLU _) HE) as (ess' & H1 & H2 & H3). exists ess'. split; [auto|split; [auto|]].
      rewrite <- H3, app_nil_r. apply Permutation_app_head. apply (upd_perm _ ess t [] [] []); auto.
    + match goal with X : forall v, emits q es (k v) |- _ => rename X into Hk end.
      destruct (IH qs (upd t es ess) _ _ _ _ _ _ (HU _ _ (Hk (m c))) (HLU _) HE) as (ess' & H1 & H2 & H3). exists ess'. split; [auto|split; [auto|]].
      rewrite <- H3, app_nil_r. apply Permutation_app_head. apply (upd_perm _ ess t es es []); auto.
    + match goal with X : emits q es k |- _ => rename X into Hk end.
      destruct (IH qs (upd t es ess) _ _ _ _ _ _ (HU _ _ Hk) (HLU _) HE) as (ess' & H1 & H2 & H3). exists ess'. split; [auto|split; [auto|]].
      rewrite <- H3, app_nil_r. apply Permutation_app_head. apply (upd_perm _ ess t es es []); auto.
    + match goal with X : emits q ?e1 k |- _ => rename e1 into es1; rename X into Em1 end.
      destruct (IH qs (upd t es1 ess) _ _ _ _ _ _ (HU _ _ Em1) (HLU _) HE) as (ess' & H1 & H2 & H3). exists ess'. split; [auto|split; [auto|]].
      rewrite <- H3. rewrite <- app_assoc. apply Permutation_app_head. apply (upd_perm _ ess t (e :: es1) es1 [e]); auto.
Qed.

(** At the end: the results are the expected ones and the log is a permutation of all events. *)
Lemma emits_done sched (qs : list A) ess m ps m' ps' log rs :
  Forall2 (fun q p => emits (fst q) (snd q) p) (combine qs ess) ps -> length qs = length ess ->
  interleave cell_eqb sched m ps = (m', ps', log) -> results ps' = Some rs ->
  rs = qs /\ Permutation log (concat ess).
Proof.
  intros HF HL HE HR. unfold interleave in HE. destruct (emits_interleave sched qs ess m ps [] m' ps' log HF HL HE) as (ess' & L' & F' & P).
  assert (G : rs = qs /\ concat ess' = []).
  { clear -L' F' HR. revert ps' rs ess' L' F' HR. induction qs as [|q qs IH]; intros ps' rs [|es ess'] L' F' HR; simpl in *; try discriminate.
    - inversion F'; subst. simpl in HR. injection HR as <-. auto.
    - inversion F' as [|x1 x2 x3 x4 H1 H2 H3 H4]; subst. cbn [fst snd] in *. simpl in HR. destruct x2; try discriminate. inversion H1; subst.
      destruct (results x4) eqn:ER; [|discriminate]. simpl in HR. injection HR as <-.
      destruct (IH _ _ _ ltac:(injection L' as L'; exact L') H2 ER) as [-> ->]. auto. }
  destruct G as [-> G]. rewrite G, app_nil_r in P. split; auto. apply Permutation_sym. exact P.
Qed.

(** Programs that emit fixed lists can be run to their ends, one after the other. *)
Lemma schedule_ends : forall (qs : list A) ess (ps : list (prog Cell Val Event A)),
  Forall2 (fun q p => emits (fst q) (snd q) p) (combine qs ess) ps -> length qs = length ess ->
  forall (done : list A) m log, exists sched m' log',
  fold_left (tstep cell_eqb) sched (m, map Ret done ++ ps, log) = (m', map Ret (done ++ qs), log').
Proof.
  induction qs as [|q qs IH]; intros [|es ess] ps HF HL done m log; simpl in *; try discriminate.
  - inversion HF; subst. exists []. simpl. rewrite !app_nil_r. eauto.
  - inversion HF as [|x1 p x3 ps' H1 H2 H3 H4]; subst. cbn [fst snd] in H1.
    assert (G : forall es p, emits q es p -> forall m log, exists sched m' log',
      fold_left (tstep cell_eqb) sched (m, map Ret done ++ p :: ps', log) = (m', map Ret done ++ Ret q :: ps', log')).
    { assert (EN : forall p, nth_error (map Ret done ++ p :: ps') (length done) = Some p).
      { intros p0. rewrite nth_error_app2 by (rewrite map_length; lia). rewrite map_length, Nat.sub_diag. auto. }
      assert (EU : forall p p', upd (length done) p' (map Ret done ++ p :: ps') = map Ret done ++ p' :: ps').
      { intros p0 p'. clear. induction done; simpl; congruence. }
      assert (ST : forall m p log, tstep cell_eqb (m, map Ret done ++ p :: ps', log) (length done) =
         let '(m1, p1, es1) := pstep cell_eqb m p in (m1, map Ret done ++ p1 :: ps', log ++ es1)).
      { intros m0 p0 l0. unfold tstep. rewrite EN. destruct (pstep cell_eqb m0 p0) as [[m1 p1] es1]. rewrite EU. auto. }
      intros es0 p0 Em. induction Em as [|es0 c k Hk IHk|es0 c v k Hk IHk|e es0 k Hk IHk]; intros m0 l0.
      - exists []. simpl. eauto.
      - destruct (IHk (m0 c) m0 (l0 ++ [])) as (s & m' & l' & E). exists (length done :: s), m', l'. cbn [fold_left]. rewrite ST. cbn [pstep]. exact E.
      - destruct (IHk (mset cell_eqb m0 c v) (l0 ++ [])) as (s & m' & l' & E). exists (length done :: s), m', l'. cbn [fold_left]. rewrite ST. cbn [pstep]. exact E.
      - destruct (IHk m0 (l0 ++ [e])) as (s & m' & l' & E). exists (length done :: s), m', l'. cbn [fold_left]. rewrite ST. cbn [pstep]. exact E. }
    destruct (G es p H1 m log) as (s1 & m1 & l1 & E1).
    destruct (IH ess ps' H2 ltac:(lia) (done ++ [q]) m1 l1) as (s2 & m2 & l2 & E2).
    exists (s1 ++ s2), m2, l2. rewrite fold_left_app. etransitivity; [apply f_equal; exact E1|].
    replace (map Ret done ++ Ret q :: ps') with (map Ret (done ++ [q]) ++ ps') by (rewrite map_app, <- app_assoc; auto).
    rewrite <- app_assoc in E2. exact E2.
Qed.
Lemma results_rets (qs : list A) : results (map (@Ret Cell Val Event A) qs) = Some qs.
Proof. induction qs; simpl; auto. rewrite IHqs. auto. Qed.
End Emits.

(* ------------------------------------------------------------------ the threads of the kernel *)
Section Lanes.
Context {T : Type} {NT : Num T}.
Implicit Types (o : bpr_opts (T := T)) (k : kernel_in) (m : bmem (T := T)).

Definition kept o k (is : list nat) : list nat := filter (fun i => negb (is_skipped o k i)) is.
Definition n_skipped o k (is : list nat) : nat := length (filter (is_skipped o k) is).
Definition n_correct o k (z : nat -> T) (is : list nat) : nat := length (filter (fun i => nltb (z i) half) (kept o k is)).

Lemma lane_emits o k cols j z : forall is c s,
  emits (if j =? 0 then (c + n_correct o k z is, s + n_skipped o k is) else (0, 0)) (map (sample_of k) (kept o k is)) (gpu_bpr_lane o k cols j z is c s).
Proof.
  induction is as [|i is IH]; intros c s.
  - unfold n_correct, n_skipped, kept. simpl. rewrite !Nat.add_0_r. destruct (j =? 0); constructor.
  - cbn [gpu_bpr_lane]. destruct (is_skipped o k i) eqn:ES.
    + unfold n_correct, n_skipped, kept in *. cbn [filter]. rewrite ES. cbn [negb length]. specialize (IH c (S s)).
      replace (s + S (length (filter (is_skipped o k) is))) with (S s + length (filter (is_skipped o k) is)) by lia. exact IH.
    + unfold n_correct, n_skipped, kept in *. cbn [filter]. rewrite ES. cbn [negb map filter]. destruct (sample_of k i) as [[u l] d] eqn:EE.
      destruct (nltb (z i) half); cbn [length].
      * specialize (IH (S c) s). replace (c + S (length (filter (fun i => nltb (z i) half) (filter (fun i => negb (is_skipped o k i)) is)))) with
          (S c + length (filter (fun i => nltb (z i) half) (filter (fun i => negb (is_skipped o k i)) is))) by lia.
        repeat (constructor; intros). destruct (j <? cols); repeat (constructor; intros); exact IH.
      * specialize (IH c s). repeat (constructor; intros). destruct (j <? cols); repeat (constructor; intros); exact IH.
Qed.

(** Which cells a thread touches. *)
Lemma lane_safe (PR PW : cell -> Prop) (PE : event -> Prop) o k cols j z : forall is,
  Forall (fun i => is_skipped o k i = false -> let '(u, l, d) := sample_of k i in
    PE (u, l, d) /\ PR (CX u j) /\ PR (CY l j) /\ PR (CY d j) /\ PW (CY l j) /\ PW (CY d j) /\ (j < cols -> PW (CX u j))) is ->
  forall c s, safe PR PW PE (fun _ => True) (gpu_bpr_lane o k cols j z is c s).
Proof.
  induction 1 as [|i is Hi HF IH]; intros c s; cbn [gpu_bpr_lane].
  - constructor. auto.
  - destruct (is_skipped o k i); auto. specialize (Hi eq_refl). destruct (sample_of k i) as [[u l] d].
    destruct Hi as (H1 & H2 & H3 & H4 & H5 & H6 & H7).
    repeat (constructor; [solve [auto]|intros]). destruct (Nat.ltb_spec j cols); auto.
    repeat (constructor; [solve [auto]|intros]). auto.
Qed.

Lemma sum_app (A : Type) (g : A -> nat) l1 l2 : fold_left (fun a r => a + g r) (l1 ++ l2) 0 = fold_left (fun a r => a + g r) l1 0 + fold_left (fun a r => a + g r) l2 0.
Proof. rewrite fold_left_app, fold_sum_le. auto. Qed.

(** The expected results and events of all threads. *)
Definition lane_res o k (zs : nat -> nat -> T) (is : list nat) (j : nat) : nat * nat :=
  if j =? 0 then (n_correct o k (zs j) is, n_skipped o k is) else (0, 0).
Lemma threads_emit o k G cols zs :
  let qs := flat_map (fun is => map (lane_res o k zs is) (seq 0 cols)) (grid G (k_samples k)) in
  let ess := flat_map (fun is => map (fun _ => map (sample_of k) (kept o k is)) (seq 0 cols)) (grid G (k_samples k)) in
  length qs = length ess /\ Forall2 (fun q p => emits (fst q) (snd q) p) (combine qs ess) (gpu_bpr_threads o k G cols zs).
Proof.
  cbv zeta. unfold gpu_bpr_threads. induction (grid G (k_samples k)) as [|is gr IH]; cbn [flat_map].
  - split; [auto|constructor].
  - destruct IH as [L F]. split; [rewrite !app_length, !map_length, L; auto|].
    assert (HC : forall (A B : Type) (a1 a2 : list A) (b1 b2 : list B), length a1 = length b1 -> combine (a1 ++ a2) (b1 ++ b2) = combine a1 b1 ++ combine a2 b2).
    { intros A B a1. induction a1; intros a2 [|b b1] b2 E; simpl in *; try discriminate; auto. rewrite IHa1; auto. }
    rewrite HC by (rewrite !map_length; auto). apply Forall2_app; [|exact F].
    generalize (seq 0 cols). intros js. induction js as [|j js IH]; cbn [map combine]; constructor; auto.
    cbn [fst snd]. apply (lane_emits o k cols j (zs j) is 0 0).
Qed.

Lemma flat_repeat_perm (A B : Type) (h : A -> list B) n gr :
  Permutation (concat (flat_map (fun is => map (fun _ => h is) (seq 0 n)) gr)) (concat (repeat (flat_map h gr) n)).
Proof.
  assert (E : forall x : list B, concat (map (fun _ => x) (seq 0 n)) = concat (repeat x n)).
  { intros x. f_equal. clear. generalize 0. induction n; intros s; simpl; f_equal; auto. }
  induction gr as [|is gr IH]; cbn [flat_map].
  - simpl. clear. induction n; simpl; auto.
  - rewrite concat_app, E, IH. generalize (h is) (flat_map h gr). clear. intros x y. induction n; simpl; auto.
    rewrite <- IHn. rewrite <- !app_assoc. apply Permutation_app_head. rewrite !app_assoc. apply Permutation_app_tail, Permutation_app_comm.
Qed.

Lemma kept_flat o k gr : flat_map (fun is => map (sample_of k) (kept o k is)) gr = map (sample_of k) (kept o k (concat gr)).
Proof.
  induction gr as [|is gr IH]; auto. cbn [flat_map concat]. rewrite IH. unfold kept. rewrite filter_app, map_app. auto.
Qed.

Lemma filter_len_perm (A : Type) (f : A -> bool) l l' : Permutation l l' -> length (filter f l) = length (filter f l').
Proof. induction 1; simpl; try congruence; repeat match goal with |- context [if f ?x then _ else _] => destruct (f x) end; simpl; congruence. Qed.
Lemma filter_perm (A : Type) (f : A -> bool) l l' : Permutation l l' -> Permutation (filter f l) (filter f l').
Proof.
  induction 1; simpl; auto.
  - destruct (f x); auto.
  - destruct (f x), (f y); auto. constructor.
  - etransitivity; eauto.
Qed.

(** One launch: exact statistics and the exact updates, in every interleaving. *)
Lemma update_exact o k G cols zs sched m m' log correct skipped :
  0 < G -> 0 < cols -> cols <= 1024 ->
  gpu_bpr_update o k G cols zs sched m = Some (m', log, correct, skipped) ->
  skipped = n_skipped o k (seq 0 (k_samples k)) /\ correct = n_correct o k (zs 0) (seq 0 (k_samples k)) /\
  Permutation log (concat (repeat (map (sample_of k) (kept o k (seq 0 (k_samples k)))) cols)).
Proof.
  intros HG HC HC2. unfold gpu_bpr_update. rewrite launches_le by auto.
  destruct (interleave _ _ _ _) as [[m1 ps] lg] eqn:EI. destruct (results ps) as [rs|] eqn:ER; [|discriminate].
  intros HE; injection HE as <- <- <- <-.
  destruct (threads_emit o k G cols zs) as [HL HF].
  destruct (emits_done cell_eqb sched _ _ m _ m1 ps lg rs HF HL EI ER) as [-> HP].
  pose proof (grid_perm G (k_samples k) HG) as GP.
  assert (S1 : forall g, g (0, 0) = 0 -> forall gr, fold_left (fun a r => a + g r) (flat_map (fun is => map (lane_res o k zs is) (seq 0 cols)) gr) 0 =
     fold_left (fun a r => a + g r) (map (fun is => (n_correct o k (zs 0) is, n_skipped o k is)) gr) 0).
  { intros g Hg gr. induction gr as [|is gr IH]; auto. cbn [flat_map map]. rewrite sum_app, IH. cbn [fold_left]. rewrite (fold_sum_le _ g _ (0 + g _)). f_equal.
    destruct cols as [|c]; [lia|]. cbn [seq map fold_left]. unfold lane_res at 2. cbn [Nat.eqb]. rewrite fold_sum_le.
    assert (Z : forall js, Forall (fun j => j <> 0) js -> fold_left (fun a r => a + g r) (map (lane_res o k zs is) js) 0 = 0).
    { induction 1; auto. cbn [map fold_left]. rewrite fold_sum_le, IHForall. unfold lane_res. destruct (Nat.eqb_spec x 0); [contradiction|]. rewrite Hg. auto. }
    rewrite Z; [lia|]. apply Forall_forall. intros j Hj. apply in_seq in Hj. lia. }
  split; [|split].
  - rewrite S1 by auto. unfold n_skipped. rewrite <- (filter_len_perm _ _ _ _ GP).
    generalize (grid G (k_samples k)). induction l as [|is gr IH]; auto. cbn [map fold_left concat]. rewrite fold_sum_le, IH, filter_app, app_length. auto.
  - rewrite S1 by auto. unfold n_correct, kept. rewrite <- (filter_len_perm _ _ _ _ (filter_perm _ _ _ _ GP)).
    generalize (grid G (k_samples k)). induction l as [|is gr IH]; auto. cbn [map fold_left concat]. rewrite fold_sum_le, IH, !filter_app, app_length. auto.
  - rewrite HP, flat_repeat_perm, kept_flat.
    assert (P1 : Permutation (map (sample_of k) (kept o k (concat (grid G (k_samples k))))) (map (sample_of k) (kept o k (seq 0 (k_samples k))))).
    { apply Permutation_map. apply filter_perm. exact GP. }
    clear -P1. induction cols; simpl; auto. apply Permutation_app; auto.
Qed.

Lemma update_ends o k G cols zs m : exists sched r, gpu_bpr_update o k G cols zs sched m = Some r.
Proof.
  unfold gpu_bpr_update. destruct (launches cols); [|exists []; eauto].
  destruct (threads_emit o k G cols zs) as [HL HF].
  destruct (schedule_ends cell_eqb _ _ _ HF HL [] m []) as (s & m' & l' & E). cbn [map app] in E.
  exists s. unfold interleave. rewrite E. rewrite results_rets. eauto.
Qed.

(** One launch: what is kept, for any set of cells that may be written. *)
Lemma update_inv (PW : cell -> Prop) (PE : event -> Prop) (J : bmem (T := T) -> Prop) o k G cols zs sched m m' log correct skipped :
  0 < G ->
  (forall m c v, PW c -> J m -> J (mset cell_eqb m c v)) ->
  (forall i, i < k_samples k -> is_skipped o k i = false -> let '(u, l, d) := sample_of k i in
    PE (u, l, d) /\ forall j, j < cols -> PW (CY l j) /\ PW (CY d j) /\ PW (CX u j)) ->
  J m -> gpu_bpr_update o k G cols zs sched m = Some (m', log, correct, skipped) ->
  J m' /\ Forall PE log.
Proof.
  intros HG HJ HS Jm. unfold gpu_bpr_update. destruct (launches cols).
  2:{ intros E; injection E as <- <- <- <-. auto. }
  destruct (interleave _ _ _ _) as [[m1 ps] lg] eqn:EI. destruct (results ps) as [rs|] eqn:ER; [|discriminate].
  intros HE; injection HE as <- <- _ _.
  pose (PA := map (fun _ => fun _ : nat * nat => True) (gpu_bpr_threads o k G cols zs)).
  assert (HSF : Forall2 (fun Q p => safe (fun _ => True) PW PE Q p) PA (gpu_bpr_threads o k G cols zs)).
  { assert (A : Forall (safe (fun _ => True) PW PE (fun _ => True)) (gpu_bpr_threads o k G cols zs)).
    { apply Forall_forall. intros p Hp. unfold gpu_bpr_threads in Hp. apply in_flat_map in Hp. destruct Hp as (is & His & Hp).
      apply in_map_iff in Hp. destruct Hp as (j & <- & Hj). apply in_seq in Hj. apply lane_safe. apply Forall_forall. intros i Hi Hsk.
      assert (Hi2 : i < k_samples k).
      { assert (X : In i (seq 0 (k_samples k))) by (eapply Permutation_in; [apply (grid_perm G (k_samples k) HG)|]; apply in_concat; eauto). apply in_seq in X. lia. }
      specialize (HS i Hi2 Hsk). destruct (sample_of k i) as [[u l] d]. destruct HS as [H1 H2]. destruct (H2 j ltac:(lia)) as (H3 & H4 & H5). repeat split; auto. }
    unfold PA. clear -A. induction A; cbn [map]; constructor; auto. }
  destruct (interleave_inv cell_eqb (fun _ => True) PW PE PA J sched HJ _ _ _ _ _ _ Jm HSF (Forall_nil _) EI) as (Jm' & _ & HLog). auto.
Qed.

(** All epochs. *)
Lemma epochs_inv (PW : cell -> Prop) (PE : event -> Prop) (J : bmem (T := T) -> Prop) o (M : csr T) G :
  0 < G ->
  (forall m c v, PW c -> J m -> J (mset cell_eqb m c v)) ->
  forall inputs epoch m m' log tr,
  (forall e, In e inputs -> forall i, i < k_samples (epoch_kernel M e) -> is_skipped o (epoch_kernel M e) i = false -> let '(u, l, d) := sample_of (epoch_kernel M e) i in
    PE (u, l, d) /\ forall j, j <= b_factors o -> PW (CY l j) /\ PW (CY d j) /\ PW (CX u j)) ->
  J m -> gpu_bpr_epochs o M G inputs epoch m = Some (m', log, tr) ->
  J m' /\ Forall PE log /\ Forall (fun t => J (snd t)) tr.
Proof.
  intros HG HJ. induction inputs as [|e inputs IH]; intros epoch m m' log tr HS Jm HE.
  - simpl in HE. injection HE as <- <- <-. auto.
  - cbn [gpu_bpr_epochs] in HE. destruct (gpu_bpr_update _ _ _ _ _ _ _) as [[[[m1 lg] c] s]|] eqn:EU; [|discriminate].
    destruct (gpu_bpr_epochs o M G inputs (S epoch) m1) as [[[m2 lg2] tr2]|] eqn:EE; [|discriminate]. injection HE as <- <- <-.
    destruct (update_inv PW PE J o (epoch_kernel M e) G (S (b_factors o)) (e_zs e) (e_sched e) m m1 lg c s HG HJ) as [J1 L1]; [|exact Jm|exact EU|].
    { intros i Hi Hsk. specialize (HS e (or_introl eq_refl) i Hi Hsk). destruct (sample_of _ i) as [[u l] d]. destruct HS as [H1 H2]. split; auto. intros j Hj. apply H2. lia. }
    destruct (IH (S epoch) m1 m2 lg2 tr2 (fun e0 Hin => HS e0 (or_intror Hin)) J1 EE) as (J2 & L2 & T2).
    split; [auto|]. split; [apply Forall_app; auto|]. constructor; auto.
Qed.

Lemma epochs_trace (P : epoch_in -> nat -> nat -> Prop) o (M : csr T) G :
  forall inputs epoch m m' log tr,
  (forall e m0 m1 lg c s, In e inputs -> gpu_bpr_update o (epoch_kernel M e) G (S (b_factors o)) (e_zs e) (e_sched e) m0 = Some (m1, lg, c, s) -> P e c s) ->
  gpu_bpr_epochs o M G inputs epoch m = Some (m', log, tr) ->
  Forall2 (fun e t => P e (snd (fst (fst t))) (snd (fst t))) inputs tr /\
  map (fun t => fst (fst (fst t))) tr = seq epoch (length inputs) /\
  (forall t, nth_error tr (length tr - 1) = Some t -> m' = snd t).
Proof.
  induction inputs as [|e inputs IH]; intros epoch m m' log tr HP HE.
  - simpl in HE. injection HE as <- <- <-. split; [constructor|]. split; auto. simpl. discriminate.
  - cbn [gpu_bpr_epochs] in HE. destruct (gpu_bpr_update _ _ _ _ _ _ _) as [[[[m1 lg] c] s]|] eqn:EU; [|discriminate].
    destruct (gpu_bpr_epochs o M G inputs (S epoch) m1) as [[[m2 lg2] tr2]|] eqn:EE; [|discriminate]. injection HE as <- <- <-.
    destruct (IH (S epoch) m1 m2 lg2 tr2 (fun e0 x y z v w Hin => HP e0 x y z v w (or_intror Hin)) EE) as (F2 & M2 & L2).
    split; [|split].
    + constructor; auto. cbn [fst snd]. eapply HP; [left; auto|exact EU].
    + cbn [map length seq fst]. f_equal. auto.
    + intros t Ht. destruct tr2 as [|t2 tr2].
      * simpl in Ht. injection Ht as <-. simpl. inversion F2; subst. simpl in EE. congruence.
      * apply L2. simpl in *. rewrite Nat.sub_0_r. auto.
Qed.
End Lanes.
