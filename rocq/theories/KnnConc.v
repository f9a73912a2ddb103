(** Concurrent calls of NearestNeighboursScorer.recommend on one scorer
    (_nearest_neighbours.pyx:60-102): an interleaving semantics of the code under
    [with self.lock: with nogil:].  One step of a thread is one call of
    [neighbours.add], one store [neighbours.sums[i] = 0], one iteration of
    [foreach], or taking / releasing the lock.  Nothing but the acquisition step
    looks at the lock. *)
From Coq Require Import List Arith Lia Bool ZArith.
From Verif Require Import Base Num Heap Sparse TopkModel RecommendModel KnnModel KnnAcc KnnRec.
Import ListNotations.

Section Conc.
Context {T : Type} `{Num T}.

(** One call: the additions of lines 75-81 and the indices cleared in lines 83-87
    (the query arrays are private to the call; [topK] is private as well, so what
    a call computes is the list of pairs visited by [foreach], line 89). *)
Definition call : Type := (list (nat * T) * list nat)%type.

Inductive phase : Type :=
| Waiting                                        (* before line 73 *)
| Adding (xs : list (nat * T))                   (* lines 75-81, additions left *)
| Zeroing (zs : list nat)                        (* lines 83-87, indices left *)
| Visiting (k : nat) (seen : list (nat * T)).    (* line 89, iterations left *)

Record thread : Type := { t_todo : list call; t_phase : phase; t_done : list (list (nat * T)) }.
Record cstate : Type := { s_lock : option nat; s_acc : acc T; s_threads : list thread }.

Definition set_thread (st : cstate) (t : nat) (lock : option nat) (a : acc T) (th : thread) : cstate :=
  {| s_lock := lock; s_acc := a; s_threads := upd t th (s_threads st) |}.

(** One step of thread [t]; a blocked or finished thread does nothing. *)
Definition cstep (st : cstate) (t : nat) : res cstate :=
  match nth_error (s_threads st) t with
  | None => Ok st
  | Some th =>
    let go lock a ph := Ok (set_thread st t lock a {| t_todo := t_todo th; t_phase := ph; t_done := t_done th |}) in
    match t_phase th, t_todo th with
    | Waiting, [] => Ok st
    | Waiting, (xs, _) :: _ =>
        match s_lock st with
        | None => go (Some t) (s_acc st) (Adding xs)
        | Some _ => Ok st
        end
    | Adding (p :: xs), _ =>
        do a <- acc_add (s_acc st) (fst p) (snd p); go (s_lock st) a (Adding xs)
    | Adding [], (_, zs) :: _ => go (s_lock st) (s_acc st) (Zeroing zs)
    | Adding [], [] => Ok st
    | Zeroing (z :: zs), _ =>
        do a <- acc_zero (s_acc st) z; go (s_lock st) a (Zeroing zs)
    | Zeroing [], _ => go (s_lock st) (s_acc st) (Visiting (a_len (s_acc st)) [])
    | Visiting (S k) seen, _ =>
        do ' (p, a) <- acc_pop (s_acc st); go (s_lock st) a (Visiting k (seen ++ [p]))
    | Visiting 0 seen, todo =>
        let a := s_acc st in
        Ok (set_thread st t None
              {| a_sums := a_sums a; a_next := a_next a; a_head := (-2)%Z; a_len := 0 |}
              {| t_todo := tl todo; t_phase := Waiting; t_done := t_done th ++ [seen] |})
    end
  end.

Definition crun (sched : list nat) (st : cstate) : res cstate := fold_res cstep sched st.

Definition cstart (n : nat) (progs : list (list call)) : cstate :=
  {| s_lock := None; s_acc := acc_new n;
     s_threads := map (fun calls => {| t_todo := calls; t_phase := Waiting; t_done := [] |}) progs |}.

(* ------------------------------------------------------------------ *)
Definition call_ok (n : nat) (c : call) : Prop :=
  Forall (fun p => fst p < n) (fst c) /\ Forall (fun i => i < n) (snd c).

Definition alone (n : nat) (c : call) (v : list (nat * T)) : Prop :=
  call_acc n (fst c) (snd c) = Ok (v, acc_new n).

(** The accumulator and phase of the thread in the critical section are those of
    the same call running alone from a clean accumulator. *)
Definition mid_call (n : nat) (c : call) (a : acc T) (ph : phase) : Prop :=
  match ph with
  | Waiting => False
  | Adding xs => exists pre, fst c = pre ++ xs /\ acc_adds pre (acc_new n) = Ok a
  | Zeroing zs => exists pre a1, snd c = pre ++ zs /\ acc_adds (fst c) (acc_new n) = Ok a1 /\ acc_zeros pre a1 = Ok a
  | Visiting k seen => exists a1 a2,
      acc_adds (fst c) (acc_new n) = Ok a1 /\ acc_zeros (snd c) a1 = Ok a2 /\
      k <= a_len a2 /\ a_len a = a_len a2 /\ acc_pops (a_len a2 - k) a2 = Ok (seen, a)
  end.

Definition cinv (n : nat) (progs : list (list call)) (st : cstate) : Prop :=
  length (s_threads st) = length progs /\
  (forall t th, nth_error (s_threads st) t = Some th ->
     exists fin, nth_error progs t = Some (fin ++ t_todo th) /\ Forall2 (alone n) fin (t_done th)) /\
  match s_lock st with
  | None => s_acc st = acc_new n /\ forall t th, nth_error (s_threads st) t = Some th -> t_phase th = Waiting
  | Some t0 => exists th0 c rest,
      nth_error (s_threads st) t0 = Some th0 /\ t_todo th0 = c :: rest /\
      mid_call n c (s_acc st) (t_phase th0) /\
      forall t th, t <> t0 -> nth_error (s_threads st) t = Some th -> t_phase th = Waiting
  end.

Lemma nth_error_upd_eq {A} t (v : A) l : t < length l -> nth_error (upd t v l) t = Some v.
Proof. revert t; induction l; destruct t; simpl; intros; try lia; auto. apply IHl; lia. Qed.
Lemma nth_error_upd_neq {A} t t' (v : A) l : t <> t' -> nth_error (upd t v l) t' = nth_error l t'.
Proof. revert t t'; induction l; destruct t, t'; simpl; intros; auto; try lia. Qed.

Lemma acc_adds_snoc xs p a a1 a2 : acc_adds xs a = Ok a1 -> acc_add a1 (fst p) (snd p) = Ok a2 ->
  acc_adds (xs ++ [p]) a = Ok a2.
Proof.
  revert a; induction xs as [|q xs IH]; unfold acc_adds in *; cbn [fold_res app]; intros a E1 E2.
  - inversion E1; subst. rewrite E2. auto.
  - destruct (acc_add a (fst q) (snd q)); cbn [bind] in *; [eauto|discriminate].
Qed.
Lemma acc_zeros_snoc zs z (a : acc T) a1 a2 : acc_zeros zs a = Ok a1 -> acc_zero a1 z = Ok a2 ->
  acc_zeros (zs ++ [z]) a = Ok a2.
Proof.
  revert a; induction zs as [|q xs IH]; unfold acc_zeros in *; cbn [fold_res app]; intros a E1 E2.
  - inversion E1; subst. rewrite E2. auto.
  - destruct (acc_zero a q); cbn [bind] in *; [eauto|discriminate].
Qed.
Lemma acc_pops_snoc k : forall (a : acc T) seen a1 p a2, acc_pops k a = Ok (seen, a1) -> acc_pop a1 = Ok (p, a2) ->
  acc_pops (S k) a = Ok (seen ++ [p], a2).
Proof.
  induction k as [|k IH]; intros a seen a1 p a2 E1 E2.
  - cbn in E1. inversion E1; subst. cbn [acc_pops]. rewrite E2. auto.
  - cbn [acc_pops] in E1. destruct (acc_pop a) as [[q a']|] eqn:Ea; cbn [bind] in E1; [|discriminate].
    destruct (acc_pops k a') as [[ps a'']|] eqn:Eb; cbn [bind] in E1; [|discriminate].
    inversion E1; subst. specialize (IH _ _ _ _ _ Eb E2).
    remember (S k) as k'. cbn [acc_pops]. rewrite Ea. cbn [bind]. rewrite IH. auto.
Qed.

(** Sequential calls in range never get stuck. *)
Lemma adds_prefix_ok n pre xs (a : acc T) : Forall (fun p => fst p < n) (pre ++ xs) ->
  acc_adds pre (acc_new n) = Ok a -> exists L, Rep n a L /\ a_len a = length L.
Proof.
  intros F E. apply Forall_app in F.
  destruct (acc_adds_spec n pre (acc_new n) [] (rep_new n) eq_refl (proj1 F)) as [a' [E' [L [R _]]]].
  rewrite E in E'. inversion E'; subst. eauto.
Qed.

Lemma call_alone n c a1 a2 : call_ok n c -> acc_adds (fst c) (acc_new n) = Ok a1 -> acc_zeros (snd c) a1 = Ok a2 ->
  exists L, Rep n a2 L /\ a_len a2 = length L.
Proof.
  intros [F1 F2] E1 E2.
  destruct (acc_adds_spec n (fst c) (acc_new n) [] (rep_new n) eq_refl F1) as [a1' [E1' [L [R _]]]].
  rewrite E1 in E1'. inversion E1'; subst.
  destruct (acc_zeros_spec n (snd c) a1' _ R F2) as [a2' [E2' [L2 [R2 _]]]].
  rewrite E2 in E2'. inversion E2'; subst. eexists; split; eauto. congruence.
Qed.

Lemma acc_pops_split k1 : forall k2 (a : acc T) ps b, acc_pops (k1 + k2) a = Ok (ps, b) ->
  exists p1 a1 p2, acc_pops k1 a = Ok (p1, a1) /\ acc_pops k2 a1 = Ok (p2, b) /\ ps = p1 ++ p2.
Proof.
  induction k1 as [|k1 IH]; intros k2 a ps b E.
  - exists [], a, ps. auto.
  - cbn [Nat.add acc_pops] in E. destruct (acc_pop a) as [[q a']|] eqn:Ea; cbn [bind] in E; [|discriminate].
    destruct (acc_pops (k1 + k2) a') as [[ps' a'']|] eqn:Eb; cbn [bind] in E; [|discriminate].
    inversion E; subst. destruct (IH _ _ _ _ Eb) as [p1 [a1 [p2 [X1 [X2 X3]]]]].
    exists (q :: p1), a1, p2. cbn [acc_pops]. rewrite Ea. cbn [bind]. rewrite X1. cbn [bind].
    subst. auto.
Qed.

Lemma cstep_inv n progs st t : Forall (Forall (call_ok n)) progs -> cinv n progs st ->
  exists st', cstep st t = Ok st' /\ cinv n progs st'.
Proof.
  intros OK [LEN [TH LK]]. unfold cstep.
  destruct (nth_error (s_threads st) t) as [th|] eqn:Et.
  2:{ exists st. split; auto. split; auto. }
  assert (Ht : t < length (s_threads st)) by (apply nth_error_Some; congruence).
  destruct (TH t th Et) as [fin [Ef Ff]].
  assert (COK : forall c, In c (t_todo th) -> call_ok n c).
  { intros c Hc. rewrite Forall_forall in OK. specialize (OK _ (nth_error_In _ _ Ef)).
    rewrite Forall_forall in OK. apply OK. apply in_or_app; auto. }
  assert (SELF : cinv n progs st) by (split; auto).
  assert (STAY : exists st', Ok st = Ok st' /\ cinv n progs st') by (eexists; split; eauto).
  (* a thread in its critical section holds the lock *)
  assert (HOLD : t_phase th <> Waiting -> s_lock st = Some t /\
      exists c rest, t_todo th = c :: rest /\ mid_call n c (s_acc st) (t_phase th)).
  { intros NW. destruct (s_lock st) as [t0|].
    - destruct LK as [th0 [c [rest [E0 [E1 [MC OT]]]]]].
      destruct (Nat.eq_dec t t0) as [->|NE]; [|exfalso; apply NW; eapply OT; eauto].
      split; auto. rewrite Et in E0. inversion E0; subst. eauto.
    - exfalso. apply NW. eapply (proj2 LK); eauto. }
  (* changing only phase and accumulator of the holder *)
  assert (MOVE : forall lock a ph c rest, t_todo th = c :: rest -> mid_call n c a ph ->
      lock = Some t ->
      (forall t' th', t' <> t -> nth_error (s_threads st) t' = Some th' -> t_phase th' = Waiting) ->
      cinv n progs (set_thread st t lock a {| t_todo := t_todo th; t_phase := ph; t_done := t_done th |})).
  { intros lock a ph c rest E0 MC -> OT. split; [simpl; rewrite upd_length; auto|]. split.
    - intros t' th' E'. cbn [set_thread s_threads] in E'. destruct (Nat.eq_dec t' t) as [->|NE].
      + rewrite nth_error_upd_eq in E' by auto. inversion E'; subst. simpl. eauto.
      + rewrite nth_error_upd_neq in E' by auto. eauto.
    - cbn [set_thread s_lock s_threads s_acc]. eexists _, c, rest. split; [apply nth_error_upd_eq; auto|].
      simpl. split; [auto|]. split; [auto|].
      intros t' th' NE E'. rewrite nth_error_upd_neq in E' by auto. eauto. }
  assert (OTHERS : s_lock st = Some t ->
     forall t' th', t' <> t -> nth_error (s_threads st) t' = Some th' -> t_phase th' = Waiting).
  { intros EL. rewrite EL in LK. destruct LK as [? [? [? [? [? [? OT]]]]]]. exact OT. }
  destruct (t_phase th) as [|xs|zs|k seen] eqn:Ep.
  - (* Waiting *)
    destruct (t_todo th) as [|[xs zs] rest] eqn:Etd; [auto|].
    destruct (s_lock st) as [t0|] eqn:EL; [auto|].
    eexists; split; [reflexivity|].
    eapply MOVE; eauto.
    + simpl. exists []. split; auto. destruct LK as [-> _]. auto.
    + intros t' th' _ E'. eapply (proj2 LK); eauto.
  - destruct (HOLD ltac:(discriminate)) as [EL [c [rest [E0 MC]]]]. simpl in MC.
    destruct MC as [pre [Ec Ea]].
    destruct (COK c) as [F1 F2]; [rewrite E0; left; auto|].
    destruct xs as [|p xs].
    + rewrite E0. destruct c as [cx cz]. eexists; split; [reflexivity|]. rewrite <- E0.
      eapply MOVE; eauto. simpl. rewrite app_nil_r in Ec. simpl in Ec. subst. exists [], (s_acc st). auto.
    + destruct (adds_prefix_ok n pre (p :: xs) (s_acc st)) as [L [R EA]]; [rewrite <- Ec; auto|auto|].
      destruct (acc_add_spec n (s_acc st) L (fst p) (snd p) R EA) as [a' [E' _]].
      { rewrite Ec in F1. apply Forall_app in F1. destruct F1 as [_ F1]. inversion F1; auto. }
      rewrite E'. cbn [bind]. eexists; split; [reflexivity|]. eapply MOVE; eauto.
      simpl. exists (pre ++ [p]). split; [rewrite <- app_assoc; auto|]. eapply acc_adds_snoc; eauto.
  - destruct (HOLD ltac:(discriminate)) as [EL [c [rest [E0 MC]]]]. simpl in MC.
    destruct MC as [pre [a1 [Ec [Ea1 Ea]]]].
    destruct (COK c) as [F1 F2]; [rewrite E0; left; auto|].
    destruct zs as [|z zs].
    + eexists; split; [reflexivity|]. eapply MOVE; eauto. rewrite app_nil_r in Ec. subst pre.
      simpl. exists a1, (s_acc st). repeat split; auto. rewrite Nat.sub_diag. auto.
    + destruct (adds_prefix_ok n (fst c) [] a1) as [L [R EA]]; [rewrite app_nil_r; auto|auto|].
      rewrite Ec in F2. apply Forall_app in F2. destruct F2 as [F2a F2b]. inversion F2b; subst.
      destruct (acc_zeros_spec n pre a1 L R F2a) as [a2 [E2 [_ [R2 _]]]].
      rewrite Ea in E2. inversion E2; subst a2.
      destruct (acc_zero_spec n (s_acc st) L z R2) as [a3 [E3 _]]; auto.
      rewrite E3. cbn [bind]. eexists; split; [reflexivity|]. eapply MOVE; eauto.
      simpl. exists (pre ++ [z]), a1. split; [rewrite <- app_assoc; auto|]. split; auto.
      eapply acc_zeros_snoc; eauto.
  - destruct (HOLD ltac:(discriminate)) as [EL [c [rest [E0 MC]]]]. simpl in MC.
    destruct MC as [a1 [a2 [Ea1 [Ea2 [Lk [Ll Ep']]]]]].
    destruct (call_alone n c a1 a2) as [L [R EA]]; auto. { apply COK. rewrite E0; left; auto. }
    destruct (acc_pops_spec n L a2 R) as [a3 [E3 R3]].
    destruct k as [|k].
    + eexists; split; [reflexivity|].
      assert (AL : alone n c seen /\ s_acc st = a3).
      { rewrite Nat.sub_0_r, EA in Ep'. rewrite E3 in Ep'. inversion Ep'; subst. split; auto.
        unfold alone, call_acc. rewrite Ea1. cbn [bind]. rewrite Ea2. cbn [bind].
        rewrite (acc_foreach_spec n a2 L R EA). auto. }
      destruct AL as [AL ES].
      assert (NEW : {| a_sums := a_sums (s_acc st); a_next := a_next (s_acc st); a_head := (-2)%Z; a_len := 0 |} = acc_new n).
      { apply rep_nil; auto. rewrite ES. destruct R3; constructor; simpl; auto. }
      rewrite NEW. split; [simpl; rewrite upd_length; auto|]. split.
      * intros t' th' E'. cbn [set_thread s_threads] in E'. destruct (Nat.eq_dec t' t) as [->|NE].
        -- rewrite nth_error_upd_eq in E' by auto. inversion E'; subst. simpl.
           exists (fin ++ [c]). rewrite E0 in *. simpl. split; [rewrite <- app_assoc; auto|].
           apply Forall2_app; auto.
        -- rewrite nth_error_upd_neq in E' by auto. eauto.
      * cbn [set_thread s_lock s_threads s_acc]. split; auto.
        intros t' th' E'. destruct (Nat.eq_dec t' t) as [->|NE].
        -- rewrite nth_error_upd_eq in E' by auto. inversion E'; subst. auto.
        -- rewrite nth_error_upd_neq in E' by auto. eapply OTHERS; eauto.
    + assert (SP : a_len a2 = (a_len a2 - S k) + S k) by lia.
      rewrite <- EA, SP in E3. destruct (acc_pops_split _ _ _ _ _ E3) as [p1 [b1 [p2 [X1 [X2 X3]]]]].
      rewrite X1 in Ep'. inversion Ep'; subst p1 b1.
      cbn [acc_pops] in X2. destruct (acc_pop (s_acc st)) as [[q a']|] eqn:Eq; cbn [bind] in X2; [|discriminate].
      cbn [bind]. eexists; split; [reflexivity|]. eapply MOVE; eauto.
      simpl. exists a1, a2. repeat split; auto; [lia| |].
      * unfold acc_pop in Eq. destruct (_ && _); inversion Eq; subst. auto.
      * replace (a_len a2 - k) with (S (a_len a2 - S k)) by lia. eapply acc_pops_snoc; eauto.
Qed.

Lemma cstart_inv n progs : cinv n progs (cstart n progs).
Proof.
  split; [simpl; apply map_length|]. split.
  - intros t th E. cbn [cstart s_threads] in E. rewrite nth_error_map in E.
    destruct (nth_error progs t) eqn:Ep; simpl in E; inversion E; subst. exists []. simpl. auto.
  - simpl. split; auto. intros t th E. rewrite nth_error_map in E.
    destruct (nth_error progs t) eqn:Ep; simpl in E; inversion E; subst. auto.
Qed.

Lemma crun_inv n progs sched : Forall (Forall (call_ok n)) progs -> forall st, cinv n progs st ->
  exists st', crun sched st = Ok st' /\ cinv n progs st'.
Proof.
  intros OK. unfold crun. induction sched as [|t sched IH]; intros st I; simpl; eauto.
  destruct (cstep_inv n progs st t OK I) as [st' [E I']]. rewrite E. cbn [bind]. auto.
Qed.


(** No deadlock: an unfinished state has a thread that can move. *)
Lemma cprogress n progs st : Forall (Forall (call_ok n)) progs -> cinv n progs st ->
  (forall t th, nth_error (s_threads st) t = Some th -> t_todo th = []) \/
  exists t st', cstep st t = Ok st' /\ st' <> st.
Proof.
  intros OK I. pose proof I as [LEN [TH LK]].
  destruct (s_lock st) as [t0|] eqn:EL.
  - right. destruct LK as [th0 [c [rest [E0 [E1 [MC OT]]]]]]. exists t0.
    destruct (cstep_inv n progs st t0 OK I) as [st' [E _]]. exists st'. split; auto.
    intros ->. unfold cstep in E. rewrite E0, E1 in E. destruct c as [cx cz].
    assert (Ht : t0 < length (s_threads st)) by (apply nth_error_Some; congruence).
    assert (NEQ : forall lock a th', set_thread st t0 lock a th' = st -> th' = th0).
    { intros lock a th' X. apply (f_equal s_threads) in X. cbn [set_thread s_threads] in X.
      apply (f_equal (fun l => nth_error l t0)) in X. rewrite nth_error_upd_eq in X by auto. congruence. }
    destruct (t_phase th0) as [|xs|zs|k seen] eqn:Ep; [destruct MC| | |].
    + destruct xs as [|p xs].
      * inversion E as [E']. apply NEQ in E'. rewrite <- E' in Ep. discriminate.
      * destruct (acc_add _ _ _); cbn [bind] in E; [|discriminate]. inversion E as [E']. apply NEQ in E'.
        rewrite <- E' in Ep. simpl in Ep. inversion Ep as [X]. apply (f_equal (@length _)) in X. simpl in X. lia.
    + destruct zs as [|z zs].
      * inversion E as [E']. apply NEQ in E'. rewrite <- E' in Ep. discriminate.
      * destruct (acc_zero _ _); cbn [bind] in E; [|discriminate]. inversion E as [E']. apply NEQ in E'.
        rewrite <- E' in Ep. simpl in Ep. inversion Ep as [X]. apply (f_equal (@length _)) in X. simpl in X. lia.
    + destruct k as [|k].
      * inversion E as [E']. apply (f_equal s_lock) in E'. simpl in E'. congruence.
      * destruct (acc_pop _) as [[q a]|]; cbn [bind] in E; [|discriminate]. inversion E as [E']. apply NEQ in E'.
        rewrite <- E' in Ep. simpl in Ep. inversion Ep. lia.
  - destruct LK as [EA W].
    destruct (existsb (fun th => negb (length (t_todo th) =? 0)) (s_threads st)) eqn:X.
    + right. apply existsb_exists in X. destruct X as [th [Hin B]]. apply In_nth_error in Hin. destruct Hin as [t Et].
      exists t. destruct (cstep_inv n progs st t OK I) as [st' [E _]]. exists st'. split; auto.
      intros ->. unfold cstep in E. rewrite Et, (W t th Et), EL in E.
      destruct (t_todo th) as [|[xs zs] rest]; [simpl in B; discriminate|].
      inversion E as [E']. apply (f_equal s_lock) in E'. simpl in E'. congruence.
    + left. intros t th Et. destruct (t_todo th) eqn:Etd; auto. exfalso.
      assert (Y : existsb (fun th => negb (length (t_todo th) =? 0)) (s_threads st) = true).
      { apply existsb_exists. exists th. split; [eapply nth_error_In; eauto|]. rewrite Etd. auto. }
      congruence.
Qed.

End Conc.
