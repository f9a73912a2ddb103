(** Threads that write only their own cells and read only their own and read-only ones:
    every interleaving computes what the threads compute alone. *)
From Coq Require Import List Arith Lia Bool Permutation.
From Verif Require Import Base ThreadProg.
Import ListNotations.

Section RaceFree.
Context {Cell Val Event A : Type} (cell_eqb : Cell -> Cell -> bool).
Hypothesis cell_eqb_spec : forall a b, cell_eqb a b = true <-> a = b.
Notation prog := (prog Cell Val Event A).
Notation mem := (Cell -> Val).
(** The thread owning a cell; [None]: read-only. *)
Variable owner : Cell -> option nat.

Definition may_read (t : nat) (c : Cell) : Prop := owner c = Some t \/ owner c = None.
Definition may_write (t : nat) (c : Cell) : Prop := owner c = Some t.
Definition well_behaved (t : nat) (p : prog) : Prop := safe (may_read t) (may_write t) (fun _ => True) (fun _ => True) p.

Lemma mset_same (m : mem) c v : mset cell_eqb m c v c = v.
Proof. unfold mset. rewrite (proj2 (cell_eqb_spec c c)); auto. Qed.
Lemma mset_other (m : mem) c v c' : c <> c' -> mset cell_eqb m c v c' = m c'.
Proof. intros N. unfold mset. destruct (cell_eqb c c') eqn:E; auto. apply cell_eqb_spec in E. congruence. Qed.

Lemma alone_cong t p : well_behaved t p -> forall m1 m2, (forall c, may_read t c -> m1 c = m2 c) ->
  snd (run_alone cell_eqb p m1) = snd (run_alone cell_eqb p m2) /\
  snd (fst (run_alone cell_eqb p m1)) = snd (fst (run_alone cell_eqb p m2)) /\
  forall c, may_read t c -> fst (fst (run_alone cell_eqb p m1)) c = fst (fst (run_alone cell_eqb p m2)) c.
Proof.
  induction 1 as [a _|c k Hc Hk IH|c v k Hc Hk IH|e k He Hk IH]; intros m1 m2 Heq; cbn [run_alone].
  - auto.
  - rewrite (Heq c Hc). apply IH; auto.
  - apply IH. intros c' Hc'. unfold mset. destruct (cell_eqb c c'); auto.
  - specialize (IH m1 m2 Heq). destruct (run_alone cell_eqb k m1) as [[ma a] la], (run_alone cell_eqb k m2) as [[mb b] lb]. simpl in *.
    destruct IH as (-> & -> & IH). auto.
Qed.

Lemma alone_frame t p : well_behaved t p -> forall m c, owner c <> Some t -> fst (fst (run_alone cell_eqb p m)) c = m c.
Proof.
  induction 1 as [a _|c k Hc Hk IH|c v k Hc Hk IH|e k He Hk IH]; intros m c' Hc'; cbn [run_alone]; auto.
  - rewrite IH by auto. apply mset_other. intros ->. contradiction.
  - specialize (IH m c' Hc'). destruct (run_alone cell_eqb k m) as [[ma a] la]. auto.
Qed.

Definition alone_log (m : mem) (p : prog) : list Event := snd (run_alone cell_eqb p m).

Lemma concat_map_upd (g g' : prog -> list Event) ps t p p' e : nth_error ps t = Some p -> g p = e ++ g' p' ->
  (forall t' q, t' <> t -> nth_error ps t' = Some q -> g q = g' q) ->
  Permutation (concat (map g ps)) (e ++ concat (map g' (upd t p' ps))).
Proof.
  revert t. induction ps as [|q ps IH]; intros [|t] Hp HP HO; simpl in *; try discriminate.
  - injection Hp as ->. rewrite HP, <- app_assoc. 
    replace (map g ps) with (map g' ps); auto. apply map_ext_in. intros x Hx. apply In_nth_error in Hx. destruct Hx as (k & Hk). symmetry. apply (HO (S k)); auto.
  - rewrite (IH t Hp HP) by (intros t' x Ht Hx; apply (HO (S t')); auto). rewrite (HO 0 q) by auto. rewrite !app_assoc. apply Permutation_app_tail. apply Permutation_app_comm.
Qed.

Lemma interleave_alone sched : forall m ps log m' ps' log',
  (forall t p, nth_error ps t = Some p -> well_behaved t p) ->
  fold_left (tstep cell_eqb) sched (m, ps, log) = (m', ps', log') ->
  length ps' = length ps /\
  (forall t p, nth_error ps t = Some p -> exists p', nth_error ps' t = Some p' /\ well_behaved t p' /\
     snd (fst (run_alone cell_eqb p' m')) = snd (fst (run_alone cell_eqb p m)) /\
     (forall c, owner c = Some t -> fst (fst (run_alone cell_eqb p' m')) c = fst (fst (run_alone cell_eqb p m)) c)) /\
  (forall c, (forall t, owner c = Some t -> length ps <= t) -> m' c = m c) /\
  Permutation (log' ++ concat (map (alone_log m') ps')) (log ++ concat (map (alone_log m) ps)).
Proof.
  induction sched as [|s sched IH]; intros m ps log m' ps' log' HW HE.
  - simpl in HE. injection HE as <- <- <-. split; auto. split; [|auto]. intros t p Hp. exists p. auto.
  - cbn [fold_left] in HE. unfold tstep at 2 in HE. destruct (nth_error ps s) as [q|] eqn:Eq; [|eapply IH; eauto].
    destruct (pstep cell_eqb m q) as [[m1 q1] es] eqn:ES.
    assert (Hs : s < length ps) by (apply nth_error_Some; congruence).
    pose proof (HW s q Eq) as Wq.
    (* facts about the step *)
    assert (F : well_behaved s q1 /\ (forall c, owner c <> Some s -> m1 c = m c) /\
       run_alone cell_eqb q m = (fst (fst (run_alone cell_eqb q1 m1)), snd (fst (run_alone cell_eqb q1 m1)), es ++ snd (run_alone cell_eqb q1 m1))).
    { destruct q as [a|c k|c v k|e k]; cbn [pstep] in ES; injection ES as <- <- <-; inversion Wq; subst.
      - split; [auto|]. split; auto.
      - split; [apply H2|split]; auto. cbn [run_alone app]. destruct (run_alone cell_eqb (k (m c)) m) as [[? ?] ?]. auto.
      - split; [|split]; auto. { intros c' Hc'. apply mset_other. intros ->. unfold may_write in *. congruence. }
        cbn [run_alone app]. destruct (run_alone cell_eqb k _) as [[? ?] ?]. auto.
      - split; [|split]; auto. cbn [run_alone app]. destruct (run_alone cell_eqb k m) as [[? ?] ?]. auto. }
    destruct F as (Wq1 & Fm & Fr).
    assert (NU : forall t p0, nth_error (upd s q1 ps) t = Some p0 -> (t = s /\ p0 = q1) \/ (t <> s /\ nth_error ps t = Some p0)).
    { clear. revert s. induction ps as [|x ps IH]; intros s t p0 Hp; [destruct s, t; discriminate|]. destruct s, t; simpl in *; auto.
      - left. split; congruence.
      - apply IH in Hp. destruct Hp as [[-> ->]|[? ?]]; auto. }
    assert (NU2 : nth_error (upd s q1 ps) s = Some q1).
    { clear -Hs. revert s Hs. induction ps; intros [|s] Hs; simpl in *; try lia; auto. apply IHps. lia. }
    assert (NU3 : forall t, t <> s -> nth_error (upd s q1 ps) t = nth_error ps t).
    { clear. revert s. induction ps as [|x ps IH]; intros s t Ht; destruct s, t; simpl in *; auto; try congruence. }
    destruct (IH m1 (upd s q1 ps) (log ++ es) m' ps' log') as (IL & IT & IF & IP).
    { intros t p0 Hp0. destruct (NU _ _ Hp0) as [[-> ->]|[Hn Hp]]; auto. }
    { exact HE. }
    rewrite upd_length in IL.
    assert (AG : forall t p0, t <> s -> nth_error ps t = Some p0 -> 
        snd (run_alone cell_eqb p0 m1) = snd (run_alone cell_eqb p0 m) /\
        snd (fst (run_alone cell_eqb p0 m1)) = snd (fst (run_alone cell_eqb p0 m)) /\
        forall c, may_read t c -> fst (fst (run_alone cell_eqb p0 m1)) c = fst (fst (run_alone cell_eqb p0 m)) c).
    { intros t p0 Ht Hp0. apply (alone_cong t p0 (HW _ _ Hp0)). intros c [Hc|Hc]; apply Fm; congruence. }
    split; [auto|]. split; [|split].
    + intros t p0 Hp0. destruct (Nat.eq_dec t s) as [->|Ht].
      * assert (p0 = q) by congruence. subst p0. destruct (IT s q1 NU2) as (p' & Hp' & Wp' & Ea & Ec). exists p'. rewrite Fr. simpl. auto.
      * destruct (IT t p0) as (p' & Hp' & Wp' & Ea & Ec). { rewrite NU3; auto. }
        destruct (AG t p0 Ht Hp0) as (_ & A2 & A3). exists p'. split; auto. split; auto. split; [congruence|].
        intros c Hc. rewrite Ec by auto. apply A3. left; auto.
    + intros c Hc. rewrite IF by (rewrite upd_length; auto). apply Fm. intros E. specialize (Hc s E). lia.
    + rewrite IP. rewrite <- app_assoc. apply Permutation_app_head.
      symmetry. apply (concat_map_upd (alone_log m) (alone_log m1) ps s q q1 es Eq).
      * unfold alone_log. rewrite Fr. auto.
      * intros t p0 Ht Hp0. unfold alone_log. symmetry. apply (AG t p0 Ht Hp0).
Qed.

(** Every finished interleaving. *)
Theorem race_free sched m ps m' ps' log rs :
  (forall t p, nth_error ps t = Some p -> well_behaved t p) ->
  interleave cell_eqb sched m ps = (m', ps', log) -> results ps' = Some rs ->
  (forall t p, nth_error ps t = Some p -> nth_error rs t = Some (snd (fst (run_alone cell_eqb p m))) /\
     forall c, owner c = Some t -> m' c = fst (fst (run_alone cell_eqb p m)) c) /\
  (forall c, (forall t, owner c = Some t -> length ps <= t) -> m' c = m c) /\
  length rs = length ps /\
  Permutation log (concat (map (fun p => snd (run_alone cell_eqb p m)) ps)).
Proof.
  intros HW HE HR. destruct (interleave_alone sched m ps [] m' ps' log HW HE) as (HL & HT & HF & HP).
  assert (RES : forall (ps0 : list prog) (rs0 : list A), results ps0 = Some rs0 -> ps0 = map (fun a => Ret a) rs0).
  { clear. induction ps0 as [|p ps0 IH]; intros rs0 Hr; simpl in Hr; [injection Hr as <-; auto|]. destruct p; try discriminate.
    destruct (results ps0); [|discriminate]. simpl in Hr. injection Hr as <-. simpl. f_equal. auto. }
  apply RES in HR. subst ps'. split; [|split; [exact HF|split]].
  - intros t p Hp. destruct (HT t p Hp) as (p' & Hp' & _ & Ea & Ec). rewrite nth_error_map in Hp'.
    destruct (nth_error rs t) as [a|]; [|discriminate]. simpl in Hp'. injection Hp' as <-. simpl in Ea, Ec. split; [congruence|auto].
  - rewrite map_length in HL. auto.
  - rewrite app_nil_l in HP. etransitivity; [|exact HP]. 
    replace (concat (map (alone_log m') (map (fun a : A => Ret a) rs))) with (@nil Event); [rewrite app_nil_r; auto|].
    clear. induction rs; simpl; auto.
Qed.
End RaceFree.
