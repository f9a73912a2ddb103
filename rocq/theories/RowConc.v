(** Parallel loops whose iterations each own one row of a shared array (Cython's
    [prange] in the ALS and LMF code): an interleaving semantics.  Users are dealt to
    threads in any way (any outcome of OpenMP's dynamic scheduling); a thread keeps its
    private buffers from one iteration to the next, as the C code does; a schedule is any
    list of thread numbers. *)
From Coq Require Import List Arith Lia Bool Permutation.
From Verif Require Import Base KnnConc.
Import ListNotations.

Section RowConc.
Context {Row Buf Phase : Type}.
(** One atomic step of iteration [u]: private buffers, phase, contents of row [u];
    [None]: the iteration is over. *)
Variable step : nat -> Buf -> Phase -> Row -> res (Buf * option Phase * Row).
Variable begin : Phase.

Record worker : Type := { w_queue : list nat; w_cur : option (nat * Phase); w_buf : Buf }.
Definition pstate : Type := (list Row * list worker)%type.

Definition pstep (st : pstate) (t : nat) : res pstate :=
  let '(X, ws) := st in
  match nth_error ws t with
  | None => Ok st
  | Some w =>
      match w_cur w, w_queue w with
      | None, [] => Ok st
      | None, u :: q => Ok (X, upd t {| w_queue := q; w_cur := Some (u, begin); w_buf := w_buf w |} ws)
      | Some (u, ph), q =>
          match nth_error X u with
          | None => Raise UB
          | Some row =>
              do ' (b', ph', row') <- step u (w_buf w) ph row;
              Ok (upd u row' X, upd t {| w_queue := q; w_cur := match ph' with Some p => Some (u, p) | None => None end; w_buf := b' |} ws)
          end
      end
  end.
Definition prun (sched : list nat) (st : pstate) : res pstate := fold_res pstep sched st.
Definition pstart (X : list Row) (deal : list (list nat * Buf)) : pstate :=
  (X, map (fun d => {| w_queue := fst d; w_cur := None; w_buf := snd d |}) deal).
Definition finished (st : pstate) : Prop := forall w, In w (snd st) -> w_queue w = [] /\ w_cur w = None.

(** The iteration run alone. *)
Inductive runs (u : nat) : Buf -> Phase -> Row -> Row -> Prop :=
| runs_end b ph row b' row' : step u b ph row = Ok (b', None, row') -> runs u b ph row row'
| runs_more b ph row b' ph' row' r : step u b ph row = Ok (b', Some ph', row') -> runs u b' ph' row' r -> runs u b ph row r.

Section Proof.
Variable X0 : list Row.
Variable f : nat -> Row.
Definition pending (w : worker) : list nat := match w_cur w with Some (u, _) => [u] | None => [] end ++ w_queue w.

Definition pinv (all : list nat) (st : pstate) : Prop :=
  length (fst st) = length X0 /\
  exists done, Permutation all (done ++ flat_map pending (snd st)) /\
  (forall u, In u done -> nth_error (fst st) u = Some (f u)) /\
  (forall w u, In w (snd st) -> In u (w_queue w) -> nth_error (fst st) u = nth_error X0 u) /\
  (forall w u ph, In w (snd st) -> w_cur w = Some (u, ph) -> exists row, nth_error (fst st) u = Some row /\ runs u (w_buf w) ph row (f u)) /\
  (forall u, ~ In u all -> nth_error (fst st) u = nth_error X0 u).

Lemma flat_map_upd (ws : list worker) t w w' : nth_error ws t = Some w ->
  exists l1 l2, ws = l1 ++ w :: l2 /\ upd t w' ws = l1 ++ w' :: l2.
Proof.
  revert t. induction ws as [|v ws IH]; intros t E; destruct t; simpl in E; try discriminate.
  - inversion E; subst. exists [], ws. auto.
  - destruct (IH t E) as [l1 [l2 [-> E2]]]. exists (v :: l1), l2. simpl. rewrite E2. auto.
Qed.

Lemma pstep_inv all st t : NoDup all -> (forall u, In u all -> u < length X0) ->
  (forall u b row, In u all -> nth_error X0 u = Some row -> runs u b begin row (f u)) ->
  pinv all st -> exists st', pstep st t = Ok st' /\ pinv all st'.
Proof.
  intros ND B ALONE [LX [don [P [D [Q [C O]]]]]]. destruct st as [X ws]. simpl in *. unfold pstep.
  destruct (nth_error ws t) as [w|] eqn:Et.
  2:{ eexists. split; [reflexivity|]. split; auto. exists don. auto. }
  assert (Hw : In w ws) by (eapply nth_error_In; eauto).
  assert (ND2 : NoDup (don ++ flat_map pending ws)) by (eapply Permutation_NoDup; eauto).
  destruct (w_cur w) as [[u ph]|] eqn:Ec.
  - destruct (C w u ph Hw Ec) as [row [Er R]]. rewrite Er.
    assert (Bu : u < length X) by (apply nth_error_Some; congruence).
    assert (ST : exists b' ph' row', step u (w_buf w) ph row = Ok (b', ph', row') /\
       match ph' with Some p => runs u b' p row' (f u) | None => row' = f u end).
    { inversion R as [? ? ? b' row' ES|? ? ? b' ph' row' r ES RR]; subst; eexists _, _, _; split; eauto; simpl; auto. }
    destruct ST as [b' [ph' [row' [ES RR]]]]. rewrite ES. cbn [bind]. eexists. split; [reflexivity|].
    set (w' := {| w_queue := w_queue w; w_cur := match ph' with Some p => Some (u, p) | None => None end; w_buf := b' |}).
    destruct (flat_map_upd ws t w w' Et) as [l1 [l2 [Ews Eupd]]]. split; [simpl; rewrite upd_length; auto|].
    simpl fst. simpl snd. rewrite Eupd.
    assert (PW : pending w = u :: w_queue w) by (unfold pending; rewrite Ec; auto).
    assert (FR : flat_map pending ws = flat_map pending l1 ++ (u :: w_queue w) ++ flat_map pending l2)
      by (rewrite Ews, flat_map_app; simpl; rewrite PW; auto).
    (* u occurs nowhere else *)
    assert (NU : ~ In u (don ++ flat_map pending l1 ++ w_queue w ++ flat_map pending l2)).
    { rewrite FR in ND2. intros X1. 
      assert (ND3 : NoDup ((don ++ flat_map pending l1) ++ u :: (w_queue w ++ flat_map pending l2))) by (rewrite <- app_assoc; exact ND2).
      apply NoDup_remove_2 in ND3. apply ND3. rewrite <- app_assoc. exact X1. }
    assert (NQ : forall w2 u2, In w2 (l1 ++ l2) -> In u2 (pending w2) -> u2 <> u).
    { intros w2 u2 H2 Hu2 ->. apply NU. apply in_or_app. right. apply in_app_or in H2. destruct H2 as [H2|H2].
      - apply in_or_app. left. apply in_flat_map. eauto.
      - apply in_or_app. right. apply in_or_app. right. apply in_flat_map. eauto. }
    assert (NW : forall u2, In u2 (w_queue w) -> u2 <> u).
    { intros u2 H2 ->. apply NU. apply in_or_app. right. apply in_or_app. right. apply in_or_app. auto. }
    assert (KEEP : forall u2, u2 <> u -> nth_error (upd u row' X) u2 = nth_error X u2) by (intros; apply nth_error_upd_neq; auto).
    assert (HERE : nth_error (upd u row' X) u = Some row') by (apply nth_error_upd_eq; auto).
    assert (INw : forall w2, In w2 (l1 ++ w' :: l2) -> w2 = w' \/ In w2 (l1 ++ l2)).
    { intros w2 H2. apply in_app_or in H2. destruct H2 as [H2|[<-|H2]]; auto; right; apply in_or_app; auto. }
    assert (IN2 : forall w2, In w2 (l1 ++ l2) -> In w2 ws).
    { intros w2 H2. rewrite Ews. apply in_app_or in H2. apply in_or_app. destruct H2; [left|right; right]; auto. }
    assert (Uall : In u all).
    { apply (Permutation_in _ (Permutation_sym P)). apply in_or_app. right. rewrite FR. apply in_or_app. right. left. auto. }
    exists (match ph' with Some _ => don | None => u :: don end). split; [|split; [|split; [|split]]].
    + assert (PW' : pending w' = match ph' with Some _ => [u] | None => [] end ++ w_queue w) by (unfold pending, w'; simpl; destruct ph'; auto).
      rewrite P, FR, flat_map_app. cbn [flat_map]. rewrite PW'. destruct ph' as [p|]; simpl; auto.
      rewrite !app_assoc. symmetry. apply Permutation_cons_app. rewrite <- !app_assoc. auto.
    + intros u2 H2. destruct ph' as [p|].
      * rewrite KEEP; auto. intros ->. apply NU. apply in_or_app; auto.
      * destruct H2 as [<-|H2]; [subst row'; auto|]. rewrite KEEP; auto. intros ->. apply NU. apply in_or_app; auto.
    + intros w2 u2 H2 Hu2. destruct (INw w2 H2) as [->|H3].
      * simpl in Hu2. rewrite (KEEP u2 (NW u2 Hu2)). apply (Q w u2 Hw Hu2).
      * rewrite KEEP; [apply (Q w2 u2 (IN2 w2 H3) Hu2)|]. apply (NQ w2 u2 H3). unfold pending. apply in_or_app. right. exact Hu2.
    + intros w2 u2 ph2 H2 Hc2. destruct (INw w2 H2) as [->|H3].
      * simpl in Hc2. destruct ph' as [p|]; [|discriminate]. inversion Hc2; subst. exists row'. auto.
      * rewrite KEEP; [apply (C w2 u2 ph2 (IN2 w2 H3) Hc2)|]. apply (NQ w2 u2 H3). unfold pending. rewrite Hc2. left; auto.
    + intros u2 H2. rewrite KEEP; auto. intros ->. auto.
  - destruct (w_queue w) as [|u q] eqn:Eq.
    + eexists. split; [reflexivity|]. split; auto. exists don. auto.
    + eexists. split; [reflexivity|]. set (w' := {| w_queue := q; w_cur := Some (u, begin); w_buf := w_buf w |}).
      destruct (flat_map_upd ws t w w' Et) as [l1 [l2 [Ews Eupd]]]. split; auto. simpl fst. simpl snd. rewrite Eupd.
      assert (PW : pending w = u :: q) by (unfold pending; rewrite Ec, Eq; auto).
      assert (PW' : pending w' = u :: q) by reflexivity.
      assert (INw : forall w2, In w2 (l1 ++ w' :: l2) -> w2 = w' \/ In w2 ws).
      { intros w2 H2. rewrite Ews. apply in_app_or in H2. destruct H2 as [H2|[<-|H2]]; auto; right; apply in_or_app; [left|right; right]; auto. }
      assert (Uall : In u all).
      { apply (Permutation_in _ (Permutation_sym P)). apply in_or_app. right. apply in_flat_map. exists w. split; auto. rewrite PW. left; auto. }
      exists don. split; [|split; [|split; [|split]]]; auto.
      * rewrite P, Ews, !flat_map_app. cbn [flat_map]. rewrite PW, PW'. auto.
      * intros w2 u2 H2 Hu2. destruct (INw w2 H2) as [->|H3]; [|eapply Q; eauto]. simpl in Hu2. apply (Q w); auto. rewrite Eq. right; auto.
      * intros w2 u2 ph2 H2 Hc2. destruct (INw w2 H2) as [->|H3]; [|eapply C; eauto]. simpl in Hc2. inversion Hc2; subst.
        assert (E0 : nth_error X u2 = nth_error X0 u2) by (apply (Q w); auto; rewrite Eq; left; auto).
        destruct (nth_error X0 u2) as [row|] eqn:E1. { exists row. split; auto. }
        apply nth_error_None in E1. specialize (B u2 Uall). lia.
Qed.

(** Whatever the schedule, nothing goes wrong, and when all threads are finished each
    row holds what its iteration computes alone; other rows are untouched. *)
Theorem any_schedule (deal : list (list nat * Buf)) (sched : list nat) :
  NoDup (flat_map fst deal) -> (forall u, In u (flat_map fst deal) -> u < length X0) ->
  (forall u b row, In u (flat_map fst deal) -> nth_error X0 u = Some row -> runs u b begin row (f u)) ->
  exists st, prun sched (pstart X0 deal) = Ok st /\
    (finished st -> length (fst st) = length X0 /\
       forall u, nth_error (fst st) u = if in_dec Nat.eq_dec u (flat_map fst deal) then Some (f u) else nth_error X0 u).
Proof.
  intros ND B ALONE. set (all := flat_map fst deal) in *.
  assert (I0 : pinv all (pstart X0 deal)).
  { split; auto. exists []. split; [|split; [|split; [|split]]]; simpl; auto; try tauto.
    - unfold all. clear. induction deal as [|[q b] d IH]; simpl; auto. apply Permutation_app_head. auto.
    - intros w u ph Hw Hc. apply in_map_iff in Hw. destruct Hw as [d [<- _]]. discriminate. }
  assert (G : forall sched st, pinv all st -> exists st', prun sched st = Ok st' /\ pinv all st').
  { clear sched. induction sched as [|t sched IH]; intros st I; [exists st; split; auto|]. unfold prun. cbn [fold_res].
    destruct (pstep_inv all st t ND B ALONE I) as [st' [-> I']]. cbn [bind]. apply IH; auto. }
  destruct (G sched _ I0) as [st [E [LX [don [P [D [Q [C O]]]]]]]]. exists st. split; auto. intros F. split; auto.
  assert (E0 : flat_map pending (snd st) = []).
  { clear -F. unfold finished in F. induction (snd st) as [|w ws IH]; auto. simpl. destruct (F w (or_introl eq_refl)) as [F1 F2]. unfold pending at 1. rewrite F1, F2. simpl.
    apply IH. intros; apply F; right; auto. }
  rewrite E0, app_nil_r in P. intros u. destruct (in_dec Nat.eq_dec u all) as [Hu|Hu]; [|auto]. apply D. eapply Permutation_in; eauto.
Qed.
End Proof.
End RowConc.
