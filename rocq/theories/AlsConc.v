(** The parallel loops of the ALS solvers as an interleaving of threads, in the setting
    of RowConc.v. *)
From Coq Require Import List Arith Lia Bool Permutation.
From Verif Require Import Base Num Sparse SimilarBatch AlsModel RowConc.
Import ListNotations.

Section Conc.
Context {T : Type} `{Num T}.

(** _als.pyx:96-138: the private buffers are A and b ([malloc]ed per thread, :98-99).
    First step: [u] without entries is zeroed (:102-105), otherwise A and b are filled
    (:108-124; memcpy and memset overwrite what the previous user left); second step:
    posv, and the result is stored in X[u] (:127-138). *)
Inductive ls_phase := LsBegin | LsSolve.
Definition ls_task (posv : mat -> vec -> option vec) (initialA : mat) (Cui : csr T) (n : nat) (Y : mat)
  (u : nat) (buf : mat * vec) (ph : ls_phase) (x : vec) : res ((mat * vec) * option ls_phase * vec) :=
  do row <- raw_entries Cui u;
  match ph with
  | LsBegin => match row with
               | [] => Ok (buf, None, zeros n)
               | _ => do Ab <- system initialA n Y row; Ok (Ab, Some LsSolve, x)
               end
  | LsSolve => match posv (fst buf) (snd buf) with Some x' => Ok (buf, None, x') | None => Raise ValueError end
  end.

(** _als.pyx:172-244: the private buffers are r, p and Ap (:175-177); X[u] is updated in
    place by every step of the iteration. *)
Inductive cg_phase := CgBegin | CgLoop (steps : nat) (rsold : T).
Definition cg_task (eps : T) (steps : nat) (YtY : mat) (Cui : csr T) (n : nat) (Y : mat)
  (u : nat) (buf : vec * vec * vec) (ph : cg_phase) (x : vec) : res ((vec * vec * vec) * option cg_phase * vec) :=
  do row <- raw_entries Cui u;
  let '(r, p, Ap0) := buf in
  match ph with
  | CgBegin => match row with
               | [] => Ok (buf, None, zeros n)
               | _ => do r' <- residual YtY Y row x;
                      let rsold := ndot r' r' in
                      Ok ((r', r', Ap0), if nltb rsold eps then None else Some (CgLoop steps rsold), x)
               end
  | CgLoop O _ => Ok (buf, None, x)
  | CgLoop (S k) rsold =>
      do Ap <- apply_A YtY Y row p;
      do alpha <- c_div rsold (ndot p Ap);
      let x' := axpy alpha p x in
      let r' := axpy (nmul alpha (nopp none_)) Ap r in
      let rsnew := ndot r' r' in
      if nltb rsnew eps then Ok ((r', p, Ap), None, x') else
      do beta <- c_div rsnew rsold;
      Ok ((r', axpy none_ r' (scal beta p), Ap), Some (CgLoop k rsnew), x')
  end.

Lemma ls_task_runs posv initialA Cui n Y u row x' buf x : raw_entries Cui u = Ok row -> ls_row posv initialA n Y row = Ok x' ->
  runs (ls_task posv initialA Cui n Y) u buf LsBegin x x'.
Proof.
  intros ER E. unfold ls_row in E. destruct row as [|e row'] eqn:Erow.
  - inversion E; subst. apply runs_end with (b' := buf). unfold ls_task. rewrite ER. reflexivity.
  - destruct (system initialA n Y (e :: row')) as [[A b]|] eqn:ES; cbn [bind] in E; [|discriminate].
    destruct (posv A b) as [z|] eqn:EP; [|discriminate]. inversion E; subst.
    apply runs_more with (b' := (A, b)) (ph' := LsSolve) (row' := x).
    + unfold ls_task. rewrite ER. cbn [bind]. rewrite ES. reflexivity.
    + apply runs_end with (b' := (A, b)). unfold ls_task. rewrite ER. cbn [bind fst snd]. rewrite EP. reflexivity.
Qed.

Lemma cg_loop_runs eps steps0 YtY Cui n Y u row : raw_entries Cui u = Ok row ->
  forall k x r p Ap rsold x', cg_loop eps k YtY Y row x r p rsold = Ok x' ->
  runs (cg_task eps steps0 YtY Cui n Y) u (r, p, Ap) (CgLoop k rsold) x x'.
Proof.
  intros ER. induction k as [|k IH]; intros x r p Ap0 rsold x' E.
  - inversion E; subst. apply runs_end with (b' := (r, p, Ap0)). unfold cg_task. rewrite ER. reflexivity.
  - cbn [cg_loop] in E. destruct (apply_A YtY Y row p) as [Ap|] eqn:EA; cbn [bind] in E; [|discriminate].
    destruct (c_div rsold (ndot p Ap)) as [alpha|] eqn:Ed; cbn [bind] in E; [|discriminate]. cbv zeta in E.
    destruct (nltb _ eps) eqn:El.
    + inversion E; subst. eapply runs_end. unfold cg_task. rewrite ER. cbn [bind]. rewrite EA. cbn [bind]. rewrite Ed. cbn [bind]. cbv zeta. rewrite El. reflexivity.
    + destruct (c_div _ rsold) as [beta|] eqn:Eb; cbn [bind] in E; [|discriminate]. eapply runs_more; [|apply IH; exact E].
      unfold cg_task. rewrite ER. cbn [bind]. rewrite EA. cbn [bind]. rewrite Ed. cbn [bind]. cbv zeta. rewrite El, Eb. cbn [bind]. reflexivity.
Qed.
Lemma cg_task_runs eps steps YtY Cui n Y u row x x' buf : raw_entries Cui u = Ok row -> cg_row eps steps YtY n Y row x = Ok x' ->
  runs (cg_task eps steps YtY Cui n Y) u buf CgBegin x x'.
Proof.
  intros ER E. destruct buf as [[r p] Ap]. unfold cg_row in E. destruct row as [|e row'] eqn:Erow.
  - inversion E; subst. apply runs_end with (b' := (r, p, Ap)). unfold cg_task. rewrite ER. reflexivity.
  - destruct (residual YtY Y (e :: row') x) as [r'|] eqn:EE; cbn [bind] in E; [|discriminate]. cbv zeta in E.
    destruct (nltb (ndot r' r') eps) eqn:El.
    + inversion E; subst. eapply runs_end. unfold cg_task. rewrite ER. cbn [bind]. rewrite EE. cbn [bind]. cbv zeta. rewrite El. reflexivity.
    + eapply runs_more; [|eapply cg_loop_runs; eauto]. unfold cg_task. rewrite ER. cbn [bind]. rewrite EE. cbn [bind]. cbv zeta. rewrite El. reflexivity.
Qed.

(** From the loops run in order to any schedule. *)
Lemma schedule_all {Buf Phase} (task : nat -> Buf -> Phase -> list T -> res (Buf * option Phase * list T)) begin (X X' : list (list T)) deal sched :
  Permutation (flat_map fst deal) (seq 0 (length X)) -> length X' = length X ->
  (forall u b, u < length X -> runs task u b begin (nth u X []) (nth u X' [])) ->
  exists st, prun task begin sched (pstart X deal) = Ok st /\ (finished st -> fst st = X').
Proof.
  intros P L A.
  assert (IN : forall u, In u (flat_map fst deal) <-> u < length X).
  { intros u. split; intros Hu.
    - apply (Permutation_in _ P) in Hu. apply in_seq in Hu. lia.
    - apply (Permutation_in _ (Permutation_sym P)). apply in_seq. lia. }
  destruct (any_schedule task begin X (fun u => nth u X' []) deal sched) as [st [E F]].
  - eapply Permutation_NoDup; [apply Permutation_sym; eauto|apply seq_NoDup].
  - intros u Hu. apply IN; auto.
  - intros u b row Hu Er. replace row with (nth u X []) by (apply nth_error_nth; auto). apply A. apply IN; auto.
  - exists st. split; auto. intros FI. destruct (F FI) as [LS FS].
    apply nth_ext with (d := []) (d' := []); [congruence|]. intros u B. rewrite LS in B. specialize (FS u).
    destruct (in_dec Nat.eq_dec u (flat_map fst deal)) as [_|N]; [|exfalso; apply N, IN; auto]. apply nth_error_nth. auto.
Qed.

Theorem least_squares_any_schedule posv n Cui X Y reg X' deal sched :
  least_squares posv n Cui X Y reg = Ok X' -> Permutation (flat_map fst deal) (seq 0 (length X)) ->
  exists st, prun (ls_task posv (add_diag reg (gram n Y)) Cui n Y) LsBegin sched (pstart X deal) = Ok st /\ (finished st -> fst st = X').
Proof.
  intros E P. unfold least_squares, least_squares_c in E. apply (proj1 (map_res_nth _ _ _ 0 [])) in E. rewrite seq_length in E. destruct E as [L E].
  apply schedule_all; auto. intros u b B. specialize (E u B). rewrite seq_nth in E by auto. simpl plus in E.
  destruct (raw_entries Cui u) as [row|] eqn:ER; cbn [bind] in E; [|discriminate]. eapply ls_task_runs; eauto.
Qed.
Lemma nth_enum_from {A} k (l : list A) u d : u < length l -> nth u (enum_from k l) (0, d) = (k + u, nth u l d).
Proof. revert k u. induction l as [|a l IH]; simpl; intros k u B; [lia|]. destruct u; [f_equal; lia|]. rewrite IH by lia. f_equal. lia. Qed.
Theorem least_squares_cg_any_schedule eps steps n Cui X Y reg X' deal sched :
  least_squares_cg eps steps n Cui X Y reg = Ok X' -> Permutation (flat_map fst deal) (seq 0 (length X)) ->
  exists st, prun (cg_task eps steps (add_diag reg (gram n Y)) Cui n Y) CgBegin sched (pstart X deal) = Ok st /\ (finished st -> fst st = X').
Proof.
  intros E P. unfold least_squares_cg in E. apply (proj1 (map_res_nth _ _ _ (0, []) [])) in E. unfold enum in E. rewrite enum_from_length in E. destruct E as [L E].
  apply schedule_all; auto. intros u b B. specialize (E u B). rewrite nth_enum_from in E by auto. simpl in E.
  destruct (raw_entries Cui u) as [row|] eqn:ER; cbn [bind] in E; [|discriminate]. eapply cg_task_runs; eauto.
Qed.
End Conc.
