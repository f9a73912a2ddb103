(** Training that is watched by callbacks, and training continued by another fit: properties C132 and C133 of properties.jsonl. *)
From Coq Require Import List Arith Lia Bool ZArith QArith.
From Verif Require Import Base Num Heap Sparse TopkModel RecommendModel AlsModel ExplainModel AlsState AlsStateProofs PropAlsState
  ThreadProg BprModel LmfModel PropBpr PropLmf MfState PropMfState Resume.
Import ListNotations.
Local Open Scope nat_scope.

(* ------------------------------------------------------------------ C132 *)
Section Watch.
Context {T : Type} {NT : Num T} {W : Type}.
Variable E : env T W.

Lemma run_query_factors s q : sX (fst (run_query E s q)) = sX s /\ sY (fst (run_query E s q)) = sY s.
Proof.
  unfold run_query. destruct (sX s) as [X|] eqn:EX; [|cbn; auto]. destruct (sY s) as [Y|] eqn:EY; [|cbn; auto]. cbn [fst].
  destruct (reads_YtY q), (reads_XtX q), (reads_unorm q), (reads_inorm E X (XtX_value E s X) q); cbn; auto.
Qed.
Lemma run_queries_factors qs : forall s, sX (run_queries E s qs) = sX s /\ sY (run_queries E s qs) = sY s.
Proof.
  induction qs as [|q qs IH]; intros s; [auto|]. unfold run_queries in *. cbn [fold_left]. destruct (IH (fst (run_query E s q))) as [A B].
  destruct (run_query_factors s q) as [C D]. split; congruence.
Qed.
Lemma fit_loop_watch Cui Ciu cb k : forall it1 it2 s1 s2 X Y, sX s1 = sX s2 -> sY s1 = sY s2 ->
  let '(t1, _, r1) := fit_loop E Cui Ciu cb k it1 s1 X Y in
  let '(t2, _, r2) := fit_loop E Cui Ciu None k it2 s2 X Y in
  sX t1 = sX t2 /\ sY t1 = sY t2 /\ r1 = r2.
Proof.
  induction k as [|k IH]; intros it1 it2 s1 s2 X Y EX EY; cbn [fit_loop]; [auto|].
  destruct (e_solver E Cui X Y (e_reg E)) as [X' [x|]]; [cbn; auto|].
  destruct (e_solver E Ciu Y X' (e_reg E)) as [Y' [y|]]; [cbn; auto|].
  destruct cb as [f|].
  - set (a := run_queries E (set_Y (set_X s1 (Some X')) (Some Y')) (f it1)).
    assert (Q : sX a = Some X' /\ sY a = Some Y') by (destruct (run_queries_factors (f it1) (set_Y (set_X s1 (Some X')) (Some Y'))) as [A B]; split; [exact A|exact B]).
    specialize (IH (S it1) (S it2) a (set_Y (set_X s2 (Some X')) (Some Y')) X' Y').
    destruct (fit_loop E Cui Ciu (Some f) k (S it1) a X' Y') as [[t1 tr1] r1]. destruct (fit_loop E Cui Ciu None k (S it2) (set_Y (set_X s2 (Some X')) (Some Y')) X' Y') as [[t2 tr2] r2].
    apply IH; cbn; tauto.
  - apply IH; reflexivity.
Qed.
End Watch.

(** The factors after fit, and whether it raises, do not depend on what the callbacks ask of the model. *)
Theorem C132_partial : forall T (NT : Num T) W (E : env T W) s M X0 Y0 cb1 fc1 cb2 fc2,
  let '(s1, _, r1) := fit E s M X0 Y0 cb1 fc1 in
  let '(s2, _, r2) := fit E s M X0 Y0 cb2 fc2 in
  sX s1 = sX s2 /\ sY s1 = sY s2 /\ r1 = r2.
Proof.
  intros T NT W E s M X0 Y0 cb1 fc1 cb2 fc2. unfold fit.
  set (X := match sX s with Some X => X | None => X0 end). set (Y := match sY s with Some Y => Y | None => Y0 end).
  set (s0 := {| sX := Some X |}). set (Cui := apply_alpha (e_alpha E) M).
  set (c1 := match cb1 with Some _ => cb1 | None => fc1 end). set (c2 := match cb2 with Some _ => cb2 | None => fc2 end).
  pose proof (fit_loop_watch E Cui (transpose Cui) c1 (e_iterations E) 0 0 s0 s0 X Y eq_refl eq_refl) as A.
  pose proof (fit_loop_watch E Cui (transpose Cui) c2 (e_iterations E) 0 0 s0 s0 X Y eq_refl eq_refl) as B.
  destruct (fit_loop E Cui (transpose Cui) c1 (e_iterations E) 0 s0 X Y) as [[t1 tr1] r1].
  destruct (fit_loop E Cui (transpose Cui) c2 (e_iterations E) 0 s0 X Y) as [[t2 tr2] r2].
  destruct (fit_loop E Cui (transpose Cui) None (e_iterations E) 0 s0 X Y) as [[t3 tr3] r3].
  destruct A as [A1 [A2 A3]], B as [B1 [B2 B3]]. subst r1 r2. destruct r3 as [u|x]; (split; [congruence|split; [congruence|]]).
  - rewrite A1, A2, <- B1, <- B2. reflexivity.
  - reflexivity.
Qed.
Print Assumptions C132_partial.

(** A callback that only asks for recommendations (without recalculate_user) leaves no trace at all. *)
Definition only_recommends {T W} (cb : option (nat -> list (query T W))) : Prop :=
  forall f it q, cb = Some f -> In q (f it) -> exists u M N fl fi its, q = QRecommend u M N fl fi false its.
Lemma quiet_queries {T} {NT : Num T} {W} (E : env T W) qs : (forall q, In q qs -> exists u M N fl fi its, q = QRecommend u M N fl fi false its) ->
  forall s, run_queries E s qs = s.
Proof.
  induction qs as [|q qs IH]; intros Q s; [reflexivity|]. unfold run_queries in *. cbn [fold_left].
  destruct (Q q (or_introl eq_refl)) as (u & M & N & fl & fi & its & ->).
  replace (fst (run_query E s (QRecommend u M N fl fi false its))) with s; [apply IH; intros; apply Q; right; auto|].
  unfold run_query. destruct (sX s); [|reflexivity]. destruct (sY s); [|reflexivity]. destruct M; reflexivity.
Qed.
Theorem C132_quiet : forall T (NT : Num T) W (E : env T W) s M X0 Y0 cb fc, only_recommends cb -> only_recommends fc ->
  let '(s1, _, r1) := fit E s M X0 Y0 cb fc in
  let '(s2, _, r2) := fit E s M X0 Y0 None None in s1 = s2 /\ r1 = r2.
Proof.
  intros T NT W E s M X0 Y0 cb fc Q1 Q2. unfold fit.
  set (X := match sX s with Some X => X | None => X0 end). set (Y := match sY s with Some Y => Y | None => Y0 end).
  set (s0 := {| sX := Some X |}). set (Cui := apply_alpha (e_alpha E) M).
  set (c := match cb with Some _ => cb | None => fc end).
  assert (Q : only_recommends c) by (unfold c; destruct cb; auto).
  assert (A : forall k it1 it2 s X Y, let '(t1, _, r1) := fit_loop E Cui (transpose Cui) c k it1 s X Y in
     let '(t2, _, r2) := fit_loop E Cui (transpose Cui) None k it2 s X Y in t1 = t2 /\ r1 = r2).
  { clear s0. induction k as [|k IH]; intros it1 it2 s0 X1 Y1; cbn [fit_loop]; [auto|].
    destruct (e_solver E Cui X1 Y1 (e_reg E)) as [X' [x|]]; [auto|]. destruct (e_solver E (transpose Cui) Y1 X' (e_reg E)) as [Y' [y|]]; [auto|].
    specialize (IH (S it1) (S it2) (set_Y (set_X s0 (Some X')) (Some Y')) X' Y'). destruct c as [f|].
    - rewrite quiet_queries by (intros q Hq; apply (Q f it1 q eq_refl Hq)).
      destruct (fit_loop E Cui (transpose Cui) (Some f) k (S it1) (set_Y (set_X s0 (Some X')) (Some Y')) X' Y') as [[t1 tr1] r1]. exact IH.
    - exact IH. }
  specialize (A (e_iterations E) 0 0 s0 X Y).
  destruct (fit_loop E Cui (transpose Cui) c (e_iterations E) 0 s0 X Y) as [[t1 tr1] r1].
  destruct (fit_loop E Cui (transpose Cui) None (e_iterations E) 0 s0 X Y) as [[t2 tr2] r2]. destruct A as [-> ->]. destruct r2; auto.
Qed.
Print Assumptions C132_quiet.
(** False of what the model answers afterwards: the Gram matrix of the item factors, computed for a callback after the first of two
    iterations, is still used when training has ended. *)
Theorem C132_refuted : exists (E : env Q unit) M X0 Y0 cb q s1 tr s2,
  fit E fresh_state M X0 Y0 (Some cb) None = (s1, tr, Ok tt) /\ fit E fresh_state M X0 Y0 None None = (s2, [], Ok tt) /\
  snd (run_query E s1 q) <> snd (run_query E s2 q).
Proof.
  exists (exE 2), exMq, exX0, exX0, cb_recalc, (QRecalculateUser (Batch [0%Z]) (ex_rows 1)).
  exists (fst (fst (fit (exE 2) fresh_state exMq exX0 exX0 (Some cb_recalc) None))), (snd (fst (fit (exE 2) fresh_state exMq exX0 exX0 (Some cb_recalc) None))),
    (fst (fst (fit (exE 2) fresh_state exMq exX0 exX0 None None))).
  split; [vm_compute; reflexivity|]. split; [vm_compute; reflexivity|]. vm_compute. discriminate.
Qed.
Print Assumptions C132_refuted.
Example C132_example : only_recommends (T := Q) (W := unit) (Some (fun it => [QRecommend (Scalar (Z.of_nat it)) NotCsr 2%Z false None false None])).
Proof. intros f it q EF I. injection EF as <-. destruct I as [<-|[]]. repeat eexists. Qed.

(* ------------------------------------------------------------------ C133 *)
(** The same model with another number of iterations. *)
Definition with_iterations {T W} (E : env T W) (k : nat) : env T W := {|
  e_heap := e_heap E; e_fmin := e_fmin E; e_norm := e_norm E; e_tiny := e_tiny E; e_isnan := e_isnan E; e_posv := e_posv E; e_alpha := e_alpha E; e_reg := e_reg E;
  e_n := e_n E; e_iterations := k; e_heapq := e_heapq E; e_cho_factor := e_cho_factor E; e_cho_solve := e_cho_solve E; e_solver := e_solver E |}.
Lemma fit_loop_env {T} {NT : Num T} {W} (E : env T W) j Cui Ciu k : forall it it' s X Y,
  fit_loop (with_iterations E j) Cui Ciu None k it s X Y = fit_loop E Cui Ciu None k it' s X Y.
Proof.
  induction k as [|k IH]; intros it it' s X Y; cbn [fit_loop]; [auto|]. cbn [with_iterations e_solver e_reg].
  destruct (e_solver E Cui X Y (e_reg E)) as [X' [x|]]; [auto|]. destruct (e_solver E Ciu Y X' (e_reg E)) as [Y' [y|]]; [auto|]. apply IH.
Qed.
Lemma fit_loop_more {T} {NT : Num T} {W} (E : env T W) Cui Ciu k2 k1 : forall it s X Y s1 tr1,
  sX s = Some X -> sY s = Some Y -> fit_loop E Cui Ciu None k1 it s X Y = (s1, tr1, Ok tt) ->
  exists X1 Y1, sX s1 = Some X1 /\ sY s1 = Some Y1 /\ s_unorm s1 = s_unorm s /\ s_inorm s1 = s_inorm s /\ s_YtY s1 = s_YtY s /\ s_XtX s1 = s_XtX s /\
  fit_loop E Cui Ciu None (k1 + k2) it s X Y = fit_loop E Cui Ciu None k2 0 s1 X1 Y1.
Proof.
  induction k1 as [|k IH]; intros it s X Y s1 tr1 HX HY F; cbn [fit_loop plus] in *.
  - injection F as <- <-. exists X, Y. repeat (split; [auto|]). pose proof (fit_loop_env E 0 Cui Ciu k2 0 it s X Y) as A. rewrite <- A. apply (fit_loop_env E 0 Cui Ciu k2 0 0).
  - destruct (e_solver E Cui X Y (e_reg E)) as [X' [x|]]; [discriminate|]. destruct (e_solver E Ciu Y X' (e_reg E)) as [Y' [y|]]; [discriminate|].
    destruct (IH _ (set_Y (set_X s (Some X')) (Some Y')) _ _ _ _ eq_refl eq_refl F) as (X1 & Y1 & A). exists X1, Y1. exact A.
Qed.
Lemma fit_loop_quiet_trace {T} {NT : Num T} {W} (E : env T W) Cui Ciu k : forall it s X Y, snd (fst (fit_loop E Cui Ciu None k it s X Y)) = [].
Proof.
  induction k as [|k IH]; intros it s X Y; cbn [fit_loop]; [auto|].
  destruct (e_solver E Cui X Y (e_reg E)) as [X' [x|]]; [auto|]. destruct (e_solver E Ciu Y X' (e_reg E)) as [Y' [y|]]; [auto|]. apply IH.
Qed.

(** Alternating least squares: fitting for [n1] and then for [n2] iterations is fitting for [n1 + n2], whatever initial factors a later fit
    might have drawn, and whatever was done with the model before. *)
Theorem C133_als_partial : forall T (NT : Num T) W (E : env T W) s M X0 Y0 X0' Y0' n1 n2 s1 tr1,
  fit (with_iterations E n1) s M X0 Y0 None None = (s1, tr1, Ok tt) ->
  fit (with_iterations E n2) s1 M X0' Y0' None None = fit (with_iterations E (n1 + n2)) s M X0 Y0 None None.
Proof.
  intros T NT W E s M X0 Y0 X0' Y0' n1 n2 s1 tr1 F. unfold fit in *. cbn [with_iterations e_alpha e_iterations e_isnan] in *.
  set (X := match sX s with Some X => X | None => X0 end) in *. set (Y := match sY s with Some Y => Y | None => Y0 end) in *.
  set (s0 := {| sX := Some X |}) in *. set (Cui := apply_alpha (e_alpha E) M) in *.
  rewrite (fit_loop_env E n1 Cui (transpose Cui) n1 0 0) in F. rewrite (fit_loop_env E n2 Cui (transpose Cui) n2 0 0), (fit_loop_env E (n1 + n2) Cui (transpose Cui) (n1 + n2) 0 0).
  destruct (fit_loop E Cui (transpose Cui) None n1 0 s0 X Y) as [[t tr] r] eqn:EL. destruct r as [[]|x]; [|discriminate].
  assert (t = s1) by congruence. subst t.
  destruct (fit_loop_more E Cui (transpose Cui) n2 n1 0 s0 X Y s1 tr eq_refl eq_refl EL) as (X1 & Y1 & H1 & H2 & H3 & H4 & H5 & H6 & H7).
  rewrite H7, H1, H2. replace {| sX := Some X1; sY := Some Y1; s_unorm := None; s_inorm := None; s_YtY := None; s_XtX := None |} with s1; [reflexivity|].
  destruct s1. cbn in *. congruence.
Qed.
Print Assumptions C133_als_partial.

(** BPR, for the same random numbers and schedules. *)
Lemma bpr_epochs_app {T} `{Num T} o (M : csr T) in2 in1 : forall e m m1 l1 t1 m2 l2 t2,
  bpr_epochs o M in1 e m = Some (m1, l1, t1) -> bpr_epochs o M in2 0 m1 = Some (m2, l2, t2) ->
  exists t3, bpr_epochs o M (in1 ++ in2) e m = Some (m2, l1 ++ l2, t1 ++ t3) /\ map snd t3 = map snd t2.
Proof.
  assert (SH : forall i e e' m, match bpr_epochs o M i e m, bpr_epochs o M i e' m with
     | Some (a, l, t), Some (b, k, u) => a = b /\ l = k /\ map snd t = map snd u | None, None => True | _, _ => False end).
  { induction i as [|[dr sc] i IH]; intros e e' m; cbn [bpr_epochs]; [auto|].
    destruct (bpr_update o _ _ _ dr sc m) as [[[[m' lg] co] sk]|]; [|auto]. specialize (IH (S e) (S e') m').
    destruct (bpr_epochs o M i (S e) m') as [[[a l] t]|], (bpr_epochs o M i (S e') m') as [[[b k] u]|]; auto. destruct IH as (-> & -> & IH). cbn. rewrite IH. auto. }
  induction in1 as [|[dr sc] in1 IH]; intros e m m1 l1 t1 m2 l2 t2 A B; cbn [bpr_epochs app] in *.
  - injection A as <- <- <-. specialize (SH in2 0 e m). rewrite B in SH. destruct (bpr_epochs o M in2 e m) as [[[b k] u]|]; [|tauto]. destruct SH as (-> & -> & SH). exists u. auto.
  - destruct (bpr_update o _ _ _ dr sc m) as [[[[m' lg] co] sk]|]; [|discriminate]. destruct (bpr_epochs o M in1 (S e) m') as [[[a l] t]|] eqn:EA; [|discriminate].
    injection A as <- <- <-. destruct (IH _ _ _ _ _ _ _ _ EA B) as (t3 & EB & P). exists t3. rewrite EB. rewrite app_assoc. auto.
Qed.
Theorem C133_bpr_partial : forall T (NT : Num T) (o : bpr_opts) (M : csr T) rx ry in1 in2 m1 log1 tr1 m2 log2 tr2,
  bpr_fit o M rx ry in1 = Some (m1, log1, tr1) -> bpr_fit_again o M m1 in2 = Some (m2, log2, tr2) ->
  exists tr3, bpr_fit o M rx ry (in1 ++ in2) = Some (m2, log1 ++ log2, tr1 ++ tr3) /\ map snd tr3 = map snd tr2.
Proof. intros T NT o M rx ry in1 in2 m1 log1 tr1 m2 log2 tr2 A B. unfold bpr_fit, bpr_fit_again in *. eapply bpr_epochs_app; eauto. Qed.
Print Assumptions C133_bpr_partial.
Example C133_bpr_example :
  match bpr_fit bo bM brand brand bin with
  | Some (m1, l1, t1) => match bpr_fit_again bo bM m1 bin with
      | Some (m2, l2, t2) => length l1 = 6 /\ length l2 = 6 /\ m1 (CY 0 0) = (458 # 125)%Q /\ m2 (CY 0 0) = (5376053 # 500000)%Q
      | None => False end
  | None => False end.
Proof. vm_compute. auto. Qed.
Example C133_als_example :
  match fit (with_iterations (exE 2) 1) fresh_state exMq exX0 exX0 None None with
  | (s1, _, Ok tt) => sY s1 <> sY (fst (fst (fit (with_iterations (exE 2) 1) s1 exMq exX0 exX0 None None)))
  | _ => False end.
Proof. vm_compute. discriminate. Qed.

(** Logistic matrix factorization: not so, since the sums of squared gradients that set the step sizes start from zero again.  One user,
    one item, no factors besides the two bias columns, two epochs. *)
From Coq Require Import Reals Lra.
Local Open Scope R_scope.
Definition one_o : lmf_opts (T := R) := {| l_exp := exp; l_sqrt := sqrt; l_tiny := / 1000000; l_lr := 1; l_reg := 0; l_neg := 0; l_n := 2 |}.
Definition one_M : csr R := csr_of_rows 1 [[(0%nat, 1)]].
Definition one_side : list (list nat * (nat -> nat)) * list nat := ([([0%nat], fun _ => 0%nat)], repeat 0%nat 40).
Definition one_epoch : epoch_input := (one_side, one_side).
Definition one_grad (U V : nat -> nat -> R) : R :=
  (1 - sigmoid one_o (0 + U 0%nat 0%nat * V 0%nat 0%nat + U 0%nat 1%nat * V 0%nat 1%nat)) * V 0%nat 1%nat.
Lemma one_update U V D : exists U' D' log, lmf_update one_o one_M (fst one_side) (snd one_side) U V D = Some (U', D', log) /\
  D' 0%nat 1%nat = D 0%nat 1%nat + one_grad U V * one_grad U V /\
  U' 0%nat 1%nat = U 0%nat 1%nat + 1 / sqrt (/ 1000000 + D' 0%nat 1%nat) * one_grad U V.
Proof.
  eexists _, _, _. split. { cbv -[sigmoid Rplus Rmult Ropp Rminus Rdiv Rinv exp sqrt IZR]. reflexivity. }
  cbv -[sigmoid Rplus Rmult Ropp Rminus Rdiv Rinv exp sqrt IZR].
  match goal with |- context [sigmoid ?A ?B] => set (z := sigmoid A B) end.
  assert (E : 0 + 1 * V 0%nat 1%nat + - (z * 1) * V 0%nat 1%nat - 0 * U 0%nat 1%nat = (1 - z) * V 0%nat 1%nat) by ring. rewrite E. auto.
Qed.
Lemma one_grad_pos U V : V 0%nat 1%nat = 1 -> 0 < one_grad U V.
Proof.
  intros E. unfold one_grad, sigmoid. rewrite E. set (x := 0 + U 0%nat 0%nat * V 0%nat 0%nat + U 0%nat 1%nat * 1). cbn [one_o l_exp nleb Num_R nzero none_ ndiv nadd nopp].
  pose proof (exp_pos x) as P. pose proof (exp_pos (- x)) as P'.
  match goal with |- context [if ?b then _ else _] => destruct b end; rewrite Rmult_1_r.
  - assert (1 / (1 + exp (- x)) < 1) by (apply (Rmult_lt_reg_r (1 + exp (- x))); [lra|]; unfold Rdiv; rewrite Rmult_assoc, Rinv_l by lra; lra). lra.
  - assert (exp x / (1 + exp x) < 1) by (apply (Rmult_lt_reg_r (1 + exp x)); [lra|]; unfold Rdiv; rewrite Rmult_assoc, Rinv_l by lra; lra). lra.
Qed.
Lemma one_M_fixed : lmf_matrix one_M = one_M /\ lmf_matrix (transpose one_M) = one_M.
Proof. split; reflexivity. Qed.
Theorem C133_refuted : exists (o : lmf_opts (T := R)) (M : csr R) rx ry in1 in2 X1 Y1 t1 X2 Y2 t2 X3 Y3 t3,
  l_exp o = exp /\ l_sqrt o = sqrt /\
  lmf_fit o 0 M None None rx ry in1 = Some (X1, Y1, t1) /\
  lmf_fit o 0 M (Some X1) (Some Y1) rx ry in2 = Some (X2, Y2, t2) /\
  lmf_fit o 0 M None None rx ry (in1 ++ in2) = Some (X3, Y3, t3) /\ X2 0%nat 1%nat <> X3 0%nat 1%nat.
Proof.
  destruct one_M_fixed as [EM ET].
  set (z := fun _ _ : nat => 0). set (Y0 := lmf_init_items 0 one_M z). set (X0 := lmf_init_users 0 one_M z).
  destruct (one_update X0 Y0 z) as (U1 & D1 & g1 & E1 & ED1 & _). 
  destruct (one_update Y0 (set_col 0 U1) z) as (V1 & C1 & h1 & F1 & _ & _).
  set (Xa := set_col 0 U1) in *. set (Ya := set_col 1 V1).
  destruct (one_update Xa Ya z) as (U2 & D2 & g2 & E2 & ED2 & EU2). destruct (one_update Ya (set_col 0 U2) z) as (V2 & C2 & h2 & F2 & _).
  destruct (one_update Xa Ya D1) as (U3 & D3 & g3 & E3 & ED3 & EU3). destruct (one_update Ya (set_col 0 U3) C1) as (V3 & C3 & h3 & F3 & _).
  exists one_o, one_M, z, z, [one_epoch], [one_epoch], Xa, Ya, [(0%nat, Xa, Ya)],
    (set_col 0 U2), (set_col 1 V2), [(0%nat, set_col 0 U2, set_col 1 V2)], (set_col 0 U3), (set_col 1 V3), [(0%nat, Xa, Ya); (1%nat, set_col 0 U3, set_col 1 V3)].
  split; [reflexivity|]. split; [reflexivity|]. unfold lmf_fit. rewrite EM, ET. fold Y0 X0. unfold one_epoch. cbn [app lmf_epochs fst snd] in *.
  change (nzero : R) with 0 in *. fold z.
  split. { change (fun _ _ : nat => 0) with z. destruct one_side as [dl sc]. cbn [fst snd] in *. rewrite E1. fold Xa. rewrite F1. reflexivity. }
  split. { destruct one_side as [dl sc]. cbn [fst snd] in *. rewrite E2, F2. reflexivity. }
  split. { destruct one_side as [dl sc]. cbn [fst snd] in *. rewrite E1. fold Xa. rewrite F1. fold Ya. rewrite E3, F3. reflexivity. }
  unfold set_col at 1 2. cbn [Nat.eqb]. rewrite EU2, EU3, ED2, ED3, ED1. unfold z at 1 2.
  assert (P0 : 0 < one_grad X0 Y0) by (apply one_grad_pos; reflexivity). assert (P : 0 < one_grad Xa Ya) by (apply one_grad_pos; reflexivity).
  set (d0 := one_grad X0 Y0) in *. set (d := one_grad Xa Ya) in *.
  assert (Q0 : 0 < d0 * d0) by (apply Rmult_lt_0_compat; auto). assert (Q1 : 0 < d * d) by (apply Rmult_lt_0_compat; auto).
  assert (S1 : 0 < sqrt (/ 1000000 + (0 + d * d))) by (apply sqrt_lt_R0; lra).
  assert (S2 : sqrt (/ 1000000 + (0 + d * d)) < sqrt (/ 1000000 + (0 + d0 * d0 + d * d))) by (apply sqrt_lt_1; lra).
  pose proof (Rinv_lt_contravar _ _ (Rmult_lt_0_compat _ _ S1 (Rlt_trans _ _ _ S1 S2)) S2) as L.
  unfold Rdiv. rewrite !Rmult_1_l. pose proof (Rmult_lt_compat_r d _ _ P L). lra.
Qed.
Print Assumptions C133_refuted.
