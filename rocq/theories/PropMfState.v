(** The BPR and LMF objects over time: property C43 of properties.jsonl. *)
From Coq Require Import List Arith Lia Bool ZArith QArith.
From Verif Require Import Base Num Heap Sparse TopkModel RecommendModel BprModel LmfModel BprProofs LmfProofs PropBpr PropLmf PropAlsState MfState.
Import ListNotations.
Local Open Scope nat_scope.

Section Proofs.
Context {T : Type} `{Num T}.
Variable E : mf_env T.
Local Notation mat := (list (list T)).
Definition norms (F : mat) : list T := norms_of (me_norm E) (me_tiny E) F.

(** Calls that read the norms. *)
Definition similarity_query (q : mquery T) : bool := match q with MRecommend _ _ _ _ _ _ _ => false | _ => true end.
(** A call of fit with which the answers stay right: the callback asks for similar users
    or items in the last epoch only, and, for LMF, nothing did before. *)
Definition m_safe_call (invalidate : bool) (s : mf_state T) (c : mcall T) : Prop :=
  match c with
  | MQuery _ => True
  | MFit _ _ steps cb =>
      (forall e q, S e < length steps -> In q (cb e) -> similarity_query q = false) /\
      (invalidate = true \/ m_unorm s = None /\ m_inorm s = None)
  end.
Fixpoint m_safe (invalidate : bool) (s : mf_state T) (cs : list (mcall T)) : Prop :=
  match cs with [] => True | c :: cs' => m_safe_call invalidate s c /\ m_safe invalidate (m_call E invalidate s c) cs' end.

Definition m_coherent (s : mf_state T) : Prop :=
  (forall v, m_unorm s = Some v -> exists X, mX s = Some X /\ v = norms X) /\
  (forall v, m_inorm s = Some v -> exists Y, mY s = Some Y /\ v = norms Y).

Lemma m_query_coherent s q : m_coherent s -> m_coherent (fst (m_query E s q)).
Proof.
  intros [C1 C2]. unfold m_query. destruct (mX s) as [X|] eqn:EX; [|split; simpl; rewrite ?EX; auto]. destruct (mY s) as [Y|] eqn:EY; [|split; simpl; rewrite ?EX, ?EY; auto].
  cbn [fst]. split; simpl.
  - intros v Hv. destruct (fills_unorm X q); auto. injection Hv as <-. exists X. split; auto. unfold m_norms. destruct (m_unorm s) as [w|]; auto.
    destruct (C1 w eq_refl) as (X' & E1 & ->). congruence.
  - intros v Hv. destruct (fills_inorm Y q); auto. injection Hv as <-. exists Y. split; auto. unfold m_norms. destruct (m_inorm s) as [w|]; auto.
    destruct (C2 w eq_refl) as (X' & E1 & ->). congruence.
Qed.
Lemma m_query_plain s q : similarity_query q = false -> m_unorm (fst (m_query E s q)) = m_unorm s /\ m_inorm (fst (m_query E s q)) = m_inorm s.
Proof. unfold m_query. destruct q; simpl; try discriminate. destruct (mX s), (mY s); simpl; auto. Qed.
Lemma m_epochs_coherent cb steps : forall epoch s, 
  (forall e q, S e < epoch + length steps -> In q (cb e) -> similarity_query q = false) ->
  m_unorm s = None -> m_inorm s = None -> m_coherent (m_epochs E cb epoch steps s).
Proof.
  induction steps as [|[X Y] steps IH]; intros epoch s HC HU HI; cbn [m_epochs].
  - split; intros v Hv; congruence.
  - set (s1 := {| mX := _ |}). destruct steps as [|st steps].
    + simpl. assert (C : m_coherent s1) by (split; intros v Hv; simpl in Hv; congruence). clearbody s1. clear -C.
      revert s1 C. induction (cb epoch) as [|q qs IHq]; intros s1 C; simpl; auto. apply IHq. apply m_query_coherent. auto.
    + assert (P : forall q, In q (cb epoch) -> similarity_query q = false) by (intros q; apply HC; simpl; lia).
      assert (N : m_unorm s1 = None /\ m_inorm s1 = None) by (split; auto). clearbody s1.
      assert (N2 : let s2 := fold_left (fun s q => fst (m_query E s q)) (cb epoch) s1 in m_unorm s2 = None /\ m_inorm s2 = None).
      { cbv zeta. clear -P N. revert s1 N. induction (cb epoch) as [|q qs IHq]; intros s1 N; simpl; auto. apply IHq; [intros; apply P; right; auto|].
        destruct (m_query_plain s1 q (P q (or_introl eq_refl))) as [-> ->]. auto. }
      apply IH; try apply N2. intros e q He. apply HC. simpl in *. lia.
Qed.
Lemma m_run_coherent inv cs : forall s, m_coherent s -> m_safe inv s cs -> m_coherent (fold_left (m_call E inv) cs s).
Proof.
  induction cs as [|c cs IH]; intros s C HS; simpl; auto. destruct HS as [S1 S2]. apply IH; auto. destruct c as [q|X0 Y0 steps cb]; simpl.
  - apply m_query_coherent. auto.
  - destruct S1 as [S1 S3]. apply m_epochs_coherent; auto; destruct inv; simpl; auto; destruct S3 as [S3|[S3 S4]]; auto; discriminate.
Qed.
End Proofs.

(** BPR ([invalidate] true) and LMF (false): after a safe history every answer is the one
    from the norms of the current factors. *)
Theorem C43_mf_partial : forall T (NT : Num T) (E : mf_env T) invalidate cs X Y q, m_safe E invalidate mf_fresh cs ->
  mX (m_run E invalidate cs) = Some X -> mY (m_run E invalidate cs) = Some Y ->
  snd (m_query E (m_run E invalidate cs) q) = m_answer E X Y (norms E X) (norms E Y) q.
Proof.
  intros T NT E inv cs X Y q HS EX EY.
  assert (C : m_coherent E (m_run E inv cs)). { apply m_run_coherent; auto. split; intros v Hv; discriminate. }
  destruct C as [C1 C2]. unfold m_query. rewrite EX, EY. simpl. unfold m_norms.
  f_equal.
  - destruct (m_unorm (m_run E inv cs)) as [v|]; auto. destruct (C1 v eq_refl) as (X' & E1 & ->). congruence.
  - destruct (m_inorm (m_run E inv cs)) as [v|]; auto. destruct (C2 v eq_refl) as (X' & E1 & ->). congruence.
Qed.
Print Assumptions C43_mf_partial.

(* ------------------------------------------------------------------ refutations *)
Definition tab {T} (r c : nat) (F : nat -> nat -> T) : list (list T) := map (fun u => map (F u) (seq 0 c)) (seq 0 r).
(** [steps] are the factors after the epochs of an LMF fit. *)
Definition lmf_trained {T} `{Num T} (o : lmf_opts (T := T)) (f : nat) (M : csr T) (old : option ((nat -> nat -> T) * (nat -> nat -> T))) (steps : list (list (list T) * list (list T)))
    (X Y : nat -> nat -> T) : Prop :=
  exists rx ry inputs tr, Forall (lmf_epoch_ok M) inputs /\ inputs <> [] /\
    lmf_fit o f M (option_map fst old) (option_map snd old) rx ry inputs = Some (X, Y, tr) /\
    steps = map (fun t => (tab (c_rows M) (f + 2) (snd (fst t)), tab (c_cols M) (f + 2) (snd t))) tr.
Definition exME : mf_env Q := {| me_heap := simple_heap; me_fmin := (-1000000 # 1)%Q; me_norm := fun v => fold_left Qplus (map (fun x => Qabs.Qabs x) v) 0%Q; me_tiny := (1 # 1000)%Q |}.
Definition ids_of {T} (r : res (out T)) : option (list Z) := match r with Ok (OneRow ids _) => Some ids | _ => None end.
Definition lin := [ex_in sched_b sched_b].
Notation fit1 := (lmf_fit ex_lo 1 ex_lM None None (fun a b => inject_Z (Z.of_nat (a + b))) (fun a b => inject_Z (Z.of_nat (2 * a + b) - 2)) lin).
Notation fit2 X Y := (lmf_fit ex_lo 1 ex_lM (Some X) (Some Y) (fun _ _ => 0%Q) (fun _ _ => 0%Q) lin).
Definition steps_of (tr : list (nat * (nat -> nat -> Q) * (nat -> nat -> Q))) := map (fun t => (tab 3 3 (snd (fst t)), tab 5 3 (snd t))) tr.
Definition no_cb : nat -> list (mquery Q) := fun _ => [].
Definition sim (i : Z) : mquery Q := MSimilarItems (Scalar i) 5%Z None None.
Definition hist X1 Y1 s1 s2 q : list (mcall Q) := [MFit [] [] s1 no_cb; MQuery q; MFit (tab 3 3 X1) (tab 5 3 Y1) s2 no_cb].
(** The ids of the stale and of the fresh answer. *)
Lemma both4 : match fit1 with
  | Some (X1, Y1, t1) =>
      match fit2 X1 Y1 with
      | Some (X2, Y2, t2) =>
          let s := m_run exME false (hist X1 Y1 (steps_of t1) (steps_of t2) (sim 4)) in
          Some (ids_of (snd (m_query exME s (sim 4))), ids_of (m_answer exME (tab 3 3 X2) (tab 5 3 Y2) (norms exME (tab 3 3 X2)) (norms exME (tab 5 3 Y2)) (sim 4)))
      | None => None
      end
  | None => None
  end = Some (Some [1; 4; 2; 3; 0]%Z, Some [4; 1; 2; 3; 0]%Z).
Proof. vm_compute. reflexivity. Qed.
Lemma lmf_one_epoch {T} `{Num T} (o : lmf_opts (T := T)) f M X0 Y0 rx ry inp X Y tr : lmf_fit o f M X0 Y0 rx ry [inp] = Some (X, Y, tr) -> tr = [(0, X, Y)].
Proof.
  intros E2. unfold lmf_fit in E2. cbv zeta in E2. destruct inp as [[d1 s1] [d2 s2]]. cbn [lmf_epochs] in E2.
  match type of E2 with context [lmf_update ?a ?b ?c ?d ?e ?f ?g] => destruct (lmf_update a b c d e f g) as [[[? ?] ?]|]; [|discriminate] end.
  match type of E2 with context [lmf_update ?a ?b ?c ?d ?e ?f ?g] => destruct (lmf_update a b c d e f g) as [[[? ?] ?]|]; [|discriminate] end.
  injection E2 as <- <- <-. auto.
Qed.
Lemma some_pair_inj {A B} (a c : A) (b d : B) : Some (a, b) = Some (c, d) -> a = c /\ b = d.
Proof. intros HE. injection HE as -> ->. auto. Qed.
Lemma lin_ok : Forall (lmf_epoch_ok ex_lM) lin.
Proof.
  apply Forall_cons; [|apply Forall_nil]. split; split; try apply Permutation.Permutation_refl; unfold ex_in, ex_deal, ex_deal2; cbn [fst snd];
    (apply Forall_cons; [|apply Forall_cons; [|apply Forall_nil]]; intros k; apply Nat.mod_upper_bound; discriminate).
Qed.

(** LMF: fit, similar_items, fit again (no callbacks), similar_items: the answer comes
    from the norms of the factors before the second fit. *)
Theorem C43_lmf_refuted : exists (E : mf_env Q) (o : lmf_opts (T := Q)) M X1 Y1 s1 X2 Y2 s2 q,
  csr_wf M /\ lmf_trained o 1 M None s1 X1 Y1 /\ lmf_trained o 1 M (Some (X1, Y1)) s2 X2 Y2 /\
  let X := tab (c_rows M) 3 X2 in let Y := tab (c_cols M) 3 Y2 in
  let s := m_run E false [MFit [] [] s1 (fun _ => []); MQuery q; MFit (tab (c_rows M) 3 X1) (tab (c_cols M) 3 Y1) s2 (fun _ => [])] in
  mX s = Some X /\ mY s = Some Y /\
  ids_of (snd (m_query E s q)) = Some [1; 4; 2; 3; 0]%Z /\ ids_of (m_answer E X Y (norms E X) (norms E Y) q) = Some [4; 1; 2; 3; 0]%Z.
Proof.
  pose proof both4 as HB.
  destruct fit1 as [[[X1 Y1] t1]|] eqn:E1; [|discriminate]. destruct (fit2 X1 Y1) as [[[X2 Y2] t2]|] eqn:E2; [|discriminate].
  assert (L : t2 = [(0, X2, Y2)]) by (apply lmf_one_epoch in E2; exact E2).
  subst t2. set (e := 0).
  exists exME, ex_lo, ex_lM, X1, Y1, (steps_of t1), X2, Y2, (steps_of [(e, X2, Y2)]), (sim 4).
  split; [apply ex_lM_ok|]. split. { exists (fun a b => inject_Z (Z.of_nat (a + b))), (fun a b => inject_Z (Z.of_nat (2 * a + b) - 2)), lin, t1. split; [apply lin_ok|]. split; [discriminate|]. split; [cbn [option_map]; exact E1|reflexivity]. }
  split. { exists (fun _ _ => 0%Q), (fun _ _ => 0%Q), lin, [(e, X2, Y2)]. split; [apply lin_ok|]. split; [discriminate|]. split; [cbn [option_map fst snd]; exact E2|reflexivity]. }
  cbv zeta in *. split; [reflexivity|]. split; [reflexivity|]. apply some_pair_inj in HB. exact HB.
Qed.
Print Assumptions C43_lmf_refuted.

(** BPR: a callback asking for similar items after the first of two epochs. *)
Definition bpr_trained {T} `{Num T} (o : bpr_opts (T := T)) (M : csr T) (steps : list (list (list T) * list (list T))) (m : cell -> T) : Prop :=
  exists rx ry inputs log tr, Forall (epoch_ok (length (c_indices M))) inputs /\
    bpr_fit o M rx ry inputs = Some (m, log, tr) /\
    steps = map (fun t => (tab (c_rows M) (S (b_factors o)) (fun u j => snd t (CX u j)), tab (c_cols M) (S (b_factors o)) (fun i j => snd t (CY i j)))) tr.
Definition bM : csr Q := csr_of_rows 4 [[(0, 1%Q); (1, 1%Q)]; [(1, 1%Q); (2, 1%Q)]; [(3, 1%Q); (0, 1%Q)]].
Definition bo : bpr_opts (T := Q) := {| b_exp := fun x => 1%Q; b_lr := 1%Q; b_reg := (1#10)%Q; b_factors := 1; b_verify := true |}.
Notation bin := [([[(2, 0); (0, 3); (5, 1); (0, 0); (1, 1); (3, 3)]], repeat 0 400); ([[(2, 5); (0, 3); (5, 2); (0, 0); (1, 1); (3, 3)]], repeat 0 400)].
Notation brand := (fun a b : nat => nth b (nth a [[1; -2]; [-2; -2]; [-3; 1]; [-2; -2]]%Q []) 0%Q).
Definition bX (m : cell -> Q) := tab 3 2 (fun u j => m (CX u j)).
Definition bY (m : cell -> Q) := tab 4 2 (fun i j => m (CY i j)).
Definition bsteps {S0 : Type} (tr : list (S0 * (cell -> Q))) := map (fun t => (bX (snd t), bY (snd t))) tr.
Definition bq : mquery Q := MSimilarItems (Scalar 1%Z) 4%Z None None.
Definition bcb (e : nat) : list (mquery Q) := if e =? 0 then [bq] else [].
Lemma bpr_trace_last {T} `{Num T} o (M : csr T) inputs : forall e m0 m log tr, bpr_epochs o M inputs e m0 = Some (m, log, tr) ->
  length tr = length inputs /\ (inputs <> [] -> exists tr' x, tr = tr' ++ [(x, m)]).
Proof.
  induction inputs as [|[dr sc] inputs IH]; intros e m0 m log tr HF; cbn [bpr_epochs] in HF.
  - injection HF as <- <- <-. split; auto. congruence.
  - destruct (bpr_update o (row_ids (c_rows M) (c_indptr M)) (c_indices M) (c_indptr M) dr sc m0) as [[[[m' lg] co] sk]|]; [|discriminate].
    destruct (bpr_epochs o M inputs (S e) m') as [[[m2 lg2] tr2]|] eqn:E2; [|discriminate]. injection HF as <- <- <-.
    destruct (IH _ _ _ _ _ E2) as [L P]. split; [simpl; auto|]. intros _. destruct inputs as [|i inputs].
    + cbn [bpr_epochs] in E2. injection E2 as <- <- <-. exists [], (e, co, sk). auto.
    + destruct P as (tr' & x & ->); [discriminate|]. exists ((e, co, sk, m') :: tr'), x. auto.
Qed.
Lemma bpr_fit_last {T} `{Num T} o (M : csr T) rx ry inputs m log tr : bpr_fit o M rx ry inputs = Some (m, log, tr) ->
  length tr = length inputs /\ (inputs <> [] -> exists tr' x, tr = tr' ++ [(x, m)]).
Proof. unfold bpr_fit. apply bpr_trace_last. Qed.
Lemma bboth : match bpr_fit bo bM brand brand bin with
  | Some (m, log, tr) =>
      let s := m_run exME true [MFit [] [] (bsteps tr) bcb] in
      Some (ids_of (snd (m_query exME s bq)), ids_of (m_answer exME (bX m) (bY m) (norms exME (bX m)) (norms exME (bY m)) bq))
  | None => None
  end = Some (Some [2; 1; 3; 0]%Z, Some [1; 3; 2; 0]%Z).
Proof. vm_compute. reflexivity. Qed.
Lemma bM_ok : csr_wf bM /\ csr_tight bM.
Proof. apply csr_of_rows_wf. intros r p Hr Hp. simpl in Hr. repeat (destruct Hr as [<- | Hr]; [simpl in Hp; repeat (destruct Hp as [<- | Hp]; [simpl; lia|]); destruct Hp|]). destruct Hr. Qed.
Theorem C43_bpr_refuted : exists (E : mf_env Q) (o : bpr_opts (T := Q)) M m steps q cb,
  csr_wf M /\ csr_tight M /\ bpr_trained o M steps m /\ length steps = 2 /\
  let X := tab (c_rows M) 2 (fun u j => m (CX u j)) in let Y := tab (c_cols M) 2 (fun i j => m (CY i j)) in
  let s := m_run E true [MFit [] [] steps cb] in
  b_factors o = 1 /\ cb = (fun e => if e =? 0 then [q] else []) /\ mX s = Some X /\ mY s = Some Y /\
  ids_of (snd (m_query E s q)) = Some [2; 1; 3; 0]%Z /\ ids_of (m_answer E X Y (norms E X) (norms E Y) q) = Some [1; 3; 2; 0]%Z.
Proof.
  pose proof bboth as HB. destruct (bpr_fit bo bM brand brand bin) as [[[m log] tr]|] eqn:E1; [|discriminate].
  destruct (bpr_fit_last _ _ _ _ _ _ _ _ E1) as [L1 L2].
  destruct L2 as (tr' & x & ->); [discriminate|].
  rewrite app_length in L1. destruct tr' as [|t1 tr']; [discriminate L1|]. destruct tr' as [|t2 tr']; [|exfalso; clear - L1; simpl in L1; lia]. clear L1. cbn [app] in *.
  exists exME, bo, bM, m, (bsteps [t1; (x, m)]), bq, bcb. split; [apply bM_ok|]. split; [apply bM_ok|]. split.
  { exists brand, brand, bin, log, [t1; (x, m)]. split; [|split; [exact E1|reflexivity]].
    apply Forall_cons; [|apply Forall_cons; [|apply Forall_nil]]; (split; [reflexivity|]); repeat (apply Forall_cons || apply Forall_nil); cbn; lia. }
  split; [reflexivity|]. cbv zeta in *. split; [reflexivity|]. split; [reflexivity|].
  split; [|split; [|apply some_pair_inj in HB; exact HB]]; unfold m_run, m_call, m_fit, bsteps; cbn [fold_left map m_epochs fst snd].
  all: unfold bcb; cbn [Nat.eqb fold_left]; unfold m_query; cbn; reflexivity.
Qed.
Print Assumptions C43_bpr_refuted.

(** A safe history of an LMF object which fills both caches. *)
Example C43_mf_example : exists X Y, let cs := [MFit [] [] [(bX (fun _ => 2%Q), bY (fun _ => 3%Q))] (fun _ => []); MQuery bq; MQuery (MSimilarUsers (Scalar 0%Z) 2%Z None None)] in
  m_safe exME false mf_fresh cs /\ mX (m_run exME false cs) = Some X /\ mY (m_run exME false cs) = Some Y /\
  m_unorm (m_run exME false cs) <> None /\ m_inorm (m_run exME false cs) <> None /\
  ids_of (snd (m_query exME (m_run exME false cs) bq)) = Some [3; 2; 1; 0]%Z.
Proof.
  exists (bX (fun _ => 2%Q)), (bY (fun _ => 3%Q)). cbv zeta. split; [|split; [reflexivity|split; [reflexivity|split; [discriminate|split; [discriminate|vm_compute; reflexivity]]]]].
  cbn [m_safe]. split; [|split; [exact Logic.I|split; [exact Logic.I|exact Logic.I]]]. split; [intros e q He []|right; split; reflexivity].
Qed.
