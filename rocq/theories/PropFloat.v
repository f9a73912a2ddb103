(** Single precision scores (C101, C102) and NaN factors (C103). *)
From Coq Require Import List Arith Lia Bool ZArith Permutation Sorted.
From Coq Require Import Floats.SpecFloat.
From Verif Require Import Base Num Heap Sparse TopkModel TopkSpec TopkProofs TopkBatch RecommendModel RecommendProofs AlsModel AlsState ThreadProg BprModel LmfModel
  PropTopk PropRecommend GnuHeap GnuHeapProofs FloatModel FloatProofs FitCheck ExplainModel PropExplain PropAlsState PropBpr PropLmf.
Import ListNotations.
Local Open Scope nat_scope.

(** Inner product in single precision, accumulated in order. *)
Definition f32_dot (x y : list f32) : f32 := ndot x y.
Definition is_number (x : f32) : Prop := x <> S754_nan.
Lemma number_nan x : is_number x <-> f32_nan x = false.
Proof. unfold is_number. destruct x; simpl; split; congruence. Qed.

(* ------------------------------------------------------------------ C101 *)
(** Whatever the scores (BLAS may add up in any order): without NaN the answer is exact. *)
Theorem C101_select_partial : forall HP (row : list f32) (k : nat), std_heap_ok HP -> reads_range HP -> 0 < k -> Forall is_number row ->
  exists r, select_row HP k row = Ok r /\
    TopN (fun i => nth i row nzero) (seq 0 (length row)) (Nat.min k (length row)) (map snd r) (map fst r).
Proof.
  intros HP row k HC HR HK HN.
  assert (AG : forall a b, is_number a -> is_number b -> @nltb f32 Num_f32 a b = f32_lt a b) by (intros a b Ha Hb; apply f32_lt_ok; apply number_nan; auto).
  destruct (@select_row_topn f32 Num_f32_lt NumOrd_f32_lt HP HC k row nzero HK) as (r & E & TN). exists r. split.
  - rewrite (select_row_good Num_f32 f32_lt is_number AG NumOrd_f32_lt HP HC HR k row HK HN). exact E.
  - apply (TopN_good Num_f32 f32_lt is_number AG); auto. intros i Hi. apply in_seq in Hi. rewrite Forall_forall in HN. apply HN, nth_In. lia.
Qed.
Print Assumptions C101_select_partial.

Lemma one_user (m : mf f32) recalc u ui : (0 <= u < Z.of_nat (length (user_factors m)))%Z ->
  user_factor m recalc (Scalar u) ui false = Ok [nth (Z.to_nat u) (user_factors m) []].
Proof.
  intros Hu. unfold user_factor, gather, np_index. cbn [id_list map_res].
  rewrite (proj2 (Z.leb_le 0 u)) by lia. rewrite (proj2 (Z.ltb_lt _ _)) by lia. reflexivity.
Qed.
Lemma recommend_order HP fmin (m : mf f32) recalc u ui N fl fi : std_heap_ok HP -> reads_range HP ->
  (0 <= u < Z.of_nat (length (user_factors m)))%Z -> is_number fmin ->
  (forall y, In y (item_factors m) -> is_number (f32_dot (nth (Z.to_nat u) (user_factors m) []) y)) ->
  recommend HP fmin m recalc (Scalar u) ui N fl fi false None = @recommend f32 Num_f32_lt HP fmin m recalc (Scalar u) ui N fl fi false None.
Proof.
  intros HC HR Hu HF HS.
  assert (AG : forall a b, is_number a -> is_number b -> @nltb f32 Num_f32 a b = f32_lt a b) by (intros a b Ha Hb; apply f32_lt_ok; apply number_nan; auto).
  apply (recommend_good Num_f32 f32_lt is_number AG NumOrd_f32_lt HP HC HR); auto.
  intros us EU q row Hq ER. rewrite one_user in EU by auto. injection EU as <-. destruct Hq as [<-|[]].
  unfold score_row in ER. destruct (negb _); [discriminate|]. injection ER as <-. apply Forall_forall. intros s Hs.
  apply in_map_iff in Hs. destruct Hs as (y & <- & Hy). apply HS; auto.
Qed.

(** recommend, with the inner products in single precision. *)
Theorem C101_topn_partial : forall HP fmin (m : mf f32) f recalc u ui N, std_heap_ok HP -> reads_range HP ->
  (forall x, In x (user_factors m) -> length x = f) -> (forall y, In y (item_factors m) -> length y = f) ->
  (0 <= u < Z.of_nat (length (user_factors m)))%Z -> (1 <= N <= Z.of_nat (length (item_factors m)))%Z ->
  is_number fmin -> (forall y, In y (item_factors m) -> is_number (f32_dot (nth (Z.to_nat u) (user_factors m) []) y)) ->
  exists ids scores,
    recommend HP fmin m recalc (Scalar u) ui N false None false None = Ok (OneRow (map Z.of_nat ids) scores) /\
    TopN (fun i => f32_dot (nth (Z.to_nat u) (user_factors m) []) (nth i (item_factors m) []))
         (seq 0 (length (item_factors m))) (Z.to_nat N) ids scores.
Proof.
  intros HP fmin m f recalc u ui N HC HR LU LI Hu HN HF HS.
  assert (AG : forall a b, is_number a -> is_number b -> @nltb f32 Num_f32 a b = f32_lt a b) by (intros a b Ha Hb; apply f32_lt_ok; apply number_nan; auto).
  destruct (@C01_topn_exact f32 Num_f32_lt NumOrd_f32_lt HP fmin m f recalc u ui N HC LU LI Hu HN) as (ids & sc & E & TN).
  exists ids, sc. split; [rewrite recommend_order by auto; exact E|].
  apply (TopN_good Num_f32 f32_lt is_number AG); [|exact TN]. intros i Hi. apply in_seq in Hi. apply HS, nth_In. lia.
Qed.
Print Assumptions C101_topn_partial.

(** The heap of the GNU C++ library meets the requirements. *)
Theorem C101_heap : std_heap_ok gnu_heap /\ reads_range gnu_heap.
Proof. split; [exact gnu_heap_ok|exact gnu_heap_reads]. Qed.
Print Assumptions C101_heap.

Definition fl (z : Z) : f32 := binary_normalize f32_prec f32_emax z 0 false.
Definition f32_min : f32 := SFopp f32_max.
(** Infinite scores are ranked, too. *)
Example C101_example : let m := {| user_factors := [[fl 3; f32_max]]; item_factors := [[fl 1; fl 0]; [fl 0; fl 5]; [fl 2; fl 0]; [fl 0; fl (-7)]] |} in
  is_number f32_min /\ (forall y, In y (item_factors m) -> is_number (f32_dot (nth 0 (user_factors m) []) y)) /\
  recommend gnu_heap f32_min m no_recalc (Scalar 0) NotCsr 4 false None false None =
    Ok (OneRow [1; 2; 0; 3]%Z [S754_infinity false; fl 6; fl 3; S754_infinity true]).
Proof.
  split; [discriminate|]. split; [|vm_compute; reflexivity]. intros y Hy. simpl in Hy. repeat (destruct Hy as [<-|Hy]; [vm_compute; discriminate|]). tauto.
Qed.

(** A NaN hides better items: one row of item factors overflowed. *)
Theorem C101_nan_refuted : exists (m : mf f32) (i : nat),
  recommend gnu_heap f32_min m no_recalc (Scalar 0) NotCsr 1 false None false None = Ok (OneRow [0%Z] [S754_nan]) /\
  i < length (item_factors m) /\ f32_dot (nth 0 (user_factors m) []) (nth i (item_factors m) []) = fl 6 /\
  (forall x, In x (user_factors m ++ item_factors m) -> forall v, In v x -> is_number v /\ forall s, v <> S754_infinity s).
Proof.
  exists {| user_factors := [[f32_max; f32_max; fl 2]]; item_factors := [[fl 2; fl (-2); fl 0]; [fl 0; fl 0; fl 3]] |}, 1.
  split; [vm_compute; reflexivity|]. split; [simpl; lia|]. split; [vm_compute; reflexivity|].
  intros x Hx v Hv. cbn [user_factors item_factors app] in Hx.
  repeat (destruct Hx as [<-|Hx]; [repeat (destruct Hv as [<-|Hv]; [split; [discriminate|intros; discriminate]|]); destruct Hv|]). destruct Hx.
Qed.
Print Assumptions C101_nan_refuted.

(* ------------------------------------------------------------------ C102 *)
(** Filters work as long as the scores of the remaining items are above the smallest
    finite number, which is what a filtered score is set to. *)
Theorem C102_partial : forall HP (m : mf f32) recalc u ui N fl fi (excl : nat -> bool),
  std_heap_ok HP -> reads_range HP -> call_ok m u N fl ui fi ->
  let n := length (item_factors m) in
  (forall i, i < n -> excl i = true <->
     (fl = true /\ exists M v, ui = Csr M /\ In (i, v) (csr_row M 0)) \/
     (exists a z, fi = Some a /\ In z (arr_list a) /\ (z = Z.of_nat i \/ z = Z.of_nat i - Z.of_nat n)%Z)) ->
  let score i := f32_dot (nth (Z.to_nat u) (user_factors m) []) (nth i (item_factors m) []) in
  let allowed := filter (fun i => negb (excl i)) (seq 0 n) in
  (forall i, i < n -> is_number (score i)) ->
  (forall i, In i allowed -> nltb f32_min (score i) = true) ->
  exists good bad gs,
    recommend HP f32_min m recalc (Scalar u) ui N fl fi false None =
      Ok (OneRow (map Z.of_nat ((good ++ bad) ++ repeat 0 (Z.to_nat N - n)))
                 ((gs ++ repeat f32_min (length bad)) ++ repeat nzero (Z.to_nat N - n))) /\
    TopN score allowed (Nat.min (Z.to_nat N) (length allowed)) good gs /\
    (forall i, In i bad -> i < n /\ excl i = true) /\
    (Z.to_nat N <= length allowed -> bad = []).
Proof.
  intros HP m recalc u ui N fl fi excl HC HR CO n HE score allowed HS GT.
  assert (AG : forall a b, is_number a -> is_number b -> @nltb f32 Num_f32 a b = f32_lt a b) by (intros a b Ha Hb; apply f32_lt_ok; apply number_nan; auto).
  assert (FM : is_number f32_min) by discriminate.
  assert (Hu : (0 <= u < Z.of_nat (length (user_factors m)))%Z) by apply CO.
  destruct (@C03_filtered_never_outrank f32 Num_f32_lt NumOrd_f32_lt HP f32_min m recalc u ui N fl fi excl HC CO HE) as (good & bad & gs & E & TN & B1 & B2).
  - intros i Hi. cbn [nltb Num_f32_lt with_order]. rewrite <- AG; [apply GT; auto|auto|]. apply HS. apply filter_In in Hi. destruct Hi as [Hi _]. apply in_seq in Hi. unfold n. lia.
  - exists good, bad, gs. split; [|split; [|auto]].
    + rewrite recommend_order; auto. intros y Hy. destruct (In_nth _ _ [] Hy) as (i & Hi & <-). apply HS; auto.
    + apply (TopN_good Num_f32 f32_lt is_number AG); [|exact TN]. intros i Hi. apply filter_In in Hi. destruct Hi as [Hi _]. apply in_seq in Hi. apply HS. unfold n. lia.
Qed.
Print Assumptions C102_partial.
Example C102_example : let m := {| user_factors := [[fl 3]]; item_factors := [[fl 1]; [fl 5]; [fl (-2)]] |} in
  call_ok m 0 1 false NotCsr (Some (PyList [1%Z])) /\ (forall i, i < 3 -> is_number (f32_dot [fl 3] (nth i (item_factors m) []))) /\
  (forall i, In i [0; 2] -> nltb f32_min (f32_dot [fl 3] (nth i (item_factors m) [])) = true) /\
  recommend gnu_heap f32_min m no_recalc (Scalar 0) NotCsr 3 false (Some (PyList [1%Z])) false None = Ok (OneRow [0; 2; 1]%Z [fl 3; fl (-6); f32_min]).
Proof.
  split.
  - split; [exists 1; split; intros x Hx; simpl in Hx; repeat (destruct Hx as [<-|Hx]; [reflexivity|]); destruct Hx|].
    split; [simpl; lia|]. split; [lia|]. split; [discriminate|]. split; [discriminate|]. intros a z X Hz. injection X as <-. simpl in *. lia.
  - split; [intros i Hi; destruct i as [|[|[|i]]]; try lia; vm_compute; discriminate|].
    split; [intros i Hi; simpl in Hi; repeat (destruct Hi as [<-|Hi]; [vm_compute; reflexivity|]); destruct Hi|vm_compute; reflexivity].
Qed.

(** The score of an item that is not filtered overflows to minus infinity: the filtered
    item is recommended before it. *)
Theorem C102_refuted : exists (m : mf f32),
  recommend gnu_heap f32_min m no_recalc (Scalar 0) NotCsr 2 false (Some (PyList [1%Z])) false None = Ok (OneRow [1; 0]%Z [f32_min; S754_infinity true]) /\
  (forall x, In x (user_factors m ++ item_factors m) -> forall v, In v x -> is_number v /\ forall s, v <> S754_infinity s).
Proof.
  exists {| user_factors := [[f32_max]]; item_factors := [[fl (-2)]; [fl 1]] |}. split; [vm_compute; reflexivity|].
  intros x Hx v Hv. cbn [user_factors item_factors app] in Hx.
  repeat (destruct Hx as [<-|Hx]; [repeat (destruct Hv as [<-|Hv]; [split; [discriminate|intros; discriminate]|]); destruct Hv|]). destruct Hx.
Qed.
Print Assumptions C102_refuted.

(* ------------------------------------------------------------------ C103 *)
Lemma check_ok {T} (isnan : T -> bool) X Y : check_fit_errors isnan X Y = Ok tt ->
  forall x, In x (X ++ Y) -> forall v, In v x -> isnan v = false.
Proof.
  unfold check_fit_errors. destruct (existsb (existsb isnan) X) eqn:EX; [discriminate|]. destruct (existsb (existsb isnan) Y) eqn:EY; [discriminate|]. intros _ x Hx v Hv.
  destruct (isnan v) eqn:EN; auto. apply in_app_or in Hx. exfalso. destruct Hx as [Hx|Hx].
  - rewrite (proj2 (existsb_exists _ _)) in EX; [discriminate|]. exists x. split; auto. apply existsb_exists. eauto.
  - rewrite (proj2 (existsb_exists _ _)) in EY; [discriminate|]. exists x. split; auto. apply existsb_exists. eauto.
Qed.
Theorem C103_als_partial : forall T (HT : Num T) W (E : env T W) s M X0 Y0 cb fc s' tr,
  fit E s M X0 Y0 cb fc = (s', tr, Ok tt) ->
  forall F, sX s' = Some F \/ sY s' = Some F -> forall x v, In x F -> In v x -> e_isnan E v = false.
Proof.
  intros T HT W E s M X0 Y0 cb fc s' tr EF F HF x v Hx Hv. unfold fit in EF.
  destruct (fit_loop _ _ _ _ _ _ _ _ _) as [[s2 tr2] [[]|y]]; [|discriminate]. injection EF as <- <- EB.
  destruct (existsb (existsb (e_isnan E)) (match sX s2 with Some m => m | None => [] end)) eqn:BX; [discriminate|].
  destruct (existsb (existsb (e_isnan E)) (match sY s2 with Some m => m | None => [] end)) eqn:BY; [discriminate|].
  destruct (e_isnan E v) eqn:EN; auto. exfalso. destruct HF as [HF|HF]; rewrite HF in *.
  - rewrite (proj2 (existsb_exists _ _)) in BX; [discriminate|]. exists x. split; auto. apply existsb_exists. eauto.
  - rewrite (proj2 (existsb_exists _ _)) in BY; [discriminate|]. exists x. split; auto. apply existsb_exists. eauto.
Qed.
Print Assumptions C103_als_partial.
Theorem C103_bpr_lmf_partial : forall T (HT : Num T) (isnan : T -> bool) (ob : bpr_opts (T := T)) (ol : lmf_opts (T := T)) f M rx ry ib il X Y,
  bpr_fit_checked isnan ob M rx ry ib = Some (X, Y, Ok tt) \/ lmf_fit_checked isnan ol f M rx ry il = Some (X, Y, Ok tt) ->
  length X = c_rows M /\ length Y = c_cols M /\ forall x v, In x (X ++ Y) -> In v x -> isnan v = false.
Proof.
  intros T HT isnan ob ol f M rx ry ib il X Y [E|E].
  - unfold bpr_fit_checked in E. destruct (bpr_fit ob M rx ry ib) as [[[m lg] tr]|]; [|discriminate]. cbn [bpr_rows fst snd] in E. injection E as <- <- EC.
    rewrite !map_length, !seq_length. repeat split; auto. intros x v Hx Hv. eapply check_ok; eauto.
  - unfold lmf_fit_checked in E. destruct (lmf_fit ol f M None None rx ry il) as [[[X' Y'] tr]|]; [|discriminate]. injection E as <- <- EC.
    unfold lmf_rows in *. rewrite !map_length, !seq_length. repeat split; auto. intros x v Hx Hv. eapply check_ok; eauto.
Qed.
Print Assumptions C103_bpr_lmf_partial.

Definition f_bo (lr : f32) : bpr_opts (T := f32) := {| b_exp := fun _ => fl 1; b_lr := lr; b_reg := fl 1; b_factors := 1; b_verify := true |}.
Definition f_lo (lr : f32) : lmf_opts (T := f32) := {| l_exp := fun _ => fl 1; l_sqrt := fun x => x; l_tiny := fl 1; l_lr := lr; l_reg := fl 1; l_neg := 1; l_n := 3 |}.
Definition f_M : csr f32 := csr_of_rows 3 [[(1, fl 1); (0, fl 1)]; [(1, fl 1)]; []].
Definition f_lM : csr f32 := csr_of_rows 5 [[(4, fl 1); (1, fl 2); (0, fl 1); (2, fl 1)]; []; [(1, fl 3)]].
Definition f_rand (a b : nat) : f32 := fl (1 + Z.of_nat a + 2 * Z.of_nat b).
Definition outcome {A B} (r : option (A * B * res unit)) : option (res unit) := match r with Some (_, o) => Some o | None => None end.
Example C103_bpr_lmf_example :
  outcome (bpr_fit_checked f32_nan (f_bo (fl 1)) f_M f_rand f_rand ex_inputs) = Some (Ok tt) /\
  outcome (bpr_fit_checked f32_nan (f_bo f32_max) f_M f_rand f_rand ex_inputs) = Some (Raise ModelFitError) /\
  outcome (lmf_fit_checked f32_nan (f_lo (fl 1)) 1 f_lM f_rand f_rand [ex_in sched_b sched_b]) = Some (Ok tt) /\
  outcome (lmf_fit_checked f32_nan (f_lo f32_max) 1 f_lM f_rand f_rand [ex_in sched_b sched_b; ex_in sched_b sched_b]) = Some (Raise ModelFitError).
Proof. vm_compute. auto. Qed.

(** The solver with the division of C gives what the solver of AlsModel gives, whenever
    that one gives something. *)
Lemma cg_loop_c_ok {T} {HT : Num T} eps steps : forall YtY Y row x r p (rsold : T) x', cg_loop eps steps YtY Y row x r p rsold = Ok x' -> cg_loop_c eps steps YtY Y row x r p rsold = Ok x'.
Proof.
  induction steps as [|k IH]; intros YtY Y row x r p rsold x' E; cbn [cg_loop cg_loop_c] in *; auto.
  destruct (apply_A YtY Y row p) as [Ap|]; [|discriminate]. cbn [bind] in *. unfold c_div in E at 1.
  destruct (neqb (ndot p Ap) nzero); [discriminate|]. cbn [bind] in E. destruct (nltb _ eps); auto.
  unfold c_div in E. destruct (neqb rsold nzero); [discriminate|]. cbn [bind] in E. apply IH; auto.
Qed.
Lemma least_squares_cg_c_ok {T} {HT : Num T} eps steps n C X Y (reg : T) X' : least_squares_cg eps steps n C X Y reg = Ok X' -> least_squares_cg_c eps steps n C X Y reg = Ok X'.
Proof.
  unfold least_squares_cg, least_squares_cg_c. cbv zeta. intros F. apply map_res_ok. apply map_res_ok in F. revert F. generalize (enum X). intros l F. induction F as [|[u x] y l l' E F IH]; constructor; auto. clear IH F. cbn [fst snd] in *.
  destruct (raw_entries C u) as [row|]; [|discriminate]. cbn [bind] in *. unfold cg_row, cg_row_c in *. destruct row as [|e row]; auto.
  destruct (residual (add_diag reg (gram n Y)) Y (e :: row) x) as [r|]; [|discriminate]. cbn [bind] in *. destruct (nltb (ndot r r) eps); auto. apply cg_loop_c_ok; auto.
Qed.

(** One factor, the default solver (conjugate gradient, three steps), single precision. *)
Definition posv_f32 (A : list (list f32)) (b : list f32) : option (list f32) :=
  match A, b with
  | [[a]], [c] => if nltb nzero a then Some [ndiv c a] else None
  | _, _ => None
  end.
(** 2^-66, about 1.4e-20. *)
Definition f32_eps : f32 := S754_finite false 8388608 (-89).
Definition f32_env : env f32 unit := {|
  e_heap := gnu_heap; e_fmin := f32_min; e_norm := fun v => match v with [x] => SFabs x | _ => nzero end; e_tiny := fl 1;
  e_isnan := f32_nan; e_posv := posv_f32; e_alpha := fl 1; e_reg := fl 1; e_n := 1; e_iterations := 2;
  e_heapq := simple_heapq; e_cho_factor := fun _ => Some tt; e_cho_solve := fun _ v => v;
  e_solver := ip (least_squares_cg_c f32_eps 3 1)
|}.
Definition good_M : csr f32 := csr_of_rows 1 [[(0, fl 2)]].
Definition bad_M : csr f32 := csr_of_rows 1 [[(0, S754_nan)]].
Definition start : list (list f32) := [[fl 1]].
Example C103_example : snd (fit f32_env fresh_state good_M start start None None) = Ok tt.
Proof. vm_compute. reflexivity. Qed.

(** partial_fit does not check: one rating so large that the equations overflow, and the
    user has NaN factors. *)
Definition fit_M : csr f32 := csr_of_rows 1 [[(0, fl 10000)]].
Definition start_Y : list (list f32) := [[fl 100]].
Theorem C103_partial_fit_refuted : exists s s', s = fst (fst (fit f32_env fresh_state fit_M start start_Y None None)) /\
  snd (fit f32_env fresh_state fit_M start start_Y None None) = Ok tt /\
  partial_fit_users f32_env s [0%Z] (csr_of_rows 1 [[(0, f32_max)]]) = (s', Ok tt) /\
  sX s' = Some [[S754_nan]].
Proof. eexists. eexists. split; [reflexivity|]. split; [vm_compute; reflexivity|]. split; vm_compute; reflexivity. Qed.
Print Assumptions C103_partial_fit_refuted.

(** A fit that failed poisons the model: the factors stay NaN, recommend goes on
    answering, and fitting again on good data fails although a new model would not. *)
Theorem C103_refit_refuted : exists s, s = fst (fst (fit f32_env fresh_state bad_M start start None None)) /\
  snd (fit f32_env fresh_state bad_M start start None None) = Raise ModelFitError /\
  snd (run_query f32_env s (QRecommend (Scalar 0%Z) NotCsr 1%Z false None false None)) = Ok (AOut (OneRow [0%Z] [S754_nan])) /\
  snd (fit f32_env s good_M start start None None) = Raise ModelFitError /\
  snd (fit f32_env fresh_state good_M start start None None) = Ok tt.
Proof. eexists. split; [reflexivity|]. repeat split; vm_compute; reflexivity. Qed.
Print Assumptions C103_refit_refuted.
