(** Selection commutes with any map of the scores that keeps their order; what happens to
    the score rows when vectors are multiplied by positive numbers. *)
From Coq Require Import List Arith Lia Bool ZArith Permutation Sorted Reals Lra.
From Verif Require Import Base Num Heap Sparse TopkModel TopkSpec TopkProofs TopkBatch
  RecommendModel RecommendProofs RecommendProofs2 RecommendBatch RVec SimilarProofs SimilarBatch.
Import ListNotations.

(* ------------------------------------------------------------------ sorting *)
Section SortMap.
Context {A : Type} (comp : A -> A -> bool) (h : A -> A) (P : A -> Prop).
Hypothesis mono : forall x y, P x -> P y -> comp (h x) (h y) = comp x y.

Lemma insert_by_P x l : P x -> Forall P l -> Forall P (insert_by comp x l).
Proof. intros Px. induction 1; simpl; auto. destruct (comp x x0); auto. Qed.
Lemma sort_by_P l : Forall P l -> Forall P (sort_by comp l).
Proof. induction 1; simpl; auto. apply insert_by_P; auto. Qed.
Lemma insert_by_map x l : P x -> Forall P l -> insert_by comp (h x) (map h l) = map h (insert_by comp x l).
Proof. intros Px. induction 1; simpl; auto. rewrite mono by auto. destruct (comp x x0); simpl; auto. rewrite IHForall. auto. Qed.
Lemma sort_by_map l : Forall P l -> sort_by comp (map h l) = map h (sort_by comp l).
Proof.
  induction 1 as [|x l Px F IH]; auto. change (sort_by comp (map h (x :: l))) with (insert_by comp (h x) (sort_by comp (map h l))).
  rewrite IH. apply insert_by_map; auto. apply sort_by_P; auto.
Qed.
End SortMap.

(* ------------------------------------------------------------------ select_row *)
Section Select.
Context {T : Type} `{NumOrd T}.
Variables (g : T -> T) (P : T -> Prop).
Hypothesis mono : forall a b, P a -> P b -> nltb (g a) (g b) = nltb a b.
Definition gp (p : T * nat) : T * nat := (g (fst p), snd p).
Definition Pp (p : T * nat) : Prop := P (fst p).

Lemma heap_order_gp x y : Pp x -> Pp y -> heap_order (gp x) (gp y) = heap_order x y.
Proof. intros X Y. unfold heap_order, pair_ltb, gp. simpl. rewrite !mono by auto. auto. Qed.

Lemma topk_add_P K r i s r' : P s -> Forall Pp r -> topk_add simple_heap K r i s = Ok r' -> Forall Pp r'.
Proof.
  intros Ps F E. unfold topk_add in E. apply bind_ok in E. destruct E as [b [_ E]].
  destruct b; inversion E; subst; auto. clear E. apply (sort_by_P _ Pp). apply Forall_app. split; [|constructor; auto].
  destruct (K <=? length r); auto. destruct r as [|a r]; auto. cbn [pop_heap simple_heap]. rewrite removelast_snoc.
  inversion F; subst. apply (sort_by_P _ Pp). auto.
Qed.
Lemma topk_add_map K r i s r' : P s -> Forall Pp r -> topk_add simple_heap K r i s = Ok r' ->
  topk_add simple_heap K (map gp r) i (g s) = Ok (map gp r').
Proof.
  intros Ps F E. unfold topk_add in *. rewrite map_length. apply bind_ok in E. destruct E as [b [B E]].
  assert (B' : (if length r <? K then Ok true else match map gp r with [] => Raise UB | r0 :: _ => Ok (nltb (fst r0) (g s)) end) = Ok b).
  { destruct (length r <? K); auto. destruct r as [|a r]; auto. simpl. inversion F; subst. rewrite mono by auto. auto. }
  rewrite B'. cbn [bind]. destruct b; inversion E; subst; auto. f_equal. clear E B B'. cbn [push_heap simple_heap].
  assert (M : forall x y, Pp x -> Pp y -> heap_order (gp x) (gp y) = heap_order x y) by (intros; apply heap_order_gp; auto).
  set (r1 := if K <=? length r then removelast (pop_heap simple_heap heap_order r) else r).
  assert (R1 : (if K <=? length r then removelast (pop_heap simple_heap heap_order (map gp r)) else map gp r) = map gp r1 /\ Forall Pp r1).
  { unfold r1. destruct (K <=? length r); auto. destruct r as [|a r]; auto. cbn [map pop_heap simple_heap]. rewrite !removelast_snoc.
    inversion F; subst. rewrite (sort_by_map _ gp Pp M) by auto. split; auto. apply sort_by_P; auto. }
  destruct R1 as [R1 F1]. unfold r1 in *. cbn [pop_heap simple_heap] in *. rewrite R1.
  match goal with |- sort_by _ (map gp ?l ++ [(g s, i)]) = _ => change (map gp l ++ [(g s, i)]) with (map gp l ++ map gp [(s, i)]); rewrite <- map_app end.
  apply (sort_by_map _ gp Pp M). apply Forall_app. split; auto.
Qed.
Lemma topk_feed_map K l : Forall (fun p => P (snd p)) l -> forall r r', Forall Pp r -> topk_feed simple_heap K l r = Ok r' ->
  topk_feed simple_heap K (map (fun p => (fst p, g (snd p))) l) (map gp r) = Ok (map gp r') /\ Forall Pp r'.
Proof.
  induction 1 as [|[i s] l Ps F IH]; intros r r' Fr E.
  - unfold topk_feed in *. simpl in *. inversion E; subst. auto.
  - unfold topk_feed in E. cbn [fold_res fst snd] in E. apply bind_ok in E. destruct E as [r1 [E1 E]].
    unfold topk_feed. cbn [map fold_res fst snd]. rewrite (topk_add_map K r i s r1) by auto. cbn [bind]. apply IH; auto.
    eapply topk_add_P; eauto.
Qed.
Lemma enum_from_map {B C} (f : B -> C) l j : enum_from j (map f l) = map (fun p => (fst p, f (snd p))) (enum_from j l).
Proof. revert j; induction l; simpl; intros; auto. rewrite IHl. auto. Qed.
Lemma enum_from_P j l : Forall P l -> Forall (fun p => P (snd p)) (enum_from j l).
Proof. intros F. revert j. induction F; simpl; intros; constructor; auto. Qed.

(** For any conforming heap: selecting from the mapped row is mapping the selection. *)
Lemma select_row_map HP (HC : std_heap_ok HP) k row r : 0 < k -> Forall P row ->
  select_row HP k row = Ok r -> select_row HP k (map g row) = Ok (map gp r).
Proof.
  intros K F E. rewrite (select_row_unique HP simple_heap HC simple_heap_ok) in * by auto.
  unfold select_row in *. apply bind_ok in E. destruct E as [r0 [E1 E2]]. inversion E2; subst. clear E2.
  assert (Q := topk_feed_map k (enum row) (enum_from_P 0 row F) [] r0 (Forall_nil _) E1). destruct Q as [Q FQ].
  unfold enum in *. rewrite enum_from_map. cbn [map] in Q. rewrite Q. cbn [bind]. f_equal. cbn [sort_heap simple_heap].
  apply (sort_by_map _ gp Pp); auto. intros. apply heap_order_gp; auto.
Qed.

(** Overwriting cells with a fixed point of the map. *)
Lemma upd_map (v : T) : g v = v -> forall row i, upd i v (map g row) = map g (upd i v row).
Proof. intros E. induction row; destruct i; simpl; auto; congruence. Qed.
Lemma set_cols_map (v : T) l row row' : g v = v -> set_cols l v row = Ok row' -> set_cols l v (map g row) = Ok (map g row').
Proof.
  intros E X. unfold set_cols in *. rewrite map_length. apply bind_ok in X. destruct X as [js [X1 X2]]. rewrite X1. cbn [bind].
  inversion X2; subst. f_equal. clear X1 X2. revert row. induction js; simpl; intros; auto. rewrite upd_map by auto. auto.
Qed.
Lemma set_cols_P (v : T) l row row' : P v -> Forall P row -> set_cols l v row = Ok row' -> Forall P row'.
Proof.
  intros Pv F X. unfold set_cols in X. apply bind_ok in X. destruct X as [js [_ X]]. inversion X; subst. clear X.
  revert row F. induction js; simpl; intros; auto. apply IHjs. clear - Pv F. revert a. induction F; destruct a; simpl; auto.
Qed.

(** The same for a whole query row of [topk]. *)
Lemma topk_row_map HP (HC : std_heap_ok HP) fmin items norms items' norms' fq fi k i q q' row r :
  0 < k -> (fq = None /\ fi = None \/ P fmin /\ g fmin = fmin) ->
  score_row items norms q = Ok row -> score_row items' norms' q' = Ok (map g row) -> Forall P row ->
  topk_row HP fmin items norms fq fi k i q = Ok r ->
  topk_row HP fmin items' norms' fq fi k i q' = Ok (map gp r).
Proof.
  intros K FF E E' F X. unfold topk_row, row_scores in *. rewrite E in X. rewrite E'. cbn [bind] in *.
  destruct FF as [[-> ->]|[Pm Gm]].
  - cbn [bind] in *. apply select_row_map; auto.
  - apply bind_ok in X. destruct X as [r2 [X X3]]. apply bind_ok in X. destruct X as [r1 [X1 X2]].
    assert (Q1 : (match fq with None => Ok (map g row) | Some m => if i <? c_rows m then set_cols (map Z.of_nat (csr_row_indices m i)) fmin (map g row) else Raise IndexError end) = Ok (map g r1) /\ Forall P r1).
    { destruct fq as [m|]; [|inversion X1; subst; auto]. destruct (i <? c_rows m); [|discriminate]. split; [apply set_cols_map; auto|eapply set_cols_P; eauto]. }
    destruct Q1 as [Q1 F1]. rewrite Q1. cbn [bind].
    assert (Q2 : (match fi with None => Ok (map g r1) | Some l => set_cols l fmin (map g r1) end) = Ok (map g r2) /\ Forall P r2).
    { destruct fi as [l|]; [|inversion X2; subst; auto]. split; [apply set_cols_map; auto|eapply set_cols_P; eauto]. }
    destruct Q2 as [Q2 F2]. rewrite Q2. cbn [bind]. apply select_row_map; auto.
Qed.
End Select.

(* ------------------------------------------------------------------ scaled vectors *)
Local Open Scope R_scope.

Lemma rdot_scale a b x y : rdot (map (Rmult a) x) (map (Rmult b) y) = a * b * rdot x y.
Proof. revert y; induction x; destruct y; simpl; try ring. rewrite IHx. ring. Qed.
Lemma rnorm_scale a x : 0 < a -> rnorm (map (Rmult a) x) = a * rnorm x.
Proof.
  intros A. unfold rnorm. rewrite rdot_scale, sqrt_mult; [|apply Rmult_le_pos; lra|apply rdot_nonneg]. rewrite sqrt_square by lra. auto.
Qed.
Lemma safe_norm_cases tiny x : (rnorm x = 0 /\ safe_norm rnorm tiny x = tiny) \/ (rnorm x <> 0 /\ safe_norm rnorm tiny x = rnorm x).
Proof.
  destruct (Req_EM_T (rnorm x) 0) as [E|E]; [left|right]; split; auto.
  - unfold safe_norm. rewrite E. destruct (neqb 0 nzero) eqn:Q; auto. assert (X : neqb 0 0 = true) by (apply neqb_R_true; auto). change (@nzero R Num_R) with 0 in Q. congruence.
  - apply safe_norm_eq; auto.
Qed.

(** A quotient score of scaled vectors. *)
Lemma scaled_quotient tiny a b q y : 0 < tiny -> 0 < a -> 0 < b ->
  rdot (map (Rmult a) q) (map (Rmult b) y) / safe_norm rnorm tiny (map (Rmult b) y) = a * (rdot q y / safe_norm rnorm tiny y).
Proof.
  intros T A B. rewrite rdot_scale.
  destruct (safe_norm_cases tiny y) as [[Z E]|[Z E]]; destruct (safe_norm_cases tiny (map (Rmult b) y)) as [[Z' E']|[Z' E']];
    rewrite rnorm_scale in Z' by auto.
  - rewrite E, E'. assert (D : rdot q y = 0) by (rewrite rdot_comm; apply rdot_all_zero; apply rnorm_zero; auto). rewrite D. field. lra.
  - exfalso. apply Z'. rewrite Z. ring.
  - exfalso. apply Rmult_integral in Z'. lra.
  - rewrite E, E', rnorm_scale by auto. field. split; auto. lra.
Qed.

Lemma Rltb_mono (g : R -> R) a b : (a < b <-> g a < g b) -> nltb (g a) (g b) = nltb a b.
Proof.
  intros X. change (Rltb (g a) (g b) = Rltb a b). unfold Rltb. destruct (Rlt_dec (g a) (g b)), (Rlt_dec a b); auto; exfalso; tauto.
Qed.
