(** explain: property C45 of properties.jsonl. *)
From Coq Require Import List Arith Lia Bool Reals Lra Permutation ZArith Sorted.
From Verif Require Import Base Num Heap Sparse TopkModel RecommendModel RVec SimilarBatch AlsModel AlsSpec AlsProofs PosvImpl AlsProofs2 PropAls
  ExplainModel ExplainProofs.
Import ListNotations.
Local Open Scope R_scope.

(** scipy's cho_factor / cho_solve in exact arithmetic. *)
Definition cho_ok {W} (cho_factor : list (list R) -> option W) (cho_solve : W -> list R -> list R) : Prop :=
  forall n A, square n A -> symmetric n A ->
    (pos_def n A -> exists w, cho_factor A = Some w) /\
    (forall w, cho_factor A = Some w -> pos_def n A /\
       forall v, length v = n -> length (cho_solve w v) = n /\ mv A (cho_solve w v) = v).

(** [v] solves the user's normal equations for right hand side [y]. *)
Definition solves_normal (n : nat) (Y : list (list R)) (reg : R) (row : list (nat * R)) (v y : list R) : Prop :=
  length v = n /\ forall j, (j < n)%nat -> rsum (map (fun k => normal_matrix Y reg row j k * nth k v 0) (seq 0 n)) = nth j y 0.
(** What the user's items of non-negative confidence contribute: confidence times the
    similarity of the two items as seen by the user. *)
Definition contributions (Y : list (list R)) (row : list (nat * R)) (v : list R) : list (nat * R) :=
  map (fun p => (fst p, snd p * rdot v (nth (fst p) Y []))) (filter (fun p => if Rle_dec 0 (snd p) then true else false) row).
(** Ordered by decreasing score, then decreasing id. *)
Definition not_better (a b : nat * R) : Prop := snd b > snd a \/ (snd b = snd a /\ (fst a <= fst b)%nat).
(** [top] is the best N of [all], in order. *)
Definition is_top_n (N : Z) (all top : list (nat * R)) : Prop :=
  exists rest, Permutation (top ++ rest) all /\ length top = Nat.min (length all) (Z.to_nat N) /\
    StronglySorted (fun a b => not_better b a) top /\ forall a b, In a top -> In b rest -> not_better b a.

Lemma tuple_not_better (a b : R * nat) : tuple_lt a b = false -> not_better (snd b, fst b) (snd a, fst a).
Proof.
  unfold tuple_lt, not_better. simpl. unfold Rltb. destruct (Rlt_dec (fst a) (fst b)); [discriminate|]. destruct (Rlt_dec (fst b) (fst a)); [auto|].
  intros X. apply Nat.ltb_ge in X. right. split; auto. lra.
Qed.

Section Run.
Variable Q : heapq.
Lemma explain_fold n (Y : list (list R)) w N row : mat_ok n Y -> (forall p, In p row -> (fst p < length Y)%nat) -> forall t h,
  fold_res (explain_step Q Y w N) row (t, h) =
  Ok (t + rsum (map snd (contributions Y row w)), fold_left (push_contribution Q N) (map (fun c => (snd c, fst c)) (contributions Y row w)) h).
Proof.
  intros MY. induction row as [|[j c] row IH]; intros B t h; simpl fold_res.
  - unfold contributions. simpl. do 2 f_equal. lra.
  - unfold explain_step at 1. cbn [fst snd].
    assert (IH' := IH (fun p X => B p (or_intror X))).
    unfold contributions. cbn [filter snd]. simpl nltb. unfold Rltb. change (@nzero R _) with 0. destruct (Rlt_dec c 0) as [NC|NC]; cbn [bind].
    + destruct (Rle_dec 0 c); [lra|]. apply IH'.
    + destruct (Rle_dec 0 c) as [PC|]; [|lra]. rewrite np_row_ok by (apply (B (j, c)); left; auto). cbn [bind]. rewrite IH'.
      cbn [map fst snd fold_left]. cbn [rsum]. rewrite !ndot_rdot. change (@nmul R _) with Rmult. change (@nadd R _) with Rplus.
      rewrite (Rmult_comm (rdot w (nth j Y [])) c). unfold contributions, push_contribution. do 2 f_equal. lra.
Qed.
End Run.

Lemma ssorted_app {A} (P : A -> A -> Prop) l l' : StronglySorted P l -> StronglySorted P l' -> (forall x y, In x l -> In y l' -> P x y) ->
  StronglySorted P (l ++ l').
Proof.
  intros S1 S2 C. induction S1 as [|a l SS IH FA]; simpl; auto. constructor; [apply IH; intros; apply C; simpl; auto|].
  rewrite Forall_forall in *. intros x Hx. apply in_app_iff in Hx. destruct Hx; [auto|apply C; simpl; auto].
Qed.
Lemma sorted_rev {A} (P : A -> A -> Prop) l : StronglySorted P l -> StronglySorted (fun a b => P b a) (rev l).
Proof.
  induction 1 as [|a l SS IH FA]; simpl; [constructor|]. apply ssorted_app; auto.
  - repeat constructor.
  - intros x y Hx [<-|[]]. rewrite <- in_rev in Hx. rewrite Forall_forall in FA. auto.
Qed.
Lemma sorted_map {A B} (f : A -> B) (P : A -> A -> Prop) (P' : B -> B -> Prop) l : (forall a b, P a b -> P' (f a) (f b)) ->
  StronglySorted P l -> StronglySorted P' (map f l).
Proof.
  intros I. induction 1 as [|a l SS IH FA]; simpl; constructor; auto. rewrite Forall_forall in *. intros x Hx. apply in_map_iff in Hx.
  destruct Hx as [y [<- Hy]]. auto.
Qed.

Lemma explain_top Q N all : heapq_ok Q ->
  let h := fold_left (push_contribution Q N) (map (fun c => (snd c, fst c)) all) [] in
  is_top_n N all (rev (map (fun c => (snd c, fst c)) (pop_all Q (length h) h))).
Proof.
  intros HQ h. destruct (top_of Q HQ N (map (fun c : nat * R => (snd c, fst c)) all)) as [d [Hh [P [L B]]]]. fold h in Hh, P, L, B.
  destruct (pop_all_sorted Q HQ (length h) h Hh eq_refl) as [P2 S2]. set (pops := pop_all Q (length h) h) in *.
  exists (map (fun c => (snd c, fst c)) d). split; [|split; [|split]].
  - rewrite <- Permutation_rev, P2, <- map_app. transitivity (map (fun c : R * nat => (snd c, fst c)) (map (fun c : nat * R => (snd c, fst c)) all)).
    + apply Permutation_map. auto.
    + rewrite map_map. rewrite (map_ext _ (fun x => x)) by (intros [? ?]; auto). rewrite map_id. auto.
  - rewrite rev_length, map_length, (Permutation_length P2), L, map_length. auto.
  - apply sorted_rev. apply (sorted_map _ (fun a b => tuple_lt b a = false)); auto. intros a b X. apply tuple_not_better in X. auto.
  - intros a b Ha Hb. rewrite <- in_rev in Ha. apply in_map_iff in Ha. apply in_map_iff in Hb.
    destruct Ha as [a' [<- Ha]]. destruct Hb as [b' [<- Hb]]. apply tuple_not_better. apply B; auto. apply (Permutation_in _ P2); auto.
Qed.

Lemma contributions_sum Y row v : row_ok (length Y) row -> rsum (map snd (contributions Y row v)) = wlin Y row v.
Proof.
  intros RO. rewrite wlin_sum by auto. unfold contributions. rewrite map_map. cbn [snd]. clear RO. induction row as [|[j c] row IH]; simpl; auto.
  unfold pos at 1. destruct (Rle_dec 0 c); simpl; rewrite IH; destruct (Rlt_dec 0 c); rewrite ?(rdot_comm (nth j Y []) v); try lra.
  replace c with 0 by lra. lra.
Qed.
Lemma np_index_cases n z i : np_index n z = Ok i -> (i < n)%nat /\ (z = Z.of_nat i \/ z = (Z.of_nat i - Z.of_nat n)%Z).
Proof.
  unfold np_index. destruct ((0 <=? z)%Z && (z <? Z.of_nat n)%Z) eqn:E1.
  - intros E. inversion E; subst. apply andb_prop in E1. destruct E1 as [A B]. apply Z.leb_le in A. apply Z.ltb_lt in B. lia.
  - destruct ((- Z.of_nat n <=? z)%Z && (z <? 0)%Z) eqn:E2; intros E; inversion E; subst. apply andb_prop in E2. destruct E2 as [A B].
    apply Z.leb_le in A. apply Z.ltb_lt in B. lia.
Qed.

(** [total] is the item's score for the factors that minimise the user's loss, and
    [top] the best N contributions of the user's items, which add up to [total]. *)
Definition explains (n : nat) (Y : list (list R)) (reg : R) (row : list (nat * R)) (i : nat) (N : Z) (total : R) (top : list (nat * R)) : Prop :=
  (exists x, minimises n (user_loss Y reg row) x) /\
  (forall x, minimises n (user_loss Y reg row) x -> total = rdot (nth i Y []) x) /\
  exists v, solves_normal n Y reg row v (nth i Y []) /\
    is_top_n N (contributions Y row v) top /\ total = rsum (map snd (contributions Y row v)).

Section C45.
Context {W : Type}.
Variables (Q : heapq) (cho_factor : list (list R) -> option W) (cho_solve : W -> list R -> list R).
Hypothesis (HQ : heapq_ok Q) (CH : cho_ok cho_factor cho_solve).
Variables (alpha reg : R) (n : nat) (Y : list (list R)) (u : nat) (M : csr R).
Hypothesis (C : canonical M) (MY : mat_ok n Y) (LY : length Y = c_cols M) (R0 : 0 <= reg) (BU : (u < c_rows M)%nat).
Notation row := (scale_row alpha (csr_row M u)).
Notation explain_u := (explain Q cho_factor cho_solve alpha reg n (gram n Y) Y u M).

Lemma rowu_ok : row_ok (length Y) row.
Proof. rewrite <- scale_rows, LY. apply (canonical_row (csr_scale alpha M) u); [apply scale_canonical; auto|auto]. Qed.
Lemma rowu : np_entries (csr_scale alpha M) u = Ok row.
Proof. rewrite np_entries_ok; [rewrite scale_rows; auto|apply scale_canonical; auto|auto]. Qed.

Notation explains_u := (explains n Y reg row).

Lemma explain_run w A b i N : user_linear_equation Y (gram n Y) row reg n = Ok (A, b) -> cho_factor A = Some w -> (i < length Y)%nat ->
  exists total top, (forall z, np_index (length Y) z = Ok i -> explain_u z (Some w) N = Ok (total, top, w)) /\ explains_u i N total top.
Proof.
  intros E EC Bi. destruct (system_form n Y reg row MY rowu_ok) as [A' [b' [ES [SA [Lb [FA FB]]]]]].
  rewrite py_system in E by (auto; apply rowu_ok). rewrite ES in E. inversion E; subst A' b'. clear E.
  assert (SY : symmetric n A).
  { apply (form_symmetric n A (fun x z => wform Y row x z + reg * rdot x z)); auto. intros x0 z0. rewrite wform_sym, rdot_comm. auto. }
  destruct (CH n A SA SY) as [_ CS]. destruct (CS w EC) as [PD SOL]. clear CS.
  assert (Ly : length (nth i Y []) = n) by (apply mat_row; auto).
  destruct (SOL _ Ly) as [Lv Ev]. set (v := cho_solve w (nth i Y [])) in *.
  set (h := fold_left (push_contribution Q N) (map (fun c => (snd c, fst c)) (contributions Y row v)) []).
  exists (rsum (map snd (contributions Y row v))), (rev (map (fun c => (snd c, fst c)) (pop_all Q (length h) h))). split; [|split; [|split]].
  - intros z Ez. unfold explain. cbn [bind]. rewrite apply_alpha_scale. rewrite Ez. cbn [bind]. rewrite rowu. cbn [bind].
    rewrite (explain_fold Q n) by (auto; apply rowu_ok). cbn [bind]. fold v. fold h. change (@nzero R _) with 0. rewrite Rplus_0_l. auto.
  - destruct (SOL b Lb) as [Lx Ex]. exists (cho_solve w b).
    apply (normal_minimises Y reg row n (cho_solve w b) MY R0 Lx). intros z Lz. rewrite <- FA, <- FB, Ex by auto. auto.
  - intros x Hx. destruct (SOL b Lb) as [Lx0 Ex0]. set (x0 := cho_solve w b) in *.
    assert (NE : forall z, length z = n -> wform Y row x0 z + reg * rdot x0 z = wlin Y row z) by (intros z Lz; rewrite <- FA, <- FB, Ex0 by auto; auto).
    assert (Eq : x = x0).
    { destruct Hx as [Lx Mx]. assert (Ld : length (vsub x x0) = n) by (rewrite vsub_length; congruence).
      pose proof (Mx x0 Lx0) as LE. rewrite (excess Y reg row n x0 x MY Lx0 Lx NE) in LE.
      rewrite <- (FA (vsub x x0) (vsub x x0)) in LE || (pose proof (FA (vsub x x0) (vsub x x0) Ld Ld) as F1).
      apply vsub_zero; [congruence|]. destruct (Classical_Prop.classic (exists a, In a (vsub x x0) /\ a <> 0)) as [NZ|AZ].
      - pose proof (PD _ Ld NZ). lra.
      - apply rdot_all_zero. intros a Ha. destruct (Req_dec a 0); auto. exfalso. eauto. }
    rewrite Eq, contributions_sum by apply rowu_ok. rewrite <- (NE v Lv). rewrite wform_sym, (rdot_comm x0 v). rewrite <- FA by auto. rewrite Ev. auto.
  - exists v. split; [|split; [apply explain_top; auto|auto]]. split; auto. intros j Bj.
    destruct (C35_native n Y reg row MY rowu_ok) as [A2 [b2 [E2 [_ [_ [_ [NM _]]]]]]]. rewrite ES in E2. inversion E2; subst A2 b2.
    rewrite <- Ev. rewrite mv_nth by (rewrite (proj1 SA); auto). rewrite (rdot_nth (nth j A []) v n); [|apply SA; apply nth_In; rewrite (proj1 SA); auto|auto].
    apply rsum_map_ext. intros k Hk. apply in_seq in Hk. rewrite NM by lia. auto.
Qed.

Theorem C45_explain : forall itemid N total top w, explain_u itemid None N = Ok (total, top, w) ->
  exists i, (i < length Y)%nat /\ (itemid = Z.of_nat i \/ itemid = (Z.of_nat i - Z.of_nat (length Y))%Z) /\ explains_u i N total top.
Proof.
  intros itemid N total top w E. destruct (C35_python n Y reg row MY rowu_ok) as [A [b [EA _]]].
  unfold explain in E. rewrite apply_alpha_scale, rowu in E. cbn [bind] in E. rewrite EA in E. cbn [bind] in E.
  destruct (cho_factor A) as [w0|] eqn:EC; [|discriminate]. cbn [bind] in E.
  destruct (np_index (length Y) itemid) as [i|] eqn:EI; [|discriminate]. pose proof (np_index_cases _ _ _ EI) as [Bi Ci].
  destruct (explain_run w0 A b i N EA EC Bi) as [total' [top' [ER X]]]. specialize (ER itemid EI).
  unfold explain in ER. rewrite apply_alpha_scale, EI, rowu in ER. cbn [bind] in ER, E. rewrite ER in E. inversion E; subst. eauto.
Qed.

(** Never fails for valid ids when reg > 0. *)
Theorem C45_total : forall itemid N, 0 < reg -> (- Z.of_nat (length Y) <= itemid < Z.of_nat (length Y))%Z ->
  exists r, explain_u itemid None N = Ok r.
Proof.
  intros itemid N R1 B. destruct (system_form n Y reg row MY rowu_ok) as [A [b [ES [SA [Lb [FA FB]]]]]].
  assert (EA : user_linear_equation Y (gram n Y) row reg n = Ok (A, b)) by (rewrite py_system by (auto; apply rowu_ok); auto).
  assert (SY : symmetric n A).
  { apply (form_symmetric n A (fun x z => wform Y row x z + reg * rdot x z)); auto. intros x0 z0. rewrite wform_sym, rdot_comm. auto. }
  destruct (CH n A SA SY) as [CF _]. destruct (CF (wform_posdef n Y reg row MY R1 A SA FA)) as [w EC].
  assert (exists i, np_index (length Y) itemid = Ok i) as [i EI].
  { unfold np_index. destruct (Z.leb_spec 0 itemid), (Z.ltb_spec itemid (Z.of_nat (length Y))), (Z.leb_spec (- Z.of_nat (length Y)) itemid), (Z.ltb_spec itemid 0); simpl; eauto; lia. }
  pose proof (np_index_cases _ _ _ EI) as [Bi _]. destruct (explain_run w A b i N EA EC Bi) as [t [top [ER _]]]. specialize (ER _ EI).
  exists (t, top, w). unfold explain in *. rewrite apply_alpha_scale, rowu in *. cbn [bind] in *. rewrite EA. cbn [bind]. rewrite EC. cbn [bind]. auto.
Qed.

(** The returned weights can be passed to later calls for the same user. *)
Theorem C45_weights : forall itemid N r w, explain_u itemid None N = Ok (r, w) ->
  forall itemid' N', explain_u itemid' (Some w) N' = explain_u itemid' None N'.
Proof.
  intros itemid N r w E itemid' N'. destruct (C35_python n Y reg row MY rowu_ok) as [A [b [EA _]]].
  unfold explain in *. rewrite apply_alpha_scale, rowu in *. cbn [bind] in *. rewrite EA in *. cbn [bind] in *.
  destruct (cho_factor A) as [w0|] eqn:EC; [|discriminate]. cbn [bind] in *.
  destruct (np_index (length Y) itemid) as [i|]; [|discriminate]. cbn [bind] in E.
  destruct (fold_res _ _ _) as [[t h]|] in E; [|discriminate]. cbn [bind] in E. inversion E; subst. auto.
Qed.

(** The total is the score given by recalculate_user, for any solver. *)
Theorem C45_recalculated : forall posv itemid N total top w Mu ids X', posv_ok posv ->
  explain_u itemid None N = Ok (total, top, w) ->
  canonical Mu -> c_cols Mu = c_cols M -> c_rows Mu = 1%nat -> csr_row Mu 0 = csr_row M u ->
  recalculate_user posv alpha reg n (gram n Y) Y ids Mu = Ok X' ->
  exists i, (i < length Y)%nat /\ (itemid = Z.of_nat i \/ itemid = (Z.of_nat i - Z.of_nat (length Y))%Z) /\ total = rdot (nth i Y []) (nth 0 X' []).
Proof.
  intros posv itemid N total top w Mu ids X' PO E CU CC CR ER EU. destruct (C45_explain _ _ _ _ _ E) as [i [Bi [Ci [_ [T _]]]]].
  exists i. split; auto. split; auto. apply T.
  destruct (C36_recalculate_user posv alpha reg n Y ids Mu X' PO CU MY ltac:(congruence) R0 EU) as [_ [EC MN]].
  rewrite <- ER. apply (MN 0%nat). lia.
Qed.
End C45.

(** When N covers all of them, the contributions sum to the total. *)
Theorem C45_sum : forall n Y reg row i N total top, explains n Y reg row i N total top ->
  (Z.of_nat (length (filter (fun p => if Rle_dec 0 (snd p) then true else false) row)) <= N)%Z ->
  rsum (map snd top) = total.
Proof.
  intros n Y reg row i N total top [_ [_ [v [_ [[rest [P [L _]]] ->]]]]] LE.
  assert (length (contributions Y row v) = length top + length rest)%nat by (rewrite <- (Permutation_length P), app_length; auto).
  assert (length (contributions Y row v) <= Z.to_nat N)%nat by (unfold contributions; rewrite map_length; lia).
  assert (rest = []) by (destruct rest; auto; simpl in *; lia). subst rest. rewrite app_nil_r in P. apply rsum_perm. apply Permutation_map. auto.
Qed.
Print Assumptions C45_explain.
Print Assumptions C45_total.
Print Assumptions C45_weights.
Print Assumptions C45_recalculated.
Print Assumptions C45_sum.

(* ------------------------------------------------------------------ an instance *)
Definition simple_heapq : heapq := {|
  heappush := fun A lt h x => sort_by (fun a b => lt b a) (x :: h);
  heappushpop := fun A lt h x => tl (sort_by (fun a b => lt b a) (x :: h));
  heappop := fun A lt h => match h with [] => None | a :: h' => Some (a, sort_by (fun a b => lt b a) h') end
|}.
Lemma simple_heapq_ok : heapq_ok simple_heapq.
Proof.
  intros A lt SW. pose proof (swo_flip lt SW) as SF. assert (HS : forall l, is_heap (fun a b => lt b a) (sort_by (fun a b => lt b a) l)).
  { intros l. apply sorted_is_heap; auto. apply sort_by_sorted; auto. }
  split; [|split; [|split]].
  - intros h x Hh. split; [apply (sort_by_perm (fun a b => lt b a) (x :: h))|apply (HS (x :: h))].
  - intros h x Hh. cbn [simple_heapq heappushpop]. set (l := x :: h). pose proof (sort_by_perm (fun a b => lt b a) l) as P.
    pose proof (sort_by_sorted (fun a b => lt b a) SF l) as SS. destruct (sort_by (fun a b => lt b a) l) as [|m l'] eqn:E.
    { apply Permutation_nil in P. discriminate. }
    exists m. simpl. split; auto. inversion SS as [|? ? S2 FA]; subst. split.
    + intros y Hy. apply (Permutation_in _ (Permutation_sym P)) in Hy. destruct Hy as [<-|Hy]; [apply (swo_irrefl lt SW)|]. rewrite Forall_forall in FA. apply FA; auto.
    + apply sorted_is_heap; auto.
  - reflexivity.
  - intros a h Hh. exists (sort_by (fun a b => lt b a) h). split; [reflexivity|]. split; [apply sort_by_perm|apply HS].
Qed.
(** The "factor" keeps the matrix. *)
Definition cho_factor_elim (A : list (list R)) : option (list (list R)) :=
  match posv_elim A (repeat 0 (length A)) with Some _ => Some A | None => None end.
Definition cho_solve_elim (A : list (list R)) (v : list R) : list R := match posv_elim A v with Some x => x | None => [] end.
Lemma cho_elim_ok : cho_ok cho_factor_elim cho_solve_elim.
Proof.
  intros n A SA SY. assert (L0 : length (repeat 0 (length A)) = n) by (rewrite repeat_length; apply SA).
  destruct (posv_elim_ok n A (repeat 0 (length A)) SA SY L0) as [P1 P2]. unfold cho_factor_elim. split.
  - intros PD. destruct (P1 PD) as [x [Ex _]]. rewrite Ex. eauto.
  - intros w E. destruct (posv_elim A (repeat 0 (length A))) as [x|] eqn:EP; [|discriminate]. inversion E; subst w.
    assert (PD : pos_def n A) by (destruct (Classical_Prop.classic (pos_def n A)) as [PD|NP]; [exact PD|]; pose proof (P2 NP); congruence).
    split; auto. intros v Lv. destruct (posv_elim_ok n A v SA SY Lv) as [Q1 _]. destruct (Q1 PD) as [y [Ey [Ly My]]].
    unfold cho_solve_elim. rewrite Ey. auto.
Qed.
(** A user with a negative entry, alpha = 2, one contribution asked for, item -1. *)
Example C45_example : exists total top w,
  explain simple_heapq cho_factor_elim cho_solve_elim 2 (1/10) 2 (gram 2 exY) exY 0 exM (-1)%Z None 1%Z = Ok (total, top, w) /\
  explains 2 exY (1/10) (scale_row 2 (csr_row exM 0)) 2 1%Z total top /\ length top = 1%nat.
Proof.
  destruct (C45_total simple_heapq cho_factor_elim cho_solve_elim simple_heapq_ok cho_elim_ok 2 (1/10) 2 exY 0 exM exM_canonical exY_ok eq_refl ltac:(lra)
    ltac:(simpl; lia) (-1)%Z 1%Z ltac:(lra) ltac:(simpl; lia)) as [[[total top] w] E].
  exists total, top, w. split; auto.
  destruct (C45_explain simple_heapq cho_factor_elim cho_solve_elim simple_heapq_ok cho_elim_ok 2 (1/10) 2 exY 0 exM exM_canonical exY_ok eq_refl ltac:(lra)
    ltac:(simpl; lia) _ _ _ _ _ E) as [i [Bi [Ci X]]]. assert (i = 2%nat) by (simpl in *; lia). subst i. split; auto.
  destruct X as [_ [_ [v [_ [[rest [_ [L _]]] _]]]]]. rewrite L. unfold contributions. rewrite map_length. simpl.
  destruct (Rle_dec 0 (2 * 5)); [|lra]. destruct (Rle_dec 0 (2 * -4)); [lra|]. reflexivity.
Qed.
