(** Lemmas for the ANN wrappers. *)
From Coq Require Import String List Arith Lia Bool ZArith Permutation Sorted Reals Lra Psatz.
From Verif Require Import Base Num Heap Sparse TopkModel TopkSpec TopkProofs RecommendModel KnnModel RVec SimilarProofs PropSimilar AnnModel.
Import ListNotations.
Local Open Scope list_scope.
Local Open Scope nat_scope.

(** [ids] are [n] of the candidates, best first; [ge i j]: i is at least as good as j. *)
Record Best (ge : nat -> nat -> Prop) (cands : list nat) (n : nat) (ids : list nat) : Prop := {
  best_length : length ids = n;
  best_nodup : NoDup ids;
  best_incl : incl ids cands;
  best_sorted : StronglySorted ge ids;
  best_best : forall i j, In i ids -> In j cands -> ~ In j ids -> ge i j }.

Lemma ss_weaken {A} (P Q : A -> A -> Prop) l : (forall a b, In a l -> In b l -> P a b -> Q a b) -> StronglySorted P l -> StronglySorted Q l.
Proof.
  induction l as [|x l IH]; intros HI HS; constructor; inversion HS; subst.
  - apply IH; auto. intros; apply HI; simpl; auto.
  - rewrite Forall_forall in *. intros y Hy. apply HI; simpl; auto.
Qed.
Lemma best_weaken (ge ge' : nat -> nat -> Prop) cands n ids : (forall i j, In i cands -> In j cands -> ge i j -> ge' i j) -> Best ge cands n ids -> Best ge' cands n ids.
Proof.
  intros HI [B1 B2 B3 B4 B5]. split; auto.
  eapply ss_weaken; [|exact B4]. intros; apply HI; auto.
Qed.
Lemma ss_filter {A} (P : A -> A -> Prop) f l : StronglySorted P l -> StronglySorted P (filter f l).
Proof.
  induction l as [|x l IH]; simpl; intros HS; auto. inversion HS; subst. destruct (f x); auto. constructor; auto.
  rewrite Forall_forall in *. intros y Hy. apply filter_In in Hy. apply H2. tauto.
Qed.
Lemma ss_app_inv {A} (P : A -> A -> Prop) l l' : StronglySorted P (l ++ l') -> StronglySorted P l /\ (forall a b, In a l -> In b l' -> P a b).
Proof.
  induction l as [|x l IH]; simpl; intros HS. { split; [constructor|tauto]. }
  inversion HS; subst. destruct (IH H1) as [S1 S2]. rewrite Forall_forall in H2. split.
  - constructor; auto. rewrite Forall_forall. intros y Hy. apply H2. apply in_or_app; auto.
  - intros a b [<-|Ha] Hb; auto. apply H2. apply in_or_app; auto.
Qed.
Lemma NoDup_firstn {A} n (l : list A) : NoDup l -> NoDup (firstn n l).
Proof. revert l; induction n; destruct l; simpl; intros ND; try constructor; inversion ND; subst; auto. intro HI. apply H1. rewrite <- (firstn_skipn n l). apply in_or_app; auto. Qed.
Lemma filter_length_split {A} (f : A -> bool) l : length (filter f l) + length (filter (fun x => negb (f x)) l) = length l.
Proof. induction l; simpl; auto. destruct (f a); simpl; lia. Qed.

(** Taking more than needed, dropping some, and keeping N. *)
Lemma best_filter ge cands c ids keep N drop : NoDup cands ->
  Best ge cands (Nat.min c (length cands)) ids ->
  (forall i, In i cands -> keep i = false -> In i drop) -> N + length drop <= c ->
  Best ge (filter keep cands) (Nat.min N (length (filter keep cands))) (firstn N (filter keep ids)).
Proof.
  intros NDc [B1 B2 B3 B4 B5] HD HC.
  assert (IN : incl (filter keep ids) (filter keep cands)). { intros x Hx. apply filter_In in Hx. apply filter_In. split; [apply B3|]; tauto. }
  assert (ND : NoDup (filter keep ids)) by (apply NoDup_filter; auto).
  assert (LE : length (filter keep ids) <= length (filter keep cands)) by (apply NoDup_incl_length; auto).
  assert (FI : forall x, In x (firstn N (filter keep ids)) -> In x (filter keep ids)). { intros x Hx. rewrite <- (firstn_skipn N). apply in_or_app; auto. }
  split.
  - rewrite firstn_length.
    destruct (le_lt_dec (length cands) c) as [L|L].
    + rewrite Nat.min_r in B1 by auto.
      assert (P : incl cands ids). { apply NoDup_length_incl; auto. lia. }
      assert (L2 : length (filter keep cands) <= length (filter keep ids)).
      { apply NoDup_incl_length; [apply NoDup_filter; auto|]. intros x Hx. apply filter_In in Hx. apply filter_In. split; [apply P|]; tauto. }
      lia.
    + rewrite Nat.min_l in B1 by lia.
      assert (L2 : length (filter (fun x => negb (keep x)) ids) <= length drop).
      { apply NoDup_incl_length; [apply NoDup_filter; auto|]. intros x Hx. apply filter_In in Hx. destruct Hx as [Hx Hk]. apply HD; auto. destruct (keep x); auto; discriminate. }
      pose proof (filter_length_split keep ids). lia.
  - apply NoDup_firstn; auto.
  - intros x Hx. apply IN. auto.
  - pose proof (ss_filter ge keep ids B4) as S1. rewrite <- (firstn_skipn N (filter keep ids)) in S1. apply ss_app_inv in S1. tauto.
  - intros i j Hi Hj Hn. apply filter_In in Hj. destruct Hj as [Hj Hk].
    destruct (in_dec Nat.eq_dec j ids) as [Y|Y].
    + pose proof (ss_filter ge keep ids B4) as S1. rewrite <- (firstn_skipn N (filter keep ids)) in S1. apply ss_app_inv in S1. apply S1; auto.
      assert (K : In j (filter keep ids)) by (apply filter_In; auto). rewrite <- (firstn_skipn N (filter keep ids)) in K. apply in_app_or in K. tauto.
    + apply B5; auto. apply FI in Hi. apply filter_In in Hi. tauto.
Qed.
Lemma best_topn {T} `{Num T} (score : nat -> T) (ge : nat -> nat -> Prop) cands n ids : (forall i j, In i cands -> In j cands -> ge i j -> nleb (score j) (score i) = true) ->
  Best ge cands n ids -> TopN score cands n ids (map score ids).
Proof. intros HI HB. apply (best_weaken _ _ _ _ _ HI) in HB. destruct HB. split; auto. Qed.

Lemma filter_map_swap {A B} (f : A -> B) p l : filter p (map f l) = map f (filter (fun x => p (f x)) l).
Proof. induction l; simpl; auto. destruct (p (f a)); simpl; rewrite IHl; auto. Qed.

(* ------------------------------------------------------------- geometry *)
Local Open Scope R_scope.
Lemma rdot_app u v a b : length u = length v -> rdot (u ++ [a]) (v ++ [b]) = rdot u v + a * b.
Proof. revert v; induction u; destruct v; simpl; intros L; try discriminate; [lra|]. rewrite IHu by lia. lra. Qed.
Lemma rnorm_sq v : rnorm v * rnorm v = rdot v v.
Proof. unfold rnorm. apply sqrt_sqrt. apply rdot_nonneg. Qed.
Lemma fold_max (l : list R) : forall x, (In (fold_left (fun a b => if nltb a b then b else a) l x) (x :: l)) /\ forall y, In y (x :: l) -> y <= fold_left (fun a b => if nltb a b then b else a) l x.
Proof.
  induction l as [|b l IH]; intros x; cbn [fold_left].
  - split; [left; auto|]. intros y [->|[]]; lra.
  - assert (D : (nltb x b = true /\ x < b) \/ (nltb x b = false /\ b <= x)).
    { change (@nltb R Num_R x b) with (Rltb x b). unfold Rltb. destruct (Rlt_dec x b) as [L|L]; [left|right]; split; auto; lra. }
    destruct D as [[-> L]|[-> L]].
    + destruct (IH b) as [I1 I2]. split; [right; auto|]. intros y [Hy|Hy]; auto. subst y. specialize (I2 b (or_introl eq_refl)). lra.
    + destruct (IH x) as [I1 I2]. split; [destruct I1; [left; auto|right; right; auto]|].
      intros y Hy. destruct Hy as [Hy|[Hy|Hy]]; [apply I2; left; auto| |apply I2; right; auto]. specialize (I2 x (or_introl eq_refl)). lra.
Qed.
Lemma np_max_spec l m : np_max l = Ok m -> In m l /\ forall y, In y l -> y <= m.
Proof. destruct l as [|x l]; simpl; intros HE; [discriminate|]. injection HE as <-. apply (fold_max l x). Qed.

Lemma cosine_cases u v : (rnorm u * rnorm v) * cosine u v = rdot u v.
Proof.
  unfold cosine. destruct (Req_EM_T (rnorm u) 0) as [U|U].
  { rewrite (rdot_all_zero u v) by (apply rnorm_zero; auto). lra. }
  destruct (Req_EM_T (rnorm v) 0) as [V|V].
  { rewrite rdot_comm, (rdot_all_zero v u) by (apply rnorm_zero; auto). lra. }
  field. auto.
Qed.
Lemma rnorm_snoc0 q : rnorm (q ++ [0]) = rnorm q.
Proof. unfold rnorm. rewrite rdot_app by auto. f_equal. lra. Qed.
Lemma aug_norm mx r : rnorm r <= mx -> rnorm (r ++ [sqrt (mx * mx - rnorm r * rnorm r)]) = mx.
Proof.
  intros L. pose proof (rnorm_pos r). unfold rnorm at 1. rewrite rdot_app by auto. rewrite sqrt_sqrt by nra.
  rewrite <- rnorm_sq. replace (rnorm r * rnorm r + (mx * mx - rnorm r * rnorm r)) with (mx * mx) by ring. apply sqrt_square. lra.
Qed.
