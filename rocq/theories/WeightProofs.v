(** Proofs about the weighting functions (C24, C25). *)
From Coq Require Import List Arith Lia Bool ZArith Reals Lra Psatz.
From Verif Require Import Base Num Heap Sparse TopkModel RVec KnnModel KnnProofs WeightModel.
Import ListNotations.
Local Open Scope R_scope.

Lemma fdiv_some a b : b <> 0 -> fdiv a b = Some (a / b).
Proof. intros. unfold fdiv. destruct (Req_EM_T b 0); auto; lra. Qed.
Lemma fdiv_none a : fdiv a 0 = None.
Proof. unfold fdiv. destruct (Req_EM_T 0 0); auto; lra. Qed.
Lemma fsqrt_some a : 0 <= a -> fsqrt a = Some (sqrt a).
Proof. intros. unfold fsqrt. destruct (Rlt_dec a 0); auto; lra. Qed.

Lemma rsum_pos_in l x : (forall y, In y l -> 0 <= y) -> In x l -> 0 < x -> 0 < rsum l.
Proof.
  induction l as [|y l IH]; simpl; intros P Hx X; [tauto|].
  assert (0 <= y) by (apply P; auto). assert (0 <= rsum l) by (apply rsum_nonneg; intros; apply P; auto).
  destruct Hx as [->|Hx]; [lra|]. assert (0 < rsum l) by (apply IH; auto). lra.
Qed.

Lemma sequence_map {A B} (f : A -> option B) (g : A -> B) l :
  (forall a, In a l -> f a = Some (g a)) -> sequence (map f l) = Some (map g l).
Proof.
  induction l as [|a l IH]; simpl; intros E; auto. rewrite E, IH; auto.
Qed.
Lemma combine_map_pair {A B C} (f : A -> B) (g : A -> C) l :
  combine (map f l) (map g l) = map (fun a => (f a, g a)) l.
Proof. induction l; simpl; congruence. Qed.
Lemma finite_some {A} (X : coo A) (f : nat * nat * A -> option R) g :
  (forall e, In e (o_entries X) -> f e = Some (g e)) ->
  finite (set_data f X) = Some (set_data g X).
Proof.
  intros E. unfold finite, set_data. cbn [o_entries o_rows o_cols]. rewrite map_map.
  rewrite (sequence_map (fun e => eval_ (erow e, ecol e, f e)) g).
  - rewrite map_map. rewrite (combine_map_pair (fun e => fst (erow e, ecol e, f e)) g). reflexivity.
  - intros. simpl. auto.
Qed.

(** Dense value of a coo matrix: duplicates add up. *)
Definition at_ {T} (r c : nat) (e : nat * nat * T) : bool := ((erow e =? r) && (ecol e =? c))%nat.
Definition coo_dense (E : list (nat * nat * R)) (r c : nat) : R := rsum (map eval_ (filter (at_ r c) E)).

(** [dense] of a row list. *)
Definition row_dense (row : list (nat * R)) (i : nat) : R := rsum (map snd (filter (fun p => fst p =? i)%nat row)).

Lemma row_dense_flat f l i :
  row_dense (flat_map f l) i = rsum (map (fun c : nat => row_dense (f c) i) l).
Proof.
  unfold row_dense. rewrite filter_flat_map, map_flat_map. induction l; simpl; auto.
  rewrite rsum_app. congruence.
Qed.

Lemma rsum_single (f : nat -> R) i n s : (s <= i < s + n)%nat ->
  (forall c, c <> i -> f c = 0) -> rsum (map f (seq s n)) = f i.
Proof.
  revert s; induction n; intros s L Z0; [lia|]. simpl.
  destruct (Nat.eq_dec s i) as [->|NE].
  - rewrite rsum_zero; [lra|]. intros x Hx. apply in_map_iff in Hx. destruct Hx as [c [<- Hc]].
    apply in_seq in Hc. apply Z0. lia.
  - rewrite Z0 by auto. rewrite IHn by (lia || auto). lra.
Qed.

Lemma coo_row_dense cols (E : list (nat * nat * R)) r i : (i < cols)%nat ->
  row_dense (coo_row cols E r) i = coo_dense E r i.
Proof.
  intros Hi. unfold coo_row. rewrite row_dense_flat.
  rewrite (rsum_single (fun c => row_dense _ i) i cols 0); [|lia|].
  - unfold coo_dense, at_, erow, ecol, eval_.
    destruct (map snd (filter (fun e => ((fst (fst e) =? r) && (snd (fst e) =? i))%nat) E)) as [|v vs]; [reflexivity|].
    unfold row_dense. cbn [filter map fst snd]. rewrite Nat.eqb_refl. cbn [map rsum snd]. rewrite fold_left_rsum. lra.
  - intros c NE. destruct (map snd _) as [|v vs]; [reflexivity|]. unfold row_dense. cbn [filter fst].
    rewrite (proj2 (Nat.eqb_neq c i)) by auto. reflexivity.
Qed.

Lemma coo_row_in cols (E : list (nat * nat * R)) r i :
  In i (map fst (coo_row cols E r)) <-> (i < cols)%nat /\ exists v, In (r, i, v) E.
Proof.
  unfold coo_row. rewrite map_flat_map, in_flat_map. split.
  - intros [c [Hc Hi]]. apply in_seq in Hc.
    destruct (map snd _) as [|v vs] eqn:Ev; [destruct Hi|]. destruct Hi as [<-|[]]. cbn [fst]. split; [lia|].
    assert (X : In v (map snd (filter (fun e => ((fst (fst e) =? r) && (snd (fst e) =? c))%nat) E))) by (rewrite Ev; left; auto).
    apply in_map_iff in X. destruct X as [[[r' c'] v'] [<- X]]. apply filter_In in X. destruct X as [X B].
    simpl in *. apply andb_true_iff in B. rewrite !Nat.eqb_eq in B. destruct B; subst. eauto.
  - intros [Hi [v Hv]]. exists i. split; [apply in_seq; lia|].
    destruct (map snd _) as [|w vs] eqn:Ev; [|left; auto]. exfalso.
    assert (X : In v (map snd (filter (fun e => ((fst (fst e) =? r) && (snd (fst e) =? i))%nat) E))).
    { apply in_map_iff. exists (r, i, v). split; auto. apply filter_In. split; auto. simpl. rewrite !Nat.eqb_refl. auto. }
    rewrite Ev in X. destruct X.
Qed.

Lemma coo_to_csr_row rows cols (E : list (nat * nat * R)) r : (r < rows)%nat ->
  csr_row (coo_to_csr rows cols E) r = coo_row cols E r.
Proof.
  intros Hr. unfold coo_to_csr. rewrite csr_row_of_rows.
  rewrite (nth_indep _ [] (coo_row cols E 0)) by (rewrite map_length, seq_length; auto).
  rewrite map_nth, seq_nth by auto. auto.
Qed.

Lemma coo_to_csr_wf rows cols (E : list (nat * nat * R)) : csr_wf (coo_to_csr rows cols E).
Proof.
  apply csr_of_rows_wf. intros r p Hr Hp. apply in_map_iff in Hr. destruct Hr as [x [<- _]].
  assert (X : In (fst p) (map fst (coo_row cols E x))) by (apply in_map; auto).
  apply coo_row_in in X. tauto.
Qed.

(** Entries of a csr matrix as coo. *)
Lemma in_coo_of_csr {T} (m : csr T) u i v : In (u, i, v) (o_entries (coo_of_csr m)) <-> (u < c_rows m)%nat /\ In (i, v) (csr_row m u).
Proof.
  unfold coo_of_csr. cbn [o_entries]. rewrite in_flat_map. split.
  - intros [u' [Hu H]]. apply in_seq in Hu. apply in_map_iff in H. destruct H as [[i' v'] [E H]]. simpl in E.
    inversion E; subst. split; [lia|auto].
  - intros [Hu H]. exists u. split; [apply in_seq; lia|]. apply in_map_iff. exists (i, v). auto.
Qed.

Lemma coo_of_csr_filter (m : csr R) (w : R -> R) u i : (u < c_rows m)%nat ->
  rsum (map (fun e => w (eval_ e)) (filter (at_ u i) (o_entries (coo_of_csr m)))) =
  rsum (map (fun p => w (snd p)) (filter (fun p => fst p =? i)%nat (csr_row m u))).
Proof.
  intros Hu. unfold coo_of_csr. cbn [o_entries]. rewrite filter_flat_map, map_flat_map.
  assert (G : forall s n, (s <= u < s + n)%nat ->
     rsum (flat_map (fun a => map (fun e => w (eval_ e)) (filter (at_ u i) (map (fun p => (a, fst p, snd p)) (csr_row m a)))) (seq s n)) =
     rsum (map (fun p => w (snd p)) (filter (fun p => fst p =? i)%nat (csr_row m u)))).
  { intros s n L.
    assert (F : forall a, a <> u -> filter (at_ u i) (map (fun p => (a, fst p, snd p)) (csr_row m a)) = []).
    { intros a NE. apply filter_none. intros e He. apply in_map_iff in He. destruct He as [p [<- _]].
      unfold at_, erow. simpl. rewrite (proj2 (Nat.eqb_neq a u)) by auto. auto. }
    assert (SAME : map (fun e => w (eval_ e)) (filter (at_ u i) (map (fun p => (u, fst p, snd p)) (csr_row m u)))
       = map (fun p => w (snd p)) (filter (fun p => fst p =? i)%nat (csr_row m u))).
    { induction (csr_row m u) as [|p l IH]; auto. cbn [map filter]. unfold at_ at 1. cbn [erow ecol fst snd].
      rewrite Nat.eqb_refl. simpl. destruct (fst p =? i)%nat; cbn [map]; rewrite IH; auto. }
    revert s L. induction n; intros s L; [lia|]. simpl. rewrite rsum_app.
    destruct (Nat.eq_dec s u) as [->|NE].
    - rewrite SAME. rewrite (flat_map_ext_in _ (fun _ => [])), flat_map_nil; [simpl; lra|].
      intros a Ha. apply in_seq in Ha. rewrite F by lia. auto.
    - rewrite F by auto. simpl. rewrite IHn by lia. lra. }
  apply G. lia.
Qed.

Lemma swap_filter {T} (P : nat * nat * T -> bool) (E : list (nat * nat * T)) :
  filter P (map (fun e => (ecol e, erow e, eval_ e)) E) =
  map (fun e => (ecol e, erow e, eval_ e)) (filter (fun e => P (ecol e, erow e, eval_ e)) E).
Proof. induction E as [|e E IH]; auto. cbn [map filter]. rewrite IH. destruct (P _); auto. Qed.

(** Sum over all entries of a column = sum over users. *)
Lemma coo_of_csr_col (m : csr R) (w : R -> R) i :
  rsum (map (fun e => w (eval_ e)) (filter (fun e => ecol e =? i)%nat (o_entries (coo_of_csr m)))) =
  rsum (map (fun u => rsum (map (fun p => w (snd p)) (filter (fun p => fst p =? i)%nat (csr_row m u)))) (seq 0 (c_rows m))).
Proof.
  unfold coo_of_csr. cbn [o_entries]. rewrite filter_flat_map, map_flat_map. 
  induction (seq 0 (c_rows m)) as [|u l IH]; auto. cbn [flat_map map rsum]. rewrite rsum_app, IH. f_equal.
  clear. induction (csr_row m u) as [|p l IH]; auto. cbn [map filter]. unfold ecol at 1. cbn [fst snd].
  destruct (fst p =? i)%nat; cbn [map rsum]; rewrite IH; auto.
Qed.

Lemma rdot_map {A} (f g : A -> R) l : rdot (map f l) (map g l) = rsum (map (fun a => f a * g a) l).
Proof. induction l; simpl; auto. rewrite IHl. auto. Qed.

(** Without repeated items, a row holds at most one entry per item. *)
Lemma nodup_filter_fst {T} (row : list (nat * T)) i : NoDup (map fst row) ->
  filter (fun p => fst p =? i)%nat row = [] \/ exists v, filter (fun p => fst p =? i)%nat row = [(i, v)].
Proof.
  induction row as [|[j v] row IH]; simpl; intros ND; auto. inversion ND as [|? ? NI ND']; subst.
  destruct (Nat.eqb_spec j i) as [->|NE]; [|apply IH; auto]. right. exists v.
  rewrite filter_none; auto. intros [j w] Hp. apply Nat.eqb_neq. simpl. intros E. subst j. apply NI.
  apply in_map_iff. exists (i, w). auto.
Qed.
