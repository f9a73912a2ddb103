(** The C++ heap algorithms used by implicit/nearest_neighbours.h:20-33 and
    implicit/cpu/select.h:23-33, as an arbitrary implementation of the contract
    in the C++ standard ([alg.heap.operations], [sort.heap]). *)
From Coq Require Import List Arith Lia Bool Permutation Sorted.
From Verif Require Import Base.
Import ListNotations.

(** [comp] is a strict weak order (requirement Compare of the C++ standard). *)
Record swo {A} (comp : A -> A -> bool) : Prop := {
  swo_irrefl : forall a, comp a a = false;
  swo_trans : forall a b c, comp a b = true -> comp b c = true -> comp a c = true;
  swo_cotrans : forall a b c, comp a c = true -> comp a b = true \/ comp b c = true
}.

(** The three library functions; each takes the comparison and the range. *)
Record std_heap : Type := {
  push_heap : forall A, (A -> A -> bool) -> list A -> list A;
  pop_heap : forall A, (A -> A -> bool) -> list A -> list A;
  sort_heap : forall A, (A -> A -> bool) -> list A -> list A
}.
Arguments push_heap _ {A} _ _.
Arguments pop_heap _ {A} _ _.
Arguments sort_heap _ {A} _ _.

(** "heap with respect to comp": no element is [comp]-below one of its children. *)
Definition is_heap {A} (comp : A -> A -> bool) (l : list A) : Prop :=
  forall i d, 0 < i < length l -> comp (nth ((i - 1) / 2) l d) (nth i l d) = false.

(** Contract of the C++ standard. *)
Definition std_heap_ok (H : std_heap) : Prop :=
  forall A (comp : A -> A -> bool), swo comp ->
    (forall l x, is_heap comp l ->
       Permutation (push_heap H comp (l ++ [x])) (l ++ [x]) /\
       is_heap comp (push_heap H comp (l ++ [x]))) /\
    (forall a l, is_heap comp (a :: l) ->
       exists r, pop_heap H comp (a :: l) = r ++ [a] /\ Permutation r l /\ is_heap comp r) /\
    (forall l, is_heap comp l ->
       Permutation (sort_heap H comp l) l /\
       StronglySorted (fun x y => comp y x = false) (sort_heap H comp l)).

Section Facts.
Context {A : Type} (comp : A -> A -> bool) (SW : swo comp).

Lemma swo_asym a b : comp a b = true -> comp b a = false.
Proof.
  intros. destruct (comp b a) eqn:E; auto.
  pose proof (swo_trans _ SW _ _ _ H E). rewrite (swo_irrefl _ SW) in H0. discriminate.
Qed.

Lemma swo_negtrans a b c : comp a b = false -> comp b c = false -> comp a c = false.
Proof.
  intros. destruct (comp a c) eqn:E; auto. destruct (swo_cotrans _ SW a b c E); congruence.
Qed.

(** The first element of a heap is a [comp]-maximum. *)
Lemma is_heap_top a l x : is_heap comp (a :: l) -> In x (a :: l) -> comp a x = false.
Proof.
  intros Hh Hin. destruct (In_nth _ _ a Hin) as [i [Hi E]]. subst x. clear Hin.
  induction i as [i IH] using lt_wf_ind. destruct (Nat.eq_dec i 0) as [->|N].
  - apply (swo_irrefl _ SW).
  - eapply swo_negtrans; [|apply (Hh i a); lia].
    assert ((i - 1) / 2 <= (i - 1)) by (apply Nat.div_le_upper_bound; lia).
    apply IH; lia.
Qed.

Lemma is_heap_nil : is_heap comp [].
Proof. intros i d H; simpl in H; lia. Qed.

Lemma is_heap_single a : is_heap comp [a].
Proof. intros i d H; simpl in H; lia. Qed.

Lemma ssorted_nth (R : A -> A -> Prop) l d i j :
  StronglySorted R l -> i < j -> j < length l -> R (nth i l d) (nth j l d).
Proof.
  intros S. revert i j. induction S; simpl; intros; [lia|].
  destruct i, j; simpl; try lia.
  - rewrite Forall_forall in H. apply H. apply nth_In. lia.
  - apply IHS; lia.
Qed.

Lemma sorted_is_heap l : StronglySorted (fun x y => comp x y = false) l -> is_heap comp l.
Proof.
  intros S i d Hi.
  assert ((i - 1) / 2 <= (i - 1)) by (apply Nat.div_le_upper_bound; lia).
  apply (ssorted_nth (fun x y => comp x y = false)); auto; lia.
Qed.
End Facts.

(* ------------------------------------------------------------------ *)
(** A simple implementation by insertion sort, used to run the model.  (A sorted
    range is a heap.) *)
Fixpoint insert_by {A} (comp : A -> A -> bool) (x : A) (l : list A) : list A :=
  match l with
  | [] => [x]
  | y :: l' => if comp x y then y :: insert_by comp x l' else x :: l
  end.
Definition sort_by {A} (comp : A -> A -> bool) (l : list A) : list A :=
  fold_right (insert_by comp) [] l.

Definition simple_heap : std_heap := {|
  push_heap := fun A comp l => sort_by comp l;
  pop_heap := fun A comp l => match l with [] => [] | a :: r => sort_by comp r ++ [a] end;
  sort_heap := fun A comp l => sort_by (fun x y => comp y x) l
|}.

Section Sort.
Context {A : Type} (comp : A -> A -> bool) (SW : swo comp).

Lemma insert_by_perm x l : Permutation (insert_by comp x l) (x :: l).
Proof.
  induction l; simpl; auto. destruct (comp x a); auto.
  rewrite IHl. apply perm_swap.
Qed.

Lemma sort_by_perm l : Permutation (sort_by comp l) l.
Proof. induction l; simpl; auto. rewrite insert_by_perm. auto. Qed.

Lemma insert_by_sorted x l :
  StronglySorted (fun x y => comp x y = false) l ->
  StronglySorted (fun x y => comp x y = false) (insert_by comp x l).
Proof.
  induction 1 as [|a l HS IH HF]; simpl. { repeat constructor. }
  destruct (comp x a) eqn:E.
  - constructor; auto. rewrite Forall_forall in *. intros y Hy.
    apply (Permutation_in _ (insert_by_perm x l)) in Hy. destruct Hy as [<-|Hy]; auto.
    apply (swo_asym comp SW); auto.
  - constructor; [constructor; auto|]. rewrite Forall_forall in *. intros y [<-|Hy]; auto.
    apply (swo_negtrans comp SW x a y); auto.
Qed.

Lemma sort_by_sorted l : StronglySorted (fun x y => comp x y = false) (sort_by comp l).
Proof. induction l; simpl. { constructor. } apply insert_by_sorted; auto. Qed.
End Sort.

Lemma swo_flip {A} (comp : A -> A -> bool) : swo comp -> swo (fun x y => comp y x).
Proof.
  intros [I T C]. constructor; auto.
  - intros; eauto.
  - intros a b c H. destruct (C c b a H); auto.
Qed.

Lemma simple_heap_ok : std_heap_ok simple_heap.
Proof.
  intros A comp SW. split; [|split]; simpl.
  - intros l x _. split; [apply sort_by_perm|]. apply (sorted_is_heap comp).
    apply sort_by_sorted; auto.
  - intros a l _. exists (sort_by comp l). split; auto. split; [apply sort_by_perm|].
    apply (sorted_is_heap comp). apply sort_by_sorted; auto.
  - intros l _. split; [apply sort_by_perm|].
    apply (sort_by_sorted (fun x y => comp y x) (swo_flip _ SW)).
Qed.

(** A strict total order on the elements of a duplicate-free list makes the
    sorted arrangement unique. *)
Lemma sorted_perm_unique {A} (R : A -> A -> Prop) :
  (forall x y, R x y -> R y x -> x = y) ->
  forall l l', StronglySorted R l -> StronglySorted R l' -> Permutation l l' -> l = l'.
Proof.
  intros AS l. induction l as [|a l IH]; intros l' S S' P.
  - apply Permutation_nil in P. auto.
  - destruct l' as [|b l'].
    { apply Permutation_sym, Permutation_nil in P. discriminate. }
    inversion S as [|? ? S1 F1]; subst. inversion S' as [|? ? S2 F2]; subst.
    assert (a = b).
    { assert (Ha : In a (b :: l')) by (eapply Permutation_in; [exact P|left; auto]).
      assert (Hb : In b (a :: l)) by (eapply Permutation_in; [symmetry; exact P|left; auto]).
      destruct Ha as [|Ha]; auto. destruct Hb as [|Hb]; auto.
      rewrite Forall_forall in *. apply AS; auto. }
    subst. f_equal. apply IH; auto. eapply Permutation_cons_inv; eauto.
Qed.
