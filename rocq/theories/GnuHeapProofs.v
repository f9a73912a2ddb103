(** libstdc++'s heap satisfies the contract, and reads the comparison only on
    elements of the range. *)
From Coq Require Import List Arith Lia Bool Permutation Sorted.
From Verif Require Import Base Heap GnuHeap.
Import ListNotations.

Lemma div2_parent i : 0 < i -> (i - 1) / 2 < i.
Proof. intros. apply Nat.div_lt_upper_bound; lia. Qed.
Lemma parent_cases h i : 0 < i -> (i - 1) / 2 = h <-> i = 2 * h + 1 \/ i = 2 * h + 2.
Proof.
  intros Hi. split.
  - intros <-. pose proof (Nat.div_mod (i - 1) 2 ltac:(lia)). pose proof (Nat.mod_upper_bound (i - 1) 2 ltac:(lia)). lia.
  - intros [->| ->].
    + replace (2 * h + 1 - 1) with (h * 2) by lia. apply Nat.div_mul; lia.
    + replace (2 * h + 2 - 1) with (1 + h * 2) by lia. rewrite Nat.div_add by lia. auto.
Qed.
Lemma upd_cons_perm {A} (x d : A) l : forall i, i < length l -> Permutation (nth i l d :: upd i x l) (x :: l).
Proof.
  induction l as [|a l IH]; intros [|i] Hi; simpl in *; try lia.
  - apply perm_swap.
  - rewrite perm_swap. rewrite IH by lia. apply perm_swap.
Qed.
Lemma upd_move_perm {A} (v d : A) l h p : h < length l -> p < length l -> p <> h ->
  Permutation (upd p v (upd h (nth p l d) l)) (upd h v l).
Proof.
  intros Hh Hp N.
  pose proof (upd_cons_perm v d (upd h (nth p l d) l) p ltac:(rewrite upd_length; auto)) as P1. rewrite nth_upd_neq in P1 by auto.
  pose proof (upd_cons_perm (nth p l d) d l h Hh) as P2. pose proof (upd_cons_perm v d l h Hh) as P3.
  apply (Permutation_cons_inv (a := nth p l d)). apply (Permutation_cons_inv (a := nth h l d)).
  transitivity (nth h l d :: v :: upd h (nth p l d) l); [constructor; exact P1|].
  transitivity (v :: nth h l d :: upd h (nth p l d) l); [constructor|].
  transitivity (v :: nth p l d :: l); [constructor; exact P2|].
  transitivity (nth p l d :: v :: l); [constructor|].
  transitivity (nth p l d :: nth h l d :: upd h v l); [constructor; symmetry; exact P3|constructor].
Qed.

Section Correct.
Context {A : Type} (comp : A -> A -> bool) (SW : swo comp).

(** The heap condition, except at the hole. *)
Definition hole_ok (h : nat) (l : list A) (d : A) : Prop :=
  forall i, 0 < i < length l -> i <> h -> (i - 1) / 2 <> h -> comp (nth ((i - 1) / 2) l d) (nth i l d) = false.
(** The parent of the hole is not below the children of the hole. *)
Definition over_ok (h : nat) (l : list A) (d : A) : Prop :=
  0 < h -> forall c, 0 < c < length l -> (c - 1) / 2 = h -> comp (nth ((h - 1) / 2) l d) (nth c l d) = false.

Lemma sift_up_ok : forall fuel h v l, h < length l -> h <= fuel -> hole_ok h l v -> over_ok h l v ->
  (forall c, 0 < c < length l -> (c - 1) / 2 = h -> comp v (nth c l v) = false) ->
  Permutation (sift_up comp fuel h v l) (upd h v l) /\ is_heap comp (sift_up comp fuel h v l).
Proof.
  assert (STOP : forall h v l, h < length l -> hole_ok h l v ->
    (forall c, 0 < c < length l -> (c - 1) / 2 = h -> comp v (nth c l v) = false) ->
    (0 < h -> comp (nth ((h - 1) / 2) l v) v = false) -> is_heap comp (upd h v l)).
  { intros h v l Hh HO CH TOP i d Hi. rewrite upd_length in Hi.
    rewrite !(nth_indep (upd h v l) d v) by (rewrite upd_length; pose proof (div2_parent i ltac:(lia)); lia).
    destruct (Nat.eq_dec i h) as [->|N].
    - rewrite nth_upd_eq by auto. rewrite nth_upd_neq by (pose proof (div2_parent h ltac:(lia)); lia). apply TOP; lia.
    - rewrite (nth_upd_neq h i) by auto. destruct (Nat.eq_dec ((i - 1) / 2) h) as [E|NE].
      + rewrite E, nth_upd_eq by auto. apply CH; auto.
      + rewrite nth_upd_neq by auto. apply HO; auto. }
  induction fuel as [|fuel IH]; intros h v l Hh Hf HO OV CH; cbn [sift_up].
  - split; [reflexivity|]. apply STOP; auto. lia.
  - destruct (Nat.ltb_spec 0 h) as [P|P]; cbn [andb]; [|split; [reflexivity|apply STOP; auto; lia]].
    pose proof (div2_parent h P) as LP. set (p := (h - 1) / 2) in *.
    destruct (comp (nth p l v) v) eqn:E; [|split; [reflexivity|apply STOP; auto]].
    assert (SIB : forall c, 0 < c < length l -> (c - 1) / 2 = p -> c <> h -> comp (nth p l v) (nth c l v) = false).
    { intros c Hc Ec Nc. rewrite <- Ec. apply HO; auto. lia. }
    destruct (IH p v (upd h (nth p l v) l)) as [P1 P2].
    + rewrite upd_length. lia.
    + lia.
    + intros i Hi Ni Npi. rewrite upd_length in Hi. destruct (Nat.eq_dec i h) as [->|N]; [fold p in Npi; lia|].
      rewrite (nth_upd_neq h i) by auto. destruct (Nat.eq_dec ((i - 1) / 2) h) as [Eh|Nh].
      * rewrite Eh, nth_upd_eq by auto. apply (OV P i); auto.
      * rewrite nth_upd_neq by auto. apply HO; auto.
    + intros Hp c Hc Ec. rewrite upd_length in Hc. pose proof (div2_parent p Hp) as LPP.
      rewrite (nth_upd_neq h ((p - 1) / 2)) by lia.
      assert (PP : comp (nth ((p - 1) / 2) l v) (nth p l v) = false) by (apply HO; lia).
      destruct (Nat.eq_dec c h) as [->|N]; [rewrite nth_upd_eq by auto; auto|]. rewrite nth_upd_neq by auto.
      eapply swo_negtrans; [exact SW|exact PP|]. apply SIB; auto.
    + intros c Hc Ec. rewrite upd_length in Hc. destruct (Nat.eq_dec c h) as [->|N].
      * rewrite nth_upd_eq by auto. apply (swo_asym comp SW); auto.
      * rewrite nth_upd_neq by auto. eapply swo_negtrans; [exact SW|apply (swo_asym comp SW); exact E|]. apply SIB; auto.
    + split; auto. rewrite P1. apply upd_move_perm; auto; lia.
Qed.

Lemma even_last len h : 1 <= len -> h < len -> ~ h < (len - 1) / 2 ->
  (Nat.even len && (h =? (len - 2) / 2) = true -> 2 <= len /\ 2 * (h + 1) - 1 = len - 1) /\
  (Nat.even len && (h =? (len - 2) / 2) = false -> (len = 1 /\ h = 0) \/ len <= 2 * h + 1).
Proof.
  intros L Hh G.
  pose proof (Nat.div_mod (len - 1) 2 ltac:(lia)) as D1. pose proof (Nat.mod_upper_bound (len - 1) 2 ltac:(lia)) as M1.
  pose proof (Nat.div_mod (len - 2) 2 ltac:(lia)) as D2. pose proof (Nat.mod_upper_bound (len - 2) 2 ltac:(lia)) as M2.
  destruct (Nat.even len) eqn:EV; cbn [andb].
  - apply Nat.even_spec in EV. destruct EV as [m ->]. destruct (Nat.eqb_spec h ((2 * m - 2) / 2)) as [E|E]; split; intros X; try discriminate.
    + assert (m >= 1) by lia. assert ((2 * m - 2) / 2 = m - 1) by (replace (2 * m - 2) with ((m - 1) * 2) by lia; apply Nat.div_mul; lia). lia.
    + right. assert ((2 * m - 2) / 2 = m - 1) by (replace (2 * m - 2) with ((m - 1) * 2) by lia; apply Nat.div_mul; lia). lia.
  - split; intros X; try discriminate. rewrite <- Nat.negb_odd in EV. apply negb_false_iff, Nat.odd_spec in EV. destruct EV as [m ->].
    right. assert ((2 * m + 1 - 1) / 2 = m) by (replace (2 * m + 1 - 1) with (m * 2) by lia; apply Nat.div_mul; lia). lia.
Qed.

Lemma sift_down_ok : forall fuel h v l, h < length l -> length l <= fuel + h -> hole_ok h l v -> over_ok h l v ->
  let r := sift_down comp fuel h (length l) v l in
  fst r < length l /\ length (snd r) = length l /\ hole_ok (fst r) (snd r) v /\
  (forall c, 0 < c < length l -> (c - 1) / 2 = fst r -> False) /\
  Permutation (upd (fst r) v (snd r)) (upd h v l).
Proof.
  induction fuel as [|fuel IH]; intros h v l Hh Hf HO OV; [lia|]. cbn [sift_down].
  (* one move of the hole from h to a child c *)
  assert (MOVE : forall c, c < length l -> 0 < c -> (c - 1) / 2 = h ->
     (forall s, 0 < s < length l -> (s - 1) / 2 = h -> s <> c -> comp (nth c l v) (nth s l v) = false) ->
     hole_ok c (upd h (nth c l v) l) v /\ over_ok c (upd h (nth c l v) l) v /\ h < c /\
     Permutation (upd c v (upd h (nth c l v) l)) (upd h v l)).
  { intros c Hc Hc0 Ec SB. assert (Lc : h < c) by (rewrite <- Ec; apply div2_parent; auto). split; [|split; [|split]]; auto.
    - intros i Hi Ni Npi. rewrite upd_length in Hi. destruct (Nat.eq_dec i h) as [->|N].
      + rewrite nth_upd_eq by auto. rewrite nth_upd_neq by (pose proof (div2_parent h ltac:(lia)); lia). apply OV; lia.
      + rewrite (nth_upd_neq h i) by auto. destruct (Nat.eq_dec ((i - 1) / 2) h) as [E|NE].
        * rewrite E, nth_upd_eq by auto. apply SB; auto.
        * rewrite nth_upd_neq by auto. apply HO; auto.
    - intros _ i Hi Ei. rewrite upd_length in Hi. rewrite Ec, nth_upd_eq by auto.
      pose proof (div2_parent i ltac:(lia)). rewrite nth_upd_neq by lia. rewrite <- Ei. apply HO; try lia.
    - apply upd_move_perm; auto. lia. }
  destruct (Nat.ltb_spec h ((length l - 1) / 2)) as [G|G].
  - assert (B : 2 * h + 2 < length l).
    { pose proof (Nat.div_mod (length l - 1) 2 ltac:(lia)). lia. }
    set (c := if comp (nth (2 * (h + 1)) l v) (nth (2 * (h + 1) - 1) l v) then 2 * (h + 1) - 1 else 2 * (h + 1)).
    assert (Cc : c = 2 * h + 1 \/ c = 2 * h + 2) by (unfold c; destruct (comp _ _); lia).
    destruct (MOVE c) as (M1 & M2 & M3 & M4).
    + lia.
    + lia.
    + apply parent_cases; lia.
    + intros s Hs Es Ns. apply parent_cases in Es; [|lia]. unfold c in *.
      replace (2 * (h + 1)) with (2 * h + 2) in * by lia. replace (2 * h + 2 - 1) with (2 * h + 1) in * by lia.
      destruct (comp (nth (2 * h + 2) l v) (nth (2 * h + 1) l v)) eqn:E.
      * replace s with (2 * h + 2) by lia. apply (swo_asym comp SW); auto.
      * replace s with (2 * h + 1) by lia. auto.
    + destruct (IH c v (upd h (nth c l v) l)) as (I1 & I2 & I3 & I4 & I5); rewrite ?upd_length; auto; try lia.
      rewrite upd_length in *. repeat split; auto. rewrite I5. auto.
  - destruct (even_last (length l) h ltac:(lia) Hh ltac:(lia)) as [EL1 EL2].
    destruct (Nat.even (length l) && (h =? (length l - 2) / 2)) eqn:E; cbn [fst snd].
    + destruct (EL1 eq_refl) as [L2 E2]. rewrite E2 in *.
      destruct (MOVE (length l - 1)) as (M1 & M2 & M3 & M4); try lia.
      * apply parent_cases; lia.
      * intros s Hs Es Ns. apply parent_cases in Es; lia.
      * rewrite upd_length. repeat split; auto; try lia. intros c Hc Ec. apply parent_cases in Ec; lia.
    + repeat split; auto; try lia. intros c Hc Ec. apply parent_cases in Ec; [|lia]. specialize (EL2 eq_refl). lia.
Qed.

Lemma adjust_ok a v l : is_heap comp (a :: l) ->
  Permutation (adjust_heap comp v (a :: l)) (v :: l) /\ is_heap comp (adjust_heap comp v (a :: l)).
Proof.
  intros HH. unfold adjust_heap. 
  destruct (sift_down_ok (length (a :: l)) 0 v (a :: l)) as (I1 & I2 & I3 & I4 & I5).
  - simpl; lia.
  - lia.
  - intros i Hi Ni Npi. apply HH; auto.
  - intros H. lia.
  - set (r := sift_down comp (length (a :: l)) 0 (length (a :: l)) v (a :: l)) in *.
    destruct (sift_up_ok (fst r) (fst r) v (snd r)) as [P1 P2]; auto; try lia.
    + intros _ c Hc Ec. rewrite I2 in Hc. destruct (I4 c Hc Ec).
    + intros c Hc Ec. rewrite I2 in Hc. destruct (I4 c Hc Ec).
    + split; auto. rewrite P1, I5. reflexivity.
Qed.

Lemma push_ok l x : is_heap comp l -> Permutation (gnu_push comp (l ++ [x])) (l ++ [x]) /\ is_heap comp (gnu_push comp (l ++ [x])).
Proof.
  intros HH. unfold gnu_push. rewrite rev_app_distr. cbn [rev app]. rewrite app_length. cbn [length].
  replace (length l + 1 - 1) with (length l) by lia.
  assert (U : upd (length l) x (l ++ [x]) = l ++ [x]) by (clear HH; induction l; simpl; f_equal; auto).
  destruct (sift_up_ok (length l) (length l) x (l ++ [x])) as [P1 P2]; auto.
  - rewrite app_length; simpl; lia.
  - intros i Hi Ni Npi. rewrite app_length in Hi. simpl in Hi. pose proof (div2_parent i ltac:(lia)). rewrite !app_nth1 by lia. apply HH; lia.
  - intros Hp c Hc Ec. rewrite app_length in Hc. simpl in Hc. apply parent_cases in Ec; lia.
  - intros c Hc Ec. rewrite app_length in Hc. simpl in Hc. apply parent_cases in Ec; lia.
  - rewrite U in P1. auto.
Qed.

Lemma heap_prefix l m : is_heap comp (l ++ m) -> is_heap comp l.
Proof.
  intros HH i d Hi. pose proof (div2_parent i ltac:(lia)). specialize (HH i d). rewrite app_length, !app_nth1 in HH by lia. apply HH; lia.
Qed.

Lemma pop_ok a l : is_heap comp (a :: l) -> exists r, gnu_pop comp (a :: l) = r ++ [a] /\ Permutation r l /\ is_heap comp r.
Proof.
  intros HH. destruct (rev l) as [|v m] eqn:E.
  - assert (l = []) by (rewrite <- (rev_involutive l), E; auto). subst l. exists []. simpl. repeat split; auto using is_heap_nil.
  - assert (EL : l = rev m ++ [v]) by (rewrite <- (rev_involutive l), E; auto). subst l.
    exists (adjust_heap comp v (a :: rev m)).
    assert (EG : gnu_pop comp (a :: rev m ++ [v]) = adjust_heap comp v (a :: rev m) ++ [a]).
    { unfold gnu_pop. destruct (rev m ++ [v]) eqn:Q; [destruct (rev m); discriminate|]. rewrite <- Q.
      replace (rev (a :: rev m ++ [v])) with (v :: rev (a :: rev m)) by (cbn [rev]; rewrite rev_app_distr; reflexivity).
      change (a :: rev m ++ [v]) with ((a :: rev m) ++ [v]). rewrite removelast_last. auto. }
    split; auto. change (a :: rev m ++ [v]) with ((a :: rev m) ++ [v]) in HH. apply heap_prefix in HH.
    destruct (adjust_ok a v (rev m) HH) as [P1 P2]. split; auto. rewrite P1. apply Permutation_cons_append.
Qed.

Lemma sort_loop_ok : forall n h s, length h = n -> is_heap comp h -> StronglySorted (fun x y => comp y x = false) s ->
  (forall x y, In x h -> In y s -> comp y x = false) ->
  Permutation (gnu_sort comp n (h ++ s)) (h ++ s) /\ StronglySorted (fun x y => comp y x = false) (gnu_sort comp n (h ++ s)).
Proof.
  induction n as [|n IH]; intros h s L HH SS DOM.
  - destruct h; [|discriminate]. simpl. auto.
  - cbn [gnu_sort]. rewrite <- L, firstn_app, firstn_all, skipn_app, skipn_all, Nat.sub_diag. cbn [firstn skipn app]. rewrite app_nil_r.
    destruct h as [|a h]; [discriminate|]. destruct (pop_ok a h HH) as (r & E & P & HR). rewrite E, <- app_assoc. cbn [app].
    assert (IN : forall x, In x r -> In x h) by (intros x Hx; eapply Permutation_in; eauto).
    destruct (IH r (a :: s)) as [P1 P2]; auto.
    + rewrite (Permutation_length P). simpl in L. lia.
    + constructor; auto. apply Forall_forall. intros y Hy. apply DOM; simpl; auto.
    + intros x y Hx [<-|Hy].
      * apply (is_heap_top comp SW a h x HH). right; auto.
      * apply DOM; auto. right; auto.
    + split; auto. rewrite P1, P. symmetry. apply Permutation_middle.
Qed.
End Correct.

Theorem gnu_heap_ok : std_heap_ok gnu_heap.
Proof.
  intros A comp SW. split; [|split].
  - intros l x. apply push_ok; auto.
  - intros a l. apply pop_ok; auto.
  - intros l HH. simpl. rewrite <- (app_nil_r l) at 2 3 5. apply sort_loop_ok; auto; [constructor|]. intros x y _ [].
Qed.
Print Assumptions gnu_heap_ok.

(** Any real implementation compares only elements of the range it was given. *)
Definition reads_range (H : std_heap) : Prop :=
  forall A (comp comp' : A -> A -> bool) l, (forall x y, In x l -> In y l -> comp x y = comp' x y) ->
    push_heap H comp l = push_heap H comp' l /\ pop_heap H comp l = pop_heap H comp' l /\ sort_heap H comp l = sort_heap H comp' l.

Section Reads.
Context {A : Type} (comp comp' : A -> A -> bool) (P : A -> Prop).
Hypothesis AG : forall x y, P x -> P y -> comp x y = comp' x y.

Lemma nth_P i l v : P v -> Forall P l -> P (nth i l v).
Proof. intros Hv Hl. destruct (nth_in_or_default i l v) as [Hi| ->]; auto. rewrite Forall_forall in Hl. auto. Qed.
Lemma upd_P i v l : P v -> Forall P l -> Forall P (upd i v l).
Proof. intros Hv Hl. revert i. induction Hl as [|a l Ha Hl IH]; intros [|i]; simpl; auto. Qed.
Lemma sift_up_reads : forall fuel h v l, P v -> Forall P l -> sift_up comp fuel h v l = sift_up comp' fuel h v l /\ Forall P (sift_up comp' fuel h v l).
Proof.
  induction fuel as [|fuel IH]; intros h v l Hv Hl; cbn [sift_up]; [split; [auto|apply upd_P; auto]|].
  rewrite AG by (auto; apply nth_P; auto).
  destruct ((0 <? h) && comp' (nth ((h - 1) / 2) l v) v); [|split; [auto|apply upd_P; auto]]. apply IH; auto. apply upd_P; auto. apply nth_P; auto.
Qed.
Lemma sift_down_reads : forall fuel h n v l, P v -> Forall P l -> sift_down comp fuel h n v l = sift_down comp' fuel h n v l /\ Forall P (snd (sift_down comp' fuel h n v l)).
Proof.
  induction fuel as [|fuel IH]; intros h n v l Hv Hl; cbn [sift_down]; [auto|].
  destruct (h <? (n - 1) / 2).
  - rewrite AG by (apply nth_P; auto). apply IH; auto. apply upd_P; auto. apply nth_P; auto.
  - destruct (Nat.even n && (h =? (n - 2) / 2)); cbn [snd]; split; auto. apply upd_P; auto. apply nth_P; auto.
Qed.
Lemma adjust_reads v l : P v -> Forall P l -> adjust_heap comp v l = adjust_heap comp' v l /\ Forall P (adjust_heap comp' v l).
Proof.
  intros Hv Hl. unfold adjust_heap. destruct (sift_down_reads (length l) 0 (length l) v l Hv Hl) as [E F]. rewrite E. apply sift_up_reads; auto.
Qed.
Lemma push_reads l : Forall P l -> gnu_push comp l = gnu_push comp' l.
Proof.
  intros Hl. unfold gnu_push. destruct (rev l) as [|v m] eqn:E; auto. apply sift_up_reads; auto.
  rewrite Forall_forall in Hl. apply Hl. apply in_rev. rewrite E. left; auto.
Qed.
Lemma pop_reads l : Forall P l -> gnu_pop comp l = gnu_pop comp' l /\ Forall P (gnu_pop comp' l).
Proof.
  intros Hl. unfold gnu_pop. destruct l as [|a [|b l]]; auto. destruct (rev (a :: b :: l)) as [|v m] eqn:E; auto.
  assert (Hv : P v). { rewrite Forall_forall in Hl. apply Hl. apply in_rev. rewrite E. left; auto. }
  assert (HR : Forall P (removelast (a :: b :: l))).
  { rewrite (app_removelast_last a (l := a :: b :: l)) in Hl by discriminate. apply Forall_app in Hl. tauto. }
  destruct (adjust_reads v (removelast (a :: b :: l)) Hv HR) as [E1 E2]. rewrite E1. split; auto. apply Forall_app. split; auto.
  inversion Hl; subst. constructor; auto.
Qed.
Lemma sort_reads : forall n l, Forall P l -> gnu_sort comp n l = gnu_sort comp' n l.
Proof.
  induction n as [|n IH]; intros l Hl; cbn [gnu_sort]; auto. rewrite <- (firstn_skipn (S n) l) in Hl. apply Forall_app in Hl. destruct Hl as [H1 H2].
  destruct (pop_reads _ H1) as [E F]. rewrite E. apply IH. apply Forall_app. auto.
Qed.
End Reads.

Theorem gnu_heap_reads : reads_range gnu_heap.
Proof.
  intros A comp comp' l AG. assert (F : Forall (fun x => In x l) l) by (apply Forall_forall; auto).
  split; [|split]; simpl.
  - apply (push_reads comp comp' (fun x => In x l)); auto.
  - apply (pop_reads comp comp' (fun x => In x l)); auto.
  - apply (sort_reads comp comp' (fun x => In x l)); auto.
Qed.
