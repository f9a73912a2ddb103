(** Renaming users and items and reordering the stored entries of a matrix: what the
    sums of the ALS solvers see is the same up to the order of the terms. *)
From Coq Require Import List Arith Lia Bool Reals Lra Permutation.
From Verif Require Import Base Num RVec Sparse TopkModel TopkBatch RecommendModel AlsModel AlsProofs AlsProofs2 AlsStateProofs BprProofs LmfProofs PropAls.
Import ListNotations.

(* ------------------------------------------------------------------ renamings *)
(** A renaming of 0 .. n-1. *)
Definition renaming (n : nat) (p : nat -> nat) : Prop :=
  (forall i, i < n -> p i < n) /\ (forall i j, i < n -> j < n -> p i = p j -> i = j).
(** Row [p u] of [X'] is row [u] of [X]. *)
Definition renamed {A} (p : nat -> nat) (X X' : list A) : Prop :=
  length X' = length X /\ forall u, u < length X -> nth_error X' (p u) = nth_error X u.
(** [M'] holds the entries of [M] under new names, stored in any order within the rows. *)
Definition same_entries {T} (p q : nat -> nat) (M M' : csr T) : Prop :=
  c_rows M' = c_rows M /\ c_cols M' = c_cols M /\
  forall u, u < c_rows M -> Permutation (csr_row M' (p u)) (map (fun e => (q (fst e), snd e)) (csr_row M u)).

Lemma renaming_id n : renaming n (fun i => i).
Proof. split; auto. Qed.
Lemma renamed_id {A} (X X' : list A) : renamed (fun i => i) X X' <-> X' = X.
Proof.
  split; [|intros ->; split; auto]. intros [L E]. revert X' L E. induction X as [|x X IH]; intros [|x' X'] L E; simpl in *; try lia; auto.
  pose proof (E 0 ltac:(lia)) as E0. simpl in E0. injection E0 as ->. f_equal. apply IH; [lia|]. intros u Hu. apply (E (S u)). lia.
Qed.

Lemma renaming_perm n p : renaming n p -> Permutation (map p (seq 0 n)) (seq 0 n).
Proof.
  intros [B J]. apply NoDup_Permutation_bis.
  - assert (Q : forall l, NoDup l -> (forall i, In i l -> i < n) -> NoDup (map p l)).
    { induction l as [|a l IH]; simpl; intros ND HB; constructor; inversion ND; subst; auto.
      intros Hin. apply in_map_iff in Hin. destruct Hin as (b & E & Hb). assert (b = a) by (apply J; auto). subst; auto. }
    apply Q; [apply seq_NoDup|]. intros i Hi. apply in_seq in Hi. lia.
  - rewrite map_length. auto.
  - intros i Hi. apply in_map_iff in Hi. destruct Hi as (j & <- & Hj). apply in_seq in Hj. apply in_seq. specialize (B j). lia.
Qed.
Lemma renaming_onto n p : renaming n p -> forall j, j < n -> exists i, i < n /\ p i = j.
Proof.
  intros Hp j Hj. assert (Hin : In j (map p (seq 0 n))).
  { apply (Permutation_in _ (Permutation_sym (renaming_perm n p Hp))). apply in_seq. lia. }
  apply in_map_iff in Hin. destruct Hin as (i & E & Hi). apply in_seq in Hi. exists i. split; auto. lia.
Qed.
Lemma renamed_nth {A} p (X X' : list A) d u : renamed p X X' -> u < length X -> nth (p u) X' d = nth u X d.
Proof.
  intros [L E] Hu. specialize (E u Hu). destruct (nth_error X u) as [x|] eqn:EX; [|apply nth_error_None in EX; lia].
  rewrite (nth_error_nth _ _ d EX), (nth_error_nth _ _ d E). auto.
Qed.
Lemma map_nth_seq {A} (X : list A) d : map (fun u => nth u X d) (seq 0 (length X)) = X.
Proof.
  apply (list_ext _ _ d); rewrite map_length, seq_length; auto. intros i Hi.
  rewrite (nth_indep _ d (nth 0 X d)) by (rewrite map_length, seq_length; auto).
  rewrite (map_nth (fun u => nth u X d) (seq 0 (length X)) 0), seq_nth by auto. auto.
Qed.
Lemma renamed_perm {A} p (X X' : list A) : renaming (length X) p -> renamed p X X' -> Permutation X' X.
Proof.
  intros Hp Hr. destruct X as [|d X0].
  { destruct Hr as [L _]. destruct X'; [constructor|discriminate]. }
  pose proof Hr as [L _]. remember (d :: X0) as X eqn:EX. clear EX X0.
  rewrite <- (map_nth_seq X' d), <- (map_nth_seq X d), L.
  etransitivity; [apply Permutation_map, Permutation_sym, renaming_perm, Hp|].
  rewrite map_map. apply Permutation_refl'. apply map_ext_in. intros u Hu. apply in_seq in Hu. apply renamed_nth; auto. lia.
Qed.

(* ------------------------------------------------------------------ folds *)
Lemma fold_left_perm {A S} (f : S -> A -> S) : (forall s a b, f (f s a) b = f (f s b) a) ->
  forall l l', Permutation l l' -> forall s, fold_left f l s = fold_left f l' s.
Proof. intros C l l' P. induction P; intros s; simpl; auto. { rewrite C. auto. } rewrite IHP1. auto. Qed.
Lemma fold_res_pure {A B S} (g : S -> A -> res S) (h : S -> B -> S) (look : A -> B) l :
  (forall s e, In e l -> g s e = Ok (h s (look e))) -> forall s, fold_res g l s = Ok (fold_left h (map look l) s).
Proof. induction l as [|e l IH]; intros E s; simpl; auto. rewrite E by (left; auto). simpl. apply IH. intros; apply E; right; auto. Qed.

(** What one row of the matrix looks like once the item ids have been resolved. *)
Definition resolved (Y : list (list R)) (row : list (nat * R)) : list (list R * R) :=
  map (fun e => (nth (fst e) Y [], snd e)) row.
Lemma resolved_perm q Y Y' row row' :
  renamed q Y Y' -> (forall e, In e row -> fst e < length Y) ->
  Permutation row' (map (fun e => (q (fst e), snd e)) row) -> Permutation (resolved Y' row') (resolved Y row).
Proof.
  intros Hr B P. unfold resolved. etransitivity; [apply Permutation_map, P|]. rewrite map_map. apply Permutation_refl'.
  apply map_ext_in. intros e He. simpl. f_equal. apply renamed_nth; auto.
Qed.
Lemma renamed_range q Y Y' (row row' : list (nat * R)) : renaming (length Y) q -> renamed (A := list R) q Y Y' ->
  (forall e, In e row -> fst e < length Y) -> Permutation row' (map (fun e => (q (fst e), snd e)) row) ->
  forall e, In e row' -> fst e < length Y'.
Proof.
  intros [Bq _] [L _] B P e He. apply (Permutation_in _ P) in He. apply in_map_iff in He. destruct He as (a & <- & Ha).
  simpl. rewrite L. apply Bq, B, Ha.
Qed.

Local Open Scope R_scope.

(* ------------------------------------------------------------------ commuting updates *)
Lemma axpy_comm (a b : R) x y z : axpy a x (axpy b y z) = axpy b y (axpy a x z).
Proof. revert x y. induction z as [|z0 z IH]; intros [|x0 x] [|y0 y]; simpl; auto. rewrite IH. f_equal. lra. Qed.
Lemma rank_one_comm (f g : R -> R) x y A :
  map (fun p => axpy (f (fst p)) x (snd p)) (combine x (map (fun p => axpy (g (fst p)) y (snd p)) (combine y A))) =
  map (fun p => axpy (g (fst p)) y (snd p)) (combine y (map (fun p => axpy (f (fst p)) x (snd p)) (combine x A))).
Proof.
  assert (Q : forall (x1 y1 : list R) A,
    map (fun p => axpy (f (fst p)) x (snd p)) (combine x1 (map (fun p => axpy (g (fst p)) y (snd p)) (combine y1 A))) =
    map (fun p => axpy (g (fst p)) y (snd p)) (combine y1 (map (fun p => axpy (f (fst p)) x (snd p)) (combine x1 A)))).
  { induction x1 as [|x0 x1 IH]; intros [|y0 y1] [|a A1]; simpl; auto. rewrite IH. f_equal. apply axpy_comm. }
  apply Q.
Qed.
Lemma add_outer_comm (c d : R) x y A : add_outer c x (add_outer d y A) = add_outer d y (add_outer c x A).
Proof.
  assert (Q1 : forall s t (x2 y2 r : list R),
    map (fun q => nadd (snd q) (nmul c (nmul s (fst q)))) (combine x2 (map (fun q => nadd (snd q) (nmul d (nmul t (fst q)))) (combine y2 r))) =
    map (fun q => nadd (snd q) (nmul d (nmul t (fst q)))) (combine y2 (map (fun q => nadd (snd q) (nmul c (nmul s (fst q)))) (combine x2 r)))).
  { intros s t. induction x2 as [|x0 x2 IH]; intros [|y0 y2] [|a r]; simpl in *; auto. rewrite IH. f_equal. lra. }
  assert (Q : forall (x1 y1 : list R) A,
    map (fun p => map (fun q => nadd (snd q) (nmul c (nmul (fst p) (fst q)))) (combine x (snd p)))
        (combine x1 (map (fun p => map (fun q => nadd (snd q) (nmul d (nmul (fst p) (fst q)))) (combine y (snd p))) (combine y1 A))) =
    map (fun p => map (fun q => nadd (snd q) (nmul d (nmul (fst p) (fst q)))) (combine y (snd p)))
        (combine y1 (map (fun p => map (fun q => nadd (snd q) (nmul c (nmul (fst p) (fst q)))) (combine x (snd p))) (combine x1 A)))).
  { induction x1 as [|x0 x1 IH]; intros [|y0 y1] [|a A1]; cbn [combine map fst snd]; auto. rewrite IH. f_equal. apply Q1. }
  apply Q.
Qed.

(* ------------------------------------------------------------------ one row *)
Lemma ls_row_alt posv A n (Y : list (list R)) row : ls_row posv A n Y row =
  if (length row =? 0)%nat then Ok (zeros n) else
  do '(A, b) <- system A n Y row; match posv A b with Some x => Ok x | None => Raise ValueError end.
Proof. destruct row; reflexivity. Qed.
Lemma cg_row_alt eps steps YtY n (Y : list (list R)) row x : cg_row eps steps YtY n Y row x =
  if (length row =? 0)%nat then Ok (zeros n) else
  do r <- residual YtY Y row x;
  let rsold := ndot r r in if nltb rsold eps then Ok x else cg_loop eps steps YtY Y row x r r rsold.
Proof. destruct row; reflexivity. Qed.

Section Row.
Variable q : nat -> nat.
Variables Y Y' : list (list R).
Variables row row' : list (nat * R).
Hypothesis Hq : renaming (length Y) q.
Hypothesis HY : renamed q Y Y'.
Hypothesis B : forall e, In e row -> (fst e < length Y)%nat.
Hypothesis P : Permutation row' (map (fun e => (q (fst e), snd e)) row).

Let B' := renamed_range q Y Y' row row' Hq HY B P.
Let PR := resolved_perm q Y Y' row row' HY B P.

Lemma fold_same {S} (g g' : S -> nat * R -> res S) (h : S -> list R * R -> S) :
  (forall s e, (fst e < length Y)%nat -> g s e = Ok (h s (nth (fst e) Y [], snd e))) ->
  (forall s e, (fst e < length Y')%nat -> g' s e = Ok (h s (nth (fst e) Y' [], snd e))) ->
  (forall s a b, h (h s a) b = h (h s b) a) ->
  forall s, fold_res g' row' s = fold_res g row s.
Proof.
  intros E E' C s.
  rewrite (fold_res_pure g h (fun e => (nth (fst e) Y [], snd e))) by (intros; apply E; auto).
  rewrite (fold_res_pure g' h (fun e => (nth (fst e) Y' [], snd e))) by (intros; apply E'; auto).
  f_equal. apply fold_left_perm; auto.
Qed.

Lemma gram_same n : gram n Y' = gram n Y.
Proof.
  unfold gram. apply map_ext. intros j. apply map_ext. intros k. rewrite !nsum_rsum. apply rsum_perm, Permutation_map.
  apply (renamed_perm q); auto.
Qed.
Lemma row_length : length row' = length row.
Proof. rewrite (Permutation_length P). apply map_length. Qed.

Lemma system_same A n : system A n Y' row' = system A n Y row.
Proof.
  unfold system.
  set (h := fun (s : list (list R) * list R) (a : list R * R) =>
    (map (fun p => axpy (nmul (nsub (conf_abs (snd a)) none_) (fst p)) (fst a) (snd p)) (combine (fst a) (fst s)),
     if nltb nzero (snd a) then axpy (snd a) (fst a) (snd s) else snd s)).
  apply (fold_same _ _ h).
  - intros [A0 b] e He. unfold add_entry. rewrite raw_row_ok by auto. reflexivity.
  - intros [A0 b] e He. unfold add_entry. rewrite raw_row_ok by auto. reflexivity.
  - intros [A0 b] [y1 c1] [y2 c2]. unfold h. cbn [fst snd]. f_equal.
    + apply (rank_one_comm (fun v => nmul (nsub (conf_abs c2) none_) v) (fun v => nmul (nsub (conf_abs c1) none_) v)).
    + destruct (nltb nzero c1), (nltb nzero c2); auto using axpy_comm.
Qed.
Lemma ls_row_same posv A n : ls_row posv A n Y' row' = ls_row posv A n Y row.
Proof. rewrite !ls_row_alt, system_same, row_length. auto. Qed.
Lemma residual_same YtY x : residual YtY Y' row' x = residual YtY Y row x.
Proof.
  unfold residual.
  apply (fold_same _ _ (fun r a => axpy (nsub (if nltb nzero (snd a) then snd a else nzero)
    (nmul (nsub (conf_abs (snd a)) none_) (ndot (fst a) x))) (fst a) r)).
  - intros s e He. rewrite raw_row_ok by auto. reflexivity.
  - intros s e He. rewrite raw_row_ok by auto. reflexivity.
  - intros; apply axpy_comm.
Qed.
Lemma apply_A_same YtY x : apply_A YtY Y' row' x = apply_A YtY Y row x.
Proof.
  unfold apply_A.
  apply (fold_same _ _ (fun r a => axpy (nmul (nsub (if nltb (snd a) nzero then nmul (nopp none_) (snd a) else snd a) none_)
    (ndot (fst a) x)) (fst a) r)).
  - intros s e He. rewrite raw_row_ok by auto. reflexivity.
  - intros s e He. rewrite raw_row_ok by auto. reflexivity.
  - intros; apply axpy_comm.
Qed.
Lemma cg_loop_same eps steps YtY : forall x r p rs, cg_loop eps steps YtY Y' row' x r p rs = cg_loop eps steps YtY Y row x r p rs.
Proof.
  induction steps as [|steps IH]; intros; cbn [cg_loop]; auto. rewrite apply_A_same.
  destruct (apply_A YtY Y row p) as [Ap|e]; cbn [bind]; auto.
  destruct (c_div rs (ndot p Ap)) as [al|e]; cbn [bind]; auto.
  destruct (nltb _ eps); auto. destruct (c_div _ rs) as [be|e]; cbn [bind]; auto.
Qed.
Lemma cg_row_same eps steps YtY n x : cg_row eps steps YtY n Y' row' x = cg_row eps steps YtY n Y row x.
Proof.
  rewrite !cg_row_alt, row_length, residual_same. destruct (length row =? 0)%nat; auto.
  destruct (residual YtY Y row x); cbn [bind]; auto. rewrite cg_loop_same. auto.
Qed.
Lemma equation_same YtY reg n : user_linear_equation Y' YtY row' reg n = user_linear_equation Y YtY row reg n.
Proof.
  unfold user_linear_equation.
  set (h := fun (s : list (list R) * list R) (a : list R * R) =>
    (add_outer (nsub (if nltb nzero (snd a) then snd a else nmul (snd a) (nopp none_)) none_) (fst a) (fst s),
     if nltb nzero (snd a) then axpy (snd a) (fst a) (snd s) else snd s)).
  apply (fold_same _ _ h).
  - intros s e He. rewrite np_row_ok by auto. reflexivity.
  - intros s e He. rewrite np_row_ok by auto. reflexivity.
  - intros [A0 b] [y1 c1] [y2 c2]. unfold h. cbn [fst snd]. f_equal.
    + apply add_outer_comm.
    + destruct (nltb nzero c1), (nltb nzero c2); auto using axpy_comm.
Qed.
Lemma residual_py_same YtY x : residual_py YtY Y' row' x = residual_py YtY Y row x.
Proof.
  unfold residual_py.
  apply (fold_same _ _ (fun r a => axpy (if nltb nzero (snd a) then nsub (snd a) (nmul (nsub (snd a) none_) (ndot (fst a) x))
               else nmul (nopp (nsub (nmul (snd a) (nopp none_)) none_)) (ndot (fst a) x)) (fst a) r)).
  - intros s e He. rewrite np_row_ok by auto. reflexivity.
  - intros s e He. rewrite np_row_ok by auto. reflexivity.
  - intros; apply axpy_comm.
Qed.
Lemma cg_row_py_same eps steps YtY x : cg_row_py eps steps YtY Y' row' x = cg_row_py eps steps YtY Y row x.
Proof.
  unfold cg_row_py. rewrite residual_py_same. destruct (residual_py YtY Y row x); cbn [bind]; auto.
  rewrite cg_loop_same. auto.
Qed.
Lemma loss_user_same YtY x : loss_user YtY Y' row' x = loss_user YtY Y row x.
Proof.
  unfold loss_user.
  set (h := fun (s : list R * R * R) (a : list R * R) =>
    (axpy (nadd (if nltb nzero (snd a) then nmul (nopp (nadd none_ none_)) (snd a) else nzero)
          (nmul (nsub (conf_abs (snd a)) none_) (ndot (fst a) x))) (fst a) (fst (fst s)),
     nadd (snd (fst s)) (conf_abs (snd a)), nadd (snd s) (conf_abs (snd a)))).
  erewrite (fold_same _ _ h); [reflexivity| | |].
  - intros [[r t] l] e He. rewrite raw_row_ok by auto. reflexivity.
  - intros [[r t] l] e He. rewrite raw_row_ok by auto. reflexivity.
  - intros [[r t] l] [y1 c1] [y2 c2]. unfold h. cbn [fst snd]. f_equal; [f_equal; [apply axpy_comm|]|]; simpl; lra.
Qed.
End Row.

(* ------------------------------------------------------------------ whole matrices *)
(** Both succeed with related results, or both fail. *)
Definition outcomes {A} (Q : A -> A -> Prop) (r r' : res A) : Prop :=
  match r, r' with Ok a, Ok a' => Q a a' | Raise _, Raise _ => True | _, _ => False end.

Local Open Scope nat_scope.
Lemma forall2_nth_error {A B} (Q : A -> B -> Prop) l l' : Forall2 Q l l' ->
  forall i a, nth_error l i = Some a -> exists b, nth_error l' i = Some b /\ Q a b.
Proof. induction 1; intros [|i] c E; simpl in *; try discriminate; eauto. injection E as <-. eauto. Qed.
Lemma nth_error_seq0 n u : u < n -> nth_error (seq 0 n) u = Some u.
Proof. intros Hu. rewrite (nth_error_nth' (seq 0 n) 0) by (rewrite seq_length; auto). rewrite seq_nth; auto. Qed.
Lemma map_res_seq_nth {A} (f : nat -> res A) n l u : map_res f (seq 0 n) = Ok l -> u < n -> exists a, f u = Ok a /\ nth_error l u = Some a.
Proof.
  intros E Hu. apply map_res_ok in E. destruct (forall2_nth_error _ _ _ E u u (nth_error_seq0 n u Hu)) as (b & Eb & Ef). eauto.
Qed.
Lemma map_res_len {A B} (f : A -> res B) l r : map_res f l = Ok r -> length r = length l.
Proof. intros E. apply map_res_ok in E. induction E; simpl; auto. Qed.

Lemma map_res_renamed {A} (f f' : nat -> res A) n p : renaming n p -> (forall u, u < n -> f' (p u) = f u) ->
  outcomes (fun l l' => length l = n /\ renamed p l l') (map_res f (seq 0 n)) (map_res f' (seq 0 n)).
Proof.
  intros Hp E. destruct (map_res f (seq 0 n)) as [l|e] eqn:M, (map_res f' (seq 0 n)) as [l'|e'] eqn:M'; simpl; auto.
  - pose proof (map_res_len _ _ _ M) as L. pose proof (map_res_len _ _ _ M') as L'. rewrite seq_length in *.
    split; auto. split; [congruence|]. intros u Hu. rewrite L in Hu.
    destruct (map_res_seq_nth f n l u M Hu) as (a & Ea & ->).
    destruct (map_res_seq_nth f' n l' (p u) M' (proj1 Hp u Hu)) as (a' & Ea' & ->). rewrite E in Ea' by auto. congruence.
  - destruct (map_res_total f' (seq 0 n)) as [bs Eb]; [|congruence]. intros j Hj. apply in_seq in Hj.
    destruct (renaming_onto n p Hp j ltac:(lia)) as (i & Hi & <-). destruct (map_res_seq_nth f n l i M Hi) as (a & Ea & _).
    exists a. rewrite E; auto.
  - destruct (map_res_total f (seq 0 n)) as [bs Eb]; [|congruence]. intros j Hj. apply in_seq in Hj.
    destruct (map_res_seq_nth f' n l' (p j) M' (proj1 Hp j ltac:(lia))) as (a & Ea & _). exists a. rewrite <- E; auto. lia.
Qed.
Lemma enum_as_seq {A} (X : list A) d : enum X = map (fun u => (u, nth u X d)) (seq 0 (length X)).
Proof.
  unfold enum. assert (Q : forall (X : list A) k, enum_from k X = map (fun u => (k + u, nth u X d)) (seq 0 (length X))).
  { induction X0 as [|x X0 IH]; intros k; simpl; auto. rewrite Nat.add_0_r. f_equal. rewrite IH. rewrite <- seq_shift, map_map.
    apply map_ext. intros u. f_equal. lia. }
  rewrite Q. auto.
Qed.

Lemma row_in_range (M : csr R) u : csr_wf M -> forall e, In e (csr_row M u) -> fst e < c_cols M.
Proof. intros W e He. apply (csr_row_indices_lt M u); auto. unfold csr_row_indices. apply in_map. auto. Qed.
Lemma raw_entries_ok (M : csr R) u : csr_wf M -> u < c_rows M -> raw_entries M u = Ok (csr_row M u).
Proof. intros W Hu. unfold raw_entries. rewrite (wf_indptr_len _ W). destruct (Nat.ltb_spec (S u) (S (c_rows M))); auto. lia. Qed.
Lemma np_entries_ok (M : csr R) u : csr_wf M -> u < c_rows M -> np_entries M u = Ok (csr_row M u).
Proof. intros W Hu. unfold np_entries. rewrite (wf_indptr_len _ W). destruct (Nat.ltb_spec (S u) (S (c_rows M))); auto. lia. Qed.

Section Half.
Variables p q : nat -> nat.
Variables M M' : csr R.
Variables X X' Y Y' : list (list R).
Hypothesis W : csr_wf M.
Hypothesis W' : csr_wf M'.
Hypothesis HM : same_entries p q M M'.
Hypothesis LX : length X = c_rows M.
Hypothesis LY : length Y = c_cols M.
Hypothesis Hp : renaming (c_rows M) p.
Hypothesis Hq : renaming (c_cols M) q.
Hypothesis HX : renamed p X X'.
Hypothesis HY : renamed q Y Y'.

Let Q := fun l l' : list (list R) => length l = length X /\ renamed p l l'.
Let Hp' : renaming (length X) p.
Proof. rewrite LX. auto. Qed.
Let Hq' : renaming (length Y) q.
Proof. rewrite LY. auto. Qed.
Let R1 : forall u e, In e (csr_row M u) -> fst e < length Y.
Proof. intros u e He. rewrite LY. eapply row_in_range; eauto. Qed.
Let PM : forall u, u < length X -> Permutation (csr_row M' (p u)) (map (fun e => (q (fst e), snd e)) (csr_row M u)).
Proof. intros u Hu. apply HM. congruence. Qed.
Let EM : forall u, u < length X -> raw_entries M u = Ok (csr_row M u) /\ raw_entries M' (p u) = Ok (csr_row M' (p u)) /\
   np_entries M u = Ok (csr_row M u) /\ np_entries M' (p u) = Ok (csr_row M' (p u)).
Proof.
  intros u Hu. destruct HM as (Er & _ & _). pose proof (proj1 Hp' u Hu) as B.
  rewrite !raw_entries_ok, !np_entries_ok by (auto; lia). auto.
Qed.
Let LX' : length X' = length X.
Proof. apply HX. Qed.
Let GR : forall n, gram n Y' = gram n Y.
Proof. intros n. apply (gram_same q); auto. Qed.

Lemma half_cholesky posv n reg : outcomes Q (least_squares posv n M X Y reg) (least_squares posv n M' X' Y' reg).
Proof.
  unfold least_squares, least_squares_c. rewrite LX', GR. apply map_res_renamed; auto. intros u Hu.
  destruct (EM u Hu) as (-> & -> & _). cbn [bind]. apply (ls_row_same q); auto. apply R1.
Qed.
Lemma half_cg eps steps n reg : outcomes Q (least_squares_cg eps steps n M X Y reg) (least_squares_cg eps steps n M' X' Y' reg).
Proof.
  unfold least_squares_cg. rewrite GR. rewrite (enum_as_seq X []), (enum_as_seq X' []), LX', !map_res_map_in. apply map_res_renamed; auto.
  intros u Hu. cbn [fst snd]. rewrite (renamed_nth p X X') by auto.
  destruct (EM u Hu) as (-> & -> & _). cbn [bind]. apply (cg_row_same q); auto. apply R1.
Qed.
Lemma half_cholesky_py solve n reg : outcomes Q (least_squares_py solve n M X Y reg) (least_squares_py solve n M' X' Y' reg).
Proof.
  unfold least_squares_py. rewrite LX', GR. apply map_res_renamed; auto. intros u Hu.
  destruct (EM u Hu) as (_ & _ & -> & ->). cbn [bind]. rewrite (equation_same q Y Y' (csr_row M u)); auto. apply R1.
Qed.
Lemma half_cg_py eps steps n reg : outcomes Q (least_squares_cg_py eps steps n M X Y reg) (least_squares_cg_py eps steps n M' X' Y' reg).
Proof.
  unfold least_squares_cg_py. rewrite GR. rewrite (enum_as_seq X []), (enum_as_seq X' []), LX', !map_res_map_in. apply map_res_renamed; auto.
  intros u Hu. cbn [fst snd]. rewrite (renamed_nth p X X') by auto.
  destruct (EM u Hu) as (_ & _ & -> & ->). cbn [bind]. apply (cg_row_py_same q); auto. apply R1.
Qed.
Lemma half_any posv solve eps n o reg : outcomes Q (als_solver posv solve eps n o M X Y reg) (als_solver posv solve eps n o M' X' Y' reg).
Proof.
  unfold als_solver. destruct (use_cg o), (use_native o).
  - apply half_cg. - apply half_cg_py. - apply half_cholesky. - apply half_cholesky_py.
Qed.
End Half.

(* ------------------------------------------------------------------ transposing, scaling *)
Lemma flat_map_perm {A B} (f : A -> list B) l l' : Permutation l l' -> Permutation (flat_map f l) (flat_map f l').
Proof.
  induction 1; simpl; auto. { apply Permutation_app_head; auto. }
  - rewrite !app_assoc. apply Permutation_app_tail, Permutation_app_comm.
  - etransitivity; eauto.
Qed.
Lemma flat_map_pointwise {A B} (f g : A -> list B) l : (forall a, In a l -> Permutation (f a) (g a)) -> Permutation (flat_map f l) (flat_map g l).
Proof. induction l; simpl; intros E; auto. apply Permutation_app; auto. Qed.
Lemma filter_map_comm {A B} (f : A -> B) (P : B -> bool) l : filter P (map f l) = map f (filter (fun a => P (f a)) l).
Proof. induction l; simpl; auto. destruct (P (f a)); simpl; rewrite IHl; auto. Qed.
Lemma perm_filter {A} (P : A -> bool) l l' : Permutation l l' -> Permutation (filter P l) (filter P l').
Proof. induction 1; simpl; auto. { destruct (P x); auto. } { destruct (P x), (P y); auto. constructor. } etransitivity; eauto. Qed.

Lemma same_entries_transpose {T} p q (M M' : csr T) : csr_wf M -> renaming (c_rows M) p -> renaming (c_cols M) q ->
  same_entries p q M M' -> same_entries q p (transpose M) (transpose M').
Proof.
  intros W Hp Hq (Er & Ec & E). unfold same_entries. rewrite !transpose_rows. split; auto. split; auto.
  intros j Hj. rewrite transpose_row by (rewrite Ec; apply Hq; auto). rewrite transpose_row by auto. rewrite Er.
  etransitivity; [apply flat_map_perm, Permutation_sym, (renaming_perm _ _ Hp)|].
  rewrite KnnProofs.flat_map_map_in, KnnProofs.map_flat_map. apply flat_map_pointwise. intros u Hu. apply in_seq in Hu.
  rewrite map_map. cbn [fst snd].
  etransitivity; [apply Permutation_map, perm_filter, E; lia|]. rewrite filter_map_comm, map_map. cbn [fst snd].
  apply Permutation_refl'. f_equal. apply filter_ext_in. intros e He.
  assert (Be : fst e < c_cols M) by (apply (csr_row_indices_lt M u); auto; unfold csr_row_indices; apply in_map; auto).
  destruct (Nat.eqb_spec (fst e) j) as [->|N]; [apply Nat.eqb_refl|]. apply Nat.eqb_neq. intros C. apply N. apply (proj2 Hq); auto.
Qed.
Lemma same_entries_alpha alpha p q (M M' : csr R) : same_entries p q M M' -> same_entries p q (apply_alpha alpha M) (apply_alpha alpha M').
Proof.
  intros (Er & Ec & E). rewrite !apply_alpha_scale. split; auto. split; auto. intros u Hu. rewrite !scale_rows. unfold scale_row.
  etransitivity; [apply Permutation_map, E, Hu|]. rewrite !map_map. apply Permutation_refl'. auto.
Qed.
Lemma alpha_wf alpha (M : csr R) : csr_wf M -> csr_wf (apply_alpha alpha M).
Proof.
  intros W. rewrite apply_alpha_scale. destruct W. constructor; unfold csr_scale; cbn [c_rows c_cols c_indptr c_indices c_data]; auto.
  rewrite map_length. auto.
Qed.

(* ------------------------------------------------------------------ training *)
Definition renamed_factors (p q : nat -> nat) (s s' : list (list R) * list (list R)) : Prop :=
  renamed p (fst s) (fst s') /\ renamed q (snd s) (snd s').

Lemma iterate_renamed posv solve eps n o reg p q (C C' D D' : csr R) :
  csr_wf C -> csr_wf C' -> csr_wf D -> csr_wf D' -> same_entries p q C C' -> same_entries q p D D' ->
  c_rows D = c_cols C -> c_cols D = c_rows C -> renaming (c_rows C) p -> renaming (c_cols C) q ->
  forall k X X' Y Y', length X = c_rows C -> length Y = c_cols C -> renamed p X X' -> renamed q Y Y' ->
  outcomes (renamed_factors p q) (als_iterate (als_solver posv solve eps n o) reg C D k X Y)
                                 (als_iterate (als_solver posv solve eps n o) reg C' D' k X' Y').
Proof.
  intros WC WC' WD WD' HC HD ER EC Hp Hq. induction k as [|k IH]; intros X X' Y Y' LX LY HX HY; cbn [als_iterate].
  { simpl. split; auto. }
  pose proof (half_any p q C C' X X' Y Y' WC WC' HC LX LY Hp Hq HX HY posv solve eps n o reg) as H1.
  destruct (als_solver posv solve eps n o C X Y reg) as [X1|e], (als_solver posv solve eps n o C' X' Y' reg) as [X1'|e']; simpl in H1; try contradiction; cbn [bind]; try exact Logic.I.
  destruct H1 as [L1 H1].
  pose proof (half_any q p D D' Y Y' X1 X1' WD WD' HD ltac:(congruence) ltac:(congruence) ltac:(rewrite ER; auto) ltac:(rewrite EC; auto) HY H1 posv solve eps n o reg) as H2.
  destruct (als_solver posv solve eps n o D Y X1 reg) as [Y1|e], (als_solver posv solve eps n o D' Y' X1' reg) as [Y1'|e']; simpl in H2; try contradiction; cbn [bind]; try exact Logic.I.
  destruct H2 as [L2 H2]. apply IH; auto; congruence.
Qed.

Lemma fit_renamed posv solve eps n o alpha reg k p q (M M' : csr R) X X' Y Y' :
  csr_wf M -> csr_wf M' -> same_entries p q M M' -> renaming (c_rows M) p -> renaming (c_cols M) q ->
  length X = c_rows M -> length Y = c_cols M -> renamed p X X' -> renamed q Y Y' ->
  outcomes (renamed_factors p q) (als_fit (als_solver posv solve eps n o) alpha reg k M X Y)
                                 (als_fit (als_solver posv solve eps n o) alpha reg k M' X' Y').
Proof.
  intros W W' HM Hp Hq LX LY HX HY. unfold als_fit.
  assert (ER : c_rows (apply_alpha alpha M) = c_rows M) by (rewrite apply_alpha_scale; auto).
  assert (EC : c_cols (apply_alpha alpha M) = c_cols M) by (rewrite apply_alpha_scale; auto).
  assert (ET : c_rows (transpose (apply_alpha alpha M)) = c_cols M) by (rewrite transpose_rows; auto).
  apply iterate_renamed; rewrite ?ET, ?ER, ?EC; auto using alpha_wf, same_entries_alpha; try apply transpose_wf.
  apply same_entries_transpose; rewrite ?ER, ?EC; auto using alpha_wf, same_entries_alpha.
Qed.
