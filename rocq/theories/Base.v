(** Generic helpers: results with Python exceptions, list update, write logs.
    Nothing here is specific to the modelled library. *)
From Coq Require Import List Arith Lia Bool ZArith Permutation.
Import ListNotations.

(** Exceptions the modelled code can raise.  [UB] stands for C/C++ undefined
    behaviour (for instance reading past the end of an array with
    [boundscheck(False)]). *)
Inductive exn : Type :=
| ValueError | IndexError | TypeError | NotImplementedError | ZeroDivisionError
| AttributeError | KeyError | ModelFitError | FileNotFoundError | RuntimeError | UB.

Inductive res (A : Type) : Type :=
| Ok (a : A)
| Raise (e : exn).
Arguments Ok {A} a.
Arguments Raise {A} e.

Definition bind {A B} (r : res A) (f : A -> res B) : res B :=
  match r with Ok a => f a | Raise e => Raise e end.
Notation "'do' x <- r ; k" := (bind r (fun x => k))
  (at level 200, x name, r at level 100, k at level 200, right associativity).
Notation "'do' ' p <- r ; k" := (bind r (fun x => match x with p => k end))
  (at level 200, p pattern, r at level 100, k at level 200, right associativity).

Definition is_ok {A} (r : res A) : bool := match r with Ok _ => true | Raise _ => false end.

Fixpoint map_res {A B} (f : A -> res B) (l : list A) : res (list B) :=
  match l with
  | [] => Ok []
  | a :: l' => do b <- f a; do bs <- map_res f l'; Ok (b :: bs)
  end.

Fixpoint fold_res {A S} (f : S -> A -> res S) (l : list A) (s : S) : res S :=
  match l with
  | [] => Ok s
  | a :: l' => do s' <- f s a; fold_res f l' s'
  end.

(** [upd i v l]: the array [l] with cell [i] set to [v] (no effect out of range). *)
Fixpoint upd {A} (i : nat) (v : A) (l : list A) : list A :=
  match l, i with
  | [], _ => []
  | _ :: l', O => v :: l'
  | a :: l', S i' => a :: upd i' v l'
  end.

(** [slice s e l] is Python's [l[s:e]] for [0 <= s <= e]. *)
Definition slice {A} (s e : nat) (l : list A) : list A := firstn (e - s) (skipn s l).

(** [enum_from k l] pairs each element with its index starting at [k]. *)
Fixpoint enum_from {A} (k : nat) (l : list A) : list (nat * A) :=
  match l with [] => [] | a :: l' => (k, a) :: enum_from (S k) l' end.
Definition enum {A} (l : list A) := enum_from 0 l.

Definition memn (x : nat) (l : list nat) : bool := existsb (Nat.eqb x) l.
Definition memz (x : Z) (l : list Z) : bool := existsb (Z.eqb x) l.

(* ------------------------------------------------------------------ *)
Section Lemmas.
Context {A : Type}.
Implicit Types (l : list A) (i j : nat) (v d : A).

Lemma upd_length i v l : length (upd i v l) = length l.
Proof. revert i; induction l; destruct i; simpl; auto. Qed.

Lemma nth_upd_eq i v l d : i < length l -> nth i (upd i v l) d = v.
Proof. revert i; induction l; destruct i; simpl; intros; try lia; auto. apply IHl; lia. Qed.

Lemma nth_upd_neq i j v l d : i <> j -> nth j (upd i v l) d = nth j l d.
Proof. revert i j; induction l; destruct i, j; simpl; intros; auto; try lia. Qed.

Lemma nth_upd i j v l d :
  nth j (upd i v l) d = if (i =? j) && (i <? length l) then v else nth j l d.
Proof.
  destruct (Nat.eqb_spec i j); simpl.
  - subst. destruct (Nat.ltb_spec j (length l)); [apply nth_upd_eq; auto|].
    rewrite !nth_overflow; auto. rewrite upd_length; auto.
  - apply nth_upd_neq; auto.
Qed.

Lemma upd_comm i j v w l : i <> j -> upd i v (upd j w l) = upd j w (upd i v l).
Proof. revert i j; induction l; destruct i, j; simpl; intros; auto; try lia. f_equal; auto. Qed.

Lemma upd_overflow i v l : length l <= i -> upd i v l = l.
Proof. revert i; induction l; destruct i; simpl; intros; auto; try lia. f_equal; apply IHl; lia. Qed.

Lemma list_ext l l' d : length l = length l' ->
  (forall i, i < length l -> nth i l d = nth i l' d) -> l = l'.
Proof.
  revert l'; induction l; destruct l'; simpl; intros; auto; try lia.
  f_equal; [apply (H0 0); lia | apply IHl; [lia|]; intros; apply (H0 (S i)); lia].
Qed.

Lemma slice_length s e l : e <= length l -> length (slice s e l) = e - s.
Proof. intros; unfold slice. rewrite firstn_length, skipn_length. lia. Qed.

Lemma nth_slice s e l d i : i < e - s -> nth i (slice s e l) d = nth (s + i) l d.
Proof.
  intros; unfold slice.
  revert e l H; induction s; simpl; intros.
  - rewrite Nat.sub_0_r in *. revert l e H; induction i; destruct l, e; simpl; intros; auto; try lia.
    apply IHi; lia.
  - destruct l; simpl. { rewrite firstn_nil. destruct i; auto. }
    replace (e - S s) with (pred e - s) by lia. apply IHs. lia.
Qed.

Lemma enum_from_length k l : length (enum_from k l) = length l.
Proof. revert k; induction l; simpl; intros; auto. Qed.

Lemma enum_from_app k l l' : enum_from k (l ++ l') = enum_from k l ++ enum_from (k + length l) l'.
Proof.
  revert k; induction l; simpl; intros. { rewrite Nat.add_0_r; auto. }
  f_equal. rewrite IHl. f_equal. f_equal. lia.
Qed.

Lemma in_enum_from k l i v :
  In (i, v) (enum_from k l) <-> k <= i /\ nth_error l (i - k) = Some v.
Proof.
  revert k; induction l; simpl; intros.
  - split; [tauto|]. intros [_ H]. destruct (i - k); discriminate.
  - split.
    + intros [E|H]. { inversion E; subst. rewrite Nat.sub_diag. auto. }
      apply IHl in H. destruct H. split; [lia|].
      replace (i - k) with (S (i - S k)) by lia. auto.
    + intros [L H]. destruct (Nat.eq_dec i k).
      * left. subst. rewrite Nat.sub_diag in H. simpl in H. congruence.
      * right. apply IHl. split; [lia|].
        replace (i - k) with (S (i - S k)) in H by lia. auto.
Qed.

Lemma in_enum l i v : In (i, v) (enum l) <-> nth_error l i = Some v.
Proof. unfold enum. rewrite in_enum_from, Nat.sub_0_r. intuition lia. Qed.

Lemma map_fst_enum_from k l : map fst (enum_from k l) = seq k (length l).
Proof. revert k; induction l; simpl; intros; f_equal; auto. Qed.

Lemma map_snd_enum_from k l : map snd (enum_from k l) = l.
Proof. revert k; induction l; simpl; intros; f_equal; auto. Qed.

Lemma enum_from_NoDup k l : NoDup (map fst (enum_from k l)).
Proof. rewrite map_fst_enum_from. apply seq_NoDup. Qed.

Lemma removelast_snoc l v : removelast (l ++ [v]) = l.
Proof. rewrite removelast_app by discriminate. simpl. apply app_nil_r. Qed.

Lemma nth_error_nth_eq l i d v : nth_error l i = Some v -> nth i l d = v.
Proof. revert l; induction i; destruct l; simpl; intros; try discriminate; auto. congruence. Qed.

Lemma nth_error_of_nth l i d : i < length l -> nth_error l i = Some (nth i l d).
Proof. revert l; induction i; destruct l; simpl; intros; auto; try lia. apply IHi; lia. Qed.

End Lemmas.

Lemma memn_spec x l : memn x l = true <-> In x l.
Proof.
  unfold memn. rewrite existsb_exists. split.
  - intros [y [H E]]. apply Nat.eqb_eq in E. subst; auto.
  - intros. exists x. split; auto. apply Nat.eqb_refl.
Qed.

Lemma memn_false x l : memn x l = false <-> ~ In x l.
Proof. rewrite <- memn_spec. destruct (memn x l); intuition congruence. Qed.

Lemma memz_spec x l : memz x l = true <-> In x l.
Proof.
  unfold memz. rewrite existsb_exists. split.
  - intros [y [H E]]. apply Z.eqb_eq in E. subst; auto.
  - intros. exists x. split; auto. apply Z.eqb_refl.
Qed.

Lemma memz_false x l : memz x l = false <-> ~ In x l.
Proof. rewrite <- memz_spec. destruct (memz x l); intuition congruence. Qed.

Lemma map_res_ok {A B} (f : A -> res B) l bs :
  map_res f l = Ok bs <-> Forall2 (fun a b => f a = Ok b) l bs.
Proof.
  revert bs; induction l as [|a l IH]; simpl; intros.
  - split; intros H. { inversion H; constructor. } inversion H; auto.
  - destruct (f a) eqn:E; simpl.
    + destruct (map_res f l) eqn:E2; simpl.
      * split; intros H.
        { inversion H; subst. constructor; auto. apply IH; auto. }
        inversion H; subst. apply IH in H4. congruence.
      * split; intros H; [discriminate|]. inversion H; subst. apply IH in H4. discriminate.
    + split; intros H; [discriminate|]. inversion H; subst. congruence.
Qed.

Lemma map_res_map {A B} (f : A -> res B) (g : A -> B) l :
  (forall a, In a l -> f a = Ok (g a)) -> map_res f l = Ok (map g l).
Proof.
  induction l; simpl; intros; auto. rewrite (H a) by auto. simpl.
  rewrite IHl by auto. auto.
Qed.

(* ------------------------------------------------------------------ *)
(** Write logs: [(address, value)] pairs applied in order to an array. *)
Definition apply_writes {A} (ws : list (nat * A)) (m : list A) : list A :=
  fold_left (fun m w => upd (fst w) (snd w) m) ws m.

Lemma apply_writes_length {A} (ws : list (nat * A)) m : length (apply_writes ws m) = length m.
Proof. revert m; induction ws; simpl; intros; auto. rewrite IHws. apply upd_length. Qed.

Lemma apply_writes_app {A} (ws ws' : list (nat * A)) m :
  apply_writes (ws ++ ws') m = apply_writes ws' (apply_writes ws m).
Proof. unfold apply_writes. apply fold_left_app. Qed.

Lemma apply_writes_notin {A} (ws : list (nat * A)) m i d :
  ~ In i (map fst ws) -> nth i (apply_writes ws m) d = nth i m d.
Proof.
  revert m; induction ws as [|[a v] ws IH]; simpl; intros; auto.
  rewrite IH by tauto. apply nth_upd_neq. tauto.
Qed.

Lemma apply_writes_in {A} (ws : list (nat * A)) m i v d :
  NoDup (map fst ws) -> In (i, v) ws -> i < length m ->
  nth i (apply_writes ws m) d = v.
Proof.
  revert m; induction ws as [|[a w] ws IH]; simpl; intros m ND HI L; [tauto|].
  inversion ND; subst. destruct HI as [E|HI].
  - inversion E; subst. rewrite apply_writes_notin by auto. apply nth_upd_eq; auto.
  - apply IH; auto. rewrite upd_length; auto.
Qed.

Lemma apply_writes_perm {A} (ws ws' : list (nat * A)) m :
  Permutation ws ws' -> NoDup (map fst ws) -> apply_writes ws m = apply_writes ws' m.
Proof.
  intros P. revert m. induction P; intros m ND; auto.
  - simpl. inversion ND; subst. apply IHP; auto.
  - simpl. inversion ND as [|? ? H1 H2]; subst. rewrite upd_comm; auto.
    intro E; apply H1; simpl; auto.
  - rewrite IHP1 by auto. apply IHP2. eapply Permutation_NoDup; [apply Permutation_map, P1|auto].
Qed.
