(** The sparse accumulator is a finite map that is emptied by [foreach]. *)
From Coq Require Import List Arith Lia Bool ZArith.
From Verif Require Import Base Num Heap Sparse TopkModel RecommendModel KnnModel.
Import ListNotations.

Section Acc.
Context {T : Type} `{Num T}.

(** What was added to index [j], in order. *)
Definition added (j : nat) (xs : list (nat * T)) : list T :=
  map snd (filter (fun p => fst p =? j) xs).

(** [touch xs L]: the linked list after additions, latest first occurrence in front. *)
Definition touch (xs : list (nat * T)) (L : list nat) : list nat :=
  fold_left (fun L p => if memn (fst p) L then L else fst p :: L) xs L.

Fixpoint chain (h : Z) (L : list nat) (nx : list Z) : Prop :=
  match L with
  | [] => h = (-2)%Z
  | j :: L => h = Z.of_nat j /\ chain (nth j nx 0%Z) L nx
  end.

Record Rep (n : nat) (a : acc T) (L : list nat) : Prop := {
  rep_sums : length (a_sums a) = n;
  rep_next : length (a_next a) = n;
  rep_nodup : NoDup L;
  rep_lt : Forall (fun j => j < n) L;
  rep_chain : chain (a_head a) L (a_next a);
  rep_out : forall j, j < n -> ~ In j L -> nth j (a_next a) 0%Z = (-1)%Z /\ nth j (a_sums a) nzero = nzero
}.

Lemma nth_repeat_lt {A} (x d : A) n i : i < n -> nth i (repeat x n) d = x.
Proof. revert i; induction n; destruct i; simpl; intros; try lia; auto. apply IHn; lia. Qed.

Lemma chain_upd h L nx i v : ~ In i L -> chain h L nx -> chain h L (upd i v nx).
Proof.
  revert h; induction L as [|j L IH]; simpl; intros h NI C; auto.
  destruct C as [E C]. split; auto. rewrite nth_upd_neq by (intro; subst; apply NI; auto). apply IH; auto.
Qed.

Lemma chain_head h L nx : chain h L nx -> h <> (-1)%Z.
Proof. destruct L; simpl; intros; [lia|]. destruct H0. lia. Qed.

Lemma chain_in h L nx i : chain h L nx -> In i L -> nth i nx 0%Z <> (-1)%Z.
Proof.
  revert h; induction L as [|j L IH]; simpl; intros h C HI; [tauto|].
  destruct C as [E C]. destruct HI as [->|HI]; [eapply chain_head; eauto|eauto].
Qed.

Lemma rep_new n : Rep n (acc_new n) [].
Proof.
  constructor; simpl; try rewrite repeat_length; auto.
  - constructor.
  - intros. rewrite !nth_repeat_lt by auto. auto.
Qed.

(** The representation is faithful: nothing touched means "as new". *)
Lemma rep_nil n a : Rep n a [] -> a_len a = 0 -> a = acc_new n.
Proof.
  intros [S N _ _ C O] E. destruct a as [s x h l]; simpl in *. subst l h. unfold acc_new. f_equal.
  - apply (list_ext _ _ nzero); [rewrite repeat_length; auto|]. intros i Hi.
    rewrite nth_repeat_lt by lia. apply O; [lia|tauto].
  - apply (list_ext _ _ 0%Z); [rewrite repeat_length; auto|]. intros i Hi.
    rewrite nth_repeat_lt by lia. apply O; [lia|tauto].
Qed.

Lemma acc_add_spec n a L i v : Rep n a L -> a_len a = length L -> i < n ->
  exists a', acc_add a i v = Ok a' /\ a_len a' = length (touch [(i,v)] L) /\
    Rep n a' (touch [(i, v)] L) /\
    forall j, nth j (a_sums a') nzero = if j =? i then nadd (nth j (a_sums a) nzero) v else nth j (a_sums a) nzero.
Proof.
  intros R EL Hi. pose proof R as [S N ND LT C O]. unfold acc_add.
  destruct (Nat.ltb_spec i (length (a_sums a))); [|lia].
  unfold touch; cbn [fold_left fst].
  destruct (memn i L) eqn:M.
  - apply memn_spec in M. pose proof (chain_in _ _ _ _ C M) as NE.
    apply Z.eqb_neq in NE. rewrite NE. eexists; split; [reflexivity|]. split; [auto|]. split.
    + constructor; simpl; auto; try rewrite upd_length; auto.
      intros j Hj NI. rewrite nth_upd_neq by (intro; subst; auto). auto.
    + intros j. simpl. rewrite nth_upd. rewrite (Nat.eqb_sym j i).
      destruct (Nat.eqb_spec i j); simpl; auto. subst. destruct (Nat.ltb_spec j (length (a_sums a))); auto; lia.
  - apply memn_false in M. destruct (O i Hi M) as [O1 O2].
    rewrite O1. simpl. eexists; split; [reflexivity|]. split; [simpl; auto|]. split.
    + constructor; simpl; try rewrite upd_length; auto.
      * constructor; auto.
      * split; auto. rewrite nth_upd_eq by lia. apply chain_upd; auto.
      * intros j Hj NI. rewrite !nth_upd_neq by (intro; subst; apply NI; auto). apply O; auto.
    + intros j. simpl. rewrite nth_upd. rewrite (Nat.eqb_sym j i).
      destruct (Nat.eqb_spec i j); simpl; auto. subst. destruct (Nat.ltb_spec j (length (a_sums a))); auto; lia.
Qed.

Lemma added_cons j p xs : added j (p :: xs) = (if fst p =? j then [snd p] else []) ++ added j xs.
Proof. unfold added. simpl. destruct (fst p =? j); auto. Qed.

Lemma acc_adds_spec n xs : forall a L, Rep n a L -> a_len a = length L ->
  Forall (fun p => fst p < n) xs ->
  exists a', acc_adds xs a = Ok a' /\ a_len a' = length (touch xs L) /\ Rep n a' (touch xs L) /\
    forall j, nth j (a_sums a') nzero = fold_left nadd (added j xs) (nth j (a_sums a) nzero).
Proof.
  induction xs as [|[i v] xs IH]; intros a L R EL F.
  - exists a. simpl. auto.
  - inversion F as [|? ? F1 F2]; subst. simpl in F1.
    destruct (acc_add_spec n a L i v R EL F1) as [a1 [E1 [L1 [R1 S1]]]].
    destruct (IH a1 _ R1 L1 F2) as [a2 [E2 [L2 [R2 S2]]]].
    exists a2. unfold acc_adds in *. cbn [fold_res fst snd]. rewrite E1. cbn [bind].
    split; [auto|]. split; [exact L2|]. split; [exact R2|].
    intros j. rewrite S2, added_cons. simpl fst; simpl snd. rewrite fold_left_app. f_equal.
    rewrite S1. rewrite (Nat.eqb_sym j i). destruct (i =? j); auto.
Qed.

Lemma acc_adds_bad n xs : forall a L, Rep n a L -> a_len a = length L ->
  Exists (fun p => n <= fst p) xs -> acc_adds xs a = Raise UB.
Proof.
  induction xs as [|[i v] xs IH]; intros a L R EL F; [inversion F|].
  unfold acc_adds in *. cbn [fold_res fst snd].
  destruct (Nat.lt_ge_cases i n) as [Hi|Hi].
  - destruct (acc_add_spec n a L i v R EL Hi) as [a1 [E1 [L1 [R1 S1]]]].
    rewrite E1. cbn [bind]. eapply IH; eauto. inversion F; subst; auto. simpl in *; lia.
  - unfold acc_add. pose proof (rep_sums _ _ _ R). destruct (Nat.ltb_spec i (length (a_sums a))); auto; lia.
Qed.

Lemma acc_zero_spec n a L i : Rep n a L -> i < n ->
  exists a', acc_zero a i = Ok a' /\ a_len a' = a_len a /\ Rep n a' L /\
    forall j, nth j (a_sums a') nzero = if j =? i then nzero else nth j (a_sums a) nzero.
Proof.
  intros R Hi. pose proof R as [S N ND LT C O]. unfold acc_zero.
  destruct (Nat.ltb_spec i (length (a_sums a))); [|lia].
  eexists; split; [reflexivity|]. split; [auto|].
  assert (U : forall j, nth j (upd i nzero (a_sums a)) nzero = if j =? i then nzero else nth j (a_sums a) nzero).
  { intros j. rewrite nth_upd, (Nat.eqb_sym j i). destruct (Nat.eqb_spec i j); simpl; auto.
    subst. destruct (Nat.ltb_spec j (length (a_sums a))); auto; lia. }
  split; [|auto]. constructor; simpl; auto; try rewrite upd_length; auto.
  intros j Hj NI. destruct (O j Hj NI) as [O1 O2]. split; auto. rewrite U, O2. destruct (j =? i); auto.
Qed.

Lemma acc_zeros_spec n is_ : forall a L, Rep n a L -> Forall (fun i => i < n) is_ ->
  exists a', acc_zeros is_ a = Ok a' /\ a_len a' = a_len a /\ Rep n a' L /\
    forall j, nth j (a_sums a') nzero = if memn j is_ then nzero else nth j (a_sums a) nzero.
Proof.
  induction is_ as [|i is_ IH]; intros a L R F.
  - exists a. simpl. auto.
  - inversion F as [|? ? F1 F2]; subst.
    destruct (acc_zero_spec n a L i R F1) as [a1 [E1 [L1 [R1 S1]]]].
    destruct (IH a1 L R1 F2) as [a2 [E2 [L2 [R2 S2]]]].
    exists a2. unfold acc_zeros in *. cbn [fold_res]. rewrite E1. cbn [bind].
    split; [auto|]. split; [congruence|]. split; [exact R2|].
    intros j. rewrite S2, S1. unfold memn. simpl. destruct (j =? i); simpl; auto. destruct (existsb _ _); auto.
Qed.

Lemma acc_pop_spec n a j L : Rep n a (j :: L) ->
  exists a', acc_pop a = Ok ((j, nth j (a_sums a) nzero), a') /\ a_len a' = a_len a /\ Rep n a' L /\
    forall i, i <> j -> nth i (a_sums a') nzero = nth i (a_sums a) nzero.
Proof.
  intros [S N ND LT C O]. simpl in C. destruct C as [E C].
  inversion LT as [|? ? LT1 LT2]; subst. inversion ND as [|? ? ND1 ND2]; subst.
  unfold acc_pop. rewrite E.
  destruct (Z.leb_spec 0 (Z.of_nat j)); [|lia].
  destruct (Z.ltb_spec (Z.of_nat j) (Z.of_nat (length (a_sums a)))); [|lia].
  cbn [andb]. rewrite Nat2Z.id.
  eexists; split; [reflexivity|]. split; [auto|]. split.
  - constructor; simpl; try rewrite upd_length; auto.
    + apply chain_upd; auto.
    + intros i Hi NI. destruct (Nat.eq_dec i j).
      * subst i. rewrite !nth_upd_eq by lia. auto.
      * rewrite !nth_upd_neq by auto. apply O; auto. simpl. intuition.
  - intros i NE. simpl. rewrite nth_upd_neq; auto.
Qed.

Lemma acc_pops_spec n L : forall a, Rep n a L ->
  exists a', acc_pops (length L) a = Ok (map (fun j => (j, nth j (a_sums a) nzero)) L, a') /\
    Rep n a' [].
Proof.
  induction L as [|j L IH]; intros a R.
  - exists a. simpl. auto.
  - destruct (acc_pop_spec n a j L R) as [a1 [E1 [L1 [R1 S1]]]].
    destruct (IH a1 R1) as [a2 [E2 R2]].
    exists a2. cbn [length acc_pops]. rewrite E1. cbn [bind]. rewrite E2. cbn [bind].
    split; [|auto]. cbn [map]. f_equal. f_equal. f_equal. apply map_ext_in. intros i Hi.
    rewrite S1; auto. intro; subst. pose proof (rep_nodup _ _ _ R) as ND. inversion ND; auto.
Qed.

Lemma acc_foreach_spec n a L : Rep n a L -> a_len a = length L ->
  acc_foreach a = Ok (map (fun j => (j, nth j (a_sums a) nzero)) L, acc_new n).
Proof.
  intros R EL. destruct (acc_pops_spec n L a R) as [a' [E R']].
  unfold acc_foreach. rewrite EL, E. cbn [bind]. f_equal. f_equal.
  apply rep_nil; auto. destruct R' as [A B C D E' F]. constructor; simpl; auto.
Qed.

Lemma touch_in xs : forall L j, In j (touch xs L) <-> In j L \/ In j (map fst xs).
Proof.
  induction xs as [|[i v] xs IH]; intros L j; unfold touch in *; cbn [fold_left map fst]; [simpl; tauto|].
  rewrite IH. destruct (memn i L) eqn:M; simpl; [apply memn_spec in M|]; intuition; subst; auto.
Qed.

Lemma touch_nodup xs : forall L, NoDup L -> NoDup (touch xs L).
Proof.
  induction xs as [|[i v] xs IH]; intros L ND; unfold touch in *; cbn [fold_left fst]; auto.
  apply IH. destruct (memn i L) eqn:M; auto. apply memn_false in M. constructor; auto.
Qed.

(** Additions to a fresh accumulator followed by [foreach]. *)
Lemma acc_run n xs : Forall (fun p => fst p < n) xs ->
  (do a <- acc_adds xs (acc_new n); acc_foreach a)
  = Ok (map (fun j => (j, nsum (added j xs))) (touch xs []), acc_new n).
Proof.
  intros F. destruct (acc_adds_spec n xs (acc_new n) [] (rep_new n) eq_refl F) as [a [E [L [R S]]]].
  rewrite E. cbn [bind]. rewrite (acc_foreach_spec n a _ R L). f_equal. f_equal.
  apply map_ext. intros j. f_equal. rewrite S. unfold nsum. f_equal. simpl.
  destruct (Nat.lt_ge_cases j n); [apply nth_repeat_lt; auto|].
  apply nth_overflow. rewrite repeat_length; auto.
Qed.

Lemma acc_run_zeros n xs is_ : Forall (fun p => fst p < n) xs -> Forall (fun i => i < n) is_ ->
  (do a <- acc_adds xs (acc_new n); do a <- acc_zeros is_ a; acc_foreach a)
  = Ok (map (fun j => (j, if memn j is_ then nzero else nsum (added j xs))) (touch xs []), acc_new n).
Proof.
  intros F G. destruct (acc_adds_spec n xs (acc_new n) [] (rep_new n) eq_refl F) as [a [E [L [R S]]]].
  rewrite E. cbn [bind].
  destruct (acc_zeros_spec n is_ a _ R G) as [a2 [E2 [L2 [R2 S2]]]]. rewrite E2. cbn [bind].
  rewrite (acc_foreach_spec n a2 _ R2) by congruence. f_equal. f_equal.
  apply map_ext. intros j. f_equal. rewrite S2, S. unfold nsum. simpl.
  destruct (memn j is_); auto. f_equal.
  destruct (Nat.lt_ge_cases j n); [apply nth_repeat_lt; auto|].
  apply nth_overflow. rewrite repeat_length; auto.
Qed.

End Acc.
