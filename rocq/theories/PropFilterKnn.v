(** C140: filter_items of item-item models: the order does not matter, repetitions do. *)
From Coq Require Import List Arith Lia Bool ZArith Permutation.
From Verif Require Import Base Num Heap Sparse TopkModel RecommendModel KnnModel PropKnn.
Import ListNotations.

(** Naming a filtered item twice changes the answer of a single-user call. *)
Theorem C140_refuted : exists (sim M : csr Z) F F' (N : Z) ids ids' sc sc' a,
  csr_wf sim /\ (forall z, In z F <-> In z F') /\
  ii_recommend simple_heap (-1000)%Z (-999)%Z sim a (Scalar 0) (Csr M) N false (Some (PyList F)) None = Ok (OneRow ids sc, a) /\
  ii_recommend simple_heap (-1000)%Z (-999)%Z sim a (Scalar 0) (Csr M) N false (Some (PyList F')) None = Ok (OneRow ids' sc', a) /\
  ids <> ids'.
Proof.
  exists ex_sim, (csr_of_rows 3 (map zr [[(0, 1); (1, 1)]]))%Z, [0]%Z, [0; 0]%Z, 1%Z.
  do 4 eexists. exists (acc_new (c_rows ex_sim)).
  split; [apply ex_sim_wf|]. split; [simpl; tauto|]. split; [vm_compute; reflexivity|]. split; [vm_compute; reflexivity|]. discriminate.
Qed.
Print Assumptions C140_refuted.

(** What holds: two lists with the same entries in another order give the same answers (and
    leave the scorer in the same state), for one user or many; similar_items does not even
    notice repetitions. *)
Lemma memz_same l l' z : (forall x, In x l <-> In x l') -> memz z l = memz z l'.
Proof.
  intros E. unfold memz. destruct (existsb (Z.eqb z) l) eqn:Q; destruct (existsb (Z.eqb z) l') eqn:Q'; auto; exfalso.
  - apply existsb_exists in Q. destruct Q as [x [Hx Ex]]. apply E in Hx. assert (existsb (Z.eqb z) l' = true) by (apply existsb_exists; eauto). congruence.
  - apply existsb_exists in Q'. destruct Q' as [x [Hx Ex]]. apply E in Hx. assert (existsb (Z.eqb z) l = true) by (apply existsb_exists; eauto). congruence.
Qed.
Lemma mask_same {T} l l' b (r : list Z * list T) : (forall x, In x l <-> In x l') -> mask_in l b r = mask_in l' b r.
Proof. intros E. unfold mask_in. f_equal; f_equal; apply filter_ext; intros p; rewrite (memz_same l l'); auto. Qed.

Lemma ii_recommend1_perm (T : Type) (NT : Num T) HP (fmin : T) sim a ui N fl F F' : Permutation (arr_list F) (arr_list F') ->
  ii_recommend1 HP fmin sim a ui N fl (Some F) None = ii_recommend1 HP fmin sim a ui N fl (Some F') None.
Proof.
  intros P. unfold ii_recommend1. destruct ui as [|M]; auto. cbn [bind]. rewrite (Permutation_length P). destruct (c_rows M =? 0); auto.
  destruct (scorer_recommend HP sim a (csr_row M 0) (N + Z.of_nat (length (arr_list F'))) fl) as [[r a']|]; auto. cbn [bind].
  rewrite (mask_same (arr_list F) (arr_list F')); auto. intros x. split; apply Permutation_in; auto using Permutation_sym.
Qed.
Theorem C140_partial : forall (T : Type) (NT : Num T) HP (fmin fmin32 : T) sim a u ui N fl F F', Permutation (arr_list F) (arr_list F') ->
  ii_recommend HP fmin fmin32 sim a u ui N fl (Some F) None = ii_recommend HP fmin fmin32 sim a u ui N fl (Some F') None.
Proof.
  intros T NT HP fmin fmin32 sim a u ui N fl F F' P. unfold ii_recommend. destruct ui as [|M]; auto. destruct u as [z|us].
  - rewrite (ii_recommend1_perm T NT HP fmin sim a (Csr M) N fl F F'); auto.
  - destruct (negb (c_rows M =? length us)); auto. destruct (N <? 0)%Z; auto.
    assert (E : forall gs a, ii_batch_rows HP fmin fmin32 sim a M N fl (Some F) None gs = ii_batch_rows HP fmin fmin32 sim a M N fl (Some F') None gs); [|rewrite E; auto].
    induction gs as [|g gs IH]; intros a'; cbn [ii_batch_rows]; auto. rewrite (ii_recommend1_perm T NT HP fmin sim a' _ N fl F F') by auto.
    destruct (ii_recommend1 HP fmin sim a' (Csr (csr_take_row M g)) N fl (Some F') None) as [[r a2]|]; auto. cbn [bind]. rewrite IH. auto.
Qed.
Print Assumptions C140_partial.

Theorem C140_similar : forall (T : Type) (NT : Num T) (fmin fmin32 : T) argsort sim id N F F', (forall z, In z (arr_list F) <-> In z (arr_list F')) ->
  ii_similar fmin fmin32 argsort sim id N false (Some F) None = ii_similar fmin fmin32 argsort sim id N false (Some F') None.
Proof.
  intros T NT fmin fmin32 argsort sim id N F F' E.
  assert (E1 : forall i, ii_similar1 fmin argsort sim i N false (Some F) None = ii_similar1 fmin argsort sim i N false (Some F') None).
  { intros i. unfold ii_similar1. destruct (Z.of_nat (c_rows sim) <=? i)%Z; auto. destruct (np_index (c_rows sim) i); auto. cbn [bind].
    rewrite (mask_same (arr_list F) (arr_list F')); auto. }
  unfold ii_similar. destruct id as [i|is_]; [rewrite E1; auto|]. unfold batch_call. destruct (N <? 0)%Z; auto.
  match goal with |- (do ' _ <- (do rows <- map_res ?f _; _); _) = (do ' _ <- (do rows <- map_res ?h _; _); _) => assert (X : forall l, map_res f l = map_res h l) end.
  { induction l as [|p l IH]; cbn [map_res]; auto. rewrite E1, IH. auto. }
  rewrite X. auto.
Qed.
Print Assumptions C140_similar.

Example C140_example :
  Permutation (arr_list (PyList [2; 0]%Z)) (arr_list (NdArray [0; 2]%Z)) /\
  exists o, ii_recommend simple_heap (-1000)%Z (-999)%Z ex_sim (acc_new (c_rows ex_sim)) (Scalar 0) (Csr (csr_of_rows 3 (map zr [[(0, 1); (1, 1)]])))%Z 1 false (Some (PyList [2; 0]%Z)) None
    = Ok (o, acc_new (c_rows ex_sim)).
Proof. split; [constructor|]. eexists. vm_compute. reflexivity. Qed.
