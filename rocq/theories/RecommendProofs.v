(** Correctness of [recommend]. *)
From Coq Require Import List Arith Lia Bool ZArith Permutation Sorted.
From Verif Require Import Base Num Heap Sparse TopkModel TopkSpec TopkProofs TopkBatch RecommendModel.
Import ListNotations.

(* ---------- indexing ---------- *)
(** numpy's reading of an index: negative ones count from the end. *)
Definition wrap (n : nat) (z : Z) : nat := Z.to_nat (if (z <? 0)%Z then z + Z.of_nat n else z).

Definition idx_ok (n : nat) (z : Z) : Prop := (- Z.of_nat n <= z < Z.of_nat n)%Z.

Lemma np_index_ok n z : idx_ok n z -> np_index n z = Ok (wrap n z).
Proof.
  unfold idx_ok, np_index, wrap. intros.
  destruct (Z.leb_spec 0 z), (Z.ltb_spec z (Z.of_nat n)); simpl; try lia;
  destruct (Z.ltb_spec z 0); try lia; auto.
  destruct (Z.leb_spec (- Z.of_nat n) z); simpl; auto; lia.
Qed.

Lemma np_index_bad n z : ~ idx_ok n z -> np_index n z = Raise IndexError.
Proof.
  unfold idx_ok, np_index. intros.
  destruct (Z.leb_spec 0 z), (Z.ltb_spec z (Z.of_nat n)); simpl; try lia;
  destruct (Z.leb_spec (- Z.of_nat n) z), (Z.ltb_spec z 0); simpl; auto; lia.
Qed.

Lemma wrap_lt n z : idx_ok n z -> wrap n z < n.
Proof. unfold idx_ok, wrap. intros. destruct (Z.ltb_spec z 0); lia. Qed.

Lemma wrap_nat n i : wrap n (Z.of_nat i) = i.
Proof. unfold wrap. destruct (Z.ltb_spec (Z.of_nat i) 0); lia. Qed.

Lemma wrap_nonneg n z : (0 <= z)%Z -> wrap n z = Z.to_nat z.
Proof. unfold wrap. destruct (Z.ltb_spec z 0); lia. Qed.

Lemma map_res_raise {A B} (f : A -> res B) l e :
  (forall a, In a l -> exists b, f a = Ok b \/ f a = Raise e) ->
  (exists a, In a l /\ f a = Raise e) -> map_res f l = Raise e.
Proof.
  induction l as [|a l IH]; simpl; intros A1 [x [Hx Ex]]; [tauto|].
  destruct (f a) as [b|e'] eqn:E; simpl.
  - destruct Hx as [->|Hx]; [congruence|].
    rewrite IH; auto. exists x; auto.
  - destruct (A1 a (or_introl eq_refl)) as [b [E2|E2]]; congruence.
Qed.

Section Proofs.
Context {T : Type} `{NumOrd T}.
Variables (HP : std_heap) (HC : std_heap_ok HP) (fmin : T).

(* ---------- TopN lemmas ---------- *)
Lemma TopN_ext (s s' : nat -> T) c n ids sc :
  (forall i, In i c -> s i = s' i) -> TopN s c n ids sc -> TopN s' c n ids sc.
Proof.
  intros E [L S N I D B]. constructor; auto.
  - rewrite S. apply map_ext_in. intros; apply E; auto.
  - assert (G : forall l, incl l c -> StronglySorted (fun i j => nleb (s j) (s i) = true) l ->
        StronglySorted (fun i j => nleb (s' j) (s' i) = true) l).
    { induction l; intros Hc Hs; constructor.
      - apply IHl. { intros x Hx; apply Hc; right; auto. } inversion Hs; auto.
      - inversion Hs; subst. rewrite Forall_forall in *. intros x Hx.
        rewrite <- (E a), <- (E x); auto. { apply Hc; right; auto. } { apply Hc; left; auto. } }
    apply G; auto.
  - intros. rewrite <- (E i), <- (E j); auto.
Qed.

(** Renaming candidates injectively. *)
Lemma TopN_rename (s : nat -> T) (f : nat -> nat) c n ids sc :
  (forall i j, In i c -> In j c -> f i = f j -> i = j) ->
  TopN (fun i => s (f i)) c n ids sc -> TopN s (map f c) n (map f ids) sc.
Proof.
  intros Inj [L S N I D B]. constructor; auto.
  - rewrite map_length; auto.
  - rewrite map_map; auto.
  - clear -N I Inj. induction ids; simpl; constructor; inversion N; subst.
    + intros X. apply in_map_iff in X. destruct X as [y [E Y]].
      apply Inj in E; [subst; auto|apply I; right; auto|apply I; left; auto].
    + apply IHids; auto. intros x Hx; apply I; right; auto.
  - intros x Hx. apply in_map_iff in Hx. destruct Hx as [y [<- Y]]. apply in_map; auto.
  - eapply ss_map_impl; [exact D|]. auto.
  - intros i j Hi Hj Hn. apply in_map_iff in Hi. destruct Hi as [i' [<- Hi]].
    apply in_map_iff in Hj. destruct Hj as [j' [<- Hj]].
    apply B; auto. intro X; apply Hn. apply in_map; auto.
Qed.

(* ---------- scores with filters ---------- *)
Definition fscore (filt : nat -> bool) (score : nat -> T) (i : nat) : T :=
  if filt i then fmin else score i.

Lemma fold_upd_length (v : T) is_ row : length (fold_left (fun r i => upd i v r) is_ row) = length row.
Proof. revert row; induction is_; simpl; intros; auto. rewrite IHis_, upd_length; auto. Qed.

Lemma fold_upd_nth (v : T) is_ row j d : j < length row ->
  nth j (fold_left (fun r i => upd i v r) is_ row) d = if memn j is_ then v else nth j row d.
Proof.
  revert row; induction is_ as [|a l IH]; simpl; intros row Hj; auto.
  rewrite IH by (rewrite upd_length; auto). unfold memn in *. simpl.
  destruct (existsb (Nat.eqb j) l) eqn:E.
  - rewrite orb_true_r. auto.
  - rewrite orb_false_r. rewrite nth_upd. rewrite (Nat.eqb_sym a j).
    destruct (Nat.eqb_spec j a); simpl; auto. subst.
    destruct (Nat.ltb_spec a (length row)); auto; lia.
Qed.

Lemma set_cols_ok idxs v (row : list T) :
  (forall z, In z idxs -> idx_ok (length row) z) ->
  set_cols idxs v row = Ok (map (fun j => if memn j (map (wrap (length row)) idxs) then v else nth j row nzero)
                                (seq 0 (length row))).
Proof.
  intros B. unfold set_cols.
  rewrite (map_res_map _ (wrap (length row))). 2:{ intros; apply np_index_ok; auto. }
  simpl. f_equal. apply (list_ext _ _ nzero).
  - rewrite fold_upd_length, map_length, seq_length; auto.
  - intros i Hi. rewrite fold_upd_length in Hi. rewrite fold_upd_nth by auto.
    rewrite (nth_indep (map _ _) nzero ((fun j => if memn j (map (wrap (length row)) idxs) then v else nth j row nzero) 0))
      by (rewrite map_length, seq_length; auto).
    rewrite (map_nth (fun j => if memn j (map (wrap (length row)) idxs) then v else nth j row nzero)).
    rewrite seq_nth by auto. auto.
Qed.

Lemma set_cols_bad idxs v (row : list T) :
  (exists z, In z idxs /\ ~ idx_ok (length row) z) -> set_cols idxs v row = Raise IndexError.
Proof.
  intros [z [Hz B]]. unfold set_cols. rewrite (map_res_raise _ _ IndexError); auto.
  - intros a _. destruct (Z_le_dec (- Z.of_nat (length row)) a), (Z_lt_dec a (Z.of_nat (length row)));
    try (exists 0; right; apply np_index_bad; unfold idx_ok; lia).
    exists (wrap (length row) a). left. apply np_index_ok. unfold idx_ok; lia.
  - exists z. split; auto. apply np_index_bad; auto.
Qed.

(** Unfiltered score of column [i]. *)
Definition base_score (items : list (list T)) (norms : option (list T)) (q : list T) (i : nat) : T :=
  let d := ndot q (nth i items []) in
  match norms with None => d | Some ns => ndiv d (nth i ns nzero) end.

Lemma score_row_ok items norms q :
  (forall y, In y items -> length y = length q) ->
  (match norms with None => True | Some ns => length ns = length items end) ->
  score_row items norms q = Ok (map (base_score items norms q) (seq 0 (length items))).
Proof.
  intros W L. unfold score_row.
  assert (FB : forallb (fun y => length y =? length q) items = true).
  { apply forallb_forall. intros. apply Nat.eqb_eq; auto. }
  rewrite FB. cbn [negb].
  assert (E1 : map (fun y => ndot q y) items = map (fun i => ndot q (nth i items [])) (seq 0 (length items))).
  { apply (list_ext _ _ (ndot q [])); rewrite ?map_length, ?seq_length; auto.
    intros i Hi. rewrite (map_nth (fun y => ndot q y)).
    rewrite (nth_indep (map _ (seq _ _)) _ (ndot q (nth 0 items []))) by (rewrite map_length, seq_length; auto).
    rewrite (map_nth (fun i => ndot q (nth i items []))), seq_nth by auto. auto. }
  destruct norms as [ns|].
  - rewrite map_length, L, Nat.eqb_refl. f_equal. rewrite E1.
    apply (list_ext _ _ nzero).
    + rewrite !map_length, combine_length, map_length, seq_length. lia.
    + intros i Hi. rewrite map_length, combine_length, map_length, seq_length in Hi.
      rewrite (nth_indep (map (base_score _ _ _) _) nzero (base_score items (Some ns) q 0))
        by (rewrite map_length, seq_length; lia).
      rewrite (map_nth (base_score items (Some ns) q)), seq_nth by lia. simpl.
      rewrite (nth_indep _ nzero ((fun p => ndiv (fst p) (snd p)) (nzero, nzero)))
        by (rewrite map_length, combine_length, map_length, seq_length; lia).
      rewrite (map_nth (fun p => ndiv (fst p) (snd p))).
      rewrite combine_nth by (rewrite map_length, seq_length; lia). simpl.
      rewrite (nth_indep (map _ _) nzero (ndot q (nth 0 items [])))
        by (rewrite map_length, seq_length; lia).
      rewrite (map_nth (fun i => ndot q (nth i items []))), seq_nth by lia. auto.
  - f_equal. auto.
Qed.

(** Columns demoted to [fmin] for query row [g]. *)
Definition filtered (fq : option (csr T)) (fi : option (list Z)) (n g i : nat) : bool :=
  (match fq with None => false | Some m => memn i (csr_row_indices m g) end) ||
  (match fi with None => false | Some l => memn i (map (wrap n) l) end).

Lemma map_seq_length {A} (f : nat -> A) n : length (map f (seq 0 n)) = n.
Proof. rewrite map_length, seq_length; auto. Qed.

Lemma nth_map_seq {A} (f : nat -> A) n i d : i < n -> nth i (map f (seq 0 n)) d = f i.
Proof.
  intros. rewrite (nth_indep _ d (f 0)) by (rewrite map_seq_length; auto).
  rewrite map_nth, seq_nth by auto. auto.
Qed.

Lemma map_map_seq {A} (f : nat -> A) (g : nat -> A -> A) n d :
  map (fun j => g j (nth j (map f (seq 0 n)) d)) (seq 0 n) = map (fun j => g j (f j)) (seq 0 n).
Proof.
  apply map_ext_in. intros a Ha. apply in_seq in Ha. rewrite nth_map_seq by lia. auto.
Qed.

Lemma row_scores_ok items norms fq fi g q :
  (forall y, In y items -> length y = length q) ->
  (match norms with None => True | Some ns => length ns = length items end) ->
  (match fq with None => True | Some m => g < c_rows m /\
      forall i, In i (csr_row_indices m g) -> i < length items end) ->
  (match fi with None => True | Some l => forall z, In z l -> idx_ok (length items) z end) ->
  row_scores fmin items norms fq fi g q =
  Ok (map (fscore (filtered fq fi (length items) g) (base_score items norms q)) (seq 0 (length items))).
Proof.
  intros W L Bq Bi. unfold row_scores. rewrite score_row_ok by auto. cbn [bind].
  set (n := length items) in *.
  assert (E1 : (match fq with
           | None => Ok (map (base_score items norms q) (seq 0 n))
           | Some m => if g <? c_rows m
                       then set_cols (map Z.of_nat (csr_row_indices m g)) fmin
                              (map (base_score items norms q) (seq 0 n))
                       else Raise IndexError
           end) = Ok (map (fscore (filtered fq None n g) (base_score items norms q)) (seq 0 n))).
  { destruct fq as [m|].
    - destruct Bq as [Bg Bq]. destruct (Nat.ltb_spec g (c_rows m)); [|lia].
      rewrite set_cols_ok.
      + rewrite map_seq_length. f_equal.
        rewrite (map_map_seq (base_score items norms q)
          (fun j x => if memn j (map (wrap n) (map Z.of_nat (csr_row_indices m g))) then fmin else x)).
        apply map_ext_in. intros i Hi. unfold fscore, filtered. rewrite orb_false_r.
        rewrite map_map. erewrite map_ext; [|intros; apply wrap_nat]. rewrite map_id. auto.
      + intros z Hz. rewrite map_seq_length. apply in_map_iff in Hz. destruct Hz as [i [<- Hi]].
        apply Bq in Hi. unfold idx_ok. lia.
    - f_equal. }
  rewrite E1. cbn [bind]. destruct fi as [l|].
  - rewrite set_cols_ok.
    + rewrite map_seq_length. f_equal.
      rewrite (map_map_seq (fscore (filtered fq None n g) (base_score items norms q))
         (fun j x => if memn j (map (wrap n) l) then fmin else x)).
      apply map_ext. intros i. unfold fscore, filtered. rewrite orb_false_r.
      destruct fq as [m|]; [destruct (memn i (csr_row_indices m g))|]; simpl;
      destruct (memn i (map (wrap n) l)); auto.
    + intros z Hz. rewrite map_seq_length. auto.
  - auto.
Qed.

Lemma topk_row_topn items norms fq fi k g q : 0 < k ->
  (forall y, In y items -> length y = length q) ->
  (match norms with None => True | Some ns => length ns = length items end) ->
  (match fq with None => True | Some m => g < c_rows m /\
      forall i, In i (csr_row_indices m g) -> i < length items end) ->
  (match fi with None => True | Some l => forall z, In z l -> idx_ok (length items) z end) ->
  exists r, topk_row HP fmin items norms fq fi k g q = Ok r /\
    TopN (fscore (filtered fq fi (length items) g) (base_score items norms q))
         (seq 0 (length items)) (Nat.min k (length items)) (map snd r) (map fst r).
Proof.
  intros Hk W L Bq Bi. unfold topk_row. rewrite row_scores_ok by auto. cbn [bind].
  set (s := map _ _).
  destruct (select_row_topn HP HC k s nzero Hk) as [r [E TN]].
  exists r. split; auto. unfold s in TN at 2 3. rewrite map_seq_length in TN.
  eapply TopN_ext; [|exact TN]. intros i Hi. apply in_seq in Hi. unfold s. apply nth_map_seq. lia.
Qed.

(* ---------- recommend, scalar, no items list ---------- *)
(** All factor rows have the same width [f]. *)
Definition mf_wf (m : mf T) (f : nat) : Prop :=
  (forall x, In x (user_factors m) -> length x = f) /\
  (forall y, In y (item_factors m) -> length y = f).

(** The liked-item filter is usable: one row, indices inside the model. *)
Definition liked_ok (n rows : nat) (fl : bool) (ui : sparse_arg T) : Prop :=
  fl = true -> exists M, ui = Csr M /\ c_rows M = rows /\
     forall g i, g < rows -> In i (csr_row_indices M g) -> i < n.

Definition liked_csr (fl : bool) (ui : sparse_arg T) : option (csr T) :=
  if fl then match ui with Csr M => Some M | NotCsr => None end else None.

Definition fi_ok (n : nat) (fi : option arr) : Prop :=
  forall a z, fi = Some a -> In z (arr_list a) -> idx_ok n z.

Lemma gather_ok (rows : list (list T)) zs :
  (forall z, In z zs -> idx_ok (length rows) z) ->
  gather rows zs = Ok (map (fun z => nth (wrap (length rows) z) rows []) zs).
Proof.
  intros B. unfold gather. apply map_res_map. intros z Hz. rewrite np_index_ok by auto. auto.
Qed.

Lemma gather_bad (rows : list (list T)) zs :
  (exists z, In z zs /\ ~ idx_ok (length rows) z) -> gather rows zs = Raise IndexError.
Proof.
  intros [z [Hz B]]. unfold gather. apply map_res_raise.
  - intros a _. destruct (Z_le_dec (- Z.of_nat (length rows)) a), (Z_lt_dec a (Z.of_nat (length rows)));
    try (exists []; right; rewrite np_index_bad; auto; unfold idx_ok; lia).
    eexists. left. rewrite np_index_ok; [reflexivity|unfold idx_ok; lia].
  - exists z. split; auto. rewrite np_index_bad; auto.
Qed.

Lemma gate_ok {A} fl rc ui u (k : res A) n :
  liked_ok n (length (id_list u)) fl ui -> rc = false ->
  (do _ <- (if fl || rc then
             match ui with
             | NotCsr => Raise ValueError
             | Csr M => if c_rows M =? length (id_list u) then Ok tt else Raise ValueError
             end
           else Ok tt); k) = k.
Proof.
  intros L ->. rewrite orb_false_r. destruct fl; auto. destruct (L eq_refl) as [M [-> [E _]]].
  rewrite E, Nat.eqb_refl. auto.
Qed.

(** What [recommend] returns for one user, in general: the true top min(N, n) of
    the filtered scores, then padding with id 0 and score 0 up to N. *)
Lemma recommend_scalar m f recalc u ui N fl fi :
  mf_wf m f -> idx_ok (length (user_factors m)) u -> (0 < N)%Z -> item_factors m <> [] ->
  liked_ok (length (item_factors m)) 1 fl ui -> fi_ok (length (item_factors m)) fi ->
  exists ids scores,
    recommend HP fmin m recalc (Scalar u) ui N fl fi false None =
      Ok (OneRow (map Z.of_nat (pad (Z.to_nat N) 0 ids)) (pad (Z.to_nat N) nzero scores)) /\
    TopN (fscore (filtered (liked_csr fl ui) (option_map arr_list fi) (length (item_factors m)) 0)
            (fun i => ndot (nth (wrap (length (user_factors m)) u) (user_factors m) [])
                           (nth i (item_factors m) [])))
         (seq 0 (length (item_factors m))) (Nat.min (Z.to_nat N) (length (item_factors m))) ids scores.
Proof.
  intros [Wu Wi] Hu HN Hne Hl Hf. unfold recommend. rewrite (gate_ok fl false ui (Scalar u) _ _ Hl eq_refl).
  unfold user_factor. simpl id_list.
  rewrite gather_ok by (intros z [<-|[]]; auto). cbn [bind map].
  set (q := nth (wrap (length (user_factors m)) u) (user_factors m) []).
  assert (Lq : length q = f). { apply Wu. apply nth_In. apply wrap_lt; auto. }
  change (if fl then match ui with NotCsr => None | Csr M => Some M end else None)
    with (liked_csr fl ui).
  destruct (topk_row_topn (item_factors m) None (liked_csr fl ui) (option_map arr_list fi)
             (Z.to_nat N) 0 q) as [r [E TN]]; auto; try lia.
  { intros y Hy. rewrite Lq. auto. }
  { unfold liked_csr. destruct fl; auto. destruct (Hl eq_refl) as [M [-> [E B]]]. rewrite E.
    split; [lia|]. intros i Hi. apply (B 0); auto. }
  { destruct fi as [a|]; simpl; auto. intros z Hz. eapply Hf; eauto. }
  exists (map snd r), (map fst r). split.
  - destruct (topk HP fmin (item_factors m) [q] N None (liked_csr fl ui) (option_map arr_list fi))
      as [[I S]|e] eqn:ET.
    + apply topk_ok in ET; auto. destruct ET as [rs [F [-> ->]]].
      inversion F as [|? ? ? ? E1 E2]; subst. inversion E2; subst.
      unfold topk_row' in E1. simpl in E1. rewrite E in E1. inversion E1; subst. auto.
    + exfalso.
      assert (X : topk HP fmin (item_factors m) [q] N None (liked_csr fl ui) (option_map arr_list fi)
         = Ok (map (fun r => pad (Z.to_nat N) 0 (map snd r)) [r], map (fun r => pad (Z.to_nat N) nzero (map fst r)) [r])).
      { apply topk_ok; auto. exists [r]. split; auto. constructor; auto. }
      congruence.
  - exact TN.
Qed.
End Proofs.
