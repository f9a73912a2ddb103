(** The example scripts: properties C128-C129 of properties.jsonl. *)
From Coq Require Import List Arith Lia Bool ZArith Reals Lra Sorted Permutation.
From Verif Require Import Base Num Sparse TopkModel RecommendModel RecommendProofs KnnModel AlsLoss BprProofs Examples.
Import ListNotations.

(** The model answers every batch of row numbers below [n] item by item with [ans]. *)
Definition answers_each {T} (n : nat) (ask : asking (T := T)) (ans : nat -> list (Z * T)) : Prop :=
  forall b, (forall i, In i b -> i < n) -> ask b = Ok (map (fun i => map fst (ans i)) b, map (fun i => map snd (ans i)) b).
(** Every id in the answers is one of the [n] items. *)
Definition answers_valid {T} (rows n : nat) (ans : nat -> list (Z * T)) : Prop :=
  forall i p, i < rows -> In p (ans i) -> (0 <= fst p < Z.of_nat n)%Z.
(** The lines for one row: its name, the names of the items of the answer, and their scores. *)
Definition lines_of {A T} (d : A) (rows names : list A) (ans : nat -> list (Z * T)) (i : nat) : list (A * A * T) :=
  map (fun p => (nth i rows d, nth (Z.to_nat (fst p)) names d, snd p)) (ans i).
(** More popular first, and the lower number first among equals. *)
Definition popularity_order {T} (n : nat) (m : csr T) (order : list nat) : Prop :=
  Permutation order (seq 0 n) /\
  StronglySorted (fun a b => length (csr_row m b) < length (csr_row m a) \/ length (csr_row m a) = length (csr_row m b) /\ a < b) order.

(* ------------------------------------------------------------------ writing *)
Section Writing.
Context {T A : Type} (d : A).
Notation line := (A * A * T)%type.
Lemma emit_ok (ls : list line) : emit (map Ok ls) = (ls, Ok tt).
Proof. induction ls as [|l ls IH]; simpl; auto. rewrite IH. auto. Qed.
Lemma label_ok (names : list A) z : (0 <= z < Z.of_nat (length names))%Z -> label names z = Ok (nth (Z.to_nat z) names d).
Proof.
  intros B. unfold label, np_index. destruct (Z.leb_spec 0 z); [|lia]. destruct (Z.ltb_spec z (Z.of_nat (length names))); [|lia]. cbn [andb bind].
  rewrite (nth_error_nth' names d) by lia. auto.
Qed.
Lemma combine_split {B C} (l : list (B * C)) : combine (map fst l) (map snd l) = l.
Proof. induction l as [|[a b] l IH]; simpl; auto. f_equal; auto. Qed.
Lemma flat_map_enum {B C} (f : nat -> B -> list C) (g : B -> list C) l : forall k,
  (forall j b, nth_error l j = Some b -> f (k + j) b = g b) -> flat_map (fun p => f (fst p) (snd p)) (enum_from k l) = flat_map g l.
Proof.
  induction l as [|b l IH]; intros k E; simpl; auto. f_equal.
  - rewrite <- (E 0 b); auto. rewrite Nat.add_0_r. auto.
  - apply IH. intros j c H. rewrite <- (E (S j) c); auto. f_equal; lia.
Qed.
Lemma batch_lines_ok (ask : asking (T := T)) keep (rows names : list A) (ans : nat -> list (Z * T)) (batch : list nat) :
  answers_each (length rows) ask ans -> answers_valid (length rows) (length names) ans -> (forall i, In i batch -> i < length rows) ->
  batch_lines ask keep rows names batch = map Ok (flat_map (fun i => if keep i then lines_of d rows names ans i else []) batch).
Proof.
  intros HA HV B. unfold batch_lines. rewrite HA by auto. unfold enum.
  rewrite (flat_map_enum (fun k i => if keep i then row_lines (label rows (Z.of_nat i)) names (nth_error (map (fun i => map fst (ans i)) batch) k) (nth_error (map (fun i => map snd (ans i)) batch) k) else [])
    (fun i => map Ok (if keep i then lines_of d rows names ans i else [])) batch 0).
  - clear B. induction batch as [|i batch IH]; simpl; auto. rewrite map_app, IH. auto.
  - intros j i Hj. cbn [plus]. destruct (keep i); auto. assert (Bi : i < length rows) by (apply B; eapply nth_error_In; eauto).
    rewrite !nth_error_map, Hj. cbn [option_map]. rewrite label_ok by lia. unfold row_lines, lines_of. rewrite Nat2Z.id, combine_split.
    rewrite map_map. apply map_ext_in. intros p Hp. rewrite label_ok by (apply (HV i p Bi Hp)). auto.
Qed.
Lemma batches_concat bs : 0 < bs -> forall fuel l, length l <= fuel -> concat (batches fuel bs l) = l.
Proof.
  intros Hb. induction fuel as [|fuel IH]; intros l L.
  - destruct l; simpl in *; auto; lia.
  - destruct l as [|x l]; auto. cbn [batches concat]. rewrite IH.
    + apply firstn_skipn.
    + rewrite skipn_length. cbn [length] in *. lia.
Qed.
Lemma write_all_ok bs (ask : asking (T := T)) keep (rows names : list A) (ans : nat -> list (Z * T)) order : 0 < bs ->
  answers_each (length rows) ask ans -> answers_valid (length rows) (length names) ans -> (forall i, In i order -> i < length rows) ->
  write_all bs ask keep rows names order = (flat_map (fun i => if keep i then lines_of d rows names ans i else []) order, Ok tt).
Proof.
  intros Hb HA HV B. unfold write_all.
  replace (flat_map (batch_lines ask keep rows names) (batches (length order) bs order))
    with (map (@Ok line) (flat_map (fun i => if keep i then lines_of d rows names ans i else []) order)); [apply emit_ok|].
  pose proof (batches_concat bs Hb (length order) order (le_n _)) as E. rewrite <- E at 1.
  assert (BB : forall b, In b (batches (length order) bs order) -> forall i, In i b -> i < length rows).
  { intros b Hb' i Hi. apply B. rewrite <- E. apply in_concat. eauto. }
  clear E. induction (batches (length order) bs order) as [|b l IH]; simpl; auto.
  rewrite flat_map_app, map_app. f_equal.
  - symmetry. apply (batch_lines_ok ask keep rows names ans b); auto. intros i Hi. apply (BB b); [left; auto|auto].
  - apply IH. intros b' Hb'. apply BB. right; auto.
Qed.
End Writing.

(* ------------------------------------------------------------------ the order *)
Definition pop_lt (key : nat -> nat) (a b : nat) : Prop := key b < key a \/ key a = key b /\ a < b.
Lemma insert_popular_perm key x l : Permutation (insert_popular key x l) (x :: l).
Proof. induction l as [|y l IH]; simpl; auto. destruct (key y <? key x); auto. rewrite IH. apply perm_swap. Qed.
Lemma insert_popular_sorted key x l : StronglySorted (pop_lt key) l -> (forall y, In y l -> y < x) -> StronglySorted (pop_lt key) (insert_popular key x l).
Proof.
  induction 1 as [|y l S IH F]; intros B; simpl; [repeat constructor|]. destruct (Nat.ltb_spec (key y) (key x)) as [L|L].
  - constructor; [constructor; auto|]. constructor; [left; auto|]. rewrite Forall_forall in *. intros z Hz. left. destruct (F z Hz); lia.
  - constructor; [apply IH; intros z Hz; apply B; right; auto|]. rewrite Forall_forall in *. intros z Hz.
    apply (Permutation_in _ (insert_popular_perm key x l)) in Hz. destruct Hz as [<-|Hz]; auto.
    unfold pop_lt. specialize (B y (or_introl eq_refl)). destruct (Nat.eq_dec (key y) (key x)); lia.
Qed.
Lemma popular_fold key n : let l := fold_left (fun l x => insert_popular key x l) (seq 0 n) [] in
  Permutation l (seq 0 n) /\ StronglySorted (pop_lt key) l.
Proof.
  induction n as [|n [IP IS]]; [simpl; split; auto; constructor|]. cbv zeta in *. rewrite seq_S, fold_left_app. cbn [plus fold_left]. split.
  - rewrite insert_popular_perm, IP. apply Permutation_cons_append.
  - apply insert_popular_sorted; auto. intros y Hy. apply (Permutation_in _ IP) in Hy. apply in_seq in Hy. lia.
Qed.
Lemma counts_length {T} (m : csr T) : csr_wf m -> length (entry_counts m) = c_rows m.
Proof. intros W. unfold entry_counts. rewrite map_length, seq_length. destruct W. lia. Qed.
Lemma counts_nth {T} (m : csr T) i : csr_wf m -> i < c_rows m -> nth i (entry_counts m) 0 = length (csr_row m i).
Proof.
  intros W B. pose proof (counts_length m W) as L. rewrite csr_row_length by auto. unfold entry_counts in *.
  rewrite map_length, seq_length in L.
  set (f := fun i => nth (S i) (c_indptr m) 0 - nth i (c_indptr m) 0).
  rewrite nth_indep with (d' := f 0) by (rewrite map_length, seq_length; lia). rewrite map_nth, seq_nth by lia. reflexivity.
Qed.
Lemma order_ok {T} (m : csr T) n : csr_wf m -> n <= c_rows m -> exists order, by_popularity n (entry_counts m) = Ok order /\ popularity_order n m order.
Proof.
  intros W B. unfold by_popularity. rewrite counts_length by auto. destruct (Nat.ltb_spec (c_rows m) n); [lia|]. eexists. split; [reflexivity|].
  destruct (popular_fold (fun i => nth i (entry_counts m) 0) n) as [P S]. split; auto.
  set (l := fold_left _ _ _) in *.
  assert (BB : forall i, In i l -> i < c_rows m). { intros i Hi. apply (Permutation_in _ P) in Hi. apply in_seq in Hi. lia. }
  clear P. induction S as [|a l S IH F]; constructor.
  - apply IH. intros i Hi. apply BB. right; auto.
  - rewrite Forall_forall in *. intros b Hb. specialize (F b Hb). unfold pop_lt in F. rewrite !counts_nth in F by (auto; apply BB; simpl; auto). auto.
Qed.

(* ------------------------------------------------------------------ C128 *)
(** The scripts write, for every artist in order of popularity (or every user in order), one line per item of the
    model's answer, however many batches this takes.  Missing: answers padded with -1 (C128_refuted). *)
Theorem C128_similar_partial : forall T (A : Type) (d : A) (artists : list A) (plays : csr T) ask ans,
  csr_wf plays -> length artists <= c_rows plays ->
  answers_each (length artists) ask ans -> answers_valid (length artists) (length artists) ans ->
  exists order, popularity_order (length artists) plays order /\
    similar_artists artists plays ask = (Some (flat_map (lines_of d artists artists ans) order), Ok tt).
Proof.
  intros T A d artists plays ask ans W L HA HV. destruct (order_ok plays (length artists) W L) as [order [E PO]]. exists order. split; auto.
  unfold similar_artists. rewrite E. rewrite (write_all_ok d example_batch ask (fun _ => true) artists artists ans order); auto.
  - unfold example_batch. lia.
  - intros i Hi. apply (Permutation_in _ (proj1 PO)) in Hi. apply in_seq in Hi. lia.
Qed.
Print Assumptions C128_similar_partial.
Theorem C128_recommend_partial : forall T (A : Type) (d : A) (artists users : list A) ask (ans : nat -> list (Z * T)),
  answers_each (length users) ask ans -> answers_valid (length users) (length artists) ans ->
  artist_recommendations artists users ask = (Some (flat_map (lines_of d users artists ans) (seq 0 (length users))), Ok tt).
Proof.
  intros T A d artists users ask ans HA HV. unfold artist_recommendations.
  rewrite (write_all_ok d example_batch ask (fun _ => true) users artists ans (seq 0 (length users))); auto.
  - unfold example_batch. lia.
  - intros i Hi. apply in_seq in Hi. lia.
Qed.
Print Assumptions C128_recommend_partial.

(** If the model fails at one of the batches, the script ends with its exception, and the file holds the lines of
    the batches before. *)
Lemma emit_app {T A : Type} (ls : list (A * A * T)) (r : list (res (A * A * T))) : emit (map Ok ls ++ r) = ((ls ++ fst (emit r))%list, snd (emit r)).
Proof. induction ls as [|l ls IH]; simpl; [destruct (emit r); auto|]. rewrite IH. auto. Qed.
Lemma batch_lines_at {T A : Type} (d : A) (ask : asking (T := T)) (rows names : list A) (ans : nat -> list (Z * T)) (batch : list nat) :
  ask batch = Ok (map (fun i => map fst (ans i)) batch, map (fun i => map snd (ans i)) batch) ->
  (forall i, In i batch -> i < length rows /\ forall p, In p (ans i) -> (0 <= fst p < Z.of_nat (length names))%Z) ->
  batch_lines ask (fun _ => true) rows names batch = map Ok (flat_map (lines_of d rows names ans) batch).
Proof.
  intros EA B.
  set (ask' := fun b : list nat => Ok (map (fun i => map fst (ans i)) b, map (fun i => map snd (ans i)) b) : res (list (list Z) * list (list T))).
  assert (EB : batch_lines ask (fun _ => true) rows names batch = batch_lines ask' (fun _ => true) rows names batch) by (unfold batch_lines; rewrite EA; reflexivity).
  rewrite EB. set (ans' := fun i => if in_dec Nat.eq_dec i batch then ans i else []).
  set (ask2 := fun b : list nat => Ok (map (fun i => map fst (ans' i)) b, map (fun i => map snd (ans' i)) b) : res (list (list Z) * list (list T))).
  assert (EQ : forall i, In i batch -> ans' i = ans i) by (intros i Hi; unfold ans'; destruct (in_dec Nat.eq_dec i batch); tauto).
  assert (EC : batch_lines ask' (fun _ => true) rows names batch = batch_lines ask2 (fun _ => true) rows names batch).
  { unfold batch_lines, ask', ask2. rewrite (map_ext_in (fun i => map fst (ans i)) (fun i => map fst (ans' i))) by (intros i Hi; rewrite EQ; auto).
    rewrite (map_ext_in (fun i => map snd (ans i)) (fun i => map snd (ans' i))) by (intros i Hi; rewrite EQ; auto). reflexivity. }
  rewrite EC, (batch_lines_ok d ask2 (fun _ => true) rows names ans' batch).
  - f_equal. clear - EQ. clearbody ans'. induction batch as [|i b IH]; simpl; auto. unfold lines_of at 1 3. rewrite EQ by (left; auto). f_equal. apply IH. intros j Hj. apply EQ. right; auto.
  - intros b _. reflexivity.
  - intros i p Bi Hp. unfold ans' in Hp. destruct (in_dec Nat.eq_dec i batch) as [Hi|]; [|destruct Hp]. apply (B i Hi). auto.
  - intros i Hi. apply (B i Hi).
Qed.
Lemma write_interrupted {T A : Type} (d : A) bs (ask : asking (T := T)) (rows names : list A) (ans : nat -> list (Z * T)) e post : 0 < bs -> post <> [] ->
  ask (firstn bs post) = Raise e -> forall j pre fuel, length pre = bs * j -> length (pre ++ post) <= fuel ->
  (forall b, incl b pre -> ask b = Ok (map (fun i => map fst (ans i)) b, map (fun i => map snd (ans i)) b)) ->
  (forall i, In i pre -> i < length rows /\ forall p, In p (ans i) -> (0 <= fst p < Z.of_nat (length names))%Z) ->
  emit (flat_map (batch_lines ask (fun _ => true) rows names) (batches fuel bs (pre ++ post))) = (flat_map (lines_of d rows names ans) pre, Raise e).
Proof.
  intros Hb NE EP. induction j as [|j IH]; intros pre fuel LP LF EA B.
  - rewrite Nat.mul_0_r in LP. destruct pre; [|discriminate LP]. cbn [app flat_map] in *. destruct post as [|x post]; [congruence|].
    destruct fuel as [|fuel]; [simpl in LF; lia|]. cbn [batches flat_map]. unfold batch_lines at 1. rewrite EP. reflexivity.
  - assert (L1 : bs <= length pre) by nia. destruct pre as [|x pre']; [simpl in L1; lia|]. set (pre := x :: pre') in *.
    destruct fuel as [|fuel]; [unfold pre in LF; simpl in LF; lia|].
    change (batches (S fuel) bs (pre ++ post)) with (firstn bs (pre ++ post) :: batches fuel bs (skipn bs (pre ++ post))). cbn [flat_map].
    rewrite firstn_app, skipn_app. replace (bs - length pre) with 0 by lia. rewrite firstn_O, app_nil_r. cbn [skipn].
    rewrite (batch_lines_at d ask rows names ans (firstn bs pre)).
    + etransitivity; [apply emit_app|]. rewrite IH.
      * cbn [fst snd]. rewrite <- flat_map_app, firstn_skipn. auto.
      * rewrite skipn_length. nia.
      * rewrite app_length, skipn_length. rewrite app_length in LF. lia.
      * intros b Ib. apply EA. intros i Hi. apply Ib in Hi. rewrite <- (firstn_skipn bs pre). apply in_or_app. auto.
      * intros i Hi. apply B. rewrite <- (firstn_skipn bs pre). apply in_or_app. auto.
    + apply EA. intros i Hi. rewrite <- (firstn_skipn bs pre). apply in_or_app. auto.
    + intros i Hi. apply B. rewrite <- (firstn_skipn bs pre). apply in_or_app. auto.
Qed.
Theorem C128_interrupted : forall T (A : Type) (d : A) (artists users : list A) ask (ans : nat -> list (Z * T)) j e,
  example_batch * j < length users ->
  (forall b, (forall i, In i b -> i < example_batch * j) -> ask b = Ok (map (fun i => map fst (ans i)) b, map (fun i => map snd (ans i)) b)) ->
  answers_valid (example_batch * j) (length artists) ans ->
  ask (firstn example_batch (seq (example_batch * j) (length users - example_batch * j))) = Raise e ->
  artist_recommendations artists users ask = (Some (flat_map (lines_of d users artists ans) (seq 0 (example_batch * j))), Raise e).
Proof.
  intros T A d artists users ask ans j e LU EA HV EP. unfold artist_recommendations, write_all.
  assert (LB : 0 < example_batch) by (unfold example_batch; lia). revert LU EA HV EP LB. generalize example_batch. intros bs LU EA HV EP LB.
  assert (ES : seq 0 (length users) = seq 0 (bs * j) ++ seq (bs * j) (length users - bs * j)).
  { rewrite <- (seq_app (bs * j)). f_equal. lia. }
  assert (W : emit (flat_map (batch_lines ask (fun _ => true) users artists) (batches (length (seq 0 (length users))) bs (seq 0 (length users)))) =
              (flat_map (lines_of d users artists ans) (seq 0 (bs * j)), Raise e)).
  { replace (batches (length (seq 0 (length users))) bs (seq 0 (length users)))
      with (batches (length (seq 0 (length users))) bs (seq 0 (bs * j) ++ seq (bs * j) (length users - bs * j))) by (rewrite <- ES; reflexivity).
    apply write_interrupted with (j := j); auto.
    - assert (Q : 0 < length users - bs * j) by lia. revert Q. generalize (length users - bs * j). intros [|x] Q; [lia|discriminate].
    - apply seq_length.
    - rewrite app_length, !seq_length. lia.
    - intros b Ib. apply EA. intros i Hi. apply Ib in Hi. apply in_seq in Hi. lia.
    - intros i Hi. apply in_seq in Hi. split; [lia|]. intros p Hp. apply (HV i p); auto. lia. }
  cbv zeta. rewrite W. reflexivity.
Qed.
Print Assumptions C128_interrupted.
Example C128_interrupted_example : let ask := fun b : list nat => match b with [] => Ok ([], []) | _ => Raise KeyError end in
  artist_recommendations (T := Z) [10; 20] [1; 2; 3] ask = (Some [], Raise KeyError).
Proof.
  cbv zeta. apply (C128_interrupted Z nat 0 [10; 20] [1; 2; 3] _ (fun _ => []) 0); rewrite ?Nat.mul_0_r.
  - simpl. lia.
  - intros b H. destruct b as [|i b]; [reflexivity|]. specialize (H i (or_introl eq_refl)). lia.
  - intros i p Hi. lia.
  - unfold example_batch. reflexivity.
Qed.

(** similar_items(batch, 11) of an item-item model, and an argsort for it. *)
Definition ask_item_item {T} `{Num T} (fmin fmin32 : T) (argsort : list T -> list nat) (sim : csr T) : asking (T := T) := fun b =>
  do r <- ii_similar fmin fmin32 argsort sim (Batch (map Z.of_nat b)) 11 false None None;
  match r with ManyRows ids scores => Ok (ids, scores) | OneRow _ _ => Raise TypeError end.
(** False for item-item models: the answers are padded with -1, which names the last artist.  Three artists, no two of them
    similar: the file says that artist 10 is similar to artist 30, with the lowest score there is, and the list of artist 30
    itself starts with itself ten times over. *)
Theorem C128_refuted : exists (artists : list nat) (plays sim : csr Z) lines,
  csr_wf plays /\ length artists = c_rows plays /\ c_rows sim = c_rows plays /\ csr_row_indices sim 0 = [0] /\
  similar_artists artists plays (ask_item_item (-1000)%Z (-1000)%Z (fun l => seq 0 (length l)) sim) = (Some lines, Ok tt) /\
  nth_error artists 0 = Some 10 /\ nth_error artists 2 = Some 30 /\ In (10, 30, (-1000)%Z) lines.
Proof.
  exists [10; 20; 30], (csr_of_rows 2 [[(0, 1%Z); (1, 1%Z)]; [(0, 1%Z)]; []]), (csr_of_rows 3 [[(0, 1%Z)]; [(1, 1%Z)]; []]).
  eexists. split; [|split; [reflexivity|split; [reflexivity|split; [reflexivity|split; [|split; [reflexivity|split; [reflexivity|]]]]]]].
  - apply csr_of_rows_wf. intros r p Hr Hp. cbn in Hr. repeat (destruct Hr as [<-|Hr]; [cbn in Hp; repeat (destruct Hp as [<-|Hp]; [cbn; lia|]); tauto|]). tauto.
  - vm_compute. reflexivity.
  - cbn. auto.
Qed.
Print Assumptions C128_refuted.

Lemma example_wf rows : (forall r p, In r rows -> In p r -> fst p < 3) -> csr_wf (csr_of_rows (T := Z) 3 rows).
Proof. apply csr_of_rows_wf. Qed.
(** Two artists, the second more popular; a model that answers with both, best first. *)
Example C128_example : let plays := csr_of_rows 3 [[(0, 1%Z)]; [(0, 1%Z); (2, 1%Z)]] in
  let ans := fun i => [(Z.of_nat i, 9%Z); (Z.of_nat (1 - i), 4%Z)] in
  let ask := fun b => Ok (map (fun i => map fst (ans i)) b, map (fun i => map snd (ans i)) b) in
  csr_wf plays /\ answers_each 2 ask ans /\ answers_valid 2 2 ans /\
  similar_artists [10; 20] plays ask = (Some [(20, 20, 9%Z); (20, 10, 4%Z); (10, 10, 9%Z); (10, 20, 4%Z)], Ok tt).
Proof.
  cbv zeta. split; [|split; [|split]].
  - apply example_wf. intros r p Hr Hp. cbn in Hr. repeat (destruct Hr as [<-|Hr]; [cbn in Hp; repeat (destruct Hp as [<-|Hp]; [cbn; lia|]); tauto|]). tauto.
  - intros b _. reflexivity.
  - intros i p B H. destruct i as [|[|i]]; [| |lia]; cbn in H; destruct H as [<-|[<-|[]]]; cbn; lia.
  - reflexivity.
Qed.

(* ------------------------------------------------------------------ C129 *)
(** The matrix trained on: a one exactly for the ratings of at least min_rating. *)
Theorem C129_ratings : forall (min_rating : R) (m : csr R) u i v, (0 < min_rating)%R -> u < c_rows m ->
  In (i, v) (csr_row (binarise min_rating m) u) <-> v = 1%R /\ exists w, In (i, w) (csr_row m u) /\ (min_rating <= w)%R.
Proof.
  intros min_rating m u i v M B. unfold binarise. rewrite csr_row_of_rows.
  rewrite nth_map_seq by auto.
  rewrite in_map_iff. split.
  - intros [[j w] [E H]]. apply filter_In in H. destruct H as [H N]. apply in_map_iff in H. destruct H as [[k x] [E2 H]].
    cbn [fst snd] in *. injection E2 as <- <-. injection E as <- <-. split; [reflexivity|]. exists x. split; auto.
    revert N. unfold neqb. simpl. unfold Rltb. destruct (Rlt_dec x min_rating); [|intros; lra]. destruct (Rlt_dec 0 0); [lra|]. discriminate.
  - intros [-> [w [H L]]]. exists (i, w). split; [reflexivity|]. apply filter_In. split.
    + apply in_map_iff. exists (i, w). split; auto. cbn [fst snd]. simpl. unfold Rltb. destruct (Rlt_dec w min_rating); [lra|reflexivity].
    + cbn [snd]. unfold neqb. simpl. unfold Rltb. destruct (Rlt_dec w 0); [lra|]. destruct (Rlt_dec 0 w); [reflexivity|lra].
Qed.
Print Assumptions C129_ratings.

(** If every movie has a row, the script writes the lists of the movies that have a rating left, most rated first.
    Missing: a list of movies that goes past the last rated one (C129_refuted). *)
Theorem C129_partial : forall T (A : Type) (d : A) (titles : list A) (ratings : csr T) ask ans,
  csr_wf ratings -> length titles <= c_rows ratings ->
  answers_each (length titles) ask ans -> answers_valid (length titles) (length titles) ans ->
  exists order, popularity_order (length titles) ratings order /\
    similar_movies titles ratings ask =
      (Some (flat_map (fun i => match csr_row ratings i with [] => [] | _ => lines_of d titles titles ans i end) order), Ok tt).
Proof.
  intros T A d titles ratings ask ans W L HA HV. destruct (order_ok ratings (length titles) W L) as [order [E PO]]. exists order. split; auto.
  unfold similar_movies. rewrite E.
  assert (B : forall i, In i order -> i < length titles). { intros i Hi. apply (Permutation_in _ (proj1 PO)) in Hi. apply in_seq in Hi. lia. }
  rewrite (write_all_ok d example_batch ask (fun i => negb (nth i (c_indptr ratings) 0 =? nth (S i) (c_indptr ratings) 0)) titles titles ans order); auto.
  - cbn [fst snd]. do 2 f_equal. clear E PO. induction order as [|i order IH]; simpl; auto. f_equal; [|apply IH; intros j Hj; apply B; right; auto].
    assert (Bi : i < c_rows ratings) by (specialize (B i (or_introl eq_refl)); lia).
    pose proof (csr_row_length ratings i W Bi) as LR. pose proof (wf_indptr_mono ratings W i (S i) ltac:(lia) ltac:(lia)) as MO.
    destruct (Nat.eqb_spec (nth i (c_indptr ratings) 0) (nth (S i) (c_indptr ratings) 0)) as [Q|Q]; cbn [negb]; destruct (csr_row ratings i); auto; simpl in LR; lia.
  - unfold example_batch. lia.
Qed.
Print Assumptions C129_partial.

(** False: a movie numbered past the last rated one stops the script with IndexError before it writes anything, for every model. *)
Theorem C129_unrated_last : forall T (A : Type) (titles : list A) (ratings : csr T) ask, csr_wf ratings -> c_rows ratings < length titles ->
  similar_movies titles ratings ask = (None, Raise IndexError).
Proof.
  intros T A titles ratings ask W L. unfold similar_movies, by_popularity. rewrite counts_length by auto.
  destruct (Nat.ltb_spec (c_rows ratings) (length titles)); [reflexivity|lia].
Qed.
Print Assumptions C129_unrated_last.
Theorem C129_refuted : exists (titles : list nat) (ratings : csr Z), csr_wf ratings /\ length titles = S (c_rows ratings) /\
  forall ask, similar_movies titles ratings ask = (None, Raise IndexError).
Proof.
  exists [10; 20], (csr_of_rows 3 [[(0, 1%Z)]]). split; [|split; [reflexivity|]].
  - apply example_wf. intros r p [<-|[]] [<-|[]]. cbn. lia.
  - intros ask. reflexivity.
Qed.
Print Assumptions C129_refuted.

(** Movie 1 has only a rating of 2: it is dropped, and its list is not written. *)
Example C129_example : let m := csr_of_rows 3 [[(0, 5%Z)]; [(1, 2%Z)]; [(0, 4%Z); (2, 5%Z)]] in
  let ans := fun i => [(Z.of_nat i, 9%Z)] in
  let ask := fun b => Ok (map (fun i => map fst (ans i)) b, map (fun i => map snd (ans i)) b) in
  binarise 4%Z m = csr_of_rows 3 [[(0, 1%Z)]; []; [(0, 1%Z); (2, 1%Z)]] /\ csr_wf (binarise 4%Z m) /\
  similar_movies [10; 20; 30] (binarise 4%Z m) ask = (Some [(30, 30, 9%Z); (10, 10, 9%Z)], Ok tt) /\
  c_rows m < length [10; 20; 30; 40].
Proof.
  cbv zeta. split; [reflexivity|]. split; [|split; [reflexivity|cbn; lia]].
  change (csr_wf (csr_of_rows 3 [[(0, 1%Z)]; []; [(0, 1%Z); (2, 1%Z)]])).
  apply example_wf. intros r p Hr Hp. cbn in Hr. repeat (destruct Hr as [<-|Hr]; [cbn in Hp; repeat (destruct Hp as [<-|Hp]; [cbn; lia|]); tauto|]). tauto.
Qed.
