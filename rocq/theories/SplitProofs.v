(** Facts about sparse-matrix construction and the index arithmetic of the splits. *)
From Coq Require Import List Arith Lia Bool ZArith QArith.Qround QArith Permutation Sorted.
From Verif Require Import Base Num Sparse TopkModel TopkBatch RecommendModel KnnProofs WeightModel SplitModel.
Import ListNotations.
Local Close Scope Q_scope.
Local Open Scope nat_scope.

(** The stored ratings of a matrix. *)
Definition stored {T} (m : csr T) : list (nat * nat * T) :=
  flat_map (fun u => map (fun p => (u, fst p, snd p)) (csr_row m u)) (seq 0 (c_rows m)).
Definition coord {T} (e : nat * nat * T) : nat * nat := (erow e, ecol e).

Lemma memn_in x l : memn x l = true <-> In x l.
Proof. apply memn_spec. Qed.

Lemma Permutation_filter {A} (p : A -> bool) l l' : Permutation l l' -> Permutation (filter p l) (filter p l').
Proof.
  induction 1; simpl; auto.
  - destruct (p x); auto.
  - destruct (p x), (p y); auto. constructor.
  - etransitivity; eauto.
Qed.
Lemma filter_length_le {A} (p : A -> bool) l : length (filter p l) <= length l.
Proof. induction l; simpl; auto. destruct (p a); simpl; lia. Qed.
Lemma nth_map_seq {A} (f : nat -> A) n i d : i < n -> nth i (map f (seq 0 n)) d = f i.
Proof.
  intros L. rewrite (nth_indep _ d (f 0)) by (rewrite map_length, seq_length; auto). rewrite map_nth, seq_nth by auto. auto.
Qed.

Section Coo.
Context {T : Type} `{Num T}.
Implicit Types es : list (nat * nat * T).

Lemma has_coord_spec es i j : has_coord es i j = true <-> In (i, j) (map coord es).
Proof.
  unfold has_coord, at_coord. rewrite negb_true_iff, Nat.eqb_neq. rewrite in_map_iff. split.
  - intros L. destruct (filter _ es) as [|e l] eqn:E; [simpl in L; lia|].
    assert (X : In e (filter (fun e => (erow e =? i) && (ecol e =? j)) es)) by (rewrite E; left; auto).
    apply filter_In in X. destruct X as [X1 X2]. apply andb_true_iff in X2. destruct X2 as [A B].
    apply Nat.eqb_eq in A, B. exists e. split; auto. unfold coord. congruence.
  - intros [e [E Hin]] L. assert (X : In e (filter (fun e => (erow e =? i) && (ecol e =? j)) es)).
    { apply filter_In. split; auto. unfold coord in E. inversion E. rewrite !Nat.eqb_refl. auto. }
    destruct (filter _ es); [destruct X|simpl in L; lia].
Qed.

Lemma csr_of_coo_row (X : coo T) i : i < o_rows X ->
  csr_row (csr_of_coo X) i = map (fun j => (j, sum1 (map eval_ (at_coord i j (o_entries X)))))
                       (filter (has_coord (o_entries X) i) (seq 0 (o_cols X))).
Proof.
  intros Hi. unfold csr_of_coo. rewrite csr_row_of_rows.
  rewrite nth_map_seq by auto. auto.
Qed.
Lemma csr_of_coo_row_out (X : coo T) i : o_rows X <= i -> csr_row (csr_of_coo X) i = [].
Proof.
  intros Hi. unfold csr_of_coo. rewrite csr_row_of_rows. apply nth_overflow. rewrite map_length, seq_length. auto.
Qed.

Definition coo_wf (X : coo T) : Prop := forall e, In e (o_entries X) -> erow e < o_rows X /\ ecol e < o_cols X.

Lemma stored_in (X : coo T) i j v : coo_wf X ->
  In (i, j, v) (stored (csr_of_coo X)) <->
  In (i, j) (map coord (o_entries X)) /\ v = sum1 (map eval_ (at_coord i j (o_entries X))).
Proof.
  intros W. unfold stored. rewrite in_flat_map. split.
  - intros [u [Hu Hin]]. apply in_seq in Hu. simpl in Hu. rewrite map_length, seq_length in Hu.
    rewrite csr_of_coo_row in Hin by lia. apply in_map_iff in Hin. destruct Hin as [p [E Hp]].
    apply in_map_iff in Hp. destruct Hp as [j' [<- Hj]]. apply filter_In in Hj. destruct Hj as [_ Hj].
    simpl in E. inversion E; subst. split; auto. apply has_coord_spec; auto.
  - intros [Hin ->]. assert (B : i < o_rows X /\ j < o_cols X).
    { apply in_map_iff in Hin. destruct Hin as [e [E He]]. apply W in He. unfold coord in E. inversion E; subst. auto. }
    exists i. split; [apply in_seq; simpl; rewrite map_length, seq_length; lia|].
    rewrite csr_of_coo_row by tauto. rewrite map_map. apply in_map_iff. exists j. split; auto. apply filter_In.
    split; [apply in_seq; lia|]. apply has_coord_spec; auto.
Qed.

Lemma stored_coord_nodup (X : coo T) : NoDup (map coord (stored (csr_of_coo X))).
Proof.
  unfold stored. assert (G : forall us, NoDup us -> (forall u, In u us -> u < o_rows X) ->
     NoDup (map coord (flat_map (fun u => map (fun p => (u, fst p, snd p)) (csr_row (csr_of_coo X) u)) us))).
  { induction us as [|u us IH]; intros ND B; [constructor|]. inversion ND; subst. simpl. rewrite map_app. apply NoDup_app_intro.
    - rewrite csr_of_coo_row by (apply B; left; auto). rewrite !map_map. simpl.
      apply FinFun.Injective_map_NoDup; [|apply NoDup_filter, seq_NoDup].
      intros a b E. unfold coord, erow, ecol in E. simpl in E. congruence.
    - apply IH; auto. intros; apply B; right; auto.
    - intros c G1 G2. apply in_map_iff in G1. destruct G1 as [e [<- He]]. apply in_map_iff in He. destruct He as [p [<- _]].
      apply in_map_iff in G2. destruct G2 as [e2 [E He2]]. apply in_flat_map in He2. destruct He2 as [u2 [Hu2 Hp2]].
      apply in_map_iff in Hp2. destruct Hp2 as [p2 [<- _]]. unfold coord, erow, ecol in E. simpl in E. inversion E; subst. contradiction. }
  apply G; [apply seq_NoDup|]. intros u Hu. apply in_seq in Hu. simpl in Hu. rewrite map_length, seq_length in Hu. lia.
Qed.

Lemma nodup_map_nodup {A B} (f : A -> B) l : NoDup (map f l) -> NoDup l.
Proof.
  induction l; simpl; intros ND; [constructor|]. inversion ND as [|? ? A1 A2]; subst. constructor; auto.
  intros X. apply A1, in_map; auto.
Qed.

(** Distinct coordinates: at most one entry per coordinate. *)
Lemma at_coord_single es e : NoDup (map coord es) -> In e es -> at_coord (erow e) (ecol e) es = [e].
Proof.
  unfold at_coord. induction es as [|x es IH]; [intros _ []|]. simpl. intros ND Hin. inversion ND as [|? ? A1 A2]; subst.
  destruct ((erow x =? erow e) && (ecol x =? ecol e)) eqn:E.
  - apply andb_true_iff in E. destruct E as [E1 E2]. apply Nat.eqb_eq in E1, E2.
    assert (X : coord x = coord e) by (unfold coord; congruence).
    destruct Hin as [->|Hin]; [|exfalso; apply A1; rewrite X; apply in_map; auto].
    f_equal. clear IH. assert (F : forall y, In y es -> (erow y =? erow e) && (ecol y =? ecol e) = false).
    { intros y Hy. destruct ((erow y =? erow e) && (ecol y =? ecol e)) eqn:Ey; auto. exfalso.
      apply andb_true_iff in Ey. destruct Ey as [F1 F2]. apply Nat.eqb_eq in F1, F2. apply A1.
      replace (coord e) with (coord y) by (unfold coord; congruence). apply in_map; auto. }
    clear -F. induction es as [|y es IH]; auto. simpl. rewrite F by (left; auto). apply IH. intros; apply F; right; auto.
  - destruct Hin as [->|Hin]; [rewrite !Nat.eqb_refl in E; discriminate|]. auto.
Qed.

Lemma stored_perm (X : coo T) : coo_wf X -> NoDup (map coord (o_entries X)) ->
  Permutation (stored (csr_of_coo X)) (o_entries X).
Proof.
  intros W ND. apply NoDup_Permutation.
  - eapply nodup_map_nodup, stored_coord_nodup.
  - eapply nodup_map_nodup; eauto.
  - intros [[i j] v]. rewrite stored_in by auto. split.
    + intros [Hin ->]. apply in_map_iff in Hin. destruct Hin as [e [E He]]. unfold coord in E. inversion E; subst.
      rewrite (at_coord_single _ e) by auto. simpl. destruct e as [[? ?] ?]. auto.
    + intros Hin. split; [change (i, j) with (coord (i, j, v)); apply in_map; auto|].
      change i with (erow (i, j, v)) at 1. change j with (ecol (i, j, v)) at 1. rewrite at_coord_single by auto. auto.
Qed.

Lemma stored_coords (X : coo T) c : coo_wf X -> (In c (map coord (stored (csr_of_coo X))) <-> In c (map coord (o_entries X))).
Proof.
  intros W. split.
  - intros Hin. apply in_map_iff in Hin. destruct Hin as [[[i j] v] [<- He]]. apply stored_in in He; auto. apply He.
  - destruct c as [i j]. intros Hin. apply in_map_iff. eexists (i, j, _). split; [reflexivity|]. apply stored_in; auto.
Qed.

Lemma row_length (X : coo T) i : length (csr_row (csr_of_coo X) i) =
  if i <? o_rows X then length (filter (has_coord (o_entries X) i) (seq 0 (o_cols X))) else 0.
Proof.
  destruct (Nat.ltb_spec i (o_rows X)) as [L|L].
  - rewrite csr_of_coo_row by auto. apply map_length.
  - rewrite csr_of_coo_row_out by auto. auto.
Qed.
End Coo.

(* ------------------------------------------------------------------ *)
(** Sorted lists of naturals. *)
Definition cnt_le (l : list nat) (u : nat) : nat := length (filter (fun x => x <=? u) l).
Definition cnt_lt (l : list nat) (u : nat) : nat := length (filter (fun x => x <? u) l).

Lemma sorted_split s u : StronglySorted le s ->
  s = filter (fun x => x <? u) s ++ filter (fun x => x =? u) s ++ filter (fun x => u <? x) s.
Proof.
  induction 1 as [|x s SS IH F]; auto. rewrite Forall_forall in F.
  assert (E0 : forall (p : nat -> bool), (forall y, In y s -> p y = false) -> filter p s = []).
  { intros p. clear. induction s; simpl; auto. intros Y. rewrite (Y a) by auto. apply IHs. intros; apply Y; auto. }
  simpl. destruct (Nat.ltb_spec x u); simpl.
  - destruct (Nat.eqb_spec x u); [lia|]. destruct (Nat.ltb_spec u x); [lia|]. f_equal. exact IH.
  - rewrite (E0 (fun x => x <? u)) in * by (intros y Hy; apply F in Hy; apply Nat.ltb_ge; lia). simpl in *.
    destruct (Nat.eqb_spec x u); simpl.
    + destruct (Nat.ltb_spec u x); [lia|]. f_equal. exact IH.
    + rewrite (E0 (fun x => x =? u)) in * by (intros y Hy; apply F in Hy; apply Nat.eqb_neq; lia). simpl in *.
      destruct (Nat.ltb_spec u x); [|lia]. f_equal. exact IH.
Qed.

Lemma cnt_le_lt l u : cnt_le l u = cnt_lt l u + count_occ Nat.eq_dec l u.
Proof.
  unfold cnt_le, cnt_lt. induction l as [|x l IH]; auto. simpl.
  destruct (Nat.eq_dec x u); destruct (Nat.leb_spec x u), (Nat.ltb_spec x u); simpl; try lia.
Qed.

Lemma sorted_nth s u p : StronglySorted le s -> cnt_lt s u <= p < cnt_le s u -> nth p s 0 = u.
Proof.
  intros SS [A B]. rewrite (sorted_split s u SS). rewrite cnt_le_lt in B. unfold cnt_lt in *.
  assert (C : count_occ Nat.eq_dec s u = length (filter (fun x => x =? u) s)).
  { clear. induction s; auto. simpl. destruct (Nat.eq_dec a u), (Nat.eqb_spec a u); simpl; auto; lia. }
  rewrite app_nth2 by lia. rewrite app_nth1 by lia.
  assert (X : In (nth (p - length (filter (fun x => x <? u) s)) (filter (fun x => x =? u) s) 0) (filter (fun x => x =? u) s)) by (apply nth_In; lia).
  apply filter_In in X. destruct X as [_ X]. apply Nat.eqb_eq in X. auto.
Qed.

Lemma cnt_le_mono l u w : u <= w -> cnt_le l u <= cnt_le l w.
Proof.
  intros L. unfold cnt_le. induction l; auto. simpl. destruct (Nat.leb_spec a u), (Nat.leb_spec a w); simpl; lia.
Qed.
Lemma cnt_le_all l u : list_max l <= u -> cnt_le l u = length l.
Proof.
  intros L. apply list_max_le in L. unfold cnt_le. induction L; auto. simpl. destruct (Nat.leb_spec x u); simpl; lia.
Qed.

Lemma cumsum_nth a l i : i < length l -> nth i (cumsum a l) 0 = a + fold_right Nat.add 0 (firstn (S i) l).
Proof.
  revert a i. induction l as [|x l IH]; simpl; intros a i L; [lia|]. destruct i; simpl; [lia|]. rewrite IH by lia. simpl. lia.
Qed.
Lemma cumsum_length a l : length (cumsum a l) = length l.
Proof. revert a; induction l; simpl; auto. Qed.

Lemma sum_app a b : fold_right Nat.add 0 (a ++ b) = fold_right Nat.add 0 a + fold_right Nat.add 0 b.
Proof. induction a; simpl; lia. Qed.

Lemma counts_sum l m : fold_right Nat.add 0 (map (count_occ Nat.eq_dec l) (seq 0 (S m))) = cnt_le l m.
Proof.
  induction m.
  - simpl. unfold cnt_le. rewrite Nat.add_0_r. induction l; auto. simpl.
    destruct (Nat.eq_dec a 0), (Nat.leb_spec a 0); simpl; auto; lia.
  - rewrite seq_S, map_app, sum_app. cbn [map fold_right]. rewrite IHm. rewrite (cnt_le_lt l (S m)). simpl (0 + S m).
    rewrite Nat.add_0_r. reflexivity.
Qed.

Lemma firstn_seq i s n : i <= n -> firstn i (seq s n) = seq s i.
Proof. revert s n. induction i; intros; auto. destruct n; [lia|]. simpl. f_equal. apply IHi. lia. Qed.

(** [cumsum(bincount(l))[w]]: how many elements are at most w. *)
Lemma ends_spec l : l <> [] -> cumsum 0 (bincount l) = map (cnt_le l) (seq 0 (S (list_max l))).
Proof.
  intros NE. unfold bincount. destruct l as [|x l']; [tauto|]. set (l := x :: l') in *. clearbody l.
  apply (list_ext _ _ 0).
  - rewrite cumsum_length, !map_length. auto.
  - rewrite cumsum_length, map_length. intros i Hi. rewrite seq_length in Hi.
    rewrite cumsum_nth by (rewrite map_length, seq_length; auto).
    rewrite firstn_map, firstn_seq by lia. rewrite counts_sum.
    rewrite (nth_indep _ 0 (cnt_le l 0)) by (rewrite map_length, seq_length; auto).
    rewrite map_nth, seq_nth by auto. auto.
Qed.

(** numpy's argsort: some permutation of the positions that sorts the keys. *)
Definition argsort_ok (argsort : list Z -> list nat) : Prop :=
  forall keys, Permutation (argsort keys) (seq 0 (length keys)) /\
    StronglySorted Z.le (map (fun i => nth i keys 0%Z) (argsort keys)).

Lemma sorted_perm_unique (a b : list nat) : StronglySorted le a -> StronglySorted le b -> Permutation a b -> a = b.
Proof.
  revert b. induction a as [|x a IH]; intros b SA SB P.
  - apply Permutation_nil in P. auto.
  - destruct b as [|y b]; [apply Permutation_sym, Permutation_nil in P; discriminate|].
    inversion SA as [|? ? SA1 FA]; inversion SB as [|? ? SB1 FB]; subst. rewrite Forall_forall in *.
    assert (x = y).
    { assert (IX : In x (y :: b)) by (apply (Permutation_in _ P); left; auto).
      assert (IY : In y (x :: a)) by (apply (Permutation_in _ (Permutation_sym P)); left; auto).
      destruct IX as [|IX]; auto. destruct IY as [|IY]; auto. apply FB in IX. apply FA in IY. lia. }
    subst y. f_equal. apply IH; auto. eapply Permutation_cons_inv; eauto.
Qed.

Lemma map_nth_seq {A} (l : list A) d : map (fun i => nth i l d) (seq 0 (length l)) = l.
Proof.
  apply (list_ext _ _ d); rewrite map_length, seq_length; auto. intros i Hi.
  rewrite (nth_indep _ d ((fun i => nth i l d) 0)) by (rewrite map_length, seq_length; auto).
  rewrite (map_nth (fun i => nth i l d)), seq_nth by auto. auto.
Qed.

Lemma ss_map_impl {A} (R S : A -> A -> Prop) l : (forall x y, In x l -> In y l -> R x y -> S x y) ->
  StronglySorted R l -> StronglySorted S l.
Proof.
  intros I SS. induction SS as [|x l SS IH F]; constructor.
  - apply IH. intros; apply I; auto; right; auto.
  - rewrite Forall_forall in *. intros y Hy. apply I; [left; auto|right; auto|]. auto.
Qed.
Lemma ss_map {A B} (R : B -> B -> Prop) (f : A -> B) l : StronglySorted R (map f l) <-> StronglySorted (fun x y => R (f x) (f y)) l.
Proof.
  induction l; simpl; split; intros S; try constructor; inversion S as [|? ? S1 F]; subst.
  - apply IHl; auto.
  - rewrite Forall_forall in *. intros y Hy. apply F, in_map; auto.
  - apply IHl; auto.
  - rewrite Forall_forall in *. intros y Hy. apply in_map_iff in Hy. destruct Hy as [z [<- Hz]]. auto.
Qed.

(* ------------------------------------------------------------------ *)
(** What take_tails selects. *)
Lemma map_res_map' {A B C} (f : A -> res B) (e : C -> A) (h : C -> B) l :
  (forall c, In c l -> f (e c) = Ok (h c)) -> map_res f (map e l) = Ok (map h l).
Proof.
  induction l as [|c l IH]; intros E; auto. simpl. rewrite E by (left; auto). cbn [bind]. rewrite IH by (intros; apply E; right; auto). auto.
Qed.
Section Tails.
Variable argsort : list Z -> list nat.
Hypothesis AS : argsort_ok argsort.
Variable noise : list Z.
Variable arr : list nat.
Hypothesis NL : length noise = length arr.
Hypothesis NB : forall z, In z noise -> (0 <= z < unit53)%Z.

Definition srt : list nat := take 0 arr (argsort (map Z.of_nat arr)).
Definition shuf : list nat := argsort (map (fun p => (Z.of_nat (fst p) * unit53 + snd p)%Z) (combine srt noise)).
(** The rating at sorted-and-shuffled position p. *)
Definition gpos (p : nat) : nat := nth (nth p shuf 0) (argsort (map Z.of_nat arr)) 0.

Lemma idx_perm : Permutation (argsort (map Z.of_nat arr)) (seq 0 (length arr)).
Proof. destruct (AS (map Z.of_nat arr)) as [P _]. rewrite map_length in P. auto. Qed.
Lemma srt_perm : Permutation srt arr.
Proof.
  unfold srt, take. rewrite <- (map_nth_seq arr 0) at 2. apply Permutation_map, idx_perm.
Qed.
Lemma srt_length : length srt = length arr.
Proof. apply Permutation_length, srt_perm. Qed.
Lemma srt_sorted : StronglySorted le srt.
Proof.
  destruct (AS (map Z.of_nat arr)) as [_ S]. unfold srt, take.
  rewrite (map_ext (fun i => nth i (map Z.of_nat arr) 0%Z) (fun i => Z.of_nat (nth i arr 0))) in S.
  2:{ intros i. change 0%Z with (Z.of_nat 0). apply map_nth. }
  apply (proj1 (ss_map _ _ _)) in S. apply ss_map. eapply ss_map_impl; [|exact S]. simpl. intros. lia.
Qed.
Lemma shuf_perm : Permutation shuf (seq 0 (length arr)).
Proof.
  unfold shuf. destruct (AS (map (fun p => (Z.of_nat (fst p) * unit53 + snd p)%Z) (combine srt noise))) as [P _].
  rewrite map_length, combine_length, NL, srt_length, Nat.min_id in P. auto.
Qed.

Lemma shuf_lt p : p < length arr -> nth p shuf 0 < length arr.
Proof.
  intros L. assert (X : In (nth p shuf 0) (seq 0 (length arr))).
  { apply (Permutation_in _ shuf_perm). apply nth_In. rewrite (Permutation_length shuf_perm), seq_length. auto. }
  apply in_seq in X. lia.
Qed.

(** Shuffling stays inside the block of a user. *)
Lemma shuf_block p : p < length arr -> nth (nth p shuf 0) srt 0 = nth p srt 0.
Proof.
  intros L. assert (E : map (fun i => nth i srt 0) shuf = srt).
  { apply sorted_perm_unique; [|apply srt_sorted|].
    - destruct (AS (map (fun p => (Z.of_nat (fst p) * unit53 + snd p)%Z) (combine srt noise))) as [_ S]. fold shuf in S.
      apply (proj1 (ss_map _ _ _)) in S. apply ss_map. eapply ss_map_impl; [|exact S]. cbv beta. intros x y Hx Hy LE.
      assert (B : forall x, In x shuf -> x < length arr) by (intros z Hz; apply (Permutation_in _ shuf_perm), in_seq in Hz; lia).
      assert (K : forall x, x < length arr ->
         nth x (map (fun p => (Z.of_nat (fst p) * unit53 + snd p)%Z) (combine srt noise)) 0%Z = (Z.of_nat (nth x srt 0%nat) * unit53 + nth x noise 0)%Z).
      { intros z Hz. rewrite (nth_indep _ 0%Z ((fun p => (Z.of_nat (fst p) * unit53 + snd p)%Z) (0, 0%Z)))
          by (rewrite map_length, combine_length, NL, srt_length; lia).
        rewrite (map_nth (fun p => (Z.of_nat (fst p) * unit53 + snd p)%Z)). rewrite combine_nth by (rewrite srt_length; auto). auto. }
      rewrite !K in LE by (apply B; auto).
      assert (N : forall x, x < length arr -> (0 <= nth x noise 0 < unit53)%Z) by (intros z Hz; apply NB, nth_In; lia).
      pose proof (N x (B x Hx)). pose proof (N y (B y Hy)). unfold unit53 in *. lia.
    - apply (Permutation_trans (l' := map (fun i => nth i srt 0) (seq 0 (length srt)))); [|rewrite (map_nth_seq srt 0); auto]. apply Permutation_map. rewrite srt_length. apply shuf_perm. }
  transitivity (nth p (map (fun i => nth i srt 0) shuf) 0); [|rewrite E; auto]. rewrite (nth_indep (map _ _) 0 ((fun i => nth i srt 0) 0)).
  - rewrite (map_nth (fun i => nth i srt 0)). auto.
  - rewrite map_length, (Permutation_length shuf_perm), seq_length. auto.
Qed.

Lemma gpos_lt p : p < length arr -> gpos p < length arr.
Proof.
  intros L. unfold gpos. assert (X : In (nth (nth p shuf 0) (argsort (map Z.of_nat arr)) 0) (seq 0 (length arr))).
  { apply (Permutation_in _ idx_perm). apply nth_In. rewrite (Permutation_length idx_perm), seq_length. apply shuf_lt; auto. }
  apply in_seq in X. lia.
Qed.
Lemma gpos_inj p q : p < length arr -> q < length arr -> gpos p = gpos q -> p = q.
Proof.
  intros Lp Lq E. unfold gpos in E.
  assert (N1 : NoDup (argsort (map Z.of_nat arr))) by (apply (Permutation_NoDup (Permutation_sym idx_perm)), seq_NoDup).
  assert (N2 : NoDup shuf) by (apply (Permutation_NoDup (Permutation_sym shuf_perm)), seq_NoDup).
  apply (proj1 (NoDup_nth _ 0) N1) in E; try (rewrite (Permutation_length idx_perm), seq_length; apply shuf_lt; auto).
  apply (proj1 (NoDup_nth _ 0) N2) in E; auto; rewrite (Permutation_length shuf_perm), seq_length; auto.
Qed.
Lemma gpos_user p : p < length arr -> nth (gpos p) arr 0 = nth p srt 0.
Proof.
  intros L. rewrite <- (shuf_block p L). unfold srt, take, gpos.
  rewrite (nth_indep (map _ _) 0 ((fun i => nth i arr 0) 0)).
  - rewrite (map_nth (fun i => nth i arr 0)). auto.
  - rewrite map_length, (Permutation_length idx_perm), seq_length. apply shuf_lt; auto.
Qed.

Lemma cnt_le_srt u : cnt_le srt u = cnt_le arr u.
Proof. unfold cnt_le. apply Permutation_length. apply Permutation_filter, srt_perm. Qed.
Lemma cnt_lt_srt u : cnt_lt srt u = cnt_lt arr u.
Proof. unfold cnt_lt. apply Permutation_length. apply Permutation_filter, srt_perm. Qed.
Lemma max_srt : list_max srt = list_max arr.
Proof.
  apply Nat.le_antisymm; apply list_max_le; apply Forall_forall; intros x Hx.
  - apply (Permutation_in _ srt_perm) in Hx. assert (F := proj1 (list_max_le arr (list_max arr)) (le_n _)). rewrite Forall_forall in F. auto.
  - apply (Permutation_in _ (Permutation_sym srt_perm)) in Hx. assert (F := proj1 (list_max_le srt (list_max srt)) (le_n _)). rewrite Forall_forall in F. auto.
Qed.

Variable K : nat.
Hypothesis CNT : forall u, In u arr -> K < count_occ Nat.eq_dec arr u.

(** The k-th held-out position of user u (k = 1..K). *)
Definition tailpos (u k : nat) : nat := cnt_le arr u + k - 1 - K.

Lemma tailpos_block u k : In u arr -> 1 <= k <= K -> tailpos u k < length arr /\ nth (tailpos u k) srt 0 = u.
Proof.
  intros Hu Hk. pose proof (CNT u Hu) as C. pose proof (cnt_le_lt arr u) as E.
  assert (L : cnt_le arr u <= length arr) by (unfold cnt_le; apply filter_length_le).
  unfold tailpos. split; [lia|]. apply sorted_nth; [apply srt_sorted|]. rewrite cnt_lt_srt, cnt_le_srt. lia.
Qed.

(** The user whose tail the slot of id w selects. *)
Definition slot_user (w : nat) : nat := list_max (filter (fun x => x <=? w) arr).
Definition slot (w : nat) : nat := if cnt_le arr w =? 0 then list_max arr else slot_user w.

Lemma list_max_in l : l <> [] -> In (list_max l) l.
Proof.
  induction l as [|x l IH]; [tauto|]. intros _. simpl. destruct l as [|y l]; [simpl; rewrite Nat.max_0_r; auto|].
  destruct (Nat.max_spec x (list_max (y :: l))) as [[_ ->]|[_ ->]]; auto. right. apply IH. discriminate.
Qed.

Lemma slot_ok w : arr <> [] -> In (slot w) arr /\
  ((cnt_le arr w = 0 /\ cnt_le arr (slot w) = length arr) \/ (0 < cnt_le arr w /\ cnt_le arr (slot w) = cnt_le arr w)).
Proof.
  intros NE. unfold slot. destruct (Nat.eqb_spec (cnt_le arr w) 0) as [Z|NZ].
  - split; [apply list_max_in; auto|]. left. split; auto. apply cnt_le_all. auto.
  - assert (NF : filter (fun x => x <=? w) arr <> []) by (intros X; unfold cnt_le in NZ; rewrite X in NZ; auto).
    pose proof (list_max_in _ NF) as I. fold (slot_user w) in I. apply filter_In in I. destruct I as [I1 I2]. split; auto.
    right. split; [lia|]. apply Nat.leb_le in I2. apply Nat.le_antisymm; [apply cnt_le_mono; auto|].
    unfold cnt_le. assert (F : forall x, In x arr -> (x <=? w) = true -> (x <=? slot_user w) = true).
    { intros x Hx Bx. apply Nat.leb_le. unfold slot_user.
      assert (G := proj1 (list_max_le _ (list_max (filter (fun x => x <=? w) arr))) (le_n _)). rewrite Forall_forall in G.
      apply G, filter_In; auto. }
    revert F. generalize (slot_user w). intros mu F. clear -F. induction arr as [|x l IH]; auto. simpl.
    assert (IH' : forall x, In x l -> (x <=? w) = true -> (x <=? mu) = true) by (intros; apply F; auto; right; auto).
    specialize (IH IH'). destruct (x <=? w) eqn:E; [rewrite (F x) by (auto; left; auto); simpl; lia|].
    destruct (x <=? mu); simpl; lia.
Qed.

Lemma map_res_flat {A B C} (f : A -> list B) (g : B -> res C) (h : A -> list C) l :
  (forall a, In a l -> map_res g (f a) = Ok (h a)) -> map_res g (flat_map f l) = Ok (flat_map h l).
Proof.
  assert (APP : forall a b x y, map_res g a = Ok x -> map_res g b = Ok y -> map_res g (a ++ b) = Ok (x ++ y)).
  { induction a as [|z a IH]; simpl; intros b x y E1 E2; [inversion E1; auto|].
    destruct (g z); cbn [bind] in *; [|discriminate]. destruct (map_res g a) eqn:E; cbn [bind] in *; [|discriminate].
    inversion E1; subst. rewrite (IH b a1 y); auto. }
  induction l as [|a l IH]; intros E; auto. simpl. apply APP; [apply E; left; auto|]. apply IH. intros; apply E; right; auto.
Qed.

Definition held_out : list nat :=
  flat_map (fun w => map (fun k => gpos (tailpos (slot w) k)) (seq 1 K)) (seq 0 (S (list_max arr))).

Lemma take_tails_ok : arr <> [] -> exists heads, take_tails argsort noise arr K = Ok (held_out, heads).
Proof.
  intros NE. unfold take_tails. fold srt. fold shuf.
  assert (NS : srt <> []) by (intros X; apply NE; apply length_zero_iff_nil; rewrite <- srt_length, X; auto).
  rewrite (ends_spec srt NS), max_srt. rewrite map_map.
  rewrite flat_map_concat_map, map_map, <- flat_map_concat_map.
  rewrite (map_res_flat _ _ (fun w => map (fun k => nth (tailpos (slot w) k) shuf 0) (seq 1 K))).
  - cbn [bind]. eexists. f_equal. f_equal. unfold held_out, take.
    rewrite flat_map_concat_map, concat_map, map_map, <- flat_map_concat_map. apply flat_map_ext. intros w. rewrite map_map. reflexivity.
  - intros w Hw. apply map_res_map'. intros k Hk. apply in_seq in Hk.
    rewrite (Permutation_length shuf_perm), seq_length. rewrite cnt_le_srt.
    destruct (slot_ok w NE) as [HS CASES]. destruct (tailpos_block (slot w) k HS ltac:(lia)) as [TL _].
    pose proof (CNT _ HS) as C. pose proof (cnt_le_lt arr (slot w)) as E. unfold tailpos in *. unfold np_index.
    destruct CASES as [[Z F]|[P F]].
    + rewrite Z. destruct (Z.leb_spec 0 (Z.of_nat 0 - 1 - Z.of_nat K + Z.of_nat k)); [lia|]. cbn [andb].
      destruct (Z.leb_spec (- Z.of_nat (length arr)) (Z.of_nat 0 - 1 - Z.of_nat K + Z.of_nat k)); [|lia].
      destruct (Z.ltb_spec (Z.of_nat 0 - 1 - Z.of_nat K + Z.of_nat k) 0); [|lia]. cbn [andb bind].
      do 2 f_equal. lia.
    + rewrite <- F. destruct (Z.leb_spec 0 (Z.of_nat (cnt_le arr (slot w)) - 1 - Z.of_nat K + Z.of_nat k)); [|lia].
      destruct (Z.ltb_spec (Z.of_nat (cnt_le arr (slot w)) - 1 - Z.of_nat K + Z.of_nat k) (Z.of_nat (length arr))); [|lia].
      cbn [andb bind]. do 2 f_equal. lia.
Qed.

(** The positions held out for user u. *)
Definition user_tail (u : nat) : list nat := map (fun k => gpos (tailpos u k)) (seq 1 K).
Lemma user_tail_ok u : In u arr -> NoDup (user_tail u) /\ length (user_tail u) = K /\
  forall t, In t (user_tail u) -> t < length arr /\ nth t arr 0 = u.
Proof.
  intros Hu. unfold user_tail. split; [|split].
  - assert (G : forall l, NoDup l -> (forall k, In k l -> 1 <= k <= K) -> NoDup (map (fun k => gpos (tailpos u k)) l)).
    { induction l as [|k l IH]; intros ND B; [constructor|]. inversion ND; subst. simpl. constructor.
      - intros X. apply in_map_iff in X. destruct X as [k' [E Hk']].
        assert (B1 := B k (or_introl eq_refl)). assert (B2 := B k' (or_intror Hk')).
        apply gpos_inj in E; try (apply (tailpos_block u); auto).
        pose proof (CNT u Hu). pose proof (cnt_le_lt arr u). unfold tailpos in E. assert (k' = k) by lia. subst. contradiction.
      - apply IH; auto. intros; apply B; right; auto. }
    apply G; [apply seq_NoDup|]. intros k Hk. apply in_seq in Hk. lia.
  - rewrite map_length, seq_length. auto.
  - intros t Ht. apply in_map_iff in Ht. destruct Ht as [k [<- Hk]]. apply in_seq in Hk.
    destruct (tailpos_block u k Hu ltac:(lia)) as [TL TU]. split; [apply gpos_lt; auto|]. rewrite gpos_user by auto. auto.
Qed.
Lemma held_out_in t : arr <> [] -> (In t held_out <-> exists u, In u arr /\ In t (user_tail u)).
Proof.
  intros NE. unfold held_out. rewrite in_flat_map. split.
  - intros [w [_ Hw]]. exists (slot w). split; auto. apply slot_ok; auto.
  - intros [u [Hu Ht]]. exists u. split.
    + apply in_seq. assert (F := proj1 (list_max_le arr (list_max arr)) (le_n _)). rewrite Forall_forall in F. apply F in Hu. lia.
    + destruct (slot_ok u NE) as [HS CASES]. pose proof (CNT u Hu). pose proof (cnt_le_lt arr u).
      destruct CASES as [[Z _]|[_ F]]; [lia|]. unfold user_tail in Ht. unfold tailpos in *. rewrite F. auto.
Qed.
(** No gaps: every slot belongs to its own user. *)
Lemma held_out_nodup : arr <> [] -> (forall w, w <= list_max arr -> In w arr) -> NoDup held_out.
Proof.
  intros NE CONS. assert (E : held_out = flat_map user_tail (seq 0 (S (list_max arr)))).
  { unfold held_out. rewrite !flat_map_concat_map. f_equal. apply map_ext_in. intros w Hw. apply in_seq in Hw.
    assert (Hin : In w arr) by (apply CONS; lia). unfold user_tail. apply map_ext. intros k. f_equal.
    destruct (slot_ok w NE) as [HS CASES]. pose proof (CNT w Hin). pose proof (cnt_le_lt arr w).
    destruct CASES as [[Z _]|[_ F]]; [lia|]. unfold tailpos. rewrite F. auto. }
  rewrite E. assert (G : forall us, NoDup us -> (forall u, In u us -> In u arr) -> NoDup (flat_map user_tail us)).
  { induction us as [|u us IH]; intros ND B; [constructor|]. inversion ND; subst. simpl.
    assert (Hu : In u arr) by (apply B; left; auto). apply NoDup_app_intro.
    - apply user_tail_ok; auto.
    - apply IH; auto. intros; apply B; right; auto.
    - intros t T1 T2. apply in_flat_map in T2. destruct T2 as [u2 [Hu2 T2]].
      apply (proj2 (proj2 (user_tail_ok u Hu))) in T1. apply (proj2 (proj2 (user_tail_ok u2 ltac:(apply B; right; auto)))) in T2.
      destruct T1 as [_ T1], T2 as [_ T2]. assert (u2 = u) by congruence. subst. contradiction. }
  apply G; [apply seq_NoDup|]. intros u Hu. apply in_seq in Hu. apply CONS. lia.
Qed.
End Tails.
