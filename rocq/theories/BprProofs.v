(** Proofs about ThreadProg and BprModel. *)
From Coq Require Import List Arith Lia Bool ZArith Permutation Sorted.
From Verif Require Import Base Num Heap Sparse ThreadProg BprModel.
Import ListNotations.

(* ------------------------------------------------------------------ threads *)
Section Threads.
Context {Cell Val Event A : Type} (cell_eqb : Cell -> Cell -> bool).
Hypothesis cell_eqb_eq : forall a b, cell_eqb a b = true -> a = b.
Variables (PR PW : Cell -> Prop) (PE : Event -> Prop).

Lemma interleave_inv (PA : list (A -> Prop)) (I : mem (Cell:=Cell) (Val:=Val) -> Prop) sched :
  (forall m c v, PW c -> I m -> I (mset cell_eqb m c v)) ->
  forall m ps log m' ps' log',
  I m -> Forall2 (fun Q p => safe PR PW PE Q p) PA ps -> Forall PE log ->
  fold_left (tstep cell_eqb) sched (m, ps, log) = (m', ps', log') ->
  I m' /\ Forall2 (fun Q p => safe PR PW PE Q p) PA ps' /\ Forall PE log'.
Proof.
  intros HI. induction sched as [|t sched IH]; intros m ps log m' ps' log' Im Hps Hlog HE.
  - simpl in HE. injection HE as -> -> ->. auto.
  - cbn [fold_left] in HE. unfold tstep at 2 in HE. destruct (nth_error ps t) as [p|] eqn:Ep; [|eapply IH; eauto].
    assert (HQ : exists Q, nth_error PA t = Some Q /\ safe PR PW PE Q p).
    { clear -Hps Ep. revert t Ep. induction Hps; intros [|t] Ep; simpl in *; try discriminate; eauto. injection Ep as ->. eauto. }
    destruct HQ as (Q & EQ & Sp).
    assert (HU : forall p', safe PR PW PE Q p' -> Forall2 (fun Q p => safe PR PW PE Q p) PA (upd t p' ps)).
    { clear -Hps EQ. revert t EQ. induction Hps; intros [|t] EQ p' Sp'; simpl in *; try discriminate.
      - injection EQ as ->. constructor; auto.
      - constructor; eauto. }
    destruct p as [a|c k|c v k|e k]; cbn [pstep] in HE; inversion Sp; subst.
    + eapply IH; [| | |exact HE]; eauto. rewrite app_nil_r; auto.
    + eapply IH; [| | |exact HE]; eauto. rewrite app_nil_r; auto.
    + eapply IH; [| | |exact HE]; eauto. rewrite app_nil_r; auto.
    + eapply IH; [| | |exact HE]; eauto. apply Forall_app; auto.
Qed.

Lemma results_safe (PA : list (A -> Prop)) ps rs :
  Forall2 (fun Q p => safe PR PW PE Q p) PA ps -> results (Val := Val) ps = Some rs -> Forall2 (fun Q a => Q a) PA rs.
Proof.
  intros HF. revert rs. induction HF as [|Q p PA' ps' Sp HF IH]; intros rs Er; simpl in Er.
  - injection Er as <-. constructor.
  - destruct p; try discriminate. destruct (results ps'); [|discriminate]. simpl in Er. injection Er as <-.
    inversion Sp; subst. constructor; auto.
Qed.
End Threads.

(* ------------------------------------------------------------------ binary search *)
Definition sorted_between (a : list nat) (s e : nat) : Prop :=
  forall p q, s <= p -> p <= q -> q < e -> nth p a 0 <= nth q a 0.

Lemma lower_bound_spec fuel a first len val :
  len < fuel -> sorted_between a first (first + len) ->
  let i := lower_bound fuel a first len val in
  first <= i <= first + len /\ (forall p, first <= p < i -> nth p a 0 < val) /\ (forall p, i <= p < first + len -> val <= nth p a 0).
Proof.
  revert first len. induction fuel as [|fuel IH]; intros first len Hf Hs; [lia|].
  cbn [lower_bound]. destruct (Nat.eqb_spec len 0) as [E|E].
  - simpl. repeat split; intros; lia.
  - pose proof (Nat.div_lt len 2 ltac:(lia) ltac:(lia)) as Hh. set (h := len / 2) in *.
    destruct (Nat.ltb_spec (nth (first + h) a 0) val) as [Hlt|Hge].
    + destruct (IH (first + h + 1) (len - h - 1)) as (B & L & G); [lia|intros p q ? ? ?; apply Hs; lia|].
      cbv zeta. repeat split; try lia.
      * intros p Hp. destruct (Nat.lt_ge_cases p (first + h + 1)); [|apply L; lia].
        assert (nth p a 0 <= nth (first + h) a 0) by (apply Hs; lia). lia.
      * intros p Hp. apply G. lia.
    + destruct (IH first h) as (B & L & G); [lia|intros p q ? ? ?; apply Hs; lia|].
      cbv zeta. repeat split; try lia.
      * intros p Hp. apply L; lia.
      * intros p Hp. destruct (Nat.lt_ge_cases p (first + h)); [apply G; lia|].
        assert (nth (first + h) a 0 <= nth p a 0) by (apply Hs; lia). lia.
Qed.

Lemma binary_search_spec a s e val :
  s <= e -> sorted_between a s e ->
  binary_search a s e val = true <-> exists p, s <= p < e /\ nth p a 0 = val.
Proof.
  intros Hse Hs. unfold binary_search.
  destruct (lower_bound_spec (S (e - s)) a s (e - s) val) as (B & L & G); [lia|replace (s + (e - s)) with e by lia; auto|].
  set (i := lower_bound _ _ _ _ _) in *. rewrite andb_true_iff, !negb_true_iff, Nat.eqb_neq, Nat.ltb_ge. split.
  - intros [Hn Hle]. exists i. specialize (G i ltac:(lia)). split; lia.
  - intros (p & Hp & Ep). destruct (Nat.lt_ge_cases p i) as [H|H]; [specialize (L p ltac:(lia)); lia|].
    assert (Hpi : nth i a 0 <= nth p a 0) by (apply Hs; lia). split; lia.
Qed.

(* ------------------------------------------------------------------ matrices *)
(** No unused entries: indptr starts at 0 and ends at the number of entries. *)
Definition csr_tight {T} (m : csr T) : Prop :=
  nth 0 (c_indptr m) 0 = 0 /\ nth (c_rows m) (c_indptr m) 0 = length (c_indices m).

Lemma in_slice_nth {A} (l : list A) s e x d :
  e <= length l -> In x (slice s e l) <-> exists p, s <= p < e /\ nth p l d = x.
Proof.
  intros He. unfold slice. split.
  - intros Hin. apply (In_nth _ _ d) in Hin. destruct Hin as (k & Hk & Ek).
    rewrite firstn_length, skipn_length in Hk.
    exists (s + k). split; [lia|]. rewrite <- Ek. symmetry.
    rewrite <- (firstn_skipn s l) at 2. 
    assert (Hnf : forall (m : list A) n i, i < n -> nth i (firstn n m) d = nth i m d).
    { induction m; intros [|n] [|i] Hi; simpl; auto; try lia. apply IHm; lia. }
    rewrite Hnf by lia. rewrite app_nth2; rewrite firstn_length; [|lia]. f_equal. lia.
  - intros (p & Hp & Ep). subst x.
    assert (E : nth p l d = nth (p - s) (firstn (e - s) (skipn s l)) d).
    { assert (Hnf : forall (m : list A) n i, i < n -> nth i (firstn n m) d = nth i m d).
      { induction m; intros [|n] [|i] Hi; simpl; auto; try lia. apply IHm; lia. }
      rewrite Hnf by lia. rewrite <- (firstn_skipn s l) at 1. rewrite app_nth2; rewrite firstn_length; [|lia]. f_equal. lia. }
    rewrite E. apply nth_In. rewrite firstn_length, skipn_length. lia.
Qed.

Section Mat.
Context {T : Type}.

Lemma row_indices_slice (m : csr T) u : csr_wf m -> 
  csr_row_indices m u = slice (nth u (c_indptr m) 0) (nth (S u) (c_indptr m) 0) (c_indices m).
Proof.
  intros W. unfold csr_row_indices, csr_row.
  assert (HL : length (slice (nth u (c_indptr m) 0) (nth (S u) (c_indptr m) 0) (c_indices m)) = length (slice (nth u (c_indptr m) 0) (nth (S u) (c_indptr m) 0) (c_data m))).
  { unfold slice. rewrite !firstn_length, !skipn_length, (wf_data_len _ W). auto. }
  revert HL. generalize (slice (nth u (c_indptr m) 0) (nth (S u) (c_indptr m) 0) (c_data m)) as b.
  generalize (slice (nth u (c_indptr m) 0) (nth (S u) (c_indptr m) 0) (c_indices m)) as a.
  induction a; intros [|y b] HL; simpl in *; try discriminate; auto. f_equal. apply IHa. lia.
Qed.

Lemma indptr_bound (m : csr T) u : csr_wf m -> u <= c_rows m -> nth u (c_indptr m) 0 <= length (c_indices m).
Proof. intros W Hu. pose proof (wf_indptr_mono _ W u (c_rows m) Hu (le_n _)). pose proof (wf_indptr_last _ W). lia. Qed.

Lemma in_row (m : csr T) u i : csr_wf m -> u < c_rows m ->
  In i (csr_row_indices m u) <-> exists p, nth u (c_indptr m) 0 <= p < nth (S u) (c_indptr m) 0 /\ nth p (c_indices m) 0 = i.
Proof. intros W Hu. rewrite row_indices_slice by auto. apply in_slice_nth. apply indptr_bound; auto. Qed.

Lemma row_ids_spec (m : csr T) : csr_wf m -> csr_tight m ->
  forall p, p < length (c_indices m) ->
  let u := nth p (row_ids (c_rows m) (c_indptr m)) 0 in
  u < c_rows m /\ nth u (c_indptr m) 0 <= p < nth (S u) (c_indptr m) 0.
Proof.
  intros W [H0 HL] p Hp.
  assert (G : forall k, k <= c_rows m ->
     let l := flat_map (fun u => repeat u (nth u (user_counts (c_rows m) (c_indptr m)) 0)) (seq 0 k) in
     length l = nth k (c_indptr m) 0 /\ forall q, q < length l -> nth q l 0 < k /\ nth (nth q l 0) (c_indptr m) 0 <= q < nth (S (nth q l 0)) (c_indptr m) 0).
  { induction k as [|k IH]; intros Hk; cbv zeta.
    - simpl. split; auto. intros; lia.
    - specialize (IH ltac:(lia)). cbv zeta in IH. destruct IH as [IL IS]. rewrite seq_S, flat_map_app. cbn [flat_map]. rewrite app_nil_r.
      simpl (0 + k).
      assert (EC : nth k (user_counts (c_rows m) (c_indptr m)) 0 = nth (S k) (c_indptr m) 0 - nth k (c_indptr m) 0).
      { unfold user_counts. rewrite nth_indep with (d' := (fun u => nth (S u) (c_indptr m) 0 - nth u (c_indptr m) 0) 0) by (rewrite map_length, seq_length; lia).
        rewrite (map_nth (fun u => nth (S u) (c_indptr m) 0 - nth u (c_indptr m) 0)), seq_nth by lia. auto. }
      rewrite EC. pose proof (wf_indptr_mono _ W k (S k) ltac:(lia) ltac:(lia)) as Hm.
      set (l0 := flat_map _ (seq 0 k)) in *. split.
      + rewrite app_length, repeat_length. lia.
      + rewrite app_length, repeat_length. intros q Hq. destruct (Nat.lt_ge_cases q (length l0)) as [Hlt|Hge].
        * rewrite app_nth1 by auto. destruct (IS q Hlt) as (Hb & Hr). split; lia.
        * rewrite app_nth2 by auto. rewrite nth_indep with (d' := k) by (rewrite repeat_length; lia). rewrite nth_repeat. lia. }
  destruct (G (c_rows m) (le_n _)) as [GL GS]. apply GS. rewrite GL, HL. auto.
Qed.

(** Rows in order. *)
Lemma tail_sorted_combine (r : list (nat * T)) : row_sorted r = true ->
  forall p q, p <= q -> q < length r -> nth p (map fst r) 0 <= nth q (map fst r) 0.
Proof.
  unfold row_sorted. induction r as [|a r IH]; intros Hs p q Hpq Hq; [simpl in Hq; lia|].
  assert (Hr : row_sorted r = true).
  { unfold row_sorted. destruct r as [|b r]; auto. cbn [tl combine forallb] in Hs. apply andb_true_iff in Hs. apply Hs. }
  destruct p.
  - destruct q; [auto|]. destruct r as [|b r]; [simpl in Hq; lia|]. cbn [tl combine forallb fst snd] in Hs. apply andb_true_iff in Hs. destruct Hs as [H1 _].
    apply Nat.leb_le in H1. specialize (IH Hr 0 q ltac:(lia) ltac:(simpl in *; lia)). simpl in *. lia.
  - destruct q; [lia|]. simpl in *. apply IH; auto; lia.
Qed.

Definition rows_sorted (m : csr T) : Prop :=
  forall u, u < c_rows m -> sorted_between (c_indices m) (nth u (c_indptr m) 0) (nth (S u) (c_indptr m) 0).

Lemma nth_slice {A} (l : list A) s e k d : k < e - s -> nth k (slice s e l) d = nth (s + k) l d.
Proof.
  intros Hk. unfold slice.
  assert (Hnf : forall (m : list A) n i, i < n -> nth i (firstn n m) d = nth i m d).
  { induction m; intros [|n] [|i] Hi; simpl; auto; try lia. apply IHm; lia. }
  rewrite Hnf by lia. clear. revert s. induction l; intros [|s]; simpl; auto. destruct k; auto.
Qed.

Lemma slice_length {A} (l : list A) s e : e <= length l -> length (slice s e l) = e - s.
Proof. intros. unfold slice. rewrite firstn_length, skipn_length. lia. Qed.

Lemma has_sorted_rows_sorted (m : csr T) : csr_wf m -> has_sorted_indices m = true -> rows_sorted m.
Proof.
  intros W Hs u Hu p q H1 H2 H3. unfold has_sorted_indices in Hs. rewrite forallb_forall in Hs.
  assert (Hin : In (csr_row m u) (csr_to_rows m)).
  { unfold csr_to_rows. apply in_map. apply in_seq. lia. }
  specialize (Hs _ Hin). pose proof (tail_sorted_combine _ Hs) as HT.
  change (map fst (csr_row m u)) with (csr_row_indices m u) in HT. 
  assert (HL : length (csr_row m u) = nth (S u) (c_indptr m) 0 - nth u (c_indptr m) 0).
  { rewrite <- (map_length fst). change (map fst (csr_row m u)) with (csr_row_indices m u). rewrite row_indices_slice by auto. apply slice_length. apply indptr_bound; auto. }
  rewrite row_indices_slice in HT by auto.
  specialize (HT (p - nth u (c_indptr m) 0) (q - nth u (c_indptr m) 0) ltac:(lia) ltac:(lia)).
  rewrite !nth_slice in HT by lia.
  replace (nth u (c_indptr m) 0 + (p - nth u (c_indptr m) 0)) with p in HT by lia.
  replace (nth u (c_indptr m) 0 + (q - nth u (c_indptr m) 0)) with q in HT by lia. auto.
Qed.

Lemma csr_of_rows_wf cols (rows : list (list (nat * T))) :
  (forall r p, In r rows -> In p r -> fst p < cols) -> csr_wf (csr_of_rows cols rows) /\ csr_tight (csr_of_rows cols rows).
Proof.
  intros HC.
  assert (HL : forall k, length (indptr_from k rows) = S (length rows)).
  { induction rows; simpl; intros; auto. rewrite IHrows; auto. intros; eapply HC; simpl; eauto. }
  assert (HN : nth (length rows) (indptr_from 0 rows) 0 = length (map fst (concat rows))).
  { rewrite indptr_from_nth by lia. rewrite firstn_all, map_length. auto. }
  split; [constructor|split]; cbn [csr_of_rows c_rows c_cols c_indptr c_indices c_data].
  - apply HL.
  - intros i j Hij Hj. rewrite !indptr_from_nth by lia. 
    rewrite <- (firstn_skipn i (firstn j rows)). rewrite concat_app, app_length, firstn_firstn. rewrite Nat.min_l by lia. lia.
  - rewrite HN. auto.
  - rewrite !map_length. auto.
  - intros i Hi. apply in_map_iff in Hi. destruct Hi as (p & <- & Hp). apply in_concat in Hp. destruct Hp as (r & Hr & Hp). eauto.
  - destruct rows; auto.
  - apply HN.
Qed.

Lemma swo_fst : swo (fun a b : nat * T => fst b <? fst a).
Proof.
  constructor; intros; repeat match goal with H : (_ <? _) = true |- _ => apply Nat.ltb_lt in H | H : (_ <? _) = false |- _ => apply Nat.ltb_ge in H end;
    rewrite ?Nat.ltb_lt, ?Nat.ltb_ge; lia.
Qed.

Lemma sorted_row_sorted (r : list (nat * T)) : StronglySorted (fun x y => (fst y <? fst x) = false) r -> row_sorted r = true.
Proof.
  induction 1 as [|a r HS IH HF]; auto. unfold row_sorted in *. destruct r as [|b r]; auto.
  inversion HF as [|x y HB]; subst. apply Nat.ltb_ge in HB. cbn [tl] in IH |- *. cbn [combine forallb fst snd]. apply andb_true_iff. split; [apply Nat.leb_le; auto|exact IH].
Qed.

Lemma sort_indices_spec (m : csr T) : csr_wf m ->
  csr_wf (sort_indices m) /\ csr_tight (sort_indices m) /\ has_sorted_indices (sort_indices m) = true /\
  c_rows (sort_indices m) = c_rows m /\ c_cols (sort_indices m) = c_cols m /\
  forall u, u < c_rows m -> Permutation (csr_row (sort_indices m) u) (csr_row m u).
Proof.
  intros W. unfold sort_indices.
  destruct (csr_of_rows_wf (c_cols m) (map (sort_by (fun a b => fst b <? fst a)) (csr_to_rows m))) as [W' T'].
  { intros r p Hr Hp. apply in_map_iff in Hr. destruct Hr as (r0 & <- & Hr0).
    apply (Permutation_in _ (sort_by_perm _ _)) in Hp.
    unfold csr_to_rows in Hr0. apply in_map_iff in Hr0. destruct Hr0 as (u & <- & _).
    apply (wf_cols _ W). unfold csr_row in Hp. destruct p as [c v]. apply in_combine_l in Hp. eapply in_slice; eauto. }
  split; [auto|]. split; [auto|]. split; [|split; [|split]].
  - unfold has_sorted_indices. rewrite csr_to_rows_of_rows. apply forallb_forall. intros r Hr. apply in_map_iff in Hr. destruct Hr as (r0 & <- & _).
    apply sorted_row_sorted. apply sort_by_sorted. apply swo_fst.
  - cbn. unfold csr_to_rows. rewrite !map_length, seq_length. auto.
  - auto.
  - intros u Hu. rewrite csr_row_of_rows.
    assert (E : nth u (map (sort_by (fun a b => fst b <? fst a)) (csr_to_rows m)) [] = sort_by (fun a b => fst b <? fst a) (csr_row m u)).
    { unfold csr_to_rows. rewrite map_map. rewrite nth_indep with (d' := (fun x => sort_by (fun a b => fst b <? fst a) (csr_row m x)) 0) by (rewrite map_length, seq_length; auto).
      rewrite (map_nth (fun x => sort_by (fun a b => fst b <? fst a) (csr_row m x))), seq_nth by auto. auto. }
    rewrite E. apply sort_by_perm.
Qed.
End Mat.

(* ------------------------------------------------------------------ the programs *)
Section Bpr.
Context {T : Type} `{Num T}.

Lemma cell_eqb_eq a b : cell_eqb a b = true -> a = b.
Proof. destruct a, b; simpl; try discriminate; intros E; apply andb_true_iff in E; destruct E as [E1 E2]; apply Nat.eqb_eq in E1; apply Nat.eqb_eq in E2; congruence. Qed.
Lemma cell_eqb_refl a : cell_eqb a a = true.
Proof. destruct a; simpl; rewrite !Nat.eqb_refl; auto. Qed.
Lemma mset_eq (m : @bmem T) c (v : T) : mset cell_eqb m c v c = v.
Proof. unfold mset. rewrite cell_eqb_refl. auto. Qed.
Lemma mset_neq (m : @bmem T) c (v : T) c' : c <> c' -> mset cell_eqb m c v c' = m c'.
Proof. intros N. unfold mset. destruct (cell_eqb c c') eqn:E; auto. apply cell_eqb_eq in E. congruence. Qed.

Section Safe.
Variables (PR PW : cell -> Prop) (PE : event -> Prop) (PA : nat * nat -> Prop).
Notation safe := (safe PR PW PE PA).
Variables (u l d f : nat).
Hypothesis RX : forall j, j <= f -> PR (CX u j).
Hypothesis RL : forall j, j <= f -> PR (CY l j).
Hypothesis RD : forall j, j <= f -> PR (CY d j).
Hypothesis WX : forall j, j < f -> PW (CX u j).
Hypothesis WL : forall j, j <= f -> PW (CY l j).
Hypothesis WD : forall j, j <= f -> PW (CY d j).

Lemma score_loop_safe js score (k : T -> bprog) :
  Forall (fun j => j <= f) js -> (forall s, safe (k s)) -> safe (score_loop u l d js score k).
Proof.
  intros Hj Hk. revert score. induction Hj; intros score; simpl; auto.
  constructor; auto; intros. constructor; auto; intros. constructor; auto.
Qed.
Lemma update_loop_safe lr reg z js (k : bprog) :
  Forall (fun j => j < f) js -> safe k -> safe (update_loop lr reg z u l d js k).
Proof.
  intros Hj Hk. induction Hj; simpl; auto.
  repeat (constructor; [solve [auto with arith]|intros]). auto.
Qed.
Lemma bias_update_safe lr reg z (k : bprog) : safe k -> safe (bias_update lr reg z l d f k).
Proof. intros Hk. unfold bias_update. repeat (constructor; [solve [auto]|intros]). auto. Qed.
End Safe.

(** What a sample may touch. *)
Lemma bpr_thread_safe (PR PW : cell -> Prop) (PE : event -> Prop) o userids itemids indptr :
  forall draws,
  Forall (fun dr => 
    let l := nth (fst dr) itemids 0 in let d := nth (snd dr) itemids 0 in let u := nth (fst dr) userids 0 in
    b_verify o && has_non_zero indptr itemids u d = false ->
    PE (u, l, d) /\ forall j, j <= b_factors o -> (PR (CX u j) /\ PR (CY l j) /\ PR (CY d j) /\ PW (CY l j) /\ PW (CY d j) /\ (j < b_factors o -> PW (CX u j)))) draws ->
  forall correct skipped,
  safe PR PW PE (fun r => fst r + snd r <= correct + skipped + length draws) (bpr_thread o userids itemids indptr draws correct skipped).
Proof.
  intros draws HF. 
  assert (G : forall correct skipped n, correct + skipped + length draws <= n -> safe PR PW PE (fun r => fst r + snd r <= n) (bpr_thread o userids itemids indptr draws correct skipped)).
  { induction HF as [|dr draws HD HF IH]; intros correct skipped n Hn.
    - constructor. simpl in *. lia.
    - cbn [bpr_thread length] in *. unfold bpr_sample. cbv zeta in HD. destruct (b_verify o && _) eqn:EV.
      + apply IH. lia.
      + destruct (HD eq_refl) as [He HJ]. constructor; auto.
        apply (score_loop_safe PR PW PE _ _ _ _ (b_factors o)); try (intros j Hj; apply (HJ j Hj)).
        { apply Forall_forall. intros j Hj. apply in_seq in Hj. lia. }
        intros s. cbv zeta. apply (update_loop_safe PR PW PE _ _ _ _ (b_factors o)); try (intros j Hj; apply (HJ j ltac:(lia)); lia).
        { apply Forall_forall. intros j Hj. apply in_seq in Hj. lia. }
        apply (bias_update_safe PR PW PE); try (intros j Hj; apply (HJ j Hj)).
        destruct (nltb _ _); apply IH; lia. }
  intros. apply G. lia.
Qed.

Lemma fold_sum_le (A : Type) (g : A -> nat) rs : forall a, fold_left (fun a r => a + g r) rs a = a + fold_left (fun a r => a + g r) rs 0.
Proof. induction rs as [|r rs IH]; intros a; simpl; [lia|]. rewrite IH, (IH (g r)). lia. Qed.

(** One epoch. *)
Lemma bpr_update_inv (PR PW : cell -> Prop) (PE : event -> Prop) o userids itemids indptr (I : bmem (T := T) -> Prop) draws sched m m' log correct skipped :
  (forall (m : bmem (T := T)) c v, PW c -> I m -> I (mset cell_eqb m c v)) ->
  Forall (Forall (fun dr => 
    let l := nth (fst dr) itemids 0 in let d := nth (snd dr) itemids 0 in let u := nth (fst dr) userids 0 in
    b_verify o && has_non_zero indptr itemids u d = false ->
    PE (u, l, d) /\ forall j, j <= b_factors o -> (PR (CX u j) /\ PR (CY l j) /\ PR (CY d j) /\ PW (CY l j) /\ PW (CY d j) /\ (j < b_factors o -> PW (CX u j))))) draws ->
  I m -> bpr_update o userids itemids indptr draws sched m = Some (m', log, correct, skipped) ->
  I m' /\ Forall PE log /\ correct + skipped <= length (concat draws).
Proof.
  intros HI HD Im. unfold bpr_update. destruct (interleave _ _ _ _) as [[m1 ps] lg] eqn:EI. destruct (results ps) as [rs|] eqn:ER; [|discriminate].
  intros HE; injection HE as <- <- <- <-.
  pose (PA := map (fun ds : list (nat * nat) => fun r : nat * nat => fst r + snd r <= 0 + 0 + length ds) draws).
  assert (HS : Forall2 (fun Q p => safe PR PW PE Q p) PA (map (fun ds => bpr_thread o userids itemids indptr ds 0 0) draws)).
  { unfold PA. clear -HD. induction HD; simpl; constructor; auto. apply (bpr_thread_safe PR PW PE o userids itemids indptr x H0 0 0). }
  destruct (interleave_inv cell_eqb PR PW PE PA I sched HI _ _ _ _ _ _ Im HS (Forall_nil _) EI) as (Im' & HS' & HLog).
  split; [auto|]. split; [auto|].
  pose proof (results_safe PR PW PE PA ps rs HS' ER) as HR. unfold PA in HR. clear -HR.
  revert rs HR. induction draws as [|ds draws IH]; intros rs HR; inversion HR as [|x1 x2 x3 x4 H1 H2 H3 H4]; subst; simpl; auto.
  rewrite app_length, (fold_sum_le _ fst), (fold_sum_le _ snd). specialize (IH _ H2). lia.
Qed.

(** All epochs: invariant at the end and at every callback. *)
Lemma bpr_epochs_inv (PR PW : cell -> Prop) (PE : event -> Prop) o (M : csr T) (I : bmem (T := T) -> Prop) :
  (forall (m : bmem (T := T)) c v, PW c -> I m -> I (mset cell_eqb m c v)) ->
  let userids := row_ids (c_rows M) (c_indptr M) in
  forall inputs epoch m m' log tr,
  (forall draws sched, In (draws, sched) inputs -> Forall (Forall (fun dr => 
    let l := nth (fst dr) (c_indices M) 0 in let d := nth (snd dr) (c_indices M) 0 in let u := nth (fst dr) userids 0 in
    b_verify o && has_non_zero (c_indptr M) (c_indices M) u d = false ->
    PE (u, l, d) /\ forall j, j <= b_factors o -> (PR (CX u j) /\ PR (CY l j) /\ PR (CY d j) /\ PW (CY l j) /\ PW (CY d j) /\ (j < b_factors o -> PW (CX u j))))) draws) ->
  I m -> bpr_epochs o M inputs epoch m = Some (m', log, tr) ->
  I m' /\ Forall PE log /\ Forall (fun t => I (snd t)) tr /\
  Forall2 (fun inp t => snd (fst (fst t)) + snd (fst t) <= length (concat (fst inp))) inputs tr /\
  map (fun t => fst (fst (fst t))) tr = seq epoch (length inputs) /\
  (forall t, nth_error tr (length tr - 1) = Some t -> m' = snd t).
Proof.
  intros HI userids. induction inputs as [|[draws sched] inputs IH]; intros epoch m m' log tr HD Im HE.
  - simpl in HE. injection HE as <- <- <-. repeat split; auto. simpl. discriminate.
  - cbn [bpr_epochs] in HE. fold userids in HE. destruct (bpr_update _ _ _ _ _ _ _) as [[[[m1 lg] c] s]|] eqn:EU; [|discriminate].
    destruct (bpr_epochs o M inputs (S epoch) m1) as [[[m2 lg2] tr2]|] eqn:EE; [|discriminate]. injection HE as <- <- <-.
    destruct (bpr_update_inv PR PW PE o userids _ _ I draws sched m m1 lg c s HI (HD _ _ (or_introl eq_refl)) Im EU) as (I1 & L1 & C1).
    destruct (IH (S epoch) m1 m2 lg2 tr2 (fun d0 s0 Hin => HD d0 s0 (or_intror Hin)) I1 EE) as (I2 & L2 & T2 & C2 & E2 & Last).
    repeat split; auto.
    + apply Forall_app; auto.
    + simpl. f_equal. auto.
    + intros t Ht. destruct tr2 as [|t2 tr2].
      * simpl in Ht. injection Ht as <-. simpl. inversion C2; subst. simpl in EE. congruence.
      * apply Last. simpl in *. rewrite Nat.sub_0_r. auto.
Qed.
End Bpr.
