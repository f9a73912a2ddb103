(** Proofs about LmfModel. *)
From Coq Require Import List Arith Lia Bool ZArith Permutation.
From Verif Require Import Base Num Heap Sparse TopkModel RecommendModel AlsModel AlsProofs AlsProofs2 ThreadProg RaceFree BprModel BprProofs BprProofs2 LmfModel.
Import ListNotations.

Section Lmf.
Context {T : Type} `{Num T}.
Variable o : lmf_opts (T := T).
Notation n := (l_n o).
Notation mset := (mset lcell_eqb).
Notation alone := (run_alone lcell_eqb).

Lemma lcell_eqb_spec a b : lcell_eqb a b = true <-> a = b.
Proof.
  split.
  - destruct a, b; simpl; try discriminate; intros E; apply andb_true_iff in E; destruct E as [E1 E2]; apply Nat.eqb_eq in E1; apply Nat.eqb_eq in E2; congruence.
  - intros <-. destruct a; simpl; rewrite !Nat.eqb_refl; auto.
Qed.
Lemma lset_eq (m : lcell -> T) c (v : T) : mset m c v c = v.
Proof. apply mset_same. apply lcell_eqb_spec. Qed.
Lemma lset_neq (m : lcell -> T) c (v : T) c' : c <> c' -> mset m c v c' = m c'.
Proof. apply mset_other. apply lcell_eqb_spec. Qed.

(* ---------------------------------------------------------------- one row alone *)
Definition urow (m : lcell -> T) (u : nat) : list T := map m (u_cells o u).
Definition vrow (m : lcell -> T) (i : nat) : list T := map m (v_cells o i).
(** The gradient accumulated for row [u], before the regularization. *)
Definition row_deriv (m : lcell -> T) (u : nat) (row : list (nat * T)) (negs : list nat) : list T :=
  fold_left (fun d i => axpy (nopp (sigmoid o (ndot (urow m u) (vrow m i)))) (vrow m i) d) negs
   (fold_left (fun d e => axpy (nopp (nmul (sigmoid o (ndot (urow m u) (vrow m (fst e)))) (snd e))) (vrow m (fst e)) d) row
     (fold_left (fun d e => axpy (snd e) (vrow m (fst e)) d) row (zeros n))).
Definition coord (m : lcell -> T) (u : nat) (d : list T) (j : nat) : T := nsub (nth j d nzero) (nmul (l_reg o) (m (LU u j))).
Definition newG (m : lcell -> T) u d j : T := nadd (m (LD u j)) (nmul (coord m u d j) (coord m u d j)).
Definition newU (m : lcell -> T) u d j : T := nadd (m (LU u j)) (nmul (ndiv (l_lr o) (l_sqrt o (nadd (l_tiny o) (newG m u d j)))) (coord m u d j)).
Definition lstep (u : nat) (d : list T) (m : lcell -> T) (j : nat) : lcell -> T :=
  mset (mset m (LD u j) (newG m u d j)) (LU u j) (newU m u d j).

Lemma run_read cs (k : list T -> lprog) m : alone (read_cells cs k) m = alone (k (map m cs)) m.
Proof. revert k. induction cs as [|c cs IH]; intros k; cbn [read_cells run_alone map]; auto. rewrite IH. auto. Qed.
Lemma run_pos row d (k : list T -> lprog) m : alone (pos_loop o row d k) m = alone (k (fold_left (fun d e => axpy (snd e) (vrow m (fst e)) d) row d)) m.
Proof. revert d. induction row as [|[i c] row IH]; intros d; cbn [pos_loop fold_left]; auto. rewrite run_read, IH. auto. Qed.
Lemma run_sig u row d (k : list T -> lprog) m : alone (sig_loop o u row d k) m =
  alone (k (fold_left (fun d e => axpy (nopp (nmul (sigmoid o (ndot (urow m u) (vrow m (fst e)))) (snd e))) (vrow m (fst e)) d) row d)) m.
Proof. revert d. induction row as [|[i c] row IH]; intros d; cbn [sig_loop fold_left]; auto. rewrite !run_read. cbv zeta. rewrite IH. auto. Qed.
Definition add_log (es : list (nat * nat)) (r : (lcell -> T) * nat * list (nat * nat)) := (fst (fst r), snd (fst r), es ++ snd r).
Lemma add_log_app a b r : add_log a (add_log b r) = add_log (a ++ b) r.
Proof. unfold add_log. simpl. rewrite app_assoc. auto. Qed.
Lemma run_neg u items d (k : list T -> lprog) m : alone (neg_loop o u items d k) m =
  add_log (map (pair u) items) (alone (k (fold_left (fun d i => axpy (nopp (sigmoid o (ndot (urow m u) (vrow m i)))) (vrow m i) d) items d)) m).
Proof.
  revert d. induction items as [|i items IH]; intros d; cbn [neg_loop fold_left map].
  - unfold add_log. destruct (alone (k d) m) as [[? ?] ?]. auto.
  - cbn [run_alone]. rewrite !run_read. cbv zeta. rewrite IH. unfold add_log, urow, vrow. simpl. auto.
Qed.
Lemma run_step u js d (k : lprog) m : alone (step_loop o u js d k) m = alone k (fold_left (lstep u d) js m).
Proof.
  revert m. induction js as [|j js IH]; intros m; cbn [step_loop run_alone fold_left]; auto. rewrite IH. f_equal. f_equal.
  unfold lstep, newU, newG, coord. rewrite lset_eq, lset_neq by discriminate. auto.
Qed.

Lemma fold_lstep u d js : NoDup js -> forall m,
  let m' := fold_left (lstep u d) js m in
  (forall j, In j js -> m' (LU u j) = newU m u d j /\ m' (LD u j) = newG m u d j) /\
  (forall c, (forall j, In j js -> c <> LU u j /\ c <> LD u j) -> m' c = m c).
Proof.
  intros ND. induction ND as [|j js Hj ND IH]; intros m; cbv zeta.
  - simpl. split; [contradiction|auto].
  - cbn [fold_left]. destruct (IH (lstep u d m j)) as [I1 I2].
    assert (OT : forall c, c <> LU u j -> c <> LD u j -> lstep u d m j c = m c) by (intros; unfold lstep; rewrite !lset_neq by congruence; auto).
    split.
    + intros j' [<-|Hj'].
      * assert (N : forall j', In j' js -> j <> j') by (intros; congruence).
        rewrite (I2 (LU u j)) by (intros j' Hj'; specialize (N _ Hj'); split; congruence).
        rewrite (I2 (LD u j)) by (intros j' Hj'; specialize (N _ Hj'); split; congruence).
        unfold lstep. rewrite lset_eq, lset_neq, lset_eq by discriminate. auto.
      * assert (N : j <> j') by congruence. destruct (I1 j' Hj') as (E1 & E2). rewrite E1, E2.
        unfold newU, newG, coord. rewrite !OT by congruence. auto.
    + intros c Hc. rewrite I2 by (intros; apply Hc; simpl; auto). destruct (Hc j (or_introl eq_refl)). apply OT; auto.
Qed.

Definition rated (M : csr T) (u : nat) : bool := negb (nth u (c_indptr M) 0 =? nth (S u) (c_indptr M) 0).
Definition row_len (M : csr T) (u : nat) : nat := nth (S u) (c_indptr M) 0 - nth u (c_indptr M) 0.
(** What row [u] becomes when [negs] are drawn for it. *)
Definition row_after (m m' : lcell -> T) (M : csr T) (u : nat) (negs : list nat) : Prop :=
  let d := row_deriv m u (csr_row M u) negs in
  forall j, j < n -> m' (LU u j) = newU m u d j /\ m' (LD u j) = newG m u d j.

Lemma row_after_cong m0 m m' m'' M u negs :
  (forall j, m0 (LU u j) = m (LU u j) /\ m0 (LD u j) = m (LD u j)) -> (forall i j, m0 (LV i j) = m (LV i j)) ->
  (forall j, m' (LU u j) = m'' (LU u j) /\ m' (LD u j) = m'' (LD u j)) ->
  row_after m0 m' M u negs -> row_after m m'' M u negs.
Proof.
  intros E1 E2 E3 HR. unfold row_after in *.
  assert (EU : urow m0 u = urow m u) by (unfold urow, u_cells; rewrite !map_map; apply map_ext; intros; apply E1).
  assert (EV : forall i, vrow m0 i = vrow m i) by (intros i; unfold vrow, v_cells; rewrite !map_map; apply map_ext; intros; apply E2).
  assert (ED : row_deriv m0 u (csr_row M u) negs = row_deriv m u (csr_row M u) negs).
  { unfold row_deriv. rewrite EU.
    assert (F1 : forall row d, fold_left (fun d e => axpy (snd e) (vrow m0 (fst e)) d) row d = fold_left (fun d (e : nat * T) => axpy (snd e) (vrow m (fst e)) d) row d).
    { induction row; intros; simpl; auto. rewrite EV. auto. }
    assert (F2 : forall row d, fold_left (fun d e => axpy (nopp (nmul (sigmoid o (ndot (urow m u) (vrow m0 (fst e)))) (snd e))) (vrow m0 (fst e)) d) row d
      = fold_left (fun d (e : nat * T) => axpy (nopp (nmul (sigmoid o (ndot (urow m u) (vrow m (fst e)))) (snd e))) (vrow m (fst e)) d) row d).
    { induction row; intros; simpl; auto. rewrite EV. auto. }
    assert (F3 : forall items d, fold_left (fun d i => axpy (nopp (sigmoid o (ndot (urow m u) (vrow m0 i)))) (vrow m0 i) d) items d
      = fold_left (fun d i => axpy (nopp (sigmoid o (ndot (urow m u) (vrow m i)))) (vrow m i) d) items d).
    { induction items; intros; simpl; auto. rewrite EV. auto. }
    rewrite F1, F2, F3. auto. }
  cbv zeta in *. intros j Hj. destruct (HR j Hj) as [R1 R2]. rewrite <- (proj1 (E3 j)), <- (proj2 (E3 j)), R1, R2, ED.
  unfold newU, newG, coord. rewrite !(proj1 (E1 j)), !(proj2 (E1 j)). auto.
Qed.

(** The rows of one thread. *)
Lemma thread_alone M stream us : NoDup us -> forall pos m,
  let r := alone (lmf_thread o M stream us pos) m in
  let m' := fst (fst r) in let log := snd r in
  (forall u, In u us -> rated M u = true -> exists p, let negs := map (fun k => nth (stream (p + k)) (c_indices M) 0) (seq 0 (neg_count o (row_len M u))) in
      row_after m m' M u negs /\ filter (fun e => fst e =? u) log = map (pair u) negs) /\
  (forall u, ~ In u us \/ rated M u = false -> (forall j, m' (LU u j) = m (LU u j) /\ m' (LD u j) = m (LD u j)) /\ filter (fun e => fst e =? u) log = []) /\
  (forall u j, n <= j -> m' (LU u j) = m (LU u j) /\ m' (LD u j) = m (LD u j)) /\
  (forall i j, m' (LV i j) = m (LV i j)).
Proof.
  intros ND. induction ND as [|u us Hu ND IH]; intros pos m; cbn [lmf_thread].
  - simpl. repeat split; auto. contradiction.
  - unfold rated. destruct (nth u (c_indptr M) 0 =? nth (S u) (c_indptr M) 0) eqn:ER.
    + specialize (IH pos m). cbv zeta in IH. destruct IH as (I1 & I2 & I3 & I4). cbv zeta. split; [|split; [|split]]; auto.
      * intros v [<-|Hv] Hr; [rewrite ER in Hr; discriminate|]. apply I1; auto.
      * intros v Hv. apply I2. destruct (Nat.eq_dec v u) as [->|Hne].
        -- left. auto.
        -- destruct Hv as [Hv|Hv]; [left|right]; auto. intros Hin. apply Hv. right; auto.
    + fold (row_len M u). set (cnt := neg_count o (row_len M u)). set (negs := map _ (seq 0 cnt)).
      rewrite run_pos, run_sig, run_neg, run_step.
      fold (row_deriv m u (csr_row M u) negs). set (d := row_deriv m u (csr_row M u) negs).
      set (m1 := fold_left (lstep u d) (seq 0 n) m). destruct (fold_lstep u d (seq 0 n) (seq_NoDup _ _) m) as [F1 F2]. fold m1 in F1, F2.
      assert (FO : forall c, (forall j, j < n -> c <> LU u j /\ c <> LD u j) -> m1 c = m c).
      { intros c Hc. apply F2. intros j Hj. apply in_seq in Hj. apply Hc. lia. }
      specialize (IH (pos + cnt) m1). cbv zeta in IH. destruct IH as (I1 & I2 & I3 & I4).
      cbv zeta. unfold add_log. destruct (alone (lmf_thread o M stream us (pos + cnt)) m1) as [[m2 a2] l2]. cbn [fst snd] in *.
      destruct (I2 u (or_introl Hu)) as (Iu & Il).
      assert (FM : forall v l, v <> u -> filter (fun e : nat * nat => fst e =? v) (map (pair u) l) = []).
      { intros v l Hne. induction l; simpl; auto. destruct (Nat.eqb_spec u v); [congruence|auto]. }
      assert (FE : forall l, filter (fun e : nat * nat => fst e =? u) (map (pair u) l) = map (pair u) l).
      { induction l; simpl; auto. rewrite Nat.eqb_refl. congruence. }
      assert (OTH : forall v, v <> u -> forall j, m1 (LU v j) = m (LU v j) /\ m1 (LD v j) = m (LD v j)).
      { intros v Hne j. split; apply FO; intros; split; congruence. }
      assert (OV : forall i j, m1 (LV i j) = m (LV i j)) by (intros; apply FO; intros; split; congruence).
      split; [|split; [|split]].
      * intros v Hv Hr. destruct (Nat.eq_dec v u) as [->|Hne].
        -- exists pos. fold cnt negs. split.
           ++ unfold row_after. cbv zeta. fold d. intros j Hj. destruct (Iu j) as [A1 A2]. destruct (F1 j) as [B1 B2]; [apply in_seq; lia|]. split; [exact (eq_trans A1 B1)|exact (eq_trans A2 B2)].
           ++ rewrite filter_app, Il, app_nil_r. apply FE.
        -- destruct Hv as [Hv|Hv]; [congruence|]. destruct (I1 v Hv Hr) as (p & Hp & Hf). exists p. split.
           ++ eapply row_after_cong; [| | |exact Hp]; [apply OTH; auto|apply OV|auto].
           ++ rewrite filter_app, FM by auto. auto.
      * intros v Hv. assert (Hne : v <> u).
        { intros ->. destruct Hv as [Hv|Hv]; [apply Hv; left; auto|]. rewrite ER in Hv. discriminate. }
        destruct (I2 v) as (J1 & J2). { destruct Hv as [Hv|Hv]; [left|right]; auto. intros Hin; apply Hv; right; auto. }
        split; [|rewrite filter_app, FM by auto; auto]. intros j. destruct (J1 j) as [A1 A2]. destruct (OTH v Hne j) as [B1 B2]. split; [exact (eq_trans A1 B1)|exact (eq_trans A2 B2)].
      * intros v j Hj. destruct (I3 v j Hj) as [A1 A2]. split; [apply (eq_trans A1)|apply (eq_trans A2)]; apply FO; intros j' Hj'; split; intros E; try discriminate; injection E; lia.
      * intros i j. exact (eq_trans (I4 i j) (OV i j)).
Qed.

(* ---------------------------------------------------------------- all threads *)
(** The thread a row was dealt to. *)
Fixpoint dealt (deal : list (list nat * (nat -> nat))) (t u : nat) : option nat :=
  match deal with
  | [] => None
  | d :: deal' => if memn u (fst d) then Some t else dealt deal' (S t) u
  end.
Definition lowner (deal : list (list nat * (nat -> nat))) (c : lcell) : option nat :=
  match c with LU u _ => dealt deal 0 u | LD u _ => dealt deal 0 u | LV _ _ => None end.

Lemma nodup_split {A} (l l' : list A) : NoDup (l ++ l') -> NoDup l /\ NoDup l'.
Proof.
  induction l as [|x l IH]; simpl; intros ND; [split; [constructor|auto]|]. inversion ND as [|? ? Hx ND']; subst. destruct (IH ND') as [I1 I2]. split; auto.
  constructor; auto. intros Hin. apply Hx. apply in_or_app. auto.
Qed.
Lemma dealt_spec deal : NoDup (flat_map fst deal) -> forall t0 t d u, nth_error deal t = Some d -> In u (fst d) -> dealt deal t0 u = Some (t0 + t).
Proof.
  induction deal as [|d0 deal IH]; intros ND t0 t d u Ht Hu; [destruct t; discriminate|]. simpl in ND. cbn [dealt].
  destruct t as [|t]; simpl in Ht.
  - injection Ht as ->. assert (E : memn u (fst d) = true) by (apply memn_spec; auto). rewrite E. f_equal. lia.
  - destruct (memn u (fst d0)) eqn:E.
    + apply memn_spec in E. exfalso. clear -ND E Ht Hu. induction (fst d0) as [|x l IHl]; [contradiction|]. simpl in ND. inversion ND; subst.
      destruct E as [->|E]; [|auto]. apply H1. apply in_or_app. right. apply in_flat_map. exists d. split; auto. eapply nth_error_In; eauto.
    + rewrite (IH (proj2 (nodup_split _ _ ND)) (S t0) t d u Ht Hu). f_equal. lia.
Qed.

Lemma dealt_range deal : forall t0 u t, dealt deal t0 u = Some t -> t0 <= t < t0 + length deal.
Proof.
  induction deal as [|d deal IH]; intros t0 u t Hd; simpl in Hd; [discriminate|]. destruct (memn u (fst d)); [injection Hd as <-; simpl; lia|].
  apply IH in Hd. simpl. lia.
Qed.
Lemma dealt_in deal : forall t0 u t, dealt deal t0 u = Some t -> exists d, nth_error deal (t - t0) = Some d /\ In u (fst d).
Proof.
  induction deal as [|d deal IH]; intros t0 u t Hd; simpl in Hd; [discriminate|]. destruct (memn u (fst d)) eqn:E.
  - injection Hd as <-. rewrite Nat.sub_diag. exists d. split; auto. apply memn_spec. auto.
  - pose proof (dealt_range _ _ _ _ Hd). destruct (IH _ _ _ Hd) as (d' & H1 & H2). exists d'. split; auto. replace (t - t0) with (S (t - S t0)) by lia. auto.
Qed.

(* every access of a thread *)
Section Safe.
Variables (PR PW : lcell -> Prop) (PE : nat * nat -> Prop).
Notation safe := (safe PR PW PE (fun _ => True)).
Lemma safe_read cs (k : list T -> lprog) : (forall c, In c cs -> PR c) -> (forall vs, length vs = length cs -> safe (k vs)) -> safe (read_cells cs k).
Proof.
  revert k. induction cs as [|c cs IH]; intros k HC HK; cbn [read_cells].
  - apply HK. auto.
  - constructor; [apply HC; left; auto|]. intros v. apply IH; [intros; apply HC; right; auto|]. intros vs Hv. apply HK. simpl. lia.
Qed.
Lemma safe_pos row d (k : list T -> lprog) : (forall i j, In i (map fst row) -> j < n -> PR (LV i j)) -> (forall d, safe (k d)) -> safe (pos_loop o row d k).
Proof.
  revert d. induction row as [|[i c] row IH]; intros d HR HK; cbn [pos_loop]; auto. apply safe_read.
  - intros c0 Hc. unfold v_cells in Hc. apply in_map_iff in Hc. destruct Hc as (j & <- & Hj). apply in_seq in Hj. apply HR; [left; auto|lia].
  - intros. apply IH; auto. intros; apply HR; auto. right; auto.
Qed.
Lemma safe_sig u row d (k : list T -> lprog) : (forall j, j < n -> PR (LU u j)) -> (forall i j, In i (map fst row) -> j < n -> PR (LV i j)) -> (forall d, safe (k d)) -> safe (sig_loop o u row d k).
Proof.
  intros HU. revert d. induction row as [|[i c] row IH]; intros d HR HK; cbn [sig_loop]; auto. apply safe_read.
  - intros c0 Hc. unfold u_cells in Hc. apply in_map_iff in Hc. destruct Hc as (j & <- & Hj). apply in_seq in Hj. apply HU; lia.
  - intros. apply safe_read.
    + intros c0 Hc. unfold v_cells in Hc. apply in_map_iff in Hc. destruct Hc as (j & <- & Hj). apply in_seq in Hj. apply HR; [left; auto|lia].
    + intros. apply IH; auto. intros; apply HR; auto. right; auto.
Qed.
Lemma safe_neg u items d (k : list T -> lprog) : (forall j, j < n -> PR (LU u j)) -> (forall i j, In i items -> j < n -> PR (LV i j)) -> (forall i, In i items -> PE (u, i)) ->
  (forall d, safe (k d)) -> safe (neg_loop o u items d k).
Proof.
  intros HU. revert d. induction items as [|i items IH]; intros d HR HE HK; cbn [neg_loop]; auto. constructor; [apply HE; left; auto|]. apply safe_read.
  - intros c0 Hc. unfold u_cells in Hc. apply in_map_iff in Hc. destruct Hc as (j & <- & Hj). apply in_seq in Hj. apply HU; lia.
  - intros. apply safe_read.
    + intros c0 Hc. unfold v_cells in Hc. apply in_map_iff in Hc. destruct Hc as (j & <- & Hj). apply in_seq in Hj. apply HR; [left; auto|lia].
    + intros. apply IH; auto; intros; [apply HR|apply HE]; auto; right; auto.
Qed.
Lemma safe_step u js d (k : lprog) : (forall j, In j js -> PR (LU u j) /\ PR (LD u j) /\ PW (LU u j) /\ PW (LD u j)) -> safe k -> safe (step_loop o u js d k).
Proof.
  induction js as [|j js IH]; intros HJ HK; cbn [step_loop]; auto. destruct (HJ j (or_introl eq_refl)) as (A & B & C & D).
  constructor; auto. intros. constructor; auto. intros. constructor; auto. constructor; auto. intros. constructor; auto. intros. constructor; auto.
  apply IH; auto. intros; apply HJ; right; auto.
Qed.
Lemma safe_thread M stream us : forall pos,
  (forall u, In u us -> rated M u = true -> forall j, j < n -> PR (LU u j) /\ PR (LD u j) /\ PW (LU u j) /\ PW (LD u j)) ->
  (forall u i j, In u us -> In i (map fst (csr_row M u)) -> j < n -> PR (LV i j)) ->
  (forall u, In u us -> rated M u = true -> forall k, PE (u, nth (stream k) (c_indices M) 0) /\ forall j, j < n -> PR (LV (nth (stream k) (c_indices M) 0) j)) ->
  safe (lmf_thread o M stream us pos).
Proof.
  induction us as [|u us IH]; intros pos H1 H2 H3; cbn [lmf_thread]; [constructor; auto|].
  assert (IH' : forall pos, safe (lmf_thread o M stream us pos)).
  { intros p. apply IH; intros; [eapply H1|eapply H2|eapply H3]; eauto; right; auto. }
  destruct (nth u (c_indptr M) 0 =? nth (S u) (c_indptr M) 0) eqn:E; auto.
  assert (ER : rated M u = true) by (unfold rated; rewrite E; auto).
  assert (Hu : In u (u :: us)) by (left; auto).
  apply safe_pos. { intros; eapply H2; eauto. } intros d1.
  apply safe_sig. { intros j Hj. apply (H1 u Hu ER j Hj). } { intros; eapply H2; eauto. } intros d2.
  apply safe_neg. { intros j Hj. apply (H1 u Hu ER j Hj). }
  { intros i j Hi Hj. apply in_map_iff in Hi. destruct Hi as (k & <- & _). apply (H3 u Hu ER); auto. }
  { intros i Hi. apply in_map_iff in Hi. destruct Hi as (k & <- & _). apply (H3 u Hu ER); auto. }
  intros d3. apply safe_step; auto. intros j Hj. apply in_seq in Hj. apply (H1 u Hu ER). lia.
Qed.
End Safe.

Lemma threads_behave M deal : NoDup (flat_map fst deal) -> forall t p, nth_error (lmf_threads o M deal) t = Some p -> well_behaved (lowner deal) t p.
Proof.
  intros ND t p Hp. unfold lmf_threads in Hp. rewrite nth_error_map in Hp. destruct (nth_error deal t) as [d|] eqn:Ed; [|discriminate]. simpl in Hp. injection Hp as <-.
  unfold well_behaved. apply safe_thread.
  - intros u Hu _ j _. unfold may_read, may_write. simpl. rewrite (dealt_spec _ ND 0 t d u Ed Hu). simpl. auto.
  - intros u i j _ _ _. right. auto.
  - intros u Hu _ k. split; auto. intros j _. right; auto.
Qed.

(** What one finished call does, in every schedule. *)
Theorem lmf_update_spec M deal sched U V D U' D' log : NoDup (flat_map fst deal) ->
  lmf_update o M deal sched U V D = Some (U', D', log) ->
  let m := lmf_mem U V D in let m' := lmf_mem U' V D' in
  (forall us stream u, In (us, stream) deal -> In u us -> rated M u = true -> exists p,
      let negs := map (fun k => nth (stream (p + k)) (c_indices M) 0) (seq 0 (neg_count o (row_len M u))) in
      row_after m m' M u negs /\ Permutation (filter (fun e => fst e =? u) log) (map (pair u) negs)) /\
  (forall u, ~ In u (flat_map fst deal) \/ rated M u = false -> (forall j, U' u j = U u j /\ D' u j = D u j) /\ filter (fun e => fst e =? u) log = []) /\
  (forall u j, n <= j -> U' u j = U u j /\ D' u j = D u j).
Proof.
  intros ND HU. unfold lmf_update in HU.
  destruct (interleave lcell_eqb sched (lmf_mem U V D) (lmf_threads o M deal)) as [[m2 ps] lg] eqn:EI.
  destruct (results ps) as [rs|] eqn:ER; [|discriminate]. injection HU as <- <- <-.
  destruct (race_free lcell_eqb lcell_eqb_spec (lowner deal) sched _ _ _ _ _ _ (threads_behave M deal ND) EI ER) as (R1 & R2 & R3 & R4). cbv zeta.
  assert (TH : forall t d, nth_error deal t = Some d -> nth_error (lmf_threads o M deal) t = Some (lmf_thread o M (snd d) (fst d) 0)).
  { intros t d Hd. unfold lmf_threads. rewrite nth_error_map, Hd. auto. }
  assert (NDt : forall t d, nth_error deal t = Some d -> NoDup (fst d)).
  { clear -ND. induction deal as [|d0 deal IH]; intros t d Hd; [destruct t; discriminate|]. simpl in ND. apply nodup_split in ND. destruct ND as [N1 N2].
    destruct t; simpl in Hd; [injection Hd as <-; auto|eauto]. }
  (* the log restricted to one row *)
  assert (LG : forall u t d, nth_error deal t = Some d -> In u (fst d) ->
     Permutation (filter (fun e : nat * nat => fst e =? u) lg) (filter (fun e => fst e =? u) (snd (alone (lmf_thread o M (snd d) (fst d) 0) (lmf_mem U V D))))).
  { intros u t d Hd Hu.
    assert (P : Permutation (filter (fun e : nat * nat => fst e =? u) lg) (filter (fun e : nat * nat => fst e =? u) (concat (map (fun p => snd (alone p (lmf_mem U V D))) (lmf_threads o M deal))))).
    { clear -R4. induction R4; simpl; auto; repeat match goal with |- context [if ?b then _ else _] => destruct b end; auto; try constructor. etransitivity; eauto. }
    rewrite P. clear -Hd Hu ND NDt. unfold lmf_threads. rewrite map_map.
    revert t Hd. induction deal as [|d0 deal' IH]; intros t Hd; [destruct t; discriminate|]. cbn [map concat]. rewrite filter_app. simpl in ND.
    destruct t as [|t]; simpl in Hd.
    - injection Hd as ->. replace (filter _ (concat _)) with (@nil (nat * nat)); [rewrite app_nil_r; auto|]. symmetry.
      assert (NI : forall d', In d' deal' -> ~ In u (fst d')).
      { intros d' Hd' Hin. clear -ND Hu Hd' Hin. induction (fst d) as [|x l IHl]; [contradiction|]. simpl in ND. inversion ND as [|? ? Hx ND']; subst. destruct Hu as [->|Hu]; [|auto].
        apply Hx. apply in_or_app. right. apply in_flat_map. eauto. }
      assert (ND2 : forall d', In d' deal' -> NoDup (fst d')). { intros d' Hd'. apply In_nth_error in Hd'. destruct Hd' as (k & Hk). apply (NDt (S k)). auto. }
      clear -NI ND2. induction deal' as [|d1 deal' IH]; [auto|]. cbn [map concat]. rewrite filter_app, IH by (intros; first [apply NI|apply ND2]; right; auto).
      rewrite app_nil_r. destruct (thread_alone M (snd d1) (fst d1) (ND2 d1 (or_introl eq_refl)) 0 (lmf_mem U V D)) as (_ & T2 & _).
      apply T2. left. apply NI. left; auto.
    - destruct (thread_alone M (snd d0) (fst d0) (NDt 0 d0 eq_refl) 0 (lmf_mem U V D)) as (_ & T2 & _).
      assert (NI : ~ In u (fst d0)).
      { intros Hin. clear -ND Hu Hd Hin. induction (fst d0) as [|x l IHl]; [contradiction|]. simpl in ND. inversion ND as [|? ? Hx ND']; subst. destruct Hin as [->|Hin]; [|auto].
        apply Hx. apply in_or_app. right. apply in_flat_map. exists d. split; auto. eapply nth_error_In; eauto. }
      destruct (T2 u (or_introl NI)) as [_ T2l]. cbv zeta in T2l. rewrite T2l. simpl. apply (IH (proj2 (nodup_split _ _ ND))) with (t := t); auto.
      intros t' d' Hd'. apply (NDt (S t')). auto. }
  assert (V2 : forall c, lowner deal c = None -> m2 c = lmf_mem U V D c). { intros c Hc. apply R2. intros t Ht. congruence. }
  assert (OWN : forall u t d j, nth_error deal t = Some d -> In u (fst d) ->
     let r := alone (lmf_thread o M (snd d) (fst d) 0) (lmf_mem U V D) in m2 (LU u j) = fst (fst r) (LU u j) /\ m2 (LD u j) = fst (fst r) (LD u j)).
  { intros u t d j Hd Hu. cbv zeta. destruct (R1 t _ (TH t d Hd)) as [_ R1c]. split; apply R1c; simpl; rewrite (dealt_spec _ ND 0 t d u Hd Hu); auto. }
  split; [|split].
  - intros us stream u Hd Hu Hr. apply In_nth_error in Hd. destruct Hd as (t & Hd).
    destruct (thread_alone M stream us (NDt t _ Hd) 0 (lmf_mem U V D)) as (T1 & _). destruct (T1 u Hu Hr) as (p & Tp & Tl). exists p. split.
    + eapply row_after_cong; [| | |exact Tp]; auto. intros j. destruct (OWN u t _ j Hd Hu) as [O1 O2]. cbn [fst snd] in O1, O2. split; symmetry; [exact O1|exact O2].
    + rewrite (LG u t _ Hd Hu). cbv zeta in Tl. cbn [fst snd]. rewrite Tl. auto.
  - intros u Hu. destruct (dealt deal 0 u) as [t|] eqn:Ed.
    + destruct (dealt_in _ _ _ _ Ed) as (d & Hd & Hin). rewrite Nat.sub_0_r in Hd.
      destruct Hu as [Hu|Hu]. { exfalso. apply Hu. apply in_flat_map. exists d. split; auto. eapply nth_error_In; eauto. }
      destruct (thread_alone M (snd d) (fst d) (NDt t _ Hd) 0 (lmf_mem U V D)) as (_ & T2 & _). destruct (T2 u (or_intror Hu)) as (T2a & T2b). split.
      * intros j. destruct (OWN u t d j Hd Hin) as [O1 O2]. destruct (T2a j) as [T3 T4]. split; [exact (eq_trans O1 T3)|exact (eq_trans O2 T4)].
      * apply Permutation_nil. symmetry. rewrite (LG u t d Hd Hin). cbv zeta in T2b. rewrite T2b. auto.
    + split. { intros j. split; [apply (V2 (LU u j))|apply (V2 (LD u j))]; auto. }
      destruct (filter (fun e : nat * nat => fst e =? u) lg) as [|e l] eqn:EF; auto. exfalso.
      assert (In e (filter (fun e : nat * nat => fst e =? u) lg)) by (rewrite EF; left; auto). apply filter_In in H0. destruct H0 as [H0 H1].
      apply (Permutation_in _ R4) in H0. apply in_concat in H0. destruct H0 as (l0 & Hl0 & Hel). apply in_map_iff in Hl0. destruct Hl0 as (p & <- & Hp).
      unfold lmf_threads in Hp. apply in_map_iff in Hp. destruct Hp as (d & <- & Hd). apply In_nth_error in Hd. destruct Hd as (t & Hd).
      destruct (in_dec Nat.eq_dec u (fst d)) as [Hin|Hin]. { rewrite (dealt_spec _ ND 0 t d u Hd Hin) in Ed. discriminate. }
      destruct (thread_alone M (snd d) (fst d) (NDt t _ Hd) 0 (lmf_mem U V D)) as (_ & T2 & _). destruct (T2 u (or_introl Hin)) as (_ & T2b).
      assert (In e []). { rewrite <- T2b. apply filter_In. split; auto. } contradiction.
  - intros u j Hj. destruct (dealt deal 0 u) as [t|] eqn:Ed.
    + destruct (dealt_in _ _ _ _ Ed) as (d & Hd & Hin). rewrite Nat.sub_0_r in Hd.
      destruct (thread_alone M (snd d) (fst d) (NDt t _ Hd) 0 (lmf_mem U V D)) as (_ & _ & T3 & _). destruct (T3 u j Hj) as [T4 T5].
      destruct (OWN u t d j Hd Hin) as [O1 O2]. split; [exact (eq_trans O1 T4)|exact (eq_trans O2 T5)].
    + split; [apply (V2 (LU u j))|apply (V2 (LD u j))]; auto.
Qed.

(** Two finished schedules agree. *)
Theorem lmf_update_det M deal s1 s2 U V D U' V' D' U1 D1 l1 U2 D2 l2 : NoDup (flat_map fst deal) ->
  (forall u j, U u j = U' u j) -> (forall u j, V u j = V' u j) -> (forall u j, D u j = D' u j) ->
  lmf_update o M deal s1 U V D = Some (U1, D1, l1) -> lmf_update o M deal s2 U' V' D' = Some (U2, D2, l2) ->
  (forall u j, U1 u j = U2 u j) /\ (forall u j, D1 u j = D2 u j) /\ Permutation l1 l2.
Proof.
  intros ND EU EV ED H1 H2. unfold lmf_update in H1, H2.
  assert (EM : forall c, lmf_mem U V D c = lmf_mem U' V' D' c) by (intros [u j|u j|u j]; simpl; auto).
  destruct (interleave lcell_eqb s1 (lmf_mem U V D) (lmf_threads o M deal)) as [[m1 ps1] lg1] eqn:E1.
  destruct (interleave lcell_eqb s2 (lmf_mem U' V' D') (lmf_threads o M deal)) as [[m2 ps2] lg2] eqn:E2.
  destruct (results ps1) as [rs1|] eqn:R1; [|discriminate]. destruct (results ps2) as [rs2|] eqn:R2; [|discriminate].
  injection H1 as <- <- <-. injection H2 as <- <- <-.
  destruct (race_free lcell_eqb lcell_eqb_spec (lowner deal) s1 _ _ _ _ _ _ (threads_behave M deal ND) E1 R1) as (A1 & A2 & _ & A4).
  destruct (race_free lcell_eqb lcell_eqb_spec (lowner deal) s2 _ _ _ _ _ _ (threads_behave M deal ND) E2 R2) as (B1 & B2 & _ & B4).
  assert (CG : forall t p, nth_error (lmf_threads o M deal) t = Some p -> 
     snd (alone p (lmf_mem U V D)) = snd (alone p (lmf_mem U' V' D')) /\
     forall c, lowner deal c = Some t -> fst (fst (alone p (lmf_mem U V D))) c = fst (fst (alone p (lmf_mem U' V' D'))) c).
  { intros t p Hp. destruct (alone_cong lcell_eqb (lowner deal) t p (threads_behave M deal ND t p Hp) (lmf_mem U V D) (lmf_mem U' V' D')) as (C1 & _ & C3); auto.
    split; auto. intros c Hc. apply C3. left; auto. }
  assert (EQ : forall c, m1 c = m2 c).
  { intros c. destruct (lowner deal c) as [t|] eqn:Eo.
    - destruct (nth_error (lmf_threads o M deal) t) as [p|] eqn:Ep.
      + destruct (A1 t p Ep) as [_ A1c]. destruct (B1 t p Ep) as [_ B1c]. rewrite (A1c c Eo), (B1c c Eo). apply (CG t p Ep); auto.
      + apply nth_error_None in Ep. rewrite A2, B2; auto; intros t' Ht'; rewrite Eo in Ht'; injection Ht' as <-; auto.
    - rewrite A2, B2; auto; intros t' Ht'; congruence. }
  split; [intros; apply EQ|]. split; [intros; apply EQ|]. etransitivity; [exact A4|]. etransitivity; [|symmetry; exact B4].
  replace (map (fun p => snd (alone p (lmf_mem U V D))) (lmf_threads o M deal)) with (map (fun p => snd (alone p (lmf_mem U' V' D'))) (lmf_threads o M deal)); auto.
  apply map_ext_in. intros p Hp. apply In_nth_error in Hp. destruct Hp as (t & Hp). symmetry. apply (CG t p Hp).
Qed.
End Lmf.

(* ---------------------------------------------------------------- the matrices *)
Lemma row_len_spec {T} (M : csr T) u : csr_wf M -> u < c_rows M -> length (csr_row M u) = row_len M u.
Proof.
  intros W Hu. unfold row_len. rewrite <- (slice_length (c_indices M)) by (apply indptr_bound; auto). rewrite <- row_indices_slice by auto.
  unfold csr_row_indices. rewrite map_length. auto.
Qed.
Lemma rated_spec {T} (M : csr T) u : csr_wf M -> u < c_rows M -> (rated M u = true <-> csr_row M u <> []).
Proof.
  intros W Hu. pose proof (row_len_spec M u W Hu) as HL. unfold row_len in HL. pose proof (wf_indptr_mono _ W u (S u) ltac:(lia) ltac:(lia)) as HM.
  unfold rated. destruct (Nat.eqb_spec (nth u (c_indptr M) 0) (nth (S u) (c_indptr M) 0)) as [E|E]; simpl.
  - split; [discriminate|]. intros N. destruct (csr_row M u); [congruence|]. simpl in HL. lia.
  - split; auto. intros _ N. rewrite N in HL. simpl in HL. lia.
Qed.
Lemma lmf_matrix_spec {T} (M : csr T) : csr_wf M -> csr_tight M ->
  csr_wf (lmf_matrix M) /\ csr_tight (lmf_matrix M) /\ c_rows (lmf_matrix M) = c_rows M /\ c_cols (lmf_matrix M) = c_cols M /\
  forall u, u < c_rows M -> Permutation (csr_row (lmf_matrix M) u) (csr_row M u).
Proof.
  intros W HT. unfold lmf_matrix. destruct (has_sorted_indices M); [split; [auto|]; split; [auto|]; auto|].
  destruct (sort_indices_spec M W) as (S1 & S2 & _ & S4 & S5 & S6). split; [auto|]; split; [auto|]; auto.
Qed.
Lemma transpose_wf {T} (M : csr T) : csr_wf (transpose M) /\ csr_tight (transpose M).
Proof.
  apply csr_of_rows_wf. intros r p Hr Hp. apply in_map_iff in Hr. destruct Hr as (j & <- & _). apply in_flat_map in Hp. destruct Hp as (u & Hu & Hp).
  apply in_map_iff in Hp. destruct Hp as (q & <- & _). apply in_seq in Hu. simpl. lia.
Qed.
