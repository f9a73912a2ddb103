(** C117-C119: datasets generated from text files. *)
From Coq Require Import List Arith Lia Bool ZArith Sorted.
From Verif Require Import Base Num Sparse DatasetGen.
Import ListNotations.

(* ------------------------------------------------------------------ specification *)
Definition str_lt (a b : str) : Prop := str_cmp a b = Lt.
Definition has_labels (a b : option str) (r c : str) : bool :=
  match a, b with Some x, Some y => match str_cmp x r, str_cmp y c with Eq, Eq => true | _, _ => false end | _, _ => false end.
Definition sum_of {T} `{Num T} (vs : list T) : T := match vs with [] => nzero | v :: vs => fold_left nadd vs v end.
(** [M] tabulates the lines: one row per label [rowf], one column per label [colf], both in alphabetical order; a
    cell is stored when some line has both labels, and holds the sum of the values of these lines. *)
Record tabulates {T} `{Num T} (rowf colf : line T -> option str) (valf : line T -> T) (ls : list (line T)) (rs cs : list str) (M : csr T) : Prop := {
  tab_rs_sorted : StronglySorted str_lt rs;
  tab_cs_sorted : StronglySorted str_lt cs;
  tab_rs : forall s, In s rs <-> exists l, In l ls /\ rowf l = Some s;
  tab_cs : forall s, In s cs <-> exists l, In l ls /\ colf l = Some s;
  tab_rows : c_rows M = length rs;
  tab_cols : c_cols M = length cs;
  tab_once : forall i, i < length rs -> NoDup (csr_row_indices M i);
  tab_stored : forall i j, i < length rs -> j < length cs ->
    (In j (csr_row_indices M i) <-> exists l, In l ls /\ has_labels (rowf l) (colf l) (nth i rs []) (nth j cs []) = true);
  tab_value : forall i j v, i < length rs -> j < length cs -> In (j, v) (csr_row M i) ->
    v = sum_of (map valf (filter (fun l => has_labels (rowf l) (colf l) (nth i rs []) (nth j cs [])) ls))
}.

(* ------------------------------------------------------------------ strings *)
Lemma str_cmp_eq a b : str_cmp a b = Eq <-> a = b.
Proof.
  revert b. induction a as [|x a IH]; intros [|y b]; cbn; try (split; intros; discriminate || reflexivity).
  destruct (Nat.compare_spec x y) as [->|L|L].
  - rewrite IH. split; [intros ->; auto|intros E; injection E; auto].
  - split; [discriminate|]. intros E. injection E as -> _. lia.
  - split; [discriminate|]. intros E. injection E as -> _. lia.
Qed.
Lemma str_cmp_refl a : str_cmp a a = Eq.
Proof. apply str_cmp_eq. auto. Qed.
Lemma str_cmp_sym a b : str_cmp b a = CompOpp (str_cmp a b).
Proof.
  revert b. induction a as [|x a IH]; intros [|y b]; cbn; auto. rewrite (Nat.compare_antisym x y). destruct (x ?= y); cbn; auto.
Qed.
Lemma str_lt_trans a b c : str_lt a b -> str_lt b c -> str_lt a c.
Proof.
  unfold str_lt. revert b c. induction a as [|x a IH]; intros [|y b] [|z c]; cbn; auto; try discriminate.
  destruct (Nat.compare_spec x y) as [->|L|L], (Nat.compare_spec y z) as [E2|L2|L2]; try discriminate; intros A B.
  - eauto.
  - auto.
  - subst. rewrite (proj2 (Nat.compare_lt_iff _ _)); auto.
  - rewrite (proj2 (Nat.compare_lt_iff _ _)); auto. lia.
Qed.
Lemma str_gt a b : str_cmp a b = Gt -> str_lt b a.
Proof. intros E. unfold str_lt. rewrite str_cmp_sym, E. auto. Qed.
Lemma str_lt_irrefl a : ~ str_lt a a.
Proof. unfold str_lt. rewrite str_cmp_refl. discriminate. Qed.

(* ------------------------------------------------------------------ categories *)
Lemma insert_in s t l : In t (insert_label s l) <-> t = s \/ In t l.
Proof.
  induction l as [|x l IH]; cbn; [intuition|]. destruct (str_cmp s x) eqn:E.
  - apply str_cmp_eq in E. subst. cbn. intuition.
  - cbn. intuition.
  - cbn. rewrite IH. intuition.
Qed.
Lemma insert_sorted s l : StronglySorted str_lt l -> StronglySorted str_lt (insert_label s l).
Proof.
  induction l as [|x l IH]; intros SS; cbn; [repeat constructor|]. inversion SS as [|? ? S1 F1]; subst. destruct (str_cmp s x) eqn:E; auto.
  - constructor; auto. constructor; auto. apply Forall_forall. intros t Ht. rewrite Forall_forall in F1. apply str_lt_trans with x; auto.
  - constructor; auto. apply Forall_forall. intros t Ht. apply insert_in in Ht. destruct Ht as [->|Ht]; [apply str_gt; auto|]. rewrite Forall_forall in F1. auto.
Qed.
Lemma categories_spec ls : StronglySorted str_lt (categories ls) /\ forall s, In s (categories ls) <-> In (Some s) ls.
Proof.
  unfold categories.
  assert (G : forall c, StronglySorted str_lt c -> StronglySorted str_lt (fold_left (fun c o => match o with Some s => insert_label s c | None => c end) ls c) /\
            forall s, In s (fold_left (fun c o => match o with Some s => insert_label s c | None => c end) ls c) <-> In s c \/ In (Some s) ls).
  { induction ls as [|o ls IH]; intros c SC; cbn; [split; auto; intuition|]. destruct o as [t|].
    - destruct (IH (insert_label t c) (insert_sorted t c SC)) as [A B]. split; auto. intros s. rewrite B, insert_in. split; [intros [[->|]|]|intros [|[E|]]]; auto. injection E as ->. auto.
    - destruct (IH c SC) as [A B]. split; auto. intros s. rewrite B. split; [intros [|]|intros [|[E|]]]; auto. discriminate. }
  destruct (G [] (SSorted_nil _)) as [A B]. split; auto. intros s. rewrite B. cbn. intuition.
Qed.
Lemma position_spec s l : In s l -> position s l < length l /\ nth (position s l) l [] = s.
Proof.
  induction l as [|t l IH]; [intros []|]. intros I. cbn. destruct (str_cmp s t) eqn:E.
  - apply str_cmp_eq in E. subst. split; [lia|auto].
  - destruct I as [->|I]; [rewrite str_cmp_refl in E; discriminate|]. destruct (IH I). split; [lia|auto].
  - destruct I as [->|I]; [rewrite str_cmp_refl in E; discriminate|]. destruct (IH I). split; [lia|auto].
Qed.
Lemma position_nth l i : StronglySorted str_lt l -> i < length l -> position (nth i l []) l = i.
Proof.
  revert i. induction l as [|t l IH]; intros i SS Hi; cbn in Hi; [lia|]. inversion SS as [|? ? S1 F1]; subst. destruct i as [|i]; cbn; [rewrite str_cmp_refl; auto|].
  assert (LT : str_lt t (nth i l [])) by (rewrite Forall_forall in F1; apply F1, nth_In; lia).
  destruct (str_cmp (nth i l []) t) eqn:E.
  - apply str_cmp_eq in E. rewrite E in LT. destruct (str_lt_irrefl _ LT).
  - f_equal. apply IH; auto. lia.
  - f_equal. apply IH; auto. lia.
Qed.
Lemma position_iff s l i : StronglySorted str_lt l -> In s l -> i < length l -> (position s l = i <-> s = nth i l []).
Proof. intros SS I L. split; [intros <-; symmetry; apply position_spec; auto|intros ->; apply position_nth; auto]. Qed.
Lemma list_max_eq l n : (forall x, In x l -> x <= n) -> In n l -> list_max l = n.
Proof.
  intros B I. apply Nat.le_antisymm.
  - apply list_max_le, Forall_forall. auto.
  - pose proof (proj1 (list_max_le l (list_max l)) (le_n _)) as F. rewrite Forall_forall in F. auto.
Qed.

(* ------------------------------------------------------------------ rows of a coo matrix *)
Section Coo.
Context {T : Type} {NT : Num T}.
Lemma add_keys c v row : StronglySorted lt (map fst row) -> StronglySorted lt (map fst (add_to_row c v row)) /\
  forall x, In x (map fst (add_to_row c v row)) <-> x = c \/ In x (map fst row).
Proof.
  induction row as [|[c' v'] row IH]; cbn [map fst]; intros SS; cbn [add_to_row]; [split; [repeat constructor|cbn; intuition]|].
  inversion SS as [|? ? S1 F1]; subst. destruct (Nat.eqb_spec c c') as [->|NE]; [cbn; split; auto; intuition|]. destruct (Nat.ltb_spec c c') as [L|L].
  - cbn [map fst]. split; [|cbn; intuition]. constructor; auto. constructor; auto. rewrite Forall_forall in *. intros x Hx. specialize (F1 x Hx). lia.
  - destruct (IH S1) as [A B]. cbn [map fst]. split.
    + constructor; auto. rewrite Forall_forall in *. intros x Hx. apply B in Hx. destruct Hx as [->|Hx]; [lia|auto].
    + intros x. cbn [In]. rewrite B. intuition.
Qed.
Lemma add_in c v row x w : StronglySorted lt (map fst row) -> In (x, w) (add_to_row c v row) ->
  (x <> c /\ In (x, w) row) \/ (x = c /\ ((exists w0, In (c, w0) row /\ w = nadd w0 v) \/ (~ In c (map fst row) /\ w = v))).
Proof.
  induction row as [|[c' v'] row IH]; cbn [map fst]; intros SS I; cbn [add_to_row] in I.
  - destruct I as [E|[]]. injection E as <- <-. right. auto.
  - inversion SS as [|? ? S1 F1]; subst. rewrite Forall_forall in F1. destruct (Nat.eqb_spec c c') as [->|NE].
    + destruct I as [E|I]; [injection E as <- <-; right; split; auto; left; exists v'; split; auto; left; auto|].
      left. split; [|right; auto]. intros ->. apply (in_map fst) in I. cbn in I. specialize (F1 _ I). lia.
    + destruct (Nat.ltb_spec c c') as [L|L].
      * destruct I as [E|I].
        -- injection E as <- <-. right. split; auto. right. split; auto. intros [E|J]; [cbn in E; lia|]. specialize (F1 _ J). lia.
        -- left. split; auto. intros ->. apply (in_map fst) in I. cbn in I. destruct I as [E|J]; [lia|]. specialize (F1 _ J). lia.
      * destruct I as [E|I]; [injection E as <- <-; left; split; [lia|left; auto]|].
        destruct (IH S1 I) as [[A B]|[A [(w0 & B & D)|[B D]]]]; [left; split; [auto|right; auto]|right; split; auto; left; exists w0; split; auto; right; auto|].
        right. split; auto. right. split; auto. intros [E|J]; [lia|auto].
Qed.
Lemma sum_snoc (vs : list T) v : sum_of (vs ++ [v]) = match vs with [] => v | _ => nadd (sum_of vs) v end.
Proof. destruct vs as [|w vs]; auto. cbn. rewrite fold_left_app. auto. Qed.
Definition at_cell (r c : nat) (e : nat * nat * T) : bool := let '(r', c', _) := e in (r' =? r) && (c' =? c).
Lemma coo_row_spec es r : StronglySorted lt (map fst (coo_row es r)) /\
  (forall c, In c (map fst (coo_row es r)) <-> exists e, In e es /\ at_cell r c e = true) /\
  (forall c w, In (c, w) (coo_row es r) -> w = sum_of (map snd (filter (at_cell r c) es))).
Proof.
  induction es as [|[[r' c'] v] es IH] using rev_ind.
  - cbn. split; [constructor|]. split; [intros c; split; [intros []|intros (e & [] & _)]|intros c w []].
  - destruct IH as (SS & K & V). unfold coo_row in *. rewrite fold_left_app. cbn [fold_left]. set (row := fold_left _ es []) in *.
    destruct (Nat.eqb_spec r' r) as [->|NE].
    + destruct (add_keys c' v row SS) as [SA KA]. split; auto. split.
      * intros c. rewrite KA, K. split.
        -- intros [->|(e & He & A)]; [exists (r, c', v); split; [apply in_or_app; right; left; auto|cbn; rewrite !Nat.eqb_refl; auto]|exists e; split; auto; apply in_or_app; auto].
        -- intros (e & He & A). apply in_app_or in He. destruct He as [He|[<-|[]]]; [right; eauto|]. cbn in A. apply andb_true_iff in A. destruct A as [_ A]. apply Nat.eqb_eq in A. auto.
      * intros c w I. rewrite filter_app, map_app. cbn [filter at_cell]. rewrite Nat.eqb_refl. cbn [andb].
        destruct (add_in c' v row c w SS I) as [[NC J]|[-> J]].
        -- destruct (Nat.eqb_spec c' c); [lia|]. cbn. rewrite app_nil_r. auto.
        -- rewrite Nat.eqb_refl. cbn [map snd]. rewrite sum_snoc. destruct J as [(w0 & J & ->)|[J ->]].
           ++ rewrite (V _ _ J). destruct (map snd (filter (at_cell r c') es)) eqn:E; auto. exfalso.
              apply (in_map fst) in J. apply K in J. destruct J as (e & He & A). assert (I2 : In e (filter (at_cell r c') es)) by (apply filter_In; auto).
              destruct (filter (at_cell r c') es); [destruct I2|discriminate E].
           ++ destruct (filter (at_cell r c') es) as [|e l] eqn:E; auto. exfalso. apply J. apply K. exists e. apply filter_In. rewrite E. left. auto.
    + split; auto. split.
      * intros c. rewrite K. split; intros (e & He & A); exists e; (split; auto); [apply in_or_app; auto|]. apply in_app_or in He. destruct He as [He|[<-|[]]]; auto.
        cbn in A. apply andb_true_iff in A. destruct A as [A _]. apply Nat.eqb_eq in A. lia.
      * intros c w I. rewrite filter_app, map_app. cbn [filter at_cell]. destruct (Nat.eqb_spec r' r); [lia|]. cbn. rewrite app_nil_r. auto.
Qed.
Lemma sorted_nodup l : StronglySorted lt l -> NoDup l.
Proof. induction 1 as [|x l S1 IH F1]; constructor; auto. intros I. rewrite Forall_forall in F1. specialize (F1 _ I). lia. Qed.
Lemma filter_map_comm {A B} (f : A -> B) p l : filter p (map f l) = map f (filter (fun x => p (f x)) l).
Proof. induction l as [|x l IH]; cbn; auto. destruct (p (f x)); cbn; rewrite IH; auto. Qed.
Lemma indptr_len k (rows : list (list (nat * T))) : length (indptr_from k rows) = S (length rows).
Proof. revert k. induction rows as [|r rows IH]; intros k; cbn; auto. Qed.

Lemma coo_to_csr_cons (es : list (Z * Z * T)) : es <> [] -> coo_to_csr es =
  if existsb (fun e => let '(r, c, _) := e in (r <? 0) || (c <? 0))%Z es then Raise ValueError else
  let ns := map (fun e => let '(r, c, v) := e in (Z.to_nat r, Z.to_nat c, v)) es in
  Ok (csr_of_rows (S (list_max (map (fun e => snd (fst e)) ns))) (map (coo_row ns) (seq 0 (S (list_max (map (fun e => fst (fst e)) ns)))))).
Proof. destruct es; [congruence|reflexivity]. Qed.

(** From lines to the matrix, out to the file and back. *)
Definition matrix_gen (rowf colf : line T -> option str) (valf : line T -> T) (ls : list (line T)) : res (csr T) :=
  coo_to_csr (map (fun l => (code (categories (map rowf ls)) (rowf l), code (categories (map colf ls)) (colf l), valf l)) ls).
Lemma gen_tabulates rowf colf valf ls : ls <> [] -> (forall l, In l ls -> rowf l <> None /\ colf l <> None) ->
  exists M M', matrix_gen rowf colf valf ls = Ok M /\ csr_of_arrays (c_data M) (c_indices M) (c_indptr M) = Ok M' /\
    tabulates rowf colf valf ls (categories (map rowf ls)) (categories (map colf ls)) M'.
Proof.
  intros NE LB. set (rs := categories (map rowf ls)). set (cs := categories (map colf ls)).
  destruct (categories_spec (map rowf ls)) as [SR IR]. destruct (categories_spec (map colf ls)) as [SC IC]. fold rs in SR, IR. fold cs in SC, IC.
  assert (MR : forall s, In s rs <-> exists l, In l ls /\ rowf l = Some s) by (intros s; rewrite IR, in_map_iff; split; intros (l & A & B); eauto).
  assert (MC : forall s, In s cs <-> exists l, In l ls /\ colf l = Some s) by (intros s; rewrite IC, in_map_iff; split; intros (l & A & B); eauto).
  set (ns := map (fun l => (match rowf l with Some s => position s rs | None => 0 end, match colf l with Some s => position s cs | None => 0 end, valf l)) ls).
  assert (EN : forall l, In l ls -> exists x y, rowf l = Some x /\ colf l = Some y /\ In x rs /\ In y cs).
  { intros l Hl. destruct (LB l Hl) as [A B]. destruct (rowf l) as [x|] eqn:EX; [|congruence]. destruct (colf l) as [y|] eqn:EY; [|congruence]. exists x, y. repeat split; auto; [apply MR|apply MC]; eauto. }
  assert (X0 : exists l0, In l0 ls) by (destruct ls as [|l0 ls0]; [congruence|exists l0; left; auto]). destruct X0 as [l0 H0].
  assert (LR : S (list_max (map (fun e => fst (fst e)) ns)) = length rs).
  { destruct (EN l0 H0) as (x0 & _ & _ & _ & I0 & _).
    destruct (position_spec _ _ I0) as [P0 _]. rewrite (list_max_eq _ (length rs - 1)); [lia| |].
    - intros n Hn. unfold ns in Hn. rewrite map_map in Hn. apply in_map_iff in Hn. destruct Hn as (l & <- & Hl). destruct (EN l Hl) as (x & y & -> & _ & Ix & _). cbn. destruct (position_spec _ _ Ix). lia.
    - assert (IL : In (nth (length rs - 1) rs []) rs) by (apply nth_In; lia). apply MR in IL. destruct IL as (l & Hl & E). unfold ns. rewrite map_map. apply in_map_iff. exists l. split; auto. cbn. rewrite E. apply position_nth; auto. lia. }
  assert (LC : S (list_max (map (fun e => snd (fst e)) ns)) = length cs).
  { destruct (EN l0 H0) as (_ & y0 & _ & _ & _ & I0).
    destruct (position_spec _ _ I0) as [P0 _]. rewrite (list_max_eq _ (length cs - 1)); [lia| |].
    - intros n Hn. unfold ns in Hn. rewrite map_map in Hn. apply in_map_iff in Hn. destruct Hn as (l & <- & Hl). destruct (EN l Hl) as (x & y & _ & -> & _ & Iy). cbn. destruct (position_spec _ _ Iy). lia.
    - assert (IL : In (nth (length cs - 1) cs []) cs) by (apply nth_In; lia). apply MC in IL. destruct IL as (l & Hl & E). unfold ns. rewrite map_map. apply in_map_iff. exists l. split; auto. cbn. rewrite E. apply position_nth; auto. lia. }
  assert (EG : matrix_gen rowf colf valf ls = Ok (csr_of_rows (length cs) (map (coo_row ns) (seq 0 (length rs))))).
  { unfold matrix_gen. fold rs cs. rewrite coo_to_csr_cons by (intros X; apply map_eq_nil in X; auto).
    assert (EX : existsb (fun e : Z * Z * T => let '(r, c, _) := e in (r <? 0) || (c <? 0))%Z (map (fun l => (code rs (rowf l), code cs (colf l), valf l)) ls) = false).
    { apply not_true_is_false. intros X. apply existsb_exists in X. destruct X as ([[a b] w] & He & X). apply in_map_iff in He. destruct He as (l & E & Hl). injection E as <- <- <-.
      destruct (EN l Hl) as (x & y & EX1 & EX2 & _). rewrite EX1, EX2 in X. cbn in X. apply orb_true_iff in X. rewrite !Z.ltb_lt in X. lia. }
    rewrite EX. assert (EM : map (fun e : Z * Z * T => let '(r, c, v) := e in (Z.to_nat r, Z.to_nat c, v)) (map (fun l => (code rs (rowf l), code cs (colf l), valf l)) ls) = ns).
    { rewrite map_map. unfold ns. apply map_ext_in. intros l Hl. destruct (EN l Hl) as (x & y & -> & -> & _). cbn. rewrite !Nat2Z.id. auto. }
    cbv zeta; rewrite EM, LR, LC. auto. }
  assert (CELL : forall i j l, i < length rs -> j < length cs -> In l ls ->
     at_cell i j (match rowf l with Some s => position s rs | None => 0 end, match colf l with Some s => position s cs | None => 0 end, valf l) =
     has_labels (rowf l) (colf l) (nth i rs []) (nth j cs [])).
  { intros i j l Hi Hj Hl. destruct (EN l Hl) as (x & y & -> & -> & Ix & Iy). unfold at_cell, has_labels.
    destruct (Nat.eqb_spec (position x rs) i) as [E1|E1].
    - apply (position_iff _ _ _ SR Ix Hi) in E1. rewrite (proj2 (str_cmp_eq _ _) E1). cbn [andb]. destruct (Nat.eqb_spec (position y cs) j) as [E2|E2].
      + apply (position_iff _ _ _ SC Iy Hj) in E2. rewrite (proj2 (str_cmp_eq _ _) E2). auto.
      + destruct (str_cmp y (nth j cs [])) eqn:Q; auto. apply str_cmp_eq in Q. exfalso. apply E2, position_iff; auto.
    - destruct (str_cmp x (nth i rs [])) eqn:Q; auto. apply str_cmp_eq in Q. exfalso. apply E1, position_iff; auto. }
  set (rows := map (coo_row ns) (seq 0 (length rs))) in *.
  assert (RW : forall i, i < length rs -> nth i rows [] = coo_row ns i).
  { intros i Hi. unfold rows. rewrite nth_indep with (d' := coo_row ns 0) by (rewrite map_length, seq_length; auto). rewrite map_nth, seq_nth; auto. }
  assert (KEYS : forall i j, i < length rs -> j < length cs -> (In j (map fst (coo_row ns i)) <-> exists l, In l ls /\ has_labels (rowf l) (colf l) (nth i rs []) (nth j cs []) = true)).
  { intros i j Hi Hj. destruct (coo_row_spec ns i) as (_ & K & _). rewrite K. unfold ns. split.
    - intros (e & He & A). apply in_map_iff in He. destruct He as (l & <- & Hl). exists l. split; auto. rewrite <- CELL; auto.
    - intros (l & Hl & A). eexists. split; [apply in_map; exact Hl|]. rewrite CELL; auto. }
  assert (IX : forall c, In c (c_indices (csr_of_rows (length cs) rows)) -> c < length cs).
  { cbn. intros c Hc. rewrite concat_map in Hc. apply in_concat in Hc. destruct Hc as (r & Hr & Hc). unfold rows in Hr. rewrite map_map in Hr. apply in_map_iff in Hr. destruct Hr as (i & <- & _).
    apply (coo_row_spec ns i) in Hc. destruct Hc as (e & He & A). unfold ns in He. apply in_map_iff in He. destruct He as (l & <- & Hl). destruct (EN l Hl) as (x & y & EX & EY & _ & Iy).
    rewrite EX, EY in A. cbn in A. apply andb_true_iff in A. destruct A as [_ A]. apply Nat.eqb_eq in A. subst c. apply position_spec; auto. }
  assert (IL : In (length cs - 1) (c_indices (csr_of_rows (length cs) rows))).
  { assert (P : 0 < length cs) by lia. assert (IL : In (nth (length cs - 1) cs []) cs) by (apply nth_In; lia). apply MC in IL. destruct IL as (l & Hl & E).
    destruct (EN l Hl) as (x & y & EX & EY & Ix & Iy). destruct (position_spec _ _ Ix) as [P1 P2].
    cbn. rewrite concat_map. apply in_concat. exists (map fst (coo_row ns (position x rs))). split.
    - unfold rows. rewrite map_map. apply in_map_iff. exists (position x rs). split; auto. apply in_seq. lia.
    - apply KEYS; auto; [lia|]. exists l. split; auto. rewrite EX, E, P2. cbn. rewrite !str_cmp_refl. auto. }
  exists (csr_of_rows (length cs) rows), (csr_of_rows (length cs) rows). split; auto. split.
  { unfold csr_of_arrays. rewrite (list_max_eq _ (length cs - 1)); auto; [|intros n Hn; specialize (IX n Hn); lia].
    destruct (c_indices (csr_of_rows (length cs) rows)) eqn:Q; [destruct IL|]. rewrite <- Q. f_equal. unfold csr_of_rows. cbn [c_indptr c_indices c_data]. f_equal; [rewrite indptr_len; lia|].
    pose proof (IX _ (or_introl eq_refl)). lia. }
  assert (LRW : length rows = length rs) by (unfold rows; rewrite map_length, seq_length; auto).
  split; auto.
  - intros i Hi. unfold csr_row_indices. rewrite csr_row_of_rows by lia. rewrite RW by auto. apply sorted_nodup, coo_row_spec.
  - intros i j Hi Hj. unfold csr_row_indices. rewrite csr_row_of_rows by lia. rewrite RW by auto. auto.
  - intros i j v Hi Hj I. rewrite csr_row_of_rows in I by lia. rewrite RW in I by auto. apply (coo_row_spec ns i) in I. rewrite I. f_equal. unfold ns. rewrite filter_map_comm, map_map. cbn [snd].
    rewrite (filter_ext_in _ (fun l => has_labels (rowf l) (colf l) (nth i rs []) (nth j cs []))); auto.
Qed.
End Coo.

(* ------------------------------------------------------------------ C117 *)
(** Rows are items, columns are users: reddit and sketchfab. *)
Definition row_value {T} `{Num T} (k : kind) (l : line T) : T := match k with Sketchfab => none_ | _ => l_value l end.
Lemma put_same {T} (fs : store T) f s : put fs f s f = Some s.
Proof. unfold put. rewrite str_cmp_refl. auto. Qed.
Theorem C117_partial : forall T (NT : Num T) k (fs : store T) f out ls, k <> Lastfm -> fs f = Some (Lines ls) -> ls <> [] ->
  (forall l, In l ls -> l_user l <> None /\ l_item l <> None) ->
  exists items users M, snd (generate k fs f out) = Ok tt /\
    get_dataset k (fst (generate k fs f out)) out =
      Ok (match k with Reddit => None | _ => Some (map Bytes items) end, match k with Reddit => None | _ => Some (map Bytes users) end, M) /\
    tabulates l_item l_user (row_value k) ls items users M.
Proof.
  intros T NT k fs f out ls NK EF NE LB. exists (categories (map l_item ls)), (categories (map l_user ls)).
  destruct (gen_tabulates l_item l_user (row_value k) ls NE) as (M & M' & G & A & TB); [intros l Hl; destruct (LB l Hl); auto|]. exists M'.
  unfold generate, read_lines. rewrite EF. cbn [bind]. assert (EM : matrix_of k ls = Ok M) by (destruct k; [congruence|exact G|exact G]). rewrite EM. cbn [bind fst snd].
  split; auto. split; auto. unfold get_dataset, write_h5. rewrite put_same. cbn [h_data h_indices h_indptr]. rewrite A. destruct k; [congruence|reflexivity|reflexivity].
Qed.
Print Assumptions C117_partial.
(** last.fm: the matrix that comes back has users as rows and artists as columns. *)
Theorem C117_lastfm_transposed : forall T (NT : Num T) (fs : store T) f out ls, fs f = Some (Lines ls) -> ls <> [] ->
  (forall l, In l ls -> l_user l <> None /\ l_item l <> None) ->
  exists artists users M, snd (generate Lastfm fs f out) = Ok tt /\
    get_dataset Lastfm (fst (generate Lastfm fs f out)) out = Ok (Some (map Text artists), Some (map Text users), M) /\
    tabulates l_user l_item l_value ls users artists M.
Proof.
  intros T NT fs f out ls EF NE LB. exists (categories (map l_item ls)), (categories (map l_user ls)).
  destruct (gen_tabulates l_user l_item l_value ls NE) as (M & M' & G & A & TB); auto. exists M'.
  unfold generate, read_lines. rewrite EF. cbn [bind]. assert (EM : matrix_of Lastfm ls = Ok M) by exact G. rewrite EM. cbn [bind fst snd].
  split; auto. split; auto. unfold get_dataset, write_h5. rewrite put_same. cbn [h_data h_indices h_indptr]. rewrite A. reflexivity.
Qed.
Print Assumptions C117_lastfm_transposed.
(** A line whose user or item is missing is not guessed at: nothing is written. *)
Theorem C117_missing : forall T (NT : Num T) k (fs : store T) f out ls l, fs f = Some (Lines ls) -> In l ls -> l_user l = None \/ l_item l = None ->
  generate k fs f out = (fs, Raise ValueError).
Proof.
  intros T NT k fs f out ls l EF Hl M. unfold generate, read_lines. rewrite EF. cbn [bind].
  assert (E : matrix_of k ls = Raise ValueError); [|rewrite E; reflexivity].
  unfold matrix_of, coo_to_csr. match goal with |- context [map ?h ls] => set (g := h) end. destruct ls as [|l0 ls']; [destruct Hl|]. remember (l0 :: ls') as L eqn:EL.
  destruct (map g L) eqn:EM; [reflexivity|]. rewrite <- EM. destruct (existsb _ (map g L)) eqn:EX; auto. exfalso.
  rewrite <- Bool.not_true_iff_false in EX. apply EX. apply existsb_exists. exists (g l). split; [apply in_map; auto|].
  unfold g. destruct M as [M|M]; rewrite M; cbn [code]; destruct k; cbn; rewrite ?Bool.orb_true_r; reflexivity.
Qed.
Print Assumptions C117_missing.
(** ... although it is used as an artist by user matrix: one user, two artists. *)
Definition ex_line (u i : nat) (v : Z) : line Z := {| l_user := Some [u]; l_item := Some [i]; l_value := v |}.
Definition ex_fs : store Z := fun f => match f with [1] => Some (Lines [ex_line 7 20 3; ex_line 7 10 5; ex_line 7 20 4]) | _ => None end.
Theorem C117_refuted : exists (fs : store Z) f out ls artists users M, fs f = Some (Lines ls) /\ ls <> [] /\
  (forall l, In l ls -> l_user l <> None /\ l_item l <> None) /\ get_dataset Lastfm (fst (generate Lastfm fs f out)) out = Ok (Some artists, Some users, M) /\
  length artists = 2 /\ length users = 1 /\ c_rows M = 1 /\ c_cols M = 2.
Proof.
  exists ex_fs, [1], [2]. eexists _, _, _, _. split; [reflexivity|]. split; [discriminate|]. split; [intros l [<-|[<-|[<-|[]]]]; cbn; split; discriminate|].
  split; [vm_compute; reflexivity|]. repeat split.
Qed.
Print Assumptions C117_refuted.
Example C117_example : exists M, get_dataset Sketchfab (fst (generate Sketchfab ex_fs [1] [2])) [2] = Ok (Some [Bytes [10]; Bytes [20]], Some [Bytes [7]], M) /\
  csr_row M 1 = [(0, 2%Z)] /\ exists M2, get_dataset Reddit (fst (generate Reddit ex_fs [1] [2])) [2] = Ok (None, None, M2) /\ csr_row M2 1 = [(0, 7%Z)].
Proof. eexists. split; [vm_compute; reflexivity|]. split; [reflexivity|]. eexists. split; vm_compute; reflexivity. Qed.

(* ------------------------------------------------------------------ C118 *)
(** A generator's result depends on the file it is given only, and it writes the file it is told to only. *)
Theorem C118_partial : forall T (NT : Num T) k (fs fs' : store T) f out,
  fs f = fs' f ->
  snd (generate k fs f out) = snd (generate k fs' f out) /\
  (snd (generate k fs f out) = Ok tt -> get_dataset k (fst (generate k fs f out)) out = get_dataset k (fst (generate k fs' f out)) out) /\
  (forall g, g <> out -> fst (generate k fs f out) g = fs g) /\
  (forall e, snd (generate k fs f out) = Raise e -> fst (generate k fs f out) = fs).
Proof.
  intros T NT k fs fs' f out E. unfold generate, read_lines. rewrite E. destruct (fs' f) as [[ls|ss|h]|]; cbn [bind fst snd]; try (repeat split; auto; discriminate).
  destruct (matrix_of k ls) as [m|]; cbn [bind fst snd]; [|repeat split; auto; discriminate]. split; auto. split; [|split; [|discriminate]].
  - intros _. unfold get_dataset, write_h5. rewrite !put_same. auto.
  - intros g NG. unfold write_h5, put. destruct (str_cmp g out) eqn:Q; auto. apply str_cmp_eq in Q. congruence.
Qed.
Print Assumptions C118_partial.
(** The million song generator ignores the name it is given: the same file name with different contents gives the
    same dataset, that of another file. *)
Definition ex_ms (v : Z) : store Z := fun f => match f with
  | [1] => Some (Lines [ex_line 7 10 v]) | [9] => Some (Lines [ex_line 8 20 1]) | [3] => Some (Songs [([20], [[4]])]) | _ => None end.
Theorem C118_refuted : exists (triplets f summary out : str) (fs fs' : store Z) r, f <> triplets /\ fs f <> fs' f /\
  snd (generate_msd triplets fs f summary out) = Ok tt /\ snd (generate_msd triplets fs' f summary out) = Ok tt /\
  get_msd (fst (generate_msd triplets fs f summary out)) out = Ok r /\ get_msd (fst (generate_msd triplets fs' f summary out)) out = Ok r /\
  snd (fst r) = [Bytes [8]].
Proof.
  exists [9], [1], [3], [2], (ex_ms 1), (ex_ms 2). eexists. split; [discriminate|]. split; [cbn; intros X; injection X; lia|]. repeat split; vm_compute; reflexivity.
Qed.
Print Assumptions C118_refuted.
(** With the expected name it is right: track [i] of the result is row [i], for every track in the summary. *)
Lemma join_spec items songs i : StronglySorted str_lt items -> i < length items -> (exists s, In s songs /\ fst s = nth i items []) ->
  exists s, In s songs /\ fst s = nth i items [] /\ nth i (join_summary items songs) None = Some s.
Proof.
  intros SS Hi. unfold join_summary.
  assert (G : forall info, length info = length items -> forall j, j < length items ->
     let r := fold_left (fun info s => if position (fst s) items <? length items then upd (position (fst s) items) (Some s) info else info) songs info in
     ((exists s, In s songs /\ fst s = nth j items []) -> exists s, In s songs /\ fst s = nth j items [] /\ nth j r None = Some s) /\
     (~ (exists s, In s songs /\ fst s = nth j items []) -> nth j r None = nth j info None)).
  { induction songs as [|s songs IH]; intros info LI j Hj; cbn [fold_left].
    - split; [intros (s & [] & _)|auto].
    - set (info2 := if position (fst s) items <? length items then upd (position (fst s) items) (Some s) info else info).
      assert (L2 : length info2 = length items) by (unfold info2; destruct (_ <? _); auto; rewrite <- LI; clear; generalize (position (fst s) items); induction info; intros [|n]; cbn; auto).
      destruct (IH info2 L2 j Hj) as [A B]. cbn zeta in *.
      assert (MT : fst s = nth j items [] \/ fst s <> nth j items []) by (destruct (str_cmp (fst s) (nth j items [])) eqn:Q; [left; apply str_cmp_eq; auto|right; intros X; apply str_cmp_eq in X; congruence|right; intros X; apply str_cmp_eq in X; congruence]).
      assert (DEC : (exists s, In s songs /\ fst s = nth j items []) \/ ~ exists s, In s songs /\ fst s = nth j items []).
      { clear. induction songs as [|t l IH]; [right; intros (s & [] & _)|]. destruct IH as [(s & A & B)|N]; [left; exists s; split; auto; right; auto|].
        destruct (str_cmp (fst t) (nth j items [])) eqn:Q.
        - left. exists t. split; [left; auto|apply str_cmp_eq; auto].
        - right. intros (s & [<-|A] & B); [apply str_cmp_eq in B; congruence|apply N; eauto].
        - right. intros (s & [<-|A] & B); [apply str_cmp_eq in B; congruence|apply N; eauto]. }
      assert (N2 : nth j info2 None = if position (fst s) items =? j then Some s else nth j info None).
      { unfold info2. destruct (Nat.ltb_spec (position (fst s) items) (length items)) as [L|L]; [|destruct (Nat.eqb_spec (position (fst s) items) j); [lia|auto]].
        revert L. rewrite <- LI in *. generalize (position (fst s) items). revert Hj. clear. revert j. induction info as [|x info IH]; intros [|j] Hj [|n] L; cbn in *; auto; try lia. apply IH; lia. }
      destruct DEC as [D|D].
      + split; [intros _|intros N; exfalso; apply N; destruct D as (t & Ht & E); exists t; split; [right|]; auto].
        destruct (A D) as (t & Ht & E & R). exists t. split; [right; auto|auto].
      + split.
        * intros (t & [<-|Ht] & E); [|exfalso; apply D; eauto]. exists s. split; [left; auto|]. split; auto. rewrite (B D), N2, E, position_nth, Nat.eqb_refl; auto.
        * intros N. rewrite (B D), N2. destruct (Nat.eqb_spec (position (fst s) items) j) as [E|]; auto. exfalso. apply N. exists s. split; [left; auto|].
          assert (I : In (fst s) items).
          { destruct (in_dec (list_eq_dec Nat.eq_dec) (fst s) items) as [I|I]; auto. exfalso.
            assert (P : forall l, ~ In (fst s) l -> position (fst s) l = length l).
            { clear. induction l as [|t l IH]; intros N; cbn; auto. destruct (str_cmp (fst s) t) eqn:Q; [apply str_cmp_eq in Q; subst; exfalso; apply N; left; auto| |]; f_equal; apply IH; intros I; apply N; right; auto. }
            rewrite (P items I) in E. lia. }
          apply (position_iff _ _ _ SS I Hj). auto. }
  intros EX. destruct (G (repeat None (length items)) (repeat_length _ _) i Hi) as [A _]. auto.
Qed.
Theorem C118_msd_partial : forall T (NT : Num T) (fs : store T) f summary out ls songs, fs f = Some (Lines ls) -> fs summary = Some (Songs songs) -> ls <> [] ->
  (forall l, In l ls -> l_user l <> None /\ l_item l <> None) ->
  exists tracks items users M, snd (generate_msd f fs f summary out) = Ok tt /\
    get_msd (fst (generate_msd f fs f summary out)) out = Ok (tracks, map Bytes users, M) /\
    tabulates l_item l_user l_value ls items users M /\
    forall i, i < length items -> (exists s, In s songs /\ fst s = nth i items []) -> exists s, nth i tracks None = Some s /\ In s songs /\ fst s = nth i items [].
Proof.
  intros T NT fs f summary out ls songs EF ES NE LB. exists (join_summary (categories (map l_item ls)) songs), (categories (map l_item ls)), (categories (map l_user ls)).
  destruct (gen_tabulates l_item l_user l_value ls NE) as (M & M' & G & A & TB); [intros l Hl; destruct (LB l Hl); auto|]. exists M'.
  unfold generate_msd, read_lines. rewrite EF, ES. cbn [bind]. assert (EM : matrix_of Reddit ls = Ok M) by exact G. rewrite EM. cbn [bind fst snd].
  split; auto. split; [unfold get_msd, write_h5; rewrite put_same; cbn [h_data h_indices h_indptr]; rewrite A; reflexivity|]. split; auto.
  intros i Hi EX. destruct (join_spec _ _ _ (tab_rs_sorted _ _ _ _ _ _ _ TB) Hi EX) as (s & A1 & A2 & A3). eauto.
Qed.
Print Assumptions C118_msd_partial.
Example C118_example : exists M, get_msd (fst (generate_msd [9] (ex_ms 1) [9] [3] [2])) [2] = Ok ([Some ([20], [[4]])], [Bytes [8]], M).
Proof. eexists. vm_compute. reflexivity. Qed.

(* ------------------------------------------------------------------ C119 *)
(** movielens: a listed movie's title is at the position of its row. *)
Theorem C119_partial : forall T (NT : Num T) (ratings : list (nat * nat * T)) movies titles M, movielens ratings movies = Ok (titles, M) ->
  NoDup (map fst movies) -> (forall e, In e ratings -> In (fst (fst e)) (map fst movies)) ->
  (forall movie title, In (movie, title) movies -> nth movie titles None = Some title) /\ c_rows M <= length titles.
Proof.
  intros T NT ratings movies titles M E ND RT. unfold movielens in E. destruct (coo_to_csr _) as [m|] eqn:EC; [|discriminate E]. cbn [bind] in E.
  assert (NM : movies <> []) by (intros ->; discriminate E).
  assert (EM : movielens_titles movies = Ok (fold_left (fun t m => upd (fst m) (Some (snd m)) t) movies (repeat None (S (list_max (map fst movies)))))) by (destruct movies; [congruence|reflexivity]).
  rewrite EM in E. cbn [bind] in E.
  set (n := S (list_max (map fst movies))) in *. set (t := fold_left _ movies _) in E.
  destruct (csr_of_arrays _ _ _) as [m'|] eqn:EA; [|discriminate E]. cbn [bind] in E. injection E as <- <-.
  assert (BD : forall x, In x (map fst movies) -> x < n).
  { intros x Hx. pose proof (proj1 (list_max_le (map fst movies) (list_max (map fst movies))) (le_n _)) as F. rewrite Forall_forall in F. specialize (F x Hx). unfold n. lia. }
  assert (TT : forall l init, length init = n -> NoDup (map fst l) -> (forall x, In x (map fst l) -> x < n) ->
     let r := fold_left (fun t (m : nat * str) => upd (fst m) (Some (snd m)) t) l init in
     length r = n /\ (forall i s, In (i, s) l -> nth i r None = Some s) /\ (forall i, ~ In i (map fst l) -> nth i r None = nth i init None)).
  { generalize n. clear. intros n. induction l as [|[i s] l IH]; intros init LI ND B; cbn [fold_left fst snd].
    - split; auto. split; [intros i s []|auto].
    - cbn [map fst] in ND. apply NoDup_cons_iff in ND. destruct ND as [NI ND']. assert (Bi : i < length init) by (rewrite LI; apply B; left; auto).
      destruct (IH (upd i (Some s) init)) as (L & V & O); auto.
      { rewrite <- LI. clear. revert i. induction init; intros [|i]; cbn; auto. }
      { intros x Hx. apply B. right. auto. }
      cbn zeta. split; auto. split.
      + intros j s' [X|X]; [|auto]. injection X as <- <-. rewrite O by auto. clear -Bi. revert i Bi. induction init; intros [|i] Bi; cbn in *; try lia; auto. apply IHinit. lia.
      + intros j NJ. rewrite O by (intros X; apply NJ; right; auto). assert (NE : i <> j) by (intros ->; apply NJ; left; auto). clear -NE. revert i j NE. induction init; intros [|i] [|j] NE; cbn; auto; try lia. }
  destruct (TT movies (repeat None n) (repeat_length _ _) ND BD) as (LT & VT & _). fold t in LT, VT. split; auto. rewrite LT.
  assert (NR : ratings <> []) by (intros ->; discriminate EC). rewrite coo_to_csr_cons in EC by (intros X; apply map_eq_nil in X; auto).
  destruct (existsb _ _); [discriminate EC|]. injection EC as <-. unfold csr_of_arrays in EA. destruct (c_indices _) in EA; [discriminate EA|]. injection EA as <-. cbn [c_rows].
  rewrite indptr_len, map_length, seq_length. cbn [Nat.sub]. try rewrite Nat.sub_0_r. rewrite ?map_map.
  assert (ME : forall e, In e ratings -> Z.to_nat (Z.of_nat (fst (fst e))) < n).
  { intros e He. rewrite Nat2Z.id. apply BD. auto. }
  apply Nat.le_succ_l. unfold n in *. apply Nat.lt_succ_r. apply list_max_le, Forall_forall. intros x Hx. apply in_map_iff in Hx. destruct Hx as ([[a b] w] & <- & He). specialize (ME _ He). cbn in *. lia.
Qed.
Print Assumptions C119_partial.
(** A rated movie that is not in the list of movies: its row has no title. *)
Theorem C119_refuted : exists (ratings : list (nat * nat * Z)) movies titles M u, movielens ratings movies = Ok (titles, M) /\ NoDup (map fst movies) /\
  In (3, u, 5%Z) ratings /\ 3 < c_rows M /\ length titles <= 3.
Proof.
  exists [(3, 0, 5%Z); (1, 1, 4%Z)], [(1, [65])]. eexists _, _, 0. split; [vm_compute; reflexivity|]. split; [repeat constructor; intros []|]. split; [left; auto|]. split; vm_compute; lia.
Qed.
Print Assumptions C119_refuted.
Example C119_example : exists M, movielens [(2, 0, 5%Z); (1, 1, 4%Z)] [(2, [66]); (1, [65]); (4, [67])] = Ok ([None; Some [65]; Some [66]; None; Some [67]], M) /\ c_rows M = 3.
Proof. eexists. split; vm_compute; reflexivity. Qed.
