(** Rows without entries on either side of the ALS solvers: what they contribute. *)
From Coq Require Import List Arith Lia Bool ZArith Reals Lra.
From Verif Require Import Base Num Sparse TopkModel RecommendModel TopkBatch AlsModel AlsProofs AlsProofs2 LmfProofs SimilarBatch.
From Verif Require KnnProofs.
Import ListNotations.

Lemma map_res_app {A B} (f : A -> res B) l l' : map_res f (l ++ l') = (do a <- map_res f l; do b <- map_res f l'; Ok (a ++ b)).
Proof.
  induction l as [|x l IH]; simpl; [destruct (map_res f l'); auto|]. rewrite IH. destruct (f x); cbn [bind]; auto.
  destruct (map_res f l); cbn [bind]; auto. destruct (map_res f l'); cbn [bind]; auto.
Qed.
Lemma map_res_const {A B} (f : A -> res B) b l : (forall x, In x l -> f x = Ok b) -> map_res f l = Ok (repeat b (length l)).
Proof. induction l as [|x l IH]; simpl; intros H; auto. rewrite H by auto. cbn [bind]. rewrite IH by auto. auto. Qed.
Lemma fold_res_ext_in {A S} (f g : S -> A -> res S) l : (forall s x, In x l -> f s x = g s x) -> forall s, fold_res f l s = fold_res g l s.
Proof. induction l as [|x l IH]; simpl; intros H s; auto. rewrite H by auto. destruct (g s x); cbn [bind]; auto. Qed.

(** Zero rows do not change the Gram matrix. *)
Lemma nsum_app_R (a b : list R) : nsum (a ++ b) = (nsum a + nsum b)%R.
Proof.
  unfold nsum. rewrite fold_left_app. generalize (fold_left nadd a nzero). induction b as [|x b IH] using rev_ind; intros s.
  - simpl. lra.
  - rewrite !fold_left_app. simpl. rewrite IH. simpl. lra.
Qed.
Lemma gram_zeros n (Y : list (list R)) k : gram n (Y ++ repeat (zeros n) k) = gram n Y.
Proof.
  unfold gram. apply map_ext. intros j. apply map_ext. intros l. rewrite map_app, nsum_app_R.
  replace (nsum (map _ (repeat (zeros n) k))) with 0%R; [simpl; lra|].
  symmetry. induction k as [|k IH]; [reflexivity|]. change (repeat (zeros n) (S k)) with ([zeros n] ++ repeat (zeros n) k).
  rewrite map_app, nsum_app_R, IH. unfold nsum, zeros. simpl.
  rewrite nth_repeat. simpl. lra.
Qed.
Lemma raw_row_app (Y Z : list (list R)) i : i < length Y -> raw_row (Y ++ Z) i = raw_row Y i.
Proof. intros B. unfold raw_row. rewrite nth_error_app1; auto. Qed.

Section Rows.
Variables (Y Z : list (list R)) (row : list (nat * R)).
Hypothesis B : forall p, In p row -> fst p < length Y.
Lemma ls_row_app posv A n : ls_row posv A n (Y ++ Z) row = ls_row posv A n Y row.
Proof.
  unfold ls_row. destruct row as [|e r] eqn:E; auto. rewrite <- E in *. unfold system.
  rewrite (fold_res_ext_in (add_entry (Y ++ Z)) (add_entry Y)); auto.
  intros [a b] p Hp. unfold add_entry. rewrite raw_row_app; auto.
Qed.
Lemma residual_app A x : residual A (Y ++ Z) row x = residual A Y row x.
Proof. unfold residual. apply fold_res_ext_in. intros s p Hp. rewrite raw_row_app; auto. Qed.
Lemma apply_A_app A x : apply_A A (Y ++ Z) row x = apply_A A Y row x.
Proof. unfold apply_A. apply fold_res_ext_in. intros s p Hp. rewrite raw_row_app; auto. Qed.
Lemma cg_loop_app eps A : forall steps x r p rs, cg_loop eps steps A (Y ++ Z) row x r p rs = cg_loop eps steps A Y row x r p rs.
Proof.
  induction steps as [|steps IH]; intros; cbn [cg_loop]; auto. rewrite apply_A_app. destruct (apply_A A Y row p); cbn [bind]; auto.
  destruct (c_div _ _); cbn [bind]; auto. destruct (nltb _ _); auto. destruct (c_div _ _); cbn [bind]; auto.
Qed.
Lemma cg_row_app eps steps A n x : cg_row eps steps A n (Y ++ Z) row x = cg_row eps steps A n Y row x.
Proof.
  unfold cg_row. destruct row as [|e r] eqn:E; auto. rewrite <- E in *. rewrite residual_app. destruct (residual A Y row x); cbn [bind]; auto.
  destruct (nltb _ _); auto. apply cg_loop_app.
Qed.
End Rows.

(** [C'] is [C] with [k] more rows, all empty. *)
Definition more_rows {T} (k : nat) (C C' : csr T) : Prop :=
  c_rows C' = c_rows C + k /\ (forall u, u < c_rows C -> csr_row C' u = csr_row C u) /\
  (forall u, c_rows C <= u < c_rows C + k -> csr_row C' u = []).

Definition native (o : als_opts) : Prop := use_native o = true.

Lemma enum_from_app {A} (l l' : list A) : forall s, enum_from s (l ++ l') = enum_from s l ++ enum_from (s + length l) l'.
Proof.
  induction l as [|x l IH]; intros s; simpl; [rewrite Nat.add_0_r; auto|]. f_equal. rewrite IH. do 2 f_equal. lia.
Qed.
Lemma enum_from_bounds {A} (l : list A) : forall s p, In p (enum_from s l) -> s <= fst p < s + length l.
Proof.
  induction l as [|x l IH]; intros s p Hp; simpl in *; [tauto|]. destruct Hp as [<-|Hp]; simpl; [lia|]. apply IH in Hp. lia.
Qed.

Lemma solver_more posv solve eps n o k j (C C' : csr R) X E Y reg : native o -> csr_wf C -> csr_wf C' -> more_rows k C C' ->
  length X = c_rows C -> length E = k -> length Y = c_cols C ->
  als_solver posv solve eps n o C' (X ++ E) (Y ++ repeat (zeros n) j) reg =
  (do U <- als_solver posv solve eps n o C X Y reg; Ok (U ++ repeat (zeros n) k)).
Proof.
  intros NV W W' (ER & ES & EE) LX LE LY.
  assert (RE : forall (M : csr R) u, csr_wf M -> u < c_rows M -> raw_entries M u = Ok (csr_row M u)).
  { intros M u HW Hu. unfold raw_entries. rewrite (wf_indptr_len _ HW). destruct (Nat.ltb_spec (S u) (S (c_rows M))); auto. lia. }
  assert (BR : forall u p, u < c_rows C -> In p (csr_row C u) -> fst p < length Y).
  { intros u p Hu Hp. rewrite LY. apply (csr_row_indices_lt C u); auto. apply in_map; auto. }
  unfold als_solver. rewrite NV. destruct (use_cg o).
  - unfold least_squares_cg. rewrite gram_zeros. unfold enum. rewrite enum_from_app, map_res_app. simpl plus.
    rewrite (map_res_const _ (zeros n) (enum_from (length X) E)).
    2:{ intros [u x] Hp. apply enum_from_bounds in Hp. rewrite LX, LE in Hp. cbn [fst snd] in *. rewrite RE by (auto; lia). cbn [bind]. rewrite EE by lia. auto. }
    rewrite Base.enum_from_length, LE. cbn [bind].
    rewrite (map_res_ext _ (fun ux => do row <- raw_entries C (fst ux); cg_row eps (o_cg_steps o) (add_diag reg (gram n Y)) n Y row (snd ux))); auto.
    intros [u x] Hp. apply enum_from_bounds in Hp. unfold vec in Hp. rewrite LX in Hp. cbn [fst snd] in *. rewrite !RE by (auto; lia). cbn [bind]. rewrite ES by lia. apply cg_row_app. intros p. apply BR. lia.
  - unfold least_squares, least_squares_c. rewrite gram_zeros, app_length, seq_app, map_res_app. simpl plus.
    rewrite (map_res_const _ (zeros n) (seq (length X) (length E))).
    2:{ intros u Hu. apply in_seq in Hu. rewrite RE by (auto; lia). cbn [bind]. rewrite EE by lia. auto. }
    rewrite seq_length, LE. cbn [bind].
    rewrite (map_res_ext _ (fun u => do row <- raw_entries C u; ls_row posv (add_diag reg (gram n Y)) n Y row)); auto.
    intros u Hu. apply in_seq in Hu. rewrite LX in Hu. rewrite !RE by (auto; lia). cbn [bind]. rewrite ES by lia. apply ls_row_app. intros p. apply BR. lia.
Qed.

(* ------------------------------------------------------------------ the whole training *)
(** [M'] is [M] with [k] more rows and [j] more columns, all without entries. *)
Definition enlarged {T} (k j : nat) (M M' : csr T) : Prop :=
  more_rows k M M' /\ c_cols M' = c_cols M + j.
Lemma transpose_more {T} k j (M M' : csr T) : csr_wf M -> enlarged k j M M' -> more_rows j (transpose M) (transpose M').
Proof.
  intros W ((ER & ES & EE) & EC). unfold more_rows. rewrite !transpose_rows. split; auto. split.
  - intros i Hi. rewrite !transpose_row by lia. rewrite ER, seq_app, flat_map_app. simpl plus.
    match goal with |- _ = ?r => rewrite <- (app_nil_r r) end. f_equal.
    + apply KnnProofs.flat_map_ext_in. intros u Hu. apply in_seq in Hu. rewrite ES by lia. auto.
    + assert (G : forall l, (forall u, In u l -> csr_row M' u = []) ->
        flat_map (fun u => map (fun p => (u, snd p)) (filter (fun p => fst p =? i) (csr_row M' u))) l = []).
      { induction l as [|u l IH]; intros HL; simpl; auto. rewrite HL by (left; auto). simpl. apply IH. intros; apply HL; right; auto. }
      apply G. intros u Hu. apply in_seq in Hu. apply EE. lia.
  - intros i Hi. rewrite transpose_row by lia.
    assert (G : forall l, (forall u, In u l -> u < c_rows M + k) ->
      flat_map (fun u => map (fun p => (u, snd p)) (filter (fun p => fst p =? i) (csr_row M' u))) l = []).
    { induction l as [|u l IH]; intros HL; simpl; auto. rewrite IH by (intros; apply HL; right; auto). rewrite app_nil_r.
      assert (Bu : u < c_rows M + k) by (apply HL; left; auto).
      assert (F : filter (fun p => fst p =? i) (csr_row M' u) = []).
      { destruct (le_lt_dec (c_rows M) u); [rewrite EE by lia; auto|]. rewrite ES by lia.
        assert (BI : forall p, In p (csr_row M u) -> fst p < i).
        { intros p Hp. assert (fst p < c_cols M); [|lia]. apply (csr_row_indices_lt M u); auto. apply in_map; auto. }
        clear -BI. induction (csr_row M u) as [|p r IH]; simpl; auto. destruct (Nat.eqb_spec (fst p) i) as [E0|_].
        - specialize (BI p (or_introl eq_refl)). lia.
        - apply IH. intros; apply BI; right; auto. }
      rewrite F. auto. }
    apply G. intros u Hu. apply in_seq in Hu. lia.
Qed.
Lemma scale_row' a (m : csr R) u : csr_row (csr_scale a m) u = map (fun p => (fst p, (a * snd p)%R)) (csr_row m u).
Proof.
  unfold csr_row, csr_scale. cbn [c_indptr c_indices c_data]. unfold slice. rewrite skipn_map, firstn_map.
  generalize (firstn (nth (S u) (c_indptr m) 0 - nth u (c_indptr m) 0) (skipn (nth u (c_indptr m) 0) (c_indices m))).
  generalize (firstn (nth (S u) (c_indptr m) 0 - nth u (c_indptr m) 0) (skipn (nth u (c_indptr m) 0) (c_data m))).
  intros l l'. revert l. induction l' as [|x l' IH]; intros [|y l]; simpl; auto. f_equal. auto.
Qed.
Lemma alpha_wf a (m : csr R) : csr_wf m -> csr_wf (apply_alpha a m).
Proof.
  unfold apply_alpha. destruct (neqb a none_); auto. intros W. destruct W. split; cbn [csr_scale c_rows c_cols c_indptr c_indices c_data]; rewrite ?map_length; auto.
Qed.
Lemma enlarged_alpha a k j (M M' : csr R) : enlarged k j M M' -> enlarged k j (apply_alpha a M) (apply_alpha a M').
Proof.
  unfold apply_alpha. destruct (neqb a none_); auto. intros ((ER & ES & EE) & EC). split; [split; [|split]|]; auto.
  - intros u Hu. cbn [csr_scale c_rows] in Hu. rewrite !scale_row', ES; auto.
  - intros u Hu. cbn [csr_scale c_rows] in Hu. rewrite scale_row', EE; auto.
Qed.

Lemma solver_length posv solve eps n o C X Y reg U : native o -> als_solver posv solve eps n o C X Y reg = Ok U -> length U = length X.
Proof.
  intros NV. unfold als_solver. rewrite NV. destruct (use_cg o); intros E.
  - unfold least_squares_cg in E. apply (proj1 (map_res_nth _ _ _ (0, []) [])) in E. destruct E as [L _]. unfold enum in L. rewrite Base.enum_from_length in L. auto.
  - unfold least_squares, least_squares_c in E. apply (proj1 (map_res_nth _ _ _ 0 [])) in E. destruct E as [L _]. rewrite seq_length in L. auto.
Qed.

Lemma iterate_more posv solve eps n o k j (C C' : csr R) reg : native o -> csr_wf C -> csr_wf C' -> enlarged k j C C' ->
  forall it X E Y, 1 <= it -> length X = c_rows C -> length E = k -> length Y = c_cols C ->
  als_iterate (als_solver posv solve eps n o) reg C' (transpose C') it (X ++ E) (Y ++ repeat (zeros n) j) =
  (do '(U, V) <- als_iterate (als_solver posv solve eps n o) reg C (transpose C) it X Y;
   Ok (U ++ repeat (zeros n) k, V ++ repeat (zeros n) j)).
Proof.
  intros NV W W' HE. destruct (transpose_wf C) as [WT _]. destruct (transpose_wf C') as [WT' _]. pose proof (transpose_more k j C C' W HE) as HT.
  assert (CT : c_cols (transpose C) = c_rows C) by reflexivity.
  induction it as [|it IH]; intros X E Y H1 LX LE LY; [lia|]. cbn [als_iterate].
  rewrite (solver_more posv solve eps n o k j C C' X E Y reg) by (auto; apply HE).
  destruct (als_solver posv solve eps n o C X Y reg) as [U|e] eqn:EU; cbn [bind]; auto.
  pose proof (solver_length _ _ _ _ _ _ _ _ _ _ NV EU) as LU.
  rewrite (solver_more posv solve eps n o j k (transpose C) (transpose C') Y (repeat (zeros n) j) U reg);
    [|auto|auto|auto|auto|rewrite transpose_rows; auto|apply repeat_length|rewrite CT; unfold mat, vec in *; lia].
  destruct (als_solver posv solve eps n o (transpose C) Y U reg) as [V|e] eqn:EV; cbn [bind]; auto.
  pose proof (solver_length _ _ _ _ _ _ _ _ _ _ NV EV) as LV.
  destruct it as [|it]; [reflexivity|]. apply IH; [lia|exact (eq_trans LU LX)|apply repeat_length|exact (eq_trans LV LY)].
Qed.
Lemma fit_more posv solve eps n o alpha reg it k j (M M' : csr R) X E Y : native o -> csr_wf M -> csr_wf M' -> enlarged k j M M' ->
  1 <= it -> length X = c_rows M -> length E = k -> length Y = c_cols M ->
  als_fit (als_solver posv solve eps n o) alpha reg it M' (X ++ E) (Y ++ repeat (zeros n) j) =
  (do '(U, V) <- als_fit (als_solver posv solve eps n o) alpha reg it M X Y; Ok (U ++ repeat (zeros n) k, V ++ repeat (zeros n) j)).
Proof.
  intros NV W W' HE H1 LX LE LY. unfold als_fit. apply iterate_more; auto.
  - apply alpha_wf; auto.
  - apply alpha_wf; auto.
  - apply enlarged_alpha; auto.
  - unfold apply_alpha. destruct (neqb alpha none_); auto.
  - unfold apply_alpha. destruct (neqb alpha none_); auto.
Qed.
