(** C110-C112: recalculated users, repeated and batched updates, and what training leaves
    behind. *)
From Coq Require Import List Arith Lia Bool Reals Lra ZArith QArith.
From Verif Require Import Base Num Heap Sparse TopkModel RecommendModel RVec SimilarBatch AlsModel AlsSpec AlsProofs PosvImpl AlsProofs2 PropAls
  ExplainModel ExplainProofs PropExplain AlsState AlsStateProofs PropAlsState.
Import ListNotations.
Local Open Scope nat_scope.

(* ---------------------------------------------------------------- assigned rows *)
Section Rows.
Context {T : Type} `{Num T} {W : Type}.
Variable E : env T W.
Local Notation mat := (list (list T)).

(** What partial_fit does to the rows. *)
Definition assign (rows : mat) (ids : list Z) (new : mat) : res mat :=
  do mx <- max_id ids; scatter (grow E rows mx) ids new.
Lemma nth_ext' (a b : mat) : length a = length b -> (forall r, r < length a -> nth r a [] = nth r b []) -> a = b.
Proof. intros L N. apply nth_ext with (d := []) (d' := []); auto. Qed.
Lemma scatter_len (rows : mat) ids new rows' : length ids = length new -> scatter rows ids new = Ok rows' -> length rows' = length rows.
Proof. intros L S. destruct (scatter_spec rows ids new rows' L S) as (ks & _ & X & _). auto. Qed.
Lemma scatter_ok (rows : mat) ids ks new : map_res (np_index (length rows)) ids = Ok ks -> exists rows', scatter rows ids new = Ok rows'.
Proof. intros K. unfold scatter. rewrite K. cbn [bind]. eauto. Qed.
Lemma assign_twice rows ids new rows' : length ids = length new -> assign rows ids new = Ok rows' -> assign rows' ids new = Ok rows'.
Proof.
  intros L A. unfold assign in *. destruct (max_id ids) as [mx|] eqn:EM; [|discriminate A]. cbn [bind] in *.
  pose proof (scatter_len _ _ _ _ L A) as LR. rewrite grow_length in LR.
  assert (G : grow E rows' mx = rows').
  { unfold grow. destruct (Z.leb_spec (Z.of_nat (length rows')) mx) as [LE|GT]; [exfalso; lia|]. auto. }
  rewrite G. destruct (scatter_spec _ _ _ _ L A) as (ks & EK & LR' & NR).
  rewrite <- LR' in EK. destruct (scatter_ok rows' ids ks new EK) as [r2 E2].
  rewrite E2. f_equal. destruct (scatter_spec _ _ _ _ L E2) as (ks2 & EK2 & LR2 & NR2). rewrite EK in EK2. injection EK2 as <-.
  apply nth_ext'; auto. intros r Hr. rewrite LR2 in Hr. rewrite NR2 by auto. rewrite NR by (rewrite <- LR'; auto). destruct (last_index r ks); auto.
Qed.
(** Non-negative ids. *)
Definition idx (ids : list Z) : list nat := map Z.to_nat ids.
Definition nonneg (ids : list Z) : Prop := forall z, In z ids -> (0 <= z)%Z.
Lemma np_index_pos m z : (0 <= z < Z.of_nat m)%Z -> np_index m z = Ok (Z.to_nat z).
Proof. intros B. unfold np_index. destruct (Z.leb_spec 0 z), (Z.ltb_spec z (Z.of_nat m)); simpl; auto; lia. Qed.
Lemma map_res_pos m ids : nonneg ids -> (forall z, In z ids -> (z < Z.of_nat m)%Z) -> map_res (np_index m) ids = Ok (idx ids).
Proof.
  intros P B. apply map_res_nth with (d := 0%Z) (d' := 0). unfold idx. rewrite map_length. split; auto. intros g Hg.
  rewrite nth_indep with (d' := Z.to_nat 0) by (rewrite map_length; auto). rewrite map_nth. apply np_index_pos.
  split; [apply P|apply B]; apply nth_In; auto.
Qed.
(** The rows after the assignment, for non-negative ids. *)
Lemma assign_pos rows ids new : nonneg ids -> ids <> [] -> length ids = length new ->
  exists rows' mx, max_id ids = Ok mx /\ assign rows ids new = Ok rows' /\ length rows' = Nat.max (length rows) (S (Z.to_nat mx)) /\
    forall r, r < length rows' -> nth r rows' [] =
      match last_index r (idx ids) with Some k => nth k new [] | None => if r <? length rows then nth r rows [] else zeros (e_n E) end.
Proof.
  intros P NE L. destruct (max_id ids) as [mx|] eqn:EM; [|destruct ids; [elim NE; auto|discriminate EM]].
  destruct (max_id_spec _ _ EM) as [I1 I2]. pose proof (P mx I1).
  assert (EK : map_res (np_index (length (grow E rows mx))) ids = Ok (idx ids)).
  { apply map_res_pos; auto. intros z Hz. specialize (I2 z Hz). specialize (P z Hz). rewrite grow_length. lia. }
  destruct (scatter_ok _ _ _ new EK) as [r2 E2]. exists r2, mx. unfold assign. rewrite EM. cbn [bind]. split; auto. split; auto.
  destruct (scatter_spec _ _ _ _ L E2) as (ks & EK' & LR & NR). rewrite EK in EK'. injection EK' as <-. split.
  - rewrite LR, grow_length. lia.
  - intros r Hr. rewrite LR in Hr. rewrite NR by auto. destruct (last_index r (idx ids)); auto. apply grow_nth; auto.
Qed.
Lemma last_index_app r a b : last_index r (a ++ b) = match last_index r b with Some k => Some (length a + k) | None => last_index r a end.
Proof. induction a as [|x a IH]; simpl; [destruct (last_index r b); auto|]. rewrite IH. destruct (last_index r b); auto. Qed.
Lemma last_index_lt r l k : last_index r l = Some k -> k < length l.
Proof. intros L. pose proof (last_index_spec r l) as S. rewrite L in S. tauto. Qed.
Lemma last_index_none r l : ~ In r l -> last_index r l = None.
Proof. intros N. pose proof (last_index_spec r l) as S. destruct (last_index r l); auto. destruct S as (_ & S & _). apply nth_error_In in S. tauto. Qed.
Lemma max_id_app a b ma mb : max_id a = Ok ma -> max_id b = Ok mb -> max_id (a ++ b) = Ok (Z.max ma mb).
Proof.
  intros A B. destruct (max_id (a ++ b)) as [m|] eqn:EM; [|destruct a; [discriminate A|discriminate EM]]. f_equal.
  destruct (max_id_spec _ _ A) as [A1 A2], (max_id_spec _ _ B) as [B1 B2], (max_id_spec _ _ EM) as [M1 M2].
  pose proof (M2 ma (in_or_app _ _ _ (or_introl A1))). pose proof (M2 mb (in_or_app _ _ _ (or_intror B1))).
  apply in_app_or in M1. destruct M1 as [M1|M1]; [specialize (A2 _ M1)|specialize (B2 _ M1)]; lia.
Qed.
Lemma assign_app rows a b na nb : nonneg a -> nonneg b -> a <> [] -> b <> [] -> length a = length na -> length b = length nb ->
  exists r1 r2, assign rows a na = Ok r1 /\ assign r1 b nb = Ok r2 /\ assign rows (a ++ b) (na ++ nb) = Ok r2.
Proof.
  intros PA PB NA NB LA LB.
  destruct (assign_pos rows a na PA NA LA) as (r1 & ma & MA & A1 & L1 & N1).
  destruct (assign_pos r1 b nb PB NB LB) as (r2 & mb & MB & A2 & L2 & N2).
  destruct (assign_pos rows (a ++ b) (na ++ nb)) as (r3 & mc & MC & A3 & L3 & N3).
  { intros z Hz. apply in_app_or in Hz. destruct Hz; auto. } { destruct a; [elim NA; auto|discriminate]. } { rewrite !app_length. lia. }
  exists r1, r2. split; auto. split; auto. rewrite A3. f_equal. rewrite (max_id_app _ _ _ _ MA MB) in MC. injection MC as <-.
  apply nth_ext'; [rewrite L3, L2, L1; lia|]. intros r Hr. rewrite N3 by auto.
  unfold idx. rewrite map_app, last_index_app, map_length. fold (idx a) (idx b).
  rewrite N2 by lia. destruct (last_index r (idx b)) as [k|] eqn:EB.
  - rewrite LA. rewrite app_nth2 by lia. f_equal. lia.
  - destruct (Nat.ltb_spec r (length r1)) as [LT|GE].
    + rewrite N1 by auto. destruct (last_index r (idx a)) as [k|] eqn:EA; auto.
      apply last_index_lt in EA. unfold idx in EA. rewrite map_length in EA. apply app_nth1. lia.
    + destruct (last_index r (idx a)) as [k|] eqn:EA.
      * exfalso. pose proof (last_index_spec r (idx a)) as S. rewrite EA in S. destruct S as (_ & S & _). apply nth_error_In in S.
        unfold idx in S. apply in_map_iff in S. destruct S as (z & Ez & Hz). destruct (max_id_spec _ _ MA) as [_ A]. specialize (A _ Hz). specialize (PA _ Hz). lia.
      * destruct (Nat.ltb_spec r (length rows)); auto. lia.
Qed.
Lemma assign_swap rows a b na nb : nonneg a -> nonneg b -> a <> [] -> b <> [] -> length a = length na -> length b = length nb ->
  (forall z, In z a -> ~ In z b) ->
  exists r1 r2 r3, assign rows a na = Ok r1 /\ assign r1 b nb = Ok r3 /\ assign rows b nb = Ok r2 /\ assign r2 a na = Ok r3.
Proof.
  intros PA PB NA NB LA LB DJ.
  destruct (assign_app rows a b na nb PA PB NA NB LA LB) as (r1 & r3 & A1 & A2 & A3).
  destruct (assign_app rows b a nb na PB PA NB NA LB LA) as (r2 & r4 & B1 & B2 & B3).
  exists r1, r2, r3. split; auto. split; auto. split; auto. rewrite B2. f_equal.
  destruct (assign_pos rows (a ++ b) (na ++ nb)) as (x & mc & MC & X & L3 & N3).
  { intros z Hz. apply in_app_or in Hz. destruct Hz; auto. } { destruct a; [elim NA; auto|discriminate]. } { rewrite !app_length. lia. }
  destruct (assign_pos rows (b ++ a) (nb ++ na)) as (y & md & MD & Y & L4 & N4).
  { intros z Hz. apply in_app_or in Hz. destruct Hz; auto. } { destruct b; [elim NB; auto|discriminate]. } { rewrite !app_length. lia. }
  rewrite A3 in X. injection X as <-. rewrite B3 in Y. injection Y as <-.
  assert (EM : mc = md).
  { destruct (max_id_spec _ _ MC) as [C1 C2], (max_id_spec _ _ MD) as [D1 D2]. apply Z.le_antisymm.
    - apply D2. apply in_app_or in C1. apply in_or_app. tauto.
    - apply C2. apply in_app_or in D1. apply in_or_app. tauto. }
  subst md. apply nth_ext'; [lia|]. intros r Hr. rewrite N3 by lia. rewrite N4 by auto. unfold idx. rewrite !map_app, !last_index_app, !map_length. fold (idx a) (idx b).
  destruct (last_index r (idx b)) as [k|] eqn:EB, (last_index r (idx a)) as [k'|] eqn:EA; auto.
  - exfalso. pose proof (last_index_spec r (idx a)) as S. rewrite EA in S. destruct S as (_ & S & _). apply nth_error_In in S.
    pose proof (last_index_spec r (idx b)) as S'. rewrite EB in S'. destruct S' as (_ & S' & _). apply nth_error_In in S'.
    unfold idx in S, S'. apply in_map_iff in S, S'. destruct S as (z & Ez & Hz), S' as (z' & Ez' & Hz').
    assert (z = z') by (specialize (PA _ Hz); specialize (PB _ Hz'); lia). subst. eapply DJ; eauto.
  - apply last_index_lt in EB. unfold idx in EB. rewrite map_length in EB. rewrite LA. rewrite (app_nth2 na) by lia. rewrite (app_nth1 nb) by lia. f_equal. lia.
  - apply last_index_lt in EA. unfold idx in EA. rewrite map_length in EA. rewrite LB. rewrite (app_nth2 nb) by lia. rewrite (app_nth1 na) by lia. f_equal. lia.
Qed.
(** Reading back distinct non-negative ids. *)
Lemma assign_gather rows ids new rows' : nonneg ids -> NoDup ids -> length ids = length new -> assign rows ids new = Ok rows' -> gather rows' ids = Ok new.
Proof.
  intros P ND L A. destruct ids as [|z0 ids0]; [destruct new; [reflexivity|discriminate L]|]. set (ids := z0 :: ids0) in *.
  destruct (assign_pos rows ids new P ltac:(discriminate) L) as (r & mx & M & A' & LR & NR). rewrite A in A'. injection A' as <-.
  destruct (max_id_spec _ _ M) as [I1 I2].
  assert (ND' : NoDup (idx ids)).
  { unfold idx. clearbody ids. clear -P ND. induction ids as [|z l IH]; cbn [map]; [constructor|]. inversion ND; subst. constructor.
    - intros X. apply in_map_iff in X. destruct X as (z' & E1 & I). assert (z' = z); [|subst; tauto].
      pose proof (P z (or_introl eq_refl)). pose proof (P z' (or_intror I)). lia.
    - apply IH; auto. intros y Hy. apply P. right; auto. }
  unfold gather. apply map_res_nth with (d := 0%Z) (d' := []). split; auto. intros g Hg.
  assert (HI : In (nth g ids 0%Z) ids) by (apply nth_In; auto). pose proof (P _ HI) as P1. pose proof (I2 _ HI).
  rewrite np_index_pos by lia. cbn [bind]. f_equal. rewrite NR by lia.
  assert (LI : last_index (Z.to_nat (nth g ids 0%Z)) (idx ids) = Some g); [|rewrite LI; auto].
  pose proof (last_index_spec (Z.to_nat (nth g ids 0%Z)) (idx ids)) as S.
  assert (NX : nth_error (idx ids) g = Some (Z.to_nat (nth g ids 0%Z))).
  { unfold idx. rewrite nth_error_map. rewrite (nth_error_nth' ids 0%Z) by auto. reflexivity. }
  destruct (last_index _ (idx ids)) as [k|].
  - destruct S as (_ & S & _). f_equal. rewrite NoDup_nth_error in ND'. apply ND'; [|congruence]. apply nth_error_Some. rewrite S. discriminate.
  - exfalso. apply S. eapply nth_error_In; eauto.
Qed.
End Rows.

(* ------------------------------------------------------------------ one step *)
Section Step.
Context {T : Type} `{Num T} {W : Type}.
Variable E : env T W.
Local Notation mat := (list (list T)).
Lemma pfu_inv s s' X Y ids M : sX s = Some X -> sY s = Some Y -> partial_fit_users E s ids M = (s', Ok tt) ->
  exists new X', length ids = c_rows M /\
    recalculate_user (e_posv E) (e_alpha E) (e_reg E) (e_n E) (YtY_value E s Y) Y (Batch ids) M = Ok new /\ length ids = length new /\
    assign E X ids new = Ok X' /\ sX s' = Some X' /\ sY s' = Some Y /\ s_YtY s' = Some (YtY_value E s Y) /\ ids <> [].
Proof.
  intros EX EY P. destruct (C42_frame_users T _ W E s s' X Y ids M EX EY P) as (new & X' & R & L & A & B & _).
  unfold partial_fit_users in P. destruct (Nat.eqb_spec (length ids) (c_rows M)) as [EL|]; [|discriminate P]. cbn [negb] in P.
  rewrite EX, EY, R in P. destruct (max_id ids) as [mx|] eqn:EM; [|discriminate P].
  destruct (scatter (grow E X mx) ids new) as [X2|] eqn:ES; [|discriminate P]. injection P as <-. cbn [sX sY s_YtY] in A, B |- *. injection A as ->.
  exists new, X'. unfold assign. rewrite EM. cbn [bind]. repeat split; auto. destruct ids; [discriminate EM|discriminate].
Qed.
Lemma pfu_run s X Y ids M new X' : sX s = Some X -> sY s = Some Y -> length ids = c_rows M ->
  recalculate_user (e_posv E) (e_alpha E) (e_reg E) (e_n E) (YtY_value E s Y) Y (Batch ids) M = Ok new -> assign E X ids new = Ok X' ->
  exists s', partial_fit_users E s ids M = (s', Ok tt) /\ sX s' = Some X' /\ sY s' = Some Y /\ s_YtY s' = Some (YtY_value E s Y).
Proof.
  intros EX EY L R A. unfold partial_fit_users. rewrite L, Nat.eqb_refl. cbn [negb]. rewrite EX, EY, R.
  unfold assign in A. destruct (max_id ids) as [mx|]; [|discriminate A]. cbn [bind] in A. rewrite A. eexists. split; [reflexivity|]. auto.
Qed.
Lemma pfi_inv s s' X Y ids M : sX s = Some X -> sY s = Some Y -> partial_fit_items E s ids M = (s', Ok tt) ->
  exists new Y', length ids = c_rows M /\
    recalculate_item (e_posv E) (e_alpha E) (e_reg E) (e_n E) (XtX_value E s X) X (Batch ids) M = Ok new /\ length ids = length new /\
    assign E Y ids new = Ok Y' /\ sY s' = Some Y' /\ sX s' = Some X /\ s_XtX s' = Some (XtX_value E s X) /\ ids <> [].
Proof.
  intros EX EY P. destruct (C42_frame_items T _ W E s s' X Y ids M EX EY P) as (new & Y' & R & L & A & B & _).
  unfold partial_fit_items in P. destruct (Nat.eqb_spec (length ids) (c_rows M)) as [EL|]; [|discriminate P]. cbn [negb] in P.
  rewrite EX, EY, R in P. destruct (max_id ids) as [mx|] eqn:EM; [|discriminate P].
  destruct (scatter (grow E Y mx) ids new) as [Y2|] eqn:ES; [|discriminate P]. injection P as <-. cbn [sX sY s_XtX] in A, B |- *. injection B as ->.
  exists new, Y'. unfold assign. rewrite EM. cbn [bind]. repeat split; auto. destruct ids; [discriminate EM|discriminate].
Qed.
Lemma pfi_run s X Y ids M new Y' : sX s = Some X -> sY s = Some Y -> length ids = c_rows M ->
  recalculate_item (e_posv E) (e_alpha E) (e_reg E) (e_n E) (XtX_value E s X) X (Batch ids) M = Ok new -> assign E Y ids new = Ok Y' ->
  exists s', partial_fit_items E s ids M = (s', Ok tt) /\ sY s' = Some Y' /\ sX s' = Some X /\ s_XtX s' = Some (XtX_value E s X).
Proof.
  intros EX EY L R A. unfold partial_fit_items. rewrite L, Nat.eqb_refl. cbn [negb]. rewrite EX, EY, R.
  unfold assign in A. destruct (max_id ids) as [mx|]; [|discriminate A]. cbn [bind] in A. rewrite A. eexists. split; [reflexivity|]. auto.
Qed.
Lemma YtY_next s s' Y : s_YtY s' = Some (YtY_value E s Y) -> YtY_value E s' Y = YtY_value E s Y.
Proof. intros V. unfold YtY_value at 1. rewrite V. auto. Qed.
Lemma XtX_next s s' X : s_XtX s' = Some (XtX_value E s X) -> XtX_value E s' X = XtX_value E s X.
Proof. intros V. unfold XtX_value at 1. rewrite V. auto. Qed.

(** The rows of a matrix after multiplying with alpha. *)
Definition alpha_row (a : T) (row : list (nat * T)) : list (nat * T) := if neqb a none_ then row else map (fun p => (fst p, nmul a (snd p))) row.
Lemma alpha_rows a (m : csr T) u : csr_row (apply_alpha a m) u = alpha_row a (csr_row m u).
Proof.
  unfold apply_alpha, alpha_row. destruct (neqb a none_); auto. unfold csr_row, csr_scale, csr_row_indices. cbn [c_indptr c_indices c_data].
  rewrite slice_map. apply combine_map_r.
Qed.
Lemma alpha_indptr a (m : csr T) : c_indptr (apply_alpha a m) = c_indptr m.
Proof. unfold apply_alpha. destruct (neqb a none_); auto. Qed.
Lemma raw_alpha a (m : csr T) u : csr_wf m -> u < c_rows m -> raw_entries (apply_alpha a m) u = Ok (alpha_row a (csr_row m u)).
Proof. intros WF B. pose proof (raw_entries_ok m u WF B) as R. unfold raw_entries in *. rewrite alpha_indptr, alpha_rows. destruct (S u <? length (c_indptr m)); [auto|discriminate R]. Qed.
(** [M] is [A] on top of [B]. *)
Definition stacked (M A B : csr T) : Prop := c_rows M = c_rows A + c_rows B /\
  (forall k, k < c_rows A -> csr_row M k = csr_row A k) /\ (forall k, k < c_rows B -> csr_row M (c_rows A + k) = csr_row B k).
Lemma map_res_app {A B} (f : A -> res B) l1 l2 r1 r2 : map_res f l1 = Ok r1 -> map_res f l2 = Ok r2 -> map_res f (l1 ++ l2) = Ok (r1 ++ r2).
Proof.
  revert r1. induction l1 as [|a l1 IH]; cbn [map_res app]; intros r1 E1 E2.
  - injection E1 as <-. auto.
  - destruct (f a); [|discriminate E1]. cbn [bind] in *. destruct (map_res f l1) as [r|]; [|discriminate E1]. cbn [bind] in E1. injection E1 as <-.
    rewrite (IH r) by auto. reflexivity.
Qed.
Lemma map_res_ext' {A B} (f g : A -> res B) l : (forall x, In x l -> f x = g x) -> map_res f l = map_res g l.
Proof. induction l as [|a l IH]; cbn [map_res]; intros X; auto. rewrite X by (left; auto). rewrite IH by (intros; apply X; right; auto). auto. Qed.
Lemma map_res_map {A B C} (f : B -> res C) (g : A -> B) l : map_res f (map g l) = map_res (fun x => f (g x)) l.
Proof. induction l as [|a l IH]; cbn [map_res map]; auto. rewrite IH. auto. Qed.
Lemma ls_stacked posv G n F alpha reg M A B ra rb : csr_wf M -> csr_wf A -> csr_wf B -> stacked M A B ->
  least_squares_c posv G (apply_alpha alpha A) (c_rows A) n F reg = Ok ra ->
  least_squares_c posv G (apply_alpha alpha B) (c_rows B) n F reg = Ok rb ->
  least_squares_c posv G (apply_alpha alpha M) (c_rows M) n F reg = Ok (ra ++ rb).
Proof.
  intros WM WA WB (RS & SA & SB) EA EB. unfold least_squares_c in *. rewrite RS, seq_app. apply map_res_app.
  - etransitivity; [|exact EA]. apply map_res_ext'. intros u Hu. apply in_seq in Hu. rewrite !raw_alpha by (auto; lia). rewrite SA by lia. auto.
  - etransitivity; [|exact EB]. replace (seq (0 + c_rows A) (c_rows B)) with (map (fun k => c_rows A + k) (seq 0 (c_rows B))).
    + rewrite map_res_map. apply map_res_ext'. intros u Hu. apply in_seq in Hu. rewrite !raw_alpha by (auto; lia). rewrite SB by lia. auto.
    + generalize (c_rows A), (c_rows B). clear. intros a b. change (0 + a) with a. revert a. induction b as [|b IH]; intros a; cbn [seq map]; auto. f_equal; [lia|].
      rewrite <- (IH (S a)), <- seq_shift, map_map. apply map_ext_in. intros; lia.
Qed.
Lemma ls_split posv G n F alpha reg M A B r : csr_wf M -> csr_wf A -> csr_wf B -> stacked M A B ->
  least_squares_c posv G (apply_alpha alpha M) (c_rows M) n F reg = Ok r ->
  exists ra rb, r = ra ++ rb /\ least_squares_c posv G (apply_alpha alpha A) (c_rows A) n F reg = Ok ra /\
    least_squares_c posv G (apply_alpha alpha B) (c_rows B) n F reg = Ok rb.
Proof.
  intros WM WA WB ST EM. pose proof (fun ra rb => ls_stacked posv G n F alpha reg M A B ra rb WM WA WB ST) as K.
  assert (TOT : forall P, csr_wf P -> (forall k, k < c_rows P -> exists k', k' < c_rows M /\ csr_row P k = csr_row M k') ->
    exists rp, least_squares_c posv G (apply_alpha alpha P) (c_rows P) n F reg = Ok rp).
  { intros P WP SP. unfold least_squares_c in *. apply map_res_total. intros u Hu. apply in_seq in Hu.
    destruct (SP u ltac:(lia)) as (k' & Bk & Ek). apply (proj1 (map_res_nth _ _ _ 0 [])) in EM. destruct EM as [_ EM].
    rewrite seq_length in EM. specialize (EM k' Bk). rewrite seq_nth in EM by auto. rewrite raw_alpha in EM by auto. rewrite raw_alpha by (auto; lia).
    rewrite Ek. eauto. }
  destruct ST as (RS & SA & SB).
  destruct (TOT A WA) as [ra EA]. { intros k Hk. exists k. split; [lia|symmetry; auto]. }
  destruct (TOT B WB) as [rb EB]. { intros k Hk. exists (c_rows A + k). split; [lia|symmetry; auto]. }
  exists ra, rb. specialize (K ra rb EA EB). split; auto. congruence.
Qed.
End Step.

(* ------------------------------------------------------------------ C110 *)
(** recommend with recalculate_user=True is partial_fit_users followed by recommend (but
    leaves the model alone: C42), for distinct non-negative user ids. *)
Lemma recommend_users {T} `{Num T} HP fmin (X X' Y : list (list T)) rc rc' id M N fl fi its new :
  rc id M = Ok new -> gather X' (id_list id) = Ok new -> c_rows M = length (id_list id) ->
  recommend HP fmin {| user_factors := X; item_factors := Y |} rc id (Csr M) N fl fi true its =
  recommend HP fmin {| user_factors := X'; item_factors := Y |} rc' id (Csr M) N fl fi false its.
Proof.
  intros R G L. unfold recommend, user_factor. cbn [user_factors item_factors]. rewrite R, G, L, Nat.eqb_refl. rewrite orb_true_r. cbn [bind].
  destruct fl; reflexivity.
Qed.
Theorem C110_partial : forall T (NT : Num T) W (E : env T W) s s' X Y id M N fl fi its,
  sX s = Some X -> sY s = Some Y -> nonneg (id_list id) -> NoDup (id_list id) ->
  partial_fit_users E s (id_list id) M = (s', Ok tt) ->
  snd (run_query E s (QRecommend id (Csr M) N fl fi true its)) = snd (run_query E s' (QRecommend id (Csr M) N fl fi false its)).
Proof.
  intros T NT W E s s' X Y id M N fl fi its EX EY P ND PF.
  destruct (pfu_inv E s s' X Y _ M EX EY PF) as (new & X' & LM & R & LN & A & EX' & EY' & _ & _).
  unfold run_query. rewrite EX, EY, EX', EY'. cbn [snd]. unfold answer_from.
  rewrite (recommend_users _ _ X X' Y _ (recalculate_user (e_posv E) (e_alpha E) (e_reg E) (e_n E) (YtY_value E s' Y) Y) id M N fl fi its new); auto.
  eapply assign_gather; eauto.
Qed.
Print Assumptions C110_partial.
(** The same user twice with different rows: recommend answers each row on its own,
    partial_fit_users keeps the last row only. *)
Definition dupM : csr Q := csr_of_rows 2 [[(0, 2%Q)]; [(1, 9%Q)]].
Definition dup_q (rc : bool) : query Q unit := QRecommend (Batch [0; 0]%Z) (Csr dupM) 1%Z false None rc None.
Theorem C110_refuted : exists (E : env Q unit) s s' ids M N,
  s = run E fresh_state [ex_fit None] /\ nonneg ids /\
  partial_fit_users E s ids M = (s', Ok tt) /\
  snd (run_query E s (QRecommend (Batch ids) (Csr M) N false None true None)) <> snd (run_query E s' (QRecommend (Batch ids) (Csr M) N false None false None)).
Proof.
  exists (exE 2), st0, (fst (partial_fit_users (exE 2) st0 [0; 0]%Z dupM)), [0; 0]%Z, dupM, 1%Z.
  split; [symmetry; exact st0_eq|]. split; [intros z [<-|[<-|[]]]; lia|]. split; [vm_compute; reflexivity|]. vm_compute. discriminate.
Qed.
Print Assumptions C110_refuted.
(** User 3 is new, user 0 is replaced; the answer differs from that of the stored factors. *)
Example C110_example :
  snd (partial_fit_users (exE 2) st0 [3; 0]%Z (ex_rows 2)) = Ok tt /\ nonneg [3; 0]%Z /\ NoDup [3; 0]%Z /\
  (exists o, snd (run_query (exE 2) st0 (QRecommend (Batch [3; 0]%Z) (Csr (ex_rows 2)) 1%Z true None true None)) = Ok o) /\
  snd (run_query (exE 2) st0 (QRecommend (Batch [0]%Z) (Csr (ex_rows 1)) 2%Z false None true None)) <>
  snd (run_query (exE 2) st0 (QRecommend (Batch [0]%Z) (Csr (ex_rows 1)) 2%Z false None false None)).
Proof.
  split; [vm_compute; reflexivity|]. split; [intros z [<-|[<-|[]]]; lia|]. split; [repeat constructor; simpl; intuition lia|].
  split; [eexists; vm_compute; reflexivity|]. vm_compute. discriminate.
Qed.

(* ------------------------------------------------------------------ C111 *)
(** Updating twice with the same data is updating once. *)
Theorem C111_idempotent : forall T (NT : Num T) W (E : env T W) s s1 X Y ids M, sX s = Some X -> sY s = Some Y ->
  (partial_fit_users E s ids M = (s1, Ok tt) -> exists s2, partial_fit_users E s1 ids M = (s2, Ok tt) /\ sX s2 = sX s1 /\ sY s2 = sY s1) /\
  (partial_fit_items E s ids M = (s1, Ok tt) -> exists s2, partial_fit_items E s1 ids M = (s2, Ok tt) /\ sX s2 = sX s1 /\ sY s2 = sY s1).
Proof.
  intros T NT W E s s1 X Y ids M EX EY. split; intros P.
  - destruct (pfu_inv E s s1 X Y ids M EX EY P) as (new & X' & LM & R & LN & A & EX' & EY' & V & _).
    destruct (pfu_run E s1 X' Y ids M new X' EX' EY' LM) as (s2 & P2 & A2 & B2 & _).
    + rewrite (YtY_next E s s1 Y V). exact R.
    + eapply assign_twice; eauto.
    + exists s2. split; auto. split; congruence.
  - destruct (pfi_inv E s s1 X Y ids M EX EY P) as (new & Y' & LM & R & LN & A & EY' & EX' & V & _).
    destruct (pfi_run E s1 X Y' ids M new Y' EX' EY' LM) as (s2 & P2 & A2 & B2 & _).
    + rewrite (XtX_next E s s1 X V). exact R.
    + eapply assign_twice; eauto.
    + exists s2. split; auto. split; congruence.
Qed.
Print Assumptions C111_idempotent.
(** For non-negative ids: a batch may be split anywhere ... *)
Theorem C111_split_partial : forall T (NT : Num T) W (E : env T W) s s1 X Y a b M A B, sX s = Some X -> sY s = Some Y ->
  nonneg a -> nonneg b -> a <> [] -> b <> [] -> csr_wf M -> csr_wf A -> csr_wf B -> stacked M A B -> length a = c_rows A -> length b = c_rows B ->
  (partial_fit_users E s (a ++ b) M = (s1, Ok tt) -> exists s2 s3,
     partial_fit_users E s a A = (s2, Ok tt) /\ partial_fit_users E s2 b B = (s3, Ok tt) /\ sX s3 = sX s1 /\ sY s3 = sY s1) /\
  (partial_fit_items E s (a ++ b) M = (s1, Ok tt) -> exists s2 s3,
     partial_fit_items E s a A = (s2, Ok tt) /\ partial_fit_items E s2 b B = (s3, Ok tt) /\ sX s3 = sX s1 /\ sY s3 = sY s1).
Proof.
  intros T NT W E s s1 X Y a b M A B EX EY PA PB NA NB WM WA WB ST LA LB.
  assert (CM : forall z, id_count (Batch z) = length z) by reflexivity.
  assert (LC : length (a ++ b) = c_rows M) by (rewrite app_length; destruct ST as [-> _]; lia).
  split; intros P.
  - destruct (pfu_inv E s s1 X Y _ M EX EY P) as (new & X' & LM & R & LN & AS & EX' & EY' & V & _).
    unfold recalculate_user in R. rewrite CM, LC, Nat.eqb_refl in R. cbn [negb] in R.
    destruct (ls_split _ _ _ _ _ _ M A B new WM WA WB ST R) as (ra & rb & -> & RA & RB).
    assert (LRA : length a = length ra). { unfold least_squares_c in RA. apply (proj1 (map_res_nth _ _ _ 0 [])) in RA. rewrite seq_length in RA. lia. }
    assert (LRB : length b = length rb). { unfold least_squares_c in RB. apply (proj1 (map_res_nth _ _ _ 0 [])) in RB. rewrite seq_length in RB. lia. }
    destruct (assign_app E X a b ra rb PA PB NA NB LRA LRB) as (r1 & r2 & A1 & A2 & A3).
    destruct (pfu_run E s X Y a A ra r1 EX EY LA) as (s2 & P2 & X2 & Y2 & V2); auto.
    { unfold recalculate_user. rewrite CM, LA, Nat.eqb_refl. exact RA. }
    destruct (pfu_run E s2 r1 Y b B rb r2 X2 Y2 LB) as (s3 & P3 & X3 & Y3 & V3); auto.
    { unfold recalculate_user. rewrite CM, LB, Nat.eqb_refl. rewrite (YtY_next E s s2 Y V2). exact RB. }
    exists s2, s3. split; auto. split; auto. split; congruence.
  - destruct (pfi_inv E s s1 X Y _ M EX EY P) as (new & Y' & LM & R & LN & AS & EY' & EX' & V & _).
    unfold recalculate_item in R. rewrite CM, LC in R.
    destruct (ls_split _ _ _ _ _ _ M A B new WM WA WB ST R) as (ra & rb & -> & RA & RB).
    assert (LRA : length a = length ra). { unfold least_squares_c in RA. apply (proj1 (map_res_nth _ _ _ 0 [])) in RA. rewrite seq_length in RA. lia. }
    assert (LRB : length b = length rb). { unfold least_squares_c in RB. apply (proj1 (map_res_nth _ _ _ 0 [])) in RB. rewrite seq_length in RB. lia. }
    destruct (assign_app E Y a b ra rb PA PB NA NB LRA LRB) as (r1 & r2 & A1 & A2 & A3).
    destruct (pfi_run E s X Y a A ra r1 EX EY LA) as (s2 & P2 & Y2 & X2 & V2); auto.
    { unfold recalculate_item. rewrite CM, LA. exact RA. }
    destruct (pfi_run E s2 X r1 b B rb r2 X2 Y2 LB) as (s3 & P3 & Y3 & X3 & V3); auto.
    { unfold recalculate_item. rewrite CM, LB. rewrite (XtX_next E s s2 X V2). exact RB. }
    exists s2, s3. split; auto. split; auto. split; congruence.
Qed.
Print Assumptions C111_split_partial.
(** ... and updates of disjoint sets of users may be made in either order. *)
Theorem C111_order_partial : forall T (NT : Num T) W (E : env T W) s sa sb X Y a b A B, sX s = Some X -> sY s = Some Y ->
  nonneg a -> nonneg b -> (forall z, In z a -> ~ In z b) ->
  (partial_fit_users E s a A = (sa, Ok tt) -> partial_fit_users E s b B = (sb, Ok tt) -> exists sab sba,
     partial_fit_users E sa b B = (sab, Ok tt) /\ partial_fit_users E sb a A = (sba, Ok tt) /\ sX sab = sX sba /\ sY sab = sY sba) /\
  (partial_fit_items E s a A = (sa, Ok tt) -> partial_fit_items E s b B = (sb, Ok tt) -> exists sab sba,
     partial_fit_items E sa b B = (sab, Ok tt) /\ partial_fit_items E sb a A = (sba, Ok tt) /\ sX sab = sX sba /\ sY sab = sY sba).
Proof.
  intros T NT W E s sa sb X Y a b A B EX EY PA PB DJ. split; intros P Q.
  - destruct (pfu_inv E s sa X Y _ A EX EY P) as (na & X1 & L1 & R1 & LN1 & A1 & EX1 & EY1 & V1 & NA).
    destruct (pfu_inv E s sb X Y _ B EX EY Q) as (nb & X2 & L2 & R2 & LN2 & A2 & EX2 & EY2 & V2 & NB).
    destruct (assign_swap E X a b na nb PA PB NA NB LN1 LN2 DJ) as (r1 & r2 & r3 & S1 & S2 & S3 & S4).
    assert (r1 = X1) by congruence. assert (r2 = X2) by congruence. subst r1 r2.
    destruct (pfu_run E sa X1 Y b B nb r3 EX1 EY1 L2) as (sab & P2 & A3 & B3 & _); auto. { rewrite (YtY_next E s sa Y V1). exact R2. }
    destruct (pfu_run E sb X2 Y a A na r3 EX2 EY2 L1) as (sba & P3 & A4 & B4 & _); auto. { rewrite (YtY_next E s sb Y V2). exact R1. }
    exists sab, sba. split; auto. split; auto. split; congruence.
  - destruct (pfi_inv E s sa X Y _ A EX EY P) as (na & X1 & L1 & R1 & LN1 & A1 & EX1 & EY1 & V1 & NA).
    destruct (pfi_inv E s sb X Y _ B EX EY Q) as (nb & X2 & L2 & R2 & LN2 & A2 & EX2 & EY2 & V2 & NB).
    destruct (assign_swap E Y a b na nb PA PB NA NB LN1 LN2 DJ) as (r1 & r2 & r3 & S1 & S2 & S3 & S4).
    assert (r1 = X1) by congruence. assert (r2 = X2) by congruence. subst r1 r2.
    destruct (pfi_run E sa X X1 b B nb r3 EY1 EX1 L2) as (sab & P2 & A3 & B3 & _); auto. { rewrite (XtX_next E s sa X V1). exact R2. }
    destruct (pfi_run E sb X X2 a A na r3 EY2 EX2 L1) as (sba & P3 & A4 & B4 & _); auto. { rewrite (XtX_next E s sb X V2). exact R1. }
    exists sab, sba. split; auto. split; auto. split; congruence.
Qed.
Print Assumptions C111_order_partial.
(** A negative id counts from the end of the array, which a batch grows first: the batch
    [-1; 4] updates user 4 twice, in two calls -1 is the last user there was. *)
Theorem C111_refuted : exists (E : env Q unit) s s1 s2 s3 a b M A B,
  s = run E fresh_state [ex_fit None] /\ csr_wf M /\ csr_wf A /\ csr_wf B /\ stacked M A B /\
  partial_fit_users E s (a ++ b) M = (s1, Ok tt) /\ partial_fit_users E s a A = (s2, Ok tt) /\ partial_fit_users E s2 b B = (s3, Ok tt) /\
  sX s3 <> sX s1.
Proof.
  set (A := csr_of_rows 2 [[(0, 2%Q)]]). set (B := csr_of_rows 2 [[(1, 9%Q)]]).
  exists (exE 2), st0, (fst (partial_fit_users (exE 2) st0 [-1; 4]%Z dupM)), (fst (partial_fit_users (exE 2) st0 [-1]%Z A)),
    (fst (partial_fit_users (exE 2) (fst (partial_fit_users (exE 2) st0 [-1]%Z A)) [4]%Z B)), [-1]%Z, [4]%Z, dupM, A, B.
  split; [symmetry; exact st0_eq|].
  split; [apply csr_of_rows_wf; intros r e Hr He; cbn in Hr; repeat (destruct Hr as [<-|Hr]; [cbn in He; destruct He as [<-|[]]; simpl; lia|]); destruct Hr|].
  split; [apply csr_of_rows_wf; intros r e Hr He; cbn in Hr; repeat (destruct Hr as [<-|Hr]; [cbn in He; destruct He as [<-|[]]; simpl; lia|]); destruct Hr|].
  split; [apply csr_of_rows_wf; intros r e Hr He; cbn in Hr; repeat (destruct Hr as [<-|Hr]; [cbn in He; destruct He as [<-|[]]; simpl; lia|]); destruct Hr|].
  split; [split; [reflexivity|]; split; intros [|k] Hk; simpl in Hk; try lia; reflexivity|].
  split; [vm_compute; reflexivity|]. split; [vm_compute; reflexivity|]. split; [vm_compute; reflexivity|]. vm_compute. discriminate.
Qed.
Print Assumptions C111_refuted.
Example C111_example : stacked dupM (csr_of_rows 2 [[(0, 2%Q)]]) (csr_of_rows 2 [[(1, 9%Q)]]) /\ nonneg [4]%Z /\ nonneg [1]%Z /\
  snd (partial_fit_users (exE 2) st0 [4; 1]%Z dupM) = Ok tt /\ sX (fst (partial_fit_users (exE 2) st0 [4; 1]%Z dupM)) <> sX st0.
Proof.
  split; [split; [reflexivity|]; split; intros [|k] Hk; simpl in Hk; try lia; reflexivity|].
  split; [intros z [<-|[]]; lia|]. split; [intros z [<-|[]]; lia|]. split; [vm_compute; reflexivity|]. vm_compute. discriminate.
Qed.

(* ------------------------------------------------------------------ C112 *)
(** Column [i] of a matrix: (user, value) in the order of the users. *)
Definition column {T} (M : csr T) (i : nat) : list (nat * T) :=
  flat_map (fun u => map (fun p => (u, snd p)) (filter (fun p => fst p =? i) (csr_row M u))) (seq 0 (c_rows M)).
(** The solver that [fit] runs is the exact native one (use_cg=False). *)
Definition exact_native {T} `{Num T} {W} (E : env T W) : Prop :=
  forall C X Y r X', e_solver E C X Y r = (X', None) -> least_squares (e_posv E) (e_n E) C X Y r = Ok X'.
Section Fit.
Context {T : Type} `{Num T} {W : Type}.
Variable E : env T W.
Lemma fit_loop_last Cui Ciu cb k : forall it s X Y s' tr, 0 < k -> fit_loop E Cui Ciu cb k it s X Y = (s', tr, Ok tt) ->
  exists X' Y0 Y', e_solver E Ciu Y0 X' (e_reg E) = (Y', None) /\ sX s' = Some X' /\ sY s' = Some Y'.
Proof.
  induction k as [|k IH]; [lia|]. intros it s X Y s' tr _ F. cbn [fit_loop] in F.
  destruct (e_solver E Cui X Y (e_reg E)) as [X1 [ex|]] eqn:E1; [discriminate F|].
  destruct (e_solver E Ciu Y X1 (e_reg E)) as [Y1 [ey|]] eqn:E2; [discriminate F|].
  set (s1 := set_Y (set_X s (Some X1)) (Some Y1)) in *.
  destruct k as [|k].
  - exists X1, Y, Y1. split; auto. destruct cb as [f|]; cbn [fit_loop] in F; inversion F; subst; auto.
    destruct (queries_frame E (f it) s1) as [A B]. rewrite A, B. auto.
  - destruct cb as [f|]; [|eapply IH; [lia|exact F]].
    destruct (fit_loop E Cui Ciu (Some f) (S k) (S it) (run_queries E s1 (f it)) X1 Y1) as [[s2 tr2] r2] eqn:EL. inversion F; subst. eapply IH; [|exact EL]. lia.
Qed.
Lemma column_alpha a (M : csr T) i : i < c_cols M -> csr_row (transpose (apply_alpha a M)) i = alpha_row a (column M i).
Proof.
  intros B. assert (SH : c_cols (apply_alpha a M) = c_cols M /\ c_rows (apply_alpha a M) = c_rows M) by (unfold apply_alpha; destruct (neqb a none_); auto).
  destruct SH as [SC SR]. rewrite transpose_row by (rewrite SC; auto). rewrite SR. unfold column.
  assert (AR : forall l1 l2 : list (nat * T), alpha_row a (l1 ++ l2) = alpha_row a l1 ++ alpha_row a l2) by (intros; unfold alpha_row; destruct (neqb a none_); auto; apply map_app).
  induction (seq 0 (c_rows M)) as [|u l IH]; cbn [flat_map]; [unfold alpha_row; destruct (neqb a none_); auto|].
  rewrite AR, IH. f_equal. rewrite alpha_rows. unfold alpha_row. destruct (neqb a none_); auto.
  induction (csr_row M u) as [|e r IHr]; cbn [map filter fst snd]; auto. destruct (fst e =? i); cbn [map fst snd]; [f_equal|]; auto.
Qed.
End Fit.

(** After training, recalculating items from their columns of the training matrix gives
    back exactly the stored item factors (which training computes last). *)
Theorem C112_items : forall T (NT : Num T) W (E : env T W) s s' tr M X0 Y0 cb fc Y id ids R,
  exact_native E -> 0 < e_iterations E -> safe_callback (e_iterations E) (match cb with Some _ => cb | None => fc end) ->
  fit E s M X0 Y0 cb fc = (s', tr, Ok tt) -> sY s' = Some Y ->
  id_list id = map Z.of_nat ids -> (forall i, In i ids -> i < length Y /\ i < c_cols M) ->
  csr_wf R -> c_rows R = length ids -> (forall g, g < length ids -> csr_row R g = column M (nth g ids 0)) ->
  snd (run_query E s' (QRecalculateItem id R)) = Ok (AFactors (map (fun i => nth i Y []) ids)).
Proof.
  intros T NT W E s s' tr M X0 Y0 cb fc Y id ids R EX IT SC F EY IDS BI WR LR CR.
  pose proof (fit_coherent E s M X0 Y0 cb fc SC) as CO. rewrite F in CO. cbn [fst] in CO.
  unfold fit in F. set (cb' := match cb with Some _ => cb | None => fc end) in *.
  match type of F with context [fit_loop E ?a ?b ?c ?d ?e ?f ?g ?h] => destruct (fit_loop E a b c d e f g h) as [[s2 tr2] [u|x]] eqn:EL end; [|discriminate F].
  injection F as <- _ _. destruct u. destruct (fit_loop_last E _ _ _ _ _ _ _ _ _ _ IT EL) as (X' & Y1 & Y' & ES & SX & SY).
  assert (Y' = Y) by congruence. subst Y'. apply EX in ES. unfold least_squares, least_squares_c in ES.
  unfold run_query. rewrite SX, SY. cbn [snd]. unfold answer_from.
  destruct (coherent_values E s2 X' Y CO SX SY) as (_ & _ & _ & VX). rewrite VX.
  assert (RE : recalculate_item (e_posv E) (e_alpha E) (e_reg E) (e_n E) (gram (e_n E) X') X' id R = Ok (map (fun i => nth i Y []) ids)).
  { unfold recalculate_item, least_squares_c. unfold id_count. rewrite IDS, map_length. apply map_res_nth with (d := 0) (d' := []).
    rewrite seq_length. split; [apply map_length|]. intros g Hg. rewrite seq_nth by auto. cbn [Nat.add].
    apply (proj1 (map_res_nth _ _ _ 0 [])) in ES. destruct ES as [LY NY]. rewrite seq_length in LY, NY.
    destruct (BI (nth g ids 0) (nth_In _ _ Hg)) as [B1 B2]. specialize (NY (nth g ids 0) ltac:(lia)). rewrite seq_nth in NY by lia. cbn [Nat.add] in NY.
    rewrite raw_alpha by (auto; lia). rewrite CR by auto.
    unfold raw_entries in NY. destruct (S (nth g ids 0) <? length (c_indptr (transpose (apply_alpha (e_alpha E) M)))); [|discriminate NY].
    rewrite column_alpha in NY by auto. cbn [bind] in NY |- *. rewrite NY. f_equal.
    rewrite (nth_indep (map (fun i => nth i Y []) ids) [] (nth 0 Y [])) by (rewrite map_length; auto). rewrite (map_nth (fun i => nth i Y [])). auto. }
  rewrite RE. reflexivity.
Qed.
Print Assumptions C112_items.
(** Users: not so, the item factors have changed since the users were computed. *)
Theorem C112_users_refuted : exists (E : env Q unit) s' tr M X0 Y0 X u R,
  exact_native E /\ 0 < e_iterations E /\ fit E fresh_state M X0 Y0 None None = (s', tr, Ok tt) /\ sX s' = Some X /\
  u < length X /\ c_rows R = 1 /\ csr_row R 0 = csr_row M u /\
  snd (run_query E s' (QRecalculateUser (Scalar (Z.of_nat u)) R)) <> Ok (AFactors [nth u X []]).
Proof.
  exists (exE 2), st0, (snd (fst (fit (exE 2) fresh_state exMq exX0 exX0 None None))), exMq, exX0, exX0, stX, 0, (csr_of_rows 2 [[(0, 2%Q); (1, 3%Q)]]).
  split. { intros C X Y r X'. unfold exE, ip. cbn [e_solver e_posv e_n]. destruct (least_squares posv1 1 C X Y r); intros EQ; inversion EQ; auto. }
  split; [cbn; lia|]. split; [vm_compute; reflexivity|]. split; [vm_compute; reflexivity|]. split; [vm_compute; lia|]. split; [reflexivity|].
  split; [reflexivity|]. vm_compute. discriminate.
Qed.
Print Assumptions C112_users_refuted.
(** They are given back when training has converged for that user: when their factors are
    optimal for the current item factors. *)
Theorem C112_users_partial : forall W (E : env R W) s X Y u M, posv_ok (e_posv E) -> canonical M -> mat_ok (e_n E) Y ->
  length Y = c_cols M -> (0 < e_reg E)%R -> coherent E s -> sX s = Some X -> sY s = Some Y -> c_rows M = 1 ->
  minimises (e_n E) (user_loss Y (e_reg E) (scale_row (e_alpha E) (csr_row M 0))) (nth u X []) ->
  snd (run_query E s (QRecalculateUser (Scalar (Z.of_nat u)) M)) = Ok (AFactors [nth u X []]).
Proof.
  intros W E s X Y u M PO CA MY LY RG CO EX EY RM MI. unfold run_query. rewrite EX, EY. cbn [snd]. unfold answer_from.
  destruct (coherent_values E s X Y CO EX EY) as (_ & _ & VY & _). rewrite VY.
  destruct (recalculate_user (e_posv E) (e_alpha E) (e_reg E) (e_n E) (gram (e_n E) Y) Y (Scalar (Z.of_nat u)) M) as [X'|x] eqn:RC.
  - destruct (C36_recalculate_user _ _ _ _ _ _ _ _ PO CA MY LY (Rlt_le _ _ RG) RC) as (L & _ & IM). cbn in L.
    destruct (IM 0 ltac:(cbn; lia)) as [_ UN]. rewrite (UN RG _ MI). destruct X' as [|x [|]]; try discriminate L. reflexivity.
  - exfalso. unfold recalculate_user in RC. cbn in RC. rewrite RM in RC. cbn in RC.
    pose proof (C36_total (e_posv E) (e_n E) (csr_scale (e_alpha E) M) [nth u X []] Y (e_reg E) PO (scale_canonical _ _ CA) MY) as TT.
    destruct TT as [X' TT]; auto. unfold least_squares in TT. rewrite apply_alpha_scale in RC. cbn in TT, RC. congruence.
Qed.
Print Assumptions C112_users_partial.
Example C112_example : exact_native (exE 2) /\ snd (run_query (exE 2) st0 (QRecalculateItem (Batch [1; 0]%Z) (csr_of_rows 2 [column exMq 1; column exMq 0]))) =
  Ok (AFactors [nth 1 stY []; nth 0 stY []]) /\ column exMq 1 = [(0, 3%Q); (1, 2%Q)].
Proof.
  split. { intros C X Y r X'. unfold exE, ip. cbn [e_solver e_posv e_n]. destruct (least_squares posv1 1 C X Y r); intros EQ; inversion EQ; auto. }
  split; [vm_compute; reflexivity|reflexivity].
Qed.
(** One item with factor 1, one rating 2: two thirds is optimal. *)
Example C112_users_example : let M := csr_of_rows 1 [[(0, 2%R)]] in canonical M /\ mat_ok 1 [[1%R]] /\
  minimises 1 (user_loss [[1%R]] 1 (scale_row 1 (csr_row M 0))) [(2 / 3)%R].
Proof.
  intros M. split; [|split].
  - split.
    + apply csr_of_rows_wf. intros r e [<-|[]] [<-|[]]. simpl. lia.
    + intros u B. simpl in B. assert (u = 0) by lia. subst. repeat constructor. intros [].
  - intros y [<-|[]]. reflexivity.
  - split; [reflexivity|]. intros z Lz. destruct z as [|z [|]]; try discriminate Lz.
    unfold user_loss, row_error, confidence, preference, entry, sq. cbn. destruct (Rlt_dec 0 (1 * 2)) as [_|N]; [|exfalso; apply N; lra].
    rewrite Rabs_pos_eq by lra. pose proof (Rle_0_sqr (z - 2 / 3)) as SQ; unfold Rsqr in SQ; nra.
Qed.
