(** Training within the arrays, ALS: property C70 of properties.jsonl (BPR: PropBpr). *)
From Coq Require Import List Arith Lia Bool ZArith QArith Reals.
From Verif Require Import Base Num Heap Sparse TopkModel RecommendModel AlsModel AlsSpec AlsProofs AlsProofs2 ExplainModel PropExplain AlsState AlsStateProofs PosvImpl PropAls PropAlsState RVec.
Import ListNotations.
Local Open Scope nat_scope.

Lemma fold_ok {A B} (g : A -> B -> res A) l : (forall s x, In x l -> exists s', g s x = Ok s') -> forall s, exists s', fold_res g l s = Ok s'.
Proof.
  induction l as [|x l IH]; intros HG s; simpl; eauto. destruct (HG s x (or_introl eq_refl)) as (s' & ->). cbn [bind]. apply IH. intros; apply HG; right; auto.
Qed.
Lemma cg_loop_no_ub eps steps YtY (Y : list (list R)) row : (forall p, In p row -> fst p < length Y) -> forall x r p rs, cg_loop eps steps YtY Y row x r p rs <> Raise UB.
Proof.
  intros IN. induction steps as [|k IH]; intros x r p rs; cbn [cg_loop]; [discriminate|].
  unfold apply_A. match goal with |- context [fold_res ?g ?l ?s0] => destruct (fold_ok g l) with (s := s0) as (Ap & EA) end.
  { intros s e He. rewrite raw_row_ok by auto. cbn [bind]. eauto. }
  rewrite EA. cbn [bind]. unfold c_div. destruct (neqb (ndot p Ap) nzero); cbn [bind]; [discriminate|]. destruct (nltb _ eps); [discriminate|].
  destruct (neqb rs nzero); cbn [bind]; [discriminate|]. apply IH.
Qed.
Lemma cg_no_ub eps steps n (M : csr R) X Y reg : csr_wf M -> length X <= c_rows M -> c_cols M <= length Y ->
  least_squares_cg eps steps n M X Y reg <> Raise UB.
Proof.
  intros WF LR LC HX. unfold least_squares_cg in HX.
  assert (P : forall ux, In ux (enum X) -> (do row <- raw_entries M (fst ux); cg_row eps steps (add_diag reg (gram n Y)) n Y row (snd ux)) <> Raise UB).
  { intros [u x] Hu. simpl. assert (u < length X).
    { apply in_enum in Hu. apply nth_error_Some. congruence. }
    rewrite raw_entries_ok by (auto; lia). cbn [bind]. unfold cg_row.
    assert (IN : forall p, In p (csr_row M u) -> (fst p < length Y)%nat).
    { intros p Hp. assert (fst p < c_cols M)%nat; [|lia]. apply (csr_row_indices_lt M u (fst p) WF). apply in_map. auto. }
    destruct (csr_row M u) as [|e row] eqn:ER; [discriminate|]. rewrite <- ER in *.
    unfold residual. match goal with |- context [fold_res ?g ?l ?s0] => destruct (fold_ok g l) with (s := s0) as (r & EA) end.
    { intros s p Hp. rewrite raw_row_ok by auto. cbn [bind]. eauto. }
    rewrite EA. cbn [bind]. destruct (nltb _ eps); [discriminate|]. apply cg_loop_no_ub. auto. }
  revert HX P. generalize (enum X). intros l. induction l as [|u l IH]; intros HX P; [simpl in HX; congruence|]. cbn [map_res] in HX.
  match type of HX with bind ?m _ = _ => destruct m as [v|x] eqn:EV end; cbn [bind] in HX.
  - match type of HX with bind ?m _ = _ => destruct m as [vs|x] eqn:EL end; cbn [bind] in HX; [congruence|]. inversion HX; subst. apply IH; auto. intros u' Hu'. apply P. right; auto.
  - inversion HX; subst. apply (P u (or_introl eq_refl)). auto.
Qed.

(** Factors of the shape of the matrix: both half steps of both native solvers stay
    inside. *)
Theorem C70_als_partial : forall (M : csr R) X Y reg n, canonical M -> length X = c_rows M -> length Y = c_cols M ->
  (forall posv, least_squares posv n M X Y reg <> Raise UB /\ least_squares posv n (transpose M) Y X reg <> Raise UB) /\
  (forall eps steps, least_squares_cg eps steps n M X Y reg <> Raise UB /\ least_squares_cg eps steps n (transpose M) Y X reg <> Raise UB).
Proof.
  intros M X Y reg n C EX EY. pose proof (transpose_canonical M C) as [WT _]. destruct C as [W _].
  assert (ET : c_cols (transpose M) = c_rows M) by reflexivity. pose proof (transpose_rows M) as ER.
  split; intros; split; first [apply ls_no_ub | apply cg_no_ub]; auto; lia.
Qed.

(** A fitted ALS model, fitted again on a matrix with one more item (of the same number
    of users), or with fewer users: both read outside, nothing is raised before. *)
Definition wider : csr Q := csr_of_rows 3 [[(0%nat, 2%Q)]; [(2%nat, 1%Q)]].
Definition fewer : csr Q := csr_of_rows 2 [[(0%nat, 2%Q)]].
Theorem C70_als_refuted : exists (E : env Q unit) s c, s = run E fresh_state [c] /\ sX s <> None /\ csr_wf wider /\ csr_wf fewer /\
  snd (fit E s wider [] [] None None) = Raise UB /\ snd (fit E s fewer [] [] None None) = Raise UB.
Proof.
  exists (exE 2), st0, (ex_fit None). split; [symmetry; exact st0_eq|]. split; [discriminate|].
  repeat (split; [first [apply csr_of_rows_wf; intros r p Hr Hp; simpl in Hr; repeat (destruct Hr as [<-|Hr]; [simpl in Hp; repeat (destruct Hp as [<-|Hp]; [simpl; lia|]); tauto|]); tauto|vm_compute; reflexivity]|]).
  vm_compute. reflexivity.
Qed.
Example C70_als_example : exists (M : csr R) (X Y : list (list R)), canonical M /\ length X = c_rows M /\ length Y = c_cols M /\ 0 < length X /\ csr_row M 0 <> [].
Proof. exists exM, exY, exY. split; [apply exM_canonical|]. split; [reflexivity|]. split; [reflexivity|]. split; [simpl; lia|]. vm_compute. discriminate. Qed.
Print Assumptions C70_als_partial.
Print Assumptions C70_als_refuted.
