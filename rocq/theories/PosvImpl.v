(** Elimination meets the contract [posv_ok]: the contract is satisfiable. *)
From Coq Require Import List Arith Lia Bool Reals Lra.
From Verif Require Import Base Num Sparse TopkModel RecommendModel RVec AlsModel AlsSpec AlsProofs.
Import ListNotations.
Local Open Scope R_scope.

Fixpoint elim (fuel : nat) (A : list (list R)) (b : list R) : option (list R) :=
  match fuel, A, b with
  | S fuel, (a :: r) :: rest, b0 :: bs =>
      if Rltb 0 a then
        let M := map (fun row => axpy (- (hd 0 row / a)) r (tl row)) rest in
        let bs' := map (fun p => snd p - hd 0 (fst p) / a * b0) (combine rest bs) in
        match elim fuel M bs' with
        | Some x => Some ((b0 - rdot r x) / a :: x)
        | None => None
        end
      else None
  | S _, [], [] => Some []
  | _, _, _ => None
  end.
Definition posv_elim (A : list (list R)) (b : list R) : option (list R) := elim (S (length A)) A b.

Lemma schur_mv a r rest x : (forall row, In row rest -> length row = S (length r)) -> length x = length r ->
  mv (map (fun row => axpy (- (hd 0 row / a)) r (tl row)) rest) x =
  map (fun row => rdot (tl row) x - hd 0 row / a * rdot r x) rest.
Proof.
  intros L Lx. unfold mv. rewrite map_map. apply map_ext_in. intros row Hr. rewrite rdot_axpy; [lra|].
  specialize (L row Hr). destruct row; simpl in *; lia.
Qed.

(** the quadratic form split along the first row *)
Lemma schur_form a r rest x0 x : a <> 0 -> (forall row, In row rest -> length row = S (length r)) ->
  length rest = length r -> length x = length r -> map (hd 0) rest = r ->
  rdot (mv ((a :: r) :: rest) (x0 :: x)) (x0 :: x) =
  a * sq (x0 + rdot r x / a) + rdot (mv (map (fun row => axpy (- (hd 0 row / a)) r (tl row)) rest) x) x.
Proof.
  intros Na L Lr Lx Eh. rewrite schur_mv by auto. cbn [mv map rdot].
  assert (G : forall k, rdot (map (fun row => rdot row (x0 :: x)) rest) k = rdot (map (hd 0) rest) k * x0 + rdot (map (fun row => rdot (tl row) x) rest) k).
  { revert L. clear. induction rest as [|row rest IH]; intros L k; simpl; [destruct k; lra|].
    destruct k as [|k0 k]; [lra|]. rewrite IH by (intros; apply L; right; auto).
    specialize (L row (or_introl eq_refl)). destruct row; simpl in *; [lia|lra]. }
  assert (G2 : forall k, rdot (map (fun row => rdot (tl row) x - hd 0 row / a * rdot r x) rest) k =
     rdot (map (fun row => rdot (tl row) x) rest) k - rdot (map (hd 0) rest) k * (rdot r x / a)).
  { clear -Na. induction rest as [|row rest IH]; intros k; simpl; [lra|]. destruct k as [|k0 k]; [lra|]. rewrite IH. field. auto. }
  change (map (fun r0 => rdot r0 (x0 :: x)) rest) with (map (fun row => rdot row (x0 :: x)) rest).
  rewrite G, G2, Eh. unfold sq. field. auto.
Qed.

Lemma hd_map (rest : list (list R)) i : nth i (map (hd 0) rest) 0 = hd 0 (nth i rest []).
Proof. revert i. induction rest; destruct i; simpl; auto. Qed.
Lemma nth0_hd (l : list R) : nth 0 l 0 = hd 0 l.
Proof. destruct l; auto. Qed.

Lemma sym_hd n a r rest : square (S n) ((a :: r) :: rest) -> symmetric (S n) ((a :: r) :: rest) -> map (hd 0) rest = r.
Proof.
  intros [LA RA] SY. simpl in LA. assert (Lr : length r = n) by (specialize (RA (a :: r) (or_introl eq_refl)); simpl in RA; lia).
  apply nth_ext with (d := 0) (d' := 0); [rewrite map_length; lia|]. intros i Bi. rewrite map_length in Bi.
  specialize (SY 0%nat (S i) ltac:(lia) ltac:(lia)). simpl in SY. rewrite hd_map, SY. rewrite <- nth0_hd. auto.
Qed.

Lemma schur_sym n a r rest : a <> 0 -> square (S n) ((a :: r) :: rest) -> symmetric (S n) ((a :: r) :: rest) ->
  square n (map (fun row => axpy (- (hd 0 row / a)) r (tl row)) rest) /\
  symmetric n (map (fun row => axpy (- (hd 0 row / a)) r (tl row)) rest).
Proof.
  intros Na SA SY. pose proof (sym_hd n a r rest SA SY) as Eh. destruct SA as [LA RA]. simpl in LA.
  assert (Lr : length r = n) by (specialize (RA (a :: r) (or_introl eq_refl)); simpl in RA; lia).
  assert (LR : forall row, In row rest -> length row = S n) by (intros; apply RA; right; auto).
  split.
  - split; [rewrite map_length; lia|]. intros row Hr. apply in_map_iff in Hr. destruct Hr as [row0 [<- Hr]]. rewrite axpy_length.
    specialize (LR row0 Hr). destruct row0; simpl in *; lia.
  - intros i j Bi Bj.
    assert (N : forall k l x y, length x = length y -> nth l (axpy k x y) 0 = nth l y 0 + k * nth l x 0).
    { clear. intros k l x. revert l. induction x as [|a x IH]; destruct y as [|b y]; simpl; intros L; try discriminate; destruct l; simpl; try lra. apply IH. lia. }
    assert (E : forall i j, (i < n)%nat -> (j < n)%nat -> nth j (nth i (map (fun row => axpy (- (hd 0 row / a)) r (tl row)) rest) []) 0 =
       nth (S j) (nth i rest []) 0 - nth i r 0 / a * nth j r 0).
    { clear i j Bi Bj. intros i j Bi Bj. rewrite nth_indep with (d' := (fun row => axpy (- (hd 0 row / a)) r (tl row)) []) by (rewrite map_length; lia).
      rewrite (map_nth (fun row => axpy (- (hd 0 row / a)) r (tl row))).
      assert (Li : length (nth i rest []) = S n) by (apply LR, nth_In; lia).
      rewrite N by (destruct (nth i rest []); simpl in *; lia). rewrite <- (hd_map rest), Eh.
      destruct (nth i rest []); simpl in *; [lia|]. lra. }
    rewrite !E by auto. specialize (SY (S i) (S j) ltac:(lia) ltac:(lia)). simpl in SY. rewrite SY. field. auto.
Qed.

Lemma elim_ok : forall n fuel A b, (n < fuel)%nat -> square n A -> symmetric n A -> length b = n ->
  (pos_def n A -> exists x, elim fuel A b = Some x /\ length x = n /\ mv A x = b) /\
  (~ pos_def n A -> elim fuel A b = None).
Proof.
  induction n as [|n IH]; intros fuel A b F SA SY Lb; destruct fuel as [|fuel]; try lia.
  - destruct A; [|destruct SA; discriminate]. destruct b; [|discriminate]. split.
    + intros _. exists []. auto.
    + intros ND. exfalso. apply ND. intros x Lx [v [Hv _]]. destruct x; [destruct Hv|discriminate].
  - destruct A as [|row0 rest]; [destruct SA; discriminate|].
    assert (L0 : length row0 = S n) by (apply (proj2 SA); left; auto). destruct row0 as [|a r]; [discriminate|].
    destruct b as [|b0 bs]; [discriminate|]. pose proof (sym_hd n a r rest SA SY) as Eh. simpl in L0, Lb.
    assert (LR : forall row, In row rest -> length row = S (length r)) by (intros row Hr; destruct SA as [_ RA]; rewrite RA by (right; auto); lia).
    assert (Lrest : length rest = length r) by (destruct SA as [LA _]; simpl in LA; lia).
    cbn [elim]. unfold Rltb. destruct (Rlt_dec 0 a) as [Pa|Na].
    + assert (Na : a <> 0) by lra. destruct (schur_sym n a r rest Na SA SY) as [SM SYM].
      set (M := map (fun row => axpy (- (hd 0 row / a)) r (tl row)) rest) in *.
      set (bs' := map (fun p => snd p - hd 0 (fst p) / a * b0) (combine rest bs)).
      assert (Lbs : length bs' = n) by (unfold bs'; rewrite map_length, combine_length; lia).
      destruct (IH fuel M bs' ltac:(lia) SM SYM Lbs) as [I1 I2].
      assert (QF : forall x0 x, length x = length r -> rdot (mv ((a :: r) :: rest) (x0 :: x)) (x0 :: x) = a * sq (x0 + rdot r x / a) + rdot (mv M x) x).
      { intros. apply schur_form; auto. }
      assert (PD : pos_def (S n) ((a :: r) :: rest) <-> pos_def n M).
      { split; intros P x Lx [v [Hv Nv]].
        - specialize (P (- (rdot r x / a) :: x)). rewrite QF in P by lia. replace (- (rdot r x / a) + rdot r x / a) with 0 in P by lra. unfold sq in P.
          assert (0 < a * (0 * 0) + rdot (mv M x) x); [apply P; [simpl; lia|exists v; split; [right|]; auto]|lra].
        - destruct x as [|x0 x]; [discriminate|]. simpl in Lx. rewrite QF by lia.
          assert (S0 : 0 <= sq (x0 + rdot r x / a)) by apply Rle_0_sqr.
          destruct (Classical_Prop.classic (exists w, In w x /\ w <> 0)) as [[w [Hw Nw]]|NW].
          + assert (0 < rdot (mv M x) x) by (apply P; [lia|eauto]). nra.
          + assert (Z : forall w, In w x -> w = 0) by (intros w Hw; destruct (Req_dec w 0); auto; exfalso; apply NW; eauto).
            assert (Rz : rdot r x = 0) by (rewrite rdot_comm; apply rdot_all_zero; auto).
            assert (Mz : rdot (mv M x) x = 0) by (rewrite rdot_comm; apply rdot_all_zero; auto).
            rewrite Rz, Mz. destruct Hv as [->|Hv]; [|exfalso; apply Nv; apply Z; auto]. unfold sq. assert (0 < v * v) by nra.
            replace (v + 0 / a) with v by lra. nra. }
      split.
      * intros P. apply PD in P. destruct (I1 P) as [x [-> [Lx Ex]]]. eexists. split; [reflexivity|]. split; [simpl; lia|].
        cbn [mv map]. f_equal; [rewrite rdot_cons; field; auto|].
        unfold M in Ex. rewrite schur_mv in Ex by (auto; lia).
        transitivity (map (fun p => snd p) (combine rest bs)).
        2:{ clear -Lrest Lb L0. assert (L : length rest = length bs) by lia. clear -L. revert bs L. induction rest; destruct bs; simpl; intros L; try discriminate; auto. f_equal. auto. }
        assert (Lcb : length rest = length bs) by lia. unfold bs' in Ex. clear -Ex LR Na Lcb. revert bs Ex Lcb.
        induction rest as [|row rest IHr]; intros bs Ex Lcb; destruct bs as [|b1 bs]; try discriminate; auto. cbn [map combine] in *. inversion Ex as [[E1 E2]].
        f_equal.
        { cbn [fst snd] in *. assert (L1 := LR row (or_introl eq_refl)). destruct row as [|h t]; [discriminate|]. cbn [hd tl] in *. rewrite rdot_cons.
          replace (rdot t x) with (b1 - h / a * b0 + h / a * rdot r x) by lra. field. auto. }
        { apply IHr; auto. intros; apply LR; right; auto. }
      * intros NP. rewrite I2; auto. intros P. apply NP, PD, P.
    + split; [|auto]. intros P. exfalso. apply Na.
      specialize (P (basis (S n) 0) (basis_length _ _)). rewrite (form_entry (S n)) in P by (auto; lia). simpl in P. apply P.
      exists 1. split; [left; auto|lra].
Qed.

Theorem posv_elim_ok : posv_ok posv_elim.
Proof. intros n A b SA SY Lb. unfold posv_elim. apply elim_ok; auto. destruct SA; lia. Qed.

(** A solver for [solve_ok]: elimination after checking symmetry is not needed: it
    answers only for symmetric positive definite matrices. *)
Lemma posdef_injective n A z : square n A -> pos_def n A -> length z = n -> mv A z = repeat 0 n -> z = repeat 0 n.
Proof.
  intros SA P Lz E. destruct (Classical_Prop.classic (exists a, In a z /\ a <> 0)) as [X|X].
  - specialize (P z Lz X). rewrite E, rdot_repeat0 in P. lra.
  - clear -Lz X. subst n. induction z as [|a z IH]; auto. simpl. f_equal.
    + destruct (Req_dec a 0); auto. exfalso. apply X. exists a. split; [left|]; auto.
    + apply IH. intros [b [Hb Nb]]. apply X. exists b. split; [right|]; auto.
Qed.
Definition solve_sym (A : list (list R)) (b : list R) : option (list R) :=
  let n := length A in
  if forallb (fun i => forallb (fun j => if Req_EM_T (nth j (nth i A []) 0) (nth i (nth j A []) 0) then true else false) (seq 0 n)) (seq 0 n)
  then posv_elim A b else None.
Theorem solve_sym_ok : solve_ok solve_sym.
Proof.
  intros n A b x SA Lb E. unfold solve_sym in E. destruct (forallb _ _) eqn:F; [|discriminate].
  assert (LA := proj1 SA). assert (SY : symmetric n A).
  { intros i j Bi Bj. rewrite forallb_forall in F. specialize (F i ltac:(apply in_seq; lia)). rewrite forallb_forall in F.
    specialize (F j ltac:(apply in_seq; lia)). destruct (Req_EM_T (nth j (nth i A []) 0) (nth i (nth j A []) 0)); auto; discriminate. }
  destruct (posv_elim_ok n A b SA SY Lb) as [P1 P2]. destruct (Classical_Prop.classic (pos_def n A)) as [P|P].
  - destruct (P1 P) as [x' [E' [Lx Ex]]]. rewrite E in E'. inversion E'; subst x'. split; auto. split; auto.
    intros z Lz. apply posdef_injective; auto.
  - rewrite P2 in E by auto. discriminate.
Qed.
