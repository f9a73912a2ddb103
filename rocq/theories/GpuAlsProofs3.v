(** GPU ALS: recalculation, the loss, and the assignment of rows. *)
From Coq Require Import List Arith Lia Bool ZArith Reals Lra Permutation.
From Verif Require Import Base Num Sparse TopkModel TopkBatch RecommendModel KnnAcc RVec SimilarBatch AlsModel AlsSpec AlsProofs AlsProofs2 AlsLoss AlsConc RowConc KnnConc CgProofs CgExact
  PropAls PropCgExact GpuKnn GpuKnnProofs2 GpuAls GpuAlsProofs GpuAlsProofs2.
Import ListNotations.
Local Open Scope R_scope.

(* ------------------------------------------------------------------ recalculation *)
Lemma rows_total (f : nat -> list R -> res (list R)) (P : nat -> list R -> Prop) (X : list (list R)) :
  (forall u, (u < length X)%nat -> exists x', f u (nth u X []) = Ok x' /\ P u x') ->
  exists X', map_res (fun ux => f (fst ux) (snd ux)) (enum X) = Ok X' /\ length X' = length X /\ forall u, (u < length X)%nat -> P u (nth u X' []).
Proof.
  intros F.
  assert (G : forall l, (forall ux, In ux l -> (fst ux < length X)%nat /\ snd ux = nth (fst ux) X []) -> exists X', map_res (fun ux => f (fst ux) (snd ux)) l = Ok X').
  { induction l as [|[u x] l IH]; intros Hl; [eexists; reflexivity|]. cbn [map_res fst snd]. destruct (Hl (u, x) (or_introl eq_refl)) as [Bu Ex]. cbn [fst snd] in Bu, Ex. subst x.
    destruct (F u Bu) as [x' [-> _]]. cbn [bind]. destruct IH as [X' ->]; [intros; apply Hl; right; auto|]. cbn [bind]. eauto. }
  destruct (G (enum X)) as [X' E].
  { intros [u x] Hu. apply in_enum in Hu. cbn [fst snd]. split; [apply nth_error_Some; congruence|symmetry; apply nth_error_nth; auto]. }
  exists X'. split; auto. apply (proj1 (map_res_nth _ _ _ (0%nat, []) [])) in E. unfold enum in E. rewrite Base.enum_from_length in E. destruct E as [L E].
  split; auto. intros u B. specialize (E u B). rewrite nth_enum_from in E by auto. cbn [fst snd] in E. simpl plus in E. destruct (F u B) as [x' [E2 Q]]. rewrite E in E2. inversion E2 as [E3]. rewrite E3. exact Q.
Qed.

(** The cached Gram matrix is that of the current factors. *)
Definition cache_ok (cache : option (list (list R))) (n : nat) (Y : gmatrix R) (reg : R) : Prop :=
  match cache with None => True | Some c => c = add_diag reg (gram n (g_rows Y)) end.

Lemma yty_value_ok cache n Y reg : cache_ok cache n Y reg -> g_cols Y = n -> float_size (g_size Y) -> (n <= 1024)%nat ->
  yty_value cache n Y reg = Ok (add_diag reg (gram n (g_rows Y))).
Proof.
  intros C EC FS LN. unfold yty_value. destruct cache as [c|]; [rewrite C; auto|]. unfold gpu_yty. rewrite EC, Nat.eqb_refl. cbn [negb]. rewrite float_size_b by auto. cbn [negb]. rewrite launches_le by auto. auto.
Qed.

Lemma gpu_recalculate_ok bdot eps order g other cache m u0 :
  dot_ok (ga_n g) bdot -> (ga_n g <= 1024)%nat -> 0 < eps -> 0 <= ga_reg g -> float_size (ga_size g) ->
  g_cols other = ga_n g -> g_size other = ga_size g -> mat_ok (ga_n g) (g_rows other) -> cache_ok cache (ga_n g) other (ga_reg g) ->
  canonical m -> (c_cols m <= length (g_rows other))%nat -> csr_row m u0 <> [] -> Permutation order (seq 0 (c_rows m)) ->
  exists rows, gpu_recalculate bdot eps order g other cache (c_rows m) m = Ok {| g_size := ga_size g; g_cols := ga_n g; g_rows := rows |} /\
    length rows = c_rows m /\
    forall u, (u < c_rows m)%nat -> near_solution (ga_n g) (g_rows other) (ga_reg g) (scale_row (ga_alpha g) (csr_row m u)) eps (nth u rows []) /\
      (csr_row m u = [] -> nth u rows [] = repeat 0 (ga_n g)).
Proof.
  intros DO LN E0 R0 FS EC ES MY CO C LC NE P. unfold gpu_recalculate. rewrite float_size_b by auto. cbn [negb]. rewrite apply_alpha_scale.
  set (n := ga_n g) in *. set (Y := g_rows other) in *. set (mm := csr_scale (ga_alpha g) m).
  assert (CM : canonical mm) by (apply scale_canonical; auto).
  assert (Rm : c_rows mm = c_rows m) by reflexivity. assert (Cm : c_cols mm = c_cols m) by reflexivity.
  rewrite (upload_ok mm u0) by (unfold mm; rewrite scale_rows; unfold scale_row; destruct (csr_row m u0); [congruence|discriminate]). cbn [bind].
  rewrite yty_value_ok by (auto; rewrite ES; auto). cbn [bind]. unfold gpu_least_squares. cbn [g_cols g_rows g_size]. fold n Y.
  rewrite EC. fold n. rewrite Nat.eqb_refl. cbn [negb]. rewrite repeat_length.
  replace (c_rows m <? c_rows mm)%nat with false by (symmetry; apply Nat.ltb_ge; lia).
  replace (length Y <? c_cols mm)%nat with false by (symmetry; apply Nat.ltb_ge; lia).
  rewrite ES, Z.eqb_refl. cbn [negb]. rewrite float_size_b by auto. cbn [negb]. rewrite launches_le by auto.
  set (X0 := repeat (repeat nzero n) (c_rows m)). assert (L0 : length X0 = c_rows m) by apply repeat_length.
  assert (X0r : forall u, (u < c_rows m)%nat -> nth u X0 [] = repeat 0 n) by (intros u B; unfold X0; rewrite nth_repeat_lt by auto; auto).
  destruct (normal_symmetric n Y (ga_reg g) MY) as [S1 S2].
  destruct (rows_total (gpu_user bdot eps n n mm (add_diag (ga_reg g) (gram n Y)) Y)
     (fun u x' => near_solution n Y (ga_reg g) (scale_row (ga_alpha g) (csr_row m u)) eps x' /\ (csr_row m u = [] -> x' = repeat 0 n)) X0) as [X' [E [L V]]].
  { intros u B. rewrite L0 in B. unfold gpu_user. rewrite raw_entries_ok by (try apply CM; lia). cbn [bind]. unfold mm at 1. rewrite scale_rows.
    rewrite (gpu_cg_row_eq n) by (auto; rewrite X0r by auto; apply repeat_length).
    assert (RO : row_ok (length Y) (scale_row (ga_alpha g) (csr_row m u))).
    { rewrite <- scale_rows. fold mm. destruct (canonical_row mm u CM) as [N1 N2]; [lia|]. split; auto. intros p Hp. specialize (N2 p Hp). lia. }
    destruct (C88_residual eps n n Y (ga_reg g) (scale_row (ga_alpha g) (csr_row m u)) (nth u X0 []) E0 ltac:(lia) MY RO R0) as [[x' [E NS]] _]; [rewrite X0r by auto; apply repeat_length|].
    exists x'. split; auto. split; auto. intros Z. rewrite Z in E. cbn [scale_row map cg_row] in E. inversion E. auto. }
  unfold gpu_kernel. rewrite (kernel_order _ X0 X' order) by (auto; rewrite L0; auto). cbn [bind]. exists X'. split; auto. split; [congruence|]. intros u B. apply V. lia.
Qed.

(* ------------------------------------------------------------------ the loss *)
Lemma gpu_loss_user_eq n bdot Y row x : dot_ok n bdot -> mat_ok n Y -> length x = n -> square n (gram n Y) -> symmetric n (gram n Y) ->
  gpu_loss_user bdot n (gram n Y) Y row x = loss_user (gram n Y) Y row x.
Proof.
  intros DO MY Lx SA SY. unfold gpu_loss_user, loss_user. rewrite (init_add n (gram n Y)) by auto.
  assert (Ls : length (symv none_ (gram n Y) x) = n) by (apply symv_len; auto).
  assert (G : forall row r t, length r = n ->
    match fold_res (fun s e =>
      let '(r, total) := s in
      do y <- raw_row Y (fst e);
      let d := bdot (prods y x) in
      let c := snd e in
      if nltb nzero c then
        Ok (lanes2 (fun rt yt => nadd rt (nmul (nsub (nmul (nsub c none_) d) (nmul (nadd none_ none_) c)) yt)) r y, nadd total c)
      else let c := nmul c (nopp none_) in
        Ok (lanes2 (fun rt yt => nadd rt (nmul (nmul (nsub c none_) d) yt)) r y, nadd total c)) row (r, t) with
    | Ok (r1, t1) => length r1 = n /\ fold_res (fun s e =>
      let '(r, total, loss) := s in
      do y <- raw_row Y (fst e);
      let c := conf_abs (snd e) in
      let t0 := if nltb nzero (snd e) then nmul (nopp (nadd none_ none_)) (snd e) else nzero in
      let t := nadd t0 (nmul (nsub c none_) (ndot y x)) in
      Ok (axpy t y r, nadd total c, nadd loss c)) row (r, t, t) = Ok (r1, t1, t1)
    | Raise ex => fold_res (fun s e =>
      let '(r, total, loss) := s in
      do y <- raw_row Y (fst e);
      let c := conf_abs (snd e) in
      let t0 := if nltb nzero (snd e) then nmul (nopp (nadd none_ none_)) (snd e) else nzero in
      let t := nadd t0 (nmul (nsub c none_) (ndot y x)) in
      Ok (axpy t y r, nadd total c, nadd loss c)) row (r, t, t) = Raise ex
    end).
  { clear row. induction row as [|e row IH]; intros r t Lr; cbn [fold_res]; [auto|].
    destruct (raw_row Y (fst e)) as [y|] eqn:Ey; cbn [bind]; auto. pose proof (raw_row_len n Y MY _ _ Ey) as Ly. cbv zeta.
    rewrite (bdot_dot n) by auto. rewrite ndot_rdot. unfold conf_abs. destruct (nltb nzero (snd e)) eqn:Es; cbn [bind].
    - rewrite (lanes2_axpy _ (nadd (nmul (nopp (nadd none_ none_)) (snd e)) (nmul (nsub (snd e) none_) (rdot y x)))) by (try congruence; intros; simpl; lra).
      apply IH. rewrite axpy_length; auto.
    - rewrite (lanes2_axpy _ (nadd nzero (nmul (nsub (nmul (nopp none_) (snd e)) none_) (rdot y x)))) by (try congruence; intros; simpl; lra).
      replace (nmul (snd e) (nopp none_)) with (nmul (nopp none_) (snd e)) by (simpl; lra).
      apply IH. rewrite axpy_length; auto. }
  specialize (G row (symv none_ (gram n Y) x) nzero Ls).
  match type of G with match ?F with _ => _ end => destruct F as [[r1 t1]|ex] end.
  - destruct G as [L1 G]. match goal with |- _ = bind ?F _ => replace F with (@Ok (list R * R * R) (r1, t1, t1)) by (symmetry; exact G) end. cbn [bind]. rewrite !(bdot_dot n) by auto. rewrite !ndot_rdot, (rdot_comm x r1). reflexivity.
  - match goal with |- _ = bind ?F _ => replace F with (@Raise (list R * R * R) ex) by (symmetry; exact G) end. reflexivity.
Qed.

Lemma rsum_concat (f : nat -> R) ls : rsum (map (fun l => rsum (map f l)) ls) = rsum (map f (concat ls)).
Proof. induction ls as [|l ls IH]; cbn [map concat rsum]; auto. rewrite map_app, rsum_app, IH. auto. Qed.
Lemma map_combine_fst {A B C} (f : A -> C) (a : list A) (b : list B) : length a = length b -> map (fun p => f (fst p)) (combine a b) = map f a.
Proof. revert b. induction a as [|x a IH]; intros [|y b] L; cbn in *; try discriminate; auto. rewrite IH by lia. auto. Qed.
Lemma map_combine_snd {A B C} (f : B -> C) (a : list A) (b : list B) : length a = length b -> map (fun p => f (snd p)) (combine a b) = map f b.
Proof. revert b. induction a as [|x a IH]; intros [|y b] L; cbn in *; try discriminate; auto. rewrite IH by lia. auto. Qed.
Lemma grid_length G c : length (grid G c) = G.
Proof. unfold grid. rewrite map_length, seq_length. auto. Qed.
Lemma grid_in G c us u : (0 < G)%nat -> In us (grid G c) -> In u us -> (u < c)%nat.
Proof.
  intros HG Hus Hu. assert (H : In u (concat (grid G c))) by (apply in_concat; eauto). apply (Permutation_in _ (grid_perm G c HG)) in H. apply in_seq in H. lia.
Qed.
Lemma map_res_grid {A B} (f : A -> res B) (h : A -> B) l : (forall a, In a l -> f a = Ok (h a)) -> map_res f l = Ok (map h l).
Proof. apply map_res_map. Qed.

Theorem gpu_loss_value bdot G ord0 ord1 n size m X Y reg : dot_ok n bdot -> (n <= 1024)%nat -> float_size size -> (0 < G)%nat ->
  Permutation ord0 (seq 0 G) -> Permutation ord1 (seq 0 G) ->
  canonical m -> nth 0 (c_indptr m) 0%nat = 0%nat -> length (c_data m) = nth (c_rows m) (c_indptr m) 0%nat ->
  mat_ok n X -> mat_ok n Y -> length X = c_rows m -> length Y = c_cols m ->
  gpu_calculate_loss bdot INR G ord0 ord1 m {| g_size := size; g_cols := n; g_rows := X |} {| g_size := size; g_cols := n; g_rows := Y |} reg =
    c_div (total_loss (csr_row m) reg X Y + rsum (map (fun u => neg_sum (csr_row m u)) (seq 0 (c_rows m))))
          (total_confidence (csr_row m) (c_rows m) (c_cols m)).
Proof.
  intros DO LN FS HG P0 P1 C Z ND MX MY LX LY. unfold gpu_calculate_loss, gpu_yty. cbn [g_cols g_size g_rows]. rewrite Nat.eqb_refl. cbn [negb].
  rewrite float_size_b by auto. cbn [negb]. rewrite launches_le by auto. cbn [bind].
  assert (EG : add_diag nzero (gram n Y) = gram n Y).
  { unfold add_diag, enum.
    assert (K : forall (A : list (list R)) k, map (fun ja : nat * list R => map (fun kv : nat * R => if (fst ja =? fst kv)%nat then nadd (snd kv) nzero else snd kv) (enum_from 0 (snd ja))) (enum_from k A) = A).
    { assert (K1 : forall (r : list R) j k, map (fun kv : nat * R => if (j =? fst kv)%nat then nadd (snd kv) nzero else snd kv) (enum_from k r) = r).
      { induction r as [|a r IH]; intros j k; cbn [enum_from map fst snd]; auto. rewrite IH. f_equal. destruct (j =? k)%nat; auto. simpl. lra. }
      induction A as [|r A IH]; intros k; cbn [enum_from map fst snd]; auto. rewrite K1, IH. auto. }
    apply K. }
  rewrite EG.
  assert (SA : square n (gram n Y)) by apply gram_shape.
  assert (SY : symmetric n (gram n Y)). { rewrite <- EG. apply normal_symmetric; auto. }
  set (fu := fun u => (abs_sum (csr_row m u), row_error Y (csr_row m u) (nth u X []) + neg_sum (csr_row m u), rdot (nth u X []) (nth u X []))).
  set (fi := fun i => rdot (nth i Y []) (nth i Y [])).
  rewrite (map_res_map _ (fun us => (nadd (nsum (map (fun p => snd (fst p)) (map fu (fst us)))) (nmul reg (nadd (nsum (map fi (snd us))) (nsum (map snd (map fu (fst us)))))),
      nsum (map (fun p => fst (fst p)) (map fu (fst us)))))).
  2:{ intros [us is] Hus. cbn [fst snd]. assert (Hu := in_combine_l _ _ _ _ Hus). assert (Hi := in_combine_r _ _ _ _ Hus). unfold gpu_loss_block.
      rewrite (map_res_map _ fu).
      2:{ intros u Hin. assert (B := grid_in _ _ _ _ HG Hu Hin). rewrite raw_row_ok by auto. cbn [bind]. rewrite raw_entries_ok by (try apply C; lia). cbn [bind].
          rewrite gpu_loss_user_eq by (auto; apply mat_row; auto). apply loss_user_value; auto; [rewrite LY; apply canonical_row; auto; lia|apply mat_row; auto]. }
      cbn [bind]. rewrite (map_res_map _ fi).
      2:{ intros i Hin. assert (B := grid_in _ _ _ _ HG Hi Hin). rewrite raw_row_ok by auto. cbn [bind]. rewrite (bdot_dot n) by (auto; apply mat_row; auto). auto. }
      reflexivity. }
  cbn [bind]. set (outs := map _ (combine (grid G (length X)) (grid G (length Y)))).
  assert (LO : length outs = G) by (unfold outs; rewrite map_length, combine_length, !grid_length; lia).
  assert (PB : forall (g : R * R -> R) o, Permutation o (seq 0 G) -> nsum (map (fun b => g (nth b outs (nzero, nzero))) o) = rsum (map g outs)).
  { intros g o P. rewrite nsum_rsum. rewrite (rsum_perm _ (map (fun b => g (nth b outs (nzero, nzero))) (seq 0 G))) by (apply Permutation_map; auto).
    rewrite <- LO. f_equal. rewrite <- (map_nth_all g outs (nzero, nzero)). auto. }
  rewrite !PB by auto.
  assert (SX : forall f, rsum (map (fun us : list nat * list nat => rsum (map f (fst us))) (combine (grid G (length X)) (grid G (length Y)))) = rsum (map f (seq 0 (length X)))).
  { intros f. rewrite (map_combine_fst (fun l => rsum (map f l))) by (rewrite !grid_length; auto). rewrite rsum_concat. apply rsum_perm, Permutation_map, grid_perm; auto. }
  assert (SI : forall f, rsum (map (fun us : list nat * list nat => rsum (map f (snd us))) (combine (grid G (length X)) (grid G (length Y)))) = rsum (map f (seq 0 (length Y)))).
  { intros f. rewrite (map_combine_snd (fun l => rsum (map f l))) by (rewrite !grid_length; auto). rewrite rsum_concat. apply rsum_perm, Permutation_map, grid_perm; auto. }
  unfold outs. rewrite !map_map. cbn [fst snd].
  rewrite (rsum_map_ext _ (fun us => rsum (map (fun u => snd (fst (fu u))) (fst us)) + reg * (rsum (map fi (snd us)) + rsum (map (fun u => snd (fu u)) (fst us))))).
  2:{ intros us _. rewrite !map_map, !nsum_rsum. reflexivity. }
  rewrite rsum_map_add, rsum_map_scale, rsum_map_add, !SX, SI.
  rewrite (rsum_map_ext _ (fun us => rsum (map (fun u => fst (fst (fu u))) (fst us)))).
  2:{ intros us _. rewrite !map_map, !nsum_rsum. reflexivity. }
  rewrite SX, ND. rewrite total_confidence_sum by auto. unfold fu, fi. cbn [fst snd]. rewrite rsum_map_add. unfold total_loss, norms.
  rewrite <- (map_nth_all (fun x => rdot x x) X []), <- (map_nth_all (fun x => rdot x x) Y []), LX, LY. f_equal. simpl. lra.
Qed.

(* ------------------------------------------------------------------ assigning rows *)
Section Assign.
Variables (cols : nat) (ids : list nat) (other : list (list R)) (M : list (list R)).
Hypothesis ND : NoDup ids.
Hypothesis LI : length ids = length other.
Hypothesis MO : mat_ok cols other.
Hypothesis MM : mat_ok cols M.
Hypothesis BI : forall i, In i ids -> (i < length M)%nat.
Hypothesis SM : forall i, In i ids -> (Z.of_nat i < 2 ^ 31)%Z.

Lemma wrap32_id z : (0 <= z < 2 ^ 31)%Z -> wrap32 z = z.
Proof. intros B. unfold wrap32. rewrite Z.mod_small by lia. lia. Qed.

Definition stored (done : list nat) (Z : list (list R)) : Prop :=
  length Z = length M /\ mat_ok cols Z /\
  (forall k j, (k < length ids)%nat -> (j < cols)%nat -> nth j (nth (nth k ids 0%nat) Z []) 0 =
     if in_dec Nat.eq_dec (k * cols + j)%nat done then nth j (nth k other []) 0 else nth j (nth (nth k ids 0%nat) M []) 0) /\
  (forall i, ~ In i ids -> nth i Z [] = nth i M []).

Lemma store_step size done Z c : (c < length ids * cols)%nat -> ~ In c done -> stored done Z ->
  exists Z', gpu_store (map Z.of_nat ids) {| g_size := size; g_cols := cols; g_rows := other |} Z c = Ok Z' /\ stored (c :: done) Z'.
Proof.
  intros Bc Nc [LZ [MZ [V O]]]. unfold gpu_store. cbn [g_cols g_rows].
  assert (C0 : cols <> 0%nat) by (intros X; rewrite X in Bc; lia).
  set (k := (c / cols)%nat). set (j := (c mod cols)%nat).
  assert (Ec : c = (k * cols + j)%nat) by (unfold k, j; rewrite (Nat.div_mod c cols) at 1 by auto; lia).
  assert (Bj : (j < cols)%nat) by (apply Nat.mod_upper_bound; auto).
  assert (Bk : (k < length ids)%nat) by (apply Nat.div_lt_upper_bound; auto; lia).
  rewrite (nth_map_lt Z.of_nat ids k 0%Z 0%nat) by auto. set (i := nth k ids 0%nat).
  assert (Hi : In i ids) by (apply nth_In; auto). assert (Bi := BI i Hi). rewrite LZ.
  replace ((0 <=? Z.of_nat i) && (Z.of_nat i <? Z.of_nat (length M)))%Z with true by (symmetry; apply andb_true_iff; split; [apply Z.leb_le|apply Z.ltb_lt]; lia).
  rewrite Nat2Z.id. eexists. split; [reflexivity|].
  assert (Lr : length (nth i Z []) = cols) by (apply MZ, nth_In; lia).
  split; [rewrite upd_length; auto|]. split.
  { intros y Hy. destruct (In_nth _ _ [] Hy) as [u [Bu <-]]. rewrite upd_length in Bu. rewrite nth_upd. destruct ((i =? u)%nat && _); [rewrite upd_length; auto|apply MZ, nth_In; auto]. }
  split.
  - intros k' j' Bk' Bj'. set (i' := nth k' ids 0%nat). rewrite nth_upd. destruct (Nat.eqb_spec i i') as [Ei|Ni].
    + assert (k' = k) by (eapply NoDup_nth; eauto). subst k'. replace (i <? length Z)%nat with true by (symmetry; apply Nat.ltb_lt; lia). cbn [andb].
      rewrite nth_upd. rewrite Lr. destruct (Nat.eqb_spec j j') as [<-|Nj].
      * replace (j <? cols)%nat with true by (symmetry; apply Nat.ltb_lt; auto). cbn [andb]. rewrite <- Ec. destruct (in_dec Nat.eq_dec c (c :: done)) as [_|N]; auto. exfalso. apply N. left; auto.
      * cbn [andb]. unfold i. rewrite V by auto. destruct (in_dec Nat.eq_dec (k * cols + j')%nat done) as [I1|I1]; destruct (in_dec Nat.eq_dec (k * cols + j')%nat (c :: done)) as [I2|I2]; auto.
        { exfalso. apply I2. right; auto. } { destruct I2 as [E|I2]; [|contradiction]. exfalso. lia. }
    + cbn [andb]. unfold i'. rewrite V by auto. destruct (in_dec Nat.eq_dec (k' * cols + j')%nat done) as [I1|I1]; destruct (in_dec Nat.eq_dec (k' * cols + j')%nat (c :: done)) as [I2|I2]; auto.
      { exfalso. apply I2. right; auto. } { destruct I2 as [E|I2]; [|contradiction]. exfalso. assert (k = k') by nia. subst k'. apply Ni. auto. }
  - intros u Nu. rewrite nth_upd_neq; auto. intros ->. auto.
Qed.

Lemma assign_ok cells : Permutation cells (seq 0 (length ids * cols)) -> ids <> [] ->
  exists rows, gpu_assign_rows cells (map Z.of_nat ids) {| g_size := 4; g_cols := cols; g_rows := other |} {| g_size := 4; g_cols := cols; g_rows := M |} =
    Ok {| g_size := 4; g_cols := cols; g_rows := rows |} /\
    length rows = length M /\ (forall k, (k < length ids)%nat -> nth (nth k ids 0%nat) rows [] = nth k other []) /\
    (forall i, ~ In i ids -> nth i rows [] = nth i M []).
Proof.
  intros P NE. unfold gpu_assign_rows. destruct (map Z.of_nat ids) as [|z zs] eqn:Em; [destruct ids; [congruence|discriminate]|]. rewrite <- Em.
  cbn [g_cols g_size g_rows]. rewrite Nat.eqb_refl. cbn [negb orb Z.eqb].
  assert (EW : map wrap32 (map Z.of_nat ids) = map Z.of_nat ids).
  { rewrite map_map. apply map_ext_in. intros i Hi. apply wrap32_id. specialize (SM i Hi). lia. }
  rewrite EW. simpl (Z.eqb 4 4). cbn [negb orb].
  assert (G : forall cells done Z, NoDup (cells ++ done) -> (forall c, In c cells -> (c < length ids * cols)%nat) -> stored done Z ->
    exists Z', fold_res (gpu_store (map Z.of_nat ids) {| g_size := 4; g_cols := cols; g_rows := other |}) cells Z = Ok Z' /\ stored (rev cells ++ done) Z').
  { clear cells P. induction cells as [|c cells IH]; intros done Z NDc B ST; [exists Z; auto|]. cbn [fold_res]. cbn [app] in NDc. inversion NDc; subst.
    destruct (store_step 4 done Z c) as [Z1 [E1 S1]]; auto. { apply B; left; auto. } { intros X. apply H1. apply in_or_app. auto. }
    rewrite E1. cbn [bind]. destruct (IH (c :: done) Z1) as [Z' [E' S']]; auto.
    - apply (Permutation_NoDup (l := c :: cells ++ done)); auto. apply Permutation_middle.
    - intros; apply B; right; auto.
    - exists Z'. split; auto. cbn [rev]. rewrite <- app_assoc. exact S'. }
  destruct (G cells [] M) as [Z' [E' [L' [M' [V O]]]]].
  - rewrite app_nil_r. eapply Permutation_NoDup; [apply Permutation_sym; exact P|apply seq_NoDup].
  - intros c Hc. apply (Permutation_in _ P) in Hc. apply in_seq in Hc. lia.
  - split; auto.
  - rewrite E'. cbn [bind]. exists Z'. split; auto. split; auto. split; auto. intros k Bk.
    assert (L1 : length (nth (nth k ids 0%nat) Z' []) = cols). { apply M', nth_In. rewrite L'. apply BI, nth_In; auto. }
    assert (L2 : length (nth k other []) = cols) by (apply MO, nth_In; lia).
    apply nth_ext with (d := 0) (d' := 0); [congruence|]. intros j Bj. rewrite V by lia. rewrite app_nil_r.
    destruct (in_dec Nat.eq_dec (k * cols + j)%nat (rev cells)) as [|N]; auto. exfalso. apply N. rewrite <- in_rev. apply (Permutation_in _ (Permutation_sym P)). apply in_seq. nia.
Qed.
End Assign.
