(** C141, C142: what ALS training does not depend on: the starting user vectors (exact
    solver), users without interactions, items without interactions (refuted). *)
From Coq Require Import List Arith Lia Bool ZArith QArith Reals Lra.
From Verif Require Import Base Num Sparse TopkModel RecommendModel AlsModel AlsProofs AlsProofs2 AlsLoss EmptyProofs PosvImpl  PropAls.
Import ListNotations.
Local Open Scope nat_scope.

(* ------------------------------------------------------------------ C141 *)
(** Training with the exact solver, native or pure python, for at least one iteration:
    two runs on the same data whose user vectors start differently but whose item
    vectors start alike end in the same model (or fail in the same way). *)
Theorem C141_exact : forall {T} `{Num T} posv solve eps n o alpha reg k (M : csr T) X X' Y, use_cg o = false -> 1 <= k ->
  length X' = length X ->
  als_fit (als_solver posv solve eps n o) alpha reg k M X' Y = als_fit (als_solver posv solve eps n o) alpha reg k M X Y.
Proof.
  intros T HN posv solve eps n o alpha reg [|k] M X X' Y CG K L; [lia|]. unfold als_fit, als_solver. rewrite CG. cbn [als_iterate].
  destruct (use_native o).
  - unfold least_squares at 1 3. rewrite L. auto.
  - unfold least_squares_py at 1 3. rewrite L. auto.
Qed.
Print Assumptions C141_exact.

(** Two different starts, and training does succeed. *)
Definition c141_o : als_opts := {| use_cg := false; use_native := true; o_cg_steps := 3 |}.
Definition c141_X : list (list R) := [[5; 6]; [7; 8]; [9; 10]]%R.
Example C141_example : c141_X <> exX /\ length c141_X = length exX /\ forall k, 1 <= k -> exists UV,
  als_fit (als_solver posv_elim solve_sym 0%R 2 c141_o) 2%R (1/10)%R k exM exX exY = Ok UV /\
  als_fit (als_solver posv_elim solve_sym 0%R 2 c141_o) 2%R (1/10)%R k exM c141_X exY = Ok UV.
Proof.
  split; [intros E; injection E; intros; lra|]. split; auto. intros k K. destruct (C38_example k) as (UV & _ & E & _). exists UV. split; auto.
  rewrite <- E. apply C141_exact; auto.
Qed.
(** With conjugate gradients (the default) the start matters: one user, one item, two
    factors, the default three steps; the start [[1; 1]] has a part no interaction
    pulls at. *)
Example C141_cg : exists (M : csr Q) U U' V V', let cg := als_solver (fun _ _ => None) (fun _ _ => None) (1 # 100000000000000000000)%Q 2 {| use_cg := true; use_native := true; o_cg_steps := 3 |} in
  als_fit cg 1%Q 0%Q 1 M [[1; 1]]%Q [[1; 0]]%Q = Ok ([U], V) /\ als_fit cg 1%Q 0%Q 1 M [[1; 2]]%Q [[1; 0]]%Q = Ok ([U'], V') /\
  ~ (nth 1 U 0 == nth 1 U' 0)%Q.
Proof.
  exists (csr_of_rows 1 [[(0, 2%Q)]]). do 4 eexists. split; [vm_compute; reflexivity|]. split; [vm_compute; reflexivity|]. vm_compute. discriminate.
Qed.

(* ------------------------------------------------------------------ C142 *)
(** [M'] are the interactions [M] with [k] more users and [j] more items known, none of
    which takes part in any interaction. *)
Definition with_strangers {T} (k j : nat) (M M' : csr T) : Prop :=
  c_rows M' = c_rows M + k /\ c_cols M' = c_cols M + j /\
  forall u, u < c_rows M' -> csr_row M' u = if u <? c_rows M then csr_row M u else [].

(** Items nobody interacted with do influence the vectors of the others, through the
    random vector they start with: one user, one item, one factor, native conjugate
    gradients with the default three steps and regularization 0.01, one iteration; the
    same data with a second item. *)
Theorem C142_refuted : exists (M M' : csr Q) X Y y U U' V V', csr_wf M /\ csr_wf M' /\
  c_rows M' = c_rows M /\ c_cols M' = S (c_cols M) /\ csr_row M' 0 = csr_row M 0 /\ c_rows M = 1 /\
  let cg := als_solver (fun _ _ => None) (fun _ _ => None) (1 # 100000000000000000000)%Q 1 {| use_cg := true; use_native := true; o_cg_steps := 3 |} in
  als_fit cg 1%Q (1 # 100)%Q 1 M X Y = Ok ([[U]], V) /\ als_fit cg 1%Q (1 # 100)%Q 1 M' X (Y ++ [y]) = Ok ([[U']], V') /\ ~ (U == U')%Q.
Proof.
  exists (csr_of_rows 1 [[(0, 2%Q)]]), (csr_of_rows 2 [[(0, 2%Q)]]), [[1%Q]], [[1%Q]], [1%Q]. do 4 eexists.
  split; [apply csr_of_rows_wf; intros r p [<-|[]] [<-|[]]; simpl; lia|]. split; [apply csr_of_rows_wf; intros r p [<-|[]] [<-|[]]; simpl; lia|].
  split; [reflexivity|]. split; [reflexivity|]. split; [reflexivity|]. split; [reflexivity|].
  split; [vm_compute; reflexivity|]. split; [vm_compute; reflexivity|]. vm_compute. discriminate.
Qed.
Print Assumptions C142_refuted.

(** What holds, for the native solvers (exact and conjugate gradient): users without
    interactions never influence the others, whatever vectors [E] they start with; items
    without interactions do not if their vectors start as zeros.  All of them end as zeros. *)
Theorem C142_partial : forall posv solve eps n o alpha reg it k j (M M' : csr R) X E Y, use_native o = true ->
  csr_wf M -> csr_wf M' -> with_strangers k j M M' -> 1 <= it -> length X = c_rows M -> length E = k -> length Y = c_cols M ->
  match als_fit (als_solver posv solve eps n o) alpha reg it M X Y,
        als_fit (als_solver posv solve eps n o) alpha reg it M' (X ++ E) (Y ++ repeat (repeat 0%R n) j) with
  | Ok (U, V), Ok (U', V') => U' = U ++ repeat (repeat 0%R n) k /\ V' = V ++ repeat (repeat 0%R n) j
  | Raise e, Raise e' => e' = e
  | _, _ => False
  end.
Proof.
  intros posv solve eps n o alpha reg it k j M M' X E Y NV W W' (ER & EC & ES) H1 LX LE LY.
  assert (HE : enlarged k j M M').
  { split; auto. split; auto. split; intros u Hu; rewrite ES by lia; destruct (Nat.ltb_spec u (c_rows M)); auto; lia. }
  pose proof (fit_more posv solve eps n o alpha reg it k j M M' X E Y NV W W' HE H1 LX LE LY) as F.
  destruct (als_fit (als_solver posv solve eps n o) alpha reg it M X Y) as [[U V]|e]; cbn [bind] in F;
  match goal with |- match ?x with _ => _ end => assert (F' : x = _) by exact F; rewrite F' end; auto.
Qed.
Print Assumptions C142_partial.

(** Two users join [exM] with vectors of their own, and one item. *)
Definition c142_M : csr R := csr_of_rows 4 [ex_row; []; [(1, 2%R)]; []; []].
Example C142_example : with_strangers 2 1 exM c142_M /\ csr_wf exM /\ csr_wf c142_M /\ exists U V,
  als_fit (als_solver posv_elim solve_sym 0%R 2 c141_o) 2%R (1/10)%R 3 exM exX exY = Ok (U, V) /\
  als_fit (als_solver posv_elim solve_sym 0%R 2 c141_o) 2%R (1/10)%R 3 c142_M (exX ++ [[5; 6]; [7; 8]]%R) (exY ++ [[0; 0]]%R) =
    Ok (U ++ [[0; 0]; [0; 0]]%R, V ++ [[0; 0]]%R).
Proof.
  assert (HS : with_strangers 2 1 exM c142_M).
  { split; [reflexivity|]. split; [reflexivity|]. intros u Hu. unfold c142_M, exM. rewrite !csr_row_of_rows. 
    do 5 (destruct u as [|u]; [reflexivity|]). vm_compute in Hu. lia. }
  assert (W : csr_wf exM) by apply exM_canonical.
  assert (W' : csr_wf c142_M).
  { apply csr_of_rows_wf. intros r p Hr Hp. simpl in Hr. unfold ex_row in Hr.
    repeat (destruct Hr as [<-|Hr]; [simpl in Hp; repeat (destruct Hp as [<-|Hp]; [simpl; lia|]); tauto|]). tauto. }
  split; auto. split; auto. split; auto. destruct (C38_example 3) as ([U V] & _ & E & _). exists U, V. split; [exact E|].
  pose proof (C142_partial posv_elim solve_sym 0%R 2 c141_o 2%R (1/10)%R 3 2 1 exM c142_M exX [[5; 6]; [7; 8]]%R exY eq_refl W W' HS ltac:(lia) eq_refl eq_refl eq_refl) as P.
  change {| use_cg := false; use_native := true; o_cg_steps := 3 |} with c141_o in E. rewrite E in P. simpl repeat in P.
  destruct (als_fit _ _ _ _ c142_M _ _) as [[U' V']|]; [|tauto]. destruct P as [-> ->]. reflexivity.
Qed.
