(** Vectors and sums over the reals. *)
From Coq Require Import List Arith Lia Bool Reals Lra Psatz.
From Verif Require Import Base Num.
Import ListNotations.
Local Open Scope R_scope.

(** Recursive sum and inner product. *)
Fixpoint rsum (l : list R) : R := match l with [] => 0 | x :: l => x + rsum l end.
Fixpoint rdot (x y : list R) : R :=
  match x, y with a :: x, b :: y => a * b + rdot x y | _, _ => 0 end.

Lemma fold_left_rsum l a : fold_left nadd l a = a + rsum l.
Proof. revert a; induction l; intros; simpl in *. { lra. } rewrite IHl. simpl. lra. Qed.

Lemma nsum_rsum (l : list R) : nsum l = rsum l.
Proof. unfold nsum. rewrite fold_left_rsum. simpl. lra. Qed.

Lemma ndot_rdot (x y : list R) : ndot x y = rdot x y.
Proof.
  unfold ndot. rewrite nsum_rsum. revert y; induction x; intros [|b y]; simpl; auto.
  rewrite IHx. auto.
Qed.

Lemma rsum_app l l' : rsum (l ++ l') = rsum l + rsum l'.
Proof. induction l; simpl; lra. Qed.

Lemma rsum_perm l l' : Permutation.Permutation l l' -> rsum l = rsum l'.
Proof. induction 1; simpl; lra. Qed.

Lemma rsum_map_add {A} (f g : A -> R) l : rsum (map (fun x => f x + g x) l) = rsum (map f l) + rsum (map g l).
Proof. induction l; simpl; lra. Qed.
Lemma rsum_map_sub {A} (f g : A -> R) l : rsum (map (fun x => f x - g x) l) = rsum (map f l) - rsum (map g l).
Proof. induction l; simpl; lra. Qed.
Lemma rsum_map_scale {A} c (f : A -> R) l : rsum (map (fun x => c * f x) l) = c * rsum (map f l).
Proof. induction l; simpl; lra. Qed.
Lemma rsum_map_const {A} c (l : list A) : rsum (map (fun _ => c) l) = INR (length l) * c.
Proof.
  induction l; [simpl; lra|]. change (length (a :: l)) with (S (length l)). rewrite S_INR.
  cbn [map rsum]. lra.
Qed.
Lemma rsum_map_ext {A} (f g : A -> R) l : (forall x, In x l -> f x = g x) -> rsum (map f l) = rsum (map g l).
Proof. intros. f_equal. apply map_ext_in; auto. Qed.
Lemma rsum_nonneg l : (forall x, In x l -> 0 <= x) -> 0 <= rsum l.
Proof.
  induction l; simpl; intros X; [lra|]. assert (0 <= a) by (apply X; auto).
  assert (0 <= rsum l) by (apply IHl; intros; apply X; auto). lra.
Qed.
Lemma rsum_le {A} (f g : A -> R) l : (forall x, In x l -> f x <= g x) -> rsum (map f l) <= rsum (map g l).
Proof.
  induction l; simpl; intros X; [lra|]. assert (f a <= g a) by (apply X; auto).
  assert (rsum (map f l) <= rsum (map g l)) by (apply IHl; intros; apply X; auto). lra.
Qed.
Lemma rsum_zero l : (forall x, In x l -> x = 0) -> rsum l = 0.
Proof. induction l; simpl; intros X; [lra|]. rewrite (X a), IHl; auto; lra. Qed.
Lemma rsum_swap {A B} (f : A -> B -> R) l l' :
  rsum (map (fun a => rsum (map (f a) l')) l) = rsum (map (fun b => rsum (map (fun a => f a b) l)) l').
Proof.
  induction l; simpl.
  - rewrite rsum_map_const. ring.
  - rewrite IHl, <- rsum_map_add. auto.
Qed.

Lemma rdot_comm x y : rdot x y = rdot y x.
Proof. revert y; induction x; destruct y; simpl; auto. rewrite IHx. ring. Qed.
Lemma rdot_nil_r x : rdot x [] = 0.
Proof. destruct x; auto. Qed.
Lemma rdot_nonneg x : 0 <= rdot x x.
Proof. induction x; simpl; [lra|]. nra. Qed.

(** Componentwise operations. *)
Fixpoint vadd (x y : list R) : list R :=
  match x, y with a :: x, b :: y => (a + b) :: vadd x y | _, _ => [] end.
Fixpoint vsub (x y : list R) : list R :=
  match x, y with a :: x, b :: y => (a - b) :: vsub x y | _, _ => [] end.
Definition vscale (c : R) (x : list R) : list R := map (fun a => c * a) x.

Lemma vadd_length x y : length x = length y -> length (vadd x y) = length x.
Proof. revert y; induction x; destruct y; simpl; intros; auto; try discriminate. Qed.
Lemma vsub_length x y : length x = length y -> length (vsub x y) = length x.
Proof. revert y; induction x; destruct y; simpl; intros; auto; try discriminate. Qed.
Lemma vscale_length c x : length (vscale c x) = length x.
Proof. apply map_length. Qed.

Lemma rdot_vadd_l x y z : length x = length y -> rdot (vadd x y) z = rdot x z + rdot y z.
Proof.
  revert y z; induction x; destruct y; simpl; intros z L; try discriminate; [lra|].
  destruct z; simpl; [lra|]. rewrite IHx by lia. ring.
Qed.
Lemma rdot_vsub_l x y z : length x = length y -> rdot (vsub x y) z = rdot x z - rdot y z.
Proof.
  revert y z; induction x; destruct y; simpl; intros z L; try discriminate; [lra|].
  destruct z; simpl; [lra|]. rewrite IHx by lia. ring.
Qed.
Lemma rdot_vscale_l c x z : rdot (vscale c x) z = c * rdot x z.
Proof. revert z; induction x; destruct z; simpl; try lra. rewrite IHx. ring. Qed.

Lemma cauchy_schwarz x y : rdot x y * rdot x y <= rdot x x * rdot y y.
Proof.
  revert y; induction x as [|a x IH]; intros y; simpl; [lra|]. destruct y as [|b y]; simpl; [lra|].
  specialize (IH y). pose proof (rdot_nonneg x) as X. pose proof (rdot_nonneg y) as Y.
  set (s := rdot x y) in *. set (p := rdot x x) in *. set (q := rdot y y) in *.
  (* 2 a b s <= a^2 q + b^2 p *)
  assert (K : 2 * (a * b) * s <= a * a * q + b * b * p).
  { pose (sp := sqrt p). pose (sq := sqrt q).
    assert (Ep : sp * sp = p) by (apply sqrt_sqrt; auto).
    assert (Eq : sq * sq = q) by (apply sqrt_sqrt; auto).
    assert (P0 : 0 <= sp) by apply sqrt_pos. assert (Q0 : 0 <= sq) by apply sqrt_pos.
    assert (S1 : Rabs s <= sp * sq).
    { apply Rsqr_incr_0_var; [|nra]. rewrite <- Rsqr_abs. unfold Rsqr. nra. }
    assert (S2 : (a * b) * s <= Rabs (a * b) * Rabs s).
    { rewrite <- Rabs_mult. apply Rle_abs. }
    assert (S3 : Rabs (a * b) * Rabs s <= Rabs (a * b) * (sp * sq)).
    { apply Rmult_le_compat_l; auto. apply Rabs_pos. }
    rewrite Rabs_mult in *.
    assert (A2 : Rabs a * Rabs a = a * a) by (rewrite <- Rabs_mult; apply Rabs_right; nra).
    assert (B2 : Rabs b * Rabs b = b * b) by (rewrite <- Rabs_mult; apply Rabs_right; nra).
    pose proof (Rle_0_sqr (Rabs a * sq - Rabs b * sp)) as SQ. unfold Rsqr in SQ.
    replace (a * a * q + b * b * p) with ((Rabs a * Rabs a) * (sq * sq) + (Rabs b * Rabs b) * (sp * sp)) by (rewrite A2, B2, Ep, Eq; ring).
    lra. }
  nra.
Qed.

Lemma rdot_zero x : rdot x x = 0 -> forall a, In a x -> a = 0.
Proof.
  induction x; simpl; intros E b; [intros []|]. pose proof (rdot_nonneg x).
  assert (a * a = 0) by nra. assert (rdot x x = 0) by nra.
  intros [<-|I]; [nra|auto].
Qed.

Lemma rdot_all_zero x y : (forall a, In a x -> a = 0) -> rdot x y = 0.
Proof.
  revert y; induction x; destruct y; simpl; intros; auto. rewrite IHx by auto.
  rewrite (H a) by auto. lra.
Qed.
