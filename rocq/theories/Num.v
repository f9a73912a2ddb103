(** Numbers.  The model is written once over the operations of [Num]; the
    instances are [Z] and [Q] (to run the model) and [R] (to prove). *)
From Coq Require Import ZArith QArith Reals Bool Lia Lra List.
Import ListNotations.

Class Num (T : Type) : Type := {
  nzero : T;
  none_ : T;
  nadd : T -> T -> T;
  nsub : T -> T -> T;
  nmul : T -> T -> T;
  ndiv : T -> T -> T;
  nopp : T -> T;
  nltb : T -> T -> bool
}.

Definition nleb {T} `{Num T} (a b : T) : bool := negb (nltb b a).
Definition neqb {T} `{Num T} (a b : T) : bool := negb (nltb a b) && negb (nltb b a).

(** The only fact about [<] used by the ranking theorems: it is a strict weak
    order.  It holds for the reals, and for IEEE floats without NaN. *)
Class NumOrd (T : Type) `{Num T} : Prop := {
  nltb_irrefl : forall a, nltb a a = false;
  nltb_trans : forall a b c, nltb a b = true -> nltb b c = true -> nltb a c = true;
  nltb_cotrans : forall a b c, nltb a c = true -> nltb a b = true \/ nltb b c = true
}.

#[global] Instance Num_Z : Num Z := {|
  nzero := 0%Z; none_ := 1%Z; nadd := Z.add; nsub := Z.sub; nmul := Z.mul; ndiv := Z.div;
  nopp := Z.opp; nltb := Z.ltb |}.

(** Rationals are kept reduced so that runs stay small. *)
#[global] Instance Num_Q : Num Q := {|
  nzero := 0%Q; none_ := 1%Q;
  nadd := fun a b => Qred (a + b); nsub := fun a b => Qred (a - b);
  nmul := fun a b => Qred (a * b); ndiv := fun a b => Qred (a / b);
  nopp := fun a => Qred (- a);
  nltb := fun a b => negb (Qle_bool b a) |}.

Definition Rltb (a b : R) : bool := if Rlt_dec a b then true else false.

#[global] Instance Num_R : Num R := {|
  nzero := 0%R; none_ := 1%R; nadd := Rplus; nsub := Rminus; nmul := Rmult; ndiv := Rdiv;
  nopp := Ropp; nltb := Rltb |}.

#[global] Instance NumOrd_Z : NumOrd Z.
Proof. constructor; simpl; intros; rewrite ?Z.ltb_lt, ?Z.ltb_ge in *; try lia. Qed.

#[global] Instance NumOrd_Q : NumOrd Q.
Proof.
  constructor; simpl; intros; unfold Qle_bool in *;
  repeat rewrite ?negb_true_iff, ?negb_false_iff, ?Z.leb_le, ?Z.leb_gt in *.
  - lia.
  - nia.
  - destruct (Z.leb_spec (Qnum b * QDen a) (Qnum a * QDen b)); [right|left; lia].
    assert (0 < QDen a)%Z by lia. nia.
Qed.

#[global] Instance NumOrd_R : NumOrd R.
Proof.
  constructor; simpl; unfold Rltb; intros.
  - destruct (Rlt_dec a a); auto; lra.
  - destruct (Rlt_dec a b), (Rlt_dec b c), (Rlt_dec a c); auto; lra.
  - destruct (Rlt_dec a b), (Rlt_dec b c), (Rlt_dec a c); auto; lra.
Qed.

Section Ord.
Context {T} `{NumOrd T}.

Lemma nleb_refl a : nleb a a = true.
Proof. unfold nleb. rewrite nltb_irrefl. auto. Qed.

Lemma nleb_trans a b c : nleb a b = true -> nleb b c = true -> nleb a c = true.
Proof.
  unfold nleb. rewrite !negb_true_iff. intros A B. destruct (nltb c a) eqn:E; auto.
  destruct (nltb_cotrans c b a E); congruence.
Qed.

Lemma nleb_total a b : nleb a b = true \/ nleb b a = true.
Proof.
  unfold nleb. rewrite !negb_true_iff. destruct (nltb b a) eqn:E; auto.
  right. destruct (nltb a b) eqn:F; auto. pose proof (nltb_trans _ _ _ E F).
  rewrite nltb_irrefl in *. discriminate.
Qed.

Lemma nltb_nleb a b : nltb a b = true -> nleb a b = true.
Proof.
  intros. unfold nleb. destruct (nltb b a) eqn:F; auto. pose proof (nltb_trans _ _ _ H1 F).
  rewrite nltb_irrefl in *. discriminate.
Qed.

Lemma nltb_nleb_trans a b c : nltb a b = true -> nleb b c = true -> nltb a c = true.
Proof.
  unfold nleb. rewrite negb_true_iff. intros A B. destruct (nltb_cotrans a c b A); congruence.
Qed.

Lemma nleb_nltb_trans a b c : nleb a b = true -> nltb b c = true -> nltb a c = true.
Proof.
  unfold nleb. rewrite negb_true_iff. intros A B. destruct (nltb_cotrans b a c B); congruence.
Qed.

Lemma nleb_nltb_false a b : nleb a b = true <-> nltb b a = false.
Proof. unfold nleb. apply negb_true_iff. Qed.

End Ord.

(** [sum l] in program order, starting from zero (a C accumulation loop). *)
Definition nsum {T} `{Num T} (l : list T) : T := fold_left nadd l nzero.

(** Inner product, accumulated in order. *)
Definition ndot {T} `{Num T} (a b : list T) : T :=
  nsum (map (fun p => nmul (fst p) (snd p)) (combine a b)).
