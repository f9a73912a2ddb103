(** Model of the BPR and LMF objects over time: factors and cached norms
    (implicit/cpu/bpr.pyx, lmf.pyx, matrix_factorization_base.py). *)
From Coq Require Import List Arith Lia Bool ZArith.
From Verif Require Import Base Num Heap Sparse TopkModel RecommendModel.
Import ListNotations.

Section State.
Context {T : Type} `{Num T}.
Local Notation mat := (list (list T)).

(** matrix_factorization_base.py:25-32 *)
Record mf_state : Type := { mX : option mat; mY : option mat; m_unorm : option (list T); m_inorm : option (list T) }.
Definition mf_fresh : mf_state := {| mX := None; mY := None; m_unorm := None; m_inorm := None |}.

Record mf_env : Type := { me_heap : std_heap; me_fmin : T; me_norm : list T -> T; me_tiny : T }.
Variable E : mf_env.

Inductive mquery : Type :=
| MRecommend (userid : idarg) (user_items : sparse_arg T) (N : Z) (filter_liked : bool) (filter_items : option arr)
             (recalculate : bool) (items : option arr)
| MSimilarUsers (id : idarg) (N : Z) (filter_users users : option arr)
| MSimilarItems (id : idarg) (N : Z) (filter_items items : option arr).

(** matrix_factorization_base.py:142-146 *)
Definition no_recalc (id : idarg) (M : csr T) : res mat := Raise NotImplementedError.
Definition m_answer (X Y : mat) (un inn : list T) (q : mquery) : res (out T) :=
  match q with
  | MRecommend u M N fl fi rc its => recommend (me_heap E) (me_fmin E) {| user_factors := X; item_factors := Y |} no_recalc u M N fl fi rc its
  | MSimilarUsers id N fi its => similar (me_heap E) (me_fmin E) X un id N fi its
  | MSimilarItems id N fi its => similar (me_heap E) (me_fmin E) Y inn id N fi its
  end.
(** matrix_factorization_base.py:148-151, 180-183, 232-246: similar_users reads the norms
    first, similar_items after the factors of the query have been looked up. *)
Definition fills_unorm (X : mat) (q : mquery) : bool := match q with MSimilarUsers _ _ _ _ => true | _ => false end.
Definition fills_inorm (Y : mat) (q : mquery) : bool :=
  match q with MSimilarItems id _ _ _ => match gather Y (id_list id) with Ok _ => true | Raise _ => false end | _ => false end.
Definition m_norms (cache : option (list T)) (F : mat) : list T :=
  match cache with Some v => v | None => norms_of (me_norm E) (me_tiny E) F end.
Definition m_query (s : mf_state) (q : mquery) : mf_state * res (out T) :=
  match mX s, mY s with
  | Some X, Some Y =>
      let un := m_norms (m_unorm s) X in
      let inn := m_norms (m_inorm s) Y in
      ({| mX := mX s; mY := mY s; m_unorm := if fills_unorm X q then Some un else m_unorm s;
          m_inorm := if fills_inorm Y q then Some inn else m_inorm s |}, m_answer X Y un inn q)
  | _, _ => (s, Raise TypeError)
  end.

(** The epochs: [steps] are the factors after each epoch, written into the same arrays;
    after each the callback makes its calls. *)
Fixpoint m_epochs (cb : nat -> list mquery) (epoch : nat) (steps : list (mat * mat)) (s : mf_state) : mf_state :=
  match steps with
  | [] => s
  | (X, Y) :: steps' =>
      let s1 := {| mX := Some X; mY := Some Y; m_unorm := m_unorm s; m_inorm := m_inorm s |} in
      m_epochs cb (S epoch) steps' (fold_left (fun s q => fst (m_query s q)) (cb epoch) s1)
  end.
(** bpr.pyx:122-206 ([invalidate]: line 176), lmf.pyx:112-199 (no such line); [X0], [Y0]:
    the factors when training starts. *)
Definition m_fit (invalidate : bool) (s : mf_state) (X0 Y0 : mat) (steps : list (mat * mat)) (cb : nat -> list mquery) : mf_state :=
  m_epochs cb 0 steps {| mX := Some X0; mY := Some Y0; m_unorm := if invalidate then None else m_unorm s;
                         m_inorm := if invalidate then None else m_inorm s |}.

Inductive mcall : Type :=
| MQuery (q : mquery)
| MFit (X0 Y0 : mat) (steps : list (mat * mat)) (cb : nat -> list mquery).
Definition m_call (invalidate : bool) (s : mf_state) (c : mcall) : mf_state :=
  match c with
  | MQuery q => fst (m_query s q)
  | MFit X0 Y0 steps cb => m_fit invalidate s X0 Y0 steps cb
  end.
Definition m_run (invalidate : bool) (cs : list mcall) : mf_state := fold_left (m_call invalidate) cs mf_fresh.
End State.
Arguments mf_state : clear implicits.
Arguments mf_env : clear implicits.
Arguments mquery : clear implicits.
Arguments mcall : clear implicits.
