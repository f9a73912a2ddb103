(** The reported training loss in the precisions the code uses (implicit/cpu/_als.pyx:251-308). *)
From Coq Require Import List Arith ZArith Bool Permutation.
From Coq Require Import Floats.SpecFloat.
From Verif Require Import Base Num Sparse AlsModel FloatModel.
Import ListNotations.

Section Loss.
(** [T]: the type of the factors ([floating]); [D]: C doubles; [conv]: the conversion from one to the other. *)
Context {T D : Type} `{Num T} `{Num D}.
Variable conv : T -> D.

(** _als.pyx:273-295, the body of the loop over the users: the confidences in the order in which they are added to
    [loss] and to [total_confidence], what is added to [loss] after them, and what is added to [user_norm].
    All of this is computed in [floating].  BLAS sums are in the order of the factors. *)
Definition loss_terms (YtY Y : list (list T)) (row : list (nat * T)) (x : list T) : res (list T * T * T) :=
  do '(r, cs) <- fold_res (fun s e =>
      let '(r, cs) := s in
      do y <- raw_row Y (fst e);
      let c := conf_abs (snd e) in
      let t0 := if nltb nzero (snd e) then nmul (nopp (nadd none_ none_)) (snd e) else nzero in
      let t := nadd t0 (nmul (nsub c none_) (ndot y x)) in
      Ok (axpy t y r, cs ++ [c])) row (symv none_ YtY x, []);
  Ok (cs, ndot r x, ndot x x).

(** _als.pyx:251-308.  [sum]: how the OpenMP reductions of the double accumulators ([loss], [total_confidence],
    [user_norm], [item_norm]) add up their terms.  [regularization] is a C float.  The division is one of Python
    objects.  [of_nat] converts the counts. *)
Definition calculate_loss_mixed (sum : list D -> D) (of_nat : nat -> D) (n : nat) (Cui : csr T) (X Y : list (list T)) (reg : T) : res D :=
  let YtY := gram n Y in
  do parts <- map_res (fun u => do row <- raw_entries Cui u; do x <- raw_row X u; loss_terms YtY Y row x) (seq 0 (length X));
  let loss := sum (flat_map (fun p => map conv (fst (fst p) ++ [snd (fst p)])) parts) in
  let total := sum (flat_map (fun p => map conv (fst (fst p))) parts) in
  let user_norm := sum (map (fun p => conv (snd p)) parts) in
  let item_norm := sum (map (fun y => conv (ndot y y)) Y) in
  c_div (nadd loss (nmul (conv reg) (nadd item_norm user_norm)))
        (nsub (nadd total (of_nat (c_rows Cui * c_cols Cui))) (of_nat (nth (c_rows Cui) (c_indptr Cui) 0))).

(** A way of adding up a list with at most [d] additions on top of each other. *)
Inductive added : nat -> list D -> D -> Prop :=
| added_none : added 0 [] nzero
| added_one x : added 0 [x] x
| added_two d d' l l' s s' : added d l s -> added d' l' s' -> added (S (Nat.max d d')) (l ++ l') (nadd s s')
| added_perm d l l' s : added d l s -> Permutation l l' -> added d l' s.
(** The reductions of [t] threads: any order, any partial sums; every thread and the total start at zero. *)
Definition reduction (t : nat) (sum : list D -> D) : Prop := forall l, exists d, d <= length l + t /\ added d l (sum l).
(** In particular the terms dealt to the threads in any way ([schedule='dynamic']), the partial sums of the threads
    added up in some order. *)
Definition omp_sum (deal : list D -> list (list D)) (l : list D) : D := nsum (map nsum (deal l)).
End Loss.

(** IEEE double precision. *)
Definition f64 : Type := spec_float.
Definition f64_prec : Z := 53.
Definition f64_emax : Z := 1024.
Definition f64_of_Z (z : Z) : f64 := binary_normalize f64_prec f64_emax z 0 false.
Definition Num_f64 : Num f64 := {|
  nzero := S754_zero false; none_ := f64_of_Z 1;
  nadd := SFadd f64_prec f64_emax; nsub := SFsub f64_prec f64_emax; nmul := SFmul f64_prec f64_emax; ndiv := SFdiv f64_prec f64_emax;
  nopp := SFopp; nltb := SFltb |}.
(** A C float as a C double. *)
Definition f64_of_f32 (x : f32) : f64 :=
  match x with S754_finite s m e => binary_normalize f64_prec f64_emax (cond_Zopp s (Zpos m)) e s | _ => x end.
