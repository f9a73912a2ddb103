(** Model of AlternatingLeastSquares.explain (implicit/cpu/als.py:350-415). *)
From Coq Require Import List Arith Lia Bool ZArith Permutation Sorted.
From Verif Require Import Base Num Heap Sparse TopkModel RecommendModel AlsModel.
Import ListNotations.

(** Python's heapq (a min-heap on a list), as an arbitrary implementation of its
    documentation; the comparison is that of the elements. *)
Record heapq : Type := {
  heappush : forall A, (A -> A -> bool) -> list A -> A -> list A;
  heappushpop : forall A, (A -> A -> bool) -> list A -> A -> list A;   (* the heap afterwards *)
  heappop : forall A, (A -> A -> bool) -> list A -> option (A * list A)
}.
Arguments heappush _ {A} _ _ _.
Arguments heappushpop _ {A} _ _ _.
Arguments heappop _ {A} _ _.
Definition heapq_ok (Q : heapq) : Prop :=
  forall A (lt : A -> A -> bool), swo lt ->
    let heap := is_heap (fun a b => lt b a) in
    (forall h x, heap h -> Permutation (heappush Q lt h x) (x :: h) /\ heap (heappush Q lt h x)) /\
    (forall h x, heap h -> exists m, Permutation (m :: heappushpop Q lt h x) (x :: h) /\
       (forall y, In y (x :: h) -> lt y m = false) /\ heap (heappushpop Q lt h x)) /\
    heappop Q lt [] = None /\
    (forall a h, heap (a :: h) -> exists h', heappop Q lt (a :: h) = Some (a, h') /\ Permutation h' h /\ heap h').

Section Explain.
Context {T : Type} `{Num T} {W : Type}.

(** [(score, itemid)] tuples. *)
Local Notation contribution := (T * nat)%type.
Definition tuple_lt (a b : contribution) : bool :=
  if nltb (fst a) (fst b) then true else if nltb (fst b) (fst a) then false else snd a <? snd b.

(** als.py:395-411: the loop over the user's items. *)
Definition explain_step (Q : heapq) (Y : mat) (weighted : vec) (N : Z) (s : T * list contribution) (e : nat * T) : res (T * list contribution) :=
  let '(total, h) := s in
  if nltb (snd e) nzero then Ok s else
  do y <- np_row Y (fst e);
  let score := nmul (ndot weighted y) (snd e) in
  let total' := nadd total score in
  let c := (score, fst e) in
  Ok (total', if (Z.of_nat (length h) <? N)%Z then heappush Q tuple_lt h c else heappushpop Q tuple_lt h c).
(** als.py:413: [heappop] as many times as there are elements. *)
Fixpoint pop_all (Q : heapq) (k : nat) (h : list contribution) : list contribution :=
  match k with
  | O => []
  | S k' => match heappop Q tuple_lt h with Some (c, h') => c :: pop_all Q k' h' | None => [] end
  end.

(** als.py:379-415.  [cho_factor]/[cho_solve]: scipy's Cholesky routines ([None]:
    LinAlgError); a negative [userid] is not modelled.  The user's row is looked up in
    the matrix passed in. *)
Definition explain (Q : heapq) (cho_factor : mat -> option W) (cho_solve : W -> vec -> vec) (alpha reg : T) (n : nat) (YtY Y : mat)
  (userid : nat) (user_items : csr T) (itemid : Z) (user_weights : option W) (N : Z) : res (T * list (nat * T) * W) :=
  let M := apply_alpha alpha user_items in
  do w <- match user_weights with
          | Some w => Ok w
          | None => do row <- np_entries M userid;
                    do '(A, _) <- user_linear_equation Y YtY row reg n;
                    match cho_factor A with Some w => Ok w | None => Raise ValueError end
          end;
  do i <- np_index (length Y) itemid;
  let weighted := cho_solve w (nth i Y []) in
  do row <- np_entries M userid;
  do '(total, h) <- fold_res (explain_step Q Y weighted N) row (nzero, []);
  Ok (total, rev (map (fun c => (snd c, fst c)) (pop_all Q (length h) h)), w).
End Explain.
