(** The heap algorithms of libstdc++ (bits/stl_heap.h: [__push_heap], [__adjust_heap],
    [__pop_heap], [__sort_heap]), the library behind the calls of [std::push_heap],
    [std::pop_heap] and [std::sort_heap] in implicit/nearest_neighbours.h:20-33 and
    implicit/cpu/select.h:23-33.  The range is a list; an index outside of it reads [v]
    (never happens, see GnuHeapProofs). *)
From Coq Require Import List Arith Bool.
From Verif Require Import Base Heap.
Import ListNotations.

Section Algorithms.
Context {A : Type} (comp : A -> A -> bool).

(** [__push_heap(first, hole, 0, v)]: move the hole up while the parent is below [v].
    [fuel]: bound on the number of steps. *)
Fixpoint sift_up (fuel hole : nat) (v : A) (l : list A) : list A :=
  match fuel with
  | 0 => upd hole v l
  | S fuel =>
      if (0 <? hole) && comp (nth ((hole - 1) / 2) l v) v
      then sift_up fuel ((hole - 1) / 2) v (upd hole (nth ((hole - 1) / 2) l v) l)
      else upd hole v l
  end.

(** The first loop of [__adjust_heap] and the lines after it: move the hole down to a
    leaf along the larger children.  Returns the final hole and the range. *)
Fixpoint sift_down (fuel hole len : nat) (v : A) (l : list A) : nat * list A :=
  match fuel with
  | 0 => (hole, l)
  | S fuel =>
      if hole <? (len - 1) / 2 then
        let c := if comp (nth (2 * (hole + 1)) l v) (nth (2 * (hole + 1) - 1) l v)
                 then 2 * (hole + 1) - 1 else 2 * (hole + 1) in
        sift_down fuel c len v (upd hole (nth c l v) l)
      else if Nat.even len && (hole =? (len - 2) / 2)
      then (2 * (hole + 1) - 1, upd hole (nth (2 * (hole + 1) - 1) l v) l)
      else (hole, l)
  end.

(** [__adjust_heap(first, 0, len, v)] on the range [l] of length [len] >= 1. *)
Definition adjust_heap (v : A) (l : list A) : list A :=
  let r := sift_down (length l) 0 (length l) v l in sift_up (fst r) (fst r) v (snd r).

Definition gnu_push (l : list A) : list A :=
  match rev l with
  | [] => []
  | v :: _ => sift_up (length l - 1) (length l - 1) v l
  end.

(** [__pop_heap(first, last - 1, last - 1)] for at least two elements. *)
Definition gnu_pop (l : list A) : list A :=
  match l, rev l with
  | a :: _ :: _, v :: _ => adjust_heap v (removelast l) ++ [a]
  | _, _ => l
  end.

(** [__sort_heap]: pop prefixes of decreasing length. *)
Fixpoint gnu_sort (n : nat) (l : list A) : list A :=
  match n with
  | 0 => l
  | S m => gnu_sort m (gnu_pop (firstn (S m) l) ++ skipn (S m) l)
  end.
End Algorithms.

Definition gnu_heap : std_heap := {|
  push_heap := @gnu_push;
  pop_heap := @gnu_pop;
  sort_heap := fun A comp l => gnu_sort comp (length l) l
|}.
