(** Model of the example scripts examples/lastfm.py and examples/movielens.py: what they write, given the fitted model.

    [ask] stands for the call of the fitted model (similar_items or recommend) on a batch; labels are an abstract
    type; formatting a line is left out; progress bars, logging and timing are left out. *)
From Coq Require Import List Arith Bool ZArith.
From Verif Require Import Base Num Sparse TopkModel.
Import ListNotations.

Section Model.
Context {T : Type} {NT : Num T} {A : Type}.
(** One line of the output: name, other name, score. *)
Definition line : Type := A * A * T.
Definition asking : Type := list nat -> res (list (list Z) * list (list T)).
(** What is in the file when the script ends, normally or by the first exception. *)
Fixpoint emit (ls : list (res line)) : list line * res unit :=
  match ls with
  | [] => ([], Ok tt)
  | Ok l :: ls => let (w, r) := emit ls in (l :: w, r)
  | Raise e :: _ => ([], Raise e)
  end.
(** [names[z]] of a numpy array: negative indices count from the end. *)
Definition label (names : list A) (z : Z) : res A :=
  do i <- np_index (length names) z;
  match nth_error names i with Some a => Ok a | None => Raise IndexError end.
(** lastfm.py 110-113, 149-152; movielens.py 93-97: the lines of one row of the answer. *)
Definition row_lines (name : res A) (names : list A) (ids : option (list Z)) (scores : option (list T)) : list (res line) :=
  match name, ids, scores with
  | Ok a, Some ids, Some scores => map (fun p => do b <- label names (fst p); Ok (a, b, snd p)) (combine ids scores)
  | Raise e, _, _ => [Raise e]
  | _, _, _ => [Raise IndexError]
  end.
(** lastfm.py 106-113, 144-152; movielens.py 87-97: one batch. *)
Definition batch_lines (ask : asking) (keep : nat -> bool) (rows names : list A) (batch : list nat) : list (res line) :=
  match ask batch with
  | Raise e => [Raise e]
  | Ok (ids, scores) =>
      flat_map (fun p => if keep (snd p) then row_lines (label rows (Z.of_nat (snd p))) names (nth_error ids (fst p)) (nth_error scores (fst p)) else [])
               (enum batch)
  end.
(** [for startidx in range(0, len(l), batch_size): l[startidx : startidx + batch_size]]; [fuel]: at most [length l] batches. *)
Fixpoint batches (fuel bs : nat) (l : list nat) : list (list nat) :=
  match fuel, l with
  | _, [] => []
  | O, _ => []
  | S fuel, _ => firstn bs l :: batches fuel bs (skipn bs l)
  end.
Definition write_all (bs : nat) (ask : asking) (keep : nat -> bool) (rows names : list A) (order : list nat) : list line * res unit :=
  emit (flat_map (batch_lines ask keep rows names) (batches (length order) bs order)).
Definition example_batch : nat := 1000.

(** lastfm.py 96, movielens.py 80: [np.ediff1d(m.indptr)]. *)
Definition entry_counts (m : csr T) : list nat :=
  map (fun i => nth (S i) (c_indptr m) 0 - nth i (c_indptr m) 0) (seq 0 (length (c_indptr m) - 1)).
(** lastfm.py 97, movielens.py 81: [sorted(np.arange(n), key=lambda x: -user_count[x])], a stable sort; the key of an index
    past the end raises. *)
Fixpoint insert_popular (key : nat -> nat) (x : nat) (l : list nat) : list nat :=
  match l with [] => [x] | y :: r => if key y <? key x then x :: l else y :: insert_popular key x r end.
Definition by_popularity (n : nat) (counts : list nat) : res (list nat) :=
  if length counts <? n then Raise IndexError else
  Ok (fold_left (fun l x => insert_popular (fun i => nth i counts 0) x l) (seq 0 n) []).

(** lastfm.py 93-114: after fitting; the file ([None]: not opened) and how the script ends. *)
Definition similar_artists (artists : list A) (plays : csr T) (ask : asking) : option (list line) * res unit :=
  match by_popularity (length artists) (entry_counts plays) with
  | Raise e => (None, Raise e)
  | Ok order => let w := write_all example_batch ask (fun _ => true) artists artists order in (Some (fst w), snd w)
  end.
(** lastfm.py 138-153. *)
Definition artist_recommendations (artists users : list A) (ask : asking) : option (list line) * res unit :=
  let w := write_all example_batch ask (fun _ => true) users artists (seq 0 (length users)) in (Some (fst w), snd w).

(** movielens.py 44-46: ratings below [min_rating] are set to zero and dropped, all others become one. *)
Definition binarise (min_rating : T) (m : csr T) : csr T :=
  csr_of_rows (c_cols m) (map (fun u =>
    map (fun p => (fst p, none_))
        (filter (fun p => negb (neqb (snd p) nzero)) (map (fun p => (fst p, if nltb (snd p) min_rating then nzero else snd p)) (csr_row m u))))
    (seq 0 (c_rows m))).
(** movielens.py 79-98: [ratings] is the matrix of line 46 (weighting it, line 55, keeps the pattern). *)
Definition similar_movies (titles : list A) (ratings : csr T) (ask : asking) : option (list line) * res unit :=
  match by_popularity (length titles) (entry_counts ratings) with
  | Raise e => (None, Raise e)
  | Ok order =>
      let w := write_all example_batch ask
                 (fun i => negb (nth i (c_indptr ratings) 0 =? nth (S i) (c_indptr ratings) 0)) titles titles order in
      (Some (fst w), snd w)
  end.
End Model.
