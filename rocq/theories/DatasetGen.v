(** Model of the dataset generators and of what the get_* functions read back:
    implicit/datasets/{lastfm,reddit,sketchfab,million_song_dataset,movielens}.py.

    Text files are taken as parsed: a list of lines.  Labels are strings (lists of code points); columns that
    pandas would read as numbers are left out.  float32 casts are left out. *)
From Coq Require Import List Arith Bool ZArith.
From Verif Require Import Base Num Sparse.
Import ListNotations.

Definition str := list nat.
Fixpoint str_cmp (a b : str) : comparison :=
  match a, b with
  | [], [] => Eq
  | [], _ => Lt
  | _, [] => Gt
  | x :: a, y :: b => match x ?= y with Eq => str_cmp a b | c => c end
  end.

Section Model.
Context {T : Type} {NT : Num T}.

(* ------------------------------------------------------------------ pandas *)
(** One line of the source.  [None]: a label that pandas takes for a missing value. *)
Record line : Type := { l_user : option str; l_item : option str; l_value : T }.
(** astype("category"): the categories are the distinct values, sorted; a missing value has code -1. *)
Fixpoint insert_label (s : str) (l : list str) : list str :=
  match l with
  | [] => [s]
  | t :: r => match str_cmp s t with Eq => l | Lt => s :: l | Gt => t :: insert_label s r end
  end.
Definition categories (ls : list (option str)) : list str :=
  fold_left (fun c o => match o with Some s => insert_label s c | None => c end) ls [].
Fixpoint position (s : str) (l : list str) : nat :=
  match l with [] => 0 | t :: r => match str_cmp s t with Eq => 0 | _ => S (position s r) end end.
Definition code (cats : list str) (o : option str) : Z := match o with Some s => Z.of_nat (position s cats) | None => (-1)%Z end.

(* ------------------------------------------------------------------ scipy *)
(** A row of a csr matrix with sorted indices: adding one more entry. *)
Fixpoint add_to_row (c : nat) (v : T) (row : list (nat * T)) : list (nat * T) :=
  match row with
  | [] => [(c, v)]
  | (c', v') :: r => if c =? c' then (c', nadd v' v) :: r else if c <? c' then (c, v) :: row else (c', v') :: add_to_row c v r
  end.
Definition coo_row (es : list (nat * nat * T)) (r : nat) : list (nat * T) :=
  fold_left (fun row e => let '(r', c, v) := e in if r' =? r then add_to_row c v row else row) es [].
(** coo_matrix((values, (rows, cols))).tocsr(): the shape is the largest index plus one, repeated entries are added
    up (here in the order of the lines) and the indices sorted. *)
Definition coo_to_csr (es : list (Z * Z * T)) : res (csr T) :=
  match es with [] => Raise ValueError | _ =>
  if existsb (fun e => let '(r, c, _) := e in (r <? 0) || (c <? 0))%Z es then Raise ValueError else
  let ns := map (fun e => let '(r, c, v) := e in (Z.to_nat r, Z.to_nat c, v)) es in
  let rows := S (list_max (map (fun e => fst (fst e)) ns)) in
  let cols := S (list_max (map (fun e => snd (fst e)) ns)) in
  Ok (csr_of_rows cols (map (coo_row ns) (seq 0 rows))) end.
(** csr_matrix((data, indices, indptr)) without a shape. *)
Definition csr_of_arrays (data : list T) (indices indptr : list nat) : res (csr T) :=
  match indices with
  | [] => Raise ValueError
  | _ => Ok {| c_rows := length indptr - 1; c_cols := S (list_max indices); c_indptr := indptr; c_indices := indices; c_data := data |}
  end.

(* ------------------------------------------------------------------ files *)
(** h5py returns variable length strings as [bytes] unless asked for text. *)
Inductive label : Type := Text (s : str) | Bytes (s : str).
(** One song of the million song summary: track id, and the rest. *)
Definition song : Type := str * list str.
Record h5 : Type := { h_data : list T; h_indices : list nat; h_indptr : list nat;
                      h_items : list str; h_users : list str; h_tracks : list (option song) }.
Inductive source : Type := Lines (ls : list line) | Songs (ss : list song) | Hdf5 (h : h5).
Definition store := str -> option source.
Definition put (fs : store) (f : str) (s : source) : store := fun g => match str_cmp g f with Eq => Some s | _ => fs g end.
Definition read_lines (fs : store) (f : str) : res (list line) :=
  match fs f with Some (Lines l) => Ok l | Some _ => Raise ValueError | None => Raise FileNotFoundError end.

Inductive kind : Type := Lastfm | Reddit | Sketchfab.
(** The matrix: lastfm.py 74-79 (rows: users), reddit.py 70-75 (rows: items), sketchfab.py 64-69 (rows: items, every
    line counts one); million_song_dataset.py 108-113 (rows: tracks) is like reddit.py. *)
Definition matrix_of (k : kind) (ls : list line) : res (csr T) :=
  let users := categories (map l_user ls) in
  let items := categories (map l_item ls) in
  coo_to_csr (map (fun l => let u := code users (l_user l) in let i := code items (l_item l) in
                            match k with
                            | Lastfm => (u, i, l_value l)
                            | Sketchfab => (i, u, none_)
                            | Reddit => (i, u, l_value l)
                            end) ls).
(** million_song_dataset.py 86-103 [_join_summary_file]: the songs of the summary, by the position of their track. *)
Definition join_summary (items : list str) (songs : list song) : list (option song) :=
  fold_left (fun info s => if position (fst s) items <? length items then upd (position (fst s) items) (Some s) info else info) songs
            (repeat None (length items)).
Definition write_h5 (fs : store) (out : str) (m : csr T) (items users : list str) (tracks : list (option song)) : store :=
  put fs out (Hdf5 {| h_data := c_data m; h_indices := c_indices m; h_indptr := c_indptr m; h_items := items; h_users := users; h_tracks := tracks |}).
(** lastfm.py 34-94; reddit.py 38-82; sketchfab.py 39-84 [generate_dataset]. *)
Definition generate (k : kind) (fs : store) (f out : str) : store * res unit :=
  match (do ls <- read_lines fs f; do m <- matrix_of k ls; Ok (ls, m)) with
  | Raise e => (fs, Raise e)
  | Ok (ls, m) => (write_h5 fs out m (categories (map l_item ls)) (categories (map l_user ls)) [], Ok tt)
  end.
(** million_song_dataset.py 44-63 and 65-83: the lines are read from [triplets] ("train_triplets.txt" in the
    working directory, line 74), whatever the argument [f] says. *)
Definition generate_msd (triplets : str) (fs : store) (f summary out : str) : store * res unit :=
  match (do ls <- read_lines fs triplets;
         do ss <- match fs summary with Some (Songs ss) => Ok ss | Some _ => Raise ValueError | None => Raise FileNotFoundError end;
         do m <- matrix_of Reddit ls; Ok (ls, ss, m)) with
  | Raise e => (fs, Raise e)
  | Ok (ls, ss, m) =>
      (write_h5 fs out m [] (categories (map l_user ls)) (join_summary (categories (map l_item ls)) ss), Ok tt)
  end.

(* ------------------------------------------------------------------ reading back *)
(** What a get_* function returns: item labels, user labels (if any), and the matrix.
    lastfm.py 28-31, reddit.py 34-36, sketchfab.py 33-36. *)
Definition get_dataset (k : kind) (fs : store) (f : str) : res (option (list label) * option (list label) * csr T) :=
  match fs f with
  | Some (Hdf5 h) =>
      do m <- csr_of_arrays (h_data h) (h_indices h) (h_indptr h);
      Ok (match k with
          | Lastfm => (Some (map Text (h_items h)), Some (map Text (h_users h)), m)
          | Reddit => (None, None, m)
          | Sketchfab => (Some (map Bytes (h_items h)), Some (map Bytes (h_users h)), m)
          end)
  | Some _ => Raise ValueError
  | None => Raise FileNotFoundError
  end.
(** million_song_dataset.py 38-41 *)
Definition get_msd (fs : store) (f : str) : res (list (option song) * list label * csr T) :=
  match fs f with
  | Some (Hdf5 h) => do m <- csr_of_arrays (h_data h) (h_indices h) (h_indptr h); Ok (h_tracks h, map Bytes (h_users h), m)
  | Some _ => Raise ValueError
  | None => Raise FileNotFoundError
  end.

(* ------------------------------------------------------------------ movielens *)
(** movielens.py 42-45, 111-129: ids are used as indices as they are.  ([np.object], line 125, needs a numpy before 1.24;
    an entry without a title is stored as an empty string, here [None].)  [titles]: an object array filled by
    [titles[movies.movieId] = movies.title]; ids are not negative. *)
Definition movielens_titles (movies : list (nat * str)) : res (list (option str)) :=
  match movies with
  | [] => Raise ValueError
  | _ => Ok (fold_left (fun t m => upd (fst m) (Some (snd m)) t) movies (repeat None (S (list_max (map fst movies)))))
  end.
Definition movielens (ratings : list (nat * nat * T)) (movies : list (nat * str)) : res (list (option str) * csr T) :=
  do m <- coo_to_csr (map (fun e => let '(movie, user, v) := e in (Z.of_nat movie, Z.of_nat user, v)) ratings);
  do t <- movielens_titles movies;
  do m <- csr_of_arrays (c_data m) (c_indices m) (c_indptr m);
  Ok (t, m).
End Model.
Arguments line : clear implicits.
Arguments h5 : clear implicits.
Arguments source : clear implicits.
Arguments store : clear implicits.
