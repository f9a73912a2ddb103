(** Model of implicit/cpu/matrix_factorization_base.py and
    implicit/recommender_base.py (rank_items). *)
From Coq Require Import List Arith Lia Bool ZArith.
From Verif Require Import Base Num Heap Sparse TopkModel.
Import ListNotations.

(** A userid / itemid argument: a scalar ([np.isscalar]) or an array. *)
Inductive idarg : Type := Scalar (z : Z) | Batch (zs : list Z).

(** An array_like argument: a Python list or a 1-d integer ndarray (they differ
    in truth value). *)
Inductive arr : Type := PyList (l : list Z) | NdArray (l : list Z).
Definition arr_list (a : arr) : list Z := match a with PyList l | NdArray l => l end.

(** [if x:] for an optional array_like argument.  An ndarray with two or more
    elements has no truth value (ValueError); an empty one is false. *)
Definition truthy (a : option arr) : res bool :=
  match a with
  | None => Ok false
  | Some (PyList l) => Ok (negb (length l =? 0))
  | Some (NdArray []) => Ok false
  | Some (NdArray [x]) => Ok (negb (x =? 0)%Z)
  | Some (NdArray _) => Raise ValueError
  end.

(** [ndarray.sort()] on integers. *)
Definition sort_z (l : list Z) : list Z := sort_by (fun x y => (y <? x)%Z) l.

(** [a.max() >= n or a.min() < 0]: ValueError on an empty array. *)
Definition out_of_model (n : nat) (l : list Z) : res bool :=
  match l with
  | [] => Raise ValueError
  | _ => Ok (existsb (fun z => (Z.of_nat n <=? z)%Z || (z <? 0)%Z) l)
  end.

(** [np.searchsorted(items, c)] (side="left") on a sorted array: the number of
    elements below [c]. *)
Definition searchsorted (items : list Z) (c : Z) : nat :=
  length (filter (fun x => (x <? c)%Z) items).

Section Model.
Context {T : Type} `{Num T}.

(** [user_items] argument: anything that is not a [csr_matrix] is rejected when used. *)
Inductive sparse_arg : Type := NotCsr | Csr (m : csr T).

(** Fitted factors (matrix_factorization_base.py:25-32). *)
Record mf : Type := { user_factors : list (list T); item_factors : list (list T) }.

(** Result of recommend / similar_*: 1-d arrays for a scalar query, 2-d otherwise. *)
Inductive out : Type :=
| OneRow (ids : list Z) (scores : list T)
| ManyRows (ids : list (list Z)) (scores : list (list T)).

(** numpy [arr[index]] on the rows of a matrix, for scalar or array index. *)
Definition gather (rows : list (list T)) (zs : list Z) : res (list (list T)) :=
  map_res (fun z => do i <- np_index (length rows) z; Ok (nth i rows [])) zs.
Definition id_list (u : idarg) : list Z := match u with Scalar z => [z] | Batch zs => zs end.

(** matrix_factorization_base.py:255-266 [_filter_items_from_sparse_matrix]:
    each stored entry is moved to the position of its column in [items]; entries
    whose column is absent are set to 0; zero entries (also those stored as
    explicit zeros) are dropped.  Merging of duplicate positions by tocsr() is
    not modelled (only the set of columns is used afterwards). *)
Definition filter_items_from_sparse_matrix (items : list Z) (q : csr T) : csr T :=
  let entry (p : nat * T) :=
    let pos := Nat.min (searchsorted items (Z.of_nat (fst p))) (length items - 1) in
    if negb (nth pos items 0 =? Z.of_nat (fst p))%Z then (pos, nzero) else (pos, snd p) in
  csr_of_rows (c_cols q)
    (map (fun row => filter (fun p => negb (neqb (snd p) nzero)) (map entry row)) (csr_to_rows q)).

(** matrix_factorization_base.py:132-135 [_user_factor]; [recalc] is the model's
    recalculate_user method (base class: NotImplementedError, line 142-143). *)
Definition user_factor (m : mf) (recalc : idarg -> csr T -> res (list (list T)))
    (userid : idarg) (user_items : sparse_arg) (recalculate_user : bool) : res (list (list T)) :=
  if recalculate_user then
    match user_items with Csr M => recalc userid M | NotCsr => Raise ValueError end
  else gather (user_factors m) (id_list userid).

(** matrix_factorization_base.py:142-143. *)
Definition no_recalc (userid : idarg) (user_items : csr T) : res (list (list T)) :=
  Raise NotImplementedError.

(** Lines 57-68: restriction to an explicit list of items: the sorted items and
    the gathered factors.  [np.array([])] has dtype float64 and cannot be used as
    an index (IndexError); an empty integer ndarray fails in [max] (ValueError). *)
Definition restrict_items (m : mf) (filter_items : option arr) (items : arr)
  : res (list Z * list (list T)) :=
  do b <- truthy filter_items;
  if b : bool then Raise ValueError else
  match items with
  | PyList [] => Raise IndexError
  | _ =>
    let its := sort_z (arr_list items) in
    do facs <- gather (item_factors m) its;
    do bad <- out_of_model (length (item_factors m)) its;
    if bad : bool then Raise IndexError else Ok (its, facs)
  end.

(** The final shape of a result: [ids[0], scores[0]] for scalar queries (lines 88-89),
    and the remap [ids = items[ids]] (lines 92-93). *)
Definition remap (items : option (list Z)) (row : list nat) : list Z :=
  match items with
  | None => map Z.of_nat row
  | Some its => map (fun p => nth p its 0%Z) row
  end.
Definition finish (userid : idarg) (items : option (list Z)) (r : list (list nat) * list (list T)) : out :=
  match userid with
  | Scalar _ => OneRow (remap items (nth 0 (fst r) [])) (nth 0 (snd r) [])
  | Batch _ => ManyRows (map (remap items) (fst r)) (snd r)
  end.

(** matrix_factorization_base.py:34-95 [recommend]. *)
Definition recommend (H : std_heap) (fmin : T) (m : mf)
    (recalc : idarg -> csr T -> res (list (list T)))
    (userid : idarg) (user_items : sparse_arg) (N : Z) (filter_already_liked_items : bool)
    (filter_items : option arr) (recalculate_user : bool) (items : option arr) : res out :=
  do _ <- (if filter_already_liked_items || recalculate_user then
             match user_items with
             | NotCsr => Raise ValueError
             | Csr M => if c_rows M =? length (id_list userid) then Ok tt else Raise ValueError
             end
           else Ok tt);
  do user <- user_factor m recalc userid user_items recalculate_user;
  do sel <- (match items with
             | None => Ok (N, None, item_factors m)
             | Some its =>
                 do r <- restrict_items m filter_items its;
                 Ok (Z.min N (Z.of_nat (length (arr_list its))), Some (fst r), snd r)
             end);
  let '(N, its, facs) := sel in
  let fq := if filter_already_liked_items then
              match user_items with
              | NotCsr => None
              | Csr M => Some (match its with
                               | None => M
                               | Some l => filter_items_from_sparse_matrix l M
                               end)
              end
            else None in
  do r <- topk H fmin facs user N None fq (option_map arr_list filter_items);
  Ok (finish userid its r).

(** matrix_factorization_base.py:97-128 [recommend_all]; returns the ids only.
    [users_items_offset] is a natural number. *)
Definition recommend_all (H : std_heap) (fmin : T) (m : mf)
    (recalc : idarg -> csr T -> res (list (list T)))
    (user_items : csr T) (N : Z) (recalculate_user filter_already_liked_items : bool)
    (filter_items : option arr) (offset : nat) : res (list (list Z)) :=
  let userids := map (fun i => Z.of_nat (i + offset)) (seq 0 (c_rows user_items)) in
  let user_items :=
    if offset =? 0 then user_items
    else csr_of_rows (c_cols user_items) (repeat [] offset ++ csr_to_rows user_items) in
  do r <- recommend H fmin m recalc (Batch userids) (Csr user_items) N filter_already_liked_items
            filter_items recalculate_user None;
  match r with ManyRows ids _ => Ok ids | OneRow ids _ => Ok [ids] end.

(** recommender_base.py:203-215 [rank_items]: N is left at its default of 10. *)
Definition rank_items (H : std_heap) (fmin : T) (m : mf)
    (recalc : idarg -> csr T -> res (list (list T)))
    (userid : idarg) (user_items : sparse_arg) (selected_items : arr) (recalculate_user : bool) : res out :=
  recommend H fmin m recalc userid user_items 10 false None recalculate_user (Some selected_items).

(* ---------------------------------------------------------------- *)
(** similar_users / similar_items.  [norm] is [np.linalg.norm] of one vector and
    [tiny] the constant 1e-10. *)

(** matrix_factorization_base.py:232-246: norms with zeros replaced. *)
Definition safe_norm (norm : list T -> T) (tiny : T) (v : list T) : T :=
  let n := norm v in if neqb n nzero then tiny else n.
Definition norms_of (norm : list T -> T) (tiny : T) (rows : list (list T)) : list T :=
  map (safe_norm norm tiny) rows.

(** Lines 154-164 / 195-205: restriction (no sorting, N is not clipped). *)
Definition restrict_similar (factors : list (list T)) (norms : list T)
    (filter_items : option arr) (items : option arr)
  : res (option (list Z) * list (list T) * list T) :=
  match items with
  | None => Ok (None, factors, norms)
  | Some its =>
    do b <- truthy filter_items;
    if b : bool then Raise ValueError else
    match its with
    | PyList [] => Raise IndexError
    | _ =>
      let l := arr_list its in
      do facs <- gather factors l;
      do ns <- map_res (fun z => do i <- np_index (length norms) z; Ok (nth i norms nzero)) l;
      do bad <- out_of_model (length factors) l;
      if bad : bool then Raise IndexError else Ok (Some l, facs, ns)
    end
  end.

(** Lines 216-230 [_get_similarity_score] followed by the remap of 170-171 / 210-211. *)
Definition similarity_score (H : std_heap) (fmin : T) (factor : list (list T)) (norm : list T)
    (id : idarg) (factors : list (list T)) (norms : list T) (N : Z)
    (filter_items : option arr) (items : option (list Z)) : res out :=
  do r <- topk H fmin factors factor N (Some norms) None (option_map arr_list filter_items);
  let scores := map (fun p => map (fun s => ndiv s (snd p)) (fst p)) (combine (snd r) norm) in
  Ok (finish id items (fst r, scores)).

(** Lines 148-173 [similar_users]; lines 177-212 [similar_items] without
    recalculate_item.  [norms] is the (possibly cached) norm array. *)
Definition similar (H : std_heap) (fmin : T) (factors : list (list T)) (norms : list T)
    (id : idarg) (N : Z) (filter_items items : option arr) : res out :=
  do norm <- map_res (fun z => do i <- np_index (length norms) z; Ok (nth i norms nzero)) (id_list id);
  do sel <- restrict_similar factors norms filter_items items;
  let '(its, facs, ns) := sel in
  do factor <- gather factors (id_list id);
  similarity_score H fmin factor norm id facs ns N filter_items its.

(** Lines 177-212 [similar_items] with recalculate_item: the query factor comes
    from [recalc_item] and its norm is computed afresh (lines 184-190). *)
Definition similar_items_recalc (H : std_heap) (fmin : T) (norm : list T -> T) (tiny : T)
    (factors : list (list T)) (norms : list T)
    (recalc_item : idarg -> csr T -> res (list (list T)))
    (id : idarg) (item_users : csr T) (N : Z) (filter_items items : option arr) : res out :=
  do factor <- recalc_item id item_users;
  let qnorm := map (safe_norm norm tiny) factor in
  do sel <- restrict_similar factors norms filter_items items;
  let '(its, facs, ns) := sel in
  similarity_score H fmin factor qnorm id facs ns N filter_items its.

End Model.
Arguments mf : clear implicits.
Arguments out : clear implicits.
Arguments sparse_arg : clear implicits.
