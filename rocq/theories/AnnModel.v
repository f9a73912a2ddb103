(** Model of the wrappers around approximate nearest neighbour libraries
    (implicit/ann/annoy.py, nmslib.py, faiss.py) and of augment_inner_product_matrix and
    _filter_items_from_results in implicit/utils.py.  N is a natural number.  float32
    casts are not modelled.  A query returns the wrapped model's factors after the call
    with its result: numpy views of the factor matrices are tracked. *)
From Coq Require Import String List Arith Lia Bool ZArith.
From Verif Require Import Base Num Heap Sparse TopkModel RecommendModel KnnModel.
Import ListNotations.
Local Open Scope list_scope.

(** The library behind the wrapper. *)
Inductive lib : Type := Annoy | NMSLib | Faiss.

Section Ann.
Context {T : Type} `{Num T}.
Local Notation vec := (list T).

(** An index of one of the libraries: the answer to a query vector and a count, as
    (id, distance) pairs; for Faiss (id, inner product), with id -1 in unused places. *)
Definition index : Type := vec -> nat -> list (Z * T).
(** The constructors of the libraries: Annoy "angular" with the row number as id; NMSLib
    "cosinesimil" with the given ids; Faiss METRIC_INNER_PRODUCT. *)
Record builders : Type := { b_angular : list vec -> index; b_cosine : list (Z * vec) -> index; b_inner : list vec -> index }.

(** What the wrappers use of the wrapped model besides its factors: [hasattr],
    recalculate_user / recalculate_item, recommend and similar_items.  [i_gpu]: the
    factors live on the GPU, so that indexing copies them. *)
Record inner : Type := {
  i_has : string -> bool;
  i_gpu : bool;
  i_recalc_user : idarg -> csr T -> res (list vec);
  i_recalc_item : idarg -> sparse_arg T -> res (list vec);
  i_recommend : mf T -> idarg -> sparse_arg T -> Z -> bool -> option arr -> bool -> option arr -> res (out T);
  i_similar : mf T -> idarg -> Z -> bool -> sparse_arg T -> option arr -> option arr -> res (out T)
}.

(** Numerical environment: np.linalg.norm, np.sqrt, -finfo(float32).max, 1e-10. *)
Record ann_env : Type := { ae_norm : vec -> T; ae_sqrt : T -> T; ae_fmin32 : T; ae_tiny : T }.
Variable E : ann_env.
Variable I : inner.

(** A fitted wrapper, without the wrapped model's factors. *)
Record ann : Type := {
  a_lib : lib; a_approx_sim : bool; a_approx_rec : bool; a_use_gpu : bool;
  a_sim : index; a_rec : index; a_max_norm : T
}.

(* ------------------------------------------------------------------ fit *)
(** [norms.max()]: ValueError on an empty array. *)
Definition np_max (l : list T) : res T :=
  match l with [] => Raise ValueError | x :: l' => Ok (fold_left (fun a b => if nltb a b then b else a) l' x) end.
(** utils.py:86-103 *)
Definition augment_inner_product_matrix (factors : list vec) : res (T * list vec) :=
  do mx <- np_max (map (ae_norm E) factors);
  Ok (mx, map (fun r => r ++ [ae_sqrt E (nsub (nmul mx mx) (nmul (ae_norm E r) (ae_norm E r)))]) factors).

Definition no_index : index := fun _ _ => [].
(** annoy.py:66-93 after training *)
Definition annoy_fit (B : builders) (item_factors : list vec) (asim arec : bool) : res ann :=
  let sim := if asim then b_angular B item_factors else no_index in
  if arec then
    do ' (mx, extra) <- augment_inner_product_matrix item_factors;
    Ok {| a_lib := Annoy; a_approx_sim := asim; a_approx_rec := arec; a_use_gpu := false; a_sim := sim; a_rec := b_angular B extra; a_max_norm := mx |}
  else Ok {| a_lib := Annoy; a_approx_sim := asim; a_approx_rec := arec; a_use_gpu := false; a_sim := sim; a_rec := no_index; a_max_norm := nzero |}.
(** nmslib.py:74-112 after training: rows of norm 0 are left out of the first index. *)
Definition numbered (rows : list vec) : list (Z * vec) := map (fun p => (Z.of_nat (fst p), snd p)) (enum rows).
Definition nmslib_fit (B : builders) (item_factors : list vec) (asim arec : bool) : res ann :=
  let sim := if asim then b_cosine B (filter (fun p => negb (neqb (ae_norm E (snd p)) nzero)) (numbered item_factors)) else no_index in
  if arec then
    do ' (mx, extra) <- augment_inner_product_matrix item_factors;
    Ok {| a_lib := NMSLib; a_approx_sim := asim; a_approx_rec := arec; a_use_gpu := false; a_sim := sim; a_rec := b_cosine B (numbered extra); a_max_norm := mx |}
  else Ok {| a_lib := NMSLib; a_approx_sim := asim; a_approx_rec := arec; a_use_gpu := false; a_sim := sim; a_rec := no_index; a_max_norm := nzero |}.
(** faiss.py:76-130 after training *)
Definition faiss_fit (B : builders) (use_gpu : bool) (item_factors : list vec) (asim arec : bool) : res ann :=
  let rc := if arec then b_inner B item_factors else no_index in
  let sim := if asim then b_inner B (map (fun r => map (fun x => ndiv x (safe_norm (ae_norm E) (ae_tiny E) r)) r) item_factors) else no_index in
  Ok {| a_lib := Faiss; a_approx_sim := asim; a_approx_rec := arec; a_use_gpu := use_gpu; a_sim := sim; a_rec := rc; a_max_norm := nzero |}.

(* ------------------------------------------------------------ filtering *)
Local Notation hits := (list (Z * T)).
(** utils.py:139-143: one query. *)
Definition filter_hits (flt : list Z) (N : nat) (row : hits) : hits :=
  firstn N (filter (fun p => negb (memz (fst p) flt)) row).
(** [filtered_ids[row] = x]: numpy assignment of a 1-d array to a row of N cells. *)
Definition assign_row (N : nat) (row : hits) : res hits :=
  if length row =? N then Ok row else match row with [x] => Ok (repeat x N) | _ => Raise ValueError end.
(** utils.py:139-152 [_filter_items_from_results] *)
Definition filter_items_from_results (id : idarg) (rows : list hits) (flt : list Z) (N : nat) : res (list hits) :=
  match id with
  | Scalar _ => Ok (map (filter_hits flt N) rows)
  | Batch _ => map_res (fun row => assign_row N (filter_hits flt N row)) rows
  end.
Definition to_out (id : idarg) (rows : list hits) : out T :=
  match id with
  | Scalar _ => OneRow (map fst (nth 0 rows [])) (map snd (nth 0 rows []))
  | Batch _ => ManyRows (map (map fst) rows) (map (map snd) rows)
  end.

(* ---------------------------------------------------------------- views *)
(** A numpy array which is a view of a row of a factor matrix, or memory of its own. *)
Inductive nd : Type := UserRow (i : nat) | ItemRow (i : nat) | Fresh (rows : list vec).
Definition nd_rows (m : mf T) (v : nd) : list vec :=
  match v with UserRow i => [nth i (user_factors m) []] | ItemRow i => [nth i (item_factors m) []] | Fresh rows => rows end.
(** In-place update of every row. *)
Definition nd_update (f : vec -> vec) (m : mf T) (v : nd) : mf T * nd :=
  match v with
  | UserRow i => ({| user_factors := upd i (f (nth i (user_factors m) [])) (user_factors m); item_factors := item_factors m |}, v)
  | ItemRow i => ({| user_factors := user_factors m; item_factors := upd i (f (nth i (item_factors m) [])) (item_factors m) |}, v)
  | Fresh rows => (m, Fresh (map f rows))
  end.
(** [factors[id]]: a view for a scalar, a copy for an array; GPU matrices are copied. *)
Definition index_rows (gpu : bool) (mk : nat -> nd) (rows : list vec) (id : idarg) : res nd :=
  match id with
  | Scalar z => do i <- np_index (length rows) z; Ok (if gpu then Fresh [nth i rows []] else mk i)
  | Batch zs => do r <- gather rows zs; Ok (Fresh r)
  end.
(** annoy.py:126-136 = nmslib.py:130-140 = faiss.py:152-162, with
    matrix_factorization_base.py:137-140. *)
Definition query_item (m : mf T) (id : idarg) (item_users : sparse_arg T) (recalculate_item : bool) : res nd :=
  if i_has I "_item_factor"%string then
    if recalculate_item then do r <- i_recalc_item I id item_users; Ok (Fresh r)
    else index_rows (i_gpu I) ItemRow (item_factors m) id
  else if recalculate_item then Raise NotImplementedError
  else index_rows (i_gpu I) ItemRow (item_factors m) id.
(** annoy.py:193-203 = nmslib.py:201-211 = faiss.py:224-234, with
    matrix_factorization_base.py:132-135. *)
Definition query_user (m : mf T) (id : idarg) (user_items : sparse_arg T) (recalculate_user : bool) : res nd :=
  if i_has I "+_user_factor"%string then
    if recalculate_user then match user_items with Csr M => do r <- i_recalc_user I id M; Ok (Fresh r) | NotCsr => Raise ValueError end
    else index_rows (i_gpu I) UserRow (user_factors m) id
  else if recalculate_user then Raise NotImplementedError
  else index_rows (i_gpu I) UserRow (user_factors m) id.

Definition two : T := nadd none_ none_.
(** Python calls run in state-passing style: a call that raises keeps its effects. *)
Definition st (A : Type) : Type := (mf T * res A)%type.
Definition arr_len (a : option arr) : nat := match a with Some x => length (arr_list x) | None => 0 end.

(* ------------------------------------------------------- similar_items *)
(** [user_items[i]] / [item_users[i]] in _batch_call. *)
Definition take_row (M : csr T) (g : nat) : res (csr T) := if g <? c_rows M then Ok (csr_take_row M g) else Raise IndexError.
(** utils.py:106-136 [_batch_call] over calls with effects: the calls run in order, the
    first exception ends it. *)
Fixpoint batch_st (f : nat -> Z -> mf T -> st (list Z * list T)) (ids : list (nat * Z)) (m : mf T) : st (list (list Z * list T)) :=
  match ids with
  | [] => (m, Ok [])
  | (g, z) :: ids' =>
      let '(m1, r) := f g z m in
      match r with
      | Raise e => (m1, Raise e)
      | Ok x => let '(m2, rs) := batch_st f ids' m1 in (m2, do xs <- rs; Ok (x :: xs))
      end
  end.
Definition pad_row (N : nat) (r : list Z * list T) : list Z * list T :=
  (firstn N (fst r ++ repeat (-1)%Z (N - length (fst r))), firstn N (snd r ++ repeat (ae_fmin32 E) (N - length (fst r)))).
Definition batch_call_st (f : nat -> Z -> mf T -> st (list Z * list T)) (ids : list Z) (N : nat) (m : mf T) : st (out T) :=
  let '(m', r) := batch_st f (enum ids) m in
  (m', do rows <- r; Ok (ManyRows (map fst (map (pad_row N) rows)) (map snd (map (pad_row N) rows)))).

(** annoy.py:126-149: one item.  The index is asked for N neighbours, not [count]. *)
Definition annoy_similar1 (A : ann) (m : mf T) (id : Z) (N : nat) (recalc : bool) (item_users : sparse_arg T) (filter_items : option arr) : st (list Z * list T) :=
  (m, do v <- query_item m (Scalar id) item_users recalc;
      let hits := a_sim A (nth 0 (nd_rows m v) []) N in
      let hits := match filter_items with None => hits | Some a => filter_hits (arr_list a) N hits end in
      Ok (map fst hits, map (fun p => nsub none_ (ndiv (nmul (snd p) (snd p)) two)) hits)).
(** [np.stack]: rows of equal length, at least one. *)
Definition np_stack (rows : list hits) : res (list hits) :=
  match rows with
  | [] => Raise ValueError
  | r :: rows' => if forallb (fun s => length s =? length r) rows' then Ok rows else Raise ValueError
  end.

(** annoy.py:95-149, nmslib.py:114-157, faiss.py:132-178. *)
Definition ann_similar_items (A : ann) (m : mf T) (id : idarg) (N : nat) (recalc : bool) (item_users : sparse_arg T)
    (filter_items items : option arr) : st (out T) :=
  let count := N + arr_len filter_items in
  let delegate := (m, i_similar I m id (Z.of_nat N) recalc item_users filter_items items) in
  match a_lib A with
  | Annoy =>
      match items with
      | Some _ => if a_approx_sim A then (m, Raise NotImplementedError) else delegate
      | None =>
          if negb (a_approx_sim A) then delegate else
          match id with
          | Scalar z => let '(m', r) := annoy_similar1 A m z N recalc item_users filter_items in (m', do ' (ids, sc) <- r; Ok (OneRow ids sc))
          | Batch zs =>
              batch_call_st (fun g z m =>
                match item_users with
                | NotCsr => annoy_similar1 A m z N recalc NotCsr filter_items
                | Csr M => match take_row M g with Raise e => (m, Raise e) | Ok r => annoy_similar1 A m z N recalc (Csr r) filter_items end
                end) zs N m
          end
      end
  | NMSLib =>
      if negb (a_approx_sim A) then delegate else
      match items with
      | Some _ => (m, Raise NotImplementedError)
      | None =>
          (m, do v <- query_item m id item_users recalc;
              let rows := map (fun q => a_sim A q count) (nd_rows m v) in
              do rows <- (match id with Scalar _ => Ok rows | Batch _ => np_stack rows end);
              let rows := map (map (fun p => (fst p, nsub none_ (snd p)))) rows in
              do rows <- (match filter_items with None => Ok rows | Some a => filter_items_from_results id rows (arr_list a) N end);
              Ok (to_out id rows))
      end
  | Faiss =>
      match items with
      | Some _ => if a_approx_sim A then (m, Raise NotImplementedError) else delegate
      | None =>
          if negb (a_approx_sim A) || (a_use_gpu A && (1024 <=? Z.of_nat count)%Z) then delegate else
          match query_item m id item_users recalc with
          | Raise e => (m, Raise e)
          | Ok v =>
              (* lines 164-168: in-place division by the norm *)
              let '(m', v') := nd_update (fun r => map (fun x => ndiv x (ae_norm E r)) r) m v in
              (m', let rows := map (fun q => a_sim A q count) (nd_rows m' v') in
                   do rows <- (match filter_items with None => Ok rows | Some a => filter_items_from_results id rows (arr_list a) N end);
                   Ok (to_out id rows))
          end
      end
  end.

(* ----------------------------------------------------------- recommend *)
(** annoy.py:205-217 = nmslib.py:213-225 = faiss.py:236-248: the count and the filter. *)
Definition rec_filter (N : nat) (filter_items : option arr) (liked : bool) (user_items : sparse_arg T) : res (nat * option arr) :=
  do b <- truthy filter_items;
  let count := if b : bool then N + arr_len filter_items else N in
  let filter_items := if b : bool then option_map (fun a => NdArray (arr_list a)) filter_items else filter_items in
  if liked then
    match user_items with
    | NotCsr => Raise ValueError
    | Csr M =>
        if c_rows M =? 0 then Raise IndexError else
        let likes := map Z.of_nat (csr_row_indices M 0) in
        Ok (count + length likes, Some (NdArray (match filter_items with Some a => arr_list a ++ likes | None => likes end)))
    end
  else Ok (count, filter_items).
Definition check_csr_arg (liked recalc : bool) (user_items : sparse_arg T) : res unit :=
  if liked || recalc then match user_items with NotCsr => Raise ValueError | Csr _ => Ok tt end else Ok tt.

(** annoy.py:193-232, nmslib.py:201-235: one user. *)
Definition angular_recommend1 (A : ann) (m : mf T) (u : Z) (user_items : sparse_arg T) (N : nat) (liked : bool)
    (filter_items : option arr) (recalc : bool) : st (list Z * list T) :=
  (m, do v <- query_user m (Scalar u) user_items recalc;
      do ' (count, flt) <- rec_filter N filter_items liked user_items;
      let query := nth 0 (nd_rows m v) [] ++ [nzero] in
      let hits := a_rec A query count in
      let hits := match flt with None => hits | Some a => filter_hits (arr_list a) N hits end in
      let scaling := nmul (a_max_norm A) (ae_norm E query) in
      Ok (map fst hits, map (fun p => nmul scaling (match a_lib A with
                                                    | Annoy => nsub none_ (ndiv (nmul (snd p) (snd p)) two)
                                                    | _ => nsub none_ (snd p)
                                                    end)) hits)).
(** A user_items argument that is not a csr matrix (None, or a matrix without row
    indexing) makes _batch_call's scalar calls fail with TypeError. *)
Definition row_arg (user_items : sparse_arg T) (g : nat) : res (sparse_arg T) :=
  match user_items with NotCsr => Raise TypeError | Csr M => do r <- take_row M g; Ok (Csr r) end.

(** faiss.py:212-276: everything but the loop over users. *)
Definition faiss_recommend_direct (A : ann) (m : mf T) (id : idarg) (user_items : sparse_arg T) (N : nat) (liked : bool)
    (filter_items : option arr) (recalc : bool) (items : option arr) : st (out T) :=
  (* warnings.warning does not exist *)
  if negb (a_approx_rec A) then (m, Raise AttributeError) else
  (m, do v <- query_user m id user_items recalc;
      do ' (count, flt) <- rec_filter N filter_items liked user_items;
      if a_use_gpu A && (1024 <=? Z.of_nat count)%Z then i_recommend I m id user_items (Z.of_nat N) liked flt recalc items else
      let rows := map (fun q => a_rec A q count) (nd_rows m v) in
      do rows <- (match flt with None => Ok rows | Some a => filter_items_from_results id rows (arr_list a) N end);
      Ok (to_out id rows)).
Definition one_row (x : st (out T)) : st (list Z * list T) :=
  (fst x, do o <- snd x; match o with OneRow ids sc => Ok (ids, sc) | ManyRows _ _ => Raise TypeError end).

(** annoy.py:151-191, nmslib.py:159-199, faiss.py:180-210. *)
Definition ann_recommend (A : ann) (m : mf T) (id : idarg) (user_items : sparse_arg T) (N : nat) (liked : bool)
    (filter_items : option arr) (recalc : bool) (items : option arr) : st (out T) :=
  match check_csr_arg liked recalc user_items with
  | Raise e => (m, Raise e)
  | Ok _ =>
      match items, a_approx_rec A with
      | Some _, true => (m, Raise NotImplementedError)
      | _, _ =>
          match a_lib A with
          | Faiss =>
              match id with
              | Batch zs =>
                  if liked then
                    batch_call_st (fun g z m =>
                      match row_arg user_items g with
                      | Raise e => (m, Raise e)
                      | Ok r => one_row (faiss_recommend_direct A m (Scalar z) r N liked filter_items recalc items)
                      end) zs N m
                  else faiss_recommend_direct A m id user_items N liked filter_items recalc items
              | Scalar _ => faiss_recommend_direct A m id user_items N liked filter_items recalc items
              end
          | _ =>
              if negb (a_approx_rec A) then (m, i_recommend I m id user_items (Z.of_nat N) liked filter_items recalc items) else
              match id with
              | Scalar z => let '(m', r) := angular_recommend1 A m z user_items N liked filter_items recalc in (m', do ' (ids, sc) <- r; Ok (OneRow ids sc))
              | Batch zs =>
                  batch_call_st (fun g z m =>
                    match row_arg user_items g with
                    | Raise e => (m, Raise e)
                    | Ok r => angular_recommend1 A m z r N liked filter_items recalc
                    end) zs N m
              end
          end
      end
  end.

(** annoy.py:234-245, nmslib.py:237-248, faiss.py:278-289. *)
Definition ann_similar_users (A : ann) (m : mf T) (id : idarg) (N : nat) : st (out T) := (m, Raise NotImplementedError).
End Ann.
Arguments index : clear implicits.
Arguments inner : clear implicits.
Arguments ann : clear implicits.
Arguments ann_env : clear implicits.
Arguments builders : clear implicits.
