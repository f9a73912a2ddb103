(** Model of the matrices on the GPU as objects: implicit/gpu/_cuda.pyx 85-207 and implicit/gpu/matrix.{h,cu}.

    Device memory is a list of buffers; a matrix is a window into one of them.  Cells hold numbers, not bytes;
    a buffer is only read with the item size it was written with. *)
From Coq Require Import List Arith Lia Bool ZArith.
From Verif Require Import Base Num.
Import ListNotations.

Section Model.
Context {T : Type} {NT : Num T}.
Local Notation mat := (list (list T)).

(* ------------------------------------------------------------------ arrays on the host *)
Inductive dtype : Type := F32 | F16 | OtherDtype.
(** A two-dimensional numpy array: memory, offset, shape and strides (in elements). *)
Record harr : Type := { h_mem : list T; h_off : Z; h_rows : nat; h_cols : nat; h_s0 : Z; h_s1 : Z; h_dt : dtype }.

(* ------------------------------------------------------------------ device memory *)
(** A buffer is gone ([None]) after it has been freed. *)
Definition dev : Type := list (option (list T)).
(** matrix.h 20-90: [data] is a buffer and an offset; [itemsize]. *)
Record dmat : Type := { d_buf : nat; d_off : nat; d_rows : nat; d_cols : nat; d_size : nat }.
Definition alloc (d : dev) (l : list T) (rows cols size : nat) : dev * res dmat :=
  (d ++ [Some l], Ok {| d_buf := length d; d_off := 0; d_rows := rows; d_cols := cols; d_size := size |}).
Definition buffer (d : dev) (m : dmat) : res (list T) :=
  match nth_error d (d_buf m) with Some (Some b) => Ok b | _ => Raise UB end.
(** The cells of the window, if it lies in the buffer. *)
Definition window (d : dev) (m : dmat) : res mat :=
  do b <- buffer d m;
  if d_off m + d_rows m * d_cols m <=? length b
  then Ok (map (fun i => slice (d_off m + i * d_cols m) (d_off m + i * d_cols m + d_cols m) b) (seq 0 (d_rows m)))
  else Raise UB.

(* ------------------------------------------------------------------ construction *)
(** _cuda.pyx 105-114 and matrix.cu 80-96: copies rows * cols elements starting at the first one, whatever the
    strides.  [&temp_float[0, 0]] of an empty array raises IndexError.  Reading past the memory of the array is
    undefined. *)
Definition item_size (t : dtype) : res nat := match t with F32 => Ok 4 | F16 => Ok 2 | OtherDtype => Raise ValueError end.
Definition upload (d : dev) (a : harr) : dev * res dmat :=
  match item_size (h_dt a) with
  | Raise e => (d, Raise e)
  | Ok size =>
      if h_rows a * h_cols a =? 0 then (d, Raise IndexError) else
      let len := h_rows a * h_cols a in
      if ((0 <=? h_off a) && (h_off a + Z.of_nat len <=? Z.of_nat (length (h_mem a))))%Z
      then alloc d (slice (Z.to_nat (h_off a)) (Z.to_nat (h_off a) + len) (h_mem a)) (h_rows a) (h_cols a) size
      else (d, Raise UB)
  end.
(** _cuda.pyx 97-103: an array of another library that is on the device already (buffer [b], first element at
    [off]): nothing is copied, the strides are not looked at, and no reference to the array is kept. *)
Definition wrap_device (d : dev) (b off rows cols size : nat) : dev * res dmat :=
  (d, Ok {| d_buf := b; d_off := off; d_rows := rows; d_cols := cols; d_size := size |}).
(** Freeing buffer [b] (by the library that owns it). *)
Definition release (d : dev) (b : nat) : dev := upd b None d.
(** _cuda.pyx 116-120 and matrix.cu 80-96. *)
Definition zeros_matrix (d : dev) (rows cols : nat) : dev * res dmat := alloc d (repeat nzero (rows * cols)) rows cols 4.

(* ------------------------------------------------------------------ reading *)
(** _cuda.pyx 182-197 [to_numpy] and matrix.cu 217-220 *)
Definition to_numpy (d : dev) (m : dmat) : res mat :=
  if negb ((d_size m =? 4) || (d_size m =? 2)) then Raise ValueError else
  if d_rows m * d_cols m =? 0 then Raise IndexError else window d m.

(* ------------------------------------------------------------------ indexing *)
(** Arguments of __getitem__: an int; a slice; a list or one-dimensional array of ints, or of bools; an array of
    more dimensions. *)
Inductive index : Type :=
| IInt (z : Z) | ISlice (start stop step : option Z) | IArray (ids : list Z) | IMask (bs : list bool) | INested.
(** Conversion of a Python int to [int]; OverflowError is written RuntimeError here. *)
Definition to_int32 (z : Z) : res Z := if ((-2147483648 <=? z) && (z <? 2147483648))%Z then Ok z else Raise RuntimeError.
(** Conversion to [size_t]: negative numbers overflow. *)
Definition to_size (z : Z) : res nat := if (0 <=? z)%Z then Ok (Z.to_nat z) else Raise RuntimeError.
(** matrix.cu 34-40: a negative row id has become a very large one. *)
Definition row_view (m : dmat) (z : Z) : res dmat :=
  if ((0 <=? z) && (z <? Z.of_nat (d_rows m)))%Z
  then Ok {| d_buf := d_buf m; d_off := d_off m + Z.to_nat z * d_cols m; d_rows := 1; d_cols := d_cols m; d_size := d_size m |}
  else Raise ValueError.
(** matrix.cu 42-52 *)
Definition rows_view (m : dmat) (s e : nat) : res dmat :=
  if e <? s then Raise ValueError else
  if d_rows m <? e then Raise ValueError else
  Ok {| d_buf := d_buf m; d_off := d_off m + s * d_cols m; d_rows := e - s; d_cols := d_cols m; d_size := d_size m |}.
(** matrix.cu 54-78: a copy. *)
Definition select_rows (d : dev) (m : dmat) (ids : list nat) : dev * res dmat :=
  match window d m with
  | Raise e => (d, Raise e)
  | Ok v => if negb ((d_size m =? 4) || (d_size m =? 2)) then (d, Raise RuntimeError)
            else alloc d (concat (map (fun i => nth i v []) ids)) (length ids) (d_cols m) (d_size m)
  end.
(** _cuda.pyx 126-160 [__getitem__].  [np.array(idx).astype("int32")] of ids that do not fit wraps around
    (wrap32 in GpuKnn); here ids are int32 values. *)
Definition by_ids (d : dev) (m : dmat) (ids : list Z) : dev * res dmat :=
  if existsb (fun z => (z <? 0) || (Z.of_nat (d_rows m) <=? z))%Z ids then (d, Raise IndexError) else
  match ids with
  | [] => (d, Raise IndexError)                       (* IntVector: &data[0] *)
  | _ => select_rows d m (map Z.to_nat ids)
  end.
Definition getitem (d : dev) (m : dmat) (idx : index) : dev * res dmat :=
  match idx with
  | ISlice start stop step =>
      (d, match step with
          | Some z => if (negb (z =? 0) && negb (z =? 1))%Z then Raise ValueError else
              do s <- to_size (match start with Some z => z | None => 0%Z end);
              do e <- to_size (match stop with Some z => z | None => Z.of_nat (d_rows m) end);
              rows_view m s e
          | None =>
              do s <- to_size (match start with Some z => z | None => 0%Z end);
              do e <- to_size (match stop with Some z => z | None => Z.of_nat (d_rows m) end);
              rows_view m s e
          end)
  | IInt z => (d, do i <- to_int32 z; row_view m i)
  | IArray ids => by_ids d m ids
  | IMask bs => by_ids d m (map (fun b : bool => if b then 1%Z else 0%Z) bs)
  | INested => (d, Raise IndexError)
  end.

(* ------------------------------------------------------------------ writing *)
(** _cuda.pyx 162-165 and matrix.cu 122-143 [assign_rows]: one store per cell of [other], in any order [cells].
    Row ids are not checked: the store goes to wherever the id points, possibly to other cells of the buffer.
    Cells of [other] are read when they are stored. *)
Definition store_cell (m : dmat) (ids : list Z) (other : dmat) (d : dev) (i : nat) : res dev :=
  match nth_error ids (i / d_cols m) with
  | None => Raise UB
  | Some z =>
      do o <- buffer d other;
      do b <- buffer d m;
      let a := (Z.of_nat (d_off m) + Z.of_nat (i mod d_cols m) + z * Z.of_nat (d_cols m))%Z in
      if (d_off other + i <? length o) && ((0 <=? a) && (a <? Z.of_nat (length b)))%Z
      then Ok (upd (d_buf m) (Some (upd (Z.to_nat a) (nth (d_off other + i) o nzero) b)) d) else Raise UB
  end.
Definition assign_rows (cells : list nat) (d : dev) (m : dmat) (ids : list Z) (other : dmat) : res dev :=
  match ids with [] => Raise IndexError | _ =>
  if negb (d_cols other =? d_cols m) then Raise ValueError else
  if negb (d_size other =? 4) || negb (d_size m =? 4) then Raise RuntimeError else
  fold_res (store_cell m ids other) cells d end.
(** matrix.cu 98-120 and _cuda.pyx 179-180 [resize]: a new buffer for this matrix. *)
Definition resize (d : dev) (m : dmat) (rows cols : nat) : dev * res dmat :=
  if negb (cols =? d_cols m) then (d, Raise RuntimeError) else
  if rows <? d_rows m then (d, Raise RuntimeError) else
  match window d m with
  | Raise e => (d, Raise e)
  | Ok v => alloc d (concat v ++ repeat nzero ((rows - d_rows m) * cols)) rows cols (d_size m)
  end.
(** matrix.cu 145-171 and _cuda.pyx 167-177 [astype]; [conv] is the conversion of one number. *)
Definition astype (conv : nat -> T -> T) (d : dev) (m : dmat) (t : dtype) : dev * res dmat :=
  match item_size t with
  | Raise e => (d, Raise e)
  | Ok size =>
      if size =? d_size m then (d, Ok m) else
      match window d m with
      | Raise e => (d, Raise e)
      | Ok v => if negb ((d_size m =? 4) || (d_size m =? 2)) then (d, Raise RuntimeError)
                else alloc d (map (conv size) (concat v)) (d_rows m) (d_cols m) size
      end
  end.

(* ------------------------------------------------------------------ lifetimes *)
(** matrix.h 90: matrices that own memory share it through [storage] (a shared_ptr); a matrix made from a device
    array of another library has none.  [p_mats]: the live Python objects, with whether [storage] is set;
    [p_foreign]: buffers of other libraries. *)
Record pool : Type := { p_dev : dev; p_mats : list (option (dmat * bool)); p_foreign : list nat }.
Inductive op : Type :=
| OUpload (a : harr) | OZeros (rows cols : nat) | OWrap (b off rows cols size : nat) | OGetitem (k : nat) (idx : index)
| OAstype (conv : nat -> T -> T) (k : nat) (t : dtype) | OResize (k rows cols : nat) | OAssign (cells : list nat) (k : nat) (ids : list Z) (j : nat)
| ODrop (k : nat)                                     (* the last Python reference goes away: _cuda.pyx 205-207 *)
| OForeign (l : list T) | OForeignFree (b : nat).     (* another library allocates and frees *)
Definition holds (b : nat) (x : option (dmat * bool)) : bool :=
  match x with Some (m, true) => d_buf m =? b | _ => false end.
(** Entry [k] is replaced by [x]; its buffer is freed with the last reference to it. *)
Definition replace_entry (p : pool) (k : nat) (x : option (dmat * bool)) : pool :=
  let mats := upd k x (p_mats p) in
  {| p_dev := match nth k (p_mats p) None with
              | Some (m, true) => if existsb (holds (d_buf m)) mats then p_dev p else upd (d_buf m) None (p_dev p)
              | _ => p_dev p
              end;
     p_mats := mats; p_foreign := p_foreign p |}.
Definition add_entry (p : pool) (r : dev * res dmat) (storage : dmat -> bool) : pool * res unit :=
  match snd r with
  | Ok m => ({| p_dev := fst r; p_mats := p_mats p ++ [Some (m, storage m)]; p_foreign := p_foreign p |}, Ok tt)
  | Raise e => (p, Raise e)
  end.
(** A result in the same buffer shares the storage of [m] ([flag]); a new buffer is owned. *)
Definition shares (m : dmat) (flag : bool) (m' : dmat) : bool := if d_buf m' =? d_buf m then flag else true.
Definition step (p : pool) (o : op) : pool * res unit :=
  match o with
  | OUpload a => add_entry p (upload (p_dev p) a) (fun _ => true)
  | OZeros rows cols => add_entry p (zeros_matrix (p_dev p) rows cols) (fun _ => true)
  | OWrap b off rows cols size => add_entry p (wrap_device (p_dev p) b off rows cols size) (fun _ => false)
  | OGetitem k idx =>
      match nth k (p_mats p) None with
      | None => (p, Raise AttributeError)
      | Some (m, f) => add_entry p (getitem (p_dev p) m idx) (shares m f)
      end
  | OAstype conv k t =>
      match nth k (p_mats p) None with
      | None => (p, Raise AttributeError)
      | Some (m, f) => add_entry p (astype conv (p_dev p) m t) (shares m f)
      end
  | OResize k rows cols =>
      match nth k (p_mats p) None with
      | None => (p, Raise AttributeError)
      | Some (m, f) => match resize (p_dev p) m rows cols with
                       | (d', Ok m') => (replace_entry {| p_dev := d'; p_mats := p_mats p; p_foreign := p_foreign p |} k (Some (m', true)), Ok tt)
                       | (_, Raise e) => (p, Raise e)
                       end
      end
  | OAssign cells k ids j =>
      match nth k (p_mats p) None, nth j (p_mats p) None with
      | Some (m, _), Some (o, _) =>
          match assign_rows cells (p_dev p) m ids o with
          | Ok d' => ({| p_dev := d'; p_mats := p_mats p; p_foreign := p_foreign p |}, Ok tt)
          | Raise e => (p, Raise e)
          end
      | _, _ => (p, Raise AttributeError)
      end
  | ODrop k => match nth k (p_mats p) None with None => (p, Raise AttributeError) | Some _ => (replace_entry p k None, Ok tt) end
  | OForeign l => ({| p_dev := p_dev p ++ [Some l]; p_mats := p_mats p; p_foreign := p_foreign p ++ [length (p_dev p)] |}, Ok tt)
  | OForeignFree b => if existsb (Nat.eqb b) (p_foreign p) then ({| p_dev := release (p_dev p) b; p_mats := p_mats p; p_foreign := p_foreign p |}, Ok tt) else (p, Raise ValueError)
  end.
Definition steps (ops : list op) (p : pool) : pool := fold_left (fun p o => fst (step p o)) ops p.
Definition no_pool : pool := {| p_dev := []; p_mats := []; p_foreign := [] |}.
End Model.
Arguments pool : clear implicits.
Arguments op : clear implicits.
Arguments harr : clear implicits.
Arguments dev : clear implicits.
