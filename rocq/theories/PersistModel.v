(** Saving, loading, copying models between CPU and GPU, and random_state.

    Python objects are attribute dictionaries: association lists from names to values.  A value is one
    of the things the modelled attributes can hold.  Real numbers are of any type [T]; storing a number
    in a .npz file keeps it bit for bit, so no arithmetic is done here. *)
From Coq Require Import String List Arith Lia Bool ZArith.
From Verif Require Import Base.
Import ListNotations.
Local Open Scope string_scope.
Local Open Scope list_scope.

Inductive npdtype := F16 | F32 | F64.
Definition dtype_name (d : npdtype) : string := match d with F16 => "float16" | F32 => "float32" | F64 => "float64" end.

(** [VDtype]: np.dtype(d) or the scalar type np.float32 etc (they compare equal).
    [VMat]: 2-d float array.  [VFArr], [VIArr]: 1-d arrays.  [VZero v]: 0-d array holding the scalar v.
    [VDev]: implicit.gpu.Matrix.  [VRandomState], [VGenerator]: numpy generators, by identity.
    [VOther]: any other object (functions, solver handles, cached norms). *)
Inductive val (T : Type) : Type :=
| VNone | VBool (b : bool) | VInt (z : Z) | VFloat (x : T) | VStr (s : string) | VDtype (d : npdtype)
| VMat (d : npdtype) (m : list (list T)) | VFArr (d : npdtype) (l : list T) | VIArr (l : list Z)
| VZero (v : val T) | VDev (d : npdtype) (m : list (list T))
| VRandomState (i : nat) | VGenerator (i : nat) | VOther (i : nat).
Arguments VNone {T}. Arguments VBool {T} b. Arguments VInt {T} z. Arguments VFloat {T} x. Arguments VStr {T} s.
Arguments VDtype {T} d. Arguments VMat {T} d m. Arguments VFArr {T} d l. Arguments VIArr {T} l. Arguments VZero {T} v.
Arguments VDev {T} d m. Arguments VRandomState {T} i. Arguments VGenerator {T} i. Arguments VOther {T} i.

Definition dict (T : Type) := list (string * val T).
Fixpoint assoc {A} (k : string) (d : list (string * A)) : option A :=
  match d with [] => None | (k', v) :: d' => if (k' =? k)%string then Some v else assoc k d' end.
(** getattr: AttributeError when absent. *)
Definition getattr {T} (o : dict T) (k : string) : res (val T) :=
  match assoc k o with Some v => Ok v | None => Raise AttributeError end.
(** setattr / dict assignment: in place, appended when new. *)
Fixpoint setattr {T} (k : string) (v : val T) (o : dict T) : dict T :=
  match o with [] => [(k, v)] | (k', v') :: o' => if (k' =? k)%string then (k', v) :: o' else (k', v') :: setattr k v o' end.
Definition is_none {T} (v : val T) : bool := match v with VNone => true | _ => false end.

(** np.dtype(v): names of other types than the three below are left out (TypeError). *)
Definition np_dtype {T} (v : val T) : res npdtype :=
  match v with
  | VDtype d => Ok d
  | VStr s => if (s =? "float16")%string then Ok F16 else if (s =? "float32")%string then Ok F32
              else if (s =? "float64")%string then Ok F64 else Raise TypeError
  | VNone => Ok F64
  | _ => Raise TypeError
  end.
(** v.name *)
Definition name_of {T} (v : val T) : res (val T) := match v with VDtype d => Ok (VStr (dtype_name d)) | _ => Raise AttributeError end.

(* ------------------------------------------------------------------ npz *)
(** np.asanyarray(v), as np.savez applies it to every value.  A python int that fits neither int64 nor
    uint64, None and every other object become 0-d object arrays. *)
Definition fits64 (z : Z) : bool := ((- 2 ^ 63 <=? z) && (z <? 2 ^ 64))%Z.
Definition asanyarray {T} (v : val T) : val T :=
  match v with
  | VMat _ _ | VFArr _ _ | VIArr _ | VZero _ => v
  | _ => VZero v
  end.
(** Object arrays are written to the file by pickling. *)
Definition is_object_array {T} (v : val T) : bool :=
  match v with
  | VZero (VBool _) | VZero (VFloat _) | VZero (VStr _) => false
  | VZero (VInt z) => negb (fits64 z)
  | VZero _ => true
  | _ => false
  end.
Definition npz (T : Type) := list (string * val T).
Definition savez_args {T} (args : dict T) : npz T := map (fun kv => (fst kv, asanyarray (snd kv))) args.
(** Reading one entry of np.load(..., allow_pickle=False): ValueError for object arrays. *)
Definition npz_read {T} (v : val T) : res (val T) := if is_object_array v then Raise ValueError else Ok v.
Definition npz_get {T} (data : npz T) (k : string) : res (val T) :=
  match assoc k data with Some v => npz_read v | None => Raise KeyError end.

(* ------------------------------------------------- file names and files *)
(** What a caller can pass: a str, a pathlib.Path (by its os.fspath), or an open file (by identity; the
    caller is taken to rewind it before reading). *)
Inductive file := FStr (s : string) | FPath (s : string) | FObj (i : nat).
(** A place where bytes can be: a path on disk, or an open file. *)
Inductive place := Disk (s : string) | Open (i : nat).
Definition place_eqb (a b : place) : bool :=
  match a, b with Disk s, Disk t => (s =? t)%string | Open i, Open j => (i =? j)%nat | _, _ => false end.
Definition files (T : Type) := list (place * npz T).
Fixpoint read_place {T} (fs : files T) (p : place) : res (npz T) :=
  match fs with [] => Raise FileNotFoundError | (q, d) :: fs' => if place_eqb q p then Ok d else read_place fs' p end.
Definition write_place {T} (fs : files T) (p : place) (d : npz T) : files T := (p, d) :: fs.

Fixpoint ends_npz (s : string) : bool :=
  (s =? ".npz")%string || match s with EmptyString => false | String _ s' => ends_npz s' end.
Definition add_npz (s : string) : string := if ends_npz s then s else (s ++ ".npz")%string.
(** numpy.savez: appends .npz to a str or path object lacking it (numpy/lib/npyio.py, _savez). *)
Definition savez_place (f : file) : place := match f with FStr s | FPath s => Disk (add_npz s) | FObj i => Open i end.
Definition np_savez {T} (fs : files T) (f : file) (args : dict T) : files T := write_place fs (savez_place f) (savez_args args).
(** numpy.load opens exactly the name it is given. *)
Definition np_load {T} (fs : files T) (f : file) : res (npz T) :=
  read_place fs (match f with FStr s | FPath s => Disk s | FObj i => Open i end).
(** implicit/recommender_base.py 191-192 and implicit/nearest_neighbours.py 171-173: only a str gets the suffix. *)
Definition load_name (f : file) : file := match f with FStr s => FStr (add_npz s) | _ => f end.

(* ---------------------------------------------------------- constructors *)
(** implicit/cpu/matrix_factorization_base.py 26-33 *)
Definition mf_init {T} (num_threads : val T) : dict T :=
  [("item_factors", VNone); ("user_factors", VNone); ("_user_norms", VNone); ("_item_norms", VNone); ("num_threads", num_threads)].

(** implicit/cpu/als.py 60-95; check_blas_config only warns. *)
Definition als_init {T} (factors regularization alpha dtype use_native use_cg iterations calculate_training_loss num_threads random_state : val T)
    : res (dict T) :=
  do d <- np_dtype dtype;
  Ok (mf_init num_threads ++
      [("factors", factors); ("regularization", regularization); ("alpha", alpha); ("dtype", VDtype d);
       ("use_native", use_native); ("use_cg", use_cg); ("iterations", iterations);
       ("calculate_training_loss", calculate_training_loss); ("fit_callback", VNone); ("cg_steps", VInt 3);
       ("random_state", random_state); ("_YtY", VNone); ("_XtX", VNone)]).

(** implicit/cpu/bpr.pyx 107-118 *)
Definition bpr_init {T} (factors learning_rate regularization dtype iterations num_threads verify_negative_samples random_state : val T)
    : res (dict T) :=
  do d <- np_dtype dtype;
  Ok (mf_init num_threads ++
      [("factors", factors); ("learning_rate", learning_rate); ("iterations", iterations); ("regularization", regularization);
       ("dtype", VDtype d); ("verify_negative_samples", verify_negative_samples); ("random_state", random_state)]).

(** implicit/cpu/lmf.pyx 97-108 *)
Definition lmf_init {T} (factors learning_rate regularization dtype iterations neg_prop num_threads random_state : val T)
    : res (dict T) :=
  do d <- np_dtype dtype;
  Ok (mf_init num_threads ++
      [("factors", factors); ("learning_rate", learning_rate); ("iterations", iterations); ("regularization", regularization);
       ("dtype", VDtype d); ("neg_prop", neg_prop); ("random_state", random_state)]).

(** implicit/nearest_neighbours.py 24-28: item-item, cosine and tf-idf recommenders. *)
Definition item_init {T} (K num_threads : val T) : dict T :=
  [("similarity", VNone); ("K", K); ("num_threads", num_threads); ("scorer", VNone)].
(** implicit/nearest_neighbours.py 206-209 *)
Definition bm25_init {T} (K K1 B num_threads : val T) : dict T :=
  setattr "B" B (setattr "K1" K1 (item_init K num_threads)).

(** implicit/gpu/matrix_factorization_base.py 25-32 *)
Definition gmf_init {T} : dict T :=
  [("item_factors", VNone); ("user_factors", VNone); ("_item_norms", VNone); ("_user_norms", VNone);
   ("_user_norms_host", VNone); ("_item_norms_host", VNone); ("_knn", VNone)].
(** implicit/gpu/als.py 48-79 *)
Definition gals_init {T} (has_cuda : bool) (factors regularization alpha dtype iterations calculate_training_loss random_state : val T)
    : res (dict T) :=
  if negb has_cuda then Raise ValueError
  else Ok (gmf_init ++
      [("factors", factors); ("regularization", regularization); ("alpha", alpha); ("dtype", dtype);
       ("iterations", iterations); ("calculate_training_loss", calculate_training_loss); ("fit_callback", VNone);
       ("random_state", random_state); ("cg_steps", VInt 3); ("_solver", VNone); ("_YtY", VNone); ("_XtX", VNone)]).
(** implicit/gpu/bpr.py 48-67: [dtype] is accepted and not stored. *)
Definition gbpr_init {T} (has_cuda : bool) (factors learning_rate regularization dtype iterations verify_negative_samples random_state : val T)
    : res (dict T) :=
  if negb has_cuda then Raise ValueError
  else Ok (gmf_init ++
      [("factors", factors); ("learning_rate", learning_rate); ("iterations", iterations); ("regularization", regularization);
       ("verify_negative_samples", verify_negative_samples); ("random_state", random_state)]).

(** Default values of numeric parameters, as the decimal literal they stand for. *)
Class Lits (T : Type) := { lit : Z -> Z -> T }.   (* lit n d : the literal n/d *)

(** cls() *)
Definition als_default {T} `{Lits T} : res (dict T) :=
  als_init (VInt 100) (VFloat (lit 1 100)) (VFloat (lit 1 1)) (VDtype F32) (VBool true) (VBool true) (VInt 15) (VBool false) (VInt 0) VNone.
Definition bpr_default {T} `{Lits T} : res (dict T) :=
  bpr_init (VInt 100) (VFloat (lit 1 100)) (VFloat (lit 1 100)) (VDtype F32) (VInt 100) (VInt 0) (VBool true) VNone.
Definition lmf_default {T} `{Lits T} : res (dict T) :=
  lmf_init (VInt 30) (VFloat (lit 1 1)) (VFloat (lit 6 10)) (VDtype F32) (VInt 30) (VInt 30) (VInt 0) VNone.
Definition item_default {T} : dict T := item_init (VInt 20) (VInt 0).
Definition bm25_default {T} `{Lits T} : dict T := bm25_init (VInt 20) (VFloat (lit 12 10)) (VFloat (lit 75 100)) (VInt 0).
Definition gals_default {T} `{Lits T} (has_cuda : bool) : res (dict T) :=
  gals_init has_cuda (VInt 64) (VFloat (lit 1 100)) (VFloat (lit 1 1)) (VDtype F32) (VInt 15) (VBool false) VNone.
Definition gbpr_default {T} `{Lits T} (has_cuda : bool) : res (dict T) :=
  gbpr_init has_cuda (VInt 100) (VFloat (lit 1 100)) (VFloat (lit 1 100)) (VDtype F32) (VInt 100) (VBool true) VNone.

(* --------------------------------------------------------- save and load *)
(** {k: self.k for k in names}, with the dtype by name. *)
Definition collect {T} (o : dict T) (names : list string) : res (dict T) :=
  map_res (fun k => do v <- getattr o k; do v' <- (if (k =? "dtype")%string then name_of v else Ok v); Ok (k, v')) names.
(** {k: v for k, v in args.items() if v is not None} *)
Definition drop_none {T} (args : dict T) : dict T := filter (fun kv => negb (is_none (snd kv))) args.
Definition save_with {T} (names : list string) (fs : files T) (f : file) (o : dict T) : res (files T) :=
  do args <- collect o names; Ok (np_savez fs f (drop_none args)).

(** implicit/cpu/als.py 457-476 *)
Definition als_names : list string :=
  ["user_factors"; "item_factors"; "regularization"; "factors"; "num_threads"; "iterations"; "use_native"; "use_cg"; "cg_steps";
   "calculate_training_loss"; "dtype"; "random_state"; "alpha"].
Definition als_save {T} := @save_with T als_names.
(** implicit/cpu/bpr.pyx 228-244 *)
Definition bpr_names : list string :=
  ["user_factors"; "item_factors"; "regularization"; "factors"; "learning_rate"; "verify_negative_samples"; "num_threads"; "iterations";
   "dtype"; "random_state"].
Definition bpr_save {T} := @save_with T bpr_names.
(** implicit/cpu/lmf.pyx 201-217 *)
Definition lmf_names : list string :=
  ["user_factors"; "item_factors"; "regularization"; "factors"; "learning_rate"; "neg_prop"; "num_threads"; "iterations"; "dtype"; "random_state"].
Definition lmf_save {T} := @save_with T lmf_names.

(** One round of the loop of implicit/recommender_base.py 195-200.  str(v) of a 0-d string array is the
    string; of other arrays it is text that names no dtype (TypeError). *)
Definition load_step {T} (o : dict T) (kv : string * val T) : res (dict T) :=
  let '(k, a) := kv in
  do v <- npz_read a;
  do v' <- (if (k =? "dtype")%string then (match v with VZero (VStr s) => do d <- np_dtype (T := T) (VStr s); Ok (VDtype d) | _ => Raise TypeError end)
            else match v with VZero x => Ok x | _ => Ok v end);
  Ok (setattr k v' o).
(** implicit/recommender_base.py 172-201; [cls_new] is cls(). *)
Definition base_load {T} (cls_new : res (dict T)) (fs : files T) (f : file) : res (dict T) :=
  do data <- np_load fs (load_name f);
  do ret <- cls_new;
  fold_res load_step data ret.
Definition als_load {T} `{Lits T} := base_load als_default.
Definition bpr_load {T} `{Lits T} := base_load bpr_default.
Definition lmf_load {T} `{Lits T} := base_load lmf_default.

(** A csr similarity matrix is kept as the tuple of its arrays. *)
Record sim (T : Type) := { s_shape : list Z; s_dtype : npdtype; s_data : list T; s_indptr : list Z; s_indices : list Z }.
Arguments s_shape {T}. Arguments s_dtype {T}. Arguments s_data {T}. Arguments s_indptr {T}. Arguments s_indices {T}.
(** An item-item recommender: the parameter dictionary, the similarity matrix, and the scorer built from
    it (implicit/nearest_neighbours.py 25-28, 30-43). *)
Record itemrec (T : Type) := { ir_attrs : dict T; ir_sim : option (sim T); ir_scorer : option (sim T) }.
Arguments ir_attrs {T}. Arguments ir_sim {T}. Arguments ir_scorer {T}.
(** implicit/nearest_neighbours.py 160-167 *)
Definition item_save {T} (fs : files T) (f : file) (m : itemrec T) : res (files T) :=
  do K <- getattr (ir_attrs m) "K";
  let args := ("K", K) ::
    match ir_sim m with
    | None => []
    | Some s => [("shape", VIArr (s_shape s)); ("data", VFArr (s_dtype s) (s_data s)); ("indptr", VIArr (s_indptr s)); ("indices", VIArr (s_indices s))]
    end in
  Ok (np_savez fs f args).
(** implicit/nearest_neighbours.py 169-184; the csr_matrix constructor keeps the arrays it is given. *)
Definition item_load {T} (cls_new : dict T) (fs : files T) (f : file) : res (itemrec T) :=
  do data <- np_load fs (load_name f);
  do s <- match assoc "data" data with
          | None => Ok None
          | Some a =>
              do d <- npz_read a; do ind <- npz_get data "indices"; do ptr <- npz_get data "indptr"; do sh <- npz_get data "shape";
              match d, ind, ptr, sh with
              | VFArr dt l, VIArr i, VIArr p, VIArr s => Ok (Some {| s_shape := s; s_dtype := dt; s_data := l; s_indptr := p; s_indices := i |})
              | _, _, _, _ => Raise ValueError
              end
          end;
  do K <- npz_get data "K";
  Ok {| ir_attrs := setattr "K" K cls_new; ir_sim := s; ir_scorer := s |}.
(** int(v) for the places where K is used: python ints and 0-d integer arrays. *)
Definition as_int {T} (v : val T) : option Z := match v with VInt z => Some z | VZero (VInt z) => Some z | _ => None end.

(** pickle / copy: implicit/nearest_neighbours.py 147-158 *)
Definition item_getstate {T} (m : itemrec T) : dict T * option (sim T) :=
  (filter (fun kv => negb (fst kv =? "scorer")%string) (ir_attrs m), ir_sim m).
Definition item_setstate {T} (st : dict T * option (sim T)) : itemrec T :=
  {| ir_attrs := fst st ++ [("scorer", VNone)]; ir_sim := snd st; ir_scorer := snd st |}.

(* --------------------------------------------------------- CPU <-> GPU *)
(** implicit/gpu/_cuda.pyx 88-114: Matrix(X) takes float32 and float16 arrays only.  (Arrays are taken to
    be C-contiguous and non-empty.) *)
Definition gpu_matrix {T} (v : val T) : res (val T) :=
  match v with VMat F32 m => Ok (VDev F32 m) | VMat F16 m => Ok (VDev F16 m) | VMat F64 _ => Raise ValueError | _ => Raise AttributeError end.
(** Matrix.to_numpy *)
Definition to_numpy {T} (v : val T) : res (val T) := match v with VDev d m => Ok (VMat d m) | _ => Raise AttributeError end.
Definition up_if_some {T} (o ret : dict T) (k : string) : res (dict T) :=
  do v <- getattr o k; if is_none v then Ok ret else do m <- gpu_matrix v; Ok (setattr k m ret).
Definition down_if_some {T} (o ret : dict T) (k : string) : res (dict T) :=
  do v <- getattr o k; if is_none v then Ok (setattr k VNone ret) else do m <- to_numpy v; Ok (setattr k m ret).

(** implicit/cpu/als.py 438-455 *)
Definition als_to_gpu {T} (has_cuda : bool) (o : dict T) : res (dict T) :=
  do factors <- getattr o "factors"; do regularization <- getattr o "regularization"; do alpha <- getattr o "alpha";
  do dtype <- getattr o "dtype"; do iterations <- getattr o "iterations"; do ctl <- getattr o "calculate_training_loss";
  do rs <- getattr o "random_state";
  do ret <- gals_init has_cuda factors regularization alpha dtype iterations ctl rs;
  do ret <- up_if_some o ret "user_factors";
  up_if_some o ret "item_factors".
(** implicit/gpu/als.py 297-310 *)
Definition als_to_cpu {T} (o : dict T) : res (dict T) :=
  do factors <- getattr o "factors"; do regularization <- getattr o "regularization"; do alpha <- getattr o "alpha";
  do dtype <- getattr o "dtype"; do iterations <- getattr o "iterations"; do ctl <- getattr o "calculate_training_loss";
  do rs <- getattr o "random_state";
  do ret <- als_init factors regularization alpha dtype (VBool true) (VBool true) iterations ctl (VInt 0) rs;
  do ret <- down_if_some o ret "user_factors";
  down_if_some o ret "item_factors".
(** implicit/cpu/bpr.pyx 209-226 *)
Definition bpr_to_gpu {T} (has_cuda : bool) (o : dict T) : res (dict T) :=
  do factors <- getattr o "factors"; do lr <- getattr o "learning_rate"; do regularization <- getattr o "regularization";
  do iterations <- getattr o "iterations"; do v <- getattr o "verify_negative_samples"; do rs <- getattr o "random_state";
  do ret <- gbpr_init has_cuda factors lr regularization (VDtype F32) iterations v rs;
  do ret <- up_if_some o ret "user_factors";
  up_if_some o ret "item_factors".
(** implicit/gpu/bpr.py 160-172 *)
Definition bpr_to_cpu {T} (o : dict T) : res (dict T) :=
  do factors <- getattr o "factors"; do lr <- getattr o "learning_rate"; do regularization <- getattr o "regularization";
  do iterations <- getattr o "iterations"; do v <- getattr o "verify_negative_samples"; do rs <- getattr o "random_state";
  do ret <- bpr_init factors lr regularization (VDtype F32) iterations (VInt 0) v rs;
  do ret <- down_if_some o ret "user_factors";
  down_if_some o ret "item_factors".

(** implicit/gpu/matrix_factorization_base.py 211-215 *)
Definition gals_save {T} (fs : files T) (f : file) (o : dict T) : res (files T) := do c <- als_to_cpu o; als_save fs f c.
Definition gals_load {T} `{Lits T} (has_cuda : bool) (fs : files T) (f : file) : res (dict T) :=
  do g <- gals_default has_cuda; do _c <- als_to_cpu g; do c <- als_load fs f; als_to_gpu has_cuda c.
Definition gbpr_save {T} (fs : files T) (f : file) (o : dict T) : res (files T) := do c <- bpr_to_cpu o; bpr_save fs f c.
Definition gbpr_load {T} `{Lits T} (has_cuda : bool) (fs : files T) (f : file) : res (dict T) :=
  do g <- gbpr_default has_cuda; do _c <- bpr_to_cpu g; do c <- bpr_load fs f; bpr_to_gpu has_cuda c.

(** implicit/gpu/matrix_factorization_base.py 217-231: pickling a GPU model. *)
Definition state_factors {T} (o : dict T) (st : dict T) (k : string) : res (dict T) :=
  do v <- getattr o k; if is_none v then Ok (setattr k VNone st) else do m <- to_numpy v; Ok (setattr k m st).
Definition gmf_getstate {T} (o : dict T) : res (dict T) :=
  let st := fold_left (fun st k => setattr k VNone st) ["_knn"; "_user_norms"; "_user_norms_host"; "_item_norms"; "_item_norms_host"] o in
  do st <- state_factors o st "item_factors"; state_factors o st "user_factors".
Definition restore {T} (st : dict T) (k : string) : res (dict T) :=
  do v <- getattr st k; if is_none v then Ok st else do m <- gpu_matrix v; Ok (setattr k m st).
Definition gmf_setstate {T} (st : dict T) : res (dict T) := do st <- restore st "item_factors"; restore st "user_factors".
(** implicit/gpu/als.py 312-324 *)
Definition gals_getstate {T} (o : dict T) : res (dict T) :=
  do st <- gmf_getstate o;
  let st := setattr "_solver" VNone st in
  do st <- state_factors o st "_XtX"; state_factors o st "_YtY".
Definition gals_setstate {T} (st : dict T) : res (dict T) :=
  do st <- gmf_setstate st; do st <- restore st "_XtX"; restore st "_YtY".

(* ------------------------------------------------------------- factories *)
(** implicit/als.py 7-79 *)
Definition als_factory {T} (has_cuda use_gpu : bool) (factors regularization alpha dtype use_native use_cg iterations
    calculate_training_loss num_threads random_state : val T) : res (dict T) :=
  if use_gpu then gals_init has_cuda factors regularization alpha dtype iterations calculate_training_loss random_state
  else als_init factors regularization alpha dtype use_native use_cg iterations calculate_training_loss num_threads random_state.
(** implicit/bpr.py 7-72 *)
Definition bpr_factory {T} (has_cuda use_gpu : bool) (factors learning_rate regularization dtype iterations num_threads
    verify_negative_samples random_state : val T) : res (dict T) :=
  if use_gpu then gbpr_init has_cuda factors learning_rate regularization (VDtype F32) iterations verify_negative_samples random_state
  else bpr_init factors learning_rate regularization dtype iterations num_threads verify_negative_samples random_state.
(** implicit/lmf.py 6-70 *)
Definition lmf_factory {T} (use_gpu : bool) (factors learning_rate regularization dtype iterations neg_prop num_threads random_state : val T)
    : res (dict T) :=
  if use_gpu then Raise NotImplementedError
  else lmf_init factors learning_rate regularization dtype iterations neg_prop num_threads random_state.

(* ---------------------------------------------------------- random_state *)
(** What the outside world supplies: fresh entropy from the operating system, the clock in seconds, and
    the next draw below 2^31 of each existing numpy generator. *)
Record world := { entropy : Z; clock : Z; next_draw : nat -> Z }.
(** The generator the model then uses. *)
Inductive rng := RSeed (s : Z) | RFresh (e : Z) | RGen (i : nat) | RCurand (s : Z).

(** Methods of numpy.random.RandomState returning one integer (numpy documentation). *)
Definition randomstate_methods : list string := ["rand"; "randint"; "randn"; "random_integers"; "random_sample"; "tomaxint"; "bytes"; "choice"; "shuffle"; "permutation"].
Definition call_int_method (w : world) (i : nat) (name : string) : res Z :=
  if existsb (String.eqb name) randomstate_methods then Ok (next_draw w i) else Raise AttributeError.
(** numpy.random.default_rng *)
Definition default_rng {T} (w : world) (v : val T) : res rng :=
  match v with
  | VNone => Ok (RFresh (entropy w))
  | VInt z => if (z <? 0)%Z then Raise ValueError else Ok (RSeed z)
  | VBool b => Ok (RSeed (if b then 1 else 0)%Z)
  | VGenerator i => Ok (RGen i)
  | _ => Raise TypeError
  end.
(** implicit/utils.py 65-83 *)
Definition check_random_state {T} (w : world) (v : val T) : res rng :=
  match v with
  | VRandomState i => do s <- call_int_method w i "rand_int"; default_rng (T := T) w (VInt s)
  | _ => default_rng w v
  end.
(** implicit.gpu.RandomState(long seed), implicit/gpu/_cuda.pyx 28-29 *)
Definition curand_state {T} (v : val T) : res rng :=
  match v with
  | VInt z => if ((- 2 ^ 63 <=? z) && (z <? 2 ^ 63))%Z then Ok (RCurand z) else Raise ValueError (* OverflowError *)
  | VBool b => Ok (RCurand (if b then 1 else 0)%Z)
  | _ => Raise TypeError
  end.
Definition truthy {T} (v : val T) : bool :=
  match v with VNone => false | VBool b => b | VInt z => negb (z =? 0)%Z | VStr s => negb (s =? "")%string | _ => true end.
(** implicit/gpu/matrix_factorization_base.py 234-256 *)
Definition gpu_check_random_state {T} (w : world) (v : val T) : res rng :=
  match v with
  | VRandomState i => do s <- call_int_method w i "randint"; curand_state (T := T) (VInt s)
  | VGenerator i => curand_state (T := T) (VInt (next_draw w i))
  | _ => curand_state (if truthy v then v else VInt (clock w))
  end.
(** Which of the two each model's fit and each splitter calls (implicit/cpu/als.py 125, cpu/bpr.pyx 137,
    cpu/lmf.pyx fit, gpu/bpr.py 84, gpu/als.py fit, evaluation.pyx 32 and 178). *)
Inductive user_of_rng := CpuAls | CpuBpr | CpuLmf | GpuAls | GpuBpr | TrainTestSplit | LeaveKOut.
Definition start_rng {T} (u : user_of_rng) (w : world) (v : val T) : res rng :=
  match u with GpuAls => gpu_check_random_state w v | _ => check_random_state w v end.
