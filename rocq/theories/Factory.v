(** Model of the functions by which models are made: implicit/als.py, implicit/bpr.py,
    implicit/lmf.py, implicit/approximate_als.py, and of the constructors they call.
    Python calls are modelled with positional and keyword arguments. *)
From Coq Require Import String List Arith Bool ZArith.
From Verif Require Import Base.
Import ListNotations.
Local Open Scope string_scope.

(** Values of options: decimal numbers [m * 10^e], booleans, None, types by name, anything else. *)
Inductive val : Type := VNum (m e : Z) | VBool (b : bool) | VNone | VType (s : string) | VOther (n : nat).
Definition args : Type := list (string * val).
(** [if use_gpu:] *)
Definition truth (v : val) : bool :=
  match v with VNum m _ => negb (m =? 0)%Z | VBool b => b | VNone => false | _ => true end.

Fixpoint lookup (n : string) (l : args) : option val :=
  match l with [] => None | (k, v) :: l => if k =? n then Some v else lookup n l end.
Definition has (n : string) (l : args) : bool := match lookup n l with Some _ => true | None => false end.

Fixpoint no_repeats (l : args) : bool :=
  match l with [] => true | (k, _) :: l => negb (has k l) && no_repeats l end.
(** Binding of arguments to a signature with defaults (Python language reference, 6.3.4 Calls). *)
Fixpoint bind_from (sig : args) (pos : list val) (kw : args) : res args :=
  match sig with
  | [] => match pos with [] => Ok [] | _ => Raise TypeError end
  | (n, d) :: sig =>
      match pos with
      | v :: pos => if has n kw then Raise TypeError else do r <- bind_from sig pos kw; Ok ((n, v) :: r)
      | [] => do r <- bind_from sig [] kw; Ok ((n, match lookup n kw with Some v => v | None => d end) :: r)
      end
  end.
Definition bind_args (sig : args) (pos : list val) (kw : args) : res args :=
  if no_repeats kw && forallb (fun p => has (fst p) sig) kw then bind_from sig pos kw else Raise TypeError.
(** The value of a parameter inside the function. *)
Definition get (n : string) (a : args) : val := match lookup n a with Some v => v | None => VNone end.

Definition f32 : val := VType "float32".

(* ------------------------------------------------------------------ the constructors *)
Inductive cls : Type := CpuAls | GpuAls | CpuBpr | GpuBpr | CpuLmf.
(** cpu/als.py:60-72, gpu/als.py:48-57, cpu/bpr.pyx:107-109, gpu/bpr.py:48-57, cpu/lmf.pyx:97-99 *)
Definition init_sig (c : cls) : args :=
  match c with
  | CpuAls => [("factors", VNum 100 0); ("regularization", VNum 1 (-2)); ("alpha", VNum 1 0); ("dtype", f32); ("use_native", VBool true);
               ("use_cg", VBool true); ("iterations", VNum 15 0); ("calculate_training_loss", VBool false); ("num_threads", VNum 0 0); ("random_state", VNone)]
  | GpuAls => [("factors", VNum 64 0); ("regularization", VNum 1 (-2)); ("alpha", VNum 1 0); ("dtype", f32); ("iterations", VNum 15 0);
               ("calculate_training_loss", VBool false); ("random_state", VNone)]
  | CpuBpr => [("factors", VNum 100 0); ("learning_rate", VNum 1 (-2)); ("regularization", VNum 1 (-2)); ("dtype", f32); ("iterations", VNum 100 0);
               ("num_threads", VNum 0 0); ("verify_negative_samples", VBool true); ("random_state", VNone)]
  | GpuBpr => [("factors", VNum 100 0); ("learning_rate", VNum 1 (-2)); ("regularization", VNum 1 (-2)); ("dtype", f32); ("iterations", VNum 100 0);
               ("verify_negative_samples", VBool true); ("random_state", VNone)]
  | CpuLmf => [("factors", VNum 30 0); ("learning_rate", VNum 1 0); ("regularization", VNum 6 (-1)); ("dtype", f32); ("iterations", VNum 30 0);
               ("neg_prop", VNum 30 0); ("num_threads", VNum 0 0); ("random_state", VNone)]
  end.
(** The attributes set from the arguments: cpu/als.py:73-88, gpu/als.py:58-73, cpu/bpr.pyx:110-118,
    gpu/bpr.py:58-67 (dtype is not kept), cpu/lmf.pyx:100-108.  [np.dtype(dtype)] is taken as the type itself. *)
Definition kept (c : cls) (n : string) : bool := match c with GpuBpr => negb (n =? "dtype") | _ => true end.
Definition on_gpu (c : cls) : bool := match c with GpuAls | GpuBpr => true | _ => false end.
Record model : Type := { o_cls : cls; o_attrs : args }.
Definition construct (has_cuda : bool) (c : cls) (pos : list val) (kw : args) : res model :=
  do a <- bind_args (init_sig c) pos kw;
  if on_gpu c && negb has_cuda then Raise ValueError
  else Ok {| o_cls := c; o_attrs := filter (fun p => kept c (fst p)) a |}.

(* ------------------------------------------------------------------ the factories *)
Inductive factory : Type := FAls | FBpr | FLmf.
(** als.py:7-19, bpr.py:7-17, lmf.py:6-16 *)
Definition factory_sig (has_cuda : bool) (f : factory) : args :=
  match f with
  | FAls => [("factors", VNum 100 0); ("regularization", VNum 1 (-2)); ("alpha", VNum 1 0); ("dtype", f32); ("use_native", VBool true);
             ("use_cg", VBool true); ("use_gpu", VBool has_cuda); ("iterations", VNum 15 0); ("calculate_training_loss", VBool false);
             ("num_threads", VNum 0 0); ("random_state", VNone)]
  | FBpr => [("factors", VNum 100 0); ("learning_rate", VNum 1 (-2)); ("regularization", VNum 1 (-2)); ("dtype", f32); ("iterations", VNum 100 0);
             ("use_gpu", VBool has_cuda); ("num_threads", VNum 0 0); ("verify_negative_samples", VBool true); ("random_state", VNone)]
  | FLmf => [("factors", VNum 30 0); ("learning_rate", VNum 1 0); ("regularization", VNum 6 (-1)); ("dtype", f32); ("iterations", VNum 30 0);
             ("neg_prop", VNum 30 0); ("use_gpu", VBool false); ("num_threads", VNum 0 0); ("random_state", VNone)]
  end.
(** als.py:59-80, bpr.py:54-72, lmf.py:56-67 *)
Definition make (has_cuda : bool) (f : factory) (pos : list val) (kw : args) : res model :=
  do a <- bind_args (factory_sig has_cuda f) pos kw;
  let p n := get n a in
  let k n := (n, get n a) in
  match f with
  | FAls =>
      if truth (p "use_gpu") then
        construct has_cuda GpuAls [p "factors"; p "regularization"; p "alpha"]
          [k "dtype"; k "iterations"; k "calculate_training_loss"; k "random_state"]
      else construct has_cuda CpuAls [p "factors"; p "regularization"; p "alpha"; p "dtype"; p "use_native"; p "use_cg"; p "iterations";
                                      p "calculate_training_loss"; p "num_threads"; p "random_state"] []
  | FBpr =>
      if truth (p "use_gpu") then
        construct has_cuda GpuBpr [p "factors"; p "learning_rate"; p "regularization"] [k "iterations"; k "verify_negative_samples"; k "random_state"]
      else construct has_cuda CpuBpr [p "factors"; p "learning_rate"; p "regularization"]
             [k "dtype"; k "num_threads"; k "iterations"; k "verify_negative_samples"; k "random_state"]
  | FLmf =>
      if truth (p "use_gpu") then Raise NotImplementedError
      else construct has_cuda CpuLmf [p "factors"; p "learning_rate"; p "regularization"]
             [k "dtype"; k "iterations"; k "neg_prop"; k "num_threads"; k "random_state"]
  end.

(* ------------------------------------------------------------------ approximate models *)
Inductive wrapper : Type := WNmslib | WAnnoy | WFaiss.
(** approximate_als.py:9-18, 34-42, 55-63: keyword-only parameters with defaults, beside [*args] and [**kwargs]. *)
Definition own (has_cuda : bool) (w : wrapper) : args :=
  ([("approximate_similar_items", VBool true); ("approximate_recommend", VBool true)] ++
  match w with
  | WNmslib => [("method", VType "hnsw"); ("index_params", VNone); ("query_params", VNone)]
  | WAnnoy => [("n_trees", VNum 50 0); ("search_k", VNum (-1) 0)]
  | WFaiss => [("nlist", VNum 400 0); ("nprobe", VNum 20 0)]
  end ++ [("use_gpu", VBool has_cuda)])%list.
(** The attributes of the wrapper (ann/nmslib.py:46-72: None stands for its default parameters, here left as None;
    ann/annoy.py:46-64; ann/faiss.py:51-74). *)
Record ann : Type := { n_wrapper : wrapper; n_model : model; n_attrs : args }.
(** approximate_als.py:19-31, 43-52, 64-76 *)
Definition make_ann (has_cuda : bool) (w : wrapper) (pos : list val) (kw : args) : res ann :=
  if negb (no_repeats kw) then Raise TypeError else
  let mine := filter (fun p => has (fst p) (own has_cuda w)) kw in
  let rest := filter (fun p => negb (has (fst p) (own has_cuda w))) kw in
  do a <- bind_args (own has_cuda w) [] mine;
  do m <- make has_cuda FAls pos (("use_gpu", get "use_gpu" a) :: rest);
  Ok {| n_wrapper := w; n_model := m;
        n_attrs := filter (fun p => match w with WFaiss => true | _ => negb (fst p =? "use_gpu") end) a |}.
