(** What the package finds on the machine: the check of the BLAS thread pools
    (implicit/utils.py:15-62) and the test for a usable GPU at import time
    (implicit/gpu/__init__.py:1-20).  The wording of the messages is left out; the library
    and the number of threads they name are kept. *)
From Coq Require Import String List Arith Lia Bool ZArith.
From Verif Require Import Base PersistModel.
Import ListNotations.
Local Open Scope string_scope.
Local Open Scope list_scope.

(* -------------------------------------------------------------------- BLAS *)
(** One entry of threadpoolctl.threadpool_info(). *)
Record pool : Type := { po_user_api : string; po_internal_api : string; po_threads : Z }.
(** The three messages (utils.py:35-43, 44-52, 53-61). *)
Inductive blas_warning : Type := WOpenBlas (threads : Z) | WMkl (threads : Z) | WBlas (library : string) (threads : Z).
(** How check_blas_config ends: it returns, or a warning is raised because the user turned
    warnings into errors. *)
Inductive blas_end : Type := Returned | RaisedWarning (w : blas_warning).

(** utils.py:34-61: the message chosen for one entry. *)
Definition blas_message (p : pool) : blas_warning :=
  if po_internal_api p =? "openblas" then WOpenBlas (po_threads p)
  else if po_internal_api p =? "mkl" then WMkl (po_threads p)
  else WBlas (po_internal_api p) (po_threads p).
(** utils.py:28-61: the loop.  [strict w]: the warning filters turn [w] into an exception.
    The answer lists the warnings issued, in order, including one that was raised. *)
Fixpoint blas_loop (strict : blas_warning -> bool) (info : list pool) : list blas_warning * blas_end :=
  match info with
  | [] => ([], Returned)
  | p :: info' =>
      if (negb (po_user_api p =? "blas") || (po_threads p =? 1)%Z)%bool then blas_loop strict info'
      else let w := blas_message p in
           if strict w then ([w], RaisedWarning w)
           else let '(ws, e) := blas_loop strict info' in (w :: ws, e)
  end.
(** utils.py:18-62: [checked] is the module's [_checked_blas_config]. *)
Definition check_blas_config (strict : blas_warning -> bool) (info : list pool) (checked : bool) : list blas_warning * blas_end * bool :=
  if checked then ([], Returned, checked)
  else let '(ws, e) := blas_loop strict info in
       match e with Returned => (ws, e, true) | RaisedWarning _ => (ws, e, checked) end.

(** The machine and the warning filters at the time a model is built. *)
Record moment : Type := { mo_info : list pool; mo_strict : blas_warning -> bool }.
(** The constructor of the CPU ALS model, implicit/cpu/als.py:60-95, as far as the check goes: the
    warnings the user sees, whether a model comes out, and the new state of the module. *)
Definition build_als (mo : moment) (checked : bool) : list blas_warning * bool * bool :=
  let '(ws, e, c) := check_blas_config (mo_strict mo) (mo_info mo) checked in
  (ws, match e with Returned => true | RaisedWarning _ => false end, c).
(** CPU ALS models built one after the other in one process; a failed one is caught by the
    caller.  utils.py:15: the flag starts as False. *)
Fixpoint build_from (checked : bool) (ms : list moment) : list (list blas_warning * bool) :=
  match ms with
  | [] => []
  | mo :: ms' => let '(ws, ok, c) := build_als mo checked in (ws, ok) :: build_from c ms'
  end.
Definition build_all (ms : list moment) : list (list blas_warning * bool) := build_from false ms.

(* --------------------------------------------------------------------- GPU *)
(** Kinds of exceptions the import statement tells apart. *)
Inductive import_exn : Type := EImport | ERuntime | EOther.
(** [ext]: what importing the compiled extension raises, if anything; [count]: what
    cudaGetDeviceCount reports, None for an error code.  gpu/utils.h:14-24 and 69-73 turn the error code
    into std::runtime_error, which utils.pxd:2 ("except +") makes a RuntimeError. *)
Record gpu_world : Type := { gw_ext : option import_exn; gw_count : option nat }.
(** gpu/_cuda.pyx:284-285 *)
Definition get_device_count (w : gpu_world) : import_exn + nat :=
  match gw_count w with None => inl ERuntime | Some n => inr n end.
(** gpu/__init__.py:3-20: HAS_CUDA and whether a warning is issued, or the exception that
    escapes from the import. *)
Definition gpu_import (w : gpu_world) : import_exn + (bool * bool) :=
  let body := match gw_ext w with
              | Some e => inl e
              | None => match get_device_count w with inl e => inl e | inr _ => inr true end
              end in
  match body with
  | inr has => inr (has, false)
  | inl ERuntime => inr (false, true)
  | inl EImport => inr (false, false)
  | inl EOther => inl EOther
  end.
(** implicit/als.py:14 and implicit/bpr.py:13: calls without use_gpu take the value HAS_CUDA had at
    import. *)
Definition als_factory_auto {T} (has_cuda : bool) (factors regularization alpha dtype use_native use_cg iterations
    calculate_training_loss num_threads random_state : val T) : res (dict T) :=
  als_factory has_cuda has_cuda factors regularization alpha dtype use_native use_cg iterations calculate_training_loss num_threads random_state.
Definition bpr_factory_auto {T} (has_cuda : bool) (factors learning_rate regularization dtype iterations num_threads
    verify_negative_samples random_state : val T) : res (dict T) :=
  bpr_factory has_cuda has_cuda factors learning_rate regularization dtype iterations num_threads verify_negative_samples random_state.
