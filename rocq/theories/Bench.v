(** Model of the benchmark script benchmarks/benchmark_als.py: what it measures, draws and writes.

    [fit] stands for building a model (with 25, or [iterations], iterations) and fitting it: the values its callback is
    given, one per iteration (training losses or elapsed seconds), or the exception it raises.  Parsing the arguments,
    reading and weighting the input file (201), printing, logging and the looks of a graph other than its lines, their
    colours and labels are left out. *)
From Coq Require Import List Arith Bool String.
From Verif Require Import Base Num.
Import ListNotations.
Local Open Scope string_scope.
Local Open Scope list_scope.

Section Model.
Context {T : Type} {NT : Num T}.
(** A dict with string keys, in insertion order. *)
Definition dict (A : Type) : Type := list (string * A).
Fixpoint get {A} (d : dict A) (key : string) : option A :=
  match d with [] => None | (k', v) :: d => if String.eqb k' key then Some v else get d key end.
Fixpoint put {A} (d : dict A) (key : string) (v : A) : dict A :=
  match d with [] => [(key, v)] | (k', v') :: d => if String.eqb k' key then (k', v) :: d else (k', v') :: put d key v end.
(** [d[key].append(v)] of a [defaultdict(list)]. *)
Definition append {A} (d : dict (list A)) (key : string) (v : A) : dict (list A) :=
  put d key (match get d key with Some l => l | None => [] end ++ [v]).

(** 16-63: the models in the order they are fitted, and the loss of each iteration under the model's name. *)
Definition accuracy_models (cuda : bool) : list string := ["cg2"; "cg3"; "cg4"] ++ (if cuda then ["gpu"] else []) ++ ["cholesky"].
Definition benchmark_accuracy (cuda : bool) (fit : string -> res (list T)) : res (dict (list T)) :=
  fold_res (fun out name => do losses <- fit name; Ok (fold_left (fun o v => append o name v) losses out)) (accuracy_models cuda) [].

(** Python's [min] of a list: the first of the smallest. *)
Definition py_min (l : list T) : res T :=
  match l with
  | [] => Raise ValueError
  | x :: r => Ok (fold_left (fun m y => if nltb y m then y else m) r x)
  end.
(** 66-118.  [times[name][factors]]: here one dict from names to lists of (factors, elapsed).  [nat_T]: the number of
    factors as a number. *)
Definition speed_models (cuda : bool) : list string := ["cg2"; "cg3"; "cg4"; "cholesky"] ++ (if cuda then ["gpu"] else []).
Definition speed_factors : list nat := map (fun i => 32 * S i) (seq 0 8).
Definition at_factors (factors : nat) (stats : list (nat * T)) : list T :=
  map snd (filter (fun p => (fst p =? factors)%nat) stats).
Definition speed_step (cuda : bool) (nat_T : nat -> T) (fit : string -> nat -> res (list T)) (st : dict (list (nat * T)) * dict (list T)) (factors : nat)
  : res (dict (list (nat * T)) * dict (list T)) :=
  let (times, output) := st in
  do times <- fold_res (fun t name => do el <- fit name factors; Ok (fold_left (fun o v => append o name (factors, v)) el t)) (speed_models cuda) times;
  let output := append output "factors" (nat_T factors) in
  do output <- fold_res (fun o p => do m <- py_min (at_factors factors (snd p)); Ok (append o (fst p) m)) times output;
  Ok (times, output).
Definition benchmark_times (cuda : bool) (nat_T : nat -> T) (fit : string -> nat -> res (list T)) : res (dict (list T)) :=
  do st <- fold_res (speed_step cuda nat_T fit) speed_factors ([], []); Ok (snd st).

(** 121-135. *)
Definition LABELS : dict string :=
  [("cg2", "CG (2 Steps/Iteration)"); ("cg3", "CG (3 Steps/Iteration)"); ("cg4", "CG (4 Steps/Iteration)"); ("gpu", "GPU"); ("cholesky", "Cholesky")].
Definition COLOURS : dict string := [("cg2", "#2ca02c"); ("cg3", "#ff7f0e"); ("cg4", "#c5b0d5"); ("gpu", "#1f77b4"); ("cholesky", "#d62728")].
(** One line of a graph: horizontal and vertical positions, colour ([None]: matplotlib picks one), text at its end. *)
Definition graph_line : Type := list T * list T * option string * string.
(** [ax.plot(xs, ys)] needs as many of one as of the other; [l[-1]] needs an element. *)
Definition plot (xs ys : list T) : res unit := if (List.length xs =? List.length ys)%nat then Ok tt else Raise ValueError.
Definition last_of (l : list T) : res unit := match l with [] => Raise IndexError | _ => Ok tt end.
Definition item {A} (d : dict A) (key : string) : res A := match get d key with Some v => Ok v | None => Raise KeyError end.
(** 138-160: the lines of the graph saved in line 160.  [labels.get(key, LABELS[key])] evaluates its second argument in
    any case.  [data] is a plain dict or, as [main] passes it, a defaultdict that has the key "factors". *)
Definition generate_speed_graph (data : dict (list T)) (labels colours : dict string) : res (list graph_line) :=
  do factors <- item data "factors";
  map_res (fun key =>
    do ys <- item data key;
    do _ <- plot factors ys;
    do _ <- last_of factors;
    do _ <- last_of ys;
    do dflt <- item LABELS key;
    let text := match get labels key with Some l => l | None => dflt end in
    let colour := match get colours key with Some c => Some c | None => get COLOURS key end in
    Ok (factors, ys, colour, text)) (map fst data).
(** 163-175. *)
Definition generate_loss_graph (nat_T : nat -> T) (data : dict (list T)) : res (list graph_line) :=
  do ch <- item data "cholesky";
  let iterations := map nat_T (seq 1 (List.length ch)) in
  map_res (fun key =>
    do ys <- item data key;
    do colour <- item COLOURS key;
    do _ <- plot iterations ys;
    do _ <- last_of iterations;
    do _ <- last_of ys;
    do text <- item LABELS key;
    Ok (iterations, ys, Some colour, text)) (map fst data).

(** 178-216: the files written, in order, and how the script ends. *)
Inductive file : Type := Json (name : string) (content : dict (list T)) | Png (name : string) (content : list graph_line).
Definition graph_part (graph : bool) (name : string) (drawn : res (list graph_line)) : list file * res unit :=
  if graph then match drawn with Ok g => ([Png name g], Ok tt) | Raise e => ([], Raise e) end else ([], Ok tt).
Definition part (asked graph : bool) (json png : string) (measured : res (dict (list T))) (draw : dict (list T) -> res (list graph_line)) : list file * res unit :=
  if asked then
    match measured with
    | Raise e => ([], Raise e)
    | Ok d => let (w, r) := graph_part graph png (draw d) in (Json json d :: w, r)
    end
  else ([], Ok tt).
Definition bench_main (loss speed graph cuda : bool) (nat_T : nat -> T) (fit_loss : string -> res (list T)) (fit_time : string -> nat -> res (list T))
  : list file * res unit :=
  match part loss graph "als_accuracy.json" "als_accuracy.png" (benchmark_accuracy cuda fit_loss) (generate_loss_graph nat_T) with
  | (w, Raise e) => (w, Raise e)
  | (w, Ok _) =>
      let (w', r) := part speed graph "als_speed.json" "als_speed.png" (benchmark_times cuda nat_T fit_time) (fun d => generate_speed_graph d [] []) in
      (w ++ w', r)
  end.
End Model.
