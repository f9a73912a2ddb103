(** Block-wide dot product of the CUDA kernels (implicit/gpu/dot.cuh).

    A block runs [n] threads (blockDim.x) in warps of 32.  The lanes of one warp execute each
    instruction together.  __syncthreads is a barrier for all warps of the block. *)
From Coq Require Import List Arith Lia Bool ZArith.
From Verif Require Import Base Num ThreadProg.
Import ListNotations.

Section Dot.
Context {T : Type} {NT : Num T}.

Definition warp_size : nat := 32.

(** __shfl_down_sync(active, val, offset) (CUDA C++ Programming Guide, Warp Shuffle Functions): lane [i]
    gets the value of lane [i + offset]; past the end of the warp it keeps its own; if that lane is in
    the warp but not active the value is undefined, [undef offset i].  [v]: the values of the active
    lanes 0, 1, ... *)
Definition shfl_down (undef : nat -> nat -> T) (v : list T) (off : nat) : list T :=
  map (fun i => if i + off <? length v then nth (i + off) v nzero
                else if i + off <? warp_size then undef off i else nth i v nzero) (seq 0 (length v)).
Definition add_lists (u v : list T) : list T := map (fun p => nadd (fst p) (snd p)) (combine u v).
(** implicit/gpu/dot.cuh 9-25 warp_reduce_sum: offsets 16, 8, 4, 2, 1. *)
Definition warp_reduce_sum (undef : nat -> nat -> T) (v : list T) : list T :=
  fold_left (fun v off => add_lists v (shfl_down undef v off)) [16; 8; 4; 2; 1] v.
Definition lane0 (v : list T) : T := nth 0 v nzero.

(** Number of warps of a block of [n] threads, (blockDim.x + 31) / 32. *)
Definition num_warps (n : nat) : nat := (n + warp_size - 1) / warp_size.
(** Lines 46-49: the second reduction, by warp 0 (full, since there are more than 32 threads). *)
Definition second_level (undef : nat -> nat -> T) (shared : list T) : T :=
  lane0 (warp_reduce_sum undef (map (fun lane => if lane <? length shared then nth lane shared nzero else nzero) (seq 0 warp_size))).
(** implicit/gpu/dot.cuh 27-58 dot, one call: [prods] are the products a*b of the threads.  Each warp has
    its own undefined values.  The result is the same for all threads (all read shared[0]). *)
Definition block_dot (undef : nat -> nat -> nat -> T) (prods : list T) : T :=
  let shared := map (fun w => lane0 (warp_reduce_sum (undef w) (slice (w * warp_size) (w * warp_size + warp_size) prods))) (seq 0 (num_warps (length prods))) in
  if length prods <=? warp_size then nth 0 shared nzero
  else second_level (undef (num_warps (length prods))) shared.

(* ------------------------------------------------ several calls in a row *)
(** Kernel code as a sequence of calls of dot and barriers.  [KDot ps]: a call in which warp [w]'s first
    level gives [nth w ps]; values computed in between do not touch the shared array. *)
Inductive kop := KDot (parts : list T) | KSync.
(** The accesses of one warp to the shared array, lines 36-57 (more than one warp). *)
Inductive wop := Put (v : T) | Bar | Red | Get.
Definition dot_ops (w : nat) (parts : list T) : list wop :=
  [Put (nth w parts nzero); Bar] ++ (if w =? 0 then [Red] else []) ++ [Bar; Get].
Definition warp_ops (w : nat) (code : list kop) : list wop :=
  flat_map (fun k => match k with KDot parts => dot_ops w parts | KSync => [Bar] end) code.
(** Between two barriers the warps run freely. *)
Fixpoint rounds_of (l : list wop) : list (list wop) :=
  match l with
  | [] => [[]]
  | Bar :: l' => [] :: rounds_of l'
  | o :: l' => match rounds_of l' with [] => [[o]] | r :: rs => (o :: r) :: rs end
  end.

Notation sprog := (prog nat T unit (list T)).
Fixpoint read_all (cells : list nat) (acc : list T) (k : list T -> sprog) : sprog :=
  match cells with [] => k acc | c :: cs => Rd c (fun v => read_all cs (acc ++ [v]) k) end.
(** One warp between two barriers; it returns the values its calls of dot returned. *)
Fixpoint round_prog (undef : nat -> nat -> T) (nw w : nat) (l : list wop) (outs : list T) : sprog :=
  match l with
  | [] => Ret outs
  | Put v :: l' => Wr w v (round_prog undef nw w l' outs)
  | Bar :: l' => round_prog undef nw w l' outs
  | Red :: l' => read_all (seq 0 nw) [] (fun vs => Wr 0 (second_level undef vs) (round_prog undef nw w l' outs))
  | Get :: l' => Rd 0 (fun v => round_prog undef nw w l' (outs ++ [v]))
  end.
Definition app_outs (a b : list (list T)) : list (list T) := map (fun p => fst p ++ snd p) (combine a b).
(** Every run of the block: each round an arbitrary interleaving, the barrier between rounds.  Result:
    for each warp the values of its calls of dot in order. *)
Inductive runs (undef : nat -> nat -> T) (nw : nat) : (nat -> T) -> list (list (list wop)) -> list (list T) -> Prop :=
| runs_nil m : runs undef nw m [] (repeat [] nw)
| runs_round m rd rest sched m' ps' log rs outs :
    interleave Nat.eqb sched m (map (fun p => round_prog undef nw (fst p) (snd p) []) (enum rd)) = (m', ps', log) ->
    results ps' = Some rs -> runs undef nw m' rest outs ->
    runs undef nw m (rd :: rest) (app_outs rs outs).
(** Transpose the rounds of the warps. *)
Definition block_rounds (nw : nat) (code : list kop) : list (list (list wop)) :=
  let per := map (fun w => rounds_of (warp_ops w code)) (seq 0 nw) in
  map (fun i => map (fun rs => nth i rs []) per) (seq 0 (length (nth 0 per []))).
Definition block_run (undef : nat -> nat -> T) (nw : nat) (m : nat -> T) (code : list kop) (outs : list (list T)) : Prop :=
  runs undef nw m (block_rounds nw code) outs.
End Dot.
