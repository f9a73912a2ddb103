(** Programs of racing threads: sequences of single memory accesses, interleaved in any
    order (each access atomic, sequentially consistent). *)
From Coq Require Import List Arith Lia Bool.
From Verif Require Import Base.
Import ListNotations.

Section Prog.
Context {Cell Val Event A : Type} (cell_eqb : Cell -> Cell -> bool).

(** [Ev] marks a point of the program for the statements; it has no effect. *)
Inductive prog : Type :=
| Ret (a : A)
| Rd (c : Cell) (k : Val -> prog)
| Wr (c : Cell) (v : Val) (k : prog)
| Ev (e : Event) (k : prog).

Definition mem : Type := Cell -> Val.
Definition mset (m : mem) (c : Cell) (v : Val) : mem := fun c' => if cell_eqb c c' then v else m c'.

(** One step of one thread. *)
Definition pstep (m : mem) (p : prog) : mem * prog * list Event :=
  match p with
  | Ret a => (m, Ret a, [])
  | Rd c k => (m, k (m c), [])
  | Wr c v k => (mset m c v, k, [])
  | Ev e k => (m, k, [e])
  end.
(** All threads; the schedule names the thread to step (ignored if there is none). *)
Definition tstep (s : mem * list prog * list Event) (t : nat) : mem * list prog * list Event :=
  let '(m, ps, log) := s in
  match nth_error ps t with
  | None => s
  | Some p => let '(m', p', es) := pstep m p in (m', upd t p' ps, log ++ es)
  end.
Definition interleave (sched : list nat) (m : mem) (ps : list prog) : mem * list prog * list Event :=
  fold_left tstep sched (m, ps, []).
(** All threads have returned. *)
Fixpoint results (ps : list prog) : option (list A) :=
  match ps with
  | [] => Some []
  | Ret a :: ps' => option_map (cons a) (results ps')
  | _ => None
  end.
(** One thread alone. *)
Fixpoint run_alone (p : prog) (m : mem) : mem * A * list Event :=
  match p with
  | Ret a => (m, a, [])
  | Rd c k => run_alone (k (m c)) m
  | Wr c v k => run_alone k (mset m c v)
  | Ev e k => let '(m', a, es) := run_alone k m in (m', a, e :: es)
  end.

(** Whatever values are read: accesses, events and results are as stated. *)
Section Safe.
Variables (PR PW : Cell -> Prop) (PE : Event -> Prop) (PA : A -> Prop).
Inductive safe : prog -> Prop :=
| safe_ret a : PA a -> safe (Ret a)
| safe_rd c k : PR c -> (forall v, safe (k v)) -> safe (Rd c k)
| safe_wr c v k : PW c -> safe k -> safe (Wr c v k)
| safe_ev e k : PE e -> safe k -> safe (Ev e k).
End Safe.
End Prog.
Arguments prog : clear implicits.
