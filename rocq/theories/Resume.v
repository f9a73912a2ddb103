(** Training an already trained BPR model: implicit/cpu/bpr.pyx. *)
From Coq Require Import List Arith Bool.
From Verif Require Import Base Num Sparse ThreadProg BprModel.
Import ListNotations.

(** bpr.pyx:122-207 [fit] of a model that has factors ([m]): lines 158-173 leave them as they are. *)
Definition bpr_fit_again {T} `{Num T} (o : bpr_opts) (user_items : csr T) (m : bmem) (inputs : list (list (list (nat * nat)) * list nat)) :=
  bpr_epochs o (bpr_matrix o user_items) inputs 0 m.
