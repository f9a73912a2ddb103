(** What "the N best of these candidates" means, independently of any algorithm. *)
From Coq Require Import List Arith Bool Sorted.
From Verif Require Import Num.
Import ListNotations.

Section Spec.
Context {T : Type} `{Num T}.

(** [ids]/[scores] is a list of the [n] best candidates for the function [score]:
    right length, right scores, no repeats, only candidates, in non-increasing
    order of score, and nothing better was left out. *)
Record TopN (score : nat -> T) (cands : list nat) (n : nat) (ids : list nat) (scores : list T)
  : Prop := {
  topn_length : length ids = n;
  topn_scores : scores = map score ids;
  topn_nodup : NoDup ids;
  topn_incl : incl ids cands;
  topn_sorted : StronglySorted (fun i j => nleb (score j) (score i) = true) ids;
  topn_best : forall i j, In i ids -> In j cands -> ~ In j ids -> nleb (score j) (score i) = true
}.

End Spec.
