(** C143: users and items without interactions have no influence on BPR and LMF. *)
From Coq Require Import List Arith Lia Bool ZArith QArith Permutation.
From Verif Require Import Base Num Heap Sparse TopkModel RecommendModel AlsModel ThreadProg BprModel BprProofs LmfModel LmfProofs EmptyProofs EmptyProofs2
  PropBpr PropLmf PropEmpty.
Import ListNotations.
Local Open Scope nat_scope.

Lemma strangers_enlarged {T} k j (M M' : csr T) : with_strangers k j M M' -> enlarged k j M M'.
Proof.
  intros (ER & EC & ES). split; auto. split; auto. split; intros u Hu; rewrite ES by lia; destruct (Nat.ltb_spec u (c_rows M)); auto; lia.
Qed.

(* ------------------------------------------------------------------ BPR *)
(** The random numbers of an epoch pick stored ratings. *)
Definition picks_ratings {T} (M : csr T) (inputs : list (list (list (nat * nat)) * list nat)) : Prop :=
  forall draws sched, In (draws, sched) inputs -> forall ds, In ds draws -> forall a b, In (a, b) ds ->
  a < length (c_indices M) /\ b < length (c_indices M).

(** Training on the larger matrix with the same random numbers and the same interleaving
    gives every cell, every update and every callback that training without the
    strangers gives, whatever random numbers the strangers themselves are dealt. *)
Theorem C143_bpr : forall T (NT : Num T) (o : bpr_opts) k j (M M' : csr T) rx ry rx' ry' inputs,
  csr_wf M -> csr_tight M -> csr_wf M' -> csr_tight M' -> with_strangers k j M M' ->
  (forall u c, u < c_rows M -> rx' u c = rx u c) -> (forall i c, i < c_cols M -> ry' i c = ry i c) -> picks_ratings M inputs ->
  bpr_fit o M' rx' ry' inputs = bpr_fit o M rx ry inputs.
Proof.
  intros T NT o k j M M' rx ry rx' ry' inputs W TM W' TM' HS RX RY B. apply (bpr_fit_more k j); auto; [apply strangers_enlarged; auto|].
  intros [draws sched] Hi ds Hds [a b] Hdr. exact (B draws sched Hi ds Hds a b Hdr).
Qed.
Print Assumptions C143_bpr.
(** [ex_M] with one more user and two more items, one epoch of two threads that runs to
    its end. *)
Definition c143_M : csr Q := csr_of_rows 5 [[(1, 1%Q); (0, 1%Q)]; [(1, 1%Q)]; []; []].
Definition c143_in : list (list (list (nat * nat)) * list nat) := [([[(2, 0)]; [(0, 2)]], repeat 0 40 ++ repeat 1 40)].
Lemma c143_ok : csr_wf c143_M /\ csr_tight c143_M /\ with_strangers 1 2 ex_M c143_M.
Proof.
  split; [|split].
  - apply csr_of_rows_wf. intros r p Hr Hp. simpl in Hr. repeat (destruct Hr as [<-|Hr]; [simpl in Hp; repeat (destruct Hp as [<-|Hp]; [simpl; lia|]); contradiction|]). contradiction.
  - apply of_rows_tight.
  - split; [reflexivity|]. split; [reflexivity|]. intros u Hu. do 4 (destruct u as [|u]; [reflexivity|]). vm_compute in Hu. lia.
Qed.
Example C143_bpr_example : picks_ratings ex_M c143_in /\ exists r, bpr_fit ex_o c143_M (fun u c => if u <? 3 then 1 else 7)%Q (fun i c => if i <? 3 then 2 else 9)%Q c143_in = Some r /\
  bpr_fit ex_o ex_M (fun _ _ => 1%Q) (fun _ _ => 2%Q) c143_in = Some r.
Proof.
  assert (P : picks_ratings ex_M c143_in).
  { intros draws sched [E|[]] ds Hds a b Hab. injection E as <- <-. destruct Hds as [<-|[<-|[]]]; destruct Hab as [E|[]]; injection E as <- <-; vm_compute; lia. }
  split; auto. destruct c143_ok as (W' & T' & HS).
  assert (X : exists r, bpr_fit ex_o ex_M (fun _ _ => 1%Q) (fun _ _ => 2%Q) c143_in = Some r) by (eexists; vm_compute; reflexivity).
  destruct X as [r Er]. exists r. split; auto. rewrite <- Er.
  apply (C143_bpr Q Num_Q ex_o 1 2 ex_M c143_M); auto; try apply ex_M_ok.
  - intros u c Hu. change (c_rows ex_M) with 3 in Hu. destruct (Nat.ltb_spec u 3); auto. lia.
  - intros u c Hu. change (c_cols ex_M) with 3 in Hu. destruct (Nat.ltb_spec u 3); auto. lia.
Qed.

(* ------------------------------------------------------------------ LMF *)
(** The rows a thread gets are those it had, with any strangers in between, and its random
    stream is the same. *)
Definition same_share (r : nat) (d d' : list nat * (nat -> nat)) : Prop := fst d = filter (fun u => u <? r) (fst d') /\ snd d = snd d'.
Definition same_epoch (r c : nat) (e e' : epoch_input) : Prop :=
  let '((deal1, sched1), (deal2, sched2)) := e in
  let '((deal1', sched1'), (deal2', sched2')) := e' in
  Forall2 (same_share r) deal1 deal1' /\ sched1 = sched1' /\ Forall2 (same_share c) deal2 deal2' /\ sched2 = sched2'.
(** Threads are given rows of the matrix. *)
Definition deals_rows (r c : nat) (e : epoch_input) : Prop :=
  (forall d, In d (fst (fst e)) -> forall u, In u (fst d) -> u < r) /\ (forall d, In d (fst (snd e)) -> forall u, In u (fst d) -> u < c).

Theorem C143_lmf : forall T (NT : Num T) (o : lmf_opts) f k j (M M' : csr T) rx ry rx' ry' inputs inputs',
  csr_wf M -> csr_tight M -> csr_wf M' -> csr_tight M' -> with_strangers k j M M' ->
  (forall u c, u < c_rows M -> rx' u c = rx u c) -> (forall i c, i < c_cols M -> ry' i c = ry i c) ->
  Forall2 (same_epoch (c_rows M) (c_cols M)) inputs inputs' -> Forall (deals_rows (c_rows M') (c_cols M')) inputs' ->
  lmf_fit o f M' None None rx' ry' inputs' = lmf_fit o f M None None rx ry inputs.
Proof.
  intros T NT o f k j M M' rx ry rx' ry' inputs inputs' W TM W' TM' HS RX RY HI HD.
  rewrite (lmf_fit_more o k j M M' W TM W' TM' (strangers_enlarged k j M M' HS) f rx ry rx' ry' inputs'); auto.
  - f_equal. clear HD. assert (S1 : forall r d d', Forall2 (same_share r) d d' -> deal_known r d' = d).
    { intros r d d' F. induction F as [|[a b] [a' b'] d d' [E1 E2] F IH]; simpl; auto. simpl in *. subst. f_equal; auto. }
    induction HI as [|[[d1 s1] [d2 s2]] [[d1' s1'] [d2' s2']] l l' (F1 & -> & F2 & ->) HI IH]; cbn [map]; auto. rewrite IH. f_equal.
    unfold input_known. cbn [fst snd]. rewrite (S1 _ _ _ F1), (S1 _ _ _ F2). auto.
  - intros i Hi. rewrite Forall_forall in HD. apply (HD i Hi).
Qed.
Print Assumptions C143_lmf.
(** [ex_lM] with one more user and one more item, dealt to the second and the first
    thread. *)
Definition c143_lM : csr Q := csr_of_rows 6 [[(0, 1%Q); (1, 2%Q); (2, 1%Q); (4, 1%Q)]; []; [(1, 3%Q)]; []].
Definition c143_users : list (list nat * (nat -> nat)) := [([0; 1], fun k => Nat.modulo (2 * k) 5); ([3; 2], fun k => Nat.modulo (3 * k) 5)].
Definition c143_items (l : list nat) : list (list nat * (nat -> nat)) := [([0; 2; 4] ++ l, fun k => Nat.modulo (2 * k) 5); ([1; 3], fun k => Nat.modulo (3 * k) 5)].
Definition c143_s : list nat := repeat 0 400 ++ repeat 1 400.
Definition c143_small : list epoch_input := [((ex_deal, c143_s), (c143_items [], c143_s))].
Definition c143_large : list epoch_input := [((c143_users, c143_s), (c143_items [5], c143_s))].
Example C143_lmf_example : csr_wf c143_lM /\ csr_tight c143_lM /\ with_strangers 1 1 ex_lM c143_lM /\
  Forall2 (same_epoch (c_rows ex_lM) (c_cols ex_lM)) c143_small c143_large /\ Forall (deals_rows (c_rows c143_lM) (c_cols c143_lM)) c143_large /\
  exists r, lmf_fit ex_lo 1 ex_lM None None (fun _ _ => 1%Q) (fun _ _ => 1%Q) c143_small = Some r.
Proof.
  split; [|split; [|split; [|split; [|split]]]].
  - apply csr_of_rows_wf. intros r p Hr Hp. simpl in Hr. repeat (destruct Hr as [<-|Hr]; [simpl in Hp; repeat (destruct Hp as [<-|Hp]; [simpl; lia|]); contradiction|]). contradiction.
  - apply of_rows_tight.
  - split; [reflexivity|]. split; [reflexivity|]. intros u Hu. do 4 (destruct u as [|u]; [reflexivity|]). vm_compute in Hu. lia.
  - repeat constructor.
  - constructor; [|constructor]. split; intros d Hd u Hu; simpl in Hd; destruct Hd as [<-|[<-|[]]]; simpl in Hu; vm_compute; intuition lia.
  - assert (E : match lmf_fit ex_lo 1 ex_lM None None (fun _ _ => 1%Q) (fun _ _ => 1%Q) c143_small with Some _ => true | None => false end = true) by (vm_compute; reflexivity).
    destruct (lmf_fit ex_lo 1 ex_lM None None (fun _ _ => 1%Q) (fun _ _ => 1%Q) c143_small) as [r|]; [exists r; reflexivity|discriminate].
Qed.
