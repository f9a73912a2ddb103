(** C65, C78, C79: the block reduction of the GPU kernels. *)
From Coq Require Import List Arith Lia Bool ZArith Reals Lra.
From Verif Require Import Base Num RVec ThreadProg RaceFree GpuDot GpuDotProofs GpuDotConc.
Import ListNotations.

(** C65: for every block whose size is a multiple of 32, up to 1024 threads, and all factor values, the
    reduction returns the inner product of the two rows (whatever the undefined lanes hold). *)
Theorem C65_block_dot undef (a b : list R) m : 1 <= m <= 32 -> length a = m * 32 -> length b = m * 32 ->
  block_dot undef (map (fun p => nmul (fst p) (snd p)) (combine a b)) = rdot a b.
Proof.
  intros HM LA LB. set (prods := map _ (combine a b)).
  assert (LP : length prods = m * 32) by (unfold prods; rewrite map_length, combine_length; lia).
  rewrite block_sum by (rewrite ?LP; try lia; intros w Hw; rewrite num_warps_mul in Hw; apply warp32; rewrite slice_length, LP; lia).
  unfold prods. clear. revert b; induction a as [|x a IH]; intros [|y b]; cbn; auto. rewrite IH. reflexivity.
Qed.
Example C65_example : exists a b : list R, length a = 64 /\ length b = 64 /\ block_dot (fun _ _ _ => 7%R) (map (fun p => nmul (fst p) (snd p)) (combine a b)) = 128%R.
Proof.
  exists (repeat 1%R 64), (repeat 2%R 64). repeat split. rewrite (C65_block_dot _ _ _ 2) by (auto; lia). cbn. lra.
Qed.

(** C78, every number of factors up to 1024: it would hold if reads of inactive lanes gave 0. *)
Theorem C78_partial (a b : list R) : 0 < length a <= 1024 -> length b = length a ->
  block_dot (fun _ _ _ => 0%R) (map (fun p => nmul (fst p) (snd p)) (combine a b)) = rdot a b.
Proof.
  intros HA LB. set (prods := map _ (combine a b)).
  assert (LP : length prods = length a) by (unfold prods; rewrite map_length, combine_length; lia).
  rewrite block_sum by (rewrite ?LP; try lia; intros w Hw; apply warp_partial; rewrite slice_length; lia).
  unfold prods. clear. revert b; induction a as [|x a IH]; intros [|y b]; cbn; auto. rewrite IH. reflexivity.
Qed.
(** But CUDA leaves them undefined, and the default number of factors of the factory functions, 100, is not a
    multiple of 32: the last warp of the block has 4 active lanes. *)
Theorem C78_refuted : exists undef (a b : list Z), length a = 100 /\ length b = 100 /\
  block_dot undef (map (fun p => nmul (fst p) (snd p)) (combine a b)) <> ndot a b.
Proof.
  exists (fun _ _ _ => 1%Z), (repeat 1%Z 100), (repeat 1%Z 100). split; [reflexivity|split; [reflexivity|]].
  vm_compute. discriminate.
Qed.

(* ------------------------------------------------------------------- C79 *)
(** The specification: every warp gets, for each call in order, the sum of that call's parts. *)
Definition totals (calls : list (list R)) : list R := map rsum calls.
(** Kernel code with a barrier after each call. *)
Definition with_barriers (calls : list (list R)) : list kop := flat_map (fun v => [KDot v; KSync]) calls.

(** With a barrier after every call, in every interleaving of every number of calls, all warps get the
    right sums. *)
Theorem C79_barriers_partial undef nw m calls outs : 1 <= nw <= 32 -> Forall (fun v => length v = nw) calls ->
  block_run undef nw m (with_barriers calls) outs -> outs = repeat (totals calls) nw.
Proof.
  intros [N1 N2] HF HR. replace (with_barriers calls) with (synced calls) in HR by (clear; unfold with_barriers; induction calls; cbn; congruence).
  unfold block_run in HR. rewrite block_rounds_tr in HR by auto. apply synced_runs in HR; auto.
Qed.
(** C65, one call alone: in every interleaving all warps get the sum. *)
Theorem C65_every_warp undef nw m v outs : 1 <= nw <= 32 -> length v = nw ->
  block_run undef nw m [KDot v] outs -> outs = repeat [rsum v] nw.
Proof.
  intros [N1 N2] LV HR. unfold block_run in HR. rewrite block_rounds_tr in HR by auto. rewrite rounds_last in HR. cbn [length] in HR.
  rewrite (tr_cons nw _ _ _ _ (fun w => rounds_last v w)) in HR.
  apply runs_inv in HR. destruct HR as (sched & m1 & ps' & log & rs & outs' & HI & HE & HR & ->).
  apply put_round with (rs := rs) in HI; auto. destruct HI as [M1 ->].
  rewrite (tr_cons nw _ (fun w => if w =? 0 then [Red] else []) (fun w => [[Get]])) in HR by reflexivity.
  apply runs_inv in HR. destruct HR as (sched2 & m2 & ps2 & log2 & rs2 & outs2 & HI & HE2 & HR & ->).
  apply red_round with (rs := rs2) in HI; auto. destruct HI as [M2 ->].
  rewrite (tr_cons nw _ (fun w => [Get]) (fun w => [])) in HR by reflexivity.
  apply runs_inv in HR. destruct HR as (sched3 & m3 & ps3 & log3 & rs3 & outs3 & HI & HE3 & HR & ->).
  apply get_round with (rs := rs3) in HI; auto. subst rs3. inversion HR; subst. rewrite !app_outs_repeat. cbn [app map]. do 2 f_equal.
  rewrite M2. f_equal. apply nth_seq_list; auto.
Qed.
(** Calls in a row without barriers, as the kernels make them: warp 0 still gets the right sums. *)
Theorem C79_warp0_partial undef nw m v calls outs : 1 <= nw <= 32 -> Forall (fun v => length v = nw) (v :: calls) ->
  block_run undef nw m (map KDot (v :: calls)) outs -> nth 0 outs [] = totals (v :: calls).
Proof.
  intros [N1 N2] HF HR. unfold block_run in HR. rewrite block_rounds_tr in HR by auto. inversion HF; subst.
  assert (E : forall w, rounds_of (warp_ops w (map KDot (v :: calls))) = [Put (nth w v nzero)] :: tl (rounds_of (warp_ops w (map KDot (v :: calls))))).
  { intros w. destruct calls as [|v' calls]; cbn [map]; [rewrite rounds_last; auto|]. destruct (rounds_next v v' (map KDot calls) w) as [rest [_ E2]]. rewrite E2. auto. }
  replace (length (rounds_of (warp_ops 0 (map KDot (v :: calls))))) with (S (length (rounds_of (warp_ops 0 (map KDot (v :: calls)))) - 1)) in HR
    by (rewrite E; cbn [length]; lia).
  rewrite (tr_cons _ _ _ _ _ E) in HR. apply runs_inv in HR. destruct HR as (sched & m1 & ps' & log & rs & outs' & HI & HE & HR & ->).
  apply put_round with (rs := rs) in HI; auto. destruct HI as [M1 ->].
  assert (L4 : length outs' = length v) by (eapply runs_outs_length; [exact HR|apply tr_widths]).
  apply chain_runs in HR; auto.
  rewrite app_outs_0 by (rewrite ?repeat_length; lia). rewrite HR. replace (nth 0 (repeat (@nil R) (length v)) []) with (@nil R) by (symmetry; apply nth_repeat). reflexivity.
Qed.
(** The other warps need not: the kernels have no barrier between the calls.  Two warps, two calls: warp 1 gets
    10, a part of the second call, as the result of the first call. *)
Theorem C79_refuted : exists undef nw m (v1 v2 : list Z) outs, nw = 2 /\ length v1 = nw /\ length v2 = nw /\
  block_run undef nw m [KDot v1; KDot v2] outs /\ nth 1 outs [] <> [nsum v1; nsum v2].
Proof.
  exists (fun _ _ => 0%Z), 2, (fun _ => 0%Z), [1;2]%Z, [10;20]%Z, [[3;30];[10;30]]%Z. do 3 (split; [reflexivity|]). split; [|vm_compute; discriminate].
  unfold block_run. replace (block_rounds 2 _) with [ [[Put 1%Z];[Put 2%Z]]; [[Red];[]]; [[Get; Put 10%Z];[Get; Put 20%Z]]; [[Red];[]]; [[Get];[Get]] ] by reflexivity.
  change [[3;30];[10;30]]%Z with (app_outs [[];[]] (app_outs [[];[]] (app_outs [[3];[10]] (app_outs [[];[]] (app_outs [[30];[30]] [[];[]])))))%Z.
  eapply (runs_round _ _ _ _ _ [0;1]); [reflexivity|reflexivity|].
  eapply (runs_round _ _ _ _ _ [0;0;0]); [reflexivity|reflexivity|].
  eapply (runs_round _ _ _ _ _ [0;0;1;1]); [reflexivity|reflexivity|].
  eapply (runs_round _ _ _ _ _ [0;0;0]); [reflexivity|reflexivity|].
  eapply (runs_round _ _ _ _ _ [0;1]); [reflexivity|vm_compute; reflexivity|].
  apply (runs_nil _ 2).
Qed.
(** The hypotheses can be met: such runs exist. *)
Example C79_example : exists outs, block_run (fun _ _ => 5%R) 2 (fun _ => 9%R) (with_barriers [[1;2];[3;4]]%R) outs.
Proof.
  eexists. unfold block_run. replace (block_rounds 2 _) with [ [[Put 1%R];[Put 2%R]]; [[Red];[]]; [[Get];[Get]]; [[Put 3%R];[Put 4%R]]; [[Red];[]]; [[Get];[Get]]; [[];[]] ] by reflexivity.
  eapply (runs_round _ _ _ _ _ [1;0]); [reflexivity|reflexivity|].
  eapply (runs_round _ _ _ _ _ [0;0;0]); [reflexivity|reflexivity|].
  eapply (runs_round _ _ _ _ _ [0;1]); [reflexivity|reflexivity|].
  eapply (runs_round _ _ _ _ _ [1;0]); [reflexivity|reflexivity|].
  eapply (runs_round _ _ _ _ _ [0;0;0]); [reflexivity|reflexivity|].
  eapply (runs_round _ _ _ _ _ [0;1]); [reflexivity|reflexivity|].
  eapply (runs_round _ _ _ _ _ []); [reflexivity|reflexivity|].
  apply (runs_nil _ 2).
Qed.
Example C79_example_unsynced : exists outs, block_run (fun _ _ => 5%R) 2 (fun _ => 9%R) (map KDot [[1;2];[3;4]]%R) outs.
Proof.
  eexists. unfold block_run. replace (block_rounds 2 _) with [ [[Put 1%R];[Put 2%R]]; [[Red];[]]; [[Get; Put 3%R];[Get; Put 4%R]]; [[Red];[]]; [[Get];[Get]] ] by reflexivity.
  eapply (runs_round _ _ _ _ _ [1;0]); [reflexivity|reflexivity|].
  eapply (runs_round _ _ _ _ _ [0;0;0]); [reflexivity|reflexivity|].
  eapply (runs_round _ _ _ _ _ [0;1;1;0]); [reflexivity|reflexivity|].
  eapply (runs_round _ _ _ _ _ [0;0;0]); [reflexivity|reflexivity|].
  eapply (runs_round _ _ _ _ _ [0;1]); [reflexivity|reflexivity|].
  apply (runs_nil _ 2).
Qed.

Print Assumptions C65_block_dot.
Print Assumptions C78_partial.
Print Assumptions C78_refuted.
Print Assumptions C79_barriers_partial.
Print Assumptions C65_every_warp.
Print Assumptions C79_warp0_partial.
Print Assumptions C79_refuted.
