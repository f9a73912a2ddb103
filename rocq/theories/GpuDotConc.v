(** Lemmas: rounds of a block between barriers. *)
From Coq Require Import List Arith Lia Bool ZArith Reals Lra.
From Verif Require Import Base Num RVec ThreadProg RaceFree GpuDot GpuDotProofs.
Import ListNotations.

Section Conc.
Variable undef : nat -> nat -> R.
Variable nw : nat.
Notation sprog := (prog nat R unit (list R)).

Definition round (r : nat -> list (wop (T := R))) : list sprog := map (fun w => round_prog undef nw w (r w) []) (seq 0 nw).

Lemma enum_from_map {A} (r : nat -> A) n : forall k, enum_from k (map r (seq k n)) = map (fun w => (w, r w)) (seq k n).
Proof. induction n; intros k; cbn [seq map enum_from]; auto. rewrite IHn. auto. Qed.
Lemma round_of r : map (fun p => round_prog undef nw (fst p) (snd p) []) (enum (map r (seq 0 nw))) = round r.
Proof. unfold enum. rewrite enum_from_map, map_map. reflexivity. Qed.
Lemma round_nth r w : nth_error (round r) w = if w <? nw then Some (round_prog undef nw w (r w) []) else None.
Proof.
  unfold round. destruct (w <? nw) eqn:E.
  - apply Nat.ltb_lt in E. rewrite nth_error_map. rewrite (nth_error_nth' _ 0) by (rewrite seq_length; lia). rewrite seq_nth by lia. reflexivity.
  - apply Nat.ltb_ge in E. apply nth_error_None. rewrite map_length, seq_length. lia.
Qed.
Lemma eqb_spec' : forall a b, Nat.eqb a b = true <-> a = b.
Proof. apply Nat.eqb_eq. Qed.
Lemma results_length ps rs : results (Cell := nat) (Val := R) (Event := unit) (A := list R) ps = Some rs -> length rs = length ps.
Proof.
  revert rs; induction ps as [|p ps IH]; cbn; intros rs HR; [injection HR as <-; auto|].
  destruct p; try discriminate HR. destruct (results ps) as [l|]; [|discriminate HR]. cbn in HR. injection HR as <-. cbn. f_equal. auto.
Qed.

(** All warps write their cell. *)
Lemma put_round v sched m m' ps' log rs :
  interleave Nat.eqb sched m (round (fun w => [Put (v w)])) = (m', ps', log) -> results ps' = Some rs ->
  (forall c, c < nw -> m' c = v c) /\ rs = repeat [] nw.
Proof.
  intros HI HR. edestruct (fun HW => race_free Nat.eqb eqb_spec' (fun c => Some c) sched m _ m' ps' log rs HW HI HR) as (A & B & C & D); [|].
  { intros t p Hp. rewrite round_nth in Hp. destruct (t <? nw) eqn:E; [|discriminate Hp]. injection Hp as <-. cbn. constructor; [reflexivity|constructor; exact I]. }
  assert (Q : forall t, t < nw -> nth_error rs t = Some [] /\ m' t = v t).
  { intros t Ht. destruct (A t (round_prog undef nw t [Put (v t)] [])) as [A1 A2].
    { rewrite round_nth. apply Nat.ltb_lt in Ht. rewrite Ht. auto. }
    split; [exact A1|]. rewrite (A2 t eq_refl). cbn. unfold mset. rewrite Nat.eqb_refl. auto. }
  split; [intros c Hc; apply Q; auto|].
  rewrite <- (map_id rs). apply nth_ext with (d := []) (d' := []).
  { rewrite map_length, repeat_length, C. unfold round. rewrite map_length, seq_length. auto. }
  intros n Hn. rewrite map_length, C in Hn. unfold round in Hn. rewrite map_length, seq_length in Hn. rewrite map_id.
  destruct (Q n Hn) as [Q1 _]. apply nth_error_nth with (d := []) in Q1. rewrite Q1. symmetry. apply nth_repeat.
Qed.

Lemma read_all_alone cells : forall acc (k : list R -> sprog) m, run_alone Nat.eqb (read_all cells acc k) m = run_alone Nat.eqb (k (acc ++ map m cells)) m.
Proof. induction cells as [|c cells IH]; intros acc k m; cbn. { rewrite app_nil_r. auto. } rewrite IH. rewrite <- app_assoc. reflexivity. Qed.
Lemma read_all_safe (PR PW : nat -> Prop) (PE : unit -> Prop) (PA : list R -> Prop) cells : forall acc (k : list R -> sprog), (forall c, In c cells -> PR c) -> (forall vs, safe PR PW PE PA (k vs)) -> safe PR PW PE PA (read_all cells acc k).
Proof. induction cells as [|c cells IH]; intros acc k HP HK; cbn; auto. constructor; [apply HP; simpl; auto|]. intros x. apply IH; auto. intros; apply HP; simpl; auto. Qed.

(** Warp 0 reduces. *)
Lemma red_round sched m m' ps' log rs : 1 <= nw -> nw <= 32 ->
  interleave Nat.eqb sched m (round (fun w => if w =? 0 then [Red] else [])) = (m', ps', log) -> results ps' = Some rs ->
  m' 0 = rsum (map m (seq 0 nw)) /\ rs = repeat [] nw.
Proof.
  intros N1 N2 HI HR. edestruct (fun HW => race_free Nat.eqb eqb_spec' (fun c => Some 0) sched m _ m' ps' log rs HW HI HR) as (A & B & C & D); [|].
  { intros t p Hp. rewrite round_nth in Hp. destruct (t <? nw) eqn:E; [|discriminate Hp]. injection Hp as <-. destruct t; cbn [Nat.eqb round_prog].
    - apply read_all_safe; [intros; left; auto|]. intros vs. constructor; [reflexivity|constructor; exact I].
    - constructor; exact I. }
  assert (Q : forall t, t < nw -> nth_error rs t = Some []).
  { intros t Ht. destruct (A t (round_prog undef nw t (if t =? 0 then [Red] else []) [])) as [A1 A2].
    { rewrite round_nth. apply Nat.ltb_lt in Ht. rewrite Ht. auto. }
    rewrite A1. f_equal. destruct t; cbn [Nat.eqb round_prog]; [|reflexivity]. rewrite read_all_alone. reflexivity. }
  split.
  - destruct (A 0 (round_prog undef nw 0 [Red] [])) as [_ A2].
    { rewrite round_nth. replace (0 <? nw) with true by (symmetry; apply Nat.ltb_lt; lia). auto. }
    rewrite (A2 0 eq_refl). cbn [round_prog]. rewrite read_all_alone. cbn [run_alone fst app]. unfold mset. cbn [Nat.eqb].
    apply second_level_sum. rewrite map_length, seq_length. auto.
  - rewrite <- (map_id rs). apply nth_ext with (d := []) (d' := []).
    { rewrite map_length, repeat_length, C. unfold round. rewrite map_length, seq_length. auto. }
    intros n Hn. rewrite map_length, C in Hn. unfold round in Hn. rewrite map_length, seq_length in Hn. rewrite map_id.
    specialize (Q n Hn). apply nth_error_nth with (d := []) in Q. rewrite Q. symmetry. apply nth_repeat.
Qed.

(** All warps read the result. *)
Lemma get_round sched m m' ps' log rs :
  interleave Nat.eqb sched m (round (fun _ => [Get])) = (m', ps', log) -> results ps' = Some rs -> rs = repeat [m 0] nw.
Proof.
  intros HI HR. edestruct (fun HW => race_free Nat.eqb eqb_spec' (fun c => None) sched m _ m' ps' log rs HW HI HR) as (A & B & C & D); [|].
  { intros t p Hp. rewrite round_nth in Hp. destruct (t <? nw) eqn:E; [|discriminate Hp]. injection Hp as <-. cbn. constructor; [right; reflexivity|]. intros; constructor; exact I. }
  apply nth_ext with (d := []) (d' := []).
  { rewrite repeat_length, C. unfold round. rewrite map_length, seq_length. auto. }
  intros n Hn. rewrite C in Hn. unfold round in Hn. rewrite map_length, seq_length in Hn.
  destruct (A n (round_prog undef nw n [Get] [])) as [A1 _].
  { rewrite round_nth. apply Nat.ltb_lt in Hn. rewrite Hn. auto. }
  apply nth_error_nth with (d := []) in A1. rewrite A1. cbn.
  destruct (nth_in_or_default n (repeat [m 0] nw) []) as [Hin|E]. { apply repeat_spec in Hin. auto. }
  exfalso. assert (X : nth n (repeat [m 0] nw) [m 0] = [m 0]) by apply nth_repeat. rewrite (nth_indep _ [] [m 0]) in E by (rewrite repeat_length; auto). rewrite X in E. discriminate E.
Qed.
Lemma idle_round sched m m' ps' log rs :
  interleave Nat.eqb sched m (round (fun _ => [])) = (m', ps', log) -> results ps' = Some rs -> rs = repeat [] nw.
Proof.
  intros HI HR. edestruct (fun HW => race_free Nat.eqb eqb_spec' (fun c => None) sched m _ m' ps' log rs HW HI HR) as (A & B & C & D); [|].
  { intros t p Hp. rewrite round_nth in Hp. destruct (t <? nw) eqn:E; [|discriminate Hp]. injection Hp as <-. cbn. constructor; exact I. }
  rewrite <- (map_id rs). apply nth_ext with (d := []) (d' := []).
  { rewrite map_length, repeat_length, C. unfold round. rewrite map_length, seq_length. auto. }
  intros n Hn. rewrite map_length, C in Hn. unfold round in Hn. rewrite map_length, seq_length in Hn. rewrite map_id.
  destruct (A n (round_prog undef nw n [] [])) as [A1 _].
  { rewrite round_nth. apply Nat.ltb_lt in Hn. rewrite Hn. auto. }
  apply nth_error_nth with (d := []) in A1. rewrite A1. symmetry. apply nth_repeat.
Qed.

(** Without a barrier in between: all warps read the old result and write their next part.  Warp 0
    still reads the old result; the cells end up with the next parts. *)
Section GetPut.
Variables (v : nat -> R) (m0 : nat -> R).
Definition gp (w : nat) : sprog := Rd 0 (fun x => Wr w (v w) (Ret [x])).
Definition gp_state (m : nat -> R) (w : nat) (p : sprog) : Prop :=
  (p = gp w /\ (w = 0 -> m 0 = m0 0)) \/
  (exists x, p = Wr w (v w) (Ret [x]) /\ (w = 0 -> x = m0 0)) \/
  (exists x, p = Ret [x] /\ (w = 0 -> x = m0 0) /\ m w = v w).
Lemma gp_steps sched : forall m ps log m' ps' log', length ps = nw ->
  (forall w p, nth_error ps w = Some p -> gp_state m w p) ->
  fold_left (tstep Nat.eqb) sched (m, ps, log) = (m', ps', log') ->
  length ps' = nw /\ forall w p, nth_error ps' w = Some p -> gp_state m' w p.
Proof.
  induction sched as [|t sched IH]; intros m ps log m' ps' log' HL HS HE; cbn [fold_left] in HE.
  { injection HE as <- <- <-. auto. }
  unfold tstep at 2 in HE. destruct (nth_error ps t) as [q|] eqn:Eq; [|eapply IH; eauto].
  assert (Ht : t < length ps) by (apply nth_error_Some; congruence).
  assert (NU : forall q1 w p, nth_error (upd t q1 ps) w = Some p -> (w = t /\ p = q1) \/ (w <> t /\ nth_error ps w = Some p)).
  { clear. revert t. induction ps as [|x ps IH]; intros t q1 w p Hp; [destruct t, w; discriminate|]. destruct t, w; cbn in *; auto.
    - left. split; congruence.
    - apply IH in Hp. destruct Hp as [[-> ->]|[? ?]]; auto. }
  destruct (HS t q Eq) as [[-> Q]|[[x [-> Q]]|[x [-> [Q Q2]]]]]; cbn [gp pstep] in HE.
  - eapply IH; [| |exact HE]; [rewrite upd_length; auto|]. intros w p Hp. destruct (NU _ _ _ Hp) as [[-> ->]|[Hn Hp']]; [|apply HS; auto].
    right; left. exists (m 0). split; auto.
  - eapply IH; [| |exact HE]; [rewrite upd_length; auto|]. intros w p Hp. destruct (NU _ _ _ Hp) as [[-> ->]|[Hn Hp']].
    + right; right. exists x. split; [auto|split; [auto|]]. unfold mset. rewrite Nat.eqb_refl. auto.
    + destruct (HS w p Hp') as [[-> S1]|[S1|[y [-> [S1 S2]]]]].
      * left. split; auto. intros ->. unfold mset. destruct (t =? 0) eqn:E; [apply Nat.eqb_eq in E; congruence|]. auto.
      * right; left; auto.
      * right; right. exists y. split; [auto|split; [auto|]]. unfold mset. destruct (t =? w) eqn:E; [apply Nat.eqb_eq in E; congruence|]. auto.
  - eapply IH; [| |exact HE]; [rewrite upd_length; auto|]. intros w p Hp. destruct (NU _ _ _ Hp) as [[-> ->]|[Hn Hp']]; [|apply HS; auto].
    right; right. exists x. auto.
Qed.
End GetPut.
Lemma get_put_round v sched m m' ps' log rs : 1 <= nw ->
  interleave Nat.eqb sched m (round (fun w => [Get; Put (v w)])) = (m', ps', log) -> results ps' = Some rs ->
  (forall c, c < nw -> m' c = v c) /\ nth 0 rs [] = [m 0] /\ length rs = nw.
Proof.
  intros N1 HI HR.
  destruct (gp_steps v m sched m (round (fun w => [Get; Put (v w)])) [] m' ps' log) as [L S].
  { unfold round. rewrite map_length, seq_length. auto. }
  { intros w p Hp. rewrite round_nth in Hp. destruct (w <? nw) eqn:E; [|discriminate Hp]. injection Hp as <-. left. split; auto. }
  { exact HI. }
  assert (RES : ps' = map (fun a => Ret a) rs).
  { clear - HR. revert rs HR. induction ps' as [|p ps' IH]; cbn; intros rs HR; [injection HR as <-; auto|].
    destruct p; try discriminate HR. destruct (results ps') as [l|]; [|discriminate HR]. cbn in HR. injection HR as <-. cbn. f_equal. apply IH. auto. }
  subst ps'. rewrite map_length in L.
  assert (Q : forall w, w < nw -> exists x, nth w rs [] = [x] /\ (w = 0 -> x = m 0) /\ m' w = v w).
  { intros w Hw. specialize (S w (Ret (nth w rs []))). rewrite nth_error_map in S. rewrite (nth_error_nth' rs []) in S by lia. specialize (S eq_refl).
    destruct S as [[S _]|[[x [S _]]|[x [S [S1 S2]]]]]; try discriminate S. injection S as S. exists x. auto. }
  split; [intros c Hc; destruct (Q c Hc) as [x [_ [_ E]]]; auto|]. split; auto.
  destruct (Q 0 ltac:(lia)) as [x [E [E2 _]]]. rewrite E, E2; auto.
Qed.


(* --------------------------------------------------------- the transposed rounds *)
Notation RD code := (fun w => rounds_of (warp_ops w code)).
Definition tr (f : nat -> list (list (wop (T := R)))) (n : nat) : list (list (list wop)) :=
  map (fun i => map (fun rs => nth i rs []) (map f (seq 0 nw))) (seq 0 n).
Lemma tr_cons f r g n : (forall w, f w = r w :: g w) -> tr f (S n) = map r (seq 0 nw) :: tr g n.
Proof.
  intros H. unfold tr. cbn [seq map]. f_equal.
  - rewrite map_map. apply map_ext. intros w. rewrite H. auto.
  - rewrite <- seq_shift, map_map. apply map_ext. intros i. rewrite !map_map. apply map_ext. intros w. rewrite H. auto.
Qed.
Lemma block_rounds_tr code : 1 <= nw -> block_rounds nw code = tr (RD code) (length (rounds_of (warp_ops 0 code))).
Proof. intros N1. unfold block_rounds, tr. destruct nw; [lia|]. reflexivity. Qed.
Lemma runs_inv m r rest outs : runs undef nw m (map r (seq 0 nw) :: rest) outs ->
  exists sched m' ps' log rs outs', interleave Nat.eqb sched m (round r) = (m', ps', log) /\ results ps' = Some rs /\ runs undef nw m' rest outs' /\ outs = app_outs rs outs'.
Proof. intros H. inversion H; subst. rewrite round_of in H2. exists sched, m', ps', log, rs, outs0. auto. Qed.
Lemma app_outs_repeat (a b : list R) n : app_outs (repeat a n) (repeat b n) = repeat (a ++ b) n.
Proof. unfold app_outs. induction n; cbn; auto. f_equal. auto. Qed.
Lemma app_outs_0 (a b : list (list R)) : 0 < length a -> 0 < length b -> nth 0 (app_outs a b) [] = nth 0 a [] ++ nth 0 b [].
Proof. intros. destruct a, b; cbn in *; try lia. auto. Qed.
Lemma app_outs_length (a b : list (list R)) : length (app_outs a b) = Nat.min (length a) (length b).
Proof. unfold app_outs. rewrite map_length, combine_length. auto. Qed.

(** The rounds of a call. *)
Lemma rounds_sync v code w : rounds_of (warp_ops w (KDot v :: KSync :: code)) =
  [Put (nth w v nzero)] :: (if w =? 0 then [Red] else []) :: [Get] :: rounds_of (warp_ops w code).
Proof. unfold warp_ops, dot_ops. destruct (w =? 0); reflexivity. Qed.
Lemma rounds_next v v' code w : exists rest, rounds_of (warp_ops w (KDot v' :: code)) = [Put (nth w v' nzero)] :: (if w =? 0 then [Red] else []) :: rest w /\
  rounds_of (warp_ops w (KDot v :: KDot v' :: code)) = [Put (nth w v nzero)] :: (if w =? 0 then [Red] else []) :: [Get; Put (nth w v' nzero)] :: (if w =? 0 then [Red] else []) :: rest w.
Proof.
  exists (fun w => skipn 2 (rounds_of (warp_ops w (KDot v' :: code)))).
  unfold warp_ops, dot_ops. destruct (w =? 0); cbn; (split; [|]); destruct (rounds_of _); reflexivity.
Qed.
Lemma rounds_last v w : rounds_of (warp_ops w [KDot v]) = [[Put (nth w v nzero)]; (if w =? 0 then [Red] else []); [Get]].
Proof. unfold warp_ops, dot_ops. destruct (w =? 0); reflexivity. Qed.

Lemma nth_seq_list (v : list R) n m : length v = n -> (forall c, c < n -> m c = nth c v 0%R) -> map m (seq 0 n) = v.
Proof.
  intros L H. apply nth_ext with (d := 0%R) (d' := 0%R); [rewrite map_length, seq_length; auto|].
  intros i Hi. rewrite map_length, seq_length in Hi. rewrite (nth_indep _ 0%R (m 0)) by (rewrite map_length, seq_length; auto). rewrite map_nth, seq_nth by auto. apply H. auto.
Qed.

(** A barrier after each call. *)
Fixpoint synced (calls : list (list R)) : list kop := match calls with [] => [] | v :: cs => KDot v :: KSync :: synced cs end.
Lemma synced_runs (N1 : 1 <= nw) (N2 : nw <= 32) calls : Forall (fun v => length v = nw) calls -> forall m outs,
  runs undef nw m (tr (RD (synced calls)) (length (rounds_of (warp_ops 0 (synced calls))))) outs -> outs = repeat (map rsum calls) nw.
Proof.
  induction calls as [|v calls IH]; intros HF m outs HR.
  - cbn [synced warp_ops flat_map rounds_of length] in HR. rewrite (tr_cons _ (fun _ => []) (fun _ => [])) in HR by reflexivity.
    apply runs_inv in HR. destruct HR as (sched & m' & ps' & log & rs & outs' & HI & HR & HN & ->).
    inversion HN; subst. rewrite (idle_round _ _ _ _ _ _ HI HR). rewrite app_outs_repeat. auto.
  - inversion HF; subst. cbn [synced] in HR. rewrite rounds_sync in HR. cbn [length] in HR.
    rewrite (tr_cons _ _ _ _ (fun w => rounds_sync v (synced calls) w)) in HR.
    apply runs_inv in HR. destruct HR as (sched & m1 & ps' & log & rs & outs' & HI & HE & HR & ->).
    apply put_round with (rs := rs) in HI; auto. destruct HI as [M1 ->].
    rewrite (tr_cons _ (fun w => if w =? 0 then [Red] else []) (fun w => [Get] :: rounds_of (warp_ops w (synced calls)))) in HR by reflexivity.
    apply runs_inv in HR. destruct HR as (sched2 & m2 & ps2 & log2 & rs2 & outs2 & HI & HE2 & HR & ->).
    apply red_round with (rs := rs2) in HI; auto. destruct HI as [M2 ->].
    rewrite (tr_cons _ (fun w => [Get]) (fun w => rounds_of (warp_ops w (synced calls)))) in HR by reflexivity.
    apply runs_inv in HR. destruct HR as (sched3 & m3 & ps3 & log3 & rs3 & outs3 & HI & HE3 & HR & ->).
    apply get_round with (rs := rs3) in HI; auto. subst rs3.
    apply IH in HR; auto. subst outs3. rewrite !app_outs_repeat. cbn [app map]. do 2 f_equal.
    rewrite M2. f_equal. apply nth_seq_list; auto.
Qed.

(** No barrier: warp 0. *)
Lemma runs_outs_length m rds outs : runs undef nw m rds outs -> Forall (fun rd => length rd = nw) rds -> length outs = nw.
Proof.
  induction 1; intros HF; [apply repeat_length|]. inversion HF; subst. rewrite app_outs_length. rewrite IHruns by auto.
  replace (length rs) with (length rd); [lia|]. apply results_length in H0. rewrite H0.
  assert (G : forall sched m ps log m' ps' log', fold_left (tstep (Cell := nat) (Val := R) (Event := unit) (A := list R) Nat.eqb) sched (m, ps, log) = (m', ps', log') -> length ps' = length ps).
  { clear. induction sched as [|t sched IH]; cbn [fold_left]; intros m ps log m' ps' log' HE; [injection HE as <- <- <-; auto|].
    unfold tstep at 2 in HE. destruct (nth_error ps t); [|eapply IH; eauto]. destruct (pstep Nat.eqb m p) as [[m1 p1] es]. apply IH in HE. rewrite HE. apply upd_length. }
  unfold interleave in H. apply G in H. rewrite H, map_length. unfold enum. rewrite enum_from_length. auto.
Qed.
Lemma tr_widths f n : Forall (fun rd => length rd = nw) (tr f n).
Proof. unfold tr. apply Forall_forall. intros x Hx. apply in_map_iff in Hx. destruct Hx as [i [<- _]]. rewrite !map_length, seq_length. auto. Qed.

(** Runs after the first write of the next call: the parts are in the cells. *)
Lemma chain_runs (N1 : 1 <= nw) (N2 : nw <= 32) calls : forall v, length v = nw -> Forall (fun v => length v = nw) calls -> forall m outs n,
  n = length (rounds_of (warp_ops 0 (map KDot (v :: calls)))) - 1 ->
  (forall c, c < nw -> m c = nth c v 0%R) ->
  runs undef nw m (tr (fun w => tl (rounds_of (warp_ops w (map KDot (v :: calls))))) n) outs -> nth 0 outs [] = map rsum (v :: calls).
Proof.
  induction calls as [|v' calls IH]; intros v LV HF m outs n HN M HR.
  - cbn [map] in HR, HN. rewrite rounds_last in HN. cbn in HN. subst n.
    rewrite (tr_cons _ (fun w => if w =? 0 then [Red] else []) (fun w => [[Get]])) in HR by (intros; rewrite rounds_last; reflexivity).
    apply runs_inv in HR. destruct HR as (sched2 & m2 & ps2 & log2 & rs2 & outs2 & HI & HE2 & HR & ->).
    apply red_round with (rs := rs2) in HI; auto. destruct HI as [M2 ->].
    rewrite (tr_cons _ (fun w => [Get]) (fun w => [])) in HR by reflexivity.
    apply runs_inv in HR. destruct HR as (sched3 & m3 & ps3 & log3 & rs3 & outs3 & HI & HE3 & HR & ->).
    apply get_round with (rs := rs3) in HI; auto. subst rs3. inversion HR; subst. rewrite !app_outs_repeat.
    destruct nw; [lia|]. cbn [repeat nth app map]. f_equal. rewrite M2. f_equal. apply nth_seq_list; auto.
  - inversion HF; subst. cbn [map] in HR.
    assert (E : forall w, rounds_of (warp_ops w (KDot v :: map KDot (v' :: calls))) = [Put (nth w v nzero)] :: (if w =? 0 then [Red] else []) :: [Get; Put (nth w v' nzero)] :: tl (rounds_of (warp_ops w (map KDot (v' :: calls))))).
    { intros w. cbn [map]. destruct (rounds_next v v' (map KDot calls) w) as [rest [E1 E2]]. rewrite E1, E2. auto. }
    cbn [map] in E. rewrite E in HR. cbn [length] in HR. rewrite Nat.sub_1_r in HR. cbn [Nat.pred] in HR.
    rewrite (tr_cons _ (fun w => if w =? 0 then [Red] else []) (fun w => [Get; Put (nth w v' nzero)] :: tl (rounds_of (warp_ops w (KDot v' :: map KDot calls))))) in HR by (intros; rewrite E; reflexivity).
    apply runs_inv in HR. destruct HR as (sched2 & m2 & ps2 & log2 & rs2 & outs2 & HI & HE2 & HR & ->).
    apply red_round with (rs := rs2) in HI; auto. destruct HI as [M2 ->].
    rewrite (tr_cons _ (fun w => [Get; Put (nth w v' nzero)]) (fun w => tl (rounds_of (warp_ops w (KDot v' :: map KDot calls))))) in HR by reflexivity.
    apply runs_inv in HR. destruct HR as (sched3 & m3 & ps3 & log3 & rs3 & outs3 & HI & HE3 & HR & ->).
    apply get_put_round with (rs := rs3) in HI; auto. destruct HI as (M3 & R3 & L3).
    assert (L4 : length outs3 = nw) by (eapply runs_outs_length; [exact HR|apply tr_widths]).
    specialize (IH v' H1 H2 m3 outs3 _ eq_refl M3). cbn [map] in IH.
    rewrite app_outs_0 by (rewrite ?repeat_length, ?app_outs_length; lia). rewrite app_outs_0 by lia.
    rewrite R3, IH; [|]. 2:{ replace (length (rounds_of (warp_ops 0 (KDot v' :: map KDot calls))) - 1) with (length (tl (rounds_of (warp_ops 0 (KDot v' :: map KDot calls))))); [exact HR|]. destruct (rounds_of _); cbn; lia. }
    replace (nth 0 (repeat (@nil R) nw) []) with (@nil R) by (symmetry; apply nth_repeat). cbn [app map]. f_equal. rewrite M2. f_equal. apply nth_seq_list; auto.
Qed.
End Conc.
