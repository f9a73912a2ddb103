(** The benchmark script: property C145 of properties.jsonl. *)
From Coq Require Import List Arith Lia Bool String Reals Lra.
From Verif Require Import Base Num RVec Bench.
Import ListNotations.
Local Open Scope string_scope.
Local Open Scope list_scope.

(* ------------------------------------------------------------------ C145 *)
(** The graph of the timings is never drawn, whatever the data and whatever labels and
    colours are passed. *)
Lemma get_in {A} (d : dict A) key v : get d key = Some v -> In key (map fst d).
Proof.
  induction d as [|[k v'] d IH]; simpl; [discriminate|]. destruct (String.eqb_spec k key); auto.
Qed.
Lemma map_res_raise {A B} (f : A -> res B) l x e : In x l -> f x = Raise e -> exists e', map_res f l = Raise e'.
Proof.
  intros HI HE. induction l as [|y l IH]; [destruct HI|]. simpl. destruct (f y) as [b|e'] eqn:E; simpl; [|eauto].
  destruct HI as [->|HI]; [congruence|]. destruct (IH HI) as [e' ->]. simpl. eauto.
Qed.
Theorem C145_speed_graph : forall T (data : dict (list T)) labels colours, exists e, generate_speed_graph data labels colours = Raise e.
Proof.
  intros T data labels colours. unfold generate_speed_graph, item at 1. destruct (get data "factors") as [fs|] eqn:E; [|simpl; eauto]. cbn [bind].
  assert (X : exists e, (fun key => do ys <- item data key; do _ <- plot fs ys; do _ <- last_of fs; do _ <- last_of ys; do dflt <- item LABELS key;
    let text := match get labels key with Some l => l | None => dflt end in
    let colour := match get colours key with Some c => Some c | None => get COLOURS key end in Ok (fs, ys, colour, text)) "factors" = Raise e).
  { cbv beta. unfold item at 1. rewrite E. cbn [bind]. destruct (plot fs fs); cbn [bind]; [|eauto]. destruct (last_of fs); cbn; eauto. }
  destruct X as [e X]. exact (map_res_raise _ _ _ _ (get_in _ _ _ E) X).
Qed.
Print Assumptions C145_speed_graph.

Section Measured.
Context {T : Type} {NT : Num T}.
Definition cur {A} (d : dict (list A)) key : list A := match get d key with Some l => l | None => [] end.
Lemma put_put {A} (d : dict A) key v w : put (put d key v) key w = put d key w.
Proof.
  induction d as [|[k x] d IH]; simpl; [rewrite String.eqb_refl; auto|].
  destruct (String.eqb_spec k key) as [->|N]; simpl; [rewrite String.eqb_refl; auto|]. destruct (String.eqb_spec k key); [congruence|]. f_equal; auto.
Qed.
Lemma get_put {A} (d : dict A) key v : get (put d key v) key = Some v.
Proof.
  induction d as [|[k x] d IH]; simpl; [rewrite String.eqb_refl; auto|].
  destruct (String.eqb_spec k key) as [->|N]; simpl; [rewrite String.eqb_refl; auto|]. destruct (String.eqb_spec k key); [congruence|]. auto.
Qed.
Lemma append_all {A} key (l : list A) d : l <> [] -> fold_left (fun o v => append o key v) l d = put d key (cur d key ++ l).
Proof.
  intros NE. destruct l as [|x l]; [congruence|]. clear NE. revert d x. induction l as [|y l IH]; intros d x; [reflexivity|].
  cbn [fold_left] in *. rewrite (IH (append d key x) y). unfold append, cur. rewrite get_put, put_put, <- app_assoc. reflexivity.
Qed.
Lemma append_all_map {A B} key (g : A -> B) (l : list A) d : l <> [] -> fold_left (fun o v => append o key (g v)) l d = put d key (cur d key ++ map g l).
Proof.
  intros NE. rewrite <- append_all by (destruct l; [congruence|discriminate]).
  clear NE. revert d. induction l as [|y l IH]; intros d; cbn [fold_left map]; auto.
Qed.
(** The losses under the names of the models. *)
Lemma accuracy_ok cuda (L : string -> list T) fit : (forall n, In n (accuracy_models cuda) -> fit n = Ok (L n) /\ L n <> []) ->
  benchmark_accuracy cuda fit = Ok (map (fun n => (n, L n)) (accuracy_models cuda)).
Proof.
  intros H. unfold benchmark_accuracy. destruct cuda; cbn [accuracy_models app fold_res map] in *;
  repeat (match goal with |- context [fit ?n] => let E := fresh in let N := fresh in destruct (H n ltac:(simpl; tauto)) as [E N]; rewrite E; clear E; cbn [bind fold_res]; rewrite (append_all n (L n)) by exact N; unfold cur; cbn [get put app String.eqb Ascii.eqb Bool.eqb] end); reflexivity.
Qed.

Variable nat_T : nat -> T.
Variable E : string -> nat -> list T.
Definition least (l : list T) : T := match l with [] => nzero | x :: r => fold_left (fun m y => if nltb y m then y else m) r x end.
Definition rec_times models (fs : list nat) : dict (list (nat * T)) := map (fun n => (n, flat_map (fun f => map (pair f) (E n f)) fs)) models.
Definition rec_out models (fs : list nat) : dict (list T) := ("factors", map nat_T fs) :: map (fun n => (n, map (fun f => least (E n f)) fs)) models.
Lemma at_new n f fs : ~ In f fs -> at_factors f (flat_map (fun f => map (pair f) (E n f)) fs ++ map (pair f) (E n f)) = E n f.
Proof.
  intros NI. unfold at_factors. rewrite filter_app, map_app.
  assert (X : filter (fun p => (fst p =? f)%nat) (flat_map (fun f => map (pair f) (E n f)) fs) = []).
  { induction fs as [|g fs IH]; auto. cbn [flat_map]. rewrite filter_app, IH by (intros X; apply NI; simpl; auto).
    assert (G : (g =? f)%nat = false) by (apply Nat.eqb_neq; intros ->; apply NI; simpl; auto).
    rewrite app_nil_r. clear - G. induction (E n g); simpl; auto. rewrite G. auto. }
  rewrite X. simpl. clear. induction (E n f); simpl; auto. rewrite Nat.eqb_refl. simpl. f_equal. auto.
Qed.
Lemma least_ok l : l <> [] -> py_min l = Ok (least l).
Proof. destruct l; [congruence|]. reflexivity. Qed.
Lemma speed_step_ok cuda fit f fs (times : dict (list (nat * T))) (out : dict (list T)) : ~ In f fs -> (forall n, In n (speed_models cuda) -> fit n f = Ok (E n f) /\ E n f <> []) ->
  (fs = [] /\ times = [] /\ out = [] \/ times = rec_times (speed_models cuda) fs /\ out = rec_out (speed_models cuda) fs) ->
  speed_step cuda nat_T fit (times, out) f = Ok (rec_times (speed_models cuda) (fs ++ [f]), rec_out (speed_models cuda) (fs ++ [f])).
Proof.
  intros NI H ST. unfold speed_step.
  assert (ET : fold_res (fun t name => do el <- fit name f; Ok (fold_left (fun o v => append o name (f, v)) el t)) (speed_models cuda) times = Ok (rec_times (speed_models cuda) (fs ++ [f]))).
  { destruct ST as [(-> & -> & ->)|[-> ->]]; destruct cuda; cbn [speed_models app fold_res map rec_times] in *;
    repeat (match goal with |- context [fit ?n f] => let E1 := fresh in let N := fresh in destruct (H n ltac:(simpl; tauto)) as [E1 N]; rewrite E1; clear E1; cbn [bind fold_res];
      rewrite (append_all_map n (pair f) (E n f)) by exact N; unfold cur; cbn [get put app String.eqb Ascii.eqb Bool.eqb] end);
    rewrite ?flat_map_app; cbn [flat_map app]; rewrite ?app_nil_r; reflexivity. }
  rewrite ET. cbn [bind].
  assert (MM : forall n, In n (speed_models cuda) -> py_min (at_factors f (flat_map (fun f => map (pair f) (E n f)) (fs ++ [f]))) = Ok (least (E n f))).
  { intros n Hn. rewrite flat_map_app. cbn [flat_map]. rewrite app_nil_r, at_new by auto. apply least_ok. apply H; auto. }
  assert (EO : fold_res (fun o p => do m <- py_min (at_factors f (snd p)); Ok (append o (fst p) m)) (rec_times (speed_models cuda) (fs ++ [f])) (append out "factors" (nat_T f)) = Ok (rec_out (speed_models cuda) (fs ++ [f]))).
  { assert (GEN : out = [] /\ fs = [] \/ out = rec_out (speed_models cuda) fs) by (destruct ST as [(-> & -> & ->)|[-> ->]]; auto). clear ST ET.
    unfold rec_times, rec_out, append in *. destruct cuda; cbn [speed_models app map] in *;
    cbn [fold_res fst snd]; rewrite !MM by (simpl; tauto); cbn [bind fold_res];
    destruct GEN as [[-> ->]| ->]; cbn [get put app map String.eqb Ascii.eqb Bool.eqb]; rewrite ?map_app; reflexivity. }
  rewrite EO. reflexivity.
Qed.
Lemma speed_ok cuda fit : (forall n f, In n (speed_models cuda) -> In f speed_factors -> fit n f = Ok (E n f) /\ E n f <> []) ->
  benchmark_times cuda nat_T fit = Ok (rec_out (speed_models cuda) speed_factors).
Proof.
  intros H. unfold benchmark_times.
  assert (G : forall todo fs (times : dict (list (nat * T))) (out : dict (list T)), NoDup (fs ++ todo) -> (forall f, In f todo -> In f speed_factors) ->
    (fs = [] /\ todo <> [] /\ times = [] /\ out = [] \/ times = rec_times (speed_models cuda) fs /\ out = rec_out (speed_models cuda) fs) ->
    fold_res (speed_step cuda nat_T fit) todo (times, out) = Ok (rec_times (speed_models cuda) (fs ++ todo), rec_out (speed_models cuda) (fs ++ todo))).
  { induction todo as [|f todo IH]; intros fs times out ND SUB ST.
    - destruct ST as [(_ & X & _)|[-> ->]]; [congruence|]. cbn [fold_res]. rewrite app_nil_r. auto.
    - cbn [fold_res]. rewrite (speed_step_ok cuda fit f fs times out).
      + cbn [bind]. rewrite (IH (fs ++ [f])); rewrite <- ?app_assoc; auto. intros g Hg. apply SUB. simpl; auto.
      + intros X. apply NoDup_remove_2 in ND. apply ND. apply in_or_app. auto.
      + intros n Hn. apply H; auto. apply SUB; simpl; auto.
      + destruct ST as [(-> & _ & -> & ->)|[-> ->]]; auto. }
  pose proof (G speed_factors [] [] []) as G0. match goal with |- bind ?x _ = _ => change x with (fold_res (speed_step cuda nat_T fit) speed_factors (@nil (string * list (nat * T)) : dict (list (nat * T)), @nil (string * list T) : dict (list T))) end.
  rewrite G0; [reflexivity| | |].
  - cbn. repeat constructor; cbn; lia.
  - auto.
  - left. repeat split; auto. discriminate.
Qed.
End Measured.

(** What the script is expected to write.  [L]: the losses reported while fitting a model;
    [E]: the seconds reported while fitting a model with that many factors. *)
Definition is_min (l : list R) (m : R) : Prop := In m l /\ forall x, In x l -> (m <= x)%R.
Definition expected_losses (cuda : bool) (L : string -> list R) : dict (list R) :=
  [("cg2", L "cg2"); ("cg3", L "cg3"); ("cg4", L "cg4")] ++ (if cuda then [("gpu", L "gpu")] else []) ++ [("cholesky", L "cholesky")].
Definition expected_loss_graph (cuda : bool) (L : string -> list R) : list (@graph_line R) :=
  let x := map INR (seq 1 25) in
  [(x, L "cg2", Some "#2ca02c", "CG (2 Steps/Iteration)"); (x, L "cg3", Some "#ff7f0e", "CG (3 Steps/Iteration)"); (x, L "cg4", Some "#c5b0d5", "CG (4 Steps/Iteration)")] ++
  (if cuda then [(x, L "gpu", Some "#1f77b4", "GPU")] else []) ++ [(x, L "cholesky", Some "#d62728", "Cholesky")].
Definition expected_times (cuda : bool) (E : string -> nat -> list R) (d : dict (list R)) : Prop :=
  exists best : string -> list R,
    d = ("factors", map INR [32; 64; 96; 128; 160; 192; 224; 256]) ::
        map (fun n => (n, best n)) (["cg2"; "cg3"; "cg4"; "cholesky"] ++ if cuda then ["gpu"] else []) /\
    forall n, Forall2 (fun f m => is_min (E n f) m) [32; 64; 96; 128; 160; 192; 224; 256] (best n).
Definition reports (L : string -> list R) (E : string -> nat -> list R) (fit_loss : string -> res (list R)) (fit_time : string -> nat -> res (list R)) : Prop :=
  forall n, (fit_loss n = Ok (L n) /\ List.length (L n) = 25) /\ forall f, fit_time n f = Ok (E n f) /\ E n f <> [].
Lemma least_min (l : list R) : l <> [] -> is_min l (least l).
Proof.
  destruct l as [|x l]; [congruence|]. intros _. unfold least. simpl @nltb. revert x. induction l as [|y l IH]; intros x.
  - split; [left; auto|]. intros z [<-|[]]. simpl. lra.
  - cbn [fold_left]. destruct (IH (if Rltb y x then y else x)) as [I1 I2]. set (m := fold_left _ _ _) in *. unfold Rltb in *. split.
    + destruct I1 as [I1|I1]; [|right; right; auto]. destruct (Rlt_dec y x); rewrite <- I1; simpl; auto.
    + intros z Hz. assert (M : (m <= (if Rlt_dec y x then y else x))%R) by (destruct (Rlt_dec y x); apply I2; simpl; auto).
      destruct Hz as [<-|[<-|Hz]]; [destruct (Rlt_dec y x); lra|destruct (Rlt_dec y x); lra|]. apply I2. simpl. auto.
Qed.
Lemma times_expected cuda E fit : (forall n f, fit n f = Ok (E n f) /\ E n f <> []) -> exists d, benchmark_times cuda INR fit = Ok d /\ expected_times cuda E d.
Proof.
  intros H. eexists. split; [apply (speed_ok INR E); intros; apply H|]. exists (fun n => map (fun f => least (E n f)) speed_factors).
  split; [destruct cuda; reflexivity|]. intros n. change [32; 64; 96; 128; 160; 192; 224; 256] with speed_factors.
  induction speed_factors; constructor; auto. apply least_min. apply H.
Qed.
Lemma losses_expected cuda L fit : (forall n, fit n = Ok (L n) /\ List.length (L n) = 25) ->
  benchmark_accuracy cuda fit = Ok (expected_losses cuda L) /\ generate_loss_graph INR (expected_losses cuda L) = Ok (expected_loss_graph cuda L).
Proof.
  intros H. split.
  - rewrite (accuracy_ok cuda L); [destruct cuda; reflexivity|]. intros n _. destruct (H n) as [A B]. split; auto. intros X. rewrite X in B. discriminate.
  - assert (P : forall n, plot (map INR (seq 1 25)) (L n) = Ok tt) by (intros n; unfold plot; rewrite map_length, seq_length, (proj2 (H n)); auto).
    assert (Q : forall n, last_of (L n) = Ok tt) by (intros n; destruct (H n) as [_ B]; destruct (L n); [discriminate|auto]).
    unfold generate_loss_graph, expected_losses, expected_loss_graph. set (x := map INR (seq 1 25)) in *.
    assert (QX : last_of x = Ok tt) by reflexivity.
    destruct cuda; cbn [app item get String.eqb Ascii.eqb Bool.eqb bind map fst]; rewrite (proj2 (H "cholesky")); change (map INR (seq 1 25)) with x; clearbody x;
    cbn [map_res item get String.eqb Ascii.eqb Bool.eqb bind]; repeat (first [rewrite P | rewrite QX | rewrite Q]; cbn [map_res item get LABELS COLOURS String.eqb Ascii.eqb Bool.eqb bind]); reflexivity.
Qed.

(** Every combination of options but --speed with --graph does what it says, given that
    fitting succeeds and reports every iteration. *)
Theorem C145_partial : forall loss speed graph cuda L E fit_loss fit_time, reports L E fit_loss fit_time -> speed && graph = false ->
  exists d, expected_times cuda E d /\
    bench_main loss speed graph cuda INR fit_loss fit_time =
      ((if loss then Json "als_accuracy.json" (expected_losses cuda L) :: (if graph then [Png "als_accuracy.png" (expected_loss_graph cuda L)] else []) else []) ++
       (if speed then [Json "als_speed.json" d] else []), Ok tt).
Proof.
  intros loss speed graph cuda L E fl ft H SG.
  destruct (losses_expected cuda L fl (fun n => proj1 (H n))) as [A1 A2]. destruct (times_expected cuda E ft (fun n => proj2 (H n))) as (d & D1 & D2).
  exists d. split; auto. unfold bench_main, part. rewrite A1, D1. unfold graph_part. rewrite A2.
  destruct loss, speed, graph; try discriminate; reflexivity.
Qed.
Print Assumptions C145_partial.
(** --speed --graph always ends with an exception after als_speed.json is written, without the graph. *)
Theorem C145_speed_graph_main : forall loss cuda L E fit_loss fit_time, reports L E fit_loss fit_time ->
  exists d, expected_times cuda E d /\
    bench_main loss true true cuda INR fit_loss fit_time =
      ((if loss then [Json "als_accuracy.json" (expected_losses cuda L); Png "als_accuracy.png" (expected_loss_graph cuda L)] else []) ++ [Json "als_speed.json" d], Raise KeyError).
Proof.
  intros loss cuda L E fl ft H.
  destruct (losses_expected cuda L fl (fun n => proj1 (H n))) as [A1 A2]. destruct (times_expected cuda E ft (fun n => proj2 (H n))) as (d & D1 & D2).
  exists d. split; auto. unfold bench_main, part. rewrite A1, D1. unfold graph_part. rewrite A2.
  assert (X : generate_speed_graph d [] [] = Raise KeyError) by (destruct D2 as (best & -> & _); reflexivity).
  rewrite X. destruct loss; reflexivity.
Qed.
Print Assumptions C145_speed_graph_main.
(** So the claim that --graph draws what was measured is false. *)
Theorem C145_refuted : exists L E fit_loss fit_time, reports L E fit_loss fit_time /\
  forall cuda, let out := bench_main false true true cuda INR fit_loss fit_time in snd out = Raise KeyError /\ forall g, ~ In (Png "als_speed.png" g) (fst out).
Proof.
  exists (fun _ => repeat 1%R 25), (fun _ _ => [2; 1; 3]%R), (fun _ => Ok (repeat 1%R 25)), (fun _ _ => Ok [2; 1; 3]%R).
  assert (H : reports (fun _ => repeat 1%R 25) (fun _ _ => [2; 1; 3]%R) (fun _ => Ok (repeat 1%R 25)) (fun _ _ => Ok [2; 1; 3]%R)) by (intros n; repeat split; discriminate).
  split; auto. intros cuda. destruct (C145_speed_graph_main false cuda _ _ _ _ H) as (d & _ & E). cbv zeta. rewrite E. split; auto. intros g [X|[]]. discriminate.
Qed.
Print Assumptions C145_refuted.
