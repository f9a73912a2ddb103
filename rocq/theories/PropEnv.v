(** C152 and C153: the BLAS warning and the fallback to the CPU. *)
From Coq Require Import String List Arith Lia Bool ZArith.
From Verif Require Import Base PersistModel EnvModel.
Import ListNotations.
Local Open Scope string_scope.
Local Open Scope list_scope.

(* ------------------------------------------------------------------- C152 *)
(** Pools the user has to hear about. *)
Definition threaded (p : pool) : Prop := po_user_api p = "blas" /\ po_threads p <> 1%Z.
(** [w] is a message about [p]: it names the right library and number of threads. *)
Definition about (p : pool) (w : blas_warning) : Prop :=
  match w with
  | WOpenBlas n => po_internal_api p = "openblas" /\ n = po_threads p
  | WMkl n => po_internal_api p = "mkl" /\ n = po_threads p
  | WBlas l n => l <> "openblas" /\ l <> "mkl" /\ l = po_internal_api p /\ n = po_threads p
  end.
(** [ws] has one message about each threaded pool of [info], in order, and nothing else. *)
Inductive told : list pool -> list blas_warning -> Prop :=
| told_nil : told [] []
| told_skip p l ws : ~ threaded p -> told l ws -> told (p :: l) ws
| told_cons p l w ws : threaded p -> about p w -> told l ws -> told (p :: l) (w :: ws).
(** Warnings are shown, not turned into exceptions. *)
Definition lenient (m : moment) : Prop := forall w, mo_strict m w = false.
Definition quiet (l : list pool) : Prop := forall p, In p l -> ~ threaded p.

Lemma message_about p : about p (blas_message p).
Proof.
  unfold blas_message. destruct (String.eqb_spec (po_internal_api p) "openblas") as [e|n]; [split; auto|].
  destruct (String.eqb_spec (po_internal_api p) "mkl") as [e|n']; [split; auto|]. cbn. auto.
Qed.
Lemma cond_threaded p : (negb (po_user_api p =? "blas") || (po_threads p =? 1)%Z)%bool = false <-> threaded p.
Proof.
  unfold threaded. rewrite orb_false_iff, negb_false_iff, String.eqb_eq, Z.eqb_neq. tauto.
Qed.
Lemma cond_not p : (negb (po_user_api p =? "blas") || (po_threads p =? 1)%Z)%bool = true -> ~ threaded p.
Proof. intros C Th. apply cond_threaded in Th. congruence. Qed.
Lemma loop_lenient strict : (forall w, strict w = false) -> forall l, exists ws, blas_loop strict l = (ws, Returned) /\ told l ws.
Proof.
  intros L. induction l as [|p l (ws & E & Tl)]; [exists []; split; [reflexivity|constructor]|].
  cbn [blas_loop]. destruct (negb _ || _)%bool eqn:C.
  - exists ws. split; [exact E|]. constructor; [apply cond_not|]; auto.
  - rewrite L, E. eexists. split; [reflexivity|]. constructor; auto; [apply cond_threaded; auto|apply message_about].
Qed.
Lemma build_checked ms : build_from true ms = map (fun _ => ([], true)) ms.
Proof. induction ms as [|m ms IH]; [reflexivity|]. cbn [build_from build_als check_blas_config map]. rewrite IH. reflexivity. Qed.

(** C152, the part that holds: the first CPU ALS model of the process is announced with one message about
    each multi-threaded BLAS pool and no other, the later ones are silent, and all are built. *)
Theorem C152_first_partial m ms : lenient m ->
  exists ws, build_all (m :: ms) = (ws, true) :: map (fun _ => ([], true)) ms /\ told (mo_info m) ws.
Proof.
  intros L. unfold build_all. cbn [build_from]. unfold build_als, check_blas_config.
  destruct (loop_lenient _ L (mo_info m)) as (ws & E & Tl). rewrite E. exists ws. rewrite build_checked. auto.
Qed.
Lemma loop_strict strict : (forall w, strict w = true) -> forall l,
  (quiet l /\ blas_loop strict l = ([], Returned)) \/ (~ quiet l /\ exists p w, In p l /\ threaded p /\ about p w /\ blas_loop strict l = ([w], RaisedWarning w)).
Proof.
  intros L. induction l as [|p l IH]; [left; split; [intros ? []|reflexivity]|].
  cbn [blas_loop]. destruct (negb _ || _)%bool eqn:C.
  - apply cond_not in C. destruct IH as [(Q & E)|(Q & q & w & Hq & Th & Ab & E)].
    + left. split; auto. intros q [<-|Hq]; auto.
    + right. split; [intros Q'; apply Q; intros x Hx; apply Q'; right; auto|]. exists q, w. split; [right|]; auto.
  - right. apply cond_threaded in C. rewrite L. split; [intros Q; apply (Q p); [left|]; auto|].
    exists p, (blas_message p). repeat split; auto; try apply C; [left; auto|apply message_about].
Qed.
(** With warnings turned into errors, no model is built as long as a multi-threaded pool is there: each
    attempt fails with a message about such a pool, and the first one without any succeeds silently. *)
Theorem C152_strict_partial ms m ms' : (forall x, In x ms -> (forall w, mo_strict x w = true) /\ ~ quiet (mo_info x)) ->
  (forall w, mo_strict m w = true) -> quiet (mo_info m) ->
  exists fails, build_all (ms ++ m :: ms') = fails ++ ([], true) :: map (fun _ => ([], true)) ms' /\
    Forall2 (fun x f => exists p w, In p (mo_info x) /\ threaded p /\ about p w /\ f = ([w], false)) ms fails.
Proof.
  intros A S Q. unfold build_all. induction ms as [|x ms IH].
  - exists []. split; [|constructor]. cbn [app build_from]. unfold build_als, check_blas_config.
    destruct (loop_strict _ S (mo_info m)) as [(_ & E)|(N & _)]; [|contradiction]. rewrite E, build_checked. reflexivity.
  - destruct IH as (fails & E & F); [intros y Hy; apply A; right; auto|]. destruct (A x) as [Sx Nx]; [left; auto|].
    cbn [app build_from]. unfold build_als at 1, check_blas_config.
    destruct (loop_strict _ Sx (mo_info x)) as [(Qx & _)|(_ & p & w & Hp & Th & Ab & Ex)]; [contradiction|].
    rewrite Ex, E. exists (([w], false) :: fails). split; [reflexivity|]. constructor; auto. exists p, w. auto.
Qed.
(** C152 as stated (every model built while a BLAS pool has several threads comes with a warning, unless
    the user was warned before) is false: the check is done once per process, even if it found nothing. *)
Definition one_thread : moment := {| mo_info := [{| po_user_api := "blas"; po_internal_api := "openblas"; po_threads := 1 |}]; mo_strict := fun _ => false |}.
Definition eight_threads : moment := {| mo_info := [{| po_user_api := "blas"; po_internal_api := "openblas"; po_threads := 8 |}]; mo_strict := fun _ => false |}.
Theorem C152_refuted : exists m1 m2 p, lenient m1 /\ lenient m2 /\ In p (mo_info m2) /\ threaded p /\
  build_all [m1; m2] = [([], true); ([], true)].
Proof.
  exists one_thread, eight_threads, {| po_user_api := "blas"; po_internal_api := "openblas"; po_threads := 8 |}.
  repeat split; try reflexivity; [left; reflexivity|discriminate].
Qed.
Definition mixed : moment := {| mo_info := [{| po_user_api := "openmp"; po_internal_api := "openmp"; po_threads := 8 |};
  {| po_user_api := "blas"; po_internal_api := "mkl"; po_threads := 4 |}; {| po_user_api := "blas"; po_internal_api := "openblas"; po_threads := 1 |};
  {| po_user_api := "blas"; po_internal_api := "blis"; po_threads := 2 |}]; mo_strict := fun _ => false |}.
Example C152_example : build_all [mixed; eight_threads] = [([WMkl 4; WBlas "blis" 2], true); ([], true)].
Proof. vm_compute. reflexivity. Qed.
Definition strict_of (m : moment) : moment := {| mo_info := mo_info m; mo_strict := fun _ => true |}.
Example C152_strict_example : build_all [strict_of mixed; strict_of eight_threads; strict_of one_thread; strict_of mixed]
  = [([WMkl 4], false); ([WOpenBlas 8], false); ([], true); ([], true)].
Proof. vm_compute. reflexivity. Qed.

(* ------------------------------------------------------------------- C153 *)
(** cudaGetDeviceCount answers with an error, not with zero, when there is no device. *)
Definition cuda_contract (w : gpu_world) : Prop := gw_count w <> Some 0.
(** A GPU can be used: the extension loads and the driver sees at least one device. *)
Definition gpu_usable (w : gpu_world) : Prop := gw_ext w = None /\ exists n, gw_count w = Some n /\ 0 < n.
(** The extension is absent or cannot be loaded in one of the two ways the package expects. *)
Definition ext_ok (w : gpu_world) : Prop := gw_ext w <> Some EOther.
(** Attributes only models of the one or the other kind have. *)
Definition on_cpu {T} (o : dict T) : Prop := (exists v, getattr o "num_threads" = Ok v) /\ getattr o "_knn" = Raise AttributeError.
Definition on_gpu {T} (o : dict T) : Prop := (exists v, getattr o "_knn" = Ok v) /\ getattr o "num_threads" = Raise AttributeError.

(** C153: the import succeeds with or without a GPU; it warns exactly when the extension is there and
    CUDA does not work; models built without use_gpu run on the GPU exactly when it can be used, and asking for an
    unusable GPU is an error, not a silent change. *)
Theorem C153 {T} w (fa reg al lr un uc it ctl nt rs vn : val T) d : cuda_contract w -> ext_ok w ->
  exists has warned, gpu_import w = inr (has, warned) /\ (has = true <-> gpu_usable w) /\
    (warned = true <-> gw_ext w = Some ERuntime \/ (gw_ext w = None /\ gw_count w = None)) /\
    (exists o, als_factory_auto has fa reg al (VDtype d) un uc it ctl nt rs = Ok o /\ (gpu_usable w -> on_gpu o) /\ (~ gpu_usable w -> on_cpu o)) /\
    (exists o, bpr_factory_auto has fa lr reg (VDtype d) it nt vn rs = Ok o /\ (gpu_usable w -> on_gpu o) /\ (~ gpu_usable w -> on_cpu o)) /\
    (~ gpu_usable w -> als_factory has true fa reg al (VDtype d) un uc it ctl nt rs = Raise ValueError /\
                       bpr_factory has true fa lr reg (VDtype d) it nt vn rs = Raise ValueError).
Proof.
  intros CC EO.
  assert (U : (exists n, gw_ext w = None /\ gw_count w = Some n /\ gpu_usable w) \/ ((gw_ext w <> None \/ gw_count w = None) /\ ~ gpu_usable w)).
  { unfold gpu_usable. destruct (gw_ext w); [right; split; [left; discriminate|intros (? & _); discriminate]|].
    destruct (gw_count w) as [n|] eqn:C; [|right; split; [right; auto|intros (_ & ? & ? & _); discriminate]].
    left. exists n. repeat split; auto. exists n. split; auto. unfold cuda_contract in CC. rewrite C in CC. destruct n; [congruence|lia]. }
  assert (CPU : ~ gpu_usable w -> forall warned, gpu_import w = inr (false, warned) ->
    (warned = true <-> gw_ext w = Some ERuntime \/ (gw_ext w = None /\ gw_count w = None)) ->
    exists has warned, gpu_import w = inr (has, warned) /\ (has = true <-> gpu_usable w) /\
    (warned = true <-> gw_ext w = Some ERuntime \/ (gw_ext w = None /\ gw_count w = None)) /\
    (exists o, als_factory_auto has fa reg al (VDtype d) un uc it ctl nt rs = Ok o /\ (gpu_usable w -> on_gpu o) /\ (~ gpu_usable w -> on_cpu o)) /\
    (exists o, bpr_factory_auto has fa lr reg (VDtype d) it nt vn rs = Ok o /\ (gpu_usable w -> on_gpu o) /\ (~ gpu_usable w -> on_cpu o)) /\
    (~ gpu_usable w -> als_factory has true fa reg al (VDtype d) un uc it ctl nt rs = Raise ValueError /\
                       bpr_factory has true fa lr reg (VDtype d) it nt vn rs = Raise ValueError)).
  { intros N warned E Wn. exists false, warned. split; auto. split; [split; [discriminate|contradiction]|]. split; auto.
    split; [eexists; split; [cbn; reflexivity|]; split; [contradiction|intros _; split; [eexists; reflexivity|reflexivity]]|].
    split; [eexists; split; [cbn; reflexivity|]; split; [contradiction|intros _; split; [eexists; reflexivity|reflexivity]]|].
    intros _. split; reflexivity. }
  unfold ext_ok in EO. destruct U as [(n & E1 & E2 & G)|(D & N)].
  - exists true, false. unfold gpu_import, get_device_count. rewrite E1, E2. split; auto. split; [tauto|].
    split; [split; [discriminate|intros [X|(_ & X)]; discriminate]|].
    split; [eexists; split; [cbn; reflexivity|]; split; [intros _; split; [eexists; reflexivity|reflexivity]|contradiction]|].
    split; [eexists; split; [cbn; reflexivity|]; split; [intros _; split; [eexists; reflexivity|reflexivity]|contradiction]|].
    contradiction.
  - destruct (gw_ext w) as [[| |]|] eqn:E1.
    + apply (CPU N false); [unfold gpu_import; rewrite E1; reflexivity|]. split; [discriminate|intros [X|(X & _)]; discriminate].
    + apply (CPU N true); [unfold gpu_import; rewrite E1; reflexivity|]. tauto.
    + congruence.
    + destruct D as [X|X]; [congruence|]. apply (CPU N true); [unfold gpu_import, get_device_count; rewrite E1, X; reflexivity|]. tauto.
Qed.
Example C153_example : gpu_import {| gw_ext := Some EImport; gw_count := None |} = inr (false, false) /\
  gpu_import {| gw_ext := None; gw_count := None |} = inr (false, true) /\
  gpu_import {| gw_ext := None; gw_count := Some 2 |} = inr (true, false) /\
  cuda_contract {| gw_ext := None; gw_count := Some 2 |} /\ ext_ok {| gw_ext := None; gw_count := Some 2 |}.
Proof. repeat split; try reflexivity; discriminate. Qed.

Print Assumptions C152_first_partial.
Print Assumptions C152_strict_partial.
Print Assumptions C152_refuted.
Print Assumptions C153.
