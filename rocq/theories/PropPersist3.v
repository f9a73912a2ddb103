(** C59 refutation and examples, C60-C63, C76, C77. *)
From Coq Require Import String List Arith Lia Bool ZArith QArith.
From Verif Require Import Base PersistModel PropPersist PropPersist2.
Import ListNotations.
Local Open Scope string_scope.
Local Open Scope list_scope.
Local Open Scope Z_scope.

#[global] Instance Lits_Q : Lits Q := {| lit n d := n # (Z.to_pos d) |}.

Ltac mk_obj := unfold object, als_sig, bpr_sig, mf_sig; cbn [app];
  repeat (apply Forall2_cons; [split; [reflexivity|cbn [fst snd]; first [assumption | exact Logic.I | left; reflexivity | solve [right; eexists; split; [reflexivity|lia]]
    | solve [right; eexists; eexists; reflexivity] | (eexists; reflexivity) | (simpl; lia)]]|]); apply Forall2_nil.

(* ------------------------------------------------------------------- C59 *)
(** A model whose random_state is a numpy Generator (documented, and accepted by fit) saves without
    complaint and cannot be loaded again. *)
Definition gen_model : dict Q :=
  setattr "user_factors" (VMat F32 [[1%Q]]) (setattr "item_factors" (VMat F32 [[2%Q]; [3%Q]])
    (match als_init (VInt 1) (VFloat (1 # 100)) (VFloat 1%Q) (VDtype F32) (VBool true) (VBool true) (VInt 15) (VBool false) (VInt 0) (VGenerator 7) with
     | Ok o => o | Raise _ => [] end)).
Theorem C59_refuted : exists (o : dict Q) (w : world) r fs',
  getattr o "random_state" = Ok (VGenerator 7) /\ check_random_state w (T := Q) (VGenerator 7) = Ok r /\
  als_save [] (FStr "model") o = Ok fs' /\ als_load fs' (FStr "model") = Raise ValueError.
Proof.
  exists gen_model, {| entropy := 0; clock := 0; next_draw := fun _ => 0 |}. eexists. eexists.
  repeat split; vm_compute; reflexivity.
Qed.

(** A fitted float64 ALS model with a seed, and its round trip. *)
Definition ex_als : dict Q :=
  setattr "_YtY" (VMat F64 [[13%Q]]) (setattr "user_factors" (VMat F64 [[1%Q]]) (setattr "item_factors" (VMat F64 [[2%Q]; [3%Q]])
    (match als_init (VInt 1) (VFloat (5 # 100)) (VFloat 2%Q) (VDtype F64) (VBool true) (VBool false) (VInt 3) (VBool true) (VInt 4) (VInt 42) with
     | Ok o => o | Raise _ => [] end))).
Example C59_example_object : object als_sig ex_als.
Proof. unfold ex_als; cbn. mk_obj. Qed.
Example C59_example : exists fs' o', als_save [] (FStr "model") ex_als = Ok fs' /\ als_load fs' (FStr "model.npz") = Ok o' /\
  getattr o' "use_cg" = Ok (VBool false) /\ getattr o' "alpha" = Ok (VFloat 2%Q) /\ getattr o' "dtype" = Ok (VDtype F64) /\
  getattr o' "item_factors" = Ok (VMat F64 [[2%Q]; [3%Q]]) /\ getattr o' "_YtY" = Ok VNone.
Proof. eexists; eexists. repeat split; vm_compute; reflexivity. Qed.

(* ------------------------------------------------------------------- C60 *)
(** C60, what survives: K (as an integer), the similarity matrix and the scorer built from it, for
    every item-item model and usable name; all other attributes are those of a freshly built model of
    the class.  Missing: K1, B and num_threads ([C60_refuted]). *)
Theorem C60_partial {T} (m : itemrec T) (cls : dict T) z fs f : getattr (ir_attrs m) "K" = Ok (VInt z) -> - 2 ^ 63 <= z < 2 ^ 64 -> usable f ->
  exists fs' m', item_save fs f m = Ok fs' /\ item_load cls fs' f = Ok m' /\
    ir_sim m' = ir_sim m /\ ir_scorer m' = ir_sim m /\
    (exists v, getattr (ir_attrs m') "K" = Ok v /\ as_int v = Some z) /\
    agree_except ["K"] cls (ir_attrs m').
Proof.
  intros HK HZ U. unfold item_save. rewrite HK. cbn [bind]. eexists. exists {| ir_attrs := setattr "K" (VZero (VInt z)) cls; ir_sim := ir_sim m; ir_scorer := ir_sim m |}. split; [reflexivity|].
  unfold item_load. rewrite load_after_save by auto. cbn [bind].
  assert (GS : forall (c : dict T) k v, getattr (setattr k v c) k = Ok v).
  { intros c k v. unfold getattr. induction c as [|[a b] c IH]; cbn [setattr assoc]; [rewrite String.eqb_refl; auto|].
    destruct (a =? k)%string eqn:E; cbn [assoc]; rewrite E; auto. }
  assert (GO : forall (c : dict T) k v, agree_except [k] c (setattr k v c)).
  { intros c k v j Hj. unfold getattr. replace (assoc j (setattr k v c)) with (assoc j c); auto.
    induction c as [|[a b] c IH]; cbn [setattr assoc].
    - destruct (k =? j)%string eqn:E; auto. apply String.eqb_eq in E. subst. exfalso. apply Hj. simpl; auto.
    - destruct (a =? k)%string eqn:E; cbn [assoc]; destruct (a =? j)%string eqn:E2; auto.
      apply String.eqb_eq in E. apply String.eqb_eq in E2. subst. exfalso. apply Hj. simpl; auto. }
  assert (RK : npz_read (VZero (@VInt T z)) = Ok (VZero (VInt z))). { unfold npz_read. cbn [is_object_array]. rewrite fits_range by auto. auto. }
  destruct (ir_sim m) as [s|] eqn:ES; cbn -[npz_read] ; unfold npz_get; cbn -[npz_read getattr setattr]; rewrite RK.
  - replace (npz_read (VFArr (s_dtype s) (s_data s))) with (Ok (VFArr (s_dtype s) (s_data s))) by reflexivity.
    replace (npz_read (VIArr (T := T) (s_indices s))) with (Ok (VIArr (T := T) (s_indices s))) by reflexivity.
    replace (npz_read (VIArr (T := T) (s_indptr s))) with (Ok (VIArr (T := T) (s_indptr s))) by reflexivity.
    replace (npz_read (VIArr (T := T) (s_shape s))) with (Ok (VIArr (T := T) (s_shape s))) by reflexivity.
    cbn -[getattr setattr].
    destruct s; cbn -[getattr setattr]. split; [reflexivity|].
    split; [auto|split; [auto|split; [|apply GO]]]. exists (VZero (VInt z)). split; auto.
  - cbn -[getattr setattr]. split; [reflexivity|].
    split; [auto|split; [auto|split; [|apply GO]]]. exists (VZero (VInt z)). split; auto.
Qed.
(** A BM25 recommender with K1 = 100, B = 1/2 comes back with K1 = 1.2, B = 0.75, num_threads = 0. *)
Theorem C60_refuted : exists (m : itemrec Q) fs' m',
  getattr (ir_attrs m) "K1" = Ok (VFloat 100%Q) /\ getattr (ir_attrs m) "B" = Ok (VFloat (1 # 2)) /\ getattr (ir_attrs m) "num_threads" = Ok (VInt 4) /\
  item_save [] (FStr "model") m = Ok fs' /\ item_load bm25_default fs' (FStr "model") = Ok m' /\ ir_sim m' = ir_sim m /\ ir_sim m <> None /\
  getattr (ir_attrs m') "K1" = Ok (VFloat (12 # 10)) /\ getattr (ir_attrs m') "B" = Ok (VFloat (75 # 100)) /\ getattr (ir_attrs m') "num_threads" = Ok (VInt 0).
Proof.
  pose (s := {| s_shape := [2; 2]; s_dtype := F64; s_data := [1%Q; 1%Q]; s_indptr := [0; 1; 2]; s_indices := [0; 1] |}).
  exists {| ir_attrs := bm25_init (VInt 20) (VFloat 100%Q) (VFloat (1 # 2)) (VInt 4); ir_sim := Some s; ir_scorer := Some s |}.
  eexists; eexists. repeat split; try (vm_compute; reflexivity). discriminate.
Qed.

(* ------------------------------------------------------------------- C61 *)
(** C61 for str names, and for path objects that already end in .npz: whatever was saved under a name is
    what load reads under that name, or under the name with the suffix added; other names are untouched. *)
Theorem C61_str {T} (fs : files T) s args : np_load (np_savez fs (FStr s) args) (load_name (FStr s)) = Ok (savez_args args).
Proof. apply load_after_save. exact Logic.I. Qed.
Theorem C61_str_suffix {T} (fs : files T) s args : ends_npz s = false ->
  np_load (np_savez fs (FStr s) args) (load_name (FStr (s ++ ".npz"))) = Ok (savez_args args) /\
  np_load (np_savez fs (FStr (s ++ ".npz")) args) (load_name (FStr s)) = Ok (savez_args args).
Proof.
  intros E. unfold np_load, np_savez, write_place, load_name, savez_place, add_npz. rewrite E, ends_app. cbn [read_place place_eqb].
  rewrite String.eqb_refl. auto.
Qed.
Theorem C61_path_partial {T} (fs : files T) s args : ends_npz s = true ->
  np_load (np_savez fs (FPath s) args) (load_name (FPath s)) = Ok (savez_args args) /\
  np_load (np_savez fs (FPath s) args) (load_name (FStr s)) = Ok (savez_args args).
Proof.
  intros E. split; [apply load_after_save; exact E|].
  unfold np_load, np_savez, write_place, load_name, savez_place, add_npz. rewrite E. cbn [read_place place_eqb]. rewrite String.eqb_refl. auto.
Qed.
(** Saving leaves every other file alone. *)
Theorem C61_frame {T} (fs : files T) f args p : p <> savez_place f -> read_place (np_savez fs f args) p = read_place fs p.
Proof.
  intros N. unfold np_savez, write_place. cbn [read_place]. destruct (place_eqb (savez_place f) p) eqn:E; auto.
  exfalso. apply N. destruct (savez_place f), p; simpl in E; try discriminate.
  - apply String.eqb_eq in E. subst. auto.
  - apply Nat.eqb_eq in E. subst. auto.
Qed.
(** A path object without the suffix: save writes model.npz, load looks for model. *)
Theorem C61_refuted : exists (o : dict Q) fs', object als_sig o /\ als_save [] (FPath "model") o = Ok fs' /\
  als_load fs' (FPath "model") = Raise FileNotFoundError /\ is_ok (als_load fs' (FStr "model")) = true.
Proof. exists ex_als. eexists. split; [exact C59_example_object|]. repeat split; vm_compute; reflexivity. Qed.

Ltac agreec Hk := unfold gals_caches, gpu_caches in Hk; cbn [app] in Hk; agree Hk.

(* ------------------------------------------------------------------- C62 *)
Definition cpu_mat {T} (v : val T) : Prop := v = VNone \/ exists d m, v = VMat d m /\ d <> F64.
Definition has_cpu_mats {T} (o : dict T) : Prop :=
  forall k, In k ["user_factors"; "item_factors"] -> exists v, getattr o k = Ok v /\ cpu_mat v.
Ltac matcases := repeat match goal with H : matrix _ |- _ => destruct H as [->|[? [? ->]]] end.
Ltac usemats HM := let v := fresh in let E := fresh in let C := fresh in
  destruct (HM "user_factors") as [v [E C]]; [simpl; auto|]; cbn in E; injection E as <-;
  let v' := fresh in let E' := fresh in let C' := fresh in
  destruct (HM "item_factors") as [v' [E' C']]; [simpl; auto|]; cbn in E'; injection E' as <-;
  destruct C as [C|[? [? [C ?]]]]; try discriminate C; try (injection C as <- <-);
  destruct C' as [C'|[? [? [C' ?]]]]; try discriminate C'; try (injection C' as <- <-).
Ltac killf64 := repeat match goal with d : npdtype, H : ?d <> F64 |- _ => destruct d; [| |exfalso; apply H; reflexivity]; clear H end.

(** C62, what survives for float16 and float32 (or unfitted) ALS models: everything except caches and
    the attributes use_native, use_cg, num_threads, cg_steps, which go back to their defaults.  Missing:
    those attributes, and float64 factors ([C62_refuted]). *)
Theorem C62_als_partial {T} (o : dict T) : object als_sig o -> has_cpu_mats o ->
  exists g o', als_to_gpu true o = Ok g /\ als_to_cpu g = Ok o' /\
    agree_except ["use_native"; "use_cg"; "num_threads"; "cg_steps"; "_user_norms"; "_item_norms"; "_YtY"; "_XtX"; "fit_callback"] o o' /\
    getattr o' "use_native" = Ok (VBool true) /\ getattr o' "use_cg" = Ok (VBool true) /\ getattr o' "num_threads" = Ok (VInt 0) /\ getattr o' "cg_steps" = Ok (VInt 3).
Proof.
  intros HO HM. inv_object HO. match goal with H : dtype_v _ |- _ => destruct H as [dt ->] end.
  matcases; usemats HM; killf64;
  (eexists; eexists; split; [cbn; reflexivity|split; [cbn; reflexivity|]]);
  (split; [intros k Hk; agree Hk|repeat split; reflexivity]).
Qed.
Theorem C62_bpr_partial {T} (o : dict T) : object bpr_sig o -> has_cpu_mats o ->
  exists g o', bpr_to_gpu true o = Ok g /\ bpr_to_cpu g = Ok o' /\
    agree_except ["num_threads"; "dtype"; "_user_norms"; "_item_norms"] o o' /\
    getattr o' "num_threads" = Ok (VInt 0) /\ getattr o' "dtype" = Ok (VDtype F32).
Proof.
  intros HO HM. inv_object HO. match goal with H : dtype_v _ |- _ => destruct H as [dt ->] end.
  matcases; usemats HM; killf64;
  (eexists; eexists; split; [cbn; reflexivity|split; [cbn; reflexivity|]]);
  (split; [intros k Hk; agree Hk|repeat split; reflexivity]).
Qed.
(** The other way round, GPU to CPU and back, only caches and cg_steps are reset. *)
Theorem C62_gpu_als_partial {T} (o : dict T) : object gals_sig o ->
  exists c o', als_to_cpu o = Ok c /\ als_to_gpu true c = Ok o' /\ agree_except ("cg_steps" :: gals_caches) o o' /\ getattr o' "cg_steps" = Ok (VInt 3).
Proof.
  intros HO. inv_gobject HO. match goal with H : dtype_v _ |- _ => destruct H as [dt ->] end.
  repeat match goal with H : devmat _ |- _ => destruct H as [->|[? [? [-> ?]]]] end; killf64;
  (eexists; eexists; split; [cbn; reflexivity|split; [cbn; reflexivity|]]);
  (split; [intros k Hk; agreec Hk|repeat split; reflexivity]).
Qed.
Theorem C62_gpu_bpr {T} (o : dict T) : object gbpr_sig o ->
  exists c o', bpr_to_cpu o = Ok c /\ bpr_to_gpu true c = Ok o' /\ agree_except gpu_caches o o'.
Proof.
  intros HO. inv_gobject HO.
  repeat match goal with H : devmat _ |- _ => destruct H as [->|[? [? [-> ?]]]] end; killf64;
  (eexists; eexists; split; [cbn; reflexivity|split; [cbn; reflexivity|]]);
  (intros k Hk; agreec Hk).
Qed.
Definition ex_als32 : dict Q := setattr "item_factors" (VMat F32 [[2%Q]; [3%Q]]) (setattr "user_factors" (VMat F32 [[1%Q]]) (setattr "dtype" (VDtype F32) ex_als)).
Theorem C62_refuted :
  (exists (o : dict Q) g o', object als_sig o /\ als_to_gpu true o = Ok g /\ als_to_cpu g = Ok o' /\
     getattr o "use_cg" = Ok (VBool false) /\ getattr o' "use_cg" = Ok (VBool true) /\
     getattr o "num_threads" = Ok (VInt 4) /\ getattr o' "num_threads" = Ok (VInt 0)) /\
  (exists o : dict Q, object als_sig o /\ als_to_gpu true o = Raise ValueError).
Proof.
  split.
  - exists ex_als32. eexists. eexists. split; [unfold ex_als32, ex_als; cbn; mk_obj|]. repeat split; vm_compute; reflexivity.
  - exists ex_als. split; [exact C59_example_object|]. vm_compute. reflexivity.
Qed.
Example C62_example : has_cpu_mats ex_als32.
Proof. intros k Hk. cbn [In] in Hk. destruct Hk as [<-|[<-|[]]]; eexists; (split; [reflexivity|]); right; eexists; eexists; (split; [reflexivity|discriminate]). Qed.

(* ------------------------------------------------------------------- C63 *)
(** Draws below 2^31, as numpy's randint(2**31) and integers(2**31) return. *)
Definition draws_ok (w : world) : Prop := forall i, 0 <= next_draw w i < 2 ^ 31.
Definition clock_ok (w : world) : Prop := 0 < clock w < 2 ^ 63.

(** C63: an integer seed that is positive (and a 63-bit value on the GPU) gives the same generator
    whatever the clock, the entropy source and other generators do, for every model and splitter; None and a Generator are
    accepted everywhere, a RandomState by GPU ALS.  Missing: [C63_refuted]. *)
Theorem C63_seed_partial {T} u z : 0 < z < 2 ^ 63 -> exists r, forall w, @start_rng T u w (VInt z) = Ok r.
Proof.
  intros [A B]. destruct u; cbn [start_rng check_random_state default_rng gpu_check_random_state truthy];
    try (exists (RSeed z); intros w; replace (z <? 0) with false by (symmetry; apply Z.ltb_ge; lia); reflexivity).
  exists (RCurand z). intros w. replace (z =? 0) with false by (symmetry; apply Z.eqb_neq; lia). cbn [negb curand_state].
  replace (- 2 ^ 63 <=? z) with true by (symmetry; apply Z.leb_le; lia). replace (z <? 2 ^ 63) with true by (symmetry; apply Z.ltb_lt; lia). reflexivity.
Qed.
(** Distinct seeds stay distinct. *)
Theorem C63_seed_injective {T} u w z z' r : 0 < z < 2 ^ 63 -> 0 < z' < 2 ^ 63 -> @start_rng T u w (VInt z) = Ok r -> @start_rng T u w (VInt z') = Ok r -> z = z'.
Proof.
  intros [A B] [A' B'].
  destruct u; cbn [start_rng check_random_state default_rng gpu_check_random_state truthy];
    try (replace (z <? 0) with false by (symmetry; apply Z.ltb_ge; lia); replace (z' <? 0) with false by (symmetry; apply Z.ltb_ge; lia); congruence).
  replace (z =? 0) with false by (symmetry; apply Z.eqb_neq; lia). replace (z' =? 0) with false by (symmetry; apply Z.eqb_neq; lia). cbn [negb curand_state].
  destruct ((- 2 ^ 63 <=? z) && (z <? 2 ^ 63)); destruct ((- 2 ^ 63 <=? z') && (z' <? 2 ^ 63)); congruence.
Qed.
(** Seed 0 works on the CPU. *)
Theorem C63_zero_partial {T} u : u <> GpuAls -> forall w, @start_rng T u w (VInt 0) = Ok (RSeed 0).
Proof. intros N w. destruct u; try reflexivity. contradiction. Qed.
Theorem C63_accepts_partial {T} u w : draws_ok w -> clock_ok w ->
  is_ok (@start_rng T u w VNone) = true /\ (forall i, is_ok (@start_rng T u w (VGenerator i)) = true) /\
  (u = GpuAls -> forall i, is_ok (@start_rng T u w (VRandomState i)) = true).
Proof.
  intros D [C C']. assert (R : forall z, 0 <= z < 2 ^ 63 -> ((- 2 ^ 63 <=? z) && (z <? 2 ^ 63)) = true).
  { intros z Hz. apply andb_true_intro. split; [apply Z.leb_le|apply Z.ltb_lt]; lia. }
  assert (D' : forall i, 0 <= next_draw w i < 2 ^ 63). { intros i. specialize (D i). assert (2 ^ 31 < 2 ^ 63) by (vm_compute; reflexivity). lia. }
  destruct u; (split; [|split]); try (intros; discriminate); try reflexivity.
  - cbn [start_rng gpu_check_random_state truthy curand_state]. rewrite R by lia. reflexivity.
  - intros i. cbn [start_rng gpu_check_random_state curand_state]. rewrite R by apply D'. reflexivity.
  - intros _ i. cbn [start_rng gpu_check_random_state]. unfold call_int_method. cbn [existsb randomstate_methods]. cbn. fold (2 ^ 63). rewrite R by apply D'. reflexivity.
Qed.
(** (1) A RandomState, documented by every model, makes fit raise AttributeError on every model but GPU
    ALS; the splitters too.  (2) On the GPU the seed 0 gives different runs at different times. *)
Theorem C63_refuted :
  (forall T u w i, u <> GpuAls -> @start_rng T u w (VRandomState i) = Raise AttributeError) /\
  (exists w w', clock_ok w /\ clock_ok w' /\ @start_rng Q GpuAls w (VInt 0) <> @start_rng Q GpuAls w' (VInt 0)).
Proof.
  split.
  - intros T u w i N. destruct u; try reflexivity. contradiction.
  - exists {| entropy := 0; clock := 1700000000; next_draw := fun _ => 0 |}, {| entropy := 0; clock := 1700000001; next_draw := fun _ => 0 |}.
    split; [vm_compute; auto|split; [vm_compute; auto|]]. vm_compute. discriminate.
Qed.
Example C63_example : @start_rng Q CpuBpr {| entropy := 5; clock := 6; next_draw := fun _ => 7 |} (VInt 42) = Ok (RSeed 42) /\
  @start_rng Q GpuAls {| entropy := 5; clock := 6; next_draw := fun _ => 7 |} (VRandomState 3) = Ok (RCurand 7).
Proof. split; vm_compute; reflexivity. Qed.

(* ------------------------------------------------------------------- C76 *)
(** C76: pickling.  An item-item model comes back with every attribute and with a scorer for its own
    similarity matrix; it keeps none of the old scorer. *)
Theorem C76_item {T} (m : itemrec T) : let m' := item_setstate (item_getstate m) in
  ir_sim m' = ir_sim m /\ ir_scorer m' = ir_sim m /\ agree_except ["scorer"] (ir_attrs m) (ir_attrs m').
Proof.
  cbn -[getattr]. split; [auto|split; [auto|]]. intros k Hk. unfold getattr.
  replace (assoc k (filter (fun kv => negb (fst kv =? "scorer")%string) (ir_attrs m) ++ [("scorer", VNone)])) with (assoc k (ir_attrs m)); auto.
  induction (ir_attrs m) as [|[a b] l IH]; cbn [filter fst app assoc].
  - destruct ("scorer" =? k)%string eqn:E; auto. apply String.eqb_eq in E. subst. exfalso. apply Hk. simpl; auto.
  - destruct (a =? "scorer")%string eqn:E; cbn [negb app assoc].
    + apply String.eqb_eq in E. subst. destruct ("scorer" =? k)%string eqn:E; auto. apply String.eqb_eq in E. subst. exfalso. apply Hk. simpl; auto.
    + destruct (a =? k)%string; auto.
Qed.
(** GPU models: device matrices go through host arrays; caches that live on the device are dropped, and
    the cached Gram matrices are kept. *)
Definition gram_sig {T} (o : dict T) : Prop := forall k, In k ["_XtX"; "_YtY"] -> exists v, getattr o k = Ok v /\ devmat v.
Theorem C76_gpu_bpr {T} (o : dict T) : object gbpr_sig o ->
  exists st o', gmf_getstate o = Ok st /\ gmf_setstate st = Ok o' /\ same_but gpu_caches o o'.
Proof.
  intros HO. inv_gobject HO.
  repeat match goal with H : devmat _ |- _ => destruct H as [->|[? [? [-> ?]]]] end; killf64;
  (eexists; eexists; split; [cbn; reflexivity|split; [cbn; reflexivity|]]);
  (split; [intros k Hk; agreec Hk|intros k Hk; unfold gpu_caches in Hk; cbn [In] in Hk; repeat (destruct Hk as [<-|Hk]; [reflexivity|]); contradiction]).
Qed.
Lemma gpu_matrix_ok {T} d (m : list (list T)) : d <> F64 -> gpu_matrix (VMat d m) = Ok (VDev d m).
Proof. destruct d; auto. contradiction. Qed.
Theorem C76_gpu_als {T} (o : dict T) : object gals_sig o -> gram_sig o ->
  exists st o', gals_getstate o = Ok st /\ gals_setstate st = Ok o' /\ same_but ("_solver" :: gpu_caches) o o'.
Proof.
  intros HO HG. inv_gobject HO.
  destruct (HG "_XtX") as [x [E1 D1]]; [simpl; auto|]; cbn in E1; injection E1 as <-.
  destruct (HG "_YtY") as [y [E2 D2]]; [simpl; auto|]; cbn in E2; injection E2 as <-. clear HG.
  repeat match goal with H : devmat _ |- _ => destruct H as [->|[? [? [-> ?]]]] end;
  (eexists; eexists; split; [cbn; reflexivity|split; [unfold gals_setstate, gmf_setstate, restore; repeat (cbn -[gpu_matrix]; try rewrite gpu_matrix_ok by assumption); reflexivity|]]);
  (split; [intros k Hk; agreec Hk|intros k Hk; unfold gpu_caches in Hk; cbn [In] in Hk; repeat (destruct Hk as [<-|Hk]; [reflexivity|]); contradiction]).
Qed.
Example C76_example : exists o : dict Q, object gals_sig o /\ gram_sig o /\ getattr o "_YtY" = Ok (VDev F32 [[13%Q]]) /\ getattr o "_solver" = Ok (VOther 1).
Proof.
  destruct (als_to_gpu true ex_als32) as [g|e] eqn:E; [|vm_compute in E; discriminate E].
  exists (setattr "_solver" (VOther 1) (setattr "_YtY" (VDev F32 [[13%Q]]) g)). vm_compute in E. injection E as <-.
  split; [cbn; unfold object, gals_sig, gmf_sig; cbn [app]; repeat (apply Forall2_cons; [split; [reflexivity|cbn [fst snd]; first [exact Logic.I | (right; eexists; eexists; split; [reflexivity|discriminate]) | (simpl; lia) | (eexists; reflexivity) | left; reflexivity | (right; eexists; split; [reflexivity|lia])]]|]); apply Forall2_nil|].
  split; [|split; reflexivity]. intros k Hk. cbn [In] in Hk. destruct Hk as [<-|[<-|[]]]; eexists; (split; [reflexivity|]); [left; reflexivity|right; eexists; eexists; split; [reflexivity|discriminate]].
Qed.

(* ------------------------------------------------------------------- C77 *)
(** C77: the factory functions hand every parameter on.  CPU: each parameter is the attribute of that
    name (the dtype as numpy dtype). *)
Theorem C77_als_cpu {T} hc fa reg al d un uc it ctl nt rs : exists o : dict T, als_factory hc false fa reg al (VDtype d) un uc it ctl nt rs = Ok o /\
  map (getattr o) ["factors"; "regularization"; "alpha"; "dtype"; "use_native"; "use_cg"; "iterations"; "calculate_training_loss"; "num_threads"; "random_state"; "user_factors"; "item_factors"]
  = map (@Ok (val T)) [fa; reg; al; VDtype d; un; uc; it; ctl; nt; rs; VNone; VNone].
Proof. eexists. split; [cbn; reflexivity|]. reflexivity. Qed.
Theorem C77_bpr_cpu {T} hc fa lr reg d it nt vn rs : exists o : dict T, bpr_factory hc false fa lr reg (VDtype d) it nt vn rs = Ok o /\
  map (getattr o) ["factors"; "learning_rate"; "regularization"; "dtype"; "iterations"; "num_threads"; "verify_negative_samples"; "random_state"; "user_factors"; "item_factors"]
  = map (@Ok (val T)) [fa; lr; reg; VDtype d; it; nt; vn; rs; VNone; VNone].
Proof. eexists. split; [cbn; reflexivity|]. reflexivity. Qed.
Theorem C77_lmf {T} fa lr reg d it np nt rs : (exists o : dict T, lmf_factory false fa lr reg (VDtype d) it np nt rs = Ok o /\
  map (getattr o) ["factors"; "learning_rate"; "regularization"; "dtype"; "iterations"; "neg_prop"; "num_threads"; "random_state"; "user_factors"; "item_factors"]
  = map (@Ok (val T)) [fa; lr; reg; VDtype d; it; np; nt; rs; VNone; VNone]) /\
  (forall v : val T, lmf_factory true fa lr reg v it np nt rs = Raise NotImplementedError).
Proof. split; [|reflexivity]. eexists. split; [cbn; reflexivity|]. reflexivity. Qed.
(** GPU: every parameter that the GPU model has. *)
Theorem C77_als_gpu {T} fa reg al d un uc it ctl nt rs : exists o : dict T, als_factory true true fa reg al (VDtype d) un uc it ctl nt rs = Ok o /\
  map (getattr o) ["factors"; "regularization"; "alpha"; "dtype"; "iterations"; "calculate_training_loss"; "random_state"] = map (@Ok (val T)) [fa; reg; al; VDtype d; it; ctl; rs].
Proof. eexists. split; [cbn; reflexivity|]. reflexivity. Qed.
Theorem C77_bpr_gpu_partial {T} fa lr reg d it nt vn rs : exists o : dict T, bpr_factory true true fa lr reg d it nt vn rs = Ok o /\
  map (getattr o) ["factors"; "learning_rate"; "regularization"; "iterations"; "verify_negative_samples"; "random_state"] = map (@Ok (val T)) [fa; lr; reg; it; vn; rs].
Proof. eexists. split; [cbn; reflexivity|]. reflexivity. Qed.
(** BPR on the GPU ignores the requested dtype: float64 and float32 build the same model, without error. *)
Theorem C77_refuted : exists o : dict Q, bpr_factory true true (VInt 8) (VFloat 1%Q) (VFloat 1%Q) (VDtype F64) (VInt 1) (VInt 0) (VBool true) VNone = Ok o /\
  bpr_factory true true (VInt 8) (VFloat 1%Q) (VFloat 1%Q) (VDtype F32) (VInt 1) (VInt 0) (VBool true) VNone = Ok o /\
  getattr o "dtype" = Raise AttributeError.
Proof. eexists. repeat split; vm_compute; reflexivity. Qed.
(** Without CUDA, asking for the GPU is an error rather than a silent CPU model. *)
Theorem C77_no_cuda {T} (fa reg al d un uc it ctl nt rs lr vn : val T) :
  als_factory false true fa reg al d un uc it ctl nt rs = Raise ValueError /\ bpr_factory false true fa lr reg d it nt vn rs = Raise ValueError.
Proof. split; reflexivity. Qed.

Print Assumptions C59_als_partial.
Print Assumptions C59_gpu_als_partial.
Print Assumptions C59_refuted.
Print Assumptions C60_partial.
Print Assumptions C60_refuted.
Print Assumptions C61_str_suffix.
Print Assumptions C62_als_partial.
Print Assumptions C62_refuted.
Print Assumptions C63_refuted.
Print Assumptions C76_gpu_als.
