(** C59-C61: saving and loading models. *)
From Coq Require Import String List Arith Lia Bool ZArith.
From Verif Require Import Base PersistModel.
Import ListNotations.
Local Open Scope string_scope.
Local Open Scope list_scope.

(* ------------------------------------------------------------------ spec *)
(** What each attribute of a model may hold. *)
Definition plain {T} (v : val T) : Prop :=
  match v with VBool _ | VFloat _ => True | VInt z => (- 2 ^ 63 <= z < 2 ^ 64)%Z | _ => False end.
Definition seed {T} (v : val T) : Prop := v = VNone \/ exists z, v = VInt z /\ (- 2 ^ 63 <= z < 2 ^ 64)%Z.
Definition matrix {T} (v : val T) : Prop := v = VNone \/ exists d m, v = VMat d m.
Definition devmat {T} (v : val T) : Prop := v = VNone \/ exists d m, v = VDev d m /\ d <> F64.
Definition dtype_v {T} (v : val T) : Prop := exists d, v = VDtype d.
Definition any {T} (v : val T) : Prop := True.

(** An object of a class: exactly the attributes of the class, with values of the right kind. *)
Definition object {T} (sig : list (string * (val T -> Prop))) (o : dict T) : Prop :=
  Forall2 (fun s kv => fst s = fst kv /\ snd s (snd kv)) sig o.
Definition mf_sig {T} : list (string * (val T -> Prop)) :=
  [("item_factors", matrix); ("user_factors", matrix); ("_user_norms", any); ("_item_norms", any); ("num_threads", plain)].
Definition als_sig {T} : list (string * (val T -> Prop)) := mf_sig ++
  [("factors", plain); ("regularization", plain); ("alpha", plain); ("dtype", dtype_v); ("use_native", plain); ("use_cg", plain);
   ("iterations", plain); ("calculate_training_loss", plain); ("fit_callback", any); ("cg_steps", plain); ("random_state", seed);
   ("_YtY", any); ("_XtX", any)].
Definition bpr_sig {T} : list (string * (val T -> Prop)) := mf_sig ++
  [("factors", plain); ("learning_rate", plain); ("iterations", plain); ("regularization", plain); ("dtype", dtype_v);
   ("verify_negative_samples", plain); ("random_state", seed)].
Definition lmf_sig {T} : list (string * (val T -> Prop)) := mf_sig ++
  [("factors", plain); ("learning_rate", plain); ("iterations", plain); ("regularization", plain); ("dtype", dtype_v);
   ("neg_prop", plain); ("random_state", seed)].

(** Two objects answer alike: every attribute outside [hidden] is the same, and those in [hidden] are unset in the copy. *)
Definition same_but {T} (hidden : list string) (o o' : dict T) : Prop :=
  (forall k, ~ In k hidden -> getattr o' k = getattr o k) /\ (forall k, In k hidden -> getattr o' k = Ok VNone).
(** A name under which load looks where save wrote. *)
Definition usable (f : file) : Prop := match f with FPath s => ends_npz s = true | _ => True end.

(* ---------------------------------------------------------------- lemmas *)
Lemma place_refl p : place_eqb p p = true.
Proof. destruct p; simpl; [apply String.eqb_refl|apply Nat.eqb_refl]. Qed.
Lemma ends_app s : ends_npz (s ++ ".npz") = true.
Proof. induction s; [reflexivity|]. simpl. rewrite IHs. apply orb_true_r. Qed.
Lemma add_npz_ends s : ends_npz (add_npz s) = true.
Proof. unfold add_npz. destruct (ends_npz s) eqn:E; auto. apply ends_app. Qed.
Lemma add_npz_idem s : add_npz (add_npz s) = add_npz s.
Proof. unfold add_npz at 1. rewrite add_npz_ends. auto. Qed.

Lemma load_after_save {T} (fs : files T) f args : usable f -> np_load (np_savez fs f args) (load_name f) = Ok (savez_args args).
Proof.
  intros U. unfold np_load, np_savez, write_place. destruct f; simpl in *.
  - rewrite String.eqb_refl. auto.
  - unfold add_npz. rewrite U. rewrite String.eqb_refl. auto.
  - rewrite Nat.eqb_refl. auto.
Qed.

Lemma plain_some {T} (v : val T) : plain v -> is_none v = false.
Proof. destruct v; simpl; tauto. Qed.
Lemma fits_range z : (- 2 ^ 63 <= z < 2 ^ 64)%Z -> fits64 z = true.
Proof. intros [A B]. unfold fits64. apply andb_true_intro. split; [apply Z.leb_le|apply Z.ltb_lt]; auto. Qed.
Lemma read_plain {T} (v : val T) : plain v -> npz_read (asanyarray v) = Ok (VZero v).
Proof. destruct v; cbn [plain asanyarray]; try contradiction; auto. intros R. unfold npz_read. cbn [is_object_array]. rewrite fits_range by auto. auto. Qed.
Lemma load_plain {T} (o : dict T) k v : k <> "dtype" -> plain v -> load_step o (k, asanyarray v) = Ok (setattr k v o).
Proof. intros K P. unfold load_step. rewrite read_plain by auto. cbn [bind]. destruct (k =? "dtype")%string eqn:E; [apply String.eqb_eq in E; contradiction|]. auto. Qed.
Lemma load_mat {T} (o : dict T) k d m : k <> "dtype" -> load_step o (k, VMat d m) = Ok (setattr k (VMat d m) o).
Proof. intros K. unfold load_step. cbn [npz_read is_object_array bind]. destruct (k =? "dtype")%string eqn:E; [apply String.eqb_eq in E; contradiction|]. auto. Qed.
Lemma load_dtype {T} (o : dict T) d : load_step o ("dtype", VZero (VStr (dtype_name d))) = Ok (setattr "dtype" (VDtype d) o).
Proof. destruct d; reflexivity. Qed.

Lemma load_int {T} (o : dict T) k z : k <> "dtype" -> (- 2 ^ 63 <= z < 2 ^ 64)%Z -> load_step o (k, VZero (VInt z)) = Ok (setattr k (VInt z) o).
Proof. intros K P. apply (load_plain o k (VInt z)); auto. Qed.

Lemma assoc_agree {T} hidden k (o o' : dict T) : Forall2 (fun a b => fst a = fst b /\ (In (fst a) hidden \/ snd a = snd b)) o o' ->
  ~ In k hidden -> getattr o' k = getattr o k.
Proof.
  intros F N. unfold getattr. replace (assoc k o') with (assoc k o); auto.
  induction F as [|[a v] [b w] o o' [E D] F IH]; simpl in *; auto. subst b. destruct (a =? k)%string eqn:E; auto.
  apply String.eqb_eq in E. subst a. destruct D as [D|D]; [contradiction|subst; auto].
Qed.

Ltac inv_object H := unfold object, als_sig, bpr_sig, lmf_sig, mf_sig in H; cbn [app] in H;
  repeat match goal with
  | H : Forall2 _ (_ :: _) _ |- _ => inversion H; clear H; subst
  | H : Forall2 _ [] _ |- _ => inversion H; clear H; subst
  end;
  repeat match goal with
  | H : fst _ = fst ?y /\ snd _ (snd ?y) |- _ => destruct y as [? ?]; cbn [fst snd] in H; destruct H as [<- ?]
  end.
Ltac agree Hk := eapply assoc_agree; [|exact Hk];
  repeat (apply Forall2_cons; [split; [reflexivity|cbn [fst snd In]; first [right; reflexivity | left; solve [auto 20]]]|]); apply Forall2_nil.
Ltac neq := let HH := fresh in intros HH; discriminate HH.

Section S.
Context {T : Type} {L : Lits T}.

(** The dictionary handed to np.savez: values that are not None. *)
Lemma drop_plain k (v : val T) l : plain v -> drop_none ((k, v) :: l) = (k, v) :: drop_none l.
Proof. intros P. unfold drop_none. cbn [filter snd]. rewrite plain_some by auto. auto. Qed.
Lemma drop_nil : drop_none (@nil (string * val T)) = [].
Proof. auto. Qed.
Lemma drop_n k l : drop_none ((k, @VNone T) :: l) = drop_none l.
Proof. auto. Qed.
Lemma drop_m k d (m : list (list T)) l : drop_none ((k, VMat d m) :: l) = (k, VMat d m) :: drop_none l.
Proof. auto. Qed.
Lemma drop_i k z l : drop_none ((k, @VInt T z) :: l) = (k, VInt z) :: drop_none l.
Proof. auto. Qed.
Lemma drop_s k z l : drop_none ((k, @VStr T z) :: l) = (k, VStr z) :: drop_none l.
Proof. auto. Qed.
Lemma savez_cons k (v : val T) l : savez_args ((k, v) :: l) = (k, asanyarray v) :: savez_args l.
Proof. auto. Qed.
Lemma fold_cons {A S} (f : S -> A -> res S) a l s : fold_res f (a :: l) s = (do s' <- f s a; fold_res f l s').
Proof. auto. Qed.

(** Saving then loading, once the saved dictionary is known. *)
Lemma base_roundtrip names cls (fs : files T) f o args new o' : usable f -> cls = Ok new -> collect o names = Ok args ->
  fold_res load_step (savez_args (drop_none args)) new = Ok o' ->
  exists fs', save_with names fs f o = Ok fs' /\ base_load cls fs' f = Ok o'.
Proof.
  intros U HC HA HF. exists (np_savez fs f (drop_none args)). split.
  - unfold save_with. rewrite HA. reflexivity.
  - unfold base_load. rewrite load_after_save by auto. cbn [bind]. rewrite HC. cbn [bind]. exact HF.
Qed.

Ltac steps :=
  repeat first [rewrite drop_plain by (auto; simpl; lia) | rewrite drop_n | rewrite drop_m | rewrite drop_i | rewrite drop_s | rewrite drop_nil];
  repeat rewrite savez_cons;
  repeat (rewrite fold_cons; first [rewrite load_plain by (auto; try neq; simpl; lia) | rewrite load_mat by neq | rewrite load_int by (auto; neq) | rewrite load_dtype | cbn [asanyarray]; rewrite load_dtype | cbn [asanyarray]; rewrite load_mat by neq ]; cbn [bind]);
  cbn [savez_args map fold_res].

(** C59, CPU matrix factorisation models.  For every model object — any parameters, fitted or not, in
    any cache state — saved under any usable name over any existing files, load gives back every
    attribute (all constructor parameters, cg_steps and the factors); only caches and the callback are
    unset.  Missing for the full claim: random_state may also be documented as a RandomState or a
    Generator, for which loading fails ([C59_refuted]). *)
Theorem C59_als_partial (o : dict T) fs f : object als_sig o -> usable f ->
  exists fs' o', als_save fs f o = Ok fs' /\ als_load fs' f = Ok o' /\
    same_but ["_user_norms"; "_item_norms"; "_YtY"; "_XtX"; "fit_callback"] o o'.
Proof.
  intros HO U. inv_object HO.
  match goal with H : seed _ |- _ => destruct H as [->|[sd [-> SD]]] end;
  match goal with H : dtype_v _ |- _ => destruct H as [dt ->] end;
  repeat match goal with H : matrix _ |- _ => destruct H as [->|[? [? ->]]] end;
  unfold als_save, als_load;
  (match goal with |- context [save_with _ _ _ ?o] => edestruct (base_roundtrip als_names als_default fs f o) as [fs' [S1 S2]]; [exact U|reflexivity|reflexivity|steps; reflexivity|] end);
  (exists fs'; eexists; split; [exact S1|split; [exact S2|]]);
  cbn -[lit]; (split; [intros k Hk; agree Hk|intros k Hk; cbn [In] in Hk; repeat (destruct Hk as [<-|Hk]; [reflexivity|]); contradiction]).
Qed.
Theorem C59_bpr_partial (o : dict T) fs f : object bpr_sig o -> usable f ->
  exists fs' o', bpr_save fs f o = Ok fs' /\ bpr_load fs' f = Ok o' /\ same_but ["_user_norms"; "_item_norms"] o o'.
Proof.
  intros HO U. inv_object HO.
  match goal with H : seed _ |- _ => destruct H as [->|[sd [-> SD]]] end;
  match goal with H : dtype_v _ |- _ => destruct H as [dt ->] end;
  repeat match goal with H : matrix _ |- _ => destruct H as [->|[? [? ->]]] end;
  unfold bpr_save, bpr_load;
  (match goal with |- context [save_with _ _ _ ?o] => edestruct (base_roundtrip bpr_names bpr_default fs f o) as [fs' [S1 S2]]; [exact U|reflexivity|reflexivity|steps; reflexivity|] end);
  (exists fs'; eexists; split; [exact S1|split; [exact S2|]]);
  cbn -[lit]; (split; [intros k Hk; agree Hk|intros k Hk; cbn [In] in Hk; repeat (destruct Hk as [<-|Hk]; [reflexivity|]); contradiction]).
Qed.
Theorem C59_lmf_partial (o : dict T) fs f : object lmf_sig o -> usable f ->
  exists fs' o', lmf_save fs f o = Ok fs' /\ lmf_load fs' f = Ok o' /\ same_but ["_user_norms"; "_item_norms"] o o'.
Proof.
  intros HO U. inv_object HO.
  match goal with H : seed _ |- _ => destruct H as [->|[sd [-> SD]]] end;
  match goal with H : dtype_v _ |- _ => destruct H as [dt ->] end;
  repeat match goal with H : matrix _ |- _ => destruct H as [->|[? [? ->]]] end;
  unfold lmf_save, lmf_load;
  (match goal with |- context [save_with _ _ _ ?o] => edestruct (base_roundtrip lmf_names lmf_default fs f o) as [fs' [S1 S2]]; [exact U|reflexivity|reflexivity|steps; reflexivity|] end);
  (exists fs'; eexists; split; [exact S1|split; [exact S2|]]);
  cbn -[lit]; (split; [intros k Hk; agree Hk|intros k Hk; cbn [In] in Hk; repeat (destruct Hk as [<-|Hk]; [reflexivity|]); contradiction]).
Qed.
End S.
