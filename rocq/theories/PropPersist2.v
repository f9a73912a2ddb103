(** C59 for GPU models, C60-C63: saving, loading and converting models; random_state. *)
From Coq Require Import String List Arith Lia Bool ZArith.
From Verif Require Import Base PersistModel PropPersist.
Import ListNotations.
Local Open Scope string_scope.
Local Open Scope list_scope.

Definition gmf_sig {T} : list (string * (val T -> Prop)) :=
  [("item_factors", devmat); ("user_factors", devmat); ("_item_norms", any); ("_user_norms", any);
   ("_user_norms_host", any); ("_item_norms_host", any); ("_knn", any)].
Definition gals_sig {T} : list (string * (val T -> Prop)) := gmf_sig ++
  [("factors", plain); ("regularization", plain); ("alpha", plain); ("dtype", dtype_v); ("iterations", plain);
   ("calculate_training_loss", plain); ("fit_callback", any); ("random_state", seed); ("cg_steps", plain); ("_solver", any); ("_YtY", any); ("_XtX", any)].
Definition gbpr_sig {T} : list (string * (val T -> Prop)) := gmf_sig ++
  [("factors", plain); ("learning_rate", plain); ("iterations", plain); ("regularization", plain);
   ("verify_negative_samples", plain); ("random_state", seed)].
Definition gpu_caches : list string := ["_item_norms"; "_user_norms"; "_user_norms_host"; "_item_norms_host"; "_knn"].
Definition gals_caches : list string := ["_solver"; "_YtY"; "_XtX"; "fit_callback"] ++ gpu_caches.
Definition agree_except {T} (ks : list string) (o o' : dict T) : Prop := forall k, ~ In k ks -> getattr o' k = getattr o k.
Definition unset {T} (ks : list string) (o : dict T) : Prop := forall k, In k ks -> getattr o k = Ok VNone.

Ltac inv_gobject H := unfold object, gals_sig, gbpr_sig, gmf_sig in H; cbn [app] in H;
  repeat match goal with
  | H : Forall2 _ (_ :: _) _ |- _ => inversion H; clear H; subst
  | H : Forall2 _ [] _ |- _ => inversion H; clear H; subst
  end;
  repeat match goal with
  | H : fst _ = fst ?y /\ snd _ (snd ?y) |- _ => destruct y as [? ?]; cbn [fst snd] in H; destruct H as [<- ?]
  end.
Ltac mk_object := unfold object, als_sig, bpr_sig, mf_sig; cbn [app];
  repeat (apply Forall2_cons; [split; [reflexivity|cbn [fst snd]; first [assumption | left; reflexivity | right; repeat eexists; eauto | (eexists; reflexivity) | (simpl; lia) | exact Logic.I]]|]); apply Forall2_nil.

Section G.
Context {T : Type} {L : Lits T}.

(** to_gpu and save depend only on the attributes they read. *)
Lemma als_to_gpu_ext (o o' : dict T) : (forall k, In k ["factors"; "regularization"; "alpha"; "dtype"; "iterations"; "calculate_training_loss"; "random_state"; "user_factors"; "item_factors"] -> getattr o' k = getattr o k) ->
  als_to_gpu true o' = als_to_gpu true o.
Proof. intros HK. unfold als_to_gpu, up_if_some. repeat rewrite HK by (simpl; auto 20). reflexivity. Qed.
Lemma bpr_to_gpu_ext (o o' : dict T) : (forall k, In k ["factors"; "learning_rate"; "regularization"; "iterations"; "verify_negative_samples"; "random_state"; "user_factors"; "item_factors"] -> getattr o' k = getattr o k) ->
  bpr_to_gpu true o' = bpr_to_gpu true o.
Proof. intros HK. unfold bpr_to_gpu, up_if_some. repeat rewrite HK by (simpl; auto 20). reflexivity. Qed.

Lemma gals_roundtrip (o c c2 g : dict T) fs f fs' : als_to_cpu o = Ok c -> als_save fs f c = Ok fs' -> als_load fs' f = Ok c2 -> als_to_gpu true c2 = Ok g ->
  gals_save fs f o = Ok fs' /\ gals_load true fs' f = Ok g.
Proof.
  intros A B C D. unfold gals_save, gals_load. rewrite A. cbn [bind]. split; auto.
  unfold gals_default, gals_init. cbn [negb bind]. unfold als_to_cpu at 1. cbn -[lit als_load als_to_gpu]. rewrite C. cbn [bind]. exact D.
Qed.
Lemma gbpr_roundtrip (o c c2 g : dict T) fs f fs' : bpr_to_cpu o = Ok c -> bpr_save fs f c = Ok fs' -> bpr_load fs' f = Ok c2 -> bpr_to_gpu true c2 = Ok g ->
  gbpr_save fs f o = Ok fs' /\ gbpr_load true fs' f = Ok g.
Proof.
  intros A B C D. unfold gbpr_save, gbpr_load. rewrite A. cbn [bind]. split; auto.
  unfold gbpr_default, gbpr_init. cbn [negb bind]. unfold bpr_to_cpu at 1. cbn -[lit bpr_load bpr_to_gpu]. rewrite C. cbn [bind]. exact D.
Qed.

Ltac notin := cbn [In]; intros HH; repeat (destruct HH as [HH|HH]; [discriminate HH|]); contradiction.
Ltac devcases := repeat match goal with H : devmat _ |- _ => destruct H as [->|[? [? [-> ?]]]] end;
  repeat match goal with d : npdtype, H : ?d <> F64 |- _ => destruct d; [| |exfalso; apply H; reflexivity]; clear H end.

(** C59, GPU models: save converts to the CPU model first; on load the number of conjugate gradient steps
    goes back to 3. *)
Theorem C59_gpu_als_partial (o : dict T) fs f : object gals_sig o -> usable f ->
  exists fs' o', gals_save fs f o = Ok fs' /\ gals_load true fs' f = Ok o' /\
    agree_except ("cg_steps" :: gals_caches) o o' /\ unset gals_caches o' /\ getattr o' "cg_steps" = Ok (VInt 3).
Proof.
  intros HO U. inv_gobject HO.
  match goal with H : dtype_v _ |- _ => destruct H as [dt ->] end. devcases;
  (match goal with |- context [gals_save _ _ ?o] => let c := eval cbn in (als_to_cpu o) in
     match c with Ok ?c' =>
       assert (EC : als_to_cpu o = Ok c') by reflexivity;
       assert (OC : object als_sig c') by mk_object;
       destruct (C59_als_partial c' fs f OC U) as [fs' [c2 [S1 [S2 [S3 _]]]]];
       assert (E : als_to_gpu true c2 = als_to_gpu true c') by (apply als_to_gpu_ext; intros k Hk; apply S3; cbn [In] in Hk |- *; repeat (destruct Hk as [<-|Hk]; [notin|]); contradiction)
     end end);
  (match type of E with _ = ?r => let g := eval cbn in r in match g with Ok ?g' => assert (EG : r = Ok g') by reflexivity; rewrite EG in E;
     destruct (gals_roundtrip _ _ _ _ _ _ _ EC S1 S2 E) as [R1 R2]; exists fs', g'; split; [exact R1|split; [exact R2|]] end end);
  clear S1 S2 S3 OC EC E EG R1 R2;
  unfold agree_except, unset, gals_caches, gpu_caches; cbn -[lit In getattr]; (split; [intros k Hk; agree Hk|split; [|reflexivity]]; [intros k Hk; cbn [In] in Hk; repeat (destruct Hk as [<-|Hk]; [reflexivity|]); contradiction]).
Qed.
Theorem C59_gpu_bpr_partial (o : dict T) fs f : object gbpr_sig o -> usable f ->
  exists fs' o', gbpr_save fs f o = Ok fs' /\ gbpr_load true fs' f = Ok o' /\ same_but gpu_caches o o'.
Proof.
  intros HO U. inv_gobject HO.
  devcases;
  (match goal with |- context [gbpr_save _ _ ?o] => let c := eval cbn in (bpr_to_cpu o) in
     match c with Ok ?c' =>
       assert (EC : bpr_to_cpu o = Ok c') by reflexivity;
       assert (OC : object bpr_sig c') by mk_object;
       destruct (C59_bpr_partial c' fs f OC U) as [fs' [c2 [S1 [S2 [S3 _]]]]];
       assert (E : bpr_to_gpu true c2 = bpr_to_gpu true c') by (apply bpr_to_gpu_ext; intros k Hk; apply S3; cbn [In] in Hk |- *; repeat (destruct Hk as [<-|Hk]; [notin|]); contradiction)
     end end);
  (match type of E with _ = ?r => let g := eval cbn in r in match g with Ok ?g' => assert (EG : r = Ok g') by reflexivity; rewrite EG in E;
     destruct (gbpr_roundtrip _ _ _ _ _ _ _ EC S1 S2 E) as [R1 R2]; exists fs', g'; split; [exact R1|split; [exact R2|]] end end);
  clear S1 S2 S3 OC EC E EG R1 R2;
  unfold same_but, gpu_caches; cbn -[lit In getattr]; (split; [intros k Hk; agree Hk|intros k Hk; cbn [In] in Hk; repeat (destruct Hk as [<-|Hk]; [reflexivity|]); contradiction]).
Qed.
End G.
