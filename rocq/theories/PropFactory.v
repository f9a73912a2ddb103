(** C123: models made by the factory functions have the options the caller asked for. *)
From Coq Require Import String List Arith Lia Bool ZArith.
From Verif Require Import Base Factory.
Import ListNotations.
Local Open Scope string_scope.

(** What the caller of [f(...)] means by parameter [n], given the documented parameters and defaults. *)
Inductive meant (doc : args) (pos : list val) (kw : args) (n : string) : val -> Prop :=
| by_position i v : nth_error (map fst doc) i = Some n -> nth_error pos i = Some v -> meant doc pos kw n v
| by_keyword v : In (n, v) kw -> meant doc pos kw n v
| by_default d : (forall i, nth_error (map fst doc) i = Some n -> nth_error pos i = None) -> (forall v, ~ In (n, v) kw) -> In (n, d) doc -> meant doc pos kw n d.

Lemma has_false n l : has n l = false -> forall v, ~ In (n, v) l.
Proof.
  unfold has. induction l as [|[k w] l IH]; simpl; intros A v B; auto. destruct (String.eqb_spec k n) as [E|E]; [discriminate|].
  destruct B as [B|B]; [congruence|]. apply (IH A v B).
Qed.
Lemma has_true n l : has n l = true <-> exists v, In (n, v) l.
Proof.
  split.
  - unfold has. induction l as [|[k w] l IH]; simpl; intros A; [discriminate|]. destruct (String.eqb_spec k n) as [E|E]; [subst; eauto|].
    destruct (IH A) as [v B]. eauto.
  - intros [v B]. destruct (has n l) eqn:E; auto. exfalso. eapply has_false; eauto.
Qed.
Lemma lookup_in n l v : no_repeats l = true -> In (n, v) l -> lookup n l = Some v.
Proof.
  induction l as [|[k w] l IH]; simpl; intros A B; [tauto|]. apply andb_true_iff in A. destruct A as [A1 A2]. apply negb_true_iff in A1.
  destruct B as [B|B].
  - inversion B; subst. rewrite String.eqb_refl. auto.
  - destruct (String.eqb_spec k n) as [E|E]; auto. subst. exfalso. eapply has_false; eauto.
Qed.
Lemma lookup_none n l : has n l = false -> lookup n l = None.
Proof. unfold has. destruct (lookup n l); congruence. Qed.

Lemma bind_from_meant doc : forall pos kw a n v, no_repeats doc = true -> no_repeats kw = true ->
  bind_from doc pos kw = Ok a -> has n doc = true -> meant doc pos kw n v -> lookup n a = Some v.
Proof.
  induction doc as [|[k d] doc IH]; intros pos kw a n v ND NK B HD M.
  - discriminate.
  - simpl in ND. apply andb_true_iff in ND. destruct ND as [N1 ND]. apply negb_true_iff in N1.
    destruct pos as [|p pos].
    + simpl in B. destruct (bind_from doc [] kw) as [r|] eqn:E; simpl in B; [|discriminate]. injection B as <-. simpl.
      destruct (String.eqb_spec k n) as [Ekn|NE].
      * subst k. inversion M as [i w H1 H2|w H1|w H1 H2 H3]; subst.
        -- destruct i; discriminate.
        -- rewrite (lookup_in n kw v) by auto. auto.
        -- rewrite lookup_none. 2:{ destruct (has n kw) eqn:K; auto. apply has_true in K. destruct K as [x K]. exfalso. eapply H2; eauto. }
           simpl in H3. destruct H3 as [H3|H3]; [congruence|]. exfalso. eapply has_false; eauto.
      * eapply IH; eauto.
        -- unfold has in HD. simpl in HD. apply String.eqb_neq in NE. rewrite NE in HD. auto.
        -- inversion M as [i w H1 H2|w H1|w H1 H2 H3]; subst.
           ++ destruct i; discriminate.
           ++ apply by_keyword. auto.
           ++ apply by_default; auto. { intros i _. destruct i; auto. } simpl in H3. destruct H3; [congruence|auto].
    + simpl in B. destruct (has k kw) eqn:HK; [discriminate|]. destruct (bind_from doc pos kw) as [r|] eqn:E; simpl in B; [|discriminate]. injection B as <-. simpl.
      destruct (String.eqb_spec k n) as [Ekn|NE].
      * subst k. inversion M as [i w H1 H2|w H1|w H1 H2 H3]; subst.
        -- destruct i as [|i]; [simpl in H2; congruence|]. simpl in H1. apply nth_error_In in H1. apply in_map_iff in H1. destruct H1 as ([n' d'] & En & H1). simpl in En. subst n'.
           exfalso. eapply (has_false n doc); eauto.
        -- exfalso. eapply (has_false n kw); eauto.
        -- specialize (H1 0 eq_refl). discriminate.
      * eapply IH; eauto.
        -- unfold has in HD. simpl in HD. apply String.eqb_neq in NE. rewrite NE in HD. auto.
        -- inversion M as [i w H1 H2|w H1|w H1 H2 H3]; subst.
           ++ destruct i as [|i]; [simpl in H1; congruence|]. apply (by_position doc pos kw n i); auto.
           ++ apply by_keyword. auto.
           ++ apply by_default; auto. { intros i Hi. apply (H1 (S i)). auto. } simpl in H3. destruct H3; [congruence|auto].
Qed.
Lemma bind_meant doc pos kw a n v : no_repeats doc = true -> bind_args doc pos kw = Ok a -> has n doc = true -> meant doc pos kw n v -> get n a = v.
Proof.
  unfold bind_args. intros ND B HD M. destruct (no_repeats kw) eqn:NK; [|discriminate]. destruct (forallb _ kw); [|discriminate]. simpl in B.
  unfold get. rewrite (bind_from_meant doc pos kw a n v); auto.
Qed.
Lemma meant_total doc pos kw n : has n doc = true -> exists v, meant doc pos kw n v.
Proof.
  intros HD. apply has_true in HD. destruct HD as [d HD].
  destruct (has n kw) eqn:K; [apply has_true in K; destruct K as [v K]; exists v; apply by_keyword; auto|].
  assert (C : (exists i v, nth_error (map fst doc) i = Some n /\ nth_error pos i = Some v) \/ (forall i, nth_error (map fst doc) i = Some n -> nth_error pos i = None)).
  { clear. revert pos. induction (map fst doc) as [|x l IH]; intros pos; [right; intros [|i]; discriminate|].
    destruct pos as [|p pos]; [right; intros [|i]; auto|]. destruct (IH pos) as [(i & v & A & B)|A].
    - left. exists (S i), v. auto.
    - destruct (string_dec x n) as [->|NE]; [left; exists 0, p; auto|]. right. intros [|i]; simpl; [congruence|auto]. }
  destruct C as [(i & v & A & B)|A]; [exists v; eapply by_position; eauto|]. exists d. apply by_default; auto. apply has_false; auto.
Qed.

(** The documented parameters (als.py:32-57, bpr.py:28-52, lmf.py:22-54, defaults as in the signatures). *)
Definition doc (has_cuda : bool) (f : factory) : args :=
  match f with
  | FAls => [("factors", VNum 100 0); ("regularization", VNum 1 (-2)); ("alpha", VNum 1 0); ("dtype", f32); ("use_native", VBool true);
             ("use_cg", VBool true); ("use_gpu", VBool has_cuda); ("iterations", VNum 15 0); ("calculate_training_loss", VBool false);
             ("num_threads", VNum 0 0); ("random_state", VNone)]
  | FBpr => [("factors", VNum 100 0); ("learning_rate", VNum 1 (-2)); ("regularization", VNum 1 (-2)); ("dtype", f32); ("iterations", VNum 100 0);
             ("use_gpu", VBool has_cuda); ("num_threads", VNum 0 0); ("verify_negative_samples", VBool true); ("random_state", VNone)]
  | FLmf => [("factors", VNum 30 0); ("learning_rate", VNum 1 0); ("regularization", VNum 6 (-1)); ("dtype", f32); ("iterations", VNum 30 0);
             ("neg_prop", VNum 30 0); ("use_gpu", VBool false); ("num_threads", VNum 0 0); ("random_state", VNone)]
  end.
(** Options a class has no use for; a GPU model has no threads, no other solvers, and BPR on the GPU one type only. *)
Definition without (c : cls) : list string :=
  "use_gpu" :: match c with GpuAls => ["use_native"; "use_cg"; "num_threads"] | GpuBpr => ["num_threads"; "dtype"] | _ => [] end.
Definition class_of (f : factory) (gpu : bool) : cls :=
  match f, gpu with FAls, true => GpuAls | FAls, false => CpuAls | FBpr, true => GpuBpr | FBpr, false => CpuBpr | FLmf, _ => CpuLmf end.

(** Full statement: every option is an attribute of the model:
      forall has_cuda f pos kw m, make has_cuda f pos kw = Ok m ->
      forall n v, has n (doc has_cuda f) = true -> n <> "use_gpu" -> meant (doc has_cuda f) pos kw n v -> lookup n (o_attrs m) = Some v.
    False on the GPU: options are dropped without a word. *)
Theorem C123_refuted :
  (exists m, make true FBpr [] [("dtype", VType "float64")] = Ok m /\ o_cls m = GpuBpr /\ lookup "dtype" (o_attrs m) = None) /\
  (exists m, make true FAls [] [("use_cg", VBool false)] = Ok m /\ o_cls m = GpuAls /\ lookup "use_cg" (o_attrs m) = None).
Proof. split; eexists; (split; [vm_compute; reflexivity|split; reflexivity]). Qed.
Print Assumptions C123_refuted.

Theorem C123_partial : forall has_cuda f pos kw m, make has_cuda f pos kw = Ok m ->
  (exists g, meant (doc has_cuda f) pos kw "use_gpu" g /\ o_cls m = class_of f (truth g) /\ (f = FLmf -> truth g = false)) /\
  forall n v, has n (doc has_cuda f) = true -> ~ In n (without (o_cls m)) -> meant (doc has_cuda f) pos kw n v -> lookup n (o_attrs m) = Some v.
Proof.
  intros hc f pos kw m H. unfold make in H. destruct (bind_args (factory_sig hc f) pos kw) as [a|] eqn:B; cbn [bind] in H; [|discriminate].
  assert (ND : no_repeats (factory_sig hc f) = true) by (destruct f; reflexivity).
  assert (G : forall n v, has n (doc hc f) = true -> meant (doc hc f) pos kw n v -> get n a = v) by (intros; eapply bind_meant; eauto).
  destruct (meant_total (doc hc f) pos kw "use_gpu" ltac:(destruct f; reflexivity)) as [g Mg].
  pose proof (G "use_gpu" g ltac:(destruct f; reflexivity) Mg) as Eg. rewrite Eg in H.
  assert (X : o_cls m = class_of f (truth g) /\ (f = FLmf -> truth g = false) /\
    forall n v, has n (doc hc f) = true -> ~ In n (without (o_cls m)) -> get n a = v -> lookup n (o_attrs m) = Some v).
  { destruct f, (truth g), hc; vm_compute in H; try discriminate; injection H as <-; (split; [reflexivity|]); (split; [intros; (discriminate || reflexivity)|]); intros n v HD NW E;
      apply has_true in HD; destruct HD as [d HD]; cbn in HD;
      repeat (destruct HD as [HD|HD]; [injection HD as <- _; first [exfalso; apply NW; cbn; tauto|rewrite <- E; reflexivity]|]); destruct HD. }
  destruct X as (X1 & X2 & X3). split; [exists g; auto|]. intros n v HD NW M. apply X3; auto.
Qed.
Print Assumptions C123_partial.

(** A correct call is accepted: no more positional arguments than parameters, keywords that are parameters and not
    given twice.  (GPU models need a GPU, and LMF has no GPU version.) *)
Definition correct (d : args) (pos : list val) (kw : args) : Prop :=
  length pos <= length d /\ NoDup (map fst kw) /\
  forall n v, In (n, v) kw -> exists i, nth_error (map fst d) i = Some n /\ nth_error pos i = None.
Lemma no_repeats_nodup kw : NoDup (map fst kw) -> no_repeats kw = true.
Proof.
  induction kw as [|[k v] kw IH]; simpl; intros A; auto. apply NoDup_cons_iff in A. destruct A as [A1 A2]. rewrite IH by auto. rewrite andb_true_r.
  apply negb_true_iff. destruct (has k kw) eqn:K; auto. apply has_true in K. destruct K as [w K]. exfalso. apply A1. apply in_map_iff. exists (k, w). auto.
Qed.
Lemma bind_from_ok d : forall pos kw, length pos <= length d -> (forall n v i, In (n, v) kw -> nth_error (map fst d) i = Some n -> nth_error pos i = None) -> exists a, bind_from d pos kw = Ok a.
Proof.
  induction d as [|[k x] d IH]; intros pos kw L A.
  - destruct pos; simpl in L; [eexists; reflexivity|lia].
  - destruct pos as [|p pos]; simpl.
    + destruct (IH [] kw ltac:(simpl; lia)) as [r E]; [intros n v [|i]; auto|]. rewrite E. eexists; reflexivity.
    + destruct (has k kw) eqn:K. { apply has_true in K. destruct K as [v K]. specialize (A k v 0 K eq_refl). discriminate. }
      destruct (IH pos kw ltac:(simpl in L; lia)) as [r E]; [intros n v i H1 H2; apply (A n v (S i)); auto|]. rewrite E. eexists; reflexivity.
Qed.
Theorem C123_accepted : forall has_cuda f pos kw, correct (doc has_cuda f) pos kw ->
  (forall g, meant (doc has_cuda f) pos kw "use_gpu" g -> truth g = true -> has_cuda = true /\ f <> FLmf) ->
  exists m, make has_cuda f pos kw = Ok m.
Proof.
  intros hc f pos kw (L & ND & KW) GP. unfold make.
  assert (E : exists a, bind_args (factory_sig hc f) pos kw = Ok a).
  { unfold bind_args. rewrite no_repeats_nodup by auto.
    assert (FA : forallb (fun p => has (fst p) (factory_sig hc f)) kw = true).
    { apply forallb_forall. intros [n v] Hn. destruct (KW n v Hn) as (i & A & _). apply nth_error_In in A. apply in_map_iff in A. destruct A as ([n' d'] & En & A). simpl in En. subst.
      apply has_true. simpl. eauto. }
    rewrite FA. simpl. apply bind_from_ok; auto. intros n v i H1 H2. destruct (KW n v H1) as (j & A & B).
    replace i with j; auto. assert (NN : NoDup (map fst (doc hc f))) by (destruct f; cbn; repeat constructor; cbn; intuition discriminate).
    apply (proj1 (NoDup_nth_error _) NN j i). { apply nth_error_Some. rewrite A. discriminate. } change (doc hc f) with (factory_sig hc f) in *. congruence. }
  destruct E as [a E]. rewrite E. cbn [bind].
  destruct (meant_total (doc hc f) pos kw "use_gpu" ltac:(destruct f; reflexivity)) as [g Mg].
  pose proof (bind_meant (factory_sig hc f) _ _ _ "use_gpu" g ltac:(destruct f; reflexivity) E ltac:(destruct f; reflexivity) Mg) as Eg. rewrite Eg.
  specialize (GP g Mg). destruct f, (truth g), hc; try (destruct (GP eq_refl) as [? ?]; congruence); eexists; vm_compute; reflexivity.
Qed.
Print Assumptions C123_accepted.

Lemma nodup_no_repeats kw : no_repeats kw = true -> NoDup (map fst kw).
Proof.
  induction kw as [|[k v] kw IH]; simpl; intros A; [constructor|]. apply andb_true_iff in A. destruct A as [A1 A2]. constructor; auto.
  intros B. apply in_map_iff in B. destruct B as ([k' w] & E & B). simpl in E. subst. apply negb_true_iff in A1. eapply has_false; eauto.
Qed.
Lemma bind_from_correct d : forall pos kw a, bind_from d pos kw = Ok a ->
  length pos <= length d /\ forall n v i, In (n, v) kw -> nth_error (map fst d) i = Some n -> nth_error pos i = None.
Proof.
  induction d as [|[k x] d IH]; intros pos kw a B.
  - destruct pos; simpl in B; [|discriminate]. split; auto. intros n v i _ H. destruct i; discriminate.
  - destruct pos as [|p pos]; simpl in B; [split; [simpl; lia|intros n v i _ _; destruct i; auto]|].
    destruct (has k kw) eqn:K; [discriminate|]. destruct (bind_from d pos kw) as [r|] eqn:E; simpl in B; [|discriminate].
    destruct (IH _ _ _ E) as [L H]. split; [simpl; lia|]. intros n v [|i] I N; simpl in *.
    + inversion N; subst. exfalso. eapply has_false; eauto.
    + eapply H; eauto.
Qed.
(** And an incorrect one is not: surplus, unknown or repeated arguments, a GPU that is not there, LMF on the GPU. *)
Theorem C123_refused : forall has_cuda f pos kw m, make has_cuda f pos kw = Ok m ->
  correct (doc has_cuda f) pos kw /\
  (forall g, meant (doc has_cuda f) pos kw "use_gpu" g -> truth g = true -> has_cuda = true /\ f <> FLmf).
Proof.
  intros hc f pos kw m H. unfold make in H. destruct (bind_args (factory_sig hc f) pos kw) as [a|] eqn:B; cbn [bind] in H; [|discriminate].
  split.
  - unfold bind_args in B. destruct (no_repeats kw) eqn:NK; [|discriminate]. destruct (forallb _ kw) eqn:FA; [|discriminate]. cbn in B.
    destruct (bind_from_correct _ _ _ _ B) as [L D]. split; [exact L|]. split; [apply nodup_no_repeats; auto|].
    intros n v I. rewrite forallb_forall in FA. specialize (FA _ I). cbn [fst] in FA. apply has_true in FA. destruct FA as [d FA].
    apply (in_map fst) in FA. cbn [fst] in FA. apply In_nth_error in FA. destruct FA as [i FA]. exists i. split; [exact FA|]. exact (D n v i I FA).
  - intros g Mg Tg. assert (Eg : get "use_gpu" a = g).
    { eapply bind_meant; eauto; destruct f; reflexivity. }
    rewrite Eg, Tg in H. destruct f, hc; try discriminate; (split; [reflexivity || discriminate|discriminate]) || (exfalso; vm_compute in H; discriminate).
Qed.
Print Assumptions C123_refused.


(** Left to their defaults, the factory and the class make the same model. *)
Theorem C123_defaults : (forall has_cuda f, exists m, make false f [] [] = Ok m /\ construct has_cuda (class_of f false) [] [] = Ok m) /\
  (exists m, make true FBpr [] [] = Ok m /\ construct true GpuBpr [] [] = Ok m).
Proof. split; [intros [|] [| |]|]; eexists; (split; [vm_compute; reflexivity|reflexivity]). Qed.
Print Assumptions C123_defaults.
(** Except for ALS on the GPU, where the number of factors differs. *)
Theorem C123_defaults_refuted : exists m m', make true FAls [] [] = Ok m /\ construct true GpuAls [] [] = Ok m' /\
  lookup "factors" (o_attrs m) = Some (VNum 100 0) /\ lookup "factors" (o_attrs m') = Some (VNum 64 0).
Proof. eexists _, _. split; [vm_compute; reflexivity|]. split; [vm_compute; reflexivity|]. split; reflexivity. Qed.
Print Assumptions C123_defaults_refuted.

(** The documented options of the approximate models (approximate_als.py:9-18, 34-42, 55-63). *)
Definition own_doc (has_cuda : bool) (w : wrapper) : args :=
  ([("approximate_similar_items", VBool true); ("approximate_recommend", VBool true)] ++
  match w with
  | WNmslib => [("method", VType "hnsw"); ("index_params", VNone); ("query_params", VNone)]
  | WAnnoy => [("n_trees", VNum 50 0); ("search_k", VNum (-1) 0)]
  | WFaiss => [("nlist", VNum 400 0); ("nprobe", VNum 20 0)]
  end ++ [("use_gpu", VBool has_cuda)])%list.
(** The approximate models: their own options, the options of the ALS model inside, and the GPU. *)
Theorem C123_approximate : forall has_cuda w pos kw r, make_ann has_cuda w pos kw = Ok r ->
  n_wrapper r = w /\
  (exists g, meant (own_doc has_cuda w) [] kw "use_gpu" g /\ o_cls (n_model r) = class_of FAls (truth g) /\ (w = WFaiss -> lookup "use_gpu" (n_attrs r) = Some g)) /\
  (forall n v, has n (own_doc has_cuda w) = true -> n <> "use_gpu" -> meant (own_doc has_cuda w) [] kw n v -> lookup n (n_attrs r) = Some v) /\
  (forall n v, has n (doc has_cuda FAls) = true -> ~ In n (without (o_cls (n_model r))) -> meant (doc has_cuda FAls) pos kw n v ->
     lookup n (o_attrs (n_model r)) = Some v).
Proof.
  change own_doc with own.
  intros hc w pos kw r H. unfold make_ann in H. destruct (no_repeats kw) eqn:NK; cbn [negb] in H; [|discriminate].
  set (mine := filter _ kw) in H. set (rest := filter _ kw) in H.
  destruct (bind_args (own hc w) [] mine) as [a|] eqn:B; cbn [bind] in H; [|discriminate].
  destruct (make hc FAls pos _) as [m|] eqn:M; cbn [bind] in H; [|discriminate]. injection H as <-. cbn [n_wrapper n_model n_attrs].
  assert (ND : no_repeats (own hc w) = true) by (destruct w; reflexivity).
  assert (MM : forall n v, has n (own hc w) = true -> meant (own hc w) [] kw n v -> meant (own hc w) [] mine n v).
  { intros n v HO X. inversion X as [i y H1 H2|y H1|y H1 H2 H3]; subst.
    - destruct i; discriminate.
    - apply by_keyword. apply filter_In. auto.
    - apply by_default; auto. intros u Hu. apply filter_In in Hu. eapply H2. apply Hu. }
  assert (G : forall n v, has n (own hc w) = true -> meant (own hc w) [] kw n v -> get n a = v) by (intros; eapply bind_meant; eauto).
  assert (SH : forall n, has n (own hc w) = true -> lookup n a = Some (get n a)).
  { intros n Hn. destruct (meant_total (own hc w) [] kw n Hn) as [v Hv]. pose proof (MM n v Hn Hv) as Hv'. unfold bind_args in B.
    destruct (no_repeats mine) eqn:NM; [|discriminate]. destruct (forallb _ mine); [|discriminate]. cbn [andb] in B.
    pose proof (bind_from_meant _ _ _ _ n v ND NM B Hn Hv') as E. unfold get. rewrite E. auto. }
  assert (FL : forall n (q : string -> bool), q n = true -> forall l : args, lookup n (filter (fun p => q (fst p)) l) = lookup n l).
  { clear. intros n q Hq. induction l as [|[k v] l IH]; simpl; auto. destruct (q k) eqn:E; simpl; [destruct (k =? n); auto|].
    destruct (String.eqb_spec k n); [congruence|auto]. }
  split; [auto|].
  assert (HG : has "use_gpu" (own hc w) = true) by (destruct w; reflexivity).
  destruct (meant_total (own hc w) [] kw "use_gpu" HG) as [g Mg]. pose proof (G _ g HG Mg) as Eg.
  destruct (C123_partial hc FAls pos _ m M) as [(g' & Mg' & C & _) OPT].
  assert (g' = g).
  { rewrite <- Eg. unfold make in M. destruct (bind_args (factory_sig hc FAls) pos _) as [b|] eqn:BB; [|discriminate].
    rewrite <- (bind_meant (factory_sig hc FAls) _ _ b "use_gpu" g' eq_refl BB eq_refl Mg').
    symmetry. symmetry. apply (bind_meant (factory_sig hc FAls) _ _ b "use_gpu" _ eq_refl BB eq_refl). apply by_keyword. simpl; auto. }
  subst g'. split.
  { exists g. split; [auto|]. split; [auto|]. intros ->. rewrite (FL "use_gpu" (fun _ => true)) by auto. rewrite SH by auto. congruence. }
  split.
  - intros n v Hn NG X. rewrite (FL n (fun k => match w with WFaiss => true | _ => negb (k =? "use_gpu") end)).
    + rewrite SH by auto. f_equal. auto.
    + destruct w; auto; apply negb_true_iff; apply String.eqb_neq; auto.
  - intros n v Hn NW X. apply OPT; auto.
    assert (NO : has n (own hc w) = false).
    { destruct (has n (own hc w)) eqn:E; auto. exfalso. apply has_true in E. destruct E as [d E]. apply has_true in Hn. destruct Hn as [e Hn].
      destruct w; cbn in E, Hn; repeat (destruct E as [E|E]; [injection E as <- _; repeat (destruct Hn as [Hn|Hn]; [first [discriminate|exfalso; apply NW; cbn; tauto]|]); exact Hn|]); exact E. }
    inversion X as [i y H1 H2|y H1|y H1 H2 H3]; subst.
    + eapply by_position; eauto.
    + apply by_keyword. right. apply filter_In. simpl. rewrite NO. auto.
    + apply by_default; auto. intros u [Hu|Hu].
      * injection Hu as <- _. apply NW. simpl; auto.
      * apply filter_In in Hu. eapply H2. apply Hu.
Qed.
Print Assumptions C123_approximate.
(** But not every call of AlternatingLeastSquares is one of theirs: with seven or more positional arguments (the
    seventh is use_gpu) they never accept. *)
Theorem C123_approximate_refuted : forall has_cuda w pos kw, 7 <= length pos -> forall r, make_ann has_cuda w pos kw <> Ok r.
Proof.
  intros hc w pos kw L r H. unfold make_ann in H. destruct (no_repeats kw); cbn [negb] in H; [|discriminate].
  destruct (bind_args (own hc w) [] _) as [a|]; cbn [bind] in H; [|discriminate].
  set (k := (_ :: _)) in H. assert (E : bind_args (factory_sig hc FAls) pos k = Raise TypeError).
  { unfold bind_args. destruct (_ && _); auto. do 7 (destruct pos as [|? pos]; [simpl in L; lia|]).
    subst k. cbn [factory_sig bind_from]. do 6 (destruct (has _ _); auto). }
  unfold make in H. rewrite E in H. cbn [bind] in H. discriminate.
Qed.
Print Assumptions C123_approximate_refuted.
Example C123_example :
  exists m, make false FAls [VNum 32 0; VNum 5 (-1)] [("iterations", VNum 7 0)] = Ok m /\ o_cls m = CpuAls /\
    lookup "factors" (o_attrs m) = Some (VNum 32 0) /\ lookup "iterations" (o_attrs m) = Some (VNum 7 0) /\ lookup "use_cg" (o_attrs m) = Some (VBool true).
Proof. eexists. split; [vm_compute; reflexivity|]. repeat split. Qed.
Example C123_approximate_example :
  exists r, make_ann false WAnnoy [VNum 32 0] [("n_trees", VNum 9 0); ("alpha", VNum 2 0)] = Ok r /\
    lookup "n_trees" (n_attrs r) = Some (VNum 9 0) /\ lookup "alpha" (o_attrs (n_model r)) = Some (VNum 2 0) /\ o_cls (n_model r) = CpuAls.
Proof. eexists. split; [vm_compute; reflexivity|]. repeat split. Qed.
