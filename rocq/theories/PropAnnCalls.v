(** C148-C150: what the approximate wrappers ask of the index libraries. *)
From Coq Require Import String List Arith Lia Bool ZArith.
From Verif Require Import Base Num Heap Sparse TopkModel RecommendModel KnnModel AnnModel AnnCalls.
Import ListNotations.
Local Open Scope list_scope.

(** All rows, each with its number. *)
Definition all_rows {A} (rows : list A) (pts : list (Z * A)) : Prop :=
  length pts = length rows /\ forall i r, nth_error rows i = Some r -> nth_error pts i = Some (Z.of_nat i, r).

Lemma enum_from_nth {A} (l : list A) k i : nth_error (enum_from k l) i = match nth_error l i with Some x => Some (k + i, x) | None => None end.
Proof.
  revert k i. induction l as [|x l IH]; intros k i; [destruct i; reflexivity|]. destruct i; cbn [enum_from nth_error].
  - rewrite Nat.add_0_r. reflexivity.
  - rewrite IH. destruct (nth_error l i); auto. do 2 f_equal. lia.
Qed.
Lemma enum_from_len {A} (l : list A) k : length (enum_from k l) = length l.
Proof. revert k. induction l; intros k; simpl; auto. Qed.
Lemma numbered_all {T} (rows : list (list T)) : all_rows rows (numbered rows).
Proof.
  unfold all_rows, numbered, enum. rewrite map_length, enum_from_len. split; auto. intros i r E.
  rewrite nth_error_map, enum_from_nth, E. reflexivity.
Qed.

Section C148.
Context {T : Type} `{Num T}.
Local Notation vec := (list T).
Variable E : ann_env T.

(** [extra] holds the rows with one more column. *)
Definition one_more_column (rows extra : list vec) : Prop :=
  length extra = length rows /\ forall i r, nth_error rows i = Some r -> exists x, nth_error extra i = Some (r ++ [x]).

Lemma augment_rows rows mx extra : augment_inner_product_matrix E rows = Ok (mx, extra) -> one_more_column rows extra.
Proof.
  unfold augment_inner_product_matrix. destruct (np_max _) as [m|]; cbn [bind]; [|discriminate]. intros X. inversion X; subst.
  split; [apply map_length|]. intros i r Hr. rewrite nth_error_map, Hr. eexists. reflexivity.
Qed.
Lemma augment_ok rows : rows <> [] -> exists mx extra, augment_inner_product_matrix E rows = Ok (mx, extra).
Proof. intros N. destruct rows; [congruence|]. unfold augment_inner_product_matrix. cbn [map np_max bind]. eauto. Qed.

Lemma annoy_adds (dim : nat) (metric : string) (rows : list vec) : (forall r, In r rows -> length r = dim) -> forall k its,
  fold_res (fun x p => annoy_add x (Z.of_nat (fst p)) (snd p)) (enum_from k rows) {| an_dim := dim; an_metric := metric; an_items := its; an_trees := None |} =
  Ok {| an_dim := dim; an_metric := metric; an_items := its ++ map (fun p => (Z.of_nat (fst p), snd p)) (enum_from k rows); an_trees := None |}.
Proof.
  induction rows as [|r rows IH]; intros L k its; cbn [enum_from fold_res map].
  - rewrite app_nil_r. reflexivity.
  - unfold annoy_add at 1. cbn [an_trees an_dim fst snd an_metric an_items]. rewrite (L r) by (left; auto). rewrite Nat.eqb_refl. cbn [bind].
    rewrite IH by (intros; apply L; right; auto). rewrite <- app_assoc. reflexivity.
Qed.
Lemma annoy_index_of_ok o dim (rows : list vec) : (forall r, In r rows -> length r = dim) ->
  annoy_index_of o dim rows = Ok {| an_dim := dim; an_metric := "angular"; an_items := numbered rows; an_trees := Some (ao_trees o) |}.
Proof.
  intros L. unfold annoy_index_of, annoy_new, enum. rewrite (annoy_adds dim "angular"%string rows L 0 []). reflexivity.
Qed.
Lemma more_len (rows extra : list vec) f : one_more_column rows extra -> (forall r, In r rows -> length r = f) -> forall r, In r extra -> length r = S f.
Proof.
  intros [L M] B r Hr. destruct (In_nth_error _ _ Hr) as [i Hi].
  destruct (nth_error rows i) as [r0|] eqn:E0.
  - destruct (M i r0 E0) as [x X]. rewrite X in Hi. inversion Hi; subst. rewrite app_length, (B r0) by (eapply nth_error_In; eauto). simpl. lia.
  - apply nth_error_None in E0. assert (i < length extra) by (apply nth_error_Some; congruence). lia.
Qed.

(** Annoy: the indices asked for and no others are built, over all items, with the number
    of trees asked for; queries search as many nodes as asked for. *)
Theorem C148_annoy : forall (nns : annoy_index (T:=T) -> vec -> nat -> Z -> list (Z * T)) (o : annoy_opts) (f : nat) (items : list vec),
  (forall r, In r items -> length r = f) -> items <> [] ->
  exists sim rc, annoy_fit_calls E o f items = Ok (sim, rc) /\
  (sim <> None <-> ao_sim o = true) /\ (rc <> None <-> ao_rec o = true) /\
  (forall x, sim = Some x -> an_trees x = Some (ao_trees o) /\ an_metric x = "angular"%string /\ all_rows items (an_items x) /\
     forall v n, annoy_ask nns o x v n = nns x v n (ao_search_k o)) /\
  (forall x, rc = Some x -> an_trees x = Some (ao_trees o) /\ an_metric x = "angular"%string /\
     (exists extra, one_more_column items extra /\ all_rows extra (an_items x)) /\
     forall v n, annoy_ask nns o x v n = nns x v n (ao_search_k o)).
Proof.
  intros nns o f items L NE. destruct (augment_ok items NE) as [mx [extra A]]. pose proof (augment_rows _ _ _ A) as OM.
  pose proof (annoy_index_of_ok o f items L) as I1. pose proof (annoy_index_of_ok o (S f) extra (more_len _ _ _ OM L)) as I2.
  unfold annoy_fit_calls. rewrite I1. destruct (ao_sim o), (ao_rec o); cbn [bind]; rewrite ?A; cbn [bind]; rewrite ?I2; cbn [bind];
  (eexists _, _; split; [reflexivity|]; repeat split; try congruence; try (intros; congruence);
   match goal with Hx : Some _ = Some _ |- _ => inversion Hx; subst x; cbn [an_trees an_metric an_items]; auto; try apply numbered_all; eauto using numbered_all end).
Qed.

(** NMSLib, strongest true part: everything but the method of recommend's index. *)
Theorem C148_nmslib_partial : forall asim arec method ip qp (items : list vec), items <> [] ->
  let o := nms_init asim arec method ip qp in
  exists sim rc, nms_fit_calls E o items = Ok (sim, rc) /\
  (sim <> None <-> asim = true) /\ (rc <> None <-> arec = true) /\
  (forall x, sim = Some x -> nm_method x = method /\ nm_space x = "cosinesimil"%string /\
     (forall p, ip = Some p -> nm_built x = Some p) /\ (forall q, qp = Some q -> nm_query x = Some q) /\
     forall i r, In (i, r) (nm_points x) <-> (exists j, i = Z.of_nat j /\ nth_error items j = Some r /\ neqb (ae_norm E r) nzero = false)) /\
  (forall x, rc = Some x -> nm_space x = "cosinesimil"%string /\
     (forall p, ip = Some p -> nm_built x = Some p) /\ (forall q, qp = Some q -> nm_query x = Some q) /\
     exists extra, one_more_column items extra /\ all_rows extra (nm_points x)).
Proof.
  intros asim arec method ip qp items NE o. destruct (augment_ok items NE) as [mx [extra A]]. pose proof (augment_rows _ _ _ A) as OM.
  assert (FIL : forall i r, In (i, r) (filter (fun p => negb (neqb (ae_norm E (snd p)) nzero)) (numbered items)) <->
     exists j, i = Z.of_nat j /\ nth_error items j = Some r /\ neqb (ae_norm E r) nzero = false).
  { intros i r. rewrite filter_In. cbn [snd]. rewrite negb_true_iff. destruct (numbered_all items) as [NL NA]. split.
    - intros [Hin B]. destruct (In_nth_error _ _ Hin) as [j Hj]. assert (LJ : j < length items) by (rewrite <- NL; apply nth_error_Some; congruence).
      destruct (nth_error items j) as [r'|] eqn:Ej; [|apply nth_error_None in Ej; lia]. rewrite (NA j r' Ej) in Hj. inversion Hj; subst. exists j; auto.
    - intros [j [-> [Hj B]]]. split; auto. eapply nth_error_In. apply NA; eauto. }
  unfold nms_fit_calls. destruct asim, arec; cbn [o nms_init no_sim no_rec no_method no_index no_query bind nms_set_query nms_create nms_add nms_new nm_built nm_points nm_method nm_space nm_query app];
  rewrite ?A; cbn [bind nms_set_query nms_create nms_add nms_new nm_built nm_points nm_method nm_space nm_query app];
  (eexists _, _; split; [reflexivity|]; split; [split; congruence|]; split; [split; congruence|]; split; intros x X; inversion X; subst x;
   cbn [nm_built nm_points nm_method nm_space nm_query]; repeat split; try (intros; subst; reflexivity); try apply FIL; auto;
   exists extra; split; auto; apply numbered_all).
Qed.

(** NMSLib: recommend's index ignores the method asked for, always. *)
Theorem C148_nmslib_never : forall (o : nms_opts) (items : list vec) sim x,
  nms_fit_calls E o items = Ok (sim, Some x) -> nm_method x = "hnsw"%string.
Proof.
  intros o items sim x. unfold nms_fit_calls. destruct (no_sim o), (no_rec o); cbn [bind nms_set_query nms_create nms_add nms_new nm_built]; try discriminate;
  destruct (augment_inner_product_matrix E items) as [[mx extra]|]; cbn [bind nms_set_query nms_create nms_add nms_new nm_built]; try discriminate; intros X; inversion X; reflexivity.
Qed.

(** Faiss: number of cells and of cells visited, device and data are those asked for. *)
Theorem C148_faiss : forall (kmeans : nat -> list vec -> list vec) (o : faiss_opts) (f : nat) (items : list vec) sim rc,
  faiss_fit_calls E kmeans o f items = Ok (sim, rc) ->
  (sim <> None <-> fo_sim o = true) /\ (rc <> None <-> fo_rec o = true) /\
  (forall x, sim = Some x \/ rc = Some x -> iv_nlist x = fo_nlist o /\ iv_nprobe x = fo_nprobe o /\ iv_gpu x = fo_gpu o /\ length (iv_data x) = length items) /\
  (forall x, rc = Some x -> iv_data x = items).
Proof.
  intros kmeans o f items sim rc. unfold faiss_fit_calls, ivf_of. set (u := unit_rows E items). assert (LU : length u = length items) by apply map_length.
  destruct (fo_rec o).
  - destruct (ivf_train kmeans (if fo_gpu o then [] else []) (fo_nlist o) items) as [c|]; cbn [bind]; [|discriminate]. destruct (fo_sim o).
    + match goal with |- context[ivf_train kmeans ?q (fo_nlist o) u] => destruct (ivf_train kmeans q (fo_nlist o) u) as [c'|] end; cbn [bind]; [|discriminate].
      intros X. inversion X; subst. split; [split; congruence|]. split; [split; congruence|]. split.
      * intros x [Y|Y]; inversion Y; subst x; cbn [iv_nlist iv_nprobe iv_gpu iv_data]; auto.
      * intros x Y; inversion Y; subst x; auto.
    + cbn [bind]. intros X. inversion X; subst. split; [split; congruence|]. split; [split; congruence|]. split.
      * intros x [Y|Y]; inversion Y; subst x; cbn [iv_nlist iv_nprobe iv_gpu iv_data]; auto.
      * intros x Y; inversion Y; subst x; auto.
  - cbn [bind]. destruct (fo_sim o).
    + match goal with |- context[ivf_train kmeans ?q (fo_nlist o) u] => destruct (ivf_train kmeans q (fo_nlist o) u) as [c'|] end; cbn [bind]; [|discriminate].
      intros X. inversion X; subst. split; [split; congruence|]. split; [split; congruence|]. split.
      * intros x [Y|Y]; inversion Y; subst x; cbn [iv_nlist iv_nprobe iv_gpu iv_data]; auto.
      * intros x Y; inversion Y; subst x; auto.
    + cbn [bind]. intros X. inversion X; subst. split; [split; congruence|]. split; [split; congruence|]. split.
      * intros x [Y|Y]; inversion Y.
      * intros x Y; inversion Y.
Qed.

(* ------------------------------------------------------------------ C149 *)
Definition annoy_with (o : annoy_opts) (asim arec : bool) : annoy_opts := {| ao_sim := asim; ao_rec := arec; ao_trees := ao_trees o; ao_search_k := ao_search_k o |}.
Definition nms_with (o : nms_opts) (asim arec : bool) : nms_opts := {| no_sim := asim; no_rec := arec; no_method := no_method o; no_index := no_index o; no_query := no_query o |}.
Definition faiss_with (o : faiss_opts) (asim arec : bool) : faiss_opts := {| fo_sim := asim; fo_rec := arec; fo_nlist := fo_nlist o; fo_nprobe := fo_nprobe o; fo_gpu := fo_gpu o |}.

(** With both indices the wrapper holds the two indices it holds with one of them. *)
Theorem C149_annoy : forall (o : annoy_opts) f (items : list vec) sim rc,
  annoy_fit_calls E (annoy_with o true true) f items = Ok (sim, rc) <->
  annoy_fit_calls E (annoy_with o true false) f items = Ok (sim, None) /\ annoy_fit_calls E (annoy_with o false true) f items = Ok (None, rc).
Proof.
  intros o f items sim rc. unfold annoy_fit_calls. cbn [annoy_with ao_sim ao_rec].
  change (annoy_index_of (T := T) (annoy_with o true true)) with (annoy_index_of (T := T) o). change (annoy_index_of (T := T) (annoy_with o true false)) with (annoy_index_of (T := T) o).
  change (annoy_index_of (T := T) (annoy_with o false true)) with (annoy_index_of (T := T) o).
  destruct (annoy_index_of o f items) as [x|]; cbn [bind]; [|split; [discriminate|intros [X _]; discriminate]].
  destruct (augment_inner_product_matrix E items) as [[mx extra]|]; cbn [bind]; [|split; [discriminate|intros [_ X]; discriminate]].
  destruct (annoy_index_of o (S f) extra) as [y|]; cbn [bind]; [|split; [discriminate|intros [_ X]; discriminate]].
  split; [intros X; inversion X; auto|intros [X Y]; inversion X; inversion Y; auto].
Qed.
Theorem C149_nmslib : forall (o : nms_opts) (items : list vec) sim rc,
  nms_fit_calls E (nms_with o true true) items = Ok (sim, rc) <->
  nms_fit_calls E (nms_with o true false) items = Ok (sim, None) /\ nms_fit_calls E (nms_with o false true) items = Ok (None, rc).
Proof.
  intros o items sim rc. unfold nms_fit_calls. cbn [nms_with no_sim no_rec no_method no_index no_query bind nms_set_query nms_create nms_add nms_new nm_built].
  destruct (augment_inner_product_matrix E items) as [[mx extra]|]; cbn [bind nms_set_query nms_create nms_add nms_new nm_built]; [|split; [discriminate|intros [_ X]; discriminate]].
  split; [intros X; inversion X; auto|intros [X Y]; inversion X; inversion Y; auto].
Qed.
(** Faiss, strongest true part: on the GPU, and for recommend's index everywhere. *)
Theorem C149_faiss_partial : forall (kmeans : nat -> list vec -> list vec) (o : faiss_opts) f (items : list vec),
  (fo_gpu o = true -> forall sim rc,
   faiss_fit_calls E kmeans (faiss_with o true true) f items = Ok (sim, rc) <->
   faiss_fit_calls E kmeans (faiss_with o true false) f items = Ok (sim, None) /\ faiss_fit_calls E kmeans (faiss_with o false true) f items = Ok (None, rc)) /\
  (forall sim rc, faiss_fit_calls E kmeans (faiss_with o true true) f items = Ok (sim, rc) ->
     faiss_fit_calls E kmeans (faiss_with o false true) f items = Ok (None, rc)).
Proof.
  intros kmeans o f items. unfold faiss_fit_calls, ivf_of. cbn [faiss_with fo_sim fo_rec fo_nlist fo_nprobe fo_gpu bind]. split.
  - intros -> sim rc. destruct (ivf_train kmeans [] (fo_nlist o) items) as [c|]; cbn [bind]; [|split; [discriminate|intros [_ X]; discriminate]].
    destruct (ivf_train kmeans [] (fo_nlist o) (unit_rows E items)) as [c'|]; cbn [bind]; [|split; [discriminate|intros [X _]; discriminate]].
    split; [intros X; inversion X; auto|intros [X Y]; inversion X; inversion Y; auto].
  - intros sim rc. destruct (ivf_train kmeans _ (fo_nlist o) items) as [c|]; cbn [bind]; [|discriminate].
    match goal with |- context[ivf_train kmeans ?q (fo_nlist o) (unit_rows E items)] => destruct (ivf_train kmeans q (fo_nlist o) (unit_rows E items)) as [c'|] end; cbn [bind]; [|discriminate].
    intros X; inversion X; auto.
Qed.

(* ------------------------------------------------------------------ C150 *)
(** Faiss, strongest true part: fitting succeeds exactly when there are at least nlist
    items (or no index is asked for). *)
Theorem C150_partial : forall (kmeans : nat -> list vec -> list vec) (o : faiss_opts) f (items : list vec),
  (forall n rows, length (kmeans n rows) = n) -> 1 <= fo_nlist o -> fo_sim o = true \/ fo_rec o = true ->
  (fo_nlist o <= length items -> exists r, faiss_fit_calls E kmeans o f items = Ok r) /\
  (length items < fo_nlist o -> faiss_fit_calls E kmeans o f items = Raise RuntimeError).
Proof.
  intros kmeans o f items KM NL ANY. assert (LU : length (unit_rows E items) = length items) by apply map_length.
  assert (T0 : forall rows, ivf_train kmeans [] (fo_nlist o) rows = if length rows <? fo_nlist o then Raise RuntimeError else Ok (kmeans (fo_nlist o) rows)).
  { intros rows. unfold ivf_train. cbn [length]. destruct (Nat.eqb_spec 0 (fo_nlist o)); [lia|auto]. }
  unfold faiss_fit_calls, ivf_of. split; intros B.
  - assert (B1 : (length items <? fo_nlist o) = false) by (apply Nat.ltb_ge; auto).
    assert (B2 : (length (unit_rows E items) <? fo_nlist o) = false) by (rewrite LU; auto).
    destruct (fo_gpu o), (fo_rec o), (fo_sim o); cbn [bind]; rewrite ?T0, ?B1; cbn [bind]; rewrite ?T0, ?B2; cbn [bind]; eauto.
    unfold ivf_train. rewrite KM, Nat.eqb_refl. cbn [bind]. eauto.
  - apply Nat.ltb_lt in B. assert (B2 : (length (unit_rows E items) <? fo_nlist o) = true) by (rewrite LU; auto).
    destruct (fo_gpu o), (fo_rec o), (fo_sim o); cbn [bind]; rewrite ?T0, ?B, ?B2; cbn [bind]; auto; destruct ANY; discriminate.
Qed.
End C148.
Print Assumptions C148_annoy.
Print Assumptions C148_nmslib_partial.
Print Assumptions C148_nmslib_never.
Print Assumptions C148_faiss.
Print Assumptions C149_annoy.
Print Assumptions C149_nmslib.
Print Assumptions C149_faiss_partial.
Print Assumptions C150_partial.

(* ------------------------------------------------------------------ witnesses *)
Definition zenv : ann_env Z := {| ae_norm := fun v => fold_left Z.add (map Z.abs v) 0%Z; ae_sqrt := Z.sqrt; ae_fmin32 := (-1000)%Z; ae_tiny := 1%Z |}.
Definition zitems : list (list Z) := [[4; 0]; [0; 2]; [0; 0]; [1; 1]]%Z.

(** method="sw-graph" gives a recommend index of method "hnsw". *)
Theorem C148_refuted : exists (o : nms_opts) sim x, no_rec o = true /\
  nms_fit_calls zenv o zitems = Ok (sim, Some x) /\ nm_method x <> no_method o.
Proof.
  exists (nms_init true true "sw-graph" None None). eexists _, _. split; [reflexivity|]. split; [vm_compute; reflexivity|]. cbn. discriminate.
Qed.
Print Assumptions C148_refuted.

(** Switching recommend's index on changes the cells of the index for similar_items. *)
Definition zmeans (n : nat) (rows : list (list Z)) : list (list Z) := firstn n (rows ++ repeat [] n).
Lemma zmeans_len n rows : length (zmeans n rows) = n.
Proof. unfold zmeans. rewrite firstn_length, app_length, repeat_length. lia. Qed.
Theorem C149_refuted : exists (o : faiss_opts) x x' rc, fo_gpu o = false /\
  faiss_fit_calls zenv zmeans (faiss_with o true true) 2 zitems = Ok (Some x, rc) /\
  faiss_fit_calls zenv zmeans (faiss_with o true false) 2 zitems = Ok (Some x', None) /\
  iv_data x = iv_data x' /\ iv_cells x <> iv_cells x'.
Proof.
  exists {| fo_sim := true; fo_rec := true; fo_nlist := 2; fo_nprobe := 1; fo_gpu := false |}. eexists _, _, _.
  split; [reflexivity|]. split; [vm_compute; reflexivity|]. split; [vm_compute; reflexivity|]. split; [reflexivity|]. cbn. intros X. inversion X.
Qed.
Print Assumptions C149_refuted.

(** The default of 400 cells cannot be fitted to four items. *)
Theorem C150_refuted : exists (o : faiss_opts), fo_nlist o = 20 * 20 /\ fo_sim o = true /\ fo_rec o = true /\
  zitems <> [] /\ faiss_fit_calls zenv zmeans o 2 zitems = Raise RuntimeError.
Proof.
  exists {| fo_sim := true; fo_rec := true; fo_nlist := 20 * 20; fo_nprobe := 20; fo_gpu := false |}.
  split; [reflexivity|]. split; [reflexivity|]. split; [reflexivity|]. split; [discriminate|]. vm_compute. reflexivity.
Qed.
Print Assumptions C150_refuted.

(** The hypotheses are met: all three libraries build over the same four items. *)
Example C148_example :
  (forall r, In r zitems -> length r = 2) /\ zitems <> [] /\ (forall n rows, length (zmeans n rows) = n) /\
  (exists x y, annoy_fit_calls zenv {| ao_sim := true; ao_rec := true; ao_trees := 7; ao_search_k := 3 |} 2 zitems = Ok (Some x, Some y) /\
     an_trees x = Some 7%Z /\ an_items y = [(0, [4; 0; 0]); (1, [0; 2; 3]); (2, [0; 0; 4]); (3, [1; 1; 3])]%Z) /\
  (exists x y, nms_fit_calls zenv (nms_init true true "hnsw" None (Some [("ef"%string, 5%Z)])) zitems = Ok (Some x, Some y) /\
     map fst (nm_points x) = [0; 1; 3]%Z /\ nm_query y = Some [("ef"%string, 5%Z)]) /\
  (exists x y, faiss_fit_calls zenv zmeans {| fo_sim := true; fo_rec := true; fo_nlist := 2; fo_nprobe := 1; fo_gpu := true |} 2 zitems = Ok (Some x, Some y) /\
     iv_data x = [[1; 0]; [0; 1]; [0; 0]; [0; 0]]%Z /\ iv_cells y = [[4; 0]; [0; 2]]%Z).
Proof.
  split; [intros r [<-|[<-|[<-|[<-|[]]]]]; reflexivity|]. split; [discriminate|]. split; [exact zmeans_len|].
  split; [|split]; eexists _, _; (split; [vm_compute; reflexivity|split; reflexivity]).
Qed.
