(** C55-C58, C73-C75: batches, filters given as arrays, similar_items and the state of
    the wrapped model for the ANN wrappers. *)
From Coq Require Import String Ascii List Arith Lia Bool ZArith QArith Permutation Sorted Reals Lra Psatz.
From Verif Require Import Base Num Heap Sparse TopkModel TopkSpec TopkProofs RecommendModel RecommendProofs KnnModel RVec SimilarProofs PropSimilar AnnModel AnnProofs PropAnn.
Import ListNotations.
Local Open Scope list_scope.
Local Open Scope nat_scope.

Section Generic.
Context {T : Type} `{Num T}.

(* ------------------------------------------------------------ C55: batches *)
Lemma batch_st_pure (f : nat -> Z -> mf T -> mf T * res (list Z * list T)) (r : nat -> Z -> res (list Z * list T)) ids m :
  (forall p, In p ids -> f (fst p) (snd p) m = (m, r (fst p) (snd p))) -> batch_st f ids m = (m, map_res (fun p => r (fst p) (snd p)) ids).
Proof.
  induction ids as [|[g z] ids IH]; intros HF; simpl; auto.
  pose proof (HF (g, z) (or_introl eq_refl)) as HP. simpl in HP. rewrite HP. destruct (r g z) as [x|e]; simpl; auto.
  rewrite IH by (intros; apply HF; right; auto). auto.
Qed.
End Generic.

Lemma flen {A} (p : A -> bool) l : length (filter p l) <= length l.
Proof. induction l; simpl; auto. destruct (p a); simpl; lia. Qed.
(** The row of a scalar result. *)
Definition as_row {T} (o : res (out T)) : res (list Z * list T) := do x <- o; match x with OneRow ids sc => Ok (ids, sc) | ManyRows _ _ => Raise TypeError end.
(** [n] cells: the list, cut or padded. *)
Definition fitted {A} (n : nat) (d : A) (l : list A) : list A := firstn n (l ++ repeat d (n - length l)).

(** A batch is one call per user with their row of user_items, padded with id -1; the
    first exception ends it (Faiss: with filter_already_liked_items). *)
Theorem C55_batch : forall T (NT : Num T) (E : ann_env T) (I : inner T) A m us M N liked fi recalc,
  a_approx_rec A = true -> (a_lib A = Faiss -> liked = true) -> length us <= c_rows M ->
  exists rs, ann_recommend E I A m (Batch us) (Csr M) N liked fi recalc None = (m, do rows <- rs; Ok (ManyRows (map fst rows) (map snd rows))) /\
    rs = map_res (fun p => do ' (ids, sc) <- as_row (snd (ann_recommend E I A m (Scalar (snd p)) (Csr (csr_take_row M (fst p))) N liked fi recalc None));
                           Ok (fitted N (-1)%Z ids, firstn N (sc ++ repeat (ae_fmin32 E) (N - length ids)))) (enum us).
Proof.
  intros T NT E I A m us M N liked fi recalc HA HL HR. eexists. split; [|reflexivity].
  assert (CK : forall M' : csr T, check_csr_arg liked recalc (Csr M') = Ok tt) by (intros; unfold check_csr_arg; destruct (liked || recalc); auto).
  assert (ROW : forall p, In p (enum us) -> row_arg (Csr M) (fst p) = Ok (Csr (csr_take_row M (fst p)))).
  { intros [g z] Hp. apply in_enum in Hp. assert (g < length us) by (apply nth_error_Some; congruence). cbn [fst]. unfold row_arg, take_row.
    destruct (Nat.ltb_spec g (c_rows M)); [auto|lia]. }
  set (sc := fun p : nat * Z => as_row (snd (ann_recommend E I A m (Scalar (snd p)) (Csr (csr_take_row M (fst p))) N liked fi recalc None))).
  assert (CONC : forall f, (forall p, In p (enum us) -> f (fst p) (snd p) m = (m, sc p)) ->
    batch_call_st E f us N m = (m, do rows <- map_res (fun p => do ' (ids, s) <- sc p; Ok (fitted N (-1)%Z ids, firstn N (s ++ repeat (ae_fmin32 E) (N - length ids)))) (enum us); Ok (ManyRows (map fst rows) (map snd rows)))).
  { intros f HF. unfold batch_call_st. rewrite (batch_st_pure f (fun g z => sc (g, z))).
    - f_equal. assert (G : forall l, map_res (fun p => do ' (ids, s) <- sc p; Ok (fitted N (-1)%Z ids, firstn N (s ++ repeat (ae_fmin32 E) (N - length ids)))) l = do rows <- map_res (fun p => sc (fst p, snd p)) l; Ok (map (pad_row E N) rows)).
      { induction l as [|p l IH]; simpl; auto. rewrite IH. destruct p as [g z]. cbn [fst snd]. destruct (sc (g, z)) as [[ids s]|]; simpl; auto. destruct (map_res (fun p => sc (fst p, snd p)) l); simpl; auto. }
      rewrite G. destruct (map_res (fun p => sc (fst p, snd p)) (enum us)); simpl; auto.
    - intros p Hp. rewrite HF by auto. destruct p; auto. }
  unfold ann_recommend at 1. rewrite CK. rewrite HA.
  destruct (a_lib A) eqn:EL.
  - cbn [negb]. apply CONC. intros p Hp. rewrite ROW by auto. unfold sc, ann_recommend. rewrite CK, HA, EL. cbn [negb]. unfold angular_recommend1 at 2. cbn [fst snd]. destruct (angular_recommend1 E I A m (snd p) (Csr (csr_take_row M (fst p))) N liked fi recalc) as [m' r] eqn:ER.
    assert (m' = m) by (unfold angular_recommend1 in ER; congruence). subst. unfold angular_recommend1 in ER. injection ER as ER. cbn [snd]. rewrite ER. destruct r as [[x y]|]; auto.
  - cbn [negb]. apply CONC. intros p Hp. rewrite ROW by auto. unfold sc, ann_recommend. rewrite CK, HA, EL. cbn [negb]. unfold angular_recommend1 at 2. cbn [fst snd]. destruct (angular_recommend1 E I A m (snd p) (Csr (csr_take_row M (fst p))) N liked fi recalc) as [m' r] eqn:ER.
    assert (m' = m) by (unfold angular_recommend1 in ER; congruence). subst. unfold angular_recommend1 in ER. injection ER as ER. cbn [snd]. rewrite ER. destruct r as [[x y]|]; auto.
  - pose proof (HL eq_refl) as LT. subst liked. apply CONC. intros p Hp. rewrite ROW by auto. unfold sc, ann_recommend. rewrite CK, HA, EL. unfold one_row, as_row.
    unfold faiss_recommend_direct. rewrite HA. cbn [negb fst snd]. reflexivity.
Qed.
Print Assumptions C55_batch.

(** filter_items given as an array of two or more ids: every approximate recommend
    raises ValueError. *)
Theorem C55_array_raises : forall T (NT : Num T) (E : ann_env T) (I : inner T) A m u ui N liked l,
  a_approx_rec A = true -> 2 <= length l -> (0 <= u < Z.of_nat (length (user_factors m)))%Z -> (liked = true -> exists M, ui = Csr M) ->
  ann_recommend E I A m (Scalar u) ui N liked (Some (NdArray l)) false None = (m, Raise ValueError).
Proof.
  intros T NT E I A m u ui N liked l HA HL HU HC.
  assert (CK : check_csr_arg liked false ui = Ok tt). { unfold check_csr_arg. destruct liked; auto. destruct (HC eq_refl) as [M ->]. auto. }
  assert (RF : rec_filter N (Some (NdArray l)) liked ui = Raise ValueError). { unfold rec_filter. destruct l as [|a [|b l]]; simpl in HL; try lia. auto. }
  assert (QU : exists v, query_user I m (Scalar u) ui false = Ok v).
  { unfold query_user, index_rows. rewrite np_index_ok by (unfold idx_ok; lia). cbn [bind]. destruct (i_has I "+_user_factor"%string); eauto. }
  destruct QU as [v QU]. unfold ann_recommend. rewrite CK, HA. unfold angular_recommend1, faiss_recommend_direct. rewrite HA, QU, RF. cbn [bind negb]. destruct (a_lib A); auto.
Qed.
Print Assumptions C55_array_raises.

(** filter_items given as the array [0]: the answer without filter, less item 0. *)
Definition drop0 {T} (ids : list Z) (sc : list T) : list Z * list T :=
  (map fst (filter (fun p => negb (fst p =? 0)%Z) (combine ids sc)), map snd (filter (fun p => negb (fst p =? 0)%Z) (combine ids sc))).
Theorem C55_zero_array : forall T (NT : Num T) (E : ann_env T) (I : inner T) A m u ui N ids sc,
  a_approx_rec A = true -> (a_lib A <> Faiss) -> (forall q, length (a_rec A q N) <= N) ->
  ann_recommend E I A m (Scalar u) ui N false None false None = (m, Ok (OneRow ids sc)) ->
  ann_recommend E I A m (Scalar u) ui N false (Some (NdArray [0%Z])) false None = (m, Ok (OneRow (fst (drop0 ids sc)) (snd (drop0 ids sc)))).
Proof.
  intros T NT E I A m u ui N ids sc HA HL HN HR. unfold ann_recommend in *. unfold check_csr_arg in *. cbn [orb] in *. rewrite HA in *. cbn [negb] in *.
  unfold angular_recommend1 in *.
  destruct (a_lib A); try congruence; (destruct (query_user I m (Scalar u) ui false) as [v|]; [|discriminate]); cbn [bind] in *;
  unfold rec_filter in *; cbn [truthy bind negb Z.eqb option_map] in *; cbn [bind] in *; injection HR as <- <-; f_equal; f_equal;
  unfold drop0, filter_hits; cbn [arr_list fst snd];
  match goal with |- context [a_rec A ?q N] => set (h := a_rec A q N); assert (LH : length h <= N) by apply HN; clearbody h end;
  (assert (F : forall g : Z * T -> T, combine (map fst h) (map g h) = map (fun p => (fst p, g p)) h) by (intros g; clear; induction h; simpl; congruence));
  rewrite F, filter_map_swap, !map_map; cbn [fst snd];
  (rewrite firstn_all2; [|etransitivity; [apply flen|exact LH]]);
  (assert (X : forall x : Z * T, negb (memz (fst x) [0%Z]) = negb (fst x =? 0)%Z) by (intros x; unfold memz; cbn [existsb]; rewrite orb_false_r; auto));
  rewrite !(filter_ext _ _ X); reflexivity.
Qed.
Print Assumptions C55_zero_array.

Definition C55_statement : Prop := forall (B : builders R) (E : ann_env R) (I : inner R) m f asim A u ui N liked fi,
  real_env E -> angular_index B -> annoy_fit E B (item_factors m) asim true = Ok A ->
  Forall (fun r => length r = f) (user_factors m) -> Forall (fun r => length r = f) (item_factors m) ->
  (0 <= u < Z.of_nat (length (user_factors m)))%Z -> row_given liked ui ->
  let cands := filter (allowed fi liked ui) (seq 0 (length (item_factors m))) in
  exists ids scores, ann_recommend E I A m (Scalar u) ui N liked fi false None = (m, Ok (OneRow (map Z.of_nat ids) scores)) /\
    TopN (fun i => spec_dot (nth (Z.to_nat u) (user_factors m) []) (nth i (item_factors m) [])) cands (Nat.min N (length cands)) ids scores.
Definition real_env0 : ann_env R := {| ae_norm := spec_norm; ae_sqrt := sqrt; ae_fmin32 := (-1000)%R; ae_tiny := 1%R |}.
Definition no_inner {T} `{Num T} (attrs : list string) : inner T := {| i_has := fun s => existsb (String.eqb s) attrs; i_gpu := false;
  i_recalc_user := fun _ _ => Raise NotImplementedError; i_recalc_item := fun _ _ => Raise NotImplementedError;
  i_recommend := fun _ _ _ _ _ _ _ _ => Raise RuntimeError; i_similar := fun _ _ _ _ _ _ _ => Raise RuntimeError |}.
(** The attributes of a CPU model (matrix_factorization_base.py:24-252). *)
Definition cpu_attrs : list string := ["item_factors"; "user_factors"; "_user_norms"; "_item_norms"; "num_threads"; "recommend"; "recommend_all";
  "_user_factor"; "_item_factor"; "recalculate_user"; "recalculate_item"; "similar_users"; "similar_items"; "_get_similarity_score"; "user_norms"; "item_norms";
  "_check_fit_errors"; "fit"; "save"; "load"; "rank_items"]%string.
Definition ex_m : mf R := {| user_factors := [[1]]%R; item_factors := [[5]; [3]; [4]]%R |}.
Lemma real_env0_ok : real_env real_env0.
Proof. split; [|split]; auto. simpl. lra. Qed.
Theorem C55_refuted : ~ C55_statement.
Proof.
  intros HS. destruct (exact_builders_ok (-1000)) as [HA _].
  assert (WF : Forall (fun r : list R => length r = 1) (item_factors ex_m)) by (repeat constructor).
  destruct (C54_augment real_env0 (item_factors ex_m) 1 real_env0_ok ltac:(discriminate) WF) as (mx & extra & EA & _).
  set (A := {| a_lib := Annoy; a_approx_sim := false; a_approx_rec := true; a_use_gpu := false; a_sim := no_index; a_rec := b_angular (exact_builders (-1000)) extra; a_max_norm := mx |}).
  assert (HF : annoy_fit real_env0 (exact_builders (-1000)) (item_factors ex_m) false true = Ok A) by (unfold annoy_fit; rewrite EA; reflexivity).
  destruct (HS _ real_env0 (no_inner cpu_attrs) ex_m 1 false A 0%Z NotCsr 1 false (Some (NdArray [0; 1]%Z)) real_env0_ok HA HF) as (ids & sc & HR & _); auto.
  - repeat constructor.
  - simpl. lia.
  - discriminate.
  - rewrite C55_array_raises in HR; [discriminate|reflexivity|simpl; lia|simpl; lia|discriminate].
Qed.
Print Assumptions C55_refuted.

(* ------------------------------------------------------------------ C57 *)
(** No query changes the wrapped model's factors, except ... *)
Theorem C57_partial : forall T (NT : Num T) (E : ann_env T) (I : inner T) A m id N,
  (forall ui liked fi recalc items, fst (ann_recommend E I A m id ui N liked fi recalc items) = m) /\
  (forall recalc iu fi items, a_lib A <> Faiss \/ recalc = true \/ i_gpu I = true \/ (exists ids, id = Batch ids) \/ a_approx_sim A = false ->
     fst (ann_similar_items E I A m id N recalc iu fi items) = m) /\
  fst (ann_similar_users A m id N) = m.
Proof.
  intros T NT E I A m id N.
  assert (BC : forall f us, (forall g z m0, fst (f g z m0) = m0) -> fst (batch_call_st E f us N m) = m).
  { intros f us HF. unfold batch_call_st.
    assert (G : forall l m0, fst (batch_st f l m0) = m0).
    { induction l as [|[g z] l IH]; intros m0; simpl; auto. destruct (f g z m0) as [m1 r] eqn:EF. pose proof (HF g z m0) as HM. rewrite EF in HM. simpl in HM. subst m1.
      destruct r; auto. specialize (IH m0). destruct (batch_st f l m0). simpl in *. auto. }
    specialize (G (enum us) m). destruct (batch_st f (enum us) m). auto. }
  assert (FD : forall m0 z ui liked fi recalc items, fst (faiss_recommend_direct I A m0 z ui N liked fi recalc items) = m0).
  { intros. unfold faiss_recommend_direct. destruct (negb (a_approx_rec A)); auto. }
  split; [|split; [|auto]].
  - intros ui liked fi recalc items. unfold ann_recommend. destruct (check_csr_arg liked recalc ui); auto.
    assert (G : fst (match a_lib A with
      | Faiss => match id with
              | Batch zs =>
                  if liked then
                    batch_call_st E (fun g z m =>
                      match row_arg ui g with
                      | Raise e => (m, Raise e)
                      | Ok r => one_row (faiss_recommend_direct I A m (Scalar z) r N liked fi recalc items)
                      end) zs N m
                  else faiss_recommend_direct I A m id ui N liked fi recalc items
              | Scalar _ => faiss_recommend_direct I A m id ui N liked fi recalc items
              end
      | _ => if negb (a_approx_rec A) then (m, i_recommend I m id ui (Z.of_nat N) liked fi recalc items) else
              match id with
              | Scalar z => let '(m', r) := angular_recommend1 E I A m z ui N liked fi recalc in (m', do ' (ids, sc) <- r; Ok (OneRow ids sc))
              | Batch zs =>
                  batch_call_st E (fun g z m =>
                    match row_arg ui g with
                    | Raise e => (m, Raise e)
                    | Ok r => angular_recommend1 E I A m z r N liked fi recalc
                    end) zs N m
              end end) = m).
    { destruct (a_lib A).
      1,2: destruct (negb (a_approx_rec A)); auto; destruct id; auto; apply BC; intros; destruct (row_arg ui g); auto.
      destruct id; auto. destruct liked; auto. apply BC. intros. destruct (row_arg ui g); auto. unfold one_row. cbn [fst]. apply FD. }
    destruct items; auto. destruct (a_approx_rec A); auto.
  - intros recalc iu fi items HC. unfold ann_similar_items. destruct (a_lib A) eqn:EL.
    + destruct items; [destruct (a_approx_sim A); auto|]. destruct (negb (a_approx_sim A)); auto. destruct id; auto. apply BC. intros. destruct iu; auto. destruct (take_row m1 g); auto.
    + destruct (negb (a_approx_sim A)); auto. destruct items; auto.
    + destruct items; [destruct (a_approx_sim A); auto|]. destruct (negb (a_approx_sim A) || (a_use_gpu A && (1024 <=? Z.of_nat (N + arr_len fi))%Z)) eqn:EG; auto.
      destruct (query_item I m id iu recalc) as [v|] eqn:EQ; auto.
      assert (FR : exists r, v = Fresh r).
      { unfold query_item, index_rows in EQ. destruct HC as [HC|[->|[HC|[(zs & ->)|HC]]]]; [congruence| | | |rewrite HC in EG; discriminate].
        - destruct (i_has I "_item_factor"%string); [|discriminate]. destruct (i_recalc_item I id iu); [|discriminate]. simpl in EQ. injection EQ as <-. eauto.
        - rewrite HC in EQ. destruct (i_has I "_item_factor"%string), recalc; try discriminate; [destruct (i_recalc_item I id iu); [|discriminate]; simpl in EQ; injection EQ as <-; eauto| |];
          (destruct id; [destruct (np_index (length (item_factors m)) z)|destruct (gather (item_factors m) zs)]; try discriminate; simpl in EQ; injection EQ as <-; eauto).
        - destruct (i_has I "_item_factor"%string), recalc; try discriminate; [destruct (i_recalc_item I (Batch zs) iu); [|discriminate]; simpl in EQ; injection EQ as <-; eauto| |];
          (destruct (gather (item_factors m) zs); try discriminate; simpl in EQ; injection EQ as <-; eauto). }
      destruct FR as [r ->]. reflexivity.
Qed.
Print Assumptions C57_partial.

(** ... Faiss' similar_items of a single item, which divides the item's factors by their
    norm in place and changes nothing else. *)
Theorem C57_faiss_effect : forall T (NT : Num T) (E : ann_env T) (I : inner T) A m z N iu fi,
  a_lib A = Faiss -> a_approx_sim A = true -> a_use_gpu A = false -> i_gpu I = false -> (0 <= z < Z.of_nat (length (item_factors m)))%Z ->
  let m' := fst (ann_similar_items E I A m (Scalar z) N false iu fi None) in
  let row := nth (Z.to_nat z) (item_factors m) [] in
  user_factors m' = user_factors m /\ length (item_factors m') = length (item_factors m) /\
  nth (Z.to_nat z) (item_factors m') [] = map (fun x => ndiv x (ae_norm E row)) row /\
  (forall i, i <> Z.to_nat z -> nth i (item_factors m') [] = nth i (item_factors m) []).
Proof.
  intros T NT E I A m z N iu fi HL HS HG HI HZ. unfold ann_similar_items. rewrite HL, HS, HG. cbn [negb orb andb]. unfold query_item, index_rows. rewrite HI, np_index_ok by (unfold idx_ok; lia). cbn [bind].
  rewrite wrap_nonneg by lia. destruct (i_has I "_item_factor"%string); cbn [nd_update fst user_factors item_factors]; (split; [auto|split; [apply upd_length|split]]);
  try (apply nth_upd_eq; lia); intros; apply nth_upd_neq; auto.
Qed.
Print Assumptions C57_faiss_effect.

(** Items [3] and [2], one user [1]: after similar_items(0) the model recommends item 1. *)
Definition q_env : ann_env Q := {| ae_norm := fun v => fold_left (fun a x => a + Qabs.Qabs x)%Q v 0%Q; ae_sqrt := fun x => x; ae_fmin32 := (-1000)%Q; ae_tiny := (1 # 1000)%Q |}.
Definition q_m : mf Q := {| user_factors := [[1]]%Q; item_factors := [[3]; [2]]%Q |}.
Definition q_A (L : lib) : ann Q := {| a_lib := L; a_approx_sim := true; a_approx_rec := true; a_use_gpu := false;
  a_sim := fun q c => firstn c [(0%Z, 1%Q); (1%Z, 1%Q)]; a_rec := fun q c => firstn c [(0%Z, 3%Q); (1%Z, 2%Q)]; a_max_norm := 3%Q |}.
Theorem C57_refuted : exists (E : ann_env Q) (I : inner Q) A m, a_lib A = Faiss /\
  (let m' := fst (ann_similar_items E I A m (Scalar 0%Z) 2 false NotCsr None None) in
   recommend simple_heap (-1000)%Q m no_recalc (Scalar 0%Z) NotCsr 1 false None false None = Ok (OneRow [0%Z] [3%Q]) /\
   recommend simple_heap (-1000)%Q m' no_recalc (Scalar 0%Z) NotCsr 1 false None false None = Ok (OneRow [1%Z] [2%Q])).
Proof. exists q_env, (no_inner cpu_attrs), (q_A Faiss), q_m. split; [reflexivity|]. vm_compute. split; reflexivity. Qed.
Print Assumptions C57_refuted.

(* ------------------------------------------------------------------ C58 *)
(** Characters of Python identifiers (ASCII). *)
Definition id_char (c : ascii) : bool :=
  let n := nat_of_ascii c in (n =? 95) || ((48 <=? n) && (n <=? 57)) || ((65 <=? n) && (n <=? 90)) || ((97 <=? n) && (n <=? 122)).
Fixpoint all_chars (p : ascii -> bool) (s : string) : bool := match s with EmptyString => true | String c s' => p c && all_chars p s' end.
(** Whatever the wrapped model (its attribute names being identifiers), an approximate
    recommend with recalculate_user never returns. *)
Theorem C58_never : forall T (NT : Num T) (E : ann_env T) (I : inner T) A m id ui N liked fi items,
  (forall s, i_has I s = true -> all_chars id_char s = true) -> a_approx_rec A = true -> id <> Batch [] ->
  exists e, ann_recommend E I A m id ui N liked fi true items = (m, Raise e) /\
    (forall z M, id = Scalar z -> ui = Csr M -> e = NotImplementedError).
Proof.
  intros T NT E I A m id ui N liked fi items HI HA HB.
  assert (HH : i_has I "+_user_factor"%string = false). { destruct (i_has I "+_user_factor"%string) eqn:EH; auto. apply HI in EH. discriminate. }
  assert (QU : forall id' ui', query_user I m id' ui' true = Raise NotImplementedError) by (intros; unfold query_user; rewrite HH; auto).
  unfold ann_recommend, check_csr_arg. rewrite orb_true_r. destruct ui as [|M]; [eexists; split; [reflexivity|discriminate]|]. rewrite HA.
  destruct items; [eexists; split; [reflexivity|]; intros; auto|].
  assert (BC : forall f zs, zs <> [] -> (forall g z, exists e, f g z m = (m, Raise e)) -> exists e, batch_call_st E f zs N m = (m, Raise e)).
  { intros f zs HN HF. unfold batch_call_st. destruct zs as [|z zs]; [congruence|]. unfold enum. simpl enum_from. cbn [batch_st].
    destruct (HF 0 z) as [e ->]. simpl. eauto. }
  assert (RA : forall g, row_arg (Csr M) g = Ok (Csr (csr_take_row M g)) \/ exists e, row_arg (Csr M) g = Raise e).
  { intros g. unfold row_arg, take_row. destruct (g <? c_rows M); simpl; eauto. }
  destruct (a_lib A); cbn [negb].
  1,2: destruct id as [z|zs]; [eexists; split; [unfold angular_recommend1; rewrite QU; reflexivity|auto]|];
    (destruct (BC (fun g z m => match row_arg (Csr M) g with Ok r => angular_recommend1 E I A m z r N liked fi true | Raise e => (m, Raise e) end) zs) as [e HE];
     [congruence| |exists e; split; [exact HE|discriminate]]);
    intros g z; destruct (RA g) as [->|[e ->]]; [unfold angular_recommend1; rewrite QU; simpl; eauto|eauto].
  assert (FD : forall id' ui', faiss_recommend_direct I A m id' ui' N liked fi true None = (m, Raise NotImplementedError)).
  { intros. unfold faiss_recommend_direct. rewrite HA, QU. reflexivity. }
  destruct id as [z|zs]; [rewrite FD; eauto|]. destruct liked.
  - destruct (BC (fun g z m => match row_arg (Csr M) g with Ok r => one_row (faiss_recommend_direct I A m (Scalar z) r N true fi true None) | Raise e => (m, Raise e) end) zs) as [e HE];
     [congruence| |exists e; split; [exact HE|discriminate]].
    intros g z; destruct (RA g) as [->|[e ->]]; [unfold one_row; rewrite FD; simpl; eauto|eauto].
  - rewrite FD. eexists; split; [reflexivity|discriminate].
Qed.
Print Assumptions C58_never.
(** The claim, for wrapped models with a working recalculate_user. *)
Definition C58_statement : Prop := forall T (NT : Num T) (E : ann_env T) (I : inner T) A m z M N liked,
  a_approx_rec A = true -> i_has I "recalculate_user"%string = true -> i_has I "_user_factor"%string = true -> c_rows M = 1 ->
  (exists r, i_recalc_user I (Scalar z) M = Ok r) ->
  exists o, snd (ann_recommend E I A m (Scalar z) (Csr M) N liked None true None) = Ok o.
Theorem C58_refuted : ~ C58_statement.
Proof.
  intros HS.
  set (I := {| i_has := fun s => existsb (String.eqb s) cpu_attrs; i_gpu := false; i_recalc_user := fun _ _ => Ok [[1%Q]]; i_recalc_item := fun _ _ => Ok [[1%Q]];
    i_recommend := fun _ _ _ _ _ _ _ _ => Ok (OneRow [0%Z] [1%Q]); i_similar := fun _ _ _ _ _ _ _ => Ok (OneRow [0%Z] [1%Q]) |} : inner Q).
  destruct (HS Q Num_Q q_env I (q_A Annoy) q_m 0%Z (csr_of_rows 2 [[(1, 1%Q)]]) 1 true eq_refl eq_refl eq_refl eq_refl ltac:(eexists; reflexivity)) as [o HO].
  destruct (C58_never Q Num_Q q_env I (q_A Annoy) q_m (Scalar 0%Z) (Csr (csr_of_rows 2 [[(1, 1%Q)]])) 1 true None None) as (e & HE & _).
  - unfold I. cbn [i_has]. intros s Hs. apply existsb_exists in Hs. destruct Hs as (x & Hx & EX). apply String.eqb_eq in EX. subst x. revert s Hx. apply Forall_forall. repeat constructor.
  - reflexivity.
  - discriminate.
  - rewrite HE in HO. discriminate.
Qed.
Print Assumptions C58_refuted.
(** Without approximation Annoy and NMSLib pass the call on. *)
Theorem C58_partial : forall T (NT : Num T) (E : ann_env T) (I : inner T) A m id M N liked fi items,
  a_approx_rec A = false -> a_lib A <> Faiss -> ann_recommend E I A m id (Csr M) N liked fi true items = (m, i_recommend I m id (Csr M) (Z.of_nat N) liked fi true items).
Proof.
  intros T NT E I A m id M N liked fi items HA HL. unfold ann_recommend, check_csr_arg. rewrite orb_true_r, HA. cbn [negb]. destruct items, (a_lib A); auto; congruence.
Qed.
Print Assumptions C58_partial.
