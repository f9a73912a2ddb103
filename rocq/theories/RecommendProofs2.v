(** [recommend]: filters, explicit item lists, batches, errors. *)
From Coq Require Import List Arith Lia Bool ZArith Permutation Sorted.
From Verif Require Import Base Num Heap Sparse TopkModel TopkSpec TopkProofs TopkBatch
  RecommendModel RecommendProofs.
Import ListNotations.

(* ---------- lists ---------- *)
Lemma Forall2_enum_nth {A B} (P : nat -> A -> B -> Prop) (l : list A) (rs : list B) d d' :
  Forall2 (fun p r => P (fst p) (snd p) r) (enum l) rs <->
  length l = length rs /\ forall g, g < length l -> P g (nth g l d) (nth g rs d').
Proof.
  unfold enum.
  assert (G : forall j rs, Forall2 (fun p r => P (fst p) (snd p) r) (enum_from j l) rs <->
     length l = length rs /\ forall g, g < length l -> P (j + g) (nth g l d) (nth g rs d')).
  { induction l as [|a l IH]; intros j rs'; simpl.
    - split. { intros E; inversion E; split; auto; simpl; lia. }
      intros [E _]. destruct rs'; [constructor|discriminate].
    - split.
      + intros E. inversion E as [|? b ? bs E1 E2]; subst. apply IH in E2. destruct E2 as [L E2].
        split; [simpl; auto|]. intros [|g] Hg; simpl; [rewrite Nat.add_0_r; auto|].
        rewrite <- Nat.add_succ_comm. apply E2. lia.
      + intros [L E]. destruct rs' as [|b bs]; [discriminate|]. constructor.
        * specialize (E 0 ltac:(lia)). simpl in E. rewrite Nat.add_0_r in E. auto.
        * apply IH. split; [simpl in L; lia|]. intros g Hg. specialize (E (S g) ltac:(lia)).
          simpl in E. rewrite Nat.add_succ_r in E. auto. }
  apply G.
Qed.

Lemma choose_list {B} (P : nat -> B -> Prop) n (d : B) :
  (forall g, g < n -> exists b, P g b) ->
  exists bs, length bs = n /\ forall g, g < n -> P g (nth g bs d).
Proof.
  induction n; intros X. { exists []; split; auto; lia. }
  destruct IHn as [bs [L Y]]. { intros; apply X; lia. }
  destruct (X n ltac:(lia)) as [b Hb]. exists (bs ++ [b]). split. { rewrite app_length; simpl; lia. }
  intros g Hg. destruct (Nat.eq_dec g n).
  - subst. rewrite app_nth2 by lia. rewrite Nat.sub_diag. auto.
  - rewrite app_nth1 by lia. apply Y. lia.
Qed.

Lemma ss_split {A} (R : A -> A -> Prop) (f : A -> bool) l :
  StronglySorted R l ->
  (forall x y, In x l -> In y l -> R x y -> f x = true -> f y = true) ->
  l = filter (fun x => negb (f x)) l ++ filter f l.
Proof.
  induction 1 as [|a l S IH F]; simpl; intros X; auto.
  destruct (f a) eqn:E; simpl.
  - assert (Z : forall y, In y l -> f y = true).
    { intros y Hy. rewrite Forall_forall in F. apply (X a y); auto. }
    assert (E1 : filter (fun x => negb (f x)) l = []).
    { clear -Z. induction l; simpl; auto. rewrite (Z a) by (left; auto). simpl.
      apply IHl. intros; apply Z; right; auto. }
    assert (E2 : filter f l = l).
    { clear -Z. induction l; simpl; auto. rewrite (Z a) by (left; auto). f_equal.
      apply IHl. intros; apply Z; right; auto. }
    rewrite E1, E2. auto.
  - f_equal. apply IH. intros x y Hx Hy. apply X; auto.
Qed.

Lemma nodup_incl_count {A} (dec : forall x y : A, {x = y} + {x <> y}) (l l' : list A) :
  NoDup l -> incl l l' -> length l <= length l'.
Proof. intros. apply NoDup_incl_length; auto. Qed.

Section Filt.
Context {T : Type} `{NumOrd T}.
Variable fmin : T.

(** Consequences of the filtered top-N: unfiltered items come first. *)
Lemma fscore_split (filt : nat -> bool) (score : nat -> T) cands n ids sc :
  TopN (fscore fmin filt score) cands n ids sc -> NoDup cands ->
  (forall j, In j cands -> filt j = false -> nltb fmin (score j) = true) ->
  let good := filter (fun i => negb (filt i)) ids in
  let bad := filter filt ids in
  ids = good ++ bad /\
  (bad <> [] -> forall j, In j cands -> filt j = false -> In j good) /\
  (n <= length (filter (fun i => negb (filt i)) cands) ->
     bad = [] /\ TopN score (filter (fun i => negb (filt i)) cands) n ids sc).
Proof.
  intros [L S N I D B] NC GT good bad.
  assert (E : ids = good ++ bad).
  { apply (ss_split (fun i j => nleb (fscore fmin filt score j) (fscore fmin filt score i) = true)); auto.
    intros x y Hx Hy R Fx. destruct (filt y) eqn:Fy; auto. exfalso.
    unfold fscore in R. rewrite Fx, Fy in R. apply nleb_nltb_false in R.
    rewrite GT in R; auto. discriminate. }
  assert (ALL : bad <> [] -> forall j, In j cands -> filt j = false -> In j good).
  { intros NB j Hj Fj. destruct (in_dec Nat.eq_dec j ids) as [Hin|Hn].
    - unfold good. apply filter_In. rewrite Fj. auto.
    - exfalso. destruct bad as [|b bs] eqn:EB; [congruence|].
      assert (Hb : In b ids /\ filt b = true).
      { apply filter_In. change (In b bad). rewrite EB. left; auto. }
      destruct Hb as [Hb Fb]. specialize (B b j Hb Hj Hn). unfold fscore in B. rewrite Fb, Fj in B.
      apply nleb_nltb_false in B. rewrite GT in B; auto. discriminate. }
  split; auto. split; auto.
  intros C.
  assert (NB : bad = []).
  { destruct bad as [|b bs] eqn:EB; auto. exfalso.
    assert (X : length (filter (fun i => negb (filt i)) cands) <= length good).
    { apply NoDup_incl_length. { apply NoDup_filter; auto. }
      intros j Hj. apply filter_In in Hj. destruct Hj as [Hj Fj]. apply negb_true_iff in Fj.
      apply ALL; auto. discriminate. }
    rewrite E, app_length in L. simpl in L. lia. }
  split; auto.
  assert (G : forall i, In i ids -> filt i = false).
  { intros i Hi. destruct (filt i) eqn:F; auto. exfalso.
    assert (X : In i bad) by (apply filter_In; auto). rewrite NB in X. destruct X. }
  constructor; auto.
  - rewrite S. apply map_ext_in. intros i Hi. unfold fscore. rewrite G; auto.
  - intros i Hi. apply filter_In. rewrite G by auto. split; auto.
  - clear -D G. induction D as [|a l D IHD F]; constructor.
    + apply IHD. intros; apply G; right; auto.
    + rewrite Forall_forall in *. intros x Hx. specialize (F x Hx). unfold fscore in F.
      rewrite (G a), (G x) in F; auto; [right; auto|left; auto].
  - intros i j Hi Hj Hn. apply filter_In in Hj. destruct Hj as [Hj Fj]. apply negb_true_iff in Fj.
    specialize (B i j Hi Hj Hn). unfold fscore in B. rewrite Fj, (G i) in B; auto.
Qed.

Lemma TopN_cands (score : nat -> T) c c' n ids sc :
  (forall i, In i c <-> In i c') -> TopN score c n ids sc -> TopN score c' n ids sc.
Proof.
  intros E [L S N I D B]. constructor; auto.
  - intros i Hi. apply E; auto.
  - intros i j Hi Hj. apply B; auto. apply E; auto.
Qed.
End Filt.

(* ---------- sorted integer lists ---------- *)
Lemma zgt_swo : swo (fun x y => (y <? x)%Z).
Proof.
  constructor; intros; rewrite ?Z.ltb_lt, ?Z.ltb_ge in *; try lia.
Qed.

Lemma sort_z_perm l : Permutation (sort_z l) l.
Proof. apply sort_by_perm. Qed.

Lemma sort_z_sorted l : StronglySorted Z.le (sort_z l).
Proof.
  pose proof (sort_by_sorted _ zgt_swo l) as S. unfold sort_z.
  induction S; constructor; auto. rewrite Forall_forall in *. intros x Hx. specialize (H x Hx).
  apply Z.ltb_ge in H. auto.
Qed.

Lemma sorted_le_lt l : StronglySorted Z.le l -> NoDup l -> StronglySorted Z.lt l.
Proof.
  induction 1; intros N; constructor; inversion N; subst; auto.
  rewrite Forall_forall in *. intros x Hx. specialize (H0 x Hx).
  assert (a <> x) by (intro; subst; auto). lia.
Qed.

Lemma searchsorted_strict l p : StronglySorted Z.lt l -> p < length l ->
  searchsorted l (nth p l 0%Z) = p.
Proof.
  unfold searchsorted. intros S; revert p; induction S as [|a l S IH F]; simpl; intros p Hp; [lia|].
  rewrite Forall_forall in F. destruct p; simpl.
  - rewrite Z.ltb_irrefl. clear -F. induction l; simpl; auto.
    destruct (Z.ltb_spec a0 a).
    + specialize (F a0 (or_introl eq_refl)). lia.
    + apply IHl. intros; apply F; right; auto.
  - assert (a < nth p l 0)%Z by (apply F; apply nth_In; lia).
    destruct (Z.ltb_spec a (nth p l 0%Z)); [|lia]. simpl. rewrite IH by lia. auto.
Qed.

Section FilterSparse.
Context {T : Type} `{NumOrd T}.

Lemma neqb_refl (a : T) : neqb a a = true.
Proof. unfold neqb. rewrite nltb_irrefl. auto. Qed.

(** Columns of row [g] after the remap, for a repeat-free sorted item list. *)
Lemma filter_sparse_indices its (q : csr T) g p :
  StronglySorted Z.lt its -> its <> [] -> g < c_rows q ->
  In p (csr_row_indices (filter_items_from_sparse_matrix its q) g) <->
  p < length its /\ exists c v, In (c, v) (csr_row q g) /\ neqb v nzero = false /\
                                nth p its 0%Z = Z.of_nat c.
Proof.
  intros S NE Hg. unfold csr_row_indices, filter_items_from_sparse_matrix.
  rewrite csr_row_of_rows.
  assert (E : forall (f : list (nat * T) -> list (nat * T)), f [] = [] ->
     nth g (map f (csr_to_rows q)) [] = f (csr_row q g)).
  { intros f Hf. rewrite <- Hf at 1. rewrite map_nth. f_equal. unfold csr_to_rows.
    rewrite (nth_indep _ [] (csr_row q 0)) by (rewrite map_length, seq_length; auto).
    rewrite map_nth, seq_nth by auto. auto. }
  rewrite E by auto. clear E. rewrite in_map_iff.
  assert (LN : 0 < length its) by (destruct its; simpl; [congruence|lia]).
  split.
  - intros [[p' v'] [<- Hin]]. apply filter_In in Hin. destruct Hin as [Hin NZ]. simpl in NZ.
    apply negb_true_iff in NZ. apply in_map_iff in Hin. destruct Hin as [[c v] [E Hin]].
    cbn [fst snd] in E |- *.
    destruct (nth (Nat.min (searchsorted its (Z.of_nat c)) (length its - 1)) its 0 =? Z.of_nat c)%Z eqn:EQ;
      cbn [negb] in E; inversion E; subst.
    + split; [lia|]. exists c, v'. apply Z.eqb_eq in EQ. auto.
    + rewrite neqb_refl in NZ. discriminate.
  - intros [Hp [c [v [Hin [NZ Ec]]]]]. exists (p, v). split; auto.
    apply filter_In. cbn [snd]. rewrite NZ. split; auto.
    apply in_map_iff. exists (c, v). split; auto. cbn [fst snd].
    rewrite <- Ec. rewrite searchsorted_strict by auto.
    rewrite Nat.min_l by lia. rewrite Z.eqb_refl. auto.
Qed.

Lemma filter_sparse_rows its (q : csr T) : c_rows (filter_items_from_sparse_matrix its q) = c_rows q.
Proof.
  unfold filter_items_from_sparse_matrix, csr_of_rows. cbn [c_rows].
  rewrite map_length. unfold csr_to_rows. rewrite map_length, seq_length. auto.
Qed.

(** The remap works row by row. *)
Lemma filter_sparse_row its (q : csr T) g : g < c_rows q ->
  csr_row (filter_items_from_sparse_matrix its (csr_take_row q g)) 0 =
  csr_row (filter_items_from_sparse_matrix its q) g.
Proof.
  intros Hg. unfold filter_items_from_sparse_matrix. rewrite !csr_row_of_rows.
  assert (E : forall (f : list (nat * T) -> list (nat * T)), f [] = [] ->
     nth g (map f (csr_to_rows q)) [] = f (csr_row q g)).
  { intros f Hf. rewrite <- Hf at 1. rewrite map_nth. f_equal. unfold csr_to_rows.
    rewrite (nth_indep _ [] (csr_row q 0)) by (rewrite map_length, seq_length; auto).
    rewrite map_nth, seq_nth by auto. auto. }
  rewrite E by auto. unfold csr_take_row. rewrite csr_to_rows_of_rows. auto.
Qed.
End FilterSparse.

Section Items.
Context {T : Type} `{NumOrd T}.
Variables (HP : std_heap) (HC : std_heap_ok HP) (fmin : T).

Definition in_model (n : nat) (z : Z) : Prop := (0 <= z < Z.of_nat n)%Z.

Lemma out_of_model_ok n l : l <> [] ->
  (forall z, In z l -> in_model n z) -> out_of_model n l = Ok false.
Proof.
  unfold in_model. intros NE B. unfold out_of_model. destruct l as [|a l]; [congruence|]. f_equal.
  apply not_true_iff_false. intro X. apply existsb_exists in X. destruct X as [z [Hz X]].
  specialize (B z Hz). apply orb_true_iff in X. rewrite Z.leb_le, Z.ltb_lt in X. lia.
Qed.

Lemma restrict_items_ok (m : mf T) fi its :
  truthy fi = Ok false -> arr_list its <> [] ->
  (forall z, In z (arr_list its) -> in_model (length (item_factors m)) z) ->
  restrict_items m fi its =
    Ok (sort_z (arr_list its), map (fun z => nth (Z.to_nat z) (item_factors m) []) (sort_z (arr_list its))).
Proof.
  intros Tf NE B. unfold restrict_items. rewrite Tf. cbn [bind].
  assert (B' : forall z, In z (sort_z (arr_list its)) -> in_model (length (item_factors m)) z).
  { intros z Hz. apply B. eapply Permutation_in; [apply sort_z_perm|auto]. }
  assert (NE' : sort_z (arr_list its) <> []).
  { intro X. pose proof (sort_z_perm (arr_list its)) as P. rewrite X in P. apply Permutation_nil in P. auto. }
  assert (E : (do facs <- gather (item_factors m) (sort_z (arr_list its));
      do bad <- out_of_model (length (item_factors m)) (sort_z (arr_list its));
      if bad : bool then Raise IndexError else Ok (sort_z (arr_list its), facs)) =
     Ok (sort_z (arr_list its), map (fun z => nth (Z.to_nat z) (item_factors m) []) (sort_z (arr_list its)))).
  { rewrite gather_ok.
    - cbn [bind]. rewrite out_of_model_ok by auto. cbn [bind]. f_equal. f_equal.
      apply map_ext_in. intros z Hz. f_equal. apply wrap_nonneg. apply B' in Hz. unfold in_model in Hz. lia.
    - intros z Hz. apply B' in Hz. unfold in_model, idx_ok in *. lia. }
  destruct its as [[|a l]|l]; auto. simpl in NE. congruence.
Qed.

Lemma restrict_items_bad (m : mf T) fi its :
  truthy fi = Ok false ->
  (exists z, In z (arr_list its) /\ ~ in_model (length (item_factors m)) z) ->
  restrict_items m fi its = Raise IndexError.
Proof.
  intros Tf [z [Hz B]]. unfold restrict_items. rewrite Tf. cbn [bind].
  set (l := sort_z (arr_list its)).
  assert (Hz' : In z l) by (eapply Permutation_in; [apply Permutation_sym, sort_z_perm|auto]).
  assert (E : (do facs <- gather (item_factors m) l;
      do bad <- out_of_model (length (item_factors m)) l;
      if bad : bool then Raise IndexError else Ok (l, facs)) = Raise IndexError).
  { destruct (gather (item_factors m) l) as [facs|e] eqn:G.
    - cbn [bind]. unfold out_of_model. destruct l as [|a l'] eqn:El; [destruct Hz'|].
      assert (X : existsb (fun z0 => (Z.of_nat (length (item_factors m)) <=? z0)%Z || (z0 <? 0)%Z) (a :: l') = true).
      { apply existsb_exists. exists z. split; auto. apply orb_true_iff. rewrite Z.leb_le, Z.ltb_lt.
        unfold in_model in B. lia. }
      rewrite X. auto.
    - cbn [bind]. f_equal.
      destruct (Z_le_dec (- Z.of_nat (length (item_factors m))) z), (Z_lt_dec z (Z.of_nat (length (item_factors m)))).
      + (* some index fails: gather only raises IndexError *)
        unfold gather in G. clear -G. induction l; simpl in G; [discriminate|].
        unfold np_index in G at 1.
        destruct ((0 <=? a)%Z && (a <? Z.of_nat (length (item_factors m)))%Z); simpl in G.
        { destruct (map_res _ l); simpl in G; [discriminate|]. inversion G; subst. apply IHl; auto. }
        destruct ((- Z.of_nat (length (item_factors m)) <=? a)%Z && (a <? 0)%Z); simpl in G.
        { destruct (map_res _ l); simpl in G; [discriminate|]. inversion G; subst. apply IHl; auto. }
        congruence.
      + rewrite gather_bad in G; [congruence|]. exists z; split; auto. unfold idx_ok; lia.
      + rewrite gather_bad in G; [congruence|]. exists z; split; auto. unfold idx_ok; lia.
      + rewrite gather_bad in G; [congruence|]. exists z; split; auto. unfold idx_ok; lia. }
  destruct its as [[|a l0]|l0]; auto. 
Qed.

(** Items the user's row holds with a non-zero value. *)
Definition liked_nz (M : csr T) (g : nat) (i : nat) : bool :=
  existsb (fun p => (fst p =? i) && negb (neqb (snd p) nzero)) (csr_row M g).

Definition liked_filter (fl : bool) (ui : sparse_arg T) (i : nat) : bool :=
  fl && match ui with Csr M => liked_nz M 0 i | NotCsr => false end.

Lemma recommend_scalar_items m f recalc u ui N fl its :
  mf_wf m f -> idx_ok (length (user_factors m)) u -> (0 < N)%Z ->
  liked_ok (length (item_factors m)) 1 fl ui ->
  arr_list its <> [] -> NoDup (arr_list its) ->
  (forall z, In z (arr_list its) -> in_model (length (item_factors m)) z) ->
  exists ids scores,
    recommend HP fmin m recalc (Scalar u) ui N fl None false (Some its) =
      Ok (OneRow (map Z.of_nat ids) scores) /\
    TopN (fscore fmin (liked_filter fl ui)
            (fun i => ndot (nth (wrap (length (user_factors m)) u) (user_factors m) [])
                           (nth i (item_factors m) [])))
         (map Z.to_nat (arr_list its)) (Nat.min (Z.to_nat N) (length (arr_list its))) ids scores.
Proof.
  intros [Wu Wi] Hu HN Hl NE ND B. unfold recommend. rewrite (gate_ok fl false ui (Scalar u) _ _ Hl eq_refl).
  unfold user_factor. simpl id_list.
  rewrite gather_ok by (intros z [<-|[]]; auto). cbn [bind map].
  set (q := nth (wrap (length (user_factors m)) u) (user_factors m) []).
  assert (Lq : length q = f). { apply Wu. apply nth_In. apply wrap_lt; auto. }
  rewrite restrict_items_ok by auto. cbn [bind fst snd].
  set (l := sort_z (arr_list its)).
  assert (P : Permutation l (arr_list its)) by apply sort_z_perm.
  assert (Ll : length l = length (arr_list its)) by (apply Permutation_length; auto).
  assert (NEl : l <> []). { intro X. rewrite X in P. apply Permutation_nil in P. auto. }
  assert (SL : StronglySorted Z.lt l).
  { apply sorted_le_lt; [apply sort_z_sorted|]. eapply Permutation_NoDup; [apply Permutation_sym; exact P|auto]. }
  assert (Bl : forall z, In z l -> in_model (length (item_factors m)) z).
  { intros z Hz. apply B. eapply Permutation_in; eauto. }
  set (facs := map (fun z => nth (Z.to_nat z) (item_factors m) []) l).
  assert (Lf : length facs = length l) by (unfold facs; apply map_length).
  set (n := length l) in *. assert (Hn : 0 < n) by (destruct l; simpl in *; [congruence|lia]).
  set (k := Z.min N (Z.of_nat (length (arr_list its)))).
  assert (Hk : (0 < k)%Z) by (unfold k; lia).
  assert (Ek : Z.to_nat k = Nat.min (Z.to_nat N) (length (arr_list its))) by (unfold k; lia).
  set (fq := if fl then match ui with NotCsr => None | Csr M => Some (filter_items_from_sparse_matrix l M) end else None).
  destruct (topk_row_topn HP HC fmin facs None fq None (Z.to_nat k) 0 q) as [r [E TN]]; auto; try lia.
  { intros y Hy. rewrite Lq. unfold facs in Hy. apply in_map_iff in Hy. destruct Hy as [z [<- Hz]].
    apply Wi. apply nth_In. apply Bl in Hz. unfold in_model in Hz. lia. }
  { unfold fq. destruct fl; auto. destruct (Hl eq_refl) as [M [-> [EM _]]].
    rewrite filter_sparse_rows, EM. split; [lia|]. intros i Hi.
    apply filter_sparse_indices in Hi; auto; [|rewrite EM; lia]. rewrite Lf. tauto. }
  assert (FB : facs <> []). { destruct facs; simpl in *; [lia|discriminate]. }
  assert (ET : topk HP fmin facs [q] k None fq None
         = Ok (map (fun r => pad (Z.to_nat k) 0 (map snd r)) [r], map (fun r => pad (Z.to_nat k) nzero (map fst r)) [r])).
  { apply topk_ok; auto. exists [r]. split; auto. constructor; auto. }
  cbn [option_map]. rewrite ET. cbn [bind finish fst snd map nth remap].
  set (g := fun p => Z.to_nat (nth p l 0%Z)).
  assert (LK : length r = Z.to_nat k).
  { pose proof (topn_length _ _ _ _ _ TN) as X. rewrite map_length in X. rewrite X, Lf. lia. }
  assert (PADi : forall V (d : V) (x : list V), length x = Z.to_nat k -> pad (Z.to_nat k) d x = x).
  { intros V d x Lx. unfold pad. rewrite Lx, Nat.sub_diag. simpl. apply app_nil_r. }
  rewrite !PADi by (rewrite map_length; auto).
  exists (map g (map snd r)), (map fst r). split.
  - f_equal. f_equal. rewrite (map_map g Z.of_nat). apply map_ext_in. intros p Hp. unfold g.
    assert (X : In p (seq 0 (length facs))) by (apply (topn_incl _ _ _ _ _ TN); auto).
    apply in_seq in X. rewrite Z2Nat.id; auto.
    assert (Y : in_model (length (item_factors m)) (nth p l 0%Z)) by (apply Bl; apply nth_In; lia).
    unfold in_model in Y. lia.
  - rewrite <- Ek.
    apply (TopN_cands _ (map g (seq 0 n))).
    { intros i. unfold g. rewrite <- (map_map (fun p => nth p l 0%Z) Z.to_nat).
      assert (X : map (fun p => nth p l 0%Z) (seq 0 n) = l).
      { apply (list_ext _ _ 0%Z); rewrite ?map_seq_length; auto. intros j Hj. rewrite nth_map_seq; auto. }
      rewrite X. rewrite !in_map_iff. split; intros [z [<- Hz]]; exists z; split; auto.
      - eapply Permutation_in; eauto.
      - eapply Permutation_in; [apply Permutation_sym; eauto|auto]. }
    apply TopN_rename.
    { intros i j Hi Hj Eij. apply in_seq in Hi. apply in_seq in Hj. unfold g in Eij.
      assert (in_model (length (item_factors m)) (nth i l 0%Z)) by (apply Bl; apply nth_In; lia).
      assert (in_model (length (item_factors m)) (nth j l 0%Z)) by (apply Bl; apply nth_In; lia).
      unfold in_model in *. assert (EZ : nth i l 0%Z = nth j l 0%Z) by lia.
      assert (NDl : NoDup l) by (eapply Permutation_NoDup; [apply Permutation_sym; exact P|auto]).
      apply (NoDup_nth l 0%Z) in EZ; auto; lia. }
    replace (Z.to_nat k) with (Nat.min (Z.to_nat k) (length facs)) by (rewrite Lf; lia).
    replace n with (length facs) by auto.
    eapply TopN_ext; [|exact TN].
    intros p Hp. apply in_seq in Hp. rewrite Lf in Hp. simpl in Hp.
    assert (Hm : in_model (length (item_factors m)) (nth p l 0%Z)) by (apply Bl; apply nth_In; lia).
    unfold in_model in Hm.
    unfold fscore.
    assert (FE : filtered fq None (length facs) 0 p = liked_filter fl ui (g p)).
    { unfold filtered, liked_filter, fq. rewrite orb_false_r. destruct fl; auto.
      destruct (Hl eq_refl) as [M [-> [EM _]]]. cbn [andb].
      apply eq_true_iff_eq. rewrite memn_spec.
      rewrite filter_sparse_indices by (auto; rewrite EM; lia).
      unfold liked_nz. rewrite existsb_exists. split.
      - intros [_ [c [v [Hin [NZ Ec]]]]]. exists (c, v). split; auto. cbn [fst snd]. rewrite NZ.
        unfold g. rewrite Ec, Nat2Z.id, Nat.eqb_refl. auto.
      - intros [[c v] [Hin X]]. cbn [fst snd] in X. apply andb_true_iff in X. destruct X as [X1 X2].
        apply Nat.eqb_eq in X1. apply negb_true_iff in X2. split; [lia|]. exists c, v.
        split; auto. split; auto. unfold g in X1. lia. }
    rewrite FE. destruct (liked_filter fl ui (g p)); auto.
    unfold base_score, facs. f_equal.
    rewrite (nth_indep _ [] ((fun z => nth (Z.to_nat z) (item_factors m) []) 0%Z)) by (rewrite map_length; lia).
    rewrite (map_nth (fun z => nth (Z.to_nat z) (item_factors m) [])). auto.
Qed.
End Items.
