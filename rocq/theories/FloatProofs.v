(** The order of floats, and ranking with a relation that is an order only on the good values. *)
From Coq Require Import ZArith Bool List Lia Arith Permutation Sorted.
From Coq Require Import Floats.SpecFloat.
From Verif Require Import Base Num Heap Sparse TopkModel TopkSpec TopkProofs TopkBatch RecommendModel FloatModel GnuHeapProofs.
Import ListNotations.

(* ------------------------------------------------------------------ the order of floats *)
(** Lexicographic key. *)
Definition fkey (x : f32) : Z * (Z * Z) :=
  match x with
  | S754_infinity true => (-2, (0, 0))
  | S754_finite true m e => (-1, (- e, - Zpos m))
  | S754_zero _ => (0, (0, 0))
  | S754_finite false m e => (1, (e, Zpos m))
  | S754_infinity false => (2, (0, 0))
  | S754_nan => (-3, (0, 0))
  end%Z.
Definition lex (a b : Z * (Z * Z)) : bool :=
  ((fst a <? fst b) || ((fst a =? fst b) && ((fst (snd a) <? fst (snd b)) || ((fst (snd a) =? fst (snd b)) && (snd (snd a) <? snd (snd b))))))%Z.
Definition f32_lt (x y : f32) : bool := lex (fkey x) (fkey y).

Lemma f32_lt_ok x y : f32_nan x = false -> f32_nan y = false -> nltb x y = f32_lt x y.
Proof.
  intros Hx Hy. change (@nltb f32 _ x y) with (SFltb x y). unfold SFltb, SFcompare, f32_lt, lex.
  destruct x as [sx|sx| |sx mx ex], y as [sy|sy| |sy my ey]; try discriminate; destruct sx, sy; try reflexivity;
    cbn [fkey fst snd]; rewrite ?Z.ltb_irrefl, ?Z.eqb_refl; cbn [orb andb]; try reflexivity.
  - destruct (Z.compare_spec ex ey) as [E|E|E].
    + subst. rewrite Z.ltb_irrefl, Z.eqb_refl. cbn [orb andb]. change (Pos.compare_cont Eq mx my) with (Pos.compare mx my).
      destruct (Pos.compare_spec mx my) as [E|E|E]; cbn [CompOpp]; symmetry; [subst; apply Z.ltb_irrefl|apply Z.ltb_ge; lia|apply Z.ltb_lt; lia].
    + cbn [CompOpp]. symmetry. rewrite (proj2 (Z.ltb_ge _ _)) by lia. rewrite (proj2 (Z.eqb_neq _ _)) by lia. reflexivity.
    + cbn [CompOpp]. symmetry. rewrite (proj2 (Z.ltb_lt _ _)) by lia. reflexivity.
  - destruct (Z.compare_spec ex ey) as [E|E|E].
    + subst. rewrite Z.ltb_irrefl, Z.eqb_refl. cbn [orb andb]. change (Pos.compare_cont Eq mx my) with (Pos.compare mx my).
      destruct (Pos.compare_spec mx my) as [E|E|E]; symmetry; [subst; apply Z.ltb_irrefl|apply Z.ltb_lt; lia|apply Z.ltb_ge; lia].
    + symmetry. rewrite (proj2 (Z.ltb_lt _ _)) by lia. reflexivity.
    + symmetry. rewrite (proj2 (Z.ltb_ge _ _)) by lia. rewrite (proj2 (Z.eqb_neq _ _)) by lia. reflexivity.
Qed.

Lemma lex_spec a b : lex a b = true <->
  (fst a < fst b \/ (fst a = fst b /\ (fst (snd a) < fst (snd b) \/ (fst (snd a) = fst (snd b) /\ snd (snd a) < snd (snd b)))))%Z.
Proof. unfold lex. rewrite !orb_true_iff, !andb_true_iff, !orb_true_iff, !andb_true_iff, !Z.ltb_lt, !Z.eqb_eq. tauto. Qed.
Lemma lex_false a b : lex a b = false <->
  ~ (fst a < fst b \/ (fst a = fst b /\ (fst (snd a) < fst (snd b) \/ (fst (snd a) = fst (snd b) /\ snd (snd a) < snd (snd b)))))%Z.
Proof. rewrite <- lex_spec. destruct (lex a b); split; try congruence; tauto. Qed.
Definition Num_f32_lt : Num f32 := with_order Num_f32 f32_lt.
Lemma NumOrd_f32_lt : @NumOrd f32 Num_f32_lt.
Proof.
  constructor; cbn [nltb Num_f32_lt with_order]; unfold f32_lt; intros; rewrite ?lex_false, ?lex_spec in *; lia.
Qed.

(* ------------------------------------------------------------------ ranking *)
Section Good.
Context {T : Type} (N1 : Num T) (lt : T -> T -> bool) (good : T -> Prop).
Let N2 : Num T := with_order N1 lt.
Hypothesis AG : forall a b, good a -> good b -> @nltb T N1 a b = lt a b.
Hypothesis OR : @NumOrd T N2.
Variables (HP : std_heap) (HC : std_heap_ok HP) (HR : reads_range HP).

Lemma heap_order_good p q : good (fst p) -> good (fst q) -> @heap_order T N1 p q = @heap_order T N2 p q.
Proof. intros Hp Hq. unfold heap_order, pair_ltb. rewrite !AG by auto. reflexivity. Qed.

Definition allgood (l : list (T * nat)) : Prop := forall p, In p l -> good (fst p).
Lemma push_good l : allgood l -> push_heap HP (@heap_order T N1) l = push_heap HP (@heap_order T N2) l.
Proof. intros Hl. apply HR. intros x y Hx Hy. apply heap_order_good; auto. Qed.
Lemma pop_good l : allgood l -> pop_heap HP (@heap_order T N1) l = pop_heap HP (@heap_order T N2) l.
Proof. intros Hl. apply HR. intros x y Hx Hy. apply heap_order_good; auto. Qed.
Lemma sort_good l : allgood l -> sort_heap HP (@heap_order T N1) l = sort_heap HP (@heap_order T N2) l.
Proof. intros Hl. apply HR. intros x y Hx Hy. apply heap_order_good; auto. Qed.

Lemma add_good K results i s : 0 < K -> is_heap (@heap_order T N2) results -> allgood results -> good s ->
  @topk_add T N1 HP K results i s = @topk_add T N2 HP K results i s.
Proof.
  intros HK HH Hg Hs. unfold topk_add. destruct (length results <? K) eqn:E; cbn [bind].
  - assert (E2 : K <=? length results = false) by (apply Nat.leb_gt; apply Nat.ltb_lt in E; lia). rewrite E2.
    rewrite push_good; auto. intros p Hp. apply in_app_or in Hp. destruct Hp as [Hp|[<-|[]]]; auto.
  - destruct results as [|r0 rs]; auto. cbn [bind]. rewrite AG by (auto; apply Hg; left; auto).
    change (@nltb T N2 (fst r0) s) with (lt (fst r0) s). destruct (lt (fst r0) s); auto.
    assert (E2 : K <=? length (r0 :: rs) = true) by (apply Nat.leb_le; apply Nat.ltb_ge in E; auto). rewrite E2.
    rewrite pop_good by auto. destruct (HC _ _ (@heap_order_swo T N2 OR)) as [_ [Hpop _]].
    destruct (Hpop r0 rs HH) as (r & Er & Pr & Hr). rewrite Er, removelast_last. rewrite push_good; auto.
    intros p Hp. apply in_app_or in Hp. destruct Hp as [Hp|[<-|[]]]; auto. apply Hg. right. eapply Permutation_in; eauto.
Qed.

Lemma feed_good K l : 0 < K -> (forall i s, In (i, s) l -> good s) -> forall results dropped, @inv T N2 K results dropped -> allgood (results ++ dropped) ->
  @topk_feed T N1 HP K l results = @topk_feed T N2 HP K l results /\
  forall r, @topk_feed T N2 HP K l results = Ok r -> allgood r.
Proof.
  intros HK. unfold topk_feed. induction l as [|[i s] l IH]; intros Hl results dropped HI Hg; cbn [fold_res fst snd].
  - split; auto. intros r E. injection E as <-. intros p Hp. apply Hg. apply in_or_app; auto.
  - assert (Gr : allgood results) by (intros p Hp; apply Hg; apply in_or_app; auto).
    assert (Gs : good s) by (apply (Hl i s); left; auto).
    rewrite add_good by (auto; apply HI).
    destruct (@topk_add_inv T N2 OR HP HC K results dropped i s HK HI) as (r & d & E & I2 & P). rewrite E. cbn [bind].
    apply (IH ltac:(intros; eapply Hl; right; eauto) r d I2). intros p Hp. apply (Permutation_in _ P) in Hp.
    destruct Hp as [<-|Hp]; auto.
Qed.

Lemma select_row_good k row : 0 < k -> Forall good row -> @select_row T N1 HP k row = @select_row T N2 HP k row.
Proof.
  intros HK Hr. unfold select_row.
  destruct (feed_good k (enum row) HK) with (results := @nil (T * nat)) (dropped := @nil (T * nat)) as [E G].
  - intros i s Hi. unfold enum in Hi. rewrite Forall_forall in Hr. apply Hr. apply in_enum in Hi. eapply nth_error_In; eauto.
  - apply inv_nil.
  - intros p [].
  - rewrite E. destruct (@topk_feed T N2 HP k (enum row) []) as [r|] eqn:ER; cbn [bind]; auto. rewrite sort_good; auto.
Qed.

Lemma select_good batch k base : 0 < k -> (forall row, In row batch -> Forall good row) ->
  @select T N1 HP batch k base = @select T N2 HP batch k base.
Proof.
  intros HK Hb. unfold select. f_equal. apply map_res_ext. intros [j row] Hj. cbn [fst snd]. rewrite select_row_good; auto.
  apply Hb. apply in_enum in Hj. eapply nth_error_In; eauto.
Qed.

Lemma set_cols_good idxs v row row' : good v -> Forall good row -> set_cols idxs v row = Ok row' -> Forall good row'.
Proof.
  intros Hv Hr. unfold set_cols. destruct (map_res _ _) as [is_|]; cbn [bind]; [|discriminate]. intros E. injection E as <-.
  revert row Hr. induction is_ as [|i is_ IH]; intros row Hr; cbn [fold_left]; auto. apply IH. apply upd_P; auto.
Qed.

Lemma map_res_in {A B} (f : A -> res B) l r y : map_res f l = Ok r -> In y r -> exists x, In x l /\ f x = Ok y.
Proof.
  revert r. induction l as [|a l IH]; cbn [map_res]; intros r E Hy; [injection E as <-; destruct Hy|].
  destruct (f a) as [b|] eqn:Ea; cbn [bind] in E; [|discriminate]. destruct (map_res f l) as [bs|] eqn:El; cbn [bind] in E; [|discriminate].
  injection E as <-. destruct Hy as [<-|Hy]; [exists a; split; [left; auto|auto]|]. destruct (IH bs eq_refl Hy) as (x & Hx & Ex). exists x. split; [right; auto|auto].
Qed.

Lemma topk_batch_good fmin items query k s e norms fq fi : 
  (forall q row, In q query -> score_row items norms q = Ok row -> Forall good row) -> good fmin ->
  @topk_batch T N1 HP fmin items query k s e norms fq fi = @topk_batch T N2 HP fmin items query k s e norms fq fi.
Proof.
  intros HS HF. unfold topk_batch. 
  change (@score_row T N2 items norms) with (@score_row T N1 items norms).
  destruct (map_res (score_row items norms) (slice s e query)) as [b|] eqn:E1; cbn [bind]; auto.
  assert (G1 : forall row, In row b -> Forall good row).
  { intros row Hr. destruct (map_res_in _ _ _ _ E1 Hr) as (q & Hq & Eq). apply (HS q); auto.
    unfold slice in Hq. rewrite <- (firstn_skipn s query). apply in_or_app. right. rewrite <- (firstn_skipn (e - s) (skipn s query)). apply in_or_app; auto. }
  assert (F : forall b1 : res (list (list T)), (forall b', b1 = Ok b' -> forall row, In row b' -> Forall good row) ->
     bind b1 (fun batch => bind (match fi with None => Ok batch | Some l => map_res (set_cols l fmin) batch end)
       (fun batch => if (k =? 0) || (length items =? 0) then Raise IndexError else @select T N1 HP batch k (s * k))) =
     bind b1 (fun batch => bind (match fi with None => Ok batch | Some l => map_res (set_cols l fmin) batch end)
       (fun batch => if (k =? 0) || (length items =? 0) then Raise IndexError else @select T N2 HP batch k (s * k)))).
  { intros b1 G. destruct b1 as [b1|]; cbn [bind]; auto. specialize (G b1 eq_refl).
    destruct fi as [l|]; cbn [bind].
    - destruct (map_res (set_cols l fmin) b1) as [b2|] eqn:E2; cbn [bind]; auto.
      destruct (Nat.eqb_spec k 0); cbn [orb]; auto. destruct (length items =? 0); auto. apply select_good; [lia|].
      intros row Hr. destruct (map_res_in _ _ _ _ E2 Hr) as (q & Hq & Eq). eapply set_cols_good; [| |exact Eq]; auto.
    - destruct (Nat.eqb_spec k 0); cbn [orb]; auto. destruct (length items =? 0); auto. apply select_good; [lia|auto]. }
  destruct fq as [m|]; [|apply (F (Ok b)); intros b' X; injection X as <-; auto].
  apply F. intros b' E2 row Hr. destruct (map_res_in _ _ _ _ E2 Hr) as ([j q] & Hq & Eq). cbn [fst snd] in Eq.
  destruct (s + j <? c_rows m); [|discriminate]. eapply set_cols_good; [| |exact Eq]; auto. apply G1. apply in_enum in Hq. eapply nth_error_In; eauto.
Qed.

Lemma topk_good fmin items query k norms fq fi :
  (forall q row, In q query -> score_row items norms q = Ok row -> Forall good row) -> good fmin ->
  @topk T N1 HP fmin items query k norms fq fi = @topk T N2 HP fmin items query k norms fq fi.
Proof.
  intros HS HF. unfold topk. destruct (k <? 0)%Z; auto.
  replace (@topk_all_writes T N1 HP fmin items query (Z.to_nat k) norms fq fi) with (@topk_all_writes T N2 HP fmin items query (Z.to_nat k) norms fq fi); [reflexivity|].
  unfold topk_all_writes. apply map_res_ext. intros [s e] _. symmetry. apply topk_batch_good; auto.
Qed.

(** recommend without an explicit list of items. *)
Lemma recommend_good fmin m recalc userid ui n liked fi rc :
  (forall us, user_factor m recalc userid ui rc = Ok us -> forall q row, In q us -> score_row (item_factors m) None q = Ok row -> Forall good row) -> good fmin ->
  @recommend T N1 HP fmin m recalc userid ui n liked fi rc None = @recommend T N2 HP fmin m recalc userid ui n liked fi rc None.
Proof.
  intros HS HF. unfold recommend. match goal with |- bind ?a _ = bind ?a _ => destruct a; cbn [bind]; auto end.
  destruct (user_factor m recalc userid ui rc) as [us|] eqn:E; cbn [bind]; auto. 
  rewrite (topk_good fmin (item_factors m) us n None) by (auto; apply HS; auto). reflexivity.
Qed.

Lemma TopN_good s c n ids sc : (forall i, In i c -> good (s i)) -> @TopN T N2 s c n ids sc -> @TopN T N1 s c n ids sc.
Proof.
  intros HS [L S1 ND IN SO BE]. constructor; auto.
  - assert (G : forall i, In i ids -> good (s i)) by auto. clear -SO G AG. induction SO as [|a l SS IH F]; constructor.
    + apply IH. intros; apply G; right; auto.
    + rewrite Forall_forall in *. intros x Hx. unfold nleb. rewrite AG by (apply G; simpl; auto). apply (F x Hx).
  - intros i j Hi Hj Nj. unfold nleb. rewrite AG by auto. apply (BE i j); auto.
Qed.
End Good.
