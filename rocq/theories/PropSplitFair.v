(** C147: which ratings are held out is decided by one random number per rating. *)
From Coq Require Import List Arith Lia Bool ZArith QArith.Qround QArith Reals Lra Permutation Sorted.
From Verif Require Import Base Num Sparse TopkModel TopkBatch RecommendModel RVec KnnProofs WeightModel SplitModel SplitProofs PropSplit.
Import ListNotations.
Local Close Scope Q_scope.
Local Close Scope R_scope.
Local Open Scope nat_scope.

(** Position of an element of a list without repetitions. *)
Fixpoint posn {A} (eqb : A -> A -> bool) (x : A) (l : list A) : nat :=
  match l with [] => 0 | y :: l => if eqb x y then 0 else S (posn eqb x l) end.
Definition pair_eqb (p q : nat * nat) : bool := (fst p =? fst q) && (snd p =? snd q).
Lemma pair_eqb_spec p q : reflect (p = q) (pair_eqb p q).
Proof.
  destruct p as [a b], q as [c d]. unfold pair_eqb. cbn [fst snd].
  destruct (Nat.eqb_spec a c), (Nat.eqb_spec b d); cbn [andb]; constructor; congruence.
Qed.
Lemma posn_in {A} (eqb : A -> A -> bool) (R : forall x y, reflect (x = y) (eqb x y)) x l :
  In x l -> nth_error l (posn eqb x l) = Some x.
Proof.
  induction l as [|y l IH]; [intros []|]. intros Hx. cbn [posn]. destruct (R x y) as [->|N]; auto.
  cbn [nth_error]. apply IH. destruct Hx; [congruence|auto].
Qed.
Lemma posn_lt {A} (eqb : A -> A -> bool) (R : forall x y, reflect (x = y) (eqb x y)) x l :
  In x l -> posn eqb x l < length l.
Proof. intros Hx. apply nth_error_Some. rewrite (posn_in eqb R); auto. discriminate. Qed.
Lemma posn_nth {A} (eqb : A -> A -> bool) (R : forall x y, reflect (x = y) (eqb x y)) i x l :
  NoDup l -> nth_error l i = Some x -> posn eqb x l = i.
Proof.
  intros N E. apply (proj1 (NoDup_nth_error l) N).
  - apply posn_lt; auto. eapply nth_error_In; eauto.
  - rewrite (posn_in eqb R), E; auto. eapply nth_error_In; eauto.
Qed.
Lemma posn_inj {A} (eqb : A -> A -> bool) (R : forall x y, reflect (x = y) (eqb x y)) x y l :
  In x l -> In y l -> posn eqb x l = posn eqb y l -> x = y.
Proof.
  intros Hx Hy E. apply (posn_in eqb R) in Hx. apply (posn_in eqb R) in Hy. rewrite E in Hx. congruence.
Qed.

(* ------------------------------------------------------------------ *)
(** train_test_split: a rating goes where its own random number says. *)
Theorem C147_train_test :
  forall (T U : Type) (HT : Num T) (HO : NumOrd T) (HU : Num U) (ratings : coo T) (pct : U),
  coo_wf ratings -> NoDup (map coord (o_entries ratings)) ->
  exists slot : nat * nat -> nat,
  (forall c c', In c (map coord (o_entries ratings)) -> In c' (map coord (o_entries ratings)) ->
     slot c < length (o_entries ratings) /\ (slot c = slot c' -> c = c')) /\
  forall (randoms : list U) train test, length randoms = length (o_entries ratings) ->
  train_test_split randoms pct ratings = (train, test) ->
  forall e, In e (o_entries ratings) ->
    exists r, nth_error randoms (slot (coord e)) = Some r /\
    (In (coord e) (map coord (stored train)) <-> nltb r pct = true) /\
    (In (coord e) (map coord (stored test)) <-> nltb r pct = false /\ nltb nzero (eval_ e) = true).
Proof.
  intros T U HT HO HU ratings pct W ND. exists (fun c => posn pair_eqb c (map coord (o_entries ratings))). split.
  { intros c c' Hc Hc'. split; [rewrite <- (map_length coord); apply posn_lt; auto; apply pair_eqb_spec|].
    apply posn_inj; auto; apply pair_eqb_spec. }
  intros randoms train test L E e He.
  destruct (C32_destinations T U HT HO HU ratings randoms pct train test W ND L E) as [P1 [P2 _]].
  destruct (In_nth_error _ _ He) as [n Hn].
  assert (Q : posn pair_eqb (coord e) (map coord (o_entries ratings)) = n).
  { apply posn_nth; auto; [apply pair_eqb_spec|]. rewrite nth_error_map, Hn. reflexivity. }
  rewrite Q. assert (LN : n < length randoms) by (rewrite L; apply nth_error_Some; congruence).
  destruct (nth_error randoms n) as [r|] eqn:Hr; [|apply nth_error_None in Hr; lia]. exists r. split; auto.
  assert (TAG : forall es (rs : list U) n e r, NoDup (map (@coord T) es) -> nth_error es n = Some e -> nth_error rs n = Some r ->
     forall e' r', In (e', r') (combine es rs) -> coord e' = coord e -> e' = e /\ r' = r).
  { clear. induction es as [|x es IH]; intros rs n e r ND He Hr e' r' Hin Q; [destruct n; discriminate|].
    destruct rs as [|y rs]; [destruct n; discriminate|]. inversion ND as [|? ? N1 N2]; subst.
    destruct n as [|n]; cbn [nth_error] in *.
    - inversion He; inversion Hr; subst. destruct Hin as [X|X]; [inversion X; auto|]. exfalso. apply N1.
      apply in_combine_l in X. rewrite <- Q. apply in_map; auto.
    - destruct Hin as [X|X].
      + inversion X; subst. exfalso. apply N1. rewrite Q. apply in_map. eapply nth_error_In; eauto.
      + eapply IH; eauto. }
  assert (TIN : forall es (rs : list U) n (e : nat * nat * T) r, nth_error es n = Some e -> nth_error rs n = Some r -> In (e, r) (combine es rs)).
  { clear. induction es as [|x es IH]; intros rs n e r He Hr; [destruct n; discriminate|].
    destruct rs as [|y rs]; [destruct n; discriminate|]. destruct n; cbn [nth_error combine] in *.
    - inversion He; inversion Hr; left; auto.
    - right. eapply IH; eauto. }
  assert (C1 : forall l, Permutation (stored train) l -> (In (coord e) (map coord (stored train)) <-> In (coord e) (map coord l))).
  { intros l P. split; apply Permutation_in; [|symmetry]; apply Permutation_map; auto. }
  assert (C2 : forall l, Permutation (stored test) l -> (In (coord e) (map coord (stored test)) <-> In (coord e) (map coord l))).
  { intros l P. split; apply Permutation_in; [|symmetry]; apply Permutation_map; auto. }
  rewrite (C1 _ P1), (C2 _ P2). split; split.
  - intros X. apply in_map_iff in X. destruct X as [e' [Qe X]]. apply in_map_iff in X. destruct X as [[e2 r2] [Q2 X]].
    apply filter_In in X. destruct X as [X B]. cbn [fst snd] in *. subst e2.
    destruct (TAG _ _ _ _ _ ND Hn Hr _ _ X Qe) as [_ ->]. exact B.
  - intros B. apply in_map, in_map_iff. exists (e, r). split; auto. apply filter_In. split; [eapply TIN; eauto|exact B].
  - intros X. apply in_map_iff in X. destruct X as [e' [Qe X]]. apply filter_In in X. destruct X as [X POS].
    apply in_map_iff in X. destruct X as [[e2 r2] [Q2 X]]. apply filter_In in X. destruct X as [X B]. cbn [fst snd] in *. subst e2.
    destruct (TAG _ _ _ _ _ ND Hn Hr _ _ X Qe) as [-> ->]. split; [apply negb_true_iff in B; exact B|exact POS].
  - intros [B POS]. apply in_map, filter_In. split; auto. apply in_map_iff. exists (e, r). split; auto. apply filter_In.
    split; [eapply TIN; eauto|]. cbn [snd]. rewrite B. reflexivity.
Qed.
Print Assumptions C147_train_test.

(* ------------------------------------------------------------------ *)
Lemma sorted_below s u p : StronglySorted le s -> p < length s -> nth p s 0 <= u -> p < cnt_le s u.
Proof.
  intros SS. revert p. induction SS as [|x s SS IH F]; intros p L N; [simpl in L; lia|]. unfold cnt_le. cbn [filter].
  assert (X : x <= u).
  { destruct p; [exact N|]. cbn [nth] in N. rewrite Forall_forall in F. specialize (F (nth p s 0)).
    assert (In (nth p s 0) s) by (apply nth_In; simpl in L; lia). specialize (F H). lia. }
  apply Nat.leb_le in X. rewrite X. cbn [length]. destruct p; [lia|]. apply -> Nat.succ_lt_mono. apply IH; [simpl in L; lia|exact N].
Qed.
Lemma ss_nth (l : list Z) p q : StronglySorted Z.le l -> p < q < length l -> (nth p l 0 <= nth q l 0)%Z.
Proof.
  intros SS. revert p q. induction SS as [|x l SS IH F]; intros p q B; [simpl in B; lia|].
  destruct q; [lia|]. destruct p; cbn [nth].
  - rewrite Forall_forall in F. apply F, nth_In. simpl in B. lia.
  - apply IH. simpl in B. lia.
Qed.

Section Blocks.
Variable argsort : list Z -> list nat.
Hypothesis AS : argsort_ok argsort.
Variable noise : list Z.
Variable arr : list nat.
Hypothesis NL : length noise = length arr.
Hypothesis NB : forall z, In z noise -> (0 <= z < unit53)%Z.
Let srt := srt argsort arr.
Let shuf := shuf argsort noise arr.

(** Inside the block of a user the shuffled order is the order of the numbers. *)
Lemma shuf_noise p q : p < q < length arr -> nth p srt 0 = nth q srt 0 -> (nth (nth p shuf 0%nat) noise 0 <= nth (nth q shuf 0%nat) noise 0)%Z.
Proof.
  intros B E. pose proof (shuf_lt argsort AS noise arr NL p ltac:(lia)) as Lp. pose proof (shuf_lt argsort AS noise arr NL q ltac:(lia)) as Lq.
  pose proof (shuf_block argsort AS noise arr NL NB p ltac:(lia)) as Bp. pose proof (shuf_block argsort AS noise arr NL NB q ltac:(lia)) as Bq.
  set (keys := map (fun p => (Z.of_nat (fst p) * unit53 + snd p)%Z) (combine srt noise)).
  assert (KEY : forall x, x < length arr -> nth x keys 0%Z = (Z.of_nat (nth x srt 0%nat) * unit53 + nth x noise 0)%Z).
  { intros z Hz. unfold keys. rewrite (nth_indep _ 0%Z ((fun p => (Z.of_nat (fst p) * unit53 + snd p)%Z) (0, 0%Z))).
    2:{ unfold srt. rewrite map_length, combine_length, NL, (srt_length argsort AS); lia. }
    rewrite (map_nth (fun p => (Z.of_nat (fst p) * unit53 + snd p)%Z)). rewrite combine_nth by (unfold srt; rewrite (srt_length argsort AS); auto). auto. }
  destruct (AS keys) as [_ SS]. fold shuf in SS. unfold keys in SS. change (argsort (map (fun p => (Z.of_nat (fst p) * unit53 + snd p)%Z) (combine srt noise))) with shuf in SS. fold keys in SS.
  assert (LS : length shuf = length arr) by (unfold shuf; rewrite (Permutation_length (shuf_perm argsort AS noise arr NL)), seq_length; auto).
  pose proof (ss_nth _ p q SS ltac:(rewrite map_length, LS; lia)) as LE.
  assert (MN : forall x, x < length arr -> nth x (map (fun i => nth i keys 0%Z) shuf) 0%Z = nth (nth x shuf 0) keys 0%Z).
  { intros x Hx. rewrite (nth_indep _ 0%Z ((fun i => nth i keys 0%Z) 0)) by (rewrite map_length, LS; auto). apply (map_nth (fun i => nth i keys 0%Z)). }
  rewrite !MN in LE by lia. fold shuf in Lp, Lq, Bp, Bq. fold srt in Bp, Bq. rewrite !KEY in LE by auto.
  rewrite Bp, Bq, E in LE. lia.
Qed.

Lemma gpos_surj t : t < length arr -> exists p, p < length arr /\ gpos argsort noise arr p = t.
Proof.
  intros L. assert (P : Permutation (map (gpos argsort noise arr) (seq 0 (length arr))) (seq 0 (length arr))).
  { apply NoDup_Permutation_bis.
    - assert (G : forall l, NoDup l -> (forall k, In k l -> k < length arr) -> NoDup (map (gpos argsort noise arr) l)).
      { induction l as [|k l IH]; intros ND B; [constructor|]. inversion ND; subst. simpl. constructor.
        - intros X. apply in_map_iff in X. destruct X as [k' [E Hk']]. apply gpos_inj in E; auto; try (apply B; [right; auto|left; auto]).
          + subst. contradiction.
          + apply B; right; auto.
          + apply B; left; auto.
        - apply IH; auto. intros; apply B; right; auto. }
      apply G; [apply seq_NoDup|]. intros k Hk. apply in_seq in Hk. lia.
    - rewrite map_length. auto.
    - intros x Hx. apply in_map_iff in Hx. destruct Hx as [p [<- Hp]]. apply in_seq in Hp. apply in_seq.
      pose proof (gpos_lt argsort AS noise arr NL p ltac:(lia)). lia. }
  assert (X : In t (map (gpos argsort noise arr) (seq 0 (length arr)))).
  { apply (Permutation_in _ (Permutation_sym P)), in_seq. lia. }
  apply in_map_iff in X. destruct X as [p [<- Hp]]. exists p. apply in_seq in Hp. split; [lia|auto].
Qed.

Variable K : nat.
Hypothesis CNT : forall u, In u arr -> K < count_occ Nat.eq_dec arr u.

(** Number of the candidate at position t. *)
Definition numpos (t : nat) : nat := posn Nat.eqb t (argsort (map Z.of_nat arr)).
Lemma numpos_gpos p : p < length arr -> numpos (gpos argsort noise arr p) = nth p shuf 0.
Proof.
  intros L. unfold numpos, gpos. fold shuf.
  assert (N1 : NoDup (argsort (map Z.of_nat arr))) by (apply (Permutation_NoDup (Permutation_sym (idx_perm argsort AS arr))), seq_NoDup).
  apply posn_nth; [apply Nat.eqb_spec|auto|]. apply nth_error_nth'.
  rewrite (Permutation_length (idx_perm argsort AS arr)), seq_length. apply (shuf_lt argsort AS noise arr NL); auto.
Qed.

Lemma tail_numbers u t t' : In u arr -> In t (user_tail argsort noise arr K u) -> t' < length arr -> nth t' arr 0 = u ->
  ~ In t' (user_tail argsort noise arr K u) -> (nth (numpos t') noise 0 <= nth (numpos t) noise 0)%Z.
Proof.
  intros Hu Ht L' U' N'. unfold user_tail in Ht. apply in_map_iff in Ht. destruct Ht as [k [<- Hk]]. apply in_seq in Hk.
  destruct (tailpos_block argsort AS noise arr NL K CNT u k Hu ltac:(lia)) as [TL TU].
  destruct (gpos_surj t' L') as [p [Lp <-]]. rewrite !numpos_gpos by auto.
  assert (SP : nth p srt 0 = u) by (unfold srt; rewrite <- (gpos_user argsort AS noise arr NL NB p Lp); auto).
  assert (PB : p < cnt_le arr u).
  { rewrite <- (cnt_le_srt argsort AS). apply sorted_below; [apply (srt_sorted argsort AS noise arr NL)|rewrite (srt_length argsort AS); auto|fold srt; lia]. }
  pose proof (CNT u Hu) as C. pose proof (cnt_le_lt arr u) as CL.
  apply shuf_noise; [|unfold srt; unfold srt in SP; congruence].
  split; [|auto]. unfold tailpos.
  destruct (Nat.lt_ge_cases p (cnt_le arr u + k - 1 - K)) as [|G]; auto. exfalso. apply N'.
  unfold user_tail. apply in_map_iff. exists (p + 1 + K - cnt_le arr u). split; [|apply in_seq; lia].
  f_equal. unfold tailpos. lia.
Qed.
End Blocks.

(** leave_k_out_split: every rating of an eligible user owns one of the random numbers,
    no two the same one, and which one does not depend on the numbers.  Whatever the
    numbers are, exactly K ratings of the user are held out, and none of the others has
    a larger number.  So when the numbers of a user are in random order, all choices of
    K of the user's ratings are equally likely. *)
Theorem C147_leave_k_out :
  forall (T : Type) (HT : Num T) argsort rng_choice (ratings : coo T) (K : Z) (size : Q),
  argsort_ok argsort -> coo_wf ratings -> NoDup (map coord (o_entries ratings)) ->
  (1 <= K)%Z -> (0 <= size)%Q -> (size < 1)%Q ->
  let el := eligible rng_choice ratings K size in
  exists slot : nat * nat -> nat,
  (forall noise c c', noise_ok rng_choice ratings K size noise ->
     In c (map coord (o_entries ratings)) -> In c' (map coord (o_entries ratings)) -> el (fst c) = true -> el (fst c') = true ->
     slot c < length noise /\ (slot c = slot c' -> c = c')) /\
  forall noise, noise_ok rng_choice ratings K size noise ->
  exists train test,
    leave_k_out_split argsort rng_choice noise ratings K size = Ok (train, test) /\
    (forall u, length (csr_row test u) = if el u then Z.to_nat K else 0) /\
    incl (map coord (stored test)) (map coord (o_entries ratings)) /\
    forall u i i', In (u, i) (map coord (stored test)) ->
      In (u, i') (map coord (o_entries ratings)) -> ~ In (u, i') (map coord (stored test)) ->
      (nth (slot (u, i')) noise 0 <= nth (slot (u, i)) noise 0)%Z.
Proof.
  intros T HT argsort rng_choice ratings K size AS W ND HK S0 S1 el.
  set (cand := filter (fun e => el (erow e)) (o_entries ratings)). set (others := filter (fun e => negb (el (erow e))) (o_entries ratings)).
  set (arr := map erow cand). set (k := Z.to_nat K).
  assert (NDC : NoDup (map coord cand)) by (apply nodup_filter_map; auto).
  assert (CE : forall e, In e cand <-> In e (o_entries ratings) /\ el (erow e) = true) by (intros e; apply filter_In).
  assert (LA : length arr = length cand) by (unfold arr; apply map_length).
  exists (fun c => numpos argsort arr (posn pair_eqb c (map coord cand))). split.
  { intros noise c c' [NL _] Hc Hc' Ec Ec'.
    assert (IC : forall c, In c (map coord (o_entries ratings)) -> el (fst c) = true -> In c (map coord cand)).
    { intros x Hx Ex. apply in_map_iff in Hx. destruct Hx as [e [<- He]]. apply in_map, CE. auto. }
    assert (PL : forall c, In c (map coord (o_entries ratings)) -> el (fst c) = true -> In (posn pair_eqb c (map coord cand)) (argsort (map Z.of_nat arr))).
    { intros x Hx Ex. apply (Permutation_in _ (Permutation_sym (idx_perm argsort AS arr))), in_seq.
      pose proof (posn_lt pair_eqb pair_eqb_spec x (map coord cand) (IC x Hx Ex)) as X. rewrite map_length in X. lia. }
    split.
    - pose proof (posn_lt Nat.eqb Nat.eqb_spec _ _ (PL c Hc Ec)) as X. rewrite (Permutation_length (idx_perm argsort AS arr)), seq_length in X.
      unfold numpos. rewrite NL. fold el. fold cand. rewrite <- LA. exact X.
    - intros E. apply (posn_inj pair_eqb pair_eqb_spec c c' (map coord cand)); auto.
      apply (posn_inj Nat.eqb Nat.eqb_spec) in E; auto. }
  intros noise NOISE.
  destruct (C33_leave_k_out_partial T HT argsort rng_choice noise ratings K size AS W ND HK S0 S1 NOISE) as [train [test [E [ROWS [INC _]]]]].
  exists train, test. split; [exact E|]. split; [exact ROWS|]. split; [exact INC|].
  destruct NOISE as [NL NB]. fold el cand in NL. assert (NLA : length noise = length arr) by congruence.
  assert (CNT : forall u, In u arr -> k < count_occ Nat.eq_dec arr u).
  { intros u Hu. unfold arr in Hu. apply in_map_iff in Hu. destruct Hu as [e [<- He]]. apply filter_In in He. destruct He as [He B].
    unfold arr. rewrite count_erow. assert (X : length (filter (fun e0 => erow e0 =? erow e) cand) = length (ratings_of ratings (erow e))).
    { unfold ratings_of, cand. f_equal. clear -B. induction (o_entries ratings) as [|x l IH]; auto. simpl.
      destruct (Nat.eqb_spec (erow x) (erow e)) as [Q|Q].
      - rewrite Q, B. simpl. rewrite Q, Nat.eqb_refl. f_equal. auto.
      - destruct (el (erow x)); simpl; auto. destruct (Nat.eqb_spec (erow x) (erow e)); [contradiction|auto]. }
    rewrite X. unfold el, eligible in B. apply andb_true_iff in B. destruct B as [B _]. apply Nat.ltb_lt in B. fold k in B. lia. }
  assert (S0' : Qle_bool 0 size = true) by (apply Qle_bool_iff; auto).
  assert (S1' : Qle_bool 1 size = false).
  { destruct (Qle_bool 1 size) eqn:B; auto. apply Qle_bool_iff in B. exfalso. apply (Qlt_not_le _ _ S1); auto. }
  pose proof (leave_k_out_unfold argsort rng_choice noise ratings K size HK S0' S1') as UF. cbv zeta in UF. fold el in UF. fold cand others in UF. fold arr k in UF.
  intros u i i' Ht Hr Hn.
  assert (NE : arr <> []).
  { intros X. rewrite UF, X in E. unfold arr in X. apply map_eq_nil in X. rewrite X in E.
    destruct (take_tails argsort noise [] k) as [[ti hd]|]; cbn [bind] in E; [|discriminate]. inversion E; subst test.
    assert (PN : pick (@nil (nat * nat * T)) ti = []).
    { unfold pick. clear. induction ti as [|[|a] ti IH]; simpl; auto. }
    rewrite PN in Ht. apply stored_coords in Ht; [destruct Ht|]. intros e []. }
  destruct (take_tails_ok argsort AS noise arr NLA k CNT NE) as [heads TT]. rewrite UF, TT in E. cbn [bind] in E. injection E as _ E. subst test.
  assert (W1 : coo_wf (with_entries ratings (pick cand (held_out argsort noise arr k)))).
  { intros e He. simpl in He. apply pick_in in He. destruct He as [t [_ He]]. apply nth_error_In in He. apply CE in He. apply W; tauto. }
  apply stored_coords in Ht; auto. rewrite (stored_coords _ _ W1) in Hn. cbn [with_entries o_entries] in Ht, Hn.
  apply in_map_iff in Ht. destruct Ht as [e [Qe He]]. apply pick_in in He. destruct He as [t [Ht He]].
  apply held_out_in in Ht; auto. destruct Ht as [u' [Hu' Ht]].
  assert (NTH : forall t e, nth_error cand t = Some e -> t < length arr /\ nth t arr 0 = erow e).
  { intros x y Hx. assert (x < length cand) by (apply nth_error_Some; congruence). split; [lia|].
    unfold arr. change 0 with (erow (0, 0, eval_ y)). rewrite map_nth. f_equal. apply nth_error_nth; auto. }
  destruct (user_tail_ok argsort AS noise arr NLA NB k CNT u' Hu') as [_ [_ UT]].
  assert (EU : u' = u). { destruct (UT t Ht) as [_ <-]. destruct (NTH t e He) as [_ ->]. unfold coord in Qe. congruence. }
  subst u'. apply in_map_iff in Hr. destruct Hr as [e' [Qe' He']].
  assert (ELU : el u = true).
  { apply nth_error_In in He. apply CE in He. destruct He as [_ He]. unfold coord in Qe. congruence. }
  assert (IC' : In e' cand) by (apply CE; split; auto; unfold coord in Qe'; congruence).
  destruct (In_nth_error _ _ IC') as [t' Ht'].
  assert (P1 : posn pair_eqb (u, i) (map coord cand) = t).
  { apply posn_nth; auto; [apply pair_eqb_spec|]. rewrite nth_error_map, He. simpl. congruence. }
  assert (P2 : posn pair_eqb (u, i') (map coord cand) = t').
  { apply posn_nth; auto; [apply pair_eqb_spec|]. rewrite nth_error_map, Ht'. simpl. congruence. }
  rewrite P1, P2. destruct (NTH t' e' Ht') as [L' U'].
  apply (tail_numbers argsort AS noise arr NLA NB k CNT u); auto.
  - rewrite U'. unfold coord in Qe'. congruence.
  - intros X. apply Hn. rewrite <- Qe'. apply in_map. apply pick_in. exists t'. split; auto. apply held_out_in; auto. exists u; auto.
Qed.
Print Assumptions C147_leave_k_out.

(** Another order of the numbers holds out other ratings. *)
Example C147_example :
  argsort_ok sort_keys /\ coo_wf (ex_users 0 1) /\ NoDup (map coord (o_entries (ex_users 0 1))) /\
  noise_ok no_choice (ex_users 0 1) 1 (0 # 1) ex_noise /\ noise_ok no_choice (ex_users 0 1) 1 (0 # 1) (rev ex_noise) /\
  (match leave_k_out_split sort_keys no_choice ex_noise (ex_users 0 1) 1 (0 # 1) with
   | Ok (train, test) => Some (stored test) | Raise _ => None end) = Some [(0, 0, 1%Z); (1, 1, 5%Z)] /\
  (match leave_k_out_split sort_keys no_choice (rev ex_noise) (ex_users 0 1) 1 (0 # 1) with
   | Ok (train, test) => Some (stored test) | Raise _ => None end) <> Some [(0, 0, 1%Z); (1, 1, 5%Z)].
Proof.
  destruct C33_example as [A [B [C [D [_ F]]]]]. split; [exact A|]. split; [exact B|]. split; [exact C|]. split; [exact D|].
  split; [|split; [reflexivity|vm_compute; intros X; inversion X]].
  destruct D as [D1 D2]. split; [rewrite rev_length; exact D1|]. intros z Hz. apply D2. apply in_rev. exact Hz.
Qed.
