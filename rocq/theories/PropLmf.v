(** LMF: properties C51, C52, C53, C68 (LMF), C70 (LMF), C72 of properties.jsonl. *)
From Coq Require Import List Arith Lia Bool ZArith QArith Reals Lra Psatz Permutation.
From Verif Require Import Base Num Heap Sparse RVec TopkModel RecommendModel AlsModel AlsProofs AlsProofs2 ThreadProg RaceFree BprModel BprProofs BprProofs2 PropBpr LmfModel LmfProofs.
Import ListNotations.
Local Open Scope nat_scope.

(* ---------------------------------------------------------------- spec *)
(** Each of the [r] rows is given to one thread; each thread has a random stream of
    positions among the [nnz] entries. *)
Definition side_ok (nnz r : nat) (deal : list (list nat * (nat -> nat))) : Prop :=
  Permutation (flat_map fst deal) (seq 0 r) /\ Forall (fun d => forall k, snd d k < nnz) deal.
Definition lmf_epoch_ok {T} (M : csr T) (inp : epoch_input) : Prop :=
  side_ok (length (c_indices M)) (c_rows M) (fst (fst inp)) /\ side_ok (length (c_indices M)) (c_cols M) (fst (snd inp)).
Definition user_unrated {T} (M : csr T) (u : nat) : Prop := u < c_rows M /\ csr_row M u = [].
Definition item_unrated {T} (M : csr T) (i : nat) : Prop := i < c_cols M /\ forall u, u < c_rows M -> ~ In i (csr_row_indices M u).

Lemma side_nodup nnz r deal : side_ok nnz r deal -> NoDup (flat_map fst deal).
Proof. intros [P _]. apply (Permutation_NoDup (Permutation_sym P)). apply seq_NoDup. Qed.
Lemma side_in nnz r deal u : side_ok nnz r deal -> u < r -> exists us st, In (us, st) deal /\ In u us.
Proof.
  intros [P _] Hu. assert (HI : In u (flat_map fst deal)) by (apply (Permutation_in _ (Permutation_sym P)); apply in_seq; lia).
  apply in_flat_map in HI. destruct HI as ([us st] & H1 & H2). eauto.
Qed.

Lemma lmf_users {T} (M : csr T) u : csr_wf M -> csr_tight M -> user_unrated M u -> rated (lmf_matrix M) u = false.
Proof.
  intros W HT [Hu He]. destruct (lmf_matrix_spec M W HT) as (W' & _ & ER & _ & HP). specialize (HP u Hu). rewrite He in HP. apply Permutation_sym, Permutation_nil in HP.
  destruct (rated (lmf_matrix M) u) eqn:E; auto. apply rated_spec in E; auto; [congruence|lia].
Qed.
Lemma lmf_items {T} (M : csr T) i : csr_wf M -> item_unrated M i -> rated (lmf_matrix (transpose M)) i = false.
Proof.
  intros W [Hi Hn]. destruct (transpose_wf M) as [WT TT]. apply lmf_users; auto. split; [rewrite transpose_rows; auto|].
  destruct (csr_row (transpose M) i) as [|[u c] l] eqn:E; auto. exfalso. assert (HI : In (u, c) (csr_row (transpose M) i)) by (rewrite E; left; auto).
  apply transpose_in in HI; auto. destruct HI as [Hu HI]. apply (Hn u Hu). unfold csr_row_indices. change i with (fst (i, c)). apply in_map. auto.
Qed.

(* ---------------------------------------------------------------- C51, C68 *)
(** What the factors of a model look like after an epoch. *)
Record biases {T} `{Num T} (f : nat) (M : csr T) (X Y : nat -> nat -> T) : Prop := {
  bias_user_one : forall u, X u f = none_;
  bias_item_one : forall i, Y i (S f) = none_;
  bias_user_zero : forall u j, user_unrated M u -> j < f + 2 -> j <> f -> X u j = nzero;
  bias_item_zero : forall i j, item_unrated M i -> j < f + 2 -> j <> S f -> Y i j = nzero
}.

Lemma epochs_biases {T} `{Num T} (o : lmf_opts) f M : csr_wf M -> csr_tight M ->
  forall inputs epoch X Y DX DY X' Y' tr, Forall (lmf_epoch_ok M) inputs ->
  (forall u j, user_unrated M u -> j < f + 2 -> j <> f -> X u j = nzero) ->
  (forall i j, item_unrated M i -> j < f + 2 -> j <> S f -> Y i j = nzero) ->
  lmf_epochs o f (lmf_matrix M) (lmf_matrix (transpose M)) inputs epoch X Y DX DY = Some (X', Y', tr) ->
  Forall (fun t => biases f M (snd (fst t)) (snd t)) tr /\ (inputs <> [] -> exists e, nth_error tr (length inputs - 1) = Some (e, X', Y')) /\
  map (fun t => fst (fst t)) tr = seq epoch (length inputs).
Proof.
  intros W HT. induction inputs as [|[[d1 s1] [d2 s2]] inputs IH]; intros epoch X Y DX DY X' Y' tr HI HX HY HE.
  - simpl in HE. injection HE as <- <- <-. repeat split; auto. congruence.
  - cbn [lmf_epochs] in HE. inversion HI as [|? ? [O1 O2] HI']; subst. simpl in O1, O2.
    destruct (lmf_update o (lmf_matrix M) d1 s1 X Y DX) as [[[X1 DX1] l1]|] eqn:E1; [|discriminate].
    destruct (lmf_update o (lmf_matrix (transpose M)) d2 s2 Y (set_col f X1) DY) as [[[Y1 DY1] l2]|] eqn:E2; [|discriminate].
    destruct (lmf_epochs _ _ _ _ _ _ _ _ _ _) as [[[X3 Y3] tr3]|] eqn:E3; [|discriminate]. injection HE as <- <- <-.
    destruct (lmf_update_spec o _ _ _ _ _ _ _ _ _ (side_nodup _ _ _ O1) E1) as (_ & F1 & _).
    destruct (lmf_update_spec o _ _ _ _ _ _ _ _ _ (side_nodup _ _ _ O2) E2) as (_ & F2 & _).
    assert (HX' : forall u j, user_unrated M u -> j < f + 2 -> j <> f -> set_col f X1 u j = nzero).
    { intros u j Hu Hj Hn. unfold set_col. destruct (Nat.eqb_spec j f); [congruence|]. destruct (F1 u (or_intror (lmf_users M u W HT Hu))) as [Fu _].
      rewrite (proj1 (Fu j)). auto. }
    assert (HY' : forall i j, item_unrated M i -> j < f + 2 -> j <> S f -> set_col (S f) Y1 i j = nzero).
    { intros u j Hu Hj Hn. unfold set_col. destruct (Nat.eqb_spec j (S f)); [congruence|]. destruct (F2 u (or_intror (lmf_items M u W Hu))) as [Fu _].
      rewrite (proj1 (Fu j)). auto. }
    destruct (IH (S epoch) _ _ _ _ _ _ _ HI' HX' HY' E3) as (I1 & I2 & I3). split; [|split].
    + constructor; auto. simpl. constructor; auto; intros; unfold set_col; rewrite Nat.eqb_refl; auto.
    + intros _. destruct inputs as [|i0 inputs].
      * simpl in E3. injection E3 as <- <- <-. simpl. eauto.
      * destruct (I2 ltac:(discriminate)) as (e & He). exists e. simpl in *. rewrite Nat.sub_0_r in He. auto.
    + simpl. f_equal. auto.
Qed.

Theorem C51_biases : forall T (NT : Num T) (o : lmf_opts) f (M : csr T) rx ry inputs X Y tr,
  csr_wf M -> csr_tight M -> Forall (lmf_epoch_ok M) inputs ->
  lmf_fit o f M None None rx ry inputs = Some (X, Y, tr) ->
  Forall (fun t => biases f M (snd (fst t)) (snd t)) tr /\ (inputs <> [] -> biases f M X Y).
Proof.
  intros T NT o f M rx ry inputs X Y tr W HT HI HF. unfold lmf_fit in HF. cbv zeta in HF.
  destruct (lmf_matrix_spec M W HT) as (W' & T' & ER & EC & HP).
  destruct (epochs_biases o f M W HT inputs 0 (lmf_init_users f (lmf_matrix M) rx) (lmf_init_items f (lmf_matrix M) ry) (fun _ _ => nzero) (fun _ _ => nzero) X Y tr HI) with (3 := HF) as (B1 & B2 & _).
  - intros u j Hu Hj Hne. unfold lmf_init_users. rewrite user_counts_zero; auto.
    + rewrite ER. apply Hu.
    + destruct Hu as [Hu He]. specialize (HP u Hu). rewrite He in HP. apply Permutation_nil. apply Permutation_sym. auto.
  - intros i j Hi Hj Hne. unfold lmf_init_items. rewrite bincount_zero; auto.
    + rewrite EC. apply Hi.
    + intros u Hu Hin. rewrite ER in Hu. apply (perm_in_row M (lmf_matrix M)) in Hin; auto. destruct Hi as [_ Hi]. apply (Hi u); auto.
  - split; auto. intros Hne. destruct (B2 Hne) as (e & He). apply nth_error_In in He. rewrite Forall_forall in B1. apply (B1 _ He).
Qed.

(** So a user without ratings is given the bias of each item as its score. *)
Theorem C51_cold_start : forall f (M : csr R) X Y u i, biases f M X Y -> user_unrated M u ->
  rsum (map (fun j => X u j * Y i j)%R (seq 0 (f + 2))) = Y i f.
Proof.
  intros f M X Y u i B Hu.
  assert (G : forall s k, (forall j, s <= j < s + k -> j < f + 2) -> rsum (map (fun j => X u j * Y i j)%R (seq s k)) = if (s <=? f) && (f <? s + k) then Y i f else 0%R).
  { intros s k. revert s. induction k as [|k IH]; intros s HB.
    - simpl. destruct (Nat.leb_spec s f), (Nat.ltb_spec f (s + 0)); simpl; auto; lia.
    - cbn [seq map rsum]. rewrite IH by (intros; apply HB; lia). destruct (Nat.eq_dec s f) as [->|Hn].
      + rewrite (bias_user_one _ _ _ _ B). destruct (Nat.leb_spec (S f) f), (Nat.leb_spec f f), (Nat.ltb_spec f (f + S k)); simpl; try lia. change none_ with 1%R. lra.
      + rewrite (bias_user_zero _ _ _ _ B u s Hu) by (try apply HB; lia). change nzero with 0%R.
        destruct (Nat.leb_spec (S s) f), (Nat.leb_spec s f), (Nat.ltb_spec f (S s + k)), (Nat.ltb_spec f (s + S k)); simpl; try lia; lra. }
  rewrite G by (intros; lia). destruct (Nat.leb_spec 0 f), (Nat.ltb_spec f (0 + (f + 2))); simpl; auto; lia.
Qed.

Theorem C68_lmf : forall T (NT : Num T) (o : lmf_opts) f (M : csr T) rx ry inputs X Y tr,
  lmf_fit o f M None None rx ry inputs = Some (X, Y, tr) ->
  map (fun t => fst (fst t)) tr = seq 0 (length inputs) /\ (inputs <> [] -> exists e, nth_error tr (length inputs - 1) = Some (e, X, Y)).
Proof.
  intros T NT o f M rx ry inputs X Y tr HF. unfold lmf_fit in HF. cbv zeta in HF.
  assert (G : forall inputs epoch X Y DX DY X' Y' tr, lmf_epochs o f (lmf_matrix M) (lmf_matrix (transpose M)) inputs epoch X Y DX DY = Some (X', Y', tr) ->
    map (fun t => fst (fst t)) tr = seq epoch (length inputs) /\ (inputs <> [] -> exists e, nth_error tr (length inputs - 1) = Some (e, X', Y'))).
  { clear. induction inputs as [|[[d1 s1] [d2 s2]] inputs IH]; intros epoch X Y DX DY X' Y' tr HE.
    - simpl in HE. injection HE as <- <- <-. split; auto. congruence.
    - cbn [lmf_epochs] in HE.
      destruct (lmf_update o (lmf_matrix M) d1 s1 X Y DX) as [[[X1 DX1] l1]|] eqn:E1; [|discriminate].
      destruct (lmf_update o (lmf_matrix (transpose M)) d2 s2 Y (set_col f X1) DY) as [[[Y1 DY1] l2]|] eqn:E2; [|discriminate].
      destruct (lmf_epochs _ _ _ _ _ _ _ _ _ _) as [[[X3 Y3] tr3]|] eqn:E3; [|discriminate]. injection HE as <- <- <-.
      destruct (IH _ _ _ _ _ _ _ _ E3) as [I1 I2]. split; [simpl; f_equal; auto|]. intros _. destruct inputs as [|i0 inputs].
      + simpl in E3. injection E3 as <- <- <-. simpl. eauto.
      + destruct (I2 ltac:(discriminate)) as (e & He). exists e. simpl in *. rewrite Nat.sub_0_r in He. auto. }
  eapply G; eauto.
Qed.

(* ---------------------------------------------------------------- C52 *)
(** The negatives drawn for row [u] in one call. *)
Definition negatives (log : list (nat * nat)) (u : nat) : list nat := map snd (filter (fun e => fst e =? u) log).

(** The number of negatives really drawn: the cap is the number of columns of the factor
    matrices, not the number of items; they are items of the matrix. *)
Theorem C52_partial : forall T (NT : Num T) (o : lmf_opts) (M : csr T) deal sched U V D U' D' log u,
  csr_wf M -> side_ok (length (c_indices M)) (c_rows M) deal -> lmf_update o M deal sched U V D = Some (U', D', log) -> u < c_rows M ->
  length (negatives log u) = Nat.min (l_n o) (length (csr_row M u) * l_neg o) /\
  (forall i, In i (negatives log u) -> In i (c_indices M)) /\
  (length (csr_row M u) * l_neg o <= l_n o -> length (negatives log u) = length (csr_row M u) * l_neg o).
Proof.
  intros T NT o M deal sched U V D U' D' log u W HD HU Hu.
  destruct (lmf_update_spec o _ _ _ _ _ _ _ _ _ (side_nodup _ _ _ HD) HU) as (S1 & S2 & _).
  assert (G : length (negatives log u) = Nat.min (l_n o) (length (csr_row M u) * l_neg o) /\ (forall i, In i (negatives log u) -> In i (c_indices M))).
  { unfold negatives. rewrite map_length, (row_len_spec M u W Hu). destruct (rated M u) eqn:ER.
    - destruct (side_in _ _ _ u HD Hu) as (us & st & H1 & H2). destruct (S1 us st u H1 H2 ER) as (p & _ & HP). split.
      + rewrite (Permutation_length HP), !map_length, seq_length. auto.
      + intros i Hi. apply (Permutation_in _ (Permutation_map snd HP)) in Hi. rewrite map_map in Hi. simpl in Hi. rewrite map_id in Hi.
        apply in_map_iff in Hi. destruct Hi as (k & <- & _). apply nth_In. destruct HD as [_ HD]. rewrite Forall_forall in HD. apply (HD _ H1).
    - destruct (S2 u (or_intror ER)) as [_ HL]. cbv zeta in HL. rewrite HL. simpl. split; [|contradiction].
      assert (E : row_len M u = 0); [|rewrite E; simpl; lia]. unfold rated in ER. unfold row_len. destruct (Nat.eqb_spec (nth u (c_indptr M) 0) (nth (S u) (c_indptr M) 0)); [lia|discriminate]. }
  destruct G as [G1 G2]. split; [auto|]. split; [auto|]. intros HL. rewrite G1. lia.
Qed.

Definition C52_statement : Prop := forall T (NT : Num T) (o : lmf_opts) (M : csr T) deal sched U V D U' D' log u,
  csr_wf M -> side_ok (length (c_indices M)) (c_rows M) deal -> lmf_update o M deal sched U V D = Some (U', D', log) -> u < c_rows M ->
  length (negatives log u) = Nat.min (c_cols M) (length (csr_row M u) * l_neg o).

(** One factor (three columns), a user with four of five items, neg_prop 1: three
    negatives instead of four. *)
Definition ex_lo : lmf_opts (T := Q) := {| l_exp := fun _ => 1%Q; l_sqrt := fun _ => 2%Q; l_tiny := (1 # 1000000)%Q; l_lr := 1%Q; l_reg := (1#2)%Q; l_neg := 1; l_n := 3 |}.
Definition ex_lM : csr Q := csr_of_rows 5 [[(0, 1%Q); (1, 2%Q); (2, 1%Q); (4, 1%Q)]; []; [(1, 3%Q)]].
Definition ex_deal : list (list nat * (nat -> nat)) := [([0; 1], fun k => Nat.modulo (2 * k) 5); ([2], fun k => Nat.modulo (3 * k) 5)].
Lemma ex_lM_ok : csr_wf ex_lM /\ csr_tight ex_lM.
Proof. apply csr_of_rows_wf. intros r p Hr Hp. simpl in Hr. repeat (destruct Hr as [<-|Hr]; [simpl in Hp; repeat (destruct Hp as [<-|Hp]; [simpl; lia|]); contradiction|]). contradiction. Qed.
Lemma ex_deal_ok : side_ok (length (c_indices ex_lM)) (c_rows ex_lM) ex_deal.
Proof. split; [apply Permutation_refl|]. unfold ex_deal. apply Forall_cons; [|apply Forall_cons; [|apply Forall_nil]]; intros k; apply Nat.mod_upper_bound; discriminate. Qed.
Definition ex_sched : list nat := repeat 0 40 ++ flat_map (fun _ => [1; 0]) (seq 0 60) ++ repeat 0 80.
Definition ex_log : option (list (nat * nat)) := Eval vm_compute in option_map snd (lmf_update ex_lo ex_lM ex_deal ex_sched (fun _ _ => 1%Q) (fun _ _ => 1%Q) (fun _ _ => 0%Q)).
Lemma ex_log_eq : option_map snd (lmf_update ex_lo ex_lM ex_deal ex_sched (fun _ _ => 1%Q) (fun _ _ => 1%Q) (fun _ _ => 0%Q)) = ex_log.
Proof. vm_compute. reflexivity. Qed.
Theorem C52_refuted : ~ C52_statement.
Proof.
  intros HC. pose proof ex_log_eq as EL. destruct (lmf_update ex_lo ex_lM ex_deal ex_sched (fun _ _ => 1%Q) (fun _ _ => 1%Q) (fun _ _ => 0%Q)) as [[[U' D'] log]|] eqn:E; [|discriminate].
  specialize (HC Q Num_Q ex_lo ex_lM ex_deal ex_sched (fun _ _ => 1%Q) (fun _ _ => 1%Q) (fun _ _ => 0%Q) U' D' log 0 (proj1 ex_lM_ok) ex_deal_ok E).
  assert (HC1 : 0 < c_rows ex_lM) by (vm_compute; lia). specialize (HC HC1). clear E.
  cbn [option_map snd] in EL. unfold ex_log in EL. injection EL as ->. vm_compute in HC. discriminate.
Qed.

(* ---------------------------------------------------------------- C53 *)
(** Every interleaving of every epoch gives the same factors, and shows the same factors
    to the callbacks. *)
Definition same {T} (F G : nat -> nat -> T) : Prop := forall u j, F u j = G u j.
Definition same_randomness (a b : epoch_input) : Prop := fst (fst a) = fst (fst b) /\ fst (snd a) = fst (snd b).

Theorem C53_race_free : forall T (NT : Num T) (o : lmf_opts) f (M : csr T) X0 Y0 rx ry in1 in2 X1 Y1 tr1 X2 Y2 tr2,
  Forall (lmf_epoch_ok M) in1 -> Forall2 same_randomness in1 in2 ->
  lmf_fit o f M X0 Y0 rx ry in1 = Some (X1, Y1, tr1) -> lmf_fit o f M X0 Y0 rx ry in2 = Some (X2, Y2, tr2) ->
  same X1 X2 /\ same Y1 Y2 /\ Forall2 (fun t t' => fst (fst t) = fst (fst t') /\ same (snd (fst t)) (snd (fst t')) /\ same (snd t) (snd t')) tr1 tr2.
Proof.
  intros T NT o f M X0 Y0 rx ry in1 in2 X1 Y1 tr1 X2 Y2 tr2 HI HS H1 H2. unfold lmf_fit in H1, H2. cbv zeta in H1, H2.
  revert H1 H2. generalize (fun _ _ : nat => nzero) at 1 3. generalize (fun _ _ : nat => nzero).
  match goal with |- forall _ _, lmf_epochs _ _ ?A ?B _ _ ?X ?Y _ _ = _ -> _ => generalize X Y; generalize A B end.
  assert (G : forall A B, Forall2 same_randomness in1 in2 -> forall epoch Xa Ya Da Ea Xb Yb Db Eb, same Xa Xb -> same Ya Yb -> same Da Db -> same Ea Eb ->
    forall X1 Y1 tr1 X2 Y2 tr2,
    lmf_epochs o f A B in1 epoch Xa Ya Da Ea = Some (X1, Y1, tr1) -> lmf_epochs o f A B in2 epoch Xb Yb Db Eb = Some (X2, Y2, tr2) ->
    same X1 X2 /\ same Y1 Y2 /\ Forall2 (fun t t' => fst (fst t) = fst (fst t') /\ same (snd (fst t)) (snd (fst t')) /\ same (snd t) (snd t')) tr1 tr2).
  { clear -HI. intros A B HS. induction HS as [|[[d1 s1] [d2 s2]] [[d1' s1'] [d2' s2']] in1 in2 Hs HS IH]; intros epoch Xa Ya Da Ea Xb Yb Db Eb SX SY SD SE X1 Y1 tr1 X2 Y2 tr2 H1 H2.
    - simpl in H1, H2. injection H1 as <- <- <-. injection H2 as <- <- <-. auto.
    - inversion HI as [|? ? [O1 O2] HI']; subst. destruct Hs as [Hs1 Hs2]. simpl in O1, O2, Hs1, Hs2. subst d1' d2'. specialize (IH HI').
      cbn [lmf_epochs] in H1, H2.
      destruct (lmf_update o A d1 s1 Xa Ya Da) as [[[Xa1 Da1] la1]|] eqn:EA1; [|discriminate].
      destruct (lmf_update o A d1 s1' Xb Yb Db) as [[[Xb1 Db1] lb1]|] eqn:EB1; [|discriminate].
      destruct (lmf_update_det o A d1 _ _ _ _ _ _ _ _ _ _ _ _ _ _ (side_nodup _ _ _ O1) SX SY SD EA1 EB1) as (S1 & S2 & _).
      assert (SC : forall c F G, same F G -> same (set_col c F) (set_col (T := T) c G)).
      { intros c F G HF u j. unfold set_col. destruct (j =? c); auto. }
      destruct (lmf_update o B d2 s2 Ya (set_col f Xa1) Ea) as [[[Ya1 Ea1] la2]|] eqn:EA2; [|discriminate].
      destruct (lmf_update o B d2 s2' Yb (set_col f Xb1) Eb) as [[[Yb1 Eb1] lb2]|] eqn:EB2; [|discriminate].
      destruct (lmf_update_det o B d2 _ _ _ _ _ _ _ _ _ _ _ _ _ _ (side_nodup _ _ _ O2) SY (SC f _ _ S1) SE EA2 EB2) as (S3 & S4 & _).
      destruct (lmf_epochs o f A B in1 _ _ _ _ _) as [[[Xa3 Ya3] tra]|] eqn:EA3; [|discriminate].
      destruct (lmf_epochs o f A B in2 _ _ _ _ _) as [[[Xb3 Yb3] trb]|] eqn:EB3; [|discriminate].
      injection H1 as <- <- <-. injection H2 as <- <- <-.
      destruct (IH (S epoch) _ _ _ _ _ _ _ _ (SC f _ _ S1) (SC (S f) _ _ S3) S2 S4 _ _ _ _ _ _ EA3 EB3) as (I1 & I2 & I3).
      split; [auto|]. split; [auto|]. constructor; auto. simpl. split; auto. }
  intros A B X Y D1 D2 H1 H2. eapply (G A B HS 0); [| | | |exact H1|exact H2]; intros u j; auto.
Qed.

Theorem C53_sigmoid : forall (o : lmf_opts (T := R)) x, l_exp o = exp ->
  sigmoid o x = (1 / (1 + exp (- x)))%R /\ (0 < sigmoid o x < 1)%R.
Proof.
  intros o x He.
  assert (E : sigmoid o x = (1 / (1 + exp (- x)))%R).
  { unfold sigmoid. rewrite He. destruct (nleb nzero x); [reflexivity|]. change (exp x / (1 + exp x) = 1 / (1 + exp (- x)))%R. rewrite exp_Ropp. pose proof (exp_pos x). field. split; lra. }
  split; auto. rewrite E. pose proof (exp_pos (- x)). split.
  - apply Rdiv_lt_0_compat; lra.
  - apply (Rmult_lt_reg_r (1 + exp (- x))); [lra|]. unfold Rdiv. rewrite Rmult_assoc, Rinv_l by lra. lra.
Qed.

(* ---------------------------------------------------------------- C72 *)
(** The objective of one row with fixed factors [V] on the other side: the logistic
    log-likelihood of positives (weight c) and sampled negatives, less the penalty. *)
Definition rscore (n : nat) (V : nat -> nat -> R) (x : nat -> R) (i : nat) : R := rsum (map (fun j => x j * V i j)%R (seq 0 n)).
Definition lmf_objective (n : nat) (reg : R) (pos : list (nat * R)) (negs : list nat) (V : nat -> nat -> R) (x : nat -> R) : R :=
  (rsum (map (fun e => snd e * rscore n V x (fst e) - snd e * ln (1 + exp (rscore n V x (fst e)))) pos)
   - rsum (map (fun i => ln (1 + exp (rscore n V x i))) negs)
   - reg / 2 * rsum (map (fun j => x j * x j) (seq 0 n)))%R.
Definition setj (x : nat -> R) (j : nat) (t : R) : nat -> R := fun k => if k =? j then t else x k.

Lemma rscore_affine n V x j t i : j < n -> rscore n V (setj x j t) i = (rscore n V x i + V i j * (t - x j))%R.
Proof.
  intros Hj. unfold rscore. apply rsum_one with (j := j); [apply seq_NoDup|apply in_seq; lia| |].
  - intros k _ Hk. unfold setj. destruct (Nat.eqb_spec k j); [congruence|auto].
  - unfold setj. rewrite Nat.eqb_refl. ring.
Qed.
Lemma penalty_affine n x j t : j < n -> rsum (map (fun k => setj x j t k * setj x j t k)%R (seq 0 n)) = (rsum (map (fun k => x k * x k) (seq 0 n)) + (t * t - x j * x j))%R.
Proof.
  intros Hj. apply rsum_one with (j := j); [apply seq_NoDup|apply in_seq; lia| |].
  - intros k _ Hk. unfold setj. destruct (Nat.eqb_spec k j); [congruence|auto].
  - unfold setj. rewrite Nat.eqb_refl. ring.
Qed.
Lemma affine_derivative a b x : derivable_pt_lim (fun t => (a + b * (t - x))%R) x b.
Proof.
  intros eps Heps. exists (mkposreal 1 Rlt_0_1). intros h Hh _.
  replace ((a + b * (x + h - x) - (a + b * (x - x))) / h - b)%R with 0%R by (field; auto). rewrite Rabs_R0. auto.
Qed.
Lemma softplus_derivative a b x : derivable_pt_lim (fun t => ln (1 + exp (a + b * (t - x)))) x (b * (1 / (1 + exp (- a))))%R.
Proof.
  assert (D2 := derivable_pt_lim_comp _ exp x _ _ (affine_derivative a b x) (derivable_pt_lim_exp _)).
  assert (D3 := derivable_pt_lim_plus (fct_cte 1) _ x _ _ (derivable_pt_lim_const 1 x) D2).
  assert (Hpos : (0 < (fct_cte 1 + comp exp (fun t => (a + b * (t - x))%R))%F x)%R).
  { unfold plus_fct, fct_cte, comp. pose proof (exp_pos (a + b * (x - x))). lra. }
  assert (D4 := derivable_pt_lim_comp _ ln x _ _ D3 (derivable_pt_lim_ln _ Hpos)).
  match type of D4 with derivable_pt_lim _ _ ?v => replace (b * (1 / (1 + exp (- a))))%R with v end.
  - exact D4.
  - unfold plus_fct, fct_cte, comp. replace (a + b * (x - x))%R with a by ring. rewrite exp_Ropp. pose proof (exp_pos a). field. split; lra.
Qed.
Lemma square_derivative p c x : derivable_pt_lim (fun t => (c * (p + (t * t - x * x)))%R) x (2 * c * x)%R.
Proof.
  assert (D := derivable_pt_lim_mult id id x 1 1 (derivable_pt_lim_id x) (derivable_pt_lim_id x)).
  assert (D2 := derivable_pt_lim_plus (fct_cte (p - x * x)%R) _ x _ _ (derivable_pt_lim_const _ x) D).
  assert (D3 := derivable_pt_lim_scal _ c x _ D2).
  match type of D3 with derivable_pt_lim _ _ ?v => replace (2 * c * x)%R with v by (unfold id; ring) end.
  eapply derivable_pt_lim_ext; [|exact D3]. intros t. unfold mult_real_fct, plus_fct, mult_fct, fct_cte, id. ring.
Qed.
Lemma rsum_derivative {A} (h : A -> R -> R) (g : A -> R) x l :
  (forall e, In e l -> derivable_pt_lim (h e) x (g e)) -> derivable_pt_lim (fun t => rsum (map (fun e => h e t) l)) x (rsum (map g l)).
Proof.
  induction l as [|e l IH]; intros HD; cbn [map rsum].
  - apply (derivable_pt_lim_const 0 x).
  - apply (derivable_pt_lim_plus (h e)); [apply HD; left; auto|]. apply IH. intros; apply HD; right; auto.
Qed.

(** The gradient. *)
Lemma objective_gradient n reg pos negs V x j : j < n ->
  let s i := (1 / (1 + exp (- rscore n V x i)))%R in
  derivable_pt_lim (fun t => lmf_objective n reg pos negs V (setj x j t)) (x j)
    (rsum (map (fun e => snd e * V (fst e) j) pos) - rsum (map (fun e => snd e * s (fst e) * V (fst e) j) pos) - rsum (map (fun i => s i * V i j) negs) - reg * x j)%R.
Proof.
  intros Hj s.
  assert (D1 : derivable_pt_lim (fun t => rsum (map (fun e => (snd e * (rscore n V x (fst e) + V (fst e) j * (t - x j)) - snd e * ln (1 + exp (rscore n V x (fst e) + V (fst e) j * (t - x j))))%R) pos)) (x j)
     (rsum (map (fun e => snd e * V (fst e) j - snd e * (V (fst e) j * s (fst e)))%R pos))).
  { apply (rsum_derivative (fun (e : nat * R) t => (snd e * (rscore n V x (fst e) + V (fst e) j * (t - x j)) - snd e * ln (1 + exp (rscore n V x (fst e) + V (fst e) j * (t - x j))))%R)).
    intros e _. apply (derivable_pt_lim_minus (fun t => (snd e * (rscore n V x (fst e) + V (fst e) j * (t - x j)))%R) (fun t => (snd e * ln (1 + exp (rscore n V x (fst e) + V (fst e) j * (t - x j))))%R)).
    - apply (derivable_pt_lim_scal (fun t => (rscore n V x (fst e) + V (fst e) j * (t - x j))%R)). apply affine_derivative.
    - apply (derivable_pt_lim_scal (fun t => ln (1 + exp (rscore n V x (fst e) + V (fst e) j * (t - x j))))). apply softplus_derivative. }
  assert (D2 : derivable_pt_lim (fun t => rsum (map (fun i => ln (1 + exp (rscore n V x i + V i j * (t - x j)))) negs)) (x j) (rsum (map (fun i => (V i j * s i)%R) negs))).
  { apply (rsum_derivative (fun i t => ln (1 + exp (rscore n V x i + V i j * (t - x j))))). intros i _. apply softplus_derivative. }
  assert (D3 := square_derivative (rsum (map (fun k => x k * x k)%R (seq 0 n))) (reg / 2)%R (x j)).
  assert (D := derivable_pt_lim_minus _ _ _ _ _ (derivable_pt_lim_minus _ _ _ _ _ D1 D2) D3).
  match type of D with derivable_pt_lim _ _ ?v => match goal with |- derivable_pt_lim _ _ ?w => replace w with v end end.
  - eapply derivable_pt_lim_ext; [|exact D]. intros t. unfold minus_fct, lmf_objective. rewrite penalty_affine by auto. f_equal. f_equal.
    + apply rsum_map_ext. intros e _. rewrite rscore_affine by auto. auto.
    + apply rsum_map_ext. intros i _. rewrite rscore_affine by auto. auto.
  - rewrite rsum_map_sub. f_equal; [|field]. f_equal; [f_equal|]; apply rsum_map_ext; intros; ring.
Qed.

Lemma nth_axpy a (y d : list R) j : length y = length d -> j < length d -> nth j (axpy a y d) 0%R = (nth j d 0 + a * nth j y 0)%R.
Proof. revert y j. induction d as [|d0 d IH]; intros [|y0 y] j HL Hj; simpl in *; try lia. destruct j; auto. apply IH; lia. Qed.
Lemma nth_fold_axpy {A} (a : A -> R) (y : A -> list R) n l j : (forall e, In e l -> length (y e) = n) -> j < n -> forall d, length d = n ->
  nth j (fold_left (fun d e => axpy (a e) (y e) d) l d) 0%R = (nth j d 0 + rsum (map (fun e => a e * nth j (y e) 0) l))%R /\ length (fold_left (fun d e => axpy (a e) (y e) d) l d) = n.
Proof.
  intros HY Hj. induction l as [|e l IH]; intros d Hd; cbn [fold_left map rsum]; [split; [ring|auto]|].
  assert (He : length (y e) = n) by (apply HY; left; auto).
  destruct (IH (fun e' He' => HY e' (or_intror He')) (axpy (a e) (y e) d)) as [I1 I2]. { rewrite axpy_length. auto. }
  split; auto. rewrite I1, nth_axpy by lia. ring.
Qed.

(** In every interleaving, every rated row takes one AdaGrad step of gradient ascent on
    its objective, with the factors of the other side as they were and the negatives
    drawn for it; the other rows stay. *)
Theorem C72_step : forall (o : lmf_opts (T := R)) (M : csr R) deal sched U V D U' D' log,
  l_exp o = exp -> l_sqrt o = sqrt -> csr_wf M -> side_ok (length (c_indices M)) (c_rows M) deal ->
  lmf_update o M deal sched U V D = Some (U', D', log) ->
  forall u, u < c_rows M ->
  (csr_row M u = [] -> forall j, U' u j = U u j) /\
  (csr_row M u <> [] -> forall j, j < l_n o -> exists g,
    derivable_pt_lim (fun t => lmf_objective (l_n o) (l_reg o) (csr_row M u) (negatives log u) V (setj (U u) j t)) (U u j) g /\
    D' u j = (D u j + g * g)%R /\ U' u j = (U u j + l_lr o / sqrt (l_tiny o + D' u j) * g)%R).
Proof.
  intros o M deal sched U V D U' D' log He Hs W HD HU u Hu.
  destruct (lmf_update_spec o _ _ _ _ _ _ _ _ _ (side_nodup _ _ _ HD) HU) as (S1 & S2 & _). cbv zeta in S1, S2. split.
  - intros E j. destruct (S2 u) as [S2u _]; [|apply S2u]. right. destruct (rated M u) eqn:ER; auto. apply rated_spec in ER; auto. congruence.
  - intros E j Hj. apply rated_spec in E; auto. destruct (side_in _ _ _ u HD Hu) as (us & st & H1 & H2). destruct (S1 us st u H1 H2 E) as (p & HR & HP).
    set (negs := map (fun k => nth (st (p + k)) (c_indices M) 0) (seq 0 (neg_count o (row_len M u)))) in *.
    assert (PN : Permutation (negatives log u) negs).
    { unfold negatives. rewrite (Permutation_map snd HP), map_map. simpl. rewrite map_id. auto. }
    unfold row_after in HR. cbv zeta in HR. destruct (HR j Hj) as [R1 R2]. clear HR. cbn [lmf_mem] in R1, R2.
    set (d := row_deriv o (lmf_mem U V D) u (csr_row M u) negs) in *. set (n := l_n o) in *.
    assert (EV : forall i, nth j (vrow o (lmf_mem U V D) i) 0%R = V i j).
    { intros i. unfold vrow, v_cells. rewrite map_map. cbn [lmf_mem]. apply seq_nth_map. auto. }
    assert (LV0 : forall i, length (vrow o (lmf_mem U V D) i) = n) by (intros; unfold vrow, v_cells; rewrite !map_length, seq_length; auto).
    assert (ES : forall i, sigmoid o (ndot (urow o (lmf_mem U V D) u) (vrow o (lmf_mem U V D) i)) = (1 / (1 + exp (- rscore n V (U u) i)))%R).
    { intros i. rewrite (proj1 (C53_sigmoid o _ He)). do 4 f_equal. rewrite ndot_rdot. unfold urow, vrow, u_cells, v_cells, rscore. rewrite !map_map. cbn [lmf_mem]. fold n.
      generalize (seq 0 n). induction l as [|k l IH]; simpl; auto. rewrite <- IH. reflexivity. }
    assert (Ed : nth j d 0%R = (rsum (map (fun e => snd e * V (fst e) j) (csr_row M u)) - rsum (map (fun e => snd e * (1 / (1 + exp (- rscore n V (U u) (fst e)))) * V (fst e) j) (csr_row M u))
       - rsum (map (fun i => (1 / (1 + exp (- rscore n V (U u) i))) * V i j) negs))%R).
    { unfold d, row_deriv.
      destruct (nth_fold_axpy (fun e : nat * R => snd e) (fun e => vrow o (lmf_mem U V D) (fst e)) n (csr_row M u) j (fun e _ => LV0 (fst e)) Hj (zeros n)) as [A1 A2]. { unfold zeros. apply repeat_length. }
      set (d1 := fold_left _ (csr_row M u) (zeros _)) in *.
      destruct (nth_fold_axpy (fun e : nat * R => nopp (nmul (sigmoid o (ndot (urow o (lmf_mem U V D) u) (vrow o (lmf_mem U V D) (fst e)))) (snd e))) (fun e => vrow o (lmf_mem U V D) (fst e)) n (csr_row M u) j (fun e _ => LV0 (fst e)) Hj d1 A2) as [B1 B2].
      set (d2 := fold_left _ (csr_row M u) d1) in *.
      destruct (nth_fold_axpy (fun i : nat => nopp (sigmoid o (ndot (urow o (lmf_mem U V D) u) (vrow o (lmf_mem U V D) i)))) (fun i => vrow o (lmf_mem U V D) i) n negs j (fun i _ => LV0 i) Hj d2 B2) as [C1 C2].
      change (@nzero R _) with 0%R in *. rewrite C1, B1, A1. unfold zeros. rewrite nth_repeat.
      rewrite (rsum_map_ext _ (fun e => snd e * V (fst e) j)%R) by (intros e _; rewrite EV; auto).
      rewrite (rsum_map_ext (fun e => (nopp (nmul _ (snd e)) * _)%R) (fun e => -1 * (snd e * (1 / (1 + exp (- rscore n V (U u) (fst e)))) * V (fst e) j))%R).
      2:{ intros e _. rewrite EV, ES. change (@nopp R _) with Ropp. change (@nmul R _) with Rmult. ring. }
      rewrite (rsum_map_ext (fun i => (nopp _ * _)%R) (fun i => -1 * ((1 / (1 + exp (- rscore n V (U u) i))) * V i j))%R).
      2:{ intros i _. rewrite EV, ES. change (@nopp R _) with Ropp. ring. }
      rewrite !rsum_map_scale. ring. }
    exists (coord o (lmf_mem U V D) u d j).
    assert (Ec : coord o (lmf_mem U V D) u d j = (nth j d 0 - l_reg o * U u j)%R) by reflexivity.
    split; [|split].
    + rewrite Ec, Ed.
      assert (EO : forall t, lmf_objective n (l_reg o) (csr_row M u) (negatives log u) V (setj (U u) j t) = lmf_objective n (l_reg o) (csr_row M u) negs V (setj (U u) j t)).
      { intros t. unfold lmf_objective. f_equal. f_equal. apply rsum_perm. apply Permutation_map. auto. }
      eapply derivable_pt_lim_ext; [intros t; symmetry; apply EO|]. apply (objective_gradient n (l_reg o) (csr_row M u) negs V (U u) j Hj).
    + rewrite R2. reflexivity.
    + rewrite R1. unfold newU. rewrite Hs. rewrite R2. reflexivity.
Qed.

(* ---------------------------------------------------------------- C70 *)
(** A cell of factors with [nu] rows (the side being updated), [nv] rows (the other) and
    [cols] columns. *)
Definition lmf_in_bounds (nu nv cols : nat) (c : lcell) : Prop :=
  match c with LU u j => u < nu /\ j < cols | LD u j => u < nu /\ j < cols | LV i j => i < nv /\ j < cols end.
Definition update_in_bounds {T} `{Num T} (o : lmf_opts (T := T)) (M : csr T) (nu nv : nat) : Prop :=
  forall deal sched m m' ps log t p c,
  side_ok (length (c_indices M)) (c_rows M) deal ->
  interleave lcell_eqb sched m (lmf_threads o M deal) = (m', ps, log) ->
  nth_error ps t = Some p -> next_access p = Some c -> lmf_in_bounds nu nv (l_n o) c.

Theorem C70_lmf_partial : forall T (NT : Num T) (o : lmf_opts) (M : csr T), csr_wf M ->
  forall nu nv, c_rows M <= nu -> c_cols M <= nv -> update_in_bounds o M nu nv.
Proof.
  intros T NT o M W nu nv Hu Hv deal sched m m' ps log t p c [HP HD] HE Hp Hc.
  set (B := lmf_in_bounds nu nv (l_n o)).
  assert (HR : forall d u, In d deal -> In u (fst d) -> u < c_rows M).
  { intros d u Hd Hin. assert (HI : In u (flat_map fst deal)) by (apply in_flat_map; eauto). apply (Permutation_in _ HP) in HI. apply in_seq in HI. lia. }
  assert (HS : Forall2 (fun Q p => safe B B (fun _ => True) Q p) (map (fun _ => fun _ : nat => True) deal) (lmf_threads o M deal)).
  { unfold lmf_threads. clear HE HP. revert HR. induction HD as [|d deal Hd HD IH]; intros HR; simpl; constructor; auto.
    2:{ apply IH. intros; eapply HR; eauto; right; auto. }
    apply safe_thread.
    - intros u Hin _ j Hj. specialize (HR d u (or_introl eq_refl) Hin). unfold B. simpl. repeat split; lia.
    - intros u i j Hin Hi Hj. unfold B. simpl. assert (i < c_cols M) by (eapply csr_row_indices_lt; eauto). lia.
    - intros u Hin _ k. split; auto. intros j Hj. unfold B. simpl. split; auto. assert (nth (snd d k) (c_indices M) 0 < c_cols M); [|lia]. apply (wf_cols _ W). apply nth_In. auto. }
  destruct (interleave_inv lcell_eqb B B (fun _ => True) _ (fun _ => True) sched (fun _ _ _ _ _ => I) _ _ _ _ _ _ I HS (Forall_nil _) HE) as (_ & HS' & _).
  assert (HQ : exists Q, safe B B (fun _ => True) Q p).
  { clear -HS' Hp. revert t Hp. induction HS'; intros [|t] Hp; simpl in *; try discriminate; eauto. injection Hp as ->. eauto. }
  destruct HQ as (Q & Sp). destruct p; simpl in Hc; try discriminate; injection Hc as <-; inversion Sp; subst; auto.
Qed.

(** Refit on a matrix with more items: item_factors is kept (lmf.pyx:153) and row 4 of a
    two-row array is read. *)
Lemma ex_access : option_map next_access (nth_error (snd (fst (interleave lcell_eqb (repeat 0 6) (fun _ => 0%Q) (lmf_threads ex_lo ex_lM ex_deal)))) 0) = Some (Some (LV 2 0)).
Proof. vm_compute. reflexivity. Qed.
Theorem C70_lmf_refuted : ~ (forall T (NT : Num T) (o : lmf_opts) (M : csr T) nu nv, csr_wf M -> update_in_bounds o M nu nv).
Proof.
  intros HC. specialize (HC Q Num_Q ex_lo ex_lM 3 2 (proj1 ex_lM_ok) ex_deal (repeat 0 6) (fun _ => 0%Q)).
  pose proof ex_access as EA.
  destruct (interleave lcell_eqb (repeat 0 6) (fun _ => 0%Q) (lmf_threads ex_lo ex_lM ex_deal)) as [[m' ps] log]. cbn [fst snd] in EA.
  destruct (nth_error ps 0) as [p|] eqn:Hp; [|discriminate]. cbn [option_map] in EA. injection EA as Ha.
  specialize (HC m' ps log 0 p (LV 2 0) ex_deal_ok eq_refl Hp Ha). destruct HC as [HC _]. lia.
Qed.

(* ---------------------------------------------------------------- the hypotheses can be met *)
Lemma threads_can_finish {C V E A} (eqb : C -> C -> bool) (ps0 : list (prog C V E A)) m : exists sched m' rs log,
  interleave eqb sched m ps0 = (m', map (fun a => Ret a) rs, log).
Proof.
  unfold interleave. generalize (@nil E) as log.
  assert (G : forall (pre : list A) (ps : list (prog C V E A)) m log, exists sched m' rs log',
     fold_left (tstep eqb) sched (m, map (fun a => Ret a) pre ++ ps, log) = (m', map (fun a => Ret a) (pre ++ rs), log')).
  { intros pre ps. revert pre. induction ps as [|p ps IH]; intros pre m0 log0.
    - exists [], m0, [], log0. simpl. rewrite !app_nil_r. auto.
    - destruct (finish_one eqb p (length pre) (map (fun a => Ret a) pre ++ p :: ps) m0 log0) as (n & m1 & a & log1 & HE).
      { rewrite nth_error_app2; rewrite map_length; auto. rewrite Nat.sub_diag. auto. }
      destruct (IH (pre ++ [a]) m1 log1) as (sched & m2 & rs & log2 & HE2).
      exists (repeat (length pre) n ++ sched), m2, (a :: rs), log2. rewrite fold_left_app, HE.
      replace (upd (length pre) (Ret a) (map (fun a0 => Ret a0) pre ++ p :: ps)) with (map (fun a0 => Ret (Cell := C) (Val := V) (Event := E) a0) (pre ++ [a]) ++ ps).
      + rewrite HE2. rewrite <- app_assoc. auto.
      + rewrite map_app, <- app_assoc. simpl. clear. induction pre; simpl; auto. f_equal. auto. }
  intros log. destruct (G [] ps0 m log) as (sched & m' & rs & log' & HE). exists sched, m', rs, log'. exact HE.
Qed.
(** Every call of lmf_update, and every epoch, can be run to its end. *)
Theorem lmf_update_can_finish : forall T (NT : Num T) (o : lmf_opts) (M : csr T) deal U V D, exists sched r, lmf_update o M deal sched U V D = Some r.
Proof.
  intros T NT o M deal U V D. destruct (threads_can_finish lcell_eqb (lmf_threads o M deal) (lmf_mem U V D)) as (sched & m' & rs & log & HE).
  exists sched. unfold lmf_update. rewrite HE.
  assert (ER : results (map (fun a => Ret (Cell := lcell) (Val := T) (Event := nat * nat) a) rs) = Some rs).
  { clear. induction rs; simpl; auto. rewrite IHrs. auto. }
  rewrite ER. eauto.
Qed.

(** A fit of two epochs with two threads per side, on a matrix with a user without items
    and an item without users; two different schedules. *)
Definition ex_deal2 : list (list nat * (nat -> nat)) := [([0; 1; 2], fun k => Nat.modulo (2 * k + 1) 5); ([3; 4], fun k => Nat.modulo (3 * k) 5)].
Definition ex_in (s1 s2 : list nat) : epoch_input := ((ex_deal, s1), (ex_deal2, s2)).
Definition sched_a : list nat := repeat 0 400 ++ repeat 1 400.
Definition sched_b : list nat := flat_map (fun _ => [1; 0]) (seq 0 400).
Definition ex_zo : lmf_opts (T := Z) := {| l_exp := fun _ => 1%Z; l_sqrt := fun _ => 2%Z; l_tiny := 0%Z; l_lr := 2%Z; l_reg := 1%Z; l_neg := 1; l_n := 3 |}.
Definition ex_zM : csr Z := csr_of_rows 5 [[(4, 1%Z); (1, 2%Z); (0, 1%Z); (2, 1%Z)]; []; [(1, 3%Z)]].
Definition ex_zfit (s : list nat) := lmf_fit ex_zo 1 ex_zM None None (fun a b => Z.of_nat (a + b)) (fun a b => Z.of_nat (2 * a + b) - 2)%Z [ex_in s s; ex_in s s].
Definition table (r c : nat) (F : nat -> nat -> Z) : list (list Z) := map (fun u => map (F u) (seq 0 c)) (seq 0 r).
Definition ex_tables (s : list nat) := match ex_zfit s with Some (X, Y, tr) => Some (table 3 3 X, table 5 3 Y, length tr) | None => None end.
Definition ex_expected := Eval vm_compute in ex_tables sched_a.
Lemma ex_tables_a : ex_tables sched_a = ex_expected. Proof. vm_compute. reflexivity. Qed.
Lemma ex_tables_b : ex_tables sched_b = ex_expected. Proof. vm_compute. reflexivity. Qed.
Lemma ex_zM_ok : csr_wf ex_zM /\ csr_tight ex_zM.
Proof. apply csr_of_rows_wf. intros r p Hr Hp. simpl in Hr. repeat (destruct Hr as [<-|Hr]; [simpl in Hp; repeat (destruct Hp as [<-|Hp]; [simpl; lia|]); contradiction|]). contradiction. Qed.
Lemma ex_tables_some s : ex_tables s = ex_expected -> exists X Y tr, ex_zfit s = Some (X, Y, tr) /\ X 0 0 <> 0%Z /\ X 1 1 = 1%Z /\ X 1 0 = 0%Z.
Proof.
  unfold ex_tables. generalize (ex_zfit s). intros r Hr. destruct r as [[[X Y] tr]|]; [|discriminate]. exists X, Y, tr. split; auto.
  assert (E : table 3 3 X = match ex_expected with Some (t, _, _) => t | None => [] end) by (rewrite <- Hr; reflexivity).
  assert (E0 : X 0 0 = nth 0 (nth 0 (table 3 3 X) []) 0%Z) by reflexivity.
  assert (E1 : X 1 1 = nth 1 (nth 1 (table 3 3 X) []) 0%Z) by reflexivity.
  assert (E2 : X 1 0 = nth 0 (nth 1 (table 3 3 X) []) 0%Z) by reflexivity.
  rewrite E0, E1, E2, E. vm_compute. repeat split; auto; discriminate.
Qed.
Example C51_C53_example : exists X Y X' Y' tr tr', csr_wf ex_zM /\ csr_tight ex_zM /\ Forall (lmf_epoch_ok ex_zM) [ex_in sched_a sched_a; ex_in sched_a sched_a] /\
  Forall2 same_randomness [ex_in sched_a sched_a; ex_in sched_a sched_a] [ex_in sched_b sched_b; ex_in sched_b sched_b] /\
  ex_zfit sched_a = Some (X, Y, tr) /\ ex_zfit sched_b = Some (X', Y', tr') /\
  user_unrated ex_zM 1 /\ item_unrated ex_zM 3 /\ csr_row ex_zM 0 <> [] /\ X 0 0 <> 0%Z /\ X 1 1 = 1%Z /\ X 1 0 = 0%Z.
Proof.
  destruct (ex_tables_some _ ex_tables_a) as (X & Y & tr & EA & HX). destruct (ex_tables_some _ ex_tables_b) as (X' & Y' & tr' & EB & _).
  exists X, Y, X', Y', tr, tr'. split; [apply ex_zM_ok|]. split; [apply ex_zM_ok|].
  assert (O : forall s s', lmf_epoch_ok ex_zM (ex_in s s')).
  { intros s s'. split; split; try apply Permutation_refl; unfold ex_in, ex_deal, ex_deal2; cbn [fst snd];
      (apply Forall_cons; [|apply Forall_cons; [|apply Forall_nil]]; intros k; apply Nat.mod_upper_bound; discriminate). }
  split; [apply Forall_cons; [apply O|apply Forall_cons; [apply O|apply Forall_nil]]|]. split; [repeat constructor|]. split; [exact EA|]. split; [exact EB|].
  split; [split; [vm_compute; lia|reflexivity]|]. split; [|split; [vm_compute; discriminate|exact HX]].
  split; [vm_compute; lia|]. intros u Hu. vm_compute in Hu. assert (C : u = 0 \/ u = 1 \/ u = 2) by lia.
  destruct C as [-> | [-> | ->]]; vm_compute; intuition discriminate.
Qed.
(** C72: with real exp and sqrt there is a finishing schedule, and row 0 is rated. *)
Example C72_example : exists (o : lmf_opts (T := R)) (M : csr R) sched U' D' log, l_exp o = exp /\ l_sqrt o = sqrt /\ csr_wf M /\
  side_ok (length (c_indices M)) (c_rows M) ex_deal /\ lmf_update o M ex_deal sched (fun _ _ => 1%R) (fun _ _ => 1%R) (fun _ _ => 0%R) = Some (U', D', log) /\ csr_row M 0 <> [] /\ 0 < l_n o.
Proof.
  set (o := {| l_exp := exp; l_sqrt := sqrt; l_tiny := 1%R; l_lr := 1%R; l_reg := 1%R; l_neg := 2; l_n := 3 |}).
  set (M := csr_of_rows 5 [[(0, 1%R); (1, 2%R); (2, 1%R); (4, 1%R)]; []; [(1, 3%R)]]).
  destruct (lmf_update_can_finish R _ o M ex_deal (fun _ _ => 1%R) (fun _ _ => 1%R) (fun _ _ => 0%R)) as (sched & [[U' D'] log] & HE).
  exists o, M, sched, U', D', log. split; [reflexivity|]. split; [reflexivity|]. split; [|split; [|split; [exact HE|split; [discriminate|simpl; lia]]]].
  - apply csr_of_rows_wf. intros r p Hr Hp. simpl in Hr. repeat (destruct Hr as [<-|Hr]; [simpl in Hp; repeat (destruct Hp as [<-|Hp]; [simpl; lia|]); contradiction|]). contradiction.
  - split; [apply Permutation_refl|]. unfold ex_deal. apply Forall_cons; [|apply Forall_cons; [|apply Forall_nil]]; intros k; apply Nat.mod_upper_bound; discriminate.
Qed.

Print Assumptions C51_biases.
Print Assumptions C51_cold_start.
Print Assumptions C52_partial.
Print Assumptions C52_refuted.
Print Assumptions C53_race_free.
Print Assumptions C53_sigmoid.
Print Assumptions C68_lmf.
Print Assumptions C70_lmf_partial.
Print Assumptions C70_lmf_refuted.
Print Assumptions C72_step.
Print Assumptions lmf_update_can_finish.
