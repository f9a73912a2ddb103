(** Batching and scheduling of [topk]: every order of the stores gives, row by
    row, the result of that row alone. *)
From Coq Require Import List Arith Lia Bool ZArith Permutation Sorted.
From Verif Require Import Base Num Heap Sparse TopkModel TopkSpec TopkProofs.
Import ListNotations.

(* ---------- fusing map_res ---------- *)
Lemma map_res_bind {A B C} (f : A -> res B) (g : B -> res C) l r :
  (do b <- map_res f l; map_res g b) = Ok r <-> map_res (fun a => do b <- f a; g b) l = Ok r.
Proof.
  rewrite map_res_ok. split.
  - intros E. destruct (map_res f l) as [bs|] eqn:E1; [|discriminate]. simpl in E.
    apply map_res_ok in E1. apply map_res_ok in E.
    revert r E; induction E1; intros r E; inversion E; subst; constructor; auto.
    rewrite H. auto.
  - intros F.
    assert (X : exists bs, Forall2 (fun a b => f a = Ok b) l bs /\ Forall2 (fun b c => g b = Ok c) bs r).
    { induction F as [|a c l r E F IH]. { exists []; auto. }
      destruct IH as [bs [F1 F2]]. destruct (f a) as [b|] eqn:Ea; [|discriminate]. simpl in E.
      exists (b :: bs); auto. }
    destruct X as [bs [F1 F2]]. apply map_res_ok in F1. apply map_res_ok in F2.
    rewrite F1. auto.
Qed.

Lemma map_res_ext {A B} (f g : A -> res B) l :
  (forall a, In a l -> f a = g a) -> map_res f l = map_res g l.
Proof.
  induction l; simpl; intros; auto. rewrite H by auto. rewrite IHl; auto.
Qed.

Lemma map_res_map_in {A B C} (h : A -> B) (f : B -> res C) l :
  map_res f (map h l) = map_res (fun a => f (h a)) l.
Proof. induction l; simpl; auto. rewrite IHl; auto. Qed.

Lemma map_res_app_ok {A B} (f : A -> res B) l l' r :
  map_res f (l ++ l') = Ok r <-> exists a b, map_res f l = Ok a /\ map_res f l' = Ok b /\ r = a ++ b.
Proof.
  rewrite map_res_ok. split.
  - intros F. apply Forall2_app_inv_l in F. destruct F as [a [b [F1 [F2 E]]]].
    exists a, b. rewrite !map_res_ok. auto.
  - intros [a [b [E1 [E2 ->]]]]. apply map_res_ok in E1. apply map_res_ok in E2.
    apply Forall2_app; auto.
Qed.

Lemma map_res_concat_ok {A B} (f : A -> res B) ls r :
  map_res f (concat ls) = Ok r <-> exists rs, map_res (map_res f) ls = Ok rs /\ r = concat rs.
Proof.
  revert r; induction ls as [|l ls IH]; intros r.
  - simpl. split; [intros E; inversion E; exists []; auto|]. intros [rs [E ->]]. inversion E; auto.
  - cbn [concat]. rewrite map_res_app_ok. split.
    + intros [a [b [E1 [E2 ->]]]]. apply IH in E2. destruct E2 as [rs [E2 ->]].
      exists (a :: rs). simpl. rewrite E1, E2. auto.
    + intros [rs [E ->]]. simpl in E. destruct (map_res f l) as [a|] eqn:Ea; [|discriminate].
      simpl in E. destruct (map_res (map_res f) ls) as [b|] eqn:Eb; [|discriminate].
      inversion E; subst. exists a, (concat b). split; auto. split; auto. apply IH.
      exists b; auto.
Qed.

(* ---------- batch bounds ---------- *)
Lemma firstn_add {A} n m (l : list A) : firstn (n + m) l = firstn n l ++ firstn m (skipn n l).
Proof.
  revert l; induction n; simpl; intros; auto. destruct l; simpl. { rewrite firstn_nil; auto. }
  f_equal. auto.
Qed.

Lemma slice_min {A} s e (l : list A) : slice s (Nat.min e (length l)) l = slice s e l.
Proof.
  unfold slice. destruct (Nat.le_ge_cases e (length l)).
  - rewrite Nat.min_l; auto.
  - rewrite Nat.min_r by auto.
    rewrite !firstn_all2; auto; rewrite skipn_length; lia.
Qed.

Lemma slice_add {A} s n (l : list A) : slice s (s + n) l = firstn n (skipn s l).
Proof. unfold slice. f_equal. lia. Qed.

Lemma batches_concat {A} bs n (l : list A) :
  concat (map (fun b => enum_from (b * bs) (slice (b * bs) (Nat.min (b * bs + bs) (length l)) l)) (seq 0 n))
  = enum (firstn (n * bs) l).
Proof.
  induction n. { simpl. auto. }
  rewrite seq_S, map_app, concat_app, IHn. simpl map. simpl concat. rewrite app_nil_r.
  rewrite slice_min, slice_add. replace (S n * bs) with (n * bs + bs) by lia.
  rewrite firstn_add. unfold enum. rewrite enum_from_app. simpl (0 + _).
  destruct (Nat.le_ge_cases (n * bs) (length l)).
  - rewrite firstn_length, Nat.min_l by auto. auto.
  - rewrite skipn_all2 by auto. rewrite !firstn_nil. auto.
Qed.

Lemma batch_bounds_cover {A} bs (l : list A) : 0 < bs ->
  concat (map (fun se => enum_from (fst se) (slice (fst se) (snd se) l)) (batch_bounds bs (length l)))
  = enum l.
Proof.
  intros Hb. unfold batch_bounds. rewrite map_map. cbn [fst snd]. rewrite batches_concat.
  rewrite firstn_all2; auto.
  pose proof (Nat.div_mod (length l) bs ltac:(lia)).
  pose proof (Nat.mod_upper_bound (length l) bs ltac:(lia)).
  destruct (Nat.eqb_spec (length l mod bs) 0); nia.
Qed.

(* ---------- the fused per-row computation ---------- *)
Section Fuse.
Context {T : Type} `{Num T}.
Variables (HP : std_heap) (fmin : T) (items : list (list T)).
Variables (norms : option (list T)) (fq : option (csr T)) (fi : option (list Z)).

(** Scores of query row number [g] after normalisation and filtering. *)
Definition row_scores (g : nat) (q : list T) : res (list T) :=
  do s <- score_row items norms q;
  do s <- (match fq with
           | None => Ok s
           | Some m => if g <? c_rows m
                       then set_cols (map Z.of_nat (csr_row_indices m g)) fmin s
                       else Raise IndexError
           end);
  match fi with None => Ok s | Some l => set_cols l fmin s end.

(** Result of query row number [g]. *)
Definition topk_row (k : nat) (g : nat) (q : list T) : res (list (T * nat)) :=
  do s <- row_scores g q; select_row HP k s.

Definition row_w (k : nat) (g : nat) (r : list (T * nat)) : writes :=
  {| w_ids := row_writes (g * k) (map snd r); w_scores := row_writes (g * k) (map fst r) |}.

Lemma writes_concat_app (a b : list (@writes T)) :
  writes_concat (a ++ b) = writes_app (writes_concat a) (writes_concat b).
Proof.
  induction a; simpl. { destruct (writes_concat b); auto. }
  rewrite IHa. unfold writes_app; simpl. rewrite !app_assoc. auto.
Qed.

Lemma writes_concat_concat (l : list (list (@writes T))) :
  writes_concat (map writes_concat l) = writes_concat (concat l).
Proof. induction l; simpl; auto. rewrite writes_concat_app, IHl. auto. Qed.

Lemma enum_from_map_fst_add {A B} (f : nat -> A -> B) k j (l : list A) :
  map (fun p => f (k + fst p) (snd p)) (enum_from j l) = map (fun p => f (fst p) (snd p)) (enum_from (k + j) l).
Proof.
  revert j; induction l; simpl; intros; auto. f_equal. rewrite IHl.
  replace (k + S j) with (S (k + j)) by lia. auto.
Qed.

Lemma Forall2_len {A B} (R : A -> B -> Prop) l l' : Forall2 R l l' -> length l = length l'.
Proof. induction 1; simpl; auto. Qed.

Lemma Forall2_enum_shift {A B} (f : nat -> A -> res B) s j (l : list A) r :
  Forall2 (fun p b => f (s + fst p) (snd p) = Ok b) (enum_from j l) r <->
  Forall2 (fun p b => f (fst p) (snd p) = Ok b) (enum_from (s + j) l) r.
Proof.
  revert j r. induction l; simpl; intros j r.
  - split; intros E; inversion E; constructor.
  - replace (S (s + j)) with (s + S j) by lia.
    split; intros E; inversion E; subst; constructor; auto; apply IHl; auto.
Qed.

Lemma Forall2_enum_chain {A B C} (f : nat -> A -> res B) (g : nat -> B -> res C) j (l : list A) r :
  Forall2 (fun p c => (do b <- f (fst p) (snd p); g (fst p) b) = Ok c) (enum_from j l) r <->
  exists bs, Forall2 (fun p b => f (fst p) (snd p) = Ok b) (enum_from j l) bs /\
             Forall2 (fun p c => g (fst p) (snd p) = Ok c) (enum_from j bs) r.
Proof.
  revert j r. induction l as [|a l IH]; simpl; intros j r.
  - split. { intros E; inversion E; subst. exists []; split; simpl; auto. }
    intros [bs [E1 E2]]. inversion E1; subst. inversion E2; auto.
  - split.
    + intros E. inversion E as [|? c ? r' Ec Er]; subst. simpl in Ec.
      destruct (f j a) as [b|] eqn:Ef; [|discriminate]. simpl in Ec.
      apply IH in Er. destruct Er as [bs [E1 E2]]. exists (b :: bs). split; simpl; constructor; auto.
    + intros [bs [E1 E2]]. inversion E1 as [|? b ? bs' Eb Ebs]; subst. simpl in E2, Eb.
      inversion E2 as [|? c ? r' Ec Er]; subst. simpl in Ec.
      constructor. { simpl. rewrite Eb. auto. }
      apply IH. exists bs'; auto.
Qed.

Lemma map_res_as_enum {A B} (f : A -> res B) j (l : list A) r :
  map_res f l = Ok r <-> Forall2 (fun p b => (fun _ a => f a) (fst p) (snd p) = Ok b) (enum_from j l) r.
Proof.
  rewrite map_res_ok. revert j r. induction l; simpl; intros j r.
  - split; intros E; inversion E; constructor.
  - split; intros E; inversion E; subst; constructor; auto. apply (IHl (S j)); auto.
    apply (IHl (S j)); auto.
Qed.

Lemma bind_ok {A B} (r : res A) (f : A -> res B) b :
  bind r f = Ok b <-> exists a, r = Ok a /\ f a = Ok b.
Proof.
  destruct r; simpl; split; intros X.
  - eauto.
  - destruct X as [? [E X]]; inversion E; subst; auto.
  - discriminate.
  - destruct X as [? [E _]]; discriminate.
Qed.

Lemma select_ok batch k base w :
  select HP batch k base = Ok w <->
  exists rs, map_res (select_row HP k) batch = Ok rs /\
    w = writes_concat (map (fun p => {| w_ids := row_writes (base + fst p * k) (map snd (snd p));
                                        w_scores := row_writes (base + fst p * k) (map fst (snd p)) |})
                           (enum rs)).
Proof.
  unfold select. rewrite bind_ok. split.
  - intros [outs [E W]]. inversion W; subst. apply map_res_ok in E.
    apply (Forall2_enum_chain (fun _ b => select_row HP k b)
       (fun i r => Ok {| w_ids := row_writes (base + i * k) (map snd r);
                         w_scores := row_writes (base + i * k) (map fst r) |})) in E.
    destruct E as [rs [E1 E2]]. exists rs. split.
    + apply (map_res_as_enum _ 0). auto.
    + f_equal. clear E1. unfold enum. generalize dependent 0. clear.
      revert outs. induction rs; simpl; intros outs j F; inversion F as [|? ? ? ? E1 E2]; subst; auto.
      simpl in E1. inversion E1; subst. f_equal. apply IHrs. auto.
  - intros [rs [E ->]].
    eexists. split; [|reflexivity]. apply map_res_ok.
    apply (Forall2_enum_chain (fun _ b => select_row HP k b)
       (fun i r => Ok {| w_ids := row_writes (base + i * k) (map snd r);
                         w_scores := row_writes (base + i * k) (map fst r) |})).
    exists rs. split. { apply (map_res_as_enum _ 0) in E. auto. }
    clear. unfold enum. generalize 0. induction rs; simpl; constructor; auto.
Qed.

Lemma topk_batch_ok k s e query w : 0 < k -> items <> [] ->
  topk_batch HP fmin items query k s e norms fq fi = Ok w <->
  exists rs, Forall2 (fun p r => topk_row k (fst p) (snd p) = Ok r) (enum_from s (slice s e query)) rs /\
             w = writes_concat (map (fun p => row_w k (fst p) (snd p)) (enum_from s rs)).
Proof.
  intros Hk Hi. unfold topk_batch. set (qs := slice s e query). clearbody qs.
  assert (Ek : (k =? 0) || (length items =? 0) = false).
  { apply orb_false_iff. rewrite !Nat.eqb_neq. split; [lia|]. destruct items; simpl; congruence. }
  rewrite Ek.
  assert (SEL : forall batch, select HP batch k (s * k) = Ok w <->
     exists rs, Forall2 (fun p r => select_row HP k (snd p) = Ok r) (enum_from s batch) rs /\
                w = writes_concat (map (fun p => row_w k (fst p) (snd p)) (enum_from s rs))).
  { intros. rewrite select_ok. split; intros [rs [E W]]; exists rs; split.
    - apply (map_res_as_enum _ s) in E. auto.
    - rewrite W. f_equal. unfold enum, row_w.
      pose proof (enum_from_map_fst_add (fun i (r : list (T * nat)) =>
        {| w_ids := row_writes (i * k) (map snd r); w_scores := row_writes (i * k) (map fst r) |}) s 0 rs) as X.
      rewrite Nat.add_0_r in X. rewrite <- X. apply map_ext. intros [i r]; simpl.
      rewrite Nat.mul_add_distr_r. auto.
    - apply (map_res_as_enum _ s). auto.
    - rewrite W. f_equal. unfold enum, row_w.
      pose proof (enum_from_map_fst_add (fun i (r : list (T * nat)) =>
        {| w_ids := row_writes (i * k) (map snd r); w_scores := row_writes (i * k) (map fst r) |}) s 0 rs) as X.
      rewrite Nat.add_0_r in X. rewrite <- X. apply map_ext. intros [i r]; simpl.
      rewrite Nat.mul_add_distr_r. auto. }
  assert (FQ : forall b b', (match fq with
               | None => Ok b
               | Some m => map_res (fun p =>
                   let idx := s + fst p in
                   if idx <? c_rows m
                   then set_cols (map Z.of_nat (csr_row_indices m idx)) fmin (snd p)
                   else Raise IndexError) (enum b)
               end) = Ok b' <->
        Forall2 (fun p r => (match fq with
           | None => Ok (snd p)
           | Some m => if fst p <? c_rows m
                       then set_cols (map Z.of_nat (csr_row_indices m (fst p))) fmin (snd p)
                       else Raise IndexError
           end) = Ok r) (enum_from s b) b').
  { intros. destruct fq as [m|].
    - rewrite map_res_ok.
      pose proof (Forall2_enum_shift (fun i x => if i <? c_rows m
                       then set_cols (map Z.of_nat (csr_row_indices m i)) fmin x
                       else Raise IndexError) s 0 b b') as X.
      rewrite Nat.add_0_r in X. exact X.
    - split.
      + intros E; inversion E; subst. generalize s. clear. induction b'; simpl; constructor; auto.
      + intros E. f_equal. clear -E. revert s b' E.
        induction b; simpl; intros s b' E; inversion E; subst; auto. simpl in *. f_equal; [congruence|eauto]. }
  assert (FI : forall b b', (match fi with None => Ok b | Some l => map_res (set_cols l fmin) b end) = Ok b' <->
        Forall2 (fun p r => (match fi with None => Ok (snd p) | Some l => set_cols l fmin (snd p) end) = Ok r)
                (enum_from s b) b').
  { intros. destruct fi as [l|].
    - rewrite (map_res_as_enum _ s). reflexivity.
    - split.
      + intros E; inversion E; subst. generalize s. clear. induction b'; simpl; constructor; auto.
      + intros E. f_equal. clear -E. revert s b' E.
        induction b; simpl; intros s b' E; inversion E; subst; auto. simpl in *. f_equal; [congruence|eauto]. }
  rewrite bind_ok. split.
  - intros [b [E1 E]]. rewrite bind_ok in E. destruct E as [b2 [E2 E]].
    rewrite bind_ok in E. destruct E as [b3 [E3 E]].
    apply SEL in E. destruct E as [rs [E ->]]. exists rs. split; auto.
    apply (map_res_as_enum _ s) in E1. apply FQ in E2. apply FI in E3.
    unfold topk_row, row_scores.
    apply (Forall2_enum_chain (fun g q => do s0 <- score_row items norms q;
        do s1 <- (match fq with
           | None => Ok s0
           | Some m => if g <? c_rows m
                       then set_cols (map Z.of_nat (csr_row_indices m g)) fmin s0
                       else Raise IndexError end);
        match fi with None => Ok s1 | Some l => set_cols l fmin s1 end)
       (fun _ b => select_row HP k b)). exists b3. split; auto.
    apply (Forall2_enum_chain (fun g q => score_row items norms q)
      (fun g s0 => do s1 <- (match fq with
           | None => Ok s0
           | Some m => if g <? c_rows m
                       then set_cols (map Z.of_nat (csr_row_indices m g)) fmin s0
                       else Raise IndexError end);
        match fi with None => Ok s1 | Some l => set_cols l fmin s1 end)). exists b. split; auto.
    apply (Forall2_enum_chain (fun g s0 => match fq with
           | None => Ok s0
           | Some m => if g <? c_rows m
                       then set_cols (map Z.of_nat (csr_row_indices m g)) fmin s0
                       else Raise IndexError end)
        (fun g s1 => match fi with None => Ok s1 | Some l => set_cols l fmin s1 end)). exists b2. auto.
  - intros [rs [E W]]. unfold topk_row, row_scores in E.
    apply (Forall2_enum_chain (fun g q => do s0 <- score_row items norms q;
        do s1 <- (match fq with
           | None => Ok s0
           | Some m => if g <? c_rows m
                       then set_cols (map Z.of_nat (csr_row_indices m g)) fmin s0
                       else Raise IndexError end);
        match fi with None => Ok s1 | Some l => set_cols l fmin s1 end)
       (fun _ b => select_row HP k b)) in E. destruct E as [b3 [E E4]].
    apply (Forall2_enum_chain (fun g q => score_row items norms q)
      (fun g s0 => do s1 <- (match fq with
           | None => Ok s0
           | Some m => if g <? c_rows m
                       then set_cols (map Z.of_nat (csr_row_indices m g)) fmin s0
                       else Raise IndexError end);
        match fi with None => Ok s1 | Some l => set_cols l fmin s1 end)) in E. destruct E as [b [E1 E]].
    apply (Forall2_enum_chain (fun g s0 => match fq with
           | None => Ok s0
           | Some m => if g <? c_rows m
                       then set_cols (map Z.of_nat (csr_row_indices m g)) fmin s0
                       else Raise IndexError end)
        (fun g s1 => match fi with None => Ok s1 | Some l => set_cols l fmin s1 end)) in E.
    destruct E as [b2 [E2 E3]].
    exists b. split. { apply (map_res_as_enum _ s). auto. }
    rewrite bind_ok. exists b2. split. { apply FQ; auto. }
    rewrite bind_ok. exists b3. split. { apply FI; auto. }
    apply SEL. exists rs; auto.
Qed.

Lemma Forall2_concat_inv_l {A B} (R : A -> B -> Prop) ls r :
  Forall2 R (concat ls) r <-> exists rs, Forall2 (Forall2 R) ls rs /\ r = concat rs.
Proof.
  revert r; induction ls as [|l ls IH]; intros r; simpl.
  - split. { intros E; inversion E; subst. exists []; split; simpl; auto. } intros [rs [E ->]]; inversion E; constructor.
  - split.
    + intros E. apply Forall2_app_inv_l in E. destruct E as [a [b [E1 [E2 ->]]]].
      apply IH in E2. destruct E2 as [rs [E2 ->]]. exists (a :: rs); auto.
    + intros [rs [E ->]]. inversion E; subst. simpl. apply Forall2_app; auto. apply IH; eauto.
Qed.

Lemma enum_concat {A B} (bounds : list (nat * nat)) (query : list A) (rs : list (list B)) :
  Forall2 (fun se r => length (slice (fst se) (snd se) query) = length r) bounds rs ->
  forall j, concat (map (fun se => enum_from (fst se) (slice (fst se) (snd se) query)) bounds) = enum_from j query ->
  concat (map (fun p => enum_from (fst (fst p)) (snd p)) (combine bounds rs)) = enum_from j (concat rs).
Proof.
  intros F j E.
  assert (K : map fst (concat (map (fun p => enum_from (fst (fst p)) (snd p)) (combine bounds rs)))
            = seq j (length (concat rs)) /\
          map snd (concat (map (fun p => enum_from (fst (fst p)) (snd p)) (combine bounds rs))) = concat rs).
  { split.
    - assert (X : map fst (concat (map (fun p => enum_from (fst (fst p)) (snd p)) (combine bounds rs)))
          = map fst (concat (map (fun se => enum_from (fst se) (slice (fst se) (snd se) query)) bounds))).
      { clear E. induction F; simpl; auto. rewrite !map_app, !map_fst_enum_from, IHF. f_equal. f_equal. auto. }
      rewrite X, E, map_fst_enum_from. f_equal.
      assert (L : length (concat (map (fun se => enum_from (fst se) (slice (fst se) (snd se) query)) bounds))
             = length (concat rs)).
      { clear E X. induction F; simpl; auto. rewrite !app_length, enum_from_length, IHF. auto. }
      rewrite E, enum_from_length in L. auto.
    - clear E. induction F; simpl; auto. rewrite map_app, map_snd_enum_from, IHF. auto. }
  destruct K as [K1 K2].
  rewrite <- (combine_fst_snd (concat _)). rewrite K1, K2.
  rewrite <- (combine_fst_snd (enum_from j (concat rs))). rewrite map_fst_enum_from, map_snd_enum_from. auto.
Qed.

(** Success and value of all the batches together. *)
Lemma topk_all_writes_ok k query w : 0 < k -> items <> [] ->
  (exists ws, topk_all_writes HP fmin items query k norms fq fi = Ok ws /\ w = writes_concat ws) <->
  exists rs, Forall2 (fun p r => topk_row k (fst p) (snd p) = Ok r) (enum query) rs /\
             w = writes_concat (map (fun p => row_w k (fst p) (snd p)) (enum rs)).
Proof.
  intros Hk Hi. unfold topk_all_writes.
  assert (Hbs : 0 < topk_batch_size) by (unfold topk_batch_size; lia).
  pose proof (batch_bounds_cover topk_batch_size query Hbs) as COV.
  set (bounds := batch_bounds topk_batch_size (length query)) in *. clearbody bounds.
  rewrite <- COV. split.
  - intros [ws [E ->]]. apply map_res_ok in E.
    assert (X : exists rss, Forall2 (fun se rs => Forall2 (fun p r => topk_row k (fst p) (snd p) = Ok r)
                 (enum_from (fst se) (slice (fst se) (snd se) query)) rs) bounds rss /\
               ws = map (fun p => writes_concat (map (fun q => row_w k (fst q) (snd q)) (enum_from (fst (fst p)) (snd p))))
                        (combine bounds rss)).
    { clear COV. induction E as [|se w bs ws E _ IH]. { exists []; auto. }
      destruct IH as [rss [F ->]]. apply topk_batch_ok in E; auto. destruct E as [rs [F' ->]].
      exists (rs :: rss). split; auto. }
    destruct X as [rss [F ->]]. exists (concat rss). split.
    + apply Forall2_concat_inv_l. exists rss. split; auto. clear -F.
      induction F; simpl; constructor; auto.
    + rewrite <- (map_map (fun p => map (fun q => row_w k (fst q) (snd q)) (enum_from (fst (fst p)) (snd p))) writes_concat).
      rewrite writes_concat_concat. f_equal.
      rewrite <- (map_map (fun p => enum_from (fst (fst p)) (snd p)) (map (fun q => row_w k (fst q) (snd q)))).
      rewrite <- concat_map. f_equal. unfold enum. apply (enum_concat bounds query); auto.
      clear -F. induction F as [|se rs' bs rss' E F IH]; constructor; auto.
      apply Forall2_len in E. rewrite enum_from_length in E. auto.
  - intros [rs [F ->]]. apply Forall2_concat_inv_l in F. destruct F as [rss [F ->]].
    exists (map (fun p => writes_concat (map (fun q => row_w k (fst q) (snd q)) (enum_from (fst (fst p)) (snd p))))
                        (combine bounds rss)).
    assert (F' : Forall2 (fun se rs => Forall2 (fun p r => topk_row k (fst p) (snd p) = Ok r)
                 (enum_from (fst se) (slice (fst se) (snd se) query)) rs) bounds rss).
    { clear COV. revert rss F. induction bounds; simpl; intros rss F; inversion F; subst; constructor; auto. }
    split.
    + apply map_res_ok. clear COV F. induction F' as [|se y bs rss' E F IH]; simpl; constructor; auto.
      apply topk_batch_ok; auto. exists y. auto.
    + rewrite <- (map_map (fun p => map (fun q => row_w k (fst q) (snd q)) (enum_from (fst (fst p)) (snd p))) writes_concat).
      rewrite writes_concat_concat. f_equal.
      rewrite <- (map_map (fun p => enum_from (fst (fst p)) (snd p)) (map (fun q => row_w k (fst q) (snd q)))).
      rewrite <- concat_map. f_equal. unfold enum. symmetry. apply (enum_concat bounds query); auto.
      clear -F'. induction F' as [|se rs' bs rss' E F IH]; constructor; auto.
      apply Forall2_len in E. rewrite enum_from_length in E. auto.
Qed.
End Fuse.

(* ---------- reading the output back ---------- *)
Section ReadBack.
Context {V : Type}.

Definition pad (k : nat) (d : V) (r : list V) : list V := r ++ repeat d (k - length r).

Lemma map_add_seq base j n : map (fun i => base + i) (seq j n) = seq (base + j) n.
Proof. revert j; induction n; simpl; intros; auto. f_equal. rewrite IHn. f_equal. lia. Qed.

Lemma row_writes_fst base (vals : list V) : map fst (row_writes base vals) = seq base (length vals).
Proof.
  unfold row_writes. rewrite map_map. cbn [fst].
  rewrite <- (map_map fst (fun i => base + i)). unfold enum. rewrite map_fst_enum_from.
  rewrite map_add_seq, Nat.add_0_r. auto.
Qed.

Definition all_row_writes (k : nat) (rows : list (list V)) : list (nat * V) :=
  concat (map (fun p => row_writes (fst p * k) (snd p)) (enum rows)).

Lemma all_row_writes_addr k j (rows : list (list V)) a :
  (forall r, In r rows -> length r <= k) ->
  In a (map fst (concat (map (fun p => row_writes (fst p * k) (snd p)) (enum_from j rows)))) ->
  j * k <= a < (j + length rows) * k.
Proof.
  revert j; induction rows; simpl; intros j B Hin; [tauto|].
  rewrite map_app in Hin. apply in_app_or in Hin. destruct Hin as [Hin|Hin].
  - rewrite row_writes_fst in Hin. apply in_seq in Hin. specialize (B a0 (or_introl eq_refl)). nia.
  - apply IHrows in Hin; [|intros; apply B; auto]. nia.
Qed.

Lemma NoDup_app_intro {A} (l l' : list A) :
  NoDup l -> NoDup l' -> (forall x, In x l -> In x l' -> False) -> NoDup (l ++ l').
Proof.
  induction l; simpl; intros; auto. inversion H; subst. constructor.
  - intro X. apply in_app_or in X. destruct X; eauto.
  - apply IHl; auto. intros; eauto.
Qed.

Lemma all_row_writes_nodup k (rows : list (list V)) :
  (forall r, In r rows -> length r <= k) -> NoDup (map fst (all_row_writes k rows)).
Proof.
  unfold all_row_writes, enum. generalize 0 as j.
  induction rows; simpl; intros j B; [constructor|].
  rewrite map_app. apply NoDup_app_intro.
  - rewrite row_writes_fst. apply seq_NoDup.
  - apply IHrows. intros; apply B; auto.
  - intros x X Y. rewrite row_writes_fst in X. apply in_seq in X.
    apply all_row_writes_addr in Y; [|intros; apply B; auto].
    specialize (B a (or_introl eq_refl)). nia.
Qed.

Lemma all_row_writes_in k (rows : list (list V)) g r i v :
  nth_error rows g = Some r -> nth_error r i = Some v -> In (g * k + i, v) (all_row_writes k rows).
Proof.
  intros Hg Hi. unfold all_row_writes. apply in_concat.
  exists (row_writes (g * k) r). split.
  - apply in_map_iff. exists (g, r). split; auto. apply in_enum; auto.
  - unfold row_writes. apply in_map_iff. exists (i, v). split; auto. apply in_enum; auto.
Qed.

Lemma nth_repeat_any (a d : V) n i : nth i (repeat a n) d = if i <? n then a else d.
Proof.
  revert i; induction n; destruct i; simpl; auto. rewrite IHn. reflexivity.
Qed.

Lemma read_back k d (rows : list (list V)) ws :
  (forall r, In r rows -> length r <= k) ->
  Permutation ws (all_row_writes k rows) ->
  reshape (length rows) k (apply_writes ws (repeat d (length rows * k))) = map (pad k d) rows.
Proof.
  intros B P.
  assert (ND : NoDup (map fst ws)).
  { eapply Permutation_NoDup; [apply Permutation_sym, Permutation_map, P|].
    apply all_row_writes_nodup; auto. }
  rewrite (apply_writes_perm ws (all_row_writes k rows)) by auto.
  assert (ND' : NoDup (map fst (all_row_writes k rows))) by (apply all_row_writes_nodup; auto).
  unfold reshape. apply (list_ext _ _ []); rewrite ?map_length, ?seq_length; auto.
  intros g Hg.
  rewrite (nth_indep _ [] (slice (0 * k) (0 * k + k) (apply_writes (all_row_writes k rows) (repeat d (length rows * k)))))
    by (rewrite map_length, seq_length; auto).
  rewrite (map_nth (fun r => slice (r * k) (r * k + k) _)), seq_nth by auto. simpl (0 + g).
  rewrite (nth_indep (map (pad k d) rows) [] (pad k d [])) by (rewrite map_length; auto).
  rewrite map_nth. set (r := nth g rows []).
  assert (Hr : nth_error rows g = Some r) by (apply nth_error_of_nth; auto).
  assert (Lr : length r <= k) by (apply B; eapply nth_error_In; eauto).
  assert (LEN : length (apply_writes (all_row_writes k rows) (repeat d (length rows * k))) = length rows * k).
  { rewrite apply_writes_length, repeat_length. auto. }
  assert (INB : g * k + k <= length rows * k) by nia.
  apply (list_ext _ _ d).
  - rewrite slice_length by lia. unfold pad. rewrite app_length, repeat_length. lia.
  - intros i Hi. rewrite slice_length in Hi by lia.
    rewrite nth_slice by lia. unfold pad.
    destruct (Nat.lt_ge_cases i (length r)) as [L|L].
    + rewrite app_nth1 by auto.
      apply apply_writes_in; auto.
      * apply all_row_writes_in with (r := r); auto. apply nth_error_of_nth; auto.
      * rewrite repeat_length. lia.
    + rewrite app_nth2 by auto. rewrite nth_repeat_any.
      replace (i - length r <? k - length r) with true by (symmetry; apply Nat.ltb_lt; lia).
      rewrite apply_writes_notin.
      * rewrite nth_repeat_any. destruct (Nat.ltb_spec (g * k + i) (length rows * k)); auto.
      * intro X. unfold all_row_writes in X.
        rewrite concat_map in X. apply in_concat in X. destruct X as [l [X1 X2]].
        rewrite map_map in X1. apply in_map_iff in X1. destruct X1 as [[g' r'] [<- X1]].
        rewrite row_writes_fst in X2. apply in_seq in X2. simpl in X2.
        apply in_enum in X1.
        assert (length r' <= k) by (apply B; eapply nth_error_In; eauto).
        assert (g' = g) by nia. subst. assert (r' = r) by congruence. subst. lia.
Qed.
End ReadBack.

(* ---------- topk itself ---------- *)
Section Topk.
Context {T : Type} `{NumOrd T}.
Variables (HP : std_heap) (HC : std_heap_ok HP).
Variables (fmin : T) (items : list (list T)).
Variables (norms : option (list T)) (fq : option (csr T)) (fi : option (list Z)).

Lemma w_ids_concat (l : list (@writes T)) : w_ids (writes_concat l) = concat (map w_ids l).
Proof. induction l; simpl; auto. rewrite IHl. auto. Qed.
Lemma w_scores_concat (l : list (@writes T)) : w_scores (writes_concat l) = concat (map w_scores l).
Proof. induction l; simpl; auto. rewrite IHl. auto. Qed.

Lemma w_ids_rows k (rs : list (list (T * nat))) :
  w_ids (writes_concat (map (fun p => row_w k (fst p) (snd p)) (enum rs)))
  = all_row_writes k (map (map snd) rs).
Proof.
  rewrite w_ids_concat, map_map. unfold all_row_writes, enum. simpl.
  generalize 0. induction rs; simpl; intros; auto. rewrite IHrs; auto.
Qed.
Lemma w_scores_rows k (rs : list (list (T * nat))) :
  w_scores (writes_concat (map (fun p => row_w k (fst p) (snd p)) (enum rs)))
  = all_row_writes k (map (map fst) rs).
Proof.
  rewrite w_scores_concat, map_map. unfold all_row_writes, enum. simpl.
  generalize 0. induction rs; simpl; intros; auto. rewrite IHrs; auto.
Qed.

Lemma select_row_len k row r : 0 < k -> select_row HP k row = Ok r -> length r = Nat.min k (length row).
Proof.
  intros Hk E. destruct (select_row_topn HP HC k row nzero Hk) as [r' [E' TN]].
  rewrite E in E'. inversion E'; subst. pose proof (topn_length _ _ _ _ _ TN). rewrite map_length in H1. auto.
Qed.

Definition topk_row' := topk_row HP fmin items norms fq fi.

Lemma topk_row_len k g q r : 0 < k -> topk_row' k g q = Ok r -> length r <= k.
Proof.
  intros Hk E. unfold topk_row', topk_row in E. apply bind_ok in E. destruct E as [s [_ E]].
  apply select_row_len in E; auto. lia.
Qed.

(** Whatever the order in which the stores are executed, the output arrays hold,
    row by row, the row's own result, padded with zeros. *)
Lemma topk_any_schedule k query ws ids scores :
  0 < k -> items <> [] ->
  topk_all_writes HP fmin items query k norms fq fi = Ok ws ->
  Permutation ids (w_ids (writes_concat ws)) ->
  Permutation scores (w_scores (writes_concat ws)) ->
  exists rs,
    Forall2 (fun p r => topk_row' k (fst p) (snd p) = Ok r) (enum query) rs /\
    topk_output (length query) k ids scores =
      (map (fun r => pad k 0 (map snd r)) rs, map (fun r => pad k nzero (map fst r)) rs).
Proof.
  intros Hk Hi E P1 P2.
  destruct (proj1 (topk_all_writes_ok HP fmin items norms fq fi k query (writes_concat ws) Hk Hi))
    as [rs [F W]]. { exists ws; auto. }
  exists rs. split; auto.
  rewrite W in P1, P2. rewrite w_ids_rows in P1. rewrite w_scores_rows in P2.
  assert (L : length query = length rs).
  { apply Forall2_len in F. unfold enum in F. rewrite enum_from_length in F. auto. }
  assert (B : forall r, In r rs -> length r <= k).
  { intros r Hr. clear -F Hr Hk HC H0. induction F; simpl in Hr; [tauto|].
    destruct Hr as [<-|Hr]; auto. eapply topk_row_len; eauto. }
  unfold topk_output. f_equal.
  - rewrite L. rewrite <- (map_length (map (@snd T nat)) rs).
    rewrite read_back; auto.
    + rewrite map_map. auto.
    + intros r Hr. apply in_map_iff in Hr. destruct Hr as [r' [<- Hr]]. rewrite map_length; auto.
  - rewrite L. rewrite <- (map_length (map (@fst T nat)) rs).
    rewrite read_back; auto.
    + rewrite map_map. auto.
    + intros r Hr. apply in_map_iff in Hr. destruct Hr as [r' [<- Hr]]. rewrite map_length; auto.
Qed.

(** [topk] succeeds exactly when every row does, and returns the rows' results. *)
Lemma topk_ok k query I S : (0 < k)%Z -> items <> [] ->
  topk HP fmin items query k norms fq fi = Ok (I, S) <->
  exists rs,
    Forall2 (fun p r => topk_row' (Z.to_nat k) (fst p) (snd p) = Ok r) (enum query) rs /\
    I = map (fun r => pad (Z.to_nat k) 0 (map snd r)) rs /\
    S = map (fun r => pad (Z.to_nat k) nzero (map fst r)) rs.
Proof.
  intros Hk Hi. assert (Hk' : 0 < Z.to_nat k) by lia. unfold topk.
  destruct (Z.ltb_spec k 0); [lia|]. split.
  - intros E. apply bind_ok in E. destruct E as [ws [E X]].
    destruct (topk_any_schedule _ _ _ _ _ Hk' Hi E (Permutation_refl _) (Permutation_refl _)) as [rs [F O]].
    exists rs. split; auto. rewrite O in X. inversion X; auto.
  - intros [rs [F [-> ->]]].
    destruct (proj2 (topk_all_writes_ok HP fmin items norms fq fi (Z.to_nat k) query _ Hk' Hi)
               (ex_intro _ rs (conj F eq_refl))) as [ws [E W]].
    rewrite E. simpl. f_equal.
    destruct (topk_any_schedule _ _ _ _ _ Hk' Hi E (Permutation_refl _) (Permutation_refl _)) as [rs' [F' O]].
    rewrite O. assert (rs' = rs); [|subst; auto].
    clear -F F'. revert rs' F'. induction F; intros rs' F'; inversion F'; subst; auto.
    f_equal; [congruence|auto].
Qed.
End Topk.
