(** A batch call to similar_items / similar_users is the scalar calls. *)
From Coq Require Import List Arith Lia Bool ZArith Permutation Sorted.
From Verif Require Import Base Num Heap Sparse TopkModel TopkSpec TopkProofs TopkBatch
  RecommendModel RecommendProofs RecommendProofs2 RecommendBatch.
Import ListNotations.

Lemma map_res_nth {A B} (f : A -> res B) us X d d' :
  map_res f us = Ok X <->
  length X = length us /\ forall g, g < length us -> f (nth g us d) = Ok (nth g X d').
Proof.
  rewrite map_res_ok. revert X; induction us as [|u us IH]; intros X; simpl.
  - split. { intros E; inversion E; split; auto; lia. }
    intros [L _]. destruct X; [constructor|discriminate].
  - split.
    + intros E. inversion E as [|? b ? bs E1 E2]; subst. apply IH in E2. destruct E2 as [L E2].
      split; [simpl; auto|]. intros [|g] Hg; simpl; auto. apply E2. lia.
    + intros [L E]. destruct X as [|b bs]; [discriminate|]. constructor.
      * apply (E 0); lia.
      * apply IH. split; [simpl in L; lia|]. intros g Hg. apply (E (S g)). lia.
Qed.

Lemma map_res_one {A B} (f : A -> res B) u X : map_res f [u] = Ok X <-> exists b, f u = Ok b /\ X = [b].
Proof.
  simpl. destruct (f u) as [b|e]; simpl.
  - split. { intros E; inversion E; eauto. } intros [b' [E ->]]. inversion E; auto.
  - split; [discriminate|]. intros [b [E _]]. discriminate.
Qed.

Lemma nth_combine {A B} (l : list A) (l' : list B) g d d' : length l = length l' ->
  nth g (combine l l') (d, d') = (nth g l d, nth g l' d').
Proof. intros. apply combine_nth; auto. Qed.

Section Batch.
Context {T : Type} `{NumOrd T}.
Variables (HP : std_heap) (HC : std_heap_ok HP) (fmin : T).

Lemma similar_batch factors norms us N fi items I S :
  us <> [] -> (0 < N)%Z ->
  similar HP fmin factors norms (Batch us) N fi items = Ok (ManyRows I S) <->
  length I = length us /\ length S = length us /\
  forall g, g < length us ->
    similar HP fmin factors norms (Scalar (nth g us 0%Z)) N fi items = Ok (OneRow (nth g I []) (nth g S [])).
Proof.
  intros NE HN.
  assert (L0 : 0 < length us) by (destruct us; simpl; [congruence|lia]).
  unfold similar. set (nrm := fun z => do i <- np_index (length norms) z; Ok (nth i norms nzero)).
  set (sel := restrict_similar factors norms fi items).
  set (row := fun z => do i <- np_index (length factors) z; Ok (nth i factors [])).
  assert (GR : forall zs, gather factors zs = map_res row zs) by reflexivity.
  cbn [id_list].
  destruct sel as [[[its facs] ns]|e] eqn:ESEL.
  2:{ split.
      - intros E. apply bind_ok in E. destruct E as [? [_ E]]. discriminate.
      - intros [_ [_ E]]. specialize (E 0 L0). apply bind_ok in E. destruct E as [? [_ E]]. discriminate. }
  cbn [bind].
  destruct facs as [|y0 ys] eqn:Ef.
  { (* no items: topk raises *)
    assert (TR : forall q k X, q <> [] -> topk HP fmin [] q k (Some ns) None (option_map arr_list fi) <> Ok X).
    { intros q k X Hq E. unfold topk in E. destruct (k <? 0)%Z; [discriminate|].
      apply bind_ok in E. destruct E as [ws [E _]]. unfold topk_all_writes in E.
      assert (BB : exists p ps, batch_bounds topk_batch_size (length q) = p :: ps).
      { unfold batch_bounds, topk_batch_size.
        assert (0 < length q / 100 + (if length q mod 100 =? 0 then 0 else 1)).
        { destruct (Nat.eqb_spec (length q mod 100) 0) as [M0|M0]; [|lia].
          destruct (Nat.eq_dec (length q / 100) 0) as [D0|D0]; [|lia]. exfalso.
          pose proof (Nat.div_mod (length q) 100 ltac:(lia)). destruct q; [congruence|]. simpl length in *. lia. }
        destruct (length q / 100 + _) eqn:EE; [lia|]. simpl. eauto. }
      destruct BB as [p [ps EB]]. rewrite EB in E. cbn [map_res] in E. apply bind_ok in E.
      destruct E as [w [E _]]. unfold topk_batch in E.
      apply bind_ok in E. destruct E as [b1 [_ E]]. apply bind_ok in E. destruct E as [b2 [_ E]].
      apply bind_ok in E. destruct E as [b3 [_ E]]. rewrite orb_true_r in E. discriminate. }
    unfold similarity_score. split.
    - intros E. exfalso. apply bind_ok in E. destruct E as [nn [_ E]]. apply bind_ok in E. destruct E as [q [Eq E]].
      apply bind_ok in E. destruct E as [r [E _]]. apply TR in E; auto.
      rewrite GR in Eq. apply (map_res_nth _ _ _ 0%Z []) in Eq. destruct Eq as [L _]. destruct q; simpl in *; [lia|discriminate].
    - intros [_ [_ X]]. exfalso. specialize (X 0 L0).
      apply bind_ok in X. destruct X as [nn [_ E]]. apply bind_ok in E. destruct E as [q [Eq E]].
      apply bind_ok in E. destruct E as [r [E _]]. apply TR in E; auto.
      rewrite GR in Eq. apply map_res_one in Eq. destruct Eq as [b [_ ->]]. discriminate. }
  rewrite <- Ef in *. assert (HF : facs <> []) by (rewrite Ef; discriminate). clear Ef y0 ys.
  set (fl_ := option_map arr_list fi).
  set (trow := topk_row' HP fmin facs (Some ns) None fl_ (Z.to_nat N)).
  assert (CG : forall g q, trow g q = trow 0 q) by reflexivity.
  set (sc := fun (n : T) (r : list (T * nat)) => map (fun s => ndiv s n) (pad (Z.to_nat N) nzero (map fst r))).
  split.
  - intros E. apply bind_ok in E. destruct E as [nn [En E]]. apply (map_res_nth _ _ _ 0%Z nzero) in En.
    destruct En as [Ln En]. apply bind_ok in E. destruct E as [X [EX E]].
    rewrite GR in EX. apply (map_res_nth _ _ _ 0%Z []) in EX. destruct EX as [LX EX].
    unfold similarity_score in E. apply bind_ok in E. destruct E as [[i s] [E F]].
    apply topk_ok in E; auto. destruct E as [rs [E [-> ->]]].
    apply (Forall2_enum_nth (fun g q r => topk_row' HP fmin facs (Some ns) None (option_map arr_list fi) (Z.to_nat N) g q = Ok r) X rs [] []) in E.
    destruct E as [Lr E]. cbn [finish fst snd] in F. inversion F; subst. clear F.
    rewrite !map_length, combine_length, map_length. split; [lia|]. split; [lia|].
    intros g Hg. cbn [map_res]. rewrite (En g Hg). cbn [bind]. rewrite GR. cbn [map_res]. rewrite (EX g Hg). cbn [bind].
    unfold similarity_score.
    assert (Y : topk HP fmin facs [nth g X []] N (Some ns) None (option_map arr_list fi) =
       Ok (map (fun r => pad (Z.to_nat N) 0 (map snd r)) [nth g rs []], map (fun r => pad (Z.to_nat N) nzero (map fst r)) [nth g rs []])).
    { apply topk_ok; auto. exists [nth g rs []]. split; auto. constructor; auto. cbn [fst snd].
      rewrite <- (E g) by lia. reflexivity. }
    rewrite Y. cbn [bind finish fst snd map combine nth]. f_equal. f_equal.
    + rewrite map_map. rewrite (nth_indep _ [] ((fun r : list (T * nat) => remap its (pad (Z.to_nat N) 0 (map snd r))) [])) by (rewrite map_length; lia).
      rewrite (map_nth (fun r : list (T * nat) => remap its (pad (Z.to_nat N) 0 (map snd r)))). auto.
    + rewrite (nth_indep _ [] ((fun p => map (fun s => ndiv s (snd p)) (fst p)) (@nil T, @nzero T H)))
        by (rewrite map_length, combine_length, map_length; lia).
      rewrite (map_nth (fun p => map (fun s => ndiv s (snd p)) (fst p))).
      rewrite combine_nth by (rewrite map_length; lia). cbn [fst snd]. f_equal.
      rewrite (nth_indep _ [] ((fun r : list (T * nat) => pad (Z.to_nat N) nzero (map fst r)) [])) by (rewrite map_length; lia).
      rewrite (map_nth (fun r : list (T * nat) => pad (Z.to_nat N) nzero (map fst r))). auto.
  - intros [LI [LS E]].
    assert (UG : forall g, g < length us -> exists p : (T * list T) * list (T * nat),
       nrm (nth g us 0%Z) = Ok (fst (fst p)) /\ row (nth g us 0%Z) = Ok (snd (fst p)) /\
       trow g (snd (fst p)) = Ok (snd p) /\
       nth g I [] = remap its (pad (Z.to_nat N) 0 (map snd (snd p))) /\
       nth g S [] = sc (fst (fst p)) (snd p)).
    { intros g Hg. specialize (E g Hg). apply bind_ok in E. destruct E as [nn [En E]].
      apply map_res_one in En. destruct En as [n0 [En ->]].
      apply bind_ok in E. destruct E as [X [EX E]]. rewrite GR in EX. apply map_res_one in EX. destruct EX as [q [EX ->]].
      unfold similarity_score in E. apply bind_ok in E. destruct E as [[i s] [E F]].
      apply topk_ok in E; auto. destruct E as [rs [E [-> ->]]].
      inversion E as [|? r ? ? E1 E2]; subst. inversion E2; subst.
      cbn [finish fst snd map combine nth] in F. inversion F.
      exists ((n0, q), r). cbn [fst snd]. split; auto. }
    apply (choose_list _ _ ((nzero, []), [])) in UG. destruct UG as [ps [Lp UG]].
    set (p0 := ((nzero, []), []) : (T * list T) * list (T * nat)) in *.
    assert (En : map_res nrm us = Ok (map (fun p => fst (fst p)) ps)).
    { apply (map_res_nth _ _ _ 0%Z (fst (fst p0))). rewrite map_length. split; auto. intros g Hg.
      rewrite (map_nth (fun p : (T * list T) * list (T * nat) => fst (fst p))). apply UG; auto. }
    assert (EX : map_res row us = Ok (map (fun p => snd (fst p)) ps)).
    { apply (map_res_nth _ _ _ 0%Z (snd (fst p0))). rewrite map_length. split; auto. intros g Hg.
      rewrite (map_nth (fun p : (T * list T) * list (T * nat) => snd (fst p))). apply UG; auto. }
    rewrite En. cbn [bind]. rewrite GR, EX. cbn [bind]. unfold similarity_score.
    assert (Y : topk HP fmin facs (map (fun p => snd (fst p)) ps) N (Some ns) None (option_map arr_list fi) =
       Ok (map (fun r => pad (Z.to_nat N) 0 (map snd r)) (map snd ps), map (fun r => pad (Z.to_nat N) nzero (map fst r)) (map snd ps))).
    { apply topk_ok; auto. exists (map snd ps). split; auto.
      apply (Forall2_enum_nth (fun g q r => topk_row' HP fmin facs (Some ns) None (option_map arr_list fi) (Z.to_nat N) g q = Ok r) _ _ (snd (fst p0)) (snd p0)).
      rewrite !map_length. split; auto. intros g Hg.
      rewrite (map_nth (fun p : (T * list T) * list (T * nat) => snd (fst p))), (map_nth snd). apply UG. lia. }
    rewrite Y. cbn [bind finish fst snd]. f_equal. f_equal.
    + apply (list_ext _ _ []); rewrite ?map_length; [lia|]. intros g Hg.
      rewrite !map_map. rewrite (nth_indep (map _ _) [] ((fun p : (T * list T) * list (T * nat) => remap its (pad (Z.to_nat N) 0 (map snd (snd p)))) p0)) by (rewrite map_length; lia).
      rewrite (map_nth (fun p : (T * list T) * list (T * nat) => remap its (pad (Z.to_nat N) 0 (map snd (snd p))))). symmetry. apply UG. lia.
    + assert (CM : forall ps : list ((T * list T) * list (T * nat)), map (fun p => map (fun s => ndiv s (snd p)) (fst p))
        (combine (map (fun r => pad (Z.to_nat N) nzero (map fst r)) (map snd ps)) (map (fun p => fst (fst p)) ps)) =
        map (fun p => sc (fst (fst p)) (snd p)) ps).
      { induction ps0; simpl; auto. f_equal. auto. }
      rewrite CM. apply (list_ext _ _ []); rewrite ?map_length; [lia|]. intros g Hg.
      rewrite (nth_indep (map _ _) [] ((fun p : (T * list T) * list (T * nat) => sc (fst (fst p)) (snd p)) p0)) by (rewrite map_length; lia).
      rewrite (map_nth (fun p : (T * list T) * list (T * nat) => sc (fst (fst p)) (snd p))). symmetry. apply UG. lia.
Qed.
End Batch.
