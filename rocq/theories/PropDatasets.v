(** C66: the dataset cache and interrupted downloads. *)
From Coq Require Import List Arith Bool Lia.
From Verif Require Import Base Datasets.
Import ListNotations.

(** The server's file is [full]: a network is honest if it delivers a prefix of it, with its length (if any) in the header. *)
Definition honest {B} (full : list B) (n : net B) : Prop :=
  match n with
  | Refused => True
  | Stream size blocks dies => (exists rest, full = concat blocks ++ rest) /\ (forall s, size = Some s -> s = length full)
  end.
(** It delivers all of it. *)
Definition complete {B} (full : list B) (n : net B) : Prop :=
  match n with Refused => False | Stream size blocks dies => concat blocks = full /\ dies = false /\ (forall s, size = Some s -> s = length full) end.

Section P.
Context {B D : Type}.
Variable parse : list B -> res D.

Lemma stream_file f blocks : forall (fs : files B) c, fs f = Some c ->
  let fs' := fold_left (fun fs b => write fs f (match fs f with Some c => c ++ b | None => b end)) blocks fs in
  fs' f = Some (c ++ concat blocks) /\ forall g, g <> f -> fs' g = fs g.
Proof.
  induction blocks as [|b bs IH]; intros fs c E; cbn [fold_left concat]; cbv zeta.
  - rewrite app_nil_r. auto.
  - destruct (IH (write fs f (match fs f with Some c => c ++ b | None => b end)) (c ++ b)) as [E1 E2].
    { unfold write. rewrite Nat.eqb_refl, E. auto. }
    rewrite app_assoc. split; auto. intros g Hg. rewrite E2 by auto. unfold write. apply Nat.eqb_neq in Hg. rewrite Hg. auto.
Qed.

Lemma get_cached f (fs : files B) c n : fs f = Some c -> get parse f fs n = (fs, parse c).
Proof. intros E. unfold get. rewrite E. cbn [bind]. rewrite E. reflexivity. Qed.
Lemma get_stream f (fs : files B) size blocks dies : fs f = None ->
  fst (get parse f fs (Stream size blocks dies)) f = Some (concat blocks) /\ (forall g, g <> f -> fst (get parse f fs (Stream size blocks dies)) g = fs g) /\
  snd (get parse f fs (Stream size blocks dies)) =
    if dies || match size with Some s => length (concat blocks) <? s | None => false end then Raise RuntimeError else parse (concat blocks).
Proof.
  intros E. unfold get. rewrite E. unfold download_file. destruct (stream_file f blocks (write fs f []) []) as [E1 E2].
  { unfold write. rewrite Nat.eqb_refl. auto. }
  set (fs' := fold_left _ blocks _) in *. cbn [app] in E1.
  assert (E3 : forall g, g <> f -> fs' g = fs g). { intros g Hg. rewrite E2 by auto. unfold write. apply Nat.eqb_neq in Hg. rewrite Hg. auto. }
  destruct dies; cbn [orb]; [cbn; auto|]. destruct size as [s|]; [destruct (length (concat blocks) <? s)|]; cbn [fst snd bind]; rewrite ?E1; auto.
Qed.
Lemma gets_cached f ns : forall (fs : files B) c, fs f = Some c -> gets parse f ns fs = fs.
Proof. induction ns as [|n ns IH]; intros fs c E; auto. cbn [gets fold_left]. rewrite (get_cached f fs c n E). cbn [fst]. apply (IH fs c E). Qed.
End P.

(** True part: as long as every failed call so far failed before the connection was made, a call with a working
    network returns the complete dataset; after that every call does, without network and without touching any file.
    Other files are never touched. *)
Theorem C66_partial :
  forall (B D : Type) (parse : list B -> res D) (f : nat) (fs : files B) (full : list B) (d : D) (failed : list (net B)) n,
  fs f = None -> parse full = Ok d -> (forall m, In m failed -> m = Refused) -> complete full n ->
  let fs1 := gets parse f failed fs in
  snd (get parse f fs1 n) = Ok d /\
  (forall later m, gets parse f later (fst (get parse f fs1 n)) = fst (get parse f fs1 n) /\ get parse f (fst (get parse f fs1 n)) m = (fst (get parse f fs1 n), Ok d)) /\
  (forall g, g <> f -> fst (get parse f fs1 n) g = fs g).
Proof.
  intros B D parse f fs full d failed n E HP HF HC fs1.
  assert (E1 : fs1 = fs).
  { unfold fs1. clear HC fs1. induction failed as [|m l IH]; auto. cbn [gets fold_left]. rewrite (HF m (or_introl eq_refl)). unfold get. rewrite E. cbn [download_file fst]. apply IH. intros m' Hm'. apply HF. right. auto. }
  rewrite E1. destruct n as [|size blocks dies]; [destruct HC|]. destruct HC as [HB [-> HS]].
  destruct (get_stream parse f fs size blocks false E) as [G1 [G2 G3]]. rewrite HB in *.
  assert (GS : match size with Some s => length full <? s | None => false end = false). { destruct size as [s|]; auto. rewrite (HS s eq_refl). apply Nat.ltb_irrefl. }
  rewrite GS in G3. cbn [orb] in G3. rewrite HP in G3. split; auto. split; auto.
  intros later m. split; [apply (gets_cached parse f later _ full G1)|]. rewrite (get_cached parse f _ full m G1). rewrite HP. auto.
Qed.
Print Assumptions C66_partial.

(** Refuted: a download interrupted after the connection was made leaves the truncated file under the final name;
    from then on the file is never downloaded again, so every later call fails however good the network is. *)
Theorem C66_interrupted_refuted :
  forall (B D : Type) (parse : list B -> res D) (f : nat) (fs : files B) (full : list B) size blocks dies e,
  fs f = None -> honest full (Stream size blocks dies) -> concat blocks <> full -> parse (concat blocks) = Raise e ->
  let fs1 := fst (get parse f fs (Stream size blocks dies)) in
  (exists e', snd (get parse f fs (Stream size blocks dies)) = Raise e') /\
  forall later n, gets parse f later fs1 = fs1 /\ snd (get parse f fs1 n) = Raise e.
Proof.
  intros B D parse f fs full size blocks dies e E HH HN HP fs1.
  destruct (get_stream parse f fs size blocks dies E) as [G1 [G2 G3]]. split.
  - rewrite G3, HP. destruct (dies || _); eauto.
  - intros later n. split; [apply (gets_cached parse f later fs1 _ G1)|]. unfold fs1. rewrite (get_cached parse f _ _ n G1). exact HP.
Qed.
Print Assumptions C66_interrupted_refuted.
Theorem C66_refuted :
  exists (parse : list nat -> res nat) f (fs : files nat) full d n, fs f = None /\ parse full = Ok d /\ honest full n /\
    forall m, complete full m -> snd (get parse f (fst (get parse f fs n)) m) <> Ok d.
Proof.
  exists (fun c => if length c =? 3 then Ok (list_sum c) else Raise ValueError), 0, (fun _ => None), [1; 2; 3], 6, (Stream (Some 3) [[1; 2]] false).
  split; auto. split; auto. split.
  - cbn. split; [exists [3]; auto|]. intros s X. injection X as <-. auto.
  - intros m _. vm_compute. discriminate.
Qed.
Print Assumptions C66_refuted.
Example C66_example : complete [1; 2; 3] (Stream (Some 3) [[1; 2]; [3]] false) /\ honest [1; 2; 3] (Stream (Some 3) [[1; 2]] true) /\
  snd (get (fun c => if length c =? 3 then Ok (list_sum c) else Raise ValueError) 0 (fun _ => None) (Stream (Some 3) [[1; 2]; [3]] false)) = Ok 6.
Proof. split; [|split; [|reflexivity]]; cbn; repeat split; try (intros s X; injection X as <-; auto); eauto. Qed.
