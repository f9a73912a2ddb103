(** Model of the AlternatingLeastSquares object as a whole: factors, caches, and what
    the API calls do to them (implicit/cpu/als.py, matrix_factorization_base.py). *)
From Coq Require Import List Arith Lia Bool ZArith.
From Verif Require Import Base Num Heap Sparse TopkModel RecommendModel AlsModel ExplainModel.
Import ListNotations.

Section State.
Context {T : Type} `{Num T} {W : Type}.
Local Notation vec := (list T).
Local Notation mat := (list (list T)).

(** als.py:60-95, matrix_factorization_base.py:25-32: the learned attributes, all [None]
    on construction. *)
Record als_state : Type := {
  sX : option mat; sY : option mat;                      (* user_factors, item_factors *)
  s_unorm : option (list T); s_inorm : option (list T);  (* _user_norms, _item_norms *)
  s_YtY : option mat; s_XtX : option mat                 (* _YtY, _XtX *)
}.
Definition fresh_state : als_state :=
  {| sX := None; sY := None; s_unorm := None; s_inorm := None; s_YtY := None; s_XtX := None |}.

(** Everything that does not change: external routines and hyperparameters.
    [solver_ip] is [self.solver] updating its second argument in place: the rows
    afterwards, and the exception if one is raised (rows processed before it have been
    overwritten). *)
Record env : Type := {
  e_heap : std_heap; e_fmin : T; e_norm : list T -> T; e_tiny : T; e_isnan : T -> bool;
  e_posv : mat -> vec -> option vec; e_alpha : T; e_reg : T; e_n : nat; e_iterations : nat;
  e_heapq : heapq; e_cho_factor : mat -> option W; e_cho_solve : W -> vec -> vec;
  e_solver : csr T -> mat -> mat -> T -> mat * option exn
}.
Variable E : env.

(** Read-only calls. *)
Inductive query : Type :=
| QRecommend (userid : idarg) (user_items : sparse_arg T) (N : Z) (filter_liked : bool) (filter_items : option arr)
             (recalculate : bool) (items : option arr)
| QSimilarUsers (id : idarg) (N : Z) (filter_users users : option arr)
| QSimilarItems (id : idarg) (N : Z) (filter_items items : option arr)
| QSimilarItemsRecalc (id : idarg) (item_users : csr T) (N : Z) (filter_items items : option arr)
| QRecalculateUser (id : idarg) (user_items : csr T)
| QRecalculateItem (id : idarg) (item_users : csr T)
| QExplain (userid : nat) (user_items : csr T) (itemid : Z) (user_weights : option W) (N : Z).
Inductive answer : Type := AOut (o : out T) | AFactors (m : mat) | AExplain (r : T * list (nat * T) * W).

(** The answer computed from factors [X], [Y] and the values of the cached properties. *)
Definition answer_from (X Y : mat) (un inn : list T) (YtY XtX : mat) (q : query) : res answer :=
  let recalc_u := recalculate_user (e_posv E) (e_alpha E) (e_reg E) (e_n E) YtY Y in
  let recalc_i := recalculate_item (e_posv E) (e_alpha E) (e_reg E) (e_n E) XtX X in
  match q with
  | QRecommend u M N fl fi rc its =>
      do o <- recommend (e_heap E) (e_fmin E) {| user_factors := X; item_factors := Y |} recalc_u u M N fl fi rc its; Ok (AOut o)
  | QSimilarUsers id N fi its => do o <- similar (e_heap E) (e_fmin E) X un id N fi its; Ok (AOut o)
  | QSimilarItems id N fi its => do o <- similar (e_heap E) (e_fmin E) Y inn id N fi its; Ok (AOut o)
  | QSimilarItemsRecalc id M N fi its =>
      do o <- similar_items_recalc (e_heap E) (e_fmin E) (e_norm E) (e_tiny E) Y inn recalc_i id M N fi its; Ok (AOut o)
  | QRecalculateUser id M => do m <- recalc_u id M; Ok (AFactors m)
  | QRecalculateItem id M => do m <- recalc_i id M; Ok (AFactors m)
  | QExplain u M i w N =>
      do r <- explain (e_heapq E) (e_cho_factor E) (e_cho_solve E) (e_alpha E) (e_reg E) (e_n E) YtY Y u M i w N; Ok (AExplain r)
  end.

(** The properties (matrix_factorization_base.py:232-246, als.py:424-436): the value
    used, and the object afterwards. *)
Definition set_unorm s v := {| sX := sX s; sY := sY s; s_unorm := v; s_inorm := s_inorm s; s_YtY := s_YtY s; s_XtX := s_XtX s |}.
Definition set_inorm s v := {| sX := sX s; sY := sY s; s_unorm := s_unorm s; s_inorm := v; s_YtY := s_YtY s; s_XtX := s_XtX s |}.
Definition set_YtY s v := {| sX := sX s; sY := sY s; s_unorm := s_unorm s; s_inorm := s_inorm s; s_YtY := v; s_XtX := s_XtX s |}.
Definition set_XtX s v := {| sX := sX s; sY := sY s; s_unorm := s_unorm s; s_inorm := s_inorm s; s_YtY := s_YtY s; s_XtX := v |}.
Definition set_X s v := {| sX := v; sY := sY s; s_unorm := s_unorm s; s_inorm := s_inorm s; s_YtY := s_YtY s; s_XtX := s_XtX s |}.
Definition set_Y s v := {| sX := sX s; sY := v; s_unorm := s_unorm s; s_inorm := s_inorm s; s_YtY := s_YtY s; s_XtX := s_XtX s |}.

Definition unorms_value (s : als_state) (X : mat) : list T :=
  match s_unorm s with Some v => v | None => norms_of (e_norm E) (e_tiny E) X end.
Definition inorms_value (s : als_state) (Y : mat) : list T :=
  match s_inorm s with Some v => v | None => norms_of (e_norm E) (e_tiny E) Y end.
Definition YtY_value (s : als_state) (Y : mat) : mat := match s_YtY s with Some v => v | None => gram (e_n E) Y end.
Definition XtX_value (s : als_state) (X : mat) : mat := match s_XtX s with Some v => v | None => gram (e_n E) X end.

(** Which properties a call reads (and so fills).  recalculate_user reads YtY after its
    check of the number of rows (als.py:223-231); explain only without [user_weights]
    (385-388). *)
Definition reads_YtY (q : query) : bool :=
  match q with
  | QRecommend u (Csr M) _ _ _ true _ => c_rows M =? id_count u
  | QRecalculateUser u M => c_rows M =? id_count u
  | QExplain _ _ _ None _ => true
  | _ => false
  end.
Definition reads_XtX (q : query) : bool :=
  match q with QSimilarItemsRecalc _ _ _ _ _ | QRecalculateItem _ _ => true | _ => false end.
Definition reads_unorm (q : query) : bool := match q with QSimilarUsers _ _ _ _ => true | _ => false end.
(** With recalculate_item the norms are read after the recalculation (lines 180-182), so
    not if that fails. *)
Definition reads_inorm (X : mat) (XtX : mat) (q : query) : bool :=
  match q with
  | QSimilarItems _ _ _ _ => true
  | QSimilarItemsRecalc id M _ _ _ =>
      match recalculate_item (e_posv E) (e_alpha E) (e_reg E) (e_n E) XtX X id M with Ok _ => true | Raise _ => false end
  | _ => false
  end.

(** A read-only call: the object afterwards, and the result.  Before [fit] the factors
    are [None] and every call fails (various exceptions, here TypeError). *)
Definition run_query (s : als_state) (q : query) : als_state * res answer :=
  match sX s, sY s with
  | Some X, Some Y =>
      let un := unorms_value s X in let inn := inorms_value s Y in
      let YtY := YtY_value s Y in let XtX := XtX_value s X in
      let s1 := if reads_YtY q then set_YtY s (Some YtY) else s in
      let s2 := if reads_XtX q then set_XtX s1 (Some XtX) else s1 in
      let s3 := if reads_unorm q then set_unorm s2 (Some un) else s2 in
      let s4 := if reads_inorm X XtX q then set_inorm s3 (Some inn) else s3 in
      (s4, answer_from X Y un inn YtY XtX q)
  | _, _ => (s, Raise TypeError)
  end.
Definition run_queries (s : als_state) (qs : list query) : als_state := fold_left (fun s q => fst (run_query s q)) qs s.

(** als.py:161-196: the training loop from iteration [it], [k] rounds to go.  The
    callback is given as the read-only calls it makes on the model; what it sees
    (iteration, factors) is recorded. *)
Definition event : Type := (nat * mat * mat)%type.
Fixpoint fit_loop (Cui Ciu : csr T) (callback : option (nat -> list query)) (k it : nat) (s : als_state) (X Y : mat)
  : als_state * list event * res unit :=
  match k with
  | O => (s, [], Ok tt)
  | S k' =>
      let '(X', ex) := e_solver E Cui X Y (e_reg E) in
      let s := set_X s (Some X') in
      match ex with
      | Some x => (s, [], Raise x)
      | None =>
          let '(Y', ey) := e_solver E Ciu Y X' (e_reg E) in
          let s := set_Y s (Some Y') in
          match ey with
          | Some x => (s, [], Raise x)
          | None =>
              match callback with
              | None => fit_loop Cui Ciu callback k' (S it) s X' Y'
              | Some cb =>
                  let '(s', tr, r) := fit_loop Cui Ciu callback k' (S it) (run_queries s (cb it)) X' Y' in
                  (s', (it, X', Y') :: tr, r)
              end
          end
      end
  end.
(** als.py:97-201 [fit]; [X0], [Y0]: the random initial factors, used if there are none
    yet.  The callback argument takes precedence over the [fit_callback] attribute
    (193-194).  The input is a csr matrix; the training loss is not computed. *)
Definition fit (s : als_state) (user_items : csr T) (X0 Y0 : mat) (callback fit_callback : option (nat -> list query))
  : als_state * list event * res unit :=
  let Cui := apply_alpha (e_alpha E) user_items in
  let X := match sX s with Some X => X | None => X0 end in
  let Y := match sY s with Some Y => Y | None => Y0 end in
  let s1 := {| sX := Some X; sY := Some Y; s_unorm := None; s_inorm := None; s_YtY := None; s_XtX := None |} in
  let cb := match callback with Some _ => callback | None => fit_callback end in
  let '(s2, tr, r) := fit_loop Cui (transpose Cui) cb (e_iterations E) 0 s1 X Y in
  match r with
  | Raise x => (s2, tr, Raise x)
  | Ok _ =>
      (* matrix_factorization_base.py:248-252 *)
      let bad m := existsb (existsb (e_isnan E)) (match m with Some m => m | None => [] end) in
      (s2, tr, if bad (sX s2) || bad (sY s2) then Raise ModelFitError else Ok tt)
  end.

(** Python's [max] of a list of ids. *)
Definition max_id (l : list Z) : res Z :=
  match l with [] => Raise ValueError | z :: l' => Ok (fold_left Z.max l' z) end.
(** als.py:299-304: room for new ids. *)
Definition grow (rows : mat) (mx : Z) : mat :=
  if (Z.of_nat (length rows) <=? mx)%Z then rows ++ repeat (zeros (e_n E)) (Z.to_nat (mx - Z.of_nat (length rows) + 1)) else rows.
(** als.py:307 [factors[ids] = new]: all ids are checked first; the last of repeated ids
    wins. *)
Definition scatter (rows : mat) (ids : list Z) (new : mat) : res mat :=
  do ks <- map_res (np_index (length rows)) ids;
  Ok (fold_left (fun m p => upd (fst p) (snd p) m) (combine ks new) rows).

(** als.py:275-311 [partial_fit_users] *)
Definition partial_fit_users (s : als_state) (ids : list Z) (M : csr T) : als_state * res unit :=
  if negb (length ids =? c_rows M) then (s, Raise ValueError) else
  match sX s, sY s with
  | Some X, Some Y =>
      let YtY := YtY_value s Y in
      let s1 := set_YtY s (Some YtY) in
      match recalculate_user (e_posv E) (e_alpha E) (e_reg E) (e_n E) YtY Y (Batch ids) M with
      | Raise x => (s1, Raise x)
      | Ok new =>
          match max_id ids with
          | Raise x => (s1, Raise x)
          | Ok mx =>
              let X1 := grow X mx in
              match scatter X1 ids new with
              | Raise x => (set_X s1 (Some X1), Raise x)
              | Ok X2 => (set_XtX (set_unorm (set_X s1 (Some X2)) None) None, Ok tt)
              end
          end
      end
  | _, _ => (s, Raise AttributeError)
  end.
(** als.py:313-348 [partial_fit_items] *)
Definition partial_fit_items (s : als_state) (ids : list Z) (M : csr T) : als_state * res unit :=
  if negb (length ids =? c_rows M) then (s, Raise ValueError) else
  match sX s, sY s with
  | Some X, Some Y =>
      let XtX := XtX_value s X in
      let s1 := set_XtX s (Some XtX) in
      match recalculate_item (e_posv E) (e_alpha E) (e_reg E) (e_n E) XtX X (Batch ids) M with
      | Raise x => (s1, Raise x)
      | Ok new =>
          match max_id ids with
          | Raise x => (s1, Raise x)
          | Ok mx =>
              let Y1 := grow Y mx in
              match scatter Y1 ids new with
              | Raise x => (set_Y s1 (Some Y1), Raise x)
              | Ok Y2 => (set_YtY (set_inorm (set_Y s1 (Some Y2)) None) None, Ok tt)
              end
          end
      end
  | _, _ => (s, Raise AttributeError)
  end.

(** Histories. *)
Inductive call : Type :=
| CQuery (q : query)
| CFit (user_items : csr T) (X0 Y0 : mat) (callback fit_callback : option (nat -> list query))
| CPartialUsers (ids : list Z) (M : csr T)
| CPartialItems (ids : list Z) (M : csr T).
Definition run_call (s : als_state) (c : call) : als_state :=
  match c with
  | CQuery q => fst (run_query s q)
  | CFit M X0 Y0 cb fc => fst (fst (fit s M X0 Y0 cb fc))
  | CPartialUsers ids M => fst (partial_fit_users s ids M)
  | CPartialItems ids M => fst (partial_fit_items s ids M)
  end.
Definition run (s : als_state) (cs : list call) : als_state := fold_left run_call cs s.
End State.
Arguments als_state : clear implicits.
Arguments env T W : clear implicits.
Arguments query T W : clear implicits.
Arguments call T W : clear implicits.
