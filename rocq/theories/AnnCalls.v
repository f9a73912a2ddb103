(** Model of the constructors of the approximate wrappers and of what their fit asks of the
    index libraries (implicit/ann/annoy.py:46-93, nmslib.py:46-112, faiss.py:51-130),
    after the wrapped model is trained.  The libraries are objects with the calls used
    here; what they answer to queries is an argument.  float32 casts, logging and
    progress bars are not modelled. *)
From Coq Require Import String List Arith Lia Bool ZArith.
From Verif Require Import Base Num Heap Sparse TopkModel RecommendModel KnnModel AnnModel.
Import ListNotations.
Local Open Scope list_scope.

Section Calls.
Context {T : Type} `{Num T}.
Local Notation vec := (list T).
Variable E : @ann_env T.

Definition params : Type := list (string * Z).

(* ------------------------------------------------------------------ Annoy *)
(** annoy.AnnoyIndex(f, metric): items added so far; number of trees once built. *)
Record annoy_index : Type := { an_dim : nat; an_metric : string; an_items : list (Z * vec); an_trees : option Z }.
Definition annoy_new (dim : nat) (metric : string) : annoy_index := {| an_dim := dim; an_metric := metric; an_items := []; an_trees := None |}.
(** add_item: refused once the index is built; the vector has to have the dimension given. *)
Definition annoy_add (x : annoy_index) (i : Z) (row : vec) : res annoy_index :=
  match an_trees x with
  | Some _ => Raise RuntimeError
  | None => if length row =? an_dim x then Ok {| an_dim := an_dim x; an_metric := an_metric x; an_items := an_items x ++ [(i, row)]; an_trees := None |}
            else Raise IndexError
  end.
(** build(n_trees): refused once the index is built. *)
Definition annoy_build (x : annoy_index) (n : Z) : res annoy_index :=
  match an_trees x with
  | Some _ => Raise RuntimeError
  | None => Ok {| an_dim := an_dim x; an_metric := an_metric x; an_items := an_items x; an_trees := Some n |}
  end.
(** annoy.py:46-64 *)
Record annoy_opts : Type := { ao_sim : bool; ao_rec : bool; ao_trees : Z; ao_search_k : Z }.
(** annoy.py:79-82 = 89-92: a new index with all rows, numbered by [enumerate]. *)
Definition annoy_index_of (o : annoy_opts) (dim : nat) (rows : list vec) : res annoy_index :=
  do x <- fold_res (fun x p => annoy_add x (Z.of_nat (fst p)) (snd p)) (enum rows) (annoy_new dim "angular");
  annoy_build x (ao_trees o).
(** annoy.py:66-93 after training; [f] is [item_factors.shape[1]]. *)
Definition annoy_fit_calls (o : annoy_opts) (f : nat) (item_factors : list vec) : res (option annoy_index * option annoy_index) :=
  do sim <- (if ao_sim o then do x <- annoy_index_of o f item_factors; Ok (Some x) else Ok None);
  do rc <- (if ao_rec o then
              do ' (_, extra) <- augment_inner_product_matrix E item_factors;
              do x <- annoy_index_of o (S f) extra; Ok (Some x)
            else Ok None);
  Ok (sim, rc).
(** The library's answer to get_nns_by_vector(vector, n, search_k, include_distances=True). *)
Variable annoy_nns : annoy_index -> vec -> nat -> Z -> list (Z * T).
(** annoy.py:141-143, 224-226: the queries of the wrapper. *)
Definition annoy_ask (o : annoy_opts) (x : annoy_index) : vec -> nat -> list (Z * T) := fun v n => annoy_nns x v n (ao_search_k o).

(* ------------------------------------------------------------------ NMSLib *)
(** nmslib.init(method, space): data added so far, parameters of createIndex and
    setQueryTimeParams once called. *)
Record nms_index : Type := { nm_method : string; nm_space : string; nm_points : list (Z * vec); nm_built : option params; nm_query : option params }.
Definition nms_new (method space : string) : nms_index := {| nm_method := method; nm_space := space; nm_points := []; nm_built := None; nm_query := None |}.
Definition nms_add (x : nms_index) (pts : list (Z * vec)) : nms_index :=
  {| nm_method := nm_method x; nm_space := nm_space x; nm_points := nm_points x ++ pts; nm_built := nm_built x; nm_query := nm_query x |}.
Definition nms_create (x : nms_index) (p : params) : nms_index :=
  {| nm_method := nm_method x; nm_space := nm_space x; nm_points := nm_points x; nm_built := Some p; nm_query := nm_query x |}.
(** Query parameters set before createIndex are lost: refused here. *)
Definition nms_set_query (x : nms_index) (p : params) : res nms_index :=
  match nm_built x with
  | None => Raise RuntimeError
  | Some _ => Ok {| nm_method := nm_method x; nm_space := nm_space x; nm_points := nm_points x; nm_built := nm_built x; nm_query := Some p |}
  end.
(** nmslib.py:46-72: the attributes; parameters that are None get defaults. *)
Record nms_opts : Type := { no_sim : bool; no_rec : bool; no_method : string; no_index : params; no_query : params }.
Definition nms_init (asim arec : bool) (method : string) (index_params query_params : option params) : nms_opts :=
  {| no_sim := asim; no_rec := arec; no_method := method;
     no_index := match index_params with Some p => p | None => [("M"%string, 16%Z); ("post"%string, 0%Z); ("efConstruction"%string, 400%Z)] end;
     no_query := match query_params with Some p => p | None => [("ef"%string, 90%Z)] end |}.
(** nmslib.py:74-112 after training *)
Definition nms_fit_calls (o : nms_opts) (item_factors : list vec) : res (option nms_index * option nms_index) :=
  do sim <- (if no_sim o then
               let x := nms_new (no_method o) "cosinesimil" in
               let x := nms_add x (filter (fun p => negb (neqb (ae_norm E (snd p)) nzero)) (numbered item_factors)) in
               let x := nms_create x (no_index o) in
               do x <- nms_set_query x (no_query o); Ok (Some x)
             else Ok None);
  do rc <- (if no_rec o then
              do ' (_, extra) <- augment_inner_product_matrix E item_factors;
              let x := nms_new "hnsw" "cosinesimil" in
              let x := nms_add x (numbered extra) in
              let x := nms_create x (no_index o) in
              do x <- nms_set_query x (no_query o); Ok (Some x)
            else Ok None);
  Ok (sim, rc).

(* ------------------------------------------------------------------ Faiss *)
(** The clustering of faiss: centroids of [nlist] cells. *)
Variable kmeans : nat -> list vec -> list vec.
(** faiss.IndexFlat as quantizer: the centroids added to it. *)
Definition quantizer : Type := list vec.
(** An inverted file index: its cells, its data, and nprobe. *)
Record ivf : Type := { iv_gpu : bool; iv_dim : nat; iv_nlist : nat; iv_cells : list vec; iv_data : list vec; iv_nprobe : nat }.
(** index.train: a quantizer that holds nlist centroids is left as it is; otherwise the
    rows are clustered, which needs at least nlist of them (RuntimeError). *)
Definition ivf_train (q : quantizer) (nlist : nat) (rows : list vec) : res quantizer :=
  if length q =? nlist then Ok q
  else if length rows <? nlist then Raise RuntimeError
  else Ok (kmeans nlist rows).
(** faiss.py:51-74 *)
Record faiss_opts : Type := { fo_sim : bool; fo_rec : bool; fo_nlist : nat; fo_nprobe : nat; fo_gpu : bool }.
(** faiss.py:93-106 = 118-129: the CPU index uses the quantizer it is given, the GPU index
    has its own; returns the index and the quantizer given, afterwards. *)
Definition ivf_of (o : faiss_opts) (f : nat) (q : quantizer) (rows : list vec) : res (ivf * quantizer) :=
  do c <- ivf_train (if fo_gpu o then [] else q) (fo_nlist o) rows;
  Ok ({| iv_gpu := fo_gpu o; iv_dim := f; iv_nlist := fo_nlist o; iv_cells := c; iv_data := rows; iv_nprobe := fo_nprobe o |},
      if fo_gpu o then q else c).
(** faiss.py:113-116 *)
Definition unit_rows (rows : list vec) : list vec := map (fun r => map (fun x => ndiv x (safe_norm (ae_norm E) (ae_tiny E) r)) r) rows.
(** faiss.py:76-130 after training: one quantizer for both indices; recommend's first. *)
Definition faiss_fit_calls (o : faiss_opts) (f : nat) (item_factors : list vec) : res (option ivf * option ivf) :=
  do ' (rc, q) <- (if fo_rec o then do ' (x, q) <- ivf_of o f [] item_factors; Ok (Some x, q) else Ok (None, []));
  do ' (sim, q) <- (if fo_sim o then do ' (x, q) <- ivf_of o f q (unit_rows item_factors); Ok (Some x, q) else Ok (None, q));
  Ok (sim, rc).
End Calls.
