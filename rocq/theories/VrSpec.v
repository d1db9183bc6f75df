(** What the reads of a vector region have to return. *)
From Coq Require Import ZArith List Bool Sorted.
From Verif Require Import Bytes Outcome CodecModel CodecSpec MvccSpec VqModel VqSpec VrModel.
Import ListNotations.
Open Scope Z_scope.

(** ** the vectors a region holds, from the history of its writes alone *)

(** a write, as one line per vector in the order of the writes: id, timestamp, and the vector
    with its expiry time (0: none) or [None] for a delete *)
Definition event : Type := Z * Z * option (Z * vec).
Definition events_of (o : op) : list event :=
  match o with
  | OAdd ts ttl vs => map (fun v => (v_id v, ts, Some (ttl, v))) vs
  | ODel ts ids => map (fun i => (i, ts, None)) ids
  end.
Definition events (h : list op) : list event := flat_map events_of h.

(** the last event about [id] with timestamp [t] *)
Definition last_at (h : list op) (id t : Z) (x : option (Z * vec)) : Prop :=
  exists before after, events h = before ++ (id, t, x) :: after /\
    forall y, ~ In (id, t, y) after.

(** at read timestamp [ts] and clock [now] the region holds [v] under [id]: the newest event about
    [id] at or below the read timestamp is an add of [v] that has not expired *)
Definition stored (h : list op) (ts now id : Z) (v : vec) : Prop :=
  exists t ttl, t <= effective_ts ts /\ last_at h id t (Some (ttl, v)) /\ (ttl = 0 \/ now <= ttl) /\
    forall t' x, last_at h id t' x -> t' <= effective_ts ts -> t' <= t.

(** ** what the index service lets through *)

(** protobuf: what is serialized can be parsed again *)
Definition wire_ok (W : wire) : Prop :=
  (forall d, par_vec W (ser_vec W d) = Some d) /\ (forall m, par_map W (ser_map W m) = Some m) /\
  (forall b, par_tab W (ser_tab W b) = Some b) /\ (forall v, par_val W (ser_val W v) = Some v).

(** ids are legal (VectorCodec::IsLegalVectorId), attributes fit the schema; a vector with an
    expiry time has attributes and table data (see C75_ttl_refuted for what happens otherwise) *)
Definition vec_ok (W : wire) (s : schema) (ttl : Z) (v : vec) : Prop :=
  1 <= v_id v < 2 ^ 63 - 1 /\ valid_scalars s (v_scalar v) = true /\
  (ttl <> 0 -> ser_vec W (v_data v) <> [] /\ ser_map W (v_scalar v) <> [] /\ ser_tab W (v_table v) <> [] /\
               forall k x, In (k, x) (v_scalar v) -> ser_val W x <> []).
Definition op_ok (W : wire) (s : schema) (o : op) : Prop :=
  match o with
  | OAdd ts ttl vs => ts_ok ts /\ 0 <= ttl < 2 ^ 63 /\ Forall (vec_ok W s ttl) vs
  | ODel ts ids => ts_ok ts /\ Forall (fun i => 1 <= i < 2 ^ 63 - 1) ids
  end.

(** attribute names of the schema are non-empty byte strings, each listed once
    (VectorIndexUtils::ValidateScalarSchema) *)
Definition schema_ok (s : schema) : Prop :=
  NoDup (map f_key s) /\ forall f, In f s -> f_key f <> [] /\ bytes_ok (f_key f).

(** the region with key prefix [p] and partition [a] that serves the ids [l .. h-1]: its start key
    is (p, a) or (p, a, l), its end key (p, a, h) or the start of a later partition *)
Definition serves (g : region) (p a l h : Z) : Prop :=
  comp_ok p a 0 /\ g_part g = a /\
  (package_key2 p a = Ok (g_start g) /\ l = 0 \/ package_key3 p a l = Ok (g_start g) /\ 0 <= l < 2 ^ 63) /\
  (package_key3 p a h = Ok (g_end g) /\ 0 < h < 2 ^ 63 \/
   exists a', a < a' < 2 ^ 63 /\ package_key2 p a' = Ok (g_end g) /\ h = 2 ^ 63 - 1).

(** ** attribute filters *)

Definition kind_of (t : ftype) (f : field) : Prop :=
  match t, f with
  | TBool, FBool _ | TInt8, FInt _ | TInt16, FInt _ | TInt32, FInt _ | TInt64, FLong _ | TFloat, FFloat _
  | TDouble, FDouble _ | TString, FString _ | TBytes, FBytes _ => True
  | _, _ => False
  end.
(** a value whose fields are of its declared type; there is none for the types NONE and DATETIME *)
Definition well_typed (x : sval) : Prop :=
  s_type x <> TNone /\ s_type x <> TDatetime /\ Forall (kind_of (s_type x)) (s_fields x).
Definition all_typed (m : scalars) : Prop := forall k x, In (k, x) m -> well_typed x.

(** all attribute values ever written are of their declared types *)
Definition typed_history (h : list op) : Prop :=
  forall ts ttl vs v, In (OAdd ts ttl vs) h -> In v vs -> all_typed (v_scalar v).

(** every attribute named by the filter is present with that very value *)
Definition matches (flt m : scalars) : Prop :=
  forall k x, In (k, x) flt -> lookup k m = Some x.

(** ** scans *)

(** [ids] are all the ids the scan is about: the stored ones in the region, from the start id on (in
    the direction of the scan) to the end id (0: no end), that pass the filter *)
Definition in_scan (h : list op) (lo hi now : Z) (q : scanq) (i : Z) : Prop :=
  lo <= i < hi /\
  (if q_back q then i <= q_start q /\ (q_end q = 0 \/ q_end q <= i)
   else q_start q <= i /\ (q_end q = 0 \/ i <= q_end q)) /\
  exists v, stored h (q_ts q) now i v /\
            match q_filter q with None => True | Some flt => matches flt (v_scalar v) end.
Definition scan_order (back : bool) (ids : list Z) : Prop :=
  StronglySorted (fun x y => if back : bool then y < x else x < y) ids.

(** the parts of a stored vector the request asks for *)
Definition pick {A} (b : bool) (x : A) : option A := if b then Some x else None.
Definition shown (w : want) (i : Z) (v : vec) : out :=
  {| o_id := i;
     o_data := pick (w_data w) (v_data v);
     o_scalar := pick (w_scalar w)
       (filter (fun kv => match w_keys w with [] => true | ks => existsb (beqb (fst kv)) ks end) (v_scalar v));
     o_table := pick (w_table w) (v_table v) |}.
Definition answers (h : list op) (ts now : Z) (w : want) (i : Z) (o : option out) : Prop :=
  (exists v, stored h ts now i v /\ o = Some (shown w i v)) \/
  ((forall v, ~ stored h ts now i v) /\ o = None).

(** ** searches *)

(** the vectors of the region right now, each once, with their distances to the query *)
Definition candidates (h : list op) (lo hi now : Z) (dist : list Z -> Z) (ok : Z -> vec -> Prop) (l : list hit) : Prop :=
  NoDup (map fst l) /\
  forall i d, In (i, d) l <-> lo <= i < hi /\ exists v, stored h 0 now i v /\ ok i v /\ d = dist (v_data v).

(** the flat index answers with the k nearest of the vectors given to it that pass the filter *)
Definition flat_ok (dist : list Z -> list Z -> Z) (flat : flat_search) : Prop :=
  forall batch q keep k,
    the_nearest k (map (fun x => (fst x, dist q (snd x))) (filter (fun x => keep (fst x)) batch)) (flat batch q keep k).

(** a search over [qs] answers every query with the [k] nearest of the vectors the region holds that
    satisfy [ok]; a region that holds nothing is answered with an empty list of results *)
Definition search_answers (h : list op) (lo hi now : Z) (dist : list Z -> list Z -> Z) (ok : Z -> vec -> Prop)
  (k : nat) (qs : list (list Z)) (rs : list (list hit)) : Prop :=
  rs = [] /\ (forall i v, lo <= i < hi -> ~ stored h 0 now i v) \/
  Forall2 (fun q r => exists l, candidates h lo hi now (dist q) ok l /\ the_nearest k l r) qs rs.

(** the same for a search that filters by attributes after the search: an answer of [k] vectors is
    right, and so is every answer when the region holds at most [10 * k] vectors *)
Definition post_answers (h : list op) (lo hi now : Z) (dist : list Z -> list Z -> Z) (flt : scalars)
  (k : nat) (qs : list (list Z)) (rs : list (list hit)) : Prop :=
  rs = [] /\ (forall i v, lo <= i < hi -> ~ stored h 0 now i v) \/
  Forall2 (fun q r => exists all l,
    candidates h lo hi now (dist q) (fun _ _ => True) all /\
    candidates h lo hi now (dist q) (fun _ v => matches flt (v_scalar v)) l /\
    nearest_first r /\ (length r <= k)%nat /\ NoDup (map fst r) /\ (forall x, In x r -> In x l) /\
    (length r = k \/ (length all <= 10 * k)%nat -> the_nearest k l r)) qs rs.

(** [c] is the store of a region for the ids [lo .. hi-1] after the writes [h] *)
Definition region_state (W : wire) (g : region) (lo hi : Z) (h : list op) (c : cfs) : Prop :=
  wire_ok W /\ schema_ok (g_schema g) /\ (exists p a, serves g p a lo hi) /\
  Forall (op_ok W (g_schema g)) h /\ apply_ops W g h = Ok c.
