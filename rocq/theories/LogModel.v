(** The raft log storage shared by all regions of a store: key and value layout, append,
    truncation, reset, restart, and the per-region cache of log terms.

    Simplifications.  The execution queue runs one mutation after another (log/rocks_log_storage.cc
    303-379); a mutation is one step here, and a write batch of several mutations is several steps.
    RocksDB is a sorted map of byte strings with DeleteRange; failing writes abort the store
    (line 318) and are not modelled.  The index meta records ('M' keys) are kept beside the log
    entries ('D' keys). *)
From Coq Require Import ZArith List Bool.
From Verif Require Import Bytes SMap Outcome.
Import ListNotations.
Open Scope Z_scope.

(** INT64_MAX *)
Definition kMaxIndex : Z := 2 ^ 63 - 1.

(* ------------------------------------------------------------------------------------ *)
(** * Keys and values *)

(** Codec::EncodeKey, log/rocks_log_storage.cc:136-145; WriteLong 92-110 *)
Definition enc_key (r i : Z) : bytes := 68 :: be 8 r ++ be 8 i.

(** Codec::DecodeKey, 147-152; ReadLong 112-130.  Region ids and indexes are not negative. *)
Definition dec_key (k : bytes) : outcome (Z * Z) :=
  if (length k =? 17)%nat then Ok (unbe (firstn 8 (skipn 1 k)), unbe (skipn 9 k)) else Crash.

Definition le (n : nat) (x : Z) : bytes := rev (be n x).
Definition unle (l : bytes) : Z := unbe (rev l).

(** Codec::EncodeValue, 156-174: data, type (memcpy of a 4-byte int), term (memcpy of 8 bytes) on
    a little-endian machine *)
Definition enc_val (ty term : Z) (data : bytes) : bytes := data ++ le 4 ty ++ le 8 term.

(** Codec::DecodeValue, 176-188: aborts unless there is at least one byte of data *)
Definition dec_val (v : bytes) : outcome (Z * Z) :=
  if (12 <? length v)%nat
  then Ok (unle (firstn 4 (skipn (length v - 12) v)), unle (skipn (length v - 8) v))
  else Crash.

(** wal::LogEntry, rocks_log_storage.h:93-100 *)
Record entry := mkE { e_index : Z; e_type : Z; e_term : Z; e_data : bytes }.

(** LogEntryType, rocks_log_storage.h:50-56 *)
Definition tNoOp : Z := 1.
Definition tData : Z := 2.
Definition tConf : Z := 3.

(* ------------------------------------------------------------------------------------ *)
(** * The cache of terms, log/index_term_map.cc: (index, term) of the first entry of every term *)

Definition cache := list (Z * Z).

(** the backward loop, lines 37-43, over the reversed deque *)
Fixpoint scan_back (i : Z) (rc : cache) : Z :=
  match rc with
  | [] => 0
  | (x, t) :: rest => if x <=? i then t else scan_back i rest
  end.

(** std::upper_bound on the deque with Cmp (index_term_map.h:35-37): the position of the first
    element whose index is larger, by halving.  [fuel] bounds the number of halvings. *)
Fixpoint upper_bound (fuel : nat) (i : Z) (c : cache) (first len : nat) : nat :=
  match fuel with
  | O => first
  | S f =>
      match len with
      | O => first
      | _ =>
          let half := Nat.div2 len in
          let mid := (first + half)%nat in
          if i <? fst (nth mid c (0, 0))
          then upper_bound f i c first half
          else upper_bound f i c (S mid) (len - half - 1)
      end
  end.

(** IndexTermMap::GetTerm, lines 29-56 *)
Definition cache_term (c : cache) (i : Z) : Z :=
  match rev c with
  | [] => 0
  | (x, t) :: _ =>
      if x <=? i then t
      else if (length c <? 15)%nat then scan_back i (rev c)
      else match upper_bound (length c) i c 0 (length c) with
           | O => 0
           | S n => snd (nth n c (0, 0))
           end
  end.

(** IndexTermMap::Append, lines 58-75; None is the return value -1 *)
Definition cache_append (c : cache) (i t : Z) : option cache :=
  match rev c with
  | [] => Some [(i, t)]
  | (x, u) :: _ =>
      if (i <=? x) || (t <? u) then None
      else if t =? u then Some c else Some (c ++ [(i, t)])
  end.

(** IndexTermMap::TruncatePrefix, lines 77-93 *)
Fixpoint cache_prefix (c : cache) (keep : Z) : cache :=
  match c with
  | a :: (((x, _) :: _) as rest) => if x <=? keep then cache_prefix rest keep else c
  | _ => c
  end.

(** IndexTermMap::TruncateSuffix, lines 95-99, on the reversed deque *)
Fixpoint pop_back (keep : Z) (rc : cache) : cache :=
  match rc with
  | [] => []
  | (x, t) :: rest => if keep <? x then pop_back keep rest else rc
  end.
Definition cache_suffix (c : cache) (keep : Z) : cache := rev (pop_back keep (rev c)).

(* ------------------------------------------------------------------------------------ *)
(** * The storage *)

(** wal::ClientType, rocks_log_storage.h:43-46 *)
Inductive client := Raft | VectorIndex.
Definition client_eqb (a b : client) : bool :=
  match a, b with Raft, Raft | VectorIndex, VectorIndex => true | _, _ => false end.

(** wal::LogIndexMeta, rocks_log_storage.h:60-64 *)
Record meta := mkM { m_first : Z; m_last : Z; m_trunc : list (client * Z) }.

(** RocksLogStorage and the per-region RocksLogStorageWrapper objects, rocks_log_storage.h:174-317.
    [w_saved] are the 'M' records on disk.  They are written at registration only, so their
    truncation indexes are always 0 (SaveIndexMeta has no other caller, line 684). *)
Record wal := mkWal {
  w_clients : list client;            (* client_types_ *)
  w_cached : bool;                    (* FLAGS_rocks_log_enable_get_term_cache *)
  w_db : smap bytes bytes;
  w_metas : smap Z meta;              (* log_index_metas_ *)
  w_saved : smap Z (list client);
  w_terms : smap Z cache }.           (* index_term_map_ of the region's wrapper *)

Definition with_db w d := mkWal (w_clients w) (w_cached w) d (w_metas w) (w_saved w) (w_terms w).
Definition with_metas w m := mkWal (w_clients w) (w_cached w) (w_db w) m (w_saved w) (w_terms w).
Definition with_terms w t := mkWal (w_clients w) (w_cached w) (w_db w) (w_metas w) (w_saved w) t.

(** rocksdb::WriteBatch::DeleteRange *)
Definition del_range (d : smap bytes bytes) (a b : bytes) : smap bytes bytes :=
  filter (fun e => negb (bleb a (fst e) && bltb (fst e) b)) d.

(** an iterator from start_key while key < end_key, e.g. 1088-1093 *)
Definition in_range (d : smap bytes bytes) (a b : bytes) : smap bytes bytes :=
  filter (fun e => bleb a (fst e) && bltb (fst e) b) d.

(** RocksLogStorage::GetFirstLogIndex, 907-935 *)
Definition db_first (d : smap bytes bytes) (r : Z) : outcome Z :=
  match in_range d (enc_key r 0) (enc_key r kMaxIndex) with
  | [] => Ok 1
  | (k, _) :: _ => olet p := dec_key k in if fst p =? r then Ok (snd p) else Crash
  end.

(** RocksLogStorage::GetLastLogIndex, 937-965 *)
Definition db_last (d : smap bytes bytes) (r : Z) : outcome Z :=
  match rev (in_range d (enc_key r 0) (enc_key r kMaxIndex)) with
  | [] => Ok 0
  | (k, _) :: _ => olet p := dec_key k in if fst p =? r then Ok (snd p) else Crash
  end.

(** the body of the iterator loops of GetEntries 1093-1117, GetConfigurations 1151-1177,
    RegisterIdTermToMap 1203-1218, HasSpecificLog 1322-1356 *)
Fixpoint dec_all (r : Z) (l : smap bytes bytes) : outcome (list entry) :=
  match l with
  | [] => Ok []
  | (k, v) :: rest =>
      olet p := dec_key k in
      if negb (fst p =? r) then Crash
      else
        olet h := dec_val v in
        olet es := dec_all r rest in
        Ok (mkE (snd p) (fst h) (snd h) (firstn (length v - 12) v) :: es)
  end.

(** RocksLogStorage::GetEntries, 1077-1121 *)
Definition get_entries (w : wal) (r a b : Z) : outcome (list entry) :=
  dec_all r (in_range (w_db w) (enc_key r a) (enc_key r b)).

(** RocksLogStorage::GetDataEntries, 1123-1137 *)
Definition get_data_entries (w : wal) (r a b : Z) : outcome (list entry) :=
  olet es := get_entries w r a b in Ok (filter (fun e => e_type e =? tData) es).

(** RocksLogStorage::GetConfigurations, 1139-1183 *)
Definition get_configurations (w : wal) (r : Z) : outcome (list entry) :=
  olet es := get_entries w r 0 kMaxIndex in Ok (filter (fun e => e_type e =? tConf) es).

(** RocksLogStorage::GetEntry, 1050-1075; None is nullptr *)
Definition get_entry (w : wal) (r i : Z) : outcome (option entry) :=
  match get bcmp (w_db w) (enc_key r i) with
  | None => Ok None
  | Some v =>
      olet h := dec_val v in
      Ok (Some (mkE i (fst h) (snd h) (firstn (length v - 12) v)))
  end.

(** RocksLogStorage::FirstLogIndex 881-892, LastLogIndex 894-905 *)
Definition first_index (w : wal) (r : Z) : outcome Z :=
  match get Z.compare (w_metas w) r with None => Crash | Some m => Ok (m_first m) end.
Definition last_index (w : wal) (r : Z) : outcome Z :=
  match get Z.compare (w_metas w) r with None => Crash | Some m => Ok (m_last m) end.

(** RocksLogStorage::GetTerm, 1015-1048 *)
Definition db_term (w : wal) (r i : Z) : outcome Z :=
  match get Z.compare (w_metas w) r with
  | None => Crash
  | Some _ =>
      match get bcmp (w_db w) (enc_key r i) with
      | None => Ok 0
      | Some v => olet h := dec_val v in if 0 <? snd h then Ok (snd h) else Crash
      end
  end.

Definition terms_of (w : wal) (r : Z) : cache :=
  match get Z.compare (w_terms w) r with None => [] | Some c => c end.

(** RocksLogStorageWrapper::get_term, 1478-1488 *)
Definition get_term (w : wal) (r i : Z) : outcome Z :=
  if w_cached w then Ok (cache_term (terms_of w r) i) else db_term w r i.

(* ------------------------------------------------------------------------------------ *)
(** * Changing the log *)

(** RegisterIdTermToMap, 1213-1217: results of Append are ignored *)
Fixpoint build_terms (es : list entry) (c : cache) : cache :=
  match es with
  | [] => c
  | e :: rest =>
      build_terms rest (match cache_append c (e_index e) (e_term e) with Some c' => c' | None => c end)
  end.

(** RocksLogStorageWrapper::init, 1432-1458, with RegisterRegion 664-688 *)
Definition w_init (w : wal) (r : Z) : outcome wal :=
  let w1 :=
    match get Z.compare (w_metas w) r with
    | Some _ => w
    | None =>
        mkWal (w_clients w) (w_cached w) (w_db w)
              (put Z.compare (w_metas w) r (mkM 1 0 (map (fun c => (c, 0)) (w_clients w))))
              (put Z.compare (w_saved w) r (w_clients w)) (w_terms w)
    end in
  olet _ := get_configurations w1 r in
  olet es := get_entries w1 r 0 kMaxIndex in
  Ok (with_terms w1 (put Z.compare (w_terms w1) r (if w_cached w then build_terms es [] else []))).

(** UpdateFirstIndex 491-498, UpdateLastIndex 500-507: abort when the region is unknown *)
Definition upd_meta (w : wal) (r : Z) (f : meta -> meta) : outcome wal :=
  match get Z.compare (w_metas w) r with
  | None => Crash
  | Some m => Ok (with_metas w (put Z.compare (w_metas w) r (f m)))
  end.

Definition put_entry (d : smap bytes bytes) (r : Z) (e : entry) : smap bytes bytes :=
  put bcmp d (enc_key r (e_index e)) (enc_val (e_type e) (e_term e) (e_data e)).

(** entries of other types have no data: EncodeValue reads through a null pointer
    (ToLogEntry, 1361-1380) *)
Definition has_data (e : entry) : bool :=
  (e_type e =? tNoOp) || (e_type e =? tData) || (e_type e =? tConf).

Fixpoint cache_all (c : cache) (es : list entry) : outcome cache :=
  match es with
  | [] => Ok c
  | e :: rest =>
      match cache_append c (e_index e) (e_term e) with
      | None => Crash                       (* DINGO_LOG(FATAL), 1541-1546 *)
      | Some c' => cache_all c' rest
      end
  end.

(** RocksLogStorageWrapper::append_entries, 1517-1569 (append_entry 1490-1515 is the case of one
    entry), AppendToWriteBatch 711-722, AdjustIndexMeta 796-800 *)
Definition w_append (w : wal) (r : Z) (es : list entry) : outcome wal :=
  if negb (forallb has_data es) then Crash
  else
    match rev es with
    | [] => Crash                           (* log_entries.back() of an empty vector *)
    | e :: _ =>
        let w1 := with_db w (fold_left (fun d x => put_entry d r x) es (w_db w)) in
        olet w2 := upd_meta w1 r (fun m => mkM (m_first m) (e_index e) (m_trunc m)) in
        if w_cached w then
          olet c := cache_all (terms_of w r) es in
          Ok (with_terms w2 (put Z.compare (w_terms w2) r c))
        else Ok w2
    end.

(** the loop over truncate_prefixs, 1247-1260: None when it returns early *)
Fixpoint trunc_loop (c : client) (keep : Z) (ts : list (client * Z)) (mn : Z)
  : option (list (client * Z) * Z) :=
  match ts with
  | [] => Some ([], mn)
  | (c', k) :: rest =>
      if client_eqb c' c then
        if keep <=? k then None
        else match trunc_loop c keep rest (Z.min mn keep) with
             | None => None
             | Some (ts', m) => Some ((c', keep) :: ts', m)
             end
      else match trunc_loop c keep rest (Z.min mn k) with
           | None => None
           | Some (ts', m) => Some ((c', k) :: ts', m)
           end
  end.

(** RocksLogStorage::TruncatePrefix, 1228-1278, and AdjustIndexMeta 802-818.  A client type is
    registered once, so an early return leaves truncate_prefixs as it was. *)
Definition truncate_prefix (w : wal) (c : client) (r keep : Z) : outcome wal :=
  match get Z.compare (w_metas w) r with
  | None => Crash
  | Some m =>
      if keep <=? m_first m then Ok w
      else match trunc_loop c keep (m_trunc m) kMaxIndex with
      | None => Ok w
      | Some (ts, mn) =>
          olet w1 := upd_meta w r (fun m => mkM (m_first m) (m_last m) ts) in
          if (mn =? kMaxIndex) || (mn <=? m_first m) then Ok w1
          else
            let w2 := with_db w1 (del_range (w_db w1) (enc_key r 0) (enc_key r mn)) in
            if m_first m <? mn
            then upd_meta w2 r (fun m => mkM mn (if m_last m <? mn then mn - 1 else m_last m) (m_trunc m))
            else Ok w2
      end
  end.

(** RocksLogStorageWrapper::truncate_prefix, 1572-1583 *)
Definition w_prefix (w : wal) (r keep : Z) : outcome wal :=
  olet w1 := truncate_prefix w Raft r keep in
  if w_cached w
  then Ok (with_terms w1 (put Z.compare (w_terms w1) r (cache_prefix (terms_of w1 r) keep)))
  else Ok w1.

(** RocksLogStorage::TruncateSuffix 1281-1308, AdjustIndexMeta 820-836, and the wrapper's
    truncate_suffix 1586-1597.  The flag is false for the return value -1. *)
Definition w_suffix (w : wal) (r keep : Z) : outcome (wal * bool) :=
  match get Z.compare (w_metas w) r with
  | None => Crash
  | Some m =>
      if m_last m <? keep then Ok (w, false)
      else
        olet w1 :=
          (if keep =? m_last m then Ok w
           else
             let w2 := with_db w (del_range (w_db w) (enc_key r (keep + 1)) (enc_key r kMaxIndex)) in
             if keep + 1 <=? m_last m
             then upd_meta w2 r (fun m => mkM (if keep + 1 <=? m_first m then keep + 1 else m_first m)
                                              keep (m_trunc m))
             else Ok w2) in
        if w_cached w
        then Ok (with_terms w1 (put Z.compare (w_terms w1) r (cache_suffix (terms_of w1 r) keep)), true)
        else Ok (w1, true)
  end.

(** RocksLogStorageWrapper::reset 1599-1616, AppendToWriteBatch 736-746, ResetFirstAndLastIndex
    533-545 *)
Definition w_reset (w : wal) (r next : Z) : outcome wal :=
  let w1 := with_db w (del_range (w_db w) (enc_key r 0) (enc_key r kMaxIndex)) in
  olet w2 := upd_meta w1 r (fun m => mkM next (next - 1) (map (fun x => (fst x, 0)) (m_trunc m))) in
  if w_cached w then Ok (with_terms w2 (put Z.compare (w_terms w2) r [])) else Ok w2.

(** RocksLogStorage::DestroyRegionLog 1310-1323, AppendToWriteBatch 736-746, DeleteIndexMeta
    479-483.  The wrapper object goes away with its region. *)
Definition w_destroy (w : wal) (r : Z) : wal :=
  mkWal (w_clients w) (w_cached w) (del_range (w_db w) (enc_key r 0) (enc_key r kMaxIndex))
        (del Z.compare (w_metas w) r) (w_saved w) (del Z.compare (w_terms w) r).

(** InitIndexMeta, 547-588, after a restart: what is in memory is built from the disk.  The
    wrappers are created by [w_init] afterwards. *)
Fixpoint load_metas (d : smap bytes bytes) (saved : smap Z (list client)) : outcome (smap Z meta) :=
  match saved with
  | [] => Ok []
  | (r, cs) :: rest =>
      olet f := db_first d r in
      olet l := db_last d r in
      olet ms := load_metas d rest in
      Ok ((r, mkM f l (map (fun c => (c, 0)) cs)) :: ms)
  end.

Definition w_restart (w : wal) : outcome wal :=
  olet ms := load_metas (w_db w) (w_saved w) in
  Ok (mkWal (w_clients w) (w_cached w) (w_db w) ms (w_saved w) []).

(** one call from outside.  [LPrefix Raft] is raft's call through the wrapper, other clients call
    the storage itself (handler/raft_vote_handler.cc:57,99,110,
    vector/vector_index_snapshot_manager.cc:788). *)
Inductive lop :=
| LInit (r : Z)
| LAppend (r : Z) (es : list entry)
| LPrefix (c : client) (r keep : Z)
| LSuffix (r keep : Z)
| LReset (r next : Z)
| LDestroy (r : Z)
| LRestart.

Definition lstep (w : wal) (o : lop) : outcome wal :=
  match o with
  | LInit r => w_init w r
  | LAppend r es => w_append w r es
  | LPrefix Raft r keep => w_prefix w r keep
  | LPrefix c r keep => truncate_prefix w c r keep
  | LSuffix r keep => olet p := w_suffix w r keep in Ok (fst p)
  | LReset r next => w_reset w r next
  | LDestroy r => Ok (w_destroy w r)
  | LRestart => w_restart w
  end.

Fixpoint lrun (w : wal) (os : list lop) : outcome wal :=
  match os with
  | [] => Ok w
  | o :: rest => olet w1 := lstep w o in lrun w1 rest
  end.

(** server/server.cc:478-486: raft is always a client, the vector index on index nodes only *)
Definition wal_init (clients : list client) (cached : bool) : wal :=
  mkWal clients cached [] [] [] [].
