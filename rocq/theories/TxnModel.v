(** Model of the write side of the transaction engine: one region of a store.
    Source: src/engine/txn_engine_helper.cc (class TxnReader and the static functions of
    TxnEngineHelper), src/handler/raft_apply_handler_txn.cc, src/server/store_service.cc.

    Simplifications, valid for the whole file:
    - the three column families are maps: locks by user key, write records and data by
      (user key, timestamp) ordered by key ascending and timestamp descending; C02 is what
      justifies replacing encoded byte keys by such pairs;
    - a protobuf message is a record; parsing what was serialised gives it back;
    - a request runs alone on its keys (store_service.cc takes latches around every call;
      C30/C31 are about latches), so a handler is a function of the store;
    - a handler returns its response and the list of raft log entries it proposes; each entry
      is one engine write batch, applied atomically (raft_apply_handler_txn.cc:78-100 with
      rocks_raw_engine.cc:595-654); a crash can keep any prefix of the list;
    - region epoch / key range validation and vector or document side indexes are left out;
    - tracker, metrics and logging are left out. *)
From Coq Require Import ZArith List Bool.
From Verif Require Import Bytes SMap Outcome.
Import ListNotations.
Open Scope Z_scope.

(** pb::store::Op (proto/store.proto) *)
Inductive op := OpNone | OpPut | OpDelete | OpPutIfAbsent | OpRollback | OpLock | OpCheckNotExists.

Definition op_eqb (a b : op) : bool :=
  match a, b with
  | OpNone, OpNone | OpPut, OpPut | OpDelete, OpDelete | OpPutIfAbsent, OpPutIfAbsent
  | OpRollback, OpRollback | OpLock, OpLock | OpCheckNotExists, OpCheckNotExists => true
  | _, _ => false
  end.

(** pb::store::LockInfo (proto/store.proto) *)
Record lock := mkLock {
  l_primary : bytes;
  l_ts : Z;              (* lock_ts: start_ts of the owner *)
  l_fut : Z;             (* for_update_ts, 0 for an optimistic lock *)
  l_key : bytes;
  l_ttl : Z;             (* absolute time in ms *)
  l_size : Z;
  l_type : op;
  l_short : bytes;
  l_extra : bytes;
  l_minc : Z;            (* min_commit_ts *)
  l_async : bool;
  l_secs : list bytes }.

(** pb::store::WriteInfo (proto/store.proto) *)
Record wrec := mkW { w_start : Z; w_op : op; w_short : bytes }.

(** a default constructed LockInfo: what GetLockInfo leaves when the key has no lock *)
Definition no_lock : lock := mkLock [] 0 0 [] 0 0 OpNone [] [] 0 false [].

(** order of the write and data column families: key ascending, timestamp descending
    (mvcc/codec.cc EncodeKey) *)
Definition vcmp (a b : bytes * Z) : comparison :=
  match bcmp (fst a) (fst b) with
  | Eq => Z.compare (snd b) (snd a)
  | c => c
  end.

Record store := mkStore {
  locks : smap bytes lock;
  writes : smap (bytes * Z) wrec;
  datas : smap (bytes * Z) bytes }.

Definition empty_store : store := mkStore [] [] [].

(** one put or delete inside a write batch *)
Inductive wop :=
| PutLock (k : bytes) (l : lock)
| PutWrite (k : bytes) (ts : Z) (w : wrec)
| PutData (k : bytes) (ts : Z) (v : bytes)
| DelLock (k : bytes)
| DelWrite (k : bytes) (ts : Z)
| DelData (k : bytes) (ts : Z).

Definition apply_wop (s : store) (o : wop) : store :=
  match o with
  | PutLock k l => mkStore (put bcmp (locks s) k l) (writes s) (datas s)
  | PutWrite k t w => mkStore (locks s) (put vcmp (writes s) (k, t) w) (datas s)
  | PutData k t v => mkStore (locks s) (writes s) (put vcmp (datas s) (k, t) v)
  | DelLock k => mkStore (del bcmp (locks s) k) (writes s) (datas s)
  | DelWrite k t => mkStore (locks s) (del vcmp (writes s) (k, t)) (datas s)
  | DelData k t => mkStore (locks s) (writes s) (del vcmp (datas s) (k, t))
  end.

(** rocks_raw_engine.cc:595-654 Writer::KvBatchPutAndDelete: all puts, then all deletes, in one
    rocksdb::WriteBatch.  The lists built below have the puts first. *)
Definition batch := list wop.
Definition apply_batch (s : store) (b : batch) : store := fold_left apply_wop b s.
Definition apply_batches (s : store) (bs : list batch) : store := fold_left apply_batch bs s.

(** txn_engine_helper.cc:64-72 gflags, and the two flags of common/stream.cc:32-34 that bound a
    lock scan (the byte bound is left out) *)
Record cfg := mkCfg {
  max_short_value : Z;
  max_prewrite_count : Z;
  max_commit_count : Z;
  max_rollback_count : Z;
  max_resolve_count : Z;
  max_pessimistic_count : Z;
  scan_lock_limit : Z;
  gc_batch_count : Z }.

Definition default_cfg : cfg := mkCfg 256 4096 4096 4096 4096 4096 40960 32768.

Definition kMaxVer : Z := 2 ^ 63 - 1.   (* common/constant.h:215 *)

(* ------------------------------------------------------------------------------------ *)
(** * TxnReader *)

(** TxnReader::GetLockInfo, txn_engine_helper.cc:131-169 *)
Definition get_lock (s : store) (k : bytes) : lock :=
  match get bcmp (locks s) k with Some l => l | None => no_lock end.

(** "the key has a lock" is tested in the code as !lock_info.primary_lock().empty() *)
Definition has_lock (l : lock) : bool := negb (beqb (l_primary l) []).

(** the filter of TxnReader::GetWriteInfo, txn_engine_helper.cc:204-282; the iterator visits the
    versions of [key] with min < ts <= max, newest first *)
Definition gwi_match (min max start : Z) (key : bytes) (rb dl pt : bool)
           (e : bytes * Z * wrec) : bool :=
  let '((k, ts), w) := e in
  beqb k key && (min <? ts) && (ts <=? max) &&
  ((start <=? 0) || (w_start w =? start)) &&
  match w_op w with
  | OpRollback => rb
  | OpDelete => dl
  | OpPut => pt
  | _ => false
  end.

(** TxnReader::GetWriteInfo, txn_engine_helper.cc:204-282: commit ts and record of the first
    match.  When there is none the caller's write_info stays default and commit_ts stays 0. *)
Definition get_write_info (s : store) (min max start : Z) (key : bytes) (rb dl pt : bool)
  : option (Z * wrec) :=
  match find (gwi_match min max start key rb dl pt) (writes s) with
  | Some ((_, ts), w) => Some (ts, w)
  | None => None
  end.

Definition found_ts (o : option (Z * wrec)) : Z := match o with Some (t, _) => t | None => 0 end.
Definition found_op (o : option (Z * wrec)) : op :=
  match o with Some (_, w) => w_op w | None => OpNone end.
Definition found_start (o : option (Z * wrec)) : Z :=
  match o with Some (_, w) => w_start w | None => 0 end.

(** TxnReader::CheckCommittedRecord, txn_engine_helper.cc:284-332: the newest record of [key]
    with ts >= start_ts written by start_ts; a rollback ends the search *)
Definition check_committed (s : store) (start : Z) (key : bytes) : option Z :=
  match find (fun e => let '((k, ts), w) := e in
                       beqb k key && (start <=? ts) && (w_start w =? start)) (writes s) with
  | Some ((_, ts), w) => if op_eqb (w_op w) OpRollback then None else Some ts
  | None => None
  end.

(** TxnReader::GetRollbackInfo, txn_engine_helper.cc:333-384.  The EINTERNAL branch (a record of
    start_ts itself at (key, start_ts) that is no rollback) makes every caller LOG(FATAL). *)
Definition get_rollback (s : store) (start : Z) (key : bytes) : outcome bool :=
  match get vcmp (writes s) (key, start) with
  | None => Ok false
  | Some w =>
      if negb (w_start w =? start) then Ok false
      else if op_eqb (w_op w) OpRollback then Ok true else Crash
  end.

(** the value of a Put record: TxnReader::GetOldValue / GetDataValue,
    txn_engine_helper.cc:171-202, 386-444 *)
Definition put_value (s : store) (key : bytes) (w : wrec) : bytes :=
  if negb (beqb (w_short w) []) then w_short w
  else match get vcmp (datas s) (key, w_start w) with Some v => v | None => [] end.

(** TxnReader::GetOldValue with prev_write_load = true, txn_engine_helper.cc:386-444 *)
Definition old_value_of (s : store) (key : bytes) (o : option (Z * wrec)) : bytes * bytes :=
  match o with
  | Some (_, w) => if op_eqb (w_op w) OpPut then (key, put_value s key w) else (key, [])
  | None => (key, [])
  end.

(* ------------------------------------------------------------------------------------ *)
(** * Requests and responses *)

Record mutation := mkMut { m_op : op; m_key : bytes; m_value : bytes }.

(** pb::store::TxnPrewriteRequest; [secondaries] is what DoTxnPrewrite passes on: empty unless
    use_async_commit is set (store_service.cc:2259-2265).  The two index maps are std::map. *)
Record prewrite_req := mkPW {
  pw_start : Z;
  pw_primary : bytes;
  pw_muts : list mutation;
  pw_ttl : Z;
  pw_size : Z;
  pw_try1 : bool;
  pw_minc : Z;
  pw_maxc : Z;
  pw_checks : list Z;
  pw_futs : list (Z * Z);
  pw_extra : list (Z * bytes);
  pw_secs : list bytes }.

Record pess_req := mkPess {
  pl_start : Z; pl_primary : bytes; pl_muts : list mutation; pl_ttl : Z; pl_fut : Z; pl_ret : bool }.

Inductive req :=
| RPrewrite (p : prewrite_req)
| RCommit (start commit : Z) (keys : list bytes)
| RBatchRollback (start : Z) (keys : list bytes)
| RPessLock (p : pess_req)
| RPessRollback (start fut : Z) (keys : list bytes)
| RCheckStatus (primary : bytes) (lock_ts caller current : Z) (force_sync rb_if_missing : bool)
| RCheckSecondary (start : Z) (keys : list bytes)
| RResolve (start commit : Z) (keys : list bytes) (txns : list (Z * Z))
| RHeartBeat (primary : bytes) (start advise : Z).

Inductive errno := EILLEGAL | EKEY_EMPTY | EVALUE_EMPTY | EINTERNAL.
Inductive reason := SelfRolledBack | OptimisticConflict | PessimisticRetry.

(** pb::store::TxnResultInfo *)
Inductive txn_result :=
| TLocked (l : lock)
| TConflict (r : reason) (start conflict : Z) (key : bytes)
| TNotFound (start : Z) (key : bytes)
| TExpired (start attempted : Z) (key : bytes) (minc : Z)
| TPrimaryMismatch (l : lock).

Inductive action := ANone | ANoAction | AMinCommitPushed | ATTLExpireRollback
                  | ALockNotExistRollback | ALockNotExistDoNothing.

Record resp := mkResp {
  r_err : option errno;
  r_res : list txn_result;
  r_exist : list bytes;       (* keys_already_exist *)
  r_minc : Z;                 (* min_commit_ts *)
  r_1pc : Z;                  (* one_pc_commit_ts *)
  r_ttl : Z;
  r_commit : Z;
  r_action : action;
  r_locks : list lock;
  r_kvs : list (bytes * bytes) }.

Definition resp0 : resp := mkResp None [] [] 0 0 0 0 ANone [] [].
Definition rerr (e : errno) : resp := mkResp (Some e) [] [] 0 0 0 0 ANone [] [].
Definition rres (l : list txn_result) : resp := mkResp None l [] 0 0 0 0 ANone [] [].

Definition result := outcome (resp * list batch).
Definition reply (r : resp) : result := Ok (r, []).

(* ------------------------------------------------------------------------------------ *)
(** * Write builders *)

(** TxnEngineHelper::DoTxnCommit, txn_engine_helper.cc:3485-3657 (store regions) *)
Definition commit_writes (start commit : Z) (ls : list lock) : list wop :=
  flat_map (fun l => if op_eqb (l_type l) OpPutIfAbsent then []
                     else [PutWrite (l_key l) commit (mkW start (l_type l) (l_short l))]) ls.
Definition do_commit (start commit : Z) (ls : list lock) : list batch :=
  match ls with
  | [] => []
  | _ => [commit_writes start commit ls ++ map (fun l => DelLock (l_key l)) ls]
  end.

Definition rb_record (start : Z) : wrec := mkW start OpRollback [].

(** TxnEngineHelper::DoRollback, txn_engine_helper.cc:4076-4186 *)
Definition do_rollback (start : Z) (with_data without_data miss : list bytes) : list batch :=
  match without_data ++ with_data ++ miss with
  | [] => []
  | ks => [map (fun k => PutWrite k start (rb_record start)) ks ++
           map DelLock (without_data ++ with_data) ++
           map (fun k => DelData k start) with_data]
  end.

(** TxnEngineHelper::MarkRollBackOnMissingLock, txn_engine_helper.cc:4189-4225 *)
Definition mark_rollback (start : Z) (k : bytes) : list batch :=
  [[PutWrite k start (rb_record start)]].

(** lock types that commit, rollback and resolve accept *)
Definition writable_type (o : op) : bool :=
  match o with OpPut | OpDelete | OpPutIfAbsent => true | _ => false end.

(* ------------------------------------------------------------------------------------ *)
(** * Prewrite *)

Fixpoint zassoc {A : Type} (i : Z) (l : list (Z * A)) : option A :=
  match l with
  | [] => None
  | (j, a) :: r => if i =? j then Some a else zassoc i r
  end.

Record pw_acc := mkAcc {
  a_res : list txn_result;
  a_exist : list bytes;
  a_data : list (bytes * bytes);
  a_locks : list (bytes * lock);
  a_1pc : list (bytes * bytes * lock * bool);   (* key, value, lock, is pessimistic *)
  a_try1 : bool;
  a_async : bool;
  a_final : Z }.

(** TxnEngineHelper::GenFinalMinCommitTs, txn_engine_helper.cc:2182-2206.  The registration in
    the in-memory lock table is modelled in ConcModel.v. *)
Definition gen_final_min_commit (region_max lock_minc start fut maxc : Z) : Z :=
  let m := Z.max (Z.max region_max start) fut + 1 in
  if negb (maxc =? 0) && (maxc <? m) then 0 else Z.max m lock_minc.

(** the lock each branch of GenPrewriteDataAndLock builds on top of prev_lock_info *)
Definition gen_lock (p : prewrite_req) (prev : lock) (key : bytes) (ty : op)
           (short : option bytes) (extra : bytes) (async : bool) : lock :=
  mkLock (pw_primary p) (pw_start p) (l_fut prev) key (pw_ttl p) (pw_size p) ty
         (match short with Some v => v | None => l_short prev end)
         (if beqb extra [] then l_extra prev else extra)
         (if l_minc prev <? pw_minc p then pw_minc p else l_minc prev)
         (if async then true else l_async prev)
         (if async && beqb key (pw_primary p) then pw_secs p else l_secs prev).

Definition with_minc (l : lock) (m : Z) : lock :=
  mkLock (l_primary l) (l_ts l) (l_fut l) (l_key l) (l_ttl l) (l_size l) (l_type l) (l_short l)
         (l_extra l) m (l_async l) (l_secs l).
Definition without_async (l : lock) : lock :=
  mkLock (l_primary l) (l_ts l) (l_fut l) (l_key l) (l_ttl l) (l_size l) (l_type l) (l_short l)
         (l_extra l) (l_minc l) false [].
Definition with_ttl (l : lock) (t : Z) : lock :=
  mkLock (l_primary l) (l_ts l) (l_fut l) (l_key l) t (l_size l) (l_type l) (l_short l)
         (l_extra l) (l_minc l) (l_async l) (l_secs l).

(** the tail shared by the Put, PutIfAbsent and Delete branches of GenPrewriteDataAndLock,
    txn_engine_helper.cc:2254-2277, 2367-2388, 2419-2441, followed by the update of
    final_min_commit_ts in the caller, 3215-3221 *)
Definition push_lock (region_max : Z) (p : prewrite_req) (fut : Z) (need_pess : bool)
           (l : lock) (value : bytes) (a : pw_acc) : pw_acc :=
  let key := l_key l in
  if a_try1 a || a_async a then
    let f := gen_final_min_commit region_max (l_minc l) (pw_start p) fut (pw_maxc p) in
    if f =? 0 then
      (* fall back to two-phase commit *)
      mkAcc (a_res a) (a_exist a) (a_data a) (a_locks a ++ [(key, without_async l)]) (a_1pc a)
            false false 0
    else
      let l' := if 0 <? f then with_minc l f else l in
      let final := if a_final a <? f then f else a_final a in
      if a_try1 a then
        mkAcc (a_res a) (a_exist a) (a_data a) (a_locks a)
              (a_1pc a ++ [(key, value, l', need_pess)]) (a_try1 a) (a_async a) final
      else
        mkAcc (a_res a) (a_exist a) (a_data a) (a_locks a ++ [(key, l')]) (a_1pc a)
              (a_try1 a) (a_async a) final
  else
    mkAcc (a_res a) (a_exist a) (a_data a) (a_locks a ++ [(key, l)]) (a_1pc a)
          (a_try1 a) (a_async a) 0.

Definition add_data (a : pw_acc) (k v : bytes) : pw_acc :=
  mkAcc (a_res a) (a_exist a) (a_data a ++ [(k, v)]) (a_locks a) (a_1pc a) (a_try1 a)
        (a_async a) (a_final a).
Definition add_res (a : pw_acc) (r : txn_result) : pw_acc :=
  mkAcc (a_res a ++ [r]) (a_exist a) (a_data a) (a_locks a) (a_1pc a) (a_try1 a)
        (a_async a) (a_final a).
Definition add_exist (a : pw_acc) (k : bytes) : pw_acc :=
  mkAcc (a_res a) (a_exist a ++ [k]) (a_data a) (a_locks a) (a_1pc a) (a_try1 a)
        (a_async a) (a_final a).
Definition no_fast_path (a : pw_acc) : pw_acc :=
  mkAcc (a_res a) (a_exist a) (a_data a) (a_locks a) (a_1pc a) false false (a_final a).
Definition set_final (a : pw_acc) (f : Z) : pw_acc :=
  mkAcc (a_res a) (a_exist a) (a_data a) (a_locks a) (a_1pc a) (a_try1 a) (a_async a) f.

(** TxnEngineHelper::GenPrewriteDataAndLock, txn_engine_helper.cc:2208-2453, with the update of
    final_min_commit_ts of its caller *)
Definition gen_prewrite (c : cfg) (region_max : Z) (p : prewrite_req) (m : mutation) (prev : lock)
           (wop_ : op) (fut : Z) (extra : bytes) (need_pess : bool) (a : pw_acc)
  : errno + pw_acc :=
  let key := m_key m in
  let big := max_short_value c <? Z.of_nat (length (m_value m)) in
  let put_ :=
    if beqb (m_value m) [] then inl EVALUE_EMPTY
    else
      let a1 := if big then add_data a key (m_value m) else a in
      let l := gen_lock p prev key OpPut (if big then None else Some (m_value m)) extra (a_async a) in
      inr (push_lock region_max p fut need_pess l (m_value m) a1) in
  match m_op m with
  | OpPut => put_
  | OpPutIfAbsent =>
      if op_eqb wop_ OpPut then
        inr (push_lock region_max p fut need_pess
               (gen_lock p prev key OpPutIfAbsent None extra (a_async a)) (m_value m) a)
      else put_
  | OpCheckNotExists =>
      inr (if a_try1 a || a_async a
           then set_final a (if a_final a <? pw_start p + 1 then pw_start p + 1 else a_final a)
           else set_final a 0)
  | OpDelete =>
      inr (push_lock region_max p fut need_pess
             (gen_lock p prev key OpDelete None extra (a_async a)) (m_value m) a)
  | _ => inl EINTERNAL
  end.

(** outcome of the loop over the mutations *)
Inductive pw_out :=
| PwEnd (a : pw_acc)                    (* loop finished, or left with break *)
| PwCommitted (commit : Z) (a : pw_acc) (* "transaction has been committed, just return" *)
| PwError (e : errno).

(** the checks made on one mutation *)
Inductive pw_lock_check :=
| LkGo (repeated : bool)     (* go on *)
| LkConflict                 (* add a "locked" result and go to the next mutation *)
| LkCommitted (commit : Z).  (* committed already: return *)

(** txn_engine_helper.cc:2842-3034: step 1, the lock *)
Definition prewrite_check_lock (s : store) (start : Z) (key : bytes) (prev : lock)
           (need_pess : bool) (fut_check : option Z) : pw_lock_check :=
  let conflict := match check_committed s start key with
                  | Some c => LkCommitted c
                  | None => LkConflict
                  end in
  if negb need_pess then
    if op_eqb (l_type prev) OpLock then conflict
    else if has_lock prev then
      if l_ts prev =? start then LkGo true else conflict
    else LkGo false
  else
    if has_lock prev then
      if l_ts prev =? start then
        if negb (op_eqb (l_type prev) OpLock) then LkGo true
        else match fut_check with
             | Some f => if l_fut prev =? f then LkGo false else LkConflict
             | None => LkGo false
             end
      else conflict
    else LkGo false.

(** TxnEngineHelper::Prewrite, the loop, txn_engine_helper.cc:2815-3222 *)
Fixpoint prewrite_loop (c : cfg) (s : store) (region_max : Z) (p : prewrite_req) (i : Z)
         (ms : list mutation) (a : pw_acc) : outcome pw_out :=
  match ms with
  | [] => Ok (PwEnd a)
  | m :: rest =>
      let key := m_key m in
      let start := pw_start p in
      let need_pess := nth (Z.to_nat i) (pw_checks p) 0 =? 1 in
      let prev := get_lock s key in
      let fut_check := zassoc i (pw_futs p) in
      match prewrite_check_lock s start key prev need_pess fut_check with
      | LkCommitted ct => Ok (PwCommitted ct a)
      | LkConflict => prewrite_loop c s region_max p (i + 1) rest (add_res a (TLocked prev))
      | LkGo repeated =>
          olet rb := get_rollback s start key in
          if rb : bool then Ok (PwEnd (add_res a (TConflict SelfRolledBack start start key)))
          else
            let w := get_write_info s 0 kMaxVer 0 key false true true in
            if (start <=? found_ts w) && negb need_pess then
              match check_committed s start key with
              | Some ct => Ok (PwCommitted ct a)
              | None => Ok (PwEnd (add_res a (TConflict OptimisticConflict start (found_ts w) key)))
              end
            else
              if op_eqb (m_op m) OpPutIfAbsent && op_eqb (found_op w) OpPut then
                Ok (PwEnd (add_exist a key))
              else if op_eqb (m_op m) OpCheckNotExists && need_pess then Ok (PwError EILLEGAL)
              else
                let a1 := if op_eqb (m_op m) OpCheckNotExists && op_eqb (found_op w) OpPut
                          then add_exist a key else a in
                if repeated then prewrite_loop c s region_max p (i + 1) rest (no_fast_path a1)
                else
                  let extra := match zassoc i (pw_extra p) with Some e => e | None => [] end in
                  let fut := match fut_check with Some f => f | None => 0 end in
                  match gen_prewrite c region_max p m prev (found_op w) fut extra need_pess a1 with
                  | inl e => Ok (PwError e)
                  | inr a2 => prewrite_loop c s region_max p (i + 1) rest a2
                  end
      end
  end.

(** TxnEngineHelper::OnePCommit, txn_engine_helper.cc:2468-2625 *)
Definition one_pc (start final : Z) (entries : list (bytes * bytes * lock * bool))
           (data : list (bytes * bytes)) : list batch :=
  let b :=
    map (fun kv => PutData (fst kv) start (snd kv)) data ++
    flat_map (fun e => let '(k, v, l, _) := e in
                if op_eqb (l_type l) OpPutIfAbsent then []
                else [PutWrite k final (mkW start (l_type l) (if beqb (l_short l) [] then [] else v))])
             entries ++
    flat_map (fun e => let '(k, _, _, pess) := e in if pess : bool then [DelLock k] else []) entries in
  match b with [] => [] | _ => [b] end.

(** FallbackTo1PCLocks 2455-2466 and DoPreWrite 2627-2672 *)
Definition do_prewrite (start : Z) (data : list (bytes * bytes)) (ls : list (bytes * lock))
           (entries : list (bytes * bytes * lock * bool)) : list batch :=
  let all := ls ++ map (fun e => let '(k, _, l, _) := e in (k, l)) entries in
  let b := map (fun kv => PutData (fst kv) start (snd kv)) data ++
           map (fun kl => PutLock (fst kl) (snd kl)) all in
  match b with [] => [] | _ => [b] end.

Definition is_nil {A : Type} (l : list A) : bool := match l with [] => true | _ => false end.

(** TxnEngineHelper::Prewrite, txn_engine_helper.cc:2736-3262 *)
Definition prewrite (c : cfg) (s : store) (region_max : Z) (p : prewrite_req) : result :=
  if max_prewrite_count c <? Z.of_nat (length (pw_muts p)) then reply (rerr EILLEGAL)
  else if negb (is_nil (pw_checks p)) && negb (length (pw_muts p) =? length (pw_checks p))%nat
  then reply (rerr EILLEGAL)
  else
    let a0 := mkAcc [] [] [] [] [] (pw_try1 p) (negb (is_nil (pw_secs p))) 0 in
    olet o := prewrite_loop c s region_max p 0 (pw_muts p) a0 in
    match o with
    | PwError e => reply (rerr e)
    | PwCommitted ct a =>
        reply (mkResp None (a_res a) (a_exist a) (if a_async a then ct else 0)
                      (if a_try1 a then ct else 0) 0 0 ANone [] [])
    | PwEnd a =>
        let minc := if a_async a then a_final a else 0 in
        let r := mkResp None (a_res a) (a_exist a) minc 0 0 0 ANone [] [] in
        if negb (is_nil (a_res a)) then reply r
        else if negb (is_nil (a_exist a)) then reply r
        else if a_try1 a then
          Ok (mkResp None [] [] minc (a_final a) 0 0 ANone [] [],
              one_pc (pw_start p) (a_final a) (a_1pc a) (a_data a))
        else Ok (r, do_prewrite (pw_start p) (a_data a) (a_locks a) (a_1pc a))
    end.

(* ------------------------------------------------------------------------------------ *)
(** * Commit *)

(** TxnEngineHelper::Commit, the loop, txn_engine_helper.cc:3327-3466: the locks to commit, or
    the result that ends the request *)
Fixpoint commit_loop (s : store) (start commit : Z) (keys : list bytes) (acc : list lock)
  : outcome (txn_result + list lock) :=
  match keys with
  | [] => Ok (inr acc)
  | key :: rest =>
      let l := get_lock s key in
      if l_ts l =? start then
        if negb (writable_type (l_type l)) then Ok (inl (TLocked l))
        else if (0 <? l_minc l) && (commit <? l_minc l)
        then Ok (inl (TExpired start commit key (l_minc l)))
        else commit_loop s start commit rest (acc ++ [l])
      else
        let w := get_write_info s start commit start key false true true in
        if found_ts w =? commit then commit_loop s start commit rest acc
        else
          olet rb := get_rollback s start key in
          (* GetRollbackInfo writes into the same write_info *)
          if (rb : bool) || (found_start w =? start) then Ok (inl (TConflict SelfRolledBack start start key))
          else if 0 <? l_ts l then Ok (inl (TLocked l))
          else Ok (inl (TNotFound start key))
  end.

(** TxnEngineHelper::Commit, txn_engine_helper.cc:3266-3481 *)
Definition commit (c : cfg) (s : store) (start commit_ts : Z) (keys : list bytes) : result :=
  if max_commit_count c <? Z.of_nat (length keys) then reply (rerr EILLEGAL)
  else if commit_ts <=? start then reply (rerr EILLEGAL)
  else
    olet o := commit_loop s start commit_ts keys [] in
    match o with
    | inl t => reply (rres [t])
    | inr ls => Ok (resp0, do_commit start commit_ts ls)
    end.

(* ------------------------------------------------------------------------------------ *)
(** * Rollback *)

Record rb_acc := mkRb { rb_with : list bytes; rb_without : list bytes; rb_miss : list bytes }.
Definition rb_add (l : lock) (k : bytes) (a : rb_acc) : rb_acc :=
  if beqb (l_short l) [] then mkRb (rb_with a ++ [k]) (rb_without a) (rb_miss a)
  else mkRb (rb_with a) (rb_without a ++ [k]) (rb_miss a).

(** TxnEngineHelper::BatchRollback, the loop, txn_engine_helper.cc:3963-4060 *)
Fixpoint rollback_loop (s : store) (start : Z) (keys : list bytes) (a : rb_acc)
  : outcome (txn_result + rb_acc) :=
  match keys with
  | [] => Ok (inr a)
  | key :: rest =>
      let l := get_lock s key in
      if negb (has_lock l) then
        olet rb := get_rollback s start key in
        if rb : bool then rollback_loop s start rest a
        else
          if found_ts (get_write_info s start kMaxVer start key false true true) =? 0
          then rollback_loop s start rest (mkRb (rb_with a) (rb_without a) (rb_miss a ++ [key]))
          else rollback_loop s start rest a
      else if negb (l_ts l =? start) then Ok (inl (TLocked l))
      else if negb (writable_type (l_type l)) then Ok (inl (TLocked l))
      else rollback_loop s start rest (rb_add l key a)
  end.

(** TxnEngineHelper::BatchRollback, txn_engine_helper.cc:3918-4071 *)
Definition batch_rollback (c : cfg) (s : store) (start : Z) (keys : list bytes) : result :=
  if max_rollback_count c <? Z.of_nat (length keys) then reply (rerr EILLEGAL)
  else
    olet o := rollback_loop s start keys (mkRb [] [] []) in
    match o with
    | inl t => reply (rres [t])
    | inr a => Ok (resp0, do_rollback start (rb_with a) (rb_without a) (rb_miss a))
    end.

(* ------------------------------------------------------------------------------------ *)
(** * Pessimistic locks *)

(** fields set by PessimisticLock on an existing lock (1779-1791) or on a fresh one (1903-1914) *)
Definition pess_lock_on (p : pess_req) (prev : lock) (m : mutation) : lock :=
  mkLock (pl_primary p) (pl_start p) (pl_fut p) (m_key m) (pl_ttl p) (l_size prev) OpLock
         (l_short prev) (m_value m) (l_minc prev) (l_async prev) (l_secs prev).

Record pess_acc := mkPa { pa_res : list txn_result; pa_locks : list (bytes * lock);
                          pa_kvs : list (bytes * bytes) }.

(** TxnEngineHelper::PessimisticLock, the loop, txn_engine_helper.cc:1725-1931 *)
Fixpoint pess_loop (s : store) (p : pess_req) (ms : list mutation) (a : pess_acc)
  : errno + pess_acc :=
  match ms with
  | [] => inr a
  | m :: rest =>
      let key := m_key m in
      if negb (op_eqb (m_op m) OpLock) then inl EILLEGAL
      else
        let l := get_lock s key in
        let conflict r := pess_loop s p rest (mkPa (pa_res a ++ [r]) (pa_locks a) (pa_kvs a)) in
        (* GetOldValue with prev_write_load = false: newest value at or below start_ts *)
        let kvs_at_start :=
          if pl_ret p
          then pa_kvs a ++ [old_value_of s key (get_write_info s 0 (pl_start p) 0 key false true true)]
          else pa_kvs a in
        if has_lock l then
          if l_fut l =? 0 then conflict (TLocked l)
          else if l_ts l =? pl_start p then
            if l_fut l =? pl_fut p then
              pess_loop s p rest (mkPa (pa_res a) (pa_locks a) kvs_at_start)
            else if l_fut l <? pl_fut p then
              pess_loop s p rest (mkPa (pa_res a) (pa_locks a ++ [(key, pess_lock_on p l m)]) kvs_at_start)
            else conflict (TLocked l)
          else conflict (TLocked l)
        else
          let w := get_write_info s (if pl_ret p then 0 else pl_start p) kMaxVer 0 key false true true in
          if pl_fut p <=? found_ts w then
            conflict (TConflict PessimisticRetry (pl_start p) (found_ts w) key)
          else
            let kvs := if pl_ret p then pa_kvs a ++ [old_value_of s key w] else pa_kvs a in
            pess_loop s p rest (mkPa (pa_res a) (pa_locks a ++ [(key, pess_lock_on p no_lock m)]) kvs)
  end.

Definition lock_batch (ls : list (bytes * lock)) : list batch :=
  match ls with
  | [] => []
  | _ => [map (fun kl => PutLock (fst kl) (snd kl)) ls]
  end.

(** TxnEngineHelper::PessimisticLock, txn_engine_helper.cc:1684-1968; the values are put in the
    response by store_service.cc:2009-2013 even when there are conflicts *)
Definition pessimistic_lock (c : cfg) (s : store) (p : pess_req) : result :=
  if max_pessimistic_count c <? Z.of_nat (length (pl_muts p)) then reply (rerr EILLEGAL)
  else
    match pess_loop s p (pl_muts p) (mkPa [] [] []) with
    | inl e => reply (rerr e)
    | inr a =>
        let r := mkResp None (pa_res a) [] 0 0 0 0 ANone [] (pa_kvs a) in
        if negb (is_nil (pa_res a)) then reply r else Ok (r, lock_batch (pa_locks a))
    end.

(** TxnEngineHelper::PessimisticRollback, the loop, txn_engine_helper.cc:2074-2144 *)
Fixpoint pess_rollback_loop (s : store) (start fut : Z) (keys : list bytes)
         (res : list txn_result) (dels : list bytes) : list txn_result * list bytes :=
  match keys with
  | [] => (res, dels)
  | key :: rest =>
      let l := get_lock s key in
      if has_lock l then
        if negb (op_eqb (l_type l) OpLock) then pess_rollback_loop s start fut rest (res ++ [TLocked l]) dels
        else if l_ts l =? start then
          if l_fut l <=? fut then pess_rollback_loop s start fut rest res (dels ++ [key])
          else pess_rollback_loop s start fut rest (res ++ [TLocked l]) dels
        else pess_rollback_loop s start fut rest (res ++ [TLocked l]) dels
      else pess_rollback_loop s start fut rest res dels
  end.

(** TxnEngineHelper::PessimisticRollback, txn_engine_helper.cc:2034-2178 *)
Definition pessimistic_rollback (c : cfg) (s : store) (start fut : Z) (keys : list bytes) : result :=
  if max_pessimistic_count c <? Z.of_nat (length keys) then reply (rerr EILLEGAL)
  else
    let '(res, dels) := pess_rollback_loop s start fut keys [] [] in
    if negb (is_nil res) then reply (rres res)
    else match dels with
         | [] => reply resp0
         | _ => Ok (resp0, [map DelLock dels])
         end.

(* ------------------------------------------------------------------------------------ *)
(** * CheckTxnStatus, CheckSecondaryLocks, ResolveLock, HeartBeat *)

Definition status_resp (res : list txn_result) (ttl commit : Z) (a : action) : resp :=
  mkResp None res [] 0 0 ttl commit a [] [].

(** TxnEngineHelper::CheckTxnStatus, txn_engine_helper.cc:3661-3914 *)
Definition check_status (s : store) (primary : bytes) (lock_ts caller current : Z)
           (force_sync rb_if_missing : bool) : result :=
  let l := get_lock s primary in
  if l_ts l =? lock_ts then
    if negb (beqb (l_key l) (l_primary l)) then reply (rres [TPrimaryMismatch l])
    else if l_async l && negb force_sync then reply (rres [TLocked l])
    else if negb (op_eqb (l_type l) OpLock) && negb (writable_type (l_type l))
    then reply (status_resp [TLocked l] (l_ttl l) 0 ANoAction)
    else
      let res := if op_eqb (l_type l) OpLock then [TLocked l] else [] in
      let current_ms := Z.shiftr current 18 in
      if current_ms <=? l_ttl l then
        if l_minc l <? caller then
          (* DoUpdateLock 1972-2030 *)
          Ok (status_resp res (l_ttl l) 0 AMinCommitPushed,
              [[PutLock (l_key l) (with_minc l caller)]])
        else reply (status_resp res (l_ttl l) 0 ANoAction)
      else
        let bs := if beqb (l_short l) [] then do_rollback lock_ts [primary] [] []
                  else do_rollback lock_ts [] [primary] [] in
        Ok (status_resp res 0 0 ATTLExpireRollback, bs)
  else
    olet rb := get_rollback s lock_ts primary in
    if rb : bool then reply (status_resp [] 0 0 ALockNotExistRollback)
    else
      let w := get_write_info s lock_ts kMaxVer lock_ts primary false true true in
      if found_ts w =? 0 then
        if rb_if_missing
        then Ok (status_resp [] 0 0 ALockNotExistRollback, mark_rollback lock_ts primary)
        else reply (rres [TNotFound lock_ts primary])
      else reply (status_resp [] 0 (found_ts w) ALockNotExistDoNothing).

Definition sec_resp (res : list txn_result) (commit : Z) (ls : list lock) : resp :=
  mkResp None res [] 0 0 0 commit ANone ls [].

(** TxnEngineHelper::TxnCheckSecondaryLocks, the loop, txn_engine_helper.cc:4266-4338 *)
Fixpoint secondary_loop (s : store) (start : Z) (keys : list bytes) (acc : list lock) : result :=
  match keys with
  | [] => reply (sec_resp [] 0 acc)
  | key :: rest =>
      let l := get_lock s key in
      if l_ts l =? start then
        if negb (writable_type (l_type l)) then reply (sec_resp [TLocked l] 0 acc)
        else secondary_loop s start rest (acc ++ [l])
      else
        olet rb := get_rollback s start key in
        if rb : bool then reply (sec_resp [] 0 acc)
        else
          let w := get_write_info s start kMaxVer start key false true true in
          if found_ts w =? 0
          then Ok (sec_resp [TNotFound start key] 0 acc, mark_rollback start key)
          else reply (sec_resp [] (found_ts w) acc)
  end.

(** TxnEngineHelper::TxnCheckSecondaryLocks, txn_engine_helper.cc:4233-4340 *)
Definition check_secondary (c : cfg) (s : store) (start : Z) (keys : list bytes) : result :=
  if max_resolve_count c <? Z.of_nat (length keys) then reply (rerr EILLEGAL)
  else secondary_loop s start keys [].

(** TxnEngineHelper::ScanLockInfo, txn_engine_helper.cc:1147-1219, over the whole region and as
    far as its first page goes: BatchResolveLock ignores has_more *)
Definition lock_in_ts (lo hi : Z) (l : lock) : bool :=
  negb (l_ts l =? 0) && (lo <=? l_ts l) && (l_ts l <? hi).
Definition scan_locks (c : cfg) (s : store) (lo hi : Z) : list lock :=
  firstn (Z.to_nat (scan_lock_limit c)) (filter (lock_in_ts lo hi) (map snd (locks s))).

(** the per-transaction body of TxnEngineHelper::BatchResolveLock, txn_engine_helper.cc:4351-4424 *)
Definition resolve_batches (start commit : Z) (ls : list lock) : list batch :=
  if 0 <? commit then do_commit start commit ls
  else
    let a := fold_left (fun a l => rb_add l (l_key l) a) ls (mkRb [] [] []) in
    do_rollback start (rb_with a) (rb_without a) [].

Definition first_bad (ls : list lock) : option lock :=
  find (fun l => negb (writable_type (l_type l))) ls.

(** TxnEngineHelper::BatchResolveLock, txn_engine_helper.cc:4344-4428.  Each transaction of
    txn_infos (a std::map, so in start_ts order) is scanned after the writes of the previous
    ones were applied. *)
Fixpoint batch_resolve (c : cfg) (s : store) (txns : list (Z * Z)) : resp * list batch :=
  match txns with
  | [] => (resp0, [])
  | (start, commit_ts) :: rest =>
      let ls := scan_locks c s start (start + 1) in
      match first_bad ls with
      | Some l => (rres [TLocked l], [])
      | None =>
          let bs := resolve_batches start commit_ts ls in
          let '(r, bs') := batch_resolve c (apply_batches s bs) rest in
          (r, bs ++ bs')
      end
  end.

(** TxnEngineHelper::ResolveLock, the loop over the keys, txn_engine_helper.cc:4491-4550 *)
Fixpoint resolve_loop (s : store) (start : Z) (keys : list bytes) (acc : list lock)
  : txn_result + list lock :=
  match keys with
  | [] => inr acc
  | key :: rest =>
      let l := get_lock s key in
      if negb (has_lock l) then resolve_loop s start rest acc
      else if negb (l_ts l =? start) then resolve_loop s start rest acc
      else if negb (writable_type (l_type l)) then inl (TLocked l)
      else resolve_loop s start rest (acc ++ [l])
  end.

Definition bad_commit (t : Z * Z) : bool :=
  (snd t <? 0) || ((0 <? snd t) && (snd t <=? fst t)).

(** TxnEngineHelper::ResolveLock, txn_engine_helper.cc:4430-4608.  With keys the rollback lists
    hold the requested key, which is the key of its lock. *)
Definition resolve_lock (c : cfg) (s : store) (start commit_ts : Z) (keys : list bytes)
           (txns : list (Z * Z)) : result :=
  if max_resolve_count c <? Z.of_nat (length keys) then reply (rerr EILLEGAL)
  else
    match keys with
    | [] =>
        if existsb bad_commit txns then reply (rerr EILLEGAL)
        else Ok (batch_resolve c s txns)
    | _ =>
        if bad_commit (start, commit_ts) then reply (rerr EILLEGAL)
        else
          match resolve_loop s start keys [] with
          | inl t => reply (rres [t])
          | inr ls => Ok (resp0, resolve_batches start commit_ts ls)
          end
    end.

(** TxnEngineHelper::HeartBeat, txn_engine_helper.cc:4612-4718 *)
Definition heartbeat (s : store) (primary : bytes) (start advise : Z) : result :=
  let l := get_lock s primary in
  if negb (has_lock l) then reply (rres [TNotFound start primary])
  else if negb (l_ts l =? start) then reply (rres [TNotFound start primary])
  else if advise <=? l_ttl l then reply (status_resp [] (l_ttl l) 0 ANone)
  else Ok (status_resp [] advise 0 ANone, [[PutLock primary (with_ttl l advise)]]).

(* ------------------------------------------------------------------------------------ *)
(** * The service layer *)

(** store_service.cc Validate*Request (1897-1956, 2039-2082, 2152-2203, 2303-2341, 2417-2454,
    2530-2562, 2641-2669, 2870-2904, 3107-3141), without region epoch, range and read-only checks *)
Definition validate (r : req) : option errno :=
  let nonempty_keys ks := if existsb (fun k => beqb k []) ks then Some EKEY_EMPTY else None in
  match r with
  | RPrewrite p =>
      if is_nil (pw_muts p) || beqb (pw_primary p) [] || (pw_start p =? 0) || (pw_ttl p =? 0)
         || (pw_size p =? 0) then Some EILLEGAL
      else nonempty_keys (map m_key (pw_muts p))
  | RCommit start commit_ts keys =>
      if (start =? 0) || (commit_ts =? 0) || is_nil keys then Some EILLEGAL else nonempty_keys keys
  | RBatchRollback start keys =>
      if is_nil keys || (start =? 0) then Some EILLEGAL else nonempty_keys keys
  | RPessLock p =>
      if is_nil (pl_muts p) || beqb (pl_primary p) [] || (pl_start p =? 0) || (pl_ttl p =? 0)
         || (pl_fut p =? 0) then Some EILLEGAL
      else if existsb (fun m => beqb (m_key m) []) (pl_muts p) then Some EKEY_EMPTY
      else if existsb (fun m => (8192 <? Z.of_nat (length (m_value m))) || negb (op_eqb (m_op m) OpLock))
                      (pl_muts p) then Some EILLEGAL
      else None
  | RPessRollback start fut keys =>
      if (start =? 0) || (fut =? 0) || is_nil keys then Some EILLEGAL else nonempty_keys keys
  | RCheckStatus primary lock_ts caller current _ _ =>
      if beqb primary [] || (lock_ts =? 0) || (caller =? 0) || (current =? 0) then Some EILLEGAL
      else None
  | RCheckSecondary start keys =>
      if (start =? 0) || is_nil keys then Some EILLEGAL else nonempty_keys keys
  | RResolve _ _ keys _ => nonempty_keys keys
  | RHeartBeat primary start advise =>
      if beqb primary [] || (start =? 0) || (advise =? 0) then Some EILLEGAL else None
  end.

(** mvcc/codec.cc EncodeKey aborts on a negative timestamp (C01): timestamps that reach it *)
Definition encoded_ts (r : req) : list Z :=
  match r with
  | RPrewrite p => [pw_start p]
  | RCommit start _ _ => [start]
  | RBatchRollback start _ => [start]
  | RPessLock p => [pl_start p]
  | RPessRollback _ _ _ => []
  | RCheckStatus _ lock_ts _ _ _ _ => [lock_ts]
  | RCheckSecondary start _ => [start]
  | RResolve start _ _ txns => start :: map fst txns
  | RHeartBeat _ _ _ => []
  end.

Definition handle (c : cfg) (s : store) (region_max : Z) (r : req) : result :=
  match validate r with
  | Some e => reply (rerr e)
  | None =>
      if existsb (fun t => t <? 0) (encoded_ts r) then Crash
      else
        match r with
        | RPrewrite p => prewrite c s region_max p
        | RCommit start commit_ts keys => commit c s start commit_ts keys
        | RBatchRollback start keys => batch_rollback c s start keys
        | RPessLock p => pessimistic_lock c s p
        | RPessRollback start fut keys => pessimistic_rollback c s start fut keys
        | RCheckStatus primary lock_ts caller current fs rm =>
            check_status s primary lock_ts caller current fs rm
        | RCheckSecondary start keys => check_secondary c s start keys
        | RResolve start commit_ts keys txns => resolve_lock c s start commit_ts keys txns
        | RHeartBeat primary start advise => heartbeat s primary start advise
        end
  end.

(** Region::SetTxnAccessMaxTs calls made before validation: store_service.cc:2353, 2467-2472,
    2575, 2681 *)
Definition touch_ts (r : req) : Z :=
  match r with
  | RCommit _ commit_ts _ => commit_ts
  | RCheckStatus _ lock_ts caller _ _ _ => Z.max lock_ts caller
  | RCheckSecondary start _ => start
  | RResolve _ commit_ts _ _ => commit_ts
  | _ => 0
  end.

(* ------------------------------------------------------------------------------------ *)
(** * Garbage collection *)

(** the loop of TxnEngineHelper::DoGcCoreTxn, txn_engine_helper.cc:4893-5034: what each visited
    write record adds to kv_deletes_write and kv_deletes_data.  [cur] is last_write_key, [gt] is
    is_exist_put_or_delete_key_if_write_ts_gt_safe_point_ts and [first] is
    is_first_put_key_if_write_ts_le_safe_point_ts.  The lock check (CheckLockForTxnGc,
    5459-5556) only logs and is left out. *)
Fixpoint gc_scan (ds : smap (bytes * Z) bytes) (sp : Z) (ws : smap (bytes * Z) wrec)
         (cur : bytes) (gt first : bool) : list (list wop) :=
  match ws with
  | [] => []
  | ((k, t), w) :: rest =>
      let gt := if beqb cur k then gt else false in
      let first := if beqb cur k then first else true in
      if sp <? t then
        [] :: gc_scan ds sp rest k (gt || op_eqb (w_op w) OpPut || op_eqb (w_op w) OpDelete) first
      else
        match w_op w with
        | OpPut =>
            if negb gt && first then [] :: gc_scan ds sp rest k gt false
            else
              (DelWrite k t ::
               (if beqb (w_short w) [] then
                  match get vcmp ds (k, w_start w) with
                  | Some _ => [DelData k (w_start w)]
                  | None => []
                  end
                else [])) :: gc_scan ds sp rest k gt first
        | OpDelete => [DelWrite k t] :: gc_scan ds sp rest k gt (if negb gt then false else first)
        | OpRollback => [DelWrite k t] :: gc_scan ds sp rest k gt first
        | _ => [] :: gc_scan ds sp rest k gt first
        end
  end.

(** txn_engine_helper.cc:5037-5084: a batch is proposed when enough deletes have gathered, and
    once more at the end *)
Fixpoint gc_flush (limit : Z) (items : list (list wop)) (acc : list wop) : list batch :=
  match items with
  | [] => match acc with [] => [] | _ => [acc] end
  | [] :: rest => gc_flush limit rest acc
  | it :: rest =>
      if limit <=? Z.of_nat (length (acc ++ it)) then (acc ++ it) :: gc_flush limit rest []
      else gc_flush limit rest (acc ++ it)
  end.

(** TxnEngineHelper::DoGcCoreTxn, txn_engine_helper.cc:4846-5102: the batches proposed for the
    store seen by the snapshot taken at the start.  The region covers the whole store. *)
Definition gc_txn (c : cfg) (s : store) (sp : Z) : list batch :=
  gc_flush (gc_batch_count c) (gc_scan (datas s) sp (writes s) [] false true) [].

(* ------------------------------------------------------------------------------------ *)
(** * A region over time *)

(** one region on one store: engine contents; the in-memory TxnAccessMaxTs
    (meta/store_meta_manager.h:188-199), which starts at 0 in a new process; log entries computed
    from an earlier state without holding latches that are still to be applied; and, for
    specifications only, the largest safe point garbage collection was started with *)
Record region := mkRegion { rg_store : store; rg_max : Z; rg_pool : list batch; rg_safe : Z }.

Definition with_store (g : region) (s : store) : region :=
  mkRegion s (rg_max g) (rg_pool g) (rg_safe g).
Definition bump (g : region) (ts : Z) : region :=
  mkRegion (rg_store g) (Z.max (rg_max g) ts) (rg_pool g) (rg_safe g).

(** a request against a region: TxnAccessMaxTs is raised first *)
Definition serve (c : cfg) (g : region) (r : req) : result :=
  handle c (rg_store g) (rg_max (bump g (touch_ts r))) r.

Fixpoint drop_nth {A : Type} (n : nat) (l : list A) : list A :=
  match n, l with
  | _, [] => []
  | O, _ :: r => r
  | S m, a :: r => a :: drop_nth m r
  end.

(** What can happen to a region:
    - [EReq r durable]: a request, of which [durable] log entries take effect (all of them unless
      the process or the leader dies in the middle);
    - [ERead ts]: a read; its effect on the region is SetTxnAccessMaxTs (store_service.cc:1686,
      1804, 2790);
    - [ERestart]: a restart or leader change;
    - [EGc sp]: garbage collection takes its snapshot (store_service.cc:3228-3261 takes no
      latches); its batches reach the log one by one later, and a failed write is skipped
      (DoFinalWorkForTxnGc 5770-5817), so any of them may be lost;
    - [EUnlatched start commit]: one transaction of a ResolveLock without keys is scanned.  That
      request takes no latches (store_service.cc:2690-2698), so its writes are applied later;
    - [EApply n]: the n-th entry still to be applied is applied. *)
Inductive event :=
| EReq (r : req) (durable : nat)
| ERead (ts : Z)
| ERestart
| EGc (safe_point : Z)
| EUnlatched (start commit : Z)
| EApply (n : nat).

Definition step (c : cfg) (g : region) (e : event) : outcome region :=
  match e with
  | EReq r n =>
      olet x := serve c g r in
      Ok (with_store (bump g (touch_ts r)) (apply_batches (rg_store g) (firstn n (snd x))))
  | ERead ts => Ok (bump g ts)
  | ERestart => Ok (mkRegion (rg_store g) 0 (rg_pool g) (rg_safe g))
  | EGc sp =>
      Ok (mkRegion (rg_store g) (rg_max g) (rg_pool g ++ gc_txn c (rg_store g) sp)
                   (Z.max (rg_safe g) sp))
  | EUnlatched start commit_ts =>
      let ls := scan_locks c (rg_store g) start (start + 1) in
      match first_bad ls with
      | Some _ => Ok g
      | None =>
          if bad_commit (start, commit_ts) then Ok g
          else Ok (mkRegion (rg_store g) (rg_max g)
                             (rg_pool g ++ resolve_batches start commit_ts ls) (rg_safe g))
      end
  | EApply n =>
      match nth_error (rg_pool g) n with
      | Some b => Ok (mkRegion (apply_batch (rg_store g) b) (rg_max g) (drop_nth n (rg_pool g))
                               (rg_safe g))
      | None => Ok g
      end
  end.

Fixpoint steps (c : cfg) (g : region) (es : list event) : outcome region :=
  match es with
  | [] => Ok g
  | e :: r => olet g' := step c g e in steps c g' r
  end.

Definition init_region : region := mkRegion empty_store 0 [] 0.
