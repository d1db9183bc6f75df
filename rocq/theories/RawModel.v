(** Model of the raw (non-transactional) key-value API of one region with several peers.
    Sources: src/server/store_service.cc (DoKvGet/DoKvBatchGet 85-330, DoKvPut/DoKvBatchPut
    338-520, DoKvPutIfAbsent/DoKvBatchPutIfAbsent 520-740, DoKvBatchDelete 740-830,
    DoKvDeleteRange 831-868, DoKvCompareAndSet/DoKvBatchCompareAndSet 896-1110),
    src/server/service_helper.cc (validation 56-184, LatchesAcquire 421-443),
    src/engine/storage.cc (120-173 ValidateLeader, 205-291 KvGet...KvCompareAndSet),
    src/engine/raft_store_engine.cc (417-444 Write, 721-965 Writer),
    src/raft/raft_node.cc (124-149 Commit), src/raft/store_state_machine.cc (110-238 on_apply),
    src/handler/raft_apply_handler.cc (64-124 Put and DeleteRange, 126-170 DeleteBatch),
    src/event/store_state_machine_event.cc (84-110 leader start, 112-135 leader stop).
    Simplifications: one region whose range and epoch do not change, in state NORMAL;
    requests carry the range after TransformRangeWithOptions; reads ask for the newest value
    (ts = 0; reads at an explicit timestamp are C05); one raft entry carries one command;
    braft is a log that all peers apply in order, a leader change keeps at least what some
    peer has applied, and the proposer of an entry that is not applied when the leadership
    changes is told "failed" (the entry may still be applied); the clock of all peers is
    [r_now]. Garbage collection of old versions is not part of this machine (see C20). *)
From Coq Require Import ZArith List Bool.
From Verif Require Import Bytes SMap Outcome CodecModel MvccModel.
Import ListNotations.
Open Scope Z_scope.

(** ** commands in the raft log *)

(** one element of a put request before encoding (PutRequest.kvs, DeleteBatchRequest.keys) *)
Record item := mkI { i_key : bytes; i_flag : value_flag; i_ttl : Z; i_val : bytes }.

(** WriteDataBuilder::BuildWrite: a put or delete batch carries the timestamp of its versions
    (EncodeKeyValuesWithPut / EncodeKeyValuesWithTTL / EncodeKeys, here done on apply: they are
    pure functions); a range delete carries the range (EncodeRange, idem) *)
Inductive cmd :=
| CWrite (ts : Z) (items : list item)
| CDelRange (range : bytes * bytes).

Definition cmd_ts (c : cmd) : Z := match c with CWrite ts _ => ts | CDelRange _ => 0 end.

(** one element of the write batch; EncodeKey aborts on a negative timestamp (none is handed
    out, see [LStart]) *)
Definition put_item (ts : Z) (st : store) (i : item) : store :=
  match encode_key (i_key i) ts with
  | Ok k => put bcmp st k (package_value (i_flag i) (i_ttl i) (i_val i))
  | Crash => st
  end.

(** PutHandler::Handle / DeleteBatchHandler::Handle (one write batch) and
    DeleteRangeHandler::Handle; Writer::KvDeleteRange, rocks_raw_engine.cc:675-699, refuses an
    inverted range *)
Definition apply_cmd (c : cmd) (st : store) : store :=
  match c with
  | CWrite ts items => fold_left (put_item ts) items st
  | CDelRange r =>
      let '(a, b) := encode_range r in
      if bltb a b then filter (fun e => negb (bleb a (fst e) && bltb (fst e) b)) st else st
  end.

Definition apply_cmds (cs : list cmd) : store := fold_left (fun st c => apply_cmd c st) cs [].

(** ** requests and answers *)

Inductive req :=
| RGet (keys : list bytes)                                             (* KvGet, KvBatchGet *)
| RPut (kvs : list (bytes * bytes)) (ttl : Z)                          (* KvPut, KvBatchPut *)
| RPutIfAbsent (kvs : list (bytes * bytes)) (ttl : Z) (atomic : bool)  (* Kv[Batch]PutIfAbsent *)
| RDelete (keys : list bytes)                                          (* KvBatchDelete *)
| RDeleteRange (range : bytes * bytes)                                 (* KvDeleteRange *)
| RCas (kvs : list (bytes * bytes)) (expects : list bytes) (ttl : Z) (atomic : bool).
                                                                       (* Kv[Batch]CompareAndSet *)

Inductive resp :=
| PVals (kvs : list (bytes * bytes))   (* the pairs found *)
| PStates (key_states : list bool)     (* OK with key_states *)
| PNotFound                            (* EKEY_NOT_FOUND of compare-and-set *)
| PDone                                (* OK *)
| PIllegal                             (* EILLEGAL_PARAMTETERS of an inverted range *)
| PReject                              (* refused before anything was proposed *)
| PUnknown.                            (* the raft closure reports a failure *)

(** the keys a request latches, store_service.cc:380-390 etc.; reads and range deletes latch
    nothing *)
Definition latch_keys (q : req) : list bytes :=
  match q with
  | RGet _ | RDeleteRange _ => []
  | RPut kvs _ | RPutIfAbsent kvs _ _ | RCas kvs _ _ _ => map fst kvs
  | RDelete keys => keys
  end.

Definition is_get (q : req) : bool := match q with RGet _ => true | _ => false end.

(** ValidateKeyInRange, service_helper.cc:135-145, with the empty-key checks of the services *)
Definition key_valid (range : bytes * bytes) (k : bytes) : bool :=
  negb (is_empty k) && bleb (fst range) k && bltb k (snd range).

(** the Validate...Request functions, store_service.cc:56-80 and later. A batch without
    elements is answered OK without any effect before these checks and is left out.
    ValidateRangeInRange is left out: more range deletes are accepted here. *)
Definition valid_req (range : bytes * bytes) (q : req) : bool :=
  match q with
  | RGet keys | RDelete keys => negb (Nat.eqb (length keys) 0) && forallb (key_valid range) keys
  | RPut kvs ttl | RPutIfAbsent kvs ttl _ =>
      negb (Nat.eqb (length kvs) 0) && forallb (key_valid range) (map fst kvs) && (0 <=? ttl)
  | RDeleteRange r => negb (is_empty (fst r)) && negb (is_empty (snd r))
  | RCas kvs expects ttl _ =>
      negb (Nat.eqb (length kvs) 0) && forallb (key_valid range) (map fst kvs) && (0 <=? ttl)
      && Nat.eqb (length kvs) (length expects)
  end.

(** ** the writer: what it does next, given the answers of its reads so far *)

(** ctx->SetTtl(Helper::TimestampMs() + request->ttl()) when the request has one *)
Definition deadline (t0 ttl : Z) : Z := if ttl =? 0 then 0 else t0 + ttl.

(** raft_store_engine.cc:725-731, 812-816: Ttl() == 0 means no expiry *)
Definition value_item (dl : Z) (k v : bytes) : item :=
  if dl =? 0 then mkI k kPut 0 v else mkI k kPutTTL dl v.

(** raft_store_engine.cc:913-922: an empty new value means delete *)
Definition cas_item (dl : Z) (k v : bytes) : item :=
  match v with [] => mkI k kDelete 0 [] | _ => value_item dl k v end.

Inductive walk :=
| WRead (k : bytes)                                  (* the next KvGet *)
| WStop (r : resp)                                   (* return before writing *)
| WDone (items : list item) (states : list bool).

Definition wadd (i : list item) (state : bool) (w : walk) : walk :=
  match w with WDone items states => WDone (i ++ items) (state :: states) | _ => w end.

(** the loop of Writer::KvPutIfAbsent, raft_store_engine.cc:789-822; [all_false] is the
    key_states vector as it was resized *)
Fixpoint pia_walk (atomic : bool) (dl : Z) (all_false : list bool)
  (kvs : list (bytes * bytes)) (reads : list (option bytes)) : walk :=
  match kvs, reads with
  | [], _ => WDone [] []
  | (k, _) :: _, [] => WRead k
  | (k, v) :: kvs', Some _ :: reads' =>
      if atomic then WStop (PStates all_false)
      else wadd [] false (pia_walk atomic dl all_false kvs' reads')
  | (k, v) :: kvs', None :: reads' =>
      wadd [value_item dl k v] true (pia_walk atomic dl all_false kvs' reads')
  end.

(** the loop of Writer::KvCompareAndSet, raft_store_engine.cc:875-928 *)
Fixpoint cas_walk (atomic : bool) (dl : Z) (all_false : list bool)
  (kvs : list (bytes * bytes)) (expects : list bytes) (reads : list (option bytes)) : walk :=
  match kvs, expects, reads with
  | [], _, _ => WDone [] []
  | (k, _) :: _, _, [] => WRead k
  | _ :: _, [], _ => WDone [] []     (* expect_values[i]; the sizes are equal *)
  | (k, v) :: kvs', e :: expects', Some old :: reads' =>
      if beqb old e then wadd [cas_item dl k v] true (cas_walk atomic dl all_false kvs' expects' reads')
      else if atomic then WStop (PStates all_false)
      else wadd [] false (cas_walk atomic dl all_false kvs' expects' reads')
  | (k, v) :: kvs', e :: expects', None :: reads' =>
      if is_empty e then wadd [cas_item dl k v] true (cas_walk atomic dl all_false kvs' expects' reads')
      else if atomic then WStop PNotFound
      else wadd [] false (cas_walk atomic dl all_false kvs' expects' reads')
  end.

(** the loop of Writer::KvDelete, raft_store_engine.cc:763-771 *)
Fixpoint delete_walk (keys : list bytes) (reads : list (option bytes)) : walk :=
  match keys, reads with
  | [], _ => WDone [] []
  | k :: _, [] => WRead k
  | k :: keys', x :: reads' =>
      wadd [mkI k kDelete 0 []] (match x with Some _ => true | None => false end) (delete_walk keys' reads')
  end.

(** the loop of Storage::KvGet, storage.cc:212-231: keys not found are left out *)
Fixpoint get_walk (keys : list bytes) (reads : list (option bytes)) (found : list (bytes * bytes)) : walk :=
  match keys, reads with
  | [], _ => WStop (PVals found)
  | k :: _, [] => WRead k
  | k :: keys', x :: reads' =>
      get_walk keys' reads' (found ++ match x with Some v => [(k, v)] | None => [] end)
  end.

Inductive next :=
| NRead (k : bytes)
| NReply (r : resp)
| NWrite (c : cmd) (r : resp).   (* propose [c]; [r] is the answer once it is applied *)

Definition of_walk (ts : Z) (w : walk) : next :=
  match w with
  | WRead k => NRead k
  | WStop r => NReply r
  | WDone [] states => NReply (PStates states)   (* put_kvs.empty(): the states are all false *)
  | WDone items states => NWrite (CWrite ts items) (PStates states)
  end.

(** the request [q] that obtained [ts] and started at time [t0], after [reads] *)
Definition next_action (range : bytes * bytes) (q : req) (ts t0 : Z) (reads : list (option bytes)) : next :=
  match q with
  | RGet keys => of_walk ts (get_walk keys reads [])
  | RPut kvs ttl => NWrite (CWrite ts (map (fun kv => value_item (deadline t0 ttl) (fst kv) (snd kv)) kvs)) PDone
  | RPutIfAbsent kvs ttl atomic =>
      of_walk ts (pia_walk atomic (deadline t0 ttl) (map (fun _ => false) kvs) kvs reads)
  | RDelete keys => of_walk ts (delete_walk keys reads)
  | RDeleteRange r =>
      (* ERANGE_INVALID is answered OK, store_service.cc:844-850 *)
      if negb (bltb (fst r) (snd r)) then NReply PDone
      else let r' := intersect_range range r in
           NWrite (CDelRange r') (if bltb (fst r') (snd r') then PDone else PIllegal)
  | RCas kvs expects ttl atomic =>
      of_walk ts (cas_walk atomic (deadline t0 ttl) (map (fun _ => false) kvs) kvs expects reads)
  end.

(** ** the machine *)

(** a peer: how much of the log it has applied, the largest timestamp its timestamp provider
    has handed out or been told (TsProvider::SetMinValidTs), whether it believes to lead
    (braft is_leader()), RaftNode::IsConsistentReadable, and Region::RawAppliedMaxTs *)
Record peer := mkP { p_applied : nat; p_floor : Z; p_leads : bool; p_ready : bool; p_maxts : Z }.

(** a request being processed: the peer it was sent to, the leadership it started in *)
Record op := mkO { o_id : Z; o_peer : nat; o_term : Z; o_req : req; o_ts : Z; o_t0 : Z;
                   o_reads : list (option bytes); o_prop : option resp }.

(** what can be seen from outside: a request with the time it was received, its answer, and the
    clock going on *)
Inductive event :=
| EInv (id : Z) (q : req) (t : Z)
| ERes (id : Z) (r : resp)
| ETime (t : Z).

Record rst := mkR { r_range : bytes * bytes; r_log : list (Z * cmd); r_peers : list peer;
                    r_leader : nat; r_term : Z; r_elect : nat;   (* log length at the election *)
                    r_ops : list op; r_now : Z; r_hist : list event }.

Definition init (range : bytes * bytes) (n : nat) (now : Z) : rst :=
  mkR range [] (mkP 0 0 true true 0 :: repeat (mkP 0 0 false false 0) n) 0 0 0 [] now [].

Definition peer_store (s : rst) (p : peer) : store := apply_cmds (map snd (firstn (p_applied p) (r_log s))).

Inductive label :=
| LStart (id : Z) (n : nat) (q : req) (ts : Z)
| LRead (id : Z)
| LReply (id : Z)
| LWrite (id : Z)
| LApply (n : nat)
| LInstall (n m : nat)          (* install a snapshot holding the first m entries *)
| LLeader (n keep : nat)        (* braft elects n; its log keeps the first [keep] entries *)
| LReady (n : nat)              (* on_leader_start of peer n *)
| LDeposed (n : nat)            (* on_leader_stop of peer n *)
| LTick (t : Z).

Inductive result := Next (s : rst) | Disabled | Died.

Definition find_op (s : rst) (id : Z) : option op := find (fun o => o_id o =? id) (r_ops s).
Definition drop_op (id : Z) (l : list op) : list op := filter (fun o => negb (o_id o =? id)) l.
Definition set_op (o : op) (l : list op) : list op := map (fun x => if o_id x =? o_id o then o else x) l.
Fixpoint set_nth {A} (n : nat) (a : A) (l : list A) : list A :=
  match l, n with
  | [], _ => []
  | _ :: r, O => a :: r
  | x :: r, S m => x :: set_nth m a r
  end.

Definition used (id : Z) (h : list event) : bool :=
  existsb (fun e => match e with EInv i _ _ => i =? id | _ => false end) h.

Definition share (a b : list bytes) : bool := existsb (fun k => existsb (beqb k) b) a.

(** Region::LatchesAcquire: no request in progress on this peer holds one of the keys *)
Definition latch_free (n : nat) (keys : list bytes) (ops : list op) : bool :=
  negb (existsb (fun o => Nat.eqb (o_peer o) n && share keys (latch_keys (o_req o))) ops).

Definition with_ops (s : rst) (ops : list op) (es : list event) : rst :=
  mkR (r_range s) (r_log s) (r_peers s) (r_leader s) (r_term s) (r_elect s) ops (r_now s) (r_hist s ++ es).
Definition with_peer (s : rst) (n : nat) (p : peer) : rst :=
  mkR (r_range s) (r_log s) (set_nth n p (r_peers s)) (r_leader s) (r_term s) (r_elect s)
      (r_ops s) (r_now s) (r_hist s).

(** does the request take a timestamp first? (Writer::KvPut ... ; not KvGet, KvDeleteRange) *)
Definition takes_ts (q : req) : bool := match q with RGet _ | RDeleteRange _ => false | _ => true end.

Definition ts_valid (ts : Z) : bool := (0 <? ts) && (ts <? two63).

(** validation, latches and GetTs() of a request. Reads validate the leadership
    (storage.cc:120-173), writes do not. TsProvider::GetTs gives a timestamp above all it gave
    before and above SetMinValidTs. *)
Definition start (s : rst) (id : Z) (n : nat) (q : req) (ts : Z) : result :=
  match nth_error (r_peers s) n with
  | None => Disabled
  | Some p =>
      if used id (r_hist s) then Disabled
      else if negb (valid_req (r_range s) q) || (is_get q && negb (p_leads p && p_ready p))
      then Next (with_ops s (r_ops s) [EInv id q (r_now s); ERes id PReject])
      else if negb (latch_free n (latch_keys q) (r_ops s)) then Disabled
      else if takes_ts q && negb (ts_valid ts && (p_floor p <? ts)) then Disabled
      else
        let p' := mkP (p_applied p) (if takes_ts q then ts else p_floor p) (p_leads p) (p_ready p) (p_maxts p) in
        let o := mkO id n (r_term s) q (if takes_ts q then ts else 0) (r_now s) [] None in
        Next (with_ops (with_peer s n p') (r_ops s ++ [o]) [EInv id q (r_now s)])
  end.

(** one KvGet on the engine of the peer *)
Definition read (s : rst) (id : Z) : result :=
  match find_op s id with
  | None => Disabled
  | Some o =>
      match o_prop o, next_action (r_range s) (o_req o) (o_ts o) (o_t0 o) (o_reads o), nth_error (r_peers s) (o_peer o) with
      | None, NRead k, Some p =>
          match kv_get (peer_store s p) 0 (r_now s) k with
          | Crash => Died
          | Ok x =>
              let v := match x with ROk v => Some v | _ => None end in
              Next (with_ops s (set_op (mkO (o_id o) (o_peer o) (o_term o) (o_req o) (o_ts o) (o_t0 o)
                                            (o_reads o ++ [v]) None) (r_ops s)) [])
          end
      | _, _, _ => Disabled
      end
  end.

(** return without writing *)
Definition reply (s : rst) (id : Z) : result :=
  match find_op s id with
  | None => Disabled
  | Some o =>
      match o_prop o, next_action (r_range s) (o_req o) (o_ts o) (o_t0 o) (o_reads o) with
      | None, NReply r => Next (with_ops s (drop_op id (r_ops s)) [ERes id r])
      | _, _ => Disabled
      end
  end.

(** RaftNode::Commit: refused unless the peer believes to lead; no expected_term is set. A peer
    that wrongly believes to lead gets the entry nowhere and its closure fails. *)
Definition propose (s : rst) (id : Z) : result :=
  match find_op s id with
  | None => Disabled
  | Some o =>
      match o_prop o, next_action (r_range s) (o_req o) (o_ts o) (o_t0 o) (o_reads o), nth_error (r_peers s) (o_peer o) with
      | None, NWrite c r, Some p =>
          if negb (p_leads p) then Next (with_ops s (drop_op id (r_ops s)) [ERes id PReject])
          else if negb (Nat.eqb (o_peer o) (r_leader s))
          then Next (with_ops s (drop_op id (r_ops s)) [ERes id PUnknown])
          else
            let o' := mkO (o_id o) (o_peer o) (o_term o) (o_req o) (o_ts o) (o_t0 o) (o_reads o) (Some r) in
            Next (mkR (r_range s) (r_log s ++ [(id, c)]) (r_peers s) (r_leader s) (r_term s) (r_elect s)
                      (set_op o' (r_ops s)) (r_now s) (r_hist s))
      | _, _, _ => Disabled
      end
  end.

(** StoreStateMachine::on_apply of the next entry on peer [n]; the closure exists on the peer
    that proposed it *)
Definition apply_entry (s : rst) (n : nat) : result :=
  match nth_error (r_peers s) n with
  | None => Disabled
  | Some p =>
      match nth_error (r_log s) (p_applied p) with
      | None => Disabled
      | Some (id, c) =>
          let p' := mkP (S (p_applied p)) (p_floor p) (p_leads p) (p_ready p)
                        (if 0 <? cmd_ts c then Z.max (p_maxts p) (cmd_ts c) else p_maxts p) in
          let s' := with_peer s n p' in
          match find_op s id with
          | Some o =>
              match o_prop o with
              | Some r => if Nat.eqb (o_peer o) n
                          then Next (with_ops s' (drop_op id (r_ops s')) [ERes id r])
                          else Next s'
              | None => Next s'
              end
          | None => Next s'
          end
      end
  end.

(** on_snapshot_load: the data is replaced, RawAppliedMaxTs is left as it was *)
Definition install (s : rst) (n m : nat) : result :=
  match nth_error (r_peers s) n with
  | None => Disabled
  | Some p =>
      if Nat.ltb (p_applied p) m && Nat.leb m (length (r_log s)) && negb (Nat.eqb n (r_leader s))
      then Next (with_peer s n (mkP m (p_floor p) (p_leads p) (p_ready p) (p_maxts p)))
      else Disabled
  end.

Definition proposed (o : op) : bool := match o_prop o with Some _ => true | None => false end.

Definition elect (s : rst) (n keep : nat) : result :=
  match nth_error (r_peers s) n with
  | None => Disabled
  | Some p =>
      if forallb (fun x => Nat.leb (p_applied x) keep) (r_peers s) && Nat.leb keep (length (r_log s))
      then
        let p' := mkP (p_applied p) (p_floor p) true false (p_maxts p) in
        Next (mkR (r_range s) (firstn keep (r_log s)) (set_nth n p' (r_peers s)) n (r_term s + 1) keep
                  (filter (fun o => negb (proposed o)) (r_ops s)) (r_now s)
                  (r_hist s ++ map (fun o => ERes (o_id o) PUnknown) (filter proposed (r_ops s))))
      else Disabled
  end.

(** SmLeaderStartEventListener: runs on the state machine once the entries of earlier terms are
    applied; SetConsistentReadable, then SetMinValidTs(RawAppliedMaxTs()) (here in one step) *)
Definition ready (s : rst) (n : nat) : result :=
  match nth_error (r_peers s) n with
  | None => Disabled
  | Some p =>
      if Nat.eqb n (r_leader s) && Nat.leb (r_elect s) (p_applied p)
      then Next (with_peer s n (mkP (p_applied p) (Z.max (p_floor p) (p_maxts p)) (p_leads p) true (p_maxts p)))
      else Disabled
  end.

Definition deposed (s : rst) (n : nat) : result :=
  match nth_error (r_peers s) n with
  | None => Disabled
  | Some p =>
      if Nat.eqb n (r_leader s) then Disabled
      else Next (with_peer s n (mkP (p_applied p) (p_floor p) false false (p_maxts p)))
  end.

Definition step (s : rst) (l : label) : result :=
  match l with
  | LStart id n q ts => start s id n q ts
  | LRead id => read s id
  | LReply id => reply s id
  | LWrite id => propose s id
  | LApply n => apply_entry s n
  | LInstall n m => install s n m
  | LLeader n keep => elect s n keep
  | LReady n => ready s n
  | LDeposed n => deposed s n
  | LTick t => if r_now s <=? t
               then Next (mkR (r_range s) (r_log s) (r_peers s) (r_leader s) (r_term s) (r_elect s)
                              (r_ops s) t (r_hist s ++ [ETime t]))
               else Disabled
  end.

Fixpoint run (s : rst) (ls : list label) : result :=
  match ls with
  | [] => Next s
  | l :: r => match step s l with Next s' => run s' r | x => x end
  end.
