(** * How a store applies the raft log of its regions: data commands, split, merge

    Models /repo/src/raft/store_state_machine.cc (on_apply, CatchUpApplyLog),
    /repo/src/handler/raft_apply_handler.cc (put, delete, split, prepare
    merge, commit merge), the range part of
    /repo/src/handler/raft_apply_handler_txn.cc, and the region-meta updates
    of /repo/src/meta/store_meta_manager.cc they use.

    One store is a [node]: the key-value data of the raw engine, the region
    metas, the applied index of each region in memory and on disk.  Applying a
    log entry is a list of effects in the order in which the code performs
    them.  Each durable effect is one engine write, so a process crash leaves
    a prefix of the list.

    Simplifications, for the whole file.  Keys of data writes are user keys:
    the encoding of keys with a timestamp keeps their order (part Codec) and a
    split or merge of encoded data follows the user key.  Vector and document
    indexes, metrics, snapshots, job records and heartbeats are left out.  The
    meta fields [temporary_disable_change], [need_bootstrap_do_snapshot],
    [parent_id], peers and timestamps are left out: no function below reads
    them.  [RawAppliedMaxTs] and [TxnAccessMaxTs] are left out here; part
    Cache treats the bound they give. *)
From Coq Require Import ZArith List Bool.
From Verif Require Import Bytes CodecModel.
Import ListNotations.
Local Open Scope Z_scope.

(** ** Region metas *)

(** [pb::common::StoreRegionState], as used in store_meta_manager.cc:907-960. *)
Inductive rstate :=
  SNew | SNormal | SStandby | SSplitting | SMerging | SDeleting | SDeleted | SOrphan | STombstone.

Definition rstate_eqb (a b : rstate) : bool :=
  match a, b with
  | SNew, SNew | SNormal, SNormal | SStandby, SStandby | SSplitting, SSplitting
  | SMerging, SMerging | SDeleting, SDeleting | SDeleted, SDeleted
  | SOrphan, SOrphan | STombstone, STombstone => true
  | _, _ => false
  end.

(** The part of [store::Region] that applying reads or writes:
    store_meta_manager.h [Region]: state, epoch, user range, last change job. *)
Record region := mkR {
  r_state : rstate;
  r_conf : Z;
  r_ver : Z;
  r_start : bytes;
  r_end : bytes;
  r_job : Z
}.

Definition with_state (r : region) (s : rstate) : region :=
  mkR s (r_conf r) (r_ver r) (r_start r) (r_end r) (r_job r).
Definition with_epoch (r : region) (v : Z) (a b : bytes) : region :=
  mkR (r_state r) (r_conf r) v a b (r_job r).
Definition with_job (r : region) (j : Z) : region :=
  mkR (r_state r) (r_conf r) (r_ver r) (r_start r) (r_end r) j.

(** store_meta_manager.cc:901-960, the transition table of [UpdateState]. *)
Definition can_move (a b : rstate) : bool :=
  match a with
  | SNew => match b with SNormal | SStandby => true | _ => false end
  | SNormal =>
      match b with
      | SStandby | SSplitting | SMerging | SDeleting | SOrphan | STombstone => true
      | _ => false
      end
  | SStandby => match b with SNormal | STombstone | SOrphan | SDeleting => true | _ => false end
  | SSplitting => match b with SNormal | STombstone => true | _ => false end
  | SMerging => match b with SNormal | STombstone => true | _ => false end
  | SDeleting => match b with SDeleted | STombstone => true | _ => false end
  | SDeleted | SOrphan => match b with STombstone => true | _ => false end
  | STombstone => false
  end.

(** ** Data *)

(** One operation of a [rocksdb::WriteBatch]: Put, Delete, DeleteRange. *)
Inductive wop :=
| WPut (cf : Z) (k v : bytes)
| WDel (cf : Z) (k : bytes)
| WDelR (cf : Z) (a b : bytes).

(** The raw engine: column family, key, value. *)
Definition db := Z -> bytes -> option bytes.

(** [k] lies in [a, b): the order of keys is the bytewise order of RocksDB. *)
Definition between (a b k : bytes) : bool := bleb a k && bltb k b.

Definition do_wop (d : db) (w : wop) : db :=
  match w with
  | WPut cf k v => fun c x => if (c =? cf) && beqb x k then Some v else d c x
  | WDel cf k => fun c x => if (c =? cf) && beqb x k then None else d c x
  | WDelR cf a b => fun c x => if (c =? cf) && between a b x then None else d c x
  end.

Definition do_batch (d : db) (ws : list wop) : db := fold_left do_wop ws d.

(** ** The node and its effects *)

Record node := mkN {
  nd_db : db;
  nd_regs : Z -> option region;
  nd_applied : Z -> Z;    (* StoreStateMachine::applied_index_, in memory *)
  nd_saved : Z -> Z       (* RaftMeta applied id, on disk *)
}.

Inductive eff :=
| EBatch (ws : list wop)           (* one engine write batch *)
| EMeta (id : Z) (r : region)      (* meta_writer_->Put of one region meta *)
| ESaved (id i : Z)                (* meta_writer_->Put of one raft meta *)
| EMem (id i : Z).                 (* applied_index_ in memory: lost by a crash *)

Definition zput {A : Type} (f : Z -> A) (k : Z) (v : A) : Z -> A :=
  fun x => if x =? k then v else f x.

Definition perform (n : node) (e : eff) : node :=
  match e with
  | EBatch ws => mkN (do_batch (nd_db n) ws) (nd_regs n) (nd_applied n) (nd_saved n)
  | EMeta id r => mkN (nd_db n) (zput (nd_regs n) id (Some r)) (nd_applied n) (nd_saved n)
  | ESaved id i => mkN (nd_db n) (nd_regs n) (nd_applied n) (zput (nd_saved n) id i)
  | EMem id i => mkN (nd_db n) (nd_regs n) (zput (nd_applied n) id i) (nd_saved n)
  end.

Definition performs (n : node) (es : list eff) : node := fold_left perform es n.

(** raft_store_engine.cc:86-161 (Recover) and store_state_machine.cc:70-80:
    after a restart the applied index is the one on disk; region metas and
    data are what was written.  No state is repaired. *)
Definition restart (n : node) : node := mkN (nd_db n) (nd_regs n) (nd_saved n) (nd_saved n).

(** A process crash after the first [k] effects of [es], then a restart. *)
Definition crash_at (n : node) (es : list eff) (k : nat) : node :=
  restart (performs n (firstn k es)).

(** ** Region-meta updates *)

(** store_meta_manager.cc:901-975: [UpdateState] writes only an allowed move. *)
Definition op_state (id : Z) (s : rstate) (n : node) : list eff :=
  match nd_regs n id with
  | Some r => if can_move (r_state r) s then [EMeta id (with_state r s)] else []
  | None => []
  end.

(** store_meta_manager.cc:1011-1024: [UpdateEpochVersionAndRange] ignores a
    version that is not larger. *)
Definition op_epoch (id : Z) (v : Z) (a b : bytes) (n : node) : list eff :=
  match nd_regs n id with
  | Some r => if v <=? r_ver r then [] else [EMeta id (with_epoch r v a b)]
  | None => []
  end.

(** [UpdateEpochVersionAndRange(region, region->Epoch().version() + 1, ..)]:
    raft_apply_handler.cc:312, 315-316, 578, 853-855, 946-950. *)
Definition op_bump (id : Z) (a b : bytes) (n : node) : list eff :=
  match nd_regs n id with
  | Some r => op_epoch id (r_ver r + 1) a b n
  | None => []
  end.

(** store_meta_manager.cc [UpdateLastChangeJobId]: sets and writes the meta. *)
Definition op_job (id j : Z) (n : node) : list eff :=
  match nd_regs n id with
  | Some r => [EMeta id (with_job r j)]
  | None => []
  end.

(** Statements executed one after the other. *)
Fixpoint seq (ops : list (node -> list eff)) (n : node) : list eff :=
  match ops with
  | [] => []
  | o :: rest => let es := o n in es ++ seq rest (performs n es)
  end.

(** ** Commands *)

(** Data commands.  [DPut], [DDelete], [DDelRange]: raft_apply_handler.cc:63-167;
    [DMulti]: raft_apply_handler_txn.cc:40-104; [DTxnDelRange]:
    raft_apply_handler_txn.cc:256-292. *)
Inductive dreq :=
| DPut (cf : Z) (kvs : list (bytes * bytes))
| DDelete (cf : Z) (keys : list bytes)
| DDelRange (cf : Z) (ranges : list (bytes * bytes))
| DMulti (puts : list (Z * bytes * bytes)) (dels : list (Z * bytes))
| DTxnDelRange (a b : bytes).

(** A split request: pb::raft::SplitRequest. *)
Record split_req := mkSplit {
  sp_job : Z; sp_to : Z; sp_key : bytes; sp_ver : Z; sp_pre : bool }.

(** pb::raft::PrepareMergeRequest. *)
Record prep_req := mkPrep {
  pm_job : Z; pm_target : Z; pm_conf : Z; pm_ver : Z }.

(** A log entry of data commands, as CommitMerge carries them. *)
Record dentry := mkD { de_index : Z; de_conf : Z; de_ver : Z; de_reqs : list dreq }.

(** pb::raft::CommitMergeRequest.  The entries are those of the source region
    with index in (min_applied, prepare): GetRaftLogEntries, :733-746, over
    rocks_log_storage.cc:1077-1135, whose end is exclusive.  They hold data
    commands only: a split or merge entry between the two would have changed
    the epoch and PrepareMerge would have been refused. *)
Record commit_req := mkCommit {
  cm_job : Z; cm_source : Z; cm_ver : Z; cm_start : bytes; cm_end : bytes;
  cm_entries : list dentry }.

Inductive req :=
| QData (d : dreq)
| QSplit (s : split_req)
| QPrepare (p : prep_req)
| QCommit (c : commit_req).

Record entry := mkE { e_index : Z; e_conf : Z; e_ver : Z; e_reqs : list req }.

(** Result of running handlers.  [RAbort es]: a fatal log or undefined
    behaviour after the effects [es]; [RWait]: the handler loops. *)
Inductive res := ROk (es : list eff) | RAbort (es : list eff) | RWait.

(** ** Data handlers *)

(** Column families of a transaction: data, lock, write. *)
Definition CF_DATA := 1.
Definition CF_LOCK := 2.
Definition CF_WRITE := 3.

(** mvcc::Codec::ValueFlagDelete(), codec.h:34: the one-byte value that marks a
    deletion; part Mvcc models how it is read. *)
Definition value_flag_delete : bytes := [flag_byte kDelete].

(** rocks_raw_engine.cc:495-545: no keys or an empty key: an error, nothing is written. *)
Definition put_ops (cf : Z) (kvs : list (bytes * bytes)) : option (list wop) :=
  if forallb (fun kv => negb (beqb (fst kv) [])) kvs && negb (Nat.eqb (length kvs) 0)
  then Some (map (fun kv => WPut cf (fst kv) (snd kv)) kvs) else None.

(** rocks_raw_engine.cc:675-727: an empty bound or an inverted range is an
    error and nothing is written; no ranges at all writes an empty batch. *)
Definition delr_ops (cf : Z) (ranges : list (bytes * bytes)) : option (list wop) :=
  if forallb (fun ab => negb (beqb (fst ab) []) && negb (beqb (snd ab) []) &&
                        bltb (fst ab) (snd ab)) ranges
  then Some (map (fun ab => WDelR cf (fst ab) (snd ab)) ranges) else None.

(** rocks_raw_engine.cc:596-645: puts first, then deletes; an empty key is an
    error.  The grouping by column family does not change the result: a group
    holds the operations of its own column family in order. *)
Definition multi_ops (puts : list (Z * bytes * bytes)) (dels : list (Z * bytes)) : option (list wop) :=
  if forallb (fun p => negb (beqb (snd (fst p)) [])) puts &&
     forallb (fun p => negb (beqb (snd p) [])) dels
  then Some (map (fun p => WPut (fst (fst p)) (snd (fst p)) (snd p)) puts ++
             map (fun p => WDel (fst p) (snd p)) dels)
  else None.

Definition write_or_nothing (o : option (list wop)) : res :=
  match o with Some ws => ROk [EBatch ws] | None => ROk [] end.

Definition write_or_abort (o : option (list wop)) : res :=
  match o with Some ws => ROk [EBatch ws] | None => RAbort [] end.

(** [ctx]: the closure of the proposer is at hand (the leader applying its own
    proposal).  HandleTxnDeleteRangeRequest reads [ctx->Response()] at once
    (raft_apply_handler_txn.cc:265): without a context it dereferences null. *)
Definition data_handler (ctx : bool) (d : dreq) : res :=
  match d with
  | DPut cf kvs => write_or_nothing (put_ops cf kvs)
  | DDelete cf keys => write_or_nothing (put_ops cf (map (fun k => (k, value_flag_delete)) keys))
  | DDelRange cf ranges => write_or_nothing (delr_ops cf ranges)
  | DMulti puts dels =>
      match puts, dels with
      | [], [] => ROk []
      | _, _ => write_or_abort (multi_ops puts dels)
      end
  | DTxnDelRange a b =>
      if ctx then
        write_or_abort
          (match delr_ops CF_DATA [(a, b)], delr_ops CF_LOCK [(a, b)], delr_ops CF_WRITE [(a, b)] with
           | Some x, Some y, Some z => Some (x ++ y ++ z)
           | _, _, _ => None
           end)
      else RAbort []
  end.

(** Handlers run one after the other on the same node; state: :47-55 of
    store_state_machine_event.cc. *)
Definition then_run (n : node) (a : res) (f : node -> res) : res :=
  match a with
  | ROk es =>
      match f (performs n es) with
      | ROk es' => ROk (es ++ es')
      | RAbort es' => RAbort (es ++ es')
      | RWait => RWait
      end
  | other => other
  end.

Fixpoint run_data (ctx : bool) (n : node) (ds : list dreq) : res :=
  match ds with
  | [] => ROk []
  | d :: rest => then_run n (data_handler ctx d) (fun n' => run_data ctx n' rest)
  end.

(** ** Split *)

(** raft_apply_handler.cc:235-441 HandlePreCreateRegionSplit, and the
    SaveRaftMeta of SplitHandler::Handle, :702-723, which writes the applied
    index of the previous entry. *)
Definition pre_split (id : Z) (s : split_req) (n : node) : res :=
  let w0 := op_job id (sp_job s) n in
  let n0 := performs n w0 in
  match nd_regs n0 id with
  | None => RAbort w0
  | Some p =>
      if negb (sp_ver s =? r_ver p) then ROk w0
      else
        match nd_regs n0 (sp_to s) with
        | None => RAbort w0
        | Some c =>
            if negb (rstate_eqb (r_state c) SStandby) then RAbort w0
            else if bleb (r_end p) (r_start p) then RAbort w0
            else if bleb (sp_key s) (r_start p) || bleb (r_end p) (sp_key s) then RAbort w0
            else
              ROk (w0 ++
                   seq [op_state (sp_to s) SSplitting;
                        op_state id SSplitting;
                        op_bump (sp_to s) (r_start p) (sp_key s);
                        op_bump id (sp_key s) (r_end p);
                        op_state id SNormal;
                        op_state (sp_to s) SNormal] n0 ++
                   [ESaved id (nd_applied n id)])
        end
  end.

(** raft_apply_handler.cc:444-484 CreateNewRegion: the raft meta (applied
    index 0), then the node, then the region meta.  Adding a raft node whose
    group already runs on this server fails and the caller aborts (:549-553). *)
Definition op_create (id : Z) (r : region) (n : node) : list eff :=
  [ESaved id 0; EMem id 0; EMeta id r].

(** raft_apply_handler.cc:486-698 HandlePostCreateRegionSplit. *)
Definition post_split (id : Z) (s : split_req) (n : node) : res :=
  let w0 := op_job id (sp_job s) n in
  let n0 := performs n w0 in
  match nd_regs n0 id with
  | None => RAbort w0
  | Some p =>
      if negb (sp_ver s =? r_ver p) then ROk w0
      else if bleb (r_end p) (r_start p) then RAbort w0
      else if bleb (sp_key s) (r_start p) || bleb (r_end p) (sp_key s) then RAbort w0
      else
        let w1 := op_state id SSplitting n0 in
        match nd_regs n0 (sp_to s) with
        | Some _ => RAbort (w0 ++ w1)
        | None =>
            ROk (w0 ++
                 seq [op_state id SSplitting;
                      op_create (sp_to s) (mkR SSplitting 1 2 (r_start p) (sp_key s) 0);
                      op_bump id (sp_key s) (r_end p);
                      op_state id SNormal;
                      op_state (sp_to s) SNormal] n0 ++
                 [ESaved id (nd_applied n id)])
        end
  end.

Definition split_handler (id : Z) (s : split_req) (n : node) : res :=
  if sp_pre s then pre_split id s n else post_split id s n.

(** ** Merge *)

(** helper.cc:1759-1769 CompareRegionEpoch. *)
Definition compare_epoch (c1 v1 c2 v2 : Z) : Z :=
  if (c1 =? c2) && (v1 =? v2) then 0
  else if (c1 <? c2) || (v1 <? v2) then -1 else 1.

(** raft_apply_handler.cc:792-884 PrepareMergeHandler.  LaunchCommitMergeCommand
    (:749-790) then proposes CommitMerge to the target and returns when the
    target's last change job reaches this one; it writes nothing here, and what
    the source applies meanwhile is refused because the state is MERGING, so
    the model does not wait for it. *)
Definition prepare_handler (id : Z) (p : prep_req) (n : node) : res :=
  let w0 := op_job id (pm_job p) n in
  let n0 := performs n w0 in
  match nd_regs n0 id with
  | None => RAbort w0
  | Some s =>
      let go := ROk (w0 ++ seq [op_state id SMerging; op_bump id (r_start s) (r_end s)] n0) in
      match nd_regs n0 (pm_target p) with
      | None => go
      | Some t =>
          let c := compare_epoch (r_conf t) (r_ver t) (pm_conf p) (pm_ver p) in
          if c =? 0 then go else if c <? 0 then RWait else ROk w0
      end
  end.

(** store_state_machine.cc:37 kSaveAppliedIndexStep. *)
Definition save_step := 10.

(** store_state_machine.cc:214-236 and :286-296: after an entry, the applied
    index in memory and, every tenth entry, on disk. *)
Definition finish (id i : Z) : list eff :=
  EMem id i :: (if i mod save_step =? 0 then [ESaved id i] else []).

(** store_state_machine.cc:241-306 CatchUpApplyLog: entries above the applied
    index, with no check of state or epoch. *)
Fixpoint catch_up_loop (id : Z) (es : list dentry) (n : node) : res :=
  match es with
  | [] => ROk []
  | e :: rest =>
      if de_index e <=? nd_applied n id then catch_up_loop id rest n
      else
        then_run n
          (match run_data false n (de_reqs e) with
           | ROk ws => ROk (ws ++ finish id (de_index e))
           | other => other
           end)
          (catch_up_loop id rest)
  end.

Definition catch_up (id : Z) (es : list dentry) (n : node) : res :=
  match es with
  | [] => ROk []
  | _ => if de_index (last es (mkD 0 0 0 [])) <=? nd_applied n id then ROk []
         else catch_up_loop id es n
  end.

(** helper.cc:1737 GenMaxStartKey. *)
Definition max_start_key : bytes := repeat 255 9.

(** raft_apply_handler.cc:932-948: the range of the target after the merge. *)
Definition merged_range (c : commit_req) (t : region) : bytes * bytes :=
  if beqb (cm_end c) (r_start t) then (cm_start c, r_end t) else (r_start t, cm_end c).

(** raft_apply_handler.cc:886-972 CommitMergeHandler. *)
Definition commit_handler (id : Z) (c : commit_req) (n : node) : res :=
  let w0 := op_job id (cm_job c) n in
  let n0 := performs n w0 in
  match nd_regs n0 id with
  | None => RAbort w0
  | Some t =>
      match nd_regs n0 (cm_source c) with
      | None => RAbort w0
      | Some s0 =>
          then_run n (ROk w0) (fun n1 =>
          then_run n1 (catch_up (cm_source c) (cm_entries c) n1) (fun n2 =>
          ROk (seq [op_state (cm_source c) SMerging;
                    op_epoch id (Z.max (cm_ver c) (r_ver t) + 1)
                             (fst (merged_range c t)) (snd (merged_range c t));
                    op_bump (cm_source c) max_start_key (r_end s0);
                    op_state (cm_source c) STombstone] n2)))
      end
  end.

(** ** Applying one entry *)

Definition handler (ctx : bool) (id : Z) (q : req) (n : node) : res :=
  match q with
  | QData d => data_handler ctx d
  | QSplit s => split_handler id s n
  | QPrepare p => prepare_handler id p n
  | QCommit c => commit_handler id c n
  end.

Fixpoint run_reqs (ctx : bool) (id : Z) (qs : list req) (n : node) : res :=
  match qs with
  | [] => ROk []
  | q :: rest => then_run n (handler ctx id q n) (run_reqs ctx id rest)
  end.

(** The status given to the proposer: pb::error OK, EREGION_UNAVAILABLE,
    EREGION_VERSION; [StSkipped]: the entry was applied before. *)
Inductive status := StOk | StUnavailable | StVersion | StSkipped.

Inductive ares := ADone (es : list eff) (st : status) | AAbort (es : list eff) | AWait.

(** store_state_machine.cc:151-155: states in which a log entry is abandoned. *)
Definition refused_state (s : rstate) : bool :=
  match s with
  | SDeleting | SDeleted | SMerging | SOrphan | STombstone => true
  | _ => false
  end.

(** store_state_machine.cc:108-238 on_apply, for one entry. *)
Definition on_apply (ctx : bool) (id : Z) (e : entry) (n : node) : ares :=
  match nd_regs n id with
  | None => AAbort []
  | Some r =>
      if e_index e <=? nd_applied n id then ADone [] StSkipped
      else if rstate_eqb (r_state r) SStandby then AWait
      else if refused_state (r_state r) then ADone (finish id (e_index e)) StUnavailable
      else if negb ((e_conf e =? r_conf r) && (e_ver e =? r_ver r))
      then ADone (finish id (e_index e)) StVersion
      else
        match run_reqs ctx id (e_reqs e) n with
        | ROk es => ADone (es ++ finish id (e_index e)) StOk
        | RAbort es => AAbort es
        | RWait => AWait
        end
  end.

(** The node after an entry has been applied, if it has. *)
Definition apply (ctx : bool) (id : Z) (e : entry) (n : node) : option node :=
  match on_apply ctx id e n with
  | ADone es _ => Some (performs n es)
  | _ => None
  end.
