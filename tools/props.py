#!/usr/bin/env python3
"""Regenerates properties.jsonl from the table below (run from /verif)."""
import json
P=[]
def p(id,title,statement,quantifier,why,anchors):
    P.append(dict(id=id,title=title,statement=statement,quantifier=quantifier,why_tests_cant=why,anchors=anchors))

p("C01","Key encoding round-trip",
  "Encoding a user key with a version timestamp and decoding the result gives back exactly the same key and timestamp; the decoder accepts every encoder output, and decoding never returns a key for a byte string the encoder cannot produce unless it is one of the documented malformed shapes.",
  "every user key (byte string of any length and content) and every timestamp in [0, 2^63)",
  "the key space is infinite and the padding rule depends on the length modulo 8 and on 0x00/0xFF content at group borders",
  ["src/mvcc/codec.cc:EncodeBytes","src/mvcc/codec.cc:DecodeBytes","src/mvcc/codec.cc:EncodeKey","src/mvcc/codec.cc:DecodeKey","src/common/serial_helper.cc"])
p("C02","Encoded keys sort by user key, then newest version first",
  "Comparing two stored keys byte-wise orders them first by user key (byte-wise) and then by descending timestamp; two different (key, timestamp) pairs never collide, and all versions of a key are contiguous and are exactly the stored keys in [enc(k), next(enc(k))).",
  "every pair of user keys and every pair of timestamps",
  "an order embedding is a statement about all pairs of unbounded strings, including keys that are prefixes of each other and keys with embedded 0x00 or 0xFF bytes",
  ["src/mvcc/codec.cc:EncodeBytes","src/mvcc/codec.cc:EncodeKey","src/mvcc/codec.cc:EncodeRange","src/common/helper.cc:PrefixNext"])
p("C03","Stored value packaging round-trip",
  "A value written by a put, a put with TTL or a delete is read back with the same kind, the same bytes and the same expiry time.",
  "every value (byte string, also empty) and every expiry time in [0, 2^63)",
  "unbounded values; the suffix layout overlaps user bytes, so any value may look like a flag or TTL",
  ["src/mvcc/codec.cc:PackageValue","src/mvcc/codec.cc:UnPackageValue","src/mvcc/codec.cc:GetValueFlag","src/mvcc/codec.cc:GetValueTTL"])
p("C04","Vector and document keys: round-trip and order",
  "Vector keys built from (prefix, partition, vector id[, scalar key][, ts]) decode to the same components, distinct components give distinct keys, and within a prefix the byte order is (partition, vector id, scalar key) order, so that a half-open key range is a half-open id range.",
  "every non-zero prefix byte, partition id in [1,2^63), vector id in [0,2^63), scalar key and timestamp",
  "unbounded id and scalar key space; ordering is a statement about all pairs",
  ["src/vector/codec.cc","src/document/codec.cc","src/common/serial_helper.cc"])
p("C05","Point reads return the newest visible version",
  "A get of key k at read timestamp ts returns the value of the newest version of k whose timestamp is <= ts, and reports not-found exactly when there is none or when that version is a delete or an expired TTL put. Other keys and newer versions never matter.",
  "every multi-version store content, every key, every read timestamp, every clock value",
  "ranges over all version histories and all byte-level neighbours of the key",
  ["src/mvcc/reader.cc:KvGet","src/mvcc/iterator.cc:NextVisibleKey"])
p("C06","Range scans return exactly the visible keys, once, in order",
  "A scan of [a,b) at ts returns precisely the keys in the range having a visible version at ts, each exactly once, in ascending key order, with the value a point read at ts would return; count and min-key agree with the scan.",
  "every store content, every range, every ts and clock value",
  "completeness, uniqueness and order must hold for every history and every number of versions per key",
  ["src/mvcc/reader.cc:KvScan","src/mvcc/reader.cc:KvCount","src/mvcc/reader.cc:KvMinKey","src/mvcc/iterator.cc"])
p("C07","Reverse iteration agrees with forward iteration",
  "The max-key read and reverse iteration over a range at ts visit exactly the visible keys of the range in descending order, with the same values as forward reads.",
  "every store content, every range, every ts and clock value",
  "the reverse walk sees versions oldest first and must undo its choice on newer deletes; only an all-histories argument covers the interleavings of deletes, expiries and too-new versions",
  ["src/mvcc/iterator.cc:PrevVisibleKey","src/mvcc/reader.cc:KvMaxKey"])
p("C08","No lost update between committed transactions",
  "If two different transactions both committed a write to the same key, one committed before the other started: the [start, commit] intervals of writers of a key never overlap.",
  "every sequence of prewrite, commit, rollback, resolve, check-status, heartbeat, lock and GC requests by any number of clients on any keys",
  "must hold for every interleaving of every client, including retries and resolvers",
  ["src/engine/txn_engine_helper.cc:Prewrite","src/engine/txn_engine_helper.cc:Commit","src/engine/txn_engine_helper.cc:OnePCommit"])
p("C09","A transaction is decided at most once per key",
  "For every key and transaction, at most one commit record ever exists, and a key is never both committed and rolled back by the same transaction, provided start and commit timestamps of different transactions are distinct.",
  "every request history with unique timestamps",
  "depends on all interleavings of retries, resolvers and TTL expiry",
  ["src/engine/txn_engine_helper.cc:DoTxnCommit","src/engine/txn_engine_helper.cc:DoRollback","src/engine/txn_engine_helper.cc:Prewrite"])
p("C10","Rejected transactional requests have no effect",
  "A prewrite, commit, pessimistic lock, pessimistic rollback, batch rollback or resolve request that reports an error for any of its keys leaves every stored lock, version and value unchanged for all of its keys.",
  "every state and every request with any number of keys in any order",
  "the failing key may be at any position in a request of any length",
  ["src/engine/txn_engine_helper.cc:Prewrite","src/engine/txn_engine_helper.cc:Commit","src/engine/txn_engine_helper.cc:PessimisticLock","src/engine/txn_engine_helper.cc:BatchRollback"])
p("C11","Retrying a request is harmless",
  "Re-sending a successful prewrite, commit, rollback, pessimistic-rollback, resolve or heartbeat request again succeeds and does not change the stored data.",
  "every state reached by the first request and every request",
  "client retries can arrive after any successful request on any state",
  ["src/engine/txn_engine_helper.cc:Commit","src/engine/txn_engine_helper.cc:BatchRollback","src/engine/txn_engine_helper.cc:Prewrite"])
p("C12","Rollback is final",
  "Once a rollback of transaction T on key k has been acknowledged, no later prewrite of k by T succeeds and T is never committed on k, until garbage collection passes T's start timestamp.",
  "every history after the rollback",
  "late-arriving prewrites may be delayed arbitrarily",
  ["src/engine/txn_engine_helper.cc:DoRollback","src/engine/txn_engine_helper.cc:MarkRollBackOnMissingLock","src/engine/txn_engine_helper.cc:Prewrite"])
p("C13","Locks are exclusive",
  "While a key is locked by a transaction, every prewrite, pessimistic lock or commit of that key by another transaction fails and leaves the lock in place; only the owner's commit/rollback, a TTL-expiry check or a resolve for the owner's start timestamp removes it.",
  "every state with a lock and every request by another transaction",
  "must hold for every request mix and every number of keys",
  ["src/engine/txn_engine_helper.cc:PessimisticLock","src/engine/txn_engine_helper.cc:Prewrite","src/engine/txn_engine_helper.cc:Commit","src/engine/txn_engine_helper.cc:ResolveLock"])
p("C14","Snapshot reads return committed data as of the read timestamp",
  "A transactional get at start_ts returns the value of the newest committed put with commit_ts <= start_ts (skipping rollback and lock records), nothing if that is a delete or nothing exists, and a lock error whenever an earlier-started conflicting lock exists; uncommitted values are never returned.",
  "every state, every key list, every timestamp, isolation level and resolved-lock set",
  "ranges over all version histories and lock states",
  ["src/engine/txn_engine_helper.cc:BatchGet","src/engine/txn_engine_helper.cc:CheckLockConflict","src/engine/txn_engine_helper.cc:GetWriteInfo"])
p("C15","Repeatable reads",
  "If a snapshot read at ts of key k succeeded, every later snapshot read of k at the same ts that succeeds returns the same result, provided later commit timestamps handed out by the oracle are greater than ts; commit timestamps the store itself computes (one-phase and async commit) always exceed every read timestamp served before.",
  "every request history between the two reads",
  "arbitrary interleavings of writers between the two reads",
  ["src/engine/txn_engine_helper.cc:GenFinalMinCommitTs","src/engine/txn_engine_helper.cc:BatchGet","src/engine/txn_engine_helper.cc:Prewrite"])
p("C16","Heartbeats only extend the caller's own lock",
  "A transaction heartbeat never shortens a lock's TTL, never touches a lock of another transaction, and changes nothing but the TTL.",
  "every state, key, start timestamp and advised TTL",
  "all lock states and arguments",
  ["src/engine/txn_engine_helper.cc:HeartBeat"])
p("C17","Status checks: no premature rollback, permanent verdicts",
  "A status check on the primary key never rolls back a transaction whose lock TTL has not expired; once it answered committed(ts) or rolled-back, every later status check of that transaction answers the same (until GC).",
  "every state, clock and history",
  "all races of resolvers with the committing client",
  ["src/engine/txn_engine_helper.cc:CheckTxnStatus","src/engine/txn_engine_helper.cc:TxnCheckSecondaryLocks"])
p("C18","Multi-key atomicity",
  "With clients following the protocol (secondaries are committed only after the primary committed with that timestamp; resolvers act only on the primary's verdict; a client rolls back only when no commit attempt of it can have succeeded), with timestamps from one oracle, and with garbage collection not yet past a transaction that is still being worked on, no history leaves one key of a transaction committed and another key of it rolled back, and all its commits carry the same timestamp.",
  "every number of keys, every client crash point and every interleaving of the client with any number of resolvers",
  "crash points and interleavings are unbounded",
  ["src/engine/txn_engine_helper.cc:Commit","src/engine/txn_engine_helper.cc:CheckTxnStatus","src/engine/txn_engine_helper.cc:ResolveLock","src/engine/txn_engine_helper.cc:BatchRollback"])
p("C19","Transactional garbage collection preserves reads at or above the safe point",
  "Running garbage collection with a safe point changes no transactional read whose timestamp is at or above the safe point, never touches locks, and never removes a version newer than the safe point; also if it is stopped or crashes between batches.",
  "every store content, safe point, batch size and stop point",
  "all version histories and all batch boundaries / crash points",
  ["src/engine/txn_engine_helper.cc:DoGcCoreTxn","src/engine/txn_engine_helper.cc:DoGc"])
p("C20","Non-transactional garbage collection preserves reads at or above the safe point",
  "Same guarantee for the multi-version key-value data: reads at any timestamp at or above the safe point are unchanged by GC, TTL-expired and superseded versions are removed.",
  "every store content, safe point, clock, batch size and stop point",
  "all version histories and all batch boundaries / crash points",
  ["src/engine/txn_engine_helper.cc:DoGcCoreNonTxn"])
p("C21","Lock scans and lock resolution are complete",
  "A lock scan of a range returns exactly the locks whose start timestamp lies in the requested window, in key order; resolving a transaction over a region leaves none of its prewrite locks behind and turns each into a commit (or rollback) record of that transaction only.",
  "every lock set, window, range and limit",
  "completeness over all lock sets and page boundaries",
  ["src/engine/txn_engine_helper.cc:ScanLockInfo","src/engine/txn_engine_helper.cc:BatchResolveLock","src/engine/txn_engine_helper.cc:ResolveLock"])
p("C22","Timestamp oracle: unique, increasing timestamps",
  "No two timestamp requests ever receive overlapping timestamp ranges, and each range issued after another is larger, across clock jumps, leader changes and restarts.",
  "every schedule of requests, timer ticks, clock readings, raft applies, leader changes and snapshots",
  "clock jumps and leader changes at any point",
  ["src/coordinator/tso_control.cc:GenTso","src/coordinator/tso_control.cc:UpdateTimestamp","src/coordinator/tso_control.cc:UpdateTso","src/coordinator/tso_control.cc:OnLeaderStart"])
p("C23","Auto-increment: generated id ranges never overlap",
  "Id ranges returned by generate requests for one table never overlap, and ranges of later requests are larger, across leader changes, snapshots and restarts.",
  "every sequence of create/update/generate/delete requests and every parameter combination",
  "fixed-width arithmetic over all counts, increments and offsets, and all interleavings",
  ["src/coordinator/auto_increment_control.cc:ApplyMetaIncrement","src/coordinator/auto_increment_control.cc:GetGenerateEndId","src/coordinator/auto_increment_control.cc:GetRealStartId"])
p("C24","Versioned KV: put/delete/range semantics and revisions",
  "Every applied put or delete gets a strictly larger revision; a range read returns, in key order and up to its limit, for each live key of its range the value of its last put with create revision, mod revision and version (number of puts since creation); deleted keys are not returned. (A read to the end of the key space is only claimed to cover keys other than the very last legal one, 4096 bytes 0xff.)",
  "every history of puts, deletes and compactions on any keys",
  "unbounded histories of create/delete generations",
  ["src/coordinator/kv_control_kv.cc:KvPutApply","src/coordinator/kv_control_kv.cc:KvDeleteApply","src/coordinator/kv_control_kv.cc:KvRange"])
p("C25","Versioned KV compaction keeps the live data",
  "A request to compact keys up to a revision never changes what a range read returns now, removes only revisions below the compaction revision, and reclaims fully deleted keys. (Which keys the background task asks to compact: C61. Crashes: C60.)",
  "every history and every compaction revision",
  "all generation structures",
  ["src/coordinator/kv_control_kv.cc:KvCompactApply","src/coordinator/kv_control_kv.cc:CompactionTask"])
p("C26","Leases: expiry removes exactly the attached keys",
  "When requests are served one at a time and no delete request removes two keys of one lease at once: revoking a lease, or the background task finding it more than its ttl past its last renewal, removes the lease and deletes exactly the keys attached to it then; keys without a lease or attached to another lease stay; renewing sets the time of the last renewal to now; a put under a lease attaches the key if the lease is there and in time, and changes nothing otherwise; this also across changes of leader.",
  "every history of grants, renewals, revocations, puts, deletes, compactions, task runs and leader changes",
  "unbounded histories; the lease-to-key index is maintained incrementally",
  ["src/coordinator/kv_control_lease.cc","src/coordinator/kv_control_kv.cc:KvPut","src/coordinator/kv_control_kv.cc:KvDeleteRange"])
p("C27","A watch is answered once, for the first matching event",
  "When requests are served one at a time, fewer than 50000 watches were made before and the replicated log deletes only keys that exist: a one-time watch on a key is answered at once if the key does not exist and the client does not want to wait for it, or if its last put is after the start revision (whatever the filters say); otherwise it is answered with the first later put or delete of that key that the filters let through and that is not before the start revision; otherwise without an event when the cleaning task runs after the client left, or when the node stops leading; and in every case at most once. Deletes before the registration are not reported, and an event shows the entry before the change with its version raised by one.",
  "every history of registrations, applied entries, cancellations, cleaning runs and leader changes, served one at a time",
  "unbounded histories",
  ["src/coordinator/kv_control_watch.cc:OneTimeWatch","src/coordinator/kv_control_watch.cc:TriggerOneWatch","src/coordinator/kv_control_fsm.cc:OnLeaderStop"])
p("C28","Coordinator id allocation never repeats",
  "Ids handed out by the coordinator's id-epoch allocator are strictly increasing and never reused, also after applying older replicated updates.",
  "every sequence of allocations and applied updates",
  "all interleavings of allocation and replicated apply",
  ["src/coordinator/coordinator_meta_storage.h:DingoSafeIdEpochMap"])
p("C29","Raft apply is idempotent across crashes",
  "After a crash at any point, restarting from the last persisted applied index and re-applying the log suffix gives the same data as applying the log once.",
  "every log, every persisted index not beyond the crash point and every crash point",
  "all crash points and log contents",
  ["src/raft/store_state_machine.cc:on_apply","src/handler/raft_apply_handler.cc:PutHandler","src/handler/raft_apply_handler.cc:DeleteRangeHandler","src/handler/raft_apply_handler.cc:DeleteBatchHandler"])
p("C30","Latches: mutual exclusion",
  "Provided that no key hashes to 0, two commands that hold their latches at the same time never share a key hash, also while they are still acquiring or releasing, and a command holds exactly the latches of the keys it asked for.",
  "every number of slots, every number of commands with any keys, every schedule of their critical sections",
  "all schedules",
  ["src/common/latch.cc:Latches::Acquire","src/common/latch.cc:Latches::Release"])
p("C31","Latches: no lost wake-up, no deadlock",
  "Provided that no key hashes to 0: a waiting command has exactly one wake-up on its way once it is first in its queue, and no other command has one; queues are first come, first served; no schedule aborts; unless all commands have finished some command can move; and the number of steps is bounded, so every waiting command is granted its latches if owners release.",
  "every number of slots, every set of commands, every schedule",
  "liveness over all schedules",
  ["src/common/latch.cc"])
p("C32","In-memory lock table checks",
  "For one-phase and async-commit prewrites of the store service whose for_update_ts is covered by the request: a snapshot read that was answered contains every prewrite of a key it read that may commit at or below its timestamp; a published lock is found by every look-up until its prewrite has written; nothing stays published once no prewrite is in progress; and a read is refused only because of an unresolved prewrite of a key it reads that could commit at or below its timestamp.",
  "every set of readers and prewrites, every interleaving of their critical sections, every failure of a prewrite, every key list and range",
  "the race between publishing a lock, raising the region's access timestamp and looking the lock up depends on the interleaving",
  ["src/engine/concurrency_manager.cc","src/engine/txn_engine_helper.cc:GenFinalMinCommitTs","src/server/store_service.cc:DoTxnGet","src/server/store_service.cc:DoTxnPrewrite"])
p("C33","Region split partitions the key range",
  "After a split every key of the old region belongs to exactly one of the two regions, no other key changes owner, both epochs increase, and rejected splits change nothing.",
  "every region set, split request, and sequence of splits and merges",
  "all keys and all sequences of range changes",
  ["src/handler/raft_apply_handler.cc:HandlePreCreateRegionSplit","src/handler/raft_apply_handler.cc:HandlePostCreateRegionSplit"])
p("C34","Region merge unions the key ranges",
  "Preparing a merge changes no owner and no data. After the commit of a merge of two adjacent regions, whose request carries the source's range, the target owns exactly the union of both ranges, the source owns nothing, no other region's keys change, and the target's version exceeds both old versions.",
  "every store, pair of adjacent regions (source left or right of the target) and merge request",
  "all keys and all region sets",
  ["src/handler/raft_apply_handler.cc:PrepareMergeHandler","src/handler/raft_apply_handler.cc:CommitMergeHandler","src/raft/store_state_machine.cc:CatchUpApplyLog"])
p("C35","Commands with a stale region epoch are never applied",
  "A command that is applied from a region's own log and whose region epoch differs from the region's current epoch, or that reaches a region that is being deleted or merged away, changes no data and its caller gets an error. Since a region's range changes only with its version, a command that was checked against the range when it was proposed only writes keys the region still has when it is applied.",
  "every log of writes mixed with splits and merges",
  "all interleavings of range changes with in-flight commands",
  ["src/raft/store_state_machine.cc:on_apply","src/common/helper.cc:IsEqualRegionEpoch"])
p("C36","Log term lookup",
  "After any sequence of appends, prefix and suffix truncations, the term reported for an index that is in the log and that raft has not truncated is the term that entry was appended with, whether or not the cache of terms is used.",
  "every operation sequence and every index",
  "all log shapes, both search branches (fewer and at least 15 term changes)",
  ["src/log/index_term_map.cc"])
p("C37","Paged transactional scans lose and repeat nothing",
  "Concatenating the pages of a paged transactional scan gives exactly the unpaged result of the snapshot the first page was taken from, as long as the values that snapshot refers to are still stored; every page but the last makes progress and none exceeds its limit.",
  "every data set, page limit and number of pages",
  "all page boundaries",
  ["src/common/stream.cc","src/engine/txn_engine_helper.cc:Scan","src/engine/txn_engine_helper.cc:ScanLockInfo"])
p("C38","Range options translate to the intended half-open range",
  "A range given with inclusive/exclusive flags is translated to a half-open byte range containing the intended keys; intersecting, containment and conflict tests on ranges agree with the sets of keys they denote.",
  "every pair of ranges and every key",
  "all byte strings including all-0xFF and empty bounds",
  ["src/common/helper.cc:PrefixNext","src/common/helper.cc:TransformRangeWithOptions","src/common/helper.cc:IntersectRange","src/common/helper.cc:IsConflictRange","src/common/helper.cc:IsContainRange"])
p("C39","Client-side timestamp batches are used at most once and respect the lower bound",
  "Timestamps handed out by a node's timestamp cache are never handed out twice, and a request for a timestamp after T never gets one <= T.",
  "every schedule of the atomic steps of any number of requests, one renewal task and bound updates; every batch sequence without common timestamps",
  "all interleavings of consumers with batch exhaustion and staleness",
  ["src/mvcc/ts_provider.cc:BatchTsList","src/mvcc/ts_provider.h"])
p("C40","No request history aborts the store",
  "Whatever sequence of transaction requests with non-negative timestamps arrives, in whatever order and with crashes, restarts and garbage collections in between, no request handler reaches a fatal check: every request is answered. (Collections of tenants whose safe point the store has fetched; for others see C139.)",
  "every history of requests, crash points, restarts and collections",
  "the fatal checks depend on combinations of stored locks and records that only some histories produce",
  ["src/engine/txn_engine_helper.cc"])
p("C41","An acknowledged prewrite holds until the transaction is decided",
  "After a prewrite was answered with success, every key it writes stays locked for the transaction (or committed by it) through crashes, restarts and other requests until the transaction is committed or rolled back on that key.",
  "every history after the prewrite",
  "all interleavings of later requests, retries and crashes",
  ["src/engine/txn_engine_helper.cc:Prewrite","src/engine/txn_engine_helper.cc:PessimisticLock"])
p("C42","An acknowledged commit is durable on all its keys",
  "After a commit was answered with success, the commit record with that timestamp exists on every key of the request, and stays through every later history of requests, crashes and restarts until garbage collection passes the commit timestamp, provided start and commit timestamps of different transactions are distinct.",
  "every history after the commit",
  "all interleavings of later requests, retries, resolves and crashes",
  ["src/engine/txn_engine_helper.cc:Commit","src/engine/txn_engine_helper.cc:DoTxnCommit"])
p("C43","Values read are values written",
  "Every value a transactional read returns was put on exactly that key by a prewrite of the transaction whose commit the read sees, and every delete it sees was asked for by that transaction; values are never invented, mixed up between keys or transactions, or truncated.",
  "every history of requests, crashes, restarts and collections, every key and timestamp",
  "the value passes through lock records, data and write records along every possible path of prewrite, retry, commit, resolve and one-phase commit",
  ["src/engine/txn_engine_helper.cc:Prewrite","src/engine/txn_engine_helper.cc:OnePCommit","src/engine/txn_engine_helper.cc:DoTxnCommit","src/engine/txn_engine_helper.cc:BatchGet"])
p("C44","Paged lock scans lose and repeat nothing",
  "Concatenating the pages of a paged lock scan gives exactly the locks of the range and time window, each once, and the scan ends.",
  "every lock set, window, limit and number of pages",
  "all page boundaries",
  ["src/engine/txn_engine_helper.cc:ScanLockInfo","src/common/stream.cc"])
p("C45","The raft log keeps exactly what was appended",
  "For every region, the entries between the reported first and last index are there exactly as they were last appended, nothing is there outside, range reads return exactly those in order, other regions' calls, truncations and a restart of a non-empty log do not change that, and no call within raft's contract aborts the store.",
  "every history of opens, appends, truncations, resets, destructions and restarts over any number of regions",
  "all interleavings of regions and all log shapes",
  ["src/log/rocks_log_storage.cc"])
p("C46","The log is kept for every consumer",
  "An appended entry disappears from the front of the log only if the latest request of every registered consumer (raft, vector index) allows it.",
  "every history and every set of consumers",
  "all orders of requests of several consumers",
  ["src/log/rocks_log_storage.cc:TruncatePrefix","src/handler/raft_vote_handler.cc"])
p("C47","What a garbage collection pass removes and keeps",
  "Whichever of its batches take effect, a collection adds nothing and removes no version newer than the safe point. A completed one leaves, of the versions at or below the safe point, exactly those that are the newest of their key and hold a live value, removes large values together with their records, and afterwards every read at any timestamp answers as before or 'not found': an older value never comes back.",
  "every store content, safe point, batch size, every subset of batches, and every set of writes above the safe point that happen meanwhile",
  "all version histories, batch boundaries and interleavings with writers",
  ["src/engine/txn_engine_helper.cc:DoGcCoreTxn","src/engine/txn_engine_helper.cc:DoGcCoreNonTxn"])
p("C48","Coordinator ids stay unique across leader changes",
  "An id contained in the answer of a committed request, or of a request that may still commit, is never handed out again by any coordinator node, across leader changes, restarts and snapshots; later ids of the same counter are larger.",
  "every schedule of requests, commits, applies, elections, restarts and snapshot installations on any number of nodes",
  "all schedules of a replicated group",
  ["src/coordinator/coordinator_control.cc:GetNextId","src/coordinator/coordinator_control.cc:InitIds","src/coordinator/coordinator_control_fsm.cc:BuildTempMaps","src/coordinator/coordinator_control_fsm.cc:ApplyMetaIncrement","src/raft/meta_state_machine.cc:on_leader_start"])
p("C49","Version-kv ids survive restarts",
  "A lease id or revision whose allocation has been applied is not handed out again, also after restarts.",
  "every sequence of allocations, applied updates and restarts",
  "all orders of commits and all crash points",
  ["src/coordinator/kv_control.cc:GetNextId","src/coordinator/kv_control_fsm.cc:ApplyMetaIncrement","src/coordinator/kv_control.cc:Recover"])
p("C50","Waking a command never touches a finished one",
  "Releasing latches touches only the wait conditions of commands that are still waiting, never the memory of a finished request.",
  "every schedule of every set of commands",
  "a race between the signal and the end of the woken request",
  ["src/common/synchronization.cc:DecreaseSignal","src/meta/store_meta_manager.cc:LatchesRelease","src/server/service_helper.cc:LatchesAcquire"])
p("C51","A leader of the timestamp oracle serves requests",
  "Once the start-up entry of a new leader has been applied, it answers every timestamp request that fits into the current millisecond with the requested number of timestamps.",
  "every schedule of requests, timer ticks, clock readings, raft applies, leader changes and snapshots",
  "state left behind by failed start-ups of any earlier leadership",
  ["src/coordinator/tso_control.cc:GenTso","src/coordinator/tso_control.cc:OnLeaderStart","src/coordinator/tso_control.cc:SyncTimestamp"])
p("C52","Auto-increment: a range holds the requested ids",
  "The range returned by a generate request contains the requested number of ids of the requested increment/offset grid.",
  "every sequence of create/update/generate/delete requests and every parameter combination within the documented limits",
  "fixed-width arithmetic over all counts, increments and offsets",
  ["src/coordinator/auto_increment_control.cc:GetGenerateEndId","src/coordinator/auto_increment_control.cc:GetRealStartId","src/coordinator/auto_increment_control.cc:ApplyMetaIncrement"])
p("C53","Timestamp cache: later requests get larger timestamps",
  "On one node, a timestamp request that starts after another one returned gets a larger timestamp, if each batch obtained from the oracle is above the earlier ones.",
  "every schedule of the atomic steps of any number of requests and renewals",
  "lock-free list: all interleavings of pops, appends and counter increments",
  ["src/mvcc/ts_provider.cc:BatchTsList::GetTs","src/mvcc/ts_provider.cc:BatchTsList::Push","src/mvcc/ts_provider.h:BatchTs::GetTs"])
p("C54","Timestamp cache: a new leader writes above everything the old one wrote",
  "After a node became leader of a region and set the lower bound to the largest timestamp applied in the region, every timestamp it hands out for later writes is above that bound.",
  "every schedule of requests, renewals and leader changes of any number of regions on the node",
  "several regions can change leader at the same moment",
  ["src/mvcc/ts_provider.h:SetMinValidTs","src/event/store_state_machine_event.cc:SmLeaderStartEventListener::OnEvent"])
p("C55","Timestamp cache: a renewal makes the cache serve again",
  "Whatever the history, after a renewal obtained a batch above the requested lower bound, a request that runs undisturbed gets a timestamp in bounded time.",
  "every reachable state of the cache (stale or exhausted batches, lagging tail, requests stopped at any step)",
  "progress has to hold from every intermediate state of a lock-free structure",
  ["src/mvcc/ts_provider.cc:BatchTsList::GetTs","src/mvcc/ts_provider.cc:BatchTsList::Push","src/mvcc/ts_provider.cc:IsStale"])
p("C56","Region merge: the source's last commands are applied exactly once",
  "When a merge is committed, a replica that has applied only part of the source's log up to the prepare point ends with the data of a replica that applied all of it command by command, and no command takes effect twice.",
  "every log suffix of the source and every point up to which a replica has applied it",
  "all log gaps between replicas, and all command contents",
  ["src/handler/raft_apply_handler.cc:CommitMergeHandler","src/raft/store_state_machine.cc:CatchUpApplyLog"])
p("C57","A crash during a split or merge is repaired",
  "If the process dies at any write of a split or a merge and is restarted, applying the log again leaves the same regions (ranges, versions, owners) as an undisturbed run.",
  "every split or merge command and every crash point in it",
  "all crash points between the writes of region metadata",
  ["src/handler/raft_apply_handler.cc:HandlePreCreateRegionSplit","src/handler/raft_apply_handler.cc:HandlePostCreateRegionSplit","src/handler/raft_apply_handler.cc:CommitMergeHandler"])
p("C58","Replicas agree whatever the order between regions",
  "Two stores that apply the same log for every region end with the same regions and data, however the logs of different regions are interleaved.",
  "every set of regions, logs, and pair of interleavings",
  "the relative speed of the raft groups is arbitrary",
  ["src/raft/store_state_machine.cc:on_apply","src/handler/raft_apply_handler.cc:PrepareMergeHandler"])
p("C59","Versioned KV: request options do what they say",
  "keys_only leaves out values only; limit cuts the answer; count_only returns the number of keys; ignore_lease keeps the lease and ignore_value the value of the key; the previous entry in an event is the entry before the change.",
  "every history and every combination of options",
  "all histories and options",
  ["src/coordinator/kv_control_kv.cc:KvRange","src/coordinator/kv_control_kv.cc:KvPut","src/coordinator/kv_control_kv.cc:KvPutApply","src/server/version_service.cc"])
p("C60","Versioned KV: a crash while applying is not visible",
  "If a coordinator dies at any write while it applies a put, a deletion, a lease change or a compaction, restarts and applies the entry again, all later reads, leases and revisions are as without the crash.",
  "every history, every entry and every crash point in it",
  "all crash points between the writes of one entry",
  ["src/coordinator/kv_control_fsm.cc:ApplyMetaIncrement","src/coordinator/kv_control_kv.cc:KvPutApply","src/coordinator/kv_control.cc:Recover"])
p("C61","Versioned KV: the background compaction reaches every key",
  "Each run of the compaction task compacts every key of the store up to the retained revision.",
  "every store",
  "all numbers of keys",
  ["src/coordinator/kv_control_kv.cc:CompactionTask"])
p("C62","Leases stay exact under concurrency and failures",
  "Revoking or expiring a lease deletes exactly the keys attached to it also when requests overlap, when proposals fail, when a delete removes several keys of the lease, and right after an election.",
  "every interleaving of requests, applied entries, lost proposals and elections",
  "all interleavings; windows between changing the table and applying the entry",
  ["src/coordinator/kv_control_lease.cc","src/coordinator/kv_control_kv.cc:KvPut","src/coordinator/kv_control_kv.cc:KvDeleteRange"])
p("C63","No wakeup of a watch is lost",
  "However registrations, the applying of entries, cancellations, cleaning runs and leader changes interleave, a client whose watch was accepted and that waits for a key gets an answer when an event it wants is applied after its look at the store, or when the node stops leading.",
  "every interleaving of the steps of the apply thread with registrations, cancellations, cleaning runs and leader changes",
  "all interleavings; the apply thread reads the table of watches outside its lock",
  ["src/coordinator/kv_control_watch.cc:OneTimeWatch","src/coordinator/kv_control_watch.cc:TriggerOneWatch","src/coordinator/kv_control_fsm.cc:OnLeaderStart"])
p("C64","What a watch is told is true",
  "However the steps interleave: each watch request is answered at most once; an answer with an event is either the one the state of the store called for at some moment while the log was applied, or an event of the log on the watched key, of a kind the client asked for and not before the start revision; the process never stops because a watch to answer is missing.",
  "every interleaving of the steps of the apply thread with registrations, cancellations, cleaning runs and leader changes",
  "all interleavings of two locks",
  ["src/coordinator/kv_control_watch.cc:OneTimeWatch","src/coordinator/kv_control_watch.cc:TriggerOneWatch","src/coordinator/kv_control_watch.cc:RemoveOneTimeWatch"])
p("C65","Asynchronous commit is decided by the locks",
  "With clients and resolvers following the rules of asynchronous commit (two-phase commit begins only when a lock of the transaction is known not to be marked for asynchronous commit; a forced status check is sent only then; a client gives up only while some key was never prewritten; timestamps come from one plan; garbage collection waits), a transaction whose every key carries a marked lock is committed exactly at the largest min_commit_ts of those locks: never rolled back on any key, never committed at another timestamp, and no key of it is lost; what anybody concludes from the answers received agrees with that; and no transaction is committed on one key and rolled back on another, or committed at two timestamps.",
  "every number of regions, keys, clients and resolvers, every order of requests, lost answer, repeated request and crash point",
  "no record says that the transaction is committed: it follows from locks in several regions, read at different times",
  ["src/engine/txn_engine_helper.cc:Prewrite","src/engine/txn_engine_helper.cc:GenFinalMinCommitTs","src/engine/txn_engine_helper.cc:CheckTxnStatus","src/engine/txn_engine_helper.cc:TxnCheckSecondaryLocks","src/engine/txn_engine_helper.cc:ResolveLock"])
p("C66","Raw requests to a settled leader are linearizable, with time-to-live",
  "Get, batch get, put, batch put, put-if-absent and compare-and-set (single, batch atomic, batch non-atomic, with or without time-to-live), batch delete and range delete of one region behave as if each had acted at one instant between its arrival and its answer on one map whose entries vanish at their deadline (a batch get may read its keys at different instants); a request answered with a failure may or may not have acted. In particular a later read returns an acknowledged put until it expires and never afterwards, and the server does not abort. Conditions: requests go to the leader after its on_leader_start, the leadership does not change between the read and the proposal of a conditional write, no range delete over the keys of a write in progress and no expiry of a stored value happens during a conditional write, a new leader has applied the data itself rather than got it by a snapshot, and no empty value has a time-to-live.",
  "every number of peers, sequence of requests, interleaving of their steps, replication progress, leader change and loss of unreplicated entries, snapshot, and clock",
  "the answer depends on how the steps of concurrent requests, the apply threads of several peers, elections and the clock interleave",
  ["src/server/store_service.cc:DoKvCompareAndSet","src/server/store_service.cc:DoKvPutIfAbsent","src/server/store_service.cc:DoKvDeleteRange","src/engine/raft_store_engine.cc:Writer","src/engine/storage.cc:KvGet","src/event/store_state_machine_event.cc:SmLeaderStartEventListener"])
p("C67","Raw requests are linearizable, unconditionally",
  "The guarantee of C66 without its conditions, for whatever peer a request is sent to and whatever happens meanwhile, and with batch gets as one instant.",
  "as C66",
  "as C66; the violations need a leader change, an expiry, a snapshot or a range delete at one particular moment",
  ["src/server/store_service.cc:DoKvDeleteRange","src/engine/raft_store_engine.cc:KvCompareAndSet","src/raft/raft_node.cc:Commit","src/engine/storage.cc:ValidateLeader","src/handler/raft_apply_handler.cc:PutHandler"])
p("C68","Put-if-absent has one winner",
  "Of all put-if-absent requests for a key that no request deletes, overwrites conditionally or lets expire, at most one is answered that it stored its value, under the conditions of C66.",
  "every number of competing requests, peers and interleavings as in C66",
  "clients build locks on it; two winners need a race",
  ["src/engine/raft_store_engine.cc:KvPutIfAbsent","src/server/service_helper.cc:LatchesAcquire"])
p("C69","Vector search sees exactly the stored vectors, in calm circumstances",
  "When the vector index of a region serves and no apply is under way, a search can find an id with a vector if and only if that vector is the one stored under that id and the id belongs to the region, through index builds, catch-up from the log, index switches, splits (index shared with the child), merges (sibling index), saves, loads and restarts. Circumstances: no request names an id twice; timestamps increase along the logs; splits and merges are applied while no build runs and the index in use is the region's own, and the source of a merge has an index if the target has one; additions to an HNSW region with a sibling reach both; catch-up rounds read only entries of the present epoch with no id added twice; at the switch no index write is under way and no applied vector write is left unread; a restart resumes at or after the saved ApplyLogId and after the last split or merge (after a restart: for ids with no write left to apply).",
  "every number of regions, every sequence of vector requests, splits, merges, builds, saves, loads, restarts and interleaving of the apply thread with the index thread, both index kinds, any batch size and any order of the thread pool",
  "the apply thread, the index thread and the raft log meet in many orders",
  ["src/vector/vector_index_manager.cc:BuildVectorIndex","src/vector/vector_index_manager.cc:CatchUpLogToVectorIndex","src/vector/vector_index_manager.cc:ReplayWalToVectorIndex","src/vector/vector_index.cc:VectorIndexWrapper::UpdateVectorIndex","src/handler/raft_apply_handler.cc:VectorAddHandler","src/vector/vector_index_snapshot_manager.cc:SaveVectorIndexSnapshot"])
p("C70","Vector search sees exactly the stored vectors, always",
  "The guarantee of C69 without its circumstances, at least once the region is at rest.",
  "as C69",
  "as C69; the violations need a write, split or restart at one particular moment of a build",
  ["src/vector/vector_index_manager.cc:CatchUpLogToVectorIndex","src/vector/vector_index_manager.cc:ReplayWalToVectorIndex","src/vector/vector_index.cc:VectorIndexWrapper::Add","src/vector/vector_index_flat.cc:AddOrUpsert","src/handler/raft_apply_handler.cc:VectorAddHandler","src/log/rocks_log_storage.cc:GetDataEntries"])
p("C71","The answers of two sibling indexes are merged into a correct answer",
  "If each of two sibling indexes answers with the k nearest of its own vectors, nearest first, then the merged list is the k nearest of all of them, nearest first; the merge of two range searches keeps every element exactly once.",
  "every k, every two answers of any length, with ties",
  "all inputs of any length",
  ["src/vector/vector_index.cc:MergeSearchResult","src/vector/vector_index.cc:MergeRangeSearchResults"])
p("C72","Each query of a batch gets its own answer",
  "A search with several query vectors answers each of them as if it were sent alone, whatever the configured number of queries per task and the order in which the tasks run.",
  "every list of queries, batch size and order of the thread pool",
  "the default setting hides the fault; it depends on the setting and the number of queries",
  ["src/vector/vector_index.cc:SearchByParallel","src/vector/vector_index.cc:RangeSearchByParallel","src/vector/vector_index.cc:SplitVectorWithId"])
p("C73","A scan session pages through one snapshot",
  "The pages answered in a scan session (begin, then continue until told the end), put one after the other, are the beginning of what a single scan of the range at the time of the begin would return, and all of it once the end is reported, whatever is written, cleaned or requested by others in between; every page respects the requested size, the server's limit for non-negative sizes and the byte limit, and ends early only because of one of them; no request stops the process. Provided the session id is not begun twice.",
  "every store content, range, page size, configuration and interleaving of requests (lock by lock), writes, cleanings and clock changes",
  "needs every interleaving of clients, writers and the cleaner over sessions of any length",
  ["src/scan/scan.cc","src/scan/scan_manager.cc","src/scan/scan_filter.cc","src/engine/storage.cc:KvScanBegin","src/engine/storage.cc:KvScanContinue","src/server/store_service.cc"])
p("C74","Scan sessions live exactly as long as they are used",
  "A session whose uses are less than the timeout apart is never taken away: the next continue is answered (clock never going back, id begun once, no request of it failed or released it). A cleaning that meets no busy session leaves only sessions used within the timeout, and none that was released unless the client asked to keep it.",
  "every interleaving of requests, cleanings and clock changes, any number of sessions",
  "the cleaner races with every request; depends on times and interleavings",
  ["src/scan/scan_manager.cc:RegularCleaningHandler","src/scan/scan.cc:IsRecyclable","src/scan/scan_manager.cc:TryDeleteScan"])
p("C75","Vector reads by id return exactly what is stored",
  "In a vector region, after any writes: a batch query answers every id with the vector last added under it (at the read timestamp, not deleted later, not expired) with the parts asked for - data, attributes, a choice of attributes, table data - and with nothing if there is none; a scan returns, in id order in the direction asked, the first of exactly the stored ids between start and end that match the attribute filter; the count is their number; the border ids are the least and the greatest; and no accepted write fails. Provided ids and scan limits are positive, a vector with an expiry time carries attributes and table data, and attribute values are of their declared types (not DATETIME) when filtering.",
  "every history of adds (with or without expiry) and deletes at any timestamps, every id, range, limit, direction, filter and clock",
  "a region holds several column families and versions that must agree for every history",
  ["src/vector/vector_reader.cc:VectorReader::VectorBatchQuery","src/vector/vector_reader.cc:VectorReader::VectorScanQuery","src/vector/vector_reader.cc:VectorReader::ScanVectorId","src/vector/vector_reader.cc:VectorReader::GetBorderId","src/vector/vector_reader.cc:VectorReader::VectorCount","src/vector/vector_reader.cc:VectorReader::CompareVectorScalarData","src/handler/raft_apply_handler.cc:VectorAddHandler","src/mvcc/reader.cc"])
p("C76","Brute-force search returns the nearest stored vectors",
  "A search without an index answers every query vector with the k nearest, nearest first, of the vectors the region holds - of all of them, of those whose ids are given, or of all but those whose ids are given - whatever the batch size it reads them in. Provided ids announced as sorted are sorted. (A region that holds nothing is answered with no result lists.)",
  "every history of writes, k, list of queries, list of ids and batch size",
  "the answer is put together from batches; all contents and batch sizes",
  ["src/vector/vector_reader.cc:VectorReader::BruteForceSearch","src/vector/vector_reader.cc:VectorReader::SearchAndRangeSearchWrapper","src/vector/vector_reader.cc:VectorReader::DoVectorSearchForVectorIdPreFilter","src/vector/vector_reader.cc:VectorReader::SetVectorIndexIdsFilter"])
p("C77","Attribute selection before a vector search is exact",
  "A search that selects by attributes first considers exactly the stored vectors that have every attribute of the filter with the given value, and answers with the k nearest of them; selecting by the separate speed-up columns gives the same as selecting by the full attributes. Provided values are of their declared types, and not DATETIME.",
  "every history of writes, schema, filter, k and list of queries",
  "two redundant representations of the attributes must agree for every history",
  ["src/vector/vector_reader.cc:VectorReader::DoVectorSearchForScalarPreFilter","src/vector/vector_reader.cc:VectorReader::InternalVectorSearchForScalarPreFilterWithScalarKeySpeedUpCF","src/vector/vector_reader.cc:VectorReader::DoVectorSearchForScalarPreFilter","src/vector/vector_index_utils.cc:VectorIndexUtils::SplitVectorScalarData","src/common/helper.cc:Helper::IsEqualVectorScalarValue"])
p("C78","Attribute selection after a vector search is exact",
  "A search that selects by attributes afterwards answers with the k nearest of the stored vectors that match the filter.",
  "as C77",
  "the misses need more vectors than the search looks at",
  ["src/vector/vector_reader.cc:VectorReader::SearchVector","src/vector/vector_reader.cc:VectorReader::CompareVectorScalarData"])
p("C79","Looking up regions by key",
  "Whatever the coordinator has been through, looking up the regions for a key or a key range never aborts it, and returns regions in the order of their start keys, at most as many as asked for, and none whose range lies outside the one asked for. When increments were applied in calm order (an update that moves a start key is applied only after what is known of other regions there is outdated), the coordinator's records are those of the stores, and the end key is not above nine bytes 0xff, the lookup returns exactly the regions that hold a key asked for.",
  "every sequence of heartbeats, creates, splits, merges, drops, lost proposals, leader changes; every schedule of handlers and applies; every start key, end key and limit",
  "depends on the order in which concurrently built increments are applied, and on all key ranges",
  ["src/coordinator/coordinator_control_coor.cc:CoordinatorControl::ScanRegions","src/common/safe_map.h:DingoSafeStdMap::FindIntervalValues","src/coordinator/coordinator_control_fsm.cc:CoordinatorControl::ApplyMetaIncrement","src/coordinator/coordinator_control_fsm.cc:CoordinatorControl::BuildTempMaps"])
p("C80","Heartbeats bring the coordinator up to date",
  "In the calm circumstances of C79, once a heartbeat that reports a region as it is now has been taken into account, the coordinator's record of that region is the one reported, and further outdated reports do not undo it, unless the region is dropped. In all circumstances the version in a record never decreases as long as no id is created twice.",
  "as C79, every heartbeat, every time between its receipt and its application, every history after it",
  "late and duplicate heartbeats, any interleaving",
  ["src/coordinator/coordinator_control_coor.cc:CoordinatorControl::UpdateRegionMapAndStoreOperation","src/coordinator/coordinator_control_fsm.cc:CoordinatorControl::ApplyMetaIncrement"])
p("C81","Current records make lookups right",
  "When the coordinator's record of every region is that of the stores, a lookup returns exactly the regions that hold a key asked for, whatever the order in which it learned of them.",
  "as C79 without the proviso of calm",
  "the failures need a particular order of applies",
  ["src/coordinator/coordinator_control_fsm.cc:CoordinatorControl::ApplyMetaIncrement","src/coordinator/coordinator_control_fsm.cc:CoordinatorControl::BuildTempMaps"])
p("C82","Created regions do not overlap",
  "Two regions created through the coordinator never hold the same key, and a create is refused as overlapping only when it would.",
  "every sequence of creates of regions, tables and indexes, concurrent ones included",
  "the check is made against an index that lags behind the requests in flight",
  ["src/coordinator/coordinator_control_coor.cc:CoordinatorControl::CreateRegionFinal","src/coordinator/coordinator_control_meta.cc:CoordinatorControl::CreateTable"])
p("C83","Names are unique",
  "Two tables of one schema, two indexes of one schema or two schemas of one tenant never have the same name, once drops under way are discounted.",
  "every sequence of requests that create and drop schemas, tables and indexes, every order in which their increments are applied or lost, every change of leader",
  "names are reserved on the leader before the increment is agreed; needs particular interleavings and failures",
  ["src/coordinator/coordinator_control_meta.cc:CoordinatorControl::CreateTable","src/coordinator/coordinator_control_meta.cc:CoordinatorControl::CreateIndex","src/coordinator/coordinator_control_meta.cc:CoordinatorControl::CreateSchema","src/coordinator/coordinator_control_meta.cc:CoordinatorControl::DropTable","src/server/meta_service.cc:DoDropTables"])
p("C84","Accepted schema changes never abort the coordinator",
  "Applying the increments of accepted requests on schemas, tables and indexes never aborts a coordinator.",
  "as C83",
  "an abort happens on every replica and at every replay; needs a particular order of two requests",
  ["src/coordinator/coordinator_control_fsm.cc:CoordinatorControl::ApplyMetaIncrement","src/coordinator/coordinator_control_meta.cc:CoordinatorControl::DropSchema"])
p("C85","Lookup by name",
  "Looking up a table, index or schema by name returns the one that has that name, and returns nothing only if none has it or it is being dropped.",
  "as C83, every schema, tenant and name",
  "depends on the whole history of reservations, drops and failures",
  ["src/coordinator/coordinator_control_meta.cc:CoordinatorControl::GetTableByName","src/coordinator/coordinator_control_meta.cc:CoordinatorControl::GetSchemaByName"])
p("C86","Schemas list their tables and indexes",
  "The list of tables and the list of indexes of every schema are exactly its tables and its indexes, each once, and every table and index is in a schema that exists.",
  "as C83",
  "depends on the whole history",
  ["src/coordinator/coordinator_control_fsm.cc:CoordinatorControl::ApplyMetaIncrement","src/server/meta_service.cc:DoCreateSchema"])
p("C87","Tables list their indexes",
  "The list of indexes of a table is exactly the set of the indexes that belong to it; GetTables returns the table and exactly these.",
  "as C83",
  "depends on the whole history",
  ["src/coordinator/coordinator_control_meta.cc:CoordinatorControl::GetTableIndexes","src/coordinator/coordinator_control_meta.cc:CoordinatorControl::AddIndexOnTable","src/coordinator/coordinator_control_meta.cc:CoordinatorControl::RemoveTableIndex"])
p("C88","What was created can be dropped",
  "A table that exists, with no request about it under way, can be dropped; afterwards it and all its indexes are gone, and nothing else is.",
  "as C83, every table",
  "must hold of every reachable state",
  ["src/server/meta_service.cc:DoDropTable","src/server/meta_service.cc:DoDropTables","src/coordinator/coordinator_control_meta.cc:CoordinatorControl::DropTableIndexes"])
p("C89","Pushed-down groups and aggregates",
  "A well-formed request for groups pushed down to a scan session returns, over its pages, one row for each group of the records its filter keeps, in the order of the encoded group keys, with SUM, SUM0, COUNT, MAX and MIN of exactly the records of that group (nulls ignored, COUNT of column -1 counts all), each row once, provided partial integer sums fit their type and keys and rows can be encoded. Over no records there is no row, not even a count of zero. A request that groups by, or computes on, a column the selection does not have is refused.",
  "every well-formed request, every list of rows that decode, all page limits; the record codec, the filter and floating-point arithmetic are arbitrary",
  "the result depends on the values of all rows and on where pages break",
  ["src/coprocessor/coprocessor.cc:Coprocessor::Execute","src/coprocessor/aggregation_manager.cc:AggregationManager::Execute","src/coprocessor/aggregation.cc:Aggregation::Execute","src/coprocessor/utils.cc"])
p("C90","A pushed-down request never brings the store down",
  "Whatever the request and the rows, a scan session with pushed-down computation is refused, fails with an error, or answers; it never runs into undefined behaviour.",
  "every request, all rows, all page limits",
  "malformed requests and extreme values are not enumerable",
  ["src/coprocessor/coprocessor.cc:Coprocessor::Open","src/coprocessor/coprocessor.cc:Coprocessor::GetSelectionColumnIndexes","src/coprocessor/aggregation_manager.cc:AggregationManager::Execute","src/coprocessor/coprocessor_v2.cc:CoprocessorV2::Execute"])
p("C91","Pushed-down filters and projections",
  "The pages of a scan session with a filter and a projection are the results of the kept rows, in key order, nothing lost and nothing repeated, no page above its limit; in the second generation a page says that there is no more exactly when all rows are read. Provided result rows can be encoded.",
  "every request without groups, all rows, all page limits, any filter",
  "depends on where pages break and on the filter",
  ["src/coprocessor/coprocessor.cc:Coprocessor::DoExecuteForSelection","src/coprocessor/coprocessor_v2.cc:CoprocessorV2::Execute","src/scan/scan_filter.cc:ScanFilter::UptoLimit"])
p("C92","Transactional scans with pushed-down computation",
  "A transactional scan with a row-wise computation returns over its pages the results of the rows of its snapshot in order, up to the first lock in the way, which is reported; one with an aggregate or a count returns, when no lock is in the way, the aggregate or the count of all rows of the snapshot in its first page, and says that there is no more.",
  "every region reachable by any history, every snapshot, range, isolation level and page limit, every row-wise or aggregating runner",
  "depends on the history of the region and on where pages break",
  ["src/coprocessor/coprocessor_v2.cc:CoprocessorV2::Execute","src/engine/txn_engine_helper.cc:TxnEngineHelper::Scan"])
p("C93","Complete aggregates, once",
  "A client that reads the pages of a session or scan with a second-generation aggregate or count until has_more is false gets the aggregate of all rows exactly once; a lock in the way leaves a state from which it can go on.",
  "all rows, page limits and positions of locks",
  "depends on where pages break and on where locks are",
  ["src/coprocessor/coprocessor_v2.cc:CoprocessorV2::Execute","src/coprocessor/coprocessor_v2.cc:CoprocessorV2::GetKvFromExprEndOfFinish"])
p("C94","Split checks are exact and safe",
  "A split check never ends the process. It sets the metrics to the exact number of versions and bytes stored in the region's range (and leaves them alone when there are none). It requests a split only when the region has reached what its policy asks for, nothing forbids splits, and the region did not change during the scan; the split key is a user key stored in the region and inside its range.",
  "every policy with any parameters, all contents of all column families, every region state before and after the scan, every choice among equal keys by the heap",
  "contents, policies and concurrent changes are unbounded",
  ["src/split/split_checker.cc:SplitCheckTask::SplitCheck","src/split/split_checker.cc:HalfSplitChecker::SplitKey","src/split/split_checker.cc:SizeSplitChecker::SplitKey","src/split/split_checker.cc:KeysSplitChecker::SplitKey","src/split/split_checker.cc:MergedIterator"])
p("C95","Grown regions are split in two useful parts",
  "When a region has reached what its split policy asks for and nothing forbids a split, the check requests a split at a key that the coordinator accepts, that leaves a fair share of the data on both sides and that keeps together what belongs to one record.",
  "every policy with any parameters, all contents of all column families",
  "depends on how the data is distributed over keys and versions",
  ["src/split/split_checker.cc:HalfSplitChecker::SplitKey","src/split/split_checker.cc:SizeSplitChecker::SplitKey","src/split/split_checker.cc:KeysSplitChecker::SplitKey","src/coordinator/coordinator_control_coor.cc:SplitRegionWithJob"])
p("C96","One split check per region at a time",
  "However periodic checks are started, recorded and ended, a region is never checked by two tasks at a time.",
  "every interleaving of the starting thread with the ends of the tasks",
  "the schedules are unbounded",
  ["src/split/split_checker.cc:PreSplitCheckTask::PreSplitCheck","src/split/split_checker.cc:SplitCheckWorkers::AddRegionChecking","src/split/split_checker.cc:SplitCheckWorkers::DeleteRegionChecking"])
p("C97","A region can be checked again",
  "Once the check of a region has ended, a later round can check it again.",
  "every interleaving of the starting thread with the ends of the tasks",
  "the bad schedule needs a task that ends within a window of a few instructions",
  ["src/split/split_checker.cc:PreSplitCheckTask::PreSplitCheck","src/split/split_checker.h:SplitCheckTask"])
p("C98","Only regions that may be merged are merged",
  "A merge is requested only for two regions that are next to each other, of one partition, one engine and the same peers, in normal state with changes enabled, led by this store, not split recently, and small enough alone and together; one round takes no region twice; the request is sent only if the regions still fit when the check runs.",
  "every list of regions with any metrics and states, both orders, every set of regions being merged",
  "lists and states are unbounded",
  ["src/merge/merge_checker.cc:PreMergeCheckTask::PreMergeCheck","src/merge/merge_checker.cc:PreMergeCheckTask::NeedMerge","src/merge/merge_checker.cc:MergeCheckTask::MergeCheck"])
p("C99","Small neighbours are merged",
  "If two neighbouring regions may be merged and nothing is in the way, a round of checks takes the first of them for a merge.",
  "every list of regions with any metrics and states, every position of the pair",
  "lists are unbounded and the failing position is a corner",
  ["src/merge/merge_checker.cc:PreMergeCheckTask::PreMergeCheck"])
p("C100","Accepted requests run exactly once",
  "A task handed to the worker set that carries requests and raft applies (at least one worker) runs at most once, only after it was handed over, and never if the call was refused. If calls cease and the set is not destroyed, the set becomes quiet, and by then every call was answered and every accepted task has run to its end. When Destroy is called, the workers leave, and by then every task accepted before it has run.",
  "every interleaving of callers, workers, signals, spurious wake-ups and Destroy; any number of calls and workers; with and without a limit and in-place runs",
  "lost wake-ups and double runs depend on the schedule",
  ["src/common/runnable.cc:SimpleWorkerSet::Init","src/common/runnable.cc:SimpleWorkerSet::Execute","src/common/runnable.cc:SimpleWorkerSet::Destroy"])
p("C101","Requests start in the order of acceptance",
  "In a worker set that does not run tasks in the caller's thread, a task accepted before another one was handed over starts before it; with one worker it has also ended before the other starts.",
  "every interleaving, any number of calls and workers",
  "order is a property of all schedules",
  ["src/common/runnable.cc:SimpleWorkerSet::Init","src/common/runnable.cc:SimpleWorkerSet::Execute"])
p("C102","Worker set limits hold",
  "A worker set refuses a call only when more tasks than its limit are outstanding, never lets more than its limit be outstanding, never runs more tasks at once than it has workers, and a refusal does no more harm than failing the request.",
  "every interleaving, any number of calls, workers and limits, with and without in-place runs",
  "check-then-act windows show only under certain schedules",
  ["src/common/runnable.cc:SimpleWorkerSet::Execute","src/raft/store_state_machine.cc:StoreStateMachine::on_apply"])
p("C103","Background jobs of one region run one after another",
  "Jobs handed over by (non-negative) region id to a set with at least one worker run at most once; once calls cease all of them run; two jobs of one region never run at the same time, and one accepted before the other was handed over has ended before the other starts; without a limit none is refused.",
  "every interleaving, any number of regions, jobs and workers, together with jobs handed over in other ways",
  "overlap of two jobs depends on the schedule",
  ["src/common/runnable.cc:ExecqWorkerSet::ExecuteHashByRegionId","src/common/runnable.cc:Worker::Execute","src/common/runnable.cc:ExecuteRoutine"])
p("C104","Background jobs are refused only above the limit",
  "A set of background workers refuses a job only when more jobs than its limit are outstanding, and takes jobs for every region id.",
  "every interleaving, any limit, any region id",
  "the bad schedule needs a job that ends before the call that handed it over",
  ["src/common/runnable.cc:ExecqWorkerSet::ExecuteHashByRegionId","src/common/runnable.cc:ExecqWorkerSet::ExecuteRR","src/common/runnable.h:WorkerSet"])
p("C105","Snapshot streams are exact",
  "A column family streamed from a leader to a follower, every request asking for the same positive number of bytes, arrives as exactly the leader's pairs from the region's start on: whatever answers are lost and asked for again and whatever requests of earlier attempts arrive, the follower has at every moment a beginning of those pairs and at the end all of them; without pauses that make the leader start over, and without stray requests, it needs at most one answer more than there are pairs.",
  "every data set, request size, and sequence of answered, lost and stray requests",
  "the interesting cases are particular losses at package boundaries",
  ["src/raft/dingo_filesystem_adaptor.cc:DingoDataReaderAdaptor::read","src/raft/dingo_filesystem_adaptor.cc:SstWriterAdaptor::IobufToSst","src/raft/dingo_filesystem_adaptor.h:DingoDataReaderAdaptor::SerializeToIobuf"])
p("C106","A caught-up replica holds what the log says",
  "A replica that has applied the whole log, from the log itself or through installed snapshots, holds in its region exactly the data the log says, whenever it was stopped and started.",
  "every log with splits, every leader position and snapshot index, every sequence of applies, snapshots, installs, crashes (also in the middle of loading) and restarts",
  "crash points within loading and positions between snapshot index and leader index are not reached by tests",
  ["src/raft/store_state_machine.cc:StoreStateMachine::on_snapshot_load","src/raft/store_state_machine.cc:StoreStateMachine::on_apply","src/handler/raft_snapshot_handler.cc:RaftSnapshot::LoadSnapshotDingo","src/handler/raft_snapshot_handler.cc:RaftSnapshot::HandleRaftSnapshotRegionMeta"])
p("C107","A region's replica leaves other regions alone",
  "Applying, saving, installing and loading snapshots of one region never changes a key of the store outside that region's range.",
  "every log, every leader store, every sequence of applies, snapshots, installs, crashes and restarts",
  "tests use stores with one region",
  ["src/raft/dingo_filesystem_adaptor.cc:DingoFileSystemAdaptor::OpenReaderAdaptor","src/raft/dingo_filesystem_adaptor.cc:DingoDataReaderAdaptor::read","src/engine/rocks_raw_engine.cc:RocksRawEngine::IngestExternalFile"])
p("C108","Replicas that catch up take part in splits",
  "A replica that has applied the whole log has opened the child region of every split in it, once and in order.",
  "every log with splits, every sequence of applies, snapshots, installs, crashes and restarts",
  "needs a snapshot that carries a follower past a split",
  ["src/handler/raft_snapshot_handler.cc:RaftSnapshot::HandleRaftSnapshotRegionMeta","src/raft/store_state_machine.cc:StoreStateMachine::on_apply"])
p("C109","Plans of leader transfers are sound",
  "Planning leader transfers ends, whatever the stores report meanwhile and whatever is picked at random; the plan has at most the configured number of transfers (at least one), moves each region once, only regions that are healthy at the last look, and each from the store that leads the region to another store; both stores are up and the other one has a replica of the region.",
  "every region map, store map, sequence of reports and random picks, batch size",
  "the planner's random picks and the reports that change between its rounds are not enumerable in tests",
  ["src/coordinator/balance_leader.cc:BalanceLeaderScheduler::Schedule","src/coordinator/balance_leader.cc:BalanceLeaderScheduler::GenerateTransferOutLeaderTask","src/coordinator/balance_leader.cc:BalanceLeaderScheduler::GenerateTransferInLeaderTask","src/coordinator/balance_leader.cc:BalanceLeaderScheduler::FilterTask"])
p("C110","Leader transfers never make the balance worse",
  "While the reported health of the regions does not change during planning: each transfer of a plan, made after those before it, leaves the new leader's store with no more leaders for its weight than the old one's, and after the plan no store has more leaders for its weight than the fullest had, nor fewer than the emptiest had.",
  "every region map, store map with weights, sequence of picks, batch size",
  "needs all distributions of leaders and weights",
  ["src/coordinator/balance_leader.cc:BalanceLeaderScheduler::Schedule","src/coordinator/balance_leader.cc:CandidateStores","src/coordinator/balance_leader.cc:StoreEntry::Score"])
p("C111","Leadership goes to voting replicas with room",
  "A planned transfer goes to a voting replica, on a store with memory for the region's index, of a region without unfinished jobs.",
  "every region map, store map, sequence of reports and picks",
  "depends on combinations of reports and replicas' roles",
  ["src/coordinator/balance_leader.cc:BalanceLeaderScheduler::GenerateTransferInLeaderTask","src/coordinator/balance_leader.cc:ResourceFilter::Check","src/coordinator/balance_leader.cc:TaskFilter::Check"])
p("C112","Unbalanced leaders get balanced",
  "When a store leads a healthy region that could go to another store without making that store the fuller one, the plan is not empty.",
  "every region map, store map, reports and random picks",
  "needs all random picks",
  ["src/coordinator/balance_leader.cc:BalanceLeaderScheduler::Schedule","src/coordinator/balance_leader.cc:BalanceLeaderScheduler::PickOneRegion"])
p("C113","Moves of replicas are sound",
  "When every store reports a capacity, a planned move of a replica takes it from a store that is up and follows the region to one that is up, less full, reports more free capacity than the region takes and does not report the region; if the reports are truthful, the new list of stores is the old one with the one store replaced by the other, and the change of peers is accepted.",
  "every region map, store map, reports, configuration",
  "needs all distributions of capacities and regions",
  ["src/coordinator/balance_region.cc:BalanceRegionScheduler::Schedule","src/coordinator/balance_region.cc:BalanceRegionScheduler::GenerateChangeRegionTask","src/coordinator/balance_region.cc:PlacementSafeguardFilter::Check","src/coordinator/balance_region.cc:StoreRegionEntry"])
p("C114","Planning moves of replicas is safe",
  "Planning moves of replicas never brings the coordinator down, moves only healthy regions and only between stores whose scores differ by the configured limit.",
  "every region map, store map, reports, configuration",
  "needs stores in odd states, such as with capacity 0",
  ["src/coordinator/balance_region.cc:BalanceRegionScheduler::Schedule","src/coordinator/balance_region.cc:BalanceRegionScheduler::GetStoreScore","src/coordinator/balance_region.cc:RegionStateFilter"])
p("C115","One balance run at a time",
  "At most one launch of a balance scheduler runs at any moment.",
  "every interleaving of launches by the timer and by requests",
  "a schedule of a few instructions",
  ["src/coordinator/balance_leader.cc:BalanceLeaderScheduler::LaunchBalanceLeader","src/coordinator/balance_region.cc:BalanceRegionScheduler::LaunchBalanceRegion"])
p("C116","Balance runs in the configured hours",
  "Given windows of hours a,b;c,d;... with a not after b in each, the schedulers run by themselves in exactly the hours of the windows.",
  "every list of windows of hours below 100 and every hour",
  "unit tests try some literals",
  ["src/coordinator/balance_leader.cc:BalanceLeaderScheduler::ShouldRun","src/coordinator/balance_leader.cc:BalanceLeaderScheduler::ParseTimePeriod"])
p("C117","Steps of a job are done in order",
  "Whatever the stores answer or report, and however new jobs, rounds of processing, log entries, changes of the leader and cleanings interleave: when the coordinator sends a command of a job's step, every command of the job's earlier steps was answered by a store as accepted, already known, or already in effect.",
  "every set of jobs as the coordinator creates them, every interleaving, every answer",
  "needs all interleavings of answers, reports, rounds and leader changes",
  ["src/coordinator/coordinator_control_coor.cc:CoordinatorControl::ProcessJob","src/coordinator/coordinator_control_coor.cc:CoordinatorControl::ProcessJobList","src/coordinator/coordinator_control_coor.cc:CoordinatorControl::UpdateJobProcess","src/coordinator/coordinator_control_coor.cc:CoordinatorControl::SendStoreOperation"])
p("C118","Successful jobs were acknowledged",
  "A job that the coordinator archives as successful had every one of its commands answered by a store as accepted, already known or in effect, and it is gone from the job list for good.",
  "every set of jobs, interleaving and answer",
  "needs all interleavings, among them cleanings during a round",
  ["src/coordinator/coordinator_control_fsm.cc:CoordinatorControl::ApplyMetaIncrement","src/coordinator/coordinator_control_coor.cc:CoordinatorControl::CleanJobList","src/server/push_service.cc:DoPushStoreOperation"])
p("C119","Jobs end when everything works",
  "If from some moment on all pre-checks hold, all stores exist and accept, all regions to be dropped can be dropped, and no more commands are waiting than fit into a round, a job with n steps left is archived as successful and gone from the list after n+1 rounds.",
  "every reachable state of the coordinator and every number of jobs and steps",
  "a liveness claim over all reachable states",
  ["src/coordinator/coordinator_control_coor.cc:CoordinatorControl::ProcessJob","src/coordinator/coordinator_control_coor.cc:CoordinatorControl::GenStoreOperation","src/coordinator/coordinator_control_coor.cc:CoordinatorControl::UpdateJobNextStep"])
p("C120","A failed step is not passed",
  "When a store reports that a command failed, the job goes back to the command's step and stays there until a store accepts the command again.",
  "every reachable state and every later history",
  "needs reports that arrive at any moment of a round",
  ["src/coordinator/coordinator_control_coor.cc:CoordinatorControl::UpdateRegionCmdStatus","src/coordinator/coordinator_control_coor.cc:CoordinatorControl::UpdateJobProcess"])
p("C121","Jobs are given up only after many failures",
  "The coordinator gives a job up only after at least two more failures of its commands than the retry limit, and only if no step before its current one creates a region.",
  "every reachable state, every retry limit",
  "needs all orders of failures and acceptances",
  ["src/coordinator/coordinator_control_coor.cc:CoordinatorControl::NeedAutoCleanJob","src/coordinator/coordinator_control_coor.cc:CoordinatorControl::UpdateJobProcess"])
p("C122","Applying job entries never stops the coordinator",
  "No history of jobs, answers, reports and cleanings writes a log entry whose application ends the coordinator's process.",
  "every history",
  "a crash while applying is repeated on every member and at every restart; tests try few interleavings",
  ["src/coordinator/coordinator_control_fsm.cc:CoordinatorControl::ApplyMetaIncrement","src/coordinator/coordinator_meta_storage.h:MetaDiskMap::Put"])
p("C123","Accepted commands are run",
  "A region command that a store answers OK, or as known, has been run or will be run, whatever crashes and restarts follow.",
  "every interleaving of handlers, executors, crashes and restarts of a store",
  "crash points between recording in memory, on disk, queueing and running",
  ["src/store/region_controller.cc:RegionController::DispatchRegionControlCommand","src/store/region_controller.cc:RegionCommandManager::AddCommand","src/store/region_controller.cc:RegionController::Recover"])
p("C124","Commands are run once",
  "A region command is run at most once, however often it is sent and whatever crashes occur.",
  "every interleaving of handlers, executors, crashes and restarts of a store",
  "needs all interleavings and crash points",
  ["src/store/region_controller.cc:RegionController::DispatchRegionControlCommand","src/store/region_controller.cc:RegionCommandManager::IsExist","src/store/region_controller.cc:RegionCommandManager::UpdateCommandStatus"])
p("C125","A region's backup is exact",
  "The files of a successful backup of a transactional region at timestamp ts hold, for each key of the range, exactly the record that a read at ts uses (puts and deletions) and exactly the values these records refer to; for a plain region they hold exactly the newest version at or below ts of each key, deletions and expiry times included. A backup is refused for a lock exactly when the transaction of such a record still holds the key's lock, which no history of requests brings about.",
  "every region contents, every range and timestamp; for success, every region that requests can produce",
  "ranges over all stored versions and timestamps; tests try a few",
  ["src/engine/txn_engine_helper.cc:TxnEngineHelper::BackupData","src/engine/txn_engine_helper.cc:TxnEngineHelper::DoBackupDataCoreTxn","src/engine/txn_engine_helper.cc:TxnEngineHelper::DoWriteDataAndCheckForTxn","src/engine/txn_engine_helper.cc:TxnEngineHelper::DoBackupDataCoreNonTxn"])
p("C126","Backup and restore round trip",
  "After a restore whose raft writes were accepted - a first one or one after any number of attempts that failed anywhere - into a region with nothing stored in the range, every read at or after the backup's timestamp returns what the source returned at the backup's timestamp, whatever the sizes of the writes.",
  "every source region that requests can produce, every timestamp, range, batch size, pattern of failures of earlier attempts, and later read",
  "needs all contents and all points of failure of earlier attempts",
  ["src/engine/txn_engine_helper.cc:TxnEngineHelper::RestoreTxn","src/engine/txn_engine_helper.cc:TxnEngineHelper::DoReadSstFileForTxn","src/engine/txn_engine_helper.cc:TxnEngineHelper::BackupData"])
p("C127","A backup is one state of the database",
  "The backups of all regions at one timestamp together show the committed state at that timestamp: what a read at the timestamp returns at any later time, and each transaction in all of its regions or in none.",
  "every history of transactions, commits, crashes of clients, lock resolutions and snapshots of regions",
  "needs transactions in flight at every point while the regions are read one after the other",
  ["src/server/store_service.cc:StoreServiceImpl::BackupData","src/br/backup.cc:Backup::GetGcSafePoint","src/engine/txn_engine_helper.cc:TxnEngineHelper::DoWriteDataAndCheckForTxn"])
p("C128","A restore that answers OK has restored",
  "If the request to restore a region's files is answered OK, the region holds all their records and values.",
  "every file contents, batch size and outcome of each raft write",
  "needs every pattern of refused raft writes",
  ["src/engine/txn_engine_helper.cc:TxnEngineHelper::DoReadSstFileForTxn","src/engine/txn_engine_helper.cc:TxnEngineHelper::RestoreTxn"])
p("C129","Altered backup files are refused",
  "If one of the files of a restore is missing, is not a regular file or has another content than was backed up (and not one with the same checksum), the restore is refused before anything is written; unaltered files are accepted, and a restore that answers OK has read what was backed up.",
  "every list of files, every content of the disk, every checksum without a collision on the contents at hand",
  "ranges over all alterations",
  ["src/server/service_helper.cc:ServiceHelper::ValidSstMetas","src/engine/txn_engine_helper.cc:TxnEngineHelper::DoReadSstFileForTxn"])
p("C130","A backup that ends well has every region",
  "If the backup tool reports success, it has saved the files of every region it was to back up; if it reports an error, a request failed.",
  "every list of regions and every interleaving of the threads and answers",
  "needs all interleavings of three threads and the waiting one",
  ["src/br/backup_data_base.cc:BackupDataBase::DoBackupRegionInternal","src/br/backup_data_base.cc:BackupDataBase::BackupRegion","src/br/backup_sql_data.cc:BackupSqlData::Filter","src/br/backup_sdk_data.cc:BackupSdkData::Filter"])
p("C131","A region's backup covers the range asked for",
  "A backup request that is answered OK saved every key of the range it was asked for.",
  "every range, region shape and history of splits and merges around the request",
  "needs a split at every point between the check and the scan",
  ["src/server/store_service.cc:StoreServiceImpl::BackupData","src/engine/storage.cc:Storage::BackupData"])
p("C132","At most one backup is registered",
  "From a successful registration until the tool unregisters or has been silent for its timeout, no other tool can register and nobody else can unregister it, and the coordinator answers that a backup runs. After an unregistration or the timeout another tool can register.",
  "every history of registrations and unregistrations, all names, times and timeouts",
  "needs all histories and clock values",
  ["src/coordinator/coordinator_control_coor.cc:BrWatchDogManager::RegisterBackup","src/coordinator/coordinator_control_coor.cc:BrWatchDogManager::UnRegisterBackup","src/coordinator/coordinator_control_coor.cc:BrWatchDogManager::GetBackupStatus"])
p("C133","Garbage collection is stopped during a backup",
  "While a backup runs garbage collection is stopped, and when all backups have ended it is as it was before; two backups never run at the same time.",
  "every number of tools, every interleaving of their steps",
  "needs all interleavings of the tools",
  ["src/br/backup.cc:Backup::Init","src/br/backup.cc:Backup::Finish","src/br/backup.cc:Backup::SetGcStop"])
p("C134","Safe points never go back",
  "The safe points and lock safe points the coordinator keeps, the default ones and those of each tenant, only grow: no answer is older than an earlier one, whichever leader gives it and whatever requests, failed writes, creations and changes of leader lie between, as long as the tenant is not dropped.",
  "every history of updates, tenant requests, commits in any order, failed writes and changes of leader",
  "needs every interleaving of requests with commits, failures and elections",
  ["src/coordinator/coordinator_control_coor.cc:CoordinatorControl::UpdateGCSafePoint","src/coordinator/coordinator_control_coor.cc:CoordinatorControl::GetGCSafePoint","src/coordinator/coordinator_control_fsm.cc:CoordinatorControl::ApplyMetaIncrement"])
p("C135","An acknowledged safe point update is in force",
  "An update is accepted exactly if its flag is legal and all tenants it names exist. After an acknowledged update each safe point is the larger of what it was and what was asked for, collection is stopped or running as asked for and answered, names and comments of tenants are untouched, and the answer tells the new safe point. A refused update has no effect.",
  "every state and every update; every interleaving of updates, renames, failures and changes of leader",
  "needs all concurrent requests and points of failure",
  ["src/coordinator/coordinator_control_coor.cc:CoordinatorControl::UpdateGCSafePoint","src/server/coordinator_service.cc:DoUpdateGCSafePoint","src/coordinator/coordinator_control_fsm.cc:CoordinatorControl::ApplyMetaIncrement"])
p("C136","Collections use the coordinator's safe points",
  "Whatever a store collects of a tenant's data, it collects at a positive safe point that the coordinator gave it for this tenant.",
  "every history of fetched answers, steps of the regular run and collection requests",
  "needs all interleavings of fetching and collecting",
  ["src/engine/txn_engine_helper.cc:TxnEngineHelper::RegularDoGcHandler","src/engine/txn_engine_helper.cc:TxnEngineHelper::RegularUpdateSafePointTsHandler","src/engine/gc_safe_point.cc:GCSafePointManager::SetGcFlagAndSafePointTs","src/server/store_service.cc:DoTxnGc"])
p("C137","Stopped garbage collection stays stopped",
  "From the moment a store has fetched that collection is stopped until it fetches that it runs again, the store begins no collection of any tenant and proposes no deletes, even for a region whose collection is under way.",
  "every history and every moment of the fetch",
  "the fetch must be placed between any two steps of the run",
  ["src/engine/txn_engine_helper.cc:TxnEngineHelper::RegularDoGcHandler","src/engine/txn_engine_helper.cc:TxnEngineHelper::DoGcCoreTxn","src/engine/gc_safe_point.cc:GCSafePointManager::SetGcStop"])
p("C138","Every region is collected",
  "After an answer that lets collection go on, a run of the collector can always be brought to its end, and one that ends undisturbed has collected every region the store leads whose tenant has a positive safe point, at that safe point.",
  "every earlier history, every answer and every list of regions and tenants",
  "ranges over all earlier states of the store's two tables",
  ["src/engine/txn_engine_helper.cc:TxnEngineHelper::RegularDoGcHandler","src/engine/gc_safe_point.cc:GCSafePointManager::GetAllGcFlagAndSafePointTs","src/engine/gc_safe_point.cc:GCSafePointManager::RemoveSafePoint"])
p("C139","Collection does not end the store",
  "No request for a collection and no run of the collector ends the store process.",
  "every history of fetched answers, runs and requests for any region and tenant",
  "needs requests at every moment after the start, and tenants made at any time",
  ["src/engine/txn_engine_helper.cc:TxnEngineHelper::Gc","src/engine/gc_safe_point.cc:GCSafePointManager::FindSafePoint","src/server/store_service.cc:DoTxnGc"])
p("C140","Readers and writers exclude each other",
  "Of the threads that share a read-write lock one that writes is alone: nobody reads or writes at the same time, and the lock's own numbers of readers, writers and waiting writers are the true ones.",
  "every number of threads and every interleaving of locking, unlocking, waking and spurious waking",
  "needs all interleavings of any number of threads",
  ["src/common/synchronization.cc:RWLock::LockRead","src/common/synchronization.cc:RWLock::LockWrite","src/common/synchronization.cc:RWLock::UnlockRead","src/common/synchronization.cc:RWLock::UnlockWrite"])
p("C141","Nobody waits for a free lock",
  "No thread sleeps while it could have the read-write lock, and when no new requests come and holders let go every waiting thread gets the lock, in a number of steps bounded by the number of threads.",
  "every reachable state of any number of threads and every order of the remaining steps",
  "a lost wake-up shows in rare interleavings only",
  ["src/common/synchronization.cc:RWLock::CanRead","src/common/synchronization.cc:RWLock::CanWrite","src/common/synchronization.cc:RWLock::UnlockRead","src/common/synchronization.cc:RWLock::UnlockWrite"])
p("C142","Waiting threads are not overtaken for ever",
  "A thread that waits for a read-write lock is not overtaken without end by threads that asked later.",
  "every interleaving of any number of threads",
  "starvation is a property of unbounded histories",
  ["src/common/synchronization.cc:RWLock::LockRead","src/common/synchronization.cc:RWLock::LockWrite"])
p("C143","Each task is run once",
  "Every task a thread pool accepts is at any time in one of three places: waiting, being run, or run. It is run at most once, tasks of higher priority first, and waiting for a task ends after it has been run and not before.",
  "every number of workers and every interleaving of submissions, workers, changes of size and destruction",
  "needs all interleavings",
  ["src/common/threadpool.cc:ThreadPool::ExecuteTask","src/common/threadpool.cc:ThreadPool::BootstrapThread","src/common/threadpool.cc:ThreadPool::Task::Join"])
p("C144","Each task is run in the end",
  "Every task a thread pool accepts is run in the end, however its workers and notifications interleave and whatever the functions throw.",
  "every reachable state of the pool and every order of the remaining steps",
  "a lost notification shows in rare interleavings only",
  ["src/common/threadpool.cc:ThreadPool::ExecuteTask","src/common/threadpool.cc:ThreadPool::BootstrapThread","src/common/threadpool.cc:ThreadPool::AdjustPoolSize"])
p("C145","A pool can be made smaller and destroyed at any time",
  "A call that makes a thread pool smaller or destroys it returns; when a pool has been destroyed every task it accepted has been run.",
  "every moment of the call relative to workers and submissions",
  "the races lie between two instructions of a worker",
  ["src/common/threadpool.cc:ThreadPool::ShrinkThreadPool","src/common/threadpool.cc:ThreadPool::Destroy","src/common/threadpool.cc:ThreadPool::ExecuteTask"])
p("C146","A parallel write that succeeds has done everything",
  "A write of vectors that is run in parallel handles each vector once, and if it answers success every vector has been written.",
  "every list, batch size, outcome of each part and state of the pool",
  "ranges over all outcomes of all parts",
  ["src/vector/vector_index.cc:ParallelRun","src/vector/vector_index.cc:SplitVectorWithId","src/vector/vector_index_hnsw.cc:ParallelFor","src/vector/vector_index_hnsw.cc:VectorIndexHnsw::Upsert"])
p("C147","A parallel search answers each query in its place",
  "The i-th result of a search for several vectors that is run in parallel is the answer for the i-th vector, whatever the batch size and the order in which the batches are run.",
  "every list of queries, every batch size and every order",
  "ranges over all orders and batch sizes",
  ["src/vector/vector_index.cc:VectorIndex::SearchByParallel","src/vector/vector_index.cc:VectorIndex::RangeSearchByParallel"])
p("C148","A DiskANN answer comes from one import",
  "Whatever pushes are lost, repeated, reordered or sent by several stores, and wherever the DiskANN server stops, every answer of a search pairs the ids and the vectors of one completed import, at the positions found, and carries that import's timestamp.",
  "every history of pushes, builds, loads, resets, destroys, marks and restarts",
  "ranges over all histories, all failures of renames and all stops of the process",
  ["src/diskann/diskann_item.cc:DiskANNItem::Import","src/diskann/diskann_item.cc:DiskANNItem::DoImport","src/diskann/diskann_item.cc:DiskANNItem::DoBuildInternal","src/diskann/diskann_item.cc:DiskANNItem::DoTryLoadInternal","src/diskann/diskann_item.cc:DiskANNItem::DoClose","src/diskann/diskann_core.cc:DiskANNCore::FillSearchResult"])
p("C149","An acknowledged import is in the files",
  "When the DiskANN server acknowledges the push that ends an import, its files hold exactly the vectors and ids of that import and its timestamp: none lost, doubled or taken from another import.",
  "every history before the push, with lost, repeated and interleaved pushes, resets and restarts",
  "ranges over all interleavings of importers",
  ["src/diskann/diskann_item.cc:DiskANNItem::Import","src/diskann/diskann_item.cc:DiskANNItem::DoImport"])
p("C150","A failed import is refused until it is reset",
  "After an error, with no build or load under way, the DiskANN server answers every push, build, load and search with that error and leaves the files alone, until a reset or a restart; a reset is then granted and the item takes a new import.",
  "every sequence of requests after the error",
  "ranges over all sequences of requests",
  ["src/diskann/diskann_item.cc:DiskANNItem::Import","src/diskann/diskann_item.cc:DiskANNItem::Build","src/diskann/diskann_item.cc:DiskANNItem::Load","src/diskann/diskann_item.cc:DiskANNItem::DoClose"])
p("C151","The DiskANN server does not crash",
  "No sequence of requests, builds, loads and searches makes the DiskANN server use a missing index object or read outside its table of ids.",
  "every history and every interleaving of builds and loads with other requests",
  "the races lie between the release of one lock and the taking of the next",
  ["src/diskann/diskann_item.cc:DiskANNItem::Build","src/diskann/diskann_item.cc:DiskANNItem::DoBuildInternal","src/diskann/diskann_item.cc:DiskANNItem::DoLoadInternal","src/diskann/diskann_item.cc:DiskANNItem::DoClose","src/diskann/diskann_core.cc:DiskANNCore::Reset"])
p("C152","A destroyed DiskANN index is as new",
  "After an acknowledged destroy the files of the index are gone, a search finds no index, and a new import is taken from its first push to its last.",
  "every history before the destroy and every later import",
  "ranges over all histories and all imports",
  ["src/diskann/diskann_item.cc:DiskANNItem::Destroy","src/diskann/diskann_item.cc:DiskANNItem::DoClose","src/diskann/diskann_item.cc:DiskANNItem::DoBuildInternal"])
p("C153","The no-data mark lasts",
  "Once the DiskANN server has acknowledged that an index has no data, searches say so and pushes, builds and loads from files are refused, through closes and restarts, until the index is destroyed.",
  "every history before the mark and every sequence of requests and restarts after it",
  "ranges over all histories and restarts",
  ["src/diskann/diskann_item.cc:DiskANNItem::SetNoData","src/diskann/diskann_item.cc:DiskANNItem::NoDataSymbolCreate","src/diskann/diskann_item.cc:DiskANNItem::DoClose"])
p("C154","The store sends every vector once",
  "The pushes a store makes of a region are stretches of its vectors in order, counted right, only the last saying that nothing follows; on an empty index all are acknowledged and the files then hold exactly the region's vectors. A region with fewer than two vectors is marked as having no data, one with more than the largest 32-bit integer as too large.",
  "every list of vectors with distinct ids and every size of batch",
  "ranges over all lists and batch sizes",
  ["src/vector/vector_index_diskann.cc:VectorIndexDiskANN::DoBuild","src/diskann/diskann_item.cc:DiskANNItem::DoImport"])
p("C155","Every document is found",
  "Once a document region is at rest, every document that was written and not deleted can be found in its text index with its last content, whatever builds, loads, rounds of catching up, switches, stops and restarts happened before.",
  "every log of writes, every interleaving of writes with builds, loads, catching up and switches, and every stop",
  "needs all interleavings of the writer with the task that builds the index, and all crash points",
  ["src/document/document_index_manager.cc:DocumentIndexManager::CatchUpLogToDocumentIndex","src/document/document_index_manager.cc:DocumentIndexManager::ReplayWalToDocumentIndex","src/document/document_index_manager.cc:DocumentIndexManager::BuildDocumentIndex","src/document/document_index.cc:DocumentIndexWrapper::SetApplyLogId","src/document/document_index.cc:DocumentIndexWrapper::UpdateDocumentIndex","src/handler/raft_apply_handler.cc:DocumentAddHandler::Handle"])
p("C156","Deleted documents are not found",
  "Once a document region is at rest, a document that was deleted, or never written, is not found in its text index, whatever builds, loads, switches, stops and restarts happened before.",
  "every log of writes, every interleaving and every stop",
  "needs all interleavings and crash points",
  ["src/document/document_index_manager.cc:DocumentIndexManager::BuildDocumentIndex","src/document/document_index_manager.cc:DocumentIndexManager::ReplayWalToDocumentIndex","src/handler/raft_apply_handler.cc:DocumentDeleteHandler::Handle"])
p("C157","Each document is found once",
  "A document is found once in the text index of its region, with its last content and not with earlier ones.",
  "every log of writes and every interleaving with builds, loads, switches, stops and restarts",
  "needs all histories",
  ["src/document/document_index.cc:DocumentIndex::Upsert","src/document/document_index.cc:DocumentIndex::Add","src/document/document_index_manager.cc:DocumentIndexManager::ReplayWalToDocumentIndex","src/document/document_index_manager.cc:DocumentIndexManager::BuildDocumentIndex"])
p("C158","Replaying in batches changes nothing",
  "Replaying log entries to a text index in batches leaves in it what replaying them one at a time leaves, for every size of the batches.",
  "every list of entries, every index and every batch size",
  "ranges over all lists and sizes",
  ["src/document/document_index_manager.cc:DocumentIndexManager::ReplayWalToDocumentIndex"])
p("C159","A search in two text indexes gives the best of both",
  "A search that is answered by two text indexes, as after a merge of regions, gives the best hits of both up to the number asked for, best first; a search without a limit gives every document of the two, once.",
  "every two lists of hits and every number",
  "ranges over all lists",
  ["src/document/document_index.cc:MergeSearchResult","src/document/document_index.cc:DocumentIndexWrapper::Search","src/document/document_index.cc:DocumentIndex::Search"])
p("C160","Calls of a meta watch are answered once",
  "Every progress call on a watch of the meta data is answered exactly once, or still waits; no call is lost or answered twice, whatever events, cancellations, clean-ups and trims happen, unless the coordinator restarts.",
  "every history of events, creations, progress calls, cancellations, clean-ups and trims",
  "needs all histories",
  ["src/coordinator/coordinator_control_watch.cc:CoordinatorControl::MetaWatchProgress","src/coordinator/coordinator_control_watch.cc:CoordinatorControl::AddEventList","src/coordinator/coordinator_control_watch.cc:CoordinatorControl::RecycledMetaWatcherByTime","src/coordinator/coordinator_control_watch.cc:CoordinatorControl::MetaWatchCancel"])
p("C161","A meta watch from now brings every later event",
  "A watch of the meta data created from now on brings every later event of its types exactly once and in order, as long as no answer says that it is cancelled: what was brought is a prefix of what happened, and all of it once a call waits or returns.",
  "every history before and after the creation",
  "needs all histories, with trims and clean-ups between",
  ["src/coordinator/coordinator_control_watch.cc:CoordinatorControl::MetaWatchCreate","src/coordinator/coordinator_control_watch.cc:CoordinatorControl::MetaWatchProgress","src/coordinator/coordinator_control_watch.cc:CoordinatorControl::AddEventList","src/coordinator/coordinator_control_watch.cc:CoordinatorControl::MetaWatchGetEventsForRevisions"])
p("C162","A meta watch from a revision brings every event from it on",
  "A watch of the meta data created from a revision on brings every event of its types from that revision on exactly once and in order, as long as no answer says that it is cancelled.",
  "every history before, during and after the creation, and every start revision",
  "needs all histories and all interleavings of the creation with events",
  ["src/coordinator/coordinator_control_watch.cc:CoordinatorControl::MetaWatchCreate","src/common/safe_map.h:DingoSafeStdMap::GetRangeKeyValues","src/coordinator/coordinator_control_watch.cc:CoordinatorControl::AddEventList"])
p("C163","A meta watch is refused only if it would miss events",
  "A watch of the meta data from a revision is refused as compacted only if an event from that revision on is no longer held; the refusal names a revision from which a watch is accepted; an accepted watch misses no event.",
  "every history and every start revision",
  "needs all histories and starts",
  ["src/coordinator/coordinator_control_watch.cc:CoordinatorControl::MetaWatchCreate","src/coordinator/coordinator_control_watch.cc:CoordinatorControl::TrimMetaWatchEventList","src/common/safe_map.h:DingoSafeStdMap::GetFirstKey"])
p("C164","A request by a list of addresses reaches the leader",
  "A request to the coordinator by a list of addresses is answered by the leader, whichever address was tried last and however many calls share the list, if one coordinator leads and can be reached.",
  "every number of addresses, every leader, every remembered address and every interleaving of calls",
  "needs all interleavings of calls that share the remembered address",
  ["src/coordinator/coordinator_interaction.h:CoordinatorInteraction::SendRequestByList","src/coordinator/coordinator_interaction.cc:CoordinatorInteraction::NextLeader"])
p("C165","A request by the name of a service reaches the leader",
  "A request to the coordinator by the name of a service is answered by the leader, whatever address is remembered, if one coordinator leads and can be reached.",
  "every remembered address, every choice of the name service and every answer of the other servers",
  "ranges over all answers and choices",
  ["src/coordinator/coordinator_interaction.h:CoordinatorInteraction::SendRequestByService","src/coordinator/coordinator_interaction.cc:CoordinatorInteraction::SetLeaderAddress"])
p("C166","The status of a request is that of its only answer",
  "The status that a request to the coordinator returns is the one its last server answered, and no earlier server answered it; if it returns a failure no server's answer was seen; it is sent at most five times.",
  "every behaviour of the servers and every interleaving of calls",
  "ranges over all behaviours of the servers",
  ["src/coordinator/coordinator_interaction.h:CoordinatorInteraction::SendRequestByList","src/coordinator/coordinator_interaction.h:CoordinatorInteraction::SendRequestByService"])
p("C167","A request is handled at most once",
  "A request to the coordinator, for example to split a region or to make an auto-increment, is handled by a coordinator at most once for each time it is made.",
  "every behaviour of the servers and the network, and every interleaving of calls",
  "needs lost answers at every point",
  ["src/coordinator/coordinator_interaction.h:CoordinatorInteraction::SendRequestByList","src/coordinator/coordinator_interaction.h:CoordinatorInteraction::SendRequestByService"])
p("C168","A paused job begins no run",
  "A periodic job of a server that was paused begins no run until it is started again.",
  "every state of the job and every order of timers, runs and calls",
  "needs all interleavings of timers and runs with the call that pauses",
  ["src/crontab/crontab.cc:CrontabManager::PauseCrontab","src/crontab/crontab.cc:CrontabManager::Run"])
p("C169","A job is run once at a time and no more often than asked",
  "A periodic job of a server is never run twice at once, and a job with a largest number of runs is run no more often than that.",
  "every job and every order of timers, runs and calls",
  "needs all interleavings of timers and runs",
  ["src/crontab/crontab.cc:CrontabManager::Run","src/crontab/crontab.cc:CrontabManager::StartCrontab","src/crontab/crontab.cc:CrontabManager::AddCrontab"])
p("C170","A destroyed job is left alone",
  "Once the periodic jobs of a server are destroyed none of them begins a run, and what was freed is not used.",
  "every job, every moment of the destruction and every order of timers and runs",
  "needs the destruction at every point of a run",
  ["src/crontab/crontab.cc:CrontabManager::Destroy","src/crontab/crontab.cc:CrontabManager::Run"])
p("C171","A started job goes on",
  "A periodic job of a server that is neither paused nor destroyed is run again and again by itself until it has been run as often as asked, and so is one that was paused and is started again.",
  "every job and every history of timers, runs and calls",
  "needs all interleavings of timers and runs, and histories without end",
  ["src/crontab/crontab.cc:CrontabManager::Run","src/crontab/crontab.cc:CrontabManager::StartCrontab"])
json_lines="\n".join(json.dumps(x) for x in P)+"\n"
open("properties.jsonl","w").write(json_lines)
print(len(P))
