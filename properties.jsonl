{"id": "C01", "title": "Key encoding round-trip", "statement": "Encoding a user key with a version timestamp and decoding the result gives back exactly the same key and timestamp; the decoder accepts every encoder output, and decoding never returns a key for a byte string the encoder cannot produce unless it is one of the documented malformed shapes.", "quantifier": "every user key (byte string of any length and content) and every timestamp in [0, 2^63)", "why_tests_cant": "the key space is infinite and the padding rule depends on the length modulo 8 and on 0x00/0xFF content at group borders", "anchors": ["src/mvcc/codec.cc:EncodeBytes", "src/mvcc/codec.cc:DecodeBytes", "src/mvcc/codec.cc:EncodeKey", "src/mvcc/codec.cc:DecodeKey", "src/common/serial_helper.cc"]}
{"id": "C02", "title": "Encoded keys sort by user key, then newest version first", "statement": "Comparing two stored keys byte-wise orders them first by user key (byte-wise) and then by descending timestamp; two different (key, timestamp) pairs never collide, and all versions of a key are contiguous and are exactly the stored keys in [enc(k), next(enc(k))).", "quantifier": "every pair of user keys and every pair of timestamps", "why_tests_cant": "an order embedding is a statement about all pairs of unbounded strings, including keys that are prefixes of each other and keys with embedded 0x00 or 0xFF bytes", "anchors": ["src/mvcc/codec.cc:EncodeBytes", "src/mvcc/codec.cc:EncodeKey", "src/mvcc/codec.cc:EncodeRange", "src/common/helper.cc:PrefixNext"]}
{"id": "C03", "title": "Stored value packaging round-trip", "statement": "A value written by a put, a put with TTL or a delete is read back with the same kind, the same bytes and the same expiry time.", "quantifier": "every value (byte string, also empty) and every expiry time in [0, 2^63)", "why_tests_cant": "unbounded values; the suffix layout overlaps user bytes, so any value may look like a flag or TTL", "anchors": ["src/mvcc/codec.cc:PackageValue", "src/mvcc/codec.cc:UnPackageValue", "src/mvcc/codec.cc:GetValueFlag", "src/mvcc/codec.cc:GetValueTTL"]}
{"id": "C04", "title": "Vector and document keys: round-trip and order", "statement": "Vector keys built from (prefix, partition, vector id[, scalar key][, ts]) decode to the same components, distinct components give distinct keys, and within a prefix the byte order is (partition, vector id, scalar key) order, so that a half-open key range is a half-open id range.", "quantifier": "every non-zero prefix byte, partition id in [1,2^63), vector id in [0,2^63), scalar key and timestamp", "why_tests_cant": "unbounded id and scalar key space; ordering is a statement about all pairs", "anchors": ["src/vector/codec.cc", "src/document/codec.cc", "src/common/serial_helper.cc"]}
{"id": "C05", "title": "Point reads return the newest visible version", "statement": "A get of key k at read timestamp ts returns the value of the newest version of k whose timestamp is <= ts, and reports not-found exactly when there is none or when that version is a delete or an expired TTL put. Other keys and newer versions never matter.", "quantifier": "every multi-version store content, every key, every read timestamp, every clock value", "why_tests_cant": "ranges over all version histories and all byte-level neighbours of the key", "anchors": ["src/mvcc/reader.cc:KvGet", "src/mvcc/iterator.cc:NextVisibleKey"]}
{"id": "C06", "title": "Range scans return exactly the visible keys, once, in order", "statement": "A scan of [a,b) at ts returns precisely the keys in the range having a visible version at ts, each exactly once, in ascending key order, with the value a point read at ts would return; count and min-key agree with the scan.", "quantifier": "every store content, every range, every ts and clock value", "why_tests_cant": "completeness, uniqueness and order must hold for every history and every number of versions per key", "anchors": ["src/mvcc/reader.cc:KvScan", "src/mvcc/reader.cc:KvCount", "src/mvcc/reader.cc:KvMinKey", "src/mvcc/iterator.cc"]}
{"id": "C07", "title": "Reverse iteration agrees with forward iteration", "statement": "The max-key read and reverse iteration over a range at ts visit exactly the visible keys of the range in descending order, with the same values as forward reads.", "quantifier": "every store content, every range, every ts and clock value", "why_tests_cant": "the reverse walk sees versions oldest first and must undo its choice on newer deletes; only an all-histories argument covers the interleavings of deletes, expiries and too-new versions", "anchors": ["src/mvcc/iterator.cc:PrevVisibleKey", "src/mvcc/reader.cc:KvMaxKey"]}
{"id": "C08", "title": "No lost update between committed transactions", "statement": "If two different transactions both committed a write to the same key, one committed before the other started: the [start, commit] intervals of writers of a key never overlap.", "quantifier": "every sequence of prewrite, commit, rollback, resolve, check-status, heartbeat, lock and GC requests by any number of clients on any keys", "why_tests_cant": "must hold for every interleaving of every client, including retries and resolvers", "anchors": ["src/engine/txn_engine_helper.cc:Prewrite", "src/engine/txn_engine_helper.cc:Commit", "src/engine/txn_engine_helper.cc:OnePCommit"]}
{"id": "C09", "title": "A transaction is decided at most once per key", "statement": "For every key and transaction, at most one commit record ever exists, and a key is never both committed and rolled back by the same transaction, provided start and commit timestamps of different transactions are distinct.", "quantifier": "every request history with unique timestamps", "why_tests_cant": "depends on all interleavings of retries, resolvers and TTL expiry", "anchors": ["src/engine/txn_engine_helper.cc:DoTxnCommit", "src/engine/txn_engine_helper.cc:DoRollback", "src/engine/txn_engine_helper.cc:Prewrite"]}
{"id": "C10", "title": "Rejected transactional requests have no effect", "statement": "A prewrite, commit, pessimistic lock, pessimistic rollback, batch rollback or resolve request that reports an error for any of its keys leaves every stored lock, version and value unchanged for all of its keys.", "quantifier": "every state and every request with any number of keys in any order", "why_tests_cant": "the failing key may be at any position in a request of any length", "anchors": ["src/engine/txn_engine_helper.cc:Prewrite", "src/engine/txn_engine_helper.cc:Commit", "src/engine/txn_engine_helper.cc:PessimisticLock", "src/engine/txn_engine_helper.cc:BatchRollback"]}
{"id": "C11", "title": "Retrying a request is harmless", "statement": "Re-sending a successful prewrite, commit, rollback, pessimistic-rollback, resolve or heartbeat request again succeeds and does not change the stored data.", "quantifier": "every state reached by the first request and every request", "why_tests_cant": "client retries can arrive after any successful request on any state", "anchors": ["src/engine/txn_engine_helper.cc:Commit", "src/engine/txn_engine_helper.cc:BatchRollback", "src/engine/txn_engine_helper.cc:Prewrite"]}
{"id": "C12", "title": "Rollback is final", "statement": "Once a rollback of transaction T on key k has been acknowledged, no later prewrite of k by T succeeds and T is never committed on k, until garbage collection passes T's start timestamp.", "quantifier": "every history after the rollback", "why_tests_cant": "late-arriving prewrites may be delayed arbitrarily", "anchors": ["src/engine/txn_engine_helper.cc:DoRollback", "src/engine/txn_engine_helper.cc:MarkRollBackOnMissingLock", "src/engine/txn_engine_helper.cc:Prewrite"]}
{"id": "C13", "title": "Locks are exclusive", "statement": "While a key is locked by a transaction, every prewrite, pessimistic lock or commit of that key by another transaction fails and leaves the lock in place; only the owner's commit/rollback, a TTL-expiry check or a resolve for the owner's start timestamp removes it.", "quantifier": "every state with a lock and every request by another transaction", "why_tests_cant": "must hold for every request mix and every number of keys", "anchors": ["src/engine/txn_engine_helper.cc:PessimisticLock", "src/engine/txn_engine_helper.cc:Prewrite", "src/engine/txn_engine_helper.cc:Commit", "src/engine/txn_engine_helper.cc:ResolveLock"]}
{"id": "C14", "title": "Snapshot reads return committed data as of the read timestamp", "statement": "A transactional get at start_ts returns the value of the newest committed put with commit_ts <= start_ts (skipping rollback and lock records), nothing if that is a delete or nothing exists, and a lock error whenever an earlier-started conflicting lock exists; uncommitted values are never returned.", "quantifier": "every state, every key list, every timestamp, isolation level and resolved-lock set", "why_tests_cant": "ranges over all version histories and lock states", "anchors": ["src/engine/txn_engine_helper.cc:BatchGet", "src/engine/txn_engine_helper.cc:CheckLockConflict", "src/engine/txn_engine_helper.cc:GetWriteInfo"]}
{"id": "C15", "title": "Repeatable reads", "statement": "If a snapshot read at ts of key k succeeded, every later snapshot read of k at the same ts that succeeds returns the same result, provided later commit timestamps handed out by the oracle are greater than ts; commit timestamps the store itself computes (one-phase and async commit) always exceed every read timestamp served before.", "quantifier": "every request history between the two reads", "why_tests_cant": "arbitrary interleavings of writers between the two reads", "anchors": ["src/engine/txn_engine_helper.cc:GenFinalMinCommitTs", "src/engine/txn_engine_helper.cc:BatchGet", "src/engine/txn_engine_helper.cc:Prewrite"]}
{"id": "C16", "title": "Heartbeats only extend the caller's own lock", "statement": "A transaction heartbeat never shortens a lock's TTL, never touches a lock of another transaction, and changes nothing but the TTL.", "quantifier": "every state, key, start timestamp and advised TTL", "why_tests_cant": "all lock states and arguments", "anchors": ["src/engine/txn_engine_helper.cc:HeartBeat"]}
{"id": "C17", "title": "Status checks: no premature rollback, permanent verdicts", "statement": "A status check on the primary key never rolls back a transaction whose lock TTL has not expired; once it answered committed(ts) or rolled-back, every later status check of that transaction answers the same (until GC).", "quantifier": "every state, clock and history", "why_tests_cant": "all races of resolvers with the committing client", "anchors": ["src/engine/txn_engine_helper.cc:CheckTxnStatus", "src/engine/txn_engine_helper.cc:TxnCheckSecondaryLocks"]}
{"id": "C18", "title": "Multi-key atomicity", "statement": "With clients following the protocol (secondaries are committed only after the primary committed with that timestamp; resolvers act only on the primary's verdict; a client rolls back only when no commit attempt of it can have succeeded), with timestamps from one oracle, and with garbage collection not yet past a transaction that is still being worked on, no history leaves one key of a transaction committed and another key of it rolled back, and all its commits carry the same timestamp.", "quantifier": "every number of keys, every client crash point and every interleaving of the client with any number of resolvers", "why_tests_cant": "crash points and interleavings are unbounded", "anchors": ["src/engine/txn_engine_helper.cc:Commit", "src/engine/txn_engine_helper.cc:CheckTxnStatus", "src/engine/txn_engine_helper.cc:ResolveLock", "src/engine/txn_engine_helper.cc:BatchRollback"]}
{"id": "C19", "title": "Transactional garbage collection preserves reads at or above the safe point", "statement": "Running garbage collection with a safe point changes no transactional read whose timestamp is at or above the safe point, never touches locks, and never removes a version newer than the safe point; also if it is stopped or crashes between batches.", "quantifier": "every store content, safe point, batch size and stop point", "why_tests_cant": "all version histories and all batch boundaries / crash points", "anchors": ["src/engine/txn_engine_helper.cc:DoGcCoreTxn", "src/engine/txn_engine_helper.cc:DoGc"]}
{"id": "C20", "title": "Non-transactional garbage collection preserves reads at or above the safe point", "statement": "Same guarantee for the multi-version key-value data: reads at any timestamp at or above the safe point are unchanged by GC, TTL-expired and superseded versions are removed.", "quantifier": "every store content, safe point, clock, batch size and stop point", "why_tests_cant": "all version histories and all batch boundaries / crash points", "anchors": ["src/engine/txn_engine_helper.cc:DoGcCoreNonTxn"]}
{"id": "C21", "title": "Lock scans and lock resolution are complete", "statement": "A lock scan of a range returns exactly the locks whose start timestamp lies in the requested window, in key order; resolving a transaction over a region leaves none of its prewrite locks behind and turns each into a commit (or rollback) record of that transaction only.", "quantifier": "every lock set, window, range and limit", "why_tests_cant": "completeness over all lock sets and page boundaries", "anchors": ["src/engine/txn_engine_helper.cc:ScanLockInfo", "src/engine/txn_engine_helper.cc:BatchResolveLock", "src/engine/txn_engine_helper.cc:ResolveLock"]}
{"id": "C22", "title": "Timestamp oracle: unique, increasing timestamps", "statement": "No two timestamp requests ever receive overlapping timestamp ranges, and each range issued after another is larger, across clock jumps, leader changes and restarts.", "quantifier": "every schedule of requests, timer ticks, clock readings, raft applies, leader changes and snapshots", "why_tests_cant": "clock jumps and leader changes at any point", "anchors": ["src/coordinator/tso_control.cc:GenTso", "src/coordinator/tso_control.cc:UpdateTimestamp", "src/coordinator/tso_control.cc:UpdateTso", "src/coordinator/tso_control.cc:OnLeaderStart"]}
{"id": "C23", "title": "Auto-increment: generated id ranges never overlap", "statement": "Id ranges returned by generate requests for one table never overlap, and ranges of later requests are larger, across leader changes, snapshots and restarts.", "quantifier": "every sequence of create/update/generate/delete requests and every parameter combination", "why_tests_cant": "fixed-width arithmetic over all counts, increments and offsets, and all interleavings", "anchors": ["src/coordinator/auto_increment_control.cc:ApplyMetaIncrement", "src/coordinator/auto_increment_control.cc:GetGenerateEndId", "src/coordinator/auto_increment_control.cc:GetRealStartId"]}
{"id": "C24", "title": "Versioned KV: put/delete/range semantics and revisions", "statement": "Every applied put or delete gets a strictly larger revision; a range read returns, in key order and up to its limit, for each live key of its range the value of its last put with create revision, mod revision and version (number of puts since creation); deleted keys are not returned. (A read to the end of the key space is only claimed to cover keys other than the very last legal one, 4096 bytes 0xff.)", "quantifier": "every history of puts, deletes and compactions on any keys", "why_tests_cant": "unbounded histories of create/delete generations", "anchors": ["src/coordinator/kv_control_kv.cc:KvPutApply", "src/coordinator/kv_control_kv.cc:KvDeleteApply", "src/coordinator/kv_control_kv.cc:KvRange"]}
{"id": "C25", "title": "Versioned KV compaction keeps the live data", "statement": "A request to compact keys up to a revision never changes what a range read returns now, removes only revisions below the compaction revision, and reclaims fully deleted keys. (Which keys the background task asks to compact: C61. Crashes: C60.)", "quantifier": "every history and every compaction revision", "why_tests_cant": "all generation structures", "anchors": ["src/coordinator/kv_control_kv.cc:KvCompactApply", "src/coordinator/kv_control_kv.cc:CompactionTask"]}
{"id": "C26", "title": "Leases: expiry removes exactly the attached keys", "statement": "When requests are served one at a time and no delete request removes two keys of one lease at once: revoking a lease, or the background task finding it more than its ttl past its last renewal, removes the lease and deletes exactly the keys attached to it then; keys without a lease or attached to another lease stay; renewing sets the time of the last renewal to now; a put under a lease attaches the key if the lease is there and in time, and changes nothing otherwise; this also across changes of leader.", "quantifier": "every history of grants, renewals, revocations, puts, deletes, compactions, task runs and leader changes", "why_tests_cant": "unbounded histories; the lease-to-key index is maintained incrementally", "anchors": ["src/coordinator/kv_control_lease.cc", "src/coordinator/kv_control_kv.cc:KvPut", "src/coordinator/kv_control_kv.cc:KvDeleteRange"]}
{"id": "C27", "title": "A watch is answered once, for the first matching event", "statement": "When requests are served one at a time, fewer than 50000 watches were made before and the replicated log deletes only keys that exist: a one-time watch on a key is answered at once if the key does not exist and the client does not want to wait for it, or if its last put is after the start revision (whatever the filters say); otherwise it is answered with the first later put or delete of that key that the filters let through and that is not before the start revision; otherwise without an event when the cleaning task runs after the client left, or when the node stops leading; and in every case at most once. Deletes before the registration are not reported, and an event shows the entry before the change with its version raised by one.", "quantifier": "every history of registrations, applied entries, cancellations, cleaning runs and leader changes, served one at a time", "why_tests_cant": "unbounded histories", "anchors": ["src/coordinator/kv_control_watch.cc:OneTimeWatch", "src/coordinator/kv_control_watch.cc:TriggerOneWatch", "src/coordinator/kv_control_fsm.cc:OnLeaderStop"]}
{"id": "C28", "title": "Coordinator id allocation never repeats", "statement": "Ids handed out by the coordinator's id-epoch allocator are strictly increasing and never reused, also after applying older replicated updates.", "quantifier": "every sequence of allocations and applied updates", "why_tests_cant": "all interleavings of allocation and replicated apply", "anchors": ["src/coordinator/coordinator_meta_storage.h:DingoSafeIdEpochMap"]}
{"id": "C29", "title": "Raft apply is idempotent across crashes", "statement": "After a crash at any point, restarting from the last persisted applied index and re-applying the log suffix gives the same data as applying the log once.", "quantifier": "every log, every persisted index not beyond the crash point and every crash point", "why_tests_cant": "all crash points and log contents", "anchors": ["src/raft/store_state_machine.cc:on_apply", "src/handler/raft_apply_handler.cc:PutHandler", "src/handler/raft_apply_handler.cc:DeleteRangeHandler", "src/handler/raft_apply_handler.cc:DeleteBatchHandler"]}
{"id": "C30", "title": "Latches: mutual exclusion", "statement": "Provided that no key hashes to 0, two commands that hold their latches at the same time never share a key hash, also while they are still acquiring or releasing, and a command holds exactly the latches of the keys it asked for.", "quantifier": "every number of slots, every number of commands with any keys, every schedule of their critical sections", "why_tests_cant": "all schedules", "anchors": ["src/common/latch.cc:Latches::Acquire", "src/common/latch.cc:Latches::Release"]}
{"id": "C31", "title": "Latches: no lost wake-up, no deadlock", "statement": "Provided that no key hashes to 0: a waiting command has exactly one wake-up on its way once it is first in its queue, and no other command has one; queues are first come, first served; no schedule aborts; unless all commands have finished some command can move; and the number of steps is bounded, so every waiting command is granted its latches if owners release.", "quantifier": "every number of slots, every set of commands, every schedule", "why_tests_cant": "liveness over all schedules", "anchors": ["src/common/latch.cc"]}
{"id": "C32", "title": "In-memory lock table checks", "statement": "For one-phase and async-commit prewrites of the store service whose for_update_ts is covered by the request: a snapshot read that was answered contains every prewrite of a key it read that may commit at or below its timestamp; a published lock is found by every look-up until its prewrite has written; nothing stays published once no prewrite is in progress; and a read is refused only because of an unresolved prewrite of a key it reads that could commit at or below its timestamp.", "quantifier": "every set of readers and prewrites, every interleaving of their critical sections, every failure of a prewrite, every key list and range", "why_tests_cant": "the race between publishing a lock, raising the region's access timestamp and looking the lock up depends on the interleaving", "anchors": ["src/engine/concurrency_manager.cc", "src/engine/txn_engine_helper.cc:GenFinalMinCommitTs", "src/server/store_service.cc:DoTxnGet", "src/server/store_service.cc:DoTxnPrewrite"]}
{"id": "C33", "title": "Region split partitions the key range", "statement": "After a split every key of the old region belongs to exactly one of the two regions, no other key changes owner, both epochs increase, and rejected splits change nothing.", "quantifier": "every region set, split request, and sequence of splits and merges", "why_tests_cant": "all keys and all sequences of range changes", "anchors": ["src/handler/raft_apply_handler.cc:HandlePreCreateRegionSplit", "src/handler/raft_apply_handler.cc:HandlePostCreateRegionSplit"]}
{"id": "C34", "title": "Region merge unions the key ranges", "statement": "Preparing a merge changes no owner and no data. After the commit of a merge of two adjacent regions, whose request carries the source's range, the target owns exactly the union of both ranges, the source owns nothing, no other region's keys change, and the target's version exceeds both old versions.", "quantifier": "every store, pair of adjacent regions (source left or right of the target) and merge request", "why_tests_cant": "all keys and all region sets", "anchors": ["src/handler/raft_apply_handler.cc:PrepareMergeHandler", "src/handler/raft_apply_handler.cc:CommitMergeHandler", "src/raft/store_state_machine.cc:CatchUpApplyLog"]}
{"id": "C35", "title": "Commands with a stale region epoch are never applied", "statement": "A command that is applied from a region's own log and whose region epoch differs from the region's current epoch, or that reaches a region that is being deleted or merged away, changes no data and its caller gets an error. Since a region's range changes only with its version, a command that was checked against the range when it was proposed only writes keys the region still has when it is applied.", "quantifier": "every log of writes mixed with splits and merges", "why_tests_cant": "all interleavings of range changes with in-flight commands", "anchors": ["src/raft/store_state_machine.cc:on_apply", "src/common/helper.cc:IsEqualRegionEpoch"]}
{"id": "C36", "title": "Log term lookup", "statement": "After any sequence of appends, prefix and suffix truncations, the term reported for an index that is in the log and that raft has not truncated is the term that entry was appended with, whether or not the cache of terms is used.", "quantifier": "every operation sequence and every index", "why_tests_cant": "all log shapes, both search branches (fewer and at least 15 term changes)", "anchors": ["src/log/index_term_map.cc"]}
{"id": "C37", "title": "Paged transactional scans lose and repeat nothing", "statement": "Concatenating the pages of a paged transactional scan gives exactly the unpaged result of the snapshot the first page was taken from, as long as the values that snapshot refers to are still stored; every page but the last makes progress and none exceeds its limit.", "quantifier": "every data set, page limit and number of pages", "why_tests_cant": "all page boundaries", "anchors": ["src/common/stream.cc", "src/engine/txn_engine_helper.cc:Scan", "src/engine/txn_engine_helper.cc:ScanLockInfo"]}
{"id": "C38", "title": "Range options translate to the intended half-open range", "statement": "A range given with inclusive/exclusive flags is translated to a half-open byte range containing the intended keys; intersecting, containment and conflict tests on ranges agree with the sets of keys they denote.", "quantifier": "every pair of ranges and every key", "why_tests_cant": "all byte strings including all-0xFF and empty bounds", "anchors": ["src/common/helper.cc:PrefixNext", "src/common/helper.cc:TransformRangeWithOptions", "src/common/helper.cc:IntersectRange", "src/common/helper.cc:IsConflictRange", "src/common/helper.cc:IsContainRange"]}
{"id": "C39", "title": "Client-side timestamp batches are used at most once and respect the lower bound", "statement": "Timestamps handed out by a node's timestamp cache are never handed out twice, and a request for a timestamp after T never gets one <= T.", "quantifier": "every schedule of the atomic steps of any number of requests, one renewal task and bound updates; every batch sequence without common timestamps", "why_tests_cant": "all interleavings of consumers with batch exhaustion and staleness", "anchors": ["src/mvcc/ts_provider.cc:BatchTsList", "src/mvcc/ts_provider.h"]}
{"id": "C40", "title": "No request history aborts the store", "statement": "Whatever sequence of transaction requests with non-negative timestamps arrives, in whatever order and with crashes, restarts and garbage collections in between, no request handler reaches a fatal check: every request is answered. (Collections of tenants whose safe point the store has fetched; for others see C139.)", "quantifier": "every history of requests, crash points, restarts and collections", "why_tests_cant": "the fatal checks depend on combinations of stored locks and records that only some histories produce", "anchors": ["src/engine/txn_engine_helper.cc"]}
{"id": "C41", "title": "An acknowledged prewrite holds until the transaction is decided", "statement": "After a prewrite was answered with success, every key it writes stays locked for the transaction (or committed by it) through crashes, restarts and other requests until the transaction is committed or rolled back on that key.", "quantifier": "every history after the prewrite", "why_tests_cant": "all interleavings of later requests, retries and crashes", "anchors": ["src/engine/txn_engine_helper.cc:Prewrite", "src/engine/txn_engine_helper.cc:PessimisticLock"]}
{"id": "C42", "title": "An acknowledged commit is durable on all its keys", "statement": "After a commit was answered with success, the commit record with that timestamp exists on every key of the request, and stays through every later history of requests, crashes and restarts until garbage collection passes the commit timestamp, provided start and commit timestamps of different transactions are distinct.", "quantifier": "every history after the commit", "why_tests_cant": "all interleavings of later requests, retries, resolves and crashes", "anchors": ["src/engine/txn_engine_helper.cc:Commit", "src/engine/txn_engine_helper.cc:DoTxnCommit"]}
{"id": "C43", "title": "Values read are values written", "statement": "Every value a transactional read returns was put on exactly that key by a prewrite of the transaction whose commit the read sees, and every delete it sees was asked for by that transaction; values are never invented, mixed up between keys or transactions, or truncated.", "quantifier": "every history of requests, crashes, restarts and collections, every key and timestamp", "why_tests_cant": "the value passes through lock records, data and write records along every possible path of prewrite, retry, commit, resolve and one-phase commit", "anchors": ["src/engine/txn_engine_helper.cc:Prewrite", "src/engine/txn_engine_helper.cc:OnePCommit", "src/engine/txn_engine_helper.cc:DoTxnCommit", "src/engine/txn_engine_helper.cc:BatchGet"]}
{"id": "C44", "title": "Paged lock scans lose and repeat nothing", "statement": "Concatenating the pages of a paged lock scan gives exactly the locks of the range and time window, each once, and the scan ends.", "quantifier": "every lock set, window, limit and number of pages", "why_tests_cant": "all page boundaries", "anchors": ["src/engine/txn_engine_helper.cc:ScanLockInfo", "src/common/stream.cc"]}
{"id": "C45", "title": "The raft log keeps exactly what was appended", "statement": "For every region, the entries between the reported first and last index are there exactly as they were last appended, nothing is there outside, range reads return exactly those in order, other regions' calls, truncations and a restart of a non-empty log do not change that, and no call within raft's contract aborts the store.", "quantifier": "every history of opens, appends, truncations, resets, destructions and restarts over any number of regions", "why_tests_cant": "all interleavings of regions and all log shapes", "anchors": ["src/log/rocks_log_storage.cc"]}
{"id": "C46", "title": "The log is kept for every consumer", "statement": "An appended entry disappears from the front of the log only if the latest request of every registered consumer (raft, vector index) allows it.", "quantifier": "every history and every set of consumers", "why_tests_cant": "all orders of requests of several consumers", "anchors": ["src/log/rocks_log_storage.cc:TruncatePrefix", "src/handler/raft_vote_handler.cc"]}
{"id": "C47", "title": "What a garbage collection pass removes and keeps", "statement": "Whichever of its batches take effect, a collection adds nothing and removes no version newer than the safe point. A completed one leaves, of the versions at or below the safe point, exactly those that are the newest of their key and hold a live value, removes large values together with their records, and afterwards every read at any timestamp answers as before or 'not found': an older value never comes back.", "quantifier": "every store content, safe point, batch size, every subset of batches, and every set of writes above the safe point that happen meanwhile", "why_tests_cant": "all version histories, batch boundaries and interleavings with writers", "anchors": ["src/engine/txn_engine_helper.cc:DoGcCoreTxn", "src/engine/txn_engine_helper.cc:DoGcCoreNonTxn"]}
{"id": "C48", "title": "Coordinator ids stay unique across leader changes", "statement": "An id contained in the answer of a committed request, or of a request that may still commit, is never handed out again by any coordinator node, across leader changes, restarts and snapshots; later ids of the same counter are larger.", "quantifier": "every schedule of requests, commits, applies, elections, restarts and snapshot installations on any number of nodes", "why_tests_cant": "all schedules of a replicated group", "anchors": ["src/coordinator/coordinator_control.cc:GetNextId", "src/coordinator/coordinator_control.cc:InitIds", "src/coordinator/coordinator_control_fsm.cc:BuildTempMaps", "src/coordinator/coordinator_control_fsm.cc:ApplyMetaIncrement", "src/raft/meta_state_machine.cc:on_leader_start"]}
{"id": "C49", "title": "Version-kv ids survive restarts", "statement": "A lease id or revision whose allocation has been applied is not handed out again, also after restarts.", "quantifier": "every sequence of allocations, applied updates and restarts", "why_tests_cant": "all orders of commits and all crash points", "anchors": ["src/coordinator/kv_control.cc:GetNextId", "src/coordinator/kv_control_fsm.cc:ApplyMetaIncrement", "src/coordinator/kv_control.cc:Recover"]}
{"id": "C50", "title": "Waking a command never touches a finished one", "statement": "Releasing latches touches only the wait conditions of commands that are still waiting, never the memory of a finished request.", "quantifier": "every schedule of every set of commands", "why_tests_cant": "a race between the signal and the end of the woken request", "anchors": ["src/common/synchronization.cc:DecreaseSignal", "src/meta/store_meta_manager.cc:LatchesRelease", "src/server/service_helper.cc:LatchesAcquire"]}
{"id": "C51", "title": "A leader of the timestamp oracle serves requests", "statement": "Once the start-up entry of a new leader has been applied, it answers every timestamp request that fits into the current millisecond with the requested number of timestamps.", "quantifier": "every schedule of requests, timer ticks, clock readings, raft applies, leader changes and snapshots", "why_tests_cant": "state left behind by failed start-ups of any earlier leadership", "anchors": ["src/coordinator/tso_control.cc:GenTso", "src/coordinator/tso_control.cc:OnLeaderStart", "src/coordinator/tso_control.cc:SyncTimestamp"]}
{"id": "C52", "title": "Auto-increment: a range holds the requested ids", "statement": "The range returned by a generate request contains the requested number of ids of the requested increment/offset grid.", "quantifier": "every sequence of create/update/generate/delete requests and every parameter combination within the documented limits", "why_tests_cant": "fixed-width arithmetic over all counts, increments and offsets", "anchors": ["src/coordinator/auto_increment_control.cc:GetGenerateEndId", "src/coordinator/auto_increment_control.cc:GetRealStartId", "src/coordinator/auto_increment_control.cc:ApplyMetaIncrement"]}
{"id": "C53", "title": "Timestamp cache: later requests get larger timestamps", "statement": "On one node, a timestamp request that starts after another one returned gets a larger timestamp, if each batch obtained from the oracle is above the earlier ones.", "quantifier": "every schedule of the atomic steps of any number of requests and renewals", "why_tests_cant": "lock-free list: all interleavings of pops, appends and counter increments", "anchors": ["src/mvcc/ts_provider.cc:BatchTsList::GetTs", "src/mvcc/ts_provider.cc:BatchTsList::Push", "src/mvcc/ts_provider.h:BatchTs::GetTs"]}
{"id": "C54", "title": "Timestamp cache: a new leader writes above everything the old one wrote", "statement": "After a node became leader of a region and set the lower bound to the largest timestamp applied in the region, every timestamp it hands out for later writes is above that bound.", "quantifier": "every schedule of requests, renewals and leader changes of any number of regions on the node", "why_tests_cant": "several regions can change leader at the same moment", "anchors": ["src/mvcc/ts_provider.h:SetMinValidTs", "src/event/store_state_machine_event.cc:SmLeaderStartEventListener::OnEvent"]}
{"id": "C55", "title": "Timestamp cache: a renewal makes the cache serve again", "statement": "Whatever the history, after a renewal obtained a batch above the requested lower bound, a request that runs undisturbed gets a timestamp in bounded time.", "quantifier": "every reachable state of the cache (stale or exhausted batches, lagging tail, requests stopped at any step)", "why_tests_cant": "progress has to hold from every intermediate state of a lock-free structure", "anchors": ["src/mvcc/ts_provider.cc:BatchTsList::GetTs", "src/mvcc/ts_provider.cc:BatchTsList::Push", "src/mvcc/ts_provider.cc:IsStale"]}
{"id": "C56", "title": "Region merge: the source's last commands are applied exactly once", "statement": "When a merge is committed, a replica that has applied only part of the source's log up to the prepare point ends with the data of a replica that applied all of it command by command, and no command takes effect twice.", "quantifier": "every log suffix of the source and every point up to which a replica has applied it", "why_tests_cant": "all log gaps between replicas, and all command contents", "anchors": ["src/handler/raft_apply_handler.cc:CommitMergeHandler", "src/raft/store_state_machine.cc:CatchUpApplyLog"]}
{"id": "C57", "title": "A crash during a split or merge is repaired", "statement": "If the process dies at any write of a split or a merge and is restarted, applying the log again leaves the same regions (ranges, versions, owners) as an undisturbed run.", "quantifier": "every split or merge command and every crash point in it", "why_tests_cant": "all crash points between the writes of region metadata", "anchors": ["src/handler/raft_apply_handler.cc:HandlePreCreateRegionSplit", "src/handler/raft_apply_handler.cc:HandlePostCreateRegionSplit", "src/handler/raft_apply_handler.cc:CommitMergeHandler"]}
{"id": "C58", "title": "Replicas agree whatever the order between regions", "statement": "Two stores that apply the same log for every region end with the same regions and data, however the logs of different regions are interleaved.", "quantifier": "every set of regions, logs, and pair of interleavings", "why_tests_cant": "the relative speed of the raft groups is arbitrary", "anchors": ["src/raft/store_state_machine.cc:on_apply", "src/handler/raft_apply_handler.cc:PrepareMergeHandler"]}
{"id": "C59", "title": "Versioned KV: request options do what they say", "statement": "keys_only leaves out values only; limit cuts the answer; count_only returns the number of keys; ignore_lease keeps the lease and ignore_value the value of the key; the previous entry in an event is the entry before the change.", "quantifier": "every history and every combination of options", "why_tests_cant": "all histories and options", "anchors": ["src/coordinator/kv_control_kv.cc:KvRange", "src/coordinator/kv_control_kv.cc:KvPut", "src/coordinator/kv_control_kv.cc:KvPutApply", "src/server/version_service.cc"]}
{"id": "C60", "title": "Versioned KV: a crash while applying is not visible", "statement": "If a coordinator dies at any write while it applies a put, a deletion, a lease change or a compaction, restarts and applies the entry again, all later reads, leases and revisions are as without the crash.", "quantifier": "every history, every entry and every crash point in it", "why_tests_cant": "all crash points between the writes of one entry", "anchors": ["src/coordinator/kv_control_fsm.cc:ApplyMetaIncrement", "src/coordinator/kv_control_kv.cc:KvPutApply", "src/coordinator/kv_control.cc:Recover"]}
{"id": "C61", "title": "Versioned KV: the background compaction reaches every key", "statement": "Each run of the compaction task compacts every key of the store up to the retained revision.", "quantifier": "every store", "why_tests_cant": "all numbers of keys", "anchors": ["src/coordinator/kv_control_kv.cc:CompactionTask"]}
{"id": "C62", "title": "Leases stay exact under concurrency and failures", "statement": "Revoking or expiring a lease deletes exactly the keys attached to it also when requests overlap, when proposals fail, when a delete removes several keys of the lease, and right after an election.", "quantifier": "every interleaving of requests, applied entries, lost proposals and elections", "why_tests_cant": "all interleavings; windows between changing the table and applying the entry", "anchors": ["src/coordinator/kv_control_lease.cc", "src/coordinator/kv_control_kv.cc:KvPut", "src/coordinator/kv_control_kv.cc:KvDeleteRange"]}
{"id": "C63", "title": "No wakeup of a watch is lost", "statement": "However registrations, the applying of entries, cancellations, cleaning runs and leader changes interleave, a client whose watch was accepted and that waits for a key gets an answer when an event it wants is applied after its look at the store, or when the node stops leading.", "quantifier": "every interleaving of the steps of the apply thread with registrations, cancellations, cleaning runs and leader changes", "why_tests_cant": "all interleavings; the apply thread reads the table of watches outside its lock", "anchors": ["src/coordinator/kv_control_watch.cc:OneTimeWatch", "src/coordinator/kv_control_watch.cc:TriggerOneWatch", "src/coordinator/kv_control_fsm.cc:OnLeaderStart"]}
{"id": "C64", "title": "What a watch is told is true", "statement": "However the steps interleave: each watch request is answered at most once; an answer with an event is either the one the state of the store called for at some moment while the log was applied, or an event of the log on the watched key, of a kind the client asked for and not before the start revision; the process never stops because a watch to answer is missing.", "quantifier": "every interleaving of the steps of the apply thread with registrations, cancellations, cleaning runs and leader changes", "why_tests_cant": "all interleavings of two locks", "anchors": ["src/coordinator/kv_control_watch.cc:OneTimeWatch", "src/coordinator/kv_control_watch.cc:TriggerOneWatch", "src/coordinator/kv_control_watch.cc:RemoveOneTimeWatch"]}
{"id": "C65", "title": "Asynchronous commit is decided by the locks", "statement": "With clients and resolvers following the rules of asynchronous commit (two-phase commit begins only when a lock of the transaction is known not to be marked for asynchronous commit; a forced status check is sent only then; a client gives up only while some key was never prewritten; timestamps come from one plan; garbage collection waits), a transaction whose every key carries a marked lock is committed exactly at the largest min_commit_ts of those locks: never rolled back on any key, never committed at another timestamp, and no key of it is lost; what anybody concludes from the answers received agrees with that; and no transaction is committed on one key and rolled back on another, or committed at two timestamps.", "quantifier": "every number of regions, keys, clients and resolvers, every order of requests, lost answer, repeated request and crash point", "why_tests_cant": "no record says that the transaction is committed: it follows from locks in several regions, read at different times", "anchors": ["src/engine/txn_engine_helper.cc:Prewrite", "src/engine/txn_engine_helper.cc:GenFinalMinCommitTs", "src/engine/txn_engine_helper.cc:CheckTxnStatus", "src/engine/txn_engine_helper.cc:TxnCheckSecondaryLocks", "src/engine/txn_engine_helper.cc:ResolveLock"]}
{"id": "C66", "title": "Raw requests to a settled leader are linearizable, with time-to-live", "statement": "Get, batch get, put, batch put, put-if-absent and compare-and-set (single, batch atomic, batch non-atomic, with or without time-to-live), batch delete and range delete of one region behave as if each had acted at one instant between its arrival and its answer on one map whose entries vanish at their deadline (a batch get may read its keys at different instants); a request answered with a failure may or may not have acted. In particular a later read returns an acknowledged put until it expires and never afterwards, and the server does not abort. Conditions: requests go to the leader after its on_leader_start, the leadership does not change between the read and the proposal of a conditional write, no range delete over the keys of a write in progress and no expiry of a stored value happens during a conditional write, a new leader has applied the data itself rather than got it by a snapshot, and no empty value has a time-to-live.", "quantifier": "every number of peers, sequence of requests, interleaving of their steps, replication progress, leader change and loss of unreplicated entries, snapshot, and clock", "why_tests_cant": "the answer depends on how the steps of concurrent requests, the apply threads of several peers, elections and the clock interleave", "anchors": ["src/server/store_service.cc:DoKvCompareAndSet", "src/server/store_service.cc:DoKvPutIfAbsent", "src/server/store_service.cc:DoKvDeleteRange", "src/engine/raft_store_engine.cc:Writer", "src/engine/storage.cc:KvGet", "src/event/store_state_machine_event.cc:SmLeaderStartEventListener"]}
{"id": "C67", "title": "Raw requests are linearizable, unconditionally", "statement": "The guarantee of C66 without its conditions, for whatever peer a request is sent to and whatever happens meanwhile, and with batch gets as one instant.", "quantifier": "as C66", "why_tests_cant": "as C66; the violations need a leader change, an expiry, a snapshot or a range delete at one particular moment", "anchors": ["src/server/store_service.cc:DoKvDeleteRange", "src/engine/raft_store_engine.cc:KvCompareAndSet", "src/raft/raft_node.cc:Commit", "src/engine/storage.cc:ValidateLeader", "src/handler/raft_apply_handler.cc:PutHandler"]}
{"id": "C68", "title": "Put-if-absent has one winner", "statement": "Of all put-if-absent requests for a key that no request deletes, overwrites conditionally or lets expire, at most one is answered that it stored its value, under the conditions of C66.", "quantifier": "every number of competing requests, peers and interleavings as in C66", "why_tests_cant": "clients build locks on it; two winners need a race", "anchors": ["src/engine/raft_store_engine.cc:KvPutIfAbsent", "src/server/service_helper.cc:LatchesAcquire"]}
{"id": "C69", "title": "Vector search sees exactly the stored vectors, in calm circumstances", "statement": "When the vector index of a region serves and no apply is under way, a search can find an id with a vector if and only if that vector is the one stored under that id and the id belongs to the region, through index builds, catch-up from the log, index switches, splits (index shared with the child), merges (sibling index), saves, loads and restarts. Circumstances: no request names an id twice; timestamps increase along the logs; splits and merges are applied while no build runs and the index in use is the region's own, and the source of a merge has an index if the target has one; additions to an HNSW region with a sibling reach both; catch-up rounds read only entries of the present epoch with no id added twice; at the switch no index write is under way and no applied vector write is left unread; a restart resumes at or after the saved ApplyLogId and after the last split or merge (after a restart: for ids with no write left to apply).", "quantifier": "every number of regions, every sequence of vector requests, splits, merges, builds, saves, loads, restarts and interleaving of the apply thread with the index thread, both index kinds, any batch size and any order of the thread pool", "why_tests_cant": "the apply thread, the index thread and the raft log meet in many orders", "anchors": ["src/vector/vector_index_manager.cc:BuildVectorIndex", "src/vector/vector_index_manager.cc:CatchUpLogToVectorIndex", "src/vector/vector_index_manager.cc:ReplayWalToVectorIndex", "src/vector/vector_index.cc:VectorIndexWrapper::UpdateVectorIndex", "src/handler/raft_apply_handler.cc:VectorAddHandler", "src/vector/vector_index_snapshot_manager.cc:SaveVectorIndexSnapshot"]}
{"id": "C70", "title": "Vector search sees exactly the stored vectors, always", "statement": "The guarantee of C69 without its circumstances, at least once the region is at rest.", "quantifier": "as C69", "why_tests_cant": "as C69; the violations need a write, split or restart at one particular moment of a build", "anchors": ["src/vector/vector_index_manager.cc:CatchUpLogToVectorIndex", "src/vector/vector_index_manager.cc:ReplayWalToVectorIndex", "src/vector/vector_index.cc:VectorIndexWrapper::Add", "src/vector/vector_index_flat.cc:AddOrUpsert", "src/handler/raft_apply_handler.cc:VectorAddHandler", "src/log/rocks_log_storage.cc:GetDataEntries"]}
{"id": "C71", "title": "The answers of two sibling indexes are merged into a correct answer", "statement": "If each of two sibling indexes answers with the k nearest of its own vectors, nearest first, then the merged list is the k nearest of all of them, nearest first; the merge of two range searches keeps every element exactly once.", "quantifier": "every k, every two answers of any length, with ties", "why_tests_cant": "all inputs of any length", "anchors": ["src/vector/vector_index.cc:MergeSearchResult", "src/vector/vector_index.cc:MergeRangeSearchResults"]}
{"id": "C72", "title": "Each query of a batch gets its own answer", "statement": "A search with several query vectors answers each of them as if it were sent alone, whatever the configured number of queries per task and the order in which the tasks run.", "quantifier": "every list of queries, batch size and order of the thread pool", "why_tests_cant": "the default setting hides the fault; it depends on the setting and the number of queries", "anchors": ["src/vector/vector_index.cc:SearchByParallel", "src/vector/vector_index.cc:RangeSearchByParallel", "src/vector/vector_index.cc:SplitVectorWithId"]}
{"id": "C73", "title": "A scan session pages through one snapshot", "statement": "The pages answered in a scan session (begin, then continue until told the end), put one after the other, are the beginning of what a single scan of the range at the time of the begin would return, and all of it once the end is reported, whatever is written, cleaned or requested by others in between; every page respects the requested size, the server's limit for non-negative sizes and the byte limit, and ends early only because of one of them; no request stops the process. Provided the session id is not begun twice.", "quantifier": "every store content, range, page size, configuration and interleaving of requests (lock by lock), writes, cleanings and clock changes", "why_tests_cant": "needs every interleaving of clients, writers and the cleaner over sessions of any length", "anchors": ["src/scan/scan.cc", "src/scan/scan_manager.cc", "src/scan/scan_filter.cc", "src/engine/storage.cc:KvScanBegin", "src/engine/storage.cc:KvScanContinue", "src/server/store_service.cc"]}
{"id": "C74", "title": "Scan sessions live exactly as long as they are used", "statement": "A session whose uses are less than the timeout apart is never taken away: the next continue is answered (clock never going back, id begun once, no request of it failed or released it). A cleaning that meets no busy session leaves only sessions used within the timeout, and none that was released unless the client asked to keep it.", "quantifier": "every interleaving of requests, cleanings and clock changes, any number of sessions", "why_tests_cant": "the cleaner races with every request; depends on times and interleavings", "anchors": ["src/scan/scan_manager.cc:RegularCleaningHandler", "src/scan/scan.cc:IsRecyclable", "src/scan/scan_manager.cc:TryDeleteScan"]}
{"id": "C75", "title": "Vector reads by id return exactly what is stored", "statement": "In a vector region, after any writes: a batch query answers every id with the vector last added under it (at the read timestamp, not deleted later, not expired) with the parts asked for - data, attributes, a choice of attributes, table data - and with nothing if there is none; a scan returns, in id order in the direction asked, the first of exactly the stored ids between start and end that match the attribute filter; the count is their number; the border ids are the least and the greatest; and no accepted write fails. Provided ids and scan limits are positive, a vector with an expiry time carries attributes and table data, and attribute values are of their declared types (not DATETIME) when filtering.", "quantifier": "every history of adds (with or without expiry) and deletes at any timestamps, every id, range, limit, direction, filter and clock", "why_tests_cant": "a region holds several column families and versions that must agree for every history", "anchors": ["src/vector/vector_reader.cc:VectorReader::VectorBatchQuery", "src/vector/vector_reader.cc:VectorReader::VectorScanQuery", "src/vector/vector_reader.cc:VectorReader::ScanVectorId", "src/vector/vector_reader.cc:VectorReader::GetBorderId", "src/vector/vector_reader.cc:VectorReader::VectorCount", "src/vector/vector_reader.cc:VectorReader::CompareVectorScalarData", "src/handler/raft_apply_handler.cc:VectorAddHandler", "src/mvcc/reader.cc"]}
{"id": "C76", "title": "Brute-force search returns the nearest stored vectors", "statement": "A search without an index answers every query vector with the k nearest, nearest first, of the vectors the region holds - of all of them, of those whose ids are given, or of all but those whose ids are given - whatever the batch size it reads them in. Provided ids announced as sorted are sorted. (A region that holds nothing is answered with no result lists.)", "quantifier": "every history of writes, k, list of queries, list of ids and batch size", "why_tests_cant": "the answer is put together from batches; all contents and batch sizes", "anchors": ["src/vector/vector_reader.cc:VectorReader::BruteForceSearch", "src/vector/vector_reader.cc:VectorReader::SearchAndRangeSearchWrapper", "src/vector/vector_reader.cc:VectorReader::DoVectorSearchForVectorIdPreFilter", "src/vector/vector_reader.cc:VectorReader::SetVectorIndexIdsFilter"]}
{"id": "C77", "title": "Attribute selection before a vector search is exact", "statement": "A search that selects by attributes first considers exactly the stored vectors that have every attribute of the filter with the given value, and answers with the k nearest of them; selecting by the separate speed-up columns gives the same as selecting by the full attributes. Provided values are of their declared types, and not DATETIME.", "quantifier": "every history of writes, schema, filter, k and list of queries", "why_tests_cant": "two redundant representations of the attributes must agree for every history", "anchors": ["src/vector/vector_reader.cc:VectorReader::DoVectorSearchForScalarPreFilter", "src/vector/vector_reader.cc:VectorReader::InternalVectorSearchForScalarPreFilterWithScalarKeySpeedUpCF", "src/vector/vector_reader.cc:VectorReader::DoVectorSearchForScalarPreFilter", "src/vector/vector_index_utils.cc:VectorIndexUtils::SplitVectorScalarData", "src/common/helper.cc:Helper::IsEqualVectorScalarValue"]}
{"id": "C78", "title": "Attribute selection after a vector search is exact", "statement": "A search that selects by attributes afterwards answers with the k nearest of the stored vectors that match the filter.", "quantifier": "as C77", "why_tests_cant": "the misses need more vectors than the search looks at", "anchors": ["src/vector/vector_reader.cc:VectorReader::SearchVector", "src/vector/vector_reader.cc:VectorReader::CompareVectorScalarData"]}
{"id": "C79", "title": "Looking up regions by key", "statement": "Whatever the coordinator has been through, looking up the regions for a key or a key range never aborts it, and returns regions in the order of their start keys, at most as many as asked for, and none whose range lies outside the one asked for. When increments were applied in calm order (an update that moves a start key is applied only after what is known of other regions there is outdated), the coordinator's records are those of the stores, and the end key is not above nine bytes 0xff, the lookup returns exactly the regions that hold a key asked for.", "quantifier": "every sequence of heartbeats, creates, splits, merges, drops, lost proposals, leader changes; every schedule of handlers and applies; every start key, end key and limit", "why_tests_cant": "depends on the order in which concurrently built increments are applied, and on all key ranges", "anchors": ["src/coordinator/coordinator_control_coor.cc:CoordinatorControl::ScanRegions", "src/common/safe_map.h:DingoSafeStdMap::FindIntervalValues", "src/coordinator/coordinator_control_fsm.cc:CoordinatorControl::ApplyMetaIncrement", "src/coordinator/coordinator_control_fsm.cc:CoordinatorControl::BuildTempMaps"]}
{"id": "C80", "title": "Heartbeats bring the coordinator up to date", "statement": "In the calm circumstances of C79, once a heartbeat that reports a region as it is now has been taken into account, the coordinator's record of that region is the one reported, and further outdated reports do not undo it, unless the region is dropped. In all circumstances the version in a record never decreases as long as no id is created twice.", "quantifier": "as C79, every heartbeat, every time between its receipt and its application, every history after it", "why_tests_cant": "late and duplicate heartbeats, any interleaving", "anchors": ["src/coordinator/coordinator_control_coor.cc:CoordinatorControl::UpdateRegionMapAndStoreOperation", "src/coordinator/coordinator_control_fsm.cc:CoordinatorControl::ApplyMetaIncrement"]}
{"id": "C81", "title": "Current records make lookups right", "statement": "When the coordinator's record of every region is that of the stores, a lookup returns exactly the regions that hold a key asked for, whatever the order in which it learned of them.", "quantifier": "as C79 without the proviso of calm", "why_tests_cant": "the failures need a particular order of applies", "anchors": ["src/coordinator/coordinator_control_fsm.cc:CoordinatorControl::ApplyMetaIncrement", "src/coordinator/coordinator_control_fsm.cc:CoordinatorControl::BuildTempMaps"]}
{"id": "C82", "title": "Created regions do not overlap", "statement": "Two regions created through the coordinator never hold the same key, and a create is refused as overlapping only when it would.", "quantifier": "every sequence of creates of regions, tables and indexes, concurrent ones included", "why_tests_cant": "the check is made against an index that lags behind the requests in flight", "anchors": ["src/coordinator/coordinator_control_coor.cc:CoordinatorControl::CreateRegionFinal", "src/coordinator/coordinator_control_meta.cc:CoordinatorControl::CreateTable"]}
{"id": "C83", "title": "Names are unique", "statement": "Two tables of one schema, two indexes of one schema or two schemas of one tenant never have the same name, once drops under way are discounted.", "quantifier": "every sequence of requests that create and drop schemas, tables and indexes, every order in which their increments are applied or lost, every change of leader", "why_tests_cant": "names are reserved on the leader before the increment is agreed; needs particular interleavings and failures", "anchors": ["src/coordinator/coordinator_control_meta.cc:CoordinatorControl::CreateTable", "src/coordinator/coordinator_control_meta.cc:CoordinatorControl::CreateIndex", "src/coordinator/coordinator_control_meta.cc:CoordinatorControl::CreateSchema", "src/coordinator/coordinator_control_meta.cc:CoordinatorControl::DropTable", "src/server/meta_service.cc:DoDropTables"]}
{"id": "C84", "title": "Accepted schema changes never abort the coordinator", "statement": "Applying the increments of accepted requests on schemas, tables and indexes never aborts a coordinator.", "quantifier": "as C83", "why_tests_cant": "an abort happens on every replica and at every replay; needs a particular order of two requests", "anchors": ["src/coordinator/coordinator_control_fsm.cc:CoordinatorControl::ApplyMetaIncrement", "src/coordinator/coordinator_control_meta.cc:CoordinatorControl::DropSchema"]}
{"id": "C85", "title": "Lookup by name", "statement": "Looking up a table, index or schema by name returns the one that has that name, and returns nothing only if none has it or it is being dropped.", "quantifier": "as C83, every schema, tenant and name", "why_tests_cant": "depends on the whole history of reservations, drops and failures", "anchors": ["src/coordinator/coordinator_control_meta.cc:CoordinatorControl::GetTableByName", "src/coordinator/coordinator_control_meta.cc:CoordinatorControl::GetSchemaByName"]}
{"id": "C86", "title": "Schemas list their tables and indexes", "statement": "The list of tables and the list of indexes of every schema are exactly its tables and its indexes, each once, and every table and index is in a schema that exists.", "quantifier": "as C83", "why_tests_cant": "depends on the whole history", "anchors": ["src/coordinator/coordinator_control_fsm.cc:CoordinatorControl::ApplyMetaIncrement", "src/server/meta_service.cc:DoCreateSchema"]}
{"id": "C87", "title": "Tables list their indexes", "statement": "The list of indexes of a table is exactly the set of the indexes that belong to it; GetTables returns the table and exactly these.", "quantifier": "as C83", "why_tests_cant": "depends on the whole history", "anchors": ["src/coordinator/coordinator_control_meta.cc:CoordinatorControl::GetTableIndexes", "src/coordinator/coordinator_control_meta.cc:CoordinatorControl::AddIndexOnTable", "src/coordinator/coordinator_control_meta.cc:CoordinatorControl::RemoveTableIndex"]}
{"id": "C88", "title": "What was created can be dropped", "statement": "A table that exists, with no request about it under way, can be dropped; afterwards it and all its indexes are gone, and nothing else is.", "quantifier": "as C83, every table", "why_tests_cant": "must hold of every reachable state", "anchors": ["src/server/meta_service.cc:DoDropTable", "src/server/meta_service.cc:DoDropTables", "src/coordinator/coordinator_control_meta.cc:CoordinatorControl::DropTableIndexes"]}
{"id": "C89", "title": "Pushed-down groups and aggregates", "statement": "A well-formed request for groups pushed down to a scan session returns, over its pages, one row for each group of the records its filter keeps, in the order of the encoded group keys, with SUM, SUM0, COUNT, MAX and MIN of exactly the records of that group (nulls ignored, COUNT of column -1 counts all), each row once, provided partial integer sums fit their type and keys and rows can be encoded. Over no records there is no row, not even a count of zero. A request that groups by, or computes on, a column the selection does not have is refused.", "quantifier": "every well-formed request, every list of rows that decode, all page limits; the record codec, the filter and floating-point arithmetic are arbitrary", "why_tests_cant": "the result depends on the values of all rows and on where pages break", "anchors": ["src/coprocessor/coprocessor.cc:Coprocessor::Execute", "src/coprocessor/aggregation_manager.cc:AggregationManager::Execute", "src/coprocessor/aggregation.cc:Aggregation::Execute", "src/coprocessor/utils.cc"]}
{"id": "C90", "title": "A pushed-down request never brings the store down", "statement": "Whatever the request and the rows, a scan session with pushed-down computation is refused, fails with an error, or answers; it never runs into undefined behaviour.", "quantifier": "every request, all rows, all page limits", "why_tests_cant": "malformed requests and extreme values are not enumerable", "anchors": ["src/coprocessor/coprocessor.cc:Coprocessor::Open", "src/coprocessor/coprocessor.cc:Coprocessor::GetSelectionColumnIndexes", "src/coprocessor/aggregation_manager.cc:AggregationManager::Execute", "src/coprocessor/coprocessor_v2.cc:CoprocessorV2::Execute"]}
{"id": "C91", "title": "Pushed-down filters and projections", "statement": "The pages of a scan session with a filter and a projection are the results of the kept rows, in key order, nothing lost and nothing repeated, no page above its limit; in the second generation a page says that there is no more exactly when all rows are read. Provided result rows can be encoded.", "quantifier": "every request without groups, all rows, all page limits, any filter", "why_tests_cant": "depends on where pages break and on the filter", "anchors": ["src/coprocessor/coprocessor.cc:Coprocessor::DoExecuteForSelection", "src/coprocessor/coprocessor_v2.cc:CoprocessorV2::Execute", "src/scan/scan_filter.cc:ScanFilter::UptoLimit"]}
{"id": "C92", "title": "Transactional scans with pushed-down computation", "statement": "A transactional scan with a row-wise computation returns over its pages the results of the rows of its snapshot in order, up to the first lock in the way, which is reported; one with an aggregate or a count returns, when no lock is in the way, the aggregate or the count of all rows of the snapshot in its first page, and says that there is no more.", "quantifier": "every region reachable by any history, every snapshot, range, isolation level and page limit, every row-wise or aggregating runner", "why_tests_cant": "depends on the history of the region and on where pages break", "anchors": ["src/coprocessor/coprocessor_v2.cc:CoprocessorV2::Execute", "src/engine/txn_engine_helper.cc:TxnEngineHelper::Scan"]}
{"id": "C93", "title": "Complete aggregates, once", "statement": "A client that reads the pages of a session or scan with a second-generation aggregate or count until has_more is false gets the aggregate of all rows exactly once; a lock in the way leaves a state from which it can go on.", "quantifier": "all rows, page limits and positions of locks", "why_tests_cant": "depends on where pages break and on where locks are", "anchors": ["src/coprocessor/coprocessor_v2.cc:CoprocessorV2::Execute", "src/coprocessor/coprocessor_v2.cc:CoprocessorV2::GetKvFromExprEndOfFinish"]}
{"id": "C94", "title": "Split checks are exact and safe", "statement": "A split check never ends the process. It sets the metrics to the exact number of versions and bytes stored in the region's range (and leaves them alone when there are none). It requests a split only when the region has reached what its policy asks for, nothing forbids splits, and the region did not change during the scan; the split key is a user key stored in the region and inside its range.", "quantifier": "every policy with any parameters, all contents of all column families, every region state before and after the scan, every choice among equal keys by the heap", "why_tests_cant": "contents, policies and concurrent changes are unbounded", "anchors": ["src/split/split_checker.cc:SplitCheckTask::SplitCheck", "src/split/split_checker.cc:HalfSplitChecker::SplitKey", "src/split/split_checker.cc:SizeSplitChecker::SplitKey", "src/split/split_checker.cc:KeysSplitChecker::SplitKey", "src/split/split_checker.cc:MergedIterator"]}
{"id": "C95", "title": "Grown regions are split in two useful parts", "statement": "When a region has reached what its split policy asks for and nothing forbids a split, the check requests a split at a key that the coordinator accepts, that leaves a fair share of the data on both sides and that keeps together what belongs to one record.", "quantifier": "every policy with any parameters, all contents of all column families", "why_tests_cant": "depends on how the data is distributed over keys and versions", "anchors": ["src/split/split_checker.cc:HalfSplitChecker::SplitKey", "src/split/split_checker.cc:SizeSplitChecker::SplitKey", "src/split/split_checker.cc:KeysSplitChecker::SplitKey", "src/coordinator/coordinator_control_coor.cc:SplitRegionWithJob"]}
{"id": "C96", "title": "One split check per region at a time", "statement": "However periodic checks are started, recorded and ended, a region is never checked by two tasks at a time.", "quantifier": "every interleaving of the starting thread with the ends of the tasks", "why_tests_cant": "the schedules are unbounded", "anchors": ["src/split/split_checker.cc:PreSplitCheckTask::PreSplitCheck", "src/split/split_checker.cc:SplitCheckWorkers::AddRegionChecking", "src/split/split_checker.cc:SplitCheckWorkers::DeleteRegionChecking"]}
{"id": "C97", "title": "A region can be checked again", "statement": "Once the check of a region has ended, a later round can check it again.", "quantifier": "every interleaving of the starting thread with the ends of the tasks", "why_tests_cant": "the bad schedule needs a task that ends within a window of a few instructions", "anchors": ["src/split/split_checker.cc:PreSplitCheckTask::PreSplitCheck", "src/split/split_checker.h:SplitCheckTask"]}
{"id": "C98", "title": "Only regions that may be merged are merged", "statement": "A merge is requested only for two regions that are next to each other, of one partition, one engine and the same peers, in normal state with changes enabled, led by this store, not split recently, and small enough alone and together; one round takes no region twice; the request is sent only if the regions still fit when the check runs.", "quantifier": "every list of regions with any metrics and states, both orders, every set of regions being merged", "why_tests_cant": "lists and states are unbounded", "anchors": ["src/merge/merge_checker.cc:PreMergeCheckTask::PreMergeCheck", "src/merge/merge_checker.cc:PreMergeCheckTask::NeedMerge", "src/merge/merge_checker.cc:MergeCheckTask::MergeCheck"]}
{"id": "C99", "title": "Small neighbours are merged", "statement": "If two neighbouring regions may be merged and nothing is in the way, a round of checks takes the first of them for a merge.", "quantifier": "every list of regions with any metrics and states, every position of the pair", "why_tests_cant": "lists are unbounded and the failing position is a corner", "anchors": ["src/merge/merge_checker.cc:PreMergeCheckTask::PreMergeCheck"]}
{"id": "C100", "title": "Accepted requests run exactly once", "statement": "A task handed to the worker set that carries requests and raft applies (at least one worker) runs at most once, only after it was handed over, and never if the call was refused. If calls cease and the set is not destroyed, the set becomes quiet, and by then every call was answered and every accepted task has run to its end. When Destroy is called, the workers leave, and by then every task accepted before it has run.", "quantifier": "every interleaving of callers, workers, signals, spurious wake-ups and Destroy; any number of calls and workers; with and without a limit and in-place runs", "why_tests_cant": "lost wake-ups and double runs depend on the schedule", "anchors": ["src/common/runnable.cc:SimpleWorkerSet::Init", "src/common/runnable.cc:SimpleWorkerSet::Execute", "src/common/runnable.cc:SimpleWorkerSet::Destroy"]}
{"id": "C101", "title": "Requests start in the order of acceptance", "statement": "In a worker set that does not run tasks in the caller's thread, a task accepted before another one was handed over starts before it; with one worker it has also ended before the other starts.", "quantifier": "every interleaving, any number of calls and workers", "why_tests_cant": "order is a property of all schedules", "anchors": ["src/common/runnable.cc:SimpleWorkerSet::Init", "src/common/runnable.cc:SimpleWorkerSet::Execute"]}
{"id": "C102", "title": "Worker set limits hold", "statement": "A worker set refuses a call only when more tasks than its limit are outstanding, never lets more than its limit be outstanding, never runs more tasks at once than it has workers, and a refusal does no more harm than failing the request.", "quantifier": "every interleaving, any number of calls, workers and limits, with and without in-place runs", "why_tests_cant": "check-then-act windows show only under certain schedules", "anchors": ["src/common/runnable.cc:SimpleWorkerSet::Execute", "src/raft/store_state_machine.cc:StoreStateMachine::on_apply"]}
{"id": "C103", "title": "Background jobs of one region run one after another", "statement": "Jobs handed over by (non-negative) region id to a set with at least one worker run at most once; once calls cease all of them run; two jobs of one region never run at the same time, and one accepted before the other was handed over has ended before the other starts; without a limit none is refused.", "quantifier": "every interleaving, any number of regions, jobs and workers, together with jobs handed over in other ways", "why_tests_cant": "overlap of two jobs depends on the schedule", "anchors": ["src/common/runnable.cc:ExecqWorkerSet::ExecuteHashByRegionId", "src/common/runnable.cc:Worker::Execute", "src/common/runnable.cc:ExecuteRoutine"]}
{"id": "C104", "title": "Background jobs are refused only above the limit", "statement": "A set of background workers refuses a job only when more jobs than its limit are outstanding, and takes jobs for every region id.", "quantifier": "every interleaving, any limit, any region id", "why_tests_cant": "the bad schedule needs a job that ends before the call that handed it over", "anchors": ["src/common/runnable.cc:ExecqWorkerSet::ExecuteHashByRegionId", "src/common/runnable.cc:ExecqWorkerSet::ExecuteRR", "src/common/runnable.h:WorkerSet"]}
{"id": "C105", "title": "Snapshot streams are exact", "statement": "A column family streamed from a leader to a follower, every request asking for the same positive number of bytes, arrives as exactly the leader's pairs from the region's start on: whatever answers are lost and asked for again and whatever requests of earlier attempts arrive, the follower has at every moment a beginning of those pairs and at the end all of them; without pauses that make the leader start over, and without stray requests, it needs at most one answer more than there are pairs.", "quantifier": "every data set, request size, and sequence of answered, lost and stray requests", "why_tests_cant": "the interesting cases are particular losses at package boundaries", "anchors": ["src/raft/dingo_filesystem_adaptor.cc:DingoDataReaderAdaptor::read", "src/raft/dingo_filesystem_adaptor.cc:SstWriterAdaptor::IobufToSst", "src/raft/dingo_filesystem_adaptor.h:DingoDataReaderAdaptor::SerializeToIobuf"]}
{"id": "C106", "title": "A caught-up replica holds what the log says", "statement": "A replica that has applied the whole log, from the log itself or through installed snapshots, holds in its region exactly the data the log says, whenever it was stopped and started.", "quantifier": "every log with splits, every leader position and snapshot index, every sequence of applies, snapshots, installs, crashes (also in the middle of loading) and restarts", "why_tests_cant": "crash points within loading and positions between snapshot index and leader index are not reached by tests", "anchors": ["src/raft/store_state_machine.cc:StoreStateMachine::on_snapshot_load", "src/raft/store_state_machine.cc:StoreStateMachine::on_apply", "src/handler/raft_snapshot_handler.cc:RaftSnapshot::LoadSnapshotDingo", "src/handler/raft_snapshot_handler.cc:RaftSnapshot::HandleRaftSnapshotRegionMeta"]}
{"id": "C107", "title": "A region's replica leaves other regions alone", "statement": "Applying, saving, installing and loading snapshots of one region never changes a key of the store outside that region's range.", "quantifier": "every log, every leader store, every sequence of applies, snapshots, installs, crashes and restarts", "why_tests_cant": "tests use stores with one region", "anchors": ["src/raft/dingo_filesystem_adaptor.cc:DingoFileSystemAdaptor::OpenReaderAdaptor", "src/raft/dingo_filesystem_adaptor.cc:DingoDataReaderAdaptor::read", "src/engine/rocks_raw_engine.cc:RocksRawEngine::IngestExternalFile"]}
{"id": "C108", "title": "Replicas that catch up take part in splits", "statement": "A replica that has applied the whole log has opened the child region of every split in it, once and in order.", "quantifier": "every log with splits, every sequence of applies, snapshots, installs, crashes and restarts", "why_tests_cant": "needs a snapshot that carries a follower past a split", "anchors": ["src/handler/raft_snapshot_handler.cc:RaftSnapshot::HandleRaftSnapshotRegionMeta", "src/raft/store_state_machine.cc:StoreStateMachine::on_apply"]}
{"id": "C109", "title": "Plans of leader transfers are sound", "statement": "Planning leader transfers ends, whatever the stores report meanwhile and whatever is picked at random; the plan has at most the configured number of transfers (at least one), moves each region once, only regions that are healthy at the last look, and each from the store that leads the region to another store; both stores are up and the other one has a replica of the region.", "quantifier": "every region map, store map, sequence of reports and random picks, batch size", "why_tests_cant": "the planner's random picks and the reports that change between its rounds are not enumerable in tests", "anchors": ["src/coordinator/balance_leader.cc:BalanceLeaderScheduler::Schedule", "src/coordinator/balance_leader.cc:BalanceLeaderScheduler::GenerateTransferOutLeaderTask", "src/coordinator/balance_leader.cc:BalanceLeaderScheduler::GenerateTransferInLeaderTask", "src/coordinator/balance_leader.cc:BalanceLeaderScheduler::FilterTask"]}
{"id": "C110", "title": "Leader transfers never make the balance worse", "statement": "While the reported health of the regions does not change during planning: each transfer of a plan, made after those before it, leaves the new leader's store with no more leaders for its weight than the old one's, and after the plan no store has more leaders for its weight than the fullest had, nor fewer than the emptiest had.", "quantifier": "every region map, store map with weights, sequence of picks, batch size", "why_tests_cant": "needs all distributions of leaders and weights", "anchors": ["src/coordinator/balance_leader.cc:BalanceLeaderScheduler::Schedule", "src/coordinator/balance_leader.cc:CandidateStores", "src/coordinator/balance_leader.cc:StoreEntry::Score"]}
{"id": "C111", "title": "Leadership goes to voting replicas with room", "statement": "A planned transfer goes to a voting replica, on a store with memory for the region's index, of a region without unfinished jobs.", "quantifier": "every region map, store map, sequence of reports and picks", "why_tests_cant": "depends on combinations of reports and replicas' roles", "anchors": ["src/coordinator/balance_leader.cc:BalanceLeaderScheduler::GenerateTransferInLeaderTask", "src/coordinator/balance_leader.cc:ResourceFilter::Check", "src/coordinator/balance_leader.cc:TaskFilter::Check"]}
{"id": "C112", "title": "Unbalanced leaders get balanced", "statement": "When a store leads a healthy region that could go to another store without making that store the fuller one, the plan is not empty.", "quantifier": "every region map, store map, reports and random picks", "why_tests_cant": "needs all random picks", "anchors": ["src/coordinator/balance_leader.cc:BalanceLeaderScheduler::Schedule", "src/coordinator/balance_leader.cc:BalanceLeaderScheduler::PickOneRegion"]}
{"id": "C113", "title": "Moves of replicas are sound", "statement": "When every store reports a capacity, a planned move of a replica takes it from a store that is up and follows the region to one that is up, less full, reports more free capacity than the region takes and does not report the region; if the reports are truthful, the new list of stores is the old one with the one store replaced by the other, and the change of peers is accepted.", "quantifier": "every region map, store map, reports, configuration", "why_tests_cant": "needs all distributions of capacities and regions", "anchors": ["src/coordinator/balance_region.cc:BalanceRegionScheduler::Schedule", "src/coordinator/balance_region.cc:BalanceRegionScheduler::GenerateChangeRegionTask", "src/coordinator/balance_region.cc:PlacementSafeguardFilter::Check", "src/coordinator/balance_region.cc:StoreRegionEntry"]}
{"id": "C114", "title": "Planning moves of replicas is safe", "statement": "Planning moves of replicas never brings the coordinator down, moves only healthy regions and only between stores whose scores differ by the configured limit.", "quantifier": "every region map, store map, reports, configuration", "why_tests_cant": "needs stores in odd states, such as with capacity 0", "anchors": ["src/coordinator/balance_region.cc:BalanceRegionScheduler::Schedule", "src/coordinator/balance_region.cc:BalanceRegionScheduler::GetStoreScore", "src/coordinator/balance_region.cc:RegionStateFilter"]}
{"id": "C115", "title": "One balance run at a time", "statement": "At most one launch of a balance scheduler runs at any moment.", "quantifier": "every interleaving of launches by the timer and by requests", "why_tests_cant": "a schedule of a few instructions", "anchors": ["src/coordinator/balance_leader.cc:BalanceLeaderScheduler::LaunchBalanceLeader", "src/coordinator/balance_region.cc:BalanceRegionScheduler::LaunchBalanceRegion"]}
{"id": "C116", "title": "Balance runs in the configured hours", "statement": "Given windows of hours a,b;c,d;... with a not after b in each, the schedulers run by themselves in exactly the hours of the windows.", "quantifier": "every list of windows of hours below 100 and every hour", "why_tests_cant": "unit tests try some literals", "anchors": ["src/coordinator/balance_leader.cc:BalanceLeaderScheduler::ShouldRun", "src/coordinator/balance_leader.cc:BalanceLeaderScheduler::ParseTimePeriod"]}
{"id": "C117", "title": "Steps of a job are done in order", "statement": "Whatever the stores answer or report, and however new jobs, rounds of processing, log entries, changes of the leader and cleanings interleave: when the coordinator sends a command of a job's step, every command of the job's earlier steps was answered by a store as accepted, already known, or already in effect.", "quantifier": "every set of jobs as the coordinator creates them, every interleaving, every answer", "why_tests_cant": "needs all interleavings of answers, reports, rounds and leader changes", "anchors": ["src/coordinator/coordinator_control_coor.cc:CoordinatorControl::ProcessJob", "src/coordinator/coordinator_control_coor.cc:CoordinatorControl::ProcessJobList", "src/coordinator/coordinator_control_coor.cc:CoordinatorControl::UpdateJobProcess", "src/coordinator/coordinator_control_coor.cc:CoordinatorControl::SendStoreOperation"]}
{"id": "C118", "title": "Successful jobs were acknowledged", "statement": "A job that the coordinator archives as successful had every one of its commands answered by a store as accepted, already known or in effect, and it is gone from the job list for good.", "quantifier": "every set of jobs, interleaving and answer", "why_tests_cant": "needs all interleavings, among them cleanings during a round", "anchors": ["src/coordinator/coordinator_control_fsm.cc:CoordinatorControl::ApplyMetaIncrement", "src/coordinator/coordinator_control_coor.cc:CoordinatorControl::CleanJobList", "src/server/push_service.cc:DoPushStoreOperation"]}
{"id": "C119", "title": "Jobs end when everything works", "statement": "If from some moment on all pre-checks hold, all stores exist and accept, all regions to be dropped can be dropped, and no more commands are waiting than fit into a round, a job with n steps left is archived as successful and gone from the list after n+1 rounds.", "quantifier": "every reachable state of the coordinator and every number of jobs and steps", "why_tests_cant": "a liveness claim over all reachable states", "anchors": ["src/coordinator/coordinator_control_coor.cc:CoordinatorControl::ProcessJob", "src/coordinator/coordinator_control_coor.cc:CoordinatorControl::GenStoreOperation", "src/coordinator/coordinator_control_coor.cc:CoordinatorControl::UpdateJobNextStep"]}
{"id": "C120", "title": "A failed step is not passed", "statement": "When a store reports that a command failed, the job goes back to the command's step and stays there until a store accepts the command again.", "quantifier": "every reachable state and every later history", "why_tests_cant": "needs reports that arrive at any moment of a round", "anchors": ["src/coordinator/coordinator_control_coor.cc:CoordinatorControl::UpdateRegionCmdStatus", "src/coordinator/coordinator_control_coor.cc:CoordinatorControl::UpdateJobProcess"]}
{"id": "C121", "title": "Jobs are given up only after many failures", "statement": "The coordinator gives a job up only after at least two more failures of its commands than the retry limit, and only if no step before its current one creates a region.", "quantifier": "every reachable state, every retry limit", "why_tests_cant": "needs all orders of failures and acceptances", "anchors": ["src/coordinator/coordinator_control_coor.cc:CoordinatorControl::NeedAutoCleanJob", "src/coordinator/coordinator_control_coor.cc:CoordinatorControl::UpdateJobProcess"]}
{"id": "C122", "title": "Applying job entries never stops the coordinator", "statement": "No history of jobs, answers, reports and cleanings writes a log entry whose application ends the coordinator's process.", "quantifier": "every history", "why_tests_cant": "a crash while applying is repeated on every member and at every restart; tests try few interleavings", "anchors": ["src/coordinator/coordinator_control_fsm.cc:CoordinatorControl::ApplyMetaIncrement", "src/coordinator/coordinator_meta_storage.h:MetaDiskMap::Put"]}
{"id": "C123", "title": "Accepted commands are run", "statement": "A region command that a store answers OK, or as known, has been run or will be run, whatever crashes and restarts follow.", "quantifier": "every interleaving of handlers, executors, crashes and restarts of a store", "why_tests_cant": "crash points between recording in memory, on disk, queueing and running", "anchors": ["src/store/region_controller.cc:RegionController::DispatchRegionControlCommand", "src/store/region_controller.cc:RegionCommandManager::AddCommand", "src/store/region_controller.cc:RegionController::Recover"]}
{"id": "C124", "title": "Commands are run once", "statement": "A region command is run at most once, however often it is sent and whatever crashes occur.", "quantifier": "every interleaving of handlers, executors, crashes and restarts of a store", "why_tests_cant": "needs all interleavings and crash points", "anchors": ["src/store/region_controller.cc:RegionController::DispatchRegionControlCommand", "src/store/region_controller.cc:RegionCommandManager::IsExist", "src/store/region_controller.cc:RegionCommandManager::UpdateCommandStatus"]}
{"id": "C125", "title": "A region's backup is exact", "statement": "The files of a successful backup of a transactional region at timestamp ts hold, for each key of the range, exactly the record that a read at ts uses (puts and deletions) and exactly the values these records refer to; for a plain region they hold exactly the newest version at or below ts of each key, deletions and expiry times included. A backup is refused for a lock exactly when the transaction of such a record still holds the key's lock, which no history of requests brings about.", "quantifier": "every region contents, every range and timestamp; for success, every region that requests can produce", "why_tests_cant": "ranges over all stored versions and timestamps; tests try a few", "anchors": ["src/engine/txn_engine_helper.cc:TxnEngineHelper::BackupData", "src/engine/txn_engine_helper.cc:TxnEngineHelper::DoBackupDataCoreTxn", "src/engine/txn_engine_helper.cc:TxnEngineHelper::DoWriteDataAndCheckForTxn", "src/engine/txn_engine_helper.cc:TxnEngineHelper::DoBackupDataCoreNonTxn"]}
{"id": "C126", "title": "Backup and restore round trip", "statement": "After a restore whose raft writes were accepted - a first one or one after any number of attempts that failed anywhere - into a region with nothing stored in the range, every read at or after the backup's timestamp returns what the source returned at the backup's timestamp, whatever the sizes of the writes.", "quantifier": "every source region that requests can produce, every timestamp, range, batch size, pattern of failures of earlier attempts, and later read", "why_tests_cant": "needs all contents and all points of failure of earlier attempts", "anchors": ["src/engine/txn_engine_helper.cc:TxnEngineHelper::RestoreTxn", "src/engine/txn_engine_helper.cc:TxnEngineHelper::DoReadSstFileForTxn", "src/engine/txn_engine_helper.cc:TxnEngineHelper::BackupData"]}
{"id": "C127", "title": "A backup is one state of the database", "statement": "The backups of all regions at one timestamp together show the committed state at that timestamp: what a read at the timestamp returns at any later time, and each transaction in all of its regions or in none.", "quantifier": "every history of transactions, commits, crashes of clients, lock resolutions and snapshots of regions", "why_tests_cant": "needs transactions in flight at every point while the regions are read one after the other", "anchors": ["src/server/store_service.cc:StoreServiceImpl::BackupData", "src/br/backup.cc:Backup::GetGcSafePoint", "src/engine/txn_engine_helper.cc:TxnEngineHelper::DoWriteDataAndCheckForTxn"]}
{"id": "C128", "title": "A restore that answers OK has restored", "statement": "If the request to restore a region's files is answered OK, the region holds all their records and values.", "quantifier": "every file contents, batch size and outcome of each raft write", "why_tests_cant": "needs every pattern of refused raft writes", "anchors": ["src/engine/txn_engine_helper.cc:TxnEngineHelper::DoReadSstFileForTxn", "src/engine/txn_engine_helper.cc:TxnEngineHelper::RestoreTxn"]}
{"id": "C129", "title": "Altered backup files are refused", "statement": "If one of the files of a restore is missing, is not a regular file or has another content than was backed up (and not one with the same checksum), the restore is refused before anything is written; unaltered files are accepted, and a restore that answers OK has read what was backed up.", "quantifier": "every list of files, every content of the disk, every checksum without a collision on the contents at hand", "why_tests_cant": "ranges over all alterations", "anchors": ["src/server/service_helper.cc:ServiceHelper::ValidSstMetas", "src/engine/txn_engine_helper.cc:TxnEngineHelper::DoReadSstFileForTxn"]}
{"id": "C130", "title": "A backup that ends well has every region", "statement": "If the backup tool reports success, it has saved the files of every region it was to back up; if it reports an error, a request failed.", "quantifier": "every list of regions and every interleaving of the threads and answers", "why_tests_cant": "needs all interleavings of three threads and the waiting one", "anchors": ["src/br/backup_data_base.cc:BackupDataBase::DoBackupRegionInternal", "src/br/backup_data_base.cc:BackupDataBase::BackupRegion", "src/br/backup_sql_data.cc:BackupSqlData::Filter", "src/br/backup_sdk_data.cc:BackupSdkData::Filter"]}
{"id": "C131", "title": "A region's backup covers the range asked for", "statement": "A backup request that is answered OK saved every key of the range it was asked for.", "quantifier": "every range, region shape and history of splits and merges around the request", "why_tests_cant": "needs a split at every point between the check and the scan", "anchors": ["src/server/store_service.cc:StoreServiceImpl::BackupData", "src/engine/storage.cc:Storage::BackupData"]}
{"id": "C132", "title": "At most one backup is registered", "statement": "From a successful registration until the tool unregisters or has been silent for its timeout, no other tool can register and nobody else can unregister it, and the coordinator answers that a backup runs. After an unregistration or the timeout another tool can register.", "quantifier": "every history of registrations and unregistrations, all names, times and timeouts", "why_tests_cant": "needs all histories and clock values", "anchors": ["src/coordinator/coordinator_control_coor.cc:BrWatchDogManager::RegisterBackup", "src/coordinator/coordinator_control_coor.cc:BrWatchDogManager::UnRegisterBackup", "src/coordinator/coordinator_control_coor.cc:BrWatchDogManager::GetBackupStatus"]}
{"id": "C133", "title": "Garbage collection is stopped during a backup", "statement": "While a backup runs garbage collection is stopped, and when all backups have ended it is as it was before; two backups never run at the same time.", "quantifier": "every number of tools, every interleaving of their steps", "why_tests_cant": "needs all interleavings of the tools", "anchors": ["src/br/backup.cc:Backup::Init", "src/br/backup.cc:Backup::Finish", "src/br/backup.cc:Backup::SetGcStop"]}
{"id": "C134", "title": "Safe points never go back", "statement": "The safe points and lock safe points the coordinator keeps, the default ones and those of each tenant, only grow: no answer is older than an earlier one, whichever leader gives it and whatever requests, failed writes, creations and changes of leader lie between, as long as the tenant is not dropped.", "quantifier": "every history of updates, tenant requests, commits in any order, failed writes and changes of leader", "why_tests_cant": "needs every interleaving of requests with commits, failures and elections", "anchors": ["src/coordinator/coordinator_control_coor.cc:CoordinatorControl::UpdateGCSafePoint", "src/coordinator/coordinator_control_coor.cc:CoordinatorControl::GetGCSafePoint", "src/coordinator/coordinator_control_fsm.cc:CoordinatorControl::ApplyMetaIncrement"]}
{"id": "C135", "title": "An acknowledged safe point update is in force", "statement": "An update is accepted exactly if its flag is legal and all tenants it names exist. After an acknowledged update each safe point is the larger of what it was and what was asked for, collection is stopped or running as asked for and answered, names and comments of tenants are untouched, and the answer tells the new safe point. A refused update has no effect.", "quantifier": "every state and every update; every interleaving of updates, renames, failures and changes of leader", "why_tests_cant": "needs all concurrent requests and points of failure", "anchors": ["src/coordinator/coordinator_control_coor.cc:CoordinatorControl::UpdateGCSafePoint", "src/server/coordinator_service.cc:DoUpdateGCSafePoint", "src/coordinator/coordinator_control_fsm.cc:CoordinatorControl::ApplyMetaIncrement"]}
{"id": "C136", "title": "Collections use the coordinator's safe points", "statement": "Whatever a store collects of a tenant's data, it collects at a positive safe point that the coordinator gave it for this tenant.", "quantifier": "every history of fetched answers, steps of the regular run and collection requests", "why_tests_cant": "needs all interleavings of fetching and collecting", "anchors": ["src/engine/txn_engine_helper.cc:TxnEngineHelper::RegularDoGcHandler", "src/engine/txn_engine_helper.cc:TxnEngineHelper::RegularUpdateSafePointTsHandler", "src/engine/gc_safe_point.cc:GCSafePointManager::SetGcFlagAndSafePointTs", "src/server/store_service.cc:DoTxnGc"]}
{"id": "C137", "title": "Stopped garbage collection stays stopped", "statement": "From the moment a store has fetched that collection is stopped until it fetches that it runs again, the store begins no collection of any tenant and proposes no deletes, even for a region whose collection is under way.", "quantifier": "every history and every moment of the fetch", "why_tests_cant": "the fetch must be placed between any two steps of the run", "anchors": ["src/engine/txn_engine_helper.cc:TxnEngineHelper::RegularDoGcHandler", "src/engine/txn_engine_helper.cc:TxnEngineHelper::DoGcCoreTxn", "src/engine/gc_safe_point.cc:GCSafePointManager::SetGcStop"]}
{"id": "C138", "title": "Every region is collected", "statement": "After an answer that lets collection go on, a run of the collector can always be brought to its end, and one that ends undisturbed has collected every region the store leads whose tenant has a positive safe point, at that safe point.", "quantifier": "every earlier history, every answer and every list of regions and tenants", "why_tests_cant": "ranges over all earlier states of the store's two tables", "anchors": ["src/engine/txn_engine_helper.cc:TxnEngineHelper::RegularDoGcHandler", "src/engine/gc_safe_point.cc:GCSafePointManager::GetAllGcFlagAndSafePointTs", "src/engine/gc_safe_point.cc:GCSafePointManager::RemoveSafePoint"]}
{"id": "C139", "title": "Collection does not end the store", "statement": "No request for a collection and no run of the collector ends the store process.", "quantifier": "every history of fetched answers, runs and requests for any region and tenant", "why_tests_cant": "needs requests at every moment after the start, and tenants made at any time", "anchors": ["src/engine/txn_engine_helper.cc:TxnEngineHelper::Gc", "src/engine/gc_safe_point.cc:GCSafePointManager::FindSafePoint", "src/server/store_service.cc:DoTxnGc"]}
{"id": "C140", "title": "Readers and writers exclude each other", "statement": "Of the threads that share a read-write lock one that writes is alone: nobody reads or writes at the same time, and the lock's own numbers of readers, writers and waiting writers are the true ones.", "quantifier": "every number of threads and every interleaving of locking, unlocking, waking and spurious waking", "why_tests_cant": "needs all interleavings of any number of threads", "anchors": ["src/common/synchronization.cc:RWLock::LockRead", "src/common/synchronization.cc:RWLock::LockWrite", "src/common/synchronization.cc:RWLock::UnlockRead", "src/common/synchronization.cc:RWLock::UnlockWrite"]}
{"id": "C141", "title": "Nobody waits for a free lock", "statement": "No thread sleeps while it could have the read-write lock, and when no new requests come and holders let go every waiting thread gets the lock, in a number of steps bounded by the number of threads.", "quantifier": "every reachable state of any number of threads and every order of the remaining steps", "why_tests_cant": "a lost wake-up shows in rare interleavings only", "anchors": ["src/common/synchronization.cc:RWLock::CanRead", "src/common/synchronization.cc:RWLock::CanWrite", "src/common/synchronization.cc:RWLock::UnlockRead", "src/common/synchronization.cc:RWLock::UnlockWrite"]}
{"id": "C142", "title": "Waiting threads are not overtaken for ever", "statement": "A thread that waits for a read-write lock is not overtaken without end by threads that asked later.", "quantifier": "every interleaving of any number of threads", "why_tests_cant": "starvation is a property of unbounded histories", "anchors": ["src/common/synchronization.cc:RWLock::LockRead", "src/common/synchronization.cc:RWLock::LockWrite"]}
{"id": "C143", "title": "Each task is run once", "statement": "Every task a thread pool accepts is at any time in one of three places: waiting, being run, or run. It is run at most once, tasks of higher priority first, and waiting for a task ends after it has been run and not before.", "quantifier": "every number of workers and every interleaving of submissions, workers, changes of size and destruction", "why_tests_cant": "needs all interleavings", "anchors": ["src/common/threadpool.cc:ThreadPool::ExecuteTask", "src/common/threadpool.cc:ThreadPool::BootstrapThread", "src/common/threadpool.cc:ThreadPool::Task::Join"]}
{"id": "C144", "title": "Each task is run in the end", "statement": "Every task a thread pool accepts is run in the end, however its workers and notifications interleave and whatever the functions throw.", "quantifier": "every reachable state of the pool and every order of the remaining steps", "why_tests_cant": "a lost notification shows in rare interleavings only", "anchors": ["src/common/threadpool.cc:ThreadPool::ExecuteTask", "src/common/threadpool.cc:ThreadPool::BootstrapThread", "src/common/threadpool.cc:ThreadPool::AdjustPoolSize"]}
{"id": "C145", "title": "A pool can be made smaller and destroyed at any time", "statement": "A call that makes a thread pool smaller or destroys it returns; when a pool has been destroyed every task it accepted has been run.", "quantifier": "every moment of the call relative to workers and submissions", "why_tests_cant": "the races lie between two instructions of a worker", "anchors": ["src/common/threadpool.cc:ThreadPool::ShrinkThreadPool", "src/common/threadpool.cc:ThreadPool::Destroy", "src/common/threadpool.cc:ThreadPool::ExecuteTask"]}
{"id": "C146", "title": "A parallel write that succeeds has done everything", "statement": "A write of vectors that is run in parallel handles each vector once, and if it answers success every vector has been written.", "quantifier": "every list, batch size, outcome of each part and state of the pool", "why_tests_cant": "ranges over all outcomes of all parts", "anchors": ["src/vector/vector_index.cc:ParallelRun", "src/vector/vector_index.cc:SplitVectorWithId", "src/vector/vector_index_hnsw.cc:ParallelFor", "src/vector/vector_index_hnsw.cc:VectorIndexHnsw::Upsert"]}
{"id": "C147", "title": "A parallel search answers each query in its place", "statement": "The i-th result of a search for several vectors that is run in parallel is the answer for the i-th vector, whatever the batch size and the order in which the batches are run.", "quantifier": "every list of queries, every batch size and every order", "why_tests_cant": "ranges over all orders and batch sizes", "anchors": ["src/vector/vector_index.cc:VectorIndex::SearchByParallel", "src/vector/vector_index.cc:VectorIndex::RangeSearchByParallel"]}
{"id": "C148", "title": "A DiskANN answer comes from one import", "statement": "Whatever pushes are lost, repeated, reordered or sent by several stores, and wherever the DiskANN server stops, every answer of a search pairs the ids and the vectors of one completed import, at the positions found, and carries that import's timestamp.", "quantifier": "every history of pushes, builds, loads, resets, destroys, marks and restarts", "why_tests_cant": "ranges over all histories, all failures of renames and all stops of the process", "anchors": ["src/diskann/diskann_item.cc:DiskANNItem::Import", "src/diskann/diskann_item.cc:DiskANNItem::DoImport", "src/diskann/diskann_item.cc:DiskANNItem::DoBuildInternal", "src/diskann/diskann_item.cc:DiskANNItem::DoTryLoadInternal", "src/diskann/diskann_item.cc:DiskANNItem::DoClose", "src/diskann/diskann_core.cc:DiskANNCore::FillSearchResult"]}
{"id": "C149", "title": "An acknowledged import is in the files", "statement": "When the DiskANN server acknowledges the push that ends an import, its files hold exactly the vectors and ids of that import and its timestamp: none lost, doubled or taken from another import.", "quantifier": "every history before the push, with lost, repeated and interleaved pushes, resets and restarts", "why_tests_cant": "ranges over all interleavings of importers", "anchors": ["src/diskann/diskann_item.cc:DiskANNItem::Import", "src/diskann/diskann_item.cc:DiskANNItem::DoImport"]}
{"id": "C150", "title": "A failed import is refused until it is reset", "statement": "After an error, with no build or load under way, the DiskANN server answers every push, build, load and search with that error and leaves the files alone, until a reset or a restart; a reset is then granted and the item takes a new import.", "quantifier": "every sequence of requests after the error", "why_tests_cant": "ranges over all sequences of requests", "anchors": ["src/diskann/diskann_item.cc:DiskANNItem::Import", "src/diskann/diskann_item.cc:DiskANNItem::Build", "src/diskann/diskann_item.cc:DiskANNItem::Load", "src/diskann/diskann_item.cc:DiskANNItem::DoClose"]}
{"id": "C151", "title": "The DiskANN server does not crash", "statement": "No sequence of requests, builds, loads and searches makes the DiskANN server use a missing index object or read outside its table of ids.", "quantifier": "every history and every interleaving of builds and loads with other requests", "why_tests_cant": "the races lie between the release of one lock and the taking of the next", "anchors": ["src/diskann/diskann_item.cc:DiskANNItem::Build", "src/diskann/diskann_item.cc:DiskANNItem::DoBuildInternal", "src/diskann/diskann_item.cc:DiskANNItem::DoLoadInternal", "src/diskann/diskann_item.cc:DiskANNItem::DoClose", "src/diskann/diskann_core.cc:DiskANNCore::Reset"]}
{"id": "C152", "title": "A destroyed DiskANN index is as new", "statement": "After an acknowledged destroy the files of the index are gone, a search finds no index, and a new import is taken from its first push to its last.", "quantifier": "every history before the destroy and every later import", "why_tests_cant": "ranges over all histories and all imports", "anchors": ["src/diskann/diskann_item.cc:DiskANNItem::Destroy", "src/diskann/diskann_item.cc:DiskANNItem::DoClose", "src/diskann/diskann_item.cc:DiskANNItem::DoBuildInternal"]}
{"id": "C153", "title": "The no-data mark lasts", "statement": "Once the DiskANN server has acknowledged that an index has no data, searches say so and pushes, builds and loads from files are refused, through closes and restarts, until the index is destroyed.", "quantifier": "every history before the mark and every sequence of requests and restarts after it", "why_tests_cant": "ranges over all histories and restarts", "anchors": ["src/diskann/diskann_item.cc:DiskANNItem::SetNoData", "src/diskann/diskann_item.cc:DiskANNItem::NoDataSymbolCreate", "src/diskann/diskann_item.cc:DiskANNItem::DoClose"]}
{"id": "C154", "title": "The store sends every vector once", "statement": "The pushes a store makes of a region are stretches of its vectors in order, counted right, only the last saying that nothing follows; on an empty index all are acknowledged and the files then hold exactly the region's vectors. A region with fewer than two vectors is marked as having no data, one with more than the largest 32-bit integer as too large.", "quantifier": "every list of vectors with distinct ids and every size of batch", "why_tests_cant": "ranges over all lists and batch sizes", "anchors": ["src/vector/vector_index_diskann.cc:VectorIndexDiskANN::DoBuild", "src/diskann/diskann_item.cc:DiskANNItem::DoImport"]}
{"id": "C155", "title": "Every document is found", "statement": "Once a document region is at rest, every document that was written and not deleted can be found in its text index with its last content, whatever builds, loads, rounds of catching up, switches, stops and restarts happened before.", "quantifier": "every log of writes, every interleaving of writes with builds, loads, catching up and switches, and every stop", "why_tests_cant": "needs all interleavings of the writer with the task that builds the index, and all crash points", "anchors": ["src/document/document_index_manager.cc:DocumentIndexManager::CatchUpLogToDocumentIndex", "src/document/document_index_manager.cc:DocumentIndexManager::ReplayWalToDocumentIndex", "src/document/document_index_manager.cc:DocumentIndexManager::BuildDocumentIndex", "src/document/document_index.cc:DocumentIndexWrapper::SetApplyLogId", "src/document/document_index.cc:DocumentIndexWrapper::UpdateDocumentIndex", "src/handler/raft_apply_handler.cc:DocumentAddHandler::Handle"]}
{"id": "C156", "title": "Deleted documents are not found", "statement": "Once a document region is at rest, a document that was deleted, or never written, is not found in its text index, whatever builds, loads, switches, stops and restarts happened before.", "quantifier": "every log of writes, every interleaving and every stop", "why_tests_cant": "needs all interleavings and crash points", "anchors": ["src/document/document_index_manager.cc:DocumentIndexManager::BuildDocumentIndex", "src/document/document_index_manager.cc:DocumentIndexManager::ReplayWalToDocumentIndex", "src/handler/raft_apply_handler.cc:DocumentDeleteHandler::Handle"]}
{"id": "C157", "title": "Each document is found once", "statement": "A document is found once in the text index of its region, with its last content and not with earlier ones.", "quantifier": "every log of writes and every interleaving with builds, loads, switches, stops and restarts", "why_tests_cant": "needs all histories", "anchors": ["src/document/document_index.cc:DocumentIndex::Upsert", "src/document/document_index.cc:DocumentIndex::Add", "src/document/document_index_manager.cc:DocumentIndexManager::ReplayWalToDocumentIndex", "src/document/document_index_manager.cc:DocumentIndexManager::BuildDocumentIndex"]}
{"id": "C158", "title": "Replaying in batches changes nothing", "statement": "Replaying log entries to a text index in batches leaves in it what replaying them one at a time leaves, for every size of the batches.", "quantifier": "every list of entries, every index and every batch size", "why_tests_cant": "ranges over all lists and sizes", "anchors": ["src/document/document_index_manager.cc:DocumentIndexManager::ReplayWalToDocumentIndex"]}
{"id": "C159", "title": "A search in two text indexes gives the best of both", "statement": "A search that is answered by two text indexes, as after a merge of regions, gives the best hits of both up to the number asked for, best first; a search without a limit gives every document of the two, once.", "quantifier": "every two lists of hits and every number", "why_tests_cant": "ranges over all lists", "anchors": ["src/document/document_index.cc:MergeSearchResult", "src/document/document_index.cc:DocumentIndexWrapper::Search", "src/document/document_index.cc:DocumentIndex::Search"]}
{"id": "C160", "title": "Calls of a meta watch are answered once", "statement": "Every progress call on a watch of the meta data is answered exactly once, or still waits; no call is lost or answered twice, whatever events, cancellations, clean-ups and trims happen, unless the coordinator restarts.", "quantifier": "every history of events, creations, progress calls, cancellations, clean-ups and trims", "why_tests_cant": "needs all histories", "anchors": ["src/coordinator/coordinator_control_watch.cc:CoordinatorControl::MetaWatchProgress", "src/coordinator/coordinator_control_watch.cc:CoordinatorControl::AddEventList", "src/coordinator/coordinator_control_watch.cc:CoordinatorControl::RecycledMetaWatcherByTime", "src/coordinator/coordinator_control_watch.cc:CoordinatorControl::MetaWatchCancel"]}
{"id": "C161", "title": "A meta watch from now brings every later event", "statement": "A watch of the meta data created from now on brings every later event of its types exactly once and in order, as long as no answer says that it is cancelled: what was brought is a prefix of what happened, and all of it once a call waits or returns.", "quantifier": "every history before and after the creation", "why_tests_cant": "needs all histories, with trims and clean-ups between", "anchors": ["src/coordinator/coordinator_control_watch.cc:CoordinatorControl::MetaWatchCreate", "src/coordinator/coordinator_control_watch.cc:CoordinatorControl::MetaWatchProgress", "src/coordinator/coordinator_control_watch.cc:CoordinatorControl::AddEventList", "src/coordinator/coordinator_control_watch.cc:CoordinatorControl::MetaWatchGetEventsForRevisions"]}
{"id": "C162", "title": "A meta watch from a revision brings every event from it on", "statement": "A watch of the meta data created from a revision on brings every event of its types from that revision on exactly once and in order, as long as no answer says that it is cancelled.", "quantifier": "every history before, during and after the creation, and every start revision", "why_tests_cant": "needs all histories and all interleavings of the creation with events", "anchors": ["src/coordinator/coordinator_control_watch.cc:CoordinatorControl::MetaWatchCreate", "src/common/safe_map.h:DingoSafeStdMap::GetRangeKeyValues", "src/coordinator/coordinator_control_watch.cc:CoordinatorControl::AddEventList"]}
{"id": "C163", "title": "A meta watch is refused only if it would miss events", "statement": "A watch of the meta data from a revision is refused as compacted only if an event from that revision on is no longer held; the refusal names a revision from which a watch is accepted; an accepted watch misses no event.", "quantifier": "every history and every start revision", "why_tests_cant": "needs all histories and starts", "anchors": ["src/coordinator/coordinator_control_watch.cc:CoordinatorControl::MetaWatchCreate", "src/coordinator/coordinator_control_watch.cc:CoordinatorControl::TrimMetaWatchEventList", "src/common/safe_map.h:DingoSafeStdMap::GetFirstKey"]}
{"id": "C164", "title": "A request by a list of addresses reaches the leader", "statement": "A request to the coordinator by a list of addresses is answered by the leader, whichever address was tried last and however many calls share the list, if one coordinator leads and can be reached.", "quantifier": "every number of addresses, every leader, every remembered address and every interleaving of calls", "why_tests_cant": "needs all interleavings of calls that share the remembered address", "anchors": ["src/coordinator/coordinator_interaction.h:CoordinatorInteraction::SendRequestByList", "src/coordinator/coordinator_interaction.cc:CoordinatorInteraction::NextLeader"]}
{"id": "C165", "title": "A request by the name of a service reaches the leader", "statement": "A request to the coordinator by the name of a service is answered by the leader, whatever address is remembered, if one coordinator leads and can be reached.", "quantifier": "every remembered address, every choice of the name service and every answer of the other servers", "why_tests_cant": "ranges over all answers and choices", "anchors": ["src/coordinator/coordinator_interaction.h:CoordinatorInteraction::SendRequestByService", "src/coordinator/coordinator_interaction.cc:CoordinatorInteraction::SetLeaderAddress"]}
{"id": "C166", "title": "The status of a request is that of its only answer", "statement": "The status that a request to the coordinator returns is the one its last server answered, and no earlier server answered it; if it returns a failure no server's answer was seen; it is sent at most five times.", "quantifier": "every behaviour of the servers and every interleaving of calls", "why_tests_cant": "ranges over all behaviours of the servers", "anchors": ["src/coordinator/coordinator_interaction.h:CoordinatorInteraction::SendRequestByList", "src/coordinator/coordinator_interaction.h:CoordinatorInteraction::SendRequestByService"]}
{"id": "C167", "title": "A request is handled at most once", "statement": "A request to the coordinator, for example to split a region or to make an auto-increment, is handled by a coordinator at most once for each time it is made.", "quantifier": "every behaviour of the servers and the network, and every interleaving of calls", "why_tests_cant": "needs lost answers at every point", "anchors": ["src/coordinator/coordinator_interaction.h:CoordinatorInteraction::SendRequestByList", "src/coordinator/coordinator_interaction.h:CoordinatorInteraction::SendRequestByService"]}
{"id": "C168", "title": "A paused job begins no run", "statement": "A periodic job of a server that was paused begins no run until it is started again.", "quantifier": "every state of the job and every order of timers, runs and calls", "why_tests_cant": "needs all interleavings of timers and runs with the call that pauses", "anchors": ["src/crontab/crontab.cc:CrontabManager::PauseCrontab", "src/crontab/crontab.cc:CrontabManager::Run"]}
{"id": "C169", "title": "A job is run once at a time and no more often than asked", "statement": "A periodic job of a server is never run twice at once, and a job with a largest number of runs is run no more often than that.", "quantifier": "every job and every order of timers, runs and calls", "why_tests_cant": "needs all interleavings of timers and runs", "anchors": ["src/crontab/crontab.cc:CrontabManager::Run", "src/crontab/crontab.cc:CrontabManager::StartCrontab", "src/crontab/crontab.cc:CrontabManager::AddCrontab"]}
{"id": "C170", "title": "A destroyed job is left alone", "statement": "Once the periodic jobs of a server are destroyed none of them begins a run, and what was freed is not used.", "quantifier": "every job, every moment of the destruction and every order of timers and runs", "why_tests_cant": "needs the destruction at every point of a run", "anchors": ["src/crontab/crontab.cc:CrontabManager::Destroy", "src/crontab/crontab.cc:CrontabManager::Run"]}
{"id": "C171", "title": "A started job goes on", "statement": "A periodic job of a server that is neither paused nor destroyed is run again and again by itself until it has been run as often as asked, and so is one that was paused and is started again.", "quantifier": "every job and every history of timers, runs and calls", "why_tests_cant": "needs all interleavings of timers and runs, and histories without end", "anchors": ["src/crontab/crontab.cc:CrontabManager::Run", "src/crontab/crontab.cc:CrontabManager::StartCrontab"]}
