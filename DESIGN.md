# Formal model of dingo-store in Rocq (Coq 8.16.1)

This file says what is modelled, how each property of `properties.jsonl` is
proved, what is trusted, and what was found to be false of the code.

## Layout

For every part of the code there are four kinds of files in `rocq/theories/`:

| file            | contents                                                                     |
|-----------------|------------------------------------------------------------------------------|
| `XModel.v`      | definitions only, function by function, each citing the lines of `/repo` it models |
| `XSpec.v`       | the independent, small specification used in the theorem statements          |
| `XProofs.v`     | lemmas and inductions                                                        |
| `XThms.v`       | the property theorems (each closed by `exact`), `Print Assumptions`, and a concrete example meeting the hypotheses |

Parts: `Bytes`/`SMap` (library: byte strings, lexicographic order, sorted
association lists), `Codec` (C01-C04, C38), `Mvcc` (C05-C07), `Txn`
(C08-C13, C16, C17, C21, C40-C42), `Async` (C65: asynchronous commit, many regions), `Raw` (C66-C68: the raw API with several peers), `Atom` (C18: many regions of `Txn` and
the client protocol), `Gc` (C19, C20), `Tso` (C22), `Cache` (C39, C53-C55), `Auto`
(C23), `Kv` (C24, C25, C59-C61), `Lease` (C26, C62), `Watch` (C27, C63, C64), `Id` (C28, C48, C49), `Reg` (C29, C33-C35, C56-C58), `Latch` (C30-C31), `Conc` (C32),
`TxnRead` (C14, C15, C21, C37, C43, C44), `Log` (C36, C45, C46), `Vec`/`Vq` (C69-C72: vector index and search), `Sess` (C73, C74: scan sessions), `Vr` (C75-C78: vector reader: queries, scans, counts, brute force, attribute filters), `Rt` (C79-C82: the coordinator's regions, heartbeats, the index by start key, lookups and creates), `Nm` (C83-C88: schemas, tables, indexes and names), `Cp` (C89-C93: pushed-down computation), `Sc` (C94-C99: automatic splits and merges), `Wq` (C100-C104: worker sets), `Sn` (C105-C108: raft snapshots), `Bal` (C109-C116: balancing leaders and replicas), `Jb` (C117-C124: jobs and region commands), `Br` (C125-C133: backup and restore), `Sp` (C134-C139: safe points), `Lk` (C140-C147: lock, thread pool, parallel calls), `Dn` (C148-C154: DiskANN server), `Di` (C155-C159: text index of documents), `Mw` (C160-C163: watches of meta data), `Ci` (C164-C167: requests to the coordinator), `Cr` (C168-C171: periodic jobs).

## Modelling conventions

* Byte strings are `list Z`; a well-formed byte string (`bytes_ok`) has all elements in 0..255.
* 64-bit integers are `Z` with an explicit range hypothesis, or explicit
  `mod 2^64` / `mod 2^32` where wrap-around is what the property is about.
* `CHECK`, `LOG(FATAL)` and undefined behaviour are a separate `Crash` outcome,
  never a default value.
* A column family of an ordered engine is a strictly sorted association list.
  RocksDB / BDB itself (atomic write batches, ordered iterators, snapshots) is
  assumed to implement such a map: this is the main modelling assumption.
* Raft is a totally ordered log; a `Write` is one atomic batch.
* Request handlers that touch the same keys are serialised by latches
  (C30 proves what the latch code gives), so handlers are atomic steps. Where
  the code issues several raft writes per request, the model exposes each write
  and the theorems quantify over the number of writes performed before a crash.
* Protobuf messages are records (the .proto files are not in the checkout; the
  field types are inferred from their uses).

## Plan per property

| id  | model | proof |
|-----|-------|-------|
| C01 | `encode_bytes`, `decode_bytes`, `encode_key`, `decode_key` on byte lists | induction on 8-byte groups; the malformed inputs that are accepted are characterised |
| C02 | same, lexicographic comparison | induction on groups, marker byte comparison |
| C03 | `package_value`, `unpackage_value`, flags, TTL | case analysis + BE8 round trip; abort on empty TTL values exposed |
| C04 | vector/document key builders and parsers | from C01/C02 and BE8 order lemmas |
| C05-C07 | byte-level iterator over a sorted list of encoded versions | refinement to "newest version <= ts" on abstract version lists |
| C08-C18 | Percolator requests over three column families, `step : state -> request -> state * response` | inductive invariant over request lists; protocol-level invariant for C18 |
| C19, C20, C47 | GC passes as functions from the version list to write batches (`gc_txn`, `gc_kv`), applied to a later content (writers only add versions above the safe point); any subset of batches may take effect | induction over the version list gives exactly which versions are proposed; reads compared before and after |
| C21, C37 | lock scan and paged scan over sorted lists | list induction |
| C22 | a raft group of oracles (`Tso*`): one committed log, every node its own `(physical, logical, saved)` state, clocks, elections, stops, restarts, snapshots and in-flight proposals as events | invariant over event lists: every range issued in a term lies above the entry that opened it; refutations of the unrestricted statement |
| C51 | the same machine | invariant; refutation by an invariant of the sick node |
| C23 | a raft group of id maps (`Auto*`): check, commit and apply of a request are separate steps; restarts, snapshots, leader stops | invariant: every node holds the replay of its log prefix; numbers climb along the log; refutations of the unrestricted statement |
| C52 | the same machine, with uint32 products and int64 sums | arithmetic of `end_id`; refutations |
| C24, C25, C59-C61 | index with generations, revision records, leases and counters; an entry of the log is a list of single writes, a crash a prefix of it (`Kv*`) | refinement to a map from keys to entries (`KvSpec.v`) along logs; compaction as a sublist that keeps the last revision; replay after a prefix |
| C26, C62 | the leader's table from leases to keys next to the store of C24, requests handing entries to a queue, apply, loss, election (`LeaseModel.v`) | invariant tying the table to store and leases over serial histories; refutations for overlapping ones |
| C27, C63, C64 | the watch table, closures and cancel status next to the store of C24; the apply thread as separate steps, registration as two steps under its lock (`WatchModel.v`) | serial simulation against a small specification; invariants over all interleavings; refutations for lost wakeups |
| C28, C48, C49 | the double-buffered id map; a coordinator group with log, snapshots, elections (`cstep`); the version-kv node | monotonicity invariant; refutations for the schedules that reuse ids |
| C29 | `on_apply` over a node (data, regions, applied index in memory and on disk); every handler gives the list of its writes, so a crash is a prefix | what a replayed suffix wrote is absorbed: key by key, the last write wins |
| C30, C31, C50 | latch slots with waiting queues, condition counters, one step per critical section | queue and wake-up invariant over schedules; decreasing measure; maximal-hash argument against deadlock |
| C32 | readers and prewrites as threads over the lock table, the heap of entries, the region's access timestamp and the applied writes | invariant over schedules linking published keys, pending entries and the timestamps a prewrite can still end with |
| C33-C35 | the same node; split (both kinds), prepare-merge, commit-merge and epoch checks as in the apply handlers | owners before and after each command; invariant over event lists |
| C56-C58 | the same node; catch-up inside commit-merge; crashes between the writes of a split or merge; interleavings of the logs of several regions | catch-up equals the log's own writes; projection of a run to the owner's log; refutations |
| C36, C45, C46 | raft log storage of all regions, with the term cache and both its search branches | representation invariant over call histories |
| C38 | `PrefixNext`, range helpers | lexicographic order lemmas, refutation of the "next key" reading |
| C39, C53, C54, C55 | lock-free batch list (mvcc/ts_provider), one atomic access per step, any number of calls, one pusher | shape invariant (cells in push order, head <= tail < length, links of live cells), each timestamp taken once from a cell at or before the head, then induction over schedules; C54 is false when two settings race; C55 by a measure on head and tail |
| C65 | many regions of the machine of C08-C18; clients and resolvers as rules on requests, with ghost lists of what has been answered and heard (`AsyncSpec.v`) | invariant with a relational fate and a history of first prewrites per key |
| C66-C68 | the raw requests of one region with several peers: latches, timestamps, reads, proposal, apply, elections with loss of unapplied entries, snapshots, clock as separate steps (`RawModel.v`); a map with deadlines, linearizability (`RawSpec.v`) | forward simulation: a request acts when its entry is first applied by a leader (or when it answers without writing); invariant relating reads done so far to the map; exhaustive search proved complete for the refutations |
| C69, C70 | per region: log, applied index, apply thread and index thread as program counters, wrapper (own, shared, sibling index, ApplyLogId, saved value), snapshot; a heap of index objects; one data column family (`VecModel.v`); what a search finds against what is stored, calm circumstances (`VecSpec.v`) | invariant per region over interleavings (each index object agrees with the effect of a prefix of the log on its range), per thread position; refutations by runs with one slip |
| C71, C72 | `MergeSearchResult`, `SearchByParallel` (`VqModel.v`) | list induction with permutations |
| C73, C74 | `ScanContext`, `ScanManager(V2)`, begin/continue/release, cleaning timer (`SessModel.v`), one step per lock taken | invariant over all interleavings relating each session's iterator to the snapshot of its begin; second invariant relating last-use times to the log |
| C75-C78 | the vector add/delete handlers over the four column families with MVCC encoding, and `VectorReader` (`VrModel.v`); protobuf (`wire`) and the flat index over one batch (`flat_search`) are parameters with laws | the four columns hold at each (id, timestamp) the encoding of the last event there, by induction over the history; every read is reduced to that; loops by induction over the remaining range |
| C79-C82 | `ApplyMetaIncrement` on the region map and the index by start key, `BuildTempMaps`, `ScanRegions` with `FindIntervalValues`, the region part of `StoreHeartbeat`, the checks of `CreateRegion`, splitting's child, `DropRegion` (`RtModel.v`); the stores are a `world`: for every time the version and range of every region (`RtSpec.v`) | never-crash and order from an invariant of the index alone; exactness from an invariant relating records and index to the world, over calm runs; worlds are shown to be what creates, splits and merges make; refutations by histories computed in the kernel |
| C83-C88 | schemas, tables, indexes and the name maps: the requests of `meta_service.cc` with `coordinator_control_meta.cc`, `ApplyMetaIncrement` on them, `BuildTempMaps`; increments may be applied in any order, be lost, or be applied after their handler was told of a failure (`NmModel.v`); a calm history, uniqueness, exact lists (`NmSpec.v`) | one invariant relating the applied maps, the leader's name maps and the increments that wait, plus the possible shapes of waiting increments; kept by each request, apply, loss and change of leader; refutations by histories computed in the kernel |
| C89-C93 | the first-generation coprocessor function by function: Open with its checks, decoding, filter, grouping, aggregates, paging; the second generation over sessions and over the transactional iterator (`CpModel.v`). The record codec, the expression evaluator and floating-point arithmetic are in libraries that are not in /repo: they are parameters. What a grouping, a selection and a page sequence have to be: `CpSpec.v` | induction over the rows with the group map as invariant (each entry is the aggregate of the members so far), then over the pages; for scans the iterator lemmas of C43/C44; safety by a size invariant on the group map; refutations computed in the kernel |
| C94-C99 | the merged iterator with its heap (ties broken arbitrarily), the three split policies, the split check and the set of regions being checked as an interleaving machine, the merge check's loop and tests (`ScModel.v`). Proof: invariant of the k-way merge (what is delivered is sorted and a permutation of the contents), loop invariants for the samples, invariants of the checking set |
| C100-C104 | `SimpleWorkerSet` as an interleaving machine with a mutex, a condition variable (signals wake one waiter, waits may return by themselves) and Destroy; `ExecqWorkerSet` with a queue per worker and the two counts (`WqModel.v`). Proof: per-task placement invariants (a task is in exactly one place), a no-lost-wake-up invariant, a weight that every own action decreases, order invariants of the queues |
| C105-C108 | The leader's reader and the follower's sst writer as functions over requests (`SnModel.v`, part 1); a replica as a machine with a persisted position, the raft library's position, a local snapshot directory and micro-steps of loading, crash and restart (part 2). Proof: the reader only cuts at pair boundaries; invariant "the data is the log's state at some h not below the applied position, except keys the entries still to be replayed will write"; version and range are monotone |
| C109-C116 | The planners of `balance_leader.cc` and `balance_region.cc` as functions of the region map, the store map and a sequence of views (reports and random picks, one for each look); scores of the region planner are rationals with the IEEE special values; the launch flag is an interleaving machine; the hours are parsed from bytes. Proof: an invariant of the planner's rounds (tasks with distinct regions, expected loads equal to the loads after the tasks), a potential for termination, a chain order for the sorted candidates |
| C117-C124 | The coordinator's jobs as a machine: the job table and archive, the raft log of job increments, a round of ProcessJobList in steps (begin, one request at a time, end, apply), reports, cleanings and leader changes between them; a store's command handling as a machine of handlers, executors, crashes and restarts. Proof: an invariant saying that every version of a job anywhere (table, log, round) has all steps before its next one acknowledged; counting of failures against retry counts; a variant (steps left) for the ending of jobs; an invariant relating the store's memory, disk and queue |
| C125-C133 | Backup and restore. The scan of a region (transactional: write, data and lock families of the `Txn` store; plain: flagged values), the files as sorted maps, the cutting of their entries into raft writes with an arbitrary outcome of each, the file checks with an arbitrary checksum, clients' two-phase commits against per-region snapshots, the tool's threads with their shared error, the coordinator's watch dog, and several tools' steps around it. Proof: the scan is characterised by induction on the sorted records; a restore is a fold of writes that commutes with earlier partial attempts; the consistent cut by an invariant relating transactions, locks, records and timestamps; the machines by invariants over all histories. Refuted outside the provisos by concrete histories. Not modelled: vector, table and document parts, the sst format, SQL meta data, the file that lists the files |
| C134-C139 | Safe points. The coordinator: applied counters, the leader's copies, the flag, the tenants, increments under way, with updates, tenant requests, commits in any order, failures and elections as events; the store: the table of tenants, the handler that fetches, the collector in steps between which fetches and requests can come, null pointers as an outcome. Proof: growth by an invariant over all histories; exactness of an update by characterising the increment it makes and the fold that applies it; the store by invariants (source of each safe point, halted tenant, tenants known, regions left to visit). Refuted outside the provisos by concrete histories. Not modelled: what a collection removes (see C19, C20, C47), times, the task tracker |
| C140-C147 | The read-write lock as a machine of any number of threads, a step being what a thread does while it holds the mutex; the thread pool with the points at which its workers can be overtaken (look, sleep, run), calls of ExecuteTask in three steps, size changes and destruction in the steps that other threads can see; the parallel calls as functions of what each part does. Proof: invariants of the counts over all interleavings, a measure that decreases with every step that is no new call and a characterisation of the states at rest; permutations for tasks and answers. Refuted outside the provisos by concrete interleavings. Not modelled: memory order (flags are seen at once), contents of tasks, core binding, metrics |
| C148-C154 | One index of the DiskANN server: its files, its item and the library object as a machine whose events are pushes, builds, loads, closes, destroys (each of the three renames may be left out), marks, restarts, and the steps of builds and loads between the item's lock and the library's; the store's cutting of a region into pushes. Proof: invariants of the item, the files being written and the jobs over all histories; induction on the batches. Refuted outside the provisos by concrete histories. Not modelled: the library's graph and distances (a search takes the positions found as given), the contents of the index other than the rows it was built from, the service's map of items, the asynchronous variants (services use the synchronous ones). |
| C155-C159 | The text index of a document region as a machine whose events are the handler of an entry, the advance of the applied position, loading, building, the scan of the store, rounds of catching up, the switch, and stops at any point with a fall-back of the applied position; the replay in batches entry by entry; the merge of two answers. Proof: the invariant that an index at position a is right about every document the entries after a do not name, kept by both ways of applying an entry and by moving either end; list induction for batches; permutations for the merge. Refuted outside the provisos by concrete histories. Not modelled: the text index library (a list of rows; additions never replace, deletions remove all rows of an id), ranges and splits, the mono-store engine, errors of the library, the waiting loop of writers during a switch |
| C160-C163 | One watch of the meta data beside the list of events, as a machine whose events are new meta events (with gaps between revisions), the two steps of a creation, progress calls, cancellations, clean-ups, trims and restarts. Proof: the invariant that what was brought, followed by the events of the pending revisions, is what happened, and that nothing is pending while a call waits; a permutation of the numbers of calls. Refuted beside by concrete histories. Not modelled: several watches at once (they share the list of events only), limits on watches and event types, clocks, the leader's stop |
| C164-C167 | The two ways to send a request to the coordinator as a machine of any number of calls that share what is remembered of the leader; what the servers do is part of the events. Proof: an invariant for each call carried through all interleavings; for lists, the distance to the leader in the ring falls with each attempt. Refuted beside by concrete runs, and for whole classes of runs by an invariant. Not modelled: channels, time-outs and the look-up of the method |
| C168-C171 | One periodic job as a machine of timers, runs, starts, pauses and its destruction. Proof: an invariant (at most one start, timer or run under way, and the timer is the remembered one) carried through all histories; that a job goes on is stated as: one more run can be reached by timers and runs alone. Refuted beside by concrete runs. Not modelled: time, the map of the jobs, the choice of jobs by role |
| C40-C42 | the transaction machine of C08-C18, with arbitrary requests for C40 | total step function; per-request effect lemmas |
| C43, C44 | provenance of read values; paged lock scans | invariant over histories; list induction |

## Trusted base

* Coq 8.16.1 kernel (and `coqchk`).
* Axioms: see the `Print Assumptions` output under each theorem; expected
  "Closed under the global context" everywhere.
* The reading of the C++ code recorded in the comments of the `*Model.v` files.
* Which parts of the code are modelled, by file and lines, and which are not:
  [COVERAGE.md](COVERAGE.md), made by `tools/coverage.py` from those comments.
* The statements: the theorems and the `*Spec.v` files they use.

## Conditions of the transaction theorems

Histories are lists of events (`TxnModel.event`): a request of which the first
n write batches are applied (n smaller than all of them = crash), a read, a
restart, a garbage collection step, an unlatched resolve and the late
application of its writes. `TxnSpec.plan` is what the outside world promises:
which timestamps are start timestamps, which commit timestamp belongs to which
transaction, and at which timestamp a transaction takes its locks
(`lock_point`: the start timestamp for optimistic, the largest for_update_ts
for pessimistic transactions). `plan_ok` says these timestamps do not collide.
`TxnSpec.allowed` says a request follows the plan. It demands nothing of the
order of requests, of retries, or of the store's own state, except: a prewrite
with the pessimistic check finds its lock (finding F4), and unlatched resolves
(finding F16) are not part of allowed histories. C40 has no such conditions.

## Findings

Each is a theorem whose name ends in `_refuted`, with a witness evaluated by
the kernel. All are about the model; the code paths are cited in the model.

| id  | theorem | what happens |
|-----|---------|--------------|
| F21 | `C01_decode_rejects_garbage_refuted` | the key decoder accepts byte strings the encoder never produces |
| F22 | `C03_empty_ttl_value_refuted` | reading the expiry of an empty value aborts the process |
| F23 | `C04_range_max_id_refuted` | a vector id range ending at the largest id loses ids |
| F24 | `C04_document_ts_refuted` | document keys with a timestamp do not decode to what was encoded |
| F25 | `C38_exclusive_start_refuted`, `C38_inclusive_end_refuted` | exclusive start / inclusive end act on all keys with that prefix, not on the key |
| F1  | `C09_timestamp_collision_refuted` | a one-phase commit timestamp is max(...)+1 and may equal another transaction's start timestamp; rolling that one back overwrites the commit record |
| F4  | `C08_pessimistic_lock_missing_refuted`, `C11_pessimistic_one_phase_refuted` | a prewrite with the pessimistic check proceeds when the lock is missing: lost update; a retried one-phase prewrite commits twice |
| F13 | `C21_first_page_only_refuted` | resolve without keys handles one page of locks and reports success |
| F14 | `C10_region_resolve_refuted` | resolve without keys reports a conflict after having resolved other transactions |
| F16 | `C13_unlatched_resolve_refuted` | resolve without keys takes no latches; its late writes remove another transaction's lock and roll back a committed one |
| F18 | `C12_acknowledged_rollback_refuted` | batch rollback of a committed transaction is answered with success |
| F19 | `C41_prewrite_undone_refuted` | a pessimistic lock request with larger for_update_ts turns the own prewritten lock back into a pessimistic one |
| F20 | `C17_reopened_refuted` | pessimistic lock ignores rollback records, so a transaction reported as rolled back can lock again |
| F17 | `C15_restart_refuted` | the largest read timestamp is only in memory: after a restart a one-phase or async commit can land below a read already answered |
| F26 | `C44_repeats_refuted`, `C44_stuck_refuted` | a paged lock scan returns the last lock of a page again on the next page; with limit 1 it never advances |
| F27 | `C36_held_entry_refuted` | with the term cache on, `get_term` answers 0 for an entry raft has truncated but the vector index still holds, and answers the last term for indexes beyond the end |
| F28 | `C45_empty_restart_refuted` | the first and last index of an empty log (after a reset) are 1 and 0 again after a restart |
| F29 | `C45_empty_entry_refuted` | a log entry without data is accepted and aborts the store when it is read |
| F30 | `C46_withdrawn_refuted` | the vector index's request to hold the log again ("temporary forbid truncate", index 0) is ignored after it had released it, so raft truncation drops entries it needs |
| F31 | `C19_reads_refuted`, `C20_reads_refuted` | garbage collection removes the newest version at or below the safe point as soon as a newer one exists above it, so reads between the safe point and that newer version lose their value |
| F32 | `C19_interrupted_refuted`, `C20_interrupted_refuted` | deletes are proposed newest first in independent batches; stopping between batches (or a failed proposal, which is ignored) leaves an old value without its tombstone: a deleted key reappears |
| F33 | `C48_early_request_refuted` | a new coordinator leader accepts requests (term set) before its scratch id map is refreshed; such a request uses the map of its previous leadership and hands out ids that were committed since |
| F34 | `C48_snapshot_refuted` | installing a snapshot does not fill in the initial id floors; counters absent from it restart, and ids are handed out again after a second snapshot |
| F35 | `C49_restart_refuted` | the version-kv node writes its id counters to disk even when the in-memory counter is ahead, so a late commit moves the disk counter back and a restart reuses lease ids |
| F12 | `C30_hash_zero_refuted`, `C31_hash_zero_refuted` | releasing a latch drops all queue entries of hash 0 in its slot: two commands hold the latch of hash 0, or a release hits an assert |
| F36 | `C50_signal_refuted` | the wake-up signals the condition after releasing its mutex; the woken request may have finished and destroyed it |
| F37 | `C32_vector_latch_refuted` | the vector and document services latch the decimal id of each mutation ("0" for deletes) instead of its key, so prewrites of one key run together, one hides the other's in-memory lock and a read misses a commit below its timestamp |
| F38 | `C32_vector_unpublish_refuted` | the vector and document services never unpublish in-memory locks: reads above their min_commit_ts are refused for ever |
| F39 | `C32_for_update_refuted` | a prewrite over a pessimistic lock that is not among the for_update_ts checks computes min_commit_ts without the lock's for_update_ts, while the read check trusts for_update_ts: a read passes and the transaction commits below it |
| F40 | `C22_before_sync_refuted` | a new leader serves between SetLeaderTerm and the apply of its start-up entry, from the old leader's last entry: duplicates |
| F41 | `C22_negative_count_refuted` | a negative count is accepted (only 0 is refused) and moves the logical part back |
| F42 | `C22_client_update_refuted` | a client update with an equal physical part is accepted and resets the logical part: duplicates |
| F43 | `C22_stale_timer_refuted` | a timer proposal computed in an earlier leadership of the same node can repeat the start-up entry and reset the logical part: duplicates |
| F44 | `C22_two_leaders_refuted` | a deposed leader serves from memory until it notices: a smaller timestamp after a larger one |
| F45 | `C51_unhealthy_refuted` | after one failed start-up entry is_healty_ stays false: the node never serves again, even as a properly started leader |
| F46 | `C23_create_race_refuted`, `C23_update_race_refuted` | creates and updates are checked against the leader's map before the commit and applied without a check: a concurrent create or an overtaken update resets the number, ids are handed out twice |
| F47 | `C52_product_refuted` | count * increment is a 32-bit product: count 65538, increment 65535 (both within the limits) yields a range with one id |
| F48 | `C52_deleted_refuted` | a generate applied after a delete is answered with success and the range [0, 0) |
| F49 | `C54_race_refuted` | SetMinValidTs checks and stores in two steps: when two regions become leader at the same time the smaller bound can overwrite the larger one, and a write of the region with the larger bound gets a timestamp below its last write |
| F50 | `C29_delete_range_refuted` | HandleTxnDeleteRangeRequest dereferences `ctx->Response()`, but followers and replays have no context: a transactional delete-range stops every follower, and the leader at its next restart (raft_apply_handler_txn.cc:265) |
| F51 | `C56_stale_refuted` | CatchUpApplyLog does not compare epochs: a put that was proposed before an earlier split and that on_apply refuses elsewhere is written on a replica that gets it with CommitMerge, outside the source's range (store_state_machine.cc:241-306) |
| F52 | `C57_version_refuted` | a crash between the two version writes of a split: the replay increments the new region's version again, so this replica refuses all later commands of that region (raft_apply_handler.cc:312-316) |
| F53 | `C57_standby_refuted` | a crash after the old region's version was written: the replay is refused for its version, the new region stays STANDBY, waits forever, and its keys have no owner on this store |
| F54 | `C57_abort_refuted` | post-create split: a crash after the region was created and before the old region's version was written makes every replay fail (the raft node exists already) and the process abort |
| F55 | `C57_merge_refuted` | a crash in CommitMerge after the target's range was written: the replay is refused, the source stays MERGING with its range, and its keys have two owners |
| F56 | `C58_prepare_refuted` | PrepareMerge compares with the target's current epoch on the replica: a replica that already applied a later change of the target ignores the merge and the source goes on taking commands there that other replicas refuse |
| F57 | `C59_ignore_value_refuted` | a put with ignore_value stores an empty value: the flag is set in the increment only when it is false (kv_control_kv.cc:463-480) |
| F58 | `C59_count_only_refuted` | a range read with count_only returns count 0: the count is the number of returned entries |
| F59 | `C59_prev_refuted` | prev_kv in a watch event carries the version after the change |
| F60 | `C24_max_key_refuted` | the legal key of 4096 bytes 0xff is not returned by a read to the end of the key space |
| F61 | `C60_version_refuted` | a crash in KvPutApply after the index was written: the replay adds the revision to the generation again, the version is one too high |
| F62 | `C60_lost_refuted` | the same crash, then a compaction above that revision: it erases the live record, and the key vanishes from all reads although it was put and never deleted |
| F63 | `C61_task_refuted` | CompactionTask drops the key that finds the batch of 50 full: each 51st key is never compacted |
| F64 | `C62_exact_refuted` | KvDeleteRange keeps one key per lease to detach (insert_or_assign): the other deleted keys stay in the lease's table, and when they are put again without a lease the lease's expiry deletes them |
| F65 | `C62_orphan_refuted` | a put waiting to be applied while its lease is revoked: KvDeleteRange does not see the key yet, the key stays attached to a lease that is gone, for ever |
| F66 | `C62_overlap_refuted` | two overlapping puts of a new key, one under a lease, one without: the key ends without a lease but is deleted when the lease expires |
| F67 | `C62_lost_delete_refuted`, `C62_lost_revoke_refuted` | the table is changed before the proposal: a failed delete leaves a key that outlives its lease, a failed revocation a lease that never expires under this leader |
| F68 | `C62_lost_grant_refuted` | a failed grant leaves its table entry, which nothing removes; the same id granted again keeps the old renewal time and expires at once |
| F69 | `C62_stale_refuted` | LeaseRevoke does not check that the table was built in this term |
| F70 | `C63_lost_wakeup_refuted` | KvPutApply/KvDeleteApply look at the watch table's size outside its lock, after changing the store: a put between OneTimeWatch's read and its insertion wakes nobody |
| F71 | `C63_leader_start_refuted` | OnLeaderStart clears the watch tables without answering: a watch registered in the window before is never answered, not even by the next OnLeaderStop |
| F72 | `C27_filter_refuted` | the immediate answer of OneTimeWatch ignores no_put_event |
| F73 | `C27_past_delete_refuted` | a delete after start_revision but before the registration is never reported: the range read only sees live keys |
| F74 | `C27_absent_delete_refuted` | deleting a key that is already deleted fires DELETE watches, with version 0 and no previous entry |
| F76 | `C18_rollback_rule_refuted` | BatchRollback over a committed and a prewritten key of one transaction answers success, skips the committed key and rolls back the other: the server does not protect atomicity against a client that rolls back after an attempt to commit |
| F77 | `C18_secondary_rule_refuted`, `C18_gc_refuted` | CheckSecondaryLocks marks a never-locked key rolled back whatever the primary says; garbage collection of the primary's delete record makes the next status check report a rollback |
| F5 | `C65_retry_refuted` | A prewrite repeated because its answer was lost succeeds with min_commit_ts 0 although its locks are marked for asynchronous commit (a key already prewritten by the transaction is skipped, so final_min_commit_ts stays 0; txn_engine_helper.cc Prewrite). The client takes this for a fallback to two phases and commits the primary at its own timestamp, while a resolver commits the other keys at the largest min_commit_ts: two commit timestamps |
| F6 | `C65_force_sync_refuted` | CheckTxnStatus with force_sync_commit rolls back (or pushes) the expired primary of a transaction that is already decided; only the caller's knowledge that a secondary is not marked makes it safe |
| F75 | `C27_prev_version_refuted` | prev_kv carries the version after the change (old version + 1) |
| F78 | `C67_range_delete_refuted` | KvDeleteRange takes no latches: between the read and the write of a compare-and-set the compared value can be deleted, and the compare-and-set still succeeds |
| F79 | `C67_expiry_refuted` | the value a compare-and-set compared with can expire before its write; readers see it absent, then the compare-and-set succeeds |
| F80 | `C67_follower_refuted`, `C67_new_leader_refuted` | conditional writes do not validate the leadership before they read: a follower answers "key not found" from old data, a new leader that has not applied its log stores over a value that exists |
| F81 | `C67_regained_leadership_refuted`, `C68_one_winner_refuted` | proposals carry no expected term: a leader that lost and regained the leadership between read and proposal produces a second winner of put-if-absent |
| F82 | `C67_early_put_refuted`, `C67_snapshot_refuted` | a write accepted before on_leader_start, or by a leader whose data came by a snapshot (RawAppliedMaxTs is not restored), can get a timestamp below the stored one: the put is acknowledged and never visible |
| F83 | `C67_stale_read_refuted` | reads check a cached leadership (no read index, no lease): a deposed leader that does not know it yet answers with old data |
| F84 | `C67_empty_value_refuted` | an empty value with a time-to-live is accepted; the next read of the key aborts the server |
| F85 | `C67_batch_read_refuted` | a batch get reads its keys one after the other without a snapshot: it can return one half of a batch put |
| F86 | `C70_last_entry_refuted`, `C70_last_entry_durable_refuted` | the catch-up rounds read log ids up to the applied index exclusively (GetDataEntries excludes its end, the caller passes the applied index): the last write applied during a build never reaches the new index; saving labels the snapshot with a later id, so a restart does not repair it |
| F87 | `C70_in_flight_refuted` | a handler that fetched the old index before the switching flag was set writes to it after the last round; the new index never gets the write |
| F88 | `C70_between_round_and_switch_refuted` | while a region has no ready index its handler does not wait for the switching flag: writes applied between the last round and the switch are in neither |
| F89 | `C70_repeated_in_replay_refuted` | additions of several log entries are gathered into one call; a flat index refuses a call with a repeated id as a whole and the replay ignores the status: two updates of one vector during a build lose every vector of the batch |
| F90 | `C70_refused_write_replayed_refuted` | the replay does not repeat the epoch check of the apply handler: a write answered with an epoch error is put into the index |
| F91 | `C70_one_sibling_refuted` | an addition to a merged HNSW region that falls to one sibling only gives the other an empty list, which HNSW refuses: the write is deleted from the sibling (or never put into the own index), though stored and acknowledged |
| F92 | `C70_split_during_build_refuted` | the switch stamps the new index with the region's range and epoch of that moment, not those it was built for: after a split during the build a search returns vectors of the other region |
| F93 | `C70_repeated_in_request_refuted` | a request with a repeated id is accepted and stored; the flat index refuses all of it; the client is told success |
| F94 | `C70_restart_behind_mark_refuted` | ApplyLogId is saved at a switch without a snapshot: after a restart that resumes behind it, re-applied entries are skipped though the loaded snapshot lacks them |
| F95 | `C70_timestamp_order_refuted` | timestamps are taken before the proposal: with two writes of an id proposed against timestamp order, the table keeps one and the index the other |
| F96 | `C70_merge_without_index_refuted` | after a merge with a source without an index the target goes on answering searches without the source's vectors |
| F97 | `C72_last_query_unanswered_refuted` | the parallel search places the answers of batch number k at k, not at its first query: with more than one query per task the last query is always answered with nothing |
| F98 | `C73_reused_id_refuted` | version 2 scan ids are chosen by clients: a session that timed out and whose id was begun again by another client is continued with the other client's range, without an error |
| F99 | `C73_negative_size_refuted` | a negative max_fetch_cnt passes the check for zero, becomes a huge unsigned number and evades the server's limit on the number of pairs |
| F100 | `C74_stale_request_refuted` | a continue that found the old session, and fails because it was recycled, removes by id whatever session has the id now: a session just begun by another client is gone |
| F101 | `C75_ttl_refuted` | VectorAdd with a time-to-live and empty table data (or attributes) stores a value without its deadline; the next read of that part aborts the server (CHECK in the MVCC value codec) |
| F102 | `C75_negative_start_refuted` | VectorScanQuery with a negative start id passes the request checks (only 0 is refused) and aborts the server in the key encoder |
| F103 | `C77_datetime_refuted` | attributes of type DATETIME never match an equality filter: the comparison has no case for them |
| F104 | `C78_post_refuted` | search with attribute post filter looks only at the 10*top_n nearest vectors: matching vectors further away are never found, and the answer does not say so |
| F105 | `C76_unsorted_refuted` | the hint `is_sorted` of an id filter is trusted: binary search in unsorted ids drops requested ids silently |
| F106 | (specification `search_answers`) | a brute-force search in a region that holds nothing returns no result list at all instead of one empty list per query |
| F107 | `C81_race_refuted` | a heartbeat that only changes the state of a region rewrites the region's start key entry. If it was built before a split was reported and is applied after the child's report, the parent takes the child's entry back, and the parent's own report then deletes it: the child stays unroutable until the leader changes although all records are current; heartbeats cannot repair it |
| F108 | `C81_drop_refuted` | dropping a region deletes the index entry under the start key last known of it, without asking whose it is: after a merge reported by the target first, dropping the source makes the target unroutable |
| F109 | `C82_one_request_refuted`, `C82_two_requests_refuted` | the overlap check of creates reads the applied state only: overlapping partitions of one CreateTable, or two concurrent creates, are both accepted |
| F110 | `C82_inverted_refuted` | CreateRegion takes a range whose end is below its start (same first byte): the overlap check looks up an empty interval. After the next change of leader its entry can replace that of a real region with the same start key |
| F111 | `C79_far_end_refuted` | ScanRegions with an end key above nine bytes 0xff can return regions without keys (children of splits not yet carried out) |
| F112 | (reading) | `CreateShadowRegion` calls `set_part_id(part_id)` and then `set_part_id(tenant_id)`: the partition id of the shadow region is overwritten with the tenant id |
| F113 | `C86_overwrite_refuted` | `DoCreateSchema` passes an uninitialised `new_schema_id` to `CreateSchema`, which takes any positive value as the wanted id without a check: an existing schema can be replaced by an empty one (its tables are then in no list), or an arbitrary id be used |
| F114 | `C83_half_drop_refuted`, `C85_half_drop_refuted` | a DropTables request that fails at its second table has already freed the name of the first, which stays: it cannot be found by name any more, and its name can be given to a second table |
| F115 | `C83_lost_drop_refuted` | a drop frees the name when it is proposed: if the name is used again and the drop is then lost by a change of leader, two tables have the same name |
| F116 | `C83_late_refuted` | CreateTables frees the names when it is told that its proposal failed, which may still be applied (e.g. a time-out): two tables with the same name |
| F117 | `C84_drop_schema_refuted`, `C84_index_refuted` | DropSchema accepted while a CreateTable (or a drop of an index) of the schema is under way: applying the latter is LOG(FATAL) on every coordinator, at every restart again |
| F118 | `C86_orphan_refuted` | DropSchema checks for tables but not for indexes: the indexes stay without a schema and cannot be dropped |
| F119 | `C85_other_tenant_refuted` | DropSchema does not compare the tenant: under another tenant's id the schema is dropped but its name stays taken until the leader changes (and a name of the other tenant is freed) |
| F120 | `C88_drop_table_refuted`, `C88_plain_refuted` | the RPC DropTable never succeeds: it requires GetTableIndexes to succeed with an empty answer, which it never does. DropTables in turn refuses tables made by CreateTable; neither they nor their schema can ever be dropped |
| F121 | `C87_dangling_refuted` | `RemoveTableIndex` (DropTables of an index) uses one parent id as schema id and as table id: the index is dropped but stays in its table's list, after which GetTables of the table fails and the table cannot be dropped |
| F122 | `C87_add_race_refuted` | an index added to a table while DropTables of it is under way outlives the table and can be dropped by no request |
| F123 | `C90_sum_refuted` | SUM of a 32- or 64-bit column adds in the type of the column: overflow is undefined behaviour (in practice a wrapped sum) |
| F124 | `C90_distinct_refuted` | a first-generation request with group-by columns and no aggregates (SELECT DISTINCT) passes all checks and dereferences a null pointer at the first row |
| F125 | `C90_columns_refuted` | the indexes of the columns of the original schema and of the selection are used as vector subscripts unchecked (the check is commented out) |
| F126 | `C90_count_refuted` | when the row of a count cannot be encoded, `has_result_kv` is read uninitialised |
| F127 | `C91_encoder_refuted` | a negative return value of the record encoder drops the row and reports success |
| F128 | `C89_empty_no_row` | a COUNT or SUM0 without groups over an empty range returns no row, where SQL has a row with 0 |
| F129 | `C93_per_page_refuted` | second-generation aggregates over a scan session are drained at the end of every page: a range that needs several pages yields one partial aggregate per page |
| F130 | `C93_count_again_refuted` | a further page of a session that counts returns another row, with 0 |
| F131 | `C93_lock_refuted` | a lock met inside the coprocessor yields the aggregates so far, the lock, and has_more = false: the stream cannot be continued after the lock is resolved |
| F132 | (read) | first-generation sessions never set has_more; COUNT of a column index below -1 is accepted and counts the non-null values of column 0; key_only is not applied to drained rows |
| F133 | `C95_hot_key_refuted`, `C95_empty_half_refuted` | the split key is the user key of a sampled version: a user key with many versions at the start of its region is proposed in every round and refused by the coordinator in every round; elsewhere the left part may be empty |
| F134 | `C95_size_threshold_refuted` | SIZE tests the threshold in the else-branch of the position: a region whose last version crosses both is not split |
| F135 | `C95_divided_vector_refuted` | in a vector region the split key may be the key of a scalar speed-up entry, which carries a suffix: the vector stays in the left region and its speed-up entries go to the right one |
| F136 | `C97_again_refuted` | a region is recorded as being checked after its task was handed over; a task that ends in between leaves it recorded, and the region is never checked again until the store restarts |
| F137 | `C99_last_pair_refuted` | the loop over regions stops at size - 2: the last pair of the list is never considered, and two regions alone are never merged |
| F138 | (read) | the merge check looks up only the source of a pair among the regions being merged, not the target; metrics keep their old values when a scan finds nothing |
| F139 | `C100_during_stop_refuted` | Execute does not look at is_stop: a call that overlaps Destroy is answered with true and its task never runs |
| F140 | `C102_outstanding_refuted` | the limit is tested before the count is increased and with `>`: racing calls pass it, and one call at a time reaches limit + 1 |
| F141 | `C102_concurrency_refuted`, `C101_in_place_refuted` | with in-place runs (the raft apply default) W workers and W callers run at the same time, contrary to the comment in Execute, and later calls overtake queued ones |
| F142 | `C102_apply_refuted` | on_apply logs at FATAL when the apply set refuses a task ("downgrade to in_place execute" is never reached): a store with more than 1025 regions applying at once ends its process |
| F143 | `C104_refusal_refuted` | ExecqWorkerSet increases its count after handing the job over and decreases it when the job ends; a job that ends first makes it -1, which is read as uint64_t: every call is refused until the first one goes on |
| F144 | `C104_region_id_refuted` | `region_id % WorkerNum()` is negative for a negative region id: index below the vector |
| F145 | `C106_restart_refuted`, `C106_stop_before_record_refuted` | loading an installed snapshot records the snapshot's index j, not the leader's position i > j at which its data was taken; a restart before the persisted position reaches i loads the snapshot again: deletes the region's range, finds the sst files removed, skips the ingestion. The replica goes on without its data |
| F146 | `C107_neighbour_refuted` | the reader builds iterator options with the range's end and then passes default ones; the read loop only tests the lower bound: a snapshot carries the leader's whole column family from the region's start on, and ingesting it overwrites (or revives) keys of later regions on the follower |
| F147 | `C108_passed_over_refuted` | a follower that passes a split through a snapshot takes over version and range but never opens the child: its replica of the child stays in STANDBY for good |
| F148 | `C105_reopened_refuted` | a data file opened again while its context is kept answers a request for offset 0 with the new adaptor's empty last package: the copy ends with an empty file |
| F149 | `C105_other_count_refuted` | a lost answer asked for again with a larger count is answered with the short package, which the raft library takes for the end of the file |
| F150 | `C111_memory_refuted`, `C111_learner_refuted` | transfers into a store keep the regions that fail the resource check (the test is inverted) and do not ask for a voting replica |
| F151 | `C111_busy_refuted` | the final filter uses the region filters again instead of the task filters, and the task filter's check always returns true: regions with unfinished jobs are moved |
| F152 | `C112_unlucky_refuted` | one region is picked at random; if it cannot go, its store is passed over for good and the plan may stay empty |
| F153 | `C110_unsteady_refuted` | the last look drops transfers on which later ones were planned: a store ends with fewer leaders than the emptiest had |
| F154 | `C114_crash_refuted` | a store that reports capacity 0 makes a score NaN (0/0); no candidate is chosen and the null entry is dereferenced |
| F155 | `C114_unhealthy_refuted` | the region planner's state filter overrides another overload of Check than the one that is called: no region is ever refused for its health |
| F156 | `C114_limit_refuted` | the configured difference of scores is tested for the first try of a round only |
| F157 | `C113_replica_lost_refuted` | a store known only from its own heartbeat passes for one without regions; a replica may be moved onto a store that has one, the new list names it twice, std::set_difference counts it as one added store, and the change of peers is accepted: a replica is lost |
| F158 | `C115_two_run_refuted` | the running flag is tested and set in two steps |
| F159 | `C116_midnight_refuted` | a window over midnight (22,3) is never open |
| F160 | `C118_cleaned_refuted` | CleanJob archives jobs as successful although nothing of them was sent |
| F161 | `C118_other_store_refuted` | a process that is asked under another store id returns an empty answer without an error, which counts as acceptance of all commands |
| F162 | `C118_comes_back_refuted`, `C120_overwritten_refuted` | a round writes whole jobs as it saw them at its start: a cleaned job comes back, a failure reported meanwhile is undone |
| F163 | `C119_check_refuted`, `C119_gone_refuted` | a command that is accepted but has no effect is never sent again, the job waits at the next pre-check; a job that is to drop a region that is already gone waits for ever |
| F164 | `C120_two_operations_refuted` | a failure does not reset is_success of the operation: the other operations' acceptances move the job on |
| F165 | `C122_clean_refuted`, `C122_given_up_refuted` | deleting a job twice (round and CleanJob, or round and giving up) archives an empty job under another id, a CHECK that ends every member, again at each replay |
| F166 | `C123_retry_refuted` | a retried command is not recorded again: after a crash its old FAIL status keeps it from being recovered |
| F167 | `C123_twice_refuted`, `C124_twice_refuted` | the test for known commands and the recording are separate steps: commands sent twice at once run twice, or are answered OK before they are on disk |
| F168 | `C123_known_refuted` | a command recorded but not dispatched is answered REPEAT, which the coordinator takes for acceptance |
| F169 | `C124_crash_refuted`, `C124_retry_refuted` | commands are run again after a crash before their status is stored, and whenever they carry the retry mark |
| F170 | `C128_always_ok`, `C128_restored_refuted` | `DoReadSstFileForTxn` returns the status of opening the file, not the one of the restore (txn_engine_helper.cc:7717-7846): a restore is answered OK although every raft write was refused |
| F171 | `C128_passed_over_refuted` | while writing, only `EPERM` stops a restore; after any other error it goes on with the next batch and the error is lost |
| F172 | `C127_torn_refuted`, `C127_consistent_refuted` | a backup only looks at locks of the transaction that wrote the newest record; an in-flight transaction with a commit timestamp at or below the backup's is saved in one region and missing in another |
| F173 | `C130_overwritten_refuted`, `C130_early_refuted` | the threads of the backup tool share one error that a thread without an error overwrites and that may be read before it is written: the tool reports success with regions missing |
| F174 | `C130_raw_refuted` | regions whose keys start neither with t nor with w or x are in neither pass of the tool |
| F175 | `C131_split_refuted` | range and epoch are checked before, the scan takes the region's range at its time; after a split between the two the backup is answered OK with half of the range |
| F176 | `C133_stopped_refuted` | the tool reads whether garbage collection is stopped before it registers; if another one ends in between, it runs with garbage collection on |
| F177 | `C134_next_leader_refuted` | the leader's copy of a safe point is raised before the write; when the write fails stores have been given a safe point that the next leader does not know |
| F178 | `C134_second_creation_refuted` | of two creations of a tenant sent at the same time both are accepted, and the second one, when applied, sets the tenant's safe points back to 0 |
| F179 | `C135_refused_but_raised_refuted` | an update refused for an unknown tenant has already raised the default safe points that the leader gives out |
| F180 | `C135_raise_dropped_refuted` | an update carries a copy of the tenant; if the copied lock safe point is older than the applied one the whole update is passed over (`continue`), though it was acknowledged |
| F181 | `C135_acknowledged_on_hearsay_refuted` | an update is acknowledged without a write when another one under way asks for the same; that one may fail |
| F182 | `C135_name_undone_refuted` | applying a safe point update of a tenant without a lock safe point also sets name and comment, to copies that may be older than a rename committed before |
| F183 | `C135_answer_refuted` | `DoUpdateGCSafePoint` sets new_safe_point twice, the second time to the lock safe point (coordinator_service.cc:2337-2396) |
| F184 | `C136_request_refuted` | a client's collection request is carried out at any safe point the client names, also above the coordinator's |
| F185 | `C137_race_refuted` | the collector reads the flags and then sets "not stopped" for all it read: a stop fetched in between is forgotten until the next fetch |
| F186 | `C137_absent_tenant_refuted` | a tenant missing from the answer (dropped) keeps its entry and goes on being collected although collection is stopped |
| F187 | `C139_unknown_tenant_refuted` | a collection request for a tenant the store has not fetched a safe point for dereferences a null pointer (txn_engine_helper.cc:4797, 5065) and ends the store |
| F188 | `C142_reader_kept_out_refuted` | readers wait as long as any writer waits: two writers taking turns keep a reader out for ever |
| F189 | `C144_no_workers_refuted` | a request can set the size of the pool of the vector index to 0: tasks are then accepted and never run, their callers wait for ever |
| F190 | `C144_other_exception_refuted` | a task that throws something that is no std::exception ends the process: the handler throws it again and catches std::exception only |
| F191 | `C145_lost_wake_up_refuted` | is_stop is set and workers are notified without the mutex under which a worker looks at is_stop: the worker may miss both and sleep on, and the call that shrinks or destroys the pool waits for it for ever, holding mutex_ |
| F192 | `C145_late_task_refuted` | ExecuteTask looks at is_destroied_ before it takes the mutex: a task pushed after the workers have gone is never run, and Join waits for ever |
| F193 | `C146_exception_is_lost_refuted` | exceptions of tasks stay in the worker: an upsert or delete in an HNSW index, or any parallel write, answers OK although vectors were left out; the handlers for std::runtime_error around ParallelFor are never reached |
| F194 | `C146_destroyed_pool_refuted` | parts that get no task because the pool is being destroyed count as OK |
| F195 | `C147_larger_batches_refuted` | SearchByParallel and RangeSearchByParallel put the answers of batch b at b, b+1, ... and not at b * batch size: with vector_read_batch_size_per_task above 1 queries get the answers of others |
| F196 | `C148_torn_destroy_refuted` | a destroy moves data, index and ids one after the other and ignores failures: after a stop in between, a new import and a restart before its build, the old index is taken for the new import's and old vectors answer under new ids |
| F197 | `C149_second_import_dropped_refuted` | an item that has finished an import answers OK to pushes of any other import and drops them: a store that imports a newer state of the region is told that it is stored |
| F198 | `C151_reset_under_build_refuted` | Build and Load let go of the item's lock before the library object takes its own: a close or destroy in between is granted and the build or load then uses a null pointer |
| F199 | `C152_destroy_undone_refuted` | the end of a build or load stores its state without looking whether the item was reset: after an acknowledged destroy pushes are refused and a load uses a null pointer |
| F200 | `C153_mark_lost_refuted` | a destroy whose renames fail is acknowledged; the no-data mark set afterwards is deleted at the next close or restart because the old files still make an index |
| F201 | `C150_case` | a push that is repeated, as a retry after a lost answer does, is an error of quantity that lasts until a reset: the import has to begin anew |
| F202 | `C155_a_switch_inside_an_entry_loses_it_refuted` | a document whose handler wrote to the old index just before the switch, and whose position is stored just after it, is neither replayed nor written to the new index: it is never found |
| F203 | `C155_a_switch_one_entry_behind_loses_it_refuted` | ReplayWalToDocumentIndex does nothing if start_log_id >= end_log_id, though both ends are included: when exactly one entry is missing, it is left out for good |
| F204 | `C156_a_rebuild_brings_deleted_documents_back_refuted` | BuildDocumentIndex reads the raw data family, where deletions and updates are newer versions beside the old ones: deleted documents are in the index again after a rebuild |
| F205 | `C157_a_rebuild_keeps_old_contents_refuted` | for the same reason a rebuilt index holds every earlier content of a document |
| F206 | `C157_a_restart_adds_documents_twice_refuted` | replay always uses Add: entries that were in the index already, because the position is saved every ten entries only, are in it twice after a restart, and replayed updates leave the old content beside the new |
| F207 | `C159_an_unlimited_search_is_cut_off_refuted` | with a sibling index an unlimited search that names a top_n is cut off at top_n |
| F208 | read, not modelled | DocumentIndex::SaveMeta returns with the write lock held if the meta file cannot be saved: later searches and writes of this index wait for ever |
| F209 | `C162_the_newest_event_at_the_creation_comes_refuted` | MetaWatchCreate asks GetRangeKeyValues for the events up to the last key, but the upper end is excluded: the newest event held is never brought |
| F210 | `C162_a_watch_after_a_restart_brings_the_past_refuted` | the events are kept in memory only; with none held GetFirstKey leaves 0, so a watch from an old revision is accepted after a restart and the past is silently missing |
| F211 | `C162_a_watch_from_the_next_revision_brings_the_next_event_refuted` | AddEventList drops an event whose revision equals the start (start_revision < meta_revision): a client that goes on from the revision after the last it saw misses one |
| F212 | `C162_an_event_during_the_creation_comes_once_refuted` | events between the registration of the watch and the look at the events held are in both lists of pending revisions: brought twice |
| F213 | `C163_a_refused_watch_would_miss_an_event_refuted` | a start that lies between two revisions with events is refused as compacted though every event is held |
| F214 | `C164_a_request_gets_past_a_server_that_is_down_refuted` | SendRequestByList returns on a failed call without NextLeader: while the remembered coordinator is down every request fails, though the leader is up |
| F215 | `C164_a_long_list_reaches_the_leader_refuted` | with six or more addresses five attempts need not reach the leader |
| F216 | `C165_wrong_hints_are_got_over_refuted` | SendRequestByService follows hints only, never the name, while servers answer: two servers with old hints keep it in a circle |
| F217 | `C167_a_request_by_name_is_handled_once_refuted` | a call whose answer is lost is sent again without any mark by which the coordinator could know it: changes are made twice |
| F218 | `C165_other_calls_do_not_keep_a_request_from_the_leader_refuted` | a call that fails clears the remembered leader even if another call has just found it (SetLeaderAddress has no compare): with a few late failures a request uses up its attempts though the leader is up |
| F219 | `C169_an_async_job_is_run_once_at_a_time_refuted` | the timer of an async job is set again when its function has been handed to the background: if it lasts longer than the interval it is run several times at once |
| F220 | `C169_a_job_started_again_is_run_once_at_a_time_refuted` | StartCrontab does not look whether a run is under way: pause and start during a run give two chains of timers, which overlap and pass max_times |
| F221 | `C170_a_destroyed_job_is_left_alone_refuted` | Destroy and DeleteCrontab delete the timer and free the job, but a run under way holds a bare pointer: it counts and sets a timer in a freed job, whose function Destroy, which does not pause it, lets run later |
