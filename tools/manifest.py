#!/usr/bin/env python3
"""Writes MANIFEST.json. Run from /verif. Claims live in the table below."""
import json
C = []
def claim(p, status, theorems, note=""):
    C.append({"property": p, "status": status, "theorems": theorems.split(), "note": note})

claim("C01", "proved", "C01_key_roundtrip C01_bytes_roundtrip C01_decode_exact C01_decode_rejects_garbage_refuted",
      "Round trip for all keys and timestamps; the set of accepted inputs is characterised exactly, including the malformed ones.")
claim("C02", "proved", "C02_order C02_injective C02_key_versions_range C02_user_range C02_range_roundtrip")
claim("C03", "proved", "C03_value_roundtrip C03_ttl C03_empty_ttl_value_refuted",
      "The TTL accessor stops the process on an empty value; proved exactly when.")
claim("C04", "proved", "C04_roundtrip C04_roundtrip_scalar C04_roundtrip_ts C04_roundtrip_scalar_ts C04_order C04_range_ids C04_range_max_id_refuted C04_document_ts_refuted")
claim("C05", "proved", "C05_get C05_get_total C05_get_empty_key")
claim("C06", "proved", "C06_scan C06_get_agrees_with_scan C06_empty_bounds")
claim("C07", "proved", "C07_reverse C07_max_key")
claim("C08", "partial", "C08_no_lost_update_partial C08_optimistic_partial C08_pessimistic_lock_missing_refuted",
      "Proved for all histories in which a prewrite with the pessimistic check finds the lock it relies on; missing (and false, refuted): the same when the lock was given up by someone else.")
claim("C09", "proved", "C09_committed_once C09_never_both C09_timestamp_collision_refuted",
      "The proviso of distinct timestamps is necessary: store-computed commit timestamps can collide with start timestamps (refuted).")
claim("C10", "partial", "C10_rejected_no_effect_partial C10_all_or_nothing C10_region_resolve_refuted",
      "All requests that name keys; missing (and false, refuted): resolve without keys.")
claim("C11", "partial", "C11_commit_retry C11_rollback_retry C11_rollback_twice C11_pess_rollback_twice C11_heartbeat_twice C11_resolve_twice C11_prewrite_retry_partial C11_two_phase_twice C11_one_phase_twice C11_pessimistic_one_phase_refuted",
      "Missing (and false, refuted): one-phase prewrite with pessimistic check.")
claim("C12", "partial", "C12_rollback_recorded_partial C12_rollback_final C12_acknowledged_rollback_refuted",
      "Missing (and false, refuted): rolling back a key that is already committed is acknowledged too.")
claim("C13", "partial", "C13_prewrite_excluded C13_pess_lock_excluded C13_commit_excluded C13_lock_kept_partial C13_lock_gone C13_reachable_ok C13_unlatched_resolve_refuted",
      "For requests executed one at a time per key; missing (and false, refuted): resolve without keys runs without latches.")
claim("C14", "proved", "C14_get C14_one_answer C14_batch_get C14_scan")
claim("C15", "partial", "C15_repeatable_partial C15_store_timestamp_partial C15_restart_refuted",
      "Within one run of the store and while garbage collection has not passed the version read; missing (and false, refuted): the largest read timestamp does not survive a restart, so one-phase commits afterwards can commit below it.")
claim("C37", "proved", "C37_scan_pages C37_page_limit")
claim("C43", "proved", "C43_value_was_written C43_record_was_written")
claim("C44", "partial", "C44_lock_scan_partial C44_repeats_refuted C44_stuck_refuted",
      "Proved with the repeated first lock of each later page dropped; the unrestricted statement is false (refuted), with limit 1 the scan never ends.")
claim("C16", "proved", "C16_heartbeat")
claim("C17", "partial", "C17_no_premature_rollback C17_committed_permanent C17_rolled_back_permanent_partial C17_reopened_refuted",
      "Missing (and false, refuted): a delayed pessimistic lock re-locks a rolled back key, so the next check reports a live lock.")
claim("C21", "partial", "C21_lock_scan C21_resolve_region_partial C21_resolve_keys C21_first_page_only_refuted",
      "Resolving at most scan_lock_limit locks; beyond that false (refuted).")
claim("C40", "proved", "C40_no_abort", "Collections are of tenants whose safe point the store has fetched; the null pointer met otherwise is C139's.")
claim("C41", "partial", "C41_prewrite_effect C41_locked_until_decided_partial C41_prewrite_undone_refuted",
      "Missing (and false, refuted): a later pessimistic lock request of the same transaction undoes the prewrite.")
claim("C42", "proved", "C42_commit_durable")
claim("C38", "proved", "C38_transform C38_prefix_next C38_exclusive_start_refuted C38_inclusive_end_refuted C38_intersect C38_contain C38_conflict C38_invalid",
      "Exclusive start / inclusive end act on prefixes; the naive reading is refuted.")
claim("C36", "proved", "C36_term_map C36_get_term C36_get_term_uncached C36_held_entry_refuted",
      "For entries raft has truncated but the vector index still holds, the cached answer is wrong (C36_held_entry_refuted).")
claim("C45", "proved", "C45_entries C45_ranges C45_data_ranges C45_no_abort C45_restart C45_truncation C45_empty_restart_refuted C45_empty_entry_refuted",
      "Contract: lallowed (LogSpec.v).  The bounds of an empty log and entries without data are shown to be outside the claim by the refuted theorems.")
claim("C46", "partial", "C46_released_partial C46_latest_partial C46_withdrawn_refuted",
      "Proved for the largest request since the last reset, and for the latest request when requests never go back; a withdrawn release is ignored (refuted).")
claim("C19", "partial", "C19_untouched C19_reads_partial C19_interrupted_partial C19_reads_refuted C19_interrupted_refuted",
      "Missing (and false, refuted): a read between the safe point and a newer commit loses its value; a collection stopped between batches brings a deleted key back.")
claim("C20", "partial", "C20_total C20_reads_partial C20_scan_partial C20_interrupted_partial C20_reads_refuted C20_interrupted_refuted",
      "Missing (and false, refuted): the same two cases as C19.")
claim("C47", "proved", "C47_newer_kept C47_contents C47_never_stale C47_txn_contents C47_txn_values C47_txn_never_stale C19_untouched")
claim("C28", "proved", "C28_increasing C28_never_back C28_batch C28_update")
claim("C48", "partial", "C48_never_again_partial C48_unique_partial C48_early_request_refuted C48_snapshot_refuted",
      "Missing (and false, refuted): requests served between SetLeaderTerm and OnLeaderStart; snapshots that lack an initialised counter.")
claim("C49", "partial", "C49_never_again_partial C49_restart_refuted",
      "Proved when updates are applied in allocation order; otherwise false (refuted).")
claim("C30","proved","C30_exclusive C30_owner C30_covers C30_hash_zero_refuted","For all schedules of critical sections; the proviso (no key hashes to 0) is in the statement and C30_hash_zero_refuted shows it is needed.")
claim("C31","proved","C31_wakeups C31_queue C31_fifo C31_no_abort C31_no_deadlock C31_bounded C31_granted C31_hash_zero_refuted","Wake-ups exact, FIFO queues, no abort, no deadlock, bounded executions. Same proviso as C30.")
claim("C50","partial","C50_decrease_partial C50_signal_refuted","The counter decrease only touches waiting commands; the signal after it can reach a destroyed condition (refuted).")
claim("C32","proved","C32_no_missed C32_visible C32_unpublished C32_refused C32_over C32_vector_latch_refuted C32_vector_unpublish_refuted C32_for_update_refuted","For all schedules of critical sections. The provisos are in the statement; the refuted theorems show that each is needed (the vector and document services violate the first, pessimistic locks without a for_update_ts check the second).")
claim("C22","partial","C22_unique_partial C22_increasing_partial C22_before_sync_refuted C22_negative_count_refuted C22_client_update_refuted C22_stale_timer_refuted C22_two_leaders_refuted","Proved under tallowed (TsoSpec.v) for uniqueness, and without overlapping leaderships for order. Without each condition the claim is false (refuted theorems).")
claim("C51","partial","C51_serves_partial C51_unhealthy_refuted","Proved for a healthy leader; a node whose start-up entry failed once never serves again (refuted).")
claim("C23","partial","C23_disjoint_partial C23_increasing_partial C23_create_race_refuted C23_update_race_refuted","Proved for every schedule whose committed log creates each table once and never lowers it; the checks before the commit do not ensure that (refuted).")
claim("C52","partial","C52_grid_partial C52_product_refuted C52_deleted_refuted","Proved when count * increment fits into 32 bits and the table exists when the request is applied; otherwise false (refuted).")
claim("C39","proved","C39_once C39_after C39_no_abort","One worker pushes (as in the code); the memory of popped batches is not reused while a call still holds it.")
claim("C53","proved","C53_ordered","")
claim("C54","partial","C54_bound_partial C54_race_refuted","Proved when no two settings of the bound overlap; false otherwise (refuted: SetMinValidTs is a check followed by a store).")
claim("C55","proved","C55_renewal","The renewal and then the call run without other steps in between; the model gives the number of steps existentially.")
claim("C29","partial","C29_replay_partial C29_delete_range_refuted","Proved for logs of data commands without transactional range deletes, for any number of crashes at any write; a transactional range delete stops the process at replay (refuted). Splits and merges: C57.")
claim("C33","proved","C33_split C33_rejected C33_partition","")
claim("C34","proved","C34_prepare C34_union","")
claim("C35","proved","C35_refused C35_version C35_inside","Commands that reach a replica with a merge are the subject of C56.")
claim("C56","partial","C56_hand_over_partial C56_stale_refuted","Proved when the commands carry the source's epoch; the catch-up does not check it, so a command every other replica refused is applied (refuted).")
claim("C57","partial","C57_split_partial C57_version_refuted C57_standby_refuted C57_abort_refuted C57_merge_refuted","Proved for a split interrupted before a version or after the last region was written; false in between (refuted).")
claim("C58","partial","C58_data_partial C58_prepare_refuted","Proved for data commands inside the ranges of their regions; false with merges (refuted).")
claim("C24","proved","C24_range C24_put C24_accepts C24_delete C24_revisions C24_visible C24_max_key_refuted","For logs of any entries (puts, deletes, compactions, leases, mixed). The proviso on the last key is in the statement; C24_max_key_refuted shows it is needed.")
claim("C25","proved","C25_invisible C25_invisible_writes C25_request","")
claim("C59","partial","C59_options_partial C24_put C59_ignore_value_refuted C59_count_only_refuted C59_prev_refuted","keys_only, limit and ignore_lease proved (the last in C24_put); ignore_value, count_only and prev_kv false (refuted).")
claim("C60","partial","C60_crash C60_put_partial C60_version_refuted C60_lost_refuted","Exact for deletions, lease changes and compactions; for a put all but the version; the version is off by one and a later compaction can lose the key (refuted). One crash, at any write.")
claim("C61","partial","C61_task_partial C61_task_refuted","Every key but each 51st; the 51st is never compacted (refuted).")
claim("C26","proved","C26_revoke C26_expiry C26_renew C26_grant C26_put","Requests served one at a time; deletes that take two keys of one lease at once are excluded (C62).")
claim("C62","partial","C62_attached_partial C62_complete_partial C62_exact_refuted C62_orphan_refuted C62_overlap_refuted C62_lost_delete_refuted C62_lost_revoke_refuted C62_lost_grant_refuted C62_stale_refuted","Served one at a time, no key outlives its lease whatever is deleted; with overlapping requests, lost proposals or a table not yet built the statement is false (refuted).")
claim("C27","proved","C27_watch_answers C27_filter_refuted C27_past_delete_refuted C27_absent_delete_refuted C27_prev_version_refuted","Requests served one at a time. The refutations show that the provisos of the statement are needed: filters do not apply to the answer at once, past deletes are not reported, deletes of absent keys are.")
claim("C63","partial","C63_registered_woken_partial C63_stop_answers_all C63_lost_wakeup_refuted C63_leader_start_refuted","Holds when nothing is applied between the look at the store and the registration and the node does not start leading; both provisos are needed, as the refutations show.")
claim("C64","proved","C64_at_most_once C64_answer_content C64_never_fatal","All interleavings of the modelled steps.")
claim("C18","proved","C18_atomic C18_verdict_binds C18_lock_names_primary C18_gc_refuted C18_rollback_rule_refuted C18_secondary_rule_refuted",
 "Many regions (each the region of TxnModel) and an abstract client protocol written as rules on which request may be sent when (AtomSpec.rule); any number of clients and resolvers, lost answers, crashes between write batches, restarts, reads and garbage collection. Two-phase and one-phase commit; asynchronous commit is C65. The *_refuted theorems show that the garbage-collection proviso and the client rules are needed: the server does not enforce them.")
claim("C65","proved","C65_atomic C65_decided C65_concluded C65_verdict_binds C65_locks_lead C65_retry_refuted C65_force_sync_refuted",
 "Many regions of TxnModel and the rules of clients and resolvers (AsyncSpec.yrule); what they act on is what they have been told. C65_decided is about the locks alone, C65_concluded about what follows from answers collected at different times. Known limits: the rules exclude one-phase commit (C18 has it), all keys of a transaction are fixed beforehand, and a key written with CheckNotExists only is not a key of it. The *_refuted theorems show that the rules are needed: C65_retry_refuted is a defect of the server (a repeated prewrite is answered without min_commit_ts), not of a client.")
claim("C66","proved","C66_linearizable C66_read_after_put C66_gone_after_ttl",
 "One region, several peers, every step of every request separate (RawModel); RawSpec is a map with deadlines and the usual definition of linearizability with an explicit clock. The conditions are RawSpec.calm; that each is needed is shown by the C67 theorems.")
claim("C67","partial","C66_linearizable C67_range_delete_refuted C67_expiry_refuted C67_follower_refuted C67_new_leader_refuted C67_regained_leadership_refuted C67_early_put_refuted C67_stale_read_refuted C67_snapshot_refuted C67_empty_value_refuted C67_batch_read_refuted",
 "False of the code as it stands: nine runs whose histories have no sequential explanation (proved by exhaustive search whose completeness is proved), one that aborts the server. The part that holds is C66.")
claim("C68","proved","C68_one_winner C68_one_winner_refuted",
 "A consequence of C66; C68_one_winner_refuted shows two winners after the leadership was lost and regained between the read and the proposal.")
claim("C69","proved","C69_index_finds_what_is_stored C69_index_follows_the_log",
 "VecModel: the apply thread and the index thread of every region in separate steps; a search finds what the index (or the sibling pair, or the filtered shared index) holds. The circumstances are VecSpec.calm_step; that each is needed is shown by the C70 theorems. The search of the index libraries themselves (faiss, hnswlib, not in the repository) is taken to find what was put in.")
claim("C70","partial","C70_index_in_step_partial C70_last_entry_refuted C70_last_entry_durable_refuted C70_in_flight_refuted C70_between_round_and_switch_refuted C70_repeated_in_replay_refuted C70_refused_write_replayed_refuted C70_one_sibling_refuted C70_split_during_build_refuted C70_repeated_in_request_refuted C70_restart_behind_mark_refuted C70_timestamp_order_refuted C70_merge_without_index_refuted",
 "False of the code as it stands: twelve runs, each with a single step outside the circumstances of C69, after which the region is at rest and the index answers wrongly. The part that holds is C69.")
claim("C71","proved","C71_merge_is_nearest C71_range_merge_keeps_all",
 "Distances are integers in the model: NaN is not covered.")
claim("C72","partial","C72_one_per_task_partial C72_single_task_partial C72_last_query_unanswered_refuted",
 "Holds for the default of one query per task and when all queries fit into one task. In every other case (batch size at least two and smaller than the number of queries) the last query gets an empty answer, proved for all such sizes.")
claim("C73","proved","C73_pages_are_the_scan C73_page_limits C73_no_stop C73_reused_id_refuted C73_negative_size_refuted",
 "For every interleaving of the micro-steps of requests with writes, cleanings and clock changes. Refuted without the provisos: version 2 sessions whose client-chosen id is taken again after a timeout answer with the other session's keys; a negative page size evades the server's limit.")
claim("C74","proved","C74_used_session_continues C74_cleaning_keeps_recent C74_released_is_removed C74_stale_request_refuted",
 "Refuted when an id is begun twice: a late request of the earlier session removes the new one.")
claim("C75","proved","C75_writes_succeed C75_batch_query C75_scan_query C75_count C75_border_id C75_ttl_refuted C75_negative_start_refuted",
  "For every history of writes and every read; the provisos are in the statement and the two refutations show that the first two are needed (the server aborts without them). Protobuf serialization is a parameter with the round-trip law (wire_ok), shown satisfiable by a concrete one.")
claim("C76","proved","C76_search C76_search_by_ids C76_unsorted_refuted",
  "Any k, queries, batch size; the flat index that answers one batch is a parameter with its specification (flat_ok; faiss is not in the repository), shown satisfiable by a concrete one. The refutation shows that the sorted hint is trusted.")
claim("C77","proved","C77_selected C77_search C77_speed_up C77_datetime_refuted",
  "Selection is exact and the same by both routes; the proviso on DATETIME is needed (refuted otherwise).")
claim("C78","partial","C78_post_partial C78_post_refuted",
  "Proved: every vector returned is stored and matches, in order, at most k; the answer is right if k are returned or the region holds at most 10*k vectors. Refuted beyond: only the 10*k nearest are looked at, so a match further away is missed.")
claim("C79","proved","C79_lookup_sound C79_lookup_exact C79_worlds C79_far_end_refuted",
  "C79_worlds shows that the assumption on the stores holds of every history of creates, splits, merges and deletes. Beyond the proviso on the end key: C79_far_end_refuted.")
claim("C80","proved","C80_catches_up C80_versions","")
claim("C81","partial","C81_rebuilt_partial C81_race_refuted C81_drop_refuted",
  "Proved: right after the index is built anew (change of leader, restart), and in calm circumstances (C79_lookup_exact). Refuted otherwise: a late update of the state of a split's parent, or dropping the source of a merge, takes the entry of another region out of the index, and no later heartbeat puts it back.")
claim("C82","partial","C82_alone_partial C82_refused_partial C82_one_request_refuted C82_two_requests_refuted C82_inverted_refuted",
  "Proved: one region per request, one request at a time, in a state that is calm and caught up. Refuted: two requests at a time, two partitions of one request; a range the wrong way round is accepted and can hide another region after a change of leader.")
CALM="Calm circumstances (NmSpec.calm): ids are new, nothing is dropped while it is already being dropped or used, a schema is dropped by its own tenant and without indexes, DropTables gets one table, no drop is lost, no proposal is applied after its handler was told that it failed. "
claim("C83","partial","C83_names_unique_partial C83_half_drop_refuted C83_lost_drop_refuted C83_late_refuted",
  CALM+"Refuted outside: a refused DropTables frees names of tables that stay; a drop lost by a change of leader; a late proposal.")
claim("C84","partial","C84_never_aborts_partial C84_drop_schema_refuted C84_index_refuted",
  CALM+"Refuted outside: DropSchema during CreateTable, or with an index being dropped.")
claim("C85","partial","C85_lookups_partial C85_half_drop_refuted C85_other_tenant_refuted",
  CALM+"Refuted outside: a refused DropTables hides tables that stay; DropSchema under another tenant's id keeps the name taken.")
claim("C86","partial","C86_lists_partial C86_overwrite_refuted C86_orphan_refuted",
  CALM+"Refuted outside: CreateSchema with an uninitialised id replaces a schema; DropSchema ignores indexes.")
claim("C87","partial","C87_indexes_partial C87_get_tables_partial C87_dangling_refuted C87_add_race_refuted",
  CALM+"Refuted outside: DropTables of a single index leaves it in its table's list; an index added during the drop of its table stays.")
claim("C88","partial","C88_drop_tables_partial C88_drop_table_refuted C88_plain_refuted",
  CALM+"Proved for tables made by CreateTables. Refuted: DropTable is refused always; a table made by CreateTable, and its schema, can never be dropped.")
claim("C89","proved","C89_groups C89_empty_no_row C89_missing_column","Provisos in the English statement; overflowing sums: C90_sum_refuted.")
claim("C90","partial","C90_never_crashes_partial C90_distinct_refuted C90_sum_refuted C90_columns_refuted C90_count_refuted",
  "Proved for first-generation requests that name existing columns, have an aggregate when they group, and sum no integers. Refuted: group-by columns without aggregates dereference a null pointer; column indexes of schema and selection are unchecked; integer sums overflow; a count whose row cannot be encoded reads an uninitialised flag.")
claim("C91","proved","C91_selection C91_stream C91_encoder_refuted","Beyond the proviso on encoding: C91_encoder_refuted (rows silently left out).")
claim("C92","proved","C92_pages C92_aggregate C92_count","")
claim("C93","partial","C93_one_page_partial C93_count_partial C93_per_page_refuted C93_count_again_refuted C93_lock_refuted",
  "Proved for one page that holds all rows. Refuted: every page of a session has an aggregate of its own; the page after a count has a count of zero; a lock met under way returns partial aggregates with has_more false.")
claim("C94","proved","C94_split_check","Non-vacuity: C94_nonvacuous.")
claim("C95","partial","C95_half_partial C95_size_partial C95_keys_partial C95_hot_key_refuted C95_empty_half_refuted C95_size_threshold_refuted C95_divided_vector_refuted",
 "Proved with bounds on what one user key takes and on the policy's position; without them false: hot keys, versions that cross both marks, speed-up entries of vectors.")
claim("C96","proved","C96_one_check","")
claim("C97","partial","C97_again_partial C97_again_refuted","Proved when no task ends before its region is recorded; otherwise the region is never checked again.")
claim("C98","proved","C98_mergeable C98_disjoint C98_checked_again","")
claim("C99","partial","C99_progress_partial C99_last_pair_refuted","Proved for pairs that are not the last two of the list; these are never considered.")
claim("C100","proved","C100_once C100_served C100_bounded C100_stop_ends C100_stop","Outside the proviso C100_during_stop_refuted: a call that overlaps Destroy is answered with true and never runs. Non-vacuity: C100_case, C100_stop_case.")
claim("C101","proved","C101_order C101_one_at_a_time","Outside the proviso C101_in_place_refuted. Non-vacuity: C101_case.")
claim("C102","partial","C102_refusal C102_concurrency_partial C102_outstanding_partial C102_outstanding_refuted C102_concurrency_refuted C102_apply_refuted",
 "Refusals are justified; concurrency is bounded without in-place runs; the limit is exceeded by at most the number of calls under way. Otherwise false: racing calls pass the limit, in-place runs double the concurrency, and a refused raft apply ends the process.")
claim("C103","proved","C103_once C103_served C103_bounded C103_order C103_one_at_a_time C103_unlimited C103_no_crash","Non-vacuity: C103_case.")
claim("C104","partial","C104_refusal_partial C104_refusal_refuted C104_region_id_refuted",
 "Proved when no job ends before its call has returned; otherwise a set with nothing to do refuses. A negative region id is undefined behaviour.")
claim("C105","proved","C105_stream_exact C105_stream_ends","Outside the provisos C105_reopened_refuted and C105_other_count_refuted. Non-vacuity: C105_example.")
claim("C106","partial","C106_caught_up_holds_log_partial C106_restart_refuted C106_stop_before_record_refuted",
 "Proved for stops at moments when the installed snapshot's files are still there or the recorded position has reached the leader's; otherwise a restart deletes the region's data and the replica counts as caught up. Non-vacuity: C106_example.")
claim("C107","partial","C107_others_untouched_partial C107_neighbour_refuted",
 "Proved for keys before the range, and for keys after it when the leaders' stores hold nothing beyond the region; otherwise false. Non-vacuity: C107_example.")
claim("C108","partial","C108_splits_opened_partial C108_passed_over_refuted",
 "Proved when no snapshot of a newer region version was loaded; otherwise the child is never opened. Non-vacuity: C108_example.")
claim("C109","proved","C109_plan_sound C109_plan_ends","Non-vacuity: C109_nonvacuous.")
claim("C110","proved","C110_each_transfer_helps C110_spread_never_grows","Outside the proviso C110_unsteady_refuted: a transfer dropped at the last look leaves those planned upon it. Non-vacuity: C110_nonvacuous.")
claim("C111","partial","C111_targets_vote_partial C111_memory_refuted C111_learner_refuted C111_busy_refuted",
 "Proved when every store has room for the regions it follows; otherwise leaders go to learners and to stores without memory, and unfinished jobs are never looked at. Non-vacuity: C111_nonvacuous.")
claim("C112","partial","C112_progress_partial C112_unlucky_refuted",
 "Proved when all healthy regions of some store could go and the reports do not change; otherwise false, since only one region is tried. Non-vacuity: C112_nonvacuous.")
claim("C113","proved","C113_move_sound","Outside the provisos C113_replica_lost_refuted. Non-vacuity: C113_nonvacuous.")
claim("C114","partial","C114_no_crash_partial C114_crash_refuted C114_unhealthy_refuted C114_limit_refuted",
 "No crash proved when every store reports a capacity and the limit is not tiny; otherwise false, as are the parts about health and the limit. Non-vacuity: C114_nonvacuous.")
claim("C115","partial","C115_one_runs_partial C115_two_run_refuted",
 "Proved when no call tests the flag between another's test and set; otherwise false. Non-vacuity: C115_nonvacuous.")
claim("C116","proved","C116_windows_exact C116_open_end","Windows over midnight: C116_midnight_refuted. Non-vacuity: C116_nonvacuous.")
claim("C117","proved","C117_step_order","For jobs as the coordinator creates them (one command an operation); C117_two_commands_refuted shows what other jobs would do. Non-vacuity: C117_nonvacuous.")
claim("C118","partial","C118_success_acknowledged_partial C118_cleaned_refuted C118_other_store_refuted C118_comes_back_refuted",
 "Proved when nobody cleans jobs and every store answers under its own id; otherwise false. That the job is gone for good is refuted. Non-vacuity: C118_nonvacuous.")
claim("C119","proved","C119_jobs_end","Outside the provisos C119_check_refuted and C119_gone_refuted: a job may wait for ever. Non-vacuity: C119_nonvacuous.")
claim("C120","partial","C120_held_partial C120_two_operations_refuted C120_overwritten_refuted",
 "Proved for the only command of a step and a failure applied between rounds; otherwise false. Non-vacuity: C120_nonvacuous.")
claim("C121","proved","C121_given_up","C121_creation_behind: with a creation behind it a job is tried for ever. Non-vacuity: C121_nonvacuous.")
claim("C122","partial","C122_no_crash_partial C122_clean_refuted C122_given_up_refuted",
 "Proved when nobody cleans jobs and no job fails more often than the limit and one; otherwise false. Non-vacuity: C122_nonvacuous.")
claim("C123","partial","C123_accepted_run_partial C123_retry_refuted C123_twice_refuted C123_known_refuted",
 "Proved for first sendings that are not handled twice at the same time; otherwise false. Non-vacuity: C123_nonvacuous.")
claim("C124","partial","C124_once_partial C124_twice_refuted C124_crash_refuted C124_retry_refuted",
 "Proved without retries, simultaneous sendings and crashes between a run and the storing of its status; otherwise false. Non-vacuity: C124_nonvacuous.")
claim("C125","proved","C125_backup_exact C125_backup_refused C125_backup_succeeds C125_plain_exact C125_plain_runs",
 "Data and lock column families of STORE regions; vector, table and document parts of INDEX and DOCUMENT regions are not modelled. Non-vacuity: C125_example, C125_plain_example.")
claim("C126","proved","C126_restored C126_reads C126_get",
 "Proviso in the statement: the writes of the attempt that counts were accepted (see C128). Non-vacuity: C126_example.")
claim("C127","partial","C127_consistent_partial C127_all_or_nothing_partial C127_torn_refuted C127_consistent_refuted",
 "Proved when each region's snapshot is taken after the locks of transactions started by the timestamp are gone from it; false otherwise, the store does not check for them. Non-vacuity: C127_example.")
claim("C128","partial","C128_restored_partial C128_always_ok C128_restored_refuted C128_passed_over_refuted",
 "Proved when all raft writes were accepted; false otherwise: the answer is OK whatever became of them. Non-vacuity: C126_example.")
claim("C129","proved","C129_altered_refused C129_intact_read C129_accepted_intact",
 "The checksum is a parameter, with the no-collision hypothesis of the statement. Non-vacuity: C129_example.")
claim("C130","partial","C130_covers_partial C130_error_partial C130_kinds C130_overwritten_refuted C130_early_refuted C130_raw_refuted",
 "Proved when no request failed; otherwise false, the shared error is overwritten or read too early. Regions of neither kind are not backed up. Non-vacuity: C130_example.")
claim("C131","partial","C131_range_partial C131_stale_refused C131_split_refuted",
 "Proved when the region is not split or merged between the check and the scan; otherwise false. Non-vacuity: C131_example.")
claim("C132","proved","C132_exclusive C132_free C132_expired", "Non-vacuity: C132_example.")
claim("C133","partial","C133_stopped_partial C133_given_back_partial C133_one_runs C133_stopped_refuted",
 "Proved for tools that start one after the other; that two never run at once is proved for all interleavings. Otherwise false. Non-vacuity: C133_example.")
claim("C134","partial","C134_committed_safe_points_grow_partial C134_answers_of_one_leader_grow_partial C134_next_leader_refuted C134_second_creation_refuted",
 "Committed values: proved for all histories, tenants whose creation is over; answers: for one leader. False across leaders after a failed write, and for a tenant created twice at the same time. Non-vacuity: C134_case.")
claim("C135","partial","C135_acknowledged_update_is_in_force_partial C135_refused_update_commits_nothing_partial C135_refused_but_raised_refuted C135_raise_dropped_refuted C135_acknowledged_on_hearsay_refuted C135_name_undone_refuted C135_answer_refuted",
 "Proved when requests come one at a time; a refused update commits nothing in any state. False otherwise in four ways, and the answer tells the lock safe point. Non-vacuity: C135_case.")
claim("C136","partial","C136_regular_collections_use_given_safe_points_partial C136_request_refuted",
 "Proved for the regular run in all histories; a client's request uses what the client names. Non-vacuity: C136_case.")
claim("C137","partial","C137_stopped_means_stopped_partial C137_race_refuted C137_absent_tenant_refuted",
 "Proved for tenants in the answer that the run has not just read; false otherwise. Non-vacuity: C137_case.")
claim("C138","proved","C138_every_region_is_collected", "Non-vacuity: C138_case. What one collection removes: C19, C20 and C47.")
claim("C139","partial","C139_collection_does_not_end_the_store_partial C139_regular_run_does_not_end_the_store C139_unknown_tenant_refuted",
 "Proved for the regular run in all histories, and for requests for tenants in the first fetched answer; false for others (null pointer). Non-vacuity: C139_case.")
claim("C140","proved","C140_a_writer_is_alone C140_the_counts_are_right","Any number of threads, all interleavings. Non-vacuity: C140_case.")
claim("C141","proved","C141_sleepers_have_a_reason C141_everybody_gets_the_lock","Non-vacuity: C141_case.")
claim("C142","partial","C142_readers_do_not_overtake_writers_partial C142_reader_kept_out_refuted","Proved: no reader overtakes a waiting writer. False for readers: two writers keep one out without end. Non-vacuity: C142_case.")
claim("C143","proved","C143_each_task_is_in_one_place C143_join_waits_for_the_task C143_highest_priority_first","Non-vacuity: C143_case.")
claim("C144","partial","C144_tasks_are_run_partial C144_no_workers_refuted C144_other_exception_refuted","Proved while the pool keeps a worker and functions throw standard exceptions only; false otherwise. Non-vacuity: C144_case.")
claim("C145","partial","C145_the_call_returns_partial C145_destroyed_means_done_partial C145_lost_wake_up_refuted C145_late_task_refuted","Proved when no worker is between its look and its sleep, and no call between its check and its push; false in these two cases. Non-vacuity: C145_case.")
claim("C146","partial","C146_batches_are_the_list C146_status_of_a_parallel_run_partial C146_graph_upsert_adds_every_vector_partial C146_exception_is_lost_refuted C146_destroyed_pool_refuted","Proved when each part gets a task and none throws; false otherwise. Non-vacuity: C146_case.")
claim("C147","partial","C147_answers_in_order_partial C147_larger_batches_refuted","Proved for batches of one query, the default; false for larger ones. Non-vacuity: C147_case.")
claim("C148","partial","C148_answers_come_from_one_import_partial C148_torn_destroy_refuted","Proved when destroys move all three files and no reset comes under a build or load; false when a destroy is cut short. Non-vacuity: C148_case.")
claim("C149","partial","C149_acknowledged_import_is_in_the_files_partial C149_second_import_dropped_refuted","Proved for every history when the item has not finished an import yet; an item that has acknowledges and drops pushes of another import. Non-vacuity: C149_case.")
claim("C150","proved","C150_error_lasts C150_reset_clears","Non-vacuity: C150_case.")
claim("C151","partial","C151_no_crash_partial C151_reset_under_build_refuted C151_reset_refused_while_library_works","Proved when no reset comes under a build or load and destroys are whole; false when a reset comes between the item's lock and the library's. Non-vacuity: C148_case, C151_case.")
claim("C152","partial","C152_destroyed_is_as_new_partial C152_destroy_undone_refuted","Proved when no build or load is under way; a build that ends after the destroy brings its state back. Non-vacuity: C152_case.")
claim("C153","partial","C153_no_data_lasts_partial C153_mark_lost_refuted","Proved when earlier destroys moved all three files and no reset came under a build or load; false after a destroy whose renames failed. Non-vacuity: C153_case.")
claim("C154","proved","C154_pushes_are_stretches C154_import_completes C154_small_and_large_regions","Non-vacuity: C154_case.")
claim("C155","partial","C155_existing_documents_are_found_partial C155_a_switch_inside_an_entry_loses_it_refuted C155_a_switch_one_entry_behind_loses_it_refuted","Proved when no switch falls between the handler of an entry and the advance of the applied position and none comes exactly one entry behind; false in these two cases. Non-vacuity: C155_case.")
claim("C156","partial","C156_deleted_documents_are_not_found_partial C156_a_rebuild_brings_deleted_documents_back_refuted","Proved when moreover no build reads the store after a deletion; false otherwise. Non-vacuity: C156_case.")
claim("C157","partial","C157_each_document_is_found_once_partial C157_a_rebuild_keeps_old_contents_refuted C157_a_restart_adds_documents_twice_refuted","Proved while only writes happen; false after rebuilds and after restarts. Non-vacuity: C157_case.")
claim("C158","proved","C158_batches_do_not_matter","Non-vacuity: C158_case.")
claim("C159","partial","C159_the_best_of_both_partial C159_without_a_limit_every_document_partial C159_an_unlimited_search_is_cut_off_refuted","Proved for limited searches, and for unlimited ones that ask for 0 hits; false for unlimited ones that name another number. Non-vacuity: C159_case.")
claim("C160","proved","C160_each_call_is_answered_once_or_waits","Non-vacuity: C160_case.")
claim("C161","proved","C161_a_watch_from_now_brings_every_later_event_once_in_order","Non-vacuity: C161_case.")
claim("C162","partial","C162_a_watch_from_a_revision_brings_all_but_the_newest_event_partial C162_the_newest_event_at_the_creation_comes_refuted C162_a_watch_after_a_restart_brings_the_past_refuted C162_a_watch_from_the_next_revision_brings_the_next_event_refuted C162_an_event_during_the_creation_comes_once_refuted","Proved for starts not after the newest event held, with that event left out and no event during the creation; false in the other cases. Non-vacuity: C162_case.")
claim("C163","partial","C163_a_held_start_is_accepted_and_a_refusal_names_one_partial C163_a_refused_watch_would_miss_an_event_refuted","Proved: held starts are accepted, refusals name a held revision, accepted starts not after the newest event held miss nothing; false for starts that are no revision with events. Non-vacuity: C163_case.")
claim("C164","partial","C164_a_request_by_a_list_reaches_the_leader_partial C164_a_long_list_reaches_the_leader_refuted C164_a_request_gets_past_a_server_that_is_down_refuted","Proved for up to five servers that are all up, for any number of calls at once; false for six servers, and for ever while the remembered server is down. Non-vacuity: C164_case.")
claim("C165","partial","C165_a_request_by_name_reaches_the_leader_partial C165_wrong_hints_are_got_over_refuted C165_other_calls_do_not_keep_a_request_from_the_leader_refuted","Proved for one call when hints are right and the name leads at most twice to servers that are down or know no leader; false with hints in a circle, and with other calls that fail late. Non-vacuity: C165_case.")
claim("C166","proved","C166_what_is_handed_back_is_the_only_answer","Non-vacuity: C166_case.")
claim("C167","partial","C167_a_request_is_handled_at_most_once_partial C167_a_request_by_name_is_handled_once_refuted","Proved by a list of addresses, and by name when no answer is lost; false otherwise. Non-vacuity: C167_case.")
claim("C168","proved","C168_a_paused_job_begins_no_run","Non-vacuity: C168_case.")
claim("C169","partial","C169_a_job_is_run_once_at_a_time_partial C169_a_job_is_run_no_more_often_than_asked_partial C169_an_async_job_is_run_once_at_a_time_refuted C169_a_job_started_again_is_run_once_at_a_time_refuted","Proved for jobs started once, the first half for jobs that are not async; false for async jobs, and for a job paused and started again during a run. Non-vacuity: C169_case.")
claim("C170","partial","C170_a_destroyed_job_is_left_alone_partial C170_a_destroyed_job_is_left_alone_refuted","Proved for a job started once and destroyed while no run is being started or under way; false for one destroyed during a run. Non-vacuity: C170_case.")
claim("C171","proved","C171_a_job_goes_on_by_itself C171_a_job_started_again_goes_on","After every history one more run of the function can be reached by timers and runs alone. Fairness of timers is assumed, not modelled. Non-vacuity: C171_case.")
C.sort(key=lambda c: c["property"])
json.dump({"claims": C}, open("MANIFEST.json", "w"), indent=1)
