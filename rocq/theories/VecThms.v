(** Theorems about vector search: the index and the stored vectors (C69, C70),
    merging sibling answers (C71), batched queries (C72). *)
Require Import ZArith List Bool Permutation.
Require Import Verif.VecModel Verif.VecSpec Verif.VecProofs Verif.VecInvT Verif.VecDemo.
Require Import Verif.VqModel Verif.VqSpec Verif.VqProofs.
Import ListNotations.
Open Scope Z_scope.

(** ** C69: under calm circumstances the index finds exactly what is stored *)

(** For every index kind, batch size, thread order and run of calm steps (see
    [calm_step]): when no apply is under way and no write to the id is left to
    apply, a search can find the id with a vector if and only if that is the
    stored vector of an id of the region. *)
Theorem C69_index_finds_what_is_stored g lo hi acts s n r i :
  any_order g -> lo < hi -> calm_run g (init lo hi) acts s -> serving s n r -> r_apc r = AIdle ->
  no_write_to_come r i -> finds_exactly s n r i.
Proof. exact (calm_finds g lo hi acts s n r i). Qed.
Print Assumptions C69_index_finds_what_is_stored.

(** Without restarts it holds at any time between two applies, whatever the log
    still holds. *)
Theorem C69_index_follows_the_log g lo hi acts s n r i :
  any_order g -> lo < hi -> Forall (fun a => ~ is_restart a) acts -> calm_run g (init lo hi) acts s ->
  serving s n r -> r_apc r = AIdle -> finds_exactly s n r i.
Proof. exact (calm_finds_all g lo hi acts s n r i). Qed.
Print Assumptions C69_index_follows_the_log.

(** The hypotheses are met by a run with a build, writes, a split, two rebuilds,
    a merge, a save, a restart and a load, for both kinds of index. *)
Example C69_met_flat : exists s r, any_order flat_cfg /\ calm_run flat_cfg (init 0 100) calm_script s /\
  serving s 0 r /\ at_rest r /\
  searchable s 0 10 3 = Some true /\ stored (s_data s) 10 = Some 3 /\ searchable s 0 20 4 = Some false.
Proof. exact (calm_meets flat_cfg calm_script flat_any calm_ok_flat). Qed.

Example C69_met_hnsw : exists s r, any_order hnsw_cfg /\ calm_run hnsw_cfg (init 0 100) calm_script s /\
  serving s 0 r /\ at_rest r /\
  searchable s 0 10 3 = Some true /\ stored (s_data s) 10 = Some 3 /\ searchable s 0 20 4 = Some false.
Proof. exact (calm_meets hnsw_cfg calm_script hnsw_any calm_ok_hnsw). Qed.

(** ** C70: without the circumstances it does not *)

(** What holds (C69 restated for a region at rest). *)
Theorem C70_index_in_step_partial g lo hi acts s n r i :
  any_order g -> lo < hi -> Forall (fun a => ~ is_restart a) acts -> calm_run g (init lo hi) acts s ->
  serving s n r -> at_rest r -> finds_exactly s n r i.
Proof. exact (fun O L F C S A => calm_finds_all g lo hi acts s n r i O L F C S (proj1 A)). Qed.
Print Assumptions C70_index_in_step_partial.

(** Each of the following is a run with a single step that is not calm, after
    which the region is at rest, its index serves, and answers wrongly. *)

(** A write applied during a build and last in the log when the last catch-up
    round runs: the round stops before it. *)
Theorem C70_last_entry_refuted : exists pre post s1 s,
  one_slip flat_cfg pre (SwitchIndex 0 true) post s1 s /\ index_wrong s 0.
Proof. exact (ex_intro _ b1_pre (ex_intro _ b1_post (slip_any _ _ _ _ _ _ _ b1))). Qed.
Print Assumptions C70_last_entry_refuted.

(** The same loss survives a save, a restart and a load. *)
Theorem C70_last_entry_durable_refuted : exists pre post s1 s,
  In (SaveIndex 0) post /\ In (LoadIndex 0) post /\
  one_slip flat_cfg pre (SwitchIndex 0 true) post s1 s /\ index_wrong s 0.
Proof. exact b1s_wrong. Qed.
Print Assumptions C70_last_entry_durable_refuted.

(** A write that fetched the old index before the new one was put in place. *)
Theorem C70_in_flight_refuted : exists pre post s1 s r p q,
  one_slip flat_cfg pre (SwitchIndex 0 true) post s1 s /\
  nth_error (s_regs s1) 0 = Some r /\ r_apc r = AWrite p q /\ index_wrong s 0.
Proof. exact b2_wrong. Qed.
Print Assumptions C70_in_flight_refuted.

(** A region without an index: a write applied between the last round and the
    switch. *)
Theorem C70_between_round_and_switch_refuted : exists pre post s1 s,
  one_slip flat_cfg pre (SwitchIndex 0 true) post s1 s /\ index_wrong s 0.
Proof. exact (ex_intro _ b14_pre (ex_intro _ b1_post (slip_any _ _ _ _ _ _ _ b14))). Qed.
Print Assumptions C70_between_round_and_switch_refuted.

(** An id added twice in the replayed part of the log, flat index. *)
Theorem C70_repeated_in_replay_refuted : exists pre post s1 s,
  one_slip flat_cfg pre (LastRound 0 0) post s1 s /\ index_wrong s 0.
Proof. exact (ex_intro _ b3_pre (ex_intro _ b3_post (slip_any _ _ _ _ _ _ _ b3))). Qed.
Print Assumptions C70_repeated_in_replay_refuted.

(** A write its handler refused because of the region's epoch is replayed. *)
Theorem C70_refused_write_replayed_refuted : exists pre post s1 s,
  one_slip flat_cfg pre (LastRound 0 0) post s1 s /\ index_wrong s 0.
Proof. exact (ex_intro _ b16_pre (ex_intro _ b3_post (slip_any _ _ _ _ _ _ _ b16))). Qed.
Print Assumptions C70_refused_write_replayed_refuted.

(** HNSW, a merged region, an addition that falls to one sibling only. *)
Theorem C70_one_sibling_refuted : exists pre post s1 s,
  one_slip hnsw_cfg pre (ApplyWrite 0 0) post s1 s /\ index_wrong s 0.
Proof. exact (ex_intro _ b4_pre (ex_intro _ b4_post (slip_any _ _ _ _ _ _ _ b4))). Qed.
Print Assumptions C70_one_sibling_refuted.

(** A split applied during a build. *)
Theorem C70_split_during_build_refuted : exists pre post s1 s,
  one_slip flat_cfg pre (ApplyData 0) post s1 s /\ index_wrong s 0.
Proof. exact (ex_intro _ b5_pre (ex_intro _ b5_post (slip_any _ _ _ _ _ _ _ b5))). Qed.
Print Assumptions C70_split_during_build_refuted.

(** One request that names an id twice, flat index: it is stored and answered
    with success, and none of it can be found. *)
Theorem C70_repeated_in_request_refuted : exists pre post s1 s,
  one_slip flat_cfg pre (Propose 0 (OAdd [(1, 1); (1, 2); (3, 3)]) 1) post s1 s /\ index_wrong s 0.
Proof. exact (ex_intro _ (build 0 0) (ex_intro _ b6_post (slip_any _ _ _ _ _ _ _ b6))). Qed.
Print Assumptions C70_repeated_in_request_refuted.

(** A restart that resumes behind the entry up to which the index is marked. *)
Theorem C70_restart_behind_mark_refuted : exists pre post s1 s,
  one_slip flat_cfg pre (Crashed [1%nat]) post s1 s /\ index_wrong s 0.
Proof. exact (ex_intro _ b7_pre (ex_intro _ b7_post (slip_any _ _ _ _ _ _ _ b7))). Qed.
Print Assumptions C70_restart_behind_mark_refuted.

(** Two writes whose timestamps are not in the order of the log. *)
Theorem C70_timestamp_order_refuted : exists pre post s1 s,
  one_slip flat_cfg pre (Propose 0 (OAdd [(1, 11)]) 3) post s1 s /\ index_wrong s 0.
Proof. exact (ex_intro _ b13_pre (ex_intro _ b13_post (slip_any _ _ _ _ _ _ _ b13))). Qed.
Print Assumptions C70_timestamp_order_refuted.

(** A merge whose source has no index: the target goes on serving. *)
Theorem C70_merge_without_index_refuted : exists pre post s1 s,
  one_slip flat_cfg pre (ApplyData 0) post s1 s /\ index_wrong s 0.
Proof. exact (ex_intro _ b18_pre (ex_intro _ [ApplyDone 0] (slip_any _ _ _ _ _ _ _ b18))). Qed.
Print Assumptions C70_merge_without_index_refuted.

(** ** C71: the answers of two siblings are merged correctly *)

(** If each sibling answered correctly for what it holds, the merged list is a
    correct answer for what both hold. *)
Theorem C71_merge_is_nearest k la lb a b :
  the_nearest k la a -> the_nearest k lb b -> the_nearest k (la ++ lb) (merge_hits k a b).
Proof. exact (merge_nearest k la lb a b). Qed.
Print Assumptions C71_merge_is_nearest.

(** A range search loses and invents nothing, sorted or not. *)
Theorem C71_range_merge_keeps_all k a b :
  (length a + length b <= k)%nat -> Permutation (merge_hits k a b) (a ++ b).
Proof. exact (merge_everything k a b). Qed.
Print Assumptions C71_range_merge_keeps_all.

Example C71_met :
  the_nearest 2 [(1, 5); (2, 3); (3, 9)] [(2, 3); (1, 5)] /\ the_nearest 2 [(7, 4)] [(7, 4)] /\
  merge_hits 2 [(2, 3); (1, 5)] [(7, 4)] = [(2, 3); (7, 4)].
Proof. exact merge_case. Qed.

(** ** C72: each query of a batch gets its own answer *)

(** With the default of one query per task, in whatever order the tasks run. *)
Theorem C72_one_per_task_partial (Q R : Type) (f : Q -> R) (none : R) sched (qs : list Q) :
  any_schedule sched -> search_by_parallel f none 1 sched qs = map f qs.
Proof. exact (batch_one Q R f none sched qs). Qed.
Print Assumptions C72_one_per_task_partial.

(** With all queries in one task. *)
Theorem C72_single_task_partial (Q R : Type) (f : Q -> R) (none : R) n sched (qs : list Q) :
  any_schedule sched -> (length qs <= n)%nat -> search_by_parallel f none n sched qs = map f qs.
Proof. exact (batch_all Q R f none n sched qs). Qed.
Print Assumptions C72_single_task_partial.

(** In every other case the last query gets an empty answer, whatever there is
    to find. *)
Theorem C72_last_query_unanswered_refuted (Q R : Type) (f : Q -> R) (none : R) n sched (qs : list Q) :
  any_schedule sched -> (2 <= n)%nat -> (n < length qs)%nat ->
  nth_error (search_by_parallel f none n sched qs) (length qs - 1) = Some none.
Proof. exact (batch_last Q R f none n sched qs). Qed.
Print Assumptions C72_last_query_unanswered_refuted.

Example C72_met : search_by_parallel (fun q => Some (q * 10)) None 1 (@rev _) [1; 2; 3] = [Some 10; Some 20; Some 30] /\
  search_by_parallel (fun q => Some (q * 10)) None 2 (@rev _) [1; 2; 3] = [Some 10; Some 20; None].
Proof. exact batch_case. Qed.
