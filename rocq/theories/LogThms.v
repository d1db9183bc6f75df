(** Property theorems C36, C45 and C46 (see properties.jsonl). *)
From Coq Require Import ZArith List Lia Bool Sorted.
From Verif Require Import Bytes SMap Outcome LogModel LogSpec LogProofs LogProofs2 LogProofs3 LogProofs4 LogProofs5.
Import ListNotations.
Open Scope Z_scope.

(** ** Histories used by the examples: region 7 beside region 8, on a store (raft alone) and on an
    index node (raft and the vector index) *)
Definition ent (i t d : Z) : entry := mkE i tData t [d; d + 1].
Definition conf (i t : Z) : entry := mkE i tConf t [9].
Definition hist1 : list lop :=
  [LInit 7; LInit 8; LAppend 7 [conf 1 1; ent 2 1 10; ent 3 1 20]; LAppend 8 [conf 1 5]; LAppend 7 [ent 4 2 30; ent 5 2 40];
   LSuffix 7 4; LAppend 7 [ent 5 3 50; ent 6 3 60]; LPrefix Raft 7 3].
Definition hist2 : list lop := hist1 ++ [LPrefix VectorIndex 7 2].
Definition state (cs : list client) (b : bool) (os : list lop) : wal :=
  match run_checked [] (wal_init cs b) os with Some w => w | None => wal_init [] false end.
Example hist1_reached : lreach [Raft] true hist1 (state [Raft] true hist1).
Proof. apply checked_reach. vm_compute. reflexivity. Qed.
Example hist2_reached : lreach [Raft; VectorIndex] false hist2 (state [Raft; VectorIndex] false hist2).
Proof. apply checked_reach. vm_compute. reflexivity. Qed.

(** ** C36 *)
(** The map from indexes to terms answers with the appended term for every index that no
    truncation removed; appends at the end with non-decreasing terms are never refused. *)
Theorem C36_term_map : forall os, tm_allowed os -> exists c, tm_run [] os = Some c /\
  forall i t, In (i, t) (tm_log os) -> tm_cut os <= i -> cache_term c i = t.
Proof. exact term_map_ok. Qed.
Print Assumptions C36_term_map.

(** The storage, with the map or without: an index within the log that raft has not cut off. *)
Theorem C36_get_term : forall cs b os w r f l i, lreach cs b os w -> opened w r ->
  first_index w r = Ok f -> last_index w r = Ok l -> f <= i <= l -> raft_cut os r <= i ->
  exists e, get_entry w r i = Ok (Some e) /\ get_term w r i = Ok (e_term e).
Proof. exact get_term_ok. Qed.
Print Assumptions C36_get_term.

(** Without the map every index is answered, with 0 where there is no entry. *)
Theorem C36_get_term_uncached : forall cs os w r i, lreach cs false os w -> get Z.compare (w_metas w) r <> None ->
  0 <= i < kMaxIndex ->
  exists o, get_entry w r i = Ok o /\ get_term w r i = Ok (match o with Some e => e_term e | None => 0 end).
Proof. exact get_term_uncached. Qed.
Print Assumptions C36_get_term_uncached.

(** With the map, an entry raft has cut off but the vector index still holds has no term or the
    term of a later entry, and an index beyond the end has a term. *)
Theorem C36_held_entry_refuted : exists os w e,
  lreach [Raft; VectorIndex] true os w /\ opened w 7 /\
  get_entry w 7 1 = Ok (Some e) /\ get_term w 7 1 = Ok 0 /\
  get_entry w 7 9 = Ok None /\ get_term w 7 9 = Ok 3.
Proof.
  exists (hist1 ++ [LPrefix Raft 7 6]), (state [Raft; VectorIndex] true (hist1 ++ [LPrefix Raft 7 6])), (conf 1 1).
  split; [apply checked_reach; vm_compute; reflexivity|]. split; [split; vm_compute; congruence|].
  repeat split; vm_compute; reflexivity.
Qed.
Print Assumptions C36_held_entry_refuted.

Definition tm_hist : list tm_op :=
  [TmAppend 1 1; TmAppend 2 1; TmAppend 3 2; TmSuffix 2; TmAppend 3 3; TmAppend 4 3; TmPrefix 2; TmAppend 5 4].
Example C36_term_map_example : tm_allowed tm_hist /\ tm_log tm_hist = [(1, 1); (2, 1); (3, 3); (4, 3); (5, 4)] /\ tm_cut tm_hist = 2.
Proof.
  split; [|split; vm_compute; reflexivity]. intros before i t after H j u HIn.
  do 9 (destruct before as [|o before];
        [try discriminate H; inversion H; subst; vm_compute in HIn; repeat (destruct HIn as [HIn|HIn]; [inversion HIn; subst; lia|]); contradiction
        |cbn [app] in H; try discriminate H; injection H as <- H]).
Qed.
Example C36_example :
  let w := state [Raft] true hist1 in
  opened w 7 /\ first_index w 7 = Ok 3 /\ last_index w 7 = Ok 6 /\ raft_cut hist1 7 = 3 /\
  map (get_term w 7) [3; 4; 5; 6] = [Ok 1; Ok 2; Ok 3; Ok 3].
Proof. split; [split; vm_compute; congruence|]. repeat split; vm_compute; reflexivity. Qed.

(** ** C45 *)
(** Exactly the entries between the first and the last index are there, each as it was appended. *)
Theorem C45_entries : forall cs b os w r, lreach cs b os w -> get Z.compare (w_metas w) r <> None ->
  exists f l, first_index w r = Ok f /\ last_index w r = Ok l /\ 1 <= f <= l + 1 /\ l < kMaxIndex /\
    (forall i, f <= i <= l -> exists e, log_of os r i = Some e /\ e_index e = i /\ get_entry w r i = Ok (Some e)) /\
    (forall i, 0 <= i < kMaxIndex -> ~ (f <= i <= l) -> get_entry w r i = Ok None).
Proof. exact entries_ok. Qed.
Print Assumptions C45_entries.

(** Reading a range gives exactly those of the range, in order. *)
Theorem C45_ranges : forall cs b os w r a z, lreach cs b os w -> get Z.compare (w_metas w) r <> None ->
  0 <= a <= kMaxIndex -> 0 <= z <= kMaxIndex ->
  exists es f l, first_index w r = Ok f /\ last_index w r = Ok l /\
    get_entries w r a z = Ok es /\ StronglySorted (fun x y => e_index x < e_index y) es /\
    forall e, In e es <-> a <= e_index e < z /\ f <= e_index e <= l /\ log_of os r (e_index e) = Some e.
Proof. exact ranges_ok. Qed.
Print Assumptions C45_ranges.

Theorem C45_data_ranges : forall cs b os w r a z, lreach cs b os w -> get Z.compare (w_metas w) r <> None ->
  0 <= a <= kMaxIndex -> 0 <= z <= kMaxIndex ->
  exists es, get_entries w r a z = Ok es /\ get_data_entries w r a z = Ok (filter (fun e => e_type e =? tData) es).
Proof. exact data_ranges_ok. Qed.
Print Assumptions C45_data_ranges.

(** No call within the contract aborts the store. *)
Theorem C45_no_abort : forall cs b os w o, lreach cs b os w -> lallowed w (log_of os) o -> exists w', lstep w o = Ok w'.
Proof. exact log_total. Qed.
Print Assumptions C45_no_abort.

(** A restart keeps a log that is not empty. *)
Theorem C45_restart : forall cs b os w r f l w', lreach cs b os w -> first_index w r = Ok f -> last_index w r = Ok l ->
  f <= l -> lstep w LRestart = Ok w' ->
  first_index w' r = Ok f /\ last_index w' r = Ok l /\ (forall i, get_entry w' r i = get_entry w r i).
Proof. exact restart_ok. Qed.
Print Assumptions C45_restart.

(** On a store where raft is the only consumer, its truncation takes effect. *)
Theorem C45_truncation : forall b os w r f keep w', lreach [Raft] b os w -> first_index w r = Ok f ->
  f < keep < kMaxIndex -> asked os Raft r < keep -> lstep w (LPrefix Raft r keep) = Ok w' ->
  first_index w' r = Ok keep.
Proof. exact truncated_ok. Qed.
Print Assumptions C45_truncation.

(** The position of an empty log does not survive a restart. *)
Theorem C45_empty_restart_refuted : exists os w w',
  lreach [Raft] true os w /\ first_index w 7 = Ok 100 /\ last_index w 7 = Ok 99 /\
  lstep w LRestart = Ok w' /\ first_index w' 7 = Ok 1 /\ last_index w' 7 = Ok 0.
Proof.
  exists (hist1 ++ [LReset 7 100]), (state [Raft] true (hist1 ++ [LReset 7 100])).
  eexists. split; [apply checked_reach; vm_compute; reflexivity|].
  split; [vm_compute; reflexivity|]. split; [vm_compute; reflexivity|]. split; [vm_compute; reflexivity|].
  split; vm_compute; reflexivity.
Qed.
Print Assumptions C45_empty_restart_refuted.

(** An entry without data aborts the store, at the latest when it is read. *)
Theorem C45_empty_entry_refuted : exists w, lrun w [LAppend 7 [mkE 1 tNoOp 1 []]] <> Crash /\
  obind (lrun w [LAppend 7 [mkE 1 tNoOp 1 []]]) (fun w' => get_entry w' 7 1) = Crash.
Proof. exists (state [Raft] true [LInit 7]). split; [vm_compute; congruence|vm_compute; reflexivity]. Qed.
Print Assumptions C45_empty_entry_refuted.

Example C45_example :
  let w := state [Raft; VectorIndex] false hist2 in
  first_index w 7 = Ok 2 /\ last_index w 7 = Ok 6 /\
  get_entries w 7 0 6 = Ok [ent 2 1 10; ent 3 1 20; ent 4 2 30; ent 5 3 50] /\
  get_entries w 8 0 6 = Ok [conf 1 5] /\ get_entry w 7 1 = Ok None.
Proof. repeat split; vm_compute; reflexivity. Qed.

(** ** C46 *)
(** An appended entry that is gone was released by every consumer of the log: each has asked, since
    the log was last reset, to keep it from a later index on. *)
Theorem C46_released_partial : forall cs b os w r i e, lreach cs b os w -> log_of os r i = Some e ->
  get_entry w r i = Ok None -> forall c, In c cs -> i < asked os c r.
Proof. exact released_ok. Qed.
Print Assumptions C46_released_partial.

(** If a consumer's requests never go back, its latest one counts. *)
Theorem C46_latest_partial : forall cs b os w r i e c, lreach cs b os w -> log_of os r i = Some e ->
  get_entry w r i = Ok None -> In c cs -> StronglySorted Z.le (requests c r os) -> i < last (requests c r os) 0.
Proof. exact latest_ok. Qed.
Print Assumptions C46_latest_partial.

(** A consumer that takes a release back is ignored: the vector index asks to keep the whole log
    again, raft then drops entries. *)
Theorem C46_withdrawn_refuted : exists os w e,
  lreach [Raft; VectorIndex] true os w /\ requests VectorIndex 7 os = [kMaxIndex; 0] /\
  log_of os 7 1 = Some e /\ get_entry w 7 1 = Ok None.
Proof.
  exists ([LInit 7; LAppend 7 [conf 1 1; ent 2 1 10; ent 3 1 20]; LPrefix VectorIndex 7 kMaxIndex; LPrefix VectorIndex 7 0; LPrefix Raft 7 3]).
  eexists. exists (conf 1 1). split; [apply checked_reach; vm_compute; reflexivity|]. repeat split; vm_compute; reflexivity.
Qed.
Print Assumptions C46_withdrawn_refuted.

Example C46_example :
  let w := state [Raft; VectorIndex] false hist2 in
  log_of hist2 7 1 = Some (conf 1 1) /\ get_entry w 7 1 = Ok None /\ get_entry w 7 2 = Ok (Some (ent 2 1 10)) /\
  asked hist2 Raft 7 = 3 /\ asked hist2 VectorIndex 7 = 2 /\ requests VectorIndex 7 hist2 = [2].
Proof. repeat split; vm_compute; reflexivity. Qed.
