(** Theorems about the versioned key-value store of the coordinator: C24, C25, C59, C60, C61. *)
From Coq Require Import ZArith List Bool Sorted.
From Verif Require Import Bytes KvModel KvSpec KvProofs4 KvProofs6.
Import ListNotations.
Open Scope Z_scope.

(** A log used below: a and b are put, a again, b is deleted, a compacted, c is put under a lease. *)
Definition ka : bytes := [97].
Definition kb : bytes := [98].
Definition kc : bytes := [99].
Definition demo : list incr :=
  [put_incr ka [1] 0 false false; put_incr kb [2] 0 false false; put_incr ka [3] 0 false false;
   mkInc [] [ODel kb]; compact_incr [ka; kb] 10004; mkInc [LPut 7 (mkL 60 1000)] [];
   put_incr kc [4] 7 false false].

(** ** C24 *)

(** A read returns, in key order, the entries of the keys in its range, up to its limit; what the entries
    are is said by [spec_log]: value and lease of the last put, its revision, the revision of the first
    put since the key was created, the number of puts since then; nothing for a deleted key. *)
Theorem C24_range : forall log key range_end limit keys_only count_only,
  key <> [] ->
  (range_end = [0] -> Forall (put_keys (fun k => legal_key k /\ k <> top_key)) log) ->
  exists l, listing (st_data (spec_log log)) (in_range key range_end) l /\
    do_range (after log) key range_end limit keys_only count_only = Some (answer_of l (limit_of limit) keys_only count_only).
Proof. exact range_after. Qed.
Print Assumptions C24_range.

Example C24_range_example :
  do_range (after demo) [1] [0] 0 false false =
    Some (mkR [mkO ka [3] 10001 10003 2 0; mkO kc [4] 10005 10005 1 7] 2 false) /\
  do_range (after demo) [1] [0] 1 true false = Some (mkR [mkO ka [] 10001 10003 2 0] 1 true) /\
  do_range (after demo) kb [] 0 false false = Some (mkR [] 0 false) /\
  do_range (after demo) ka kc 0 false false = Some (mkR [mkO ka [3] 10001 10003 2 0] 1 false).
Proof. vm_compute. repeat split. Qed.

Example C24_range_example_keys : Forall (put_keys (fun k => legal_key k /\ k <> top_key)) demo.
Proof.
  assert (L : forall b, 0 <= b < 200 -> legal_key [b] /\ [b] <> top_key).
  { intros b Hb. split; [split; [discriminate|split]|].
    - constructor; [unfold byte_ok; destruct Hb; split; auto; eapply Z.lt_trans; eauto; reflexivity|constructor].
    - apply Nat.leb_le. vm_compute. reflexivity.
    - intros E. apply (f_equal (@length Z)) in E. vm_compute in E. discriminate. }
  apply Forall_forall. intros e He key il lid iv value Hin.
  assert (K : key = ka \/ key = kb \/ key = kc).
  { cbn in He. repeat (destruct He as [<-|He]); try contradiction; cbn in Hin;
      repeat (destruct Hin as [Hin|Hin]); try discriminate; try contradiction; injection Hin; auto. }
  destruct K as [->|[->| ->]]; apply L; split; try discriminate; reflexivity.
Qed.

(** A put request that is accepted: a read of the key then returns exactly the new entry, with the revision
    that the answer carries, and no other key changes. *)
Theorem C24_put : forall log key value lid ignore_lease,
  put_check (after log) key value false = None ->
  put_lease (after log) key lid ignore_lease = inl lid ->
  (0 < lid -> st_leases (spec_log log) lid = true) ->
  let log' := log ++ [put_incr key value lid false ignore_lease] in
  exists kv,
    do_range (after log') key [] 0 false false = Some (mkR [kv] 1 false) /\
    o_key kv = key /\ o_value kv = value /\ o_lease kv = lid /\
    answers kv0 0 log' = answers kv0 0 log ++ [o_mod kv] /\ o_mod kv = k_rev (after log') /\
    (match do_range (after log) key [] 0 false false with
     | Some (mkR [old] _ _) => o_create kv = o_create old /\ o_ver kv = o_ver old + 1
     | _ => o_create kv = o_mod kv /\ o_ver kv = 1
     end) /\
    forall k, k <> [] -> k <> key -> do_range (after log') k [] 0 false false = do_range (after log) k [] 0 false false.
Proof. exact put_request. Qed.
Print Assumptions C24_put.

Example C24_put_example :
  put_check (after demo) ka [9] false = None /\ put_lease (after demo) ka 0 false = inl 0 /\
  put_check (after demo) kc [9] false = None /\ put_lease (after demo) kc 7 true = inl 7 /\
  st_leases (spec_log demo) 7 = true /\
  do_range (after (demo ++ [put_incr kb [5] 0 false false])) kb [] 0 false false = Some (mkR [mkO kb [5] 10006 10006 1 0] 1 false).
Proof. vm_compute. repeat split. Qed.

(** Which puts are accepted (apart from the lease rules): the store holds at most 100000 keys, the key has
    1 to 4096 bytes and the value 1 to 8192. *)
Theorem C24_accepts : forall s key value,
  put_check s key value false = None <->
  Z.of_nat (length (k_index s)) <= 100000 /\ 1 <= Z.of_nat (length key) <= 4096 /\ 1 <= Z.of_nat (length value) <= 8192.
Proof. exact put_check_exact. Qed.
Print Assumptions C24_accepts.

Example C24_accepts_example :
  put_check (after demo) (repeat 1 4096) [1] false = None /\ put_check (after demo) (repeat 1 4097) [1] false = Some EInval /\
  put_check (after demo) ka (repeat 1 8192) false = None /\ put_check (after demo) ka (repeat 1 8193) false = Some EInval.
Proof. vm_compute. repeat split. Qed.

(** A delete request: the keys of its range are gone, no other key changes. *)
Theorem C24_delete : forall log key range_end,
  key <> [] ->
  (range_end = [0] -> Forall (put_keys (fun k => legal_key k /\ k <> top_key)) log) ->
  Z.of_nat (length (k_index (after log))) <= kInt64Max ->
  let log' := log ++ [delete_incr (after log) key range_end] in
  (forall k, k <> [] -> in_range key range_end k -> do_range (after log') k [] 0 false false = Some (mkR [] 0 false)) /\
  (forall k, k <> [] -> ~ in_range key range_end k ->
     do_range (after log') k [] 0 false false = do_range (after log) k [] 0 false false).
Proof. exact delete_request. Qed.
Print Assumptions C24_delete.

Example C24_delete_example :
  Z.of_nat (length (k_index (after demo))) = 3 /\
  delete_incr (after demo) ka kc = mkInc [] [ODel ka] /\
  do_range (after (demo ++ [delete_incr (after demo) ka kc])) [1] [0] 0 false false =
    Some (mkR [mkO kc [4] 10005 10005 1 7] 1 false).
Proof. vm_compute. repeat split. Qed.

(** The revisions in the answers grow strictly. *)
Theorem C24_revisions : forall log,
  StronglySorted Z.lt (answers kv0 0 log) /\ Forall (fun m => 10000 < m <= k_rev (after log)) (answers kv0 0 log).
Proof. exact answers_sorted. Qed.
Print Assumptions C24_revisions.

(** An entry that a read shows carries the revision of an answered write, none newer than the counter. *)
Theorem C24_visible : forall log k kv, st_data (spec_log log) k = Some kv ->
  o_key kv = k /\ In (o_mod kv) (answers kv0 0 log) /\ o_create kv <= o_mod kv <= k_rev (after log) /\ 1 <= o_ver kv.
Proof. exact visible_revs. Qed.
Print Assumptions C24_visible.

Example C24_revisions_example : answers kv0 0 demo = [10001; 10002; 10003; 10004; 10005] /\
  exists kv, st_data (spec_log demo) ka = Some kv /\ o_mod kv = 10003.
Proof. split; [vm_compute; reflexivity|]. eexists. split; [vm_compute; reflexivity|reflexivity]. Qed.

(** Without the proviso on the last key C24_range is false: the key of 4096 bytes 0xff is accepted by a put
    and returned by a read of that key, but not by a read to the end of the key space. *)
Theorem C24_max_key_refuted :
  let log := [put_incr top_key [1] 0 false false] in
  put_check kv0 top_key [1] false = None /\ put_lease kv0 top_key 0 false = inl 0 /\
  do_range (after log) [0] [0] 0 false false = Some (mkR [] 0 false) /\
  do_range (after log) top_key [] 0 false false = Some (mkR [mkO top_key [1] 10001 10001 1 0] 1 false).
Proof. cbv zeta. vm_compute. repeat split. Qed.
Print Assumptions C24_max_key_refuted.

(** ** C25 *)

(** Whatever compactions a log contains, every read answers as if they were not there, and so does every
    write. *)
Theorem C25_invisible : forall log key range_end limit keys_only count_only,
  do_range (after log) key range_end limit keys_only count_only =
  do_range (after (map drop_compact log)) key range_end limit keys_only count_only.
Proof. exact compaction_invisible. Qed.
Print Assumptions C25_invisible.

Theorem C25_invisible_writes : forall log, answers kv0 0 (map drop_compact log) = answers kv0 0 log.
Proof. exact answers_drop. Qed.
Print Assumptions C25_invisible_writes.

(** One compaction request: reads and the counter stay; revisions from [c] on stay; what stays is not altered;
    records of other keys stay; a revision listed for a key stays listed or is below [c] and erased; a deleted
    key all of whose revisions are below [c] is gone from the index. *)
Theorem C25_request : forall log keys c,
  let s := after log in
  let s' := after (log ++ [compact_incr keys c]) in
  (forall key range_end limit ko co, do_range s' key range_end limit ko co = do_range s key range_end limit ko co) /\
  k_rev s' = k_rev s /\
  (forall r, c <= fst r -> k_revs s' r = k_revs s r) /\
  (forall r, k_revs s' r <> None -> k_revs s' r = k_revs s r) /\
  (forall r v, k_revs s r = Some v -> ~ In (v_key v) keys -> k_revs s' r = Some v) /\
  (forall k r, In r (listed s k) -> In r (listed s' k) \/ fst r < c /\ k_revs s' r = None) /\
  (forall k, In k keys -> st_data (spec_log log) k = None -> (forall r, In r (listed s k) -> fst r < c) ->
     iget (k_index s') k = None).
Proof. exact compact_request. Qed.
Print Assumptions C25_request.

Example C25_example :
  let before := firstn 4 demo in
  let s := after before in let s' := after (before ++ [compact_incr [ka; kb] 10005]) in
  listed s ka = [(10001, 1); (10003, 1)] /\ listed s' ka = [(10003, 1)] /\
  k_revs s' (10001, 1) = None /\ k_revs s' (10003, 1) <> None /\
  listed s kb = [(10002, 1); (10004, 1)] /\ iget (k_index s') kb = None /\ k_revs s' (10004, 1) = None /\
  st_data (spec_log before) kb = None.
Proof. cbv zeta. vm_compute. repeat split; discriminate. Qed.

(** ** C61: the background task *)

(** A key is compacted in a run of the task unless its place in the index is the 51st, 102nd, 153rd... *)
Theorem C61_task_partial : forall s k i,
  nth_error (map fst (k_index s)) i = Some k -> Nat.modulo i 51 <> 50%nat -> kRetention <= k_rev s ->
  exists e, In e (compaction_task s) /\ In (OCompact k (k_rev s - kRetention)) (in_ops e).
Proof. exact task_entries. Qed.
Print Assumptions C61_task_partial.

(** fifty live keys, a deleted key behind them, and 1001 later revisions *)
Definition crowd : list incr :=
  map (fun n => put_incr [Z.of_nat n] [1] 0 false false) (seq 1 50) ++
  [put_incr [200] [1] 0 false false; mkInc [] [ODel [200]]] ++ repeat (mkInc [] [ODel [201]]) 1001.

Example C61_example :
  nth_error (map fst (k_index (after crowd))) 3 = Some [4] /\ kRetention <= k_rev (after crowd) /\
  existsb (fun o => match o with OCompact [4] c => c =? 10053 | _ => false end) (concat (map in_ops (compaction_task (after crowd)))) = true.
Proof. vm_compute. repeat split. discriminate. Qed.

(** The 51st key is left out of every run: although it is deleted and all its revisions are old enough, it stays
    in the index, and the next run makes the same entries again. *)
Theorem C61_task_refuted :
  let s := after crowd in
  let s' := apply_log s (Z.of_nat (length crowd)) (compaction_task s) in
  do_range s [200] [] 0 false false = Some (mkR [] 0 false) /\
  forallb (fun r => fst r <? k_rev s - kRetention) (listed s [200]) = true /\
  listed s' [200] = [(10051, 1); (10052, 1)] /\
  (match k_revs s' (10051, 1) with Some v => v_value v | None => [] end) = [1] /\
  compaction_task s' = compaction_task s.
Proof. cbv zeta. vm_compute. repeat split. Qed.
Print Assumptions C61_task_refuted.

(** ** C60: a crash while an entry is applied *)

(** Deletions, changes of leases and compactions can be interrupted anywhere: after the restart and the repeated
    entry all reads, leases and the counter are as without the crash. *)
Theorem C60_crash : forall log e j, delete_entry e \/ compact_entry e ->
  (forall key range_end limit ko co,
    do_range (crashed log e j) key range_end limit ko co = do_range (after (log ++ [e])) key range_end limit ko co) /\
  (forall l, lget (k_leases (crashed log e j)) l = lget (k_leases (after (log ++ [e]))) l) /\
  k_rev (crashed log e j) = k_rev (after (log ++ [e])).
Proof. exact crash_reads. Qed.
Print Assumptions C60_crash.

(** The same for a put, but for the version of the key.  Missing: the version. *)
Theorem C60_put_partial : forall log e j, put_entry e ->
  (forall key range_end limit ko co,
    option_map forget_versions (do_range (crashed log e j) key range_end limit ko co) =
    option_map forget_versions (do_range (after (log ++ [e])) key range_end limit ko co)) /\
  (forall l, lget (k_leases (crashed log e j)) l = lget (k_leases (after (log ++ [e]))) l) /\
  k_rev (crashed log e j) = k_rev (after (log ++ [e])).
Proof. exact crash_reads_put. Qed.
Print Assumptions C60_put_partial.

Example C60_example :
  let e := mkInc [LDel 7] [ODel kc; ODel ka] in
  delete_entry e /\ compact_entry (compact_incr [ka; kb] 10005) /\ put_entry (put_incr ka [9] 0 false false) /\
  length (entry_effs (after demo) 8 e) = 7%nat /\
  do_range (crashed demo e 4) [1] [0] 0 false false = Some (mkR [] 0 false) /\
  do_range (performs (after demo) (firstn 4 (entry_effs (after demo) 8 e))) [1] [0] 0 false false =
    Some (mkR [mkO ka [3] 10001 10003 2 0] 1 false).
Proof.
  cbv zeta. split; [reflexivity|]. split; [split; reflexivity|].
  split; [split; [reflexivity|]; repeat eexists|]. vm_compute. repeat split.
Qed.

(** A put interrupted after its record and its index were written, and then repeated: the version is one too
    high. *)
Theorem C60_version_refuted :
  let log := [put_incr ka [1] 0 false false] in let e := put_incr ka [2] 0 false false in
  do_range (after (log ++ [e])) ka [] 0 false false = Some (mkR [mkO ka [2] 10001 10002 2 0] 1 false) /\
  do_range (crashed log e 3) ka [] 0 false false = Some (mkR [mkO ka [2] 10001 10002 3 0] 1 false).
Proof. cbv zeta. vm_compute. repeat split. Qed.
Print Assumptions C60_version_refuted.

(** And the live record is listed twice, so that a later compaction erases it: the key, put and never deleted,
    is gone from all reads. *)
Theorem C60_lost_refuted :
  let log := [put_incr ka [1] 0 false false] in let e := put_incr ka [2] 0 false false in
  let c := compact_incr [ka] 10003 in
  do_range (after (log ++ [e; c])) ka [] 0 false false = Some (mkR [mkO ka [2] 10001 10002 2 0] 1 false) /\
  do_range (apply_entry (crashed log e 3) 3 c) ka [] 0 false false = Some (mkR [] 0 false).
Proof. cbv zeta. vm_compute. repeat split. Qed.
Print Assumptions C60_lost_refuted.

(** ** C59: the options of requests *)

(** keys_only, limit and ignore_lease do what they say: the first two are in C24_range, the third is the
    case [ignore_lease = true] of C24_put. *)
Theorem C59_options_partial : forall log key range_end limit,
  key <> [] -> (range_end = [0] -> Forall (put_keys (fun k => legal_key k /\ k <> top_key)) log) ->
  exists l, listing (st_data (spec_log log)) (in_range key range_end) l /\
    do_range (after log) key range_end limit true false =
      Some (mkR (map (fun kv => mkO (o_key kv) [] (o_create kv) (o_mod kv) (o_ver kv) (o_lease kv)) (firstn (Z.to_nat (limit_of limit)) l))
                (Z.of_nat (length (firstn (Z.to_nat (limit_of limit)) l))) (limit_of limit <? Z.of_nat (length l))).
Proof. intros log key range_end limit. exact (range_after log key range_end limit true false). Qed.
Print Assumptions C59_options_partial.

(** A put with ignore_value does not keep the value: it stores an empty one. *)
Theorem C59_ignore_value_refuted :
  let log := [put_incr ka [1] 0 false false] in
  put_check (after log) ka [] true = None /\ put_lease (after log) ka 0 false = inl 0 /\
  do_range (after log) ka [] 0 false false = Some (mkR [mkO ka [1] 10001 10001 1 0] 1 false) /\
  do_range (after (log ++ [put_incr ka [] 0 true false])) ka [] 0 false false = Some (mkR [mkO ka [] 10001 10002 2 0] 1 false).
Proof. cbv zeta. vm_compute. repeat split. Qed.
Print Assumptions C59_ignore_value_refuted.

(** A read with count_only counts nothing. *)
Theorem C59_count_only_refuted :
  let log := [put_incr ka [1] 0 false false] in
  do_range (after log) ka [] 0 false false = Some (mkR [mkO ka [1] 10001 10001 1 0] 1 false) /\
  do_range (after log) ka [] 0 false true = Some (mkR [] 0 false).
Proof. cbv zeta. vm_compute. repeat split. Qed.
Print Assumptions C59_count_only_refuted.

(** The previous entry in the event of a put carries the version of the new one. *)
Theorem C59_prev_refuted :
  let log := [put_incr ka [1] 0 false false] in
  do_range (after log) ka [] 0 false false = Some (mkR [mkO ka [1] 10001 10001 1 0] 1 false) /\
  op_event (after log) (10002, 1) (OPut ka false 0 false [2]) =
    Some (ka, mkEv EvPut (mkO ka [2] 10001 10002 2 0) (mkO ka [1] 10001 10001 2 0)).
Proof. cbv zeta. vm_compute. repeat split. Qed.
Print Assumptions C59_prev_refuted.
