(** Theorems about the read-write lock, the thread pool and the parallel calls (C140-C147). *)
From Coq Require Import ZArith List Bool Arith Lia Permutation.
From Verif Require Import LkModel LkSpec LkProofs LkProofs2 LkProofs3 LkDemo.
Import ListNotations.
Local Open Scope nat_scope.

(** * C140: readers and writers exclude each other *)

(** For any number of threads and any order of steps, one that writes is alone. *)
Theorem C140_a_writer_is_alone :
  forall n es i j, let s := lrun (sys0 n) es in
  writes s i -> (reads s j -> False) /\ (writes s j -> i = j).
Proof. intros n es i j s W. exact (excl s i j (lrun_linv es _ (linv0 n)) W). Qed.
Print Assumptions C140_a_writer_is_alone.

(** The numbers the lock keeps are those of the threads that read, write and wait to write. *)
Theorem C140_the_counts_are_right :
  forall n es, let s := lrun (sys0 n) es in
  active_readers (lk s) = Z.of_nat (length (filter (fun t => match t with Reading => true | _ => false end) (th s))) /\
  (active_writer (lk s) = true <-> exists i, writes s i) /\
  waiting_writers (lk s) = Z.of_nat (length (filter (fun t => match t with WSleep | WAwake => true | _ => false end) (th s))).
Proof. intros n es s. exact (counts_right s (lrun_linv es _ (linv0 n))). Qed.
Print Assumptions C140_the_counts_are_right.

Example C140_case :
  let s := lrun (sys0 4) l_mixed in
  writes s 0 /\ wants_read s 3 /\ (exists k, let r := lrun (sys0 4) (firstn k l_mixed) in reads r 1 /\ reads r 2 /\ wants_write r 0).
Proof.
  split; [vm_compute; reflexivity|]. split; [left; vm_compute; reflexivity|]. exists 4.
  split; [vm_compute; reflexivity|]. split; [vm_compute; reflexivity|left; vm_compute; reflexivity].
Qed.

(** * C141: nobody waits for nothing *)

(** One that sleeps and wants to read has a writer before it that writes or waits; one that sleeps
    and wants to write has another before it that reads or writes. *)
Theorem C141_sleepers_have_a_reason :
  forall n es i, let s := lrun (sys0 n) es in
  (does s i RSleep -> exists k, writes s k \/ wants_write s k) /\
  (does s i WSleep -> exists k, writes s k \/ reads s k).
Proof. intros n es i s. exact (sleep_reason s i (lrun_linv es _ (linv0 n))). Qed.
Print Assumptions C141_sleepers_have_a_reason.

(** When no new request comes and those that hold the lock let go, everybody gets the lock: in any
    order the steps end, after a number of them that depends on the number of threads only, and
    then nobody holds the lock or waits for it. *)
Theorem C141_everybody_gets_the_lock :
  forall n es1 es2, let s := lrun (sys0 n) es1 in
  Forall closing_lock es2 -> l_all_happen s es2 ->
  (Z.of_nat (length es2) <= (Z.of_nat n + 1) * (2 * Z.of_nat n) + Z.of_nat n)%Z /\
  (l_at_rest (lrun s es2) -> all_idle (lrun s es2)) /\
  (~ all_idle (lrun s es2) -> exists e, closing_lock e /\ lstep (lrun s es2) e <> None).
Proof. intros n es1 es2 s F H. exact (lock_ends n es1 es2 F H). Qed.
Print Assumptions C141_everybody_gets_the_lock.

Example C141_case :
  let s := lrun (sys0 3) l_start in
  let es := [UnlockWrite 1; Look 0; Look 2; UnlockWrite 2; Look 0; UnlockRead 0] in
  wants_read s 0 /\ wants_write s 2 /\ Forall closing_lock es /\ l_all_happen s es /\ all_idle (lrun s es).
Proof.
  split; [left; vm_compute; reflexivity|]. split; [left; vm_compute; reflexivity|].
  split; [repeat constructor|]. split; [cbn [l_all_happen]; repeat split; vm_compute; discriminate|].
  intros [|[|[|i]]] t; vm_compute; try congruence. destruct i; discriminate.
Qed.

(** * C142: waiting threads are not overtaken for ever *)

(** No reader gets the lock while a writer waits for it. *)
Theorem C142_readers_do_not_overtake_writers_partial :
  forall n es e j, let s := lrun (sys0 n) es in
  ~ reads s j -> reads (lnext s e) j ->
  (e = LockRead j \/ e = Look j) /\ (forall k, ~ wants_write s k) /\ (forall k, ~ writes s k).
Proof. intros n es e j s. exact (begins_to_read s e j (lrun_linv es _ (linv0 n))). Qed.
Print Assumptions C142_readers_do_not_overtake_writers_partial.

Example C142_case :
  let s := lrun (sys0 3) [LockRead 1; LockWrite 2; LockRead 0; UnlockRead 1; Look 2; UnlockWrite 2] in
  ~ reads s 0 /\ reads (lnext s (Look 0)) 0.
Proof. split; [vm_compute; discriminate|vm_compute; reflexivity]. Qed.

(** Two writers that take turns keep a reader out as often as they like, although it looks each
    time somebody lets go. *)
Theorem C142_reader_kept_out_refuted :
  forall k, exists es, let s := lrun (sys0 3) l_start in
  l_all_happen s es /\ wants_read s 0 /\
  length (filter (fun e => match e with UnlockWrite _ => true | _ => false end) es) = 2 * k /\
  (forall j, wants_read (lrun s (firstn j es)) 0).
Proof.
  intros k. exists (rounds k). split; [exact (rounds_happen k)|]. split; [exact (rounds_wait 0 0)|].
  split; [exact (rounds_turns k)|exact (rounds_wait k)].
Qed.
Print Assumptions C142_reader_kept_out_refuted.

(** * C143: each task is run once *)

(** The tasks that were accepted are those that wait, those that run and those that have been run,
    each in one of the three places. *)
Theorem C143_each_task_is_in_one_place :
  forall n es, let s := prun (pool0 n) es in
  Permutation (map fst (p_q s) ++ running s ++ p_done s) (seq 0 (p_next s)) /\ NoDup (p_done s).
Proof.
  intros n es s. destruct (ginv_run es _ (ginv0 n)) as [O _]. split; [exact (once_perm s O)|exact (once_done_nodup s O)].
Qed.
Print Assumptions C143_each_task_is_in_one_place.

(** Waiting for a task ends when it has been run, and for one caller. *)
Theorem C143_join_waits_for_the_task :
  forall n es t, let s := prun (pool0 n) es in p_dead s = false ->
  (pstep s (EJoinTask t) <> None <-> In t (p_done s) /\ ~ In t (p_joined s)).
Proof. intros n es t s D. exact (join_iff s t (ginv_run es _ (ginv0 n)) D). Qed.
Print Assumptions C143_join_waits_for_the_task.

(** A worker takes a task of the highest priority. *)
Theorem C143_highest_priority_first :
  forall n es i k s' t, let s := prun (pool0 n) es in
  pstep s (EWork i k) = Some s' -> In t (running s') -> ~ In t (running s) ->
  exists pr, In (t, pr) (p_q s) /\ forall u, In u (p_q s) -> (snd u <= pr)%Z.
Proof. intros n es i k s' t s. exact (takes_top s i k s' t). Qed.
Print Assumptions C143_highest_priority_first.

Example C143_case :
  let s := prun (pool0 2) p_busy in
  p_q s = [(0, 0%Z); (2, 5%Z)] /\ running s = [1] /\ p_next s = 3 /\ p_dead s = false /\
  pstep (prun (pool0 2) (p_busy ++ p_finish)) (EJoinTask 2) <> None.
Proof. vm_compute. repeat split; discriminate. Qed.

(** * C144: each task is run in the end *)

(** While the pool keeps a worker and the functions throw nothing but standard exceptions: when no
    new calls come, the workers come to rest after finitely many steps, in whatever order, and then
    every accepted task has been run. *)
Theorem C144_tasks_are_run_partial :
  forall n es1, let s := prun (pool0 n) es1 in
  p_dead s = false -> p_des s = DNone -> has_worker s ->
  exists bound, forall es2, Forall closing es2 -> p_all_happen s es2 ->
  length es2 <= bound /\ (p_at_rest (prun s es2) -> p_q (prun s es2) = [] /\ all_run (prun s es2)).
Proof.
  intros n es1 s D De H. exists (pmeas s). intros es2 F A.
  exact (tasks_run_in_the_end s es2 (ginv_run es1 _ (ginv0 n)) D De H F A).
Qed.
Print Assumptions C144_tasks_are_run_partial.

Example C144_case :
  let s := prun (pool0 2) p_busy in let t := prun s p_finish in
  p_dead s = false /\ p_des s = DNone /\ has_worker s /\ Forall closing p_finish /\ p_all_happen s p_finish /\
  p_next t = 3 /\ p_at_rest t /\ p_done t = [1; 2; 0].
Proof.
  split; [reflexivity|]. split; [reflexivity|]. split; [eexists; split; [left; reflexivity|reflexivity]|].
  split; [repeat constructor|]. split; [cbn [p_all_happen p_finish]; repeat split; vm_compute; discriminate|].
  split; [vm_compute; reflexivity|]. split; [|vm_compute; reflexivity].
  intros e C. destruct e as [a|k|w|w k|w|w|w o|m| | | | |t]; cbn in C; try contradiction; try reflexivity;
    try (destruct k; reflexivity); destruct w as [|[|w]]; try reflexivity; destruct w; reflexivity.
Qed.

(** A pool shrunk to no workers accepts tasks and runs none. *)
Theorem C144_no_workers_refuted :
  exists es, let s := prun (pool0 1) es in
  p_q s = [(0, 0%Z)] /\ p_des s = DNone /\ p_at_rest s /\ ~ all_run s.
Proof.
  exists p_none. split; [vm_compute; reflexivity|]. split; [vm_compute; reflexivity|]. split.
  - intros e C. destruct e as [a|k|w|w k|w|w|w o|m| | | | |t]; cbn in C; try contradiction; try reflexivity;
      try (destruct k; reflexivity); destruct w; reflexivity.
  - intros A. exact (A 0 (Nat.lt_0_succ 0)).
Qed.
Print Assumptions C144_no_workers_refuted.

(** A function that throws something else ends the process. *)
Theorem C144_other_exception_refuted :
  exists es, p_dead (prun (pool0 1) es) = true /\ es = [ESubmit 0; EPush 0; ENotify 0; EWork 0 0; EEnd 0 ThrowsOther].
Proof. eexists. split; [|reflexivity]. vm_compute. reflexivity. Qed.
Print Assumptions C144_other_exception_refuted.

(** * C145: a pool can be made smaller and destroyed *)

(** If no worker is between finding nothing to do and going to sleep when everybody is woken, the
    call that makes the pool smaller, or destroys it, returns. *)
Theorem C145_the_call_returns_partial :
  forall n es1 d es2, let s := prun (pool0 n) es1 in
  p_dead s = false -> p_mu s = MNotify d -> p_des s <> DFlag ->
  (forall w, In w (p_ws s) -> w_pc w <> PGap) ->
  let u := pnext s ENotifyAll in
  Forall closing es2 -> p_at_rest (prun u es2) -> p_mu (prun u es2) = MFree /\ p_des (prun u es2) <> DIn.
Proof. intros n es1 d es2 s D M De G. exact (stop_returns s d es2 (ginv_run es1 _ (ginv0 n)) D M De G). Qed.
Print Assumptions C145_the_call_returns_partial.

(** If no call was about to push a task when the destruction began, then when it has returned every
    accepted task has been run, whatever else is done to the pool. *)
Theorem C145_destroyed_means_done_partial :
  forall n es1 es2, let s := prun (pool0 n) es1 in
  p_dead s = false -> p_des s = DNone -> p_sub s = [] -> has_worker s ->
  let t := prun s (EDestroy :: es2) in p_des t = DDone -> all_run t.
Proof. intros n es1 es2 s D De S H. exact (destroy_runs_all s es2 (ginv_run es1 _ (ginv0 n)) D De S H). Qed.
Print Assumptions C145_destroyed_means_done_partial.

Example C145_case :
  (let s := prun (pool0 2) p_less in let u := pnext s ENotifyAll in
   let es2 := [EWork 1 0; EJoinWorkers; EEnd 0 Returns; EWork 0 0; ESleep 0] in
   p_mu s = MNotify false /\ p_des s = DNone /\ (forall w, In w (p_ws s) -> w_pc w <> PGap) /\ Forall closing es2 /\
   p_all_happen u es2 /\ p_mu (prun u es2) = MFree) /\
  (let s := prun (pool0 2) p_busy in
   let es2 := [EDestroyLock; ENotifyAll; EWork 1 1; EEnd 1 Returns; EWork 1 0; EEnd 0 Returns; EWork 0 0; EEnd 1 Returns;
               EWork 1 0; EJoinWorkers] in
   p_sub s = [] /\ has_worker s /\ p_des (prun s (EDestroy :: es2)) = DDone /\ p_done (prun s (EDestroy :: es2)) = [2; 1; 0]).
Proof.
  split.
  - split; [reflexivity|]. split; [reflexivity|]. split; [intros w [<-|[<-|[]]]; vm_compute; discriminate|].
    split; [repeat constructor|]. split; [cbn [p_all_happen]; repeat split; vm_compute; discriminate|vm_compute; reflexivity].
  - split; [reflexivity|]. split; [eexists; split; [left; reflexivity|reflexivity]|]. split; vm_compute; reflexivity.
Qed.

(** The flag that tells a worker to stop is set, and everybody is woken, without the mutex under
    which the worker looks: if this comes between its look and its sleep it sleeps on, and the call
    waits for it, holding the mutex that every later call on the pool's size needs. *)
Theorem C145_lost_wake_up_refuted :
  exists es es', (let s := prun (pool0 1) es in p_mu s = MJoin false /\ p_at_rest s) /\
                 (let s := prun (pool0 1) es' in p_mu s = MJoin true /\ p_des s = DIn /\ p_at_rest s).
Proof.
  exists p_lost, p_lost_destroy. split.
  - split; [vm_compute; reflexivity|]. intros e C. destruct e as [a|k|w|w k|w|w|w o|m| | | | |t]; cbn in C; try contradiction; try reflexivity;
      try (destruct k; reflexivity); destruct w as [|[|w]]; reflexivity.
  - split; [vm_compute; reflexivity|]. split; [vm_compute; reflexivity|].
    intros e C. destruct e as [a|k|w|w k|w|w|w o|m| | | | |t]; cbn in C; try contradiction; try reflexivity;
      try (destruct k; reflexivity); destruct w as [|[|w]]; reflexivity.
Qed.
Print Assumptions C145_lost_wake_up_refuted.

(** A call that found the pool in order before its destruction began may push its task after it:
    the caller gets a task that nobody runs, and waits for it for ever. *)
Theorem C145_late_task_refuted :
  exists es, let s := prun (pool0 1) es in
  p_des s = DDone /\ p_q s = [(0, 0%Z)] /\ ~ all_run s /\ forall e, (forall n, e <> EAdjust n) -> pstep s e = None.
Proof.
  exists p_late. split; [vm_compute; reflexivity|]. split; [vm_compute; reflexivity|].
  split; [intros A; exact (A 0 (Nat.lt_0_succ 0))|].
  intros e C. destruct e as [a|k|w|w k|w|w|w o|m| | | | |t]; try reflexivity;
    try (destruct k; reflexivity); try (destruct w as [|[|w]]; reflexivity). exfalso. exact (C m eq_refl).
Qed.
Print Assumptions C145_late_task_refuted.

(** * C146: a parallel write that succeeds has done everything *)

(** The batches are the list in order, none empty and none larger than asked for. *)
Theorem C146_batches_are_the_list :
  forall {A} (l : list A) bs, 0 < bs ->
  concat (split_batches l bs) = l /\ forall b, In b (split_batches l bs) -> 0 < length b <= bs.
Proof.
  intros A l bs B. split; [exact (split_concat (length l) l bs B (le_n _))|]. intros b H. exact (split_sizes _ l bs b B H).
Qed.
Print Assumptions C146_batches_are_the_list.

(** If every batch gets a task and no function throws: success is answered exactly if every
    function succeeds, and a failure is the answer of one of them. *)
Theorem C146_status_of_a_parallel_run_partial :
  forall codes, let r := parallel_run (map (fun c => (true, FRet c)) codes) in
  (r = 0%Z <-> Forall (fun c => c = 0%Z) codes) /\ (r <> 0%Z -> In r codes).
Proof. intros codes. exact (run_status codes). Qed.
Print Assumptions C146_status_of_a_parallel_run_partial.

(** If every batch gets a task and nothing throws, a write to the graph index adds every vector
    once and answers success; the same without a pool. *)
Theorem C146_graph_upsert_adds_every_vector_partial :
  forall pool n bs fails, 0 < bs ->
  (forall acc, pool = Some acc -> forall i, acc i = true) -> (forall r, r < n -> fails r = false) ->
  hnsw_upsert pool n bs fails = (seq 0 n, 0%Z).
Proof. exact upsert_all. Qed.
Print Assumptions C146_graph_upsert_adds_every_vector_partial.

Example C146_case :
  split_batches [1; 2; 3; 4; 5] 2 = [[1; 2]; [3; 4]; [5]] /\
  parallel_run [(true, FRet 0%Z); (true, FRet 7%Z); (true, FRet 9%Z)] = 7%Z /\
  hnsw_upsert (Some (fun _ => true)) 5 2 (fun _ => false) = ([0; 1; 2; 3; 4], 0%Z).
Proof. vm_compute. auto. Qed.

(** An exception stays in the pool: success is answered although one function threw, and although
    rows were left out; without a pool the same write fails. *)
Theorem C146_exception_is_lost_refuted :
  parallel_run [(true, FRet 0%Z); (true, FThrow)] = 0%Z /\
  (let fails r := r =? 1 in
   hnsw_upsert (Some (fun _ => true)) 4 4 fails = ([0], 0%Z) /\ hnsw_upsert None 4 4 fails = ([0], EINTERNAL)).
Proof. vm_compute. auto. Qed.
Print Assumptions C146_exception_is_lost_refuted.

(** With a pool that is being destroyed nothing is done and success is answered. *)
Theorem C146_destroyed_pool_refuted :
  parallel_run [(false, FRet 7%Z)] = 0%Z /\ hnsw_upsert (Some (fun _ => false)) 4 2 (fun _ => false) = ([], 0%Z).
Proof. vm_compute. auto. Qed.
Print Assumptions C146_destroyed_pool_refuted.

(** * C147: a parallel search answers every query in its place *)

(** With batches of one query, in whatever order they are run. *)
Theorem C147_answers_in_order_partial :
  forall {Q A} (ans : Q -> A) (qs : list Q) order, Permutation order (seq 0 (length qs)) ->
  search_parallel ans qs 1 order = map (fun q => Some (ans q)) qs.
Proof. intros Q A ans qs order. exact (search_one ans qs order). Qed.
Print Assumptions C147_answers_in_order_partial.

Example C147_case : search_parallel (fun q => q * 10) [1; 2; 3] 1 [2; 0; 1] = [Some 10; Some 20; Some 30].
Proof. vm_compute. reflexivity. Qed.

(** With larger batches the answers of a batch are put at the number of the batch, not of its first
    query: the second query is given the answer of the third, and the last none. *)
Theorem C147_larger_batches_refuted :
  search_parallel (fun q => q * 10) [1; 2; 3; 4] 2 [0; 1] = [Some 10; Some 30; Some 40; None].
Proof. vm_compute. reflexivity. Qed.
Print Assumptions C147_larger_batches_refuted.
