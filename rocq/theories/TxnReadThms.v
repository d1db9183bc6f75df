(** Property theorems C14, C15, C21 (lock scan), C37, C43 and C44 (see properties.jsonl). *)
From Coq Require Import ZArith List Lia Bool Sorted.
From Verif Require Import Bytes SMap Outcome TxnModel TxnSpec TxnBase TxnInv TxnRun TxnProofs TxnReadModel TxnReadSpec
  TxnReadProofs TxnReadProofs2 TxnReadProofs3 TxnReadProofs4 TxnDemo TxnThms.
Import ListNotations.
Open Scope Z_scope.

(** ** C14 *)
(** A get answers either with the lock that is in the way, or with the value the specification
    [reads] prescribes and then no conflicting lock is there. *)
Theorem C14_get : forall c P g i ts rs k, plan_ok P -> reachable c P g -> ts <= kMaxVer ->
  match get_key (rg_store g) i ts rs k with
  | RdVal v => no_conflict (rg_store g) i ts rs k /\ reads (rg_store g) i ts k v
  | RdConflict l => lock_at (rg_store g) k = Some l /\ conflicting i ts rs l
  | RdErr => False
  end.
Proof. exact get_of_reachable. Qed.
Print Assumptions C14_get.

(** [reads] prescribes at most one answer. *)
Theorem C14_one_answer : forall s i ts k v v', reads s i ts k v -> reads s i ts k v' -> v = v'.
Proof. exact reads_unique. Qed.
Print Assumptions C14_one_answer.

(** A batch get answers key by key, in request order, up to the first conflicting lock. *)
Theorem C14_batch_get : forall c P g i ts rs keys kvs e, plan_ok P -> reachable c P g -> ts <= kMaxVer ->
  batch_get (rg_store g) i ts rs keys [] = (kvs, e) ->
  Forall2 (fun k kv => fst kv = k /\ no_conflict (rg_store g) i ts rs k /\ reads (rg_store g) i ts k (snd kv))
          (firstn (length kvs) keys) kvs /\
  match e with
  | RdVal _ => length kvs = length keys
  | RdConflict l => exists k, nth_error keys (length kvs) = Some k /\ lock_at (rg_store g) k = Some l /\ conflicting i ts rs l
  | RdErr => False
  end.
Proof. exact batch_get_of_reachable. Qed.
Print Assumptions C14_batch_get.

(** A scan that no limit stops answers with exactly the visible keys of the range in order, or
    with those before the first conflicting lock and that lock. *)
Theorem C14_scan : forall c P g i ts rs a b limit, plan_ok P -> reachable c P g -> a <> [] ->
  Z.of_nat (length (locks (rg_store g)) + length (writes (rg_store g))) < limit ->
  exists p x, scan_first (rg_store g) i ts rs false limit (fun _ => false) a b = Ok (p, x) /\ pg_err p = false /\
    match pg_conf p with
    | None => full_scan (rg_store g) i ts rs a b (pg_kvs p) /\ pg_more p = false
    | Some l => stopped_scan (rg_store g) i ts rs a b (pg_kvs p) l
    end.
Proof. exact scan_of_reachable. Qed.
Print Assumptions C14_scan.


(** *** Examples: region [gR] has A committed by 10 at 15 and by 20 at 25, B by 10 at 15, C deleted
    by 30 at 35 after a large value at 15, and an open lock of 40 on D; E is committed at 45. *)
Definition kC : bytes := [99]. Definition kD : bytes := [100]. Definition kE : bytes := [101].
Definition big : bytes := repeat 7 300.
Definition startsR : list Z := [10; 20; 30; 40; 42; 50].
Definition commitsR : list (Z * Z) := [(15, 10); (25, 20); (35, 30); (41, 40); (45, 42); (51, 50)].
Definition PR : plan := plan_of startsR commitsR [].
Definition historyR : list event :=
  [ full (prewrite_of 10 kA [put kA 1; put kB 2; mkMut OpPut kC big]); full (RCommit 10 15 [kA; kB; kC]);
    full (prewrite_of 20 kA [put kA 3]); full (RCommit 20 25 [kA]);
    full (prewrite_of 30 kC [mkMut OpDelete kC []]); full (RCommit 30 35 [kC]);
    full (prewrite_of 42 kE [put kE 9]); full (RCommit 42 45 [kE]);
    full (prewrite_of 40 kD [put kD 5]) ].
Definition gR : region := after init_region historyR.
Example plan_R : plan_ok PR.
Proof. apply plan_okb_ok. vm_compute. reflexivity. Qed.
Example run_R : run default_cfg PR init_region historyR gR.
Proof. apply checks_run. vm_compute. reflexivity. Qed.
Example reach_R : reachable default_cfg PR gR.
Proof. exists historyR. exact run_R. Qed.
Example C14_example :
  get_key (rg_store gR) SI 20 [] kA = RdVal [1] /\ get_key (rg_store gR) SI 30 [] kA = RdVal [3] /\
  get_key (rg_store gR) SI 20 [] kC = RdVal big /\ get_key (rg_store gR) SI 40 [] kC = RdVal [] /\
  get_key (rg_store gR) SI 39 [] kD = RdVal [] /\ get_key (rg_store gR) SI 60 [40] kD = RdVal [] /\
  (exists l, get_key (rg_store gR) SI 60 [] kD = RdConflict l /\ l_ts l = 40) /\
  get_key (rg_store gR) RC 20 [] kA = RdVal [3].
Proof. vm_compute. repeat split. eexists. split; reflexivity. Qed.
Example C14_scan_example :
  (exists p x, scan_first (rg_store gR) SI 30 [] false 100 (fun _ => false) kA [122] = Ok (p, x) /\
     pg_kvs p = [(kA, [3]); (kB, [2]); (kC, big)] /\ pg_conf p = None) /\
  (exists p x, scan_first (rg_store gR) SI 50 [] false 100 (fun _ => false) kA [122] = Ok (p, x) /\
     pg_kvs p = [(kA, [3]); (kB, [2])] /\ pg_conf p <> None) /\
  Z.of_nat (length (locks (rg_store gR)) + length (writes (rg_store gR))) < 100.
Proof.
  split; [|split].
  - eexists. eexists. split; [vm_compute; reflexivity|]. split; reflexivity.
  - eexists. eexists. split; [vm_compute; reflexivity|]. split; [reflexivity|discriminate].
  - vm_compute. reflexivity.
Qed.

(** ** C15 *)
(** Two gets of one key at the same timestamp, any history in between that is [undisturbed]: no
    restart; nobody commits at or below [ts] who prewrites after the first read, was declared
    resolved by the reader, or commits below what its lock announced.  Garbage collection has not
    passed the version that was read. *)
Theorem C15_repeatable_partial : forall c P g rs rs' ts k es g' v v',
  plan_ok P -> reachable c P g -> 0 <= ts -> ts <= kMaxVer ->
  get_key (rg_store g) SI ts rs k = RdVal v ->
  run c P g (ERead ts :: es) g' -> undisturbed (rg_store g) rs ts k es ->
  (forall t w, newest (rg_store g) SI ts k t w -> rg_safe g' < t) ->
  get_key (rg_store g') SI ts rs' k = RdVal v' -> v' = v.
Proof. exact repeat_get. Qed.
Print Assumptions C15_repeatable_partial.

(** Commit timestamps the store computes are above every read it served since it was started:
    those of one-phase commits, and the lower bounds recorded in async locks. *)
Theorem C15_store_timestamp_partial : forall c P g p n a bs k ts,
  plan_ok P -> reachable c P g -> 0 <= ts <= rg_max g ->
  allowed c P g (EReq (RPrewrite p) n) -> serve c g (RPrewrite p) = Ok (a, bs) ->
  (forall ct, committed (apply_batches (rg_store g) bs) k (pw_start p) ct ->
     ~ committed (rg_store g) k (pw_start p) ct -> ts < ct) /\
  (forall l, lock_at (apply_batches (rg_store g) bs) k = Some l -> l_async l = true ->
     (forall l0, lock_at (rg_store g) k = Some l0 -> l_async l0 = false) -> ts < l_minc l).
Proof. exact store_chosen_reachable. Qed.
Print Assumptions C15_store_timestamp_partial.

(** Between two reads of A at 30, transaction 50 prewrites and commits A at 51, the lock of 40 on D
    is committed at 41 and D is read. *)
Definition betweenR : list event :=
  [ full (prewrite_of 50 kA [put kA 8]); full (RCommit 40 41 [kD]); ERead 100; full (RCommit 50 51 [kA]) ].
Example C15_example :
  get_key (rg_store gR) SI 30 [] kA = RdVal [3] /\
  run default_cfg PR gR (ERead 30 :: betweenR) (after gR (ERead 30 :: betweenR)) /\
  undisturbed (rg_store gR) [] 30 kA betweenR /\ rg_safe (after gR (ERead 30 :: betweenR)) < 25 /\
  get_key (rg_store (after gR (ERead 30 :: betweenR))) SI 30 [] kA = RdVal [3] /\
  get_key (rg_store (after gR (ERead 30 :: betweenR))) SI 60 [] kA = RdVal [8].
Proof.
  split; [vm_compute; reflexivity|split; [apply checks_run; vm_compute; reflexivity|split; [|vm_compute; auto]]].
  split.
  - intros Q. unfold betweenR in Q. simpl in Q. intuition discriminate.
  - intros r n st ct Q IC LE. exfalso. unfold betweenR, full in Q. simpl in Q.
    destruct Q as [Q|[Q|[Q|[Q|[]]]]]; inversion Q; subst; simpl in IC;
      [destruct IC|destruct IC as [IC|[]]; inversion IC; subst; lia|destruct IC as [IC|[]]; inversion IC; subst; lia].
Qed.
Example C15_store_timestamp_example :
  exists a bs, serve default_cfg (after gR [ERead 70]) (one_phase_of 50 kB [put kB 8]) = Ok (a, bs) /\
    committed (apply_batches (rg_store gR) bs) kB 50 71.
Proof. eexists. eexists. split; [vm_compute; reflexivity|]. apply committedb_ok. vm_compute. reflexivity. Qed.

(** Finding: the largest read timestamp is kept in memory only.  A is read at 30; the store
    restarts; a one-phase commit of transaction 20 gets commit timestamp 21; the next read at 30
    sees it. *)
Theorem C15_restart_refuted :
  exists g es g',
    plan_ok (plan_of [10; 20] [(15, 10); (21, 20)] []) /\
    reachable default_cfg (plan_of [10; 20] [(15, 10); (21, 20)] []) g /\
    get_key (rg_store g) SI 30 [] kA = RdVal [1] /\
    run default_cfg (plan_of [10; 20] [(15, 10); (21, 20)] []) g (ERead 30 :: es) g' /\
    get_key (rg_store g') SI 30 [] kA = RdVal [2].
Proof.
  exists (after init_region [full (prewrite_of 10 kA [put kA 1]); full (RCommit 10 15 [kA])]),
    [ERestart; full (one_phase_of 20 kA [put kA 2])],
    (after (after init_region [full (prewrite_of 10 kA [put kA 1]); full (RCommit 10 15 [kA])])
       [ERead 30; ERestart; full (one_phase_of 20 kA [put kA 2])]).
  split; [apply plan_okb_ok; vm_compute; reflexivity|]. split; [apply checks_reachable; vm_compute; reflexivity|].
  split; [vm_compute; reflexivity|]. split; [apply checks_run; vm_compute; reflexivity|]. vm_compute. reflexivity.
Qed.
Print Assumptions C15_restart_refuted.

(** ** C21: lock scans *)
(** A lock scan that says there is nothing more has returned exactly the locks asked for. *)
Theorem C21_lock_scan : forall c P g lo hi limit full a b got rest, plan_ok P -> reachable c P g ->
  scan_lock_page lo hi limit full (scan_lock_init (rg_store g) a b) = (got, false, rest) ->
  locks_between (rg_store g) lo hi a b got.
Proof. exact lock_scan_reachable. Qed.
Print Assumptions C21_lock_scan.

(** region with three locks of transactions 40, 50, 50 *)
Definition gK : region := after gR [full (prewrite_of 50 kA [put kA 8; put kB 8])].
Example reach_K : reachable default_cfg PR gK.
Proof.
  apply (reachable_run default_cfg PR gR [full (prewrite_of 50 kA [put kA 8; put kB 8])] gK); [exact reach_R|].
  apply checks_run. vm_compute. reflexivity.
Qed.
Example C21_lock_scan_example :
  exists got, scan_lock_page 45 60 10 (fun _ => false) (scan_lock_init (rg_store gK) kA [122]) = (got, false, []) /\
    map (fun l => (l_key l, l_ts l)) got = [(kA, 50); (kB, 50)].
Proof. eexists. split; [vm_compute; reflexivity|reflexivity]. Qed.

(** ** C37 *)
(** A transactional scan read in pages with any limits: the pages put together are a prefix of the
    complete result, every page but the last makes progress, and a page that says it is the last
    (or reports a lock) completes the result.  The snapshot is that of the first page; later pages
    look values up in the data column family as it then is, hence [same_values]. *)
Theorem C37_scan_pages : forall c P g i ts rs a b limit full ps,
  plan_ok P -> reachable c P g -> a <> [] ->
  (forall p, In p ps -> same_values (rg_store g) (snd p)) ->
  exists pages kvs oc n, scan_pages (rg_store g) i ts rs a b limit full ps = Ok pages /\
    match oc with
    | None => full_scan (rg_store g) i ts rs a b kvs
    | Some l => stopped_scan (rg_store g) i ts rs a b kvs l
    end /\
    concat (map pg_kvs pages) = firstn n kvs /\
    (forall p, In p pages -> pg_err p = false /\
       (pg_more p = true -> pg_kvs p <> [] \/ pg_conf p <> None) /\
       (pg_more p = false \/ pg_conf p <> None -> concat (map pg_kvs pages) = kvs /\ pg_conf p = oc)) /\
    ((length pages <= length ps)%nat -> exists p, In p pages /\ (pg_more p = false \/ pg_conf p <> None)).
Proof. exact pages_of_reachable. Qed.
Print Assumptions C37_scan_pages.

Theorem C37_page_limit : forall c P g i ts rs a b limit full p x, plan_ok P -> reachable c P g -> a <> [] -> 0 < limit ->
  scan_first (rg_store g) i ts rs false limit full a b = Ok (p, x) -> Z.of_nat (length (pg_kvs p)) <= limit.
Proof. exact page_limit. Qed.
Print Assumptions C37_page_limit.

Example C37_scan_example :
  exists pages, scan_pages (rg_store gR) SI 30 [] kA [122] 1 (fun _ => false)
      [(1, fun _ => false, datas (rg_store gR)); (1, fun _ => false, datas (rg_store gR)); (1, fun _ => false, datas (rg_store gR))] = Ok pages /\
    map pg_kvs pages = [[(kA, [3])]; [(kB, [2])]; [(kC, big)]; []] /\ map pg_more pages = [true; true; true; false].
Proof. eexists. split; [vm_compute; reflexivity|]. split; reflexivity. Qed.

(** ** C44 *)
(** A lock scan in pages: the page that says it is the last completes the list, but every later
    page starts with the lock the page before it ended with; with these dropped nothing is lost
    and nothing repeated. *)
Theorem C44_lock_scan_partial : forall c P g lo hi a b ps pages, plan_ok P -> reachable c P g ->
  scan_lock_pages (rg_store g) lo hi a b ps = (pages, true) ->
  exists p0 rest, pages = p0 :: rest /\ locks_between (rg_store g) lo hi a b (p0 ++ concat (map (@tl lock) rest)).
Proof. exact lock_pages_reachable. Qed.
Print Assumptions C44_lock_scan_partial.

Example C44_example :
  exists pages, scan_lock_pages (rg_store gK) 1 60 kA [122] [(2, fun _ => false); (2, fun _ => false); (2, fun _ => false)] = (pages, true) /\
    map (map l_key) pages = [[kA; kB]; [kB; kD]; [kD]].
Proof. eexists. split; [vm_compute; reflexivity|reflexivity]. Qed.

(** Finding: pages of a lock scan repeat locks ... *)
Theorem C44_repeats_refuted :
  exists pages, scan_lock_pages (rg_store gK) 1 60 kA [122] [(2, fun _ => false); (2, fun _ => false); (2, fun _ => false)] = (pages, true) /\
    ~ locks_between (rg_store gK) 1 60 kA [122] (concat pages).
Proof.
  eexists. split; [vm_compute; reflexivity|]. intros [S _].
  match type of S with StronglySorted _ ?l => assert (X : l = [kA; kB; kB; kD; kD]) by (vm_compute; reflexivity); rewrite X in S end.
  inversion S as [|? ? S1 F1]. inversion S1 as [|? ? S2 F2]. inversion F2 as [|? ? Q]. vm_compute in Q. discriminate Q.
Qed.
Print Assumptions C44_repeats_refuted.

(** ... and with a limit of one the scan never gets past the first lock. *)
Theorem C44_stuck_refuted : forall n, exists l,
  scan_lock_pages (rg_store gK) 1 60 kA [122] (repeat (1, fun _ => false) n) = (repeat [l] n, false) /\ l_key l = kA.
Proof.
  assert (E : exists l rest, filter (fun e => lock_in_ts 1 60 (snd e)) (scan_lock_init (rg_store gK) kA [122]) = (kA, l) :: rest /\ l_key l = kA)
    by (eexists; eexists; split; [vm_compute; reflexivity|reflexivity]).
  destruct E as (l & rest & E1 & E2). intros n. exists l. split; [exact (limit_one_stuck 1 60 (fun _ => false) n _ l kA rest E1)|exact E2].
Qed.
Print Assumptions C44_stuck_refuted.

(** ** C43 *)
(** Every value a get returns was put on that key by a prewrite of the transaction whose commit it
    reads; a get that finds a delete finds one that was asked for. *)
Theorem C43_value_was_written : forall c P es g i ts rs k v,
  plan_ok P -> run c P init_region es g -> ts <= kMaxVer -> get_key (rg_store g) i ts rs k = RdVal v ->
  (v <> [] /\ exists t w, newest (rg_store g) i ts k t w /\ w_op w = OpPut /\ asked_put es (w_start w) k v) \/
  (v = [] /\ ((exists t w, newest (rg_store g) i ts k t w /\ asked_delete es (w_start w) k) \/
              nothing_visible (rg_store g) i ts k)).
Proof. exact read_asked. Qed.
Print Assumptions C43_value_was_written.

(** The same for every commit record, read or not. *)
Theorem C43_record_was_written : forall c P es g k t w,
  plan_ok P -> run c P init_region es g -> write_at (rg_store g) k t = Some w ->
  (w_op w = OpPut /\ exists v, value_of (rg_store g) k w v /\ asked_put es (w_start w) k v) \/
  (w_op w = OpDelete /\ asked_delete es (w_start w) k) \/
  w_op w = OpRollback.
Proof. exact written_by. Qed.
Print Assumptions C43_record_was_written.

Example C43_example : asked_put historyR 10 kC big /\ asked_delete historyR 30 kC /\
  get_key (rg_store gR) SI 20 [] kC = RdVal big /\ get_key (rg_store gR) SI 40 [] kC = RdVal [].
Proof.
  split; [|split; [|vm_compute; auto]].
  - eexists _, _, OpPut. split; [left; reflexivity|]. split; [reflexivity|]. split; [right; right; left; reflexivity|auto].
  - eexists _, _, []. split; [right; right; right; right; left; reflexivity|]. split; [reflexivity|left; reflexivity].
Qed.
