(** Property theorems C08-C13, C16, C17, C21 (resolve) and C40-C42 (see properties.jsonl). *)
From Coq Require Import ZArith List Lia Bool.
From Verif Require Import Bytes SMap Outcome TxnModel TxnSpec TxnBase TxnInv TxnRun TxnProofs TxnProofs2 TxnProofs3 TxnProofs4 TxnProofs5 TxnProofs6 TxnProofs7 TxnDemo.
Import ListNotations.
Open Scope Z_scope.

(** The history used by the examples: transactions 10 and 20 commit A (10 also B), 30 is rolled
    back on A, 40 is pessimistic, 60 is a one-phase commit; reads, a restart and a garbage
    collection in between. *)
Definition starts0 : list Z := [10; 20; 30; 40; 60; 70].
Definition commits0 : list (Z * Z) := [(15, 10); (25, 20); (50, 40); (61, 60); (75, 70)].
Definition futs0 : list (Z * Z) := [(40, 45)].
Definition P0 : plan := plan_of starts0 commits0 futs0.
Definition first_part : list event :=
  [ full (prewrite_of 10 kA [put kA 1; put kB 2]); full (RCommit 10 15 [kA; kB]); ERead 18 ].
Definition second_part : list event :=
  [ full (prewrite_of 20 kA [put kA 3]); full (RHeartBeat kA 20 2000); full (RCommit 20 25 [kA]);
    full (RBatchRollback 30 [kA]); ERestart;
    full (pess_lock_of 40 45 kA kA); full (pess_prewrite_of false 40 kA [put kA 4]);
    full (RCommit 40 50 [kA]); EGc 5; EApply 0; full (one_phase_of 60 kA [put kA 6]) ].
Definition gA : region := after init_region first_part.
Definition gB : region := after gA second_part.
Example plan0 : plan_ok P0.
Proof. apply plan_okb_ok. vm_compute. reflexivity. Qed.
Example reach_gA : reachable default_cfg P0 gA.
Proof. apply checks_reachable. vm_compute. reflexivity. Qed.
Example run_gA_gB : run default_cfg P0 gA second_part gB.
Proof. apply checks_run. vm_compute. reflexivity. Qed.

(** ** C08 *)
(** Of two transactions that ever committed the same key, one committed before the other took its
    lock ([lock_point]: the start timestamp of an optimistic transaction, the largest
    for_update_ts of a pessimistic one).  The first commit is seen in [g1], the second any time
    later, so also when garbage collection has removed the first. *)
Theorem C08_no_lost_update_partial : forall c P g1 es g2 k s1 c1 s2 c2,
  plan_ok P -> reachable c P g1 -> run c P g1 es g2 ->
  committed (rg_store g1) k s1 c1 -> committed (rg_store g2) k s2 c2 -> s1 <> s2 ->
  c1 < lock_point P s2 \/ c2 < lock_point P s1.
Proof. exact no_lost_update. Qed.
Print Assumptions C08_no_lost_update_partial.

Theorem C08_optimistic_partial : forall c P g1 es g2 k s1 c1 s2 c2,
  plan_ok P -> reachable c P g1 -> run c P g1 es g2 ->
  lock_point P s1 = s1 -> lock_point P s2 = s2 ->
  committed (rg_store g1) k s1 c1 -> committed (rg_store g2) k s2 c2 -> s1 <> s2 -> c1 < s2 \/ c2 < s1.
Proof.
  exact (fun c P g1 es g2 k s1 c1 s2 c2 HP RE RN L1 L2 C1 C2 N =>
    eq_ind _ (fun x => c1 < x \/ c2 < s1)
      (eq_ind _ (fun y => c1 < lock_point P s2 \/ c2 < y) (no_lost_update c P g1 es g2 k s1 c1 s2 c2 HP RE RN C1 C2 N) _ L1) _ L2).
Qed.
Print Assumptions C08_optimistic_partial.

Example C08_example : committed (rg_store gA) kA 10 15 /\ committed (rg_store gB) kA 20 25 /\ committed (rg_store gB) kA 40 50 /\
  committed (rg_store gB) kA 60 61 /\ lock_point P0 40 = 45.
Proof. repeat split; apply committedb_ok; vm_compute; reflexivity. Qed.

(** Finding: a prewrite with the pessimistic check proceeds when the pessimistic lock is gone
    (an expired one, given up by another client).  Transaction 10 overwrites what transaction 20
    committed after 10 locked the key. *)
Theorem C08_pessimistic_lock_missing_refuted :
  exists es, checks [10; 20] [(30, 10); (25, 20)] [(10, 10)] init_region (firstn 4 es) = true /\
    exists g, steps default_cfg init_region es = Ok g /\
    committed (rg_store g) kA 20 25 /\ committed (rg_store g) kA 10 30.
Proof.
  exists [ full (pess_lock_of 10 10 kB kA); full (RPessRollback 10 10 [kA]);
           full (prewrite_of 20 kA [put kA 3]); full (RCommit 20 25 [kA]);
           full (pess_prewrite_of false 10 kB [put kA 1]); full (RCommit 10 30 [kA]) ].
  split; [vm_compute; reflexivity|].
  exists (after init_region [ full (pess_lock_of 10 10 kB kA); full (RPessRollback 10 10 [kA]);
           full (prewrite_of 20 kA [put kA 3]); full (RCommit 20 25 [kA]);
           full (pess_prewrite_of false 10 kB [put kA 1]); full (RCommit 10 30 [kA]) ]).
  split; [vm_compute; reflexivity|]. split; apply committedb_ok; vm_compute; reflexivity.
Qed.
Print Assumptions C08_pessimistic_lock_missing_refuted.

(** ** C09 *)
Theorem C09_committed_once : forall c P g1 es g2 k st c1 c2,
  plan_ok P -> reachable c P g1 -> run c P g1 es g2 ->
  committed (rg_store g1) k st c1 -> committed (rg_store g2) k st c2 -> c1 = c2.
Proof. exact commit_once. Qed.
Print Assumptions C09_committed_once.

(** Never both: after a rollback there is never a commit; after a commit there is no rollback
    while the commit record is not yet garbage. *)
Theorem C09_never_both : forall c P g1 es g2 k st ct,
  plan_ok P -> reachable c P g1 -> run c P g1 es g2 ->
  (rolled_back (rg_store g1) k st -> ~ committed (rg_store g2) k st ct) /\
  (committed (rg_store g1) k st ct -> rg_safe g2 < ct ->
     committed (rg_store g2) k st ct /\ ~ rolled_back (rg_store g2) k st).
Proof.
  exact (fun c P g1 es g2 k st ct HP RE RN =>
    conj (rollback_final c P g1 es g2 k st ct HP RE RN) (commit_stays c P g1 es g2 k st ct HP RE RN)).
Qed.
Print Assumptions C09_never_both.

Example C09_example : committed (rg_store gA) kB 10 15 /\ committed (rg_store gB) kB 10 15 /\
  rolled_back (rg_store gB) kA 30 /\ rg_safe gB < 15.
Proof. split; [|split; [|split]]; try (apply committedb_ok); try apply rolled_backb_ok; vm_compute; reflexivity. Qed.

(** Finding: the commit timestamp of a one-phase commit is computed by the store and may equal
    the start timestamp of another transaction.  Rolling that transaction back on the same key
    overwrites the commit record: the acknowledged write is gone. *)
Theorem C09_timestamp_collision_refuted :
  exists g a bs g',
    steps default_cfg init_region [full (one_phase_of 10 kA [put kA 1])] = Ok g /\
    committed (rg_store g) kA 10 11 /\
    serve default_cfg g (RBatchRollback 11 [kA]) = Ok (a, bs) /\ succeeded a /\
    steps default_cfg g [full (RBatchRollback 11 [kA])] = Ok g' /\
    forall ct, ~ committed (rg_store g') kA 10 ct.
Proof.
  exists (after init_region [full (one_phase_of 10 kA [put kA 1])]), resp0, [[PutWrite kA 11 (mkW 11 OpRollback [])]],
    (after init_region [full (one_phase_of 10 kA [put kA 1]); full (RBatchRollback 11 [kA])]).
  split; [vm_compute; reflexivity|]. split; [apply committedb_ok; vm_compute; reflexivity|].
  split; [vm_compute; reflexivity|]. split; [repeat split|]. split; [vm_compute; reflexivity|].
  intros ct (w & W1 & W2 & W3). apply get_In in W1; [|apply vcmp_ok]. vm_compute in W1. destruct W1 as [W1|[]].
  inversion W1; subst. apply W3. reflexivity.
Qed.
Print Assumptions C09_timestamp_collision_refuted.

(** ** C10 *)
(** A prewrite, commit, batch rollback, pessimistic lock, pessimistic rollback, heartbeat or
    resolve (with keys) that is not answered with plain success changes nothing ... *)
Theorem C10_rejected_no_effect_partial : forall c g r a bs,
  keyed r -> serve c g r = Ok (a, bs) -> ~ succeeded a ->
  same_store (rg_store g) (apply_batches (rg_store g) bs).
Proof. exact serve_rejected. Qed.
Print Assumptions C10_rejected_no_effect_partial.

(** ... and an accepted one takes effect as a whole or not at all when the store crashes. *)
Theorem C10_all_or_nothing : forall c g r a bs n,
  keyed r -> serve c g r = Ok (a, bs) ->
  apply_batches (rg_store g) (firstn n bs) = rg_store g \/
  apply_batches (rg_store g) (firstn n bs) = apply_batches (rg_store g) bs.
Proof. exact (fun c g r a bs n K S => all_or_nothing c _ _ r a bs n K S). Qed.
Print Assumptions C10_all_or_nothing.

Example C10_example : exists a, serve default_cfg gA (prewrite_of 12 kA [put [99] 1; put kA 9]) = Ok (a, []) /\ ~ succeeded a.
Proof.
  exists (rres [TConflict OptimisticConflict 12 15 kA]). split; [vm_compute; reflexivity|]. intros (_ & Q & _). discriminate.
Qed.

(** Finding: a resolve request without keys that reports a conflict has resolved other
    transactions of the same request. *)
Theorem C10_region_resolve_refuted :
  exists es g a bs,
    checks [10; 20] [(15, 10)] [(20, 20)] init_region es = true /\ steps default_cfg init_region es = Ok g /\
    serve default_cfg g (RResolve 0 0 [] [(10, 15); (20, 0)]) = Ok (a, bs) /\ ~ succeeded a /\
    ~ committed (rg_store g) kA 10 15 /\ committed (apply_batches (rg_store g) bs) kA 10 15.
Proof.
  exists [full (prewrite_of 10 kA [put kA 1]); full (pess_lock_of 20 20 kB kB)].
  exists (after init_region [full (prewrite_of 10 kA [put kA 1]); full (pess_lock_of 20 20 kB kB)]).
  exists (rres [TLocked (mkLock kB 20 20 kB 1000 0 OpLock [] [] 0 false [])]).
  exists [[PutWrite kA 15 (mkW 10 OpPut [1]); DelLock kA]].
  split; [vm_compute; reflexivity|]. split; [vm_compute; reflexivity|]. split; [vm_compute; reflexivity|].
  split; [intros (_ & Q & _); discriminate|].
  split; [intros (w & W & _); vm_compute in W; discriminate|apply committedb_ok; vm_compute; reflexivity].
Qed.
Print Assumptions C10_region_resolve_refuted.

(** ** C11 *)
(** Commit: at any later time, before the commit is garbage, the same answer and no write. *)
Theorem C11_commit_retry : forall c P g1 g1' es g2 st ct keys a bs n,
  plan_ok P -> reachable c P g1 -> serve c g1 (RCommit st ct keys) = Ok (a, bs) -> succeeded a -> (length bs <= n)%nat ->
  allowed c P g1 (EReq (RCommit st ct keys) n) -> step c g1 (EReq (RCommit st ct keys) n) = Ok g1' ->
  run c P g1' es g2 -> rg_safe g2 < ct ->
  serve c g2 (RCommit st ct keys) = Ok (resp0, []).
Proof. exact commit_retry. Qed.
Print Assumptions C11_commit_retry.

(** Batch rollback: at any later time no write; right away also the same answer. *)
Theorem C11_rollback_retry : forall c P g1 g1' es g2 st keys a bs n a2 bs2,
  plan_ok P -> reachable c P g1 -> serve c g1 (RBatchRollback st keys) = Ok (a, bs) -> succeeded a -> (length bs <= n)%nat ->
  allowed c P g1 (EReq (RBatchRollback st keys) n) -> step c g1 (EReq (RBatchRollback st keys) n) = Ok g1' ->
  run c P g1' es g2 -> rg_safe g2 < st ->
  serve c g2 (RBatchRollback st keys) = Ok (a2, bs2) -> bs2 = [].
Proof. exact rollback_retry. Qed.
Print Assumptions C11_rollback_retry.

Theorem C11_rollback_twice : forall c s mx mx' st keys a bs, store_ok s ->
  (forall k ct, In k keys -> committed s k st ct -> ct <= kMaxVer) ->
  handle c s mx (RBatchRollback st keys) = Ok (a, bs) -> succeeded a ->
  handle c (apply_batches s bs) mx' (RBatchRollback st keys) = Ok (a, []).
Proof. exact rollback_twice. Qed.
Print Assumptions C11_rollback_twice.

Theorem C11_pess_rollback_twice : forall c s mx mx' st fut keys a bs, store_ok s ->
  handle c s mx (RPessRollback st fut keys) = Ok (a, bs) -> succeeded a ->
  (forall k, In k keys -> lock_at (apply_batches s bs) k = None) /\
  handle c (apply_batches s bs) mx' (RPessRollback st fut keys) = Ok (a, []).
Proof. exact pess_rollback_twice. Qed.
Print Assumptions C11_pess_rollback_twice.

Theorem C11_heartbeat_twice : forall c s mx mx' k st adv a bs, store_ok s ->
  handle c s mx (RHeartBeat k st adv) = Ok (a, bs) -> succeeded a ->
  handle c (apply_batches s bs) mx' (RHeartBeat k st adv) = Ok (a, []).
Proof. exact heartbeat_twice. Qed.
Print Assumptions C11_heartbeat_twice.

Theorem C11_resolve_twice : forall c s mx mx' st ct keys txns a bs, store_ok s -> keys <> [] ->
  handle c s mx (RResolve st ct keys txns) = Ok (a, bs) -> succeeded a ->
  (forall k, In k keys -> ~ holds (apply_batches s bs) k st) /\
  handle c (apply_batches s bs) mx' (RResolve st ct keys txns) = Ok (a, []).
Proof. exact resolve_twice. Qed.
Print Assumptions C11_resolve_twice.

(** Prewrite without the pessimistic check: sent again at any later time it writes nothing, as
    long as the transaction does not send pessimistic lock requests and is not yet garbage. *)
Theorem C11_prewrite_retry_partial : forall c P g1 g1' es g2 p a bs n a2 bs2,
  plan_ok P -> reachable c P g1 -> (forall i, ~ pess_checked p i) ->
  serve c g1 (RPrewrite p) = Ok (a, bs) -> succeeded a -> (length bs <= n)%nat ->
  allowed c P g1 (EReq (RPrewrite p) n) -> step c g1 (EReq (RPrewrite p) n) = Ok g1' ->
  run c P g1' es g2 -> (forall q n, In (EReq (RPessLock q) n) es -> pl_start q <> pw_start p) ->
  rg_safe g2 < pw_start p ->
  serve c g2 (RPrewrite p) = Ok (a2, bs2) -> bs2 = [].
Proof. exact prewrite_retry. Qed.
Print Assumptions C11_prewrite_retry_partial.

(** Two-phase prewrite, with or without pessimistic check, sent again right away: success again. *)
Theorem C11_two_phase_twice : forall c s mx p a bs, store_ok s ->
  handle c s mx (RPrewrite p) = Ok (a, bs) -> succeeded a -> r_1pc a = 0 ->
  exists a2, handle c (apply_batches s bs) mx (RPrewrite p) = Ok (a2, []) /\ succeeded a2.
Proof. exact two_phase_twice. Qed.
Print Assumptions C11_two_phase_twice.

(** One-phase prewrite without pessimistic check, sent again right away: the same commit. *)
Theorem C11_one_phase_twice : forall c s mx p a bs, store_ok s -> (forall i, ~ pess_checked p i) ->
  (forall k ct, committed s k (pw_start p) ct -> ct <= kMaxVer) ->
  handle c s mx (RPrewrite p) = Ok (a, bs) -> succeeded a -> 0 < r_1pc a <= kMaxVer ->
  exists a2, handle c (apply_batches s bs) mx (RPrewrite p) = Ok (a2, []) /\ succeeded a2 /\ r_1pc a2 = r_1pc a.
Proof. exact one_phase_twice. Qed.
Print Assumptions C11_one_phase_twice.

Example C11_example : exists a bs, serve default_cfg gA (one_phase_of 60 kA [put kA 6; put kB 7]) = Ok (a, bs) /\
  succeeded a /\ r_1pc a = 61 /\ bs <> [].
Proof.
  exists (mkResp None [] [] 0 61 0 0 ANone [] []), [[PutWrite kA 61 (mkW 60 OpPut [6]); PutWrite kB 61 (mkW 60 OpPut [7])]].
  split; [vm_compute; reflexivity|]. repeat split. discriminate.
Qed.

(** Finding: an acknowledged one-phase prewrite with the pessimistic check, sent again after a
    read, commits the transaction a second time at another timestamp. *)
Theorem C11_pessimistic_one_phase_refuted :
  exists es g a bs a2 bs2,
    checks [10] [(11, 10)] [] init_region es = true /\ steps default_cfg init_region es = Ok g /\
    let r := pess_prewrite_of true 10 kA [put kA 1] in
    let g1 := after g [full r; ERead 20] in
    serve default_cfg g r = Ok (a, bs) /\ succeeded a /\ committed (rg_store g1) kA 10 11 /\
    serve default_cfg g1 r = Ok (a2, bs2) /\ succeeded a2 /\
    committed (apply_batches (rg_store g1) bs2) kA 10 11 /\ committed (apply_batches (rg_store g1) bs2) kA 10 21.
Proof.
  exists [full (pess_lock_of 10 10 kA kA)], (after init_region [full (pess_lock_of 10 10 kA kA)]).
  exists (mkResp None [] [] 0 11 0 0 ANone [] []), [[PutWrite kA 11 (mkW 10 OpPut [1]); DelLock kA]].
  exists (mkResp None [] [] 0 21 0 0 ANone [] []), [[PutWrite kA 21 (mkW 10 OpPut [1]); DelLock kA]].
  split; [vm_compute; reflexivity|]. split; [vm_compute; reflexivity|]. cbv zeta.
  split; [vm_compute; reflexivity|]. split; [repeat split|]. split; [apply committedb_ok; vm_compute; reflexivity|].
  split; [vm_compute; reflexivity|]. split; [repeat split|].
  split; apply committedb_ok; vm_compute; reflexivity.
Qed.
Print Assumptions C11_pessimistic_one_phase_refuted.

(** ** C12 *)
(** An acknowledged batch rollback leaves a rollback record on every key that was not committed. *)
Theorem C12_rollback_recorded_partial : forall c s mx st keys a bs, store_ok s ->
  handle c s mx (RBatchRollback st keys) = Ok (a, bs) -> succeeded a -> forall k, In k keys ->
  rolled_back (apply_batches s bs) k st \/ exists ct, committed s k st ct /\ committed (apply_batches s bs) k st ct.
Proof. exact rollback_effect. Qed.
Print Assumptions C12_rollback_recorded_partial.

(** The record stays until garbage collection passes the start timestamp; the transaction is
    never committed on the key, and prewriting the key again writes nothing (it is only answered
    without complaint when another key of the request is committed already). *)
Theorem C12_rollback_final : forall c P g1 es g2 k st,
  plan_ok P -> reachable c P g1 -> run c P g1 es g2 -> rolled_back (rg_store g1) k st ->
  (forall ct, ~ committed (rg_store g2) k st ct) /\
  (rg_safe g2 < st -> rolled_back (rg_store g2) k st) /\
  (forall p a bs, rg_safe g2 < st -> pw_start p = st -> In k (keys_of (RPrewrite p)) ->
     serve c g2 (RPrewrite p) = Ok (a, bs) ->
     bs = [] /\ (succeeded a -> exists k' ct, In k' (keys_of (RPrewrite p)) /\ committed (rg_store g2) k' st ct)).
Proof.
  exact (fun c P g1 es g2 k st HP RE RN R =>
    conj (fun ct => rollback_final c P g1 es g2 k st ct HP RE RN R)
      (conj (rollback_stays c P g1 es g2 k st HP RE RN R)
        (fun p a bs SF E IN S =>
          match E in _ = x return rolled_back (rg_store g2) k x -> (bs = [] /\ (succeeded a -> exists k' ct, In k' (keys_of (RPrewrite p)) /\ committed (rg_store g2) k' x ct)) with
          | eq_refl => fun R2 => prewrite_blocked c _ _ p a bs k (gi_ok _ _ _ _ (reachable_inv c P g2 HP (reachable_run c P g1 es g2 RE RN))) S IN (or_introl R2)
          end (rollback_stays c P g1 es g2 k st HP RE RN R SF)))).
Qed.
Print Assumptions C12_rollback_final.

Example C12_example : rolled_back (rg_store gB) kA 30 /\ rg_safe gB < 30 /\
  exists a, serve default_cfg gB (prewrite_of 30 kA [put kA 5]) = Ok (a, []) /\ ~ succeeded a.
Proof.
  split; [apply rolled_backb_ok; vm_compute; reflexivity|]. split; [vm_compute; reflexivity|].
  exists (rres [TConflict SelfRolledBack 30 30 kA]). split; [vm_compute; reflexivity|]. intros (_ & Q & _). discriminate.
Qed.

(** Finding: rolling back a committed transaction is acknowledged as a success. *)
Theorem C12_acknowledged_rollback_refuted :
  exists g a bs, reachable default_cfg P0 g /\ serve default_cfg g (RBatchRollback 10 [kA]) = Ok (a, bs) /\ succeeded a /\
    committed (apply_batches (rg_store g) bs) kA 10 15.
Proof.
  exists gA, resp0, []. split; [exact reach_gA|]. split; [vm_compute; reflexivity|]. split; [repeat split|].
  apply committedb_ok; vm_compute; reflexivity.
Qed.
Print Assumptions C12_acknowledged_rollback_refuted.

(** ** C13 *)
(** While a transaction holds the lock of a key, a prewrite of the key by another transaction
    writes nothing and fails (unless that transaction is committed already), a pessimistic lock
    fails, and a commit of the key is only acknowledged when it is committed already. *)
Theorem C13_prewrite_excluded : forall c s mx p a bs k l, store_ok s ->
  handle c s mx (RPrewrite p) = Ok (a, bs) -> In k (keys_of (RPrewrite p)) ->
  lock_at s k = Some l -> l_ts l <> pw_start p ->
  bs = [] /\ (succeeded a -> exists k' ct, In k' (keys_of (RPrewrite p)) /\ committed s k' (pw_start p) ct).
Proof.
  exact (fun c s mx p a bs k l H X IN L N => prewrite_blocked c s mx p a bs k H X IN (or_intror (ex_intro _ l (conj L N)))).
Qed.
Print Assumptions C13_prewrite_excluded.

Theorem C13_pess_lock_excluded : forall c s mx p a bs k l, store_ok s ->
  handle c s mx (RPessLock p) = Ok (a, bs) -> In k (keys_of (RPessLock p)) ->
  lock_at s k = Some l -> l_ts l <> pl_start p -> bs = [] /\ ~ succeeded a.
Proof. exact pess_lock_blocked. Qed.
Print Assumptions C13_pess_lock_excluded.

Theorem C13_commit_excluded : forall c s mx st ct keys a bs k l, store_ok s ->
  handle c s mx (RCommit st ct keys) = Ok (a, bs) -> In k keys ->
  lock_at s k = Some l -> l_ts l <> st -> succeeded a -> committed s k st ct.
Proof. exact commit_blocked. Qed.
Print Assumptions C13_commit_excluded.

(** No request for other transactions changes the lock, however far it gets. *)
Theorem C13_lock_kept_partial : forall c g r n a bs k l, store_ok (rg_store g) -> serve c g r = Ok (a, bs) ->
  lock_at (rg_store g) k = Some l -> ~ In (l_ts l) (txns_of r) ->
  lock_at (apply_batches (rg_store g) (firstn n bs)) k = Some l.
Proof. exact lock_kept. Qed.
Print Assumptions C13_lock_kept_partial.

(** A request for the owner keeps the owner's lock or takes it away in one of the four ways of
    [lock_gone]. *)
Theorem C13_lock_gone : forall c g r a bs k l n, store_ok (rg_store g) -> serve c g r = Ok (a, bs) ->
  lock_at (rg_store g) k = Some l ->
  (exists l', lock_at (apply_batches (rg_store g) (firstn n bs)) k = Some l' /\ l_ts l' = l_ts l) \/
  exists m l', (m <= n)%nat /\ l_ts l' = l_ts l /\ lock_gone r a (apply_batches (rg_store g) (firstn m bs)) k l'.
Proof. exact serve_gone. Qed.
Print Assumptions C13_lock_gone.

Definition gL : region := after gA [full (prewrite_of 20 kA [put kA 3])].
Example C13_example : reachable default_cfg P0 gL /\ holds (rg_store gL) kA 20 /\
  exists a, serve default_cfg gL (prewrite_of 30 kA [put kA 5]) = Ok (a, []) /\ ~ succeeded a.
Proof.
  split; [apply (reachable_run _ _ _ [full (prewrite_of 20 kA [put kA 3])] _ reach_gA); apply checks_run; vm_compute; reflexivity|].
  split; [apply holdsb_ok; vm_compute; reflexivity|].
  exists (rres [TLocked (mkLock kA 20 0 kA 1000 1 OpPut [3] [] 0 false [])]). split; [vm_compute; reflexivity|].
  intros (_ & Q & _). discriminate.
Qed.

(** Every reachable store meets [store_ok], the only condition of the theorems above. *)
Theorem C13_reachable_ok : forall c P g, plan_ok P -> reachable c P g -> store_ok (rg_store g).
Proof. exact (fun c P g HP RE => gi_ok _ _ _ _ (reachable_inv c P g HP RE)). Qed.
Print Assumptions C13_reachable_ok.

(** Finding: a resolve request without keys takes no latches, so its writes may be applied after
    later requests.  Here it rolls back transaction 10 after 10 has committed, and removes the
    lock of transaction 20, which nobody decided. *)
Theorem C13_unlatched_resolve_refuted :
  exists es g,
    steps default_cfg init_region es = Ok g /\ prewritten (rg_store g) kA 20 /\ committed (rg_store g) kA 10 15 /\
    exists g', steps default_cfg g [EApply 0] = Ok g' /\ ~ holds (rg_store g') kA 20 /\
      rolled_back (rg_store g') kA 10 /\
      (forall ct, ~ committed (rg_store g') kA 20 ct) /\ ~ rolled_back (rg_store g') kA 20.
Proof.
  set (es := [ full (prewrite_of 10 kA [put kA 1]); EUnlatched 10 0; full (RCommit 10 15 [kA]);
           full (prewrite_of 20 kA [put kA 3]) ]).
  exists es, (after init_region es). split; [vm_compute; reflexivity|]. split; [apply prewrittenb_ok; vm_compute; reflexivity|].
  split; [apply committedb_ok; vm_compute; reflexivity|].
  exists (after (after init_region es) [EApply 0]). split; [vm_compute; reflexivity|].
  split; [intros (l & L & _); vm_compute in L; discriminate|].
  split; [apply rolled_backb_ok; vm_compute; reflexivity|]. split.
  - intros ct (w & W1 & W2 & W3). apply get_In in W1; [|apply vcmp_ok]. vm_compute in W1.
    destruct W1 as [W1|[W1|[]]]; inversion W1; subst; discriminate.
  - intros (w & W1 & W2). vm_compute in W1. discriminate.
Qed.
Print Assumptions C13_unlatched_resolve_refuted.

(** ** C16 *)
Theorem C16_heartbeat : forall c s mx k st adv a bs, store_ok s -> handle c s mx (RHeartBeat k st adv) = Ok (a, bs) ->
  (forall k' t, write_at (apply_batches s bs) k' t = write_at s k' t) /\
  (forall k' t, data_at (apply_batches s bs) k' t = data_at s k' t) /\
  (forall k', k' <> k -> lock_at (apply_batches s bs) k' = lock_at s k') /\
  (forall l', lock_at (apply_batches s bs) k = Some l' ->
     exists l, lock_at s k = Some l /\ same_lock_but_ttl l l' /\ l_ttl l <= l_ttl l' /\
               (l' <> l -> l_ts l = st /\ l_ttl l' = adv)) /\
  (lock_at (apply_batches s bs) k = None -> lock_at s k = None).
Proof. exact heartbeat_only_ttl. Qed.
Print Assumptions C16_heartbeat.

Example C16_example : exists a bs, serve default_cfg gL (RHeartBeat kA 20 2000) = Ok (a, bs) /\ succeeded a /\ bs <> [].
Proof.
  exists (status_resp [] 2000 0 ANone), [[PutLock kA (mkLock kA 20 0 kA 2000 1 OpPut [3] [] 0 false [])]].
  split; [vm_compute; reflexivity|]. split; [repeat split|discriminate].
Qed.

(** ** C17 *)
Theorem C17_no_premature_rollback : forall c s mx k lk cl cu fs rm a bs n l, store_ok s ->
  handle c s mx (RCheckStatus k lk cl cu fs rm) = Ok (a, bs) ->
  lock_at s k = Some l -> l_ts l = lk -> physical_ms cu <= l_ttl l ->
  let s' := apply_batches s (firstn n bs) in
  (forall k' t, write_at s' k' t = write_at s k' t) /\
  (forall k' t, data_at s' k' t = data_at s k' t) /\
  (forall k', k' <> k -> lock_at s' k' = lock_at s k') /\
  exists l', lock_at s' k = Some l' /\ l_ts l' = lk /\ l_type l' = l_type l /\ l_short l' = l_short l /\
             l_ttl l' = l_ttl l /\ l_minc l <= l_minc l'.
Proof. exact no_premature_rollback. Qed.
Print Assumptions C17_no_premature_rollback.

Theorem C17_committed_permanent : forall c P g1 es g2 k lk cl1 cu1 fs1 rm1 a1 bs1 cl2 cu2 fs2 rm2 a2 bs2 ct,
  plan_ok P -> reachable c P g1 -> run c P g1 es g2 ->
  serve c g1 (RCheckStatus k lk cl1 cu1 fs1 rm1) = Ok (a1, bs1) -> says_committed a1 ct ->
  rg_safe g2 < lk ->
  serve c g2 (RCheckStatus k lk cl2 cu2 fs2 rm2) = Ok (a2, bs2) -> r_err a2 = None ->
  says_committed a2 ct /\ bs2 = [].
Proof. exact committed_verdict_permanent. Qed.
Print Assumptions C17_committed_permanent.

(** The rolled-back verdict is permanent unless the transaction has locked the key again (see
    the finding below); even then it can never commit (C12). *)
Theorem C17_rolled_back_permanent_partial : forall c P g1 es g2 k lk cl1 cu1 fs1 rm1 a1 bs1 cl2 cu2 fs2 rm2 a2 bs2 n,
  plan_ok P -> reachable c P g1 -> is_start P lk ->
  serve c g1 (RCheckStatus k lk cl1 cu1 fs1 rm1) = Ok (a1, bs1) -> says_rolled_back a1 -> (length bs1 <= n)%nat ->
  run c P g1 (EReq (RCheckStatus k lk cl1 cu1 fs1 rm1) n :: es) g2 ->
  rg_safe g2 < lk ->
  serve c g2 (RCheckStatus k lk cl2 cu2 fs2 rm2) = Ok (a2, bs2) -> r_err a2 = None -> ~ holds (rg_store g2) k lk ->
  says_rolled_back a2 /\ bs2 = [].
Proof. exact rollback_verdict_permanent. Qed.
Print Assumptions C17_rolled_back_permanent_partial.

Definition late : Z := Z.shiftl 5000 18.
Example C17_example :
  (exists a, serve default_cfg gA (RCheckStatus kA 10 70 late true true) = Ok (a, []) /\ says_committed a 15) /\
  (exists a bs, serve default_cfg gL (RCheckStatus kA 20 70 late true true) = Ok (a, bs) /\ says_rolled_back a /\ bs <> []) /\
  (exists l, lock_at (rg_store gL) kA = Some l /\ l_ts l = 20 /\ physical_ms (Z.shiftl 900 18) <= l_ttl l).
Proof.
  split; [|split].
  - exists (status_resp [] 0 15 ALockNotExistDoNothing). split; [vm_compute; reflexivity|repeat split].
  - exists (status_resp [] 0 0 ATTLExpireRollback), (do_rollback 20 [] [kA] []).
    split; [vm_compute; reflexivity|split; [|discriminate]]. split; [reflexivity|split; [reflexivity|left; reflexivity]].
  - exists (mkLock kA 20 0 kA 1000 1 OpPut [3] [] 0 false []). split; [vm_compute; reflexivity|split; [reflexivity|vm_compute; discriminate]].
Qed.

(** Finding: a pessimistic lock request does not look at rollback records.  After the verdict
    "rolled back", a delayed one locks the key again and the next status check answers with a
    live lock. *)
Theorem C17_reopened_refuted :
  exists es g a bs a2 bs2,
    checks [10] [] [] init_region es = true /\ steps default_cfg init_region es = Ok g /\
    let q := RCheckStatus kA 10 20 late true true in
    serve default_cfg g q = Ok (a, bs) /\ says_rolled_back a /\
    let g2 := after g [full q; full (pess_lock_of 10 10 kA kA)] in
    checks [10] [] [] g [full q; full (pess_lock_of 10 10 kA kA)] = true /\
    serve default_cfg g2 (RCheckStatus kA 10 20 21 true true) = Ok (a2, bs2) /\ ~ says_rolled_back a2 /\
    holds (rg_store g2) kA 10.
Proof.
  exists [full (pess_lock_of 10 10 kA kA)], (after init_region [full (pess_lock_of 10 10 kA kA)]).
  set (l := mkLock kA 10 10 kA 1000 0 OpLock [] [] 0 false []).
  exists (status_resp [TLocked l] 0 0 ATTLExpireRollback), (do_rollback 10 [kA] [] []).
  exists (status_resp [TLocked l] 1000 0 AMinCommitPushed), [[PutLock kA (with_minc l 20)]].
  split; [vm_compute; reflexivity|]. split; [vm_compute; reflexivity|]. cbv zeta.
  split; [vm_compute; reflexivity|]. split; [split; [reflexivity|split; [reflexivity|left; reflexivity]]|].
  split; [vm_compute; reflexivity|]. split; [vm_compute; reflexivity|].
  split; [intros (_ & _ & [Q|Q]); discriminate|]. apply holdsb_ok; vm_compute; reflexivity.
Qed.
Print Assumptions C17_reopened_refuted.

(** ** C21, resolving *)
(** A resolve request without keys that reports success leaves no lock of the listed transactions
    in the region, and each was turned into a commit (or rollback) record of its transaction.
    Beyond scan_lock_limit locks the request handles only the first page. *)
Theorem C21_resolve_region_partial : forall c P g st0 ct0 txns a bs n,
  plan_ok P -> reachable c P g -> allowed c P g (EReq (RResolve st0 ct0 [] txns) n) ->
  serve c g (RResolve st0 ct0 [] txns) = Ok (a, bs) -> succeeded a ->
  Z.of_nat (length (locks (rg_store g))) <= scan_lock_limit c -> NoDup (map fst txns) ->
  let s' := apply_batches (rg_store g) bs in
  forall st ct k, In (st, ct) txns ->
    ~ holds s' k st /\
    (holds (rg_store g) k st -> (0 < ct -> committed s' k st ct) /\ (ct = 0 -> rolled_back s' k st)).
Proof. exact resolve_region. Qed.
Print Assumptions C21_resolve_region_partial.

Theorem C21_resolve_keys : forall c g st ct keys txns a bs, store_ok (rg_store g) -> keys <> [] ->
  serve c g (RResolve st ct keys txns) = Ok (a, bs) -> succeeded a ->
  let s' := apply_batches (rg_store g) bs in
  forall k, In k keys ->
    ~ holds s' k st /\
    (holds (rg_store g) k st -> (0 < ct -> committed s' k st ct) /\ (ct = 0 -> rolled_back s' k st)).
Proof. exact resolve_keys. Qed.
Print Assumptions C21_resolve_keys.

Definition gM : region := after gA [full (prewrite_of 20 kA [put kA 3]); full (prewrite_of 70 kB [put kB 8])].
Example C21_resolve_example : exists a bs, serve default_cfg gM (RResolve 0 0 [] [(20, 0); (70, 75)]) = Ok (a, bs) /\
  succeeded a /\ holds (rg_store gM) kA 20 /\ holds (rg_store gM) kB 70.
Proof.
  exists resp0, [[PutWrite kA 20 (rb_record 20); DelLock kA]; [PutWrite kB 75 (mkW 70 OpPut [8]); DelLock kB]].
  split; [vm_compute; reflexivity|]. split; [repeat split|]. split; apply holdsb_ok; vm_compute; reflexivity.
Qed.

(** Finding: beyond the limit locks stay behind although the request reports success. *)
Theorem C21_first_page_only_refuted :
  exists c g a bs, reachable c P0 g /\ serve c g (RResolve 0 0 [] [(10, 15)]) = Ok (a, bs) /\ succeeded a /\
    holds (apply_batches (rg_store g) bs) kB 10.
Proof.
  set (c := mkCfg 256 4096 4096 4096 4096 4096 1 32768).
  set (e := full (prewrite_of 10 kA [put kA 1; put kB 2])).
  exists c, (match steps c init_region [e] with Ok g => g | _ => init_region end), resp0, [[PutWrite kA 15 (mkW 10 OpPut [1]); DelLock kA]].
  split.
  { exists [e]. unfold P0. apply all_allowedb_run; vm_compute; reflexivity. }
  split; [vm_compute; reflexivity|]. split; [repeat split|]. apply holdsb_ok; vm_compute; reflexivity.
Qed.
Print Assumptions C21_first_page_only_refuted.

(** ** C40 *)
(** No history of requests with non-negative timestamps aborts the store, whatever the clients
    promise: requests, crashes, restarts, garbage collections and late log entries. *)
Theorem C40_no_abort : forall c es,
  (forall r n t, In (EReq r n) es -> In t (encoded_ts r) -> 0 <= t) -> exists g', steps c init_region es = Ok g'.
Proof. exact (fun c es => steps_total c es init_region region_ok_init). Qed.
Print Assumptions C40_no_abort.

Example C40_example : exists g, steps default_cfg init_region (first_part ++ second_part) = Ok g.
Proof. exists gB. vm_compute. reflexivity. Qed.

(** ** C41 *)
(** An acknowledged prewrite holds: right after it every key it writes is locked for the
    transaction, or committed at the reported timestamp ... *)
Theorem C41_prewrite_effect : forall c s mx p a bs, store_ok s -> handle c s mx (RPrewrite p) = Ok (a, bs) -> succeeded a ->
  let s' := apply_batches s bs in
  (exists k ct, In k (keys_of (RPrewrite p)) /\ committed s k (pw_start p) ct) \/
  (forall m, In m (pw_muts p) -> m_op m <> OpCheckNotExists -> prewritten s' (m_key m) (pw_start p)) \/
  (forall m, In m (pw_muts p) -> m_op m <> OpCheckNotExists ->
     committed s' (m_key m) (pw_start p) (r_1pc a) /\ lock_at s' (m_key m) = None).
Proof. exact prewrite_effect. Qed.
Print Assumptions C41_prewrite_effect.

(** ... and the lock stays until the transaction is committed or rolled back on the key, through
    crashes and restarts, if the transaction takes no further pessimistic locks. *)
Theorem C41_locked_until_decided_partial : forall c P g1 es g2 k st, plan_ok P -> reachable c P g1 -> run c P g1 es g2 ->
  (forall p n, In (EReq (RPessLock p) n) es -> pl_start p <> st) -> rg_safe g2 < st ->
  prewritten (rg_store g1) k st ->
  prewritten (rg_store g2) k st \/ (exists ct, committed (rg_store g2) k st ct) \/ rolled_back (rg_store g2) k st.
Proof. exact prewritten_until_decided. Qed.
Print Assumptions C41_locked_until_decided_partial.

Example C41_example : prewritten (rg_store gL) kA 20 /\ rg_safe (after gL [ERestart; full (prewrite_of 70 kB [put kB 8])]) < 20 /\
  run default_cfg P0 gL [ERestart; full (prewrite_of 70 kB [put kB 8])] (after gL [ERestart; full (prewrite_of 70 kB [put kB 8])]).
Proof.
  split; [apply prewrittenb_ok; vm_compute; reflexivity|]. split; [vm_compute; reflexivity|].
  apply checks_run. vm_compute. reflexivity.
Qed.

(** Finding: a delayed pessimistic lock request with a larger for_update_ts turns the
    transaction's own prewritten lock back into a pessimistic one; the transaction can no longer
    be committed although every prewrite was acknowledged. *)
Theorem C41_prewrite_undone_refuted :
  exists es g r, checks [10] [(30, 10)] [(10, 12)] init_region es = true /\ steps default_cfg init_region es = Ok g /\
    prewritten (rg_store g) kA 10 /\ checks [10] [(30, 10)] [(10, 12)] g [full r] = true /\
    let g2 := after g [full r] in
    ~ prewritten (rg_store g2) kA 10 /\ (forall ct, ~ committed (rg_store g2) kA 10 ct) /\ ~ rolled_back (rg_store g2) kA 10 /\
    exists a, serve default_cfg g2 (RCommit 10 30 [kA]) = Ok (a, []) /\ ~ succeeded a.
Proof.
  set (es := [full (pess_lock_of 10 10 kA kA); full (pess_prewrite_of false 10 kA [put kA 1])]).
  exists es, (after init_region es), (pess_lock_of 10 12 kA kA).
  split; [vm_compute; reflexivity|]. split; [vm_compute; reflexivity|]. split; [apply prewrittenb_ok; vm_compute; reflexivity|].
  split; [vm_compute; reflexivity|]. cbv zeta.
  split; [intros (l & L & _ & T); vm_compute in L; inversion L; subst; destruct T; discriminate|].
  split; [intros ct (w & W & _); apply get_In in W; [|apply vcmp_ok]; vm_compute in W; destruct W|].
  split; [intros (w & W & _); vm_compute in W; discriminate|].
  exists (rres [TLocked (mkLock kA 10 12 kA 1000 1 OpLock [1] [] 0 false [])]). split; [vm_compute; reflexivity|].
  intros (_ & Q & _); discriminate.
Qed.
Print Assumptions C41_prewrite_undone_refuted.

(** ** C42 *)
(** An acknowledged commit is there on all its keys, and stays until garbage collection. *)
Theorem C42_commit_durable : forall c P g1 g1' es g2 st ct keys a bs n k,
  plan_ok P -> reachable c P g1 -> serve c g1 (RCommit st ct keys) = Ok (a, bs) -> succeeded a -> (length bs <= n)%nat ->
  allowed c P g1 (EReq (RCommit st ct keys) n) -> step c g1 (EReq (RCommit st ct keys) n) = Ok g1' ->
  run c P g1' es g2 -> rg_safe g2 < ct -> In k keys -> committed (rg_store g2) k st ct.
Proof. exact commit_durable. Qed.
Print Assumptions C42_commit_durable.

Example C42_example : exists bs, serve default_cfg gL (RCommit 20 25 [kA]) = Ok (resp0, bs) /\ succeeded resp0 /\ bs <> [].
Proof. exists [[PutWrite kA 25 (mkW 20 OpPut [3]); DelLock kA]]. split; [vm_compute; reflexivity|split; [repeat split|discriminate]]. Qed.
