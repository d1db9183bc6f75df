(** Garbage collection of transactional data: C19, and C47 for that data. *)
From Coq Require Import ZArith List Bool Lia.
From Verif Require Import Bytes SMap Outcome TxnModel TxnSpec TxnBase TxnRun TxnProofs TxnReadModel TxnReadSpec
  TxnDemo TxnThms TxnReadThms GcTxnSpec GcTxnProofs.
Import ListNotations.
Open Scope Z_scope.

(** *** Examples: the collection at safe point 36 takes its snapshot of [gR] (A committed at 15 and
    25, C written at 15 and deleted at 35, see TxnReadThms); its deletes reach [gG], where A has been
    committed again at 51 and D at 41.  Every delete is its own batch. *)
Definition gG : region := after gR betweenR.
Definition small_cfg : cfg := mkCfg 256 4096 4096 4096 4096 4096 40960 1.
Example reach_G : reachable default_cfg PR gG.
Proof. apply (reachable_run _ _ gR betweenR); [apply reach_R|apply checks_run; vm_compute; reflexivity]. Qed.
Example later_G : later 36 (rg_store gR) (rg_store gG).
Proof.
  apply laterb_ok; [| |vm_compute; reflexivity].
  - apply (reachable_inv _ _ _ plan_R reach_R).
  - apply (reachable_inv _ _ _ plan_R reach_G).
Qed.
Example C19_example :
  plan_ok PR /\ reachable default_cfg PR gR /\ reachable default_cfg PR gG /\
  later 36 (rg_store gR) (rg_store gG) /\
  gc_safe_read 36 (rg_store gR) (rg_store gG) kA 40 /\ gc_safe_read 36 (rg_store gR) (rg_store gG) kA 60 /\
  length (gc_txn small_cfg (rg_store gR) 36) = 3%nat /\
  (let s := apply_batches (rg_store gG) (gc_txn small_cfg (rg_store gR) 36) in
   get_key s SI 40 [] kA = RdVal [3] /\ get_key s SI 60 [] kA = RdVal [8] /\ get_key s SI 40 [] kC = RdVal [] /\
   write_at s kA 15 = None /\ write_at s kC 15 = None /\ write_at s kC 35 = None /\
   data_at s kC 10 = None /\ data_at (rg_store gG) kC 10 = Some big).
Proof.
  split; [apply plan_R|split; [apply reach_R|split; [apply reach_G|split; [apply later_G|]]]].
  assert (A : forall t w, write_at (rg_store gR) kA t = Some w -> t <= 36).
  { apply none_aboveb_ok; [apply (reachable_inv _ _ _ plan_R reach_R)|vm_compute; reflexivity]. }
  split; [split; [lia|right; intros t w W _; eauto]|]. split; [split; [lia|right; intros t w W _; eauto]|].
  vm_compute. repeat split; reflexivity.
Qed.
Print Assumptions C19_example.

(** Whichever batches take effect, locks are untouched, commits above the safe point are untouched,
    nothing is invented, and the large value of a record that is still there is still there. *)
Theorem C19_untouched : forall c c' P g g' sp, plan_ok P -> reachable c P g -> reachable c P g' ->
  later sp (rg_store g) (rg_store g') ->
  forall part k t w, incl part (gc_txn c' (rg_store g) sp) ->
  let s := rg_store g' in let s1 := apply_batches s part in
  lock_at s1 k = lock_at s k /\
  (sp < t -> (write_at s1 k t = Some w <-> write_at s k t = Some w)) /\
  (write_at s1 k t = Some w -> write_at s k t = Some w) /\
  (write_at s1 k t = Some w -> w_op w = OpPut -> w_short w = [] ->
     data_at s1 k (w_start w) = data_at s k (w_start w)).
Proof. exact untouched. Qed.
Print Assumptions C19_untouched.

(** A completed collection leaves a read at or above the safe point unchanged, for a key that was
    committed between the safe point and the read, or not committed after the safe point.
    Missing for the full claim: the remaining keys, see C19_reads_refuted. *)
Theorem C19_reads_partial : forall c c' P g g' sp, plan_ok P -> reachable c P g -> reachable c P g' ->
  later sp (rg_store g) (rg_store g') ->
  forall i ts rs k, ts <= kMaxVer -> gc_safe_read sp (rg_store g) (rg_store g') k (sees_up_to i ts) ->
  get_key (apply_batches (rg_store g') (gc_txn c' (rg_store g) sp)) i ts rs k =
  get_key (rg_store g') i ts rs k.
Proof. exact get_gc. Qed.
Print Assumptions C19_reads_partial.

(** If only some of the batches take effect (stop, crash, failed proposal), every value that could
    be read before can still be read, under the same condition.  Missing for the full claim: a
    deleted key may reappear, see C19_interrupted_refuted. *)
Theorem C19_interrupted_partial : forall c c' P g g' sp, plan_ok P -> reachable c P g -> reachable c P g' ->
  later sp (rg_store g) (rg_store g') ->
  forall part i ts rs k v, incl part (gc_txn c' (rg_store g) sp) -> ts <= kMaxVer ->
  gc_safe_read sp (rg_store g) (rg_store g') k (sees_up_to i ts) -> v <> [] ->
  get_key (rg_store g') i ts rs k = RdVal v ->
  get_key (apply_batches (rg_store g') part) i ts rs k = RdVal v.
Proof. exact get_part. Qed.
Print Assumptions C19_interrupted_partial.

(** C47: of the records at or below the safe point exactly the puts that are the newest commit of
    their key stay. *)
Theorem C47_txn_contents : forall c c' P g g' sp, plan_ok P -> reachable c P g -> reachable c P g' ->
  forall k t w, t <= sp -> write_at (rg_store g) k t = Some w -> write_at (rg_store g') k t = Some w ->
  (write_at (apply_batches (rg_store g') (gc_txn c' (rg_store g) sp)) k t = Some w <->
   w_op w = OpPut /\
   forall t' w', write_at (rg_store g) k t' = Some w' -> w_op w' <> OpRollback -> t' <= t).
Proof. exact txn_contents. Qed.
Print Assumptions C47_txn_contents.

(** C47: the large value of a removed record is removed with it. *)
Theorem C47_txn_values : forall c c' P g g' sp, plan_ok P -> reachable c P g -> reachable c P g' ->
  later sp (rg_store g) (rg_store g') ->
  forall k t w, write_at (rg_store g) k t = Some w -> w_op w = OpPut -> w_short w = [] ->
  let s1 := apply_batches (rg_store g') (gc_txn c' (rg_store g) sp) in
  write_at s1 k t = None -> data_at s1 k (w_start w) = None.
Proof. exact values_reclaimed. Qed.
Print Assumptions C47_txn_values.

(** C47: after a completed collection every read, at any timestamp, answers as before or "not
    found"; an older value never comes back. *)
Theorem C47_txn_never_stale : forall c c' P g g' sp, plan_ok P -> reachable c P g -> reachable c P g' ->
  later sp (rg_store g) (rg_store g') ->
  forall i ts rs k, ts <= kMaxVer ->
  get_key (apply_batches (rg_store g') (gc_txn c' (rg_store g) sp)) i ts rs k = get_key (rg_store g') i ts rs k \/
  get_key (apply_batches (rg_store g') (gc_txn c' (rg_store g) sp)) i ts rs k = RdVal [].
Proof. exact get_stale_free. Qed.
Print Assumptions C47_txn_never_stale.

(** The unrestricted claim is false: A is committed at 25 and 51; a collection at 30 removes the
    commit at 25, and a read at 40 no longer finds it. *)
Theorem C19_reads_refuted : exists c P g sp ts k v, plan_ok P /\ reachable c P g /\ 0 < sp <= ts /\
  get_key (rg_store g) SI ts [] k = RdVal v /\ v <> [] /\
  get_key (apply_batches (rg_store g) (gc_txn c (rg_store g) sp)) SI ts [] k = RdVal [].
Proof.
  exists default_cfg, PR, gG, 30, 40, kA, [3]. split; [apply plan_R|split; [apply reach_G|]].
  split; [lia|]. split; [vm_compute; reflexivity|split; [discriminate|vm_compute; reflexivity]].
Qed.
Print Assumptions C19_reads_refuted.

(** Stopped between two batches the collection brings back a deleted key: the delete of C at 35 is
    gone, the write at 15 is not. *)
Theorem C19_interrupted_refuted : exists c c' P g sp part ts k v, plan_ok P /\ reachable c P g /\ 0 < sp <= ts /\
  (exists rest, gc_txn c' (rg_store g) sp = part ++ rest) /\
  gc_safe_read sp (rg_store g) (rg_store g) k ts /\
  get_key (rg_store g) SI ts [] k = RdVal [] /\ v <> [] /\
  get_key (apply_batches (rg_store g) part) SI ts [] k = RdVal v.
Proof.
  exists default_cfg, small_cfg, PR, gR, 36, (firstn 2 (gc_txn small_cfg (rg_store gR) 36)), 40, kC, big.
  split; [apply plan_R|split; [apply reach_R|]]. split; [lia|].
  split; [exists (skipn 2 (gc_txn small_cfg (rg_store gR) 36)); symmetry; apply firstn_skipn|].
  split; [split; [lia|right]|split; [vm_compute; reflexivity|split; [discriminate|vm_compute; reflexivity]]].
  intros t w W _. revert t w W.
  apply none_aboveb_ok; [apply (reachable_inv _ _ _ plan_R reach_R)|vm_compute; reflexivity].
Qed.
Print Assumptions C19_interrupted_refuted.
