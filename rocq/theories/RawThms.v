(** C66, C67, C68: the raw key-value API of a region. *)
From Coq Require Import ZArith List Bool.
From Verif Require Import Bytes SMap Outcome CodecModel CodecSpec MvccModel RawModel RawSpec RawSearch RawDemo
  RawProofs6 RawProofs7.
Import ListNotations.
Open Scope Z_scope.

(** C66: whatever requests arrive, however reads, writes, replication, snapshots, crashes of
    leaders and the clock interleave: in a calm run nothing aborts and the history has a
    sequential explanation *)
Theorem C66_linearizable range n now ls :
  bytes_ok (fst range) -> bytes_ok (snd range) -> calm_run (init range n now) ls ->
  run (init range n now) ls <> Died /\
  forall s, run (init range n now) ls = Next s -> linearizable range now (r_hist s).
Proof. exact (raw_linearizable range n now ls). Qed.
Print Assumptions C66_linearizable.

(** a calm run with competing writers, a change of leader, an expiry and a range delete *)
Example C66_linearizable_nonvacuous :
  bytes_ok (fst d_rg) /\ bytes_ok (snd d_rg) /\ calm_run (init d_rg 1 100) d_calm /\
  hist_of (run (init d_rg 1 100) d_calm) = Some
    [EInv 1 (RPutIfAbsent [([5], [7])] 0 true) 100; EInv 2 (RPut [([6], [3])] 20) 100;
     ERes 1 (PStates [true]); ERes 2 PDone;
     EInv 3 (RPutIfAbsent [([5], [8])] 0 true) 100; ERes 3 (PStates [false]);
     EInv 4 (RGet [[6]]) 100; ERes 4 (PVals [([6], [3])]); ETime 121;
     EInv 5 (RGet [[6]]) 121; ERes 5 (PVals []);
     EInv 6 (RCas [([5], [9])] [[7]] 0 true) 121; ERes 6 (PStates [true]);
     EInv 7 (RDeleteRange ([1], [9])) 121; ERes 7 PDone;
     EInv 8 (RGet [[5]; [6]]) 121; ERes 8 (PVals [])].
Proof.
  split; [apply bokb_ok; reflexivity|]. split; [apply bokb_ok; reflexivity|].
  split; [apply calm_runb_ok; vm_compute; reflexivity|vm_compute; reflexivity].
Qed.

(** the specification refuses histories: a read that misses an acknowledged put *)
Example C66_linearizable_discriminates :
  ~ linearizable d_rg 100 [EInv 1 (RPut [([5], [7])] 0) 100; ERes 1 PDone; EInv 2 (RGet [[5]]) 100; ERes 2 (PVals [])].
Proof. apply (not_linearizable 20). vm_compute. reflexivity. Qed.

(** a put that was acknowledged is what a later read of that key returns until it expires, if no
    other request touches the key *)
Theorem C66_read_after_put range n now ls s h1 h2 h3 h4 h5 id1 id2 k v ttl t0 t r :
  bytes_ok (fst range) -> bytes_ok (snd range) -> calm_run (init range n now) ls ->
  run (init range n now) ls = Next s ->
  r_hist s = h1 ++ EInv id1 (RPut [(k, v)] ttl) t0 :: h2 ++ ERes id1 PDone :: h3 ++
             EInv id2 (RGet [k]) t :: h4 ++ ERes id2 r :: h5 ->
  (forall id q t', In (EInv id q t') (r_hist s) -> id <> id1 -> ~ touches k q) ->
  0 <= ttl -> (ttl = 0 \/ forall t', In (ETime t') (h2 ++ h3 ++ h4) -> t' <= t0 + ttl) ->
  definite r -> r = PVals [(k, v)].
Proof. exact (run_read_put range n now ls s h1 h2 h3 h4 h5 id1 id2 k v ttl t0 t r). Qed.
Print Assumptions C66_read_after_put.

(** a value is not returned to a read that arrives after its time-to-live *)
Theorem C66_gone_after_ttl range n now ls s h1 h2 h3 id k t r :
  bytes_ok (fst range) -> bytes_ok (snd range) -> calm_run (init range n now) ls ->
  run (init range n now) ls = Next s ->
  r_hist s = h1 ++ EInv id (RGet [k]) t :: h2 ++ ERes id r :: h3 ->
  (forall i q t', In (EInv i q t') (r_hist s) -> gone_by k t t' q) ->
  definite r -> r = PVals [].
Proof. exact (run_gone range n now ls s h1 h2 h3 id k t r). Qed.
Print Assumptions C66_gone_after_ttl.

Example C66_ttl_nonvacuous :
  calm_run (init d_rg 1 100) d_ttl /\
  hist_of (run (init d_rg 1 100) d_ttl) = Some
    ([] ++ EInv 2 (RPut [(d_k, [3])] 20) 100 :: [] ++ ERes 2 PDone :: [ETime 119] ++
     EInv 4 (RGet [d_k]) 119 :: [] ++ ERes 4 (PVals [(d_k, [3])]) ::
     [ETime 121; EInv 5 (RGet [d_k]) 121; ERes 5 (PVals [])]) /\
  gone_by d_k 121 100 (RPut [(d_k, [3])] 20) /\ 119 <= 100 + 20.
Proof.
  split; [apply calm_runb_ok; vm_compute; reflexivity|]. split; [vm_compute; reflexivity|].
  split; [cbn; intros _; split; [discriminate|reflexivity]|discriminate].
Qed.

(** C68: of the put-if-absent requests for a key that nothing deletes or lets expire, at most one
    is told that it stored its value *)
Theorem C68_one_winner range n now ls s k id1 id2 v1 v2 a1 a2 t1 t2 :
  bytes_ok (fst range) -> bytes_ok (snd range) -> calm_run (init range n now) ls ->
  run (init range n now) ls = Next s ->
  (forall id q t, In (EInv id q t) (r_hist s) -> ~ may_end k q) ->
  In (EInv id1 (RPutIfAbsent [(k, v1)] 0 a1) t1) (r_hist s) ->
  In (EInv id2 (RPutIfAbsent [(k, v2)] 0 a2) t2) (r_hist s) ->
  In (ERes id1 (PStates [true])) (r_hist s) -> In (ERes id2 (PStates [true])) (r_hist s) -> id1 = id2.
Proof. exact (run_one_winner range n now ls s k id1 id2 v1 v2 a1 a2 t1 t2). Qed.
Print Assumptions C68_one_winner.

(** without calm there can be two winners *)
Theorem C68_one_winner_refuted : exists s,
  run (init d_rg 1 100) d_regain = Next s /\
  r_hist s = [EInv 1 (RPutIfAbsent [(d_k, [7])] 0 true) 100; EInv 2 (RPutIfAbsent [(d_k, [8])] 0 true) 100;
              ERes 2 (PStates [true]); ERes 1 (PStates [true])].
Proof. eexists. vm_compute. split; reflexivity. Qed.
Print Assumptions C68_one_winner_refuted.

(** C67: the same without the requirement that the run is calm is false. One run for each
    requirement. *)
(** range deletes take no latches *)
Theorem C67_range_delete_refuted : unexplained d_range.
Proof. apply unexplained_by. vm_compute. reflexivity. Qed.
Print Assumptions C67_range_delete_refuted.
(** the condition is checked before the deadline, the write happens after it *)
Theorem C67_expiry_refuted : unexplained d_expire.
Proof. apply unexplained_by. vm_compute. reflexivity. Qed.
Print Assumptions C67_expiry_refuted.
(** writes do not check the leadership before they read *)
Theorem C67_follower_refuted : unexplained d_follower.
Proof. apply unexplained_by. vm_compute. reflexivity. Qed.
Print Assumptions C67_follower_refuted.
Theorem C67_new_leader_refuted : unexplained d_behind.
Proof. apply unexplained_by. vm_compute. reflexivity. Qed.
Print Assumptions C67_new_leader_refuted.
(** proposals are not bound to the term in which the condition was checked *)
Theorem C67_regained_leadership_refuted : unexplained d_regain.
Proof. apply unexplained_by. vm_compute. reflexivity. Qed.
Print Assumptions C67_regained_leadership_refuted.
(** timestamps of a new leader before on_leader_start are below those it has applied *)
Theorem C67_early_put_refuted : unexplained d_early.
Proof. apply unexplained_by. vm_compute. reflexivity. Qed.
Print Assumptions C67_early_put_refuted.
(** reads trust a leadership that may have ended *)
Theorem C67_stale_read_refuted : unexplained d_stale.
Proof. apply unexplained_by. vm_compute. reflexivity. Qed.
Print Assumptions C67_stale_read_refuted.
(** a snapshot does not carry the largest applied timestamp *)
Theorem C67_snapshot_refuted : unexplained d_snapshot.
Proof. apply unexplained_by. vm_compute. reflexivity. Qed.
Print Assumptions C67_snapshot_refuted.
(** an empty value with a time-to-live is accepted, and reading it aborts the server *)
Theorem C67_empty_value_refuted : run (init d_rg 1 100) d_empty = Died.
Proof. vm_compute. reflexivity. Qed.
Print Assumptions C67_empty_value_refuted.
(** even in calm runs a batch read is not one instant: it can return one of two pairs that were
    written by one request, and that nothing else touches *)
Theorem C67_batch_read_refuted :
  calm_run (init d_rg 1 100) d_torn /\
  hist_of (run (init d_rg 1 100) d_torn) = Some
    [EInv 1 (RPut [(d_k, [7]); (d_k2, [7])] 0) 100; EInv 2 (RGet [d_k; d_k2]) 100;
     ERes 1 PDone; ERes 2 (PVals [(d_k2, [7])])].
Proof. split; [apply calm_runb_ok; vm_compute; reflexivity|vm_compute; reflexivity]. Qed.
Print Assumptions C67_batch_read_refuted.
