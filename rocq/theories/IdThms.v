(** Id allocation by the coordinator: C28 (one allocator), C48 (the group), C49 (version-kv). *)
From Coq Require Import ZArith List Bool Sorted Lia.
From Verif Require Import IdModel IdSpec IdProofs.
Import ListNotations.
Open Scope Z_scope.

(** The allocator of a new coordinator, three allocations with an old update in between. *)
Example C28_example :
  consistent (sm node0) /\
  (let '(_, out, _) := allocs (sm node0) [ANexts 5 3; AUpdate 5 60001; ANext 9; ANext 5; AUpdate 5 70000; ANext 5] in
   out = [(5, 60001); (5, 60002); (5, 60003); (9, 1001); (5, 60004); (5, 70001)]).
Proof. split; [exact (n_cons _ _ ninv0)|vm_compute; reflexivity]. Qed.
Print Assumptions C28_example.

(** The ids handed out for a key by any sequence of allocations and updates are strictly
    increasing, and larger than the counter was before. *)
Theorem C28_increasing : forall d qs d' out ups k, consistent d -> 0 < k -> allocs d qs = (d', out, ups) ->
  StronglySorted Z.lt (ids_of k out) /\ (forall v w, at_least d k v -> In (k, w) out -> v < w).
Proof. exact map_increasing. Qed.
Print Assumptions C28_increasing.

(** After an update to v was applied, or v was handed out, only larger ids are handed out, whatever
    happens in between. *)
Theorem C28_never_back : forall d qs1 q qs2 d1 o1 u1 d2 o2 u2 k v w, consistent d -> 0 < k ->
  allocs d (qs1 ++ [q]) = (d1, o1, u1) -> allocs d1 qs2 = (d2, o2, u2) ->
  (q = AUpdate k v \/ In (k, v) o1) -> In (k, w) o2 -> v < w.
Proof. exact map_floor. Qed.
Print Assumptions C28_never_back.

(** A batch of n ids is n consecutive fresh ids, the largest being the new counter. *)
Theorem C28_batch : forall d k n d' vs, consistent d -> 0 < k -> 0 < n <= kMaxBatch -> next_ids d k n = (d', vs) ->
  vs = map (fun i => present d' k - n + Z.of_nat i + 1) (seq 0 (Z.to_nat n)) /\
  (forall x, at_least d k x -> x <= present d' k - n) /\ (forall x, x <> k -> present d' x = present d x).
Proof. exact batch_exact. Qed.
Print Assumptions C28_batch.

(** A replicated update never lowers a counter, and leaves the other counters alone. *)
Theorem C28_update : forall d k v d' r, consistent d -> 0 < k -> update_present d k v = (d', r) ->
  consistent d' /\ at_least d' k v /\ (forall j x, at_least d j x -> at_least d' j x) /\
  (forall j, j <> k -> present d' j = present d j).
Proof. exact update_never_lowers. Qed.
Print Assumptions C28_update.

(* ------------------------------------------------------------------------------------ *)

(** An execution with a leader change, an outstanding proposal that is lost, a restart and a snapshot. *)
Definition c48_run : list cevent :=
  [CElect 0; CStart 0; CRequest 0 (map ANext [1;2;3;4;5;6;7;8]); CRequest 0 [ANext 5; ANexts 6 2]; CRequest 0 [ANext 5];
   CCommit 1; CCommit 0; CApply 0; CApply 1; CApply 1; CRestart 1; CElect 1; CStart 1; CRequest 1 [ANext 5];
   CCommit 0; CApply 1; CInstall 2 1; CElect 2; CStart 2; CRequest 2 [ANexts 5 2; ANext 6]; CCommit 0].
Example C48_example :
  all_served csys0 c48_run /\
  committed_ids (crun csys0 c48_run) =
    [(5, 60002); (6, 80002); (6, 80003);
     (1, 20001); (2, 30001); (3, 40001); (4, 50001); (5, 60001); (6, 80001); (7, 1000001); (8, 1001);
     (5, 60003); (5, 60004); (5, 60005); (6, 80004)].
Proof.
  split; [|vm_compute; reflexivity].
  unfold c48_run. cbn [all_served].
  repeat match goal with
  | |- _ /\ _ => split
  | |- True => exact Logic.I
  | |- served _ (CRequest _ _) => split; [intros _; vm_compute; reflexivity|repeat constructor; vm_compute; reflexivity]
  | |- served _ (CInstall _ _) => intros k f I; cbn in I;
      repeat (destruct I as [I|I]; [injection I as <- <-; vm_compute; discriminate|]); destruct I
  | |- served _ _ => exact Logic.I
  end.
Qed.
Print Assumptions C48_example.

(** An id of a committed request, or of a request of the current leader that may still commit, is
    never handed out again by anyone: later ids for the same counter are larger.
    Missing for the full claim: the provisos of [all_served], see the two refutations. *)
Theorem C48_never_again_partial : forall es ev e k v w,
  all_served csys0 (es ++ [ev]) ->
  let s := crun csys0 es in
  In e (clog s ++ pending s) -> In (k, v) (i_ids e) -> In (k, w) (snd (cstep s ev)) -> v < w.
Proof. exact never_again. Qed.
Print Assumptions C48_never_again_partial.

(** So no id occurs twice in the answers of committed requests. *)
Theorem C48_unique_partial : forall es, all_served csys0 es -> NoDup (committed_ids (crun csys0 es)).
Proof. exact committed_once. Qed.
Print Assumptions C48_unique_partial.

(** False if a request is served between SetLeaderTerm and OnLeaderStart: the scratch map is the one of
    the node's previous leadership.  Node 0 hands out 60001, node 1 60002, and node 0 60002 again. *)
Theorem C48_early_request_refuted : exists es,
  (forall i, ~ In (CRestart i) es) /\ (forall i j, ~ In (CInstall i j) es) /\
  committed_ids (crun csys0 es) = [(5, 60001); (5, 60002); (5, 60002)].
Proof.
  exists [CElect 0; CStart 0; CRequest 0 [ANext 5]; CCommit 0; CApply 0; CApply 1;
     CElect 1; CStart 1; CRequest 1 [ANext 5]; CCommit 0; CApply 1; CApply 0;
     CElect 0; CRequest 0 [ANext 5]; CCommit 0].
  split; [|split; [|vm_compute; reflexivity]].
  - intros i I. cbn in I. repeat (destruct I as [I|I]; [discriminate I|]). destruct I.
  - intros i j I. cbn in I. repeat (destruct I as [I|I]; [discriminate I|]). destruct I.
Qed.
Print Assumptions C48_early_request_refuted.

(** False if a snapshot without a counter is installed (InitIds is not called): the counter restarts
    at 1001, nodes that know the initial value ignore (and do not store) the update, and after a
    second such snapshot 1001 is handed out again. *)
Theorem C48_snapshot_refuted : exists es,
  requests_served csys0 es /\
  committed_ids (crun csys0 es) = [(6, 80001); (5, 1001); (5, 1001)].
Proof.
  exists [CElect 0; CStart 0; CRequest 0 [ANext 6]; CCommit 0; CApply 0; CInstall 1 0;
     CElect 1; CStart 1; CRequest 1 [ANext 5]; CCommit 0; CApply 0; CInstall 2 0;
     CElect 2; CStart 2; CRequest 2 [ANext 5]; CCommit 0].
  split; [|vm_compute; reflexivity]. cbn [requests_served].
  repeat match goal with
  | |- _ /\ _ => split
  | |- True => exact Logic.I
  | |- served _ (CRequest _ _) => split; [intros _; vm_compute; reflexivity|repeat constructor; vm_compute; reflexivity]
  end.
Qed.
Print Assumptions C48_snapshot_refuted.

(* ------------------------------------------------------------------------------------ *)

Definition c49_run : list kevent := [KNext 2; KNext 2; KApply 2 90001; KNext 1; KApply 2 90002; KApply 1 10001; KRestart; KNext 2].
Example C49_example : applied_in_order c49_run /\ In (KApply 2 90002) c49_run /\
  snd (krun knode0 c49_run) = [(2, 90001); (2, 90002); (1, 10001); (2, 90003)].
Proof.
  split; [|split; [cbn; tauto|vm_compute; reflexivity]].
  cbn. repeat split; intros w H; repeat (destruct H as [H|H]; [inversion H; lia|]); destruct H.
Qed.
Print Assumptions C49_example.

(** Lease ids and revisions of the version-kv: an id whose update was applied is not handed out
    again, also after restarts, if the updates are applied in the order of the ids.  Missing for the
    full claim: other orders, see the refutation. *)
Theorem C49_never_again_partial : forall es k v w, applied_in_order es -> 0 < k -> In (KApply k v) es ->
  In (k, w) (snd (kstep (fst (krun knode0 es)) (KNext k))) -> v < w.
Proof. exact kv_not_again. Qed.
Print Assumptions C49_never_again_partial.

(** False for other orders: the records on disk follow the last applied update, so if the proposal
    of 90002 commits before the one of 90001, a restarted node hands out 90002 again. *)
Theorem C49_restart_refuted : exists es v, In (KApply 2 v) es /\ In (2, v) (snd (krun knode0 es)) /\
  In (2, v) (snd (kstep (fst (krun knode0 es)) (KNext 2))).
Proof.
  exists [KNext 2; KNext 2; KApply 2 90002; KApply 2 90001; KRestart], 90002. vm_compute. auto 10.
Qed.
Print Assumptions C49_restart_refuted.
