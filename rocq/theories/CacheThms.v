(** C39, C53, C54, C55: the timestamp cache of a store. *)
From Coq Require Import ZArith List Bool Arith Lia.
From Verif Require Import CacheModel CacheSpec CacheProofs CacheProofs2 CacheProofs3.
Import ListNotations.
Open Scope Z_scope.

(** No timestamp is handed out twice, if the oracle's batches share none. *)
Theorem C39_once : forall now afters mins sched i j ts,
  ForallOrdPairs apart (ranges sched) ->
  answered (crun (cinit now afters mins) sched) i ts -> answered (crun (cinit now afters mins) sched) j ts -> 0 < ts -> i = j.
Proof. exact answers_unique. Qed.
Print Assumptions C39_once.

(** A call for a timestamp after [after] fails (0) or returns a larger one out of a batch the oracle gave. *)
Theorem C39_after : forall now afters mins sched i after ts,
  nth_error afters i = Some after -> answered (crun (cinit now afters mins) sched) i ts ->
  ts = 0 \/ (0 < ts /\ after < ts /\ exists r, In r (ranges sched) /\ within ts r).
Proof. exact answers_ok. Qed.
Print Assumptions C39_after.

(** No call ever follows a null or dangling pointer (the CHECKs of the code hold): whatever the schedule, a
    call that has not returned can take its next step, and so can the worker. *)
Theorem C39_no_abort : forall now afters mins sched, let s := crun (cinit now afters mins) sched in
  (forall i g, nth_error (gets s) i = Some g -> (forall ts, g_ph g <> GDone ts) -> forall t ok, exists d, cstep s (CGet i t ok d) <> None) /\
  (push s <> PIdle -> forall ok, cstep s (CPush ok) <> None).
Proof. exact no_abort. Qed.
Print Assumptions C39_no_abort.

(** Two calls race for the last timestamp of a batch; the loser waits for the next batch, pops the first
    one and is served from the second. *)
Definition pushB (p l c now : Z) : list choice := CBatch p l c now :: repeat (CPush true) 10.
Definition getB (i : nat) (n : nat) : list choice := repeat (CGet i 5 true 9) n.
Definition schedB : list choice := pushB 1 0 1 5 ++ getB 0 9 ++ getB 1 3 ++ getB 0 20 ++ getB 1 20 ++ pushB 1 1 2 5 ++ getB 2 40.
Definition stB : cache := crun (cinit 0 [0; 0; 7] [3]) schedB.
Example C39_example : ForallOrdPairs apart (ranges schedB) /\ ForallOrdPairs below (ranges schedB) /\
  map g_ph (gets stB) = [GDone 262144; GDone 0; GDone 262145] /\ hd stB = 2%nat /\ length (heap stB) = 3%nat.
Proof.
  assert (B : ForallOrdPairs below (ranges schedB)).
  { replace (ranges schedB) with [(262144, 262145); (262145, 262147)] by (vm_compute; reflexivity).
    apply FOP_cons; [|apply FOP_cons; [constructor|constructor]]. constructor; [|constructor].
    unfold below, within. cbn [fst snd]. intros. lia. }
  split; [|split; [exact B|vm_compute; repeat split]].
  revert B. generalize (ranges schedB). induction 1 as [|a l F H IH]; constructor; auto.
  rewrite Forall_forall in *. intros x X. apply below_apart. auto.
Qed.

(** A call that starts after another one returned gets a larger timestamp, if each batch of the oracle is
    above the earlier ones. *)
Theorem C53_ordered : forall now afters mins s1 s2 i j t1 t2 after,
  ForallOrdPairs below (ranges (s1 ++ s2)) ->
  answered (crun (cinit now afters mins) s1) i t1 -> 0 < t1 -> fresh (crun (cinit now afters mins) s1) j after ->
  answered (crun (cinit now afters mins) (s1 ++ s2)) j t2 -> 0 < t2 -> t1 < t2.
Proof. exact answers_ordered. Qed.
Print Assumptions C53_ordered.

Example C53_example : exists s1 s2, s1 ++ s2 = schedB /\ answered (crun (cinit 0 [0; 0; 7] [3]) s1) 0 262144 /\
  fresh (crun (cinit 0 [0; 0; 7] [3]) s1) 2 7 /\ answered (crun (cinit 0 [0; 0; 7] [3]) (s1 ++ s2)) 2 262145.
Proof.
  exists (pushB 1 0 1 5 ++ getB 0 9 ++ getB 1 3 ++ getB 0 20 ++ getB 1 20), (pushB 1 1 2 5 ++ getB 2 40).
  split; [reflexivity|]. split; [eexists; vm_compute; reflexivity|]. split; [vm_compute; reflexivity|eexists; vm_compute; reflexivity].
Qed.

(** Once a lower bound has been set, later calls return only larger timestamps, if no two settings of the
    bound overlap. *)
Theorem C54_bound_partial : forall now afters mins s1 s2 j after v ts,
  calm_run (cinit now afters mins) (s1 ++ s2) ->
  bound_set (crun (cinit now afters mins) s1) v -> fresh (crun (cinit now afters mins) s1) j after ->
  answered (crun (cinit now afters mins) (s1 ++ s2)) j ts -> 0 < ts -> v < ts.
Proof. exact bound_respected. Qed.
Print Assumptions C54_bound_partial.

Example C54_example : let s1 := pushB 1 0 9 5 ++ [CSet 0; CSet 0] in let s2 := getB 0 30 ++ getB 1 20 ++ pushB 1 9 9 5 ++ getB 2 30 in
  calm_run (cinit 0 [0; 0; 0] [262150]) (s1 ++ s2) /\ bound_set (crun (cinit 0 [0; 0; 0] [262150]) s1) 262150 /\
  fresh (crun (cinit 0 [0; 0; 0] [262150]) s1) 2 0 /\
  map g_ph (gets (crun (cinit 0 [0; 0; 0] [262150]) (s1 ++ s2))) = [GDone 0; GDone 0; GDone 262153].
Proof.
  cbv zeta. split; [apply calm_one; reflexivity|]. split; [exists 0%nat; vm_compute; reflexivity|]. split; vm_compute; reflexivity.
Qed.

(** Two regions become leader at the same time: both read the old bound, the larger value is stored first
    and overwritten by the smaller one.  A write that starts afterwards in the region with the larger bound
    gets a timestamp below its last write. *)
Theorem C54_race_refuted : exists s1 s2 j after v ts,
  let i := cinit 0 [0] [262143; 262200] in
  ForallOrdPairs below (ranges (s1 ++ s2)) /\ bound_set (crun i s1) v /\ fresh (crun i s1) j after /\
  answered (crun i (s1 ++ s2)) j ts /\ 0 < ts < v.
Proof.
  exists (pushB 1 0 100 5 ++ [CSet 0; CSet 1; CSet 1; CSet 0]), (getB 0 30), 0%nat, 0, 262200, 262144. cbv zeta.
  split; [replace (ranges _) with [(262144, 262244)] by (vm_compute; reflexivity); apply FOP_cons; constructor|]. split; [exists 1%nat; vm_compute; reflexivity|]. split; [vm_compute; reflexivity|].
  split; [eexists; vm_compute; reflexivity|lia].
Qed.
Print Assumptions C54_race_refuted.

(** The cache serves again after one renewal, whatever happened before: if the worker pushes a batch above
    [after] and above the bound and then the call runs (within the staleness interval), it gets a timestamp. *)
Theorem C55_renewal : forall now0 afters mins sched i after p l count now, let s := crun (cinit now0 afters mins) sched in
  push s = PIdle -> fresh s i after -> 0 < count -> after < compose p l -> 0 < compose p l -> minv s < compose p l ->
  exists n m d ts, answered (crun s ((CBatch p l count now :: repeat (CPush true) n) ++ repeat (CGet i now true d) m)) i ts /\ 0 < ts.
Proof. exact renew_serves. Qed.
Print Assumptions C55_renewal.

Example C55_example : let s := crun (cinit 0 [0; 0; 7] [3]) (pushB 1 0 1 5 ++ getB 0 9 ++ getB 1 3 ++ getB 0 20 ++ getB 1 20) in
  push s = PIdle /\ fresh s 2 7 /\ 7 < compose 1 1 /\ 0 < compose 1 1 /\ minv s < compose 1 1.
Proof. vm_compute. repeat split. Qed.
