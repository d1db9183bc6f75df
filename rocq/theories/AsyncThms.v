(** Property theorems C65 (see properties.jsonl): asynchronous commit over many regions. *)
From Coq Require Import ZArith List Lia Bool.
From Verif Require Import Bytes SMap Outcome TxnModel TxnSpec TxnDemo AtomSpec AsyncSpec AsyncProofs AsyncDemo.
Import ListNotations.
Open Scope Z_scope.

(** The world of the examples: the primary of every transaction is key A of region 0; its other
    keys are B and C of region 1. *)
Definition kC : bytes := [99].
Definition prim0 : Z -> part := fun _ => (0%nat, kA).
Definition secs0 : Z -> list part := fun _ => [(1%nat, kB); (1%nat, kC)].
Definition starts2 : list Z := [10; 40; 50].
Definition commits2 : list (Z * Z) := [(12, 10); (30, 10); (70, 50)].
Definition P2 : plan := plan_of starts2 commits2 [].
Definition late : Z := 2 ^ 18 * 2000.
(** transaction 10 prewrites A, B and C for asynchronous commit; the answer for B and C is lost and
    the client is not seen again *)
Definition part1 : list yevent :=
  [ YOther 1 (ERead 11); YReq 0 (async_of 10 kA [put kA 1] 0 [kB; kC]) 9 true;
    YReq 1 (async_of 10 kA [put kB 2; put kC 3] 0 [kB; kC]) 9 false; YOther 1 ERestart ].
(** a resolver asks for the locks and concludes that it is committed at 12 *)
Definition part2 : list yevent :=
  [ YReq 0 (RCheckStatus kA 10 35 late false true) 9 true; YReq 1 (RCheckSecondary 10 [kB; kC]) 9 true ].
(** a resolver commits all keys; 40 crashes after prewriting A and is rolled back by a resolver; 50
    is not given a min_commit_ts by region 0, falls back to two phases and commits *)
Definition part3 : list yevent :=
  [ YReq 1 (RResolve 10 12 [kB] []) 9 true; YReq 0 (RResolve 10 12 [kA] []) 9 true;
    YReq 1 (RResolve 0 0 [] [(10, 12)]) 9 false;
    YReq 0 (async_of 40 kA [put kA 4] 0 [kB; kC]) 9 true;
    YReq 0 (RCheckStatus kA 40 45 late false true) 9 true; YReq 1 (RCheckSecondary 40 [kB; kC]) 9 true;
    YReq 0 (RResolve 40 0 [kA] []) 9 true;
    YOther 0 (ERead 60);
    YReq 0 (RPrewrite (mkPW 50 kA [put kA 5] 1000 1 false 0 55 [] [] [] [kB; kC])) 9 true;
    YReq 1 (async_of 50 kA [put kB 6; put kC 7] 0 []) 9 true;
    YReq 0 (RCommit 50 70 [kA]) 9 true; YReq 1 (RCommit 50 70 [kB; kC]) 9 true ].
Definition w1 : yworld := yafter prim0 init_yworld part1.
Definition w2 : yworld := yafter prim0 w1 part2.
Definition w3 : yworld := yafter prim0 w2 part3.
Example plan2 : plan_ok P2.
Proof. apply plan_okb_ok. vm_compute. reflexivity. Qed.
Example run_w1 : yrun default_cfg P2 prim0 secs0 init_yworld part1 w1.
Proof. apply ycheck_run. vm_compute. reflexivity. Qed.
Example run_w2 : yrun default_cfg P2 prim0 secs0 w1 part2 w2.
Proof. apply ycheck_run. vm_compute. reflexivity. Qed.
Example run_w3 : yrun default_cfg P2 prim0 secs0 w2 part3 w3.
Proof. apply ycheck_run. vm_compute. reflexivity. Qed.

(** ** C65 *)
(** Whatever any number of clients and resolvers that follow the rules of asynchronous commit do, in
    any order, with any request cut short by a crash and any answer lost: a transaction seen
    committed on some key of some region is not rolled back on any key of any region, then or
    later; one seen rolled back is not committed anywhere, then or later; and its commits, whenever
    and wherever they are seen, carry one timestamp. *)
Theorem C65_atomic : forall c P prim secs es1 w1 es2 w2,
  plan_ok P -> yrun c P prim secs init_yworld es1 w1 -> yrun c P prim secs w1 es2 w2 ->
  forall i1 k1 i2 k2 st,
  (forall ct, ycommitted w1 i1 k1 st ct -> ~ yrolled_back w2 i2 k2 st) /\
  (forall ct, yrolled_back w1 i1 k1 st -> ~ ycommitted w2 i2 k2 st ct) /\
  (forall c1 c2, ycommitted w1 i1 k1 st c1 -> ycommitted w2 i2 k2 st c2 -> c1 = c2).
Proof. exact async_atomic. Qed.
Print Assumptions C65_atomic.

Example C65_atomic_example :
  ycommitted w3 0 kA 10 12 /\ ycommitted w3 1 kB 10 12 /\ ycommitted w3 1 kC 10 12 /\
  yrolled_back w3 0 kA 40 /\ yrolled_back w3 1 kB 40 /\
  ycommitted w3 0 kA 50 70 /\ ycommitted w3 1 kB 50 70 /\ ycommitted w3 1 kC 50 70.
Proof.
  split; [apply committedb_ok; vm_compute; reflexivity|].
  split; [apply committedb_ok; vm_compute; reflexivity|].
  split; [apply committedb_ok; vm_compute; reflexivity|].
  split; [apply rolled_backb_ok; vm_compute; reflexivity|].
  split; [apply rolled_backb_ok; vm_compute; reflexivity|].
  split; [apply committedb_ok; vm_compute; reflexivity|].
  split; [apply committedb_ok; vm_compute; reflexivity|].
  apply committedb_ok; vm_compute; reflexivity.
Qed.

(** The decision is in the locks, and final, even if nobody has been told: from the moment every
    key of a transaction carries a lock of it marked for asynchronous commit, it is never rolled
    back on any key, it is committed at no timestamp but the largest min_commit_ts of those locks,
    and no key is lost: each stays prewritten until it is committed at that timestamp (or the
    record of that is collected as garbage). *)
Theorem C65_decided : forall c P prim secs es1 w1 es2 w2,
  plan_ok P -> yrun c P prim secs init_yworld es1 w1 -> yrun c P prim secs w1 es2 w2 ->
  forall st ls,
  Forall2 (fun q l => lock_at (rg_store (y_reg w1 (fst q))) (snd q) = Some l /\ l_ts l = st /\ l_async l = true)
    (parts prim secs st) ls ->
  let ct := fold_right Z.max 0 (map l_minc ls) in
  (forall i k ct', ycommitted w2 i k st ct' -> ct' = ct) /\ (forall i k, ~ yrolled_back w2 i k st) /\
  (forall i k, In (i, k) (parts prim secs st) ->
     prewritten (rg_store (y_reg w2 i)) k st \/ ycommitted w2 i k st ct \/ st <= rg_safe (y_reg w2 i)).
Proof. exact async_decided. Qed.
Print Assumptions C65_decided.
Example C65_decided_example : exists ls,
  Forall2 (fun q l => lock_at (rg_store (y_reg w1 (fst q))) (snd q) = Some l /\ l_ts l = 10 /\ l_async l = true)
    (parts prim0 secs0 10) ls /\ map l_minc ls = [11; 12; 12] /\ y_ev w1 = [(10, (0%nat, kA), 11)].
Proof.
  eexists. cbv [parts prim0 secs0]. split.
  - repeat (apply Forall2_cons; [split; [vm_compute; reflexivity|split; reflexivity]|]). apply Forall2_nil.
  - split; vm_compute; reflexivity.
Qed.

(** What a client or a resolver concludes from the answers it has received, whichever they are and
    whenever each was given, is that decision: a min_commit_ts heard for every key, from an answer
    to the prewrite or from a lock returned by a status check, and the largest of them is the only
    timestamp the transaction can be committed at. *)
Theorem C65_concluded : forall c P prim secs es1 w1 es2 w2,
  plan_ok P -> yrun c P prim secs init_yworld es1 w1 -> yrun c P prim secs w1 es2 w2 ->
  forall st ct, concluded prim secs w1 st ct ->
  (forall i k ct', ycommitted w2 i k st ct' -> ct' = ct) /\ (forall i k, ~ yrolled_back w2 i k st) /\
  (forall i k, In (i, k) (parts prim secs st) ->
     prewritten (rg_store (y_reg w2 i)) k st \/ ycommitted w2 i k st ct \/ st <= rg_safe (y_reg w2 i)).
Proof. exact async_concluded. Qed.
Print Assumptions C65_concluded.
Example C65_concluded_example : concluded prim0 secs0 w2 10 12.
Proof. apply concludedb_ok. vm_compute. reflexivity. Qed.

(** A verdict somebody has received, from the primary or from a secondary, binds the whole
    transaction. *)
Theorem C65_verdict_binds : forall c P prim secs es1 w1 es2 w2,
  plan_ok P -> yrun c P prim secs init_yworld es1 w1 -> yrun c P prim secs w1 es2 w2 ->
  forall st v, In (st, v) (y_known w1) -> forall i k,
  (forall ct, ycommitted w2 i k st ct -> v = VCommitted ct) /\
  (yrolled_back w2 i k st -> v = VRolledBack).
Proof. exact async_verdict. Qed.
Print Assumptions C65_verdict_binds.
Example C65_verdict_example : In (40, VRolledBack) (y_known w3) /\ In (50, VCommitted 70) (y_known w3).
Proof. vm_compute. tauto. Qed.

(** A resolver that meets a lock finds the primary in it, and in a marked lock on the primary the
    list of all the other keys. *)
Theorem C65_locks_lead : forall c P prim secs es w,
  plan_ok P -> yrun c P prim secs init_yworld es w ->
  forall i k l, lock_at (rg_store (y_reg w i)) k = Some l ->
  l_primary l = snd (prim (l_ts l)) /\
  (l_async l = true -> In (i, k) (parts prim secs (l_ts l)) /\
     ((i, k) = prim (l_ts l) -> l_secs l = map snd (secs (l_ts l)))).
Proof. exact async_locks. Qed.
Print Assumptions C65_locks_lead.
Example C65_locks_lead_example : exists l, lock_at (rg_store (y_reg w1 0)) kA = Some l /\ l_async l = true /\ l_secs l = [kB; kC].
Proof. eexists. vm_compute. auto. Qed.

(** ** Why the rules are asked for *)
(** A repeated prewrite is answered without a min_commit_ts even when all its locks are marked, so a
    client whose first answers were lost cannot tell that its transaction is asynchronous.  If it
    takes the answers for a fallback, as it does for a first prewrite, it commits the primary at a
    timestamp of its own while a resolver commits another key at the one the locks say: every
    prewrite answer it has heard is a success without min_commit_ts, every key is answered for, and
    the transaction ends with two commit timestamps. *)
Definition retry1 : list yevent :=
  [ YOther 1 (ERead 11); YReq 0 (async_of 10 kA [put kA 1] 0 [kB; kC]) 9 false;
    YReq 1 (async_of 10 kA [put kB 2; put kC 3] 0 [kB; kC]) 9 false;
    YReq 0 (async_of 10 kA [put kA 1] 0 [kB; kC]) 9 true;
    YReq 1 (async_of 10 kA [put kB 2; put kC 3] 0 [kB; kC]) 9 true;
    YReq 0 (RCheckStatus kA 10 35 late false true) 9 true; YReq 1 (RCheckSecondary 10 [kB; kC]) 9 true ].
Theorem C65_retry_refuted : exists es wa wb es' wc,
  yrun default_cfg P2 prim0 secs0 init_yworld es wa /\
  (forall p a, In (RPrewrite p, a) (heard_answers default_cfg prim0 init_yworld es) ->
     pw_start p = 10 /\ succeeded a /\ r_minc a = 0) /\
  (forall q, In q (parts prim0 secs0 10) -> In (10, q) (y_done wa)) /\
  allowed default_cfg P2 (y_reg wa 0) (EReq (RCommit 10 30 [kA]) 9) /\
  ystep default_cfg prim0 wa (YReq 0 (RCommit 10 30 [kA]) 9 true) = Ok wb /\
  yrun default_cfg P2 prim0 secs0 wb es' wc /\
  ycommitted wc 0 kA 10 30 /\ ycommitted wc 1 kB 10 12.
Proof.
  exists retry1, (yafter prim0 init_yworld retry1).
  exists (yafter prim0 (yafter prim0 init_yworld retry1) [YReq 0 (RCommit 10 30 [kA]) 9 true]).
  exists [YReq 1 (RResolve 10 12 [kB] []) 9 true].
  exists (yafter prim0 (yafter prim0 (yafter prim0 init_yworld retry1) [YReq 0 (RCommit 10 30 [kA]) 9 true]) [YReq 1 (RResolve 10 12 [kB] []) 9 true]).
  split; [apply ycheck_run; vm_compute; reflexivity|].
  split.
  { intros p a Q. vm_compute in Q. destruct Q as [Q|[Q|[Q|[Q|[]]]]]; inversion Q; subst; vm_compute; auto. }
  split.
  { intros q Q. vm_compute in Q. destruct Q as [<-|[<-|[<-|[]]]]; vm_compute; tauto. }
  split; [apply allowedb_ok; vm_compute; reflexivity|].
  split; [vm_compute; reflexivity|].
  split; [apply ycheck_run; vm_compute; reflexivity|].
  split; apply committedb_ok; vm_compute; reflexivity.
Qed.
Print Assumptions C65_retry_refuted.

(** A status check that forces the ways of two-phase commit on a transaction not known to have an
    unmarked lock rolls back the primary of one that is already decided. *)
Theorem C65_force_sync_refuted : exists wb,
  yrun default_cfg P2 prim0 secs0 w1 part2 w2 /\ concluded prim0 secs0 w2 10 12 /\
  allowed default_cfg P2 (y_reg w2 0) (EReq (RCheckStatus kA 10 35 late true true) 9) /\
  ystep default_cfg prim0 w2 (YReq 0 (RCheckStatus kA 10 35 late true true) 9 true) = Ok wb /\
  yrolled_back wb 0 kA 10.
Proof.
  exists (yafter prim0 w2 [YReq 0 (RCheckStatus kA 10 35 late true true) 9 true]).
  split; [exact run_w2|]. split; [exact C65_concluded_example|].
  split; [apply allowedb_ok; vm_compute; reflexivity|].
  split; [vm_compute; reflexivity|].
  apply rolled_backb_ok; vm_compute; reflexivity.
Qed.
Print Assumptions C65_force_sync_refuted.
