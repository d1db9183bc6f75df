(** Property theorems C18 (see properties.jsonl): atomicity of transactions over many regions. *)
From Coq Require Import ZArith List Lia Bool.
From Verif Require Import Bytes SMap Outcome TxnModel TxnSpec TxnDemo AtomSpec AtomProofs AtomDemo.
Import ListNotations.
Open Scope Z_scope.

(** The world of the examples: the primary of every transaction is key A of region 0; B and C are
    keys of region 1. *)
Definition kC : bytes := [99].
Definition prim0 : Z -> nat * bytes := fun _ => (0%nat, kA).
Definition starts1 : list Z := [10; 40; 50; 60].
Definition commits1 : list (Z * Z) := [(20, 10); (61, 60)].
Definition P1 : plan := plan_of starts1 commits1 [].
Definition late : Z := 2 ^ 18 * 2000.
(** transaction 10 prewrites A, B and C and commits A, but the answer is lost *)
Definition part1 : list wevent :=
  [ WReq 0 (prewrite_of 10 kA [put kA 1]) 9 true; WReq 1 (prewrite_of 10 kA [put kB 2; put kC 3]) 9 true;
    WSend 10; WReq 0 (RCommit 10 20 [kA]) 9 false; WOther 1 ERestart ].
(** a resolver finishes it; 40 crashes after its prewrites and is rolled back by a resolver; 50
    gives up; 60 commits in one phase *)
Definition part2 : list wevent :=
  [ WReq 0 (RCheckStatus kA 10 30 late false true) 9 true;
    WReq 1 (RResolve 10 20 [kB] []) 9 true; WReq 1 (RResolve 0 0 [] [(10, 20)]) 9 false;
    WReq 1 (prewrite_of 40 kA [put kB 5]) 9 true; WReq 0 (prewrite_of 40 kA [put kA 4]) 9 false;
    WReq 0 (RCheckStatus kA 40 45 late false true) 9 true; WReq 1 (RResolve 40 0 [kB] []) 9 true;
    WReq 1 (prewrite_of 50 kA [put kC 7]) 9 false; WQuit 50; WReq 1 (RBatchRollback 50 [kC]) 9 true;
    WReq 0 (RBatchRollback 50 [kA]) 0 false;
    WSend 60; WReq 0 (one_phase_of 60 kA [put kA 8]) 9 true ].
Definition wA : world := wafter prim0 init_world part1.
Definition wB : world := wafter prim0 wA part2.
Example plan1 : plan_ok P1.
Proof. apply plan_okb_ok. vm_compute. reflexivity. Qed.
Example run_wA : wrun default_cfg P1 prim0 init_world part1 wA.
Proof. apply wcheck_run. vm_compute. reflexivity. Qed.
Example run_wB : wrun default_cfg P1 prim0 wA part2 wB.
Proof. apply wcheck_run. vm_compute. reflexivity. Qed.

(** ** C18 *)
(** Whatever any number of clients and resolvers that follow the protocol do, in any order, with
    any request cut short by a crash and any answer lost: a transaction that is seen committed on
    some key of some region is not rolled back on any key of any region, then or later; one that is
    seen rolled back is not committed anywhere, then or later; and its commits, whenever and
    wherever they are seen, carry one timestamp.  With [es2] empty this is about one instant. *)
Theorem C18_atomic : forall c P prim es1 w1 es2 w2,
  plan_ok P -> wrun c P prim init_world es1 w1 -> wrun c P prim w1 es2 w2 ->
  forall i1 k1 i2 k2 st,
  (forall ct, committed_in w1 i1 k1 st ct -> ~ rolled_back_in w2 i2 k2 st) /\
  (forall ct, rolled_back_in w1 i1 k1 st -> ~ committed_in w2 i2 k2 st ct) /\
  (forall c1 c2, committed_in w1 i1 k1 st c1 -> committed_in w2 i2 k2 st c2 -> c1 = c2).
Proof. exact atomic. Qed.
Print Assumptions C18_atomic.

(** the hypotheses are met by a history in which the transaction is committed on A first, and on B
    and C only by a resolver, and in which another one is rolled back everywhere *)
Example C18_atomic_example :
  committed_in wA 0 kA 10 20 /\ (exists l, lock_at (rg_store (w_reg wA 1)) kB = Some l) /\
  committed_in wB 1 kB 10 20 /\ committed_in wB 1 kC 10 20 /\
  rolled_back_in wB 0 kA 40 /\ rolled_back_in wB 1 kB 40 /\ rolled_back_in wB 1 kC 50 /\
  committed_in wB 0 kA 60 61.
Proof.
  split; [apply committedb_ok; vm_compute; reflexivity|].
  split; [eexists; vm_compute; reflexivity|].
  split; [apply committedb_ok; vm_compute; reflexivity|].
  split; [apply committedb_ok; vm_compute; reflexivity|].
  split; [apply rolled_backb_ok; vm_compute; reflexivity|].
  split; [apply rolled_backb_ok; vm_compute; reflexivity|].
  split; [apply rolled_backb_ok; vm_compute; reflexivity|].
  apply committedb_ok; vm_compute; reflexivity.
Qed.

(** An answer about the primary that has been received binds the whole transaction: nothing that is
    recorded about it, on any key of any region, then or later, contradicts it. *)
Theorem C18_verdict_binds : forall c P prim es1 w1 es2 w2,
  plan_ok P -> wrun c P prim init_world es1 w1 -> wrun c P prim w1 es2 w2 ->
  forall st v, In (st, v) (w_known w1) -> forall i k,
  (forall ct, committed_in w2 i k st ct -> v = VCommitted ct) /\
  (rolled_back_in w2 i k st -> v = VRolledBack).
Proof. exact verdict_binds. Qed.
Print Assumptions C18_verdict_binds.
Example C18_verdict_example : In (40, VRolledBack) (w_known wB) /\ In (10, VCommitted 20) (w_known wB).
Proof. vm_compute. tauto. Qed.

(** A resolver that meets a lock finds in it the primary key it has to ask. *)
Theorem C18_lock_names_primary : forall c P prim es w,
  plan_ok P -> wrun c P prim init_world es w ->
  forall i k l, lock_at (rg_store (w_reg w i)) k = Some l -> l_primary l = snd (prim (l_ts l)).
Proof. exact lock_names_primary. Qed.
Print Assumptions C18_lock_names_primary.

(** ** Why the rules are asked for *)
(** Without the promise about garbage collection (all other rules kept) the claim is false: the
    record of a committed delete of the primary is collected, the next status check takes the
    transaction for one that never committed, and a resolver rolls back a key of it. *)
Definition del (k : bytes) : mutation := mkMut OpDelete k [].
Definition gc_history : list wevent :=
  [ WReq 0 (prewrite_of 10 kA [del kA]) 9 true; WReq 1 (prewrite_of 10 kA [put kB 2; put kC 3]) 9 true;
    WSend 10; WReq 0 (RCommit 10 20 [kA]) 9 true; WReq 1 (RCommit 10 20 [kB]) 9 true;
    WOther 0 (EGc 30); WOther 0 (EApply 0);
    WReq 0 (RCheckStatus kA 10 30 late false true) 9 true; WReq 1 (RResolve 10 0 [kC] []) 9 true ].
Theorem C18_gc_refuted : exists es w,
  wrun_with default_cfg prim0 (protocol default_cfg P1 prim0) init_world es w /\
  committed_in w 1 kB 10 20 /\ rolled_back_in w 1 kC 10.
Proof.
  exists gc_history, (wafter prim0 init_world gc_history).
  split; [apply wcheck_run_nogc with (starts := starts1) (commits := commits1) (futs := []); vm_compute; reflexivity|].
  split; [apply committedb_ok|apply rolled_backb_ok]; vm_compute; reflexivity.
Qed.
Print Assumptions C18_gc_refuted.

(** The server does not enforce the rule about rolling back: after the commit of the primary A, one
    rollback request for A and B is answered with success although it leaves A committed and rolls
    back B. *)
Theorem C18_rollback_rule_refuted : exists es g a bs,
  run default_cfg P1 init_region es g /\
  serve default_cfg g (RBatchRollback 10 [kA; kB]) = Ok (a, bs) /\ succeeded a /\
  let s := apply_batches (rg_store g) bs in committed s kA 10 20 /\ rolled_back s kB 10.
Proof.
  set (es := [full (prewrite_of 10 kA [put kA 1; put kB 2]); full (RCommit 10 20 [kA])]).
  exists es, (after init_region es). do 2 eexists.
  split; [apply checks_run; vm_compute; reflexivity|].
  split; [vm_compute; reflexivity|]. split; [vm_compute; auto|].
  split; [apply committedb_ok|apply rolled_backb_ok]; vm_compute; reflexivity.
Qed.
Print Assumptions C18_rollback_rule_refuted.

(** Nor the rule about the check of secondaries: asked for a two-phase transaction whose primary is
    committed and one of whose other keys was never locked, it writes a rollback for that key. *)
Theorem C18_secondary_rule_refuted : exists es g a bs,
  run default_cfg P1 init_region es g /\
  serve default_cfg g (RCheckSecondary 10 [kB]) = Ok (a, bs) /\ r_err a = None /\
  let s := apply_batches (rg_store g) bs in committed s kA 10 20 /\ rolled_back s kB 10.
Proof.
  set (es := [full (prewrite_of 10 kA [put kA 1]); full (RCommit 10 20 [kA])]).
  exists es, (after init_region es). do 2 eexists.
  split; [apply checks_run; vm_compute; reflexivity|].
  split; [vm_compute; reflexivity|]. split; [reflexivity|].
  split; [apply committedb_ok|apply rolled_backb_ok]; vm_compute; reflexivity.
Qed.
Print Assumptions C18_secondary_rule_refuted.
