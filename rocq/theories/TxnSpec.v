(** Vocabulary for the transaction properties: what a store holds about a key, what it means
    for a request to succeed, and what clients promise.  Nothing here looks inside a handler. *)
From Coq Require Import ZArith List Bool.
From Verif Require Import Bytes SMap Outcome TxnModel.
Import ListNotations.
Open Scope Z_scope.

(** * What is stored *)
Definition lock_at (s : store) (k : bytes) : option lock := get bcmp (locks s) k.
Definition write_at (s : store) (k : bytes) (ts : Z) : option wrec := get vcmp (writes s) (k, ts).
Definition data_at (s : store) (k : bytes) (ts : Z) : option bytes := get vcmp (datas s) (k, ts).

(** transaction [st] holds the lock of [k] *)
Definition holds (s : store) (k : bytes) (st : Z) : Prop :=
  exists l, lock_at s k = Some l /\ l_ts l = st.
(** transaction [st] is committed on [k] at [ct] *)
Definition committed (s : store) (k : bytes) (st ct : Z) : Prop :=
  exists w, write_at s k ct = Some w /\ w_start w = st /\ w_op w <> OpRollback.
(** transaction [st] is rolled back on [k] *)
Definition rolled_back (s : store) (k : bytes) (st : Z) : Prop :=
  exists w, write_at s k st = Some w /\ w_start w = st /\ w_op w = OpRollback.

(** transaction [st] has prewritten [k] and is not decided on it *)
Definition prewritten (s : store) (k : bytes) (st : Z) : Prop :=
  exists l, lock_at s k = Some l /\ l_ts l = st /\ (l_type l = OpPut \/ l_type l = OpDelete).

(** two stores hold the same locks, versions and values *)
Definition same_store (a b : store) : Prop :=
  (forall k, lock_at a k = lock_at b k) /\
  (forall k t, write_at a k t = write_at b k t) /\
  (forall k t, data_at a k t = data_at b k t).

(** * Requests and answers *)
(** the transactions (start timestamps) a request acts for *)
Definition txns_of (r : req) : list Z :=
  match r with
  | RPrewrite p => [pw_start p]
  | RCommit start _ _ => [start]
  | RBatchRollback start _ => [start]
  | RPessLock p => [pl_start p]
  | RPessRollback start _ _ => [start]
  | RCheckStatus _ lock_ts _ _ _ _ => [lock_ts]
  | RCheckSecondary start _ => [start]
  | RResolve start _ keys txns => match keys with [] => map fst txns | _ => [start] end
  | RHeartBeat _ start _ => [start]
  end.

(** the (start, commit) pairs a request asks to commit *)
Definition commits_of (r : req) : list (Z * Z) :=
  match r with
  | RCommit start ct _ => [(start, ct)]
  | RResolve start ct keys txns =>
      filter (fun t => 0 <? snd t) (match keys with [] => txns | _ => [(start, ct)] end)
  | _ => []
  end.

(** the keys a request names *)
Definition keys_of (r : req) : list bytes :=
  match r with
  | RPrewrite p => map m_key (pw_muts p)
  | RCommit _ _ keys => keys
  | RBatchRollback _ keys => keys
  | RPessLock p => map m_key (pl_muts p)
  | RPessRollback _ _ keys => keys
  | RCheckStatus primary _ _ _ _ _ => [primary]
  | RCheckSecondary _ keys => keys
  | RResolve _ _ keys _ => keys
  | RHeartBeat primary _ _ => [primary]
  end.

(** the answer carries no error, no per-key conflict and no "already exists" *)
Definition succeeded (r : resp) : Prop := r_err r = None /\ r_res r = [] /\ r_exist r = [].

(** the i-th mutation of a prewrite asks for the pessimistic check *)
Definition pess_checked (p : prewrite_req) (i : nat) : Prop := nth i (pw_checks p) 0 = 1.

(** * What the timestamp oracle and the clients promise *)
Record plan := mkPlan {
  is_start : Z -> Prop;            (* timestamps handed out as start timestamps *)
  commit_for : Z -> Z -> Prop;     (* [commit_for c s]: c was handed out as a commit ts of s *)
  lock_point : Z -> Z }.           (* largest for_update_ts of a transaction; its start timestamp
                                      when it is optimistic *)

Definition plan_ok (P : plan) : Prop :=
  (forall s, is_start P s -> 0 < s <= lock_point P s) /\
  (forall c s, commit_for P c s ->
     is_start P s /\ lock_point P s < c <= kMaxVer /\ ~ is_start P c) /\
  (forall c s s', commit_for P c s -> commit_for P c s' -> s = s').

(** Requests that keep the promises: start and commit timestamps come from the oracle, a
    pessimistic prewrite is sent for keys whose lock the transaction holds, a commit timestamp the
    store chooses itself (one-phase commit) is not also somebody's start or commit timestamp, and
    a transaction older than the safe point of a garbage collection takes no more locks.  A
    resolve request without keys runs alone ([EUnlatched] is excluded).  The *_refuted theorems
    show why each is asked for. *)
Definition allowed (c : cfg) (P : plan) (g : region) (e : event) : Prop :=
  match e with
  | EReq r _ =>
      (forall st, In st (txns_of r) -> is_start P st) /\
      (forall st ct, In (st, ct) (commits_of r) -> commit_for P ct st) /\
      match r with
      | RPrewrite p =>
          rg_safe g < pw_start p /\
          (forall i m, nth_error (pw_muts p) i = Some m -> pess_checked p i ->
             holds (rg_store g) (m_key m) (pw_start p)) /\
          (forall a bs, serve c g r = Ok (a, bs) -> r_1pc a <> 0 ->
             commit_for P (r_1pc a) (pw_start p))
      | RPessLock p => rg_safe g < pl_start p /\ pl_fut p <= lock_point P (pl_start p)
      | _ => True
      end
  | EUnlatched _ _ => False
  | _ => True
  end.

(** histories: every request keeps the promises; any request may be cut short by a crash *)
Inductive run (c : cfg) (P : plan) : region -> list event -> region -> Prop :=
| run_nil g : run c P g [] g
| run_cons g e g1 es g2 :
    allowed c P g e -> step c g e = Ok g1 -> run c P g1 es g2 -> run c P g (e :: es) g2.

(** the states a region can be in *)
Definition reachable (c : cfg) (P : plan) (g : region) : Prop :=
  exists es, run c P init_region es g.

(** * What single requests promise *)
(** two locks that differ at most in their time to live *)
Definition same_lock_but_ttl (a b : lock) : Prop :=
  l_primary a = l_primary b /\ l_ts a = l_ts b /\ l_fut a = l_fut b /\ l_key a = l_key b /\
  l_size a = l_size b /\ l_type a = l_type b /\ l_short a = l_short b /\ l_extra a = l_extra b /\
  l_minc a = l_minc b /\ l_async a = l_async b /\ l_secs a = l_secs b.

(** the requests that answer for each key they were given *)
Definition keyed (r : req) : Prop :=
  match r with
  | RPrewrite _ | RCommit _ _ _ | RBatchRollback _ _ | RPessLock _ | RPessRollback _ _ _
  | RHeartBeat _ _ _ => True
  | RResolve _ _ keys _ => keys <> []
  | _ => False
  end.

(** the physical milliseconds of a timestamp *)
Definition physical_ms (ts : Z) : Z := ts / 2 ^ 18.

(** answers of a status check *)
Definition says_committed (a : resp) (ct : Z) : Prop := r_err a = None /\ r_res a = [] /\ r_commit a = ct /\ 0 < ct.
Definition says_rolled_back (a : resp) : Prop :=
  r_err a = None /\ r_commit a = 0 /\ (r_action a = ATTLExpireRollback \/ r_action a = ALockNotExistRollback).

(** the ways in which a request may take the lock [l] off a key: the owner is committed; the owner's
    one-phase commit is written; the owner is rolled back, by a status check only when the time to
    live has passed; or the owner gives up a pessimistic lock *)
Definition lock_gone (r : req) (a : resp) (s' : store) (k : bytes) (l : lock) : Prop :=
  (exists ct, In (l_ts l, ct) (commits_of r) /\ committed s' k (l_ts l) ct) \/
  (exists p, r = RPrewrite p /\ pw_start p = l_ts l /\ committed s' k (l_ts l) (r_1pc a)) \/
  (rolled_back s' k (l_ts l) /\ In (l_ts l) (txns_of r) /\
   forall p lk cl cu fs rm, r = RCheckStatus p lk cl cu fs rm -> l_ttl l < physical_ms cu) \/
  (exists fut keys, r = RPessRollback (l_ts l) fut keys /\ l_type l = OpLock /\ l_fut l <= fut /\ In k keys).
