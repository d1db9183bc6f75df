(** What transactional reads must answer, in terms of the stored locks, records and values. *)
From Coq Require Import ZArith List Bool Sorted.
From Verif Require Import Bytes SMap Outcome TxnModel TxnSpec TxnReadModel.
Import ListNotations.
Open Scope Z_scope.

Definition blt (a b : bytes) : Prop := bcmp a b = Lt.
Definition ble (a b : bytes) : Prop := bcmp a b <> Gt.

(** the newest timestamp a read at [ts] may see *)
Definition sees_up_to (i : iso) (ts : Z) : Z := match i with SI => ts | RC => kMaxVer end.

(** a lock that a read at [ts] must not ignore: not declared resolved by the reader, and its
    transaction could still commit at or before [ts] *)
Definition conflicting (i : iso) (ts : Z) (resolved : list Z) (l : lock) : Prop :=
  ~ In (l_ts l) resolved /\ l_minc l <= ts /\ 0 < l_ts l /\
  match i with
  | SI => (0 < l_fut l -> l_fut l < ts) /\ (l_fut l <= 0 -> l_ts l < ts)
  | RC => 0 < l_fut l < ts /\ l_type l <> OpLock
  end.

(** [w], committed at [t], is the newest committed put or delete of [k] a read may see *)
Definition newest (s : store) (i : iso) (ts : Z) (k : bytes) (t : Z) (w : wrec) : Prop :=
  write_at s k t = Some w /\ t <= sees_up_to i ts /\ w_op w <> OpRollback /\
  forall t' w', write_at s k t' = Some w' -> t < t' <= sees_up_to i ts -> w_op w' = OpRollback.

(** no committed put or delete of [k] is visible *)
Definition nothing_visible (s : store) (i : iso) (ts : Z) (k : bytes) : Prop :=
  forall t w, write_at s k t = Some w -> t <= sees_up_to i ts -> w_op w = OpRollback.

(** the value a put record stands for *)
Definition value_of (s : store) (k : bytes) (w : wrec) (v : bytes) : Prop :=
  (w_short w = v /\ v <> []) \/ (w_short w = [] /\ data_at s k (w_start w) = Some v).

(** what a read of [k] at [ts] has to return; [] is "not found" *)
Definition reads (s : store) (i : iso) (ts : Z) (k : bytes) (v : bytes) : Prop :=
  (exists t w, newest s i ts k t w /\ w_op w = OpPut /\ value_of s k w v) \/
  (exists t w, newest s i ts k t w /\ w_op w = OpDelete /\ v = []) \/
  (nothing_visible s i ts k /\ v = []).

(** large values are where their records say (holds in every reachable store) *)
Definition values_there (s : store) : Prop :=
  forall k t w, write_at s k t = Some w -> w_op w = OpPut -> w_short w = [] ->
    exists v, v <> [] /\ data_at s k (w_start w) = Some v.

(** a complete scan of [a, b) *)
Definition in_range (a b k : bytes) : Prop := ble a k /\ blt k b.
Definition no_conflict (s : store) (i : iso) (ts : Z) (resolved : list Z) (k : bytes) : Prop :=
  forall l, lock_at s k = Some l -> ~ conflicting i ts resolved l.

(** [kvs] is what a scan of [a, b) has to return when it is not stopped by a lock: exactly the
    visible keys, in order *)
Definition full_scan (s : store) (i : iso) (ts : Z) (resolved : list Z) (a b : bytes)
           (kvs : list (bytes * bytes)) : Prop :=
  StronglySorted blt (map fst kvs) /\
  (forall k v, In (k, v) kvs <-> in_range a b k /\ reads s i ts k v /\ v <> []) /\
  (forall k, in_range a b k -> no_conflict s i ts resolved k).

(** ... and when the lock [l] stops it: exactly the visible keys before the first key with a
    conflicting lock, which is [l] *)
Definition stopped_scan (s : store) (i : iso) (ts : Z) (resolved : list Z) (a b : bytes)
           (kvs : list (bytes * bytes)) (l : lock) : Prop :=
  exists c, in_range a b c /\ lock_at s c = Some l /\ conflicting i ts resolved l /\
  StronglySorted blt (map fst kvs) /\
  (forall k v, In (k, v) kvs <-> in_range a b k /\ blt k c /\ reads s i ts k v /\ v <> []) /\
  (forall k, in_range a b k -> blt k c -> no_conflict s i ts resolved k).

(** later pages may find the data column family changed, but not the values their snapshot's
    records refer to *)
Definition same_values (s : store) (ds : smap (bytes * Z) bytes) : Prop :=
  forall k t w, write_at s k t = Some w -> w_op w = OpPut -> w_short w = [] ->
    get vcmp ds (k, w_start w) = data_at s k (w_start w).

(** a scan read page by page: one limit per page, and the data column family each page sees *)
Fixpoint more_pages (i : iso) (ts : Z) (resolved : list Z) (x : tit)
         (ps : list (Z * (nat -> bool) * smap (bytes * Z) bytes)) : outcome (list page) :=
  match ps with
  | [] => Ok []
  | (limit, full, ds) :: rest =>
      olet p := scan_next ds i ts resolved false limit full x in
      if pg_more (fst p) then
        olet q := more_pages i ts resolved (snd p) rest in Ok (fst p :: q)
      else Ok [fst p]
  end.
Definition scan_pages (s : store) (i : iso) (ts : Z) (resolved : list Z) (a b : bytes)
           (limit : Z) (full : nat -> bool)
           (ps : list (Z * (nat -> bool) * smap (bytes * Z) bytes)) : outcome (list page) :=
  olet p := scan_first s i ts resolved false limit full a b in
  match snd p with
  | Some x => if pg_more (fst p) then olet q := more_pages i ts resolved x ps in Ok (fst p :: q)
              else Ok [fst p]
  | None => Ok [fst p]
  end.

(** the locks of [a, b) with start timestamp in [lo, hi), in key order *)
Definition locks_between (s : store) (lo hi : Z) (a b : bytes) (ls : list lock) : Prop :=
  StronglySorted blt (map l_key ls) /\
  forall l, In l ls <-> exists k, lock_at s k = Some l /\ in_range a b k /\ lo <= l_ts l < hi.

(** what other clients may do between two reads of [k] at [ts] for the second to give the same
    answer: the store is not restarted; and whoever commits at or before [ts] is a transaction the
    reader did not declare resolved, had finished prewriting when the read was made, and its commit
    timestamp is above the for_update timestamp and, when a resolver writes it, not below the
    minimum commit timestamp of the lock the reader saw *)
Definition undisturbed (s : store) (resolved : list Z) (ts : Z) (k : bytes) (es : list event) : Prop :=
  ~ In ERestart es /\
  forall r n st ct, In (EReq r n) es -> In (st, ct) (commits_of r) -> ct <= ts ->
    ~ In st resolved /\
    (forall p m, In (EReq (RPrewrite p) m) es -> pw_start p <> st) /\
    (forall l, lock_at s k = Some l -> l_ts l = st ->
       l_fut l < ct /\
       (forall st' ct' keys txns, r = RResolve st' ct' keys txns -> l_minc l <= ct)).

(** a lock scan read page by page, one limit per page; ends early when a page says there is no
    more.  The flag tells whether it did. *)
Fixpoint lock_pages (lo hi : Z) (ps : list (Z * (nat -> bool))) (ls : list (bytes * lock))
  : list (list lock) * bool :=
  match ps with
  | [] => ([], false)
  | (limit, full) :: rest =>
      let '(got, more, ls') := scan_lock_page lo hi limit full ls in
      if more : bool then
        let q := lock_pages lo hi rest ls' in (got :: fst q, snd q)
      else ([got], true)
  end.
Definition scan_lock_pages (s : store) (lo hi : Z) (a b : bytes) (ps : list (Z * (nat -> bool))) :=
  lock_pages lo hi ps (scan_lock_init s a b).

(** some prewrite of transaction [st] in the history asked to put [v] on [k] / to delete [k] *)
Definition asked_put (es : list event) (st : Z) (k v : bytes) : Prop :=
  exists p n o, In (EReq (RPrewrite p) n) es /\ pw_start p = st /\ In (mkMut o k v) (pw_muts p) /\
    (o = OpPut \/ o = OpPutIfAbsent).
Definition asked_delete (es : list event) (st : Z) (k : bytes) : Prop :=
  exists p n v, In (EReq (RPrewrite p) n) es /\ pw_start p = st /\ In (mkMut OpDelete k v) (pw_muts p).
