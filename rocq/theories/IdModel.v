(** Coordinator id allocation: the double-buffered id map, the coordinator's use of it (a scratch
    map for allocation, a replicated map, its copy on disk) and the version-kv's use of it.

    Simplifications.  64-bit counters are unbounded (the code aborts at INT64_MAX,
    coordinator/coordinator_control.cc:539).  A FlatMap is a partial function.  The raft layer is a
    totally ordered log of committed increments and one current leader; requests served by a
    leader that has been replaced without knowing it are not modelled (their increments never
    commit).  The keys RAFT_APPLY_TERM and RAFT_APPLY_INDEX, kept in the same map, are the [applied]
    counter of a node. *)
From Coq Require Import ZArith List Bool Arith.
Import ListNotations.
Open Scope Z_scope.

(* ------------------------------------------------------------------------------------ *)
(** * The double-buffered map *)

(** butil::FlatMap<int64_t, IdEpochInternal>: the value field by key *)
Definition fmap := Z -> option Z.

Definition fput (m : fmap) (k v : Z) : fmap := fun x => if x =? k then Some v else m x.

(** butil::DoublyBufferedData: the copy readers use and the other one *)
Record dbuf := mkD { fg : fmap; bg : fmap }.

(** DoublyBufferedData::Modify (external): the function runs on the background copy; result 0
    stops there; otherwise the copies change roles and it runs again on the other one.  [a] is the
    argument the functions of coordinator_meta_storage.h change through a const_cast. *)
Definition modify {A} (f : fmap -> A -> fmap * A * Z) (d : dbuf) (a : A) : dbuf * A * Z :=
  let '(m1, a1, r1) := f (bg d) a in
  if r1 =? 0 then (mkD (fg d) m1, a1, 0)
  else let '(m2, a2, _) := f (fg d) a1 in (mkD m1 m2, a2, r1).

(** coordinator_meta_storage.h: COORDINATOR_ID_OF_MAP_MIN, COORDINATOR_GET_NEXT_IDS_MAX_BATCH
    (coordinator/coordinator_meta_storage.h, coordinator_control.h) *)
Definition kIdMin : Z := 1000.
Definition kMaxBatch : Z := 100000.

(** GetPresentId, coordinator/coordinator_meta_storage.h:69-99 *)
Definition present (d : dbuf) (k : Z) : Z := match fg d k with Some v => v | None => 0 end.

(** InnerGetNextId, 141-163 *)
Definition inner_next (k : Z) (m : fmap) (_ : Z) : fmap * Z * Z :=
  match m k with
  | None => (fput m k (kIdMin + 1), kIdMin + 1, 1)
  | Some v => (fput m k (v + 1), v + 1, 1)
  end.

(** GetNextId, 101-111, with the caller's [next_id = 0] (coordinator_control.cc:536) *)
Definition next_id (d : dbuf) (k : Z) : dbuf * Z :=
  if k <=? 0 then (d, 0)
  else let '(d', v, _) := modify (inner_next k) d 0 in (d', v).

(** the ids base+1 .. base+n *)
Definition ids_from (base n : Z) : list Z := map (fun i => base + Z.of_nat i + 1) (seq 0 (Z.to_nat n)).

(** InnerGetNextIds, 165-202: the list is filled only if it is still empty *)
Definition inner_nexts (k n : Z) (m : fmap) (vs : list Z) : fmap * list Z * Z :=
  let need := match vs with [] => true | _ => false end in
  match m k with
  | None => (fput m k (kIdMin + n), if need then vs ++ ids_from kIdMin n else vs, 1)
  | Some v => (fput m k (v + n), if need then vs ++ ids_from v n else vs, 1)
  end.

(** GetNextIds, 113-124, on an empty result list; CoordinatorControl::GetNextIds,
    coordinator_control.cc:556-592 rejects count <= 0 the same way *)
Definition next_ids (d : dbuf) (k n : Z) : dbuf * list Z :=
  if (n <=? 0) || (k <=? 0) || (kMaxBatch <? n) then (d, [])
  else let '(d', vs, _) := modify (inner_nexts k n) d [] in (d', vs).

(** InnerUpdatePresentId, 204-224 *)
Definition inner_update (k v : Z) (m : fmap) (a : unit) : fmap * unit * Z :=
  match m k with
  | None => (fput m k v, a, 1)
  | Some x => if x <? v then (fput m k v, a, 1) else (m, a, 0)
  end.

(** UpdatePresentId, 130-137 *)
Definition update_present (d : dbuf) (k v : Z) : dbuf * Z :=
  if k <=? 0 then (d, -1)
  else let '(d', _, r) := modify (inner_update k v) d tt in (d', r).

(** what can be asked of an allocator: one id, several ids, raise the counter to a given value
    (restore from backup, server/meta_service.cc:4000; replicated updates) *)
Inductive areq := ANext (k : Z) | ANexts (k n : Z) | AUpdate (k v : Z).

(** the allocator after one request, the (key, id) pairs handed out, and the (key, value) update
    the request adds to its replicated increment: CoordinatorControl::GetNextId
    (coordinator_control.cc:533-554), GetNextIds (556-592, the largest id), UpdatePresentId
    (601-621) *)
Definition alloc (d : dbuf) (q : areq) : dbuf * list (Z * Z) * list (Z * Z) :=
  match q with
  | ANext k => let '(d', v) := next_id d k in (d', [(k, v)], [(k, v)])
  | ANexts k n =>
      let '(d', vs) := next_ids d k n in
      (d', map (fun v => (k, v)) vs, match vs with [] => [] | _ => [(k, fold_left Z.max vs (last vs 0))] end)
  | AUpdate k v => let '(d', _) := update_present d k v in (d', [], [(k, v)])
  end.

Fixpoint allocs (d : dbuf) (qs : list areq) : dbuf * list (Z * Z) * list (Z * Z) :=
  match qs with
  | [] => (d, [], [])
  | q :: r => let '(d1, o1, u1) := alloc d q in
              let '(d2, o2, u2) := allocs d1 r in (d2, o1 ++ o2, u1 ++ u2)
  end.

(* ------------------------------------------------------------------------------------ *)
(** * The coordinator group *)

(** what a request proposes: its counter updates, and the ids its answer will contain *)
Record incr := mkI { i_updates : list (Z * Z); i_ids : list (Z * Z) }.

(** a coordinator: [sm] = id_epoch_map_, [temp] = id_epoch_map_safe_temp_, [disk] = the id records
    of its engine, [applied] = number of log entries applied *)
Record cnode := mkN { sm : dbuf; temp : dbuf; disk : fmap; applied : nat }.

Definition both (m : fmap) : dbuf := mkD m m.

(** InitIds, coordinator/coordinator_control.cc:150-181; the keys are the enumerators
    ID_NEXT_COORINATOR, ID_NEXT_STORE, ID_NEXT_EXECUTOR, ID_NEXT_SCHEMA, ID_NEXT_TABLE,
    ID_NEXT_REGION, ID_NEXT_REGION_CMD, ID_NEXT_TENANT, numbered 1..8 here (the .proto file is not
    in the checkout) *)
Definition floors : list (Z * Z) :=
  [(1, 20000); (2, 30000); (3, 40000); (4, 50000); (5, 60000); (6, 80000); (7, 1000000); (8, 1000)].
Definition init_ids (d : dbuf) : dbuf :=
  fold_left (fun d '(k, v) => if present d k =? 0 then fst (update_present d k v) else d) floors d.

(** the idepochs loop of ApplyMetaIncrement, coordinator_control_fsm.cc:1065-1104 (operation UPDATE)
    with the write to disk at 2585-2592: only updates that changed the map are written *)
Definition apply_update (n : cnode) (u : Z * Z) : cnode :=
  let '(d', r) := update_present (sm n) (fst u) (snd u) in
  mkN d' (temp n) (if 0 <? r then fput (disk n) (fst u) (snd u) else disk n) (applied n).
Definition apply_incr (n : cnode) (e : incr) : cnode :=
  let n' := fold_left apply_update (i_updates e) n in mkN (sm n') (temp n') (disk n') (S (applied n)).

(** Recover, coordinator_control.cc:184-210, 428: Clear and MultiPut from disk, InitIds, BuildTempMaps *)
Definition recover_node (n : cnode) : cnode :=
  let d := init_ids (both (disk n)) in mkN d (both (fg d)) (disk n) (applied n).

(** LoadMetaFromSnapshotFile, coordinator_control_fsm.cc:417-450, 952: the snapshot is the id
    records of the other node's engine; InitIds is not called *)
Definition load_snapshot (n m : cnode) : cnode :=
  mkN (both (disk m)) (both (disk m)) (disk m) (applied m).

(** BuildTempMaps, coordinator_control_fsm.cc:65-73 *)
Definition build_temp (n : cnode) : cnode := mkN (sm n) (both (fg (sm n))) (disk n) (applied n).

(** the group: the committed log, the leader, whether its OnLeaderStart has run, and the
    increments it has proposed that are not committed yet *)
Record csys := mkC { nodes : nat -> cnode; clog : list incr; leader : option nat; ready : bool; pending : list incr }.

Definition set_node (f : nat -> cnode) (i : nat) (n : cnode) : nat -> cnode := fun j => if (j =? i)%nat then n else f j.

Inductive cevent :=
| CRequest (i : nat) (qs : list areq)  (** node i, being leader, serves a request *)
| CCommit (p : nat)                     (** the p-th outstanding proposal commits *)
| CApply (i : nat)                      (** node i applies its next log entry *)
| CRestart (i : nat)                    (** node i restarts *)
| CInstall (i j : nat)                  (** node i installs a snapshot of node j *)
| CElect (i : nat)                      (** node i wins the election; raft/meta_state_machine.cc:240 SetLeaderTerm *)
| CStart (i : nat).                     (** 241: OnLeaderStart *)

Fixpoint remove_nth {A} (n : nat) (l : list A) : list A :=
  match l, n with
  | [], _ => []
  | _ :: r, O => r
  | x :: r, S m => x :: remove_nth m r
  end.

Definition is_leader (s : csys) (i : nat) : bool := match leader s with Some j => (j =? i)%nat | None => false end.

(** one event; events that cannot happen leave the state unchanged.  An election is won by a node
    that has the committed log, and on_leader_start runs after it has applied all of it (braft); the
    proposals of the previous leader that are not committed by then are lost. *)
Definition cstep (s : csys) (e : cevent) : csys * list (Z * Z) :=
  match e with
  | CRequest i qs =>
      if is_leader s i then
        let n := nodes s i in
        let '(d, out, ups) := allocs (temp n) qs in
        (mkC (set_node (nodes s) i (mkN (sm n) d (disk n) (applied n))) (clog s) (leader s) (ready s)
             (pending s ++ [mkI ups out]), out)
      else (s, [])
  | CCommit p =>
      match nth_error (pending s) p with
      | Some x => (mkC (nodes s) (clog s ++ [x]) (leader s) (ready s) (remove_nth p (pending s)), [])
      | None => (s, [])
      end
  | CApply i =>
      match nth_error (clog s) (applied (nodes s i)) with
      | Some x => (mkC (set_node (nodes s) i (apply_incr (nodes s i) x)) (clog s) (leader s) (ready s) (pending s), [])
      | None => (s, [])
      end
  | CRestart i =>
      (mkC (set_node (nodes s) i (recover_node (nodes s i))) (clog s)
           (if is_leader s i then None else leader s) (ready s) (pending s), [])
  | CInstall i j =>
      if negb (is_leader s i) && (applied (nodes s i) <? applied (nodes s j))%nat
      then (mkC (set_node (nodes s) i (load_snapshot (nodes s i) (nodes s j))) (clog s) (leader s) (ready s) (pending s), [])
      else (s, [])
  | CElect i =>
      if (applied (nodes s i) =? length (clog s))%nat
      then (mkC (nodes s) (clog s) (Some i) false [], []) else (s, [])
  | CStart i =>
      if is_leader s i && negb (ready s)
      then (mkC (set_node (nodes s) i (build_temp (nodes s i))) (clog s) (leader s) true (pending s), [])
      else (s, [])
  end.

Fixpoint crun (s : csys) (es : list cevent) : csys :=
  match es with [] => s | e :: r => crun (fst (cstep s e)) r end.

(** a new cluster: every node has started with an empty engine *)
Definition node0 : cnode := recover_node (mkN (both (fun _ => None)) (both (fun _ => None)) (fun _ => None) 0).
Definition csys0 : csys := mkC (fun _ => node0) [] None false [].

(* ------------------------------------------------------------------------------------ *)
(** * The version-kv's ids (lease ids): allocation on the replicated map itself *)

(** [kmem] = KvControl::id_epoch_map_, [kdisk] = its records on disk *)
Record knode := mkK { kmem : dbuf; kdisk : fmap }.

(** ID_NEXT_REVISION and ID_NEXT_LEASE, numbered 1 and 2; InitIds, coordinator/kv_control.cc:73-80 *)
Definition kfloors : list (Z * Z) := [(1, 10000); (2, 90000)].
Definition kinit (d : dbuf) : dbuf :=
  fold_left (fun d '(k, v) => if present d k =? 0 then fst (update_present d k v) else d) kfloors d.

Inductive kevent :=
| KNext (k : Z)         (** KvControl::GetNextId, kv_control.cc:229-250 *)
| KApply (k v : Z)      (** kv_control_fsm.cc:555-562: written to disk whenever the result is >= 0 *)
| KRestart.             (** Recover, kv_control.cc:82-99 *)

Definition kstep (n : knode) (e : kevent) : knode * list (Z * Z) :=
  match e with
  | KNext k => let '(d, v) := next_id (kmem n) k in (mkK d (kdisk n), [(k, v)])
  | KApply k v =>
      let '(d, r) := update_present (kmem n) k v in
      (mkK d (if 0 <=? r then fput (kdisk n) k v else kdisk n), [])
  | KRestart => (mkK (kinit (both (kdisk n))) (kdisk n), [])
  end.

Fixpoint krun (n : knode) (es : list kevent) : knode * list (Z * Z) :=
  match es with
  | [] => (n, [])
  | e :: r => let '(n1, o1) := kstep n e in let '(n2, o2) := krun n1 r in (n2, o1 ++ o2)
  end.

Definition knode0 : knode := mkK (kinit (both (fun _ => None))) (fun _ => None).
