(** The in-memory lock table (engine/concurrency_manager.cc) and the two protocols around it: reads
    (server/store_service.cc:1676-1735, 1795-1860) and prewrites with one-phase or async commit
    (server/store_service.cc:2205-2279, engine/txn_engine_helper.cc:2182-2206).

    Readers and writers are threads; one step is one critical section or one atomic access.  What a
    writer puts into the store is one atomic batch (raft write, which returns after it was applied);
    the store is represented by the list of writers whose batch has been applied, and a read takes a
    snapshot of it. *)
From Coq Require Import ZArith List Bool Arith.
From Verif Require Import Bytes SMap Outcome TxnModel TxnReadModel.
From Verif Require LatchModel.
Import ListNotations.
Open Scope Z_scope.

(** ConcurrencyManager::LockEntry, concurrency_manager.h:37-48; [e_busy]: rw_lock is held for writing by
    the prewrite that made the entry; [e_owner] names that prewrite (not in the code) *)
Record entry := mkE { e_lock : lock; e_busy : bool; e_dead : bool; e_owner : nat }.

(** lock_table_ (by key) and the heap of entries *)
Record table := mkTab { tab : smap bytes nat; heap : list entry }.

(** ConcurrencyManager::LockKey, concurrency_manager.cc:23-27, with the new entry of
    txn_engine_helper.cc:2185-2188 *)
Definition lock_key (t : table) (l : lock) (who : nat) : table :=
  mkTab (put bcmp (tab t) (l_key l) (length (heap t))) (heap t ++ [mkE l true false who]).

Definition set_entry (t : table) (e : nat) (f : entry -> entry) : table :=
  match nth_error (heap t) e with
  | Some x => mkTab (tab t) (LatchModel.upd (heap t) e (f x))
  | None => t
  end.

(** ConcurrencyManager::UnlockKeys, 29-39 *)
Fixpoint unlock_keys (t : table) (keys : list bytes) : table :=
  match keys with
  | [] => t
  | k :: r =>
      match get bcmp (tab t) k with
      | Some e => unlock_keys (let t' := set_entry t e (fun x => mkE (e_lock x) (e_busy x) true (e_owner x)) in
                               mkTab (del bcmp (tab t') k) (heap t')) r
      | None => unlock_keys t r
      end
  end.

(** which keys a read touches: the keys of CheckKeys, 41-53, or the range of CheckRange, 70-84 *)
Inductive scope := Keys (ks : list bytes) | Range (a b : bytes).

(** the entries collected under the table's lock *)
Definition collect (t : table) (sc : scope) : list nat :=
  match sc with
  | Keys ks => flat_map (fun k => match get bcmp (tab t) k with Some e => [e] | None => [] end) ks
  | Range a b => map snd (filter (fun p => bleb a (fst p) && bltb (fst p) b) (tab t))
  end.

(** a snapshot isolation read; with ReadCommitted the table is not consulted (store_service.cc:1704) *)
Record rreq := mkR { r_ts : Z; r_scope : scope; r_resolved : list Z }.
Inductive rphase :=
| RStart                          (* before SetTxnAccessMaxTs, store_service.cc:1686, 1804 *)
| RLook                           (* before the entries are collected *)
| RCheck (es : list nat)          (* before the is_deleted flag of the next entry is read *)
| RLocked (e : nat) (es : list nat) (* before the entry's rw_lock is taken for reading *)
| RPass                           (* passed; before the snapshot of the store is taken *)
| RDone (snap : list nat)
| RRefused (e : nat).             (* ETXN_MEMORY_LOCK_CONFLICT *)
Record reader := mkRd { rq : rreq; rph : rphase }.

(** one published mutation: the lock that GenPrewriteDataAndLock has built, and for_update_ts *)
Record item := mkI { i_lock : lock; i_fut : Z }.
(** a prewrite with try_one_pc or use_async_commit.  [w_more]: keys of mutations that publish no lock
    (repeated prewrite, CheckNotExists); [w_latch]: the latches it takes; [w_unlock]: the service
    unpublishes its keys at the end (store_service.cc:2232; the index and document services do not) *)
Record wreq := mkWr { w_items : list item; w_more : list bytes; w_start_ts : Z; w_maxc : Z;
                      w_latch : list bytes; w_unlock : bool }.
Inductive wphase :=
| WIdle
| WPub (i : nat)                  (* before the i-th mutation *)
| WTs (i e : nat)                 (* published as entry e, before TxnAccessMaxTs is read, 2190 *)
| WRel (i e : nat) (m : Z)        (* min_commit_ts computed, the entry's rw_lock still held *)
| WWrite                          (* before the raft write *)
| WUnpub                          (* before UnlockKeys *)
| WEnd.
(** [w_final]: final_min_commit_ts, 0 before the first mutation and after a fallback *)
Record writer := mkWt { wq : wreq; wph : wphase; w_final : Z }.

Record cstate := mkC { maxts : Z; tb : table; rds : list reader; wrs : list writer; applied : list nat }.

Definition item_keys (q : wreq) : list bytes := map (fun it => l_key (i_lock it)) (w_items q).
Definition all_keys (q : wreq) : list bytes := item_keys q ++ w_more q.

Definition active (w : writer) : bool := match wph w with WIdle | WEnd => false | _ => true end.

(** no other writer that is between acquire and release shares a latch key (C30) *)
Definition latches_free (s : cstate) (q : wreq) : bool :=
  forallb (fun w => negb (active w) || negb (existsb (fun k => existsb (beqb k) (w_latch (wq w))) (w_latch q))) (wrs s).

(** the choices of a schedule: a reader or a writer moves, a writer gives up (a conflict or an error
    answered instead of the write), or another request raises the access timestamp *)
Inductive choice := CReader (i : nat) | CWriter (i : nat) | CFail (i : nat) | CAccess (ts : Z).

Definition reader_step (s : cstate) (r : reader) : option (cstate -> cstate) * option rphase :=
  match rph r with
  | RStart => (Some (fun s => mkC (Z.max (maxts s) (r_ts (rq r))) (tb s) (rds s) (wrs s) (applied s)), Some RLook)
  | RLook => (None, Some (RCheck (collect (tb s) (r_scope (rq r)))))
  | RCheck [] => (None, Some RPass)
  | RCheck (e :: es) =>
      match nth_error (heap (tb s)) e with
      | Some x => if e_dead x then (None, Some (RCheck es)) else (None, Some (RLocked e es))
      | None => (None, None)
      end
  | RLocked e es =>
      match nth_error (heap (tb s)) e with
      | Some x =>
          if e_busy x then (None, None)
          else if lock_conflict SI (r_ts (rq r)) (r_resolved (rq r)) (e_lock x) then (None, Some (RRefused e))
          else (None, Some (RCheck es))
      | None => (None, None)
      end
  | RPass => (None, Some (RDone (applied s)))
  | RDone _ | RRefused _ => (None, None)
  end.

Definition set_reader (s : cstate) (i : nat) (r : reader) : cstate :=
  mkC (maxts s) (tb s) (LatchModel.upd (rds s) i r) (wrs s) (applied s).
Definition set_writer (s : cstate) (i : nat) (w : writer) : cstate :=
  mkC (maxts s) (tb s) (rds s) (LatchModel.upd (wrs s) i w) (applied s).
Definition set_table (s : cstate) (t : table) : cstate := mkC (maxts s) t (rds s) (wrs s) (applied s).

(** one step; [None] if it cannot be taken *)
Definition cstep (s : cstate) (c : choice) : option cstate :=
  match c with
  | CAccess ts => Some (mkC (Z.max (maxts s) ts) (tb s) (rds s) (wrs s) (applied s))
  | CReader i =>
      match nth_error (rds s) i with
      | None => None
      | Some r => match reader_step s r with
                  | (f, Some p) => Some (set_reader (match f with Some g => g s | None => s end) i (mkRd (rq r) p))
                  | (_, None) => None
                  end
      end
  | CFail i =>
      match nth_error (wrs s) i with
      | Some w => match wph w with
                  | WPub _ | WWrite => Some (set_writer s i (mkWt (wq w) WUnpub (w_final w)))
                  | _ => None
                  end
      | None => None
      end
  | CWriter i =>
      match nth_error (wrs s) i with
      | None => None
      | Some w =>
          let go p f := set_writer s i (mkWt (wq w) p f) in
          match wph w with
          | WIdle => if latches_free s (wq w) then Some (go (WPub 0) (w_final w)) else None
          | WPub j =>
              match nth_error (w_items (wq w)) j with
              | None => Some (go WWrite (w_final w))
              | Some it => Some (set_table (go (WTs j (length (heap (tb s)))) (w_final w)) (lock_key (tb s) (i_lock it) i))
              end
          | WTs j e =>
              match nth_error (w_items (wq w)) j with
              | None => None
              | Some it =>
                  Some (go (WRel j e (gen_final_min_commit (maxts s) (l_minc (i_lock it)) (w_start_ts (wq w)) (i_fut it) (w_maxc (wq w))))
                           (w_final w))
              end
          | WRel j e m =>
              (* 2195-2198; then 3215-3221: a fallback to two-phase commit publishes no further lock *)
              let t := set_entry (tb s) e (fun x => mkE (if 0 <? m then with_minc (e_lock x) m else e_lock x) false (e_dead x) (e_owner x)) in
              if m =? 0 then Some (set_table (go WWrite 0) t)
              else Some (set_table (go (WPub (S j)) (if w_final w <? m then m else w_final w)) t)
          | WWrite => Some (let s' := go WUnpub (w_final w) in mkC (maxts s') (tb s') (rds s') (wrs s') (i :: applied s'))
          | WUnpub =>
              Some (set_table (go WEnd (w_final w)) (if w_unlock (wq w) then unlock_keys (tb s) (all_keys (wq w)) else tb s))
          | WEnd => None
          end
      end
  end.

(** a schedule; choices that cannot be taken are skipped *)
Fixpoint crun (s : cstate) (sched : list choice) : cstate :=
  match sched with
  | [] => s
  | c :: r => crun (match cstep s c with Some s' => s' | None => s end) r
  end.

Definition cinit (ts : Z) (rs : list rreq) (ws : list wreq) : cstate :=
  mkC ts (mkTab [] []) (map (fun q => mkRd q RStart) rs) (map (fun q => mkWt q WIdle 0) ws) [].
