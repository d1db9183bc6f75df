(** * The worker sets that carry requests and background jobs

    Every request of the store, index, document, coordinator, meta and version
    services, every raft apply and every background job of a vector or document
    index goes through a worker set of src/common/runnable.{h,cc}.  This file
    models the two that the servers create:

    - [SimpleWorkerSet]: one queue, several workers, optionally running a task
      in the thread of its caller;
    - [ExecqWorkerSet]: several workers with a queue each.

    A call of Execute is named by the number of calls made before it; its task
    has the same name, so passing one task object twice counts as two tasks.
    Threads interleave between the atomic actions listed with each machine.
    Worker threads are started by Init before any call; metrics and task traces
    are left out.  PriorWorkerSet, which no server creates, is not modelled. *)

From Coq Require Import ZArith List Bool Lia.
Import ListNotations.

Local Open Scope Z_scope.

(** What can be seen from outside: a call entered, a call returned (true:
    accepted), a task began to run, a task ended, Destroy was called. *)
Inductive event :=
| Called (k : nat)
| Returned (k : nat) (ok : bool)
| Started (k : nat)
| Ended (k : nat)
| Stopping.

(** [pending_task_count_.load()] is an int64_t read through PendingTaskCount(),
    which returns uint64_t (runnable.h:152). *)
Definition as_u64 (n : Z) : Z := n mod 2 ^ 64.

(** runnable.cc:385 (also 204, 223, 242):
    [max_pending_task_count > 0 && pending_task_count > max_pending_task_count],
    the comparison being one of uint64_t. *)
Definition over_limit (max pend : Z) : bool := (0 <? max) && (max <? as_u64 pend).

Definition set_nth {A} (n : nat) (x : A) (l : list A) : list A :=
  firstn n l ++ match skipn n l with [] => [] | _ :: r => x :: r end.

(** ** SimpleWorkerSet (runnable.cc:285-422) *)

Record scfg := mkScfg { c_workers : nat; c_max : Z; c_inplace : bool }.

(** Where a caller of Execute stands. *)
Inductive cpc :=
| CRead (seen : Z)     (* has read the count, was not refused     (:382-389) *)
| CCount (seen : Z)    (* has increased the count                 (:391-392) *)
| CRun                 (* runs the task itself                    (:398-401) *)
| CPush                (* has pushed the task, not yet signalled  (:409-411) *)
| CBackQ               (* returned true after pushing                 (:415) *)
| CBackI               (* returned true after running in place        (:415) *)
| CRefused.            (* returned false                              (:388) *)

(** Where a worker stands. *)
Inductive wpc :=
| WTop                 (* about to take the mutex                     (:306) *)
| WWait                (* in bthread_cond_wait                        (:308) *)
| WRun (k : nat)       (* runs task [k]                           (:325-333) *)
| WGone.               (* left the loop                           (:311-313) *)

Record sset := mkSset {
  s_pend : Z;
  s_stop : bool;
  s_queue : list nat;
  s_calls : list cpc;
  s_workers : list wpc
}.

(** runnable.cc:285-351: after Init. *)
Definition s_init (c : scfg) : sset :=
  mkSset 0 false [] [] (repeat WTop (c_workers c)).

Inductive slabel :=
| SCall                        (* a new call of Execute reads the count *)
| SCount (k : nat)             (* IncPendingTaskCount *)
| SBegin (k : nat)             (* the caller runs the task or pushes it *)
| SFinish (k : nat)            (* the task run in place ends; Dec; return *)
| SSignal (k : nat) (w : nat)  (* bthread_cond_signal; [w]: the waiter woken *)
| SWorker (w : nat)            (* a worker with the mutex: leave, wait or pop *)
| SEnd (w : nat)               (* the worker's task ends; Dec *)
| SSpurious (w : nat)          (* a wait returns by itself *)
| SDestroy                     (* Destroy sets is_stop *)
| SKick (w : nat).             (* Destroy's loop signals; [w]: the waiter woken *)

(** [bthread_cond_signal] wakes one waiter if there is one. *)
Definition is_wait (p : wpc) : bool := match p with WWait => true | _ => false end.

Definition any_wait (l : list wpc) : bool := existsb is_wait l.

Definition wake (w : nat) (l : list wpc) : option (list wpc) :=
  if any_wait l
  then match nth_error l w with
       | Some WWait => Some (set_nth w WTop l)
       | _ => None
       end
  else Some l.

(** One atomic action.  [None]: not possible in this state. *)
Definition sstep (c : scfg) (s : sset) (l : slabel) : option (sset * list event) :=
  match l with
  | SCall =>
      (* :382-389 *)
      let k := length (s_calls s) in
      if over_limit (c_max c) (s_pend s)
      then Some (mkSset (s_pend s) (s_stop s) (s_queue s) (s_calls s ++ [CRefused])
                        (s_workers s),
                 [Called k; Returned k false])
      else Some (mkSset (s_pend s) (s_stop s) (s_queue s)
                        (s_calls s ++ [CRead (as_u64 (s_pend s))]) (s_workers s),
                 [Called k])
  | SCount k =>
      (* :391 *)
      match nth_error (s_calls s) k with
      | Some (CRead n) =>
          Some (mkSset (s_pend s + 1) (s_stop s) (s_queue s)
                       (set_nth k (CCount n) (s_calls s)) (s_workers s), [])
      | _ => None
      end
  | SBegin k =>
      (* :398-401 and :409-411 *)
      match nth_error (s_calls s) k with
      | Some (CCount n) =>
          if c_inplace c && (n <? Z.of_nat (c_workers c))
          then Some (mkSset (s_pend s) (s_stop s) (s_queue s)
                            (set_nth k CRun (s_calls s)) (s_workers s), [Started k])
          else Some (mkSset (s_pend s) (s_stop s) (s_queue s ++ [k])
                            (set_nth k CPush (s_calls s)) (s_workers s), [])
      | _ => None
      end
  | SFinish k =>
      (* :405-406, :415 *)
      match nth_error (s_calls s) k with
      | Some CRun =>
          Some (mkSset (s_pend s - 1) (s_stop s) (s_queue s)
                       (set_nth k CBackI (s_calls s)) (s_workers s),
                [Ended k; Returned k true])
      | _ => None
      end
  | SSignal k w =>
      (* :412, :415 *)
      match nth_error (s_calls s) k with
      | Some CPush =>
          match wake w (s_workers s) with
          | Some ws =>
              Some (mkSset (s_pend s) (s_stop s) (s_queue s)
                           (set_nth k CBackQ (s_calls s)) ws, [Returned k true])
          | None => None
          end
      | _ => None
      end
  | SWorker w =>
      (* :306-323, the mutex being held throughout *)
      match nth_error (s_workers s) w with
      | Some WTop =>
          match s_queue s with
          | [] =>
              if s_stop s
              then Some (mkSset (s_pend s) (s_stop s) [] (s_calls s)
                                (set_nth w WGone (s_workers s)), [])
              else Some (mkSset (s_pend s) (s_stop s) [] (s_calls s)
                                (set_nth w WWait (s_workers s)), [])
          | k :: q =>
              Some (mkSset (s_pend s) (s_stop s) q (s_calls s)
                           (set_nth w (WRun k) (s_workers s)), [Started k])
          end
      | _ => None
      end
  | SEnd w =>
      (* :329-333 *)
      match nth_error (s_workers s) w with
      | Some (WRun k) =>
          Some (mkSset (s_pend s - 1) (s_stop s) (s_queue s) (s_calls s)
                       (set_nth w WTop (s_workers s)), [Ended k])
      | _ => None
      end
  | SSpurious w =>
      (* :307-309: the wait is in a loop *)
      match nth_error (s_workers s) w with
      | Some WWait =>
          Some (mkSset (s_pend s) (s_stop s) (s_queue s) (s_calls s)
                       (set_nth w WTop (s_workers s)), [])
      | _ => None
      end
  | SDestroy =>
      (* :355-362; a second call returns at once *)
      if s_stop s then None
      else Some (mkSset (s_pend s) true (s_queue s) (s_calls s) (s_workers s), [Stopping])
  | SKick w =>
      (* :364-367 *)
      if s_stop s
      then match nth_error (s_workers s) w with
           | Some WWait =>
               Some (mkSset (s_pend s) (s_stop s) (s_queue s) (s_calls s)
                            (set_nth w WTop (s_workers s)), [])
           | _ => None
           end
      else None
  end.

(** A schedule, and what was seen while it went on. *)
Fixpoint sruns (c : scfg) (s : sset) (ls : list slabel) : option (sset * list event) :=
  match ls with
  | [] => Some (s, [])
  | l :: ls' =>
      match sstep c s l with
      | None => None
      | Some (s1, e1) =>
          match sruns c s1 ls' with
          | None => None
          | Some (s2, e2) => Some (s2, e1 ++ e2)
          end
      end
  end.

(** ** ExecqWorkerSet (runnable.cc:40-127 and 181-272)

    A bthread execution queue runs the tasks pushed to it one after another, in
    the order of the pushes, in one bthread.  Destroy is not modelled. *)

Inductive emode :=
| ByRegion (region : Z)        (* ExecuteHashByRegionId *)
| RoundRobin                   (* ExecuteRR *)
| LeastQueue.                  (* ExecuteLeastQueue, Execute *)

Inductive epc :=
| ERead (w : nat)              (* not refused; worker chosen          (:242-248) *)
| EPush (w : nat)              (* task in the worker's queue              (:115) *)
| ECounted (w : nat)           (* the worker's count increased            (:121) *)
| EBack (w : nat)              (* the set's count increased, returned (:250-254) *)
| ERefused.                    (* returned false                          (:245) *)

Record ework := mkEwork {
  e_count : Z;                 (* pending_task_count_ of the worker *)
  e_queue : list nat;
  e_run : option nat
}.

Record eset := mkEset {
  e_pend : Z;
  e_next : Z;                  (* active_worker_id_ *)
  e_calls : list epc;
  e_works : list ework
}.

Definition e_init (workers : nat) : eset :=
  mkEset 0 0 [] (repeat (mkEwork 0 [] None) workers).

(** runnable.cc:257-272; INT32_MAX is never exceeded. *)
Fixpoint least_from (i : nat) (best : nat) (low : Z) (l : list ework) : nat :=
  match l with
  | [] => best
  | x :: l' =>
      if e_count x <? low then least_from (S i) i (e_count x) l'
      else least_from (S i) best low l'
  end.

Definition least (l : list ework) : nat := least_from 0 0 (2 ^ 31 - 1) l.

(** runnable.cc:210, 229, 248.  [None]: the index is outside the vector or the
    divisor is zero, which is undefined behaviour.  A region id is int64_t, the
    number of workers uint32_t: the remainder has the sign of the region id. *)
Definition choose (m : emode) (s : eset) : option nat :=
  let n := Z.of_nat (length (e_works s)) in
  match m with
  | ByRegion r =>
      if n =? 0 then None
      else if Z.rem r n <? 0 then None else Some (Z.to_nat (Z.rem r n))
  | RoundRobin => if n =? 0 then None else Some (Z.to_nat (e_next s mod n))
  | LeastQueue => if n =? 0 then None else Some (least (e_works s))
  end.

Inductive elabel :=
| XCall (m : emode)            (* reads the set's count, chooses a worker *)
| XPush (k : nat)              (* execution_queue_execute *)
| XCount (k : nat)             (* the worker's IncPendingTaskCount *)
| XReturn (k : nat)            (* the set's IncPendingTaskCount, return *)
| XStart (w : nat)             (* the worker begins its next task *)
| XEnd (w : nat).              (* it ends it; both counts go down *)

Inductive eout :=
| EOk (s : eset) (ev : list event)
| ECrash                       (* undefined behaviour *)
| ENot.                        (* not possible in this state *)

Definition on_work (s : eset) (w : nat) (x : ework) : list ework := set_nth w x (e_works s).

Definition estep (max : Z) (s : eset) (l : elabel) : eout :=
  match l with
  | XCall m =>
      (* :201-210, :220-229, :239-248 *)
      let k := length (e_calls s) in
      if over_limit max (e_pend s)
      then EOk (mkEset (e_pend s) (e_next s) (e_calls s ++ [ERefused]) (e_works s))
               [Called k; Returned k false]
      else match choose m s with
           | None => ECrash
           | Some w =>
               EOk (mkEset (e_pend s)
                           (match m with RoundRobin => e_next s + 1 | _ => e_next s end)
                           (e_calls s ++ [ERead w]) (e_works s))
                   [Called k]
           end
  | XPush k =>
      (* :108-115; the worker is available *)
      match nth_error (e_calls s) k with
      | Some (ERead w) =>
          match nth_error (e_works s) w with
          | Some x =>
              EOk (mkEset (e_pend s) (e_next s) (set_nth k (EPush w) (e_calls s))
                          (on_work s w (mkEwork (e_count x) (e_queue x ++ [k]) (e_run x))))
                  []
          | None => ENot
          end
      | _ => ENot
      end
  | XCount k =>
      (* :121 *)
      match nth_error (e_calls s) k with
      | Some (EPush w) =>
          match nth_error (e_works s) w with
          | Some x =>
              EOk (mkEset (e_pend s) (e_next s) (set_nth k (ECounted w) (e_calls s))
                          (on_work s w (mkEwork (e_count x + 1) (e_queue x) (e_run x))))
                  []
          | None => ENot
          end
      | _ => ENot
      end
  | XReturn k =>
      (* :249-254 *)
      match nth_error (e_calls s) k with
      | Some (ECounted w) =>
          EOk (mkEset (e_pend s + 1) (e_next s) (set_nth k (EBack w) (e_calls s)) (e_works s))
              [Returned k true]
      | _ => ENot
      end
  | XStart w =>
      (* :44-52 *)
      match nth_error (e_works s) w with
      | Some (mkEwork n (k :: q) None) =>
          EOk (mkEset (e_pend s) (e_next s) (e_calls s) (on_work s w (mkEwork n q (Some k))))
              [Started k]
      | _ => ENot
      end
  | XEnd w =>
      (* :52-62, runnable.h:166-170 *)
      match nth_error (e_works s) w with
      | Some (mkEwork n q (Some k)) =>
          EOk (mkEset (e_pend s - 1) (e_next s) (e_calls s)
                      (on_work s w (mkEwork (n - 1) q None)))
              [Ended k]
      | _ => ENot
      end
  end.

Fixpoint eruns (max : Z) (s : eset) (ls : list elabel) : eout :=
  match ls with
  | [] => EOk s []
  | l :: ls' =>
      match estep max s l with
      | EOk s1 e1 =>
          match eruns max s1 ls' with
          | EOk s2 e2 => EOk s2 (e1 ++ e2)
          | o => o
          end
      | o => o
      end
  end.

(** ** Raft apply (store_state_machine.cc:115-215)

    Each committed entry of a region is handed to the node's apply worker set;
    [DINGO_LOG(FATAL)] ends the process when the set refuses it (:207-211).
    Several regions apply at once; each waits for its entry. *)
Definition apply_refused (ev : list event) : bool :=
  existsb (fun e => match e with Returned _ false => true | _ => false end) ev.
