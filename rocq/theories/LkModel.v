(** Model of the read-write lock, the thread pool and the parallel calls built on them.
    Source: /repo/src, read as text.

    Left out: the contents of tasks, binding of threads to cores, metrics and log lines. *)
From Coq Require Import ZArith List Bool Arith.
Import ListNotations.

(** element [i] of a list replaced *)
Fixpoint put {A} (l : list A) (i : nat) (x : A) : list A :=
  match l, i with
  | [], _ => []
  | _ :: r, O => x :: r
  | a :: r, S j => a :: put r j x
  end.
(** element [i] of a list taken out *)
Fixpoint cut {A} (l : list A) (i : nat) : list A :=
  match l, i with
  | [], _ => []
  | _ :: r, O => r
  | a :: r, S j => a :: cut r j
  end.

(** * A. RWLock *)

(** What a thread does: [RSleep], [WSleep] are inside bthread_cond_wait of LockRead and LockWrite,
    [RAwake], [WAwake] have been woken and want mutex_ to look again. *)
Inductive thr := Idle | RSleep | RAwake | Reading | WSleep | WAwake | Writing.
(** synchronization.h RWLock *)
Record rw := mkRw { active_readers : Z; active_writer : bool; waiting_writers : Z }.
Record sys := mkSys { lk : rw; th : list thr }.
Definition sys0 (n : nat) : sys := mkSys (mkRw 0 false 0) (repeat Idle n).

(** synchronization.cc:198-201 *)
Definition can_read (l : rw) : bool := negb (active_writer l) && (waiting_writers l =? 0)%Z.
(** synchronization.cc:203-206 *)
Definition can_write (l : rw) : bool := (active_readers l =? 0)%Z && negb (active_writer l).

(** bthread_cond_broadcast: all that sleep are woken *)
Definition wake (t : thr) : thr := match t with RSleep => RAwake | WSleep => WAwake | _ => t end.

(** The steps. Each is what a thread does while it holds mutex_: from a call, or from being woken,
    to going to sleep or returning. *)
Inductive lev := LockRead (i : nat) | UnlockRead (i : nat) | LockWrite (i : nat) | UnlockWrite (i : nat)
  | Look (i : nat)          (* a woken thread has mutex_ again *)
  | Spurious (i : nat).     (* a sleeping thread is woken by nobody *)

(** the loop of LockRead, synchronization.cc:220-223 *)
Definition try_read (s : sys) (i : nat) : sys :=
  let l := lk s in
  if can_read l then mkSys (mkRw (active_readers l + 1) (active_writer l) (waiting_writers l)) (put (th s) i Reading)
  else mkSys l (put (th s) i RSleep).
(** the loop of LockWrite, :237-241 *)
Definition try_write (s : sys) (i : nat) : sys :=
  let l := lk s in
  if can_write l then mkSys (mkRw (active_readers l) true (waiting_writers l - 1)) (put (th s) i Writing)
  else mkSys l (put (th s) i WSleep).

(** synchronization.cc:218-248; None: the thread is not at this point. Unlocking is called by the
    holder only, as the guards do (:250-276) *)
Definition lstep (s : sys) (e : lev) : option sys :=
  let l := lk s in
  match e with
  | LockRead i => match nth_error (th s) i with Some Idle => Some (try_read s i) | _ => None end
  | LockWrite i =>
      match nth_error (th s) i with
      | Some Idle => Some (try_write (mkSys (mkRw (active_readers l) (active_writer l) (waiting_writers l + 1)) (th s)) i)
      | _ => None
      end
  | UnlockRead i =>
      match nth_error (th s) i with
      | Some Reading =>
          let r := (active_readers l - 1)%Z in
          let t := put (th s) i Idle in
          Some (mkSys (mkRw r (active_writer l) (waiting_writers l)) (if (r =? 0)%Z then map wake t else t))
      | _ => None
      end
  | UnlockWrite i =>
      match nth_error (th s) i with
      | Some Writing => Some (mkSys (mkRw (active_readers l) false (waiting_writers l)) (map wake (put (th s) i Idle)))
      | _ => None
      end
  | Look i =>
      match nth_error (th s) i with
      | Some RAwake => Some (try_read s i)
      | Some WAwake => Some (try_write s i)
      | _ => None
      end
  | Spurious i =>
      match nth_error (th s) i with
      | Some RSleep => Some (mkSys l (put (th s) i RAwake))
      | Some WSleep => Some (mkSys l (put (th s) i WAwake))
      | _ => None
      end
  end.
Definition lnext (s : sys) (e : lev) : sys := match lstep s e with Some t => t | None => s end.
Definition lrun (s : sys) (es : list lev) : sys := fold_left lnext es s.

(** * B. ThreadPool *)

(** What a worker does (threadpool.cc:141-176): [PCheck] wants task_mutex_ to look; [PGap] has it
    and has found that it has to wait, and does not yet wait (between the test of the predicate and
    the sleep, :147-148); [PSleep] waits; [PRun t] runs task [t]; [PExit] has returned. *)
Inductive wpc := PCheck | PGap | PSleep | PRun (t : nat) | PExit.
(** ThreadEntry; [w_leave]: taken out of workers_ by ShrinkThreadPool, which waits for it *)
Record worker := mkW { w_pc : wpc; w_stop : bool; w_leave : bool }.
(** who holds mutex_ and where: [d] tells Destroy from ShrinkThreadPool *)
Inductive mph := MFree | MNotify (d : bool) | MJoin (d : bool).
(** Destroy: not called, has set is_destroied_, is inside, has returned *)
Inductive dph := DNone | DFlag | DIn | DDone.
(** [p_q]: tasks_, with the number and the priority of each task; [p_sub]: priorities of the calls of
    ExecuteTask that have found is_destroied_ not set and have not pushed; [p_ntf]: calls that have
    pushed and not notified; [p_next]: number of the next task; [p_done]: tasks after WakeUp;
    [p_joined]: calls of Join that have returned; [p_dead]: std::terminate was called. *)
Record pool := mkPool { p_q : list (nat * Z); p_ws : list worker; p_mu : mph; p_des : dph;
                        p_sub : list Z; p_ntf : nat; p_next : nat; p_done : list nat;
                        p_joined : list nat; p_dead : bool }.
(** threadpool.cc:37-48 and BootstrapThread :129-131 *)
Definition new_worker : worker := mkW PCheck false false.
Definition pool0 (n : nat) : pool := mkPool [] (repeat new_worker n) MFree DNone [] 0 0 [] [] false.

(** how the function of a task ends *)
Inductive ending := Returns | ThrowsStd | ThrowsOther.

Inductive pev :=
  | ESubmit (prio : Z)            (* ExecuteTask begins *)
  | EPush (k : nat)               (* the [k]-th of the calls under way pushes *)
  | ENotify (w : nat)             (* a call notifies; [w] is the worker woken, if one sleeps *)
  | EWork (w : nat) (k : nat)     (* worker [w] has task_mutex_ and looks; [k]: the place of the task
                                     that top() gives among those of highest priority *)
  | ESleep (w : nat)              (* worker [w] begins to wait *)
  | EWakeUp (w : nat)             (* worker [w] is woken by nobody *)
  | EEnd (w : nat) (o : ending)   (* the function that [w] runs ends *)
  | EAdjust (n : nat)             (* AdjustPoolSize *)
  | ENotifyAll                    (* the holder of mutex_ notifies *)
  | EJoinWorkers                  (* the holder of mutex_ has joined its workers and returns *)
  | EDestroy                      (* Destroy begins *)
  | EDestroyLock                  (* Destroy has mutex_ and sets the flags *)
  | EJoinTask (t : nat).          (* Join of task [t] returns *)

Definition is_sleep (w : worker) : bool := match w_pc w with PSleep => true | _ => false end.
Definition is_gap (w : worker) : bool := match w_pc w with PGap => true | _ => false end.
Definition is_exit (w : worker) : bool := match w_pc w with PExit => true | _ => false end.
Definition at_pc (w : worker) (c : wpc) : worker := mkW c (w_stop w) (w_leave w).
(** task_mutex_ is held over no step but [PGap] *)
Definition tm_free (s : pool) : bool := negb (existsb is_gap (p_ws s)).

(** notify_all *)
Definition rouse (w : worker) : worker := if is_sleep w then at_pc w PCheck else w.
(** Task::operator() (threadpool.h:54-56) makes tasks_ a heap with the highest priority on top; which
    of several with that priority is on top is left open *)
Definition is_top (q : list (nat * Z)) (k : nat) : bool :=
  match nth_error q k with
  | Some (_, pr) => forallb (fun e => (snd e <=? pr)%Z) q
  | None => false
  end.

(** the workers of workers_ beyond the first [n] get is_stop and are waited for
    (ShrinkThreadPool, threadpool.cc:188-197) *)
Fixpoint shrink (ws : list worker) (n : nat) : list worker :=
  match ws with
  | [] => []
  | w :: r => if w_leave w then w :: shrink r n
              else match n with
                   | O => mkW (w_pc w) true true :: shrink r O
                   | S m => w :: shrink r m
                   end
  end.
Definition members (ws : list worker) : nat := length (filter (fun w => negb (w_leave w)) ws).

Definition set_ws (s : pool) (ws : list worker) : pool :=
  mkPool (p_q s) ws (p_mu s) (p_des s) (p_sub s) (p_ntf s) (p_next s) (p_done s) (p_joined s) (p_dead s).
Definition set_mu (s : pool) (ws : list worker) (m : mph) (d : dph) : pool :=
  mkPool (p_q s) ws m d (p_sub s) (p_ntf s) (p_next s) (p_done s) (p_joined s) (p_dead s).

(** threadpool.cc:144-158, one look of worker [w] *)
Definition work (s : pool) (i k : nat) (w : worker) : option pool :=
  match p_q s with
  | [] => Some (set_ws s (put (p_ws s) i (at_pc w (if w_stop w then PExit else PGap))))
  | _ => if is_top (p_q s) k then
           match nth_error (p_q s) k with
           | Some (t, _) =>
               Some (mkPool (cut (p_q s) k) (put (p_ws s) i (at_pc w (PRun t))) (p_mu s) (p_des s)
                       (p_sub s) (p_ntf s) (p_next s) (p_done s) (p_joined s) (p_dead s))
           | None => None
           end
         else None
  end.

Definition pstep0 (s : pool) (e : pev) : option pool :=
  match e with
  (* threadpool.cc:217-220; nullptr is answered if Destroy has begun *)
  | ESubmit pr =>
      match p_des s with
      | DNone => Some (mkPool (p_q s) (p_ws s) (p_mu s) (p_des s) (p_sub s ++ [pr]) (p_ntf s) (p_next s)
                         (p_done s) (p_joined s) (p_dead s))
      | _ => None
      end
  (* :222-232 *)
  | EPush k =>
      if tm_free s then
        match nth_error (p_sub s) k with
        | Some pr => Some (mkPool (p_q s ++ [(p_next s, pr)]) (p_ws s) (p_mu s) (p_des s) (cut (p_sub s) k)
                             (S (p_ntf s)) (S (p_next s)) (p_done s) (p_joined s) (p_dead s))
        | None => None
        end
      else None
  (* :237, notify_one *)
  | ENotify i =>
      match p_ntf s with
      | O => None
      | S m =>
          let go ws := Some (mkPool (p_q s) ws (p_mu s) (p_des s) (p_sub s) m (p_next s) (p_done s)
                               (p_joined s) (p_dead s)) in
          if existsb is_sleep (p_ws s) then
            match nth_error (p_ws s) i with
            | Some w => if is_sleep w then go (put (p_ws s) i (at_pc w PCheck)) else None
            | None => None
            end
          else go (p_ws s)
      end
  | EWork i k =>
      match nth_error (p_ws s) i with
      | Some w => match w_pc w with PCheck => if tm_free s then work s i k w else None | _ => None end
      | None => None
      end
  | ESleep i =>
      match nth_error (p_ws s) i with
      | Some w => match w_pc w with PGap => Some (set_ws s (put (p_ws s) i (at_pc w PSleep))) | _ => None end
      | None => None
      end
  | EWakeUp i =>
      match nth_error (p_ws s) i with
      | Some w => match w_pc w with PSleep => Some (set_ws s (put (p_ws s) i (at_pc w PCheck))) | _ => None end
      | None => None
      end
  (* :160-173; what is no std::exception leaves the inner try and the thread *)
  | EEnd i o =>
      match nth_error (p_ws s) i with
      | Some w =>
          match w_pc w with
          | PRun t =>
              match o with
              | ThrowsOther =>
                  Some (mkPool (p_q s) (p_ws s) (p_mu s) (p_des s) (p_sub s) (p_ntf s) (p_next s) (p_done s)
                          (p_joined s) true)
              | _ =>
                  Some (mkPool (p_q s) (put (p_ws s) i (at_pc w PCheck)) (p_mu s) (p_des s) (p_sub s) (p_ntf s)
                          (p_next s) (p_done s ++ [t]) (p_joined s) (p_dead s))
              end
          | _ => None
          end
      | None => None
      end
  (* :52-61, :184-197, :208-215 *)
  | EAdjust n =>
      match p_mu s with
      | MFree =>
          let m := members (p_ws s) in
          if (n <? m)%nat then Some (set_mu s (shrink (p_ws s) n) (MNotify false) (p_des s))
          else Some (set_ws s (p_ws s ++ repeat new_worker (n - m)))
      | _ => None
      end
  (* :199, :269; neither holds task_mutex_ *)
  | ENotifyAll =>
      match p_mu s with
      | MNotify d => Some (set_mu s (map rouse (p_ws s)) (MJoin d) (p_des s))
      | _ => None
      end
  (* :201-205, :270-274 *)
  | EJoinWorkers =>
      match p_mu s with
      | MJoin false =>
          if forallb (fun w => negb (w_leave w) || is_exit w) (p_ws s)
          then Some (set_mu s (filter (fun w => negb (w_leave w)) (p_ws s)) MFree (p_des s)) else None
      | MJoin true => if forallb is_exit (p_ws s) then Some (set_mu s (p_ws s) MFree DDone) else None
      | _ => None
      end
  (* :252-260; a second call returns at once *)
  | EDestroy => match p_des s with DNone => Some (set_mu s (p_ws s) (p_mu s) DFlag) | _ => None end
  (* :262-267 *)
  | EDestroyLock =>
      match p_des s, p_mu s with
      | DFlag, MFree => Some (set_mu s (map (fun w => mkW (w_pc w) true (w_leave w)) (p_ws s)) (MNotify true) DIn)
      | _, _ => None
      end
  (* Join :278-282 is IncreaseWait(0) (synchronization.cc:73-88) of a count that is 0 at first and
     that WakeUp (:284-288, DecreaseSignal synchronization.cc:42-48) makes smaller by one *)
  | EJoinTask t =>
      if (count_occ Nat.eq_dec (p_joined s) t <? count_occ Nat.eq_dec (p_done s) t)%nat
      then Some (mkPool (p_q s) (p_ws s) (p_mu s) (p_des s) (p_sub s) (p_ntf s) (p_next s) (p_done s)
                   (t :: p_joined s) (p_dead s))
      else None
  end.
(** after std::terminate nothing happens *)
Definition pstep (s : pool) (e : pev) : option pool := if p_dead s then None else pstep0 s e.
Definition pnext (s : pool) (e : pev) : pool := match pstep s e with Some t => t | None => s end.
Definition prun (s : pool) (es : list pev) : pool := fold_left pnext es s.

(** * C. Parallel calls *)

(** how the function for one batch ends: a status code, 0 for OK, or an exception *)
Inductive fnres := FRet (code : Z) | FThrow.

(** SplitVectorWithId, vector_index.cc:59-70; [fuel]: the number of rounds allowed, the length is
    enough for a positive batch size *)
Fixpoint split {A} (fuel : nat) (l : list A) (bs : nat) : list (list A) :=
  match fuel, l with
  | S f, _ :: _ => firstn bs l :: split f (skipn bs l) bs
  | _, _ => []
  end.
Definition split_batches {A} (l : list A) (bs : nat) : list (list A) := split (length l) l bs.

(** ParallelRun, vector_index.cc:73-104. For each batch: whether ExecuteTask gave a task, and how
    the function would end. A status that is not assigned is OK. *)
Definition batch_status (x : bool * fnres) : Z :=
  match x with (true, FRet c) => c | _ => 0%Z end.
Fixpoint first_bad (l : list Z) : Z :=
  match l with [] => 0%Z | c :: r => if (c =? 0)%Z then first_bad r else c end.
Definition parallel_run (bs : list (bool * fnres)) : Z := first_bad (map batch_status bs).

(** ParallelFor, vector_index_hnsw.cc:85-125. [fails]: the rows for which the function throws.
    In the pool a row that throws ends its batch, and the exception stays in the worker. *)
Fixpoint rows_until (fails : nat -> bool) (rows : list nat) : list nat * bool :=
  match rows with
  | [] => ([], false)
  | r :: q => if fails r then ([], true) else let (d, b) := rows_until fails q in (r :: d, b)
  end.
(** the rows done, and whether an exception leaves the call; [pool]: None without a pool, else which
    of the batches get a task *)
Definition parallel_for (pool : option (nat -> bool)) (n bs : nat) (fails : nat -> bool) : list nat * bool :=
  match pool with
  | None => rows_until fails (seq 0 n)
  | Some acc =>
      (concat (map (fun x => if acc (fst x) then fst (rows_until fails (snd x)) else [])
                   (combine (seq 0 n) (split_batches (seq 0 n) bs))), false)
  end.
(** VectorIndexHnsw::Upsert, vector_index_hnsw.cc:203-254, and Delete, :258-280, the same way: the rows added, and the status *)
(** some status that is not OK, for pb::error::EINTERNAL (vector_index_hnsw.cc:247-252) *)
Definition EINTERNAL : Z := 10000.
Definition hnsw_upsert (pool : option (nat -> bool)) (n bs : nat) (fails : nat -> bool) : list nat * Z :=
  let (d, x) := parallel_for pool n bs fails in (d, if x then EINTERNAL else 0%Z).

(** SearchByParallel, vector_index.cc:244-271, and RangeSearchByParallel, :273-301, the same way. [ans]: the answer for a query. Batch [index] puts its
    answers at [index + i]; batches in the order [order]. *)
Fixpoint place {A} (res : list (option A)) (at_ : nat) (part : list A) : list (option A) :=
  match part with
  | [] => res
  | x :: r => place (put res at_ (Some x)) (S at_) r
  end.
Definition search_parallel {Q A} (ans : Q -> A) (qs : list Q) (bs : nat) (order : list nat) : list (option A) :=
  let batches := split_batches qs bs in
  fold_left (fun res index => place res index (map ans (nth index batches []))) order (repeat None (length qs)).
