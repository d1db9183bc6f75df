(** Latches: common/latch.cc with the wait and wake-up loop around it (server/service_helper.cc
    421-443, meta/store_meta_manager.cc 387-402, common/synchronization.cc).

    Every command is a thread that takes one atomic step at a time; the steps are the critical
    sections of the slot mutexes and of the condition's mutex.  A command's identity ([who] / cid, the
    address of its condition) is its position in the list of threads.  keep_latches_for_next_cmd is
    never used by the callers and is left out. *)
From Coq Require Import ZArith List Bool Arith.
From Verif Require Import Outcome.
Import ListNotations.
Open Scope Z_scope.

(** Lock::Lock, common/latch.cc:67-74, on the hashes of the keys: std::sort, std::unique *)
Fixpoint insert (x : Z) (l : list Z) : list Z :=
  match l with
  | [] => [x]
  | y :: r => if x <? y then x :: l else if x =? y then l else y :: insert x r
  end.
Definition make_lock (hs : list Z) : list Z := fold_right insert [] hs.

(** Latch::waiting, common/latch.h:29: (hash, cid) *)
Definition queue := list (Z * nat).

(** Latch::GetFirstReqByHash, 30-37 *)
Fixpoint first_req (h : Z) (q : queue) : option nat :=
  match q with
  | [] => None
  | (x, c) :: r => if x =? h then Some c else first_req h r
  end.

(** Latch::MaybeShrink, 58-65 *)
Definition maybe_shrink (q : queue) : queue := filter (fun e => negb (fst e =? 0)) q.

(** the search loop of Latch::PopFront, 46-52 *)
Fixpoint erase_first (h : Z) (q : queue) : option (nat * queue) :=
  match q with
  | [] => None
  | (x, c) :: r => if x =? h then Some (c, r)
                   else match erase_first h r with Some (w, r') => Some (w, (x, c) :: r') | None => None end
  end.

(** Latch::PopFront, 39-54 *)
Definition pop_front (h : Z) (q : queue) : option (nat * queue) :=
  match q with
  | (x, c) :: r => if x =? h then Some (c, maybe_shrink r) else erase_first h q
  | [] => None
  end.

(** Latch::WaitForWake, 56 *)
Definition wait_for_wake (h : Z) (c : nat) (q : queue) : queue := q ++ [(h, c)].

(** where a command is:
    - [Acq i woken]: in Latches::Acquire, about to lock the slot of its i-th hash; [woken] says that this
      call of Acquire follows a wake-up;
    - [Wait i]: Acquire returned false with ownedCount = i; in or before IncreaseWait;
    - [Hold]: all latches acquired;
    - [Rel j wl]: in Latches::Release, about to lock the slot of its j-th hash, with the wake-up list so far;
    - [Sig wl d]: in Region::LatchesRelease, with the rest of the wake-up list; [d] is the command whose
      counter was decreased and whose condition is to be signalled;
    - [Done]: the request has ended and its condition is destroyed *)
Inductive phase :=
| Idle | Acq (i : nat) (woken : bool) | Wait (i : nat) | Hold
| Rel (j : nat) (wl : list nat) | Sig (wl : list nat) (d : option nat) | Done.

(** requiredHashes, the phase, and BthreadCond::count_ *)
Record thread := mkT { req : list Z; ph : phase; cnt : Z }.

(** the commands, the latch of every slot, and whether a destroyed condition was touched *)
Record lstate := mkL { ths : list thread; qs : Z -> queue; touched : bool }.

Definition set_ph (t : thread) (p : phase) : thread := mkT (req t) p (cnt t).

Fixpoint upd {A} (l : list A) (n : nat) (x : A) : list A :=
  match l, n with
  | [], _ => []
  | _ :: r, O => x :: r
  | a :: r, S m => a :: upd r m x
  end.

Definition setq (f : Z -> queue) (i : Z) (q : queue) : Z -> queue := fun j => if j =? i then q else f j.

Definition is_done (s : lstate) (c : nat) : bool :=
  match nth_error (ths s) c with Some t => match ph t with Done => true | _ => false end | None => true end.

Section Slots.
(** slots_size, a power of two (NextPowerOfTwo, 178-190) *)
Variable slots : Z.

(** Latches::GetSlot, 192-195 *)
Definition slot (h : Z) : Z := Z.land h (slots - 1).

(** one step of command c; [Ok None] if it cannot move *)
Definition lstep (s : lstate) (c : nat) : outcome (option lstate) :=
  match nth_error (ths s) c with
  | None => Ok None
  | Some t =>
    let go p := upd (ths s) c (set_ph t p) in
    match ph t with
    | Idle => Ok (Some (mkL (go (Acq 0 false)) (qs s) (touched s)))
    | Acq i w =>
        (* Latches::Acquire, 106-130 *)
        match nth_error (req t) i with
        | None => Ok (Some (mkL (go Hold) (qs s) (touched s)))
        | Some h =>
            let q := qs s (slot h) in
            match first_req h q with
            | Some who =>
                if (who =? c)%nat then Ok (Some (mkL (go (Acq (S i) false)) (qs s) (touched s)))
                else Ok (Some (mkL (go (Wait i)) (setq (qs s) (slot h) (wait_for_wake h c q)) (touched s)))
            | None => Ok (Some (mkL (go (Acq (S i) false)) (setq (qs s) (slot h) (wait_for_wake h c q)) (touched s)))
            end
        end
    | Wait i =>
        (* BthreadCond::IncreaseWait(0), synchronization.cc:73-87; then the loop of
           service_helper.cc:426-431 calls Acquire again *)
        if 0 <? cnt t + 1 then Ok None
        else Ok (Some (mkL (upd (ths s) c (mkT (req t) (Acq i true) (cnt t + 1))) (qs s) (touched s)))
    | Hold => Ok (Some (mkL (go (Rel 0 [])) (qs s) (touched s)))
    | Rel j wl =>
        (* Latches::Release, 132-176; the asserts are taken as aborts *)
        match nth_error (req t) j with
        | None => Ok (Some (mkL (go (Sig wl None)) (qs s) (touched s)))
        | Some h =>
            match pop_front h (qs s (slot h)) with
            | None => Crash
            | Some (front, q') =>
                if (front =? c)%nat then
                  Ok (Some (mkL (go (Rel (S j) (match first_req h q' with Some w => wl ++ [w] | None => wl end)))
                                (setq (qs s) (slot h) q') (touched s)))
                else Crash
            end
        end
    | Sig [] None => Ok (Some (mkL (go Done) (qs s) (touched s)))
    | Sig (c' :: wl) None =>
        (* BthreadCond::DecreaseSignal, synchronization.cc:42-45: the counter, under the mutex *)
        let l := go (Sig wl (Some c')) in
        match nth_error l c' with
        | Some t' => Ok (Some (mkL (upd l c' (mkT (req t') (ph t') (cnt t' - 1))) (qs s) (touched s || is_done s c')))
        | None => Crash
        end
    | Sig wl (Some c') =>
        (* line 47: bthread_cond_signal, after the mutex was released *)
        Ok (Some (mkL (go (Sig wl None)) (qs s) (touched s || is_done s c')))
    | Done => Ok None
    end
  end.

(** a schedule: which command moves next; a command that cannot move is skipped *)
Fixpoint lrun (s : lstate) (sched : list nat) : outcome lstate :=
  match sched with
  | [] => Ok s
  | c :: r => match lstep s c with
              | Ok (Some s') => lrun s' r
              | Ok None => lrun s r
              | Crash => Crash
              end
  end.

(** the same, but every command of the schedule must be able to move *)
Fixpoint lrun_all (s : lstate) (sched : list nat) : outcome (option lstate) :=
  match sched with
  | [] => Ok (Some s)
  | c :: r => match lstep s c with
              | Ok (Some s') => lrun_all s' r
              | Ok None => Ok None
              | Crash => Crash
              end
  end.
End Slots.

(** commands that have not started, given the hashes of their keys *)
Definition linit (reqs : list (list Z)) : lstate :=
  mkL (map (fun hs => mkT (make_lock hs) Idle 0) reqs) (fun _ => []) false.
