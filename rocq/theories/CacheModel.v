(** The timestamp cache of a store (mvcc/ts_provider.h, mvcc/ts_provider.cc): a lock-free list of batches
    taken from the oracle.

    Threads call GetTs (getters) or SetMinValidTs (setters); one worker pushes batches (the tasks of
    TsProvider::worker_ run one after another, common/runnable.h:82).  One step is one atomic access.
    Clock readings are inputs.  A batch is a heap cell; cells are numbered in the order in which they are
    pushed, cell 0 is the dummy of the constructor.

    Simplifications.  (1) Memory is never reused: a popped cell is deleted 3 s later (CleanDead, 187-218),
    the model assumes that no getter still uses it.  (2) The list of dead cells is not followed: a popped
    cell may be linked behind any popped cell without successor (PushDead, 158-185, links it behind the
    last one).  (3) BatchTsList::Flush has no caller. *)
From Coq Require Import ZArith List Bool Arith.
From Verif Require LatchModel.
Import ListNotations.
Open Scope Z_scope.
Notation upd := LatchModel.upd.

(** FLAGS_ts_provider_batch_ts_stale_interval_ms, ts_provider.cc:34 *)
Definition kStale : Z := 3000.

(** ComposeTs, 40 *)
Definition compose (p l : Z) : Z := p * 2 ^ 18 + l.

(** BatchTs, ts_provider.h:41-95.  [b_start]: the first timestamp of the batch, which the code overwrites
    (start_ts_ is [b_cur]); kept for the specification only. *)
Record batch := mkB { b_start : Z; b_cur : Z; b_end : Z; b_phys : Z; b_ctime : Z; b_next : option nat }.
(** BatchTs::BatchTs, 42-45 *)
Definition new_batch (p l count now : Z) : batch := mkB (compose p l) (compose p l) (compose p (l + count)) p now None.

(** a call of BatchTsList::GetTs(after), 121-156 *)
Inductive gphase :=
| GStart                                   (* before head_.load() *)
| GHead (h : nat)                          (* before tail_.load() *)
| GTail (h t : nat)                        (* before head->next.load() *)
| GNext (h t : nat) (nx : option nat)      (* before IsStale *)
| GTake (h t : nat) (nx : option nat)      (* before fetch_add *)
| GGot (h t : nat) (nx : option nat) (ts : Z) (* before min_valid_ts_.load() *)
| GMove (h t : nat) (nx : option nat)      (* no timestamp from this batch *)
| GDead (h : nat)                          (* popped h; before next.store(nullptr), 159 *)
| GLink (h : nat)                          (* before h is linked into the dead list *)
| GDone (ts : Z).
Record getter := mkGt { g_after : Z; g_ph : gphase }.

(** a call of SetMinValidTs(v), ts_provider.h:111-115 *)
Inductive sphase := SStart | SStore | SDone.
Record setter := mkSt { s_val : Z; s_ph : sphase }.

(** the worker: BatchTsList::Push, 81-108 *)
Inductive pphase :=
| PIdle
| PLoad (b : batch)                        (* before tail_.load() *)
| PTail (b : batch) (t : nat)              (* before tail->next.load() *)
| PNext (b : batch) (t : nat) (nx : option nat)   (* before the second tail_.load() *)
| PSwing (b : batch) (t x : nat)           (* before tail_ is moved on *)
| PCas (b : batch) (t : nat)               (* before the new cell is linked *)
| PLast (p : Z).                           (* before last_physical_.store() *)

Record cache := mkCa { heap : list batch; hd : nat; tl : nat; lastp : Z; minv : Z;
                       gets : list getter; sets : list setter; push : pphase }.

(** BatchTsList::IsStale, 110-119 *)
Definition stale (b : batch) (now last : Z) : bool := (b_ctime b + kStale <? now) || (b_phys b + kStale <? last).

Definition set_get (s : cache) (i : nat) (a : Z) (p : gphase) : cache :=
  mkCa (heap s) (hd s) (tl s) (lastp s) (minv s) (upd (gets s) i (mkGt a p)) (sets s) (push s).
Definition set_push (s : cache) (p : pphase) : cache :=
  mkCa (heap s) (hd s) (tl s) (lastp s) (minv s) (gets s) (sets s) p.
Definition set_heap (s : cache) (l : list batch) : cache :=
  mkCa l (hd s) (tl s) (lastp s) (minv s) (gets s) (sets s) (push s).
Definition set_hd (s : cache) (h : nat) : cache :=
  mkCa (heap s) h (tl s) (lastp s) (minv s) (gets s) (sets s) (push s).
Definition set_tl (s : cache) (t : nat) : cache :=
  mkCa (heap s) (hd s) t (lastp s) (minv s) (gets s) (sets s) (push s).

Definition with_next (b : batch) (n : option nat) : batch := mkB (b_start b) (b_cur b) (b_end b) (b_phys b) (b_ctime b) n.

(** choices: a getter, a setter or the worker moves.  [now]: the clock; [ok]: a weak compare-exchange does
    not fail spuriously; [d]: the dead cell to link behind. *)
Inductive choice :=
| CGet (i : nat) (now : Z) (ok : bool) (d : nat)
| CSet (i : nat)
| CBatch (p l count now : Z)               (* SendTsoRequest returned, 369-388; RenewBatchTs, 306-322 *)
| CPush (ok : bool).

Definition get_step (s : cache) (i : nat) (g : getter) (now : Z) (ok : bool) (d : nat) : option cache :=
  let a := g_after g in
  let go p := Some (set_get s i a p) in
  match g_ph g with
  | GStart => go (GHead (hd s))
  | GHead h => go (GTail h (tl s))
  | GTail h t => match nth_error (heap s) h with Some b => go (GNext h t (b_next b)) | None => None end
  | GNext h t nx =>
      match nth_error (heap s) h with
      | Some b => if stale b now (lastp s) then go (GMove h t nx) else go (GTake h t nx)
      | None => None
      end
  | GTake h t nx =>                        (* BatchTs::GetTs, ts_provider.h:66-69 *)
      match nth_error (heap s) h with
      | Some b => let ts := if b_cur b <? b_end b then b_cur b else 0 in
                  Some (set_get (set_heap s (upd (heap s) h (mkB (b_start b) (b_cur b + 1) (b_end b) (b_phys b) (b_ctime b) (b_next b)))) i a (GGot h t nx ts))
      | None => None
      end
  | GGot h t nx ts => if (a <? ts) && (0 <? ts) && (minv s <? ts) then go (GDone ts) else go (GMove h t nx)
  | GMove h t nx =>
      match nx with
      | None => go (GDone 0)
      | Some x =>
          if Nat.eqb h t
          then Some (set_get (if ok && Nat.eqb (tl s) t then set_tl s x else s) i a GStart)
          else if ok && Nat.eqb (hd s) h then Some (set_get (set_hd s x) i a (GDead h)) else go GStart
      end
  | GDead h =>
      match nth_error (heap s) h with
      | Some b => Some (set_get (set_heap s (upd (heap s) h (with_next b None))) i a (GLink h))
      | None => None
      end
  | GLink h =>
      if Nat.ltb d (hd s) then
        match nth_error (heap s) d with
        | Some b => match b_next b with
                    | None => Some (set_get (set_heap s (upd (heap s) d (with_next b (Some h)))) i a GStart)
                    | Some _ => None
                    end
        | None => None
        end
      else go GStart                       (* behind the dummy of the dead list *)
  | GDone _ => None
  end.

Definition push_step (s : cache) (ok : bool) : option cache :=
  match push s with
  | PIdle => None
  | PLoad b => Some (set_push s (PTail b (tl s)))
  | PTail b t => match nth_error (heap s) t with Some c => Some (set_push s (PNext b t (b_next c))) | None => None end
  | PNext b t nx =>
      if Nat.eqb (tl s) t then Some (set_push s (match nx with Some x => PSwing b t x | None => PCas b t end))
      else Some (set_push s (PLoad b))
  | PSwing b t x => Some (set_push (if ok && Nat.eqb (tl s) t then set_tl s x else s) (PLoad b))
  | PCas b t =>
      match nth_error (heap s) t with
      | None => None
      | Some c =>
          match b_next c with
          | None => if ok then Some (set_push (set_heap s (upd (heap s) t (with_next c (Some (length (heap s)))) ++ [b])) (PLast (b_phys b)))
                    else Some (set_push s (PLoad b))
          | Some _ => Some (set_push s (PLoad b))
          end
      end
  | PLast p => Some (mkCa (heap s) (hd s) (tl s) p (minv s) (gets s) (sets s) PIdle)
  end.

Definition cstep (s : cache) (c : choice) : option cache :=
  match c with
  | CGet i now ok d => match nth_error (gets s) i with Some g => get_step s i g now ok d | None => None end
  | CSet i =>
      match nth_error (sets s) i with
      | Some (mkSt v SStart) => Some (mkCa (heap s) (hd s) (tl s) (lastp s) (minv s) (gets s)
                                       (upd (sets s) i (mkSt v (if minv s <? v then SStore else SDone))) (push s))
      | Some (mkSt v SStore) => Some (mkCa (heap s) (hd s) (tl s) (lastp s) v (gets s) (upd (sets s) i (mkSt v SDone)) (push s))
      | _ => None
      end
  | CBatch p l count now => match push s with PIdle => Some (set_push s (PLoad (new_batch p l count now))) | _ => None end
  | CPush ok => push_step s ok
  end.

Fixpoint crun (s : cache) (sched : list choice) : cache :=
  match sched with
  | [] => s
  | c :: r => crun (match cstep s c with Some s' => s' | None => s end) r
  end.

(** BatchTsList::BatchTsList, 47-53; [now]: the clock *)
Definition cinit (now : Z) (afters : list Z) (mins : list Z) : cache :=
  mkCa [new_batch 0 0 0 now] 0 0 0 0 (map (fun a => mkGt a GStart) afters) (map (fun v => mkSt v SStart) mins) PIdle.
