(** What the statements about the lock, the pool and the parallel calls are written in. *)
From Coq Require Import ZArith List Bool Arith.
From Verif Require Import LkModel.
Import ListNotations.

(** * Lock *)
Definition does (s : sys) (i : nat) (t : thr) : Prop := nth_error (th s) i = Some t.
Definition reads (s : sys) (i : nat) : Prop := does s i Reading.
Definition writes (s : sys) (i : nat) : Prop := does s i Writing.
Definition wants_read (s : sys) (i : nat) : Prop := does s i RSleep \/ does s i RAwake.
Definition wants_write (s : sys) (i : nat) : Prop := does s i WSleep \/ does s i WAwake.
Definition sleeps (s : sys) (i : nat) : Prop := does s i RSleep \/ does s i WSleep.
Definition all_idle (s : sys) : Prop := forall i t, nth_error (th s) i = Some t -> t = Idle.
(** no new request and no waking by nobody: holders let go, woken threads look *)
Definition closing_lock (e : lev) : Prop :=
  match e with UnlockRead _ | UnlockWrite _ | Look _ => True | _ => False end.
(** every event of the list happens *)
Fixpoint l_all_happen (s : sys) (es : list lev) : Prop :=
  match es with [] => True | e :: r => lstep s e <> None /\ l_all_happen (lnext s e) r end.
Definition l_at_rest (s : sys) : Prop := forall e, closing_lock e -> lstep s e = None.

(** * Pool *)
Definition running (s : pool) : list nat :=
  flat_map (fun w => match w_pc w with PRun t => [t] | _ => [] end) (p_ws s).
(** no new call and no waking by nobody, and no function throws what is no std::exception *)
Definition closing (e : pev) : Prop :=
  match e with
  | ESubmit _ | EWakeUp _ | EAdjust _ | EDestroy | EJoinTask _ | EEnd _ ThrowsOther => False
  | _ => True
  end.
Fixpoint p_all_happen (s : pool) (es : list pev) : Prop :=
  match es with [] => True | e :: r => pstep s e <> None /\ p_all_happen (pnext s e) r end.
Definition p_at_rest (s : pool) : Prop := forall e, closing e -> pstep s e = None.
(** all tasks that were accepted have been run *)
Definition all_run (s : pool) : Prop := forall t, t < p_next s -> In t (p_done s).
Definition has_worker (s : pool) : Prop := exists w, In w (p_ws s) /\ w_stop w = false.
